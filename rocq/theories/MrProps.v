(** * Element restrictions on the memcheck backend (C59) and at-points queries (C60) *)
From Coq Require Import List ZArith Lia Bool Arith Ring.
From Verif Require Import Prelude Adds RstrModel RstrSpec RstrProofs RstrKernels RstrMain RstrPoints RstrProps MrModel.
Import ListNotations.
Set Implicit Arguments.

(** ** The description with the memcheck strides written out *)
Definition is_bk (d : udesc) : bool :=
  match u_kind d with UStrided s0 s1 s2 => backend_strides s0 s1 s2 | _ => false end.
(** What the user would have to pass on ref to get the L-vector order of memcheck: the documented strides
    of CeedElemRestrictionGetLLayout. *)
Definition mc_desc (d : udesc) : udesc :=
  if is_bk d
  then mkU (u_ne d) (u_es d) (u_nc d) (u_cs d) (u_lsize d) (UStrided (Z.of_nat (u_nc d)) 1 (Z.of_nat (u_nc d * u_es d)))
  else d.
Definition mc_of (r : rstr) : rstr :=
  match r_kind r with
  | KStrided true _ _ _ =>
      mkRstr (r_ne r) (r_es r) (r_nc r) (r_cs r) (r_lsize r) (r_esize r) (r_nb r) (r_bs r)
             (KStrided false (Z.of_nat (r_nc r)) 1 (Z.of_nat (r_nc r * r_es r)))
  | _ => r
  end.

Lemma mc_desc_fields : forall d, u_ne (mc_desc d) = u_ne d /\ u_es (mc_desc d) = u_es d /\ u_nc (mc_desc d) = u_nc d /\
  u_lsize (mc_desc d) = u_lsize d.
Proof. intros d. unfold mc_desc. destruct (is_bk d); auto. Qed.
Lemma mc_of_fields : forall r, r_ne (mc_of r) = r_ne r /\ r_es (mc_of r) = r_es r /\ r_nc (mc_of r) = r_nc r /\
  r_bs (mc_of r) = r_bs r /\ r_nb (mc_of r) = r_nb r /\ r_lsize (mc_of r) = r_lsize r /\ r_esize (mc_of r) = r_esize r.
Proof. intros r. unfold mc_of. destruct (r_kind r) as [[|]| | | |]; repeat split. Qed.

Lemma epos_mc : forall d bs el k n, epos (mc_desc d) bs el k n = epos d bs el k n.
Proof. intros. unfold epos. destruct (mc_desc_fields d) as (_ & -> & -> & _). reflexivity. Qed.
Lemma nblocks_mc : forall d bs, nblocks (mc_desc d) bs = nblocks d bs.
Proof. intros. unfold nblocks. destruct (mc_desc_fields d) as (-> & _). reflexivity. Qed.

Lemma mc_lengths : forall d, lengths_ok d -> lengths_ok (mc_desc d).
Proof. intros d H. unfold mc_desc. destruct (is_bk d); auto. exact I. Qed.
Lemma mc_curl : forall w d, curl_ok w d -> curl_ok w (mc_desc d).
Proof. intros w d H. unfold mc_desc. destruct (is_bk d); auto. exact I. Qed.

Lemma create_pos : forall chk d bs r, rstr_create chk d bs = Ok r -> 0 < u_es d /\ 0 < u_nc d /\
  match u_kind d with UStrided _ _ _ => u_ne d * u_es d * u_nc d <= u_lsize d | _ => True end.
Proof.
  intros chk d bs r H. unfold rstr_create in H.
  assert (Hc : check_dims d bs = None).
  { destruct bs as [[|b]|]; try discriminate; destruct (check_dims d _) eqn:E; auto; discriminate. }
  unfold check_dims in Hc.
  destruct (Nat.eqb_spec (u_es d) 0); [discriminate|].
  destruct (match bs with Some 0 => true | _ => false end); [discriminate|].
  destruct (Nat.eqb_spec (u_nc d) 0); [discriminate|].
  split; [lia|]. split; [lia|].
  destruct (u_kind d); auto. destruct (Nat.ltb_spec (u_lsize d) (u_ne d * u_es d * u_nc d)); [discriminate|auto].
Qed.

Lemma create_mc : forall d bs r, mc_create d bs = Ok r -> rstr_create true (mc_desc d) bs = Ok (mc_of r).
Proof.
  intros d bs r H. unfold mc_create in H. pose proof (@create_pos _ _ _ _ H) as (P1 & P2 & P3).
  unfold mc_desc. destruct (is_bk d) eqn:B.
  - unfold is_bk in B. destruct (u_kind d) as [s0 s1 s2| | |] eqn:K; try discriminate.
    unfold rstr_create in *. unfold check_dims in *. unfold make_kind in *. rewrite K in H. rewrite B in H.
    cbn [u_ne u_es u_nc u_cs u_lsize u_kind] in *.
    assert (B' : backend_strides (Z.of_nat (u_nc d)) 1 (Z.of_nat (u_nc d * u_es d)) = false).
    { unfold backend_strides. cbn. rewrite andb_false_r. reflexivity. }
    rewrite B'.
    destruct bs as [[|b]|]; try discriminate;
    destruct (u_es d =? 0); try discriminate; destruct (u_nc d =? 0); try discriminate;
    destruct (u_lsize d <? u_ne d * u_es d * u_nc d); try discriminate;
    cbn [kind_offsets] in *; inversion H; subst r; reflexivity.
  - replace (mc_of r) with r; auto.
    unfold mc_of. destruct (r_kind r) as [[|] s0 s1 s2| | | |] eqn:K; auto. exfalso.
    assert (M : exists nb, make_kind d bs nb = Some (KStrided true s0 s1 s2)).
    { unfold rstr_create in H. rewrite <- K.
      destruct bs as [[|b]|]; try discriminate; destruct (check_dims d _); try discriminate;
      match type of H with context[make_kind d ?x ?y] => exists y; destruct (make_kind d x y) as [k|]; [|discriminate] end;
      (destruct (kind_offsets k); [destruct (offsets_check _ _ _ _ _ _ _); try discriminate|]); inversion H; reflexivity. }
    destruct M as (nb & M). unfold make_kind in M. unfold is_bk in B.
    destruct (u_kind d) as [a0 a1 a2|o|o ors|o co].
    + rewrite B in M. discriminate.
    + destruct (perm_opt _ _ _ _ _ _); discriminate.
    + destruct (perm_opt _ _ _ _ o _); [|discriminate]. cbn [bind] in M. destruct (perm_opt _ _ _ _ ors _); discriminate.
    + destruct (perm_opt _ _ _ _ o _); [|discriminate]. cbn [bind] in M. destruct (perm_opt _ _ _ _ co _); discriminate.
Qed.

(** Every index of a restriction with backend strides is in range, on both backends. *)
Lemma bk_range : forall d chk bs r, rstr_create chk d bs = Ok r -> is_bk d = true -> in_range d /\ in_range (mc_desc d).
Proof.
  intros d chk bs r H B. pose proof (@create_pos _ _ _ _ H) as (P1 & P2 & P3).
  unfold mc_desc. rewrite B. unfold is_bk in B.
  destruct (u_kind d) as [s0 s1 s2| | |] eqn:K; try discriminate.
  split; intros el k m Hel Hk Hm; unfold col.
  - rewrite K, B. pose proof (@enc_lt k m (u_nc d) (u_es d) Hk Hm) as A1.
    pose proof (@enc_lt el (k * u_es d + m) (u_ne d) (u_nc d * u_es d) Hel A1) as A2.
    replace (u_ne d * (u_nc d * u_es d)) with (u_ne d * u_es d * u_nc d) in A2 by ring.
    replace (u_es d * u_nc d) with (u_nc d * u_es d) by ring. lia.
  - cbn [u_ne u_es u_nc u_kind u_lsize] in *.
    assert (B' : backend_strides (Z.of_nat (u_nc d)) 1 (Z.of_nat (u_nc d * u_es d)) = false).
    { unfold backend_strides. cbn. rewrite andb_false_r. reflexivity. }
    rewrite B'.
    pose proof (@enc_lt m k (u_es d) (u_nc d) Hm Hk) as A1.
    pose proof (@enc_lt el (m * u_nc d + k) (u_ne d) (u_es d * u_nc d) Hel A1) as A2.
    replace (u_ne d * (u_es d * u_nc d)) with (u_ne d * u_es d * u_nc d) in A2 by ring.
    replace (Z.of_nat m * Z.of_nat (u_nc d) + Z.of_nat k * 1 + Z.of_nat el * Z.of_nat (u_nc d * u_es d))%Z
      with (Z.of_nat (el * (u_es d * u_nc d) + (m * u_nc d + k))) by (rewrite !Nat2Z.inj_add, !Nat2Z.inj_mul; ring).
    lia.
Qed.
Lemma mc_range : forall d chk bs r, rstr_create chk d bs = Ok r -> in_range d -> in_range (mc_desc d).
Proof.
  intros d chk bs r H Hr. destruct (is_bk d) eqn:B.
  - eapply bk_range; eauto.
  - unfold mc_desc. rewrite B. auto.
Qed.

(** ** The operations of memcheck are those of ref on the rewritten restriction, on an invalidated array *)
Section Tr.
Variable R : Rng.
Variable nan : R.
Definition inval (tm : tmode) (v : list R) : list R := match tm with NoTranspose => repeat nan (length v) | Transpose => v end.
Lemma inval_len : forall tm v, length (inval tm v) = length v.
Proof. intros [|] v; simpl; auto. apply repeat_length. Qed.
Lemma mc_core_eq : forall r start stop tm us uo u v,
  mc_core nan r start stop tm us uo u v = apply_core (mc_of r) start stop tm us uo u (inval tm v).
Proof.
  intros. unfold mc_core, apply_core, mc_of, inval.
  destruct (r_kind r) as [[|] s0 s1 s2| | | |] eqn:K; destruct tm; cbn [r_ne r_es r_nc r_cs r_bs r_kind]; try rewrite K; reflexivity.
Qed.
Lemma mc_apply_eq : forall w r tm u v, 0 < r_ne r ->
  mc_apply nan w r tm u v = rstr_apply w (mc_of r) tm u (inval tm v).
Proof.
  intros w r tm u v Hne. unfold mc_apply, rstr_apply.
  destruct (mc_of_fields r) as (-> & _ & _ & _ & -> & -> & ->). rewrite inval_len.
  destruct tm; rewrite mc_core_eq; destruct (Nat.ltb_spec 0 (r_ne r)); try lia; reflexivity.
Qed.
Lemma mc_block_eq : forall w r b tm u v,
  mc_apply_block nan w r b tm u v = rstr_apply_block w (mc_of r) b tm u (inval tm v).
Proof.
  intros. unfold mc_apply_block, rstr_apply_block.
  destruct (mc_of_fields r) as (-> & -> & -> & -> & _ & -> & _). rewrite inval_len.
  destruct tm; rewrite mc_core_eq; reflexivity.
Qed.
End Tr.
Arguments inval {R}. Arguments inval_len {R}. Arguments mc_apply_eq {R}. Arguments mc_block_eq {R}.

(** ** C59: gather, transpose, adjointness, bounds and multiplicity on memcheck *)
Lemma create_ne : forall chk d bs r, lengths_ok d -> rstr_create chk d bs = Ok r -> r_ne r = u_ne d.
Proof. intros chk d bs r Hl H. exact (rp_ne (create_repr Hl H)). Qed.

Theorem C59_gather : forall (R : Rng) (nan : R) d bs r w (u v : list R),
  lengths_ok d -> mc_create d bs = Ok r -> in_range d -> curl_ok w d ->
  u_lsize d <= length u -> r_esize r <= length v ->
  exists v', mc_apply nan w r NoTranspose u v = Ok v' /\ length v' = length v /\
   (forall el k n, el < u_ne d -> k < u_nc d -> n < u_es d ->
      vf v' (epos d (bsize bs) el k n) = Eval w (mc_desc d) u el k n) /\
   (forall el k n, 0 < u_ne d -> u_ne d <= el < nblocks d bs * bsize bs -> k < u_nc d -> n < u_es d ->
      vf v' (epos d (bsize bs) el k n) = Eval w (mc_desc d) u (u_ne d - 1) k n) /\
   (* an empty restriction does nothing; otherwise what the E-vector does not cover is lost *)
   (u_ne d = 0 -> v' = v) /\
   (0 < u_ne d -> forall i, r_esize r <= i < length v -> vf v' i = nan).
Proof.
  intros R nan d bs r w u v Hl Hcr Hr Hc Hu Hv.
  pose proof (@create_mc _ _ _ Hcr) as Hm. pose proof (@create_ne _ _ _ _ Hl Hcr) as Ene.
  destruct (mc_desc_fields d) as (F1 & F2 & F3 & F4). destruct (mc_of_fields r) as (G1 & _ & _ & _ & _ & _ & G7).
  destruct (Nat.eq_dec (u_ne d) 0) as [Z0|NZ].
  - exists v. unfold mc_apply. pose proof (create_repr Hl Hcr) as Hrep. rewrite (rp_ls Hrep), Ene, Z0.
    apply Nat.leb_le in Hu. apply Nat.leb_le in Hv. rewrite Hu, Hv. cbn [negb Nat.ltb Nat.leb].
    repeat split; auto; intros; lia.
  - rewrite mc_apply_eq by lia.
    destruct (@C08_gather R true (mc_desc d) bs (mc_of r) w u (inval nan NoTranspose v)) as (v' & E & L & A & B & C); auto.
    + apply mc_lengths; auto. + eapply mc_range; eauto. + apply mc_curl; auto. + lia. + rewrite inval_len. lia.
    + exists v'. split; auto. rewrite inval_len in L. split; auto.
      rewrite F1, F2, F3, nblocks_mc in *. split; [|split; [|split]].
      * intros el k n P1 P2 P3. rewrite <- epos_mc. auto.
      * intros el k n _ P1 P2 P3. rewrite <- epos_mc. auto.
      * lia.
      * intros _ i Hi. rewrite C by lia. unfold inval, vf.
        assert (X : forall n j, j < n -> nth j (repeat nan n) 0%R = nan).
        { induction n as [|n IH]; intros j Hj; [lia|]. destruct j; simpl; auto. apply IH. lia. }
        apply X. lia.
Qed.
Print Assumptions C59_gather.

Theorem C59_transpose_adds : forall (R : Rng) (nan : R) d bs r w (u v : list R),
  lengths_ok d -> mc_create d bs = Ok r -> in_range d -> curl_ok w d ->
  r_esize r <= length u -> u_lsize d <= length v ->
  exists v', mc_apply nan w r Transpose u v = Ok v' /\ length v' = length v /\
   forall q, vf v' q = (vf v q + Lval w (mc_desc d) (fun el k n => vf u (epos d (bsize bs) el k n)) q)%R.
Proof.
  intros R nan d bs r w u v Hl Hcr Hr Hc Hu Hv.
  pose proof (@create_mc _ _ _ Hcr) as Hm. pose proof (@create_ne _ _ _ _ Hl Hcr) as Ene.
  destruct (mc_desc_fields d) as (F1 & F2 & F3 & F4). destruct (mc_of_fields r) as (G1 & _ & _ & _ & _ & _ & G7).
  destruct (Nat.eq_dec (u_ne d) 0) as [Z0|NZ].
  - exists v. unfold mc_apply. pose proof (create_repr Hl Hcr) as Hrep. rewrite (rp_ls Hrep), Ene, Z0.
    apply Nat.leb_le in Hu. apply Nat.leb_le in Hv. rewrite Hu, Hv. cbn [negb Nat.ltb Nat.leb].
    split; auto. split; auto. intros q. unfold Lval. rewrite F1, Z0, sumn_0.
    destruct (r_th R) as [H0 Hcm _ _ _ _ _ _ _]. rewrite Hcm. symmetry. apply H0.
  - rewrite mc_apply_eq by lia. unfold inval.
    destruct (@C09_transpose_adds R true (mc_desc d) bs (mc_of r) w u v) as (v' & E & L & A); auto.
    + apply mc_lengths; auto. + eapply mc_range; eauto. + apply mc_curl; auto. + lia. + lia.
    + exists v'. split; auto. split; auto. intros q. rewrite A. f_equal.
      unfold Lval. rewrite F1, F2, F3. apply sumn_ext. intros el _. apply sumn_ext. intros k _.
      apply sumn_ext. intros n _. apply sumn_ext. intros m _. rewrite epos_mc. reflexivity.
Qed.
Print Assumptions C59_transpose_adds.

Theorem C59_adjoint : forall (R : Rng) (nan : R) d bs r w (x y v0 ex ly : list R),
  lengths_ok d -> mc_create d bs = Ok r -> in_range d -> curl_ok w d ->
  u_lsize d <= length x -> r_esize r <= length y -> r_esize r <= length v0 ->
  mc_apply nan w r NoTranspose x v0 = Ok ex ->
  mc_apply nan w r Transpose y (repeat 0%R (length x)) = Ok ly ->
  sumn (u_ne d) (fun el => sumn (u_nc d) (fun k => sumn (u_es d) (fun n =>
     (vf ex (epos d (bsize bs) el k n) * vf y (epos d (bsize bs) el k n))%R)))
  = dot (length x) (vf x) (vf ly).
Proof.
  intros R nan d bs r w x y v0 ex ly Hl Hcr Hr Hc Hx Hy Hv0 E1 E2.
  destruct (mc_desc_fields d) as (F1 & F2 & F3 & F4).
  destruct (@C59_gather R nan d bs r w x v0 Hl Hcr Hr Hc Hx Hv0) as (ex' & E1' & _ & Hin & _).
  destruct (@C59_transpose_adds R nan d bs r w y (repeat 0%R (length x)) Hl Hcr Hr Hc Hy) as (ly' & E2' & _ & Hq).
  { rewrite repeat_length. auto. }
  rewrite E1 in E1'. rewrite E2 in E2'. inversion E1'; inversion E2'; subst ex' ly'.
  unfold dot.
  rewrite sumn_ext with (n := length x) (g := fun q => (vf x q * Lval w (mc_desc d) (fun el k n => vf y (epos d (bsize bs) el k n)) q)%R).
  - rewrite Eval_Lval_adjoint; [|eapply mc_range; eauto|lia]. rewrite F1, F2, F3.
    apply sumn_ext. intros el Hel. apply sumn_ext. intros k Hk. apply sumn_ext. intros n Hn.
    rewrite Hin by auto. reflexivity.
  - intros q Hq'. rewrite Hq. f_equal. unfold vf at 1. rewrite nth_repeat.
    destruct (r_th R) as [H0 _ _ _ _ _ _ _ _]. apply H0.
Qed.
Print Assumptions C59_adjoint.

Theorem C59_in_bounds : forall (R : Rng) (nan : R) d bs r w tm (u v : list R),
  lengths_ok d -> mc_create d bs = Ok r -> in_range d -> curl_ok w d ->
  mc_apply nan w r tm u v <> UB /\
  (curl_ok Signed d -> forall b, b < r_nb r -> mc_apply_block nan w r b tm u v <> UB).
Proof.
  intros R nan d bs r w tm u v Hl Hcr Hr Hc. pose proof (@create_mc _ _ _ Hcr) as Hm.
  destruct (mc_of_fields r) as (_ & _ & _ & _ & G5 & _). split.
  - destruct (Nat.eq_dec (r_ne r) 0) as [Z0|NZ].
    + unfold mc_apply. rewrite Z0. destruct tm; cbn [Nat.ltb Nat.leb];
      repeat match goal with |- context[if ?b then _ else _] => destruct b end; discriminate.
    + rewrite mc_apply_eq by lia.
      eapply C10_in_bounds; [apply mc_lengths, Hl|exact Hm|eapply mc_range; [exact Hcr|exact Hr]|apply mc_curl, Hc].
  - intros Hs b Hb. rewrite mc_block_eq.
    eapply C10_block_in_bounds; [apply mc_lengths, Hl|exact Hm|eapply mc_range; [exact Hcr|exact Hr]|apply mc_curl, Hs|lia].
Qed.
Print Assumptions C59_in_bounds.

(** Applying one block gives that block of the whole E-vector. *)
Theorem C59_block_gather : forall (R : Rng) (nan : R) d bs r b (u v vb e : list R),
  lengths_ok d -> mc_create d bs = Ok r -> in_range d -> curl_ok Signed d ->
  length u = u_lsize d -> length v = r_esize r -> length vb = r_bs r * u_es d * u_nc d -> b < r_nb r ->
  0 < u_ne d ->
  mc_apply nan Signed r NoTranspose u v = Ok e ->
  mc_apply_block nan Signed r b NoTranspose u vb = Ok (slice (r_bs r * u_es d * u_nc d) b e).
Proof.
  intros R nan d bs r b u v vb e Hl Hcr Hr Hc Hu Hv Hvb Hb Hne E.
  pose proof (@create_mc _ _ _ Hcr) as Hm. pose proof (@create_ne _ _ _ _ Hl Hcr) as Ene.
  destruct (mc_desc_fields d) as (F1 & F2 & F3 & F4). destruct (mc_of_fields r) as (_ & _ & _ & G4 & G5 & _ & G7).
  rewrite mc_apply_eq in E by lia. rewrite mc_block_eq. rewrite <- G4, <- F2, <- F3.
  eapply C11_block_gather with (d := mc_desc d) (v := inval nan NoTranspose v); [apply mc_lengths, Hl|exact Hm|eapply mc_range; [exact Hcr|exact Hr]|apply mc_curl, Hc| | | | |exact E].
  - congruence. - rewrite inval_len; congruence. - rewrite inval_len; congruence. - congruence.
Qed.
Print Assumptions C59_block_gather.

Theorem C59_multiplicity : forall (R : Rng) (nan : R) d bs r w n (junk : list R),
  lengths_ok d -> mc_create d bs = Ok r -> in_range d ->
  match u_kind d with UCurl _ _ => v_orients w = false | _ => True end ->
  u_lsize d <= n -> length junk = r_esize r ->
  exists m, mc_multiplicity nan w r n junk = Ok m /\ length m = n /\
    forall q, vf m q = natR R (refcount (mc_desc d) q).
Proof.
  intros R nan d bs r w n junk Hl Hcr Hr Hk Hn Hj. pose proof (@create_mc _ _ _ Hcr) as Hm. pose proof (@create_ne _ _ _ _ Hl Hcr) as Ene.
  destruct (mc_desc_fields d) as (F1 & F2 & F3 & F4). destruct (mc_of_fields r) as (G1 & _ & _ & G4 & G5 & _ & G7).
  destruct (Nat.eq_dec (r_ne r) 0) as [Z0|NZ].
  - exists (repeat 0%R n). unfold mc_multiplicity, mc_apply. pose proof (create_repr Hl Hcr) as Hrep.
    rewrite (rp_ls Hrep), Z0, !repeat_length, Hj.
    apply Nat.leb_le in Hn. rewrite Hn, Nat.leb_refl. cbn [negb Nat.ltb Nat.leb]. rewrite Hj, Nat.leb_refl. cbn [negb].
    split; auto. split; [auto|]. intros q. unfold refcount. rewrite F1.
    replace (u_ne d) with 0 by lia. cbn. unfold vf. apply nth_repeat.
  - assert (E : mc_multiplicity nan w r n junk = rstr_multiplicity w (mc_of r) n (inval nan NoTranspose junk)).
    { unfold mc_multiplicity, rstr_multiplicity. rewrite mc_apply_eq by lia.
      destruct (rstr_apply w (mc_of r) NoTranspose (repeat 1%R n) (inval nan NoTranspose junk)); auto.
      rewrite mc_apply_eq by lia. reflexivity. }
    rewrite E. eapply C12_multiplicity; [apply mc_lengths, Hl|exact Hm|eapply mc_range; [exact Hcr|exact Hr]| | |].
    + unfold mc_desc. destruct (is_bk d) eqn:B; auto. exact I.
    + lia.
    + rewrite inval_len. congruence.
Qed.
Print Assumptions C59_multiplicity.

(** ** C59: both backends, seen through the layouts they report *)
Definition create_on (b : backend) (chk : bool) (d : udesc) (bs : option nat) : res rstr :=
  match b with Ref => rstr_create chk d bs | Memcheck => mc_create d bs end.
Definition apply_on {R : Rng} (b : backend) (nan : R) (w : variant) (r : rstr) (tm : tmode) (u v : list R) : res (list R) :=
  match b with Ref => rstr_apply w r tm u v | Memcheck => mc_apply nan w r tm u v end.
(** Entry named by a layout for node [n], component [k], element [el]. *)
Definition at_layout (l : Z * Z * Z) (el k n : nat) : nat :=
  let '(l0, l1, l2) := l in Z.to_nat (Z.of_nat n * l0 + Z.of_nat k * l1 + Z.of_nat el * l2).

Definition desc_on (b : backend) (d : udesc) : udesc := match b with Ref => d | Memcheck => mc_desc d end.

Lemma create_on_ref : forall b chk d bs r, create_on b chk d bs = Ok r -> exists c, rstr_create c d bs = Ok r.
Proof. intros [|] chk d bs r H; [exists chk|exists true]; exact H. Qed.

Lemma layout_col : forall b chk d bs r s0 s1 s2, u_kind d = UStrided s0 s1 s2 -> create_on b chk d bs = Ok r ->
  exists l, get_llayout b r = Ok l /\
    forall el k n, let '(l0, l1, l2) := l in col (desc_on b d) el k n = (Z.of_nat n * l0 + Z.of_nat k * l1 + Z.of_nat el * l2)%Z.
Proof.
  intros b chk d bs r s0 s1 s2 K H. destruct (@create_on_ref _ _ _ _ _ H) as (c & H').
  pose proof (@create_pos _ _ _ _ H') as (P1 & P2 & _).
  assert (X : r_kind r = KStrided (backend_strides s0 s1 s2) s0 s1 s2 /\ r_es r = u_es d /\ r_nc r = u_nc d).
  { unfold rstr_create in H'. destruct bs as [[|q]|]; try discriminate; destruct (check_dims d _); try discriminate;
    unfold make_kind in H'; rewrite K in H'; cbn [kind_offsets] in H'; inversion H'; auto. }
  destruct X as (X1 & X2 & X3). unfold get_llayout, l_layout_field. rewrite X1, X2, X3.
  unfold desc_on, mc_desc, is_bk. rewrite K. destruct (backend_strides s0 s1 s2) eqn:B.
  - destruct b.
    + cbn [Z.eqb]. eexists. split; [reflexivity|]. cbn beta iota. intros el k n. unfold col. rewrite K, B.
      rewrite !Nat2Z.inj_add, !Nat2Z.inj_mul. ring.
    + unfold mc_strides. destruct (Z.eqb_spec (Z.of_nat (u_nc d)) 0) as [Q|Q]; [lia|].
      eexists. split; [reflexivity|]. cbn beta iota. intros el k n. unfold col. cbn [u_kind].
      assert (B' : backend_strides (Z.of_nat (u_nc d)) 1 (Z.of_nat (u_nc d * u_es d)) = false).
      { unfold backend_strides. cbn. rewrite andb_false_r. reflexivity. }
      rewrite B'. reflexivity.
  - eexists. split; [reflexivity|]. cbn beta iota. intros el k n. destruct b; unfold col; rewrite K, B; reflexivity.
Qed.

Lemma desc_fields : forall b d, u_ne (desc_on b d) = u_ne d /\ u_es (desc_on b d) = u_es d /\ u_nc (desc_on b d) = u_nc d /\
  u_lsize (desc_on b d) = u_lsize d.
Proof. intros [|] d; simpl; auto. apply mc_desc_fields. Qed.

Lemma strided_coef : forall (R : Rng) w b d s0 s1 s2 el n m, u_kind d = UStrided s0 s1 s2 ->
  coef R w (desc_on b d) el n m = delta (n =? m) 1%R.
Proof.
  intros R w b d s0 s1 s2 el n m K. unfold coef, desc_on, mc_desc, is_bk. rewrite K.
  destruct b; [rewrite K; reflexivity|]. destruct (backend_strides s0 s1 s2); cbn [u_kind]; [reflexivity|rewrite K; reflexivity].
Qed.

(** Gather: the E-vector entry of (node, component, element) is the L-vector entry that the reported
    L-layout names, on both backends, for user strides and for backend strides. *)
Theorem C59_layout_gather : forall (R : Rng) (nan : R) b chk d bs r w s0 s1 s2 (u v : list R),
  u_kind d = UStrided s0 s1 s2 -> create_on b chk d bs = Ok r ->
  in_range d \/ backend_strides s0 s1 s2 = true ->
  u_lsize d <= length u -> r_esize r <= length v ->
  exists l v', get_llayout b r = Ok l /\ apply_on b nan w r NoTranspose u v = Ok v' /\ length v' = length v /\
   forall el k n, el < u_ne d -> k < u_nc d -> n < u_es d ->
      vf v' (epos d (bsize bs) el k n) = vf u (at_layout l el k n).
Proof.
  intros R nan b chk d bs r w s0 s1 s2 u v K H Hr Hu Hv.
  destruct (@layout_col b chk d bs r s0 s1 s2 K H) as (l & El & Hcol). exists l.
  destruct (@create_on_ref _ _ _ _ _ H) as (c & H').
  assert (Hr' : in_range d).
  { destruct Hr as [Hr|Hr]; auto. eapply bk_range; [exact H'|]. unfold is_bk. rewrite K. exact Hr. }
  assert (Hl : lengths_ok d) by (unfold lengths_ok; rewrite K; exact I).
  assert (Hc : curl_ok w d) by (unfold curl_ok; rewrite K; exact I).
  assert (G : exists v', apply_on b nan w r NoTranspose u v = Ok v' /\ length v' = length v /\
    forall el k n, el < u_ne d -> k < u_nc d -> n < u_es d -> vf v' (epos d (bsize bs) el k n) = Eval w (desc_on b d) u el k n).
  { destruct b; cbn [apply_on desc_on].
    - destruct (@C08_gather R c d bs r w u v Hl H' Hr' Hc Hu Hv) as (v' & A & B & C & _). exists v'. auto.
    - destruct (@C59_gather R nan d bs r w u v Hl H Hr' Hc Hu Hv) as (v' & A & B & C & _). exists v'. auto. }
  destruct G as (v' & E & L & G). exists v'. split; auto. split; auto. split; auto.
  intros el k n H1 H2 H3. rewrite G by auto. destruct (desc_fields b d) as (F1 & F2 & F3 & F4).
  rewrite Eval_diag with (c := 1%R).
  - destruct (r_th R) as [_ _ _ Hone _ _ _ _ _]. rewrite Hone. f_equal.
    specialize (Hcol el k n). unfold at_layout. destruct l as ((l0 & l1) & l2). rewrite Hcol. reflexivity.
  - lia.
  - intros m Hm. eapply strided_coef; eauto.
Qed.
Print Assumptions C59_layout_gather.

Lemma sumn_one : forall (R : Rng) N i (f : nat -> R), i < N -> (forall j, j < N -> j <> i -> f j = 0%R) -> sumn N f = f i.
Proof.
  intros R N i f Hi Hz. rewrite sumn_ext with (g := fun j => delta (j =? i) (f j)).
  - rewrite sumn_delta. apply Nat.ltb_lt in Hi. rewrite Hi. reflexivity.
  - intros j Hj. destruct (Nat.eqb_spec j i); simpl; auto.
Qed.

(** The documented L-layouts of backend strides name distinct entries. *)
Lemma bk_col_inj : forall b d s0 s1 s2 el k n el' k' n', u_kind d = UStrided s0 s1 s2 -> backend_strides s0 s1 s2 = true ->
  el < u_ne d -> k < u_nc d -> n < u_es d -> el' < u_ne d -> k' < u_nc d -> n' < u_es d ->
  col (desc_on b d) el k n = col (desc_on b d) el' k' n' -> el = el' /\ k = k' /\ n = n'.
Proof.
  intros b d s0 s1 s2 el k n el' k' n' K B A1 A2 A3 A4 A5 A6.
  assert (dec : forall x y X Y x' y', y < Y -> y' < Y -> x < X -> x' < X -> x * Y + y = x' * Y + y' -> x = x' /\ y = y').
  { intros x y X Y x' y' Q1 Q2 _ _ E. pose proof (@div_enc x Y y Q1) as D1. pose proof (@mod_enc x Y y Q1) as D2.
    pose proof (@div_enc x' Y y' Q2) as D3. pose proof (@mod_enc x' Y y' Q2) as D4. rewrite E in D1, D2. split; congruence. }
  unfold desc_on, mc_desc, is_bk. rewrite K, B. destruct b; unfold col.
  - rewrite K, B. intros E. apply Nat2Z.inj in E.
    destruct (@dec el (k * u_es d + n) (u_ne d) (u_nc d * u_es d) el' (k' * u_es d + n')) as (E1 & E2); auto;
      try (apply enc_lt; auto); [rewrite (Nat.mul_comm (u_nc d)); lia|].
    destruct (@dec k n (u_nc d) (u_es d) k' n') as (E3 & E4); auto.
  - cbn [u_kind].
    assert (B' : backend_strides (Z.of_nat (u_nc d)) 1 (Z.of_nat (u_nc d * u_es d)) = false).
    { unfold backend_strides. cbn. rewrite andb_false_r. reflexivity. }
    rewrite B'. intros E.
    assert (E' : el * (u_es d * u_nc d) + (n * u_nc d + k) = el' * (u_es d * u_nc d) + (n' * u_nc d + k')).
    { apply Nat2Z.inj. rewrite !Nat2Z.inj_add, !Nat2Z.inj_mul. rewrite !Nat2Z.inj_mul in E. lia. }
    destruct (@dec el (n * u_nc d + k) (u_ne d) (u_es d * u_nc d) el' (n' * u_nc d + k')) as (E1 & E2); auto;
      try (apply enc_lt; auto).
    destruct (@dec n k (u_es d) (u_nc d) n' k') as (E3 & E4); auto.
Qed.

(** Transpose with backend strides: each L-vector entry the layout names receives exactly the E-vector entry
    of the same (node, component, element); no other entry changes. *)
Theorem C59_layout_transpose : forall (R : Rng) (nan : R) b chk d bs r w s0 s1 s2 (u v : list R),
  u_kind d = UStrided s0 s1 s2 -> backend_strides s0 s1 s2 = true -> create_on b chk d bs = Ok r ->
  r_esize r <= length u -> u_lsize d <= length v ->
  exists l v', get_llayout b r = Ok l /\ apply_on b nan w r Transpose u v = Ok v' /\ length v' = length v /\
   (forall el k n, el < u_ne d -> k < u_nc d -> n < u_es d ->
      at_layout l el k n < length v /\
      vf v' (at_layout l el k n) = (vf v (at_layout l el k n) + vf u (epos d (bsize bs) el k n))%R) /\
   (forall q, (forall el k n, el < u_ne d -> k < u_nc d -> n < u_es d -> q <> at_layout l el k n) -> vf v' q = vf v q).
Proof.
  intros R nan b chk d bs r w s0 s1 s2 u v K B H Hu Hv.
  destruct (@layout_col b chk d bs r s0 s1 s2 K H) as (l & El & Hcol). exists l.
  destruct (@create_on_ref _ _ _ _ _ H) as (c & H').
  assert (Hbk : is_bk d = true) by (unfold is_bk; rewrite K; exact B).
  destruct (@bk_range _ _ _ _ H' Hbk) as (Hr & Hr2).
  assert (Hro : in_range (desc_on b d)) by (destruct b; auto).
  assert (Hl : lengths_ok d) by (unfold lengths_ok; rewrite K; exact I).
  assert (Hc : curl_ok w d) by (unfold curl_ok; rewrite K; exact I).
  assert (G : exists v', apply_on b nan w r Transpose u v = Ok v' /\ length v' = length v /\
    forall q, vf v' q = (vf v q + Lval w (desc_on b d) (fun el k n => vf u (epos d (bsize bs) el k n)) q)%R).
  { destruct b; cbn [apply_on desc_on].
    - eapply C09_transpose_adds; eauto.
    - eapply C59_transpose_adds; eauto. }
  destruct G as (v' & E & L & G). exists v'. split; auto. split; auto. split; auto.
  destruct (desc_fields b d) as (F1 & F2 & F3 & F4).
  assert (Hat : forall el k n, el < u_ne d -> k < u_nc d -> n < u_es d ->
     Z.of_nat (at_layout l el k n) = col (desc_on b d) el k n).
  { intros el k n P1 P2 P3. specialize (Hro el k n). rewrite F1, F2, F3, F4 in Hro. specialize (Hro P1 P2 P3).
    specialize (Hcol el k n). unfold at_layout. destruct l as ((l0 & l1) & l2). rewrite <- Hcol. lia. }
  set (E' := fun el k n => vf u (epos d (bsize bs) el k n)) in *.
  assert (HL : forall q, Lval w (desc_on b d) E' q = sumn (u_ne d) (fun el => sumn (u_nc d) (fun k => sumn (u_es d) (fun n =>
     delta (Z.of_nat q =? col (desc_on b d) el k n)%Z (E' el k n))))).
  { intros q. unfold Lval. rewrite F1, F2, F3. apply sumn_ext. intros el Hel. apply sumn_ext. intros k Hk.
    apply sumn_ext. intros n Hn. rewrite sumn_one with (i := n); auto.
    - rewrite (@strided_coef R w b d s0 s1 s2 el n n K), Nat.eqb_refl. cbn [delta].
      destruct (r_th R) as [_ _ _ Hone _ _ _ _ _]. rewrite Hone. reflexivity.
    - intros m Hm Hne. rewrite (@strided_coef R w b d s0 s1 s2 el n m K). rewrite delta_mul_r. destruct (Nat.eqb_spec n m); [congruence|].
      cbn [delta]. destruct (Z.of_nat q =? col (desc_on b d) el k m)%Z; reflexivity. }
  split.
  - intros el k n P1 P2 P3. split.
    + apply Nat2Z.inj_lt. rewrite Hat by auto. specialize (Hro el k n). rewrite F1, F2, F3, F4 in Hro. specialize (Hro P1 P2 P3). lia.
    + rewrite G, HL. f_equal.
      rewrite (@sumn_one R (u_ne d) el _ P1); [rewrite (@sumn_one R (u_nc d) k _ P2); [rewrite (@sumn_one R (u_es d) n _ P3); [|]|]|].
      * rewrite Hat by auto. rewrite Z.eqb_refl. reflexivity.
      * intros j Hj Hne. rewrite Hat by auto. destruct (Z.eqb_spec (col (desc_on b d) el k n) (col (desc_on b d) el k j)) as [Q|Q]; auto.
        destruct (@bk_col_inj b d s0 s1 s2 el k n el k j K B P1 P2 P3 P1 P2 Hj Q) as (_ & _ & Q'). congruence.
      * intros j Hj Hne. apply sumn_zero. intros m Hm. rewrite Hat by auto.
        destruct (Z.eqb_spec (col (desc_on b d) el k n) (col (desc_on b d) el j m)) as [Q|Q]; auto.
        destruct (@bk_col_inj b d s0 s1 s2 el k n el j m K B P1 P2 P3 P1 Hj Hm Q) as (_ & Q' & _). congruence.
      * intros j Hj Hne. apply sumn_zero. intros k' Hk'. apply sumn_zero. intros m Hm. rewrite Hat by auto.
        destruct (Z.eqb_spec (col (desc_on b d) el k n) (col (desc_on b d) j k' m)) as [Q|Q]; auto.
        destruct (@bk_col_inj b d s0 s1 s2 el k n j k' m K B P1 P2 P3 Hj Hk' Hm Q) as (Q' & _). congruence.
  - intros q Hq. rewrite G, HL. rewrite sumn_zero.
    + destruct (r_th R) as [H0 Hcm _ _ _ _ _ _ _]. rewrite Hcm. apply H0.
    + intros el P1. apply sumn_zero. intros k P2. apply sumn_zero. intros n P3.
      destruct (Z.eqb_spec (Z.of_nat q) (col (desc_on b d) el k n)) as [Q|Q]; auto.
      exfalso. apply (Hq el k n P1 P2 P3). apply Nat2Z.inj. rewrite Hat by auto. exact Q.
Qed.
Print Assumptions C59_layout_transpose.

(** Code that touches L-vectors only through the reported layout sees no difference between the two
    backends: corresponding L-vectors are gathered to the same element values, and scattering the same element
    values into corresponding L-vectors gives corresponding L-vectors. *)
Definition corr {R : Rng} (d : udesc) (l1 l2 : Z * Z * Z) (L1 L2 : list R) : Prop :=
  forall el k n, el < u_ne d -> k < u_nc d -> n < u_es d -> vf L1 (at_layout l1 el k n) = vf L2 (at_layout l2 el k n).
Theorem C59_portable : forall (R : Rng) (nan : R) chk d bs r1 r2 w s0 s1 s2 l1 l2 (L1 L2 E1 E2 : list R),
  u_kind d = UStrided s0 s1 s2 -> backend_strides s0 s1 s2 = true ->
  create_on Ref chk d bs = Ok r1 -> create_on Memcheck chk d bs = Ok r2 ->
  get_llayout Ref r1 = Ok l1 -> get_llayout Memcheck r2 = Ok l2 -> corr d l1 l2 L1 L2 ->
  u_lsize d <= length L1 -> u_lsize d <= length L2 -> r_esize r1 <= length E1 -> r_esize r2 <= length E2 ->
  (exists E1' E2', apply_on Ref nan w r1 NoTranspose L1 E1 = Ok E1' /\ apply_on Memcheck nan w r2 NoTranspose L2 E2 = Ok E2' /\
     forall el k n, el < u_ne d -> k < u_nc d -> n < u_es d ->
       vf E1' (epos d (bsize bs) el k n) = vf E2' (epos d (bsize bs) el k n)) /\
  ((forall el k n, el < u_ne d -> k < u_nc d -> n < u_es d ->
       vf E1 (epos d (bsize bs) el k n) = vf E2 (epos d (bsize bs) el k n)) ->
   exists L1' L2', apply_on Ref nan w r1 Transpose E1 L1 = Ok L1' /\ apply_on Memcheck nan w r2 Transpose E2 L2 = Ok L2' /\
     corr d l1 l2 L1' L2').
Proof.
  intros R nan chk d bs r1 r2 w s0 s1 s2 l1 l2 L1 L2 E1 E2 K B H1 H2 G1 G2 HC A1 A2 A3 A4. split.
  - destruct (@C59_layout_gather R nan Ref chk d bs r1 w s0 s1 s2 L1 E1 K H1 (or_intror B) A1 A3) as (l & v1 & P1 & P2 & _ & P3).
    destruct (@C59_layout_gather R nan Memcheck chk d bs r2 w s0 s1 s2 L2 E2 K H2 (or_intror B) A2 A4) as (l' & v2 & Q1 & Q2 & _ & Q3).
    rewrite G1 in P1. rewrite G2 in Q1. inversion P1; inversion Q1; subst l l'.
    exists v1, v2. split; auto. split; auto. intros el k n X Y Z. rewrite P3, Q3 by auto. auto.
  - intros HE.
    destruct (@C59_layout_transpose R nan Ref chk d bs r1 w s0 s1 s2 E1 L1 K B H1 A3 A1) as (l & v1 & P1 & P2 & _ & P3 & _).
    destruct (@C59_layout_transpose R nan Memcheck chk d bs r2 w s0 s1 s2 E2 L2 K B H2 A4 A2) as (l' & v2 & Q1 & Q2 & _ & Q3 & _).
    rewrite G1 in P1. rewrite G2 in Q1. inversion P1; inversion Q1; subst l l'.
    exists v1, v2. split; auto. split; auto. intros el k n X Y Z.
    rewrite (proj2 (P3 el k n X Y Z)), (proj2 (Q3 el k n X Y Z)), HC, HE by auto. reflexivity.
Qed.
Print Assumptions C59_portable.

(** Without backend strides the two backends agree on the same arrays. *)
Theorem C59_same_as_ref : forall (R : Rng) (nan : R) chk d bs r1 r2 w (u v : list R),
  match u_kind d with UStrided s0 s1 s2 => backend_strides s0 s1 s2 = false | _ => True end ->
  lengths_ok d -> in_range d -> curl_ok w d ->
  create_on Ref chk d bs = Ok r1 -> create_on Memcheck chk d bs = Ok r2 ->
  r1 = r2 /\
  (0 < u_ne d -> apply_on Memcheck nan w r2 Transpose u v = apply_on Ref nan w r1 Transpose u v) /\
  (u_lsize d <= length u -> r_esize r1 <= length v ->
   exists e1 e2, apply_on Ref nan w r1 NoTranspose u v = Ok e1 /\ apply_on Memcheck nan w r2 NoTranspose u v = Ok e2 /\
     length e1 = length e2 /\
     forall el k n, 0 < u_ne d -> el < nblocks d bs * bsize bs -> k < u_nc d -> n < u_es d ->
       vf e1 (epos d (bsize bs) el k n) = vf e2 (epos d (bsize bs) el k n)).
Proof.
  intros R nan chk d bs r1 r2 w u v HK Hl Hr Hc H1 H2.
  assert (HB : is_bk d = false) by (unfold is_bk; destruct (u_kind d); auto).
  assert (HD : mc_desc d = d) by (unfold mc_desc; rewrite HB; reflexivity).
  cbn [create_on] in *. pose proof (@create_mc _ _ _ H2) as Hm. rewrite HD in Hm.
  unfold mc_create in H2. rewrite H2 in Hm. assert (Hm' : mc_of r2 = r2) by congruence. clear Hm.
  assert (E12 : r1 = r2).
  { clear Hm'. unfold rstr_create in H1, H2.
    destruct bs as [[|q]|]; try discriminate; destruct (check_dims d _); try discriminate;
    destruct (make_kind d _ _) as [kd|]; try discriminate;
    (destruct (kind_offsets kd); [destruct (offsets_check true _ _ _ _ _ _); try discriminate;
       destruct (offsets_check chk _ _ _ _ _ _); try discriminate|]); congruence. }
  subst r1. split; auto. pose proof (@create_ne _ _ _ _ Hl H2) as Ene. split.
  - intros Hne. cbn [apply_on]. rewrite mc_apply_eq by lia. rewrite Hm'. reflexivity.
  - intros Hu Hv. cbn [apply_on].
    destruct (@C08_gather R true d bs r2 w u v Hl H2 Hr Hc Hu Hv) as (e1 & A & A1 & A2 & A3 & _).
    destruct (@C59_gather R nan d bs r2 w u v Hl H2 Hr Hc Hu Hv) as (e2 & B & B1 & B2 & B3 & _).
    exists e1, e2. split; auto. split; auto. split; [congruence|]. intros el k n Hne X Y Z.
    rewrite HD in B2, B3. destruct (Nat.lt_ge_cases el (u_ne d)).
    + rewrite A2, B2 by auto. reflexivity.
    + rewrite A3, B3 by auto. reflexivity.
Qed.
Print Assumptions C59_same_as_ref.

(** Concrete cases. *)
Definition d_bk : udesc := mkU 2 2 3 0%Z 12 (UStrided 0 0 0).
Example C59_bk_ex : lengths_ok d_bk /\ backend_strides 0 0 0 = true /\
  (exists r, create_on Ref true d_bk None = Ok r /\ get_llayout Ref r = Ok (1, 2, 6)%Z) /\
  (exists r, create_on Memcheck true d_bk None = Ok r /\ get_llayout Memcheck r = Ok (3, 1, 6)%Z) /\
  (exists r, create_on Memcheck true d_bk (Some 2) = Ok r /\ get_llayout Memcheck r = Ok (3, 1, 6)%Z).
Proof. split; [exact I|]. split; [reflexivity|]. split; [|split]; eexists; (split; [reflexivity|]); vm_compute; reflexivity. Qed.
Example C59_run_ex : exists r, create_on Memcheck true d_bk None = Ok r /\
  @mc_apply Zrng (-99)%Z Signed r NoTranspose [0; 1; 2; 10; 11; 12; 100; 101; 102; 110; 111; 112]%Z (repeat 0%Z 14)
    = Ok [0; 10; 1; 11; 2; 12; 100; 110; 101; 111; 102; 112; -99; -99]%Z.
Proof. eexists. split; [reflexivity|]. vm_compute. reflexivity. Qed.
Example C59_std_ex : exists r1 r2, create_on Ref false d_std (Some 2) = Ok r1 /\ create_on Memcheck false d_std (Some 2) = Ok r2 /\ r1 = r2.
Proof. eexists. eexists. split; [reflexivity|]. split; reflexivity. Qed.

(** Finding: with CEED_STRIDES_BACKEND the same L-vector array means different things on the CPU backends:
    code that fills the array assuming the CPU order {1, elem_size, elem_size*num_comp} of ref instead of asking
    CeedElemRestrictionGetLLayout gathers permuted values on memcheck, without any error. *)
Theorem C59_raw_array_refuted : exists d r1 r2 (u : list Zrng) e1 e2,
  create_on Ref true d None = Ok r1 /\ create_on Memcheck true d None = Ok r2 /\
  @apply_on Zrng Ref 0%Z Signed r1 NoTranspose u (repeat 0%Z (r_esize r1)) = Ok e1 /\
  @apply_on Zrng Memcheck 0%Z Signed r2 NoTranspose u (repeat 0%Z (r_esize r2)) = Ok e2 /\
  length u = u_lsize d /\ e1 <> e2.
Proof.
  exists (mkU 1 2 2 0%Z 4 (UStrided 0 0 0)). eexists. eexists. exists [1; 2; 3; 4]%Z. eexists. eexists.
  split; [reflexivity|]. split; [reflexivity|]. split; [reflexivity|]. split; [reflexivity|]. split; [reflexivity|].
  vm_compute. discriminate.
Qed.

(** Finding: applied to an output vector longer than the E-vector (which CeedElemRestrictionApply accepts), ref
    keeps the rest of the vector and memcheck overwrites it with NaN. *)
Theorem C59_tail_refuted : exists d r (u v : list Zrng) (nan : Zrng) e1 e2 i,
  create_on Ref true d None = Ok r /\ create_on Memcheck true d None = Ok r /\
  apply_on Ref nan Signed r NoTranspose u v = Ok e1 /\ apply_on Memcheck nan Signed r NoTranspose u v = Ok e2 /\
  i < length v /\ vf e1 i = vf v i /\ vf e2 i = nan /\ vf e2 i <> vf v i.
Proof.
  exists (mkU 1 2 1 1%Z 2 (UStandard [0; 1]%Z)). eexists. exists [1; 2]%Z, [7; 7; 7]%Z, (-99)%Z. eexists. eexists. exists 2.
  split; [reflexivity|]. split; [reflexivity|]. split; [reflexivity|]. split; [reflexivity|].
  split; [simpl; lia|]. vm_compute. repeat split; discriminate.
Qed.

(** ** C60: queries of at-points restrictions *)
(** Number of points the user's array gives element [e]. *)
Theorem C60_elem_offset : forall (R : Rng) (nan : R) b ne npts nc lsize offs r w (u v : list R) v',
  points_ok ne npts nc lsize offs -> rstr_create_points ne npts nc lsize offs = Ok r ->
  lsize <= length u -> r_esize r <= length v ->
  apply_on b nan w r NoTranspose u v = Ok v' ->
  forall e, e < ne -> exists np off, get_num_points r e = Ok np /\ get_points_offset r e = Ok off /\
    np = (nth (e + 1) offs 0 - nth e offs 0)%Z /\ (0 <= off)%Z /\ (off + np * Z.of_nat nc <= Z.of_nat (r_esize r))%Z /\
    forall i j, i < Z.to_nat np -> j < nc ->
      vf v' (Z.to_nat off + (j * Z.to_nat np + i)) = vf u (Z.to_nat (nth (Z.to_nat (nth e offs 0%Z) + i) offs 0%Z) * nc + j).
Proof.
  intros R nan b ne npts nc lsize offs r w u v v' Hok Hcr Hu Hv Happ e He.
  destruct (create_points_ok Hok) as (r' & Hcr' & Hk & Hne & Hnb & Hnc & Hls & Hes).
  rewrite Hcr in Hcr'. inversion Hcr'; subst r'. clear Hcr'.
  assert (Hoff : forall m, m <= ne -> forN m (fun i acc => np <- num_points_in offs i ;; Some (acc + np * Z.of_nat nc)%Z) 0%Z
     = Some (Z.of_nat (p_start nc offs m))).
  { intros m Hm.
    destruct (@forN_inv _ (fun k acc => acc = Z.of_nat (p_start nc offs k))
       (fun i acc => np <- num_points_in offs i ;; Some (acc + np * Z.of_nat nc)%Z) m 0%Z) as (s & E & Es); auto.
    - intros i s Hi Hs. rewrite (num_points_ok Hok (e := i)) by lia. cbn [bind]. eexists. split; [reflexivity|].
      replace (i + 1) with (S i) by lia. rewrite p_start_S, Hs. lia.
    - rewrite E, Es. reflexivity. }
  exists (Z.of_nat (p_num offs e)), (Z.of_nat (p_start nc offs e)).
  unfold get_num_points, get_points_offset. rewrite Hk, Hnc.
  rewrite (num_points_ok Hok He). rewrite Hoff by lia.
  split; [reflexivity|]. split; [reflexivity|].
  destruct (p_range Hok He) as (_ & _ & P & _). split; [exact P|]. split; [lia|]. split.
  - pose proof (@p_start_le nc offs (S e) ne ltac:(lia)) as Q.
    rewrite p_start_S, (p_start_ne Hok) in Q. lia.
  - intros i j Hi Hj. rewrite !Nat2Z.id in *.
    assert (G : exists v2, apply_on b nan w r NoTranspose u v = Ok v2 /\
      forall e i j, e < ne -> i < p_num offs e -> j < nc ->
       vf v2 (p_start nc offs e + (j * p_num offs e + i)) = vf u (p_idx offs e i * nc + j)).
    { assert (Ev : forall w, @rstr_apply R w r = @rstr_apply R Signed r).
      { intros w'. unfold rstr_apply, apply_core. rewrite Hk. reflexivity. }
      destruct b; cbn [apply_on].
      - rewrite Ev. destruct (@C08_points_gather R ne npts nc lsize offs r u v Hok Hcr Hu Hv) as (v2 & A & _ & B & _). eauto.
      - assert (0 < ne) by apply Hok. rewrite mc_apply_eq by lia.
        replace (mc_of r) with r by (unfold mc_of; rewrite Hk; reflexivity). rewrite Ev.
        destruct (@C08_points_gather R ne npts nc lsize offs r u (inval nan NoTranspose v) Hok Hcr Hu) as (v2 & A & _ & B & _).
        + rewrite inval_len. auto. + eauto. }
    destruct G as (v2 & E2 & G). rewrite Happ in E2. inversion E2; subst v2.
    apply G; auto.
Qed.
Print Assumptions C60_elem_offset.

(** GetMin/MaxPointsInElement: bounds for every element, both attained. *)
Theorem C60_min_max : forall ne npts nc lsize offs r,
  points_ok ne npts nc lsize offs -> rstr_create_points ne npts nc lsize offs = Ok r ->
  exists mn mx, get_minmax_points r = Ok (mn, mx) /\
    (forall e np, e < ne -> get_num_points r e = Ok np -> (0 <= mn <= np)%Z /\ (np <= mx)%Z) /\
    (exists e, e < ne /\ get_num_points r e = Ok mn) /\ (exists e, e < ne /\ get_num_points r e = Ok mx).
Proof.
  intros ne npts nc lsize offs r Hok Hcr.
  destruct (create_points_ok Hok) as (r' & Hcr' & Hk & Hne & Hnb & Hnc & Hls & Hes).
  rewrite Hcr in Hcr'. inversion Hcr'; subst r'. clear Hcr'.
  assert (N0 : 0 < ne) by apply Hok.
  assert (GN : forall e, e < ne -> get_num_points r e = Ok (Z.of_nat (p_num offs e))).
  { intros e He. unfold get_num_points. rewrite Hk, (num_points_ok Hok He). reflexivity. }
  unfold get_minmax_points. rewrite Hk, Hne. destruct (Nat.eqb_spec ne 0); [lia|].
  rewrite (num_points_ok Hok N0). cbn [bind].
  set (f := fun e (s : Z * Z) => np <- num_points_in offs e ;; Some (Z.min np (fst s), Z.max np (snd s))).
  destruct (@forR_inv _ (fun k s => (forall e, e < k -> (fst s <= Z.of_nat (p_num offs e) <= snd s)%Z) /\
      (exists e, e < k /\ fst s = Z.of_nat (p_num offs e)) /\ (exists e, e < k /\ snd s = Z.of_nat (p_num offs e)))
      f 1 ne (Z.of_nat (p_num offs 0), Z.of_nat (p_num offs 0))) as (s & E & A & (e1 & B1 & B2) & (e2 & C1 & C2)).
  - lia.
  - split; [|split].
    + intros e He. replace e with 0 by lia. simpl. lia.
    + exists 0. split; [lia|reflexivity].
    + exists 0. split; [lia|reflexivity].
  - intros k s Hk1 H. destruct H as (A & (e1 & B1 & B2) & (e2 & C1 & C2)).
    unfold f. rewrite (num_points_ok Hok (e := k)) by lia. cbn [bind]. eexists. split; [reflexivity|]. cbn [fst snd].
    split; [|split].
    + intros e He. destruct (Nat.eq_dec e k); [subst; lia|]. specialize (A e ltac:(lia)). lia.
    + destruct (Z.min_spec (Z.of_nat (p_num offs k)) (fst s)) as [(_ & ->)|(_ & ->)].
      * exists k. split; [lia|reflexivity]. * exists e1. split; [lia|auto].
    + destruct (Z.max_spec (Z.of_nat (p_num offs k)) (snd s)) as [(_ & ->)|(_ & ->)].
      * exists e2. split; [lia|auto]. * exists k. split; [lia|reflexivity].
  - rewrite E. destruct s as (mn & mx). cbn [fst snd] in *. exists mn, mx. split; [reflexivity|]. split; [|split].
    + intros e np He Hnp. rewrite GN in Hnp by auto. inversion Hnp; subst np. specialize (A e He). lia.
    + exists e1. split; auto. rewrite GN by auto. congruence.
    + exists e2. split; auto. rewrite GN by auto. congruence.
Qed.
Print Assumptions C60_min_max.

(** The E-vector is long enough to address the maximal number of points in every element from its offset, and
    not longer than that. *)
Theorem C60_esize : forall ne npts nc lsize offs r,
  points_ok ne npts nc lsize offs -> rstr_create_points ne npts nc lsize offs = Ok r ->
  exists mn mx, get_minmax_points r = Ok (mn, mx) /\
    (forall e off, e < ne -> get_points_offset r e = Ok off -> (off + mx * Z.of_nat nc <= Z.of_nat (r_esize r))%Z) /\
    (exists off, get_points_offset r (ne - 1) = Ok off /\ (off + mx * Z.of_nat nc = Z.of_nat (r_esize r))%Z).
Proof.
  intros ne npts nc lsize offs r Hok Hcr.
  destruct (@C60_min_max ne npts nc lsize offs r Hok Hcr) as (mn & mx & E & A & _ & (em & Hem & Em)).
  exists mn, mx. split; auto.
  destruct (create_points_ok Hok) as (r' & Hcr' & Hk & Hne & Hnb & Hnc & Hls & Hes).
  rewrite Hcr in Hcr'. inversion Hcr'; subst r'. clear Hcr'.
  assert (N0 : 0 < ne) by apply Hok.
  assert (GN : forall e, e < ne -> get_num_points r e = Ok (Z.of_nat (p_num offs e))).
  { intros e He. unfold get_num_points. rewrite Hk, (num_points_ok Hok He). reflexivity. }
  assert (Hoff : forall m, m <= ne -> get_points_offset r m = Ok (Z.of_nat (p_start nc offs m))).
  { intros m Hm. unfold get_points_offset. rewrite Hk, Hnc.
    destruct (@forN_inv _ (fun k acc => acc = Z.of_nat (p_start nc offs k))
       (fun i acc => np <- num_points_in offs i ;; Some (acc + np * Z.of_nat nc)%Z) m 0%Z) as (s & E' & Es); auto.
    - intros i s Hi Hs. rewrite (num_points_ok Hok (e := i)) by lia. cbn [bind]. eexists. split; [reflexivity|].
      replace (i + 1) with (S i) by lia. rewrite p_start_S, Hs. lia.
    - rewrite E', Es. reflexivity. }
  assert (Hsz : Z.of_nat (r_esize r) = (Z.of_nat (p_start nc offs (ne - 1)) + mx * Z.of_nat nc)%Z).
  { unfold rstr_create_points in Hcr. destruct (nc =? 0); [discriminate|]. destruct (lsize <? npts * nc); [discriminate|].
    unfold points_total in Hcr.
    destruct (@forN_inv _ (fun k (s : Z * Z) => (forall e, e < k -> (Z.of_nat (p_num offs e) <= fst s)%Z) /\
       (fst s = 0%Z \/ exists e, e < k /\ fst s = Z.of_nat (p_num offs e)) /\ (0 <= fst s)%Z /\
       (snd s * Z.of_nat nc = Z.of_nat (p_start nc offs k))%Z)
       (fun i s => np <- num_points_in offs i;; Some (Z.max (fst s) np, (snd s + np)%Z)) ne (0%Z, 0%Z)) as (s & Es & S1 & S2 & S3 & S4).
    { simpl. split; [intros; lia|]. split; [auto|]. lia. }
    { intros i s Hi (Q1 & Q2 & Q3 & Q4). rewrite (num_points_ok Hok Hi). cbn [bind]. eexists. split; [reflexivity|]. cbn [fst snd].
      replace (i + 1) with (S i) by lia. rewrite p_start_S. split; [|split; [|split]].
      - intros e He. destruct (Nat.eq_dec e i); [subst; lia|]. specialize (Q1 e ltac:(lia)). lia.
      - destruct (Z.max_spec (fst s) (Z.of_nat (p_num offs i))) as [(_ & ->)|(_ & ->)].
        + right. exists i. split; [lia|auto].
        + destruct Q2 as [Q2|(e & Q2 & Q2')]; auto. right. exists e. split; [lia|auto].
      - lia.
      - rewrite Z.mul_add_distr_r, Q4. lia. }
    rewrite Es in Hcr. destruct s as (m & t). cbn [fst snd] in *.
    assert (Hmx : m = mx).
    { rewrite GN in Em by auto. inversion Em as [Em']. pose proof (S1 em Hem).
      destruct S2 as [S2|(e & S2 & S2')]; [lia|]. destruct (A e (Z.of_nat (p_num offs e)) S2 (GN e S2)). lia. }
    subst m.
    assert (Hlen : length offs = ne + 1 + npts) by apply Hok.
    assert (G1 : getZ offs (Z.of_nat ne) = Some (nth ne offs 0%Z)).
    { unfold getZ. destruct (Z.ltb_spec (Z.of_nat ne) 0); [lia|]. rewrite Nat2Z.id. apply get_Some. lia. }
    assert (G2 : getZ offs (Z.of_nat ne - 1) = Some (nth (ne - 1) offs 0%Z)).
    { unfold getZ. destruct (Z.ltb_spec (Z.of_nat ne - 1) 0); [lia|].
      replace (Z.to_nat (Z.of_nat ne - 1)) with (ne - 1) by lia. apply get_Some. lia. }
    rewrite G1, G2 in Hcr.
    destruct (p_range Hok (e := ne - 1) ltac:(lia)) as (_ & _ & P & _).
    replace (ne - 1 + 1) with ne in P by lia. rewrite <- P in Hcr.
    match type of Hcr with context[if ?b then _ else _] => destruct b eqn:LB; [|discriminate] end.
    inversion Hcr as [Hr]. cbn [r_esize]. apply Z.leb_le in LB. rewrite Z2Nat.id by lia.
    assert (PS : p_start nc offs ne = p_start nc offs (ne - 1) + p_num offs (ne - 1) * nc).
    { replace ne with (S (ne - 1)) at 1 by lia. apply p_start_S. }
    rewrite Z.mul_add_distr_r, S4, PS. lia. }
  split.
  - intros e off He Hoe. rewrite Hoff in Hoe by lia. inversion Hoe; subst off.
    pose proof (@p_start_le nc offs e (ne - 1) ltac:(lia)). lia.
  - exists (Z.of_nat (p_start nc offs (ne - 1))). split; [apply Hoff; lia|lia].
Qed.
Print Assumptions C60_esize.

(** One element at a time: CeedElemRestrictionApplyAtPointsInElement delivers the same values as the whole
    apply, from the start of its output. *)
Theorem C60_one_element : forall (R : Rng) (nan : R) ne npts nc lsize offs r w (u v full ve : list R) e np off,
  points_ok ne npts nc lsize offs -> rstr_create_points ne npts nc lsize offs = Ok r ->
  lsize <= length u -> r_esize r <= length v -> rstr_apply w r NoTranspose u v = Ok full ->
  e < ne -> get_num_points r e = Ok np -> get_points_offset r e = Ok off -> (np * Z.of_nat nc <= Z.of_nat (length ve))%Z ->
  exists r1 r2, rstr_apply_points r e NoTranspose u ve = Ok r1 /\ mc_apply_points nan r e NoTranspose u ve = Ok r2 /\
    (forall q, q < Z.to_nat np * nc -> vf r1 q = vf full (Z.to_nat off + q) /\ vf r2 q = vf full (Z.to_nat off + q)).
Proof.
  intros R nan ne npts nc lsize offs r w u v full ve e np off Hok Hcr Hu Hv Hf He Hnp Hoff Hve.
  destruct (@C60_elem_offset R nan Ref ne npts nc lsize offs r w u v full Hok Hcr Hu Hv Hf e He) as (np' & off' & A1 & A2 & A3 & A4 & A5 & A6).
  rewrite Hnp in A1. rewrite Hoff in A2. inversion A1; inversion A2; subst np' off'. clear A1 A2.
  destruct (create_points_ok Hok) as (r' & Hcr' & Hk & Hne & Hnb & Hnc & Hls & Hes).
  rewrite Hcr in Hcr'. inversion Hcr'; subst r'. clear Hcr'.
  pose proof Hnp as Hnp'. unfold get_num_points in Hnp'. rewrite Hk, (num_points_ok Hok He) in Hnp'. cbn [ofopt] in Hnp'.
  inversion Hnp' as [Enp]. subst np. rewrite <- Enp in Hve, A6 |- *. rewrite Nat2Z.id in A6 |- *.
  assert (G : forall ve' : list R, length ve' = length ve -> exists x, rstr_apply_points r e NoTranspose u ve' = Ok x /\
     forall q, q < p_num offs e * nc -> vf x q = vf full (Z.to_nat off + q)).
  { intros ve' Hl. unfold rstr_apply_points. rewrite Hk, (num_points_ok Hok He), Hls, Hnc, Hne.
    destruct (Z.leb_spec (Z.of_nat lsize) (Z.of_nat (length u))); [|lia]. cbn [negb].
    destruct (Z.leb_spec (Z.of_nat (p_num offs e) * Z.of_nat nc) (Z.of_nat (length ve'))); [|lia]. cbn [negb].
    destruct (Nat.ltb_spec e ne); [|lia]. cbn [negb].
    destruct (@points_nt R ne npts nc lsize offs Hok u ve' e (e + 1)) as (x & E & _ & X & _); auto; [lia| |].
    { replace (e + 1) with (S e) by lia. rewrite p_start_S. lia. }
    rewrite E. exists x. split; auto. intros q Hq.
    assert (N1 : 0 < p_num offs e) by (destruct (p_num offs e); [simpl in Hq; lia|lia]).
    pose proof (Nat.div_mod q (p_num offs e) ltac:(lia)) as D.
    assert (Q1 : q / p_num offs e < nc) by (apply Nat.div_lt_upper_bound; lia).
    assert (Q2 : q mod p_num offs e < p_num offs e) by (apply Nat.mod_upper_bound; lia).
    specialize (X e (q mod p_num offs e) (q / p_num offs e) ltac:(lia) Q2 Q1).
    specialize (A6 (q mod p_num offs e) (q / p_num offs e) Q2 Q1).
    replace (p_start nc offs e - p_start nc offs e + (q / p_num offs e * p_num offs e + q mod p_num offs e)) with q in X by lia.
    replace (q / p_num offs e * p_num offs e + q mod p_num offs e) with q in A6 by lia.
    rewrite X, A6. reflexivity. }
  destruct (G ve eq_refl) as (r1 & E1 & G1). destruct (G (inval nan NoTranspose ve) (inval_len nan NoTranspose ve)) as (r2 & E2 & G2).
  exists r1, r2. split; [exact E1|]. split; [exact E2|]. intros q Hq. split; [exact (G1 q Hq)|exact (G2 q Hq)].
Qed.
Print Assumptions C60_one_element.

Example C60_ex : points_ok 2 3 2 6 pts_ex /\ exists r, rstr_create_points 2 3 2 6 pts_ex = Ok r /\
  get_minmax_points r = Ok (1, 2)%Z /\ get_points_offset r 1 = Ok 4%Z /\ r_esize r = 8.
Proof. split; [apply pts_ex_ok|]. eexists. split; [reflexivity|]. vm_compute. auto. Qed.

(** Finding: the position documented for CeedElemRestrictionGetAtPointsElementOffset ("point i, component j,
    element elem is at i*e_layout[0] + j*e_layout[1] + elem_offset") is wrong on the CPU backends as soon as
    there are two components: elem_size is 0 for at-points restrictions, so the reported layout is {1, 0, 0}
    and all components of a point share one address. *)
Theorem C60_layout_refuted : exists ne npts nc lsize offs r (u v v' : list Zrng) e i j off,
  points_ok ne npts nc lsize offs /\ rstr_create_points ne npts nc lsize offs = Ok r /\
  rstr_apply Signed r NoTranspose u v = Ok v' /\ get_points_offset r e = Ok off /\
  e < ne /\ i < p_num offs e /\ j < nc /\
  let '(l0, l1, _) := e_layout r in
  vf v' (i * l0 + j * l1 + Z.to_nat off) <> vf u (p_idx offs e i * nc + j).
Proof.
  exists 2, 3, 2, 6, pts_ex. eexists. exists [10; 20; 11; 21; 12; 22]%Z, (repeat 0%Z 8). eexists. exists 0, 0, 1. eexists.
  split; [apply pts_ex_ok|]. split; [reflexivity|]. split; [reflexivity|]. split; [reflexivity|].
  split; [lia|]. split; [vm_compute; lia|]. split; [lia|]. vm_compute. discriminate.
Qed.

(** Finding: the element number is not checked by the at-points queries: for element num_elem (one past the
    last) CeedElemRestrictionGetNumPointsInElement succeeds and subtracts a point index from an element range,
    and further out it reads outside the array. *)
Theorem C60_elem_unchecked_refuted : exists ne npts nc lsize offs r,
  points_ok ne npts nc lsize offs /\ rstr_create_points ne npts nc lsize offs = Ok r /\
  get_num_points r ne = Ok (-4)%Z /\ get_num_points r (ne + npts) = UB.
Proof.
  exists 2, 3, 2, 6, pts_ex. eexists. split; [apply pts_ex_ok|]. split; [reflexivity|]. split; vm_compute; reflexivity.
Qed.

(** Finding: the entries added to the E-vector so that the last element can be read as if it had the maximal
    number of points are never written by the apply: they keep whatever the vector held. *)
Theorem C60_padding_refuted : exists ne npts nc lsize offs r (u v v' : list Zrng) q,
  points_ok ne npts nc lsize offs /\ rstr_create_points ne npts nc lsize offs = Ok r /\
  length v = r_esize r /\ rstr_apply Signed r NoTranspose u v = Ok v' /\ q < r_esize r /\
  forall x, exists v2, rstr_apply Signed r NoTranspose u (upd v q x) = Ok v2 /\ vf v2 q = x.
Proof.
  exists 2, 3, 2, 6, pts_ex. eexists. exists [10; 20; 11; 21; 12; 22]%Z, (repeat 0%Z 8). eexists. exists 7.
  split; [apply pts_ex_ok|]. split; [reflexivity|]. split; [reflexivity|]. split; [reflexivity|]. split; [vm_compute; lia|].
  intros x. eexists. split; reflexivity.
Qed.
