(** * At-points restrictions: specification and proofs *)
From Coq Require Import List ZArith Lia Bool Arith Ring.
From Verif Require Import Prelude Adds RstrModel RstrProofs RstrMain.
Import ListNotations.
Set Implicit Arguments.

(** ** Specification.  The user's array [offs] starts with the element ranges
    (documentation of CeedElemRestrictionCreateAtPoints). *)
Definition p_lo (offs : list Z) (e : nat) : nat := Z.to_nat (nth e offs 0%Z).
Definition p_num (offs : list Z) (e : nat) : nat := p_lo offs (e + 1) - p_lo offs e.
(** L-vector index of point [i] of element [e]. *)
Definition p_idx (offs : list Z) (e i : nat) : nat := Z.to_nat (nth (p_lo offs e + i) offs 0%Z).

Definition points_ok (ne npts nc lsize : nat) (offs : list Z) : Prop :=
  0 < ne /\ 0 < nc /\ length offs = ne + 1 + npts /\ npts * nc <= lsize /\
  nth 0 offs 0%Z = Z.of_nat (ne + 1) /\ nth ne offs 0%Z = Z.of_nat (ne + 1 + npts) /\
  (forall e, e < ne -> (nth e offs 0 <= nth (e + 1) offs 0)%Z) /\
  (forall k, ne + 1 <= k < ne + 1 + npts -> (0 <= nth k offs 0)%Z /\ (Z.to_nat (nth k offs 0%Z) + 1) * nc <= lsize).

(** First E-vector entry of element [e]: elements are stored one after the other. *)
Fixpoint p_start (nc : nat) (offs : list Z) (e : nat) : nat :=
  match e with 0 => 0 | S e' => p_start nc offs e' + p_num offs e' * nc end.

Section P.
Variable R : Rng.
Add Ring Rr : (r_th R).
Implicit Types u v : list R.
Variables (ne npts nc lsize : nat) (offs : list Z).
Hypothesis Hok : points_ok ne npts nc lsize offs.

Lemma p_mono : forall e, e <= ne -> (Z.of_nat (ne + 1) <= nth e offs 0)%Z.
Proof.
  destruct Hok as (_ & _ & _ & _ & H0 & _ & Hm & _).
  induction e as [|e IH]; intros He; [lia|].
  pose proof (Hm e ltac:(lia)). pose proof (IH ltac:(lia)). replace (S e) with (e + 1) by lia. lia.
Qed.
Lemma p_mono2 : forall e, e <= ne -> (nth e offs 0 <= Z.of_nat (ne + 1 + npts))%Z.
Proof.
  destruct Hok as (_ & _ & _ & _ & _ & H0 & Hm & _).
  intros e He. remember (ne - e) as k eqn:Ek. revert e He Ek.
  induction k as [|k IH]; intros e He Ek.
  - replace e with ne by lia. lia.
  - pose proof (Hm e ltac:(lia)). pose proof (IH (e + 1) ltac:(lia) ltac:(lia)). lia.
Qed.

Lemma p_range : forall e, e < ne -> ne + 1 <= p_lo offs e /\ p_lo offs e + p_num offs e <= ne + 1 + npts /\
  Z.of_nat (p_num offs e) = (nth (e + 1) offs 0 - nth e offs 0)%Z /\ Z.of_nat (p_lo offs e) = nth e offs 0%Z.
Proof.
  intros e He. pose proof (p_mono (e := e) ltac:(lia)). pose proof (p_mono2 (e := e + 1) ltac:(lia)).
  assert (nth e offs 0 <= nth (e + 1) offs 0)%Z by (apply Hok; auto).
  unfold p_num, p_lo. lia.
Qed.

Lemma num_points_ok : forall e, e < ne -> num_points_in offs e = Some (Z.of_nat (p_num offs e)).
Proof.
  intros e He. destruct (p_range He) as (_ & _ & E & _). rewrite E.
  assert (Hlen : length offs = ne + 1 + npts) by apply Hok.
  unfold num_points_in. rewrite (@get_Some _ offs (e + 1) 0%Z) by lia. cbn [bind].
  rewrite (@get_Some _ offs e 0%Z) by lia. reflexivity.
Qed.

Lemma pt_get : forall e i, e < ne -> i < p_num offs e ->
  getZ offs (Z.of_nat i + nth e offs 0%Z) = Some (Z.of_nat (p_idx offs e i)) /\ (p_idx offs e i + 1) * nc <= lsize.
Proof.
  intros e i He Hi. destruct (p_range He) as (A & B & _ & D).
  assert (Hlen : length offs = ne + 1 + npts) by apply Hok.
  destruct (proj2 (proj2 (proj2 (proj2 (proj2 (proj2 (proj2 Hok)))))) (p_lo offs e + i)) as (P1 & P2); [lia|].
  unfold p_idx. split; auto.
  rewrite <- D. unfold getZ. destruct (Z.ltb_spec (Z.of_nat i + Z.of_nat (p_lo offs e)) 0); [lia|].
  replace (Z.to_nat (Z.of_nat i + Z.of_nat (p_lo offs e))) with (p_lo offs e + i) by lia.
  rewrite (@get_Some _ offs _ 0%Z) by lia. f_equal. lia.
Qed.

Lemma p_start_S : forall e, p_start nc offs (S e) = p_start nc offs e + p_num offs e * nc.
Proof. reflexivity. Qed.

Lemma p_start_le : forall a b, a <= b -> p_start nc offs a <= p_start nc offs b.
Proof. intros a b H. induction H; auto. rewrite p_start_S. lia. Qed.

Lemma p_start_total : forall e, e <= ne -> p_start nc offs e + (ne + 1) * nc = p_lo offs e * nc.
Proof.
  induction e as [|e IH]; intros He.
  - simpl. destruct Hok as (_ & _ & _ & _ & H0 & _). unfold p_lo. rewrite H0. lia.
  - rewrite p_start_S. pose proof (IH ltac:(lia)). destruct (@p_range e ltac:(lia)) as (_ & _ & E & D).
    assert (nth e offs 0 <= nth (e + 1) offs 0)%Z by (apply Hok; lia).
    replace (S e) with (e + 1) by lia. unfold p_num in *.
    assert (p_lo offs e <= p_lo offs (e + 1)) by (unfold p_lo in *; lia). nia.
Qed.

Lemma p_start_ne : p_start nc offs ne = npts * nc.
Proof.
  pose proof (@p_start_total ne ltac:(lia)) as H. unfold p_lo in H.
  destruct Hok as (_ & _ & _ & _ & _ & H0 & _). rewrite H0 in H. rewrite Nat2Z.id in H. nia.
Qed.

(** Body of the kernel for one element. *)
Definition pbody (tm : tmode) (u : list R) (e : nat) (eoff : Z) (v : list R) : option (list R) :=
  lo <- get offs e ;;
  np <- num_points_in offs e ;;
  forN (Z.to_nat np) (fun i v =>
    forN nc (fun j v =>
      o <- getZ offs (Z.of_nat i + lo) ;;
      let li := (o * Z.of_nat nc + Z.of_nat j)%Z in
      let ei := (Z.of_nat j * np + Z.of_nat i + eoff)%Z in
      match tm with
      | NoTranspose => x <- getZ u li ;; setZ v ei x
      | Transpose => x <- getZ u ei ;; addatZ v li x
      end) v) v.

Lemma core_as_loop : forall tm u start stop v, start <= stop <= ne ->
  atpoints_core tm offs nc start stop u v =
  forN (stop - start) (fun i v => pbody tm u (start + i) (Z.of_nat (p_start nc offs (start + i) - p_start nc offs start)) v) v.
Proof.
  intros tm u start stop v Hss. unfold atpoints_core. rewrite forR_forN.
  assert (G : forall k, start + k <= ne ->
    forN k (fun i (s : Z * list R) => let '(eoff, v) := s in
         lo <- get offs (start + i) ;;
         np <- num_points_in offs (start + i) ;;
         v' <- forN (Z.to_nat np) (fun i v =>
                 forN nc (fun j v =>
                   o <- getZ offs (Z.of_nat i + lo) ;;
                   let li := (o * Z.of_nat nc + Z.of_nat j)%Z in
                   let ei := (Z.of_nat j * np + Z.of_nat i + eoff)%Z in
                   match tm with
                   | NoTranspose => x <- getZ u li ;; setZ v ei x
                   | Transpose => x <- getZ u ei ;; addatZ v li x
                   end) v) v ;;
         Some ((eoff + np * Z.of_nat nc)%Z, v')) (0%Z, v)
    = match forN k (fun i v => pbody tm u (start + i) (Z.of_nat (p_start nc offs (start + i) - p_start nc offs start)) v) v with
      | Some v' => Some (Z.of_nat (p_start nc offs (start + k) - p_start nc offs start), v')
      | None => None
      end).
  { induction k as [|k IH]; intros Hk.
    - cbn. rewrite Nat.add_0_r, Nat.sub_diag. reflexivity.
    - rewrite !forN_S, IH by lia.
      destruct (forN k _ v) as [v1|]; cbn [bind]; auto.
      unfold pbody.
      assert (Hlen : length offs = ne + 1 + npts) by apply Hok.
      rewrite (@get_Some _ offs (start + k) 0%Z) by lia. cbn [bind].
      rewrite num_points_ok by lia. cbn [bind].
      destruct (forN (Z.to_nat (Z.of_nat (p_num offs (start + k)))) _ v1) as [v2|]; cbn [bind]; auto.
      f_equal. f_equal. replace (start + S k) with (S (start + k)) by lia. rewrite p_start_S.
      pose proof (@p_start_le start (start + k) ltac:(lia)). lia. }
  rewrite G by lia. destruct (forN (stop - start) _ v); reflexivity.
Qed.

(** *** Gather *)
Lemma pbody_nt : forall u e eoff L, e < ne -> lsize <= length u -> eoff + p_num offs e * nc <= L ->
  Sets L (pbody NoTranspose u e (Z.of_nat eoff)) (fun q =>
    if (eoff <=? q) && (q <? eoff + nc * p_num offs e)
    then Some (vf u (p_idx offs e ((q - eoff) mod p_num offs e) * nc + (q - eoff) / p_num offs e)) else None).
Proof.
  intros u e eoff L He Hu HL.
  assert (Hlen : length offs = ne + 1 + npts) by apply Hok.
  set (np := p_num offs e) in *.
  unfold pbody. rewrite (@get_Some _ offs e 0%Z) by lia. cbn [bind].
  rewrite num_points_ok by auto. cbn [bind]. fold np. rewrite Nat2Z.id.
  apply Sets_forN with (g := fun i q => if (eoff <=? q) && (q <? eoff + nc * np) && ((q - eoff) mod np =? i)
     then Some (vf u (p_idx offs e i * nc + (q - eoff) / np)) else None).
  - intros i Hi. destruct (@pt_get e i He Hi) as (G1 & G2).
    apply Sets_forN with (g := fun j q => if q =? eoff + (j * np + i) then Some (vf u (p_idx offs e i * nc + j)) else None).
    + intros j Hj v Hv. rewrite G1. cbn [bind].
      rewrite getZ_vf by nia. cbn [bind].
      replace (Z.to_nat (Z.of_nat (p_idx offs e i) * Z.of_nat nc + Z.of_nat j)) with (p_idx offs e i * nc + j) by nia.
      assert (j * np + i < nc * np) by (apply enc_lt; auto).
      destruct (@Sets_set R L (eoff + (j * np + i)) (vf u (p_idx offs e i * nc + j))) with (v := v) as (v' & E & Hl & Hq); auto; [nia|].
      exists v'. split; [|auto]. unfold setZ.
      destruct (Z.ltb_spec (Z.of_nat j * Z.of_nat np + Z.of_nat i + Z.of_nat eoff) 0); [nia|].
      replace (Z.to_nat (Z.of_nat j * Z.of_nat np + Z.of_nat i + Z.of_nat eoff)) with (eoff + (j * np + i)) by nia.
      exact E.
    + intros j q x Hj. destruct (Nat.eqb_spec q (eoff + (j * np + i))); [|discriminate]. subst q.
      assert (j * np + i < nc * np) by (apply enc_lt; auto).
      replace (eoff + (j * np + i) - eoff) with (j * np + i) by lia.
      rewrite mod_enc, div_enc, Nat.eqb_refl by auto.
      replace (eoff <=? eoff + (j * np + i)) with true by (symmetry; apply Nat.leb_le; lia).
      replace (eoff + (j * np + i) <? eoff + nc * np) with true by (symmetry; apply Nat.ltb_lt; lia). auto.
    + intros q x. destruct (Nat.leb_spec eoff q); [|discriminate].
      destruct (Nat.ltb_spec q (eoff + nc * np)); [|discriminate]. cbn [andb].
      destruct (Nat.eqb_spec ((q - eoff) mod np) i) as [Em|]; [|discriminate]. intros E.
      exists ((q - eoff) / np). split.
      * apply Nat.div_lt_upper_bound; [lia|]. rewrite (Nat.mul_comm np nc). lia.
      * pose proof (Nat.div_mod (q - eoff) np ltac:(lia)). subst i.
        replace (eoff + ((q - eoff) / np * np + (q - eoff) mod np)) with q by lia.
        rewrite Nat.eqb_refl. auto.
  - intros i q x Hi. destruct ((eoff <=? q) && (q <? eoff + nc * np)); cbn [andb]; [|discriminate].
    destruct (Nat.eqb_spec ((q - eoff) mod np) i); [subst i; auto|discriminate].
  - intros q x. destruct (Nat.leb_spec eoff q); [|discriminate].
    destruct (Nat.ltb_spec q (eoff + nc * np)); [|discriminate]. cbn [andb]. intros E.
    exists ((q - eoff) mod np). rewrite Nat.eqb_refl. split; auto.
    apply Nat.mod_upper_bound. intros Z0. rewrite Z0 in *. lia.
Qed.

Lemma points_nt : forall u v start stop, start <= stop <= ne -> lsize <= length u ->
  p_start nc offs stop - p_start nc offs start <= length v ->
  exists v', atpoints_core NoTranspose offs nc start stop u v = Some v' /\ length v' = length v /\
    (forall e i j, start <= e < stop -> i < p_num offs e -> j < nc ->
       vf v' (p_start nc offs e - p_start nc offs start + (j * p_num offs e + i)) = vf u (p_idx offs e i * nc + j)) /\
    (forall q, p_start nc offs stop - p_start nc offs start <= q -> vf v' q = vf v q).
Proof.
  intros u v start stop Hss Hu Hv. rewrite core_as_loop by auto.
  set (st := fun e => p_start nc offs e - p_start nc offs start).
  destruct (@forN_inv _ (fun k w => length w = length v /\
     (forall e i j, start <= e < start + k -> i < p_num offs e -> j < nc ->
       vf w (st e + (j * p_num offs e + i)) = vf u (p_idx offs e i * nc + j)) /\
     (forall q, st (start + k) <= q -> vf w q = vf v q))
     (fun i v => pbody NoTranspose u (start + i) (Z.of_nat (st (start + i))) v) (stop - start) v) as (w & E & Hl & Hq & Hr).
  - split; auto. split; auto. intros e i j He. lia.
  - intros k s Hk (Hls & Hin & Hout).
    assert (Sst : st (start + (k + 1)) = st (start + k) + p_num offs (start + k) * nc).
    { unfold st. replace (start + (k + 1)) with (S (start + k)) by lia. rewrite p_start_S.
      pose proof (@p_start_le start (start + k) ltac:(lia)). lia. }
    assert (Hle : st (start + (k + 1)) <= length v).
    { unfold st. pose proof (@p_start_le (start + (k + 1)) stop ltac:(lia)). lia. }
    destruct (@pbody_nt u (start + k) (st (start + k)) (length v)) with (v := s) as (s' & E & Hl' & Hq'); auto; try lia.
    exists s'. split; auto.
    assert (Hvf : forall q, vf s' q = if (st (start + k) <=? q) && (q <? st (start + k) + nc * p_num offs (start + k))
       then vf u (p_idx offs (start + k) ((q - st (start + k)) mod p_num offs (start + k)) * nc + (q - st (start + k)) / p_num offs (start + k))
       else vf s q).
    { intros q. specialize (Hq' q). unfold vf at 1 3.
      destruct ((st (start + k) <=? q) && (q <? st (start + k) + nc * p_num offs (start + k))).
      - apply nth_error_nth. exact Hq'.
      - destruct (nth_error s q) as [x|] eqn:Es.
        + rewrite (nth_error_nth _ _ _ Hq'). rewrite (nth_error_nth _ _ _ Es). reflexivity.
        + apply nth_error_None in Es. apply nth_error_None in Hq'. rewrite !nth_overflow; auto. }
    split; [congruence|]. split.
    + intros e i j He Hi Hj. rewrite Hvf.
      assert (Hji : j * p_num offs e + i < nc * p_num offs e) by (apply enc_lt; auto).
      destruct (Nat.eq_dec e (start + k)) as [->|Hne'].
      * replace (st (start + k) <=? st (start + k) + (j * p_num offs (start + k) + i)) with true by (symmetry; apply Nat.leb_le; lia).
        replace (st (start + k) + (j * p_num offs (start + k) + i) <? st (start + k) + nc * p_num offs (start + k))
          with true by (symmetry; apply Nat.ltb_lt; lia). cbn [andb].
        replace (st (start + k) + (j * p_num offs (start + k) + i) - st (start + k)) with (j * p_num offs (start + k) + i) by lia.
        rewrite mod_enc, div_enc by auto. reflexivity.
      * assert (st (S e) <= st (start + k)).
        { unfold st. pose proof (@p_start_le (S e) (start + k) ltac:(lia)). lia. }
        assert (st (S e) = st e + p_num offs e * nc).
        { unfold st. rewrite p_start_S. pose proof (@p_start_le start e ltac:(lia)). lia. }
        destruct (Nat.leb_spec (st (start + k)) (st e + (j * p_num offs e + i))); [nia|]. cbn [andb].
        apply Hin; auto; lia.
    + intros q Hqq. rewrite Hvf. rewrite Sst in Hqq.
      destruct (Nat.ltb_spec q (st (start + k) + nc * p_num offs (start + k))); [nia|]. rewrite andb_false_r.
      apply Hout. lia.
  - unfold st in *. exists w. split; auto. split; auto. split.
    + intros e i j He. apply Hq. lia.
    + intros q Hqq. apply Hr. replace (start + (stop - start)) with stop by lia. auto.
Qed.

(** *** Scatter-add *)
Definition pts_sum (u : list R) (start stop q : nat) : R :=
  sumn (stop - start) (fun a => let e := start + a in sumn (p_num offs e) (fun i => sumn nc (fun j =>
    delta (q =? p_idx offs e i * nc + j) (vf u (p_start nc offs e - p_start nc offs start + (j * p_num offs e + i)))))).

Lemma points_t : forall u start stop L, start <= stop <= ne -> lsize <= L ->
  p_start nc offs stop - p_start nc offs start <= length u ->
  Adds R L (atpoints_core Transpose offs nc start stop u) (pts_sum u start stop).
Proof.
  intros u start stop L Hss HL Hu.
  eapply Adds_fext; [|intros; apply core_as_loop; auto].
  apply Adds_forN with (g := fun a q => let e := start + a in sumn (p_num offs e) (fun i => sumn nc (fun j =>
    delta (q =? p_idx offs e i * nc + j) (vf u (p_start nc offs e - p_start nc offs start + (j * p_num offs e + i)))))).
  intros a Ha. cbv zeta. set (e := start + a). assert (He : e < ne) by (unfold e; lia).
  assert (Hlen : length offs = ne + 1 + npts) by apply Hok.
  assert (HS : p_start nc offs e - p_start nc offs start + p_num offs e * nc <= length u).
  { pose proof (@p_start_le (S e) stop ltac:(unfold e; lia)) as P. rewrite p_start_S in P.
    pose proof (@p_start_le start e ltac:(unfold e; lia)). lia. }
  unfold pbody.
  eapply Adds_bind; [apply (@get_Some _ offs e 0%Z); lia|].
  eapply Adds_bind; [apply num_points_ok; auto|]. rewrite Nat2Z.id.
  apply Adds_forN with (g := fun i q => sumn nc (fun j =>
    delta (q =? p_idx offs e i * nc + j) (vf u (p_start nc offs e - p_start nc offs start + (j * p_num offs e + i))))).
  intros i Hi. destruct (@pt_get e i He Hi) as (G1 & G2).
  apply Adds_forN with (g := fun j q =>
    delta (q =? p_idx offs e i * nc + j) (vf u (p_start nc offs e - p_start nc offs start + (j * p_num offs e + i)))).
  intros j Hj. assert (j * p_num offs e + i < nc * p_num offs e) by (apply enc_lt; auto).
  eapply Adds_bind; [exact G1|]. cbv zeta.
  eapply Adds_bind; [apply getZ_vf; lia|].
  eapply Adds_ext; [apply Adds_addatZ; nia|].
  intros q. cbv beta. f_equal.
  - apply eq_true_iff_eq. rewrite Nat.eqb_eq, Z.eqb_eq. lia.
  - f_equal. lia.
Qed.
End P.
Arguments pts_sum {R}.
