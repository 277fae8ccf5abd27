(** * Proof that operator application computes its specification, for any block size *)
From Coq Require Import List ZArith Lia Bool Arith.
From Verif Require Import Prelude RstrModel RstrSpec RstrProofs RstrProps TensorModel TensorMain BasisModel BasisProofs BasisProps OpModel OpSpec OpLists.
Import ListNotations.
Set Implicit Arguments.
Local Open Scope nat_scope.

Section Op.
Variable R : Rng.
Add Ring Rr : (r_th R).
Variable k : kernel R.
Variable Jmin : nat.
Variable junk : nat -> nat -> R.
Variable chk : bool.
Variable D : nat -> udesc.
Variable bs : option nat.
Variable o : oper R.
Hypothesis Hwf : op_wf D k Jmin chk bs o.
Notation BS := (bsize bs).
Notation NB := (op_blocks bs o).
Notation nin := (length (o_in o)).
Notation nout := (length (o_out o)).
Notation fi := (fld (o_in o)).
Notation fo := (fld (o_out o)).
Notation Q := (o_Q o).
Notation fst_in := (first (sameE (o_in o))).
Notation fst_out := (first (sameE (o_out o))).
Notation lst := (last (sameE (o_out o)) nout).
Definition cap (el : nat) : nat := Nat.min el (o_ne o - 1).
Definition esz (d : udesc) : nat := NB * (BS * u_es d * u_nc d).

Lemma BSpos : 0 < BS. Proof. apply (ow_bs Hwf). Qed.
Lemma nb_eq : forall d, u_ne d = o_ne o -> nblocks d bs = NB.
Proof.
  intros d H. unfold nblocks, op_blocks. rewrite H. destruct bs as [b|]; auto. simpl bsize.
  rewrite Nat.div_1_r, Nat.mod_1_r. simpl. lia.
Qed.
Lemma nb_bounds : o_ne o <= NB * BS /\ NB * BS < o_ne o + BS.
Proof.
  pose proof (nblocks_bounds (mkU (o_ne o) 0 0 0%Z 0 (UStandard [])) bs BSpos) as H.
  rewrite nb_eq in H by reflexivity. exact H.
Qed.
Lemma esize_eq : forall d r, rstr_wf chk bs o d -> rstr_create chk d bs = Ok r -> r_esize r = esz d.
Proof.
  intros d r (Hl & _ & _ & _ & Hn) Hc. rewrite (rp_esize (create_repr Hl Hc)).
  destruct (create_bs Hc) as (-> & ->). rewrite nb_eq by auto. unfold esz. ring.
Qed.

(** position in a block *)
Lemma epos_block : forall d b l kk n, l < BS -> epos d BS (b * BS + l) kk n = b * (BS * u_es d * u_nc d) + ((kk * u_es d + n) * BS + l).
Proof.
  intros d b l kk n Hl. unfold epos. rewrite Nat.div_add_l by lia. rewrite (Nat.div_small l) by auto.
  rewrite Nat.add_0_r, Nat.add_comm with (n := b * BS), Nat.mod_add by lia. rewrite Nat.mod_small by auto. lia.
Qed.
Definition restricted (d : udesc) (u e : list R) : Prop :=
  length e = esz d /\ forall b l kk n, b < NB -> l < BS -> kk < u_nc d -> n < u_es d ->
    vf e (b * (BS * u_es d * u_nc d) + ((kk * u_es d + n) * BS + l)) = Eval Signed d u (cap (b * BS + l)) kk n.

Lemma lane_lt : forall b l, b < NB -> l < BS -> b * BS + l < NB * BS.
Proof. intros. nia. Qed.

Lemma gather_ok : forall d r u e0, rstr_wf chk bs o d -> rstr_create chk d bs = Ok r -> u_lsize d <= length u -> length e0 = esz d ->
  exists e, be (rstr_apply Signed r NoTranspose u e0) = Ok e /\ restricted d u e.
Proof.
  intros d r u e0 Hd Hc Hu He. pose proof Hd as (Hl & Hr & Hco & _ & Hn).
  pose proof (esize_eq Hd Hc) as Es.
  destruct (C08_gather u e0 Hl Hc Hr Hco Hu ltac:(lia)) as (e & E & Hlen & Hin & Hpad & _).
  exists e. rewrite E. split; auto. split; [lia|].
  intros b l kk n Hb Hll Hk Hnn. rewrite <- epos_block by auto. unfold cap.
  pose proof (lane_lt Hb Hll) as HL.
  destruct (Nat.lt_ge_cases (b * BS + l) (o_ne o)) as [H|H].
  - rewrite Hin by (auto; lia). rewrite Nat.min_l by lia. reflexivity.
  - rewrite Hpad; auto. 2:{ rewrite nb_eq by auto. lia. } rewrite Nat.min_r by lia. rewrite Hn. reflexivity.
Qed.

(** ** well-formed fields *)
Lemma fwf_rstr : forall f, field_wf D Jmin chk bs o f -> f_mode f <> EvWeight -> exists i, f_rstr f = Some i /\ rd D f = D i /\ rstr_wf chk bs o (D i).
Proof.
  intros f H Hw. unfold field_wf in H. unfold rd. destruct (f_mode f) eqn:Em; try congruence.
  - destruct H as (i & -> & Hr & _). eauto.
  - destruct H as (i & b & mt & -> & _ & Hr & _). eauto.
  - destruct H as (i & b & mt & -> & _ & Hr & _). eauto.
  - destruct H as (i & b & mt & -> & _ & Hr & _). eauto.
  - destruct H as (i & b & mt & -> & _ & Hr & _). eauto.
Qed.
Lemma fwf_rd : forall f, field_wf D Jmin chk bs o f -> f_mode f <> EvWeight -> rstr_wf chk bs o (rd D f).
Proof. intros f H Hw. destruct (fwf_rstr _ H Hw) as (i & _ & -> & ?). auto. Qed.
Lemma fwf_none : forall f, field_wf D Jmin chk bs o f -> f_mode f = EvNone -> f_size f = u_nc (rd D f) /\ u_es (rd D f) = Q.
Proof. intros f H E. unfold field_wf in H. rewrite E in H. destruct H as (i & Hi & _ & H). unfold rd. rewrite Hi. auto. Qed.
Lemma fwf_weight : forall f, field_wf D Jmin chk bs o f -> f_mode f = EvWeight -> f_size f = 1 /\ f_rstr f = None /\ f_basis f = Some (bd f) /\ b_wf Jmin (bd f) /\ b_qpts (bd f) = Q.
Proof. intros f H E. unfold field_wf in H. rewrite E in H. destruct H as (H1 & H2 & b & H3 & H4 & H5). unfold bd. rewrite H3. auto. Qed.
Lemma fwf_basis : forall f, field_wf D Jmin chk bs o f -> basis_mode (f_mode f) = true ->
  f_basis f = Some (bd f) /\ b_wf Jmin (bd f) /\ b_nc (bd f) = u_nc (rd D f) /\ b_nodes (bd f) = u_es (rd D f) /\ b_qpts (bd f) = Q /\
  reported (bd f) (f_mode f) = Some (mat (bd f) (f_mode f)) /\ f_size f = q_comp (bd f) (f_mode f) * b_nc (bd f).
Proof.
  intros f H E. unfold field_wf in H. unfold rd, bd, mat.
  destruct (f_mode f) eqn:Em; simpl in E; try discriminate;
    destruct H as (i & b & mt & -> & -> & _ & H1 & H2 & H3 & H4 & H5 & H6); rewrite H5; repeat split; auto.
Qed.
Lemma rwf_pos : forall d, rstr_wf chk bs o d -> 0 < u_es d /\ 0 < u_nc d.
Proof. intros d (Hl & _ & _ & (r & Hr) & _). apply (rp_pos (create_repr Hl Hr)). Qed.
Lemma mode_cases : forall m, m = EvWeight \/ m = EvNone \/ basis_mode m = true.
Proof. intros []; auto. Qed.
Lemma notweight : forall m A (a b : A), m <> EvWeight -> match m with EvWeight => a | _ => b end = b.
Proof. intros [] A a b H; congruence. Qed.
Lemma same_rd : forall (f g : ofield R), same f g = true -> rd D f = rd D g /\ f_rstr f = f_rstr g /\ f_vec f = f_vec g.
Proof. intros f g H. apply same_eq in H. destruct H as (Hv & Hr). unfold rd. rewrite Hr. auto. Qed.
Lemma same_weight : forall i j, i < nin -> j < nin -> sameE (o_in o) i j = true -> f_mode (fi i) = EvWeight -> f_mode (fi j) = EvWeight.
Proof.
  intros i j Hi Hj Hs Hw. destruct (same_rd _ _ Hs) as (_ & Hr & _).
  destruct (fwf_weight _ (ow_in Hwf Hi) Hw) as (_ & N & _). rewrite N in Hr.
  destruct (mode_cases (f_mode (fi j))) as [|Hm]; auto. exfalso.
  destruct (@fwf_rstr (fi j)) as (x & Hx & _). { apply (ow_in Hwf Hj). } { destruct Hm as [->|Hm]; [discriminate|]. intros E. rewrite E in Hm. discriminate. }
  congruence.
Qed.

(** ** setup *)
Record stat_ok (s : stat) : Prop := {
  so_rin : length (s_rin s) = nin /\ forall i, i < nin -> f_mode (fi i) <> EvWeight -> exists r, nth i (s_rin s) None = Some r /\ rstr_create chk (rd D (fi i)) bs = Ok r;
  so_rout : length (s_rout s) = nout /\ forall i, i < nout -> exists r, nth i (s_rout s) None = Some r /\ rstr_create chk (rd D (fo i)) bs = Ok r;
  so_slot : length (s_slot s) = nin /\ forall i, i < nin -> nth i (s_slot s) 0 = fst_in i;
  so_skin : length (s_skin s) = nin /\ forall i, i < nin -> nth i (s_skin s) false = (fst_in i <? i);
  so_skout : length (s_skout s) = nout /\ forall j, j < nout -> nth j (s_skout s) false = (j <? lst j);
  so_add : length (s_add s) = nout /\ forall j, j < nout -> nth j (s_add s) false = (fst_out j <? j);
  so_idx : length (s_idx s) = nout /\ forall j, j < nout -> j < lst j -> j < nth j (s_idx s) 0 < nout /\ sameE (o_out o) (nth j (s_idx s) 0) j = true
}.
Definition qlen (f : ofield R) : nat := Q * f_size f * BS.
Record dyn_ok (d : dyn R) : Prop := {
  dy_st : length (d_states d) = nin;
  dy_ein : length (d_ein d) = nin /\ forall i e, i < nin -> f_mode (fi i) <> EvWeight -> nth i (d_ein d) None = Some e -> length e = esz (rd D (fi i));
  dy_eout : length (d_eout d) = nout /\ forall j, j < nout -> length (nth j (d_eout d) []) = esz (rd D (fo j));
  dy_qin : length (d_qin d) = nin /\ forall i, i < nin -> length (nth i (d_qin d) []) = qlen (fi i) /\
     (f_mode (fi i) = EvWeight -> forall q l, q < Q -> l < BS -> vf (nth i (d_qin d) []) (q * BS + l) = qweight (bd (fi i)) q);
  dy_qout : length (d_qout d) = nout /\ forall j, j < nout -> length (nth j (d_qout d) []) = qlen (fo j)
}.
(** a cached restriction belongs to the recorded state of the vector *)
Definition cache_ok (d : dyn R) (vm : vmem R) : Prop :=
  forall i v, i < nin -> f_mode (fi i) <> EvWeight -> fst_in i = i -> f_vec (fi i) = VPas v ->
    (nth i (d_states d) 0 <= vv_state (vm v))%Z /\
    (nth i (d_states d) 0%Z = vv_state (vm v) -> forall u, vv_data (vm v) = Some u -> exists e, nth i (d_ein d) None = Some e /\ restricted (rd D (fi i)) u e).

Lemma field_rstr_ok : forall f, field_wf D Jmin chk bs o f -> exists ro, field_rstr chk D bs f = Ok ro /\
  (f_mode f <> EvWeight -> exists r, ro = Some r /\ rstr_create chk (rd D f) bs = Ok r).
Proof.
  intros f H. unfold field_rstr. destruct (mode_cases (f_mode f)) as [Ew|Hw].
  - rewrite Ew. eexists. split; [reflexivity|]. congruence.
  - assert (Hn : f_mode f <> EvWeight). { intros E. rewrite E in Hw. destruct Hw; discriminate. }
    destruct (fwf_rstr _ H Hn) as (i & Ei & Erd & Hr). pose proof Hr as (_ & _ & _ & (r & Er) & _).
    exists (Some r). rewrite Ei, Er, Erd. cbn [be rbind]. split. { destruct (f_mode f); auto. congruence. }
    intros _. eauto.
Qed.
Lemma field_qvec_ok : forall f, field_wf D Jmin chk bs o f -> exists q, field_qvec k junk bs Q f = Ok q /\ length q = qlen f /\
  (f_mode f = EvWeight -> forall x l, x < Q -> l < BS -> vf q (x * BS + l) = qweight (bd f) x).
Proof.
  intros f H. unfold field_qvec, qlen. destruct (mode_cases (f_mode f)) as [Ew|[En|Eb]].
  - destruct (fwf_weight _ H Ew) as (Es & _ & Eb & Hb & Hq). rewrite Ew, Eb.
    destruct (@C14_weights R k Jmin junk (bd f) BS None (repeat 0%R (Q * BS)) Hb BSpos) as (v & E & L & G & _).
    { unfold check_dims. rewrite repeat_length, Hq. apply Nat.leb_le. nia. }
    rewrite E. exists v. split; auto. split. { rewrite L, repeat_length, Es. lia. }
    intros _ x l Hx Hl. rewrite G by (auto; lia). reflexivity.
  - rewrite En. eexists. split; [reflexivity|]. rewrite repeat_length. split; auto. discriminate.
  - destruct (fwf_basis _ H Eb) as (-> & _).
    exists (repeat 0%R (Q * f_size f * BS)). rewrite repeat_length.
    destruct (f_mode f); try discriminate; repeat split; auto; discriminate.
Qed.

Lemma op_setup_ok : exists s d, op_setup k junk chk D bs o = Ok (s, d) /\ stat_ok s /\ dyn_ok d /\
  (forall i, i < nin -> nth i (d_states d) 0%Z = 0%Z).
Proof.
  pose proof (@rmap_ok _ _ (field_rstr chk D bs) (fun (f : ofield R) ro => f_mode f <> EvWeight -> exists r, ro = Some r /\ rstr_create chk (rd D f) bs = Ok r)
    (mkOF 0 EvNone None None VNo : ofield R) None) as Hr.
  pose proof (@rmap_ok _ _ (field_qvec k junk bs Q) (fun (f : ofield R) (q : list R) => length q = qlen f /\
    (f_mode f = EvWeight -> forall x l, x < Q -> l < BS -> vf q (x * BS + l) = qweight (bd f) x)) (mkOF 0 EvNone None None VNo : ofield R) []) as Hq.
  destruct (Hr (o_in o)) as (rin & E1 & L1 & G1). { intros i Hi. apply field_rstr_ok. apply (ow_in Hwf Hi). }
  destruct (Hq (o_in o)) as (qin & E2 & L2 & G2). { intros i Hi. apply field_qvec_ok. apply (ow_in Hwf Hi). }
  destruct (@dup_in_ok R (o_in o)) as (nn & sl & sk & E3 & L3 & L3' & G3). { apply (ow_din Hwf). }
  destruct (Hr (o_out o)) as (rout & E4 & L4 & G4). { intros i Hi. apply field_rstr_ok. apply (ow_out Hwf Hi). }
  destruct (Hq (o_out o)) as (qout & E5 & L5 & G5). { intros i Hi. apply field_qvec_ok. apply (ow_out Hwf Hi). }
  destruct (@dup_out_ok R (o_out o)) as (nn' & sko & ad & ix & E6 & L6 & L6' & L6'' & G6 & G6' & G6''). { intros i j Hij Hs. apply (@ow_dout _ _ _ _ _ _ _ Hwf i j Hij Hs). }
  unfold op_setup. rewrite E1. cbn [rbind]. rewrite E2. cbn [rbind]. rewrite E3. cbn [rbind]. rewrite E4. cbn [rbind].
  rewrite E5. cbn [rbind]. rewrite E6. cbn [rbind]. eexists. eexists. split; [reflexivity|]. split; [|split].
  - constructor; cbn; split; auto.
    + intros i Hi. apply G4; auto. apply (ow_out Hwf Hi).
    + intros i Hi. apply G3. auto.
    + intros i Hi. apply G3. auto.
    + intros j Hj Hjl. apply G6''; auto. rewrite G6 by auto. apply Nat.ltb_lt. auto.
  - constructor; cbn.
    + apply repeat_length.
    + split; [apply repeat_length|]. intros i e Hi _. rewrite nth_repeat. discriminate.
    + split; [rewrite map_length; auto|]. intros j Hj.
      rewrite nth_indep with (d' := (fun r => repeat 0%R (e_len r)) None) by (rewrite map_length; lia).
      rewrite (map_nth (fun r => repeat 0%R (e_len r))), repeat_length.
      destruct (G4 j Hj) as (r & Er & Ec). { apply (ow_out Hwf Hj). }
      rewrite Er. cbn [e_len]. apply esize_eq; auto. apply fwf_rd; apply (ow_out Hwf Hj).
    + split; auto.
    + split; auto. intros j Hj. apply G5. auto.
  - cbn. intros i Hi. apply nth_repeat.
Qed.

(** ** inputs *)
Variable vm : vmem R.
Variables inv outv : option nat.
Variable s : stat.
Hypothesis Hs : stat_ok s.
Definition skipped (sa : bool) (i : nat) : bool := sa && is_active (fi i).
Hypothesis sa : bool.
Hypothesis Hvec : forall i, i < nin -> f_mode (fi i) <> EvWeight -> skipped sa i = false -> has D vm (fi i) inv.

Lemma skipped_same : forall i j, sameE (o_in o) i j = true -> skipped sa i = skipped sa j.
Proof. intros i j H. destruct (same_rd _ _ H) as (_ & _ & Hv). unfold skipped, is_active. rewrite Hv. reflexivity. Qed.
Lemma fst_in_spec : forall i, fst_in i <= i /\ sameE (o_in o) (fst_in i) i = true.
Proof. intros i. destruct (first_spec (sameE (o_in o)) (sameE_refl (o_in o)) i) as (A & B & _). auto. Qed.
Lemma fst_in_fst : forall i, fst_in (fst_in i) = fst_in i.
Proof.
  intros i. destruct (fst_in_spec i) as (_ & B).
  apply (@first_eq _ (sameE_refl (o_in o)) (sameE_sym (o_in o)) (@sameE_trans _ (o_in o))). auto.
Qed.

Definition ein_ok (i : nat) (ein : list (option (list R))) : Prop :=
  exists e, nth (fst_in i) ein None = Some e /\ restricted (rd D (fi i)) (contents vm (fi i) inv) e.

Lemma restricted_same : forall i j e, sameE (o_in o) i j = true -> restricted (rd D (fi i)) (contents vm (fi i) inv) e -> restricted (rd D (fi j)) (contents vm (fi j) inv) e.
Proof.
  intros i j e H Hr. destruct (same_rd _ _ H) as (E1 & _ & E2). unfold contents, target in *. rewrite <- E1, <- E2. exact Hr.
Qed.

Lemma setup_inputs_ok : forall d, dyn_ok d -> cache_ok d vm ->
  exists d1, setup_inputs o s vm inv sa d = Ok d1 /\ dyn_ok d1 /\ cache_ok d1 vm /\
    d_eout d1 = d_eout d /\ d_qin d1 = d_qin d /\ d_qout d1 = d_qout d /\
    forall i, i < nin -> f_mode (fi i) <> EvWeight -> skipped sa i = false -> ein_ok i (d_ein d1).
Proof.
  intros d Hd Hc. unfold setup_inputs.
  set (P := fun (i : nat) (st : list Z * list (option (list R))) => let '(sts, ein) := st in
    length sts = nin /\ length ein = nin /\
    (forall j e, j < nin -> f_mode (fi j) <> EvWeight -> nth j ein None = Some e -> length e = esz (rd D (fi j))) /\
    (forall j, i <= j -> nth j sts 0%Z = nth j (d_states d) 0%Z /\ nth j ein None = nth j (d_ein d) None) /\
    (forall j, j < i -> f_mode (fi j) <> EvWeight -> skipped sa j = false -> ein_ok j ein /\ forall v, target (fi j) inv = Some v -> nth j sts 0%Z = vv_state (vm v))).
  destruct (@rfold_inv0 _ P (setup_input o s vm inv sa) nin (d_states d, d_ein d)) as ((sts, ein) & E & H).
  - unfold P. split; [apply (dy_st Hd)|]. split; [apply (dy_ein Hd)|]. split; [apply (dy_ein Hd)|]. split; auto. intros; lia.
  - intros i (sts, ein) Hi (L1 & L2 & G1 & G2 & G3). unfold setup_input. rewrite og_fld by auto. cbn [rbind].
    fold (skipped sa i). destruct (skipped sa i) eqn:Ek.
    + eexists. split; [reflexivity|]. split; auto. split; auto. split; auto. split.
      * intros j Hj. apply G2. lia.
      * intros j Hj Hm Hsk. destruct (Nat.eq_dec j i) as [->|]; [congruence|]. apply G3; auto; lia.
    + destruct (mode_cases (f_mode (fi i))) as [Ew|Hm].
      * rewrite Ew. eexists. split; [reflexivity|]. split; auto. split; auto. split; auto. split.
        -- intros j Hj. apply G2. lia.
        -- intros j Hj Hm Hsk. destruct (Nat.eq_dec j i) as [->|]; [congruence|]. apply G3; auto; lia.
      * assert (Hn : f_mode (fi i) <> EvWeight). { intros E. rewrite E in Hm. destruct Hm; discriminate. }
        rewrite (notweight _ _ Hn).
        destruct (@Hvec i Hi Hn Ek) as (v & u & Ht & Hu & Hlen). rewrite Ht.
        destruct (so_slot Hs) as (Lsl & Gsl). destruct (so_skin Hs) as (Lsk & Gsk).
        destruct (fst_in_spec i) as (F1 & F2).
        rewrite (og_nth sts 0%Z), (og_nth (s_skin s) false), (og_nth (s_slot s) 0) by lia. cbn [rbind].
        rewrite Gsl, Gsk by auto. rewrite (og_nth ein None) by lia. cbn [rbind].
        assert (Hcont : contents vm (fi i) inv = u). { unfold contents. rewrite Ht, Hu. reflexivity. }
        assert (Hrd : rstr_wf chk bs o (rd D (fi i))). { apply fwf_rd; auto. apply (ow_in Hwf Hi). }
        assert (Hrest : exists e ein', (if (negb (vv_state (vm v) =? nth i sts 0)%Z || oeq inv v) && negb (fst_in i <? i) then
                ro <~ og (s_rin s) i ;;
                match ro, vv_data (vm v) with
                | Some r, Some u =>
                    e <~ be (rstr_apply Signed r NoTranspose u (match nth (fst_in i) ein None with Some e => e | None => repeat 0%R (r_esize r) end)) ;;
                    Ok (upd ein (fst_in i) (Some e))
                | Some r, None => Err ERR_BACKEND
                | None, _ => UB
                end
              else Ok ein) = Ok ein' /\ nth (fst_in i) ein' None = Some e /\ restricted (rd D (fi i)) u e /\ length ein' = nin /\
              (forall j, j <> i -> nth j ein' None = nth j ein None) /\ (fst_in i < i -> ein' = ein)).
        { destruct (Nat.ltb_spec (fst_in i) i) as [Hlt|Hge].
          - (* shares the E-vector of an earlier field *)
            rewrite andb_false_r.
            destruct (G3 (fst_in i) Hlt) as ((e & Ee & Re) & _).
            { intros E. apply Hn. apply (@same_weight (fst_in i) i); auto. lia. }
            { rewrite (@skipped_same (fst_in i) i); auto. }
            rewrite fst_in_fst in Ee. exists e, ein. split; auto. split; auto. split; [|split; auto].
            rewrite <- Hcont. apply (@restricted_same (fst_in i) i); auto.
          - assert (Ef : fst_in i = i) by lia. rewrite Ef. cbn [negb]. rewrite andb_true_r.
            destruct (negb (vv_state (vm v) =? nth i sts 0)%Z || oeq inv v) eqn:Ec.
            + destruct (so_rin Hs) as (Lr & Gr). destruct (Gr i Hi Hn) as (r & Er & Ecr).
              rewrite (og_nth (s_rin s) None) by lia. cbn [rbind]. rewrite Er, Hu.
              match goal with |- context [rstr_apply _ _ _ _ ?e0] => destruct (@gather_ok (rd D (fi i)) r u e0) as (e & Ee & Re); auto end.
              { destruct (nth i ein None) as [e0|] eqn:E0; [apply (G1 i); auto|]. rewrite repeat_length. apply esize_eq; auto. }
              rewrite Ee. cbn [rbind]. exists e. eexists. split; [reflexivity|].
              rewrite nth_upd' by lia. rewrite Nat.eqb_refl. split; auto. split; auto. rewrite upd_length. split; auto. split; [|lia].
              intros j Hj. rewrite nth_upd' by lia. apply Nat.eqb_neq in Hj. rewrite Hj. reflexivity.
            + apply orb_false_iff in Ec. destruct Ec as (Ec1 & Ec2).
              apply negb_false_iff, Z.eqb_eq in Ec1.
              assert (Hp : f_vec (fi i) = VPas v).
              { unfold target in Ht. destruct (f_vec (fi i)) as [| |w]; [|discriminate|congruence]. rewrite Ht in Ec2. simpl in Ec2. rewrite Nat.eqb_refl in Ec2. discriminate. }
              destruct (Hc i v Hi Hn Ef Hp) as (_ & Hcc). destruct (G2 i (Nat.le_refl i)) as (G2a & G2b).
              destruct (Hcc ltac:(congruence) u Hu) as (e & Ee & Re).
              exists e, ein. split; auto. split; [congruence|]. split; auto. }
        destruct Hrest as (e & ein' & -> & Ee & Re & L2' & Gne & Glt). cbn [rbind].
        rewrite (og_nth ein' None) by lia. cbn [rbind]. rewrite Ee.
        eexists. split; [reflexivity|]. split; [rewrite upd_length; auto|]. split; auto. split; [|split].
        -- intros j e' Hj Hmj Hej. destruct (Nat.eq_dec j i) as [->|Hji].
           ++ destruct (Nat.eq_dec (fst_in i) i) as [Ef|Ef].
              ** rewrite Ef, Hej in Ee. inversion Ee; subst. apply Re.
              ** rewrite Glt in Hej by lia. apply (G1 i); auto.
           ++ rewrite Gne in Hej by auto. apply (G1 j); auto.
        -- intros j Hj. destruct (G2 j) as (Ga & Gb); [lia|]. rewrite nth_upd' by lia.
           destruct (Nat.eqb_spec j i); [lia|]. rewrite Gne by lia. auto.
        -- intros j Hj Hmj Hskj. destruct (Nat.eq_dec j i) as [->|Hji].
           ++ split.
              ** exists e. split; auto. rewrite Hcont. auto.
              ** intros v' Hv'. rewrite nth_upd', Nat.eqb_refl by lia. congruence.
           ++ destruct (G3 j ltac:(lia) Hmj Hskj) as ((e' & Ee' & Re') & Gs). split.
              ** exists e'. split; auto. rewrite Gne; auto. pose proof (fst_in_spec j). lia.
              ** intros v' Hv'. rewrite nth_upd' by lia. destruct (Nat.eqb_spec j i); [lia|]. auto.
  - rewrite E. cbn [rbind]. eexists. split; [reflexivity|]. cbn. destruct H as (L1 & L2 & G1 & G2 & G3).
    split; [|split; [|split; [auto|split; [auto|split; [auto|]]]]].
    + destruct Hd as [A1 A2 A3 A4 A5]. constructor; cbn; auto.
    + intros i v Hi Hm Hf Hv. cbn.
      destruct (skipped sa i) eqn:Ek. { unfold skipped, is_active in Ek. rewrite Hv, andb_false_r in Ek. discriminate. }
      destruct (G3 i Hi Hm Ek) as ((e & Ee & Re) & Gs). rewrite Hf in Ee.
      assert (Ht : target (fi i) inv = Some v) by (unfold target; rewrite Hv; auto).
      rewrite (Gs v Ht). split; [lia|]. intros _ u Hu. exists e. split; auto.
      unfold contents in Re. rewrite Ht, Hu in Re. auto.
    + intros i Hi Hm Hk. apply G3; auto.
Qed.

(** ** one block of elements: inputs at the quadrature points *)
Lemma blk_bound : forall b X, b < NB -> b * X + X <= NB * X.
Proof. intros. nia. Qed.
Definition qvals (i b : nat) (q : list R) : Prop := forall c x l, c < f_size (fi i) -> x < Q -> l < BS ->
  vf q ((c * Q + x) * BS + l) = in_val D (fi i) (contents vm (fi i) inv) (cap (b * BS + l)) c x.
Definition qin_ok (qin : list (list R)) : Prop := length qin = nin /\ forall i, i < nin -> length (nth i qin []) = qlen (fi i) /\
     (f_mode (fi i) = EvWeight -> forall q l, q < Q -> l < BS -> vf (nth i qin []) (q * BS + l) = qweight (bd (fi i)) q).
Lemma idx_lt : forall c x l A, c < A -> x < Q -> l < BS -> (c * Q + x) * BS + l < A * Q * BS.
Proof.
  intros c x l A Hc Hx Hl. assert (c * Q + x < A * Q) by nia. nia.
Qed.

Lemma esize_of_rd : forall f, field_wf D Jmin chk bs o f -> f_mode f <> EvWeight -> esize_of D f = u_es (rd D f).
Proof. intros f H Hm. destruct (fwf_rstr _ H Hm) as (i & Ei & Er & _). unfold esize_of. rewrite Ei, Er. reflexivity. Qed.

Lemma input_step : forall ein b i qin, b < NB -> i < nin -> length ein = nin -> qin_ok qin ->
  (f_mode (fi i) <> EvWeight -> skipped sa i = false -> ein_ok i ein) ->
  exists qin', input_basis k junk D bs o s ein (b * BS) sa i qin = Ok qin' /\ qin_ok qin' /\
    (f_mode (fi i) = EvWeight \/ skipped sa i = false -> qvals i b (nth i qin' [])) /\
    (skipped sa i = true -> qin' = qin) /\ forall j, j <> i -> nth j qin' [] = nth j qin [].
Proof.
  intros ein b i qin Hb Hi Le (Lq & Gq) He. unfold input_basis. rewrite og_fld by auto. cbn [rbind].
  fold (skipped sa i).
  destruct (Gq i Hi) as (Lqi & Gwi). pose proof (ow_in Hwf Hi) as Hfw.
  assert (Hweight : f_mode (fi i) = EvWeight -> qvals i b (nth i qin [])).
  { intros Ew c x l Hc Hx Hl. destruct (fwf_weight _ Hfw Ew) as (Es & _). rewrite Es in Hc. replace c with 0 by lia. simpl (0 * Q + x).
    rewrite (Gwi Ew) by auto. unfold in_val. rewrite Ew. reflexivity. }
  destruct (skipped sa i) eqn:Ek.
  { exists qin. split; auto. split; [split; auto|]. split; auto. intros [Ew|]; [auto|discriminate]. }
  destruct (so_slot Hs) as (Lsl & Gsl). destruct (fst_in_spec i) as (F1 & _).
  destruct (mode_cases (f_mode (fi i))) as [Ew|[En|Eb]].
  - rewrite Ew. exists qin. split; auto. split; [split; auto|]. split; auto.
  - rewrite En. assert (Hn : f_mode (fi i) <> EvWeight) by congruence.
    rewrite (og_nth (s_slot s) 0) by lia. cbn [rbind]. rewrite Gsl, (og_nth ein None) by lia. cbn [rbind].
    destruct (He Hn eq_refl) as (e & Ee & Le' & Ge). rewrite Ee.
    destruct (fwf_none _ Hfw En) as (Es & EQ).
    destruct (@slice_ok R e (b * BS * Q * f_size (fi i)) (Q * f_size (fi i) * BS)) as (q & Eq & Lq' & Gq').
    { rewrite Le'. unfold esz. rewrite EQ, <- Es. pose proof (blk_bound (BS * Q * f_size (fi i)) Hb). nia. }
    rewrite Eq. cbn [rbind]. eexists. split; [reflexivity|]. split; [|split; [|split]].
    + split; [rewrite upd_length; auto|]. intros j Hj. rewrite nth_upd' by lia.
      destruct (Nat.eqb_spec j i) as [->|]; [|auto]. split; [unfold qlen; auto|congruence].
    + intros _ c x l Hc Hx Hl. rewrite nth_upd', Nat.eqb_refl by lia.
      rewrite Gq'. 2:{ pose proof (idx_lt Hc Hx Hl). nia. }
      unfold in_val. rewrite En. rewrite <- (Ge b l c x) by (auto; lia). f_equal. rewrite EQ, <- Es. ring.
    + discriminate.
    + intros j Hj. rewrite nth_upd' by lia. apply Nat.eqb_neq in Hj. rewrite Hj. auto.
  - assert (Hn : f_mode (fi i) <> EvWeight). { intros E. rewrite E in Eb. discriminate. }
    destruct (fwf_basis _ Hfw Eb) as (EB & Hbw & Enc & Enp & Enq & Erep & Es).
    destruct (He Hn eq_refl) as (e & Ee & Le' & Ge).
    destruct (rwf_pos (fwf_rd _ Hfw Hn)) as (Pes & Pnc).
    destruct (@slice_ok R e (b * BS * esize_of D (fi i) * b_nc (bd (fi i))) (b_nodes (bd (fi i)) * b_nc (bd (fi i)) * BS)) as (u & Eu & Lu & Gu).
    { rewrite Le', (esize_of_rd _ Hfw Hn), Enp, Enc. unfold esz. pose proof (blk_bound (BS * u_es (rd D (fi i)) * u_nc (rd D (fi i))) Hb). nia. }
    destruct (@C14_forward R k Jmin junk (bd (fi i)) BS (f_mode (fi i)) _ u (nth i qin []) (ow_k Hwf) Hbw Erep) as (q & Eq & Fl & Fv & _); try rewrite <- (q_comp_spec (bd (fi i))) in Fv.
    { unfold check_dims. assert (Hx : (BS * b_qpts (bd (fi i)) * b_nc (bd (fi i)) * q_comp (bd (fi i)) (f_mode (fi i)) <=? length (nth i qin []))
          && (BS * b_nc (bd (fi i)) * b_nodes (bd (fi i)) <=? length u) = true).
      { apply andb_true_iff. split; apply Nat.leb_le; [rewrite Lqi; unfold qlen; rewrite Es, Enq|rewrite Lu]; nia. }
      destruct (f_mode (fi i)); try discriminate; exact Hx. }
    assert (Hmm : input_basis k junk D bs o s ein (b * BS) sa i qin = Ok (upd qin i q)).
    { unfold input_basis. rewrite og_fld by auto. cbn [rbind]. fold (skipped sa i). rewrite Ek.
      rewrite (og_nth (s_slot s) 0) by lia. rewrite Gsl by auto. cbn [rbind]. rewrite (og_nth ein None) by lia. cbn [rbind].
      rewrite (og_nth qin []) by lia. cbn [rbind]. rewrite Ee, EB, Eu. cbn [rbind].
      destruct (f_mode (fi i)); try discriminate; rewrite Eq; reflexivity. }
    unfold input_basis in Hmm. rewrite og_fld in Hmm by auto. cbn [rbind] in Hmm. fold (skipped sa i) in Hmm. rewrite Ek in Hmm. rewrite Hmm.
    eexists. split; [reflexivity|]. split; [|split; [|split]].
    + split; [rewrite upd_length; auto|]. intros j Hj. rewrite nth_upd' by lia.
      destruct (Nat.eqb_spec j i) as [->|]; [|auto]. split; [rewrite Fl; auto|congruence].
    + intros _ c x l Hc Hx Hl. rewrite nth_upd', Nat.eqb_refl by lia.
      rewrite Es in Hc. destruct (dec_mul _ _ Hc) as (dd & cc & Hdd & Hcc & ->).
      rewrite <- Enq. rewrite Fv by (auto; lia). unfold in_val.
      assert (E1 : (dd * b_nc (bd (fi i)) + cc) / b_nc (bd (fi i)) = dd) by (rewrite Nat.div_add_l by lia; rewrite Nat.div_small by auto; lia).
      assert (E2 : (dd * b_nc (bd (fi i)) + cc) mod b_nc (bd (fi i)) = cc) by (rewrite Nat.add_comm, Nat.mod_add by lia; apply Nat.mod_small; auto).
      assert (E3 : sumn (b_nodes (bd (fi i))) (fun p => (vf (mat (bd (fi i)) (f_mode (fi i))) ((dd * b_qpts (bd (fi i)) + x) * b_nodes (bd (fi i)) + p)%nat *
          vf u ((cc * b_nodes (bd (fi i)) + p) * BS + l)%nat)%R) =
        sumn (b_nodes (bd (fi i))) (fun p => (vf (mat (bd (fi i)) (f_mode (fi i))) ((dd * b_qpts (bd (fi i)) + x) * b_nodes (bd (fi i)) + p)%nat *
          Eval Signed (rd D (fi i)) (contents vm (fi i) inv) (cap (b * BS + l)) cc p)%R)).
      { apply sumn_ext. intros p Hp. f_equal. rewrite Gu.
        2:{ assert (cc * b_nodes (bd (fi i)) + p < b_nc (bd (fi i)) * b_nodes (bd (fi i))) by nia. nia. }
        rewrite <- (Ge b l cc p) by (auto; lia). f_equal. rewrite (esize_of_rd _ Hfw Hn), Enp, Enc. ring. }
      rewrite E3. cbv zeta. rewrite E1, E2. destruct (f_mode (fi i)); try discriminate; reflexivity.
    + discriminate.
    + intros j Hj. rewrite nth_upd' by lia. apply Nat.eqb_neq in Hj. rewrite Hj. auto.
Qed.

Lemma inputs_ok : forall ein b qin, b < NB -> length ein = nin -> qin_ok qin ->
  (forall i, i < nin -> f_mode (fi i) <> EvWeight -> skipped sa i = false -> ein_ok i ein) ->
  exists qin', rfold (seq 0 nin) (input_basis k junk D bs o s ein (b * BS) sa) qin = Ok qin' /\ qin_ok qin' /\
    (forall i, i < nin -> f_mode (fi i) = EvWeight \/ skipped sa i = false -> qvals i b (nth i qin' [])) /\
    (forall i, i < nin -> skipped sa i = true -> nth i qin' [] = nth i qin []).
Proof.
  intros ein b qin Hb Le Hq He.
  destruct (@rfold_inv0 _ (fun i q' => qin_ok q' /\ (forall j, i <= j -> nth j q' [] = nth j qin []) /\
     (forall j, j < i -> f_mode (fi j) = EvWeight \/ skipped sa j = false -> qvals j b (nth j q' [])) /\
     (forall j, j < i -> skipped sa j = true -> nth j q' [] = nth j qin [])) (input_basis k junk D bs o s ein (b * BS) sa) nin qin)
    as (q' & E & H1 & _ & H3 & H4).
  - split; auto. split; auto. split; intros; lia.
  - intros i q1 Hi (H1 & H2 & H3 & H4).
    destruct (@input_step ein b i q1 Hb Hi Le H1 (He i Hi)) as (q2 & E & G1 & G2 & G3 & G4).
    exists q2. split; auto. split; auto. split; [|split].
    + intros j Hj. rewrite G4 by lia. apply H2. lia.
    + intros j Hj Hc. destruct (Nat.eq_dec j i) as [->|]; [auto|]. rewrite G4 by auto. apply H3; auto. lia.
    + intros j Hj Hc. destruct (Nat.eq_dec j i) as [->|]. { rewrite G3 by auto. apply H2. lia. } rewrite G4 by auto. apply H4; auto. lia.
  - exists q'. auto.
Qed.

(** ** one block of elements: the QFunction *)
Lemma ins_at_val : forall qin b x l, x < Q -> l < BS -> qin_ok qin -> (forall i, i < nin -> qvals i b (nth i qin [])) ->
  ins_at o (Q * BS) qin (x * BS + l) = ins_val D o vm inv (cap (b * BS + l)) x.
Proof.
  intros qin b x l Hx Hl (Lq & _) Hv. unfold ins_at, ins_val.
  apply (nth_ext _ _ [] []). { rewrite !map_length, combine_length. lia. }
  intros i Hi. rewrite map_length, combine_length, Lq, Nat.min_id in Hi.
  set (g := fun fq : ofield R * list R => map (fun c => vf (snd fq) (c * (Q * BS) + (x * BS + l))) (seq 0 (f_size (fst fq)))).
  set (h := fun f : ofield R => map (fun c => in_val D f (contents vm f inv) (cap (b * BS + l)) c x) (seq 0 (f_size f))).
  rewrite (nth_indep _ [] (g (mkOF 0 EvNone None None VNo, []))) by (rewrite map_length, combine_length; lia). rewrite (map_nth g).
  rewrite (nth_indep _ [] (h (mkOF 0 EvNone None None VNo))) by (rewrite map_length; lia). rewrite (map_nth h).
  rewrite combine_nth by auto. unfold g, h. cbn [fst snd]. fold (fi i).
  apply map_ext_in. intros c Hc. apply in_seq in Hc. rewrite <- (Hv i Hi c x l) by (auto; lia). f_equal. ring.
Qed.
Lemma ins_ok_true : forall qin, qin_ok qin -> ins_ok o (Q * BS) qin = true.
Proof.
  intros qin (Lq & Gq). unfold ins_ok. rewrite Lq, Nat.eqb_refl. cbn [andb]. apply forallb_forall. intros (f, q) Hin. cbn [fst snd].
  destruct (In_nth _ _ (mkOF 0 EvNone None None VNo, []) Hin) as (i & Hi & E). rewrite combine_length, Lq, Nat.min_id in Hi.
  rewrite combine_nth in E by auto. inversion E; subst f q. destruct (Gq i Hi) as (L & _). apply Nat.leb_le.
  rewrite L. unfold qlen, fld. lia.
Qed.

Definition bsz (p : nat) : nat := BS * u_es (rd D (fo p)) * u_nc (rd D (fo p)).
Definition bpos (p b kk n l : nat) : nat := b * bsz p + ((kk * u_es (rd D (fo p)) + n) * BS + l).
Definition eo_ok (eout : list (list R)) : Prop := length eout = nout /\ forall j, j < nout -> length (nth j eout []) = esz (rd D (fo j)).
Definition qo_ok (qout : list (list R)) : Prop := length qout = nout /\ forall j, j < nout -> length (nth j qout []) = qlen (fo j).
(** block [b] of E-vector [p] *)
Definition blk (eout : list (list R)) (p b : nat) (F : nat -> nat -> nat -> R) : Prop :=
  forall kk n l, kk < u_nc (rd D (fo p)) -> n < u_es (rd D (fo p)) -> l < BS -> vf (nth p eout []) (bpos p b kk n l) = F kk n l.
(** nothing outside block [b] changes *)
Definition keeps (b : nat) (eout eout' : list (list R)) : Prop :=
  forall p b' kk n l, b' <> b -> p < nout -> kk < u_nc (rd D (fo p)) -> n < u_es (rd D (fo p)) -> l < BS ->
    vf (nth p eout' []) (bpos p b' kk n l) = vf (nth p eout []) (bpos p b' kk n l).
Lemma keeps_refl : forall b e, keeps b e e.
Proof. intros b e p b' kk n l. auto. Qed.
Lemma keeps_trans : forall b e1 e2 e3, keeps b e1 e2 -> keeps b e2 e3 -> keeps b e1 e3.
Proof. intros b e1 e2 e3 H1 H2 p b' kk n l Hb Hp Hk Hn Hl. rewrite H2, H1; auto. Qed.

Lemma lst_spec : forall j, j < nout -> j <= lst j < nout /\ sameE (o_out o) (lst j) j = true.
Proof. intros j Hj. destruct (@last_spec (sameE (o_out o)) nout (sameE_refl _) j Hj) as (A & B & _). auto. Qed.
Lemma lst_rd : forall j, j < nout -> rd D (fo (lst j)) = rd D (fo j).
Proof. intros j Hj. apply same_rd. apply lst_spec. auto. Qed.
Lemma lst_iff : forall i j, i < nout -> j < nout -> (sameE (o_out o) i j = true <-> lst i = lst j).
Proof. intros. apply last_iff; auto using sameE_refl, sameE_sym. apply sameE_trans. Qed.
Lemma out_rwf : forall j, j < nout -> rstr_wf chk bs o (rd D (fo j)).
Proof. intros j Hj. destruct (ow_out Hwf Hj) as (A & B). apply fwf_rd; auto. Qed.
Lemma inner_lt : forall p kk n l, kk < u_nc (rd D (fo p)) -> n < u_es (rd D (fo p)) -> l < BS -> (kk * u_es (rd D (fo p)) + n) * BS + l < bsz p.
Proof.
  intros p kk n l Hk Hn Hl. unfold bsz. set (es := u_es _) in *. set (nc := u_nc _) in *.
  assert (kk * es + n < nc * es) by nia. nia.
Qed.
Lemma bpos_blk : forall p b kk n l, kk < u_nc (rd D (fo p)) -> n < u_es (rd D (fo p)) -> l < BS -> b * bsz p <= bpos p b kk n l < b * bsz p + bsz p.
Proof. intros p b kk n l Hk Hn Hl. pose proof (inner_lt p Hk Hn Hl). unfold bpos. lia. Qed.

(** storing [bsz] entries in block [b] of E-vector [p] *)
Lemma blit_block : forall eout p b x, eo_ok eout -> p < nout -> b < NB -> length x = bsz p ->
  exists l', blit (b * bsz p) x (nth p eout []) = Ok l' /\ eo_ok (upd eout p l') /\
    blk (upd eout p l') p b (fun kk n l => vf x ((kk * u_es (rd D (fo p)) + n) * BS + l)) /\ keeps b eout (upd eout p l') /\
    forall p', p' <> p -> nth p' (upd eout p l') [] = nth p' eout [].
Proof.
  intros eout p b x (Le & Ge) Hp Hb Lx.
  destruct (@blit_ok R (nth p eout []) (b * bsz p) x) as (l' & E & L & G).
  { rewrite Lx, Ge by auto. unfold esz. fold (bsz p). pose proof (blk_bound (bsz p) Hb). lia. }
  exists l'. split; auto. split; [|split; [|split]].
  - split; [rewrite upd_length; auto|]. intros j Hj. rewrite nth_upd' by lia. destruct (Nat.eqb_spec j p) as [->|]; auto. rewrite L. auto.
  - intros kk n l Hk Hn Hl. rewrite nth_upd', Nat.eqb_refl by lia. rewrite G. pose proof (bpos_blk p b Hk Hn Hl).
    destruct (Nat.leb_spec (b * bsz p) (bpos p b kk n l)); [|lia]. destruct (Nat.ltb_spec (bpos p b kk n l) (b * bsz p + length x)); [|lia].
    cbn [andb]. f_equal. unfold bpos. lia.
  - intros p' b' kk n l Hbb Hp' Hk Hn Hl. rewrite nth_upd' by lia. destruct (Nat.eqb_spec p' p) as [->|]; auto.
    rewrite G. pose proof (bpos_blk p b' Hk Hn Hl).
    destruct (Nat.leb_spec (b * bsz p) (bpos p b' kk n l)); auto. destruct (Nat.ltb_spec (bpos p b' kk n l) (b * bsz p + length x)); auto.
    exfalso. assert (b' < b \/ b < b') as [Hlt|Hlt] by lia; nia.
  - intros p' Hp'. rewrite nth_upd' by lia. apply Nat.eqb_neq in Hp'. rewrite Hp'. auto.
Qed.

Definition isnone (j : nat) : bool := match f_mode (fo j) with EvNone => true | _ => false end.
Lemma isnone_spec : forall j, j < nout -> if isnone j then f_mode (fo j) = EvNone else basis_mode (f_mode (fo j)) = true.
Proof. intros j Hj. destruct (ow_out Hwf Hj) as (_ & Hw). unfold isnone. destruct (f_mode (fo j)); auto; congruence. Qed.
Variable ptr : list nat.
Hypothesis Hptr : length ptr = nout /\ forall j, j < nout -> nth j ptr 0 = lst j.

Lemma none_bsz : forall j, j < nout -> f_mode (fo j) = EvNone -> bsz (lst j) = qlen (fo j) /\ u_es (rd D (fo (lst j))) = Q /\ u_nc (rd D (fo (lst j))) = f_size (fo j).
Proof.
  intros j Hj En. unfold bsz. rewrite lst_rd by auto. destruct (ow_out Hwf Hj) as (Hf & _).
  destruct (fwf_none _ Hf En) as (Es & EQ). rewrite EQ, <- Es. split; auto. unfold qlen. ring.
Qed.

Lemma put_out_ok : forall b j x eout qout, b < NB -> j < nout -> length x = qlen (fo j) -> eo_ok eout -> qo_ok qout ->
  exists eout' qout', put_out o ptr (b * BS) j x (eout, qout) = Ok (eout', qout') /\ eo_ok eout' /\ qo_ok qout' /\ keeps b eout eout' /\
    (f_mode (fo j) = EvNone -> blk eout' (lst j) b (fun kk n l => vf x ((kk * Q + n) * BS + l)) /\ qout' = qout /\ forall p, p <> lst j -> nth p eout' [] = nth p eout []) /\
    (basis_mode (f_mode (fo j)) = true -> eout' = eout /\ nth j qout' [] = x /\ forall i, i <> j -> nth i qout' [] = nth i qout []).
Proof.
  intros b j x eout qout Hb Hj Lx He Hq. unfold put_out. rewrite og_fld by auto. cbn [rbind].
  pose proof (isnone_spec Hj) as Hm. destruct (isnone j).
  - rewrite Hm. destruct Hptr as (Lp & Gp). rewrite (og_nth ptr 0) by lia. cbn [rbind]. rewrite Gp by auto.
    destruct (lst_spec Hj) as (Hl & _). rewrite (og_nth eout []) by (destruct He; lia). cbn [rbind].
    destruct (none_bsz Hj Hm) as (Eb & EQ & _).
    replace (b * BS * Q * f_size (fo j)) with (b * bsz (lst j)) by (rewrite Eb; unfold qlen; ring).
    destruct (@blit_block eout (lst j) b x He ltac:(lia) Hb ltac:(lia)) as (l' & E & G1 & G2 & G3 & G4).
    rewrite E. cbn [rbind]. eexists. eexists. split; [reflexivity|]. split; auto. split; auto. split; auto. split.
    + intros _. split; auto. rewrite EQ in G2. exact G2.
    + discriminate.
  - destruct Hq as (Lq & Gq).
    destruct (@blit_ok R (nth j qout []) 0 x) as (q & E & L & G). { rewrite Gq by auto. lia. }
    assert (q = x). { apply vf_ext. rewrite L, Gq; auto. intros i Hi. rewrite L, Gq in Hi by auto. rewrite G. cbn [Nat.leb andb]. destruct (Nat.ltb_spec i (0 + length x)); [|lia]. f_equal. lia. }
    subst q. assert (Hpo : put_out o ptr (b * BS) j x (eout, qout) = Ok (eout, upd qout j x)).
    { unfold put_out. rewrite og_fld by auto. cbn [rbind]. rewrite (og_nth qout []) by lia. cbn [rbind]. rewrite E. destruct (f_mode (fo j)); try discriminate; reflexivity. }
    unfold put_out in Hpo. rewrite og_fld in Hpo by auto. cbn [rbind] in Hpo. rewrite Hpo.
    eexists. eexists. split; [reflexivity|]. split; auto. split; [|split; [apply keeps_refl|split]].
    + split; [rewrite upd_length; auto|]. intros i Hi. rewrite nth_upd' by lia. destruct (Nat.eqb_spec i j) as [->|]; auto.
    + intros En. rewrite En in Hm. discriminate.
    + intros _. split; auto. rewrite nth_upd', Nat.eqb_refl by lia. split; auto. intros i Hi. rewrite nth_upd' by lia.
      apply Nat.eqb_neq in Hi. rewrite Hi. auto.
Qed.

Lemma out_arr_val : forall qin j size c x l, c < size -> x < Q -> l < BS ->
  vf (out_arr o (Q * BS) qin j size) ((c * Q + x) * BS + l) = vf (nth j (o_pt o (ins_at o (Q * BS) qin (x * BS + l))) []) c.
Proof.
  intros qin j size c x l Hc Hx Hl. unfold out_arr.
  assert (Hp : x * BS + l < Q * BS) by nia.
  rewrite vf_map_seq. 2:{ pose proof (idx_lt Hc Hx Hl). nia. }
  replace ((c * Q + x) * BS + l) with (c * (Q * BS) + (x * BS + l)) by ring.
  rewrite Nat.div_add_l by lia. rewrite (Nat.div_small (x * BS + l)) by auto. rewrite Nat.add_0_r.
  rewrite Nat.add_comm, Nat.mod_add by lia. rewrite Nat.mod_small by auto. reflexivity.
Qed.

(** [Y j x l c]: component [c] of output [j] at point [x] of lane [l] *)
Definition qf_out (qin : list (list R)) (Y : nat -> nat -> nat -> nat -> R) : Prop :=
  forall j c x l, j < nout -> c < f_size (fo j) -> x < Q -> l < BS -> Y j x l c =
    if o_ident o then vf (nth 0 qin []) ((c * Q + x) * BS + l) else vf (nth j (o_pt o (ins_at o (Q * BS) qin (x * BS + l))) []) c.

Lemma nodup_none : forall i j, i < nout -> j < nout -> i <> j -> f_mode (fo i) = EvNone -> f_mode (fo j) = EvNone -> lst i <> lst j.
Proof.
  intros i j Hi Hj Hne Ei Ej H. apply lst_iff in H; auto.
  assert (i < j \/ j < i) as [Hlt|Hlt] by lia.
  - destruct (@ow_dout _ _ _ _ _ _ _ Hwf i j ltac:(lia) H) as (Hb & _). rewrite Ej in Hb. discriminate.
  - rewrite sameE_sym in H. destruct (@ow_dout _ _ _ _ _ _ _ Hwf j i ltac:(lia) H) as (Hb & _). rewrite Ei in Hb. discriminate.
Qed.

Definition after_qf (b : nat) (eout qout : list (list R)) (Y : nat -> nat -> nat -> nat -> R) (m : nat) : Prop :=
  forall j, j < m -> if isnone j then blk eout (lst j) b (fun kk n l => Y j n l kk)
    else forall c x l, c < f_size (fo j) -> x < Q -> l < BS -> vf (nth j qout []) ((c * Q + x) * BS + l) = Y j x l c.

Lemma put_step : forall b j x eout qout Y, b < NB -> j < nout -> length x = qlen (fo j) -> eo_ok eout -> qo_ok qout ->
  after_qf b eout qout Y j -> (forall c y l, c < f_size (fo j) -> y < Q -> l < BS -> vf x ((c * Q + y) * BS + l) = Y j y l c) ->
  exists eout' qout', put_out o ptr (b * BS) j x (eout, qout) = Ok (eout', qout') /\ eo_ok eout' /\ qo_ok qout' /\ keeps b eout eout' /\ after_qf b eout' qout' Y (j + 1).
Proof.
  intros b j x eout qout Y Hb Hj Lx He Hq Ha Hx.
  destruct (@put_out_ok b j x eout qout Hb Hj Lx He Hq) as (e' & q' & E & G1 & G2 & G3 & G4 & G5).
  exists e', q'. split; auto. split; auto. split; auto. split; auto.
  pose proof (isnone_spec Hj) as Hm. intros i Hi. destruct (Nat.eq_dec i j) as [->|Hij].
  - destruct (isnone j).
    + destruct (G4 Hm) as (Gb & _). intros kk n l Hk Hn Hl. destruct (none_bsz Hj Hm) as (_ & EQ & EN). rewrite Gb by auto. apply Hx; auto; lia.
    + destruct (G5 Hm) as (_ & Gq & _). intros c y l Hc Hy Hl. rewrite Gq. apply Hx; auto.
  - assert (Hi' : i < j) by lia. specialize (Ha i Hi'). pose proof (@isnone_spec i ltac:(lia)) as Hmi.
    destruct (isnone i).
    + destruct (isnone j).
      * destruct (G4 Hm) as (_ & _ & Gp). intros kk n l Hk Hn Hl. rewrite Gp; auto. apply nodup_none; auto; lia.
      * destruct (G5 Hm) as (-> & _). auto.
    + destruct (isnone j).
      * destruct (G4 Hm) as (_ & -> & _). auto.
      * destruct (G5 Hm) as (_ & _ & Gi). rewrite Gi by auto. auto.
Qed.

Lemma call_qf_ok : forall b qin eout qout Y, b < NB -> qin_ok qin -> eo_ok eout -> qo_ok qout -> qf_out qin Y ->
  exists eout' qout', call_qf bs o ptr (b * BS) qin (eout, qout) = Ok (eout', qout') /\ eo_ok eout' /\ qo_ok qout' /\ keeps b eout eout' /\
    after_qf b eout' qout' Y nout.
Proof.
  intros b qin eout qout Y Hb Hqin He Hq HY. unfold call_qf. destruct (o_ident o) eqn:Eid.
  - destruct (ow_id Hwf Eid) as (Ni & No & Esz & _). destruct Hqin as (Lq & Gq).
    rewrite (og_nth qin []) by lia. cbn [rbind].
    destruct (@put_step b 0 (nth 0 qin []) eout qout Y Hb ltac:(lia)) as (e' & q' & E & G1 & G2 & G3 & G4); auto.
    + destruct (Gq 0 ltac:(lia)) as (L & _). rewrite L. unfold qlen. rewrite Esz. reflexivity.
    + intros j Hj. lia.
    + intros c y l Hc Hy Hl. rewrite HY by (auto; lia). rewrite Eid. reflexivity.
    + exists e', q'. split; auto. split; auto. split; auto. split; auto. rewrite No. exact G4.
  - destruct (ow_vl Hwf Eid) as (Hv & Hmod). cbv zeta. destruct (Nat.eqb_spec (o_vlen o) 0); [lia|].
    rewrite Hmod, Nat.eqb_refl. cbn [negb]. rewrite ins_ok_true by auto. cbn [negb].
    destruct (@rfold_inv0 _ (fun j st => eo_ok (fst st) /\ qo_ok (snd st) /\ keeps b eout (fst st) /\ after_qf b (fst st) (snd st) Y j)
      (fun j st => f <~ og (o_out o) j ;; put_out o ptr (b * BS) j (out_arr o (Q * BS) qin j (f_size f)) st) nout (eout, qout)) as ((e', q') & E & G).
    + cbn. split; auto. split; auto. split; [apply keeps_refl|]. intros j Hj. lia.
    + intros j (e1, q1) Hj (H1 & H2 & H3 & H4). cbn [fst snd] in *. rewrite og_fld by auto. cbn [rbind].
      destruct (@put_step b j (out_arr o (Q * BS) qin j (f_size (fo j))) e1 q1 Y Hb Hj) as (e2 & q2 & E & K1 & K2 & K3 & K4); auto.
      * unfold out_arr. rewrite map_length, seq_length. unfold qlen. ring.
      * intros c y l Hc Hy Hl. rewrite out_arr_val by auto. rewrite HY by auto. rewrite Eid. reflexivity.
      * exists (e2, q2). cbn. split; auto. split; auto. split; auto. split; auto. eapply keeps_trans; eauto.
    + exists e', q'. split; auto.
Qed.

(** ** one block of elements: output bases *)
Definition OV (Y : nat -> nat -> nat -> nat -> R) (j kk n l : nat) : R :=
  match f_mode (fo j) with
  | EvNone => Y j n l kk
  | m => let bb := bd (fo j) in
         sumn (q_comp bb m) (fun d => sumn (b_qpts bb) (fun q => (vf (mat bb m) ((d * b_qpts bb + q) * b_nodes bb + n)%nat * Y j q l (d * b_nc bb + kk)%nat)%R))
  end.
Definition part (S : nat -> bool) (Y : nat -> nat -> nat -> nat -> R) (p kk n l : nat) : R :=
  sumn nout (fun j => delta (S j && (lst j =? p)) (OV Y j kk n l)).
Definition St (i j : nat) : bool := (j <? i) || isnone j.
Definition ob_inv (b : nat) (e0 : list (list R)) Y (i : nat) (eout : list (list R)) : Prop :=
  eo_ok eout /\ keeps b e0 eout /\
  forall j, j < nout -> St i j = true -> blk eout (lst j) b (part (St i) Y (lst j)).

Lemma part_ext : forall S S' Y p kk n l, (forall j, j < nout -> lst j = p -> S j = S' j) -> part S Y p kk n l = part S' Y p kk n l.
Proof.
  intros S S' Y p kk n l H. unfold part. apply sumn_ext. intros j Hj. destruct (Nat.eqb_spec (lst j) p) as [E|E].
  - rewrite (H j Hj E). reflexivity.
  - rewrite !andb_false_r. reflexivity.
Qed.
Lemma part_single : forall S Y p kk n l i, i < nout -> lst i = p -> S i = true -> (forall j, j < nout -> lst j = p -> j <> i -> S j = false) ->
  part S Y p kk n l = OV Y i kk n l.
Proof.
  intros S Y p kk n l i Hi Ep Hsi H. unfold part.
  rewrite sumn_ext with (g := fun j => delta (j =? i) (OV Y j kk n l)).
  - rewrite sumn_delta. apply Nat.ltb_lt in Hi. rewrite Hi. reflexivity.
  - intros j Hj. destruct (Nat.eqb_spec j i) as [->|Hne].
    + rewrite Hsi, Ep, Nat.eqb_refl. reflexivity.
    + destruct (Nat.eqb_spec (lst j) p) as [E|E]; [rewrite (H j Hj E Hne)|rewrite andb_false_r]; reflexivity.
Qed.
Lemma part_plus : forall S S' Y p kk n l i, i < nout -> lst i = p -> S i = false -> S' i = true -> (forall j, j < nout -> lst j = p -> j <> i -> S j = S' j) ->
  part S' Y p kk n l = (part S Y p kk n l + OV Y i kk n l)%R.
Proof.
  intros S S' Y p kk n l i Hi Ep Hs0 Hs1 H. unfold part.
  assert (E : OV Y i kk n l = sumn nout (fun j => delta (j =? i) (OV Y j kk n l))).
  { rewrite sumn_delta. apply Nat.ltb_lt in Hi. rewrite Hi. reflexivity. }
  rewrite E, <- sumn_add. apply sumn_ext. intros j Hj. destruct (Nat.eqb_spec j i) as [->|Hne].
  - rewrite Hs0, Hs1, Ep, Nat.eqb_refl. cbn [andb delta]. ring.
  - destruct (Nat.eqb_spec (lst j) p) as [E'|E']; [rewrite (H j Hj E' Hne)|rewrite !andb_false_r]; cbn [delta]; ring.
Qed.

Lemma output_step : forall b e0 qout Y i eout, b < NB -> i < nout -> qo_ok qout ->
  (isnone i = false -> forall c x l, c < f_size (fo i) -> x < Q -> l < BS -> vf (nth i qout []) ((c * Q + x) * BS + l) = Y i x l c) ->
  ob_inv b e0 Y i eout ->
  exists eout', output_basis k junk D bs o s ptr (b * BS) qout i eout = Ok eout' /\ ob_inv b e0 Y (i + 1) eout'.
Proof.
  intros b e0 qout Y i eout Hb Hi (Lq & Gq) HY (He & Hkp & Hblk).
  pose proof (isnone_spec Hi) as Hm. destruct (ow_out Hwf Hi) as (Hfw & Hnw).
  destruct (isnone i) eqn:Eno.
  - exists eout. split. { unfold output_basis. rewrite og_fld by auto. cbn [rbind]. rewrite Hm. reflexivity. }
    split; auto. split; auto. intros j Hj Hsj.
    assert (HS : forall x, St (i + 1) x = St i x).
    { intros x. unfold St. destruct (Nat.ltb_spec x (i + 1)); destruct (Nat.ltb_spec x i); auto; try lia. replace x with i by lia. rewrite Eno. auto. }
    intros kk n l Hk Hn Hl. rewrite (Hblk j Hj) by (auto; rewrite <- HS; auto). apply part_ext. auto.
  - destruct (fwf_basis _ Hfw Hm) as (EB & Hbw & Enc & Enp & Enq & Erep & Es).
    destruct (lst_spec Hi) as (Hl & Hls). pose proof (lst_rd Hi) as Erd.
    destruct (so_add Hs) as (La & Ga). destruct Hptr as (Lp & Gp). destruct He as (Le & Ge).
    set (p := lst i) in *. set (bb := bd (fo i)) in *. set (m := f_mode (fo i)) in *.
    assert (Ebz : bsz p = b_nodes bb * b_nc bb * BS). { unfold bsz. rewrite Erd, <- Enp, <- Enc. ring. }
    assert (Eoff : b * BS * esize_of D (fo i) * b_nc bb = b * bsz p). { rewrite (esize_of_rd _ Hfw Hnw), <- Enp, Ebz. ring. }
    destruct (@slice_ok R (nth p eout []) (b * bsz p) (b_nodes bb * b_nc bb * BS)) as (x & Ex & Lx & Gx).
    { rewrite Ge by lia. rewrite <- Ebz. unfold esz. fold (bsz p). pose proof (blk_bound (bsz p) Hb). lia. }
    assert (Hcd : check_dims bb BS Transpose m (length (nth i qout [])) (length x) = true).
    { rewrite Gq, Lx by auto. unfold qlen. rewrite Es. fold bb m.
      assert (Hx : (BS * b_nc bb * b_qpts bb * q_comp bb m <=? Q * (q_comp bb m * b_nc bb) * BS) && (BS * b_nc bb * b_nodes bb <=? b_nodes bb * b_nc bb * BS) = true).
      { apply andb_true_iff. split; apply Nat.leb_le; rewrite ?Enq; nia. }
      unfold check_dims. destruct m; try discriminate; exact Hx. }
    (* the basis action, with or without addition *)
    assert (Hact : exists x', (if fst_out i <? i then basis_apply_add k junk bb BS Transpose m (Some (nth i qout [])) x else basis_apply k junk bb BS Transpose m (Some (nth i qout [])) x) = Ok x' /\
        length x' = length x /\ forall kk n l, kk < b_nc bb -> n < b_nodes bb -> l < BS ->
          vf x' ((kk * b_nodes bb + n) * BS + l) = (if fst_out i <? i then vf x ((kk * b_nodes bb + n) * BS + l) + OV Y i kk n l else OV Y i kk n l)%R).
    { destruct (@C14_backward R k Jmin junk bb BS m (mat bb m) (nth i qout []) x (ow_k Hwf) Hbw Erep Hcd) as (w0 & E0 & L0 & G0 & _); rewrite <- (q_comp_spec bb) in G0.
      rewrite repeat_length in L0.
      assert (G0' : forall kk n l, kk < b_nc bb -> n < b_nodes bb -> l < BS -> vf w0 ((kk * b_nodes bb + n) * BS + l) = OV Y i kk n l).
      { intros kk n l Hk Hn Hll. rewrite G0 by auto. rewrite vf_repeat0.
        unfold OV. fold m bb. cbv zeta.
        assert (E1 : sumn (q_comp bb m) (fun d => sumn (b_qpts bb) (fun q => (vf (mat bb m) ((d * b_qpts bb + q) * b_nodes bb + n)%nat *
             vf (nth i qout []) (((d * b_nc bb + kk) * b_qpts bb + q) * BS + l)%nat)%R))
           = sumn (q_comp bb m) (fun d => sumn (b_qpts bb) (fun q => (vf (mat bb m) ((d * b_qpts bb + q) * b_nodes bb + n)%nat * Y i q l (d * b_nc bb + kk)%nat)%R))).
        { apply sumn_ext. intros d Hd. apply sumn_ext. intros q Hq. f_equal. rewrite Enq in *. apply HY; auto.
          rewrite Es. fold bb m. nia. }
        rewrite E1. destruct m; try discriminate; ring. }
      destruct (Nat.ltb_spec (fst_out i) i) as [Hf|Hf].
      - assert (Hnc : collocated bb = false).
        { destruct (first_spec (sameE (o_out o)) (sameE_refl (o_out o)) i) as (_ & Hfs & _).
          apply (@ow_dout _ _ _ _ _ _ _ Hwf (fst_out i) i ltac:(lia) Hfs). }
        destruct (@C16_add R k Jmin junk junk bb BS m _ (nth i qout []) x x (ow_k Hwf) Hbw Erep Hnc eq_refl Hcd) as (w & w0' & Ew & Ew0 & Lw & Gw).
        rewrite E0 in Ew0. inversion Ew0; subst w0'. exists w. split; auto. split; auto.
        intros kk n l Hk Hn Hll. rewrite Gw, G0' by auto. reflexivity.
      - exists w0. split; auto. }
    destruct Hact as (x' & Ex' & Lx' & Gx').
    destruct (@blit_block eout p b x' (conj Le Ge) ltac:(lia) Hb ltac:(lia)) as (l' & El & B1 & B2 & B3 & B4).
    exists (upd eout p l'). split.
    { unfold output_basis. rewrite og_fld by auto. cbn [rbind]. fold m.
      rewrite (og_nth ptr 0) by lia. cbn [rbind]. rewrite Gp by auto. fold p. rewrite (og_nth eout []) by lia. cbn [rbind].
      rewrite (og_nth qout []) by lia. cbn [rbind]. rewrite (og_nth (s_add s) false) by lia. cbn [rbind]. rewrite EB.
      rewrite Eoff. cbv zeta. rewrite Ex. cbn [rbind]. rewrite Ga by auto.
      destruct m; try discriminate; rewrite Ex'; cbn [be rbind]; rewrite El; reflexivity. }
    split; auto. split. { eapply keeps_trans; eauto. }
    intros j Hj Hsj kk n l Hk Hn Hll. destruct (Nat.eq_dec (lst j) p) as [Ep|Ep].
    + rewrite Ep in *. rewrite B2 by auto. rewrite Erd, <- Enp, <- Enc in *. rewrite Gx' by auto.
      assert (Hgrp : forall h, h < nout -> lst h = p -> sameE (o_out o) h i = true). { intros h Hh Eh. apply lst_iff; auto. }
      assert (Hnn : forall h, h < nout -> lst h = p -> fst_out i <> h -> isnone h = false).
      { intros h Hh Eh Hne. specialize (Hgrp h Hh Eh).
        pose proof (@first_eq _ (sameE_refl (o_out o)) (sameE_sym (o_out o)) (@sameE_trans _ (o_out o)) h i Hgrp) as Ef.
        destruct (first_spec (sameE (o_out o)) (sameE_refl (o_out o)) h) as (F1 & F2 & _). rewrite Ef in *.
        destruct (@ow_dout _ _ _ _ _ _ _ Hwf (fst_out i) h ltac:(lia) F2) as (Hbm & _).
        unfold isnone. destruct (f_mode (fo h)); auto; discriminate. }
      assert (Hfle : forall h, h < nout -> lst h = p -> fst_out i <= h).
      { intros h Hh Eh. apply (@first_le _ (sameE_refl (o_out o)) (sameE_sym (o_out o)) (@sameE_trans _ (o_out o))). auto. }
      assert (Hsi : St (i + 1) i = true). { unfold St. destruct (Nat.ltb_spec i (i + 1)); auto; lia. }
      destruct (Nat.ltb_spec (fst_out i) i) as [Hf|Hf].
      * assert (Hfo : fst_out i < nout) by lia.
        assert (Elf : lst (fst_out i) = p). { apply lst_iff; auto. apply first_spec. apply sameE_refl. }
        rewrite Gx. 2:{ assert (kk * b_nodes bb + n < b_nc bb * b_nodes bb) by nia. nia. }
        pose proof (Hblk (fst_out i) Hfo) as Hold. rewrite Elf in Hold. unfold blk in Hold. rewrite Erd, <- Enp, <- Enc in Hold.
        unfold bpos in Hold. rewrite Erd, <- Enp in Hold. rewrite Hold; auto.
        2:{ unfold St. apply Nat.ltb_lt in Hf. rewrite Hf. reflexivity. }
        symmetry. apply part_plus; auto.
        -- unfold St. rewrite Eno. destruct (Nat.ltb_spec i i); auto; lia.
        -- intros h Hh Eh Hhi. unfold St. destruct (Nat.ltb_spec h i); destruct (Nat.ltb_spec h (i + 1)); auto; lia.
      * symmetry. apply part_single; auto. intros h Hh Eh Hhi.
        assert (fst_out i = i) by (pose proof (Hfle i Hi eq_refl); lia).
        pose proof (Hfle h Hh Eh). unfold St. rewrite Hnn by (auto; lia). destruct (Nat.ltb_spec h (i + 1)); auto; lia.
    + rewrite B4 by auto.
      assert (HS : forall h, h < nout -> lst h = lst j -> St (i + 1) h = St i h).
      { intros h Hh Eh. unfold St. destruct (Nat.ltb_spec h (i + 1)); destruct (Nat.ltb_spec h i); auto; try lia.
        exfalso. apply Ep. rewrite <- Eh. unfold p. f_equal. lia. }
      rewrite (Hblk j Hj) by (auto; rewrite <- HS; auto). apply part_ext. intros h Hh Eh. symmetry. auto.
Qed.

Lemma outputs_ok : forall b eout qout Y, b < NB -> eo_ok eout -> qo_ok qout -> after_qf b eout qout Y nout ->
  exists eout', rfold (seq 0 nout) (output_basis k junk D bs o s ptr (b * BS) qout) eout = Ok eout' /\ eo_ok eout' /\ keeps b eout eout' /\
    forall j, j < nout -> blk eout' (lst j) b (part (fun _ => true) Y (lst j)).
Proof.
  intros b eout qout Y Hb He Hq Ha.
  destruct (@rfold_inv0 _ (ob_inv b eout Y) (output_basis k junk D bs o s ptr (b * BS) qout) nout eout) as (e' & E & H1 & H2 & H3).
  - split; auto. split; [apply keeps_refl|]. intros j Hj Hsj. unfold St in Hsj. simpl in Hsj.
    pose proof (Ha j Hj) as Haj. rewrite Hsj in Haj. intros kk n l Hk Hn Hl. rewrite Haj by auto.
    pose proof (isnone_spec Hj) as Hm. rewrite Hsj in Hm.
    symmetry. rewrite part_single with (i := j); auto.
    + unfold OV. rewrite Hm. reflexivity.
    + intros h Hh Eh Hne. unfold St. simpl. destruct (isnone h) eqn:Enh; auto. exfalso.
      pose proof (isnone_spec Hh) as Hmh. rewrite Enh in Hmh. apply (@nodup_none h j); auto.
  - intros i e1 Hi Hinv. apply (output_step Hb Hi Hq). 2: exact Hinv. intros Hno. pose proof (Ha i Hi) as Hai. rewrite Hno in Hai. exact Hai.
  - exists e'. split; auto. split; auto. split; auto. intros j Hj kk n l Hk Hn Hl.
    assert (HS : forall h, h < nout -> St nout h = true). { intros h Hh. unfold St. apply Nat.ltb_lt in Hh. rewrite Hh. auto. }
    rewrite (H3 j Hj) by auto. apply part_ext. auto.
Qed.
End Op.
