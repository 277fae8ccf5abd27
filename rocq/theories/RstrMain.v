(** * Element restrictions: from the kernels to the API-level statements *)
From Coq Require Import List ZArith Lia Bool Arith Ring.
From Verif Require Import Prelude Adds RstrModel RstrSpec RstrProofs RstrKernels.
Import ListNotations.
Set Implicit Arguments.

Section Main.
Variable R : Rng.
Add Ring Rr : (r_th R).
Implicit Types u v : list R.

Lemma sumn_min : forall N M (f : nat -> R),
  sumn N (fun i => delta (i <? M) (f i)) = sumn (Nat.min N M) f.
Proof.
  intros N M f. induction N as [|N IH]; [reflexivity|].
  rewrite sumn_S, IH. destruct (Nat.ltb_spec N M).
  - replace (Nat.min (S N) M) with (S (Nat.min N M)) by lia. rewrite sumn_S.
    replace (Nat.min N M) with N by lia. reflexivity.
  - replace (Nat.min (S N) M) with (Nat.min N M) by lia. unfold delta. ring.
Qed.

Lemma sumn_blocks : forall nb bs ne (F : nat -> R), ne <= nb * bs ->
  sumn nb (fun b => sumn (Nat.min bs (ne - b * bs)) (fun j => F (b * bs + j)%nat)) = sumn ne F.
Proof.
  intros nb bs ne F H.
  transitivity (sumn (Nat.min (nb * bs) ne) F); [|f_equal; lia].
  rewrite <- sumn_min, sumn_mul. apply sumn_ext. intros b Hb.
  rewrite <- sumn_min. apply sumn_ext. intros j Hj. f_equal.
  apply eq_true_iff_eq. rewrite !Nat.ltb_lt. lia.
Qed.

Lemma sumn_deltaZ : forall L z (f : nat -> R), (0 <= z < Z.of_nat L)%Z ->
  sumn L (fun q => delta (Z.of_nat q =? z)%Z (f q)) = f (Z.to_nat z).
Proof.
  intros L z f Hz.
  rewrite sumn_ext with (g := fun q => delta (q =? Z.to_nat z) (f q)).
  - rewrite sumn_delta. replace (Z.to_nat z <? L) with true by (symmetry; apply Nat.ltb_lt; lia). reflexivity.
  - intros q Hq. f_equal. apply eq_true_iff_eq. rewrite Nat.eqb_eq, Z.eqb_eq. lia.
Qed.

Lemma epos_enc : forall d bs b j k n, j < bs ->
  epos d bs (b * bs + j) k n = b * (u_nc d * (u_es d * bs)) + (k * (u_es d * bs) + (n * bs + j)).
Proof.
  intros d bs b j k n Hj. unfold epos. rewrite div_enc, mod_enc by auto. ring.
Qed.

Lemma scatter_Lval : forall d r w u q, repr d r ->
  scatter d r w u 0 (r_nb r) q = Lval w d (fun el k n => vf u (epos d (r_bs r) el k n)) q.
Proof.
  intros d r w u q Hrep. unfold scatter, Lval.
  rewrite Nat.sub_0_r.
  rewrite <- (@sumn_blocks (r_nb r) (r_bs r) (u_ne d)) by apply (rp_nb1 Hrep).
  apply sumn_ext. intros b Hb. unfold lanes. rewrite Nat.add_0_l.
  rewrite sumn_swap. apply sumn_ext. intros j Hj. apply sumn_ext. intros k Hk.
  apply sumn_ext. intros n Hn. apply sumn_ext. intros m Hm. f_equal. f_equal.
  unfold evu. rewrite epos_enc by lia. reflexivity.
Qed.

(** The transpose contribution of one block. *)
Definition Lblock (w : variant) (d : udesc) (bs b : nat) (E : nat -> nat -> nat -> R) (q : nat) : R :=
  sumn (Nat.min bs (u_ne d - b * bs)) (fun j => sumn (u_nc d) (fun k => sumn (u_es d) (fun n => sumn (u_es d) (fun m =>
    delta (Z.of_nat q =? col d (b * bs + j) k m)%Z (coef R w d (b * bs + j) n m * E (b * bs + j)%nat k n)%R)))).

Lemma Lblock_Lval : forall w d nb bs E q, u_ne d <= nb * bs ->
  sumn nb (fun b => Lblock w d bs b E q) = Lval w d E q.
Proof.
  intros w d nb bs E q H. unfold Lval. rewrite <- (@sumn_blocks nb bs (u_ne d)) by auto.
  apply sumn_ext. intros b Hb. reflexivity.
Qed.

Lemma scatter_Lblock : forall d r w u b q E,
  (forall j k n, j < r_bs r -> k < u_nc d -> n < u_es d ->
     vf u (k * (u_es d * r_bs r) + (n * r_bs r + j)) = E (b * r_bs r + j) k n) ->
  scatter d r w u b (b + 1) q = Lblock w d (r_bs r) b E q.
Proof.
  intros d r w u b q E HE. unfold scatter, Lblock. replace (b + 1 - b) with 1 by lia.
  rewrite sumn_S, sumn_0. unfold lanes. rewrite Nat.add_0_r.
  replace (0 + sumn (u_nc d) (fun k => sumn (Nat.min (r_bs r) (u_ne d - b * r_bs r)) (fun j => sumn (u_es d) (fun n => sumn (u_es d) (fun m =>
     delta (Z.of_nat q =? col d (b * r_bs r + j) k m)%Z (coef R w d (b * r_bs r + j) n m * evu d r u 0 k n j)%R)))))%R
   with (sumn (u_nc d) (fun k => sumn (Nat.min (r_bs r) (u_ne d - b * r_bs r)) (fun j => sumn (u_es d) (fun n => sumn (u_es d) (fun m =>
     delta (Z.of_nat q =? col d (b * r_bs r + j) k m)%Z (coef R w d (b * r_bs r + j) n m * evu d r u 0 k n j)%R))))) by ring.
  rewrite sumn_swap. apply sumn_ext. intros j Hj. apply sumn_ext. intros k Hk.
  apply sumn_ext. intros n Hn. apply sumn_ext. intros m Hm. f_equal. f_equal.
  unfold evu. rewrite Nat.mul_0_l, Nat.add_0_l. apply HE; auto; lia.
Qed.

(** ** Adjointness of the two specifications *)
Lemma Eval_Lval_adjoint : forall w d (x : list R) (E : nat -> nat -> nat -> R) L,
  in_range d -> u_lsize d <= L ->
  sumn L (fun q => (vf x q * Lval w d E q)%R)
  = sumn (u_ne d) (fun el => sumn (u_nc d) (fun k => sumn (u_es d) (fun n => (Eval w d x el k n * E el k n)%R))).
Proof.
  intros w d x E L Hr HL. unfold Lval.
  rewrite sumn_ext with (g := fun q => sumn (u_ne d) (fun el => sumn (u_nc d) (fun k => sumn (u_es d) (fun n => sumn (u_es d) (fun m =>
     delta (Z.of_nat q =? col d el k m)%Z (vf x q * (coef R w d el n m * E el k n))%R))))).
  2:{ intros q Hq. rewrite <- sumn_mul_l. apply sumn_ext. intros el _. rewrite <- sumn_mul_l.
      apply sumn_ext. intros k _. rewrite <- sumn_mul_l. apply sumn_ext. intros n _. rewrite <- sumn_mul_l.
      apply sumn_ext. intros m _. apply delta_mul_l. }
  rewrite sumn_swap. apply sumn_ext. intros el Hel.
  rewrite sumn_swap. apply sumn_ext. intros k Hk.
  rewrite sumn_swap. apply sumn_ext. intros n Hn.
  rewrite sumn_swap. unfold Eval. rewrite <- sumn_mul_r. apply sumn_ext. intros m Hm.
  rewrite (@sumn_deltaZ L (col d el k m) (fun q => vf x q * (coef R w d el n m * E el k n))%R).
  - ring.
  - pose proof (Hr el k m Hel Hk Hm). lia.
Qed.

(** ** The API-level apply *)
Section Api.
Variables (d : udesc) (r : rstr) (w : variant).
Hypothesis Hrep : repr d r.
Hypothesis Hl : lengths_ok d.
Hypothesis Hr : in_range d.
Hypothesis Hc : curl_ok w d.

Lemma esize_eq : r_esize r = r_nb r * (u_nc d * (u_es d * r_bs r)).
Proof. rewrite (rp_esize Hrep). ring. Qed.

Lemma nb0 : u_ne d = 0 -> r_nb r = 0.
Proof.
  intros H. pose proof (rp_nb2 Hrep) as B. pose proof (rp_bs Hrep). rewrite H in B.
  destruct (r_nb r); [auto|]. nia.
Qed.

Lemma apply_nt_ok : forall u v, u_lsize d <= length u -> r_esize r <= length v ->
  exists v', rstr_apply w r NoTranspose u v = Ok v' /\ length v' = length v /\
   (forall b j k n, b < r_nb r -> j < r_bs r -> k < u_nc d -> n < u_es d ->
      vf v' (epos d (r_bs r) (b * r_bs r + j) k n) = Eval w d u (elt (u_ne d) (r_bs r) b j) k n) /\
   (forall i, r_esize r <= i -> vf v' i = vf v i).
Proof.
  intros u v Hu Hv. unfold rstr_apply. rewrite (rp_ls Hrep).
  replace (u_lsize d <=? length u) with true by (symmetry; apply Nat.leb_le; lia).
  replace (r_esize r <=? length v) with true by (symmetry; apply Nat.leb_le; lia). cbn [negb].
  rewrite (rp_ne Hrep). destruct (Nat.ltb_spec 0 (u_ne d)) as [Hne|Hne].
  - pose proof esize_eq as Ees. rewrite Ees in Hv.
    pose proof (@apply_core_nt R d r w u v 0 (r_nb r) Hrep Hl Hr Hc Hne ltac:(lia) Hu) as A.
    rewrite Nat.sub_0_r in A. rewrite A by auto. unfold gather.
    rewrite Nat.sub_0_r. set (N := r_nb r * (u_nc d * (u_es d * r_bs r))) in *.
    eexists. split; [reflexivity|]. split; [|split].
    + rewrite app_length, map_length, seq_length, skipn_length. lia.
    + intros b j k n Hb Hj Hk Hn. rewrite epos_enc by auto.
      assert (HN : b * (u_nc d * (u_es d * r_bs r)) + (k * (u_es d * r_bs r) + (n * r_bs r + j)) < N).
      { apply enc_lt; auto. apply enc_lt; auto. apply enc_lt; auto. }
      unfold vf. rewrite app_nth1 by (rewrite map_length, seq_length; auto).
      rewrite nth_map_seq by auto.
      rewrite dec_b_enc, dec_k_enc, dec_n_enc, dec_j_enc; auto.
    + intros i Hi. rewrite Ees in Hi. unfold vf. rewrite app_nth2; rewrite map_length, seq_length; auto.
      rewrite <- (firstn_skipn N v) at 2. rewrite (app_nth2 (firstn N v)); rewrite firstn_length.
      * f_equal. lia.
      * lia.
  - exists v. split; auto. split; auto. split; auto.
    intros b j k n Hb. rewrite nb0 in Hb by lia. lia.
Qed.

Lemma apply_t_ok : forall u v, r_esize r <= length u -> u_lsize d <= length v ->
  exists v', rstr_apply w r Transpose u v = Ok v' /\ length v' = length v /\
   forall q, vf v' q = (vf v q + Lval w d (fun el k n => vf u (epos d (r_bs r) el k n)) q)%R.
Proof.
  intros u v Hu Hv. unfold rstr_apply. rewrite (rp_ls Hrep).
  replace (u_lsize d <=? length v) with true by (symmetry; apply Nat.leb_le; lia).
  replace (r_esize r <=? length u) with true by (symmetry; apply Nat.leb_le; lia). cbn [negb].
  rewrite (rp_ne Hrep). destruct (Nat.ltb_spec 0 (u_ne d)) as [Hne|Hne].
  - rewrite esize_eq in Hu.
    destruct (@apply_core_t R d r w u 0 (r_nb r) (length v) Hrep Hl Hr Hc Hne ltac:(lia) ltac:(rewrite Nat.sub_0_r; auto) Hv v eq_refl)
      as (v' & E & Hlen & Hq).
    rewrite E. exists v'. split; auto. split; auto. intros q. rewrite Hq, scatter_Lval by auto. reflexivity.
  - exists v. split; auto. split; auto. intros q. unfold Lval.
    replace (u_ne d) with 0 by lia. rewrite sumn_0. ring.
Qed.

(** ** One block *)
Hypothesis Hw : w = Signed.
Lemma block_nt_ok : forall w' b u v, length u = u_lsize d -> length v = r_bs r * u_es d * u_nc d -> b < r_nb r ->
  exists v', rstr_apply_block w' r b NoTranspose u v = Ok v' /\ length v' = length v /\
   (forall j k n, j < r_bs r -> k < u_nc d -> n < u_es d ->
      vf v' (k * (u_es d * r_bs r) + (n * r_bs r + j)) = Eval w d u (elt (u_ne d) (r_bs r) b j) k n).
Proof.
  intros w' b u v Hu Hv Hb. unfold rstr_apply_block. rewrite (rp_ls Hrep), (rp_es Hrep), (rp_nc Hrep), (rp_ne Hrep).
  rewrite Hu, Hv, !Nat.eqb_refl. cbn [negb].
  pose proof (rp_nb2 Hrep) as B2. pose proof (rp_bs Hrep) as Bp.
  replace (r_bs r * b <=? u_ne d) with true by (symmetry; apply Nat.leb_le; nia). cbn [negb].
  assert (Hne : 0 < u_ne d) by nia.
  pose proof (@apply_core_nt R d r w u v b (b + 1) Hrep Hl Hr Hc Hne ltac:(lia) ltac:(lia)) as A.
  rewrite Hw in A at 1 2. simpl v_signs in A. simpl v_orients in A.
  replace (b + 1 - b) with 1 in A by lia.
  rewrite A by (rewrite Hv; nia). unfold gather. replace (b + 1 - b) with 1 by lia.
  eexists. split; [reflexivity|]. split.
  - rewrite app_length, map_length, seq_length, skipn_length, Hv. nia.
  - intros j k n Hj Hk Hn.
    assert (HN : 0 * (u_nc d * (u_es d * r_bs r)) + (k * (u_es d * r_bs r) + (n * r_bs r + j)) < 1 * (u_nc d * (u_es d * r_bs r))).
    { apply enc_lt; auto. apply enc_lt; auto. apply enc_lt; auto. }
    rewrite <- (Nat.add_0_l (k * (u_es d * r_bs r) + (n * r_bs r + j))).
    change 0 with (0 * (u_nc d * (u_es d * r_bs r))).
    unfold vf. rewrite app_nth1 by (rewrite map_length, seq_length; auto).
    rewrite nth_map_seq by auto.
    rewrite dec_b_enc, dec_k_enc, dec_n_enc, dec_j_enc; auto. rewrite Nat.add_0_r. reflexivity.
Qed.

Lemma block_t_ok : forall w' b u v E, length u = r_bs r * u_es d * u_nc d -> length v = u_lsize d -> b < r_nb r ->
  (forall j k n, j < r_bs r -> k < u_nc d -> n < u_es d ->
     vf u (k * (u_es d * r_bs r) + (n * r_bs r + j)) = E (b * r_bs r + j) k n) ->
  exists v', rstr_apply_block w' r b Transpose u v = Ok v' /\ length v' = length v /\
   forall q, vf v' q = (vf v q + Lblock w d (r_bs r) b E q)%R.
Proof.
  intros w' b u v E Hu Hv Hb HE. unfold rstr_apply_block. rewrite (rp_ls Hrep), (rp_es Hrep), (rp_nc Hrep), (rp_ne Hrep).
  rewrite Hu, Hv, !Nat.eqb_refl. cbn [negb].
  pose proof (rp_nb2 Hrep) as B2. pose proof (rp_bs Hrep) as Bp.
  replace (r_bs r * b <=? u_ne d) with true by (symmetry; apply Nat.leb_le; nia). cbn [negb].
  destruct (@apply_core_t R d r w u b (b + 1) (length v) Hrep Hl Hr Hc ltac:(nia) ltac:(lia)) with (v := v) as (v' & E' & Hlen & Hq); auto.
  { replace (b + 1 - b) with 1 by lia. rewrite Hu. nia. }
  { lia. }
  rewrite Hw in E' at 1 2. simpl v_signs in E'. simpl v_orients in E'.
  rewrite E'. exists v'. split; auto. split; [congruence|]. intros q. rewrite Hq. f_equal.
  apply scatter_Lblock. auto.
Qed.
End Api.
End Main.
