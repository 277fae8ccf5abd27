(** * What every contraction kernel computes *)
From Coq Require Import List ZArith Lia Bool Arith Ring.
From Verif Require Import Prelude Adds RstrModel RstrProofs TensorModel TensorProofs TensorAvx.
Import ListNotations.
Set Implicit Arguments.

Section M.
Variable R : Rng.
Add Ring Rr : (r_th R).
Local Open Scope nat_scope.

(** [v'] is the documented result: [v'_ajc = (add ? v_ajc : 0) + sum_b t_jb u_abc], nothing else touched. *)
Definition contracts (A B C J : nat) (t : list R) (tm : tmode) (add : bool) (u v v' : list R) : Prop :=
  length v' = length v /\
  (forall a j c, a < A -> j < J -> c < C ->
     vf v' ((a * J + j) * C + c) = ((if add then vf v ((a * J + j) * C + c)%nat else 0) +
       sumn B (fun b => (vf t (match tm with NoTranspose => j * B + b | Transpose => b * J + j end)%nat
                         * vf u ((a * B + b) * C + c)%nat)))%R) /\
  (forall q, A * J * C <= q -> vf v' q = vf v q).

(** The result is unique. *)
Lemma nth_skipn : forall T n (l : list T) d i, nth i (skipn n l) d = nth (n + i) l d.
Proof.
  intros T n. induction n as [|n IH]; intros l d i; [reflexivity|].
  destruct l; simpl; [destruct i; reflexivity|]. apply IH.
Qed.

Lemma dec3 : forall A J C q, q < A * J * C -> exists a j c, a < A /\ j < J /\ c < C /\ q = (a * J + j) * C + c.
Proof.
  intros A J C q Hq. assert (0 < C) by nia. assert (0 < J) by nia.
  exists (q / C / J), ((q / C) mod J), (q mod C).
  assert (q / C < A * J) by (apply Nat.div_lt_upper_bound; lia).
  repeat split; try (apply Nat.mod_upper_bound; lia).
  - apply Nat.div_lt_upper_bound; lia.
  - pose proof (Nat.div_mod q C ltac:(lia)). pose proof (Nat.div_mod (q / C) J ltac:(lia)). lia.
Qed.

Lemma contracts_unique : forall A B C J t tm add u v v1 v2,
  contracts A B C J t tm add u v v1 -> contracts A B C J t tm add u v v2 -> v1 = v2.
Proof.
  intros A B C J t tm add u v v1 v2 (L1 & G1 & N1) (L2 & G2 & N2).
  apply vf_ext; [congruence|]. intros q. destruct (Nat.lt_ge_cases q (A * J * C)) as [H|H].
  - destruct (dec3 _ _ _ H) as (a & j & c & Ha & Hj & Hc & ->). rewrite G1, G2 by auto. reflexivity.
  - rewrite N1, N2 by auto. reflexivity.
Qed.

Lemma enc3_inj : forall a j c a' j' c' J C, j < J -> c < C -> j' < J -> c' < C ->
  (a * J + j) * C + c = (a' * J + j') * C + c' -> a = a' /\ j = j' /\ c = c'.
Proof.
  intros a j c a' j' c' J C Hj Hc Hj' Hc' E.
  assert (E1 : a * J + j = a' * J + j').
  { rewrite <- (div_enc (a * J + j) Hc), <- (div_enc (a' * J + j') Hc'). congruence. }
  assert (E2 : c = c') by (rewrite E1 in E; lia).
  assert (E3 : a = a') by (rewrite <- (div_enc a Hj), <- (div_enc a' Hj'); congruence).
  subst a'. repeat split; auto. lia.
Qed.

Lemma sumn_one : forall n k (f : nat -> R), k < n -> (forall i, i < n -> i <> k -> f i = 0%R) -> sumn n f = f k.
Proof.
  intros n k f Hk H. rewrite sumn_ext with (g := fun i => delta (i =? k) (f i)).
  - rewrite sumn_delta. replace (k <? n) with true by (symmetry; apply Nat.ltb_lt; auto). reflexivity.
  - intros i Hi. destruct (Nat.eqb_spec i k); [reflexivity|]. rewrite H by auto. reflexivity.
Qed.

Lemma tcg_at : forall A B C J (t : list R) tm u a j c, a < A -> j < J -> c < C ->
  tcg A B C J t tm u ((a * J + j) * C + c) = csum tm B C J t u a j c.
Proof.
  intros A B C J t tm u a j c Ha Hj Hc. unfold tcg.
  rewrite (@sumn_one A a) by (try assumption; try (intros i Hi Hne; apply sumn_zero; intros j' Hj'; apply sumn_zero; intros c' Hc';
    destruct (Nat.eqb_spec ((a * J + j) * C + c) ((i * J + j') * C + c')) as [E|E]; [|reflexivity];
    apply enc3_inj in E; auto; exfalso; destruct E as (E & _); congruence)).
  rewrite (@sumn_one J j) by (try assumption; try (intros i Hi Hne; apply sumn_zero; intros c' Hc';
    destruct (Nat.eqb_spec ((a * J + j) * C + c) ((a * J + i) * C + c')) as [E|E]; [|reflexivity];
    apply enc3_inj in E; auto; exfalso; destruct E as (_ & E & _); congruence)).
  rewrite (@sumn_one C c) by (try assumption; try (intros i Hi Hne;
    destruct (Nat.eqb_spec ((a * J + j) * C + c) ((a * J + j) * C + i)) as [E|E]; [|reflexivity]; exfalso; lia)).
  rewrite Nat.eqb_refl. reflexivity.
Qed.

Lemma tcg_out : forall A B C J (t : list R) tm u q, A * J * C <= q -> tcg A B C J t tm u q = 0%R.
Proof.
  intros A B C J t tm u q Hq. unfold tcg. apply sumn_zero. intros a Ha. apply sumn_zero. intros j Hj. apply sumn_zero. intros c Hc.
  pose proof (idx_lt Ha Hj Hc). destruct (Nat.eqb_spec q ((a * J + j) * C + c)); [lia|reflexivity].
Qed.

Lemma zero_ok : forall n (v : list R), n <= length v ->
  exists v', zero_first n v = Some v' /\ length v' = length v /\
    (forall q, q < n -> vf v' q = 0%R) /\ (forall q, n <= q -> vf v' q = vf v q).
Proof.
  intros n v Hn. unfold zero_first.
  assert (E : forN n (fun (q : nat) (v : list R) => set v q 0%R) v = Some (map (fun _ => 0%R) (seq 0 n) ++ skipn n v)).
  { apply (@forN_fill R n (fun _ => Some 0%R)); auto. }
  rewrite E. eexists. split; [reflexivity|].
  assert (Hm : length (map (fun _ : nat => (0%R : R)) (seq 0 n)) = n) by (rewrite map_length, seq_length; auto).
  split; [|split].
  - rewrite app_length, Hm, skipn_length. lia.
  - intros q Hq. unfold vf. rewrite app_nth1 by lia. apply (@vf_map_seq R (fun _ => 0%R) n q Hq).
  - intros q Hq. unfold vf. rewrite app_nth2 by lia. rewrite Hm, nth_skipn. f_equal. lia.
Qed.

(** From "adds tcg" to the documented result. *)
Lemma adds_contracts : forall A B C J t tm (add : bool) u v k, A * J * C <= length v ->
  Adds R (length v) k (tcg A B C J t tm u) ->
  exists v', (v1 <- (if add then Some v else zero_first (A * J * C) v) ;; k v1) = Some v' /\
    contracts A B C J t tm add u v v'.
Proof.
  intros A B C J t tm add u v k HL Hk.
  assert (H1 : exists v1, (if add then Some v else zero_first (A * J * C) v) = Some v1 /\ length v1 = length v /\
     (forall q, q < A * J * C -> vf v1 q = if add then vf v q else 0%R) /\ (forall q, A * J * C <= q -> vf v1 q = vf v q)).
  { destruct add; [exists v; auto|]. apply zero_ok. auto. }
  destruct H1 as (v1 & E1 & L1 & G1 & N1). rewrite E1. cbn [bind].
  destruct (Hk v1 L1) as (v' & E' & L' & G'). exists v'. split; auto.
  split; [congruence|]. split.
  - intros a j c Ha Hj Hc. rewrite G', tcg_at by auto. rewrite G1 by (apply idx_lt; auto). reflexivity.
  - intros q Hq. rewrite G', tcg_out, N1 by auto. ring.
Qed.

Lemma ref_contracts : forall A B C J t tm add u v, B * J <= length t -> A * B * C <= length u -> A * J * C <= length v ->
  exists v', contract_ref A B C J t tm add u v = Some v' /\ contracts A B C J t tm add u v v'.
Proof. intros. apply adds_contracts; auto. apply loop_adds; auto. Qed.

Lemma opt_contracts : forall A B C J t tm add u v, B * J <= length t -> A * B * C <= length u -> A * J * C <= length v ->
  exists v', contract_opt A B C J t tm add u v = Some v' /\ contracts A B C J t tm add u v v'.
Proof.
  intros. unfold contract_opt. apply (@adds_contracts A B C J t tm add u v); auto.
  destruct (Nat.eqb_spec C 1) as [->|_]; apply loop_adds; auto.
Qed.

(** Entries of [v] the AVX code needs: with C = J = 1 its four-lane accesses to the last full tile of rows
    reach past the end of the result. *)
Definition avx_need (A C J : nat) : nat :=
  if (C =? 1) && (J =? 1) && (4 <? A) then Nat.max (A * J * C) ((A - 1) / 4 * 4 + 3) else A * J * C.

Lemma avx_contracts : forall A B C J t tm add u v, 0 < A -> 0 < J ->
  B * J <= length t -> A * B * C <= length u -> avx_need A C J <= length v ->
  exists v', contract_avx A B C J t tm add u v = Some v' /\ contracts A B C J t tm add u v v'.
Proof.
  intros A B C J t tm add u v HA HJ Ht Hu Hv. unfold contract_avx.
  assert (HL : A * J * C <= length v). { eapply Nat.le_trans; [|exact Hv]. unfold avx_need. destruct ((C =? 1) && (J =? 1) && (4 <? A)); [apply Nat.le_max_l|apply le_n]. }
  apply (@adds_contracts A B C J t tm add u v); auto. unfold tcg.
  destruct (Nat.eqb_spec C 1) as [->|HC1].
  - eapply Adds_ext; [apply single_adds; try lia|].
    + intros -> H4. eapply Nat.le_trans; [|exact Hv]. unfold avx_need.
      replace (4 <? A) with true by (symmetry; apply Nat.ltb_lt; auto). apply Nat.le_max_r.
    + intros q. cbv beta. apply sumn_ext. intros a Ha. apply sumn_ext. intros j Hj. rewrite sumn_S, sumn_0.
      unfold csum. replace ((a * J + j) * 1 + 0) with (a * J + j) by lia.
      match goal with |- _ = (0 + ?x)%R => transitivity x; [|ring] end. f_equal.
      apply sumn_ext. intros b Hb. replace ((a * B + b) * 1 + 0) with (a * B + b) by lia. reflexivity.
  - pose proof (Nat.div_mod C 8 ltac:(lia)) as ED. pose proof (Nat.mod_upper_bound C 8 ltac:(lia)).
    eapply Adds_ext.
    + apply Adds_seq with (g1 := fun q => sumn A (fun a => sumn J (fun j => sumn (C / 8 * 8) (fun c =>
         delta (q =? (a * J + j) * C + c) (csum tm B C J t u a j c)))))
        (g2 := fun q => sumn A (fun a => sumn J (fun j => sumn (C - C / 8 * 8) (fun c =>
         delta (q =? (a * J + j) * C + (C / 8 * 8 + c)) (csum tm B C J t u a j (C / 8 * 8 + c)))))).
      * destruct (Nat.leb_spec 8 C).
        -- apply (@blocked_adds R A B C J t tm u Ht Hu (length v) 4 2); lia.
        -- eapply Adds_ext; [apply Adds_id|]. intros q. symmetry. rewrite Nat.div_small by lia.
           apply sumn_zero. intros a Ha. apply sumn_zero. reflexivity.
      * destruct (Nat.eqb_spec (C mod 8) 0) as [E|E].
        -- eapply Adds_ext; [apply Adds_id|]. intros q. symmetry. replace (C - C / 8 * 8) with 0 by lia.
           apply sumn_zero. intros a Ha. apply sumn_zero. reflexivity.
        -- apply remainder_adds; auto; try lia.
    + intros q. cbv beta. rewrite <- sumn_add. apply sumn_ext. intros a Ha. rewrite <- sumn_add. apply sumn_ext. intros j Hj.
      apply (@sumn_range R (C / 8 * 8) C (fun c => delta (q =? (a * J + j) * C + c) (csum tm B C J t u a j c))).
      lia.
Qed.

(** Kernels usable for results with at least [Jmin] rows. *)
Definition kernel_ok (Jmin : nat) (k : kernel R) : Prop :=
  forall A B C J t tm add u v, 0 < A -> 0 < J -> Jmin <= J ->
    B * J <= length t -> A * B * C <= length u -> A * J * C <= length v ->
    exists v', k A B C J t tm add u v = Some v' /\ contracts A B C J t tm add u v v'.

Lemma ref_ok : kernel_ok 0 contract_ref.
Proof. red. intros. apply ref_contracts; auto. Qed.
Lemma opt_ok : kernel_ok 0 contract_opt.
Proof. red. intros. apply opt_contracts; auto. Qed.
Lemma avx_ok : kernel_ok 2 contract_avx.
Proof.
  red. intros A B C J t tm add u v HA HJ H2 **. apply avx_contracts; auto. unfold avx_need.
  destruct (Nat.eqb_spec J 1); [lia|]. rewrite andb_false_r. simpl. auto.
Qed.

(** ** CeedTensorContractStridedApply *)
Lemma vf_skipn : forall (v : list R) o q, vf (skipn o v) q = vf v (o + q).
Proof. intros. unfold vf. apply nth_skipn. Qed.

(** Non-transposed: slot d of [v] gets the contraction with slot d of [t]. *)
Definition strided_n (A B C D J : nat) (t : list R) (add : bool) (u v v' : list R) : Prop :=
  length v' = length v /\
  (forall d a j c, d < D -> a < A -> j < J -> c < C ->
     vf v' (((d * A + a) * J + j) * C + c) = ((if add then vf v (((d * A + a) * J + j) * C + c)%nat else 0) +
       sumn B (fun b => (vf t ((d * J + j) * B + b)%nat * vf u ((a * B + b) * C + c)%nat)))%R) /\
  (forall q, D * A * J * C <= q -> vf v' q = vf v q).

Lemma strided_n_ok : forall k Jmin A B C D J t add u v, kernel_ok Jmin k -> 0 < A -> 0 < J -> Jmin <= J ->
  D * B * J <= length t -> A * B * C <= length u -> D * A * J * C <= length v ->
  exists v', contract_strided k A B C D J t NoTranspose add u v = Some v' /\ strided_n A B C D J t add u v v'.
Proof.
  intros k Jmin A B C D J t add u v Hk HA HJ HJm Ht Hu Hv. unfold contract_strided.
  apply (@forN_inv (list R) (fun n v' => length v' = length v /\
    (forall d a j c, d < n -> a < A -> j < J -> c < C ->
     vf v' (((d * A + a) * J + j) * C + c) = ((if add then vf v (((d * A + a) * J + j) * C + c)%nat else 0) +
       sumn B (fun b => (vf t ((d * J + j) * B + b)%nat * vf u ((a * B + b) * C + c)%nat)))%R) /\
    (forall q, n * A * J * C <= q -> vf v' q = vf v q))).
  - split; auto. split; [intros; lia|auto].
  - intros d v1 Hd (L1 & G1 & N1). rewrite !Nat.add_1_r. unfold at_off.
    assert (Hmul : d * A * J * C + A * J * C <= D * A * J * C).
    { replace (d * A * J * C + A * J * C) with (S d * (A * J * C)) by ring. replace (D * A * J * C) with (D * (A * J * C)) by ring.
      apply Nat.mul_le_mono_r. lia. }
    assert (Hmt : d * B * J + B * J <= D * B * J).
    { replace (d * B * J + B * J) with (S d * (B * J)) by ring. replace (D * B * J) with (D * (B * J)) by ring.
      apply Nat.mul_le_mono_r. lia. }
    destruct (Hk A B C J (skipn (d * B * J) t) NoTranspose add u (skipn (d * A * J * C) v1)) as (w & Ew & Lw & Gw & Nw); auto.
    { rewrite skipn_length. lia. } { rewrite skipn_length. lia. }
    rewrite Ew. cbn [bind]. eexists. split; [reflexivity|].
    rewrite skipn_length in Lw.
    assert (Lf : length (firstn (d * A * J * C) v1) = d * A * J * C) by (rewrite firstn_length; lia).
    assert (Hlow : forall q, q < d * A * J * C -> vf (firstn (d * A * J * C) v1 ++ w) q = vf v1 q).
    { intros q Hq. unfold vf. rewrite app_nth1 by lia. rewrite <- (firstn_skipn (d * A * J * C) v1) at 2.
      rewrite app_nth1 by lia. reflexivity. }
    assert (Hhi : forall q, vf (firstn (d * A * J * C) v1 ++ w) (d * A * J * C + q) = vf w q).
    { intros q. unfold vf. rewrite app_nth2 by lia. f_equal. lia. }
    split; [rewrite app_length; lia|]. split.
    + intros d' a j c Hd' Ha Hj Hc. destruct (Nat.eq_dec d' d) as [->|Hne].
      * replace (((d * A + a) * J + j) * C + c) with (d * A * J * C + ((a * J + j) * C + c)) by ring.
        rewrite Hhi, Gw by auto. rewrite vf_skipn.
        rewrite N1 by lia. f_equal.
        apply sumn_ext. intros b Hb. rewrite vf_skipn. f_equal. f_equal. ring.
      * assert (((d' * A + a) * J + j) * C + c < (d' * A + A) * J * C) by (apply idx_lt; lia).
        assert ((d' * A + A) * J * C <= d * A * J * C).
        { replace ((d' * A + A) * J * C) with (S d' * (A * J * C)) by ring. replace (d * A * J * C) with (d * (A * J * C)) by ring.
          apply Nat.mul_le_mono_r. lia. }
        rewrite Hlow by lia. apply G1; auto; lia.
    + intros q Hq. replace (S d * A * J * C) with (d * A * J * C + A * J * C) in Hq by ring.
      replace q with (d * A * J * C + (q - d * A * J * C)) by lia. rewrite Hhi, Nw by lia. rewrite vf_skipn. apply N1. lia.
Qed.

(** Transposed, adding: the contributions of all slots are summed. *)
Definition strided_t (A B C D J : nat) (t : list R) (u v v' : list R) : Prop :=
  length v' = length v /\
  (forall a b c, a < A -> b < B -> c < C ->
     vf v' ((a * B + b) * C + c) = (vf v ((a * B + b) * C + c)%nat +
       sumn D (fun d => sumn J (fun j => vf t ((d * J + j) * B + b)%nat * vf u (((d * A + a) * J + j) * C + c)%nat)))%R) /\
  (forall q, A * B * C <= q -> vf v' q = vf v q).

Lemma strided_t_ok : forall k Jmin A B C D J t u v, kernel_ok Jmin k -> 0 < A -> 0 < B -> Jmin <= B ->
  D * B * J <= length t -> D * A * J * C <= length u -> A * B * C <= length v ->
  exists v', contract_strided k A B C D J t Transpose true u v = Some v' /\ strided_t A B C D J t u v v'.
Proof.
  intros k Jmin A B C D J t u v Hk HA HJ HJm Ht Hu Hv. unfold contract_strided.
  apply (@forN_inv (list R) (fun n v' => length v' = length v /\
    (forall a b c, a < A -> b < B -> c < C ->
     vf v' ((a * B + b) * C + c) = (vf v ((a * B + b) * C + c)%nat +
       sumn n (fun d => sumn J (fun j => vf t ((d * J + j) * B + b)%nat * vf u (((d * A + a) * J + j) * C + c)%nat)))%R) /\
    (forall q, A * B * C <= q -> vf v' q = vf v q))).
  - split; auto. split; [|auto]. intros. rewrite sumn_0. ring.
  - intros d v1 Hd (L1 & G1 & N1). rewrite !Nat.add_1_r.
    assert (Hmul : d * A * J * C + A * J * C <= D * A * J * C).
    { replace (d * A * J * C + A * J * C) with (S d * (A * J * C)) by ring. replace (D * A * J * C) with (D * (A * J * C)) by ring.
      apply Nat.mul_le_mono_r. lia. }
    assert (Hmt : d * B * J + J * B <= D * B * J).
    { replace (d * B * J + J * B) with (S d * (B * J)) by ring. replace (D * B * J) with (D * (B * J)) by ring.
      apply Nat.mul_le_mono_r. lia. }
    destruct (Hk A J C B (skipn (d * B * J) t) Transpose true (skipn (d * A * J * C) u) v1) as (w & Ew & Lw & Gw & Nw); auto; try lia.
    { rewrite skipn_length. lia. } { rewrite skipn_length. lia. }
    exists w. split; auto. split; [congruence|]. split.
    + intros a b c Ha Hb Hc. rewrite Gw, G1 by auto. rewrite sumn_S.
      match goal with |- (?x + ?y + ?z = ?x + (?y + ?z'))%R => enough (E : z = z') by (rewrite E; ring) end.
      apply sumn_ext. intros j Hj. rewrite !vf_skipn. f_equal; f_equal; ring.
    + intros q Hq. rewrite Nw, N1 by auto. reflexivity.
Qed.
End M.
Arguments contracts {R}. Arguments kernel_ok {R}. Arguments strided_n {R}. Arguments strided_t {R}.
