(** * C13: contraction kernels *)
From Coq Require Import List ZArith Lia Bool Arith Ring.
From Verif Require Import Prelude Adds RstrModel RstrProofs TensorModel TensorProofs TensorAvx TensorMain.
Import ListNotations.
Set Implicit Arguments.
Local Open Scope nat_scope.

(** ref and opt, all sizes *)
Theorem C13_ref : forall (R : Rng) A B C J (t : list R) tm add u v,
  B * J <= length t -> A * B * C <= length u -> A * J * C <= length v ->
  exists v', contract_ref A B C J t tm add u v = Some v' /\ contracts A B C J t tm add u v v'.
Proof. intros. apply ref_contracts; auto. Qed.
Print Assumptions C13_ref.

Theorem C13_opt : forall (R : Rng) A B C J (t : list R) tm add u v,
  B * J <= length t -> A * B * C <= length u -> A * J * C <= length v ->
  contract_opt A B C J t tm add u v = contract_ref A B C J t tm add u v.
Proof.
  intros R A B C J t tm add u v Ht Hu Hv.
  destruct (@ref_contracts R A B C J t tm add u v) as (v1 & E1 & K1); auto.
  destruct (@opt_contracts R A B C J t tm add u v) as (v2 & E2 & K2); auto.
  rewrite E1, E2. f_equal. eapply contracts_unique; eauto.
Qed.
Print Assumptions C13_opt.

(** AVX, all tile remainders; [avx_need] is the output size except when C = J = 1. *)
Theorem C13_avx : forall (R : Rng) A B C J (t : list R) tm add u v, 0 < A -> 0 < J ->
  B * J <= length t -> A * B * C <= length u -> avx_need A C J <= length v ->
  contract_avx A B C J t tm add u v = contract_ref A B C J t tm add u v.
Proof.
  intros R A B C J t tm add u v HA HJ Ht Hu Hv.
  assert (A * J * C <= length v). { eapply Nat.le_trans; [|exact Hv]. unfold avx_need. destruct ((C =? 1) && (J =? 1) && (4 <? A)); [apply Nat.le_max_l|apply le_n]. }
  destruct (@ref_contracts R A B C J t tm add u v) as (v1 & E1 & K1); auto.
  destruct (@avx_contracts R A B C J t tm add u v) as (v2 & E2 & K2); auto.
  rewrite E1, E2. f_equal. eapply contracts_unique; eauto.
Qed.
Print Assumptions C13_avx.
Theorem C13_avx_need : forall A C J, C <> 1 \/ J <> 1 \/ A <= 4 \/ A mod 4 = 0 \/ A mod 4 = 3 -> avx_need A C J = A * J * C.
Proof.
  intros A C J H. unfold avx_need.
  destruct (Nat.eqb_spec C 1) as [->|]; [|reflexivity]. destruct (Nat.eqb_spec J 1) as [->|]; [|reflexivity].
  destruct (Nat.ltb_spec 4 A); [|reflexivity]. cbn [andb].
  destruct H as [H|[H|[H|H]]]; try congruence; try lia.
  pose proof (Nat.div_mod A 4 ltac:(lia)). pose proof (Nat.div_mod (A - 1) 4 ltac:(lia)).
  pose proof (Nat.mod_upper_bound (A - 1) 4 ltac:(lia)).
  apply Nat.max_l. rewrite !Nat.mul_1_r. destruct H; lia.
Qed.

Example C13_ex : exists v', 
  @contract_avx Zrng 2 2 9 3 [1;2;3;4;5;6]%Z NoTranspose true (map Z.of_nat (seq 0 36)) (repeat 1%Z 54) = Some v' /\
  contracts 2 2 9 3 ([1;2;3;4;5;6]%Z : list Zrng) NoTranspose true (map Z.of_nat (seq 0 36)) (repeat 1%Z 54) v'.
Proof. apply avx_contracts; try (vm_compute; lia). Qed.

(** Finding: with one output row and one column (e.g. one quadrature point per direction) the AVX code reads
    and writes past the end of an exactly sized output. *)
Theorem C13_avx_bounds_refuted : exists A B C J (t u v : list Zrng),
  0 < A /\ 0 < J /\ B * J <= length t /\ A * B * C <= length u /\ length v = A * J * C /\
  (exists v', contract_ref A B C J t NoTranspose false u v = Some v') /\
  contract_avx A B C J t NoTranspose false u v = None.
Proof.
  exists 5, 2, 1, 1, [1; 1]%Z, (repeat 1%Z 10), (repeat 0%Z 5). simpl.
  repeat split; try lia. eexists. reflexivity.
Qed.
Print Assumptions C13_avx_bounds_refuted.

(** Strided contraction, for any kernel meeting its contract (the three above do). *)
Theorem C13_strided : forall (R : Rng) k Jmin A B C D J (t : list R) add u v, kernel_ok Jmin k -> 0 < A -> 0 < J -> Jmin <= J ->
  D * B * J <= length t -> A * B * C <= length u -> D * A * J * C <= length v ->
  exists v', contract_strided k A B C D J t NoTranspose add u v = Some v' /\ strided_n A B C D J t add u v v'.
Proof. intros. eapply strided_n_ok; eauto. Qed.
Theorem C13_strided_transpose_add : forall (R : Rng) k Jmin A B C D J (t : list R) u v, kernel_ok Jmin k -> 0 < A -> 0 < B -> Jmin <= B ->
  D * B * J <= length t -> D * A * J * C <= length u -> A * B * C <= length v ->
  exists v', contract_strided k A B C D J t Transpose true u v = Some v' /\ strided_t A B C D J t u v v'.
Proof. intros. eapply strided_t_ok; eauto. Qed.
Theorem C13_kernels_ok : forall R : Rng, kernel_ok 0 (@contract_ref R) /\ kernel_ok 0 (@contract_opt R) /\ kernel_ok 2 (@contract_avx R).
Proof. intros R. split; [apply ref_ok|]. split; [apply opt_ok|apply avx_ok]. Qed.
Print Assumptions C13_strided. Print Assumptions C13_strided_transpose_add. Print Assumptions C13_kernels_ok.
Example C13_strided_ex : exists v',
  contract_strided contract_avx 2 2 3 2 2 ([1;2;3;4;5;6;7;8]%Z : list Zrng) Transpose true (map Z.of_nat (seq 0 24)) (repeat 1%Z 12) = Some v' /\
  strided_t 2 2 3 2 2 ([1;2;3;4;5;6;7;8]%Z : list Zrng) (map Z.of_nat (seq 0 24)) (repeat 1%Z 12) v'.
Proof. apply (@strided_t_ok Zrng contract_avx 2); try (simpl; lia). apply avx_ok. Qed.

(** Finding: transposed and not adding, every slot overwrites the previous one, so the documented
    [v_ajc = t_dbj u_dabc] (summed over d) is not what is computed when D > 1. *)
Theorem C13_strided_overwrite_refuted : exists A B C D J (t u v v' : list Zrng) a b c,
  D * B * J <= length t /\ D * A * J * C <= length u /\ A * B * C <= length v /\ a < A /\ b < B /\ c < C /\
  contract_strided contract_ref A B C D J t Transpose false u v = Some v' /\
  vf v' ((a * B + b) * C + c) <>
    sumn D (fun d => sumn J (fun j => vf t ((d * J + j) * B + b)%nat * vf u (((d * A + a) * J + j) * C + c)%nat))%R.
Proof.
  exists 1, 1, 1, 2, 1, [1; 1]%Z, [1; 1]%Z, [0]%Z, [1]%Z, 0, 0, 0. simpl. repeat split; try lia.
  vm_compute. discriminate.
Qed.
