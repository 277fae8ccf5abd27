(** * C63: estimates of floating-point operations against what the reference kernels execute *)
From Coq Require Import List ZArith Lia Bool Arith.
From Verif Require Import Prelude RstrModel TensorModel BasisModel FlopModel FlopProofs.
Import ListNotations.
Set Implicit Arguments.
Local Open Scope nat_scope.

(** The counting kernel computes what the reference kernel computes and counts 2 A B C J operations. *)
Theorem C63_kernel (R : Rng) A B C J (t : list R) tm add u v :
  option_map fst (contract_c A B C J t tm add u v) = contract_ref A B C J t tm add u v /\
  forall v' n, contract_c A B C J t tm add u v = Some (v', n) -> n = 2 * A * B * C * J.
Proof. split; [apply contract_erase|intros v' n; apply contract_count]. Qed.

Definition sizes (R : Rng) (t : tbasis R) : Prop := 0 < t_dim t /\ 0 < t_P t /\ 0 < t_Q t.
(** the application with the reference kernel succeeds with result [v'] after [n] floating-point operations *)
Definition runs (R : Rng) junk (t : tbasis R) aa ne tm em u v v' n : Prop :=
  apply_tensor_c contract_c junk t aa ne tm em u v = Some (v', n).

(** The counted application is the application of the reference backend. *)
Theorem C63_same_values (R : Rng) junk (t : tbasis R) aa ne tm em u v :
  em = EvInterp \/ em = EvGrad ->
  (forall v' n, runs junk t aa ne tm em u v v' n -> apply_tensor contract_ref junk t aa ne tm em u v = Ok v') /\
  (forall v', apply_tensor contract_ref junk t aa ne tm em u v = Ok v' -> exists n, runs junk t aa ne tm em u v v' n).
Proof.
  intros E. pose proof (@apply_tensor_erase R contract_ref contract_c (@contract_erase R) junk t aa ne tm em u v E) as Q. unfold runs.
  split.
  - intros v' n H. rewrite H in Q. symmetry. exact Q.
  - intros v' H. rewrite H in Q. destruct (apply_tensor_c contract_c junk t aa ne tm em u v) as [[w n]|]; [|discriminate].
    injection Q as <-. eauto.
Qed.

Lemma est_interp (R : Rng) (t : tbasis R) np : sizes t ->
  basis_flops (BT t) NoTranspose EvInterp false np = Ok (Z.of_nat (t_nc t * sweep (t_dim t) (t_P t) (t_Q t) (t_dim t))).
Proof. intros (D & P & Q). unfold basis_flops, tensor_flops. rewrite Nat2Z.id, tensor_loop_sweep by assumption. reflexivity. Qed.
Lemma est_interp_T (R : Rng) (t : tbasis R) np : sizes t ->
  basis_flops (BT t) Transpose EvInterp false np = Ok (Z.of_nat (t_nc t * (2 * t_dim t * t_Q t ^ (t_dim t + 1)))).
Proof. intros (D & P & Q). unfold basis_flops, tensor_flops. rewrite Nat2Z.id, tensor_loop_sweep by assumption. rewrite sweep_same by lia. reflexivity. Qed.
Lemma est_grad (R : Rng) (t : tbasis R) np : sizes t ->
  basis_flops (BT t) NoTranspose EvGrad false np = Ok (Z.of_nat (2 * (t_nc t * sweep (t_dim t) (t_P t) (t_Q t) (t_dim t)))).
Proof.
  intros (D & P & Q). unfold basis_flops, tensor_flops. rewrite Nat2Z.id, tensor_loop_sweep by assumption. f_equal. lia.
Qed.

Lemma run_interp (R : Rng) junk (t : tbasis R) aa ne tm u v v' n : sizes t -> t_collo t = false ->
  runs junk t aa ne tm EvInterp u v v' n -> n = t_nc t * ne * sweep (t_dim t) (t_P t) (t_Q t) (t_dim t).
Proof.
  intros (D & P & Q) C H. unfold runs, apply_tensor_c in H. rewrite C in H.
  match type of H with context [chain_c ?a ?b ?c ?d ?e ?f ?g ?h ?i ?j ?l ?m] => destruct (chain_c a b c d e f g h i j l m) as [[[T0 o] n0]|] eqn:K; [|discriminate] end.
  injection H as _ <-. cbn [fst snd]. apply (@chain_count R contract_c (@contract_count R)) in K; [|destruct tm; assumption].
  destruct tm; [exact K|]. rewrite (sweep_sym (t_dim t) (t_P t) (t_Q t)). exact K.
Qed.

(** Interpolation (not collocated) executes, in both directions, the estimate for the direction to the points once per element. *)
Theorem C63_interp (R : Rng) junk (t : tbasis R) aa ne tm u v v' n np : sizes t -> t_collo t = false ->
  runs junk t aa ne tm EvInterp u v v' n ->
  exists est, basis_flops (BT t) NoTranspose EvInterp false np = Ok est /\ Z.of_nat n = (Z.of_nat ne * est)%Z.
Proof.
  intros S C H. eexists. split; [apply est_interp; exact S|]. rewrite (run_interp S C H). lia.
Qed.

(** Finding: "P_1d = Q_1d; Q_1d = P_1d;" (ceed-basis.c:895-896) does not swap: the estimate for the transpose is that of a basis with Q_1d
    nodes.  It is right exactly if P_1d = Q_1d, too large if P_1d < Q_1d and too small if P_1d > Q_1d. *)
Theorem C63_transpose_refuted (R : Rng) junk (t : tbasis R) aa ne u v v' n np : sizes t -> t_collo t = false -> 0 < t_nc t -> 0 < ne ->
  runs junk t aa ne Transpose EvInterp u v v' n ->
  exists est, basis_flops (BT t) Transpose EvInterp false np = Ok est /\
  (Z.of_nat n = (Z.of_nat ne * est)%Z <-> t_P t = t_Q t) /\ (t_P t < t_Q t -> (Z.of_nat n < Z.of_nat ne * est)%Z) /\
  (t_Q t < t_P t -> (Z.of_nat ne * est < Z.of_nat n)%Z).
Proof.
  intros S C NC NE H. eexists. split; [apply est_interp_T; exact S|]. rewrite (run_interp S C H). pose proof S as (D & P & Q).
  set (s := sweep _ _ _ _). set (e := 2 * t_dim t * t_Q t ^ (t_dim t + 1)).
  assert (L1 : t_P t < t_Q t -> s < e) by (intros L; apply sweep_lt; auto).
  assert (L2 : t_Q t < t_P t -> e < s).
  { intros L. unfold s, e. rewrite sweep_sum.
    assert (T : forall i, i < t_dim t -> t_Q t ^ (t_dim t + 1) < t_P t ^ (t_dim t - i) * t_Q t ^ (i + 1)).
    { intros i Li. replace (t_dim t + 1) with ((t_dim t - i) + (i + 1)) by lia. rewrite (Nat.pow_add_r (t_Q t) (t_dim t - i) (i + 1)).
      apply Nat.mul_lt_mono_pos_r; [apply Nat.neq_0_lt_0, Nat.pow_nonzero; lia|]. apply Nat.pow_lt_mono_l; lia. }
    assert (G : forall d, d <= t_dim t -> 2 * d * t_Q t ^ (t_dim t + 1) + 2 * d <= sumto d (fun i => 2 * t_P t ^ (t_dim t - i) * t_Q t ^ (i + 1))).
    { induction d as [|d IH]; intros Ld; [simpl; lia|]. cbn [sumto]. specialize (IH ltac:(lia)). specialize (T d ltac:(lia)). lia. }
    specialize (G (t_dim t) (le_n _)). lia. }
  assert (L3 : t_P t = t_Q t -> s = e) by (intros L; unfold s, e; rewrite L; apply sweep_same; lia).
  clearbody s e. rewrite <- !Nat2Z.inj_mul. split; [|split].
  - split.
    + intros X. apply Nat2Z.inj in X. replace (t_nc t * ne * s) with (ne * (t_nc t * s)) in X by lia.
      apply Nat.mul_cancel_l in X; [|lia]. apply Nat.mul_cancel_l in X; [|lia]. lia.
    + intros L. rewrite (L3 L). lia.
  - intros L. specialize (L1 L). apply Nat2Z.inj_lt. replace (t_nc t * ne * s) with (ne * (t_nc t * s)) by lia.
    apply Nat.mul_lt_mono_pos_l; [lia|]. apply Nat.mul_lt_mono_pos_l; lia.
  - intros L. specialize (L2 L). apply Nat2Z.inj_lt. replace (t_nc t * ne * s) with (ne * (t_nc t * s)) by lia.
    apply Nat.mul_lt_mono_pos_l; [lia|]. apply Nat.mul_lt_mono_pos_l; lia.
Qed.

Lemma run_grad (R : Rng) junk (t : tbasis R) aa ne tm u v v' n cg : sizes t -> t_cg t = Some cg ->
  runs junk t aa ne tm EvGrad u v v' n -> n = t_nc t * ne * (sweep (t_dim t) (t_P t) (t_Q t) (t_dim t) + 2 * t_dim t * t_Q t ^ (t_dim t + 1)).
Proof.
  intros (D & P & Q) C H. unfold runs, apply_tensor_c in H. rewrite C in H. destruct tm.
  - match type of H with context [chain_c ?a ?b ?c ?d ?e ?f ?g ?h ?i ?j ?l ?m] => destruct (chain_c a b c d e f g h i j l m) as [[[T0 o] n0]|] eqn:K; [|discriminate] end.
    cbn [bind fst snd] in H. match type of H with context [dirs_c ?a ?b ?c ?d ?e ?f ?g ?h ?i ?j ?l] => destruct (dirs_c a b c d e f g h i j l) as [[o1 n1]|] eqn:K1; [|discriminate] end.
    injection H as _ <-. apply (@chain_count R contract_c (@contract_count R)) in K; [|assumption]. apply (@dirs_count R contract_c (@contract_count R)) in K1; [|assumption].
    cbn [fst snd]. subst. ring.
  - match type of H with context [dirs_c ?a ?b ?c ?d ?e ?f ?g ?h ?i ?j ?l] => destruct (dirs_c a b c d e f g h i j l) as [[o1 n1]|] eqn:K1; [|discriminate] end.
    cbn [bind fst snd] in H. match type of H with context [chain_c ?a ?b ?c ?d ?e ?f ?g ?h ?i ?j ?l ?m] => destruct (chain_c a b c d e f g h i j l m) as [[[T0 o] n0]|] eqn:K; [|discriminate] end.
    injection H as _ <-. apply (@chain_count R contract_c (@contract_count R)) in K; [|assumption]. apply (@dirs_count R contract_c (@contract_count R)) in K1; [|assumption].
    cbn [fst snd]. rewrite (sweep_sym (t_dim t) (t_P t) (t_Q t)). subst. ring.
Qed.
(** The gradient through the collocated gradient (P_1d <= Q_1d) executes the estimate if P_1d = Q_1d ... *)
Theorem C63_grad (R : Rng) junk (t : tbasis R) aa ne tm u v v' n cg np : sizes t -> t_cg t = Some cg -> t_P t = t_Q t ->
  runs junk t aa ne tm EvGrad u v v' n ->
  exists est, basis_flops (BT t) tm EvGrad false np = Ok est /\ Z.of_nat n = (Z.of_nat ne * est)%Z.
Proof.
  intros S C E H. pose proof S as (D & P & Q). rewrite (run_grad S C H).
  assert (X : basis_flops (BT t) tm EvGrad false np = basis_flops (BT t) NoTranspose EvGrad false np) by (destruct tm; unfold basis_flops, tensor_flops; rewrite E; reflexivity).
  rewrite X. eexists. split; [apply est_grad; exact S|]. rewrite E. rewrite sweep_same by lia. lia.
Qed.
(** Finding: ... but it executes more than the estimate if P_1d < Q_1d: "tensor_flops * 2" (ceed-basis.c:947) counts the second stage at the cost
    of the first. *)
Theorem C63_grad_refuted (R : Rng) junk (t : tbasis R) aa ne u v v' n cg np : sizes t -> t_cg t = Some cg -> t_P t < t_Q t -> 0 < t_nc t -> 0 < ne ->
  runs junk t aa ne NoTranspose EvGrad u v v' n ->
  exists est, basis_flops (BT t) NoTranspose EvGrad false np = Ok est /\ (Z.of_nat ne * est < Z.of_nat n)%Z.
Proof.
  intros S C L NC NE H. pose proof S as (D & P & Q). rewrite (run_grad S C H). eexists. split; [apply est_grad; exact S|].
  pose proof (@sweep_lt (t_dim t) (t_P t) (t_Q t) D L) as X. set (s := sweep _ _ _ _) in *. set (e := 2 * t_dim t * t_Q t ^ (t_dim t + 1)) in *.
  clearbody s e. rewrite <- Nat2Z.inj_mul. apply Nat2Z.inj_lt. replace (ne * (2 * (t_nc t * s))) with (t_nc t * ne * (s + s)) by lia.
  apply Nat.mul_lt_mono_pos_l; [apply Nat.mul_pos_pos; assumption|lia].
Qed.
(** Finding: with more nodes than quadrature points the gradient is one sweep per direction: dim times the cost of the interpolation, where the estimate says
    twice.  The estimate is right exactly for dim = 2. *)
Theorem C63_grad_passes_refuted (R : Rng) junk (t : tbasis R) aa ne u v v' n np : sizes t -> t_cg t = None -> t_collo t = false -> 0 < t_nc t -> 0 < ne ->
  runs junk t aa ne NoTranspose EvGrad u v v' n ->
  exists est, basis_flops (BT t) NoTranspose EvGrad false np = Ok est /\ (2 * Z.of_nat n = Z.of_nat ne * est * Z.of_nat (t_dim t))%Z /\
  (Z.of_nat n = (Z.of_nat ne * est)%Z <-> t_dim t = 2).
Proof.
  intros HS C CI NC NE H. pose proof HS as (D & P & Q). eexists. split; [apply est_grad; exact HS|].
  assert (N : n = t_dim t * (t_nc t * ne * sweep (t_dim t) (t_P t) (t_Q t) (t_dim t))).
  { unfold runs, apply_tensor_c in H. rewrite C, CI in H.
    match type of H with context [forN ?dim ?g ?s] => destruct (forN dim g s) as [[[T0 v0] n0]|] eqn:K; [|discriminate] end.
    injection H as _ <-. cbn [fst snd].
    apply (@forN_adds _ _ (t_nc t * ne * sweep (t_dim t) (t_P t) (t_Q t) (t_dim t))) in K; [exact K|].
    intros p [[T1 v1] c1] s' F. match type of F with context [chain_c ?a ?b ?c ?d ?e ?f ?g ?h ?i ?j ?l ?m] => destruct (chain_c a b c d e f g h i j l m) as [[[T2 o2] n2]|] eqn:K2; [|discriminate] end.
    injection F as <-. cbn [fst snd]. apply (@chain_count R contract_c (@contract_count R)) in K2; [|assumption]. lia. }
  assert (SP : 0 < sweep (t_dim t) (t_P t) (t_Q t) (t_dim t)).
  { rewrite sweep_sum. destruct (t_dim t) as [|d]; [lia|]. cbn [sumto].
    assert (0 < t_P t ^ (S d - d)) by (apply Nat.neq_0_lt_0, Nat.pow_nonzero; lia).
    assert (0 < t_Q t ^ (d + 1)) by (apply Nat.neq_0_lt_0, Nat.pow_nonzero; lia).
    assert (0 < 2 * t_P t ^ (S d - d) * t_Q t ^ (d + 1)) by (apply Nat.mul_pos_pos; [lia|assumption]). lia. }
  set (s := sweep _ _ _ _) in *. clearbody s. subst n. split.
  - lia.
  - assert (M : 0 < t_nc t * ne * s) by (repeat apply Nat.mul_pos_pos; assumption).
    replace (Z.of_nat ne * Z.of_nat (2 * (t_nc t * s)))%Z with (Z.of_nat (2 * (t_nc t * ne * s))) by lia. set (m := t_nc t * ne * s) in *. clearbody m.
    split; [intros X; apply Nat2Z.inj in X; apply Nat.mul_cancel_r in X; lia|intros ->; reflexivity].
Qed.

(** Finding: for non-tensor bases the estimate (ceed-basis.c:978) leaves out the factor 2 that the estimate of tensor bases has: every application
    executes twice the estimate. *)
Theorem C63_nontensor_refuted (R : Rng) (b : nbasis R) aa ne tm em u v v' n np : em <> EvNone -> em <> EvWeight ->
  apply_nontensor_c contract_c b aa ne tm em u v = Some (v', n) ->
  apply_nontensor contract_ref b aa ne tm em u v = Ok v' /\
  exists est, basis_flops (BN b) tm em false np = Ok est /\ Z.of_nat n = (2 * Z.of_nat ne * est)%Z.
Proof.
  intros N1 N2 H. split.
  - rewrite <- (@apply_nontensor_erase R contract_ref contract_c (@contract_erase R) b aa ne tm em u v N1 N2), H. reflexivity.
  - exists (Z.of_nat (n_P b) * Z.of_nat (n_Q b) * Z.of_nat (n_nc b) * Z.of_nat (q_comp (BN b) em))%Z. split.
    + unfold basis_flops, nontensor_flops. destruct em; try contradiction; reflexivity.
    + assert (K : n = q_comp (BN b) em * (2 * n_nc b * n_P b * ne * n_Q b)).
      { unfold apply_nontensor_c in H. destruct em; try contradiction; apply (@strided_count R contract_c (@contract_count R)) in H; exact H. }
      subst n. lia.
Qed.

(** The estimate of one operator: nothing without elements, otherwise the active inputs to the points, the qfunction at every point and the active outputs back;
    passive fields add nothing, a basis without an estimate or a qfunction without user estimate is reported. *)
Definition field_cost (tm : tmode) (ne : Z) (f : ffield) (b : Z) : Z :=
  match tm, ff_rt f with
  | NoTranspose, ROriented => ff_esize f | NoTranspose, RCurl => 5 * ff_esize f | NoTranspose, _ => 0
  | Transpose, RPoints => 0 | Transpose, ROriented => 2 * ff_esize f | Transpose, RCurl => 6 * ff_esize f | Transpose, _ => ff_esize f
  end%Z + ne * b.
Inductive costs (tm : tmode) (ne : Z) : list ffield -> Z -> Prop :=
| costs_nil : costs tm ne [] 0
| costs_passive f l c : ff_active f = false -> costs tm ne l c -> costs tm ne (f :: l) c
| costs_active f l b c : ff_active f = true -> ff_basis f = Ok b -> costs tm ne l c -> costs tm ne (f :: l) (field_cost tm ne f b + c).
Theorem C63_operator o n : (0 < fo_ne o)%Z -> (0 <= fo_nq o)%Z ->
  (op_flops1 o = Ok n <-> exists a b, costs NoTranspose (fo_ne o) (fo_in o) a /\ costs Transpose (fo_ne o) (fo_out o) b /\
    (0 <= fo_qf o)%Z /\ (fo_ne o * fo_nq o <= INT_MAX)%Z /\ n = (a + fo_ne o * fo_nq o * fo_qf o + b)%Z).
Proof.
  intros NE NQ. unfold op_flops1. destruct (fo_ne o =? 0)%Z eqn:Z0; [apply Z.eqb_eq in Z0; lia|].
  assert (G : forall tm l acc m, field_flops tm (fo_ne o) l acc = Ok m <-> exists c, costs tm (fo_ne o) l c /\ m = (acc + c)%Z).
  { intros tm. induction l as [|f l IH]; intros acc m; simpl.
    - split; [intros H; injection H as <-; exists 0%Z; split; [constructor|lia]|intros [c [H ->]]; inversion H; subst; f_equal; lia].
    - destruct (ff_active f) eqn:A.
      + destruct (ff_basis f) as [b| |] eqn:B.
        * rewrite IH. split.
          -- intros [c [H ->]]. exists (field_cost tm (fo_ne o) f b + c)%Z. split; [apply costs_active; assumption|].
             unfold field_cost, rstr_flops. destruct tm, (ff_rt f); lia.
          -- intros [c [H ->]]. inversion H as [|f' l' c' A' H'|f' l' b' c' A' B' H']; subst; [congruence|]. assert (b' = b) by congruence. subst b'.
             exists c'. split; [exact H'|]. unfold field_cost, rstr_flops. destruct tm, (ff_rt f); lia.
        * split; [discriminate|]. intros [c [H _]]. inversion H; subst; congruence.
        * split; [discriminate|]. intros [c [H _]]. inversion H; subst; congruence.
      + rewrite IH. split; intros [c [H ->]]; exists c; split; auto.
        * apply costs_passive; assumption.
        * inversion H; subst; [assumption|congruence]. }
  destruct (field_flops NoTranspose (fo_ne o) (fo_in o) 0) as [a| |] eqn:I.
  - apply G in I. destruct I as [a' [I ->]].
    assert (U : forall a2, costs NoTranspose (fo_ne o) (fo_in o) a2 -> a2 = a').
    { intros a2 X. assert (Y : field_flops NoTranspose (fo_ne o) (fo_in o) 0 = Ok a2) by (apply G; exists a2; split; [exact X|lia]).
      assert (Y' : field_flops NoTranspose (fo_ne o) (fo_in o) 0 = Ok a') by (apply G; exists a'; split; [exact I|lia]). congruence. }
    destruct (-1 <? fo_qf o)%Z eqn:QF; simpl; [apply Z.ltb_lt in QF|apply Z.ltb_ge in QF].
    + destruct (INT_MAX <? fo_ne o * fo_nq o)%Z eqn:OV; [apply Z.ltb_lt in OV|apply Z.ltb_ge in OV].
      * split; [discriminate|]. intros (a2 & b & _ & _ & _ & L & _). lia.
      * rewrite G. split.
        -- intros [c [H ->]]. exists a', c. repeat split; auto; lia.
        -- intros (a2 & b & X & H & _ & _ & ->). rewrite (U _ X). exists b. split; [exact H|lia].
    + split; [discriminate|]. intros (a2 & b & _ & _ & L & _). lia.
  - split; [discriminate|]. intros (a2 & b & X & _). assert (Y : field_flops NoTranspose (fo_ne o) (fo_in o) 0 = Ok a2) by (apply G; exists a2; split; [exact X|lia]). congruence.
  - split; [discriminate|]. intros (a2 & b & X & _). assert (Y : field_flops NoTranspose (fo_ne o) (fo_in o) 0 = Ok a2) by (apply G; exists a2; split; [exact X|lia]). congruence.
Qed.

(** The estimate of a composite operator is the sum of the estimates of its sub-operators, and there is one exactly if every sub-operator has one. *)
Theorem C63_composite l n : comp_flops l = Ok n <-> exists ns, Forall2 (fun o m => op_flops1 o = Ok m) l ns /\ n = fold_right Z.add 0%Z ns.
Proof.
  unfold comp_flops. assert (G : forall l acc, comp_loop l acc = Ok n <-> exists ns, Forall2 (fun o m => op_flops1 o = Ok m) l ns /\ n = (acc + fold_right Z.add 0 ns)%Z).
  { clear l. induction l as [|o l IH]; intros acc; simpl.
    - split; [intros H; injection H as <-; exists []; split; [constructor|simpl; lia]|intros [ns [F ->]]; inversion F; subst; simpl; f_equal; lia].
    - destruct (op_flops1 o) as [m| |] eqn:E.
      + rewrite IH. split; intros [ns [F Q]].
        * exists (m :: ns). split; [constructor; assumption|simpl; lia].
        * inversion F as [|o' m' l' ns' Em Fl]; subst. exists ns'. split; [exact Fl|]. simpl. assert (m' = m) by congruence. subst; lia.
      + split; [discriminate|]. intros [ns [F _]]. inversion F; subst; congruence.
      + split; [discriminate|]. intros [ns [F _]]. inversion F; subst; congruence. }
  rewrite G. simpl. split; intros [ns [F Q]]; exists ns; split; auto; lia.
Qed.

(** At points, elements times the number of points used is at least the number of points and exceeds it by less than the number of elements on the host; on a device
    it is at least the number in every element. *)
Theorem C63_points counts : counts <> [] -> (forall c, In c counts -> 0 <= c)%Z ->
  let total := fold_right Z.add 0%Z counts in let ne := Z.of_nat (length counts) in
  (total <= ne * mean_points false counts < total + ne)%Z /\ (forall c, In c counts -> c <= mean_points true counts)%Z.
Proof.
  intros N P total ne. split.
  - unfold mean_points. fold total ne. assert (NE : (0 < ne)%Z) by (unfold ne; destruct counts; [congruence|simpl; lia]).
    pose proof (Z.div_mod total ne ltac:(lia)) as D. pose proof (Z.mod_pos_bound total ne NE) as B.
    destruct (0 <? total mod ne)%Z eqn:Q; [apply Z.ltb_lt in Q|apply Z.ltb_ge in Q]; nia.
  - unfold mean_points. clear. induction counts as [|a l IH]; intros c; simpl; [tauto|]. intros [->|I]; [lia|]. specialize (IH c I). lia.
Qed.

(** Finding: "num_elem * num_qpts * qf_flops" (ceed-operator.c:1789) first multiplies two CeedInt: with 3,000,000 elements of 1000 quadrature
    points (signed overflow) the estimate is undefined although it is far below the range of the CeedSize result. *)
Theorem C63_overflow_refuted : exists o, op_flops1 o = UB /\ (fo_ne o * fo_nq o * fo_qf o < 2 ^ 63)%Z /\ (fo_ne o <= INT_MAX /\ fo_nq o <= INT_MAX)%Z.
Proof. exists (mkFO 3000000 1000 5 [] []). vm_compute. repeat split; congruence. Qed.

(** Finding: the estimate for the evaluation at one point (ceed-basis.c:907-913) keeps the size of the contraction constant and ignores the components: a basis with three
    nodes, three points in 2D and two components needs 48 operations for its two contractions, the estimate says 36; with one component 24, the estimate is the same 36. *)
Definition calls_flops (l : list (nat * nat * nat * nat)) : nat :=
  fold_right (fun c n => let '(A, B, C, J) := c in 2 * A * B * C * J + n) 0 l.
Theorem C63_point_eval_refuted :
  point_loop 2 3 3 (3 ^ (2 - 1)) 1 = 36%Z /\ calls_flops (point_calls 2 2 3 (2 * 3 ^ (2 - 1))) = 48 /\ calls_flops (point_calls 2 1 3 (1 * 3 ^ (2 - 1))) = 24.
Proof. vm_compute. auto. Qed.

(** concrete cases *)
Definition ex_t : tbasis Zrng := @mkT Zrng 1 1 2 3 [1; 0; 1; 1; 0; 1]%Z [1; 0; 1; 1; 0; 1]%Z [1; 1; 1]%Z false (Some [1; 0; 0; 0; 1; 0; 0; 0; 1]%Z).
Example C63_witness : sizes ex_t /\
  (exists v', @runs Zrng (fun _ _ => 7%Z) ex_t false 1 NoTranspose EvInterp [5; 6]%Z [0; 0; 0]%Z v' 12) /\
  (exists v', @runs Zrng (fun _ _ => 7%Z) ex_t false 1 Transpose EvInterp [5; 6; 7]%Z [0; 0]%Z v' 12) /\
  basis_flops (BT ex_t) NoTranspose EvInterp false 0 = Ok 12%Z /\ basis_flops (BT ex_t) Transpose EvInterp false 0 = Ok 18%Z /\
  (exists v', @runs Zrng (fun _ _ => 7%Z) ex_t false 1 NoTranspose EvGrad [5; 6]%Z [0; 0; 0]%Z v' 30) /\ basis_flops (BT ex_t) NoTranspose EvGrad false 0 = Ok 24%Z.
Proof. unfold sizes, runs. simpl. repeat split; try lia; try (eexists; vm_compute; reflexivity). Qed.
Definition ex_t3 : tbasis Zrng := @mkT Zrng 1 1 2 1 [1; 1]%Z [1; 1]%Z [1]%Z false None.
Example C63_passes_witness : exists v', @runs Zrng (fun _ _ => 7%Z) ex_t3 false 1 NoTranspose EvGrad [5; 6]%Z [0]%Z v' 4.
Proof. eexists; vm_compute; reflexivity. Qed.
Definition ex_n : nbasis Zrng := @mkN Zrng 1 1 2 1 H1 [1; 1]%Z [1; 1]%Z [] [] [1]%Z.
Example C63_nontensor_witness : (exists v', apply_nontensor_c contract_c ex_n false 1 NoTranspose EvInterp [5; 6]%Z [0]%Z = Some (v', 4)) /\
  basis_flops (BN ex_n) NoTranspose EvInterp false 0 = Ok 2%Z.
Proof. split; [eexists; vm_compute; reflexivity|vm_compute; reflexivity]. Qed.
Example C63_composite_witness : comp_flops [mkFO 2 3 5 [mkFF true RStd 4 (Ok 12%Z)] [mkFF true ROriented 4 (Ok 18%Z)]; mkFO 0 3 (-1) [] []] = Ok 98%Z.
Proof. vm_compute. reflexivity. Qed.
Example C63_points_witness : mean_points false [3; 4; 4]%Z = 4%Z /\ mean_points true [3; 7; 4]%Z = 7%Z.
Proof. vm_compute. auto. Qed.

Print Assumptions C63_kernel.
Print Assumptions C63_same_values.
Print Assumptions C63_interp.
Print Assumptions C63_transpose_refuted.
Print Assumptions C63_grad.
Print Assumptions C63_grad_refuted.
Print Assumptions C63_grad_passes_refuted.
Print Assumptions C63_nontensor_refuted.
Print Assumptions C63_operator.
Print Assumptions C63_composite.
Print Assumptions C63_points.
Print Assumptions C63_overflow_refuted.
Print Assumptions C63_point_eval_refuted.
