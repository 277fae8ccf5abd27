(** * Full assembly: the assembled matrix is the matrix of the operator *)
From Coq Require Import List ZArith Lia Bool Arith.
From Verif Require Import Prelude RstrModel RstrSpec RstrProofs RstrMain RstrProps TensorModel TensorMain BasisModel BasisProps OpModel OpSpec OpLists OpMain AsmModel AsmSpec AsmProofs AsmProps CacheModel DenseModel DenseProofs FullModel FullSpec FullSide FullProofs.
Import ListNotations.

Lemma skipn_rep : forall A (x : A) m n, skipn m (repeat x n) = repeat x (n - m).
Proof. intros A x. induction m as [|m IH]; intros [|n]; simpl; auto. Qed.

(** ** positions *)
Section Sym.
Local Open Scope nat_scope.
Variable chk : bool.
Variable D : nat -> udesc.
Variable bs : option nat.
(** restrictions as CeedElemRestrictionCreate accepts them *)
Definition good_rstr (d : udesc) : Prop := lengths_ok d /\ in_range d /\ exists r, rstr_create chk d None = Ok r.

Lemma elem_dof_ok : forall i, good_rstr (D i) -> exists l, elem_dof chk D i = Ok l /\ length l = u_ne (D i) * (u_es (D i) * u_nc (D i)) /\
  forall e c n, e < u_ne (D i) -> c < u_nc (D i) -> n < u_es (D i) -> nth (n + c * u_es (D i) + e * (u_es (D i) * u_nc (D i))) l 0%Z = col (D i) e c n.
Proof.
  intros i (Hl & Hr & r & Hcr). unfold elem_dof. rewrite Hcr. cbn [rbind]. pose proof (create_repr Hl Hcr) as Hrep.
  assert (Hes : r_esize r = u_ne (D i) * u_nc (D i) * u_es (D i)). { rewrite (rp_esize Hrep). destruct (create_bs Hcr) as (Eb & En). rewrite Eb, En. cbn [nblocks bsize]. ring. }
  assert (Hc : curl_ok Unoriented (D i)). { unfold curl_ok. destruct (u_kind (D i)); auto. intros; discriminate. }
  destruct (@C08_gather Zrng chk (D i) None r Unoriented (map Z.of_nat (seq 0 (u_lsize (D i)))) (repeat 0%Z (u_ne (D i) * u_es (D i) * u_nc (D i))) Hl Hcr Hr Hc)
    as (l & E & L & G & _).
  { rewrite map_length, seq_length. auto. } { rewrite repeat_length. nia. }
  rewrite E. exists l. split; auto. rewrite repeat_length in L. split; [etransitivity; [exact L|ring]|].
  intros e c n He Hcc Hn. specialize (G e c n He Hcc Hn). cbn [bsize] in G. rewrite epos_1 in G.
  replace (e * (u_nc (D i) * u_es (D i)) + (c * u_es (D i) + n)) with (n + c * u_es (D i) + e * (u_es (D i) * u_nc (D i))) in G by ring.
  etransitivity; [exact G|]. unfold Eval.
  rewrite sumn_ext with (g := fun m => @delta Zrng (m =? n) (col (D i) e c m : Zrng)).
  - rewrite sumn_delta. apply Nat.ltb_lt in Hn. rewrite Hn. reflexivity.
  - intros m Hm. pose proof (Hr e c m He Hcc Hm) as Hin.
    assert (Ev : @vf Zrng (map Z.of_nat (seq 0 (u_lsize (D i)))) (Z.to_nat (col (D i) e c m)) = col (D i) e c m).
    { unfold vf. change (@r0 Zrng) with (Z.of_nat 0). rewrite map_nth, seq_nth by lia. lia. }
    rewrite Ev. rewrite Nat.eqb_sym.
    assert (Ec : coef Zrng Unoriented (D i) e n m = @delta Zrng (n =? m) (@r1 Zrng)). { unfold coef. destruct (u_kind (D i)); auto. }
    rewrite Ec. destruct (n =? m); cbn [delta]; [|reflexivity]. apply (Z.mul_1_l (col (D i) e c m)).
Qed.

Variable R : Rng.
Variable o : oper R.
Variables rin rout : nat.
Hypothesis Hin : good_rstr (D rin).
Hypothesis Hout : good_rstr (D rout).
Hypothesis Hne : u_ne (D rin) = u_ne (D rout).
Hypothesis Ein : act_rstr None (o_in o) = Ok rin.
Hypothesis Eout : act_rstr None (o_out o) = Ok rout.
Notation esI := (u_es (D rin)).
Notation ncI := (u_nc (D rin)).
Notation esO := (u_es (D rout)).
Notation ncO := (u_nc (D rout)).
Notation ne := (u_ne (D rin)).
Notation blk := (esO * esI).
Lemma same_ne : negb (rin =? rout) && negb (u_ne (D rin) =? u_ne (D rout)) = false.
Proof. rewrite Hne, Nat.eqb_refl. apply andb_false_r. Qed.
Lemma count_ok : count_entries D o = Ok (ne * (ncI * (ncO * blk))).
Proof. unfold count_entries. rewrite Ein, Eout. cbn [rbind]. rewrite same_ne. f_equal. ring. Qed.
Lemma symbolic_ok : exists rc, symbolic chk D o = Ok rc /\ length rc = ne * (ncI * (ncO * blk)) /\
  forall e ci co i j, e < ne -> ci < ncI -> co < ncO -> i < esO -> j < esI ->
    nth (e * (ncI * (ncO * blk)) + (ci * (ncO * blk) + (co * blk + (i * esI + j)))) rc (0, 0)%Z = (col (D rout) e co i, col (D rin) e ci j).
Proof.
  unfold symbolic. rewrite Ein, Eout. cbn [rbind]. destruct (elem_dof_ok rin Hin) as (din & E1 & L1 & G1). rewrite E1. cbn [rbind]. rewrite same_ne.
  assert (H2 : exists dout, (if rin =? rout then Ok din else elem_dof chk D rout) = Ok dout /\ length dout = u_ne (D rout) * (esO * ncO) /\
    forall e c n, e < u_ne (D rout) -> c < ncO -> n < esO -> nth (n + c * esO + e * (esO * ncO)) dout 0%Z = col (D rout) e c n).
  { destruct (Nat.eqb_spec rin rout) as [E|E]; [exists din; rewrite <- E; auto|apply elem_dof_ok; auto]. }
  destruct H2 as (dout & E2 & L2 & G2). rewrite E2. cbn [rbind]. rewrite <- Hne in L2, G2.
  pose (v := fun e ci co => at2 esI (fun i j => (col (D rout) e co i, col (D rin) e ci j))).
  match goal with |- exists rc, ?r = Ok rc /\ _ => assert (H : appends (ne * (ncI * (ncO * blk))) (at2 (ncI * (ncO * blk)) (fun e => at2 (ncO * blk) (fun ci => at2 blk (v e ci)))) r) end.
  { apply cat_ok. intros e He. apply cat_ok. intros ci Hci. apply cat_ok. intros co Hco. unfold v. apply cat_ok. intros i Hi. apply cat1. intros j Hj.
    rewrite (og_nth dout 0%Z). 2: { assert (i + co * esO < esO * ncO) by nia. nia. }
    rewrite (og_nth din 0%Z). 2: { assert (j + ci * esI < esI * ncI) by nia. nia. }
    cbn [rbind]. rewrite G1, G2 by auto. reflexivity. }
  destruct H as (rc & E & L & G). exists rc. split; auto. split; auto. intros e ci co i j He Hci Hco Hi Hj.
  assert (B1 : i * esI + j < blk) by nia. assert (B2 : co * blk + (i * esI + j) < ncO * blk) by nia.
  assert (B3 : ci * (ncO * blk) + (co * blk + (i * esI + j)) < ncI * (ncO * blk)) by nia.
  rewrite G by nia. rewrite at2_ij by auto. rewrite at2_ij by auto. rewrite at2_ij by auto. unfold v. rewrite at2_ij by auto. reflexivity.
Qed.
End Sym.

(** ** operators that can be assembled to a matrix *)
Section Full.
Variable R : Rng.
Add Ring Rr2 : (r_th R).
Local Open Scope nat_scope.
Variable k : kernel R.
Variables (Jmin : nat) (junk : nat -> nat -> R) (chk : bool) (D : nat -> udesc) (bs : option nat).
Variables (bi bo : nat -> nat -> nat).
(** one restriction and one basis for the active inputs, one for the active outputs *)
Record full_wf (o : oper R) (pi po : nat -> nat) (rin rout : nat) (bI bO : option (basis R)) : Prop := {
  fw_asm : asm_wf R k Jmin chk D bs o;
  fw_lin : linear o;
  fw_in : one_side D (o_Q o) pi (o_in o) rin bI;
  fw_out : one_side D (o_Q o) po (o_out o) rout bO;
  fw_rin : exists r, rstr_create chk (D rin) None = Ok r;
  fw_rout : exists r, rstr_create chk (D rout) None = Ok r;
  fw_J : Jmin <= u_es (D rout)
}.
(** the input vector of the application *)
Definition act_in (vm : vmem R) (inv : option nat) : list R := match inv with Some v => match vv_data (vm v) with Some x => x | None => [] end | None => [] end.

Section One.
Variables (o : oper R) (pi po : nat -> nat) (rin rout : nat) (bI bO : option (basis R)).
Hypothesis H : full_wf o pi po rin rout bI bO.
Notation esI := (u_es (D rin)).
Notation ncI := (u_nc (D rin)).
Notation esO := (u_es (D rout)).
Notation ncO := (u_nc (D rout)).

Lemma side_rstr : forall (fs : list (ofield R)) ptr i b, (forall j, j < length fs -> field_wf D Jmin chk bs o (fld fs j)) ->
  (forall j, j < length fs -> is_active (fld fs j) = true -> f_mode (fld fs j) <> EvWeight) -> one_side D (o_Q o) ptr fs i b -> rstr_wf chk bs o (D i).
Proof.
  intros fs ptr i b Hf Hw Hos. destruct (os_some Hos) as (j & Hj & Ha). destruct (os_rstr Hos j Hj Ha) as (Er & _). specialize (Hf j Hj). specialize (Hw j Hj Ha). unfold field_wf in Hf.
  destruct (f_mode (fld fs j)) eqn:Em; try congruence.
  - destruct Hf as (i' & E1 & E2 & _). rewrite Er in E1. inversion E1; subst i'. auto.
  - destruct Hf as (i' & b' & mt & E1 & _ & E2 & _). rewrite Er in E1. inversion E1; subst i'. auto.
  - destruct Hf as (i' & b' & mt & E1 & _ & E2 & _). rewrite Er in E1. inversion E1; subst i'. auto.
  - destruct Hf as (i' & b' & mt & E1 & _ & E2 & _). rewrite Er in E1. inversion E1; subst i'. auto.
  - destruct Hf as (i' & b' & mt & E1 & _ & E2 & _). rewrite Er in E1. inversion E1; subst i'. auto.
Qed.
Lemma Hfi : forall j, j < length (o_in o) -> field_wf D Jmin chk bs o (fld (o_in o) j).
Proof. destruct (fw_asm _ _ _ _ _ _ _ H) as (Hop & _). apply (ow_in Hop). Qed.
Lemma Hfo : forall j, j < length (o_out o) -> field_wf D Jmin chk bs o (fld (o_out o) j).
Proof. destruct (fw_asm _ _ _ _ _ _ _ H) as (Hop & _). intros j Hj. apply (ow_out Hop). auto. Qed.
Lemma Hwi : forall j, j < length (o_in o) -> is_active (fld (o_in o) j) = true -> f_mode (fld (o_in o) j) <> EvWeight.
Proof. destruct (fw_asm _ _ _ _ _ _ _ H) as (_ & Hw & _). intros j Hj Ha Em. rewrite (Hw j Hj Em) in Ha. discriminate. Qed.
Lemma Hwo : forall j, j < length (o_out o) -> is_active (fld (o_out o) j) = true -> f_mode (fld (o_out o) j) <> EvWeight.
Proof. destruct (fw_asm _ _ _ _ _ _ _ H) as (Hop & _). intros j Hj _. apply (ow_out Hop). auto. Qed.
Lemma wfI : rstr_wf chk bs o (D rin).
Proof. apply (side_rstr (o_in o) pi rin bI); [apply Hfi|apply Hwi|apply (fw_in _ _ _ _ _ _ _ H)]. Qed.
Lemma wfO : rstr_wf chk bs o (D rout).
Proof. apply (side_rstr (o_out o) po rout bO); [apply Hfo|apply Hwo|apply (fw_out _ _ _ _ _ _ _ H)]. Qed.
Lemma posI : 0 < esI /\ 0 < ncI.
Proof. destruct (fw_rin _ _ _ _ _ _ _ H) as (r & Hr). eapply create_pos; eauto. Qed.
Lemma posO : 0 < esO /\ 0 < ncO.
Proof. destruct (fw_rout _ _ _ _ _ _ _ H) as (r & Hr). eapply create_pos; eauto. Qed.
Lemma goodI : good_rstr chk (D rin).
Proof. destruct wfI as (W1 & W2 & _). split; auto. split; auto. apply (fw_rin _ _ _ _ _ _ _ H). Qed.
Lemma goodO : good_rstr chk (D rout).
Proof. destruct wfO as (W1 & W2 & _). split; auto. split; auto. apply (fw_rout _ _ _ _ _ _ _ H). Qed.
Lemma neI : u_ne (D rin) = o_ne o.
Proof. apply wfI. Qed.
Lemma neO : u_ne (D rout) = o_ne o.
Proof. apply wfO. Qed.
Notation sI := (slots R (o_in o) bI).
Notation sO := (slots R (o_out o) bO).
Notation valI := (bval R D o (o_in o) rin bI).
Notation valO := (bval R D o (o_out o) rout bO).
Lemma lenI : length (comps (o_in o)) = length sI * ncI.
Proof. apply (comps_len R Jmin chk D bs o (o_in o) pi rin bI Hfi Hwi (fw_in _ _ _ _ _ _ _ H) (proj2 posI)). Qed.
Lemma lenO : length (comps (o_out o)) = length sO * ncO.
Proof. apply (comps_len R Jmin chk D bs o (o_out o) po rout bO Hfo Hwo (fw_out _ _ _ _ _ _ _ H) (proj2 posO)). Qed.
Lemma atI : forall s c, s < length sI -> c < ncI -> nth (s * ncI + c) (comps (o_in o)) (0, 0) = (fst (nth s sI (0, 0)), snd (nth s sI (0, 0)) * ncI + c).
Proof. apply (comps_at R Jmin chk D bs o (o_in o) pi rin bI Hfi Hwi (fw_in _ _ _ _ _ _ _ H) (proj2 posI)). Qed.
Lemma atO : forall s c, s < length sO -> c < ncO -> nth (s * ncO + c) (comps (o_out o)) (0, 0) = (fst (nth s sO (0, 0)), snd (nth s sO (0, 0)) * ncO + c).
Proof. apply (comps_at R Jmin chk D bs o (o_out o) po rout bO Hfo Hwo (fw_out _ _ _ _ _ _ _ H) (proj2 posO)). Qed.

(** values of the active inputs from the rows of the basis matrix *)
Lemma act_contents : forall vm inv (f : ofield R), is_active f = true -> contents vm f inv = act_in vm inv.
Proof. intros vm inv f Ha. unfold contents, OpModel.target, is_active, act_in in *. destruct (f_vec f); try discriminate. reflexivity. Qed.
Lemma in_slot : forall vm inv e q s ci, q < o_Q o -> s < length sI -> ci < ncI ->
  active_val D o vm inv e q (fst (nth s sI (0, 0)), snd (nth s sI (0, 0)) * ncI + ci) =
  sumn esI (fun p => (valI (nth s sI (0, 0)%nat) q p * Eval Signed (D rin) (act_in vm inv) e ci p)%R).
Proof.
  intros vm inv e q s ci Hq Hs Hci. assert (Hin : In (nth s sI (0, 0)) sI) by (apply nth_In; auto). destruct (nth s sI (0, 0)) as (j, d) eqn:Es.
  destruct (slot_in R D (o_in o) rin bI (proj2 posI) _ Hin) as (Hj & Ha & Hd). cbn [fst snd] in *. unfold active_val. cbn [fst snd]. rewrite act_contents by auto.
  destruct (os_rstr (fw_in _ _ _ _ _ _ _ H) j Hj Ha) as (Er & Eb). pose proof (Hfi j Hj) as Hf. pose proof (Hwi j Hj Ha) as Hw. unfold field_wf in Hf.
  assert (Erd : rd D (fld (o_in o) j) = D rin). { unfold rd. rewrite Er. reflexivity. }
  unfold in_val, bval, smode. cbn [fst snd]. unfold qcf in Hd.
  destruct (f_mode (fld (o_in o) j)) eqn:Em; try congruence.
  - destruct Hf as (i' & E1 & _ & E2 & E3). rewrite Er in E1. inversion E1; subst i'. assert (d = 0) by (destruct bI; simpl in Hd; lia). subst d.
    rewrite sumn_ext with (g := fun p => delta (p =? q) (Eval Signed (D rin) (act_in vm inv) e ci p)).
    + rewrite sumn_delta. assert (Hl : q < esI) by lia. apply Nat.ltb_lt in Hl. rewrite Hl. cbn [delta]. rewrite Erd. f_equal.
    + intros p Hp. rewrite Nat.eqb_sym. destruct (p =? q); cbn [delta]; ring.
  - destruct Hf as (i' & b' & mt & E1 & E2 & _ & _ & E3 & E4 & E5 & _ & E6). rewrite Er in E1. inversion E1; subst i'. rewrite Eb in E2.
    unfold bd. rewrite Eb, E2, E3, E4, E5, Erd. apply sumn_ext. intros p Hp. rewrite Nat.div_add_l by lia. rewrite Nat.div_small by lia.
    rewrite (Nat.add_comm (d * ncI) ci), Nat.mod_add by lia. rewrite Nat.mod_small by lia. rewrite Nat.add_0_r. reflexivity.
  - destruct Hf as (i' & b' & mt & E1 & E2 & _ & _ & E3 & E4 & E5 & _ & E6). rewrite Er in E1. inversion E1; subst i'. rewrite Eb in E2.
    unfold bd. rewrite Eb, E2, E3, E4, E5, Erd. apply sumn_ext. intros p Hp. rewrite Nat.div_add_l by lia. rewrite Nat.div_small by lia.
    rewrite (Nat.add_comm (d * ncI) ci), Nat.mod_add by lia. rewrite Nat.mod_small by lia. rewrite Nat.add_0_r. reflexivity.
  - destruct Hf as (i' & b' & mt & E1 & E2 & _ & _ & E3 & E4 & E5 & _ & E6). rewrite Er in E1. inversion E1; subst i'. rewrite Eb in E2.
    unfold bd. rewrite Eb, E2, E3, E4, E5, Erd. apply sumn_ext. intros p Hp. rewrite Nat.div_add_l by lia. rewrite Nat.div_small by lia.
    rewrite (Nat.add_comm (d * ncI) ci), Nat.mod_add by lia. rewrite Nat.mod_small by lia. rewrite Nat.add_0_r. reflexivity.
  - destruct Hf as (i' & b' & mt & E1 & E2 & _ & _ & E3 & E4 & E5 & _ & E6). rewrite Er in E1. inversion E1; subst i'. rewrite Eb in E2.
    unfold bd. rewrite Eb, E2, E3, E4, E5, Erd. apply sumn_ext. intros p Hp. rewrite Nat.div_add_l by lia. rewrite Nat.div_small by lia.
    rewrite (Nat.add_comm (d * ncI) ci), Nat.mod_add by lia. rewrite Nat.mod_small by lia. rewrite Nat.add_0_r. reflexivity.
Qed.
(** values of the active outputs at the nodes *)
Lemma out_slot : forall vm inv e j co n, j < length (o_out o) -> is_active (fld (o_out o) j) = true -> n < esO ->
  sumn (qcf R (o_out o) bO j) (fun d => sumn (o_Q o) (fun q => (valO (j, d) q n * vf (nth j (outs_val D o vm inv e q) []) (d * ncO + co)%nat)%R)) =
  out_val D o vm inv j (fld (o_out o) j) e co n.
Proof.
  intros vm inv e j co n Hj Ha Hn. destruct (os_rstr (fw_out _ _ _ _ _ _ _ H) j Hj Ha) as (Er & Eb). pose proof (Hfo j Hj) as Hf. pose proof (Hwo j Hj Ha) as Hw. unfold field_wf in Hf.
  unfold out_val, bval, smode, qcf. cbn [fst snd].
  destruct (f_mode (fld (o_out o) j)) eqn:Em; try congruence.
  - destruct Hf as (i' & E1 & _ & E2 & E3). rewrite Er in E1. inversion E1; subst i'. assert (Eq : qc bO EvNone = 1) by (destruct bO; reflexivity). rewrite Eq.
    rewrite sumn_S, sumn_0. rewrite sumn_ext with (g := fun q => delta (q =? n) (vf (nth j (outs_val D o vm inv e q) []) co)).
    + rewrite sumn_delta. assert (Hl : n < o_Q o) by lia. apply Nat.ltb_lt in Hl. rewrite Hl. cbn [delta]. ring.
    + intros q Hq. destruct (q =? n); cbn [delta Nat.mul Nat.add]; ring.
  - destruct Hf as (i' & b' & mt & E1 & E2 & _ & _ & E3 & E4 & E5 & _ & E6). rewrite Er in E1. inversion E1; subst i'. rewrite Eb in E2. unfold bd. rewrite Eb, E2, E3, E4, E5. reflexivity.
  - destruct Hf as (i' & b' & mt & E1 & E2 & _ & _ & E3 & E4 & E5 & _ & E6). rewrite Er in E1. inversion E1; subst i'. rewrite Eb in E2. unfold bd. rewrite Eb, E2, E3, E4, E5. reflexivity.
  - destruct Hf as (i' & b' & mt & E1 & E2 & _ & _ & E3 & E4 & E5 & _ & E6). rewrite Er in E1. inversion E1; subst i'. rewrite Eb in E2. unfold bd. rewrite Eb, E2, E3, E4, E5. reflexivity.
  - destruct Hf as (i' & b' & mt & E1 & E2 & _ & _ & E3 & E4 & E5 & _ & E6). rewrite Er in E1. inversion E1; subst i'. rewrite Eb in E2. unfold bd. rewrite Eb, E2, E3, E4, E5. reflexivity.
Qed.

Definition Af (A : list R) (e a b q : nat) : R := vf A (((e * length (comps (o_in o)) + a) * length (comps (o_out o)) + b) * o_Q o + q).
Lemma eout_val : forall vm inv A e co n, is_assembled D o vm A -> e < o_ne o -> co < ncO -> n < esO ->
  eout R D rin rout (o_Q o) (length sI) (length sO) (fun s => valI (nth s sI (0, 0))) (fun s => valO (nth s sO (0, 0))) (Af A) (act_in vm inv) e co n =
  sumn (length (o_out o)) (fun j => delta (is_active (fld (o_out o) j)) (out_val D o vm inv j (fld (o_out o) j) e co n)).
Proof.
  intros vm inv A e co n HA He Hco Hn. unfold eout, raw.
  transitivity (sumn (length sO) (fun eo => sumn (o_Q o) (fun q => (valO (nth eo sO (0, 0)%nat) q n *
     sumn (length sI) (fun ei => sumn ncI (fun ci => (Af A e (ei * ncI + ci)%nat (eo * ncO + co)%nat q *
        sumn esI (fun p => (valI (nth ei sI (0, 0)%nat) q p * Eval Signed (D rin) (act_in vm inv) e ci p)))%R)))%R))).
  { (* expand both sides into one sum *)
    transitivity (sumn ncI (fun ci => sumn esI (fun p => sumn (o_Q o) (fun q => sumn (length sI) (fun ei => sumn (length sO) (fun eo =>
      (valO (nth eo sO (0, 0)%nat) q n * (Af A e (ei * ncI + ci)%nat (eo * ncO + co)%nat q * (valI (nth ei sI (0, 0)%nat) q p * Eval Signed (D rin) (act_in vm inv) e ci p)))%R)))))).
    { apply sumn_ext. intros ci _. apply sumn_ext. intros p _. rewrite <- sumn_mul_r. apply sumn_ext. intros q _. rewrite <- sumn_mul_r. apply sumn_ext. intros ei _.
      rewrite <- !sumn_mul_r. apply sumn_ext. intros eo _. ring. }
    transitivity (sumn (o_Q o) (fun q => sumn (length sO) (fun eo => sumn (length sI) (fun ei => sumn ncI (fun ci => sumn esI (fun p =>
      (valO (nth eo sO (0, 0)%nat) q n * (Af A e (ei * ncI + ci)%nat (eo * ncO + co)%nat q * (valI (nth ei sI (0, 0)%nat) q p * Eval Signed (D rin) (act_in vm inv) e ci p)))%R)))))).
    { rewrite sumn_ext with (f := fun ci => sumn esI _) (g := fun ci => sumn (o_Q o) (fun q => sumn esI (fun p => sumn (length sI) (fun ei => sumn (length sO) (fun eo =>
      (valO (nth eo sO (0, 0)%nat) q n * (Af A e (ei * ncI + ci)%nat (eo * ncO + co)%nat q * (valI (nth ei sI (0, 0)%nat) q p * Eval Signed (D rin) (act_in vm inv) e ci p)))%R))))) by (intros; apply sumn_swap).
      rewrite sumn_swap. apply sumn_ext. intros q _.
      rewrite sumn_ext with (f := fun ci => sumn esI _) (g := fun ci => sumn (length sO) (fun eo => sumn (length sI) (fun ei => sumn esI (fun p =>
      (valO (nth eo sO (0, 0)%nat) q n * (Af A e (ei * ncI + ci)%nat (eo * ncO + co)%nat q * (valI (nth ei sI (0, 0)%nat) q p * Eval Signed (D rin) (act_in vm inv) e ci p)))%R)))).
      - rewrite sumn_swap. apply sumn_ext. intros eo _. apply sumn_swap.
      - intros ci _. rewrite sumn_swap. rewrite sumn_ext with (f := fun ei => sumn esI _) (g := fun ei => sumn (length sO) (fun eo => sumn esI (fun p =>
      (valO (nth eo sO (0, 0)%nat) q n * (Af A e (ei * ncI + ci)%nat (eo * ncO + co)%nat q * (valI (nth ei sI (0, 0)%nat) q p * Eval Signed (D rin) (act_in vm inv) e ci p)))%R))) by (intros; apply sumn_swap).
        apply sumn_swap. }
    rewrite sumn_swap. apply sumn_ext. intros eo _. apply sumn_ext. intros q _. rewrite <- sumn_mul_l. apply sumn_ext. intros ei _. rewrite <- sumn_mul_l. apply sumn_ext. intros ci _.
    rewrite <- !sumn_mul_l. reflexivity. }
  rewrite sumn_ext with (f := fun eo => sumn (o_Q o) _) (g := fun eo => (fun s => sumn (o_Q o) (fun q => (valO s q n * vf (nth (fst s) (outs_val D o vm inv e q) []) (snd s * ncO + co)%nat)%R)) (nth eo sO (0, 0)%nat)).
  - rewrite (slots_sum R (o_out o) bO (fun s => sumn (o_Q o) (fun q => (valO s q n * vf (nth (fst s) (outs_val D o vm inv e q) []) (snd s * ncO + co)%nat)%R))).
    apply sumn_ext. intros j Hj. destruct (is_active (fld (o_out o) j)) eqn:Ea; cbn [delta]; auto. cbn [fst snd]. apply out_slot; auto.
  - intros eo Heo. apply sumn_ext. intros q Hq. f_equal.
    assert (Hb : eo * ncO + co < length (comps (o_out o))) by (rewrite lenO; nia).
    rewrite <- (C33_represents R D o vm inv A HA (fw_lin _ _ _ _ _ _ _ H) e q (eo * ncO + co) _ _ He Hq Hb (atO eo co Heo Hco)).
    rewrite lenI. rewrite sumn_mul. apply sumn_ext. intros ei Hei. apply sumn_ext. intros ci Hci. rewrite atI by auto. rewrite in_slot by auto. unfold Af. rewrite lenI. reflexivity.
Qed.
Notation blk := (esO * esI).
Notation total := (u_ne (D rin) * (ncI * (ncO * blk))).

Lemma slotsI_pos : length sI <> 0.
Proof. intros E. destruct (fw_asm _ _ _ _ _ _ _ H) as (_ & _ & Hc & _). rewrite lenI, E in Hc. simpl in Hc. lia. Qed.
Lemma slotsO_pos : length sO <> 0.
Proof. intros E. destruct (fw_asm _ _ _ _ _ _ _ H) as (_ & _ & _ & Hc & _). rewrite lenO, E in Hc. simpl in Hc. lia. Qed.
Lemma sizes : act_size (o_in o) = length sI * ncI /\ act_size (o_out o) = length sO * ncO.
Proof. rewrite <- lenI, <- lenO, !act_size_comps. auto. Qed.

(** sum of the active outputs *)
Definition active_sum (o : oper R) (vm : vmem R) (inv : option nat) (q : nat) : R :=
  sumn (length (o_out o)) (fun j => delta (is_active (fld (o_out o) j)) (contrib D o vm inv j q)).
Lemma single_values : forall jl s i s' v vm off V, build_or_update k junk chk D bs jl s i = Ok (s', v) -> c_ops s i = o -> bi i = pi -> bo i = po ->
  is_assembled D o vm (c_vec s' v) -> length V = off ->
  exists L, length L = total /\
    (forall n, total <= n -> single_assemble k junk chk D bs bi bo jl i off (s, V ++ repeat 0%R n) = Ok (s', V ++ L ++ repeat 0%R (n - total))) /\
    forall rc, symbolic chk D o = Ok rc -> length rc = total /\
      forall vm2 inv q, is_assembled D o vm2 (c_vec s' v) -> coo rc L (act_in vm2 inv) q = active_sum o vm2 inv q.
Proof.
  intros jl s i s' v vm off V Eb Eo Epi Epo HA HV. set (A := c_vec s' v) in *.
  destruct (b_mat_ok R Jmin chk D bs o (o_in o) pi rin bI Hfi Hwi (fw_in _ _ _ _ _ _ _ H) (proj2 posI)) as (Bin & EBi & LBi & GBi).
  destruct (b_mat_ok R Jmin chk D bs o (o_out o) po rout bO Hfo Hwo (fw_out _ _ _ _ _ _ _ H) (proj2 posO)) as (Bout & EBo & LBo & GBo).
  destruct (groups_ok R D o (o_in o) pi rin bI Hwi (fw_in _ _ _ _ _ _ _ H) (proj2 posI)) as (idi & EGi).
  destruct (groups_ok R D o (o_out o) po rout bO Hwo (fw_out _ _ _ _ _ _ _ H) (proj2 posO)) as (ido & EGo).
  pose proof (act_rstr_ok R D o (o_in o) pi rin bI (fw_in _ _ _ _ _ _ _ H)) as ERi.
  pose proof (act_rstr_ok R D o (o_out o) po rout bO (fw_out _ _ _ _ _ _ _ H)) as ERo.
  destruct wfI as (LI & RI & _ & _ & NI). destruct wfO as (LO & RO & _ & _ & NO).
  destruct sizes as (SI & SO). destruct posI as (PI1 & PI2). destruct posO as (PO1 & PO2).
  destruct (fw_asm _ _ _ _ _ _ _ H) as (Hop & _).
  assert (Hne : u_ne (D rin) = u_ne (D rout)) by congruence.
  assert (HAv : forall e ei ci eo co q, e < u_ne (D rin) -> ei < length sI -> ci < ncI -> eo < length sO -> co < ncO -> q < o_Q o ->
    q + (((ei * ncI + ci) * length sO + eo) * ncO + co) * o_Q o + e * (o_Q o * (length sI * ncI * (length sO * ncO))) < length A /\
    vf A (q + (((ei * ncI + ci) * length sO + eo) * ncO + co) * o_Q o + e * (o_Q o * (length sI * ncI * (length sO * ncO)))) = Af A e (ei * ncI + ci) (eo * ncO + co) q).
  { intros e ei ci eo co q He Hei Hci Heo Hco Hq. destruct HA as (LA & _). cbv zeta in LA. rewrite lenI, lenO in LA.
    assert (Ei : q + (((ei * ncI + ci) * length sO + eo) * ncO + co) * o_Q o + e * (o_Q o * (length sI * ncI * (length sO * ncO))) =
      ((e * (length sI * ncI) + (ei * ncI + ci)) * (length sO * ncO) + (eo * ncO + co)) * o_Q o + q) by ring.
    rewrite Ei. split; [|unfold Af; rewrite lenI, lenO; reflexivity]. rewrite LA.
    assert (ei * ncI + ci < length sI * ncI) by nia. assert (eo * ncO + co < length sO * ncO) by nia.
    assert (e * (length sI * ncI) + (ei * ncI + ci) < o_ne o * (length sI * ncI)) by nia.
    assert ((e * (length sI * ncI) + (ei * ncI + ci)) * (length sO * ncO) + (eo * ncO + co) < o_ne o * (length sI * ncI) * (length sO * ncO)) by nia. nia. }
  destruct (elem_mats_ok R k Jmin D rin rout (o_Q o) (length sI) (length sO) Bin Bout A (o_Q o) (o_Q o * (length sI * ncI * (length sO * ncO)))
    (fun s => valI (nth s sI (0, 0))) (fun s => valO (nth s sO (0, 0))) (Af A) (conj LBi GBi) (conj LBo GBo) HAv (ow_k Hop) (conj PO1 (fw_J _ _ _ _ _ _ _ H)) (conj LI (conj LO Hne))
    (match bI with Some _ => true | None => false end)) as (buf & L & EL & LL & GL).
  exists L. split; [exact LL|]. split.
  - intros n Hn. unfold single_assemble. cbn [fst snd]. rewrite Eo. pose proof (ow_ne Hop) as Hpos. destruct (Nat.eqb_spec (o_ne o) 0); [lia|]. rewrite Eb. cbn [rbind]. fold A.
    rewrite Epi, Epo, EGi, EGo. cbn [g_modes]. rewrite !map_length. pose proof slotsI_pos as P1. pose proof slotsO_pos as P2. apply Nat.eqb_neq in P1, P2. rewrite P1, P2. cbn [orb].
    assert (QI : g_qpts D (mkG idi bI (Some rin) (map (smode R (o_in o)) sI)) = Ok (o_Q o)) by (apply (g_qpts_ok R D o (o_in o) pi rin bI (fw_in _ _ _ _ _ _ _ H))).
    assert (QO : g_qpts D (mkG ido bO (Some rout) (map (smode R (o_out o)) sO)) = Ok (o_Q o)) by (apply (g_qpts_ok R D o (o_out o) po rout bO (fw_out _ _ _ _ _ _ _ H))).
    unfold g_mat. rewrite QI, QO. cbn [rbind g_rstr g_basis g_modes]. rewrite EBi, EBo. cbn [rbind]. rewrite ERi, ERo. cbn [rbind].
    rewrite Hne, !Nat.eqb_refl, !andb_false_r. cbn [asm_desc u_es u_nc]. rewrite SI, SO, EL. cbn [rbind snd].
    unfold store. rewrite app_length, repeat_length, LL, HV. destruct (Nat.leb_spec (off + total) (off + n)); [|lia]. cbn [rbind].
    rewrite firstn_app, HV, Nat.sub_diag, firstn_O, app_nil_r. rewrite firstn_all2 by lia.
    rewrite skipn_app, skipn_all2 by lia. rewrite HV. replace (off + total - off) with total by lia. cbn [app].
    rewrite skipn_rep, ?Hne. reflexivity.
  - intros rc Erc. destruct (symbolic_ok chk D R o rin rout goodI goodO Hne ERi ERo) as (rc' & E' & Lrc & Grc). rewrite E' in Erc. inversion Erc; subst rc'. split; [exact Lrc|].
    intros vm2 inv q HA2.
    rewrite (coo_ok R D rin rout (o_Q o) (length sI) (length sO) (fun s => valI (nth s sI (0, 0))) (fun s => valO (nth s sO (0, 0))) (Af A) (conj LI (conj LO Hne)) rc L (act_in vm2 inv) q LL ltac:(congruence)).
    + unfold active_sum. rewrite (Lval_ext R Signed (D rout) _ (fun e co n => sumn (length (o_out o)) (fun j => delta (is_active (fld (o_out o) j)) (out_val D o vm2 inv j (fld (o_out o) j) e co n)))).
      * rewrite (Lval_sumn R Signed (D rout)). apply sumn_ext. intros j Hj. rewrite (Lval_delta R Signed (D rout)). destruct (is_active (fld (o_out o) j)) eqn:Ea; cbn [delta]; auto.
        unfold contrib. destruct (os_rstr (fw_out _ _ _ _ _ _ _ H) j Hj Ea) as (Er & _). unfold rd. rewrite Er. reflexivity.
      * intros e co n He Hco Hn. apply eout_val; auto. congruence.
    + intros e ci co i' j' He Hci Hco Hi' Hj'. split; auto.
Qed.
End One.

Lemma asm_other : forall (o : oper R) vm vm2 A, is_assembled D o vm A ->
  (forall j, j < length (o_in o) -> is_active (fld (o_in o) j) = false -> contents vm2 (fld (o_in o) j) None = contents vm (fld (o_in o) j) None) -> is_assembled D o vm2 A.
Proof.
  intros o vm vm2 A (L & G) Hc. split; auto. cbv zeta in *. intros e a b q He Ha Hb Hq. rewrite G by auto. unfold entry. f_equal. apply fill_ext. intros i c Hi _.
  destruct (is_active (fld (o_in o) i)) eqn:Ea; auto. unfold pas_val. rewrite Hc by auto. reflexivity.
Qed.

(** ** a list of operators *)
(** sums of parts *)
Lemma coo_app : forall rc1 rc2 (L1 L2 x : list R) q, length rc1 = length L1 -> coo (rc1 ++ rc2) (L1 ++ L2) x q = (coo rc1 L1 x q + coo rc2 L2 x q)%R.
Proof.
  intros rc1 rc2 L1 L2 x q E. unfold coo. rewrite app_length, sumn_app. f_equal.
  - apply sumn_ext. intros n Hn. unfold vf at 1 3. rewrite !app_nth1 by lia. reflexivity.
  - apply sumn_ext. intros n Hn. unfold vf at 1 3. rewrite !app_nth2 by lia. rewrite <- E. replace (length rc1 + n - length rc1) with n by lia. reflexivity.
Qed.
Lemma coo_more : forall rc (L M x : list R) q, length rc = length L -> coo rc (L ++ M) x q = coo rc L x q.
Proof. intros rc L M x q E. unfold coo. apply sumn_ext. intros n Hn. unfold vf at 1 3. rewrite !app_nth1 by lia. reflexivity. Qed.

Definition sub_wf (s : cstate R) (i : nat) : Prop := exists rin rout bI bO, full_wf (c_ops s i) (bi i) (bo i) rin rout bI bO.
Lemma sub_sym : forall s i, sub_wf s i -> exists rc, symbolic chk D (c_ops s i) = Ok rc /\ count_entries D (c_ops s i) = Ok (length rc).
Proof.
  intros s i (rin & rout & bI & bO & H). pose proof (act_rstr_ok R D _ _ _ _ _ (fw_in _ _ _ _ _ _ _ H)) as ERi. pose proof (act_rstr_ok R D _ _ _ _ _ (fw_out _ _ _ _ _ _ _ H)) as ERo.
  assert (Hne : u_ne (D rin) = u_ne (D rout)). { rewrite (neI _ _ _ _ _ _ _ H), (neO _ _ _ _ _ _ _ H). reflexivity. }
  destruct (symbolic_ok chk D R _ rin rout (goodI _ _ _ _ _ _ _ H) (goodO _ _ _ _ _ _ _ H) Hne ERi ERo) as (rc & E & L & _). exists rc. split; auto. rewrite L. apply count_ok; auto.
Qed.
Definition syms (s : cstate R) (l : list nat) : res (list (Z * Z)) := rfold l (fun i acc => e <~ symbolic chk D (c_ops s i) ;; Ok (acc ++ e)) [].
End Full.
