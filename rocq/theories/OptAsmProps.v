(** * Property C55: the assembled QFunction on the optimised CPU backends *)
From Coq Require Import List ZArith Lia Bool Arith.
From Verif Require Import Prelude RstrModel RstrSpec RstrProofs RstrProps TensorModel TensorMain BasisModel BasisProofs BasisProps OpModel OpSpec OpLists OpProofs OpMain OpTree OpProps AsmModel AsmSpec AsmProofs AsmProps OptModel OptProofs OptMain OptProps OptAsmModel OptAsmProofs.
Import ListNotations.

Section History.
Variable R : Rng.
Variable k : kernel R.
Variable Jmin : nat.
Variable junk : nat -> nat -> R.
Variable chk : bool.
Variable D : nat -> udesc.
Variable bs : option nat.
Variable o : oper R.
Local Open Scope nat_scope.

(** the vectors of an application have the lengths the optimised backends need (C44) *)
Definition lens_ok (vm : vmem R) (inv outv : option nat) : Prop :=
  (forall f, In f (o_in o) -> f_mode f <> EvWeight -> f_vec f = VAct -> length (contents vm f inv) = u_lsize (rd D f)) /\
  (forall f v, In f (o_out o) -> target f outv = Some v -> vv_len (vm v) = u_lsize (rd D f)).
(** Histories of vector changes, applications and assemblies of one operator; the flags as in AsmProps.v. *)
Inductive oreached : bool -> bool -> oaimpl R -> vmem R -> Prop :=
| or_new : forall vm, mem_ok vm -> oreached false true (new_oaimpl R) vm
| or_set : forall a c st vm v x, oreached a c st vm -> length x = vv_len (vm v) -> oreached a c st (vec_event R (ESet v x) vm)
| or_take : forall a c st vm v, oreached a c st vm -> oreached a c st (vec_event R (ETake v) vm)
| or_apply : forall a c st vm inv outv st' vm', oreached a c st vm -> vec_len D o vm inv outv -> apart o inv outv -> lens_ok vm inv outv ->
    oasm_apply k junk chk D bs o st vm inv outv = Ok (st', vm') -> oreached a (negb a) st' vm'
| or_asm : forall a c st vm jl st' A, oreached a c st vm -> passive_ok R D o vm ->
    opt_assemble k junk chk D bs jl o st vm = Ok (st', A) -> oreached true true st' vm.

Definition ost_ok (a c : bool) (st : oaimpl R) (vm : vmem R) : Prop :=
  mem_ok vm /\ oim_ok chk D bs o (oa_im st) vm /\
  (if a then oa_in st = length (comps (o_in o)) /\ oa_out st = length (comps (o_out o)) else oa_in st = 0 /\ oa_out st = 0) /\
  (a = true -> match oa_im st with Some (_, x) => c = true -> all_zero bs o (d_qin (od x)) | None => False end).

Lemma osetup_any : forall st vm, op_wf D k Jmin chk bs o -> mem_ok vm -> oim_ok chk D bs o (oa_im st) vm ->
  exists s x, match oa_im st with Some sd => Ok sd | None => opt_setup k junk chk D bs o end = Ok (s, x) /\ stat_ok chk D bs o s /\ slots_ok o s /\ odyn_ok D bs o x /\ cache_ok D bs o (od x) vm /\
    match oa_im st with Some (_, x') => x' = x | None => True end.
Proof.
  intros st vm Hwf Hm Hi. destruct (oa_im st) as [(s, x)|].
  - destruct Hi as (H1 & H2 & H3 & H4). exists s, x. auto 7.
  - destruct (opt_setup_ok junk Hwf) as (s & x & E & H1 & H1' & H2 & H3). exists s, x. split; auto. split; auto. split; auto. split; auto. split; auto.
    intros i v Hin Hmo Hf Hve. rewrite H3 by auto. destruct (Hm v) as (M1 & M2 & _). split; auto.
    intros E0 u Hu. rewrite M2 in Hu by auto. discriminate.
Qed.
Lemma oassemble_ok : forall jl a c st vm, asm_wf R k Jmin chk D bs o -> ost_ok a c st vm -> passive_ok R D o vm ->
  exists st' A, opt_assemble k junk chk D bs jl o st vm = Ok (st', A) /\ ost_ok true true st' vm /\ (c = true -> is_assembled D o vm A).
Proof.
  intros jl a c st vm (Hwf & Hw & Hni & Hno & Hid & Hun) (Hm & Hi & Hn & Hz) Hp. unfold opt_assemble.
  destruct (osetup_any st vm Hwf Hm Hi) as (s & x & E & Hs & Hsl & Hd & Hc & Ed). rewrite E. cbn [rbind fst snd].
  destruct (@opt_asm_core_ok R k Jmin junk chk D bs o Hwf Hw vm Hp Hni Hno Hid Hun jl s x (oa_in st) (oa_out st) c Hs Hd Hc) as (x' & A & EA & K1 & K2 & K3 & K4).
  - destruct a; destruct Hn; auto.
  - destruct a; destruct Hn; auto.
  - intros Ec Hne. destruct a; [|destruct Hn; lia]. specialize (Hz eq_refl). destruct (oa_im st) as [(s', x0)|].
    + subst x0. auto.
    + contradiction.
  - rewrite EA. cbn [rbind fst snd]. eexists. exists A. split; [reflexivity|]. split; auto. split; auto. split; [split; auto|]. split; auto. cbn [oa_in oa_out]. auto.
    cbn [oa_im]. auto.
Qed.
Lemma oapply_ok : forall a c st vm inv outv, op_wf D k Jmin chk bs o -> ost_ok a c st vm -> vec_len D o vm inv outv -> apart o inv outv -> lens_ok vm inv outv ->
  exists st' vm', oasm_apply k junk chk D bs o st vm inv outv = Ok (st', vm') /\ ost_ok a (negb a) st' vm' /\
    forall v, if outs o outv v
      then vv_len (vm' v) = vv_len (vm v) /\ exists x', vv_data (vm' v) = Some x' /\ length x' = vv_len (vm v) /\ forall q, vf x' q = added D o vm inv outv v q
      else vm' v = vm v.
Proof.
  intros a c st vm inv outv Hwf (Hm & Hi & Hn & Hz) Hv Ha (L1 & L2). unfold oasm_apply.
  destruct (C44_apply R k Jmin junk chk D bs o (oa_im st) vm inv outv Hwf Hm Hi Hv Ha L1 L2) as (im' & vm' & E & P1 & P2 & P3).
  rewrite E. cbn [rbind fst snd]. do 2 eexists. split; [reflexivity|]. split; auto.
  split; auto. split; auto. split; auto. intros ->. cbn [oa_im]. destruct im' as [(s', d')|].
  - discriminate.
  - unfold opt_apply, opt_apply_add in E. pose proof (ow_ne Hwf) as Hne. apply Nat.ltb_lt in Hne. rewrite Hne in E.
    destruct (match oa_im st with Some sd => Ok sd | None => opt_setup k junk chk D bs o end) as [sd|e|]; cbn [rbind] in E; try discriminate.
    match type of E with rbind ?m _ = _ => destruct m; cbn [rbind] in E; discriminate end.
Qed.
Lemma oreached_ok : forall a c st vm, asm_wf R k Jmin chk D bs o -> oreached a c st vm -> ost_ok a c st vm.
Proof.
  intros a c st vm Hwf H. induction H as [vm Hm|a c st vm v x H IH Hx|a c st vm v H IH|a c st vm inv outv st' vm' H IH Hv Ha Hl E|a c st vm jl st' A H IH Hp E].
  - split; auto. split; [exact I|]. split; [split; reflexivity|]. discriminate.
  - destruct IH as (Hm & Hi & Hn & Hz). cbn [vec_event]. split; [|split; [|auto]].
    + intros w. unfold vset. destruct (Nat.eqb_spec w v) as [->|]; [|apply Hm]. destruct (Hm v) as (M1 & M2 & M3). cbn [vv_state vv_data vv_len].
      split; [lia|]. split; [lia|]. intros y Ey. inversion Ey; subst; auto.
    + eapply oim_fresh; [|exact Hi]. intros w. unfold vset. destruct (Nat.eqb_spec w v) as [->|]; auto. right. cbn [vv_state]. lia.
  - destruct IH as (Hm & Hi & Hn & Hz). cbn [vec_event]. split; [|split; [|auto]].
    + intros w. unfold vset. destruct (Nat.eqb_spec w v) as [->|]; [|apply Hm]. destruct (Hm v) as (M1 & M2 & M3). cbn [vv_state vv_data vv_len].
      split; auto. split; auto. discriminate.
    + unfold oim_ok in *. destruct (oa_im st) as [(s, d)|]; auto. destruct Hi as (H1 & H2 & H3 & H4). split; auto. split; auto. split; auto.
      intros i w Hin Hmo Hf Hve. destruct (H4 i w Hin Hmo Hf Hve) as (K1 & K2). unfold vset. destruct (Nat.eqb_spec w v) as [->|]; auto.
      cbn [vv_state vv_data]. split; auto. discriminate.
  - destruct Hwf as (Hwf & _). destruct (oapply_ok a c st vm inv outv Hwf IH Hv Ha Hl) as (st2 & vm2 & E2 & K & _). rewrite E in E2. inversion E2; subst. auto.
  - destruct (oassemble_ok jl a c st vm Hwf IH Hp) as (st2 & A2 & E2 & K & _). rewrite E in E2. inversion E2; subst. auto.
Qed.
End History.

(** ** C55 *)
(** On the optimised backends, any block size: after any history in which the operator was not applied since it was first
    assembled, or was assembled again since, assembly succeeds and returns the matrix of the QFunction at every point, in the
    documented layout.  [asm_wf] includes that no two active inputs without basis read the same restriction. *)
Theorem C55_assemble : forall (R : Rng) k Jmin junk chk D bs (o : oper R) jl a st vm,
  asm_wf R k Jmin chk D bs o -> oreached R k junk chk D bs o a true st vm -> passive_ok R D o vm ->
  exists st' A, opt_assemble k junk chk D bs jl o st vm = Ok (st', A) /\ oreached R k junk chk D bs o true true st' vm /\ is_assembled D o vm A.
Proof.
  intros R k Jmin junk chk D bs o jl a st vm Hwf Hr Hp. pose proof (oreached_ok _ _ _ _ _ _ _ _ _ _ _ _ Hwf Hr) as Hst.
  destruct (oassemble_ok _ _ _ junk _ _ _ _ jl a true st vm Hwf Hst Hp) as (st' & A & E & _ & H). exists st', A. split; auto. split; auto.
  eapply or_asm; eauto.
Qed.
Print Assumptions C55_assemble.
(** Assembling never disturbs later applications: after every history Apply computes the specification (C44). *)
Theorem C55_apply : forall (R : Rng) k Jmin junk chk D bs (o : oper R) a c st vm inv outv,
  asm_wf R k Jmin chk D bs o -> oreached R k junk chk D bs o a c st vm -> vec_len D o vm inv outv -> apart o inv outv -> lens_ok R D o vm inv outv ->
  exists st' vm', oasm_apply k junk chk D bs o st vm inv outv = Ok (st', vm') /\ oreached R k junk chk D bs o a (negb a) st' vm' /\
    forall v, if outs o outv v
      then vv_len (vm' v) = vv_len (vm v) /\ exists x', vv_data (vm' v) = Some x' /\ length x' = vv_len (vm v) /\ forall q, vf x' q = added D o vm inv outv v q
      else vm' v = vm v.
Proof.
  intros R k Jmin junk chk D bs o a c st vm inv outv Hwf Hr Hv Ha Hl. pose proof (oreached_ok _ _ _ _ _ _ _ _ _ _ _ _ Hwf Hr) as Hst.
  destruct Hwf as (Hwf & _). destruct (oapply_ok _ _ _ junk _ _ _ _ a c st vm inv outv Hwf Hst Hv Ha Hl) as (st' & vm' & E & _ & H). exists st', vm'. split; auto. split; auto.
  eapply or_apply; eauto.
Qed.
Print Assumptions C55_apply.

(** Two arrays with the documented values are equal. *)
Lemma assembled_unique : forall (R : Rng) D (o : oper R) vm A B, is_assembled D o vm A -> is_assembled D o vm B -> A = B.
Proof.
  intros R D o vm A B (LA & GA) (LB & GB). apply (nth_ext _ _ 0%R 0%R). { congruence. }
  intros p Hp. rewrite LA in Hp. change (vf A p = vf B p).
  set (ni := length (comps (o_in o))) in *. set (no := length (comps (o_out o))) in *.
  assert (HQ : o_Q o <> 0) by nia. assert (Hno : no <> 0) by nia. assert (Hni : ni <> 0) by nia.
  set (q := p mod o_Q o). set (p1 := p / o_Q o). set (b := p1 mod no). set (p2 := p1 / no). set (a := p2 mod ni). set (e := p2 / ni).
  assert (E1 : p = p1 * o_Q o + q) by (rewrite Nat.mul_comm; apply Nat.div_mod; auto).
  assert (E2 : p1 = p2 * no + b) by (rewrite Nat.mul_comm; apply Nat.div_mod; auto).
  assert (E3 : p2 = e * ni + a) by (rewrite Nat.mul_comm; apply Nat.div_mod; auto).
  assert (H1 : q < o_Q o) by (apply Nat.mod_upper_bound; auto). assert (H2 : b < no) by (apply Nat.mod_upper_bound; auto). assert (H3 : a < ni) by (apply Nat.mod_upper_bound; auto).
  assert (H4 : e < o_ne o). { assert (p1 < o_ne o * ni * no) by nia. assert (p2 < o_ne o * ni) by nia. nia. }
  rewrite E1, E2, E3. rewrite GA, GB by auto. reflexivity.
Qed.
(** The reference and blocked backends and the optimised backends, with any block sizes and any kernels, return the same array. *)
Theorem C55_same : forall (R : Rng) D (o : oper R) vm k k' Jmin Jmin' junk junk' chk chk' bs bs' jl jl' a a' st st',
  asm_wf R k Jmin chk D bs o -> oreached R k junk chk D bs o a true st vm ->
  asm_wf R k' Jmin' chk' D bs' o -> reached R k' junk' chk' D bs' o a' true st' vm -> passive_ok R D o vm ->
  exists st1 st1' A, opt_assemble k junk chk D bs jl o st vm = Ok (st1, A) /\ assemble k' junk' chk' D bs' jl' o st' vm = Ok (st1', A).
Proof.
  intros R D o vm k k' Jmin Jmin' junk junk' chk chk' bs bs' jl jl' a a' st st' H1 H2 H3 H4 Hp.
  destruct (C55_assemble R k Jmin junk chk D bs o jl a st vm H1 H2 Hp) as (s1 & A & E1 & _ & G1).
  destruct (C33_assemble R k' Jmin' junk' chk' D bs' o jl' a' st' vm (wf_base _ _ _ _ _ _ _ H3) H4 Hp (fun _ => asm_unshared _ _ _ _ _ _ _ H3)) as (s2 & B & E2 & _ & G2).
  exists s1, s2, A. split; auto. rewrite E2. rewrite (assembled_unique _ _ _ _ _ _ G1 G2). reflexivity.
Qed.
Print Assumptions C55_same.

(** Without active inputs and outputs, and for an operator that is just two restrictions, assembly fails with an error. *)
Theorem C55_errors : forall (R : Rng) k Jmin junk chk D bs (o : oper R) jl vm,
  op_wf D k Jmin chk bs o -> mem_ok vm -> passive_ok R D o vm ->
  ident_rstr o = true \/ comps (o_in o) = [] \/ comps (o_out o) = [] ->
  opt_assemble k junk chk D bs jl o (new_oaimpl R) vm = Err ERR_BACKEND.
Proof.
  intros R k Jmin junk chk D bs o jl vm Hwf Hm Hp H. unfold opt_assemble. cbn [new_oaimpl oa_im oa_in oa_out].
  destruct (osetup_any _ _ _ junk _ _ _ _ (new_oaimpl R) vm Hwf Hm I) as (s & x & E & Hs & Hsl & Hd & Hc & _). cbn [new_oaimpl oa_im] in E. rewrite E. cbn [rbind fst snd].
  unfold opt_asm_core. destruct (ident_rstr o) eqn:Eid; [reflexivity|].
  destruct (od x) as [sts ein eo qi qout] eqn:Ex. destruct Hd as [X1 X2 X3 X4 X5 X6]. rewrite Ex in *. cbn [d_states d_ein d_eout d_qin d_qout] in *.
  set (ve := map (fun j => repeat 0%R (esz bs o (rd D (fld (o_out o) j)))) (seq 0 (length (o_out o))) : list (list R)).
  destruct (@setup_inputs_ok R k Jmin chk D bs o Hwf vm None s Hs true) with (d := mkDy sts ein ve qi qout) as (d1 & Es & _); auto.
  { constructor; cbn [d_states d_ein d_eout d_qin d_qout]; auto. unfold ve. rewrite map_length, seq_length. split; auto.
    intros j Hj. rewrite nth_map_seq by auto. simpl. apply repeat_length. }
  assert (E3 : exists d2, opt_setup_inputs o s vm (mkDy sts ein eo qi qout) = Ok d2).
  { unfold opt_setup_inputs, setup_inputs in *. cbn [d_states d_ein d_eout d_qin d_qout] in *.
    destruct (rfold _ _ _) as [st| |]; cbn [rbind] in *; try discriminate. eauto. }
  destruct E3 as (d2 & E3). rewrite E3. cbn [rbind Nat.eqb]. rewrite !act_size_comps.
  destruct H as [H|[H|H]]; [discriminate| |]; rewrite H; cbn [length Nat.eqb]; [reflexivity|].
  destruct (length (comps (o_in o)) =? 0); reflexivity.
Qed.
Print Assumptions C55_errors.

Lemma ex_asm2 : asm_wf Zrng (@contract_avx Zrng) 2 true ex_D (Some 2) ex_op.
Proof. destruct (C33_ex (Some 8) (or_intror eq_refl)) as ((_ & H) & _). split; [apply op_wf2|exact H]. Qed.
Example C55_ex : asm_wf Zrng (@contract_avx Zrng) 2 true ex_D (Some 2) ex_op /\ passive_ok Zrng ex_D ex_op ex_vm /\ linear ex_op /\
  oreached Zrng (@contract_avx Zrng) junkZ true ex_D (Some 2) ex_op false true (new_oaimpl Zrng) ex_vm /\
  vec_len ex_D ex_op ex_vm (Some 1) (Some 2) /\ apart ex_op (Some 1) (Some 2) /\ lens_ok Zrng ex_D ex_op ex_vm (Some 1) (Some 2).
Proof.
  destruct (C33_ex (Some 8) (or_intror eq_refl)) as (_ & H2 & H3 & _). destruct C29_ex_apply as (_ & A & B & _).
  split; [apply ex_asm2|]. split; auto. split; auto. split; [apply or_new; apply ex_mem_ok|]. split; auto. split; auto. split.
  - intros f Hf Hm Ha. insd Hf; try discriminate; try (exfalso; apply Hm; reflexivity); reflexivity.
  - intros f v Hf T. insd Hf; inversion T; reflexivity.
Qed.
Definition oasm_data (r : res (oaimpl Zrng * list Zrng)) : option (list Z) := match r with Ok (_, A) => Some A | _ => None end.
Notation o_asm st vm := (opt_assemble (@contract_avx Zrng) junkZ true ex_D (Some 2) (fun _ => 77%Z) ex_op st vm).
(** three elements in two blocks: the last block is not full *)
Example C55_ex_run : oasm_data (o_asm (new_oaimpl Zrng) ex_vm) = Some [1;4;9; 1;1;1; 0;0;0; 1;2;3;  4;10;18; 1;1;1; 0;0;0; 4;5;6;  7;16;27; 1;1;1; 0;0;0; 7;8;9]%Z.
Proof. vm_compute. reflexivity. Qed.

(** Finding: as on the reference backend (C33) an application between two assemblies leaves its values in the active q_vecs, and the
    second assembly starts from them. *)
Definition ex_oasm1 : oaimpl Zrng * list Zrng := okA (new_oaimpl Zrng) [] (o_asm (new_oaimpl Zrng) ex_vm).
Definition ex_oapp2 : oaimpl Zrng * vmem Zrng := okA (new_oaimpl Zrng) ex_vm (oasm_apply (@contract_avx Zrng) junkZ true ex_D (Some 2) ex_op (fst ex_oasm1) ex_vm (Some 1) (Some 2)).
Theorem C55_stale_refuted : exists (st : oaimpl Zrng) vm st' A,
  asm_wf Zrng (@contract_avx Zrng) 2 true ex_D (Some 2) ex_op /\ linear ex_op /\ passive_ok Zrng ex_D ex_op vm /\
  oreached Zrng (@contract_avx Zrng) junkZ true ex_D (Some 2) ex_op true false st vm /\
  o_asm st vm = Ok (st', A) /\ ~ is_assembled ex_D ex_op vm A.
Proof.
  exists (fst ex_oapp2), (snd ex_oapp2). pose (r := okA (new_oaimpl Zrng) [] (o_asm (fst ex_oapp2) (snd ex_oapp2))). exists (fst r), (snd r).
  destruct C55_ex as (H1 & H2 & H3 & H4 & H5 & H6 & H7).
  assert (R1 : oreached Zrng (@contract_avx Zrng) junkZ true ex_D (Some 2) ex_op true true (fst ex_oasm1) ex_vm).
  { eapply or_asm with (A := snd ex_oasm1); [exact H4|exact H2|]. unfold ex_oasm1. apply okA_ok. vm_compute. reflexivity. }
  split; auto. split; auto. split.
  { intros i Hi Hm Ha. simpl in Hi. destruct i as [|[|[|[|i]]]]; try lia; try discriminate; [exfalso; apply Hm; reflexivity|].
    exists 0. exists [1;2;3;4;5;6;7;8;9]%Z. split; [reflexivity|]. split; [vm_compute; reflexivity|simpl; lia]. }
  split.
  { change false with (negb true). eapply or_apply with (inv := Some 1) (outv := Some 2); [exact R1|exact H5|exact H6|exact H7|].
    unfold ex_oapp2. apply okA_ok. vm_compute. reflexivity. }
  split; [unfold r; apply okA_ok; vm_compute; reflexivity|].
  intros (_ & H). specialize (H 0 0 1 0). revert H. vm_compute. intros H. specialize (H ltac:(lia) ltac:(lia) ltac:(lia) ltac:(lia)). discriminate.
Qed.
Print Assumptions C55_stale_refuted.

(** Finding: two active inputs without basis on the same restriction always share their q_vecs on the optimised backends, so already
    the first assembly is wrong; on the reference backend the first one, before any application, is right. *)
Theorem C55_shared_refuted : exists st' A,
  asm_base Zrng (@contract_avx Zrng) 2 true ex_D (Some 8) op_sh /\ linear op_sh /\ passive_ok Zrng ex_D op_sh ex_vm9 /\
  opt_assemble (@contract_avx Zrng) junkZ true ex_D (Some 8) (fun _ => 0%Z) op_sh (new_oaimpl Zrng) ex_vm9 = Ok (st', A) /\ ~ is_assembled ex_D op_sh ex_vm9 A /\
  A = [1;1;1; 5;5;5; 5;5;5;  1;1;1; 5;5;5; 5;5;5;  1;1;1; 5;5;5; 5;5;5]%Z /\
  asm_data (sh_asm (new_aimpl Zrng) ex_vm9) = Some [1;1;1; 2;2;2; 3;3;3;  1;1;1; 2;2;2; 3;3;3;  1;1;1; 2;2;2; 3;3;3]%Z.
Proof.
  pose (r := okA (new_oaimpl Zrng) [] (opt_assemble (@contract_avx Zrng) junkZ true ex_D (Some 8) (fun _ => 0%Z) op_sh (new_oaimpl Zrng) ex_vm9)). exists (fst r), (snd r).
  split; [apply op_sh_base; auto|]. split.
  { intros pas a1 a2 t j c Hj Ha Hc. simpl in Hj. destruct j as [|j]; try lia; simpl in Hc; (destruct c; [|lia]); unfold qf_at, op_sh, fill, gz, vf; simpl; ring. }
  split. { intros i Hi Hm Ha. simpl in Hi. destruct i as [|[|[|i]]]; try lia; discriminate. }
  split; [unfold r; apply okA_ok; vm_compute; reflexivity|]. split; [|split; vm_compute; reflexivity].
  intros (_ & H). specialize (H 0 1 0 0). revert H. vm_compute. intros H. specialize (H ltac:(lia) ltac:(lia) ltac:(lia) ltac:(lia)). discriminate.
Qed.
Print Assumptions C55_shared_refuted.

(** without elements the array is empty, as on the reference backend; the blocked backend fails (C33) *)
Example C55_ex_empty : oasm_data (opt_assemble (@contract_ref Zrng) junkZ true ex_D0 (Some 8) (fun _ => 0%Z) ex_op0 (new_oaimpl Zrng) ex_vm) = Some [].
Proof. vm_compute. reflexivity. Qed.
