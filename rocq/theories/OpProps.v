(** * Properties C28-C32: operator application *)
From Coq Require Import List ZArith Lia Bool Arith Permutation.
From Verif Require Import Prelude RstrModel RstrSpec RstrProofs RstrProps TensorModel TensorMain BasisModel BasisProofs BasisMain BasisApply BasisProps Digits OpModel OpSpec OpLists OpProofs OpMain OpTree.
Import ListNotations.

Arguments im_ok {R}. Arguments fresh {R}. Arguments outs {R}. Arguments vec_len {R}. Arguments apart {R}. Arguments sets {R}.
Arguments leaves {R}. Arguments leaf_wf {R}. Arguments isout {R}. Arguments total {R}. Arguments sum_adds {R}. Arguments apart_all {R}.
Arguments is_leaf {R}. Arguments cleared {R}. Arguments apart_comp {R}. Arguments zeroed {R}.

(** ** C28 *)
(** ApplyAdd, with or without backend data from earlier applications, adds to every output vector the transposed
    restriction of the integrated QFunction values ([added], OpSpec.v) and changes nothing else. *)
Theorem C28_apply_add : forall (R : Rng) k Jmin junk chk D bs (o : oper R) im vm inv outv,
  op_wf D k Jmin chk bs o -> mem_ok vm -> im_ok chk D bs o im vm -> vec_ok D o vm inv outv ->
  exists im' vm', single_apply_add k junk chk D bs o im vm inv outv = Ok (im', vm') /\ im_ok chk D bs o im' vm' /\ mem_ok vm' /\
    forall v,
      if outs o outv v
      then vv_len (vm' v) = vv_len (vm v) /\ exists x x', vv_data (vm v) = Some x /\ vv_data (vm' v) = Some x' /\ length x' = length x /\
           forall q, vf x' q = (vf x q + added D o vm inv outv v q)%R
      else vm' v = vm v.
Proof.
  intros R k Jmin junk chk D bs o im vm inv outv Hwf Hm Hi Hv.
  destruct (single_add_ok junk im Hwf Hm Hi Hv) as (im' & vm' & E & P1 & P2 & P3). exists im', vm'. split; auto. split; auto. split; auto.
  intros v. specialize (P3 v). fold (outs o outv v) in P3. destruct (outs o outv v); auto. destruct P3 as (A & _ & B). auto.
Qed.
Print Assumptions C28_apply_add.

(** a mass plus stiffness operator on three elements in one dimension: weights, values and gradients of the active
    vector (sharing their restriction), quadrature data from a passive vector; two outputs sharing theirs *)
#[local] Canonical Structure Zrng.
Definition ex_b1 : tbasis Zrng := @mkT Zrng 1 1 2 3 [1;0; 1;1; 0;1]%Z [2;-1; 1;0; -1;1]%Z [1;2;3]%Z false (Some [2;0;-1; 1;0;0; -1;0;1]%Z).
Lemma ex_b1_wf : forall Jm, Jm <= 2 -> b_wf Jm (BT ex_b1).
Proof.
  intros Jm HJ. simpl. unfold t_wf, sizes_ok. simpl. split; [lia|]. split; [lia|]. split; [lia|]. split; [discriminate|].
  intros cg E. inversion E. split; [lia|]. split; [simpl; lia|]. intros q p Hq Hp. destruct q as [|[|[|q]]]; try lia; destruct p as [|[|p]]; try lia; reflexivity.
Qed.
Definition ex_D (i : nat) : udesc :=
  match i with 0 => mkU 3 2 1 1%Z 4 (UStandard [0; 1; 1; 2; 2; 3]%Z) | 2 => mkU 3 3 1 1%Z 9 (UStandard [0;1;2; 3;4;5; 6;7;8]%Z)
             | 3 => mkU 3 3 1 1%Z 4 (UStandard [0;1;2; 1;2;3; 3;2;0]%Z) | 4 => mkU 3 2 1 1%Z 4 (UStandard [0; 1; 1; 2; 2; 3]%Z)
             | 5 => mkU 3 1 1 1%Z 4 (UStandard [0; 1; 2]%Z)
             | _ => mkU 3 3 1 1%Z 9 (UStrided 1 1 3) end.
Definition gz (l : list (list Z)) (i : nat) : Z := nth 0 (nth i l []) 0%Z.
Definition ex_pt (ins : list (list Zrng)) : list (list Zrng) := [[gz ins 0 * gz ins 3 * gz ins 1]; [gz ins 3 * gz ins 2 + gz ins 1]]%Z.
Definition ex_op : oper Zrng := mkOp
  [mkOF 1 EvWeight None (Some (BT ex_b1)) VNo; mkOF 1 EvInterp (Some 0) (Some (BT ex_b1)) VAct; mkOF 1 EvGrad (Some 0) (Some (BT ex_b1)) VAct; mkOF 1 EvNone (Some 1) None (VPas 0)]
  [mkOF 1 EvInterp (Some 0) (Some (BT ex_b1)) VAct; mkOF 1 EvGrad (Some 0) (Some (BT ex_b1)) VAct] 3 3 false 1 ex_pt.
Definition ex_vm : vmem Zrng := fun v => match v with
  | 0 => mkVV 9 (Some [1;2;3;4;5;6;7;8;9]%Z) 2%Z | 1 => mkVV 4 (Some [1;-2;3;5]%Z) 4%Z | 2 => mkVV 4 (Some [10;20;30;40]%Z) 6%Z | _ => mkVV 0 None 0%Z end.

Ltac cases n := first [lia | destruct n as [|n]; [|cases n]].
Ltac rwf3 := repeat match goal with |- _ /\ _ => split end;
  first [reflexivity | simpl; lia | (eexists; reflexivity) | idtac];
  try (let el := fresh "el" in let kk := fresh "kk" in let m := fresh "m" in intros el kk m Hel Hk Hm; simpl in Hel, Hk, Hm;
       do 3 (destruct el as [|el]; [do 1 (destruct kk as [|kk]; [do 3 (destruct m as [|m]; [vm_compute; intuition congruence|]); lia|]); lia|]); lia).
Lemma ex_rwf0 : forall (o : oper Zrng) bs, o_ne o = 3 -> bs = None \/ bs = Some 8 -> rstr_wf true bs o (ex_D 0).
Proof. intros o bs Ho [-> | ->]; unfold rstr_wf; rewrite Ho; rwf3. Qed.
Lemma ex_rwf1 : forall (o : oper Zrng) bs, o_ne o = 3 -> bs = None \/ bs = Some 8 -> rstr_wf true bs o (ex_D 1).
Proof. intros o bs Ho [-> | ->]; unfold rstr_wf; rewrite Ho; rwf3. Qed.
Lemma ex_rwf : forall (o : oper Zrng) bs i, o_ne o = 3 -> bs = None \/ bs = Some 8 -> i < 6 -> rstr_wf true bs o (ex_D i).
Proof.
  intros o bs i Ho Hb Hi. destruct i as [|[|[|[|[|[|i]]]]]]; try lia; destruct Hb as [-> | ->]; unfold rstr_wf; rewrite Ho; rwf3.
Qed.
Lemma ex_interp : forall (o : oper Zrng) bs m i v, o_ne o = 3 -> o_Q o = 3 -> bs = None \/ bs = Some 8 -> m = EvInterp \/ m = EvGrad -> i = 0 \/ i = 4 ->
  field_wf ex_D 2 true bs o (mkOF 1 m (Some i) (Some (BT ex_b1)) v).
Proof.
  intros o bs m i v Ho HQ Hb [-> | ->] Hi; unfold field_wf; cbn [f_mode]; do 3 eexists; (split; [reflexivity|]); (split; [reflexivity|]);
    (split; [apply ex_rwf; auto; lia|]); (split; [apply ex_b1_wf; lia|]); rewrite HQ; destruct Hi as [-> | ->]; repeat split; reflexivity.
Qed.
Lemma ex_none : forall (o : oper Zrng) bs i v, o_ne o = 3 -> o_Q o = 3 -> bs = None \/ bs = Some 8 -> 0 < i < 4 ->
  field_wf ex_D 2 true bs o (mkOF 1 EvNone (Some i) None v).
Proof.
  intros o bs i v Ho HQ Hb Hi. unfold field_wf; cbn [f_mode]. eexists. split; [reflexivity|]. split; [apply ex_rwf; auto; lia|].
  rewrite HQ. destruct i as [|[|[|[|i]]]]; try lia; split; reflexivity.
Qed.
Lemma ex_weight : forall (o : oper Zrng) bs, o_Q o = 3 -> field_wf ex_D 2 true bs o (mkOF 1 EvWeight None (Some (BT ex_b1)) VNo).
Proof. intros o bs HQ. unfold field_wf. cbn [f_mode]. split; auto. split; auto. eexists. split; [reflexivity|]. split; [apply ex_b1_wf; lia|]. rewrite HQ. reflexivity. Qed.
Ltac ex_field := first [apply ex_weight; auto | apply ex_interp; auto; fail | apply ex_none; auto; lia].
Ltac ex_fields i := let Hi := fresh "Hi" in intros i Hi; simpl in Hi; repeat first [lia | destruct i as [|i]; [try (split; [|discriminate]); unfold fld; cbn [nth o_in o_out]; ex_field|]].
(** pairs [i < j] of small indices *)
Ltac ex_pairs i j := do 4 (destruct i as [|i]; [do 5 (destruct j as [|j]; [first [lia | discriminate | (split; reflexivity) | reflexivity]|]); lia|]); lia.

Lemma ex_op_wf : forall bs, bs = None \/ bs = Some 8 -> op_wf ex_D (@contract_avx Zrng) 2 true bs ex_op.
Proof.
  intros bs Hb. constructor; try (simpl; lia).
  - destruct Hb as [-> | ->]; simpl; lia.
  - apply avx_ok.
  - ex_fields i.
  - ex_fields i.
  - intros i j Hij Hsm Hfst. simpl in Hij. ex_pairs i j.
  - intros i j Hij Hsm. simpl in Hij. ex_pairs i j.
Qed.
Example ex_mem_ok : mem_ok ex_vm.
Proof. intros [|[|[|v]]]; simpl; (split; [lia|]); split; try lia; try discriminate; auto; intros x E; inversion E; reflexivity. Qed.
Ltac ex_has v := exists v; eexists; split; [reflexivity|]; split; [reflexivity|]; simpl; lia.
Example ex_vec_ok : vec_ok ex_D ex_op ex_vm (Some 1) (Some 2).
Proof.
  split.
  - intros i Hi Hm. simpl in Hi. destruct i as [|[|[|[|i]]]]; try lia; [exfalso; apply Hm; reflexivity|ex_has 1|ex_has 1|ex_has 0].
  - intros i Hi. simpl in Hi. destruct i as [|[|i]]; try lia; ex_has 2.
Qed.
(** the hypotheses of C28_apply_add hold for this operator, on both backends, and the result is not trivial *)
Example C28_ex : op_wf ex_D (@contract_avx Zrng) 2 true (Some 8) ex_op /\ op_wf ex_D (@contract_avx Zrng) 2 true None ex_op /\
  mem_ok ex_vm /\ vec_ok ex_D ex_op ex_vm (Some 1) (Some 2) /\ map (added ex_D ex_op ex_vm (Some 1) (Some 2) 2) (seq 0 4) = [19; -138; 305; 276]%Z.
Proof.
  split; [apply ex_op_wf; auto|]. split; [apply ex_op_wf; auto|]. split; [apply ex_mem_ok|]. split; [apply ex_vec_ok|]. vm_compute. reflexivity.
Qed.
Definition out_data (r : res (impl Zrng * vmem Zrng)) (v : nat) : option (list Z) := match r with Ok (_, vm) => vv_data (vm v) | _ => None end.
Example C28_ex_run : out_data (single_apply_add (@contract_avx Zrng) junkZ true ex_D None ex_op None ex_vm (Some 1) (Some 2)) 2 = Some [29; -118; 335; 316]%Z /\
  out_data (single_apply_add (@contract_avx Zrng) junkZ true ex_D (Some 8) ex_op None ex_vm (Some 1) (Some 2)) 2 = Some [29; -118; 335; 316]%Z.
Proof. split; vm_compute; reflexivity. Qed.

Definition okv (r : res (impl Zrng * vmem Zrng)) : impl Zrng * vmem Zrng := match r with Ok x => x | _ => (None, ex_vm) end.
Lemma okv_ok : forall r, (match r with Ok _ => true | _ => false end) = true -> r = Ok (fst (okv r), snd (okv r)).
Proof. intros [(a, b)|e|] H; try discriminate. reflexivity. Qed.
Notation ref_add o vm i v := (single_apply_add (@contract_ref Zrng) junkZ true ex_D None o None vm (Some i) (Some v)).

(** Finding: for an identity QFunction between two fields without basis the backends restrict the active arguments, even
    when a field refers to a passive vector.  Here the input field is passive, vector 0. *)
Definition ex_ident : oper Zrng := mkOp [mkOF 1 EvNone (Some 1) None (VPas 0)] [mkOF 1 EvNone (Some 2) None VAct] 3 3 true 1 (fun l => l).
Definition ex_vm9 : vmem Zrng := fun v => match v with
  | 0 => mkVV 9 (Some [1;2;3;4;5;6;7;8;9]%Z) 2%Z | 1 => mkVV 9 (Some [0;0;0;0;0;0;0;0;0]%Z) 4%Z | 2 => mkVV 9 (Some [0;0;0;0;0;0;0;0;0]%Z) 6%Z | _ => mkVV 0 None 0%Z end.
Theorem C28_identity_passive_refuted : exists (o : oper Zrng) vm im' vm' x',
  (forall i, i < length (o_in o) -> field_wf ex_D 2 true None o (fld (o_in o) i)) /\
  (forall i, i < length (o_out o) -> field_wf ex_D 2 true None o (fld (o_out o) i)) /\
  mem_ok vm /\ vec_ok ex_D o vm (Some 1) (Some 2) /\
  single_apply_add (@contract_ref Zrng) junkZ true ex_D None o None vm (Some 1) (Some 2) = Ok (im', vm') /\
  vv_data (vm' 2) = Some x' /\ vf x' 0 <> added ex_D o vm (Some 1) (Some 2) 2 0 /\ vv_data (vm 2) = Some (repeat 0%Z 9).
Proof.
  exists ex_ident, ex_vm9, (fst (okv (ref_add ex_ident ex_vm9 1 2))), (snd (okv (ref_add ex_ident ex_vm9 1 2))). eexists.
  split. { ex_fields i. } split. { ex_fields i. }
  split. { intros [|[|[|v]]]; simpl; (split; [lia|]); split; try lia; try discriminate; auto; intros x E; inversion E; reflexivity. }
  split. { split. intros i Hi Hm. simpl in Hi. destruct i; [|lia]. ex_has 0. intros i Hi. simpl in Hi. destruct i; [|lia]. ex_has 2. }
  split; [apply okv_ok; vm_compute; reflexivity|]. split; [vm_compute; reflexivity|]. split; [vm_compute; discriminate|reflexivity].
Qed.
Print Assumptions C28_identity_passive_refuted.

(** Finding: CeedOperatorSetField compares the component counts and the quadrature points of restriction and basis but not the
    number of nodes; the E-vector is then too short for the basis (restriction 5 has one node per element, the basis two). *)
Definition ex_nodes : oper Zrng := mkOp [mkOF 1 EvInterp (Some 5) (Some (BT ex_b1)) VAct] [mkOF 1 EvNone (Some 1) None VAct] 3 3 false 1 (fun l => l).
Theorem C28_nodes_refuted : exists (o : oper Zrng) vm,
  rstr_wf true None o (ex_D 5) /\ b_wf 2 (bd (fld (o_in o) 0)) /\ b_nc (bd (fld (o_in o) 0)) = u_nc (ex_D 5) /\ b_qpts (bd (fld (o_in o) 0)) = o_Q o /\
  (forall i, i < length (o_out o) -> field_wf ex_D 2 true None o (fld (o_out o) i)) /\
  mem_ok vm /\ vec_ok ex_D o vm (Some 1) (Some 2) /\
  single_apply_add (@contract_ref Zrng) junkZ true ex_D None o None vm (Some 1) (Some 2) = UB.
Proof.
  exists ex_nodes, ex_vm9. split. { apply ex_rwf; auto. } split. { apply ex_b1_wf. lia. } split; [reflexivity|]. split; [reflexivity|].
  split. { ex_fields i. }
  split. { intros [|[|[|v]]]; simpl; (split; [lia|]); split; try lia; try discriminate; auto; intros x E; inversion E; reflexivity. }
  split. { split. intros i Hi Hm. simpl in Hi. destruct i; [|lia]. ex_has 1. intros i Hi. simpl in Hi. destruct i; [|lia]. ex_has 2. }
  vm_compute. reflexivity.
Qed.
Print Assumptions C28_nodes_refuted.

(** ** C29 *)
(** Apply overwrites: the previous contents of the outputs do not matter, not even whether they were valid. *)
Theorem C29_apply : forall (R : Rng) k Jmin junk chk D bs (o : oper R) im vm inv outv,
  op_wf D k Jmin chk bs o -> mem_ok vm -> im_ok chk D bs o im vm -> vec_len D o vm inv outv -> apart o inv outv ->
  exists im' vm', single_apply k junk chk D bs o im vm inv outv = Ok (im', vm') /\ im_ok chk D bs o im' vm' /\ mem_ok vm' /\
    forall v,
      if outs o outv v
      then vv_len (vm' v) = vv_len (vm v) /\ exists x', vv_data (vm' v) = Some x' /\ length x' = vv_len (vm v) /\ forall q, vf x' q = added D o vm inv outv v q
      else vm' v = vm v.
Proof.
  intros R k Jmin junk chk D bs o im vm inv outv Hwf Hm Hi Hv Ha.
  destruct (single_apply_ok junk im Hwf Hm Hi Hv Ha) as (im' & vm' & E & P1 & P2 & P3). exists im', vm'. split; auto. split; auto. split; auto.
  intros v. specialize (P3 v). destruct (outs o outv v); auto. destruct P3 as (A & _ & B). auto.
Qed.
Print Assumptions C29_apply.
(** ApplyAdd of any tree of composite operators adds the sum of all its single operators. *)
Theorem C29_composite_add : forall (R : Rng) k Jmin junk chk D bs inv outv (t : optree R) vm,
  mem_ok vm -> apart_all inv outv (map fst (leaves t)) ->
  (forall o im, In (o, im) (leaves t) -> leaf_wf k Jmin chk D bs o /\ im_ok chk D bs o im vm /\ vec_ok D o vm inv outv) ->
  exists t' vm', tree_apply_add k junk chk D bs t vm inv outv = Ok (t', vm') /\ map fst (leaves t') = map fst (leaves t) /\ mem_ok vm' /\
    (forall o im, In (o, im) (leaves t') -> leaf_wf k Jmin chk D bs o /\ im_ok chk D bs o im vm' /\ vec_ok D o vm' inv outv) /\
    forall v, vv_len (vm' v) = vv_len (vm v) /\
      if isout outv (map fst (leaves t)) v
      then exists x x', vv_data (vm v) = Some x /\ vv_data (vm' v) = Some x' /\ length x' = length x /\
             forall q, vf x' q = (vf x q + sumL (map fst (leaves t)) (fun o => added D o vm inv outv v q))%R
      else vm' v = vm v.
Proof.
  intros R k Jmin junk chk D bs inv outv t vm Hm Ha H.
  destruct (@tree_add_ok R k Jmin junk chk D bs inv outv t vm Hm Ha H) as (t' & vm' & E & P1 & P2 & P3 & P4 & P5).
  exists t', vm'. split; auto.
Qed.
Print Assumptions C29_composite_add.
(** The order of the single operators, and the nesting, do not matter. *)
Theorem C29_order : forall (R : Rng) k Jmin junk chk D bs inv outv (t1 t2 : optree R) vm t1' t2' vm1 vm2,
  mem_ok vm -> apart_all inv outv (map fst (leaves t1)) -> Permutation (map fst (leaves t1)) (map fst (leaves t2)) ->
  (forall o im, In (o, im) (leaves t1) -> leaf_wf k Jmin chk D bs o /\ im_ok chk D bs o im vm /\ vec_ok D o vm inv outv) ->
  (forall o im, In (o, im) (leaves t2) -> leaf_wf k Jmin chk D bs o /\ im_ok chk D bs o im vm /\ vec_ok D o vm inv outv) ->
  tree_apply_add k junk chk D bs t1 vm inv outv = Ok (t1', vm1) -> tree_apply_add k junk chk D bs t2 vm inv outv = Ok (t2', vm2) ->
  forall v, vv_len (vm1 v) = vv_len (vm2 v) /\ vv_data (vm1 v) = vv_data (vm2 v).
Proof.
  intros R k Jmin junk chk D bs inv outv t1 t2 vm t1' t2' vm1 vm2 Hm Ha Hp H1 H2 E1 E2 v.
  assert (Hio : forall v, isout outv (map fst (leaves t1)) v = isout outv (map fst (leaves t2)) v).
  { intros w. apply eq_true_iff_eq. unfold isout. rewrite !existsb_exists. split; intros (o & Ho & E); exists o; (split; [eapply Permutation_in; [|exact Ho]; auto using Permutation_sym|exact E]). }
  assert (Ha2 : apart_all inv outv (map fst (leaves t2))).
  { intros o f w Ho Hf Hmf T. rewrite <- Hio. apply (Ha o f w); auto. eapply Permutation_in; [apply Permutation_sym; eauto|auto]. }
  destruct (C29_composite_add R k Jmin junk chk D bs inv outv t1 vm Hm Ha H1) as (u1 & w1 & F1 & _ & _ & _ & G1).
  destruct (C29_composite_add R k Jmin junk chk D bs inv outv t2 vm Hm Ha2 H2) as (u2 & w2 & F2 & _ & _ & _ & G2).
  rewrite E1 in F1. inversion F1; subst u1 w1. rewrite E2 in F2. inversion F2; subst u2 w2.
  destruct (G1 v) as (L1 & K1). destruct (G2 v) as (L2 & K2). rewrite Hio in K1. split; [congruence|].
  destruct (isout outv (map fst (leaves t2)) v); [|congruence].
  destruct K1 as (x & x1 & A1 & A2 & A3 & A4). destruct K2 as (y & y1 & B1 & B2 & B3 & B4). rewrite A1 in B1. inversion B1; subst y.
  rewrite A2, B2. f_equal. apply vf_ext; [congruence|]. intros q Hq. rewrite A4, B4. f_equal. apply sumL_perm. auto.
Qed.
Print Assumptions C29_order.
(** Apply of a composite operator of single operators: outputs become the sum; with no operators, or none with elements, zero. *)
Theorem C29_composite_apply : forall (R : Rng) k Jmin junk chk D bs inv outv (l : list (optree R)) vm,
  forallb is_leaf l = true -> mem_ok vm -> apart_comp inv outv l ->
  (forall o im, In (o, im) (leaves (Comp l)) -> leaf_wf k Jmin chk D bs o /\ im_ok chk D bs o im vm /\ vec_len D o vm inv outv) ->
  exists t' vm', tree_apply k junk chk D bs (Comp l) vm inv outv = Ok (t', vm') /\ mem_ok vm' /\
    forall v, if cleared outv l v
      then vv_len (vm' v) = vv_len (vm v) /\ exists x', vv_data (vm' v) = Some x' /\ length x' = vv_len (vm v) /\
             forall q, vf x' q = sumL (map fst (leaves (Comp l))) (fun o => added D o vm inv outv v q)
      else vm' v = vm v.
Proof.
  intros R k Jmin junk chk D bs inv outv l vm Hl Hm Ha H.
  destruct (@comp_apply_ok R k Jmin junk chk D bs inv outv l vm Hl Hm Ha H) as (t' & vm' & E & P1 & P2 & P3 & P4).
  exists t', vm'. split; auto.
Qed.
Print Assumptions C29_composite_apply.
(** An operator without elements: Apply zeroes the outputs and changes nothing else. *)
Theorem C29_no_elements : forall (R : Rng) k junk chk D bs (o : oper R) im vm inv outv, o_ne o = 0 ->
  exists vm', single_apply k junk chk D bs o im vm inv outv = Ok (im, vm') /\
    forall v, if outs o outv v then vv_len (vm' v) = vv_len (vm v) /\ vv_data (vm' v) = Some (repeat 0%R (vv_len (vm v))) else vm' v = vm v.
Proof.
  intros R k junk chk D bs o im vm inv outv Hne. unfold single_apply, single_apply_add. rewrite Hne. simpl. eexists. split; [reflexivity|].
  intros v. assert (H0 : zeroed vm (fun _ => false) vm) by (intros x; auto).
  pose proof (@zero_fields R (o_out o) outv vm (fun _ => false) vm H0 v) as Hz. cbv beta in Hz. simpl in Hz. fold (outs o outv v) in Hz.
  destruct (outs o outv v); auto. destruct Hz as (A & B & _). auto.
Qed.
Print Assumptions C29_no_elements.
(** a composite of the example operator and a nested composite of it and an operator without elements *)
Definition ex_empty : oper Zrng := mkOp [] [] 0 3 false 1 (fun l => l).
Definition ex_tree : optree Zrng := Comp [Leaf ex_op None; Comp [Leaf ex_empty None; Leaf ex_op None]; Comp []].
Example C29_ex : apart_all (Some 1) (Some 2) (map fst (leaves ex_tree)) /\
  (forall o im, In (o, im) (leaves ex_tree) -> leaf_wf (@contract_avx Zrng) 2 true ex_D (Some 8) o /\ im_ok true ex_D (Some 8) o im ex_vm /\ vec_ok ex_D o ex_vm (Some 1) (Some 2)).
Proof.
  assert (He : leaf_wf (@contract_avx Zrng) 2 true ex_D (Some 8) ex_empty) by (right; split; [reflexivity|simpl; lia]).
  assert (Hx : leaf_wf (@contract_avx Zrng) 2 true ex_D (Some 8) ex_op) by (left; apply ex_op_wf; auto).
  split.
  - intros o f v Ho Hf Hm T. simpl in Ho. destruct Ho as [<-|[<-|[<-|[]]]]; simpl in Hf; try contradiction;
      (destruct Hf as [<-|[<-|[<-|[<-|[]]]]]; [exfalso; apply Hm; reflexivity|inversion T|inversion T|inversion T]; reflexivity).
  - intros o im Hin. simpl in Hin. destruct Hin as [E|[E|[E|[]]]]; inversion E; subst; (split; [auto|]); (split; [exact I|]); try apply ex_vec_ok;
      split; simpl; intros; lia.
Qed.
Example C29_ex_run : match tree_apply_add (@contract_avx Zrng) junkZ true ex_D (Some 8) ex_tree ex_vm (Some 1) (Some 2) with Ok (_, vm') => vv_data (vm' 2) | _ => None end = Some [48; -256; 640; 592]%Z.
Proof. vm_compute. reflexivity. Qed.
Example C29_ex_apply : apart_comp (Some 1) (Some 2) [Leaf ex_op None; Leaf ex_op None] /\ vec_len ex_D ex_op ex_vm (Some 1) (Some 2) /\ apart ex_op (Some 1) (Some 2) /\
  match tree_apply (@contract_avx Zrng) junkZ true ex_D (Some 8) (Comp [Leaf ex_op None; Leaf ex_op None]) ex_vm (Some 1) (Some 2) with Ok (_, vm') => vv_data (vm' 2) | _ => None end = Some [38; -276; 610; 552]%Z.
Proof.
  split.
  - intros o f v Ho Hf Hm T. simpl in Ho. destruct Ho as [<-|[<-|[]]]; simpl in Hf;
      (destruct Hf as [<-|[<-|[<-|[<-|[]]]]]; [exfalso; apply Hm; reflexivity|inversion T|inversion T|inversion T]; reflexivity).
  - split; [|split; [|vm_compute; reflexivity]].
    + destruct ex_vec_ok as (H1 & H2). split; auto. intros i Hi. simpl in Hi. destruct i as [|[|i]]; try lia; exists 2; split; try reflexivity; simpl; lia.
    + intros f v Hf Hm T. simpl in Hf. destruct Hf as [<-|[<-|[<-|[<-|[]]]]]; [exfalso; apply Hm; reflexivity|inversion T|inversion T|inversion T]; reflexivity.
Qed.
(** Finding: a composite operator inside a composite operator can be applied with ApplyAdd but not with Apply. *)
Theorem C29_nested_refuted : exists (t : optree Zrng) vm t' vm',
  tree_apply_add (@contract_ref Zrng) junkZ true ex_D None t vm (Some 1) (Some 2) = Ok (t', vm') /\
  tree_apply (@contract_ref Zrng) junkZ true ex_D None t vm (Some 1) (Some 2) = Err ERR_MINOR.
Proof.
  exists ex_tree, ex_vm. pose (r := tree_apply_add (@contract_ref Zrng) junkZ true ex_D None ex_tree ex_vm (Some 1) (Some 2)).
  assert (E : match r with Ok _ => true | _ => false end = true) by (vm_compute; reflexivity). fold r.
  destruct r as [(t', vm')|e|]; try discriminate. exists t', vm'. split; [reflexivity|]. vm_compute. reflexivity.
Qed.
Print Assumptions C29_nested_refuted.

(** ** C30 *)
(** Histories of vector changes and applications of one operator.  A vector that is set gets a new state; TakeArray
    leaves the vector without array and its state as it was (VecModel.v, ceed-vector.c:448-471). *)
Inductive event (R : Rng) := ESet (v : nat) (x : list R) | ETake (v : nat) | EAdd (inv outv : option nat) | EApply (inv outv : option nat).
Arguments ESet {R}. Arguments ETake {R}. Arguments EAdd {R}. Arguments EApply {R}.
Section History.
Variable R : Rng.
Variable k : kernel R.
Variable junk : nat -> nat -> R.
Variable chk : bool.
Variable D : nat -> udesc.
Variable bs : option nat.
Variable o : oper R.
Definition vec_event (e : event R) (vm : vmem R) : vmem R :=
  match e with
  | ESet v x => vset vm v (mkVV (vv_len (vm v)) (Some x) (vv_state (vm v) + 2)%Z)
  | ETake v => vset vm v (mkVV (vv_len (vm v)) None (vv_state (vm v)))
  | _ => vm
  end.
(** with the backend data kept from one application to the next *)
Definition step (st : impl R * vmem R) (e : event R) : res (impl R * vmem R) :=
  match e with
  | EAdd i v => single_apply_add k junk chk D bs o (fst st) (snd st) i v
  | EApply i v => single_apply k junk chk D bs o (fst st) (snd st) i v
  | _ => Ok (fst st, vec_event e (snd st))
  end.
Fixpoint run (st : impl R * vmem R) (h : list (event R)) : res (impl R * vmem R) :=
  match h with [] => Ok st | e :: h => st' <~ step st e ;; run st' h end.
(** with a new operator for every application *)
Definition step0 (vm : vmem R) (e : event R) : res (vmem R) := r <~ step (None, vm) e ;; Ok (snd r).
Fixpoint run0 (vm : vmem R) (h : list (event R)) : res (vmem R) :=
  match h with [] => Ok vm | e :: h => vm' <~ step0 vm e ;; run0 vm' h end.
Definition event_ok (vm : vmem R) (e : event R) : Prop :=
  match e with
  | ESet v x => length x = vv_len (vm v)
  | ETake v => True
  | EAdd i v => vec_ok D o vm i v
  | EApply i v => vec_len D o vm i v /\ apart o i v
  end.
(** every application of the history has valid vectors *)
Fixpoint hist_ok (vm : vmem R) (h : list (event R)) : Prop :=
  match h with [] => True | e :: h => event_ok vm e /\ forall vm', step0 vm e = Ok vm' -> hist_ok vm' h end.
Definition alike (vm vm' : vmem R) : Prop := forall v, vv_len (vm v) = vv_len (vm' v) /\ vv_data (vm v) = vv_data (vm' v).

Lemma alike_has : forall vm vm' f act, alike vm vm' -> has D vm f act -> has D vm' f act.
Proof. intros vm vm' f act H (v & x & T & Dx & Lx). exists v, x. destruct (H v) as (_ & E). rewrite <- E. auto. Qed.
Lemma alike_contents : forall vm vm' f act, alike vm vm' -> contents vm f act = contents vm' f act.
Proof. intros vm vm' f act H. unfold contents. destruct (target f act) as [v|]; auto. destruct (H v) as (_ & E). rewrite E. auto. Qed.
Lemma alike_ok : forall vm vm' e, alike vm vm' -> event_ok vm e -> event_ok vm' e.
Proof.
  intros vm vm' [v x|v|i v|i v] H; simpl; auto.
  - destruct (H v) as (E & _). rewrite E. auto.
  - intros (H1 & H2). split; intros; eapply alike_has; eauto.
  - intros ((H1 & H2) & H3). split; auto. split. { intros; eapply alike_has; eauto. }
    intros j Hj. destruct (H2 j Hj) as (w & T & L). exists w. destruct (H w) as (E & _). rewrite <- E. auto.
Qed.

(** Finding C30 apart, keeping the backend data between applications is unobservable: from alike vectors, a history
    with one operator and the same history with a new operator for every application end with alike vectors. *)
Theorem C30_history : forall Jmin h im vm vm0, op_wf D k Jmin chk bs o ->
  mem_ok vm -> mem_ok vm0 -> alike vm vm0 -> im_ok chk D bs o im vm -> hist_ok vm0 h ->
  exists im' vm' vm0', run (im, vm) h = Ok (im', vm') /\ run0 vm0 h = Ok vm0' /\ alike vm' vm0' /\ im_ok chk D bs o im' vm' /\ mem_ok vm' /\ mem_ok vm0'.
Proof.
  intros Jmin h im vm vm0 Hwf. revert im vm vm0. induction h as [|e h IH]; intros im vm vm0 Hm Hm0 Hal Hi Hh.
  - exists im, vm, vm0. simpl. auto 10.
  - destruct Hh as (He & Hh). cbn [run run0].
    assert (Hst : exists im1 vm1 vm01, step (im, vm) e = Ok (im1, vm1) /\ step0 vm0 e = Ok vm01 /\ alike vm1 vm01 /\ im_ok chk D bs o im1 vm1 /\ mem_ok vm1 /\ mem_ok vm01).
    { destruct e as [v x|v|i v|i v]; simpl in He.
      - exists im, (vec_event (ESet v x) vm), (vec_event (ESet v x) vm0). split; auto. split; auto.
        assert (Hmm : forall m : vmem R, mem_ok m -> length x = vv_len (m v) -> mem_ok (vec_event (ESet v x) m)).
        { intros m Hmm Hx w. simpl. unfold vset. destruct (Nat.eqb_spec w v) as [->|]; [|apply Hmm]. destruct (Hmm v) as (A & B & C). simpl. split; [lia|]. split; [lia|]. intros y E. inversion E; subst. auto. }
        destruct (Hal v) as (El & _). split; [|split; [|split; [apply Hmm; auto; lia|apply Hmm; auto]]].
        + intros w. simpl. unfold vset. destruct (Nat.eqb_spec w v) as [->|]; [|apply Hal]. simpl. auto.
        + eapply im_fresh; [|exact Hi]. intros w. simpl. unfold vset. destruct (Nat.eqb_spec w v) as [->|]; auto. simpl. right. lia.
      - exists im, (vec_event (ETake v) vm), (vec_event (ETake v) vm0). split; auto. split; auto.
        assert (Hmm : forall m : vmem R, mem_ok m -> mem_ok (vec_event (ETake v) m)).
        { intros m Hmm w. simpl. unfold vset. destruct (Nat.eqb_spec w v) as [->|]; [|apply Hmm]. destruct (Hmm v) as (A & B & C). simpl. split; auto. split; auto. discriminate. }
        destruct (Hal v) as (El & _). split; [|split; [|split; auto]].
        + intros w. simpl. unfold vset. destruct (Nat.eqb_spec w v) as [->|]; [|apply Hal]. simpl. auto.
        + destruct im as [(s, d)|]; auto. destruct Hi as (H1 & H2 & H3). split; auto. split; auto. intros j w Hj Hmo Hf Hw.
          destruct (H3 j w Hj Hmo Hf Hw) as (A & B). simpl. unfold vset. destruct (Nat.eqb_spec w v) as [->|]; [|auto]. simpl. split; auto. discriminate.
      - assert (He' : vec_ok D o vm i v). { apply (alike_ok vm0 vm (EAdd i v)); auto. intros w. destruct (Hal w). auto. }
        destruct (C28_apply_add R k Jmin junk chk D bs o im vm i v Hwf Hm Hi He') as (im1 & vm1 & E1 & I1 & M1 & G1).
        destruct (C28_apply_add R k Jmin junk chk D bs o None vm0 i v Hwf Hm0 I He) as (im2 & vm2 & E2 & I2 & M2 & G2).
        exists im1, vm1, vm2. split; auto. split. { unfold step0. simpl. rewrite E2. reflexivity. } split; [|auto].
        intros w. destruct (Hal w) as (Lw & Dw). specialize (G1 w). specialize (G2 w). destruct (outs o v w).
        + destruct G1 as (A1 & x & x1 & B1 & B2 & B3 & B4). destruct G2 as (A2 & y & y1 & C1 & C2 & C3 & C4).
          split; [congruence|]. rewrite B1, C1 in Dw. inversion Dw; subst y. rewrite B2, C2. f_equal. apply vf_ext; [congruence|].
          assert (Ea : forall q, added D o vm i v w q = added D o vm0 i v w q). { intros q. apply added_ext. intros f Hf Hmf. apply alike_contents. auto. }
          intros q Hq. rewrite B4, C4, Ea. reflexivity.
        + rewrite G1, G2. auto.
      - assert (He' : event_ok vm (EApply i v)). { apply (alike_ok vm0 vm (EApply i v)); auto. intros w. destruct (Hal w). auto. }
        destruct He' as (V' & A'). destruct He as (V0 & _).
        destruct (C29_apply R k Jmin junk chk D bs o im vm i v Hwf Hm Hi V' A') as (im1 & vm1 & E1 & I1 & M1 & G1).
        destruct (C29_apply R k Jmin junk chk D bs o None vm0 i v Hwf Hm0 I V0 A') as (im2 & vm2 & E2 & I2 & M2 & G2).
        exists im1, vm1, vm2. split; auto. split. { unfold step0. simpl. rewrite E2. reflexivity. } split; [|auto].
        intros w. destruct (Hal w) as (Lw & Dw). specialize (G1 w). specialize (G2 w). destruct (outs o v w).
        + destruct G1 as (A1 & x1 & B2 & B3 & B4). destruct G2 as (A2 & y1 & C2 & C3 & C4).
          split; [congruence|]. rewrite B2, C2. f_equal. apply vf_ext; [congruence|].
          intros q Hq. rewrite B4, C4. apply added_ext. intros f Hf Hmf. apply alike_contents. auto.
        + rewrite G1, G2. auto. }
    destruct Hst as (im1 & vm1 & vm01 & E1 & E2 & P1 & P2 & P3 & P4). rewrite E1, E2. cbn [rbind].
    apply (IH im1 vm1 vm01); auto.
Qed.
End History.
Print Assumptions C30_history.

(** the passive input is changed between applications, and taken and set again *)
Definition ex_hist : list (event Zrng) :=
  [EApply (Some 1) (Some 2); EAdd (Some 1) (Some 2); ESet 0 [0;0;1;0;0;0;0;0;0]%Z; EApply (Some 1) (Some 2); ETake 0; ESet 0 [0;0;2;0;0;0;0;0;0]%Z; EAdd (Some 1) (Some 2)].
Definition hres (r : res (impl Zrng * vmem Zrng)) := match r with Ok (_, vm) => vv_data (vm 2) | _ => None end.
Definition hres0 (r : res (vmem Zrng)) := match r with Ok vm => vv_data (vm 2) | _ => None end.
Ltac ex_vec := split; [let i := fresh "i" in intros i Hi Hm; simpl in Hi; destruct i as [|[|[|[|i]]]]; try lia; [exfalso; apply Hm; reflexivity|ex_has 1|ex_has 1|ex_has 0]|];
  let i := fresh "i" in intros i Hi; simpl in Hi; destruct i as [|[|i]]; try lia; ex_has 2.
Section HistBool.
Variable R : Rng.
Variable k : kernel R.
Variable junk : nat -> nat -> R.
Variable chk : bool.
Variable D : nat -> udesc.
Variable bs : option nat.
Variable o : oper R.
Definition hasb (vm : vmem R) (f : ofield R) (act : option nat) : bool :=
  match target f act with Some v => match vv_data (vm v) with Some x => u_lsize (rd D f) <=? length x | None => false end | None => false end.
Definition isw (f : ofield R) : bool := match f_mode f with EvWeight => true | _ => false end.
Definition event_okb (vm : vmem R) (e : event R) : bool :=
  match e with
  | ESet v x => length x =? vv_len (vm v)
  | ETake v => true
  | EAdd i v => forallb (fun f => isw f || hasb vm f i) (o_in o) && forallb (fun f => hasb vm f v) (o_out o)
  | EApply i v => forallb (fun f => isw f || hasb vm f i) (o_in o) &&
      forallb (fun f => match target f v with Some w => u_lsize (rd D f) <=? vv_len (vm w) | None => false end) (o_out o) &&
      forallb (fun f => isw f || match target f i with Some w => negb (outs o v w) | None => true end) (o_in o)
  end.
Fixpoint hist_okb (vm : vmem R) (h : list (event R)) : bool :=
  match h with [] => true | e :: h => event_okb vm e && match step0 R k junk chk D bs o vm e with Ok vm' => hist_okb vm' h | _ => true end end.
Lemma hasb_ok : forall vm f act, hasb vm f act = true -> has D vm f act.
Proof.
  intros vm f act H. unfold hasb in H. unfold has. destruct (target f act) as [v|]; [|discriminate]. destruct (vv_data (vm v)) as [x|] eqn:E; [|discriminate].
  apply Nat.leb_le in H. exists v, x. auto.
Qed.
Lemma isw_ok : forall (f : ofield R) b, f_mode f <> EvWeight -> isw f || b = true -> b = true.
Proof. intros f b Hm H. unfold isw in H. destruct (f_mode f); auto; congruence. Qed.
Lemma event_okb_ok : forall vm e, event_okb vm e = true -> event_ok R D o vm e.
Proof.
  intros vm [v x|v|i v|i v]; simpl; auto.
  - apply Nat.eqb_eq.
  - intros H. apply andb_true_iff in H. destruct H as (H1 & H2). rewrite forallb_forall in H1, H2. split.
    + intros j Hj Hm. apply hasb_ok. apply (isw_ok (fld (o_in o) j)); auto. apply H1. apply nth_In. auto.
    + intros j Hj. apply hasb_ok. apply H2. apply nth_In. auto.
  - intros H. apply andb_true_iff in H. destruct H as (H & H3). apply andb_true_iff in H. destruct H as (H1 & H2). rewrite forallb_forall in H1, H2, H3.
    split; [split|].
    + intros j Hj Hm. apply hasb_ok. apply (isw_ok (fld (o_in o) j)); auto. apply H1. apply nth_In. auto.
    + intros j Hj. specialize (H2 (fld (o_out o) j) ltac:(apply nth_In; auto)). destruct (target (fld (o_out o) j) v) as [w|]; [|discriminate]. apply Nat.leb_le in H2. eauto.
    + intros f w Hf Hm T. pose proof (isw_ok f _ Hm (H3 f Hf)) as Hx. rewrite T in Hx. apply negb_true_iff in Hx. auto.
Qed.
Lemma hist_okb_ok : forall h vm, hist_okb vm h = true -> hist_ok R k junk chk D bs o vm h.
Proof.
  induction h as [|e h IH]; intros vm H; simpl in *; auto. apply andb_true_iff in H. destruct H as (H1 & H2).
  split. { apply event_okb_ok. auto. } intros vm' E. rewrite E in H2. auto.
Qed.
End HistBool.
Example C30_ex : hist_ok Zrng (@contract_ref Zrng) junkZ true ex_D None ex_op ex_vm ex_hist.
Proof. apply hist_okb_ok. vm_compute. reflexivity. Qed.
Example C30_ex_run : hres (run Zrng (@contract_ref Zrng) junkZ true ex_D None ex_op (None, ex_vm) ex_hist) = hres0 (run0 Zrng (@contract_ref Zrng) junkZ true ex_D None ex_op ex_vm ex_hist)
  /\ hres0 (run0 Zrng (@contract_ref Zrng) junkZ true ex_D None ex_op ex_vm ex_hist) = Some [15; -45; 28; 4]%Z.
Proof. split; vm_compute; reflexivity. Qed.
(** Finding: while the array of a passive input is taken, an operator that was applied before still computes, from the old
    contents; a new operator reports the missing array. *)
Theorem C30_taken_refuted : exists (o : oper Zrng) vm h im' vm',
  op_wf ex_D (@contract_avx Zrng) 2 true None o /\ mem_ok vm /\
  run Zrng (@contract_avx Zrng) junkZ true ex_D None o (None, vm) h = Ok (im', vm') /\
  run0 Zrng (@contract_avx Zrng) junkZ true ex_D None o vm h = Err ERR_BACKEND.
Proof.
  pose (h := [EAdd (Some 1) (Some 2); ETake 0; EAdd (Some 1) (Some 2)] : list (event Zrng)).
  pose (r := run Zrng (@contract_avx Zrng) junkZ true ex_D None ex_op (None, ex_vm) h).
  exists ex_op, ex_vm, h, (fst (okv r)), (snd (okv r)).
  split; [apply ex_op_wf; auto|]. split; [apply ex_mem_ok|]. split; [apply okv_ok; vm_compute; reflexivity|vm_compute; reflexivity].
Qed.
Print Assumptions C30_taken_refuted.

(** ** C31 *)
(** [o'] has the fields of [o] with equal but differently shared restrictions. *)
Definition refield {R : Rng} (D : nat -> udesc) (f f' : ofield R) : Prop :=
  f_size f = f_size f' /\ f_mode f = f_mode f' /\ f_basis f = f_basis f' /\ f_vec f = f_vec f' /\ rd D f = rd D f'.
Definition twin {R : Rng} (D : nat -> udesc) (o o' : oper R) : Prop :=
  Forall2 (refield D) (o_in o) (o_in o') /\ Forall2 (refield D) (o_out o) (o_out o') /\ o_ident o = o_ident o' /\ o_pt o = o_pt o'.
Lemma F2_nth : forall A (P : A -> A -> Prop) l l' d i, Forall2 P l l' -> i < length l -> P (nth i l d) (nth i l' d).
Proof. intros A P l l' d i H. revert i. induction H; intros [|i] Hi; simpl in *; try lia; auto. apply IHForall2. lia. Qed.
Lemma F2_len : forall A (P : A -> A -> Prop) l l', Forall2 P l l' -> length l = length l'.
Proof. intros A P l l' H. induction H; simpl; auto. Qed.
Lemma twin_added : forall (R : Rng) D (o o' : oper R) vm inv outv v q, twin D o o' -> added D o vm inv outv v q = added D o' vm inv outv v q.
Proof.
  intros R D o o' vm inv outv v q (Hi & Ho & Hid & Hpt).
  assert (Hins : forall e x, ins_val D o vm inv e x = ins_val D o' vm inv e x).
  { intros e x. unfold ins_val. induction Hi as [|f f' l l' (A1 & A2 & A3 & A4 & A5) HF IH]; simpl; auto. f_equal; auto.
    rewrite A1. apply map_ext. intros c. unfold in_val, contents, target, bd. rewrite A2, A3, A4, A5. reflexivity. }
  assert (Houts : forall e x, outs_val D o vm inv e x = outs_val D o' vm inv e x).
  { intros e x. unfold outs_val. rewrite Hid, Hpt, Hins. reflexivity. }
  unfold added. rewrite <- (F2_len _ _ _ _ Ho). apply sumn_ext. intros j Hj.
  destruct (F2_nth _ _ _ _ (mkOF 0 EvNone None None VNo) j Ho Hj) as (A1 & A2 & A3 & A4 & A5). fold (fld (o_out o) j) (fld (o_out o') j) in *.
  unfold target. rewrite A4. apply (f_equal (delta _)). unfold contrib. rewrite A5. apply Lval_ext. intros el kk n _ _ _. unfold out_val, bd. rewrite A2, A3.
  destruct (f_mode (fld (o_out o') j)); try (rewrite Houts; reflexivity); apply sumn_ext; intros d _; apply sumn_ext; intros x _; rewrite Houts; reflexivity.
Qed.
Lemma twin_outs : forall (R : Rng) D (o o' : oper R) outv v, twin D o o' -> outs o outv v = outs o' outv v.
Proof. intros R D o o' outv v (_ & Ho & _). unfold outs. induction Ho as [|f f' l l' (A1 & A2 & A3 & A4 & A5) HF IH]; simpl; auto. rewrite IH. unfold target. rewrite A4. reflexivity. Qed.

Theorem C31_sharing : forall (R : Rng) k Jmin junk chk D bs (o o' : oper R) vm inv outv im im' vm1 vm2,
  op_wf D k Jmin chk bs o -> op_wf D k Jmin chk bs o' -> twin D o o' -> mem_ok vm -> vec_ok D o vm inv outv -> vec_ok D o' vm inv outv ->
  single_apply_add k junk chk D bs o None vm inv outv = Ok (im, vm1) -> single_apply_add k junk chk D bs o' None vm inv outv = Ok (im', vm2) ->
  forall v, vv_len (vm1 v) = vv_len (vm2 v) /\ vv_data (vm1 v) = vv_data (vm2 v).
Proof.
  intros R k Jmin junk chk D bs o o' vm inv outv im im' vm1 vm2 W1 W2 Ht Hm V1 V2 E1 E2 v.
  destruct (C28_apply_add R k Jmin junk chk D bs o None vm inv outv W1 Hm I V1) as (i1 & m1 & F1 & _ & _ & G1).
  destruct (C28_apply_add R k Jmin junk chk D bs o' None vm inv outv W2 Hm I V2) as (i2 & m2 & F2 & _ & _ & G2).
  rewrite E1 in F1. inversion F1; subst i1 m1. rewrite E2 in F2. inversion F2; subst i2 m2.
  specialize (G1 v). specialize (G2 v). rewrite (twin_outs _ _ _ _ outv v Ht) in G1. destruct (outs o' outv v).
  - destruct G1 as (A1 & x & x1 & B1 & B2 & B3 & B4). destruct G2 as (A2 & y & y1 & C1 & C2 & C3 & C4).
    split; [congruence|]. rewrite B1 in C1. inversion C1; subst y. rewrite B2, C2. f_equal. apply vf_ext; [congruence|].
    intros q Hq. rewrite B4, C4, (twin_added _ _ _ _ _ _ _ _ _ Ht). reflexivity.
  - rewrite G1, G2. auto.
Qed.
Print Assumptions C31_sharing.
(** the operator of C28_ex and one where no two fields share a restriction (4 is a copy of 0) *)
Definition ex_op' : oper Zrng := mkOp
  [mkOF 1 EvWeight None (Some (BT ex_b1)) VNo; mkOF 1 EvInterp (Some 4) (Some (BT ex_b1)) VAct; mkOF 1 EvGrad (Some 0) (Some (BT ex_b1)) VAct; mkOF 1 EvNone (Some 1) None (VPas 0)]
  [mkOF 1 EvInterp (Some 0) (Some (BT ex_b1)) VAct; mkOF 1 EvGrad (Some 4) (Some (BT ex_b1)) VAct] 3 3 false 1 ex_pt.
Example C31_ex : twin ex_D ex_op ex_op' /\ op_wf ex_D (@contract_avx Zrng) 2 true (Some 8) ex_op' /\ vec_ok ex_D ex_op' ex_vm (Some 1) (Some 2) /\
  existsb (fun f => existsb (fun g => match f_mode f, f_mode g with EvInterp, EvGrad => same f g | _, _ => false end) (o_in ex_op)) (o_in ex_op) = true.
Proof.
  split. { repeat split; repeat constructor. }
  split. { constructor; try (simpl; lia). apply avx_ok. ex_fields i. ex_fields i.
    intros i j Hij Hsm Hfst. simpl in Hij. ex_pairs i j. intros i j Hij Hsm. simpl in Hij. ex_pairs i j. }
  split; [ex_vec|reflexivity].
Qed.

(** Findings: sharing without the conditions [ow_din], [ow_dout] of [op_wf]. *)
Definition fields_wf (o : oper Zrng) : Prop :=
  (forall i, i < length (o_in o) -> field_wf ex_D 2 true None o (fld (o_in o) i)) /\
  (forall i, i < length (o_out o) -> field_wf ex_D 2 true None o (fld (o_out o) i) /\ f_mode (fld (o_out o) i) <> EvWeight).
Definition ex_fold (ins : list (list Zrng)) : list (list Zrng) := [[fold_right Z.add 0 (map (fun l => nth 0 l 0) ins)]; [2 * gz ins 0]; [3 * gz ins 0]]%Z.
(** two inputs without basis *)
Definition ex_dup_none : oper Zrng := mkOp [mkOF 1 EvNone (Some 1) None VAct; mkOF 1 EvNone (Some 1) None VAct] [mkOF 1 EvNone (Some 2) None VAct] 3 3 false 1 ex_fold.
Theorem C31_inputs_none_refuted : exists o : oper Zrng, fields_wf o /\ mem_ok ex_vm9 /\ vec_ok ex_D o ex_vm9 (Some 0) (Some 2) /\
  single_apply_add (@contract_ref Zrng) junkZ true ex_D None o None ex_vm9 (Some 0) (Some 2) = UB.
Proof.
  exists ex_dup_none. split. { split; ex_fields i. }
  split. { intros [|[|[|v]]]; simpl; (split; [lia|]); split; try lia; try discriminate; auto; intros x E; inversion E; reflexivity. }
  split. { split. intros i Hi Hm. simpl in Hi. destruct i as [|[|i]]; try lia; ex_has 0. intros i Hi. simpl in Hi. destruct i; [|lia]. ex_has 2. }
  vm_compute. reflexivity.
Qed.
(** two inputs with quadrature weights *)
Definition ex_dup_w : oper Zrng := mkOp [mkOF 1 EvWeight None (Some (BT ex_b1)) VNo; mkOF 1 EvWeight None (Some (BT ex_b1)) VNo] [mkOF 1 EvNone (Some 2) None VAct] 3 3 false 1 ex_fold.
Theorem C31_inputs_weight_refuted : exists o : oper Zrng, fields_wf o /\ mem_ok ex_vm9 /\ vec_ok ex_D o ex_vm9 (Some 0) (Some 2) /\
  single_apply_add (@contract_ref Zrng) junkZ true ex_D None o None ex_vm9 (Some 0) (Some 2) = UB.
Proof.
  exists ex_dup_w. split. { split; ex_fields i. }
  split. { intros [|[|[|v]]]; simpl; (split; [lia|]); split; try lia; try discriminate; auto; intros x E; inversion E; reflexivity. }
  split. { split. intros i Hi Hm. simpl in Hi. exfalso. apply Hm. destruct i as [|[|i]]; try lia; reflexivity. intros i Hi. simpl in Hi. destruct i; [|lia]. ex_has 2. }
  vm_compute. reflexivity.
Qed.
(** two outputs without basis *)
Definition ex_dup_out : oper Zrng := mkOp [mkOF 1 EvNone (Some 1) None VAct] [mkOF 1 EvNone (Some 2) None VAct; mkOF 1 EvNone (Some 2) None VAct] 3 3 false 1 ex_fold.
Theorem C31_outputs_none_refuted : exists o : oper Zrng, fields_wf o /\ mem_ok ex_vm9 /\ vec_ok ex_D o ex_vm9 (Some 0) (Some 2) /\
  single_apply_add (@contract_ref Zrng) junkZ true ex_D None o None ex_vm9 (Some 0) (Some 2) = UB.
Proof.
  exists ex_dup_out. split. { split; ex_fields i. }
  split. { intros [|[|[|v]]]; simpl; (split; [lia|]); split; try lia; try discriminate; auto; intros x E; inversion E; reflexivity. }
  split. { split. intros i Hi Hm. simpl in Hi. destruct i as [|i]; try lia; ex_has 0. intros i Hi. simpl in Hi. destruct i as [|[|i]]; try lia; ex_has 2. }
  vm_compute. reflexivity.
Qed.
(** two outputs without basis and one with a basis: no crash, but the first contribution is lost *)
Definition ex_b3 : tbasis Zrng := @mkT Zrng 1 1 3 3 [1;1;0; 0;1;0; 0;1;1]%Z [2;-1;0; 1;0;0; -1;1;0]%Z [1;2;3]%Z false None.
Lemma ex_b3_wf : b_wf 2 (BT ex_b3).
Proof. simpl. unfold t_wf, sizes_ok. simpl. split; [lia|]. split; [lia|]. split; [lia|]. split; discriminate. Qed.
Definition ex_dup_lost : oper Zrng := mkOp [mkOF 1 EvNone (Some 1) None VAct]
  [mkOF 1 EvNone (Some 2) None VAct; mkOF 1 EvNone (Some 2) None VAct; mkOF 1 EvInterp (Some 2) (Some (BT ex_b3)) VAct] 3 3 false 1 ex_fold.
Ltac ex_interp3 H := unfold field_wf; cbn [f_mode]; do 3 eexists; (split; [reflexivity|]); (split; [reflexivity|]);
    (split; [apply ex_rwf; auto; lia|]); (split; [exact H|]); repeat split; reflexivity.
Theorem C31_outputs_lost_refuted : exists (o : oper Zrng) im' vm' x', fields_wf o /\ mem_ok ex_vm9 /\ vec_ok ex_D o ex_vm9 (Some 0) (Some 2) /\
  single_apply_add (@contract_ref Zrng) junkZ true ex_D None o None ex_vm9 (Some 0) (Some 2) = Ok (im', vm') /\
  vv_data (vm' 2) = Some x' /\ vf x' 0 <> added ex_D o ex_vm9 (Some 0) (Some 2) 2 0 /\ vv_data (ex_vm9 2) = Some (repeat 0%Z 9).
Proof.
  exists ex_dup_lost, (fst (okv (ref_add ex_dup_lost ex_vm9 0 2))), (snd (okv (ref_add ex_dup_lost ex_vm9 0 2))). eexists.
  split. { split; [ex_fields i|]. intros i Hi. simpl in Hi. destruct i as [|[|[|i]]]; try lia; (split; [|discriminate]); unfold fld; cbn [nth o_out ex_dup_lost]; try ex_field.
    ex_interp3 ex_b3_wf. }
  split. { intros [|[|[|v]]]; simpl; (split; [lia|]); split; try lia; try discriminate; auto; intros x E; inversion E; reflexivity. }
  split. { split. intros i Hi Hm. simpl in Hi. destruct i as [|i]; try lia; ex_has 0. intros i Hi. simpl in Hi. destruct i as [|[|[|i]]]; try lia; ex_has 2. }
  split; [apply okv_ok; vm_compute; reflexivity|]. split; [vm_compute; reflexivity|]. split; [vm_compute; discriminate|reflexivity].
Qed.
(** two outputs with a collocated basis: the second overwrites the first *)
Definition ex_b3c : tbasis Zrng := @mkT Zrng 1 1 3 3 [1;0;0; 0;1;0; 0;0;1]%Z [2;-1;0; 1;0;0; -1;1;0]%Z [1;2;3]%Z true None.
Lemma ex_b3c_wf : b_wf 2 (BT ex_b3c).
Proof.
  simpl. unfold t_wf, sizes_ok. simpl. split; [lia|]. split; [lia|]. split; [lia|]. split; [|discriminate]. intros _. split; auto. split; auto.
  intros q p Hq Hp. destruct q as [|[|[|q]]]; try lia; destruct p as [|[|[|p]]]; try lia; reflexivity.
Qed.
Definition ex_dup_collo : oper Zrng := mkOp [mkOF 1 EvNone (Some 1) None VAct]
  [mkOF 1 EvInterp (Some 2) (Some (BT ex_b3c)) VAct; mkOF 1 EvInterp (Some 2) (Some (BT ex_b3c)) VAct] 3 3 false 1 ex_fold.
Theorem C31_outputs_collocated_refuted : exists (o : oper Zrng) im' vm' x', fields_wf o /\ mem_ok ex_vm9 /\ vec_ok ex_D o ex_vm9 (Some 0) (Some 2) /\
  single_apply_add (@contract_ref Zrng) junkZ true ex_D None o None ex_vm9 (Some 0) (Some 2) = Ok (im', vm') /\
  vv_data (vm' 2) = Some x' /\ vf x' 0 <> added ex_D o ex_vm9 (Some 0) (Some 2) 2 0 /\ vv_data (ex_vm9 2) = Some (repeat 0%Z 9).
Proof.
  exists ex_dup_collo, (fst (okv (ref_add ex_dup_collo ex_vm9 0 2))), (snd (okv (ref_add ex_dup_collo ex_vm9 0 2))). eexists.
  split. { split; [ex_fields i|]. intros i Hi. simpl in Hi. destruct i as [|[|i]]; try lia; (split; [|discriminate]); unfold fld; cbn [nth o_out ex_dup_collo];
    ex_interp3 ex_b3c_wf. }
  split. { intros [|[|[|v]]]; simpl; (split; [lia|]); split; try lia; try discriminate; auto; intros x E; inversion E; reflexivity. }
  split. { split. intros i Hi Hm. simpl in Hi. destruct i as [|i]; try lia; ex_has 0. intros i Hi. simpl in Hi. destruct i as [|[|i]]; try lia; ex_has 2. }
  split; [apply okv_ok; vm_compute; reflexivity|]. split; [vm_compute; reflexivity|]. split; [vm_compute; discriminate|reflexivity].
Qed.
Print Assumptions C31_inputs_none_refuted. Print Assumptions C31_inputs_weight_refuted. Print Assumptions C31_outputs_none_refuted.
Print Assumptions C31_outputs_lost_refuted. Print Assumptions C31_outputs_collocated_refuted.

(** ** C32 *)
(** The element-by-element and the blocked operator (any block size, any contraction kernels) give the same vectors. *)
Theorem C32_blocked : forall (R : Rng) k1 k2 J1 J2 junk1 junk2 chk1 chk2 D (o : oper R) b vm inv outv,
  op_wf D k1 J1 chk1 None o -> op_wf D k2 J2 chk2 (Some b) o -> mem_ok vm -> vec_ok D o vm inv outv ->
  exists im1 vm1 im2 vm2,
    single_apply_add k1 junk1 chk1 D None o None vm inv outv = Ok (im1, vm1) /\
    single_apply_add k2 junk2 chk2 D (Some b) o None vm inv outv = Ok (im2, vm2) /\
    forall v, vv_len (vm1 v) = vv_len (vm2 v) /\ vv_data (vm1 v) = vv_data (vm2 v).
Proof.
  intros R k1 k2 J1 J2 junk1 junk2 chk1 chk2 D o b vm inv outv W1 W2 Hm V.
  destruct (C28_apply_add R k1 J1 junk1 chk1 D None o None vm inv outv W1 Hm I V) as (i1 & m1 & F1 & _ & _ & G1).
  destruct (C28_apply_add R k2 J2 junk2 chk2 D (Some b) o None vm inv outv W2 Hm I V) as (i2 & m2 & F2 & _ & _ & G2).
  exists i1, m1, i2, m2. split; auto. split; auto. intros v. specialize (G1 v). specialize (G2 v). destruct (outs o outv v).
  - destruct G1 as (A1 & x & x1 & B1 & B2 & B3 & B4). destruct G2 as (A2 & y & y1 & C1 & C2 & C3 & C4).
    split; [congruence|]. rewrite B1 in C1. inversion C1; subst y. rewrite B2, C2. f_equal. apply vf_ext; [congruence|].
    intros q Hq. rewrite B4, C4. reflexivity.
  - rewrite G1, G2. auto.
Qed.
Print Assumptions C32_blocked.
Example C32_ex : op_wf ex_D (@contract_avx Zrng) 2 true None ex_op /\ op_wf ex_D (@contract_avx Zrng) 2 true (Some 8) ex_op /\ mem_ok ex_vm /\ vec_ok ex_D ex_op ex_vm (Some 1) (Some 2).
Proof. split; [apply ex_op_wf; auto|]. split; [apply ex_op_wf; auto|]. split; [apply ex_mem_ok|apply ex_vec_ok]. Qed.
