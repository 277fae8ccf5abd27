(** * Assembly of the QFunction at the quadrature points, reference and blocked CPU backends

    backends/ref/ceed-ref-operator.c:478-664 and backends/blocked/ceed-blocked-operator.c:525-745, on top of the operator
    model (OpModel.v, whose simplifications apply here too).  [bs = None]: ref, [bs = Some 8]: blocked.

    Further simplifications:
    - the q_vecs of active outputs borrow parts of the assembled array while the QFunction runs and give them back at
      the end (CeedVectorTakeArray); the model stores the outputs at the running pointer directly.  The q_vecs of other
      outputs are written too, nothing reads them before the next application writes them again: not modelled;
    - an active input without basis may still borrow a part of its E-vector from an earlier application, the zeros and
      ones then go to that E-vector.  Every application restricts active inputs anew, so no application reads them, and
      the E-vector is not updated in the model.  But fields that share an E-vector then share their q_vecs too
      ([shared]): modelled;
    - the vector and the restriction the caller gets are the array and the descriptor [asm_desc]. *)
From Coq Require Import List ZArith Lia Bool Arith.
From Verif Require Import Prelude RstrModel TensorModel BasisModel RstrProofs OpModel.
Import ListNotations.
Set Implicit Arguments.

Section Asm.
Variable R : Rng.
Local Open Scope nat_scope.
Variable k : kernel R.
Variable junk : nat -> nat -> R.
Variable chk : bool.
Variable D : nat -> udesc.
Variable bs : option nat.
Notation BS := (bsize bs).

(** backend data of an operator with the cached sizes qf_size_in, qf_size_out (0: not counted yet), ceed-ref.h CeedOperator_Ref.
    [a_bor]: the q_vecs of inputs without basis borrow the E-vectors, since the first application (ceed-ref-operator.c:281-283,
    ceed-blocked-operator.c:336-338) *)
Record aimpl := mkA { a_im : impl R; a_in : nat; a_out : nat; a_bor : bool }.

(** ceed-ref-operator.c:507-545: sum of the sizes of the active fields *)
Definition act_size (fs : list (ofield R)) : nat := fold_left (fun n f => if is_active f then n + f_size f else n) fs 0.
(** ceed-ref-operator.c:514-518: CeedVectorSetValue(q_vecs_in[i], 0.0) for active inputs *)
Definition zero_active (fs : list (ofield R)) (qin : list (list R)) : list (list R) :=
  map (fun fq => if is_active (fst fq) then repeat 0%R (length (snd fq)) else snd fq) (combine fs qin).

(** ceed-ref-operator.c:582-589, 619-626: one component of q_vecs_in[i] becomes [v] *)
Definition set_comp (N i c : nat) (v : R) (qin : list (list R)) : res (list (list R)) :=
  q <~ og qin i ;; q' <~ blit (c * N) (repeat v N) q ;; Ok (upd qin i q').

(** active inputs without basis whose E-vectors are one vector (ceed-ref-operator.c:86-110, ceed-blocked-operator.c:143-167,
    ceed-opt-operator.c:147-171): when the q_vecs borrow them they are the same memory *)
Definition shared (fs : list (ofield R)) (i j : nat) : bool :=
  match nth_error fs i, nth_error fs j with
  | Some f, Some g => is_active f && same f g && match f_mode f, f_mode g with EvNone, EvNone => true | _, _ => false end
  | _, _ => false
  end.
(** [set_comp] when [bor]: every q_vec that is the same memory as that of input [i] changes with it *)
Definition set_comp_mem (bor : bool) (fs : list (ofield R)) (N i c : nat) (v : R) (qin : list (list R)) : res (list (list R)) :=
  q1 <~ set_comp N i c v qin ;; q' <~ og q1 i ;;
  Ok (map (fun jq => if bor && shared fs i (fst jq) then q' else snd jq) (combine (seq 0 (length q1)) q1)).

(** ceed-ref-operator.c:591-617: the outputs go to the assembled array, the pointer [pos] advances *)
Definition asm_outs (o : oper R) (qin : list (list R)) (st : list R * nat) : res (list R * nat) :=
  let N := o_Q o * BS in
  if o_ident o then
    f <~ og (o_out o) 0 ;; x <~ og qin 0 ;; y <~ slice x 0 (f_size f * N) ;;
    buf <~ blit (snd st) y (fst st) ;; Ok (buf, snd st + f_size f * N)
  else if o_vlen o =? 0 then UB
  else if negb (N mod o_vlen o =? 0) then Err ERR_BACKEND
  else if negb (ins_ok o N qin) then UB
  else rfold (seq 0 (length (o_out o))) (fun j st =>
         f <~ og (o_out o) j ;;
         if is_active f then buf <~ blit (snd st) (out_arr o N qin j (f_size f)) (fst st) ;; Ok (buf, snd st + f_size f * N)
         else Ok st) st.

(** ceed-ref-operator.c:571-628: the components of input [i] one after the other *)
Definition asm_comp (bor : bool) (o : oper R) (i c : nat) (st : list (list R) * (list R * nat)) : res (list (list R) * (list R * nat)) :=
  let N := o_Q o * BS in
  q1 <~ set_comp_mem bor (o_in o) N i c 1%R (fst st) ;;
  b <~ asm_outs o q1 (snd st) ;;
  q2 <~ set_comp_mem bor (o_in o) N i c 0%R q1 ;;
  Ok (q2, b).
Definition asm_input (bor : bool) (o : oper R) (i : nat) (st : list (list R) * (list R * nat)) : res (list (list R) * (list R * nat)) :=
  f <~ og (o_in o) i ;;
  if is_active f then rfold (seq 0 (f_size f)) (asm_comp bor o i) st else Ok st.
(** ceed-ref-operator.c:564-629: one pass of the element loop (block loop, ceed-blocked-operator.c:627-693) *)
Definition asm_elem (bor : bool) (o : oper R) (s : stat) (ein : list (option (list R))) (e : nat) (st : list (list R) * (list R * nat)) : res (list (list R) * (list R * nat)) :=
  qin <~ rfold (seq 0 (length (o_in o))) (input_basis k junk D bs o s ein e true) (fst st) ;;
  rfold (seq 0 (length (o_in o))) (asm_input bor o) (qin, snd st).

(** ceed-ref-operator.c:549-556: the restriction of the assembled vector, strides {1, Q, qf_size_in * qf_size_out * Q} *)
Definition asm_desc (o : oper R) (ni no : nat) : udesc :=
  mkU (o_ne o) (o_Q o) (ni * no) 0%Z (ni * no * o_ne o * o_Q o) (UStrided 1 (Z.of_nat (o_Q o)) (Z.of_nat (ni * no * o_Q o))).

(** ceed-ref-operator.c:498-650 CeedOperatorLinearAssembleQFunctionCore_Ref, ceed-blocked-operator.c:552-720 after setup.
    The reference backend works in the assembled array itself, the blocked one in qf_l_vec ([jl]: its former contents),
    which a blocked strided restriction then scatters.  Without elements CeedVectorTakeArray fails in the blocked
    backend, no array was set (ceed-blocked-operator.c:696-707; ceed-ref-operator.c:640 has a guard). *)
Definition asm_core (bor : bool) (jl : nat -> R) (o : oper R) (s : stat) (d : dyn R) (ni no : nat) (vm : vmem R) : res (dyn R * (nat * nat) * list R) :=
  if ident_rstr o then Err ERR_BACKEND
  else
    d1 <~ setup_inputs o s vm None true d ;;
    let qin := if ni =? 0 then zero_active (o_in o) (d_qin d1) else d_qin d1 in
    let ni := if ni =? 0 then act_size (o_in o) else ni in
    if ni =? 0 then Err ERR_BACKEND else
    let no := if no =? 0 then act_size (o_out o) else no in
    if no =? 0 then Err ERR_BACKEND else
    let nb := op_blocks bs o in
    let zeros := repeat 0%R (o_ne o * o_Q o * ni * no) in
    let buf := match bs with None => zeros | Some _ => map jl (seq 0 (nb * BS * o_Q o * ni * no)) end in
    st <~ rfold (seq 0 nb) (fun b => asm_elem bor o s (d_ein d1) (b * BS)) (qin, (buf, 0)) ;;
    let d2 := mkDy (d_states d1) (d_ein d1) (d_eout d1) (fst st) (d_qout d1) in
    match bs with
    | None => Ok (d2, (ni, no), fst (snd st))
    | Some _ =>
        if (nb =? 0) && negb (o_ident o) then Err ERR_BACKEND
        else r <~ be (rstr_create chk (asm_desc o ni no) bs) ;;
             a <~ be (rstr_apply Signed r Transpose (fst (snd st)) zeros) ;;
             Ok (d2, (ni, no), a)
    end.

(** interface/ceed-preconditioning.c:1897-1912 CeedOperatorLinearAssembleQFunction (and the update of an existing pair of
    objects, ceed-ref-operator.c:657-664), with the setup done by the first use of the operator *)
Definition assemble (jl : nat -> R) (o : oper R) (st : aimpl) (vm : vmem R) : res (aimpl * list R) :=
  sd <~ match a_im st with Some sd => Ok sd | None => op_setup k junk chk D bs o end ;;
  r <~ asm_core (a_bor st) jl o (fst sd) (snd sd) (a_in st) (a_out st) vm ;;
  let '(d, n, a) := r in
  Ok (mkA (Some (fst sd, d)) (fst n) (snd n) (a_bor st), a).
(** application of the same operator; with elements its pass over them lets the q_vecs borrow *)
Definition asm_apply (o : oper R) (st : aimpl) (vm : vmem R) (inv outv : option nat) : res (aimpl * vmem R) :=
  r <~ single_apply k junk chk D bs o (a_im st) vm inv outv ;;
  Ok (mkA (fst r) (a_in st) (a_out st) (a_bor st || (0 <? o_ne o)), snd r).
Definition new_aimpl : aimpl := mkA None 0 0 false.
End Asm.
Arguments mkA {R}. Arguments set_comp {R}.
