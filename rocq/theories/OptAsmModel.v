(** * QFunction assembly on the optimised CPU backends

    backends/opt/ceed-opt-operator.c, CeedOperatorLinearAssembleQFunction_Opt and ..Update_Opt.  Each block is assembled
    in a vector of one block, which the blocked strided restriction then adds to the assembled vector.  What is the same
    text as in the reference and blocked drivers is taken from AsmModel.v, and the simplifications of that file and of
    OptModel.v apply.  In addition:
    - qf_l_vec keeps its contents from block to block and from call to call, [jl] is what it has at the start of a call
      (zeros at the first, ceed-opt-operator.c:592-598);
    - the q_vecs of active inputs without basis always borrow their block E-vectors (ceed-opt-operator.c:300-307), so
      inputs that share an E-vector share their q_vecs ([shared], AsmModel.v).  The E-vectors themselves are not updated
      in the model, every application restricts them anew. *)
From Coq Require Import List ZArith Lia Bool Arith.
From Verif Require Import Prelude RstrModel TensorModel BasisModel RstrProofs OpModel OptModel AsmModel.
Import ListNotations.
Set Implicit Arguments.

Section OptAsm.
Variable R : Rng.
Local Open Scope nat_scope.
Variable k : kernel R.
Variable junk : nat -> nat -> R.
Variable chk : bool.
Variable D : nat -> udesc.
Variable bs : option nat.
Notation BS := (bsize bs).

(** ceed-opt.h CeedOperator_Opt: backend data with the cached sizes qf_size_in, qf_size_out (0: not counted yet) *)
Record oaimpl := mkOA { oa_im : oimpl R; oa_in : nat; oa_out : nat }.
Definition new_oaimpl : oaimpl := mkOA None 0 0.

(** ceed-opt-operator.c:623-709: one pass of the block loop.  State: the q_vecs, qf_l_vec, the assembled vector. *)
Definition opt_asm_pass (o : oper R) (s : stat) (ein : list (option (list R))) (r : rstr) (b : nat)
    (st : list (list R) * list R * list R) : res (list (list R) * list R * list R) :=
  let '(qin, l, a) := st in
  x <~ asm_elem k junk D bs true o s ein (b * BS) (qin, (l, 0)) ;;
  a <~ be (rstr_apply_block Signed r b Transpose (fst (snd x)) a) ;;
  Ok (fst x, fst (snd x), a).

(** ceed-opt-operator.c:518-726 CeedOperatorLinearAssembleQFunctionCore_Opt after setup *)
Definition opt_asm_core (jl : nat -> R) (o : oper R) (s : stat) (x : odyn R) (ni no : nat) (vm : vmem R) : res (odyn R * (nat * nat) * list R) :=
  if ident_rstr o then Err ERR_BACKEND
  else
    d <~ opt_setup_inputs o s vm (od x) ;;
    let qin := if ni =? 0 then zero_active (o_in o) (d_qin d) else d_qin d in
    let ni := if ni =? 0 then act_size (o_in o) else ni in
    if ni =? 0 then Err ERR_BACKEND else
    let no := if no =? 0 then act_size (o_out o) else no in
    if no =? 0 then Err ERR_BACKEND else
    r <~ be (rstr_create chk (asm_desc o ni no) bs) ;;
    st <~ rfold (seq 0 (op_blocks bs o)) (opt_asm_pass o s (d_ein d) r)
            (qin, map jl (seq 0 (BS * o_Q o * ni * no)), repeat 0%R (o_ne o * o_Q o * ni * no)) ;;
    let '(qin, _, a) := st in
    Ok (mkOD (mkDy (d_states d) (d_ein d) (d_eout d) qin (d_qout d)) (od_eb x), (ni, no), a).

(** interface/ceed-preconditioning.c:1897-1912 CeedOperatorLinearAssembleQFunction, with the setup done by the first use
    of the operator (ceed-opt-operator.c:205-272) *)
Definition opt_assemble (jl : nat -> R) (o : oper R) (st : oaimpl) (vm : vmem R) : res (oaimpl * list R) :=
  sd <~ match oa_im st with Some sd => Ok sd | None => opt_setup k junk chk D bs o end ;;
  r <~ opt_asm_core jl o (fst sd) (snd sd) (oa_in st) (oa_out st) vm ;;
  let '(x, n, a) := r in
  Ok (mkOA (Some (fst sd, x)) (fst n) (snd n), a).
(** application of the same operator *)
Definition oasm_apply (o : oper R) (st : oaimpl) (vm : vmem R) (inv outv : option nat) : res (oaimpl * vmem R) :=
  r <~ opt_apply k junk chk D bs o (oa_im st) vm inv outv ;;
  Ok (mkOA (fst r) (oa_in st) (oa_out st), snd r).
End OptAsm.
Arguments mkOA {R}.
