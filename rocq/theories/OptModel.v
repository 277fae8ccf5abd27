(** * Operators on the optimised CPU backends

    backends/opt/ceed-opt-operator.c, the driver behind /cpu/self/opt/serial (block size 1), /cpu/self/opt/blocked
    (block size 8) and the AVX and XSMM resources, hence the default CPU backend.  It restricts active inputs and outputs block by
    block, [bs = Some n] with the block size n; all restrictions are blocked copies.

    What is the same text as in the reference driver is taken from OpModel.v; the simplifications of that file
    apply.  In addition:
    - the E-vector and Q-vector that share memory for CEED_EVAL_NONE (active inputs, outputs) are modelled by values:
      a Q-vector is read only after the E-vector it aliases was written in the same pass;
    - an output E-vector shared by several fields has the length of the last field, an input E-vector that of the first. *)
From Coq Require Import List ZArith Lia Bool Arith.
From Verif Require Import Prelude RstrModel TensorModel BasisModel RstrProofs OpModel.
Import ListNotations.
Set Implicit Arguments.

Section Opt.
Variable R : Rng.
Local Open Scope nat_scope.
Variable k : kernel R.
Variable junk : nat -> nat -> R.
Variable chk : bool.
Variable D : nat -> udesc.
Variable bs : option nat.
Notation BS := (bsize bs).

(** ** Setup *)
Definition not_weight (m : emode) : bool := match m with EvWeight => false | _ => true end.
(** ceed-opt-operator.c:147-171: as in the reference driver, but every e_vec except that of a weight exists *)
Definition opt_dup_in (fs : list (ofield R)) : res (list bool * list nat * list bool) :=
  let n := length fs in
  rfold (seq 0 n) (fun i st => rfold (seq (S i) (n - S i)) (fun j st => dup_in_step fs i j st) st)
    (map (fun f => not_weight (f_mode f)) fs, seq 0 n, repeat false n).
(** ceed-opt-operator.c:172-197.  State: which e_vecs exist, which of them a field uses, skip_rstr, apply_add_basis. *)
Definition opt_dup_out_step (fs : list (ofield R)) (i j : nat) (st : list bool * list nat * list bool * list bool) : res (list bool * list nat * list bool * list bool) :=
  let '(nn, sl, sk, ad) := st in
  fi <~ og fs i ;; fj <~ og fs j ;;
  if same fi fj then
    b <~ og nn i ;;
    if b then x <~ og sl i ;; Ok (upd nn j true, upd sl j x, upd sk j true, upd ad i true) else UB
  else Ok st.
Definition opt_dup_out (fs : list (ofield R)) : res (list bool * list nat * list bool * list bool) :=
  let n := length fs in
  rfold (rev (seq 0 n)) (fun i st => rfold (rev (seq 0 i)) (fun j st => opt_dup_out_step fs i j st) st)
    (map (fun f => not_weight (f_mode f)) fs, seq 0 n, repeat false n, repeat false n).

(** ceed-opt-operator.c:111-145: the E-vector of one block, zero at first *)
Definition block_evec (Q : nat) (f : ofield R) : list R :=
  match f_mode f, f_basis f with
  | EvNone, _ => repeat 0%R (Q * f_size f * BS)
  | EvWeight, _ => []
  | _, Some b => repeat 0%R (b_nodes b * b_nc b * BS)
  | _, None => []
  end.

(** What changes with every apply: [d_states], [d_ein] (complete E-vectors of passive inputs), [d_qin], [d_qout] as in
    the reference driver; [d_eout] and [od_eb] are the E-vectors of one block. *)
Record odyn := mkOD { od : dyn R; od_eb : list (list R) }.

(** ceed-opt-operator.c:19-200 CeedOperatorSetupFields_Opt, 205-272 CeedOperatorSetup_Opt; [s_idx] is the E-vector
    an output field uses *)
Definition opt_setup (o : oper R) : res (stat * odyn) :=
  rin <~ rmap (field_rstr chk D bs) (o_in o) ;;
  qin <~ rmap (field_qvec k junk bs (o_Q o)) (o_in o) ;;
  di <~ opt_dup_in (o_in o) ;;
  rout <~ rmap (field_rstr chk D bs) (o_out o) ;;
  qout <~ rmap (field_qvec k junk bs (o_Q o)) (o_out o) ;;
  dt <~ opt_dup_out (o_out o) ;;
  let '(_, sl, ski) := di in
  let '(_, slo, sko, ad) := dt in
  Ok (mkS rin rout sl ski sko ad slo,
      mkOD (mkDy (repeat 0%Z (length (o_in o))) (repeat None (length (o_in o))) (map (block_evec (o_Q o)) (o_out o)) qin qout)
           (map (block_evec (o_Q o)) (o_in o))).

(** ** Apply *)
(** ceed-opt-operator.c:277-312 CeedOperatorSetupInputs_Opt: passive inputs as in the reference driver, but the test
    that the vector is the active input is missing ([None]); active inputs wait for the element loop *)
Definition opt_setup_inputs (o : oper R) (s : stat) (vm : vmem R) (d : dyn R) : res (dyn R) := setup_inputs o s vm None true d.

(** One field of ceed-opt-operator.c:317-368 CeedOperatorInputBasis_Opt, block [b] *)
Definition opt_input (o : oper R) (s : stat) (vm : vmem R) (inv : option nat) (ein : list (option (list R))) (b i : nat)
    (st : list (list R) * list (list R)) : res (list (list R) * list (list R)) :=
  let '(eb, qin) := st in
  f <~ og (o_in o) i ;;
  if is_active f then
    match f_mode f with
    | EvWeight => Ok st
    | m =>
      ro <~ og (s_rin s) i ;; sl <~ og (s_slot s) i ;; e0 <~ og eb sl ;;
      match ro, inv with
      | None, _ => UB
      | Some _, None => Err ERR_BACKEND
      | Some r, Some v =>
        match vv_data (vm v) with
        | None => Err ERR_BACKEND
        | Some u =>
          e <~ be (rstr_apply_block Signed r b NoTranspose u e0) ;;
          match m with
          | EvNone => Ok (upd eb sl e, upd qin i e)
          | _ =>
            q0 <~ og qin i ;;
            match f_basis f with
            | Some bb => q <~ be (basis_apply k junk bb BS NoTranspose m (Some e) q0) ;; Ok (upd eb sl e, upd qin i q)
            | None => UB
            end
          end
        end
      end
    end
  else q <~ input_basis k junk D bs o s ein (b * BS) false i qin ;; Ok (eb, q).

(** the restriction of one output block adds into its vector (state advances by 2) *)
Definition block_restrict (ro : option rstr) (b : nat) (e : list R) (t : option nat) (vm : vmem R) : res (vmem R) :=
  match ro, t with
  | Some r, Some v =>
      let x := vm v in
      match vv_data x with
      | Some l => l' <~ be (rstr_apply_block Signed r b Transpose e l) ;; Ok (vset vm v (mkVV (vv_len x) (Some l') (vv_state x + 2)%Z))
      | None => Err ERR_BACKEND
      end
  | None, _ => UB
  | _, None => Err ERR_BACKEND
  end.
(** One field of ceed-opt-operator.c:373-418 CeedOperatorOutputBasis_Opt *)
Definition opt_output (o : oper R) (s : stat) (outv : option nat) (b : nat) (qout : list (list R)) (i : nat)
    (st : list (list R) * vmem R) : res (list (list R) * vmem R) :=
  let '(eo, vm) := st in
  f <~ og (o_out o) i ;; p <~ og (s_idx s) i ;;
  eo <~ match f_mode f with
        | EvNone => Ok eo
        | EvWeight => Err ERR_BACKEND
        | m =>
            l <~ og eo p ;; q <~ og qout i ;; ad <~ og (s_add s) i ;;
            match f_basis f with
            | Some bb => l' <~ be (if ad then basis_apply_add k junk bb BS Transpose m (Some q) l else basis_apply k junk bb BS Transpose m (Some q) l) ;;
                         Ok (upd eo p l')
            | None => UB
            end
        end ;;
  sk <~ og (s_skout s) i ;;
  if sk then Ok (eo, vm)
  else e <~ og eo p ;; ro <~ og (s_rout s) i ;; vm <~ block_restrict ro b e (target f outv) vm ;; Ok (eo, vm).

(** One pass of the loop over the blocks, ceed-opt-operator.c:493-507.  The QFunction stores CEED_EVAL_NONE outputs
    at the start of the block E-vectors (481-491): element 0 of [call_qf]. *)
Definition opt_pass (o : oper R) (s : stat) (ein : list (option (list R))) (inv outv : option nat) (b : nat)
    (st : list (list R) * list (list R) * list (list R) * list (list R) * vmem R) : res (list (list R) * list (list R) * list (list R) * list (list R) * vmem R) :=
  let '(eb, qin, eo, qout, vm) := st in
  i <~ rfold (seq 0 (length (o_in o))) (opt_input o s vm inv ein b) (eb, qin) ;;
  eq <~ call_qf bs o (s_idx s) 0 (snd i) (eo, qout) ;;
  r <~ rfold (seq 0 (length (o_out o))) (opt_output o s outv b (snd eq)) (fst eq, vm) ;;
  Ok (fst i, snd i, fst r, snd eq, snd r).

(** ceed-opt-operator.c:464-470: an identity QFunction without bases, block by block *)
Definition opt_ident_pass (s : stat) (inv outv : option nat) (b : nat) (st : list (list R) * vmem R) : res (list (list R) * vmem R) :=
  let '(eb, vm) := st in
  ri <~ og (s_rin s) 0 ;; ro <~ og (s_rout s) 0 ;; e0 <~ og eb 0 ;;
  match ri, inv with
  | None, _ => UB
  | Some _, None => Err ERR_BACKEND
  | Some r, Some v =>
    match vv_data (vm v) with
    | None => Err ERR_BACKEND
    | Some u => e <~ be (rstr_apply_block Signed r b NoTranspose u e0) ;;
                vm <~ block_restrict ro b e outv vm ;; Ok (upd eb 0 e, vm)
    end
  end.

(** ceed-opt-operator.c:442-513 CeedOperatorApplyAdd_Opt after setup *)
Definition opt_apply_be (o : oper R) (s : stat) (x : odyn) (vm : vmem R) (inv outv : option nat) : res (odyn * vmem R) :=
  if ident_rstr o then
    r <~ rfold (seq 0 (op_blocks bs o)) (opt_ident_pass s inv outv) (od_eb x, vm) ;;
    Ok (mkOD (od x) (fst r), snd r)
  else
    d <~ opt_setup_inputs o s vm (od x) ;;
    st <~ rfold (seq 0 (op_blocks bs o)) (opt_pass o s (d_ein d) inv outv) (od_eb x, d_qin d, d_eout d, d_qout d, vm) ;;
    let '(eb, qin, eo, qout, vm) := st in
    Ok (mkOD (mkDy (d_states d) (d_ein d) eo qin qout) eb, vm).

(** ** The interface, as in OpModel.v: interface/ceed-operator.c:2229-2232 and 2168-2190 *)
Definition oimpl := option (stat * odyn).
Definition opt_apply_add (o : oper R) (im : oimpl) (vm : vmem R) (inv outv : option nat) : res (oimpl * vmem R) :=
  if 0 <? o_ne o then
    sd <~ match im with Some sd => Ok sd | None => opt_setup o end ;;
    r <~ opt_apply_be o (fst sd) (snd sd) vm inv outv ;;
    Ok (Some (fst sd, fst r), snd r)
  else Ok (im, vm).
Definition opt_apply (o : oper R) (im : oimpl) (vm : vmem R) (inv outv : option nat) : res (oimpl * vmem R) :=
  opt_apply_add o im (fold_left (fun vm f => zero_target outv f vm) (o_out o) vm) inv outv.
End Opt.
Arguments mkOD {R}.
