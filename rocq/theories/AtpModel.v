(** * Operators at points on the reference CPU backend

    backends/ref/ceed-ref-operator.c:673-1073, behind CeedOperatorCreateAtPoints on the CPU backends (opt and blocked
    delegate to ref): fields live on nodes with a tensor basis, or directly on the points; every element has its own number of points.

    What is the same text as in the other drivers is taken from OpModel.v and OptModel.v (the loops over duplicate
    restrictions, CeedOperatorSetupInputs_Ref); the simplifications of those files apply.  In [oper], [o_Q] is the largest
    number of points of an element.  In addition:
    - a basis is an object with a number: [CB b] is its Chebyshev basis, and the content of its vec_chebyshev is
      state ([vc b]) that survives the call; it exists from the start (the code creates it, all zero, on first use);
    - an E-vector and a Q-vector that share memory for CEED_EVAL_NONE (active inputs, outputs) are [eb i] and [eo i]
      for field i, whatever E-vector the duplicate loop has given the field;
    - with an identity QFunction the Q-vector of the input is also that of the output and the E-vector of the output; writes to it
      are not carried over to a further vector the input Q-vector borrows from (that happens only outside [atp_wf]). *)
From Coq Require Import List ZArith Lia Bool Arith.
From Verif Require Import Prelude RstrModel TensorModel BasisModel RstrProofs PointsModel OpModel OptModel.
Import ListNotations.
Set Implicit Arguments.

(** The restriction of a field: on nodes, or on points (elements, points, components, L-vector size, offsets) *)
Inductive pdesc := PStd (d : udesc) | PPts (ne npts nc lsize : nat) (offs : list Z).

Section Atp.
Variable R : Rng.
Local Open Scope nat_scope.
Variable k : kernel R.
Variable junk : nat -> nat -> R.
Variable chk : bool.
Variable D : nat -> pdesc.
Variable CB : nat -> tbasis R.                     (* the Chebyshev bases *)

(** [a_op] with the numbers of the bases of its fields, the restriction of the points and the vector of their coordinates
    (CeedOperatorAtPointsSetPoints, interface/ceed-operator.c:1054-1076) *)
Record atop := mkAt { a_op : oper R; a_bin : list nat; a_bout : list nat; a_rpts : nat; a_xvec : nat }.

Definition pcreate (p : pdesc) : res rstr :=
  match p with PStd d => rstr_create chk d None | PPts ne npts nc lsize offs => rstr_create_points ne npts nc lsize offs end.
(** ceed-ref-operator.c:718-726 *)
Definition p_field_rstr (f : ofield R) : res (option rstr) :=
  match f_mode f, f_rstr f with
  | EvWeight, _ => Ok None
  | _, Some i => r <~ be (pcreate (D i)) ;; Ok (Some r)
  | _, None => UB
  end.
(** ceed-ref-operator.c:728-773: the Q-vector; [mx] is the largest number of points *)
Definition p_field_qvec (mx : nat) (fb : ofield R * nat) : res (list R) :=
  let (f, b) := fb in
  match f_mode f, f_basis f with
  | EvWeight, Some bb => r <~ be (apply_at_points k junk bb (CB b) false [mx] NoTranspose EvWeight [] [] [] (repeat 0%R mx)) ;; Ok (snd r)
  | EvWeight, None => UB
  | EvNone, _ => Ok (repeat 0%R (mx * f_size f))
  | _, Some _ => Ok (repeat 0%R (mx * f_size f))
  | _, None => UB
  end.
(** interface/ceed-elemrestriction.c:1536-1548 CeedElemRestrictionGetNumPointsInElement, 1561-1604
    CeedElemRestrictionGetMaxPointsInElement *)
Definition num_points (r : rstr) (e : nat) : res nat :=
  match r_kind r with KPoints offs => n <~ ofopt (num_points_in offs e) ;; Ok (Z.to_nat n) | _ => Err ERR_INCOMPATIBLE end.
Definition max_points (r : rstr) : res nat := rfold (seq 0 (r_ne r)) (fun e m => n <~ num_points r e ;; Ok (Nat.max m n)) 0.

(** What changes with every apply: [ad] as in the other drivers ([d_eout]: E-vectors of the outputs for one element),
    E-vectors of the inputs for one element, point_coords_elem, and vec_chebyshev of the bases *)
Record adyn := mkAD { ad : dyn R; ad_eb : list (list R); ad_xe : list R; ad_vc : nat -> list R }.

(** ceed-ref-operator.c:673-826 CeedOperatorSetupFieldsAtPoints_Ref, 831-881 CeedOperatorSetupAtPoints_Ref; the
    duplicate loops (775-822) are those of the optimised driver *)
Definition atp_setup (a : atop) (vc : nat -> list R) : res (rstr * stat * adyn) :=
  let o := a_op a in
  rx <~ be (pcreate (D (a_rpts a))) ;;
  mx <~ be (max_points rx) ;;
  rin <~ rmap p_field_rstr (o_in o) ;;
  qin <~ rmap (p_field_qvec mx) (combine (o_in o) (a_bin a)) ;;
  di <~ opt_dup_in (o_in o) ;;
  rout <~ rmap p_field_rstr (o_out o) ;;
  qout <~ rmap (p_field_qvec mx) (combine (o_out o) (a_bout a)) ;;
  dt <~ opt_dup_out (o_out o) ;;
  let '(_, sl, ski) := di in
  let '(_, slo, sko, ad) := dt in
  Ok (rx, mkS rin rout sl ski sko ad slo,
      mkAD (mkDy (repeat 0%Z (length (o_in o))) (repeat None (length (o_in o))) (map (block_evec None mx) (o_out o)) qin qout)
           (map (block_evec None mx) (o_in o)) (repeat 0%R (r_nc rx * mx)) vc).

(** restriction of one element (909-917, 1000-1004) *)
Definition elem_apply (r : rstr) (e : nat) (tm : tmode) (u v : list R) : res (list R) :=
  match r_kind r with KPoints _ => rstr_apply_points r e tm u v | _ => rstr_apply_block Signed r e tm u v end.
Definition p_esize (f : ofield R) : nat := match f_rstr f with Some i => match D i with PStd d => u_es d | PPts _ _ _ _ _ => 0 end | None => 0 end.
Definition cset (vc : nat -> list R) (b : nat) (l : list R) : nat -> list R := fun n => if n =? b then l else vc n.

(** One field of ceed-ref-operator.c:887-947 CeedOperatorInputBasisAtPoints_Ref: element [e] with [np] points, [off]
    points in the elements before it.  The vectors that borrow part of a complete E-vector are modelled by their values. *)
Definition atp_input (a : atop) (s : stat) (vm : vmem R) (inv : option nat) (ein : list (option (list R))) (xe : list R) (e off np i : nat)
    (st : list (list R) * list (list R) * (nat -> list R)) : res (list (list R) * list (list R) * (nat -> list R)) :=
  let o := a_op a in
  let '(eb, qin, vc) := st in
  f <~ og (o_in o) i ;; sk <~ og (s_skin s) i ;; sl <~ og (s_slot s) i ;; ro <~ og (s_rin s) i ;;
  eb <~ (if is_active f && negb sk then
           match ro, inv with
           | None, _ => UB
           | Some _, None => Err ERR_BACKEND
           | Some r, Some v =>
             match vv_data (vm v) with
             | None => Err ERR_BACKEND
             | Some u => e0 <~ og eb sl ;; l <~ be (elem_apply r e NoTranspose u e0) ;; Ok (upd eb sl l)
             end
           end
         else Ok eb) ;;
  match f_mode f with
  | EvWeight => Ok (eb, qin, vc)
  | EvNone =>
      if is_active f then q <~ og eb i ;; Ok (eb, upd qin i q, vc)
      else ed <~ og ein sl ;;
           match ed with
           | None => UB
           | Some ed => q <~ slice ed (off * f_size f) (np * f_size f) ;; Ok (eb, upd qin i q, vc)
           end
  | m =>
      q0 <~ og qin i ;; b <~ og (a_bin a) i ;;
      match f_basis f with
      | None => UB
      | Some bb =>
          u <~ (if is_active f then og eb sl
                else ed <~ og ein sl ;;
                     match ed with None => UB | Some ed => slice ed (e * p_esize f * b_nc bb) (b_nodes bb * b_nc bb) end) ;;
          r <~ be (apply_at_points k junk bb (CB b) false [np] NoTranspose m xe u (vc b) q0) ;;
          Ok (eb, upd qin i (snd r), cset vc b (fst r))
      end
  end.

(** the QFunction at the [np] points of the element (1051-1054); outputs as in OpModel.v: CEED_EVAL_NONE ones go to [eo] *)
Definition atp_call (o : oper R) (np : nat) (ins : list (list R)) (st : list (list R) * list (list R)) : res (list (list R) * list (list R)) :=
  if o_vlen o =? 0 then UB
  else if negb (np mod o_vlen o =? 0) then Err ERR_BACKEND
  else if negb (ins_ok o np ins) then UB
  else rfold (seq 0 (length (o_out o))) (fun j st => f <~ og (o_out o) j ;;
         put_out o (seq 0 (length (o_out o))) 0 j (out_arr o np ins j (f_size f)) st) st.

(** the restriction of one output element adds into its vector (state advances by 2), 994-1006 *)
Definition atp_restrict (ro : option rstr) (e : nat) (x : list R) (t : option nat) (vm : vmem R) : res (vmem R) :=
  match ro, t with
  | Some r, Some v =>
      let y := vm v in
      match vv_data y with
      | Some l => l' <~ be (elem_apply r e Transpose x l) ;; Ok (vset vm v (mkVV (vv_len y) (Some l') (vv_state y + 2)%Z))
      | None => Err ERR_BACKEND
      end
  | None, _ => UB
  | _, None => Err ERR_BACKEND
  end.
(** the transposed basis of output field [i] (970-987): from Q-vector [q] to E-vector [l] *)
Definition atp_basis (a : atop) (s : stat) (xe : list R) (np i : nat) (f : ofield R) (q l : list R) (vc : nat -> list R) : res (list R * (nat -> list R)) :=
  aa <~ og (s_add s) i ;; b <~ og (a_bout a) i ;;
  match f_basis f with
  | None => UB
  | Some bb => r <~ be (apply_at_points k junk bb (CB b) aa [np] Transpose (f_mode f) xe q (vc b) l) ;; Ok (snd r, cset vc b (fst r))
  end.
(** One field of ceed-ref-operator.c:958-1011 CeedOperatorOutputBasisAtPoints_Ref *)
Definition atp_output (a : atop) (s : stat) (outv : option nat) (xe : list R) (e np : nat) (qout : list (list R)) (i : nat)
    (st : list (list R) * (nat -> list R) * vmem R) : res (list (list R) * (nat -> list R) * vmem R) :=
  let '(eo, vc, vm) := st in
  f <~ og (o_out (a_op a)) i ;; p <~ og (s_idx s) i ;;
  x <~ match f_mode f with
       | EvNone => Ok (eo, vc)
       | EvWeight => Err ERR_BACKEND
       | _ => l <~ og eo p ;; q <~ og qout i ;; r <~ atp_basis a s xe np i f q l vc ;; Ok (upd eo p (fst r), snd r)
       end ;;
  sk <~ og (s_skout s) i ;;
  if sk then Ok (fst x, snd x, vm)
  else l <~ og (fst x) p ;; ro <~ og (s_rout s) i ;; vm <~ atp_restrict ro e l (target f outv) vm ;; Ok (fst x, snd x, vm).
(** the same for an identity QFunction (876-879): one output, its Q-vector and its E-vector are the Q-vector of the input *)
Definition atp_ident_output (a : atop) (s : stat) (outv : option nat) (xe : list R) (e np : nat)
    (st : list (list R) * (nat -> list R) * vmem R) : res (list (list R) * (nat -> list R) * vmem R) :=
  let '(qin, vc, vm) := st in
  f <~ og (o_out (a_op a)) 0 ;; q <~ og qin 0 ;;
  x <~ match f_mode f with
       | EvNone => Ok (q, vc)
       | EvWeight => Err ERR_BACKEND
       | _ => atp_basis a s xe np 0 f q q vc
       end ;;
  ro <~ og (s_rout s) 0 ;; vm <~ atp_restrict ro e (fst x) (target f outv) vm ;; Ok (upd qin 0 (fst x), snd x, vm).

(** One pass of the loop over the elements, ceed-ref-operator.c:1037-1062 *)
Definition atp_pass (a : atop) (rx : rstr) (s : stat) (ein : list (option (list R))) (inv outv : option nat) (e : nat)
    (st : nat * list R * list (list R) * list (list R) * list (list R) * list (list R) * (nat -> list R) * vmem R)
    : res (nat * list R * list (list R) * list (list R) * list (list R) * list (list R) * (nat -> list R) * vmem R) :=
  let o := a_op a in
  let '(off, xe, eb, qin, eo, qout, vc, vm) := st in
  match vv_data (vm (a_xvec a)) with
  | None => Err ERR_BACKEND
  | Some x =>
    xe <~ be (rstr_apply_points rx e NoTranspose x xe) ;;
    np <~ be (num_points rx e) ;;
    i <~ rfold (seq 0 (length (o_in o))) (atp_input a s vm inv ein xe e off np) (eb, qin, vc) ;;
    let '(eb, qin, vc) := i in
    if o_ident o then
      r <~ atp_ident_output a s outv xe e np (qin, vc, vm) ;;
      let '(qin, vc, vm) := r in
      Ok (off + np, xe, eb, qin, eo, qout, vc, vm)
    else
      eq <~ atp_call o np qin (eo, qout) ;;
      r <~ rfold (seq 0 (length (o_out o))) (atp_output a s outv xe e np (snd eq)) (fst eq, vc, vm) ;;
      let '(eo, vc, vm) := r in
      Ok (off + np, xe, eb, qin, eo, snd eq, vc, vm)
  end.

(** ceed-ref-operator.c:1016-1073 CeedOperatorApplyAddAtPoints_Ref after setup *)
Definition atp_apply_be (a : atop) (rx : rstr) (s : stat) (x : adyn) (vm : vmem R) (inv outv : option nat) : res (adyn * vmem R) :=
  let o := a_op a in
  d <~ setup_inputs o s vm None true (ad x) ;;
  st <~ rfold (seq 0 (o_ne o)) (atp_pass a rx s (d_ein d) inv outv) (0, ad_xe x, ad_eb x, d_qin d, d_eout d, d_qout d, ad_vc x, vm) ;;
  let '(_, xe, eb, qin, eo, qout, vc, vm) := st in
  Ok (mkAD (mkDy (d_states d) (d_ein d) eo qin qout) eb xe vc, vm).

(** ** The interface, as in OpModel.v: interface/ceed-operator.c:2229-2232 and 2168-2190.  [vc0]: vec_chebyshev of
    the bases when the operator is set up (they may have been used before). *)
Definition aimpl := option (rstr * stat * adyn).
Definition atp_apply_add (a : atop) (vc0 : nat -> list R) (im : aimpl) (vm : vmem R) (inv outv : option nat) : res (aimpl * vmem R) :=
  if 0 <? o_ne (a_op a) then
    sd <~ match im with Some sd => Ok sd | None => atp_setup a vc0 end ;;
    let '(rx, s, x) := sd in
    r <~ atp_apply_be a rx s x vm inv outv ;;
    Ok (Some (rx, s, fst r), snd r)
  else Ok (im, vm).
Definition atp_apply (a : atop) (vc0 : nat -> list R) (im : aimpl) (vm : vmem R) (inv outv : option nat) : res (aimpl * vmem R) :=
  atp_apply_add a vc0 im (fold_left (fun vm f => zero_target outv f vm) (o_out (a_op a)) vm) inv outv.
End Atp.
Arguments mkAt {R}. Arguments mkAD {R}.
