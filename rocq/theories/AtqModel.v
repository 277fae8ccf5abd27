(** * Assembly of the QFunction of an operator at points

    backends/ref/ceed-ref-operator.c:1079-1314, on top of AtpModel.v, whose simplifications apply here too; those of
    AsmModel.v concerning the Q-vectors of the outputs and the objects the caller gets apply as well.  Calls that return an error
    are not continued (in the code the E-vectors of the passive inputs then stay locked for reading). *)
From Coq Require Import List ZArith Lia Bool Arith.
From Verif Require Import Prelude RstrModel TensorModel BasisModel RstrProofs PointsModel OpModel OptModel AtpModel AsmModel.
Import ListNotations.
Set Implicit Arguments.

Section Atq.
Variable R : Rng.
Local Open Scope nat_scope.
Variable k : kernel R.
Variable junk : nat -> nat -> R.
Variable chk : bool.
Variable D : nat -> pdesc.
Variable CB : nat -> tbasis R.

(** backend data with qf_size_in, qf_size_out (0: not counted yet).  [q_run]: an application or assembly has run, the Q-vectors of passive
    CEED_EVAL_NONE inputs borrow the part of the E-vector that belongs to the last element (ceed-ref-operator.c:923) *)
Record qimpl := mkQ { q_im : AtpModel.aimpl R; q_ni : nat; q_no : nat; q_run : bool }.
Definition new_qimpl : qimpl := mkQ None 0 0 false.

(** ceed-ref-operator.c:1125-1131: CeedElemRestrictionIsAtPoints on the restriction of the field (there is none for CEED_EVAL_WEIGHT) *)
Definition at_pts (f : ofield R) : bool := match f_rstr f with Some i => match D i with PPts _ _ _ _ _ => true | PStd _ => false end | None => false end.
(** points in the elements before the last one *)
Definition last_off (rx : rstr) : res nat := rfold (seq 0 (r_ne rx - 1)) (fun e n => m <~ num_points rx e ;; Ok (n + m)) 0.

(** ceed-ref-operator.c:1167: CeedVectorSetValue(impl->q_vecs_in[i], 0.0), where [i] is the number of an output.  q_vecs_in[i] is
    NULL if there are not as many inputs.  A Q-vector that borrows ([mx] points from [off] on) passes the zeros on to the E-vector. *)
Definition zero_qin (o : oper R) (s : stat) (mx off : nat) (run : bool) (i : nat) (st : list (list R) * list (option (list R)))
    : res (list (list R) * list (option (list R))) :=
  let '(qin, ein) := st in
  match nth_error (o_in o) i with
  | None => UB
  | Some f =>
      q <~ og qin i ;;
      match f_mode f with
      | EvNone =>
          if run && negb (is_active f) then
            sl <~ og (s_slot s) i ;; ed <~ og ein sl ;;
            match ed with
            | None => UB
            | Some ed => ed' <~ blit (off * f_size f) (repeat 0%R (mx * f_size f)) ed ;; Ok (qin, upd ein sl (Some ed'))
            end
          else Ok (upd qin i (repeat 0%R (length q)), ein)
      | _ => Ok (upd qin i (repeat 0%R (length q)), ein)
      end
  end.
(** ceed-ref-operator.c:1114-1140: count the active inputs *)
Definition count_in (o : oper R) (ni : nat) : res nat :=
  if ni =? 0 then
    if existsb (fun f => is_active f && at_pts f) (o_in o) then Err ERR_BACKEND
    else if act_size (o_in o) =? 0 then Err ERR_BACKEND else Ok (act_size (o_in o))
  else Ok ni.
(** ceed-ref-operator.c:1143-1173: count the active outputs *)
Definition count_out (o : oper R) (s : stat) (mx off : nat) (run : bool) (no : nat) (qin : list (list R)) (ein : list (option (list R)))
    : res (nat * list (list R) * list (option (list R))) :=
  if no =? 0 then
    r <~ rfold (seq 0 (length (o_out o))) (fun i st => f <~ og (o_out o) i ;;
           if is_active f then if at_pts f then Err ERR_BACKEND else zero_qin o s mx off run i st else Ok st) (qin, ein) ;;
    if act_size (o_out o) =? 0 then Err ERR_BACKEND else Ok (act_size (o_out o), fst r, snd r)
  else Ok (no, qin, ein).

(** CeedOperatorInputBasisAtPoints_Ref with skip_active (ceed-ref-operator.c:899-902) *)
Definition pas_input (a : atop R) (s : stat) (vm : vmem R) (ein : list (option (list R))) (xe : list R) (e off np i : nat)
    (st : list (list R) * list (list R) * (nat -> list R)) : res (list (list R) * list (list R) * (nat -> list R)) :=
  f <~ og (o_in (a_op a)) i ;; if is_active f then Ok st else atp_input k junk D CB a s vm None ein xe e off np i st.

(** ceed-ref-operator.c:1229-1258: the outputs for the [np] points go to the assembled array, whose pointer [pos] advances *)
Definition atq_outs (o : oper R) (np : nat) (qin : list (list R)) (st : list R * nat) : res (list R * nat) :=
  if o_ident o then
    f <~ og (o_out o) 0 ;; x <~ og qin 0 ;; y <~ slice x 0 (f_size f * np) ;;
    buf <~ blit (snd st) y (fst st) ;; Ok (buf, snd st + f_size f * np)
  else if o_vlen o =? 0 then UB
  else if negb (np mod o_vlen o =? 0) then Err ERR_BACKEND
  else if negb (ins_ok o np qin) then UB
  else rfold (seq 0 (length (o_out o))) (fun j st =>
         f <~ og (o_out o) j ;;
         if is_active f then buf <~ blit (snd st) (out_arr o np qin j (f_size f)) (fst st) ;; Ok (buf, snd st + f_size f * np)
         else Ok st) st.
(** ceed-ref-operator.c:1219-1267, 1206-1268 *)
Definition atq_comp (o : oper R) (np i c : nat) (st : list (list R) * (list R * nat)) : res (list (list R) * (list R * nat)) :=
  q1 <~ set_comp np i c 1%R (fst st) ;;
  b <~ atq_outs o np q1 (snd st) ;;
  q2 <~ set_comp np i c 0%R q1 ;;
  Ok (q2, b).
Definition atq_input (o : oper R) (np i : nat) (st : list (list R) * (list R * nat)) : res (list (list R) * (list R * nat)) :=
  f <~ og (o_in o) i ;;
  if is_active f then rfold (seq 0 (f_size f)) (atq_comp o np i) st else Ok st.
(** ceed-ref-operator.c:1194-1270: one element *)
Definition atq_pass (a : atop R) (rx : rstr) (s : stat) (vm : vmem R) (ein : list (option (list R))) (e : nat)
    (st : nat * list R * list (list R) * list (list R) * (nat -> list R) * (list R * nat)) : res (nat * list R * list (list R) * list (list R) * (nat -> list R) * (list R * nat)) :=
  let o := a_op a in
  let '(off, xe, eb, qin, vc, bp) := st in
  match vv_data (vm (a_xvec a)) with
  | None => Err ERR_BACKEND
  | Some x =>
    xe <~ be (rstr_apply_points rx e NoTranspose x xe) ;;
    np <~ be (num_points rx e) ;;
    i <~ rfold (seq 0 (length (o_in o))) (pas_input a s vm ein xe e off np) (eb, qin, vc) ;;
    let '(eb, qin, vc) := i in
    r <~ rfold (seq 0 (length (o_in o))) (atq_input o np) (qin, bp) ;;
    Ok (off + np, xe, eb, fst r, vc, snd r)
  end.

(** ceed-ref-operator.c:1100-1291 after setup.  impl->is_identity_rstr_op is never set for operators at points. *)
Definition atq_core (a : atop R) (rx : rstr) (s : stat) (x : adyn R) (ni no : nat) (run : bool) (vm : vmem R) : res (adyn R * (nat * nat) * rstr * list R) :=
  let o := a_op a in
  mx <~ be (max_points rx) ;; loff <~ be (last_off rx) ;;
  d <~ setup_inputs o s vm None true (ad x) ;;
  ni <~ count_in o ni ;;
  c <~ count_out o s mx loff run no (d_qin d) (d_ein d) ;;
  let '(no, qin, ein) := c in
  match D (a_rpts a) with
  | PStd _ => Err ERR_BACKEND
  | PPts ne npts _ _ offs =>
    r <~ be (rstr_create_points ne npts (ni * no) (ni * no * npts) offs) ;;
    st <~ rfold (seq 0 (o_ne o)) (atq_pass a rx s vm ein) (0, ad_xe x, ad_eb x, qin, ad_vc x, (repeat 0%R (ni * no * npts), 0)) ;;
    let '(_, xe, eb, qin, vc, bp) := st in
    Ok (mkAD (mkDy (d_states d) ein (d_eout d) qin (d_qout d)) eb xe vc, (ni, no), r, fst bp)
  end.

(** interface/ceed-preconditioning.c:1897-1912 CeedOperatorLinearAssembleQFunction with the setup done by the first use (and the
    update of existing objects, ceed-ref-operator.c:1309-1314): the restriction and the array *)
Definition atq_assemble (a : atop R) (vc0 : nat -> list R) (st : qimpl) (vm : vmem R) : res (qimpl * rstr * list R) :=
  sd <~ match q_im st with Some sd => Ok sd | None => atp_setup k junk chk D CB a vc0 end ;;
  let '(rx, s, x) := sd in
  r <~ atq_core a rx s x (q_ni st) (q_no st) (q_run st) vm ;;
  let '(x, n, ra, A) := r in
  Ok (mkQ (Some (rx, s, x)) (fst n) (snd n) (q_run st || (0 <? o_ne (a_op a))), ra, A).
(** applications of the same operator *)
Definition atq_apply (a : atop R) (vc0 : nat -> list R) (st : qimpl) (vm : vmem R) (inv outv : option nat) : res (qimpl * vmem R) :=
  r <~ atp_apply k junk chk D CB a vc0 (q_im st) vm inv outv ;;
  Ok (mkQ (fst r) (q_ni st) (q_no st) (q_run st || (0 <? o_ne (a_op a))), snd r).
End Atq.
Arguments mkQ {R}. Arguments new_qimpl {R}.
