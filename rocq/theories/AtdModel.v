(** * The diagonal of an operator at points

    backends/ref/ceed-ref-operator.c:1320-1553 CeedOperatorLinearAssembleAddDiagonalAtPoints_Ref and the interface in front of it, on
    top of AtpModel.v and AtqModel.v, whose simplifications apply here too.  The vectors in_vec and out_vec the code creates: in_vec is
    never read (active inputs are skipped); out_vec is vector [sv], a number that no vector of the caller has. *)
From Coq Require Import List ZArith Lia Bool Arith.
From Verif Require Import Prelude RstrModel TensorModel BasisModel RstrProofs PointsModel OpModel OptModel AtpModel AsmModel AtqModel.
Import ListNotations.
Set Implicit Arguments.

Section Atd.
Variable R : Rng.
Local Open Scope nat_scope.
Variable k : kernel R.
Variable junk : nat -> nat -> R.
Variable chk : bool.
Variable D : nat -> pdesc.
Variable CB : nat -> tbasis R.

(** array[n] = v *)
Definition poke (l : list R) (n : nat) (v : R) : res (list R) := if n <? length l then Ok (upd l n v) else UB.
(** CeedElemRestrictionGetType, and the size of the element of a restriction, in nodes or points (1402-1404, 1466-1476) *)
Definition is_kpts (r : rstr) : bool := match r_kind r with KPoints _ => true | _ => false end.
Definition el_size (r : rstr) (e : nat) : res nat := if is_kpts r then be (num_points r e) else Ok (r_es r).

(** ceed-ref-operator.c:1363-1373: zero the Q-vectors of active inputs; that of a CEED_EVAL_NONE input is an E-vector (737) *)
Definition clear_q (f : ofield R) (i : nat) (st : list (list R) * list (list R)) : res (list (list R) * list (list R)) :=
  match f_mode f with
  | EvNone => l <~ og (fst st) i ;; Ok (upd (fst st) i (repeat 0%R (length l)), upd (snd st) i (repeat 0%R (length l)))
  | _ => q <~ og (snd st) i ;; Ok (fst st, upd (snd st) i (repeat 0%R (length q)))
  end.
Definition clear_all (o : oper R) (st : list (list R) * list (list R)) : res (list (list R) * list (list R)) :=
  rfold (seq 0 (length (o_in o))) (fun i st => f <~ og (o_in o) i ;; if is_active f then clear_q f i st else Ok st) st.

(** ceed-ref-operator.c:1414-1441: the unit vector [sx] on the element for input [i], and its values at the points *)
Definition unit_in (a : atop R) (s : stat) (xe : list R) (np i sx : nat) (st : list (list R) * list (list R) * (nat -> list R))
    : res (list (list R) * list (list R) * (nat -> list R)) :=
  let '(eb, qin, vc) := st in
  f <~ og (o_in (a_op a)) i ;; sl <~ og (s_slot s) i ;;
  e0 <~ og eb sl ;;
  e1 <~ poke (if sx =? 0 then repeat 0%R (length e0) else e0) sx 1%R ;;
  e2 <~ (if 0 <? sx then poke e1 (sx - 1) 0%R else Ok e1) ;;
  let eb := upd eb sl e2 in
  match f_mode f with
  | EvWeight => Ok (eb, qin, vc)
  | EvNone => q <~ og eb i ;; Ok (eb, upd qin i q, vc)
  | m =>
      q0 <~ og qin i ;; b <~ og (a_bin a) i ;;
      match f_basis f with
      | None => UB
      | Some bb => r <~ be (apply_at_points k junk bb (CB b) false [np] NoTranspose m xe e2 (vc b) q0) ;; Ok (eb, upd qin i (snd r), cset R vc b (fst r))
      end
  end.

(** array of zeros with the value of [l] at [sx] (1501-1511) *)
Definition only (l : list R) (sx : nat) : res (list R) := c <~ og l sx ;; Ok (upd (repeat 0%R (length l)) sx c).
(** ceed-ref-operator.c:1457-1519: the diagonal entry [sx] of output [j] is added to vector [av].  [evs], [actp]: size of the active input and
    whether it is on points.  The basis overwrites the E-vector. *)
Definition diag_out (a : atop R) (s : stat) (av : nat) (xe : list R) (e np evs : nat) (actp : bool) (sx : nat) (qout : list (list R)) (j : nat)
    (st : list (list R) * (nat -> list R) * vmem R) : res (list (list R) * (nat -> list R) * vmem R) :=
  let '(eo, vc, vm) := st in
  f <~ og (o_out (a_op a)) j ;;
  if negb (is_active f) then Ok st else
  ro <~ og (s_rout s) j ;;
  match ro with
  | None => UB
  | Some r =>
    if actp && negb (is_kpts r) then Ok st else
    es <~ el_size r e ;;
    if negb (evs =? r_nc r * es) then Ok st else
    p <~ og (s_idx s) j ;; l <~ og eo p ;;
    x <~ match f_mode f with
         | EvNone => Ok (l, vc)
         | EvWeight => Err ERR_BACKEND
         | m => q <~ og qout j ;; b <~ og (a_bout a) j ;;
                match f_basis f with
                | None => UB
                | Some bb => y <~ be (apply_at_points k junk bb (CB b) false [np] Transpose m xe q (vc b) l) ;; Ok (snd y, cset R vc b (fst y))
                end
         end ;;
    l <~ only (fst x) sx ;;
    vm <~ atp_restrict (Some r) e l (Some av) vm ;;
    Ok (upd eo p l, snd x, vm)
  end.
(** the same for an identity QFunction (876-879): the E-vector of the output is the Q-vector of the input *)
Definition diag_ident (a : atop R) (s : stat) (av : nat) (xe : list R) (e np evs : nat) (actp : bool) (sx : nat) (st : list (list R) * (nat -> list R) * vmem R)
    : res (list (list R) * (nat -> list R) * vmem R) :=
  let '(qin, vc, vm) := st in
  f <~ og (o_out (a_op a)) 0 ;;
  if negb (is_active f) then Ok st else
  ro <~ og (s_rout s) 0 ;;
  match ro with
  | None => UB
  | Some r =>
    if actp && negb (is_kpts r) then Ok st else
    es <~ el_size r e ;;
    if negb (evs =? r_nc r * es) then Ok st else
    q <~ og qin 0 ;;
    x <~ match f_mode f with
         | EvNone => Ok (q, vc)
         | EvWeight => Err ERR_BACKEND
         | m => b <~ og (a_bout a) 0 ;;
                match f_basis f with
                | None => UB
                | Some bb => y <~ be (apply_at_points k junk bb (CB b) false [np] Transpose m xe q (vc b) q) ;; Ok (snd y, cset R vc b (fst y))
                end
         end ;;
    l <~ only (fst x) sx ;;
    vm <~ atp_restrict (Some r) e l (Some av) vm ;;
    Ok (upd qin 0 l, snd x, vm)
  end.

Definition dst : Type := list (list R) * list (list R) * list (list R) * list (list R) * (nat -> list R) * vmem R.
(** ceed-ref-operator.c:1410-1523: one unit vector.  CeedOperatorOutputBasisAtPoints_Ref runs with out_vec as active output. *)
Definition atd_step (a : atop R) (s : stat) (sv av : nat) (xe : list R) (e np i evs : nat) (actp : bool) (sx : nat) (st : dst) : res dst :=
  let o := a_op a in
  let '(eb, qin, eo, qout, vc, vm) := st in
  u <~ unit_in a s xe np i sx (eb, qin, vc) ;;
  let '(eb, qin, vc) := u in
  r <~ (if o_ident o then
          r <~ atp_ident_output k junk CB a s (Some sv) xe e np (qin, vc, vm) ;;
          r <~ diag_ident a s av xe e np evs actp sx r ;;
          let '(qin, vc, vm) := r in Ok (qin, eo, qout, vc, vm)
        else
          eq <~ atp_call o np qin (eo, qout) ;;
          r <~ rfold (seq 0 (length (o_out o))) (atp_output k junk CB a s (Some sv) xe e np (snd eq)) (fst eq, vc, vm) ;;
          r <~ rfold (seq 0 (length (o_out o))) (diag_out a s av xe e np evs actp sx (snd eq)) r ;;
          let '(eo, vc, vm) := r in Ok (qin, eo, snd eq, vc, vm)) ;;
  let '(qin, eo, qout, vc, vm) := r in
  z <~ (if sx =? evs - 1 then f <~ og (o_in o) i ;; clear_q f i (eb, qin) else Ok (eb, qin)) ;;
  Ok (fst z, snd z, eo, qout, vc, vm).
(** ceed-ref-operator.c:1389-1524: one input *)
Definition atd_input (a : atop R) (s : stat) (sv av : nat) (xe : list R) (e np i : nat) (st : dst) : res dst :=
  f <~ og (o_in (a_op a)) i ;;
  if negb (is_active f) then Ok st else
  ri <~ og (s_rin s) i ;;
  match ri with
  | None => UB
  | Some r => es <~ (if is_kpts r then Ok np else Ok (r_es r)) ;;
              rfold (seq 0 (es * r_nc r)) (atd_step a s sv av xe e np i (es * r_nc r) (is_kpts r)) st
  end.
(** ceed-ref-operator.c:1379-1526: one element *)
Definition atd_pass (a : atop R) (rx : rstr) (s : stat) (sv av : nat) (ein : list (option (list R))) (e : nat) (st : nat * list R * dst) : res (nat * list R * dst) :=
  let o := a_op a in
  let '(off, xe, (eb, qin, eo, qout, vc, vm)) := st in
  match vv_data (vm (a_xvec a)) with
  | None => Err ERR_BACKEND
  | Some x =>
    xe <~ be (rstr_apply_points rx e NoTranspose x xe) ;;
    np <~ be (num_points rx e) ;;
    i <~ rfold (seq 0 (length (o_in o))) (pas_input k junk D CB a s vm ein xe e off np) (eb, qin, vc) ;;
    let '(eb, qin, vc) := i in
    d <~ rfold (seq 0 (length (o_in o))) (atd_input a s sv av xe e np) (eb, qin, eo, qout, vc, vm) ;;
    Ok (off + np, xe, d)
  end.
(** after setup *)
Definition atd_core (a : atop R) (rx : rstr) (s : stat) (x : adyn R) (sv av : nat) (vm : vmem R) : res (adyn R * vmem R) :=
  let o := a_op a in
  c <~ clear_all o (ad_eb x, d_qin (ad x)) ;;
  d <~ setup_inputs o s vm None true (ad x) ;;
  st <~ rfold (seq 0 (o_ne o)) (atd_pass a rx s sv av (d_ein d)) (0, ad_xe x, (fst c, snd c, d_eout d, d_qout d, ad_vc x, vm)) ;;
  let '(_, xe, (eb, qin, eo, qout, vc, vm)) := st in
  Ok (mkAD (mkDy (d_states d) (d_ein d) eo qin qout) eb xe vc, vm).

(** ceed-operator.c:1440-1469 CeedOperatorGetActiveVectorLengths *)
Definition at_lsize (fs : list (ofield R)) : option nat :=
  match find (fun f => is_active f && match f_rstr f with Some _ => true | None => false end) fs with
  | Some f => match f_rstr f with Some i => Some (match D i with PStd d => u_lsize d | PPts _ _ _ ls _ => ls end) | None => None end
  | None => None
  end.
(** interface/ceed-preconditioning.c:2067-2106 CeedOperatorLinearAssembleAddDiagonal; out_vec is created with value zero (1353-1360; a size
    of -1 is an error) and destroyed *)
Definition atd_add (a : atop R) (vc0 : nat -> list R) (st : qimpl R) (vm : vmem R) (sv av : nat) : res (qimpl R * vmem R) :=
  if negb (onat_eqb (at_lsize (o_in (a_op a))) (at_lsize (o_out (a_op a)))) then Err ERR_DIMENSION else
  if o_ne (a_op a) =? 0 then Ok (st, vm) else
  sd <~ match q_im st with Some sd => Ok sd | None => atp_setup k junk chk D CB a vc0 end ;;
  let '(rx, s, x) := sd in
  match at_lsize (o_out (a_op a)) with
  | None => Err ERR_BACKEND
  | Some n =>
    r <~ atd_core a rx s x sv av (vset vm sv (mkVV n (Some (repeat 0%R n)) 2%Z)) ;;
    Ok (mkQ (Some (rx, s, fst r)) (q_ni st) (q_no st) true, vset (snd r) sv (vm sv))
  end.
(** interface/ceed-preconditioning.c:2007-2048 CeedOperatorLinearAssembleDiagonal (the backend sets LinearAssembleAddDiagonal only) *)
Definition atd_diag (a : atop R) (vc0 : nat -> list R) (st : qimpl R) (vm : vmem R) (sv av : nat) : res (qimpl R * vmem R) :=
  if negb (onat_eqb (at_lsize (o_in (a_op a))) (at_lsize (o_out (a_op a)))) then Err ERR_DIMENSION else
  if o_ne (a_op a) =? 0 then Ok (st, vm) else
  atd_add a vc0 st (vzero vm av) sv av.
End Atd.
