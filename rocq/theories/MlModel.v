(** * Multigrid levels: outcomes of the creation calls and the references they keep

    Model of interface/ceed-preconditioning.c:868-1055 CeedSingleOperatorMultigridLevel and of its three entry points
    (2568-2586 CeedOperatorMultigridLevelCreate, 2606-2652 CeedOperatorMultigridLevelCreateTensorH1, 2672-2716
    CeedOperatorMultigridLevelCreateH1), on top of the operators and reference counts of QueModel.v.
    The references kept by variables of the call are counted apart from those kept by the operators made; the
    count of an object is the sum.  Left out: the Ceed, the QFunctions and their contexts, QFunctionAssemblyData,
    names, the E-vector of the multiplicity, the arithmetic (MgModel.v has it) and allocation failures. *)
From Coq Require Import String.
From Coq Require Import List ZArith Lia Bool Arith.
From Verif Require Import Prelude RstrModel BasisModel StrModel QfModel BuildModel FbModel QueModel.
Import ListNotations.
Set Implicit Arguments.
Local Open Scope Z_scope.

Definition zero : cnts := fun _ => 0.
(** What is read of a basis: is_tensor_basis, P, P_1d and the dimension of its topology (ceed-basis.c:2095-2144) *)
Record binfo := BI { bi_d : bdesc; bi_tensor : bool; bi_p : Z; bi_p1 : Z; bi_td : Z }.
(** ceed-basis.c:20-27 CEED_BASIS_NONE is a zeroed structure *)
Definition bi_none : binfo := BI (BD false 0 0 0) false 0 0 0.
Definition info_of (info : nat -> binfo) (b : option nat) : binfo := match b with Some n => info n | None => bi_none end.

(** The arguments.  [a_wp], [a_wr]: op_prolong, op_restrict are not NULL; [a_pm]: p_mult_fine is not NULL; [a_im]: interp_c_to_f
    is not NULL; [a_curl]: restrictions that are curl-oriented; [a_mult]: the outcome of computing the multiplicity (947-954);
    [a_b], [a_rp], [a_mv]: names for the new basis, the unsigned copy and the multiplicity vector. *)
Record args := MA {
  a_rc : rdesc; a_rci : nat; a_bci : nat; a_info : nat -> binfo; a_curl : nat -> bool;
  a_wp : bool; a_wr : bool; a_pm : bool; a_im : bool; a_mult : res unit;
  a_b : nat; a_rp : nat; a_mv : nat }.
Definition transfers (a : args) : bool := a_wp a || a_wr a.
(** outcome, the operators made, the references still kept by the call *)
Record lv := LV { lv_r : res unit; lv_c : option xop; lv_rs : option xop; lv_pr : option xop; lv_t : cnts }.

(** 887-907, 909-929: the call of CeedOperatorSetField for one field of the fine operator *)
Definition clone_call (a : args) (f : ofld) (h : hnd) : xcall :=
  match h_v h with
  | VActive => XC (Call (of_name f) (RArg (a_rc a)) (BArg (bi_d (a_info a (a_bci a)))) VActive) (a_rci a) (a_bci a)
  | _ => XC (Call (of_name f) (of_r f) (of_b f) (of_v f)) (match h_r h with Some n => n | None => 0%nat end) (match h_b h with Some n => n | None => 0%nat end)
  end.
(** rstr_fine: which restriction (None: CEED_ELEMRESTRICTION_NONE) and its data *)
Definition rfine := option (option nat * rarg).
(** 887-907 and 909-929: one loop over the fields of the fine operator [F]; a field that is not set is dereferenced.
    A refused CeedOperatorSetField leaves the references of this round. *)
Fixpoint clone (a : args) (F : xop) (side : bool) (l : list nat) (s : xop) (rf : rfine) (t : cnts) : res unit * xop * rfine * cnts :=
  match l with
  | [] => (Ok tt, s, rf, t)
  | i :: l =>
    match x_slot F side i, x_hnd F side i with
    | FSet f, Some h =>
      let x := clone_call a f h in
      let t1 := take (take (take t (v_obj (h_v h))) (r_obj (hnd_of x))) (b_obj (hnd_of x)) in
      let (rf', t2) := match h_v h, rf with
                       | VActive, None => (Some (h_r h, of_r f), take t1 (r_obj h))
                       | _, _ => (rf, t1)
                       end in
      match x_set s x with
      | (Ok _, s') => clone a F side l s' rf' (drop (drop (drop t2 (v_obj (h_v h))) (r_obj (hnd_of x))) (b_obj (hnd_of x)))
      | (e, s') => (e, s', rf', t2)
      end
    | _, _ => (UB, s, rf, t)
    end
  end.

(** a sequence of CeedOperatorSetField calls followed by CeedOperatorCheckReady *)
Fixpoint set_all (s : xop) (l : list xcall) : res unit * xop :=
  match l with
  | [] => x_ready s
  | x :: l => match x_set s x with (Ok _, s') => set_all s' l | (e, s') => (e, s') end
  end.
Definition nm_input : str := lit "input"%string. Definition nm_scale : str := lit "scale"%string. Definition nm_output : str := lit "output"%string.
(** 975-985, 1013-1023: the gallery QFunction "Scale" with its three fields *)
Definition scale_qf (nc : Z) (min mout : emode) : qfun :=
  mkQFun 1 [mkQField nm_input nc min; mkQField nm_scale nc EvNone] [mkQField nm_output nc mout] false None None None.
(** 987-1001 *)
Definition make_restrict (a : args) (rf : nat) (rd : rarg) (b : nat) (bd : bdesc) (nc : Z) : res unit * xop :=
  set_all (x_create (scale_qf nc EvNone EvInterp) false zero)
    [XC (Call nm_input rd BNone VActive) rf 0; XC (Call nm_scale rd BNone (VVec (a_mv a))) (a_rp a) 0; XC (Call nm_output (RArg (a_rc a)) (BArg bd) VActive) (a_rci a) b].
(** 1025-1039 *)
Definition make_prolong (a : args) (rf : nat) (rd : rarg) (b : nat) (bd : bdesc) (nc : Z) : res unit * xop :=
  set_all (x_create (scale_qf nc EvInterp EvNone) false zero)
    [XC (Call nm_input (RArg (a_rc a)) (BArg bd) VActive) (a_rci a) b; XC (Call nm_scale rd BNone (VVec (a_mv a))) (a_rp a) 0; XC (Call nm_output rd BNone VActive) rf 0].

(** 970-1046: the transfer operators that were asked for, then the check of the coarse operator [oc] *)
Definition finish (a : args) (oc : xop) (k : (res unit * xop) * (res unit * xop)) (t tend : cnts) : lv :=
  let '(kr, kp) := k in
  match (if a_wr a then kr else (Ok tt, oc)) with
  | (Ok _, o1) =>
    let rs := if a_wr a then Some o1 else None in
    match (if a_wp a then kp else (Ok tt, oc)) with
    | (Ok _, o2) =>
      let pr := if a_wp a then Some o2 else None in
      match x_ready oc with
      | (Ok _, oc') => LV (Ok tt) (Some oc') rs pr tend
      | (e, oc') => LV e (Some oc') rs pr t
      end
    | (e, o2) => LV e (Some oc) rs (Some o2) t
    end
  | (e, o1) => LV e (Some oc) (Some o1) None t
  end.

(** 868-1055 CeedSingleOperatorMultigridLevel for a ready operator [F] (None: a composite operator), basis_c_to_f [b] and the
    references [t] that the caller keeps for it.  CeedElemRestrictionCreateUnsignedCopy of CEED_ELEMRESTRICTION_NONE
    dereferences its NULL Ceed.  The copy [a_rp] keeps a reference to rstr_fine until it is destroyed; that
    reference is not part of the counts here. *)
Definition single (a : args) (F : option xop) (b : option (nat * bdesc)) (t : cnts) : lv :=
  match F with
  | None => LV (Err ERR_UNSUPPORTED) None None None t
  | Some F =>
    let q := b_qf (x_st F) in
    match clone a F true (seq 0 (List.length (q_in q))) (x_create q false zero) None t with
    | (Ok _, s1, rf1, t1) =>
      match clone a F false (seq 0 (List.length (q_out q))) s1 rf1 t1 with
      | (Ok _, oc, rf, t2) =>
        let nc := bd_comp (bi_d (a_info a (a_bci a))) in
        if transfers a then
          match rf with
          | None => LV UB (Some oc) None None t2
          | Some (rn, rd) =>
            if match rn with Some n => a_curl a n | None => false end then LV (Err ERR_UNSUPPORTED) (Some oc) None None t2
            else if negb (a_pm a) then LV (Err ERR_INCOMPATIBLE) (Some oc) None None t2
            else match rn with
            | None => LV UB (Some oc) None None t2
            | Some n =>
              let t3 := add (add t2 (ORstr (a_rp a)) 1) (OVec (a_mv a)) 1 in
              match a_mult a with
              | Ok _ =>
                match b with
                | None => LV (Err ERR_INCOMPATIBLE) (Some oc) None None t3
                | Some (bi, bd) =>
                  finish a oc (make_restrict a n rd bi bd nc, make_prolong a n rd bi bd nc) t3
                    (add (add (add (add t3 (OVec (a_mv a)) (-1)) (ORstr n) (-1)) (ORstr (a_rp a)) (-1)) (OBasis bi) (-1))
                end
              | e => LV e (Some oc) None None t3
              end
            end
          end
        else finish a oc ((Ok tt, oc), (Ok tt, oc)) t2
               (drop (drop t2 (match rf with Some (rn, _) => option_map ORstr rn | None => None end)) (option_map (fun p => OBasis (fst p)) b))
      | (e, oc, _, t2) => LV e (Some oc) None None t2
      end
    | (e, oc, _, t1) => LV e (Some oc) None None t1
    end
  end.

(** CeedOperatorCheckReady of the fine operator; composite operators are assumed ready *)
Definition fine_ready (F : option xop) : res unit * option xop :=
  match F with None => (Ok tt, None) | Some s => let (r, s') := x_ready s in (r, Some s') end.
(** the references a query has taken *)
Definition taken (F F' : option xop) : cnts := fun o => match F, F' with Some s, Some s' => x_c s' o - x_c s o | _, _ => 0 end.
Definition failed (e : res unit) (t : cnts) : lv := LV e None None None t.

(** 2568-2586 CeedOperatorMultigridLevelCreate; [proj]: the outcome of CeedBasisCreateProjection and the basis it makes (ProjModel.v) *)
Definition level_create (a : args) (F : option xop) (proj : res bdesc) : lv :=
  match fine_ready F with
  | (Ok _, F1) =>
    if transfers a then
      let g := get_active_bases F1 true false in
      let t := taken F1 (aq_op g) in
      match aq_r g, aq_i g with
      | Ok _, Some bf =>
        match proj with
        | Ok bd => single a F1 (Some (a_b a, bd)) (drop (add t (OBasis (a_b a)) 1) (option_map OBasis bf))
        | Err e => failed (Err e) t
        | UB => failed UB t
        end
      | Ok _, None => failed UB t
      | e, _ => failed e t
      end
    else single a F1 None zero
  | (e, _) => failed e zero
  end.

(** 2638: the number of nodes in one direction.  sqrt of an int is rounded correctly, so that its integer part is exact; the
    integer part of cbrt is the parameter [cb]. *)
Definition nodes_1d (cb : Z -> Z) (dim n : Z) : Z := if dim =? 1 then n else if dim =? 2 then Z.sqrt n else cb n.
(** ceed-basis.c:1456-1497 CeedBasisCreateTensorH1 as called in 2642: checks and what is made *)
Definition create_tensor (dim nc p1 q1 : Z) : res bdesc :=
  if negb (0 <? dim) then Err ERR_DIMENSION else if negb (0 <? nc) then Err ERR_DIMENSION
  else if negb (0 <? p1) then Err ERR_DIMENSION else if negb (0 <? q1) then Err ERR_DIMENSION
  else Ok (BD true dim nc (q1 ^ dim)).
(** ceed-basis.c:1594-1634 CeedBasisCreateH1 as called in 2706 *)
Definition create_h1 (td nc p q : Z) : res bdesc :=
  if negb (0 <? nc) then Err ERR_DIMENSION else if negb (0 <? p) then Err ERR_DIMENSION else if negb (0 <? q) then Err ERR_DIMENSION
  else Ok (BD true td nc q).
(** Which basis the two calls make from the fine basis [f], and how many entries of interp_c_to_f are copied *)
Inductive variant := VTensor (cb : Z -> Z) | VH1.
Definition make_basis (v : variant) (a : args) (f : binfo) : res (bdesc * Z) :=
  match v with
  | VTensor cb =>
    if bi_tensor f then
      let p := nodes_1d cb (bd_dim (bi_d f)) (rd_esz (a_rc a)) in
      match create_tensor (bd_dim (bi_d f)) (bd_comp (bi_d f)) p (bi_p1 f) with Ok bd => Ok (bd, bi_p1 f * p) | Err e => Err e | UB => UB end
    else Err ERR_MINOR
  | VH1 => match create_h1 (bi_td f) (bd_comp (bi_d f)) (rd_esz (a_rc a)) (bi_p f) with Ok bd => Ok (bd, bi_p f * rd_esz (a_rc a)) | Err e => Err e | UB => UB end
  end.
(** 2606-2652 CeedOperatorMultigridLevelCreateTensorH1, 2672-2716 CeedOperatorMultigridLevelCreateH1.  basis_fine is destroyed
    inside the conditional only (2636, 2701), after the queries that may fail. *)
Definition level_interp (v : variant) (a : args) (F : option xop) : lv :=
  match fine_ready F with
  | (Ok _, F1) =>
    let g := get_active_bases F1 true false in
    let t := taken F1 (aq_op g) in
    match aq_r g, aq_i g with
    | Ok _, Some bf =>
      let f := info_of (a_info a) bf in
      if negb (bd_nq (bi_d f) =? bd_nq (bi_d (a_info a (a_bci a)))) then failed (Err ERR_DIMENSION) t
      else if transfers a then
        if negb (a_im a) then failed (Err ERR_INCOMPATIBLE) t
        else match make_basis v a f with
             | Ok (bd, _) => single a F1 (Some (a_b a, bd)) (drop (add t (OBasis (a_b a)) 1) (option_map OBasis bf))
             | Err e => failed (Err e) (match v, bi_tensor f with VTensor _, false => t | _, _ => drop t (option_map OBasis bf) end)
             | UB => failed UB t
             end
      else single a F1 None t
    | Ok _, None => failed UB t
    | e, _ => failed e t
    end
  | (e, _) => failed e zero
  end.
