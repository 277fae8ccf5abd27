(** * Queries on operators and the references that operators hold

    Model of the query functions of interface/ceed-operator.c and of CeedOperatorDestroy, on top of the operators of
    BuildModel.v.  Restrictions, bases and vectors are identified by numbers, and the model follows their reference
    counts and the number of allocated field structures and field names.  Destruction of an object whose count
    reaches zero, backend data, the QFunction, sub-operators, assembly data and labels are left out here. *)
From Coq Require Import List ZArith Lia Bool Arith.
From Verif Require Import Prelude RstrModel BasisModel StrModel QfModel BuildModel FbModel.
Import ListNotations.
Set Implicit Arguments.
Local Open Scope Z_scope.

Inductive obj := ORstr (n : nat) | OBasis (n : nat) | OVec (n : nat) | OMem.
Definition obj_eq_dec (a b : obj) : {a = b} + {a <> b}.
Proof. decide equality; apply Nat.eq_dec. Defined.
(** reference counts; for OMem the number of allocations of field structures and field names *)
Definition cnts := obj -> Z.
Definition add (c : cnts) (o : obj) (z : Z) : cnts := fun o' => if obj_eq_dec o' o then c o' + z else c o'.
(** ceed-basis.c:1838-1843 CeedBasisReferenceCopy, ceed-elemrestriction.c:1251-1256, ceed-vector.c:196-201 into an empty
    variable: the NONE objects (here None) are not counted *)
Definition take (c : cnts) (o : option obj) : cnts := match o with Some x => add c x 1 | None => c end.
(** ceed-basis.c:2355-2359 CeedBasisDestroy, ceed-elemrestriction.c:1772-1776, ceed-vector.c:1106-1110: the count *)
Definition drop (c : cnts) (o : option obj) : cnts := match o with Some x => add c x (-1) | None => c end.

(** what a CeedOperatorField points to; None: CEED_ELEMRESTRICTION_NONE, CEED_BASIS_NONE *)
Record hnd := HN { h_r : option nat; h_b : option nat; h_v : varg }.
Definition r_obj (h : hnd) : option obj := option_map ORstr (h_r h).
Definition b_obj (h : hnd) : option obj := option_map OBasis (h_b h).
Definition v_obj (v : varg) : option obj := match v with VVec n => Some (OVec n) | _ => None end.

(** an operator, the objects of its fields, first_points_rstr, rstr_points and point_coords, and the counts of all objects *)
Record xop := XO { x_st : opst; x_in : nat -> option hnd; x_out : nat -> option hnd; x_first : option nat; x_pts : option (nat * nat); x_c : cnts }.
Definition x_create (qf : qfun) (at_points : bool) (c : cnts) : xop := XO (op_create qf at_points) (fun _ => None) (fun _ => None) None None c.
(** a call of CeedOperatorSetField, with the identities of the restriction and the basis *)
Record xcall := XC { xc : call; xc_r : nat; xc_b : nat }.
Definition hnd_of (x : xcall) : hnd :=
  HN (match c_r (xc x) with RArg _ => Some (xc_r x) | _ => None end) (match c_b (xc x) with BArg _ => Some (xc_b x) | _ => None end) (c_v (xc x)).

(** The slot for which a call reaches CeedCalloc (ceed-operator.c:978), if it does.  CeedOperatorSetField never reads the slots,
    so this is seen by calling it with the slot emptied. *)
Definition alloc (st : opst) (c : call) : option (bool * nat) :=
  match find_field (b_qf st) (c_name c) with
  | None => None
  | Some (side, i) =>
    let st' := snd (set_field (with_slot st side i FNull) c) in
    match (if side then b_in st' i else b_out st' i) with FNull => None | _ => Some (side, i) end
  end.
(** first_points_rstr after a call with restriction [r], and the counts (ceed-operator.c:929-930, 1062-1063) *)
Definition first_ref (before after : option (list Z)) (r : nat) (f : option nat) (c : cnts) : option nat * cnts :=
  match before, after with None, Some _ => (Some r, add c (ORstr r) 1) | _, _ => (f, c) end.
(** ceed-operator.c:903-1007 CeedOperatorSetField: the pointer in the slot is overwritten by CeedCalloc (978) whatever it was;
    vector, restriction and basis are referenced (995-1001), the name is copied (1004) *)
Definition x_set (s : xop) (x : xcall) : res unit * xop :=
  let (r, st') := set_field (x_st s) (xc x) in
  let (f, c) := first_ref (b_first (x_st s)) (b_first st') (xc_r x) (x_first s) (x_c s) in
  match alloc (x_st s) (xc x) with
  | None => (r, XO st' (x_in s) (x_out s) f (x_pts s) c)
  | Some (side, i) =>
    let h := match r with Ok _ => Some (hnd_of x) | _ => None end in
    let c1 := match r with
              | Ok _ => add (take (take (take c (v_obj (c_v (xc x)))) (r_obj (hnd_of x))) (b_obj (hnd_of x))) OMem 2
              | _ => add c OMem 1
              end in
    (r, XO st' (if side then upd (x_in s) i h else x_in s) (if side then x_out s else upd (x_out s) i h) f (x_pts s) c1)
  end.
(** ceed-operator.c:1054-1074 CeedOperatorAtPointsSetPoints with restriction [r] and coordinates [v] *)
Definition x_set_points (s : xop) (p : list Z) (r v : nat) : res unit * xop :=
  let (e, st') := set_points (x_st s) p in
  let (f, c) := first_ref (b_first (x_st s)) (b_first st') r (x_first s) (x_c s) in
  match e with
  | Ok _ =>
    let c1 := drop (add c (ORstr r) 1) (option_map (fun q => ORstr (fst q)) (x_pts s)) in
    let c2 := drop (add c1 (OVec v) 1) (option_map (fun q => OVec (snd q)) (x_pts s)) in
    (e, XO st' (x_in s) (x_out s) f (Some (r, v)) c2)
  | _ => (e, XO st' (x_in s) (x_out s) f (x_pts s) c)
  end.
Definition x_with (s : xop) (st : opst) : xop := XO st (x_in s) (x_out s) (x_first s) (x_pts s) (x_c s).
(** ceed-operator.c:1377-1425 CeedOperatorCheckReady *)
Definition x_ready (s : xop) : res unit * xop := let (r, st) := check_ready (x_st s) in (r, x_with s st).

(** ** CeedOperatorDestroy (ceed-operator.c:2274-2350), the last reference: the fields and the points *)
Definition x_slot (s : xop) (side : bool) (i : nat) : fslot := if side then b_in (x_st s) i else b_out (x_st s) i.
Definition x_hnd (s : xop) (side : bool) (i : nat) : option hnd := if side then x_in s i else x_out s i.
(** 2286-2297 and 2301-2310: one slot; a blank structure has only NULL pointers *)
Definition free_slot (s : xop) (side : bool) (c : cnts) (i : nat) : cnts :=
  match x_slot s side i with
  | FNull => c
  | FBlank => add c OMem (-1)
  | FSet _ => match x_hnd s side i with
              | Some h => add (drop (drop (drop c (r_obj h)) (b_obj h)) (v_obj (h_v h))) OMem (-2)
              | None => c
              end
  end.
(** 2284-2318: both loops run over the first num_fields slots *)
Definition x_destroy (s : xop) : cnts :=
  let n := b_nf (x_st s) in
  let c1 := fold_left (free_slot s true) (seq 0 n) (x_c s) in
  let c2 := fold_left (free_slot s false) (seq 0 n) c1 in
  let c3 := drop c2 (option_map (fun q => OVec (snd q)) (x_pts s)) in
  let c4 := drop c3 (option_map (fun q => ORstr (fst q)) (x_pts s)) in
  drop c4 (option_map ORstr (x_first s)).

(** ** Queries *)
(** ceed-operator.c:555-562 CeedOperatorGetNumArgs *)
Definition num_args (s : xop) : Z := Z.of_nat (b_nf (x_st s)).
(** ceed-operator.c:1024-1041 CeedOperatorGetFields: readiness and the numbers of fields; None: a composite operator *)
Definition get_fields (o : option xop) : res (nat * nat) * option xop :=
  match o with
  | None => (Err ERR_MINOR, None)
  | Some s => match x_ready s with
              | (Ok _, s') => (Ok (List.length (q_in (b_qf (x_st s'))), List.length (q_out (b_qf (x_st s')))), Some s')
              | (Err e, s') => (Err e, Some s')
              | (UB, s') => (UB, Some s')
              end
  end.
Definition hnds (s : xop) (side : bool) (n : nat) : list (option hnd) := map (x_hnd s side) (seq 0 n).
Definition on_eq_dec (a b : option nat) : {a = b} + {a <> b}.
Proof. decide equality; apply Nat.eq_dec. Defined.
(** ceed-operator.c:219-237, 241-259 and 302-321, 325-343: one loop of CeedOperatorGetActiveBases and CeedOperatorGetActiveElemRestrictions:
    outcome, output variable and counts.  A missing field or blank vector is dereferenced; on a second object the reference
    just taken is not released. *)
Fixpoint scan (p : hnd -> option nat) (k : nat -> obj) (l : list (option hnd)) (acc : option (option nat)) (c : cnts) : res unit * option (option nat) * cnts :=
  match l with
  | [] => match acc with Some _ => (Ok tt, acc, c) | None => (Err ERR_INCOMPLETE, acc, c) end
  | None :: _ => (UB, acc, c)
  | Some h :: t =>
    let c0 := take c (v_obj (h_v h)) in
    match h_v h with
    | VActive =>
      let c1 := take c0 (option_map k (p h)) in
      match acc with
      | Some a => if on_eq_dec a (p h) then scan p k t acc (drop c1 (option_map k (p h))) else (Err ERR_MINOR, acc, c1)
      | None => let c2 := take c1 (option_map k (p h)) in scan p k t (Some (p h)) (drop c2 (option_map k (p h)))
      end
    | v => scan p k t acc (drop c0 (v_obj v))
    end
  end.

(** The result of a query for active objects: outcome, the two output variables, the operator *)
Record aq := AQ { aq_r : res unit; aq_i : option (option nat); aq_o : option (option nat); aq_op : option xop }.
Definition x_cnt (s : xop) (c : cnts) : xop := XO (x_st s) (x_in s) (x_out s) (x_first s) (x_pts s) c.
(** ceed-operator.c:208-259 CeedOperatorGetActiveBases and 291-342 CeedOperatorGetActiveElemRestrictions; [wi], [wo]: the output pointers are not NULL *)
Definition get_active (p : hnd -> option nat) (k : nat -> obj) (o : option xop) (wi wo : bool) : aq :=
  match get_fields o with
  | (Ok (ni, no), Some s) =>
    match (if wi then scan p k (hnds s true ni) None (x_c s) else (Ok tt, None, x_c s)) with
    | (Ok _, ri, c1) =>
      match (if wo then scan p k (hnds s false no) None c1 else (Ok tt, None, c1)) with
      | (r, ro, c2) => AQ r ri ro (Some (x_cnt s c2))
      end
    | (r, ri, c1) => AQ r ri None (Some (x_cnt s c1))
    end
  | (Ok _, None) => AQ UB None None None
  | (Err e, s) => AQ (Err e) None None s
  | (UB, s) => AQ UB None None s
  end.
Definition get_active_bases := get_active h_b OBasis.
Definition get_active_rstrs := get_active h_r ORstr.

(** ceed-operator.c:582-591, 592-601: one loop of CeedOperatorHasTensorBases; [tens]: is_tensor_basis of a basis *)
Fixpoint tensor_scan (tens : nat -> bool) (l : list (option hnd)) (b : bool) (c : cnts) : res bool * cnts :=
  match l with
  | [] => (Ok b, c)
  | None :: _ => (UB, c)
  | Some h :: t =>
    let c1 := take c (b_obj h) in
    tensor_scan tens t (match h_b h with Some n => b && tens n | None => b end) (drop c1 (b_obj h))
  end.
(** ceed-operator.c:576-603 CeedOperatorHasTensorBases *)
Definition has_tensor (tens : nat -> bool) (o : option xop) : res bool * option xop :=
  match get_fields o with
  | (Ok (ni, no), Some s) =>
    match tensor_scan tens (hnds s true ni) true (x_c s) with
    | (Ok b, c1) => match tensor_scan tens (hnds s false no) b c1 with (r, c2) => (r, Some (x_cnt s c2)) end
    | (e, c1) => (e, Some (x_cnt s c1))
    end
  | (Ok _, None) => (UB, None)
  | (Err e, s) => (Err e, s)
  | (UB, s) => (UB, s)
  end.

(** ceed-operator.c:1145-1151, 1152-1158: one loop of CeedOperatorGetFieldByName: the index of the first field with that name *)
Fixpoint name_scan (l : list fslot) (i : nat) (name : str) : res (option nat) :=
  match l with
  | [] => Ok None
  | FSet f :: t => if seqb (of_name f) name then Ok (Some i) else name_scan t (S i) name
  | _ :: _ => UB
  end.
(** ceed-operator.c:1138-1160 CeedOperatorGetFieldByName: side and index of the field, None for NULL *)
Definition by_name (o : option xop) (name : str) : res (option (bool * nat)) * option xop :=
  match get_fields o with
  | (Ok (ni, no), Some s) =>
    (match name_scan (map (x_slot s true) (seq 0 ni)) 0 name with
     | Ok (Some i) => Ok (Some (true, i))
     | Ok None => match name_scan (map (x_slot s false) (seq 0 no)) 0 name with
                  | Ok (Some i) => Ok (Some (false, i))
                  | Ok None => Ok None
                  | Err e => Err e
                  | UB => UB
                  end
     | Err e => Err e
     | UB => UB
     end, Some s)
  | (Ok _, None) => (UB, None)
  | (Err e, s) => (Err e, s)
  | (UB, s) => (UB, s)
  end.

(** ** Names of operators *)
(** ceed-operator.c:1543-1554 CeedOperatorSetName: the name afterwards *)
Definition set_name (n : option str) : option str := match n with Some (_ :: _) => n | _ => None end.
(** ceed-operator.c:1349-1367 CeedCompositeOperatorGetSubByName on the names of the sub-operators: index of the sub-operator, None for NULL *)
Fixpoint sub_by_name (l : list (option str)) (i : nat) (name : str) : option nat :=
  match l with
  | [] => None
  | Some n :: t => if seqb name n then Some i else sub_by_name t (S i) name
  | None :: t => sub_by_name t (S i) name
  end.
