(** * Building operators: fields, readiness, active vector lengths

    Model of interface/ceed-operator.c for what the user sees while an operator is put together.
    Restrictions, bases and vectors are represented by the data these functions read. *)
From Coq Require Import List ZArith Lia Bool Arith.
From Verif Require Import Prelude RstrModel BasisModel StrModel QfModel.
Import ListNotations.
Set Implicit Arguments.
Local Open Scope Z_scope.

(** What is read of a restriction; for points restrictions the data compared by
    CeedElemRestrictionAtPointsAreCompatible (ceed-elemrestriction.c:165-193), as one list. *)
Record rdesc := RD { rd_ne : Z; rd_comp : Z; rd_esz : Z; rd_lsz : Z; rd_pts : option (list Z) }.
(** What is read of a basis *)
Record bdesc := BD { bd_h1 : bool; bd_dim : Z; bd_comp : Z; bd_nq : Z }.
Inductive rarg := RNull | RNone | RArg (r : rdesc).
Inductive barg := BNull | BNone | BArg (b : bdesc).
Inductive varg := VNull | VActive | VNone | VVec (v : nat).

(** CEED_ELEMRESTRICTION_NONE is a zeroed structure (ceed-elemrestriction.c:591-604) *)
Definition r_ne (r : rarg) : Z := match r with RArg d => rd_ne d | _ => 0 end.
Definition r_esz (r : rarg) : Z := match r with RArg d => rd_esz d | _ => 0 end.
Definition r_lsz (r : rarg) : Z := match r with RArg d => rd_lsz d | _ => 0 end.
Definition r_pts (r : rarg) : option (list Z) := match r with RArg d => rd_pts d | _ => None end.
(** ceed-basis.c:841-867 CeedBasisGetNumQuadratureComponents *)
Definition b_qcomp (b : bdesc) (m : emode) : Z :=
  match m with
  | EvInterp => if bd_h1 b then 1 else bd_dim b
  | EvGrad => bd_dim b
  | EvDiv => 1
  | EvCurl => if bd_dim b <? 3 then 1 else bd_dim b
  | EvNone | EvWeight => 1
  end.

Definition is_none_mode (m : emode) : bool := match m with EvNone => true | _ => false end.
Definition is_weight_mode (m : emode) : bool := match m with EvWeight => true | _ => false end.
Definition is_rnone (r : rarg) : bool := match r with RNone => true | _ => false end.
Definition is_bnone (b : barg) : bool := match b with BNone => true | _ => false end.

(** ceed-operator.c:36-82 CeedOperatorCheckField *)
Definition check_field (qf : qfield) (r : rarg) (b : barg) : res unit :=
  if negb (Bool.eqb (is_rnone r) (is_weight_mode (qf_mode qf))) then Err ERR_INCOMPATIBLE
  else
    let rcomp := match r with RArg d => rd_comp d | _ => 1 end in
    if negb (Bool.eqb (is_bnone b) (is_none_mode (qf_mode qf))) then Err ERR_INCOMPATIBLE
    else
      let ncomp := match b with BArg d => bd_comp d | _ => 1 end in
      let qcomp := match b with BArg d => b_qcomp d (qf_mode qf) | _ => 1 end in
      if negb (is_bnone b) && negb (is_rnone r) && negb (rcomp =? ncomp) then Err ERR_DIMENSION
      else match qf_mode qf with
           | EvNone => if qf_size qf =? rcomp then Ok tt else Err ERR_DIMENSION
           | EvWeight => Ok tt
           | _ => if qf_size qf =? ncomp * qcomp then Ok tt else Err ERR_DIMENSION
           end.

(** a CeedOperatorField: a null pointer, an allocated structure that is still zero, or a filled one *)
Record ofld := OF { of_name : str; of_r : rarg; of_b : barg; of_v : varg }.
Inductive fslot := FNull | FBlank | FSet (f : ofld).

(** include/ceed-impl.h: struct CeedOperator_private, the members used here.  Field arrays are indexed like the
    QFunction's. *)
Record opst := OP {
  b_qf : qfun; b_at : bool;
  b_in : nat -> fslot; b_out : nat -> fslot; b_nf : nat;
  b_ne : Z; b_hasr : bool; b_nq : Z; b_isz : Z; b_osz : Z;
  b_first : option (list Z);  (* first_points_rstr *)
  b_ready : bool;             (* is_interface_setup *)
  b_imm : bool }.             (* is_immutable *)
(** ceed-operator.c:751-776 CeedOperatorCreate, 796-822 CeedOperatorCreateAtPoints *)
Definition op_create (qf : qfun) (at_points : bool) : opst := OP qf at_points (fun _ => FNull) (fun _ => FNull) 0 0 false 0 (-1) (-1) None false false.

Definition upd {A} (f : nat -> A) (i : nat) (x : A) : nat -> A := fun j => if Nat.eqb j i then x else f j.
Fixpoint find_name (name : str) (l : list qfield) : option nat :=
  match l with [] => None | f :: t => if seqb name (qf_name f) then Some 0%nat else option_map S (find_name name t) end.
(** the field of the QFunction with that name: side (input?) and index (ceed-operator.c:953-976) *)
Definition find_field (q : qfun) (name : str) : option (bool * nat) :=
  match find_name name (q_in q) with
  | Some i => Some (true, i)
  | None => match find_name name (q_out q) with Some i => Some (false, i) | None => None end
  end.
Definition qf_at (q : qfun) (side : bool) (i : nat) : option qfield := nth_error (if side then q_in q else q_out q) i.

Record call := Call { c_name : str; c_r : rarg; c_b : barg; c_v : varg }.
Definition with_first st x := OP (b_qf st) (b_at st) (b_in st) (b_out st) (b_nf st) (b_ne st) (b_hasr st) (b_nq st) (b_isz st) (b_osz st) x (b_ready st) (b_imm st).
Definition with_qf st q := OP q (b_at st) (b_in st) (b_out st) (b_nf st) (b_ne st) (b_hasr st) (b_nq st) (b_isz st) (b_osz st) (b_first st) (b_ready st) (b_imm st).
Definition with_slot st (side : bool) i x :=
  OP (b_qf st) (b_at st) (if side then upd (b_in st) i x else b_in st) (if side then b_out st else upd (b_out st) i x) (b_nf st) (b_ne st) (b_hasr st) (b_nq st) (b_isz st) (b_osz st) (b_first st) (b_ready st) (b_imm st).
Definition with_size st (side : bool) z :=
  OP (b_qf st) (b_at st) (b_in st) (b_out st) (b_nf st) (b_ne st) (b_hasr st) (b_nq st) (if side then z else b_isz st) (if side then b_osz st else z) (b_first st) (b_ready st) (b_imm st).
(** number of quadrature points that a field asks for (ceed-operator.c:943-944) *)
Definition c_nq (c : call) : Z := match c_b c with BArg d => bd_nq d | _ => r_esz (c_r c) end.

(** ceed-operator.c:903-1007 CeedOperatorSetField on a single operator: outcome and operator afterwards *)
Definition set_field (st : opst) (c : call) : res unit * opst :=
  if b_imm st then (Err ERR_MAJOR, st)
  else match c_r c, c_b c, c_v c with
  | RNull, _, _ => (Err ERR_INCOMPATIBLE, st)
  | _, BNull, _ => (Err ERR_INCOMPATIBLE, st)
  | _, _, VNull => (Err ERR_INCOMPATIBLE, st)
  | r, b, v =>
    if negb (is_rnone r || negb (b_hasr st) || (r_ne r =? b_ne st)) then (Err ERR_DIMENSION, st)
    else
      match (match r_pts r with
             | None => inr st
             | Some p => if negb (b_at st) then inl (Err ERR_UNSUPPORTED)
                         else if negb (is_bnone b) then inl (Err ERR_UNSUPPORTED)
                         else match b_first st with
                              | None => inr (with_first st (Some p))
                              | Some p0 => if list_eq_dec Z.eq_dec p0 p then inr st else inl (Err ERR_INCOMPATIBLE)
                              end
             end) with
      | inl e => (e, st)
      | inr st1 =>
        if negb ((b_nq st1 =? 0) || (c_nq c =? b_nq st1)) then (Err ERR_DIMENSION, st1)
        else
          let st2 := with_qf st1 (snd (q_get_fields (b_qf st1))) in
          match find_field (b_qf st2) (c_name c) with
          | None => (Err ERR_INCOMPLETE, st2)
          | Some (side, i) =>
            match qf_at (b_qf st2) side i with
            | None => (UB, st2)
            | Some qf =>
              match check_field qf r b with
              | Ok _ =>
                let st3 := with_slot st2 side i FBlank in
                let cur := if side then b_isz st3 else b_osz st3 in
                match (match v with
                       | VActive => let z := if cur =? -1 then r_lsz r else cur in
                                    if r_lsz r =? z then inr (with_size st3 side z) else inl (with_size st3 side z)
                       | _ => inr st3
                       end) with
                | inl st4 => (Err ERR_INCOMPATIBLE, st4)
                | inr st4 =>
                  let st5 := with_slot st4 side i (FSet (OF (c_name c) r b v)) in
                  let seth := negb (is_rnone r) && negb (b_hasr st5) in
                  (Ok tt, OP (b_qf st5) (b_at st5) (b_in st5) (b_out st5) (S (b_nf st5))
                             (if seth then r_ne r else b_ne st5) (b_hasr st5 || negb (is_rnone r))
                             (if (b_nq st5 =? 0) && negb (b_at st5) then c_nq c else b_nq st5)
                             (b_isz st5) (b_osz st5) (b_first st5) (b_ready st5) (b_imm st5))
                end
              | Err e => (Err e, st2)
              | UB => (UB, st2)
              end
            end
          end
      end
  end.
(** ceed-operator.c:1377-1425 CeedOperatorCheckReady on a single operator *)
Definition check_ready (st : opst) : res unit * opst :=
  if b_ready st then (Ok tt, st)
  else if (b_nf st =? 0)%nat then (Err ERR_INCOMPLETE, st)
  else
    let st1 := with_qf st (snd (q_get_fields (b_qf st))) in
    if negb (b_nf st =? List.length (q_in (b_qf st)) + List.length (q_out (b_qf st)))%nat then (Err ERR_INCOMPLETE, st1)
    else if negb (b_hasr st) then (Err ERR_INCOMPLETE, st1)
    else if negb ((0 <? b_nq st) || b_at st) then (Err ERR_INCOMPLETE, st1)
    else (Ok tt, OP (q_set_imm (b_qf st1)) (b_at st) (b_in st) (b_out st) (b_nf st) (b_ne st) (b_hasr st) (b_nq st) (b_isz st) (b_osz st) (b_first st) true (b_imm st)).

(** ** Active vector lengths of operator trees *)
(** A leaf: whether CheckReady accepts it, input_size, output_size; a composite: is_interface_setup, the
    sizes and the sub-operators (each sub-operator occurs once in the tree). *)
Inductive otree := OLeaf (ready : bool) (isz osz : Z) | OComp (setup : bool) (isz osz : Z) (subs : list otree).
(** ceed-operator.c:1440-1469 CeedOperatorGetActiveVectorLengths: outcome and tree afterwards *)
Fixpoint get_len (t : otree) : res (Z * Z) * otree :=
  match t with
  | OLeaf _ i o => (Ok (i, o), t)
  | OComp s i o subs =>
    if (i =? -1) || (o =? -1) then
      let go := fix go (l : list otree) (ci co : Z) {struct l} : res unit * (Z * Z * list otree) :=
        match l with
        | [] => (Ok tt, (ci, co, []))
        | x :: l' =>
          match get_len x with
          | (Ok (si, so), x') =>
            let ci1 := if ci =? -1 then si else ci in
            let co1 := if co =? -1 then so else co in
            if ((si =? -1) || (si =? ci1)) && ((so =? -1) || (so =? co1)) then
              match go l' ci1 co1 with (r, (ri, ro, l2)) => (r, (ri, ro, x' :: l2)) end
            else (Err ERR_MAJOR, (ci1, co1, x' :: l'))
          | (Err c, x') => (Err c, (ci, co, x' :: l'))
          | (UB, x') => (UB, (ci, co, x' :: l'))
          end
        end in
      match go subs i o with
      | (Ok _, (i', o', subs')) => (Ok (i, o), OComp s i' o' subs')
      | (Err c, (i', o', subs')) => (Err c, OComp s i' o' subs')
      | (UB, (i', o', subs')) => (UB, OComp s i' o' subs')
      end
    else (Ok (i, o), t)
  end.
(** ceed-operator.c:1266-1294 CeedCompositeOperatorAddSub; CEED_COMPOSITE_MAX is 16.  is_immutable is never set (see C27). *)
Definition add_sub (t x : otree) : res unit * otree :=
  match t with
  | OLeaf _ _ _ => (Err ERR_MINOR, t)
  | OComp s i o subs =>
    if (16 <=? List.length subs)%nat then (Err ERR_UNSUPPORTED, t)
    else match get_len x with
         | (Ok (si, so), x') =>
           let i1 := if i =? -1 then si else i in
           let o1 := if o =? -1 then so else o in
           if ((si =? -1) || (si =? i1)) && ((so =? -1) || (so =? o1)) then (Ok tt, OComp s i1 o1 (subs ++ [x']))
           else (Err ERR_MAJOR, OComp s i1 o1 subs)
         | (Err c, _) => (Err c, t)
         | (UB, _) => (UB, t)
         end
  end.
(** ceed-operator.c:1377-1425 CeedOperatorCheckReady on trees *)
Fixpoint tree_ready (t : otree) : res unit * otree :=
  match t with
  | OLeaf r _ _ => ((if r then Ok tt else Err ERR_INCOMPLETE), t)
  | OComp s i o subs =>
    if s then (Ok tt, t)
    else match subs with
    | [] => (Ok tt, OComp true 0 0 [])
    | _ =>
      let go := fix go (l : list otree) : res unit * list otree :=
        match l with
        | [] => (Ok tt, [])
        | x :: l' => match tree_ready x with
                     | (Ok _, x') => match go l' with (r, l2) => (r, x' :: l2) end
                     | (e, x') => (e, x' :: l')
                     end
        end in
      match go subs with
      | (Ok _, subs') =>
        match get_len (OComp s i o subs') with
        | (Ok _, OComp s' i' o' subs'') => (Ok tt, OComp true i' o' subs'')
        | (Ok _, t') => (Ok tt, t')
        | (Err c, t') => (Err c, t')
        | (UB, t') => (UB, t')
        end
      | (e, subs') => (e, OComp s i o subs')
      end
    end
  end.
