(** * Fallback operators

    Model of CeedOperatorCreateFallback and CeedOperatorGetFallback (interface/ceed-preconditioning.c) on top of the operators
    of BuildModel.v and the QFunctions of QfModel.v.  Objects are passed on by reference in the code; the
    model passes on the data.  dqf and dqfT (never used by the CPU backends), the shared QFunction assembly data and
    the name are left out. *)
From Coq Require Import List ZArith Lia Bool Arith.
From Verif Require Import Prelude RstrModel BasisModel StrModel QfModel BuildModel.
Import ListNotations.
Set Implicit Arguments.
Local Open Scope Z_scope.

(** ceed-operator.c:1054-1074 CeedOperatorAtPointsSetPoints: outcome and operator; the points restriction is
    represented by the data compared by CeedElemRestrictionAtPointsAreCompatible, as in BuildModel.v *)
Definition set_points (st : opst) (p : list Z) : res unit * opst :=
  if negb (b_at st) then (Err ERR_MINOR, st)
  else if b_imm st then (Err ERR_MAJOR, st)
  else match b_first st with
       | None => (Ok tt, with_first st (Some p))
       | Some p0 => if list_eq_dec Z.eq_dec p0 p then (Ok tt, st) else (Err ERR_INCOMPATIBLE, st)
       end.

(** ceed-preconditioning.c:160-183: the fields are read back and set on the new operator, inputs first.  A null or
    blank field is dereferenced. *)
Fixpoint replay (st fb : opst) (l : list (bool * nat)) : res opst :=
  match l with
  | [] => Ok fb
  | (side, i) :: t =>
    match (if side then b_in st i else b_out st i) with
    | FSet o => match set_field fb (Call (of_name o) (of_r o) (of_b o) (of_v o)) with
                | (Ok _, fb') => replay st fb' t
                | (Err e, _) => Err e
                | (UB, _) => UB
                end
    | FNull | FBlank => UB
    end
  end.
(** ceed-preconditioning.c:106-204 CeedOperatorCreateFallback for a single operator whose Ceed has a fallback; [pts]: the points of an
    operator at points, if set (CeedOperatorAtPointsGetPoints, ceed-operator.c:1106-1123, references a NULL restriction otherwise) *)
Definition op_fallback (st : opst) (pts : option (list Z)) : res opst :=
  match fst (q_fallback (b_qf st)) with
  | Ok qb =>
    let fb := op_create qb (b_at st) in
    match (if b_at st then
             match fst (check_ready st), pts with
             | Ok _, Some p => match set_points fb p with (Ok _, fb') => Ok fb' | (Err e, _) => Err e | (UB, _) => UB end
             | Ok _, None => UB
             | Err e, _ => Err e
             | UB, _ => UB
             end
           else Ok fb) with
    | Ok fb1 =>
      match fst (check_ready st) with
      | Ok _ =>
        match replay st fb1 (map (pair true) (seq 0 (List.length (q_in (b_qf st)))) ++ map (pair false) (seq 0 (List.length (q_out (b_qf st))))) with
        | Ok fb2 => match check_ready fb2 with (Ok _, fb3) => Ok fb3 | (Err e, _) => Err e | (UB, _) => UB end
        | e => e
        end
      | Err e => Err e
      | UB => UB
      end
    | e => e
    end
  | Err e => Err e
  | UB => UB
  end.

(** an operator with its cached fallback (the member op_fallback), and whether its Ceed has a fallback Ceed *)
Record fobj := FO { fo_st : opst; fo_pts : option (list Z); fo_has : bool; fo_fb : option opst }.
(** ceed-preconditioning.c:1810-1835 CeedOperatorGetFallback: success may come with a NULL operator *)
Definition get_fallback (o : fobj) : res (option opst) * fobj :=
  match fo_fb o with
  | Some f => (Ok (Some f), o)
  | None => if fo_has o then
              match op_fallback (fo_st o) (fo_pts o) with
              | Ok f => (Ok (Some f), FO (fo_st o) (fo_pts o) (fo_has o) (Some f))
              | Err e => (Err e, o)
              | UB => (UB, o)
              end
            else (Ok None, o)
  end.
Definition fset (o : fobj) (c : call) : res unit * fobj :=
  let r := set_field (fo_st o) c in (fst r, FO (snd r) (fo_pts o) (fo_has o) (fo_fb o)).

(** ceed-preconditioning.c:127-140: the fallback of a composite operator of single operators; its sub-operators and lengths.
    A NULL fallback is dereferenced by CeedCompositeOperatorAddSub (ceed-operator.c:1266-1297). *)
Fixpoint comp_fallback (subs : list fobj) (acc : list opst) (i o : Z) : res (list opst * Z * Z) :=
  match subs with
  | [] => Ok (acc, i, o)
  | s :: t =>
    match fst (get_fallback s) with
    | Ok None => UB
    | Ok (Some f) =>
      if (16 <=? List.length acc)%nat then Err ERR_UNSUPPORTED
      else
        let i1 := if i =? -1 then b_isz f else i in
        let o1 := if o =? -1 then b_osz f else o in
        if ((b_isz f =? -1) || (b_isz f =? i1)) && ((b_osz f =? -1) || (b_osz f =? o1))
        then comp_fallback t (acc ++ [f]) i1 o1
        else Err ERR_MAJOR
    | Err e => Err e
    | UB => UB
    end
  end.

(** attributes of a QFunction beyond QfModel.v: context, writability of the context, flop estimate, identity flag *)
Record qattr := QA { qa_ctx : option nat; qa_write : bool; qa_flops : Z; qa_ident : bool }.
(** ceed-qfunction.c:647-650 (defaults of CeedQFunctionCreateInterior) and ceed-preconditioning.c:71-77: only the context is carried over *)
Definition fallback_attr (a : qattr) : qattr :=
  let d := QA None true (-1) false in QA (qa_ctx a) (qa_write d) (qa_flops d) (qa_ident d).
