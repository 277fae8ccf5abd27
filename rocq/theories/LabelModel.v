(** * Context labels of operators: interface/ceed-operator.c:345-533 and 1834-1960

    One composite operator, any number of non-composite operators (its sub-operators and others) and any number
    of QFunction contexts.  Every context lives in a world of its own (CtxModel.v), so blocks of the client
    shared between contexts are left out.  A label object of a context is named by the context and its position;
    a label object of the composite operator by its position in context_labels.  Every operator has a QFunction
    of its own, not from Fortran; a sub-operator that is itself composite is [None].  Leaks of label objects
    are left out. *)
From Coq Require Import List ZArith Lia Bool Arith.
From Verif Require Import Prelude RstrModel StrModel CtxModel.
Import ListNotations.
Set Implicit Arguments.
Local Open Scope Z_scope.

Definition lptr := (nat * nat)%type.   (* a label object of a context *)
Definition lptr_eqb (a b : lptr) : bool := Nat.eqb (fst a) (fst b) && Nat.eqb (snd a) (snd b).
Definition lin (p : lptr) (l : list lptr) : bool := existsb (lptr_eqb p) l.

(** include/ceed-impl.h CeedContextFieldLabel_private of a composite operator.  The name is that of a label of a
    context (ceed-operator.c:1900), so it lives as long as that context. *)
Record clabel := mkCL { cl_name : lptr; cl_type : ftype; cl_num : nat; cl_subs : list (option lptr) }.
(** a non-composite operator: the context of its QFunction, its context_labels, and whether its QFunction
    assembly data is marked as out of date *)
Record sop := mkSop { s_ctx : option nat; s_labs : list lptr; s_upd : bool }.
Record lworld := mkLW {
  lw_ctx : nat -> world;
  lw_from : list lptr;          (* labels of contexts with from_op set *)
  lw_ops : list sop;
  lw_subs : list (option nat);  (* sub-operators of the composite operator *)
  lw_labs : list clabel         (* its context_labels *)
}.
(** a label in the hands of the client *)
Inductive labref := LNull | LC (p : lptr) | LK (k : nat).

Inductive lout (A : Type) := LOk (a : A) (w : lworld) | LErr (e : Z) (w : lworld) | LUB.
Arguments LOk {A}. Arguments LErr {A}. Arguments LUB {A}.
Definition LM (A : Type) := lworld -> lout A.
Definition lret {A} (x : A) : LM A := fun w => LOk x w.
Definition lbind {A B} (m : LM A) (k : A -> LM B) : LM B :=
  fun w => match m w with LOk x w => k x w | LErr e w => LErr e w | LUB => LUB end.
Local Notation "x <~ m ;; k" := (lbind m (fun x => k)) (at level 61, m at next level, right associativity).
Local Notation "m ;;; k" := (lbind m (fun _ => k)) (at level 61, right associativity).
Definition lfail {A} (e : Z) : LM A := fun w => LErr e w.
Definition lcheck (c : bool) (e : Z) : LM unit := if c then lret tt else lfail e.
Definition lget : LM lworld := fun w => LOk w w.
Definition set_ctxs (w : lworld) (f : nat -> world) : lworld := mkLW f (lw_from w) (lw_ops w) (lw_subs w) (lw_labs w).
Definition set_from (w : lworld) (l : list lptr) : lworld := mkLW (lw_ctx w) l (lw_ops w) (lw_subs w) (lw_labs w).
Definition set_ops (w : lworld) (l : list sop) : lworld := mkLW (lw_ctx w) (lw_from w) l (lw_subs w) (lw_labs w).
Definition set_subs (w : lworld) (l : list (option nat)) : lworld := mkLW (lw_ctx w) (lw_from w) (lw_ops w) l (lw_labs w).
Definition set_labs (w : lworld) (l : list clabel) : lworld := mkLW (lw_ctx w) (lw_from w) (lw_ops w) (lw_subs w) l.
Definition lput (w : lworld) : LM unit := fun _ => LOk tt w.
Definition cupd (f : nat -> world) (c : nat) (v : world) : nat -> world := fun n => if Nat.eqb n c then v else f n.
(** a call on one context *)
Definition on {A} (c : nat) (m : M A) : LM A := fun w =>
  match m (lw_ctx w c) with
  | ROk a v => LOk a (set_ctxs w (cupd (lw_ctx w) c v))
  | RErr e v => LErr e (set_ctxs w (cupd (lw_ctx w) c v))
  | RUB => LUB
  end.
Definition get_op (i : nat) : LM sop := w <~ lget ;; match nth_error (lw_ops w) i with Some o => lret o | None => fun _ => LUB end.
Definition put_op (i : nat) (o : sop) : LM unit := w <~ lget ;; lput (set_ops w (firstn i (lw_ops w) ++ o :: skipn (S i) (lw_ops w))).
Definition lderef (p : lptr) : LM label := on (fst p) (deref (snd p)).

(** ceed-qfunction.c:935-940 CeedQFunctionSetContext *)
Definition q_set_ctx (i : nat) (c : option nat) : LM unit :=
  o <~ get_op i ;;
  (match s_ctx o with Some old => on old ctx_destroy | None => lret tt end) ;;;
  put_op i (mkSop c (s_labs o) (s_upd o)) ;;;
  match c with Some c => on c ctx_reference | None => lret tt end.
(** ceed-qfunction.c CeedQFunctionGetInnerContext: a reference is taken and dropped again *)
Definition inner_ctx (o : sop) : LM (option nat) :=
  match s_ctx o with None => lret None | Some c => on c ctx_reference ;;; on c ctx_destroy ;;; lret (Some c) end.
(** ceed-operator.c:1834-1847 CeedOperatorGetContext *)
Definition op_get_ctx (i : option nat) : LM (option nat) :=
  match i with
  | None => lfail ERR_INCOMPATIBLE
  | Some i => o <~ get_op i ;; c <~ inner_ctx o ;; match c with None => lret None | Some c => on c ctx_reference ;;; lret (Some c) end
  end.
Definition ctx_drop (c : option nat) : LM unit := match c with None => lret tt | Some c => on c ctx_destroy end.

(** 1511-1531 CeedOperatorSetQFunctionAssemblyDataUpdateNeeded(op, true) of a non-composite operator *)
Definition op_update (i : nat) : LM unit := o <~ get_op i ;; put_op i (mkSop (s_ctx o) (s_labs o) true).
Fixpoint comp_update (subs : list (option nat)) : LM unit :=
  match subs with
  | [] => lret tt
  | None :: subs => comp_update subs          (* composite sub-operator: its sub-operators are not in this model *)
  | Some i :: subs => op_update i ;;; comp_update subs
  end.

(** the label belongs to the operator: 366-373, 437-444, 498-505 *)
Definition comp_check (l : labref) : LM (list (option lptr)) :=
  w <~ lget ;;
  match l with
  | LNull => lfail ERR_UNSUPPORTED
  | LC p => lcheck (negb (lin p (lw_from w))) ERR_UNSUPPORTED ;;;
            lcheck (Nat.eqb (length (lw_subs w)) 0) ERR_UNSUPPORTED ;;; lret []
  | LK k => match nth_error (lw_labs w) k with
            | None => lfail ERR_UNSUPPORTED        (* a label of another composite operator *)
            | Some b => lcheck (Nat.eqb (length (lw_subs w)) (length (cl_subs b))) ERR_UNSUPPORTED ;;; lret (cl_subs b)
            end
  end.
Definition single_check (i : nat) (l : labref) : LM lptr :=
  w <~ lget ;; o <~ get_op i ;;
  match l with
  | LNull | LK _ => lfail ERR_UNSUPPORTED
  | LC p => lcheck (negb (lin p (lw_from w)) || lin p (s_labs o)) ERR_UNSUPPORTED ;;; lret p
  end.

(** 359-404 CeedOperatorContextSetGeneric *)
Fixpoint set_loop (l : list (option nat * option lptr)) (t : ftype) (vals : bytes) : LM unit :=
  match l with
  | [] => lret tt
  | (i, p) :: l =>
    c <~ op_get_ctx i ;;
    (match c, p with Some c, Some p => f <~ lderef p ;; on c (ctx_set_at f t vals) | _, _ => lret tt end) ;;;
    ctx_drop c ;;;
    set_loop l t vals
  end.
Definition comp_set (l : labref) (t : ftype) (vals : bytes) : LM unit :=
  ps <~ comp_check l ;; w <~ lget ;; set_loop (combine (lw_subs w) ps) t vals ;;; comp_update (lw_subs w).
Definition single_set (i : nat) (l : labref) (t : ftype) (vals : bytes) : LM unit :=
  p <~ single_check i l ;; c <~ op_get_ctx (Some i) ;;
  match c with
  | None => lfail ERR_UNSUPPORTED
  | Some c => f <~ lderef p ;; on c (ctx_set_at f t vals) ;;; on c ctx_destroy ;;; op_update i
  end.

(** 427-472 CeedOperatorContextGetGenericRead; the client reads the values at once.  [None] is a NULL pointer and no values. *)
Definition read_vals (c : nat) (p : lptr) (t : ftype) : LM (nat * bytes) :=
  f <~ lderef p ;; r <~ on c (ctx_get_at f t) ;; on c ctx_destroy ;;;
  let '(q, off, n) := r in on c (set_rptr q) ;;; v <~ on c (mread q off (n * fsize t)) ;; lret (n, v).
Fixpoint get_loop (l : list (option nat * option lptr)) (t : ftype) : LM (option (nat * bytes)) :=
  match l with
  | [] => lret None
  | (i, p) :: l =>
    c <~ op_get_ctx i ;;
    match c, p with
    | Some c, Some p => r <~ read_vals c p t ;; lret (Some r)
    | _, _ => ctx_drop c ;;; get_loop l t
    end
  end.
Definition comp_get (l : labref) (t : ftype) : LM (option (nat * bytes)) :=
  ps <~ comp_check l ;; w <~ lget ;; get_loop (combine (lw_subs w) ps) t.
Definition single_get (i : nat) (l : labref) (t : ftype) : LM (option (nat * bytes)) :=
  p <~ single_check i l ;; c <~ op_get_ctx (Some i) ;;
  match c with None => lfail ERR_UNSUPPORTED | Some c => r <~ read_vals c p t ;; lret (Some r) end.

(** 488-533 CeedOperatorContextRestoreGenericRead *)
Fixpoint restore_loop (l : list (option nat * option lptr)) (t : ftype) : LM unit :=
  match l with
  | [] => lret tt
  | (i, p) :: l =>
    c <~ op_get_ctx i ;;
    match c, p with
    | Some c, Some p => f <~ lderef p ;; on c (ctx_restore_at f t) ;;; on c ctx_destroy
    | _, _ => ctx_drop c ;;; restore_loop l t
    end
  end.
Definition comp_restore (l : labref) (t : ftype) : LM unit :=
  ps <~ comp_check l ;; w <~ lget ;; restore_loop (combine (lw_subs w) ps) t.
Definition single_restore (i : nat) (l : labref) (t : ftype) : LM unit :=
  p <~ single_check i l ;; c <~ op_get_ctx (Some i) ;;
  match c with None => lfail ERR_UNSUPPORTED | Some c => f <~ lderef p ;; on c (ctx_restore_at f t) ;;; on c ctx_destroy end.

(** 1867-1935 CeedOperatorGetContextFieldLabel of the composite operator: an existing label with this name *)
Fixpoint find_label (k : nat) (l : list clabel) (name : str) : LM (option nat) :=
  match l with
  | [] => lret None
  | b :: l => f <~ lderef (cl_name b) ;; if seqb (l_name f) name then lret (Some k) else find_label (S k) l name
  end.
(** 1889-1922: the labels of the sub-operators and the label made so far.  On a mismatch the label is freed, which
    sets the pointer to NULL, and the arguments of the error message dereference it. *)
Definition sub_label (o : sop) (name : str) (acc : option (lptr * ftype * nat)) : LM (option lptr * option (lptr * ftype * nat)) :=
  match s_ctx o with
  | None => lret (None, acc)
  | Some c =>
    j <~ on c (ctx_label name) ;;
    match j with
    | None => lret (None, acc)
    | Some j =>
      f <~ lderef (c, j) ;;
      match acc with
      | Some (_, t, n) => if ftype_eqb t (l_type f) && (Nat.eqb n 0 || Nat.eqb n (l_num f))
                          then lret (Some (c, j), Some ((c, j), l_type f, l_num f)) else fun _ => LUB
      | None => lret (Some (c, j), Some ((c, j), l_type f, l_num f))
      end
    end
  end.
Fixpoint sub_loop (subs : list (option nat)) (name : str) (acc : option (lptr * ftype * nat)) : LM (list (option lptr) * option (lptr * ftype * nat)) :=
  match subs with
  | [] => lret ([], acc)
  | None :: _ => fun _ => LUB           (* sub_operators[i]->qf is NULL *)
  | Some i :: subs =>
    o <~ get_op i ;; r <~ sub_label o name acc ;;
    rs <~ sub_loop subs name (snd r) ;; lret (fst r :: fst rs, snd rs)
  end.
Definition comp_label (name : str) : LM labref :=
  w <~ lget ;;
  e <~ find_label 0 (lw_labs w) name ;;
  match e with
  | Some k => lret (LK k)
  | None => r <~ sub_loop (lw_subs w) name None ;;
            match snd r with
            | None => lret LNull
            | Some (p, t, n) => w <~ lget ;; lput (set_labs w (lw_labs w ++ [mkCL p t n (fst r)])) ;;; lret (LK (length (lw_labs w)))
            end
  end.
(** 1936-1959 ... of a non-composite operator: the label of the context is marked and listed *)
Definition single_label (i : nat) (name : str) : LM labref :=
  o <~ get_op i ;; c <~ inner_ctx o ;;
  match c with
  | None => lret LNull
  | Some c => j <~ on c (ctx_label name) ;;
              match j with
              | None => lret LNull
              | Some j => w <~ lget ;; lput (set_from w (lw_from w ++ [(c, j)])) ;;;
                          put_op i (mkSop (s_ctx o) (s_labs o ++ [(c, j)]) (s_upd o)) ;;; lret (LC (c, j))
              end
  end.
(** 1266-1294 CeedCompositeOperatorAddSub, apart from vector lengths and immutability; include/ceed/backend.h:29 CEED_COMPOSITE_MAX *)
Definition add_sub (i : option nat) : LM unit :=
  w <~ lget ;; lcheck (Nat.ltb (length (lw_subs w)) 16) ERR_UNSUPPORTED ;;; lput (set_subs w (lw_subs w ++ [i])).

(** ** Histories *)
Inductive lcmd :=
| LOp                                            (* a new non-composite operator *)
| LSetCtx (i : nat) (c : option nat)             (* CeedQFunctionSetContext on its QFunction *)
| LAdd (i : option nat)
| LLabel (name : str) | LSet (l : labref) (t : ftype) (vals : bytes) | LGet (l : labref) (t : ftype) | LRestore (l : labref) (t : ftype)
| SLabel (i : nat) (name : str) | SSet (i : nat) (l : labref) (t : ftype) (vals : bytes)
| SGet (i : nat) (l : labref) (t : ftype) | SRestore (i : nat) (l : labref) (t : ftype)
| LOn (c : nat) (k : cmd).                       (* any call on a context *)
Inductive lobs := XDone | XLab (l : labref) | XVals (v : option (nat * bytes)) | XCtx (o : obs).
Definition ldone {A} (m : LM A) : LM lobs := m ;;; lret XDone.
Definition lstep (c : lcmd) : LM lobs :=
  match c with
  | LOp => w <~ lget ;; ldone (lput (set_ops w (lw_ops w ++ [mkSop None [] false])))
  | LSetCtx i c => ldone (q_set_ctx i c)
  | LAdd i => ldone (add_sub i)
  | LLabel name => l <~ comp_label name ;; lret (XLab l)
  | LSet l t vals => ldone (comp_set l t vals)
  | LGet l t => v <~ comp_get l t ;; lret (XVals v)
  | LRestore l t => ldone (comp_restore l t)
  | SLabel i name => l <~ single_label i name ;; lret (XLab l)
  | SSet i l t vals => ldone (single_set i l t vals)
  | SGet i l t => v <~ single_get i l t ;; lret (XVals v)
  | SRestore i l t => ldone (single_restore i l t)
  | LOn c k => o <~ on c (step k) ;; lret (XCtx o)
  end.
(** Nothing but fresh contexts. *)
Definition lw0 : lworld := mkLW (fun _ => new_world) [] [] [] [].
Inductive lres := LGood (o : lobs) | LBad (e : Z).
Fixpoint lrun (cs : list lcmd) (w : lworld) : option (list lres * lworld) :=
  match cs with
  | [] => Some ([], w)
  | c :: cs => match lstep c w with
               | LOk o w => match lrun cs w with Some (rs, w) => Some (LGood o :: rs, w) | None => None end
               | LErr e w => match lrun cs w with Some (rs, w) => Some (LBad e :: rs, w) | None => None end
               | LUB => None
               end
  end.
