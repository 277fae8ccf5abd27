(** * Reference counts and lifetimes of libCEED objects

    Model of the Create, ReferenceCopy, Set.../Add... and Destroy functions of the files in interface/ as far as they touch
    ref_count and the pointers between objects.

    Simplifications, for the whole file:
    - an object is its count and its pointers to other objects; data, names and sizes are not modelled, so the checks
      on them succeed; no array access is outstanding when an object is destroyed (VecModel.v has the locks);
    - memory of a freed object is kept, marked; an access to it is [UB];
    - a history ends with the first call that returns an error;
    - not modelled: work vectors (WorkModel.v), fallback operators, the assembly data and the private data of the
      backends, CEED_REQUEST objects;
    - CEED_VECTOR_NONE, CEED_VECTOR_ACTIVE, CEED_ELEMRESTRICTION_NONE and CEED_BASIS_NONE are one pointer [PStatic]. *)
From Coq Require Import List ZArith Lia Bool Arith.
From Verif Require Import Prelude RstrModel OpModel.
Import ListNotations.
Set Implicit Arguments.
Local Open Scope nat_scope.

Inductive ptr := PNull | PStatic | PObj (n : nat).
Inductive okind := OCeed | OVec | ORstr | OContract | OBasis | OCtx | OQf | OOper.
Definition okind_eqb (a b : okind) : bool :=
  match a, b with
  | OCeed, OCeed | OVec, OVec | ORstr, ORstr | OContract, OContract | OBasis, OBasis | OCtx, OCtx | OQf, OQf | OOper, OOper => true
  | _, _ => false
  end.
(** include/ceed-impl.h: struct CeedOperatorField_private, the three pointers elem_rstr, basis, vec *)
Record opfield := OF { of_rstr : ptr; of_basis : ptr; of_vec : ptr }.

(** include/ceed-impl.h: the pointers of each struct.  [BCeed]: the objects the backend creates itself (function
    pointers VectorCreate, ... set), delegate, obj_delegates, op_fallback_ceed, parent (not counted).
    [BRstr]: created with CreateAtPoints, rstr_base, ceed.  [BBasis]: is_tensor_basis, contract, vec_chebyshev,
    basis_chebyshev, ceed.  [BQf]: ctx, ceed.  [BOp]: is_composite, is_at_points, input_fields and output_fields (arrays
    of CEED_FIELD_MAX entries), num_fields, point_coords, rstr_points, first_points_rstr, sub_operators, qf, dqf, dqfT,
    ceed; [lost] are the field structs overwritten in input_fields and output_fields: they stay allocated. *)
Inductive body :=
| BCeed (impl : list okind) (deleg : ptr) (objd : list (okind * ptr)) (fallb : ptr) (parent : option nat)
| BVec (c : ptr)
| BRstr (points : bool) (base c : ptr)
| BContract (c : ptr)
| BBasis (tensor : bool) (contract vch bch c : ptr)
| BCtx (c : ptr)
| BQf (ctx c : ptr)
| BOp (comp atp : bool) (fin fout : list (option opfield)) (lost : list opfield) (nf : nat)
      (coords rpts first : ptr) (subs : list ptr) (qf dqf dqfT c : ptr).
Definition kindof (b : body) : okind :=
  match b with
  | BCeed _ _ _ _ _ => OCeed | BVec _ => OVec | BRstr _ _ _ => ORstr | BContract _ => OContract
  | BBasis _ _ _ _ _ => OBasis | BCtx _ => OCtx | BQf _ _ => OQf | BOp _ _ _ _ _ _ _ _ _ _ _ _ _ _ => OOper
  end.

Record obj := mkObj { o_ref : Z; o_freed : bool; o_body : body }.
Definition heap := list obj.

(** A call that the C type system, or a NULL where an object is needed, rules out *)
Definition ERR_ILL : Z := 999.
Definition geto (h : heap) (n : nat) : res obj :=
  match nth_error h n with Some o => if o_freed o then UB else Ok o | None => UB end.
Definition modb (h : heap) (n : nat) (f : body -> body) : res heap :=
  o <~ geto h n ;; Ok (upd h n (mkObj (o_ref o) false (f (o_body o)))).
Definition alloc (h : heap) (r : Z) (b : body) : nat * heap := (length h, h ++ [mkObj r false b]).

(** ceed-vector.c:137-140 CeedVectorReference and its seven siblings (ceed.c:815, ceed-elemrestriction.c:533, ceed-basis.c:822, ceed-tensor.c:182,
    ceed-qfunctioncontext.c:544, ceed-qfunction.c:579, ceed-operator.c:711), with the test for the static objects of the ReferenceCopy
    functions (ceed-vector.c:197, ceed-elemrestriction.c:1252, ceed-basis.c:1839) *)
Definition reference (h : heap) (p : ptr) : res heap :=
  match p with
  | PNull => UB
  | PStatic => Ok h
  | PObj n => o <~ geto h n ;; Ok (upd h n (mkObj (o_ref o + 1) false (o_body o)))
  end.

Definition fptrs (l : list (option opfield)) : list ptr :=
  flat_map (fun f => match f with Some f => [of_rstr f; of_basis f; of_vec f] | None => [] end) l.
(** The pointers given to a Destroy function when an object dies, in this order: ceed.c:1456-1487 (obj_delegates: 1458-1464),
    ceed-vector.c:1116, ceed-elemrestriction.c:1781-1785, ceed-tensor.c:226, ceed-basis.c:2361-2372, ceed-qfunctioncontext.c:945,
    ceed-qfunction.c:1090-1096, ceed-operator.c:2284-2343.  The loops over the fields of an operator (2284, 2299) run to
    num_fields over arrays of CEED_FIELD_MAX entries. *)
Definition released (b : body) : res (list ptr) :=
  match b with
  | BCeed _ d od fb _ => Ok (d :: map snd od ++ [fb])
  | BVec c => Ok [c]
  | BRstr _ base c => Ok [base; c]
  | BContract c => Ok [c]
  | BBasis _ k v b c => Ok [k; v; b; c]
  | BCtx c => Ok [c]
  | BQf x c => Ok [x; c]
  | BOp comp _ fin fout _ nf co rp fr subs q dq dqt c =>
    if negb comp && ((length fin <? nf) || (length fout <? nf)) then UB
    else Ok (fptrs (firstn nf fin) ++ fptrs (firstn nf fout) ++ [co; rp; fr] ++ subs ++ [q; dq; dqt; c])
  end.
Fixpoint each (d : heap -> ptr -> res heap) (h : heap) (l : list ptr) : res heap :=
  match l with [] => Ok h | p :: l => h <~ d h p ;; each d h l end.
(** CeedVectorDestroy (ceed-vector.c:1106-1119), CeedElemRestrictionDestroy (ceed-elemrestriction.c:1772-1788), CeedBasisDestroy
    (ceed-basis.c:2355-2375), CeedTensorContractDestroy (ceed-tensor.c:218-229), CeedQFunctionContextDestroy
    (ceed-qfunctioncontext.c:930-948), CeedQFunctionDestroy (ceed-qfunction.c:1069-1099), CeedOperatorDestroy
    (ceed-operator.c:2274-2346), CeedDestroy (ceed.c:1445-1490).  The fuel is the depth of the C stack. *)
Fixpoint destroy (fuel : nat) (h : heap) (p : ptr) : res heap :=
  match fuel with
  | O => UB
  | S f =>
    match p with
    | PNull | PStatic => Ok h
    | PObj n =>
      o <~ geto h n ;;
      let h := upd h n (mkObj (o_ref o - 1) false (o_body o)) in
      if (0 <? o_ref o - 1)%Z then Ok h
      else
        l <~ released (o_body o) ;;
        h <~ each (destroy f) h l ;;
        o <~ geto h n ;;
        Ok (upd h n (mkObj (o_ref o) true (o_body o)))
    end
  end.
Definition destroy_ (h : heap) (p : ptr) : res heap := destroy (S (length h)) h p.

(** ** Pointers inside objects *)
Inductive slot := SDeleg | SFall | SBase | SCeed | SContract | SVch | SBch | SCtx | SQf | SDqf | SDqfT | SCoords | SRpts | SFirst.
Definition sget (b : body) (s : slot) : option ptr :=
  match b, s with
  | BCeed _ d _ _ _, SDeleg => Some d
  | BCeed _ _ _ f _, SFall => Some f
  | BVec c, SCeed => Some c
  | BRstr _ x _, SBase => Some x
  | BRstr _ _ c, SCeed => Some c
  | BContract c, SCeed => Some c
  | BBasis _ k _ _ _, SContract => Some k
  | BBasis _ _ v _ _, SVch => Some v
  | BBasis _ _ _ x _, SBch => Some x
  | BBasis _ _ _ _ c, SCeed => Some c
  | BCtx c, SCeed => Some c
  | BQf x _, SCtx => Some x
  | BQf _ c, SCeed => Some c
  | BOp _ _ _ _ _ _ co rp fr _ q dq dqt c, s =>
    match s with SCoords => Some co | SRpts => Some rp | SFirst => Some fr | SQf => Some q | SDqf => Some dq | SDqfT => Some dqt | SCeed => Some c | _ => None end
  | _, _ => None
  end.
Definition sput (s : slot) (p : ptr) (b : body) : body :=
  match b, s with
  | BCeed i d od f pa, SDeleg => BCeed i p od f pa
  | BCeed i d od f pa, SFall => BCeed i d od p pa
  | BVec c, SCeed => BVec p
  | BRstr t x c, SBase => BRstr t p c
  | BRstr t x c, SCeed => BRstr t x p
  | BContract c, SCeed => BContract p
  | BBasis t k v x c, SContract => BBasis t p v x c
  | BBasis t k v x c, SVch => BBasis t k p x c
  | BBasis t k v x c, SBch => BBasis t k v p c
  | BBasis t k v x c, SCeed => BBasis t k v x p
  | BCtx c, SCeed => BCtx p
  | BQf x c, SCtx => BQf p c
  | BQf x c, SCeed => BQf x p
  | BOp cm at_ fi fo lo nf co rp fr su q dq dqt c, s =>
    match s with
    | SCoords => BOp cm at_ fi fo lo nf p rp fr su q dq dqt c
    | SRpts => BOp cm at_ fi fo lo nf co p fr su q dq dqt c
    | SFirst => BOp cm at_ fi fo lo nf co rp p su q dq dqt c
    | SQf => BOp cm at_ fi fo lo nf co rp fr su p dq dqt c
    | SDqf => BOp cm at_ fi fo lo nf co rp fr su q p dqt c
    | SDqfT => BOp cm at_ fi fo lo nf co rp fr su q dq p c
    | SCeed => BOp cm at_ fi fo lo nf co rp fr su q dq dqt p
    | _ => b
    end
  | b, _ => b
  end.
Definition read (h : heap) (n : nat) (s : slot) : res ptr :=
  o <~ geto h n ;; match sget (o_body o) s with Some p => Ok p | None => Err ERR_ILL end.
(** XDestroy(&object->slot).  The C code stores the NULL after the other object is gone; between the two nothing reads the
    slot, unless the destruction would come back to this object. *)
Definition slot_drop (h : heap) (n : nat) (s : slot) : res heap :=
  q <~ read h n s ;; h <~ modb h n (sput s PNull) ;; destroy_ h q.
(** XReferenceCopy(p, &object->slot) (ceed-vector.c:196-201 and siblings): reference, destroy what the slot held, store *)
Definition slot_copy (h : heap) (n : nat) (s : slot) (p : ptr) : res heap :=
  h <~ reference h p ;; h <~ slot_drop h n s ;; modb h n (sput s p).
(** object->slot = p *)
Definition slot_set (h : heap) (n : nat) (s : slot) (p : ptr) : res heap :=
  _ <~ read h n s ;; modb h n (sput s p).

(** ** Contexts *)
(** What the Init function of a backend does (e.g. backends/opt/ceed-opt-blocked.c:29-54, backends/ref/ceed-ref.c, backends/memcheck/ceed-memcheck-serial.c):
    which objects it creates itself and, in order, the contexts it makes with CeedInit and gives to
    CeedSetDelegate ([None]) or CeedSetObjectDelegate ([Some k]) *)
Inductive bk := Bk (impl : list okind) (ds : list (option okind * bk)).

Definition add_objd (k : okind) (p : ptr) (b : body) : body :=
  match b with BCeed i d od f pa => BCeed i d (od ++ [(k, p)]) f pa | b => b end.
Definition set_parent (a : nat) (b : body) : body :=
  match b with BCeed i d od f _ => BCeed i d od f (Some a) | b => b end.
(** ceed.c:559-563 CeedSetDelegate, 606-625 CeedSetObjectDelegate (the new entry of obj_delegates is NULL before the copy) *)
Definition set_delegate (h : heap) (a : nat) (k : option okind) (d : nat) : res heap :=
  h <~ match k with
       | None => slot_copy h a SDeleg (PObj d)
       | Some k => h <~ reference h (PObj d) ;; modb h a (add_objd k (PObj d))
       end ;;
  modb h d (set_parent a).
(** ceed.c:1124-1245 CeedInit: the new context (1124-1133), then the Init function of the backend *)
Fixpoint init (b : bk) (h : heap) : res (nat * heap) :=
  match b with
  | Bk impl ds =>
    let a := alloc h 1 (BCeed impl PNull [] PNull None) in
    h <~ (fix go (ds : list (option okind * bk)) (h : heap) : res heap :=
            match ds with
            | [] => Ok h
            | (k, d) :: ds =>
              x <~ init d h ;;
              h <~ set_delegate (snd x) (fst a) k (fst x) ;;
              h <~ destroy_ h (PObj (fst x)) ;;
              go ds h
            end) ds (snd a) ;;
    Ok (fst a, h)
  end.

(** ceed.c:520-528 CeedGetParent, the counted pointer it returns *)
Fixpoint parent_of (fuel : nat) (h : heap) (c : nat) : res (nat * heap) :=
  match fuel with
  | O => UB
  | S f =>
    o <~ geto h c ;;
    match o_body o with
    | BCeed _ _ _ _ (Some p) => parent_of f h p
    | BCeed _ _ _ _ None => h <~ reference h (PObj c) ;; Ok (c, h)
    | _ => Err ERR_ILL
    end
  end.
Definition get_parent (h : heap) (c : nat) : res (nat * heap) := parent_of (S (length h)) h c.

(** ceed.c:576-590 CeedGetObjectDelegate: it compares with and returns the first entry only (C25) *)
Definition delegate_for (od : list (okind * ptr)) (d : ptr) (k : okind) : ptr :=
  match od with (k0, p) :: _ => if okind_eqb k k0 then p else d | [] => d end.
(** The head of the Create functions (ceed-vector.c:162-170 and siblings): [mk] where the backend creates such objects
    itself, else through the delegate, which is counted for that time.  CeedCompositeOperatorCreate (ceed-operator.c:835-843,
    [strict = false]) goes on without a delegate. *)
Fixpoint via (fuel : nat) (strict : bool) (mk : heap -> nat -> res (nat * heap)) (k : okind) (h : heap) (c : nat) : res (nat * heap) :=
  match fuel with
  | O => UB
  | S f =>
    o <~ geto h c ;;
    match o_body o with
    | BCeed impl dl od _ _ =>
      if existsb (okind_eqb k) impl then mk h c
      else
        match delegate_for od dl k with
        | PObj d =>
          h <~ reference h (PObj d) ;;
          x <~ via f strict mk k h d ;;
          h <~ destroy_ (snd x) (PObj d) ;;
          Ok (fst x, h)
        | _ => if strict then Err ERR_UNSUPPORTED else mk h c
        end
    | _ => Err ERR_ILL
    end
  end.
Definition create (strict : bool) (mk : heap -> nat -> res (nat * heap)) (k : okind) (h : heap) (c : nat) : res (nat * heap) :=
  via (S (length h)) strict mk k h c.

(** A new struct, CeedReferenceCopy of the context into its ceed, ref_count = r (ceed-vector.c:172-174 and siblings) *)
Definition fresh (r : Z) (b : ptr -> body) (h : heap) (c : nat) : res (nat * heap) :=
  h <~ reference h (PObj c) ;; Ok (alloc h r (b (PObj c))).

Definition new_vec := create true (fresh 1 BVec) OVec.
(** ceed-elemrestriction.c:628-665 and the other Create functions *)
Definition new_rstr (points : bool) := create true (fresh 1 (BRstr points PNull)) ORstr.
Definition new_ctx := create true (fresh 1 BCtx) OCtx.
Definition new_qf := create true (fresh 1 (BQf PNull)) OQf.
(** ceed-tensor.c:32-47: ref_count is left at the 0 of CeedCalloc *)
Definition new_contract := create true (fresh 0 BContract) OContract.
(** ceed-basis.c:1456-1505 (and 1595-1780 for the others), then backends/ref/ceed-ref-basis.c:277-318 (320-383) with
    CeedBasisSetTensorContract (ceed-basis.c:1043-1047) *)
Definition make_basis (tensor : bool) (h : heap) (c : nat) : res (nat * heap) :=
  x <~ fresh 1 (BBasis tensor PNull PNull PNull) h c ;;
  h <~ reference (snd x) (PObj c) ;;
  p <~ get_parent h c ;;
  k <~ new_contract (snd p) (fst p) ;;
  h <~ slot_set (snd k) (fst x) SContract (PObj (fst k)) ;;
  h <~ reference h (PObj (fst k)) ;;
  h <~ destroy_ h (PObj c) ;;
  h <~ destroy_ h (PObj (fst p)) ;;
  Ok (fst x, h).
Definition new_basis (tensor : bool) := create true (make_basis tensor) OBasis.
(** ceed-elemrestriction.c:1184-1203 (1216-1235): memcpy of the whole struct, new ceed, reference copy into rstr_base *)
Definition copy_rstr (h : heap) (r : nat) : res (nat * heap) :=
  o <~ geto h r ;;
  match o_body o with
  | BRstr points base (PObj c) =>
    let x := alloc h 1 (BRstr points base PNull) in
    h <~ slot_copy (snd x) (fst x) SCeed (PObj c) ;;
    h <~ slot_copy h (fst x) SBase (PObj r) ;;
    Ok (fst x, h)
  | _ => Err ERR_ILL
  end.
(** ceed-basis.c:471-494, the part of CeedBasisApplyAtPoints that creates objects.  The test is on basis_chebyshev alone;
    vec_chebyshev is set nowhere else, so that the two are NULL together.  (494-510 is for backends that give the basis no
    tensor contraction object.) *)
Definition chebyshev (h : heap) (b : nat) : res heap :=
  o <~ geto h b ;;
  match o_body o with
  | BBasis true _ PNull PNull (PObj c) =>
    h <~ reference h (PObj c) ;;
    v <~ new_vec h c ;;
    h <~ slot_set (snd v) b SVch (PObj (fst v)) ;;
    x <~ new_basis true h c ;;
    h <~ slot_set (snd x) b SBch (PObj (fst x)) ;;
    destroy_ h (PObj c)
  | BBasis true _ _ _ _ => Ok h
  | BBasis false _ _ _ _ => Err ERR_UNSUPPORTED
  | _ => Err ERR_ILL
  end.

(** ** Operators *)
Definition FIELD_MAX : nat := 16.
Definition op_body (comp atp : bool) (c : ptr) : body :=
  let arr := if comp then [] else repeat None FIELD_MAX in
  BOp comp atp arr arr [] 0 PNull PNull PNull [] PNull PNull PNull c.
Definition copy_opt (h : heap) (n : nat) (s : slot) (p : option nat) : res heap :=
  match p with Some p => slot_copy h n s (PObj p) | None => Ok h end.
(** ceed-operator.c:753-778 CeedOperatorCreate, 796-822 CeedOperatorCreateAtPoints; the backend's OperatorCreate touches no counts *)
Definition make_op (atp : bool) (q : nat) (dq dqt : option nat) (h : heap) (c : nat) : res (nat * heap) :=
  x <~ fresh 1 (op_body false atp) h c ;;
  h <~ slot_copy (snd x) (fst x) SQf (PObj q) ;;
  h <~ copy_opt h (fst x) SDqf dq ;;
  h <~ copy_opt h (fst x) SDqfT dqt ;;
  Ok (fst x, h).
Definition new_op (atp : bool) (q : nat) (dq dqt : option nat) := create true (make_op atp q dq dqt) OOper.
(** ceed-operator.c:834-858 *)
Definition new_comp := create false (fresh 1 (op_body true false)) OOper.

Definition put_field (inp : bool) (i : nat) (f : opfield) (b : body) : body :=
  match b with
  | BOp cm at_ fi fo lo nf co rp fr su q dq dqt c =>
    let old := nth i (if inp then fi else fo) None in
    let lo := match old with Some x => x :: lo | None => lo end in
    BOp cm at_ (if inp then upd fi i (Some f) else fi) (if inp then fo else upd fo i (Some f)) lo (S nf) co rp fr su q dq dqt c
  | b => b
  end.
Definition is_points (h : heap) (p : ptr) : bool :=
  match p with PObj r => match nth_error h r with Some o => match o_body o with BRstr t _ _ => t | _ => false end | None => false end | _ => false end.
(** ceed-operator.c:903-1007 CeedOperatorSetField for the QFunction field number [i] on the input or output side: the
    reference of first_points_rstr (930-938), the new field struct (972), its three pointers (988-999), num_fields (1004) *)
Definition set_field (h : heap) (n : nat) (inp : bool) (i : nat) (r b v : ptr) : res heap :=
  o <~ geto h n ;;
  match o_body o with
  | BOp false atp _ _ _ _ _ _ fr _ _ _ _ _ =>
    if FIELD_MAX <=? i then Err ERR_INCOMPLETE
    else if is_points h r && negb atp then Err ERR_UNSUPPORTED
    else
      h <~ match is_points h r, fr with true, PNull => slot_copy h n SFirst r | _, _ => Ok h end ;;
      h <~ reference h v ;;
      h <~ reference h r ;;
      h <~ reference h b ;;
      modb h n (put_field inp i (OF r b v))
  | _ => Err ERR_INCOMPATIBLE
  end.
(** ceed-operator.c:1054-1075 CeedOperatorAtPointsSetPoints *)
Definition set_points (h : heap) (n : nat) (r v : ptr) : res heap :=
  o <~ geto h n ;;
  match o_body o with
  | BOp _ true _ _ _ _ _ _ fr _ _ _ _ _ =>
    h <~ match fr with PNull => slot_copy h n SFirst r | _ => Ok h end ;;
    h <~ slot_copy h n SRpts r ;;
    slot_copy h n SCoords v
  | _ => Err ERR_MINOR
  end.
Definition put_sub (p : ptr) (b : body) : body :=
  match b with
  | BOp cm at_ fi fo lo nf co rp fr su q dq dqt c => BOp cm at_ fi fo lo nf co rp fr (su ++ [p]) q dq dqt c
  | b => b
  end.
(** ceed-operator.c:1266-1294 CeedCompositeOperatorAddSub: stored without a reference, then referenced *)
Definition add_subop (h : heap) (n s : nat) : res heap :=
  o <~ geto h n ;;
  match o_body o with
  | BOp true _ _ _ _ _ _ _ _ su _ _ _ _ =>
    if FIELD_MAX <=? length su then Err ERR_UNSUPPORTED
    else h <~ modb h n (put_sub (PObj s)) ;; reference h (PObj s)
  | _ => Err ERR_MINOR
  end.
(** ceed-qfunction.c:934-939 CeedQFunctionSetContext: destroy the old one, store, reference *)
Definition set_ctx (h : heap) (n : nat) (x : ptr) : res heap :=
  h <~ slot_drop h n SCtx ;;
  h <~ slot_set h n SCtx x ;;
  match x with PNull => Ok h | _ => reference h x end.
(** ceed-vector.c:754-767 (also 825-838 AXPBY, 890-907 PointwiseMult): the contexts of the two vectors are compared *)
Definition same_ceed (h : heap) (y x : nat) : res heap :=
  cy <~ read h y SCeed ;;
  cx <~ read h x SCeed ;;
  match cx, cy with
  | PObj nx, PObj ny =>
    h <~ reference h cy ;;
    h <~ reference h cx ;;
    px <~ get_parent h nx ;;
    py <~ get_parent (snd px) ny ;;
    h <~ destroy_ (snd py) cx ;;
    h <~ destroy_ h cy ;;
    if Nat.eqb (fst px) (fst py) then
      h <~ destroy_ h (PObj (fst px)) ;;
      destroy_ h (PObj (fst py))
    else Err ERR_INCOMPATIBLE
  | _, _ => Err ERR_ILL
  end.

(** ** Histories of API calls *)
(** The pointers that a Get function hands out: CeedXGetCeed, CeedQFunctionGetContext, CeedOperatorGetQFunction,
    CeedOperatorFieldGetVector, ...GetBasis, ...GetElemRestriction, CeedOperatorAtPointsGetPoints, CeedGetDelegate *)
Definition visible (b : body) : list ptr :=
  match b with
  | BCeed _ d od fb _ => d :: map snd od ++ [fb]
  | BVec c => [c]
  | BRstr _ _ c => [c]
  | BContract c => [c]
  | BBasis _ k _ _ c => [k; c]
  | BCtx c => [c]
  | BQf x c => [x; c]
  | BOp _ _ fi fo _ _ co rp fr su q dq dqt c => fptrs fi ++ fptrs fo ++ [co; rp; fr] ++ su ++ [q; dq; dqt; c]
  end.
Record rworld := RW { rw_heap : heap; rw_h : list ptr }.
(** Variables of the user's program are numbers; [dst] of a creating call must be NULL (otherwise the program itself
    loses a reference) *)
Inductive rcmd :=
| RInit (b : bk) (dst : nat)
| RFallback (c : nat) (b : bk) (dst : nat)
| RStatic (dst : nat)
| RVec (c dst : nat)
| RRstr (points : bool) (c dst : nat)
| RRstrCopy (r dst : nat)
| RCtx (c dst : nat)
| RQf (c dst : nat)
| RBasis (tensor : bool) (c dst : nat)
| RContract (c dst : nat)
| ROp (atp : bool) (c q : nat) (dq dqt : option nat) (dst : nat)
| RComp (c dst : nat)
| RField (op : nat) (inp : bool) (i r b v : nat)
| RPoints (op r v : nat)
| RAddSub (op sub : nat)
| RSetCtx (q : nat) (x : option nat)
| RAtPoints (b : nat)
| RGet (x i dst : nat)
| RCopy (src dst : nat)
| RDestroy (x : nat)
| RAxpy (y x : nat).

Definition hval (w : rworld) (x : nat) : res ptr := match nth_error (rw_h w) x with Some p => Ok p | None => Err ERR_ILL end.
(** the variable holds an object of this type *)
Definition hobj (w : rworld) (k : okind) (x : nat) : res nat :=
  p <~ hval w x ;;
  match p with
  | PObj n => match nth_error (rw_heap w) n with Some o => if okind_eqb k (kindof (o_body o)) then Ok n else Err ERR_ILL | None => Err ERR_ILL end
  | _ => Err ERR_ILL
  end.
(** ... or one of the static objects *)
Definition harg (w : rworld) (k : okind) (x : nat) : res ptr :=
  p <~ hval w x ;; match p with PStatic => Ok PStatic | _ => n <~ hobj w k x ;; Ok (PObj n) end.
Definition hopt (w : rworld) (k : okind) (x : option nat) : res (option nat) :=
  match x with None => Ok None | Some x => n <~ hobj w k x ;; Ok (Some n) end.
Definition store (w : rworld) (h : heap) (dst : nat) (p : ptr) : res rworld :=
  q <~ hval w dst ;; match q with PNull => Ok (RW h (upd (rw_h w) dst p)) | _ => Err ERR_ILL end.
Definition put_new (w : rworld) (dst : nat) (m : res (nat * heap)) : res rworld :=
  q <~ hval w dst ;;
  match q with PNull => x <~ m ;; store w (snd x) dst (PObj (fst x)) | _ => Err ERR_ILL end.
Definition keep (w : rworld) (m : res heap) : res rworld := h <~ m ;; Ok (RW h (rw_h w)).

Definition rstep (w : rworld) (c : rcmd) : res rworld :=
  let h := rw_heap w in
  match c with
  | RInit b dst => put_new w dst (init b h)
  | RFallback c b dst =>
    (* ceed.c:651-691 CeedGetOperatorFallbackCeed of a context with a valid fallback resource *)
    n <~ hobj w OCeed c ;;
    f <~ read h n SFall ;;
    h <~ match f with PNull => x <~ init b h ;; slot_set (snd x) n SFall (PObj (fst x)) | _ => Ok h end ;;
    f <~ read h n SFall ;;
    h <~ reference h f ;;
    store w h dst f
  | RStatic dst => store w h dst PStatic
  | RVec c dst => n <~ hobj w OCeed c ;; put_new w dst (new_vec h n)
  | RRstr t c dst => n <~ hobj w OCeed c ;; put_new w dst (new_rstr t h n)
  | RRstrCopy r dst => n <~ hobj w ORstr r ;; put_new w dst (copy_rstr h n)
  | RCtx c dst => n <~ hobj w OCeed c ;; put_new w dst (new_ctx h n)
  | RQf c dst => n <~ hobj w OCeed c ;; put_new w dst (new_qf h n)
  | RBasis t c dst => n <~ hobj w OCeed c ;; put_new w dst (new_basis t h n)
  | RContract c dst => n <~ hobj w OCeed c ;; put_new w dst (new_contract h n)
  | ROp atp c q dq dqt dst =>
    n <~ hobj w OCeed c ;; q <~ hobj w OQf q ;; dq <~ hopt w OQf dq ;; dqt <~ hopt w OQf dqt ;;
    put_new w dst (new_op atp q dq dqt h n)
  | RComp c dst => n <~ hobj w OCeed c ;; put_new w dst (new_comp h n)
  | RField op inp i r b v =>
    n <~ hobj w OOper op ;; r <~ harg w ORstr r ;; b <~ harg w OBasis b ;; v <~ harg w OVec v ;;
    keep w (set_field h n inp i r b v)
  | RPoints op r v => n <~ hobj w OOper op ;; r <~ hobj w ORstr r ;; v <~ hobj w OVec v ;; keep w (set_points h n (PObj r) (PObj v))
  | RAddSub op sub => n <~ hobj w OOper op ;; s <~ hobj w OOper sub ;; keep w (add_subop h n s)
  | RSetCtx q x =>
    n <~ hobj w OQf q ;; x <~ hopt w OCtx x ;; keep w (set_ctx h n match x with Some x => PObj x | None => PNull end)
  | RAtPoints b => n <~ hobj w OBasis b ;; keep w (chebyshev h n)
  | RGet x i dst =>
    p <~ hval w x ;;
    match p with
    | PObj n =>
      o <~ geto h n ;;
      match nth_error (visible (o_body o)) i with
      | Some PNull => store w h dst PNull
      | Some p => h <~ reference h p ;; store w h dst p
      | None => Err ERR_ILL
      end
    | _ => Err ERR_ILL
    end
  | RCopy src dst =>
    p <~ hval w src ;; q <~ hval w dst ;;
    match p with PNull => Err ERR_ILL | _ => h <~ reference h p ;; h <~ destroy_ h q ;; Ok (RW h (upd (rw_h w) dst p)) end
  | RDestroy x => p <~ hval w x ;; h <~ destroy_ h p ;; Ok (RW h (upd (rw_h w) x PNull))
  | RAxpy y x =>
    a <~ hobj w OVec y ;; b <~ hobj w OVec x ;;
    if Nat.eqb a b then Err ERR_UNSUPPORTED else keep w (same_ceed h a b)
  end.
Fixpoint rrun (w : rworld) (l : list rcmd) : res rworld :=
  match l with [] => Ok w | c :: l => w <~ rstep w c ;; rrun w l end.
(** [nh] variables, all NULL *)
Definition rw0 (nh : nat) : rworld := RW [] (repeat PNull nh).
