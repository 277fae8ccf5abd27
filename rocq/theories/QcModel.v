(** * Access to context data through QFunctions and by the client

    Model of interface/ceed-qfunction.c:332-336 CeedQFunctionGetContext, 350-367 CeedQFunctionGetContextData, 379-394
    CeedQFunctionRestoreContextData, 407-422 CeedQFunctionGetInnerContext, 436-452 CeedQFunctionGetInnerContextData, 464-479
    CeedQFunctionRestoreInnerContextData, 934-939 CeedQFunctionSetContext, 960-963 CeedQFunctionSetContextWritable, 1069-1100
    CeedQFunctionDestroy, and of the counts and access locks of the contexts (interface/ceed-qfunctioncontext.c:544-547,
    567-583, 600-605, 686-776, 930-951).
    Left out: the data itself (CtxModel.v), the Ceed, Fortran QFunctions, references to QFunctions beyond one,
    the Take and Set calls and the fields of contexts (CtxModel.v), failures of the backend and of allocation. *)
From Coq Require Import List ZArith Lia Bool Arith.
From Verif Require Import Prelude RstrModel.
Import ListNotations.
Set Implicit Arguments.
Local Open Scope Z_scope.

(** ref_count, state % 2, num_readers, whether data was set.  [k_user] (handles the client still has), [k_leak] (references
    lost by calls that failed), [k_dw] and [k_dr] (accesses for writing and reading that the client has obtained from the context itself
    and not restored) are bookkeeping for the statements and are read by no function of the model. *)
Record cx := CX { k_live : bool; k_refs : Z; k_lock : bool; k_rd : Z; k_valid : bool; k_user : Z; k_leak : Z; k_dw : Z; k_dr : Z }.
Definition refs (k : cx) (n : Z) : cx := CX (k_live k) n (k_lock k) (k_rd k) (k_valid k) (k_user k) (k_leak k) (k_dw k) (k_dr k).
Definition lockd (k : cx) (b : bool) : cx := CX (k_live k) (k_refs k) b (k_rd k) (k_valid k) (k_user k) (k_leak k) (k_dw k) (k_dr k).
Definition readers (k : cx) (n : Z) : cx := CX (k_live k) (k_refs k) (k_lock k) n (k_valid k) (k_user k) (k_leak k) (k_dw k) (k_dr k).
Definition user (k : cx) (d : Z) : cx := CX (k_live k) (k_refs k) (k_lock k) (k_rd k) (k_valid k) (k_user k + d) (k_leak k) (k_dw k) (k_dr k).
Definition leak (k : cx) : cx := CX (k_live k) (k_refs k) (k_lock k) (k_rd k) (k_valid k) (k_user k) (k_leak k + 1) (k_dw k) (k_dr k).
Definition direct (w : bool) (k : cx) (d : Z) : cx :=
  CX (k_live k) (k_refs k) (k_lock k) (k_rd k) (k_valid k) (k_user k) (k_leak k) (if w then k_dw k + d else k_dw k) (if w then k_dr k else k_dr k + d).
Definition dead (k : cx) : cx := CX false (k_refs k) (k_lock k) (k_rd k) (k_valid k) (k_user k) (k_leak k) (k_dw k) (k_dr k).
(** ctx, is_context_writable; [q_held] counts the accesses obtained and not restored (bookkeeping as above) *)
Record qf := QF { q_live : bool; q_ctx : option nat; q_wr : bool; q_held : Z }.
Record st := ST { cs : list cx; qs : list qf }.

(** an error code and the new value; None: freed memory is used *)
Definition res (A : Type) := option (Z * A).

(** ceed-qfunctioncontext.c:544-547 *)
Definition c_reference (k : cx) : cx := refs k (k_refs k + 1).
(** 930-951; the readers are not looked at *)
Definition c_destroy (k : cx) : Z * cx :=
  let k1 := refs k (k_refs k - 1) in
  if 0 <? k_refs k1 then (0, k1) else if k_lock k1 then (1, k1) else (0, dead k1).
(** 686-704 and 720-737 *)
Definition c_get (w : bool) (k : cx) : Z * cx :=
  if k_lock k then (1, k) else if w && negb (k_rd k =? 0) then (1, k) else if negb (k_valid k) then (ERR_BACKEND, k)
  else (0, if w then lockd k true else readers k (k_rd k + 1)).
(** 746-752 and 765-772 *)
Definition c_restore (w : bool) (k : cx) : Z * cx :=
  if w then if k_lock k then (0, lockd k false) else (1, k)
  else if 0 <? k_rd k then (0, readers k (k_rd k - 1)) else (1, k).

(** ceed-qfunction.c:350-367 (with 332-336) and 379-394: a reference is taken, and dropped only if the access was granted *)
Definition through (acc : cx -> Z * cx) (k : cx) : Z * cx :=
  let (e, k1) := acc (c_reference k) in
  if e =? 0 then c_destroy k1 else (e, leak k1).
(** 436-452, 464-479 (with 407-422, not Fortran): the reference is dropped before the access *)
Definition through_inner (acc : cx -> Z * cx) (k : cx) : Z * cx :=
  let (e, k1) := c_destroy (c_reference k) in
  if e =? 0 then acc k1 else (e, k1).

Inductive op := CNew (valid : bool) | CDestroy (c : nat) | CGet (w : bool) (c : nat) | CRestore (w : bool) (c : nat) | QNew | QSet (q : nat) (c : option nat) | QWr (q : nat) (b : bool)
  | QGet (inner : bool) (q : nat) | QRestore (inner : bool) (q : nat) | QDestroy (q : nat).

(** a call on context [c]: a freed context is undefined *)
Definition onc (s : st) (c : nat) (f : cx -> Z * cx) : res st :=
  match nth_error (cs s) c with
  | Some k => if k_live k then let (e, k') := f k in Some (e, ST (upd (cs s) c k') (qs s)) else None
  | None => None
  end.
(** CeedQFunctionContextDestroy and the like on a pointer that may be NULL *)
Definition onp (s : st) (c : option nat) (f : cx -> Z * cx) : res st := match c with Some c => onc s c f | None => Some (0, s) end.
Definition setq (s : st) (q : nat) (x : qf) : st := ST (cs s) (upd (qs s) q x).

Definition access (s : st) (q : nat) (inner : bool) (acc : cx -> Z * cx) (d : Z) : res st :=
  match nth_error (qs s) q with
  | Some x =>
    if q_live x then
      match onp s (q_ctx x) (if inner then through_inner acc else through acc) with
      | Some (e, s1) => Some (e, if e =? 0 then setq s1 q (QF true (q_ctx x) (q_wr x) (q_held x + d)) else s1)
      | None => None
      end
    else None
  | None => None
  end.
Definition wr (s : st) (q : nat) : bool := match nth_error (qs s) q with Some x => q_wr x | None => false end.

Definition step (s : st) (o : op) : res st :=
  match o with
  (* ceed-qfunctioncontext.c:567-583 *)
  | CNew v => Some (0, ST (cs s ++ [CX true 1 false 0 v 1 0 0 0]) (qs s))
  | CDestroy c => onc s c (fun k => c_destroy (user k (-1)))
  (* ceed-qfunctioncontext.c:686-704, 720-737, 746-752, 765-772: called by the client itself *)
  | CGet w c => onc s c (fun k => let (e, k1) := c_get w k in (e, if e =? 0 then direct w k1 1 else k1))
  | CRestore w c => onc s c (fun k => let (e, k1) := c_restore w k in (e, if e =? 0 then direct w k1 (-1) else k1))
  (* ceed-qfunction.c:627-662 *)
  | QNew => Some (0, ST (cs s) (qs s ++ [QF true None true 0]))
  (* 934-939: the old context is destroyed before the new one is referenced *)
  | QSet q c =>
    match nth_error (qs s) q with
    | Some x =>
      if q_live x then
        match onp s (q_ctx x) c_destroy with
        | Some (e, s1) =>
          if e =? 0 then onp (setq s1 q (QF true c (q_wr x) (q_held x))) c (fun k => (0, c_reference k))
          else Some (e, s1)
        | None => None
        end
      else None
    | None => None
    end
  (* 960-963 *)
  | QWr q b => match nth_error (qs s) q with Some x => if q_live x then Some (0, setq s q (QF true (q_ctx x) b (q_held x))) else None | None => None end
  | QGet i q => access s q i (c_get (wr s q)) 1
  | QRestore i q => access s q i (c_restore (wr s q)) (-1)
  (* 1069-1100 *)
  | QDestroy q =>
    match nth_error (qs s) q with
    | Some x =>
      if q_live x then
        match onp s (q_ctx x) c_destroy with
        | Some (e, s1) => Some (e, if e =? 0 then setq s1 q (QF false (q_ctx x) (q_wr x) (q_held x)) else s1)
        | None => None
        end
      else None
    | None => None
    end
  end.
Definition init : st := ST [] [].
Fixpoint run (s : st) (l : list op) : option st := match l with [] => Some s | o :: l => match step s o with Some (_, s') => run s' l | None => None end end.
