(** * Who holds an object: the vocabulary of C07 *)
From Coq Require Import List ZArith Lia Bool Arith.
From Verif Require Import Prelude RstrModel OpModel RefModel.
Import ListNotations.
Set Implicit Arguments.
Local Open Scope nat_scope.

(** All pointers an object keeps *)
Definition held (b : body) : list ptr :=
  match b with
  | BCeed _ d od fb _ => d :: map snd od ++ [fb]
  | BVec c => [c]
  | BRstr _ x c => [x; c]
  | BContract c => [c]
  | BBasis _ k v x c => [k; v; x; c]
  | BCtx c => [c]
  | BQf x c => [x; c]
  | BOp _ _ fi fo lo _ co rp fr su q dq dqt c => fptrs fi ++ fptrs fo ++ fptrs (map Some lo) ++ [co; rp; fr] ++ su ++ [q; dq; dqt; c]
  end.
(** The pointers of an operator's field structs that CeedOperatorDestroy does not reach: at a position of num_fields or
    more, or overwritten *)
Definition stuck (b : body) : list ptr :=
  match b with
  | BOp _ _ fi fo lo nf _ _ _ _ _ _ _ _ => fptrs (skipn nf fi) ++ fptrs (skipn nf fo) ++ fptrs (map Some lo)
  | _ => []
  end.

(** Object [n] is in use: by a variable of the program, by an object that was not freed, or by a field struct that a freed
    operator left behind *)
Definition used_by_handle (w : rworld) (n : nat) : Prop := exists x, nth_error (rw_h w) x = Some (PObj n).
Definition used_by_object (w : rworld) (n : nat) : Prop :=
  exists m o, nth_error (rw_heap w) m = Some o /\ o_freed o = false /\ In (PObj n) (held (o_body o)).
Definition left_behind (w : rworld) (n : nat) : Prop :=
  exists m o, nth_error (rw_heap w) m = Some o /\ o_freed o = true /\ In (PObj n) (stuck (o_body o)).

(** The same as a number *)
Definition is_n (n : nat) (p : ptr) : bool := match p with PObj m => m =? n | _ => false end.
Definition cnt (n : nat) (l : list ptr) : nat := length (filter (is_n n) l).
Definition uses (w : rworld) (n : nat) : nat :=
  cnt n (rw_h w) + list_sum (map (fun o => cnt n (if o_freed o then stuck (o_body o) else held (o_body o))) (rw_heap w)).

(** No context outlived the context whose delegate it is *)
Definition parent_field (b : body) : option nat := match b with BCeed _ _ _ _ p => p | _ => None end.
Definition parents_alive (h : heap) : Prop :=
  forall n o p, nth_error h n = Some o -> o_freed o = false -> parent_field (o_body o) = Some p ->
  exists o', nth_error h p = Some o' /\ o_freed o' = false.
Definition fields_set (h : heap) (n : nat) : nat :=
  match nth_error h n with Some o => match o_body o with BOp _ _ _ _ _ nf _ _ _ _ _ _ _ _ => nf | _ => 0 end | None => 0 end.
Definition is_copy (h : heap) (n : nat) : bool :=
  match nth_error h n with Some o => match o_body o with BRstr _ (PObj _) _ => true | _ => false end | None => false end.
(** The calls for which the claim is made *)
Definition rgood (w : rworld) (c : rcmd) : Prop :=
  match c with
  | RBasis _ _ _ | RAtPoints _ | RAxpy _ _ => parents_alive (rw_heap w)
  | RField op _ _ _ _ _ => forall n, nth_error (rw_h w) op = Some (PObj n) -> fields_set (rw_heap w) n < FIELD_MAX
  | RRstrCopy r _ => forall n, nth_error (rw_h w) r = Some (PObj n) -> is_copy (rw_heap w) n = false
  | RContract _ _ => False
  | _ => True
  end.
Fixpoint good_run (w : rworld) (l : list rcmd) : Prop :=
  match l with [] => True | c :: l => rgood w c /\ forall w', rstep w c = Ok w' -> good_run w' l end.

(** [m] holds [n], both not freed *)
Definition holds_obj (w : rworld) (m n : nat) : Prop :=
  exists o, nth_error (rw_heap w) m = Some o /\ o_freed o = false /\ In (PObj n) (held (o_body o)).
Inductive reaches (w : rworld) : nat -> nat -> Prop :=
| reach_one : forall m n, holds_obj w m n -> reaches w m n
| reach_step : forall m k n, holds_obj w m k -> reaches w k n -> reaches w m n.
Definition acyclic (w : rworld) : Prop := forall n, ~ reaches w n n.
