(** * Specification of the assembly cache by the history of calls, newest first *)
From Coq Require Import List ZArith Lia Bool Arith.
From Verif Require Import Prelude.
Import ListNotations.

Section Spec.
Variable R : Rng.
Local Open Scope nat_scope.
(** operators and vectors are numbers; [HCall i v A]: BuildOrUpdate of operator [i] returned vector [v] with contents [A] *)
Inductive hev :=
| HReuse (i : nat) (b : bool) | HNeed (i : nat) (b : bool) | HStrip (i : nat) | HShare (f c : nat)
| HCall (i v : nat) (A : list R) | HWrite (v : nat) (x : list R) | HApply (i : nat) | HOther.
(** name of operator [i] before [c] was made to share the data of [f] *)
Definition src (f c i : nat) : nat := if i =? c then f else i.

(** [i] and [j] share assembly data *)
Fixpoint shares (h : list hev) (i j : nat) : bool :=
  match h with
  | [] => i =? j
  | HShare f c :: h => shares h (src f c i) (src f c j)
  | HStrip a :: h => (i =? j) || (negb (i =? a) && negb (j =? a) && shares h i j)
  | _ :: h => shares h i j
  end.
(** reuse as last set *)
Fixpoint reuse (h : list hev) (i : nat) : bool :=
  match h with
  | [] => false
  | HReuse j b :: h => if shares h i j then b else reuse h i
  | HStrip j :: h => if i =? j then false else reuse h i
  | HShare f c :: h => reuse h (src f c i)
  | _ :: h => reuse h i
  end.
(** an update was requested (SetReuse requests one) and neither withdrawn nor done *)
Fixpoint need (h : list hev) (i : nat) : bool :=
  match h with
  | [] => false
  | HReuse j b :: h => if shares h i j then true else need h i
  | HNeed j b :: h => if shares h i j then b else need h i
  | HCall j _ _ :: h => if shares h i j then false else need h i
  | HStrip j :: h => if i =? j then false else need h i
  | HShare f c :: h => need h (src f c i)
  | _ :: h => need h i
  end.
(** the vector last returned and its contents *)
Fixpoint last (h : list hev) (i : nat) : option (nat * list R) :=
  match h with
  | [] => None
  | HCall j v A :: h => if shares h i j then Some (v, A) else last h i
  | HWrite v x :: h => match last h i with Some (w, A) => Some (w, if w =? v then x else A) | None => None end
  | HStrip j :: h => if i =? j then None else last h i
  | HShare f c :: h => last h (src f c i)
  | _ :: h => last h i
  end.
(** what the next call may return without assembling *)
Definition kept (h : list hev) (i : nat) : option (nat * list R) := if reuse h i && negb (need h i) then last h i else None.
(** operator [i] assembled before; it was not applied since its first assembly, or assembled again since *)
Fixpoint assembled (h : list hev) (i : nat) : bool :=
  match h with
  | [] => false
  | HCall j _ _ :: h => ((i =? j) && match kept h i with None => true | _ => false end) || assembled h i
  | _ :: h => assembled h i
  end.
Fixpoint clean (h : list hev) (i : nat) : bool :=
  match h with
  | [] => true
  | HCall j _ _ :: h => ((i =? j) && match kept h i with None => true | _ => false end) || clean h i
  | HApply j :: h => if i =? j then negb (assembled h i) else clean h i
  | _ :: h => clean h i
  end.
End Spec.
Arguments HReuse {R}. Arguments HNeed {R}. Arguments HStrip {R}. Arguments HShare {R}. Arguments HCall {R}. Arguments HWrite {R}. Arguments HApply {R}. Arguments HOther {R}.
Arguments shares {R}. Arguments reuse {R}. Arguments need {R}. Arguments last {R}. Arguments kept {R}. Arguments assembled {R}. Arguments clean {R}.
