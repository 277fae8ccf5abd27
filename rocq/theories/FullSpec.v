(** * Specification of full assembly: a matrix in coordinate format *)
From Coq Require Import List ZArith Lia Bool Arith.
From Verif Require Import Prelude RstrModel RstrSpec TensorModel BasisModel OpModel OpSpec.
Import ListNotations.

Section Spec.
Variable R : Rng.
Local Open Scope nat_scope.
(** entry [q] of the product of the matrix given by (row, column) pairs and values with the vector [x] *)
Definition coo (rc : list (Z * Z)) (vals x : list R) (q : nat) : R :=
  sumn (length rc) (fun n => delta (fst (nth n rc (0, 0)%Z) =? Z.of_nat q)%Z (vf vals n * vf x (Z.to_nat (snd (nth n rc (0, 0)%Z))))%R).

(** the active fields of one side have one restriction [i] and one basis [b] (the same object; [ptr]: pointers of the bases), and
    at most one field for every evaluation mode that has several components per point *)
Record one_side (D : nat -> udesc) (Q : nat) (ptr : nat -> nat) (fs : list (ofield R)) (i : nat) (b : option (basis R)) : Prop := {
  os_some : exists j, j < length fs /\ is_active (fld fs j) = true;
  os_rstr : forall j, j < length fs -> is_active (fld fs j) = true -> f_rstr (fld fs j) = Some i /\ f_basis (fld fs j) = b;
  os_ptr : forall j j', j < length fs -> j' < length fs -> is_active (fld fs j) = true -> is_active (fld fs j') = true -> ptr j = ptr j';
  os_qpts : match b with Some b => b_qpts b | None => u_es (D i) end = Q;
  os_twice : forall j j', j < j' -> j' < length fs -> is_active (fld fs j) = true -> is_active (fld fs j') = true ->
    f_mode (fld fs j) = f_mode (fld fs j') -> f_size (fld fs j) <= u_nc (D i)
}.
End Spec.
Arguments coo {R}.
Arguments one_side {R}. Arguments os_some {R D Q ptr fs i b}. Arguments os_rstr {R D Q ptr fs i b}. Arguments os_ptr {R D Q ptr fs i b}.
Arguments os_qpts {R D Q ptr fs i b}. Arguments os_twice {R D Q ptr fs i b}.
