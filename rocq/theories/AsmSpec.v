(** * Specification of QFunction assembly: the matrix of the QFunction at each quadrature point *)
From Coq Require Import List ZArith Lia Bool Arith.
From Verif Require Import Prelude RstrModel RstrSpec TensorModel BasisModel BasisProps OpModel OpSpec.
Import ListNotations.
Set Implicit Arguments.

Section Spec.
Variable R : Rng.
Local Open Scope nat_scope.
Variable D : nat -> udesc.
Variable o : oper R.

(** the components of the active fields, in the order of the fields *)
Definition comps_n (fs : list (ofield R)) (n : nat) : list (nat * nat) :=
  flat_map (fun j => if is_active (fld fs j) then map (pair j) (seq 0 (f_size (fld fs j))) else []) (seq 0 n).
Definition comps (fs : list (ofield R)) : list (nat * nat) := comps_n fs (length fs).
(** inputs of the QFunction at one point: [act] at the active fields, [pas] at the others *)
Definition fill (pas act : nat -> nat -> R) : list (list R) :=
  map (fun j => map (fun c => if is_active (fld (o_in o) j) then act j c else pas j c) (seq 0 (f_size (fld (o_in o) j)))) (seq 0 (length (o_in o))).
(** component [c] of output [j] *)
Definition qf_at (ins : list (list R)) (j c : nat) : R := vf (nth j (if o_ident o then [nth 0 ins []] else o_pt o ins) []) c.
(** values of the passive inputs at point [q] of element [e] *)
Definition pas_val (vm : vmem R) (e q : nat) : nat -> nat -> R :=
  fun j c => in_val D (fld (o_in o) j) (contents vm (fld (o_in o) j) None) e c q.
Definition unit (ic : nat * nat) : nat -> nat -> R := fun j c => if (j =? fst ic) && (c =? snd ic) then 1%R else 0%R.

(** the QFunction is linear in its active inputs, whatever the others are *)
Definition linear : Prop := forall pas a1 a2 t j c, j < length (o_out o) -> is_active (fld (o_out o) j) = true -> c < f_size (fld (o_out o) j) ->
  qf_at (fill pas (fun i c => (a1 i c + t * a2 i c)%R)) j c = (qf_at (fill pas a1) j c + t * qf_at (fill pas a2) j c)%R.

(** no two active inputs without basis read the same restriction *)
Definition unshared : Prop := forall i j, i < length (o_in o) -> j < length (o_in o) ->
  is_active (fld (o_in o) i) = true -> is_active (fld (o_in o) j) = true -> f_mode (fld (o_in o) i) = EvNone -> f_mode (fld (o_in o) j) = EvNone ->
  f_rstr (fld (o_in o) i) = f_rstr (fld (o_in o) j) -> i = j.

(** entry (input component [a], output component [b]) at point [q] of element [e] *)
Definition entry (vm : vmem R) (e a b q : nat) : R :=
  let jc := nth b (comps (o_out o)) (0, 0) in
  qf_at (fill (pas_val vm e q) (unit (nth a (comps (o_in o)) (0, 0)))) (fst jc) (snd jc).
(** the documented layout [element, input component, output component, point] *)
Definition is_assembled (vm : vmem R) (A : list R) : Prop :=
  let ni := length (comps (o_in o)) in let no := length (comps (o_out o)) in
  length A = o_ne o * ni * no * o_Q o /\
  forall e a b q, e < o_ne o -> a < ni -> b < no -> q < o_Q o -> vf A (((e * ni + a) * no + b) * o_Q o + q) = entry vm e a b q.
End Spec.
