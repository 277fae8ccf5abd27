(** * Specification of QFunction assembly at points: the matrix of the QFunction at each point *)
From Coq Require Import List ZArith Lia Bool Arith.
From Verif Require Import Prelude RstrModel TensorModel BasisModel OpModel OpSpec AtpModel AtpSpec AsmSpec AtqModel.
Import ListNotations.
Set Implicit Arguments.

Section Spec.
Variable R : Rng.
Local Open Scope nat_scope.
Variable D : nat -> pdesc.
Variable CB : nat -> tbasis R.
Variable a : atop R.
Notation o := (a_op a).
Notation npt := (pts R D a).

(** values of the passive inputs at point [p] of element [e] *)
Definition at_pas_val (vm : vmem R) (e p : nat) : nat -> nat -> R :=
  fun j c => at_in_val R D CB a (fld (o_in o) j) (nth j (a_bin a) 0) (xcont R a vm) (contents vm (fld (o_in o) j) None) e c p.
(** entry (input component [ca], output component [cb]) at point [p] of element [e] *)
Definition at_entry (vm : vmem R) (e ca cb p : nat) : R :=
  let jc := nth cb (comps (o_out o)) (0, 0) in
  qf_at o (fill o (at_pas_val vm e p) (@AsmSpec.unit R (nth ca (comps (o_in o)) (0, 0)))) (fst jc) (snd jc).
(** points of the elements before [e] *)
Definition before (e : nat) : nat := list_sum (map npt (seq 0 e)).
(** layout: elements one after the other, in each [input component, output component, point] *)
Definition at_assembled (vm : vmem R) (A : list R) : Prop :=
  let ni := length (comps (o_in o)) in let no := length (comps (o_out o)) in
  length A = ni * no * before (o_ne o) /\
  forall e ca cb p, e < o_ne o -> ca < ni -> cb < no -> p < npt e -> vf A (ni * no * before e + ((ca * no + cb) * npt e + p)) = at_entry vm e ca cb p.

(** the operators the theorems are about: some active inputs and outputs, none of them on points (the code refuses those) *)
Definition atq_wf (k : kernel R) (Jmin : nat) (chk : bool) : Prop :=
  atp_wf R D CB a k Jmin chk /\ 0 < length (comps (o_in o)) /\ 0 < length (comps (o_out o)) /\
  forall f, In f (o_in o ++ o_out o) -> is_active f = true -> is_pts (pd R D f) = false.
(** the first assembly zeroes the Q-vector of the *input* with the number of each active output: it must exist, and its
    values must not be needed (finding) *)
Definition first_ok (st : qimpl R) : Prop := q_no st = 0 -> forall j, j < length (o_out o) -> is_active (fld (o_out o) j) = true ->
  j < length (o_in o) /\ f_mode (fld (o_in o) j) <> EvWeight /\ (q_run st = true -> f_mode (fld (o_in o) j) <> EvNone).
(** passive inputs and coordinates have data *)
Definition at_passive_ok (vm : vmem R) : Prop :=
  (forall i, i < length (o_in o) -> f_mode (fld (o_in o) i) <> EvWeight -> is_active (fld (o_in o) i) = false -> at_has R D vm (fld (o_in o) i) None false) /\
  exists x, vv_data (vm (a_xvec a)) = Some x /\ p_ls (D (a_rpts a)) <= length x.
End Spec.
