(** * Specification of the diagonal of operators at points *)
From Coq Require Import List ZArith Lia Bool Arith.
From Verif Require Import Prelude RstrModel RstrSpec RstrPoints TensorModel BasisModel PointsModel PointsProofs PointsProps OpModel OpSpec AtpModel AtpSpec AsmSpec AtqModel AtqSpec AtdModel.
Import ListNotations.
Set Implicit Arguments.

Section Spec.
Variable R : Rng.
Local Open Scope nat_scope.
Variable D : nat -> pdesc.
Variable CB : nat -> tbasis R.
Variable a : atop R.
Notation o := (a_op a).
Notation fi := (fld (o_in o)).
Notation fo := (fld (o_out o)).

(** the vectors of a diagonal assembly into vector [av], with [sv] for the vector the code creates: all active fields have the same
    L-vector size as [av]; the passive outputs (which are written!) have data; none of the vectors that are written holds the coordinates *)
Definition diag_vec_ok (vm : vmem R) (sv av : nat) (N : nat) : Prop :=
  (exists f, In f (o_in o) /\ is_active f = true) /\ (exists f, In f (o_out o) /\ is_active f = true) /\
  (forall f, In f (o_in o ++ o_out o) -> is_active f = true -> p_ls (pd R D f) = N) /\
  (forall f, In f (o_in o ++ o_out o) -> f_vec f <> VPas sv) /\ sv <> av /\ sv <> a_xvec a /\ av <> a_xvec a /\
  (exists y, vv_data (vm av) = Some y /\ length y = N) /\
  forall j, j < length (o_out o) -> is_active (fo j) = false -> at_has R D vm (fo j) None true /\ f_vec (fo j) <> VPas av /\ f_vec (fo j) <> VPas (a_xvec a).

(** the passive outputs *)
Definition pas_out (v : nat) : bool := existsb (fun f => vref_eqb (f_vec f) (VPas v)) (o_out o).

(** ** Restrictions for which the result is the diagonal *)
(** place in the L-vector of component [c] of node or point [n] of element [e] *)
Definition pidx (d : pdesc) (e c n : nat) : nat :=
  match d with PStd d => Z.to_nat (col d e c n) | PPts _ _ nc _ offs => p_idx offs e n * nc + c end.
(** no orientations, no transformation of an element *)
Definition plain (d : pdesc) : Prop := match d with PStd d => match u_kind d with UStandard _ | UStrided _ _ _ => True | _ => False end | PPts _ _ _ _ _ => True end.
Definition p_distinct (d : pdesc) : Prop := forall e c n c' n', e < o_ne o -> c < p_nc d -> c' < p_nc d -> n < p_cnt d e -> n' < p_cnt d e ->
  pidx d e c n = pidx d e c' n' -> c = c' /\ n = n'.
(** the test of the code that input [f] and output [g] belong together *)
Definition d_match (f g : ofield R) (e : nat) : bool :=
  negb (is_pts (pd R D f) && negb (is_pts (pd R D g))) && (p_cnt (pd R D f) e * p_nc (pd R D f) =? p_nc (pd R D g) * p_cnt (pd R D g) e).
(** an active input and an active output have the same restriction, or different sizes on the element and no place in common *)
Definition paired (f g : ofield R) : Prop := pd R D f = pd R D g \/
  forall e, e < o_ne o -> d_match f g e = false /\
    forall c n c' n', c < p_nc (pd R D f) -> n < p_cnt (pd R D f) e -> c' < p_nc (pd R D g) -> n' < p_cnt (pd R D g) e -> pidx (pd R D f) e c n <> pidx (pd R D g) e c' n'.
Definition diag_wf (k : kernel R) (Jmin : nat) (chk : bool) : Prop :=
  atp_wf R D CB a k Jmin chk /\ linear o /\
  (forall f, In f (o_in o ++ o_out o) -> is_active f = true -> plain (pd R D f) /\ p_distinct (pd R D f)) /\
  forall f g, In f (o_in o) -> In g (o_out o) -> is_active f = true -> is_active g = true -> paired f g.

(** the same passive inputs and coordinates *)
Definition at_same (vm vm' : vmem R) : Prop := xcont R a vm' = xcont R a vm /\
  forall i, i < length (o_in o) -> is_active (fi i) = false -> contents vm' (fi i) None = contents vm (fi i) None.
End Spec.
