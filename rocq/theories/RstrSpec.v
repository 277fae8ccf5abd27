(** * Specification of element restrictions

    Independent of the kernels: a restriction is described by what the user passed at creation
    ([udesc]).  [col] is the documented L-vector index of (node, component, element);
    [coef] the element-local transformation (identity, sign, or tridiagonal); [Eval] the value of the
    gather, [Lval] the value added by the transpose; [epos] the E-vector position for a block size. *)
From Coq Require Import List ZArith Lia Bool Arith.
From Verif Require Import Prelude RstrModel.
Import ListNotations.
Set Implicit Arguments.

Section Spec.
Variable R : Rng.
Local Open Scope nat_scope.

(** L-vector index of node [m], component [k], element [el]
    (documentation of CeedElemRestrictionCreate, "offsets[i + k*elem_size] + j*comp_stride",
     and of CreateStrided, "i*strides[0] + j*strides[1] + k*strides[2]"). *)
Definition col (d : udesc) (el k m : nat) : Z :=
  match u_kind d with
  | UStrided s0 s1 s2 =>
      if backend_strides s0 s1 s2
      then Z.of_nat (m + k * u_es d + el * (u_es d * u_nc d))
      else (Z.of_nat m * s0 + Z.of_nat k * s1 + Z.of_nat el * s2)%Z
  | UStandard o | UOriented o _ | UCurl o _ =>
      (nth (el * u_es d + m) o 0 + Z.of_nat k * u_cs d)%Z
  end.

(** Entry (n, m) of the element matrix that maps the gathered nodes to the element's values. *)
Definition coef (w : variant) (d : udesc) (el n m : nat) : R :=
  match u_kind d with
  | UStrided _ _ _ | UStandard _ => delta (n =? m) 1%R
  | UOriented _ ors =>
      delta (n =? m) (if v_signs w && nth (el * u_es d + n) ors false then (- (1))%R else 1%R)
  | UCurl _ co =>
      if v_orients w then
        let a c := let z := nth (el * (3 * u_es d) + (3 * n + c)) co 0%Z in
                   zr R (if v_signs w then z else Z.abs z) in
        if m + 1 =? n then a 0 else if m =? n then a 1 else if m =? n + 1 then a 2 else 0%R
      else delta (n =? m) 1%R
  end.

(** Value of node [n], component [k], element [el] of the gathered vector. *)
Definition Eval (w : variant) (d : udesc) (u : list R) (el k n : nat) : R :=
  sumn (u_es d) (fun m => (coef w d el n m * vf u (Z.to_nat (col d el k m)))%R).

(** What the transpose adds to L-vector entry [q], for element values [E el k n]. *)
Definition Lval (w : variant) (d : udesc) (E : nat -> nat -> nat -> R) (q : nat) : R :=
  sumn (u_ne d) (fun el => sumn (u_nc d) (fun k => sumn (u_es d) (fun n => sumn (u_es d) (fun m =>
    delta (Z.of_nat q =? col d el k m)%Z (coef w d el n m * E el k n)%R)))).

(** E-vector position of (node n, component k, element el): elements of one block are interlaced. *)
Definition epos (d : udesc) (bs el k n : nat) : nat :=
  (el / bs) * (bs * u_es d * u_nc d) + (k * u_es d + n) * bs + el mod bs.

(** Arrays have the documented length. *)
Definition lengths_ok (d : udesc) : Prop :=
  match u_kind d with
  | UStrided _ _ _ => True
  | UStandard o => length o = u_ne d * u_es d
  | UOriented o s => length o = u_ne d * u_es d /\ length s = u_ne d * u_es d
  | UCurl o c => length o = u_ne d * u_es d /\ length c = u_ne d * (3 * u_es d)
  end.

(** Every addressed L-vector entry exists. *)
Definition in_range (d : udesc) : Prop :=
  forall el k m, el < u_ne d -> k < u_nc d -> m < u_es d ->
    (0 <= col d el k m < Z.of_nat (u_lsize d))%Z.

(** The tridiagonal kernels need at least two nodes per element. *)
Definition curl_ok (w : variant) (d : udesc) : Prop :=
  match u_kind d with UCurl _ _ => v_orients w = true -> 2 <= u_es d | _ => True end.
End Spec.
Arguments Eval {R} _ _ _ _ _ _.
Arguments Lval {R} _ _ _ _.
