(** * The gallery QFunctions: include/ceed/jit-source/gallery
    Each is a loop over the [Q] quadrature points of one call; arrays as lists, reading or writing outside is [UB], and so is
    division by zero (an infinity or NaN in C).  CEED_Q_VLA is [Q]; the inputs do not overlap the outputs. *)
From Coq Require Import List ZArith Lia Bool Arith Reals.
From Verif Require Import Prelude RstrModel BasisModel OpModel QrModel.
Import ListNotations.
Local Open Scope nat_scope.

(** a[k][c][i] of an array of rows of [n] * [Q] scalars; a[c][i] of an array of rows of [Q] scalars *)
Definition at3 (a : list real) (n Q k c i : nat) : res real := og a ((k * n + c) * Q + i).
Definition at2q (a : list real) (Q c i : nat) : res real := og a (c * Q + i).
(** a[k][c][i] = x and a[c][i] = x *)
Definition put3 (a : list real) (n Q k c i : nat) (x : real) : res (list real) := put a ((k * n + c) * Q + i) x.
Definition put2q (a : list real) (Q c i : nat) (x : real) : res (list real) := put a (c * Q + i) x.

(** ceed-identity.h:17-31 Identity; [size] is the context *)
Definition q_identity (size Q : nat) (input output : list real) : res (list real) :=
  rfold (seq 0 (Q * size)) (fun i o => x <~ og input i ;; put o i x) output.
(** ceed-scale.h:13-27 Scale *)
Definition q_scale (size Q : nat) (input scale output : list real) : res (list real) :=
  rfold (seq 0 (Q * size)) (fun i o => x <~ og input i ;; s <~ og scale i ;; put o i (x * s)%Re) output.

(** ceed-mass1dbuild.h:13-24 Mass1DBuild *)
Definition q_mass1d (Q : nat) (J w q_data : list real) : res (list real) :=
  rfold (seq 0 Q) (fun i o => j <~ og J i ;; x <~ og w i ;; put o i (j * x)%Re) q_data.
(** ceed-mass2dbuild.h:13-26 Mass2DBuild *)
Definition q_mass2d (Q : nat) (J w q_data : list real) : res (list real) :=
  rfold (seq 0 Q) (fun i o =>
    a <~ at3 J 2 Q 0 0 i ;; b <~ at3 J 2 Q 1 1 i ;; c <~ at3 J 2 Q 0 1 i ;; d <~ at3 J 2 Q 1 0 i ;; x <~ og w i ;;
    put o i ((a * b - c * d) * x)%Re) q_data.
(** ceed-mass3dbuild.h:13-28 Mass3DBuild *)
Definition q_mass3d (Q : nat) (J w q_data : list real) : res (list real) :=
  rfold (seq 0 Q) (fun i o =>
    J00 <~ at3 J 3 Q 0 0 i ;; J11 <~ at3 J 3 Q 1 1 i ;; J22 <~ at3 J 3 Q 2 2 i ;; J12 <~ at3 J 3 Q 1 2 i ;; J21 <~ at3 J 3 Q 2 1 i ;;
    J01 <~ at3 J 3 Q 0 1 i ;; J10 <~ at3 J 3 Q 1 0 i ;; J20 <~ at3 J 3 Q 2 0 i ;; J02 <~ at3 J 3 Q 0 2 i ;; x <~ og w i ;;
    put o i ((J00 * (J11 * J22 - J12 * J21) - J01 * (J10 * J22 - J12 * J20) + J02 * (J10 * J21 - J11 * J20)) * x)%Re) q_data.
(** ceed-massapply.h:13-24 MassApply; ceed-poisson1dapply.h:13-25 Poisson1DApply is the same loop *)
Definition q_mass_apply (Q : nat) (u q_data v : list real) : res (list real) :=
  rfold (seq 0 Q) (fun i o => x <~ og u i ;; q <~ og q_data i ;; put o i (x * q)%Re) v.
Definition q_poisson1d_apply := q_mass_apply.
(** ceed-vectormassapply.h:13-30 Vector3MassApply; ceed-vectorpoisson1dapply.h:13-30 Vector3Poisson1DApply is the same loop *)
Definition q_vec3mass_apply (Q : nat) (u q_data v : list real) : res (list real) :=
  rfold (seq 0 Q) (fun i o => rfold (seq 0 3) (fun c o => x <~ at2q u Q c i ;; q <~ og q_data i ;; put2q o Q c i (x * q)%Re) o) v.
Definition q_vec3poisson1d_apply := q_vec3mass_apply.

(** ceed-poisson1dbuild.h:13-28 Poisson1DBuild *)
Definition q_poisson1d (Q : nat) (J w q_data : list real) : res (list real) :=
  rfold (seq 0 Q) (fun i o => x <~ og w i ;; j <~ og J i ;; q <~ rdiv x j ;; put o i q) q_data.
(** ceed-poisson2dbuild.h:13-38 Poisson2DBuild; J10 is J[0][1] and J01 is J[1][0] *)
Definition q_poisson2d (Q : nat) (J w q_data : list real) : res (list real) :=
  rfold (seq 0 Q) (fun i o =>
    J00 <~ at3 J 2 Q 0 0 i ;; J10 <~ at3 J 2 Q 0 1 i ;; J01 <~ at3 J 2 Q 1 0 i ;; J11 <~ at3 J 2 Q 1 1 i ;;
    x <~ og w i ;; qw <~ rdiv x (J00 * J11 - J10 * J01)%Re ;;
    o <~ put2q o Q 0 i (qw * (J01 * J01 + J11 * J11))%Re ;;
    o <~ put2q o Q 1 i (qw * (J00 * J00 + J10 * J10))%Re ;;
    put2q o Q 2 i (- qw * (J00 * J01 + J10 * J11))%Re) q_data.
(** ceed-poisson3dbuild.h:27-32: A[k][j] *)
Definition adj3 (Q : nat) (J : list real) (i k j : nat) : res real :=
  a <~ at3 J 3 Q ((k + 1) mod 3) ((j + 1) mod 3) i ;; b <~ at3 J 3 Q ((k + 2) mod 3) ((j + 2) mod 3) i ;;
  c <~ at3 J 3 Q ((k + 2) mod 3) ((j + 1) mod 3) i ;; d <~ at3 J 3 Q ((k + 1) mod 3) ((j + 2) mod 3) i ;;
  Ok (a * b - c * d)%Re.
(** ceed-poisson3dbuild.h:13-51 Poisson3DBuild *)
Definition q_poisson3d (Q : nat) (J w q_data : list real) : res (list real) :=
  rfold (seq 0 Q) (fun i o =>
    A00 <~ adj3 Q J i 0 0 ;; A10 <~ adj3 Q J i 1 0 ;; A20 <~ adj3 Q J i 2 0 ;;
    A01 <~ adj3 Q J i 0 1 ;; A11 <~ adj3 Q J i 1 1 ;; A21 <~ adj3 Q J i 2 1 ;;
    A02 <~ adj3 Q J i 0 2 ;; A12 <~ adj3 Q J i 1 2 ;; A22 <~ adj3 Q J i 2 2 ;;
    x <~ og w i ;; J00 <~ at3 J 3 Q 0 0 i ;; J01 <~ at3 J 3 Q 0 1 i ;; J02 <~ at3 J 3 Q 0 2 i ;;
    qw <~ rdiv x (J00 * A00 + J01 * A01 + J02 * A02)%Re ;;
    o <~ put2q o Q 0 i (qw * (A00 * A00 + A01 * A01 + A02 * A02))%Re ;;
    o <~ put2q o Q 1 i (qw * (A10 * A10 + A11 * A11 + A12 * A12))%Re ;;
    o <~ put2q o Q 2 i (qw * (A20 * A20 + A21 * A21 + A22 * A22))%Re ;;
    o <~ put2q o Q 3 i (qw * (A10 * A20 + A11 * A21 + A12 * A22))%Re ;;
    o <~ put2q o Q 4 i (qw * (A00 * A20 + A01 * A21 + A02 * A22))%Re ;;
    put2q o Q 5 i (qw * (A00 * A10 + A01 * A11 + A02 * A12))%Re) q_data.

(** the symmetric matrix in Voigt convention: ceed-poisson2dapply.h:28-31, ceed-poisson3dapply.h:29-33 *)
Definition voigt2 (j l : nat) : nat := match j, l with 0, 0 => 0 | 1, 1 => 1 | _, _ => 2 end.
Definition voigt3 (j l : nat) : nat := nth l (nth j [[0; 5; 4]; [5; 1; 3]; [4; 3; 2]] []) 0.
(** ceed-poisson2dapply.h:13-39 Poisson2DApply with [nc] = 1, ceed-vectorpoisson2dapply.h:13-40 Vector3Poisson2DApply with [nc] = 3
    (the loop over one component is written for Poisson2DApply too) *)
Definition q_poisson2d_apply (nc Q : nat) (ug q_data vg : list real) : res (list real) :=
  rfold (seq 0 Q) (fun i o => rfold (seq 0 2) (fun j o => rfold (seq 0 nc) (fun c o =>
    u0 <~ at3 ug nc Q 0 c i ;; a <~ at2q q_data Q (voigt2 0 j) i ;; u1 <~ at3 ug nc Q 1 c i ;; b <~ at2q q_data Q (voigt2 1 j) i ;;
    put3 o nc Q j c i (u0 * a + u1 * b)%Re) o) o) vg.
(** ceed-poisson3dapply.h:13-41 Poisson3DApply, ceed-vectorpoisson3dapply.h:13-43 Vector3Poisson3DApply *)
Definition q_poisson3d_apply (nc Q : nat) (ug q_data vg : list real) : res (list real) :=
  rfold (seq 0 Q) (fun i o => rfold (seq 0 3) (fun j o => rfold (seq 0 nc) (fun c o =>
    u0 <~ at3 ug nc Q 0 c i ;; a <~ at2q q_data Q (voigt3 0 j) i ;; u1 <~ at3 ug nc Q 1 c i ;; b <~ at2q q_data Q (voigt3 1 j) i ;;
    u2 <~ at3 ug nc Q 2 c i ;; d <~ at2q q_data Q (voigt3 2 j) i ;;
    put3 o nc Q j c i (u0 * a + u1 * b + u2 * d)%Re) o) o) vg.

(** The gallery: gallery/ceed-gallery-list.h, one constructor per registered function; [dim] is 1, 2 or 3, [vec] the Vector3 variants *)
Inductive gal := GIdentity | GScale | GMassBuild (dim : nat) | GMassApply (vec : bool) | GPoissonBuild (dim : nat) | GPoissonApply (dim : nat) (vec : bool).
(** number of components of the Vector3 variants and of the others *)
Definition comps (vec : bool) : nat := if vec then 3 else 1.
(** The fields the init functions add (size, eval mode): gallery/mass/ceed-mass2dbuild.c:22-25, ceed-massapply.c:22-24,
    mass-vector/ceed-vectormassapply.c:22-25, poisson/ceed-poisson2dbuild.c:22-25, ceed-poisson2dapply.c:22-25,
    poisson-vector/ceed-vectorpoisson2dapply.c:22-25; Identity and Scale add none, the fields are added by the caller
    (interface/ceed-qfunction.c:728-729 for Identity) *)
Definition gal_ins (g : gal) : list (nat * emode) :=
  match g with
  | GIdentity | GScale => []
  | GMassBuild d | GPoissonBuild d => [(d * d, EvGrad); (1, EvWeight)]
  | GMassApply v => [(comps v, EvInterp); (1, EvNone)]
  | GPoissonApply d v => [(comps v * d, EvGrad); (d * (d + 1) / 2, EvNone)]
  end.
Definition gal_outs (g : gal) : list (nat * emode) :=
  match g with
  | GIdentity | GScale => []
  | GMassBuild _ => [(1, EvNone)]
  | GPoissonBuild d => [(d * (d + 1) / 2, EvNone)]
  | GMassApply v => [(comps v, EvInterp)]
  | GPoissonApply d v => [(comps v * d, EvGrad)]
  end.
(** the context the init functions leave: gallery/identity/ceed-identity.c:25-33 (size 1); the others none, gallery/scale/ceed-scale.c:16-24 included *)
Definition gal_ctx (g : gal) : option nat := match g with GIdentity => Some 1 | _ => None end.
(** one call of the user function; [ctx] is what the context pointer points to, [None] the null pointer
    (backends/ref/ceed-ref-qfunction.c:18-36: without a context the pointer handed over is NULL) *)
Definition gal_run (g : gal) (ctx : option nat) (Q : nat) (ins : list (list real)) (out : list real) : res (list real) :=
  a <~ og ins 0 ;;
  match g with
  | GIdentity => size <~ ofopt ctx ;; q_identity size Q a out
  | GScale => size <~ ofopt ctx ;; b <~ og ins 1 ;; q_scale size Q a b out
  | GMassBuild d => b <~ og ins 1 ;; match d with 1 => q_mass1d | 2 => q_mass2d | _ => q_mass3d end Q a b out
  | GMassApply v => b <~ og ins 1 ;; (if v then q_vec3mass_apply else q_mass_apply) Q a b out
  | GPoissonBuild d => b <~ og ins 1 ;; match d with 1 => q_poisson1d | 2 => q_poisson2d | _ => q_poisson3d end Q a b out
  | GPoissonApply d v => b <~ og ins 1 ;;
      match d with
      | 1 => if v then q_vec3poisson1d_apply else q_poisson1d_apply
      | 2 => q_poisson2d_apply (comps v)
      | _ => q_poisson3d_apply (comps v)
      end Q a b out
  end.
