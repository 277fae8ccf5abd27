(** * Small dense kernels of the interface: interface/ceed-basis.c:1066-1077 *)
From Coq Require Import List ZArith Lia Bool Arith.
From Verif Require Import Prelude RstrModel TensorModel BasisModel OpModel.
Import ListNotations.
Set Implicit Arguments.

(** for (i < n) append the entries [f i] *)
Fixpoint cat {A} (n : nat) (f : nat -> res (list A)) : res (list A) :=
  match n with 0 => Ok [] | S n => l <~ cat n f ;; x <~ f n ;; Ok (l ++ x) end.

(** store the entries [x] from position [off] on *)
Definition store {A} (off : nat) (x l : list A) : res (list A) :=
  if off + length x <=? length l then Ok (firstn off l ++ x ++ skipn (off + length x) l) else UB.

Section Dense.
Variable R : Rng.
Local Open Scope nat_scope.
(** sum = 0.0; for (i < n) sum += f(i) *)
Definition rsum (n : nat) (f : nat -> res R) : res R := rfold (seq 0 n) (fun i s => x <~ f i ;; Ok (s + x)%R) 0%R.

(** interface/ceed-basis.c:1066-1077 CeedMatrixMatrixMultiply *)
Definition matmul (A B : list R) (m n kk : nat) : res (list R) :=
  cat m (fun i => cat n (fun j => s <~ rsum kk (fun k => a <~ og A (k + i * kk) ;; b <~ og B (j + k * n) ;; Ok (a * b)%R) ;; Ok [s])).
End Dense.
Arguments rsum {R}.
Arguments matmul {R}.
