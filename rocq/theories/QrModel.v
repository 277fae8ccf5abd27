(** * Householder QR and pseudoinverse: interface/ceed-basis.c:99-111, 703-765, 1091-1215

    CeedScalar is a real number of the standard library (exact arithmetic).  Simplifications:
    - a division by zero, which gives an infinity or NaN in C, is the outcome [UB];
    - copysign looks at the sign bit: here zero is positive (there is no -0.0);
    - arrays of the stack or from malloc ([v]) start with arbitrary values [junk]; CeedCalloc gives zeros;
    - every array is passed with its own memory, a pointer into it is an offset. *)
From Coq Require Import List ZArith Lia Bool Arith Reals.
From Verif Require Import Prelude RstrModel OpModel DenseModel PointsModel.
Import ListNotations.
Local Open Scope nat_scope.

Notation real := Rdefinitions.R.
Delimit Scope R_scope with Re.
Definition Rrng : Rng := @mkRng real 0%Re 1%Re Rplus Rmult Rminus Ropp RTheory.

Definition rdiv (a b : real) : res real := if Req_EM_T b 0%Re then UB else Ok (a / b)%Re.
Definition copysign (x y : real) : real := if Rlt_dec y 0%Re then (- Rabs x)%Re else Rabs x.
Definition put (A : list real) (i : nat) (x : real) : res (list real) := ofopt (set A i x).

(** 99-108 CeedHouseholderReflect; [A + off], [v + voff] are the pointers *)
Definition reflect (A : list real) (off : nat) (v : list real) (voff : nat) (b : real) (m n row col : nat) : res (list real) :=
  rfold (seq 0 n) (fun j A =>
    w0 <~ og A (off + 0 * row + j * col) ;;
    w <~ rfold (seq 1 (m - 1)) (fun i w => x <~ og v (voff + i) ;; a <~ og A (off + i * row + j * col) ;; Ok (w + x * a)%Re) w0 ;;
    a0 <~ og A (off + 0 * row + j * col) ;;
    A <~ put A (off + 0 * row + j * col) (a0 - b * w)%Re ;;
    rfold (seq 1 (m - 1)) (fun i A => a <~ og A (off + i * row + j * col) ;; x <~ og v (voff + i) ;; put A (off + i * row + j * col) (a - b * w * x)%Re) A) A.

(** 1091-1127 CeedQRFactorization; the last component of the state: the loop was left with break *)
Definition qr_step (m n i : nat) (st : list real * list real * list real * bool) : res (list real * list real * list real * bool) :=
  let '(mat, tau, v, stop) := st in
  if stop then Ok st else
  if m - 1 <=? i then tau <~ put tau i 0%Re ;; Ok (mat, tau, v, true) else
  x <~ og mat (i + n * i) ;;
  v <~ put v i x ;;
  vs <~ rfold (seq (i + 1) (m - (i + 1))) (fun j st => x <~ og mat (i + n * j) ;; v <~ put (fst st) j x ;; y <~ og v j ;; z <~ og v j ;; Ok (v, (snd st + y * z)%Re)) (v, 0%Re) ;;
  let '(v, sigma) := vs in
  y <~ og v i ;;
  let norm := sqrt (y * y + sigma)%Re in
  let r := (- copysign norm y)%Re in
  v <~ put v i (y - r)%Re ;;
  y <~ og v i ;;
  t <~ rdiv (2 * y * y)%Re (y * y + sigma)%Re ;;
  tau <~ put tau i t ;;
  v <~ rfold (seq (i + 1) (m - (i + 1))) (fun j v => a <~ og v j ;; b <~ og v i ;; c <~ rdiv a b ;; put v j c) v ;;
  mat <~ reflect mat (i * n + i + 1) v i t (m - i) (n - i - 1) n 1 ;;
  mat <~ put mat (i + n * i) r ;;
  mat <~ rfold (seq (i + 1) (m - (i + 1))) (fun j mat => a <~ og v j ;; put mat (i + n * j) a) mat ;;
  Ok (mat, tau, v, false).
Definition qr (junk : nat -> real) (mat tau : list real) (m n : nat) : res (list real * list real) :=
  if negb (n <=? m) then Err ERR_UNSUPPORTED else
  st <~ rfold (seq 0 n) (qr_step m n) (mat, tau, map junk (seq 0 m), false) ;;
  Ok (fst (fst (fst st)), snd (fst (fst st))).

(** 1148-1162 CeedHouseholderApplyQ *)
Definition apply_q (junk : nat -> real) (A Q tau : list real) (tm : tmode) (m n k row col : nat) : res (list real) :=
  st <~ rfold (seq 0 k) (fun ii (st : list real * list real) =>
    let i := match tm with Transpose => ii | NoTranspose => k - 1 - ii end in
    v <~ rfold (seq (i + 1) (m - (i + 1))) (fun j v => x <~ og Q (j * k + i) ;; put v j x) (snd st) ;;
    t <~ og tau i ;;
    A <~ reflect (fst st) (i * row) v i t (m - i) n row col ;;
    Ok (A, v)) (A, map junk (seq 0 m)) ;;
  Ok (fst st).

(** 1176-1205 CeedMatrixPseudoinverse *)
Definition pinv (junk : nat -> real) (mat : list real) (m n : nat) (out : list real) : res (list real) :=
  if negb (m * n <=? length mat) then UB else
  st <~ qr junk (firstn (m * n) mat) (repeat 0%Re m) m n ;;
  let '(r, tau) := st in
  I <~ rfold (seq 0 m) (fun i A => put A (i * m + i) 1%Re) (repeat 0%Re (m * m)) ;;
  I <~ apply_q junk I r tau Transpose m m n m 1 ;;
  rfold (seq 0 m) (fun j out =>
    if n =? 0 then UB else (* the index m * (n - 1) is negative *)
    a <~ og I (j + m * (n - 1)) ;; b <~ og r (n * n - 1) ;; c <~ rdiv a b ;;
    out <~ put out (j + m * (n - 1)) c ;;
    rfold (rev (seq 0 (n - 1))) (fun i out =>
      a <~ og I (j + m * i) ;; out <~ put out (j + m * i) a ;;
      out <~ rfold (seq (i + 1) (n - (i + 1))) (fun k out => x <~ og out (j + m * i) ;; y <~ og r (k + n * i) ;; z <~ og out (j + m * k) ;; put out (j + m * i) (x - y * z)%Re) out ;;
      x <~ og out (j + m * i) ;; y <~ og r (i + n * i) ;; z <~ rdiv x y ;; put out (j + m * i) z) out) out.

(** 703-724 CeedBasisGetCollocatedGrad *)
Definition collo_grad (junk : nat -> real) (P Q : nat) (interp grad : list real) : res (list real) :=
  p <~ pinv junk interp Q P (repeat 0%Re (P * Q)) ;; @matmul Rrng grad p Q Q P.
(** 738-765 CeedBasisGetChebyshevInterp1D; the rows of [C] are filled through pointers into it *)
Definition cheb_interp (junk : nat -> real) (P Q : nat) (interp qref : list real) : res (list real) :=
  if negb ((0 <? P) && (0 <? Q)) then Err ERR_INCOMPATIBLE else
  C <~ rfold (seq 0 Q) (fun i C => x <~ og qref i ;; r <~ ofopt (@cheb_vals Rrng x Q (skipn (i * Q) C)) ;; Ok (firstn (i * Q) C ++ r)) (repeat 0%Re (Q * Q)) ;;
  ci <~ pinv junk C Q Q (repeat 0%Re (Q * Q)) ;;
  @matmul Rrng ci interp Q P Q.
