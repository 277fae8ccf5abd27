(** * Symmetric Schur decomposition and simultaneous diagonalization: interface/ceed-basis.c:132-150, 1219-1352, 1373-1440

    CeedScalar is a real number (exact arithmetic) as in QrModel.v, whose conventions apply: division by zero is [UB] (NaN or
    infinity in C), zero is positive, the arrays of the stack start with arbitrary values.  [tol] is CEED_EPSILON.  The square root of a
    negative number (NaN in C) is zero in the standard library; it is used as a divisor only, hence [UB] too. *)
From Coq Require Import List ZArith Lia Bool Arith Reals.
From Verif Require Import Prelude RstrModel OpModel DenseModel QrModel.
Import ListNotations.
Local Open Scope nat_scope.

(** 129-146 CeedGivensRotation *)
Definition givens (A : list real) (c s : real) (tm : tmode) (i k m n : nat) : res (list real) :=
  let sj := match tm with NoTranspose => n | Transpose => 1 end in
  let sik := match tm with NoTranspose => 1 | Transpose => m end in
  rfold (seq 0 (match tm with NoTranspose => m | Transpose => n end)) (fun j A =>
    t1 <~ og A (i * sik + j * sj) ;; t2 <~ og A (k * sik + j * sj) ;;
    A <~ put A (i * sik + j * sj) (c * t1 - s * t2)%Re ;;
    put A (k * sik + j * sj) (s * t1 + c * t2)%Re) A.

(** 1234-1269: one column is reduced *)
Definition tri_step (n i : nat) (st : list real * list real * list real) : res (list real * list real * list real) :=
  let '(T, tau, v) := st in
  x <~ og T (i + n * (i + 1)) ;;
  v <~ put v i x ;;
  vs <~ rfold (seq (i + 1) (n - 1 - (i + 1))) (fun j st => x <~ og T (i + n * (j + 1)) ;; v <~ put (fst st) j x ;; y <~ og v j ;; Ok (v, (snd st + y * y)%Re)) (v, 0%Re) ;;
  let '(v, sigma) := vs in
  y <~ og v i ;;
  let norm := sqrt (y * y + sigma)%Re in
  let r := (- copysign norm y)%Re in
  v <~ put v i (y - r)%Re ;;
  y <~ og v i ;;
  t <~ (if i =? n - 2 then Ok 2%Re else rdiv (2 * y * y)%Re (y * y + sigma)%Re) ;;
  tau <~ put tau i t ;;
  v <~ rfold (seq (i + 1) (n - 1 - (i + 1))) (fun j v => a <~ og v j ;; b <~ og v i ;; c <~ rdiv a b ;; put v j c) v ;;
  T <~ rfold (seq (i + 2) (n - (i + 2))) (fun j T => T <~ put T (i + n * j) 0%Re ;; put T (j + n * i) 0%Re) T ;;
  T <~ reflect T ((i + 1) + n * (i + 1)) v i t (n - (i + 1)) (n - (i + 1)) n 1 ;;
  T <~ reflect T ((i + 1) + n * (i + 1)) v i t (n - (i + 1)) (n - (i + 1)) 1 n ;;
  T <~ put T (i + n * (i + 1)) r ;;
  T <~ put T ((i + 1) + n * i) r ;;
  T <~ rfold (seq (i + 1) (n - 1 - (i + 1))) (fun j T => a <~ og v j ;; put T (i + n * (j + 1)) a) T ;;
  Ok (T, tau, v).
(** 1271-1280: backwards accumulation of Q *)
Definition acc_step (n : nat) (tau : list real) (i : nat) (st : list real * list real * list real) : res (list real * list real * list real) :=
  let '(T, Q, v) := st in
  t <~ og tau i ;;
  if Rlt_dec 0%Re t then
    v <~ put v i 1%Re ;;
    vT <~ rfold (seq (i + 1) (n - 1 - (i + 1))) (fun j st => a <~ og (snd st) (i + n * (j + 1)) ;; v <~ put (fst st) j a ;; T <~ put (snd st) (i + n * (j + 1)) 0%Re ;; Ok (v, T)) (v, T) ;;
    let '(v, T) := vT in
    Q <~ reflect Q ((i + 1) + n * (i + 1)) v i t (n - (i + 1)) (n - (i + 1)) n 1 ;;
    Ok (T, Q, v)
  else Ok (T, Q, v).

Section Tol.
Variable tol : real.
(** 1290-1297: how many of the entries next to the diagonal are small, up to the first that is not *)
Fixpoint small (T : list real) (n : nat) (l : list nat) : res nat :=
  match l with
  | [] => Ok 0
  | i :: l => x <~ og T (i + n * (i + 1)) ;; if Rlt_dec (Rabs x) tol then c <~ small T n l ;; Ok (S c) else Ok 0
  end.
(** 1309-1322 *)
Definition rot (x z : real) : res (real * real) :=
  if Rlt_dec tol (Rabs z) then
    if Rlt_dec (Rabs x) (Rabs z) then
      tau <~ rdiv (- x)%Re z ;; s <~ rdiv 1%Re (sqrt (1 + tau * tau)%Re) ;; Ok ((s * tau)%Re, s)
    else
      tau <~ rdiv (- z)%Re x ;; c <~ rdiv 1%Re (sqrt (1 + tau * tau)%Re) ;; Ok (c, (c * tau)%Re)
  else Ok (1%Re, 0%Re).
(** 1307-1336 *)
Definition rot_step (n q k : nat) (st : list real * list real * real * real) : res (list real * list real * real * real) :=
  let '(T, Q, x, z) := st in
  cs <~ rot x z ;;
  let '(c, s) := cs in
  T <~ givens T c s NoTranspose k (k + 1) n n ;;
  T <~ givens T c s Transpose k (k + 1) n n ;;
  Q <~ givens Q c s NoTranspose k (k + 1) n n ;;
  if k + 2 <? n - q then x <~ og T (k + n * (k + 1)) ;; z <~ og T (k + n * (k + 2)) ;; Ok (T, Q, x, z)
  else Ok (T, Q, x, z).
(** 1300-1337; here q < n - 1 *)
Definition sweep (n p q : nat) (T Q : list real) : res (list real * list real) :=
  tnn <~ og T ((n - 1 - q) + n * (n - 1 - q)) ;; t1 <~ og T ((n - 2 - q) + n * (n - 1 - q)) ;;
  t2 <~ og T ((n - 2 - q) + n * (n - 2 - q)) ;;
  let d := ((t2 - tnn) / 2)%Re in
  f <~ rdiv (t1 * t1)%Re (d + copysign (sqrt (d * d + t1 * t1)) d)%Re ;;
  let mu := (tnn - f)%Re in
  x <~ og T (p + n * p) ;; z <~ og T (p + n * (p + 1)) ;;
  st <~ rfold (seq p (n - q - 1 - p)) (rot_step n q) (T, Q, (x - mu)%Re, z) ;;
  Ok (fst (fst (fst st)), snd (fst (fst st))).
(** 1286-1339; the last component: the loop was left with break before [max_itr] steps were done *)
Fixpoint iter (n fuel : nat) (T Q : list real) : res (list real * list real * bool) :=
  match fuel with
  | 0 => Ok (T, Q, false)
  | S fuel =>
      q <~ small T n (rev (seq 0 (n - 1))) ;;
      p <~ small T n (seq 0 (n - q - 1)) ;;
      if q =? n - 1 then Ok (T, Q, true)
      else TQ <~ sweep n p q T Q ;; iter n fuel (fst TQ) (snd TQ)
  end.
(** 1219-1346 CeedSymmetricSchurDecomposition: the new contents of [mat] and [lambda].  Both are set also when the iteration fails to
    converge (CEED_ERROR_MINOR). *)
Definition schur (junk : nat -> real) (mat : list real) (n : nat) : res (list real * list real) :=
  if n <=? 1 then Err ERR_UNSUPPORTED else
  if negb (n * n <=? length mat) then UB else
  let T := firstn (n * n) mat in
  I <~ rfold (seq 0 n) (fun i M => rfold (seq 0 n) (fun j M => put M (j + n * i) (if i =? j then 1%Re else 0%Re)) M) mat ;;
  st <~ rfold (seq 0 (n - 1)) (tri_step n) (T, map junk (seq 0 (n - 1)), map junk (seq 0 (n - 1))) ;;
  let '(T, tau, v) := st in
  st <~ rfold (rev (seq 0 (n - 1))) (acc_step n tau) (T, I, v) ;;
  let '(T, Q, v) := st in
  if (2147483647 <? Z.of_nat n ^ 4)%Z then UB else (* max_itr does not fit a CeedInt *)
  r <~ iter n (n * n * n * n) T Q ;;
  let '(T, Q, ok) := r in
  lam <~ rmap (fun i => og T (i + n * i)) (seq 0 n) ;;
  if ok : bool then Ok (Q, lam) else Err ERR_MINOR.

(** 1378-1387: bubble sort by absolute value, with the columns of the matrix *)
Definition swap (A : list real) (i j : nat) : res (list real) := a <~ og A i ;; b <~ og A j ;; A <~ put A i b ;; put A j a.
Definition sort_step (n j : nat) (st : list real * list real) : res (list real * list real) :=
  a <~ og (snd st) j ;; b <~ og (snd st) (j + 1) ;;
  if Rlt_dec (Rabs b) (Rabs a) then
    d <~ swap (snd st) j (j + 1) ;;
    G <~ rfold (seq 0 n) (fun k G => swap G (k * n + j) (k * n + j + 1)) (fst st) ;; Ok (G, d)
  else Ok st.
Definition sort_cols (n : nat) (G d : list real) : res (list real * list real) :=
  rfold (rev (seq 0 n)) (fun i st => rfold (seq 0 i) (sort_step n) st) (G, d).

(** 1367-1427 CeedSimultaneousDiagonalization: the matrix X and the vector lambda *)
Definition simdiag (junk : nat -> real) (A B : list real) (n : nat) : res (list real * list real) :=
  if negb (n * n <=? length B) then UB else
  gd <~ schur junk (firstn (n * n) B) n ;;
  gd <~ sort_cols n (fst gd) (snd gd) ;;
  let '(G, D) := gd in
  D <~ rfold (seq 0 n) (fun i D => d <~ og D i ;; x <~ rdiv 1%Re (sqrt d) ;; put D i x) D ;;
  gc <~ rfold (seq 0 n) (fun i st => rfold (seq 0 n) (fun j (st : list real * list real) =>
          g <~ og (fst st) (i * n + j) ;; d <~ og D j ;; G <~ put (fst st) (i * n + j) (g * d)%Re ;;
          g <~ og G (i * n + j) ;; C <~ put (snd st) (j * n + i) g ;; Ok (G, C)) st) (G, repeat 0%Re (n * n)) ;;
  let '(G, C) := gc in
  X <~ @matmul Rrng C A n n n ;;
  C <~ @matmul Rrng X G n n n ;;
  cl <~ schur junk C n ;;
  cl <~ sort_cols n (fst cl) (snd cl) ;;
  X <~ @matmul Rrng G (fst cl) n n n ;;
  Ok (X, snd cl).
End Tol.
