(** * Quadrature rules and the Lagrange basis: interface/ceed-basis.c:1515-1573, 2388-2494

    CeedScalar is a real number of the standard library (exact arithmetic).  Simplifications:
    - a division by zero, which gives an infinity or NaN in C, is the outcome [UB];
    - PI is pi (4 atan 1 in C), [eps] is CEED_EPSILON, an arbitrary real number;
    - CeedLobattoQuadrature reports its error without a Ceed (2445): the process is aborted unless the environment
      variable CEED_ERROR_HANDLER is "return" (interface/ceed.c:1503-1524); [Err] is what happens when it is "return";
    - an array that may be NULL is an option; arrays from CeedCalloc are zero. *)
From Coq Require Import List ZArith Lia Bool Arith Reals.
From Verif Require Import Prelude RstrModel OpModel QrModel.
Import ListNotations.
Local Open Scope nat_scope.

(** 2396-2403, 2409-2415 (and 2458-2465, 2472-2478): the three term recurrence for j = 2, ..., n; the state is (P0, P1, P2) *)
Definition legendre (xi : real) (n : nat) (P2 : real) : real * real * real :=
  fold_left (fun st j => let '(P0, P1, _) := st in
      let P2 := ((INR (2 * j - 1) * xi * P1 - INR (j - 1) * P0) / INR j)%Re in (P1, P2, P2))
    (seq 2 (n - 1)) (1%Re, xi, P2).

(** 2408, 2471: for (k = 0; k < fuel && fabs(x) > 10 * CEED_EPSILON; k++) *)
Fixpoint iterate {T : Type} (fuel : nat) (go : T -> bool) (f : T -> res T) (st : T) : res T :=
  match fuel with O => Ok st | S fuel => if go st then st <~ f st ;; iterate fuel go f st else Ok st end.
Definition above (x eps : real) : bool := if Rlt_dec (10 * eps)%Re (Rabs x) then true else false.

(** 2395-2406 and 2409-2417: evaluation and one Newton step; the state is (xi, P2, dP2) *)
Definition gauss_step (Q : nat) (st : real * real * real) : res (real * real * real) :=
  let '(xi, P2, _) := st in
  let '(P0, P1, P2) := legendre xi Q P2 in
  dP2 <~ rdiv ((xi * P2 - P0) * INR Q)%Re (xi * xi - 1)%Re ;;
  q <~ rdiv P2 dP2 ;;
  Ok ((xi - q)%Re, P2, dP2).
(** 2388-2427 CeedGaussQuadrature *)
Definition gauss_point (eps : real) (Q i : nat) : res (real * real) :=
  a <~ rdiv (PI * INR (2 * i + 1))%Re (INR (2 * Q)) ;;
  st <~ gauss_step Q (cos a, 0%Re, 0%Re) ;;
  st <~ iterate 100 (fun st => above (snd (fst st)) eps) (gauss_step Q) st ;;
  let '(xi, P2, dP2) := st in
  wi <~ rdiv 2%Re ((1 - xi * xi) * dP2 * dP2)%Re ;;
  Ok (xi, wi).
Definition gauss (eps : real) (Q : nat) (q w : list real) : res (list real * list real) :=
  rfold (seq 0 (Q / 2 + 1)) (fun i st =>
    xw <~ gauss_point eps Q i ;;
    let '(xi, wi) := xw in
    if Q <? 1 + i then UB else (* the index Q - 1 - i is negative *)
    w <~ put (snd st) i wi ;; w <~ put w (Q - 1 - i) wi ;;
    q <~ put (fst st) i (- xi)%Re ;; q <~ put q (Q - 1 - i) xi ;; Ok (q, w)) (q, w).

(** 2457-2469 and 2472-2481: evaluation and one step; the state is (xi, P2, dP2) *)
Definition lobatto_step (Q : nat) (st : real * real * real) : res (real * real * real) :=
  let '(xi, P2, _) := st in
  let '(P0, P1, P2) := legendre xi (Q - 1) P2 in
  dP2 <~ rdiv ((xi * P2 - P0) * INR Q)%Re (xi * xi - 1)%Re ;;
  d2P2 <~ rdiv (2 * xi * dP2 - INR (Q * (Q - 1)) * P2)%Re (1 - xi * xi)%Re ;;
  q <~ rdiv dP2 d2P2 ;;
  Ok ((xi - q)%Re, P2, dP2).
Definition lobatto_point (eps : real) (Q i : nat) : res (real * real) :=
  a <~ rdiv (PI * INR i)%Re (INR (Q - 1)) ;;
  st <~ lobatto_step Q (cos a, 0%Re, 0%Re) ;;
  st <~ iterate 100 (fun st => above (snd st) eps) (lobatto_step Q) st ;;
  let '(xi, P2, dP2) := st in
  wi <~ rdiv 2%Re (INR (Q * (Q - 1)) * P2 * P2)%Re ;;
  Ok (xi, wi).
Definition put_opt (w : option (list real)) (i : nat) (x : real) : res (option (list real)) :=
  match w with Some w => w <~ put w i x ;; Ok (Some w) | None => Ok None end.
(** 2440-2494 CeedLobattoQuadrature *)
Definition lobatto (eps : real) (Q : nat) (q : list real) (w : option (list real)) : res (list real * option (list real)) :=
  if negb (1 <? Q) then Err ERR_DIMENSION else
  wi <~ rdiv 2%Re (INR (Q * (Q - 1))) ;;
  w <~ put_opt w 0 wi ;; w <~ put_opt w (Q - 1) wi ;;
  q <~ put q 0 (-1)%Re ;; q <~ put q (Q - 1) 1%Re ;;
  rfold (seq 1 ((Q - 1) / 2)) (fun i st =>
    xw <~ lobatto_point eps Q i ;;
    let '(xi, wi) := xw in
    w <~ put_opt (snd st) i wi ;; w <~ put_opt w (Q - 1 - i) wi ;;
    q <~ put (fst st) i (- xi)%Re ;; q <~ put q (Q - 1 - i) xi ;; Ok (q, w)) (q, w).

(** 1544-1563 one row of the matrices B and D (Fornberg): the state is (interp_1d, grad_1d, c1, c3) *)
Definition forn_in (P i j : nat) (nodes : list real) (c1 c3 c4 : real) (k : nat) (st : list real * list real * real) : res (list real * list real * real) :=
  let '(B, D, c2) := st in
  xj <~ og nodes j ;; xk <~ og nodes k ;;
  let dx := (xj - xk)%Re in
  let c2 := (c2 * dx)%Re in
  BD <~ (if k =? j - 1 then
    b <~ og B (i * P + k) ;; d <~ og D (i * P + k) ;;
    x <~ rdiv (c1 * (b - c4 * d))%Re c2 ;; D <~ put D (i * P + j) x ;;
    x <~ rdiv (- c1 * c4 * b)%Re c2 ;; B <~ put B (i * P + j) x ;; Ok (B, D)
  else Ok (B, D)) ;;
  let '(B, D) := BD in
  b <~ og B (i * P + k) ;; d <~ og D (i * P + k) ;;
  x <~ rdiv (c3 * d - b)%Re dx ;; D <~ put D (i * P + k) x ;;
  x <~ rdiv (c3 * b)%Re dx ;; B <~ put B (i * P + k) x ;; Ok (B, D, c2).
Definition forn_row (P : nat) (nodes qref : list real) (i : nat) (st : list real * list real) : res (list real * list real) :=
  x0 <~ og nodes 0 ;; x <~ og qref i ;;
  B <~ put (fst st) (i * P + 0) 1%Re ;;
  st <~ rfold (seq 1 (P - 1)) (fun j st =>
    let '(B, D, c1, c3) := st in
    let c4 := c3 in
    xj <~ og nodes j ;; x <~ og qref i ;;
    let c3 := (xj - x)%Re in
    st <~ rfold (seq 0 j) (forn_in P i j nodes c1 c3 c4) (B, D, 1%Re) ;;
    let '(B, D, c2) := st in Ok (B, D, c2, c3)) (B, snd st, 1%Re, (x0 - x)%Re) ;;
  let '(B, D, _, _) := st in Ok (B, D).

Inductive qmode := Gauss | GaussLobatto.
Record lag_data := mkLag { l_interp : list real; l_grad : list real; l_qref : list real; l_qweight : list real; l_nodes : list real }.
(** 1515-1573 CeedBasisCreateTensorH1Lagrange: [Ok (Some d)]: success, CeedBasisCreateTensorH1 was called with the arrays of
    [d] ([l_nodes] is the array [nodes], which is not passed on); [Ok None]: success is returned and no basis is created *)
Definition lagrange (eps : real) (dim nc P Q : nat) (mode : qmode) : res (option lag_data) :=
  if negb (0 <? dim) then Err ERR_DIMENSION else
  if negb (0 <? nc) then Err ERR_DIMENSION else
  if negb (0 <? P) then Err ERR_DIMENSION else
  if negb (0 <? Q) then Err ERR_DIMENSION else
  match lobatto eps P (repeat 0%Re P) None with
  | UB => UB
  | Err _ => Ok None
  | Ok (nodes, _) =>
      match (match mode with
             | Gauss => gauss eps Q (repeat 0%Re Q) (repeat 0%Re Q)
             | GaussLobatto => qw <~ lobatto eps Q (repeat 0%Re Q) (Some (repeat 0%Re Q)) ;;
                               match snd qw with Some w => Ok (fst qw, w) | None => UB end
             end) with
      | UB => UB
      | Err _ => Ok None
      | Ok (q, w) =>
          BD <~ rfold (seq 0 Q) (forn_row P nodes q) (repeat 0%Re (P * Q), repeat 0%Re (P * Q)) ;;
          Ok (Some (mkLag (fst BD) (snd BD) q w nodes))
      end
  end.
