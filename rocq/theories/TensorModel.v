(** * Tensor contraction kernels: ref, opt, AVX

    Pointer arithmetic [p + k] on read-only arrays is [skipn k p]; on the output array it is [at_off k].
    Strides and sizes are naturals (CeedInt overflow not modelled). *)
From Coq Require Import List ZArith Lia Bool Arith.
From Verif Require Import Prelude RstrModel.
Import ListNotations.
Set Implicit Arguments.

Section Tensor.
Variable R : Rng.
Local Open Scope nat_scope.

(** Strides of [t] (same lines in all three kernels, e.g. ceed-ref-tensor.c:18-23). *)
Definition ts0 (tm : tmode) (B : nat) : nat := match tm with NoTranspose => B | Transpose => 1 end.
Definition ts1 (tm : tmode) (J : nat) : nat := match tm with NoTranspose => 1 | Transpose => J end.

(** [for (q = 0; q < n; q++) v[q] = 0.0] (ceed-ref-tensor.c:25-27, ceed-opt-tensor.c:42-44,
    ceed-avx-tensor.c:274-276) *)
Definition zero_first (n : nat) (v : list R) : option (list R) := forN n (fun q v => set v q 0%R) v.

(** ceed-ref-tensor.c:29-36 (and ceed-opt-tensor.c:27-34): the accumulation loop *)
Definition contract_loop (A B C J : nat) (t : list R) (tm : tmode) (u v : list R) : option (list R) :=
  forN A (fun a v => forN B (fun b v => forN J (fun j v =>
    tq <- get t (j * ts0 tm B + b * ts1 tm J) ;;
    forN C (fun c v => x <- get u ((a * B + b) * C + c) ;; addat v ((a * J + j) * C + c) (tq * x)%R) v) v) v) v.

(** ceed-ref-tensor.c:16-38 CeedTensorContractApply_Ref *)
Definition contract_ref (A B C J : nat) (t : list R) (tm : tmode) (add : bool) (u v : list R) : option (list R) :=
  v1 <- (if add then Some v else zero_first (A * J * C) v) ;;
  contract_loop A B C J t tm u v1.

(** ceed-opt-tensor.c:40-50 CeedTensorContractApply_Opt *)
Definition contract_opt (A B C J : nat) (t : list R) (tm : tmode) (add : bool) (u v : list R) : option (list R) :=
  v1 <- (if add then Some v else zero_first (A * J * C) v) ;;
  if C =? 1 then contract_loop A B 1 J t tm u v1 else contract_loop A B C J t tm u v1.

(** ** AVX.  An [rtype] register has four lanes; a tile of [n] registers is a flat array of [4*n] lanes
    (uninitialised lanes are 0 here; they are never used before being loaded).
    [tile_load]/[tile_store] are the loops of [loadu]/[storeu]; [fmadd4] is one [fmadd] with the two
    operands given lane by lane. *)
Definition tile_load (n : nat) (base : nat -> nat) (v : list R) : option (list R) :=
  forN n (fun i w => forN 4 (fun l w => x <- get v (base i + l) ;; set w (i * 4 + l) x) w) (repeat 0%R (n * 4)).
Definition tile_store (n : nat) (base : nat -> nat) (w : list R) (v : list R) : option (list R) :=
  forN n (fun i v => forN 4 (fun l v => x <- get w (i * 4 + l) ;; set v (base i + l) x) v) v.
Definition fmadd4 (i : nat) (x y : nat -> option R) (w : list R) : option (list R) :=
  forN 4 (fun l w => a <- x l ;; b <- y l ;; addat w (i * 4 + l) (a * b)%R) w.

(** One tile of ceed-avx-tensor.c:56-70 ([nr = JJ]) and 78-94 ([nr = J - j]):
    CeedTensorContract_Avx_Blocked *)
Definition avx_tile_b (B C J : nat) (t : list R) (tm : tmode) (u : list R) (a j c nr nc4 : nat) (v : list R) : option (list R) :=
  let base i := (a * J + j + i / nc4) * C + c + (i mod nc4) * 4 in
  w <- tile_load (nr * nc4) base v ;;
  w <- forN B (fun b w => forN nr (fun jj w =>
         tq <- get t ((j + jj) * ts0 tm B + b * ts1 tm J) ;;
         forN nc4 (fun cc w =>
           fmadd4 (jj * nc4 + cc) (fun _ => Some tq) (fun l => get u ((a * B + b) * C + c + cc * 4 + l)) w) w) w) w ;;
  tile_store (nr * nc4) base w v.

(** ceed-avx-tensor.c:42-101 CeedTensorContract_Avx_Blocked; [CC = 4*nc4].  Loops with step JJ (CC) are over
    the tile number. *)
Definition avx_blocked (A B C J : nat) (t : list R) (tm : tmode) (u : list R) (JJ nc4 : nat) (v : list R) : option (list R) :=
  let CC := 4 * nc4 in
  forN A (fun a v =>
    v1 <- forN (J / JJ) (fun jt v => forN (C / CC) (fun ct v =>
            avx_tile_b B C J t tm u a (jt * JJ) (ct * CC) JJ nc4 v) v) v ;;
    let j := (J / JJ) * JJ in
    if j <? J then
      forN (C / CC) (fun ct v => avx_tile_b B C J t tm u a j (ct * CC) (J - j) nc4 v) v1
    else Some v1) v.

(** [J % JJ ? (J / JJ) * JJ : (J / JJ - 1) * JJ]; [None] when this is negative (J = 0): the loops that start
    there would run over negative row numbers. *)
Definition brk (J JJ : nat) : option nat :=
  if J mod JJ =? 0 then (if J / JJ =? 0 then None else Some ((J / JJ - 1) * JJ)) else Some ((J / JJ) * JJ).

(** Lane [l] of [set(0.0, .., x[0])] / [loadu] with [rem] columns left (ceed-avx-tensor.c:127-130, 222-231) *)
Definition masked (rem : nat) (f : nat -> option R) (l : nat) : option R := if l <? rem then f l else Some 0%R.

(** ceed-avx-tensor.c:121-135: one tile of CeedTensorContract_Avx_Remainder *)
Definition avx_tile_r (B C J : nat) (t : list R) (tm : tmode) (u : list R) (a j c JJ : nat) (v : list R) : option (list R) :=
  let base jj := (a * J + j + jj) * C + c in
  w <- tile_load JJ base v ;;
  w <- forN B (fun b w => forN JJ (fun jj w =>
         tq <- get t ((j + jj) * ts0 tm B + b * ts1 tm J) ;;
         fmadd4 jj (masked (C - c) (fun l => get u ((a * B + b) * C + c + l))) (fun _ => Some tq) w) w) w ;;
  tile_store JJ base w v.

(** ceed-avx-tensor.c:104-148 CeedTensorContract_Avx_Remainder *)
Definition avx_remainder (A B C J : nat) (t : list R) (tm : tmode) (u : list R) (JJ CC : nat) (v : list R) : option (list R) :=
  jb <- brk J JJ ;;
  let c0 := (C / CC) * CC in
  forN A (fun a v =>
    v1 <- forN ((C - c0 + 3) / 4) (fun ct v => forN (jb / JJ) (fun jt v =>
            avx_tile_r B C J t tm u a (jt * JJ) (c0 + ct * 4) JJ v) v) v ;;
    forR jb J (fun j v => forN B (fun b v =>
      tq <- get t (j * ts0 tm B + b * ts1 tm J) ;;
      forR c0 C (fun c v => x <- get u ((a * B + b) * C + c) ;; addat v ((a * J + j) * C + c) (tq * x)%R) v) v) v1) v.

(** ceed-avx-tensor.c:166-183 ([nr = AA]) and 190-207 ([nr = A - a]): one tile of CeedTensorContract_Avx_Single *)
Definition avx_tile_s (B J : nat) (t : list R) (tm : tmode) (u : list R) (a j nr nj4 : nat) (v : list R) : option (list R) :=
  let base i := (a + i / nj4) * J + j + (i mod nj4) * 4 in
  w <- tile_load (nr * nj4) base v ;;
  w <- forN B (fun b w => forN nj4 (fun jj w => forN nr (fun aa w =>
         fmadd4 (aa * nj4 + jj) (fun l => get t ((j + jj * 4 + l) * ts0 tm B + b * ts1 tm J))
                (fun _ => get u ((a + aa) * B + b)) w) w) w) w ;;
  tile_store (nr * nj4) base w v.

(** ceed-avx-tensor.c:216-237: one tile of the column remainder *)
Definition avx_tile_sr (B J : nat) (t : list R) (tm : tmode) (u : list R) (a j AA : nat) (v : list R) : option (list R) :=
  let base aa := (a + aa) * J + j in
  w <- tile_load AA base v ;;
  w <- forN B (fun b w => forN AA (fun aa w =>
         fmadd4 aa (masked (J - j) (fun l => get t ((j + l) * ts0 tm B + b * ts1 tm J)))
                (fun _ => get u ((a + aa) * B + b)) w) w) w ;;
  tile_store AA base w v.

(** ceed-avx-tensor.c:153-249 CeedTensorContract_Avx_Single *)
Definition avx_single (A B J : nat) (t : list R) (tm : tmode) (u : list R) (AA nj4 : nat) (v : list R) : option (list R) :=
  let JJ := 4 * nj4 in
  v1 <- forN (A / AA) (fun at' v => forN (J / JJ) (fun jt v =>
          avx_tile_s B J t tm u (at' * AA) (jt * JJ) AA nj4 v) v) v ;;
  let a := (A / AA) * AA in
  v2 <- forN (J / JJ) (fun jt v => avx_tile_s B J t tm u a (jt * JJ) (A - a) nj4 v) v1 ;;
  ab <- brk A AA ;;
  let j0 := (J / JJ) * JJ in
  v3 <- forN ((J - j0 + 3) / 4) (fun jt v => forN (ab / AA) (fun at' v =>
          avx_tile_sr B J t tm u (at' * AA) (j0 + jt * 4) AA v) v) v2 ;;
  forN B (fun b v => forR j0 J (fun j v =>
    tq <- get t (j * ts0 tm B + b * ts1 tm J) ;;
    forR ab A (fun a v => x <- get u (a * B + b) ;; addat v (a * J + j) (tq * x)%R) v) v) v3.

(** ceed-avx-tensor.c:270-289 CeedTensorContractApply_Avx *)
Definition contract_avx (A B C J : nat) (t : list R) (tm : tmode) (add : bool) (u v : list R) : option (list R) :=
  v1 <- (if add then Some v else zero_first (A * J * C) v) ;;
  if C =? 1 then avx_single A B J t tm u 4 2 v1
  else
    v2 <- (if 8 <=? C then avx_blocked A B C J t tm u 4 2 v1 else Some v1) ;;
    if C mod 8 =? 0 then Some v2 else avx_remainder A B C J t tm u 8 8 v2.

(** Writing through the pointer [v + off]. *)
Definition at_off (off : nat) (f : list R -> option (list R)) (v : list R) : option (list R) :=
  w <- f (skipn off v) ;; Some (firstn off v ++ w).

(** interface/ceed-tensor.c:102-114 CeedTensorContractStridedApply for a contraction [k] *)
Definition kernel := nat -> nat -> nat -> nat -> list R -> tmode -> bool -> list R -> list R -> option (list R).
Definition contract_strided (k : kernel) (A B C D J : nat) (t : list R) (tm : tmode) (add : bool) (u v : list R) : option (list R) :=
  match tm with
  | Transpose => forN D (fun d v => k A J C B (skipn (d * B * J) t) tm add (skipn (d * A * J * C) u) v) v
  | NoTranspose => forN D (fun d v => at_off (d * A * J * C) (k A B C J (skipn (d * B * J) t) tm add u) v) v
  end.
End Tensor.
Arguments zero_first {R}. Arguments contract_loop {R}. Arguments contract_ref {R}. Arguments contract_opt {R}.
Arguments tile_load {R}. Arguments tile_store {R}. Arguments fmadd4 {R}. Arguments avx_tile_b {R}.
Arguments avx_blocked {R}. Arguments masked {R}. Arguments avx_tile_r {R}. Arguments avx_remainder {R}.
Arguments avx_tile_s {R}. Arguments avx_tile_sr {R}. Arguments avx_single {R}. Arguments contract_avx {R}.
Arguments at_off {R}. Arguments contract_strided {R}.
