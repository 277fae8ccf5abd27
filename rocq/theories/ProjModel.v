(** * Projection between bases: interface/ceed-basis.c:196-295, 1780-1822 *)
From Coq Require Import List ZArith Lia Bool Arith Reals Lra.
From Verif Require Import Prelude RstrModel TensorModel BasisModel OpModel DenseModel QrModel.
Import ListNotations.
Local Open Scope nat_scope.

(** ceed-basis.c:285-287: "Round zero to machine precision"; [eps] is CEED_EPSILON *)
Definition chop (eps x : real) : real := if Rlt_dec (Rabs x) (10 * eps)%Re then 0%Re else x.

(** ceed-basis.c:281-288: one matrix.  [inv] is the pseudoinverse of the target matrix ([Pt] x [K]), [inp] the source
    ([K] x [Pf]).  memcpy reads the whole source (the copy itself is never used), then the product is stored and rounded. *)
Definition project_one (eps : real) (inv : list real) (Pt Pf K : nat) (inp : list real) : res (list real) :=
  if negb (K * Pf <=? length inp) then UB else
  l <~ @matmul Rrng inv inp Pt Pf K ;; Ok (map (chop eps) l).

(** ceed-basis.c:242-288: the pseudoinverse, interp_project, and [nd] gradient matrices ([nd] directions, matrices of
    Q * P_from entries one after the other) if the space is H1, zeros otherwise *)
Definition proj_core (eps : real) (junk : nat -> real) (h1 : bool) (Q qc Pt Pf nd : nat) (it fi fg : list real) : res (list real * list real) :=
  inv <~ pinv junk it (Q * qc) Pt (repeat 0%Re (Q * qc * Pt)) ;;
  ip <~ project_one eps inv Pt Pf (Q * qc) fi ;;
  gp <~ (if h1 then cat nd (fun m => project_one eps inv Pt Pf (Q * qc) (skipn (m * Q * Pf) fg)) else Ok (repeat 0%Re (Pt * Pf * nd))) ;;
  Ok (ip, gp).

(** enum equality *)
Definition fe_eqb (a b : fespace) : bool := match a, b with H1, H1 | Hdiv, Hdiv | Hcurl, Hcurl => true | _, _ => false end.
Definition is_h1 (a : fespace) : bool := match a with H1 => true | _ => false end.
(** CeedBasisGetInterp and CeedBasisGetGrad (ceed-basis.c:2217-2239, 2270-2297): for a tensor basis the full matrix is built *)
Definition interp_of (b : basis Rrng) : res (list real) := match b with BT t => ofopt (get_interp t) | BN n => Ok (n_interp n) end.
Definition grad_of (b : basis Rrng) : res (list real) := match b with BT t => ofopt (get_grad t) | BN n => Ok (n_grad n) end.

(** ceed-basis.c:196-292 CeedBasisCreateProjectionMatrices: (interp_project, grad_project).  Two tensor bases: the 1D
    matrices, with the number of 1D points of basis_from; otherwise the full matrices. *)
Definition proj_matrices (eps : real) (junk : nat -> real) (bf bt : basis Rrng) : res (list real * list real) :=
  if negb (b_qpts bt =? b_qpts bf) then Err ERR_DIMENSION else
  if negb (fe_eqb (b_fe bt) (b_fe bf)) then Err ERR_MINOR else
  match bf, bt with
  | BT f, BT t => proj_core eps junk true (t_Q f) 1 (t_P t) (t_P f) 1 (t_interp t) (t_interp f) (t_grad f)
  | _, _ =>
      it <~ interp_of bt ;; fi <~ interp_of bf ;;
      fg <~ (if is_h1 (b_fe bt) then grad_of bf else Ok []) ;;
      proj_core eps junk (is_h1 (b_fe bt)) (b_qpts bt) (q_comp bf EvInterp) (b_nodes bt) (b_nodes bf) (b_dim bf) it fi fg
  end.

(** CeedBasisCreateTensorH1 (ceed-basis.c:1456-1497, ceed-ref-basis.c:269-311) as in BasisModel, with the collocated gradient
    computed by CeedBasisGetCollocatedGrad (ceed-basis.c:703-727) when P_1d <= Q_1d and the basis is not collocated; its
    failure is the failure of the constructor *)
Definition tensor_create_qr (junk : nat -> real) (near : real -> real -> bool) (dim nc P Q : nat) (interp grad w : list real) : res (tbasis Rrng) :=
  t <~ @tensor_create Rrng near (fun _ _ _ _ => []) dim nc P Q interp grad w ;;
  match t_cg t with
  | None => Ok t
  | Some _ => cg <~ collo_grad junk P Q interp grad ;; Ok (@mkT Rrng dim nc P Q interp grad w (t_collo t) (Some cg))
  end.

(** ceed-basis.c:1473, 1612: the topology of a tensor basis is line, quad or hex, so its dimension is at most 3; the topology
    of a non-tensor basis has the dimension of the basis *)
Definition topo_dim (b : basis Rrng) : nat := match b with BT t => Nat.min 3 (t_dim t) | BN n => n_dim n end.

(** ceed-basis.c:1780-1822 CeedBasisCreateProjection; the quadrature weights are NULL, stored as zeros *)
Definition create_projection (eps : real) (junk : nat -> real) (near : real -> real -> bool) (bf bt : basis Rrng) : res (basis Rrng) :=
  st <~ proj_matrices eps junk bf bt ;;
  let '(ip, gp) := st in
  match bf, bt with
  | BT f, BT t => b <~ tensor_create_qr junk near (t_dim t) (t_nc f) (t_P f) (t_P t) ip gp (repeat 0%Re (t_P t)) ;; Ok (BT b)
  | _, _ => b <~ @nontensor_create Rrng H1 (topo_dim bf) (b_nc bf) (b_nodes bf) (b_nodes bt) ip gp (repeat 0%Re (b_nodes bt)) ;; Ok (BN b)
  end.
