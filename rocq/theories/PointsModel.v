(** * Evaluation of a tensor basis at arbitrary points (default implementation) *)
From Coq Require Import List ZArith Lia Bool Arith.
From Verif Require Import Prelude RstrModel TensorModel BasisModel.
Import ListNotations.
Set Implicit Arguments.

Section Points.
Variable R : Rng.
Local Open Scope nat_scope.
Definition two : R := (1 + 1)%R.

(** ceed-basis.c:48-53 CeedChebyshevPolynomialsAtPoint; [buf] is the caller's array *)
Definition cheb_vals (x : R) (n : nat) (buf : list R) : option (list R) :=
  b <- set buf 0 1%R ;;
  b <- set b 1 (two * x)%R ;;
  forR 2 n (fun i b => y <- get b (i - 1) ;; z <- get b (i - 2) ;; set b i (two * x * y - z)%R) b.

(** ceed-basis.c:66-81 CeedChebyshevDerivativeAtPoint; the state holds chebyshev_x[1], chebyshev_x[2] *)
Definition cheb_ders (x : R) (n : nat) (buf : list R) : option (list R) :=
  b <- set buf 0 0%R ;;
  b <- set b 1 two ;;
  r <- forR 2 n (fun i (st : R * R * list R) =>
         let '(x1, x2, b) := st in
         let x0 := x1 in
         let x1 := x2 in
         let x2 := (two * x * x1 - x0)%R in
         y <- get b (i - 1) ;; z <- get b (i - 2) ;;
         b <- set b i (two * x * y + two * x1 - z)%R ;;
         Some (x1, x2, b)) (1%R, (two * x)%R, b) ;;
  Some (snd r).

(** The array used in direction [d] of pass [pass] ([None]: interpolation) at point [p];
    [x] holds coordinate d of point p at d * np + p. *)
Definition cheb_dir (pass : option nat) (np Q p d : nat) (x buf : list R) : option (list R) :=
  xd <- get x (d * np + p) ;;
  if match pass with Some q => q =? d | None => false end then cheb_ders xd Q buf else cheb_vals xd Q buf.

(** ceed-basis.c:539-548, 561-571: contraction of the coefficients with the polynomials of each direction;
    every result goes to tmp[(d + 1) % 2].  Also returns the polynomial array, which is reused. *)
Definition point_contract (k : kernel R) (pass : option nat) (dim nc np Q p : nat) (x coeffs : list R)
    (T : bufs R) (buf : list R) : option (bufs R * list R) :=
  r <- forN dim (fun d (st : nat * bufs R * list R) =>
         let '(pre, T, buf) := st in
         buf <- cheb_dir pass np Q p d x buf ;;
         t <- k pre Q 1 1 buf NoTranspose false (if d =? 0 then coeffs else getb (d mod 2) T) (getb ((d + 1) mod 2) T) ;;
         Some (pre / Q, putb ((d + 1) mod 2) t T, buf)) (nc * Q ^ (dim - 1), T, buf) ;;
  Some (snd (fst r), snd r).

(** ceed-basis.c:533-579: nodes to points, given the coefficients.  [npass] and [pass i]: one pass without
    derivative for CEED_EVAL_INTERP, one pass per direction for CEED_EVAL_GRAD. *)
Definition points_n (k : kernel R) (npass : nat) (pass : nat -> option nat) (dim nc np Q : nat)
    (x coeffs : list R) (T : bufs R) (buf v : list R) : option (list R) :=
  r <- forN np (fun p (st : bufs R * list R * list R) =>
         forN npass (fun i (st : bufs R * list R * list R) =>
           let '(T, buf, v) := st in
           r <- point_contract k (pass i) dim nc np Q p x coeffs T buf ;;
           let (T, buf) := r in
           v <- forN nc (fun c v => y <- get (getb (dim mod 2) T) c ;; set v ((i * nc + c) * np + p) y) v ;;
           Some (T, buf, v)) st) (T, buf, v) ;;
  Some (snd r).

(** ceed-basis.c:606-619, 631-645: one point of one pass, transposed: the values at the point go to tmp[0],
    then one contraction per direction, the last one into the coefficients. *)
Definition point_expand (k : kernel R) (pass : option nat) (dim nc np Q p : nat) (addl : bool) (x : list R)
    (T : bufs R) (buf coeffs : list R) : option (bufs R * list R * list R) :=
  r <- forN dim (fun d (st : nat * bufs R * list R * list R) =>
         let '(post, T, buf, coeffs) := st in
         buf <- cheb_dir pass np Q p d x buf ;;
         if d =? dim - 1
         then o <- k nc 1 post Q buf Transpose addl (getb (d mod 2) T) coeffs ;; Some (post * Q, T, buf, o)
         else t <- k nc 1 post Q buf Transpose false (getb (d mod 2) T) (getb ((d + 1) mod 2) T) ;;
              Some (post * Q, putb ((d + 1) mod 2) t T, buf, coeffs)) (1, T, buf, coeffs) ;;
  let '(_, T, buf, coeffs) := r in Some (T, buf, coeffs).

(** ceed-basis.c:602-650: points to coefficients; only the very first pass overwrites. *)
Definition points_t (k : kernel R) (npass : nat) (pass : nat -> option nat) (dim nc np Q : nat)
    (x u : list R) (T : bufs R) (buf coeffs : list R) : option (list R) :=
  r <- forN np (fun p (st : bufs R * list R * list R) =>
         forN npass (fun i (st : bufs R * list R * list R) =>
           let '(T, buf, coeffs) := st in
           t0 <- forN nc (fun c t0 => y <- get u ((i * nc + c) * np + p) ;; set t0 c y) (fst T) ;;
           point_expand k (pass i) dim nc np Q p ((0 <? p) || ((p =? 0) && (0 <? i))) x (t0, snd T) buf coeffs) st) (T, buf, coeffs) ;;
  Some (snd r).

(** ceed-basis.c:368-423 CeedBasisApplyAtPointsCheckDims; the lengths are those of x_ref, u and v *)
Definition at_points_check (b : basis R) (npl : list nat) (tm : tmode) (em : emode) (xl ul vl : nat) : res unit :=
  let ne := length npl in
  let total := fold_right Nat.add 0 npl in
  let P := b_nodes b in
  if negb ((total * b_dim b <=? xl) || match em with EvWeight => true | _ => false end) then Err ERR_DIMENSION
  else if match em, tm with EvWeight, Transpose => true | _, _ => false end then Err ERR_UNSUPPORTED
  else
    let good q := match tm with
                  | Transpose => (q <=? ul) || (ne * P * b_nc b <=? vl)
                  | NoTranspose => (q <=? vl) || (ne * P * b_nc b <=? ul)
                  end in
    match em with
    | EvInterp => if good (total * q_comp b EvInterp) then Ok tt else Err ERR_DIMENSION
    | EvGrad => if good (total * q_comp b EvGrad * b_dim b) then Ok tt else Err ERR_DIMENSION
    | EvWeight => if total <=? vl then Ok tt else Err ERR_DIMENSION
    | EvNone | EvDiv | EvCurl => Err ERR_UNSUPPORTED
    end.

(** ceed-basis.c:446-647 CeedBasisApplyAtPoints_Core, called by CeedBasisApply[Add]AtPoints
    (ceed-basis.c:1999-2045) on CPU backends.  [cb] is basis_chebyshev, already created (its interp_1d comes
    from CeedBasisGetChebyshevInterp1D); [vc] is the content of vec_chebyshev, kept between calls (all zero
    after creation).  The result is the new content of vec_chebyshev and [v]. *)
Definition at_points_core (k : kernel R) (junk : nat -> nat -> R) (b : basis R) (cb : tbasis R) (aa : bool) (npl : list nat) (tm : tmode) (em : emode)
    (x u vc v : list R) : res (list R * list R) :=
  match npl with
  | [] => UB
  | np :: rest =>
      match b with
      | BN _ => Err ERR_UNSUPPORTED
      | BT t =>
          let dim := t_dim t in let nc := t_nc t in let Q := t_Q t in
          let T := (alloc (nc * Q ^ dim) (junk 3), alloc (nc * Q ^ dim) (junk 4)) in
          let buf := alloc Q (junk 5) in
          let npass := match em with EvGrad => dim | _ => 1 end in
          let pass i := match em with EvGrad => Some i | _ => None end in
          if negb (length rest =? 0) then Err ERR_UNSUPPORTED
          else match em with
          | EvWeight => Ok (vc, repeat 1%R (length v))
          | _ =>
              match tm with
              | NoTranspose =>
                  match basis_apply k junk (BT cb) 1 NoTranspose EvInterp (Some u) vc with
                  | Ok vc => match points_n k npass pass dim nc np Q x vc T buf v with Some v => Ok (vc, v) | None => UB end
                  | Err e => Err e
                  | UB => UB
                  end
              | Transpose =>
                  match points_t k npass pass dim nc np Q x u T buf vc with
                  | None => UB
                  | Some vc =>
                      match (if aa then basis_apply_add k junk (BT cb) 1 Transpose EvInterp (Some vc) v
                             else basis_apply k junk (BT cb) 1 Transpose EvInterp (Some vc) v) with
                      | Ok v => Ok (vc, v)
                      | Err e => Err e
                      | UB => UB
                      end
                  end
              end
          end
      end
  end.

Definition apply_at_points (k : kernel R) junk b cb (aa : bool) npl tm em (x u vc v : list R) : res (list R * list R) :=
  if aa && match tm with NoTranspose => true | Transpose => false end then Err ERR_UNSUPPORTED
  else match at_points_check b npl tm em (length x) (length u) (length v) with
       | Ok _ => at_points_core k junk b cb aa npl tm em x u vc v
       | Err e => Err e
       | UB => UB
       end.
End Points.
Arguments two {R}. Arguments cheb_vals {R}. Arguments cheb_ders {R}. Arguments cheb_dir {R}. Arguments point_contract {R}.
Arguments points_n {R}. Arguments point_expand {R}. Arguments points_t {R}. Arguments at_points_check {R}.
Arguments at_points_core {R}. Arguments apply_at_points {R}.
