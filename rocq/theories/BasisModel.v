(** * Basis application on the reference backend

    Vectors are the arrays obtained from them (locking is in VecModel.v); the contraction kernel is a
    parameter (ref, opt or AVX).  Variable-length scratch arrays are uninitialised in C: their contents are
    given by an arbitrary [junk], so no result may depend on them. *)
From Coq Require Import List ZArith Lia Bool Arith.
From Verif Require Import Prelude RstrModel TensorModel.
Import ListNotations.
Set Implicit Arguments.

(** include/ceed/types.h: CeedEvalMode, CeedFESpace *)
Inductive emode := EvNone | EvInterp | EvGrad | EvDiv | EvCurl | EvWeight.
Inductive fespace := H1 | Hdiv | Hcurl.

Section Basis.
Variable R : Rng.
Local Open Scope nat_scope.

(** include/ceed-impl.h CeedBasis_private (tensor part) with backends/ref/ceed-ref.h CeedBasis_Ref *)
Record tbasis := mkT {
  t_dim : nat; t_nc : nat; t_P : nat; t_Q : nat;
  t_interp : list R; t_grad : list R; t_w : list R;
  t_collo : bool;             (* has_collo_interp *)
  t_cg : option (list R)      (* collo_grad_1d *)
}.
(** non-tensor part; a missing (NULL) matrix is [] *)
Record nbasis := mkN {
  n_dim : nat; n_nc : nat; n_P : nat; n_Q : nat; n_fe : fespace;
  n_interp : list R; n_grad : list R; n_div : list R; n_curl : list R; n_w : list R
}.
Inductive basis := BT (t : tbasis) | BN (n : nbasis).

(** ceed-ref-basis.c:280-291: the test for an identity interpolation; [near x y] stands for
    [fabs(x - y) < 1e-14]. *)
Definition collo_test (near : R -> R -> bool) (P Q : nat) (interp : list R) : option bool :=
  if Q =? P then
    forN P (fun i h => x <- get interp (i + P * i) ;;
      forN P (fun j h => if j =? i then Some h else y <- get interp (j + P * i) ;; Some (h && near y 0%R))
        (h && near x 1%R)) true
  else Some false.

(** ceed-basis.c:1456-1497 CeedBasisCreateTensorH1 and ceed-ref-basis.c:278-316 CeedBasisCreateTensorH1_Ref.
    [cgf] stands for CeedBasisGetCollocatedGrad (ceed-basis.c:703-727); q_ref is not used by application and
    left out. *)
Definition tensor_create (near : R -> R -> bool) (cgf : nat -> nat -> list R -> list R -> list R)
    (dim nc P Q : nat) (interp grad w : list R) : res tbasis :=
  if dim =? 0 then Err ERR_DIMENSION else if nc =? 0 then Err ERR_DIMENSION
  else if P =? 0 then Err ERR_DIMENSION else if Q =? 0 then Err ERR_DIMENSION
  else match collo_test near P Q interp with
       | None => UB
       | Some c => Ok (mkT dim nc P Q interp grad w c
                           (if (P <=? Q) && negb c then Some (cgf P Q interp grad) else None))
       end.

(** memcpy of [n] scalars from [src] into a fresh array; reading past the end of [src] is undefined *)
Definition copyn (n : nat) (src : list R) : option (list R) := if n <=? length src then Some (firstn n src) else None.
(** ceed-basis.c:1594-1634 CeedBasisCreateH1, 1654-1694 CeedBasisCreateHdiv, 1714-1755 CeedBasisCreateHcurl, with
    the arrays given (not NULL).  [dim] is CeedBasisGetTopologyDimension of the topology, [deriv] the gradient,
    divergence or curl matrix; q_ref is not used by application and left out. *)
Definition nontensor_create (fe : fespace) (dim nc P Q : nat) (interp deriv w : list R) : res nbasis :=
  if nc =? 0 then Err ERR_DIMENSION else if P =? 0 then Err ERR_DIMENSION else if Q =? 0 then Err ERR_DIMENSION
  else
    let curl_comp := if dim <? 3 then 1 else dim in
    ofopt (ws <- copyn Q w ;;
      match fe with
      | H1 => i <- copyn (Q * P) interp ;; d <- copyn (dim * Q * P) deriv ;; Some (mkN dim nc P Q H1 i d [] [] ws)
      | Hdiv => i <- copyn (dim * Q * P) interp ;; d <- copyn (Q * P) deriv ;; Some (mkN dim nc P Q Hdiv i [] d [] ws)
      | Hcurl => i <- copyn (dim * Q * P) interp ;; d <- copyn (curl_comp * Q * P) deriv ;; Some (mkN dim nc P Q Hcurl i [] [] d ws)
      end).

Definition b_nc (b : basis) := match b with BT t => t_nc t | BN n => n_nc n end.
Definition b_dim (b : basis) := match b with BT t => t_dim t | BN n => n_dim n end.
(** ceed-basis.c:1482-1483: P = P_1d^dim, Q = Q_1d^dim *)
Definition b_nodes (b : basis) := match b with BT t => t_P t ^ t_dim t | BN n => n_P n end.
Definition b_qpts (b : basis) := match b with BT t => t_Q t ^ t_dim t | BN n => n_Q n end.
Definition b_fe (b : basis) := match b with BT _ => H1 | BN n => n_fe n end.

(** ceed-basis.c:841-868 CeedBasisGetNumQuadratureComponents *)
Definition q_comp (b : basis) (em : emode) : nat :=
  match em with
  | EvInterp => match b_fe b with H1 => 1 | _ => b_dim b end
  | EvGrad => b_dim b
  | EvDiv => 1
  | EvCurl => if b_dim b <? 3 then 1 else b_dim b
  | EvNone | EvWeight => 1
  end.

(** ceed-basis.c:2217-2239 CeedBasisGetInterp for a tensor basis *)
Definition get_interp (t : tbasis) : option (list R) :=
  let NP := t_P t ^ t_dim t in let NQ := t_Q t ^ t_dim t in
  forN (t_dim t) (fun d m => forN NQ (fun qpt m => forN NP (fun node m =>
    let p := (node / t_P t ^ d) mod t_P t in
    let q := (qpt / t_Q t ^ d) mod t_Q t in
    x <- get m (qpt * NP + node) ;; y <- get (t_interp t) (q * t_P t + p) ;;
    set m (qpt * NP + node) (x * y)%R) m) m) (repeat 1%R (NQ * NP)).

(** ceed-basis.c:2270-2297 CeedBasisGetGrad for a tensor basis *)
Definition get_grad (t : tbasis) : option (list R) :=
  let NP := t_P t ^ t_dim t in let NQ := t_Q t ^ t_dim t in
  forN (t_dim t) (fun d m => forN (t_dim t) (fun i m => forN NQ (fun qpt m => forN NP (fun node m =>
    let p := (node / t_P t ^ d) mod t_P t in
    let q := (qpt / t_Q t ^ d) mod t_Q t in
    x <- get m ((i * NQ + qpt) * NP + node) ;;
    y <- (if i =? d then get (t_grad t) (q * t_P t + p) else get (t_interp t) (q * t_P t + p)) ;;
    set m ((i * NQ + qpt) * NP + node) (x * y)%R) m) m) m) (repeat 1%R (t_dim t * NQ * NP)).

(** ** Application *)
Definition alloc (n : nat) (j : nat -> R) : list R := map j (seq 0 n).
Definition bufs := (list R * list R)%type.
Definition getb (i : nat) (T : bufs) : list R := if i =? 0 then fst T else snd T.
Definition putb (i : nat) (x : list R) (T : bufs) : bufs := if i =? 0 then (x, snd T) else (fst T, x).

(** The sweep over the directions that appears in ceed-ref-basis.c:72-78 (interpolation), 102-110
    (not transposed), 118-126 (transposed) and 155-165: direction [d] uses [mat d], intermediate results go
    through tmp[(d + 1) % 2], the last one to [out]. *)
Definition chain (k : kernel R) (dim nc ne P Q : nat) (mat : nat -> list R) (tm : tmode) (addl : bool)
    (u : list R) (T : bufs) (out : list R) : option (bufs * list R) :=
  r <- forN dim (fun d (st : nat * nat * bufs * list R) =>
         let '(pre, post, T, out) := st in
         let src := if d =? 0 then u else getb (d mod 2) T in
         if d =? dim - 1
         then o <- k pre P post Q (mat d) tm addl src out ;; Some (pre / P, post * Q, T, o)
         else t <- k pre P post Q (mat d) tm false src (getb ((d + 1) mod 2) T) ;;
              Some (pre / P, post * Q, putb ((d + 1) mod 2) t T, out))
       (nc * P ^ (dim - 1), ne, T, out) ;;
  Some (snd (fst r), snd r).

(** The sweep with one contraction per direction (identity in the others), slot d of the longer array:
    ceed-ref-basis.c:102-110 (transposed) / 118-126 (not transposed) with the collocated gradient, and 128-143
    (where P_1d = Q_1d) *)
Definition dirs (k : kernel R) (dim nc ne NQ P : nat) (mat : list R) (tm : tmode) (add : nat -> bool)
    (u out : list R) : option (list R) :=
  r <- forN dim (fun d (st : nat * nat * list R) =>
         let '(pre, post, out) := st in
         o <- match tm with
              | NoTranspose => at_off (d * NQ * nc * ne) (k pre P post P mat tm (add d) u) out
              | Transpose => k pre P post P mat tm (add d) (skipn (d * NQ * nc * ne) u) out
              end ;;
         Some (pre / P, post * P, o))
       (nc * P ^ (dim - 1), ne, out) ;;
  Some (snd r).

(** ceed-ref-basis.c:169-189: quadrature weights of a tensor basis *)
Definition weights (dim ne Q : nat) (w v : list R) : option (list R) :=
  forN dim (fun d v =>
    let pre := Q ^ (dim - d - 1) in let post := Q ^ d in
    forN pre (fun i v => forN Q (fun j v => forN post (fun k v =>
      wj <- get w j ;;
      x <- (if d =? 0 then Some 1%R else get v (((i * Q + j) * post + k) * ne)) ;;
      forN ne (fun e v => set v (((i * Q + j) * post + k) * ne + e) (wj * x)%R) v) v) v) v) v.

(** ceed-ref-basis.c:49-199, tensor basis.  [v] has already been zeroed in transpose mode.
    CEED_EVAL_DIV/CURL/NONE return CEED_ERROR_BACKEND. *)
Definition apply_tensor (k : kernel R) (junk : nat -> nat -> R) (t : tbasis) (apply_add : bool) (ne : nat)
    (tm : tmode) (em : emode) (u v : list R) : res (list R) :=
  let add := apply_add || match tm with Transpose => true | NoTranspose => false end in
  let dim := t_dim t in let nc := t_nc t in
  let NP := t_P t ^ dim in let NQ := t_Q t ^ dim in
  match em with
  | EvInterp =>
      if t_collo t then
        (* memcpy of num_elem * num_comp * num_nodes entries *)
        ofopt (forN (ne * nc * NP) (fun i v => x <- get u i ;; set v i x) v)
      else
        let P := match tm with NoTranspose => t_P t | Transpose => t_Q t end in
        let Q := match tm with NoTranspose => t_Q t | Transpose => t_P t end in
        let n := ne * nc * Q * Nat.max P Q ^ (dim - 1) in
        ofopt (r <- chain k dim nc ne P Q (fun _ => t_interp t) tm add u (alloc n (junk 0), alloc n (junk 1)) v ;;
               Some (snd r))
  | EvGrad =>
      match t_cg t with
      | Some cg =>
          let P := match tm with NoTranspose => t_P t | Transpose => t_Q t end in
          let Q := t_Q t in
          let n := ne * nc * Q * Nat.max P Q ^ (dim - 1) in
          let T := (alloc n (junk 0), alloc n (junk 1)) in
          let itp := alloc n (junk 2) in
          ofopt match tm with
          | NoTranspose =>
              r <- chain k dim nc ne P Q (fun _ => t_interp t) tm false u T itp ;;
              dirs k dim nc ne NQ Q cg tm (fun _ => apply_add) (snd r) v
          | Transpose =>
              itp <- dirs k dim nc ne NQ Q cg tm (fun d => 0 <? d) u itp ;;
              r <- chain k dim nc ne Q (t_P t) (fun _ => t_interp t) tm true itp T v ;;
              Some (snd r)
          end
      | None =>
          if t_collo t then
            let P := match tm with NoTranspose => t_P t | Transpose => t_Q t end in
            ofopt (dirs k dim nc ne NQ P (t_grad t) tm (fun d => add && (0 <? d)) u v)
          else
            let P := match tm with NoTranspose => t_P t | Transpose => t_Q t end in
            let Q := match tm with NoTranspose => t_Q t | Transpose => t_P t end in
            let n := ne * nc * Q * Nat.max P Q ^ (dim - 1) in
            ofopt (r <- forN dim (fun p (st : bufs * list R) =>
                     let (T, v) := st in
                     let m d := if p =? d then t_grad t else t_interp t in
                     match tm with
                     | NoTranspose =>
                         r <- chain k dim nc ne P Q m tm add u T (skipn (p * nc * NQ * ne) v) ;;
                         Some (fst r, firstn (p * nc * NQ * ne) v ++ snd r)
                     | Transpose =>
                         chain k dim nc ne P Q m tm add (skipn (p * nc * NQ * ne) u) T v
                     end) ((alloc n (junk 0), alloc n (junk 1)), v) ;;
                   Some (snd r))
      end
  | EvWeight =>
      match tm with Transpose => Err ERR_BACKEND | NoTranspose => ofopt (weights dim ne (t_Q t) (t_w t) v) end
  | EvDiv | EvCurl | EvNone => Err ERR_BACKEND
  end.

(** ceed-ref-basis.c:200-246, non-tensor basis *)
Definition apply_nontensor (k : kernel R) (n : nbasis) (apply_add : bool) (ne : nat)
    (tm : tmode) (em : emode) (u v : list R) : res (list R) :=
  let add := apply_add || match tm with Transpose => true | NoTranspose => false end in
  let go m := ofopt (contract_strided k (n_nc n) (n_P n) ne (q_comp (BN n) em) (n_Q n) m tm add u v) in
  match em with
  | EvInterp => go (n_interp n)
  | EvGrad => go (n_grad n)
  | EvDiv => go (n_div n)
  | EvCurl => go (n_curl n)
  | EvWeight =>
      match tm with
      | Transpose => Err ERR_BACKEND
      | NoTranspose => ofopt (forN (n_Q n) (fun i v => forN ne (fun e v => x <- get (n_w n) i ;; set v (i * ne + e) x) v) v)
      end
  | EvNone => Err ERR_BACKEND
  end.

(** ceed-ref-basis.c:19-251 CeedBasisApplyCore_Ref.  [u = None] is CEED_VECTOR_NONE. *)
Definition apply_core (k : kernel R) (junk : nat -> nat -> R) (b : basis) (apply_add : bool) (ne : nat)
    (tm : tmode) (em : emode) (u : option (list R)) (v : list R) : res (list R) :=
  match u, em with
  | None, EvInterp | None, EvGrad | None, EvDiv | None, EvCurl | None, EvNone => Err ERR_BACKEND
  | _, _ =>
      let u := match u with Some u => u | None => [] end in
      let v := match tm, apply_add with Transpose, false => repeat 0%R (length v) | _, _ => v end in
      match b with
      | BT t => apply_tensor k junk t apply_add ne tm em u v
      | BN n => apply_nontensor k n apply_add ne tm em u v
      end
  end.

(** ceed-basis.c:315-347 CeedBasisApplyCheckDims (lengths; CEED_VECTOR_NONE has length 0) *)
Definition check_dims (b : basis) (ne : nat) (tm : tmode) (em : emode) (ul vl : nat) : bool :=
  match em with
  | EvWeight => ne * b_qpts b <=? vl
  | _ => match tm with
         | Transpose => (ne * b_nc b * b_qpts b * q_comp b em <=? ul) && (ne * b_nc b * b_nodes b <=? vl)
         | NoTranspose => (ne * b_qpts b * b_nc b * q_comp b em <=? vl) && (ne * b_nc b * b_nodes b <=? ul)
         end
  end.
Definition olen (u : option (list R)) : nat := match u with Some u => length u | None => 0 end.

(** ceed-basis.c:1944-1949 CeedBasisApply *)
Definition basis_apply (k : kernel R) junk b ne tm em (u : option (list R)) (v : list R) : res (list R) :=
  if check_dims b ne tm em (olen u) (length v) then apply_core k junk b false ne tm em u v else Err ERR_DIMENSION.

(** ceed-basis.c:1972-1978 CeedBasisApplyAdd *)
Definition basis_apply_add (k : kernel R) junk b ne tm em (u : option (list R)) (v : list R) : res (list R) :=
  match tm with
  | NoTranspose => Err ERR_UNSUPPORTED
  | Transpose =>
      if check_dims b ne tm em (olen u) (length v) then apply_core k junk b true ne tm em u v else Err ERR_DIMENSION
  end.
End Basis.
Arguments mkT {R}. Arguments mkN {R}. Arguments BT {R}. Arguments BN {R}.
Arguments collo_test {R}. Arguments tensor_create {R}. Arguments b_nc {R}. Arguments b_dim {R}. Arguments b_nodes {R}.
Arguments copyn {R}. Arguments nontensor_create {R}. Arguments b_qpts {R}. Arguments b_fe {R}. Arguments q_comp {R}. Arguments get_interp {R}. Arguments get_grad {R}.
Arguments alloc {R}. Arguments getb {R}. Arguments putb {R}. Arguments chain {R}. Arguments dirs {R}. Arguments weights {R}.
Arguments apply_tensor {R}. Arguments apply_nontensor {R}. Arguments apply_core {R}. Arguments check_dims {R}.
Arguments olen {R}. Arguments basis_apply {R}. Arguments basis_apply_add {R}.
