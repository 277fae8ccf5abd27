(** * Estimates of floating-point operations, and versions of the reference kernels that count them

    Model of CeedBasisGetFlopsEstimate, CeedElemRestrictionGetFlopsEstimate, CeedOperatorGetFlopsEstimate, and of
    the reference basis application with a counter.  CeedInt overflow is modelled only where said. *)
From Coq Require Import List ZArith Lia Bool Arith.
From Verif Require Import Prelude RstrModel TensorModel BasisModel.
Import ListNotations.
Set Implicit Arguments.
Local Open Scope nat_scope.

(** ** The estimates *)
(** ceed-basis.c:900-904: the loop over the dimensions *)
Fixpoint tensor_loop (dim : nat) (P Q pre post : Z) : Z :=
  match dim with
  | 0 => 0%Z
  | S d => (2 * pre * P * post * Q + tensor_loop d P Q (pre / P) (post * Q))%Z
  end.
(** ceed-basis.c:909-913: pre is divided by P_1d though it is a power of Q_1d *)
Fixpoint point_loop (dim : nat) (P Q pre post : Z) : Z :=
  match dim with
  | 0 => 0%Z
  | S d => (2 * pre * Q * post * 1 + point_loop d P Q (pre / P) (post * Q))%Z
  end.
(** ceed-basis.c:881-986 CeedBasisGetFlopsEstimate for a tensor basis.  In transpose mode the two assignments at
    895-896 leave both sizes equal to Q_1d. *)
Definition tensor_flops (dim nc P Q : Z) (tm : tmode) (em : emode) (at_points : bool) (np : Z) : res Z :=
  let '(P, Q) := match tm with Transpose => let P' := Q in (P', P') | NoTranspose => (P, Q) end in
  let n := Z.to_nat dim in
  let tf := tensor_loop n P Q (nc * P ^ (dim - 1)) 1 in
  let more := match tm with Transpose => Q ^ dim | NoTranspose => 0 end%Z in
  if at_points then
    let ch := ((Q - 2) * 3 + 1)%Z in let dch := ((Q - 2) * 8 + 1)%Z in
    let pf := point_loop n P Q (Q ^ (dim - 1)) 1 in
    match em with
    | EvNone => Ok 0%Z
    | EvInterp => Ok (tf + np * (dim * ch + pf + more))%Z
    | EvGrad => Ok (tf + np * (dim * (dch + (dim - 1) * ch + pf + more)))%Z
    | EvDiv | EvCurl => Err ERR_INCOMPATIBLE
    | EvWeight => Ok np
    end
  else
    match em with
    | EvNone => Ok 0%Z
    | EvInterp => Ok tf
    | EvGrad => Ok (tf * 2)%Z
    | EvDiv | EvCurl => Err ERR_INCOMPATIBLE
    | EvWeight => Ok (dim * Q ^ dim)%Z
    end.
(** ceed-basis.c:963-983, non-tensor basis; 886 at points *)
Definition nontensor_flops (nc P Q qc : Z) (em : emode) (at_points : bool) : res Z :=
  if at_points then Err ERR_INCOMPATIBLE
  else match em with
       | EvNone | EvWeight => Ok 0%Z
       | EvInterp | EvGrad | EvDiv | EvCurl => Ok (P * Q * nc * qc)%Z
       end.
Definition basis_flops (R : Rng) (b : basis R) (tm : tmode) (em : emode) (at_points : bool) (np : Z) : res Z :=
  match b with
  | BT t => tensor_flops (Z.of_nat (t_dim t)) (Z.of_nat (t_nc t)) (Z.of_nat (t_P t)) (Z.of_nat (t_Q t)) tm em at_points np
  | BN n => nontensor_flops (Z.of_nat (n_nc n)) (Z.of_nat (n_P n)) (Z.of_nat (n_Q n)) (Z.of_nat (q_comp b em)) em at_points
  end.

(** ceed-elemrestriction.c:547-586 CeedElemRestrictionGetFlopsEstimate; the type of the restriction *)
Inductive rtype := RStd | RStrided | ROriented | RCurl | RPoints.
Definition rstr_flops (ty : rtype) (esize : Z) (tm : tmode) : Z :=
  (esize * match tm, ty with
           | Transpose, RPoints => 0
           | Transpose, RStrided | Transpose, RStd => 1
           | Transpose, ROriented => 2
           | Transpose, RCurl => 6
           | NoTranspose, ROriented => 1
           | NoTranspose, RCurl => 5
           | NoTranspose, _ => 0
           end)%Z.

(** ceed-operator.c:1727-1747: points per element, from the counts of all elements *)
Definition mean_points (device : bool) (counts : list Z) : Z :=
  if device then fold_right Z.max 0%Z counts
  else let n := fold_right Z.add 0%Z counts in let ne := Z.of_nat (length counts) in
       (n / ne + if (0 <? n mod ne)%Z then 1 else 0)%Z.

(** an operator field: active or not, its restriction and the estimate of its basis in the direction it is used *)
Record ffield := mkFF { ff_active : bool; ff_rt : rtype; ff_esize : Z; ff_basis : res Z }.
Definition INT_MAX : Z := 2147483647.
Fixpoint field_flops (tm : tmode) (ne : Z) (l : list ffield) (acc : Z) : res Z :=
  match l with
  | [] => Ok acc
  | f :: t =>
    if ff_active f then
      match ff_basis f with
      | Ok b => field_flops tm ne t (acc + rstr_flops (ff_rt f) (ff_esize f) tm + b * ne)%Z
      | Err e => Err e
      | UB => UB
      end
    else field_flops tm ne t acc
  end.
(** ceed-operator.c:1696-1817 CeedOperatorGetFlopsEstimate of an operator that is ready.  "num_elem * num_qpts * qf_flops"
    (1789) multiplies two CeedInt first; this product is checked for overflow. *)
Record fop := mkFO { fo_ne : Z; fo_nq : Z; fo_qf : Z; fo_in : list ffield; fo_out : list ffield }.
Definition op_flops1 (o : fop) : res Z :=
  if (fo_ne o =? 0)%Z then Ok 0%Z
  else match field_flops NoTranspose (fo_ne o) (fo_in o) 0 with
       | Ok a =>
         if negb (-1 <? fo_qf o)%Z then Err ERR_INCOMPLETE
         else if (INT_MAX <? fo_ne o * fo_nq o)%Z then UB
         else field_flops Transpose (fo_ne o) (fo_out o) (a + fo_ne o * fo_nq o * fo_qf o)%Z
       | r => r
       end.
Fixpoint comp_loop (l : list fop) (acc : Z) : res Z :=
  match l with
  | [] => Ok acc
  | o :: t => match op_flops1 o with Ok n => comp_loop t (acc + n)%Z | r => r end
  end.
Definition comp_flops (l : list fop) : res Z := comp_loop l 0.

(** ** Counting kernels *)
Section Count.
Variable R : Rng.
(** ceed-ref-tensor.c:16-38 with a counter: every "v += t * u" is one multiplication and one addition *)
Definition contract_c (A B C J : nat) (t : list R) (tm : tmode) (add : bool) (u v : list R) : option (list R * nat) :=
  v1 <- (if add then Some v else zero_first (A * J * C) v) ;;
  forN A (fun a s => forN B (fun b s => forN J (fun j s =>
    tq <- get t (j * ts0 tm B + b * ts1 tm J) ;;
    forN C (fun c s => x <- get u ((a * B + b) * C + c) ;;
                       w <- addat (fst s) ((a * J + j) * C + c) (tq * x)%R ;; Some (w, snd s + 2)) s) s) s) (v1, 0).

Definition kernelc := nat -> nat -> nat -> nat -> list R -> tmode -> bool -> list R -> list R -> option (list R * nat).
(** the sweeps of ceed-ref-basis.c (see [chain] and [dirs] of BasisModel.v), adding up the counts *)
Definition chain_c (k : kernelc) (dim nc ne P Q : nat) (mat : nat -> list R) (tm : tmode) (addl : bool)
    (u : list R) (T : bufs R) (out : list R) : option (bufs R * list R * nat) :=
  r <- forN dim (fun d (st : nat * nat * bufs R * list R * nat) =>
         let '(pre, post, T, out, n) := st in
         let src := if d =? 0 then u else getb (d mod 2) T in
         if d =? dim - 1
         then o <- k pre P post Q (mat d) tm addl src out ;; Some (pre / P, post * Q, T, fst o, n + snd o)
         else t <- k pre P post Q (mat d) tm false src (getb ((d + 1) mod 2) T) ;;
              Some (pre / P, post * Q, putb ((d + 1) mod 2) (fst t) T, out, n + snd t))
       (nc * P ^ (dim - 1), ne, T, out, 0) ;;
  Some (snd (fst (fst r)), snd (fst r), snd r).
Definition dirs_c (k : kernelc) (dim nc ne NQ P : nat) (mat : list R) (tm : tmode) (add : nat -> bool)
    (u out : list R) : option (list R * nat) :=
  r <- forN dim (fun d (st : nat * nat * list R * nat) =>
         let '(pre, post, out, n) := st in
         o <- match tm with
              | NoTranspose => w <- k pre P post P mat tm (add d) u (skipn (d * NQ * nc * ne) out) ;;
                               Some (firstn (d * NQ * nc * ne) out ++ fst w, snd w)
              | Transpose => k pre P post P mat tm (add d) (skipn (d * NQ * nc * ne) u) out
              end ;;
         Some (pre / P, post * P, fst o, n + snd o))
       (nc * P ^ (dim - 1), ne, out, 0) ;;
  Some (snd (fst r), snd r).

(** ceed-ref-basis.c:49-166: interpolation and gradient of a tensor basis (see [apply_tensor]), with the count *)
Definition apply_tensor_c (k : kernelc) (junk : nat -> nat -> R) (t : tbasis R) (apply_add : bool) (ne : nat)
    (tm : tmode) (em : emode) (u v : list R) : option (list R * nat) :=
  let add := apply_add || match tm with Transpose => true | NoTranspose => false end in
  let dim := t_dim t in let nc := t_nc t in
  let NP := t_P t ^ dim in let NQ := t_Q t ^ dim in
  match em with
  | EvInterp =>
      if t_collo t then
        v <- forN (ne * nc * NP) (fun i v => x <- get u i ;; set v i x) v ;; Some (v, 0)
      else
        let P := match tm with NoTranspose => t_P t | Transpose => t_Q t end in
        let Q := match tm with NoTranspose => t_Q t | Transpose => t_P t end in
        let n := ne * nc * Q * Nat.max P Q ^ (dim - 1) in
        r <- chain_c k dim nc ne P Q (fun _ => t_interp t) tm add u (alloc n (junk 0), alloc n (junk 1)) v ;;
        Some (snd (fst r), snd r)
  | EvGrad =>
      match t_cg t with
      | Some cg =>
          let P := match tm with NoTranspose => t_P t | Transpose => t_Q t end in
          let Q := t_Q t in
          let n := ne * nc * Q * Nat.max P Q ^ (dim - 1) in
          let T := (alloc n (junk 0), alloc n (junk 1)) in
          let itp := alloc n (junk 2) in
          match tm with
          | NoTranspose =>
              r <- chain_c k dim nc ne P Q (fun _ => t_interp t) tm false u T itp ;;
              o <- dirs_c k dim nc ne NQ Q cg tm (fun _ => apply_add) (snd (fst r)) v ;;
              Some (fst o, snd r + snd o)
          | Transpose =>
              o <- dirs_c k dim nc ne NQ Q cg tm (fun d => 0 <? d) u itp ;;
              r <- chain_c k dim nc ne Q (t_P t) (fun _ => t_interp t) tm true (fst o) T v ;;
              Some (snd (fst r), snd o + snd r)
          end
      | None =>
          if t_collo t then
            let P := match tm with NoTranspose => t_P t | Transpose => t_Q t end in
            dirs_c k dim nc ne NQ P (t_grad t) tm (fun d => add && (0 <? d)) u v
          else
            let P := match tm with NoTranspose => t_P t | Transpose => t_Q t end in
            let Q := match tm with NoTranspose => t_Q t | Transpose => t_P t end in
            let n := ne * nc * Q * Nat.max P Q ^ (dim - 1) in
            r <- forN dim (fun p (st : bufs R * list R * nat) =>
                   let '(T, v, c) := st in
                   let m d := if p =? d then t_grad t else t_interp t in
                   match tm with
                   | NoTranspose =>
                       r <- chain_c k dim nc ne P Q m tm add u T (skipn (p * nc * NQ * ne) v) ;;
                       Some (fst (fst r), firstn (p * nc * NQ * ne) v ++ snd (fst r), c + snd r)
                   | Transpose =>
                       r <- chain_c k dim nc ne P Q m tm add (skipn (p * nc * NQ * ne) u) T v ;;
                       Some (fst r, c + snd r)
                   end) ((alloc n (junk 0), alloc n (junk 1)), v, 0) ;;
            Some (snd (fst r), snd r)
      end
  | _ => None
  end.

(** ceed-ref-basis.c:200-232: interpolation, gradient, divergence, curl of a non-tensor basis, with the count *)
Definition strided_c (k : kernelc) (A B C D J : nat) (t : list R) (tm : tmode) (add : bool) (u v : list R) : option (list R * nat) :=
  forN D (fun d s =>
    o <- match tm with
         | Transpose => k A J C B (skipn (d * B * J) t) tm add (skipn (d * A * J * C) u) (fst s)
         | NoTranspose => w <- k A B C J (skipn (d * B * J) t) tm add u (skipn (d * A * J * C) (fst s)) ;;
                          Some (firstn (d * A * J * C) (fst s) ++ fst w, snd w)
         end ;;
    Some (fst o, snd s + snd o)) (v, 0).
Definition apply_nontensor_c (k : kernelc) (n : nbasis R) (apply_add : bool) (ne : nat)
    (tm : tmode) (em : emode) (u v : list R) : option (list R * nat) :=
  let add := apply_add || match tm with Transpose => true | NoTranspose => false end in
  let go m := strided_c k (n_nc n) (n_P n) ne (q_comp (BN n) em) (n_Q n) m tm add u v in
  match em with
  | EvInterp => go (n_interp n)
  | EvGrad => go (n_grad n)
  | EvDiv => go (n_div n)
  | EvCurl => go (n_curl n)
  | _ => None
  end.

(** ceed-basis.c:532-541 (interpolation to one point, not transposed), the contractions only: the calls of the kernel, for all components *)
Fixpoint point_calls (dim nc Q : nat) (pre : nat) : list (nat * nat * nat * nat) :=
  match dim with
  | 0 => []
  | S d => (pre, Q, 1, 1) :: point_calls d nc Q (pre / Q)
  end.
End Count.
Arguments contract_c {R}. Arguments chain_c {R}. Arguments dirs_c {R}. Arguments apply_tensor_c {R}.
Arguments strided_c {R}. Arguments apply_nontensor_c {R}.
