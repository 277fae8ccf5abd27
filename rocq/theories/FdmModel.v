(** * Fast diagonalisation element inverse: interface/ceed-preconditioning.c:1074-1095, 2737-2959

    Scalars are real numbers (QrModel.v, whose simplifications apply: a division by zero is [UB]).  Further simplifications:
    - no backend on the CPU has CreateFDMElementInverse, and a fallback operator only moves the call to another Ceed object
      (2753-2766): the default implementation is modelled, lines 2773-2946;
    - the assembled QFunction ([asm], contents: C33) and the layout of its restriction are arguments;
    - the fields of an operator carry the evaluation mode of the QFunction field with the same index (OpModel.v);
    - integers do not overflow (CeedInt [count], CeedIntPow);
    - the memory of a failing call is not modelled. *)
From Coq Require Import List ZArith Lia Bool Arith Reals.
From Verif Require Import Prelude RstrModel TensorModel BasisModel OpModel DenseModel QrModel SchurModel ProjModel.
Import ListNotations.
Local Open Scope nat_scope.

(** ceed-preconditioning.c:1076-1082 and 1084-1091 (the same loops with grad_1d) *)
Definition gram (m w : list real) (P Q : nat) (A : list real) : res (list real) :=
  rfold (seq 0 P) (fun i A => rfold (seq 0 P) (fun j A =>
    s <~ rfold (seq 0 Q) (fun k s => a <~ og m (k * P + i) ;; x <~ og w k ;; b <~ og m (k * P + j) ;; Ok (s + a * x * b)%Re) 0%Re ;;
    put A (i + j * P) s) A) A.
(** 1092 *)
Definition perturbation (dim : nat) : real := if 2 <? dim then (/ 1000000)%Re else (/ 10000)%Re.
(** 1074-1095 CeedBuildMassLaplace: (mass, laplace), arrays from CeedCalloc (2803-2804) *)
Definition mass_laplace (interp grad w : list real) (P Q dim : nat) : res (list real * list real) :=
  mass <~ gram interp w P Q (repeat 0%Re (P * P)) ;;
  lap <~ gram grad w P Q (repeat 0%Re (P * P)) ;;
  lap <~ rfold (seq 0 P) (fun i A => a <~ og A (i + P * i) ;; put A (i + P * i) (a + perturbation dim)%Re) lap ;;
  Ok (mass, lap).
(** 2818-2820, the array from CeedCalloc (2806) *)
Definition fdm_interp (x : list real) (P : nat) : res (list real) :=
  rfold (seq 0 P) (fun i F => rfold (seq 0 P) (fun j F => a <~ og x (j + i * P) ;; put F (i + j * P) a) F) (repeat 0%Re (P * P)).
(** ceed-vector.c:676-680: CEED_NORM_MAX *)
Definition max_norm (l : list real) : real := fold_left (fun m a => if Rlt_dec (Rabs a) m then m else Rabs a) l 0%Re.
(** 2845-2859: one element.  [ni] is the number of assembled components the loop looks at *)
Definition elem_avg (bound : real) (asm qw : list real) (l0 l1 l2 nq ni e : nat) : res real :=
  ac <~ rfold (seq 0 nq) (fun q st => rfold (seq 0 ni) (fun i (st : real * nat) =>
          a <~ og asm (q * l0 + i * l1 + e * l2) ;;
          if Rlt_dec bound (Rabs a) then w <~ og qw q ;; x <~ rdiv a w ;; Ok ((fst st + x)%Re, S (snd st)) else Ok st) st) (0%Re, 0) ;;
  if snd ac =? 0 then Ok 1%Re else rdiv (fst ac) (INR (snd ac)).
(** 2841-2860: all elements *)
Definition elem_avgs (bound : real) (asm qw : list real) (l0 l1 l2 nq ni ne : nat) : res (list real) :=
  rfold (seq 0 ne) (fun e l => a <~ elem_avg bound asm qw l0 l1 l2 nq ni e ;; put l e a) (repeat 0%Re ne).
(** 2871-2884 *)
Definition fdm_diag (bound : real) (interp grad : bool) (dim nc P : nat) (lam : list real) : res (list real) :=
  let nn := P ^ dim in
  rfold (seq 0 nc) (fun c D => rfold (seq 0 nn) (fun n D =>
    D <~ (if interp then put D (c * nn + n) 1%Re else Ok D) ;;
    D <~ (if grad then rfold (seq 0 dim) (fun d D => x <~ og lam ((n / P ^ d) mod P) ;; y <~ og D (c * nn + n) ;; put D (c * nn + n) (y + x)%Re) D else Ok D) ;;
    y <~ og D (c * nn + n) ;;
    if Rlt_dec (Rabs y) bound then put D (c * nn + n) bound else Ok D) D) (repeat 0%Re (nc * nn)).
(** 2885-2894 *)
Definition fdm_data (ne nc nn : nat) (avg diag : list real) : res (list real) :=
  rfold (seq 0 ne) (fun e q => rfold (seq 0 nc) (fun c q => rfold (seq 0 nn) (fun n q =>
    a <~ og avg e ;; y <~ og diag (c * nn + n) ;; x <~ rdiv 1%Re (a * y)%Re ;; put q ((e * nc + c) * nn + n) x) q) q) (repeat 0%Re (ne * nc * nn)).

(** 2776-2790: which modes the active inputs have, and the basis and the restriction of the first active input.
    CEED_BASIS_NONE and CEED_ELEMRESTRICTION_NONE are not NULL, so they count as the first one: [Some None]. *)
Definition scan_step (st : bool * bool * option (option (basis Rrng)) * option (option nat)) (f : ofield Rrng) :=
  let '(i, g, b, r) := st in
  if is_active f then
    (i || match f_mode f with EvInterp => true | _ => false end, g || match f_mode f with EvGrad => true | _ => false end,
     match b with None => Some (f_basis f) | _ => b end, match r with None => Some (f_rstr f) | _ => r end)
  else st.
Definition fdm_scan (fs : list (ofield Rrng)) := fold_left scan_step fs (false, false, None, None).

(** What the call leaves: the restriction of the active input, the basis, the data of the scale field *)
Record fdm := mkF { fd_rstr : nat; fd_basis : tbasis Rrng; fd_data : list real }.

(** 2791-2914: from the fields to the basis and the data.  [eps] is CEED_EPSILON.  CeedBasisGetNumNodes1D (2792,
    ceed-basis.c:2140-2144) fails for every basis that is not a tensor basis, so the check of 2802 is never reached with one. *)
Definition fdm_create (eps : real) (junk : nat -> real) (bjunk : nat -> nat -> real) (near : real -> real -> bool) (k : kernel Rrng)
    (D : nat -> udesc) (fs : list (ofield Rrng)) (asm : list real) (l0 l1 l2 : nat) : res fdm :=
  let '(interp, grad, b, r) := fdm_scan fs in
  match b, r with
  | Some (Some (BT t)), Some (Some r) =>
      let P := t_P t in let dim := t_dim t in let nn := P ^ dim in let nq := t_Q t ^ dim in let nc := t_nc t in let ne := u_ne (D r) in
      ml <~ mass_laplace (t_interp t) (t_grad t) (t_w t) P (t_Q t) dim ;;
      xl <~ simdiag eps junk (snd ml) (fst ml) P ;;
      F <~ fdm_interp (fst xl) P ;;
      let modes := (if interp then 1 else 0) + (if grad then dim else 0) in
      qw <~ @basis_apply Rrng k bjunk (BT t) 1 NoTranspose EvWeight None (@alloc Rrng nq junk) ;;
      avg <~ elem_avgs (max_norm asm * 100 * eps)%Re asm qw l0 l1 l2 nq (nc * nc * modes * modes) ne ;;
      diag <~ fdm_diag (INR nn * eps)%Re interp grad dim nc P (snd xl) ;;
      qd <~ fdm_data ne nc nn avg diag ;;
      fb <~ tensor_create_qr junk near dim nc P P F (repeat 0%Re (P * P)) (repeat 0%Re P) ;;
      Ok (mkF r fb qd)
  | None, _ => Err ERR_BACKEND
  | Some (Some (BT _)), _ => UB
  | Some _, _ => Err ERR_MINOR
  end.

(** 2916-2921: the restriction of the data *)
Definition fdm_rstr (ne nc nn : nat) : udesc := mkU ne nn nc 0%Z (ne * nc * nn) (UStrided 1 (Z.of_nat nn) (Z.of_nat (nn * nc))).
(** include/ceed/jit-source/gallery/ceed-scale.h:13-27 at one point; the loop over the array is [q_scale] in GalModel.v (C48) *)
Definition pt_scale (nc : nat) (ins : list (list Rrng)) : list (list Rrng) :=
  [map (fun c => @vf Rrng (nth 0 ins []) c * @vf Rrng (nth 1 ins []) c)%R (seq 0 nc)].
(** 2923-2946: the operator.  [qi] names the restriction of the data, [qv] the vector of the data.  Scale has vec_length 1
    (gallery/scale/ceed-scale.c) *)
Definition fdm_oper (x : fdm) (ne qi qv : nat) : oper Rrng :=
  let t := fd_basis x in let nc := t_nc t in
  mkOp [mkOF nc EvInterp (Some (fd_rstr x)) (Some (BT t)) VAct; mkOF nc EvNone (Some qi) None (VPas qv)]
       [mkOF nc EvInterp (Some (fd_rstr x)) (Some (BT t)) VAct] ne (t_Q t ^ t_dim t) false 1 (pt_scale nc).
