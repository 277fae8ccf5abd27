(** * Model of element restrictions on the memcheck backend, and of the layout and at-points queries

    backends/memcheck/ceed-memcheck-restriction.c is a copy of the ref file; compared line by line it
    differs in the strided kernels (46-70, 192-216: the strides behind CEED_STRIDES_BACKEND are component
    first), in the layouts reported at creation (663-676), in the range check of the offsets (696-705,
    performed for every resource), and in never selecting a specialised Apply (757).  All other kernels
    (72-190, 218-390) have the same text as ref's and are represented by the same definitions.  The
    output vector is a memcheck vector: CeedVectorGetArrayWrite (ceed-memcheck-vector.c:243-244) fills
    the whole array with NaN before a no-transpose apply ([nan] below).  Arrays are lists; error handling
    of the vector accesses is the subject of C56. *)
From Coq Require Import List ZArith Lia Bool Arith.
From Verif Require Import Prelude RstrModel.
Import ListNotations.
Set Implicit Arguments.

(** ceed-memcheck-restriction.c:19-41 CeedElemRestrictionGetBackendStrides_Memcheck *)
Definition mc_strides (nc es : nat) : Z * Z * Z := (Z.of_nat nc, 1%Z, Z.of_nat (nc * es)).

Section Kernels.
Variable R : Rng.
Local Open Scope nat_scope.

(** ceed-memcheck-restriction.c:46-70 CeedElemRestrictionApplyStridedNoTranspose_Memcheck_Core *)
Definition mc_strided_notranspose (backend : bool) (s0 s1 s2 : Z) (nc bs start stop ne es voff : nat)
    (u v : list R) : option (list R) :=
  let '(t0, t1, t2) := if backend then mc_strides nc es else (s0, s1, s2) in
  forR start stop (fun b v => let e := b * bs in
    forN nc (fun k v =>
      forN es (fun n v =>
        forN bs (fun j v =>
          x <- getZ u (Z.of_nat n * t0 + Z.of_nat k * t1 + Z.min (Z.of_nat (e + j)) (Z.of_nat ne - 1) * t2)%Z ;;
          set v (e * es * nc + (k * es + n) * bs + j - voff) x) v) v) v) v.

(** ceed-memcheck-restriction.c:192-216 CeedElemRestrictionApplyStridedTranspose_Memcheck_Core *)
Definition mc_strided_transpose (backend : bool) (s0 s1 s2 : Z) (nc bs start stop ne es voff : nat)
    (u v : list R) : option (list R) :=
  let '(t0, t1, t2) := if backend then mc_strides nc es else (s0, s1, s2) in
  forR start stop (fun b v => let e := b * bs in
    forN nc (fun k v =>
      forN es (fun n v =>
        forN (Nat.min bs (ne - e)) (fun j v =>
          x <- get u (e * es * nc + (k * es + n) * bs + j - voff) ;;
          addatZ v (Z.of_nat n * t0 + Z.of_nat k * t1 + Z.of_nat (e + j) * t2)%Z x) v) v) v) v.

(** ceed-memcheck-restriction.c:392-500 CeedElemRestrictionApply_Memcheck_Core; 409-415: the output array
    is invalidated when it is about to be overwritten. *)
Definition mc_core (nan : R) (r : rstr) (start stop : nat) (tm : tmode) (use_signs use_orients : bool)
    (u v : list R) : option (list R) :=
  let vv := match tm with NoTranspose => repeat nan (length v) | Transpose => v end in
  let voff := start * r_bs r * r_es r * r_nc r in
  match r_kind r, tm with
  | KStrided bk s0 s1 s2, NoTranspose =>
      mc_strided_notranspose bk s0 s1 s2 (r_nc r) (r_bs r) start stop (r_ne r) (r_es r) voff u vv
  | KStrided bk s0 s1 s2, Transpose =>
      mc_strided_transpose bk s0 s1 s2 (r_nc r) (r_bs r) start stop (r_ne r) (r_es r) voff u vv
  | _, _ => apply_core r start stop tm use_signs use_orients u vv
  end.

(** interface/ceed-elemrestriction.c:1296-1318 CeedElemRestrictionApply with
    ceed-memcheck-restriction.c:505-550 (Apply, ApplyUnsigned, ApplyUnoriented) *)
Definition mc_apply (nan : R) (w : variant) (r : rstr) (tm : tmode) (u v : list R) : res (list R) :=
  let '(min_u, min_v) := match tm with
                         | NoTranspose => (r_lsize r, r_esize r)
                         | Transpose => (r_esize r, r_lsize r)
                         end in
  if negb (min_u <=? length u) then Err ERR_DIMENSION
  else if negb (min_v <=? length v) then Err ERR_DIMENSION
  else if 0 <? r_ne r then ofopt (mc_core nan r 0 (r_nb r) tm (v_signs w) (v_orients w) u v)
  else Ok v.

(** interface/ceed-elemrestriction.c:1390-1428 CeedElemRestrictionApplyBlock with
    ceed-memcheck-restriction.c:568-580 *)
Definition mc_apply_block (nan : R) (w : variant) (r : rstr) (block : nat) (tm : tmode) (u v : list R) : res (list R) :=
  let blk := r_bs r * r_es r * r_nc r in
  let '(min_u, min_v) := match tm with
                         | NoTranspose => (r_lsize r, blk)
                         | Transpose => (blk, r_lsize r)
                         end in
  if negb (min_u =? length u) then Err ERR_DIMENSION
  else if negb (min_v =? length v) then Err ERR_DIMENSION
  else if negb (r_bs r * block <=? r_ne r) then Err ERR_DIMENSION
  else ofopt (mc_core nan r block (block + 1) tm true true u v).

(** interface/ceed-elemrestriction.c:1335-1373 CeedElemRestrictionApplyAtPointsInElement with
    ceed-memcheck-restriction.c:555-563: the same checks and kernel as on ref, on an invalidated array. *)
Definition mc_apply_points (nan : R) (r : rstr) (elem : nat) (tm : tmode) (u v : list R) : res (list R) :=
  rstr_apply_points r elem tm u (match tm with NoTranspose => repeat nan (length v) | Transpose => v end).

(** interface/ceed-elemrestriction.c:1707-1723 CeedElemRestrictionGetMultiplicity *)
Definition mc_multiplicity (nan : R) (w : variant) (r : rstr) (n : nat) (junk : list R) : res (list R) :=
  match mc_apply nan w r NoTranspose (repeat 1%R n) junk with
  | Ok e => mc_apply nan w r Transpose e (repeat 0%R n)
  | Err c => Err c
  | UB => UB
  end.
End Kernels.
Arguments mc_strided_notranspose {R}. Arguments mc_strided_transpose {R}. Arguments mc_core {R}.
Arguments mc_apply {R}. Arguments mc_apply_block {R}. Arguments mc_apply_points {R}. Arguments mc_multiplicity {R}.

(** ceed-memcheck-restriction.c:640-773 CeedElemRestrictionCreate_Memcheck, after the interface checks
    (interface/ceed-elemrestriction.c, see [rstr_create]): the range check is unconditional. *)
Definition mc_create (d : udesc) (bs : option nat) : res rstr := rstr_create true d bs.

(** ** Layouts *)

(** Which of the two families of CPU backends made the restriction. *)
Inductive backend := Ref | Memcheck.

(** rstr->l_layout as set at creation: ceed-ref-restriction.c:741-750, ceed-memcheck-restriction.c:663-676;
    zero (calloc) unless the restriction is strided with backend strides. *)
Definition l_layout_field (b : backend) (r : rstr) : Z * Z * Z :=
  match r_kind r with
  | KStrided true _ _ _ =>
      match b with
      | Ref => (1%Z, Z.of_nat (r_es r), Z.of_nat (r_es r * r_nc r))
      | Memcheck => mc_strides (r_nc r) (r_es r)
      end
  | _ => (0, 0, 0)%Z
  end.

(** interface/ceed-elemrestriction.c:356-373 CeedElemRestrictionGetLLayout *)
Definition get_llayout (b : backend) (r : rstr) : res (Z * Z * Z) :=
  match r_kind r with
  | KStrided true _ _ _ =>
      let '(l0, l1, l2) := l_layout_field b r in
      if (l0 =? 0)%Z then Err ERR_MINOR else Ok (l0, l1, l2)
  | KStrided false s0 s1 s2 => Ok (s0, s1, s2)
  | _ => Err ERR_MINOR
  end.

(** ** At-points queries *)

(** interface/ceed-elemrestriction.c:1536-1549 CeedElemRestrictionGetNumPointsInElement *)
Definition get_num_points (r : rstr) (elem : nat) : res Z :=
  match r_kind r with
  | KPoints offs => ofopt (num_points_in offs elem)
  | _ => Err ERR_INCOMPATIBLE
  end.

(** interface/ceed-elemrestriction.c:443-468 CeedElemRestrictionGetAtPointsElementOffset: the CPU backends
    do not provide the backend method, so the default loop runs. *)
Definition get_points_offset (r : rstr) (elem : nat) : res Z :=
  match r_kind r with
  | KPoints offs =>
      ofopt (forN elem (fun i acc => np <- num_points_in offs i ;; Some (acc + np * Z.of_nat (r_nc r))%Z) 0%Z)
  | _ => Err ERR_INCOMPATIBLE
  end.

(** interface/ceed-elemrestriction.c:1562-1589 CeedElemRestrictionGetMinMaxPointsInElement with both
    output pointers given; GetMax/GetMinPointsInElement (1602-1604, 1617-1619) pass one of them. *)
Definition get_minmax_points (r : rstr) : res (Z * Z) :=
  match r_kind r with
  | KPoints offs =>
      if r_ne r =? 0 then Ok (0, 0)%Z
      else ofopt (n0 <- num_points_in offs 0 ;;
                  forR 1 (r_ne r) (fun e (s : Z * Z) =>
                    np <- num_points_in offs e ;;
                    Some (Z.min np (fst s), Z.max np (snd s))) (n0, n0))
  | _ => Err ERR_INCOMPATIBLE
  end.
