(** * Element restrictions of the reference CPU backend

    Model of interface/ceed-elemrestriction.c (creation, apply) and
    backends/ref/ceed-ref-restriction.c (kernels).

    Simplifications common to all kernels:
    - a loop [for (e = start*bs; e < stop*bs; e += bs)] is written over the block
      number [b] with [e = b*bs];
    - sizes are unbounded naturals; the user's offsets and strides are integers and
      indices computed from them are checked with [getZ]/[addatZ];
    - [vv[...]]/[uu[...]] are the arrays obtained from the vectors (the vector
      locking protocol is modelled in VecModel.v);
    - [CeedPragmaSIMD]/[CeedPragmaAtomic] loops are executed in order. *)
From Coq Require Import List ZArith Lia Bool Arith.
From Verif Require Import Prelude.
Import ListNotations.
Set Implicit Arguments.

Inductive tmode := NoTranspose | Transpose.

(** include/ceed/types.h: CeedErrorType *)
Definition ERR_MINOR : Z := 1.
Definition ERR_DIMENSION : Z := 2.
Definition ERR_INCOMPLETE : Z := 3.
Definition ERR_INCOMPATIBLE : Z := 4.
Definition ERR_ACCESS : Z := 5.
Definition ERR_MAJOR : Z := -1.
Definition ERR_BACKEND : Z := -2.
Definition ERR_UNSUPPORTED : Z := -3.

(** Result of a call: value, error code, or undefined behaviour. *)
Inductive res (A : Type) := Ok (a : A) | Err (code : Z) | UB.
Arguments Ok {A} _. Arguments Err {A} _. Arguments UB {A}.
Definition ofopt {A} (o : option A) : res A := match o with Some a => Ok a | None => UB end.

(** CeedRestrictionType with the data the backend keeps for it
    (include/ceed-impl.h:154-183, backends/ref/ceed-ref.h: CeedElemRestriction_Ref). *)
Inductive rkind :=
| KStrided (backend : bool) (s0 s1 s2 : Z)
| KStandard (offs : list Z)
| KOriented (offs : list Z) (ors : list bool)
| KCurl (offs : list Z) (co : list Z)
| KPoints (offs : list Z).

(** include/ceed-impl.h: struct CeedElemRestriction_private *)
Record rstr := mkRstr {
  r_ne : nat;    (* num_elem *)
  r_es : nat;    (* elem_size *)
  r_nc : nat;    (* num_comp *)
  r_cs : nat;    (* comp_stride *)
  r_lsize : nat; (* l_size *)
  r_esize : nat; (* e_size *)
  r_nb : nat;    (* num_block *)
  r_bs : nat;    (* block_size *)
  r_kind : rkind
}.

Section Kernels.
Variable R : Rng.
Local Open Scope nat_scope.

(** Integers as scalars (the conversion of CeedInt8 to CeedScalar). *)
Definition zr (z : Z) : R :=
  match z with
  | Z0 => 0%R
  | Zpos p => Pos.iter (fun x => (x + 1)%R) 0%R p
  | Zneg p => (- Pos.iter (fun x => (x + 1)%R) 0%R p)%R
  end.

(** ceed-ref-restriction.c:19-57 CeedElemRestrictionApplyStridedNoTranspose_Ref_Core *)
Definition strided_notranspose (backend : bool) (s0 s1 s2 : Z) (nc bs start stop ne es voff : nat)
    (u v : list R) : option (list R) :=
  forR start stop (fun b v => let e := b * bs in
    forN nc (fun k v =>
      forN es (fun n v =>
        forN bs (fun j v =>
          let el := Z.min (Z.of_nat (e + j)) (Z.of_nat ne - 1) in
          let idx := if backend
                     then (Z.of_nat (n + k * es) + el * Z.of_nat es * Z.of_nat nc)%Z
                     else (Z.of_nat n * s0 + Z.of_nat k * s1 + el * s2)%Z in
          x <- getZ u idx ;;
          set v (e * es * nc + (k * es + n) * bs + j - voff) x) v) v) v) v.

(** ceed-ref-restriction.c:59-76 CeedElemRestrictionApplyOffsetNoTranspose_Ref_Core *)
Definition offset_notranspose (offs : list Z) (nc bs cs start stop es voff : nat)
    (u v : list R) : option (list R) :=
  forR start stop (fun b v => let e := b * bs in
    forN nc (fun k v =>
      forN (es * bs) (fun i v =>
        o <- get offs (i + e * es) ;;
        x <- getZ u (o + Z.of_nat (k * cs)) ;;
        set v (es * (k * bs + e * nc) + i - voff) x) v) v) v.

(** ceed-ref-restriction.c:78-96 CeedElemRestrictionApplyOrientedNoTranspose_Ref_Core *)
Definition oriented_notranspose (offs : list Z) (ors : list bool) (nc bs cs start stop es voff : nat)
    (u v : list R) : option (list R) :=
  forR start stop (fun b v => let e := b * bs in
    forN nc (fun k v =>
      forN (es * bs) (fun i v =>
        o <- get offs (i + e * es) ;;
        x <- getZ u (o + Z.of_nat (k * cs)) ;;
        s <- get ors (i + e * es) ;;
        set v (es * (k * bs + e * nc) + i - voff) (x * (if s then - (1) else 1))%R) v) v) v.

(** [uu[offsets[j + m*bs + e*es] + k*cs] * f(curl_orients[j + c*bs + e*3*es])], one term of the
    tridiagonal stencil; [f] is the identity or abs. *)
Definition curl_term (f : Z -> Z) (offs co : list Z) (bs cs es e k j m c : nat) (u : list R) : option R :=
  o <- get offs (j + m * bs + e * es) ;;
  x <- getZ u (o + Z.of_nat (k * cs)) ;;
  a <- get co (j + c * bs + e * 3 * es) ;;
  Some (x * zr (f a))%R.

(** ceed-ref-restriction.c:98-138 CeedElemRestrictionApplyCurlOrientedNoTranspose_Ref_Core
    ([f] = identity) and 140-181 ...CurlOrientedUnsigned... ([f] = abs).
    After the middle loop the C variable [n] is [max(1, es-1)]. *)
Definition curl_notranspose (f : Z -> Z) (offs co : list Z) (nc bs cs start stop es voff : nat)
    (u v : list R) : option (list R) :=
  forR start stop (fun b v => let e := b * bs in
    forN nc (fun k v =>
      let row n j := e * es * nc + (k * es + n) * bs + j - voff in
      let T := curl_term f offs co bs cs es e k in
      v1 <- forN bs (fun j v =>
              a <- T j 0 (3 * 0 + 1) u ;; b <- T j (0 + 1) (3 * 0 + 2) u ;;
              set v (row 0 j) (a + b)%R) v ;;
      v2 <- forR 1 (es - 1) (fun n v => forN bs (fun j v =>
              a <- T j (n - 1) (3 * n + 0) u ;; b <- T j n (3 * n + 1) u ;;
              c <- T j (n + 1) (3 * n + 2) u ;;
              set v (row n j) (a + b + c)%R) v) v1 ;;
      let n := Nat.max 1 (es - 1) in
      forN bs (fun j v =>
              a <- T j (n - 1) (3 * n + 0) u ;; b <- T j n (3 * n + 1) u ;;
              set v (row n j) (a + b)%R) v2) v) v.

(** ceed-ref-restriction.c:183-217 CeedElemRestrictionApplyStridedTranspose_Ref_Core *)
Definition strided_transpose (backend : bool) (s0 s1 s2 : Z) (nc bs start stop ne es voff : nat)
    (u v : list R) : option (list R) :=
  forR start stop (fun b v => let e := b * bs in
    forN nc (fun k v =>
      forN es (fun n v =>
        forN (Nat.min bs (ne - e)) (fun j v =>
          let idx := if backend
                     then Z.of_nat (n + k * es + (e + j) * es * nc)
                     else (Z.of_nat n * s0 + Z.of_nat k * s1 + Z.of_nat (e + j) * s2)%Z in
          x <- get u (e * es * nc + (k * es + n) * bs + j - voff) ;;
          addatZ v idx x) v) v) v) v.

(** ceed-ref-restriction.c:219-242 CeedElemRestrictionApplyOffsetTranspose_Ref_Core;
    the C loops over [i = n*bs] and [j = i .. i + min(bs, ne-e)] are written over [n] and [j - i]. *)
Definition offset_transpose (offs : list Z) (nc bs cs start stop ne es voff : nat)
    (u v : list R) : option (list R) :=
  forR start stop (fun b v => let e := b * bs in
    forN nc (fun k v =>
      forN es (fun n v =>
        forN (Nat.min bs (ne - e)) (fun j' v =>
          let j := n * bs + j' in
          x <- get u (es * (k * bs + e * nc) + j - voff) ;;
          o <- get offs (j + e * es) ;;
          addatZ v (o + Z.of_nat (k * cs)) x) v) v) v) v.

(** ceed-ref-restriction.c:244-267 CeedElemRestrictionApplyOrientedTranspose_Ref_Core *)
Definition oriented_transpose (offs : list Z) (ors : list bool) (nc bs cs start stop ne es voff : nat)
    (u v : list R) : option (list R) :=
  forR start stop (fun b v => let e := b * bs in
    forN nc (fun k v =>
      forN es (fun n v =>
        forN (Nat.min bs (ne - e)) (fun j' v =>
          let j := n * bs + j' in
          x <- get u (es * (k * bs + e * nc) + j - voff) ;;
          s <- get ors (j + e * es) ;;
          o <- get offs (j + e * es) ;;
          addatZ v (o + Z.of_nat (k * cs)) (x * (if s then - (1) else 1))%R) v) v) v) v.

(** One term [uu[e*es*nc + (k*es+m)*bs + j - voff] * f(curl_orients[j + c*bs + e*3*es])]. *)
Definition curl_term_t (f : Z -> Z) (co : list Z) (nc bs es voff e k j m c : nat) (u : list R) : option R :=
  x <- get u (e * es * nc + (k * es + m) * bs + j - voff) ;;
  a <- get co (j + c * bs + e * 3 * es) ;;
  Some (x * zr (f a))%R.

(** ceed-ref-restriction.c:269-316 CeedElemRestrictionApplyCurlOrientedTranspose_Ref_Core
    ([f] = identity) and 318-366 ...Unsigned... ([f] = abs).  The buffer [vv_loc[j]] is added
    right after it is computed (it does not depend on [vv]). *)
Definition curl_transpose (f : Z -> Z) (offs co : list Z) (nc bs cs start stop ne es voff : nat)
    (u v : list R) : option (list R) :=
  forR start stop (fun b v => let e := b * bs in
    forN nc (fun k v =>
      let bend := Nat.min bs (ne - e) in
      let T := curl_term_t f co nc bs es voff e k in
      let put n j x (v : list R) := o <- get offs (j + n * bs + e * es) ;; addatZ v (o + Z.of_nat (k * cs)) x in
      v1 <- forN bend (fun j v =>
              a <- T j 0 (3 * 0 + 1) u ;; b <- T j (0 + 1) (3 * 0 + 3) u ;;
              put 0 j (a + b)%R v) v ;;
      v2 <- forR 1 (es - 1) (fun n v => forN bend (fun j v =>
              a <- T j (n - 1) (3 * n - 1) u ;; b <- T j n (3 * n + 1) u ;;
              c <- T j (n + 1) (3 * n + 3) u ;;
              put n j (a + b + c)%R v) v) v1 ;;
      let n := Nat.max 1 (es - 1) in
      forN bend (fun j v =>
              a <- T j (n - 1) (3 * n - 1) u ;; b <- T j n (3 * n + 1) u ;;
              put n j (a + b)%R v) v2) v) v.

(** interface/ceed-elemrestriction.c:1536-1550 CeedElemRestrictionGetNumPointsInElement *)
Definition num_points_in (offs : list Z) (e : nat) : option Z :=
  a <- get offs (e + 1) ;; b <- get offs e ;; Some (a - b)%Z.

(** ceed-ref-restriction.c:368-393 CeedElemRestrictionApplyAtPointsInElement_Ref_Core; the loop state
    carries [e_vec_offset]. *)
Definition atpoints_core (tm : tmode) (offs : list Z) (nc start stop : nat) (u v : list R) : option (list R) :=
  r <- forR start stop (fun e (s : Z * list R) =>
         let '(eoff, v) := s in
         lo <- get offs e ;;
         np <- num_points_in offs e ;;
         v' <- forN (Z.to_nat np) (fun i v =>
                 forN nc (fun j v =>
                   o <- getZ offs (Z.of_nat i + lo) ;;
                   let li := (o * Z.of_nat nc + Z.of_nat j)%Z in
                   let ei := (Z.of_nat j * np + Z.of_nat i + eoff)%Z in
                   match tm with
                   | NoTranspose => x <- getZ u li ;; setZ v ei x
                   | Transpose => x <- getZ u ei ;; addatZ v li x
                   end) v) v ;;
         Some ((eoff + np * Z.of_nat nc)%Z, v')) (0%Z, v) ;;
  Some (snd r).

(** ceed-ref-restriction.c:395-502 CeedElemRestrictionApply_Ref_Core (dispatch on the type).
    The specialised CeedElemRestrictionApply_Ref_110 .. _581 (507-600) call it with the literal values that
    selected them (812-857), so they coincide with the generic call. *)
Definition apply_core (r : rstr) (start stop : nat) (tm : tmode) (use_signs use_orients : bool)
    (u v : list R) : option (list R) :=
  let nc := r_nc r in let bs := r_bs r in let cs := r_cs r in
  let ne := r_ne r in let es := r_es r in
  let voff := start * bs * es * nc in
  match tm, r_kind r with
  | Transpose, KStrided bk s0 s1 s2 => strided_transpose bk s0 s1 s2 nc bs start stop ne es voff u v
  | Transpose, KStandard offs => offset_transpose offs nc bs cs start stop ne es voff u v
  | Transpose, KOriented offs ors =>
      if use_signs then oriented_transpose offs ors nc bs cs start stop ne es voff u v
      else offset_transpose offs nc bs cs start stop ne es voff u v
  | Transpose, KCurl offs co =>
      if use_signs && use_orients then curl_transpose (fun z => z) offs co nc bs cs start stop ne es voff u v
      else if use_orients then curl_transpose Z.abs offs co nc bs cs start stop ne es voff u v
      else offset_transpose offs nc bs cs start stop ne es voff u v
  | NoTranspose, KStrided bk s0 s1 s2 => strided_notranspose bk s0 s1 s2 nc bs start stop ne es voff u v
  | NoTranspose, KStandard offs => offset_notranspose offs nc bs cs start stop es voff u v
  | NoTranspose, KOriented offs ors =>
      if use_signs then oriented_notranspose offs ors nc bs cs start stop es voff u v
      else offset_notranspose offs nc bs cs start stop es voff u v
  | NoTranspose, KCurl offs co =>
      if use_signs && use_orients then curl_notranspose (fun z => z) offs co nc bs cs start stop es voff u v
      else if use_orients then curl_notranspose Z.abs offs co nc bs cs start stop es voff u v
      else offset_notranspose offs nc bs cs start stop es voff u v
  | _, KPoints offs => atpoints_core tm offs nc start stop u v
  end.

(** Which variant of a restriction is applied: the restriction itself (ref Apply, 605-616),
    its unsigned copy (621-633) or its unoriented copy (638-650). *)
Inductive variant := Signed | Unsigned | Unoriented.
Definition v_signs (w : variant) : bool := match w with Signed => true | _ => false end.
Definition v_orients (w : variant) : bool := match w with Unoriented => false | _ => true end.

(** interface/ceed-elemrestriction.c:1296-1318 CeedElemRestrictionApply on the arrays of the two vectors *)
Definition rstr_apply (w : variant) (r : rstr) (tm : tmode) (u v : list R) : res (list R) :=
  let '(min_u, min_v) := match tm with
                         | NoTranspose => (r_lsize r, r_esize r)
                         | Transpose => (r_esize r, r_lsize r)
                         end in
  if negb (min_u <=? length u) then Err ERR_DIMENSION
  else if negb (min_v <=? length v) then Err ERR_DIMENSION
  else if 0 <? r_ne r then ofopt (apply_core r 0 (r_nb r) tm (v_signs w) (v_orients w) u v)
  else Ok v.

(** interface/ceed-elemrestriction.c:1390-1428 CeedElemRestrictionApplyBlock with
    ceed-ref-restriction.c:649-660 CeedElemRestrictionApplyBlock_Ref, always signed and oriented: the
    unsigned and unoriented copies (interface/ceed-elemrestriction.c:1181-1236) only replace Apply, so the
    variant is ignored. *)
Definition rstr_apply_block (w : variant) (r : rstr) (block : nat) (tm : tmode) (u v : list R) : res (list R) :=
  let blk := r_bs r * r_es r * r_nc r in
  let '(min_u, min_v) := match tm with
                         | NoTranspose => (r_lsize r, blk)
                         | Transpose => (blk, r_lsize r)
                         end in
  if negb (min_u =? length u) then Err ERR_DIMENSION
  else if negb (min_v =? length v) then Err ERR_DIMENSION
  else if negb (r_bs r * block <=? r_ne r) then Err ERR_DIMENSION
  else ofopt (apply_core r block (block + 1) tm true true u v).

(** interface/ceed-elemrestriction.c:1335-1373 CeedElemRestrictionApplyAtPointsInElement with
    ceed-ref-restriction.c:655-664 *)
Definition rstr_apply_points (r : rstr) (elem : nat) (tm : tmode) (u v : list R) : res (list R) :=
  match r_kind r with
  | KPoints offs =>
    match num_points_in offs elem with
    | None => UB
    | Some np =>
      let blk := (np * Z.of_nat (r_nc r))%Z in
      let '(min_u, min_v) := match tm with
                             | NoTranspose => (Z.of_nat (r_lsize r), blk)
                             | Transpose => (blk, Z.of_nat (r_lsize r))
                             end in
      if negb (min_u <=? Z.of_nat (length u))%Z then Err ERR_DIMENSION
      else if negb (min_v <=? Z.of_nat (length v))%Z then Err ERR_DIMENSION
      else if negb (elem <? r_ne r) then Err ERR_DIMENSION
      else ofopt (atpoints_core tm offs (r_nc r) elem (elem + 1) u v)
    end
  | _ => Err ERR_INCOMPATIBLE
  end.

(** interface/ceed-elemrestriction.c:1707-1723 CeedElemRestrictionGetMultiplicity; [n] is the length of
    the user's vector [mult].  The temporary E-vector starts with unspecified contents [junk]. *)
Definition rstr_multiplicity (w : variant) (r : rstr) (n : nat) (junk : list R) : res (list R) :=
  match rstr_apply w r NoTranspose (repeat 1%R n) junk with
  | Ok e => rstr_apply w r Transpose e (repeat 0%R n)
  | Err c => Err c
  | UB => UB
  end.
End Kernels.
Arguments strided_notranspose {R}. Arguments offset_notranspose {R}. Arguments oriented_notranspose {R}.
Arguments curl_term {R}. Arguments curl_notranspose {R}. Arguments strided_transpose {R}.
Arguments offset_transpose {R}. Arguments oriented_transpose {R}. Arguments curl_term_t {R}.
Arguments curl_transpose {R}. Arguments atpoints_core {R}. Arguments apply_core {R}.
Arguments rstr_apply {R}. Arguments rstr_apply_block {R}. Arguments rstr_apply_points {R}.
Arguments rstr_multiplicity {R}.

(** ** Creation *)

(** interface/ceed-elemrestriction.c:38-50 CeedPermutePadOffsets; 64-75 and 89-101 are the same loop for
    orientations and curl orientations.  [d] is the fill value of the calloc'd target. *)
Definition permute_pad {A} (d : A) (src : list A) (nb ne bs es : nat) : option (list A) :=
  forN nb (fun b dst => let e := b * bs in
    forN bs (fun j dst =>
      forN es (fun k dst =>
        x <- getZ src (Z.min (Z.of_nat (e + j)) (Z.of_nat ne - 1) * Z.of_nat es + Z.of_nat k) ;;
        set dst (e * es + k * bs + j) x) dst) dst) (repeat d (nb * bs * es)).

(** What the user passes to the creation calls. *)
Inductive ukind :=
| UStrided (s0 s1 s2 : Z)
| UStandard (offs : list Z)
| UOriented (offs : list Z) (ors : list bool)
| UCurl (offs co : list Z).
Record udesc := mkU { u_ne : nat; u_es : nat; u_nc : nat; u_cs : Z; u_lsize : nat; u_kind : ukind }.

(** ceed-ref-restriction.c:763-769: the range check, performed only for the resources
    /cpu/self/ref/serial and /cpu/self/ref/blocked ([checked]); it reads the first num_elem*elem_size
    entries of the array the backend was given. *)
Definition offsets_check (checked : bool) (offs : list Z) (ne es nc : nat) (cs : Z) (lsize : nat) : res unit :=
  if checked then
    match forN (ne * es) (fun i (bad : bool) =>
            o <- get offs i ;;
            Some (bad || negb ((0 <=? o) && (o + (Z.of_nat nc - 1) * cs <? Z.of_nat lsize))%Z)) false with
    | None => UB
    | Some true => Err ERR_BACKEND
    | Some false => Ok tt
    end
  else Ok tt.

(** interface/ceed-elemrestriction.c:221-226 CeedElemRestrictionHasBackendStrides *)
Definition backend_strides (s0 s1 s2 : Z) : bool := ((s0 =? 0) && (s1 =? 0) && (s2 =? 0))%Z.

Definition check_dims (d : udesc) (bs : option nat) : option Z :=
  if u_es d =? 0 then Some ERR_DIMENSION
  else if match bs with Some 0 => true | _ => false end then Some ERR_DIMENSION
  else if u_nc d =? 0 then Some ERR_DIMENSION
  else match u_kind d with
       | UStrided _ _ _ =>
           if u_lsize d <? u_ne d * u_es d * u_nc d then Some ERR_DIMENSION else None
       | _ => if negb ((u_nc d =? 1) || (0 <? u_cs d)%Z) then Some ERR_DIMENSION else None
       end.

(** The offsets the backend checks and keeps, with the type-specific data; [bs] = [None] for the
    unblocked creation calls (the user's arrays are passed through unchanged), [Some bs] for the blocked
    ones (arrays permuted and padded first). *)
Definition perm_opt {A} (bs : option nat) (nb ne : nat) (z : A) (l : list A) (es : nat) : option (list A) :=
  match bs with None => Some l | Some b => permute_pad z l nb ne b es end.
Definition make_kind (d : udesc) (bs : option nat) (nb : nat) : option rkind :=
  match u_kind d with
  | UStrided s0 s1 s2 => Some (KStrided (backend_strides s0 s1 s2) s0 s1 s2)
  | UStandard offs => o <- perm_opt bs nb (u_ne d) 0%Z offs (u_es d) ;; Some (KStandard o)
  | UOriented offs ors => o <- perm_opt bs nb (u_ne d) 0%Z offs (u_es d) ;; s <- perm_opt bs nb (u_ne d) false ors (u_es d) ;; Some (KOriented o s)
  | UCurl offs co => o <- perm_opt bs nb (u_ne d) 0%Z offs (u_es d) ;; c <- perm_opt bs nb (u_ne d) 0%Z co (3 * u_es d) ;; Some (KCurl o c)
  end.

Definition kind_offsets (k : rkind) : option (list Z) :=
  match k with
  | KStrided _ _ _ _ => None
  | KStandard o | KOriented o _ | KCurl o _ | KPoints o => Some o
  end.

(** interface/ceed-elemrestriction.c:628-664 (Create), 684-722 (Oriented), 743-781 (CurlOriented),
    798-831 (Strided), 926-966, 995-1045, 1068-1118, 1133-1170 (the Blocked variants), followed by
    ceed-ref-restriction.c:709-803.  Copying of the offset arrays is by value here; the component stride is
    kept as a natural number, its sign having been checked (it is unused when there is one component;
    strided restrictions leave it 0). *)
Definition rstr_create (checked : bool) (d : udesc) (bs : option nat) : res rstr :=
  match bs with Some 0 => UB (* num_elem / block_size is evaluated before the check *) | _ =>
  match check_dims d bs with
  | Some c => Err c
  | None =>
    let b := match bs with None => 1 | Some b => b end in
    let nb := match bs with
              | None => u_ne d
              | Some b => u_ne d / b + (if u_ne d mod b =? 0 then 0 else 1)
              end in
    match make_kind d bs nb with
    | None => UB
    | Some k =>
      let r := mkRstr (u_ne d) (u_es d) (u_nc d) (Z.to_nat (u_cs d)) (u_lsize d)
                      (nb * b * u_es d * u_nc d) nb b k in
      match kind_offsets k with
      | None => Ok r
      | Some offs =>
        match offsets_check checked offs (u_ne d) (u_es d) (u_nc d) (u_cs d) (u_lsize d) with
        | Ok _ => Ok r
        | Err c => Err c
        | UB => UB
        end
      end
    end
  end end.


(** interface/ceed-elemrestriction.c:866-899 CeedElemRestrictionCreateAtPoints, then
    ceed-ref-restriction.c:722-803: elem_size stays 0, so the range check of the offsets covers nothing;
    the E-vector size is recomputed from the element ranges (746-758) and must not shrink
    (interface/ceed-elemrestriction.c:480-492). *)
Definition points_total (ne : nat) (offs : list Z) : option (Z * Z) :=
  forN ne (fun i (s : Z * Z) => np <- num_points_in offs i ;; Some (Z.max (fst s) np, (snd s + np)%Z)) (0%Z, 0%Z).
Definition rstr_create_points (ne npts nc lsize : nat) (offs : list Z) : res rstr :=
  if nc =? 0 then Err ERR_DIMENSION
  else if lsize <? npts * nc then Err ERR_DIMENSION
  else match points_total ne offs with
  | None => UB
  | Some (mx, tot) =>
    match getZ offs (Z.of_nat ne), getZ offs (Z.of_nat ne - 1) with
    | Some a, Some b =>
      let esz := ((tot + (mx - (a - b))) * Z.of_nat nc)%Z in
      if (Z.of_nat (npts * nc) <=? esz)%Z
      then Ok (mkRstr ne 0 nc 1 lsize (Z.to_nat esz) ne 1 (KPoints offs))
      else Err ERR_INCOMPATIBLE
    | _, _ => UB
    end
  end.

(** ceed-ref-restriction.c:740-744, interface/ceed-elemrestriction.c:395-411: the E-vector layout the
    backend reports, and the position it documents for (node, component, element). *)
Definition e_layout (r : rstr) : nat * nat * nat := (1, r_es r, r_es r * r_nc r).
