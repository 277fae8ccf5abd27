(** * The arrays of an element restriction: who frees them, and when they may be read

    Model of the creation functions of interface/ceed-elemrestriction.c on the ref backend with respect to the memory that
    they are given and allocate, of the unsigned and unoriented copies, of read access to offsets and orientations, and of
    CeedElemRestrictionDestroy.  The numbers in the arrays are in RstrModel.v and are left out here; so are the Ceed (see
    RefModel.v), strides, at-points restrictions and failing allocations. *)
From Coq Require Import List ZArith Lia Bool Arith.
From Verif Require Import Prelude RstrModel VecModel.
Import ListNotations.
Local Open Scope Z_scope.

(** An allocated array: how often it was freed, and whether the user allocated it. *)
Record arr := AR { a_frees : nat; a_user : bool }.

(** array and array_owned of one of the three arrays in CeedElemRestriction_Ref (backends/ref/ceed-ref.h:20-32); the borrowed
    pointer is written but never read *)
Record slot := SL { s_cur : option nat; s_own : option nat }.
Definition empty : slot := SL None None.
Record impl := IM { i_off : slot; i_or : slot; i_cu : slot }.

(** struct CeedElemRestriction_private (include/ceed-impl.h:165-195).  r_data is the backend data, given by the object that
    allocated it; r_impl is that data, r_ilive whether it is allocated, r_destroy whether the Destroy function is set. *)
Record robj := RO { r_live : bool; r_ref : Z; r_readers : Z; r_base : option nat; r_data : nat;
                    r_impl : impl; r_ilive : bool; r_destroy : bool }.
Record st := ST { objs : list robj; arrs : list arr }.

(** what a call gives: error code and state, or undefined behaviour *)
Inductive res := Done (code : Z) (s : st) | Undef.
Definition setref (o : robj) (z : Z) : robj := RO (r_live o) z (r_readers o) (r_base o) (r_data o) (r_impl o) (r_ilive o) (r_destroy o).
Definition setreaders (o : robj) (z : Z) : robj := RO (r_live o) (r_ref o) z (r_base o) (r_data o) (r_impl o) (r_ilive o) (r_destroy o).
Definition setbase (o : robj) (b : option nat) : robj := RO (r_live o) (r_ref o) (r_readers o) b (r_data o) (r_impl o) (r_ilive o) (r_destroy o).
Definition dead (o : robj) : robj := RO false (r_ref o) (r_readers o) (r_base o) (r_data o) (r_impl o) (r_ilive o) (r_destroy o).
Definition noimpl (o : robj) : robj := RO (r_live o) (r_ref o) (r_readers o) (r_base o) (r_data o) (r_impl o) false (r_destroy o).
Definition put (s : st) (n : nat) (o : robj) : st := ST (upd (objs s) n o) (arrs s).
(** reading through a pointer to a freed structure is undefined *)
Definition get (s : st) (n : nat) : option robj :=
  match nth_error (objs s) n with Some o => if r_live o then Some o else None | None => None end.

(** malloc and calloc: ceed.c:250-282 *)
Definition new (l : list arr) (user : bool) : nat * list arr := (length l, l ++ [AR 0 user]).
(** ceed.c:327-332 CeedFree; freeing a freed array is undefined *)
Definition freea (l : list arr) (p : option nat) : option (list arr) :=
  match p with
  | None => Some l
  | Some a => match nth_error l a with
              | Some x => if Nat.eqb (a_frees x) 0 then Some (upd l a (AR 1 (a_user x))) else None
              | None => None end
  end.

(** ceed.c:348-376 CeedSetHostGenericArray on empty array, array_owned and array_borrowed *)
Definition sethost (l : list arr) (m : cmode) (src : option nat) : slot * list arr :=
  match m with
  | CopyValues => let '(a, l) := new l false in (SL (Some a) (Some a), l)
  | OwnPointer => (SL src src, l)
  | UsePointer => (SL src None, l)
  end.

Inductive kind := KStd | KOri | KCurl | KStrided.
(** Where the data that are not modelled here lead: the checks of the interface refuse the sizes (VDims), the range check of the
    backend refuses an offset (VRange, ceed-ref-restriction.c:763-769), or neither (VOk). *)
Inductive verdict := VDims | VRange | VOk.

(** backends/ref/ceed-ref-restriction.c:721-866 CeedElemRestrictionCreate_Ref: error code, backend data, whether the data was
    allocated, whether Destroy was registered, and the arrays. *)
Definition create_ref (l : list arr) (k : kind) (host : bool) (v : verdict) (m : cmode) (off ori cur : option nat)
    : Z * impl * bool * bool * list arr :=
  if negb host then (ERR_BACKEND, IM empty empty empty, false, false, l) else
  match k with
  | KStrided => (0, IM empty empty empty, true, true, l)
  | _ =>
    match v with
    | VRange => (ERR_BACKEND, IM empty empty empty, true, false, l)
    | _ =>
      let '(so, l1) := sethost l m off in
      match k with
      | KOri => match ori with
                | None => (ERR_BACKEND, IM so empty empty, true, false, l1)
                | _ => let '(sr, l2) := sethost l1 m ori in (0, IM so sr empty, true, true, l2) end
      | KCurl => match cur with
                 | None => (ERR_BACKEND, IM so empty empty, true, false, l1)
                 | _ => let '(sc, l2) := sethost l1 m cur in (0, IM so empty sc, true, true, l2) end
      | _ => (0, IM so empty empty, true, true, l1)
      end
    end
  end.

(** The new structure of a creation call, with count 1. *)
Definition fresh (s : st) (i : impl) (il d : bool) : robj := RO true 1 0 None (length (objs s)) i il d.

(** ceed-elemrestriction.c:628-657 CeedElemRestrictionCreate, 684-717 CreateOriented, 743-777 CreateCurlOriented and 798-832
    CreateStrided, where the backend has ElemRestrictionCreate.  The variable of the caller points to the new structure also
    when the backend fails; with VDims nothing is allocated. *)
Definition create (s : st) (k : kind) (host : bool) (v : verdict) (m : cmode) (off sec : option nat) : res :=
  match v with
  | VDims => Done ERR_DIMENSION s
  | _ =>
    let '(c, i, il, d, l) := create_ref (arrs s) k host v m off (match k with KOri => sec | _ => None end) (match k with KCurl => sec | _ => None end) in
    Done c (ST (objs s ++ [fresh s i il d]) l)
  end.

(** ceed-elemrestriction.c:926-968 CeedElemRestrictionCreateBlocked, 995-1037 CreateBlockedOriented, 1068-1110
    CreateBlockedCurlOriented and 1133-1170 CreateBlockedStrided: the padded arrays are allocated and handed over, and the
    offsets of the user are freed if they own them.  The memory type of the user is ignored, the orientations of the user are
    never freed, and are read without a check for NULL (here for at least one element). *)
Definition create_blocked (s : st) (k : kind) (v : verdict) (m : cmode) (off sec : option nat) : res :=
  match v with
  | VDims => Done ERR_DIMENSION s
  | _ =>
    let '(bo, l1) := match k with KStrided => (None, arrs s) | _ => let '(a, l) := new (arrs s) false in (Some a, l) end in
    let '(bs, l2) := match k with KOri | KCurl => let '(a, l) := new l1 false in (Some a, l) | _ => (None, l1) end in
    if (match k, sec with KOri, None | KCurl, None => true | _, _ => false end) then Undef else
    let '(c, i, il, d, l3) := create_ref l2 k true v OwnPointer bo (match k with KOri => bs | _ => None end) (match k with KCurl => bs | _ => None end) in
    if negb (c =? 0) then Done c (ST (objs s ++ [fresh s i il d]) l3)
    else match k, m with
         | KStrided, _ => Done 0 (ST (objs s ++ [fresh s i il d]) l3)
         | _, OwnPointer => match freea l3 off with
                            | Some l4 => Done 0 (ST (objs s ++ [fresh s i il d]) l4)
                            | None => Undef end
         | _, _ => Done 0 (ST (objs s ++ [fresh s i il d]) l3)
         end
  end.

(** backends/ref/ceed-ref-restriction.c:707-716 CeedElemRestrictionDestroy_Ref *)
Definition free_impl (l : list arr) (i : impl) : option (list arr) :=
  l <- freea l (s_own (i_off i)) ;; l <- freea l (s_own (i_or i)) ;; freea l (s_own (i_cu i)).

(** ceed-elemrestriction.c:1772-1788 CeedElemRestrictionDestroy; fuel bounds the chain of rstr_base. *)
Fixpoint destroy (fuel : nat) (s : st) (n : nat) : res :=
  match fuel with
  | O => Undef
  | S f =>
    match get s n with
    | None => Undef
    | Some o =>
      let o1 := setref o (r_ref o - 1) in
      let s1 := put s n o1 in
      if r_ref o1 >? 0 then Done 0 s1
      else if negb (r_readers o1 =? 0) then Done ERR_ACCESS s1
      else match r_base o1 with
           | Some b =>
             match destroy f s1 b with
             | Done c s2 => if negb (c =? 0) then Done c s2 else
               match get s2 n with Some o2 => Done 0 (put s2 n (dead (setbase o2 None))) | None => Undef end
             | Undef => Undef end
           | None =>
             if r_destroy o1 then
               if negb (r_ilive o1) then Undef else
               match free_impl (arrs s1) (r_impl o1) with
               | Some l => Done 0 (ST (upd (objs s1) n (dead (noimpl o1))) l)
               | None => Undef end
             else Done 0 (put s1 n (dead o1))
           end
    end
  end.
Definition destroy_ (s : st) (n : nat) : res := destroy (S (length (objs s))) s n.

(** ceed-elemrestriction.c:1251-1256 CeedElemRestrictionReferenceCopy into an empty variable *)
Definition reference (s : st) (n : nat) : res :=
  match get s n with Some o => Done 0 (put s n (setref o (r_ref o + 1))) | None => Undef end.

(** ceed-elemrestriction.c:1184-1202 CeedElemRestrictionCreateUnsignedCopy and 1216-1234 CreateUnorientedCopy: memcpy of the whole
    structure, then CeedElemRestrictionReferenceCopy into the copied rstr_base, which is released if it is set. *)
Definition ucopy (s : st) (n : nat) : res :=
  match get s n with
  | None => Undef
  | Some o =>
    let c := length (objs s) in
    let o1 := RO true 1 (r_readers o) (r_base o) (r_data o) (IM empty empty empty) false (r_destroy o) in
    let s1 := ST (objs s ++ [o1]) (arrs s) in
    match reference s1 n with
    | Undef => Undef
    | Done _ s2 =>
      match (match r_base o with None => Done 0 s2 | Some b => destroy_ s2 b end) with
      | Undef => Undef
      | Done e s3 => if negb (e =? 0) then Done e s3 else
        match get s3 c with Some o3 => Done 0 (put s3 c (setbase o3 (Some n))) | None => Undef end
      end
    end
  end.

Inductive which := GOff | GOri | GCurl.
(** ceed-elemrestriction.c:239-250 CeedElemRestrictionGetOffsets, which goes to rstr_base; 284-291 and 320-327 GetOrientations and
    GetCurlOrientations, which do not; with the functions of the ref backend (ceed-ref-restriction.c:665-702).  The object whose
    readers were counted, and the pointer. *)
Definition pick (w : which) (i : impl) : slot := match w with GOff => i_off i | GOri => i_or i | GCurl => i_cu i end.
Fixpoint root (fuel : nat) (s : st) (n : nat) : option nat :=
  match fuel with
  | O => None
  | S f => match get s n with
           | None => None
           | Some o => match r_base o with Some b => root f s b | None => Some n end end
  end.
Definition target (s : st) (w : which) (n : nat) : option nat :=
  match w with GOff => root (S (length (objs s))) s n | _ => match get s n with Some _ => Some n | None => None end end.
Definition readp (s : st) (w : which) (host : bool) (n : nat) : option (Z * nat * option nat * st) :=
  t <- target s w n ;;
  o <- get s t ;;
  (if negb (r_destroy o) then Some (ERR_UNSUPPORTED, t, None, s) else
   match nth_error (objs s) (r_data o) with
   | None => None
   | Some d =>
     if negb (r_ilive d) then None else
     if negb host then Some (ERR_BACKEND, t, None, s) else
     Some (0, t, s_cur (pick w (r_impl d)), put s t (setreaders o (r_readers o + 1)))
   end).
(** ceed-elemrestriction.c:262-270 CeedElemRestrictionRestoreOffsets, 302-306 and 338-342 *)
Definition restore (s : st) (w : which) (n : nat) : option (nat * st) :=
  t <- target s w n ;; o <- get s t ;; Some (t, put s t (setreaders o (r_readers o - 1))).

(** ** The client

    A client with its variables: handles to restrictions, pointers obtained and not yet restored (with the object whose readers
    were counted), the arrays handed over with CEED_OWN_POINTER, those passed with CEED_USE_POINTER to an
    unblocked restriction, and those handed over as orientations of a
    blocked restriction. *)
Record cl := CL { c_s : st; c_h : list nat; c_rd : list (nat * option nat); c_given : list nat; c_used : list nat; c_lost : list nat }.
Definition init : cl := CL (ST [] []) [] [] [] [] [].
Inductive op :=
| Alloc
| Create (bl : bool) (k : kind) (host : bool) (v : verdict) (m : cmode) (off : nat) (sec : option nat)
| Reference (n : nat)
| Copy (n : nat)
| GetP (w : which) (host : bool) (n : nat)
| RestoreP (w : which) (n : nat)
| Destroy (n : nat).
Fixpoint remove1 {A} (f : A -> bool) (l : list A) : list A :=
  match l with [] => [] | x :: t => if f x then t else x :: remove1 f t end.
(** the arrays that a creation call is passed *)
Definition passed (k : kind) (off : nat) (sec : option nat) : list nat :=
  match k with
  | KStrided => []
  | KStd => [off]
  | _ => off :: match sec with Some a => [a] | None => [] end end.
Definition passed_or (bl : bool) (k : kind) (sec : option nat) : list nat :=
  match k with KOri | KCurl => if bl then match sec with Some a => [a] | None => [] end else [] | _ => [] end.
Definition own (m : cmode) : bool := match m with OwnPointer => true | _ => false end.
Definition use (m : cmode) : bool := match m with UsePointer => true | _ => false end.

Inductive out := ODone (code : Z) (c : cl) | OUndef.
Definition step (c : cl) (x : op) : out :=
  let s := c_s c in
  match x with
  | Alloc => ODone 0 (CL (ST (objs s) (snd (new (arrs s) true))) (c_h c) (c_rd c) (c_given c) (c_used c) (c_lost c))
  | Create bl k host v m off sec =>
    match (if bl then create_blocked s k v m (Some off) sec else create s k host v m (Some off) sec) with
    | Undef => OUndef
    | Done e s' =>
      match v with
      | VDims => ODone e c
      | _ => ODone e (CL s' (length (objs s) :: c_h c) (c_rd c)
                        (if own m then passed k off sec ++ c_given c else c_given c)
                        (if use m && negb bl then passed k off sec ++ c_used c else c_used c)
                        (if own m then passed_or bl k sec ++ c_lost c else c_lost c))
      end
    end
  | Reference n => match reference s n with
                   | Done e s' => ODone e (CL s' (n :: c_h c) (c_rd c) (c_given c) (c_used c) (c_lost c))
                   | Undef => OUndef end
  | Copy n => match ucopy s n with
              | Done e s' => ODone e (CL s' (length (objs s) :: c_h c) (c_rd c) (c_given c) (c_used c) (c_lost c))
              | Undef => OUndef end
  | GetP w host n =>
    match readp s w host n with
    | None => OUndef
    | Some (e, t, p, s') => if e =? 0 then ODone 0 (CL s' (c_h c) ((t, p) :: c_rd c) (c_given c) (c_used c) (c_lost c)) else ODone e c
    end
  | RestoreP w n =>
    match restore s w n with
    | None => OUndef
    | Some (t, s') => ODone 0 (CL s' (c_h c) (remove1 (fun e => Nat.eqb (fst e) t) (c_rd c)) (c_given c) (c_used c) (c_lost c))
    end
  | Destroy n =>
    match destroy_ s n with
    | Undef => OUndef
    | Done e s' => ODone e (CL s' (if e =? 0 then remove1 (Nat.eqb n) (c_h c) else c_h c) (c_rd c) (c_given c) (c_used c) (c_lost c))
    end
  end.

(** ** The checks of the creation calls

    The checks on the sizes: ceed-elemrestriction.c:640-643, 698-701, 757-760, 810-815 and, blocked, 942-946, 1012-1015 (no check of
    num_elem), 1085-1089, 1147-1153. *)
Definition sizes_ok (bl : bool) (k : kind) (ne es bs nc cs ls : Z) : bool :=
  (match bl, k with true, KOri => true | _, _ => 0 <=? ne end) && (0 <? es) && (if bl then 0 <? bs else true) && (0 <? nc)
  && match k with KStrided => ne * es * nc <=? ls | _ => (nc =? 1) || (0 <? cs) end.
(** ceed-elemrestriction.c:929: the number of blocks, with the division of C *)
Definition num_block (ne bs : Z) : Z := Z.quot ne bs + (if Z.rem ne bs =? 0 then 0 else 1).
(** ceed-elemrestriction.c:40-46: the index read for lane j of the block that starts at element e, node k *)
Definition pad_read (ne es e j k : Z) : Z := Z.min (e + j) (ne - 1) * es + k.
