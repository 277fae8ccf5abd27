(** * Vectors: interface/ceed-vector.c over the reference backend

    A world holds the vectors, the heap and the array pointers the client has been given.  Blocks the client
    allocated are named [AU n], blocks the library allocated [AL n]; a block is its list of scalars, a freed
    block is [None] and addresses are never used again (simplification).  Pointers always point at the start of
    a block (simplification).  Vector lengths are natural numbers (a negative CeedSize is left out); the 64-bit
    counters wrap.  Every access of a dead block or outside a block, every NULL dereference and every double
    free is [RUB].  Out of memory is left out. *)
From Coq Require Import List ZArith Lia Bool Arith.
From Verif Require Import Prelude RstrModel.
Import ListNotations.
Set Implicit Arguments.

Inductive addr := AU (n : nat) | AL (n : nat).
Definition addr_eqb (a b : addr) : bool :=
  match a, b with AU n, AU m => n =? m | AL n, AL m => n =? m | _, _ => false end.
Notation ptr := (option addr).

(** include/ceed/types.h: CeedCopyMode, CeedNormType *)
Inductive cmode := CopyValues | UsePointer | OwnPointer.
Inductive ntype := Norm1 | Norm2 | NormMax.

(** include/ceed-impl.h:136-163 CeedVector_private and backends/ref/ceed-ref.h CeedVector_Ref *)
Record vec := mkV {
  v_len : nat; v_state : Z; v_readers : Z; v_refs : Z;
  v_owned : ptr; v_borrowed : ptr; v_array : ptr
}.
Definition two64 : Z := 18446744073709551616.
Definition add64 (x y : Z) : Z := Z.modulo (x + y) two64.
Definition with_state (x : vec) (s : Z) := mkV (v_len x) s (v_readers x) (v_refs x) (v_owned x) (v_borrowed x) (v_array x).
Definition with_readers (x : vec) (r : Z) := mkV (v_len x) (v_state x) r (v_refs x) (v_owned x) (v_borrowed x) (v_array x).
Definition with_refs (x : vec) (r : Z) := mkV (v_len x) (v_state x) (v_readers x) r (v_owned x) (v_borrowed x) (v_array x).
Definition with_arrays (x : vec) (o b a : ptr) := mkV (v_len x) (v_state x) (v_readers x) (v_refs x) o b a.

Section Vec.
Variable R : Rng.
Local Open Scope Z_scope.

Record world := mkW {
  w_vecs : nat -> option vec;
  w_heap : addr -> option (list R);
  w_nv : nat;                   (* next vector *)
  w_nl : nat;                   (* next library block *)
  w_nu : nat;                   (* next client block *)
  w_wptr : nat -> ptr;          (* client: pointer from the last GetArray / GetArrayWrite of a vector *)
  w_rptr : nat -> ptr           (* client: pointer from the last GetArrayRead of a vector *)
}.
Definition empty_world : world := mkW (fun _ => None) (fun _ => None) 0 0 0 (fun _ => None) (fun _ => None).

Definition nupd {A} (f : nat -> A) (k : nat) (x : A) : nat -> A := fun n => if Nat.eqb n k then x else f n.
Definition hupd (f : addr -> option (list R)) (k : addr) (x : option (list R)) : addr -> option (list R) :=
  fun n => if addr_eqb n k then x else f n.
Definition setv (w : world) (v : nat) (x : option vec) : world :=
  mkW (nupd (w_vecs w) v x) (w_heap w) (w_nv w) (w_nl w) (w_nu w) (w_wptr w) (w_rptr w).
Definition seth (w : world) (a : addr) (x : option (list R)) : world :=
  mkW (w_vecs w) (hupd (w_heap w) a x) (w_nv w) (w_nl w) (w_nu w) (w_wptr w) (w_rptr w).

(** ** Calls: a value and a world, an error code and a world, or undefined behaviour *)
Inductive out (A : Type) := ROk (a : A) (w : world) | RErr (e : Z) (w : world) | RUB.
Arguments ROk {A}. Arguments RErr {A}. Arguments RUB {A}.
Definition M (A : Type) := world -> out A.
Definition ret {A} (x : A) : M A := fun w => ROk x w.
Definition mbind {A B} (m : M A) (k : A -> M B) : M B :=
  fun w => match m w with ROk x w => k x w | RErr e w => RErr e w | RUB => RUB end.
Local Notation "x <~ m ;; k" := (mbind m (fun x => k)) (at level 61, m at next level, right associativity).
Local Notation "m ;;; k" := (mbind m (fun _ => k)) (at level 61, right associativity).
Definition fail {A} (e : Z) : M A := fun w => RErr e w.
Definition check (c : bool) (e : Z) : M unit := if c then ret tt else fail e.
(** include/ceed/backend.h:214 CeedCallBackend *)
Definition backend {A} (m : M A) : M A :=
  fun w => match m w with RErr e w => RErr (if 0 <? e then ERR_BACKEND else e) w | o => o end.

(** ** Memory *)
Definition getv (v : nat) : M vec := fun w => match w_vecs w v with Some x => ROk x w | None => RUB end.
Definition putv (v : nat) (x : vec) : M unit := fun w => ROk tt (setv w v (Some x)).
(** CeedCalloc *)
Definition calloc (n : nat) : M ptr := fun w =>
  let a := AL (w_nl w) in
  ROk (Some a) (mkW (w_vecs w) (hupd (w_heap w) a (Some (repeat 0%R n))) (w_nv w) (S (w_nl w)) (w_nu w) (w_wptr w) (w_rptr w)).
(** ceed.c:328-332 CeedFree *)
Definition free (p : ptr) : M unit := fun w =>
  match p with
  | None => ROk tt w
  | Some a => match w_heap w a with Some _ => ROk tt (seth w a None) | None => RUB end
  end.
Definition load (p : ptr) (i : Z) : M R := fun w =>
  match p with
  | None => RUB
  | Some a => match w_heap w a with Some l => match getZ l i with Some x => ROk x w | None => RUB end | None => RUB end
  end.
Definition store (p : ptr) (i : Z) (x : R) : M unit := fun w =>
  match p with
  | None => RUB
  | Some a => match w_heap w a with Some l => match setZ l i x with Some l => ROk tt (seth w a (Some l)) | None => RUB end | None => RUB end
  end.
(** memcpy of [n] > 0 scalars between different blocks; equal pointers overlap and are undefined *)
Definition memcpy (dst src : ptr) (n : nat) : M unit := fun w =>
  match dst, src with
  | Some d, Some s =>
      if addr_eqb d s then RUB
      else match w_heap w d, w_heap w s with
           | Some ld, Some ls => if (Nat.leb n (length ld) && Nat.leb n (length ls))%bool
                                 then ROk tt (seth w d (Some (firstn n ls ++ skipn n ld))) else RUB
           | _, _ => RUB
           end
  | _, _ => RUB
  end.

(** ** Backend *)
(** ceed.c:348-375 CeedSetHostGenericArray, on the three pointers of vector [v] *)
Definition set_host_array (v : nat) (mode : cmode) (src : ptr) : M unit :=
  x <~ getv v ;;
  match mode with
  | CopyValues =>
      (match v_array x with
       | Some _ => ret tt
       | None => match v_borrowed x with
                 | Some b => putv v (with_arrays x (v_owned x) (v_borrowed x) (Some b))
                 | None => match v_owned x with
                           | Some o => putv v (with_arrays x (v_owned x) (v_borrowed x) (Some o))
                           | None => o <~ calloc (v_len x) ;; putv v (with_arrays x o (v_borrowed x) o)
                           end
                 end
       end) ;;;
      match src with
      | Some _ => x <~ getv v ;; memcpy (v_array x) src (v_len x)
      | None => ret tt
      end
  | OwnPointer => free (v_owned x) ;;; putv v (with_arrays x src None src)
  | UsePointer => free (v_owned x) ;;; putv v (with_arrays x None src src)
  end.

(** ceed-ref-vector.c:42-56 CeedVectorSetArray_Ref; [host]: the memory type is CEED_MEM_HOST *)
Definition set_array_ref (v : nat) (host : bool) (mode : cmode) (src : ptr) : M unit :=
  check host ERR_BACKEND ;;; backend (set_host_array v mode src).
(** ceed-ref-vector.c:61-72 CeedVectorTakeArray_Ref *)
Definition take_array_ref (v : nat) (host : bool) : M ptr :=
  check host ERR_BACKEND ;;;
  x <~ getv v ;; putv v (with_arrays x (v_owned x) None None) ;;; ret (v_borrowed x).
(** ceed-ref-vector.c:75-84 CeedVectorGetArrayCore_Ref *)
Definition get_core_ref (v : nat) (host : bool) : M ptr :=
  check host ERR_BACKEND ;;; x <~ getv v ;; ret (v_array x).

(** ** Interface *)
Definition even (z : Z) : bool := Z.eqb (z mod 2) 0.
Definition pos (n : nat) : bool := Nat.ltb 0 n.
Definition isSome (p : ptr) : bool := match p with Some _ => true | None => false end.

(** ceed-vector.c:161-179 CeedVectorCreate (delegation: see CeedModel) *)
Definition vec_create (len : nat) : M nat := fun w =>
  ROk (w_nv w) (mkW (nupd (w_vecs w) (w_nv w) (Some (mkV len 0 0 1 None None None))) (w_heap w) (S (w_nv w)) (w_nl w) (w_nu w) (w_wptr w) (w_rptr w)).

(** ceed-vector.c:52-63 CeedVectorHasValidArray, ceed-ref-vector.c:18-25 *)
Definition has_valid (v : nat) : M bool :=
  x <~ getv v ;; ret (if Nat.eqb (v_len x) 0 then true else isSome (v_array x)).
(** ceed-vector.c:76-81 CeedVectorHasBorrowedArrayOfType, ceed-ref-vector.c:30-37 *)
Definition has_borrowed (v : nat) (host : bool) : M bool :=
  x <~ getv v ;; check host ERR_BACKEND ;;; ret (isSome (v_borrowed x)).

Definition unlocked (v : nat) : M unit :=
  x <~ getv v ;; check (even (v_state x)) ERR_ACCESS ;;; check (v_readers x =? 0) ERR_ACCESS.
Definition bump (v : nat) (k : Z) : M unit :=
  x <~ getv v ;; putv v (with_state x (add64 (v_state x) k)).

(** ceed-vector.c:316-328 CeedVectorSetArray *)
Definition vec_set_array (v : nat) (host : bool) (mode : cmode) (src : ptr) : M unit :=
  unlocked v ;;;
  x <~ getv v ;;
  (if pos (v_len x) then set_array_ref v host mode src else ret tt) ;;;
  bump v 2.

(** ceed-vector.c:448-471 CeedVectorTakeArray *)
Definition vec_take_array (v : nat) (host : bool) : M ptr :=
  unlocked v ;;;
  x <~ getv v ;;
  if pos (v_len x) then
    b <~ has_borrowed v host ;; check b ERR_BACKEND ;;;
    h <~ has_valid v ;; check h ERR_BACKEND ;;;
    take_array_ref v host
  else ret None.

(** ceed-vector.c:490-512 CeedVectorGetArray *)
Definition vec_get_array (v : nat) (host : bool) : M ptr :=
  unlocked v ;;;
  x <~ getv v ;;
  p <~ (if pos (v_len x) then h <~ has_valid v ;; check h ERR_BACKEND ;;; get_core_ref v host else ret None) ;;
  bump v 1 ;;; ret p.
(** ceed-vector.c:528-549 CeedVectorGetArrayRead *)
Definition vec_get_read (v : nat) (host : bool) : M ptr :=
  x <~ getv v ;; check (even (v_state x)) ERR_ACCESS ;;;
  p <~ (if pos (v_len x) then h <~ has_valid v ;; check h ERR_BACKEND ;;; get_core_ref v host else ret None) ;;
  x <~ getv v ;; putv v (with_readers x (add64 (v_readers x) 1)) ;;; ret p.
(** ceed-vector.c:565-581 CeedVectorGetArrayWrite, ceed-ref-vector.c:106-113 *)
Definition vec_get_write (v : nat) (host : bool) : M ptr :=
  unlocked v ;;;
  x <~ getv v ;;
  p <~ (if pos (v_len x) then
          (if isSome (v_array x) then ret tt else backend (vec_set_array v true CopyValues None)) ;;;
          get_core_ref v host
        else ret None) ;;
  bump v 1 ;;; ret p.
(** ceed-vector.c:593-602 CeedVectorRestoreArray (the caller's pointer is set to NULL by the caller's side) *)
Definition vec_restore (v : nat) : M unit :=
  x <~ getv v ;; check (negb (even (v_state x))) ERR_ACCESS ;;; bump v 1.
(** ceed-vector.c:614-624 CeedVectorRestoreArrayRead *)
Definition vec_restore_read (v : nat) : M unit :=
  x <~ getv v ;; check (0 <? v_readers x) ERR_ACCESS ;;; putv v (with_readers x (add64 (v_readers x) (-1))).

(** [for (i = 0; i < n; i++) dst[i] = f(srcs_1[i], ..., srcs_k[i])] *)
Fixpoint loads (ps : list ptr) (i : Z) : M (list R) :=
  match ps with [] => ret [] | p :: ps => x <~ load p i ;; xs <~ loads ps i ;; ret (x :: xs) end.
Fixpoint mfor (n : nat) (i : nat) (f : nat -> M unit) : M unit :=
  match n with O => ret tt | S n => f i ;;; mfor n (S i) f end.
Definition emap (n : nat) (dst : ptr) (srcs : list ptr) (f : list R -> R) : M unit :=
  mfor n 0 (fun i => xs <~ loads srcs (Z.of_nat i) ;; store dst (Z.of_nat i) (f xs)).
(** [for (i = start; i < stop; i += step) dst[i] = f(srcs[i])]; a loop that does not end within the [fuel] is
    one that never ends ([step] <= 0), which C leaves undefined *)
Fixpoint strided (fuel : nat) (i stop step : Z) (dst : ptr) (srcs : list ptr) (f : list R -> R) : M unit :=
  if i <? stop then
    match fuel with
    | O => fun _ => RUB
    | S fuel => xs <~ loads srcs i ;; store dst i (f xs) ;;; strided fuel (i + step) stop step dst srcs f
    end
  else ret tt.
Definition smap (start stop step : Z) := strided (Z.to_nat (stop - start)) start stop step.

(** ceed-vector.c:340-358 CeedVectorSetValue *)
Definition vec_set_value (v : nat) (x : R) : M unit :=
  unlocked v ;;;
  p <~ vec_get_write v true ;; y <~ getv v ;;
  emap (v_len y) p [] (fun _ => x) ;;;
  vec_restore v.
(** ceed-vector.c:375-398 CeedVectorSetValueStrided *)
Definition vec_set_value_strided (v : nat) (start stop step : Z) (x : R) : M unit :=
  unlocked v ;;;
  y <~ getv v ;; let len := Z.of_nat (v_len y) in
  check ((-1 <=? stop) && (stop <=? len)) ERR_ACCESS ;;;
  if len <=? 0 then ret tt
  else let stop := if stop =? -1 then len else stop in
       p <~ vec_get_array v true ;;
       smap start stop step p [] (fun _ => x) ;;;
       vec_restore v.
(** ceed-vector.c:413-431 CeedVectorSyncArray *)
Definition vec_sync (v : nat) (host : bool) : M unit :=
  x <~ getv v ;; check (even (v_state x)) ERR_ACCESS ;;;
  if Nat.eqb (v_len x) 0 then ret tt else vec_get_read v host ;;; vec_restore_read v.
(** ceed-vector.c:213-248 CeedVectorCopy (both on the host) *)
Definition vec_copy (v u : nat) : M unit :=
  x <~ getv v ;; y <~ getv u ;; check (Nat.eqb (v_len x) (v_len y)) ERR_INCOMPATIBLE ;;;
  p <~ vec_get_array v true ;; vec_set_array u true CopyValues p ;;; vec_restore v.
(** ceed-vector.c:263-299 CeedVectorCopyStrided *)
Definition vec_copy_strided (v : nat) (start stop step : Z) (u : nat) : M unit :=
  x <~ getv v ;; y <~ getv u ;;
  if (Nat.eqb (v_len x) 0 || Nat.eqb (v_len y) 0)%bool then ret tt
  else let len := Z.of_nat (Nat.min (v_len x) (v_len y)) in
    check ((-1 <=? stop) && (stop <=? len)) ERR_ACCESS ;;;
    check ((0 <=? start) && (start <=? len) && ((start <=? stop) || (stop =? -1))) ERR_ACCESS ;;;
    p <~ vec_get_read v true ;; q <~ vec_get_array u true ;;
    smap start (if stop =? -1 then len else stop) step q [p] (fun l => hd 0%R l) ;;;
    vec_restore_read v ;;; vec_restore u.

(** ceed-vector.c:661-676, the loops of CeedVectorNorm *)
Fixpoint norm_loop (fabs : R -> R) (gtb : R -> R -> bool) (nt : ntype) (p : ptr) (n : nat) (i : nat) (s : R) : M R :=
  match n with
  | O => ret s
  | S n => y <~ load p (Z.of_nat i) ;;
           norm_loop fabs gtb nt p n (S i)
             match nt with
             | Norm1 => (s + fabs y)%R
             | Norm2 => (s + fabs y * fabs y)%R
             | NormMax => if gtb s (fabs y) then s else fabs y
             end
  end.
(** ceed-vector.c:640-686 CeedVectorNorm; fabs, the comparison and sqrt are parameters *)
Definition vec_norm (fabs : R -> R) (gtb : R -> R -> bool) (sqrt : R -> R) (v : nat) (nt : ntype) : M R :=
  h <~ has_valid v ;; check h ERR_BACKEND ;;;
  x <~ getv v ;;
  if Nat.eqb (v_len x) 0 then ret 0%R
  else
    p <~ vec_get_read v true ;;
    s <~ norm_loop fabs gtb nt p (v_len x) 0%nat 0%R ;;
    vec_restore_read v ;;;
    ret match nt with Norm2 => sqrt s | _ => s end.

(** ceed-vector.c:698-722 CeedVectorScale *)
Definition vec_scale (v : nat) (alpha : R) : M unit :=
  h <~ has_valid v ;; check h ERR_BACKEND ;;;
  x <~ getv v ;;
  if Nat.eqb (v_len x) 0 then ret tt
  else p <~ vec_get_array v true ;; emap (v_len x) p [p] (fun l => hd 0%R l * alpha)%R ;;; vec_restore v.

(** ceed-vector.c:735-789 CeedVectorAXPY and 803-857 CeedVectorAXPBY ([f x y] is alpha x + y or alpha x + beta y);
    both vectors are of one Ceed *)
Definition vec_axp (f : R -> R -> R) (y x : nat) : M unit :=
  yy <~ getv y ;; xx <~ getv x ;;
  check (Nat.eqb (v_len xx) (v_len yy)) ERR_UNSUPPORTED ;;;
  check (negb (Nat.eqb x y)) ERR_UNSUPPORTED ;;;
  h <~ has_valid x ;; check h ERR_BACKEND ;;;
  h <~ has_valid y ;; check h ERR_BACKEND ;;;
  if Nat.eqb (v_len yy) 0 then ret tt
  else p <~ vec_get_array y true ;; q <~ vec_get_read x true ;;
       emap (v_len yy) p [q; p] (fun l => f (nth 0 l 0%R) (nth 1 l 0%R)) ;;;
       vec_restore y ;;; vec_restore_read x.
Definition vec_axpy (y : nat) (alpha : R) (x : nat) := vec_axp (fun a b => (b + alpha * a)%R) y x.
Definition vec_axpby (y : nat) (alpha beta : R) (x : nat) := vec_axp (fun a b => (alpha * a + beta * b)%R) y x.

(** ceed-vector.c:876-954 CeedVectorPointwiseMult, of one Ceed *)
Definition vec_pointwise_mult (w x y : nat) : M unit :=
  ww <~ getv w ;; xx <~ getv x ;; yy <~ getv y ;;
  check (Nat.leb (v_len ww) (v_len xx) && Nat.leb (v_len ww) (v_len yy)) ERR_UNSUPPORTED ;;;
  h <~ has_valid x ;; check h ERR_BACKEND ;;;
  h <~ has_valid y ;; check h ERR_BACKEND ;;;
  if Nat.eqb (v_len ww) 0 then ret tt
  else
    wp <~ (if (Nat.eqb x w || Nat.eqb y w)%bool then vec_get_array w true else vec_get_write w true) ;;
    xp <~ (if negb (Nat.eqb x w) then vec_get_read x true else ret wp) ;;
    yp <~ (if (negb (Nat.eqb y w) && negb (Nat.eqb y x))%bool then vec_get_read y true
           else ret (if Nat.eqb y x then xp else wp)) ;;
    emap (v_len ww) wp [xp; yp] (fun l => nth 0 l 0 * nth 1 l 0)%R ;;;
    (if (negb (Nat.eqb y w) && negb (Nat.eqb y x))%bool then vec_restore_read y else ret tt) ;;;
    (if negb (Nat.eqb x w) then vec_restore_read x else ret tt) ;;;
    vec_restore w.

(** ceed-vector.c:965-994 CeedVectorReciprocal; [big x] is fabs(x) > CEED_EPSILON *)
Definition vec_reciprocal (big : R -> bool) (inv : R -> R) (v : nat) : M unit :=
  h <~ has_valid v ;; check h ERR_BACKEND ;;;
  x <~ getv v ;; check (0 <? v_state x) ERR_INCOMPLETE ;;;
  if Nat.eqb (v_len x) 0 then ret tt
  else p <~ vec_get_array v true ;;
       emap (v_len x) p [p] (fun l => let y := hd 0%R l in if big y then inv y else y) ;;;
       vec_restore v.

(** ceed-vector.c:137-140 CeedVectorReference *)
Definition vec_reference (v : nat) : M unit := x <~ getv v ;; putv v (with_refs x (v_refs x + 1)).
(** ceed-vector.c:1106-1119 CeedVectorDestroy (of a real vector), ceed-ref-vector.c:127-134 *)
Definition vec_destroy (v : nat) : M unit :=
  x <~ getv v ;;
  let x := with_refs x (v_refs x - 1) in
  putv v x ;;;
  if 0 <? v_refs x then ret tt
  else unlocked v ;;; free (v_owned x) ;;; (fun w => ROk tt (setv w v None)).

(** ** Histories: API calls and the client's own actions on memory *)
(** an array argument: NULL, a client block, or the pointer obtained by read / write access to a vector *)
Inductive src := SNull | SUser (n : nat) | SRead (v : nat) | SWrite (v : nat).
Inductive cmd :=
| CCreate (len : nat)
| CSetArray (v : nat) (host : bool) (mode : cmode) (s : src)
| CTake (v : nat) (host : bool)
| CGet (v : nat) (host : bool) | CGetRead (v : nat) (host : bool) | CGetWrite (v : nat) (host : bool)
| CRestore (v : nat) | CRestoreRead (v : nat)
| CSetValue (v : nat) (x : R) | CSetValueStrided (v : nat) (start stop step : Z) (x : R)
| CSync (v : nat) (host : bool)
| CCopy (v u : nat) | CCopyStrided (v : nat) (start stop step : Z) (u : nat)
| CNorm (v : nat) (nt : ntype) | CScale (v : nat) (alpha : R)
| CAxpy (y : nat) (alpha : R) (x : nat) | CAxpby (y : nat) (alpha beta : R) (x : nat)
| CMult (w x y : nat) | CRecip (v : nat)
| CRef (v : nat) | CDestroy (v : nat)
| UAlloc (l : list R) | UFree (n : nat)                       (* client: allocate, free a block *)
| URead (n : nat) (i : nat) | UWrite (n : nat) (i : nat) (x : R)  (* client: access its own block *)
| VRead (v : nat) (i : nat) | VWrite (v : nat) (i : nat) (x : R)  (* client: access through a granted pointer *)
| VReadW (v : nat) (i : nat).                                     (* read through a pointer granted for writing *)
Inductive obs := ODone | OVal (x : R) | OPtr (p : ptr) | OId (v : nat).

Variables (fabs : R -> R) (gtb : R -> R -> bool) (sqrt : R -> R) (big : R -> bool) (inv : R -> R).
Definition src_ptr (s : src) : M ptr := fun w =>
  match s with SNull => ROk None w | SUser n => ROk (Some (AU n)) w | SRead v => ROk (w_rptr w v) w | SWrite v => ROk (w_wptr w v) w end.
Definition done {A} (m : M A) : M obs := m ;;; ret ODone.
Definition set_wptr (v : nat) (p : ptr) : M obs := fun w =>
  ROk ODone (mkW (w_vecs w) (w_heap w) (w_nv w) (w_nl w) (w_nu w) (nupd (w_wptr w) v p) (w_rptr w)).
Definition set_rptr (v : nat) (p : ptr) : M obs := fun w =>
  ROk ODone (mkW (w_vecs w) (w_heap w) (w_nv w) (w_nl w) (w_nu w) (w_wptr w) (nupd (w_rptr w) v p)).
Definition step (c : cmd) : M obs :=
  match c with
  | CCreate len => v <~ vec_create len ;; ret (OId v)
  | CSetArray v host mode s => p <~ src_ptr s ;; done (vec_set_array v host mode p)
  | CTake v host => p <~ vec_take_array v host ;; ret (OPtr p)
  | CGet v host => p <~ vec_get_array v host ;; set_wptr v p
  | CGetRead v host => p <~ vec_get_read v host ;; set_rptr v p
  | CGetWrite v host => p <~ vec_get_write v host ;; set_wptr v p
  | CRestore v => done (vec_restore v)
  | CRestoreRead v => done (vec_restore_read v)
  | CSetValue v x => done (vec_set_value v x)
  | CSetValueStrided v start stop step x => done (vec_set_value_strided v start stop step x)
  | CSync v host => done (vec_sync v host)
  | CCopy v u => done (vec_copy v u)
  | CCopyStrided v start stop step u => done (vec_copy_strided v start stop step u)
  | CNorm v nt => x <~ vec_norm fabs gtb sqrt v nt ;; ret (OVal x)
  | CScale v alpha => done (vec_scale v alpha)
  | CAxpy y alpha x => done (vec_axpy y alpha x)
  | CAxpby y alpha beta x => done (vec_axpby y alpha beta x)
  | CMult w x y => done (vec_pointwise_mult w x y)
  | CRecip v => done (vec_reciprocal big inv v)
  | CRef v => done (vec_reference v)
  | CDestroy v => done (vec_destroy v)
  | UAlloc l => fun w => ROk ODone (mkW (w_vecs w) (hupd (w_heap w) (AU (w_nu w)) (Some l)) (w_nv w) (w_nl w) (S (w_nu w)) (w_wptr w) (w_rptr w))
  | UFree n => done (free (Some (AU n)))
  | URead n i => x <~ load (Some (AU n)) (Z.of_nat i) ;; ret (OVal x)
  | UWrite n i x => done (store (Some (AU n)) (Z.of_nat i) x)
  | VRead v i => fun w => (x <~ load (w_rptr w v) (Z.of_nat i) ;; ret (OVal x)) w
  | VWrite v i x => fun w => done (store (w_wptr w v) (Z.of_nat i) x) w
  | VReadW v i => fun w => (x <~ load (w_wptr w v) (Z.of_nat i) ;; ret (OVal x)) w
  end.
End Vec.
Arguments ROk {R A}. Arguments RErr {R A}. Arguments RUB {R A}. Arguments empty_world {R}.
Arguments CCreate {R}. Arguments CSetArray {R}. Arguments CTake {R}. Arguments CGet {R}. Arguments CGetRead {R}. Arguments CGetWrite {R}.
Arguments CRestore {R}. Arguments CRestoreRead {R}. Arguments CSetValue {R}. Arguments CSetValueStrided {R}. Arguments CSync {R}.
Arguments CCopy {R}. Arguments CCopyStrided {R}. Arguments CNorm {R}. Arguments CScale {R}. Arguments CAxpy {R}. Arguments CAxpby {R}.
Arguments CMult {R}. Arguments CRecip {R}. Arguments CRef {R}. Arguments CDestroy {R}. Arguments UAlloc {R}. Arguments UFree {R}.
Arguments URead {R}. Arguments UWrite {R}. Arguments VRead {R}. Arguments VWrite {R}. Arguments VReadW {R}.
Arguments ODone {R}. Arguments OVal {R}. Arguments OPtr {R}. Arguments OId {R}.
Arguments getv {R}. Arguments putv {R}. Arguments calloc {R}. Arguments free {R}. Arguments load {R}. Arguments store {R}. Arguments memcpy {R}.
Arguments setv {R}. Arguments seth {R}. Arguments hupd {R}. Arguments ret {R A}. Arguments mbind {R A B}. Arguments fail {R A}. Arguments check {R}.
Arguments backend {R A}. Arguments set_host_array {R}. Arguments set_array_ref {R}. Arguments take_array_ref {R}. Arguments get_core_ref {R}.
Arguments vec_create {R}. Arguments has_valid {R}. Arguments has_borrowed {R}. Arguments unlocked {R}. Arguments bump {R}.
Arguments vec_set_array {R}. Arguments vec_take_array {R}. Arguments vec_get_array {R}. Arguments vec_get_read {R}. Arguments vec_get_write {R}.
Arguments vec_restore {R}. Arguments vec_restore_read {R}. Arguments loads {R}. Arguments mfor {R}. Arguments emap {R}. Arguments strided {R}. Arguments smap {R}.
Arguments vec_set_value {R}. Arguments vec_set_value_strided {R}. Arguments vec_sync {R}. Arguments vec_copy {R}. Arguments vec_copy_strided {R}.
Arguments vec_norm {R}. Arguments vec_scale {R}. Arguments vec_axp {R}. Arguments vec_axpy {R}. Arguments vec_axpby {R}. Arguments vec_pointwise_mult {R}.
Arguments vec_reciprocal {R}. Arguments vec_reference {R}. Arguments vec_destroy {R}. Arguments src_ptr {R}. Arguments done {R A}.
Arguments set_wptr {R}. Arguments set_rptr {R}. Arguments step {R}.

Arguments norm_loop {R}.
