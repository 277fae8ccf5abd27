(** * QFunction contexts: interface/ceed-qfunctioncontext.c over the reference backend

    A world holds one context, the heap and the pointers the client has been given.  Contexts share nothing but
    blocks of the client, so other contexts are part of the client here.  Blocks the client allocated are named
    [AU n], blocks the library allocated [AL n]; a block is its list of bytes, a freed block is [None] and
    addresses are never used again (simplification).  The 64-bit counters wrap.  Every access of a dead block or
    outside a block, every NULL dereference, every double free and every use of a destroyed context is [RUB].
    Out of memory is left out. *)
From Coq Require Import List ZArith Lia Bool Arith.
From Coq.Strings Require Import Byte.
From Verif Require Import Prelude RstrModel StrModel.
From Verif Require VecModel.
Import ListNotations.
Set Implicit Arguments.
Local Open Scope Z_scope.

Notation addr := VecModel.addr. Notation AU := VecModel.AU. Notation AL := VecModel.AL.
Notation addr_eqb := VecModel.addr_eqb. Notation cmode := VecModel.cmode.
Notation CopyValues := VecModel.CopyValues. Notation UsePointer := VecModel.UsePointer. Notation OwnPointer := VecModel.OwnPointer.
Notation add64 := VecModel.add64. Notation two64 := VecModel.two64. Notation even := VecModel.even. Notation nupd := VecModel.nupd.
Notation ptr := (option addr).
Definition bytes := list byte.
Definition bytes_eqb (a b : bytes) : bool := if list_eq_dec byte_eq_dec a b then true else false.

(** include/ceed/types.h:248-255 CeedContextFieldType *)
Inductive ftype := FDouble | FBool | FInt32.
Definition ftype_eqb (a b : ftype) : bool :=
  match a, b with FDouble, FDouble | FBool, FBool | FInt32, FInt32 => true | _, _ => false end.
(** ceed-qfunctioncontext.c:71-81 sizeof(double), sizeof(int), sizeof(bool) *)
Definition fsize (t : ftype) : nat := match t with FDouble => 8 | FInt32 => 4 | FBool => 1 end.
(** include/ceed-impl.h CeedContextFieldLabel_private (descriptions left out) *)
Record label := mkL { l_name : str; l_type : ftype; l_off : nat; l_size : nat; l_num : nat }.
(** The function a client passes to CeedQFunctionContextSetDataDestroy: the memory type it asks for, whether it
    frees the block it is given, and the code it returns. *)
Record dtor := mkD { d_host : bool; d_frees : bool; d_code : Z }.

(** include/ceed-impl.h:271-293 CeedQFunctionContext_private and backends/ref/ceed-ref.h CeedQFunctionContext_Ref *)
Record ctx := mkC {
  c_state : Z; c_readers : Z; c_refs : Z; c_size : nat;
  c_owned : ptr; c_borrowed : ptr; c_data : ptr;
  c_fields : list label; c_dtor : option dtor
}.
Definition with_state (x : ctx) (s : Z) := mkC s (c_readers x) (c_refs x) (c_size x) (c_owned x) (c_borrowed x) (c_data x) (c_fields x) (c_dtor x).
Definition with_readers (x : ctx) (r : Z) := mkC (c_state x) r (c_refs x) (c_size x) (c_owned x) (c_borrowed x) (c_data x) (c_fields x) (c_dtor x).
Definition with_refs (x : ctx) (r : Z) := mkC (c_state x) (c_readers x) r (c_size x) (c_owned x) (c_borrowed x) (c_data x) (c_fields x) (c_dtor x).
Definition with_size (x : ctx) (n : nat) := mkC (c_state x) (c_readers x) (c_refs x) n (c_owned x) (c_borrowed x) (c_data x) (c_fields x) (c_dtor x).
Definition with_ptrs (x : ctx) (o b d : ptr) := mkC (c_state x) (c_readers x) (c_refs x) (c_size x) o b d (c_fields x) (c_dtor x).
Definition with_fields (x : ctx) (l : list label) := mkC (c_state x) (c_readers x) (c_refs x) (c_size x) (c_owned x) (c_borrowed x) (c_data x) l (c_dtor x).
Definition with_dtor (x : ctx) (d : option dtor) := mkC (c_state x) (c_readers x) (c_refs x) (c_size x) (c_owned x) (c_borrowed x) (c_data x) (c_fields x) d.

Record world := mkW {
  w_ctx : option ctx;
  w_heap : addr -> option bytes;
  w_nl : nat;      (* next library block *)
  w_nu : nat;      (* next client block *)
  w_wptr : ptr;    (* client: pointer from the last GetData *)
  w_rptr : ptr     (* client: pointer from the last GetDataRead *)
}.
Definition hupd (f : addr -> option bytes) (k : addr) (x : option bytes) : addr -> option bytes :=
  fun n => if addr_eqb n k then x else f n.
Definition setc (w : world) (x : option ctx) : world := mkW x (w_heap w) (w_nl w) (w_nu w) (w_wptr w) (w_rptr w).
Definition seth (w : world) (a : addr) (x : option bytes) : world :=
  mkW (w_ctx w) (hupd (w_heap w) a x) (w_nl w) (w_nu w) (w_wptr w) (w_rptr w).

(** ** Calls: a value and a world, an error code and a world, or undefined behaviour *)
Inductive out (A : Type) := ROk (a : A) (w : world) | RErr (e : Z) (w : world) | RUB.
Arguments ROk {A}. Arguments RErr {A}. Arguments RUB {A}.
Definition M (A : Type) := world -> out A.
Definition ret {A} (x : A) : M A := fun w => ROk x w.
Definition mbind {A B} (m : M A) (k : A -> M B) : M B :=
  fun w => match m w with ROk x w => k x w | RErr e w => RErr e w | RUB => RUB end.
Local Notation "x <~ m ;; k" := (mbind m (fun x => k)) (at level 61, m at next level, right associativity).
Local Notation "m ;;; k" := (mbind m (fun _ => k)) (at level 61, right associativity).
Definition fail {A} (e : Z) : M A := fun w => RErr e w.
Definition check (c : bool) (e : Z) : M unit := if c then ret tt else fail e.

Definition getc : M ctx := fun w => match w_ctx w with Some x => ROk x w | None => RUB end.
Definition putc (x : ctx) : M unit := fun w => ROk tt (setc w (Some x)).
(** ceed.c:328-332 CeedFree *)
Definition free (p : ptr) : M unit := fun w =>
  match p with
  | None => ROk tt w
  | Some a => match w_heap w a with Some _ => ROk tt (seth w a None) | None => RUB end
  end.
(** the block behind a pointer *)
Definition block (p : ptr) : M (addr * bytes) := fun w =>
  match p with Some a => match w_heap w a with Some l => ROk (a, l) w | None => RUB end | None => RUB end.
(** [n] bytes at [&p[off]] *)
Definition mread (p : ptr) (off n : nat) : M bytes :=
  al <~ block p ;;
  if Nat.leb (off + n) (length (snd al)) then ret (firstn n (skipn off (snd al))) else fun _ => RUB.
(** memcpy(&p[off], l, length l) from memory that does not overlap *)
Definition mwrite (p : ptr) (off : nat) (l : bytes) : M unit :=
  al <~ block p ;;
  if Nat.leb (off + length l) (length (snd al))
  then fun w => ROk tt (seth w (fst al) (Some (firstn off (snd al) ++ l ++ skipn (off + length l) (snd al))))
  else fun _ => RUB.
(** CeedMallocArray of [length l] bytes followed by a memcpy of [l] into them *)
Definition malloc_copy (l : bytes) : M ptr := fun w =>
  let a := AL (w_nl w) in
  ROk (Some a) (mkW (w_ctx w) (hupd (w_heap w) a (Some l)) (S (w_nl w)) (w_nu w) (w_wptr w) (w_rptr w)).

Definition isSome (p : ptr) : bool := match p with Some _ => true | None => false end.

(** ** Backend: ceed-ref-qfunctioncontext.c *)
(** 41-68 CeedQFunctionContextSetData_Ref.  The bytes of CEED_COPY_VALUES are read after the old buffer is freed. *)
Definition set_data_ref (host : bool) (mode : cmode) (src : ptr) : M unit :=
  x <~ getc ;;
  check host ERR_BACKEND ;;;
  free (c_owned x) ;;;
  match mode with
  | CopyValues => l <~ mread src 0 (c_size x) ;; o <~ malloc_copy l ;; putc (with_ptrs x o None o)
  | OwnPointer => putc (with_ptrs x src None src)
  | UsePointer => putc (with_ptrs x None src src)
  end.
(** 73-84 CeedQFunctionContextTakeData_Ref *)
Definition take_data_ref (host : bool) : M ptr :=
  check host ERR_BACKEND ;;; x <~ getc ;; putc (with_ptrs x (c_owned x) None None) ;;; ret (c_data x).
(** 89-98 CeedQFunctionContextGetData_Ref, also installed as GetDataRead (132) *)
Definition get_data_ref (host : bool) : M ptr := check host ERR_BACKEND ;;; x <~ getc ;; ret (c_data x).

(** ** Interface: ceed-qfunctioncontext.c *)
(** 567-583 CeedQFunctionContextCreate: calloc, reference count 1 *)
Definition ctx_create : M unit := fun w => ROk tt (setc w (Some (mkC 0 0 1 0 None None None [] None))).
(** 36-42 CeedQFunctionContextGetFieldIndex: the last match *)
Fixpoint field_index (i : nat) (fs : list label) (name : str) (r : option nat) : option nat :=
  match fs with
  | [] => r
  | f :: fs => field_index (S i) fs name (if seqb (l_name f) name then Some i else r)
  end.
(** 58-98 CeedQFunctionContextRegisterGeneric (the growing array of labels is a list) *)
Definition ctx_register (name : str) (off : nat) (t : ftype) (num : nat) : M unit :=
  x <~ getc ;;
  check (match field_index 0 (c_fields x) name None with None => true | Some _ => false end) ERR_UNSUPPORTED ;;;
  putc (with_fields x (c_fields x ++ [mkL name t off (fsize t * num) num])).
(** 256-266 CeedQFunctionContextGetFieldLabel: a label is the position of its field, NULL is [None] *)
Definition ctx_label (name : str) : M (option nat) := x <~ getc ;; ret (field_index 0 (c_fields x) name None).
(** dereference of a label *)
Definition deref (l : nat) : M label := x <~ getc ;; match nth_error (c_fields x) l with Some f => ret f | None => fun _ => RUB end.

(** 686-703 CeedQFunctionContextGetData *)
Definition ctx_get (host : bool) : M ptr :=
  x <~ getc ;;
  check (even (c_state x)) ERR_MINOR ;;;
  check (c_readers x =? 0) ERR_MINOR ;;;
  check (isSome (c_data x)) ERR_BACKEND ;;;
  p <~ get_data_ref host ;;
  x <~ getc ;; putc (with_state x (add64 (c_state x) 1)) ;;; ret p.
(** 720-735 CeedQFunctionContextGetDataRead *)
Definition ctx_get_read (host : bool) : M ptr :=
  x <~ getc ;;
  check (even (c_state x)) ERR_MINOR ;;;
  check (isSome (c_data x)) ERR_BACKEND ;;;
  p <~ get_data_ref host ;;
  x <~ getc ;; putc (with_readers x (add64 (c_readers x) 1)) ;;; ret p.
(** 746-753 CeedQFunctionContextRestoreData *)
Definition ctx_restore : M unit :=
  x <~ getc ;; check (negb (even (c_state x))) ERR_MINOR ;;; putc (with_state x (add64 (c_state x) 1)).
(** 765-773 CeedQFunctionContextRestoreDataRead *)
Definition ctx_restore_read : M unit :=
  x <~ getc ;; check (0 <? c_readers x) ERR_MINOR ;;; putc (with_readers x (add64 (c_readers x) (-1))).

(** 111-128 CeedQFunctionContextDestroyData with the function of the client *)
Definition destroy_data : M unit :=
  x <~ getc ;;
  match c_dtor x with
  | None => ret tt
  | Some d => p <~ ctx_get (d_host d) ;;
              (if d_frees d then free p else ret tt) ;;;
              check (d_code d =? 0) (d_code d) ;;;
              ctx_restore
  end.
(** 623-632 CeedQFunctionContextSetData *)
Definition ctx_set_data (host : bool) (mode : cmode) (size : nat) (src : ptr) : M unit :=
  x <~ getc ;;
  check (even (c_state x)) ERR_MINOR ;;;
  destroy_data ;;;
  x <~ getc ;; putc (with_size x size) ;;;
  set_data_ref host mode src ;;;
  x <~ getc ;; putc (with_state x (add64 (c_state x) 2)).
(** 649-669 CeedQFunctionContextTakeData *)
Definition ctx_take (host : bool) : M ptr :=
  x <~ getc ;;
  check (isSome (c_data x)) ERR_BACKEND ;;;
  check (even (c_state x)) ERR_MINOR ;;;
  check host ERR_BACKEND ;;;
  check (isSome (c_borrowed x)) ERR_BACKEND ;;;
  take_data_ref host.

(** 281-300 CeedQFunctionContextSetGeneric.  [vals] are the bytes behind the pointer of the caller, apart from the data. *)
Definition ctx_set_at (f : label) (t : ftype) (vals : bytes) : M unit :=
  check (ftype_eqb (l_type f) t) ERR_UNSUPPORTED ;;;
  p <~ ctx_get_read true ;;
  old <~ mread p (l_off f) (l_size f) ;;
  (if Nat.leb (l_size f) (length vals) then ret tt else fun _ => RUB) ;;;
  ctx_restore_read ;;;
  if bytes_eqb old (firstn (l_size f) vals) then ret tt
  else q <~ ctx_get true ;; mwrite q (l_off f) (firstn (l_size f) vals) ;;; ctx_restore.
Definition ctx_set_generic (l : nat) (t : ftype) (vals : bytes) : M unit := f <~ deref l ;; ctx_set_at f t vals.
(** 373, 425, 477 CeedQFunctionContextSetDouble, ...SetInt32, ...SetBoolean *)
Definition ctx_set_field (l : option nat) (t : ftype) (vals : bytes) : M unit :=
  match l with None => fail ERR_UNSUPPORTED | Some l => ctx_set_generic l t vals end.
(** 314-338 CeedQFunctionContextGetGenericRead: the pointer to the block, the offset of the field and the number of values *)
Definition ctx_get_at (f : label) (t : ftype) : M (ptr * nat * nat) :=
  check (ftype_eqb (l_type f) t) ERR_UNSUPPORTED ;;;
  p <~ ctx_get_read true ;; ret (p, l_off f, Nat.div (l_size f) (fsize t)).
Definition ctx_get_generic (l : nat) (t : ftype) : M (ptr * nat * nat) := f <~ deref l ;; ctx_get_at f t.
(** 391, 443, 495 CeedQFunctionContextGetDoubleRead, ...GetInt32Read, ...GetBooleanRead *)
Definition ctx_get_field (l : option nat) (t : ftype) : M (ptr * nat * nat) :=
  match l with None => fail ERR_UNSUPPORTED | Some l => ctx_get_generic l t end.
(** 351-361 CeedQFunctionContextRestoreGenericRead and its three variants *)
Definition ctx_restore_at (f : label) (t : ftype) : M unit := check (ftype_eqb (l_type f) t) ERR_UNSUPPORTED ;;; ctx_restore_read.
Definition ctx_restore_field (l : option nat) (t : ftype) : M unit :=
  match l with None => fail ERR_UNSUPPORTED | Some l => f <~ deref l ;; ctx_restore_at f t end.

(** 914-920 CeedQFunctionContextSetDataDestroy; [None] is a NULL function *)
Definition ctx_set_dtor (d : option dtor) : M unit :=
  check (match d with Some _ => true | None => false end) ERR_MINOR ;;; x <~ getc ;; putc (with_dtor x d).
(** 544-547 CeedQFunctionContextReference *)
Definition ctx_reference : M unit := x <~ getc ;; putc (with_refs x (c_refs x + 1)).
(** 930-948 CeedQFunctionContextDestroy *)
Definition ctx_destroy : M unit :=
  x <~ getc ;;
  let x := with_refs x (c_refs x - 1) in
  putc x ;;;
  if 0 <? c_refs x then ret tt
  else check (even (c_state x)) ERR_MINOR ;;;
       destroy_data ;;;
       x <~ getc ;; free (c_owned x) ;;; (fun w => ROk tt (setc w None)).

(** ** Histories: API calls and the client's own actions on memory *)
(** a data argument: NULL, a client block, or the pointer obtained by read / write access *)
Inductive src := SNull | SUser (n : nat) | SRead | SWrite.
Inductive cmd :=
| KSet (host : bool) (mode : cmode) (size : nat) (s : src)
| KTake (host : bool)
| KGet (host : bool) | KGetRead (host : bool) | KRestore | KRestoreRead
| KRegister (name : str) (off : nat) (t : ftype) (num : nat) | KLabel (name : str)
| KSetField (l : option nat) (t : ftype) (vals : bytes)
| KGetField (l : option nat) (t : ftype)        (* and the client reads the values at once *)
| KRestoreField (l : option nat) (t : ftype)
| KDtor (d : option dtor) | KRef | KDestroy | KSize | KState
| UAlloc (l : bytes) | UFree (n : nat)                    (* client: allocate, free a block *)
| URead (n : nat) (i : nat) | UWrite (n : nat) (i : nat) (b : byte)   (* client: access its own block *)
| VRead (i : nat) | VWrite (i : nat) (b : byte) | VReadW (i : nat).   (* client: access through a granted pointer *)
Inductive obs := ODone | OByte (b : byte) | OPtr (p : ptr) | OLab (l : option nat) | OVals (n : nat) (l : bytes) | ONat (n : nat) | OZ (z : Z).

Definition src_ptr (s : src) : M ptr := fun w =>
  match s with SNull => ROk None w | SUser n => ROk (Some (AU n)) w | SRead => ROk (w_rptr w) w | SWrite => ROk (w_wptr w) w end.
Definition done {A} (m : M A) : M obs := m ;;; ret ODone.
Definition set_wptr (p : ptr) : M unit := fun w => ROk tt (mkW (w_ctx w) (w_heap w) (w_nl w) (w_nu w) p (w_rptr w)).
Definition set_rptr (p : ptr) : M unit := fun w => ROk tt (mkW (w_ctx w) (w_heap w) (w_nl w) (w_nu w) (w_wptr w) p).
Definition read1 (p : ptr) (i : nat) : M obs := l <~ mread p i 1 ;; match l with b :: _ => ret (OByte b) | [] => fun _ => RUB end.
Definition step (c : cmd) : M obs :=
  match c with
  | KSet host mode size s => p <~ src_ptr s ;; done (ctx_set_data host mode size p)
  | KTake host => p <~ ctx_take host ;; ret (OPtr p)
  | KGet host => p <~ ctx_get host ;; done (set_wptr p)
  | KGetRead host => p <~ ctx_get_read host ;; done (set_rptr p)
  | KRestore => done ctx_restore
  | KRestoreRead => done ctx_restore_read
  | KRegister name off t num => done (ctx_register name off t num)
  | KLabel name => l <~ ctx_label name ;; ret (OLab l)
  | KSetField l t vals => done (ctx_set_field l t vals)
  | KGetField l t => r <~ ctx_get_field l t ;; let '(p, off, n) := r in
                     set_rptr p ;;; v <~ mread p off (n * fsize t)%nat ;; ret (OVals n v)
  | KRestoreField l t => done (ctx_restore_field l t)
  | KDtor d => done (ctx_set_dtor d)
  | KRef => done ctx_reference
  | KDestroy => done ctx_destroy
  | KSize => x <~ getc ;; ret (ONat (c_size x))       (* CeedQFunctionContextGetContextSize *)
  | KState => x <~ getc ;; ret (OZ (c_state x))       (* CeedQFunctionContextGetState *)
  | UAlloc l => fun w => ROk ODone (mkW (w_ctx w) (hupd (w_heap w) (AU (w_nu w)) (Some l)) (w_nl w) (S (w_nu w)) (w_wptr w) (w_rptr w))
  | UFree n => done (free (Some (AU n)))
  | URead n i => read1 (Some (AU n)) i
  | UWrite n i b => done (mwrite (Some (AU n)) i [b])
  | VRead i => fun w => read1 (w_rptr w) i w
  | VWrite i b => fun w => done (mwrite (w_wptr w) i [b]) w
  | VReadW i => fun w => read1 (w_wptr w) i w
  end.

(** The world after CeedQFunctionContextCreate. *)
Definition new_world : world := mkW (Some (mkC 0 0 1 0 None None None [] None)) (fun _ => None) 0 0 None None.
(** The outcomes of a history; a failing call leaves its world, undefined behaviour ends everything. *)
Inductive res := Good (o : obs) | Bad (e : Z).
Fixpoint run (cs : list cmd) (w : world) : option (list res * world) :=
  match cs with
  | [] => Some ([], w)
  | c :: cs => match step c w with
               | ROk o w => match run cs w with Some (rs, w) => Some (Good o :: rs, w) | None => None end
               | RErr e w => match run cs w with Some (rs, w) => Some (Bad e :: rs, w) | None => None end
               | RUB => None
               end
  end.
