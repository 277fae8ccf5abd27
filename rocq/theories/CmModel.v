(** * QFunction contexts on the memcheck backend: interface/ceed-qfunctioncontext.c over
    backends/memcheck/ceed-memcheck-qfunctioncontext.c

    One context, as in CtxModel.  Its data are in a private buffer; data handed in by the client are copied into it
    and access is granted to fresh copies.  The private buffer and the copies are lists inside the context (nobody
    else has their address but the client, through the pointer of a granted access); client blocks are named by
    numbers.  Every access of a dead block, outside a block or through NULL and every double free is undefined
    ([KUB], [MUB]).  Left out: the Valgrind requests, out of memory, copies that are leaked by CeedQFunctionContextDestroy;
    addresses are never used again. *)
From Coq Require Import List ZArith Lia Bool Arith.
From Coq.Strings Require Import Byte.
From Verif Require Import Prelude RstrModel StrModel CtxModel.
Import ListNotations.
Set Implicit Arguments.
Local Open Scope Z_scope.

(** include/ceed-impl.h CeedQFunctionContext_private and backends/memcheck/ceed-memcheck.h CeedQFunctionContext_Memcheck;
    the last two fields belong to the client: its pointer variables of write and of read access are set *)
Record mctx := mkK {
  k_state : Z; k_readers : Z; k_refs : Z; k_size : nat;
  k_alloc : option bytes; k_owned : option nat; k_borrowed : option nat; k_wr : option bytes; k_ro : option bytes;
  k_fields : list label; k_dtor : option dtor; k_wp : bool; k_rp : bool }.
Definition ks_state (x : mctx) s := mkK s (k_readers x) (k_refs x) (k_size x) (k_alloc x) (k_owned x) (k_borrowed x) (k_wr x) (k_ro x) (k_fields x) (k_dtor x) (k_wp x) (k_rp x).
Definition ks_readers (x : mctx) r := mkK (k_state x) r (k_refs x) (k_size x) (k_alloc x) (k_owned x) (k_borrowed x) (k_wr x) (k_ro x) (k_fields x) (k_dtor x) (k_wp x) (k_rp x).
Definition ks_refs (x : mctx) r := mkK (k_state x) (k_readers x) r (k_size x) (k_alloc x) (k_owned x) (k_borrowed x) (k_wr x) (k_ro x) (k_fields x) (k_dtor x) (k_wp x) (k_rp x).
Definition ks_size (x : mctx) n := mkK (k_state x) (k_readers x) (k_refs x) n (k_alloc x) (k_owned x) (k_borrowed x) (k_wr x) (k_ro x) (k_fields x) (k_dtor x) (k_wp x) (k_rp x).
Definition ks_alloc (x : mctx) a := mkK (k_state x) (k_readers x) (k_refs x) (k_size x) a (k_owned x) (k_borrowed x) (k_wr x) (k_ro x) (k_fields x) (k_dtor x) (k_wp x) (k_rp x).
Definition ks_ext (x : mctx) o b := mkK (k_state x) (k_readers x) (k_refs x) (k_size x) (k_alloc x) o b (k_wr x) (k_ro x) (k_fields x) (k_dtor x) (k_wp x) (k_rp x).
Definition ks_wr (x : mctx) l := mkK (k_state x) (k_readers x) (k_refs x) (k_size x) (k_alloc x) (k_owned x) (k_borrowed x) l (k_ro x) (k_fields x) (k_dtor x) (k_wp x) (k_rp x).
Definition ks_ro (x : mctx) l := mkK (k_state x) (k_readers x) (k_refs x) (k_size x) (k_alloc x) (k_owned x) (k_borrowed x) (k_wr x) l (k_fields x) (k_dtor x) (k_wp x) (k_rp x).
Definition ks_fields (x : mctx) l := mkK (k_state x) (k_readers x) (k_refs x) (k_size x) (k_alloc x) (k_owned x) (k_borrowed x) (k_wr x) (k_ro x) l (k_dtor x) (k_wp x) (k_rp x).
Definition ks_dtor (x : mctx) d := mkK (k_state x) (k_readers x) (k_refs x) (k_size x) (k_alloc x) (k_owned x) (k_borrowed x) (k_wr x) (k_ro x) (k_fields x) d (k_wp x) (k_rp x).
Definition ks_wp (x : mctx) b := mkK (k_state x) (k_readers x) (k_refs x) (k_size x) (k_alloc x) (k_owned x) (k_borrowed x) (k_wr x) (k_ro x) (k_fields x) (k_dtor x) b (k_rp x).
Definition ks_rp (x : mctx) b := mkK (k_state x) (k_readers x) (k_refs x) (k_size x) (k_alloc x) (k_owned x) (k_borrowed x) (k_wr x) (k_ro x) (k_fields x) (k_dtor x) (k_wp x) b.
Definition bumpk (x : mctx) (k : Z) := ks_state x (add64 (k_state x) k).
Definition heap := nat -> option bytes.

(** ** The backend *)
Inductive kout := KOk (x : mctx) (h : heap) | KErr (e : Z) (x : mctx) (h : heap) | KUB.
Definition kbind (m : kout) (k : mctx -> heap -> kout) : kout := match m with KOk x h => k x h | o => o end.
(** a data argument: NULL, a client block, the copy behind a pointer of the context, or a pointer to nothing any more *)
Inductive ksrc := ANull | ABlock (n : nat) | ABuf (l : bytes) | ABad.
Definition cpy (n : nat) (l : bytes) : option bytes := if Nat.leb n (length l) then Some (firstn n l) else None.
(** memcpy of [n] bytes from a buffer to client block [k] *)
Definition cpy_out (h : heap) (k n : nat) (src : option bytes) : option heap :=
  match src, h k with
  | Some l, Some old => if (Nat.leb n (length l) && Nat.leb n (length old))%bool then Some (nupd h k (Some (firstn n l ++ skipn n old))) else None
  | _, _ => None
  end.

(** 230-262 CeedQFunctionContextDataDestroy_Memcheck; the client's function gets [k_borrowed] or else [k_owned] *)
Definition dtor_arg (x : mctx) : option nat := match k_borrowed x with Some n => Some n | None => k_owned x end.
Definition data_destroy_mc (x : mctx) (h : heap) : kout :=
  kbind (match k_dtor x with
         | None => KOk x h
         | Some d =>
             if negb (d_host d) then KErr ERR_BACKEND x h
             else match (if d_frees d then match dtor_arg x with
                                           | Some n => match h n with Some _ => Some (nupd h n None) | None => None end
                                           | None => Some h
                                           end
                         else Some h) with
                  | None => KUB
                  | Some h => if d_code d =? 0 then KOk x h else KErr (d_code d) x h
                  end
         end)
    (fun x h => match k_owned x with
                | Some k => match h k with Some _ => KOk (ks_ext (ks_alloc x None) None (k_borrowed x)) (nupd h k None) | None => KUB end
                | None => KOk (ks_alloc x None) h
                end).
(** 43-89 CeedQFunctionContextSetData_Memcheck; the interface has called the function above before, so that no buffer
    is left to clear (lines 53-62) *)
Definition set_data_mc (x : mctx) (h : heap) (host : bool) (mode : cmode) (a : ksrc) : kout :=
  if negb host then KErr ERR_BACKEND x h
  else match k_alloc x, k_owned x with
  | None, None =>
      match (match mode, a with
             | CopyValues, _ => Some (ks_ext x None None)
             | OwnPointer, ANull => Some (ks_ext x None None)
             | OwnPointer, ABlock n => Some (ks_ext x (Some n) None)
             | UsePointer, ANull => Some (ks_ext x None None)
             | UsePointer, ABlock n => Some (ks_ext x None (Some n))
             | _, _ => None
             end) with
      | None => KUB
      | Some x => match (match a with
                         | ANull => None
                         | ABlock n => match h n with Some l => cpy (k_size x) l | None => None end
                         | ABuf l => cpy (k_size x) l
                         | ABad => None
                         end) with
                  | Some l => KOk (ks_alloc x (Some l)) h
                  | None => KUB
                  end
      end
  | _, _ => KUB
  end.
(** 94-111 CeedQFunctionContextSyncData_Memcheck *)
Definition sync_mc (x : mctx) (h : heap) : kout :=
  match (match k_owned x with Some k => cpy_out h k (k_size x) (k_alloc x) | None => Some h end) with
  | None => KUB
  | Some h => match (match k_borrowed x with Some k => cpy_out h k (k_size x) (k_alloc x) | None => Some h end) with
              | None => KUB
              | Some h => KOk x h
              end
  end.
(** 116-140 CeedQFunctionContextTakeData_Memcheck *)
Definition take_mc (x : mctx) (h : heap) : kout := kbind (sync_mc x h) (fun x h => KOk (ks_alloc (ks_ext x (k_owned x) None) None) h).
(** 145-160 CeedQFunctionContextGetData_Memcheck *)
Definition get_mc (x : mctx) (h : heap) (host : bool) : kout :=
  if negb host then KErr ERR_BACKEND x h
  else match k_alloc x with
       | Some l => match cpy (k_size x) l with Some l => KOk (ks_wr x (Some l)) h | None => KUB end
       | None => KUB
       end.
(** 165-182 CeedQFunctionContextGetDataRead_Memcheck *)
Definition get_read_mc (x : mctx) (h : heap) (host : bool) : kout :=
  if negb host then KErr ERR_BACKEND x h
  else match k_ro x with
       | Some _ => KOk x h
       | None => match k_alloc x with
                 | Some l => match cpy (k_size x) l with Some l => KOk (ks_ro x (Some l)) h | None => KUB end
                 | None => KUB
                 end
       end.
(** 187-203 CeedQFunctionContextRestoreData_Memcheck *)
Definition restore_mc (x : mctx) (h : heap) : kout :=
  match k_alloc x, k_wr x with
  | Some la, Some lw =>
      if (Nat.leb (k_size x) (length la) && Nat.leb (k_size x) (length lw))%bool then
        kbind (sync_mc (ks_alloc x (Some (firstn (k_size x) lw ++ skipn (k_size x) la))) h) (fun x h => KOk (ks_wr x None) h)
      else KUB
  | _, _ => KUB
  end.
(** 208-225 CeedQFunctionContextRestoreDataRead_Memcheck *)
Definition restore_read_mc (x : mctx) (h : heap) : kout :=
  match k_alloc x, k_ro x with
  | Some la, Some lr =>
      if (Nat.leb (k_size x) (length la) && Nat.leb (k_size x) (length lr))%bool then
        if bytes_eqb (firstn (k_size x) la) (firstn (k_size x) lr) then KOk (ks_ro x None) h else KErr ERR_BACKEND x h
      else KUB
  | _, _ => KUB
  end.

(** ** The interface: ceed-qfunctioncontext.c *)
Record kworld := mkKW { w_k : option mctx; w_kh : heap; w_knu : nat }.
Inductive mout (A : Type) := MOk (a : A) (w : kworld) | MErr (e : Z) (w : kworld) | MUB.
Arguments MOk {A}. Arguments MErr {A}. Arguments MUB {A}.
Definition putk (w : kworld) (x : mctx) (h : heap) : kworld := mkKW (Some x) h (w_knu w).
Definition klive {A} (w : kworld) (k : mctx -> mout A) : mout A := match w_k w with Some x => k x | None => MUB end.
Definition mthen {A B} (m : mout A) (k : A -> kworld -> mout B) : mout B := match m with MOk a w => k a w | MErr e w => MErr e w | MUB => MUB end.
Definition klift (w : kworld) (b : kout) (f : mctx -> mctx) : mout unit :=
  match b with KOk x h => MOk tt (putk w (f x) h) | KErr e x h => MErr e (putk w x h) | KUB => MUB end.
Definition kbusy (x : mctx) : bool := negb (even (k_state x)).
Definition has {A} (o : option A) : bool := match o with Some _ => true | None => false end.

(** 623-632 CeedQFunctionContextSetData *)
Definition mk_set (host : bool) (mode : cmode) (size : nat) (a : ksrc) (w : kworld) : mout unit :=
  klive w (fun x =>
    if kbusy x then MErr ERR_MINOR w
    else klift w (kbind (data_destroy_mc x (w_kh w)) (fun x h => set_data_mc (ks_size x size) h host mode a)) (fun x => bumpk x 2)).
(** 649-669 CeedQFunctionContextTakeData; 18-37 HasValidData, HasBorrowedDataOfType *)
Definition mk_take (host : bool) (w : kworld) : mout ptr :=
  klive w (fun x =>
    if negb (has (k_alloc x)) then MErr ERR_BACKEND w
    else if kbusy x then MErr ERR_MINOR w
    else if negb host then MErr ERR_BACKEND w
    else if negb (has (k_borrowed x)) then MErr ERR_BACKEND w
    else mthen (klift w (take_mc x (w_kh w)) (fun x => x)) (fun _ w => MOk (option_map AU (k_borrowed x)) w)).
(** 686-703 CeedQFunctionContextGetData *)
Definition mk_get (host : bool) (w : kworld) : mout unit :=
  klive w (fun x =>
    if kbusy x then MErr ERR_MINOR w
    else if negb (k_readers x =? 0) then MErr ERR_MINOR w
    else if negb (has (k_alloc x)) then MErr ERR_BACKEND w
    else klift w (get_mc x (w_kh w) host) (fun x => bumpk x 1)).
(** 720-735 CeedQFunctionContextGetDataRead *)
Definition mk_get_read (host : bool) (w : kworld) : mout unit :=
  klive w (fun x =>
    if kbusy x then MErr ERR_MINOR w
    else if negb (has (k_alloc x)) then MErr ERR_BACKEND w
    else klift w (get_read_mc x (w_kh w) host) (fun x => ks_readers x (add64 (k_readers x) 1))).
(** 746-753 CeedQFunctionContextRestoreData *)
Definition mk_restore (w : kworld) : mout unit :=
  klive w (fun x => if kbusy x then klift w (restore_mc x (w_kh w)) (fun x => bumpk x 1) else MErr ERR_MINOR w).
(** 765-773 CeedQFunctionContextRestoreDataRead *)
Definition mk_restore_read (w : kworld) : mout unit :=
  klive w (fun x =>
    if 0 <? k_readers x then
      let x := ks_readers x (add64 (k_readers x) (-1)) in
      klift w (if k_readers x =? 0 then restore_read_mc x (w_kh w) else KOk x (w_kh w)) (fun x => x)
    else MErr ERR_MINOR w).
(** 58-98 CeedQFunctionContextRegisterGeneric *)
Definition mk_register (name : str) (off : nat) (t : ftype) (num : nat) (w : kworld) : mout unit :=
  klive w (fun x => match field_index 0 (k_fields x) name None with
                    | Some _ => MErr ERR_UNSUPPORTED w
                    | None => MOk tt (putk w (ks_fields x (k_fields x ++ [mkL name t off (fsize t * num) num])) (w_kh w))
                    end).
(** a label of a typed call (373, 391, 425, 443, 477, 495 and the three RestoreRead variants): NULL is refused, a
    label is dereferenced, its type must be the one asked for *)
Definition mk_label (l : option nat) (t : ftype) (w : kworld) (k : label -> mout unit) : mout unit :=
  match l with
  | None => MErr ERR_UNSUPPORTED w
  | Some i => klive w (fun x => match nth_error (k_fields x) i with
                                | Some f => if ftype_eqb (l_type f) t then k f else MErr ERR_UNSUPPORTED w
                                | None => MUB
                                end)
  end.
(** [n] bytes at [&p[off]], the pointer being to the list [o] *)
Definition lread (o : option bytes) (off n : nat) : option bytes :=
  match o with Some l => if Nat.leb (off + n) (length l) then Some (firstn n (skipn off l)) else None | None => None end.
Definition lwrite (o : option bytes) (off : nat) (v : bytes) : option bytes :=
  match o with Some l => if Nat.leb (off + length v) (length l) then Some (firstn off l ++ v ++ skipn (off + length v) l) else None | None => None end.
(** 281-299 CeedQFunctionContextSetGeneric *)
Definition mk_set_field (l : option nat) (t : ftype) (vals : bytes) (w : kworld) : mout unit :=
  mk_label l t w (fun f =>
    mthen (mk_get_read true w) (fun _ w => klive w (fun x =>
      match lread (k_ro x) (l_off f) (l_size f) with
      | Some old =>
          if Nat.leb (l_size f) (length vals) then
            mthen (mk_restore_read w) (fun _ w =>
              if bytes_eqb old (firstn (l_size f) vals) then MOk tt w
              else mthen (mk_get true w) (fun _ w => klive w (fun x =>
                     match lwrite (k_wr x) (l_off f) (firstn (l_size f) vals) with
                     | Some lw => mk_restore (putk w (ks_wr x (Some lw)) (w_kh w))
                     | None => MUB
                     end)))
          else MUB
      | None => MUB
      end))).
(** 314-338 CeedQFunctionContextGetGenericRead *)
Definition mk_get_field (l : option nat) (t : ftype) (w : kworld) : mout unit := mk_label l t w (fun f => mk_get_read true w).
(** 351-361 CeedQFunctionContextRestoreGenericRead *)
Definition mk_restore_field (l : option nat) (t : ftype) (w : kworld) : mout unit := mk_label l t w (fun f => mk_restore_read w).
(** 914-920 CeedQFunctionContextSetDataDestroy *)
Definition mk_dtor (d : option dtor) (w : kworld) : mout unit :=
  match d with None => MErr ERR_MINOR w | Some _ => klive w (fun x => MOk tt (putk w (ks_dtor x d) (w_kh w))) end.
(** 544-547 CeedQFunctionContextReference *)
Definition mk_reference (w : kworld) : mout unit := klive w (fun x => MOk tt (putk w (ks_refs x (k_refs x + 1)) (w_kh w))).
(** 930-948 CeedQFunctionContextDestroy, 267-285 CeedQFunctionContextDestroy_Memcheck (after the DataDestroy above no buffer
    but the copies is left) *)
Definition mk_destroy (w : kworld) : mout unit :=
  klive w (fun x =>
    let x := ks_refs x (k_refs x - 1) in
    let w := putk w x (w_kh w) in
    if 0 <? k_refs x then MOk tt w
    else if kbusy x then MErr ERR_MINOR w
    else match data_destroy_mc x (w_kh w) with
         | KOk _ h => MOk tt (mkKW None h (w_knu w))
         | KErr e x h => MErr e (putk w x h)
         | KUB => MUB
         end).

(** ** Histories: the actions of CtxModel, and a client that writes through a pointer granted for reading *)
Inductive kcmd := KBase (c : cmd) | KWriteRead (i : nat) (b : byte).
Definition mdone {A} (m : mout A) : mout obs := mthen m (fun _ w => MOk ODone w).
Definition after (f : mctx -> mctx) (m : mout unit) : mout obs := mthen m (fun _ w => klive w (fun x => MOk ODone (putk w (f x) (w_kh w)))).
Definition ksource (s : src) (w : kworld) : ksrc :=
  match s with
  | SNull => ANull
  | SUser n => ABlock n
  | SRead => match w_k w with Some x => match k_rp x, k_ro x with true, Some l => ABuf l | _, _ => ABad end | None => ABad end
  | SWrite => match w_k w with Some x => match k_wp x, k_wr x with true, Some l => ABuf l | _, _ => ABad end | None => ABad end
  end.
(** the client accesses byte [i] of the copy [o], the pointer variable being set ([p]) *)
Definition peek (p : bool) (o : option bytes) (i : nat) : option byte := if p then match o with Some l => nth_error l i | None => None end else None.
Definition poke (p : bool) (o : option bytes) (i : nat) (b : byte) : option bytes := if p then lwrite o i [b] else None.
Definition kbstep (c : cmd) (w : kworld) : mout obs :=
  match c with
  | KSet host mode size s => after (fun x => ks_rp (ks_wp x false) false) (mk_set host mode size (ksource s w) w)
  | KTake host => mthen (mk_take host w) (fun p w => klive w (fun x => MOk (OPtr p) (putk w (ks_rp (ks_wp x false) false) (w_kh w))))
  | KGet host => after (fun x => ks_wp x true) (mk_get host w)
  | KGetRead host => after (fun x => ks_rp x true) (mk_get_read host w)
  | KRestore => after (fun x => ks_wp x false) (mk_restore w)
  | KRestoreRead => after (fun x => ks_rp x (k_rp x && has (k_ro x))) (mk_restore_read w)
  | KRegister name off t num => mdone (mk_register name off t num w)
  | KLabel name => klive w (fun x => MOk (OLab (field_index 0 (k_fields x) name None)) w)
  | KSetField l t vals => mdone (mk_set_field l t vals w)
  | KGetField l t =>
      mthen (mk_get_field l t w) (fun _ w => klive w (fun x =>
        match l with
        | Some i => match nth_error (k_fields x) i with
                    | Some f => let n := Nat.div (l_size f) (fsize t) in
                                match lread (k_ro x) (l_off f) (n * fsize t) with Some v => MOk (OVals n v) (putk w (ks_rp x true) (w_kh w)) | None => MUB end
                    | None => MUB
                    end
        | None => MUB
        end))
  | KRestoreField l t => after (fun x => ks_rp x (k_rp x && has (k_ro x))) (mk_restore_field l t w)
  | KDtor d => mdone (mk_dtor d w)
  | KRef => mdone (mk_reference w)
  | KDestroy => mdone (mk_destroy w)
  | KSize => klive w (fun x => MOk (ONat (k_size x)) w)
  | KState => klive w (fun x => MOk (OZ (k_state x)) w)
  | UAlloc l => MOk ODone (mkKW (w_k w) (nupd (w_kh w) (w_knu w) (Some l)) (S (w_knu w)))
  | UFree n => match w_kh w n with Some _ => MOk ODone (mkKW (w_k w) (nupd (w_kh w) n None) (w_knu w)) | None => MUB end
  | URead n i => match w_kh w n with Some l => match nth_error l i with Some b => MOk (OByte b) w | None => MUB end | None => MUB end
  | UWrite n i b => match lwrite (w_kh w n) i [b] with Some l => MOk ODone (mkKW (w_k w) (nupd (w_kh w) n (Some l)) (w_knu w)) | None => MUB end
  | VRead i => klive w (fun x => match peek (k_rp x) (k_ro x) i with Some b => MOk (OByte b) w | None => MUB end)
  | VReadW i => klive w (fun x => match peek (k_wp x) (k_wr x) i with Some b => MOk (OByte b) w | None => MUB end)
  | VWrite i b => klive w (fun x => match poke (k_wp x) (k_wr x) i b with Some l => MOk ODone (putk w (ks_wr x (Some l)) (w_kh w)) | None => MUB end)
  end.
Definition kstep (c : kcmd) (w : kworld) : mout obs :=
  match c with
  | KBase c => kbstep c w
  | KWriteRead i b => klive w (fun x => match poke (k_rp x) (k_ro x) i b with Some l => MOk ODone (putk w (ks_ro x (Some l)) (w_kh w)) | None => MUB end)
  end.
(** The world after CeedQFunctionContextCreate, 290-309. *)
Definition new_kworld : kworld := mkKW (Some (mkK 0 0 1 0 None None None None None [] None false false)) (fun _ => None) 0.
Fixpoint krun (cs : list kcmd) (w : kworld) : option (list res * kworld) :=
  match cs with
  | [] => Some ([], w)
  | c :: cs => match kstep c w with
               | MOk o w => match krun cs w with Some (rs, w) => Some (Good o :: rs, w) | None => None end
               | MErr e w => match krun cs w with Some (rs, w) => Some (Bad e :: rs, w) | None => None end
               | MUB => None
               end
  end.
