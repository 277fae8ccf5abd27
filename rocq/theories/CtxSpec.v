(** * What a client may expect of a QFunction context: an abstract machine without pointers

    A context has a clock (odd while write access is granted), a number of readers, a reference count, a size,
    its fields, the client's destroy function and its contents: nothing, bytes of its own, or a block the client
    shares with it.  [AIll] marks actions the client must not perform (use of a destroyed context or of a pointer
    not granted any more, copying from the context's own data, fields that do not lie inside the data, too short
    arrays, 2^64 simultaneous readers). *)
From Coq Require Import List ZArith Lia Bool Arith.
From Coq.Strings Require Import Byte.
From Verif Require Import Prelude RstrModel StrModel CtxModel.
Import ListNotations.
Set Implicit Arguments.
Local Open Scope Z_scope.

Inductive content := CEmpty | COwn (l : bytes) | CShared (n : nat).
Record actx := mkA { a_clock : Z; a_readers : Z; a_refs : Z; a_size : nat; a_cont : content;
  a_fields : list label; a_dtor : option dtor;
  a_wg : bool;  (* the client holds a pointer granted for writing *)
  a_rg : bool   (* the client holds a pointer granted for reading *) }.
Record astate := mkS { s_ctx : option actx; s_user : nat -> option bytes; s_nu : nat }.
Inductive aout := AOk (o : obs) (s : astate) | AErr (e : Z) (s : astate) | AIll.

Definition new_astate : astate := mkS (Some (mkA 0 0 1 0 CEmpty [] None false false)) (fun _ => None) 0.
Definition sc (s : astate) (y : actx) : astate := mkS (Some y) (s_user s) (s_nu s).
Definition su (s : astate) (n : nat) (l : option bytes) : astate := mkS (s_ctx s) (nupd (s_user s) n l) (s_nu s).
Definition tick (y : actx) (k : Z) := mkA (a_clock y + k) (a_readers y) (a_refs y) (a_size y) (a_cont y) (a_fields y) (a_dtor y) (a_wg y) (a_rg y).
Definition rd (y : actx) (k : Z) := mkA (a_clock y) (a_readers y + k) (a_refs y) (a_size y) (a_cont y) (a_fields y) (a_dtor y) (a_wg y) (a_rg y).
Definition rf (y : actx) (k : Z) := mkA (a_clock y) (a_readers y) (a_refs y + k) (a_size y) (a_cont y) (a_fields y) (a_dtor y) (a_wg y) (a_rg y).
Definition sz (y : actx) (n : nat) := mkA (a_clock y) (a_readers y) (a_refs y) n (a_cont y) (a_fields y) (a_dtor y) (a_wg y) (a_rg y).
Definition ct (y : actx) (c : content) := mkA (a_clock y) (a_readers y) (a_refs y) (a_size y) c (a_fields y) (a_dtor y) (a_wg y) (a_rg y).
Definition fl (y : actx) (l : list label) := mkA (a_clock y) (a_readers y) (a_refs y) (a_size y) (a_cont y) l (a_dtor y) (a_wg y) (a_rg y).
Definition dt (y : actx) (d : option dtor) := mkA (a_clock y) (a_readers y) (a_refs y) (a_size y) (a_cont y) (a_fields y) d (a_wg y) (a_rg y).
Definition wg (y : actx) (b : bool) := mkA (a_clock y) (a_readers y) (a_refs y) (a_size y) (a_cont y) (a_fields y) (a_dtor y) b (a_rg y).
Definition rg (y : actx) (b : bool) := mkA (a_clock y) (a_readers y) (a_refs y) (a_size y) (a_cont y) (a_fields y) (a_dtor y) (a_wg y) b.

(** ** Contents *)
Definition conts (s : astate) (y : actx) : option bytes :=
  match a_cont y with CEmpty => None | COwn l => Some l | CShared n => s_user s n end.
Definition putd (s : astate) (y : actx) (l : bytes) : astate :=
  match a_cont y with CEmpty => s | COwn _ => sc s (ct y (COwn l)) | CShared n => su (sc s y) n (Some l) end.
Definition splice (l : bytes) (off : nat) (v : bytes) : bytes := firstn off l ++ v ++ skipn (off + length v) l.
Definition slice (l : bytes) (off n : nat) : bytes := firstn n (skipn off l).
Definition inside (l : bytes) (off n : nat) : bool := Nat.leb (off + n) (length l).

Definition busy (y : actx) : bool := negb (even (a_clock y)).
Definition locked (y : actx) : bool := busy y || negb (a_readers y =? 0).
Definition empty (y : actx) : bool := match a_cont y with CEmpty => true | _ => false end.
Definition many (y : actx) : bool := two64 <=? a_readers y + 1.
Definition live (s : astate) (k : actx -> aout) : aout := match s_ctx s with Some y => k y | None => AIll end.
Definition registered (y : actx) (name : str) : bool := existsb (fun f => seqb (l_name f) name) (a_fields y).

(** ** Calls *)
(** the client's destroy function is run on the data, with write access *)
Definition s_dtor (s : astate) (y : actx) (k : astate -> actx -> aout) : aout :=
  match a_dtor y with
  | None => k s y
  | Some d =>
      if locked y then AErr ERR_MINOR (sc s y)
      else if empty y || negb (d_host d) then AErr ERR_BACKEND (sc s y)
      else let next s := if d_code d =? 0 then k s (tick y 2) else AErr (d_code d) (sc s (tick y 1)) in
           if d_frees d then match a_cont y with
                             | CShared n => match s_user s n with Some _ => next (su s n None) | None => AIll end
                             | _ => AIll
                             end
           else next s
  end.
Definition s_set (s : astate) (host : bool) (mode : cmode) (size : nat) (a : src) : aout :=
  live s (fun y =>
    if busy y then AErr ERR_MINOR s
    else s_dtor s y (fun s y =>
      let y := sz y size in
      if negb host then AErr ERR_BACKEND (sc s y)
      else
        let fin y s := AOk ODone (sc s (rg (wg (tick y 2) false) false)) in
        match mode, a with
        | CopyValues, SUser n => match s_user s n with
                                 | Some l => if Nat.leb size (length l) then fin (ct y (COwn (firstn size l))) s else AIll
                                 | None => AIll
                                 end
        | OwnPointer, SUser n => match s_user s n with
                                 | Some l => fin (ct y (COwn l)) (su s n None)
                                 | None => AIll
                                 end
        | UsePointer, SUser n => match s_user s n with Some _ => fin (ct y (CShared n)) s | None => AIll end
        | (OwnPointer | UsePointer), SNull => fin (ct y CEmpty) s
        | _, _ => AIll
        end)).
Definition s_take (s : astate) (host : bool) : aout :=
  live s (fun y =>
    if empty y then AErr ERR_BACKEND s
    else if busy y then AErr ERR_MINOR s
    else if negb host then AErr ERR_BACKEND s
    else match a_cont y with
         | CShared n => AOk (OPtr (Some (AU n))) (sc s (rg (wg (ct y CEmpty) false) false))
         | _ => AErr ERR_BACKEND s
         end).
Definition s_get (s : astate) (host : bool) : aout :=
  live s (fun y => if locked y then AErr ERR_MINOR s
                   else if empty y || negb host then AErr ERR_BACKEND s
                   else AOk ODone (sc s (wg (tick y 1) true))).
(** the read access of a client, or of a call *)
Definition s_reading (s : astate) (y : actx) (host : bool) (k : aout) : aout :=
  if busy y then AErr ERR_MINOR s
  else if empty y || negb host then AErr ERR_BACKEND s
  else if many y then AIll
  else k.
Definition s_get_read (s : astate) (host : bool) : aout :=
  live s (fun y => s_reading s y host (AOk ODone (sc s (rg (rd y 1) true)))).
Definition s_restore (s : astate) : aout :=
  live s (fun y => if busy y then AOk ODone (sc s (wg (tick y 1) false)) else AErr ERR_MINOR s).
Definition s_restore_read (s : astate) : aout :=
  live s (fun y => if 0 <? a_readers y then AOk ODone (sc s (rg (rd y (-1)) (a_rg y && (1 <? a_readers y)))) else AErr ERR_MINOR s).
Definition s_register (s : astate) (name : str) (off : nat) (t : ftype) (num : nat) : aout :=
  live s (fun y => if registered y name then AErr ERR_UNSUPPORTED s
                   else AOk ODone (sc s (fl y (a_fields y ++ [mkL name t off (fsize t * num) num])))).
(** a label is NULL, or must be one of the context; its type must be the one asked for *)
Definition s_label (s : astate) (y : actx) (l : option nat) (t : ftype) (k : label -> aout) : aout :=
  match l with
  | None => AErr ERR_UNSUPPORTED s
  | Some l => match nth_error (a_fields y) l with
              | Some f => if ftype_eqb (l_type f) t then k f else AErr ERR_UNSUPPORTED s
              | None => AIll
              end
  end.
Definition s_set_field (s : astate) (l : option nat) (t : ftype) (vals : bytes) : aout :=
  match l with
  | None => AErr ERR_UNSUPPORTED s
  | Some _ =>
  live s (fun y => s_label s y l t (fun f => s_reading s y true (
    match conts s y with
    | Some old =>
        if inside old (l_off f) (l_size f) && Nat.leb (l_size f) (length vals) then
          if bytes_eqb (slice old (l_off f) (l_size f)) (firstn (l_size f) vals) then AOk ODone s
          else if locked y then AErr ERR_MINOR s
          else AOk ODone (putd (sc s (tick y 2)) (tick y 2) (splice old (l_off f) (firstn (l_size f) vals)))
        else AIll
    | None => AIll
    end)))
  end.
Definition s_get_field (s : astate) (l : option nat) (t : ftype) : aout :=
  match l with
  | None => AErr ERR_UNSUPPORTED s
  | Some _ =>
  live s (fun y => s_label s y l t (fun f => s_reading s y true (
    match conts s y with
    | Some old => let n := Nat.div (l_size f) (fsize t) in
                  if inside old (l_off f) (n * fsize t) then AOk (OVals n (slice old (l_off f) (n * fsize t))) (sc s (rg (rd y 1) true))
                  else AIll
    | None => AIll
    end)))
  end.
Definition s_restore_field (s : astate) (l : option nat) (t : ftype) : aout :=
  match l with
  | None => AErr ERR_UNSUPPORTED s
  | Some _ => live s (fun y => s_label s y l t (fun f => s_restore_read s))
  end.
Definition s_destroy (s : astate) : aout :=
  live s (fun y =>
    let y := rf y (-1) in
    if 0 <? a_refs y then AOk ODone (sc s y)
    else if busy y then AErr ERR_MINOR (sc s y)
    else s_dtor (sc s y) y (fun s y => AOk ODone (mkS None (s_user s) (s_nu s)))).

Definition byte_at (l : option bytes) (i : nat) (s : astate) : aout :=
  match l with Some l => match nth_error l i with Some b => AOk (OByte b) s | None => AIll end | None => AIll end.
Definition astep (c : cmd) (s : astate) : aout :=
  match c with
  | KSet host mode size a => s_set s host mode size a
  | KTake host => s_take s host
  | KGet host => s_get s host
  | KGetRead host => s_get_read s host
  | KRestore => s_restore s
  | KRestoreRead => s_restore_read s
  | KRegister name off t num => s_register s name off t num
  | KLabel name => live s (fun y => AOk (OLab (field_index 0 (a_fields y) name None)) s)
  | KSetField l t vals => s_set_field s l t vals
  | KGetField l t => s_get_field s l t
  | KRestoreField l t => s_restore_field s l t
  | KDtor None => AErr ERR_MINOR s
  | KDtor (Some d) => live s (fun y => AOk ODone (sc s (dt y (Some d))))
  | KRef => live s (fun y => AOk ODone (sc s (rf y 1)))
  | KDestroy => s_destroy s
  | KSize => live s (fun y => AOk (ONat (a_size y)) s)
  | KState => live s (fun y => AOk (OZ (a_clock y mod two64)) s)
  | UAlloc l => AOk ODone (mkS (s_ctx s) (nupd (s_user s) (s_nu s) (Some l)) (S (s_nu s)))
  | UFree n => match s_user s n with Some _ => AOk ODone (su s n None) | None => AIll end
  | URead n i => byte_at (s_user s n) i s
  | UWrite n i b => match s_user s n with Some l => if inside l i 1 then AOk ODone (su s n (Some (splice l i [b]))) else AIll | None => AIll end
  | VRead i => live s (fun y => if a_rg y then byte_at (conts s y) i s else AIll)
  | VReadW i => live s (fun y => if a_wg y then byte_at (conts s y) i s else AIll)
  | VWrite i b => live s (fun y => if a_wg y then match conts s y with
                                                  | Some l => if inside l i 1 then AOk ODone (putd s y (splice l i [b])) else AIll
                                                  | None => AIll
                                                  end
                                   else AIll)
  end.

(** A whole history: the observations; [None] when the client misbehaved. *)
Fixpoint arun (cs : list cmd) (s : astate) : option (list res * astate) :=
  match cs with
  | [] => Some ([], s)
  | c :: cs => match astep c s with
               | AOk o s => match arun cs s with Some (os, s) => Some (Good o :: os, s) | None => None end
               | AErr e s => match arun cs s with Some (os, s) => Some (Bad e :: os, s) | None => None end
               | AIll => None
               end
  end.
