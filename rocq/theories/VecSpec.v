(** * What a client may expect of vectors: an abstract machine without pointers

    A vector has a length, a clock (odd while write access is granted), a number of readers, a reference count
    and its contents: nothing yet, values of its own, or a block the client shares with it.  A client block is
    a list of scalars.  [AIll] marks actions the client must not perform (use of a destroyed vector, of a
    pointer not granted any more, of a block it gave away, too short arrays, 2^64 simultaneous readers). *)
From Coq Require Import List ZArith Lia Bool Arith.
From Verif Require Import Prelude RstrModel VecModel.
Import ListNotations.
Set Implicit Arguments.
Local Open Scope Z_scope.

Section Spec.
Variable R : Rng.
Inductive content := CEmpty | COwn (l : list R) | CShared (n : nat).
Record avec := mkA { a_len : nat; a_clock : Z; a_readers : Z; a_refs : Z; a_cont : content;
  a_wg : bool;  (* the client holds a pointer granted for writing *)
  a_rg : bool   (* the client holds a pointer granted for reading *) }.
Record astate := mkS { s_vecs : nat -> option avec; s_user : nat -> option (list R); s_nv : nat; s_nu : nat }.
Inductive aout := AOk (o : obs R) (s : astate) | AErr (e : Z) (s : astate) | AIll.

Definition empty_astate : astate := mkS (fun _ => None) (fun _ => None) 0 0.
Definition sv (s : astate) (v : nat) (y : avec) : astate := mkS (nupd (s_vecs s) v (Some y)) (s_user s) (s_nv s) (s_nu s).
Definition su (s : astate) (n : nat) (l : option (list R)) : astate := mkS (s_vecs s) (nupd (s_user s) n l) (s_nv s) (s_nu s).
Definition tick (y : avec) (k : Z) := mkA (a_len y) (a_clock y + k) (a_readers y) (a_refs y) (a_cont y) (a_wg y) (a_rg y).
Definition rd (y : avec) (k : Z) := mkA (a_len y) (a_clock y) (a_readers y + k) (a_refs y) (a_cont y) (a_wg y) (a_rg y).
Definition rf (y : avec) (k : Z) := mkA (a_len y) (a_clock y) (a_readers y) (a_refs y + k) (a_cont y) (a_wg y) (a_rg y).
Definition ct (y : avec) (c : content) := mkA (a_len y) (a_clock y) (a_readers y) (a_refs y) c (a_wg y) (a_rg y).
Definition wg (y : avec) (b : bool) := mkA (a_len y) (a_clock y) (a_readers y) (a_refs y) (a_cont y) b (a_rg y).
Definition rg (y : avec) (b : bool) := mkA (a_len y) (a_clock y) (a_readers y) (a_refs y) (a_cont y) (a_wg y) b.

(** ** Contents *)
Definition conts (s : astate) (y : avec) : option (list R) :=
  match a_cont y with CEmpty => None | COwn l => Some l | CShared n => s_user s n end.
Definition putc (s : astate) (v : nat) (y : avec) (l : list R) : astate :=
  match a_cont y with
  | CEmpty => s
  | COwn _ => sv s v (ct y (COwn l))
  | CShared n => su s n (Some l)
  end.
(** vectors other than [v] using block [n] *)
Definition shared_elsewhere (s : astate) (v n : nat) : bool :=
  existsb (fun v' => negb (Nat.eqb v' v) && match s_vecs s v' with Some y => match a_cont y with CShared m => Nat.eqb m n | _ => false end | None => false end)
    (seq 0 (s_nv s)).
Definition same_block (y y' : avec) : bool := match a_cont y, a_cont y' with CShared n, CShared m => Nat.eqb n m | _, _ => false end.

Definition busy (y : avec) : bool := negb (even (a_clock y)).
Definition locked (y : avec) : bool := busy y || negb (a_readers y =? 0).
Definition invalid (y : avec) : bool := negb (Nat.eqb (a_len y) 0) && match a_cont y with CEmpty => true | _ => false end.
Definition many (y : avec) : bool := two64 <=? a_readers y + 1.
Definition live (s : astate) (v : nat) (k : avec -> aout) : aout := match s_vecs s v with Some y => k y | None => AIll end.

(** The list whose first [n] entries are [f i], the rest those of [old]. *)
Definition fill (n : nat) (f : nat -> R) (old : list R) : list R := map f (seq 0 n) ++ skipn n old.
(** The list whose entries [start, start + step, ...] below [stop] are [f i]. *)
Definition fill_strided (start stop step : nat) (f : nat -> R) (old : list R) : list R :=
  map (fun i => if (Nat.leb start i && Nat.ltb i stop && Nat.eqb ((i - start) mod step) 0)%bool then f i else vf old i) (seq 0 (length old)).

Definition zeros (n : nat) : list R := repeat 0%R n.

(** ** Calls *)
Definition s_set_array (s : astate) (v : nat) (host : bool) (mode : cmode) (a : src) : aout :=
  live s v (fun y =>
    if locked y then AErr ERR_ACCESS s
    else if Nat.eqb (a_len y) 0 then AOk ODone (sv s v (tick y 2))
    else if negb host then AErr ERR_BACKEND s
    else match mode with
    | CopyValues =>
        let y := match a_cont y with CEmpty => ct y (COwn (zeros (a_len y))) | _ => y end in
        let s := sv s v (tick y 2) in
        let y := tick y 2 in
        let from (l : list R) := match conts s y with
                                 | Some old => if Nat.leb (a_len y) (length l) then AOk ODone (putc s v y (fill (a_len y) (vf l) old)) else AIll
                                 | None => AIll
                                 end in
        match a with
        | SNull => AOk ODone s
        | SUser n => match s_user s n with
                     | Some l => match a_cont y with CShared m => if Nat.eqb m n then AIll else from l | _ => from l end
                     | None => AIll
                     end
        | SRead u | SWrite u =>
            match s_vecs s u with
            | Some z => if match a with SRead _ => a_rg z | _ => a_wg z end then
                          if Nat.eqb u v || same_block y z then AIll
                          else match conts s z with Some l => if Nat.eqb (a_len z) 0 then AIll else from l | None => AIll end
                        else AIll
            | None => AIll
            end
        end
    | OwnPointer =>
        match a with
        | SNull => AOk ODone (sv s v (tick (ct y CEmpty) 2))
        | SUser n => match s_user s n with
                     | Some l => if (shared_elsewhere s v n || Nat.ltb (length l) (a_len y))%bool then AIll
                                 else AOk ODone (su (sv s v (tick (ct y (COwn l)) 2)) n None)
                     | None => AIll
                     end
        | _ => AIll
        end
    | UsePointer =>
        match a with
        | SNull => AOk ODone (sv s v (tick (ct y CEmpty) 2))
        | SUser n => match s_user s n with
                     | Some l => if Nat.ltb (length l) (a_len y) then AIll else AOk ODone (sv s v (tick (ct y (CShared n)) 2))
                     | None => AIll
                     end
        | _ => AIll
        end
    end).

Definition s_take (s : astate) (v : nat) (host : bool) : aout :=
  live s v (fun y =>
    if locked y then AErr ERR_ACCESS s
    else if Nat.eqb (a_len y) 0 then AOk (OPtr None) s
    else if negb host then AErr ERR_BACKEND s
    else match a_cont y with CShared n => AOk (OPtr (Some (AU n))) (sv s v (ct y CEmpty)) | _ => AErr ERR_BACKEND s end).

Definition s_get (s : astate) (v : nat) (host : bool) : aout :=
  live s v (fun y =>
    if locked y then AErr ERR_ACCESS s
    else if invalid y || (negb (Nat.eqb (a_len y) 0) && negb host) then AErr ERR_BACKEND s
    else AOk ODone (sv s v (wg (tick y 1) true))).
Definition s_get_read (s : astate) (v : nat) (host : bool) : aout :=
  live s v (fun y =>
    if busy y then AErr ERR_ACCESS s
    else if invalid y || (negb (Nat.eqb (a_len y) 0) && negb host) then AErr ERR_BACKEND s
    else if many y then AIll
    else AOk ODone (sv s v (rg (rd y 1) true))).
(** Write access to an empty vector makes it a vector of zeros first (and counts as a modification). *)
Definition s_zero (y : avec) : avec := if invalid y then tick (ct y (COwn (zeros (a_len y)))) 2 else y.
Definition s_get_write (s : astate) (v : nat) (host : bool) : aout :=
  live s v (fun y =>
    if locked y then AErr ERR_ACCESS s
    else if negb (Nat.eqb (a_len y) 0) && negb host then AErr ERR_BACKEND (sv s v (s_zero y))
    else AOk ODone (sv s v (wg (tick (s_zero y) 1) true))).
Definition s_restore (s : astate) (v : nat) : aout :=
  live s v (fun y => if busy y then AOk ODone (sv s v (wg (tick y 1) false)) else AErr ERR_ACCESS s).
Definition s_restore_read (s : astate) (v : nat) : aout :=
  live s v (fun y => if 0 <? a_readers y then AOk ODone (sv s v (rg (rd y (-1)) (a_rg y && (1 <? a_readers y)))) else AErr ERR_ACCESS s).

Definition s_set_value (s : astate) (v : nat) (x : R) : aout :=
  live s v (fun y =>
    if locked y then AErr ERR_ACCESS s
    else let y' := tick (s_zero y) 2 in
         let s' := sv s v y' in
         if Nat.eqb (a_len y) 0 then AOk ODone s'
         else match conts s' y' with Some old => AOk ODone (putc s' v y' (fill (a_len y) (fun _ => x) old)) | None => AIll end).
(** with a negative start or a step that is not positive the client is on its own *)
Definition s_set_value_strided (s : astate) (v : nat) (start stop step : Z) (x : R) : aout :=
  live s v (fun y =>
    if locked y then AErr ERR_ACCESS s
    else let len := Z.of_nat (a_len y) in
    if negb ((-1 <=? stop) && (stop <=? len)) then AErr ERR_ACCESS s
    else if Nat.eqb (a_len y) 0 then AOk ODone s
    else if invalid y then AErr ERR_BACKEND s
    else let stop := if stop =? -1 then len else stop in
         if (start <? stop) && ((start <? 0) || (step <=? 0)) then AIll
         else let s' := sv s v (tick y 2) in
         match conts s y with
         | Some old => AOk ODone (putc s' v (tick y 2) (if start <? stop then fill_strided (Z.to_nat start) (Z.to_nat stop) (Z.to_nat step) (fun _ => x) old else old))
         | None => AIll
         end).
Definition s_sync (s : astate) (v : nat) (host : bool) : aout :=
  live s v (fun y =>
    if busy y then AErr ERR_ACCESS s
    else if Nat.eqb (a_len y) 0 then AOk ODone s
    else if invalid y || negb host then AErr ERR_BACKEND s
    else if many y then AIll else AOk ODone s).

(** Failing after the first of two vectors was locked leaves it locked (found in the code). *)
Definition s_copy (s : astate) (v u : nat) : aout :=
  live s v (fun y => live s u (fun z =>
    if negb (Nat.eqb (a_len y) (a_len z)) then AErr ERR_INCOMPATIBLE s
    else if locked y then AErr ERR_ACCESS s
    else if invalid y then AErr ERR_BACKEND s
    else if Nat.eqb v u || locked z then AErr ERR_ACCESS (sv s v (tick y 1))
    else if Nat.eqb (a_len y) 0 then AOk ODone (sv (sv s v (tick y 2)) u (tick z 2))
    else if same_block y z then AIll
    else let z' := tick (match a_cont z with CEmpty => ct z (COwn (zeros (a_len z))) | _ => z end) 2 in
         let s' := sv (sv s v (tick y 2)) u z' in
         match conts s y, conts s' z' with
         | Some l, Some old => AOk ODone (putc s' u z' (fill (a_len z) (vf l) old))
         | _, _ => AIll
         end)).
Definition s_copy_strided (s : astate) (v : nat) (start stop step : Z) (u : nat) : aout :=
  live s v (fun y => live s u (fun z =>
    if (Nat.eqb (a_len y) 0 || Nat.eqb (a_len z) 0)%bool then AOk ODone s
    else let len := Z.of_nat (Nat.min (a_len y) (a_len z)) in
    if negb ((-1 <=? stop) && (stop <=? len) && ((0 <=? start) && (start <=? len) && ((start <=? stop) || (stop =? -1)))) then AErr ERR_ACCESS s
    else if busy y then AErr ERR_ACCESS s
    else if invalid y then AErr ERR_BACKEND s
    else if many y then AIll
    else if Nat.eqb v u || locked z then AErr ERR_ACCESS (sv s v (rd y 1))
    else if invalid z then AErr ERR_BACKEND (sv s v (rd y 1))
    else let stop := if stop =? -1 then len else stop in
         if (start <? stop) && (step <=? 0) then AIll
         else match conts s y, conts s z with
         | Some l, Some old => AOk ODone (putc (sv s u (tick z 2)) u (tick z 2)
             (if start <? stop then fill_strided (Z.to_nat start) (Z.to_nat stop) (Z.to_nat step) (vf l) old else old))
         | _, _ => AIll
         end)).

(** modification of the contents of [v] in place by [f], with the errors of write access *)
Definition s_modify (s : astate) (v : nat) (f : R -> R) : aout :=
  live s v (fun y =>
    if invalid y then AErr ERR_BACKEND s
    else if Nat.eqb (a_len y) 0 then AOk ODone s
    else if locked y then AErr ERR_ACCESS s
    else match conts s y with
         | Some old => AOk ODone (putc (sv s v (tick y 2)) v (tick y 2) (fill (a_len y) (fun i => f (vf old i)) old))
         | None => AIll
         end).
Definition s_axp (f : R -> R -> R) (s : astate) (y x : nat) : aout :=
  live s y (fun yy => live s x (fun xx =>
    if negb (Nat.eqb (a_len xx) (a_len yy)) then AErr ERR_UNSUPPORTED s
    else if Nat.eqb x y then AErr ERR_UNSUPPORTED s
    else if invalid xx || invalid yy then AErr ERR_BACKEND s
    else if Nat.eqb (a_len yy) 0 then AOk ODone s
    else if locked yy then AErr ERR_ACCESS s
    else if busy xx then AErr ERR_ACCESS (sv s y (tick yy 1))
    else if many xx then AIll
    else match conts s xx, conts s yy with
         | Some lx, Some ly => AOk ODone (putc (sv s y (tick yy 2)) y (tick yy 2) (fill (a_len yy) (fun i => f (vf lx i) (vf ly i)) ly))
         | _, _ => AIll
         end)).
(** three vectors, any of them equal; locking order w, x, y *)
Definition s_mult (s : astate) (w x y : nat) : aout :=
  live s w (fun ww => live s x (fun xx => live s y (fun yy =>
    if negb (Nat.leb (a_len ww) (a_len xx) && Nat.leb (a_len ww) (a_len yy)) then AErr ERR_UNSUPPORTED s
    else if invalid xx || invalid yy then AErr ERR_BACKEND s
    else if Nat.eqb (a_len ww) 0 then AOk ODone s
    else if locked ww then AErr ERR_ACCESS s
    else
      let ww' := s_zero ww in
      let s1 := sv s w (tick ww' 1) in
      if negb (Nat.eqb x w) && busy xx then AErr ERR_ACCESS s1
      else if negb (Nat.eqb x w) && many xx then AIll
      else
        let s2 := if Nat.eqb x w then s1 else sv s1 x (rd xx 1) in
        if negb (Nat.eqb y w) && negb (Nat.eqb y x) && busy yy then AErr ERR_ACCESS s2
        else if negb (Nat.eqb y w) && negb (Nat.eqb y x) && many yy then AIll
        else
          let s3 := sv s w (tick ww' 2) in
          match conts s xx, conts s yy, conts s3 ww' with
          | Some lx, Some ly, Some lw => AOk ODone (putc s3 w (tick ww' 2) (fill (a_len ww) (fun i => (vf lx i * vf ly i)%R) lw))
          | _, _, _ => AIll
          end))).

Variables (fabs : R -> R) (gtb : R -> R -> bool) (sqrt : R -> R) (big : R -> bool) (inv : R -> R).
Definition norm_of (nt : ntype) (l : list R) : R :=
  match nt with
  | Norm1 => fold_left (fun s y => (s + fabs y)%R) l 0%R
  | Norm2 => sqrt (fold_left (fun s y => (s + fabs y * fabs y)%R) l 0%R)
  | NormMax => fold_left (fun s y => if gtb s (fabs y) then s else fabs y) l 0%R
  end.
Definition s_norm (s : astate) (v : nat) (nt : ntype) : aout :=
  live s v (fun y =>
    if invalid y then AErr ERR_BACKEND s
    else if Nat.eqb (a_len y) 0 then AOk (OVal 0%R) s
    else if busy y then AErr ERR_ACCESS s
    else if many y then AIll
    else match conts s y with Some l => AOk (OVal (norm_of nt (firstn (a_len y) l))) s | None => AIll end).
Definition s_recip (s : astate) (v : nat) : aout :=
  live s v (fun y =>
    if invalid y then AErr ERR_BACKEND s
    else if a_clock y mod two64 =? 0 then AErr ERR_INCOMPLETE s
    else s_modify s v (fun x => if big x then inv x else x)).
(** Destroying the last handle of a vector in use fails, the reference count stays decremented. *)
Definition s_destroy (s : astate) (v : nat) : aout :=
  live s v (fun y =>
    let y := rf y (-1) in
    if 0 <? a_refs y then AOk ODone (sv s v y)
    else if locked y then AErr ERR_ACCESS (sv s v y)
    else AOk ODone (mkS (nupd (s_vecs s) v None) (s_user s) (s_nv s) (s_nu s))).

Definition astep (c : cmd R) (s : astate) : aout :=
  match c with
  | CCreate len => AOk (OId (s_nv s)) (mkS (nupd (s_vecs s) (s_nv s) (Some (mkA len 0 0 1 CEmpty false false))) (s_user s) (S (s_nv s)) (s_nu s))
  | CSetArray v host mode a => s_set_array s v host mode a
  | CTake v host => s_take s v host
  | CGet v host => s_get s v host
  | CGetRead v host => s_get_read s v host
  | CGetWrite v host => s_get_write s v host
  | CRestore v => s_restore s v
  | CRestoreRead v => s_restore_read s v
  | CSetValue v x => s_set_value s v x
  | CSetValueStrided v start stop step x => s_set_value_strided s v start stop step x
  | CSync v host => s_sync s v host
  | CCopy v u => s_copy s v u
  | CCopyStrided v start stop step u => s_copy_strided s v start stop step u
  | CNorm v nt => s_norm s v nt
  | CScale v alpha => s_modify s v (fun x => (x * alpha)%R)
  | CAxpy y alpha x => s_axp (fun a b => (b + alpha * a)%R) s y x
  | CAxpby y alpha beta x => s_axp (fun a b => (alpha * a + beta * b)%R) s y x
  | CMult w x y => s_mult s w x y
  | CRecip v => s_recip s v
  | CRef v => live s v (fun y => AOk ODone (sv s v (rf y 1)))
  | CDestroy v => s_destroy s v
  | UAlloc l => AOk ODone (mkS (s_vecs s) (nupd (s_user s) (s_nu s) (Some l)) (s_nv s) (S (s_nu s)))
  | UFree n => match s_user s n with
               | Some _ => if shared_elsewhere s (s_nv s) n then AIll else AOk ODone (su s n None)
               | None => AIll
               end
  | URead n i => match s_user s n with Some l => match nth_error l i with Some x => AOk (OVal x) s | None => AIll end | None => AIll end
  | UWrite n i x => match s_user s n with Some l => if Nat.ltb i (length l) then AOk ODone (su s n (Some (upd l i x))) else AIll | None => AIll end
  | VRead v i => live s v (fun y => if a_rg y && Nat.ltb i (a_len y)
                                    then match conts s y with Some l => AOk (OVal (vf l i)) s | None => AIll end else AIll)
  | VReadW v i => live s v (fun y => if a_wg y && Nat.ltb i (a_len y)
                                    then match conts s y with Some l => AOk (OVal (vf l i)) s | None => AIll end else AIll)
  | VWrite v i x => live s v (fun y => if a_wg y && Nat.ltb i (a_len y)
                                       then match conts s y with Some l => AOk ODone (putc s v y (upd l i x)) | None => AIll end else AIll)
  end.

(** A whole history: the observations; [None] when the client misbehaved. *)
Fixpoint arun (cs : list (cmd R)) (s : astate) : option (list (obs R + Z) * astate) :=
  match cs with
  | [] => Some ([], s)
  | c :: cs => match astep c s with
               | AOk o s => match arun cs s with Some (os, s) => Some (inl o :: os, s) | None => None end
               | AErr e s => match arun cs s with Some (os, s) => Some (inr e :: os, s) | None => None end
               | AIll => None
               end
  end.
Fixpoint run (cs : list (cmd R)) (w : world R) : option (list (obs R + Z) * world R) :=
  match cs with
  | [] => Some ([], w)
  | c :: cs => match step fabs gtb sqrt big inv c w with
               | ROk o w => match run cs w with Some (os, w) => Some (inl o :: os, w) | None => None end
               | RErr e w => match run cs w with Some (os, w) => Some (inr e :: os, w) | None => None end
               | RUB => None
               end
  end.
End Spec.
Arguments CEmpty {R}. Arguments COwn {R}. Arguments CShared {R}. Arguments AIll {R}. Arguments AOk {R}. Arguments AErr {R}.
Arguments empty_astate {R}. Arguments s_get {R}. Arguments s_get_read {R}. Arguments s_get_write {R}.
Arguments fill {R}. Arguments fill_strided {R}. Arguments zeros {R}. Arguments norm_of {R}. Arguments sv {R}. Arguments su {R}. Arguments putc {R}. Arguments conts {R}.
Arguments astep {R}. Arguments arun {R}. Arguments run {R}.
