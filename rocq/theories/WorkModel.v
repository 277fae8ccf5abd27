(** * Work vectors and delegates of a Ceed context

    Model of interface/ceed.c: the pool of work vectors with the reference count of its
    context, and the lookup of delegates.  Allocation does not fail. *)
From Coq Require Import List ZArith Lia Bool Arith.
From Verif Require Import Prelude RstrModel StrModel.
Import ListNotations.
Set Implicit Arguments.
Local Open Scope nat_scope.

(** ** Work vectors *)
(** One entry of the arrays vecs and is_in_use (include/ceed-impl.h:86-91): the vector (an identifier), its length,
    its reference count and the flag *)
Record slot := Slot { s_id : nat; s_len : Z; s_rc : Z; s_use : bool }.
(** The parts of the context that matter: work_vectors (allocated or not, entries, max_vecs), ref_count, the reference
    count of the context that implements VectorCreate when that is a delegate, and whether the
    context was freed.  [w_next] numbers the vectors created. *)
Record wst := W { w_alloc : bool; w_slots : list slot; w_max : nat; w_next : nat; w_rc : Z; w_drc : Z; w_freed : bool }.

Section Work.
(** the context has no VectorCreate of its own and uses its delegate's (ceed-vector.c:162-170), as the blocked, opt and avx
    backends do *)
Variable deleg : bool.

Definition fits (len : Z) (s : slot) : bool := negb (s_use s) && (len <=? s_len s)%Z.
Fixpoint find_idx (f : slot -> bool) (l : list slot) : option nat :=
  match l with [] => None | s :: t => if f s then Some 0 else option_map S (find_idx f t) end.
Definition set_slot (l : list slot) (i : nat) (s : slot) : list slot := firstn i l ++ s :: skipn (S i) l.

(** ceed.c:845-862: a new entry at the end; [UB] is a write behind the arrays.
    CeedVectorCreate (ceed-vector.c:161-179) takes one reference to the context that implements it. *)
Definition w_grow (st : wst) (len : Z) : res wst :=
  let n := List.length (w_slots st) in
  let max := if w_max st =? 0 then 1 else if w_max st =? n then w_max st * 2 else w_max st in
  if max <=? n then UB
  else
    let rc := if deleg then w_rc st else (w_rc st + 1)%Z in
    let drc := if deleg then (w_drc st + 1)%Z else w_drc st in
    Ok (W (w_alloc st) (w_slots st ++ [Slot (w_next st) len 1 false]) max (S (w_next st)) (rc - 1)%Z drc (w_freed st)).
(** ceed.c:833-868 CeedGetWorkVector *)
Definition w_get (st : wst) (len : Z) : res (wst * nat) :=
  if w_freed st then UB
  else
    let st := W true (w_slots st) (w_max st) (w_next st) (w_rc st) (w_drc st) false in
    let hit := find_idx (fits len) (w_slots st) in
    match match hit with Some _ => Ok st | None => w_grow st len end with
    | Ok st1 =>
      let i := match hit with Some i => i | None => List.length (w_slots st) end in
      match nth_error (w_slots st1) i with
      | None => UB
      | Some s =>
        let s' := Slot (s_id s) (s_len s) (s_rc s + 1)%Z true in
        Ok (W (w_alloc st1) (set_slot (w_slots st1) i s') (w_max st1) (w_next st1) (w_rc st1 + 1)%Z (w_drc st1) false, s_id s)
      end
    | Err c => Err c
    | UB => UB
    end.
(** ceed.c:880-893 CeedRestoreWorkVector of the vector with identifier [v].  The pool is not looked at for NULL.  If the
    vector's last reference were given up here, the pool would keep a dangling pointer. *)
Definition w_restore (st : wst) (v : nat) : res wst :=
  if w_freed st then UB
  else if negb (w_alloc st) then UB
  else match find_idx (fun s => s_id s =? v) (w_slots st) with
       | None => Err ERR_MAJOR
       | Some i =>
         match nth_error (w_slots st) i with
         | None => UB
         | Some s =>
           if negb (s_use s) then Err ERR_ACCESS
           else if (s_rc s - 1 <=? 0)%Z then UB
           else Ok (W (w_alloc st) (set_slot (w_slots st) i (Slot (s_id s) (s_len s) (s_rc s - 1)%Z false)) (w_max st) (w_next st) (w_rc st - 1)%Z (w_drc st) false)
         end
       end.
(** ceed.c:815-818 CeedReference: one more handle *)
Definition w_ref (st : wst) : res wst :=
  if w_freed st then UB else Ok (W (w_alloc st) (w_slots st) (w_max st) (w_next st) (w_rc st + 1)%Z (w_drc st) false).
(** ceed.c:1444-1484 CeedDestroy with CeedWorkVectorsDestroy (164-176); of the rest only the release of the context matters.
    Each vector is destroyed with the reference it holds. *)
Definition w_destroy (st : wst) : res wst :=
  if w_freed st then UB
  else
    let rc := (w_rc st - 1)%Z in
    if (0 <? rc)%Z then Ok (W (w_alloc st) (w_slots st) (w_max st) (w_next st) rc (w_drc st) false)
    else if existsb s_use (w_slots st) then Err ERR_ACCESS
    else Ok (W false [] 0 (w_next st) rc (if deleg then w_drc st - Z.of_nat (List.length (w_slots st)) else w_drc st)%Z true).
(** the context after CeedInit *)
Definition w_init : wst := W false [] 0 0 1 1 false.
End Work.

(** ** Delegates *)
(** include/ceed-impl.h: the default delegate and the list of object delegates *)
Record dst := D { d_default : option nat; d_objs : list (str * nat) }.
(** ceed.c:540-544 CeedGetDelegate *)
Definition get_delegate (d : dst) : option nat := d_default d.
(** ceed.c:559-563 CeedSetDelegate *)
Definition set_delegate (d : dst) (x : nat) : dst := D (Some x) (d_objs d).
(** ceed.c:576-589 CeedGetObjectDelegate: the loop looks at the first entry every time *)
Fixpoint od_loop (n : nat) (l : list (str * nat)) (name : str) : option (option nat) :=
  match n with
  | 0 => None
  | S n' => match l with
            | (o, x) :: _ => if seqb name o then Some (Some x) else od_loop n' l name
            | [] => None
            end
  end.
Definition get_obj_delegate (d : dst) (name : str) : option nat :=
  match od_loop (List.length (d_objs d)) (d_objs d) name with Some r => r | None => get_delegate d end.
(** ceed.c:606-624 CeedSetObjectDelegate.  The entry that CeedRealloc adds is not cleared, and CeedReferenceCopy
    (ceed.c:1287-1292) destroys what the entry holds before it stores the delegate there. *)
Definition set_obj_delegate (d : dst) (x : nat) (name : str) : res dst :=
  match d_objs d with
  | [] => Ok (D (d_default d) [(name, x)])
  | _ => UB
  end.
