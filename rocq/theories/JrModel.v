(** * JiT source roots and defines of a hierarchy of Ceed contexts; the list of registered backends

    Model of interface/ceed.c: CeedGetParent, CeedAdd/Get/RestoreJitSourceRoot(s), CeedAdd/Get/RestoreJitDefine(s),
    CeedGetOperatorFallbackCeed, the reader checks of CeedDestroy, CeedRegistryGetList.  Allocation does not fail. *)
From Coq Require Import List ZArith Lia Bool Arith.
From Verif Require Import Prelude RstrModel StrModel QfModel.
Import ListNotations.
Set Implicit Arguments.
Local Open Scope nat_scope.

(** include/ceed-impl.h: jit_source_roots / jit_defines with num_.., max_.. and num_.._readers.  [None] is an entry
    that realloc left undefined.  [jgen] names the block the pointer array lives in: realloc may move it. *)
Record jlist := mkJL { jarr : list (option str); jnum : nat; jmax : nat; jrd : Z; jgen : nat }.
Definition jl_empty : jlist := mkJL [] 0 0 0 0.
Inductive kind := Roots | Defs.

(** a Ceed: parent, the contexts it delegates to, op_fallback_ceed, has_valid_op_fallback_resource, ref_count, the two
    lists; [calive] is false once it was freed *)
Record ctx := mkCtx { cpar : option nat; cdel : list nat; cfb : option nat; cfbok : bool; crefs : Z;
                      croots : jlist; cdefs : jlist; calive : bool }.
Definition world := list ctx.

Definition jl (k : kind) (x : ctx) : jlist := match k with Roots => croots x | Defs => cdefs x end.
Definition set_jl (k : kind) (x : ctx) (l : jlist) : ctx :=
  match k with
  | Roots => mkCtx (cpar x) (cdel x) (cfb x) (cfbok x) (crefs x) l (cdefs x) (calive x)
  | Defs => mkCtx (cpar x) (cdel x) (cfb x) (cfbok x) (crefs x) (croots x) l (calive x)
  end.
Definition set_refs (x : ctx) (r : Z) : ctx :=
  mkCtx (cpar x) (cdel x) (cfb x) (cfbok x) r (croots x) (cdefs x) (calive x).
Definition set_par (x : ctx) (p : option nat) : ctx :=
  mkCtx p (cdel x) (cfb x) (cfbok x) (crefs x) (croots x) (cdefs x) (calive x).
Definition add_del (x : ctx) (d : nat) : ctx :=
  mkCtx (cpar x) (cdel x ++ [d]) (cfb x) (cfbok x) (crefs x) (croots x) (cdefs x) (calive x).
Definition set_fb (x : ctx) (f : nat) : ctx :=
  mkCtx (cpar x) (cdel x) (Some f) (cfbok x) (crefs x) (croots x) (cdefs x) (calive x).
Definition set_fbok (x : ctx) (b : bool) : ctx :=
  mkCtx (cpar x) (cdel x) (cfb x) b (crefs x) (croots x) (cdefs x) (calive x).
Definition set_dead (x : ctx) : ctx :=
  mkCtx (cpar x) (cdel x) (cfb x) (cfbok x) (crefs x) (croots x) (cdefs x) false.

Fixpoint upd_nth {A} (l : list A) (i : nat) (a : A) : list A :=
  match l, i with
  | [], _ => []
  | _ :: t, 0 => a :: t
  | x :: t, S i' => x :: upd_nth t i' a
  end.
(** access through a pointer to context [c]: undefined if it was freed *)
Definition deref (w : world) (c : nat) : option ctx :=
  match nth_error w c with Some x => if calive x then Some x else None | None => None end.

(** outcome of a call: value or error code, and the state left behind *)
Definition out (A : Type) := (res A * world)%type.

(** ceed.c:1445-1484 CeedDestroy: one reference is given up; the last one refuses while a list is being read
    (ref_count stays decremented), otherwise the delegates, then the context and its fallback go.  Work vectors, the
    backend Destroy and freeing the fields have no effect here.  [fuel] bounds the depth of the recursion. *)
Fixpoint destroy (fuel : nat) (w : world) (c : nat) : out unit :=
  match fuel with
  | 0 => (UB, w)
  | S fuel' =>
    match deref w c with
    | None => (UB, w)
    | Some x =>
      let r := (crefs x - 1)%Z in
      let w1 := upd_nth w c (set_refs x r) in
      if (0 <? r)%Z then (Ok tt, w1)
      else if negb (jrd (croots x) =? 0)%Z then (Err ERR_ACCESS, w1)
      else if negb (jrd (cdefs x) =? 0)%Z then (Err ERR_ACCESS, w1)
      else
        let go := fold_left (fun (o : out unit) d => match o with (Ok _, w') => destroy fuel' w' d | _ => o end) in
        match go (cdel x) (Ok tt, w1) with
        | (Ok _, w2) =>
          let o := match cfb x with Some f => destroy fuel' w2 f | None => (Ok tt, w2) end in
          match o with
          | (Ok _, w3) => (Ok tt, match nth_error w3 c with Some y => upd_nth w3 c (set_dead y) | None => w3 end)
          | o' => o'
          end
        | o => o
        end
    end
  end.
Definition ceed_destroy (w : world) (c : nat) : out unit := destroy (S (length w)) w c.

(** ceed.c:520-528 CeedGetParent without the reference: the recursion over parent.  [None]: a freed context is
    reached, or the recursion does not end. *)
Fixpoint top_from (fuel : nat) (w : world) (c : nat) : option nat :=
  match fuel with
  | 0 => None
  | S fuel' =>
    match deref w c with
    | None => None
    | Some x => match cpar x with None => Some c | Some p => top_from fuel' w p end
    end
  end.
Definition top (w : world) (c : nat) : option nat := top_from (length w) w c.
(** ceed.c:520-528 CeedGetParent, 815-818 CeedReference *)
Definition get_parent (w : world) (c : nat) : out nat :=
  match top w c with
  | None => (UB, w)
  | Some t => match deref w t with
              | None => (UB, w)
              | Some x => (Ok t, upd_nth w t (set_refs x (crefs x + 1)))
              end
  end.

(** ceed.c:1366-1377 and 1397-1408: the list after one more string; [None] if the write is out of bounds *)
Definition jl_push (l : jlist) (s : str) : option jlist :=
  let index := jnum l in
  let grown :=
    if jnum l =? jmax l then
      let m := (if jmax l =? 0 then 1 else jmax l) * 2 in
      mkJL (firstn m (jarr l) ++ repeat None (m - length (jarr l))) (jnum l) m (jrd l) (S (jgen l))
    else l in
  if index <? length (jarr grown) then
    Some (mkJL (upd_nth (jarr grown) index (Some s)) (S (jnum grown)) (jmax grown) (jrd grown) (jgen grown))
  else None.

(** ceed.c:1361-1380 CeedAddJitSourceRoot, 1392-1411 CeedAddJitDefine.  The refusal returns before the reference to
    the parent is given back. *)
Definition jit_add (k : kind) (w : world) (c : nat) (s : str) : out unit :=
  match get_parent w c with
  | (Ok t, w1) =>
    match deref w1 t with
    | None => (UB, w1)
    | Some x =>
      if negb (jrd (jl k x) =? 0)%Z then (Err ERR_ACCESS, w1)
      else match jl_push (jl k x) s with
           | None => (UB, w1)
           | Some l' => ceed_destroy (upd_nth w1 t (set_jl k x l')) t
           end
    end
  | (Err e, w1) => (Err e, w1)
  | (UB, w1) => (UB, w1)
  end.

(** what CeedGetJitSourceRoots hands out: the pointer array and its length *)
Record handle := mkH { hk : kind; hctx : nat; hgen : nat; hnum : nat }.
(** ceed.c:908-917 CeedGetJitSourceRoots, 952-961 CeedGetJitDefines *)
Definition jit_get (k : kind) (w : world) (c : nat) : out handle :=
  match get_parent w c with
  | (Ok t, w1) =>
    match deref w1 t with
    | None => (UB, w1)
    | Some x =>
      let l := jl k x in
      let h := mkH k t (jgen l) (jnum l) in
      match ceed_destroy (upd_nth w1 t (set_jl k x (mkJL (jarr l) (jnum l) (jmax l) (jrd l + 1) (jgen l)))) t with
      | (Ok _, w2) => (Ok h, w2)
      | (Err e, w2) => (Err e, w2)
      | (UB, w2) => (UB, w2)
      end
    end
  | (Err e, w1) => (Err e, w1)
  | (UB, w1) => (UB, w1)
  end.
(** ceed.c:929-937 CeedRestoreJitSourceRoots, 973-981 CeedRestoreJitDefines: the pointer passed in is only nulled *)
Definition jit_restore (k : kind) (w : world) (c : nat) : out unit :=
  match get_parent w c with
  | (Ok t, w1) =>
    match deref w1 t with
    | None => (UB, w1)
    | Some x =>
      let l := jl k x in
      ceed_destroy (upd_nth w1 t (set_jl k x (mkJL (jarr l) (jnum l) (jmax l) (jrd l - 1) (jgen l)))) t
    end
  | (Err e, w1) => (Err e, w1)
  | (UB, w1) => (UB, w1)
  end.
(** the caller reads entry [i] of the array it was given *)
Definition hread (w : world) (h : handle) (i : nat) : res str :=
  match deref w (hctx h) with
  | None => UB
  | Some x => let l := jl (hk h) x in
              if jgen l =? hgen h then match nth_error (jarr l) i with Some (Some s) => Ok s | _ => UB end else UB
  end.

(** ceed.c:1124-1245 CeedInit, the part that matters here: one reference, no parent, the default source root
    ([dflt], ceed-jit-source-root-default.c) added.  Delegates that the backend sets up are separate steps. *)
Definition new_ctx : ctx := mkCtx None [] None false 1 jl_empty jl_empty true.
Definition ceed_new (dflt : str) (w : world) : out nat :=
  let n := length w in
  match jit_add Roots (w ++ [new_ctx]) n dflt with
  | (Ok _, w') => (Ok n, w')
  | (Err e, w') => (Err e, w')
  | (UB, w') => (UB, w')
  end.

(** ceed.c:561-565 CeedSetDelegate, 606-625 CeedSetObjectDelegate, for an empty slot: a reference and the back link *)
Definition set_delegate (w : world) (p d : nat) : out unit :=
  match deref w p, deref w d with
  | Some _, Some y =>
    let w1 := upd_nth w d (set_refs y (crefs y + 1)) in
    match deref w1 p with
    | None => (UB, w1)
    | Some x =>
      let w2 := upd_nth w1 p (add_del x d) in
      match deref w2 d with
      | None => (UB, w2)
      | Some y' => (Ok tt, upd_nth w2 d (set_par y' (Some p)))
      end
    end
  | _, _ => (UB, w)
  end.

(** ceed.c:669-675, 681-687: the copy loops, reading entry [i] and adding it to context [f].  Both loops call
    CeedAddJitSourceRoot *)
Fixpoint copy_loop (w : world) (h : handle) (f : nat) (i n : nat) : out unit :=
  match n with
  | 0 => (Ok tt, w)
  | S n' => match hread w h i with
            | Ok s => match jit_add Roots w f s with
                      | (Ok _, w1) => copy_loop w1 h f (S i) n'
                      | o => o
                      end
            | Err e => (Err e, w)
            | UB => (UB, w)
            end
  end.
(** ceed.c:667-676 and 677-689: get, copy, restore *)
Definition copy_list (k : kind) (w : world) (c f : nat) : out unit :=
  match jit_get k w c with
  | (Ok h, w1) => match copy_loop w1 h f 0 (hnum h) with
                  | (Ok _, w2) => jit_restore k w2 c
                  | o => o
                  end
  | (Err e, w1) => (Err e, w1)
  | (UB, w1) => (UB, w1)
  end.
(** ceed.c:651-692 CeedGetOperatorFallbackCeed *)
Definition get_fallback (dflt : str) (w : world) (c : nat) : out (option nat) :=
  let create : out unit :=
    match deref w c with
    | None => (UB, w)
    | Some x =>
      match cfb x, cfbok x with
      | None, true =>
        match ceed_new dflt w with
        | (Ok f, w1) =>
          match deref w1 c with
          | None => (UB, w1)
          | Some y =>
            match copy_list Roots (upd_nth w1 c (set_fb y f)) c f with
            | (Ok _, w2) => copy_list Defs w2 c f
            | o => o
            end
          end
        | (Err e, w1) => (Err e, w1)
        | (UB, w1) => (UB, w1)
        end
      | _, _ => (Ok tt, w)
      end
    end in
  match create with
  | (Ok _, w1) =>
    match deref w1 c with
    | None => (UB, w1)
    | Some x =>
      match cfb x with
      | None => (Ok None, w1)
      | Some f => match deref w1 f with
                  | None => (UB, w1)
                  | Some y => (Ok (Some f), upd_nth w1 f (set_refs y (crefs y + 1)))
                  end
      end
    end
  | (Err e, w1) => (Err e, w1)
  | (UB, w1) => (UB, w1)
  end.
(** ceed.c:706-717 CeedSetOperatorFallbackResource: [b] tells whether the fallback resource differs from the own one *)
Definition set_fallback_resource (w : world) (c : nat) (b : bool) : out unit :=
  match deref w c with
  | None => (UB, w)
  | Some x => (Ok tt, upd_nth w c (set_fbok x b))
  end.

(** ** The list of registered backends *)
(** ceed.c:1005-1029 CeedRegistryGetList.  The caller passes the address of one [char **] variable, so [resources[i]]
    is an object of the caller only for i = 0; "*resources[i] = .." parses as "*(resources[i]) = .." and writes element 0 of that
    array.  [acc] is the array as written so far (element 0 only), [n] the count. *)
Fixpoint list_loop (tbl : list backend) (i n : nat) (acc : list (option (str * Z))) : res (nat * list (option (str * Z))) :=
  match tbl with
  | [] => Ok (n, acc)
  | b :: t =>
    if (be_prio b <? MAX_PRIO)%Z then
      (if i =? 0 then list_loop t (S i) (S n) (upd_nth acc 0 (Some (be_prefix b, be_prio b))) else UB)
    else list_loop t (S i) n acc
  end.
Definition registry_list (tbl : list backend) : res (list (option (str * Z))) :=
  match list_loop tbl 0 0 (repeat None (length tbl)) with
  | Ok (n, acc) => if n =? 0 then Err ERR_MAJOR else Ok (firstn n acc)
  | Err e => Err e
  | UB => UB
  end.
(** ceed-register.c:31-45 CeedRegisterAll: each backend's registration function returns a code; the first failure
    stops the others, and the flag is set all the same *)
Fixpoint register_codes (tbl : list backend) (l : list (backend * Z)) : Z * list backend :=
  match l with
  | [] => (0%Z, tbl)
  | (b, e) :: t => if (e =? 0)%Z then register_codes (snd (ceed_register tbl b)) t else (e, tbl)
  end.
Definition register_all_once (called : bool) (tbl : list backend) (l : list (backend * Z)) : Z * bool * list backend :=
  if called then (0%Z, true, tbl) else let '(e, tbl') := register_codes tbl l in (e, true, tbl').
