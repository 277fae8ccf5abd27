(** * A client that keeps the stricter rules the memcheck backend relies on

    The rules are stated over the abstract machine of VecSpec (the reference backend) and three notes per vector:
    which entries have a value (none after write-only access was granted or the library allocated the array),
    whether a lent array is known to be up to date ([g_sync]), and the state counter.  [strict c s g] is [None] for
    an action that breaks a rule and the notes after the action otherwise:
    - no use of entries never written (for [CNorm] none at all may be missing);
    - a lent array is read by the client only where it is up to date (after CeedVectorRestoreArray or
      CeedVectorSyncArray, before anything changes the vector again), never written, lent to one vector only, and
      up to date and complete when the vector lets it go;
    - Scale, AXPY, AXPBY, PointwiseMult and Reciprocal are not called on vectors in use;
    - CeedVectorSyncArray and CeedVectorSetValueStrided are called on vectors with data only;
    - NULL is passed with CEED_COPY_VALUES only;
    - CeedVectorReciprocal is not called where the state counter is zero on one backend and not on the other. *)
From Coq Require Import List ZArith Lia Bool Arith.
From Verif Require Import Prelude RstrModel VecModel VecSpec McModel.
Import ListNotations.
Set Implicit Arguments.
Local Open Scope Z_scope.

Section S.
Variable R : Rng.
Notation astate := (astate R). Notation avec := (avec R).
Record ghost := mkG { g_def : nat -> nat -> bool; g_sync : nat -> bool; g_st : nat -> Z }.
Definition no_ghost : ghost := mkG (fun _ _ => false) (fun _ => false) (fun _ => 0).
Definition gnote (g : ghost) (v : nat) (d : nat -> bool) (b : bool) (k : Z) : ghost :=
  mkG (nupd (g_def g) v d) (nupd (g_sync g) v b) (nupd (g_st g) v (g_st g v + k)).
Definition all : nat -> bool := fun _ => true.
Definition none : nat -> bool := fun _ => false.
(** all entries of [v] have a value *)
Definition alldef (g : ghost) (v : nat) (y : avec) : bool := forallb (g_def g v) (seq 0 (a_len y)).
(** [v] may let go of its array *)
Definition leaves (g : ghost) (v : nat) (y : avec) : bool :=
  match a_cont y with CShared _ => g_sync g v && alldef g v y | _ => true end.
(** some vector borrows block [n] *)
Definition lent (s : astate) (n : nat) : bool := shared_elsewhere s (s_nv s) n.
(** entry [i] of block [n] is up to date for the client *)
Definition mine (s : astate) (g : ghost) (n i : nat) : bool :=
  forallb (fun v => match s_vecs s v with
                    | Some y => match a_cont y with
                                | CShared m => negb (Nat.eqb m n && Nat.ltb i (a_len y)) || (g_sync g v && g_def g v i)
                                | _ => true
                                end
                    | None => true
                    end) (seq 0 (s_nv s)).
Definition inrange (start stop step : Z) (i : nat) : bool :=
  (start <? stop) && (Nat.leb (Z.to_nat start) i && Nat.ltb i (Z.to_nat stop) && Nat.eqb ((i - Z.to_nat start) mod (Z.to_nat step)) 0).
Definition rule (b : bool) (g : ghost) : option ghost := if b then Some g else None.
Definition zlive (s : astate) (v : nat) (k : avec -> option ghost) : option ghost := match s_vecs s v with Some y => k y | None => None end.

Definition strict_set_array (s : astate) (g : ghost) (v : nat) (host : bool) (mode : cmode) (a : src) : option ghost :=
  zlive s v (fun y =>
    if locked y then Some g
    else if Nat.eqb (a_len y) 0 then Some (gnote g v (g_def g v) (g_sync g v) 2)
    else if negb host then Some g
    else match mode, a with
    | CopyValues, SNull => Some (gnote g v none false 2)
    | CopyValues, SUser n => rule (negb (lent s n)) (gnote g v all false 2)
    | CopyValues, SRead u | CopyValues, SWrite u => zlive s u (fun z => rule (Nat.leb (a_len y) (a_len z)) (gnote g v (g_def g u) false 2))
    | OwnPointer, SUser n | UsePointer, SUser n => rule (leaves g v y && negb (lent s n)) (gnote g v all true 2)
    | _, _ => None
    end).
Definition strict_modify (s : astate) (g : ghost) (v : nat) : option ghost :=
  zlive s v (fun y =>
    if invalid y then Some g
    else if Nat.eqb (a_len y) 0 then Some g
    else rule (negb (locked y)) (gnote g v (g_def g v) false 0)).
Definition strict_axp (s : astate) (g : ghost) (y x : nat) : option ghost :=
  zlive s y (fun yy => zlive s x (fun xx =>
    if negb (Nat.eqb (a_len xx) (a_len yy)) then Some g
    else if Nat.eqb x y then Some g
    else if invalid xx || invalid yy then Some g
    else if Nat.eqb (a_len yy) 0 then Some g
    else rule (negb (locked yy) && negb (busy xx)) (gnote g y (fun i => g_def g x i && g_def g y i) false 0))).
Definition strict_mult (s : astate) (g : ghost) (v x y : nat) : option ghost :=
  zlive s v (fun vv => zlive s x (fun xx => zlive s y (fun yy =>
    if negb (Nat.leb (a_len vv) (a_len xx) && Nat.leb (a_len vv) (a_len yy)) then Some g
    else if invalid xx || invalid yy then Some g
    else if Nat.eqb (a_len vv) 0 then Some g
    else rule (negb (locked vv) && negb (busy xx) && negb (busy yy)) (gnote g v (fun i => g_def g x i && g_def g y i) false 0)))).
Definition strict (c : cmd R) (s : astate) (g : ghost) : option ghost :=
  match c with
  | CCreate len => Some (mkG (nupd (g_def g) (s_nv s) none) (nupd (g_sync g) (s_nv s) false) (nupd (g_st g) (s_nv s) 0))
  | CSetArray v host mode a => strict_set_array s g v host mode a
  | CTake v host => zlive s v (fun y =>
      if (locked y || Nat.eqb (a_len y) 0 || negb host)%bool then Some g
      else match a_cont y with CShared _ => rule (alldef g v y) g | _ => Some g end)
  | CGet v host => zlive s v (fun y =>
      if locked y then Some g
      else if invalid y || (negb (Nat.eqb (a_len y) 0) && negb host) then Some g
      else Some (gnote g v (g_def g v) false 1))
  | CGetRead v host => Some g
  | CGetWrite v host => zlive s v (fun y =>
      if locked y then Some g
      else if negb (Nat.eqb (a_len y) 0) && negb host then rule (negb (invalid y)) g
      else Some (gnote g v none false 1))
  | CRestore v => zlive s v (fun y => if busy y then Some (gnote g v (g_def g v) true 1) else Some g)
  | CRestoreRead v => Some g
  | CSetValue v x => zlive s v (fun y => if locked y then Some g else Some (gnote g v all false 2))
  | CSetValueStrided v start stop step x => zlive s v (fun y =>
      if locked y then Some g
      else let len := Z.of_nat (a_len y) in
      if negb ((-1 <=? stop) && (stop <=? len)) then Some g
      else if Nat.eqb (a_len y) 0 then rule (0 <=? start) (gnote g v (g_def g v) (g_sync g v) 2)
      else let stop := if stop =? -1 then len else stop in
        rule (negb (invalid y)) (gnote g v (fun i => inrange start stop step i || g_def g v i) false 2))
  | CSync v host => zlive s v (fun y =>
      if (busy y || Nat.eqb (a_len y) 0)%bool then Some g
      else if negb host then Some g
      else rule (negb (invalid y)) (gnote g v (g_def g v) true 0))
  | CCopy v u => zlive s v (fun y => zlive s u (fun z =>
      if negb (Nat.eqb (a_len y) (a_len z)) then Some g
      else if locked y then Some g
      else if invalid y then Some g
      else if Nat.eqb v u || locked z then Some (gnote g v (g_def g v) false 1)
      else Some (gnote (gnote g v (g_def g v) true 2) u (g_def g v) false 2)))
  | CCopyStrided v start stop step u => zlive s v (fun y => zlive s u (fun z =>
      if (Nat.eqb (a_len y) 0 || Nat.eqb (a_len z) 0)%bool then Some g
      else let len := Z.of_nat (Nat.min (a_len y) (a_len z)) in
      if negb ((-1 <=? stop) && (stop <=? len) && ((0 <=? start) && (start <=? len) && ((start <=? stop) || (stop =? -1)))) then Some g
      else if busy y then Some g
      else if invalid y then Some g
      else if Nat.eqb v u || locked z then Some g
      else if invalid z then Some g
      else let stop := if stop =? -1 then len else stop in
        Some (gnote g u (fun i => if inrange start stop step i then g_def g v i else g_def g u i) true 2)))
  | CNorm v nt => zlive s v (fun y =>
      if invalid y then Some g
      else if Nat.eqb (a_len y) 0 then Some g
      else if busy y then Some g
      else rule (alldef g v y) g)
  | CScale v alpha => strict_modify s g v
  | CAxpy y alpha x => strict_axp s g y x
  | CAxpby y alpha beta x => strict_axp s g y x
  | CMult v x y => strict_mult s g v x y
  | CRecip v => zlive s v (fun y =>
      if invalid y then Some g
      else if negb (Bool.eqb (g_st g v mod two64 =? 0) (a_clock y mod two64 =? 0)) then None
      else if a_clock y mod two64 =? 0 then Some g
      else strict_modify s g v)
  | CRef v => Some g
  | CDestroy v => zlive s v (fun y => if 0 <? a_refs y - 1 then Some g else if locked y then Some g else rule (leaves g v y) g)
  | UAlloc l => Some g
  | UFree n => Some g
  | URead n i => rule (mine s g n i) g
  | UWrite n i x => rule (negb (lent s n)) g
  | VRead v i => rule (g_def g v i) g
  | VReadW v i => rule (g_def g v i) g
  | VWrite v i x => Some (mkG (nupd (g_def g) v (nupd (g_def g v) i true)) (g_sync g) (g_st g))
  end.

Variables (fabs : R -> R) (gtb : R -> R -> bool) (sqrt : R -> R) (big : R -> bool) (inv : R -> R).
Notation astep := (astep fabs gtb sqrt big inv).
(** A whole history by a client that keeps the rules, run on the abstract machine. *)
Fixpoint srun (cs : list (cmd R)) (s : astate) (g : ghost) : option (list (obs R + Z) * astate * ghost) :=
  match cs with
  | [] => Some ([], s, g)
  | c :: cs => match strict c s g with
               | None => None
               | Some g => match astep c s with
                           | AOk o s => match srun cs s g with Some (os, s, g) => Some (inl o :: os, s, g) | None => None end
                           | AErr e s => match srun cs s g with Some (os, s, g) => Some (inr e :: os, s, g) | None => None end
                           | AIll => None
                           end
               end
  end.
End S.
