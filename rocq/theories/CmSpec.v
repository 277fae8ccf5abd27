(** * What a client of a context on the memcheck backend must keep to, beyond the rules of CtxSpec

    [kstrict c s g] is [None] when the action [c] is one the memcheck backend handles differently from the reference
    backend; otherwise it is the new state counter (which advances less than on the reference backend when the
    client's destroy function runs). *)
From Coq Require Import List ZArith Lia Bool Arith.
From Coq.Strings Require Import Byte.
From Verif Require Import Prelude RstrModel StrModel CtxModel CtxSpec.
Import ListNotations.
Set Implicit Arguments.
Local Open Scope Z_scope.

Definition lent (y : actx) (n : nat) : bool := match a_cont y with CShared k => Nat.eqb k n | _ => false end.
Definition lends (s : astate) (n : nat) : bool := match s_ctx s with Some y => lent y n | None => false end.
Definition rule (c : bool) (g : Z) : option Z := if c then Some g else None.
Definition onctx (s : astate) (k : actx -> option Z) : option Z := match s_ctx s with Some y => k y | None => None end.
(** data may be discarded: no reader is left; a destroy function must be for host memory (or else nothing happens:
    [refused]), there must be data for it, and it must not fail *)
Definition discard (y : actx) (refused k : option Z) : option Z :=
  match a_dtor y with
  | None => k
  | Some d => if negb (a_readers y =? 0) || empty y then None
              else if negb (d_host d) then refused
              else if negb (d_code d =? 0) then None
              else k
  end.
Definition kstrict (c : cmd) (s : astate) (g : Z) : option Z :=
  match c with
  | KSet host mode size a =>      (* in host memory, from a block of the client that has that many bytes, without readers *)
      onctx s (fun y =>
        if busy y then Some g
        else discard y (Some g)
               (if negb (a_readers y =? 0) then None
                else match a with
                     | SUser n => match s_user s n with Some l => rule (host && Nat.leb size (length l)) (g + 2) | None => None end
                     | _ => None
                     end))
  | KTake host =>                 (* without readers *)
      onctx s (fun y => match a_cont y with
                        | CShared _ => if busy y || negb host then Some g else rule (a_readers y =? 0) g
                        | _ => Some g
                        end)
  | KGet host => onctx s (fun y => if locked y || empty y || negb host then Some g else Some (g + 1))
  | KRestore => onctx s (fun y => if busy y then Some (g + 1) else Some g)
  | KSetField (Some i) t vals =>  (* a field inside the size of the data *)
      onctx s (fun y =>
        match nth_error (a_fields y) i with
        | Some f =>
            if negb (ftype_eqb (l_type f) t) || busy y || empty y then Some g
            else match conts s y with
                 | Some old => rule (Nat.leb (l_off f + l_size f) (a_size y))
                                 (if bytes_eqb (slice old (l_off f) (l_size f)) (firstn (l_size f) vals) || locked y then g else g + 2)
                 | None => None
                 end
        | None => None
        end)
  | KGetField (Some i) t =>       (* a field inside the size of the data *)
      onctx s (fun y =>
        match nth_error (a_fields y) i with
        | Some f => if negb (ftype_eqb (l_type f) t) || busy y || empty y then Some g
                    else rule (Nat.leb (l_off f + l_size f) (a_size y)) g
        | None => None
        end)
  | KDestroy => onctx s (fun y => if (1 <? a_refs y) || busy y then Some g else discard y (Some g) (Some g))
  | KState => onctx s (fun y => rule (g mod two64 =? a_clock y mod two64) g)   (* no destroy function has run *)
  | UFree n => rule (negb (lends s n)) g                                        (* not of a lent block *)
  | URead n i => rule (negb (lends s n && match s_ctx s with Some y => busy y | None => false end)) g   (* not during write access *)
  | UWrite n i b => rule (negb (lends s n)) g                                   (* not of a lent block *)
  | VRead i | VReadW i | VWrite i _ => onctx s (fun y => rule (Nat.ltb i (a_size y)) g)   (* inside the size of the data *)
  | _ => Some g
  end.
Fixpoint kstricts (cs : list cmd) (s : astate) (g : Z) : bool :=
  match cs with
  | [] => true
  | c :: cs => match kstrict c s g, astep c s with
               | Some g, AOk _ s => kstricts cs s g
               | Some g, AErr _ s => kstricts cs s g
               | Some _, AIll => true
               | None, _ => false
               end
  end.
