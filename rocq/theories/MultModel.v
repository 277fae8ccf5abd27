(** * Multiplicity of nodes across sub-operators: interface/ceed-preconditioning.c:2491-2550

    The scalars are integers here: every value computed by this function is a count. *)
From Coq Require Import List ZArith Lia Bool Arith.
From Verif Require Import Prelude RstrModel OpModel.
Import ListNotations.
Set Implicit Arguments.

(** interface/ceed-operator.c:291-342 CeedOperatorGetActiveElemRestrictions for the input; on a composite operator the
    call of CeedOperatorGetFields fails (1027-1035).  [Some None]: CEED_ELEMRESTRICTION_NONE *)
Definition find_active (l : list (ofield Zrng)) : res (option (option nat)) :=
  rfold l (fun f a =>
    match f_vec f with
    | VAct => match a with
              | None => Ok (Some (f_rstr f))
              | Some r => if onat_eqb r (f_rstr f) then Ok a else Err ERR_MINOR
              end
    | _ => Ok a
    end) None.
Definition active_rstr (t : optree Zrng) : res (option nat) :=
  match t with
  | Comp _ => Err ERR_MINOR
  | Leaf o _ => a <~ find_active (o_in o) ;; match a with None => Err ERR_INCOMPLETE | Some r => Ok r end
  end.

Local Notation "m ;;; k" := (rbind m (fun _ => k)) (at level 61, right associativity).
Section Mult.
Variable chk : bool.
Variable D : nat -> udesc.
Variable junk : list Z.                            (* contents of new E-vectors *)

(** 2521-2545, sub-operator [t] with index [fst it]; [n] is the length of [mult].  The loop 2522-2524 over the indices to
    skip: its [continue] belongs to this inner loop.  The copy without orientations applies ApplyUnoriented. *)
Definition sub_mult (skip : list Z) (n : nat) (it : nat * optree Zrng) (mult : list Z) : res (list Z) :=
  rfold skip (fun j _ => if (j =? Z.of_nat (fst it))%Z then Ok tt else Ok tt) tt ;;;
  let t := snd it in
  ri <~ active_rstr t ;;
  match ri with
  | None => UB
  | Some i =>
      r <~ rstr_create chk (D i) None ;;
      e <~ @rstr_apply Zrng Unoriented r NoTranspose (repeat 1%Z n) (firstn (r_esize r) (junk ++ repeat 0%Z (r_esize r))) ;;
      m <~ @rstr_apply Zrng Unoriented r Transpose e (repeat 0%Z (r_lsize r)) ;;
      rfold (seq 0 n) (fun j mult => x <~ og m j ;; if (0 <? x)%Z then y <~ og mult j ;; Ok (upd mult j (y + 1)%Z) else Ok mult) mult
  end.
(** 2491-2550 CeedCompositeOperatorGetMultiplicity, after CeedOperatorCheckReady; [skip]: skip_indices *)
Definition comp_multiplicity (l : list (optree Zrng)) (skip : list Z) (n : nat) : res (list Z) :=
  rfold (combine (seq 0 (length l)) l) (sub_mult skip n) (repeat 0%Z n).
End Mult.
