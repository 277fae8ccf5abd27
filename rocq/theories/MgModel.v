(** * Multigrid level: interface/ceed-preconditioning.c:868-1055 CeedSingleOperatorMultigridLevel

    Simplifications: objects the function creates get the numbers the caller provides ([m]: the multiplicity vector,
    [pm]: the unsigned copy of the fine restriction), which no other object has; names, flop estimates, contexts and
    assembly data of the new operators are left out; the checks of CeedOperatorSetField and CeedOperatorCheckReady on
    the new operators are those of BuildModel.v and not repeated.  CeedOperatorMultigridLevelCreate (2568-2590) checks
    the fine operator and calls this function; ...CreateTensorH1 and ...CreateH1 (2605-2715) make the basis first. *)
From Coq Require Import List ZArith Lia Bool Arith.
From Verif Require Import Prelude RstrModel TensorModel BasisModel RstrProofs OpModel.
Import ListNotations.
Set Implicit Arguments.

Section Mg.
Variable R : Rng.
Local Open Scope nat_scope.
Variable recip : R -> R.                           (* one entry of CeedVectorReciprocal (ceed-vector.c:957-989) *)
Variable chk : bool.
Variable D : nat -> udesc.
Variable bs : option nat.                          (* the backend, as in OpModel.v *)

(** What an operator sees of the unsigned copy made by CeedElemRestrictionCreateUnsignedCopy (ceed-elemrestriction.c:1184-1202).
    The copy keeps the type and only replaces Apply.  The ref backend calls Apply: no signs.  The blocked backend makes its
    own restriction from the type, offsets and orientations (ceed-blocked-operator.c:62-112): the signs are back. *)
Definition unsigned (d : udesc) : udesc :=
  match u_kind d with UOriented o _ => mkU (u_ne d) (u_es d) (u_nc d) (u_cs d) (u_lsize d) (UStandard o) | _ => d end.
Definition copy_seen (d : udesc) : udesc := match bs with None => unsigned d | Some _ => d end.
(** the restrictions, with the copy of [rf] added under the number [pm] *)
Definition env (rf pm : nat) : nat -> udesc := fun i => if i =? pm then copy_seen (D rf) else D i.

(** include/ceed/jit-source/gallery/ceed-scale.h:13-27 at one point, [size] components *)
Definition scale_pt (size : nat) (ins : list (list R)) : list (list R) :=
  [map (fun c => (vf (nth 0 ins []) c * vf (nth 1 ins []) c)%R) (seq 0 size)].
(** 970-1010; the number of points is that of the basis, the number of elements that of the restrictions *)
Definition op_restrict (nc ne rf rc pm m : nat) (b : basis R) : oper R :=
  mkOp [mkOF nc EvNone (Some rf) None VAct; mkOF nc EvNone (Some pm) None (VPas m)] [mkOF nc EvInterp (Some rc) (Some b) VAct]
    ne (b_qpts b) false 1 (scale_pt nc).
(** 1013-1053 *)
Definition op_prolong (nc ne rf rc pm m : nat) (b : basis R) : oper R :=
  mkOp [mkOF nc EvInterp (Some rc) (Some b) VAct; mkOF nc EvNone (Some pm) None (VPas m)] [mkOF nc EvNone (Some rf) None VAct]
    ne (b_qpts b) false 1 (scale_pt nc).
(** 885-930: the coarse operator, active fields on the coarse space, the others shared *)
Definition coarse_field (rc : nat) (bc : basis R) (f : ofield R) : ofield R :=
  match f_vec f with VAct => mkOF (f_size f) (f_mode f) (Some rc) (Some bc) VAct | _ => f end.
Definition op_coarse (rc : nat) (bc : basis R) (o : oper R) : oper R :=
  mkOp (map (coarse_field rc bc) (o_in o)) (map (coarse_field rc bc) (o_out o)) (o_ne o) (o_Q o) (o_ident o) (o_vlen o) (o_pt o).
(** 897, 919: the restriction of the first active field, inputs first *)
Fixpoint first_active (l : list (ofield R)) : option (ofield R) :=
  match l with [] => None | f :: l => match f_vec f with VAct => Some f | _ => first_active l end end.

(** 944-953: multiplicity: the given vector (multiplicity across operators) gathered and scattered without signs, then inverted;
    the E-vector is set to zero before.  The new vector was written four times. *)
Definition mg_mult (rf : nat) (p : vvec R) : res (vvec R) :=
  match vv_data p with
  | None => Err ERR_BACKEND
  | Some x =>
      r <~ rstr_create chk (D rf) None ;;
      e <~ rstr_apply Unsigned r NoTranspose x (repeat 0%R (r_esize r)) ;;
      s <~ rstr_apply Unsigned r Transpose e (repeat 0%R (r_lsize r)) ;;
      Ok (mkVV (r_lsize r) (Some (map recip s)) 6%Z)
  end.
(** 868-1070 for a single operator [o], both transfer operators requested; [p]: p_mult_fine, [b]: basis_c_to_f.
    A fine operator without active field has [rstr_fine = NULL], which is dereferenced. *)
Definition mg_level (o : oper R) (rc : nat) (bc : basis R) (p : option nat) (b : option (basis R)) (pm m : nat) (vm : vmem R)
    : res (oper R * oper R * oper R * vmem R) :=
  match first_active (o_in o ++ o_out o) with
  | None => UB
  | Some f =>
    match f_rstr f with
    | None => UB
    | Some rf =>
      match u_kind (D rf) with
      | UCurl _ _ => Err ERR_UNSUPPORTED
      | _ =>
        match p with
        | None => Err ERR_INCOMPATIBLE
        | Some p =>
          s <~ mg_mult rf (vm p) ;;
          match b with
          | None => Err ERR_INCOMPATIBLE
          | Some b =>
              let nc := b_nc bc in let ne := u_ne (D rf) in
              Ok (op_coarse rc bc o, op_prolong nc ne rf rc pm m b, op_restrict nc ne rf rc pm m b, vset vm m s)
          end
        end
      end
    end
  end.
End Mg.
