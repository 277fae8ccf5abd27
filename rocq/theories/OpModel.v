(** * Operators: setup, apply and composite apply on the reference and blocked CPU backends

    The two backends (backends/ref/ceed-ref-operator.c, backends/blocked/ceed-blocked-operator.c) are the same
    code with block size 1 and 8; the model has the block size as parameter ([bs = None]: ref, restrictions as the
    user created them; [bs = Some n]: blocked copies made at setup).

    Simplifications, for the whole file:
    - a vector is its length, its contents ([None]: no valid array) and its state number; accesses are not
      outstanding (the locking protocol is in VecModel.v) and the state does not wrap (C04);
    - a call that fails returns only its code, not the state it leaves behind;
    - a QFunction acts point by point: [qf_pt] maps the values of the input fields at one point to the values of
      the output fields; outputs of one call are stored field after field;
    - the vectors e_vecs that borrow parts of E-vectors have the length the basis of the field asks for (the shared
      ones have that of the first field of the group, the same for fields with [fwf] in OpSpec.v);
    - operator fields carry the size and evaluation mode of the QFunction field with the same index (CeedOperatorSetField
      is in OpSetModel.v); restrictions are named by numbers, two fields have "the same" restriction when the numbers agree. *)
From Coq Require Import List ZArith Lia Bool Arith.
From Verif Require Import Prelude RstrModel TensorModel BasisModel RstrProofs.
Import ListNotations.
Set Implicit Arguments.

(** ** Results *)
Definition rbind {A B} (m : res A) (f : A -> res B) : res B := match m with Ok a => f a | Err e => Err e | UB => UB end.
Notation "x <~ m ;; k" := (rbind m (fun x => k)) (at level 61, m at next level, right associativity).
(** include/ceed/backend.h:214-218 CeedCallBackend: interface error codes become CEED_ERROR_BACKEND *)
Definition be {A} (m : res A) : res A := match m with Err e => Err (if (0 <? e)%Z then ERR_BACKEND else e) | _ => m end.
Fixpoint rfold {I S} (l : list I) (f : I -> S -> res S) (s : S) : res S :=
  match l with [] => Ok s | i :: l => s' <~ f i s ;; rfold l f s' end.
Definition og {A} (l : list A) (i : nat) : res A := ofopt (get l i).

Section Op.
Variable R : Rng.
Local Open Scope nat_scope.

(** ** Vectors, fields, operators *)
Record vvec := mkVV { vv_len : nat; vv_data : option (list R); vv_state : Z }.
Definition vmem := nat -> vvec.
Definition vset (vm : vmem) (v : nat) (x : vvec) : vmem := fun n => if n =? v then x else vm n.

(** CEED_VECTOR_ACTIVE, CEED_VECTOR_NONE, a vector *)
Inductive vref := VAct | VNo | VPas (v : nat).
Definition vref_eqb (a b : vref) : bool :=
  match a, b with VAct, VAct | VNo, VNo => true | VPas x, VPas y => x =? y | _, _ => false end.
(** include/ceed-impl.h CeedOperatorField_private with the matching CeedQFunctionField_private;
    [f_rstr = None]: CEED_ELEMRESTRICTION_NONE, [f_basis = None]: CEED_BASIS_NONE *)
Record ofield := mkOF { f_size : nat; f_mode : emode; f_rstr : option nat; f_basis : option (basis R); f_vec : vref }.
Definition onat_eqb (a b : option nat) : bool := match a, b with Some x, Some y => x =? y | None, None => true | _, _ => false end.
Definition same (f g : ofield) : bool := vref_eqb (f_vec f) (f_vec g) && onat_eqb (f_rstr f) (f_rstr g).
Definition basis_mode (m : emode) : bool := match m with EvInterp | EvGrad | EvDiv | EvCurl => true | _ => false end.
Record oper := mkOp {
  o_in : list ofield; o_out : list ofield; o_ne : nat; o_Q : nat;
  o_ident : bool;                                  (* CeedQFunctionIsIdentity *)
  o_vlen : nat;                                    (* vec_length of the QFunction *)
  o_pt : list (list R) -> list (list R)            (* the QFunction at one point *)
}.

Variable k : kernel R.
Variable junk : nat -> nat -> R.
Variable chk : bool.
Variable D : nat -> udesc.                         (* the restrictions *)
Variable bs : option nat.
Notation BS := (bsize bs).

(** ** Setup *)
(** ceed-ref-operator.c:87-110 (ceed-blocked-operator.c:144-167): duplicate input restrictions.  State: which
    e_vecs are not NULL, which e_vecs_full a field uses, skip_rstr.  CeedVectorReferenceCopy of a NULL vector
    dereferences it (ceed-vector.c:196-201). *)
Definition dup_in_step (fs : list ofield) (i j : nat) (st : list bool * list nat * list bool) : res (list bool * list nat * list bool) :=
  let '(nn, sl, sk) := st in
  fi <~ og fs i ;; fj <~ og fs j ;;
  if same fi fj then
    b <~ og nn i ;;
    if b then s <~ og sl i ;; Ok (upd nn j true, upd sl j s, upd sk j true) else UB
  else Ok st.
Definition dup_in (fs : list ofield) : res (list bool * list nat * list bool) :=
  let n := length fs in
  rfold (seq 0 n) (fun i st => rfold (seq (S i) (n - S i)) (fun j st => dup_in_step fs i j st) st)
    (map (fun f => basis_mode (f_mode f)) fs, seq 0 n, repeat false n).
(** ceed-ref-operator.c:111-137 (ceed-blocked-operator.c:168-194): duplicate output restrictions.  State: which
    e_vecs are not NULL, skip_rstr, apply_add_basis, e_data_out_indices. *)
Definition dup_out_step (fs : list ofield) (i j : nat) (st : list bool * list bool * list bool * list nat) : res (list bool * list bool * list bool * list nat) :=
  let '(nn, sk, ad, ix) := st in
  fi <~ og fs i ;; fj <~ og fs j ;;
  if same fi fj then
    b <~ og nn i ;;
    if b then Ok (upd nn j true, upd sk j true, upd ad i true, upd ix j i) else UB
  else Ok st.
Definition dup_out (fs : list ofield) : res (list bool * list bool * list bool * list nat) :=
  let n := length fs in
  rfold (rev (seq 0 n)) (fun i st => rfold (rev (seq 0 i)) (fun j st => dup_out_step fs i j st) st)
    (map (fun f => basis_mode (f_mode f)) fs, repeat false n, repeat false n, repeat 0 n).

(** What setup computes once (CeedOperator_Ref in backends/ref/ceed-ref.h). *)
Record stat := mkS {
  s_rin : list (option rstr); s_rout : list (option rstr);
  s_slot : list nat; s_skin : list bool;
  s_skout : list bool; s_add : list bool; s_idx : list nat
}.
(** What changes with every apply: input_states, contents of e_vecs_full ([None]: not valid) and of the q_vecs. *)
Record dyn := mkDy {
  d_states : list Z; d_ein : list (option (list R)); d_eout : list (list R); d_qin : list (list R); d_qout : list (list R)
}.

(** the restriction of a field, blocked copy for the blocked backend (ceed-blocked-operator.c:50-112) *)
Definition field_rstr (f : ofield) : res (option rstr) :=
  match f_mode f, f_rstr f with
  | EvWeight, _ => Ok None
  | _, Some i => r <~ be (rstr_create chk (D i) bs) ;; Ok (Some r)
  | _, None => UB
  end.
(** ceed-ref-operator.c:57-84 (ceed-blocked-operator.c:114-141): the q_vec of a field *)
Definition field_qvec (Q : nat) (f : ofield) : res (list R) :=
  match f_mode f, f_basis f with
  | EvWeight, Some b => be (basis_apply k junk b BS NoTranspose EvWeight None (repeat 0%R (Q * BS)))
  | EvWeight, None => UB
  | EvNone, _ => Ok (repeat 0%R (Q * f_size f * BS))
  | _, Some _ => Ok (repeat 0%R (Q * f_size f * BS))
  | _, None => UB
  end.
Definition rmap {A B} (f : A -> res B) (l : list A) : res (list B) :=
  fold_right (fun a r => b <~ f a ;; t <~ r ;; Ok (b :: t)) (Ok []) l.
Definition e_len (r : option rstr) : nat := match r with Some r => r_esize r | None => 0 end.

(** ceed-ref-operator.c:19-140 CeedOperatorSetupFields_Ref and 145-206 CeedOperatorSetup_Ref
    (ceed-blocked-operator.c:19-197, 202-266) *)
Definition op_setup (o : oper) : res (stat * dyn) :=
  rin <~ rmap field_rstr (o_in o) ;;
  qin <~ rmap (field_qvec (o_Q o)) (o_in o) ;;
  di <~ dup_in (o_in o) ;;
  rout <~ rmap field_rstr (o_out o) ;;
  qout <~ rmap (field_qvec (o_Q o)) (o_out o) ;;
  dt <~ dup_out (o_out o) ;;
  let '(_, sl, ski) := di in
  let '(_, sko, ad, ix) := dt in
  Ok (mkS rin rout sl ski sko ad ix,
      mkDy (repeat 0%Z (length (o_in o))) (repeat None (length (o_in o))) (map (fun r => repeat 0%R (e_len r)) rout) qin qout).

(** ** Apply *)
(** the vector a field refers to *)
Definition target (f : ofield) (act : option nat) : option nat :=
  match f_vec f with VAct => act | VNo => None | VPas v => Some v end.
Definition oeq (a : option nat) (v : nat) : bool := match a with Some x => x =? v | None => false end.
Definition is_active (f : ofield) : bool := match f_vec f with VAct => true | _ => false end.

(** One field of ceed-ref-operator.c:211-249 CeedOperatorSetupInputs_Ref (ceed-blocked-operator.c:271-303).
    Restricting or reading CEED_VECTOR_NONE fails. *)
Definition setup_input (o : oper) (s : stat) (vm : vmem) (inv : option nat) (skip_active : bool) (i : nat)
    (st : list Z * list (option (list R))) : res (list Z * list (option (list R))) :=
  let '(sts, ein) := st in
  f <~ og (o_in o) i ;;
  if skip_active && is_active f then Ok st
  else match f_mode f with
  | EvWeight => Ok st
  | _ =>
    match target f inv with
    | None => Err ERR_BACKEND
    | Some v =>
      let x := vm v in
      si <~ og sts i ;; sk <~ og (s_skin s) i ;; sl <~ og (s_slot s) i ;; e0 <~ og ein sl ;;
      ein <~ (if (negb (vv_state x =? si)%Z || oeq inv v) && negb sk then
                ro <~ og (s_rin s) i ;;
                match ro, vv_data x with
                | Some r, Some u =>
                    e <~ be (rstr_apply Signed r NoTranspose u (match e0 with Some e => e | None => repeat 0%R (r_esize r) end)) ;;
                    Ok (upd ein sl (Some e))
                | Some r, None => Err ERR_BACKEND
                | None, _ => UB
                end
              else Ok ein) ;;
      e1 <~ og ein sl ;;
      match e1 with
      | Some _ => Ok (upd sts i (vv_state x), ein)
      | None => Err ERR_BACKEND                    (* CeedVectorGetArrayRead of an E-vector without values *)
      end
    end
  end.
Definition setup_inputs (o : oper) (s : stat) (vm : vmem) (inv : option nat) (skip_active : bool) (d : dyn) : res dyn :=
  st <~ rfold (seq 0 (length (o_in o))) (setup_input o s vm inv skip_active) (d_states d, d_ein d) ;;
  Ok (mkDy (fst st) (snd st) (d_eout d) (d_qin d) (d_qout d)).

(** [n] entries of an array starting at [off], and the store of such entries; out of bounds is undefined *)
Definition slice (l : list R) (off n : nat) : res (list R) := if off + n <=? length l then Ok (firstn n (skipn off l)) else UB.
Definition blit (off : nat) (x l : list R) : res (list R) :=
  if off + length x <=? length l then Ok (firstn off l ++ x ++ skipn (off + length x) l) else UB.
Definition esize_of (f : ofield) : nat := match f_rstr f with Some i => u_es (D i) | None => 0 end.

(** One field of ceed-ref-operator.c:254-299 CeedOperatorInputBasis_Ref (ceed-blocked-operator.c:308-354), elements
    [e], ..., [e + BS - 1].  The q_vec that borrows part of the E-vector is modelled by its values. *)
Definition input_basis (o : oper) (s : stat) (ein : list (option (list R))) (e : nat) (skip_active : bool) (i : nat) (qin : list (list R)) : res (list (list R)) :=
  f <~ og (o_in o) i ;;
  if skip_active && is_active f then Ok qin
  else
  match f_mode f with
  | EvWeight => Ok qin
  | EvNone =>
      sl <~ og (s_slot s) i ;; ed <~ og ein sl ;;
      match ed with
      | None => UB
      | Some ed => q <~ slice ed (e * o_Q o * f_size f) (o_Q o * f_size f * BS) ;; Ok (upd qin i q)
      end
  | m =>
      sl <~ og (s_slot s) i ;; ed <~ og ein sl ;; q0 <~ og qin i ;;
      match ed, f_basis f with
      | Some ed, Some b =>
          u <~ slice ed (e * esize_of f * b_nc b) (b_nodes b * b_nc b * BS) ;;
          q <~ be (basis_apply k junk b BS NoTranspose m (Some u) q0) ;;
          Ok (upd qin i q)
      | _, _ => UB
      end
  end.

(** The QFunction at [N] points: inputs [c * N + p], outputs [c * N + p] for component [c], point [p]. *)
Definition ins_at (o : oper) (N : nat) (ins : list (list R)) (p : nat) : list (list R) :=
  map (fun fq => map (fun c => vf (snd fq) (c * N + p)) (seq 0 (f_size (fst fq)))) (combine (o_in o) ins).
Definition out_arr (o : oper) (N : nat) (ins : list (list R)) (j size : nat) : list R :=
  map (fun x => vf (nth j (o_pt o (ins_at o N ins (x mod N))) []) (x / N)) (seq 0 (size * N)).
Definition ins_ok (o : oper) (N : nat) (ins : list (list R)) : bool :=
  (length ins =? length (o_in o)) && forallb (fun fq => f_size (fst fq) * N <=? length (snd fq)) (combine (o_in o) ins).

(** where output field [j] is stored: part of the E-vector (ceed-ref-operator.c:425-433) or its own q_vec *)
Definition put_out (o : oper) (ptr : list nat) (e j : nat) (x : list R) (st : list (list R) * list (list R)) : res (list (list R) * list (list R)) :=
  let '(eout, qout) := st in
  f <~ og (o_out o) j ;;
  match f_mode f with
  | EvNone => p <~ og ptr j ;; l <~ og eout p ;; l' <~ blit (e * o_Q o * f_size f) x l ;; Ok (upd eout p l', qout)
  | _ => q0 <~ og qout j ;; q <~ blit 0 x q0 ;; Ok (eout, upd qout j q)
  end.

(** interface/ceed-qfunction.c:1048-1058 CeedQFunctionApply with ceed-ref-qfunction.c:17-46; an identity QFunction is
    not called, its output q_vec is its input q_vec (ceed-ref-operator.c:188-201, 439-441), modelled by a copy. *)
Definition call_qf (o : oper) (ptr : list nat) (e : nat) (ins : list (list R)) (st : list (list R) * list (list R)) : res (list (list R) * list (list R)) :=
  if o_ident o then x <~ og ins 0 ;; put_out o ptr e 0 x st
  else let N := o_Q o * BS in
       if o_vlen o =? 0 then UB
       else if negb (N mod o_vlen o =? 0) then Err ERR_BACKEND
       else if negb (ins_ok o N ins) then UB
       else rfold (seq 0 (length (o_out o))) (fun j st => f <~ og (o_out o) j ;; put_out o ptr e j (out_arr o N ins j (f_size f)) st) st.

(** One field of ceed-ref-operator.c:304-345 CeedOperatorOutputBasis_Ref (ceed-blocked-operator.c:359-400) *)
Definition output_basis (o : oper) (s : stat) (ptr : list nat) (e : nat) (qout : list (list R)) (i : nat) (eout : list (list R)) : res (list (list R)) :=
  f <~ og (o_out o) i ;;
  match f_mode f with
  | EvNone => Ok eout
  | EvWeight => Err ERR_BACKEND
  | m =>
      p <~ og ptr i ;; l <~ og eout p ;; q <~ og qout i ;; ad <~ og (s_add s) i ;;
      match f_basis f with
      | Some b =>
          let off := e * esize_of f * b_nc b in
          x <~ slice l off (b_nodes b * b_nc b * BS) ;;
          x' <~ be (if ad then basis_apply_add k junk b BS Transpose m (Some q) x else basis_apply k junk b BS Transpose m (Some q) x) ;;
          l' <~ blit off x' l ;;
          Ok (upd eout p l')
      | None => UB
      end
  end.

(** One pass of the element loop, ceed-ref-operator.c:423-446 (ceed-blocked-operator.c:472-495). *)
Definition elem_pass (o : oper) (s : stat) (ptr : list nat) (ein : list (option (list R))) (e : nat)
    (st : list (list R) * list (list R) * list (list R)) : res (list (list R) * list (list R) * list (list R)) :=
  let '(qin, eout, qout) := st in
  qin <~ rfold (seq 0 (length (o_in o))) (input_basis o s ein e false) qin ;;
  eq <~ call_qf o ptr e qin (eout, qout) ;;
  eout <~ rfold (seq 0 (length (o_out o))) (output_basis o s ptr e (snd eq)) (fst eq) ;;
  Ok (qin, eout, snd eq).

(** ceed-ref-operator.c:414-421 (ceed-blocked-operator.c:463-470): the array each output field works in *)
Definition out_ptrs (o : oper) (s : stat) : res (list nat) :=
  let n := length (o_out o) in
  rfold (rev (seq 0 n)) (fun i p => sk <~ og (s_skout s) i ;;
    if sk then j <~ og (s_idx s) i ;; x <~ og p j ;; Ok (upd p i x) else Ok (upd p i i)) (repeat 0 n).

(** ceed-ref-operator.c:448-467 (ceed-blocked-operator.c:497-514): the restriction of output field [i] adds into its vector (state advances by 2) *)
Definition out_restrict (o : oper) (s : stat) (eout : list (list R)) (outv : option nat) (i : nat) (vm : vmem) : res vmem :=
  sk <~ og (s_skout s) i ;;
  if sk then Ok vm
  else f <~ og (o_out o) i ;; e <~ og eout i ;; ro <~ og (s_rout s) i ;;
       match ro, target f outv with
       | Some r, Some v =>
           let x := vm v in
           match vv_data x with
           | Some l => l' <~ be (rstr_apply Signed r Transpose e l) ;; Ok (vset vm v (mkVV (vv_len x) (Some l') (vv_state x + 2)%Z))
           | None => Err ERR_BACKEND
           end
       | None, _ => UB
       | _, None => Err ERR_BACKEND
       end.

(** ceed-ref-operator.c:188-197, 393-404 (ceed-blocked-operator.c:447-452): an identity QFunction between fields without basis is two restrictions, applied to
    the arguments whatever the vectors of the fields are *)
Definition ident_rstr (o : oper) : bool :=
  o_ident o && match o_in o, o_out o with f :: _, g :: _ => match f_mode f, f_mode g with EvNone, EvNone => true | _, _ => false end | _, _ => false end.
Definition apply_ident (s : stat) (d : dyn) (vm : vmem) (inv outv : option nat) : res (dyn * vmem) :=
  ri <~ og (s_rin s) 0 ;; ro <~ og (s_rout s) 0 ;; e0 <~ og (d_ein d) 0 ;;
  match ri, ro, inv, outv with
  | Some ri, Some ro, Some i, Some v =>
      match vv_data (vm i) with
      | Some u =>
          e <~ be (rstr_apply Signed ri NoTranspose u (match e0 with Some e => e | None => repeat 0%R (r_esize ri) end)) ;;
          match vv_data (vm v) with
          | Some l =>
              l' <~ be (rstr_apply Signed ro Transpose e l) ;;
              Ok (mkDy (d_states d) (upd (d_ein d) 0 (Some e)) (d_eout d) (d_qin d) (d_qout d),
                  vset vm v (mkVV (vv_len (vm v)) (Some l') (vv_state (vm v) + 2)%Z))
          | None => Err ERR_BACKEND
          end
      | None => Err ERR_BACKEND
      end
  | None, _, _, _ | _, None, _, _ => UB
  | _, _, _, _ => Err ERR_BACKEND
  end.

(** ceed-blocked-operator.c:458, number of blocks: num_elem for block size 1 *)
Definition op_blocks (o : oper) : nat := o_ne o / BS + (if o_ne o mod BS =? 0 then 0 else 1).

(** ceed-ref-operator.c:378-473 CeedOperatorApplyAdd_Ref (ceed-blocked-operator.c:432-520), after setup *)
Definition apply_add_be (o : oper) (s : stat) (d : dyn) (vm : vmem) (inv outv : option nat) : res (dyn * vmem) :=
  if ident_rstr o then apply_ident s d vm inv outv
  else
    d1 <~ setup_inputs o s vm inv false d ;;
    ptr <~ out_ptrs o s ;;
    st <~ rfold (seq 0 (op_blocks o)) (fun b => elem_pass o s ptr (d_ein d1) (b * BS)) (d_qin d1, d_eout d1, d_qout d1) ;;
    let '(qin, eout, qout) := st in
    vm <~ rfold (seq 0 (length (o_out o))) (out_restrict o s eout outv) vm ;;
    Ok (mkDy (d_states d1) (d_ein d1) eout qin qout, vm).

(** ** The interface *)
(** backend data of an operator: absent before the first apply *)
Definition impl := option (stat * dyn).
(** interface/ceed-operator.c:2229-2232, with the setup done by the first call *)
Definition single_apply_add (o : oper) (im : impl) (vm : vmem) (inv outv : option nat) : res (impl * vmem) :=
  if 0 <? o_ne o then
    sd <~ match im with Some sd => Ok sd | None => op_setup o end ;;
    r <~ apply_add_be o (fst sd) (snd sd) vm inv outv ;;
    Ok (Some (fst sd, fst r), snd r)
  else Ok (im, vm).
(** CeedVectorSetValue(vec, 0.0) *)
Definition vzero (vm : vmem) (v : nat) : vmem :=
  let x := vm v in vset vm v (mkVV (vv_len x) (Some (repeat 0%R (vv_len x))) (vv_state x + 2)%Z).
Definition zero_target (outv : option nat) (f : ofield) (vm : vmem) : vmem :=
  match target f outv with Some v => vzero vm v | None => vm end.
(** interface/ceed-operator.c:2168-2190 CeedOperatorApply, not composite *)
Definition single_apply (o : oper) (im : impl) (vm : vmem) (inv outv : option nat) : res (impl * vmem) :=
  single_apply_add o im (fold_left (fun vm f => zero_target outv f vm) (o_out o) vm) inv outv.

(** Composite operators: a tree; interface/ceed-operator.c:2209-2234 CeedOperatorApplyAdd *)
Inductive optree := Leaf (o : oper) (im : impl) | Comp (l : list optree).
Fixpoint tree_apply_add (t : optree) (vm : vmem) (inv outv : option nat) : res (optree * vmem) :=
  match t with
  | Leaf o im => r <~ single_apply_add o im vm inv outv ;; Ok (Leaf o (fst r), snd r)
  | Comp l =>
      r <~ (fix go l vm := match l with
                           | [] => Ok ([], vm)
                           | t :: l => r <~ tree_apply_add t vm inv outv ;; q <~ go l (snd r) ;; Ok (fst r :: fst q, snd q)
                           end) l vm ;;
      Ok (Comp (fst r), snd r)
  end.
(** interface/ceed-operator.c:2130-2166 CeedOperatorApply; CeedOperatorGetFields refuses a composite sub-operator (1027-1035) *)
Definition zero_subs (outv : option nat) (l : list optree) (vm : vmem) : res vmem :=
  rfold l (fun t vm => match t with
    | Leaf o _ => Ok (fold_left (fun vm f => match f_vec f with VPas v => vzero vm v | _ => vm end) (o_out o) vm)
    | Comp _ => Err ERR_MINOR
    end) (match outv with Some v => vzero vm v | None => vm end).
Definition tree_apply (t : optree) (vm : vmem) (inv outv : option nat) : res (optree * vmem) :=
  match t with
  | Leaf o im => r <~ single_apply o im vm inv outv ;; Ok (Leaf o (fst r), snd r)
  | Comp l => vm <~ zero_subs outv l vm ;; tree_apply_add t vm inv outv
  end.
End Op.
Arguments slice {R}. Arguments blit {R}. Arguments mkVV {R}. Arguments mkOF {R}. Arguments mkOp {R}. Arguments mkDy {R}.
Arguments Leaf {R}. Arguments Comp {R}.
