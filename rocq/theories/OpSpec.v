(** * Specification of operator application

    What an operator computes, field by field and point by point, without E-vectors, Q-vectors, blocks, caches or
    shared buffers: evaluate the inputs at the quadrature points of each element, apply the QFunction, integrate
    against the output bases, scatter with the transposed restriction. *)
From Coq Require Import List ZArith Lia Bool Arith.
From Verif Require Import Prelude RstrModel RstrSpec TensorModel BasisModel BasisProps TensorMain RstrProofs Digits OpModel.
Import ListNotations.
Set Implicit Arguments.

Section Spec.
Variable R : Rng.
Local Open Scope nat_scope.
Variable D : nat -> udesc.

Definition mat (b : basis R) (m : emode) : list R := match reported b m with Some x => x | None => [] end.
(** quadrature weight of point [q] *)
Definition qweight (b : basis R) (q : nat) : R :=
  match b with BT t => prodn (t_dim t) (fun i => vf (t_w t) ((q / t_Q t ^ i) mod t_Q t)) | BN n => vf (n_w n) q end.
Definition rd (f : ofield R) : udesc := match f_rstr f with Some i => D i | None => D 0 end.
Definition noT : tbasis R := mkT 0 0 0 0 [] [] [] false None.
Definition bd (f : ofield R) : basis R := match f_basis f with Some b => b | None => BT noT end.

(** value of component [c] of field [f] at point [q] of element [e], [x] the contents of its vector *)
Definition in_val (f : ofield R) (x : list R) (e c q : nat) : R :=
  match f_mode f with
  | EvWeight => qweight (bd f) q
  | EvNone => Eval Signed (rd f) x e c q
  | m => let b := bd f in
         sumn (b_nodes b) (fun p => (vf (mat b m) ((c / b_nc b * b_qpts b + q) * b_nodes b + p)%nat * Eval Signed (rd f) x e (c mod b_nc b) p)%R)
  end.
(** contents of the vector a field refers to *)
Definition contents (vm : vmem R) (f : ofield R) (act : option nat) : list R :=
  match target f act with Some v => match vv_data (vm v) with Some x => x | None => [] end | None => [] end.
Definition ins_val (o : oper R) (vm : vmem R) (inv : option nat) (e q : nat) : list (list R) :=
  map (fun f => map (fun c => in_val f (contents vm f inv) e c q) (seq 0 (f_size f))) (o_in o).
(** the values of the outputs at point [q] of element [e] *)
Definition outs_val (o : oper R) (vm : vmem R) (inv : option nat) (e q : nat) : list (list R) :=
  if o_ident o then [nth 0 (ins_val o vm inv e q) []] else o_pt o (ins_val o vm inv e q).
(** value of node [n], component [k], element [e] of output [j] *)
Definition out_val (o : oper R) (vm : vmem R) (inv : option nat) (j : nat) (f : ofield R) (e k n : nat) : R :=
  match f_mode f with
  | EvNone => vf (nth j (outs_val o vm inv e n) []) k
  | m => let b := bd f in
         sumn (q_comp b m) (fun d => sumn (b_qpts b) (fun q =>
           (vf (mat b m) ((d * b_qpts b + q) * b_nodes b + n)%nat * vf (nth j (outs_val o vm inv e q) []) (d * b_nc b + k))%R))
  end.
Definition fld (fs : list (ofield R)) (j : nat) : ofield R := nth j fs (mkOF 0 EvNone None None VNo).
(** what output [j] adds to entry [q] of its vector *)
Definition contrib (o : oper R) (vm : vmem R) (inv : option nat) (j q : nat) : R :=
  Lval Signed (rd (fld (o_out o) j)) (out_val o vm inv j (fld (o_out o) j)) q.
(** what the operator adds to entry [q] of vector [v] *)
Definition added (o : oper R) (vm : vmem R) (inv outv : option nat) (v q : nat) : R :=
  sumn (length (o_out o)) (fun j => delta (oeq (target (fld (o_out o) j) outv) v) (contrib o vm inv j q)).

(** ** Operators as CeedOperatorSetField accepts them, and sound *)
Variable k : kernel R.
Variable Jmin : nat.
Variable chk : bool.
Variable bs : option nat.

Definition rstr_wf (o : oper R) (d : udesc) : Prop :=
  lengths_ok d /\ in_range d /\ curl_ok Signed d /\ (exists r, rstr_create chk d bs = Ok r) /\ u_ne d = o_ne o.
Definition field_wf (o : oper R) (f : ofield R) : Prop :=
  match f_mode f with
  | EvWeight => f_size f = 1 /\ f_rstr f = None /\ exists b, f_basis f = Some b /\ b_wf Jmin b /\ b_qpts b = o_Q o
  | EvNone => exists i, f_rstr f = Some i /\ rstr_wf o (D i) /\ f_size f = u_nc (D i) /\ u_es (D i) = o_Q o
  | m => exists i b mt, f_rstr f = Some i /\ f_basis f = Some b /\ rstr_wf o (D i) /\ b_wf Jmin b /\
           b_nc b = u_nc (D i) /\ b_nodes b = u_es (D i) /\ b_qpts b = o_Q o /\ reported b m = Some mt /\
           f_size f = q_comp b m * b_nc b
  end.
Record op_wf (o : oper R) : Prop := {
  ow_ne : 0 < o_ne o; ow_Q : 0 < o_Q o; ow_bs : 0 < bsize bs; ow_k : kernel_ok Jmin k;
  ow_in : forall i, i < length (o_in o) -> field_wf o (fld (o_in o) i);
  ow_out : forall i, i < length (o_out o) -> field_wf o (fld (o_out o) i) /\ f_mode (fld (o_out o) i) <> EvWeight;
  (* of input fields with the same vector and restriction the first has a basis (findings C31) *)
  ow_din : forall i j, i < j < length (o_in o) -> same (fld (o_in o) i) (fld (o_in o) j) = true ->
    (forall h, h < i -> same (fld (o_in o) h) (fld (o_in o) i) = false) -> basis_mode (f_mode (fld (o_in o) i)) = true;
  (* of output fields with the same vector and restriction all but the first have a basis that is not collocated *)
  ow_dout : forall i j, i < j < length (o_out o) -> same (fld (o_out o) i) (fld (o_out o) j) = true ->
    basis_mode (f_mode (fld (o_out o) j)) = true /\ collocated (bd (fld (o_out o) j)) = false;
  (* an identity QFunction has one input and one output of the same size; without bases both are active (finding C28) *)
  ow_id : o_ident o = true -> length (o_in o) = 1 /\ length (o_out o) = 1 /\ f_size (fld (o_in o) 0) = f_size (fld (o_out o) 0) /\
    (f_mode (fld (o_in o) 0) = EvNone -> f_mode (fld (o_out o) 0) = EvNone -> f_vec (fld (o_in o) 0) = VAct /\ f_vec (fld (o_out o) 0) = VAct);
  ow_vl : o_ident o = false -> 0 < o_vlen o /\ (o_Q o * bsize bs) mod o_vlen o = 0
}.
(** the vectors of an application have valid arrays of sufficient length *)
Definition has (vm : vmem R) (f : ofield R) (act : option nat) : Prop :=
  exists v x, target f act = Some v /\ vv_data (vm v) = Some x /\ u_lsize (rd f) <= length x.
Definition vec_ok (o : oper R) (vm : vmem R) (inv outv : option nat) : Prop :=
  (forall i, i < length (o_in o) -> f_mode (fld (o_in o) i) <> EvWeight -> has vm (fld (o_in o) i) inv) /\
  (forall i, i < length (o_out o) -> has vm (fld (o_out o) i) outv).
(** vectors: an array has the length of the vector; nothing was stored while the state is 0 *)
Definition mem_ok (vm : vmem R) : Prop :=
  forall v, (0 <= vv_state (vm v))%Z /\ (vv_state (vm v) = 0%Z -> vv_data (vm v) = None) /\ forall x, vv_data (vm v) = Some x -> length x = vv_len (vm v).
(** result of an addition into the outputs *)
Definition adds (o : oper R) (vm : vmem R) (inv outv : option nat) (vm' : vmem R) : Prop :=
  forall v,
    if existsb (fun f => oeq (target f outv) v) (o_out o)
    then vv_len (vm' v) = vv_len (vm v) /\ (vv_state (vm v) < vv_state (vm' v))%Z /\
         exists x x', vv_data (vm v) = Some x /\ vv_data (vm' v) = Some x' /\ length x' = length x /\
           forall q, vf x' q = (vf x q + added o vm inv outv v q)%R
    else vm' v = vm v.
End Spec.
