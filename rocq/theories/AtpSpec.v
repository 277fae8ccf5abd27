(** * Specification of operators at points

    Without E-vectors, Q-vectors, shared buffers or intermediate Chebyshev coefficients: evaluate the inputs at every
    point of every element, apply the QFunction point by point, integrate against the output bases, scatter. *)
From Coq Require Import List ZArith Lia Bool Arith.
From Verif Require Import Prelude RstrModel RstrSpec RstrProofs RstrPoints TensorModel BasisModel BasisProps TensorMain Digits PointsModel PointsProofs PointsProps OpModel OpSpec AtpModel.
Import ListNotations.

Section Spec.
Variable R : Rng.
Local Open Scope nat_scope.
Variable D : nat -> pdesc.
Variable CB : nat -> tbasis R.

Definition pd (f : ofield R) : pdesc := match f_rstr f with Some i => D i | None => D 0 end.
Definition tb (f : ofield R) : tbasis R := match f_basis f with Some (BT t) => t | _ => noT R end.
(** nodes of a nodal field, points of a field on points *)
Definition p_cnt (d : pdesc) (e : nat) : nat := match d with PStd d => u_es d | PPts _ _ _ _ offs => p_num offs e end.
Definition p_nc (d : pdesc) : nat := match d with PStd d => u_nc d | PPts _ _ nc _ _ => nc end.
Definition p_ne (d : pdesc) : nat := match d with PStd d => u_ne d | PPts ne _ _ _ _ => ne end.
Definition p_ls (d : pdesc) : nat := match d with PStd d => u_lsize d | PPts _ _ _ ls _ => ls end.
Definition p_of (d : pdesc) : list Z := match d with PStd _ => [] | PPts _ _ _ _ offs => offs end.
(** value of component [c] at node or point [n] of element [e]; the transposed restriction of values [E], entry [q] *)
Definition gather (d : pdesc) (x : list R) (e c n : nat) : R :=
  match d with PStd d => Eval Signed d x e c n | PPts _ _ nc _ offs => vf x (p_idx offs e n * nc + c) end.
Definition scatter (d : pdesc) (E : nat -> nat -> nat -> R) (q : nat) : R :=
  match d with
  | PStd d => Lval Signed d E q
  | PPts ne _ nc _ offs => sumn ne (fun e => sumn (p_num offs e) (fun n => sumn nc (fun c => delta (q =? p_idx offs e n * nc + c) (E e c n))))
  end.

Variable a : atop R.
Notation o := (a_op a).
Notation X := (p_of (D (a_rpts a))).
Notation dimX := (p_nc (D (a_rpts a))).
(** points of element [e], and the coordinates of point [p], taken from vector contents [xv] *)
Definition pts (e : nat) : nat := p_num X e.
Definition point (xv : list R) (e p : nat) : list R := map (fun d => vf xv (p_idx X e p * dimX + d)) (seq 0 dimX).
(** value at a point of slot [i] (derivative in direction [i] for CEED_EVAL_GRAD) of the basis function of node [n] *)
Definition phi (f : ofield R) (b : nat) (pt : list R) (i n : nat) : R :=
  expansion R (f_mode f) (t_dim (tb f)) (t_P (tb f)) (t_Q (tb f)) 1 (t_interp (CB b)) pt i 0 n.

Definition at_in_val (f : ofield R) (b : nat) (xv x : list R) (e c p : nat) : R :=
  match f_mode f with
  | EvWeight => 1%R
  | EvNone => gather (pd f) x e c p
  | _ => sumn (t_P (tb f) ^ t_dim (tb f)) (fun n => (phi f b (point xv e p) (c / t_nc (tb f)) n * gather (pd f) x e (c mod t_nc (tb f)) n)%R)
  end.
Definition xcont (vm : vmem R) : list R := match vv_data (vm (a_xvec a)) with Some x => x | None => [] end.
Definition at_ins_val (vm : vmem R) (inv : option nat) (e p : nat) : list (list R) :=
  map (fun i => let f := fld (o_in o) i in map (fun c => at_in_val f (nth i (a_bin a) 0) (xcont vm) (contents vm f inv) e c p) (seq 0 (f_size f))) (seq 0 (length (o_in o))).
Definition at_outs_val (vm : vmem R) (inv : option nat) (e p : nat) : list (list R) :=
  if o_ident o then [nth 0 (at_ins_val vm inv e p) []] else o_pt o (at_ins_val vm inv e p).
(** value of output [j] at node or point [n], component [c], of element [e] *)
Definition at_out_val (vm : vmem R) (inv : option nat) (j e c n : nat) : R :=
  let f := fld (o_out o) j in
  match f_mode f with
  | EvNone => vf (nth j (at_outs_val vm inv e n) []) c
  | _ => sumn (pts e) (fun p => sumn (slots_of (f_mode f) (t_dim (tb f))) (fun i =>
           (phi f (nth j (a_bout a) 0%nat) (point (xcont vm) e p) i n * vf (nth j (at_outs_val vm inv e p) []) (i * t_nc (tb f) + c))%R))
  end.
(** what the operator adds to entry [q] of vector [v] *)
Definition at_added (vm : vmem R) (inv outv : option nat) (v q : nat) : R :=
  sumn (length (o_out o)) (fun j => delta (oeq (target (fld (o_out o) j) outv) v) (scatter (pd (fld (o_out o) j)) (at_out_val vm inv j) q)).
Definition at_adds (vm : vmem R) (inv outv : option nat) (vm' : vmem R) : Prop :=
  forall v,
    if existsb (fun f => oeq (target f outv) v) (o_out o)
    then vv_len (vm' v) = vv_len (vm v) /\ (vv_state (vm v) < vv_state (vm' v))%Z /\
         exists x x', vv_data (vm v) = Some x /\ vv_data (vm' v) = Some x' /\ length x' = length x /\
           forall q, vf x' q = (vf x q + at_added vm inv outv v q)%R
    else vm' v = vm v.

(** ** Operators the theorems are about *)
Variable k : kernel R.
Variable Jmin : nat.
Variable chk : bool.
Definition p_rstr_wf (d : pdesc) : Prop :=
  match d with
  | PStd d => lengths_ok d /\ in_range d /\ curl_ok Signed d /\ (exists r, rstr_create chk d None = Ok r) /\ u_ne d = o_ne o
  | PPts ne npts nc lsize offs => points_ok ne npts nc lsize offs /\ ne = o_ne o
  end.
Definition is_pts (d : pdesc) : bool := match d with PPts _ _ _ _ _ => true | _ => false end.
(** [b]: the number of the basis *)
Definition at_field_wf (f : ofield R) (b : nat) : Prop :=
  match f_mode f with
  | EvWeight => f_size f = 1 /\ f_rstr f = None /\ f_vec f <> VAct /\ exists t, f_basis f = Some (BT t)
  | EvNone => f_rstr f <> None /\ is_pts (pd f) = true /\ p_rstr_wf (pd f) /\ f_size f = p_nc (pd f) /\ forall e, e < o_ne o -> p_num (p_of (pd f)) e = pts e
  | EvInterp | EvGrad => f_rstr f <> None /\ is_pts (pd f) = false /\ p_rstr_wf (pd f) /\ f_basis f = Some (BT (tb f)) /\
       b_wf Jmin (BT (CB b)) /\ cheb_basis (tb f) (CB b) /\ 2 <= t_Q (tb f) /\ t_dim (tb f) = dimX /\
       t_nc (tb f) = p_nc (pd f) /\ t_P (tb f) ^ t_dim (tb f) = p_cnt (pd f) 0 /\ f_size f = slots_of (f_mode f) (t_dim (tb f)) * t_nc (tb f)
  | _ => False
  end.
Record atp_wf : Prop := {
  aw_ne : 0 < o_ne o; aw_k : kernel_ok Jmin k; aw_kp : kernel_pt k;
  aw_x : is_pts (D (a_rpts a)) = true /\ p_rstr_wf (D (a_rpts a));
  aw_pts : forall e, e < o_ne o -> 0 < pts e;                              (* finding: elements without points *)
  aw_in : forall i, i < length (o_in o) -> at_field_wf (fld (o_in o) i) (nth i (a_bin a) 0);
  aw_out : forall i, i < length (o_out o) -> at_field_wf (fld (o_out o) i) (nth i (a_bout a) 0) /\ f_mode (fld (o_out o) i) <> EvWeight;
  aw_bl : length (a_bin a) = length (o_in o) /\ length (a_bout a) = length (o_out o);
  (* of input fields with the same vector and restriction none is a weight and no active one is on points (findings) *)
  aw_din : forall i j, i < j < length (o_in o) -> same (fld (o_in o) i) (fld (o_in o) j) = true ->
    f_mode (fld (o_in o) i) <> EvWeight /\ (f_mode (fld (o_in o) j) = EvNone -> f_vec (fld (o_in o) j) <> VAct);
  (* no two output fields on points with the same vector and restriction (finding); bases that add are not collocated *)
  aw_dout : forall i j, i < j < length (o_out o) -> same (fld (o_out o) i) (fld (o_out o) j) = true ->
    f_mode (fld (o_out o) j) <> EvNone /\ t_collo (CB (nth j (a_bout a) 0)) = false;
  (* an identity QFunction has one input and one output of the same size, on points (finding) *)
  aw_id : o_ident o = true -> length (o_in o) = 1 /\ length (o_out o) = 1 /\ f_size (fld (o_in o) 0) = f_size (fld (o_out o) 0) /\
    f_mode (fld (o_out o) 0) = EvNone;
  aw_vl : o_ident o = false -> 0 < o_vlen o /\ forall e, e < o_ne o -> pts e mod o_vlen o = 0
}.
(** valid arrays, of the exact length for nodal fields processed element by element; the active input and the coordinates are no output *)
Definition at_has (vm : vmem R) (f : ofield R) (act : option nat) (exact : bool) : Prop :=
  exists v x, target f act = Some v /\ vv_data (vm v) = Some x /\ if exact && negb (is_pts (pd f)) then length x = p_ls (pd f) else p_ls (pd f) <= length x.
Definition at_vec_ok (vm : vmem R) (inv outv : option nat) : Prop :=
  (forall i, i < length (o_in o) -> f_mode (fld (o_in o) i) <> EvWeight -> at_has vm (fld (o_in o) i) inv (is_active (fld (o_in o) i))) /\
  (forall i, i < length (o_out o) -> at_has vm (fld (o_out o) i) outv true) /\
  (exists x, vv_data (vm (a_xvec a)) = Some x /\ p_ls (D (a_rpts a)) <= length x) /\
  (forall i j, i < length (o_in o) -> f_vec (fld (o_in o) i) = VAct -> j < length (o_out o) -> target (fld (o_out o) j) outv <> inv) /\
  (forall j, j < length (o_out o) -> target (fld (o_out o) j) outv <> Some (a_xvec a)).
(** the vectors of Chebyshev coefficients have the length the basis asks for *)
Definition vc_ok (vc : nat -> list R) : Prop := forall b, length (vc b) = t_nc (CB b) * t_Q (CB b) ^ t_dim (CB b).
End Spec.
