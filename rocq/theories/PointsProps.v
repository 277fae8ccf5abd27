(** * Properties C19, C43 and the point part of C17 *)
From Coq Require Import List ZArith Lia Bool Arith Ring.
From Verif Require Import Prelude Adds RstrModel RstrProofs TensorModel TensorProofs TensorMain Digits BasisModel BasisProofs BasisMain BasisApply BasisProps PointsModel PointsProofs.
Import ListNotations.
Set Implicit Arguments.
Local Open Scope nat_scope.

Section C19.
Variable R : Rng.
Add Ring Rr : (r_th R).
Fixpoint rpow (x : R) (n : nat) : R := match n with O => 1%R | S n => (x * rpow x n)%R end.

(** ** C19: the two routines give the values and derivatives of the polynomials [cheb] *)
Theorem C19_values : forall x n (buf : list R), 2 <= n -> n <= length buf ->
  exists b, cheb_vals x n buf = Some b /\ length b = length buf /\
    (forall i, i < n -> vf b i = peval (cheb i) x) /\ (forall i, n <= i -> vf b i = vf buf i).
Proof. apply cheb_vals_ok. Qed.
Theorem C19_derivatives : forall x n (buf : list R), 2 <= n -> n <= length buf ->
  exists b, cheb_ders x n buf = Some b /\ length b = length buf /\
    (forall i, i < n -> vf b i = peval (pderiv (cheb i)) x) /\ (forall i, n <= i -> vf b i = vf buf i).
Proof. apply cheb_ders_ok. Qed.

(** The polynomials are the Chebyshev polynomials of the second kind: with x = (s + t) / 2, s t = 1,
    U_n(x) (t - s) = t^(n+1) - s^(n+1)  (the identity U_n(cos a) sin a = sin((n+1) a) in algebraic form). *)
Theorem C19_second_kind : forall (s t x : R) n, (s * t)%R = 1%R -> ((1 + 1) * x)%R = (s + t)%R ->
  (peval (cheb n) x * (t - s))%R = (rpow t (S n) - rpow s (S n))%R.
Proof.
  intros s t x n Hst Hx.
  enough (H : (peval (cheb n) x * (t - s))%R = (rpow t (S n) - rpow s (S n))%R /\
              (peval (cheb (S n)) x * (t - s))%R = (rpow t (S (S n)) - rpow s (S (S n)))%R) by apply H.
  induction n as [|n (IH1 & IH2)].
  - split; [simpl; ring|]. rewrite cheb_1. cbn [peval]. transitivity ((1 + 1) * x * (t - s))%R; [ring|]. rewrite Hx. simpl. ring.
  - split; [exact IH2|]. rewrite cheb_rec, Hx.
    transitivity ((s + t) * (peval (cheb (S n)) x * (t - s)) - peval (cheb n) x * (t - s))%R; [ring|].
    rewrite IH1, IH2. cbn [rpow]. set (T := rpow t n). set (S0 := rpow s n).
    transitivity (t * (t * (t * T)) - s * (s * (s * S0)) + (s * t - 1) * (t * T - s * S0))%R; [ring|]. rewrite Hst. ring.
Qed.
(** [pderiv] is the derivative: the linear part of the change. *)
Theorem C19_derivative_linear_part : forall p (x h : R), exists r, peval p (x + h)%R = (peval p x + h * peval (pderiv p) x + h * h * r)%R.
Proof.
  intros p x h. induction p as [|a p (r & IH)].
  - exists 0%R. simpl. ring.
  - exists (peval (pderiv p) x + x * r + h * r)%R. rewrite peval_pderiv_cons. cbn [peval]. rewrite IH. ring.
Qed.
End C19.
Print Assumptions C19_values. Print Assumptions C19_derivatives. Print Assumptions C19_second_kind. Print Assumptions C19_derivative_linear_part.
Example C19_ex : @cheb_vals Zrng 3%Z 5 [7;7;7;7;7;7]%Z = Some [1;6;35;204;1189;7]%Z /\ @cheb_ders Zrng 3%Z 5 [7;7;7;7;7;7]%Z = Some [0;2;24;212;1656;7]%Z.
Proof. split; reflexivity. Qed.
Example C19_second_kind_ex : exists s t x : Zrng, (s * t)%R = 1%R /\ ((1 + 1) * x)%R = (s + t)%R.
Proof. exists 1%Z, 1%Z, 1%Z. split; reflexivity. Qed.
(** Finding: with one node both routines write a second entry. *)
Theorem C19_one_node_refuted : exists (x : Zrng) buf, length buf = 1 /\ cheb_vals x 1 buf = None /\ cheb_ders x 1 buf = None.
Proof. exists 0%Z, [0%Z]. repeat split. Qed.
Print Assumptions C19_one_node_refuted.

Section C43.
Variable R : Rng.
Add Ring Rr2 : (r_th R).

(** Value at point [p] of slot [i] of the basis function of node [n]: a product over the directions of
    one-dimensional Chebyshev expansions; [ci] is the map from nodes to coefficients. *)
Definition expansion (em : emode) (dim P Q np : nat) (ci x : list R) (i p n : nat) : R :=
  prodn dim (fun d => sumn Q (fun a =>
    peval (match em with EvGrad => if i =? d then pderiv (cheb a) else cheb a | _ => cheb a end) (vf x (d * np + p)%nat)
    * vf ci (a * P + (n / P ^ d) mod P)%nat)%R).
Definition slots_of (em : emode) (dim : nat) : nat := match em with EvGrad => dim | _ => 1 end.

(** the Chebyshev basis belongs to the basis *)
Definition cheb_basis (t cb : tbasis R) : Prop := t_dim cb = t_dim t /\ t_nc cb = t_nc t /\ t_P cb = t_P t /\ t_Q cb = t_Q t.

Lemma W_pass : forall em np p (x : list R) i d a, em = EvInterp \/ em = EvGrad ->
  W (match em with EvGrad => Some i | _ => None end) np p x d a =
  peval (match em with EvGrad => if i =? d then pderiv (cheb a) else cheb a | _ => cheb a end) (vf x (d * np + p)).
Proof. intros em np p x i d a [->| ->]; unfold W; auto. destruct (i =? d); reflexivity. Qed.

Lemma expand_eq : forall em dim P Q np (ci x : list R) i p n, em = EvInterp \/ em = EvGrad -> 0 < Q ->
  sumn (Q ^ dim) (fun q => prodn dim (fun d => W (match em with EvGrad => Some i | _ => None end) np p x d (dig Q d q)) *
     prodn dim (fun d => vf ci (dig Q d q * P + dig P d n)%nat))%R = expansion em dim P Q np ci x i p n.
Proof.
  intros em dim P Q np ci x i p n Hem HQ. unfold expansion.
  rewrite <- (@sumn_prodn R Q dim (fun d a => peval (match em with EvGrad => if i =? d then pderiv (cheb a) else cheb a | _ => cheb a end) (vf x (d * np + p)%nat)
    * vf ci (a * P + (n / P ^ d) mod P)%nat)%R HQ).
  apply sumn_ext. intros q Hq.
  transitivity (prodn dim (fun d => W (match em with EvGrad => Some i | _ => None end) np p x d (dig Q d q) * vf ci (dig Q d q * P + dig P d n)%nat)%R).
  - induction dim as [|m IH]; [simpl; ring|]. clear Hq. cbn [prodn]. transitivity
      ((prodn m (fun d => W (match em with EvGrad => Some i | _ => None end) np p x d (dig Q d q)) * prodn m (fun d => vf ci (dig Q d q * P + dig P d n)%nat)) *
       (W (match em with EvGrad => Some i | _ => None end) np p x m (dig Q m q) * vf ci (dig Q m q * P + dig P m n)%nat))%R; [ring|].
    assert (IH' : (prodn m (fun d => W (match em with EvGrad => Some i | _ => None end) np p x d (dig Q d q)) * prodn m (fun d => vf ci (dig Q d q * P + dig P d n)%nat))%R =
      prodn m (fun d => W (match em with EvGrad => Some i | _ => None end) np p x d (dig Q d q) * vf ci (dig Q d q * P + dig P d n)%nat)%R).
    { clear IH. induction m as [|m IH]; [simpl; ring|]. cbn [prodn]. rewrite <- IH. ring. }
    rewrite IH'. reflexivity.
  - apply prodn_ext. intros d Hd. rewrite W_pass by auto. reflexivity.
Qed.

Section Lens.
Variables (k : kernel R) (Jmin : nat) (junk : nat -> nat -> R) (t cb : tbasis R) (em : emode) (np : nat).
Hypothesis Hk : kernel_ok Jmin k.
Hypothesis Hkp : kernel_pt k.
Hypothesis Hcb : b_wf Jmin (BT cb).
Hypothesis Hrel : cheb_basis t cb.
Hypothesis HQ : 2 <= t_Q t.
Hypothesis Hem : em = EvInterp \/ em = EvGrad.

Theorem C43_forward : forall (x u vc v : list R),
  t_dim t * np <= length x -> t_nc t * t_P t ^ t_dim t <= length u -> t_nc t * t_Q t ^ t_dim t <= length vc ->
  slots_of em (t_dim t) * t_nc t * np <= length v ->
  exists vc' v', at_points_core k junk (BT t) cb false [np] NoTranspose em x u vc v = Ok (vc', v') /\ length vc' = length vc /\ length v' = length v /\
    (forall i c p, i < slots_of em (t_dim t) -> c < t_nc t -> p < np -> vf v' ((i * t_nc t + c) * np + p) =
       sumn (t_P t ^ t_dim t) (fun n => expansion em (t_dim t) (t_P t) (t_Q t) np (t_interp cb) x i p n * vf u (c * t_P t ^ t_dim t + n)%nat)%R) /\
    (forall j, slots_of em (t_dim t) * t_nc t * np <= j -> vf v' j = vf v j).
Proof.
  intros x u vc v Hx Hu Hvc Hv. destruct Hrel as (Rd & Rc & RP & RQ).
  destruct Hcb as (Hs & HJP & HJQ & _). pose proof Hs as (Sd & Sc & SP & SQ & _).
  destruct (@get_interp_ok R cb Hs) as (m & Em & Lm & Gm).
  destruct (@core_n R k Jmin junk (BT cb) 1 Hk Hcb EvInterp m u vc Em) as (vc' & E & Lc & Gc & _).
  { cbn [b_nc b_nodes]. rewrite Rc, RP, Rd. lia. }
  { cbn [b_nc b_qpts]. change (q_comp (BT cb) EvInterp) with 1. rewrite Rc, RQ, Rd. lia. }
  cbn [b_nc b_qpts b_nodes] in Gc. change (q_comp (BT cb) EvInterp) with 1 in Gc. rewrite Rd, Rc, RP, RQ in *.
  destruct (@points_n_ok R k (slots_of em (t_dim t)) (fun i => match em with EvGrad => Some i | _ => None end) (t_dim t) (t_nc t) np (t_Q t) x vc'
     (alloc (t_nc t * t_Q t ^ t_dim t) (junk 3), alloc (t_nc t * t_Q t ^ t_dim t) (junk 4)) (alloc (t_Q t) (junk 5)) v)
    as (v' & E' & Lv & Gv & Nv); auto; cbn [fst snd]; rewrite ?alloc_length; auto; try lia.
  exists vc', v'. split.
  { unfold at_points_core. cbn [length Nat.eqb negb]. unfold basis_apply, check_dims. cbn [olen b_nc b_qpts b_nodes].
    change (q_comp (BT cb) EvInterp) with 1. rewrite Rd, Rc, RP, RQ.
    assert (Hck : (1 * t_Q t ^ t_dim t * t_nc t * 1 <=? length vc) && (1 * t_P t ^ t_dim t * t_nc t <=? length u) = true).
    { apply andb_true_intro. split; apply Nat.leb_le; lia. }
    destruct Hem as [->| ->].
    - match goal with |- context [if ?c then _ else _] => replace c with true by (symmetry; apply andb_true_intro; split; apply Nat.leb_le; lia) end.
      rewrite E. unfold slots_of in E'. rewrite E'. reflexivity.
    - match goal with |- context [if ?c then _ else _] => replace c with true by (symmetry; apply andb_true_intro; split; apply Nat.leb_le; lia) end.
      rewrite E. unfold slots_of in E'. rewrite E'. reflexivity. }
  split; auto. split; auto. split; auto. intros i c p Hi Hc Hp. rewrite Gv by auto.
  transitivity (sumn (t_Q t ^ t_dim t) (fun q => sumn (t_P t ^ t_dim t) (fun n =>
     prodn (t_dim t) (fun d => W (match em with EvGrad => Some i | _ => None end) np p x d (dig (t_Q t) d q)) *
     prodn (t_dim t) (fun d => vf (t_interp cb) (dig (t_Q t) d q * t_P t + dig (t_P t) d n)%nat) * vf u (c * t_P t ^ t_dim t + n)%nat)))%R.
  - apply sumn_ext. intros q Hq. specialize (Gc 0 c q 0 ltac:(lia) Hc Hq ltac:(lia)).
    replace (((0 * t_nc t + c) * t_Q t ^ t_dim t + q) * 1 + 0) with (c * t_Q t ^ t_dim t + q) in Gc by lia. rewrite Gc, <- sumn_mul_l.
    apply sumn_ext. intros n Hn. cbn [Nat.mul Nat.add]. rewrite Gm by auto. unfold FI. rewrite Rd, RP, RQ.
    replace ((c * t_P t ^ t_dim t + n) * 1 + 0) with (c * t_P t ^ t_dim t + n) by lia. ring.
  - rewrite sumn_swap. apply sumn_ext. intros n Hn. rewrite <- (@expand_eq em (t_dim t) (t_P t) (t_Q t) np (t_interp cb) x i p n) by (auto; lia).
    rewrite <- sumn_mul_r. reflexivity.
Qed.

(** [v0] below is the previous content for ApplyAdd, zero for Apply; at least one point is needed. *)
Theorem C43_backward : forall aa (x u vc v : list R), 0 < np -> (aa = true -> t_collo cb = false) ->
  t_dim t * np <= length x -> slots_of em (t_dim t) * t_nc t * np <= length u -> t_nc t * t_Q t ^ t_dim t <= length vc ->
  t_nc t * t_P t ^ t_dim t <= length v ->
  exists vc' v', at_points_core k junk (BT t) cb aa [np] Transpose em x u vc v = Ok (vc', v') /\ length vc' = length vc /\ length v' = length v /\
    (forall c n, c < t_nc t -> n < t_P t ^ t_dim t -> vf v' (c * t_P t ^ t_dim t + n) =
       ((if aa then vf v (c * t_P t ^ t_dim t + n)%nat else 0) + sumn np (fun p => sumn (slots_of em (t_dim t)) (fun i =>
         expansion em (t_dim t) (t_P t) (t_Q t) np (t_interp cb) x i p n * vf u ((i * t_nc t + c) * np + p)%nat)))%R) /\
    (forall j, t_nc t * t_P t ^ t_dim t <= j -> vf v' j = if aa then vf v j else 0%R).
Proof.
  intros aa x u vc v Hnp Haa Hx Hu Hvc Hv. destruct Hrel as (Rd & Rc & RP & RQ).
  destruct Hcb as (Hs & HJP & HJQ & _). pose proof Hs as (Sd & Sc & SP & SQ & _).
  destruct (@get_interp_ok R cb Hs) as (m & Em & Lm & Gm).
  assert (Hsl : 0 < slots_of em (t_dim t)). { unfold slots_of. rewrite Rd in Sd. destruct em; lia. }
  rewrite Rd, Rc, RP, RQ in *.
  destruct (@points_t_ok R k Jmin (slots_of em (t_dim t)) (fun i => match em with EvGrad => Some i | _ => None end) (t_dim t) (t_nc t) np (t_Q t) x u
     (alloc (t_nc t * t_Q t ^ t_dim t) (junk 3), alloc (t_nc t * t_Q t ^ t_dim t) (junk 4)) (alloc (t_Q t) (junk 5)) vc)
    as (vc' & E' & Lv & Gv); auto; cbn [fst snd]; rewrite ?alloc_length; auto; try lia.
  destruct (@core_t R k Jmin junk (BT cb) 1 Hk Hcb aa EvInterp m vc' v Em Haa) as (v' & E & Lc & Gc & Nc).
  { cbn [b_nc b_qpts]. change (q_comp (BT cb) EvInterp) with 1. rewrite Rc, RQ, Rd. lia. }
  { cbn [b_nc b_nodes]. rewrite Rc, RP, Rd. lia. }
  cbn [b_nc b_qpts b_nodes] in Gc, Nc. change (q_comp (BT cb) EvInterp) with 1 in Gc. rewrite Rd, Rc, RP, RQ in *.
  exists vc', v'. split.
  { unfold at_points_core. cbn [length Nat.eqb negb]. unfold basis_apply, basis_apply_add, check_dims. cbn [olen b_nc b_qpts b_nodes].
    change (q_comp (BT cb) EvInterp) with 1. rewrite Rd, Rc, RP, RQ.
    assert (Hck : (1 * t_P t ^ t_dim t * t_nc t <=? length v) && (1 * t_Q t ^ t_dim t * t_nc t * 1 <=? length vc') = true).
    { apply andb_true_intro. split; apply Nat.leb_le; lia. }
    destruct Hem as [->| ->]; unfold slots_of in E'; rewrite E'.
    - match goal with |- context [if ?c && ?d then _ else _] => replace (c && d) with true by (symmetry; apply andb_true_intro; split; apply Nat.leb_le; lia) end.
      destruct aa; rewrite E; reflexivity.
    - match goal with |- context [if ?c && ?d then _ else _] => replace (c && d) with true by (symmetry; apply andb_true_intro; split; apply Nat.leb_le; lia) end.
      destruct aa; rewrite E; reflexivity. }
  split; auto. split. { rewrite Lc. destruct aa; auto. apply repeat_length. }
  split.
  - intros c n Hc Hn. specialize (Gc c n 0 Hc Hn ltac:(lia)). replace ((c * t_P t ^ t_dim t + n) * 1 + 0) with (c * t_P t ^ t_dim t + n) in Gc by lia.
    rewrite Gc. f_equal. { destruct aa; auto. apply vf_repeat0. }
    rewrite sumn_S, sumn_0, (Radd_0_l (r_th R)).
    transitivity (sumn (t_Q t ^ t_dim t) (fun q => sumn np (fun p => sumn (slots_of em (t_dim t)) (fun i =>
       prodn (t_dim t) (fun d => W (match em with EvGrad => Some i | _ => None end) np p x d (dig (t_Q t) d q)) *
       prodn (t_dim t) (fun d => vf (t_interp cb) (dig (t_Q t) d q * t_P t + dig (t_P t) d n)%nat) * vf u ((i * t_nc t + c) * np + p)%nat))))%R.
    + apply sumn_ext. intros q Hq. replace (((0 * t_nc t + c) * t_Q t ^ t_dim t + q) * 1 + 0) with (c * t_Q t ^ t_dim t + q) by lia.
      rewrite Gv by auto. replace (np =? 0) with false by (symmetry; apply Nat.eqb_neq; lia).
      cbn [Nat.mul Nat.add]. rewrite Gm by auto. unfold FI. rewrite Rd, RP, RQ. rewrite (Radd_0_l (r_th R)), <- sumn_mul_l.
      apply sumn_ext. intros p Hp. rewrite <- sumn_mul_l. apply sumn_ext. intros i Hi. ring.
    + rewrite sumn_swap. apply sumn_ext. intros p Hp. rewrite sumn_swap. apply sumn_ext. intros i Hi.
      rewrite <- (@expand_eq em (t_dim t) (t_P t) (t_Q t) np (t_interp cb) x i p n) by (auto; lia). rewrite <- sumn_mul_r. reflexivity.
  - intros j Hj. rewrite Nc by lia. destruct aa; auto. apply vf_repeat0.
Qed.
End Lens.

(** Adjoint *)
Theorem C43_adjoint : forall k Jmin junk (t cb : tbasis R) em np (x u v w w' vc1 vc2 : list R), kernel_ok Jmin k -> kernel_pt k ->
  b_wf Jmin (BT cb) -> cheb_basis t cb -> 2 <= t_Q t -> em = EvInterp \/ em = EvGrad -> 0 < np ->
  let N := t_nc t * t_P t ^ t_dim t in let M := slots_of em (t_dim t) * t_nc t * np in
  t_dim t * np <= length x -> N <= length u -> M <= length w -> M <= length v -> N <= length w' ->
  t_nc t * t_Q t ^ t_dim t <= length vc1 -> t_nc t * t_Q t ^ t_dim t <= length vc2 ->
  exists c1 c2 bu btv, at_points_core k junk (BT t) cb false [np] NoTranspose em x u vc1 w = Ok (c1, bu) /\
    at_points_core k junk (BT t) cb false [np] Transpose em x v vc2 w' = Ok (c2, btv) /\
    dot M (vf bu) (vf v) = dot N (vf u) (vf btv).
Proof.
  intros k Jmin junk t cb em np x u v w w' vc1 vc2 Hk Hkp Hcb Hrel HQ Hem Hnp N M Hx Hu Hw Hv Hw' H1 H2.
  destruct (@C43_forward k Jmin junk t cb em np Hk Hkp Hcb Hrel HQ Hem x u vc1 w Hx Hu H1 Hw) as (c1 & bu & E1 & _ & _ & G1 & _).
  destruct (@C43_backward k Jmin junk t cb em np Hk Hcb Hrel HQ Hem false x v vc2 w' Hnp ltac:(discriminate) Hx Hv H2 Hw') as (c2 & btv & E2 & _ & _ & G2 & _).
  exists c1, c2, bu, btv. split; auto. split; auto. unfold dot, M, N. rewrite !sumn_mul.
  set (F := fun i c p n => (expansion em (t_dim t) (t_P t) (t_Q t) np (t_interp cb) x i p n * vf u (c * t_P t ^ t_dim t + n)%nat * vf v ((i * t_nc t + c) * np + p)%nat)%R).
  transitivity (sumn (slots_of em (t_dim t)) (fun i => sumn (t_nc t) (fun c => sumn np (fun p => sumn (t_P t ^ t_dim t) (fun n => F i c p n))))).
  { apply sumn_ext. intros i Hi. apply sumn_ext. intros c Hc. apply sumn_ext. intros p Hp. rewrite G1 by auto. rewrite <- sumn_mul_r. reflexivity. }
  rewrite sumn_swap. apply sumn_ext. intros c Hc.
  transitivity (sumn (t_P t ^ t_dim t) (fun n => sumn np (fun p => sumn (slots_of em (t_dim t)) (fun i => F i c p n)))).
  2:{ apply sumn_ext. intros n Hn. rewrite G2 by auto. rewrite (Radd_0_l (r_th R)), <- sumn_mul_l. apply sumn_ext. intros p Hp.
      rewrite <- sumn_mul_l. apply sumn_ext. intros i Hi. unfold F. ring. }
  rewrite sumn_swap.
  transitivity (sumn np (fun p => sumn (t_P t ^ t_dim t) (fun n => sumn (slots_of em (t_dim t)) (fun i => F i c p n)))).
  { apply sumn_ext. intros p Hp. apply sumn_swap. }
  apply sumn_swap.
Qed.

(** At the quadrature points the values agree with CeedBasisApply, when the map to coefficients interpolates
    the basis functions at the 1D quadrature points [qref] (and their derivatives, for the gradient). *)
Theorem C43_quadrature : forall k Jmin junk (t cb : tbasis R) em m (qref x u vc v w : list R), kernel_ok Jmin k -> kernel_pt k ->
  b_wf Jmin (BT t) -> b_wf Jmin (BT cb) -> cheb_basis t cb -> 2 <= t_Q t -> em = EvInterp \/ em = EvGrad -> reported (BT t) em = Some m ->
  let NQ := t_Q t ^ t_dim t in
  (forall q p, q < t_Q t -> p < t_P t -> sumn (t_Q t) (fun a => peval (cheb a) (vf qref q) * vf (t_interp cb) (a * t_P t + p)%nat)%R = vf (t_interp t) (q * t_P t + p)) ->
  (em = EvGrad -> forall q p, q < t_Q t -> p < t_P t -> sumn (t_Q t) (fun a => peval (pderiv (cheb a)) (vf qref q) * vf (t_interp cb) (a * t_P t + p)%nat)%R = vf (t_grad t) (q * t_P t + p)) ->
  (forall d q, d < t_dim t -> q < NQ -> vf x (d * NQ + q) = vf qref ((q / t_Q t ^ d) mod t_Q t)) ->
  t_dim t * NQ <= length x -> t_nc t * t_P t ^ t_dim t <= length u -> t_nc t * NQ <= length vc ->
  slots_of em (t_dim t) * t_nc t * NQ <= length v -> slots_of em (t_dim t) * t_nc t * NQ <= length w ->
  exists vc' v' w', at_points_core k junk (BT t) cb false [NQ] NoTranspose em x u vc v = Ok (vc', v') /\
    basis_apply k junk (BT t) 1 NoTranspose em (Some u) w = Ok w' /\
    forall j, j < slots_of em (t_dim t) * t_nc t * NQ -> vf v' j = vf w' j.
Proof.
  intros k Jmin junk t cb em m qref x u vc v w Hk Hkp Ht Hcb Hrel HQ Hem Hm NQ Hci Hcg Hxq Hx Hu Hvc Hv Hw.
  destruct (@C43_forward k Jmin junk t cb em NQ Hk Hkp Hcb Hrel HQ Hem x u vc v Hx Hu Hvc Hv) as (vc' & v' & E1 & _ & _ & G1 & _).
  assert (Hqc : q_comp (BT t) em = slots_of em (t_dim t)). { destruct Hem as [->| ->]; reflexivity. }
  destruct (@C14_forward R k Jmin junk (BT t) 1 em m u w Hk Ht Hm) as (w' & E2 & _ & G2 & _).
  { unfold check_dims. rewrite Hqc. cbn [b_nc b_qpts b_nodes]. fold NQ.
    destruct Hem as [->| ->]; cbn [slots_of] in *; apply andb_true_intro; split; apply Nat.leb_le; nia. }
  exists vc', v', w'. split; auto. split; auto. intros j Hj.
  apply dec_mul in Hj. destruct Hj as (y & q & Hy & Hq & ->). apply dec_mul in Hy. destruct Hy as (i & c & Hi & Hc & ->).
  rewrite G1 by auto. rewrite <- (q_comp_spec (BT t)), Hqc in G2. cbn [b_nc b_qpts b_nodes] in G2. specialize (G2 i c q 0 Hi Hc Hq ltac:(lia)). fold NQ in G2.
  replace (((i * t_nc t + c) * NQ + q) * 1 + 0) with ((i * t_nc t + c) * NQ + q) in G2 by lia. rewrite G2.
  apply sumn_ext. intros n Hn. replace ((c * t_P t ^ t_dim t + n) * 1 + 0) with (c * t_P t ^ t_dim t + n) by lia. f_equal.
  destruct (@C14_reported_tensor R Jmin t Ht) as ((mi & Ei & Gi) & (mg & Eg & Gg)). pose proof Ht as ((Sd & Sc & SP & SQ & _) & _).
  assert (Hdl : forall d q, (q / t_Q t ^ d) mod t_Q t < t_Q t) by (intros; apply Nat.mod_upper_bound; lia).
  assert (Hdp : forall d q, (q / t_P t ^ d) mod t_P t < t_P t) by (intros; apply Nat.mod_upper_bound; lia).
  destruct Hem as [->| ->].
  - rewrite Hm in Ei. inversion Ei; subst mi. cbn [slots_of] in Hi. replace i with 0 by lia. cbn [Nat.mul Nat.add]. unfold NQ in *. rewrite Gi by auto.
    unfold expansion. apply prodn_ext. intros d Hd. rewrite <- Hci by auto. apply sumn_ext. intros a Ha. rewrite Hxq by auto. reflexivity.
  - rewrite Hm in Eg. inversion Eg; subst mg. unfold NQ in *. rewrite Gg by auto. unfold expansion. apply prodn_ext. intros d Hd.
    rewrite (Nat.eqb_sym d i). destruct (i =? d).
    + rewrite <- Hcg by auto. apply sumn_ext. intros a Ha. rewrite Hxq by auto. reflexivity.
    + rewrite <- Hci by auto. apply sumn_ext. intros a Ha. rewrite Hxq by auto. reflexivity.
Qed.
End C43.
Print Assumptions C43_forward. Print Assumptions C43_backward. Print Assumptions C43_adjoint. Print Assumptions C43_quadrature.

(** ** Through the API: with vectors as long as documented nothing is accessed outside them *)
Theorem C17_points_safe : forall (R : Rng) k Jmin junk (t cb : tbasis R) aa npl tm em (x u vc v : list R), kernel_ok Jmin k -> kernel_pt k ->
  b_wf Jmin (BT cb) -> cheb_basis t cb -> 2 <= t_Q t -> npl <> [] ->
  let np := fold_right Nat.add 0 npl in
  let N := t_nc t * t_P t ^ t_dim t in let M := slots_of em (t_dim t) * t_nc t * np in
  t_dim t * np <= length x -> t_nc t * t_Q t ^ t_dim t <= length vc ->
  match tm with NoTranspose => N <= length u /\ M <= length v | Transpose => M <= length u /\ N <= length v end ->
  apply_at_points k junk (BT t) cb aa npl tm em x u vc v <> UB.
Proof.
  intros R k Jmin junk t cb aa npl tm em x u vc v Hk Hkp Hcb Hrel HQ Hnpl np N M Hx Hvc Hl. unfold apply_at_points.
  destruct (aa && match tm with NoTranspose => true | Transpose => false end) eqn:Eaa; [discriminate|].
  destruct (at_points_check (BT t) npl tm em (length x) (length u) (length v)) as [[]|e|] eqn:Ec; try discriminate.
  2:{ exfalso. unfold at_points_check in Ec. destruct em; destruct tm; repeat match type of Ec with context [if ?c then _ else _] => destruct c end; discriminate. }
  destruct npl as [|n rest]; [contradiction|]. destruct rest as [|n2 rest]; [|discriminate].
  assert (Enp : np = n) by (unfold np; simpl; lia). clearbody np. subst np.
  assert (Hnone : forall em, at_points_check (BT t) [n] tm em (length x) (length u) (length v) = Ok tt -> em = EvInterp \/ em = EvGrad \/ em = EvWeight).
  { clear. intros em H. unfold at_points_check in H. destruct em; auto; exfalso; destruct tm; repeat match type of H with context [if ?c then _ else _] => destruct c end; discriminate. }
  assert (Hgo : em = EvInterp \/ em = EvGrad -> at_points_core k junk (BT t) cb aa [n] tm em x u vc v <> UB).
  2:{ destruct (Hnone _ Ec) as [Hem|[Hem|Hem]]; auto. subst em. discriminate. }
  intros Hem. destruct tm.
  - assert (aa = false) as -> by (destruct aa; auto; discriminate). destruct Hl as (Hu & Hv).
    destruct (@C43_forward R k Jmin junk t cb em n Hk Hkp Hcb Hrel HQ Hem x u vc v Hx Hu Hvc Hv) as (c & w & -> & _). discriminate.
  - destruct Hl as (Hu & Hv).
    assert (Hci : forall m, basis_apply k junk (BT cb) 1 Transpose EvInterp (Some m) v <> UB).
    { intros m. apply (@C17_safe R k Jmin); auto; try discriminate.
      intros _ _ H. simpl in H. destruct Hcb as (Hs & _). destruct (get_interp_ok Hs) as (mm & E & _). congruence. }
    assert (Hca : forall m, basis_apply_add k junk (BT cb) 1 Transpose EvInterp (Some m) v <> UB).
    { intros m. apply (@C17_safe_add R k Jmin); auto; try discriminate.
      intros _ _ H. simpl in H. destruct Hcb as (Hs & _). destruct (get_interp_ok Hs) as (mm & E & _). congruence. }
    destruct Hrel as (Rd & Rc & RP & RQ). destruct Hcb as (Hs & HJP & HJQ & _). pose proof Hs as (Sd & Sc & SP & SQ & _).
    rewrite Rd, Rc, RP, RQ in *.
    destruct (@points_t_ok R k Jmin (slots_of em (t_dim t)) (fun i => match em with EvGrad => Some i | _ => None end) (t_dim t) (t_nc t) n (t_Q t) x u
      (alloc (t_nc t * t_Q t ^ t_dim t) (junk 3), alloc (t_nc t * t_Q t ^ t_dim t) (junk 4)) (alloc (t_Q t) (junk 5)) vc)
      as (vc' & E' & _); auto; cbn [fst snd]; rewrite ?alloc_length; auto; try lia.
    { unfold slots_of. destruct em; lia. }
    unfold at_points_core. cbn [length Nat.eqb negb].
    destruct Hem as [->| ->]; unfold slots_of in E'; rewrite E';
      (destruct aa; [specialize (Hca vc')|specialize (Hci vc')]);
      match goal with |- context [match ?r with Ok _ => _ | Err _ => _ | UB => _ end] => destruct r; congruence end.
Qed.
Print Assumptions C17_points_safe.

(** ** A concrete case and the findings *)
(** 2D, two nodes and points, q_ref = (0, 1); the Chebyshev map is ((1 2) (1 1)) *)
Definition ex_pt : tbasis Zrng := @mkT Zrng 2 1 2 2 [1;2; 3;4]%Z [2;2; 2;2]%Z [1;1]%Z false (Some [-1;1; -1;1]%Z).
Definition ex_pc : tbasis Zrng := @mkT Zrng 2 1 2 2 [1;2; 1;1]%Z [0;0; 0;0]%Z [0;0]%Z false None.
Definition ex_qp : list Zrng := [0;1;0;1; 0;0;1;1]%Z.
Example C43_ex : b_wf 2 (BT ex_pt) /\ b_wf 2 (BT ex_pc) /\ cheb_basis ex_pt ex_pc /\ kernel_ok 2 (@contract_avx Zrng) /\ kernel_pt (@contract_avx Zrng) /\
  (forall q p, q < 2 -> p < 2 -> sumn 2 (fun a => peval (cheb a) (vf ([0;1]%Z : list Zrng) q) * vf (t_interp ex_pc) (a * 2 + p)%nat)%R = vf (t_interp ex_pt) (q * 2 + p)) /\
  (forall q p, q < 2 -> p < 2 -> sumn 2 (fun a => peval (pderiv (cheb a)) (vf ([0;1]%Z : list Zrng) q) * vf (t_interp ex_pc) (a * 2 + p)%nat)%R = vf (t_grad ex_pt) (q * 2 + p)) /\
  (forall d q, d < 2 -> q < 4 -> vf ex_qp (d * 4 + q) = vf ([0;1]%Z : list Zrng) ((q / 2 ^ d) mod 2)) /\
  at_points_core (@contract_avx Zrng) junkZ (BT ex_pt) ex_pc false [4] NoTranspose EvGrad ex_qp [1;2;3;4]%Z [0;0;0;0]%Z (repeat 7%Z 8) =
    Ok ([27;17;16;10], [34;34;74;74; 32;72;32;72])%Z.
Proof.
  split. { simpl. unfold t_wf, sizes_ok. simpl. repeat split; try lia; try discriminate.
    - inversion H; subst; simpl; lia.
    - inversion H; subst. intros q p Hq Hp. destruct q as [|[|q]]; try lia; destruct p as [|[|p]]; try lia; reflexivity. }
  split. { simpl. unfold t_wf, sizes_ok. simpl. repeat split; try lia; try discriminate. }
  split. { repeat split. } split. { apply avx_ok. } split. { apply kernel_pt_avx. }
  split. { intros q p Hq Hp. destruct q as [|[|q]]; try lia; destruct p as [|[|p]]; try lia; reflexivity. }
  split. { intros q p Hq Hp. destruct q as [|[|q]]; try lia; destruct p as [|[|p]]; try lia; reflexivity. }
  split. { intros d q Hd Hq. destruct d as [|[|d]]; try lia; destruct q as [|[|[|[|q]]]]; try lia; reflexivity. }
  vm_compute. reflexivity.
Qed.
(** Finding: with zero points the transpose returns the image of whatever the previous call left. *)
Theorem C43_no_points_refuted : exists (t cb : tbasis Zrng) (vc1 vc2 v w1 w2 : list Zrng) c1 c2, b_wf 2 (BT cb) /\ cheb_basis t cb /\
  apply_at_points (@contract_ref Zrng) junkZ (BT t) cb false [0] Transpose EvInterp [] [] vc1 v = Ok (c1, w1) /\
  apply_at_points (@contract_ref Zrng) junkZ (BT t) cb false [0] Transpose EvInterp [] [] vc2 v = Ok (c2, w2) /\ w1 = [0;0;0;0]%Z /\ w2 <> w1.
Proof.
  exists ex_pt, ex_pc, [0;0;0;0]%Z, [1;0;0;0]%Z, [9;9;9;9]%Z. eexists. eexists. eexists. eexists.
  split. { apply C43_ex. } split. { apply C43_ex. } split; [vm_compute; reflexivity|]. split; [vm_compute; reflexivity|]. split; [reflexivity|discriminate].
Qed.
(** Finding: the check joins its two conditions with "or", so one short vector is accepted ... *)
Theorem C17_points_or_refuted : exists (t cb : tbasis Zrng) (x u vc v : list Zrng), b_wf 2 (BT cb) /\ cheb_basis t cb /\ length vc = 4 /\ 2 <= t_Q t /\
  at_points_check (BT t) [3] NoTranspose EvInterp (length x) (length u) (length v) = Ok tt /\
  apply_at_points (@contract_ref Zrng) junkZ (BT t) cb false [3] NoTranspose EvInterp x u vc v = UB.
Proof.
  exists ex_pt, ex_pc, [0;1;0;1;0;0]%Z, [1;2;3;4]%Z, [0;0;0;0]%Z, [0]%Z. split. { apply C43_ex. } split. { apply C43_ex. }
  split; [reflexivity|]. split; [simpl; lia|]. split; vm_compute; reflexivity.
Qed.
(** ... and it forgets the number of components on the point side: here both conditions hold. *)
Definition ex_pt2 : tbasis Zrng := @mkT Zrng 2 2 2 2 [1;2; 3;4]%Z [2;2; 2;2]%Z [1;1]%Z false (Some [-1;1; -1;1]%Z).
Definition ex_pc2 : tbasis Zrng := @mkT Zrng 2 2 2 2 [1;2; 1;1]%Z [0;0; 0;0]%Z [0;0]%Z false None.
Theorem C17_points_components_refuted : exists (t cb : tbasis Zrng) (x u vc v : list Zrng), b_wf 2 (BT cb) /\ cheb_basis t cb /\ length vc = 8 /\ 2 <= t_Q t /\
  t_nc t * t_P t ^ t_dim t <= length u /\ 3 <= length v /\ 
  apply_at_points (@contract_ref Zrng) junkZ (BT t) cb false [3] NoTranspose EvInterp x u vc v = UB.
Proof.
  exists ex_pt2, ex_pc2, [0;1;0;1;0;0]%Z, [1;2;3;4;5;6;7;8]%Z, (repeat 0%Z 8), [0;0;0]%Z.
  split. { simpl. unfold t_wf, sizes_ok. simpl. repeat split; try lia; try discriminate. } split. { repeat split. }
  split; [reflexivity|]. split; [simpl; lia|]. split; [simpl; lia|]. split; [simpl; lia|]. vm_compute; reflexivity.
Qed.
Print Assumptions C43_no_points_refuted. Print Assumptions C17_points_or_refuted. Print Assumptions C17_points_components_refuted.
