(** * C45, C46: the Lagrange basis and the quadrature rules (LagModel.v) *)
From Coq Require Import List ZArith Lia Bool Arith Reals Lra.
From Verif Require Import Prelude RstrModel OpModel OpLists OptProofs PointsModel PointsProofs QrModel RealLin QrProofs QrFact QrCheb LagModel LagProofs LagQuad.
Import ListNotations.
Local Open Scope R_scope.

Lemma ev_deriv : forall p x, derivable_pt_lim (ev p) x (dv p x).
Proof.
  induction p as [|a p IH]; intros x.
  - unfold dv. cbn. apply (derivable_pt_lim_const 0).
  - rewrite dv_cons. replace (ev p x + x * dv p x) with (0 + (1 * ev p x + x * dv p x)) by ring.
    apply (derivable_pt_lim_plus (fun _ => a) (fun x => x * ev p x)); [apply derivable_pt_lim_const|].
    apply (derivable_pt_lim_mult (fun x => x) (ev p)); [apply derivable_pt_lim_id|apply IH].
Qed.
Lemma rfold_each : forall T f n a (s s' : T), rfold (seq a n) f s = Ok s' -> forall i, (a <= i)%nat -> (i < a + n)%nat -> exists s1 s2, f i s1 = Ok s2.
Proof.
  intros T f n. induction n as [|n IH]; intros a s s' E i H1 H2; [lia|]. cbn [seq rfold] in E. destruct (f a s) as [s1| |] eqn:Ea; cbn [rbind] in E; try discriminate.
  destruct (Nat.eq_dec i a) as [->|]; [eauto|]. apply (IH (a + 1)%nat s1 s'); try lia. replace (a + 1)%nat with (S a) by lia. exact E.
Qed.
Lemma forn_distinct : forall P i nodes qref st st', forn_row P nodes qref i st = Ok st' -> forall j k, (k < j)%nat -> (j < P)%nat -> ent nodes j <> ent nodes k.
Proof.
  intros P i nodes qref st st' E j k Hk Hj. unfold forn_row in E.
  destruct (og nodes 0); cbn [rbind] in E; try discriminate. destruct (og qref i) eqn:Eq; cbn [rbind] in E; try discriminate. destruct (put _ _ _); cbn [rbind] in E; try discriminate.
  match type of E with rbind (rfold ?l ?F ?s) _ = _ => destruct (rfold l F s) eqn:E1; cbn [rbind] in E; try discriminate; destruct (rfold_each _ F (P - 1) 1 _ _ E1 j ltac:(lia) ltac:(lia)) as ([[[B D] c1] c3] & s2 & E2) end.
  cbn beta iota zeta in E2. destruct (og nodes j) eqn:Ej; cbn [rbind] in E2; try discriminate.
  match type of E2 with rbind (rfold ?l ?F ?s) _ = _ => destruct (rfold l F s) eqn:E3; cbn [rbind] in E2; try discriminate; destruct (rfold_each _ F j 0 _ _ E3 k ltac:(lia) ltac:(lia)) as ([[B4 D4] c4] & s4 & E4) end.
  unfold forn_in in E4. rewrite Ej in E4. cbn [rbind] in E4. destruct (og nodes k) eqn:Ek; cbn [rbind] in E4; try discriminate.
  match type of E4 with rbind ?X _ = _ => destruct X as [[B5 D5]| |]; cbn [rbind] in E4; try discriminate end.
  destruct (og B5 _); cbn [rbind] in E4; try discriminate. destruct (og D5 _); cbn [rbind] in E4; try discriminate.
  unfold rdiv at 1 in E4. match type of E4 with context [Req_EM_T ?d 0] => destruct (Req_EM_T d 0) as [|N]; [discriminate|] end.
  assert (O : forall (l : list real) p y, og l p = Ok y -> ent l p = y). { intros l p y H. destruct (Nat.lt_ge_cases p (length l)) as [Hp|Hp]; [rewrite og_ent in H by auto; congruence|]. unfold og, ofopt in H. destruct (get l p) eqn:En; [|discriminate]. unfold get in En. apply nth_error_None in Hp. congruence. }
  rewrite (O _ _ _ Ej), (O _ _ _ Ek). lra.
Qed.
Lemma rfold_fst : forall S T (f : nat -> S * T -> res (S * T)) (g : nat -> S -> res S) l s t r, (forall i s t r, f i (s, t) = Ok r -> g i s = Ok (fst r)) ->
  rfold l f (s, t) = Ok r -> rfold l g s = Ok (fst r).
Proof.
  intros A T f g l. induction l as [|i l IH]; intros s t r H E; cbn [rfold] in *; [inversion E; auto|].
  destruct (f i (s, t)) as [[s1 t1]| |] eqn:Ef; cbn [rbind] in E; try discriminate. rewrite (H _ _ _ _ Ef). cbn [rbind fst]. eapply IH; eauto.
Qed.
(** the points do not depend on whether the weights are asked for *)
Lemma lobatto_points : forall eps Q q w w1 q' w' q1 w1', lobatto eps Q q w = Ok (q', w') -> lobatto eps Q q w1 = Ok (q1, w1') -> q' = q1.
Proof.
  intros eps Q q w w1 q' w' q1 w1'.
  set (g := fun i q => xw <~ lobatto_point eps Q i ;; q <~ put q i (- fst xw)%Re ;; put q (Q - 1 - i) (fst xw)).
  assert (H : forall w q' w', lobatto eps Q q w = Ok (q', w') -> (q <~ put q 0 (-1) ;; q <~ put q (Q - 1) 1 ;; rfold (seq 1 ((Q - 1) / 2)) g q) = Ok q').
  { intros v r v'. unfold lobatto. destruct (negb (1 <? Q)); [discriminate|]. destruct (rdiv 2 (INR (Q * (Q - 1)))); cbn [rbind]; try discriminate.
    destruct (put_opt v 0 a); cbn [rbind]; try discriminate. destruct (put_opt a0 (Q - 1) a); cbn [rbind]; try discriminate. destruct (put q 0 (-1)); cbn [rbind]; try discriminate. destruct (put a2 (Q - 1) 1); cbn [rbind]; try discriminate.
    intros E. refine (rfold_fst _ _ _ g _ _ _ (r, v') _ E). intros i s t u. unfold g. destruct (lobatto_point eps Q i) as [[xi wi]| |]; cbn [rbind fst snd]; try discriminate.
    destruct (put_opt t i wi); cbn [rbind]; try discriminate. destruct (put_opt a4 _ wi); cbn [rbind]; try discriminate. destruct (put s i (- xi)); cbn [rbind]; try discriminate. destruct (put a6 _ xi); cbn [rbind]; try discriminate. intros X. inversion X. reflexivity. }
  intros E1 E2. apply H in E1, E2. congruence.
Qed.
(** what a quadrature mode gives *)
Definition rule (eps : real) (Q : nat) (mode : qmode) (q w : list real) : Prop :=
  match mode with Gauss => gauss eps Q (repeat 0 Q) (repeat 0 Q) = Ok (q, w) | GaussLobatto => lobatto eps Q (repeat 0 Q) (Some (repeat 0 Q)) = Ok (q, Some w) end.
Lemma put_length : forall l i x l', put l i x = Ok l' -> length l' = length l.
Proof. intros l i x l' H. unfold put, ofopt in H. destruct (set l i x) eqn:E; inversion H; subst. apply set_inv in E. destruct E as (_ & ->). apply upd_length. Qed.
Lemma rfold_keep : forall T (P : T -> Prop) (f : nat -> T -> res T) l s s', (forall i s s', P s -> f i s = Ok s' -> P s') -> P s -> rfold l f s = Ok s' -> P s'.
Proof. intros T P f l. induction l as [|i l IH]; intros s s' H Hs E; cbn [rfold] in E; [inversion E; subst; auto|]. destruct (f i s) eqn:Ef; cbn [rbind] in E; try discriminate. apply (IH a s' H); [|exact E]. exact (H i s a Hs Ef). Qed.
Lemma lobatto_length : forall eps Q q w q' w', lobatto eps Q q w = Ok (q', w') -> length q' = length q /\ (1 < Q)%nat.
Proof.
  intros eps Q q w q' w'. unfold lobatto. destruct (Nat.ltb_spec 1 Q); cbn [negb]; [|discriminate]. destruct (rdiv _ _); cbn [rbind]; try discriminate. destruct (put_opt w 0 a); cbn [rbind]; try discriminate.
  destruct (put_opt a0 _ a); cbn [rbind]; try discriminate. destruct (put q 0 (-1)) eqn:E1; cbn [rbind]; try discriminate. destruct (put a2 (Q - 1) 1) eqn:E2; cbn [rbind]; try discriminate. intros E. split; auto.
  apply put_length in E1, E2. enough (length (fst (q', w')) = length q) by auto. refine (rfold_keep _ (fun st => length (fst st) = length q) _ _ _ _ _ _ E); [|cbn; lia].
  intros i [s t] [s1 t1] Hs. cbn [fst snd] in *. destruct (lobatto_point eps Q i) as [[xi wi]| |]; cbn [rbind]; try discriminate. destruct (put_opt t i wi); cbn [rbind]; try discriminate. destruct (put_opt a4 _ wi); cbn [rbind]; try discriminate.
  destruct (put s i (- xi)) eqn:E3; cbn [rbind]; try discriminate. destruct (put a6 _ xi) eqn:E4; cbn [rbind]; try discriminate. intros X. inversion X; subst. apply put_length in E3, E4. lia.
Qed.
Lemma gauss_length : forall eps Q q w q' w', gauss eps Q q w = Ok (q', w') -> length q' = length q.
Proof.
  intros eps Q q w q' w'. unfold gauss. intros E. enough (length (fst (q', w')) = length q) by auto. refine (rfold_keep _ (fun st => length (fst st) = length q) _ _ _ _ _ _ E); [|cbn; lia].
  intros i [s t] [s1 t1] Hs. cbn [fst snd] in *. destruct (gauss_point eps Q i) as [[xi wi]| |]; cbn [rbind]; try discriminate. destruct (Q <? 1 + i); [discriminate|]. destruct (put t i wi); cbn [rbind]; try discriminate. destruct (put a _ wi); cbn [rbind]; try discriminate.
  destruct (put s i (- xi)) eqn:E3; cbn [rbind]; try discriminate. destruct (put a1 _ xi) eqn:E4; cbn [rbind]; try discriminate. intros X. inversion X; subst. apply put_length in E3, E4. lia.
Qed.
Lemma rule_length : forall eps Q mode q w, rule eps Q mode q w -> length q = Q.
Proof. intros eps Q [|] q w H; cbn in H; [apply gauss_length in H|apply lobatto_length in H; destruct H as (H & _)]; rewrite repeat_length in H; auto. Qed.

(** ** C45 *)
(** When CeedBasisCreateTensorH1Lagrange creates a basis, its matrices interpolate and differentiate exactly every polynomial
    with at most P coefficients that is given by its values at the nodes; nodes and points are those of the quadrature
    functions, and the nodes are distinct. *)
Theorem C45_exact : forall eps dim nc P Q mode d, lagrange eps dim nc P Q mode = Ok (Some d) ->
  (0 < dim)%nat /\ (0 < nc)%nat /\ (2 <= P)%nat /\ (1 <= Q)%nat /\
  (exists w, lobatto eps P (repeat 0 P) None = Ok (l_nodes d, w)) /\ rule eps Q mode (l_qref d) (l_qweight d) /\
  length (l_interp d) = (P * Q)%nat /\ length (l_grad d) = (P * Q)%nat /\ length (l_nodes d) = P /\ length (l_qref d) = Q /\
  (forall j k, (j < P)%nat -> (k < P)%nat -> ent (l_nodes d) j = ent (l_nodes d) k -> j = k) /\
  forall p i, (length p <= P)%nat -> (i < Q)%nat ->
    Sum P (fun k => ent (l_interp d) (i * P + k) * ev p (ent (l_nodes d) k)) = ev p (ent (l_qref d) i) /\
    derivable_pt_lim (ev p) (ent (l_qref d) i) (Sum P (fun k => ent (l_grad d) (i * P + k) * ev p (ent (l_nodes d) k))).
Proof.
  intros eps dim nc P Q mode d. unfold lagrange.
  destruct (Nat.ltb_spec 0 dim) as [Hd|]; cbn [negb]; [|discriminate]. destruct (Nat.ltb_spec 0 nc) as [Hn|]; cbn [negb]; [|discriminate]. destruct (Nat.ltb_spec 0 P) as [HP|]; cbn [negb]; [|discriminate]. destruct (Nat.ltb_spec 0 Q) as [HQ|]; cbn [negb]; [|discriminate].
  destruct (lobatto eps P (repeat 0 P) None) as [[nodes wn]| |] eqn:El; [|discriminate|discriminate].
  match goal with |- context [match ?X with UB => UB | _ => _ end] => destruct X as [[q w]| |] eqn:Er; [|discriminate|discriminate] end.
  destruct (rfold _ _ _) as [[B D]| |] eqn:Ef; cbn [rbind]; try discriminate. intros X. inversion X; subst d. cbn [l_interp l_grad l_qref l_qweight l_nodes fst snd]. clear X.
  assert (Rq : rule eps Q mode q w). { destruct mode; cbn; auto. destruct (lobatto eps Q (repeat 0 Q) (Some (repeat 0 Q))) as [[q0 [w0|]]| |]; cbn [rbind fst snd] in Er; try discriminate. inversion Er; subst. reflexivity. }
  destruct (lobatto_length _ _ _ _ _ _ El) as (Ln & HP2). rewrite repeat_length in Ln.
  pose proof (rule_length _ _ _ _ _ Rq) as Lq.
  assert (Dn : forall j k, (k < j)%nat -> (j < P)%nat -> ent nodes j <> ent nodes k).
  { destruct (rfold_each _ _ _ _ _ _ Ef 0%nat ltac:(lia) ltac:(lia)) as (s1 & s2 & E0). exact (forn_distinct _ _ _ _ _ _ E0). }
  assert (Dn' : forall a b, (a < P)%nat -> (b < P)%nat -> a <> b -> ent nodes a <> ent nodes b).
  { intros a b Ha Hb Hab. destruct (Nat.lt_ge_cases a b); [intros E; apply (Dn b a); auto|apply Dn; auto; lia]. }
  destruct (forn_ok P Q nodes q HP ltac:(lia) ltac:(lia) Dn') as (B' & D' & E' & LB & LD & He). rewrite Ef in E'. inversion E'; subst B' D'.
  repeat match goal with |- _ /\ _ => split end; auto; [eauto| |].
  - intros j k Hj Hk E. destruct (Nat.eq_dec j k); auto. exfalso. apply (Dn' j k); auto.
  - intros p i Hp Hi. destruct (He i Hi p ltac:(lia)) as (H1 & H2). replace (P - 1 + 1)%nat with P in * by lia. split; [exact H1|]. rewrite H2. apply ev_deriv.
Qed.
(** It does create one for all sizes, unless an iteration of the quadrature functions divides by zero or two nodes coincide *)
Theorem C45_creates : forall eps dim nc P Q mode nodes wn q w, (0 < dim)%nat -> (0 < nc)%nat -> (2 <= P)%nat -> (1 <= Q)%nat ->
  lobatto eps P (repeat 0 P) None = Ok (nodes, wn) -> rule eps Q mode q w ->
  (forall j k, (j < P)%nat -> (k < P)%nat -> ent nodes j = ent nodes k -> j = k) ->
  exists d, lagrange eps dim nc P Q mode = Ok (Some d) /\ l_nodes d = nodes /\ l_qref d = q /\ l_qweight d = w.
Proof.
  intros eps dim nc P Q mode nodes wn q w Hd Hn HP HQ El Rq Dn. unfold lagrange.
  destruct (Nat.ltb_spec 0 dim); cbn [negb]; [|lia]. destruct (Nat.ltb_spec 0 nc); cbn [negb]; [|lia]. destruct (Nat.ltb_spec 0 P); cbn [negb]; [|lia]. destruct (Nat.ltb_spec 0 Q); cbn [negb]; [|lia]. rewrite El.
  match goal with |- context [match ?X with UB => UB | _ => _ end] => assert (Er : X = Ok (q, w)) by (destruct mode; unfold rule in Rq; rewrite Rq; reflexivity); rewrite Er end.
  destruct (lobatto_length _ _ _ _ _ _ El) as (Ln & _). rewrite repeat_length in Ln. pose proof (rule_length _ _ _ _ _ Rq) as Lq.
  destruct (forn_ok P Q nodes q ltac:(lia) ltac:(lia) ltac:(lia)) as (B' & D' & E' & _). { intros a b Ha Hb Hab E. apply Hab. auto. }
  rewrite E'. cbn [rbind]. eexists. split; [reflexivity|]. auto.
Qed.
(** a quadrature point that is a node takes the value of that node: the rows are those of the Lagrange (cardinal) basis *)
Theorem C45_cardinal : forall eps dim nc P Q mode d i m, lagrange eps dim nc P Q mode = Ok (Some d) -> (i < Q)%nat -> (m < P)%nat ->
  ent (l_qref d) i = ent (l_nodes d) m -> forall k, (k < P)%nat -> ent (l_interp d) (i * P + k) = if (k =? m)%nat then 1 else 0.
Proof.
  intros eps dim nc P Q mode d i m E Hi Hm Em k Hk. destruct (C45_exact _ _ _ _ _ _ _ E) as (_ & _ & HP & _ & _ & _ & _ & _ & _ & _ & Dn & He).
  set (x := ent (l_nodes d)) in *. set (x' := fun l => if (l =? k)%nat then x (P - 1)%nat else x l).
  destruct (He (om x' (P - 1)) i) as (H & _); auto. { rewrite om_length. lia. }
  assert (Z : forall l, (l < P)%nat -> l <> k -> ev (om x' (P - 1)) (x l) = 0).
  { intros l Hl Hlk. destruct (Nat.eq_dec l (P - 1)) as [->|Nl].
    - replace (x (P - 1)%nat) with (x' k) by (unfold x'; rewrite Nat.eqb_refl; auto). apply om_root. lia.
    - replace (x l) with (x' l) by (unfold x'; destruct (Nat.eqb_spec l k); [contradiction|auto]). apply om_root. lia. }
  assert (N : ev (om x' (P - 1)) (x k) <> 0).
  { apply om_nz. intros l Hl Eq. unfold x' in Eq. destruct (Nat.eqb_spec l k) as [->|Nl]; apply Dn in Eq; lia. }
  assert (Sk : Sum P (fun l => ent (l_interp d) (i * P + l) * ev (om x' (P - 1)) (x l)) = ent (l_interp d) (i * P + k) * ev (om x' (P - 1)) (x k)).
  { rewrite <- (Sum_delta P k (fun l => ent (l_interp d) (i * P + l) * ev (om x' (P - 1)) (x l)) Hk). apply Sum_ext. intros l Hl. destruct (Nat.eqb_spec l k) as [->|Nl]; [ring|rewrite Z by auto; ring]. }
  rewrite Sk, Em in H. destruct (Nat.eqb_spec k m) as [->|Nk].
  - apply (Rmult_eq_reg_r (ev (om x' (P - 1)) (x m))); auto. rewrite H. ring.
  - rewrite (Z m) in H by auto. apply Rmult_integral in H. destruct H; [auto|contradiction].
Qed.
(** with as many Gauss-Lobatto points as nodes the basis is collocated *)
Theorem C45_collocated : forall eps dim nc P d, lagrange eps dim nc P P GaussLobatto = Ok (Some d) ->
  forall i k, (i < P)%nat -> (k < P)%nat -> ent (l_interp d) (i * P + k) = if (k =? i)%nat then 1 else 0.
Proof.
  intros eps dim nc P d E i k Hi Hk. apply (C45_cardinal _ _ _ _ _ _ _ i i E); auto. destruct (C45_exact _ _ _ _ _ _ _ E) as (_ & _ & _ & _ & (w & El) & Er & _). cbn in Er.
  rewrite (lobatto_points _ _ _ _ _ _ _ _ _ El Er). reflexivity.
Qed.
(** finding: for one node (or one Gauss-Lobatto point) the error of CeedLobattoQuadrature is dropped: success is returned, but there is no basis *)
Theorem C45_silent_refuted : exists dim nc P Q mode, (0 < dim)%nat /\ (0 < nc)%nat /\ (0 < P)%nat /\ (0 < Q)%nat /\ forall eps, lagrange eps dim nc P Q mode = Ok None.
Proof. exists 1%nat, 1%nat, 1%nat, 1%nat, Gauss. do 4 (split; [lia|]). reflexivity. Qed.
Print Assumptions C45_exact. Print Assumptions C45_creates. Print Assumptions C45_cardinal. Print Assumptions C45_collocated. Print Assumptions C45_silent_refuted.

(** ** C46 *)
(** [Leg n] are the Legendre polynomials (Bonnet's recurrence); the code evaluates them and their derivatives *)
Theorem C46_legendre : forall n x, L 0 x = 1 /\ L 1 x = x /\ INR (n + 2) * L (n + 2) x = INR (2 * n + 3) * x * L (n + 1) x - INR (n + 1) * L n x /\ derivable_pt_lim (L n) x (dL n x).
Proof.
  intros. split; [apply L0|]. split; [apply L1|]. split; [|apply ev_deriv]. replace (n + 2)%nat with (S (S n)) at 2 by lia. rewrite L_rec. replace (S n) with (n + 1)%nat by lia. field. apply nz.
Qed.
(** CeedGaussQuadrature: for every number of points, the points are the results of Newton's method for the Legendre polynomial
    of degree Q from the Chebyshev points, in increasing order of these, the rule is symmetric, and nothing else is written *)
Theorem C46_gauss : forall eps Q q w, (1 <= Q)%nat -> (Q <= length q)%nat -> (Q <= length w)%nat ->
  (forall i, (i < Q)%nat -> gregular Q (- cos (PI * INR (2 * i + 1) / INR (2 * Q)))) ->
  exists q' w', gauss eps Q q w = Ok (q', w') /\ length q' = length q /\ length w' = length w /\
  (forall i, (i < Q)%nat -> ent q' (Q - 1 - i) = - ent q' i /\ ent w' (Q - 1 - i) = ent w' i /\
     exists k, (k <= 100)%nat /\ let y := iter k (newton Q) (- cos (PI * INR (2 * i + 1) / INR (2 * Q))) in
       ent q' i = newton Q y /\ ent w' i = 2 / ((1 - ent q' i * ent q' i) * dL Q y * dL Q y) /\ (Rabs (L Q y) <= 10 * eps \/ k = 100%nat)) /\
  (forall i, (Q <= i)%nat -> ent q' i = ent q i /\ ent w' i = ent w i).
Proof.
  intros eps Q q w HQ Lq Lw Hr. destruct (gauss_ok eps Q q w HQ Lq Lw Hr) as (q' & w' & E & A & B & C & D). exists q', w'. split; auto. split; auto. split; auto. split; auto.
  intros i Hi. destruct (C i Hi) as ((k & Hk & E1 & E2 & E3 & _) & C2 & C3). split; auto. split; auto. exists k. auto.
Qed.
(** weights are positive exactly where the point is inside the interval *)
Theorem C46_gauss_positive : forall eps Q q w q' w', (1 <= Q)%nat -> (Q <= length q)%nat -> (Q <= length w)%nat ->
  (forall i, (i < Q)%nat -> gregular Q (- cos (PI * INR (2 * i + 1) / INR (2 * Q)))) -> gauss eps Q q w = Ok (q', w') ->
  forall i, (i < Q)%nat -> (0 < ent w' i <-> -1 < ent q' i < 1).
Proof.
  intros eps Q q w q' w' HQ Lq Lw Hr E i Hi. destruct (gauss_ok eps Q q w HQ Lq Lw Hr) as (q1 & w1 & E' & _ & _ & C & _). rewrite E in E'. inversion E'; subst q1 w1.
  destruct (C i Hi) as ((k & Hk & E1 & E2 & _) & _). destruct (Hr i Hi k Hk) as (_ & N & N1). fold (gguess Q i) in N, N1. rewrite E2. rewrite <- E1 in N1. set (x := ent q' i) in *. set (t := dL Q (iter k (newton Q) (gguess Q i))) in *.
  assert (T : 0 < t * t) by nra. rewrite Rmult_assoc.
  assert (X : 0 < 1 - x * x <-> -1 < x < 1) by (split; intros; nra). rewrite <- X. split; intros H.
  - destruct (Rlt_le_dec 0 (1 - x * x)); auto. exfalso. assert (1 - x * x < 0) by lra. assert ((1 - x * x) * (t * t) < 0) by nra. apply Rinv_lt_0_compat in H1. unfold Rdiv in H. nra.
  - apply Rdiv_lt_0_compat; [lra|]. nra.
Qed.
(** CeedLobattoQuadrature, with and without weights: end points and their weights are exact, the rule is symmetric, the weights
    are those of the formula at the last iterate and positive, and nothing else is written *)
Theorem C46_lobatto : forall eps Q q w, (2 <= Q)%nat -> (Q <= length q)%nat -> wlen w Q ->
  (forall i, (0 < i)%nat -> (i < Q - 1)%nat -> lregular Q (- cos (PI * INR i / INR (Q - 1)))) ->
  exists q' w', lobatto eps Q q w = Ok (q', w') /\ length q' = length q /\ wsame w w' /\
  ent q' 0 = -1 /\ ent q' (Q - 1) = 1 /\ wis w' 0 (2 / INR (Q * (Q - 1))) /\ wis w' (Q - 1) (2 / INR (Q * (Q - 1))) /\
  (forall i, (0 < i)%nat -> (i < Q - 1)%nat -> ent q' (Q - 1 - i) = - ent q' i /\
     exists k, (k <= 100)%nat /\ let y := iter k (lstep Q) (- cos (PI * INR i / INR (Q - 1))) in
       let wi := 2 / (INR (Q * (Q - 1)) * L (Q - 1) y * L (Q - 1) y) in
       ent q' i = lstep Q y /\ wis w' i wi /\ wis w' (Q - 1 - i) wi /\ 0 < wi /\ (Rabs (dL (Q - 1) y) * INR Q <= 10 * eps * INR (Q - 1) \/ k = 100%nat)) /\
  (forall i, (Q <= i)%nat -> ent q' i = ent q i /\ forall x, wis w i x -> wis w' i x).
Proof.
  intros eps Q q w HQ Lq Lw Hr. destruct (lobatto_ok eps Q q w HQ Lq Lw Hr) as (q' & w' & E & A & B & (R1 & R2 & R3 & R4 & R5) & D). exists q', w'. do 7 (split; [assumption|]). split; [|assumption].
  intros i Hi0 Hi. destruct (R5 i Hi0 Hi) as (R6 & wi & (k & Hk & E1 & E2 & E3 & _) & R7 & R8). split; auto. exists k. split; auto. cbv zeta in *. fold (lguess Q i). set (y := iter k (lstep Q) (lguess Q i)) in *.
  rewrite <- E2. split; auto. split; auto. split; auto. split.
  - rewrite E2. destruct (Hr i Hi0 Hi k Hk) as (_ & _ & N). fold (lguess Q i) in N. fold y in N. assert (0 < INR (Q * (Q - 1))) by (apply lt_0_INR; nia). apply Rdiv_lt_0_compat; [lra|]. rewrite Rmult_assoc. apply Rmult_lt_0_compat; auto. nra.
  - destruct E3 as [E3|]; [left|right; auto]. unfold ld in E3. assert (P1 : 0 < INR (Q - 1)) by (apply lt_0_INR; lia). assert (P2 : 0 < INR Q) by (apply lt_0_INR; lia).
    rewrite Rabs_mult, (Rabs_right (INR Q / INR (Q - 1))) in E3 by (apply Rle_ge, Rlt_le, Rdiv_lt_0_compat; auto).
    apply (Rmult_le_compat_r (INR (Q - 1))) in E3; [|lra]. replace (Rabs (dL (Q - 1) y) * INR Q) with (INR Q / INR (Q - 1) * Rabs (dL (Q - 1) y) * INR (Q - 1)) by (field; lra). lra.
Qed.
Theorem C46_lobatto_one : forall eps Q q w, (Q < 2)%nat -> lobatto eps Q q w = Err ERR_DIMENSION.
Proof. intros. unfold lobatto. destruct (Nat.ltb_spec 1 Q); [lia|reflexivity]. Qed.
(** finding: the number of Gauss points is not checked; with none, the memory before and at the (empty) arrays is written *)
Theorem C46_zero_refuted : exists Q, forall eps q w, (Q <= length q)%nat -> (Q <= length w)%nat -> gauss eps Q q w = UB.
Proof. exists 0%nat. intros. unfold gauss, gauss_point. cbn [Nat.div Nat.divmod fst seq rfold]. cbn. unfold rdiv. destruct (Req_EM_T 0 0); [reflexivity|lra]. Qed.
(** finding: the derivative in the Lobatto iteration carries the factor Q instead of Q - 1, so the step is not Newton's *)
Theorem C46_newton_refuted : exists Q y d2, (2 < Q)%nat /\ -1 < y < 1 /\ derivable_pt_lim (dL (Q - 1)) y d2 /\ d2 <> 0 /\
  exists x P2 dP2, lobatto_step Q (y, 0, 0) = Ok (x, P2, dP2) /\ x <> y - dL (Q - 1) y / d2.
Proof.
  exists 4%nat, (1 / 2), (15 / 2). split; [lia|]. split; [lra|].
  assert (D : forall x, dL 3 x = ev [-(3 / 2); 0; 15 / 2] x).
  { intros x. rewrite (dL_rec 1), (dL_rec 0), (L_rec 0), dL0, dL1, L0, L1. unfold ev. cbn. field. }
  replace (4 - 1)%nat with 3%nat by lia. split; [|split; [lra|]].
  - assert (E : derivable_pt_lim (ev [-(3 / 2); 0; 15 / 2]) (1 / 2) (15 / 2)).
    { replace (15 / 2) with (dv [-(3 / 2); 0; 15 / 2] (1 / 2)) at 2; [apply ev_deriv|]. unfold dv. cbn. field. }
    intros e He. destruct (E e He) as (del & Hd). exists del. intros h H0 H1. rewrite !D. apply Hd; auto.
  - assert (L3 : L 3 (1 / 2) = -(7 / 16)). { rewrite (L_rec 1), (L_rec 0), L0, L1. cbn. field. }
    assert (D3 : dL 3 (1 / 2) = 3 / 8). { rewrite D. unfold ev. cbn. field. }
    assert (E1 : ld 4 (1 / 2) = 1 / 2). { unfold ld. replace (4 - 1)%nat with 3%nat by lia. rewrite D3. cbn. field. }
    assert (E2 : ld2 4 (1 / 2) = 23 / 3). { unfold ld2. rewrite E1. replace (4 - 1)%nat with 3%nat by lia. rewrite L3. cbn. field. }
    do 3 eexists. split; [apply lobatto_step_ok; [lia|lra|rewrite E2; lra]|]. unfold lstep. rewrite E1, E2, D3. lra.
Qed.
Print Assumptions C46_legendre. Print Assumptions C46_gauss. Print Assumptions C46_gauss_positive. Print Assumptions C46_lobatto. Print Assumptions C46_lobatto_one. Print Assumptions C46_zero_refuted. Print Assumptions C46_newton_refuted.

(** ** Examples *)
Example C46_ex_gauss1 : gregular 1 (- cos (PI * INR (2 * 0 + 1) / INR (2 * 1))).
Proof. change (gregular 1 (gguess 1 0)). rewrite gguess_1. intros k Hk. cbv zeta. rewrite iter_1_0. unfold newton. rewrite L1, dL1. lra. Qed.
Lemma newton2 : forall x, 1 / 2 <= x < 1 -> 1 / 2 <= newton 2 x < 1 /\ dL 2 x = 3 * x.
Proof.
  intros x Hx. assert (D : dL 2 x = 3 * x). { rewrite (dL_rec 0), dL0, dL1, L1. cbn. field. } assert (E : L 2 x = (3 * x * x - 1) / 2). { rewrite (L_rec 0), L0, L1. cbn. field. }
  split; auto. unfold newton. rewrite D, E. replace (x - (3 * x * x - 1) / 2 / (3 * x)) with ((3 * x * x + 1) * / (6 * x)) by (field; lra).
  assert (P : 0 < 6 * x) by lra. split.
  - apply (Rmult_le_reg_r (6 * x)); auto. rewrite Rmult_assoc, Rinv_l by lra. nra.
  - apply (Rmult_lt_reg_r (6 * x)); auto. rewrite Rmult_assoc, Rinv_l by lra. nra.
Qed.
Lemma iter2 : forall k x, 1 / 2 <= x < 1 -> 1 / 2 <= iter k (newton 2) x < 1.
Proof. induction k; intros x Hx; cbn [iter]; auto. apply newton2. auto. Qed.
Lemma regular2 : forall x, 1 / 2 <= x < 1 -> gregular 2 x.
Proof. intros x Hx k _. cbv zeta. pose proof (iter2 k x Hx) as H. destruct (newton2 _ H) as (H1 & H2). rewrite H2. split; [nra|]. split; [lra|nra]. Qed.
Lemma regular_neg : forall Q x, gregular Q x -> gregular Q (- x).
Proof.
  intros Q x H k Hk. cbv zeta. destruct (H k Hk) as (A & B & C). rewrite iter_odd by apply newton_odd. rewrite newton_odd. split; [lra|]. split; [|lra].
  destruct (L_parity Q (iter k (newton Q) x)) as (_ & ->). apply Rmult_integral_contrapositive. split; auto. apply Ropp_neq_0_compat, pow_nonzero. lra.
Qed.
Example C46_ex_gauss2 : forall i, (i < 2)%nat -> gregular 2 (- cos (PI * INR (2 * i + 1) / INR (2 * 2))).
Proof.
  assert (H : 1 / 2 <= cos (PI / 4) < 1). { rewrite cos_PI4. pose proof sqrt2_neq_0. pose proof (sqrt_lt_R0 2 ltac:(lra)). assert (sqrt 2 * sqrt 2 = 2) by (apply sqrt_sqrt; lra). split.
    - apply (Rmult_le_reg_r (sqrt 2)); auto. replace (1 / sqrt 2 * sqrt 2) with 1 by (field; auto). nra.
    - apply (Rmult_lt_reg_r (sqrt 2)); auto. replace (1 / sqrt 2 * sqrt 2) with 1 by (field; auto). nra. }
  assert (G : gregular 2 (- cos (PI * INR (2 * 0 + 1) / INR (2 * 2)))). { replace (PI * INR (2 * 0 + 1) / INR (2 * 2)) with (PI / 4) by (cbn; field). apply regular_neg, regular2; auto. }
  intros [|[|i]] Hi; try lia; [exact G|]. change (gregular 2 (gguess 2 (2 - 1 - 0))). rewrite gguess_sym by lia. apply regular_neg. exact G.
Qed.
Example C46_ex_lobatto3 : lregular 3 (- cos (PI * INR 1 / INR (3 - 1))) /\ lstep 3 0 = 0.
Proof.
  assert (E0 : lstep 3 0 = 0) by (apply odd_0, lstep_odd). split; auto. replace (PI * INR 1 / INR (3 - 1)) with (PI / 2) by (cbn; field). rewrite cos_PI2, Ropp_0. intros k Hk. cbv zeta. rewrite iter_fix0 by auto.
  assert (E : L (3 - 1) 0 = - (1 / 2)). { replace (3 - 1)%nat with 2%nat by lia. rewrite (L_rec 0), L0, L1. cbn. field. }
  split; [lra|]. unfold ld2. rewrite E. split; [|lra]. replace (3 * (3 - 1))%nat with 6%nat by lia. cbn. lra.
Qed.
(** linear elements with two Gauss points *)
Example C45_ex : forall eps, exists d, lagrange eps 3 1 2 2 Gauss = Ok (Some d) /\ l_nodes d = [-1; 1].
Proof.
  intros eps. assert (El : lobatto eps 2 (repeat 0 2) None = Ok ([-1; 1], None)). { unfold lobatto. cbn. rewrite rdiv_ok by lra. reflexivity. }
  destruct (C46_gauss eps 2 (repeat 0 2) (repeat 0 2)) as (q & w & E & _); [lia|cbn; lia|cbn; lia|exact C46_ex_gauss2|].
  destruct (C45_creates eps 3 1 2 2 Gauss [-1; 1] None q w) as (d & Ed & H & _); try lia; auto; [|eauto].
  intros [|[|j]] [|[|k]] Hj Hk; unfold ent; cbn; intros; auto; try lia; lra.
Qed.
(** a collocated quadratic element *)
Example C45_ex_collocated : forall eps, exists d, lagrange eps 1 1 3 3 GaussLobatto = Ok (Some d).
Proof.
  intros eps. assert (R : forall i, (0 < i)%nat -> (i < 3 - 1)%nat -> lregular 3 (- cos (PI * INR i / INR (3 - 1)))). { intros i H1 H2. assert (i = 1)%nat by lia. subst. apply C46_ex_lobatto3. }
  destruct (C46_lobatto eps 3 (repeat 0 3) None) as (n & wn & En & Ln & _ & N0 & N2 & _ & _ & N1 & _); [lia|cbn; lia|exact I|exact R|].
  destruct (C46_lobatto eps 3 (repeat 0 3) (Some (repeat 0 3))) as (q & [w|] & Eq & _ & S3 & _); [lia|cbn; lia|cbn; lia|exact R| |cbn in S3; contradiction].
  destruct (C45_creates eps 1 1 3 3 GaussLobatto n wn q w) as (d & Ed & _); try lia; auto; [|eauto].
  assert (M : ent n 1 = 0). { destruct (N1 1%nat) as (H & _); try lia. replace (3 - 1 - 1)%nat with 1%nat in H by lia. lra. } cbn [Nat.sub] in N2.
  intros [|[|[|j]]] [|[|[|k]]] Hj Hk Hjk; auto; try lia; rewrite ?N0, ?M, ?N2 in Hjk; lra.
Qed.
