(** * Legendre polynomials and the iterations of the quadrature rules (for LagModel.v) *)
From Coq Require Import List ZArith Lia Bool Arith Reals Lra.
From Verif Require Import Prelude RstrModel OpModel OpLists PointsModel PointsProofs QrModel RealLin QrProofs QrFact QrCheb LagModel LagProofs.
Import ListNotations.
Local Open Scope R_scope.

(** coefficients of the Legendre polynomials: (n + 2) L_(n+2) = (2 n + 3) x L_(n+1) - (n + 1) L_n *)
Fixpoint leg_pair (n : nat) : list real * list real := match n with O => ([1], [0; 1]) | S n => let '(a, b) := leg_pair n in
  (b, @padd Rrng (0 :: @pscale Rrng (INR (2 * n + 3) / INR (n + 2)) b) (@pscale Rrng (- (INR (n + 1) / INR (n + 2))) a)) end.
Definition Leg (n : nat) : list real := fst (leg_pair n).
Lemma Leg_snd : forall n, snd (leg_pair n) = Leg (S n).
Proof. intros. unfold Leg. cbn [leg_pair]. destruct (leg_pair n). reflexivity. Qed.
Lemma Leg_SS : forall n, Leg (S (S n)) = @padd Rrng (0 :: @pscale Rrng (INR (2 * n + 3) / INR (n + 2)) (Leg (S n))) (@pscale Rrng (- (INR (n + 1) / INR (n + 2))) (Leg n)).
Proof. intros. rewrite <- (Leg_snd (S n)). cbn [leg_pair]. destruct (leg_pair n) as [a b] eqn:E. cbn [snd]. rewrite <- (Leg_snd n). unfold Leg. rewrite E. reflexivity. Qed.
Definition L (n : nat) (x : real) : real := ev (Leg n) x.
Definition dL (n : nat) (x : real) : real := dv (Leg n) x.
Lemma nz : forall n, INR (n + 2) <> 0.
Proof. intros. apply not_0_INR. lia. Qed.
Lemma L_rec : forall n x, L (S (S n)) x = (INR (2 * n + 3) * x * L (S n) x - INR (n + 1) * L n x) / INR (n + 2).
Proof. intros. unfold L. rewrite Leg_SS, ev_padd, ev_cons, !ev_pscale. field. apply nz. Qed.
Lemma dL_rec : forall n x, dL (S (S n)) x = (INR (2 * n + 3) * (L (S n) x + x * dL (S n) x) - INR (n + 1) * dL n x) / INR (n + 2).
Proof. intros. unfold L, dL. rewrite Leg_SS, dv_padd, dv_cons, dv_pscale, ev_pscale, dv_pscale. field. apply nz. Qed.
Lemma L0 : forall x, L 0 x = 1. Proof. intros. unfold L, ev. cbn. ring. Qed.
Lemma L1 : forall x, L 1 x = x. Proof. intros. unfold L, ev. cbn. ring. Qed.
Lemma dL0 : forall x, dL 0 x = 0. Proof. intros. unfold dL, dv. cbn. ring. Qed.
Lemma dL1 : forall x, dL 1 x = 1. Proof. intros. unfold dL, dv. cbn. ring. Qed.
Lemma L_deriv : forall n x, x * dL (S n) x - dL n x = INR (n + 1) * L (S n) x /\ dL (S n) x - x * dL n x = INR (n + 1) * L n x.
Proof.
  induction n as [|n IH]; intros x.
  - rewrite dL1, dL0, L1, L0. cbn. lra.
  - destruct (IH x) as (A & B). clear IH. replace (S n + 1)%nat with (n + 2)%nat by lia.
    assert (E1 : INR (2 * n + 3) = 2 * INR n + 3) by (rewrite plus_INR, mult_INR; cbn; lra). assert (E2 : INR (n + 1) = INR n + 1) by (rewrite plus_INR; cbn; lra). assert (E3 : INR (n + 2) = INR n + 2) by (rewrite plus_INR; cbn; lra).
    pose proof (nz n) as Hn. pose proof (dL_rec n x) as D. pose proof (L_rec n x) as E. rewrite E1, E2, E3 in *.
    assert (D' : dL (S (S n)) x * (INR n + 2) = (2 * INR n + 3) * (L (S n) x + x * dL (S n) x) - (INR n + 1) * dL n x) by (rewrite D; field; auto).
    assert (E' : L (S (S n)) x * (INR n + 2) = (2 * INR n + 3) * x * L (S n) x - (INR n + 1) * L n x) by (rewrite E; field; auto).
    assert (B' : dL (S (S n)) x - x * dL (S n) x = (INR n + 2) * L (S n) x).
    { apply (Rmult_eq_reg_r (INR n + 2)); auto. rewrite Rmult_minus_distr_r, D'. assert (dL n x = x * dL (S n) x - (INR n + 1) * L (S n) x) as -> by lra. ring. }
    split; [|exact B'].
    assert (x * dL (S (S n)) x = x * x * dL (S n) x + (INR n + 2) * x * L (S n) x) as -> by (replace (dL (S (S n)) x) with (x * dL (S n) x + (INR n + 2) * L (S n) x) by lra; ring).
    assert (C : x * x * dL (S n) x = dL (S n) x + (INR n + 1) * (x * L (S n) x - L n x)).
    { replace (x * x * dL (S n) x) with (x * (x * dL (S n) x - dL n x) + x * dL n x) by ring. rewrite A. replace (x * dL n x) with (dL (S n) x - (INR n + 1) * L n x) by lra. ring. }
    rewrite C. lra.
Qed.
(** the derivative formula used by the code *)
Lemma L_code : forall n x, (x * x - 1) * dL (S n) x = (x * L (S n) x - L n x) * INR (S n).
Proof.
  intros. destruct (L_deriv n x) as (A & B). replace (INR (S n)) with (INR (n + 1)) by (f_equal; lia).
  replace ((x * x - 1) * dL (S n) x) with (x * (x * dL (S n) x - dL n x) - (dL (S n) x - x * dL n x)) by ring. rewrite A, B. ring.
Qed.
Lemma L_parity : forall n x, L n (- x) = (-1) ^ n * L n x /\ dL n (- x) = - (-1) ^ n * dL n x.
Proof.
  enough (H : forall n x, (L n (- x) = (-1) ^ n * L n x /\ dL n (- x) = - (-1) ^ n * dL n x) /\ (L (S n) (- x) = (-1) ^ S n * L (S n) x /\ dL (S n) (- x) = - (-1) ^ S n * dL (S n) x)) by (intros; apply H).
  induction n as [|n IH]; intros x.
  - rewrite !L0, !L1, !dL0, !dL1. cbn. lra.
  - destruct (IH x) as ((A & B) & C & D). split; [split; auto|]. rewrite !L_rec, !dL_rec, A, B, C, D. cbn [pow]. split; field; apply nz.
Qed.

(** the loop over j *)
Lemma legendre_ok : forall n xi P2, (1 <= n)%nat -> (n = 1%nat -> P2 = L 1 xi) -> legendre xi n P2 = (L (n - 1) xi, L n xi, L n xi).
Proof.
  intros n xi P2 Hn H1. unfold legendre.
  assert (G : forall m a P2, (2 <= a)%nat -> (m = 0%nat -> P2 = L (a - 1) xi) -> fold_left (fun st j => let '(P0, P1, _) := st in
      let P2 := (INR (2 * j - 1) * xi * P1 - INR (j - 1) * P0) / INR j in (P1, P2, P2)) (seq a m) (L (a - 2) xi, L (a - 1) xi, P2) = (L (a + m - 2) xi, L (a + m - 1) xi, L (a + m - 1) xi)).
  { induction m as [|m IH]; intros a q Ha Hq.
    - cbn [seq fold_left]. replace (a + 0)%nat with a by lia. rewrite Hq by auto. reflexivity.
    - cbn [seq fold_left]. replace (a + S m)%nat with (S a + m)%nat by lia. rewrite <- (IH (S a) (L (S a - 1) xi)) by (auto; lia). f_equal.
      assert (E : (INR (2 * a - 1) * xi * L (a - 1) xi - INR (a - 1) * L (a - 2) xi) / INR a = L (S a - 1) xi).
      { replace (S a - 1)%nat with (S (S (a - 2))) by lia. rewrite L_rec. replace (2 * (a - 2) + 3)%nat with (2 * a - 1)%nat by lia. replace (a - 2 + 1)%nat with (a - 1)%nat by lia. replace (a - 2 + 2)%nat with a by lia. replace (S (a - 2)) with (a - 1)%nat by lia. reflexivity. }
      cbv zeta. rewrite E. replace (S a - 2)%nat with (a - 1)%nat by lia. reflexivity. }
  pose proof (G (n - 1)%nat 2%nat P2 (le_n 2)) as H. cbn [Nat.sub] in H. rewrite L0, L1 in H.
  replace (2 + (n - 1) - 2)%nat with (n - 1)%nat in H by lia. replace (2 + (n - 1) - 1)%nat with n in H by lia. apply H. intros Hm. rewrite H1 by lia. apply L1.
Qed.

Lemma iterate_ok : forall T (st : nat -> T) go f fuel, (forall k, (k < fuel)%nat -> f (st k) = Ok (st (S k))) ->
  exists k, (k <= fuel)%nat /\ iterate fuel go f (st 0%nat) = Ok (st k) /\ (go (st k) = false \/ k = fuel) /\ forall l, (l < k)%nat -> go (st l) = true.
Proof.
  intros T st go f fuel. revert st. induction fuel as [|fuel IH]; intros st H.
  - exists 0%nat. split; auto. split; [reflexivity|]. split; auto. intros; lia.
  - cbn [iterate]. destruct (go (st 0%nat)) eqn:E.
    + rewrite (H 0%nat) by lia. cbn [rbind]. destruct (IH (fun k => st (S k))) as (k & Hk & E' & Hs & Hl). { intros k Hk. apply H. lia. }
      exists (S k). split; [lia|]. split; [exact E'|]. split; [destruct Hs as [Hs| ->]; auto|]. intros [|l] Hl'; auto. apply Hl. lia.
    + exists 0%nat. split; [lia|]. split; [reflexivity|]. split; auto. intros; lia.
Qed.
Lemma above_false : forall x eps, above x eps = false <-> Rabs x <= 10 * eps.
Proof. intros. unfold above. destruct (Rlt_dec (10 * eps) (Rabs x)); split; intros; try discriminate; lra. Qed.
Lemma above_true : forall x eps, above x eps = true <-> 10 * eps < Rabs x.
Proof. intros. unfold above. destruct (Rlt_dec (10 * eps) (Rabs x)); split; intros; auto; try discriminate; lra. Qed.
Fixpoint iter (k : nat) (f : real -> real) (x : real) : real := match k with O => x | S k => f (iter k f x) end.
Lemma iter_odd : forall f k x, (forall y, f (- y) = - f y) -> iter k f (- x) = - iter k f x.
Proof. intros f k x H. induction k; cbn [iter]; auto. rewrite IHk. apply H. Qed.

(** ** Gauss *)
Definition newton (Q : nat) (y : real) : real := y - L Q y / dL Q y.
Lemma newton_odd : forall Q y, newton Q (- y) = - newton Q y.
Proof.
  intros. unfold newton. destruct (L_parity Q y) as (-> & ->).
  assert (E : (-1) ^ Q = 1 \/ (-1) ^ Q = -1). { induction Q; cbn [pow]; [auto|]. destruct IHQ as [-> | ->]; lra. }
  destruct (Req_dec (dL Q y) 0) as [Z|NZ].
  - rewrite Z. unfold Rdiv. rewrite Rmult_0_r. rewrite Rinv_0. ring.
  - destruct E as [-> | ->]; field; auto.
Qed.
Definition gguess (Q i : nat) : real := - cos (PI * INR (2 * i + 1) / INR (2 * Q)).
Lemma gguess_sym : forall Q i, (i < Q)%nat -> gguess Q (Q - 1 - i) = - gguess Q i.
Proof.
  intros Q i Hi. unfold gguess. f_equal.
  replace (PI * INR (2 * (Q - 1 - i) + 1) / INR (2 * Q)) with (PI - PI * INR (2 * i + 1) / INR (2 * Q)).
  - rewrite Rtrigo_facts.cos_pi_minus. ring.
  - assert (INR (2 * Q) <> 0) by (apply not_0_INR; lia). replace (INR (2 * (Q - 1 - i) + 1)) with (INR (2 * Q) - INR (2 * i + 1)); [field; auto|]. rewrite <- minus_INR by lia. f_equal. lia.
Qed.
(** no division by zero on the way from the guess [g] *)
Definition gregular (Q : nat) (g : real) : Prop := forall k, (k <= 100)%nat ->
  let y := iter k (newton Q) g in y * y <> 1 /\ dL Q y <> 0 /\ newton Q y * newton Q y <> 1.
(** what the iteration from [g] gives *)
Definition gresult (eps : real) (Q : nat) (g x w : real) : Prop := exists k, (k <= 100)%nat /\
  let y := iter k (newton Q) g in
  x = newton Q y /\ w = 2 / ((1 - x * x) * dL Q y * dL Q y) /\ (Rabs (L Q y) <= 10 * eps \/ k = 100%nat) /\
  forall l, (l < k)%nat -> 10 * eps < Rabs (L Q (iter l (newton Q) g)).
Lemma gauss_step_ok : forall Q y P2 d, (1 <= Q)%nat -> (Q = 1%nat -> P2 = L 1 y) -> y * y <> 1 -> dL Q y <> 0 ->
  gauss_step Q (y, P2, d) = Ok (newton Q y, L Q y, dL Q y).
Proof.
  intros Q y P2 d HQ H1 Hy Hd. unfold gauss_step. rewrite legendre_ok by auto. destruct Q as [|n]; [lia|]. replace (S n - 1)%nat with n by lia.
  rewrite <- L_code. rewrite rdiv_ok by lra. cbn [rbind]. replace ((y * y - 1) * dL (S n) y / (y * y - 1)) with (dL (S n) y) by (field; lra). rewrite rdiv_ok by auto. reflexivity.
Qed.
Lemma iter_1_0 : forall k, iter k (newton 1) 0 = 0.
Proof. induction k; cbn [iter]; auto. rewrite IHk. unfold newton. rewrite L1. unfold Rdiv. lra. Qed.
Lemma gguess_1 : gguess 1 0 = 0.
Proof. unfold gguess. replace (PI * INR (2 * 0 + 1) / INR (2 * 1)) with (PI / 2) by (cbn; field). rewrite cos_PI2. ring. Qed.
Lemma gauss_point_ok : forall eps Q i, (i < Q)%nat -> gregular Q (gguess Q i) ->
  exists x w, gauss_point eps Q i = Ok (- x, w) /\ gresult eps Q (gguess Q i) x w.
Proof.
  intros eps Q i Hi Hr. unfold gauss_point. assert (NQ : INR (2 * Q) <> 0) by (apply not_0_INR; lia). rewrite rdiv_ok by auto. cbn [rbind].
  set (c := cos (PI * INR (2 * i + 1) / INR (2 * Q))). assert (Eg : gguess Q i = - c) by reflexivity. set (g := gguess Q i) in *.
  assert (Ek : forall k, iter k (newton Q) c = - iter k (newton Q) g). { intros k. rewrite <- iter_odd by apply newton_odd. rewrite Eg. f_equal. ring. }
  assert (Hc : forall k, (k <= 100)%nat -> let y := iter k (newton Q) c in y * y <> 1 /\ dL Q y <> 0 /\ newton Q y * newton Q y <> 1).
  { intros k Hk. cbv zeta. destruct (Hr k Hk) as (A & B & C). rewrite Ek, newton_odd. split; [lra|]. split; [|lra]. destruct (L_parity Q (iter k (newton Q) g)) as (_ & ->).
    apply Rmult_integral_contrapositive. split; auto. apply Ropp_neq_0_compat, pow_nonzero. lra. }
  assert (Q1 : Q = 1%nat -> forall k, iter k (newton Q) c = 0).
  { intros -> k. rewrite Ek. assert (i = 0)%nat by lia. subst i. unfold g. rewrite gguess_1, iter_1_0. ring. }
  set (st := fun k => (iter (S k) (newton Q) c, L Q (iter k (newton Q) c), dL Q (iter k (newton Q) c))).
  rewrite (gauss_step_ok Q c 0 0) by (try lia; try (intros ->; rewrite L1; symmetry; apply (Q1 eq_refl 0%nat)); apply (Hc 0%nat); lia). cbn [rbind].
  change (newton Q c, L Q c, dL Q c) with (st 0%nat).
  destruct (iterate_ok _ st (fun st => above (snd (fst st)) eps) (gauss_step Q) 100) as (k & Hk & E & Hs & Hl).
  { intros k Hk. unfold st. destruct (Hc (S k)) as (A & B & C); [lia|]. apply gauss_step_ok; auto; [lia|]. intros ->. rewrite L1, !(Q1 eq_refl). rewrite L1. reflexivity. }
  rewrite E. cbn [rbind]. unfold st at 1. cbv zeta. destruct (Hc k Hk) as (A & B & C). cbn [iter] in *. set (y := iter k (newton Q) c) in *.
  rewrite rdiv_ok. 2:{ apply Rmult_integral_contrapositive. split; [apply Rmult_integral_contrapositive; split|]; auto. lra. }
  cbn [rbind]. exists (- newton Q y), (2 / ((1 - newton Q y * newton Q y) * dL Q y * dL Q y)). split; [rewrite Ropp_involutive; reflexivity|].
  assert (Ey : iter k (newton Q) g = - y) by (unfold y; rewrite Ek; ring).
  assert (E1 : forall y, Rabs (L Q (- y)) = Rabs (L Q y)). { intros z. destruct (L_parity Q z) as (-> & _). rewrite Rabs_mult, pow_1_abs. ring. }
  exists k. split; auto. cbv zeta. rewrite Ey. split; [rewrite newton_odd; ring|]. split; [|split].
  - destruct (L_parity Q y) as (_ & ->). f_equal. assert (S1 : (-1) ^ Q * (-1) ^ Q = 1) by (rewrite <- Rpow_mult_distr; replace (-1 * -1) with 1 by ring; apply pow1).
    transitivity ((1 - newton Q y * newton Q y) * dL Q y * dL Q y * ((-1) ^ Q * (-1) ^ Q)); [rewrite S1; ring|ring].
  - rewrite E1. destruct Hs as [Hs|Hs]; [left|right; auto]. apply above_false in Hs. exact Hs.
  - intros l Hl'. specialize (Hl l Hl'). apply above_true in Hl. unfold st in Hl. cbn [fst snd] in Hl. rewrite Ek, E1 in Hl. exact Hl.
Qed.
Lemma iter_fix0 : forall f k, f 0 = 0 -> iter k f 0 = 0.
Proof. intros f k H. induction k; cbn [iter]; auto. rewrite IHk. auto. Qed.
Lemma odd_0 : forall f : real -> real, (forall y, f (- y) = - f y) -> f 0 = 0.
Proof. intros f H. specialize (H 0). rewrite Ropp_0 in H. lra. Qed.
Lemma gresult_sym : forall eps Q i x w, (i < Q)%nat -> gresult eps Q (gguess Q i) x w -> gresult eps Q (gguess Q (Q - 1 - i)) (- x) w.
Proof.
  intros eps Q i x w Hi (k & Hk & E1 & E2 & Hs & Hl). rewrite gguess_sym by auto. exists k. split; auto. cbv zeta in *. rewrite iter_odd by apply newton_odd. rewrite newton_odd.
  set (y := iter k (newton Q) (gguess Q i)) in *.
  assert (A1 : forall y, Rabs (L Q (- y)) = Rabs (L Q y)). { intros z. destruct (L_parity Q z) as (-> & _). rewrite Rabs_mult, pow_1_abs. ring. }
  split; [rewrite E1; auto|]. split; [|split].
  - rewrite E2. destruct (L_parity Q y) as (_ & ->). f_equal. assert (S1 : (-1) ^ Q * (-1) ^ Q = 1) by (rewrite <- Rpow_mult_distr; replace (-1 * -1) with 1 by ring; apply pow1).
    transitivity ((1 - x * x) * dL Q y * dL Q y * ((-1) ^ Q * (-1) ^ Q)); [rewrite S1; ring|ring].
  - rewrite A1. auto.
  - intros l Hl'. rewrite iter_odd by apply newton_odd. rewrite A1. apply Hl. auto.
Qed.
Lemma gresult_mid : forall eps Q i x w, (i < Q)%nat -> (Q - 1 - i = i)%nat -> gresult eps Q (gguess Q i) x w -> x = 0.
Proof.
  intros eps Q i x w Hi Hm (k & _ & E & _). assert (G0 : gguess Q i = 0). { pose proof (gguess_sym Q i Hi) as H. rewrite Hm in H. lra. }
  rewrite E, G0. pose proof (odd_0 (newton Q) (newton_odd Q)) as H. rewrite iter_fix0 by auto. auto.
Qed.

Ltac e4 := rewrite !ent_upd by (rewrite ?upd_length; lia).
Lemma gauss_ok : forall eps Q q w, (1 <= Q)%nat -> (Q <= length q)%nat -> (Q <= length w)%nat -> (forall i, (i < Q)%nat -> gregular Q (gguess Q i)) ->
  exists q' w', gauss eps Q q w = Ok (q', w') /\ length q' = length q /\ length w' = length w /\
  (forall i, (i < Q)%nat -> gresult eps Q (gguess Q i) (ent q' i) (ent w' i) /\ ent q' (Q - 1 - i) = - ent q' i /\ ent w' (Q - 1 - i) = ent w' i) /\
  (forall i, (Q <= i)%nat -> ent q' i = ent q i /\ ent w' i = ent w i).
Proof.
  intros eps Q q w HQ Lq Lw Hr. unfold gauss.
  assert (HQ2 : (Q / 2 * 2 <= Q)%nat) by (pose proof (Nat.div_mod Q 2 ltac:(lia)); lia).
  assert (HQ3 : (Q <= Q / 2 * 2 + 1)%nat) by (pose proof (Nat.div_mod Q 2 ltac:(lia)); pose proof (Nat.mod_upper_bound Q 2 ltac:(lia)); lia).
  match goal with |- context [rfold (seq 0 ?n) ?F ?s] => destruct (@rfold_inv0 _ (fun i (st : list real * list real) => length (fst st) = length q /\ length (snd st) = length w /\
    (forall l, (l < Q)%nat -> (l < i \/ Q - 1 - l < i)%nat -> gresult eps Q (gguess Q l) (ent (fst st) l) (ent (snd st) l) /\ ent (fst st) (Q - 1 - l) = - ent (fst st) l /\ ent (snd st) (Q - 1 - l) = ent (snd st) l) /\
    (forall l, (Q <= l)%nat -> ent (fst st) l = ent q l /\ ent (snd st) l = ent w l)) F n s) as ([q' w'] & E & A & B & C & D) end.
  - cbn [fst snd]. split; auto. split; auto. split; auto. intros l Hl [H|H]; lia.
  - intros i [q1 w1] Hi (A & B & C & D). cbn [fst snd] in *. assert (HiQ : (i < Q)%nat) by lia.
    destruct (gauss_point_ok eps Q i HiQ (Hr i HiQ)) as (x & wi & E & G). rewrite E. cbn [rbind]. destruct (Nat.ltb_spec Q (1 + i)); [lia|].
    go. eexists. split; [reflexivity|]. cbn [fst snd]. rewrite !upd_length. split; auto. split; auto. rewrite !Ropp_involutive. split.
    + intros l Hl Hli. pose proof (gresult_sym eps Q i x wi HiQ G) as G'. pose proof (gresult_mid eps Q i x wi HiQ) as M.
      e4. destruct (Nat.eqb_spec l (Q - 1 - i)) as [El|Nl].
      * assert (Q - 1 - l = i)%nat as -> by lia. rewrite !Nat.eqb_refl. destruct (Nat.eqb_spec i (Q - 1 - i)) as [Ei|Ni]; subst l.
        { assert (x = 0) by (apply M; auto). subst x. split; [exact G'|]. split; auto. ring. }
        split; [exact G'|]. split; auto. ring.
      * destruct (Nat.eqb_spec l i) as [->|Nl'].
        { rewrite !Nat.eqb_refl. split; [exact G|]. auto. }
        destruct (Nat.eqb_spec (Q - 1 - l) (Q - 1 - i)); [lia|]. destruct (Nat.eqb_spec (Q - 1 - l) i); [lia|]. apply C; auto. lia.
    + intros l Hl. e4. destruct (Nat.eqb_spec l (Q - 1 - i)); [lia|]. destruct (Nat.eqb_spec l i); [lia|]. apply D. auto.
  - exists q', w'. split; [exact E|]. split; auto. split; auto. split; auto. intros i Hi. apply C; auto. lia.
Qed.

(** ** Lobatto *)
(** derivative and second derivative as the code computes them, the step *)
Definition ld (Q : nat) (y : real) : real := INR Q / INR (Q - 1) * dL (Q - 1) y.
Definition ld2 (Q : nat) (y : real) : real := (2 * y * ld Q y - INR (Q * (Q - 1)) * L (Q - 1) y) / (1 - y * y).
Definition lstep (Q : nat) (y : real) : real := y - ld Q y / ld2 Q y.
Lemma sq1 : forall n, (-1) ^ n = 1 \/ (-1) ^ n = -1.
Proof. induction n; cbn [pow]; [auto|]. destruct IHn as [-> | ->]; lra. Qed.
Lemma ld_parity : forall Q y, ld Q (- y) = - (-1) ^ (Q - 1) * ld Q y.
Proof. intros. unfold ld. destruct (L_parity (Q - 1) y) as (_ & ->). ring. Qed.
Lemma ld2_parity : forall Q y, ld2 Q (- y) = (-1) ^ (Q - 1) * ld2 Q y.
Proof. intros. unfold ld2. rewrite ld_parity. destruct (L_parity (Q - 1) y) as (-> & _). replace (- y * - y) with (y * y) by ring. unfold Rdiv. ring. Qed.
Lemma lstep_odd : forall Q y, lstep Q (- y) = - lstep Q y.
Proof.
  intros. unfold lstep. rewrite ld_parity, ld2_parity. destruct (Req_dec (ld2 Q y) 0) as [Z|NZ].
  - rewrite Z. unfold Rdiv. rewrite Rmult_0_r, Rinv_0. ring.
  - destruct (sq1 (Q - 1)) as [-> | ->]; field; auto.
Qed.
Definition lguess (Q i : nat) : real := - cos (PI * INR i / INR (Q - 1)).
Lemma lguess_sym : forall Q i, (1 < Q)%nat -> (i < Q)%nat -> lguess Q (Q - 1 - i) = - lguess Q i.
Proof.
  intros Q i HQ Hi. unfold lguess. f_equal.
  replace (PI * INR (Q - 1 - i) / INR (Q - 1)) with (PI - PI * INR i / INR (Q - 1)).
  - rewrite Rtrigo_facts.cos_pi_minus. ring.
  - assert (INR (Q - 1) <> 0) by (apply not_0_INR; lia). rewrite (minus_INR (Q - 1) i) by lia. field; auto.
Qed.
Definition lregular (Q : nat) (g : real) : Prop := forall k, (k <= 100)%nat ->
  let y := iter k (lstep Q) g in y * y <> 1 /\ ld2 Q y <> 0 /\ L (Q - 1) y <> 0.
Definition lresult (eps : real) (Q : nat) (g x w : real) : Prop := exists k, (k <= 100)%nat /\
  let y := iter k (lstep Q) g in
  x = lstep Q y /\ w = 2 / (INR (Q * (Q - 1)) * L (Q - 1) y * L (Q - 1) y) /\ (Rabs (ld Q y) <= 10 * eps \/ k = 100%nat) /\
  forall l, (l < k)%nat -> 10 * eps < Rabs (ld Q (iter l (lstep Q) g)).
Lemma lobatto_step_ok : forall Q y P2 d, (3 <= Q)%nat -> y * y <> 1 -> ld2 Q y <> 0 ->
  lobatto_step Q (y, P2, d) = Ok (lstep Q y, L (Q - 1) y, ld Q y).
Proof.
  intros Q y P2 d HQ Hy Hd. unfold lobatto_step. rewrite legendre_ok by lia. destruct Q as [|[|n]]; try lia. replace (S (S n) - 1 - 1)%nat with n by lia. 
  rewrite rdiv_ok by lra. cbn [rbind].
  assert (E : (y * L (S (S n) - 1) y - L n y) * INR (S (S n)) / (y * y - 1) = ld (S (S n)) y).
  { unfold ld. replace (S (S n) - 1)%nat with (S n) by lia. pose proof (L_code n y) as H. assert (INR (S n) <> 0) by (apply not_0_INR; lia).
    apply (Rmult_eq_reg_r ((y * y - 1) * INR (S n))); [|apply Rmult_integral_contrapositive; split; lra].
    transitivity ((y * L (S n) y - L n y) * INR (S n) * INR (S (S n))); [field; lra|]. rewrite <- H. field. auto. }
  rewrite E. rewrite rdiv_ok by lra. cbn [rbind]. fold (ld2 (S (S n)) y). rewrite rdiv_ok by auto. reflexivity.
Qed.
Lemma lobatto_point_ok : forall eps Q i, (3 <= Q)%nat -> (i < Q)%nat -> lregular Q (lguess Q i) ->
  exists x w, lobatto_point eps Q i = Ok (- x, w) /\ lresult eps Q (lguess Q i) x w.
Proof.
  intros eps Q i HQ Hi Hr. unfold lobatto_point. assert (NQ : INR (Q - 1) <> 0) by (apply not_0_INR; lia). rewrite rdiv_ok by auto. cbn [rbind].
  set (c := cos (PI * INR i / INR (Q - 1))). assert (Eg : lguess Q i = - c) by reflexivity. set (g := lguess Q i) in *.
  assert (Ek : forall k, iter k (lstep Q) c = - iter k (lstep Q) g). { intros k. rewrite <- iter_odd by apply lstep_odd. rewrite Eg. f_equal. ring. }
  assert (Hc : forall k, (k <= 100)%nat -> let y := iter k (lstep Q) c in y * y <> 1 /\ ld2 Q y <> 0 /\ L (Q - 1) y <> 0).
  { intros k Hk. cbv zeta. destruct (Hr k Hk) as (A & B & C). rewrite Ek, ld2_parity. split; [lra|]. destruct (L_parity (Q - 1) (iter k (lstep Q) g)) as (-> & _).
    split; apply Rmult_integral_contrapositive; split; auto; apply pow_nonzero; lra. }
  set (st := fun k => (iter (S k) (lstep Q) c, L (Q - 1) (iter k (lstep Q) c), ld Q (iter k (lstep Q) c))).
  rewrite (lobatto_step_ok Q c 0 0) by (auto; apply (Hc 0%nat); lia). cbn [rbind].
  change (lstep Q c, L (Q - 1) c, ld Q c) with (st 0%nat).
  destruct (iterate_ok _ st (fun st => above (snd st) eps) (lobatto_step Q) 100) as (k & Hk & E & Hs & Hl).
  { intros k Hk. unfold st. destruct (Hc (S k)) as (A & B & C); [lia|]. apply lobatto_step_ok; auto. }
  rewrite E. cbn [rbind]. unfold st at 1. cbv zeta. destruct (Hc k Hk) as (A & B & C). cbn [iter] in *. set (y := iter k (lstep Q) c) in *.
  assert (N2 : INR (Q * (Q - 1)) <> 0) by (apply not_0_INR; nia).
  rewrite rdiv_ok. 2:{ apply Rmult_integral_contrapositive. split; [apply Rmult_integral_contrapositive; split|]; auto. }
  cbn [rbind]. exists (- lstep Q y), (2 / (INR (Q * (Q - 1)) * L (Q - 1) y * L (Q - 1) y)). split; [rewrite Ropp_involutive; reflexivity|].
  assert (Ey : iter k (lstep Q) g = - y) by (unfold y; rewrite Ek; ring).
  assert (E1 : forall y, Rabs (ld Q (- y)) = Rabs (ld Q y)). { intros z. rewrite ld_parity, Rabs_mult, Rabs_Ropp, pow_1_abs. ring. }
  exists k. split; auto. cbv zeta. rewrite Ey. split; [rewrite lstep_odd; ring|]. split; [|split].
  - destruct (L_parity (Q - 1) y) as (-> & _). f_equal. assert (S1 : (-1) ^ (Q - 1) * (-1) ^ (Q - 1) = 1) by (rewrite <- Rpow_mult_distr; replace (-1 * -1) with 1 by ring; apply pow1).
    transitivity (INR (Q * (Q - 1)) * L (Q - 1) y * L (Q - 1) y * ((-1) ^ (Q - 1) * (-1) ^ (Q - 1))); [rewrite S1; ring|ring].
  - rewrite E1. destruct Hs as [Hs|Hs]; [left|right; auto]. apply above_false in Hs. exact Hs.
  - intros l Hl'. specialize (Hl l Hl'). apply above_true in Hl. unfold st in Hl. cbn [fst snd] in Hl. rewrite Ek, E1 in Hl. exact Hl.
Qed.
Lemma lresult_sym : forall eps Q i x w, (1 < Q)%nat -> (i < Q)%nat -> lresult eps Q (lguess Q i) x w -> lresult eps Q (lguess Q (Q - 1 - i)) (- x) w.
Proof.
  intros eps Q i x w HQ Hi (k & Hk & E1 & E2 & Hs & Hl). rewrite lguess_sym by auto. exists k. split; auto. cbv zeta in *. rewrite iter_odd by apply lstep_odd. rewrite lstep_odd.
  set (y := iter k (lstep Q) (lguess Q i)) in *.
  assert (A1 : forall y, Rabs (ld Q (- y)) = Rabs (ld Q y)). { intros z. rewrite ld_parity, Rabs_mult, Rabs_Ropp, pow_1_abs. ring. }
  split; [rewrite E1; auto|]. split; [|split].
  - rewrite E2. destruct (L_parity (Q - 1) y) as (-> & _). f_equal. assert (S1 : (-1) ^ (Q - 1) * (-1) ^ (Q - 1) = 1) by (rewrite <- Rpow_mult_distr; replace (-1 * -1) with 1 by ring; apply pow1).
    transitivity (INR (Q * (Q - 1)) * L (Q - 1) y * L (Q - 1) y * ((-1) ^ (Q - 1) * (-1) ^ (Q - 1))); [rewrite S1; ring|ring].
  - rewrite A1. auto.
  - intros l Hl'. rewrite iter_odd by apply lstep_odd. rewrite A1. apply Hl. auto.
Qed.
Lemma lresult_mid : forall eps Q i x w, (1 < Q)%nat -> (i < Q)%nat -> (Q - 1 - i = i)%nat -> lresult eps Q (lguess Q i) x w -> x = 0.
Proof.
  intros eps Q i x w HQ Hi Hm (k & _ & E & _). assert (G0 : lguess Q i = 0). { pose proof (lguess_sym Q i HQ Hi) as H. rewrite Hm in H. lra. }
  rewrite E, G0. pose proof (odd_0 (lstep Q) (lstep_odd Q)) as H. rewrite iter_fix0 by auto. auto.
Qed.

Definition wlen (w : option (list real)) (Q : nat) : Prop := match w with Some w => (Q <= length w)%nat | None => True end.
Definition wsame (w w' : option (list real)) : Prop := match w, w' with Some w, Some w' => length w' = length w | None, None => True | _, _ => False end.
(** entry of the weights, anything when the array is NULL *)
Definition wis (w : option (list real)) (i : nat) (x : real) : Prop := match w with Some w => ent w i = x | None => True end.
Lemma put_opt_ok : forall w Q i x, wlen w Q -> (i < Q)%nat -> exists w', put_opt w i x = Ok w' /\ wsame w w' /\ wlen w' Q /\ wis w' i x /\ forall k y, k <> i -> wis w k y -> wis w' k y.
Proof.
  intros [w|] Q i x Hw Hi; cbn in *.
  - rewrite put_ok by lia. cbn [rbind]. eexists. split; [reflexivity|]. cbn. rewrite upd_length. split; auto. split; auto. split; [rewrite ent_upd, Nat.eqb_refl by lia; auto|].
    intros k y Hk E. rewrite ent_upd by lia. destruct (Nat.eqb_spec k i); [lia|auto].
  - exists None. cbn. auto.
Qed.
Lemma wsame_trans : forall a b c, wsame a b -> wsame b c -> wsame a c.
Proof. intros [a|] [b|] [c|]; cbn; auto; try contradiction. congruence. Qed.

Definition lobatto_rule (eps : real) (Q : nat) (q : list real) (w : option (list real)) : Prop :=
  ent q 0 = -1 /\ ent q (Q - 1) = 1 /\ wis w 0 (2 / INR (Q * (Q - 1))) /\ wis w (Q - 1) (2 / INR (Q * (Q - 1))) /\
  forall i, (0 < i)%nat -> (i < Q - 1)%nat -> ent q (Q - 1 - i) = - ent q i /\ exists wi, lresult eps Q (lguess Q i) (ent q i) wi /\ wis w i wi /\ wis w (Q - 1 - i) wi.
Lemma lobatto_ok : forall eps Q q w, (2 <= Q)%nat -> (Q <= length q)%nat -> wlen w Q -> (forall i, (0 < i)%nat -> (i < Q - 1)%nat -> lregular Q (lguess Q i)) ->
  exists q' w', lobatto eps Q q w = Ok (q', w') /\ length q' = length q /\ wsame w w' /\ lobatto_rule eps Q q' w' /\
  (forall i, (Q <= i)%nat -> ent q' i = ent q i /\ forall x, wis w i x -> wis w' i x).
Proof.
  intros eps Q q w HQ Lq Lw Hr. unfold lobatto. destruct (Nat.ltb_spec 1 Q); [cbn [negb]|lia].
  assert (NQ : INR (Q * (Q - 1)) <> 0) by (apply not_0_INR; nia). rewrite rdiv_ok by auto. cbn [rbind].
  destruct (put_opt_ok w Q 0 (2 / INR (Q * (Q - 1))) Lw ltac:(lia)) as (w1 & -> & S1 & Lw1 & A1 & K1). cbn [rbind].
  destruct (put_opt_ok w1 Q (Q - 1) (2 / INR (Q * (Q - 1))) Lw1 ltac:(lia)) as (w2 & -> & S2 & Lw2 & A2 & K2). cbn [rbind].
  go.
  assert (HQ2 : ((Q - 1) / 2 * 2 <= Q - 1)%nat) by (pose proof (Nat.div_mod (Q - 1) 2 ltac:(lia)); lia).
  assert (HQ3 : (Q - 1 <= (Q - 1) / 2 * 2 + 1)%nat) by (pose proof (Nat.div_mod (Q - 1) 2 ltac:(lia)); pose proof (Nat.mod_upper_bound (Q - 1) 2 ltac:(lia)); lia).
  match goal with |- context [rfold (seq 1 ?n) ?F ?s] => destruct (@rfold_inv _ (fun i (st : list real * option (list real)) => length (fst st) = length q /\ wsame w (snd st) /\ wlen (snd st) Q /\
    ent (fst st) 0 = -1 /\ ent (fst st) (Q - 1) = 1 /\ wis (snd st) 0 (2 / INR (Q * (Q - 1))) /\ wis (snd st) (Q - 1) (2 / INR (Q * (Q - 1))) /\
    (forall l, (0 < l)%nat -> (l < Q - 1)%nat -> (l < i \/ Q - 1 - l < i)%nat -> ent (fst st) (Q - 1 - l) = - ent (fst st) l /\ exists wi, lresult eps Q (lguess Q l) (ent (fst st) l) wi /\ wis (snd st) l wi /\ wis (snd st) (Q - 1 - l) wi) /\
    (forall l, (Q <= l)%nat -> ent (fst st) l = ent q l /\ forall x, wis w l x -> wis (snd st) l x)) F n 1%nat s) as ([q' w'] & E & A & B & B' & C1 & C2 & C3 & C4 & C & D) end.
  - cbn [fst snd]. rewrite !upd_length. split; auto. split; [eapply wsame_trans; eauto|]. split; auto. e4. rewrite Nat.eqb_refl. destruct (Nat.eqb_spec 0 (Q - 1)); [lia|]. rewrite Nat.eqb_refl.
    split; auto. split; auto. split; [apply K2; auto; lia|]. split; auto. split; [intros; lia|].
    intros l Hl. e4. destruct (Nat.eqb_spec l (Q - 1)); [lia|]. destruct (Nat.eqb_spec l 0); [lia|]. split; [reflexivity|]. intros y Hy. apply K2; [lia|]. apply K1; [lia|]. exact Hy.
  - intros i [q1 w3] Hi (A & B & B' & C1 & C2 & C3 & C4 & C & D). cbn [fst snd] in *. assert (HiQ : (i < Q)%nat) by lia.
    destruct (lobatto_point_ok eps Q i ltac:(lia) HiQ (Hr i ltac:(lia) ltac:(lia))) as (x & wi & E & G). rewrite E. cbn [rbind].
    destruct (put_opt_ok w3 Q i wi B' ltac:(lia)) as (w4 & -> & S4 & Lw4 & A4 & K4). cbn [rbind].
    destruct (put_opt_ok w4 Q (Q - 1 - i) wi Lw4 ltac:(lia)) as (w5 & -> & S5 & Lw5 & A5 & K5). cbn [rbind].
    assert (A45 : wis w5 i wi). { destruct (Nat.eq_dec i (Q - 1 - i)) as [Ei|Ni]; [rewrite Ei; auto|apply K5; auto]. }
    go. eexists. split; [reflexivity|]. cbn [fst snd]. rewrite !upd_length. split; auto. split; [eapply wsame_trans; [exact B|eapply wsame_trans; eauto]|]. split; auto. rewrite !Ropp_involutive.
    split; [|split; [|split; [|split; [|split]]]].
    + e4. destruct (Nat.eqb_spec 0 (Q - 1 - i)); [lia|]. destruct (Nat.eqb_spec 0 i); [lia|]. auto.
    + e4. destruct (Nat.eqb_spec (Q - 1) (Q - 1 - i)); [lia|]. destruct (Nat.eqb_spec (Q - 1) i); [lia|]. auto.
    + apply K5; [lia|]. apply K4; auto. lia.
    + apply K5; [lia|]. apply K4; auto. lia.
    + intros l Hl0 Hl Hli. pose proof (lresult_sym eps Q i x wi ltac:(lia) HiQ G) as G'. pose proof (lresult_mid eps Q i x wi ltac:(lia) HiQ) as M.
      e4. destruct (Nat.eqb_spec l (Q - 1 - i)) as [El|Nl].
      * assert (Q - 1 - l = i)%nat as -> by lia. rewrite !Nat.eqb_refl. destruct (Nat.eqb_spec i (Q - 1 - i)) as [Ei|Ni]; subst l.
        { assert (x = 0) by (apply M; auto). subst x. split; [ring|]. exists wi. split; [exact G'|]. auto. }
        split; [ring|]. exists wi. split; [exact G'|]. auto.
      * destruct (Nat.eqb_spec l i) as [->|Nl'].
        { rewrite !Nat.eqb_refl. split; auto. exists wi. split; [exact G|]. auto. }
        destruct (Nat.eqb_spec (Q - 1 - l) (Q - 1 - i)); [lia|]. destruct (Nat.eqb_spec (Q - 1 - l) i); [lia|]. destruct (C l) as (C5 & wl & C6 & C7 & C8); auto; [lia|]. split; auto.
        exists wl. split; [exact C6|]. split; (apply K5; [lia|]; apply K4; [lia|assumption]).
    + intros l Hl. destruct (D l Hl) as (D1 & D2). e4. destruct (Nat.eqb_spec l (Q - 1 - i)); [lia|]. destruct (Nat.eqb_spec l i); [lia|]. split; [exact D1|]. intros y Hy. apply K5; [lia|]. apply K4; [lia|]. auto.
  - exists q', w'. cbn [fst snd] in *. split; [exact E|]. split; auto. split; auto. split; auto. split; auto. split; auto. split; auto. split; auto. intros i Hi0 Hi. apply C; auto. lia.
Qed.
