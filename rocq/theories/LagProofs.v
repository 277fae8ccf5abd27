(** * The Fornberg recurrence builds the Lagrange basis (for LagModel.v) *)
From Coq Require Import List ZArith Lia Bool Arith Reals Lra.
From Verif Require Import Prelude RstrModel OpModel OpLists PointsModel PointsProofs QrModel RealLin QrProofs QrFact QrCheb LagModel.
Import ListNotations.
Local Open Scope R_scope.

Definition dv (p : list real) (x : real) : real := @peval Rrng (@pderiv Rrng p) x.
Lemma dv_cons : forall a p x, dv (a :: p) x = ev p x + x * dv p x.
Proof. intros. unfold dv, ev. apply (@peval_pderiv_cons Rrng). Qed.
Lemma sd_dv : forall r p t, dv p t = ev (sd r p) t + (t - r) * dv (sd r p) t.
Proof.
  intros r p t. induction p as [|a p IH]; [unfold dv, ev; cbn; lra|]. destruct p as [|b p].
  - unfold dv, ev. cbn. lra.
  - rewrite sd_cons by discriminate. rewrite (dv_cons a), (ev_cons (ev (b :: p) r)), (dv_cons (ev (b :: p) r)), (sd_ev r (b :: p) t), IH. ring.
Qed.
Lemma ev_padd : forall p q x, ev (@padd Rrng p q) x = ev p x + ev q x.
Proof. intros. apply (@peval_padd Rrng). Qed.
Lemma ev_pscale : forall c p x, ev (@pscale Rrng c p) x = c * ev p x.
Proof. intros. apply (@peval_pscale Rrng). Qed.
Lemma dv_padd : forall p q x, dv (@padd Rrng p q) x = dv p x + dv q x.
Proof. intros. apply (@peval_pderiv_padd Rrng). Qed.
Lemma dv_pscale : forall c p x, dv (@pscale Rrng c p) x = c * dv p x.
Proof. intros. apply (@peval_pderiv_scale Rrng). Qed.

Section F.
Variable x : nat -> real.
Variable t : real.
(** (t - x 0) ... (t - x (j - 1)) *)
Fixpoint om (j : nat) : list real := match j with O => [1] | S j => @padd Rrng (0 :: om j) (@pscale Rrng (- x j) (om j)) end.
Lemma om_length : forall j, length (om j) = (j + 1)%nat.
Proof. induction j; auto. cbn [om]. rewrite (length_padd Rrng), (length_pscale Rrng). cbn [length]. change (car Rrng) with real. rewrite IHj. lia. Qed.
Lemma om_ev : forall j y, ev (om (S j)) y = (y - x j) * ev (om j) y.
Proof. intros. cbn [om]. rewrite ev_padd, ev_pscale, ev_cons. ring. Qed.
Lemma om_dv : forall j y, dv (om (S j)) y = ev (om j) y + (y - x j) * dv (om j) y.
Proof. intros. cbn [om]. rewrite dv_padd, dv_pscale, dv_cons. ring. Qed.
Lemma om_root : forall j k, (k < j)%nat -> ev (om j) (x k) = 0.
Proof. induction j; intros k H; [lia|]. rewrite om_ev. destruct (Nat.eq_dec k j) as [->|]; [ring|]. rewrite IHj by lia. ring. Qed.
Lemma om_nz : forall j y, (forall k, (k < j)%nat -> y <> x k) -> ev (om j) y <> 0.
Proof.
  induction j; intros y H. { unfold ev; cbn. lra. }
  rewrite om_ev. apply Rmult_integral_contrapositive. split; [|apply IHj; intros; apply H; lia]. specialize (H j ltac:(lia)). lra.
Qed.

Definition exact_on (j : nat) (b d : nat -> real) : Prop := forall p, (length p <= j + 1)%nat ->
  Sum (j + 1) (fun k => b k * ev p (x k)) = ev p t /\ Sum (j + 1) (fun k => d k * ev p (x k)) = dv p t.
Definition last_on (j : nat) (b d : nat -> real) (c : real) : Prop := c = ev (om j) (x j) /\ b j * c = ev (om j) t /\ d j * c = dv (om j) t.

Lemma forn_start : forall b d, b 0%nat = 1 -> d 0%nat = 0 -> exact_on 0 b d /\ last_on 0 b d 1.
Proof.
  intros b d Hb Hd. split.
  - intros p Hp. cbn [Nat.add Sum]. rewrite Hb, Hd. destruct p as [|a [|? ?]]; [unfold ev, dv; cbn; lra|unfold ev, dv; cbn; lra|cbn in Hp; lia].
  - split; [|split]; rewrite ?Hb, ?Hd; unfold ev, dv; cbn; ring.
Qed.
Lemma forn_algebra : forall j b d c1 b' d', (forall k, (k <= j)%nat -> x (S j) <> x k) -> (forall k, (k < j)%nat -> x j <> x k) -> exact_on j b d -> last_on j b d c1 ->
  let c2 := ev (om (S j)) (x (S j)) in let y := x (S j) in
  (forall k, (k <= j)%nat -> b' k = (y - t) * b k / (y - x k)) -> (forall k, (k <= j)%nat -> d' k = ((y - t) * d k - b k) / (y - x k)) ->
  b' (S j) = - c1 * (x j - t) * b j / c2 -> d' (S j) = c1 * (b j - (x j - t) * d j) / c2 ->
  exact_on (S j) b' d' /\ last_on (S j) b' d' c2.
Proof.
  intros j b d c1 b' d' Hy Hx He (Hc & Hlb & Hld) c2 y Hb Hd Hbl Hdl.
  assert (N2 : c2 <> 0). { apply om_nz. intros k Hk. apply Hy. lia. }
  assert (Ny : forall k, (k <= j)%nat -> y - x k <> 0). { intros k Hk. specialize (Hy k Hk). unfold y. lra. }
  assert (B2 : b' (S j) * c2 = ev (om (S j)) t). { rewrite Hbl, om_ev, <- Hlb. field. auto. }
  assert (D2 : d' (S j) * c2 = dv (om (S j)) t). { rewrite Hdl, om_dv, <- Hlb, <- Hld. field. auto. }
  split; [|split; auto].
  (* reproduces constants *)
  set (g := sd y (om (S j))).
  assert (Hg : (length g <= j + 1)%nat). { unfold g. rewrite sd_length, om_length. lia. }
  assert (Gk : forall k, (k <= j)%nat -> ev g (x k) = c2 / (y - x k)).
  { intros k Hk. pose proof (sd_ev y (om (S j)) (x k)) as E. fold g in E. rewrite om_root in E by lia. fold c2 in E. fold y in E. change (ev (om (S j)) y) with c2 in E.
    apply (Rmult_eq_reg_r (y - x k)); [|apply Ny; auto]. replace (c2 / (y - x k) * (y - x k)) with c2 by (field; apply Ny; auto). lra. }
  destruct (He g Hg) as (G1 & G2).
  assert (S1 : Sum (j + 1) (fun k => b k / (y - x k)) = ev g t / c2).
  { rewrite <- G1. unfold Rdiv at 2. rewrite <- Sum_mulr. apply Sum_ext. intros k Hk. rewrite Gk by lia. field. split; auto; apply Ny; lia. }
  assert (S2 : Sum (j + 1) (fun k => d k / (y - x k)) = dv g t / c2).
  { rewrite <- G2. unfold Rdiv at 2. rewrite <- Sum_mulr. apply Sum_ext. intros k Hk. rewrite Gk by lia. field. split; auto; apply Ny; lia. }
  pose proof (sd_ev y (om (S j)) t) as E1. fold g in E1. change (ev (om (S j)) y) with c2 in E1.
  pose proof (sd_dv y (om (S j)) t) as E2. fold g in E2.
  intros p Hp. set (q := sd y p).
  assert (Hq : (length q <= j + 1)%nat). { unfold q. rewrite sd_length. lia. }
  destruct (He q Hq) as (Q1 & Q2).
  pose proof (sd_ev y p t) as P1. pose proof (sd_dv y p t) as P2. fold q in P1, P2.
  assert (Pk : forall k, (k <= j)%nat -> ev p (x k) = ev p y - (y - x k) * ev q (x k)). { intros k Hk. rewrite (sd_ev y p (x k)). fold q. ring. }
  replace (S j + 1)%nat with (S (j + 1)) by lia. cbn [Sum]. replace (b' (j + 1)%nat) with (b' (S j)) by (f_equal; lia). replace (d' (j + 1)%nat) with (d' (S j)) by (f_equal; lia). replace (x (j + 1)%nat) with y by (unfold y; f_equal; lia). split.
  - rewrite (Sum_ext (j + 1) _ (fun k => (y - t) * ev p y * (b k / (y - x k)) - (y - t) * (b k * ev q (x k)))).
    2:{ intros k Hk. rewrite Hb, Pk by lia. field. apply Ny. lia. }
    rewrite Sum_sub, !Sum_mul, S1, Q1, P1. apply (Rmult_eq_reg_r c2); auto.
    transitivity (ev p y * ((y - t) * ev g t + b' (S j) * c2) - c2 * ((y - t) * ev q t)); [field; auto|]. rewrite B2, E1. ring.
  - rewrite (Sum_ext (j + 1) _ (fun k => ev p y * ((y - t) * (d k / (y - x k)) - b k / (y - x k)) - ((y - t) * (d k * ev q (x k)) - b k * ev q (x k)))).
    2:{ intros k Hk. rewrite Hd, Pk by lia. field. apply Ny. lia. }
    rewrite Sum_sub, Sum_mul, !Sum_sub, !Sum_mul, S1, S2, Q1, Q2, P2. apply (Rmult_eq_reg_r c2); auto.
    transitivity (ev p y * ((y - t) * dv g t - ev g t + d' (S j) * c2) - c2 * ((y - t) * dv q t - ev q t)); [field; auto|]. rewrite D2, E2. ring.
Qed.
End F.

(** ** The loops *)
Lemma rdiv_ok : forall a b, b <> 0 -> rdiv a b = Ok (a / b).
Proof. intros. unfold rdiv. destruct (Req_EM_T b 0); [contradiction|reflexivity]. Qed.

Ltac go := repeat (first [rewrite og_ent by (rewrite ?upd_length; lia) | rewrite rdiv_ok by auto | rewrite put_ok by (rewrite ?upd_length; lia)]; cbn [rbind]).

Section L.
Variables (P i : nat) (nodes : list real) (t : real).
Hypothesis HP : (P <= length nodes)%nat.
Hypothesis Hd : forall a b, (a < P)%nat -> (b < P)%nat -> a <> b -> ent nodes a <> ent nodes b.
Notation x := (ent nodes).

Lemma forn_in_ok : forall j B0 D0 c1 c3 c4, (0 < j)%nat -> (j < P)%nat -> (i * P + P <= length B0)%nat -> length D0 = length B0 ->
  exists B D, rfold (seq 0 j) (forn_in P i j nodes c1 c3 c4) (B0, D0, 1) = Ok (B, D, ev (om x j) (x j)) /\ length B = length B0 /\ length D = length B0 /\
  (forall k, (k < j)%nat -> ent B (i * P + k) = c3 * ent B0 (i * P + k) / (x j - x k) /\ ent D (i * P + k) = (c3 * ent D0 (i * P + k) - ent B0 (i * P + k)) / (x j - x k)) /\
  ent B (i * P + j) = - c1 * c4 * ent B0 (i * P + (j - 1)) / ev (om x j) (x j) /\
  ent D (i * P + j) = c1 * (ent B0 (i * P + (j - 1)) - c4 * ent D0 (i * P + (j - 1))) / ev (om x j) (x j) /\
  (forall q, (q < i * P \/ i * P + j < q)%nat -> ent B q = ent B0 q /\ ent D q = ent D0 q).
Proof.
  intros j B0 D0 c1 c3 c4 Hj HjP HB HD.
  destruct (@rfold_inv0 _ (fun k (st : list real * list real * real) => let '(B, D, c2) := st in c2 = ev (om x k) (x j) /\ length B = length B0 /\ length D = length B0 /\
    (forall l, (l < k)%nat -> ent B (i * P + l) = c3 * ent B0 (i * P + l) / (x j - x l) /\ ent D (i * P + l) = (c3 * ent D0 (i * P + l) - ent B0 (i * P + l)) / (x j - x l)) /\
    (k = j -> ent B (i * P + j) = - c1 * c4 * ent B0 (i * P + (j - 1)) / ev (om x j) (x j) /\
              ent D (i * P + j) = c1 * (ent B0 (i * P + (j - 1)) - c4 * ent D0 (i * P + (j - 1))) / ev (om x j) (x j)) /\
    (forall l, (k <= l)%nat -> (l < j)%nat -> ent B (i * P + l) = ent B0 (i * P + l) /\ ent D (i * P + l) = ent D0 (i * P + l)) /\
    (forall q, (q < i * P \/ i * P + j < q)%nat -> ent B q = ent B0 q /\ ent D q = ent D0 q))
    (forn_in P i j nodes c1 c3 c4) j (B0, D0, 1)) as ([[B D] c2] & E & H).
  - split; [unfold ev; cbn; ring|]. do 2 (split; auto). split; [intros; lia|]. split; [intros; lia|]. split; auto.
  - intros k [[B D] c2] Hk (Hc & LB & LD & Hdone & _ & Hold & Hout). unfold forn_in.
    rewrite !og_ent by lia. cbn [rbind].
    assert (Nx : x j - x k <> 0). { pose proof (Hd j k HjP ltac:(lia) ltac:(lia)). lra. }
    assert (Ec : c2 * (x j - x k) = ev (om x (S k)) (x j)) by (rewrite om_ev, Hc; ring).
    assert (N2 : ev (om x (S k)) (x j) <> 0). { apply om_nz. intros l Hl. apply Hd; lia. }
    rewrite Ec. destruct (Hold k) as (HBk & HDk); auto. destruct (Nat.eqb_spec k (j - 1)) as [Ek|Nk].
    + go.
      eexists. split; [reflexivity|]. replace (k + 1)%nat with (S k) by lia. split; auto. rewrite !upd_length. split; auto. split; auto.
      assert (S k = j) as Ej by lia. split; [|split; [|split]].
      * intros l Hl. rewrite !ent_upd by (rewrite ?upd_length; lia).
        destruct (Nat.eqb_spec (i * P + k) (i * P + j)); [lia|]. destruct (Nat.eqb_spec (i * P + l) (i * P + k)) as [El|Nl].
        { assert (l = k) by lia. subst l. rewrite HBk, HDk. split; reflexivity. }
        destruct (Nat.eqb_spec (i * P + l) (i * P + j)); [lia|]. apply Hdone. lia.
      * intros _. rewrite !ent_upd by (rewrite ?upd_length; lia). destruct (Nat.eqb_spec (i * P + j) (i * P + k)); [lia|]. rewrite Nat.eqb_refl. rewrite HBk, HDk, <- Ek, Ej. split; reflexivity.
      * intros l Hl1 Hl2. lia.
      * intros q Hq. rewrite !ent_upd by (rewrite ?upd_length; lia). destruct (Nat.eqb_spec q (i * P + k)); [lia|]. destruct (Nat.eqb_spec q (i * P + j)); [lia|]. apply Hout; auto.
    + cbn [rbind]. go.
      eexists. split; [reflexivity|]. replace (k + 1)%nat with (S k) by lia. split; auto. rewrite !upd_length. split; auto. split; auto.
      split; [|split; [|split]].
      * intros l Hl. rewrite !ent_upd by lia. destruct (Nat.eqb_spec (i * P + l) (i * P + k)) as [El|Nl]; [|apply Hdone; lia]. assert (l = k) by lia. subst l. rewrite HBk, HDk. split; reflexivity.
      * intros; lia.
      * intros l Hl1 Hl2. rewrite !ent_upd by lia. destruct (Nat.eqb_spec (i * P + l) (i * P + k)); [lia|]. apply Hold; lia.
      * intros q Hq. rewrite !ent_upd by lia. destruct (Nat.eqb_spec q (i * P + k)); [lia|]. apply Hout; auto.
  - destruct H as (Hc & LB & LD & Hdone & Hl & _ & Hout). exists B, D. rewrite <- Hc. split; [exact E|]. rewrite Hc. destruct (Hl eq_refl). auto 10.
Qed.

Lemma forn_row_ok : forall qref B0 D0, (0 < P)%nat -> (i < length qref)%nat -> ent qref i = t -> (i * P + P <= length B0)%nat -> length D0 = length B0 -> ent D0 (i * P + 0) = 0 ->
  exists B D, forn_row P nodes qref i (B0, D0) = Ok (B, D) /\ length B = length B0 /\ length D = length B0 /\
  exact_on x t (P - 1) (fun k => ent B (i * P + k)) (fun k => ent D (i * P + k)) /\
  (forall q, (q < i * P \/ i * P + P <= q)%nat -> ent B q = ent B0 q /\ ent D q = ent D0 q).
Proof.
  intros qref B0 D0 P0 Hi Ht HB HD Hz. unfold forn_row. rewrite !og_ent by lia. cbn [rbind fst snd]. rewrite put_ok by lia. cbn [rbind].
  match goal with |- context [rfold (seq 1 (P - 1)) ?F ?s] => destruct (@rfold_inv _ (fun j (st : list real * list real * real * real) => let '(B, D, c1, c3) := st in length B = length B0 /\ length D = length B0 /\
     c3 = x (j - 1) - t /\ exact_on x t (j - 1) (fun k => ent B (i * P + k)) (fun k => ent D (i * P + k)) /\ last_on x t (j - 1) (fun k => ent B (i * P + k)) (fun k => ent D (i * P + k)) c1 /\
     (forall q, (q < i * P \/ i * P + P <= q)%nat -> ent B q = ent B0 q /\ ent D q = ent D0 q))
    F (P - 1)%nat 1%nat s) as ([[[B D] c1] c3] & E & H) end.
  - rewrite upd_length. split; auto. split; auto. split; [rewrite Ht; reflexivity|].
    assert (E0 : ent (upd B0 (i * P + 0) 1) (i * P + 0) = 1) by (rewrite ent_upd, Nat.eqb_refl by lia; auto).
    destruct (forn_start x t (fun k => ent (upd B0 (i * P + 0) 1) (i * P + k)) (fun k => ent D0 (i * P + k)) E0 Hz) as (H1 & H2). split; [exact H1|]. split; [exact H2|].
    intros q Hq. rewrite ent_upd by lia. destruct (Nat.eqb_spec q (i * P + 0)); [lia|auto].
  - intros j [[[B D] c1] c3] Hj (LB & LD & Hc3 & He & Hl & Hout). rewrite !og_ent by lia. cbn [rbind]. rewrite Ht.
    destruct (forn_in_ok j B D c1 (x j - t) c3) as (B' & D' & E & LB' & LD' & Hk & HBj & HDj & Hout'); try lia.
    rewrite E. cbn [rbind]. eexists. split; [reflexivity|]. split; [lia|]. split; [lia|]. replace (j + 1 - 1)%nat with j by lia. split; auto.
    destruct j as [|j]; [lia|]. replace (S j - 1)%nat with j in * by lia.
    destruct (forn_algebra x t j (fun k => ent B (i * P + k)) (fun k => ent D (i * P + k)) c1 (fun k => ent B' (i * P + k)) (fun k => ent D' (i * P + k))) as (H1 & H2); auto.
    + intros k Hk'. apply Hd; lia.
    + intros k Hk'. apply Hd; lia.
    + intros k Hk'. apply Hk. lia.
    + intros k Hk'. apply Hk. lia.
    + cbv beta. rewrite HBj, Hc3. reflexivity.
    + cbv beta. rewrite HDj, Hc3. reflexivity.
    + split; [exact H1|]. split; [exact H2|]. intros q Hq. destruct (Hout' q) as (-> & ->); [lia|]. apply Hout. auto.
  - rewrite E. cbn [rbind]. destruct H as (LB & LD & _ & He & _ & Hout). exists B, D. split; auto. split; auto. split; auto. replace (1 + (P - 1) - 1)%nat with (P - 1)%nat in He by lia. split; auto.
Qed.
End L.

Lemma forn_ok : forall P Q nodes qref, (0 < P)%nat -> (P <= length nodes)%nat -> (Q <= length qref)%nat ->
  (forall a b, (a < P)%nat -> (b < P)%nat -> a <> b -> ent nodes a <> ent nodes b) ->
  exists B D, rfold (seq 0 Q) (forn_row P nodes qref) (repeat 0 (P * Q), repeat 0 (P * Q)) = Ok (B, D) /\ length B = (P * Q)%nat /\ length D = (P * Q)%nat /\
  forall i, (i < Q)%nat -> exact_on (ent nodes) (ent qref i) (P - 1) (fun k => ent B (i * P + k)) (fun k => ent D (i * P + k)).
Proof.
  intros P Q nodes qref P0 HP HQ Hd.
  destruct (@rfold_inv0 _ (fun i (st : list real * list real) => length (fst st) = (P * Q)%nat /\ length (snd st) = (P * Q)%nat /\
      (forall l, (l < i)%nat -> exact_on (ent nodes) (ent qref l) (P - 1) (fun k => ent (fst st) (l * P + k)) (fun k => ent (snd st) (l * P + k))) /\
      (forall q, (i * P <= q)%nat -> ent (snd st) q = 0)) (forn_row P nodes qref) Q (repeat 0 (P * Q), repeat 0 (P * Q))) as ([B D] & E & LB & LD & H & _).
  - cbn [fst snd]. rewrite !repeat_length. split; auto. split; auto. split; [intros; lia|]. intros q Hq. unfold ent. destruct (Nat.lt_ge_cases q (P * Q)); [apply nth_repeat|apply nth_overflow; rewrite repeat_length; lia].
  - intros i [B D] Hi (LB & LD & H & Hz). cbn [fst snd] in *.
    destruct (forn_row_ok P i nodes (ent qref i) HP Hd qref B D) as (B' & D' & E & LB' & LD' & He & Ho); auto; try lia; try nia; [apply Hz; lia|].
    exists (B', D'). split; [exact E|]. cbn [fst snd]. split; [lia|]. split; [lia|]. split.
    + intros l Hl. destruct (Nat.eq_dec l i) as [->|]; [exact He|]. intros p Hp. destruct (H l ltac:(lia) p Hp) as (H1 & H2). rewrite <- H1, <- H2.
      assert (l * P + P <= i * P)%nat by nia. split; apply Sum_ext; intros k Hk; destruct (Ho (l * P + k)%nat) as (E1 & E2); try lia; rewrite ?E1, ?E2; auto.
    + intros q Hq. destruct (Ho q) as (_ & ->); [nia|]. apply Hz. nia.
  - exists B, D. auto.
Qed.
