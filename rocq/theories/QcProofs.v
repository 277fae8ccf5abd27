(** * Invariant of context access through QFunctions *)
From Coq Require Import List ZArith Lia Bool Arith.
From Verif Require Import Prelude RstrModel QcModel.
Import ListNotations.
Local Open Scope Z_scope.

Fixpoint sumq (f : qf -> Z) (l : list qf) : Z := match l with [] => 0 | x :: l => f x + sumq f l end.
Lemma sumq_app f l l' : sumq f (l ++ l') = sumq f l + sumq f l'.
Proof. induction l; cbn [sumq app]; lia. Qed.
Lemma sumq_upd f : forall l n x y, nth_error l n = Some x -> sumq f (upd l n y) = sumq f l - f x + f y.
Proof. induction l as [|a l IH]; intros [|n] x y E; try discriminate; cbn [nth_error] in E; cbn [upd sumq]; [injection E as ->; lia|]. rewrite (IH _ _ _ E). lia. Qed.
Lemma sumq_nonneg f l : (forall x, In x l -> 0 <= f x) -> 0 <= sumq f l.
Proof. induction l as [|a l IH]; intros H; cbn [sumq]; [lia|]. pose proof (H a (or_introl eq_refl)). specialize (IH (fun x I => H x (or_intror I))). lia. Qed.
Lemma sumq_ge f : forall l n x, (forall y, In y l -> 0 <= f y) -> nth_error l n = Some x -> f x <= sumq f l.
Proof.
  induction l as [|a l IH]; intros [|n] x H E; try discriminate; cbn [nth_error] in E; cbn [sumq].
  - injection E as ->. pose proof (sumq_nonneg f l (fun x I => H x (or_intror I))). lia.
  - specialize (IH n x (fun x I => H x (or_intror I)) E). pose proof (H a (or_introl eq_refl)). lia.
Qed.
Lemma sumq_dom f g l : (forall x, In x l -> 0 <= f x) -> (forall x, f x = 0 -> g x = 0) -> sumq f l = 0 -> sumq g l = 0.
Proof.
  induction l as [|a l IH]; intros H D E; cbn [sumq] in *; [reflexivity|]. pose proof (H a (or_introl eq_refl)). pose proof (sumq_nonneg f l (fun x I => H x (or_intror I))).
  rewrite (D a) by lia. rewrite IH; [lia|intros x I; apply H; right; exact I|exact D|lia].
Qed.

Definition uses (c : nat) (x : qf) : bool := q_live x && match q_ctx x with Some d => Nat.eqb d c | None => false end.
Definition f1 (c : nat) (x : qf) : Z := if uses c x then 1 else 0.
Definition fw (c : nat) (x : qf) : Z := if uses c x && q_wr x then q_held x else 0.
Definition fr (c : nat) (x : qf) : Z := if uses c x && negb (q_wr x) then q_held x else 0.
Lemma f1_nonneg c x : 0 <= f1 c x. Proof. unfold f1. destruct (uses c x); lia. Qed.
Lemma f1_dom c x : f1 c x = 0 -> fw c x = 0 /\ fr c x = 0. Proof. unfold f1, fw, fr. destruct (uses c x); [lia|auto]. Qed.

Definition good (k : cx) (n w r : Z) : Prop :=
  0 <= k_user k /\ 0 <= k_leak k /\
  (k_live k = true -> k_refs k = k_user k + n + k_leak k /\ 0 < k_refs k /\ w + k_dw k = (if k_lock k then 1 else 0) /\ r + k_dr k = k_rd k /\ (k_lock k = true -> k_rd k = 0) /\
     0 <= k_dw k /\ 0 <= k_dr k /\ (k_user k = 0 -> k_dw k = 0 /\ k_dr k = 0)) /\
  (k_live k = false -> k_user k = 0 /\ k_leak k = 0 /\ n = 0).
Record inv (s : st) : Prop := {
  i_c : forall c k, nth_error (cs s) c = Some k -> good k (sumq (f1 c) (qs s)) (sumq (fw c) (qs s)) (sumq (fr c) (qs s));
  i_q : forall q x, nth_error (qs s) q = Some x -> 0 <= q_held x /\ (q_live x = true -> forall c, q_ctx x = Some c -> (c < length (cs s))%nat) }.

(** What the client keeps to *)
Definition ruled (s : st) (o : op) : Prop :=
  match o with
  | CNew _ | QNew => True
  | CDestroy c => exists k, nth_error (cs s) c = Some k /\ 0 < k_user k /\ (k_user k = 1 -> k_dw k = 0 /\ k_dr k = 0)
  | CGet w c => exists k, nth_error (cs s) c = Some k /\ 0 < k_user k
  | CRestore w c => exists k, nth_error (cs s) c = Some k /\ 0 < k_user k /\ 0 < (if w then k_dw k else k_dr k)
  | QSet q c => (exists x, nth_error (qs s) q = Some x /\ q_live x = true /\ q_held x = 0) /\ (forall d, c = Some d -> exists k, nth_error (cs s) d = Some k /\ 0 < k_user k)
  | QWr q _ | QDestroy q => exists x, nth_error (qs s) q = Some x /\ q_live x = true /\ q_held x = 0
  | QGet _ q => exists x, nth_error (qs s) q = Some x /\ q_live x = true
  | QRestore _ q => exists x, nth_error (qs s) q = Some x /\ q_live x = true /\ 0 < q_held x
  end.

Lemma nth_upd_cases A (l : list A) n y m z : nth_error (upd l n y) m = Some z -> (m = n /\ z = y /\ (n < length l)%nat) \/ (m <> n /\ nth_error l m = Some z).
Proof. revert n m. induction l as [|a l IH]; intros [|n] [|m] E; cbn [upd nth_error] in E; try discriminate; [injection E as ->; left; cbn; repeat split; lia|right; split; [lia|exact E]|right; split; [lia|exact E]|]. destruct (IH _ _ E) as [(-> & -> & L)|(N & H)]; [left; cbn; repeat split; lia|right; split; [lia|exact H]]. Qed.
Lemma uses_self c w h : uses c (QF true (Some c) w h) = true. Proof. unfold uses. cbn. apply Nat.eqb_refl. Qed.
Lemma uses_ne c d w h : c <> d -> uses c (QF true (Some d) w h) = false. Proof. intros N. unfold uses. cbn. destruct (Nat.eqb_spec d c); [congruence|reflexivity]. Qed.

Section Inv.
Variable s : st.
Hypothesis I : inv s.
Lemma held_nonneg x : In x (qs s) -> 0 <= q_held x.
Proof. intros H. apply In_nth_error in H. destruct H as (q & H). apply (i_q s I q x H). Qed.
Lemma fw_nonneg c x : In x (qs s) -> 0 <= fw c x. Proof. intros H. apply held_nonneg in H. unfold fw. destruct (_ && _); lia. Qed.
Lemma fr_nonneg c x : In x (qs s) -> 0 <= fr c x. Proof. intros H. apply held_nonneg in H. unfold fr. destruct (_ && _); lia. Qed.
Lemma unused c : sumq (f1 c) (qs s) = 0 -> sumq (fw c) (qs s) = 0 /\ sumq (fr c) (qs s) = 0.
Proof. intros H. split; (apply (sumq_dom (f1 c)); [intros; apply f1_nonneg|intros x Z; apply (f1_dom c x Z)|exact H]). Qed.
Lemma users_nonneg c : 0 <= sumq (f1 c) (qs s). Proof. apply sumq_nonneg. intros. apply f1_nonneg. Qed.
(** the context of a live QFunction *)
Lemma ctx_live q x c : nth_error (qs s) q = Some x -> q_live x = true -> q_ctx x = Some c ->
  exists k, nth_error (cs s) c = Some k /\ k_live k = true /\ 1 <= sumq (f1 c) (qs s) /\ fw c x <= sumq (fw c) (qs s) /\ fr c x <= sumq (fr c) (qs s) /\ good k (sumq (f1 c) (qs s)) (sumq (fw c) (qs s)) (sumq (fr c) (qs s)).
Proof.
  intros E L C. pose proof (proj2 (i_q s I q x E) L c C) as Lt. destruct (nth_error (cs s) c) as [k|] eqn:K; [|apply nth_error_None in K; lia]. exists k. pose proof (i_c s I c k K) as G.
  assert (S1 : 1 <= sumq (f1 c) (qs s)). { pose proof (sumq_ge (f1 c) _ _ _ (fun y _ => f1_nonneg c y) E) as H. unfold f1 at 1, uses in H. rewrite L, C, Nat.eqb_refl in H. exact H. }
  split; [reflexivity|]. split; [|split; [exact S1|split; [apply (sumq_ge _ _ _ _ (fw_nonneg c) E)|split; [apply (sumq_ge _ _ _ _ (fr_nonneg c) E)|exact G]]]].
  destruct (k_live k) eqn:V; [reflexivity|]. destruct G as (_ & _ & _ & G). destruct (G V) as (_ & _ & Z). lia.
Qed.
End Inv.

Lemma put_inv s q x y : inv s -> nth_error (qs s) q = Some x -> forall cl, length cl = length (cs s) ->
  0 <= q_held y -> (q_live y = true -> forall c, q_ctx y = Some c -> (c < length (cs s))%nat) ->
  (forall c k, nth_error cl c = Some k -> good k (sumq (f1 c) (qs s) - f1 c x + f1 c y) (sumq (fw c) (qs s) - fw c x + fw c y) (sumq (fr c) (qs s) - fr c x + fr c y)) ->
  inv (ST cl (upd (qs s) q y)).
Proof.
  intros I E cl LC H L G. split; cbn [cs qs].
  - intros c k K. rewrite !(sumq_upd _ _ _ _ _ E). apply G. exact K.
  - intros q' x' E'. rewrite LC. destruct (nth_upd_cases _ _ _ _ _ _ E') as [(-> & -> & _)|(_ & E2)]; [auto|apply (i_q s I q' x' E2)].
Qed.
Lemma upd_same_length A (l : list A) n x : length (upd l n x) = length l. Proof. apply upd_length. Qed.
Lemma upd_at A (l : list A) n x y : nth_error l n = Some x -> nth_error (upd l n y) n = Some y.
Proof. revert n. induction l as [|a l IH]; intros [|n] E; cbn in E |- *; try discriminate; [reflexivity|apply IH; exact E]. Qed.
Lemma upd_ne A (l : list A) n m y : m <> n -> nth_error (upd l n y) m = nth_error l m.
Proof. revert n m. induction l as [|a l IH]; intros [|n] [|m] N; cbn; try reflexivity; [congruence|apply IH; congruence]. Qed.
Lemma upd_upd A (l : list A) n x y : upd (upd l n x) n y = upd l n y.
Proof. revert n. induction l as [|a l IH]; intros [|n]; cbn [upd]; [reflexivity|reflexivity|reflexivity|]. rewrite IH. reflexivity. Qed.
Lemma zeros c y : q_live y = false \/ q_ctx y = None -> f1 c y = 0 /\ fw c y = 0 /\ fr c y = 0.
Proof. intros H. assert (U : uses c y = false). { unfold uses. destruct H as [-> | ->]; [reflexivity|apply andb_false_r]. } unfold f1, fw, fr. rewrite U. auto. Qed.
Lemma idle c x : q_held x = 0 -> fw c x = 0 /\ fr c x = 0.
Proof. intros H. unfold fw, fr. rewrite H. split; destruct (_ && _); reflexivity. Qed.
Lemma f1_at c d x : q_live x = true -> q_ctx x = Some d -> f1 c x = if Nat.eqb d c then 1 else 0.
Proof. intros L C. unfold f1, uses. rewrite L, C. reflexivity. Qed.

Lemma detach s q x y : inv s -> nth_error (qs s) q = Some x -> q_live x = true -> q_held x = 0 -> q_live y = false \/ q_ctx y = None -> q_held y = 0 ->
  exists cl, onp s (q_ctx x) c_destroy = Some (0, ST cl (qs s)) /\ length cl = length (cs s) /\ inv (ST cl (upd (qs s) q y)) /\
    forall d k, nth_error (cs s) d = Some k -> 0 < k_user k -> exists k', nth_error cl d = Some k' /\ k_user k' = k_user k.
Proof.
  intros I E L H Y HY.
  assert (LY : q_live y = true -> forall c, q_ctx y = Some c -> (c < length (cs s))%nat) by (intros A c B; destruct Y; congruence).
  destruct (q_ctx x) as [c|] eqn:C.
  - destruct (ctx_live s I q x c E L C) as (k & K & V & S1 & _ & _ & G). pose proof G as (G1 & G2 & G3 & _). destruct (G3 V) as (R1 & R2 & R3 & R4 & R5 & R6 & R7 & R8).
    cbn [onp]. unfold onc. rewrite K, V. set (kd := snd (c_destroy k)).
    assert (D : c_destroy k = (0, kd) /\ good kd (sumq (f1 c) (qs s) - 1) (sumq (fw c) (qs s)) (sumq (fr c) (qs s)) /\ k_user kd = k_user k).
    { unfold kd, c_destroy. cbv zeta. cbn [refs k_refs k_lock]. destruct (Z.ltb_spec 0 (k_refs k - 1)).
      - split; [reflexivity|]. split; [|reflexivity]. unfold good. cbn [snd refs k_user k_leak k_live k_refs k_lock k_rd k_dw k_dr]. rewrite V. split; [lia|]. split; [lia|]. split; [intros _; repeat split; try assumption; lia|discriminate].
      - assert (Z : k_user k = 0 /\ k_leak k = 0 /\ sumq (f1 c) (qs s) = 1) by lia. destruct Z as (Z1 & Z2 & Z3).
        assert (W : sumq (fw c) (upd (qs s) q y) = 0). { apply (sumq_dom (f1 c)); [intros; apply f1_nonneg|intros z Zz; apply (f1_dom c z Zz)|]. rewrite (sumq_upd _ _ _ _ _ E), (f1_at c c x L C), Nat.eqb_refl, (proj1 (zeros c y Y)). lia. }
        rewrite (sumq_upd _ _ _ _ _ E), (proj1 (idle c x H)), (proj1 (proj2 (zeros c y Y))) in W. destruct (k_lock k); [lia|].
        split; [reflexivity|]. split; [|reflexivity]. unfold good. cbn [snd refs dead k_user k_leak k_live k_refs k_lock k_rd k_dw k_dr]. split; [lia|]. split; [lia|]. split; [discriminate|]. intros _. lia. }
    destruct D as (D1 & D2 & D3). rewrite D1. exists (upd (cs s) c kd). split; [reflexivity|]. split; [apply upd_length|]. split.
    + apply (put_inv s q x y I E); [apply upd_length|lia|exact LY|]. intros d k' K'. destruct (zeros d y Y) as (-> & -> & ->). destruct (idle d x H) as (-> & ->). rewrite (f1_at d c x L C). rewrite !Z.sub_0_r, !Z.add_0_r.
      destruct (nth_upd_cases _ _ _ _ _ _ K') as [(-> & -> & _)|(N & K2)]; [rewrite Nat.eqb_refl; exact D2|]. destruct (Nat.eqb_spec c d); [congruence|]. rewrite Z.sub_0_r. apply (i_c s I d k' K2).
    + intros d k' K' U. destruct (Nat.eq_dec d c) as [->|N].
      * rewrite K in K'. injection K' as <-. exists kd. split; [|exact D3]. exact (upd_at _ _ _ _ kd K).
      * exists k'. split; [|reflexivity]. rewrite upd_ne by assumption. exact K'.
  - exists (cs s). split; [destruct s; reflexivity|]. split; [reflexivity|]. split; [|intros d k K U; eauto].
    apply (put_inv s q x y I E); [reflexivity|lia|exact LY|]. intros d k K. destruct (zeros d y Y) as (-> & -> & ->). destruct (zeros d x (or_intror C)) as (-> & -> & ->). rewrite !Z.sub_0_r, !Z.add_0_r. apply (i_c s I d k K).
Qed.

(** one access through a QFunction on its context *)
Lemma access_ok s q x c inner acc d (okk : Z -> Prop) : inv s -> nth_error (qs s) q = Some x -> q_live x = true -> q_ctx x = Some c -> 0 <= q_held x + d ->
  (forall k n w r, good k n w r -> k_live k = true -> 1 <= n -> fw c x <= w -> fr c x <= r ->
     exists e k', (if inner : bool then through_inner acc else through acc) k = (e, k') /\ okk e /\
       (e = 0 -> good k' n (w + if q_wr x then d else 0) (r + if q_wr x then 0 else d)) /\ (e <> 0 -> good k' n w r)) ->
  exists e s', access s q inner acc d = Some (e, s') /\ inv s' /\ okk e.
Proof.
  intros I E L C D A. destruct (ctx_live s I q x c E L C) as (k & K & V & S1 & W1 & W2 & G). destruct (A k _ _ _ G V S1 W1 W2) as (e & k' & T & O & G0 & G1).
  unfold access. rewrite E, L, C. cbn [onp]. unfold onc. rewrite K, V, T. exists e. eexists. split; [reflexivity|]. split; [|exact O]. destruct (Z.eqb_spec e 0) as [Z|Z].
  - unfold setq. cbn [cs qs]. apply (put_inv s q x _ I E); [apply upd_length|cbn; lia|cbn [q_live q_ctx]; intros _ c' Hc; injection Hc as <-; apply (proj2 (i_q s I q x E) L c C)|].
    intros c' kk KK. set (y := QF true (Some c) (q_wr x) (q_held x + d)). assert (U : uses c' y = uses c' x) by (unfold uses, y; cbn [q_live q_ctx]; rewrite L, C; reflexivity).
    assert (Q1 : sumq (f1 c') (qs s) - f1 c' x + f1 c' y = sumq (f1 c') (qs s)) by (unfold f1; rewrite U; lia). rewrite Q1. unfold fw at 2 3, fr at 2 3. rewrite U. unfold y at 1 2 3 4. cbn [q_wr q_held].
    destruct (nth_upd_cases _ _ _ _ _ _ KK) as [(-> & -> & _)|(N & K2)].
    + assert (U2 : uses c x = true) by (unfold uses; rewrite L, C; apply Nat.eqb_refl). rewrite U2. cbn [andb]. specialize (G0 Z). clear - G0. destruct (q_wr x); cbn [negb].
      * replace (sumq (fw c) (qs s) - q_held x + (q_held x + d)) with (sumq (fw c) (qs s) + d) by lia. replace (sumq (fr c) (qs s) - 0 + 0) with (sumq (fr c) (qs s) + 0) by lia. exact G0.
      * replace (sumq (fr c) (qs s) - q_held x + (q_held x + d)) with (sumq (fr c) (qs s) + d) by lia. replace (sumq (fw c) (qs s) - 0 + 0) with (sumq (fw c) (qs s) + 0) by lia. exact G0.
    + assert (U2 : uses c' x = false). { unfold uses. rewrite L, C. destruct (Nat.eqb_spec c c'); [congruence|reflexivity]. } rewrite U2. cbn [andb]. rewrite !Z.sub_0_r, !Z.add_0_r. apply (i_c s I c' kk K2).
  - split; cbn [cs qs].
    + intros c' kk KK. destruct (nth_upd_cases _ _ _ _ _ _ KK) as [(-> & -> & _)|(N & K2)]; [exact (G1 Z)|apply (i_c s I c' kk K2)].
    + intros q' x' E'. rewrite upd_length. apply (i_q s I q' x' E').
Qed.
Lemma get_ok x (inner : bool) k n w r : good k n w r -> k_live k = true -> 1 <= n -> 0 <= w -> 0 <= r ->
  exists e k', (if inner then through_inner (c_get (q_wr x)) else through (c_get (q_wr x))) k = (e, k') /\ True /\
   (e = 0 -> good k' n (w + if q_wr x then 1 else 0) (r + if q_wr x then 0 else 1)) /\ (e <> 0 -> good k' n w r).
Proof.
  intros (G1 & G2 & G3 & _) V N _ R0. destruct (G3 V) as (R1 & R2 & R3 & R4 & R5 & R6 & R7 & R8). clear G3. eexists _, _. split; [apply surjective_pairing|]. split; [exact I|].
  destruct k as [lv rf lk rd vd us lkd dw dr]. cbn [k_live k_refs k_lock k_rd k_user k_leak k_dw k_dr] in *. subst lv.
  destruct inner; unfold through_inner, through, c_destroy, c_get, c_reference, refs; cbn [k_live k_refs k_lock k_rd k_valid k_user k_leak]; cbv zeta; cbn [k_live k_refs k_lock k_rd k_valid k_user k_leak];
  replace (rf + 1 - 1) with rf by lia; (destruct (Z.ltb_spec 0 rf); [|lia]); cbn [Z.eqb]; destruct lk; cbn [k_refs k_lock k_rd k_valid]; destruct (q_wr x); cbn [andb negb]; try (destruct (Z.eqb_spec rd 0)); cbn [negb]; try destruct vd; cbn;
    replace (rf + 1 - 1) with rf by lia; (destruct (Z.ltb_spec 0 rf); [|lia]); cbn [fst snd]; (split; intros Z; try discriminate Z; try (elim Z; reflexivity));
    unfold good; cbn; (split; [lia|]; split; [lia|]; split; [intros _; repeat split; intros; try discriminate; lia|discriminate]).
Qed.
Lemma restore_ok x (inner : bool) k n w r : good k n w r -> k_live k = true -> 1 <= n -> 0 < q_held x -> (q_wr x = true -> 1 <= w) -> (q_wr x = false -> 1 <= r) ->
  exists e k', (if inner then through_inner (c_restore (q_wr x)) else through (c_restore (q_wr x))) k = (e, k') /\ e = 0 /\
   (e = 0 -> good k' n (w + if q_wr x then -1 else 0) (r + if q_wr x then 0 else -1)) /\ (e <> 0 -> good k' n w r).
Proof.
  intros (G1 & G2 & G3 & _) V N H HW HR. destruct (G3 V) as (R1 & R2 & R3 & R4 & R5 & R6 & R7 & R8). clear G3. eexists _, _. split; [apply surjective_pairing|].
  destruct k as [lv rf lk rd vd us lkd dw dr]. cbn [k_live k_refs k_lock k_rd k_user k_leak k_dw k_dr] in *. subst lv.
  destruct inner; unfold through_inner, through, c_destroy, c_restore, c_reference, refs; cbn [k_live k_refs k_lock k_rd k_valid k_user k_leak]; cbv zeta; cbn [k_live k_refs k_lock k_rd k_valid k_user k_leak];
  replace (rf + 1 - 1) with rf by lia; (destruct (Z.ltb_spec 0 rf); [|lia]); cbn [Z.eqb]; destruct (q_wr x); cbn [k_refs k_lock k_rd k_valid];
    [specialize (HW eq_refl); destruct lk; [|lia]|specialize (HR eq_refl); destruct (Z.ltb_spec 0 rd); [|lia]|specialize (HW eq_refl); destruct lk; [|lia]|specialize (HR eq_refl); destruct (Z.ltb_spec 0 rd); [|lia]];
    cbn; replace (rf + 1 - 1) with rf by lia; try (destruct (Z.ltb_spec 0 rf); [|lia]); cbn [fst snd]; (split; [reflexivity|]); (split; intros Z; try (elim Z; reflexivity));
    unfold good; cbn; (split; [lia|]; split; [lia|]; split; [intros _; destruct lk + idtac; repeat split; intros; try discriminate; try lia|discriminate]).
Qed.

Lemma onc_inv s c k f : inv s -> nth_error (cs s) c = Some k -> 0 < k_user k ->
  (forall n w r, good k n w r -> k_live k = true -> 0 <= w -> 0 <= r -> good (snd (f k)) n w r) -> exists s', onc s c f = Some (fst (f k), s') /\ inv s'.
Proof.
  intros I K U F. pose proof (i_c s I c k K) as G. pose proof G as (_ & _ & _ & G4). unfold onc. rewrite K. destruct (k_live k) eqn:V; [|destruct (G4 eq_refl); lia].
  specialize (F _ _ _ G eq_refl (sumq_nonneg _ _ (fw_nonneg s I c)) (sumq_nonneg _ _ (fr_nonneg s I c))). destruct (f k) as (e, k'). cbn [fst snd] in *. eexists. split; [reflexivity|]. split; cbn [cs qs].
  - intros c' kk KK. destruct (nth_upd_cases _ _ _ _ _ _ KK) as [(-> & -> & _)|(N & K2)]; [exact F|apply (i_c s I c' kk K2)].
  - intros q' x' E'. rewrite upd_length. apply (i_q s I q' x' E').
Qed.
Lemma direct_get (w0 : bool) k n w r : 0 < k_user k -> good k n w r -> k_live k = true -> 0 <= w -> 0 <= r -> good (snd (let (e, k1) := c_get w0 k in (e, if e =? 0 then direct w0 k1 1 else k1))) n w r.
Proof.
  intros U G V W R. pose proof G as (G1 & G2 & G3 & _). destruct (G3 V) as (R1 & R2 & R3 & R4 & R5 & R6 & R7 & R8). unfold c_get. destruct (k_lock k) eqn:LK; [exact G|]. destruct (w0 && negb (k_rd k =? 0)) eqn:A; [exact G|]. destruct (negb (k_valid k)); [exact G|].
  cbn [Z.eqb snd]. unfold good, direct, lockd, readers. destruct w0; cbn [k_live k_refs k_lock k_rd k_valid k_user k_leak k_dw k_dr]; rewrite V.
  - cbn [andb] in A. apply negb_false_iff, Z.eqb_eq in A. split; [lia|]. split; [lia|]. split; [intros _; repeat split; intros; lia|discriminate].
  - rewrite LK. split; [lia|]. split; [lia|]. split; [intros _; repeat split; intros; try discriminate; lia|discriminate].
Qed.
Lemma direct_restore (w0 : bool) k n w r : 0 < k_user k -> 0 < (if w0 then k_dw k else k_dr k) -> good k n w r -> k_live k = true -> 0 <= w -> 0 <= r ->
  fst (c_restore w0 k) = 0 /\ good (snd (let (e, k1) := c_restore w0 k in (e, if e =? 0 then direct w0 k1 (-1) else k1))) n w r.
Proof.
  intros U D G V W R. pose proof G as (G1 & G2 & G3 & _). destruct (G3 V) as (R1 & R2 & R3 & R4 & R5 & R6 & R7 & R8). unfold c_restore. destruct w0.
  - destruct (k_lock k) eqn:LK; [|lia]. split; [reflexivity|]. cbn [Z.eqb snd]. unfold good, direct, lockd. cbn [k_live k_refs k_lock k_rd k_valid k_user k_leak k_dw k_dr]. rewrite V. split; [lia|]. split; [lia|]. split; [intros _; repeat split; intros; try discriminate; lia|discriminate].
  - destruct (Z.ltb_spec 0 (k_rd k)); [|lia]. split; [reflexivity|]. cbn [Z.eqb snd]. unfold good, direct, readers. cbn [k_live k_refs k_lock k_rd k_valid k_user k_leak k_dw k_dr]. rewrite V. split; [lia|]. split; [lia|]. split; [intros _; repeat split; intros; try discriminate; try (specialize (R5 ltac:(assumption))); try assumption; lia|discriminate].
Qed.

Definition is_get (o : op) : bool := match o with QGet _ _ | CGet _ _ => true | _ => false end.
(** A call that keeps the rules is defined, keeps the invariant, and fails only if it asks for access *)
Lemma step_inv s o : inv s -> ruled s o -> exists e s', step s o = Some (e, s') /\ inv s' /\ (is_get o = false -> e = 0).
Proof.
  intros I R. destruct o as [v|c|w c|w c| |q c|q b|i q|i q|q]; cbn [step ruled is_get] in *.
  - eexists _, _. split; [reflexivity|]. split; [|reflexivity]. split; cbn [cs qs].
    + intros c k K. destruct (Nat.lt_ge_cases c (length (cs s))) as [L|L]; [rewrite nth_error_app1 in K by exact L; apply (i_c s I c k K)|]. rewrite nth_error_app2 in K by exact L. destruct (c - length (cs s))%nat as [|m] eqn:M; [|destruct m; discriminate]. injection K as <-.
      assert (Z : sumq (f1 c) (qs s) = 0).
      { assert (A : forall l, (forall x, In x l -> In x (qs s)) -> sumq (f1 c) l = 0). { induction l as [|x l IH]; intros S; cbn [sumq]; [reflexivity|]. rewrite IH by (intros y Y; apply S; right; exact Y). unfold f1. destruct (uses c x) eqn:U; [|reflexivity]. exfalso.
          unfold uses in U. apply andb_true_iff in U. destruct U as (U1 & U2). destruct (q_ctx x) as [d|] eqn:C; [|discriminate]. apply Nat.eqb_eq in U2. subst d. specialize (S x (or_introl eq_refl)). apply In_nth_error in S. destruct S as (q & S). pose proof (proj2 (i_q s I q x S) U1 c C). lia. }
        apply A. auto. }
      destruct (unused s c Z) as (Z1 & Z2). unfold good. cbn. rewrite Z, Z1, Z2. repeat split; intros; try discriminate; lia.
    + intros q x E. destruct (i_q s I q x E) as (A & B). split; [exact A|]. intros L c C. rewrite app_length. specialize (B L c C). lia.
  - destruct R as (k & K & U). pose proof (i_c s I c k K) as (G1 & G2 & G3 & G4). unfold onc. rewrite K. destruct (k_live k) eqn:V; [|destruct (G4 eq_refl); lia]. destruct (G3 eq_refl) as (R1 & R2 & R3 & R4 & R5 & R6 & R7 & R8).
    pose proof (users_nonneg s c) as N0.
    set (kd := snd (c_destroy (user k (-1)))). assert (D : c_destroy (user k (-1)) = (0, kd) /\ good kd (sumq (f1 c) (qs s)) (sumq (fw c) (qs s)) (sumq (fr c) (qs s))).
    { unfold kd, c_destroy. cbv zeta. cbn [refs user k_refs k_lock]. destruct (Z.ltb_spec 0 (k_refs k - 1)).
      - split; [reflexivity|]. unfold good. cbn [snd refs user k_user k_leak k_live k_refs k_lock k_rd k_dw k_dr]. rewrite V. split; [lia|]. split; [lia|]. split; [intros _; repeat split; try assumption; lia|discriminate].
      - assert (Z : sumq (f1 c) (qs s) = 0) by lia. destruct (unused s c Z) as (Z1 & Z2). destruct (k_lock k); [lia|]. split; [reflexivity|]. unfold good. cbn [snd refs user dead k_user k_leak k_live k_refs k_lock k_rd k_dw k_dr]. split; [lia|]. split; [lia|]. split; [discriminate|]. intros _. lia. }
    destruct D as (D1 & D2). rewrite D1. eexists _, _. split; [reflexivity|]. split; [|reflexivity]. split; cbn [cs qs].
    + intros c' kk KK. destruct (nth_upd_cases _ _ _ _ _ _ KK) as [(-> & -> & _)|(N & K2)]; [exact D2|apply (i_c s I c' kk K2)].
    + intros q' x' E'. rewrite upd_length. apply (i_q s I q' x' E').
  - destruct R as (k & K & U). destruct (onc_inv s c k (fun k => let (e, k1) := c_get w k in (e, if e =? 0 then direct w k1 1 else k1)) I K U (fun n w' r => direct_get w k n w' r U)) as (s' & E & I'). eexists _, _. split; [exact E|]. split; [exact I'|discriminate].
  - destruct R as (k & K & U & D). pose proof (i_c s I c k K) as G. pose proof G as (_ & _ & _ & G4). assert (V : k_live k = true) by (destruct (k_live k); [reflexivity|destruct (G4 eq_refl); lia]).
    pose proof (direct_restore w k _ _ _ U D G V (sumq_nonneg _ _ (fw_nonneg s I c)) (sumq_nonneg _ _ (fr_nonneg s I c))) as (Z & _).
    destruct (onc_inv s c k (fun k => let (e, k1) := c_restore w k in (e, if e =? 0 then direct w k1 (-1) else k1)) I K U (fun n w' r A B C E => proj2 (direct_restore w k n w' r U D A B C E))) as (s' & E & I'). eexists _, _. split; [exact E|]. split; [exact I'|]. intros _. destruct (c_restore w k). exact Z.
  - eexists _, _. split; [reflexivity|]. split; [|reflexivity]. split; cbn [cs qs].
    + intros c k K. rewrite !sumq_app. cbn [sumq]. destruct (zeros c (QF true None true 0) (or_intror eq_refl)) as (-> & -> & ->). rewrite !Z.add_0_r. apply (i_c s I c k K).
    + intros q x E. destruct (Nat.lt_ge_cases q (length (qs s))) as [L|L]; [rewrite nth_error_app1 in E by exact L; apply (i_q s I q x E)|]. rewrite nth_error_app2 in E by exact L. destruct (q - length (qs s))%nat as [|m]; [|destruct m; discriminate]. injection E as <-. split; [cbn; lia|discriminate].
  - destruct R as ((x & E & L & H) & RC). rewrite E, L. destruct (detach s q x (QF true None (q_wr x) (q_held x)) I E L H (or_intror eq_refl) H) as (cl & -> & LC & I1 & Us). cbn [Z.eqb]. unfold setq. cbn [cs qs].
    destruct c as [d|]; cbn [onp]; [|eexists _, _; split; [reflexivity|]; split; [exact I1|reflexivity]].
    destruct (RC d eq_refl) as (k & K & U). destruct (Us d k K U) as (k' & K' & U'). pose proof (i_c _ I1 d k' K') as G. cbn [qs] in G. pose proof G as (G1 & G2 & G3 & G4).
    unfold onc. cbn [cs qs]. rewrite K'. destruct (k_live k') eqn:V; [|destruct (G4 eq_refl); lia]. destruct (G3 eq_refl) as (R1 & R2 & R3 & R4 & R5 & R6 & R7 & R8). eexists _, _. split; [reflexivity|]. split; [|reflexivity].
    rewrite <- (upd_upd _ (qs s) q (QF true None (q_wr x) (q_held x))).
    assert (E1 : nth_error (qs (ST cl (upd (qs s) q (QF true None (q_wr x) (q_held x))))) q = Some (QF true None (q_wr x) (q_held x))) by exact (upd_at _ _ _ _ _ E).
    apply (put_inv _ q _ (QF true (Some d) (q_wr x) (q_held x)) I1 E1); cbn [cs qs]; [apply upd_length|cbn; lia|cbn [q_live q_ctx]; intros _ c' Hc; injection Hc as <-; apply nth_error_Some; congruence|].
    intros c' kk KK. destruct (zeros c' (QF true None (q_wr x) (q_held x)) (or_intror eq_refl)) as (-> & -> & ->). destruct (idle c' (QF true (Some d) (q_wr x) (q_held x)) H) as (-> & ->). rewrite (f1_at c' d (QF true (Some d) (q_wr x) (q_held x)) eq_refl eq_refl). rewrite !Z.sub_0_r, !Z.add_0_r.
    destruct (nth_upd_cases _ _ _ _ _ _ KK) as [(-> & -> & _)|(N & K2)].
    + rewrite Nat.eqb_refl. unfold good, c_reference, refs. cbn [k_user k_leak k_live k_refs k_lock k_rd k_dw k_dr]. rewrite V. split; [lia|]. split; [lia|]. split; [intros _; repeat split; try assumption; lia|discriminate].
    + destruct (Nat.eqb_spec d c'); [congruence|]. rewrite Z.add_0_r. apply (i_c _ I1 c' kk K2).
  - destruct R as (x & E & L & H). rewrite E, L. eexists _, _. split; [reflexivity|]. split; [|reflexivity]. unfold setq. apply (put_inv s q x _ I E); [reflexivity|cbn; lia|cbn [q_live q_ctx]; intros _; apply (proj2 (i_q s I q x E) L)|].
    intros c k K. set (y := QF true (q_ctx x) b (q_held x)). assert (F : f1 c y = f1 c x) by (unfold f1, uses, y; cbn [q_live q_ctx]; rewrite L; reflexivity). rewrite F. destruct (idle c x H) as (-> & ->). destruct (idle c y H) as (-> & ->). rewrite !Z.sub_0_r, !Z.add_0_r. replace (sumq (f1 c) (qs s) - f1 c x + f1 c x) with (sumq (f1 c) (qs s)) by lia. apply (i_c s I c k K).
  - destruct R as (x & E & L). assert (W : wr s q = q_wr x) by (unfold wr; rewrite E; reflexivity). rewrite W. pose proof (proj1 (i_q s I q x E)) as H0. destruct (q_ctx x) as [c|] eqn:C.
    + destruct (access_ok s q x c i (c_get (q_wr x)) 1 (fun _ => True) I E L C) as (e & s' & A & B & _); [lia| |exists e, s'; split; [exact A|split; [exact B|discriminate]]].
      intros k n w r G V N W1 W2. apply get_ok; auto; [assert (0 <= fw c x) by (unfold fw; destruct (_ && _); lia)|assert (0 <= fr c x) by (unfold fr; destruct (_ && _); lia)]; lia.
    + unfold access. rewrite E, L, C. cbn [onp Z.eqb]. eexists _, _. split; [reflexivity|]. split; [|reflexivity]. unfold setq. apply (put_inv s q x _ I E); [reflexivity|cbn; lia|cbn; discriminate|].
      intros c k K. destruct (zeros c x (or_intror C)) as (-> & -> & ->). destruct (zeros c (QF true None (q_wr x) (q_held x + 1)) (or_intror eq_refl)) as (-> & -> & ->). rewrite !Z.sub_0_r, !Z.add_0_r. apply (i_c s I c k K).
  - destruct R as (x & E & L & H). assert (W : wr s q = q_wr x) by (unfold wr; rewrite E; reflexivity). rewrite W. destruct (q_ctx x) as [c|] eqn:C.
    + destruct (access_ok s q x c i (c_restore (q_wr x)) (-1) (fun e => e = 0) I E L C) as (e & s' & A & B & Z); [lia| |exists e, s'; split; [exact A|split; [exact B|intros _; exact Z]]].
      assert (U2 : uses c x = true) by (unfold uses; rewrite L, C; apply Nat.eqb_refl).
      intros k n w r G V N W1 W2. unfold fw, fr in W1, W2. rewrite U2 in W1, W2. cbn [andb] in W1, W2. apply restore_ok; auto; intros Q; rewrite Q in *; cbn [negb] in *; lia.
    + unfold access. rewrite E, L, C. cbn [onp Z.eqb]. eexists _, _. split; [reflexivity|]. split; [|reflexivity]. unfold setq. apply (put_inv s q x _ I E); [reflexivity|cbn; lia|cbn; discriminate|].
      intros c k K. destruct (zeros c x (or_intror C)) as (-> & -> & ->). destruct (zeros c (QF true None (q_wr x) (q_held x + -1)) (or_intror eq_refl)) as (-> & -> & ->). rewrite !Z.sub_0_r, !Z.add_0_r. apply (i_c s I c k K).
  - destruct R as (x & E & L & H). rewrite E, L. destruct (detach s q x (QF false (q_ctx x) (q_wr x) (q_held x)) I E L H (or_introl eq_refl) H) as (cl & -> & LC & I1 & _). cbn [Z.eqb]. unfold setq. cbn [cs qs]. eexists _, _. split; [reflexivity|]. split; [exact I1|reflexivity].
Qed.
