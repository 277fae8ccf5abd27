(** * The counting kernels compute the same values and count what they do *)
From Coq Require Import List ZArith Lia Bool Arith.
From Verif Require Import Prelude RstrModel TensorModel BasisModel FlopModel.
Import ListNotations.
Set Implicit Arguments.
Local Open Scope nat_scope.

Lemma forN_erase S T (pr : T -> S) (f : nat -> S -> option S) (g : nat -> T -> option T) n t :
  (forall i t, option_map pr (g i t) = f i (pr t)) -> option_map pr (forN n g t) = forN n f (pr t).
Proof.
  intros H. unfold forN. generalize (seq 0 n). intros l. revert t. induction l as [|i l IH]; intros t; simpl; [reflexivity|].
  rewrite <- (H i t). destruct (g i t) as [t'|]; simpl; [apply IH|reflexivity].
Qed.
Lemma foldO_post X (P : nat -> X -> Prop) (f : nat -> X -> option X) : forall m a s s',
  P a s -> (forall i s s', a <= i < a + m -> P i s -> f i s = Some s' -> P (i + 1) s') -> foldO (seq a m) f s = Some s' -> P (a + m) s'.
Proof.
  induction m as [|m IH]; intros a s s' H0 Hs E; simpl in E.
  - injection E as <-. rewrite Nat.add_0_r. exact H0.
  - destruct (f a s) as [s1|] eqn:F; [|discriminate]. replace (a + S m) with (S a + m) by lia.
    apply (IH (S a) s1 s'); [|intros i x x' L; apply Hs; lia|exact E]. replace (S a) with (a + 1) by lia. apply (Hs a s s1); auto; lia.
Qed.
Lemma forN_post X (P : nat -> X -> Prop) (f : nat -> X -> option X) n s s' :
  P 0 s -> (forall i s s', i < n -> P i s -> f i s = Some s' -> P (i + 1) s') -> forN n f s = Some s' -> P n s'.
Proof. intros H0 Hs E. apply (@foldO_post X P f n 0 s s' H0); [intros; apply (Hs i s0); auto; lia|exact E]. Qed.
Lemma forN_adds T (f : nat -> T * nat -> option (T * nat)) m n s s' :
  (forall i s s', f i s = Some s' -> snd s' = snd s + m) -> forN n f s = Some s' -> snd s' = snd s + n * m.
Proof.
  intros H E. apply (@forN_post _ (fun i x => snd x = snd s + i * m) f n s s'); [lia| |exact E].
  intros i x x' _ P F. rewrite (H i x x' F), P. lia.
Qed.

Section Count.
Variable R : Rng.

Lemma contract_erase A B C J (t : list R) tm add u v :
  option_map fst (contract_c A B C J t tm add u v) = contract_ref A B C J t tm add u v.
Proof.
  unfold contract_c, contract_ref. destruct (if add then Some v else zero_first (A * J * C) v) as [v1|]; [|reflexivity].
  unfold contract_loop. apply (@forN_erase (list R) (list R * nat) fst). intros a s.
  apply (@forN_erase (list R) (list R * nat) fst). intros b s1. apply (@forN_erase (list R) (list R * nat) fst). intros j s2.
  destruct (get t (j * ts0 tm B + b * ts1 tm J)) as [tq|]; [|reflexivity].
  apply (@forN_erase (list R) (list R * nat) fst). intros c s3.
  destruct (get u ((a * B + b) * C + c)) as [x|]; [|reflexivity]. cbn.
  destruct (addat (fst s3) ((a * J + j) * C + c) (tq * x)%R); reflexivity.
Qed.
Lemma contract_count A B C J (t : list R) tm add u v v' n :
  contract_c A B C J t tm add u v = Some (v', n) -> n = 2 * A * B * C * J.
Proof.
  unfold contract_c. destruct (if add then Some v else zero_first (A * J * C) v) as [v1|]; [|discriminate]. intros E.
  apply (@forN_adds _ _ (B * (J * (C * 2)))) in E; [simpl in E; lia|]. clear. intros a s s' E.
  apply (@forN_adds _ _ (J * (C * 2))) in E; [exact E|]. clear. intros b s s' E.
  apply (@forN_adds _ _ (C * 2)) in E; [exact E|]. clear. intros j s s' E.
  destruct (get t (j * ts0 tm B + b * ts1 tm J)) as [tq|]; [|discriminate].
  apply (@forN_adds _ _ 2) in E; [exact E|]. clear. intros c s s' E.
  destruct (get u ((a * B + b) * C + c)) as [x|]; [|discriminate]. cbn in E.
  destruct (addat (fst s) ((a * J + j) * C + c) (tq * x)%R) as [w|]; [|discriminate]. injection E as <-. reflexivity.
Qed.

Variable k : kernel R.
Variable kc : kernelc R.
Hypothesis KE : forall A B C J t tm add u v, option_map fst (kc A B C J t tm add u v) = k A B C J t tm add u v.
Hypothesis KN : forall A B C J t tm add u v v' n, kc A B C J t tm add u v = Some (v', n) -> n = 2 * A * B * C * J.

Lemma chain_erase dim nc ne P Q mat tm addl u T out :
  option_map fst (chain_c kc dim nc ne P Q mat tm addl u T out) = chain k dim nc ne P Q mat tm addl u T out.
Proof.
  unfold chain_c, chain. 
  match goal with |- context [forN dim ?g ?t] => match goal with |- _ = bind (forN dim ?f ?s) _ =>
    assert (E : option_map fst (forN dim g t) = forN dim f (fst t)) end end.
  { apply (@forN_erase (nat * nat * bufs R * list R) (nat * nat * bufs R * list R * nat) fst).
    intros d [[[[pre post] T0] out0] n]. cbn [fst]. destruct (d =? dim - 1).
    - rewrite <- KE. destruct (kc pre P post Q (mat d) tm addl (if d =? 0 then u else getb (d mod 2) T0) out0) as [[o c]|]; reflexivity.
    - rewrite <- KE. destruct (kc pre P post Q (mat d) tm false (if d =? 0 then u else getb (d mod 2) T0) (getb ((d + 1) mod 2) T0)) as [[o c]|]; reflexivity. }
  cbn [fst] in E. rewrite <- E. match goal with |- context [option_map fst ?x] => destruct x as [[[[[pre post] T0] out0] n]|] end; reflexivity.
Qed.
Lemma dirs_erase dim nc ne NQ P mat tm add u out :
  option_map fst (dirs_c kc dim nc ne NQ P mat tm add u out) = dirs k dim nc ne NQ P mat tm add u out.
Proof.
  unfold dirs_c, dirs.
  match goal with |- context [forN dim ?g ?t] => match goal with |- _ = bind (forN dim ?f ?s) _ =>
    assert (E : option_map fst (forN dim g t) = forN dim f (fst t)) end end.
  { apply (@forN_erase (nat * nat * list R) (nat * nat * list R * nat) fst).
    intros d [[[pre post] out0] n]. cbn [fst]. destruct tm.
    - unfold at_off. rewrite <- KE. destruct (kc pre P post P mat NoTranspose (add d) u (skipn (d * NQ * nc * ne) out0)) as [[o c]|]; reflexivity.
    - rewrite <- KE. destruct (kc pre P post P mat Transpose (add d) (skipn (d * NQ * nc * ne) u) out0) as [[o c]|]; reflexivity. }
  cbn [fst] in E. rewrite <- E. match goal with |- context [option_map fst ?x] => destruct x as [[[[pre post] out0] n]|] end; reflexivity.
Qed.

(** operations of one sweep from P to Q points per direction, for one component and element *)
Fixpoint sweep (dim P Q : nat) (d : nat) : nat :=
  match d with 0 => 0 | S d' => sweep dim P Q d' + 2 * P ^ (dim - d') * Q ^ (d' + 1) end.
Lemma chain_count dim nc ne P Q mat tm addl u T out r n : 0 < P ->
  chain_c kc dim nc ne P Q mat tm addl u T out = Some (r, n) -> n = nc * ne * sweep dim P Q dim.
Proof.
  intros HP. unfold chain_c. match goal with |- context [forN dim ?g ?t] => destruct (forN dim g t) as [s|] eqn:E; [|discriminate] end.
  intros Q0. injection Q0 as _ <-.
  match type of E with forN dim ?g ?t = _ => apply (@forN_post _ (fun d (s : nat * nat * bufs R * list R * nat) => let '(pre, post, T, out, n) := s in
    (d < dim -> pre = nc * P ^ (dim - 1 - d)) /\ post = ne * Q ^ d /\ n = nc * ne * sweep dim P Q d) g dim t s) in E end.
  - destruct s as [[[[pre post] T0] out0] n]. simpl. apply E.
  - simpl. split; [intros _; rewrite Nat.sub_0_r; reflexivity|split; lia].
  - intros d [[[[pre post] T0] out0] n] s' L (I1 & I2 & I3) F. specialize (I1 L).
    assert (G : forall c, c = 2 * pre * P * post * Q -> (d + 1 < dim -> pre / P = nc * P ^ (dim - 1 - (d + 1))) /\ post * Q = ne * Q ^ (d + 1) /\ n + c = nc * ne * sweep dim P Q (d + 1)).
    { intros c ->. split; [|split].
      - intros L2. subst pre. replace (dim - 1 - d) with (S (dim - 1 - (d + 1))) by lia.
        rewrite Nat.pow_succ_r by lia. replace (nc * (P * P ^ (dim - 1 - (d + 1)))) with (nc * P ^ (dim - 1 - (d + 1)) * P) by lia.
        apply Nat.div_mul; lia.
      - subst post. rewrite Nat.pow_add_r. simpl. lia.
      - subst n pre post. replace (d + 1) with (S d) by lia. cbn [sweep]. rewrite Nat.pow_add_r. change (Q ^ 1) with (Q * 1).
        replace (dim - d) with (S (dim - 1 - d)) by lia. rewrite Nat.pow_succ_r by lia. ring. }
    destruct (d =? dim - 1).
    + destruct (kc pre P post Q (mat d) tm addl (if d =? 0 then u else getb (d mod 2) T0) out0) as [[o c]|] eqn:K; [|discriminate].
      injection F as <-. cbn [fst snd]. apply G. exact (@KN _ _ _ _ _ _ _ _ _ _ _ K).
    + destruct (kc pre P post Q (mat d) tm false (if d =? 0 then u else getb (d mod 2) T0) (getb ((d + 1) mod 2) T0)) as [[o c]|] eqn:K; [|discriminate].
      injection F as <-. cbn [fst snd]. apply G. exact (@KN _ _ _ _ _ _ _ _ _ _ _ K).
Qed.
Lemma dirs_count dim nc ne NQ P mat tm add u out r n : 0 < P ->
  dirs_c kc dim nc ne NQ P mat tm add u out = Some (r, n) -> n = nc * ne * (2 * dim * P ^ (dim + 1)).
Proof.
  intros HP. unfold dirs_c. match goal with |- context [forN dim ?g ?t] => destruct (forN dim g t) as [s|] eqn:E; [|discriminate] end.
  intros Q0. injection Q0 as _ <-.
  match type of E with forN dim ?g ?t = _ => apply (@forN_post _ (fun d (s : nat * nat * list R * nat) => let '(pre, post, out, n) := s in
    (d < dim -> pre = nc * P ^ (dim - 1 - d)) /\ post = ne * P ^ d /\ n = nc * ne * (2 * d * P ^ (dim + 1))) g dim t s) in E end.
  - destruct s as [[[pre post] out0] n]. simpl. apply E.
  - simpl. split; [intros _; rewrite Nat.sub_0_r; reflexivity|split; lia].
  - intros d [[[pre post] out0] n] s' L (I1 & I2 & I3) F. specialize (I1 L).
    assert (G : forall c, c = 2 * pre * P * post * P -> (d + 1 < dim -> pre / P = nc * P ^ (dim - 1 - (d + 1))) /\ post * P = ne * P ^ (d + 1) /\ n + c = nc * ne * (2 * (d + 1) * P ^ (dim + 1))).
    { intros c ->. split; [|split].
      - intros L2. subst pre. replace (dim - 1 - d) with (S (dim - 1 - (d + 1))) by lia.
        rewrite Nat.pow_succ_r by lia. replace (nc * (P * P ^ (dim - 1 - (d + 1)))) with (nc * P ^ (dim - 1 - (d + 1)) * P) by lia.
        apply Nat.div_mul; lia.
      - subst post. rewrite Nat.pow_add_r. simpl. lia.
      - subst n pre post. replace (P ^ (dim + 1)) with (P ^ (dim - 1 - d) * P * P ^ d * P).
        + ring.
        + rewrite <- (Nat.pow_1_r P) at 2 4. rewrite <- !Nat.pow_add_r. f_equal. lia. }
    destruct tm.
    + destruct (kc pre P post P mat NoTranspose (add d) u (skipn (d * NQ * nc * ne) out0)) as [[o c]|] eqn:K; [|discriminate].
      injection F as <-. cbn [fst snd]. apply G. exact (@KN _ _ _ _ _ _ _ _ _ _ _ K).
    + destruct (kc pre P post P mat Transpose (add d) (skipn (d * NQ * nc * ne) u) out0) as [[o c]|] eqn:K; [|discriminate].
      injection F as <-. cbn [fst snd]. apply G. exact (@KN _ _ _ _ _ _ _ _ _ _ _ K).
Qed.

Lemma apply_tensor_erase junk t aa ne tm em u v : em = EvInterp \/ em = EvGrad ->
  ofopt (option_map fst (apply_tensor_c kc junk t aa ne tm em u v)) = apply_tensor k junk t aa ne tm em u v.
Proof.
  intros [->| ->]; unfold apply_tensor_c, apply_tensor.
  - destruct (t_collo t).
    + destruct (forN (ne * t_nc t * t_P t ^ t_dim t) _ v); reflexivity.
    + rewrite <- chain_erase. match goal with |- context [chain_c ?a ?b ?c ?d ?e ?f ?g ?h ?i ?j ?l ?m] => destruct (chain_c a b c d e f g h i j l m) as [[[T0 o] n]|] end; reflexivity.
  - destruct (t_cg t) as [cg|].
    + destruct tm.
      * rewrite <- chain_erase. match goal with |- context [chain_c ?a ?b ?c ?d ?e ?f ?g ?h ?i ?j ?l ?m] => destruct (chain_c a b c d e f g h i j l m) as [[[T0 o] n]|] end; [|reflexivity].
        cbn [option_map fst snd bind]. rewrite <- dirs_erase. match goal with |- context [dirs_c ?a ?b ?c ?d ?e ?f ?g ?h ?i ?j ?l] => destruct (dirs_c a b c d e f g h i j l) as [[o1 n1]|] end; reflexivity.
      * rewrite <- dirs_erase. match goal with |- context [dirs_c ?a ?b ?c ?d ?e ?f ?g ?h ?i ?j ?l] => destruct (dirs_c a b c d e f g h i j l) as [[o1 n1]|] end; [|reflexivity].
        cbn [option_map fst snd bind]. rewrite <- chain_erase. match goal with |- context [chain_c ?a ?b ?c ?d ?e ?f ?g ?h ?i ?j ?l ?m] => destruct (chain_c a b c d e f g h i j l m) as [[[T0 o] n]|] end; reflexivity.
    + destruct (t_collo t).
      * rewrite <- dirs_erase. match goal with |- context [dirs_c ?a ?b ?c ?d ?e ?f ?g ?h ?i ?j ?l] => destruct (dirs_c a b c d e f g h i j l) as [[o1 n1]|] end; reflexivity.
      * match goal with |- ofopt (option_map fst (bind (forN ?dim ?g ?t) _)) = ofopt (bind (forN ?dim ?f ?s) _) =>
          assert (E : option_map fst (forN dim g t) = forN dim f (fst t)) end.
        { apply (@forN_erase (bufs R * list R) (bufs R * list R * nat) fst). intros p [[T0 v0] c]. cbn [fst]. destruct tm.
          - rewrite <- chain_erase. match goal with |- context [chain_c ?a ?b ?c ?d ?e ?f ?g ?h ?i ?j ?l ?m] => destruct (chain_c a b c d e f g h i j l m) as [[[T1 o] n]|] end; reflexivity.
          - rewrite <- chain_erase. match goal with |- context [chain_c ?a ?b ?c ?d ?e ?f ?g ?h ?i ?j ?l ?m] => destruct (chain_c a b c d e f g h i j l m) as [[[T1 o] n]|] end; reflexivity. }
        cbn [fst] in E. rewrite <- E. match goal with |- context [option_map fst (forN ?a ?b ?c)] => destruct (forN a b c) as [[[T0 v0] c0]|] end; reflexivity.
Qed.
Lemma apply_nontensor_erase n aa ne tm em u v : em <> EvNone -> em <> EvWeight ->
  ofopt (option_map fst (apply_nontensor_c kc n aa ne tm em u v)) = apply_nontensor k n aa ne tm em u v.
Proof.
  intros N1 N2. unfold apply_nontensor_c, apply_nontensor.
  assert (S : forall A B C D J t add u v, option_map fst (strided_c kc A B C D J t tm add u v) = contract_strided k A B C D J t tm add u v).
  { intros A B C D J t add u0 v0. unfold strided_c, contract_strided. destruct tm.
    - apply (@forN_erase (list R) (list R * nat) fst). intros d s. unfold at_off. rewrite <- KE.
      destruct (kc A B C J (skipn (d * B * J) t) NoTranspose add u0 (skipn (d * A * J * C) (fst s))) as [[o c]|]; reflexivity.
    - apply (@forN_erase (list R) (list R * nat) fst). intros d s. rewrite <- KE.
      destruct (kc A J C B (skipn (d * B * J) t) Transpose add (skipn (d * A * J * C) u0) (fst s)) as [[o c]|]; reflexivity. }
  destruct em; try contradiction; rewrite S; reflexivity.
Qed.
Lemma strided_count A B C D J t tm add u v r n :
  strided_c kc A B C D J t tm add u v = Some (r, n) -> n = D * (2 * A * B * C * J).
Proof.
  unfold strided_c. intros E. apply (@forN_adds _ _ (2 * A * B * C * J)) in E; [exact E|]. clear -KN. intros d s s' E. destruct tm.
  - destruct (kc A B C J (skipn (d * B * J) t) NoTranspose add u (skipn (d * A * J * C) (fst s))) as [[o c]|] eqn:K; [|discriminate].
    injection E as <-. cbn [fst snd]. rewrite (@KN _ _ _ _ _ _ _ _ _ _ _ K). reflexivity.
  - destruct (kc A J C B (skipn (d * B * J) t) Transpose add (skipn (d * A * J * C) u) (fst s)) as [[o c]|] eqn:K; [|discriminate].
    injection E as <-. cbn [fst snd]. rewrite (@KN _ _ _ _ _ _ _ _ _ _ _ K). lia.
Qed.
End Count.

(** the sweep costs the same in both directions *)
Fixpoint sumto (n : nat) (f : nat -> nat) : nat := match n with 0 => 0 | S m => sumto m f + f m end.
Lemma sumto_ext n f g : (forall i, i < n -> f i = g i) -> sumto n f = sumto n g.
Proof. induction n as [|n IH]; intros H; simpl; [reflexivity|]. rewrite IH by (intros; apply H; lia). rewrite H by lia. reflexivity. Qed.
Lemma sumto_head n f : sumto (S n) f = f 0 + sumto n (fun i => f (S i)).
Proof. induction n as [|n IH]; simpl in *; [lia|rewrite IH; lia]. Qed.
Lemma sumto_rev n f : sumto n f = sumto n (fun i => f (n - 1 - i)).
Proof.
  revert f. induction n as [|n IH]; intros f; [reflexivity|]. rewrite (sumto_head n (fun i => f (S n - 1 - i))).
  simpl sumto at 1. rewrite IH. replace (S n - 1 - 0) with n by lia. rewrite Nat.add_comm. f_equal. apply sumto_ext. intros i L. f_equal. lia.
Qed.
Lemma sweep_sum dim P Q d : sweep dim P Q d = sumto d (fun i => 2 * P ^ (dim - i) * Q ^ (i + 1)).
Proof. induction d as [|d IH]; [reflexivity|]. cbn [sweep sumto]. rewrite IH. reflexivity. Qed.
Lemma sweep_sym dim P Q : sweep dim P Q dim = sweep dim Q P dim.
Proof.
  rewrite !sweep_sum, sumto_rev. apply sumto_ext. intros i L. replace (dim - (dim - 1 - i)) with (i + 1) by lia.
  replace (dim - 1 - i + 1) with (dim - i) by lia. lia.
Qed.
Lemma sweep_same dim Q : forall d, d <= dim -> sweep dim Q Q d = 2 * d * Q ^ (dim + 1).
Proof.
  induction d as [|d IH]; intros L; [reflexivity|]. cbn [sweep]. rewrite IH by lia.
  replace (2 * Q ^ (dim - d) * Q ^ (d + 1)) with (2 * Q ^ (dim + 1)); [ring|].
  rewrite <- (Nat.mul_assoc 2), <- Nat.pow_add_r. f_equal. f_equal. lia.
Qed.
Lemma sweep_lt dim P Q : 0 < dim -> P < Q -> sweep dim P Q dim < 2 * dim * Q ^ (dim + 1).
Proof.
  intros D L. assert (Q0 : 0 < Q) by lia.
  assert (T : forall i, i < dim -> P ^ (dim - i) * Q ^ (i + 1) < Q ^ (dim + 1)).
  { intros i Li. replace (dim + 1) with ((dim - i) + (i + 1)) by lia. rewrite (Nat.pow_add_r Q (dim - i) (i + 1)).
    apply Nat.mul_lt_mono_pos_r; [apply Nat.neq_0_lt_0, Nat.pow_nonzero; lia|]. apply Nat.pow_lt_mono_l; lia. }
  assert (G : forall d, d <= dim -> sweep dim P Q d + 2 * d <= 2 * d * Q ^ (dim + 1)).
  { induction d as [|d IH]; intros Ld; [simpl; lia|]. cbn [sweep]. specialize (IH ltac:(lia)). specialize (T d ltac:(lia)). lia. }
  specialize (G dim (le_n _)). lia.
Qed.

(** the loop of the estimate is the sweep *)
Lemma tensor_loop_sweep dim nc P Q : 0 < P -> 0 < dim ->
  tensor_loop dim (Z.of_nat P) (Z.of_nat Q) (Z.of_nat nc * Z.of_nat P ^ (Z.of_nat dim - 1)) 1 = Z.of_nat (nc * sweep dim P Q dim).
Proof.
  intros HP HD.
  assert (G : forall m d, d + m = dim -> forall pre, (0 < m -> pre = nc * P ^ (m - 1)) ->
    tensor_loop m (Z.of_nat P) (Z.of_nat Q) (Z.of_nat pre) (Z.of_nat (Q ^ d)) = (Z.of_nat (nc * sweep dim P Q dim) - Z.of_nat (nc * sweep dim P Q d))%Z).
  { induction m as [|m IH]; intros d L pre Hpre.
    - replace d with dim by lia. simpl. lia.
    - cbn [tensor_loop]. specialize (Hpre ltac:(lia)). replace (S m - 1) with m in Hpre by lia.
      rewrite <- Nat2Z.inj_div. rewrite <- Nat2Z.inj_mul.
      replace (Q ^ d * Q) with (Q ^ (d + 1)) by (rewrite Nat.pow_add_r; simpl; lia).
      assert (Hn : 0 < m -> pre / P = nc * P ^ (m - 1)).
      { intros Hm. subst pre. destruct m as [|m]; [lia|]. rewrite Nat.pow_succ_r by lia.
        replace (nc * (P * P ^ m)) with (nc * P ^ m * P) by lia. rewrite Nat.div_mul by lia. f_equal. f_equal. lia. }
      rewrite (IH (d + 1) ltac:(lia) (pre / P) Hn).
      replace (d + 1) with (S d) by lia. cbn [sweep]. replace (dim - d) with (S m) by lia. subst pre.
      rewrite Nat.pow_succ_r by lia. replace (d + 1) with (S d) by lia. rewrite (Nat.pow_succ_r Q) by lia. lia. }
  specialize (G dim 0 eq_refl (nc * P ^ (dim - 1)) (fun _ => eq_refl)). cbn [Nat.pow sweep] in G. rewrite Nat.mul_0_r in G.
  replace (Z.of_nat dim - 1)%Z with (Z.of_nat (dim - 1)) by lia. rewrite <- Nat2Z.inj_pow, <- Nat2Z.inj_mul.
  change (Z.of_nat 1) with 1%Z in G. rewrite G. lia.
Qed.
