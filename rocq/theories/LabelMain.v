(** * Labels of operators: the loops over sub-operators, and histories *)
From Coq Require Import List ZArith Lia Bool Arith.
From Verif Require Import Prelude RstrModel StrModel CtxModel CtxSpec CtxProofs CtxProps CtxField LabelModel LabelProofs.
Import ListNotations.
Local Open Scope Z_scope.

(** ** Calls on one context *)
Definition same (w w' : lworld) : Prop := lw_from w' = lw_from w /\ lw_ops w' = lw_ops w /\ lw_subs w' = lw_subs w /\ lw_labs w' = lw_labs w.
Lemma same_refl w : same w w. Proof. now repeat split. Qed.
Lemma same_trans a b c : same a b -> same b c -> same a c.
Proof. intros (A1 & A2 & A3 & A4) (B1 & B2 & B3 & B4). repeat split; congruence. Qed.
Lemma on_do A c (m : M A) w a v : m (lw_ctx w c) = ROk a v -> exists w', on c m w = LOk a w' /\ same w w' /\ (forall c', lw_ctx w' c' = cupd (lw_ctx w) c v c').
Proof. intros H. unfold on. rewrite H. eexists. split; [reflexivity|]. split; [now repeat split|]. reflexivity. Qed.
Lemma on_cases A c (m : M A) w : match on c m w with
  | LOk a w' => exists v, m (lw_ctx w c) = ROk a v /\ same w w' /\ (forall c', lw_ctx w' c' = cupd (lw_ctx w) c v c')
  | LErr e w' => exists v, m (lw_ctx w c) = RErr e v /\ same w w' /\ (forall c', lw_ctx w' c' = cupd (lw_ctx w) c v c')
  | LUB => m (lw_ctx w c) = RUB
  end.
Proof. unfold on. destruct (m (lw_ctx w c)); auto; eexists; (split; [reflexivity|]); split; [now repeat split| |now repeat split|]; reflexivity. Qed.
Lemma cupd_same f c v : cupd f c v c = v. Proof. unfold cupd. now rewrite Nat.eqb_refl. Qed.
Lemma cupd_other f c v n : n <> c -> cupd f c v n = f n. Proof. intros H. unfold cupd. destruct (Nat.eqb_spec n c); congruence. Qed.
Lemma cupd_cases f c v n : (n = c /\ cupd f c v n = v) \/ (n <> c /\ cupd f c v n = f n).
Proof. destruct (Nat.eq_dec n c) as [->|H]; [left; now rewrite cupd_same | right; now rewrite cupd_other]. Qed.

Lemma inner_ctx_do o w : (forall c, LabelModel.s_ctx o = Some c -> kept (lw_ctx w c)) -> exists w1, inner_ctx o w = LOk (LabelModel.s_ctx o) w1 /\ same w w1 /\ (forall c, lw_ctx w1 c = lw_ctx w c).
Proof.
  intros K. unfold inner_ctx. destruct (LabelModel.s_ctx o) as [c|] eqn:Ec; [|exists w; split; [reflexivity|]; split; [apply same_refl|auto]].
  specialize (K c eq_refl). destruct (on_do unit c ctx_reference w tt _ (reference_bump _ K)) as (w1 & E1 & S1 & C1).
  assert (D : ctx_destroy (lw_ctx w1 c) = ROk tt (lw_ctx w c)) by (rewrite C1, cupd_same; now apply destroy_bump).
  destruct (on_do unit c ctx_destroy w1 tt _ D) as (w2 & E2 & S2 & C2). exists w2. unfold lbind. rewrite E1, E2. split; [reflexivity|]. split; [eapply same_trans; eauto|].
  intros n. rewrite C2. destruct (cupd_cases (lw_ctx w1) c (lw_ctx w c) n) as [[-> ->]|[Hn ->]]; auto. now rewrite C1, cupd_other.
Qed.
Definition bumped (w : lworld) (c : option nat) (n : nat) : world := match c with Some c => cupd (lw_ctx w) c (bump (lw_ctx w c)) n | None => lw_ctx w n end.
Lemma op_get_ctx_do i o w : nth_error (lw_ops w) i = Some o -> (forall c, LabelModel.s_ctx o = Some c -> kept (lw_ctx w c)) ->
  exists w1, op_get_ctx (Some i) w = LOk (LabelModel.s_ctx o) w1 /\ same w w1 /\ (forall n, lw_ctx w1 n = bumped w (LabelModel.s_ctx o) n).
Proof.
  intros Ho K. destruct (inner_ctx_do o w K) as (w1 & E1 & S1 & C1). unfold op_get_ctx, get_op, lbind, lget. rewrite Ho. unfold lret at 1. rewrite E1.
  destruct (LabelModel.s_ctx o) as [c|]; [|exists w1; split; [reflexivity|]; split; auto].
  specialize (K c eq_refl). rewrite <- (C1 c) in K. destruct (on_do unit c ctx_reference w1 tt _ (reference_bump _ K)) as (w2 & E2 & S2 & C2).
  exists w2. rewrite E2. split; [reflexivity|]. split; [eapply same_trans; eauto|]. intros n. rewrite C2. cbn. rewrite C1. unfold cupd. destruct (Nat.eqb n c); auto.
Qed.
Lemma ctx_drop_do w w1 c : (forall n, lw_ctx w1 n = bumped w c n) -> (forall c', c = Some c' -> kept (lw_ctx w c')) ->
  exists w2, ctx_drop c w1 = LOk tt w2 /\ same w1 w2 /\ (forall n, lw_ctx w2 n = lw_ctx w n).
Proof.
  intros C1 K. destruct c as [c|]; [|exists w1; split; [reflexivity|]; split; [apply same_refl|auto]]. specialize (K c eq_refl). cbn [ctx_drop].
  assert (D : ctx_destroy (lw_ctx w1 c) = ROk tt (lw_ctx w c)) by (rewrite C1; cbn; rewrite cupd_same; now apply destroy_bump).
  destruct (on_do unit c ctx_destroy w1 tt _ D) as (w2 & E2 & S2 & C2). exists w2. split; auto. split; auto.
  intros n. rewrite C2. destruct (cupd_cases (lw_ctx w1) c (lw_ctx w c) n) as [[-> ->]|[Hn ->]]; auto. rewrite C1. cbn. now rewrite cupd_other.
Qed.
Lemma deref_do v x j f : w_ctx v = Some x -> nth_error (c_fields x) j = Some f -> deref j v = ROk f v.
Proof. intros Hx Hf. unfold deref, mbind, getc. rewrite Hx, Hf. reflexivity. Qed.
Definition fld_of (v : world) (j : nat) : option label := match w_ctx v with Some x => nth_error (c_fields x) j | None => None end.
Lemma deref_fld v j : deref j v = match fld_of v j with Some f => ROk f v | None => RUB end.
Proof. unfold deref, mbind, getc, fld_of. destruct (w_ctx v) as [x|]; auto. destruct (nth_error (c_fields x) j); auto. Qed.
Lemma fld_bump v j : fld_of (bump v) j = fld_of v j.
Proof. unfold bump. destruct (w_ctx v) as [x|] eqn:Hx; auto. unfold fld_of. rewrite Hx. reflexivity. Qed.
Lemma fld_F v v' j : kept v -> kept v' -> (forall l0, F l0 v -> F l0 v') -> fld_of v' j = fld_of v j.
Proof.
  intros (x & Hx & _) (x' & Hx' & _) H. unfold fld_of. rewrite Hx, Hx'. rewrite (H (c_fields x)) with (x := x'); auto. intros y Hy. congruence.
Qed.
Lemma lderef_do w p : lderef p w = match fld_of (lw_ctx w (fst p)) (snd p) with Some f => LOk f (set_ctxs w (cupd (lw_ctx w) (fst p) (lw_ctx w (fst p)))) | None => LUB end.
Proof. unfold lderef, on. rewrite deref_fld. destruct (fld_of _ _); auto. Qed.
Lemma cupd_id f c n : cupd f c (f c) n = f n.
Proof. unfold cupd. destruct (Nat.eqb_spec n c); congruence. Qed.

(** ** One sub-operator of a set call: field [j] of context [c] is set as if through the context. *)
Definition ent (w : lworld) (e : option nat * option lptr) (c j : nat) : Prop :=
  exists i o, fst e = Some i /\ nth_error (lw_ops w) i = Some o /\ LabelModel.s_ctx o = Some c /\ snd e = Some (c, j).
Definition ents_ok (w : lworld) (l : list (option nat * option lptr)) : Prop := forall i p o, In (Some i, p) l -> nth_error (lw_ops w) i = Some o ->
  (forall c, LabelModel.s_ctx o = Some c -> kept (lw_ctx w c) /\ forall q, p = Some q -> fst q = c).
Definition set_one (w : lworld) (c j : nat) (t : ftype) (vals : bytes) : out unit := ctx_set_field (Some j) t vals (lw_ctx w c).
Lemma set_one_eval w c j t vals : set_one w c j t vals = match fld_of (lw_ctx w c) j with Some f => ctx_set_at f t vals (lw_ctx w c) | None => RUB end.
Proof. unfold set_one, ctx_set_field, ctx_set_generic, mbind. rewrite deref_fld. destruct (fld_of _ _); auto. Qed.

Lemma set_loop_step w i (p : option lptr) (l : list (option nat * option lptr)) t vals o : nth_error (lw_ops w) i = Some o ->
  (forall c, LabelModel.s_ctx o = Some c -> kept (lw_ctx w c) /\ forall q, p = Some q -> fst q = c) ->
  (* no field to set *)
  ((forall c j, ~ ent w (Some i, p) c j) /\ exists w1, set_loop ((Some i, p) :: l) t vals w = set_loop l t vals w1 /\ same w w1 /\ forall n, lw_ctx w1 n = lw_ctx w n) \/
  (exists c j, ent w (Some i, p) c j /\
    match set_one w c j t vals with
    | ROk _ v => exists w1, set_loop ((Some i, p) :: l) t vals w = set_loop l t vals w1 /\ same w w1 /\ forall n, lw_ctx w1 n = cupd (lw_ctx w) c v n
    | RErr e v => exists w1, set_loop ((Some i, p) :: l) t vals w = LErr e w1
    | RUB => set_loop ((Some i, p) :: l) t vals w = LUB
    end).
Proof.
  intros Ho Hc. destruct (op_get_ctx_do i o w Ho (fun c H => proj1 (Hc c H))) as (w1 & E1 & S1 & C1). cbn [set_loop]. unfold lbind. rewrite E1.
  destruct (LabelModel.s_ctx o) as [c|] eqn:Ec.
  2:{ left. split. { intros c j (i' & o' & E & Ho' & Ec' & _). cbn in E. injection E as <-. rewrite Ho in Ho'. injection Ho' as <-. congruence. }
      exists w1. unfold lret. cbn [ctx_drop]. split; [reflexivity|]. split; auto. }
  destruct (Hc c eq_refl) as [K Hq].
  destruct p as [[c' j]|].
  - right. specialize (Hq _ eq_refl). cbn in Hq. subst c'. exists c, j. split. { exists i, o. auto. }
    rewrite set_one_eval.
    rewrite lderef_do. cbn [fst snd]. rewrite C1. cbn [bumped]. rewrite cupd_same, fld_bump.
    destruct (fld_of (lw_ctx w c) j) as [f|]; [|reflexivity].
    set (w1' := set_ctxs w1 _). assert (C1' : lw_ctx w1' c = bump (lw_ctx w c)) by (unfold w1'; cbn; now rewrite cupd_same).
    assert (Co : forall n, n <> c -> lw_ctx w1' n = lw_ctx w n). { intros n Hn. unfold w1'. cbn. rewrite cupd_other; auto. rewrite C1. cbn. now rewrite cupd_other. }
    pose proof (on_cases unit c (ctx_set_at f t vals) w1') as G. rewrite C1', set_at_bump in G by auto. pose proof (set_at_inv f t vals (lw_ctx w c)) as SI.
    destruct (ctx_set_at f t vals (lw_ctx w c)) as [[] v|e v|]; cbn [omap] in G.
    + destruct (SI v K eq_refl) as (_ & _ & Kv & _). destruct (on c (ctx_set_at f t vals) w1') as [[] w2|e w2|]; try discriminate; [| now destruct G as (? & ? & _)].
      destruct G as (v' & Ev & S2 & C2). injection Ev as <-. unfold ctx_drop.
      assert (D : ctx_destroy (lw_ctx w2 c) = ROk tt v) by (rewrite C2, cupd_same; now apply destroy_bump).
      destruct (on_do unit c ctx_destroy w2 tt _ D) as (w3 & E3 & S3 & C3). rewrite E3. exists w3. split; [reflexivity|]. split; [eapply same_trans; [exact S1|]; eapply same_trans; [|exact S3]; exact S2|].
      intros n. rewrite C3. destruct (cupd_cases (lw_ctx w2) c v n) as [[-> ->]|[Hn ->]]; [now rewrite cupd_same|]. rewrite C2, !cupd_other; auto.
    + destruct (on c (ctx_set_at f t vals) w1') as [[] w2|e' w2|]; try discriminate; [now destruct G as (? & ? & _)|]. destruct G as (v' & Ev & _). injection Ev as -> _. eexists. reflexivity.
    + destruct (on c (ctx_set_at f t vals) w1') as [[] w2|e' w2|]; [now destruct G as (? & ? & _)|now destruct G as (? & ? & _)|reflexivity].
  - left. split. { intros c' j (i' & o' & _ & _ & _ & E). discriminate. }
    destruct (ctx_drop_do w w1 (Some c) C1) as (w2 & E2 & S2 & C2). { intros c' E. injection E as <-. auto. }
    exists w2. unfold lret. rewrite E2. split; [reflexivity|]. split; [eapply same_trans; eauto|auto].
Qed.
Lemma set_one_again w w1 c j t vals v : kept (lw_ctx w c) -> set_one w c j t vals = ROk tt v -> lw_ctx w1 c = v -> set_one w1 c j t vals = ROk tt v /\ kept v.
Proof.
  intros K H E. rewrite set_one_eval in *. destruct (fld_of (lw_ctx w c) j) as [f|] eqn:Ef; [|discriminate].
  destruct (set_at_inv _ _ _ _ _ K H) as (Hl & Hv & Kv & HF). rewrite E, (fld_F _ _ j K Kv HF), Ef. split; auto. now apply set_at_same.
Qed.
Lemma ent_same w w1 e c j : same w w1 -> ent w1 e c j <-> ent w e c j.
Proof. intros (_ & Ho & _). unfold ent. now rewrite Ho. Qed.
Definition uniq (w : lworld) (l : list (option nat * option lptr)) : Prop := forall e e' c j j', In e l -> In e' l -> ent w e c j -> ent w e' c j' -> j = j'.
Lemma uniq_same w w1 e l : same w w1 -> uniq w (e :: l) -> uniq w1 l.
Proof. intros S U e1 e2 c j j' H1 H2 E1 E2. apply (ent_same w w1) in E1, E2; auto. eapply U; [right; exact H1|right; exact H2|eauto|eauto]. Qed.
Lemma ents_ok_step w w1 e l : same w w1 -> (forall c, kept (lw_ctx w c) -> kept (lw_ctx w1 c)) -> ents_ok w (e :: l) -> ents_ok w1 l.
Proof.
  intros (_ & Ho & _) K H i p o Hi Hn c Hc. rewrite Ho in Hn. destruct (H i p o (or_intror Hi) Hn c Hc). split; auto.
Qed.
Lemma ent_dec w e : (forall c j, ~ ent w e c j) \/ exists c j, ent w e c j.
Proof.
  destruct e as [[i|] [[c j]|]]; try (left; intros c' j' (i' & o & A & B & C & D); cbn in A, D; discriminate).
  destruct (nth_error (lw_ops w) i) as [o|] eqn:Eo; [|left; intros c' j' (i' & o & A & B & _); cbn in A; congruence].
  destruct (LabelModel.s_ctx o) as [c'|] eqn:Ec; [|left; intros c' j' (i' & o' & A & B & C & D); cbn in A; congruence].
  destruct (Nat.eq_dec c' c) as [->|Hn]; [right; exists c, j, i, o; auto|].
  left. intros c'' j'' (i' & o' & A & B & C & D). cbn in A, D. congruence.
Qed.
Lemma ent_fun w e c j c' j' : ent w e c j -> ent w e c' j' -> c = c' /\ j = j'.
Proof. intros (i & o & A & B & C & D) (i' & o' & A' & B' & C' & D'). rewrite D in D'. injection D' as -> ->. auto. Qed.

Lemma ents_dec w l c : (exists e j, In e l /\ ent w e c j) \/ forall e j, In e l -> ~ ent w e c j.
Proof.
  induction l as [|e l [(e' & j & Hin & Hj)|Hn]]; [right; intros e j []|left; exists e', j; split; [right|]; auto|].
  destruct (ent_dec w e) as [He|(c' & j & Hj)]; [right; intros e' j [<-|Hin]; auto|].
  destruct (Nat.eq_dec c' c) as [->|Hc]; [left; exists e, j; split; [left|]; auto|right; intros e' j' [<-|Hin]; auto]. intros H. destruct (ent_fun _ _ _ _ _ _ Hj H); auto.
Qed.
Lemma set_loop_ok t vals l : forall w w', ents_ok w l -> uniq w l -> set_loop l t vals w = LOk tt w' ->
  same w w' /\ (forall e c j, In e l -> ent w e c j -> set_one w c j t vals = ROk tt (lw_ctx w' c)) /\
  (forall c, (forall e j, In e l -> ~ ent w e c j) -> lw_ctx w' c = lw_ctx w c).
Proof.
  induction l as [|[i p] l IH]; intros w w' Hok Hu E.
  - cbn in E. injection E as <-. split; [apply same_refl|]. split; [intros e c j []|auto].
  - destruct i as [i|]; [|discriminate]. destruct (nth_error (lw_ops w) i) as [o|] eqn:Eo.
    2:{ cbn [set_loop] in E. unfold lbind, op_get_ctx, get_op, lbind, lget in E. rewrite Eo in E. discriminate. }
    destruct (set_loop_step w i p l t vals o Eo (fun c H => Hok i p o (or_introl eq_refl) Eo c H)) as [(Hne & w1 & E1 & S1 & C1)|(c0 & j0 & He & G)].
    + rewrite E1 in E. destruct (IH w1 w') as (S2 & A & B); auto.
      { eapply ents_ok_step; eauto. intros c. now rewrite C1. } { eapply uniq_same; eauto. }
      split; [eapply same_trans; eauto|]. split.
      * intros e c j [<-|Hin] Hent; [now apply Hne in Hent|]. apply (ent_same w w1) in Hent; auto. rewrite <- (A e c j Hin Hent). unfold set_one. now rewrite C1.
      * intros c Hc. rewrite B, C1; auto. intros e j Hin Hent. apply (ent_same w w1) in Hent; auto. apply (Hc e j); [right; auto|auto].
    + assert (K : kept (lw_ctx w c0)). { destruct He as (i' & o' & A & B & C & D). cbn in A. injection A as <-. destruct (Hok i p o' (or_introl eq_refl) B c0 C); auto. }
      destruct (set_one w c0 j0 t vals) as [[] v|e v|] eqn:Es; [|destruct G as (w1 & G); congruence|congruence].
      destruct G as (w1 & E1 & S1 & C1). rewrite E1 in E. assert (V1 : lw_ctx w1 c0 = v) by (rewrite C1; apply cupd_same).
      destruct (set_one_again w w1 c0 j0 t vals v K Es V1) as [Es1 Kv].
      assert (Kk : forall c, kept (lw_ctx w c) -> kept (lw_ctx w1 c)). { intros c Hk. rewrite C1. destruct (cupd_cases (lw_ctx w) c0 v c) as [[-> ->]|[_ ->]]; auto. }
      destruct (IH w1 w') as (S2 & A & B); auto. { eapply ents_ok_step; eauto. } { eapply uniq_same; eauto. }
      assert (Hv : lw_ctx w' c0 = v).
      { destruct (ents_dec w1 l c0) as [(e & j & Hin & Hj)|Hnex].
        - assert (j = j0).
          { apply (Hu e (Some i, p) c0 j j0); [right; auto|left; auto| |auto]. now apply (ent_same w w1). } subst j.
          specialize (A e c0 j0 Hin Hj). rewrite Es1 in A. injection A as A. now symmetry.
        - rewrite B; auto. }
      split; [eapply same_trans; eauto|]. split.
      * intros e c j [<-|Hin] Hent.
        { destruct (ent_fun _ _ _ _ _ _ He Hent) as [<- <-]. now rewrite Hv. }
        destruct (Nat.eq_dec c c0) as [->|Hc].
        { assert (j = j0) by (apply (Hu e (Some i, p) c0 j j0); [right; auto|left; auto|auto|auto]). subst j. now rewrite Hv. }
        apply (ent_same w w1) in Hent; auto. rewrite <- (A e c j Hin Hent). unfold set_one. rewrite C1, cupd_other; auto.
      * intros c Hc. assert (c <> c0). { intros ->. apply (Hc (Some i, p) j0); [left; auto|auto]. }
        rewrite B; [rewrite C1; now apply cupd_other|]. intros e j Hin Hent. apply (ent_same w w1) in Hent; auto. apply (Hc e j); [right; auto|auto].
Qed.
Lemma set_loop_do t vals l : forall w, ents_ok w l -> uniq w l -> (forall i p, In (i, p) l -> exists i' o, i = Some i' /\ nth_error (lw_ops w) i' = Some o) ->
  (forall e c j, In e l -> ent w e c j -> exists v, set_one w c j t vals = ROk tt v) -> exists w', set_loop l t vals w = LOk tt w'.
Proof.
  induction l as [|[i p] l IH]; intros w Hok Hu Hp Hs; [eexists; reflexivity|].
  destruct (Hp i p (or_introl eq_refl)) as (i' & o & -> & Eo). rename i' into i.
  destruct (set_loop_step w i p l t vals o Eo (fun c H => Hok i p o (or_introl eq_refl) Eo c H)) as [(Hne & w1 & E1 & S1 & C1)|(c0 & j0 & He & G)].
  - rewrite E1. apply IH. { eapply ents_ok_step; eauto. intros c. now rewrite C1. } { eapply uniq_same; eauto. }
    { intros i' p' Hin. destruct S1 as (_ & -> & _). apply Hp with p'. now right. }
    intros e c j Hin Hent. apply (ent_same w w1) in Hent; auto. unfold set_one. rewrite C1. apply (Hs e c j); [right; auto|auto].
  - assert (K : kept (lw_ctx w c0)). { destruct He as (i' & o' & A & B & C & D). cbn in A. injection A as <-. destruct (Hok i p o' (or_introl eq_refl) B c0 C); auto. }
    destruct (Hs _ c0 j0 (or_introl eq_refl) He) as (v & Es). rewrite Es in G. destruct G as (w1 & E1 & S1 & C1). rewrite E1.
    assert (V1 : lw_ctx w1 c0 = v) by (rewrite C1; apply cupd_same). destruct (set_one_again w w1 c0 j0 t vals v K Es V1) as [Es1 Kv]. apply IH.
    { eapply ents_ok_step; eauto. intros c Hk. rewrite C1. destruct (cupd_cases (lw_ctx w) c0 v c) as [[-> ->]|[_ ->]]; auto. } { eapply uniq_same; eauto. }
    { intros i' p' Hin. destruct S1 as (_ & -> & _). apply Hp with p'. now right. }
    intros e c j Hin Hent. apply (ent_same w w1) in Hent; auto. destruct (Nat.eq_dec c c0) as [->|Hc].
    + assert (j = j0) by (apply (Hu e (Some i, p) c0 j j0); [right; auto|left; auto|auto|auto]). subst j. eauto.
    + unfold set_one. rewrite C1, cupd_other; auto. apply (Hs e c j); [right; auto|auto].
Qed.
