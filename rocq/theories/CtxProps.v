(** * C23: QFunction contexts are protected and typed *)
From Coq Require Import List ZArith Lia Bool Arith.
From Coq.Strings Require Import Byte.
From Verif Require Import Prelude RstrModel StrModel CtxModel CtxSpec CtxProofs.
From Verif Require VecModel.
Import ListNotations.
Local Open Scope Z_scope.

(** ** Refinement: a client that keeps the rules of the abstract machine never meets undefined behaviour and sees what the
    machine says. *)
Theorem C23_refines : forall cs rs s, arun cs new_astate = Some (rs, s) -> exists w, run cs new_world = Some (rs, w).
Proof. intros cs rs s H. destruct (run_sim cs _ _ _ _ new_rel H) as (w & Hw & _). eauto. Qed.

(** ** Access: what the client holds, read off the outcomes of its calls *)
Definition held1 (c : cmd) (r : res) (h : bool * Z) : bool * Z :=
  match r, c with
  | Good _, KGet _ => (true, snd h)
  | Good _, KRestore => (false, snd h)
  | Good _, (KGetRead _ | KGetField _ _) => (fst h, snd h + 1)
  | Good _, (KRestoreRead | KRestoreField _ _) => (fst h, snd h - 1)
  | _, _ => h
  end.
Fixpoint held (cs : list cmd) (rs : list res) (h : bool * Z) : bool * Z :=
  match cs, rs with c :: cs, r :: rs => held cs rs (held1 c r h) | _, _ => h end.

Definition hinv (w : world) (h : bool * Z) (k : Z) : Prop :=
  (0 <= snd h <= k /\ (fst h = true -> snd h = 0)) /\
  forall x, w_ctx w = Some x -> c_readers x = snd h /\ (fst h = true -> even (c_state x) = false).

Lemma even_succ z : even (add64 z 1) = negb (even z).
Proof.
  unfold VecModel.add64. rewrite even_mod. unfold VecModel.even.
  pose proof (Z.mod_pos_bound z 2 ltac:(lia)). assert (E : z mod 2 = 0 \/ z mod 2 = 1) by lia.
  rewrite <- Zplus_mod_idemp_l. destruct E as [-> | ->]; reflexivity.
Qed.
Lemma even_two z : even (add64 z 2) = even z.
Proof.
  unfold VecModel.add64. rewrite even_mod. unfold VecModel.even.
  rewrite <- Zplus_mod_idemp_r. change (2 mod 2) with 0. now rewrite Z.add_0_r.
Qed.

(** Internal calls: effect on the counters of the context *)
Definition keeps {A} (m : M A) : Prop := forall w,
  match m w with
  | ROk _ w' | RErr _ w' =>
      forall x', w_ctx w' = Some x' -> exists x, w_ctx w = Some x /\ c_readers x' = c_readers x /\
        (even (c_state x) = false -> c_state x' = c_state x)
  | RUB => True
  end.
Lemma keeps_ret A (a : A) : keeps (ret a).
Proof. intros w x' Hx. eauto. Qed.
Lemma keeps_fail A e : keeps (@fail A e).
Proof. intros w x' Hx. eauto. Qed.
Lemma keeps_check b e : keeps (check b e).
Proof. destruct b; intros w x' Hx; eauto. Qed.
Lemma keeps_ub A : keeps (fun _ => @RUB A).
Proof. intros w. exact I. Qed.
Lemma keeps_bind A B (m : M A) (k : A -> M B) : keeps m -> (forall a, keeps (k a)) -> keeps (mbind m k).
Proof.
  intros Hm Hk w. unfold mbind. specialize (Hm w). destruct (m w) as [a w1|e w1|]; auto.
  specialize (Hk a w1). destruct (k a w1) as [b w2|e w2|]; auto; intros x2 H2; destruct (Hk x2 H2) as (x1 & H1 & E1 & S1);
    destruct (Hm x1 H1) as (x & Hx & E & S0); exists x; (split; [auto|]; split; [congruence|]); intros Hodd; rewrite S1, S0; auto; rewrite S0; auto.
Qed.
Lemma keeps_free p : keeps (free p).
Proof. intros w. unfold free. destruct p as [a|]; cbn; [|eauto]. destruct (w_heap w a); auto. cbn. eauto. Qed.
Lemma keeps_block p : keeps (block p).
Proof. intros w. unfold block. destruct p as [a|]; auto. destruct (w_heap w a); auto. cbn. eauto. Qed.
Lemma keeps_mread p off n : keeps (mread p off n).
Proof. apply keeps_bind; [apply keeps_block|]. intros al. destruct (Nat.leb _ _); [apply keeps_ret|apply keeps_ub]. Qed.
Lemma keeps_mwrite p off l : keeps (mwrite p off l).
Proof.
  apply keeps_bind; [apply keeps_block|]. intros al. destruct (Nat.leb _ _); [|apply keeps_ub].
  intros w x' Hx. cbn in Hx. eauto.
Qed.
(** a context read, checked for an even clock and written back changed *)
Lemma keeps_getput A (f : ctx -> ctx) (k : M A) : keeps k -> (forall x, c_readers (f x) = c_readers x) ->
  (forall x, even (c_state x) = false -> c_state (f x) = c_state x) -> keeps (mbind getc (fun x => mbind (putc (f x)) (fun _ => k))).
Proof.
  intros Hk Hf1 Hf2 w. unfold mbind, getc. destruct (w_ctx w) as [x|] eqn:Hx; auto. cbn.
  specialize (Hk (setc w (Some (f x)))). destruct (k _) as [a w1|e w1|]; auto; intros x1 H1; destruct (Hk x1 H1) as (x2 & H2 & E & S0);
    injection H2 as <-; exists x; (split; [auto|]; split; [rewrite E; apply Hf1|]); intros Ho; (rewrite S0 by (rewrite Hf2; auto)); auto.
Qed.
Lemma odd_get host : forall w x, w_ctx w = Some x -> even (c_state x) = false -> ctx_get host w = RErr ERR_MINOR w.
Proof. intros w x Hx He. unfold ctx_get, mbind, getc. rewrite Hx. cbn. now rewrite He. Qed.
Lemma get_effect host w : match ctx_get host w with
  | ROk _ w' => exists x, w_ctx w = Some x /\ even (c_state x) = true /\ c_readers x = 0 /\ w' = setc w (Some (with_state x (add64 (c_state x) 1)))
  | RErr _ w' => w' = w
  | RUB => True
  end.
Proof.
  unfold ctx_get, mbind, getc. destruct (w_ctx w) as [x|] eqn:Hx; auto. cbn.
  destruct (even (c_state x)) eqn:E; cbn; auto. destruct (c_readers x =? 0) eqn:E0; cbn; auto.
  destruct (isSome (c_data x)); cbn; auto. unfold get_data_ref, mbind, check. destruct host; cbn; auto.
  unfold getc. rewrite Hx. cbn. rewrite Hx. cbn. apply Z.eqb_eq in E0. eauto.
Qed.
Lemma get_read_effect host w : match ctx_get_read host w with
  | ROk _ w' => exists x, w_ctx w = Some x /\ even (c_state x) = true /\ w' = setc w (Some (with_readers x (add64 (c_readers x) 1)))
  | RErr _ w' => w' = w
  | RUB => True
  end.
Proof.
  unfold ctx_get_read, mbind, getc. destruct (w_ctx w) as [x|] eqn:Hx; auto. cbn.
  destruct (even (c_state x)) eqn:E; cbn; auto.
  destruct (isSome (c_data x)); cbn; auto. unfold get_data_ref, mbind, check. destruct host; cbn; auto.
  unfold getc. rewrite Hx. cbn. rewrite Hx. cbn. eauto.
Qed.
Lemma restore_effect w : match ctx_restore w with
  | ROk _ w' => exists x, w_ctx w = Some x /\ even (c_state x) = false /\ w' = setc w (Some (with_state x (add64 (c_state x) 1)))
  | RErr _ w' => w' = w
  | RUB => True
  end.
Proof.
  unfold ctx_restore, mbind, getc. destruct (w_ctx w) as [x|] eqn:Hx; auto. cbn. destruct (even (c_state x)) eqn:E; cbn; eauto.
Qed.
Lemma restore_read_effect w : match ctx_restore_read w with
  | ROk _ w' => exists x, w_ctx w = Some x /\ 0 < c_readers x /\ w' = setc w (Some (with_readers x (add64 (c_readers x) (-1))))
  | RErr _ w' => w' = w
  | RUB => True
  end.
Proof.
  unfold ctx_restore_read, mbind, getc. destruct (w_ctx w) as [x|] eqn:Hx; auto. cbn. destruct (Z.ltb_spec 0 (c_readers x)); cbn; eauto.
Qed.
(** a call that starts with a check for an even clock may do anything to the clock afterwards *)
Definition keeps_r {A} (m : M A) : Prop := forall w,
  match m w with
  | ROk _ w' | RErr _ w' => forall x', w_ctx w' = Some x' -> exists x, w_ctx w = Some x /\ c_readers x' = c_readers x
  | RUB => True
  end.
Lemma keeps_keeps_r A (m : M A) : keeps m -> keeps_r m.
Proof. intros H w. specialize (H w). destruct (m w); auto; intros x' Hx; destruct (H x' Hx) as (x & ? & ? & _); eauto. Qed.
Lemma keeps_r_bind A B (m : M A) (k : A -> M B) : keeps_r m -> (forall a, keeps_r (k a)) -> keeps_r (mbind m k).
Proof.
  intros Hm Hk w. unfold mbind. specialize (Hm w). destruct (m w) as [a w1|e w1|]; auto.
  specialize (Hk a w1). destruct (k a w1) as [b w2|e w2|]; auto; intros x2 H2; destruct (Hk x2 H2) as (x1 & H1 & E1);
    destruct (Hm x1 H1) as (x & Hx & E); exists x; split; congruence.
Qed.
Lemma keeps_r_getput A (f : ctx -> ctx) (k : M A) : keeps_r k -> (forall x, c_readers (f x) = c_readers x) ->
  keeps_r (mbind getc (fun x => mbind (putc (f x)) (fun _ => k))).
Proof.
  intros Hk Hf1 w. unfold mbind, getc. destruct (w_ctx w) as [x|] eqn:Hx; auto. cbn.
  specialize (Hk (setc w (Some (f x)))). destruct (k _) as [a w1|e w1|]; auto; intros x1 H1; destruct (Hk x1 H1) as (x2 & H2 & E);
    injection H2 as <-; exists x; (split; [auto|rewrite E; apply Hf1]).
Qed.
Lemma keeps_r_put (x0 : ctx) w : w_ctx w = Some x0 -> forall f : ctx -> ctx, (forall x, c_readers (f x) = c_readers x) ->
  forall x', w_ctx (setc w (Some (f x0))) = Some x' -> exists x, w_ctx w = Some x /\ c_readers x' = c_readers x.
Proof. intros Hx f Hf x' [= <-]. eauto. Qed.
Lemma keeps_r_get host : keeps_r (ctx_get host).
Proof.
  intros w. pose proof (get_effect host w) as H. destruct (ctx_get host w) as [p w'|e w'|]; auto.
  - destruct H as (x & Hx & _ & _ & ->). intros x' [= <-]. eauto.
  - subst w'. intros x' Hx. eauto.
Qed.
Lemma keeps_r_restore : keeps_r ctx_restore.
Proof.
  intros w. pose proof (restore_effect w) as H. destruct (ctx_restore w) as [p w'|e w'|]; auto.
  - destruct H as (x & Hx & _ & ->). intros x' [= <-]. eauto.
  - subst w'. intros x' Hx. eauto.
Qed.
Lemma keeps_r_getc {A} (k : ctx -> M A) : (forall x, keeps_r (fun w => match w_ctx w with Some x' => k x w | None => RUB end)) -> keeps_r (mbind getc k).
Proof.
  intros H w. unfold mbind, getc. destruct (w_ctx w) as [x|] eqn:Hx; auto. specialize (H x w). cbn in H. now rewrite Hx in H.
Qed.
Lemma keeps_getc : keeps getc.
Proof. intros w. unfold getc. destruct (w_ctx w) as [x|] eqn:E; auto. intros x' H. exists x. rewrite E in H. injection H as <-. auto. Qed.
Lemma keeps_r_destroy_data : keeps_r destroy_data.
Proof.
  unfold destroy_data. apply keeps_r_bind; [apply keeps_keeps_r, keeps_getc|]. intros x. destruct (c_dtor x) as [d|].
  - apply keeps_r_bind; [apply keeps_r_get|]. intros p. apply keeps_r_bind; [destruct (d_frees d)|].
    + apply keeps_keeps_r, keeps_free.
    + apply keeps_keeps_r, keeps_ret.
    + intros _. apply keeps_r_bind; [apply keeps_keeps_r, keeps_check|]. intros _. apply keeps_r_restore.
  - apply keeps_keeps_r, keeps_ret.
Qed.

(** putting back a context that was just read, with the same number of readers *)
Definition sets (x : ctx) (m : M unit) : Prop := forall w, w_ctx w = Some x ->
  match m w with
  | ROk _ w' | RErr _ w' => forall x', w_ctx w' = Some x' -> c_readers x' = c_readers x
  | RUB => True
  end.
Lemma set_data_ref_r host mode p : keeps_r (set_data_ref host mode p).
Proof.
  intros w. unfold set_data_ref, mbind at 1, getc at 1. destruct (w_ctx w) as [x|] eqn:Hx; auto.
  unfold mbind, check. destruct host; cbn; [|intros x' H; exists x; split; congruence].
  assert (F : match free (c_owned x) w with ROk _ w1 | RErr _ w1 => w_ctx w1 = Some x | RUB => True end).
  { unfold free. destruct (c_owned x) as [a|]; cbn; auto. destruct (w_heap w a); cbn; auto. }
  destruct (free (c_owned x) w) as [u w1|e w1|]; auto.
  2:{ intros x' H. exists x. split; congruence. }
  destruct mode; cbn.
  - pose proof (keeps_mread p 0 (c_size x) w1) as Hm. destruct (mread p 0 (c_size x) w1) as [l w2|e w2|]; auto.
    + intros x' [= <-]. exists x. auto.
    + intros x' H. destruct (Hm x' H) as (x2 & H2 & E & _). exists x. split; congruence.
  - intros x' [= <-]. exists x. auto.
  - intros x' [= <-]. exists x. auto.
Qed.
Lemma set_data_r host mode n p : keeps_r (ctx_set_data host mode n p).
Proof.
  unfold ctx_set_data. apply keeps_r_bind; [apply keeps_keeps_r, keeps_getc|]. intros x.
  apply keeps_r_bind; [apply keeps_keeps_r, keeps_check|]. intros _.
  apply keeps_r_bind; [apply keeps_r_destroy_data|]. intros _.
  apply (keeps_r_getput _ (fun x => with_size x n)); auto.
  apply keeps_r_bind; [apply set_data_ref_r|]. intros _.
  intros w. unfold mbind, getc. destruct (w_ctx w) as [y|] eqn:Hy; cbn; auto. intros x' [= <-]. exists y. auto.
Qed.
Lemma take_r host : keeps (ctx_take host).
Proof.
  intros w. unfold ctx_take, mbind, getc. destruct (w_ctx w) as [x|] eqn:Hx; auto. cbn. unfold check.
  assert (S0 : forall x', w_ctx w = Some x' -> exists x0, Some x = Some x0 /\ c_readers x' = c_readers x0 /\ (even (c_state x0) = false -> c_state x' = c_state x0)).
  { intros x' H. exists x. rewrite Hx in H. injection H as <-. auto. }
  destruct (isSome (c_data x)); cbn; [|auto]. destruct (even (c_state x)); cbn; [|auto].
  destruct host; cbn; [|auto]. destruct (isSome (c_borrowed x)); cbn; [|auto].
  unfold take_data_ref, mbind, check, getc. cbn. rewrite Hx. cbn. intros x' [= <-]. exists x. auto.
Qed.
Lemma destroy_r : keeps_r ctx_destroy.
Proof.
  intros w. unfold ctx_destroy, mbind at 1, getc at 1. destruct (w_ctx w) as [x|] eqn:Hx; auto.
  unfold mbind at 1, putc. cbn [c_refs with_refs].
  set (w1 := setc w (Some (with_refs x (c_refs x - 1)))).
  assert (H1 : forall x', w_ctx w1 = Some x' -> c_readers x' = c_readers x) by (intros x' [= <-]; auto).
  assert (Hx1 : w_ctx w1 = Some (with_refs x (c_refs x - 1))) by reflexivity.
  clearbody w1. destruct (0 <? c_refs x - 1).
  { cbn. intros x' H. exists x. split; auto. }
  unfold mbind at 1, check. cbn [c_state with_refs]. destruct (even (c_state x)).
  2:{ cbn. intros x' H. exists x. split; auto. }
  cbn. unfold mbind at 1. pose proof (keeps_r_destroy_data w1) as D. destruct (destroy_data w1) as [u w2|e w2|]; auto.
  2:{ intros x' H. destruct (D x' H) as (x2 & H2 & E). exists x. split; auto. rewrite E. auto. }
  unfold mbind, getc. destruct (w_ctx w2) as [x2|] eqn:X2; auto.
  pose proof (keeps_free (c_owned x2) w2) as F. destruct (free (c_owned x2) w2) as [u3 w3|e w3|]; auto.
  { cbn. discriminate. }
  intros x' H. destruct (F x' H) as (x3 & H3 & E3 & _). rewrite X2 in H3. destruct (D x3 H3) as (x4 & H4 & E4). exists x. split; auto. rewrite E3, E4. auto.
Qed.
Lemma odd_dtor w x : w_ctx w = Some x -> even (c_state x) = false ->
  match destroy_data w with ROk _ w' | RErr _ w' => w' = w | RUB => True end.
Proof.
  intros Hx He. unfold destroy_data, mbind at 1, getc at 1. rewrite Hx. destruct (c_dtor x) as [d|]; [|reflexivity].
  unfold mbind. now rewrite (odd_get _ w x).
Qed.

(** With an odd clock only CeedQFunctionContextRestoreData touches the clock. *)
Definition stuck {A} (m : M A) : Prop := forall w x, w_ctx w = Some x -> even (c_state x) = false ->
  match m w with
  | ROk _ w' | RErr _ w' => forall x', w_ctx w' = Some x' -> c_state x' = c_state x
  | RUB => True
  end.
Lemma keeps_stuck A (m : M A) : keeps m -> stuck m.
Proof.
  intros H w x Hx He. specialize (H w). destruct (m w) as [a w'|e w'|]; auto; intros x' H'; destruct (H x' H') as (x0 & H0 & _ & S0);
    assert (x0 = x) by congruence; subst x0; auto.
Qed.
Lemma odd_set_field w x l t vals : w_ctx w = Some x -> even (c_state x) = false ->
  match ctx_set_field l t vals w with ROk _ w' | RErr _ w' => w' = w | RUB => True end.
Proof.
  intros Hx He. unfold ctx_set_field. destruct l as [l|]; cbn; auto. unfold ctx_set_generic, ctx_set_at, mbind, deref, mbind, getc. rewrite Hx.
  destruct (nth_error (c_fields x) l) as [f|]; cbn; auto. destruct (ftype_eqb (l_type f) t); cbn; auto.
  unfold ctx_get_read, mbind, getc. rewrite Hx. cbn. rewrite He. cbn. auto.
Qed.
Lemma mread_pure p off n w : (exists l, mread p off n w = ROk l w) \/ mread p off n w = RUB.
Proof.
  unfold mread, mbind, block. destruct p as [a|]; auto. destruct (w_heap w a); auto. destruct (Nat.leb _ _); eauto.
Qed.
Lemma mwrite_pure p off l w : (exists a b, mwrite p off l w = ROk tt (seth w a b)) \/ mwrite p off l w = RUB.
Proof.
  unfold mwrite, mbind, block. destruct p as [a|]; auto. destruct (w_heap w a); auto. destruct (Nat.leb _ _); eauto.
Qed.
Lemma set_field_effect l t vals w x : w_ctx w = Some x -> 0 <= c_readers x < two64 - 1 ->
  match ctx_set_field l t vals w with
  | ROk _ w' => w' = w \/ (exists a b, even (c_state x) = true /\
                           w' = setc (seth w a b) (Some (with_state x (add64 (add64 (c_state x) 1) 1))))
  | RErr _ w' => w' = w
  | RUB => True
  end.
Proof.
  intros Hx Hr. unfold ctx_set_field. destruct l as [l|]; cbn; auto.
  unfold ctx_set_generic, ctx_set_at, mbind, deref, mbind, getc. rewrite Hx.
  destruct (nth_error (c_fields x) l) as [f|]; cbn; auto. destruct (ftype_eqb (l_type f) t); cbn; auto.
  pose proof (get_read_effect true w) as G. destruct (ctx_get_read true w) as [p w1|e w1|]; auto.
  destruct G as (x1 & X1 & E1 & ->). assert (x1 = x) by congruence. subst x1.
  set (w1 := setc w (Some (with_readers x (add64 (c_readers x) 1)))).
  destruct (mread_pure p (l_off f) (l_size f) w1) as [(old & ->) | ->]; auto.
  destruct (Nat.leb (l_size f) (length vals)); cbn [ret]; auto. unfold ret at 1.
  assert (Er : ctx_restore_read w1 = ROk tt w).
  { unfold ctx_restore_read, mbind, getc, w1. cbn. rewrite add64_small by lia.
    replace (0 <? c_readers x + 1) with true by (symmetry; apply Z.ltb_lt; lia). cbn. unfold putc. rewrite setc_setc.
    rewrite (add64_small (c_readers x + 1)) by lia. replace (c_readers x + 1 + -1) with (c_readers x) by lia.
    rewrite set_readers_back. now rewrite setc_self. }
  rewrite Er. destruct (bytes_eqb old (firstn (l_size f) vals)); cbn [ret]; [left; reflexivity|].
  pose proof (get_effect true w) as G. destruct (ctx_get true w) as [q w2|e w2|]; auto.
  destruct G as (x1 & X2 & E2 & E3 & ->). assert (x1 = x) by congruence. subst x1.
  set (w2 := setc w (Some (with_state x (add64 (c_state x) 1)))).
  destruct (mwrite_pure q (l_off f) (firstn (l_size f) vals) w2) as [(a & b & ->) | ->]; auto.
  unfold ctx_restore, mbind, getc. cbn. rewrite even_succ, E2. cbn. right. exists a, b. auto.
Qed.
Lemma get_field_effect l t w : match ctx_get_field l t w with
  | ROk _ w' => exists x, w_ctx w = Some x /\ even (c_state x) = true /\ w' = setc w (Some (with_readers x (add64 (c_readers x) 1)))
  | RErr _ w' => w' = w
  | RUB => True
  end.
Proof.
  unfold ctx_get_field. destruct l as [l|]; [|reflexivity]. unfold ctx_get_generic, ctx_get_at, mbind, deref, mbind, getc.
  destruct (w_ctx w) as [x|] eqn:Hx; auto. destruct (nth_error (c_fields x) l) as [f|]; cbn; auto.
  destruct (ftype_eqb (l_type f) t); cbn; auto.
  pose proof (get_read_effect true w) as G. destruct (ctx_get_read true w) as [p w1|e w1|]; auto. cbn.
  destruct G as (x1 & X1 & E1 & ->). rewrite Hx in X1. injection X1 as <-. eauto.
Qed.
Lemma restore_field_effect l t w : match ctx_restore_field l t w with
  | ROk _ w' => exists x, w_ctx w = Some x /\ 0 < c_readers x /\ w' = setc w (Some (with_readers x (add64 (c_readers x) (-1))))
  | RErr _ w' => w' = w
  | RUB => True
  end.
Proof.
  unfold ctx_restore_field. destruct l as [l|]; [|reflexivity]. unfold ctx_restore_at, mbind, deref, mbind, getc.
  destruct (w_ctx w) as [x|] eqn:Hx; auto. destruct (nth_error (c_fields x) l) as [f|]; cbn; auto.
  destruct (ftype_eqb (l_type f) t); cbn; auto.
  pose proof (restore_read_effect w) as G. now rewrite Hx in G.
Qed.

(** one step *)
Lemma keeps_hinv w w' h k : hinv w h k ->
  (forall x', w_ctx w' = Some x' -> exists x, w_ctx w = Some x /\ c_readers x' = c_readers x /\ (even (c_state x) = false -> c_state x' = c_state x)) ->
  hinv w' h (k + 1).
Proof.
  intros [[Hb Hz] Hi] Hk. split; [split; [lia|auto]|]. intros x' Hx'. destruct (Hk x' Hx') as (x & Hx & E1 & E2). destruct (Hi x Hx) as [I1 I2].
  split; [congruence|]. intros Hh. rewrite E2; auto.
Qed.
Lemma same_hinv w h k : hinv w h k -> hinv w h (k + 1).
Proof. intros H. apply (keeps_hinv w w h k H). intros x' Hx. eauto. Qed.
Lemma mix A (m : M A) w : keeps_r m -> stuck m ->
  match m w with
  | ROk _ w' | RErr _ w' => forall x', w_ctx w' = Some x' -> exists x, w_ctx w = Some x /\ c_readers x' = c_readers x /\ (even (c_state x) = false -> c_state x' = c_state x)
  | RUB => True
  end.
Proof.
  intros H1 H2. specialize (H1 w). specialize (H2 w). destruct (m w) as [a w'|e w'|]; auto; intros x' Hx'; destruct (H1 x' Hx') as (x & Hx & E); exists x; eauto.
Qed.
Lemma stuck_set host mode n p : stuck (ctx_set_data host mode n p).
Proof.
  intros w x Hx He. unfold ctx_set_data, mbind, getc. rewrite Hx. cbn. rewrite He. cbn. intros x' H. congruence.
Qed.
Lemma stuck_destroy : stuck ctx_destroy.
Proof.
  intros w x Hx He. unfold ctx_destroy, mbind, getc. rewrite Hx. cbn. destruct (0 <? c_refs x - 1); cbn.
  - intros x' [= <-]. reflexivity.
  - rewrite He. cbn. intros x' [= <-]. reflexivity.
Qed.
Definition effect (c : cmd) : M obs -> Prop := fun m => forall w h k, hinv w h k -> k + 1 < two64 ->
  match m w with
  | ROk o w' => hinv w' (held1 c (Good o) h) (k + 1)
  | RErr e w' => hinv w' (held1 c (Bad e) h) (k + 1)
  | RUB => True
  end.
Lemma plain c (m : M obs) : keeps_r m -> stuck m -> (forall r h, held1 c r h = h) -> effect c m.
Proof.
  intros H1 H2 Hh w h k Hi _. pose proof (mix _ m w H1 H2) as H. destruct (m w) as [o w'|e w'|]; auto; rewrite Hh; eapply keeps_hinv; eauto.
Qed.
Lemma done_r A (m : M A) : keeps_r m -> keeps_r (done m).
Proof. intros H. apply keeps_r_bind; auto. intros a. apply keeps_keeps_r, keeps_ret. Qed.
Lemma done_stuck A (m : M A) : stuck m -> stuck (done m).
Proof. intros H w x Hx He. specialize (H w x Hx He). unfold done, mbind. destruct (m w); auto. Qed.
Lemma done_keeps A (m : M A) : keeps m -> keeps (done m).
Proof. intros H. apply keeps_bind; auto. intros a. apply keeps_ret. Qed.
Lemma plain_keeps c (m : M obs) : keeps m -> (forall r h, held1 c r h = h) -> effect c m.
Proof. intros H. apply plain; [now apply keeps_keeps_r|now apply keeps_stuck]. Qed.
Lemma keeps_src p : keeps (src_ptr p).
Proof. intros w. destruct p; intros x' H; eauto. Qed.

Lemma hold_read w x h k : hinv w h k -> w_ctx w = Some x -> even (c_state x) = true -> k + 1 < two64 -> forall wp rp hp,
  hinv (mkW (Some (with_readers x (add64 (c_readers x) 1))) hp (w_nl w) (w_nu w) wp rp) (fst h, snd h + 1) (k + 1).
Proof.
  intros [[Hb Hz] Hi] Hx He Hk wp rp hp. destruct (Hi x Hx) as [I1 I2]. split; cbn; [split; [lia|]|].
  - intros Hh. rewrite (I2 Hh) in He. discriminate.
  - intros x' [= <-]. cbn. rewrite I1, add64_small by lia. auto.
Qed.
Lemma unhold_read w x h k : hinv w h k -> w_ctx w = Some x -> 0 < c_readers x -> k + 1 < two64 ->
  hinv (setc w (Some (with_readers x (add64 (c_readers x) (-1))))) (fst h, snd h - 1) (k + 1).
Proof.
  intros [[Hb Hz] Hi] Hx He Hk. destruct (Hi x Hx) as [I1 I2]. split; cbn; [split; [lia|]|].
  - intros Hh. specialize (Hz Hh). lia.
  - intros x' [= <-]. cbn. rewrite I1, add64_small by lia. auto.
Qed.

Lemma step_effect c : effect c (step c).
Proof.
  destruct c; cbn [step].
  - apply plain; auto.
    + apply keeps_r_bind; [apply keeps_keeps_r, keeps_src|]. intros p. apply done_r, set_data_r.
    + intros w x Hx He. destruct s; apply (done_stuck _ _ (stuck_set host mode size _) w x Hx He).
    + now intros [] [].
  - apply plain_keeps; [|now intros [] []]. apply keeps_bind; [apply take_r|]. intros p. apply keeps_ret.
  - intros w h k Hi Hk. unfold mbind. pose proof (get_effect host w) as G. destruct (ctx_get host w) as [p w'|e w'|]; auto.
    + destruct G as (x & Hx & He & Hr & ->). cbn. destruct Hi as [[Hb Hz] Hi]. destruct (Hi x Hx) as [I1 I2]. split; cbn; [split; [lia|congruence]|].
      intros x' [= <-]. cbn. split; auto. intros _. rewrite even_succ, He. reflexivity.
    + subst w'. now apply same_hinv.
  - intros w h k Hi Hk. unfold mbind. pose proof (get_read_effect host w) as G. destruct (ctx_get_read host w) as [p w'|e w'|]; auto.
    + destruct G as (x & Hx & He & ->). cbn. eapply hold_read; eauto.
    + subst w'. now apply same_hinv.
  - intros w h k Hi Hk. unfold done, mbind. pose proof (restore_effect w) as G. destruct (ctx_restore w) as [p w'|e w'|]; auto.
    + destruct G as (x & Hx & He & ->). cbn. destruct Hi as [[Hb Hz] Hi]. destruct (Hi x Hx) as [I1 I2]. split; cbn; [split; [lia|discriminate]|].
      intros x' [= <-]. cbn. split; auto. discriminate.
    + subst w'. now apply same_hinv.
  - intros w h k Hi Hk. unfold done, mbind. pose proof (restore_read_effect w) as G. destruct (ctx_restore_read w) as [p w'|e w'|]; auto.
    + destruct G as (x & Hx & He & ->). cbn. eapply unhold_read; eauto.
    + subst w'. now apply same_hinv.
  - apply plain_keeps; [|now intros [] []]. apply done_keeps. intros w. unfold ctx_register, mbind, getc.
    destruct (w_ctx w) as [x|] eqn:Hx; auto. unfold check. destruct (field_index 0 (c_fields x) name None); cbn.
    + intros x' H. exists x. rewrite Hx in H. injection H as <-. auto.
    + intros x' [= <-]. exists x. auto.
  - apply plain_keeps; [|now intros [] []]. apply keeps_bind; [|intros; apply keeps_ret]. apply keeps_bind; [apply keeps_getc|]. intros; apply keeps_ret.
  - intros w h k Hi Hk. unfold done, mbind. destruct (w_ctx w) as [x|] eqn:Hx.
    + pose proof Hi as [[Hb Hz] Hi']. destruct (Hi' x Hx) as [I1 I2].
      pose proof (set_field_effect l t vals w x Hx ltac:(lia)) as E.
      destruct (ctx_set_field l t vals w) as [u w'|e w'|]; auto; cbn.
      * destruct E as [-> | (a & b & E1 & ->)]; [now apply same_hinv|]. split; [split; [lia|auto]|]. intros x' [= <-]. cbn. split; auto.
        intros Hh. rewrite (I2 Hh) in E1. discriminate.
      * subst w'. now apply same_hinv.
    + unfold ctx_set_field. destruct l as [l|]; cbn; [|now apply same_hinv]. unfold ctx_set_generic, ctx_set_at, mbind, deref, mbind, getc. now rewrite Hx.
  - intros w h k Hi Hk. unfold mbind. pose proof (get_field_effect l t w) as G. destruct (ctx_get_field l t w) as [[[p off] n] w'|e w'|]; auto.
    + destruct G as (x & Hx & He & ->). cbn.
      match goal with |- context [mread ?p ?o ?n ?w] => destruct (mread_pure p o n w) as [(v & ->) | ->] end; auto.
      cbn. eapply hold_read; eauto.
    + subst w'. now apply same_hinv.
  - intros w h k Hi Hk. unfold done, mbind. pose proof (restore_field_effect l t w) as G. destruct (ctx_restore_field l t w) as [p w'|e w'|]; auto.
    + destruct G as (x & Hx & He & ->). cbn. eapply unhold_read; eauto.
    + subst w'. now apply same_hinv.
  - apply plain_keeps; [|now intros [] []]. apply done_keeps. apply keeps_bind; [apply keeps_check|]. intros _ w. unfold mbind, getc.
    destruct (w_ctx w) as [x|] eqn:Hx; auto. intros x' [= <-]. exists x. auto.
  - apply plain_keeps; [|now intros [] []]. apply done_keeps. intros w. unfold ctx_reference, mbind, getc.
    destruct (w_ctx w) as [x|] eqn:Hx; auto. intros x' [= <-]. exists x. auto.
  - apply plain; [apply done_r, destroy_r|apply done_stuck, stuck_destroy|now intros [] []].
  - apply plain_keeps; [|now intros [] []]. apply keeps_bind; [apply keeps_getc|]. intros; apply keeps_ret.
  - apply plain_keeps; [|now intros [] []]. apply keeps_bind; [apply keeps_getc|]. intros; apply keeps_ret.
  - apply plain_keeps; [|now intros [] []]. intros w x' Hx. exists x'. auto.
  - apply plain_keeps; [|now intros [] []]. apply done_keeps, keeps_free.
  - apply plain_keeps; [|now intros [] []]. apply keeps_bind; [apply keeps_mread|]. intros [|b l]; [apply keeps_ub|apply keeps_ret].
  - apply plain_keeps; [|now intros [] []]. apply done_keeps, keeps_mwrite.
  - apply plain_keeps; [|now intros [] []]. intros w. apply (keeps_bind _ _ (mread (w_rptr w) i 1)); [apply keeps_mread|]. intros [|b l]; [apply keeps_ub|apply keeps_ret].
  - apply plain_keeps; [|now intros [] []]. intros w. apply (done_keeps _ (mwrite (w_wptr w) i [b])), keeps_mwrite.
  - apply plain_keeps; [|now intros [] []]. intros w. apply (keeps_bind _ _ (mread (w_wptr w) i 1)); [apply keeps_mread|]. intros [|b l]; [apply keeps_ub|apply keeps_ret].
Qed.
Lemma run_held cs : forall w rs w' h k, hinv w h k -> k + Z.of_nat (length cs) < two64 -> run cs w = Some (rs, w') ->
  hinv w' (held cs rs h) (k + Z.of_nat (length cs)).
Proof.
  induction cs as [|c cs IH]; intros w rs w' h k Hi Hk; cbn [run].
  - intros [= <- <-]. cbn. now rewrite Z.add_0_r.
  - cbn [length] in *. rewrite Nat2Z.inj_succ in *. pose proof (step_effect c w h k Hi ltac:(lia)) as H.
    destruct (step c w) as [o w1|e w1|]; [| |discriminate].
    + destruct (run cs w1) as [[os w2]|] eqn:E; [|discriminate]. intros [= <- <-]. cbn.
      replace (k + Z.succ (Z.of_nat (length cs))) with (k + 1 + Z.of_nat (length cs)) by lia. eapply IH; eauto. lia.
    + destruct (run cs w1) as [[os w2]|] eqn:E; [|discriminate]. intros [= <- <-]. cbn.
      replace (k + Z.succ (Z.of_nat (length cs))) with (k + 1 + Z.of_nat (length cs)) by lia. eapply IH; eauto. lia.
Qed.

(** One writer or any number of readers, after every history that did not meet undefined behaviour: while the client holds write access
    there is no reader, and nothing that asks for access or for new data is granted; while there are readers no write access is granted. *)
Definition granted (c : cmd) (w : world) : Prop := exists o w', step c w = ROk o w'.
Definition C23_exclusive_at (w : world) (h : bool * Z) : Prop :=
  let '(writer, readers) := h in
  0 <= readers /\
  (writer = true -> readers = 0) /\
  (writer = true -> forall c, match c with KGet _ | KGetRead _ | KSet _ _ _ _ | KTake _ | KSetField _ _ _ | KGetField _ _ | KRestoreRead => True | _ => False end ->
                    ~ granted c w) /\
  (0 < readers -> forall host, ~ granted (KGet host) w) /\
  (readers = 0 -> ~ granted KRestoreRead w).
Lemma odd_refuses c w x : w_ctx w = Some x -> even (c_state x) = false -> c_readers x = 0 ->
  match c with KGet _ | KGetRead _ | KSet _ _ _ _ | KTake _ | KSetField _ _ _ | KGetField _ _ | KRestoreRead => True | _ => False end -> ~ granted c w.
Proof.
  intros Hx He Hr Hc (o & w' & H). destruct c; try contradiction; cbn [step] in H; unfold done, mbind in H.
  - assert (forall p, ctx_set_data host mode size p w = RErr ERR_MINOR w).
    { intros p. unfold ctx_set_data, mbind, getc. rewrite Hx. cbn. now rewrite He. }
    unfold src_ptr in H. destruct s; rewrite H0 in H; discriminate.
  - unfold ctx_take, mbind, getc in H. rewrite Hx in H. cbn in H. destruct (isSome (c_data x)); cbn in H; [|discriminate]. now rewrite He in H.
  - rewrite (odd_get _ w x) in H by auto. discriminate.
  - pose proof (get_read_effect host w) as G. destruct (ctx_get_read host w); try discriminate. destruct G as (x1 & H1 & H2 & _). congruence.
  - unfold ctx_restore_read, mbind, getc in H. rewrite Hx in H. cbn in H. now rewrite Hr in H.
  - unfold ctx_set_field in H. destruct l as [l|]; [|discriminate]. unfold ctx_set_generic, ctx_set_at, mbind, deref, mbind, getc in H. rewrite Hx in H.
    destruct (nth_error (c_fields x) l) as [f|]; cbn in H; [|discriminate]. destruct (ftype_eqb (l_type f) t); cbn in H; [|discriminate].
    pose proof (get_read_effect true w) as G. destruct (ctx_get_read true w); try discriminate. destruct G as (x1 & H1 & H2 & _). congruence.
  - pose proof (get_field_effect l t w) as G. destruct (ctx_get_field l t w); try discriminate. destruct G as (x1 & H1 & H2 & _). congruence.
Qed.
Theorem C23_exclusive : forall cs rs w, run cs new_world = Some (rs, w) -> Z.of_nat (length cs) < two64 ->
  C23_exclusive_at w (held cs rs (false, 0)).
Proof.
  intros cs rs w Hrun Hlen.
  assert (H0 : hinv new_world (false, 0) 0).
  { split; cbn; [split; [lia|discriminate]|]. intros x [= <-]. cbn. split; auto. }
  pose proof (run_held cs new_world rs w (false, 0) 0 H0 ltac:(lia) Hrun) as [[Hb Hz] Hi].
  destruct (held cs rs (false, 0)) as [wr r] eqn:E. unfold C23_exclusive_at. cbn [fst snd] in *.
  destruct (w_ctx w) as [x|] eqn:Hx.
  - destruct (Hi x eq_refl) as [I1 I2]. split; [lia|]. split; [auto|]. split; [|split].
    + intros Hw c Hc. apply (odd_refuses c w x); try tauto. rewrite I1. tauto.
    + intros Hp host (o & w' & H). cbn [step] in H. unfold mbind in H.
      pose proof (get_effect host w) as G. destruct (ctx_get host w); try discriminate. destruct G as (x1 & H1 & _ & H2 & _). assert (x1 = x) by congruence. subst. lia.
    + intros Hz0 (o & w' & H). cbn [step] in H. unfold done, mbind in H.
      pose proof (restore_read_effect w) as G. destruct (ctx_restore_read w); try discriminate. destruct G as (x1 & H1 & H2 & _). assert (x1 = x) by congruence. subst. lia.
  - assert (N : forall c, match c with KGet _ | KGetRead _ | KSet _ _ _ _ | KTake _ | KSetField _ _ _ | KGetField _ _ | KRestoreRead => True | _ => False end -> ~ granted c w).
    { intros c Hc (o & w' & H). destruct c; try contradiction; cbn [step] in H; unfold done, mbind in H.
      - unfold src_ptr in H. unfold ctx_set_data, mbind, getc in H. destruct s; rewrite Hx in H; discriminate.
      - unfold ctx_take, mbind, getc in H. rewrite Hx in H. discriminate.
      - unfold ctx_get, mbind, getc in H. rewrite Hx in H. discriminate.
      - unfold ctx_get_read, mbind, getc in H. rewrite Hx in H. discriminate.
      - unfold ctx_restore_read, mbind, getc in H. rewrite Hx in H. discriminate.
      - unfold ctx_set_field in H. destruct l as [l|]; [|discriminate]. unfold ctx_set_generic, ctx_set_at, mbind, deref, mbind, getc in H. rewrite Hx in H. discriminate.
      - unfold ctx_get_field in H. destruct l as [l|]; [|discriminate]. unfold ctx_get_generic, ctx_get_at, mbind, deref, mbind, getc in H. rewrite Hx in H. discriminate. }
    repeat split; auto; try lia; intros; apply N; exact I.
Qed.
