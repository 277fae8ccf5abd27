(** * Labels of operators: what the routines do to the contexts *)
From Coq Require Import List ZArith Lia Bool Arith.
From Verif Require Import Prelude RstrModel StrModel CtxModel CtxSpec CtxProofs CtxProps CtxField LabelModel.
Import ListNotations.
Local Open Scope Z_scope.

(** ** One context: fields are never changed or dropped *)
Definition fwf (f : label) : Prop := l_size f = (fsize (l_type f) * l_num f)%nat.
Definition F (l0 : list label) (w : world) : Prop := forall x, w_ctx w = Some x -> c_fields x = l0.
Definition KF {A} (l0 : list label) (m : M A) : Prop := forall w, F l0 w -> match m w with ROk _ w' | RErr _ w' => F l0 w' | RUB => True end.
Lemma KF_bind A B l0 (m : M A) (k : A -> M B) : KF l0 m -> (forall a, KF l0 (k a)) -> KF l0 (mbind m k).
Proof. intros Hm Hk w Hw. unfold mbind. specialize (Hm w Hw). destruct (m w); auto. now apply Hk. Qed.
Lemma KF_getc B l0 (k : ctx -> M B) : (forall x, c_fields x = l0 -> KF l0 (k x)) -> KF l0 (mbind getc k).
Proof. intros Hk w Hw. unfold mbind, getc. destruct (w_ctx w) eqn:E; auto. apply Hk; auto. Qed.
Lemma KF_putc l0 y : c_fields y = l0 -> KF l0 (putc y).
Proof. intros Hy w Hw x Hx. cbn in Hx. congruence. Qed.
Lemma KF_pure A l0 (m : M A) : (forall w, match m w with ROk _ w' | RErr _ w' => w_ctx w' = w_ctx w | RUB => True end) -> KF l0 m.
Proof. intros H w Hw. specialize (H w). destruct (m w); auto; intros x Hx; apply Hw; congruence. Qed.
Lemma KF_ret A l0 (a : A) : KF l0 (ret a). Proof. now apply KF_pure. Qed.
Lemma KF_fail A l0 e : KF l0 (@fail A e). Proof. now apply KF_pure. Qed.
Lemma KF_ub A l0 : KF l0 (fun _ => @RUB A). Proof. now apply KF_pure. Qed.
Lemma KF_check l0 b e : KF l0 (check b e). Proof. destruct b; now apply KF_pure. Qed.
Lemma KF_free l0 p : KF l0 (free p).
Proof. apply KF_pure. intros w. unfold free. destruct p as [a|]; auto. destruct (w_heap w a); auto. Qed.
Lemma KF_block l0 p : KF l0 (block p).
Proof. apply KF_pure. intros w. unfold block. destruct p as [a|]; auto. destruct (w_heap w a); auto. Qed.
Lemma KF_mread l0 p off n : KF l0 (mread p off n).
Proof. apply KF_pure. intros w. destruct (mread_pure p off n w) as [(l & ->) | ->]; auto. Qed.
Lemma KF_mwrite l0 p off l : KF l0 (mwrite p off l).
Proof. apply KF_pure. intros w. destruct (mwrite_pure p off l w) as [(a & b & ->) | ->]; auto. Qed.
Lemma KF_malloc l0 l : KF l0 (malloc_copy l). Proof. now apply KF_pure. Qed.
Lemma KF_gone l0 : KF l0 (fun w => ROk tt (setc w None)).
Proof. intros w Hw x Hx. discriminate. Qed.
Lemma KF_src l0 s : KF l0 (src_ptr s). Proof. apply KF_pure. intros w. destruct s; reflexivity. Qed.
Lemma KF_wptr l0 p : KF l0 (set_wptr p). Proof. now apply KF_pure. Qed.
Lemma KF_rptr l0 p : KF l0 (set_rptr p). Proof. now apply KF_pure. Qed.
Ltac kf :=
  repeat first
  [ apply KF_getc; intros ? ? | apply KF_putc; assumption | apply KF_ret | apply KF_fail | apply KF_ub | apply KF_check | apply KF_free | apply KF_mread | apply KF_mwrite
  | apply KF_malloc | apply KF_gone | apply KF_src | apply KF_wptr | apply KF_rptr
  | match goal with
    | |- KF _ (mbind _ _) => apply KF_bind; [|intros]
    | |- KF _ (if ?b then _ else _) => destruct b
    | |- KF _ (match ?x with _ => _ end) => destruct x
    end ].
Ltac kfu := unfold done, ctx_destroy, ctx_set_data, ctx_set_field, ctx_set_generic, ctx_get_field, ctx_get_generic, ctx_restore_field,
  ctx_set_at, ctx_get_at, ctx_restore_at, destroy_data, ctx_take, take_data_ref, set_data_ref, ctx_get, ctx_get_read, get_data_ref, ctx_restore, ctx_restore_read,
  ctx_label, deref, ctx_set_dtor, ctx_reference, read1; cbv zeta; kf.
Lemma KF_set_at l0 f t vals : KF l0 (ctx_set_at f t vals). Proof. kfu. Qed.
Lemma KF_get_at l0 f t : KF l0 (ctx_get_at f t). Proof. kfu. Qed.
Lemma KF_restore_at l0 f t : KF l0 (ctx_restore_at f t). Proof. kfu. Qed.
Lemma KF_reference l0 : KF l0 ctx_reference. Proof. kfu. Qed.
Lemma KF_destroy l0 : KF l0 ctx_destroy. Proof. kfu. Qed.
Lemma KF_deref l0 l : KF l0 (deref l). Proof. kfu. Qed.
Lemma KF_label l0 n : KF l0 (ctx_label n). Proof. kfu. Qed.
(** [w'] holds the fields of [w] and perhaps more, all of matching size *)
Definition pre (w w' : world) : Prop := forall x', w_ctx w' = Some x' -> exists x, w_ctx w = Some x /\ exists l, c_fields x' = c_fields x ++ l /\ Forall fwf l.
Lemma pre_refl w : pre w w.
Proof. intros x Hx. exists x. split; auto. exists []. rewrite app_nil_r. auto. Qed.
Lemma pre_trans a b c : pre a b -> pre b c -> pre a c.
Proof.
  intros H1 H2 x Hx. destruct (H2 x Hx) as (y & Hy & l & E & W). destruct (H1 y Hy) as (z & Hz & l' & E' & W').
  exists z. split; auto. exists (l' ++ l). rewrite E, E', app_assoc. split; auto. apply Forall_app; auto.
Qed.
Lemma KF_pre A (m : M A) w : (forall l0, KF l0 m) -> match m w with ROk _ w' | RErr _ w' => pre w w' | RUB => True end.
Proof.
  intros H. destruct (w_ctx w) as [x|] eqn:Hx.
  - specialize (H (c_fields x) w). assert (F (c_fields x) w) as Fw by (intros y Hy; congruence). specialize (H Fw).
    destruct (m w); auto; intros x' Hx'; exists x; split; auto; exists []; rewrite app_nil_r; auto.
  - assert (forall l0, F l0 w) as Fw by (intros l0 y Hy; congruence). pose proof (fun l0 => H l0 w (Fw l0)) as G.
    destruct (m w) as [a w'|e w'|]; auto; intros x' Hx'; pose proof (G [] x' Hx') as G1;
      pose proof (G [mkL [] FBool 0 0 0] x' Hx') as G2; congruence.
Qed.
Lemma step_pre k w : match step k w with ROk _ w' | RErr _ w' => pre w w' | RUB => True end.
Proof.
  destruct k.
  7: { cbn [step]. unfold done, ctx_register, mbind, getc. destruct (w_ctx w) as [x|] eqn:Hx; auto.
       destruct (field_index 0 (c_fields x) name None); cbn; [apply pre_refl|]. intros x' Hx'. cbn in Hx'. injection Hx' as <-. exists x. split; auto.
       cbn. eexists. split; [reflexivity|]. repeat constructor. }
  all: try (apply KF_pre; intros l0; cbn [step]; kfu; fail).
  - cbn [step]. apply pre_refl || (intros x Hx; cbn in Hx; exists x; split; auto; exists []; rewrite app_nil_r; auto).
  - apply KF_pre. intros l0 w0 Fw. cbn [step]. revert Fw. generalize (w_rptr w0). intros p Fw. assert (KF l0 (read1 p i)) as K by kfu. now apply K.
  - apply KF_pre. intros l0 w0 Fw. cbn [step]. revert Fw. generalize (w_wptr w0). intros p Fw. assert (KF l0 (done (mwrite p i [b]))) as K by kfu. now apply K.
  - apply KF_pre. intros l0 w0 Fw. cbn [step]. revert Fw. generalize (w_wptr w0). intros p Fw. assert (KF l0 (read1 p i)) as K by kfu. now apply K.
Qed.

(** ** One context: setting a field, in closed form *)
Definition set_eval (f : label) (t : ftype) (vals : bytes) (w : world) (x : ctx) : out unit :=
  if negb (ftype_eqb (l_type f) t) then RErr ERR_UNSUPPORTED w
  else if negb (even (c_state x)) then RErr ERR_MINOR w
  else match c_data x with
       | None => RErr ERR_BACKEND w
       | Some a =>
         match w_heap w a with
         | None => RUB
         | Some l =>
           if Nat.leb (l_off f + l_size f) (length l) then
             if Nat.leb (l_size f) (length vals) then
               if bytes_eqb (slice l (l_off f) (l_size f)) (firstn (l_size f) vals) then ROk tt w
               else if c_readers x =? 0
                    then ROk tt (setc (seth w a (Some (splice l (l_off f) (firstn (l_size f) vals)))) (Some (with_state x (add64 (add64 (c_state x) 1) 1))))
                    else RErr ERR_MINOR w
             else RUB
           else RUB
         end
       end.
Lemma set_at_eval f t vals w x : w_ctx w = Some x -> 0 <= c_readers x < two64 - 1 -> ctx_set_at f t vals w = set_eval f t vals w x.
Proof.
  intros Hx Hr. unfold ctx_set_at, set_eval, mbind at 1. destruct (ftype_eqb (l_type f) t); cbn [check negb]; [|reflexivity]. unfold ret at 1.
  unfold mbind at 1. unfold ctx_get_read, mbind at 1, getc at 1. rewrite Hx. unfold mbind at 1. destruct (even (c_state x)) eqn:Ev; cbn [check negb]; [|reflexivity].
  unfold ret at 1, mbind at 1. destruct (c_data x) as [a|] eqn:Ed; cbn [isSome check]; [|reflexivity]. unfold ret at 1. unfold mbind at 1, get_data_ref, mbind at 1.
  cbn [check]. unfold ret at 1, mbind at 1, getc at 1. rewrite Hx. unfold ret at 1, mbind at 1, getc at 1. rewrite Hx. unfold mbind at 1, putc, ret at 1.
  set (w1 := setc w (Some (with_readers x (add64 (c_readers x) 1)))). unfold mbind at 1, mread at 1, mbind at 1, block at 1.
  replace (w_heap w1 a) with (w_heap w a) by reflexivity. rewrite Ed. replace (w_heap w1 a) with (w_heap w a) by reflexivity. destruct (w_heap w a) as [l|] eqn:Eh; [|reflexivity]. cbn [snd].
  destruct (Nat.leb _ (length l)) eqn:El; [|reflexivity]. unfold ret at 1, mbind at 1. destruct (Nat.leb _ (length vals)) eqn:Evl; [|reflexivity].
  unfold ret at 1, mbind at 1.
  assert (Er : ctx_restore_read w1 = ROk tt w).
  { unfold ctx_restore_read, mbind, getc, w1. cbn. rewrite add64_small by lia.
    replace (0 <? c_readers x + 1) with true by (symmetry; apply Z.ltb_lt; lia). cbn. unfold putc. rewrite setc_setc.
    rewrite (add64_small (c_readers x + 1)) by lia. replace (c_readers x + 1 + -1) with (c_readers x) by lia.
    rewrite set_readers_back. now rewrite setc_self. }
  rewrite Er. fold (slice l (l_off f) (l_size f)). destruct (bytes_eqb _ _); [reflexivity|].
  unfold mbind at 1, ctx_get, mbind at 1, getc at 1. rewrite Hx. unfold mbind at 1. rewrite Ev. cbn [check]. unfold ret at 1, mbind at 1.
  destruct (c_readers x =? 0); cbn [check]; [|reflexivity]. unfold ret at 1, mbind at 1. rewrite Ed. cbn [isSome check]. unfold ret at 1, mbind at 1.
  unfold get_data_ref, mbind at 1. cbn [check]. unfold ret at 1, mbind at 1, getc at 1. rewrite Hx. unfold ret at 1, mbind at 1, getc at 1. rewrite Hx.
  unfold mbind at 1, putc, ret at 1. unfold mbind at 1. unfold mwrite, mbind at 1, block. rewrite Ed. cbn [setc w_heap]. rewrite Eh. cbn [fst snd].
  replace (Nat.leb _ (length l)) with true.
  2:{ symmetry. apply Nat.leb_le. apply Nat.leb_le in El, Evl. rewrite firstn_length. lia. }
  unfold ctx_restore, mbind at 1, getc. cbn [seth setc w_ctx]. unfold mbind. cbn [with_state c_state]. rewrite even_succ, Ev. cbn [negb check]. unfold ret, putc. reflexivity.
Qed.
Lemma slice_splice l off v : (off + length v <= length l)%nat -> slice (splice l off v) off (length v) = v.
Proof.
  intros H. unfold slice, splice. rewrite skipn_app, skipn_all2 by (rewrite firstn_length; lia). rewrite firstn_length, Nat.min_l by lia.
  rewrite Nat.sub_diag. cbn [app skipn]. rewrite firstn_app, Nat.sub_diag, firstn_all, firstn_O. apply app_nil_r.
Qed.

(** a context nobody is about to drop *)
Definition kept (w : world) : Prop := exists x, w_ctx w = Some x /\ 1 <= c_refs x /\ 0 <= c_readers x < two64 - 1.
Definition bump (w : world) : world := match w_ctx w with Some x => setc w (Some (with_refs x (c_refs x + 1))) | None => w end.
Lemma reference_bump w : kept w -> ctx_reference w = ROk tt (bump w).
Proof. intros (x & Hx & _). unfold ctx_reference, mbind, getc, bump. now rewrite Hx. Qed.
Lemma refs_back x : with_refs (with_refs x (c_refs x + 1)) (c_refs x + 1 - 1) = x.
Proof. destruct x; unfold with_refs; cbn. f_equal. lia. Qed.
Lemma destroy_bump w : kept w -> ctx_destroy (bump w) = ROk tt w.
Proof.
  intros (x & Hx & Hr & _). unfold ctx_destroy, mbind, getc, bump. rewrite Hx. cbn [setc w_ctx]. unfold putc. cbn [with_refs c_refs].
  replace (0 <? c_refs x + 1 - 1) with true by (symmetry; apply Z.ltb_lt; lia). rewrite setc_setc. unfold ret. f_equal.
  change (mkC (c_state x) (c_readers x) (c_refs x + 1) (c_size x) (c_owned x) (c_borrowed x) (c_data x) (c_fields x) (c_dtor x)) with (with_refs x (c_refs x + 1)).
  rewrite refs_back. now apply setc_self.
Qed.
Lemma kept_bump w : kept w -> kept (bump w).
Proof. intros (x & Hx & H1 & H2). unfold bump. rewrite Hx. exists (with_refs x (c_refs x + 1)). cbn. split; auto. split; auto. lia. Qed.
Definition omap (g : world -> world) {A} (o : out A) : out A := match o with ROk a w => ROk a (g w) | RErr e w => RErr e (g w) | RUB => RUB end.
Lemma set_at_bump f t vals w : kept w -> ctx_set_at f t vals (bump w) = omap bump (ctx_set_at f t vals w).
Proof.
  intros (x & Hx & Hr & Hd). rewrite (set_at_eval f t vals w x Hx Hd).
  rewrite (set_at_eval f t vals (bump w) (with_refs x (c_refs x + 1))); [|unfold bump; now rewrite Hx|auto].
  unfold set_eval. cbn [with_refs c_state c_readers c_data]. destruct (negb (ftype_eqb (l_type f) t)); [reflexivity|]. destruct (negb (even (c_state x))); [reflexivity|].
  destruct (c_data x) as [a|]; [|reflexivity]. replace (w_heap (bump w) a) with (w_heap w a) by (unfold bump; now rewrite Hx).
  destruct (w_heap w a) as [l|]; [|reflexivity]. destruct (Nat.leb _ (length l)); [|reflexivity]. destruct (Nat.leb _ (length vals)); [|reflexivity].
  destruct (bytes_eqb _ _); [reflexivity|]. destruct (c_readers x =? 0); [|reflexivity]. cbn [omap]. unfold bump. rewrite Hx. reflexivity.
Qed.
(** the field holds [v] and may be read *)
Definition has_val (f : label) (t : ftype) (v : bytes) (w : world) : Prop := exists x a l, w_ctx w = Some x /\ l_type f = t /\ even (c_state x) = true /\
  c_data x = Some a /\ w_heap w a = Some l /\ (l_off f + l_size f <= length l)%nat /\ slice l (l_off f) (l_size f) = v.
Lemma set_at_inv f t vals w w' : kept w -> ctx_set_at f t vals w = ROk tt w' ->
  (l_size f <= length vals)%nat /\ has_val f t (firstn (l_size f) vals) w' /\ kept w' /\ (forall l0, F l0 w -> F l0 w').
Proof.
  intros K E0. pose proof (KF_set_at) as KFs. assert (Hf : forall l0, F l0 w -> F l0 w') by (intros l0 H; specialize (KFs l0 f t vals w H); now rewrite E0 in KFs).
  destruct K as (x & Hx & H1 & Hd). rewrite (set_at_eval f t vals w x Hx Hd) in E0. revert E0.
  unfold set_eval. destruct (ftype_eqb (l_type f) t) eqn:Et; [|discriminate]. cbn [negb].
  destruct (even (c_state x)) eqn:Ev; [|discriminate]. cbn [negb]. destruct (c_data x) as [a|] eqn:Ed; [|discriminate]. destruct (w_heap w a) as [l|] eqn:Eh; [|discriminate].
  destruct (Nat.leb_spec (l_off f + l_size f) (length l)); [|discriminate]. destruct (Nat.leb_spec (l_size f) (length vals)); [|discriminate].
  apply ftype_eqb_eq in Et. assert (Ln : length (firstn (l_size f) vals) = l_size f) by (rewrite firstn_length; lia).
  destruct (bytes_eqb _ _) eqn:Eb.
  - intros E; injection E as <-. split; auto. apply bytes_eqb_eq in Eb. split; [exists x, a, l; repeat split; auto|]. split; auto. exists x; auto.
  - destruct (c_readers x =? 0) eqn:Er; [|discriminate]. intros E; injection E as <-. split; auto. split; [|split; auto].
    + eexists. exists a. eexists. split; [reflexivity|]. split; [auto|]. cbn [with_state c_state c_data setc seth w_heap]. split; [now rewrite !even_succ, Ev|].
      split; [auto|]. split; [apply hupd_same|]. split; [rewrite len_splice; lia|]. rewrite <- Ln at 2. apply slice_splice. lia.
    + eexists. split; [reflexivity|]. cbn. auto.
Qed.
Lemma set_at_same f t vals w : kept w -> (l_size f <= length vals)%nat -> has_val f t (firstn (l_size f) vals) w -> ctx_set_at f t vals w = ROk tt w.
Proof.
  intros (x & Hx & H1 & Hd) Hl (x' & a & l & Hx' & Et & Ev & Ed & Eh & Hle & Es). assert (x' = x) by congruence. subst x'.
  rewrite (set_at_eval f t vals w x Hx Hd). unfold set_eval. replace (ftype_eqb (l_type f) t) with true by (subst t; now destruct (l_type f)). rewrite Ev, Ed, Eh. cbn [negb].
  destruct (Nat.leb_spec (l_off f + l_size f) (length l)); [|lia]. destruct (Nat.leb_spec (l_size f) (length vals)); [|lia]. rewrite Es.
  replace (bytes_eqb _ _) with true; auto. symmetry. now apply bytes_eqb_eq.
Qed.
(** the conditions under which a value can be set *)
Definition settable (f : label) (t : ftype) (vals : bytes) (w : world) : Prop := exists x a l, w_ctx w = Some x /\ l_type f = t /\ even (c_state x) = true /\ c_readers x = 0 /\
  c_data x = Some a /\ w_heap w a = Some l /\ (l_off f + l_size f <= length l)%nat /\ (l_size f <= length vals)%nat.
Lemma set_at_do f t vals w : settable f t vals w -> exists w', ctx_set_at f t vals w = ROk tt w'.
Proof.
  intros (x & a & l & Hx & Et & Ev & Er & Ed & Eh & Hle & Hl). assert (0 <= c_readers x < two64 - 1) as Hd by (rewrite Er; unfold VecModel.two64; lia).
  rewrite (set_at_eval f t vals w x Hx Hd). unfold set_eval. replace (ftype_eqb (l_type f) t) with true by (subst t; now destruct (l_type f)). rewrite Ev, Ed, Eh, Er. cbn [negb].
  destruct (Nat.leb_spec (l_off f + l_size f) (length l)); [|lia]. destruct (Nat.leb_spec (l_size f) (length vals)); [|lia].
  rewrite Z.eqb_refl. destruct (bytes_eqb _ _); eauto.
Qed.
Lemma get_at_do f t v w : kept w -> fwf f -> has_val f t v w -> exists q w', ctx_get_at f t w = ROk (q, l_off f, l_num f) w' /\ w' = setc w (w_ctx w') /\
  (forall w2, w_heap w2 = w_heap w -> mread q (l_off f) (l_num f * fsize t) w2 = ROk v w2) /\
  (exists x x', w_ctx w = Some x /\ w_ctx w' = Some x' /\ c_refs x' = c_refs x /\ c_fields x' = c_fields x).
Proof.
  intros (x & Hx & H1 & Hd) Hf (x' & a & l & Hx' & Et & Ev & Ed & Eh & Hle & Es). assert (x' = x) by congruence. subst x'.
  exists (Some a), (setc w (Some (with_readers x (add64 (c_readers x) 1)))). split; [|split; [|split]].
  - unfold ctx_get_at, mbind at 1. replace (ftype_eqb (l_type f) t) with true by (subst t; now destruct (l_type f)). cbn [check]. unfold ret at 1.
    unfold ctx_get_read, mbind, getc. rewrite Hx, Ev, Ed. cbn. unfold get_data_ref, mbind. cbn. unfold getc. rewrite Hx. cbn. rewrite Hx. cbn. rewrite Ed. unfold putc, ret.
    do 2 f_equal. rewrite Hf, Et, Nat.mul_comm. apply Nat.div_mul. destruct t; cbn; lia.
  - reflexivity.
  - intros w2 Hh. unfold mread, mbind, block. rewrite Hh, Eh. cbn [snd]. replace (l_num f * fsize t)%nat with (l_size f) by (rewrite Hf, Et; lia).
    destruct (Nat.leb_spec (l_off f + l_size f) (length l)); [|lia]. unfold ret. now fold (slice l (l_off f) (l_size f)); rewrite Es.
  - eexists; eexists. split; [eassumption|]. split; [reflexivity|]. auto.
Qed.
