(** * Labels of operators: histories *)
From Coq Require Import List ZArith Lia Bool Arith.
From Verif Require Import Prelude RstrModel StrModel CtxModel CtxSpec CtxProofs CtxProps CtxField LabelModel LabelProofs LabelMain.
Import ListNotations.
Local Open Scope Z_scope.

Record lpre (w w' : lworld) : Prop := {
  lp_ctx : forall c, pre (lw_ctx w c) (lw_ctx w' c);
  lp_subs : exists s, lw_subs w' = lw_subs w ++ s;
  lp_labs : lw_labs w' = lw_labs w;
  lp_ops : forall i o, nth_error (lw_ops w) i = Some o -> exists o', nth_error (lw_ops w') i = Some o' /\ LabelModel.s_ctx o' = LabelModel.s_ctx o }.
Lemma lpre_refl w : lpre w w.
Proof. split; [intros; apply pre_refl|exists []; now rewrite app_nil_r|reflexivity|eauto]. Qed.
Lemma lpre_trans a b c : lpre a b -> lpre b c -> lpre a c.
Proof.
  intros [A1 (s1 & A2) A3 A4] [B1 (s2 & B2) B3 B4]. split.
  - intros n. eapply pre_trans; eauto.
  - exists (s1 ++ s2). now rewrite B2, A2, app_assoc.
  - congruence.
  - intros i o H. destruct (A4 i o H) as (o1 & H1 & E1). destruct (B4 i o1 H1) as (o2 & H2 & E2). exists o2. split; congruence.
Qed.
Lemma lpre_same w w' : same w w' -> (forall c, pre (lw_ctx w c) (lw_ctx w' c)) -> lpre w w'.
Proof. intros (_ & Ho & Hs & Hl) Hc. split; auto; [exists []; now rewrite app_nil_r|]. intros i o H. exists o. rewrite Ho. auto. Qed.
Definition LG {A} (m : LM A) : Prop := forall w, match m w with LOk _ w' | LErr _ w' => lpre w w' | LUB => True end.
Lemma LG_bind A B (m : LM A) (k : A -> LM B) : LG m -> (forall a, LG (k a)) -> LG (lbind m k).
Proof. intros Hm Hk w. unfold lbind. specialize (Hm w). destruct (m w) as [a w1|e w1|]; auto. specialize (Hk a w1). destruct (k a w1); auto; eapply lpre_trans; eauto. Qed.
Lemma LG_same A (m : LM A) : (forall w, match m w with LOk _ w' | LErr _ w' => w' = w | LUB => True end) -> LG m.
Proof. intros H w. specialize (H w). destruct (m w); auto; subst; apply lpre_refl. Qed.
Lemma LG_ret A (a : A) : LG (lret a). Proof. now apply LG_same. Qed.
Lemma LG_fail A e : LG (@lfail A e). Proof. now apply LG_same. Qed.
Lemma LG_ub A : LG (fun _ => @LUB A). Proof. now apply LG_same. Qed.
Lemma LG_check b e : LG (lcheck b e). Proof. destruct b; now apply LG_same. Qed.
Lemma LG_lget : LG lget. Proof. now apply LG_same. Qed.
Lemma LG_get_op i : LG (get_op i).
Proof. apply LG_same. intros w. unfold get_op, lbind, lget. destruct (nth_error (lw_ops w) i); cbn; auto. Qed.
Lemma LG_on A c (m : M A) : (forall v, match m v with ROk _ v' | RErr _ v' => pre v v' | RUB => True end) -> LG (on c m).
Proof.
  intros H w. pose proof (on_cases A c m w) as G. destruct (on c m w) as [a w'|e w'|]; auto; destruct G as (v & E & S & C); apply lpre_same; auto; intros n; rewrite C;
    destruct (cupd_cases (lw_ctx w) c v n) as [[-> ->]|[_ ->]]; try apply pre_refl; specialize (H (lw_ctx w c)); now rewrite E in H.
Qed.
Lemma LG_onk A c (m : M A) : (forall l0, KF l0 m) -> LG (on c m).
Proof. intros H. apply LG_on. intros v. now apply KF_pre. Qed.
Lemma LG_lderef p : LG (lderef p). Proof. apply LG_onk. intros. apply KF_deref. Qed.
Lemma LG_ref c : LG (on c ctx_reference). Proof. apply LG_onk. intros. apply KF_reference. Qed.
Lemma LG_des c : LG (on c ctx_destroy). Proof. apply LG_onk. intros. apply KF_destroy. Qed.
Lemma LG_set c f t vals : LG (on c (ctx_set_at f t vals)). Proof. apply LG_onk. intros. apply KF_set_at. Qed.
Lemma LG_get c f t : LG (on c (ctx_get_at f t)). Proof. apply LG_onk. intros. apply KF_get_at. Qed.
Lemma LG_rest c f t : LG (on c (ctx_restore_at f t)). Proof. apply LG_onk. intros. apply KF_restore_at. Qed.
Lemma LG_lab c n : LG (on c (ctx_label n)). Proof. apply LG_onk. intros. apply KF_label. Qed.
Lemma LG_rptr c p : LG (on c (set_rptr p)). Proof. apply LG_onk. intros. apply KF_rptr. Qed.
Lemma LG_mread c p off n : LG (on c (mread p off n)). Proof. apply LG_onk. intros. apply KF_mread. Qed.
Ltac lg :=
  repeat first
  [ apply LG_ret | apply LG_fail | apply LG_ub | apply LG_check | apply LG_lget | apply LG_get_op | apply LG_lderef | apply LG_ref | apply LG_des | apply LG_set | apply LG_get | apply LG_rest
  | apply LG_lab | apply LG_rptr | apply LG_mread | assumption
  | match goal with
    | |- LG (lbind _ _) => apply LG_bind; [|intros]
    | |- LG (if ?b then _ else _) => destruct b
    | |- LG (match ?x with _ => _ end) => destruct x
    end ].
Lemma LG_inner o : LG (inner_ctx o). Proof. unfold inner_ctx. lg. Qed.
Lemma LG_opctx i : LG (op_get_ctx i). Proof. unfold op_get_ctx. destruct i; [|lg]. apply LG_bind; [lg|]. intros o. apply LG_bind; [apply LG_inner|]. intros c. lg. Qed.
Lemma LG_drop c : LG (ctx_drop c). Proof. unfold ctx_drop. lg. Qed.
Lemma nth_put {A} (l : list A) i o o0 : nth_error l i = Some o0 -> forall n, nth_error (firstn i l ++ o :: skipn (S i) l) n = if Nat.eqb n i then Some o else nth_error l n.
Proof.
  revert i. induction l as [|x l IH]; intros [|i] H n; cbn in H; try discriminate.
  - destruct n; reflexivity.
  - destruct n; [reflexivity|]. cbn. apply IH. exact H.
Qed.
Lemma put_op_pre w i o o0 : nth_error (lw_ops w) i = Some o0 -> LabelModel.s_ctx o = LabelModel.s_ctx o0 -> exists w', put_op i o w = LOk tt w' /\ lpre w w' /\ lw_ctx w' = lw_ctx w /\ lw_subs w' = lw_subs w /\ lw_labs w' = lw_labs w /\
  (forall n, nth_error (lw_ops w') n = if Nat.eqb n i then Some o else nth_error (lw_ops w) n).
Proof.
  intros H E. eexists. split; [reflexivity|]. cbn. split; [|split; [reflexivity|split; [reflexivity|split; [reflexivity|]]]; intros n; now apply nth_put with o0].
  split; cbn; [intros; apply pre_refl|exists []; now rewrite app_nil_r|reflexivity|].
  intros n o1 H1. rewrite (nth_put _ _ o o0 H). destruct (Nat.eqb_spec n i) as [->|Hn]; [|eauto]. exists o. split; auto. congruence.
Qed.
Lemma LG_update i : LG (op_update i).
Proof.
  intros w. unfold op_update, get_op, lbind, lget. destruct (nth_error (lw_ops w) i) as [o|] eqn:Eo; auto. unfold lret.
  destruct (put_op_pre w i (mkSop (LabelModel.s_ctx o) (s_labs o) true) o Eo eq_refl) as (w' & -> & P & _). exact P.
Qed.
Lemma LG_updates l : LG (comp_update l).
Proof. induction l as [|[i|] l IH]; cbn [comp_update]; lg. apply LG_update. Qed.
Lemma LG_set_loop l t vals : LG (set_loop l t vals).
Proof. induction l as [|[i p] l IH]; cbn [set_loop]; [lg|]. apply LG_bind; [apply LG_opctx|]. intros c. lg. apply LG_drop. Qed.
Lemma LG_ccheck l : LG (comp_check l). Proof. unfold comp_check. lg. Qed.
Lemma LG_scheck i l : LG (single_check i l). Proof. unfold single_check. lg. Qed.
Lemma LG_read c p t : LG (read_vals c p t). Proof. unfold read_vals. lg. Qed.
Lemma LG_get_loop l t : LG (get_loop l t).
Proof. induction l as [|[i p] l IH]; cbn [get_loop]; [lg|]. apply LG_bind; [apply LG_opctx|]. intros c. lg; try apply LG_read; apply LG_drop. Qed.
Lemma LG_restore_loop l t : LG (restore_loop l t).
Proof. induction l as [|[i p] l IH]; cbn [restore_loop]; [lg|]. apply LG_bind; [apply LG_opctx|]. intros c. lg; apply LG_drop. Qed.
Lemma LG_single_label i name : LG (single_label i name).
Proof.
  intros w. unfold single_label. unfold lbind at 1. unfold get_op, lbind at 1, lget. destruct (nth_error (lw_ops w) i) as [o|] eqn:Eo; auto. unfold lret at 1.
  unfold lbind at 1. assert (G : match inner_ctx o w with LOk _ w' | LErr _ w' => lpre w w' /\ lw_ops w' = lw_ops w | LUB => True end).
  { pose proof (LG_inner o w) as G. unfold inner_ctx in *. destruct (LabelModel.s_ctx o) as [c|]; [|split; [apply lpre_refl|auto]]. unfold lbind in *.
    pose proof (on_cases unit c ctx_reference w) as G1. destruct (on c ctx_reference w) as [a w1|e w1|]; auto; destruct G1 as (v & _ & (_ & S1 & _) & _); auto.
    pose proof (on_cases unit c ctx_destroy w1) as G2. destruct (on c ctx_destroy w1) as [a' w2|e w2|]; auto; destruct G2 as (v' & _ & (_ & S2 & _) & _); split; auto; cbn; congruence. }
  destruct (inner_ctx o w) as [[c|] w1|e w1|]; auto; [|destruct G; auto|destruct G; auto]. destruct G as [P1 O1].
  unfold lbind at 1. pose proof (LG_lab c name w1) as P2. pose proof (on_cases _ c (ctx_label name) w1) as G2. destruct (on c (ctx_label name) w1) as [[j|] w2|e w2|]; auto;
    try (eapply lpre_trans; eauto; fail). destruct G2 as (v & _ & (_ & S2 & _) & _).
  unfold lbind, lput. set (w3 := set_from w2 _). assert (O3 : nth_error (lw_ops w3) i = Some o) by (cbn; congruence).
  destruct (put_op_pre w3 i (mkSop (LabelModel.s_ctx o) (s_labs o ++ [(c, j)]) (s_upd o)) o O3 eq_refl) as (w4 & -> & P4 & _). unfold lret.
  eapply lpre_trans; [exact P1|]. eapply lpre_trans; [exact P2|]. eapply lpre_trans; [|exact P4].
  split; cbn; [intros; apply pre_refl|exists []; now rewrite app_nil_r|reflexivity|eauto].
Qed.
Definition no_setctx (c : lcmd) : Prop := match c with LSetCtx _ _ => False | _ => True end.
Definition no_label (c : lcmd) : Prop := match c with LLabel _ => False | _ => True end.
Lemma LG_step c : no_setctx c -> no_label c -> LG (lstep c).
Proof.
  destruct c; intros Hn Hn'; cbn [lstep]; unfold ldone; try destruct Hn; try destruct Hn'.
  - intros w. unfold lbind, lget, lput, lret. split; cbn; [intros; apply pre_refl|exists []; now rewrite app_nil_r|reflexivity|].
    intros i o H. exists o. split; auto. rewrite nth_error_app1; auto. apply nth_error_Some. congruence.
  - apply LG_bind; [|intros; lg]. unfold add_sub. intros w. unfold lbind, lget, lcheck. destruct (Nat.ltb _ _); cbn; [|apply lpre_refl].
    split; cbn; [intros; apply pre_refl|eauto|reflexivity|eauto].
  - apply LG_bind; [|intros; lg]. unfold comp_set. apply LG_bind; [apply LG_ccheck|]. intros ps. apply LG_bind; [lg|]. intros w. apply LG_bind; [apply LG_set_loop|]. intros. apply LG_updates.
  - apply LG_bind; [|intros; lg]. unfold comp_get. apply LG_bind; [apply LG_ccheck|]. intros ps. apply LG_bind; [lg|]. intros w. apply LG_get_loop.
  - apply LG_bind; [|intros; lg]. unfold comp_restore. apply LG_bind; [apply LG_ccheck|]. intros ps. apply LG_bind; [lg|]. intros w. apply LG_restore_loop.
  - apply LG_bind; [apply LG_single_label|intros; lg].
  - apply LG_bind; [|intros; lg]. unfold single_set. apply LG_bind; [apply LG_scheck|]. intros p. apply LG_bind; [apply LG_opctx|]. intros c. lg. apply LG_update.
  - apply LG_bind; [|intros; lg]. unfold single_get. apply LG_bind; [apply LG_scheck|]. intros p. apply LG_bind; [apply LG_opctx|]. intros c. lg. apply LG_read.
  - apply LG_bind; [|intros; lg]. unfold single_restore. apply LG_bind; [apply LG_scheck|]. intros p. apply LG_bind; [apply LG_opctx|]. intros c. lg.
  - apply LG_bind; [|intros; lg]. apply LG_on. intros v. apply step_pre.
Qed.

(** ** Making a label *)
Definition eqw (w w' : lworld) : Prop := same w w' /\ forall c, lw_ctx w' c = lw_ctx w c.
Lemma eqw_refl w : eqw w w. Proof. split; [apply same_refl|auto]. Qed.
Lemma eqw_trans a b c : eqw a b -> eqw b c -> eqw a c.
Proof. intros [A1 A2] [B1 B2]. split; [eapply same_trans; eauto|]. intros n. now rewrite B2. Qed.
Lemma lderef_cases p w : match lderef p w with
  | LOk f w' => fld_of (lw_ctx w (fst p)) (snd p) = Some f /\ eqw w w'
  | LErr _ _ => False
  | LUB => True
  end.
Proof.
  rewrite lderef_do. destruct (fld_of _ _); auto. split; auto. split; [now repeat split|]. intros c. cbn. apply cupd_id.
Qed.
Definition nfld (w : lworld) (p : lptr) : option label := fld_of (lw_ctx w (fst p)) (snd p).
Lemma nfld_eqw w w' p : eqw w w' -> nfld w' p = nfld w p.
Proof. intros [_ H]. unfold nfld. now rewrite H. Qed.
Lemma find_label_ok name l : forall k w, match find_label k l name w with
  | LOk r w' => eqw w w' /\ match r with
                            | Some k' => exists n b f, k' = (k + n)%nat /\ nth_error l n = Some b /\ nfld w (cl_name b) = Some f /\ l_name f = name
                            | None => forall b, In b l -> exists f, nfld w (cl_name b) = Some f /\ l_name f <> name
                            end
  | LErr _ _ => False
  | LUB => True
  end.
Proof.
  induction l as [|b l IH]; intros k w; cbn [find_label]; [split; [apply eqw_refl|intros b []]|].
  unfold lbind. pose proof (lderef_cases (cl_name b) w) as G. destruct (lderef (cl_name b) w) as [f w1|e w1|]; auto. destruct G as [Ef E1].
  destruct (seqb (l_name f) name) eqn:Es.
  - split; auto. exists 0%nat, b, f. apply seqb_eq in Es. repeat split; auto.
  - specialize (IH (S k) w1). destruct (find_label (S k) l name w1) as [r w'|e w'|]; auto. destruct IH as [E2 Hr]. split; [eapply eqw_trans; eauto|].
    destruct r as [k'|].
    + destruct Hr as (n & b' & f' & -> & Hn & Hf & Hm). exists (S n), b', f'. rewrite (nfld_eqw w w1) in Hf by auto. repeat split; auto. lia.
    + intros b' [<-|Hin]; [exists f; split; auto; intros H; apply seqb_eq in H; congruence|]. destruct (Hr b' Hin) as (f' & Hf & Hm). rewrite (nfld_eqw w w1) in Hf by auto. eauto.
Qed.
(** what CeedQFunctionContextGetFieldLabel answers *)
Definition fidx (v : world) (name : str) : option nat := match w_ctx v with Some x => field_index 0 (c_fields x) name None | None => None end.
Definition lab_of (w : lworld) (o : sop) (name : str) : option lptr :=
  match LabelModel.s_ctx o with None => None | Some c => match fidx (lw_ctx w c) name with Some j => Some (c, j) | None => None end end.
Lemma fidx_fld v name j : fidx v name = Some j -> exists f, fld_of v j = Some f /\ l_name f = name.
Proof.
  unfold fidx, fld_of. destruct (w_ctx v) as [x|]; [|discriminate]. intros H. apply field_index_some in H. destruct H as [H|(H1 & f & H2 & H3)]; [discriminate|].
  exists f. rewrite Nat.sub_0_r in H2. split; auto.
Qed.
Lemma lab_of_eqw w w' o name : eqw w w' -> lab_of w' o name = lab_of w o name.
Proof. intros [_ H]. unfold lab_of. destruct (LabelModel.s_ctx o) as [c|]; auto. now rewrite H. Qed.
Lemma on_label c name w : match on c (ctx_label name) w with
  | LOk r w' => r = fidx (lw_ctx w c) name /\ eqw w w'
  | LErr _ _ => False
  | LUB => True end.
Proof.
  pose proof (on_cases _ c (ctx_label name) w) as G. destruct (on c (ctx_label name) w) as [r w'|e w'|]; auto; destruct G as (v & E & S & C); unfold ctx_label, mbind, getc in E;
    destruct (w_ctx (lw_ctx w c)) as [x|] eqn:Hx; try discriminate. unfold ret in E. injection E as <- <-. unfold fidx. rewrite Hx. split; auto. split; auto. intros n. rewrite C. apply cupd_id.
Qed.
Definition acc_ok (w : lworld) (name : str) (acc : option (lptr * ftype * nat)) : Prop :=
  forall p t n, acc = Some (p, t, n) -> exists f, nfld w p = Some f /\ l_name f = name.
Lemma sub_loop_ok name subs : forall acc w, acc_ok w name acc -> match sub_loop subs name acc w with
  | LOk r w' => eqw w w' /\ length (fst r) = length subs /\
      (forall n i, nth_error subs n = Some i -> exists i' o, i = Some i' /\ nth_error (lw_ops w) i' = Some o /\ nth_error (fst r) n = Some (lab_of w o name)) /\
      acc_ok w name (snd r) /\ (snd r = None -> acc = None /\ forall n, nth_error (fst r) n <> None -> nth_error (fst r) n = Some None) /\
      (snd r <> None -> acc <> None \/ exists n p, nth_error (fst r) n = Some (Some p))
  | LErr _ _ => False
  | LUB => True
  end.
Proof.
  induction subs as [|[i|] subs IH]; intros acc w Ha; cbn [sub_loop]; auto.
  { cbn. split; [apply eqw_refl|]. split; auto. split; [intros [|n] i H; discriminate|]. split; auto. split; [intros ->; split; auto; intros [|n] H; cbn in H; congruence|auto]. }
  unfold lbind at 1. unfold get_op, lbind at 1, lget. destruct (nth_error (lw_ops w) i) as [o|] eqn:Eo; auto. unfold lret at 1.
  assert (G : match sub_label o name acc w with
    | LOk r w' => eqw w w' /\ fst r = lab_of w o name /\ acc_ok w name (snd r) /\ (snd r = None -> acc = None /\ fst r = None) /\ (snd r <> None -> acc <> None \/ exists p, fst r = Some p)
    | LErr _ _ => False | LUB => True end).
  { unfold sub_label, lab_of. destruct (LabelModel.s_ctx o) as [c|]; [|split; [apply eqw_refl|auto]].
    unfold lbind. pose proof (on_label c name w) as G. destruct (on c (ctx_label name) w) as [r w1|e w1|]; auto. destruct G as [-> E1].
    destruct (fidx (lw_ctx w c) name) as [j|] eqn:Ej; [|cbn; split; auto].
    pose proof (lderef_cases (c, j) w1) as G. destruct (lderef (c, j) w1) as [f w2|e w2|]; auto. destruct G as [Hf E2].
    assert (Hn : acc_ok w name (Some ((c, j), l_type f, l_num f))).
    { intros p t n H. injection H as <- <- <-. destruct (fidx_fld _ _ _ Ej) as (f' & Hf' & Hm). exists f'. unfold nfld. auto. }
    destruct acc as [[[p t] n]|].
    - destruct (ftype_eqb t (l_type f) && _); auto. cbn. split; [eapply eqw_trans; eauto|]. repeat split; auto; discriminate || (intros _; left; discriminate).
    - cbn. split; [eapply eqw_trans; eauto|]. repeat split; auto; discriminate || (intros _; right; eauto). }
  unfold lbind at 1. destruct (sub_label o name acc w) as [r w1|e w1|]; auto. destruct G as (E1 & Er & Ha1 & Hn1 & Hp1).
  unfold lbind. specialize (IH (snd r) w1). assert (acc_ok w1 name (snd r)) as Ha2. { intros p t n H. rewrite (nfld_eqw w w1) by auto. eauto. } specialize (IH Ha2).
  destruct (sub_loop subs name (snd r) w1) as [rs w2|e w2|]; auto. destruct IH as (E2 & L2 & N2 & A2 & Z2 & P2). cbn.
  split; [eapply eqw_trans; eauto|]. split; [now rewrite L2|]. split; [|split; [|split]].
  - intros [|n] i' H; cbn in H.
    + injection H as <-. exists i, o. rewrite Er. auto.
    + destruct (N2 n i' H) as (i'' & o' & A & B & C). exists i'', o'. pose proof E1 as [(_ & O1 & _) C1]. rewrite O1 in B. split; auto. split; auto. cbn. rewrite C. f_equal. now apply lab_of_eqw.
  - intros p t n H. rewrite <- (nfld_eqw w w1) by auto. eauto.
  - intros H. destruct (Z2 H) as [H1 H2]. destruct (Hn1 H1) as [H3 H4]. split; auto. intros [|n] Hne; cbn in *; [congruence|auto].
  - intros H. destruct (P2 H) as [H1|(n & p & Hp)]; [|right; exists (S n), p; auto]. destruct (Hp1 H1) as [H2|(p & Hp)]; auto. right. exists 0%nat, p. cbn. now rewrite Hp.
Qed.
Definition new_lab (w : lworld) (name : str) (b : clabel) : Prop := length (cl_subs b) = length (lw_subs w) /\
  (forall n i, nth_error (lw_subs w) n = Some i -> exists i' o, i = Some i' /\ nth_error (lw_ops w) i' = Some o /\ nth_error (cl_subs b) n = Some (lab_of w o name)) /\
  (exists f, nfld w (cl_name b) = Some f /\ l_name f = name) /\ exists n p, nth_error (cl_subs b) n = Some (Some p).
Lemma comp_label_ok name w : match comp_label name w with
  | LOk l w' => (forall c, lw_ctx w' c = lw_ctx w c) /\ lw_from w' = lw_from w /\ lw_ops w' = lw_ops w /\ lw_subs w' = lw_subs w /\
      ((exists k b f, l = LK k /\ nth_error (lw_labs w) k = Some b /\ nfld w (cl_name b) = Some f /\ l_name f = name /\ lw_labs w' = lw_labs w) \/
       (l = LNull /\ lw_labs w' = lw_labs w) \/
       (exists b, l = LK (length (lw_labs w)) /\ lw_labs w' = lw_labs w ++ [b] /\ new_lab w name b))
  | LErr _ _ => False
  | LUB => True
  end.
Proof.
  unfold comp_label. unfold lbind at 1, lget at 1. unfold lbind at 1. pose proof (find_label_ok name (lw_labs w) 0 w) as G.
  destruct (find_label 0 (lw_labs w) name w) as [r w1|e w1|]; auto. destruct G as [E1 Hr]. destruct r as [k|].
  - cbn. destruct E1 as [(A & B & C & D) E]. repeat split; auto. left. destruct Hr as (n & b & f & -> & H1 & H2 & H3). exists n, b, f. auto.
  - unfold lbind at 1. pose proof (sub_loop_ok name (lw_subs w) None w1) as G. assert (acc_ok w1 name None) as Ha by (intros ? ? ? ?; discriminate). specialize (G Ha).
    destruct (sub_loop (lw_subs w) name None w1) as [r w2|e w2|]; auto. destruct G as (E2 & L & N & A & Z & Pz). pose proof (eqw_trans _ _ _ E1 E2) as E.
    pose proof E as [(F1 & F2 & F3 & F4) F5]. destruct (snd r) as [[[p t] n]|].
    + unfold lbind, lget, lput, lret. cbn. repeat split; auto. right; right. exists (mkCL p t n (fst r)). split; [now rewrite F4|]. split; [now rewrite F4|].
      split; [exact L|]. split; [|split].
      * intros m i Hi. destruct (N m i Hi) as (i' & o & H1 & H2 & H3). exists i', o. split; auto. pose proof E1 as [(_ & O1 & _) _]. rewrite O1 in H2. split; auto. cbn. rewrite H3. f_equal. now apply lab_of_eqw.
      * cbn. destruct (A p t n eq_refl) as (f & Hf & Hm). exists f. split; auto. rewrite <- Hf. symmetry. now apply nfld_eqw.
      * cbn. destruct Pz as [Pz|Pz]; [discriminate|congruence|exact Pz].
    + cbn. repeat split; auto.
Qed.

(** ** Histories *)
Record lext (w w' : lworld) : Prop := {
  le_ctx : forall c, pre (lw_ctx w c) (lw_ctx w' c);
  le_subs : exists s, lw_subs w' = lw_subs w ++ s;
  le_labs : exists l, lw_labs w' = lw_labs w ++ l }.
Lemma lext_refl w : lext w w.
Proof. split; [intros; apply pre_refl|exists []; now rewrite app_nil_r|exists []; now rewrite app_nil_r]. Qed.
Lemma lext_trans a b c : lext a b -> lext b c -> lext a c.
Proof.
  intros [A1 (s1 & A2) (l1 & A3)] [B1 (s2 & B2) (l2 & B3)]. split.
  - intros n. eapply pre_trans; eauto.
  - exists (s1 ++ s2). now rewrite B2, A2, app_assoc.
  - exists (l1 ++ l2). now rewrite B3, A3, app_assoc.
Qed.
Definition opsx (w w' : lworld) : Prop := forall i o, nth_error (lw_ops w) i = Some o -> exists o', nth_error (lw_ops w') i = Some o' /\ LabelModel.s_ctx o' = LabelModel.s_ctx o.
Lemma opsx_trans a b c : opsx a b -> opsx b c -> opsx a c.
Proof. intros A4 B4 i o H. destruct (A4 i o H) as (o1 & H1 & E1). destruct (B4 i o1 H1) as (o2 & H2 & E2). exists o2. split; congruence. Qed.
Lemma lpre_lext w w' : lpre w w' -> lext w w' /\ lw_labs w' = lw_labs w.
Proof. intros [A B C D]. split; auto. split; auto. exists []. now rewrite app_nil_r. Qed.
Lemma setctx_ext i c w : match q_set_ctx i c w with LOk _ w' | LErr _ w' => lext w w' /\ lw_labs w' = lw_labs w | LUB => True end.
Proof.
  unfold q_set_ctx. unfold lbind at 1. unfold get_op, lbind at 1, lget. destruct (nth_error (lw_ops w) i) as [o|] eqn:Eo; auto. unfold lret at 1. unfold lbind at 1.
  assert (G : LG (match LabelModel.s_ctx o with Some old => on old ctx_destroy | None => lret tt end)) by lg. specialize (G w).
  destruct (match LabelModel.s_ctx o with Some old => on old ctx_destroy | None => lret tt end w) as [u w1|e w1|]; auto; [|now apply lpre_lext].
  apply lpre_lext in G. destruct G as [G1 L1]. unfold lbind, put_op, lbind, lget, lput. set (w2 := set_ops w1 _). assert (G2 : lext w1 w2) by (destruct (lext_refl w1) as [X Y Z]; split; auto).
  assert (G : LG (match c with Some c => on c ctx_reference | None => lret tt end)) by lg. specialize (G w2).
  destruct (match c with Some c => on c ctx_reference | None => lret tt end w2) as [u2 w3|e w3|]; auto; apply lpre_lext in G; destruct G as [G3 L3];
    (split; [eapply lext_trans; [exact G1|]; eapply lext_trans; [exact G2|exact G3]|rewrite L3; exact L1]).
Qed.
(** labels in context_labels carry names that were asked for *)
Definition named (names : list str) (w : lworld) : Prop := forall b, In b (lw_labs w) -> forall x, w_ctx (lw_ctx w (fst (cl_name b))) = Some x ->
  exists f, nth_error (c_fields x) (snd (cl_name b)) = Some f /\ In (l_name f) names.
Lemma fld_pre v v' j f : pre v v' -> fld_of v j = Some f -> forall f', fld_of v' j = Some f' -> f' = f.
Proof.
  intros P Hf f' Hf'. unfold fld_of in *. destruct (w_ctx v') as [x'|] eqn:Hx'; [|discriminate]. destruct (P x' Hx') as (x & Hx & l & E & _). rewrite Hx in Hf.
  rewrite E, nth_error_app1 in Hf' by (apply nth_error_Some; congruence). congruence.
Qed.
Lemma lstep_ext c w : match lstep c w with
  | LOk _ w' | LErr _ w' => lext w w' /\ (no_setctx c -> opsx w w') /\ (no_label c -> lw_labs w' = lw_labs w)
  | LUB => True end.
Proof.
  assert (Hg : no_setctx c -> no_label c -> match lstep c w with
    | LOk _ w' | LErr _ w' => lext w w' /\ (no_setctx c -> opsx w w') /\ (no_label c -> lw_labs w' = lw_labs w) | LUB => True end).
  { intros H1 H2. pose proof (LG_step c H1 H2 w) as G. destruct (lstep c w) as [o w'|e w'|]; auto; pose proof (lpre_lext _ _ G) as [X Y]; (split; [exact X|split; [intros _; exact (lp_ops _ _ G)|auto]]). }
  destruct c; try (apply Hg; exact I); clear Hg; cbn [lstep].
  - unfold ldone, lbind. pose proof (setctx_ext i c w) as G. destruct (q_set_ctx i c w) as [u w'|e w'|]; auto; destruct G as [G1 G2]; (split; [exact G1|split; [intros []|auto]]).
  - unfold lbind. pose proof (comp_label_ok name w) as G. destruct (comp_label name w) as [l w'|e w'|]; [|destruct G|auto]. destruct G as (C & Fr & O & S & G). cbn.
    split; [|split; [intros _ i o H; exists o; rewrite O; auto|intros []]]. split; [intros c; rewrite C; apply pre_refl|exists []; now rewrite app_nil_r|].
    destruct G as [(k & b & f & _ & _ & _ & _ & ->)|[(_ & ->)|(b & _ & -> & _)]]; [exists []; now rewrite app_nil_r|exists []; now rewrite app_nil_r|eauto].
Qed.
Lemma lrun_ext cs : forall w rs w', lrun cs w = Some (rs, w') -> lext w w' /\ (Forall no_setctx cs -> opsx w w').
Proof.
  induction cs as [|c cs IH]; intros w rs w' E; cbn [lrun] in E; [injection E as _ <-; split; [apply lext_refl|intros _ i o H; eauto]|].
  pose proof (lstep_ext c w) as P. destruct (lstep c w) as [o w1|e w1|]; [| |discriminate]; (destruct (lrun cs w1) as [[rs' w2]|] eqn:El; [|discriminate]; injection E as _ <-;
    destruct P as (P1 & P2 & _); destruct (IH w1 rs' w2 El) as [Q1 Q2]; split; [eapply lext_trans; eauto|]; intros Hn; inversion Hn; subst; eapply opsx_trans; eauto).
Qed.
Lemma lrun_app a : forall b w rs w', lrun (a ++ b) w = Some (rs, w') -> exists ra wa rb, lrun a w = Some (ra, wa) /\ lrun b wa = Some (rb, w') /\ rs = ra ++ rb.
Proof.
  induction a as [|c a IH]; intros b w rs w' E; cbn [app lrun] in *; [exists [], w, rs; auto|].
  destruct (lstep c w) as [o w1|e w1|]; [| |discriminate]; (destruct (lrun (a ++ b) w1) as [[rs' w2]|] eqn:El; [|discriminate]; injection E as <- <-;
    destruct (IH b w1 rs' w2 El) as (ra & wa & rb & E1 & E2 & ->); rewrite E1; eexists; exists wa, rb; split; [reflexivity|]; split; auto).
Qed.
Definition asked (cs : list lcmd) : list str := flat_map (fun c => match c with LLabel n => [n] | _ => [] end) cs.
Lemma named_ext w w' names b : (forall c, pre (lw_ctx w c) (lw_ctx w' c)) ->
  (forall x, w_ctx (lw_ctx w (fst (cl_name b))) = Some x -> exists f, nth_error (c_fields x) (snd (cl_name b)) = Some f /\ In (l_name f) names) ->
  forall x, w_ctx (lw_ctx w' (fst (cl_name b))) = Some x -> exists f, nth_error (c_fields x) (snd (cl_name b)) = Some f /\ In (l_name f) names.
Proof.
  intros P H x' Hx'. destruct (P _ x' Hx') as (x & Hx & l & E & _). destruct (H x Hx) as (f & Hf & Hi). exists f. split; auto.
  rewrite E, nth_error_app1; auto. apply nth_error_Some. congruence.
Qed.
Lemma named_step c w names : named names w -> match lstep c w with LOk _ w' | LErr _ w' => named (names ++ asked [c]) w' | LUB => True end.
Proof.
  intros Hn0. assert (Hn : named (names ++ asked [c]) w).
  { intros b Hb x Hx. destruct (Hn0 b Hb x Hx) as (f & Hf & Hi). exists f. split; auto. apply in_or_app; auto. }
  assert (Hg : no_label c -> match lstep c w with LOk _ w' | LErr _ w' => named (names ++ asked [c]) w' | LUB => True end).
  { intros Hl. pose proof (lstep_ext c w) as P. destruct (lstep c w) as [o w'|e w'|]; auto; destruct P as (P1 & _ & P3); intros b Hb; rewrite P3 in Hb by auto;
      apply (named_ext w w' _ b (le_ctx _ _ P1)); auto. }
  destruct c; try (apply Hg; exact I); clear Hg. cbn [lstep].
  unfold lbind. pose proof (comp_label_ok name w) as G. destruct (comp_label name w) as [l w'|e w'|]; [|destruct G|auto]. destruct G as (C & Fr & O & S & G). cbn [lret].
  assert (P : forall c, pre (lw_ctx w c) (lw_ctx w' c)) by (intros c; rewrite C; apply pre_refl).
  destruct G as [(k & b & f & _ & _ & _ & _ & L)|[(_ & L)|(b & _ & L & _ & _ & (f & Hf & Hm) & _)]]; intros b' Hb; rewrite L in Hb; try (apply (named_ext w w' _ b' P); auto).
  apply in_app_or in Hb. destruct Hb as [Hb|[<-|[]]]; auto. intros x Hx. exists f. unfold nfld, fld_of in Hf. rewrite Hx in Hf. split; auto. apply in_or_app. right. left. now symmetry.
Qed.
Lemma lrun_named cs : forall w rs w' names, named names w -> lrun cs w = Some (rs, w') -> named (names ++ asked cs) w'.
Proof.
  induction cs as [|c cs IH]; intros w rs w' names Hn E; cbn [lrun] in E; [injection E as _ <-; cbn; now rewrite app_nil_r|].
  pose proof (named_step c w names Hn) as P. destruct (lstep c w) as [o w1|e w1|]; [| |discriminate]; (destruct (lrun cs w1) as [[rs' w2]|] eqn:El; [|discriminate]; injection E as _ <-;
    specialize (IH w1 rs' w2 _ P El); rewrite <- app_assoc in IH; cbn in IH; rewrite app_nil_r in IH; destruct c; exact IH).
Qed.
