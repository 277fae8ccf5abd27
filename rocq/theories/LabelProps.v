(** * C39: context labels of composite operators *)
From Coq Require Import List ZArith Lia Bool Arith String.
From Coq.Strings Require Import Byte.
From Verif Require Import Prelude RstrModel StrModel CtxModel CtxSpec CtxProofs CtxProps CtxField LabelModel LabelProofs LabelMain LabelHist.
Import ListNotations.
Local Open Scope Z_scope.

(** context [c] belongs to the QFunction of some sub-operator *)
Definition in_subs (w : lworld) (c : nat) : Prop := exists i o, In (Some i) (lw_subs w) /\ nth_error (lw_ops w) i = Some o /\ LabelModel.s_ctx o = Some c.
(** context [c] has a field [name]: CeedQFunctionContextGetFieldLabel answers with label [j] *)
Definition registered (w : lworld) (c : nat) (name : str) (j : nat) : Prop := step (KLabel name) (lw_ctx w c) = ROk (OLab (Some j)) (lw_ctx w c).
(** The label [k] was made for [name] in state [w1], as the first label of that name, and [w2] is a later state
    in which no QFunction has been given another context. *)
Definition labelled (h1 : list lcmd) (name : str) (h2 : list lcmd) (w1 : lworld) (k : nat) (w2 : lworld) : Prop :=
  exists r1 w1' r2, lrun h1 lw0 = Some (r1, w1) /\ ~ In (LLabel name) h1 /\ lstep (LLabel name) w1 = LOk (XLab (LK k)) w1' /\
  lrun h2 w1' = Some (r2, w2) /\ Forall no_setctx h2.

Lemma registered_fidx w c name j : registered w c name j <-> fidx (lw_ctx w c) name = Some j.
Proof.
  unfold registered, fidx. cbn [step]. unfold ctx_label, mbind, getc. destruct (w_ctx (lw_ctx w c)); [|split; discriminate].
  unfold ret. split; intros H; [injection H; auto|now rewrite H].
Qed.
Lemma asked_in cs name : In name (asked cs) -> In (LLabel name) cs.
Proof. intros H. apply in_flat_map in H. destruct H as (c & Hc & H). destruct c; cbn in H; try tauto. destruct H as [->|[]]. exact Hc. Qed.
Lemma nth_combine {A B} (l : list A) (l' : list B) : forall e, In e (combine l l') -> exists n, nth_error l n = Some (fst e) /\ nth_error l' n = Some (snd e).
Proof.
  revert l'. induction l as [|a l IH]; intros [|b l'] e H; cbn in H; try tauto. destruct H as [<-|H]; [exists 0%nat; auto|].
  destruct (IH l' e H) as (n & H1 & H2). exists (S n). auto.
Qed.
Lemma in_combine_nth {A B} (l : list A) (l' : list B) n a b : nth_error l n = Some a -> nth_error l' n = Some b -> In (a, b) (combine l l').
Proof.
  revert l' n. induction l as [|x l IH]; intros [|y l'] [|n] H1 H2; cbn in *; try discriminate; [left; congruence|right; eauto].
Qed.
Lemma labelled_lab h1 name h2 w1 k w2 : labelled h1 name h2 w1 k w2 -> exists b, nth_error (lw_labs w2) k = Some b /\ new_lab w1 name b /\ lext w1 w2 /\ opsx w1 w2.
Proof.
  intros (r1 & w1' & r2 & E1 & Hn & El & E2 & Hs). cbn [lstep] in El. unfold lbind in El.
  assert (N0 : named [] lw0) by (intros b []). pose proof (lrun_named h1 lw0 r1 w1 [] N0 E1) as N1. cbn [app] in N1.
  pose proof (comp_label_ok name w1) as G. destruct (comp_label name w1) as [l w'|e w'|]; [|destruct G|discriminate]. unfold lret in El. injection El as -> <-.
  destruct G as (C & Fr & O & S & G). destruct (lrun_ext h2 w' r2 w2 E2) as [X Ox].
  destruct G as [(k' & b & f & Ek & Hb & Hf & Hm & L)|[(Ek & _)|(b & Ek & L & Hb)]]; [|discriminate|].
  - exfalso. unfold nfld, fld_of in Hf. destruct (w_ctx (lw_ctx w1 (fst (cl_name b)))) as [x|] eqn:Hx; [|discriminate].
    destruct (N1 b (nth_error_In _ _ Hb) x Hx) as (f' & Hf' & Hi). rewrite Hf in Hf'. injection Hf' as <-. apply Hn, asked_in. now rewrite <- Hm.
  - injection Ek as ->. destruct X as [X1 X2 (ll & X3)]. exists b. split.
    { rewrite X3, L, <- app_assoc. rewrite nth_error_app2 by lia. now rewrite Nat.sub_diag. }
    split; auto. split.
    + split; [intros c; rewrite <- C; apply X1|now rewrite S in X2|]. rewrite L in X3. exists ([b] ++ ll). now rewrite X3, <- app_assoc.
    + intros i o Ho. rewrite <- O in Ho. apply (Ox Hs i o Ho).
Qed.
Section state.
Context (w1 w2 : lworld) (name : str) (b : clabel).
Hypothesis Hb : new_lab w1 name b.
Hypothesis Hx : lext w1 w2.
Hypothesis Ho : opsx w1 w2.
Hypothesis Hs : lw_subs w2 = lw_subs w1.
Hypothesis Hk : forall c, in_subs w2 c -> kept (lw_ctx w2 c).
Let ents := combine (lw_subs w2) (cl_subs b).
Lemma ent_at e : In e ents -> exists i o1 o2, fst e = Some i /\ In (Some i) (lw_subs w1) /\ nth_error (lw_ops w1) i = Some o1 /\ nth_error (lw_ops w2) i = Some o2 /\ LabelModel.s_ctx o2 = LabelModel.s_ctx o1 /\ snd e = lab_of w1 o1 name.
Proof.
  intros H. destruct (nth_combine _ _ e H) as (n & H1 & H2). destruct Hb as (_ & G & _). rewrite Hs in H1. destruct (G n _ H1) as (i & o1 & E1 & E2 & E3).
  destruct (Ho i o1 E2) as (o2 & E4 & E5). exists i, o1, o2. rewrite H2 in E3. injection E3 as E3. repeat split; auto. rewrite <- E1. eapply nth_error_In; eauto.
Qed.
Lemma sub_at i : In (Some i) (lw_subs w1) -> exists e, In e ents /\ fst e = Some i.
Proof.
  intros H. apply In_nth_error in H. destruct H as (n & Hn). destruct Hb as (L & _). destruct (nth_error (cl_subs b) n) as [p|] eqn:Ep.
  2:{ apply nth_error_None in Ep. assert (n < List.length (lw_subs w1))%nat by (apply nth_error_Some; congruence). lia. }
  exists (Some i, p). split; auto. apply in_combine_nth with n; auto. now rewrite Hs.
Qed.
Lemma ent_iff c j : (exists e, In e ents /\ ent w2 e c j) <-> in_subs w1 c /\ registered w1 c name j.
Proof.
  rewrite registered_fidx. split.
  - intros (e & Hin & i & o & E1 & E2 & E3 & E4). destruct (ent_at e Hin) as (i' & o1 & o2 & F1 & F2 & F3 & F4 & F5 & F6). rewrite E1 in F1. injection F1 as <-.
    rewrite E2 in F4. injection F4 as <-. rewrite E3 in F5. rewrite E4 in F6. unfold lab_of in F6. rewrite <- F5 in F6. destruct (fidx (lw_ctx w1 c) name) as [j'|] eqn:Ej; [|discriminate]. injection F6 as <-.
    split; auto. exists i, o1. auto.
  - intros [(i & o & H1 & H2 & H3) Hj]. destruct (sub_at i H1) as (e & Hin & Ei). exists e. split; auto.
    destruct (ent_at e Hin) as (i' & o1 & o2 & F1 & F2 & F3 & F4 & F5 & F6). rewrite Ei in F1. injection F1 as <-. rewrite H2 in F3. injection F3 as <-.
    exists i, o2. rewrite F5, F6, H3. repeat split; auto. unfold lab_of. now rewrite H3, Hj.
Qed.
Lemma ents_okay : ents_ok w2 ents.
Proof.
  intros i p o Hin Hn c Hc. destruct (ent_at _ Hin) as (i' & o1 & o2 & F1 & F2 & F3 & F4 & F5 & F6). cbn in F1, F6. injection F1 as <-. rewrite Hn in F4. injection F4 as <-. split.
  - apply Hk. exists i, o. rewrite Hs. auto.
  - intros q ->. unfold lab_of in F6. rewrite <- F5, Hc in F6. destruct (fidx (lw_ctx w1 c) name); [|discriminate]. now injection F6 as ->.
Qed.
Lemma ents_uniq : uniq w2 ents.
Proof.
  intros e e' c j j' H1 H2 E1 E2. assert (A : registered w1 c name j) by (apply ent_iff; eauto). assert (B : registered w1 c name j') by (apply ent_iff; eauto).
  apply registered_fidx in A, B. congruence.
Qed.
End state.
Lemma comp_check_ok k w ps w' : comp_check (LK k) w = LOk ps w' -> w' = w /\ exists b, nth_error (lw_labs w) k = Some b /\ ps = cl_subs b /\ List.length (lw_subs w) = List.length (cl_subs b).
Proof.
  unfold comp_check, lbind, lget. destruct (nth_error (lw_labs w) k) as [b|]; [|discriminate]. unfold lcheck. destruct (Nat.eqb_spec (List.length (lw_subs w)) (List.length (cl_subs b))); [|discriminate].
  cbn. intros H. injection H as <- <-. split; eauto.
Qed.
Lemma updates_ok l : forall w w', comp_update l w = LOk tt w' -> lw_ctx w' = lw_ctx w /\ lw_subs w' = lw_subs w /\ lw_labs w' = lw_labs w /\ opsx w w' /\
  (forall i o, nth_error (lw_ops w) i = Some o -> s_upd o = true -> exists o', nth_error (lw_ops w') i = Some o' /\ s_upd o' = true) /\
  (forall i, In (Some i) l -> exists o, nth_error (lw_ops w') i = Some o /\ s_upd o = true).
Proof.
  induction l as [|[i|] l IH]; intros w w' E; cbn [comp_update] in E.
  - injection E as <-. repeat split; auto; [intros i o H; eauto|eauto|intros i []].
  - unfold lbind in E. unfold op_update, get_op, lbind, lget in E. destruct (nth_error (lw_ops w) i) as [o|] eqn:Eo; [|discriminate]. unfold lret in E.
    destruct (put_op_pre w i (mkSop (LabelModel.s_ctx o) (s_labs o) true) o Eo eq_refl) as (w1 & E1 & P & C1 & S1 & L1 & N1). rewrite E1 in E.
    destruct (IH w1 w' E) as (C2 & S2 & L2 & O2 & U2 & V2). split; [congruence|]. split; [congruence|]. split; [congruence|]. split; [|split].
    + eapply opsx_trans; [exact (lp_ops _ _ P)|exact O2].
    + intros n on Hn Hu. destruct (Nat.eqb n i) eqn:En.
      * apply (U2 n (mkSop (LabelModel.s_ctx o) (s_labs o) true)); auto. now rewrite N1, En.
      * apply (U2 n on); auto. now rewrite N1, En.
    + intros n [H|H]; [|auto]. injection H as <-. apply (U2 i (mkSop (LabelModel.s_ctx o) (s_labs o) true)); auto. now rewrite N1, Nat.eqb_refl.
  - destruct (IH w w' E) as (C2 & S2 & L2 & O2 & U2 & V2). repeat split; auto. intros n [H|H]; [discriminate|auto].
Qed.
Lemma updates_do l : forall w, (forall i, In (Some i) l -> nth_error (lw_ops w) i <> None) -> exists w', comp_update l w = LOk tt w'.
Proof.
  induction l as [|[i|] l IH]; intros w H; cbn [comp_update]; [eexists; reflexivity| |apply IH; intros i Hi; apply H; now right].
  unfold lbind, op_update, get_op, lbind, lget. destruct (nth_error (lw_ops w) i) as [o|] eqn:Eo; [|exfalso; apply (H i); [left|]; auto]. unfold lret.
  destruct (put_op_pre w i (mkSop (LabelModel.s_ctx o) (s_labs o) true) o Eo eq_refl) as (w1 & E1 & P & C1 & S1 & L1 & N1). rewrite E1. apply IH.
  intros n Hn. rewrite N1. destruct (Nat.eqb n i); [discriminate|]. apply H. now right.
Qed.
Lemma subs_same w1 w2 b : lext w1 w2 -> List.length (cl_subs b) = List.length (lw_subs w1) -> List.length (lw_subs w2) = List.length (cl_subs b) -> lw_subs w2 = lw_subs w1.
Proof. intros [_ (s & E) _] H1 H2. rewrite E in *. rewrite app_length in H2. destruct s; [now rewrite app_nil_r|cbn in H2; lia]. Qed.

(** C39: a set call through a label of the composite operator that succeeds has, on every context of a sub-operator that had
    registered the field when the label was made, the effect of the set call of that context, and leaves all other contexts
    as they were.  Every sub-operator is marked for re-assembly. *)
Theorem C39_set : forall h1 name h2 w1 k w2 t vals w3, labelled h1 name h2 w1 k w2 -> (forall c, in_subs w2 c -> kept (lw_ctx w2 c)) ->
  lstep (LSet (LK k) t vals) w2 = LOk XDone w3 ->
  (forall c j, in_subs w1 c -> registered w1 c name j -> step (KSetField (Some j) t vals) (lw_ctx w2 c) = ROk ODone (lw_ctx w3 c)) /\
  (forall c, (forall j, ~ (in_subs w1 c /\ registered w1 c name j)) -> lw_ctx w3 c = lw_ctx w2 c) /\
  (forall i, In (Some i) (lw_subs w3) -> exists o, nth_error (lw_ops w3) i = Some o /\ s_upd o = true).
Proof.
  intros h1 name h2 w1 k w2 t vals w3 Hl Hk E. destruct (labelled_lab _ _ _ _ _ _ Hl) as (b & Hb & Hn & Hx & Ho).
  cbn [lstep] in E. unfold ldone, comp_set, lbind, lget in E. destruct (comp_check (LK k) w2) as [ps w|e w|] eqn:Ec; [| discriminate|discriminate].
  destruct (comp_check_ok _ _ _ _ Ec) as [-> (b' & Hb' & -> & L)]. rewrite Hb in Hb'. injection Hb' as <-.
  assert (Hs : lw_subs w2 = lw_subs w1) by (apply subs_same with b; auto; apply Hn).
  destruct (set_loop (combine (lw_subs w2) (cl_subs b)) t vals w2) as [[] w|e w|] eqn:El; [|discriminate|discriminate].
  destruct (set_loop_ok t vals _ w2 w (ents_okay w1 w2 name b Hn Ho Hs Hk) (ents_uniq w1 w2 name b Hn Ho Hs) El) as (S & A & B).
  destruct (comp_update (lw_subs w2) w) as [[] w'|e w'|] eqn:Eu; [|discriminate|discriminate]. unfold lret in E. injection E as <-.
  destruct (updates_ok _ _ _ Eu) as (C & S3 & L3 & O3 & U3 & V3). rewrite C. split; [|split].
  - intros c j H1 H2. destruct (proj2 (ent_iff w1 w2 name b Hn Ho Hs c j) (conj H1 H2)) as (e & Hin & He). specialize (A e c j Hin He). unfold set_one in A.
    cbn [step]. unfold done, mbind. now rewrite A.
  - intros c Hc. apply B. intros e j Hin He. apply (Hc j). apply (ent_iff w1 w2 name b Hn Ho Hs c j). eauto.
  - intros i Hi. rewrite S3 in Hi. destruct S as (_ & _ & -> & _) in Hi. auto.
Qed.
Lemma set_step_field w c j t vals v : step (KSetField (Some j) t vals) (lw_ctx w c) = ROk ODone v -> set_one w c j t vals = ROk tt v.
Proof. cbn [step]. unfold done, mbind, set_one. destruct (ctx_set_field (Some j) t vals (lw_ctx w c)) as [[] v'|e v'|]; try discriminate. intros H. now injection H as ->. Qed.
(** ... and it succeeds whenever the composite operator has its sub-operators of that time and each of these contexts would accept the value. *)
Theorem C39_set_works : forall h1 name h2 w1 k w2 t vals, labelled h1 name h2 w1 k w2 -> (forall c, in_subs w2 c -> kept (lw_ctx w2 c)) ->
  lw_subs w2 = lw_subs w1 ->
  (forall c j, in_subs w1 c -> registered w1 c name j -> exists v, step (KSetField (Some j) t vals) (lw_ctx w2 c) = ROk ODone v) ->
  exists w3, lstep (LSet (LK k) t vals) w2 = LOk XDone w3.
Proof.
  intros h1 name h2 w1 k w2 t vals Hl Hk Hs Hv. destruct (labelled_lab _ _ _ _ _ _ Hl) as (b & Hb & Hn & Hx & Ho).
  cbn [lstep]. unfold ldone, comp_set, lbind, lget. unfold comp_check, lbind, lget. rewrite Hb. replace (Nat.eqb _ _) with true.
  2:{ symmetry. apply Nat.eqb_eq. rewrite Hs. symmetry. apply Hn. } cbn [lcheck]. unfold lret at 1. unfold lret at 1.
  assert (Hops : forall i, In (Some i) (lw_subs w2) -> nth_error (lw_ops w2) i <> None).
  { intros i Hi. rewrite Hs in Hi. destruct (sub_at w1 w2 name b Hn Hs i Hi) as (e & Hin & Ei).
    destruct (ent_at w1 w2 name b Hn Ho Hs e Hin) as (i' & o1 & o2 & F1 & F2 & F3 & F4 & _). congruence. }
  destruct (set_loop_do t vals (combine (lw_subs w2) (cl_subs b)) w2 (ents_okay w1 w2 name b Hn Ho Hs Hk) (ents_uniq w1 w2 name b Hn Ho Hs)) as (w & Ew).
  - intros i p Hin. destruct (ent_at w1 w2 name b Hn Ho Hs _ Hin) as (i' & o1 & o2 & F1 & F2 & F3 & F4 & _). cbn in F1. eauto.
  - intros e c j Hin He. assert (G : in_subs w1 c /\ registered w1 c name j) by (apply (ent_iff w1 w2 name b Hn Ho Hs); eauto). destruct G as [G1 G2].
    destruct (Hv c j G1 G2) as (v & E). exists v. now apply set_step_field.
  - rewrite Ew. destruct (set_loop_ok t vals _ w2 w (ents_okay w1 w2 name b Hn Ho Hs Hk) (ents_uniq w1 w2 name b Hn Ho Hs) Ew) as ((_ & S & _) & _).
    destruct (updates_do (lw_subs w2) w) as (w' & Eu). { intros i Hi. rewrite S. auto. } rewrite Eu. eexists. reflexivity.
Qed.

(** ** Reading back *)
Lemma has_val_bump f t v w : has_val f t v w -> has_val f t v (bump w).
Proof.
  intros (x & a & l & H1 & H2 & H3 & H4 & H5 & H6 & H7). unfold bump. rewrite H1. exists (with_refs x (c_refs x + 1)), a, l. cbn. auto 10.
Qed.
Lemma read_do w w1 c j f t v : kept (lw_ctx w c) -> fld_of (lw_ctx w c) j = Some f -> fwf f -> has_val f t v (lw_ctx w c) -> lw_ctx w1 c = bump (lw_ctx w c) ->
  exists w', read_vals c (c, j) t w1 = LOk (l_num f, v) w'.
Proof.
  intros K Hf Hw Hv C1. unfold read_vals. unfold lbind. rewrite lderef_do. cbn [fst snd]. rewrite C1, fld_bump, Hf.
  set (w2 := set_ctxs w1 _). assert (C2 : lw_ctx w2 c = bump (lw_ctx w c)) by (unfold w2; cbn; now rewrite cupd_same).
  destruct (get_at_do f t v (lw_ctx w2 c)) as (q & v3 & E3 & S3 & R3 & x & x' & X1 & X2 & X3 & X4); [rewrite C2; now apply kept_bump|auto|rewrite C2; now apply has_val_bump|].
  destruct (on_do _ c (ctx_get_at f t) w2 _ _ E3) as (w3 & Ew3 & _ & C3). rewrite Ew3.
  assert (D : exists v4, ctx_destroy (lw_ctx w3 c) = ROk tt v4 /\ w_heap v4 = w_heap (lw_ctx w2 c)).
  { rewrite C3, cupd_same. unfold ctx_destroy, mbind, getc, putc. rewrite X2. cbn [with_refs c_refs].
    assert (2 <= c_refs x'). { destruct K as (y & Hy & H1 & _). rewrite C2 in X1. unfold bump in X1. rewrite Hy in X1. cbn in X1. injection X1 as <-. rewrite X3. cbn. lia. }
    replace (0 <? c_refs x' - 1) with true by (symmetry; apply Z.ltb_lt; lia). eexists. split; [reflexivity|]. cbn. rewrite S3. reflexivity. }
  destruct D as (v4 & D & Hh). destruct (on_do _ c ctx_destroy w3 _ _ D) as (w4 & Ew4 & _ & C4). rewrite Ew4.
  set (v5 := lw_ctx w4 c). destruct (on_do unit c (set_rptr q) w4 tt _ eq_refl) as (w5 & Ew5 & _ & C5). rewrite Ew5.
  assert (R5 : mread q (l_off f) (l_num f * fsize t) (lw_ctx w5 c) = ROk v (lw_ctx w5 c)).
  { apply R3. rewrite C5, cupd_same. cbn. rewrite C4, cupd_same. exact Hh. }
  destruct (on_do _ c _ w5 _ _ R5) as (w6 & Ew6 & _ & C6). rewrite Ew6. eexists. reflexivity.
Qed.
Lemma get_loop_do t l : forall w, ents_ok w l -> (forall i p, In (i, p) l -> exists i' o, i = Some i' /\ nth_error (lw_ops w) i' = Some o) ->
  (exists e c j, In e l /\ ent w e c j) -> exists e c j, In e l /\ ent w e c j /\
  forall f v, fld_of (lw_ctx w c) j = Some f -> fwf f -> has_val f t v (lw_ctx w c) -> exists w', get_loop l t w = LOk (Some (l_num f, v)) w'.
Proof.
  induction l as [|[i p] l IH]; intros w Hok Hp (e0 & c0 & j0 & Hin0 & He0); [destruct Hin0|].
  destruct (Hp i p (or_introl eq_refl)) as (i' & o & -> & Eo). rename i' into i.
  destruct (op_get_ctx_do i o w Eo (fun c H => proj1 (Hok i p o (or_introl eq_refl) Eo c H))) as (w1 & E1 & S1 & C1).
  destruct (ent_dec w (Some i, p)) as [Hn|(c & j & He)].
  - assert (G : exists w2, get_loop ((Some i, p) :: l) t w = get_loop l t w2 /\ same w w2 /\ forall n, lw_ctx w2 n = lw_ctx w n).
    { destruct (ctx_drop_do w w1 (LabelModel.s_ctx o) C1) as (w2 & E2 & S2 & C2). { intros c' Hc'. apply (Hok i p o (or_introl eq_refl) Eo c' Hc'). }
      exists w2. split; [|split; [eapply same_trans; eauto|auto]]. cbn [get_loop]. unfold lbind. rewrite E1. destruct (LabelModel.s_ctx o) as [c|] eqn:Ec; [|rewrite E2; reflexivity].
      destruct p as [q|]; [|rewrite E2; reflexivity]. exfalso. destruct (Hok i _ o (or_introl eq_refl) Eo c Ec) as [_ Hq]. specialize (Hq q eq_refl). destruct q as [c' j]. cbn in Hq. subst c'.
      apply (Hn c j). exists i, o. auto. }
    destruct G as (w2 & Eg & S2 & C2). destruct (IH w2) as (e & c & j & Hin & He & H).
    { eapply ents_ok_step; eauto. intros c. now rewrite C2. } { intros i' p' Hin. destruct S2 as (_ & -> & _). apply Hp with p'. now right. }
    { destruct Hin0 as [<-|Hin0]; [now apply Hn in He0|]. exists e0, c0, j0. split; auto. apply (ent_same w w2); auto. }
    exists e, c, j. split; [now right|]. split; [now apply (ent_same w w2)|]. intros f v Hf Hw Hv. rewrite Eg. apply H; auto; now rewrite C2.
  - exists (Some i, p), c, j. split; [now left|]. split; auto. intros f v Hf Hw Hv.
    destruct He as (i' & o' & A & B & C & D). cbn in A, D. injection A as <-. rewrite Eo in B. injection B as <-. subst p.
    destruct (read_do w w1 c j f t v) as (w' & Er); auto. { apply (Hok i _ o (or_introl eq_refl) Eo c C). } { rewrite C1, C. cbn. now rewrite cupd_same. }
    cbn [get_loop]. unfold lbind. rewrite E1, C, Er. eexists. reflexivity.
Qed.
Lemma fields_wf h : forall r w, lrun h lw0 = Some (r, w) -> forall c x, w_ctx (lw_ctx w c) = Some x -> Forall fwf (c_fields x).
Proof.
  intros r w E c x Hx. destruct (lrun_ext h lw0 r w E) as [[P _ _] _]. destruct (P c x Hx) as (x0 & Hx0 & l & El & Hl). cbn in Hx0. injection Hx0 as <-. now rewrite El.
Qed.
Lemma labelled_wf h1 name h2 w1 k w2 : labelled h1 name h2 w1 k w2 -> forall c x, w_ctx (lw_ctx w2 c) = Some x -> Forall fwf (c_fields x).
Proof.
  intros (r1 & w1' & r2 & E1 & Hn & El & E2 & Hs) c x Hx. apply (fields_wf (h1 ++ LLabel name :: h2) (r1 ++ LGood (XLab (LK k)) :: r2) w2) with c; auto.
  assert (forall a b w r wa, lrun a w = Some (r, wa) -> lrun (a ++ b) w = match lrun b wa with Some (rb, w') => Some (r ++ rb, w') | None => None end) as Hap.
  { induction a as [|x0 a IH]; intros bb w r wa E; cbn [lrun app] in *; [injection E as <- <-; destruct (lrun bb w) as [[? ?]|]; auto|].
    destruct (lstep x0 w) as [o w'|e w'|]; [| |discriminate]; (destruct (lrun a w') as [[ra wa']|] eqn:Ea; [|discriminate]; injection E as <- <-; rewrite (IH bb w' ra wa' Ea); destruct (lrun bb wa') as [[? ?]|]; auto). }
  rewrite (Hap h1 (LLabel name :: h2) lw0 r1 w1 E1). cbn [lrun]. rewrite El, E2. reflexivity.
Qed.
(** After a successful set, reading through the label returns the values set, and so does reading from each of the contexts. *)
Theorem C39_get : forall h1 name h2 w1 k w2 t vals w3, labelled h1 name h2 w1 k w2 -> (forall c, in_subs w2 c -> kept (lw_ctx w2 c)) ->
  lstep (LSet (LK k) t vals) w2 = LOk XDone w3 ->
  (exists n w4, lstep (LGet (LK k) t) w3 = LOk (XVals (Some (n, firstn (n * fsize t) vals))) w4 /\ (n * fsize t <= List.length vals)%nat) /\
  (forall c j, in_subs w1 c -> registered w1 c name j -> exists n v, step (KGetField (Some j) t) (lw_ctx w3 c) = ROk (OVals n (firstn (n * fsize t) vals)) v).
Proof.
  intros h1 name h2 w1 k w2 t vals w3 Hl Hk E. destruct (C39_set _ _ _ _ _ _ _ _ _ Hl Hk E) as (A & B & _). pose proof (labelled_wf _ _ _ _ _ _ Hl) as Hwf.
  destruct (labelled_lab _ _ _ _ _ _ Hl) as (b & Hb & Hn & Hx & Ho).
  cbn [lstep] in E. unfold ldone, comp_set, lbind, lget in E. destruct (comp_check (LK k) w2) as [ps w|e w|] eqn:Ec; [| discriminate|discriminate].
  destruct (comp_check_ok _ _ _ _ Ec) as [-> (b' & Hb' & -> & L)]. rewrite Hb in Hb'. injection Hb' as <-.
  assert (Hs : lw_subs w2 = lw_subs w1) by (apply subs_same with b; auto; apply Hn).
  destruct (set_loop (combine (lw_subs w2) (cl_subs b)) t vals w2) as [[] w|e w|] eqn:El; [|discriminate|discriminate].
  pose proof (ents_okay w1 w2 name b Hn Ho Hs Hk) as Eok.
  destruct (set_loop_ok t vals _ w2 w Eok (ents_uniq w1 w2 name b Hn Ho Hs) El) as ((_ & So & Ss & Sl) & _ & _).
  destruct (comp_update (lw_subs w2) w) as [[] w'|e w'|] eqn:Eu; [|discriminate|discriminate]. unfold lret in E. injection E as <-.
  destruct (updates_ok _ _ _ Eu) as (C & S3 & L3 & O3 & U3 & V3).
  assert (Hval : forall c j, in_subs w1 c -> registered w1 c name j -> exists f, fld_of (lw_ctx w' c) j = Some f /\ fwf f /\ kept (lw_ctx w' c) /\ (l_size f <= List.length vals)%nat /\
    has_val f t (firstn (l_size f) vals) (lw_ctx w' c)).
  { intros c j H1 H2. specialize (A c j H1 H2). apply set_step_field in A. rewrite set_one_eval in A. destruct (fld_of (lw_ctx w2 c) j) as [f|] eqn:Ef; [|discriminate].
    assert (K : kept (lw_ctx w2 c)). { apply Hk. destruct H1 as (i & o & I1 & I2 & I3). destruct (Ho i o I2) as (o2 & J1 & J2). exists i, o2. rewrite Hs. repeat split; auto. congruence. }
    destruct (set_at_inv _ _ _ _ _ K A) as (G1 & G2 & G3 & G4). exists f. split; [rewrite (fld_F _ _ j K G3 G4); auto|]. split; auto.
    unfold fld_of in Ef. destruct (w_ctx (lw_ctx w2 c)) as [x|] eqn:Hxx; [|discriminate]. apply nth_error_In in Ef. pose proof (Hwf c x Hxx) as W. rewrite Forall_forall in W. auto. }
  split.
  - cbn [lstep]. unfold comp_get, lbind, lget. unfold comp_check, lbind, lget. rewrite L3, Sl, Hb. replace (Nat.eqb _ _) with true by (symmetry; apply Nat.eqb_eq; rewrite S3, Ss; auto). cbn [lcheck]. unfold lret at 1 2.
    rewrite S3, Ss.
    assert (Eok' : ents_ok w' (combine (lw_subs w2) (cl_subs b))).
    { intros i p o' Hin Hi c Hc. destruct (ent_at w1 w2 name b Hn Ho Hs _ Hin) as (i' & o1 & o2 & F1 & F2 & F3 & F4 & F5 & F6). cbn in F1, F6. injection F1 as <-.
      assert (Ec' : LabelModel.s_ctx o2 = Some c). { rewrite <- So in F4. destruct (O3 i o2 F4) as (o3 & J1 & J2). congruence. }
      destruct (Eok i p o2 Hin F4 c Ec') as [K Hq]. split; auto. destruct (fidx (lw_ctx w1 c) name) as [j|] eqn:Ej.
      - assert (G : in_subs w1 c) by (exists i, o1; repeat split; auto; congruence). destruct (Hval c j G (proj2 (registered_fidx _ _ _ _) Ej)) as (f & _ & _ & G3 & _). exact G3.
      - rewrite (B c); auto. intros j [_ G]. apply registered_fidx in G. congruence. }
    destruct (get_loop_do t (combine (lw_subs w2) (cl_subs b)) w' Eok') as (e & c & j & Hin & He & H).
    + intros i p Hin. destruct (ent_at w1 w2 name b Hn Ho Hs _ Hin) as (i' & o1 & o2 & F1 & F2 & F3 & F4 & _). cbn in F1. rewrite <- So in F4. destruct (O3 _ _ F4) as (o3 & J1 & _). eauto.
    + destruct Hn as (Ln & Nn & _ & n & p & Hp). assert (n < List.length (lw_subs w1))%nat as Hlt. { rewrite <- Ln. apply nth_error_Some. congruence. }
      apply nth_error_Some in Hlt. destruct (nth_error (lw_subs w1) n) as [i|] eqn:Ei; [|congruence]. destruct (Nn n i Ei) as (i' & o & -> & Eo & Ep). rewrite Hp in Ep. injection Ep as Ep.
      unfold lab_of in Ep. destruct (LabelModel.s_ctx o) as [c|] eqn:Ecx; [|discriminate]. destruct (fidx (lw_ctx w1 c) name) as [j|] eqn:Ej; [|discriminate]. injection Ep as ->.
      destruct (Ho i' o Eo) as (o2 & J1 & J2). rewrite <- So in J1. destruct (O3 _ _ J1) as (o3 & J3 & J4).
      exists (Some i', Some (c, j)), c, j. split; [apply in_combine_nth with n; auto; now rewrite Hs|]. exists i', o3. repeat split; auto. congruence.
    + assert (G : in_subs w1 c /\ registered w1 c name j).
      { apply (ent_iff w1 w2 name b Hn Ho Hs). exists e. split; auto. destruct He as (i & o' & I1 & I2 & I3 & I4). destruct (ent_at w1 w2 name b Hn Ho Hs _ Hin) as (i' & o1 & o2 & F1 & F2 & F3 & F4 & F5 & F6).
        rewrite I1 in F1. injection F1 as <-. exists i, o2. repeat split; auto. rewrite <- So in F4. destruct (O3 _ _ F4) as (o3 & J3 & J4). congruence. }
      destruct (Hval c j (proj1 G) (proj2 G)) as (f & Hf & Hw & HK & Hlen & Hv). destruct (H f _ Hf Hw Hv) as (w4 & Ew4). rewrite Ew4. assert (Et : l_type f = t) by (destruct Hv as (x & a & l & _ & Ht & _); auto).
      assert (Ez : l_size f = (l_num f * fsize t)%nat) by (rewrite Hw, Et; lia). rewrite Ez in *. exists (l_num f), w4. split; auto.
  - intros c j H1 H2. destruct (Hval c j H1 H2) as (f & Hf & Hw & HK & Hlen & Hv). assert (Et : l_type f = t) by (destruct Hv as (x & a & l & _ & Ht & _); auto).
    assert (Ez : l_size f = (l_num f * fsize t)%nat) by (rewrite Hw, Et; lia).
    destruct (get_at_do f t _ (lw_ctx w' c) HK Hw Hv) as (q & v3 & E3 & Sv & R3 & _). exists (l_num f). eexists. cbn [step]. unfold ctx_get_field, ctx_get_generic. unfold mbind. rewrite deref_fld, Hf, E3.
    unfold set_rptr. rewrite R3; [|cbn; rewrite Sv; reflexivity]. unfold ret. rewrite <- Ez. reflexivity.
Qed.

(** ** Obtaining a label *)
Lemma find_label_do name l : forall k w, (forall b, In b l -> exists f, nfld w (cl_name b) = Some f /\ l_name f <> name) -> exists w', find_label k l name w = LOk None w' /\ eqw w w'.
Proof.
  induction l as [|b l IH]; intros k w H; cbn [find_label]; [exists w; split; [reflexivity|apply eqw_refl]|].
  destruct (H b (or_introl eq_refl)) as (f & Hf & Hm). unfold lbind. pose proof (lderef_cases (cl_name b) w) as G. rewrite lderef_do in *. unfold nfld in Hf. rewrite Hf in *. destruct G as [_ E1].
  set (w1 := set_ctxs w _) in *. destruct (seqb (l_name f) name) eqn:Es; [apply seqb_eq in Es; congruence|].
  destruct (IH (S k) w1) as (w' & E2 & X). { intros b' Hb'. destruct (H b' (or_intror Hb')) as (f' & Hf' & Hm'). exists f'. rewrite (nfld_eqw w w1); auto. }
  exists w'. split; auto. eapply eqw_trans; eauto.
Qed.
Lemma sub_loop_do name t n subs : forall acc w, (forall i, In i subs -> exists i' o, i = Some i' /\ nth_error (lw_ops w) i' = Some o) -> (forall c, w_ctx (lw_ctx w c) <> None) ->
  (forall i o c j, In (Some i) subs -> nth_error (lw_ops w) i = Some o -> LabelModel.s_ctx o = Some c -> fidx (lw_ctx w c) name = Some j ->
     exists f, fld_of (lw_ctx w c) j = Some f /\ l_type f = t /\ l_num f = n) ->
  (acc = None \/ exists p, acc = Some (p, t, n)) ->
  exists r w', sub_loop subs name acc w = LOk r w' /\ (snd r <> None <-> acc <> None \/ exists i o c j, In (Some i) subs /\ nth_error (lw_ops w) i = Some o /\ LabelModel.s_ctx o = Some c /\ fidx (lw_ctx w c) name = Some j).
Proof.
  induction subs as [|i subs IH]; intros acc w Hs Hc Hf Ha; cbn [sub_loop].
  - eexists; eexists. split; [reflexivity|]. cbn. split; [auto|]. intros [H|(i & o & c & j & [] & _)]. exact H.
  - destruct (Hs i (or_introl eq_refl)) as (i' & o & -> & Eo). rename i' into i. unfold lbind at 1. unfold get_op, lbind at 1, lget. rewrite Eo. unfold lret at 1.
    assert (G : exists r w1, sub_label o name acc w = LOk r w1 /\ eqw w w1 /\ (snd r = None \/ exists p, snd r = Some (p, t, n)) /\
      (snd r <> None <-> acc <> None \/ exists c j, LabelModel.s_ctx o = Some c /\ fidx (lw_ctx w c) name = Some j)).
    { unfold sub_label. destruct (LabelModel.s_ctx o) as [c|] eqn:Ec.
      2:{ exists (None, acc), w. split; [reflexivity|]. split; [apply eqw_refl|]. cbn. split; auto. split; auto. intros [H|(c & j & H & _)]; [auto|discriminate]. }
      pose proof (on_label c name w) as G. unfold lbind. unfold on, ctx_label, mbind, getc in *. specialize (Hc c). destruct (w_ctx (lw_ctx w c)) as [x|] eqn:Hx; [|congruence]. unfold ret in *. destruct G as [G1 G2].
      set (w1 := set_ctxs w _) in *. rewrite G1. destruct (fidx (lw_ctx w c) name) as [j|] eqn:Ej.
      - destruct (Hf i o c j (or_introl eq_refl) Eo Ec Ej) as (f & Hfl & Ht & Hn). pose proof (lderef_cases (c, j) w1) as G. rewrite lderef_do in *. cbn [fst snd] in *.
        assert (Hfl1 : fld_of (lw_ctx w1 c) j = Some f) by (destruct G2 as [_ ->]; auto). rewrite Hfl1 in *. destruct G as [_ G].
        destruct Ha as [->|(p & ->)].
        + eexists; eexists. split; [reflexivity|]. split; [eapply eqw_trans; eauto|]. cbn. split; [right; exists (c, j); now rewrite Ht, Hn|]. split; [intros _; right; eauto|discriminate].
        + rewrite Ht, Hn. replace (ftype_eqb t t) with true by now destruct t. rewrite Nat.eqb_refl, orb_true_r. cbn [andb].
          eexists; eexists. split; [reflexivity|]. split; [eapply eqw_trans; eauto|]. cbn. split; [right; eauto|]. split; [intros _; left|]; discriminate.
      - eexists; eexists. split; [reflexivity|]. split; [exact G2|]. cbn. split; auto. split; auto. intros [H|(c' & j & H & H')]; auto. injection H as <-. congruence. }
    destruct G as (r & w1 & E1 & X1 & A1 & N1). unfold lbind at 1. rewrite E1. unfold lbind. pose proof X1 as [(_ & O1 & _) C1].
    destruct (IH (snd r) w1) as (rs & w2 & E2 & N2); auto.
    { intros i' Hi'. rewrite O1. apply Hs. now right. } { intros c. rewrite C1. auto. }
    { intros i' o' c j Hi' Ho' Hc' Hj'. rewrite O1 in Ho'. rewrite C1 in Hj' |- *. eapply Hf; [right|..]; eauto. }
    rewrite E2. eexists; eexists. split; [reflexivity|]. cbn [snd]. rewrite N2, N1, O1. split.
    + intros [[H|(c & j & H1 & H2)]|(i' & o' & c & j & H1 & H2 & H3 & H4)]; [auto| |].
      * right. exists i, o, c, j. split; [now left|auto].
      * right. exists i', o', c, j. rewrite C1 in H4. split; [now right|auto].
    + intros [H|(i' & o' & c & j & [H1|H1] & H2 & H3 & H4)]; [auto| |].
      * injection H1 as <-. rewrite Eo in H2. injection H2 as <-. left. right. eauto.
      * right. exists i', o', c, j. rewrite C1. auto.
Qed.
(** C39: asking a composite operator of non-composite sub-operators for a field gives a label exactly if some sub-operator has it,
    provided that all that have it agree on its type and number of values. *)
Theorem C39_label : forall h1 r1 w1 name t n, lrun h1 lw0 = Some (r1, w1) -> ~ In (LLabel name) h1 ->
  (forall i, In i (lw_subs w1) -> exists i' o, i = Some i' /\ nth_error (lw_ops w1) i' = Some o) -> (forall c, w_ctx (lw_ctx w1 c) <> None) ->
  (forall c j, in_subs w1 c -> registered w1 c name j -> exists x f, w_ctx (lw_ctx w1 c) = Some x /\ nth_error (c_fields x) j = Some f /\ l_type f = t /\ l_num f = n) ->
  exists l w', lstep (LLabel name) w1 = LOk (XLab l) w' /\ (l = LNull <-> ~ exists c j, in_subs w1 c /\ registered w1 c name j) /\ (l = LNull \/ exists k, l = LK k).
Proof.
  intros h1 r1 w1 name t n E1 Hn Hs Hc Hf. cbn [lstep]. unfold comp_label, lbind at 1, lbind at 1, lget at 1.
  assert (N0 : named [] lw0) by (intros b []). pose proof (lrun_named h1 lw0 r1 w1 [] N0 E1) as N1. cbn [app] in N1.
  destruct (find_label_do name (lw_labs w1) 0 w1) as (wf & Ef & Xf).
  { intros b Hb. specialize (Hc (fst (cl_name b))). destruct (w_ctx (lw_ctx w1 (fst (cl_name b)))) as [x|] eqn:Hx; [|congruence]. destruct (N1 b Hb x Hx) as (f & Hf' & Hi).
    exists f. unfold nfld, fld_of. rewrite Hx. split; auto. intros Hm. apply Hn, asked_in. now rewrite <- Hm. }
  unfold lbind at 1. rewrite Ef. unfold lbind at 1. pose proof Xf as [(_ & Of & Sf & _) Cf].
  destruct (sub_loop_do name t n (lw_subs w1) None wf) as (r & w2 & E2 & G).
  { intros i Hi. rewrite Of. auto. } { intros c. rewrite Cf. auto. }
  { intros i o c j H1 H2 H3 H4. rewrite Of in H2. rewrite Cf in H4 |- *. destruct (Hf c j) as (x & f & Hx & Hfl & Ht & Hm). { exists i, o. auto. } { now apply registered_fidx. }
    exists f. unfold fld_of. rewrite Hx. auto. } { auto. }
  rewrite E2. assert (Hiff : snd r <> None <-> exists c j, in_subs w1 c /\ registered w1 c name j).
  { rewrite G. split.
    - intros [H|(i & o & c & j & H1 & H2 & H3 & H4)]; [congruence|]. exists c, j. rewrite Of in H2. rewrite Cf in H4. split; [exists i, o; auto|now apply registered_fidx].
    - intros (c & j & (i & o & H1 & H2 & H3) & H4). right. exists i, o, c, j. rewrite Of, Cf. repeat split; auto. now apply registered_fidx. }
  destruct (snd r) as [[[p t'] n']|].
  - unfold lbind, lget, lput, lret. eexists; eexists. split; [reflexivity|]. split; [|eauto]. split; [discriminate|]. intros H. exfalso. apply H. apply Hiff. discriminate.
  - unfold lret. eexists; eexists. split; [reflexivity|]. split; [|auto]. split; auto. intros _ H. apply Hiff in H. congruence.
Qed.

(** ** Non-composite operators: a label of the operator acts as the label of its context. *)
Theorem C39_single : forall w i o c name j w1 t vals, nth_error (lw_ops w) i = Some o -> LabelModel.s_ctx o = Some c -> kept (lw_ctx w c) ->
  lstep (SLabel i name) w = LOk (XLab (LC (c, j))) w1 ->
  registered w c name j /\ forall v, step (KSetField (Some j) t vals) (lw_ctx w c) = ROk ODone v ->
    exists w2, lstep (SSet i (LC (c, j)) t vals) w1 = LOk XDone w2 /\ lw_ctx w2 c = v /\ (forall c', c' <> c -> lw_ctx w2 c' = lw_ctx w c') /\
    exists o2, nth_error (lw_ops w2) i = Some o2 /\ s_upd o2 = true.
Proof.
  intros w i o c name j w1 t vals Eo Ec K E. cbn [lstep] in E. unfold lbind in E. unfold single_label, lbind in E. unfold get_op, lbind, lget in E. rewrite Eo in E. unfold lret at 1 in E.
  destruct (inner_ctx_do o w) as (wa & Ea & (Sa1 & Sa2 & Sa3 & Sa4) & Ca). { intros c' H. rewrite Ec in H. now injection H as <-. } rewrite Ea, Ec in E.
  pose proof (on_label c name wa) as G. destruct (on c (ctx_label name) wa) as [j' wb|e wb|]; [|destruct G|discriminate]. destruct G as [Ej ((Sb1 & Sb2 & Sb3 & Sb4) & Cb)].
  destruct j' as [j'|]; [|discriminate]. unfold lput in E. set (wc := set_from wb _) in E. assert (Oc : nth_error (lw_ops wc) i = Some o) by (cbn; congruence).
  destruct (put_op_pre wc i (mkSop (LabelModel.s_ctx o) (s_labs o ++ [(c, j')]) (s_upd o)) o Oc eq_refl) as (wd & Ed & _ & Cd & Sd & Ld & Nd). rewrite Ec in Ed. rewrite Ed in E. unfold lret in E. injection E as -> <-.
  rewrite Ca in Ej. split; [now apply registered_fidx|]. intros v Ev. set (o1 := mkSop (LabelModel.s_ctx o) (s_labs o ++ [(c, j)]) (s_upd o)) in *.
  assert (O1 : nth_error (lw_ops wd) i = Some o1) by (rewrite Nd, Nat.eqb_refl; reflexivity).
  assert (Cw : forall n, lw_ctx wd n = lw_ctx w n) by (intros n; rewrite Cd; cbn; now rewrite Cb, Ca).
  assert (Kd : forall c0, LabelModel.s_ctx o1 = Some c0 -> kept (lw_ctx wd c0)) by (intros c0 H; cbn in H; rewrite Ec in H; injection H as <-; now rewrite Cw).
  cbn [lstep]. unfold ldone, lbind, single_set, lbind. unfold single_check, lbind, lget. unfold get_op at 1. unfold lbind, lget. rewrite O1. unfold lret at 1. unfold lcheck.
  assert (Hl : lin (c, j) (s_labs o1) = true). { unfold lin, o1. cbn. rewrite existsb_app. cbn. unfold lptr_eqb. cbn. rewrite !Nat.eqb_refl. cbn. now rewrite orb_true_r. }
  rewrite Hl, orb_true_r. unfold lret at 1 2. destruct (op_get_ctx_do i o1 wd O1 Kd) as (we & Ee & (Se1 & Se2 & Se3 & Se4) & Ce). rewrite Ee. cbn [o1 LabelModel.s_ctx]. rewrite Ec.
  assert (Cec : lw_ctx we c = bump (lw_ctx w c)) by (rewrite Ce; cbn [o1 LabelModel.s_ctx]; rewrite Ec; cbn [bumped]; rewrite cupd_same, Cw; reflexivity).
  rewrite lderef_do. cbn [fst snd]. rewrite Cec, fld_bump.
  apply set_step_field in Ev. rewrite set_one_eval in Ev. destruct (fld_of (lw_ctx w c) j) as [f|]; [|discriminate]. set (wf := set_ctxs we _).
  assert (Cf : lw_ctx wf c = bump (lw_ctx w c)) by (unfold wf; cbn; now rewrite cupd_same).
  assert (Ef : ctx_set_at f t vals (lw_ctx wf c) = ROk tt (bump v)) by (rewrite Cf, set_at_bump, Ev by auto; reflexivity). destruct (set_at_inv _ _ _ _ _ K Ev) as (_ & _ & Kv & _).
  destruct (on_do unit c (ctx_set_at f t vals) wf tt _ Ef) as (wg & Eg & (_ & Sg & _) & Cg). rewrite Eg.
  assert (Dg : ctx_destroy (lw_ctx wg c) = ROk tt v) by (rewrite Cg, cupd_same; now apply destroy_bump).
  destruct (on_do unit c ctx_destroy wg tt _ Dg) as (wh & Eh & (_ & Sh & _) & Ch). rewrite Eh.
  assert (Oh : nth_error (lw_ops wh) i = Some o1) by (rewrite Sh, Sg; cbn; now rewrite Se2).
  unfold op_update, get_op, lbind, lget. rewrite Oh. unfold lret at 1. destruct (put_op_pre wh i (mkSop (LabelModel.s_ctx o1) (s_labs o1) true) o1 Oh eq_refl) as (wi & Ei & _ & Ci & _ & _ & Ni). rewrite Ei. unfold lret.
  exists wi. split; [reflexivity|]. rewrite Ci. split; [now rewrite Ch, cupd_same|]. split.
  - intros c' Hc'. rewrite Ch, cupd_other, Cg, cupd_other by auto. unfold wf. cbn. rewrite cupd_other by auto. rewrite Ce. cbn [o1 LabelModel.s_ctx]. rewrite Ec. cbn. rewrite cupd_other by auto. apply Cw.
  - rewrite Ni, Nat.eqb_refl. eauto.
Qed.

(** ** A concrete case: field "f" in contexts 0 and 1 at different offsets, context 0 shared by two sub-operators, context 2 without it. *)
Definition nf : str := lit "f"%string. Definition ng : str := lit "g"%string.
Definition mkctx (c : nat) (l : bytes) : list lcmd := [LOn c (UAlloc l); LOn c (KSet true CopyValues (List.length l) (SUser 0))].
Definition mkop (i c : nat) : list lcmd := [LOp; LSetCtx i (Some c); LAdd (Some i)].
Definition ex_h : list lcmd :=
  mkctx 0 [b0; b1; b2] ++ [LOn 0 (KRegister nf 1 FBool 2)] ++
  mkctx 1 [b0; b0; b0; b0] ++ [LOn 1 (KRegister ng 0 FBool 1); LOn 1 (KRegister nf 1 FBool 2)] ++
  mkctx 2 [b2] ++ mkop 0 2 ++ mkop 1 1 ++ mkop 2 0 ++ mkop 3 0.
Definition seen (r : lout lobs) : option lobs := match r with LOk o _ => Some o | _ => None end.
Definition refused (r : lout lobs) : option Z := match r with LErr e _ => Some e | _ => None end.
Definition out_w (r : lout lobs) : lworld := match r with LOk _ w | LErr _ w => w | LUB => lw0 end.
Definition cseen (r : out obs) : option obs := match r with ROk o _ => Some o | _ => None end.
Definition after (h : list lcmd) : lworld := match lrun h lw0 with Some (_, w) => w | None => lw0 end.
Definition results (h : list lcmd) : option (list lres) := match lrun h lw0 with Some (r, _) => Some r | None => None end.
Lemma seen_ok r o : seen r = Some o -> r = LOk o (out_w r).
Proof. destruct r; cbn; congruence. Qed.
Lemma refused_ok r e : refused r = Some e -> r = LErr e (out_w r).
Proof. destruct r; cbn; congruence. Qed.
Lemma cseen_ok r o : cseen r = Some o -> exists v, r = ROk o v.
Proof. destruct r; cbn; try congruence. intros H. injection H as ->. eauto. Qed.
Lemma results_ok h r : results h = Some r -> lrun h lw0 = Some (r, after h).
Proof. unfold results, after. destruct (lrun h lw0) as [[r' w]|]; congruence. Qed.
Ltac sub i := exists i; eexists; split; [vm_compute; tauto|]; split; vm_compute; reflexivity.
Ltac reg := apply registered_fidx; vm_compute; reflexivity.
Ltac vals := apply cseen_ok; vm_compute; reflexivity.
Definition ex_w1 := after ex_h. Definition ex_w2 := out_w (lstep (LLabel nf) ex_w1).
Example C39_ex : labelled ex_h nf [] ex_w1 0 ex_w2 /\ (forall c, in_subs ex_w2 c -> kept (lw_ctx ex_w2 c)) /\
  in_subs ex_w1 0 /\ registered ex_w1 0 nf 0 /\ in_subs ex_w1 1 /\ registered ex_w1 1 nf 1 /\
  lstep (LSet (LK 0) FBool [b2; b1; b0]) ex_w2 = LOk XDone (out_w (lstep (LSet (LK 0) FBool [b2; b1; b0]) ex_w2)) /\
  results (ex_h ++ [LLabel nf; LSet (LK 0) FBool [b2; b1; b0]; LGet (LK 0) FBool]) =
  Some (List.map LGood (repeat (XCtx ODone) 9 ++ repeat XDone 12 ++ [XLab (LK 0); XDone; XVals (Some (2%nat, [b2; b1]))])).
Proof.
  split. { eexists. exists ex_w2, []. split; [apply results_ok; vm_compute; reflexivity|]. split; [|split; [apply seen_ok; vm_compute; reflexivity|split; [reflexivity|constructor]]].
    intros H. vm_compute in H. repeat destruct H as [H|H]; try discriminate; auto. }
  split. { intros c (i & o & H1 & H2 & H3).
    assert (Hsub : lw_subs ex_w2 = [Some 0%nat; Some 1%nat; Some 2%nat; Some 3%nat]) by (vm_compute; reflexivity). rewrite Hsub in H1.
    assert (Hops : lw_ops ex_w2 = [mkSop (Some 2%nat) [] false; mkSop (Some 1%nat) [] false; mkSop (Some 0%nat) [] false; mkSop (Some 0%nat) [] false]) by (vm_compute; reflexivity). rewrite Hops in H2.
    destruct H1 as [H1|[H1|[H1|[H1|[]]]]]; injection H1 as <-; cbn in H2; injection H2 as <-; cbn in H3; injection H3 as <-;
      (eexists; split; [vm_compute; reflexivity|]; vm_compute; repeat split; discriminate). }
  split; [sub 2%nat|]. split; [reg|]. split; [sub 1%nat|]. split; [reg|]. split; [apply seen_ok; vm_compute; reflexivity|vm_compute; reflexivity].
Qed.

(** ** Findings *)
(** Sub-operators with the field in different types: the label is freed and then used. *)
Theorem C39_conflict_refuted : exists h name w r, lrun h lw0 = Some (r, w) /\ lstep (LLabel name) w = LUB /\
  (exists c j c' j', in_subs w c /\ registered w c name j /\ in_subs w c' /\ registered w c' name j').
Proof.
  exists (mkctx 0 [b0; b1] ++ [LOn 0 (KRegister nf 1 FBool 1)] ++ mkctx 1 [b0; b0; b0; b0] ++ [LOn 1 (KRegister nf 0 FInt32 1)] ++ mkop 0 0 ++ mkop 1 1), nf.
  eexists. eexists. split; [apply results_ok; vm_compute; reflexivity|]. split; [vm_compute; reflexivity|]. exists 0%nat, 0%nat, 1%nat, 0%nat.
  split; [sub 0%nat|]. split; [reg|]. split; [sub 1%nat|reg].
Qed.
(** A composite sub-operator: its QFunction is NULL and is dereferenced. *)
Theorem C39_nested_refuted : exists h name w r, lrun h lw0 = Some (r, w) /\ lw_subs w = [None] /\ lstep (LLabel name) w = LUB.
Proof. exists [LAdd None], nf. eexists. eexists. split; [apply results_ok; vm_compute; reflexivity|]. split; reflexivity. Qed.
(** After another sub-operator is added the old label is refused, and asking again returns that label: the field cannot be set any more. *)
Theorem C39_added_refuted : exists h w r, lrun h lw0 = Some (r, w) /\ In (LGood (XLab (LK 0))) r /\
  (exists c j, in_subs w c /\ registered w c nf j) /\
  lstep (LLabel nf) w = LOk (XLab (LK 0)) (out_w (lstep (LLabel nf) w)) /\ forall t vals, exists w', lstep (LSet (LK 0) t vals) w = LErr ERR_UNSUPPORTED w'.
Proof.
  exists (ex_h ++ [LLabel nf; LOp; LAdd (Some 4%nat)]). eexists. eexists. split; [apply results_ok; vm_compute; reflexivity|].
  split; [vm_compute; tauto|]. split; [exists 1%nat, 1%nat; split; [sub 1%nat|reg]|]. split; [apply seen_ok; vm_compute; reflexivity|].
  intros t vals. eexists. apply refused_ok. vm_compute. reflexivity.
Qed.
(** A field registered after the label was made is not reached, although the set call succeeds. *)
Theorem C39_late_refuted : exists h w r w', lrun h lw0 = Some (r, w) /\ in_subs w 2 /\ registered w 2 nf 0 /\
  lstep (LSet (LK 0) FBool [b1; b1]) w = LOk XDone w' /\ seen (lstep (LLabel nf) w) = Some (XLab (LK 0)) /\
  (exists v, step (KGetField (Some 0%nat) FBool) (lw_ctx w 2) = ROk (OVals 1 [b2]) v) /\
  (exists v, step (KGetField (Some 0%nat) FBool) (lw_ctx w' 2) = ROk (OVals 1 [b2]) v).
Proof.
  exists (ex_h ++ [LLabel nf; LOn 2 (KRegister nf 0 FBool 1)]). eexists. eexists. eexists. split; [apply results_ok; vm_compute; reflexivity|].
  split; [sub 0%nat|]. split; [reg|]. split; [apply seen_ok; vm_compute; reflexivity|]. split; [vm_compute; reflexivity|]. split; vals.
Qed.
(** A set call that fails leaves the first context changed and takes a reference on the failing context that is never dropped. *)
Theorem C39_halfway_refuted : exists h w r w' e, lrun h lw0 = Some (r, w) /\ lstep (LSet (LK 0) FBool [b2; b2]) w = LErr e w' /\
  (exists v, step (KGetField (Some 1%nat) FBool) (lw_ctx w 1) = ROk (OVals 2 [b0; b0]) v) /\
  (exists v, step (KGetField (Some 1%nat) FBool) (lw_ctx w' 1) = ROk (OVals 2 [b2; b2]) v) /\
  exists x x', w_ctx (lw_ctx w 0) = Some x /\ w_ctx (lw_ctx w' 0) = Some x' /\ c_refs x' = c_refs x + 1.
Proof.
  exists (ex_h ++ [LLabel nf; LOn 0 (KGetRead true)]). eexists. eexists. eexists. exists ERR_MINOR. split; [apply results_ok; vm_compute; reflexivity|].
  split; [apply refused_ok; vm_compute; reflexivity|]. split; [vals|]. split; [vals|]. eexists; eexists. split; [vm_compute; reflexivity|]. split; vm_compute; reflexivity.
Qed.
(** After CeedQFunctionSetContext the label writes into the new context at the place of the old one: another field is overwritten and "f" is not set. *)
Theorem C39_replaced_refuted : exists h w r w', lrun h lw0 = Some (r, w) /\ in_subs w 3 /\ registered w 3 nf 0 /\ registered w 3 ng 1 /\
  lstep (LSet (LK 0) FBool [b1; b1]) w = LOk XDone w' /\
  (exists v, step (KGetField (Some 0%nat) FBool) (lw_ctx w' 3) = ROk (OVals 1 [b0]) v) /\
  (exists v, step (KGetField (Some 1%nat) FBool) (lw_ctx w 3) = ROk (OVals 2 [b0; b0]) v) /\
  (exists v, step (KGetField (Some 1%nat) FBool) (lw_ctx w' 3) = ROk (OVals 2 [b1; b1]) v).
Proof.
  exists (ex_h ++ [LLabel nf] ++ mkctx 3 [b0; b0; b0] ++ [LOn 3 (KRegister nf 0 FBool 1); LOn 3 (KRegister ng 1 FBool 2); LSetCtx 1 (Some 3%nat)]).
  eexists. eexists. eexists. split; [apply results_ok; vm_compute; reflexivity|]. split; [sub 1%nat|]. split; [reg|]. split; [reg|].
  split; [apply seen_ok; vm_compute; reflexivity|]. split; [vals|]. split; vals.
Qed.
(** Two operators with one context: a label taken from the context works on operator 1 until operator 0 asks for it; then it is refused. *)
Theorem C39_shared_refuted : exists h w r w0 w' w'', lrun h lw0 = Some (r, w) /\ (exists o o', nth_error (lw_ops w) 2 = Some o /\ nth_error (lw_ops w) 3 = Some o' /\ LabelModel.s_ctx o = LabelModel.s_ctx o') /\
  lstep (SSet 3 (LC (0%nat, 0%nat)) FBool [b1; b1]) w = LOk XDone w0 /\
  lstep (SLabel 2 nf) w = LOk (XLab (LC (0%nat, 0%nat))) w' /\ lstep (SSet 3 (LC (0%nat, 0%nat)) FBool [b1; b1]) w' = LErr ERR_UNSUPPORTED w''.
Proof.
  exists ex_h. eexists. eexists. eexists. eexists. eexists. split; [apply results_ok; vm_compute; reflexivity|].
  split; [eexists; eexists; split; [vm_compute; reflexivity|]; split; vm_compute; reflexivity|]. split; [apply seen_ok; vm_compute; reflexivity|].
  split; [apply seen_ok; vm_compute; reflexivity|apply refused_ok; vm_compute; reflexivity].
Qed.
Print Assumptions C39_set. Print Assumptions C39_get. Print Assumptions C39_set_works. Print Assumptions C39_label. Print Assumptions C39_single. Print Assumptions C39_halfway_refuted.
