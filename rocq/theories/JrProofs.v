(** * Proofs about the JiT lists of a hierarchy of contexts *)
From Coq Require Import List ZArith Lia Bool Arith.
From Verif Require Import Prelude RstrModel StrModel QfModel JrModel.
Import ListNotations.
Set Implicit Arguments.
Local Open Scope nat_scope.

Lemma upd_len A (l : list A) i a : length (upd_nth l i a) = length l.
Proof. revert i; induction l as [|x l IH]; intros [|i]; simpl; auto. Qed.
Lemma upd_eq A (l : list A) i a : i < length l -> nth_error (upd_nth l i a) i = Some a.
Proof. revert i; induction l as [|x l IH]; intros [|i] H; simpl in *; try lia; auto. apply IH; lia. Qed.
Lemma upd_ne A (l : list A) i j a : i <> j -> nth_error (upd_nth l i a) j = nth_error l j.
Proof. revert i j; induction l as [|x l IH]; intros [|i] [|j] H; simpl in *; try lia; auto. Qed.
Lemma upd_upd A (l : list A) i a b : upd_nth (upd_nth l i a) i b = upd_nth l i b.
Proof. revert i; induction l as [|x l IH]; intros [|i]; simpl; auto; f_equal; auto. Qed.
Lemma upd_id A (l : list A) i a : nth_error l i = Some a -> upd_nth l i a = l.
Proof. revert i; induction l as [|x l IH]; intros [|i]; simpl; intros H; try discriminate; [injection H as ->; reflexivity|f_equal; auto]. Qed.
Lemma upd_comm A (l : list A) i j a b : i <> j -> upd_nth (upd_nth l i a) j b = upd_nth (upd_nth l j b) i a.
Proof. revert i j; induction l as [|x l IH]; intros [|i] [|j] H; simpl; try lia; auto. f_equal; apply IH; lia. Qed.
Lemma nth_lt A (l : list A) i a : nth_error l i = Some a -> i < length l.
Proof. intros H; apply nth_error_Some; congruence. Qed.
Lemma upd_app A (l r : list A) i a : i < length l -> upd_nth (l ++ r) i a = upd_nth l i a ++ r.
Proof. revert i; induction l as [|x l IH]; intros [|i] H; simpl in *; try lia; auto. f_equal; apply IH; lia. Qed.
Lemma upd_last A (l : list A) y a : upd_nth (l ++ [y]) (length l) a = l ++ [a].
Proof. induction l; simpl; auto; f_equal; auto. Qed.
Lemma upd_last2 A (l : list A) y a i : length l = i -> upd_nth (l ++ [y]) i a = l ++ [a].
Proof. intros <-; apply upd_last. Qed.

(** the top-most context, read off the parent links *)
Inductive topr (w : world) : nat -> nat -> Prop :=
| top_here c x : nth_error w c = Some x -> cpar x = None -> topr w c c
| top_up c x p t : nth_error w c = Some x -> cpar x = Some p -> topr w p t -> topr w c t.

Lemma topr_fun w c t : topr w c t -> forall t', topr w c t' -> t = t'.
Proof.
  induction 1 as [c x E P|c x p t E P T IH]; intros t' T'; inversion T'; subst; try congruence.
  apply IH. congruence.
Qed.
Lemma topr_top w c t : topr w c t -> exists x, nth_error w t = Some x /\ cpar x = None.
Proof. induction 1; eauto. Qed.
Lemma topr_self w c t : topr w c t -> topr w t t.
Proof. intros H; destruct (topr_top H) as [x [E P]]; econstructor 1; eauto. Qed.

(** [holds l ss]: the list stores exactly the strings [ss] *)
Definition holds (l : jlist) (ss : list str) : Prop :=
  length (jarr l) = jmax l /\ jnum l <= jmax l /\ jnum l = length ss /\ firstn (jnum l) (jarr l) = map Some ss.
Definition sound (x : ctx) : Prop := calive x = true /\ (1 <= crefs x)%Z.
Definition good (w : world) : Prop := forall c x, nth_error w c = Some x -> sound x.

Lemma deref_good w c x : good w -> nth_error w c = Some x -> deref w c = Some x.
Proof. intros G E. unfold deref. rewrite E. destruct (G c x E) as [-> _]. reflexivity. Qed.
Lemma deref_nth w c x : deref w c = Some x -> nth_error w c = Some x /\ calive x = true.
Proof. unfold deref. destruct (nth_error w c) as [y|]; [|discriminate]. destruct (calive y) eqn:A; [|discriminate]. intros H; injection H as <-; auto. Qed.

Inductive chain (w : world) : nat -> nat -> list nat -> Prop :=
| ch_here c x : nth_error w c = Some x -> cpar x = None -> chain w c c [c]
| ch_up c x p t l : nth_error w c = Some x -> cpar x = Some p -> chain w p t l -> chain w c t (c :: l).
Lemma topr_chain w c t : topr w c t -> exists l, chain w c t l.
Proof. induction 1 as [c x E P|c x p t E P T [l IH]]; eexists; [econstructor 1|econstructor 2]; eauto. Qed.
Lemma chain_fun w c t l : chain w c t l -> forall t' l', chain w c t' l' -> l = l'.
Proof.
  induction 1 as [c x E P|c x p t l E P T IH]; intros t' l' T'; inversion T'; subst; try congruence.
  f_equal. eapply IH. replace p with p0 by congruence. eassumption.
Qed.
Lemma chain_in w c t l : chain w c t l -> forall d, In d l -> exists l', chain w d t l' /\ length l' <= length l.
Proof.
  induction 1 as [c x E P|c x p t l E P T IH]; intros d I.
  - destruct I as [<-|[]]. exists [c]; split; [econstructor 1; eauto|simpl; lia].
  - destruct I as [<-|I]; [exists (c :: l); split; [econstructor 2; eauto|lia]|].
    destruct (IH d I) as [l' [H1 H2]]. exists l'; split; [exact H1|simpl; lia].
Qed.
Lemma chain_nodup w c t l : chain w c t l -> NoDup l.
Proof.
  induction 1 as [c x E P|c x p t l E P T IH]; constructor; auto; try constructor.
  intros I. destruct (chain_in T c I) as [l' [H1 H2]].
  assert (C : chain w c t (c :: l)) by (econstructor 2; eauto).
  pose proof (chain_fun C H1) as Q. subst l'. simpl in H2. lia.
Qed.
Lemma chain_lt w c t l : chain w c t l -> forall d, In d l -> d < length w.
Proof.
  induction 1 as [c x E P|c x p t l E P T IH]; intros d [<-|I]; try (apply nth_lt in E; exact E); try (destruct I); auto.
Qed.
Lemma chain_len w c t l : chain w c t l -> length l <= length w.
Proof.
  intros C. rewrite <- (seq_length (length w) 0). apply NoDup_incl_length; [eapply chain_nodup; exact C|].
  intros d I. apply in_seq. pose proof (chain_lt C d I). lia.
Qed.
Lemma top_chain w c t l : good w -> chain w c t l -> forall fuel, length l <= fuel -> top_from fuel w c = Some t.
Proof.
  intros G. induction 1 as [c x E P|c x p t l E P T IH]; intros [|f] L; simpl in L; try lia; simpl.
  - rewrite (deref_good c G E), P. reflexivity.
  - rewrite (deref_good c G E), P. apply IH. lia.
Qed.
Lemma top_topr w c t : good w -> topr w c t -> top w c = Some t.
Proof.
  intros G T. destruct (topr_chain T) as [l C]. apply (top_chain G C). apply (chain_len C).
Qed.
Lemma topr_of w : forall fuel c t, top_from fuel w c = Some t -> topr w c t.
Proof.
  induction fuel as [|f IH]; intros c t H; [discriminate|]. simpl in H.
  destruct (deref w c) as [x|] eqn:D; [|discriminate]. destruct (deref_nth w c D) as [E _].
  destruct (cpar x) as [p|] eqn:P; [econstructor 2; eauto|injection H as <-; econstructor 1; eauto].
Qed.

(** ** One call *)
Lemma good_upd w c x : good w -> sound x -> good (upd_nth w c x).
Proof.
  intros G S d y E. destruct (Nat.eq_dec c d) as [->|N].
  - pose proof (nth_lt _ _ E) as L. rewrite upd_len in L. rewrite upd_eq in E by exact L. injection E as <-; exact S.
  - rewrite upd_ne in E by exact N. eapply G; exact E.
Qed.
Lemma get_parent_ok w c t x : good w -> topr w c t -> nth_error w t = Some x ->
  get_parent w c = (Ok t, upd_nth w t (set_refs x (crefs x + 1))).
Proof. intros G T E. unfold get_parent. rewrite (top_topr G T), (deref_good t G E). reflexivity. Qed.
Lemma drop_ok w t y : good w -> t < length w -> calive y = true -> (2 <= crefs y)%Z ->
  ceed_destroy (upd_nth w t y) t = (Ok tt, upd_nth w t (set_refs y (crefs y - 1))).
Proof.
  intros G L A R. unfold ceed_destroy. cbn [destroy]. unfold deref. rewrite upd_eq by exact L. rewrite A.
  destruct (0 <? crefs y - 1)%Z eqn:Q; [rewrite upd_upd; reflexivity|apply Z.ltb_ge in Q; lia].
Qed.
Lemma set_refs_jl k x l : set_refs (set_jl k (set_refs x (crefs x + 1)) l) (crefs (set_jl k (set_refs x (crefs x + 1)) l) - 1) = set_jl k x l.
Proof. destruct x, k; unfold set_refs, set_jl; simpl; repeat f_equal; lia. Qed.
Lemma jl_set k k' x l : jl k' (set_jl k x l) = match k, k' with Roots, Roots | Defs, Defs => l | _, _ => jl k' x end.
Proof. destruct k, k', x; reflexivity. Qed.
Lemma sound_jl k x l : sound x -> sound (set_jl k x l).
Proof. destruct k, x; exact (fun H => H). Qed.
Lemma par_jl k x l : cpar (set_jl k x l) = cpar x.
Proof. destruct k, x; reflexivity. Qed.
Lemma alive_jl k x l : calive (set_jl k x l) = calive x.
Proof. destruct k, x; reflexivity. Qed.
Lemma refs_jl k x l : crefs (set_jl k x l) = crefs x.
Proof. destruct k, x; reflexivity. Qed.

(** a call that works on the list of the top-most context *)
Lemma through k w c t x l : good w -> topr w c t -> nth_error w t = Some x ->
  let w1 := upd_nth w t (set_refs x (crefs x + 1)) in
  deref w1 t = Some (set_refs x (crefs x + 1)) /\ jl k (set_refs x (crefs x + 1)) = jl k x /\
  ceed_destroy (upd_nth w1 t (set_jl k (set_refs x (crefs x + 1)) l)) t = (Ok tt, upd_nth w t (set_jl k x l)).
Proof.
  intros G T E w1. destruct (G t x E) as [A R]. pose proof (nth_lt _ _ E) as L. split; [|split].
  - unfold deref, w1. rewrite upd_eq by exact L. simpl. rewrite A. reflexivity.
  - destruct k, x; reflexivity.
  - unfold w1. rewrite upd_upd. rewrite drop_ok; auto.
    + rewrite set_refs_jl. reflexivity.
    + rewrite alive_jl. exact A.
    + rewrite refs_jl. simpl. lia.
Qed.

Lemma push_holds l ss s : holds l ss -> exists l', jl_push l s = Some l' /\ holds l' (ss ++ [s]) /\ jrd l' = jrd l /\
  (jgen l' = jgen l <-> jnum l <> jmax l).
Proof.
  intros (H1 & H2 & H3 & H4). unfold jl_push.
  set (m := (if jmax l =? 0 then 1 else jmax l) * 2).
  destruct (jnum l =? jmax l) eqn:Q.
  - apply Nat.eqb_eq in Q. assert (M : jmax l < m) by (unfold m; destruct (jmax l =? 0) eqn:Z0; [apply Nat.eqb_eq in Z0|apply Nat.eqb_neq in Z0]; lia).
    set (a := firstn m (jarr l) ++ repeat None (m - length (jarr l))).
    assert (LA : length a = m) by (unfold a; rewrite app_length, firstn_length, repeat_length; lia).
    simpl. fold a. rewrite LA. destruct (jnum l <? m) eqn:Q2; [|apply Nat.ltb_ge in Q2; lia].
    eexists; split; [reflexivity|]. unfold holds; cbn [jarr jnum jmax jrd jgen]. split; [|split; [reflexivity|split; [intros; lia|intros; congruence]]].
    rewrite upd_len, LA, app_length. simpl. split; [reflexivity|split; [lia|split; [lia|]]].
    assert (FA : firstn (jnum l) a = map Some ss).
    { unfold a. rewrite firstn_app, firstn_firstn. rewrite H1. replace (Nat.min (jnum l) m) with (jnum l) by lia.
      rewrite H4. rewrite firstn_length, H1. replace (jnum l - Nat.min m (jmax l)) with 0 by lia. simpl. apply app_nil_r. }
    rewrite map_app. simpl map. clearbody a. clear -FA LA Q2. apply Nat.ltb_lt in Q2. rewrite <- LA in Q2. rewrite <- FA. clear FA LA.
    revert a Q2. generalize (jnum l). induction n as [|n IH]; intros [|z a] L; simpl in L; try lia; simpl; auto. f_equal. apply IH. lia.
  - apply Nat.eqb_neq in Q. rewrite H1. destruct (jnum l <? jmax l) eqn:Q2; [|apply Nat.ltb_ge in Q2; lia].
    eexists; split; [reflexivity|]. unfold holds; cbn [jarr jnum jmax jrd jgen]. split; [|split; [reflexivity|split; [intros; exact Q|reflexivity]]].
    rewrite upd_len, app_length. simpl. split; [exact H1|split; [lia|split; [lia|]]].
    rewrite map_app. simpl map. rewrite <- H4. apply Nat.ltb_lt in Q2. rewrite <- H1 in Q2. clear -Q2. revert Q2. generalize (jarr l) (jnum l).
    intros a n; revert a; induction n as [|n IH]; intros [|z a] L; simpl in L; try lia; simpl; auto. f_equal. apply IH. lia.
Qed.

Lemma add_ok k w c t x ss s : good w -> topr w c t -> nth_error w t = Some x -> holds (jl k x) ss -> jrd (jl k x) = 0%Z ->
  exists l', jit_add k w c s = (Ok tt, upd_nth w t (set_jl k x l')) /\ holds l' (ss ++ [s]) /\ jrd l' = 0%Z.
Proof.
  intros G T E H R. destruct (push_holds s H) as [l' [P [H' [R' _]]]].
  destruct (through k l' G T E) as [D [J W]]. exists l'. split; [|split; [exact H'|congruence]].
  unfold jit_add. rewrite (get_parent_ok G T E), D, J, R. simpl. rewrite P. exact W.
Qed.
Lemma add_refused k w c t x s : good w -> topr w c t -> nth_error w t = Some x -> jrd (jl k x) <> 0%Z ->
  jit_add k w c s = (Err ERR_ACCESS, upd_nth w t (set_refs x (crefs x + 1))).
Proof.
  intros G T E R. destruct (through k (jl k x) G T E) as [D [J _]].
  unfold jit_add. rewrite (get_parent_ok G T E), D, J. apply Z.eqb_neq in R. rewrite R. reflexivity.
Qed.
Definition with_rd (l : jlist) (r : Z) : jlist := mkJL (jarr l) (jnum l) (jmax l) r (jgen l).
Lemma get_ok k w c t x : good w -> topr w c t -> nth_error w t = Some x ->
  jit_get k w c = (Ok (mkH k t (jgen (jl k x)) (jnum (jl k x))), upd_nth w t (set_jl k x (with_rd (jl k x) (jrd (jl k x) + 1)))).
Proof.
  intros G T E. destruct (through k (with_rd (jl k x) (jrd (jl k x) + 1)) G T E) as [D [J W]].
  unfold jit_get. rewrite (get_parent_ok G T E), D, J. fold (with_rd (jl k x) (jrd (jl k x) + 1)). rewrite W. reflexivity.
Qed.
Lemma restore_ok k w c t x : good w -> topr w c t -> nth_error w t = Some x ->
  jit_restore k w c = (Ok tt, upd_nth w t (set_jl k x (with_rd (jl k x) (jrd (jl k x) - 1)))).
Proof.
  intros G T E. destruct (through k (with_rd (jl k x) (jrd (jl k x) - 1)) G T E) as [D [J W]].
  unfold jit_restore. rewrite (get_parent_ok G T E), D, J. exact W.
Qed.
Lemma holds_rd l r ss : holds l ss -> holds (with_rd l r) ss.
Proof. exact (fun H => H). Qed.
Lemma holds_nth l ss i s : holds l ss -> nth_error ss i = Some s -> nth_error (jarr l) i = Some (Some s).
Proof.
  intros (H1 & H2 & H3 & H4) E. assert (L : i < jnum l) by (rewrite H3; eapply nth_lt; exact E).
  assert (Q : nth_error (firstn (jnum l) (jarr l)) i = Some (Some s)) by (rewrite H4; apply map_nth_error; exact E).
  revert Q L. generalize (jarr l) (jnum l). clear. intros a n; revert a i; induction n as [|n IH]; intros [|z a] [|i] Q L; simpl in *; try lia; try discriminate; auto.
  apply (IH a i Q). lia.
Qed.

(** a change that leaves the parent links alone leaves the hierarchy alone *)
Lemma topr_upd w c x y : nth_error w c = Some x -> cpar y = cpar x -> forall d t, topr (upd_nth w c y) d t <-> topr w d t.
Proof.
  intros E P d t. pose proof (nth_lt _ _ E) as L. split; intros T.
  - induction T as [d z Ez Pz|d z p t Ez Pz T IH]; (destruct (Nat.eq_dec c d) as [->|N];
      [rewrite upd_eq in Ez by exact L; injection Ez as <-; rewrite P in Pz|rewrite upd_ne in Ez by exact N]).
    + econstructor 1; eauto. + econstructor 1; eauto. + econstructor 2; eauto. + econstructor 2; eauto.
  - induction T as [d z Ez Pz|d z p t Ez Pz T IH]; (destruct (Nat.eq_dec c d) as [->|N];
      [rewrite E in Ez; injection Ez as <-; rewrite <- P in Pz|]).
    + econstructor 1; [apply upd_eq; exact L|exact Pz]. + econstructor 1; [rewrite upd_ne by exact N; exact Ez|exact Pz].
    + econstructor 2; [apply upd_eq; exact L|exact Pz|exact IH]. + econstructor 2; [rewrite upd_ne by exact N; exact Ez|exact Pz|exact IH].
Qed.
Lemma topr_app w y d t : topr w d t -> topr (w ++ [y]) d t.
Proof.
  induction 1 as [d z E P|d z p t E P T IH]; [econstructor 1|econstructor 2]; eauto;
  rewrite nth_error_app1 by (eapply nth_lt; exact E); exact E.
Qed.
Lemma topr_lt w d t : topr w d t -> d < length w /\ t < length w.
Proof. induction 1 as [d z E P|d z p t E P T [IH1 IH2]]; split; try (eapply nth_lt; exact E); auto. Qed.

(** ** Creating a context and a fallback *)
Lemma good_app w y : good w -> sound y -> good (w ++ [y]).
Proof.
  intros G S c x E. destruct (Nat.lt_ge_cases c (length w)) as [L|L].
  - rewrite nth_error_app1 in E by exact L. eapply G; exact E.
  - rewrite nth_error_app2 in E by exact L. destruct (c - length w) as [|[|]]; try discriminate. injection E as <-; exact S.
Qed.
Lemma nth_last A (w : list A) y : nth_error (w ++ [y]) (length w) = Some y.
Proof. rewrite nth_error_app2 by lia. rewrite Nat.sub_diag. reflexivity. Qed.
Lemma nth_last2 A (w : list A) y i : length w = i -> nth_error (w ++ [y]) i = Some y.
Proof. intros <-; apply nth_last. Qed.
Lemma new_ok dflt w : good w -> exists l, ceed_new dflt w = (Ok (length w), w ++ [set_jl Roots new_ctx l]) /\ holds l [dflt] /\ jrd l = 0%Z.
Proof.
  intros G. assert (S : sound new_ctx) by (split; [reflexivity|simpl; lia]).
  assert (G1 : good (w ++ [new_ctx])) by (apply good_app; auto).
  assert (H : holds (jl Roots new_ctx) []) by (repeat split; simpl; lia).
  assert (T : topr (w ++ [new_ctx]) (length w) (length w)) by (econstructor 1; [apply nth_last|reflexivity]).
  destruct (@add_ok Roots _ _ _ _ _ dflt G1 T (nth_last w new_ctx) H eq_refl) as [l [A [HL RL]]].
  exists l. unfold ceed_new. rewrite A, upd_last. auto.
Qed.

Lemma copy_loop_ok h f : forall rest i w y ys,
  good w -> nth_error w f = Some y -> cpar y = None -> holds (croots y) ys -> jrd (croots y) = 0%Z ->
  hctx h <> f -> (forall j s, nth_error rest j = Some s -> hread w h (i + j) = Ok s) ->
  exists l', copy_loop w h f i (length rest) = (Ok tt, upd_nth w f (set_jl Roots y l')) /\ holds l' (ys ++ rest) /\ jrd l' = 0%Z.
Proof.
  induction rest as [|s rest IH]; intros i w y ys G E P H R N RD.
  - exists (croots y). rewrite app_nil_r. simpl. split; [|split; assumption]. rewrite upd_id; [reflexivity|]. destruct y; exact E.
  - simpl. pose proof (RD 0 s eq_refl) as R0. rewrite Nat.add_0_r in R0. rewrite R0.
    assert (T : topr w f f) by (econstructor 1; eauto).
    destruct (@add_ok Roots w f f y ys s G T E H R) as [l [A [HL RL]]]. rewrite A.
    pose proof (nth_lt _ _ E) as L.
    assert (G1 : good (upd_nth w f (set_jl Roots y l))) by (apply good_upd; [exact G|apply sound_jl; eapply G; exact E]).
    destruct (IH (S i) (upd_nth w f (set_jl Roots y l)) (set_jl Roots y l) (ys ++ [s]) G1 (upd_eq w _ L)) as [l' [C [HC RC]]]; auto.
    { intros j s' Ej. specialize (RD (S j) s' Ej). rewrite Nat.add_succ_r in RD. simpl. unfold hread, deref in *. rewrite upd_ne by auto. exact RD. }
    exists l'. rewrite C, upd_upd. rewrite <- app_assoc in HC. split; [|split; auto]. destruct y; reflexivity.
Qed.
Lemma set_jl_jl k x : set_jl k x (jl k x) = x.
Proof. destruct k, x; reflexivity. Qed.
Lemma copy_list_ok k w c f t x y ys ss :
  good w -> topr w c t -> t <> f -> nth_error w t = Some x -> holds (jl k x) ss ->
  nth_error w f = Some y -> cpar y = None -> holds (croots y) ys -> jrd (croots y) = 0%Z ->
  exists l', copy_list k w c f = (Ok tt, upd_nth w f (set_jl Roots y l')) /\ holds l' (ys ++ ss) /\ jrd l' = 0%Z.
Proof.
  intros G T N E H Ef Pf Hf Rf. unfold copy_list. rewrite (get_ok k G T E). cbn [hnum].
  pose proof (nth_lt _ _ E) as L. pose proof (nth_lt _ _ Ef) as Lf.
  set (x1 := set_jl k x (with_rd (jl k x) (jrd (jl k x) + 1))). set (w1 := upd_nth w t x1).
  assert (G1 : good w1) by (apply good_upd; [exact G|apply sound_jl; eapply G; exact E]).
  assert (Ef1 : nth_error w1 f = Some y) by (unfold w1; rewrite upd_ne by exact N; exact Ef).
  assert (Et1 : nth_error w1 t = Some x1) by (apply upd_eq; exact L).
  assert (J1 : jl k x1 = with_rd (jl k x) (jrd (jl k x) + 1)) by (unfold x1; rewrite jl_set; destruct k; reflexivity).
  destruct (@copy_loop_ok (mkH k t (jgen (jl k x)) (jnum (jl k x))) f ss 0 w1 y ys G1 Ef1 Pf Hf Rf N) as [l' [C [HC RC]]].
  { intros j s Ej. unfold hread. cbn [hctx hk hgen]. rewrite (deref_good t G1 Et1). rewrite J1. cbn [with_rd jgen jarr]. rewrite Nat.eqb_refl.
    rewrite Nat.add_0_l, (@holds_nth _ _ _ _ H Ej). reflexivity. }
  destruct H as (_ & _ & Hn & _). rewrite <- Hn in C. rewrite C.
  exists l'. split; [|auto].
  set (w2 := upd_nth w1 f (set_jl Roots y l')).
  assert (G2 : good w2) by (apply good_upd; [exact G1|apply sound_jl; eapply G1; exact Ef1]).
  assert (T2 : topr w2 c t).
  { apply (@topr_upd w1 f y (set_jl Roots y l') Ef1 (par_jl Roots y l')). apply (@topr_upd w t x x1 E); [apply par_jl|exact T]. }
  assert (E2 : nth_error w2 t = Some x1) by (unfold w2; rewrite upd_ne by auto; exact Et1).
  rewrite (restore_ok k G2 T2 E2). f_equal. rewrite J1. cbn [with_rd jrd].
  unfold w2, w1. rewrite (@upd_comm _ _ f t) by auto. rewrite upd_upd. rewrite upd_comm by exact N.
  unfold x1. replace (set_jl k (set_jl k x (with_rd (jl k x) (jrd (jl k x) + 1))) (with_rd (with_rd (jl k x) (jrd (jl k x) + 1)) (jrd (jl k x) + 1 - 1))) with x.
  - apply upd_id. rewrite upd_ne by auto. exact E.
  - rewrite <- (set_jl_jl k x) at 1. unfold with_rd; cbn [jarr jnum jmax jgen jrd]. replace (jrd (jl k x) + 1 - 1)%Z with (jrd (jl k x)) by lia.
    destruct k, x as [? ? ? ? ? [] [] ?]; reflexivity.
Qed.

Lemma fallback_ok dflt w c t x y rs ds :
  good w -> topr w c t -> nth_error w t = Some x -> nth_error w c = Some y -> cfb y = None -> cfbok y = true ->
  holds (croots x) rs -> holds (cdefs x) ds ->
  exists l, holds l (dflt :: rs ++ ds) /\ jrd l = 0%Z /\
    get_fallback dflt w c = (Ok (Some (length w)), upd_nth w c (set_fb y (length w)) ++ [set_refs (set_jl Roots new_ctx l) 2]).
Proof.
  intros G T E Ec F B Hr Hd. unfold get_fallback. rewrite (deref_good c G Ec), F, B.
  destruct (new_ok dflt G) as [l0 [N0 [H0 R0]]]. rewrite N0.
  pose proof (nth_lt _ _ E) as L. pose proof (nth_lt _ _ Ec) as Lc. set (n := length w) in *.
  set (z := set_jl Roots new_ctx l0).
  assert (Sz : sound z) by (split; [reflexivity|simpl; lia]).
  assert (G1 : good (w ++ [z])) by (apply good_app; auto).
  assert (Ec1 : nth_error (w ++ [z]) c = Some y) by (rewrite nth_error_app1 by exact Lc; exact Ec).
  rewrite (deref_good c G1 Ec1). rewrite upd_app by exact Lc.
  set (w2 := upd_nth w c (set_fb y n) ++ [z]).
  assert (Sy : sound (set_fb y n)) by (destruct (G c y Ec) as [A1 A2]; destruct y; split; assumption).
  assert (G2 : good w2) by (apply good_app; [apply good_upd; auto|exact Sz]).
  assert (LL : length (upd_nth w c (set_fb y n)) = n) by apply upd_len.
  assert (T2 : topr w2 c t) by (apply topr_app; apply (@topr_upd w c y (set_fb y n) Ec eq_refl); exact T).
  assert (NT : t <> n) by lia.
  set (x2 := if c =? t then set_fb x n else x).
  assert (E2 : nth_error w2 t = Some x2).
  { unfold w2, x2. rewrite nth_error_app1 by lia. destruct (c =? t) eqn:Q.
    - apply Nat.eqb_eq in Q. subst t. rewrite upd_eq by exact L. congruence.
    - apply Nat.eqb_neq in Q. rewrite upd_ne by exact Q. exact E. }
  assert (J2 : forall k, jl k x2 = jl k x) by (intros k; unfold x2; destruct (c =? t), k; reflexivity).
  assert (Ez2 : nth_error w2 n = Some z) by (apply nth_last2; exact LL).
  destruct (@copy_list_ok Roots w2 c n t x2 z [dflt] rs G2 T2 NT E2) as [l1 [C1 [H1 R1]]]; auto; try (rewrite (J2 Roots); exact Hr).
  rewrite C1.
  set (z1 := set_jl Roots z l1).
  assert (W3 : upd_nth w2 n z1 = upd_nth w c (set_fb y n) ++ [z1]) by (apply upd_last2; exact LL).
  rewrite W3. set (w3 := upd_nth w c (set_fb y n) ++ [z1]).
  assert (Sz1 : sound z1) by (split; [reflexivity|simpl; lia]).
  assert (G3 : good w3) by (apply good_app; [apply good_upd; auto|exact Sz1]).
  assert (T3 : topr w3 c t) by (apply topr_app; apply (@topr_upd w c y (set_fb y n) Ec eq_refl); exact T).
  assert (E3 : nth_error w3 t = Some x2) by (unfold w3; rewrite <- W3; rewrite upd_ne by auto; exact E2).
  assert (Ez3 : nth_error w3 n = Some z1) by (apply nth_last2; exact LL).
  destruct (@copy_list_ok Defs w3 c n t x2 z1 ([dflt] ++ rs) ds G3 T3 NT E3) as [l2 [C2 [H2 R2]]]; auto; try (rewrite (J2 Defs); exact Hd).
  rewrite C2.
  set (z2 := set_jl Roots z1 l2).
  assert (W4 : upd_nth w3 n z2 = upd_nth w c (set_fb y n) ++ [z2]) by (apply upd_last2; exact LL).
  rewrite W4.
  assert (Sz2 : sound z2) by (split; [reflexivity|simpl; lia]).
  assert (G4 : good (upd_nth w c (set_fb y n) ++ [z2])) by (apply good_app; [apply good_upd; auto|exact Sz2]).
  assert (Ec4 : nth_error (upd_nth w c (set_fb y n) ++ [z2]) c = Some (set_fb y n)) by (rewrite nth_error_app1 by lia; apply upd_eq; exact Lc).
  rewrite (deref_good c G4 Ec4). cbn [set_fb cfb].
  assert (Ez4 : nth_error (upd_nth w c (set_fb y n) ++ [z2]) n = Some z2) by (apply nth_last2; exact LL).
  rewrite (deref_good n G4 Ez4).
  exists l2. split; [exact H2|split; [exact R2|]]. f_equal. apply upd_last2; exact LL.
Qed.

(** ** Histories *)
Inductive ev := EAdd (k : kind) (t : nat) (s : str) | EGet (k : kind) (t : nat) | ERest (k : kind) (t : nat).
Definition same (k k' : kind) (t t' : nat) : bool := match k, k' with Roots, Roots | Defs, Defs => t =? t' | _, _ => false end.
(** the strings that were added to list [k] of context [t], oldest first *)
Definition added (k : kind) (t : nat) (g : list ev) : list str :=
  flat_map (fun e => match e with EAdd k' t' s => if same k k' t t' then [s] else [] | _ => [] end) g.
(** gets minus restores *)
Fixpoint opened (k : kind) (t : nat) (g : list ev) : Z :=
  match g with
  | [] => 0
  | EGet k' t' :: r => (if same k k' t t' then 1 else 0) + opened k t r
  | ERest k' t' :: r => (if same k k' t t' then -1 else 0) + opened k t r
  | EAdd _ _ _ :: r => opened k t r
  end%Z.
(** every way a client can work on contexts without destroying any, with the log of what was done where.  A context is
    made a delegate only if it has no parent yet and is not itself above the new parent. *)
Inductive Hist (dflt : str) : world -> list ev -> Prop :=
| h_start : Hist dflt [] []
| h_new w g n w' : Hist dflt w g -> ceed_new dflt w = (Ok n, w') -> Hist dflt w' (g ++ [EAdd Roots n dflt])
| h_add w g k c s t w' : Hist dflt w g -> topr w c t -> jit_add k w c s = (Ok tt, w') -> Hist dflt w' (g ++ [EAdd k t s])
| h_refused w g k c s e w' : Hist dflt w g -> c < length w -> jit_add k w c s = (Err e, w') -> Hist dflt w' g
| h_get w g k c t h w' : Hist dflt w g -> topr w c t -> jit_get k w c = (Ok h, w') -> Hist dflt w' (g ++ [EGet k t])
| h_rest w g k c t w' : Hist dflt w g -> topr w c t -> jit_restore k w c = (Ok tt, w') -> Hist dflt w' (g ++ [ERest k t])
| h_del w g p d y w' : Hist dflt w g -> nth_error w d = Some y -> cpar y = None -> ~ topr w p d ->
    set_delegate w p d = (Ok tt, w') -> Hist dflt w' g
| h_fbres w g c b w' : Hist dflt w g -> set_fallback_resource w c b = (Ok tt, w') -> Hist dflt w' g
| h_fbnew w g c y t f w' : Hist dflt w g -> nth_error w c = Some y -> cfb y = None -> cfbok y = true -> topr w c t ->
    get_fallback dflt w c = (Ok (Some f), w') ->
    Hist dflt w' (g ++ EAdd Roots f dflt :: map (EAdd Roots f) (added Roots t g ++ added Defs t g))
| h_fbold w g c y r w' : Hist dflt w g -> nth_error w c = Some y -> cfb y <> None \/ cfbok y = false ->
    get_fallback dflt w c = (Ok r, w') -> Hist dflt w' g.

Definition Inv (w : world) (g : list ev) : Prop :=
  good w /\ (forall c, c < length w -> exists t, topr w c t) /\
  (forall t x k, nth_error w t = Some x -> holds (jl k x) (added k t g) /\ jrd (jl k x) = opened k t g) /\
  (forall t k, length w <= t -> added k t g = [] /\ opened k t g = 0%Z).

Lemma added_app k t g h : added k t (g ++ h) = added k t g ++ added k t h.
Proof. apply flat_map_app. Qed.
Lemma opened_app k t g h : opened k t (g ++ h) = (opened k t g + opened k t h)%Z.
Proof. induction g as [|[] g IH]; simpl; try rewrite IH; lia. Qed.
Lemma same_true k k' t t' : same k k' t t' = true <-> k = k' /\ t = t'.
Proof. destruct k, k'; simpl; split; intros H; try discriminate; try (destruct H; discriminate); [split; auto; apply Nat.eqb_eq; exact H|apply Nat.eqb_eq; tauto|split; auto; apply Nat.eqb_eq; exact H|apply Nat.eqb_eq; tauto]. Qed.
Lemma same_refl k t : same k k t t = true.
Proof. apply same_true; auto. Qed.
Lemma added_copies k t f l : added k t (map (EAdd Roots f) l) = if same k Roots t f then l else [].
Proof. induction l as [|s l IH]; [destruct (same k Roots t f); reflexivity|]. unfold added in *. simpl. rewrite IH. destruct (same k Roots t f); reflexivity. Qed.
Lemma opened_copies k t f l : opened k t (map (EAdd Roots f) l) = 0%Z.
Proof. induction l; simpl; auto. Qed.

Lemma acyc_upd w c x y : nth_error w c = Some x -> cpar y = cpar x -> (forall c, c < length w -> exists t, topr w c t) ->
  forall d, d < length (upd_nth w c y) -> exists t, topr (upd_nth w c y) d t.
Proof. intros E P A d L. rewrite upd_len in L. destruct (A d L) as [t T]. exists t. apply (@topr_upd w c x y E P). exact T. Qed.
Lemma acyc_app w y : cpar y = None -> (forall c, c < length w -> exists t, topr w c t) ->
  forall d, d < length (w ++ [y]) -> exists t, topr (w ++ [y]) d t.
Proof.
  intros P A d L. rewrite app_length in L. simpl in L. destruct (Nat.eq_dec d (length w)) as [->|N].
  - exists (length w). econstructor 1; [apply nth_last|exact P].
  - destruct (A d) as [t T]; [lia|]. exists t. apply topr_app; exact T.
Qed.
Lemma delegate_eq w p d x y : good w -> p <> d -> nth_error w p = Some x -> nth_error w d = Some y ->
  set_delegate w p d = (Ok tt, upd_nth (upd_nth w p (add_del x d)) d (set_par (set_refs y (crefs y + 1)) (Some p))).
Proof.
  intros G N Ep Ed. unfold set_delegate. rewrite (deref_good p G Ep), (deref_good d G Ed).
  destruct (G p x Ep) as [Ap Rp]. destruct (G d y Ed) as [Ad Rd]. pose proof (nth_lt _ _ Ep) as Lp. pose proof (nth_lt _ _ Ed) as Ld.
  unfold deref at 1. rewrite upd_ne by auto. rewrite Ep, Ap.
  unfold deref. rewrite upd_ne by auto. rewrite upd_eq by exact Ld. simpl calive. rewrite Ad.
  f_equal. rewrite (@upd_comm _ w d p) by auto. rewrite upd_upd. reflexivity.
Qed.
Lemma delegate_shape w p d w' : good w -> p <> d -> set_delegate w p d = (Ok tt, w') ->
  exists x y, nth_error w p = Some x /\ nth_error w d = Some y /\
  w' = upd_nth (upd_nth w p (add_del x d)) d (set_par (set_refs y (crefs y + 1)) (Some p)).
Proof.
  intros G N H. destruct (nth_error w p) as [x|] eqn:Ep.
  - destruct (nth_error w d) as [y|] eqn:Ed.
    + exists x, y. rewrite (delegate_eq G N Ep Ed) in H. injection H as <-. auto.
    + unfold set_delegate, deref in H. rewrite Ep, Ed in H. destruct (calive x); discriminate.
  - unfold set_delegate, deref in H. rewrite Ep in H. discriminate.
Qed.
Lemma delegate_topr w p d x y : p <> d -> nth_error w p = Some x -> nth_error w d = Some y -> cpar y = None ->
  let w' := upd_nth (upd_nth w p (add_del x d)) d (set_par (set_refs y (crefs y + 1)) (Some p)) in
  forall tp, topr w p tp -> tp <> d ->
  (forall c t, topr w c t -> t <> d -> topr w' c t) /\ (forall c, topr w c d -> topr w' c tp).
Proof.
  intros N Ep Ed P w' tp Tp Np. pose proof (nth_lt _ _ Ep) as Lp. pose proof (nth_lt _ _ Ed) as Ld.
  assert (K : forall c z, c <> d -> nth_error w c = Some z -> exists z', nth_error w' c = Some z' /\ cpar z' = cpar z).
  { intros c z Nc Ez. unfold w'. rewrite upd_ne by auto. destruct (Nat.eq_dec p c) as [->|Npc].
    - exists (add_del x d). rewrite upd_eq by exact Lp. split; [reflexivity|]. rewrite Ep in Ez. injection Ez as <-. reflexivity.
    - exists z. rewrite upd_ne by exact Npc. auto. }
  assert (A : forall c t, topr w c t -> t <> d -> topr w' c t).
  { induction 1 as [c z Ez Pz|c z q t Ez Pz T IH]; intros Nt.
    - destruct (K c z Nt Ez) as [z' [E' P']]. econstructor 1; [exact E'|congruence].
    - destruct (Nat.eq_dec c d) as [->|Nc]; [congruence|].
      destruct (K c z Nc Ez) as [z' [E' P']]. econstructor 2; [exact E'|rewrite P'; exact Pz|auto]. }
  split; [exact A|].
  assert (D : topr w' d tp).
  { econstructor 2 with (p := p); [apply upd_eq; rewrite upd_len; exact Ld|reflexivity|apply A; auto]. }
  intros c T. remember d as e eqn:Q in T. induction T as [c z Ez Pz|c z q t Ez Pz T IH]; subst.
  - exact D.
  - destruct (Nat.eq_dec c d) as [->|Nc]; [congruence|].
    destruct (K c z Nc Ez) as [z' [E' P']]. econstructor 2; [exact E'|rewrite P'; exact Pz|auto].
Qed.
Lemma fallback_old dflt w c y r w' : good w -> nth_error w c = Some y -> cfb y <> None \/ cfbok y = false ->
  get_fallback dflt w c = (Ok r, w') -> w' = w \/ exists f z, nth_error w f = Some z /\ w' = upd_nth w f (set_refs z (crefs z + 1)).
Proof.
  intros G E O H. unfold get_fallback in H. rewrite (deref_good c G E) in H.
  destruct (cfb y) as [f|] eqn:Ef.
  - cbv beta iota zeta in H. rewrite (deref_good c G E), Ef in H.
    destruct (deref w f) as [z|] eqn:D; [|discriminate]. destruct (deref_nth w f D) as [Ez _]. injection H as _ <-. right. eauto.
  - destruct (cfbok y); [destruct O; congruence|]. cbv beta iota zeta in H. rewrite (deref_good c G E), Ef in H.
    injection H as _ <-. left; reflexivity.
Qed.

(** replacing one context by one with the same lists and parent *)
Lemma inv_upd w g c x y : Inv w g -> nth_error w c = Some x -> cpar y = cpar x -> sound y -> (forall k, jl k y = jl k x) ->
  Inv (upd_nth w c y) g.
Proof.
  intros (G & A & V & F) E P S J. pose proof (nth_lt _ _ E) as L. split; [apply good_upd; auto|].
  split; [eapply acyc_upd; [exact E|exact P|exact A]|]. split.
  - intros t z k Ez. destruct (Nat.eq_dec c t) as [->|N].
    + rewrite upd_eq in Ez by exact L. injection Ez as <-. rewrite J. apply V; exact E.
    + rewrite upd_ne in Ez by exact N. apply V; exact Ez.
  - intros t k Lt. rewrite upd_len in Lt. apply F; exact Lt.
Qed.
(** changing one list, with one event *)
Lemma inv_list w g k t x l e : Inv w g -> nth_error w t = Some x ->
  holds l (added k t (g ++ [e])) -> jrd l = opened k t (g ++ [e]) ->
  (forall k' t', same k' k t' t = false -> added k' t' (g ++ [e]) = added k' t' g /\ opened k' t' (g ++ [e]) = opened k' t' g) ->
  Inv (upd_nth w t (set_jl k x l)) (g ++ [e]).
Proof.
  intros (G & A & V & F) E H R O. pose proof (nth_lt _ _ E) as L.
  split; [apply good_upd; [exact G|apply sound_jl; eapply G; exact E]|].
  split; [eapply acyc_upd; [exact E|apply par_jl|exact A]|]. split.
  - intros t' z k' Ez. destruct (Nat.eq_dec t t') as [<-|N].
    + rewrite upd_eq in Ez by exact L. injection Ez as <-. rewrite jl_set.
      destruct (same k' k t t) eqn:S.
      * apply same_true in S. destruct S as [-> _]. destruct k; auto.
      * destruct (O k' t S) as [-> ->]. destruct k, k'; simpl in S; try (rewrite Nat.eqb_refl in S; discriminate); apply V; exact E.
    + rewrite upd_ne in Ez by exact N. destruct (O k' t') as [-> ->]; [|apply V; exact Ez].
      destruct (same k' k t' t) eqn:S; auto. apply same_true in S. destruct S; congruence.
  - intros t' k' Lt. rewrite upd_len in Lt. destruct (O k' t') as [-> ->]; [|apply F; exact Lt].
    destruct (same k' k t' t) eqn:S; auto. apply same_true in S. destruct S; lia.
Qed.

Lemma hist_inv dflt w g : Hist dflt w g -> Inv w g.
Proof.
  induction 1 as [|w g n w' _ I H|w g k c s t w' _ I T H|w g k c s e w' _ I L H|w g k c t h w' _ I T H|w g k c t w' _ I T H
    |w g p d y w' _ I E P NT H|w g c b w' _ I H|w g c y t f w' _ I E F B T H|w g c y r w' _ I E O H].
  - split; [intros c x E; destruct c; discriminate|]. split; [simpl; intros; lia|].
    split; [intros t x k E; destruct t; discriminate|intros; split; reflexivity].
  - destruct I as (G & A & V & F). destruct (new_ok dflt G) as [l [N [Hl Rl]]]. rewrite N in H. injection H as <- <-.
    split; [apply good_app; [exact G|split; [reflexivity|simpl; lia]]|].
    split; [apply acyc_app; [reflexivity|exact A]|]. split.
    + intros t x k E. rewrite added_app, opened_app. simpl. rewrite Z.add_0_r, app_nil_r.
      destruct (Nat.lt_ge_cases t (length w)) as [L|L].
      * rewrite nth_error_app1 in E by exact L. destruct (same k Roots t (length w)) eqn:S; [apply same_true in S; lia|].
        rewrite app_nil_r. apply V; exact E.
      * rewrite nth_error_app2 in E by exact L. destruct (t - length w) as [|[|]] eqn:Q; try discriminate. injection E as <-.
        assert (t = length w) by lia. subst t. destruct (F (length w) k (le_n _)) as [-> ->].
        destruct k; simpl; [rewrite Nat.eqb_refl; auto|]. repeat split; simpl; lia.
    + intros t k Lt. rewrite app_length in Lt. simpl in Lt. rewrite added_app, opened_app. simpl.
      destruct (same k Roots t (length w)) eqn:S; [apply same_true in S; lia|]. destruct (F t k) as [-> ->]; [lia|]. auto.
  - pose proof I as (G & A & V & F). destruct (topr_top T) as [x [E P]]. destruct (V t x k E) as [Hx Rx].
    destruct (Z.eq_dec (jrd (jl k x)) 0) as [R0|R0].
    + destruct (@add_ok k w c t x _ s G T E Hx R0) as [l [Q [Hl Rl]]]. rewrite Q in H. injection H as <-.
      apply inv_list; auto.
      * rewrite added_app. simpl. rewrite same_refl. simpl. exact Hl.
      * rewrite opened_app. simpl. lia.
      * intros k' t' S. rewrite added_app, opened_app. simpl. rewrite S. rewrite !app_nil_r. split; [reflexivity|lia].
    + rewrite (@add_refused k w c t x s G T E R0) in H. discriminate.
  - pose proof I as (G & A & V & F). destruct (A c L) as [t T]. destruct (topr_top T) as [x [E P]]. destruct (V t x k E) as [Hx Rx].
    destruct (Z.eq_dec (jrd (jl k x)) 0) as [R0|R0].
    + destruct (@add_ok k w c t x _ s G T E Hx R0) as [l [Q _]]. rewrite Q in H. discriminate.
    + rewrite (@add_refused k w c t x s G T E R0) in H. injection H as _ <-. destruct (G t x E) as [S1 S2].
      apply (@inv_upd w g t x); [exact I|exact E|reflexivity|split; [exact S1|simpl; lia]|intros []; reflexivity].
  - pose proof I as (G & A & V & F). destruct (topr_top T) as [x [E P]]. destruct (V t x k E) as [Hx Rx].
    rewrite (get_ok k G T E) in H. injection H as _ <-. apply inv_list; auto.
    + rewrite added_app. simpl. rewrite app_nil_r. exact Hx.
    + rewrite opened_app. simpl. rewrite same_refl. simpl. lia.
    + intros k' t' S. rewrite added_app, opened_app. simpl. rewrite S, app_nil_r. split; [reflexivity|lia].
  - pose proof I as (G & A & V & F). destruct (topr_top T) as [x [E P]]. destruct (V t x k E) as [Hx Rx].
    rewrite (restore_ok k G T E) in H. injection H as <-. apply inv_list; auto.
    + rewrite added_app. simpl. rewrite app_nil_r. exact Hx.
    + rewrite opened_app. simpl. rewrite same_refl. simpl. lia.
    + intros k' t' S. rewrite added_app, opened_app. simpl. rewrite S, app_nil_r. split; [reflexivity|lia].
  - pose proof I as (G & A & V & F).
    assert (Npd : p <> d) by (intros ->; apply NT; econstructor 1; eauto).
    destruct (delegate_shape G Npd H) as [x [y' [Ep [Ed Q]]]]. rewrite Ed in E. injection E as ->.
    pose proof (nth_lt _ _ Ep) as Lp. pose proof (nth_lt _ _ Ed) as Ld.
    destruct (A p Lp) as [tp Tp]. assert (Ntp : tp <> d) by (intros ->; contradiction).
    destruct (delegate_topr Npd Ep Ed P Tp Ntp) as [D1 D2]. rewrite <- Q in D1, D2.
    destruct (G p x Ep) as [S1 S2]. destruct (G d y Ed) as [S3 S4].
    split; [rewrite Q; apply good_upd; [apply good_upd; [exact G|split; assumption]|split; [exact S3|simpl; lia]]|].
    assert (LW : length w' = length w) by (rewrite Q, !upd_len; reflexivity).
    split.
    { intros c L. rewrite LW in L. destruct (A c L) as [t T]. destruct (Nat.eq_dec t d) as [->|N]; [exists tp; auto|exists t; auto]. }
    split.
    { intros t z k Ez. rewrite Q in Ez. destruct (Nat.eq_dec d t) as [<-|N].
      - rewrite upd_eq in Ez by (rewrite upd_len; exact Ld). injection Ez as <-. destruct (V d y k Ed) as [V1 V2]. destruct k; auto.
      - rewrite upd_ne in Ez by exact N. destruct (Nat.eq_dec p t) as [<-|N2].
        + rewrite upd_eq in Ez by exact Lp. injection Ez as <-. destruct (V p x k Ep) as [V1 V2]. destruct k; auto.
        + rewrite upd_ne in Ez by exact N2. apply V; exact Ez. }
    intros t k Lt. rewrite LW in Lt. apply F; exact Lt.
  - unfold set_fallback_resource in H. destruct (deref w c) as [x|] eqn:D; [|discriminate]. destruct (deref_nth w c D) as [E _]. injection H as <-.
    pose proof I as (G & _). destruct (G c x E) as [S1 S2].
    apply (@inv_upd w g c x); [exact I|exact E|reflexivity|split; assumption|intros []; reflexivity].
  - pose proof I as (G & A & V & Fr). destruct (topr_top T) as [x [Ex Px]].
    destruct (V t x Roots Ex) as [Hr _]. destruct (V t x Defs Ex) as [Hd _].
    destruct (fallback_ok dflt G T Ex E F B Hr Hd) as [l [Hl [Rl Q]]]. rewrite Q in H. injection H as <- <-.
    set (w1 := upd_nth w c (set_fb y (length w))). set (n := length w) in *.
    destruct (G c y E) as [S1 S2].
    assert (I1 : Inv w1 g) by (apply (@inv_upd w g c y); [exact I|exact E|reflexivity|split; assumption|intros []; reflexivity]).
    assert (L1 : length w1 = n) by apply upd_len. destruct I1 as (G1 & A1 & V1 & F1).
    set (more := added Roots t g ++ added Defs t g) in *.
    assert (AD : forall k t', added k t' (g ++ EAdd Roots n dflt :: map (EAdd Roots n) more) = added k t' g ++ if same k Roots t' n then dflt :: more else []).
    { intros k t'. rewrite added_app. f_equal. change (EAdd Roots n dflt :: map (EAdd Roots n) more) with (map (EAdd Roots n) (dflt :: more)). apply added_copies. }
    assert (OP : forall k t', opened k t' (g ++ EAdd Roots n dflt :: map (EAdd Roots n) more) = opened k t' g).
    { intros k t'. rewrite opened_app. simpl. rewrite opened_copies. lia. }
    split; [apply good_app; [exact G1|split; [reflexivity|simpl; lia]]|].
    split; [apply acyc_app; [reflexivity|exact A1]|]. split.
    + intros t' z k Ez. rewrite AD, OP. destruct (Nat.lt_ge_cases t' n) as [L|L].
      * rewrite nth_error_app1 in Ez by lia. destruct (same k Roots t' n) eqn:S; [apply same_true in S; lia|].
        rewrite app_nil_r. apply V1; exact Ez.
      * rewrite nth_error_app2 in Ez by lia. destruct (t' - length w1) as [|[|]] eqn:Q2; try discriminate. injection Ez as <-.
        assert (t' = n) by lia. subst t'. destruct (F1 n k) as [-> ->]; [lia|].
        destruct k; simpl; [rewrite Nat.eqb_refl; auto|]. repeat split; simpl; lia.
    + intros t' k Lt. rewrite app_length in Lt. simpl in Lt. rewrite AD, OP.
      destruct (same k Roots t' n) eqn:S; [apply same_true in S; lia|]. rewrite app_nil_r. apply F1. lia.
  - pose proof I as (G & _). destruct (fallback_old dflt c G E O H) as [->|[f [z [Ez ->]]]]; [exact I|].
    destruct (G f z Ez) as [S1 S2]. apply (@inv_upd w g f z); [exact I|exact Ez|reflexivity|split; [exact S1|simpl; lia]|intros []; reflexivity].
Qed.

(** ** Clients that give back what they took *)
(** the pairs are the arrays a client still holds, each with the strings it saw when it got it.  An array is given back
    through a context of the hierarchy it came from, and no context becomes a delegate while an array of its own list is out. *)
Inductive Use (dflt : str) : world -> list (handle * list str) -> Prop :=
| u_start : Use dflt [] []
| u_new w hs n w' : Use dflt w hs -> ceed_new dflt w = (Ok n, w') -> Use dflt w' hs
| u_add w hs k c s r w' : Use dflt w hs -> c < length w -> jit_add k w c s = (r, w') -> Use dflt w' hs
| u_get w hs k c h ss w' : Use dflt w hs -> c < length w -> jit_get k w c = (Ok h, w') -> length ss = hnum h ->
    (forall i s, nth_error ss i = Some s -> hread w' h i = Ok s) -> Use dflt w' ((h, ss) :: hs)
| u_rest w hs1 h ss hs2 c w' : Use dflt w (hs1 ++ (h, ss) :: hs2) -> topr w c (hctx h) ->
    jit_restore (hk h) w c = (Ok tt, w') -> Use dflt w' (hs1 ++ hs2)
| u_del w hs p d y w' : Use dflt w hs -> nth_error w d = Some y -> cpar y = None -> ~ topr w p d ->
    (forall h ss, In (h, ss) hs -> hctx h <> d) -> set_delegate w p d = (Ok tt, w') -> Use dflt w' hs
| u_fbres w hs c b w' : Use dflt w hs -> set_fallback_resource w c b = (Ok tt, w') -> Use dflt w' hs
| u_fb w hs c r w' : Use dflt w hs -> c < length w -> get_fallback dflt w c = (Ok r, w') -> Use dflt w' hs.

Fixpoint held (k : kind) (t : nat) (hs : list (handle * list str)) : Z :=
  match hs with
  | [] => 0
  | (h, _) :: r => (if same k (hk h) t (hctx h) then 1 else 0) + held k t r
  end%Z.
Lemma held_app k t a b : held k t (a ++ b) = (held k t a + held k t b)%Z.
Proof. induction a as [|[h ss] a IH]; simpl; [reflexivity|rewrite IH; lia]. Qed.
Lemma held_nonneg k t hs : (0 <= held k t hs)%Z.
Proof. induction hs as [|[h ss] hs IH]; simpl; [lia|destruct (same k (hk h) t (hctx h)); lia]. Qed.
Lemma held_in h ss hs : In (h, ss) hs -> (0 < held (hk h) (hctx h) hs)%Z.
Proof.
  induction hs as [|[h' ss'] hs IH]; [intros []|]. intros [Q|I]; simpl.
  - injection Q as -> _. rewrite same_refl. pose proof (held_nonneg (hk h) (hctx h) hs). lia.
  - specialize (IH I). destruct (same (hk h) (hk h') (hctx h) (hctx h')); lia.
Qed.
Definition intact (w : world) (h : handle) (ss : list str) : Prop :=
  exists x, nth_error w (hctx h) = Some x /\ jgen (jl (hk h) x) = hgen h /\
  forall i s, nth_error ss i = Some s -> nth_error (jarr (jl (hk h) x)) i = Some (Some s).
Lemma intact_upd w t x y h ss : nth_error w t = Some x -> (hctx h = t -> jl (hk h) y = jl (hk h) x \/
    (jgen (jl (hk h) y) = jgen (jl (hk h) x) /\ jarr (jl (hk h) y) = jarr (jl (hk h) x))) ->
  intact w h ss -> intact (upd_nth w t y) h ss.
Proof.
  intros E J [z [Ez [Gz R]]]. pose proof (nth_lt _ _ E) as L. unfold intact. destruct (Nat.eq_dec t (hctx h)) as [Q|N].
  - exists y. rewrite <- Q, upd_eq by exact L. rewrite <- Q in Ez. rewrite E in Ez. injection Ez as <-.
    destruct (J (eq_sym Q)) as [->|[-> ->]]; auto.
  - exists z. rewrite upd_ne by exact N. auto.
Qed.
Lemma intact_app w y h ss : intact w h ss -> intact (w ++ [y]) h ss.
Proof. intros [z [Ez R]]. exists z. rewrite nth_error_app1 by (eapply nth_lt; exact Ez). auto. Qed.
Lemma intact_read w h ss : good w -> intact w h ss -> forall i s, nth_error ss i = Some s -> hread w h i = Ok s.
Proof.
  intros G [x [E [Q R]]] i s Ei. unfold hread. rewrite (deref_good _ G E), Q, Nat.eqb_refl, (R i s Ei). reflexivity.
Qed.

Lemma use_hist dflt w hs : Use dflt w hs -> exists g, Hist dflt w g /\ (forall t k, opened k t g = held k t hs) /\
  (forall h ss, In (h, ss) hs -> intact w h ss).
Proof.
  induction 1 as [|w hs n w' _ IH H|w hs k c s r w' _ IH L H|w hs k c h ss w' _ IH L H LS RD|w hs1 h ss hs2 c w' _ IH T H
    |w hs p d y w' _ IH E P NT NH H|w hs c b w' _ IH H|w hs c r w' _ IH L H].
  - exists []. split; [constructor|split; [reflexivity|intros ? ? []]].
  - destruct IH as [g [HI [O N]]]. destruct (hist_inv HI) as (G & A & V & F).
    exists (g ++ [EAdd Roots n dflt]). split; [econstructor 2; eauto|split].
    + intros t k. rewrite opened_app. simpl. rewrite O. lia.
    + intros h ss I. destruct (new_ok dflt G) as [l [Q _]]. rewrite Q in H. injection H as _ <-. apply intact_app. auto.
  - destruct IH as [g [HI [O N]]]. destruct (hist_inv HI) as (G & A & V & F). destruct (A c L) as [t T].
    destruct (topr_top T) as [x [E P]]. destruct (V t x k E) as [Hx Rx].
    destruct (Z.eq_dec (jrd (jl k x)) 0) as [R0|R0].
    + destruct (@add_ok k w c t x _ s G T E Hx R0) as [l [Q [Hl Rl]]]. pose proof H as H0. rewrite Q in H. injection H as <- <-.
      exists (g ++ [EAdd k t s]). split; [econstructor 3; eauto|split].
      * intros t' k'. rewrite opened_app. simpl. rewrite O. lia.
      * intros h ss I. apply (@intact_upd w t x); auto. intros Q2. left. rewrite jl_set.
        destruct (same (hk h) k t t) eqn:S; [|rewrite <- Q2 in S; destruct k, (hk h); simpl in S; try (rewrite Nat.eqb_refl in S; discriminate); reflexivity].
        apply same_true in S. destruct S as [S _]. exfalso. pose proof (held_in _ _ _ I) as C. rewrite <- O, Q2, S in C. lia.
    + rewrite (@add_refused k w c t x s G T E R0) in H. injection H as <- <-.
      exists g. split; [econstructor 4; [exact HI|exact L|exact (@add_refused k w c t x s G T E R0)]|split; [exact O|]].
      intros h ss I. apply (@intact_upd w t x); [exact E| |auto]. intros _. left. destruct (hk h), x; reflexivity.
  - destruct IH as [g [HI [O N]]]. destruct (hist_inv HI) as (G & A & V & F). destruct (A c L) as [t T].
    destruct (topr_top T) as [x [E P]]. pose proof H as H0. rewrite (get_ok k G T E) in H. injection H as <- <-.
    exists (g ++ [EGet k t]). split; [econstructor 5; eauto|split].
    + intros t' k'. rewrite opened_app. simpl. rewrite O. lia.
    + set (w' := upd_nth w t (set_jl k x (with_rd (jl k x) (jrd (jl k x) + 1)))) in *.
      intros h ss' [Q|I].
      * injection Q as <- <-. pose proof (nth_lt _ _ E) as Lt.
        eexists. split; [unfold w'; cbn [hctx]; apply upd_eq; exact Lt|].
        assert (J : jl k (set_jl k x (with_rd (jl k x) (jrd (jl k x) + 1))) = with_rd (jl k x) (jrd (jl k x) + 1)) by (rewrite jl_set; destruct k; reflexivity).
        cbn [hk hgen]. rewrite J. split; [reflexivity|]. intros i s Ei. specialize (RD i s Ei). unfold hread in RD.
        assert (G' : good w') by (apply good_upd; [exact G|apply sound_jl; eapply G; exact E]).
        cbn [hctx hk hgen] in RD. unfold w' in RD. unfold deref in RD. rewrite upd_eq in RD by exact Lt. rewrite alive_jl in RD. destruct (G t x E) as [-> _] in RD.
        rewrite J in RD. cbn [with_rd jgen jarr] in RD |- *. rewrite Nat.eqb_refl in RD. destruct (nth_error (jarr (jl k x)) i) as [[]|]; congruence.
      * apply (@intact_upd w t x); auto. intros _. rewrite jl_set. destruct k, (hk h); auto.
  - destruct IH as [g [HI [O N]]]. destruct (hist_inv HI) as (G & A & V & F).
    destruct (topr_top T) as [x [E P]]. pose proof H as H0. rewrite (restore_ok (hk h) G T E) in H. injection H as <-.
    exists (g ++ [ERest (hk h) (hctx h)]). split; [econstructor 6; eauto|split].
    + intros t' k'. rewrite opened_app, O, !held_app. simpl. destruct (same k' (hk h) t' (hctx h)); lia.
    + intros h' ss' I. apply (@intact_upd w (hctx h) x); auto.
      * intros _. rewrite jl_set. destruct (hk h), (hk h'); auto.
      * apply N. apply in_app_iff in I. apply in_app_iff. simpl. tauto.
  - destruct IH as [g [HI [O N]]]. destruct (hist_inv HI) as (G & A & V & F).
    exists g. split; [econstructor 7; eauto|split; [exact O|]].
    assert (Npd : p <> d) by (intros ->; apply NT; econstructor 1; eauto).
    destruct (delegate_shape G Npd H) as [x [y' [Ep [Ed ->]]]]. intros h ss I.
    apply (@intact_upd _ d y').
    + rewrite upd_ne by exact Npd. exact Ed.
    + intros Q. exfalso. exact (NH h ss I Q).
    + apply (@intact_upd w p x); [exact Ep| |auto]. intros _. left. destruct (hk h), x; reflexivity.
  - destruct IH as [g [HI [O N]]]. exists g. split; [econstructor 8; eauto|split; [exact O|]].
    unfold set_fallback_resource in H. destruct (deref w c) as [x|] eqn:D; [|discriminate]. destruct (deref_nth w c D) as [E _]. injection H as <-.
    intros h ss I. apply (@intact_upd w c x); [exact E| |auto]. intros _. left. destruct (hk h), x; reflexivity.
  - destruct IH as [g [HI [O N]]]. destruct (hist_inv HI) as (G & A & V & F). destruct (A c L) as [t T].
    destruct (nth_error w c) as [y|] eqn:E; [|apply nth_error_None in E; lia].
    destruct (cfb y) as [f|] eqn:Ef; [|destruct (cfbok y) eqn:B].
    + assert (C : cfb y <> None \/ cfbok y = false) by (left; congruence).
      exists g. split; [econstructor 10; eauto|split; [exact O|]]. intros h ss I.
      destruct (fallback_old dflt c G E C H) as [->|[f' [z [Ez ->]]]]; [auto|].
      apply (@intact_upd w f' z); [exact Ez| |auto]. intros _. left. destruct (hk h), z; reflexivity.
    + destruct (topr_top T) as [x [Ex Px]]. destruct (V t x Roots Ex) as [Hr _]. destruct (V t x Defs Ex) as [Hd _].
      destruct (fallback_ok dflt G T Ex E Ef B Hr Hd) as [l [Hl [Rl Q]]]. pose proof H as H0. rewrite Q in H. injection H as <- <-.
      eexists. split; [exact (h_fbnew HI E Ef B T Q)|split].
      * intros t' k'. rewrite opened_app. simpl. rewrite opened_copies, O. lia.
      * intros h ss I. apply intact_app. apply (@intact_upd w c y); [exact E| |auto]. intros _. left. destruct (hk h), y; reflexivity.
    + assert (C : cfb y <> None \/ cfbok y = false) by (right; exact B).
      exists g. split; [econstructor 10; eauto|split; [exact O|]]. intros h ss I.
      destruct (fallback_old dflt c G E C H) as [->|[f' [z [Ez ->]]]]; [auto|].
      apply (@intact_upd w f' z); [exact Ez| |auto]. intros _. left. destruct (hk h), z; reflexivity.
Qed.
