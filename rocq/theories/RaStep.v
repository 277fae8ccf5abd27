(** * The invariant of RaProofs.v is kept by every call *)
From Coq Require Import List ZArith Lia Bool Arith.
From Verif Require Import Prelude RstrModel VecModel RaModel RaProofs.
Import ListNotations.
Local Open Scope Z_scope.
Local Open Scope list_scope.

Definition Good (c : cl) : Prop := Inv (objs (c_s c)) (arrs (c_s c)) (cntn (c_h c)) (c_rd c) (c_given c) (c_used c) (c_lost c).

Lemma good_init : Good init.
Proof.
  unfold Good, init. cbn [c_s c_h c_rd c_given c_used c_lost objs arrs]. split; cbn; intros; try (destruct n; discriminate); auto; try lia; try contradiction.
  - unfold users in H. destruct a; discriminate.
Qed.

Lemma one_eq a : one a (Some a) = 1.
Proof. cbn. destruct (Nat.eq_dec a a); congruence. Qed.
Lemma one_ne a b : b <> a -> one a (Some b) = 0.
Proof. cbn. destruct (Nat.eq_dec b a); congruence. Qed.
Lemma cntn_nil a : cntn [] a = 0.
Proof. reflexivity. Qed.

Section New.
Context (l : list robj) (ar : list arr) (H : nat -> Z) (rd : list (nat * option nat)) (gv us ls : list nat) (I : Inv l ar H rd gv us ls).

Lemma own_facts a : (exists x, nth_error ar a = Some x /\ a_user x = true) -> ~ In a gv ->
  users ar a = Some true /\ frees ar a = 0 /\ owners l a = 0 /\ cntn ls a = 0 /\ cntn gv a = 0.
Proof.
  intros (x & E & U) N. assert (Us : users ar a = Some true) by (unfold users; rewrite E; congruence).
  pose proof (v_sum _ _ _ _ _ _ _ I _ _ Us). rewrite (cntn_notIn _ _ N) in *. pose proof (frees_nonneg ar a). pose proof (owners_nonneg l a). pose proof (cntn_nonneg ls a).
  repeat split; auto; lia.
Qed.
Lemma new_facts a : (length ar <= a)%nat -> users ar a = None /\ frees ar a = 0 /\ owners l a = 0 /\ cntn ls a = 0 /\ cntn gv a = 0 /\ cntn us a = 0.
Proof.
  intros L. assert (U := users_ge ar a L). destruct (v_none _ _ _ _ _ _ _ I _ U) as (?&?&?&?). repeat split; auto. now apply frees_ge.
Qed.
Lemma old_facts a u : users ar a = Some u -> frees ar a + owners l a + cntn ls a = (if u then cntn gv a else 1) /\ (a < length ar)%nat.
Proof. intros U. split; [now apply (v_sum _ _ _ _ _ _ _ I)|now apply users_lt in U]. Qed.

Lemma cntn_app x y a : cntn (x ++ y) a = cntn x a + cntn y a.
Proof. unfold cntn. rewrite count_occ_app. lia. Qed.

(** Creation: [k] new arrays, the arrays [ownl] owned by the new restriction, those [freed], and those recorded as given, used and lost. *)
Lemma inv_create ar' k freed ownl gadd uadd ladd o :
  r_live o = true -> r_ref o = 1 -> r_readers o = 0 -> r_destroy o = true -> r_base o = None -> r_data o = length l -> r_ilive o = true ->
  (forall a, users ar' a = if (a <? length ar)%nat then users ar a else if (a <? length ar + k)%nat then Some false else None) ->
  (forall a, frees ar' a = frees ar a + cntn freed a) ->
  (forall a, owns a o = cntn ownl a) ->
  (forall w a, s_cur (pick w (r_impl o)) = Some a -> s_own (pick w (r_impl o)) = Some a \/ In a uadd) ->
  (forall a, In a gadd -> (exists x, nth_error ar a = Some x /\ a_user x = true) /\ ~ In a gv /\ ~ In a us /\ ~ In a uadd) -> NoDup gadd ->
  (forall a, In a uadd -> (exists x, nth_error ar a = Some x /\ a_user x = true) /\ ~ In a gv) ->
  (forall a, In a ladd -> In a gadd) -> (forall a, In a freed -> In a gadd) ->
  (forall a, (a < length ar)%nat -> cntn freed a + cntn ownl a + cntn ladd a = cntn gadd a) ->
  (forall a, (length ar <= a)%nat -> cntn ownl a = if (a <? length ar + k)%nat then 1 else 0) ->
  Inv (l ++ [o]) ar' (fun m => H m + one m (Some (length l))) rd (gadd ++ gv) (uadd ++ us) (ladd ++ ls).
Proof.
  intros L R RD DS BN DT IL UU FF OO CC GG ND UA LA FA SM NW.
  assert (GL : forall a, In a gadd -> (a < length ar)%nat). { intros a J. destruct (GG a J) as ((x & E & _) & _). now apply nth_lt in E. }
  assert (UL : forall a, In a uadd -> (a < length ar)%nat). { intros a J. destruct (UA a J) as ((x & E & _) & _). now apply nth_lt in E. }
  assert (NG : forall a, (length ar <= a)%nat -> cntn gadd a = 0). { intros a J. apply cntn_notIn. intros X. apply GL in X. lia. }
  assert (NU : forall a, (length ar <= a)%nat -> cntn uadd a = 0). { intros a J. apply cntn_notIn. intros X. apply UL in X. lia. }
  assert (NLL : forall a, (length ar <= a)%nat -> cntn ladd a = 0). { intros a J. apply cntn_notIn. intros X. apply LA, GL in X. lia. }
  assert (NF : forall a, (length ar <= a)%nat -> cntn freed a = 0). { intros a J. apply cntn_notIn. intros X. apply FA, GL in X. lia. }
  assert (G1 : forall a, cntn gadd a <= 1). { intros a. unfold cntn. rewrite (NoDup_count_occ Nat.eq_dec) in ND. specialize (ND a). lia. }
  assert (UO : forall a, users ar a <> None -> users ar' a = users ar a).
  { intros a U. rewrite UU. destruct (users ar a) eqn:Q; [|congruence]. apply users_lt in Q. now rewrite (proj2 (Nat.ltb_lt _ _) Q). }
  apply (inv_app l ar ar' H _ rd gv us ls); auto.
  - intros b Bb. congruence.
  - intros m. rewrite BN. cbn [one]. lia.
  - intros m. pose proof (v_pos _ _ _ _ _ _ _ I m). pose proof (one_nonneg m (Some (length l))). lia.
  - intros a u U. rewrite FF, OO, !cntn_app. destruct (Nat.lt_ge_cases a (length ar)) as [X|X].
    + rewrite UU, (proj2 (Nat.ltb_lt _ _) X) in U. destruct (old_facts _ _ U) as (Q & _). specialize (SM _ X).
      destruct u; [lia|]. pose proof (G1 a). assert (cntn gadd a = 0).
      { apply cntn_notIn. intros J. destruct (GG _ J) as ((x & E & Ux) & _). unfold users in U. rewrite E in U. congruence. }
      lia.
    + rewrite UU, (proj2 (Nat.ltb_ge _ _) X) in U. destruct (new_facts _ X) as (_ & -> & -> & -> & _). rewrite NW, (NF _ X), (NLL _ X) by auto.
      destruct (a <? length ar + k)%nat; [injection U as <-|discriminate]. lia.
  - intros a U. rewrite OO, !cntn_app. assert (X : (length ar <= a)%nat).
    { destruct (Nat.lt_ge_cases a (length ar)) as [X|X]; auto. rewrite UU, (proj2 (Nat.ltb_lt _ _) X) in U. unfold users in U. destruct (nth_error ar a) eqn:Q; [discriminate|]. apply nth_error_None in Q. lia. }
    rewrite UU, (proj2 (Nat.ltb_ge _ _) X) in U. destruct (new_facts _ X) as (_ & _ & _ & -> & -> & ->). rewrite NW, (NG _ X), (NU _ X), (NLL _ X) by auto.
    destruct (a <? length ar + k)%nat; [discriminate|]. auto.
  - intros a. rewrite !cntn_app. destruct (v_given _ _ _ _ _ _ _ I a) as (Q1 & Q2). pose proof (cntn_nonneg gv a). pose proof (cntn_nonneg gadd a).
    destruct (in_dec Nat.eq_dec a gadd) as [J|J].
    + destruct (GG _ J) as (X1 & X2 & X3 & X4). rewrite (cntn_notIn _ _ X2), (cntn_notIn _ _ X3), (cntn_notIn _ _ X4). pose proof (G1 a). split; [lia|].
      intros _. split; [|reflexivity]. destruct X1 as (x & E & Ux). rewrite UO; unfold users; rewrite E; congruence.
    + rewrite (cntn_notIn _ _ J) in *. split; [lia|]. intros P. destruct Q2 as (X1 & X2); [lia|]. rewrite UO by congruence. split; auto.
      rewrite X2. rewrite cntn_notIn; [reflexivity|]. intros J2. destruct (UA _ J2) as (_ & X). apply X. apply cntn_In. lia.
  - intros a J. apply in_app_or in J. destruct J as [J|J].
    + destruct (UA _ J) as ((x & E & Ux) & _). rewrite UO; unfold users; rewrite E; congruence.
    + pose proof (v_used _ _ _ _ _ _ _ I _ J). rewrite UO; congruence.
  - intros a J. apply in_or_app. auto.
  - intros w a _ Ca. destruct (CC w a Ca) as [X|X].
    + split; [|auto]. assert (P : 0 < cntn ownl a).
      { rewrite <- OO. unfold owns. rewrite IL. pose proof (one_nonneg a (s_own (i_off (r_impl o)))). pose proof (one_nonneg a (s_own (i_or (r_impl o)))).
        pose proof (one_nonneg a (s_own (i_cu (r_impl o)))). assert (1 = one a (s_own (pick w (r_impl o)))) by (rewrite X; symmetry; apply one_eq).
        destruct w; cbn [pick] in *; lia. }
      destruct (Nat.lt_ge_cases a (length ar)) as [Y|Y].
      * rewrite UU, (proj2 (Nat.ltb_lt _ _) Y). unfold users. apply nth_error_Some in Y. destruct (nth_error ar a); congruence.
      * rewrite UU, (proj2 (Nat.ltb_ge _ _) Y). rewrite (NW _ Y) in P. destruct (a <? length ar + k)%nat; [congruence|lia].
    + split; [|right; apply in_or_app; auto]. destruct (UA _ X) as ((x & E & Ux) & _). rewrite UO; unfold users; rewrite E; congruence.
Qed.
End New.

Lemma users_k0 ar a : users ar a = if (a <? length ar)%nat then users ar a else if (a <? length ar + 0)%nat then Some false else None.
Proof.
  destruct (Nat.ltb_spec a (length ar)) as [X|X]; [reflexivity|]. rewrite (users_ge _ _ X). now rewrite (proj2 (Nat.ltb_ge _ _)) by lia.
Qed.
Lemma users_k1 ar a : users (ar ++ [AR 0 false]) a = if (a <? length ar)%nat then users ar a else if (a <? length ar + 1)%nat then Some false else None.
Proof.
  rewrite users_app. destruct (Nat.eq_dec a (length ar)) as [->|N].
  - rewrite Nat.ltb_irrefl. now rewrite (proj2 (Nat.ltb_lt _ _)) by lia.
  - destruct (Nat.ltb_spec a (length ar)) as [X|X]; [reflexivity|]. rewrite (users_ge _ _ X). now rewrite (proj2 (Nat.ltb_ge _ _)) by lia.
Qed.
Lemma users_k2 ar a : users ((ar ++ [AR 0 false]) ++ [AR 0 false]) a = if (a <? length ar)%nat then users ar a else if (a <? length ar + 2)%nat then Some false else None.
Proof.
  rewrite users_app, users_k1, app_length. cbn [length]. destruct (Nat.eq_dec a (length ar + 1)) as [->|N].
  - rewrite (proj2 (Nat.ltb_ge _ _)) by lia. now rewrite (proj2 (Nat.ltb_lt _ _)) by lia.
  - destruct (Nat.ltb_spec a (length ar)) as [X|X]; [reflexivity|].
    destruct (Nat.ltb_spec a (length ar + 1)); destruct (Nat.ltb_spec a (length ar + 2)); try reflexivity; lia.
Qed.

Ltac cnts := repeat rewrite cntn_cons; rewrite ?cntn_nil; cbn [one]; repeat match goal with |- context [Nat.eq_dec ?x ?y] => destruct (Nat.eq_dec x y) end;
  repeat match goal with |- context [(?x <? ?y)%nat] => destruct (Nat.ltb_spec x y) end; try lia.

Lemma low (l : list nat) (n a : nat) : (forall x, In x l -> (x < n)%nat) -> (n <= a)%nat -> cntn l a = 0.
Proof. intros H L. apply cntn_notIn. intros J. apply H in J. lia. Qed.
Ltac side := first
  [ apply users_k0 | apply users_k1 | apply users_k2
  | solve [intros; rewrite ?frees_app, ?cntn_nil; lia]
  | solve [match goal with F3 : forall a, users _ a = users _ a |- _ => intros; rewrite F3; first [apply users_k1|apply users_k2] end]
  | solve [match goal with F2 : forall a, frees _ a = _ |- _ => intros; rewrite F2, ?frees_app; cnts end]
  | solve [intros; unfold owns; cbn; cnts]
  | solve [intros [] ?; cbn; intros X; try discriminate; injection X as <-; auto]
  | solve [intros ? []]
  | solve [constructor] | assumption
  | solve [intros; cnts]
  | solve [intros ? [<-|[]]; cbn; auto]
  | solve [let J := fresh in intros ? J; symmetry; rewrite ?cntn_nil; cnts]
  | solve [let J := fresh in intros ? J;
      match goal with LW : forall a, (length _ <= a)%nat -> _ |- _ => first [rewrite (LW _ J)|generalize (LW _ J)] end; cnts] ].
Ltac mk I k fr ow ga ua la := solve [apply (inv_create _ _ _ _ _ _ _ I _ k fr ow ga ua la); try reflexivity; side].

Section Create.
Context (l : list robj) (ar : list arr) (hs : list nat) (rd : list (nat * option nat)) (gv us ls : list nat) (I : Inv l ar (cntn hs) rd gv us ls).
Context (k : kind) (m : cmode) (off : nat) (sec : option nat).
Context (P1 : forall a, In a (passed k off sec) -> (exists x, nth_error ar a = Some x /\ a_user x = true) /\ ~ In a gv).
Context (P2 : own m = true -> NoDup (passed k off sec) /\ forall a, In a (passed k off sec) -> ~ In a us).

Lemma good_create host v e s' : create (ST l ar) k host v m (Some off) sec = Done e s' -> v <> VDims -> e = 0 ->
  Inv (objs s') (arrs s') (cntn (length l :: hs)) rd (if own m then passed k off sec ++ gv else gv)
      (if use m && negb false then passed k off sec ++ us else us) (if own m then passed_or false k sec ++ ls else ls).
Proof.
  intros C V E0. apply (inv_ext _ _ (fun x => cntn hs x + one x (Some (length l)))); [|intros x; rewrite cntn_cons; lia].
  replace (if own m then passed_or false k sec ++ ls else ls) with ls by (destruct k, (own m); reflexivity).
  assert (GG : own m = true -> forall a, In a (passed k off sec) -> (exists x, nth_error ar a = Some x /\ a_user x = true) /\ ~ In a gv /\ ~ In a us /\ ~ In a []).
  { intros O a J. destruct (P1 _ J). destruct (P2 O) as (_ & Q). repeat split; auto. }
  assert (ND : own m = true -> NoDup (passed k off sec)) by (intros O; now apply P2).
  assert (UA : forall a, In a (passed k off sec) -> (exists x, nth_error ar a = Some x /\ a_user x = true) /\ ~ In a gv) by exact P1.
  assert (LW : forall a, (length ar <= a)%nat -> cntn (passed k off sec) a = 0).
  { intros a. apply low. intros x J. destruct (P1 _ J) as ((y & E & _) & _). now apply nth_lt in E. }
  clear P1 P2. unfold create, create_ref in C. subst e.
  destruct v; [congruence| |]; destruct host; cbn [negb] in C; destruct k; try (cbn in C; discriminate).
  all: cbn in C; cbn [passed] in *.
  all: destruct m; cbn in C; cbn [own use negb andb] in *.
  all: try (destruct sec as [b|]; cbn in C; try discriminate).
  all: injection C as <-; cbn [objs arrs].
  all: try (specialize (GG eq_refl); specialize (ND eq_refl)).
  all: repeat rewrite app_length; cbn [length].
  all: first [ mk I 0%nat (@nil nat) (@nil nat) (@nil nat) (@nil nat) (@nil nat)
             | mk I 1%nat (@nil nat) [length ar] (@nil nat) (@nil nat) (@nil nat)
             | mk I 0%nat (@nil nat) [off] [off] (@nil nat) (@nil nat)
             | mk I 0%nat (@nil nat) (@nil nat) (@nil nat) [off] (@nil nat)
             | mk I 2%nat (@nil nat) [length ar; (length ar + 1)%nat] (@nil nat) (@nil nat) (@nil nat)
             | mk I 0%nat (@nil nat) [off; b] [off; b] (@nil nat) (@nil nat)
             | mk I 0%nat (@nil nat) (@nil nat) (@nil nat) [off; b] (@nil nat) ].
Qed.

Lemma good_blocked v : (k = KOri \/ k = KCurl -> sec <> None) ->
  exists e s', create_blocked (ST l ar) k v m (Some off) sec = Done e s' /\ (v <> VDims -> e = 0 ->
  Inv (objs s') (arrs s') (cntn (length l :: hs)) rd (if own m then passed k off sec ++ gv else gv)
      (if use m && negb true then passed k off sec ++ us else us) (if own m then passed_or true k sec ++ ls else ls)).
Proof.
  intros SN. destruct v; [exists ERR_DIMENSION, (ST l ar); split; [reflexivity|congruence]| |].
  1: { destruct k; cbn; try (destruct sec as [b|]; [|solve [exfalso; apply SN; auto]]); eexists _, _; (split; [reflexivity|]); intros _ E; try discriminate; cbn [objs arrs].
       apply (inv_ext _ _ (fun x => cntn hs x + one x (Some (length l)))); [|intros x; rewrite cntn_cons; lia].
       all: destruct m; cbn [own use andb];
       mk I 0%nat (@nil nat) (@nil nat) (@nil nat) (@nil nat) (@nil nat). }
  assert (FR : k <> KStrided -> own m = true -> forall x, exists l', freea (ar ++ x) (Some off) = Some l' /\
     (forall a, frees l' a = frees (ar ++ x) a + one a (Some off)) /\ (forall a, users l' a = users (ar ++ x) a)).
  { intros NK O x. assert (J : In off (passed k off sec)) by (destruct k; cbn; auto; congruence). destruct (P1 _ J) as (X & NG).
    destruct (own_facts _ _ _ _ _ _ _ I _ X NG) as (U & F & _). assert (L : (off < length ar)%nat) by now apply users_lt in U.
    destruct (freea_spec (ar ++ x) (Some off)) as (l' & A & B & C & _).
    - intros a Ea. injection Ea as <-. unfold users, frees in *. rewrite nth_error_app1 by auto. split; [congruence|auto].
    - exists l'. auto. }
  assert (GG : own m = true -> forall a, In a (passed k off sec) -> (exists x, nth_error ar a = Some x /\ a_user x = true) /\ ~ In a gv /\ ~ In a us /\ ~ In a []).
  { intros O a J. destruct (P1 _ J). destruct (P2 O) as (_ & Q). repeat split; auto. }
  assert (ND : own m = true -> NoDup (passed k off sec)) by (intros O; now apply P2).
  assert (LW : forall a, (length ar <= a)%nat -> cntn (passed k off sec) a = 0).
  { intros a. apply low. intros x J. destruct (P1 _ J) as ((y & E & _) & _). now apply nth_lt in E. }
  destruct k; try (destruct sec as [b|]; [|solve [exfalso; apply SN; auto]]); destruct m; cbn [own use andb negb passed passed_or] in *; cbn -[freea].
  all: try (specialize (GG eq_refl); specialize (ND eq_refl); specialize (FR ltac:(congruence) eq_refl)).
  all: rewrite <- ?app_assoc.
  all: try match goal with |- context [freea (ar ++ ?x) _] => destruct (FR x) as (l' & F1 & F2 & F3); rewrite F1; clear FR end.
  all: eexists _, _; (split; [reflexivity|]); intros _ _; cbn [objs arrs].
  all: (apply (inv_ext _ _ (fun x => cntn hs x + one x (Some (length l)))); [|intros x; rewrite cntn_cons; lia]).
  all: rewrite ?app_assoc in *; rewrite ?app_length; cbn [length].
  all: first [ mk I 0%nat (@nil nat) (@nil nat) (@nil nat) (@nil nat) (@nil nat)
             | mk I 1%nat (@nil nat) [length ar] (@nil nat) (@nil nat) (@nil nat)
             | mk I 1%nat [off] [length ar] [off] (@nil nat) (@nil nat)
             | mk I 2%nat (@nil nat) [length ar; (length ar + 1)%nat] (@nil nat) (@nil nat) (@nil nat)
             | mk I 2%nat [off] [length ar; (length ar + 1)%nat] [off; b] (@nil nat) [b] ].
Qed.
End Create.

Lemma live_handle c n : Good c -> In n (c_h c) -> exists o, nth_error (objs (c_s c)) n = Some o /\ r_live o = true /\ get (c_s c) n = Some o.
Proof.
  intros G J. apply cntn_In in J. unfold get. destruct (nth_error (objs (c_s c)) n) as [o|] eqn:E.
  - destruct (r_live o) eqn:L; [exists o; auto|]. destruct (v_dead _ _ _ _ _ _ _ G _ _ E L). lia.
  - destruct (v_out _ _ _ _ _ _ _ G _ E). lia.
Qed.

(** Where a read through a handle is counted, and the data that it reads. *)
Lemma target_ok c n w : Good c -> In n (c_h c) -> exists t o d, target (c_s c) w n = Some t /\ get (c_s c) t = Some o /\ nth_error (objs (c_s c)) t = Some o /\
  r_live o = true /\ r_destroy o = true /\ nth_error (objs (c_s c)) (r_data o) = Some d /\ r_ilive d = true.
Proof.
  intros G J. destruct (live_handle c n G J) as (o & E & L & GE).
  assert (D : forall t o, nth_error (objs (c_s c)) t = Some o -> r_live o = true -> r_destroy o = true /\ exists d, nth_error (objs (c_s c)) (r_data o) = Some d /\ r_ilive d = true).
  { intros t q Eq Lq. destruct (r_base q) as [b|] eqn:B.
    - destruct (v_base _ _ _ _ _ _ _ G _ _ _ Eq Lq B) as (-> & _ & DS & _ & ob & EB & LB & BB).
      destruct (v_root _ _ _ _ _ _ _ G _ _ EB LB BB) as (_ & IL & _). eauto.
    - destruct (v_root _ _ _ _ _ _ _ G _ _ Eq Lq B) as (-> & IL & DS). eauto. }
  assert (W : w = GOff \/ target (c_s c) w n = Some n) by (destruct w; cbn; rewrite ?GE; auto).
  destruct W as [->|W].
  - cbn [target root]. rewrite GE. destruct (r_base o) as [b|] eqn:B.
    + destruct (v_base _ _ _ _ _ _ _ G _ _ _ E L B) as (_ & _ & _ & _ & ob & EB & LB & BB).
      assert (GB : get (c_s c) b = Some ob) by (unfold get; now rewrite EB, LB).
      destruct (length (objs (c_s c))) eqn:LL; [apply nth_lt in E; lia|]. cbn [root]. rewrite GB, BB.
      destruct (D _ _ EB LB) as (X & d & Y & Z). exists b, ob, d. auto 10.
    + destruct (D _ _ E L) as (X & d & Y & Z). exists n, o, d. auto 10.
  - destruct (D _ _ E L) as (X & d & Y & Z). exists n, o, d. auto 10.
Qed.

Lemma rdc_remove1 rd t p m : In (t, p) rd -> rdc (remove1 (fun e => Nat.eqb (fst e) t) rd) m = rdc rd m - one m (Some t).
Proof.
  induction rd as [|[x q] rd IH]; [contradiction|]. intros J. cbn [remove1 fst]. unfold rdc in *. cbn [map fst].
  destruct (Nat.eqb_spec x t) as [->|N]; [rewrite cntn_cons; lia|]. destruct J as [J|J]; [injection J; congruence|].
  cbn [map fst]. rewrite !cntn_cons, (IH J). lia.
Qed.
Lemma remove1_sub A (f : A -> bool) l x : In x (remove1 f l) -> In x l.
Proof. induction l as [|y l IH]; cbn; auto. destruct (f y); cbn; auto. intros [->|H]; auto. Qed.

(** A call that keeps the rules is defined, and keeps the invariant if it succeeds. *)
Theorem step_good c x : Good c -> rule c x -> exists e c', step c x = ODone e c' /\ (e = 0 \/ c' = c -> Good c').
Proof.
  intros G R. destruct c as [[l ar] hs rd gv us ls]. unfold Good in *. cbn [c_s c_h c_rd c_given c_used c_lost objs arrs] in G.
  destruct x as [|bl k host v m off sec|n|n|w host n|w n|n].
  - cbn. eexists _, _. split; [reflexivity|]. intros _. cbn [c_s c_h c_rd c_given c_used c_lost objs arrs].
    pose proof (users_app ar 0 true) as UA. pose proof (frees_app ar true) as FA.
    assert (UL : users ar (length ar) = None) by now apply users_ge.
    assert (UO : forall a, users ar a <> None -> users (ar ++ [AR 0 true]) a = users ar a).
    { intros a U. rewrite UA. destruct (Nat.eq_dec a (length ar)) as [->|]; [congruence|reflexivity]. }
    pose proof (v_cur _ _ _ _ _ _ _ G) as v_cur0. pose proof (v_none _ _ _ _ _ _ _ G) as v_none0. pose proof (v_given _ _ _ _ _ _ _ G) as v_given0.
    pose proof (v_used _ _ _ _ _ _ _ G) as v_used0. pose proof (v_sum _ _ _ _ _ _ _ G) as v_sum0. destruct G. split; auto.
    + intros n o w a E L C. destruct (v_cur0 n o w a E L C) as (X & Y). rewrite UO; auto.
    + intros a u U. rewrite UA in U. rewrite FA. destruct (Nat.eq_dec a (length ar)) as [->|]; auto.
      injection U as <-. destruct (v_none0 _ UL) as (->&->&->&_). rewrite frees_ge by lia. reflexivity.
    + intros a U. rewrite UA in U. destruct (Nat.eq_dec a (length ar)); [discriminate|auto].
    + intros a. destruct (v_given0 a) as (X & Y). split; auto. intros P. destruct (Y P). rewrite UO; auto; congruence.
    + intros a J. pose proof (v_used0 _ J). rewrite UO; congruence.
  - destruct R as (R1 & R2 & R3). unfold users_own in *. cbn [c_s c_h c_rd c_given c_used c_lost arrs] in R1, R2. cbn [step c_s].
    destruct bl.
    + destruct (good_blocked l ar hs rd gv us ls G k m off sec R1 R2 v (R3 eq_refl)) as (e & s' & E & K). rewrite E.
      destruct v; (eexists _, _; split; [reflexivity|]); intros Q; [exact G| |]; cbn [c_s c_h c_rd c_given c_used c_lost];
        (destruct Q as [Q|Q]; [apply K; [congruence|auto]|]); exfalso; apply (f_equal (fun c => length (c_h c))) in Q; cbn in Q; lia.
    + destruct (create (ST l ar) k host v m (Some off) sec) as [e s'|] eqn:E.
      2: { exfalso. unfold create in E. destruct v; try discriminate; destruct (create_ref _ _ _ _ _ _ _ _) as [[[[? ?] ?] ?] ?]; discriminate. }
      destruct v; (eexists _, _; split; [reflexivity|]); intros Q; [exact G| |]; cbn [c_s c_h c_rd c_given c_used c_lost];
        (destruct Q as [Q|Q]; [eapply (good_create l ar hs rd gv us ls G k m off sec R1 R2); eauto; congruence|]);
        exfalso; apply (f_equal (fun c => length (c_h c))) in Q; cbn in Q; lia.
  - destruct (live_handle (CL (ST l ar) hs rd gv us ls) n G R) as (o & E & L & GE). cbn [c_s c_h] in *. cbn [step c_s]. unfold reference. rewrite GE.
    eexists _, _. split; [reflexivity|]. intros _. cbn [c_s c_h c_rd c_given c_used c_lost put objs arrs].
    destruct (v_ref _ _ _ _ _ _ _ G _ _ E L).
    apply (inv_touch l ar (cntn hs) rd gv us ls n o (r_ref o + 1) (r_readers o) _ rd); auto; try lia.
    + intros m. rewrite cntn_cons. cbn [one]. destruct (Nat.eq_dec n m); lia.
    + intros m. apply cntn_nonneg.
    + intros m. destruct (Nat.eq_dec n m); lia.
  - destruct R as (R & R2). destruct (live_handle (CL (ST l ar) hs rd gv us ls) n G R) as (o & E & L & GE). cbn [c_s c_h] in *. destruct (R2 _ E) as (B0 & RD0).
    destruct (v_ref _ _ _ _ _ _ _ G _ _ E L). destruct (v_root _ _ _ _ _ _ _ G _ _ E L B0) as (DT & IL & DS).
    cbn [step c_s]. unfold ucopy. rewrite GE. cbn [objs arrs]. set (o1 := RO true 1 (r_readers o) (r_base o) (r_data o) (IM empty empty empty) false (r_destroy o)).
    assert (LT : (n < length l)%nat) by now apply nth_lt in E.
    unfold reference, get. cbn [objs]. rewrite (nth_app_old _ _ _ _ _ E), L. rewrite B0. cbn [Z.eqb negb put objs arrs].
    rewrite upd_app1 by auto. set (lu := upd l n (setref o (r_ref o + 1))). assert (LU : length l = length lu) by (symmetry; apply upd_length).
    replace (nth_error (lu ++ [o1]) (length l)) with (Some o1) by (rewrite LU; symmetry; apply nth_app_new). cbn [r_live o1]. eexists _, _. split; [reflexivity|]. intros _. cbn [c_s c_h c_rd c_given c_used c_lost put objs arrs].
    rewrite upd_app1 by auto. fold lu. replace (upd (lu ++ [o1]) (length l) (setbase o1 (Some n))) with (lu ++ [setbase o1 (Some n)]) by (rewrite LU; symmetry; apply upd_app2).
    unfold lu. clear lu LU.
    assert (T : Inv (upd l n (setref o (r_ref o + 1))) ar (fun m => cntn hs m + one m (Some n)) rd gv us ls).
    { apply (inv_touch l ar (cntn hs) rd gv us ls n o (r_ref o + 1) (r_readers o) _ rd); auto; try lia.
      + intros m. cbn [one]. destruct (Nat.eq_dec n m); lia.
      + intros m. pose proof (cntn_nonneg hs m). pose proof (one_nonneg m (Some n)). lia.
      + intros m. destruct (Nat.eq_dec n m); lia. }
    apply (inv_app _ ar ar _ _ rd gv us ls gv us ls (setbase o1 (Some n)) T); auto; try discriminate.
    + intros b Bb. injection Bb as <-. split; [exact DT|]. split; [reflexivity|]. eexists. rewrite (nth_upd_eq _ _ _ o) by auto. auto.
    + intros m. rewrite cntn_cons, upd_length. change (r_base (setbase o1 (Some n))) with (Some n). lia.
    + intros m. apply cntn_nonneg.
    + intros a u U. change (owns a (setbase o1 (Some n))) with 0. pose proof (v_sum _ _ _ _ _ _ _ T _ _ U). lia.
    + intros a U. destruct (v_none _ _ _ _ _ _ _ T _ U) as (?&?&?&?). auto.
    + apply (v_given _ _ _ _ _ _ _ T).
    + apply (v_used _ _ _ _ _ _ _ T).
    + apply incl_refl.
  - destruct (target_ok (CL (ST l ar) hs rd gv us ls) n w G R) as (t & o & d & T & GT & E & L & DS & ED & LD). cbn [c_s objs] in *. cbn [step c_s]. unfold readp. rewrite T. cbn [bind]. rewrite GT. cbn [bind].
    rewrite DS. cbn [negb objs]. rewrite ED, LD. cbn [negb]. destruct host; cbn [negb].
    2: { eexists _, _. split; [reflexivity|]. intros _. exact G. }
    eexists _, _. split; [reflexivity|]. intros _. cbn [c_s c_h c_rd c_given c_used c_lost put objs arrs].
    destruct (v_ref _ _ _ _ _ _ _ G _ _ E L).
    apply (inv_touch l ar (cntn hs) rd gv us ls t o (r_ref o) (r_readers o + 1) (cntn hs)); auto.
    + intros m. destruct (Nat.eq_dec t m); lia.
    + intros m. apply cntn_nonneg.
    + intros m. unfold rdc. cbn [map fst]. rewrite cntn_cons. cbn [one]. destruct (Nat.eq_dec t m); lia.
    + intros m a [J|J]; [|auto]. injection J as <- J. right. split; auto. exists d, w. auto.
  - destruct R as (R & t' & p & T' & J). destruct (target_ok (CL (ST l ar) hs rd gv us ls) n w G R) as (t & o & d & T & GT & E & L & DS & ED & LD).
    assert (t' = t) by congruence. subst t'. cbn [c_s c_rd objs] in *. cbn [step c_s]. unfold restore. rewrite T. cbn [bind]. rewrite GT. cbn [bind].
    eexists _, _. split; [reflexivity|]. intros _. cbn [c_s c_h c_rd c_given c_used c_lost put objs arrs].
    destruct (v_ref _ _ _ _ _ _ _ G _ _ E L).
    apply (inv_touch l ar (cntn hs) rd gv us ls t o (r_ref o) (r_readers o - 1) (cntn hs)); auto.
    + intros m. destruct (Nat.eq_dec t m); lia.
    + intros m. apply cntn_nonneg.
    + intros m. rewrite (rdc_remove1 _ _ _ _ J). cbn [one]. destruct (Nat.eq_dec t m); lia.
    + intros m a K. left. now apply remove1_sub in K.
  - cbn [rule c_h] in R. assert (P : 1 <= cntn hs n) by (apply cntn_In in R; lia).
    destruct (destroy_ok _ _ _ _ _ _ _ _ G P) as (e & s' & D & Q). cbn [step c_s]. rewrite D. eexists _, _. split; [reflexivity|].
    intros [->|Q'].
    + destruct Q as [(_ & Q)|(Q & _)]; [|discriminate]. cbn [c_s c_h c_rd c_given c_used c_lost Z.eqb]. eapply inv_ext; [exact Q|].
      intros m. unfold less. rewrite cntn_remove1 by auto. reflexivity.
    + rewrite Q'. exact G.
Qed.

Lemma hist_good c : hist c -> Good c.
Proof.
  induction 1 as [|c x e c' _ IH R S E]; [apply good_init|]. destruct (step_good c x IH R) as (e0 & c0 & S0 & K). rewrite S in S0. injection S0 as <- <-. auto.
Qed.
