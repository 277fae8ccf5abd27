(** * Proofs about the arrays of element restrictions *)
From Coq Require Import List ZArith Lia Bool Arith.
From Verif Require Import Prelude RstrModel VecModel RaModel.
Import ListNotations.
Local Open Scope Z_scope.
Local Open Scope list_scope.

(** ** What a client may do *)

(** [a] is an array of the user that was not handed over *)
Definition users_own (c : cl) (a : nat) : Prop :=
  (exists x, nth_error (arrs (c_s c)) a = Some x /\ a_user x = true) /\ ~ In a (c_given c).

(** The rules of the client: arrays passed are its own; an array that is handed over is passed once in the call and is not in use by
    another restriction; handles are its own; the source of a copy is no copy and nobody reads it; what is restored was obtained. *)
Definition rule (c : cl) (x : op) : Prop :=
  match x with
  | Alloc => True
  | Create bl k _ _ m off sec =>
    (forall a, In a (passed k off sec) -> users_own c a) /\
    (own m = true -> NoDup (passed k off sec) /\ forall a, In a (passed k off sec) -> ~ In a (c_used c)) /\
    (bl = true -> k = KOri \/ k = KCurl -> sec <> None)
  | Reference n | GetP _ _ n | Destroy n => In n (c_h c)
  | Copy n => In n (c_h c) /\ forall o, nth_error (objs (c_s c)) n = Some o -> r_base o = None /\ r_readers o = 0
  | RestoreP w n => In n (c_h c) /\ exists t p, target (c_s c) w n = Some t /\ In (t, p) (c_rd c)
  end.

(** A history: each call keeps the rules, and succeeds or leaves everything as it is. *)
Inductive hist : cl -> Prop :=
| hist_init : hist init
| hist_step c x e c' : hist c -> rule c x -> step c x = ODone e c' -> e = 0 \/ c' = c -> hist c'.

(** ** Sums *)
Fixpoint zs (l : list Z) : Z := match l with [] => 0 | x :: t => x + zs t end.
Definition sumo (f : robj -> Z) (l : list robj) : Z := zs (map f l).
Lemma sumo_app f l o : sumo f (l ++ [o]) = sumo f l + f o.
Proof. unfold sumo. rewrite map_app. cbn. induction (map f l); cbn; lia. Qed.
Lemma sumo_upd f : forall l n o o', nth_error l n = Some o -> sumo f (upd l n o') = sumo f l - f o + f o'.
Proof.
  unfold sumo. induction l as [|x l IH]; intros [|n] o o' E; cbn in E; try discriminate.
  - injection E as ->. cbn. lia.
  - cbn [upd map zs]. rewrite (IH _ _ o' E). lia.
Qed.
Lemma sumo_nonneg f l : (forall o, 0 <= f o) -> 0 <= sumo f l.
Proof. intros H. unfold sumo. induction l; cbn; [lia|]. specialize (H a). lia. Qed.
Lemma sumo_ge f : forall l n o, (forall o, 0 <= f o) -> nth_error l n = Some o -> f o <= sumo f l.
Proof.
  unfold sumo. induction l as [|x l IH]; intros [|n] o H E; cbn in E; try discriminate.
  - injection E as ->. cbn. pose proof (sumo_nonneg f l H). unfold sumo in *. lia.
  - cbn. specialize (IH _ _ H E). specialize (H x). lia.
Qed.
Lemma sumo_pos f : forall l, (forall o, 0 <= f o) -> 0 < sumo f l -> exists n o, nth_error l n = Some o /\ 0 < f o.
Proof.
  unfold sumo. induction l as [|x l IH]; intros H P; cbn in P; [lia|].
  destruct (Z.lt_decidable 0 (f x)) as [Q|Q].
  - exists 0%nat, x. auto.
  - destruct IH as (n & o & E & R); auto. { specialize (H x). lia. } exists (S n), o. auto.
Qed.

Definition cntn (l : list nat) (a : nat) : Z := Z.of_nat (count_occ Nat.eq_dec l a).
Definition one (a : nat) (p : option nat) : Z := match p with Some b => if Nat.eq_dec b a then 1 else 0 | None => 0 end.
Lemma one_nonneg a p : 0 <= one a p.
Proof. destruct p; cbn; [destruct (Nat.eq_dec _ _)|]; lia. Qed.
Lemma cntn_cons b l a : cntn (b :: l) a = one a (Some b) + cntn l a.
Proof. unfold cntn. cbn. destruct (Nat.eq_dec b a); lia. Qed.
Lemma cntn_nonneg l a : 0 <= cntn l a.
Proof. unfold cntn. lia. Qed.
Lemma cntn_In l a : In a l <-> 0 < cntn l a.
Proof. unfold cntn. rewrite (count_occ_In Nat.eq_dec). lia. Qed.
Lemma cntn_notIn l a : ~ In a l -> cntn l a = 0.
Proof. intros H. rewrite cntn_In in H. pose proof (cntn_nonneg l a). lia. Qed.
Lemma cntn_remove1 l n a : In n l -> cntn (remove1 (Nat.eqb n) l) a = cntn l a - one a (Some n).
Proof.
  induction l as [|x l IH]; [contradiction|]. intros H. cbn [remove1].
  destruct (Nat.eqb_spec n x) as [->|N]; rewrite ?cntn_cons; [lia|].
  destruct H as [->|H]; [congruence|]. rewrite (IH H). lia.
Qed.

(** holders of restriction [n] among the copies; owners of array [a] among the backend data *)
Definition isbase (n : nat) (o : robj) : Z := if r_live o then one n (r_base o) else 0.
Definition owns (a : nat) (o : robj) : Z :=
  if r_ilive o then one a (s_own (i_off (r_impl o))) + one a (s_own (i_or (r_impl o))) + one a (s_own (i_cu (r_impl o))) else 0.
Lemma isbase_nonneg n o : 0 <= isbase n o.
Proof. unfold isbase. destruct (r_live o); [apply one_nonneg|lia]. Qed.
Lemma owns_nonneg a o : 0 <= owns a o.
Proof. unfold owns. pose proof (one_nonneg a). destruct (r_ilive o); [|lia].
  pose proof (H (s_own (i_off (r_impl o)))). pose proof (H (s_own (i_or (r_impl o)))). pose proof (H (s_own (i_cu (r_impl o)))). lia. Qed.
Definition copies (l : list robj) (n : nat) : Z := sumo (isbase n) l.
Definition owners (l : list robj) (a : nat) : Z := sumo (owns a) l.
Definition rdc (rd : list (nat * option nat)) (n : nat) : Z := cntn (map fst rd) n.
Definition frees (l : list arr) (a : nat) : Z := match nth_error l a with Some x => Z.of_nat (a_frees x) | None => 0 end.
Definition users (l : list arr) (a : nat) : option bool := match nth_error l a with Some x => Some (a_user x) | None => None end.

Lemma frees_app l u a : frees (l ++ [AR 0 u]) a = frees l a.
Proof.
  unfold frees. destruct (Nat.lt_ge_cases a (length l)) as [H|H].
  - now rewrite nth_error_app1.
  - rewrite nth_error_app2 by lia. rewrite (proj2 (nth_error_None l a)) by lia.
    destruct (a - length l)%nat as [|[|k]]; reflexivity.
Qed.
Lemma users_app l f u a : users (l ++ [AR f u]) a = if Nat.eq_dec a (length l) then Some u else users l a.
Proof.
  unfold users. destruct (Nat.eq_dec a (length l)) as [->|N].
  - rewrite nth_error_app2 by lia. now rewrite Nat.sub_diag.
  - destruct (Nat.lt_ge_cases a (length l)) as [H|H].
    + now rewrite nth_error_app1.
    + rewrite nth_error_app2 by lia. rewrite (proj2 (nth_error_None l a)) by lia.
      destruct (a - length l)%nat as [|[|k]] eqn:E; try reflexivity. lia.
Qed.
Lemma users_lt l a u : users l a = Some u -> (a < length l)%nat.
Proof. unfold users. intros H. apply nth_error_Some. destruct (nth_error l a); congruence. Qed.
Lemma users_ge l a : (length l <= a)%nat -> users l a = None.
Proof. intros H. unfold users. now rewrite (proj2 (nth_error_None l a)). Qed.
Lemma frees_ge l a : (length l <= a)%nat -> frees l a = 0.
Proof. intros H. unfold frees. now rewrite (proj2 (nth_error_None l a)). Qed.
Lemma frees_nonneg l a : 0 <= frees l a.
Proof. unfold frees. destruct (nth_error l a); lia. Qed.
Lemma freea_spec l p : (forall a, p = Some a -> users l a <> None /\ frees l a = 0) ->
  exists l', freea l p = Some l' /\ (forall a, frees l' a = frees l a + one a p) /\ (forall a, users l' a = users l a) /\ length l' = length l.
Proof.
  intros H. destruct p as [a|]; cbn [freea].
  - destruct (H a eq_refl) as (U & F). unfold users, frees in U, F. destruct (nth_error l a) as [x|] eqn:E; [|congruence].
    replace (a_frees x) with 0%nat by lia. cbn [Nat.eqb]. eexists. split; [reflexivity|].
    assert (L : (a < length l)%nat) by (apply nth_error_Some; congruence).
    split; [|split; [|apply upd_length]]; intros b.
    + unfold frees, one. rewrite nth_error_upd. destruct (Nat.eqb_spec b a) as [->|N].
      * rewrite (proj2 (Nat.ltb_lt _ _) L), E. cbn. destruct (Nat.eq_dec a a); [lia|congruence].
      * cbn. destruct (Nat.eq_dec a b); [congruence|lia].
    + unfold users. rewrite nth_error_upd. destruct (Nat.eqb_spec b a) as [->|N]; [|reflexivity].
      rewrite (proj2 (Nat.ltb_lt _ _) L), E. reflexivity.
  - exists l. split; [reflexivity|]. split; [|auto]. intros a. cbn. lia.
Qed.

(** ** The invariant *)
Record Inv (l : list robj) (ar : list arr) (H : nat -> Z) (rd : list (nat * option nat)) (given used lost : list nat) : Prop := {
  v_ref : forall n o, nth_error l n = Some o -> r_live o = true -> r_ref o = H n + copies l n /\ 0 < r_ref o;
  v_dead : forall n o, nth_error l n = Some o -> r_live o = false -> H n = 0 /\ copies l n = 0 /\ r_ilive o = false /\ rdc rd n = 0;
  v_out : forall n, nth_error l n = None -> H n = 0 /\ copies l n = 0 /\ rdc rd n = 0;
  v_pos : forall n, 0 <= H n;
  v_base : forall n o b, nth_error l n = Some o -> r_live o = true -> r_base o = Some b ->
    r_data o = b /\ r_ilive o = false /\ r_destroy o = true /\ b <> n /\
    exists ob, nth_error l b = Some ob /\ r_live ob = true /\ r_base ob = None;
  v_root : forall n o, nth_error l n = Some o -> r_live o = true -> r_base o = None -> r_data o = n /\ r_ilive o = true /\ r_destroy o = true;
  v_rd : forall n o, nth_error l n = Some o -> r_live o = true -> r_readers o = rdc rd n;
  v_rp : forall n a, In (n, Some a) rd -> exists o d w, nth_error l n = Some o /\ r_live o = true /\ nth_error l (r_data o) = Some d /\
    r_ilive d = true /\ s_cur (pick w (r_impl d)) = Some a;
  v_cur : forall n o w a, nth_error l n = Some o -> r_ilive o = true -> s_cur (pick w (r_impl o)) = Some a ->
    users ar a <> None /\ (s_own (pick w (r_impl o)) = Some a \/ In a used);
  v_sum : forall a u, users ar a = Some u -> frees ar a + owners l a + cntn lost a = if u then cntn given a else 1;
  v_none : forall a, users ar a = None -> owners l a = 0 /\ cntn lost a = 0 /\ cntn given a = 0 /\ cntn used a = 0;
  v_given : forall a, cntn given a <= 1 /\ (0 < cntn given a -> users ar a = Some true /\ cntn used a = 0);
  v_used : forall a, In a used -> users ar a = Some true
}.

Lemma copies_upd l n o o' m : nth_error l n = Some o -> copies (upd l n o') m = copies l m - isbase m o + isbase m o'.
Proof. intros E. unfold copies. now apply sumo_upd. Qed.
Lemma owners_upd l n o o' a : nth_error l n = Some o -> owners (upd l n o') a = owners l a - owns a o + owns a o'.
Proof. intros E. unfold owners. now apply sumo_upd. Qed.
Lemma copies_nonneg l n : 0 <= copies l n.
Proof. apply sumo_nonneg, isbase_nonneg. Qed.
Lemma owners_nonneg l n : 0 <= owners l n.
Proof. apply sumo_nonneg, owns_nonneg. Qed.
Lemma nth_lt A (l : list A) n x : nth_error l n = Some x -> (n < length l)%nat.
Proof. intros E. apply nth_error_Some. congruence. Qed.
Lemma nth_upd_case A (l : list A) n o o' m y : nth_error l n = Some o -> nth_error (upd l n o') m = Some y ->
  (m = n /\ y = o') \/ (m <> n /\ nth_error l m = Some y).
Proof.
  intros E. rewrite nth_error_upd. destruct (Nat.eqb_spec m n) as [->|N]; cbn [andb].
  - rewrite (proj2 (Nat.ltb_lt _ _) (nth_lt _ _ _ _ E)). intros J. injection J as <-. auto.
  - auto.
Qed.
Lemma nth_upd_eq A (l : list A) n o o' : nth_error l n = Some o -> nth_error (upd l n o') n = Some o'.
Proof. intros E. rewrite nth_error_upd, Nat.eqb_refl. cbn [andb]. now rewrite (proj2 (Nat.ltb_lt _ _) (nth_lt _ _ _ _ E)). Qed.
Lemma nth_upd_ne A (l : list A) n o' m : m <> n -> nth_error (upd l n o') m = nth_error l m.
Proof. intros N. rewrite nth_error_upd. apply Nat.eqb_neq in N. now rewrite N. Qed.

(** Changing only count and readers of a live restriction. *)
Lemma inv_touch l ar H rd gv us ls n o z r H' rd' : Inv l ar H rd gv us ls -> nth_error l n = Some o -> r_live o = true ->
  0 < z -> (forall m, H' m = H m + (if Nat.eq_dec n m then z - r_ref o else 0)) -> (forall m, 0 <= H' m) ->
  (forall m, rdc rd' m = rdc rd m + (if Nat.eq_dec n m then r - r_readers o else 0)) ->
  (forall m a, In (m, Some a) rd' -> In (m, Some a) rd \/ (m = n /\ exists d w, nth_error l (r_data o) = Some d /\
     r_ilive d = true /\ s_cur (pick w (r_impl d)) = Some a)) ->
  Inv (upd l n (setreaders (setref o z) r)) ar H' rd' gv us ls.
Proof.
  intros I E L Z HH HP RR RP. set (o' := setreaders (setref o z) r).
  assert (CP : forall m, copies (upd l n o') m = copies l m) by (intros m; rewrite (copies_upd _ _ o) by auto; unfold isbase; cbn; lia).
  assert (OW : forall a, owners (upd l n o') a = owners l a) by (intros a; rewrite (owners_upd _ _ o) by auto; unfold owns; cbn; lia).
  assert (NE : forall m d, nth_error l m = Some d -> exists d', nth_error (upd l n o') m = Some d' /\ r_live d' = r_live d /\ r_base d' = r_base d /\
    r_data d' = r_data d /\ r_impl d' = r_impl d /\ r_ilive d' = r_ilive d).
  { intros m d Em. destruct (Nat.eq_dec m n) as [->|N].
    - exists o'. rewrite (nth_upd_eq _ _ _ o) by auto. rewrite E in Em. injection Em as <-. auto 10.
    - exists d. rewrite nth_upd_ne by auto. auto 10. }
  split.
  - intros m y Em Lm. rewrite CP, HH. destruct (nth_upd_case _ _ _ _ _ _ _ E Em) as [(-> & ->)|(N & Em')].
    + destruct (v_ref _ _ _ _ _ _ _ I _ _ E L). cbn. destruct (Nat.eq_dec n n); [lia|congruence].
    + destruct (Nat.eq_dec n m); [congruence|]. destruct (v_ref _ _ _ _ _ _ _ I _ _ Em' Lm). lia.
  - intros m y Em Lm. rewrite CP, HH, RR. destruct (nth_upd_case _ _ _ _ _ _ _ E Em) as [(-> & ->)|(N & Em')].
    + cbn in Lm. congruence.
    + destruct (Nat.eq_dec n m); [congruence|]. destruct (v_dead _ _ _ _ _ _ _ I _ _ Em' Lm) as (?&?&?&?). repeat split; auto; lia.
  - intros m Em. rewrite CP, HH, RR. destruct (Nat.eq_dec n m) as [->|N].
    + rewrite (nth_upd_eq _ _ _ o) in Em by auto. congruence.
    + rewrite nth_upd_ne in Em by auto. destruct (v_out _ _ _ _ _ _ _ I _ Em) as (?&?&?). repeat split; auto; lia.
  - auto.
  - intros m y b Em Lm Bm. assert (X : exists y0, nth_error l m = Some y0 /\ r_live y0 = true /\ r_base y0 = Some b /\ r_data y0 = r_data y /\
      r_ilive y0 = r_ilive y /\ r_destroy y0 = r_destroy y).
    { destruct (nth_upd_case _ _ _ _ _ _ _ E Em) as [(-> & ->)|(N & Em')]; [exists o|exists y]; auto 10. }
    destruct X as (y0 & E0 & L0 & B0 & <- & <- & <-). destruct (v_base _ _ _ _ _ _ _ I _ _ _ E0 L0 B0) as (A1 & A2 & A3 & A4 & ob & A5 & A6 & A7).
    repeat split; auto. destruct (NE _ _ A5) as (d' & X1 & X2 & X3 & _). exists d'. rewrite X2, X3. auto.
  - intros m y Em Lm Bm. destruct (nth_upd_case _ _ _ _ _ _ _ E Em) as [(-> & ->)|(N & Em')]; [cbn in *; now apply (v_root _ _ _ _ _ _ _ I)|now apply (v_root _ _ _ _ _ _ _ I)].
  - intros m y Em Lm. rewrite RR. destruct (nth_upd_case _ _ _ _ _ _ _ E Em) as [(-> & ->)|(N & Em')].
    + cbn. rewrite <- (v_rd _ _ _ _ _ _ _ I _ _ E L). destruct (Nat.eq_dec n n); [lia|congruence].
    + destruct (Nat.eq_dec n m); [congruence|]. rewrite (v_rd _ _ _ _ _ _ _ I _ _ Em' Lm). lia.
  - intros m a J. assert (X : exists o0 d w, nth_error l m = Some o0 /\ r_live o0 = true /\ nth_error l (r_data o0) = Some d /\
      r_ilive d = true /\ s_cur (pick w (r_impl d)) = Some a).
    { destruct (RP _ _ J) as [J'|(-> & d & w & ? & ? & ?)]; [now apply (v_rp _ _ _ _ _ _ _ I)|]. exists o, d, w. auto. }
    destruct X as (o0 & d & w & E0 & L0 & ED & LD & CU).
    destruct (NE _ _ E0) as (o1 & X1 & X2 & _ & X3 & _). destruct (NE _ _ ED) as (d1 & Y1 & _ & _ & _ & Y2 & Y3).
    exists o1, d1, w. rewrite X2, X3, Y2, Y3. auto.
  - intros m y w a Em Lm C. destruct (nth_upd_case _ _ _ _ _ _ _ E Em) as [(-> & ->)|(N & Em')].
    + cbn in *. now apply (v_cur _ _ _ _ _ _ _ I n o w a).
    + now apply (v_cur _ _ _ _ _ _ _ I m y w a).
  - intros a u U. rewrite OW. now apply (v_sum _ _ _ _ _ _ _ I).
  - intros a U. rewrite OW. now apply (v_none _ _ _ _ _ _ _ I).
  - apply (v_given _ _ _ _ _ _ _ I).
  - apply (v_used _ _ _ _ _ _ _ I).
Qed.

(** No copy has a copy. *)
Lemma copies_of_copy l ar H rd gv us ls n o b : Inv l ar H rd gv us ls -> nth_error l n = Some o -> r_live o = true -> r_base o = Some b -> copies l n = 0.
Proof.
  intros I E L B. pose proof (copies_nonneg l n). destruct (Z.lt_decidable 0 (copies l n)) as [P|P]; [|lia]. exfalso.
  destruct (sumo_pos _ _ (isbase_nonneg n) P) as (m & y & Em & Q). unfold isbase in Q. destruct (r_live y) eqn:Ly; [|lia].
  destruct (r_base y) as [b'|] eqn:By; cbn in Q; [|lia]. destruct (Nat.eq_dec b' n) as [->|]; [|lia].
  destruct (v_base _ _ _ _ _ _ _ I _ _ _ Em Ly By) as (_ & _ & _ & _ & ob & A5 & A6 & A7). congruence.
Qed.

(** Freeing a structure whose count is used up. *)
Lemma inv_kill l ar ar' H rd gv us ls n o o' H' : Inv l ar H rd gv us ls -> nth_error l n = Some o -> r_live o = true ->
  r_ref o = 1 -> copies l n = 0 -> r_readers o = 0 -> r_live o' = false -> r_ilive o' = false ->
  (forall m, H' m = H m - one m (Some n) + one m (r_base o)) ->
  (forall a, users ar' a = users ar a) -> (forall a, frees ar' a = frees ar a + owns a o) ->
  Inv (upd l n o') ar' H' rd gv us ls.
Proof.
  intros I E L R C0 RD L' IL' HH UU FF.
  assert (HN : H n = 1) by (destruct (v_ref _ _ _ _ _ _ _ I _ _ E L); lia).
  assert (CP : forall m, copies (upd l n o') m = copies l m - one m (r_base o)).
  { intros m. rewrite (copies_upd _ _ o) by auto. unfold isbase. rewrite L, L'. lia. }
  assert (OW : forall a, owners (upd l n o') a = owners l a - owns a o).
  { intros a. rewrite (owners_upd _ _ o) by auto. unfold owns at 2. rewrite IL'. lia. }
  assert (BN : one n (r_base o) = 0).
  { destruct (r_base o) as [b|] eqn:B; [|reflexivity]. cbn. destruct (v_base _ _ _ _ _ _ _ I _ _ _ E L B) as (_ & _ & _ & N & _). destruct (Nat.eq_dec b n); congruence. }
  assert (NB : forall m y b, nth_error l m = Some y -> r_live y = true -> r_base y = Some b -> b <> n).
  { intros m y b Em Lm Bm ->. assert (X := sumo_ge (isbase n) l m y (isbase_nonneg n) Em). fold (copies l n) in X.
    unfold isbase in X. rewrite Lm, Bm in X. cbn in X. destruct (Nat.eq_dec n n); [lia|congruence]. }
  assert (R0 : rdc rd n = 0) by (rewrite <- (v_rd _ _ _ _ _ _ _ I _ _ E L); auto).
  split.
  - intros m y Em Lm. rewrite CP, HH. destruct (nth_upd_case _ _ _ _ _ _ _ E Em) as [(-> & ->)|(N & Em')]; [congruence|].
    destruct (v_ref _ _ _ _ _ _ _ I _ _ Em' Lm). cbn [one]. destruct (Nat.eq_dec n m); [congruence|lia].
  - intros m y Em Lm. rewrite CP, HH. destruct (nth_upd_case _ _ _ _ _ _ _ E Em) as [(-> & ->)|(N & Em')].
    + rewrite BN. cbn [one]. destruct (Nat.eq_dec n n); [|congruence]. repeat split; auto; lia.
    + destruct (v_dead _ _ _ _ _ _ _ I _ _ Em' Lm) as (?&?&?&?).
      assert (one m (r_base o) = 0).
      { destruct (r_base o) as [b|] eqn:B; [|reflexivity]. cbn. destruct (Nat.eq_dec b m) as [->|]; [|reflexivity].
        destruct (v_base _ _ _ _ _ _ _ I _ _ _ E L B) as (_ & _ & _ & _ & ob & A5 & A6 & A7). congruence. }
      cbn [one]. destruct (Nat.eq_dec n m); [congruence|]. repeat split; auto; lia.
  - intros m Em. destruct (Nat.eq_dec m n) as [->|N]; [rewrite (nth_upd_eq _ _ _ o) in Em by auto; congruence|].
    rewrite nth_upd_ne in Em by auto. destruct (v_out _ _ _ _ _ _ _ I _ Em) as (?&?&?). rewrite CP, HH.
    assert (one m (r_base o) = 0).
    { destruct (r_base o) as [b|] eqn:B; [|reflexivity]. cbn. destruct (Nat.eq_dec b m) as [->|]; [|reflexivity].
      destruct (v_base _ _ _ _ _ _ _ I _ _ _ E L B) as (_ & _ & _ & _ & ob & A5 & A6 & A7). congruence. }
    cbn [one]. destruct (Nat.eq_dec n m); [congruence|]. repeat split; auto; lia.
  - intros m. rewrite HH. pose proof (v_pos _ _ _ _ _ _ _ I m). pose proof (one_nonneg m (r_base o)). cbn [one].
    destruct (Nat.eq_dec n m) as [->|]; lia.
  - intros m y b Em Lm Bm. destruct (nth_upd_case _ _ _ _ _ _ _ E Em) as [(-> & ->)|(N & Em')]; [congruence|].
    destruct (v_base _ _ _ _ _ _ _ I _ _ _ Em' Lm Bm) as (A1 & A2 & A3 & A4 & ob & A5 & A6 & A7). repeat split; auto.
    exists ob. rewrite nth_upd_ne by exact (NB _ _ _ Em' Lm Bm). auto.
  - intros m y Em Lm Bm. destruct (nth_upd_case _ _ _ _ _ _ _ E Em) as [(-> & ->)|(N & Em')]; [congruence|]. now apply (v_root _ _ _ _ _ _ _ I).
  - intros m y Em Lm. destruct (nth_upd_case _ _ _ _ _ _ _ E Em) as [(-> & ->)|(N & Em')]; [congruence|]. now apply (v_rd _ _ _ _ _ _ _ I _ _ Em').
  - intros m a J. destruct (v_rp _ _ _ _ _ _ _ I _ _ J) as (o0 & d & w & E0 & L0 & ED & LD & CU).
    assert (N : m <> n). { intros ->. assert (X : In n (map fst rd)) by (apply in_map_iff; exists (n, Some a); auto). apply cntn_In in X. unfold rdc in R0. lia. }
    assert (N2 : r_data o0 <> n).
    { destruct (r_base o0) as [b|] eqn:B0.
      - destruct (v_base _ _ _ _ _ _ _ I _ _ _ E0 L0 B0) as (-> & _). exact (NB _ _ _ E0 L0 B0).
      - destruct (v_root _ _ _ _ _ _ _ I _ _ E0 L0 B0) as (-> & _). auto. }
    exists o0, d, w. rewrite !nth_upd_ne by auto. auto.
  - intros m y w a Em Lm C. rewrite UU. destruct (nth_upd_case _ _ _ _ _ _ _ E Em) as [(-> & ->)|(N & Em')]; [congruence|]. now apply (v_cur _ _ _ _ _ _ _ I m y w a).
  - intros a u U. rewrite UU in U. rewrite OW, FF. rewrite <- (v_sum _ _ _ _ _ _ _ I _ _ U). lia.
  - intros a U. rewrite UU in U. destruct (v_none _ _ _ _ _ _ _ I _ U) as (?&?&?&?). rewrite OW.
    pose proof (owns_nonneg a o). pose proof (sumo_ge (owns a) l n o (owns_nonneg a) E) as X. fold (owners l a) in X. repeat split; auto; lia.
  - intros a. rewrite UU. apply (v_given _ _ _ _ _ _ _ I).
  - intros a J. rewrite UU. now apply (v_used _ _ _ _ _ _ _ I).
Qed.

(** The backend data of a live root can be freed. *)
Lemma free_impl_ok l ar H rd gv us ls n o : Inv l ar H rd gv us ls -> nth_error l n = Some o -> r_ilive o = true ->
  exists ar', free_impl ar (r_impl o) = Some ar' /\ (forall a, users ar' a = users ar a) /\ (forall a, frees ar' a = frees ar a + owns a o).
Proof.
  intros I E IL. set (i := r_impl o).
  assert (B : forall a, 0 < one a (s_own (i_off i)) + one a (s_own (i_or i)) + one a (s_own (i_cu i)) ->
    users ar a <> None /\ frees ar a + one a (s_own (i_off i)) + one a (s_own (i_or i)) + one a (s_own (i_cu i)) <= 1).
  { intros a P. pose proof (sumo_ge (owns a) l n o (owns_nonneg a) E) as X. fold (owners l a) in X. unfold owns in X. rewrite IL in X. fold i in X.
    destruct (users ar a) as [u|] eqn:U.
    - split; [congruence|]. pose proof (v_sum _ _ _ _ _ _ _ I _ _ U). pose proof (proj1 (v_given _ _ _ _ _ _ _ I a)). pose proof (cntn_nonneg ls a). destruct u; lia.
    - destruct (v_none _ _ _ _ _ _ _ I _ U). lia. }
  assert (ONE : forall a, one a (Some a) = 1) by (intros a; cbn; destruct (Nat.eq_dec a a); congruence).
  pose proof (frees_nonneg ar) as FN. pose proof one_nonneg as ON.
  destruct (freea_spec ar (s_own (i_off i))) as (l1 & E1 & F1 & U1 & _).
  { intros a Ea. destruct (B a) as (X & Y). { rewrite Ea, ONE. pose proof (ON a (s_own (i_or i))). pose proof (ON a (s_own (i_cu i))). lia. }
    split; auto. rewrite Ea, ONE in Y. pose proof (ON a (s_own (i_or i))). pose proof (ON a (s_own (i_cu i))). pose proof (FN a). lia. }
  destruct (freea_spec l1 (s_own (i_or i))) as (l2 & E2 & F2 & U2 & _).
  { intros a Ea. rewrite U1, F1. destruct (B a) as (X & Y). { rewrite Ea, ONE. pose proof (ON a (s_own (i_off i))). pose proof (ON a (s_own (i_cu i))). lia. }
    split; auto. rewrite Ea, ONE in Y. pose proof (ON a (s_own (i_off i))). pose proof (ON a (s_own (i_cu i))). pose proof (FN a). lia. }
  destruct (freea_spec l2 (s_own (i_cu i))) as (l3 & E3 & F3 & U3 & _).
  { intros a Ea. rewrite U2, U1, F2, F1. destruct (B a) as (X & Y). { rewrite Ea, ONE. pose proof (ON a (s_own (i_off i))). pose proof (ON a (s_own (i_or i))). lia. }
    split; auto. rewrite Ea, ONE in Y. pose proof (ON a (s_own (i_off i))). pose proof (ON a (s_own (i_or i))). pose proof (FN a). lia. }
  exists l3. split; [|split].
  - unfold free_impl. fold i. rewrite E1. cbv beta iota delta [bind]. rewrite E2. cbv beta iota. exact E3.
  - intros a. now rewrite U3, U2, U1.
  - intros a. rewrite F3, F2, F1. unfold owns. rewrite IL. fold i. lia.
Qed.

Lemma upd_upd A : forall (l : list A) n x y, upd (upd l n x) n y = upd l n y.
Proof. induction l as [|z l IH]; intros [|n] x y; cbn; auto. now rewrite IH. Qed.
Lemma upd_comm A : forall (l : list A) n m x y, n <> m -> upd (upd l n x) m y = upd (upd l m y) n x.
Proof. induction l as [|z l IH]; intros [|n] [|m] x y N; cbn; auto; [congruence|]. rewrite IH; auto. Qed.
Lemma upd_app1 A : forall (l : list A) n x y, (n < length l)%nat -> upd (l ++ [x]) n y = upd l n y ++ [x].
Proof. induction l as [|z l IH]; intros [|n] x y H; cbn in *; try lia; auto. rewrite IH by lia. reflexivity. Qed.
Lemma upd_app2 A : forall (l : list A) x y, upd (l ++ [x]) (length l) y = l ++ [y].
Proof. induction l as [|z l IH]; intros x y; cbn; auto. now rewrite IH. Qed.
Lemma nth_app_new A (l : list A) x : nth_error (l ++ [x]) (length l) = Some x.
Proof. rewrite nth_error_app2 by lia. now rewrite Nat.sub_diag. Qed.
Lemma nth_app_case A (l : list A) x m y : nth_error (l ++ [x]) m = Some y -> (m = length l /\ y = x) \/ (m <> length l /\ nth_error l m = Some y).
Proof.
  intros E. destruct (Nat.lt_trichotomy m (length l)) as [L|[->|L]].
  - rewrite nth_error_app1 in E by auto. right. split; [lia|auto].
  - rewrite nth_app_new in E. injection E as <-. auto.
  - rewrite (proj2 (nth_error_None _ _)) in E; [discriminate|]. rewrite app_length. cbn. lia.
Qed.
Lemma nth_app_old A (l : list A) x m y : nth_error l m = Some y -> nth_error (l ++ [x]) m = Some y.
Proof. intros E. rewrite nth_error_app1; auto. now apply nth_lt in E. Qed.

Lemma inv_ext l ar H H' rd gv us ls : Inv l ar H rd gv us ls -> (forall m, H m = H' m) -> Inv l ar H' rd gv us ls.
Proof.
  intros [] E. split; auto.
  - intros n o A B. rewrite <- E. auto.
  - intros n o A B. rewrite <- E. eauto.
  - intros n A. rewrite <- E. auto.
  - intros n. rewrite <- E. auto.
Qed.

(** ** Destroy *)
Definition less (H : nat -> Z) (n : nat) : nat -> Z := fun m => H m - one m (Some n).
Lemma root_step l ar H rd gv us ls n o : Inv l ar H rd gv us ls -> nth_error l n = Some o -> r_live o = true -> r_base o = None -> 1 <= H n ->
  exists e X ar', (forall f l', nth_error l' n = Some o -> destroy (S f) (ST l' ar) n = Done e (ST (upd l' n X) ar')) /\
    ((e = 0 /\ Inv (upd l n X) ar' (less H n) rd gv us ls) \/ (e = ERR_ACCESS /\ ar' = ar /\ 0 < rdc rd n /\ H n + copies l n = 1)).
Proof.
  intros I E L B H1. destruct (v_ref _ _ _ _ _ _ _ I _ _ E L) as (RR & RP). destruct (v_root _ _ _ _ _ _ _ I _ _ E L B) as (RD & IL & DS).
  pose proof (copies_nonneg l n) as CN. pose proof (v_rd _ _ _ _ _ _ _ I _ _ E L) as RDR.
  assert (D : forall f l', nth_error l' n = Some o -> destroy (S f) (ST l' ar) n =
     if r_ref o - 1 >? 0 then Done 0 (ST (upd l' n (setref o (r_ref o - 1))) ar)
     else if negb (r_readers o =? 0) then Done ERR_ACCESS (ST (upd l' n (setref o (r_ref o - 1))) ar)
     else match free_impl ar (r_impl o) with
          | Some x => Done 0 (ST (upd l' n (dead (noimpl (setref o (r_ref o - 1))))) x) | None => Undef end).
  { intros f l' E'. cbn [destroy]. unfold get, put. cbn [objs arrs]. rewrite E', L. cbn [r_ref r_readers setref r_base r_destroy r_ilive r_impl]. rewrite B, DS, IL. cbn [negb].
    destruct (_ >? _); [reflexivity|]. destruct (negb _); [reflexivity|]. destruct (free_impl _ _); [|reflexivity]. now rewrite upd_upd. }
  destruct (r_ref o - 1 >? 0) eqn:G.
  - exists 0, (setref o (r_ref o - 1)), ar. split; [auto|]. left. split; [reflexivity|].
    apply (inv_touch l ar H rd gv us ls n o (r_ref o - 1) (r_readers o) _ rd); auto.
    + apply Z.gtb_lt in G. lia.
    + intros m. unfold less, one. destruct (Nat.eq_dec n m); lia.
    + intros m. unfold less, one. pose proof (v_pos _ _ _ _ _ _ _ I m). destruct (Nat.eq_dec n m) as [<-|]; lia.
    + intros m. destruct (Nat.eq_dec n m); lia.
  - assert (r_ref o = 1) by (rewrite Z.gtb_ltb in G; apply Z.ltb_ge in G; lia).
    destruct (r_readers o =? 0) eqn:RE; cbn [negb] in D.
    + apply Z.eqb_eq in RE. destruct (free_impl_ok _ _ _ _ _ _ _ _ _ I E IL) as (ar' & F1 & F2 & F3). rewrite F1 in D.
      exists 0, (dead (noimpl (setref o (r_ref o - 1)))), ar'. split; [auto|]. left. split; [reflexivity|].
      apply (inv_kill l ar ar' H rd gv us ls n o); auto; [lia|]. intros m. unfold less. rewrite B. cbn [one]. lia.
    + apply Z.eqb_neq in RE. exists ERR_ACCESS, (setref o (r_ref o - 1)), ar. split; [auto|]. right. pose proof (cntn_nonneg (map fst rd) n). unfold rdc in *.
      repeat split; lia.
Qed.

Lemma destroy_ok l ar H rd gv us ls n : Inv l ar H rd gv us ls -> 1 <= H n ->
  exists e s', destroy_ (ST l ar) n = Done e s' /\
    ((e = 0 /\ Inv (objs s') (arrs s') (less H n) rd gv us ls) \/
     (e = ERR_ACCESS /\ arrs s' = ar /\ exists t, 0 < rdc rd t /\ (t = n \/ exists o, nth_error l n = Some o /\ r_base o = Some t))).
Proof.
  intros I H1. destruct (nth_error l n) as [o|] eqn:E; [|destruct (v_out _ _ _ _ _ _ _ I _ E); lia].
  destruct (r_live o) eqn:L; [|destruct (v_dead _ _ _ _ _ _ _ I _ _ E L); lia].
  unfold destroy_. cbn [objs]. destruct (r_base o) as [b|] eqn:B.
  2: { destruct (root_step _ _ _ _ _ _ _ _ _ I E L B H1) as (e & X & ar' & D & R). exists e, (ST (upd l n X) ar'). split; [now apply D|].
       destruct R as [(-> & R)|(-> & -> & R1 & _)]; [left; auto|right]. repeat split; auto. exists n. auto. }
  destruct (v_ref _ _ _ _ _ _ _ I _ _ E L) as (RR & RP). pose proof (copies_of_copy _ _ _ _ _ _ _ _ _ _ I E L B) as C0.
  destruct (v_base _ _ _ _ _ _ _ I _ _ _ E L B) as (DT & NIL & DS & NB & ob & EB & LB & BB). pose proof (v_rd _ _ _ _ _ _ _ I _ _ E L) as RDR.
  cbn [destroy]. unfold get at 1. cbn [objs]. rewrite E, L. cbn [r_ref r_readers setref r_base]. rewrite B.
  destruct (r_ref o - 1 >? 0) eqn:G.
  - exists 0, (put (ST l ar) n (setref o (r_ref o - 1))). split; [reflexivity|]. left. split; [reflexivity|]. cbn [put objs arrs].
    apply (inv_touch l ar H rd gv us ls n o (r_ref o - 1) (r_readers o) _ rd); auto.
    + apply Z.gtb_lt in G. lia.
    + intros m. unfold less, one. destruct (Nat.eq_dec n m); lia.
    + intros m. unfold less, one. pose proof (v_pos _ _ _ _ _ _ _ I m). destruct (Nat.eq_dec n m) as [<-|]; lia.
    + intros m. destruct (Nat.eq_dec n m); lia.
  - assert (R1 : r_ref o = 1) by (rewrite Z.gtb_ltb in G; apply Z.ltb_ge in G; lia).
    destruct (r_readers o =? 0) eqn:RE; cbn [negb].
    2: { apply Z.eqb_neq in RE. exists ERR_ACCESS, (put (ST l ar) n (setref o (r_ref o - 1))). split; [reflexivity|]. right. repeat split. exists n.
         split; [|auto]. unfold rdc in *. pose proof (cntn_nonneg (map fst rd) n). lia. }
    apply Z.eqb_eq in RE. set (o1 := setref o (r_ref o - 1)). set (ok := dead (setbase o1 None)).
    assert (K : Inv (upd l n ok) ar (fun m => H m - one m (Some n) + one m (r_base o)) rd gv us ls).
    { apply (inv_kill l ar ar H rd gv us ls n o); auto. intros a. unfold owns. rewrite NIL. lia. }
    rewrite B in K.
    assert (EBK : nth_error (upd l n ok) b = Some ob) by (rewrite nth_upd_ne; auto).
    destruct (root_step _ _ _ _ _ _ _ _ _ K EBK LB BB) as (e & X & ar' & D & R).
    { cbn [one]. destruct (Nat.eq_dec n b); [congruence|]. destruct (Nat.eq_dec b b); [|congruence]. pose proof (v_pos _ _ _ _ _ _ _ I b). lia. }
    destruct (length l) as [|f] eqn:LL; [apply nth_lt in E; lia|].
    change (put (ST l ar) n o1) with (ST (upd l n o1) ar). rewrite (D f (upd l n o1)) by (rewrite nth_upd_ne; auto).
    destruct R as [(-> & R)|(-> & -> & R2 & _)].
    + cbn [Z.eqb negb]. unfold get. cbn [objs]. rewrite nth_upd_ne by auto. rewrite (nth_upd_eq _ _ _ o) by auto. replace (r_live o1) with true by (symmetry; exact L).
      eexists 0, _. split; [reflexivity|]. left. split; [reflexivity|]. cbn [put objs arrs].
      fold ok. rewrite (upd_comm _ _ b n) by auto. rewrite upd_upd.
      eapply inv_ext; [exact R|]. intros m. unfold less. lia.
    + exists ERR_ACCESS, (ST (upd (upd l n o1) b X) ar). split; [reflexivity|]. right. repeat split. exists b. split; [exact R2|]. right. exists o. auto.
Qed.

(** ** New restrictions *)
Lemma inv_app l ar ar' H H' rd gv us ls gv' us' ls' o : Inv l ar H rd gv us ls ->
  r_live o = true -> r_ref o = 1 -> r_readers o = 0 -> r_destroy o = true ->
  (r_base o = None -> r_data o = length l /\ r_ilive o = true) ->
  (forall b, r_base o = Some b -> r_data o = b /\ r_ilive o = false /\ exists ob, nth_error l b = Some ob /\ r_live ob = true /\ r_base ob = None) ->
  (forall m, H' m = H m + one m (Some (length l)) - one m (r_base o)) -> (forall m, 0 <= H' m) ->
  (forall a, users ar a <> None -> users ar' a = users ar a) ->
  (forall a u, users ar' a = Some u -> frees ar' a + (owners l a + owns a o) + cntn ls' a = if u then cntn gv' a else 1) ->
  (forall a, users ar' a = None -> owns a o = 0 /\ cntn ls' a = 0 /\ cntn gv' a = 0 /\ cntn us' a = 0) ->
  (forall a, cntn gv' a <= 1 /\ (0 < cntn gv' a -> users ar' a = Some true /\ cntn us' a = 0)) ->
  (forall a, In a us' -> users ar' a = Some true) -> incl us us' ->
  (forall w a, r_ilive o = true -> s_cur (pick w (r_impl o)) = Some a -> users ar' a <> None /\ (s_own (pick w (r_impl o)) = Some a \/ In a us')) ->
  Inv (l ++ [o]) ar' H' rd gv' us' ls'.
Proof.
  intros I L R RD DS BN BS HH HP UU SS NN GG US INC CC.
  assert (NL : nth_error l (length l) = None) by (apply nth_error_None; lia).
  destruct (v_out _ _ _ _ _ _ _ I _ NL) as (HL & CL0 & RL).
  assert (CP : forall m, copies (l ++ [o]) m = copies l m + one m (r_base o)).
  { intros m. unfold copies. rewrite sumo_app. unfold isbase at 2. now rewrite L. }
  assert (OW : forall a, owners (l ++ [o]) a = owners l a + owns a o) by (intros a; apply sumo_app).
  assert (BL : forall m, nth_error l m = None -> one m (r_base o) = 0).
  { intros m Em. destruct (r_base o) as [b|] eqn:B; [|reflexivity]. cbn. destruct (Nat.eq_dec b m) as [->|]; auto.
    destruct (BS _ eq_refl) as (_ & _ & ob & X & _). congruence. }
  split.
  - intros m y Em Lm. rewrite CP, HH. destruct (nth_app_case _ _ _ _ _ Em) as [(-> & ->)|(N & Em')].
    + rewrite (BL _ NL). cbn. destruct (Nat.eq_dec _ _); [lia|congruence].
    + destruct (v_ref _ _ _ _ _ _ _ I _ _ Em' Lm). cbn [one]. destruct (Nat.eq_dec (length l) m); [congruence|lia].
  - intros m y Em Lm. destruct (nth_app_case _ _ _ _ _ Em) as [(-> & ->)|(N & Em')]; [congruence|].
    destruct (v_dead _ _ _ _ _ _ _ I _ _ Em' Lm) as (?&?&?&?).
    assert (one m (r_base o) = 0).
    { destruct (r_base o) as [b|] eqn:B; [|reflexivity]. cbn. destruct (Nat.eq_dec b m) as [->|]; auto.
      destruct (BS _ eq_refl) as (_ & _ & ob & X & Y & _). congruence. }
    rewrite CP, HH. cbn [one]. destruct (Nat.eq_dec (length l) m); [congruence|]. repeat split; auto; lia.
  - intros m Em. assert (Em' : nth_error l m = None).
    { apply nth_error_None. apply nth_error_None in Em. rewrite app_length in Em. cbn in Em. lia. }
    assert (m <> length l) by (apply nth_error_None in Em; rewrite app_length in Em; cbn in Em; lia).
    destruct (v_out _ _ _ _ _ _ _ I _ Em') as (?&?&?). rewrite CP, HH, (BL _ Em'). cbn [one]. destruct (Nat.eq_dec (length l) m); [congruence|]. repeat split; auto; lia.
  - auto.
  - intros m y b Em Lm Bm. destruct (nth_app_case _ _ _ _ _ Em) as [(-> & ->)|(N & Em')].
    + destruct (BS _ Bm) as (X1 & X2 & ob & X3 & X4 & X5). repeat split; auto.
      * intros ->. congruence.
      * exists ob. split; auto. now apply nth_app_old.
    + destruct (v_base _ _ _ _ _ _ _ I _ _ _ Em' Lm Bm) as (A1 & A2 & A3 & A4 & ob & A5 & A6 & A7). repeat split; auto.
      exists ob. split; auto. now apply nth_app_old.
  - intros m y Em Lm Bm. destruct (nth_app_case _ _ _ _ _ Em) as [(-> & ->)|(N & Em')]; [destruct (BN Bm); auto|]. now apply (v_root _ _ _ _ _ _ _ I).
  - intros m y Em Lm. destruct (nth_app_case _ _ _ _ _ Em) as [(-> & ->)|(N & Em')]; [congruence|]. now apply (v_rd _ _ _ _ _ _ _ I _ _ Em').
  - intros m a J. destruct (v_rp _ _ _ _ _ _ _ I _ _ J) as (o0 & d & w & E0 & L0 & ED & LD & CU).
    exists o0, d, w. rewrite !(nth_app_old _ _ _ _ _ E0), (nth_app_old _ _ _ _ _ ED). auto.
  - intros m y w a Em Lm C. destruct (nth_app_case _ _ _ _ _ Em) as [(-> & ->)|(N & Em')]; [auto|].
    destruct (v_cur _ _ _ _ _ _ _ I m y w a Em' Lm C) as (X & Y). split; [rewrite UU; auto|]. destruct Y; auto.
  - intros a u U. rewrite OW. apply SS; auto.
  - intros a U. destruct (NN _ U) as (?&?&?&?). rewrite OW.
    assert (UN : users ar a = None). { destruct (users ar a) eqn:Q; auto. rewrite UU in U by congruence. congruence. }
    destruct (v_none _ _ _ _ _ _ _ I _ UN) as (?&_). repeat split; auto; lia.
  - auto.
  - auto.
Qed.
