(** * Reference counts: the counting invariant and Destroy *)
From Coq Require Import List ZArith Lia Bool Arith.
From Verif Require Import Prelude RstrModel OpModel RefModel RefSpec.
Import ListNotations.
Set Implicit Arguments.
Local Open Scope nat_scope.

(** ** Results without undefined behaviour *)
Definition safe {A} (r : res A) (P : A -> Prop) : Prop := match r with Ok a => P a | Err _ => True | UB => False end.
Lemma safe_bind A B (m : res A) (f : A -> res B) P : safe m (fun a => safe (f a) P) -> safe (rbind m f) P.
Proof. destruct m; simpl; auto. Qed.
Lemma safe_imp A (m : res A) (P Q : A -> Prop) : safe m P -> (forall a, P a -> Q a) -> safe m Q.
Proof. destruct m; simpl; auto. Qed.
Lemma safe_ok A (a : A) (P : A -> Prop) : P a -> safe (Ok a) P. Proof. auto. Qed.

(** ** Counting *)
Lemma cnt_app n l l' : cnt n (l ++ l') = cnt n l + cnt n l'.
Proof. unfold cnt. now rewrite filter_app, app_length. Qed.
Lemma cnt_cons n p l : cnt n (p :: l) = (if is_n n p then 1 else 0) + cnt n l.
Proof. unfold cnt. cbn [filter]. destruct (is_n n p); reflexivity. Qed.
Lemma cnt_nil n : cnt n [] = 0. Proof. reflexivity. Qed.
Lemma cnt_in n l : In (PObj n) l -> 1 <= cnt n l.
Proof.
  induction l as [|p l IH]; [intros []|]. intros [->|H]; rewrite cnt_cons.
  - simpl. rewrite Nat.eqb_refl. lia.
  - specialize (IH H). lia.
Qed.
Lemma in_cnt n l : 1 <= cnt n l -> In (PObj n) l.
Proof.
  induction l as [|p l IH]; [rewrite cnt_nil; lia|]. rewrite cnt_cons. intros H.
  destruct p as [| |m]; simpl in H; try (right; apply IH; lia).
  destruct (Nat.eqb_spec m n) as [->|]; [left; auto|right; apply IH; lia].
Qed.
Lemma cnt_fptrs_split n k l : cnt n (fptrs l) = cnt n (fptrs (firstn k l)) + cnt n (fptrs (skipn k l)).
Proof. rewrite <- (firstn_skipn k l) at 1. unfold fptrs. rewrite flat_map_app, cnt_app. reflexivity. Qed.

Definition contrib (n : nat) (o : obj) : nat := cnt n (if (0 <? o_ref o)%Z then held (o_body o) else stuck (o_body o)).
Definition sumc (h : heap) (n : nat) : nat := list_sum (map (contrib n) h).
Lemma sumc_app h h' n : sumc (h ++ h') n = sumc h n + sumc h' n.
Proof. unfold sumc. now rewrite map_app, list_sum_app. Qed.
Lemma sumc_cons o h n : sumc (o :: h) n = contrib n o + sumc h n. Proof. reflexivity. Qed.
Lemma sumc_nil n : sumc [] n = 0. Proof. reflexivity. Qed.
Lemma sumc_upd h : forall k o o' n, nth_error h k = Some o -> sumc (upd h k o') n + contrib n o = sumc h n + contrib n o'.
Proof.
  induction h as [|a h IH]; intros [|k] o o' n E; simpl in E; try discriminate.
  - inversion E; subst. simpl upd. rewrite !sumc_cons. lia.
  - simpl upd. rewrite !sumc_cons. specialize (IH _ _ o' n E). lia.
Qed.
Lemma contrib_le h k o n : nth_error h k = Some o -> contrib n o <= sumc h n.
Proof.
  revert k; induction h as [|a h IH]; intros [|k] E; simpl in E; try discriminate; rewrite sumc_cons.
  - inversion E; subst; lia.
  - specialize (IH _ E). lia.
Qed.
Lemma sumc_some h n : 1 <= sumc h n -> exists k o, nth_error h k = Some o /\ 1 <= contrib n o.
Proof.
  induction h as [|a h IH]; [rewrite sumc_nil; lia|]. rewrite sumc_cons. intros H.
  destruct (Nat.eq_dec (contrib n a) 0) as [E|E].
  - destruct IH as (k & o & E1 & E2); [lia|]. exists (S k), o. auto.
  - exists 0, a. split; [reflexivity|lia].
Qed.

(** ** The invariant: [ext] are the references held outside the heap *)
Definition bok (n : nat) (b : body) : Prop :=
  match b with
  | BCeed _ d od _ p =>
    (forall m, d = PObj m -> n < m) /\ (forall k m, In (k, PObj m) od -> n < m) /\ (forall m, p = Some m -> m < n)
  | BOp cm _ fi fo _ nf _ _ _ _ _ _ _ _ => length fi = length fo /\ nf <= length fi /\ (cm = false -> length fi = FIELD_MAX)
  | _ => True
  end.
Record Inv (h : heap) (ext : list ptr) : Prop := {
  i_cnt : forall n o, nth_error h n = Some o -> o_ref o = Z.of_nat (cnt n ext + sumc h n);
  i_out : forall n, length h <= n -> cnt n ext + sumc h n = 0;
  i_fr : forall n o, nth_error h n = Some o -> o_freed o = true -> o_ref o = 0%Z;
  i_ok : forall n o, nth_error h n = Some o -> bok n (o_body o)
}.
Lemma inv_perm h ext ext' : (forall n, cnt n ext = cnt n ext') -> Inv h ext -> Inv h ext'.
Proof.
  intros E [A B C D]. split; auto.
  - intros n o H. rewrite <- E. auto.
  - intros n H. rewrite <- E. auto.
Qed.
Definition live (h : heap) (n : nat) : Prop := exists o, nth_error h n = Some o /\ o_freed o = false /\ (0 < o_ref o)%Z.
Lemma tot_live h ext n : Inv h ext -> 1 <= cnt n ext + sumc h n -> live h n.
Proof.
  intros I H. destruct (nth_error h n) as [o|] eqn:E.
  - exists o. pose proof (i_cnt I _ E) as R. repeat split; auto.
    + destruct (o_freed o) eqn:F; auto. pose proof (i_fr I _ E F). lia.
    + lia.
  - apply nth_error_None in E. pose proof (i_out I E). lia.
Qed.
Lemma in_live h ext n : Inv h ext -> In (PObj n) ext -> live h n.
Proof. intros I H. eapply tot_live; eauto. pose proof (cnt_in _ _ H). lia. Qed.
Lemma held_live h ext m o n : Inv h ext -> nth_error h m = Some o -> (0 < o_ref o)%Z -> In (PObj n) (held (o_body o)) -> live h n.
Proof.
  intros I E R H. eapply tot_live; eauto. pose proof (contrib_le _ _ n E) as L. unfold contrib in L.
  rewrite (proj2 (Z.ltb_lt _ _) R) in L. pose proof (cnt_in _ _ H). lia.
Qed.
Lemma geto_live h n o : nth_error h n = Some o -> o_freed o = false -> geto h n = Ok o.
Proof. intros E F. unfold geto. now rewrite E, F. Qed.

(** ** One object changes *)
Lemma nth_upd_same A (l : list A) n x : n < length l -> nth_error (upd l n x) n = Some x.
Proof. intros H. rewrite nth_error_upd, Nat.eqb_refl. apply Nat.ltb_lt in H. now rewrite H. Qed.
Lemma nth_upd_other A (l : list A) n x m : m <> n -> nth_error (upd l n x) m = nth_error l m.
Proof. intros H. rewrite nth_error_upd. apply Nat.eqb_neq in H. now rewrite H. Qed.
Lemma nth_upd_inv A (l : list A) n x m y : nth_error (upd l n x) m = Some y ->
  (m = n /\ y = x /\ n < length l) \/ (m <> n /\ nth_error l m = Some y).
Proof.
  rewrite nth_error_upd. destruct (Nat.eqb_spec m n) as [->|]; simpl; [|now right].
  destruct (Nat.ltb_spec n (length l)) as [L|L].
  - intros H; inversion H; subst. left; auto.
  - intros H. apply nth_error_None in L. congruence.
Qed.
Lemma nth_lt A (l : list A) n x : nth_error l n = Some x -> n < length l.
Proof. intros H. apply nth_error_Some. congruence. Qed.

Lemma inv_upd h ext ext' k o o' : Inv h ext -> nth_error h k = Some o ->
  (forall n, n <> k -> cnt n ext' + contrib n o' = cnt n ext + contrib n o) ->
  (o_ref o' + Z.of_nat (cnt k ext + contrib k o) = o_ref o + Z.of_nat (cnt k ext' + contrib k o'))%Z ->
  (o_freed o' = true -> o_ref o' = 0%Z) -> bok k (o_body o') ->
  Inv (upd h k o') ext'.
Proof.
  intros I E C K F B. pose proof (nth_lt _ _ E) as L.
  assert (S0 : forall n, sumc (upd h k o') n + contrib n o = sumc h n + contrib n o') by (intros; now apply sumc_upd).
  split.
  - intros n x H. destruct (nth_upd_inv _ _ _ _ H) as [(-> & -> & _)|(N & H')].
    + pose proof (i_cnt I _ E) as R. specialize (S0 k). lia.
    + pose proof (i_cnt I _ H') as R. specialize (S0 n). specialize (C n N). lia.
  - intros n. rewrite upd_length. intros H. pose proof (i_out I H) as R.
    specialize (S0 n). assert (n <> k) by lia. specialize (C n H0). lia.
  - intros n x H. destruct (nth_upd_inv _ _ _ _ H) as [(-> & -> & _)|(N & H')]; auto. apply (i_fr I _ H').
  - intros n x H. destruct (nth_upd_inv _ _ _ _ H) as [(-> & -> & _)|(N & H')]; auto. apply (i_ok I _ H').
Qed.
Lemma contrib_pos n o : (0 < o_ref o)%Z -> contrib n o = cnt n (held (o_body o)).
Proof. intros H. unfold contrib. now rewrite (proj2 (Z.ltb_lt _ _) H). Qed.
Lemma contrib_zero n o : (o_ref o <= 0)%Z -> contrib n o = cnt n (stuck (o_body o)).
Proof. intros H. unfold contrib. now rewrite (proj2 (Z.ltb_ge _ _) H). Qed.
Lemma cnt_self k ext : cnt k (PObj k :: ext) = S (cnt k ext).
Proof. rewrite cnt_cons. simpl. now rewrite Nat.eqb_refl. Qed.
Lemma cnt_other n k ext : n <> k -> cnt n (PObj k :: ext) = cnt n ext.
Proof. intros H. rewrite cnt_cons. simpl. apply not_eq_sym, Nat.eqb_neq in H. now rewrite H. Qed.
Lemma cnt_nonobj n p ext : (forall m, p <> PObj m) -> cnt n (p :: ext) = cnt n ext.
Proof. intros H. rewrite cnt_cons. destruct p; simpl; auto. destruct (H n0); auto. Qed.

(** ** What Destroy does *)
Record dz (h h' : heap) : Prop := {
  dz_len : length h' = length h;
  dz_at : forall m o, nth_error h m = Some o -> exists o', nth_error h' m = Some o' /\ o_body o' = o_body o /\ (o_ref o = 0%Z -> o' = o) /\
    (o_ref o' <= o_ref o)%Z /\ (o_freed o = true -> o_freed o' = true) /\ (o_ref o' = 0%Z -> o_ref o <> 0%Z -> o_freed o' = true)
}.
Lemma dz_refl h : dz h h.
Proof. split; auto. intros m o E. exists o. repeat split; auto; try lia; congruence. Qed.
Lemma dz_trans h h' h'' : dz h h' -> dz h' h'' -> dz h h''.
Proof.
  intros [L A] [L' A']. split; [congruence|]. intros m o E.
  destruct (A m o E) as (o1 & E1 & B1 & Z1 & R1 & F1 & G1). destruct (A' m o1 E1) as (o2 & E2 & B2 & Z2 & R2 & F2 & G2).
  exists o2. repeat split; auto; try congruence; try lia.
  - intros H. rewrite Z2; auto. rewrite Z1; auto.
  - intros H N. destruct (Z.eq_dec (o_ref o1) 0) as [E0|E0]; auto.
Qed.
Definition pos (h : heap) : nat := length (filter (fun o => (0 <? o_ref o)%Z) h).
Lemma pos_dz h : forall h', dz h h' -> pos h' <= pos h.
Proof.
  induction h as [|a h IH]; intros h' [L A].
  - destruct h'; [unfold pos; simpl; lia|discriminate].
  - destruct h' as [|a' h']; [discriminate|].
    assert (H0 : dz h h').
    { split; [simpl in L; lia|]. intros m o E. exact (A (S m) o E). }
    specialize (IH _ H0). destruct (A 0 a eq_refl) as (o' & E & _ & _ & R & _). simpl in E. inversion E; subst o'.
    unfold pos in *. cbn [filter]. destruct (Z.ltb_spec 0 (o_ref a')); destruct (Z.ltb_spec 0 (o_ref a)); simpl; lia.
Qed.
Lemma pos_upd h : forall k o o', nth_error h k = Some o -> (0 < o_ref o)%Z -> (o_ref o' <= 0)%Z -> S (pos (upd h k o')) = pos h.
Proof.
  induction h as [|a h IH]; intros [|k] o o' E P Q; simpl in E; try discriminate.
  - inversion E; subst. unfold pos. simpl upd. cbn [filter]. rewrite (proj2 (Z.ltb_lt _ _) P), (proj2 (Z.ltb_ge _ _) Q). reflexivity.
  - unfold pos in *. simpl upd. cbn [filter]. specialize (IH _ _ o' E P Q). destruct (0 <? o_ref a)%Z; simpl; lia.
Qed.
Lemma pos_le h : pos h <= length h.
Proof. unfold pos. induction h as [|a h IH]; simpl; auto. destruct (0 <? o_ref a)%Z; simpl; lia. Qed.

Lemma released_ok n b : bok n b -> exists l, released b = Ok l /\ forall m, cnt m (held b) = cnt m l + cnt m (stuck b).
Proof.
  destruct b; simpl; intros H; try (eexists; split; [reflexivity|intros m; rewrite ?cnt_nil; lia]).
  destruct H as (H1 & H2 & _).
  rewrite (proj2 (Nat.ltb_ge (length fin) nf)), (proj2 (Nat.ltb_ge (length fout) nf)) by lia.
  rewrite Bool.andb_false_r. eexists; split; [reflexivity|]. intros m. rewrite !cnt_app.
  rewrite (cnt_fptrs_split m nf fin), (cnt_fptrs_split m nf fout). lia.
Qed.

Lemma each_spec f (IH : forall h p ext, Inv h (p :: ext) -> pos h < f -> exists h', destroy f h p = Ok h' /\ Inv h' ext /\ dz h h') :
  forall l h ext, Inv h (l ++ ext) -> pos h < f -> exists h', each (destroy f) h l = Ok h' /\ Inv h' ext /\ dz h h'.
Proof.
  induction l as [|p l IHl]; intros h ext I P.
  - exists h. auto using dz_refl.
  - simpl in I. destruct (IH h p (l ++ ext) I P) as (h1 & E1 & I1 & D1).
    destruct (IHl h1 ext I1) as (h2 & E2 & I2 & D2). { pose proof (pos_dz D1). lia. }
    exists h2. simpl. rewrite E1. simpl. split; auto. split; auto. eapply dz_trans; eauto.
Qed.

Lemma destroy_spec : forall f h p ext, Inv h (p :: ext) -> pos h < f -> exists h', destroy f h p = Ok h' /\ Inv h' ext /\ dz h h'.
Proof.
  induction f as [|f IH]; intros h p ext I P; [lia|].
  assert (Hn : (forall m, p <> PObj m) -> exists h', Ok h = Ok h' /\ Inv h' ext /\ dz h h').
  { intros N. exists h. split; auto. split; [|apply dz_refl]. eapply inv_perm; [|exact I]. intros n. now apply cnt_nonobj. }
  destruct p as [| |n]; simpl; try (apply Hn; congruence). clear Hn.
  destruct (in_live n I (or_introl eq_refl)) as (o & E & F & R).
  pose proof (nth_lt _ _ E) as L.
  rewrite (geto_live _ _ E F). simpl rbind.
  set (o1 := mkObj (o_ref o - 1) false (o_body o)). set (h1 := upd h n o1).
  assert (E1 : nth_error h1 n = Some o1) by (now apply nth_upd_same).
  destruct (Z.ltb_spec 0 (o_ref o - 1)) as [Q|Q].
  - exists h1. split; auto. split.
    + eapply inv_upd; eauto.
      * intros m N. rewrite !contrib_pos by (simpl; lia). rewrite cnt_other by auto. reflexivity.
      * rewrite !contrib_pos by (simpl; lia). rewrite cnt_self. simpl. lia.
      * simpl; congruence.
      * apply (i_ok I _ E).
    + split; [apply upd_length|]. intros m x Ex. destruct (Nat.eq_dec m n) as [->|N].
      * rewrite E in Ex. inversion Ex; subst x. exists o1. rewrite E1. repeat split; simpl; auto; try lia; congruence.
      * unfold h1. rewrite nth_upd_other by auto. exists x. repeat split; auto; try lia; congruence.
  - assert (R1 : o_ref o = 1%Z) by lia.
    destruct (released_ok n _ (i_ok I _ E)) as (l & El & Cl). rewrite El. simpl rbind.
    assert (I1 : Inv h1 (l ++ ext)).
    { eapply inv_upd; eauto.
      - intros m N. rewrite (contrib_pos m o) by lia. rewrite (contrib_zero m o1) by (simpl; lia). rewrite cnt_other, cnt_app by auto.
        simpl. rewrite Cl. lia.
      - rewrite (contrib_pos n o) by lia. rewrite (contrib_zero n o1) by (simpl; lia). rewrite cnt_self, cnt_app. simpl. rewrite Cl. lia.
      - simpl. congruence.
      - apply (i_ok I _ E). }
    assert (P1 : pos h1 < f). { assert (S (pos h1) = pos h) by (eapply pos_upd; eauto; simpl; lia). lia. }
    destruct (@each_spec f IH l h1 ext I1 P1) as (h2 & E2 & I2 & D2). rewrite E2. simpl rbind.
    destruct (dz_at D2 _ E1) as (o2 & Eo2 & B2 & Z2 & _).
    assert (o2 = o1) by (apply Z2; simpl; lia). subst o2.
    rewrite (geto_live _ _ Eo2 eq_refl). simpl rbind.
    eexists. split; [reflexivity|]. split.
    + apply (@inv_upd h2 ext ext n o1); auto; simpl.
      * lia.
      * apply (i_ok I _ E).
    + split. { rewrite upd_length, (dz_len D2). unfold h1. apply upd_length. }
      intros m x Ex. destruct (Nat.eq_dec m n) as [->|N].
      * rewrite E in Ex. inversion Ex; subst x. eexists. split; [apply nth_upd_same; now apply nth_lt in Eo2|].
        simpl. repeat split; auto; try lia.
      * rewrite nth_upd_other by auto. apply (dz_at D2). unfold h1. now rewrite nth_upd_other.
Qed.
Lemma destroy_ok h p ext : Inv h (p :: ext) -> exists h', destroy_ h p = Ok h' /\ Inv h' ext /\ dz h h'.
Proof. intros I. apply destroy_spec; auto. pose proof (pos_le h). lia. Qed.
(** not the last reference *)
Lemma destroy_temp h n ext : Inv h (PObj n :: ext) -> 1 <= cnt n ext + sumc h n ->
  exists o, nth_error h n = Some o /\ o_freed o = false /\ destroy_ h (PObj n) = Ok (upd h n (mkObj (o_ref o - 1) false (o_body o))) /\
  (1 < o_ref o)%Z /\ Inv (upd h n (mkObj (o_ref o - 1) false (o_body o))) ext.
Proof.
  intros I T. destruct (in_live n I (or_introl eq_refl)) as (o & E & F & R). exists o. split; auto. split; auto.
  pose proof (i_cnt I _ E) as C. rewrite cnt_self in C.
  destruct (destroy_ok I) as (h' & D & I' & _). unfold destroy_ in *. simpl in *. rewrite (geto_live _ _ E F) in *. simpl in *.
  rewrite (proj2 (Z.ltb_lt 0 (o_ref o - 1))) in * by lia. inversion D; subst. split; auto. split; auto. lia.
Qed.
