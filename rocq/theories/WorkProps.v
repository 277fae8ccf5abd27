(** * Properties C24 and C25: work vectors and delegates *)
From Coq Require Import List ZArith Lia Bool Arith String Ascii.
From Verif Require Import Prelude RstrModel StrModel WorkModel.
Import ListNotations.
Local Open Scope nat_scope.

(** ** C24 *)
(** the vector [v] is kept by the pool, with length [len] *)
Definition kept (st : wst) (v : nat) (len : Z) : Prop := exists s, In s (w_slots st) /\ s_id s = v /\ s_len s = len.
(** A state reached by a user that has a handle, restores only vectors handed out and destroys only handles it has:
    vectors outstanding with their lengths, number of handles, and the outstanding vectors of all past states *)
Inductive reach (deleg : bool) : wst -> list (nat * Z) -> nat -> list (list (nat * Z)) -> Prop :=
| r_init : reach deleg w_init [] 1 [[]]
| r_get : forall st out h tr len st' v vlen, reach deleg st out h tr -> 0 < h -> w_get deleg st len = Ok (st', v) ->
    kept st' v vlen -> reach deleg st' ((v, vlen) :: out) h (((v, vlen) :: out) :: tr)
| r_restore : forall st out1 v vlen out2 h tr st', reach deleg st (out1 ++ (v, vlen) :: out2) h tr -> 0 < h -> w_restore st v = Ok st' ->
    reach deleg st' (out1 ++ out2) h ((out1 ++ out2) :: tr)
| r_ref : forall st out h tr st', reach deleg st out h tr -> 0 < h -> w_ref st = Ok st' -> reach deleg st' out (S h) (out :: tr)
| r_destroy : forall st out h tr st', reach deleg st out (S h) tr -> w_destroy deleg st = Ok st' -> reach deleg st' out h (out :: tr).

Definition count (l : Z) (out : list (nat * Z)) : nat := List.length (filter (fun x => (l <=? snd x)%Z) out).
Definition exact (l : Z) (ss : list slot) : nat := List.length (filter (fun s => (s_len s =? l)%Z) ss).

(** *** Invariant *)
Record winv (st : wst) (out : list (nat * Z)) (h : nat) (tr : list (list (nat * Z))) : Prop := {
  wi_free : w_freed st = true <-> (h = 0 /\ out = []);
  wi_empty : w_freed st = true -> w_slots st = [];
  wi_rc : w_rc st = (Z.of_nat h + Z.of_nat (List.length out))%Z;
  wi_nd : NoDup (map s_id (w_slots st));
  wi_lt : forall s, In s (w_slots st) -> s_id s < w_next st;
  wi_vrc : forall s, In s (w_slots st) -> s_rc s = (if s_use s then 2 else 1)%Z;
  wi_out : NoDup (map fst out);
  wi_use : forall v len, In (v, len) out <-> exists s, In s (w_slots st) /\ s_id s = v /\ s_len s = len /\ s_use s = true;
  wi_max : List.length (w_slots st) <= w_max st /\ (w_slots st <> [] -> w_alloc st = true);
  wi_peak : forall l, exists o, In o tr /\ exact l (w_slots st) <= count l o;
  wi_tr : In out tr }.

Lemma find_idx_Some : forall f l i, find_idx f l = Some i -> exists s, nth_error l i = Some s /\ f s = true.
Proof.
  intros f. induction l as [|a l IH]; intros i H; [discriminate|]. simpl in H. destruct (f a) eqn:E; [injection H as <-; simpl; eauto|].
  destruct (find_idx f l) as [j|]; [|discriminate]. injection H as <-. simpl. apply IH. reflexivity.
Qed.
Lemma find_idx_None : forall f l, find_idx f l = None -> forall s, In s l -> f s = false.
Proof.
  intros f. induction l as [|a l IH]; intros H s [ ]. 
  - subst. simpl in H. destruct (f s) eqn:E; [discriminate|reflexivity].
  - simpl in H. destruct (f a); [discriminate|]. destruct (find_idx f l); [discriminate|]. auto.
Qed.
Lemma split_at : forall (l : list slot) i s, nth_error l i = Some s -> exists a b, l = a ++ s :: b /\ forall s', set_slot l i s' = a ++ s' :: b.
Proof.
  intros l i s H. destruct (nth_error_split l i H) as (a & b & -> & L). exists a, b. split; auto. intros s'. unfold set_slot.
  rewrite <- L, firstn_app, Nat.sub_diag, firstn_all. cbn [firstn]. rewrite app_nil_r. f_equal. f_equal. rewrite skipn_app. rewrite skipn_all2 by lia. replace (S (List.length a) - List.length a) with 1 by lia. reflexivity.
Qed.
Lemma id_inj : forall l s s', NoDup (map s_id l) -> In s l -> In s' l -> s_id s = s_id s' -> s = s'.
Proof.
  induction l as [|a l IH]; intros s s' N H1 H2 E; [contradiction|]. simpl in N. inversion N as [|? ? Hn N']; subst.
  destruct H1 as [->|H1], H2 as [->|H2]; auto.
  - exfalso. apply Hn. rewrite E. apply in_map. auto.
  - exfalso. apply Hn. rewrite <- E. apply in_map. auto.
Qed.
Lemma exact_app : forall l a b, exact l (a ++ b) = exact l a + exact l b.
Proof. intros. unfold exact. now rewrite filter_app, app_length. Qed.
Lemma nodup_app_elt : forall A (a b : list A) x, NoDup (a ++ x :: b) -> ~ In x (a ++ b) /\ NoDup (a ++ b).
Proof. intros A a b x H. split; [now apply NoDup_remove_2|now apply NoDup_remove_1 in H]. Qed.

(** outstanding vectors at least [l] long are as many as the entries in use at least [l] long *)
Lemma incl_count : forall l ss out, NoDup (map s_id ss) -> (forall s, In s ss -> (l <= s_len s)%Z -> exists len, In (s_id s, len) out /\ len = s_len s) ->
  List.length (filter (fun s => (l <=? s_len s)%Z) ss) <= count l out.
Proof.
  intros l ss out N H. unfold count. rewrite <- (map_length (fun s => (s_id s, s_len s)) (filter _ ss)). apply NoDup_incl_length.
  - assert (G : forall f, NoDup (map (fun s => (s_id s, s_len s)) (filter f ss))).
    { intros f. clear H. induction ss as [|a ss IH]; simpl; [constructor|]. simpl in N. inversion N; subst. destruct (f a); simpl; auto. constructor; auto. intros G. apply in_map_iff in G as (b & E & G). apply filter_In in G as [G _]. injection E as E1 E2. apply H1. rewrite <- E1. apply in_map. auto. }
    apply G.
  - intros x G. apply in_map_iff in G as (s & <- & G). apply filter_In in G as [G1 G2]. apply Z.leb_le in G2. destruct (H s G1 G2) as (len & G3 & ->). apply filter_In. split; auto. simpl. now apply Z.leb_le.
Qed.

Lemma inv_init : winv w_init [] 1 [[]].
Proof.
  split; simpl; auto.
  - split; [discriminate|]. intros [X _]; discriminate.
  - constructor.
  - intros s [].
  - intros s [].
  - constructor.
  - intros v len. split; [intros []|]. intros (s & [] & _).
  - intros l. exists []. split; auto.
Qed.
Lemma alive : forall st out h tr, winv st out h tr -> 0 < h \/ out <> [] -> w_freed st = false.
Proof. intros st out h tr I H. destruct (w_freed st) eqn:E; auto. apply (wi_free _ _ _ _ I) in E as [-> ->]. destruct H as [H|H]; [lia|congruence]. Qed.

(** marking a free entry as handed out *)
Lemma inv_take : forall st out h tr st' i s, winv st out h tr -> w_freed st = false -> w_alloc st = true -> nth_error (w_slots st) i = Some s -> s_use s = false ->
  st' = W (w_alloc st) (set_slot (w_slots st) i (Slot (s_id s) (s_len s) (s_rc s + 1)%Z true)) (w_max st) (w_next st) (w_rc st + 1)%Z (w_drc st) false ->
  0 < h \/ out <> [] ->
  winv st' ((s_id s, s_len s) :: out) h (((s_id s, s_len s) :: out) :: tr) /\ ~ In (s_id s) (map fst out) /\ kept st' (s_id s) (s_len s)
  /\ map (fun x => (s_id x, s_len x)) (w_slots st') = map (fun x => (s_id x, s_len x)) (w_slots st).
Proof.
  intros st out h tr st' i s I Fr Al Hn Hu -> Ha. destruct (split_at _ _ _ Hn) as (a & b & E & Es). rewrite Es.
  assert (Is : In s (w_slots st)) by (rewrite E; apply in_elt).
  assert (No : ~ In (s_id s) (map fst out)).
  { intros G. apply in_map_iff in G as ((v & len) & Ev & G). simpl in Ev. subst v. apply (wi_use _ _ _ _ I) in G as (s' & I' & E1 & E2 & E3). rewrite (id_inj _ _ _ (wi_nd _ _ _ _ I) I' Is E1) in E3. congruence. }
  assert (Nd : NoDup (map s_id (a ++ Slot (s_id s) (s_len s) (s_rc s + 1) true :: b))). { pose proof (wi_nd _ _ _ _ I) as N. rewrite E in N. rewrite map_app in *. exact N. }
  assert (In' : forall x, In x (a ++ b) -> In x (w_slots st)) by (intros x G; rewrite E; apply in_app_iff in G; apply in_app_iff; simpl; tauto).
  split; [|split; [exact No|split]].
  - split; simpl; auto.
    + split; [discriminate|]. intros [_ G]; discriminate.
    + discriminate.
    + rewrite (wi_rc _ _ _ _ I). lia.
    + intros x G. apply in_app_iff in G. destruct G as [G|[<-|G]]; [apply (wi_lt _ _ _ _ I), In', in_app_iff; auto|apply (wi_lt _ _ _ _ I _ Is)|apply (wi_lt _ _ _ _ I), In', in_app_iff; auto].
    + intros x G. apply in_app_iff in G. destruct G as [G|[<-|G]]; [apply (wi_vrc _ _ _ _ I), In', in_app_iff; auto| |apply (wi_vrc _ _ _ _ I), In', in_app_iff; auto]. simpl. rewrite (wi_vrc _ _ _ _ I _ Is), Hu. reflexivity.
    + constructor; [exact No|apply (wi_out _ _ _ _ I)].
    + intros v len. split.
      * intros [G|G]; [injection G as <- <-; exists (Slot (s_id s) (s_len s) (s_rc s + 1) true); split; [apply in_elt|auto]|].
        assert (Nv : v <> s_id s) by (intros ->; apply No; apply in_map_iff; exists (s_id s, len); auto).
        apply (wi_use _ _ _ _ I) in G as (s' & I' & E1 & E2 & E3). exists s'. split; auto. rewrite E in I'. apply in_app_iff in I' as [I'|[I'|I']]; apply in_app_iff; simpl; auto. subst s'. congruence.
      * intros (s' & I' & E1 & E2 & E3). apply in_app_iff in I' as [I'|[I'|I']].
        -- right. apply (wi_use _ _ _ _ I). exists s'. repeat split; auto. apply In', in_app_iff. auto.
        -- left. subst s'. simpl in *. congruence.
        -- right. apply (wi_use _ _ _ _ I). exists s'. repeat split; auto. apply In', in_app_iff. auto.
    + pose proof (wi_max _ _ _ _ I) as [M _]. rewrite E in M. rewrite app_length in *. simpl in *. split; auto.
    + intros l. destruct (wi_peak _ _ _ _ I l) as (o & Ho & Le). exists o. split; auto. rewrite E in Le. rewrite exact_app in *. unfold exact in *. cbn [filter s_len] in *. destruct (s_len s =? l)%Z; exact Le.
  - exists (Slot (s_id s) (s_len s) (s_rc s + 1) true). split; [apply in_elt|auto].
  - simpl. rewrite E, !map_app. reflexivity.
Qed.

Lemma inv_get : forall st out h tr len, winv st out h tr -> 0 < h \/ out <> [] ->
  exists st' v vlen, w_get false st len = Ok (st', v) /\ kept st' v vlen /\ (len <= vlen)%Z /\ ~ In v (map fst out)
    /\ winv st' ((v, vlen) :: out) h (((v, vlen) :: out) :: tr)
    /\ ((exists w wlen, kept st w wlen /\ (len <= wlen)%Z /\ ~ In w (map fst out)) ->
        map (fun x => (s_id x, s_len x)) (w_slots st') = map (fun x => (s_id x, s_len x)) (w_slots st)).
Proof.
  intros st out h tr len I Ha. pose proof (alive _ _ _ _ I Ha) as Fr. unfold w_get. rewrite Fr. cbn [w_slots w_max w_next w_rc w_drc w_alloc w_freed].
  assert (I0 : winv (W true (w_slots st) (w_max st) (w_next st) (w_rc st) (w_drc st) false) out h tr).
  { destruct I. split; simpl; auto. - rewrite <- wi_free0, Fr. tauto. - discriminate. - destruct wi_max0; auto. }
  destruct (find_idx (fits len) (w_slots st)) as [i|] eqn:Ef.
  - destruct (find_idx_Some _ _ _ Ef) as (s & Hn & Hf). unfold fits in Hf. apply andb_prop in Hf as [Hu Hl]. apply negb_true_iff in Hu. apply Z.leb_le in Hl. simpl. rewrite Hn.
    destruct (inv_take _ _ _ _ _ i s I0 eq_refl eq_refl Hn Hu eq_refl Ha) as (J & No & K & M). cbn [w_alloc w_slots w_max w_next w_rc w_drc] in *.
    eexists _, _, _. split; [reflexivity|]. split; [exact K|]. split; [exact Hl|]. split; [exact No|]. split; [exact J|]. intros _. exact M.
  - pose proof (find_idx_None _ _ Ef) as Hno. unfold w_grow. cbn [w_slots w_max w_next w_rc w_drc w_alloc w_freed].
    set (n := List.length (w_slots st)). set (mx := if w_max st =? 0 then 1 else if w_max st =? n then w_max st * 2 else w_max st).
    assert (Lm : n < mx). { pose proof (proj1 (wi_max _ _ _ _ I)) as M. fold n in M. unfold mx. destruct (Nat.eqb_spec (w_max st) 0); [lia|]. destruct (Nat.eqb_spec (w_max st) n); lia. }
    assert (Lm' : (mx <=? n) = false) by (apply Nat.leb_gt; auto). rewrite Lm'. simpl.
    set (s := Slot (w_next st) len 1 false).
    assert (Hn : nth_error (w_slots st ++ [s]) n = Some s) by (rewrite nth_error_app2 by (unfold n; lia); unfold n; rewrite Nat.sub_diag; reflexivity).
    rewrite Hn.
    assert (All : forall x, In x (w_slots st) -> (len <= s_len x)%Z -> s_use x = true). { intros x G L. specialize (Hno x G). unfold fits in Hno. apply andb_false_iff in Hno as [Hno|Hno]; [now apply negb_false_iff in Hno|apply Z.leb_gt in Hno; lia]. }
    (* state with the new entry, still free: the peak statement is restored by the entry that is taken *)
    set (st1 := W true (w_slots st ++ [s]) mx (S (w_next st)) (w_rc st + 1 - 1)%Z (w_drc st) false).
    set (out' := (w_next st, len) :: out).
    assert (I1 : winv st1 out h (out' :: tr)).
    { destruct I as [f e rc nd lt vrc ou us mxx pk tr0]. split; unfold st1; cbn [w_alloc w_slots w_max w_next w_rc w_drc w_freed].
      - rewrite <- f, Fr. tauto.
      - discriminate.
      - lia.
      - rewrite map_app. cbn [map]. apply NoDup_rev in nd. rewrite <- (rev_involutive (map s_id (w_slots st) ++ [s_id s])). apply NoDup_rev. rewrite rev_app_distr. cbn [rev app]. constructor; auto. rewrite <- in_rev. intros G. apply in_map_iff in G as (x & E & G). apply lt in G. simpl in E. lia.
      - intros x G. apply in_app_iff in G as [G|[<-|[]]]; [apply lt in G; lia|simpl; lia].
      - intros x G. apply in_app_iff in G as [G|[<-|[]]]; [apply vrc; auto|reflexivity].
      - exact ou.
      - intros v l. rewrite us. split; intros (x & G & R); [exists x; split; auto; apply in_app_iff; auto|]. apply in_app_iff in G as [G|[<-|[]]]; [eauto|]. destruct R as (_ & _ & R). discriminate.
      - rewrite app_length. simpl. fold n. split; [lia|auto].
      - intros l. destruct (Z.eq_dec l len) as [->|Ne].
        + exists out'. split; [left; reflexivity|]. rewrite exact_app. unfold exact at 2. simpl. rewrite Z.eqb_refl. simpl.
          assert (C1 : count len out' = S (count len out)) by (unfold count, out'; simpl; rewrite Z.leb_refl; reflexivity). rewrite C1.
          assert (Le : exact len (w_slots st) <= count len out); [|lia].
          eapply Nat.le_trans; [|apply (incl_count len (w_slots st) out nd)].
          * unfold exact. clear. induction (w_slots st) as [|a l IH]; simpl; auto. destruct (Z.eqb_spec (s_len a) len); destruct (Z.leb_spec len (s_len a)); simpl; lia.
          * intros x G L. exists (s_len x). split; auto. apply us. exists x. repeat split; auto.
        + destruct (pk l) as (o & Ho & Le). exists o. split; [right; auto|]. rewrite exact_app. unfold exact at 2. simpl. destruct (Z.eqb_spec len l); [congruence|]. simpl. lia.
      - right. exact tr0. }
    destruct (inv_take st1 out h (out' :: tr) _ n s I1 eq_refl eq_refl Hn eq_refl eq_refl Ha) as (J & No & K & M). unfold st1 in *. cbn [w_alloc w_slots w_max w_next w_rc w_drc s_id s_len s_rc s] in *.
    eexists _, (w_next st), len. split; [reflexivity|]. split; [exact K|]. split; [lia|]. split; [exact No|]. split.
    + destruct J as [f e rc nd lt vrc ou us mxx pk tr0]. split; auto; [|left; reflexivity]. intros l. destruct (pk l) as (o & Ho & Le). exists o. split; auto. simpl in Ho. simpl. destruct Ho as [Ho|[Ho|Ho]]; auto.
    + intros (w & wlen & (x & G & E1 & E2) & L & Nw). exfalso. apply Nw. apply in_map_iff. exists (w, wlen). split; auto. apply (wi_use _ _ _ _ I). exists x. repeat split; auto. apply All; auto. lia.
Qed.

Lemma find_id : forall l s, NoDup (map s_id l) -> In s l -> exists i, find_idx (fun x => s_id x =? s_id s) l = Some i /\ nth_error l i = Some s.
Proof.
  intros l s N H. destruct (find_idx (fun x => s_id x =? s_id s) l) as [i|] eqn:E.
  - exists i. split; auto. destruct (find_idx_Some _ _ _ E) as (x & Hn & Hx). apply Nat.eqb_eq in Hx. rewrite Hn. f_equal. eapply id_inj; eauto. eapply nth_error_In; eauto.
  - pose proof (find_idx_None _ _ E s H) as X. simpl in X. rewrite Nat.eqb_refl in X. discriminate.
Qed.
Lemma inv_restore : forall st out1 v vlen out2 h tr, winv st (out1 ++ (v, vlen) :: out2) h tr ->
  exists st', w_restore st v = Ok st' /\ (winv st' (out1 ++ out2) h ((out1 ++ out2) :: tr) \/ (h = 0 /\ out1 ++ out2 = [])) /\ w_slots st' <> [] /\ w_freed st' = false
    /\ map (fun x => (s_id x, s_len x)) (w_slots st') = map (fun x => (s_id x, s_len x)) (w_slots st).
Proof.
  intros st out1 v vlen out2 h tr I.
  assert (Fr : w_freed st = false). { apply (alive _ _ _ _ I). right. destruct out1; discriminate. }
  destruct (proj1 (wi_use _ _ _ _ I v vlen)) as (s & Is & Ev & El & Eu); [apply in_elt|].
  assert (Al : w_alloc st = true) by (apply (wi_max _ _ _ _ I); intros X; rewrite X in Is; destruct Is).
  unfold w_restore. rewrite Fr, Al. cbn [negb]. destruct (find_id _ s (wi_nd _ _ _ _ I) Is) as (i & Hf & Hn). rewrite Ev in Hf. rewrite Hf, Hn, Eu. cbn [negb].
  rewrite (wi_vrc _ _ _ _ I _ Is), Eu. change (2 - 1 <=? 0)%Z with false. cbv iota. destruct (split_at _ _ _ Hn) as (a & b & E & Es). rewrite Es.
  eexists. split; [reflexivity|]. cbn [w_slots w_freed]. split; [|split; [destruct a; discriminate|split; [reflexivity|rewrite E, !map_app; reflexivity]]].
  destruct (Nat.eq_dec h 0) as [->|Hh]; [destruct (out1 ++ out2) as [|x o] eqn:Eo; [right; auto|]|]; left.
  all: assert (In' : forall x, In x (a ++ b) -> In x (w_slots st)) by (intros x' G; rewrite E; apply in_app_iff in G; apply in_app_iff; simpl; tauto).
  all: assert (Nab : ~ In (s_id s) (map s_id (a ++ b))) by (pose proof (wi_nd _ _ _ _ I) as N; rewrite E, map_app in N; cbn [map] in N; rewrite map_app; apply (nodup_app_elt _ _ _ _ N)).
  all: assert (Lo : List.length (out1 ++ (v, vlen) :: out2) = S (List.length (out1 ++ out2))) by (rewrite !app_length; simpl; lia).
  all: assert (No : NoDup (map fst (out1 ++ out2)) /\ ~ In v (map fst (out1 ++ out2))) by (pose proof (wi_out _ _ _ _ I) as N; rewrite map_app in N; cbn [map fst] in N; rewrite map_app; apply nodup_app_elt in N; tauto).
  all: assert (Us : forall v0 len, In (v0, len) (out1 ++ out2) <-> exists s0, In s0 (a ++ {| s_id := s_id s; s_len := s_len s; s_rc := 2 - 1; s_use := false |} :: b) /\ s_id s0 = v0 /\ s_len s0 = len /\ s_use s0 = true).
  1,3: intros v0 len; split;
    [ intros G; assert (Nv : v0 <> v) by (intros ->; apply (proj2 No); apply in_map_iff; exists (v, len); auto);
      assert (G' : In (v0, len) (out1 ++ (v, vlen) :: out2)) by (apply in_app_iff in G; apply in_app_iff; simpl; tauto);
      apply (wi_use _ _ _ _ I) in G' as (s' & I' & E1 & E2 & E3); exists s'; split; auto; rewrite E in I'; apply in_app_iff in I' as [I'|[I'|I']]; apply in_app_iff; simpl; auto; subst s'; congruence
    | intros (s' & I' & E1 & E2 & E3);
      assert (Iab : In s' (a ++ b)) by (apply in_app_iff in I' as [I'|[I'|I']]; [apply in_app_iff; auto|subst s'; discriminate|apply in_app_iff; auto]);
      assert (G : In (v0, len) (out1 ++ (v, vlen) :: out2)) by (apply (wi_use _ _ _ _ I); exists s'; repeat split; auto);
      assert (Nv : v0 <> v) by (intros ->; apply Nab; rewrite <- E1 in Ev; rewrite Ev; apply in_map; auto);
      apply in_app_iff in G as [G|[G|G]]; [apply in_app_iff; auto|congruence|apply in_app_iff; auto] ].
  all: try rewrite <- Eo in *.
  all: split; simpl; auto.
  all: try (split; [discriminate|]; intros [X1 X2]; try lia; try (rewrite Eo in X2; discriminate); fail).
  all: try discriminate.
  all: try (rewrite (wi_rc _ _ _ _ I), Lo; lia).
  all: try (pose proof (wi_nd _ _ _ _ I) as N; rewrite E in N; rewrite map_app in *; exact N).
  all: try (intros x0 G; apply in_app_iff in G; destruct G as [G|[<-|G]]; [apply (wi_lt _ _ _ _ I), In', in_app_iff; auto|apply (wi_lt _ _ _ _ I _ Is)|apply (wi_lt _ _ _ _ I), In', in_app_iff; auto]; fail).
  all: try (intros x0 G; apply in_app_iff in G; destruct G as [G|[<-|G]]; [apply (wi_vrc _ _ _ _ I), In', in_app_iff; auto|reflexivity|apply (wi_vrc _ _ _ _ I), In', in_app_iff; auto]; fail).
  all: try apply No.
  all: try (pose proof (wi_max _ _ _ _ I) as [M _]; rewrite E in M; rewrite app_length in *; simpl in *; split; auto; fail).
  all: try (intros l; destruct (wi_peak _ _ _ _ I l) as (oo & Ho & Le); exists oo; split; auto; rewrite E in Le; rewrite exact_app in *; unfold exact in *; cbn [filter s_len] in *; destruct (s_len s =? l)%Z; exact Le).
Qed.

Lemma inv_ref : forall st out h tr, winv st out h tr -> 0 < h -> exists st', w_ref st = Ok st' /\ winv st' out (S h) (out :: tr) /\ w_slots st' = w_slots st.
Proof.
  intros st out h tr I Hh. assert (Fr := alive _ _ _ _ I (or_introl Hh)). unfold w_ref. rewrite Fr. eexists. split; [reflexivity|]. split; [|reflexivity]. destruct I as [f e rc nd lt vrc ou us mxx pk tr0]. split; cbn [w_alloc w_slots w_max w_next w_rc w_drc w_freed]; auto.
  - split; [discriminate|intros [X _]; discriminate].
  - discriminate.
  - lia.
  - intros l. destruct (pk l) as (o & Ho & Le). exists o. split; auto. right. auto.
  - left. reflexivity.
Qed.
Lemma inv_destroy : forall st out h tr, winv st out (S h) tr -> exists st', w_destroy false st = Ok st' /\ winv st' out h (out :: tr).
Proof.
  intros st out h tr I. assert (Fr := alive _ _ _ _ I (or_introl (Nat.lt_0_succ h))). unfold w_destroy. rewrite Fr. destruct I as [f e rc nd lt vrc ou us mxx pk tr0].
  destruct (Z.ltb_spec 0 (w_rc st - 1)).
  - eexists. split; [reflexivity|]. split; simpl; auto.
    + split; [discriminate|]. intros [-> ->]. simpl in *. lia.
    + discriminate.
    + lia.
    + intros l. destruct (pk l) as (o & Ho & Le). eauto.
  - assert (h = 0) by lia. assert (out = []) by (destruct out; auto; simpl in *; lia). subst.
    assert (Nu : existsb s_use (w_slots st) = false). { destruct (existsb s_use (w_slots st)) eqn:E; auto. apply existsb_exists in E as (s & Is & Es). exfalso. apply (proj2 (us (s_id s) (s_len s))). eauto. }
    rewrite Nu. eexists. split; [reflexivity|]. split; simpl; auto.
    + tauto.
    + simpl in rc. lia.
    + intros s [].
    + intros s [].
    + intros v len. split; [intros []|]. intros (s & [] & _).
    + intros l. exists []. split; auto.
Qed.
Lemma reach_inv : forall st out h tr, reach false st out h tr -> winv st out h tr.
Proof.
  intros st out h tr R. induction R as [|st out h tr len st' v vlen R IH Hh G K|st out1 v vlen out2 h tr st' R IH Hh G|st out h tr st' R IH Hh G|st out h tr st' R IH G].
  - apply inv_init.
  - destruct (inv_get _ _ _ _ len IH (or_introl Hh)) as (st1 & v1 & vl & G1 & K1 & _ & No & J & _). rewrite G1 in G. injection G as <- <-.
    assert (vl = vlen); [|subst; exact J]. destruct K as (s & A & B & C), K1 as (s1 & A1 & B1 & C1). rewrite <- C, <- C1. f_equal. eapply id_inj; eauto; [apply (wi_nd _ _ _ _ J)|congruence].
  - destruct (inv_restore _ _ _ _ _ _ _ IH) as (st1 & G1 & [J|[J _]] & _); [|lia]. rewrite G1 in G. injection G as <-. exact J.
  - destruct (inv_ref _ _ _ _ IH Hh) as (st1 & G1 & J & _). rewrite G1 in G. injection G as <-. exact J.
  - destruct (inv_destroy _ _ _ _ IH) as (st1 & G1 & J). rewrite G1 in G. injection G as <-. exact J.
Qed.

(** A request never fails; the vector given is long enough and nobody else has it; if the pool keeps a free vector that is
    long enough, no vector is created. *)
Theorem C24_get : forall st out h tr len, reach false st out h tr -> 0 < h ->
  exists st' v vlen, w_get false st len = Ok (st', v) /\ kept st' v vlen /\ (len <= vlen)%Z /\ ~ In v (map fst out)
    /\ ((exists w wlen, kept st w wlen /\ (len <= wlen)%Z /\ ~ In w (map fst out)) -> forall w wlen, kept st' w wlen <-> kept st w wlen).
Proof.
  intros st out h tr len R Hh. destruct (inv_get _ _ _ _ len (reach_inv _ _ _ _ R) (or_introl Hh)) as (st' & v & vlen & G & K & L & No & J & M).
  exists st', v, vlen. repeat split; auto; intros (s & A & B & C); specialize (M H); unfold kept.
  - assert (X : In (w, wlen) (map (fun x => (s_id x, s_len x)) (w_slots st'))) by (apply in_map_iff; exists s; split; auto; congruence). rewrite M in X. apply in_map_iff in X as (s' & E & I'). injection E as E1 E2. eauto.
  - assert (X : In (w, wlen) (map (fun x => (s_id x, s_len x)) (w_slots st))) by (apply in_map_iff; exists s; split; auto; congruence). rewrite <- M in X. apply in_map_iff in X as (s' & E & I'). injection E as E1 E2. eauto.
Qed.
(** Restoring: exactly the vectors handed out are accepted; afterwards the vector is kept and free. *)
Theorem C24_restore : forall st out h tr v, reach false st out h tr -> 0 < h -> w_alloc st = true ->
  (In v (map fst out) -> exists st', w_restore st v = Ok st' /\ (forall w wlen, kept st' w wlen <-> kept st w wlen))
  /\ (~ In v (map fst out) -> w_restore st v = Err (if existsb (fun s => s_id s =? v) (w_slots st) then ERR_ACCESS else ERR_MAJOR)).
Proof.
  intros st out h tr v R Hh Al. pose proof (reach_inv _ _ _ _ R) as I. split.
  - intros G. apply in_map_iff in G as ((v' & vlen) & E & G). simpl in E. subst v'. apply in_split in G as (o1 & o2 & ->).
    destruct (inv_restore _ _ _ _ _ _ _ I) as (st' & E & _ & _ & _ & M). exists st'. split; auto. intros w wlen. unfold kept. split; intros (s & A & B & C).
    + assert (X : In (w, wlen) (map (fun x => (s_id x, s_len x)) (w_slots st'))) by (apply in_map_iff; exists s; split; auto; congruence). rewrite M in X. apply in_map_iff in X as (s' & E' & I'). injection E' as E1 E2. eauto.
    + assert (X : In (w, wlen) (map (fun x => (s_id x, s_len x)) (w_slots st))) by (apply in_map_iff; exists s; split; auto; congruence). rewrite <- M in X. apply in_map_iff in X as (s' & E' & I'). injection E' as E1 E2. eauto.
  - intros G. unfold w_restore. rewrite (alive _ _ _ _ I (or_introl Hh)), Al. cbn [negb]. destruct (find_idx (fun s => s_id s =? v) (w_slots st)) as [i|] eqn:Ef.
    + destruct (find_idx_Some _ _ _ Ef) as (s & Hn & Hs). rewrite Hn. apply Nat.eqb_eq in Hs. assert (Is := nth_error_In _ _ Hn).
      assert (Eu : s_use s = false). { destruct (s_use s) eqn:Eu; auto. exfalso. apply G. apply in_map_iff. exists (v, s_len s). split; auto. apply (wi_use _ _ _ _ I). exists s. auto. }
      rewrite Eu. cbn [negb]. assert (X : existsb (fun s => s_id s =? v) (w_slots st) = true) by (apply existsb_exists; exists s; split; auto; now apply Nat.eqb_eq). now rewrite X.
    + assert (X : existsb (fun s => s_id s =? v) (w_slots st) = false). { destruct (existsb _ _) eqn:X; auto. apply existsb_exists in X as (s & Is & Es). rewrite (find_idx_None _ _ Ef s Is) in Es. discriminate. } now rewrite X.
Qed.
(** For every length, the vectors kept of exactly this length were once needed at the same time: some past state had at least
    that many vectors of at least this length outstanding. *)
Theorem C24_bound : forall st out h tr l, reach false st out h tr ->
  exists past, In past tr /\ List.length (filter (fun s => (s_len s =? l)%Z) (w_slots st)) <= List.length (filter (fun x => (l <=? snd x)%Z) past).
Proof. intros st out h tr l R. exact (wi_peak _ _ _ _ (reach_inv _ _ _ _ R) l). Qed.
(** The context lives as long as a handle or an outstanding work vector; the last handle frees it with all vectors kept. *)
Theorem C24_context : forall st out h tr, reach false st out (S h) tr ->
  exists st', w_destroy false st = Ok st' /\ (w_freed st' = true <-> h = 0 /\ out = []) /\ (w_freed st' = true -> w_slots st' = []).
Proof.
  intros st out h tr R. destruct (inv_destroy _ _ _ _ (reach_inv _ _ _ _ R)) as (st' & E & J). exists st'. split; auto. split; [apply (wi_free _ _ _ _ J)|apply (wi_empty _ _ _ _ J)].
Qed.
(** Finding: a context whose vectors are made by its delegate loses one of its own references for every work vector created.
    After one request and restore, a second handle made and destroyed frees the context under the first handle. *)
Theorem C24_delegate_refuted : exists st tr, reach true st [] 1 tr /\ w_freed st = true.
Proof.
  pose proof (r_init true) as R0.
  pose proof (r_get true _ _ _ _ 10%Z _ _ 10%Z R0 Nat.lt_0_1 eq_refl ltac:(eexists; split; [left; reflexivity|split; reflexivity])) as R1. cbv in R1.
  pose proof (r_restore true _ [] _ _ [] _ _ _ R1 Nat.lt_0_1 eq_refl) as R2. cbv in R2.
  pose proof (r_ref true _ _ _ _ _ R2 Nat.lt_0_1 eq_refl) as R3. cbv in R3.
  pose proof (r_destroy true _ _ _ _ _ R3 eq_refl) as R4. cbv in R4.
  eexists. eexists. split; [exact R4|]. reflexivity.
Qed.
(** Finding: restoring before any request reads through a null pointer *)
Theorem C24_restore_first_refuted : forall v, w_restore w_init v = UB.
Proof. reflexivity. Qed.
(** Finding: the bound fails over all lengths together: requests of growing length, one at a time, keep a vector each *)
Theorem C24_growing_refuted : exists st tr, reach false st [] 1 tr /\ List.length (w_slots st) = 3 /\ forall o, In o tr -> List.length o <= 1.
Proof.
  pose proof (r_init false) as R0.
  pose proof (r_get false _ _ _ _ 10%Z _ _ 10%Z R0 Nat.lt_0_1 eq_refl ltac:(eexists; split; [left; reflexivity|split; reflexivity])) as R1. cbv in R1.
  pose proof (r_restore false _ [] _ _ [] _ _ _ R1 Nat.lt_0_1 eq_refl) as R2. cbv in R2.
  pose proof (r_get false _ _ _ _ 20%Z _ _ 20%Z R2 Nat.lt_0_1 eq_refl ltac:(eexists; split; [right; left; reflexivity|split; reflexivity])) as R3. cbv in R3.
  pose proof (r_restore false _ [] _ _ [] _ _ _ R3 Nat.lt_0_1 eq_refl) as R4. cbv in R4.
  pose proof (r_get false _ _ _ _ 30%Z _ _ 30%Z R4 Nat.lt_0_1 eq_refl ltac:(eexists; split; [right; right; left; reflexivity|split; reflexivity])) as R5. cbv in R5.
  pose proof (r_restore false _ [] _ _ [] _ _ _ R5 Nat.lt_0_1 eq_refl) as R6. cbv in R6.
  eexists. eexists. split; [exact R6|]. split; [reflexivity|].
  simpl. intros o H. repeat destruct H as [<-|H]; simpl; auto. contradiction.
Qed.
(** the hypotheses are met by a state with two vectors out, one of them reused *)
Example C24_ex : exists st tr, reach false st [(0, 20%Z); (1, 5%Z)] 1 tr /\ w_slots st = [Slot 0 20 2 true; Slot 1 5 2 true] /\ w_rc st = 3%Z.
Proof.
  pose proof (r_init false) as R0.
  pose proof (r_get false _ _ _ _ 20%Z _ _ 20%Z R0 Nat.lt_0_1 eq_refl ltac:(eexists; split; [left; reflexivity|split; reflexivity])) as R1. cbv in R1.
  pose proof (r_get false _ _ _ _ 5%Z _ _ 5%Z R1 Nat.lt_0_1 eq_refl ltac:(eexists; split; [right; left; reflexivity|split; reflexivity])) as R2. cbv in R2.
  pose proof (r_restore false _ [(1, 5%Z)] _ _ [] _ _ _ R2 Nat.lt_0_1 eq_refl) as R3. cbv in R3.
  pose proof (r_get false _ _ _ _ 7%Z _ _ 20%Z R3 Nat.lt_0_1 eq_refl ltac:(eexists; split; [left; reflexivity|split; reflexivity])) as R4. cbv in R4.
  eexists. eexists. split; [exact R4|]. split; reflexivity.
Qed.
Print Assumptions C24_get.
Print Assumptions C24_restore.
Print Assumptions C24_bound.
Print Assumptions C24_context.
Print Assumptions C24_delegate_refuted.
Print Assumptions C24_restore_first_refuted.
Print Assumptions C24_growing_refuted.

(** ** C25 *)
(** a history of registrations: [None] sets the default delegate, [Some name] one for objects of that name *)
Fixpoint register (d : dst) (l : list (option str * nat)) : res dst :=
  match l with
  | [] => Ok d
  | (None, x) :: l' => register (set_delegate d x) l'
  | (Some name, x) :: l' => match set_obj_delegate d x name with Ok d' => register d' l' | Err c => Err c | UB => UB end
  end.
(** what the registrations say about an object name *)
Fixpoint latest (l : list (option str * nat)) (acc : option nat) : option nat :=
  match l with [] => acc | (None, x) :: l' => latest l' (Some x) | _ :: l' => latest l' acc end.
Definition wanted (l : list (option str * nat)) (name : str) : option nat :=
  match find (fun r => match fst r with Some n => seqb name n | None => false end) l with
  | Some r => Some (snd r)
  | None => latest l None
  end.
Definition nobj (l : list (option str * nat)) : nat := List.length (filter (fun r => match fst r with Some _ => true | None => false end) l).

Lemma register_gen : forall l d, nobj l + List.length (d_objs d) <= 1 ->
  exists d', register d l = Ok d' /\ d_default d' = latest l (d_default d)
    /\ d_objs d' = d_objs d ++ flat_map (fun r => match fst r with Some n => [(n, snd r)] | None => [] end) l.
Proof.
  induction l as [|[[name|] x] l IH]; intros d H.
  - exists d. simpl. now rewrite app_nil_r.
  - simpl in H. unfold nobj in *. simpl in H. simpl. unfold set_obj_delegate. destruct (d_objs d) eqn:E; [|simpl in H; lia].
    destruct (IH (D (d_default d) [(name, x)])) as (d' & A & B & C); [simpl in *; lia|]. exists d'. rewrite A. simpl in *. auto.
  - simpl. destruct (IH (set_delegate d x)) as (d' & A & B & C); [simpl; exact H|]. exists d'. auto.
Qed.
(** With at most one object delegate, lookup answers what was registered *)
Theorem C25_lookup : forall l, nobj l <= 1 -> exists d, register (D None []) l = Ok d /\ forall name, get_obj_delegate d name = wanted l name.
Proof.
  intros l H. destruct (register_gen l (D None [])) as (d & A & B & C); [simpl; lia|]. exists d. split; auto. intros name. unfold get_obj_delegate, get_delegate, wanted. rewrite B, C. cbn [d_objs d_default app] in *.
  assert (K : forall acc, nobj l <= 1 -> let os := flat_map (fun r => match fst r with Some n => [(n, snd r)] | None => [] end) l in
    match od_loop (List.length os) os name with Some r => r | None => acc end
    = match find (fun r => match fst r with Some n => seqb name n | None => false end) l with Some r => Some (snd r) | None => acc end).
  { clear. intros acc. induction l as [|[[n|] x] l IH]; intros H; [reflexivity| |].
    - unfold nobj in H. simpl in H. assert (Z : flat_map (fun r => match fst r with Some n => [(n, snd r)] | None => [] end) l = [] /\ forall f, find (fun r => match fst r with Some n => f n | None => false end) l = None).
      { clear - H. induction l as [|[[n|] x] l IH]; [auto|simpl in H; lia|simpl in *; auto]. }
      destruct Z as [Z1 Z2]. cbn [flat_map fst snd app]. rewrite Z1. simpl. destruct (seqb name n); [reflexivity|]. rewrite (Z2 (seqb name)). reflexivity.
    - simpl. apply IH. exact H. }
  apply K. exact H.
Qed.
Example C25_ex : nobj [(None, 1); (Some (lit "Basis"), 2); (None, 3)] <= 1
  /\ wanted [(None, 1); (Some (lit "Basis"), 2); (None, 3)] (lit "Basis") = Some 2 /\ wanted [(None, 1); (Some (lit "Basis"), 2); (None, 3)] (lit "Vector") = Some 3.
Proof. split; [vm_compute; lia|split; reflexivity]. Qed.
(** Finding: registering a second object delegate reads an uninitialised pointer *)
Theorem C25_second_refuted : forall d x y n m, d_objs d = [] -> register d [(Some n, x); (Some m, y)] = UB.
Proof. intros d x y n m H. simpl. unfold set_obj_delegate. rewrite H. reflexivity. Qed.
(** Finding: were it stored, the lookup would not find it *)
Theorem C25_lookup_refuted : forall n x m y dft, n <> m -> get_obj_delegate (D dft [(n, x); (m, y)]) m = dft.
Proof. intros n x m y dft H. unfold get_obj_delegate. simpl. assert (E : seqb m n = false) by (apply seqb_neq; congruence). now rewrite E. Qed.
Print Assumptions C25_lookup.
Print Assumptions C25_second_refuted.
Print Assumptions C25_lookup_refuted.
