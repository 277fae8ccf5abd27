(** * C65: queries on operators; C66: what an operator holds and releases *)
From Coq Require Import List ZArith Lia Bool Arith.
From Verif Require Import Prelude RstrModel BasisModel StrModel QfModel BuildModel BuildProofs FbModel QueModel QueProofs.
From Verif Require BuildProps.
Import ListNotations.
Local Open Scope Z_scope.

(** a field that is set, and the objects it was set with *)
Definition field (s : xop) (sd : bool) (i : nat) (h : hnd) : Prop := (exists f, x_slot s sd i = FSet f) /\ x_hnd s sd i = Some h.
(** the one object used by all active fields of a side *)
Definition sole (p : hnd -> option nat) (s : xop) (sd : bool) (a : option nat) : Prop :=
  (exists i h, field s sd i h /\ h_v h = VActive /\ p h = a) /\ (forall i h, field s sd i h -> h_v h = VActive -> p h = a).

(** ** The loops *)
Definition is_active (h : hnd) : bool := match h_v h with VActive => true | _ => false end.
Definition acts (p : hnd -> option nat) (l : list hnd) : list (option nat) := map p (filter is_active l).
Lemma acts_cons p h l : acts p (h :: l) = match h_v h with VActive => p h :: acts p l | _ => acts p l end.
Proof. unfold acts. cbn [filter]. unfold is_active at 1. destruct (h_v h); reflexivity. Qed.
Lemma scan_some p k l a c : exists r c', scan p k (map Some l) (Some a) c = (r, Some a, c') /\
  ((r = Ok tt /\ (forall b, In b (acts p l) -> b = a) /\ forall o, c' o = c o) \/
   (r = Err ERR_MINOR /\ exists b, In b (acts p l) /\ b <> a /\ forall o, c' o = c o + onep (option_map k b) o)).
Proof.
  revert c. induction l as [|h l IH]; intros c.
  - exists (Ok tt), c. split; [reflexivity|]. left. split; [reflexivity|]. split; [contradiction|reflexivity].
  - cbn [map scan]. rewrite !acts_cons. destruct (h_v h) eqn:V; cbn [v_obj take drop].
    2:{ destruct (on_eq_dec a (p h)) as [E|E].
        - destruct (IH (drop (take c (option_map k (p h))) (option_map k (p h)))) as (r & c' & E1 & D). exists r, c'. split; [exact E1|].
          destruct D as [(D1 & D2 & D3)|(D1 & b & D2 & D3 & D4)]; [left|right]; split; auto.
          + split; [intros b [<-|H]; auto|]. intros o. rewrite D3, drop_eq, take_eq. lia.
          + exists b. split; [right; exact D2|]. split; [exact D3|]. intros o. rewrite D4, drop_eq, take_eq. lia.
        - eexists. eexists. split; [reflexivity|]. right. split; [reflexivity|]. exists (p h). split; [left; reflexivity|]. split; [auto|]. intros o. rewrite take_eq. reflexivity. }
    + destruct (IH c) as (r & c' & E1 & D). exists r, c'. auto.
    + destruct (IH c) as (r & c' & E1 & D). exists r, c'. auto.
    + destruct (IH (add (add c (OVec v) 1) (OVec v) (-1))) as (r & c' & E1 & D). exists r, c'. split; [exact E1|].
      destruct D as [(D1 & D2 & D3)|(D1 & b & D2 & D3 & D4)]; [left|right]; split; auto.
      * split; [exact D2|]. intros o. rewrite D3, !add_eq. lia.
      * exists b. split; [exact D2|]. split; [exact D3|]. intros o. rewrite D4, !add_eq. lia.
Qed.
Lemma scan_none p k l c : exists r a c', scan p k (map Some l) None c = (r, a, c') /\
  ((r = Ok tt /\ exists b, a = Some b /\ In b (acts p l) /\ (forall b', In b' (acts p l) -> b' = b) /\ forall o, c' o = c o + onep (option_map k b) o) \/
   (r = Err ERR_INCOMPLETE /\ acts p l = [] /\ a = None /\ forall o, c' o = c o) \/
   (r = Err ERR_MINOR /\ exists b b', a = Some b /\ In b (acts p l) /\ In b' (acts p l) /\ b' <> b /\ forall o, c' o = c o + onep (option_map k b) o + onep (option_map k b') o)).
Proof.
  revert c. induction l as [|h l IH]; intros c.
  - exists (Err ERR_INCOMPLETE), None, c. split; [reflexivity|]. right. left. auto.
  - cbn [map scan]. rewrite !acts_cons. destruct (h_v h) eqn:V; cbn [v_obj take drop].
    2:{ destruct (scan_some p k l (p h) (drop (take (take c (option_map k (p h))) (option_map k (p h))) (option_map k (p h)))) as (r & c' & E & D).
        exists r, (Some (p h)), c'. split; [exact E|]. destruct D as [(D1 & D2 & D3)|(D1 & b & D2 & D3 & D4)].
        - left. split; [exact D1|]. exists (p h). split; [reflexivity|]. split; [left; reflexivity|]. split; [intros b' [<-|H]; auto|]. intros o. rewrite D3, drop_eq, !take_eq. lia.
        - right. right. split; [exact D1|]. exists (p h), b. split; [reflexivity|]. split; [left; reflexivity|]. split; [right; exact D2|]. split; [exact D3|]. intros o. rewrite D4, drop_eq, !take_eq. lia. }
    + apply IH.
    + apply IH.
    + destruct (IH (add (add c (OVec v) 1) (OVec v) (-1))) as (r & a & c' & E1 & D). exists r, a, c'. split; [exact E1|].
      destruct D as [(D1 & b & D2 & D3 & D4 & D5)|[(D1 & D2 & D3 & D4)|(D1 & b & b' & D2 & D3 & D4 & D5 & D6)]].
      * left. split; [exact D1|]. exists b. repeat (split; [assumption|]). intros o. rewrite D5, !add_eq. lia.
      * right. left. repeat (split; [assumption|]). intros o. rewrite D4, !add_eq. lia.
      * right. right. split; [exact D1|]. exists b, b'. repeat (split; [assumption|]). intros o. rewrite D6, !add_eq. lia.
Qed.

(** ** The fields of a ready operator *)
Section Ready.
Variables (qf : qfun) (ap : bool) (c0 : cnts) (hs : list xh).
Let s0 := x_create qf ap c0.
Let s := xrun s0 hs.
Hypothesis O : once2 s0 hs.
Hypothesis R : fst (check_ready (x_st s)) = Ok tt.
Let q := b_qf (x_st s).
Let n (sd : bool) := List.length (if sd then q_in q else q_out q).

Lemma field_lt sd i f : x_slot s sd i = FSet f -> (i < n sd)%nat.
Proof.
  intros H. destruct (origin qf ap c0 hs sd i) as (_ & l1 & x & l2 & _ & _ & F & _). { fold s0 s. congruence. }
  destruct (BuildProps.find_field_at _ _ _ _ F) as (g & Hg & _). apply at_len in Hg. exact Hg.
Qed.
Lemma field_at sd i : (i < n sd)%nat -> exists f h, x_slot s sd i = FSet f /\ x_hnd s sd i = Some h.
Proof.
  intros L. destruct (complete qf ap c0 hs O R sd i L) as (f & E). cbn [fst snd] in E. fold s0 s in E.
  destruct (origin qf ap c0 hs sd i) as (_ & l1 & x & l2 & _ & _ & _ & G). { fold s0 s. congruence. }
  destruct (G f E) as (_ & _ & H). exists f, (hnd_of x). auto.
Qed.
Lemma hnds_some sd m : (m <= n sd)%nat -> exists l, hnds s sd m = map Some l /\ List.length l = m /\ forall i h, (i < m)%nat -> nth_error l i = Some h <-> field s sd i h.
Proof.
  induction m as [|m IH]; intros L.
  - exists []. split; [reflexivity|]. split; [reflexivity|]. intros i h H. lia.
  - destruct IH as (l & E & LL & N); [lia|]. destruct (field_at sd m) as (f & h & F1 & F2); [lia|]. exists (l ++ [h]). split; [|split].
    + unfold hnds in *. rewrite seq_S, map_app, E, map_app. cbn. rewrite F2. reflexivity.
    + rewrite app_length. cbn. lia.
    + intros i h' H. destruct (Nat.eq_dec i m) as [->|NE].
      * rewrite nth_error_app2, LL, Nat.sub_diag by lia. cbn. unfold field. rewrite F2. split; [intros [= ->]; eauto|intros (_ & K); exact K].
      * rewrite nth_error_app1 by lia. apply N. lia.
Qed.
Lemma acts_fields p sd l : hnds s sd (n sd) = map Some l -> List.length l = n sd -> (forall i h, (i < n sd)%nat -> nth_error l i = Some h <-> field s sd i h) ->
  forall a, In a (acts p l) <-> exists i h, field s sd i h /\ h_v h = VActive /\ p h = a.
Proof.
  intros E LL N a. unfold acts. rewrite in_map_iff. split.
  - intros (h & <- & H). apply filter_In in H. destruct H as (H & V). apply In_nth_error in H. destruct H as (i & H).
    assert (L : (i < n sd)%nat) by (rewrite <- LL; apply nth_error_Some; congruence). exists i, h. split; [apply N; auto|]. split; [|reflexivity].
    unfold is_active in V. destruct (h_v h); congruence.
  - intros (i & h & F & V & <-). exists h. split; [reflexivity|]. apply filter_In. split; [|unfold is_active; rewrite V; reflexivity].
    destruct F as ((f & F1) & F2). pose proof (field_lt _ _ _ F1) as L. apply nth_error_In with i. apply N; [exact L|]. split; eauto.
Qed.
(** the operator that the queries leave behind *)
Definition s1 : xop := x_with s (snd (check_ready (x_st s))).
Lemma get_fields_eq : get_fields (Some s) = (Ok (n true, n false), Some s1).
Proof.
  cbn [get_fields]. unfold x_ready. unfold s1. destruct (check_ready (x_st s)) as (e, st') eqn:E. cbn [fst] in R. subst e. cbn [snd x_with x_st].
  assert (Q : q_in (b_qf st') = q_in q /\ q_out (b_qf st') = q_out q).
  { unfold check_ready in E. destruct (b_ready (x_st s)); [injection E as <-; auto|]. destruct (_ =? 0)%nat; [discriminate|]. cbv zeta in E. destruct (negb _); [discriminate|]. destruct (negb _); [discriminate|]. destruct (negb _); [discriminate|]. injection E as <-. auto. }
  destruct Q as (-> & ->). reflexivity.
Qed.
Lemma scan_side p k sd c : exists r a c', scan p k (hnds s1 sd (n sd)) None c = (r, a, c') /\
  ((r = Ok tt /\ exists b, a = Some b /\ sole p s sd b /\ forall o, c' o = c o + onep (option_map k b) o) \/
   (r = Err ERR_INCOMPLETE /\ ~ (exists i h, field s sd i h /\ h_v h = VActive) /\ a = None /\ forall o, c' o = c o) \/
   (r = Err ERR_MINOR /\ exists b b', a = Some b /\ b' <> b /\ (exists i h, field s sd i h /\ h_v h = VActive /\ p h = b) /\ (exists i h, field s sd i h /\ h_v h = VActive /\ p h = b') /\
      forall o, c' o = c o + onep (option_map k b) o + onep (option_map k b') o)).
Proof.
  destruct (hnds_some sd (n sd) (le_n _)) as (l & E & LL & N). pose proof (acts_fields p sd l E LL N) as A.
  change (hnds s1 sd (n sd)) with (hnds s sd (n sd)). rewrite E. destruct (scan_none p k l c) as (r & a & c' & E1 & D). exists r, a, c'. split; [exact E1|].
  destruct D as [(D1 & b & D2 & D3 & D4 & D5)|[(D1 & D2 & D3 & D4)|(D1 & b & b' & D2 & D3 & D4 & D5 & D6)]].
  - left. split; [exact D1|]. exists b. split; [exact D2|]. split; [|exact D5]. split; [apply A; exact D3|]. intros i h F V. apply D4. apply A. eauto.
  - right. left. split; [exact D1|]. split; [|auto]. intros (i & h & F & V). assert (K : In (p h) (acts p l)) by (apply A; eauto). rewrite D2 in K. contradiction.
  - right. right. split; [exact D1|]. exists b, b'. split; [exact D2|]. split; [exact D5|]. split; [apply A; exact D3|]. split; [apply A; exact D4|exact D6].
Qed.
End Ready.

Lemma sole_unique p s sd a b : sole p s sd a -> sole p s sd b -> a = b.
Proof. intros ((i & h & F & V & <-) & _) (_ & H). apply (H i h F V). Qed.

(** ** C65: queries *)
(** For every operator that is ready, built by any history in which no name was passed again after being accepted or refused as
    incompatible: the query for the active basis (or restriction) succeeds exactly when each requested side has active fields and they
    all use the same object; it returns that object with one more reference to it, changes no other count, and never crashes. *)
Theorem C65_active p k qf ap c0 hs wi wo : (p = h_b /\ k = OBasis) \/ (p = h_r /\ k = ORstr) -> let s0 := x_create qf ap c0 in let s := xrun s0 hs in
  once2 s0 hs -> fst (check_ready (x_st s)) = Ok tt ->
  let a := get_active p k (Some s) wi wo in
  (aq_r a = Ok tt <-> (wi = true -> exists b, sole p s true b) /\ (wo = true -> exists b, sole p s false b)) /\
  (aq_r a = Ok tt \/ aq_r a = Err ERR_INCOMPLETE \/ aq_r a = Err ERR_MINOR) /\
  (aq_r a = Ok tt -> (forall b, aq_i a = Some b <-> wi = true /\ sole p s true b) /\ (forall b, aq_o a = Some b <-> wo = true /\ sole p s false b) /\
    exists s', aq_op a = Some s' /\ x_in s' = x_in s /\ x_out s' = x_out s /\ forall o, x_c s' o = x_c s o +
      match aq_i a with Some b => onep (option_map k b) o | None => 0 end + match aq_o a with Some b => onep (option_map k b) o | None => 0 end).
Proof.
  intros _ s0 s O R a. unfold a, get_active. unfold s, s0 in *. rewrite (get_fields_eq qf ap c0 hs R).
  assert (U : forall sd b b', sole p (xrun (x_create qf ap c0) hs) sd b -> (exists i h, field (xrun (x_create qf ap c0) hs) sd i h /\ h_v h = VActive /\ p h = b') -> b' = b).
  { intros sd b b' (_ & S2) (i & h & F & V & <-). apply (S2 i h F V). }
  destruct wi.
  - destruct (scan_side qf ap c0 hs O R p k true (x_c (s1 qf ap c0 hs))) as (r & ri & c1 & E1 & D1). rewrite E1.
    destruct D1 as [(-> & b & -> & S1 & C1)|[(-> & N1 & -> & C1)|(-> & b & b' & -> & NE & X1 & X2 & C1)]].
    + destruct wo.
      * destruct (scan_side qf ap c0 hs O R p k false c1) as (r & ro & c2 & E2 & D2). rewrite E2. cbn [aq_r aq_i aq_o aq_op].
        destruct D2 as [(-> & d & -> & S2 & C2)|[(-> & N2 & -> & C2)|(-> & d & d' & -> & NE & X1 & X2 & C2)]].
        -- split; [split; [intros _; split; intros _; eauto|reflexivity]|]. split; [auto|]. intros _. split; [|split].
           ++ intros y. split; [intros [= <-]; auto|]. intros (_ & Y). f_equal. eapply sole_unique; eauto.
           ++ intros y. split; [intros [= <-]; auto|]. intros (_ & Y). f_equal. eapply sole_unique; eauto.
           ++ eexists. split; [reflexivity|]. split; [reflexivity|]. split; [reflexivity|]. intros o. cbn [x_cnt x_c]. rewrite C2, C1. reflexivity.
        -- split; [split; [discriminate|]|split; [auto|discriminate]]. intros (_ & W). exfalso. destruct (W eq_refl) as (y & (i & h & F & V & _) & _). apply N2. eauto.
        -- split; [split; [discriminate|]|split; [auto|discriminate]]. intros (_ & W). exfalso. destruct (W eq_refl) as (y & Y). apply NE. rewrite (U false y d' Y X2), (U false y d Y X1). reflexivity.
      * cbn [aq_r aq_i aq_o aq_op]. split; [split; [intros _; split; [eauto|discriminate]|reflexivity]|]. split; [auto|]. intros _. split; [|split].
        -- intros y. split; [intros [= <-]; auto|]. intros (_ & Y). f_equal. eapply sole_unique; eauto.
        -- intros y. split; [discriminate|intros (X & _); discriminate].
        -- eexists. split; [reflexivity|]. split; [reflexivity|]. split; [reflexivity|]. intros o. cbn [x_cnt x_c]. rewrite C1. cbn [s1 x_with x_c]. lia.
    + cbn [aq_r aq_i aq_o aq_op]. split; [split; [discriminate|]|split; [auto|discriminate]]. intros (W & _). exfalso. destruct (W eq_refl) as (y & (i & h & F & V & _) & _). apply N1. eauto.
    + cbn [aq_r aq_i aq_o aq_op]. split; [split; [discriminate|]|split; [auto|discriminate]]. intros (W & _). exfalso. destruct (W eq_refl) as (y & Y). apply NE. rewrite (U true y b' Y X2), (U true y b Y X1). reflexivity.
  - destruct wo.
    + destruct (scan_side qf ap c0 hs O R p k false (x_c (s1 qf ap c0 hs))) as (r & ro & c2 & E2 & D2). rewrite E2. cbn [aq_r aq_i aq_o aq_op].
      destruct D2 as [(-> & d & -> & S2 & C2)|[(-> & N2 & -> & C2)|(-> & d & d' & -> & NE & X1 & X2 & C2)]].
      * split; [split; [intros _; split; [discriminate|eauto]|reflexivity]|]. split; [auto|]. intros _. split; [|split].
        -- intros y. split; [discriminate|intros (X & _); discriminate].
        -- intros y. split; [intros [= <-]; auto|]. intros (_ & Y). f_equal. eapply sole_unique; eauto.
        -- eexists. split; [reflexivity|]. split; [reflexivity|]. split; [reflexivity|]. intros o. cbn [x_cnt x_c]. rewrite C2. cbn [s1 x_with x_c]. lia.
      * split; [split; [discriminate|]|split; [auto|discriminate]]. intros (_ & W). exfalso. destruct (W eq_refl) as (y & (i & h & F & V & _) & _). apply N2. eauto.
      * split; [split; [discriminate|]|split; [auto|discriminate]]. intros (_ & W). exfalso. destruct (W eq_refl) as (y & Y). apply NE. rewrite (U false y d' Y X2), (U false y d Y X1). reflexivity.
    + cbn [aq_r aq_i aq_o aq_op]. split; [split; [intros _; split; discriminate|reflexivity]|]. split; [auto|]. intros _. split; [|split].
      * intros y. split; [discriminate|intros (X & _); discriminate].
      * intros y. split; [discriminate|intros (X & _); discriminate].
      * eexists. split; [reflexivity|]. split; [reflexivity|]. split; [reflexivity|]. intros o. cbn [x_cnt x_c s1 x_with]. lia.
Qed.
(** Finding: when two active fields use different bases, or different restrictions (CEED_BASIS_NONE counts as a basis, so one active field with
    CEED_EVAL_NONE beside one with CEED_EVAL_INTERP is enough), the refused query leaves two references behind: one in the output variable of the caller, who got an
    error code, and one that nobody can release (ceed-operator.c:228-230, 311-313). *)
Theorem C65_leak_refuted p k qf ap c0 hs wo i1 h1 i2 h2 : let s0 := x_create qf ap c0 in let s := xrun s0 hs in
  once2 s0 hs -> fst (check_ready (x_st s)) = Ok tt -> field s true i1 h1 -> field s true i2 h2 -> h_v h1 = VActive -> h_v h2 = VActive -> p h1 <> p h2 ->
  exists b b' s', aq_r (get_active p k (Some s) true wo) = Err ERR_MINOR /\ b <> b' /\ aq_i (get_active p k (Some s) true wo) = Some b /\
    aq_op (get_active p k (Some s) true wo) = Some s' /\ forall o, x_c s' o = x_c s o + onep (option_map k b) o + onep (option_map k b') o.
Proof.
  intros s0 s O R F1 F2 V1 V2 NE. unfold get_active. unfold s, s0 in *. rewrite (get_fields_eq qf ap c0 hs R).
  destruct (scan_side qf ap c0 hs O R p k true (x_c (s1 qf ap c0 hs))) as (r & ri & c1 & E1 & D1). rewrite E1.
  destruct D1 as [(-> & b & -> & (_ & S1) & C1)|[(-> & N1 & -> & C1)|(-> & b & b' & -> & NE' & X1 & X2 & C1)]].
  - exfalso. apply NE. rewrite (S1 _ _ F1 V1), (S1 _ _ F2 V2). reflexivity.
  - exfalso. apply N1. eauto.
  - exists b, b'. eexists. split; [reflexivity|]. split; [auto|]. split; [reflexivity|]. split; [reflexivity|]. exact C1.
Qed.
(** Finding: for a composite operator the query is refused, although its documentation promises success with NULL (ceed-operator.c:199-201, 281-283): CeedOperatorGetFields is called before
    the test for composite operators and refuses them. *)
Theorem C65_composite_refuted p k wi wo : aq_r (get_active p k None wi wo) = Err ERR_MINOR.
Proof. reflexivity. Qed.

Lemma tensor_scan_spec tens l b c : exists b' c', tensor_scan tens (map Some l) b c = (Ok b', c') /\ (forall o, c' o = c o) /\
  (b' = true <-> b = true /\ forall h n, In h l -> h_b h = Some n -> tens n = true).
Proof.
  revert b c. induction l as [|h l IH]; intros b c.
  - exists b, c. split; [reflexivity|]. split; [reflexivity|]. split; [intros ->; split; [reflexivity|contradiction]|tauto].
  - cbn [map tensor_scan]. destruct (IH (match h_b h with Some n => b && tens n | None => b end) (drop (take c (b_obj h)) (b_obj h))) as (b' & c' & E & C & B). exists b', c'. split; [exact E|].
    split. { intros o. rewrite C, drop_eq, take_eq. lia. } rewrite B. destruct (h_b h) as [m|] eqn:H.
    + rewrite andb_true_iff. split.
      * intros ((-> & T) & A). split; [reflexivity|]. intros h' n [<-|I] K; [congruence|eapply A; eauto].
      * intros (-> & A). split; [split; [reflexivity|]|]. { apply (A h m); [left; reflexivity|exact H]. } intros h' n I K. apply (A h' n); [right; exact I|exact K].
    + split.
      * intros (-> & A). split; [reflexivity|]. intros h' n [<-|I] K; [congruence|eapply A; eauto].
      * intros (-> & A). split; [reflexivity|]. intros h' n I K. apply (A h' n); [right; exact I|exact K].
Qed.
(** CeedOperatorHasTensorBases: true exactly when every field with a basis has a tensor basis; no count is changed *)
Theorem C65_tensor tens qf ap c0 hs : let s0 := x_create qf ap c0 in let s := xrun s0 hs in once2 s0 hs -> fst (check_ready (x_st s)) = Ok tt ->
  exists b s', has_tensor tens (Some s) = (Ok b, Some s') /\ (b = true <-> forall sd i h m, field s sd i h -> h_b h = Some m -> tens m = true) /\ forall o, x_c s' o = x_c s o.
Proof.
  intros s0 s O R. unfold has_tensor, s, s0 in *. rewrite (get_fields_eq qf ap c0 hs R).
  destruct (hnds_some qf ap c0 hs O R true _ (le_n _)) as (l1 & E1 & L1 & N1). destruct (hnds_some qf ap c0 hs O R false _ (le_n _)) as (l2 & E2 & L2 & N2).
  cbv beta iota in E1, E2, L1, L2, N1, N2. change (hnds (s1 qf ap c0 hs)) with (hnds (xrun (x_create qf ap c0) hs)). rewrite E1, E2.
  destruct (tensor_scan_spec tens l1 true (x_c (s1 qf ap c0 hs))) as (b1 & c1 & T1 & C1 & B1). rewrite T1.
  destruct (tensor_scan_spec tens l2 b1 c1) as (b2 & c2 & T2 & C2 & B2). rewrite T2. eexists. eexists. split; [reflexivity|]. split.
  - rewrite B2, B1. split.
    + intros ((_ & A1) & A2) sd i h m F. pose proof F as ((f & F1) & _). pose proof (field_lt qf ap c0 hs sd i f F1) as L. destruct sd; cbv iota in L; intros K.
      * apply (A1 h m); [|exact K]. apply nth_error_In with i. apply N1; auto.
      * apply (A2 h m); [|exact K]. apply nth_error_In with i. apply N2; auto.
    + intros A. split; [split; [reflexivity|]|]; intros h m I K; apply In_nth_error in I; destruct I as (i & I).
      * apply (A true i h m); [|exact K]. apply N1; [|exact I]. rewrite <- L1. apply nth_error_Some. congruence.
      * apply (A false i h m); [|exact K]. apply N2; [|exact I]. rewrite <- L2. apply nth_error_Some. congruence.
  - intros o. cbn [x_cnt x_c]. rewrite C2, C1. reflexivity.
Qed.

Lemma name_scan_spec fs i name : exists r, name_scan (map FSet fs) i name = Ok r /\
  match r with Some j => exists f, nth_error fs (j - i) = Some f /\ (i <= j)%nat /\ of_name f = name | None => forall f, In f fs -> of_name f <> name end.
Proof.
  revert i. induction fs as [|f fs IH]; intros i; [exists None; split; [reflexivity|contradiction]|]. cbn [map name_scan]. destruct (seqb (of_name f) name) eqn:E.
  - exists (Some i). split; [reflexivity|]. exists f. rewrite Nat.sub_diag. split; [reflexivity|]. split; [lia|]. apply seqb_eq. exact E.
  - destruct (IH (S i)) as (r & H & D). exists r. split; [exact H|]. destruct r as [j|].
    + destruct D as (g & D1 & D2 & D3). exists g. replace (j - i)%nat with (S (j - S i)) by lia. split; [exact D1|]. split; [lia|exact D3].
    + intros g [<-|G]; [|apply D; exact G]. intros K. apply seqb_eq in K. congruence.
Qed.
(** CeedOperatorGetFieldByName: NULL exactly when the QFunction has no field of that name, otherwise the field set by the (accepted) call with that name *)
Theorem C65_by_name qf ap c0 hs name : let s0 := x_create qf ap c0 in let s := xrun s0 hs in once2 s0 hs -> fst (check_ready (x_st s)) = Ok tt ->
  exists r s', by_name (Some s) name = (Ok r, Some s') /\
    (r = None <-> ~ exists sd i f, qf_at (b_qf (x_st s)) sd i = Some f /\ qf_name f = name) /\
    (forall sd i, r = Some (sd, i) -> exists l1 x l2, hs = l1 ++ XSet x :: l2 /\ c_name (xc x) = name /\ fst (xstep (xrun s0 l1) (XSet x)) = Ok tt /\
       x_slot s sd i = FSet (OF name (c_r (xc x)) (c_b (xc x)) (c_v (xc x))) /\ x_hnd s sd i = Some (hnd_of x)).
Proof.
  intros s0 s O R. unfold by_name, s, s0 in *. rewrite (get_fields_eq qf ap c0 hs R).
  assert (SL : forall (sd : bool) m, (m <= List.length (if sd then q_in (b_qf (x_st (xrun (x_create qf ap c0) hs))) else q_out (b_qf (x_st (xrun (x_create qf ap c0) hs)))))%nat ->
     exists fs, map (x_slot (s1 qf ap c0 hs) sd) (seq 0 m) = map FSet fs /\ List.length fs = m /\ forall i f, (i < m)%nat -> nth_error fs i = Some f <-> x_slot (xrun (x_create qf ap c0) hs) sd i = FSet f).
  { assert (X : forall sd i, x_slot (s1 qf ap c0 hs) sd i = x_slot (xrun (x_create qf ap c0) hs) sd i).
    { intros sd i. pose proof (xstep_slots (xrun (x_create qf ap c0) hs) XReady) as SL. cbv zeta in SL. cbn [halloc xstep] in SL. unfold s1. unfold x_ready in SL. destruct (check_ready _) as (e, st'). apply SL. }
    intros sd. induction m as [|m IH]; intros L; [exists []; split; [reflexivity|split; [reflexivity|intros i f H; lia]]|]. destruct IH as (fs & E & LL & N); [lia|].
    destruct (field_at qf ap c0 hs O R sd m) as (f & h & F1 & F2); [lia|]. exists (fs ++ [f]). split; [|split].
    - rewrite seq_S, map_app, E, map_app. cbn. rewrite X, F1. reflexivity.
    - rewrite app_length. cbn. lia.
    - intros i g H. destruct (Nat.eq_dec i m) as [->|NE].
      + rewrite nth_error_app2, LL, Nat.sub_diag by lia. cbn. rewrite F1. split; [intros [= ->]; reflexivity|intros [= ->]; reflexivity].
      + rewrite nth_error_app1 by lia. apply N. lia. }
  assert (OR : forall sd i f, x_slot (xrun (x_create qf ap c0) hs) sd i = FSet f -> (exists g, qf_at (b_qf (x_st (xrun (x_create qf ap c0) hs))) sd i = Some g /\ qf_name g = of_name f) /\
     exists l1 x l2, hs = l1 ++ XSet x :: l2 /\ c_name (xc x) = of_name f /\ fst (xstep (xrun (x_create qf ap c0) l1) (XSet x)) = Ok tt /\ f = OF (of_name f) (c_r (xc x)) (c_b (xc x)) (c_v (xc x)) /\ x_hnd (xrun (x_create qf ap c0) hs) sd i = Some (hnd_of x)).
  { intros sd i f E. destruct (origin qf ap c0 hs sd i) as (_ & l1 & x & l2 & E1 & _ & F & G). { congruence. } destruct (G f E) as (G1 & G2 & G3).
    assert (NM : of_name f = c_name (xc x)) by (rewrite G2; reflexivity). split.
    - destruct (BuildProps.find_field_at _ _ _ _ F) as (g & Hg & Ng). exists g. split; [exact Hg|congruence].
    - exists l1, x, l2. split; [exact E1|]. split; [auto|]. split; [exact G1|]. split; [rewrite NM; exact G2|exact G3]. }
  destruct (SL true _ (le_n _)) as (f1 & E1 & L1 & N1). destruct (SL false _ (le_n _)) as (f2 & E2 & L2 & N2). cbv iota in *. rewrite E1, E2.
  assert (FIN : forall sd i f, x_slot (xrun (x_create qf ap c0) hs) sd i = FSet f -> of_name f = name ->
    (Some (sd, i) = None <-> ~ exists sd i f, qf_at (b_qf (x_st (xrun (x_create qf ap c0) hs))) sd i = Some f /\ qf_name f = name) /\
    (forall sd' i', Some (sd, i) = Some (sd', i') -> exists l1 x l2, hs = l1 ++ XSet x :: l2 /\ c_name (xc x) = name /\ fst (xstep (xrun (x_create qf ap c0) l1) (XSet x)) = Ok tt /\
       x_slot (xrun (x_create qf ap c0) hs) sd' i' = FSet (OF name (c_r (xc x)) (c_b (xc x)) (c_v (xc x))) /\ x_hnd (xrun (x_create qf ap c0) hs) sd' i' = Some (hnd_of x))).
  { intros sd i f E NM. destruct (OR sd i f E) as ((g & G1 & G2) & l1 & x & l2 & X1 & X2 & X3 & X4 & X5). split.
    - split; [discriminate|]. intros K. exfalso. apply K. exists sd, i, g. split; [exact G1|congruence].
    - intros sd' i' [= <- <-]. exists l1, x, l2. rewrite NM in X2, X4. repeat (split; [assumption|]). split; [|exact X5]. rewrite E. f_equal. exact X4. }
  destruct (name_scan_spec f1 0 name) as (r1 & S1 & D1). rewrite S1. destruct r1 as [j|].
  - destruct D1 as (f & D1 & _ & D2). rewrite Nat.sub_0_r in D1. exists (Some (true, j)). eexists. split; [reflexivity|]. apply (FIN true j f); [|exact D2]. apply N1; [|exact D1]. rewrite <- L1. apply nth_error_Some. congruence.
  - destruct (name_scan_spec f2 0 name) as (r2 & S2 & D2). rewrite S2. destruct r2 as [j|].
    + destruct D2 as (f & D2 & _ & D3). rewrite Nat.sub_0_r in D2. exists (Some (false, j)). eexists. split; [reflexivity|]. apply (FIN false j f); [|exact D3]. apply N2; [|exact D2]. rewrite <- L2. apply nth_error_Some. congruence.
    + exists None. eexists. split; [reflexivity|]. split; [|discriminate]. split; [|reflexivity]. intros _ (sd & i & g & G1 & G2).
      pose proof (at_len _ _ _ _ G1) as L. destruct (field_at qf ap c0 hs O R sd i L) as (f & h & F1 & _). destruct (OR sd i f F1) as ((g' & G3 & G4) & _).
      assert (NM : of_name f = name) by congruence. destruct sd; cbv iota in L.
      * apply (D1 f); [|exact NM]. apply nth_error_In with i. apply N1; auto.
      * apply (D2 f); [|exact NM]. apply nth_error_In with i. apply N2; auto.
Qed.
(** CeedOperatorGetNumArgs of a ready operator is the number of fields of its QFunction *)
Theorem C65_num_args qf ap c0 hs : let s0 := x_create qf ap c0 in let s := xrun s0 hs in once2 s0 hs -> fst (check_ready (x_st s)) = Ok tt ->
  num_args s = Z.of_nat (List.length (q_in (b_qf (x_st s))) + List.length (q_out (b_qf (x_st s)))).
Proof.
  intros s0 s O R. unfold num_args. f_equal. pose proof (ready_fields qf ap c0 hs R) as NF. destruct (counted qf ap c0 hs O) as (L & N & I & E). unfold s, s0 in *. unfold nfields in NF.
  apply Nat.le_antisymm; [|exact NF]. rewrite <- E, <- BuildProps.all_slots_len. apply NoDup_incl_length; [exact N|]. intros (a, b) H. apply BuildProps.all_slots_in. apply I in H. destruct H as (f & H). cbn in H.
  destruct (origin qf ap c0 hs a b) as (_ & l1 & x & l2 & _ & _ & F & _); [congruence|]. destruct (BuildProps.find_field_at _ _ _ _ F) as (g & Hg & _). eauto.
Qed.

(** CeedCompositeOperatorGetSubByName after CeedOperatorSetName: the first sub-operator that was given that (non-empty) name last; an operator named "" has no name *)
Theorem C65_sub_by_name ns name i : sub_by_name (map set_name ns) 0 name = Some i <->
  name <> [] /\ nth_error ns i = Some (Some name) /\ forall j, (j < i)%nat -> nth_error ns j <> Some (Some name).
Proof.
  assert (G : forall l k, sub_by_name (map set_name l) k name = Some i <-> (k <= i)%nat /\ name <> [] /\ nth_error l (i - k) = Some (Some name) /\ forall j, (j < i - k)%nat -> nth_error l j <> Some (Some name)).
  { induction l as [|n l IH]; intros k.
    - cbn. split; [discriminate|]. intros (_ & _ & H & _). destruct (i - k)%nat; discriminate.
    - cbn [map sub_by_name].
      assert (SK : n <> Some name \/ name = [] -> (sub_by_name (map set_name l) (S k) name = Some i <-> (k <= i)%nat /\ name <> [] /\ nth_error (n :: l) (i - k) = Some (Some name) /\ forall j, (j < i - k)%nat -> nth_error (n :: l) j <> Some (Some name))).
      { intros D. rewrite IH. split.
        - intros (A & B & C & E). split; [lia|]. split; [exact B|]. replace (i - k)%nat with (S (i - S k)) by lia. split; [exact C|]. intros [|j] J; [cbn; destruct D; congruence|]. cbn. apply E. lia.
        - intros (A & B & C & E). destruct (Nat.eq_dec i k) as [->|NE]. { rewrite Nat.sub_diag in C. cbn in C. destruct D; congruence. }
          split; [lia|]. split; [exact B|]. replace (i - k)%nat with (S (i - S k)) in C, E by lia. split; [exact C|]. intros j J. apply (E (S j)). lia. }
      destruct n as [[|x n]|]; cbn [set_name].
      + apply SK. destruct name; [right; reflexivity|left; congruence].
      + destruct (seqb name (x :: n)) eqn:Q.
        * apply seqb_eq in Q. subst name. split.
          -- intros [= <-]. rewrite Nat.sub_diag. split; [lia|]. split; [discriminate|]. split; [reflexivity|]. intros j J. lia.
          -- intros (A & _ & _ & E). destruct (Nat.eq_dec i k) as [->|NE]; [reflexivity|]. exfalso. apply (E 0%nat); [lia|reflexivity].
        * apply SK. left. intros [= K]. assert (Q2 : seqb name (x :: n) = true) by (apply seqb_eq; auto). congruence.
      + apply SK. left. discriminate. }
  rewrite G, Nat.sub_0_r. intuition lia.
Qed.

(** ** C66: what an operator holds and releases *)
(** For every history of calls on an operator and its QFunction: after CeedOperatorDestroy every count is back at its old value, except for what was held by slots that a later call
    overwrote ([lost]) and by slots with an index not below num_fields. *)
Theorem C66_balance qf ap c0 hs o N : let s0 := x_create qf ap c0 in let s := xrun s0 hs in (forall sd i, (N <= i)%nat -> x_slot s sd i = FNull) ->
  x_destroy s o = c0 o + lost s0 hs o + zsum (fun i => contrib s true i o + contrib s false i o) (seq (b_nf (x_st s)) (N - b_nf (x_st s))).
Proof.
  intros s0 s C. destruct (balance qf ap c0 hs o N C) as (B & _). fold s0 s in B. rewrite destroy_eq, B. fold (both s o). change (zsum (fun i => contrib s true i o + contrib s false i o)) with (zsum (both s o)).
  destruct (Nat.le_gt_cases (b_nf (x_st s)) N) as [L|L].
  - replace N with (b_nf (x_st s) + (N - b_nf (x_st s)))%nat at 1 by lia. rewrite seq_app, zsum_app. cbn [Nat.add]. lia.
  - replace (N - b_nf (x_st s))%nat with 0%nat by lia. cbn [seq zsum]. replace (b_nf (x_st s)) with (N + (b_nf (x_st s) - N))%nat by lia. rewrite seq_app, zsum_app. cbn [Nat.add].
    rewrite (zsum_zero (both s o) (seq N (b_nf (x_st s) - N))); [lia|]. intros i I. apply in_seq in I. unfold both, contrib. rewrite !C by lia. reflexivity.
Qed.
(** Every ready operator built without passing a name again (after it was accepted or refused as incompatible) releases everything *)
Theorem C66_released qf ap c0 hs o : let s0 := x_create qf ap c0 in let s := xrun s0 hs in once2 s0 hs -> fst (check_ready (x_st s)) = Ok tt -> x_destroy s o = c0 o.
Proof.
  intros s0 s O R. pose proof (C66_balance qf ap c0 hs o (b_nf (x_st s)) (covered qf ap c0 hs R)) as B. cbv zeta in B. fold s0 s in B. rewrite B, Nat.sub_diag. unfold s0. rewrite (lost_zero qf ap c0 hs o O). cbn. lia.
Qed.
(** While the operator lives, each object of each of its fields is counted by it, also after any other calls *)
Theorem C66_held qf ap c0 hs sd i h o : let s0 := x_create qf ap c0 in let s := xrun s0 hs in field s sd i h ->
  r_obj h = Some o \/ b_obj h = Some o \/ v_obj (h_v h) = Some o -> c0 o + 1 <= x_c s o.
Proof.
  intros s0 s ((f & F1) & F2) H. destruct (covers_ex qf ap c0 hs) as (N & C). destruct (balance qf ap c0 hs o N C) as (B & _). unfold s, s0 in *. rewrite B.
  assert (L : (i < N)%nat). { destruct (Nat.lt_ge_cases i N) as [L|L]; [exact L|]. rewrite (C sd i L) in F1. discriminate. }
  assert (K : 1 <= contrib (xrun (x_create qf ap c0) hs) sd i o).
  { unfold contrib. rewrite F1, F2. pose proof (one_nn OMem o). pose proof (onep_nn (r_obj h) o). pose proof (onep_nn (b_obj h) o). pose proof (onep_nn (v_obj (h_v h)) o).
    assert (X : onep (Some o) o = 1) by (unfold onep, one; destruct (obj_eq_dec o o); congruence). destruct H as [H|[H|H]]; rewrite H in *; lia. }
  assert (M : both (xrun (x_create qf ap c0) hs) o i <= zsum (both (xrun (x_create qf ap c0) hs) o) (seq 0 N)).
  { apply zsum_ge; [|apply in_seq; lia]. intros j. unfold both. pose proof (contrib_nn (xrun (x_create qf ap c0) hs) true j o). pose proof (contrib_nn (xrun (x_create qf ap c0) hs) false j o). lia. }
  assert (E : 0 <= extras (xrun (x_create qf ap c0) hs) o).
  { unfold extras. pose proof (onep_nn (option_map ORstr (x_first (xrun (x_create qf ap c0) hs))) o). pose proof (onep_nn (option_map (fun q => ORstr (fst q)) (x_pts (xrun (x_create qf ap c0) hs))) o).
    pose proof (onep_nn (option_map (fun q => OVec (snd q)) (x_pts (xrun (x_create qf ap c0) hs))) o). lia. }
  assert (LO : forall l s, 0 <= lost s l o).
  { induction l as [|a l IH]; intros s1; cbn [lost]; [lia|]. specialize (IH (snd (xstep s1 a))). assert (0 <= overwritten s1 a o). { unfold overwritten. destruct (halloc s1 a) as [(sd', i')|]; [apply contrib_nn|lia]. } lia. }
  specialize (LO hs (x_create qf ap c0)). unfold both in M at 1. pose proof (contrib_nn (xrun (x_create qf ap c0) hs) true i o). pose proof (contrib_nn (xrun (x_create qf ap c0) hs) false i o). destruct sd; lia.
Qed.

(** concrete operators: fields u (interpolated), w (weights) and v *)
Definition ex_q := mkQFun 1 [BuildProps.mass_u; BuildProps.mass_w] [BuildProps.mass_v] false None None None.
Definition ex_u := XC BuildProps.mass_cu 1 1.
Definition ex_w := XC BuildProps.mass_cw 0 1.
Definition ex_v := XC BuildProps.mass_cv 1 1.
Definition ex_v6 := XC (Call (c_name BuildProps.mass_cv) (RArg (RD 4 1 2 6 None)) (c_b BuildProps.mass_cv) VActive) 2 1.
Definition zero : cnts := fun _ => 0.
Fixpoint once2b (s : xop) (hs : list xh) : bool :=
  match hs with
  | [] => true
  | h :: t =>
    (match h with
     | XSet x => match fst (xstep s h) with
                 | Ok _ => forallb (fun y => match y with XSet x2 => negb (seqb (c_name (xc x)) (c_name (xc x2))) | _ => true end) t
                 | Err e => negb (e =? ERR_INCOMPATIBLE) || forallb (fun y => match y with XSet x2 => negb (seqb (c_name (xc x)) (c_name (xc x2))) | _ => true end) t
                 | UB => true
                 end
     | _ => true
     end) && once2b (snd (xstep s h)) t
  end.
Lemma once2b_ok hs s : once2b s hs = true -> once2 s hs.
Proof.
  revert s. induction hs as [|h hs IH]; intros s B l1 x1 l2 x2 l3 E N; [destruct l1; discriminate|]. cbn [once2b] in B. apply andb_true_iff in B. destruct B as (B1 & B2). destruct l1 as [|a l1].
  - injection E as -> ->. cbn [xrun fold_left]. destruct (fst (xstep s (XSet x1))) as [[]|e|].
    + exfalso. rewrite forallb_forall in B1. specialize (B1 (XSet x2)). cbn in B1. assert (K : seqb (c_name (xc x1)) (c_name (xc x2)) = true) by (apply seqb_eq; exact N). rewrite K in B1. cbn in B1. discriminate B1. apply in_or_app. right. left. reflexivity.
    + split; [discriminate|]. intros [= ->]. rewrite Z.eqb_refl in B1. cbn [negb orb] in B1. rewrite forallb_forall in B1. specialize (B1 (XSet x2)). cbn in B1. assert (K : seqb (c_name (xc x1)) (c_name (xc x2)) = true) by (apply seqb_eq; exact N). rewrite K in B1. cbn in B1.
      discriminate B1. apply in_or_app. right. left. reflexivity.
    + split; discriminate.
  - injection E as -> ->. apply (IH _ B2 l1 x1 l2 x2 l3 eq_refl N).
Qed.
Definition ex_hs := [XSet ex_u; XSet (XC BuildProps.mass_bad 1 1); XSet ex_w; XReady; XSet ex_v; XReady].
Example C65_witness : let s := xrun (x_create ex_q false zero) ex_hs in once2 (x_create ex_q false zero) ex_hs /\ fst (check_ready (x_st s)) = Ok tt /\
  aq_r (get_active_bases (Some s) true true) = Ok tt /\ aq_i (get_active_bases (Some s) true true) = Some (Some 1%nat) /\ aq_o (get_active_rstrs (Some s) true true) = Some (Some 1%nat) /\
  fst (has_tensor (fun _ => true) (Some s)) = Ok true /\ fst (has_tensor (fun _ => false) (Some s)) = Ok false /\
  fst (by_name (Some s) (c_name BuildProps.mass_cw)) = Ok (Some (true, 1%nat)) /\ fst (by_name (Some s) []) = Ok None /\ num_args s = 3 /\
  x_c s (OBasis 1) = 3 /\ x_destroy s (OBasis 1) = 0.
Proof. cbv zeta. split; [apply once2b_ok; vm_compute; reflexivity|]. vm_compute. repeat split. Qed.
(** two active inputs, one of them with CEED_EVAL_NONE: the hypotheses of the leak *)
Definition ex_q2 := mkQFun 1 [BuildProps.mass_u; mkQField (qf_name BuildProps.mass_w) 1 EvNone] [BuildProps.mass_v] false None None None.
Definition ex_hs2 := [XSet ex_u; XSet (XC (Call (qf_name BuildProps.mass_w) (RArg (RD 4 1 3 5 None)) BNone VActive) 2 0); XSet ex_v].
Example C65_leak_witness : let s := xrun (x_create ex_q2 false zero) ex_hs2 in once2 (x_create ex_q2 false zero) ex_hs2 /\ fst (check_ready (x_st s)) = Ok tt /\
  field s true 0 (HN (Some 1%nat) (Some 1%nat) VActive) /\ field s true 1 (HN (Some 2%nat) None VActive) /\
  (match aq_op (get_active_rstrs (Some s) true true) with Some s' => x_c s' (ORstr 2) = x_c s (ORstr 2) + 1 | None => False end).
Proof. cbv zeta. split; [apply once2b_ok; vm_compute; reflexivity|]. split; [vm_compute; reflexivity|]. split; [split; [eexists|]; vm_compute; reflexivity|]. split; [split; [eexists|]; vm_compute; reflexivity|]. vm_compute. reflexivity. Qed.
Example C65_sub_witness : sub_by_name (map set_name [Some []; None; Some (qf_name BuildProps.mass_u); Some (qf_name BuildProps.mass_v); Some (qf_name BuildProps.mass_u)]) 0 (qf_name BuildProps.mass_u) = Some 2%nat.
Proof. vm_compute. reflexivity. Qed.
(** Finding: an operator that is given up before it is complete leaks what was set in slots with a high index: CeedOperatorDestroy walks only the first num_fields slots of each array
    (ceed-operator.c:2284, 2299), although the slots are numbered by the QFunction.  Setting only the second input leaves its basis referenced for ever. *)
Theorem C66_incomplete_refuted : exists qf x, let s := xrun (x_create qf false zero) [XSet x] in once2 (x_create qf false zero) [XSet x] /\ fst (xstep (x_create qf false zero) (XSet x)) = Ok tt /\
  x_destroy s (OBasis 1) = 1 /\ x_destroy s OMem = 2.
Proof. exists ex_q, ex_w. cbv zeta. split; [apply once2b_ok; vm_compute; reflexivity|]. vm_compute. repeat split. Qed.
(** Finding: setting a field again (never refused, see C27) overwrites the pointer to the old field (ceed-operator.c:978): its references are never released. *)
Theorem C66_twice_refuted : exists qf hs, let s := xrun (x_create qf false zero) hs in fst (check_ready (x_st s)) = Ok tt /\ (forall l1 h l2, hs = l1 ++ h :: l2 -> fst (xstep (xrun (x_create qf false zero) l1) h) = Ok tt) /\
  x_destroy s (ORstr 1) = 1 /\ x_destroy s (OBasis 1) = 1 /\ x_destroy s OMem = 2.
Proof.
  exists ex_q, [XSet ex_u; XSet ex_w; XSet ex_v; XReady; XSet ex_u]. cbv zeta. split; [vm_compute; reflexivity|]. split; [|vm_compute; repeat split].
  intros l1 h l2 E. do 5 (destruct l1 as [|? l1]; [injection E as <- <-; vm_compute; reflexivity|injection E as <- E]). destruct l1; discriminate.
Qed.
(** Finding: a call that is refused for its active length has already replaced the field by a blank structure (ceed-operator.c:978): the references of the field that was set before are
    never released. *)
Theorem C66_refused_refuted : exists qf hs x, let s := xrun (x_create qf false zero) hs in once2 (x_create qf false zero) hs /\ fst (check_ready (x_st s)) = Ok tt /\
  fst (xstep s (XSet x)) = Err ERR_INCOMPATIBLE /\ x_destroy s (OBasis 1) = 0 /\ x_destroy (snd (xstep s (XSet x))) (OBasis 1) = 1.
Proof. exists ex_q, ex_hs, ex_v6. cbv zeta. split; [apply once2b_ok; vm_compute; reflexivity|]. vm_compute. repeat split. Qed.

Print Assumptions C65_active.
Print Assumptions C65_leak_refuted.
Print Assumptions C65_composite_refuted.
Print Assumptions C65_tensor.
Print Assumptions C65_by_name.
Print Assumptions C65_num_args.
Print Assumptions C65_sub_by_name.
Print Assumptions C66_balance.
Print Assumptions C66_released.
Print Assumptions C66_held.
Print Assumptions C66_incomplete_refuted.
Print Assumptions C66_twice_refuted.
Print Assumptions C66_refused_refuted.
