(** * Properties C26, C27 and C40: building operators *)
From Coq Require Import List ZArith Lia Bool Arith Permutation.
From Verif Require Import Prelude RstrModel BasisModel StrModel QfModel BuildModel BuildProofs.
Import ListNotations.
Local Open Scope Z_scope.

(** Restrictions and bases as their constructors allow them: positive element size and number of quadrature
    points, non-negative L-vector size (ceed-elemrestriction.c:640-643, 698-701, 757-760, 810-816, 878-883;
    ceed-basis.c:1469-1472, 1608-1610, 1668-1670, 1728-1730). *)
Definition created (c : call) : Prop :=
  (forall d, c_r c = RArg d -> (rd_pts d = None -> 0 < rd_esz d) /\ 0 <= rd_lsz d) /\ (forall d, c_b c = BArg d -> 0 < bd_nq d).

(** No call for a name that has been set successfully before. *)
Definition once (st : opst) (hs : list hop) : Prop :=
  forall l1 c1 l2 c2 l3, hs = l1 ++ HSet c1 :: l2 ++ HSet c2 :: l3 -> c_name c1 = c_name c2 ->
    fst (set_field (run st l1) c1) <> Ok tt.
Definition all_created (hs : list hop) : Prop := forall c, In (HSet c) hs -> created c.

(** ** Facts about lookup *)
Lemma find_name_nth : forall n l i, find_name n l = Some i -> exists f, nth_error l i = Some f /\ qf_name f = n.
Proof.
  induction l as [|f t IH]; cbn; intros i H; [discriminate|].
  destruct (seqb n (qf_name f)) eqn:E. { injection H as <-. apply seqb_eq in E. exists f. auto. }
  destruct (find_name n t) as [j|]; [|discriminate]. injection H as <-. apply (IH j eq_refl).
Qed.
Lemma find_field_at : forall q n side i, find_field q n = Some (side, i) -> exists f, qf_at q side i = Some f /\ qf_name f = n.
Proof.
  unfold find_field, qf_at. intros q n side i H. destruct (find_name n (q_in q)) as [j|] eqn:E.
  - injection H as <- <-. apply find_name_nth; auto.
  - destruct (find_name n (q_out q)) as [j|] eqn:E2; [|discriminate]. injection H as <- <-. apply find_name_nth; auto.
Qed.
Lemma c_nq_pos : forall st c side i f, accepts st c side i f -> created c -> b_at st = false -> 0 < c_nq c.
Proof.
  intros st c side i f A (C1 & C2) Hat. destruct A. unfold c_nq. destruct ac_fits as [fr fb fw fn _ _ _].
  destruct (c_b c) as [| |db] eqn:Eb; [congruence| |apply C2; auto].
  destruct (c_r c) as [| |dr] eqn:Er; [congruence| |].
  - pose proof (proj1 fw eq_refl). pose proof (proj1 fn eq_refl). congruence.
  - cbn. apply C1; auto. destruct (rd_pts dr) as [p|] eqn:Ep; auto.
    exfalso. destruct (ac_pts p Ep) as (Ha & _). congruence.
Qed.

(** ** What every history maintains *)
(** the data of a field that has been set *)
Record good (st : opst) (side : bool) (i : nat) (o : ofld) : Prop := Good {
  g_imm : q_imm (b_qf st) = true;
  g_find : find_field (b_qf st) (of_name o) = Some (side, i);
  g_f : exists f, qf_at (b_qf st) side i = Some f /\ fits f (of_r o) (of_b o);
  g_v : of_v o <> VNull;
  g_ne : of_r o <> RNone -> b_hasr st = true /\ b_ne st = r_ne (of_r o);
  g_nq : b_at st = false -> 0 < b_nq st /\ b_nq st = c_nq (Call (of_name o) (of_r o) (of_b o) (of_v o));
  g_pts : forall p, r_pts (of_r o) = Some p -> b_at st = true /\ b_first st = Some p;
  g_sz : of_v o = VActive -> sz st side = r_lsz (of_r o) /\ 0 <= sz st side }.
Record inv (st0 : opst) (hs : list hop) (st : opst) : Prop := Inv {
  i_imm : b_imm st = false;
  i_at : b_at st = b_at st0;
  i_good : forall side i o, slot st side i = FSet o -> good st side i o;
  i_orig : forall side i o, slot st side i = FSet o -> exists l1 c l2, hs = l1 ++ HSet c :: l2 /\
     fst (set_field (run st0 l1) c) = Ok tt /\ o = OF (c_name c) (c_r c) (c_b c) (c_v c) }.

(** how the parts of a state other than the field slots may move in one step *)
Definition frozen (q q' : qfun) : Prop := q_imm q = true -> q_in q' = q_in q /\ q_out q' = q_out q /\ q_imm q' = true.
Lemma frozen_find : forall q q' n, frozen q q' -> q_imm q = true -> find_field q' n = find_field q n.
Proof. intros q q' n H I. destruct (H I) as (A & B & _). unfold find_field. rewrite A, B. reflexivity. Qed.
Lemma frozen_at : forall q q' s i, frozen q q' -> q_imm q = true -> qf_at q' s i = qf_at q s i.
Proof. intros q q' n i H I. destruct (H I) as (A & B & _). unfold qf_at. rewrite A, B. reflexivity. Qed.
Lemma frozen_add_in : forall q n s m, frozen q (snd (q_add_input q n s m)).
Proof. intros q n s m H. unfold q_add_input. rewrite H. auto. Qed.
Lemma frozen_add_out : forall q n s m, frozen q (snd (q_add_output q n s m)).
Proof. intros q n s m H. unfold q_add_output. rewrite H. auto. Qed.

Record moved (st st' : opst) : Prop := Moved {
  m_qf : frozen (b_qf st) (b_qf st');
  m_at : b_at st' = b_at st;
  m_imm : b_imm st' = b_imm st;
  m_ne : b_hasr st = true -> b_hasr st' = true /\ b_ne st' = b_ne st;
  m_nq : b_nq st <> 0 -> b_nq st' = b_nq st;
  m_first : b_first st <> None -> b_first st' = b_first st;
  m_sz : forall side, sz st side <> -1 -> sz st' side = sz st side }.
Lemma moved_good : forall st st' side i o, moved st st' -> good st side i o -> good st' side i o.
Proof.
  intros st st' side i o M G. destruct M, G.
  assert (Hq : q_imm (b_qf st') = true) by (apply m_qf0; auto).
  split; auto.
  - rewrite (frozen_find _ _ _ m_qf0) by auto. auto.
  - rewrite (frozen_at _ _ _ _ m_qf0) by auto. auto.
  - intros Hr. destruct (g_ne0 Hr) as (A & B). destruct (m_ne0 A). split; auto; congruence.
  - rewrite m_at0. intros Ha. destruct (g_nq0 Ha) as (A & B). rewrite m_nq0 by lia. auto.
  - intros p Hp. destruct (g_pts0 p Hp) as (A & B). rewrite m_at0, m_first0; auto; congruence.
  - intros Hv. destruct (g_sz0 Hv) as (A & B). rewrite m_sz0 by lia. auto.
Qed.
Lemma after_moved : forall st c side i f, accepts st c side i f -> moved st (after st c side i).
Proof.
  intros st c side i f A. destruct A. split; cbn; auto.
  - intros H. cbn. auto.
  - intros H. rewrite H. rewrite Bool.andb_false_r. auto.
  - intros H. destruct (Z.eqb_spec (b_nq st) 0); [congruence|]. reflexivity.
  - intros H. destruct (r_pts (c_r c)) as [p|] eqn:Ep; auto. destruct (ac_pts p eq_refl) as (_ & _ & [B|B]); congruence.
  - intros s H. unfold sz in *. cbn. destruct side, s; auto; destruct (c_v c); auto; destruct (ac_sz eq_refl); congruence.
Qed.
Lemma step_moved : forall st h, moved st (snd (hstep st h)).
Proof.
  intros st h. destruct h as [c| |n s m|n s m]; cbn [hstep snd].
  - destruct (set_field st c) as (e, st') eqn:E. cbn [snd].
    destruct e as [[]|z|].
    + destruct (set_field_ok_inv st c) as (side & i & f & A). { rewrite E. reflexivity. }
      rewrite (set_field_accepts _ _ _ _ _ A) in E. injection E as <-. eapply after_moved; eauto.
    + destruct (set_field_err _ _ _ _ E) as (A1&A2&A3&A4&A5&A6&A7&A8&A9&A10&A11&_); [discriminate|].
      split; auto; try (rewrite ?A3, ?A4; auto; fail).
      * intros H. destruct A11 as [-> | ->]; cbn; auto.
      * intros H. destruct A10; congruence.
      * intros [|] H; unfold sz; congruence.
    + destruct (set_field_err _ _ _ _ E) as (A1&A2&A3&A4&A5&A6&A7&A8&A9&A10&A11&_); [discriminate|].
      split; auto; try (rewrite ?A3, ?A4; auto; fail).
      * intros H. destruct A11 as [-> | ->]; cbn; auto.
      * intros H. destruct A10; congruence.
      * intros [|] H; unfold sz; congruence.
  - unfold check_ready. destruct (b_ready st); [|destruct (b_nf st =? 0)%nat; [|cbv zeta; destruct (negb _); [|destruct (negb _); [|destruct (negb _)]]]];
    cbn; split; cbn; auto; intros H; auto; split; auto.
  - split; cbn; auto. apply frozen_add_in.
  - split; cbn; auto. apply frozen_add_out.
Qed.
Lemma moved_refl : forall st, moved st st.
Proof. intros st. split; auto. intros H. auto. Qed.
Lemma moved_trans : forall a b c, moved a b -> moved b c -> moved a c.
Proof.
  intros a b c M N. destruct M, N. split; try congruence.
  - intros H. destruct (m_qf0 H) as (A & B & C). destruct (m_qf1 C) as (D & E & F). split; [congruence|split; congruence].
  - intros H. destruct (m_ne0 H) as (A & B). destruct (m_ne1 A). split; auto; congruence.
  - intros H. rewrite m_nq1; auto. rewrite m_nq0; auto.
  - intros H. rewrite m_first1; auto. rewrite m_first0; auto.
  - intros s H. rewrite m_sz1; auto. rewrite m_sz0; auto.
Qed.
Lemma run_moved : forall hs st, moved st (run st hs).
Proof. induction hs as [|h t IH]; intros st; cbn. { apply moved_refl. } eapply moved_trans; [apply step_moved|apply IH]. Qed.

(** the slots after one step *)
Definition sets (st : opst) (h : hop) (side : bool) (i : nat) (o : ofld) : Prop :=
  match h with
  | HSet c => fst (set_field st c) = Ok tt /\ o = OF (c_name c) (c_r c) (c_b c) (c_v c) /\ exists f, accepts st c side i f
  | _ => False
  end.
Lemma slot_after : forall st c side i s j, slot (after st c side i) s j =
  if (Bool.eqb s side && (j =? i)%nat)%bool then FSet (OF (c_name c) (c_r c) (c_b c) (c_v c)) else slot st s j.
Proof. intros. unfold slot, after, upd. destruct s, side; cbn; destruct (j =? i)%nat; reflexivity. Qed.
Lemma step_slot : forall st h side i,
  slot (snd (hstep st h)) side i = slot st side i \/
  (exists o, slot (snd (hstep st h)) side i = FSet o /\ sets st h side i o) \/
  (slot (snd (hstep st h)) side i = FBlank /\ exists c, h = HSet c /\ find_field (b_qf st) (c_name c) = Some (side, i) /\ fst (hstep st h) <> Ok tt).
Proof.
  intros st h side i. destruct h as [c| |n s m|n s m]; cbn [hstep fst snd].
  - destruct (set_field st c) as (e, st') eqn:E. cbn [snd].
    assert (Her : e <> Ok tt -> slot st' side i = slot st side i \/ (slot st' side i = FBlank /\ exists c', HSet c = HSet c' /\ find_field (b_qf st) (c_name c') = Some (side, i) /\ e <> Ok tt)).
    { intros He. destruct (set_field_err _ _ _ _ E He) as (_&_&_&_&_&_&_&_&_&_&_&Hs). destruct (Hs side i) as [H|(H1 & H2 & _)]; auto.
      right. split; auto. exists c. auto. }
    destruct e as [[]|z|].
    + destruct (set_field_ok_inv st c) as (sd & j & f & A). { rewrite E. reflexivity. }
      pose proof E as E0. rewrite (set_field_accepts _ _ _ _ _ A) in E. injection E as <-. rewrite slot_after.
      destruct (Bool.eqb_spec side sd) as [->|]; [destruct (Nat.eqb_spec i j) as [->|]|]; cbn [andb]; auto.
      right. left. eexists. split; [reflexivity|]. unfold sets. rewrite E0. split; auto. split; auto. exists f. auto.
    + destruct Her as [H|H]; auto; discriminate.
    + destruct Her as [H|H]; auto; discriminate.
  - left. unfold check_ready. destruct (b_ready st); [|destruct (b_nf st =? 0)%nat; [|cbv zeta; destruct (negb _); [|destruct (negb _); [|destruct (negb _)]]]]; reflexivity.
  - auto.
  - auto.
Qed.

Lemma created_good : forall st c side i f, accepts st c side i f -> created c ->
  good (after st c side i) side i (OF (c_name c) (c_r c) (c_b c) (c_v c)).
Proof.
  intros st c side i f A C. pose proof (c_nq_pos _ _ _ _ _ A C) as Hpos. destruct A. split; cbn; auto.
  - eauto.
  - intros Hr. destruct (c_r c) as [| |dr] eqn:Er; try congruence. { exfalso. apply (fit_r _ _ _ ac_fits). auto. }
    cbn. rewrite Bool.orb_true_r. split; auto. destruct (b_hasr st) eqn:Eh; cbn; auto. destruct ac_ne as [H|[H|H]]; cbn in *; congruence.
  - intros Ha. specialize (Hpos Ha). rewrite Ha. cbn. destruct c as [nm r b v]. cbn [c_name c_r c_b c_v] in *.
    destruct (Z.eqb_spec (b_nq st) 0); cbn [andb]; [auto|]. destruct ac_nq as [H|H]; [congruence|]. rewrite H in Hpos. auto.
  - intros p Hp. rewrite Hp. destruct (ac_pts p Hp). auto.
  - intros Hv. assert (Hl : 0 <= r_lsz (c_r c)). { destruct (c_r c) as [| |dr] eqn:Er; cbn; try lia. apply (proj1 C dr Er). }
    unfold sz. cbn. destruct side; rewrite Hv; auto.
Qed.
Lemma inv_run : forall qf at_points hs, all_created hs -> inv (op_create qf at_points) hs (run (op_create qf at_points) hs).
Proof.
  intros qf ap hs. set (st0 := op_create qf ap). induction hs as [|h hs IH] using rev_ind; intros C.
  - split; auto; intros side i o H; destruct side; discriminate.
  - assert (C' : all_created hs). { intros c Hc. apply C. apply in_or_app. auto. }
    specialize (IH C'). rewrite run_snoc. set (st := run st0 hs) in *. pose proof (step_moved st h) as M.
    destruct IH as [I1 I2 I3 I4]. split.
    + rewrite (m_imm _ _ M). auto.
    + rewrite (m_at _ _ M). auto.
    + intros side i o H. destruct (step_slot st h side i) as [E|[(o' & E & S)|(E & _)]]; [| |congruence].
      * rewrite E in H. eapply moved_good; eauto.
      * rewrite E in H. injection H as ->. destruct h as [c| | |]; try contradiction. destruct S as (S1 & -> & f & A).
        cbn [hstep]. rewrite (set_field_accepts _ _ _ _ _ A). cbn [snd]. apply created_good with f; auto. apply C. apply in_or_app. right. left. reflexivity.
    + intros side i o H. destruct (step_slot st h side i) as [E|[(o' & E & S)|(E & _)]]; [| |congruence].
      * rewrite E in H. destruct (I4 _ _ _ H) as (l1 & c & l2 & -> & H1 & H2). exists l1, c, (l2 ++ [h]). rewrite <- app_assoc. auto.
      * rewrite E in H. injection H as ->. destruct h as [c| | |]; try contradiction. destruct S as (S1 & -> & _). exists hs, c, []. auto.
Qed.

(** ** Counting the fields that are set *)
Definition is_set (st : opst) (p : bool * nat) : Prop := exists o, slot st (fst p) (snd p) = FSet o.
Record cnt (st : opst) : Prop := Cnt {
  n_list : exists L, NoDup L /\ List.length L = b_nf st /\ forall p, In p L <-> is_set st p;
  n_hasr : b_hasr st = true -> exists side i o, slot st side i = FSet o /\ of_r o <> RNone;
  n_sz : forall side, sz st side <> -1 -> exists i o, slot st side i = FSet o /\ of_v o = VActive;
  n_ready : b_ready st = true -> b_nf st = (List.length (q_in (b_qf st)) + List.length (q_out (b_qf st)))%nat /\ q_imm (b_qf st) = true /\ b_hasr st = true }.
Definition all_slots (q : qfun) : list (bool * nat) := map (pair true) (seq 0 (List.length (q_in q))) ++ map (pair false) (seq 0 (List.length (q_out q))).
Lemma all_slots_len : forall q, List.length (all_slots q) = (List.length (q_in q) + List.length (q_out q))%nat.
Proof. intros. unfold all_slots. rewrite app_length, !map_length, !seq_length. reflexivity. Qed.
Lemma all_slots_in : forall q s i, In (s, i) (all_slots q) <-> exists f, qf_at q s i = Some f.
Proof.
  intros q s i. unfold all_slots, qf_at. rewrite in_app_iff, !in_map_iff.
  assert (X : forall (l : list qfield), (i < List.length l)%nat <-> exists f, nth_error l i = Some f).
  { intros l. rewrite <- nth_error_Some. destruct (nth_error l i); split; intros H; eauto; try congruence. destruct H; discriminate. }
  destruct s; rewrite <- X; split.
  - intros [(x & [= ->] & H)|(x & [=] & _)]. apply in_seq in H. lia.
  - intros H. left. exists i. split; auto. apply in_seq. lia.
  - intros [(x & [=] & _)|(x & [= ->] & H)]. apply in_seq in H. lia.
  - intros H. right. exists i. split; auto. apply in_seq. lia.
Qed.
Lemma all_slots_nodup : forall q, NoDup (all_slots q).
Proof.
  intros q. unfold all_slots. 
  assert (X : forall s n, NoDup (map (pair s) (seq 0 n) : list (bool * nat))).
  { intros s n. apply FinFun.Injective_map_NoDup; [intros a b [=]; auto|apply seq_NoDup]. }
  pose proof (X true (List.length (q_in q))) as A. pose proof (X false (List.length (q_out q))) as B.
  revert A. generalize (seq 0 (List.length (q_in q))). induction l as [|x l IH]; cbn; intros A; auto.
  inversion A; subst. constructor; auto. rewrite in_app_iff. intros [H|H]; auto. apply in_map_iff in H. destruct H as (y & [=] & _).
Qed.

Lemma cnt_full : forall st0 hs st, inv st0 hs st -> cnt st -> b_nf st = (List.length (q_in (b_qf st)) + List.length (q_out (b_qf st)))%nat ->
  forall side i f, qf_at (b_qf st) side i = Some f -> exists o, slot st side i = FSet o.
Proof.
  intros st0 hs st I [(L & ND & Len & HL) _ _ _] E side i f Hf.
  assert (Hin : incl L (all_slots (b_qf st))).
  { intros (s, j) Hp. apply HL in Hp. destruct Hp as (o & Ho). cbn in Ho. apply all_slots_in. destruct (i_good _ _ _ I _ _ _ Ho) as [_ _ (f' & Hf' & _) _ _ _ _ _]. eauto. }
  assert (Hin2 : incl (all_slots (b_qf st)) L). { apply NoDup_length_incl; auto. rewrite all_slots_len. lia. }
  assert (Hp : In (side, i) L). { apply Hin2. apply all_slots_in. eauto. }
  apply HL in Hp. exact Hp.
Qed.

Lemma once_fresh : forall qf ap hs c, all_created hs -> once (op_create qf ap) (hs ++ [HSet c]) ->
  let st := run (op_create qf ap) hs in
  forall side i, find_field (b_qf st) (c_name c) = Some (side, i) -> forall o, slot st side i <> FSet o.
Proof.
  intros qf ap hs c C O st side i Hf o Ho.
  destruct (inv_run qf ap hs C) as [_ _ IG IO]. fold st in IG, IO.
  destruct (IO _ _ _ Ho) as (l1 & c1 & l2 & Eh & Ok1 & Eo). apply (O l1 c1 l2 c []); auto.
  - rewrite Eh, <- app_assoc. reflexivity.
  - pose proof (g_find _ _ _ _ (IG _ _ _ Ho)) as G. rewrite Eo in G. cbn in G.
    destruct (find_field_at _ _ _ _ G) as (f1 & F1 & N1). destruct (find_field_at _ _ _ _ Hf) as (f2 & F2 & N2). congruence.
Qed.
Lemma once_prefix : forall st hs h, once st (hs ++ [h]) -> once st hs.
Proof. intros st hs h O l1 c1 l2 c2 l3 E. apply (O l1 c1 l2 c2 (l3 ++ [h])). rewrite E. rewrite <- !app_assoc. cbn. rewrite <- !app_assoc. reflexivity. Qed.

Lemma cnt_run : forall qf ap hs, all_created hs -> once (op_create qf ap) hs -> cnt (run (op_create qf ap) hs).
Proof.
  intros qf ap hs. induction hs as [|h hs IH] using rev_ind; intros C O.
  - split; try discriminate.
    + exists []. split; [constructor|]. split; auto. intros (s, i). split; [contradiction|]. intros (o & H). destruct s; discriminate.
    + intros [|] H; exfalso; apply H; reflexivity.
  - assert (C' : all_created hs). { intros c Hc. apply C. apply in_or_app. auto. }
    specialize (IH C' (once_prefix _ _ _ O)). rewrite run_snoc. pose proof (inv_run qf ap hs C') as I. set (st := run (op_create qf ap) hs) in *.
    assert (Keep : b_nf (snd (hstep st h)) = b_nf st -> b_hasr (snd (hstep st h)) = b_hasr st ->
      (forall s, sz (snd (hstep st h)) s = sz st s) ->
      (forall s i o, slot (snd (hstep st h)) s i = FSet o <-> slot st s i = FSet o) ->
      (b_ready (snd (hstep st h)) = true -> b_nf st = (List.length (q_in (b_qf (snd (hstep st h)))) + List.length (q_out (b_qf (snd (hstep st h)))))%nat /\ q_imm (b_qf (snd (hstep st h))) = true /\ b_hasr st = true) ->
      cnt (snd (hstep st h))).
    { intros K1 K2 K3 K4 K5. destruct IH as [(L & ND & Len & HL) N2 N3 N4]. split.
      - exists L. split; auto. split; [congruence|]. intros p. rewrite HL. split; intros (o & H); exists o; apply K4; auto.
      - rewrite K2. intros H. destruct (N2 H) as (s & i & o & A & B). exists s, i, o. rewrite K4. auto.
      - intros s. rewrite K3. intros H. destruct (N3 s H) as (i & o & A & B). exists i, o. rewrite K4. auto.
      - rewrite K1, K2. auto. }
    assert (Rdy : forall q', frozen (b_qf st) q' -> b_ready st = true -> b_nf st = (List.length (q_in q') + List.length (q_out q'))%nat /\ q_imm q' = true /\ b_hasr st = true).
    { intros q' F R. destruct (n_ready _ IH R) as (A & B & B'). destruct (F B) as (D & E & G). rewrite D, E. auto. }
    destruct h as [c| |n s m|n s m].
    + pose proof (once_fresh qf ap hs c C' O) as Fresh. cbv zeta in Fresh. fold st in Fresh.
      destruct (set_field st c) as (e, st') eqn:E.
      assert (Err : e <> Ok tt -> cnt (snd (hstep st (HSet c)))).
      { intros He. cbn [hstep] in *. rewrite E in *. cbn [snd] in *.
        pose proof (step_moved st (HSet c)) as M. cbn [hstep] in M. rewrite E in M. cbn [snd] in M.
        destruct (set_field_err _ _ _ _ E He) as (A1&A2&A3&A4&A5&A6&A7&A8&A9&A10&A11&A12). apply Keep; auto.
        - intros [|]; unfold sz; auto.
        - intros s i o. destruct (A12 s i) as [H|(H1 & H2 & _)]; [rewrite H; reflexivity|].
          rewrite H1. split; [discriminate|]. intros H. exfalso. eapply Fresh; eauto.
        - rewrite A8. intros R. apply Rdy; auto. apply (m_qf _ _ M). }
      destruct e as [[]|z|]; [|apply Err; discriminate|apply Err; discriminate].
      destruct (set_field_ok_inv st c) as (sd & j & f & A). { rewrite E. reflexivity. }
      cbn [hstep]. rewrite (set_field_accepts _ _ _ _ _ A). cbn [snd]. clear E Err Keep.
      assert (Fr : forall o, slot st sd j <> FSet o). { apply Fresh. apply (ac_find _ _ _ _ _ A). }
      assert (Sl : forall s i o, slot st s i = FSet o -> slot (after st c sd j) s i = FSet o).
      { intros s i o H. rewrite slot_after. destruct (Bool.eqb_spec s sd) as [->|]; cbn [andb]; auto. destruct (Nat.eqb_spec i j) as [->|]; auto. exfalso. eapply Fr; eauto. }
      assert (Sn : slot (after st c sd j) sd j = FSet (OF (c_name c) (c_r c) (c_b c) (c_v c))). { rewrite slot_after, Bool.eqb_reflx, Nat.eqb_refl. reflexivity. }
      destruct IH as [(L & ND & Len & HL) N2 N3 N4]. split.
      * exists ((sd, j) :: L). split; [|split].
        -- constructor; auto. intros H. apply HL in H. destruct H as (o & H). eapply Fr; eauto.
        -- cbn. lia.
        -- intros (s, i). cbn [In]. rewrite HL. unfold is_set. cbn [fst snd]. split.
           ++ intros [[= <- <-]|(o & H)]; eauto.
           ++ intros (o & H). rewrite slot_after in H. destruct (Bool.eqb_spec s sd) as [->|]; cbn [andb] in H; [|eauto]. destruct (Nat.eqb_spec i j) as [->|]; eauto.
      * intros H. destruct (b_hasr st) eqn:Eh.
        { destruct (N2 eq_refl) as (s & i & o & X & Y). exists s, i, o. auto. }
        cbn in H. rewrite Eh in H. cbn in H. exists sd, j, (OF (c_name c) (c_r c) (c_b c) (c_v c)). split; auto. cbn. intros Hn. rewrite Hn in H. discriminate.
      * intros s H. destruct (Z.eq_dec (sz st s) (-1)) as [Es|Es].
        { assert (s = sd /\ c_v c = VActive). { unfold sz in *. cbn in H. destruct s, sd; try congruence; destruct (c_v c); cbn in H; auto; congruence. }
          destruct H0 as (-> & Hv). exists j, (OF (c_name c) (c_r c) (c_b c) (c_v c)). auto. }
        destruct (N3 s Es) as (i & o & X & Y). exists i, o. auto.
      * intros R. cbn in R. destruct (N4 R) as (X & Y & _). exfalso.
        destruct (cnt_full _ _ _ I (Cnt _ (ex_intro _ L (conj ND (conj Len HL))) N2 N3 N4) X sd j f (ac_f _ _ _ _ _ A)) as (o & Ho). eapply Fr; eauto.
    + assert (X : forall q r, frozen (b_qf st) q -> snd (hstep st HReady) =
        OP q (b_at st) (b_in st) (b_out st) (b_nf st) (b_ne st) (b_hasr st) (b_nq st) (b_isz st) (b_osz st) (b_first st) r (b_imm st) ->
        (r = true -> b_ready st = true \/ (b_nf st = (List.length (q_in (b_qf st)) + List.length (q_out (b_qf st)))%nat /\ q = q_set_imm (b_qf st) /\ b_hasr st = true)) ->
        cnt (snd (hstep st HReady))).
      { intros q r Fq Eq Hr. apply Keep; rewrite Eq; auto; try reflexivity. cbn. intros R. destruct (Hr R) as [H|(H & -> & H')]; [apply Rdy; auto|]. cbn. auto. }
      assert (F1 : frozen (b_qf st) (b_qf st)) by (intros H; auto).
      assert (F2 : frozen (b_qf st) (q_set_imm (b_qf st))) by (intros H; cbn; auto).
      cbn [hstep] in X |- *. unfold check_ready in X |- *. destruct (b_ready st) eqn:Er.
      { apply (X (b_qf st) true); auto. cbn. destruct st; cbn in *; subst; reflexivity. }
      destruct (b_nf st =? 0)%nat.
      { apply (X (b_qf st) false); auto. { cbn. destruct st; cbn in *; subst; reflexivity. } }
      cbv zeta in X |- *. destruct (Nat.eqb_spec (b_nf st) (List.length (q_in (b_qf st)) + List.length (q_out (b_qf st)))) as [En|En]; cbn [negb] in X |- *.
      2: { apply (X (q_set_imm (b_qf st)) false); auto; try discriminate. cbn. unfold with_qf. rewrite Er. reflexivity. }
      destruct (b_hasr st) eqn:Eh; cbn [negb] in X |- *.
      2: { apply (X (q_set_imm (b_qf st)) false); auto; try discriminate. cbn. unfold with_qf. rewrite Er, Eh. reflexivity. }
      destruct (negb _).
      { apply (X (q_set_imm (b_qf st)) false); auto; try discriminate. cbn. unfold with_qf. rewrite Er, Eh. reflexivity. }
      apply (X (q_set_imm (b_qf st)) true); auto.
    + apply Keep; cbn [hstep snd]; auto; try reflexivity. cbn. intros R. apply Rdy; auto. apply frozen_add_in.
    + apply Keep; cbn [hstep snd]; auto; try reflexivity. cbn. intros R. apply Rdy; auto. apply frozen_add_out.
Qed.

(** ** C26: a ready operator is complete and consistent *)
(** what "set" means for the field [f] of the QFunction, in terms of the calls that were made: some successful
    call named it, its arguments fit the field and agree with the operator's element count, quadrature points,
    point sets and active vector length, and the operator holds exactly these arguments *)
Definition field_done (st0 : opst) (hs : list hop) (st : opst) (side : bool) (i : nat) (f : qfield) : Prop :=
  exists l1 c l2, hs = l1 ++ HSet c :: l2 /\ fst (set_field (run st0 l1) c) = Ok tt /\ c_name c = qf_name f /\
    slot st side i = FSet (OF (c_name c) (c_r c) (c_b c) (c_v c)) /\ fits f (c_r c) (c_b c) /\
    (c_r c <> RNone -> r_ne (c_r c) = b_ne st) /\
    (b_at st = false -> match c_b c with BArg d => bd_nq d = b_nq st | _ => r_esz (c_r c) = b_nq st end) /\
    (forall p, r_pts (c_r c) = Some p -> b_at st = true /\ b_first st = Some p) /\
    (c_v c = VActive -> r_lsz (c_r c) = if side then b_isz st else b_osz st).
Lemma set_done : forall qf ap hs side i f o, all_created hs -> let st := run (op_create qf ap) hs in
  slot st side i = FSet o -> qf_at (b_qf st) side i = Some f -> field_done (op_create qf ap) hs st side i f.
Proof.
  intros qf ap hs side i f o C st Ho Hf. destruct (inv_run qf ap hs C) as [_ _ IG IO]. fold st in IG, IO.
  destruct (IO _ _ _ Ho) as (l1 & c & l2 & E & Ok1 & ->). exists l1, c, l2. destruct (IG _ _ _ Ho) as [G1 G2 (f' & G3 & G3') G4 G5 G6 G7 G8]. cbn in *.
  assert (f' = f) by congruence. subst f'. destruct (find_field_at _ _ _ _ G2) as (f2 & F2 & N2). assert (f2 = f) by congruence. subst f2.
  repeat split; auto; try apply G3'.
  - intros H. symmetry. apply (G5 H).
  - intros H. destruct (G6 H) as (_ & X). unfold c_nq in X. cbn in X. destruct (c_b c); auto.
  - apply (G7 p H).
  - apply (G7 p H).
  - intros H. symmetry. apply (G8 H).
Qed.

Theorem C26_ready : forall qf ap hs, all_created hs -> once (op_create qf ap) hs ->
  let st := run (op_create qf ap) hs in fst (check_ready st) = Ok tt ->
  (forall side i f, qf_at (b_qf st) side i = Some f -> field_done (op_create qf ap) hs st side i f) /\
  (exists side i f o, qf_at (b_qf st) side i = Some f /\ slot st side i = FSet o /\ of_r o <> RNone) /\
  (ap = false -> 0 < b_nq st).
Proof.
  intros qf ap hs C O st H. pose proof (inv_run qf ap hs C) as I. pose proof (cnt_run qf ap hs C O) as N. fold st in I, N.
  assert (Full : b_nf st = (List.length (q_in (b_qf st)) + List.length (q_out (b_qf st)))%nat /\ b_hasr st = true).
  { unfold check_ready in H. destruct (b_ready st) eqn:Er. { destruct (n_ready _ N Er) as (A & _ & B). auto. }
    destruct (Nat.eqb_spec (b_nf st) 0); [discriminate|]. cbv zeta in H.
    destruct (Nat.eqb_spec (b_nf st) (List.length (q_in (b_qf st)) + List.length (q_out (b_qf st)))); [|discriminate].
    destruct (b_hasr st); [auto|discriminate]. }
  destruct Full as (Full & Hr). destruct (n_hasr _ N Hr) as (sd & j & o & Ho & Hne).
  split; [|split].
  - intros side i f Hf. destruct (cnt_full _ _ _ I N Full _ _ _ Hf) as (o' & Ho'). eapply set_done; eauto.
  - destruct (i_good _ _ _ I _ _ _ Ho) as [_ _ (f & Hf & _) _ _ _ _ _]. exists sd, j, f, o. auto.
  - intros ->. apply (i_good _ _ _ I _ _ _ Ho). apply (i_at _ _ _ I).
Qed.

(** Conversely, an operator all of whose fields are set, one of them with a restriction, is reported ready. *)
Theorem C26_complete : forall qf ap hs, all_created hs -> once (op_create qf ap) hs ->
  let st := run (op_create qf ap) hs in
  (forall side i f, qf_at (b_qf st) side i = Some f -> exists o, slot st side i = FSet o) ->
  (exists side i o, slot st side i = FSet o /\ of_r o <> RNone) ->
  fst (check_ready st) = Ok tt.
Proof.
  intros qf ap hs C O st Hall (sd & j & o & Ho & Hne). pose proof (inv_run qf ap hs C) as I. pose proof (cnt_run qf ap hs C O) as N. fold st in I, N.
  pose proof (i_good _ _ _ I _ _ _ Ho) as G. destruct (g_ne _ _ _ _ G Hne) as (Hh & _).
  destruct N as [(L & ND & Len & HL) _ _ _].
  assert (E : b_nf st = (List.length (q_in (b_qf st)) + List.length (q_out (b_qf st)))%nat).
  { rewrite <- all_slots_len, <- Len. apply Nat.le_antisymm; apply NoDup_incl_length; auto using all_slots_nodup.
    - intros (s, i) Hp. apply HL in Hp. destruct Hp as (o' & Ho'). apply all_slots_in. destruct (i_good _ _ _ I _ _ _ Ho') as [_ _ (f & Hf & _) _ _ _ _ _]. eauto.
    - intros (s, i) Hp. apply all_slots_in in Hp. destruct Hp as (f & Hf). apply HL. apply (Hall _ _ _ Hf). }
  unfold check_ready. destruct (b_ready st); auto. destruct (Nat.eqb_spec (b_nf st) 0) as [E0|E0].
  { exfalso. destruct L; [|cbn in Len; lia]. apply (proj2 (HL (sd, j))). exists o. auto. }
  cbv zeta. rewrite E at 1. rewrite Nat.eqb_refl, Hh. cbn [negb].
  assert (X : (0 <? b_nq st) || b_at st = true). { destruct (b_at st) eqn:Ea; [apply Bool.orb_true_r|]. destruct (g_nq _ _ _ _ G Ea) as (X & _). apply Z.ltb_lt in X. rewrite X. reflexivity. }
  rewrite X. reflexivity.
Qed.

(** ** C26: the order of the calls does not matter *)
Fixpoint set_all (st : opst) (cs : list call) : option opst :=
  match cs with [] => Some st | c :: t => match set_field st c with (Ok _, st1) => set_all st1 t | _ => None end end.
(** two operators that cannot be told apart *)
Record same_op (a b : opst) : Prop := Same {
  s_in : forall i, b_in a i = b_in b i; s_out : forall i, b_out a i = b_out b i;
  s_qf : b_qf a = b_qf b; s_at : b_at a = b_at b; s_nf : b_nf a = b_nf b; s_ne : b_ne a = b_ne b; s_hasr : b_hasr a = b_hasr b;
  s_nq : b_nq a = b_nq b; s_isz : b_isz a = b_isz b; s_osz : b_osz a = b_osz b; s_first : b_first a = b_first b;
  s_ready : b_ready a = b_ready b; s_imm : b_imm a = b_imm b }.
Lemma same_refl : forall a, same_op a a. Proof. intros. split; auto. Qed.
Lemma same_trans : forall a b c, same_op a b -> same_op b c -> same_op a c.
Proof. intros a b c A B. destruct A, B. split; try congruence. Qed.
Lemma same_accepts : forall a b c s i f, same_op a b -> accepts a c s i f -> accepts b c s i f.
Proof. intros a b c s i f S A. destruct S, A. unfold sz in *. split; unfold sz; rewrite <- ?s_imm0, <- ?s_hasr0, <- ?s_ne0, <- ?s_at0, <- ?s_first0, <- ?s_nq0, <- ?s_qf0, <- ?s_isz0, <- ?s_osz0; auto. Qed.
Lemma same_after : forall a b c s i, same_op a b -> same_op (after a c s i) (after b c s i).
Proof.
  intros a b c s i S. destruct S. unfold after, sz. split; cbn; try congruence.
  - intros j. destruct s; auto. unfold upd. destruct (j =? i)%nat; auto.
  - intros j. destruct s; auto. unfold upd. destruct (j =? i)%nat; auto.
  - rewrite s_hasr0, s_ne0. reflexivity.
  - rewrite s_nq0, s_at0. reflexivity.
  - rewrite s_isz0, s_osz0. reflexivity.
  - rewrite s_isz0, s_osz0. reflexivity.
  - rewrite s_first0. reflexivity.
Qed.
Lemma set_all_same : forall cs a b a', same_op a b -> set_all a cs = Some a' -> exists b', set_all b cs = Some b' /\ same_op a' b'.
Proof.
  induction cs as [|c t IH]; cbn; intros a b a' S H. { injection H as <-. eauto. }
  destruct (set_field a c) as (e, a1) eqn:E. destruct e as [[]| |]; try discriminate.
  destruct (set_field_ok_inv a c) as (s & i & f & A). { rewrite E. reflexivity. }
  rewrite (set_field_accepts _ _ _ _ _ A) in E. injection E as <-.
  rewrite (set_field_accepts _ _ _ _ _ (same_accepts _ _ _ _ _ _ S A)). apply (IH (after a c s i)); auto. apply same_after; auto.
Qed.
Lemma swap : forall st c1 s1 i1 f1 c2 s2 i2 f2, created c1 -> created c2 -> c_name c1 <> c_name c2 ->
  accepts st c1 s1 i1 f1 -> accepts (after st c1 s1 i1) c2 s2 i2 f2 ->
  accepts st c2 s2 i2 f2 /\ accepts (after st c2 s2 i2) c1 s1 i1 f1 /\
  same_op (after (after st c1 s1 i1) c2 s2 i2) (after (after st c2 s2 i2) c1 s1 i1).
Proof.
  intros st c1 s1 i1 f1 c2 s2 i2 f2 C1 C2 Hn A1 A2.
  assert (Hp1 : b_at st = false -> 0 < c_nq c1) by (intros; eapply c_nq_pos; eauto).
  assert (Hp2 : b_at st = false -> 0 < c_nq c2) by (intros; eapply (c_nq_pos _ _ _ _ _ A2); eauto).
  assert (L1 : 0 <= r_lsz (c_r c1)). { destruct (c_r c1) as [| |d] eqn:E; cbn; try lia. apply (proj1 C1 d E). }
  assert (L2 : 0 <= r_lsz (c_r c2)). { destruct (c_r c2) as [| |d] eqn:E; cbn; try lia. apply (proj1 C2 d E). }
  assert (Hd : (s1, i1) <> (s2, i2)).
  { intros [= <- <-]. destruct (find_field_at _ _ _ _ (ac_find _ _ _ _ _ A1)) as (g1 & F1 & N1). destruct (find_field_at _ _ _ _ (ac_find _ _ _ _ _ A2)) as (g2 & F2 & N2).
    cbn in F2. unfold qf_at in F1, F2. cbn in F2. congruence. }
  pose proof (fit_r _ _ _ (ac_fits _ _ _ _ _ A1)) as R1. pose proof (fit_r _ _ _ (ac_fits _ _ _ _ _ A2)) as R2.
  destruct A1 as [a1 a2 a3 a4 a5 a6 a7 a8 a9], A2 as [b1 b2 b3 b4 b5 b6 b7 b8 b9].
  assert (Hne : c_r c1 = RNone \/ c_r c2 = RNone \/ r_ne (c_r c1) = r_ne (c_r c2)).
  { cbn in b3. destruct (c_r c1) as [| |d1]; try congruence; auto. destruct (c_r c2) as [| |d2]; try congruence; auto. cbn in *. right. right.
    destruct b3 as [b3|[b3|b3]]; [discriminate| |].
    - rewrite Bool.orb_true_r in b3. discriminate.
    - destruct (b_hasr st); cbn in b3; [|congruence]. destruct a3 as [?|[?|?]]; congruence. }
  assert (Hq : b_at st = false -> c_nq c1 = c_nq c2).
  { intros Ha. specialize (Hp1 Ha). specialize (Hp2 Ha). cbn in b5. rewrite Ha in b5. cbn in b5. destruct (Z.eqb_spec (b_nq st) 0); cbn in b5; [lia|]. lia. }
  assert (Hz : s1 = s2 -> c_v c1 = VActive -> c_v c2 = VActive -> r_lsz (c_r c1) = r_lsz (c_r c2)).
  { intros <- V1 V2. specialize (b9 V2). unfold sz in b9. cbn in b9. rewrite V1 in b9. destruct s1; lia. }
  assert (Hpt : forall p q, r_pts (c_r c1) = Some p -> r_pts (c_r c2) = Some q -> p = q).
  { intros p q Hp Hq'. destruct (b4 q Hq') as (_ & _ & X). cbn in X. rewrite Hp in X. destruct X; congruence. }
  split; [|split].
  - split; auto.
    + cbn in b3. destruct b3 as [H|[H|H]]; auto.
      * apply Bool.orb_false_iff in H. destruct H. auto.
      * destruct (b_hasr st) eqn:Eh; auto. rewrite Bool.andb_false_r in H. auto.
    + intros p Hp. destruct (b4 p Hp) as (X & Y & Z). cbn in X, Z. split; auto. split; auto. destruct (r_pts (c_r c1)) as [p1|] eqn:Ep; auto.
      assert (p1 = p) by (eapply Hpt; eauto). subst p1. apply (a4 p eq_refl).
    + cbn in b5. destruct (Z.eqb_spec (b_nq st) 0); auto.
    + intros V2. specialize (b9 V2). unfold sz in b9 |- *. cbn in b9. destruct s1, s2; auto; destruct (c_v c1) eqn:V1; auto; cbn in b9;
      unfold sz in a9; destruct (a9 eq_refl) as [X|X]; auto; right; rewrite X; auto.
  - split; auto.
    + cbn. destruct (c_r c1) as [| |d1] eqn:Er1; auto; [congruence|]. destruct (c_r c2) as [| |d2] eqn:Er2; [congruence| |].
      * cbn. rewrite Bool.orb_false_r. auto.
      * right. right. cbn. destruct (b_hasr st) eqn:Eh; cbn.
        -- destruct a3 as [?|[?|?]]; try congruence; auto.
        -- destruct Hne as [?|[?|?]]; try congruence; auto.
    + intros p Hp. destruct (a4 p Hp) as (X & Y & Z). cbn. split; auto. split; auto. destruct (r_pts (c_r c2)) as [p2|] eqn:Ep; auto.
      right. f_equal. symmetry. eapply Hpt; eauto.
    + cbn. destruct (Z.eqb_spec (b_nq st) 0) as [E|E]; cbn [andb].
      * destruct (b_at st) eqn:Ea; cbn; [auto|]. right. apply Hq. auto.
      * destruct a5; auto.
    + intros V1. specialize (a9 V1). unfold sz in *. cbn. destruct s1, s2; auto; destruct (c_v c2) eqn:V2; auto; right; symmetry; apply Hz; auto.
  - split; cbn; auto.
    + intros j. unfold upd. destruct s1, s2; auto. destruct (Nat.eqb_spec j i2), (Nat.eqb_spec j i1); auto. congruence.
    + intros j. unfold upd. destruct s1, s2; auto. destruct (Nat.eqb_spec j i2), (Nat.eqb_spec j i1); auto. congruence.
    + destruct (c_r c1) as [| |d1] eqn:Er1; [congruence| |]; (destruct (c_r c2) as [| |d2] eqn:Er2; [congruence| |]); destruct (b_hasr st) eqn:Eh; cbn; auto.
      destruct Hne as [?|[?|?]]; try congruence. cbn in *. auto.
    + destruct (b_hasr st), (is_rnone (c_r c1)), (is_rnone (c_r c2)); reflexivity.
    + destruct (b_at st) eqn:Ea; rewrite ?Bool.andb_false_r; auto. rewrite ?Bool.andb_true_r. specialize (Hq eq_refl). specialize (Hp1 eq_refl). rewrite Hq in *.
      destruct (Z.eqb_spec (b_nq st) 0) as [E|E]; [reflexivity|]. reflexivity.
    + unfold sz. cbn. destruct s1, s2; auto; destruct (c_v c1) eqn:V1, (c_v c2) eqn:V2; auto. symmetry. apply Hz; auto.
    + unfold sz. cbn. destruct s1, s2; auto; destruct (c_v c1) eqn:V1, (c_v c2) eqn:V2; auto. symmetry. apply Hz; auto.
    + destruct (r_pts (c_r c1)) as [p|] eqn:E1, (r_pts (c_r c2)) as [q|] eqn:E2; auto. f_equal. symmetry. eapply Hpt; eauto.
Qed.

Theorem C26_order : forall qf ap cs cs' st, Permutation cs cs' -> NoDup (map c_name cs) -> (forall c, In c cs -> created c) ->
  set_all (op_create qf ap) cs = Some st ->
  exists st', set_all (op_create qf ap) cs' = Some st' /\ same_op st st' /\ fst (check_ready st) = fst (check_ready st').
Proof.
  intros qf ap cs cs' st P. generalize (op_create qf ap). intros st0 ND C H.
  assert (X : exists st', set_all st0 cs' = Some st' /\ same_op st st').
  { revert st0 st ND C H. induction P as [|c l l' P IH|c1 c2 l|l l' l'' P1 IH1 P2 IH2]; intros st0 st ND C H.
    - exists st. split; auto using same_refl.
    - cbn in *. inversion ND; subst. destruct (set_field st0 c) as ([[]| |], st1); try discriminate. apply (IH st1); auto.
    - cbn in *. inversion ND as [|? ? N1 N2]; subst. inversion N2; subst.
      destruct (set_field st0 c2) as ([[]| |], sa) eqn:Ea; try discriminate.
      destruct (set_field sa c1) as ([[]| |], sb) eqn:Eb; try discriminate.
      destruct (set_field_ok_inv st0 c2) as (s1 & i1 & f1 & A1). { rewrite Ea. reflexivity. }
      rewrite (set_field_accepts _ _ _ _ _ A1) in Ea. injection Ea as <-.
      destruct (set_field_ok_inv (after st0 c2 s1 i1) c1) as (s2 & i2 & f2 & A2). { rewrite Eb. reflexivity. }
      rewrite (set_field_accepts _ _ _ _ _ A2) in Eb. injection Eb as <-.
      destruct (swap _ _ _ _ _ _ _ _ _ (C c2 (or_introl eq_refl)) (C c1 (or_intror (or_introl eq_refl))) (fun E => N1 (or_introl (eq_sym E))) A1 A2) as (B1 & B2 & S).
      rewrite (set_field_accepts _ _ _ _ _ B1), (set_field_accepts _ _ _ _ _ B2). eapply set_all_same; eauto.
    - destruct (IH1 _ _ ND C H) as (sm & E1 & S1).
      destruct (IH2 st0 sm) as (st' & E2 & S2); auto.
      + eapply Permutation_NoDup; [apply Permutation_map; exact P1|auto].
      + intros c Hc. apply C. eapply Permutation_in; [apply Permutation_sym; exact P1|auto].
      + exists st'. split; auto. eapply same_trans; eauto. }
  destruct X as (st' & E & S). exists st'. split; auto. split; auto. destruct S. unfold check_ready.
  rewrite s_ready0, s_nf0, s_qf0, s_hasr0, s_nq0, s_at0. destruct (b_ready st'); auto. destruct (b_nf st' =? 0)%nat; auto. cbv zeta.
  destruct (negb _); auto. destruct (negb _); auto. destruct (negb _); auto.
Qed.

(** ** A concrete operator: mass matrix with weights; two fields active *)
From Coq Require Import String Ascii.
Definition mass_u := mkQField (lit "u") 1 EvInterp.
Definition mass_w := mkQField (lit "w") 1 EvWeight.
Definition mass_v := mkQField (lit "v") 1 EvInterp.
Definition mass_qf := mkQFun 1 [mass_u] [] false None None None.
Definition mass_rst := RD 4 1 2 5 None.
Definition mass_bas := BD true 1 1 3.
Definition mass_cu := Call (lit "u") (RArg mass_rst) (BArg mass_bas) VActive.
Definition mass_cw := Call (lit "w") RNone (BArg mass_bas) VNone.
Definition mass_cv := Call (lit "v") (RArg mass_rst) (BArg mass_bas) VActive.
Definition mass_bad := Call (lit "v") (RArg (RD 3 1 2 5 None)) (BArg mass_bas) VActive.
Definition mass_hs := [HIn (lit "w") 1 EvWeight; HOut (lit "v") 1 EvInterp; HSet mass_cu; HSet mass_bad; HReady; HSet mass_cv; HSet mass_cw; HReady].
(** a check of [once] that computes *)
Fixpoint onceb (st : opst) (hs : list hop) : bool :=
  match hs with
  | [] => true
  | h :: t => match h with
              | HSet c => match fst (set_field st c) with
                          | Ok _ => forallb (fun h' => match h' with HSet c' => negb (seqb (c_name c) (c_name c')) | _ => true end) t
                          | _ => true
                          end
              | _ => true
              end && onceb (snd (hstep st h)) t
  end.
Lemma onceb_once : forall hs st, onceb st hs = true -> once st hs.
Proof.
  induction hs as [|h t IH]; intros st H l1 c1 l2 c2 l3 E Hn Hok. { destruct l1; discriminate. }
  cbn [onceb] in H. apply andb_prop in H. destruct H as (H1 & H2). destruct l1 as [|x l1]; cbn in E.
  - injection E as -> ->. cbn in Hok. rewrite Hok in H1. rewrite forallb_forall in H1.
    specialize (H1 (HSet c2) ltac:(apply in_or_app; right; left; reflexivity)). cbn in H1. rewrite Hn, seqb_refl in H1. discriminate.
  - injection E as -> ->. apply (IH _ H2 l1 c1 l2 c2 l3 eq_refl Hn). exact Hok.
Qed.
Example C26_case : all_created mass_hs /\ once (op_create mass_qf false) mass_hs /\
  fst (check_ready (run (op_create mass_qf false) mass_hs)) = Ok tt /\
  fst (check_ready (run (op_create mass_qf false) (firstn 6 mass_hs))) = Err ERR_INCOMPLETE /\
  List.length (q_in (b_qf (run (op_create mass_qf false) mass_hs))) = 2%nat.
Proof.
  split; [|split; [apply onceb_once; vm_compute; reflexivity|repeat split; vm_compute; reflexivity]].
  intros c H. cbn in H. repeat (destruct H as [H|H]; [try discriminate; injection H as <-; split; intros d Hd; try discriminate; injection Hd as <-; cbn; lia|]). contradiction.
Qed.
Example C26_order_case : exists st st', set_all (op_create (mkQFun 1 [mass_u; mass_w] [mass_v] false None None None) false) [mass_cu; mass_cw; mass_cv] = Some st /\
  set_all (op_create (mkQFun 1 [mass_u; mass_w] [mass_v] false None None None) false) [mass_cv; mass_cu; mass_cw] = Some st' /\ b_ne st = 4 /\ b_nq st' = 3 /\ b_isz st' = 5.
Proof. 
  eexists. eexists. split; [vm_compute; reflexivity|]. split; [vm_compute; reflexivity|]. vm_compute. auto. Qed.

(** *** Findings *)
(** Setting a field twice counts twice: an operator with an unset field is reported ready. *)
Theorem C26_twice_refuted : exists qf hs, all_created hs /\
  (forall l1 c l2, hs = l1 ++ HSet c :: l2 -> fst (set_field (run (op_create qf false) l1) c) = Ok tt) /\
  fst (check_ready (run (op_create qf false) hs)) = Ok tt /\ exists f, qf_at (b_qf (run (op_create qf false) hs)) false 0 = Some f /\ slot (run (op_create qf false) hs) false 0 = FNull.
Proof.
  exists (mkQFun 1 [mass_u] [mass_v] false None None None), [HSet mass_cu; HSet mass_cu].
  split; [|split; [|split]].
  - intros c [H|[H|[]]]; injection H as <-; split; intros d [= <-]; cbn; lia.
  - intros l1 c l2 E. destruct l1 as [|x l1]. { injection E as <- _. vm_compute. reflexivity. }
    destruct l1 as [|y l1]. { injection E as <- <- _. vm_compute. reflexivity. }
    injection E as _ _ E. destruct l1; discriminate.
  - vm_compute. reflexivity.
  - exists mass_v. split; vm_compute; reflexivity.
Qed.
(** A rejected second call wipes the field, and the operator is still reported ready: one of its fields has no
    restriction, basis or vector. *)
Theorem C26_wiped_refuted : exists qf cs bad st, all_created (map HSet cs) /\ created bad /\
  set_all (op_create qf false) cs = Some st /\ fst (check_ready st) = Ok tt /\
  fst (set_field st bad) = Err ERR_INCOMPATIBLE /\ slot st true 0 <> FBlank /\
  fst (check_ready (snd (set_field st bad))) = Ok tt /\ slot (snd (set_field st bad)) true 0 = FBlank.
Proof.
  exists (mkQFun 1 [mass_u] [mass_v] false None None None), [mass_cu; mass_cv], (Call (lit "u") (RArg (RD 4 1 2 6 None)) (BArg mass_bas) VActive).
  eexists. split; [|split; [|split; [vm_compute; reflexivity|]]].
  - intros c [H|[H|[]]]; injection H as <-; split; intros d [= <-]; cbn; lia.
  - split; intros d [= <-]; cbn; lia.
  - split; [vm_compute; reflexivity|]. split; [vm_compute; reflexivity|]. split; [vm_compute; discriminate|]. split; vm_compute; reflexivity.
Qed.

(** ** C27: what stays fixed once an operator is ready *)
(** The immutability flag is never set, in any history. *)
Theorem C27_flag_never_set : forall qf ap hs, b_imm (run (op_create qf ap) hs) = false.
Proof. intros. rewrite (m_imm _ _ (run_moved hs _)). reflexivity. Qed.
(** The QFunction of a ready operator is frozen. *)
Theorem C27_qfunction : forall qf ap hs later, let st := run (op_create qf ap) hs in
  fst (check_ready st) = Ok tt -> all_created hs -> once (op_create qf ap) hs ->
  let st1 := run (snd (check_ready st)) later in
  q_in (b_qf st1) = q_in (b_qf st) /\ q_out (b_qf st1) = q_out (b_qf st) /\
  forall n s m, hstep st1 (HIn n s m) = (Err ERR_MAJOR, with_qf st1 (b_qf st1)) /\ hstep st1 (HOut n s m) = (Err ERR_MAJOR, with_qf st1 (b_qf st1)).
Proof.
  intros qf ap hs later st H C O st1. pose proof (cnt_run qf ap hs C O) as N. fold st in N.
  assert (X : q_imm (b_qf (snd (check_ready st))) = true /\ q_in (b_qf (snd (check_ready st))) = q_in (b_qf st) /\ q_out (b_qf (snd (check_ready st))) = q_out (b_qf st)).
  { unfold check_ready in *. destruct (b_ready st) eqn:Er. { cbn. destruct (n_ready _ N Er) as (_ & Hi & _). auto. }
    destruct (b_nf st =? 0)%nat; [discriminate|]. cbv zeta in *. destruct (negb _); [discriminate|]. destruct (negb _); [discriminate|]. destruct (negb _); [discriminate|]. cbn. auto. }
  destruct X as (X1 & X2 & X3). destruct (m_qf _ _ (run_moved later (snd (check_ready st))) X1) as (Y1 & Y2 & Y3). fold st1 in Y1, Y2, Y3.
  split; [congruence|]. split; [congruence|]. intros n s m. cbn. unfold q_add_input, q_add_output. rewrite Y3. auto.
Qed.
(** Element count, quadrature points and known active vector lengths never change again, whatever is called. *)
Theorem C27_sizes : forall qf ap hs later, all_created hs -> once (op_create qf ap) hs -> let st := run (op_create qf ap) hs in
  fst (check_ready st) = Ok tt -> let st1 := run st later in
  b_ne st1 = b_ne st /\ (ap = false -> b_nq st1 = b_nq st) /\
  (b_isz st <> -1 -> b_isz st1 = b_isz st) /\ (b_osz st <> -1 -> b_osz st1 = b_osz st).
Proof.
  intros qf ap hs later C O st H st1. pose proof (run_moved later st) as M. fold st1 in M.
  destruct (C26_ready qf ap hs C O H) as (_ & (s & i & f & o & _ & Ho & Hne) & Hq). fold st in Ho, Hq.
  pose proof (i_good _ _ _ (inv_run qf ap hs C) _ _ _ Ho) as G. destruct (g_ne _ _ _ _ G Hne) as (Hh & _).
  split; [|split; [|split]].
  - apply (m_ne _ _ M). exact Hh.
  - intros E. apply (m_nq _ _ M). specialize (Hq E). lia.
  - intros E. apply (m_sz _ _ M true). exact E.
  - intros E. apply (m_sz _ _ M false). exact E.
Qed.
(** Finding: fields can still be replaced after the operator was found ready. *)
Theorem C27_set_refuted : exists qf cs st c, set_all (op_create qf false) cs = Some st /\ fst (check_ready st) = Ok tt /\
  let st1 := snd (check_ready st) in b_ready st1 = true /\ fst (set_field st1 c) = Ok tt /\ slot (snd (set_field st1 c)) true 0 <> slot st1 true 0.
Proof.
  exists (mkQFun 1 [mass_u] [mass_v] false None None None), [mass_cu; mass_cv]. eexists. exists (Call (lit "u") (RArg (RD 4 1 7 5 None)) (BArg mass_bas) VActive).
  split; [vm_compute; reflexivity|]. split; [vm_compute; reflexivity|]. split; [vm_compute; reflexivity|]. split; [vm_compute; reflexivity|]. vm_compute. discriminate.
Qed.
