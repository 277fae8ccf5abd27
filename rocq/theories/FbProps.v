(** * C64: the fallback of an operator is a copy of it *)
From Coq Require Import List ZArith Lia Bool Arith Ascii.
From Verif Require Import Prelude RstrModel BasisModel StrModel QfModel BuildModel BuildProofs FbModel.
From Verif Require QfProps BuildProps.
From Verif Require Import FlopModel.
Import ListNotations.
Local Open Scope Z_scope.

(** ** The QFunction *)
Definition copied (q qb : qfun) : Prop := q_vlen qb = q_vlen q /\ q_in qb = q_in q /\ q_out qb = q_out q /\ q_imm qb = false.
Definition src_ok (q : qfun) : Prop := exists s qb, fallback_source q = Ok s /\ q_create (q_vlen q) s = Ok qb.
Lemma qcopy q : QfProps.inv q -> src_ok q -> exists qb, fst (q_fallback q) = Ok qb /\ copied q qb.
Proof.
  intros (I1 & I2 & I3 & I4 & I5) (s & qb & Hs & Hc).
  assert (Q : q_vlen qb = q_vlen q /\ q_in qb = [] /\ q_out qb = [] /\ q_imm qb = false).
  { unfold q_create in Hc. destruct s; [injection Hc as <-; auto|]. destruct (strrchr (a :: s) ":"%char); [|discriminate]. injection Hc as <-. auto. }
  destruct Q as (Q1 & Q2 & Q3 & Q4). unfold q_fallback. rewrite Hs, Hc. simpl. unfold QfProps.names in I1. rewrite map_app in I1.
  rewrite QfProps.add_inputs_ok; auto.
  - rewrite QfProps.add_outputs_ok; simpl; auto.
    + eexists. split; [reflexivity|]. unfold copied. simpl. rewrite Q2, Q3. auto.
    + unfold QfProps.names. simpl. rewrite Q2, Q3. simpl. rewrite app_nil_r. exact I1.
    + rewrite Q3. simpl. exact I5.
  - unfold QfProps.names. rewrite Q2, Q3. simpl. clear - I1. induction (map qf_name (q_in q)); [constructor|]. simpl in I1. inversion I1; subst. constructor; auto. rewrite in_app_iff in H1. tauto.
  - rewrite Q2. simpl. exact I4.
Qed.

(** a QFunction that only got fields since [q] *)
Definition same_src (q q' : qfun) : Prop := q_vlen q' = q_vlen q /\ q_user q' = q_user q /\ q_kname q' = q_kname q /\ q_path q' = q_path q.
Lemma same_src_ok q q' : same_src q q' -> src_ok q -> src_ok q'.
Proof. intros (A & B & C & D) (s & qb & H & K). exists s, qb. unfold fallback_source. rewrite A, B, C, D. auto. Qed.
Lemma run_qf hs st : QfProps.inv (b_qf st) -> QfProps.inv (b_qf (run st hs)) /\ same_src (b_qf st) (b_qf (run st hs)).
Proof.
  revert st. induction hs as [|h hs IH]; intros st I; [split; [exact I|unfold same_src; auto]|].
  assert (S1 : QfProps.inv (b_qf (snd (hstep st h))) /\ same_src (b_qf st) (b_qf (snd (hstep st h)))).
  { destruct h as [c| |n s m|n s m]; cbn [hstep snd].
    - destruct (set_field st c) as (e, st') eqn:E. cbn [snd].
      assert (X : b_qf st' = b_qf st \/ b_qf st' = q_set_imm (b_qf st)).
      { destruct e as [[]|z|].
        + destruct (set_field_ok_inv st c) as (side & i & f & A). { rewrite E. reflexivity. }
          rewrite (set_field_accepts _ _ _ _ _ A) in E. injection E as <-. right. reflexivity.
        + destruct (set_field_err _ _ _ _ E) as (A1&A2&A3&A4&A5&A6&A7&A8&A9&A10&A11&_); [discriminate|exact A11].
        + destruct (set_field_err _ _ _ _ E) as (A1&A2&A3&A4&A5&A6&A7&A8&A9&A10&A11&_); [discriminate|exact A11]. }
      destruct X as [-> | ->]; split; auto; unfold same_src; auto.
    - assert (X : b_qf (snd (check_ready st)) = b_qf st \/ b_qf (snd (check_ready st)) = q_set_imm (b_qf st)).
      { unfold check_ready. destruct (b_ready st); [|destruct (b_nf st =? 0)%nat; [|cbv zeta; destruct (negb _); [|destruct (negb _); [|destruct (negb _)]]]]; cbn; auto. }
      destruct X as [-> | ->]; split; auto; unfold same_src; auto.
    - cbn. destruct (q_add_input (b_qf st) n s m) as [r q'] eqn:E. simpl. split.
      + eapply (QfProps.step_inv (fun _ => true) [] _ (QAddIn n s m)); [exact E|exact I].
      + unfold q_add_input in E. destruct (q_imm _); [injection E as _ <-; unfold same_src; auto|]. destruct (match m with EvWeight => _ | _ => _ end); [injection E as _ <-; unfold same_src; auto|].
        destruct (dup _ _); [injection E as _ <-; unfold same_src; auto|]. destruct (dup _ _); [injection E as _ <-; unfold same_src; auto|].
        destruct (_ <? _)%nat; injection E as _ <-; unfold same_src; auto.
    - cbn. destruct (q_add_output (b_qf st) n s m) as [r q'] eqn:E. simpl. split.
      + eapply (QfProps.step_inv (fun _ => true) [] _ (QAddOut n s m)); [exact E|exact I].
      + unfold q_add_output in E. destruct (q_imm _); [injection E as _ <-; unfold same_src; auto|]. destruct (match m with EvWeight => _ | _ => _ end); [injection E as _ <-; unfold same_src; auto|].
        destruct (dup _ _); [injection E as _ <-; unfold same_src; auto|]. destruct (dup _ _); [injection E as _ <-; unfold same_src; auto|].
        destruct (_ <? _)%nat; injection E as _ <-; unfold same_src; auto. }
  destruct S1 as (A & B). destruct (IH _ A) as (C & D). split; [exact C|]. cbn [run fold_left] in *. destruct B as (B1&B2&B3&B4), D as (D1&D2&D3&D4).
  unfold run in *. unfold same_src. repeat split; congruence.
Qed.
Lemma created_src fs roots vlen src q0 l rs q : q_create vlen src = Ok q0 -> q_run fs roots q0 l = (rs, q) -> (q_path q <> None -> q_kname q <> None) -> src_ok q.
Proof.
  intros C H K. destruct (proj1 (QfProps.C21_accept vlen src) (ex_intro _ _ C)) as [->|(p & n & -> & Hn)].
  - assert (V : q_user q = None /\ q_path q = None).
    { injection C as <-. assert (V : q_user (mkQFun vlen [] [] false None None None) = None /\ q_path (mkQFun vlen [] [] false None None None) = None) by auto.
      revert V H. generalize (mkQFun vlen [] [] false None None None). clear. revert rs. induction l as [|o t IH]; intros rs q0 (V1 & V2) H; [injection H as _ <-; auto|].
      destruct (QfProps.run_step _ _ _ _ _ _ _ H) as (r & q1 & S1 & D).
      assert (V : q_user q1 = None /\ q_path q1 = None).
      { destruct o; simpl in S1.
        - destruct (QfProps.step_fields fs roots _ (QAddIn name size m) _ _ S1). unfold q_add_input in S1. destruct (q_imm _); [injection S1 as _ <-; auto|]. destruct (match m with EvWeight => _ | _ => _ end); [injection S1 as _ <-; auto|].
          destruct (dup _ _); [injection S1 as _ <-; auto|]. destruct (dup _ _); [injection S1 as _ <-; auto|]. destruct (_ <? _)%nat; injection S1 as _ <-; auto.
        - unfold q_add_output in S1. destruct (q_imm _); [injection S1 as _ <-; auto|]. destruct (match m with EvWeight => _ | _ => _ end); [injection S1 as _ <-; auto|].
          destruct (dup _ _); [injection S1 as _ <-; auto|]. destruct (dup _ _); [injection S1 as _ <-; auto|]. destruct (_ <? _)%nat; injection S1 as _ <-; auto.
        - injection S1 as _ <-. auto.
        - unfold q_apply in S1. destruct (_ =? 0)%Z; [injection S1 as _ <-; auto|]. destruct (negb _); injection S1 as _ <-; auto.
        - injection S1 as _ <-. unfold q_get_kernel_name. rewrite V1. destruct (q_kname q0); auto.
        - injection S1 as _ <-. unfold q_get_source_path. rewrite V1, V2. auto.
        - injection S1 as _ <-. destruct (QfProps.fallback_orig q0) as [E|E]; rewrite E; auto. }
      destruct D as [(_ & _ & ->)|(rs1 & _ & _ & R)]; [exact V|]. eapply IH; eauto. }
    destruct V as (V1 & V2). exists []. eexists. unfold fallback_source. rewrite V1, V2. split; reflexivity.
  - rewrite QfProps.create_split in C. injection C as <-.
    assert (V : QfProps.sinv fs roots p n q). { eapply QfProps.run_sinv; eauto. unfold QfProps.sinv; simpl; auto. }
    destruct V as (U & Kn & [P|(P & E & _)]).
    + exists (p ++ ":"%char :: n). eexists. unfold fallback_source. rewrite P, U. split; [reflexivity|]. apply QfProps.create_split.
    + destruct Kn as [Kn|Kn]; [exfalso; apply K; congruence|]. exists (P ++ ":"%char :: n). eexists. unfold fallback_source. rewrite E, Kn. split; [reflexivity|]. apply QfProps.create_split.
Qed.

(** ** The fields *)
Definition fields_of (q : qfun) : list (bool * nat) := map (pair true) (seq 0 (List.length (q_in q))) ++ map (pair false) (seq 0 (List.length (q_out q))).
(** the new operator after the fields in [D] were set on it *)
Record part (st : opst) (pts : option (list Z)) (fb : opst) (D : list (bool * nat)) : Prop := Part {
  p_imm : b_imm fb = false; p_at : b_at fb = b_at st; p_rdy : b_ready fb = false;
  p_in : q_in (b_qf fb) = q_in (b_qf st); p_out : q_out (b_qf fb) = q_out (b_qf st); p_vlen : q_vlen (b_qf fb) = q_vlen (b_qf st);
  p_slot : forall s i, In (s, i) D -> slot fb s i = slot st s i;
  p_nf : b_nf fb = List.length D;
  p_ne : b_hasr fb = true -> b_ne fb = b_ne st;
  p_hasr : forall s i o, In (s, i) D -> slot st s i = FSet o -> of_r o <> RNone -> b_hasr fb = true;
  p_nq : b_nq fb = 0 \/ b_nq fb = b_nq st;
  p_nq1 : b_at st = false -> D <> [] -> b_nq fb = b_nq st;
  p_nq2 : b_at st = true -> b_nq fb = 0;
  p_sz : forall s, sz fb s = -1 \/ sz fb s = sz st s;
  p_sz1 : forall s i o, In (s, i) D -> slot st s i = FSet o -> of_v o = VActive -> sz fb s = sz st s;
  p_first : b_first fb = None \/ b_first fb = b_first st;
  p_first1 : pts <> None -> b_first fb = b_first st }.
Lemma part_step st pts fb D s i o : part st pts fb D -> ~ In (s, i) D -> slot st s i = FSet o -> BuildProps.good st s i o ->
  (forall p, r_pts (of_r o) = Some p -> of_b o = BNone) ->
  exists fb', set_field fb (Call (of_name o) (of_r o) (of_b o) (of_v o)) = (Ok tt, fb') /\ part st pts fb' (D ++ [(s, i)]).
Proof.
  intros P N E G PN. destruct (BuildProps.g_f _ _ _ _ G) as (f & Hf & Fit). set (c := Call (of_name o) (of_r o) (of_b o) (of_v o)).
  assert (A : accepts fb c s i f).
  { split; unfold c; simpl.
    - apply (p_imm _ _ _ _ P).
    - apply (BuildProps.g_v _ _ _ _ G).
    - destruct (of_r o) eqn:R; [right|left; reflexivity|right].
      + exfalso. apply (fit_r _ _ _ Fit). reflexivity.
      + destruct (b_hasr fb) eqn:H; [right|left; reflexivity]. rewrite (p_ne _ _ _ _ P H). rewrite (proj2 (BuildProps.g_ne _ _ _ _ G ltac:(congruence))), R. reflexivity.
    - intros p Hp. destruct (BuildProps.g_pts _ _ _ _ G p Hp) as (X & Y). rewrite (p_at _ _ _ _ P). split; [exact X|]. split.
      + apply (PN p Hp).
      + destruct (p_first _ _ _ _ P) as [Z|Z]; [left; exact Z|right; congruence].
    - destruct (p_nq _ _ _ _ P) as [Z|Z]; [left; exact Z|]. destruct (b_at st) eqn:AT; [left; apply (p_nq2 _ _ _ _ P AT)|].
      right. rewrite Z. symmetry. apply (BuildProps.g_nq _ _ _ _ G AT).
    - unfold find_field. rewrite (p_in _ _ _ _ P), (p_out _ _ _ _ P). apply (BuildProps.g_find _ _ _ _ G).
    - unfold qf_at. rewrite (p_in _ _ _ _ P), (p_out _ _ _ _ P). exact Hf.
    - exact Fit.
    - intros V. destruct (BuildProps.g_sz _ _ _ _ G V) as (X & _). destruct (p_sz _ _ _ _ P s) as [Z|Z]; [left; exact Z|right; congruence]. }
  exists (after fb c s i). split; [apply set_field_accepts with f; exact A|].
  assert (SL : slot (after fb c s i) s i = slot st s i).
  { rewrite BuildProps.slot_after, Bool.eqb_reflx, Nat.eqb_refl. rewrite E. simpl. destruct o; reflexivity. }
  split.
  - apply (p_imm _ _ _ _ P).
  - apply (p_at _ _ _ _ P).
  - apply (p_rdy _ _ _ _ P).
  - apply (p_in _ _ _ _ P).
  - apply (p_out _ _ _ _ P).
  - apply (p_vlen _ _ _ _ P).
  - intros s' i' H. apply in_app_iff in H. destruct H as [H|[[= <- <-]|[]]]; [|exact SL].
    rewrite BuildProps.slot_after. destruct (Bool.eqb s' s && (i' =? i)%nat)%bool eqn:B; [|apply (p_slot _ _ _ _ P); exact H].
    apply andb_true_iff in B. destruct B as (B1 & B2). apply Bool.eqb_prop in B1. apply Nat.eqb_eq in B2. subst. contradiction.
  - simpl. rewrite app_length. simpl. rewrite (p_nf _ _ _ _ P). lia.
  - cbn [after b_hasr b_ne c_r c]. intros H. destruct (b_hasr fb) eqn:Hb; simpl.
    + rewrite andb_false_r. apply (p_ne _ _ _ _ P Hb).
    + simpl in H. rewrite H. simpl. symmetry. apply (BuildProps.g_ne _ _ _ _ G). intros X. rewrite X in H. discriminate.
  - intros s' i' o' H K R. cbn [after b_hasr c_r c]. apply in_app_iff in H. destruct H as [H|[[= <- <-]|[]]].
    + rewrite (p_hasr _ _ _ _ P _ _ _ H K R). reflexivity.
    + assert (o' = o) by congruence. subst o'. destruct (of_r o); try congruence; simpl; apply orb_true_r.
  - cbn [after b_nq]. destruct (b_nq fb =? 0) eqn:Z; simpl; [|exact (p_nq _ _ _ _ P)]. rewrite (p_at _ _ _ _ P). destruct (b_at st) eqn:AT; simpl; [left; apply Z.eqb_eq; exact Z|].
    right. symmetry. apply (BuildProps.g_nq _ _ _ _ G AT).
  - intros AT _. cbn [after b_nq]. rewrite (p_at _ _ _ _ P), AT. rewrite andb_true_r. destruct (b_nq fb =? 0) eqn:Z; [symmetry; apply (BuildProps.g_nq _ _ _ _ G AT)|].
    destruct (p_nq _ _ _ _ P) as [X|X]; [apply Z.eqb_neq in Z; contradiction|exact X].
  - intros AT. cbn [after b_nq]. rewrite (p_at _ _ _ _ P), AT. rewrite andb_false_r. apply (p_nq2 _ _ _ _ P AT).
  - intros s'. pose proof (p_sz _ _ _ _ P s') as X. unfold sz in *. cbn [after b_isz b_osz c_v c_r c]. destruct (Bool.bool_dec s s') as [<-|D'].
    + destruct s; (destruct (of_v o) eqn:V; [exact X| |exact X|exact X]); right; symmetry; apply (BuildProps.g_sz _ _ _ _ G V).
    + destruct s, s'; try congruence; exact X.
  - intros s' i' o' H K V. apply in_app_iff in H. destruct H as [H|[[= <- <-]|[]]].
    + pose proof (p_sz1 _ _ _ _ P _ _ _ H K V) as X. unfold sz in *. cbn [after b_isz b_osz c_v c_r c]. destruct (Bool.bool_dec s s') as [<-|D'].
      * destruct s; (destruct (of_v o) eqn:V'; [exact X| |exact X|exact X]); symmetry; apply (BuildProps.g_sz _ _ _ _ G V').
      * destruct s, s'; try congruence; exact X.
    + assert (o' = o) by congruence. subst o'. pose proof (proj1 (BuildProps.g_sz _ _ _ _ G V)) as X. unfold sz in *. cbn [after b_isz b_osz c_v c_r c]. rewrite V. destruct s; symmetry; exact X.
  - cbn [after b_first c_r c]. destruct (r_pts (of_r o)) as [p|] eqn:R; [|apply (p_first _ _ _ _ P)]. right. symmetry. apply (BuildProps.g_pts _ _ _ _ G p R).
  - intros H. cbn [after b_first c_r c]. destruct (r_pts (of_r o)) as [p|] eqn:R; [|apply (p_first1 _ _ _ _ P H)]. symmetry. apply (BuildProps.g_pts _ _ _ _ G p R).
Qed.
Lemma replay_part st pts : forall l fb D, part st pts fb D -> NoDup (D ++ l) ->
  (forall s i, In (s, i) l -> exists o, slot st s i = FSet o /\ BuildProps.good st s i o /\ forall p, r_pts (of_r o) = Some p -> of_b o = BNone) ->
  exists fb', replay st fb l = Ok fb' /\ part st pts fb' (D ++ l).
Proof.
  induction l as [|[s i] l IH]; intros fb D P N H; cbn [replay].
  - exists fb. rewrite app_nil_r. auto.
  - destruct (H s i (or_introl eq_refl)) as (o & E & G & PN).
    assert (NI : ~ In (s, i) D). { apply NoDup_remove in N. intros X. apply (proj2 N). apply in_app_iff. auto. }
    destruct (part_step _ _ _ _ _ _ _ P NI E G PN) as (fb' & S & P').
    unfold slot in E. rewrite E, S. specialize (IH fb' (D ++ [(s, i)]) P'). rewrite <- app_assoc in IH. apply IH; [exact N|].
    intros s' i' X. apply H. right. exact X.
Qed.

(** ** C64 *)
(** [fb] holds the same fields (name, restriction, basis, vector) for the same QFunction fields, and reports the same numbers, as [st], and is ready *)
Record faithful (st fb : opst) : Prop := Faithful {
  ff_ready : b_ready fb = true; ff_at : b_at fb = b_at st;
  ff_qf : q_vlen (b_qf fb) = q_vlen (b_qf st) /\ q_in (b_qf fb) = q_in (b_qf st) /\ q_out (b_qf fb) = q_out (b_qf st);
  ff_in : forall i, (i < List.length (q_in (b_qf st)))%nat -> b_in fb i = b_in st i /\ exists o, b_in st i = FSet o;
  ff_out : forall i, (i < List.length (q_out (b_qf st)))%nat -> b_out fb i = b_out st i /\ exists o, b_out st i = FSet o;
  ff_ne : b_ne fb = b_ne st; ff_nq : b_at st = false -> b_nq fb = b_nq st;
  ff_isz : b_isz fb = b_isz st; ff_osz : b_osz fb = b_osz st }.

Lemma fields_of_in q s i : In (s, i) (fields_of q) <-> exists f, qf_at q s i = Some f.
Proof. apply BuildProps.all_slots_in. Qed.
Lemma fallback_core qf ap hs st pts : QfProps.inv qf -> src_ok qf -> BuildProps.all_created hs -> BuildProps.once (op_create qf ap) hs ->
  let st0 := run (op_create qf ap) hs in fst (check_ready st0) = Ok tt ->
  (ap = false -> st = st0 /\ pts = None) -> (ap = true -> exists p, pts = Some p /\ set_points st0 p = (Ok tt, st)) ->
  exists fb, op_fallback st pts = Ok fb /\ faithful st fb /\ (pts <> None -> b_first fb = b_first st).
Proof.
  intros QI QS C O st0 R NP P.
  pose proof (BuildProps.inv_run qf ap hs C) as I. pose proof (BuildProps.cnt_run qf ap hs C O) as N.
  destruct (BuildProps.C26_ready qf ap hs C O R) as (FD & (sd & j & fj & oj & Hfj & Hoj & Rj) & NQ). fold st0 in I, N, FD, Hfj, Hoj, NQ.
  assert (AT0 : b_at st0 = ap) by (apply (BuildProps.i_at _ _ _ I)).
  assert (ST : st = st0 \/ exists p, st = with_first st0 (Some p) /\ b_first st0 = None).
  { destruct ap; [|left; apply (NP eq_refl)]. destruct (P eq_refl) as (p & _ & E). unfold set_points in E. rewrite AT0, (BuildProps.i_imm _ _ _ I) in E. simpl in E.
    destruct (b_first st0) as [p0|] eqn:F; [destruct (list_eq_dec Z.eq_dec p0 p); [|discriminate]|]; injection E as <-; [left; reflexivity|right; eauto]. }
  assert (M : BuildProps.moved st0 st).
  { destruct ST as [->|(p & -> & F)]; [apply BuildProps.moved_refl|]. split; simpl; auto; try (intros X; auto; congruence). }
  assert (SL : forall s i, slot st s i = slot st0 s i) by (intros s i; destruct ST as [->|(p & -> & F)]; reflexivity).
  assert (QF : b_qf st = b_qf st0) by (destruct ST as [->|(p & -> & F)]; reflexivity).
  assert (RD : fst (check_ready st) = Ok tt).
  { destruct ST as [->|(p & -> & F)]; [exact R|]. unfold check_ready in *. simpl. destruct (b_ready st0); [reflexivity|]. destruct (b_nf st0 =? 0)%nat; [discriminate|]. cbv zeta in *. simpl in *.
    destruct (negb _); [discriminate|]. destruct (negb _); [discriminate|]. destruct (negb _); [discriminate|]. reflexivity. }
  assert (AT : b_at st = ap) by (rewrite (BuildProps.m_at _ _ M); exact AT0).
  destruct (run_qf hs (op_create qf ap) QI) as (QI' & SS). fold st0 in QI', SS. cbn [op_create b_qf] in SS.
  destruct (qcopy _ QI' (same_src_ok _ _ SS QS)) as (qb & FB & CP1 & CP2 & CP3 & CP4).
  set (fb0 := op_create qb ap).
  assert (PT0 : exists fb1, (if b_at st then
             match fst (check_ready st), pts with
             | Ok _, Some p => match set_points fb0 p with (Ok _, fb') => Ok fb' | (Err e, _) => Err e | (UB, _) => UB end
             | Ok _, None => UB
             | Err e, _ => Err e
             | UB, _ => UB
             end
           else Ok fb0) = Ok fb1 /\ part st pts fb1 []).
  { rewrite AT, RD. destruct ap.
    - destruct (P eq_refl) as (p & -> & E). exists (with_first fb0 (Some p)). split; [reflexivity|].
      assert (F : b_first st = Some p).
      { unfold set_points in E. rewrite AT0, (BuildProps.i_imm _ _ _ I) in E. simpl in E. destruct (b_first st0) as [p0|] eqn:F; [destruct (list_eq_dec Z.eq_dec p0 p); [|discriminate]|]; injection E as <-; [congruence|reflexivity]. }
      split; simpl; rewrite ?QF; auto; try discriminate; try contradiction; try (intros; contradiction); try (intros [|]; auto; fail); try congruence.
    - destruct (NP eq_refl) as (E & ->). exists fb0. split; [reflexivity|].
      split; simpl; rewrite ?QF; auto; try discriminate; try contradiction; try (intros; contradiction); try (intros [|]; auto; fail); try congruence. }
  destruct PT0 as (fb1 & E1 & P1).
  assert (ALL : forall s i, In (s, i) (fields_of (b_qf st)) -> exists o, slot st s i = FSet o /\ BuildProps.good st s i o /\ forall p, r_pts (of_r o) = Some p -> of_b o = BNone).
  { intros s i H. rewrite QF in H. apply fields_of_in in H. destruct H as (f & Hf). destruct (FD _ _ _ Hf) as (l1 & c & l2 & E & Ok1 & _ & Sl & _).
    exists (OF (c_name c) (c_r c) (c_b c) (c_v c)). rewrite SL. split; [exact Sl|]. split.
    - eapply BuildProps.moved_good; [exact M|]. apply (BuildProps.i_good _ _ _ I). exact Sl.
    - intros p Hp. destruct (set_field_ok_inv _ _ Ok1) as (s' & i' & f' & A). apply (ac_pts _ _ _ _ _ A p Hp). }
  destruct (replay_part st pts (fields_of (b_qf st)) fb1 [] P1 (BuildProps.all_slots_nodup _) ALL) as (fb2 & E2 & P2). simpl in P2.
  assert (INJ : In (sd, j) (fields_of (b_qf st))) by (rewrite QF; apply fields_of_in; eauto).
  assert (H2 : b_hasr fb2 = true). { eapply (p_hasr _ _ _ _ P2); [exact INJ|rewrite SL; exact Hoj|exact Rj]. }
  assert (NE : fields_of (b_qf st) <> []) by (intros X; rewrite X in INJ; exact INJ).
  assert (CR : exists fb3, check_ready fb2 = (Ok tt, fb3) /\ b_ready fb3 = true /\ fb3 = OP (q_set_imm (b_qf fb2)) (b_at fb2) (b_in fb2) (b_out fb2) (b_nf fb2) (b_ne fb2) (b_hasr fb2) (b_nq fb2) (b_isz fb2) (b_osz fb2) (b_first fb2) true (b_imm fb2)).
  { unfold check_ready. rewrite (p_rdy _ _ _ _ P2), (p_nf _ _ _ _ P2), H2.
    destruct (List.length (fields_of (b_qf st)) =? 0)%nat eqn:L0; [apply Nat.eqb_eq, length_zero_iff_nil in L0; contradiction|]. cbv zeta.
    rewrite (p_in _ _ _ _ P2), (p_out _ _ _ _ P2). unfold fields_of. rewrite app_length, !map_length, !seq_length, Nat.eqb_refl. simpl.
    assert (X : (0 <? b_nq fb2) || b_at fb2 = true).
    { rewrite (p_at _ _ _ _ P2), AT. destruct ap; [apply orb_true_r|]. rewrite (p_nq1 _ _ _ _ P2 AT NE). destruct (NP eq_refl) as (-> & _). rewrite (proj2 (Z.ltb_lt _ _) (NQ eq_refl)). reflexivity. }
    rewrite X. simpl. rewrite <- H2. eexists. split; [reflexivity|]. split; [reflexivity|]. simpl.
    unfold fields_of. rewrite ?app_length, ?map_length, ?seq_length. f_equal. }
  destruct CR as (fb3 & E3 & R3 & F3).
  exists fb3. split; [|split].
  - unfold op_fallback. rewrite QF, FB. rewrite <- QF. rewrite AT. fold fb0. rewrite AT in E1. cbv zeta. rewrite E1, RD. unfold fields_of in E2. rewrite E2, E3. reflexivity.
  - assert (SF : forall s i f, qf_at (b_qf st) s i = Some f -> slot fb2 s i = slot st s i /\ exists o, slot st s i = FSet o).
    { intros s i f Hf. assert (IN : In (s, i) (fields_of (b_qf st))) by (apply fields_of_in; eauto). split; [apply (p_slot _ _ _ _ P2); exact IN|]. destruct (ALL s i IN) as (o & Ho & _). eauto. }
    assert (SZ : forall s, sz fb2 s = sz st s).
    { intros s. destruct (p_sz _ _ _ _ P2 s) as [X|X]; [|exact X]. destruct (Z.eq_dec (sz st s) (-1)) as [Y|Y]; [congruence|].
      assert (Y0 : sz st0 s <> -1) by (destruct ST as [->|(p & -> & F)]; exact Y).
      destruct (BuildProps.n_sz _ N s Y0) as (i & o & Ho & V). destruct (BuildProps.i_good _ _ _ I _ _ _ Ho) as [_ _ (f & Hf & _) _ _ _ _ _].
      eapply (p_sz1 _ _ _ _ P2); [rewrite QF; apply fields_of_in; eauto|rewrite SL; exact Ho|exact V]. }
    subst fb3. split; simpl; auto.
    + apply (p_at _ _ _ _ P2).
    + rewrite (p_vlen _ _ _ _ P2), (p_in _ _ _ _ P2), (p_out _ _ _ _ P2). auto.
    + intros i L. apply nth_error_Some in L. destruct (nth_error (q_in (b_qf st)) i) as [f|] eqn:Hf; [|congruence]. apply (SF true i f Hf).
    + intros i L. apply nth_error_Some in L. destruct (nth_error (q_out (b_qf st)) i) as [f|] eqn:Hf; [|congruence]. apply (SF false i f Hf).
    + apply (p_ne _ _ _ _ P2 H2).
    + intros A. apply (p_nq1 _ _ _ _ P2 A NE).
    + apply (SZ true).
    + apply (SZ false).
  - intros X. subst fb3. simpl. apply (p_first1 _ _ _ _ P2 X).
Qed.

(** a QFunction as users make it: created, then any history of calls; its kernel name was asked for if its source path was (the other case is the finding of C21) *)
Definition user_qf (fs : fsys) (roots : list str) (q : qfun) : Prop :=
  exists vlen src q0 l rs, q_create vlen src = Ok q0 /\ q_run fs roots q0 l = (rs, q) /\ (q_path q <> None -> q_kname q <> None).
Lemma user_qf_ok fs roots q : user_qf fs roots q -> QfProps.inv q /\ src_ok q.
Proof.
  intros (vlen & src & q0 & l & rs & C & H & K). split.
  - eapply QfProps.run_inv; [exact H|]. apply (proj1 (QfProps.create_inv _ _ _ C)).
  - eapply created_src; eauto.
Qed.
(** The fallback of a ready operator can be made and is a copy of it. *)
Theorem C64_copy fs roots qf hs : user_qf fs roots qf -> BuildProps.all_created hs -> BuildProps.once (op_create qf false) hs ->
  let st := run (op_create qf false) hs in fst (check_ready st) = Ok tt ->
  exists fb, op_fallback st None = Ok fb /\ faithful st fb.
Proof.
  intros U C O st R. destruct (user_qf_ok _ _ _ U) as (I & S).
  destruct (fallback_core qf false hs st None I S C O R) as (fb & E & F & _); [auto|discriminate|eauto].
Qed.
(** The same for operators at points whose points were set (after the fields). *)
Theorem C64_copy_at_points fs roots qf hs p st : user_qf fs roots qf -> BuildProps.all_created hs -> BuildProps.once (op_create qf true) hs ->
  fst (check_ready (run (op_create qf true) hs)) = Ok tt -> set_points (run (op_create qf true) hs) p = (Ok tt, st) ->
  exists fb, op_fallback st (Some p) = Ok fb /\ faithful st fb /\ b_first fb = Some p.
Proof.
  intros U C O R P. destruct (user_qf_ok _ _ _ U) as (I & S).
  destruct (fallback_core qf true hs st (Some p) I S C O R) as (fb & E & F & G); [discriminate|intros _; eauto|].
  exists fb. split; [exact E|]. split; [exact F|]. rewrite G by discriminate.
  unfold set_points in P. destruct (negb _); [discriminate|]. destruct (b_imm _); [discriminate|].
  destruct (b_first (run (op_create qf true) hs)) as [p0|] eqn:B; [destruct (list_eq_dec Z.eq_dec p0 p); [|discriminate]|]; injection P as <-; [congruence|reflexivity].
Qed.
(** Asking again gives the same fallback. *)
Theorem C64_cached o f o' : get_fallback o = (Ok f, o') -> fst (get_fallback o') = Ok f.
Proof.
  unfold get_fallback. destruct (fo_fb o) as [x|] eqn:E.
  - intros H. injection H as <- <-. rewrite E. reflexivity.
  - destruct (fo_has o) eqn:HH.
    + destruct (op_fallback (fo_st o) (fo_pts o)) as [x| |] eqn:F; [|discriminate|discriminate]. intros H. injection H as <- <-. reflexivity.
    + intros H. injection H as <- <-. rewrite E, HH. reflexivity.
Qed.
(** The fallback of a composite operator (at most 16 sub-operators, their lengths agree) has the fallbacks of the sub-operators, in order. *)
Definition agree (z : Z) (l : list Z) : Prop := forall x, In x l -> x = -1 \/ x = z.
Theorem C64_composite subs fbs zi zo : (List.length subs <= 16)%nat -> Forall2 (fun s f => fst (get_fallback s) = Ok (Some f)) subs fbs ->
  agree zi (map b_isz fbs) -> agree zo (map b_osz fbs) ->
  exists i o, comp_fallback subs [] (-1) (-1) = Ok (fbs, i, o) /\ (i = -1 <-> forall f, In f fbs -> b_isz f = -1 \/ zi = -1) /\ (o = -1 <-> forall f, In f fbs -> b_osz f = -1 \/ zo = -1).
Proof.
  intros L F A B.
  assert (G : forall subs fbs, Forall2 (fun s f => fst (get_fallback s) = Ok (Some f)) subs fbs -> forall acc i o, (List.length acc + List.length subs <= 16)%nat ->
    agree zi (map b_isz fbs) -> agree zo (map b_osz fbs) -> (i = -1 \/ i = zi) -> (o = -1 \/ o = zo) ->
    exists i' o', comp_fallback subs acc i o = Ok (acc ++ fbs, i', o') /\
      (i' = -1 <-> i = -1 /\ forall f, In f fbs -> b_isz f = -1 \/ zi = -1) /\ (o' = -1 <-> o = -1 /\ forall f, In f fbs -> b_osz f = -1 \/ zo = -1)).
  { clear. intros subs fbs F. induction F as [|s f subs fbs E F IH]; intros acc i o L A B Hi Ho; cbn [comp_fallback].
    - exists i, o. rewrite app_nil_r. split; [reflexivity|]. split; (split; [intros X; split; [exact X|intros ? []]|tauto]).
    - rewrite E. simpl in L. destruct (Nat.leb_spec 16 (List.length acc)); [lia|].
      assert (A0 : b_isz f = -1 \/ b_isz f = zi) by (apply A; left; reflexivity). assert (B0 : b_osz f = -1 \/ b_osz f = zo) by (apply B; left; reflexivity).
      set (i1 := if i =? -1 then b_isz f else i). set (o1 := if o =? -1 then b_osz f else o).
      assert (I1 : (b_isz f =? -1) || (b_isz f =? i1) = true). { unfold i1. apply orb_true_iff. rewrite !Z.eqb_eq. destruct (Z.eqb_spec i (-1)); destruct A0, Hi; subst; auto; lia. }
      assert (O1 : (b_osz f =? -1) || (b_osz f =? o1) = true). { unfold o1. apply orb_true_iff. rewrite !Z.eqb_eq. destruct (Z.eqb_spec o (-1)); destruct B0, Ho; subst; auto; lia. }
      rewrite I1, O1. cbn [andb].
      destruct (IH (acc ++ [f]) i1 o1) as (i' & o' & K & K1 & K2).
      + rewrite app_length. simpl. lia.
      + intros x X. apply A. right. exact X.
      + intros x X. apply B. right. exact X.
      + unfold i1. destruct (Z.eqb_spec i (-1)); auto.
      + unfold o1. destruct (Z.eqb_spec o (-1)); auto.
      + exists i', o'. rewrite K, <- app_assoc. split; [reflexivity|]. split.
        * rewrite K1. unfold i1. destruct (Z.eqb_spec i (-1)) as [X|X]; split.
          -- intros (Y1 & Y2). split; [exact X|]. intros g [<-|Hg]; auto.
          -- intros (_ & Y). split; [destruct (Y f (or_introl eq_refl)); auto; destruct A0; congruence|]. intros g Hg. apply Y. right. exact Hg.
          -- intros (Y & _). contradiction.
          -- intros (Y & _). contradiction.
        * rewrite K2. unfold o1. destruct (Z.eqb_spec o (-1)) as [X|X]; split.
          -- intros (Y1 & Y2). split; [exact X|]. intros g [<-|Hg]; auto.
          -- intros (_ & Y). split; [destruct (Y f (or_introl eq_refl)); auto; destruct B0; congruence|]. intros g Hg. apply Y. right. exact Hg.
          -- intros (Y & _). contradiction.
          -- intros (Y & _). contradiction. }
  destruct (G subs fbs F [] (-1) (-1)) as (i & o & K & K1 & K2); auto. exists i, o. split; [exact K|]. rewrite K1, K2. tauto.
Qed.

Definition ex_qf := mkQFun 1 [BuildProps.mass_u; BuildProps.mass_w] [BuildProps.mass_v] false None None None.
Definition ex_hs := [HSet BuildProps.mass_cv; HSet BuildProps.mass_cu; HSet BuildProps.mass_cw].
Definition ex_st : opst := run (op_create ex_qf false) ex_hs.
Definition ex_obj (has : bool) : fobj := FO ex_st None has None.
(** Finding: a sub-operator whose Ceed has no fallback gives a NULL fallback (and success), which CeedOperatorCreateFallback (ceed-preconditioning.c:135-138) hands to CeedCompositeOperatorAddSub:
    a NULL pointer is dereferenced. *)
Theorem C64_null_sub_refuted s t acc i o : fo_fb s = None -> fo_has s = false -> comp_fallback (s :: t) acc i o = UB.
Proof. intros H1 H2. cbn [comp_fallback]. unfold get_fallback. rewrite H1, H2. reflexivity. Qed.
Definition ex_fb : opst := Eval vm_compute in match fst (get_fallback (ex_obj true)) with Ok (Some f) => f | _ => op_create ex_qf false end.
(** Finding: the fallback is made once; a field that is changed later (nothing forbids it, see C27) is changed in the operator only, and every later fallback call works with the old field. *)
Theorem C64_stale_refuted : exists o1 o2 f c, get_fallback (ex_obj true) = (Ok (Some f), o1) /\ fset o1 c = (Ok tt, o2) /\ fst (get_fallback o2) = Ok (Some f) /\
  b_in (fo_st o2) 0 = FSet (OF (c_name c) (c_r c) (c_b c) (c_v c)) /\ b_in f 0 = FSet (OF (c_name BuildProps.mass_cu) (c_r BuildProps.mass_cu) (c_b BuildProps.mass_cu) (c_v BuildProps.mass_cu)) /\ c_v c <> c_v BuildProps.mass_cu.
Proof.
  set (c := Call (c_name BuildProps.mass_cu) (c_r BuildProps.mass_cu) (c_b BuildProps.mass_cu) (VVec 3)).
  exists (FO (fo_st (ex_obj true)) (fo_pts (ex_obj true)) true (Some ex_fb)), (FO (snd (set_field (fo_st (ex_obj true)) c)) (fo_pts (ex_obj true)) true (Some ex_fb)), ex_fb, c.
  split; [vm_compute; reflexivity|]. split; [vm_compute; reflexivity|]. split; [vm_compute; reflexivity|]. split; [vm_compute; reflexivity|]. split; [vm_compute; reflexivity|discriminate].
Qed.
(** Finding: an operator at points is ready without points (ceed-operator.c:1417); making its fallback then takes a reference to a NULL restriction. *)
Theorem C64_no_points_refuted qf hs : QfProps.inv qf -> src_ok qf -> let st := run (op_create qf true) hs in fst (check_ready st) = Ok tt -> op_fallback st None = UB.
Proof.
  intros QI QS st R. destruct (run_qf hs (op_create qf true) QI) as (QI' & SS). destruct (qcopy _ QI' (same_src_ok _ _ SS QS)) as (qb & FB & _). fold st in FB.
  unfold op_fallback. rewrite FB. assert (AT : b_at st = true) by (apply (BuildProps.m_at _ _ (BuildProps.run_moved hs (op_create qf true)))). rewrite AT, R. reflexivity.
Qed.
(** Finding: a field left blank or unset by an operator reported ready (see C26) is dereferenced. *)
Theorem C64_blank_refuted : exists qf hs, QfProps.inv qf /\ src_ok qf /\ fst (check_ready (run (op_create qf false) hs)) = Ok tt /\ op_fallback (run (op_create qf false) hs) None = UB.
Proof.
  exists (mkQFun 1 [BuildProps.mass_u] [BuildProps.mass_v] false None None None), [HSet BuildProps.mass_cu; HSet BuildProps.mass_cu].
  split; [|split; [|split; vm_compute; reflexivity]].
  - unfold QfProps.inv, QfProps.names. simpl. split; [repeat constructor; simpl; intuition discriminate|]. split; [intros f [<-|[]]; discriminate|]. split; [intros f [<-|[]]; discriminate|]. unfold FIELD_MAX. lia.
  - exists []. eexists. split; reflexivity.
Qed.
(** Finding: the copy of the QFunction keeps the context but not its other attributes: the context of a QFunction declared read-only (CeedQFunctionSetContextWritable) is accessed for writing
    in the fallback, and the user's flop estimate is lost, so that the fallback operator has no flop estimate. *)
Theorem C64_attributes_refuted a ne nq ins outs n : qa_write a = false -> (0 < ne)%Z -> (0 <= qa_flops a)%Z -> op_flops1 (mkFO ne nq (qa_flops a) ins outs) = Ok n ->
  qa_ctx (fallback_attr a) = qa_ctx a /\ qa_write (fallback_attr a) = true /\ op_flops1 (mkFO ne nq (qa_flops (fallback_attr a)) ins outs) = Err ERR_INCOMPLETE.
Proof.
  intros W N Q H. split; [reflexivity|]. split; [reflexivity|]. unfold op_flops1 in *. simpl in *. destruct (ne =? 0) eqn:Z; [apply Z.eqb_eq in Z; lia|].
  destruct (field_flops NoTranspose ne ins 0); [reflexivity|discriminate|discriminate].
Qed.

(** concrete cases *)
Lemma ex_created : BuildProps.all_created ex_hs.
Proof. intros c H. cbn in H. repeat (destruct H as [H|H]; [try discriminate; injection H as <-; split; intros d Hd; try discriminate; injection Hd as <-; cbn; lia|]). contradiction. Qed.
Example C64_witness : user_qf (fun _ => true) [] ex_qf /\ BuildProps.all_created ex_hs /\ BuildProps.once (op_create ex_qf false) ex_hs /\ fst (check_ready ex_st) = Ok tt /\
  exists fb, op_fallback ex_st None = Ok fb /\ b_isz fb = 5 /\ b_nf fb = 3%nat.
Proof.
  split; [|split; [exact ex_created|split; [apply BuildProps.onceb_once; vm_compute; reflexivity|split; [vm_compute; reflexivity|exists ex_fb; split; [vm_compute; reflexivity|vm_compute; auto]]]]].
  exists 1, []. do 3 eexists. split; [reflexivity|]. split; [|simpl; congruence].
  instantiate (2 := [QAddIn (qf_name BuildProps.mass_u) 1 EvInterp; QAddIn (qf_name BuildProps.mass_w) 1 EvWeight; QAddOut (qf_name BuildProps.mass_v) 1 EvInterp]). reflexivity.
Qed.
Definition ex_pq := mkQFun 1 [mkQField (qf_name BuildProps.mass_u) 1 EvInterp] [mkQField (qf_name BuildProps.mass_v) 1 EvNone] false None None None.
Definition ex_ph := [HSet BuildProps.mass_cu; HSet (Call (qf_name BuildProps.mass_v) (RArg (RD 4 1 9 7 (Some [1; 2; 2; 2]))) BNone VActive)].
Definition ex_pfb : opst := Eval vm_compute in match op_fallback (snd (set_points (run (op_create ex_pq true) ex_ph) [1; 2; 2; 2])) (Some [1; 2; 2; 2]) with Ok f => f | _ => op_create ex_pq true end.
Example C64_points_witness : fst (check_ready (run (op_create ex_pq true) ex_ph)) = Ok tt /\ fst (set_points (run (op_create ex_pq true) ex_ph) [1; 2; 2; 2]) = Ok tt /\
  fst (set_points (run (op_create ex_pq true) ex_ph) [1; 2; 2; 3]) = Err ERR_INCOMPATIBLE /\
  exists fb, op_fallback (snd (set_points (run (op_create ex_pq true) ex_ph) [1; 2; 2; 2])) (Some [1; 2; 2; 2]) = Ok fb.
Proof. split; [vm_compute; reflexivity|]. split; [vm_compute; reflexivity|]. split; [vm_compute; reflexivity|]. exists ex_pfb. vm_compute. reflexivity. Qed.
Example C64_composite_witness : exists fbs, comp_fallback [ex_obj true; ex_obj true] [] (-1) (-1) = Ok (fbs, 5, 5) /\ List.length fbs = 2%nat.
Proof. exists [ex_fb; ex_fb]. split; [vm_compute|]; reflexivity. Qed.

Print Assumptions C64_copy.
Print Assumptions C64_copy_at_points.
Print Assumptions C64_cached.
Print Assumptions C64_composite.
Print Assumptions C64_null_sub_refuted.
Print Assumptions C64_stale_refuted.
Print Assumptions C64_no_points_refuted.
Print Assumptions C64_blank_refuted.
Print Assumptions C64_attributes_refuted.
