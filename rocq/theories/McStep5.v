(** * One action of a client that keeps the rules, concluded: arrays handed over, copies, norms; whole histories *)
From Coq Require Import List ZArith Lia Bool Arith.
From Verif Require Import Prelude RstrModel VecModel VecSpec VecProofs VecSim VecLaws McModel McSpec McProofs McStep McStep2 McStep3 McStep4.
Import ListNotations.
Set Implicit Arguments.
Local Open Scope Z_scope.

Section P.
Variable R : Rng.
Variables (nan : R) (eqs : R -> R -> bool).
Hypothesis eqs_refl : forall a, eqs a a = true.
Variables (fabs : R -> R) (gtb : R -> R -> bool) (sqrt : R -> R) (big : R -> bool) (inv : R -> R).
Notation upds := (@upds R). Notation astate := (astate R). Notation avec := (avec R). Notation mvec := (mvec R). Notation mworld := (mworld R). Notation heap := (heap R).
Notation mbstep := (mbstep nan eqs fabs gtb sqrt big inv).
Notation astep := (astep fabs gtb sqrt big inv).

Implicit Types (y : avec) (x : mvec) (w : mworld) (s : astate).
Ltac gn := rewrite ?gn_def, ?gn_sync, ?gn_st.
Ltac pw := intros; cbn; unfold nupd; repeat match goal with |- context [Nat.eqb ?a ?b] => destruct (Nat.eqb_spec a b); subst end; auto; try congruence.
Ltac live H E v y x HD BD := match goal with S : zlive ?s v _ = Some _ |- _ => destruct (strict_live _ _ _ S) as (y & E & ?); clear S end;
  destruct (look v H E) as (x & ? & HD & BD).
Ltac same S := inversion S; subst; eexists; split; [reflexivity|auto].

(** what a vector holds is either owned, and not the client's any more, or borrowed *)
Lemma ext_none : forall us hp y x gd gs, vbody us hp y x gd gs -> m_owned x = None \/ m_borrowed x = None.
Proof. intros us hp y x gd gs B. unfold vbody, body in B. destruct (Nat.eqb (a_len y) 0); [destruct B as (_ & B & _); auto|]. destruct (a_cont y); [destruct B as (_ & B & _)|destruct B as (B & _)|destruct B as (_ & B & _)]; auto. Qed.
Arguments ext_none {us hp y x gd gs}.
Definition freed x (h : heap) : heap := match m_owned x with Some k => nupd h k None | None => h end.
Lemma set_hand : forall us y x g v st (h : heap) n l mode, hdr y x st -> vbody us h y x (g_def g v) (g_sync g v) -> a_len y <> O -> h n = Some l -> ~ holds x n -> (a_len y <= length l)%nat -> mode <> CopyValues ->
  set_array_mc nan x h true mode (ABlock n) = BOk (mc_alloc (match mode with OwnPointer => mc_ext x (Some n) None | _ => mc_ext x None (Some n) end) (Some (firstn (a_len y) l))) (freed x h).
Proof.
  intros us y x g v st h n l mode HD BD Z HN NH LL M. unfold set_array_mc, freed. simpl negb. cbv iota.
  assert (K : forall k, m_owned x = Some k -> exists lk, h k = Some lk /\ (m_len x <= length lk)%nat /\ k <> n).
  { intros k O. assert (k <> n) by (intro; subst; apply NH; left; auto). rewrite (h_len HD). unfold vbody, body in BD. destruct (Nat.eqb_spec (a_len y) 0); [contradiction|]. destruct (a_cont y).
    - destruct BD as (_ & B & _). congruence.
    - destruct BD as (_ & B & _). destruct (B _ O) as (_ & lk & ? & ?). eauto.
    - destruct BD as (_ & B & _). congruence. }
  destruct mode; try contradiction; (destruct (m_owned x) as [k|];
    [destruct (K k eq_refl) as (lk & K1 & K2 & K3); rewrite K1, (proj2 (Nat.leb_le _ _)) by auto; cbn; unfold nupd at 1; destruct (Nat.eqb_spec n k); [congruence|]|cbn];
    rewrite HN; unfold cpy; rewrite (h_len HD), (proj2 (Nat.leb_le _ _)) by auto; reflexivity).
Qed.
Lemma mc_set_array : forall s w g g' v host mode a, rel s w g -> strict (CSetArray v host mode a) s g = Some g' -> sim (astep (CSetArray v host mode a) s) (mbstep (CSetArray v host mode a) w) g'.
Proof.
  intros s w g g' v host mode a H S. cbn [strict] in S. cbn [VecSpec.astep McModel.mbstep].
  destruct host; [destruct mode; [apply (@sa_copy R nan s w g g' v a H S)| |]|].
  all: unfold strict_set_array in S; live H Ey v y x HD BD; rename H0 into S, H1 into Ex; unfold s_set_array, live, mi_set_array, mlive; rewrite Ey, Ex, (hdr_locked HD).
  all: destruct (locked y) eqn:L; [same S|].
  all: rewrite (hdr_empty HD); destruct (Nat.eqb_spec (a_len y) 0) as [Z|Z];
   [inversion S; subst; cbn; eexists; split; [reflexivity|]; eapply rel_len0 with (v := v) (y := y) (x := x) (y' := tick y 2) (x' := bumpm x 2); eauto; try reflexivity;
     [gn; eapply hdr_idle; eauto; cbn; auto; [apply bump_st, (h_st HD)|apply even2]|intros; apply gn_oth; auto]|].
  all: simpl negb in *; cbv iota in *.
  3:{ inversion S; subst. cbn. eexists. split; [reflexivity|]. apply putm_same; auto. }
  all: destruct a as [|n|u|u]; try discriminate; apply rule_true in S; destruct S as (S & ->); apply andb_prop in S; destruct S as (LV & LN); apply negb_true_iff in LN; destruct (s_user s n) as [l|] eqn:U; [|exact I].
  2: destruct (shared_elsewhere s v n); [exact I|]; simpl orb.
  all: destruct (Nat.ltb_spec (length l) (a_len y)) as [|LL]; [exact I|].
  all: pose proof (block_same n H U LN) as HN; pose proof (no_holder H U LN v Ex) as NH; pose proof (no_holder H U LN) as NHA.
  all: destruct (unlocked_parts y L) as (L1 & L2); destruct (idle HD BD L Z) as (_ & _ & I3 & I4 & _).
  all: assert (KO : forall k, m_owned x = Some k -> s_user s k = None /\ k <> n) by (intros k K; pose proof (owned_none BD K); split; auto; congruence).
  all: assert (KB : forall k, m_borrowed x = Some k -> s_user s k = w_mh w k /\ k <> n) by (intros k K; split; [eapply leave_ok; eauto|intro; subst; apply NH; right; auto]).
  all: assert (FN : freed x (w_mh w) n = Some l) by (unfold freed; destruct (m_owned x) as [k|]; auto; unfold nupd; destruct (Nat.eqb_spec n k); auto; destruct (KO k eq_refl); congruence).
  all: assert (FO : forall m, freed x (w_mh w) m = w_mh w m \/ m_owned x = Some m) by (intro m; unfold freed; destruct (m_owned x) as [k|]; auto; unfold nupd; destruct (Nat.eqb_spec m k); subst; auto).
  all: assert (FK : forall m, holds x m -> m <> n /\ s_user s m = freed x (w_mh w) m).
  all: try (intros m [K|K]; [destruct (KO m K); split; auto; unfold freed; rewrite K; unfold nupd; rewrite Nat.eqb_refl; auto
    |destruct (KB m K); split; auto; destruct (ext_none BD) as [Q|Q]; [unfold freed; rewrite Q; auto|congruence]]).
  - cbn [msrc]. rewrite (@set_hand (s_user s) y x g v (g_st g v) (w_mh w) n l UsePointer) by (auto; discriminate). cbn [lift odone fst snd mdone mthen]. eexists. split; [reflexivity|].
    eapply rel_upd with (v := v) (y := y) (x := x) (y' := tick (ct y (CShared n)) 2) (x' := bumpm (mc_alloc (mc_ext x None (Some n)) (Some (firstn (a_len y) l))) 2); eauto; try reflexivity.
    + intros. apply gn_oth; auto.
    + intro m. cbn. destruct (FO m) as [Q|Q]; [auto|right; left; left; auto].
    + intros m [Q|Q]; inversion Q; subst. right. split; [congruence|]. exact NHA.
    + intros m Q _. cbn. apply FK; auto.
    + gn. eapply hdr_idle; eauto; cbn; auto; [apply bump_st, (h_st HD)|apply even2].
    + gn. unfold vbody, body. cbn. destruct (Nat.eqb_spec (a_len y) 0); [contradiction|]. split; auto. split; auto. exists l, l. split; auto. split; auto. split; auto. split; auto.
      replace (busy _) with false by (unfold busy in *; cbn; rewrite even2; auto). split; auto.
      split; auto. eexists. split; [reflexivity|]. split; [rewrite firstn_length; lia|]. rewrite L2, I4. split; auto. split; auto. intros i I1 _. apply firstn_vf; auto.
  - cbn [msrc]. rewrite (@set_hand (s_user s) y x g v (g_st g v) (w_mh w) n l OwnPointer) by (auto; discriminate). cbn [lift odone fst snd mdone mthen]. eexists. split; [reflexivity|].
    eapply rel_upd with (v := v) (y := y) (x := x) (y' := tick (ct y (COwn l)) 2) (x' := bumpm (mc_alloc (mc_ext x (Some n) None) (Some (firstn (a_len y) l))) 2); eauto; try reflexivity.
    + intros. apply gn_oth; auto.
    + intro m. cbn. unfold nupd. destruct (Nat.eqb_spec m n) as [->|Nm]; [right; right; left; auto|]. destruct (FO m) as [Q|Q]; [auto|right; left; left; auto].
    + intros m [Q|Q]; inversion Q; subst. right. split; [congruence|]. exact NHA.
    + intros m Q _. cbn. unfold nupd. destruct (FK m Q) as (Q1 & Q2). destruct (Nat.eqb_spec m n); [contradiction|auto].
    + gn. eapply hdr_idle; eauto; cbn; auto; [apply bump_st, (h_st HD)|apply even2].
    + gn. unfold vbody, body. cbn. destruct (Nat.eqb_spec (a_len y) 0); [contradiction|]. split; auto. split.
      * intros k Q. inversion Q; subst. unfold nupd. rewrite Nat.eqb_refl. split; auto. exists l. auto.
      * replace (busy _) with false by (unfold busy in *; cbn; rewrite even2; auto). split; auto. eexists. split; [reflexivity|]. split; [rewrite firstn_length; lia|]. rewrite L2, I4. split; auto. split; auto. intros i I1 _. apply firstn_vf; auto.
Qed.
Lemma mc_take : forall s w g g' v host, rel s w g -> strict (CTake v host) s g = Some g' -> sim (astep (CTake v host) s) (mbstep (CTake v host) w) g'.
Proof.
  intros s w g g' v host H S. cbn [strict] in S. live H Ey v y x HD BD. rename H0 into S, H1 into Ex. cbn [VecSpec.astep McModel.mbstep]. unfold s_take, live, mi_take, mlive. rewrite Ey, Ex, (hdr_locked HD).
  destruct (locked y) eqn:L. { same S. } rewrite (hdr_empty HD). destruct (Nat.eqb_spec (a_len y) 0) as [Z|Z]. { same S. }
  destruct host; simpl negb in *; simpl orb in *; cbv iota in *. 2:{ same S. }
  destruct (a_cont y) as [|l|n] eqn:C.
  1,2: (destruct (m_borrowed x) as [k|] eqn:B; [pose proof (borrowed_shared BD B); congruence|]; same S).
  apply rule_true in S. destruct S as (AD & ->). destruct (bounds BD C Z) as (B & O). assert (CN : a_cont y <> CEmpty) by congruence. destruct (valid_data BD Z CN) as (l & CV & D1 & la & D2 & D3 & D4 & D5). destruct (unlocked_parts y L) as (L1 & L2). rewrite L1 in D5. rewrite L2 in D4. destruct D5 as (D5 & AG).
  destruct (sync_ok (la := la) BD Z (h_len HD) x) as (h' & E1 & E2 & E3); auto. rewrite B. cbn [has negb]. unfold mvalid. rewrite D2. cbn [has]. rewrite orb_true_r. cbn [negb]. unfold take_mc. rewrite E1. cbn [bbind lift fst snd mthen option_map].
  eexists. split; [reflexivity|].
  assert (HN : h' n = s_user s n).
  { pose proof BD as BD'. unfold vbody, body in BD'. destruct (Nat.eqb_spec (a_len y) 0); [contradiction|]. rewrite C in BD'. destruct BD' as (_ & _ & l0 & h & F1 & F2 & F3 & F4 & _). unfold cval in CV. rewrite C in CV. rewrite CV in F1. inversion F1; subst l0. rewrite CV.
    destruct (E2 n) as [Q|(_ & h1 & h2 & Q1 & Q2 & Q3 & Q4)].
    - rewrite Q, F2. f_equal. apply (@list_eq R (a_len y)); auto. intros i I1. rewrite F2 in Q. rewrite <- (AG i I1 (alldef_true _ _ _ AD I1)). rewrite <- (E3 n h C Q). symmetry. apply firstn_vf; auto.
    - rewrite F2 in Q1. inversion Q1; subst h1. rewrite Q2. f_equal. apply (@list_eq R (a_len y)); [lia| |congruence]. intros i I1. rewrite <- (AG i I1 (alldef_true _ _ _ AD I1)). rewrite <- (E3 n h2 C Q2). symmetry. apply firstn_vf; auto. }
  eapply rel_upd with (v := v) (y := y) (x := x) (y' := ct y CEmpty) (x' := mc_alloc (mc_ext x (m_owned x) None) None); eauto; try reflexivity.
  - intro m. cbn. destruct (E2 m) as [Q|(Q & _)]; auto.
  - intros m [Q|Q]; cbn in Q; [congruence|discriminate].
  - intros m [Q|Q] _; [congruence|]. rewrite B in Q. inversion Q; subst. cbn. auto.
  - destruct HD; constructor; auto.
  - unfold vbody, body. cbn. destruct (Nat.eqb_spec (a_len y) 0); [contradiction|]. change (busy (ct y CEmpty)) with (busy y). auto 10.
Qed.

(** ** Norms *)
Lemma lnorm_ok : forall nt (l : list R) a, lnorm fabs gtb nt l (length l) a = Some (fold_left (fun (c b : R) => match nt with Norm1 => (c + fabs b)%R | Norm2 => (c + fabs b * fabs b)%R | NormMax => if gtb c (fabs b) then c else fabs b end) l a).
Proof. intros nt l. induction l as [|b l IH]; intro a; simpl; auto. Qed.
(** read access granted and given back *)
Lemma read_back : forall w v x la, w_mv w v = Some x -> m_len x <> O -> 0 <= m_readers x -> m_readers x + 1 < two64 -> m_alloc x = Some la -> length la = m_len x -> m_ro x = (if m_readers x =? 0 then None else Some la) ->
  forall w1, w_mv w1 v = Some (got_ro x la) -> mi_restore_read eqs v w1 = MOk tt (putm w1 v x (w_mh w1)).
Proof.
  intros w v x la Ex Z R0 R1 A LA RO w1 E. destruct (got_ro_fields x la) as (F1 & F2 & F3 & F4 & F5 & F6 & F7 & F8 & F9 & F10). unfold mi_restore_read, mlive. rewrite E, F3, rd_add by lia. rewrite (proj2 (Z.ltb_lt _ _)) by lia. cbv zeta.
  cbn [m_readers mc_readers]. rewrite rd_add by lia. replace (m_readers x + 1 + -1) with (m_readers x) by lia. unfold empty. cbn [m_len mc_readers]. rewrite F1. destruct (Nat.eqb_spec (m_len x) 0); [contradiction|]. simpl.
  destruct (Z.eqb_spec (m_readers x) 0) as [Q|Q].
  - unfold restore_read_mc. cbn [m_alloc m_ro m_len mc_readers]. rewrite F1, F5, A, F10, RO. rewrite (@same_refl R eqs eqs_refl) by lia. cbn. unfold got_ro. rewrite RO. do 2 f_equal. destruct x; cbn in *. subst. reflexivity.
  - cbn. unfold got_ro. rewrite RO. do 2 f_equal. destruct x; cbn in *. reflexivity.
Qed.
Lemma mc_norm : forall s w g g' v nt, rel s w g -> strict (CNorm v nt) s g = Some g' -> sim (astep (CNorm v nt) s) (mbstep (CNorm v nt) w) g'.
Proof.
  intros s w g g' v nt H S. cbn [strict] in S. live H Ey v y x HD BD. rename H0 into S, H1 into Ex. cbn [VecSpec.astep McModel.mbstep]. unfold s_norm, live, mi_norm, mlive. rewrite Ey, Ex, (valid_ok HD BD), negb_involutive.
  destruct (invalid y) eqn:IV. { same S. } rewrite (hdr_empty HD). destruct (Nat.eqb_spec (a_len y) 0) as [Z|Z]. { same S. }
  destruct (busy y) eqn:L. { unfold mi_get_read, mlive. rewrite Ex, (hdr_busy HD), L. same S. }
  apply rule_true in S. destruct S as (AD & ->). destruct (many y) eqn:M; [exact I|]. unfold many in M. apply Z.leb_gt in M. pose proof (invalid_false y IV Z) as C. destruct (valid_data BD Z C) as (l & CV & D1 & la & D2 & D3 & D4 & D5). rewrite L in D5. destruct D5 as (_ & AG).
  rewrite conts_cval, CV. rewrite (@mi_get_read_ok R w v x la Ex) by (rewrite ?(hdr_busy HD), ?(h_len HD); auto). cbn [mthen w_mv putm]. unfold nupd. rewrite Nat.eqb_refl.
  destruct (got_ro_fields x la) as (F1 & F2 & F3 & F4 & F5 & F6 & F7 & F8 & F9 & F10). rewrite F10. pose proof (h_r0 HD) as R0.
  assert (RO : m_ro x = (if m_readers x =? 0 then None else Some la)) by (rewrite (h_rd HD); auto).
  replace (match m_ro x with Some l0 => Some l0 | None => Some la end) with (Some la) by (rewrite RO; destruct (m_readers x =? 0); auto). cbv iota. rewrite F1, (h_len HD), <- D3, lnorm_ok.
  rewrite (@read_back w v x la Ex) by (rewrite ?(h_rd HD), ?(h_len HD); auto; try lia; cbn; unfold nupd; rewrite Nat.eqb_refl; auto). cbn [mthen].
  assert (EQ : firstn (length la) l = la). { apply vf_ext; [rewrite firstn_length; lia|]. intros j J. rewrite firstn_length in J. rewrite firstn_vf by lia. symmetry. apply AG; [lia|]. apply (alldef_true _ _ _ AD). lia. }
  rewrite EQ. eexists. split; [destruct nt; reflexivity|]. eapply rel_ext; eauto. intro u. cbn. unfold nupd. destruct (Nat.eqb_spec u v); subst; auto.
Qed.
End P.
