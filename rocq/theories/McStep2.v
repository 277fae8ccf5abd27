(** * One action of a client that keeps the rules, continued: access, arrays, copies, client blocks *)
From Coq Require Import List ZArith Lia Bool Arith.
From Verif Require Import Prelude RstrModel VecModel VecSpec VecProofs VecSim VecLaws McModel McSpec McProofs McStep.
Import ListNotations.
Set Implicit Arguments.
Local Open Scope Z_scope.

Section P.
Variable R : Rng.
Variables (nan : R) (eqs : R -> R -> bool).
Hypothesis eqs_refl : forall a, eqs a a = true.
Variables (fabs : R -> R) (gtb : R -> R -> bool) (sqrt : R -> R) (big : R -> bool) (inv : R -> R).
Notation upds := (@upds R). Notation astate := (astate R). Notation avec := (avec R). Notation mvec := (mvec R). Notation mworld := (mworld R). Notation heap := (heap R).
Notation mbstep := (mbstep nan eqs fabs gtb sqrt big inv).
Notation astep := (astep fabs gtb sqrt big inv).

Implicit Types (y : avec) (x : mvec) (w : mworld) (s : astate).
Ltac gn := rewrite ?gn_def, ?gn_sync, ?gn_st.
Ltac pw := intros; cbn; unfold nupd; repeat match goal with |- context [Nat.eqb ?a ?b] => destruct (Nat.eqb_spec a b); subst end; auto; try congruence.
Ltac live H E v y x HD BD := match goal with S : zlive ?s v _ = Some _ |- _ => destruct (strict_live _ _ _ S) as (y & E & ?); clear S end;
  destruct (look v H E) as (x & ? & HD & BD).
Ltac same S := inversion S; subst; eexists; split; [reflexivity|auto].

(** ** Blocks *)
Lemma no_holder : forall s w g n l, rel s w g -> s_user s n = Some l -> lent s n = false -> forall u z, w_mv w u = Some z -> ~ holds z n.
Proof.
  intros s w g n l H U L u z E F. destruct (look_rev u H E) as (y & Ey & HD & BD). destruct F as [F|F].
  - rewrite (owned_none BD F) in U. discriminate.
  - eapply shared_elsewhere_false with (v := s_nv s) (u := u); [apply (r_new H)|exact L|exact Ey| |eapply borrowed_shared; eauto].
    intro Q. subst. rewrite (r_new H) in Ey by lia. discriminate.
Qed.
Lemma block_same : forall s w g n l, rel s w g -> s_user s n = Some l -> lent s n = false -> w_mh w n = Some l.
Proof. intros s w g n l H U L. rewrite <- U. symmetry. apply (r_free H). eapply no_holder; eauto. Qed.
Lemma lent_not : forall s w g n v y, rel s w g -> s_vecs s v = Some y -> lent s n = false -> a_cont y <> CShared n.
Proof. intros s w g n v y H E L. eapply shared_elsewhere_false with (v := s_nv s) (u := v); [apply (r_new H)|exact L|exact E|]. intro Q. subst. rewrite (r_new H) in E by lia. discriminate. Qed.
Lemma rel_blk : forall s w g s' w' n o, rel s w g -> s_nv s' = s_nv s -> w_mnv w' = w_mnv w -> s_nu s' = w_mnu w' -> (s_nu s <= s_nu s')%nat -> (n < s_nu s')%nat ->
  (forall u, s_vecs s' u = s_vecs s u) -> (forall u, w_mv w' u = w_mv w u) -> (forall k, s_user s' k = if Nat.eqb k n then o else s_user s k) -> (forall k, w_mh w' k = if Nat.eqb k n then o else w_mh w k) ->
  (forall u z, w_mv w u = Some z -> ~ holds z n) -> rel s' w' g.
Proof.
  intros s w g s' w' n o H N1 N2 N3 N4 N5 SV WV SU WU F. constructor.
  - rewrite N1, N2. apply (r_nv H).
  - auto.
  - intros u L. rewrite SV. rewrite N1 in L. apply (r_new H); auto.
  - intro u. rewrite SV, WV. pose proof (r_vec H u) as V. destruct (s_vecs s u), (w_mv w u) as [z|] eqn:E; auto. destruct V as (V1 & V2). split; auto.
    eapply vbody_ext; eauto. intros k K. rewrite SU, WU. destruct (Nat.eqb_spec k n) as [->|]; auto. exfalso. eapply F; eauto.
  - intros k K. rewrite SU, WU. destruct (Nat.eqb_spec k n); auto. apply (r_free H). intros v x E. apply (K v). rewrite WV. auto.
  - intros a b xa xb k. rewrite !WV. apply (r_one H).
  - intros k L. rewrite SU, WU. destruct (Nat.eqb_spec k n) as [->|]; [lia|]. apply (r_fresh H). lia.
Qed.
Lemma mc_ualloc : forall s w g g' l, rel s w g -> strict (UAlloc l) s g = Some g' -> sim (astep (UAlloc l) s) (mbstep (UAlloc l) w) g'.
Proof.
  intros s w g g' l H S. inversion S; subst. cbn. eexists. split; [reflexivity|]. eapply rel_blk with (n := s_nu s) (o := Some l); eauto; cbn; try lia.
  - rewrite (r_nu H). auto.
  - intro k. rewrite (r_nu H). reflexivity.
  - intros u z E F. destruct (look_rev u H E) as (y & Ey & HD & BD). eapply held_live; eauto. apply (r_fresh H). auto.
Qed.
Lemma user_lt : forall s w g n l, rel s w g -> s_user s n = Some l -> (n < s_nu s)%nat.
Proof. intros s w g n l H U. destruct (Nat.lt_ge_cases n (s_nu s)) as [|L]; auto. destruct (r_fresh H L). congruence. Qed.
Lemma mc_ufree : forall s w g g' n, rel s w g -> strict (UFree n) s g = Some g' -> sim (astep (UFree n) s) (mbstep (UFree n) w) g'.
Proof.
  intros s w g g' n H S. inversion S; subst. cbn. destruct (s_user s n) as [l|] eqn:U; [|exact I]. destruct (shared_elsewhere s (s_nv s) n) eqn:L; [exact I|].
  rewrite (@block_same s w g' n l) by auto. cbn. eexists. split; [reflexivity|]. eapply rel_blk with (n := n) (o := None); eauto; cbn; try lia.
  - symmetry. apply (r_nu H).
  - eapply user_lt; eauto.
  - eapply no_holder; eauto.
Qed.
Lemma mc_uwrite : forall s w g g' n i a, rel s w g -> strict (UWrite n i a) s g = Some g' -> sim (astep (UWrite n i a) s) (mbstep (UWrite n i a) w) g'.
Proof.
  intros s w g g' n i a H S. cbn [strict] in S. apply rule_true in S. destruct S as (L & ->). apply negb_true_iff in L. cbn [VecSpec.astep McModel.mbstep]. destruct (s_user s n) as [l|] eqn:U; [|exact I].
  rewrite (@block_same s w g n l) by auto. unfold set. destruct (Nat.ltb i (length l)) eqn:B; [|exact I]. cbn. eexists. split; [reflexivity|]. eapply rel_blk with (n := n) (o := Some (upd l i a)); eauto; cbn; try lia.
  - symmetry. apply (r_nu H).
  - eapply user_lt; eauto.
  - eapply no_holder; eauto.
Qed.
Lemma nth_eq : forall (a b : list R) i, length a = length b -> vf a i = vf b i -> nth_error a i = nth_error b i.
Proof.
  intros a b i L E. destruct (Nat.lt_ge_cases i (length a)) as [A|A]; [rewrite !nth_vf by lia; congruence|].
  rewrite !(proj2 (nth_error_None _ _)) by lia. auto.
Qed.
Lemma mc_uread : forall s w g g' n i, rel s w g -> strict (URead n i) s g = Some g' -> sim (astep (URead n i) s) (mbstep (URead n i) w) g'.
Proof.
  intros s w g g' n i H S. cbn [strict] in S. apply rule_true in S. destruct S as (M & ->). cbn [VecSpec.astep McModel.mbstep]. destruct (s_user s n) as [l|] eqn:U; [|exact I].
  assert (E : exists h, w_mh w n = Some h /\ nth_error h i = nth_error l i).
  { destruct (lent s n) eqn:L; [|exists l; split; auto; eapply block_same; eauto]. unfold lent, shared_elsewhere in L. apply existsb_exists in L. destruct L as (v & V1 & V2). apply andb_prop in V2. destruct V2 as (_ & V2).
    destruct (s_vecs s v) as [y|] eqn:Ey; [|discriminate]. destruct (a_cont y) as [| |m] eqn:C; try discriminate. apply Nat.eqb_eq in V2. subst m.
    unfold mine in M. rewrite forallb_forall in M. specialize (M v V1). rewrite Ey, C, Nat.eqb_refl in M. destruct (look v H Ey) as (x & Ex & HD & BD). pose proof (shared_len BD C) as N.
    unfold vbody, body in BD. destruct (Nat.eqb_spec (a_len y) 0); [contradiction|]. rewrite C in BD. destruct BD as (_ & _ & l0 & h & F1 & F2 & F3 & F4 & F5 & F6 & la & G1 & G2 & G3 & G4). rewrite U in F1. inversion F1; subst l0.
    exists h. split; auto. apply nth_eq; auto. destruct (Nat.ltb_spec i (a_len y)) as [I1|I1]; [|eapply skipn_vf; eauto]. simpl in M. apply andb_prop in M. destruct M as (M1 & M2). destruct (F5 M1) as (F7 & F8).
    rewrite F7 in G4. destruct G4 as (_ & G4). rewrite <- (G4 i I1 M2). rewrite F8 in G1. inversion G1. symmetry. apply firstn_vf; auto. }
  destruct E as (h & -> & ->). destruct (nth_error l i); [|exact I]. eexists. split; [reflexivity|auto].
Qed.

(** ** Creation, references, destruction *)
Lemma mc_create : forall s w g g' len, rel s w g -> strict (CCreate len) s g = Some g' -> sim (astep (CCreate len) s) (mbstep (CCreate len) w) g'.
Proof.
  intros s w g g' len H S. inversion S; subst; clear S. cbn. eexists. split; [rewrite (r_nv H); reflexivity|]. pose proof (r_new H) as NN.
  assert (NW : w_mv w (s_nv s) = None). { pose proof (r_vec H (s_nv s)) as V. rewrite (NN (s_nv s)) in V by auto. destruct (w_mv w (s_nv s)); [contradiction|auto]. }
  constructor; cbn.
  - auto.
  - apply (r_nu H).
  - intros u L. cbn in *. unfold nupd. destruct (Nat.eqb_spec u (s_nv s)); [lia|]. apply NN. lia.
  - intro u. unfold nupd. destruct (Nat.eqb_spec u (s_nv s)); [|apply (r_vec H)]. split.
    + constructor; cbn; auto; try discriminate. split; [lia|reflexivity].
    + unfold vbody, body. cbn. destruct (Nat.eqb len 0); tauto.
  - intros n F. apply (r_free H). intros v x E. apply (F v). unfold nupd. destruct (Nat.eqb_spec v (s_nv s)); [congruence|auto].
  - intros a b xa xb n. unfold nupd. destruct (Nat.eqb_spec a (s_nv s)), (Nat.eqb_spec b (s_nv s)); intros E1 E2 F1 F2; subst; auto.
    + inversion E1; subst. destruct F1; discriminate.
    + inversion E2; subst. destruct F2; discriminate.
    + eapply (r_one H); eauto.
  - apply (r_fresh H).
Qed.
Lemma mc_ref : forall s w g g' v, rel s w g -> strict (CRef v) s g = Some g' -> sim (astep (CRef v) s) (mbstep (CRef v) w) g'.
Proof.
  intros s w g g' v H S. inversion S; subst; clear S. cbn. unfold live. destruct (s_vecs s v) as [y|] eqn:Ey; [|exact I]. destruct (look v H Ey) as (x & Ex & HD & BD). unfold mi_reference, mlive. rewrite Ex. cbn.
  eexists. split; [reflexivity|]. eapply rel_upd0 with (y := y) (x := x) (y' := rf y 1) (x' := mc_refs x (m_refs x + 1)); eauto; try reflexivity.
  destruct HD; constructor; cbn; auto. lia.
Qed.
Lemma rel_del : forall s w g s' w' v y x, rel s w g -> s_vecs s v = Some y -> w_mv w v = Some x -> s_nv s' = s_nv s -> s_nu s' = s_nu s -> w_mnv w' = w_mnv w -> w_mnu w' = w_mnu w ->
  (forall u, s_vecs s' u = if Nat.eqb u v then None else s_vecs s u) -> (forall u, w_mv w' u = if Nat.eqb u v then None else w_mv w u) ->
  (forall n, s_user s' n = s_user s n) -> (forall n, w_mh w' n = w_mh w n \/ (holds x n /\ w_mh w' n = None)) ->
  (forall n, holds x n -> s_user s n = w_mh w' n) -> rel s' w' g.
Proof.
  intros s w g s' w' v y x H Ey Ex N1 N2 N3 N4 SV WV SU WU OLD. constructor.
  - rewrite N1, N3. apply (r_nv H).
  - rewrite N2, N4. apply (r_nu H).
  - intros u L. rewrite SV. destruct (Nat.eqb u v); auto. rewrite N1 in L. apply (r_new H); auto.
  - intro u. rewrite SV, WV. destruct (Nat.eqb_spec u v) as [|Nu]; auto. pose proof (r_vec H u) as V. destruct (s_vecs s u), (w_mv w u) as [z|] eqn:E; auto. destruct V as (V1 & V2). split; auto.
    eapply vbody_ext; eauto. intros n F. rewrite SU. destruct (WU n) as [->|(F2 & _)]; auto. exfalso. apply Nu. eapply (r_one H); eauto.
  - intros n F. rewrite SU. destruct (WU n) as [W|(F2 & W)]; [|rewrite OLD; auto].
    assert (D : holds x n \/ ~ holds x n).
    { unfold holds. destruct (m_owned x) as [a|], (m_borrowed x) as [b|]; try destruct (Nat.eq_dec a n); try destruct (Nat.eq_dec b n); subst; auto; right; intros [|]; congruence. }
    destruct D as [D|D]; [apply OLD; auto|]. rewrite W. apply (r_free H). intros u z E. destruct (Nat.eq_dec u v) as [->|Nu]; [congruence|]. apply (F u). rewrite WV. destruct (Nat.eqb_spec u v); [contradiction|auto].
  - intros a b xa xb n Ea Eb. rewrite WV in Ea, Eb. destruct (Nat.eqb a v); [discriminate|]. destruct (Nat.eqb b v); [discriminate|]. eapply (r_one H); eauto.
  - intros n L. rewrite N2 in L. destruct (r_fresh H L) as (F1 & F2). rewrite SU. split; auto. destruct (WU n) as [->|(_ & ->)]; auto.
Qed.
(** an array that is complete and up to date agrees with the client's view of it *)
Lemma list_eq : forall n (a b : list R), length a = length b -> (forall i, (i < n)%nat -> vf a i = vf b i) -> skipn n a = skipn n b -> a = b.
Proof. intros n a b L E S. apply vf_ext; auto. intros j J. destruct (Nat.lt_ge_cases j n); auto. eapply skipn_vf; eauto. Qed.
Lemma leave_ok : forall us hp y x g v n, vbody us hp y x (g_def g v) (g_sync g v) -> leaves g v y = true -> m_borrowed x = Some n -> us n = hp n.
Proof.
  intros us hp y x g v n B L O. pose proof (borrowed_shared B O) as C. pose proof (shared_len B C) as N. unfold leaves in L. rewrite C in L. apply andb_prop in L. destruct L as (L1 & L2).
  unfold vbody, body in B. destruct (Nat.eqb_spec (a_len y) 0); [contradiction|]. rewrite C in B. destruct B as (_ & _ & l & h & F1 & F2 & F3 & F4 & F5 & F6 & la & G1 & G2 & G3 & G4). destruct (F5 L1) as (F7 & F8). rewrite F7 in G4. destruct G4 as (_ & G4).
  rewrite F1, F2. f_equal. apply (@list_eq (a_len y)); auto. intros i I1. rewrite <- (G4 i I1 (alldef_true _ _ _ L2 I1)). rewrite F8 in G1. inversion G1. apply firstn_vf; auto.
Qed.
Lemma mc_destroy : forall s w g g' v, rel s w g -> strict (CDestroy v) s g = Some g' -> sim (astep (CDestroy v) s) (mbstep (CDestroy v) w) g'.
Proof.
  intros s w g g' v H S. cbn [strict] in S. live H Ey v y x HD BD. rename H0 into S, H1 into Ex. cbn [VecSpec.astep McModel.mbstep]. unfold s_destroy, live, mi_destroy, mlive. rewrite Ey, Ex. cbv zeta.
  cbn [a_refs rf m_refs mc_refs]. replace (a_refs y + -1) with (a_refs y - 1) by lia. rewrite (h_rf HD).
  replace (mlocked (mc_refs x (a_refs y - 1))) with (locked y) by (symmetry; apply (hdr_locked HD)). change (locked (rf y (-1))) with (locked y).
  assert (R1 : rel (sv s v (rf y (-1))) (putm w v (mc_refs x (a_refs y - 1)) (w_mh w)) g).
  { eapply rel_upd0 with (y := y) (x := x) (y' := rf y (-1)) (x' := mc_refs x (a_refs y - 1)); eauto; try reflexivity. destruct HD; constructor; cbn; auto. }
  destruct (0 <? a_refs y - 1). { cbn. same S. }
  destruct (locked y) eqn:L. { cbn. same S. }
  clear R1. apply rule_true in S. destruct S as (LV & ->). unfold destroy_mc. cbn [m_owned mc_refs w_mv w_mh w_mnv w_mnu putm].
  assert (KO : forall k, m_owned x = Some k -> s_user s k = None /\ w_mh w k <> None) by (intros k K; split; [eapply owned_none; eauto|eapply held_live; eauto; left; auto]).
  destruct (m_owned x) as [k|] eqn:O.
  - destruct (KO k eq_refl) as (K1 & K2). destruct (w_mh w k) as [h|] eqn:E; [|contradiction]. cbn. eexists. split; [reflexivity|]. eapply rel_del with (v := v) (y := y) (x := x); eauto; cbn.
    + intro u. unfold nupd. destruct (Nat.eqb u v); auto.
    + intro n. unfold nupd. destruct (Nat.eqb_spec n k) as [->|]; auto. right. split; auto. left; auto.
    + intros n [F|F]; unfold nupd; destruct (Nat.eqb_spec n k) as [->|Nk]; try congruence. eapply leave_ok; eauto.
  - cbn. eexists. split; [reflexivity|]. eapply rel_del with (v := v) (y := y) (x := x); eauto; cbn.
    + intro u. unfold nupd. destruct (Nat.eqb u v); auto.
    + intros n [F|F]; [congruence|]. eapply leave_ok; eauto.
Qed.
End P.
