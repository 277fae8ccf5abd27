(** * One action of a client that keeps the rules, continued: arrays of the client, copies, norms *)
From Coq Require Import List ZArith Lia Bool Arith.
From Verif Require Import Prelude RstrModel VecModel VecSpec VecProofs VecSim VecLaws McModel McSpec McProofs McStep McStep2 McStep3.
Import ListNotations.
Set Implicit Arguments.
Local Open Scope Z_scope.

Section P.
Variable R : Rng.
Variables (nan : R) (eqs : R -> R -> bool).
Hypothesis eqs_refl : forall a, eqs a a = true.
Variables (fabs : R -> R) (gtb : R -> R -> bool) (sqrt : R -> R) (big : R -> bool) (inv : R -> R).
Notation upds := (@upds R). Notation astate := (astate R). Notation avec := (avec R). Notation mvec := (mvec R). Notation mworld := (mworld R). Notation heap := (heap R).
Notation mbstep := (mbstep nan eqs fabs gtb sqrt big inv).
Notation astep := (astep fabs gtb sqrt big inv).

Implicit Types (y : avec) (x : mvec) (w : mworld) (s : astate).
Ltac gn := rewrite ?gn_def, ?gn_sync, ?gn_st.
Ltac pw := intros; cbn; unfold nupd; repeat match goal with |- context [Nat.eqb ?a ?b] => destruct (Nat.eqb_spec a b); subst end; auto; try congruence.
Ltac live H E v y x HD BD := match goal with S : zlive ?s v _ = Some _ |- _ => destruct (strict_live _ _ _ S) as (y & E & ?); clear S end;
  destruct (look v H E) as (x & ? & HD & BD).
Ltac same S := inversion S; subst; eexists; split; [reflexivity|auto].

(** ** Accesses by the client *)
Lemma rg_data : forall us hp y x gd gs st, hdr y x st -> vbody us hp y x gd gs -> a_rg y = true -> a_len y <> O ->
  exists l la, cval us y = Some l /\ m_rp x = true /\ m_ro x = Some la /\ length la = a_len y /\ (a_len y <= length l)%nat /\ agree (a_len y) gd la l.
Proof.
  intros us hp y x gd gs st HD BD W Z. destruct (h_rp HD W) as ([|RP] & RD); [contradiction|]. assert (BZ : busy y = false) by (destruct (busy y) eqn:Q; auto; pose proof (h_ex HD Q); lia).
  assert (C : a_cont y <> CEmpty). { intro C. unfold vbody, body in BD. destruct (Nat.eqb_spec (a_len y) 0); [contradiction|]. rewrite C in BD. destruct BD as (_ & _ & _ & _ & _ & _ & B). lia. }
  destruct (valid_data BD Z C) as (l & CV & D1 & la & D2 & D3 & D4 & D5). rewrite BZ in D5. destruct D5 as (_ & D5). destruct (Z.eqb_spec (a_readers y) 0); [lia|]. exists l, la. auto 10.
Qed.
Lemma wg_data : forall us hp y x gd gs st, hdr y x st -> vbody us hp y x gd gs -> a_wg y = true -> a_len y <> O ->
  busy y = true /\ a_cont y <> CEmpty /\ exists l lw, cval us y = Some l /\ m_wp x = true /\ m_wr x = Some lw /\ length lw = a_len y /\ (a_len y <= length l)%nat /\ agree (a_len y) gd lw l.
Proof.
  intros us hp y x gd gs st HD BD W Z. destruct (h_wp HD W) as (WP & BZ). split; auto.
  assert (C : a_cont y <> CEmpty). { intro C. unfold vbody, body in BD. destruct (Nat.eqb_spec (a_len y) 0); [contradiction|]. rewrite C in BD. destruct BD as (_ & _ & _ & _ & _ & B & _). congruence. }
  split; auto. destruct (valid_data BD Z C) as (l & CV & D1 & la & D2 & D3 & D4 & D5). rewrite BZ in D5. destruct D5 as (lw & D5 & D6 & D7). exists l, lw. auto 10.
Qed.
Arguments rg_data {us hp y x gd gs st}. Arguments wg_data {us hp y x gd gs st}.
Lemma mc_vread : forall s w g g' v i, rel s w g -> strict (VRead v i) s g = Some g' -> sim (astep (VRead v i) s) (mbstep (VRead v i) w) g'.
Proof.
  intros s w g g' v i H S. cbn [strict] in S. apply rule_true in S. destruct S as (D & ->). cbn [VecSpec.astep McModel.mbstep]. unfold live, mlive. destruct (s_vecs s v) as [y|] eqn:Ey; [|exact I]. destruct (look v H Ey) as (x & Ex & HD & BD). rewrite Ex.
  destruct (a_rg y) eqn:W; [|exact I]. simpl. destruct (Nat.ltb_spec i (a_len y)) as [LI|]; [|exact I]. destruct (rg_data HD BD W) as (l & la & CV & RP & RO & LA & LL & AG); [lia|].
  rewrite conts_cval, CV, RP, RO. unfold peek. rewrite nth_vf by lia. eexists. split; [|eauto]. rewrite AG by auto. reflexivity.
Qed.
Lemma mc_vreadw : forall s w g g' v i, rel s w g -> strict (VReadW v i) s g = Some g' -> sim (astep (VReadW v i) s) (mbstep (VReadW v i) w) g'.
Proof.
  intros s w g g' v i H S. cbn [strict] in S. apply rule_true in S. destruct S as (D & ->). cbn [VecSpec.astep McModel.mbstep]. unfold live, mlive. destruct (s_vecs s v) as [y|] eqn:Ey; [|exact I]. destruct (look v H Ey) as (x & Ex & HD & BD). rewrite Ex.
  destruct (a_wg y) eqn:W; [|exact I]. simpl. destruct (Nat.ltb_spec i (a_len y)) as [LI|]; [|exact I]. destruct (wg_data HD BD W) as (BZ & C & l & la & CV & RP & RO & LA & LL & AG); [lia|].
  rewrite conts_cval, CV, RP, RO. unfold peek. rewrite nth_vf by lia. eexists. split; [|eauto]. rewrite AG by auto. reflexivity.
Qed.
Lemma sync_idle : forall us hp y x gd gs n, vbody us hp y x gd gs -> a_cont y = CShared n -> gs = true -> busy y = false.
Proof.
  intros us hp y x gd gs n B C G. pose proof (shared_len B C) as Z. unfold vbody, body in B. destruct (Nat.eqb_spec (a_len y) 0); [contradiction|]. rewrite C in B.
  destruct B as (_ & _ & l & h & _ & _ & _ & _ & B & _). apply B; auto.
Qed.
Arguments sync_idle {us hp y x gd gs n}.
Lemma mc_vwrite : forall s w g g' v i a, rel s w g -> strict (VWrite v i a) s g = Some g' -> sim (astep (VWrite v i a) s) (mbstep (VWrite v i a) w) g'.
Proof.
  intros s w g g' v i a H S. cbn [strict] in S. inversion S; subst; clear S. cbn [VecSpec.astep McModel.mbstep]. unfold live, mlive. destruct (s_vecs s v) as [y|] eqn:Ey; [|exact I]. destruct (look v H Ey) as (x & Ex & HD & BD). rewrite Ex.
  destruct (a_wg y) eqn:W; [|exact I]. simpl. destruct (Nat.ltb_spec i (a_len y)) as [LI|]; [|exact I]. assert (Z : a_len y <> O) by lia. destruct (wg_data HD BD W Z) as (BZ & C & l & lw & CV & RP & RO & LA & LL & AG).
  rewrite conts_cval, CV, RP, RO. unfold poke, set. rewrite (proj2 (Nat.ltb_lt _ _)) by lia. eexists. split; [reflexivity|].
  eapply rel_modify with (y := y) (x := x) (y1 := y) (x1 := mc_wr x (Some (upd lw i a)) (m_wo x)) (l' := upd l i a) (zz := []); eauto; try reflexivity.
  - destruct (a_cont y); auto. contradiction.
  - intros n l2 Q1 Q2. unfold cval in CV. rewrite Q1, Q2 in CV. inversion CV; subst. rewrite upd_length. split; auto. apply skipn_ext; [apply upd_length|]. intros j J1 J2. apply vf_upd_other. lia.
  - unfold putc. destruct (a_cont y); auto.
  - unfold putc. destruct (a_cont y); auto.
  - intro u. unfold putc. destruct (a_cont y) eqn:Q; [contradiction| |]; cbn; unfold nupd; destruct (Nat.eqb_spec u v); subst; auto.
  - intro n. unfold putc. destruct (a_cont y) eqn:Q; [contradiction| |]; cbn; unfold nupd; auto.
  - intros u Nu. cbn. unfold nupd. destruct (Nat.eqb_spec u v); [contradiction|]. auto.
  - destruct HD; constructor; auto.
  - destruct (valid_data BD Z C) as (l0 & CV0 & D1 & la & D2 & D3 & D4 & D5). rewrite BZ in *. split; [rewrite upd_length; auto|]. exists la. split; auto. split; auto. split; auto.
    eexists. split; [reflexivity|]. rewrite upd_length. split; auto. intros j J1. cbn. unfold nupd at 1. rewrite Nat.eqb_refl. unfold nupd. destruct (Nat.eqb_spec j i) as [->|Nj]; intro J2.
    + rewrite !vf_upd_same by lia. auto.
    + rewrite !vf_upd_other by auto. auto.
  - cbn. intros G n h' Q. pose proof (sync_idle BD Q G). congruence.
Qed.

(** ** Synchronization *)
Lemma mc_sync : forall s w g g' v host, rel s w g -> strict (CSync v host) s g = Some g' -> sim (astep (CSync v host) s) (mbstep (CSync v host) w) g'.
Proof.
  intros s w g g' v host H S. cbn [strict] in S. live H Ey v y x HD BD. rename H0 into S, H1 into Ex. cbn [VecSpec.astep McModel.mbstep]. unfold s_sync, live, mi_sync, mlive. rewrite Ey, Ex, (hdr_busy HD).
  destruct (busy y) eqn:L. { same S. } rewrite (hdr_empty HD). destruct (Nat.eqb_spec (a_len y) 0) as [Z|Z]. { same S. }
  simpl orb in S. cbv iota in S. destruct host; simpl negb in *; cbv iota in *.
  2:{ rewrite orb_true_r. inversion S; subst. cbn. eexists. split; [reflexivity|]. apply putm_same; auto. }
  apply rule_true in S. destruct S as (IV & ->). apply negb_true_iff in IV. rewrite IV. simpl. destruct (many y); [exact I|]. pose proof (invalid_false y IV Z) as C. destruct (valid_data BD Z C) as (l & CV & D). pose proof D as (D1 & la & D2 & D3 & D4 & D5).
  destruct (sync_ok (la := la) BD Z (h_len HD) x) as (h' & E1 & E2 & E3); auto. rewrite E1. cbn. eexists. split; [reflexivity|].
  eapply rel_modify with (y := y) (x := x) (y1 := y) (x1 := x) (l' := l) (zz := []); eauto; try reflexivity.
  - destruct (a_cont y); auto. contradiction.
  - intros n l2 Q1 Q2. unfold cval in CV. rewrite Q1, Q2 in CV. inversion CV; subst. auto.
  - intro u. destruct (Nat.eqb_spec u v); subst; auto. rewrite Ey. unfold cval in CV. destruct y; cbn in *. destruct a_cont; auto. inversion CV; subst. auto.
  - intro n. unfold cval in CV. destruct (a_cont y); auto. destruct (Nat.eqb_spec n n0); subst; auto.
  - intros. apply gn_oth; auto.
  - gn. rewrite Z.add_0_r. auto.
  - gn. auto.
  - gn. intros _ n h2 Q1 Q2. split; auto. cbn in Q2. rewrite (E3 n h2 Q1 Q2). auto.
Qed.

(** ** Arrays of the client *)
Lemma set_copy : forall x h a l, (m_len x <= length l)%nat -> match a with ABlock n => h n = Some l | ABuf l0 => l0 = l | _ => False end -> set_array_mc nan x h true CopyValues a = BOk (mc_alloc x (Some (firstn (m_len x) l))) h.
Proof.
  intros x h a l L E. unfold set_array_mc. simpl negb. cbv iota. destruct a as [|n|l0|]; try contradiction.
  - rewrite E. unfold cpy. rewrite (proj2 (Nat.leb_le _ _)) by auto. auto.
  - subst l0. unfold cpy. rewrite (proj2 (Nat.leb_le _ _)) by auto. auto.
Qed.
Lemma putc_id : forall s v y l u, cval (s_user s) y = Some l -> s_vecs (putc (sv s v y) v y l) u = s_vecs (sv s v y) u /\ (forall n, s_user (putc (sv s v y) v y l) n = s_user s n).
Proof.
  intros s v y l u CV. unfold cval in CV. unfold putc. destruct y as [? ? ? ? c ? ?]. cbn in *. destruct c as [|l0|n0]; cbn; auto.
  - inversion CV; subst. split; auto. unfold nupd. destruct (Nat.eqb u v); auto.
  - split; auto. intro n. unfold nupd. destruct (Nat.eqb_spec n n0); subst; auto.
Qed.
Lemma sa_copy : forall s w g g' v a, rel s w g -> strict_set_array s g v true CopyValues a = Some g' -> sim (s_set_array s v true CopyValues a) (mdone (mi_set_array nan v true CopyValues (msrc a w) w)) g'.
Proof.
  intros s w g g' v a H S. unfold strict_set_array in S. live H Ey v y x HD BD. rename H0 into S, H1 into Ex. unfold s_set_array, live, mi_set_array, mlive. rewrite Ey, Ex, (hdr_locked HD).
  destruct (locked y) eqn:L. { same S. } rewrite (hdr_empty HD). destruct (Nat.eqb_spec (a_len y) 0) as [Z|Z].
  { inversion S; subst. cbn. eexists. split; [reflexivity|]. eapply rel_len0 with (v := v) (y := y) (x := x) (y' := tick y 2) (x' := bumpm x 2); eauto; try reflexivity.
    - gn. eapply hdr_idle; eauto; cbn; auto; [apply bump_st, (h_st HD)|apply even2].
    - intros. apply gn_oth; auto. }
  simpl negb in *. cbv iota in *. cbv zeta. set (y0 := match a_cont y with CEmpty => ct y (COwn (zeros (a_len y))) | _ => y end).
  assert (LZ : length (zeros (R := R) (a_len y)) = a_len y) by apply repeat_length.
  assert (Y0 : a_len y0 = a_len y) by (unfold y0; destruct (a_cont y); auto).
  (* the values arrive *)
  assert (PUT : forall l la gd, (a_len y <= length l)%nat -> length la = a_len y -> agree (a_len y) gd la l ->
    sim (match conts (sv s v (tick y0 2)) (tick y0 2) with Some old => if Nat.leb (a_len (tick y0 2)) (length l) then AOk ODone (putc (sv s v (tick y0 2)) v (tick y0 2) (fill (a_len (tick y0 2)) (vf l) old)) else AIll | None => AIll end)
      (MOk ODone (putm w v (bumpm (mc_alloc x (Some la)) 2) (w_mh w))) (gnote g v gd false 2)).
  { intros l la gd LL LA AG. cbn [a_len tick]. rewrite Y0, (proj2 (Nat.leb_le _ _)) by auto. unfold y0. destruct (idle HD BD L Z) as (_ & _ & _ & _ & [(C & CA)|(C & lo & la0 & CV & CA & CL & CLL & _)]).
    - rewrite C. cbn [conts a_cont ct tick]. eexists. split; [reflexivity|]. eapply put_empty with (y := y) (zz := zeros (a_len y)); eauto; try reflexivity.
      + cbn. apply even2.
      + rewrite fill_length; lia.
      + rewrite fill_upds by lia. intros i I1 I2. rewrite vf_upds by lia. rewrite (proj2 (Nat.ltb_lt _ _)) by auto. apply AG; auto.
    - replace (match a_cont y with CEmpty => ct y (COwn (zeros (a_len y))) | _ => y end) with y by (destruct (a_cont y); auto; contradiction).
      replace (conts (sv s v (tick y 2)) (tick y 2)) with (Some lo) by (symmetry; exact CV). eexists. split; [reflexivity|]. eapply put_valid; eauto.
      + rewrite fill_length; lia.
      + apply skipn_fill; auto.
      + rewrite fill_upds by lia. intros i I1 I2. rewrite vf_upds by lia. rewrite (proj2 (Nat.ltb_lt _ _)) by auto. apply AG; auto. }
  assert (FST : forall l : list R, (a_len y <= length l)%nat -> length (firstn (m_len x) l) = a_len y) by (intros; rewrite firstn_length, (h_len HD); lia).
  destruct a as [|n|u|u].
  - (* no values *)
    inversion S; subst. cbn [msrc]. unfold set_array_mc. simpl negb. cbv iota. cbn [lift odone fst snd mdone mthen].
    destruct (idle HD BD L Z) as (_ & _ & _ & _ & [(C & CA)|(C & lo & la0 & CV & CA & CL & CLL & _)]).
    + eexists. split; [reflexivity|]. unfold y0. rewrite C. eapply rel_ext with (s := putc (sv s v (tick (ct y (COwn (zeros (a_len y)))) 2)) v (tick (ct y (COwn (zeros (a_len y)))) 2) (zeros (a_len y))).
      * eapply put_empty with (y := y) (zz := zeros (a_len y)) (la' := repeat nan (m_len x)) (k := 2) (gd := none); eauto; try reflexivity.
        -- cbn. apply even2.
        -- lia.
        -- rewrite repeat_length. apply (h_len HD).
        -- intros i _ Q. discriminate.
      * rewrite putc_nv. auto.
      * rewrite putc_nu. auto.
      * auto.
      * auto.
      * intro u. symmetry. apply (@putc_id s v (tick (ct y (COwn (zeros (a_len y)))) 2) (zeros (a_len y)) u). auto.
      * auto.
      * auto.
      * intro n. symmetry. apply (@putc_id s v (tick (ct y (COwn (zeros (a_len y)))) 2) (zeros (a_len y)) 0%nat). auto.
      * auto.
    + eexists. split; [reflexivity|]. unfold y0. replace (match a_cont y with CEmpty => ct y (COwn (zeros (a_len y))) | _ => y end) with y by (destruct (a_cont y); auto; contradiction).
      eapply rel_ext with (s := putc (sv s v (tick y 2)) v (tick y 2) lo).
      * eapply put_valid with (la' := repeat nan (m_len x)) (k := 2) (gd := none); eauto; try reflexivity.
        -- rewrite repeat_length. apply (h_len HD).
        -- intros i _ Q. discriminate.
      * rewrite putc_nv. auto.
      * rewrite putc_nu. auto.
      * auto.
      * auto.
      * intro u. symmetry. apply (@putc_id s v (tick y 2) lo u). auto.
      * auto.
      * auto.
      * intro n. symmetry. apply (@putc_id s v (tick y 2) lo 0%nat). auto.
      * auto.
  - (* from a block of the client *)
    apply rule_true in S. destruct S as (LN & ->). apply negb_true_iff in LN. cbn [s_user sv]. destruct (s_user s n) as [l|] eqn:U; [|exact I].
    assert (NS : forall o : aout R, match a_cont (tick y0 2) with CShared m => if Nat.eqb m n then AIll else o | _ => o end = o).
    { intro o. pose proof (lent_not v H Ey LN) as NC. cbn. unfold y0. destruct (a_cont y) as [| |m] eqn:C; cbn; try rewrite C; auto. destruct (Nat.eqb_spec m n); subst; [congruence|auto]. }
    rewrite NS. destruct (Nat.leb_spec (a_len y) (length l)) as [LL|LL].
    + cbn [msrc]. rewrite (@set_copy x (w_mh w) (ABlock n) l) by (rewrite ?(h_len HD); auto; eapply block_same; eauto). cbn [lift odone fst snd mdone mthen]. apply PUT; auto. rewrite (h_len HD). intros i I1 _. apply firstn_vf; auto.
    + destruct (conts _ _); [|exact I]. rewrite (proj2 (Nat.leb_gt _ _)) by (cbn; rewrite Y0; auto). exact I.
  - live H Ez u z xz HDz BDz. rename H0 into S, H1 into Exz. apply rule_true in S. destruct S as (LE & ->). apply Nat.leb_le in LE. cbn [s_vecs sv]. unfold nupd.
    destruct (Nat.eqb_spec u v) as [->|UV]. { destruct (a_rg _); exact I. } rewrite Ez. destruct (a_rg z) eqn:RG; [|exact I]. simpl orb. destruct (same_block _ _); [exact I|].
    destruct (Nat.eqb_spec (a_len z) 0) as [Zz|Zz]. { destruct (conts _ z); exact I. } destruct (rg_data HDz BDz RG Zz) as (lz & laz & CV & RP & RO & LA & LL & AG). replace (conts (sv s v (tick y0 2)) z) with (Some lz) by (symmetry; exact CV).
    cbn [msrc]. rewrite Exz, RP, RO. rewrite (@set_copy x (w_mh w) (ABuf laz) laz) by (rewrite ?(h_len HD); auto; lia). cbn [lift odone fst snd mdone mthen]. apply PUT; [lia|apply FST; lia|].
    rewrite (h_len HD). intros i I1 I2. rewrite firstn_vf by auto. apply AG; auto. lia.
  - live H Ez u z xz HDz BDz. rename H0 into S, H1 into Exz. apply rule_true in S. destruct S as (LE & ->). apply Nat.leb_le in LE. cbn [s_vecs sv]. unfold nupd.
    destruct (Nat.eqb_spec u v) as [->|UV]. { destruct (a_wg _); exact I. } rewrite Ez. destruct (a_wg z) eqn:RG; [|exact I]. simpl orb. destruct (same_block _ _); [exact I|].
    destruct (Nat.eqb_spec (a_len z) 0) as [Zz|Zz]. { destruct (conts _ z); exact I. } destruct (wg_data HDz BDz RG Zz) as (_ & _ & lz & laz & CV & RP & RO & LA & LL & AG). replace (conts (sv s v (tick y0 2)) z) with (Some lz) by (symmetry; exact CV).
    cbn [msrc]. rewrite Exz, RP, RO. rewrite (@set_copy x (w_mh w) (ABuf laz) laz) by (rewrite ?(h_len HD); auto; lia). cbn [lift odone fst snd mdone mthen]. apply PUT; [lia|apply FST; lia|].
    rewrite (h_len HD). intros i I1 I2. rewrite firstn_vf by auto. apply AG; auto. lia.
Qed.
End P.
