(** * One action of a client that keeps the rules: copies between vectors; whole histories *)
From Coq Require Import List ZArith Lia Bool Arith.
From Verif Require Import Prelude RstrModel VecModel VecSpec VecProofs VecSim VecLaws McModel McSpec McProofs McStep McStep2 McStep3 McStep4 McStep5.
Import ListNotations.
Set Implicit Arguments.
Local Open Scope Z_scope.

Section P.
Variable R : Rng.
Variables (nan : R) (eqs : R -> R -> bool).
Hypothesis eqs_refl : forall a, eqs a a = true.
Variables (fabs : R -> R) (gtb : R -> R -> bool) (sqrt : R -> R) (big : R -> bool) (inv : R -> R).
Notation upds := (@upds R). Notation astate := (astate R). Notation avec := (avec R). Notation mvec := (mvec R). Notation mworld := (mworld R). Notation heap := (heap R).
Notation mbstep := (mbstep nan eqs fabs gtb sqrt big inv).
Notation astep := (astep fabs gtb sqrt big inv).

Implicit Types (y : avec) (x : mvec) (w : mworld) (s : astate).
Ltac gn := rewrite ?gn_def, ?gn_sync, ?gn_st.
Ltac pw := intros; cbn; unfold nupd; repeat match goal with |- context [Nat.eqb ?a ?b] => destruct (Nat.eqb_spec a b); subst end; auto; try congruence.
Ltac live H E v y x HD BD := match goal with S : zlive ?s v _ = Some _ |- _ => destruct (strict_live _ _ _ S) as (y & E & ?); clear S end;
  destruct (look v H E) as (x & ? & HD & BD).
Ltac same S := inversion S; subst; eexists; split; [reflexivity|auto].

Lemma nupd_eq : forall A (f : nat -> A) k a, nupd f k a k = a. Proof. intros. unfold nupd. rewrite Nat.eqb_refl. auto. Qed.
Lemma nupd_neq : forall A (f : nat -> A) k a j, j <> k -> nupd f k a j = f j. Proof. intros A f k a j N. unfold nupd. destruct (Nat.eqb_spec j k); [contradiction|auto]. Qed.
Lemma restore_comp : forall us (hp : heap) y x gd gs, vbody us hp y x gd gs -> a_len y <> O -> m_len x = a_len y -> forall x1 la lw, m_owned x1 = m_owned x -> m_borrowed x1 = m_borrowed x -> m_len x1 = m_len x ->
  m_alloc x1 = Some la -> length la = a_len y -> m_wr x1 = Some lw -> length lw = a_len y ->
  exists h', restore_mc x1 hp = BOk (mc_wr (mc_alloc x1 (Some lw)) None false) h' /\
    (forall n, h' n = hp n \/ (holds x n /\ exists h h2, hp n = Some h /\ h' n = Some h2 /\ length h2 = length h /\ skipn (a_len y) h2 = skipn (a_len y) h)) /\
    (forall n h2, a_cont y = CShared n -> h' n = Some h2 -> firstn (a_len y) h2 = lw).
Proof.
  intros us hp y x gd gs B Z LX x1 la lw O1 B1 L1 A1 LA W1 LW.
  destruct (sync_ok (la := lw) B Z LX (mc_alloc (mc_wr x1 (m_wr x1) false) (Some lw))) as (h' & E1 & E2 & E3); auto.
  exists h'. split; [|split; auto]. unfold restore_mc. rewrite A1, W1, L1, LX, LA, LW. rewrite !Nat.leb_refl. simpl andb. cbv iota. rewrite W1 in E1.
  rewrite (@firstn_len R (a_len y) lw) by auto. rewrite skipn_all2 by lia. rewrite app_nil_r. rewrite E1. reflexivity.
Qed.
Arguments restore_comp {us hp y x gd gs}.
Lemma state2 : forall st x, m_state x = st mod two64 -> add64 (add64 (m_state x) 1) 1 = (st + 2) mod two64.
Proof. intros st x E. rewrite (bump_st st) by auto. rewrite add64_mod. f_equal. lia. Qed.
(** new values for an idle vector, written to the arrays behind it as well *)
Lemma put_synced : forall s w g v y x l la' l' gd h' x1 s' w', rel s w g -> s_vecs s v = Some y -> w_mv w v = Some x -> locked y = false -> a_len y <> O ->
  a_cont y <> CEmpty -> cval (s_user s) y = Some l -> (a_len y <= length l)%nat -> length la' = a_len y -> length l' = length l -> skipn (a_len y) l' = skipn (a_len y) l -> agree (a_len y) gd la' l' ->
  m_len x1 = m_len x -> m_state x1 = add64 (add64 (m_state x) 1) 1 -> m_readers x1 = m_readers x -> m_refs x1 = m_refs x -> m_alloc x1 = Some la' -> m_owned x1 = m_owned x -> m_borrowed x1 = m_borrowed x -> m_wr x1 = None -> m_ro x1 = m_ro x ->
  (forall n, h' n = w_mh w n \/ (holds x n /\ exists h h2, w_mh w n = Some h /\ h' n = Some h2 /\ length h2 = length h /\ skipn (a_len y) h2 = skipn (a_len y) h)) ->
  (forall n h2, a_cont y = CShared n -> h' n = Some h2 -> firstn (a_len y) h2 = la') ->
  s_nv s' = s_nv s -> s_nu s' = s_nu s -> w_mnv w' = w_mnv w -> w_mnu w' = w_mnu w ->
  (forall k, s_vecs s' k = s_vecs (putc (sv s v (tick y 2)) v (tick y 2) l') k) -> (forall n, s_user s' n = s_user (putc (sv s v (tick y 2)) v (tick y 2) l') n) ->
  (forall k, w_mv w' k = if Nat.eqb k v then Some x1 else w_mv w k) -> (forall n, w_mh w' n = h' n) ->
  rel s' w' (gnote g v gd true 2).
Proof.
  intros s w g v y x l la' l' gd h' x1 s' w' H Ey Ex L Z C CV CLL LA LL SK AG X1 X2 X3 X4 X5 X6 X7 X8 X9 H1 H2 N1 N2 N3 N4 SV SU WV WU.
  destruct (look v H Ey) as (x0 & Ex0 & HD & BD). rewrite Ex in Ex0. inversion Ex0; subst x0; clear Ex0. destruct (idle HD BD L Z) as (I1 & I2 & I3 & I4 & _).
  eapply rel_modify with (y := y) (x := x) (y1 := tick y 2) (x1 := x1) (l' := l') (zz := []); eauto.
  - cbn. destruct (a_cont y); auto. contradiction.
  - intros n l2 Q1 Q2. unfold cval in CV. rewrite Q1, Q2 in CV. inversion CV; subst. auto.
  - intro k. rewrite SV, putc_vecs. reflexivity.
  - intro n. rewrite SU, putc_user. reflexivity.
  - intro n. rewrite WU. auto.
  - intros. apply gn_oth; auto.
  - gn. eapply hdr_idle; eauto; [rewrite X2; apply state2, (h_st HD)|cbn; apply even2].
  - gn. replace (busy (tick y 2)) with false by (unfold busy in *; cbn; rewrite even2; auto). rewrite X5, X8, X9. split; [lia|]. exists la'. cbn. rewrite I2, I4. auto.
  - gn. intros _ n h2 Q1 Q2. split; [unfold busy in *; cbn; rewrite even2; auto|]. rewrite WU in Q2. rewrite (H2 n h2 Q1 Q2). auto.
Qed.
Lemma bumpm_locked : forall x st, m_state x = st mod two64 -> even st = true -> forall x1, m_state x1 = add64 (m_state x) 1 -> mbusy x1 = true.
Proof. intros x st E Q x1 E1. unfold mbusy. rewrite E1, (bump_st st) by auto. rewrite even_mod, even_S, Q. auto. Qed.
Lemma mc_copy : forall s w g g' v u, rel s w g -> strict (CCopy v u) s g = Some g' -> sim (astep (CCopy v u) s) (mbstep (CCopy v u) w) g'.
Proof.
  intros s w g g' v u H S. cbn [strict] in S. live H Ey v y x HD BD. rename H0 into S, H1 into Ex. live H Ez u z xz HDz BDz. rename H0 into S, H1 into Exz.
  cbn [VecSpec.astep McModel.mbstep]. unfold s_copy, live, mi_copy, mlive. rewrite Ey, Ex, Ez, Exz, (h_len HD), (h_len HDz).
  destruct (Nat.eqb_spec (a_len y) (a_len z)) as [LE|LE]; simpl negb in *; cbv iota in *. 2:{ same S. }
  destruct (locked y) eqn:L. { unfold mi_get, mlive. rewrite Ex, (hdr_locked HD), L. same S. }
  assert (EV : even (g_st g v) = true). { rewrite (h_ev HD). destruct (unlocked_parts y L) as (L1 & _). apply busy_even; auto. }
  destruct (invalid y) eqn:IV.
  { unfold mi_get, mlive. rewrite Ex, (hdr_locked HD), L, (hdr_empty HD), (valid_ok HD BD), IV. destruct (Nat.eqb (a_len y) 0) eqn:Z; [unfold invalid in IV; rewrite Z in IV; discriminate|]. same S. }
  destruct (Nat.eqb_spec (a_len y) 0) as [Z|Z].
  - (* nothing to copy *)
    unfold mi_get, mlive. rewrite Ex, (hdr_locked HD), L, (hdr_empty HD), Z. cbn [Nat.eqb mthen w_mv putm]. rewrite nupd_eq.
    assert (BZ : mbusy (bumpm x 1) = true) by (eapply bumpm_locked; [apply (h_st HD)|auto|reflexivity]).
    destruct (Nat.eqb_spec v u) as [VU|VU]; simpl orb in *.
    + subst u. unfold mi_set_array, mlive. cbn [w_mv putm]. rewrite nupd_eq. unfold mlocked. rewrite BZ. simpl. inversion S; subst. eexists. split; [reflexivity|].
      eapply rel_len0 with (v := v) (y := y) (x := x) (y' := tick y 1) (x' := bumpm x 1); eauto; try reflexivity; [|intros; apply gn_oth; auto].
      gn. apply (@hdr_lock R y x (g_st g v) (tick y 1) (bumpm x 1) HD L); try reflexivity; [cbn; apply clock_odd; auto|]. cbn. intro Q. destruct (idle_wg HD L). congruence.
    + unfold mi_set_array, mlive. cbn [w_mv putm]. rewrite nupd_neq by auto. rewrite Exz, (hdr_locked HDz). destruct (locked z) eqn:Lz.
      * inversion S; subst. eexists. split; [reflexivity|].
        eapply rel_len0 with (v := v) (y := y) (x := x) (y' := tick y 1) (x' := bumpm x 1); eauto; try reflexivity; [|intros; apply gn_oth; auto].
        gn. apply (@hdr_lock R y x (g_st g v) (tick y 1) (bumpm x 1) HD L); try reflexivity; [cbn; apply clock_odd; auto|]. cbn. intro Q. destruct (idle_wg HD L). congruence.
      * rewrite (hdr_empty HDz), <- LE, Z. cbn [Nat.eqb lift odone fst snd mthen]. unfold mi_restore, mlive. cbn [w_mv putm]. rewrite nupd_neq by auto. rewrite nupd_eq, BZ. replace (empty (bumpm x 1)) with true by (symmetry; unfold empty; cbn; rewrite (h_len HD), Z; auto).
        cbn [lift odone fst snd mdone mthen]. inversion S; subst. eexists. split; [reflexivity|].
        eapply rel_len0 with (v := u) (y := z) (x := xz) (y' := tick z 2) (x' := bumpm xz 2) (s := sv s v (tick y 2)) (w := putm w v (bumpm (bumpm x 1) 1) (w_mh w)) (g := gnote g v (g_def g v) true 2); try reflexivity.
        -- eapply rel_len0 with (v := v) (y := y) (x := x) (y' := tick y 2) (x' := bumpm (bumpm x 1) 1); eauto; try reflexivity.
           ++ gn. eapply hdr_idle; eauto; cbn; [apply state2, (h_st HD)|apply even2].
           ++ intros. apply gn_oth; auto.
        -- cbn. rewrite nupd_neq; auto.
        -- cbn. rewrite nupd_neq; auto.
        -- lia.
        -- cbn. lia.
        -- gn. replace (g_st (gnote g v (g_def g v) true 2) u) with (g_st g u) by (symmetry; apply gn_oth; auto). eapply hdr_idle; eauto; cbn; [apply bump_st, (h_st HDz)|apply even2].
        -- intros. apply gn_oth; auto.
        -- pw.
  - pose proof (invalid_false y IV Z) as C. destruct (idle HD BD L Z) as (I1 & I2 & I3 & I4 & [(C' & CA)|(_ & l & la & CV & CA & CL & CLL & AG)]); [contradiction|].
    rewrite (@mi_get_ok R w v x la Ex) by (rewrite ?(hdr_locked HD), ?(h_len HD); auto). cbn [mthen w_mv putm]. rewrite nupd_eq. set (xg := bumpm (mc_wr x (Some la) (m_wo x)) 1). change (abuf (m_wr xg)) with (ABuf la).
    assert (BZ : mbusy xg = true) by (eapply bumpm_locked; [apply (h_st HD)|auto|reflexivity]).
    assert (R1 : rel (sv s v (tick y 1)) (putm w v xg (w_mh w)) (gnote g v (g_def g v) false 1)).
    { eapply rel_got with (y := y) (x := x) (y' := tick y 1) (x' := xg) (la := la); eauto; try reflexivity; [cbn; apply clock_odd; auto|]. cbn. intro Q. destruct (idle_wg HD L). congruence. }
    destruct (Nat.eqb_spec v u) as [VU|VU]; simpl orb in *.
    + subst u. unfold mi_set_array, mlive. cbn [w_mv putm]. rewrite nupd_eq. unfold mlocked. rewrite BZ. simpl. inversion S; subst. eexists. split; [reflexivity|auto].
    + unfold mi_set_array, mlive. cbn [w_mv putm]. rewrite nupd_neq by auto. rewrite Exz, (hdr_locked HDz). destruct (locked z) eqn:Lz. { inversion S; subst. eexists. split; [reflexivity|auto]. }
      clear R1. inversion S; subst; clear S. destruct (same_block y z); [exact I|]. rewrite (hdr_empty HDz), <- LE. destruct (Nat.eqb_spec (a_len y) 0) as [|_]; [contradiction|]. cbn [w_mh putm].
      rewrite (@set_copy R nan xz (w_mh w) (ABuf la) la) by (rewrite ?(h_len HDz); auto; lia). cbn [lift odone fst snd mthen]. rewrite (@firstn_len R (m_len xz) la) by (rewrite (h_len HDz); lia).
      unfold mi_restore, mlive. cbn [w_mv putm]. rewrite nupd_neq by auto. rewrite nupd_eq, BZ. replace (empty xg) with (Nat.eqb (a_len y) 0) by (symmetry; apply (hdr_empty HD)). destruct (Nat.eqb_spec (a_len y) 0) as [|_]; [contradiction|]. cbn [w_mh putm].
      destruct (restore_comp BD Z (h_len HD) xg la la) as (h' & E1 & E2 & E3); auto. rewrite E1. cbn [lift odone fst snd mdone mthen].
      set (x2 := bumpm (mc_wr (mc_alloc xg (Some la)) None false) 1).
      assert (RA : rel (sv s v (tick y 2)) (putm w v x2 h') (gnote g v (g_def g v) true 2)).
      { eapply put_synced with (y := y) (x := x) (x1 := x2) (la' := la) (l := l) (l' := l); eauto; try reflexivity.
        - intro k. symmetry. apply (@putc_id R s v (tick y 2) l k). auto.
        - intro n. symmetry. apply (@putc_id R s v (tick y 2) l 0%nat). auto. }
      rewrite LE, (conts_cval s y), CV. assert (Zz : a_len z <> O) by lia. assert (Ez' : s_vecs (sv s v (tick y 2)) u = Some z) by (cbn; rewrite nupd_neq; auto). assert (Exz' : w_mv (putm w v x2 h') u = Some xz) by (cbn; rewrite nupd_neq; auto).
      assert (FIN : forall sf, rel sf (putm (putm w v x2 h') u (bumpm (mc_alloc xz (Some la)) 2) (w_mh (putm w v x2 h'))) (gnote (gnote g v (g_def g v) true 2) u (g_def g v) false 2) ->
        rel sf (putm (putm (putm w v xg (w_mh w)) u (bumpm (mc_alloc xz (Some la)) 2) (w_mh w)) v x2 h') (gnote (gnote g v (g_def g v) true 2) u (g_def g v) false 2)).
      { intros sf Q. eapply rel_ext; [exact Q|..]; auto. intro k. cbn. unfold nupd. destruct (Nat.eqb_spec k v), (Nat.eqb_spec k u); subst; auto; congruence. }
      destruct (idle HDz BDz Lz Zz) as (_ & _ & _ & _ & [(Cz & CAz)|(Cz & lz & laz & CVz & CAz & CLz & CLLz & _)]).
      * rewrite Cz. cbn [conts a_cont tick ct]. eexists. split; [reflexivity|]. apply FIN.
        assert (LZ : length (zeros (R := R) (a_len z)) = a_len z) by apply repeat_length.
        eapply put_empty with (y := z) (zz := zeros (a_len z)); eauto; try reflexivity.
        -- cbn. apply even2.
        -- rewrite fill_length; lia.
        -- lia.
        -- rewrite fill_upds by lia. intros i J1 J2. rewrite vf_upds by lia. rewrite (proj2 (Nat.ltb_lt _ _)) by auto. apply AG; auto. lia.
      * replace (match a_cont z with CEmpty => ct z (COwn (zeros (a_len z))) | _ => z end) with z by (destruct (a_cont z); auto; contradiction).
        replace (conts (sv (sv s v (tick y 2)) u (tick z 2)) (tick z 2)) with (Some lz) by (symmetry; exact CVz). eexists. split; [reflexivity|]. apply FIN.
        eapply put_valid with (y := z) (x := xz) (l := lz); eauto.
        -- lia.
        -- rewrite fill_length; lia.
        -- apply skipn_fill; auto.
        -- rewrite fill_upds by lia. intros i J1 J2. rewrite vf_upds by lia. rewrite (proj2 (Nat.ltb_lt _ _)) by auto. apply AG; auto. lia.
Qed.
Lemma getZ_vf : forall (l : list R) j, (j < length l)%nat -> getZ l (Z.of_nat j) = Some (vf l j).
Proof. intros l j L. unfold getZ. rewrite (proj2 (Z.ltb_ge _ _)) by lia. rewrite Nat2Z.id. apply nth_vf; auto. Qed.
Lemma mc_copy_strided : forall s w g g' v start stop step u, rel s w g -> strict (CCopyStrided v start stop step u) s g = Some g' ->
  sim (astep (CCopyStrided v start stop step u) s) (mbstep (CCopyStrided v start stop step u) w) g'.
Proof.
  intros s w g g' v start stop step u H S. cbn [strict] in S. live H Ey v y x HD BD. rename H0 into S, H1 into Ex. live H Ez u z xz HDz BDz. rename H0 into S, H1 into Exz.
  cbn [VecSpec.astep McModel.mbstep]. unfold s_copy_strided, live, mi_copy_strided, mlive. rewrite Ey, Ex, Ez, Exz, (h_len HD), (h_len HDz).
  destruct (Nat.eqb_spec (a_len y) 0) as [Z|Z]; simpl orb in *; cbv iota in *. { same S. }
  destruct (Nat.eqb_spec (a_len z) 0) as [Zz|Zz]; simpl orb in *; cbv iota in *. { same S. }
  cbv zeta in *. set (len := Z.of_nat (Nat.min (a_len y) (a_len z))) in *. assert (LEN : len <= Z.of_nat (a_len y) /\ len <= Z.of_nat (a_len z)) by (unfold len; lia).
  destruct ((-1 <=? stop) && (stop <=? len)) eqn:B1; cbn [andb negb] in *. 2:{ same S. }
  destruct ((0 <=? start) && (start <=? len) && ((start <=? stop) || (stop =? -1))) eqn:B2; cbn [andb negb] in *. 2:{ same S. }
  apply andb_prop in B1. destruct B1 as (_ & B1). apply Z.leb_le in B1. apply andb_prop in B2. destruct B2 as (B2 & _). apply andb_prop in B2. destruct B2 as (B2 & _). apply Z.leb_le in B2.
  destruct (busy y) eqn:L. { unfold mi_get_read, mlive. rewrite Ex, (hdr_busy HD), L. same S. }
  destruct (invalid y) eqn:IV. { unfold mi_get_read, mlive. rewrite Ex, (hdr_busy HD), L, (valid_ok HD BD), IV. same S. }
  destruct (many y) eqn:M; [exact I|]. unfold many in M. apply Z.leb_gt in M. pose proof (invalid_false y IV Z) as C. destruct (valid_data BD Z C) as (l & CV & D1 & la & D2 & D3 & D4 & D5). rewrite L in D5. destruct D5 as (_ & AG). pose proof (h_r0 HD) as R0.
  assert (RO : m_ro x = (if m_readers x =? 0 then None else Some la)) by (rewrite (h_rd HD); auto).
  rewrite (@mi_get_read_ok R w v x la Ex) by (rewrite ?(hdr_busy HD), ?(h_len HD); auto). cbn [mthen].
  destruct (got_ro_fields x la) as (F1 & F2 & F3 & F4 & F5 & F6 & F7 & F8 & F9 & F10). assert (GR : m_ro (got_ro x la) = Some la) by (rewrite F10, RO; destruct (m_readers x =? 0); auto).
  assert (R1 : rel (sv s v (rd y 1)) (putm w v (got_ro x la) (w_mh w)) g). { eapply rel_read with (y := y) (x := x) (y' := rd y 1) (x' := got_ro x la) (la := la); eauto; reflexivity. }
  destruct (Nat.eqb_spec v u) as [VU|VU]; simpl orb in *.
  - subst u. inversion S; subst; clear S. unfold mi_get, mlive. cbn [w_mv putm]. rewrite nupd_eq. unfold mlocked. rewrite F3, (h_rd HD), rd_add by lia. destruct (Z.eqb_spec (a_readers y + 1) 0); [lia|]. rewrite orb_true_r. eexists. split; [reflexivity|auto].
  - destruct (locked z) eqn:Lz. { unfold mi_get, mlive. cbn [w_mv putm]. rewrite nupd_neq by auto. rewrite Exz, (hdr_locked HDz), Lz. inversion S; subst. eexists. split; [reflexivity|auto]. }
    destruct (invalid z) eqn:IVz.
    { unfold mi_get, mlive. cbn [w_mv putm]. rewrite nupd_neq by auto. rewrite Exz, (hdr_locked HDz), Lz, (hdr_empty HDz), (valid_ok HDz BDz), IVz. destruct (Nat.eqb_spec (a_len z) 0); [contradiction|]. inversion S; subst. eexists. split; [reflexivity|auto]. }
    clear R1. inversion S; subst; clear S. set (st := if stop =? -1 then len else stop). assert (ST : st <= len) by (unfold st; destruct (stop =? -1); lia).
    destruct ((start <? st) && (step <=? 0)) eqn:G; [exact I|]. assert (G' : 0 < step \/ st <= start) by (destruct (Z.ltb_spec start st), (Z.leb_spec step 0); try discriminate; lia).
    pose proof (invalid_false z IVz Zz) as Cz. destruct (idle HDz BDz Lz Zz) as (_ & _ & _ & _ & [(C' & _)|(_ & lz & laz & CVz & CAz & CLz & CLLz & AGz)]); [contradiction|].
    rewrite !conts_cval, CV, CVz. set (w1 := putm w v (got_ro x la) (w_mh w)). assert (Exz1 : w_mv w1 u = Some xz) by (cbn; rewrite nupd_neq; auto).
    rewrite (@mi_get_ok R w1 u xz laz Exz1) by (rewrite ?(hdr_locked HDz), ?(h_len HDz); auto). cbn [mthen w_mv putm]. rewrite nupd_neq by auto. rewrite nupd_eq. unfold w1 at 1. cbn [w_mv putm]. rewrite nupd_eq, GR. cbn [m_wr bumpm mc_state mc_wr].
    rewrite (@lsmap_ok R start st step (getZ la) (vf la) laz) by (try (left; exact B2); auto; try lia; intros j J; apply getZ_vf; lia). set (lw := upds (inrange start st step) (vf la) laz).
    set (xg := bumpm (mc_wr xz (Some laz) (m_wo xz)) 1). set (xw := mc_wr xg (Some lw) (m_wo xg)). set (w2 := putm w1 u xg (w_mh w1)). set (w3 := putm w2 u xw (w_mh w2)).
    change (sim (AOk ODone (putc (sv s u (tick z 2)) u (tick z 2) (if start <? st then fill_strided (Z.to_nat start) (Z.to_nat st) (Z.to_nat step) (vf l) lz else lz))) (mdone (mthen (mi_restore_read eqs v w3) (fun _ w4 => mi_restore u w4)))
      (gnote g u (fun i => if inrange start st step i then g_def g v i else g_def g u i) true 2)).
    rewrite (@read_back R eqs eqs_refl w v x la Ex) by (rewrite ?(h_rd HD), ?(h_len HD); auto; try lia; cbn; rewrite !nupd_neq by auto; apply nupd_eq). cbn [mthen]. unfold mi_restore, mlive. cbn [w_mv putm]. rewrite nupd_neq by auto. unfold w3 at 1. cbn [w_mv putm]. rewrite nupd_eq.
    assert (EVz : even (g_st g u) = true). { rewrite (h_ev HDz). destruct (unlocked_parts z Lz) as (L1 & _). apply busy_even; auto. }
    assert (BZ : mbusy xw = true) by (eapply bumpm_locked; [apply (h_st HDz)|auto|reflexivity]). rewrite BZ. replace (empty xw) with (Nat.eqb (a_len z) 0) by (symmetry; apply (hdr_empty HDz)). destruct (Nat.eqb_spec (a_len z) 0) as [|_]; [contradiction|].
    assert (LW : length lw = a_len z) by (unfold lw; rewrite upds_length; auto).
    destruct (restore_comp BDz Zz (h_len HDz) xw laz lw) as (h' & E1 & E2 & E3); auto. change (w_mh (putm w3 v x (w_mh w3))) with (w_mh w). rewrite E1. cbn [lift odone fst snd mdone mthen].
    eexists. split; [reflexivity|]. rewrite fill_strided_upds.
    eapply put_synced with (y := z) (x := xz) (x1 := bumpm (mc_wr (mc_alloc xw (Some lw)) None false) 1) (la' := lw) (l := lz) (l' := upds (inrange start st step) (vf l) lz); eauto; try reflexivity.
    + rewrite upds_length. auto.
    + apply skipn_upds. intros j J1 J2. destruct (inrange start st step j) eqn:Q; auto. apply inrange_lt in Q. lia.
    + unfold lw. intros i J1 J2. rewrite !vf_upds by lia. destruct (inrange start st step i) eqn:Q; [|apply AGz; auto]. apply AG; auto. apply inrange_lt in Q. lia.
    + rewrite putc_nv. auto.
    + rewrite putc_nu. auto.
    + intro k. cbn. unfold nupd. destruct (Nat.eqb_spec k u), (Nat.eqb_spec k v); subst; auto.
Qed.

(** ** Whole histories *)
Theorem mc_step : forall c s w g g', rel s w g -> strict c s g = Some g' -> sim (astep c s) (mbstep c w) g'.
Proof.
  intros c s w g g' H S. destruct c.
  - eapply mc_create; eauto.
  - eapply mc_set_array; eauto.
  - eapply mc_take; eauto.
  - eapply mc_get; eauto.
  - eapply mc_get_read; eauto.
  - eapply mc_get_write; eauto.
  - eapply mc_restore; eauto.
  - eapply mc_restore_read; eauto.
  - eapply mc_set_value; eauto.
  - eapply mc_set_value_strided; eauto.
  - eapply mc_sync; eauto.
  - eapply mc_copy; eauto.
  - eapply mc_copy_strided; eauto.
  - eapply mc_norm; eauto.
  - eapply mc_scale; eauto.
  - apply (@mc_axp R s w g g' (fun a b => (b + alpha * a)%R) _ _ H S).
  - apply (@mc_axp R s w g g' (fun a b => (alpha * a + beta * b)%R) _ _ H S).
  - apply (@mc_mult R nan s w g g' _ _ _ H S).
  - eapply mc_recip; eauto.
  - eapply mc_ref; eauto.
  - eapply mc_destroy; eauto.
  - eapply mc_ualloc; eauto.
  - eapply mc_ufree; eauto.
  - eapply mc_uread; eauto.
  - eapply mc_uwrite; eauto.
  - eapply mc_vread; eauto.
  - eapply mc_vwrite; eauto.
  - eapply mc_vreadw; eauto.
Qed.
Theorem mc_run : forall cs s w g os s' g', rel s w g -> srun fabs gtb sqrt big inv cs s g = Some (os, s', g') ->
  arun fabs gtb sqrt big inv cs s = Some (os, s') /\ exists w', mrun nan eqs fabs gtb sqrt big inv (map (@MBase R) cs) w = Some (os, w') /\ rel s' w' g'.
Proof.
  intro cs. induction cs as [|c cs IH]; intros s w g os s' g' H S; simpl in *.
  - inversion S; subst. split; auto. eauto.
  - destruct (strict c s g) as [g1|] eqn:T; [|discriminate]. pose proof (mc_step c H T) as ST. destruct (astep c s) as [o s1|e s1|]; [| |discriminate]; simpl in ST; destruct ST as (w1 & E & R1); rewrite E;
    (destruct (srun fabs gtb sqrt big inv cs s1 g1) as [((os1 & s2) & g2)|] eqn:Q; [|discriminate]); inversion S; subst; destruct (IH _ _ _ _ _ _ R1 Q) as (A & w2 & B & R2); rewrite A, B; eauto.
Qed.
End P.
