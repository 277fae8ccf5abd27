(** * One action of a client that keeps the rules, continued: access to arrays *)
From Coq Require Import List ZArith Lia Bool Arith.
From Verif Require Import Prelude RstrModel VecModel VecSpec VecProofs VecSim VecLaws McModel McSpec McProofs McStep McStep2.
Import ListNotations.
Set Implicit Arguments.
Local Open Scope Z_scope.

Section P.
Variable R : Rng.
Variables (nan : R) (eqs : R -> R -> bool).
Hypothesis eqs_refl : forall a, eqs a a = true.
Variables (fabs : R -> R) (gtb : R -> R -> bool) (sqrt : R -> R) (big : R -> bool) (inv : R -> R).
Notation upds := (@upds R). Notation astate := (astate R). Notation avec := (avec R). Notation mvec := (mvec R). Notation mworld := (mworld R). Notation heap := (heap R).
Notation mbstep := (mbstep nan eqs fabs gtb sqrt big inv).
Notation astep := (astep fabs gtb sqrt big inv).

Implicit Types (y : avec) (x : mvec) (w : mworld) (s : astate).
Ltac gn := rewrite ?gn_def, ?gn_sync, ?gn_st.
Ltac pw := intros; cbn; unfold nupd; repeat match goal with |- context [Nat.eqb ?a ?b] => destruct (Nat.eqb_spec a b); subst end; auto; try congruence.
Ltac live H E v y x HD BD := match goal with S : zlive ?s v _ = Some _ |- _ => destruct (strict_live _ _ _ S) as (y & E & ?); clear S end;
  destruct (look v H E) as (x & ? & HD & BD).
Ltac same S := inversion S; subst; eexists; split; [reflexivity|auto].

Lemma hdr_lock : forall y x st y' x', hdr y x st -> locked y = false -> a_len y' = a_len y -> m_len x' = m_len x -> m_state x' = add64 (m_state x) 1 -> even (a_clock y') = false ->
  a_readers y' = a_readers y -> m_readers x' = m_readers x -> a_refs y' = a_refs y -> m_refs x' = m_refs x -> (a_wg y' = true -> m_wp x' = true) -> a_rg y' = a_rg y -> hdr y' x' (st + 1).
Proof.
  intros y x st y' x' H L E1 E2 E3 E4 E5 E6 E7 E8 E9 E10. destruct (idle_wg H L) as (W1 & W2). destruct (unlocked_parts y L) as (L1 & L2). constructor.
  - rewrite E2, E1. apply (h_len H).
  - rewrite E3. apply bump_st, (h_st H).
  - rewrite E4, even_S, (h_ev H). unfold busy in L1. auto.
  - rewrite E6, E5. apply (h_rd H).
  - rewrite E5. apply (h_r0 H).
  - rewrite E8, E7. apply (h_rf H).
  - intro Q. split; auto. unfold busy. rewrite E4. auto.
  - rewrite E10, W2. discriminate.
  - rewrite E5. auto.
Qed.
Lemma hdr_unlock : forall y x st y' x', hdr y x st -> busy y = true -> a_len y' = a_len y -> m_len x' = m_len x -> m_state x' = add64 (m_state x) 1 -> a_clock y' = a_clock y + 1 ->
  a_readers y' = a_readers y -> m_readers x' = m_readers x -> a_refs y' = a_refs y -> m_refs x' = m_refs x -> a_wg y' = false -> a_rg y' = a_rg y -> hdr y' x' (st + 1).
Proof.
  intros y x st y' x' H L E1 E2 E3 E4 E5 E6 E7 E8 E9 E10. pose proof (h_ex H L) as R0. constructor.
  - rewrite E2, E1. apply (h_len H).
  - rewrite E3. apply bump_st, (h_st H).
  - rewrite E4, !even_S, (h_ev H). auto.
  - rewrite E6, E5. apply (h_rd H).
  - rewrite E5. apply (h_r0 H).
  - rewrite E8, E7. apply (h_rf H).
  - rewrite E9. discriminate.
  - rewrite E10. intro Q. destruct (h_rp H Q). lia.
  - rewrite E5. auto.
Qed.
Lemma hdr_read : forall y x st y' x' k, hdr y x st -> busy y = false -> 0 <= a_readers y + k < two64 -> a_len y' = a_len y -> m_len x' = m_len x -> m_state x' = m_state x -> a_clock y' = a_clock y ->
  a_readers y' = a_readers y + k -> m_readers x' = add64 (m_readers x) k -> a_refs y' = a_refs y -> m_refs x' = m_refs x -> a_wg y' = a_wg y -> (a_rg y' = true -> (a_len y = O \/ m_rp x' = true) /\ 0 < a_readers y') -> hdr y' x' st.
Proof.
  intros y x st y' x' k H L B E1 E2 E3 E4 E5 E6 E7 E8 E9 E10. assert (BZ : busy y' = false) by (unfold busy in *; rewrite E4; auto). constructor.
  - rewrite E2, E1. apply (h_len H).
  - rewrite E3. apply (h_st H).
  - rewrite E4. apply (h_ev H).
  - rewrite E6, E5, (h_rd H). apply rd_add; auto.
  - rewrite E5. auto.
  - rewrite E8, E7. apply (h_rf H).
  - rewrite E9. intro Q. destruct (h_wp H Q). congruence.
  - rewrite E1. auto.
  - congruence.
Qed.
Lemma after_ok : forall w v f x h, after v f (MOk tt (putm w v x h)) = MOk ODone (putm (putm w v x h) v (f x) h).
Proof. intros. unfold after, mthen, mlive. cbn. unfold nupd. rewrite Nat.eqb_refl. reflexivity. Qed.
Lemma body_read : forall (us hp : heap) len (c : content R) bz rd al ow bo wr ro gd gs al' wr' ro' bz' rd' gd' gs', len <> O -> c <> CEmpty -> body us hp len c bz rd al ow bo wr ro gd gs ->
  (forall l, cval us (mkA len 0 0 0 c false false) = Some l -> data len gd bz rd al wr ro l -> data len gd' bz' rd' al' wr' ro' l) -> (gs' = true -> gs = true /\ al' = al /\ bz' = false) ->
  body us hp len c bz' rd' al' ow bo wr' ro' gd' gs'.
Proof.
  intros us hp len c bz rd al ow bo wr ro gd gs al' wr' ro' bz' rd' gd' gs' N C B D G. unfold body in *. destruct (Nat.eqb_spec len 0); [contradiction|]. destruct c as [|l|n0]; [contradiction| |].
  - destruct B as (B1 & B2 & B3). split; auto.
  - destruct B as (B1 & B2 & l & h & F1 & F2 & F3 & F4 & F5 & F6). split; auto. split; auto. exists l, h. split; auto. split; auto. split; auto. split; auto. split; [|apply D; auto].
    intro Q. destruct (G Q) as (G1 & -> & ->). destruct (F5 G1). auto.
Qed.
(** write access was granted *)
Lemma rel_got : forall s w g v y x y' x' la gd s' w', rel s w g -> s_vecs s v = Some y -> w_mv w v = Some x -> locked y = false -> a_len y <> O -> a_cont y <> CEmpty ->
  a_len y' = a_len y -> even (a_clock y') = false -> a_readers y' = a_readers y -> a_refs y' = a_refs y -> a_cont y' = a_cont y -> a_rg y' = a_rg y -> (a_wg y' = true -> m_wp x' = true) ->
  m_len x' = m_len x -> m_state x' = add64 (m_state x) 1 -> m_readers x' = m_readers x -> m_refs x' = m_refs x -> m_alloc x' = m_alloc x -> m_owned x' = m_owned x -> m_borrowed x' = m_borrowed x -> m_ro x' = m_ro x ->
  m_wr x' = Some la -> length la = a_len y -> (forall i, (i < a_len y)%nat -> gd i = true -> g_def g v i = true /\ m_alloc x = Some la) ->
  s_nv s' = s_nv s -> s_nu s' = s_nu s -> w_mnv w' = w_mnv w -> w_mnu w' = w_mnu w -> (forall u, s_vecs s' u = if Nat.eqb u v then Some y' else s_vecs s u) -> (forall u, w_mv w' u = if Nat.eqb u v then Some x' else w_mv w u) ->
  (forall n, s_user s' n = s_user s n) -> (forall n, w_mh w' n = w_mh w n) ->
  rel s' w' (gnote g v gd false 1).
Proof.
  intros s w g v y x y' x' la gd s' w' H Ey Ex L Z C E1 E2 E3 E4 E5 E6 E7 X1 X2 X3 X4 X5 X6 X7 X8 X9 LA AG N1 N2 N3 N4 SV WV SU WU.
  destruct (look v H Ey) as (x0 & Ex0 & HD & BD). rewrite Ex in Ex0. inversion Ex0; subst x0; clear Ex0. destruct (unlocked_parts y L) as (L1 & L2).
  eapply rel_upd0 with (v := v) (y := y) (x := x) (y' := y') (x' := x'); eauto.
  - intros. apply gn_oth; auto.
  - gn. eapply hdr_lock; eauto.
  - gn. unfold vbody in *. rewrite E1, E3, E5, X5, X6, X7, X8, X9. replace (busy y') with true by (unfold busy; rewrite E2; auto). eapply body_read; eauto; [|discriminate].
    intros l CV (D1 & la0 & D2 & D3 & D4 & D5). split; auto. exists la0. split; auto. split; auto. split; auto. exists la. split; auto. split; auto. rewrite L1 in D5. destruct D5 as (_ & D5).
    intros i I1 I2. destruct (AG i I1 I2) as (A1 & A2). rewrite D2 in A2. inversion A2; subst. auto.
Qed.
Lemma rel_len0 : forall s w g g' v y x y' x' s' w', rel s w g -> s_vecs s v = Some y -> w_mv w v = Some x -> a_len y = O -> a_len y' = O -> a_cont y' = a_cont y -> 
  m_alloc x' = m_alloc x -> m_owned x' = m_owned x -> m_borrowed x' = m_borrowed x -> m_ro x' = m_ro x -> m_wr x' = m_wr x -> hdr y' x' (g_st g' v) ->
  (forall u, u <> v -> g_def g' u = g_def g u /\ g_sync g' u = g_sync g u /\ g_st g' u = g_st g u) ->
  s_nv s' = s_nv s -> s_nu s' = s_nu s -> w_mnv w' = w_mnv w -> w_mnu w' = w_mnu w -> (forall u, s_vecs s' u = if Nat.eqb u v then Some y' else s_vecs s u) -> (forall u, w_mv w' u = if Nat.eqb u v then Some x' else w_mv w u) ->
  (forall n, s_user s' n = s_user s n) -> (forall n, w_mh w' n = w_mh w n) -> rel s' w' g'.
Proof.
  intros s w g g' v y x y' x' s' w' H Ey Ex Z Z' C X1 X2 X3 X4 X5 HD G N1 N2 N3 N4 SV WV SU WU.
  destruct (look v H Ey) as (x0 & Ex0 & HD0 & BD). rewrite Ex in Ex0. inversion Ex0; subst x0; clear Ex0. destruct (len0_alloc BD Z) as (I1 & I2 & I3 & I4 & I5 & IA).
  eapply rel_upd0 with (v := v) (y := y) (x := x) (y' := y') (x' := x'); eauto. apply vbody_len0; congruence.
Qed.
Lemma clock_odd : forall y, locked y = false -> even (a_clock y + 1) = false.
Proof. intros y L. destruct (unlocked_parts y L) as (L1 & _). rewrite even_S. unfold busy in L1. apply negb_false_iff in L1. rewrite L1. auto. Qed.
Lemma cpy_len : forall n (l : list R), length l = n -> cpy n l = Some l.
Proof. intros n l <-. unfold cpy. rewrite Nat.leb_refl, firstn_all. auto. Qed.
Lemma mi_get_ok : forall w v x la, w_mv w v = Some x -> mlocked x = false -> m_len x <> O -> m_alloc x = Some la -> length la = m_len x ->
  mi_get v true w = MOk tt (putm w v (bumpm (mc_wr x (Some la) (m_wo x)) 1) (w_mh w)).
Proof.
  intros w v x la Ex L Z A LA. unfold mi_get, mlive. rewrite Ex, L. unfold empty, mvalid. destruct (Nat.eqb_spec (m_len x) 0); [contradiction|]. rewrite A. simpl. unfold get_mc. simpl. rewrite A, cpy_len by auto. reflexivity.
Qed.
Lemma mc_get : forall s w g g' v host, rel s w g -> strict (CGet v host) s g = Some g' -> sim (astep (CGet v host) s) (mbstep (CGet v host) w) g'.
Proof.
  intros s w g g' v host H S. cbn [strict] in S. live H Ey v y x HD BD. rename H0 into S, H1 into Ex. cbn [VecSpec.astep McModel.mbstep]. unfold s_get, live. rewrite Ey.
  destruct (locked y) eqn:L. { unfold mi_get, mlive. rewrite Ex, (hdr_locked HD), L. same S. }
  destruct (Nat.eqb_spec (a_len y) 0) as [Z|Z]; simpl negb in *; simpl andb in *.
  - assert (IV : invalid y = false) by (unfold invalid; rewrite Z; auto). rewrite IV in *. inversion S; subst. unfold mi_get, mlive. rewrite Ex, (hdr_locked HD), L, (hdr_empty HD), Z. cbn [Nat.eqb]. rewrite after_ok. eexists. split; [reflexivity|].
    eapply rel_len0 with (v := v) (y := y) (x := x) (y' := wg (tick y 1) true) (x' := mc_wp (bumpm x 1) true); eauto; try reflexivity.
    + gn. eapply hdr_lock; eauto. cbn. apply clock_odd; auto.
    + intros. apply gn_oth; auto.
    + pw.
  - destruct (invalid y) eqn:IV; simpl orb in *.
    { unfold mi_get, mlive. rewrite Ex, (hdr_locked HD), L, (hdr_empty HD), (valid_ok HD BD), IV. destruct (Nat.eqb_spec (a_len y) 0); [contradiction|]. same S. }
    destruct (idle HD BD L Z) as (_ & _ & _ & _ & [(C' & CA)|(C & l & la & CV & CA & CL & CLL & AG)]); [exfalso; eapply invalid_false; eauto|].
    destruct host; simpl negb in *; cbv iota in *.
    + rewrite (@mi_get_ok w v x la Ex) by (rewrite ?(hdr_locked HD), ?(h_len HD); auto). rewrite after_ok. inversion S; subst. eexists. split; [reflexivity|].
      eapply rel_got with (y := y) (x := x) (y' := wg (tick y 1) true) (x' := mc_wp (bumpm (mc_wr x (Some la) (m_wo x)) 1) true) (la := la); eauto; try reflexivity.
      * cbn. apply clock_odd; auto.
      * pw.
    + unfold mi_get, mlive. rewrite Ex, (hdr_locked HD), L, (hdr_empty HD), (valid_ok HD BD), IV. destruct (Nat.eqb_spec (a_len y) 0); [contradiction|]. cbn. inversion S; subst. eexists. split; [reflexivity|]. apply putm_same; auto.
Qed.
(** read access was granted *)
Lemma rel_read : forall s w g v y x y' x' la s' w', rel s w g -> s_vecs s v = Some y -> w_mv w v = Some x -> busy y = false -> a_readers y + 1 < two64 -> a_len y <> O -> a_cont y <> CEmpty -> m_alloc x = Some la ->
  a_len y' = a_len y -> a_clock y' = a_clock y -> a_readers y' = a_readers y + 1 -> a_refs y' = a_refs y -> a_cont y' = a_cont y -> a_wg y' = a_wg y -> (a_rg y' = true -> a_rg y = true /\ m_rp x' = m_rp x \/ m_rp x' = true) ->
  m_len x' = m_len x -> m_state x' = m_state x -> m_readers x' = add64 (m_readers x) 1 -> m_refs x' = m_refs x -> m_alloc x' = m_alloc x -> m_owned x' = m_owned x -> m_borrowed x' = m_borrowed x -> m_wr x' = m_wr x -> m_ro x' = Some la ->
  s_nv s' = s_nv s -> s_nu s' = s_nu s -> w_mnv w' = w_mnv w -> w_mnu w' = w_mnu w -> (forall u, s_vecs s' u = if Nat.eqb u v then Some y' else s_vecs s u) -> (forall u, w_mv w' u = if Nat.eqb u v then Some x' else w_mv w u) ->
  (forall n, s_user s' n = s_user s n) -> (forall n, w_mh w' n = w_mh w n) -> rel s' w' g.
Proof.
  intros s w g v y x y' x' la s' w' H Ey Ex L BN Z C AL E1 E2 E3 E4 E5 E6 E7 X1 X2 X3 X4 X5 X6 X7 X8 X9 N1 N2 N3 N4 SV WV SU WU.
  destruct (look v H Ey) as (x0 & Ex0 & HD & BD). rewrite Ex in Ex0. inversion Ex0; subst x0; clear Ex0. pose proof (h_r0 HD) as R0.
  eapply rel_upd0 with (v := v) (y := y) (x := x) (y' := y') (x' := x'); eauto.
  - eapply hdr_read; eauto; [lia|]. intro Q. rewrite E3. split; [|lia]. destruct (E7 Q) as [(Q1 & Q2)|Q1]; auto. destruct (h_rp HD Q1) as ([|] & _); [auto|right; congruence].
  - unfold vbody in *. rewrite E1, E3, E5, X5, X6, X7, X8, X9. replace (busy y') with (busy y) by (unfold busy; rewrite E2; auto). rewrite AL in BD |- *. eapply body_read; eauto.
    intros l CV (D1 & la0 & D2 & D3 & D4 & D5). split; auto. exists la. split; auto. inversion D2; subst la0. split; auto. split; auto. destruct (Z.eqb_spec (a_readers y + 1) 0); [lia|auto].
Qed.
Lemma ro_some : forall y x l gd la, data (a_len y) gd (busy y) (a_readers y) (m_alloc x) (m_wr x) (m_ro x) l -> m_alloc x = Some la -> m_ro x = (if a_readers y =? 0 then None else Some la) /\ length la = a_len y /\ (busy y = false -> agree (a_len y) gd la l).
Proof. intros y x l gd la (D1 & la0 & D2 & D3 & D4 & D5) A. rewrite D2 in A. inversion A; subst. split; auto. split; auto. intro Q. rewrite Q in D5. tauto. Qed.
(** the vector after a call that grants read access *)
Definition got_ro x la := mc_readers (match m_ro x with Some _ => x | None => mc_ro x (Some la) end) (add64 (m_readers x) 1).
Lemma mi_get_read_ok : forall w v x la, w_mv w v = Some x -> mbusy x = false -> m_len x <> O -> m_alloc x = Some la -> length la = m_len x ->
  mi_get_read v true w = MOk tt (putm w v (got_ro x la) (w_mh w)).
Proof.
  intros w v x la Ex L Z A LA. unfold mi_get_read, mlive. rewrite Ex, L. unfold empty, mvalid. destruct (Nat.eqb_spec (m_len x) 0); [contradiction|]. rewrite A. simpl. unfold get_read_mc, got_ro. simpl.
  destruct (m_ro x); [reflexivity|]. rewrite A, cpy_len by auto. reflexivity.
Qed.
Lemma got_ro_fields : forall x la, m_len (got_ro x la) = m_len x /\ m_state (got_ro x la) = m_state x /\ m_readers (got_ro x la) = add64 (m_readers x) 1 /\ m_refs (got_ro x la) = m_refs x /\
  m_alloc (got_ro x la) = m_alloc x /\ m_owned (got_ro x la) = m_owned x /\ m_borrowed (got_ro x la) = m_borrowed x /\ m_wr (got_ro x la) = m_wr x /\ m_rp (got_ro x la) = m_rp x /\ m_ro (got_ro x la) = match m_ro x with Some l => Some l | None => Some la end.
Proof. intros x la. unfold got_ro. destruct x as [? ? ? ? ? ? ? ? [|] ? ? ?]; cbn; repeat split. Qed.
Lemma mc_get_read : forall s w g g' v host, rel s w g -> strict (CGetRead v host) s g = Some g' -> sim (astep (CGetRead v host) s) (mbstep (CGetRead v host) w) g'.
Proof.
  intros s w g g' v host H S. cbn [strict] in S. inversion S; subst g'; clear S. cbn [VecSpec.astep McModel.mbstep]. unfold s_get_read, live. destruct (s_vecs s v) as [y|] eqn:Ey; [|exact I]. destruct (look v H Ey) as (x & Ex & HD & BD).
  destruct (busy y) eqn:L. { unfold mi_get_read, mlive. rewrite Ex, (hdr_busy HD), L. eexists. split; [reflexivity|auto]. }
  destruct (Nat.eqb_spec (a_len y) 0) as [Z|Z]; simpl negb in *; simpl andb in *.
  - assert (IV : invalid y = false) by (unfold invalid; rewrite Z; auto). rewrite IV in *. simpl. destruct (many y) eqn:M; [exact I|]. unfold many in M. apply Z.leb_gt in M. unfold mi_get_read, mlive. rewrite Ex, (hdr_busy HD), L, (valid_ok HD BD), IV, (hdr_empty HD), Z. cbn [Nat.eqb negb lift].
    cbn [odone fst snd]. rewrite after_ok. eexists. split; [reflexivity|]. pose proof (h_r0 HD).
    eapply rel_len0 with (v := v) (y := y) (x := x) (y' := rg (rd y 1) true) (x' := mc_rp (mc_readers x (add64 (m_readers x) 1)) true); eauto; try reflexivity.
    + eapply hdr_read with (k := 1); eauto; cbn; try lia.
    + pw.
  - destruct (invalid y) eqn:IV; simpl orb in *.
    { unfold mi_get_read, mlive. rewrite Ex, (hdr_busy HD), L, (valid_ok HD BD), IV. eexists. split; [reflexivity|auto]. }
    pose proof (invalid_false y IV Z) as C. destruct (valid_data BD Z C) as (l & CV & D). destruct (m_alloc x) as [la|] eqn:CA; [|destruct D as (_ & ? & ? & _); discriminate]. rewrite <- CA in D. destruct (ro_some y x D CA) as (RO & LA & AG).
    destruct host; simpl negb in *; cbv iota in *.
    + destruct (many y) eqn:M; [exact I|]. unfold many in M. apply Z.leb_gt in M. rewrite (@mi_get_read_ok w v x la Ex) by (rewrite ?(hdr_busy HD), ?(h_len HD); auto). rewrite after_ok. eexists. split; [reflexivity|].
      destruct (got_ro_fields x la) as (F1 & F2 & F3 & F4 & F5 & F6 & F7 & F8 & F9 & F10).
      eapply rel_read with (y := y) (x := x) (y' := rg (rd y 1) true) (x' := mc_rp (got_ro x la) true) (la := la); eauto; try reflexivity.
      * change (m_ro (got_ro x la) = Some la). rewrite F10, RO. destruct (a_readers y =? 0); auto.
      * pw.
    + unfold mi_get_read, mlive. rewrite Ex, (hdr_busy HD), L, (hdr_empty HD), (valid_ok HD BD), IV. destruct (Nat.eqb_spec (a_len y) 0); [contradiction|]. cbn. eexists. split; [reflexivity|]. apply putm_same; auto.
Qed.
Lemma mc_get_write : forall s w g g' v host, rel s w g -> strict (CGetWrite v host) s g = Some g' -> sim (astep (CGetWrite v host) s) (mbstep (CGetWrite v host) w) g'.
Proof.
  intros s w g g' v host H S. cbn [strict] in S. live H Ey v y x HD BD. rename H0 into S, H1 into Ex. cbn [VecSpec.astep McModel.mbstep]. unfold s_get_write, live, mi_get_write, mlive. rewrite Ey, Ex, (hdr_locked HD).
  destruct (locked y) eqn:L. { same S. }
  rewrite (hdr_empty HD). destruct (Nat.eqb_spec (a_len y) 0) as [Z|Z]; simpl negb in *; simpl andb in *.
  - assert (IV : invalid y = false) by (unfold invalid; rewrite Z; auto). unfold s_zero. rewrite IV in *. cbv iota in *. inversion S; subst. cbn [lift odone fst snd]. rewrite after_ok. eexists. split; [reflexivity|].
    eapply rel_len0 with (v := v) (y := y) (x := x) (y' := wg (tick y 1) true) (x' := mc_wp (bumpm x 1) true); eauto; try reflexivity.
    + gn. eapply hdr_lock; eauto. cbn. apply clock_odd; auto.
    + intros. apply gn_oth; auto.
    + pw.
  - destruct host; simpl negb in *; cbv iota in *.
    2:{ apply rule_true in S. destruct S as (IV & ->). apply negb_true_iff in IV. unfold s_zero. rewrite IV. cbn. eexists. split; [reflexivity|]. eapply rel_ext; eauto; pw. }
    inversion S; subst. unfold get_write_mc. simpl negb. cbv iota. destruct (ensure_ok (nan := nan) (w_mh w) HD BD Z) as (la & EN & LA & AL). rewrite EN. cbn [bbind]. unfold get_mc. cbn [negb m_alloc mc_alloc m_len].
    rewrite cpy_len by (rewrite (h_len HD); auto). cbn [bbind lift odone fst snd]. rewrite after_ok. eexists. split; [reflexivity|].
    set (x' := mc_wp (bumpm (mc_wr (mc_wr (mc_alloc x (Some la)) (Some la) (m_wo (mc_alloc x (Some la)))) (Some (repeat nan (m_len (mc_wr (mc_alloc x (Some la)) (Some la) (m_wo (mc_alloc x (Some la))))))) true) 1) true).
    destruct (idle HD BD L Z) as (I1 & I2 & I3 & I4 & [(C & CA)|(C & l & la0 & CV & CA & CL & CLL & AG)]).
    + rewrite (s_zero_cont y Z C). eapply rel_upd0 with (y := y) (x := x) (y' := wg (tick (tick (ct y (COwn (zeros (a_len y)))) 2) 1) true) (x' := x'); eauto; try reflexivity.
      * pw.
      * intros. apply gn_oth; auto.
      * gn. eapply hdr_lock; eauto. cbn. rewrite even_S, even2, <- even_S. apply clock_odd; auto.
      * gn. unfold vbody, body in *. cbn. destruct (Nat.eqb_spec (a_len y) 0); [contradiction|]. rewrite C in BD. destruct BD as (_ & -> & -> & _). split; auto. split; [discriminate|]. unfold data. rewrite I2, I4. split; [unfold zeros; rewrite repeat_length; auto|].
        exists la. split; auto. split; auto. split; auto. replace (busy _) with true by (unfold busy; cbn; rewrite even_S, even2, <- even_S, clock_odd; auto). eexists. split; [reflexivity|]. rewrite repeat_length. split; [apply (h_len HD)|]. intros i _ Q. discriminate.
    + rewrite (s_zero_id y C). destruct AL as [AL|(AL & _)]; [|contradiction]. eapply rel_got with (y := y) (x := x) (y' := wg (tick y 1) true) (x' := x') (la := repeat nan (m_len x)); eauto; try reflexivity.
      * cbn. apply clock_odd; auto.
      * cbn. rewrite repeat_length. apply (h_len HD).
      * intros i _ Q. discriminate.
      * pw.
Qed.
(** write access given back: the values move to the private buffer and on to the arrays behind it *)
Lemma restore_ok : forall us (hp : heap) y x gd gs, vbody us hp y x gd gs -> a_len y <> O -> m_len x = a_len y -> busy y = true ->
  exists l lw h', cval us y = Some l /\ m_wr x = Some lw /\ length lw = a_len y /\ agree (a_len y) gd lw l /\ (a_len y <= length l)%nat /\
    restore_mc x hp = BOk (mc_wr (mc_alloc (mc_wr x (m_wr x) false) (Some lw)) None false) h' /\
    (forall n, h' n = hp n \/ (holds x n /\ exists h h2, hp n = Some h /\ h' n = Some h2 /\ length h2 = length h /\ skipn (a_len y) h2 = skipn (a_len y) h)) /\
    (forall n h2, a_cont y = CShared n -> h' n = Some h2 -> firstn (a_len y) h2 = lw).
Proof.
  intros us hp y x gd gs B Z LX BZ. assert (C : a_cont y <> CEmpty).
  { intro C. unfold vbody, body in B. destruct (Nat.eqb_spec (a_len y) 0); [contradiction|]. rewrite C in B. destruct B as (_ & _ & _ & _ & _ & B & _). congruence. }
  destruct (valid_data B Z C) as (l & CV & D1 & la & D2 & D3 & D4 & D5). rewrite BZ in D5. destruct D5 as (lw & W1 & W2 & W3).
  destruct (sync_ok (la := lw) B Z LX (mc_alloc (mc_wr x (m_wr x) false) (Some lw))) as (h' & E1 & E2 & E3); auto.
  exists l, lw, h'. repeat (split; [assumption|]). split; [|split; auto]. unfold restore_mc. rewrite D2, W1, LX, D3, W2. rewrite !Nat.leb_refl. simpl andb. cbv iota. rewrite W1 in E1.
  rewrite (@firstn_len R (a_len y) lw) by auto. rewrite skipn_all2 by lia. rewrite app_nil_r. rewrite E1. reflexivity.
Qed.
Arguments restore_ok {us hp y x gd gs}.
Lemma mc_restore : forall s w g g' v, rel s w g -> strict (CRestore v) s g = Some g' -> sim (astep (CRestore v) s) (mbstep (CRestore v) w) g'.
Proof.
  intros s w g g' v H S. cbn [strict] in S. live H Ey v y x HD BD. rename H0 into S, H1 into Ex. cbn [VecSpec.astep McModel.mbstep]. unfold s_restore, live, mi_restore, mlive. rewrite Ey, Ex, (hdr_busy HD).
  destruct (busy y) eqn:L. 2:{ same S. }
  inversion S; subst; clear S. rewrite (hdr_empty HD). destruct (Nat.eqb_spec (a_len y) 0) as [Z|Z].
  - cbn [lift odone fst snd]. rewrite after_ok. eexists. split; [reflexivity|]. eapply rel_len0 with (v := v) (y := y) (x := x) (y' := wg (tick y 1) false) (x' := mc_wp (bumpm x 1) false); eauto; try reflexivity.
    + gn. eapply hdr_unlock; eauto.
    + intros. apply gn_oth; auto.
    + pw.
  - destruct (restore_ok BD Z (h_len HD) L) as (l & lw & h' & CV & W1 & W2 & W3 & W4 & E1 & E2 & E3). rewrite E1. cbn [lift odone fst snd]. rewrite after_ok. eexists. split; [reflexivity|].
    assert (BF : busy (wg (tick y 1) false) = false). { unfold busy in *. cbn. rewrite even_S. rewrite negb_involutive. apply negb_true_iff in L. auto. }
    eapply rel_modify with (y := y) (x := x) (y1 := wg (tick y 1) false) (x1 := mc_wp (bumpm (mc_wr (mc_alloc (mc_wr x (m_wr x) false) (Some lw)) None false) 1) false) (l' := l) (zz := l); eauto; try reflexivity.
    + cbn. unfold cval in CV. destruct (a_cont y); auto. discriminate.
    + intros n l2 Q1 Q2. unfold cval in CV. rewrite Q1, Q2 in CV. inversion CV; subst. auto.
    + intro u. cbn. unfold nupd. destruct (Nat.eqb u v); auto. unfold cval in CV. destruct (a_cont y) eqn:C; auto. inversion CV; subst. unfold wg, tick, ct; cbn. rewrite C. reflexivity.
    + intro n. cbn. unfold cval in CV. destruct (a_cont y); auto. destruct (Nat.eqb_spec n n0); subst; auto.
    + pw.
    + intros. apply gn_oth; auto.
    + gn. eapply hdr_unlock; eauto.
    + gn. rewrite BF. split; auto. exists lw. cbn. split; auto. split; auto. pose proof (h_ex HD L) as R0. rewrite R0. split; auto.
      destruct (valid_data BD Z) as (l0 & _ & _ & la & _ & _ & RO & _). { intro C. unfold cval in CV. rewrite C in CV. discriminate. } rewrite R0 in RO. auto.
    + gn. intros _ n h2 Q1 Q2. split; auto. cbn in Q2 |- *. rewrite (E3 n h2 Q1 Q2). auto.
Qed.
Lemma same_refl : forall n (l : list R), (n <= length l)%nat -> McModel.same eqs n l l = Some true.
Proof. intro n. induction n as [|n IH]; intros [|a l] L; simpl in *; auto; try lia. rewrite IH, eqs_refl by lia. auto. Qed.
Lemma mc_restore_read : forall s w g g' v, rel s w g -> strict (CRestoreRead v) s g = Some g' -> sim (astep (CRestoreRead v) s) (mbstep (CRestoreRead v) w) g'.
Proof.
  intros s w g g' v H S. cbn [strict] in S. inversion S; subst g'; clear S. cbn [VecSpec.astep McModel.mbstep]. unfold s_restore_read, live. destruct (s_vecs s v) as [y|] eqn:Ey; [|exact I]. destruct (look v H Ey) as (x & Ex & HD & BD).
  unfold mi_restore_read, mlive. rewrite Ex. rewrite (h_rd HD). destruct (Z.ltb_spec 0 (a_readers y)) as [RP|RP]. 2:{ eexists. split; [reflexivity|auto]. }
  assert (L : busy y = false). { destruct (busy y) eqn:Q; auto. pose proof (h_ex HD Q). lia. } pose proof (h_r0 HD) as R0.
  cbv zeta. replace (empty (mc_readers x _)) with (Nat.eqb (a_len y) 0) by (symmetry; apply (hdr_empty HD)). cbn [m_readers mc_readers]. rewrite rd_add by lia.
  assert (HDR : forall y' x', a_len y' = a_len y -> m_len x' = m_len x -> m_state x' = m_state x -> a_clock y' = a_clock y -> a_readers y' = a_readers y + -1 -> m_readers x' = a_readers y + -1 -> a_refs y' = a_refs y -> m_refs x' = m_refs x -> a_wg y' = a_wg y ->
    a_rg y' = a_rg y && (1 <? a_readers y) -> (a_len y = O \/ a_readers y <= 1 \/ m_rp x' = m_rp x) -> hdr y' x' (g_st g v)).
  { intros y' x' A1 A2 A3 A4 A5 A6 A7 A8 A9 A10 A11. eapply hdr_read with (k := -1); eauto; try lia. { rewrite A6, (h_rd HD), rd_add by lia. auto. }
    rewrite A10, A5. intro Q. apply andb_prop in Q. destruct Q as (Q1 & Q2). apply Z.ltb_lt in Q2. split; [|lia]. destruct A11 as [|[A|A]]; [auto|lia|]. rewrite A. destruct (h_rp HD Q1) as (Q3 & _). auto. }
  destruct (Nat.eqb_spec (a_len y) 0) as [Z|Z]; simpl negb; simpl andb.
  - cbn [lift odone fst snd]. rewrite after_ok. eexists. split; [reflexivity|]. assert (HH : hdr (rg (rd y (-1)) (a_rg y && (1 <? a_readers y))) (mc_rp (mc_readers x (a_readers y + -1)) (m_rp x && has (m_ro x))) (g_st g v)) by (apply HDR; auto). clear HDR. eapply rel_len0 with (v := v) (y := y) (x := x) (y' := rg (rd y (-1)) (a_rg y && (1 <? a_readers y))) (x' := mc_rp (mc_readers x (a_readers y + -1)) (m_rp x && has (m_ro x))); eauto; try reflexivity; pw.
  - assert (C : a_cont y <> CEmpty). { intro C. unfold vbody, body in BD. destruct (Nat.eqb_spec (a_len y) 0); [contradiction|]. rewrite C in BD. destruct BD as (_ & _ & _ & _ & _ & _ & B). lia. }
    destruct (valid_data BD Z C) as (l & CV & D1 & la & D2 & D3 & D4 & D5). destruct (Z.eqb_spec (a_readers y) 0) as [|_]; [lia|].
    destruct (Z.eqb_spec (a_readers y + -1) 0) as [E|E].
    + unfold restore_read_mc. cbn [m_alloc m_ro m_len mc_readers]. rewrite D2, D4, same_refl by (rewrite (h_len HD); lia). cbn [lift odone fst snd]. rewrite after_ok. eexists. split; [reflexivity|].
      assert (HH : hdr (rg (rd y (-1)) (a_rg y && (1 <? a_readers y))) (mc_rp (mc_ro (mc_readers x (a_readers y + -1)) None) (m_rp x && false)) (g_st g v)) by (apply HDR; auto; right; left; lia). clear HDR. eapply rel_upd0 with (y := y) (x := x) (y' := rg (rd y (-1)) (a_rg y && (1 <? a_readers y))) (x' := mc_rp (mc_ro (mc_readers x (a_readers y + -1)) None) (m_rp x && false)); eauto; try reflexivity; [pw|].
      * unfold vbody in *. cbn. eapply body_read; eauto. intros l0 _ (G1 & la0 & G2 & G3 & G4 & G5). split; auto. exists la0. split; auto. split; auto. rewrite E. split; auto.
    + cbn [lift odone fst snd]. rewrite after_ok. eexists. split; [reflexivity|].
      assert (HH : hdr (rg (rd y (-1)) (a_rg y && (1 <? a_readers y))) (mc_rp (mc_readers x (a_readers y + -1)) (m_rp x && has (m_ro x))) (g_st g v)) by (apply HDR; auto; right; right; cbn; rewrite D4; cbn; apply andb_true_r). clear HDR. eapply rel_upd0 with (y := y) (x := x) (y' := rg (rd y (-1)) (a_rg y && (1 <? a_readers y))) (x' := mc_rp (mc_readers x (a_readers y + -1)) (m_rp x && has (m_ro x))); eauto; try reflexivity; [pw|].
      * unfold vbody in *. cbn. eapply body_read; eauto. intros l0 _ (G1 & la0 & G2 & G3 & G4 & G5). split; auto. exists la0. split; auto. split; auto. split; auto. rewrite G4. destruct (Z.eqb_spec (a_readers y) 0), (Z.eqb_spec (a_readers y + -1) 0); auto; lia.
Qed.
End P.
