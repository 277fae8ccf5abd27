(** * One action of a client that keeps the rules: the memcheck model follows the abstract machine *)
From Coq Require Import List ZArith Lia Bool Arith.
From Verif Require Import Prelude RstrModel VecModel VecSpec VecProofs VecSim VecLaws McModel McSpec McProofs.
Import ListNotations.
Set Implicit Arguments.
Local Open Scope Z_scope.

Section P.
Variable R : Rng.
Variables (nan : R) (eqs : R -> R -> bool).
Hypothesis eqs_refl : forall a, eqs a a = true.
Variables (fabs : R -> R) (gtb : R -> R -> bool) (sqrt : R -> R) (big : R -> bool) (inv : R -> R).
Notation upds := (@upds R). Notation astate := (astate R). Notation avec := (avec R). Notation mvec := (mvec R). Notation mworld := (mworld R). Notation heap := (heap R).
Notation mbstep := (mbstep nan eqs fabs gtb sqrt big inv).
Notation astep := (astep fabs gtb sqrt big inv).

Implicit Types (y : avec) (x : mvec) (w : mworld) (s : astate).
Definition sim (o : aout R) (m : mout R (obs R)) (g : ghost) : Prop :=
  match o with
  | AOk ob s => exists w, m = MOk ob w /\ rel s w g
  | AErr e s => exists w, m = MErr e w /\ rel s w g
  | AIll => True
  end.
Lemma gn_def : forall g v d b k, g_def (gnote g v d b k) v = d. Proof. intros. cbn. unfold nupd. rewrite Nat.eqb_refl. auto. Qed.
Lemma gn_sync : forall g v d b k, g_sync (gnote g v d b k) v = b. Proof. intros. cbn. unfold nupd. rewrite Nat.eqb_refl. auto. Qed.
Lemma gn_st : forall g v d b k, g_st (gnote g v d b k) v = g_st g v + k. Proof. intros. cbn. unfold nupd. rewrite Nat.eqb_refl. auto. Qed.
Lemma gn_oth : forall g v d b k u, u <> v -> g_def (gnote g v d b k) u = g_def g u /\ g_sync (gnote g v d b k) u = g_sync g u /\ g_st (gnote g v d b k) u = g_st g u.
Proof. intros g v d b k u N. cbn. unfold nupd. destruct (Nat.eqb_spec u v); [contradiction|auto]. Qed.
Ltac gn := rewrite ?gn_def, ?gn_sync, ?gn_st.
Ltac pw := intros; cbn; unfold nupd; repeat match goal with |- context [Nat.eqb ?a ?b] => destruct (Nat.eqb_spec a b); subst end; auto; try congruence.

Lemma bump_st : forall st k (x : mvec), m_state x = st mod two64 -> add64 (m_state x) k = (st + k) mod two64.
Proof. intros st k x ->. apply add64_mod. Qed.
Lemma rd_add : forall z k, 0 <= z + k < two64 -> add64 z k = z + k.
Proof. intros. unfold add64. apply Z.mod_small; auto. Qed.
Lemma putm_same : forall s (w : mworld) g v x, rel s w g -> w_mv w v = Some x -> rel s (putm w v x (w_mh w)) g.
Proof. intros s w g v x H E. eapply rel_ext; eauto. intro u. cbn. unfold nupd. destruct (Nat.eqb_spec u v); subst; auto. Qed.
Lemma strict_live : forall (s : astate) v k g, zlive s v k = Some g -> exists y, s_vecs s v = Some y /\ k y = Some g.
Proof. intros s v k g H. unfold zlive in H. destruct (s_vecs s v); [eauto|discriminate]. Qed.
Lemma rule_true : forall b g g', rule b g = Some g' -> b = true /\ g' = g.
Proof. intros [|] g g' H; inversion H; auto. Qed.
Lemma invalid_false : forall (y : avec), invalid y = false -> a_len y <> O -> a_cont y <> CEmpty.
Proof. intros y H L C. unfold invalid in H. rewrite C in H. destruct (Nat.eqb_spec (a_len y) 0); [contradiction|discriminate]. Qed.
Lemma unlocked_parts : forall y : avec, locked y = false -> busy y = false /\ a_readers y = 0.
Proof. intros y L. unfold locked in L. apply orb_false_iff in L. destruct L as (L1 & L2). apply negb_false_iff, Z.eqb_eq in L2. auto. Qed.
Lemma busy_even : forall y : avec, busy y = false -> even (a_clock y) = true. Proof. intros y H. unfold busy in H. apply negb_false_iff in H. auto. Qed.
Lemma idle_wg : forall (y : avec) (x : mvec) st, hdr y x st -> locked y = false -> a_wg y = false /\ a_rg y = false.
Proof.
  intros y x st H L. destruct (unlocked_parts y L) as (L1 & L2). split.
  - destruct (a_wg y) eqn:E; auto. destruct (h_wp H E). congruence.
  - destruct (a_rg y) eqn:E; auto. destruct (h_rp H E). lia.
Qed.
Lemma alldef_true : forall g v (y : avec), alldef g v y = true -> forall i, (i < a_len y)%nat -> g_def g v i = true.
Proof. intros g v y H i L. unfold alldef in H. rewrite forallb_forall in H. apply H, in_seq. lia. Qed.

(** vectors that stay idle: the state counter moves by [k], the clock by an even number *)
Lemma hdr_idle : forall (y : avec) (x : mvec) st (y' : avec) (x' : mvec) k, hdr y x st -> locked y = false -> a_len y' = a_len y -> m_len x' = m_len x -> m_state x' = (st + k) mod two64 -> even k = true ->
  even (a_clock y') = even (a_clock y) -> a_readers y' = a_readers y -> m_readers x' = m_readers x -> a_refs y' = a_refs y -> m_refs x' = m_refs x -> a_wg y' = a_wg y -> a_rg y' = a_rg y -> hdr y' x' (st + k).
Proof.
  intros y x st y' x' k H L E1 E2 E3 E4 E5 E6 E7 E8 E9 E10 E11. destruct (idle_wg H L) as (W1 & W2). destruct (unlocked_parts y L) as (L1 & L2). constructor.
  - rewrite E2, E1. apply (h_len H).
  - auto.
  - rewrite E5, <- (h_ev H). unfold even in *. apply Z.eqb_eq in E4. rewrite Z.add_mod, E4, Z.add_0_r, Z.mod_mod by lia. auto.
  - rewrite E7, E6. apply (h_rd H).
  - rewrite E6. apply (h_r0 H).
  - rewrite E9, E8. apply (h_rf H).
  - rewrite E10, W1. discriminate.
  - rewrite E11, W2. discriminate.
  - intros _. rewrite E6. auto.
Qed.
Ltac live H E v y x HD BD := match goal with S : zlive ?s v _ = Some _ |- _ => destruct (strict_live _ _ _ S) as (y & E & ?); clear S end;
  destruct (look v H E) as (x & ? & HD & BD).

(** new values for an idle vector *)
Lemma put_idle : forall s w g v y x y1 la l' k gd s', rel s w g -> s_vecs s v = Some y -> w_mv w v = Some x -> locked y = false -> a_len y <> O ->
  (exists zz, a_cont y1 = match a_cont y with CEmpty => COwn zz | c => c end) -> a_len y1 = a_len y -> even (a_clock y1) = even (a_clock y) -> a_readers y1 = a_readers y -> a_refs y1 = a_refs y ->
  a_wg y1 = a_wg y -> a_rg y1 = a_rg y -> even k = true ->
  length la = a_len y -> (a_len y <= length l')%nat -> agree (a_len y) gd la l' ->
  (forall n l, a_cont y = CShared n -> s_user s n = Some l -> length l' = length l /\ skipn (a_len y) l' = skipn (a_len y) l) ->
  s_nv s' = s_nv s -> s_nu s' = s_nu s ->
  (forall u, s_vecs s' u = if Nat.eqb u v then Some (match a_cont y1 with COwn _ => ct y1 (COwn l') | _ => y1 end) else s_vecs s u) ->
  (forall n, s_user s' n = match a_cont y1 with CShared m => if Nat.eqb n m then Some l' else s_user s n | _ => s_user s n end) ->
  rel s' (putm w v (bumpm (mc_alloc x (Some la)) k) (w_mh w)) (gnote g v gd false k).
Proof.
  intros s w g v y x y1 la l' k gd s' H Ey Ex L N (zz & C1) L1 E1 E2 E3 E4 E5 EK LA LL AG LEN N1 N2 SV SU.
  destruct (look v H Ey) as (x0 & Ex0 & HD & BD). rewrite Ex in Ex0. inversion Ex0; subst x0; clear Ex0. destruct (idle HD BD L N) as (I1 & I2 & I3 & I4 & _).
  eapply (@rel_modify R s w g s' (putm w v (bumpm (mc_alloc x (Some la)) k) (w_mh w)) (gnote g v gd false k) v y x y1 (bumpm (mc_alloc x (Some la)) k) l' zz); eauto.
  - intros. apply gn_oth; auto.
  - gn. eapply hdr_idle; eauto. cbn. apply add64_mod' || (rewrite (bump_st (g_st g v)) by apply (h_st HD); auto).
  - gn. cbn. rewrite I3, I4. replace (busy y1) with false by (unfold busy in *; rewrite E1; auto). rewrite E2, I2. split; auto. exists la. simpl. auto.
  - gn. discriminate.
Qed.
Lemma bump0 : forall (x : mvec) st, m_state x = st mod two64 -> bumpm x 0 = x.
Proof. intros x st E. unfold bumpm, mc_state. rewrite (bump_st st) by auto. rewrite Z.add_0_r, <- E. destruct x; auto. Qed.
Lemma alloc_same : forall (x : mvec) la, m_alloc x = Some la -> mc_alloc x (Some la) = x. Proof. intros x la <-. destruct x; auto. Qed.
Lemma ensure_ok : forall us hp (y : avec) (x : mvec) gd gs st h, hdr y x st -> vbody us hp y x gd gs -> a_len y <> O ->
  exists la, ensure_mc nan x h = BOk (mc_alloc x (Some la)) h /\ length la = a_len y /\ (m_alloc x = Some la \/ (a_cont y = CEmpty /\ m_alloc x = None)).
Proof.
  intros us hp y x gd gs st h HD BD N. unfold ensure_mc. unfold vbody, body in BD. destruct (Nat.eqb_spec (a_len y) 0); [contradiction|]. destruct (a_cont y) as [|l|n0].
  - destruct BD as (A & _). rewrite A. exists (repeat nan (m_len x)). unfold set_array_mc. simpl. rewrite repeat_length, (h_len HD). auto.
  - destruct BD as (_ & _ & _ & la & A & B & _). rewrite A. exists la. rewrite alloc_same by auto. auto.
  - destruct BD as (_ & _ & l & h0 & _ & _ & _ & _ & _ & _ & la & A & B & _). rewrite A. exists la. rewrite alloc_same by auto. auto.
Qed.

Arguments ensure_ok {us hp y x gd gs st}.
(** ** The calls that set values *)
Lemma len0_alloc : forall us hp (y : avec) (x : mvec) gd gs, vbody us hp y x gd gs -> a_len y = O -> a_cont y = CEmpty /\ m_owned x = None /\ m_borrowed x = None /\ m_wr x = None /\ m_ro x = None /\ (m_alloc x = None \/ m_alloc x = Some []).
Proof. intros us hp y x gd gs B E. unfold vbody, body in B. rewrite E in B. simpl in B. destruct B as (B1 & B2 & B3 & B4 & B5 & B6). repeat split; assumption. Qed.
Lemma vbody_len0 : forall us hp (y : avec) (x : mvec) gd gs, a_len y = O -> a_cont y = CEmpty -> m_owned x = None -> m_borrowed x = None -> m_wr x = None -> m_ro x = None -> (m_alloc x = None \/ m_alloc x = Some []) -> vbody us hp y x gd gs.
Proof. intros us hp y x gd gs E C O B W RO A. unfold vbody, body. rewrite E. simpl. repeat split; assumption. Qed.
Arguments len0_alloc {us hp y x gd gs}.
(** a change of an empty vector that is not in use *)
Lemma put_len0 : forall s w g v y x y1 al k gd gs s', rel s w g -> s_vecs s v = Some y -> w_mv w v = Some x -> locked y = false -> a_len y = O ->
  a_cont y1 = a_cont y -> a_len y1 = a_len y -> even (a_clock y1) = even (a_clock y) -> a_readers y1 = a_readers y -> a_refs y1 = a_refs y -> a_wg y1 = a_wg y -> a_rg y1 = a_rg y -> even k = true ->
  (al = None \/ al = Some []) -> s_nv s' = s_nv s -> s_nu s' = s_nu s -> (forall u, s_vecs s' u = if Nat.eqb u v then Some y1 else s_vecs s u) -> (forall n, s_user s' n = s_user s n) ->
  rel s' (putm w v (bumpm (mc_alloc x al) k) (w_mh w)) (gnote g v gd gs k).
Proof.
  intros s w g v y x y1 al k gd gs s' H Ey Ex L N C1 L1 E1 E2 E3 E4 E5 EK AL N1 N2 SV SU.
  destruct (look v H Ey) as (x0 & Ex0 & HD & BD). rewrite Ex in Ex0. inversion Ex0; subst x0; clear Ex0. destruct (len0_alloc BD N) as (I1 & I2 & I3 & I4 & I5 & _).
  eapply rel_upd0 with (y := y) (x := x) (y' := y1) (x' := bumpm (mc_alloc x al) k); eauto.
  - intros. apply gn_oth; auto.
  - gn. eapply hdr_idle; eauto. cbn. rewrite (bump_st (g_st g v)) by apply (h_st HD); auto.
  - apply vbody_len0; auto; congruence.
Qed.
Lemma agree_upds : forall len gd gd' sel (F F' : nat -> R) la l, length la = len -> (len <= length l)%nat ->
  (forall i, (i < len)%nat -> gd' i = true -> sel i = true -> F i = F' i) -> (forall i, (i < len)%nat -> gd' i = true -> sel i = false -> gd i = true /\ vf la i = vf l i) ->
  agree len gd' (upds sel F la) (upds sel F' l).
Proof.
  intros len gd gd' sel F F' la l LA LL A B i Hi D. rewrite !vf_upds by lia. destruct (sel i) eqn:S; auto. apply B; auto.
Qed.

Lemma mc_set_value : forall s w g g' v a, rel s w g -> strict (CSetValue v a) s g = Some g' -> sim (astep (CSetValue v a) s) (mbstep (CSetValue v a) w) g'.
Proof.
  intros s w g g' v a H S. cbn [strict] in S. live H Ey v y x HD BD. rename H0 into S, H1 into Ex. cbn [VecSpec.astep McModel.mbstep]. unfold s_set_value, live, mi_set_value, mlive. rewrite Ey, Ex, (hdr_locked HD).
  destruct (locked y) eqn:L. { inversion S; subst. eexists. split; [reflexivity|auto]. }
  inversion S; subst; clear S. unfold set_value_mc. destruct (Nat.eqb_spec (a_len y) 0) as [Z|Z].
  - destruct (len0_alloc BD Z) as (I1 & I2 & I3 & I4 & I5 & IA). assert (Z' : m_len x = O) by (rewrite (h_len HD); auto).
    assert (EN: ensure_mc nan x (w_mh w) = BOk (mc_alloc x (Some [])) (w_mh w)).
    { unfold ensure_mc. destruct IA as [A|A]; rewrite A; [|rewrite alloc_same by auto; auto]. unfold set_array_mc. simpl. rewrite Z'. reflexivity. }
    rewrite EN. cbn [bbind m_alloc mc_alloc m_len]. rewrite Z'. cbn. eexists. split; [reflexivity|].
    eapply put_len0 with (y := y) (x := x) (y1 := tick (s_zero y) 2) (al := Some []); eauto; unfold s_zero, invalid; rewrite Z; simpl; auto using even2.
  - destruct (ensure_ok (w_mh w) HD BD Z) as (la & EN & LA & AL). rewrite EN. cbn [bbind m_alloc mc_alloc m_len]. rewrite (h_len HD).
    assert (LF : map (fun _ : nat => a) (seq 0 (a_len y)) ++ skipn (a_len y) la = fill (a_len y) (fun _ => a) la) by reflexivity. rewrite LF. clear LF.
    destruct (idle HD BD L Z) as (_ & _ & _ & _ & [(C & CA)|(C & l & la0 & CV & CA & CL & CLL & AG)]).
    + assert (SZ: s_zero y = tick (ct y (COwn (zeros (a_len y)))) 2). { unfold s_zero, invalid. rewrite C. destruct (Nat.eqb_spec (a_len y) 0); [contradiction|auto]. }
      rewrite SZ. cbn [conts a_cont tick ct]. cbn [mdone mthen lift odone fst snd]. eexists. split; [reflexivity|].
      change (bumpm (mc_alloc (mc_alloc x (Some la)) (Some (fill (a_len y) (fun _ : nat => a) la))) 2) with (bumpm (mc_alloc x (Some (fill (a_len y) (fun _ : nat => a) la))) 2).
      eapply put_idle with (y := y) (x := x) (y1 := tick (tick (ct y (COwn (zeros (a_len y)))) 2) 2) (l' := fill (a_len y) (fun _ => a) (zeros (a_len y))); eauto; cbn; auto.
      * exists (zeros (a_len y)). rewrite C. auto.
      * rewrite !even2. auto.
      * rewrite fill_length; lia.
      * rewrite fill_length; unfold zeros; rewrite repeat_length; lia.
      * rewrite !fill_upds by (unfold zeros; rewrite ?repeat_length; lia). apply agree_upds with (gd := g_def g v); auto. { unfold zeros. rewrite repeat_length. lia. } intros i Hi _ F. apply Nat.ltb_ge in F. lia.
      * intros n l Q. congruence.
      * intros. pw.
    + assert (SZ: s_zero y = y). { unfold s_zero, invalid. destruct (a_cont y); [contradiction| |]; rewrite andb_false_r; auto. }
      rewrite SZ. replace (conts (sv s v (tick y 2)) (tick y 2)) with (Some l) by (symmetry; exact CV). cbn [mdone mthen lift odone fst snd]. eexists. split; [reflexivity|].
      change (bumpm (mc_alloc (mc_alloc x (Some la)) (Some (fill (a_len y) (fun _ : nat => a) la))) 2) with (bumpm (mc_alloc x (Some (fill (a_len y) (fun _ : nat => a) la))) 2).
      eapply put_idle with (y := y) (x := x) (y1 := tick y 2) (l' := fill (a_len y) (fun _ => a) l); eauto; cbn; auto.
      * exists []. destruct (a_cont y); auto. contradiction.
      * apply even2.
      * rewrite fill_length; lia.
      * rewrite fill_length; lia.
      * rewrite !fill_upds by lia. apply agree_upds with (gd := g_def g v); auto. intros i Hi _ F. apply Nat.ltb_ge in F. lia.
      * intros n l2 Q1 Q2. unfold cval in CV. rewrite Q1, Q2 in CV. inversion CV; subst. rewrite fill_length, skipn_fill by lia. auto.
      * rewrite putc_nv. auto.
      * rewrite putc_nu. auto.
      * intro u. rewrite putc_vecs. reflexivity.
      * intro n. rewrite putc_user. reflexivity.
Qed.

(** new values for an idle vector with values *)
Lemma put_valid : forall s w g v y x l la' l' k gd, rel s w g -> s_vecs s v = Some y -> w_mv w v = Some x -> locked y = false -> a_len y <> O ->
  a_cont y <> CEmpty -> cval (s_user s) y = Some l -> (a_len y <= length l)%nat -> length la' = a_len y -> length l' = length l -> skipn (a_len y) l' = skipn (a_len y) l -> agree (a_len y) gd la' l' -> even k = true ->
  rel (putc (sv s v (tick y 2)) v (tick y 2) l') (putm w v (bumpm (mc_alloc x (Some la')) k) (w_mh w)) (gnote g v gd false k).
Proof.
  intros s w g v y x l la' l' k gd H Ey Ex L Z C CV CLL LA LL SK AG EK.
  eapply put_idle with (y := y) (x := x) (y1 := tick y 2) (l' := l'); eauto; try reflexivity.
  - exists []. cbn. destruct (a_cont y); auto. contradiction.
  - cbn. apply even2.
  - lia.
  - intros n l2 Q1 Q2. unfold cval in CV. rewrite Q1, Q2 in CV. inversion CV; subst. auto.
  - rewrite putc_nv. auto.
  - rewrite putc_nu. auto.
  - intro u. rewrite putc_vecs. reflexivity.
  - intro n. rewrite putc_user. reflexivity.
Qed.
(** first values for an idle vector *)
Lemma put_empty : forall s w g v y x y1 zz la' l' k gd, rel s w g -> s_vecs s v = Some y -> w_mv w v = Some x -> locked y = false -> a_len y <> O ->
  a_cont y = CEmpty -> a_cont y1 = COwn zz -> a_len y1 = a_len y -> even (a_clock y1) = even (a_clock y) -> a_readers y1 = a_readers y -> a_refs y1 = a_refs y -> a_wg y1 = a_wg y -> a_rg y1 = a_rg y ->
  (a_len y <= length l')%nat -> length la' = a_len y -> agree (a_len y) gd la' l' -> even k = true ->
  rel (putc (sv s v y1) v y1 l') (putm w v (bumpm (mc_alloc x (Some la')) k) (w_mh w)) (gnote g v gd false k).
Proof.
  intros s w g v y x y1 zz la' l' k gd H Ey Ex L Z C C1 L1 E1 E2 E3 E4 E5 CLL LA AG EK.
  eapply put_idle with (y := y) (x := x) (y1 := y1) (l' := l'); eauto; try reflexivity.
  - exists zz. rewrite C. auto.
  - intros n l2 Q1 Q2. congruence.
  - rewrite putc_nv. auto.
  - rewrite putc_nu. auto.
  - intro u. rewrite putc_vecs. reflexivity.
  - intro n. rewrite putc_user. reflexivity.
Qed.
Lemma skipn_upds : forall n sel F (l : list R), (forall j, (n <= j)%nat -> (j < length l)%nat -> sel j = false) -> skipn n (upds sel F l) = skipn n l.
Proof. intros n sel F l A. apply skipn_ext; [apply upds_length|]. intros j J1 J2. rewrite vf_upds, A; auto. Qed.
Lemma fill_strided_upds : forall start stop step F (l : list R), (if start <? stop then fill_strided (Z.to_nat start) (Z.to_nat stop) (Z.to_nat step) F l else l) = upds (inrange start stop step) F l.
Proof.
  intros start stop step F l. destruct (start <? stop) eqn:E.
  - unfold fill_strided. unfold VecSim.upds. apply map_ext_in. intros j _. unfold inrange. rewrite E. reflexivity.
  - rewrite upds_none; auto. intros j _. unfold inrange. rewrite E. auto.
Qed.
Lemma inrange_lt : forall start stop step i, inrange start stop step i = true -> Z.of_nat i < stop.
Proof. intros start stop step i H. unfold inrange in H. rewrite !andb_true_iff in H. destruct H as (A & (_ & B) & _). apply Nat.ltb_lt in B. apply Z.ltb_lt in A. lia. Qed.

Lemma mc_set_value_strided : forall s w g g' v start stop step a, rel s w g -> strict (CSetValueStrided v start stop step a) s g = Some g' ->
  sim (astep (CSetValueStrided v start stop step a) s) (mbstep (CSetValueStrided v start stop step a) w) g'.
Proof.
  intros s w g g' v start stop step a H S. cbn [strict] in S. live H Ey v y x HD BD. rename H0 into S, H1 into Ex. cbn [VecSpec.astep McModel.mbstep]. unfold s_set_value_strided, live, mi_set_value_strided, mlive.
  rewrite Ey, Ex, (hdr_locked HD). destruct (locked y) eqn:L. { inversion S; subst. eexists. split; [reflexivity|auto]. }
  cbv zeta in *. rewrite (h_len HD). destruct ((-1 <=? stop) && (stop <=? Z.of_nat (a_len y))) eqn:B; cbn [negb] in *.
  2:{ inversion S; subst. eexists. split; [reflexivity|auto]. }
  apply andb_prop in B. destruct B as (B1 & B2). apply Z.leb_le in B1, B2. unfold set_value_strided_mc. destruct (Nat.eqb_spec (a_len y) 0) as [Z|Z].
  - destruct (len0_alloc BD Z) as (I1 & I2 & I3 & I4 & I5 & IA). assert (Z' : m_len x = O) by (rewrite (h_len HD); auto). apply rule_true in S. destruct S as (S & ->). apply Z.leb_le in S.
    assert (EN: ensure_mc nan x (w_mh w) = BOk (mc_alloc x (Some [])) (w_mh w)).
    { unfold ensure_mc. destruct IA as [A|A]; rewrite A; [|rewrite alloc_same by auto; auto]. unfold set_array_mc. simpl. rewrite Z'. reflexivity. }
    rewrite EN. cbn [bbind m_alloc mc_alloc m_len]. rewrite Z'. rewrite Z in B2. cbn in B2.
    rewrite (@lsmap_ok R start (if stop =? -1 then 0 else stop) step _ (fun _ => a)) by (destruct (Z.eqb_spec stop (-1)); simpl; auto; lia).
    cbn. eexists. split; [reflexivity|]. change (@VecSim.upds R (inrange start (if stop =? -1 then Z.of_nat 0 else stop) step) (fun _ => a) []) with (@nil R).
    eapply put_len0 with (y := y) (x := x) (y1 := y) (al := Some []); eauto. intro u. destruct (Nat.eqb_spec u v); subst; auto.
  - apply rule_true in S. destruct S as (S & ->). apply negb_true_iff in S. rewrite S. set (st := if stop =? -1 then Z.of_nat (a_len y) else stop) in *.
    assert (ST : st <= Z.of_nat (a_len y)) by (unfold st; destruct (stop =? -1); lia).
    destruct ((start <? st) && ((start <? 0) || (step <=? 0))) eqn:G; [exact I|].
    assert (G' : (0 <= start \/ st <= start) /\ (0 < step \/ st <= start)).
    { destruct (Z.ltb_spec start st), (Z.ltb_spec start 0), (Z.leb_spec step 0); try discriminate; lia. }
    pose proof (invalid_false y S Z) as C. destruct (idle HD BD L Z) as (_ & _ & _ & _ & [(C' & CA)|(_ & l & la & CV & CA & CL & CLL & AG)]); [contradiction|].
    unfold ensure_mc. rewrite CA. cbn [bbind]. rewrite (h_len HD), CA. fold st. rewrite (@lsmap_ok R start st step _ (fun _ => a)) by (try tauto; auto; lia).
    rewrite conts_cval, CV. cbn [mdone mthen lift odone fst snd]. eexists. split; [reflexivity|]. rewrite fill_strided_upds. eapply put_valid; eauto.
    + rewrite upds_length. auto.
    + rewrite upds_length. auto.
    + apply skipn_upds. intros j J1 J2. destruct (inrange start st step j) eqn:Q; auto. apply inrange_lt in Q. lia.
    + eapply agree_upds with (gd := g_def g v); auto. intros i Hi D Q. rewrite Q in D. simpl in D. split; auto.
Qed.
Lemma mc_modify : forall s w g g' v f, rel s w g -> strict_modify s g v = Some g' ->
  sim (s_modify s v f) (mdone (mlive w v (fun x => if negb (mvalid x) then MErr ERR_BACKEND w else if empty x then MOk tt w else lift w v (modify_mc f x (w_mh w)) (@odone R)))) g'.
Proof.
  intros s w g g' v f H S. unfold strict_modify in S. live H Ey v y x HD BD. rename H0 into S, H1 into Ex. unfold s_modify, live, mlive. rewrite Ey, Ex, (valid_ok HD BD), negb_involutive, (hdr_empty HD).
  destruct (invalid y) eqn:IV. { inversion S; subst. eexists. split; [reflexivity|auto]. }
  destruct (Nat.eqb_spec (a_len y) 0) as [Z|Z]. { inversion S; subst. eexists. split; [reflexivity|auto]. }
  apply rule_true in S. destruct S as (L & ->). apply negb_true_iff in L. rewrite L. pose proof (invalid_false y IV Z) as C.
  destruct (idle HD BD L Z) as (_ & _ & _ & _ & [(C' & CA)|(_ & l & la & CV & CA & CL & CLL & AG)]); [contradiction|]. rewrite conts_cval, CV.
  unfold modify_mc. rewrite CA, (h_len HD). rewrite (@lmap_ok R _ _ (fun i => f (vf la i))) by (intros; rewrite ?nth_vf by lia; auto; lia).
  cbn [mdone mthen lift odone fst snd]. eexists. split; [reflexivity|]. rewrite <- (@bump0 (mc_alloc x _) (g_st g v)) by apply (h_st HD). eapply put_valid; eauto.
  - rewrite upds_length; auto.
  - rewrite fill_length; auto.
  - apply skipn_fill; auto.
  - rewrite fill_upds by auto. apply agree_upds with (gd := g_def g v); auto.
    + intros i Hi D _. f_equal. apply AG; auto.
Qed.
Lemma mc_scale : forall s w g g' v a, rel s w g -> strict (CScale v a) s g = Some g' -> sim (astep (CScale v a) s) (mbstep (CScale v a) w) g'.
Proof. intros s w g g' v a H S. apply (mc_modify v (fun b : R => (b * a)%R) H S). Qed.
Lemma mc_recip : forall s w g g' v, rel s w g -> strict (CRecip v) s g = Some g' -> sim (astep (CRecip v) s) (mbstep (CRecip v) w) g'.
Proof.
  intros s w g g' v H S. cbn [strict] in S. live H Ey v y x HD BD. rename H0 into S, H1 into Ex. cbn [VecSpec.astep McModel.mbstep]. unfold s_recip, live, mi_recip, mlive. rewrite Ey, Ex, (valid_ok HD BD), negb_involutive.
  destruct (invalid y) eqn:IV. { inversion S; subst. eexists. split; [reflexivity|auto]. }
  destruct (Bool.eqb (g_st g v mod two64 =? 0) (a_clock y mod two64 =? 0)) eqn:Q; [|discriminate]. apply eqb_prop in Q. simpl in S.
  assert (P : (0 <? m_state x) = negb (a_clock y mod two64 =? 0)).
  { rewrite (h_st HD), <- Q. pose proof (Z.mod_pos_bound (g_st g v) two64 ltac:(reflexivity)). destruct (Z.ltb_spec 0 (g_st g v mod two64)), (Z.eqb_spec (g_st g v mod two64) 0); auto; lia. }
  rewrite P, negb_involutive. destruct (a_clock y mod two64 =? 0). { inversion S; subst. eexists. split; [reflexivity|auto]. }
  pose proof (mc_modify v (fun b : R => if big b then inv b else b) H S) as M. unfold s_modify, live, mlive in *. rewrite Ey, Ex, (valid_ok HD BD), negb_involutive, IV in M. rewrite Ey, IV. exact M.
Qed.
Lemma mc_axp : forall s w g g' f v u, rel s w g -> strict_axp s g v u = Some g' -> sim (s_axp f s v u) (mdone (mi_axp f v u w)) g'.
Proof.
  intros s w g g' f v u H S. unfold strict_axp in S. live H Ey v y x HD BD. rename H0 into S, H1 into Ex. live H Ez u z xz HDz BDz. rename H0 into S, H1 into Exz.
  unfold s_axp, live, mi_axp, mlive. rewrite Ey, Ex, Ez, Exz, (valid_ok HD BD), (valid_ok HDz BDz), !negb_involutive, (hdr_empty HD), (h_len HD), (h_len HDz).
  destruct (Nat.eqb_spec (a_len z) (a_len y)) as [LE|LE]; simpl negb in *; cbv iota in *. 2:{ inversion S; subst. eexists. split; [reflexivity|auto]. }
  destruct (Nat.eqb_spec u v) as [UV|UV]. { inversion S; subst. eexists. split; [reflexivity|auto]. }
  destruct (invalid z) eqn:IZ. { inversion S; subst. eexists. split; [reflexivity|auto]. }
  destruct (invalid y) eqn:IV. { inversion S; subst. eexists. split; [reflexivity|auto]. }
  simpl orb in *. cbv iota in *. destruct (Nat.eqb_spec (a_len y) 0) as [Z|Z]. { inversion S; subst. eexists. split; [reflexivity|auto]. }
  apply rule_true in S. destruct S as (L & ->). apply andb_prop in L. destruct L as (L & LB). apply negb_true_iff in L, LB. rewrite L, LB. destruct (many z); [exact I|].
  pose proof (invalid_false y IV Z) as C. assert (Zz : a_len z <> O) by lia. pose proof (invalid_false z IZ Zz) as Cz.
  destruct (idle HD BD L Z) as (_ & _ & _ & _ & [(C' & CA)|(_ & l & la & CV & CA & CL & CLL & AG)]); [contradiction|].
  destruct (valid_data BDz Zz Cz) as (lz & CVz & DLz & laz & CAz & CLz & _ & DZ). rewrite LB in DZ. destruct DZ as (_ & AGz). rewrite !conts_cval, CV, CVz.
  unfold axp_mc. rewrite CA, CAz, (h_len HD). rewrite (@lmap_ok R _ _ (fun i => f (vf laz i) (vf la i))) by (intros; rewrite ?nth_vf by lia; auto; lia).
  cbn [mdone mthen lift odone fst snd]. eexists. split; [reflexivity|]. rewrite <- (@bump0 (mc_alloc x _) (g_st g v)) by apply (h_st HD). eapply put_valid; eauto.
  - rewrite upds_length; auto.
  - rewrite fill_length; auto.
  - apply skipn_fill; auto.
  - rewrite fill_upds by auto. apply agree_upds with (gd := g_def g v); auto.
    + intros i Hi D _. apply andb_prop in D. destruct D. f_equal; [apply AGz; auto; lia|apply AG; auto].
    + intros i Hi D F. apply Nat.ltb_ge in F. lia.
Qed.
Lemma s_zero_cont : forall y, a_len y <> O -> a_cont y = CEmpty -> s_zero y = tick (ct y (COwn (zeros (a_len y)))) 2.
Proof. intros y Z C. unfold s_zero, invalid. rewrite C. destruct (Nat.eqb_spec (a_len y) 0); [contradiction|auto]. Qed.
Lemma s_zero_id : forall y, a_cont y <> CEmpty -> s_zero y = y.
Proof. intros y C. unfold s_zero, invalid. destruct (a_cont y); [contradiction| |]; rewrite andb_false_r; auto. Qed.
Lemma mc_mult : forall s w g g' v a b, rel s w g -> strict_mult s g v a b = Some g' -> sim (s_mult s v a b) (mdone (mi_mult nan v a b w)) g'.
Proof.
  intros s w g g' v a b H S. unfold strict_mult in S. live H Ey v y x HD BD. rename H0 into S, H1 into Ex. live H Ea a ya xa HDa BDa. rename H0 into S, H1 into Exa. live H Eb b yb xb HDb BDb. rename H0 into S, H1 into Exb.
  unfold s_mult, live, mi_mult, mlive. rewrite Ey, Ex, Ea, Exa, Eb, Exb, (valid_ok HDa BDa), (valid_ok HDb BDb), !negb_involutive, (hdr_empty HD), (h_len HD), (h_len HDa), (h_len HDb).
  destruct (Nat.leb_spec (a_len y) (a_len ya)) as [La|La]; simpl andb in *; simpl negb in *; cbv iota in *. 2:{ inversion S; subst. eexists. split; [reflexivity|auto]. }
  destruct (Nat.leb_spec (a_len y) (a_len yb)) as [Lb|Lb]; simpl negb in *; cbv iota in *. 2:{ inversion S; subst. eexists. split; [reflexivity|auto]. }
  destruct (invalid ya) eqn:Ia. { inversion S; subst. eexists. split; [reflexivity|auto]. }
  destruct (invalid yb) eqn:Ib. { inversion S; subst. eexists. split; [reflexivity|auto]. }
  simpl orb in *. cbv iota in *. destruct (Nat.eqb_spec (a_len y) 0) as [Z|Z]. { inversion S; subst. eexists. split; [reflexivity|auto]. }
  apply rule_true in S. destruct S as (L & ->). apply andb_prop in L. destruct L as (L & Bb). apply andb_prop in L. destruct L as (L & Ba). apply negb_true_iff in L, Ba, Bb. rewrite L, Ba, Bb. cbv zeta. rewrite !andb_false_r.
  destruct (negb (Nat.eqb a v) && many ya); [exact I|]. destruct (negb (Nat.eqb b v) && negb (Nat.eqb b a) && many yb); [exact I|].
  assert (Za : a_len ya <> O) by lia. assert (Zb : a_len yb <> O) by lia.
  destruct (valid_data BDa Za (invalid_false ya Ia Za)) as (l1 & CVa & DLa & la1 & CAa & CLa & _ & DA). rewrite Ba in DA. destruct DA as (_ & AGa).
  destruct (valid_data BDb Zb (invalid_false yb Ib Zb)) as (l2 & CVb & DLb & la2 & CAb & CLb & _ & DB). rewrite Bb in DB. destruct DB as (_ & AGb).
  rewrite (conts_cval s ya), (conts_cval s yb), CVa, CVb.
  unfold mult_mc. destruct (ensure_ok (w_mh w) HD BD Z) as (la & EN & LA & AL). rewrite EN. cbn [bbind m_alloc mc_alloc m_len]. rewrite CAa, CAb, (h_len HD).
  rewrite (@lmap_ok R _ _ (fun i => vf la1 i * vf la2 i)%R) by (intros; rewrite ?nth_vf by lia; auto; lia).
  change (mc_alloc (mc_alloc x (Some la)) (Some (upds (fun j : nat => Nat.ltb j (a_len y)) (fun i : nat => (vf la1 i * vf la2 i)%R) la))) with (mc_alloc x (Some (upds (fun j : nat => Nat.ltb j (a_len y)) (fun i : nat => (vf la1 i * vf la2 i)%R) la))).
  assert (AGR : forall l, (a_len y <= length l)%nat -> agree (a_len y) (fun i => g_def g a i && g_def g b i) (upds (fun j : nat => Nat.ltb j (a_len y)) (fun i : nat => (vf la1 i * vf la2 i)%R) la) (fill (a_len y) (fun i => (vf l1 i * vf l2 i)%R) l)).
  { intros l Ll. rewrite fill_upds by auto. apply agree_upds with (gd := g_def g v); auto.
    + intros i Hi D _. apply andb_prop in D. destruct D. f_equal; [apply AGa; auto; lia|apply AGb; auto; lia].
    + intros i Hi D F. apply Nat.ltb_ge in F. lia. }
  destruct (idle HD BD L Z) as (_ & _ & _ & _ & [(C & CA)|(C & l & la0 & CV & CA & CL & CLL & AG)]).
  - rewrite (s_zero_cont y Z C). cbn [conts a_cont tick ct]. cbn [mdone mthen lift odone fst snd]. eexists. split; [reflexivity|]. rewrite <- (@bump0 (mc_alloc x _) (g_st g v)) by apply (h_st HD).
    assert (LZ : length (zeros (R := R) (a_len y)) = a_len y) by apply repeat_length.
    eapply put_empty with (y := y) (zz := zeros (a_len y)); eauto; try reflexivity.
    + cbn. rewrite !even2. auto.
    + rewrite fill_length; lia.
    + rewrite upds_length. auto.
    + apply AGR. lia.
  - rewrite (s_zero_id y C). replace (conts (sv s v (tick y 2)) y) with (Some l) by (symmetry; exact CV). cbn [mdone mthen lift odone fst snd]. eexists. split; [reflexivity|].
    rewrite <- (@bump0 (mc_alloc x _) (g_st g v)) by apply (h_st HD). eapply put_valid; eauto.
    + rewrite upds_length. auto.
    + rewrite fill_length; auto.
    + apply skipn_fill; auto.
Qed.
End P.
Arguments len0_alloc {R us hp y x gd gs}. Arguments ensure_ok {R nan us hp y x gd gs st}. Arguments sim {R}.
