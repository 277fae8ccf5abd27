(** * Vectors: the properties C01-C06

    Statements speak of the modelled code ([step], [run], a [world]); the abstract machine of VecSpec enters only
    as the definition of a client that keeps the rules ([legal], [Reach]). *)
From Coq Require Import List ZArith Lia Bool Arith.
From Verif Require Import Prelude RstrModel VecModel VecSpec VecProofs VecSim VecStep VecRefine VecLaws.
Import ListNotations.
Local Open Scope Z_scope.

Section P.
Variable R : Rng.
Notation world := (world R). Notation astate := (astate R). Notation avec := (avec R).
Variables (fabs : R -> R) (gtb : R -> R -> bool) (sqrt : R -> R) (big : R -> bool) (inv : R -> R).
Notation astep := (astep fabs gtb sqrt big inv).
Notation step := (step fabs gtb sqrt big inv).
Notation arun := (arun fabs gtb sqrt big inv).
Notation run := (run fabs gtb sqrt big inv).

Ltac brk H := repeat match type of H with context [match ?x with _ => _ end] => destruct x eqn:?; try discriminate H end; inversion H; subst; clear H.
Ltac allcases H := unfold VecSpec.astep, s_set_array, s_take, s_get, s_get_read, s_get_write, s_restore, s_restore_read, s_set_value, s_set_value_strided, s_sync, s_copy, s_copy_strided, s_axp, s_mult,
    s_norm, s_recip, s_destroy in H; unfold s_modify, live in H; cbv zeta in H; brk H.

(** ** Reachable worlds and observations *)
(** [s] records what the client may do next in [w] *)
Definition Reach (w : world) (s : astate) : Prop := exists cs os, arun cs empty_astate = Some (os, s) /\ run cs empty_world = Some (os, w).
Definition legal (c : cmd R) (s : astate) : Prop := astep c s <> AIll.
Definition cres (o : out R (obs R)) : option ((obs R + Z) * world) := match o with ROk o w => Some (inl o, w) | RErr e w => Some (inr e, w) | RUB => None end.
(** the block behind a vector, and one entry of it *)
Definition vblock (w : world) (v : nat) : option (list R) := match arr w v with Some a => w_heap w a | None => None end.
Definition entry (w : world) (v i : nat) : option R := match vblock w v with Some l => nth_error l i | None => None end.
Definition vlen (w : world) (v : nat) : nat := match w_vecs w v with Some x => v_len x | None => 0%nat end.

Record Inv (w : world) (s : astate) : Prop := { i_rel : Rel w s; i_new : NewNone s; i_excl : Excl s }.
Lemma Inv_init : Inv empty_world empty_astate.
Proof. constructor; [apply Rel_init| |]. { intros v _. reflexivity. } { intro v. left. reflexivity. } Qed.
Lemma Inv_step : forall c w s o s', Inv w s -> res_of (astep c s) = Some (o, s') -> exists w', cres (step c w) = Some (o, w') /\ Inv w' s'.
Proof.
  intros c w s o s' [I1 I2 I3] H. pose proof (refine_step fabs gtb sqrt big inv c I1) as S.
  assert (N : NewNone s') by exact (NewNone_step _ _ _ _ _ _ I2 H). assert (X : Excl s') by exact (Excl_step _ _ _ _ _ _ I2 I3 H).
  unfold res_of in H. destruct (astep c s); try discriminate; inversion H; subst; simpl in S; destruct (step c w); try contradiction; destruct S as (<- & ?).
  - eexists. split; [reflexivity|]. constructor; auto.
  - eexists. split; [reflexivity|]. constructor; auto.
Qed.
Lemma arun_step : forall c cs s os s', arun (c :: cs) s = Some (os, s') <-> exists o os' s1, os = o :: os' /\ res_of (astep c s) = Some (o, s1) /\ arun cs s1 = Some (os', s').
Proof.
  intros. simpl. split.
  - destruct (astep c s); try discriminate; destruct (arun cs s0) as [[os1 s2]|] eqn:Q; try discriminate; intro H; inversion H; subst; do 3 eexists; split; eauto; split; simpl; eauto.
  - intros (o & os' & s1 & -> & A & B). destruct (astep c s); simpl in A; inversion A; subst; rewrite B; auto.
Qed.
Lemma run_step : forall c cs (w : world) os w', run (c :: cs) w = Some (os, w') <-> exists o os' w1, os = o :: os' /\ cres (step c w) = Some (o, w1) /\ run cs w1 = Some (os', w').
Proof.
  intros. simpl. split.
  - destruct (step c w); try discriminate; destruct (run cs w0) as [[os1 s2]|] eqn:Q; try discriminate; intro H; inversion H; subst; do 3 eexists; split; eauto; split; simpl; eauto.
  - intros (o & os' & s1 & -> & A & B). destruct (step c w); simpl in A; inversion A; subst; rewrite B; auto.
Qed.
Lemma Inv_run : forall cs w s os s', Inv w s -> arun cs s = Some (os, s') -> exists w', run cs w = Some (os, w') /\ Inv w' s'.
Proof.
  induction cs as [|c cs IH]; intros w s os s' I H.
  - simpl in *. inversion H; subst. eauto.
  - apply arun_step in H. destruct H as (o & os' & s1 & -> & A & B). destruct (Inv_step _ _ _ _ _ I A) as (w1 & C & I1). destruct (IH _ _ _ _ I1 B) as (w' & D & I').
    exists w'. split; auto. apply run_step. eauto 7.
Qed.
Lemma Reach_Inv : forall w s, Reach w s -> Inv w s.
Proof. intros w s (cs & os & A & B). destruct (Inv_run _ _ _ _ _ Inv_init A) as (w' & C & D). congruence. Qed.
Lemma arun_app : forall cs1 cs2 s os1 s1 os2 s2, arun cs1 s = Some (os1, s1) -> arun cs2 s1 = Some (os2, s2) -> arun (cs1 ++ cs2) s = Some (os1 ++ os2, s2).
Proof.
  induction cs1 as [|c cs IH]; intros cs2 s os1 s1 os2 s2 A B; [simpl in A; inversion A; subst; auto|].
  apply arun_step in A. destruct A as (o & os' & s0 & -> & A & C). simpl app. apply arun_step. exists o, (os' ++ os2), s0. eauto.
Qed.
Lemma run_app : forall cs1 cs2 (w : world) os1 w1 os2 w2, run cs1 w = Some (os1, w1) -> run cs2 w1 = Some (os2, w2) -> run (cs1 ++ cs2) w = Some (os1 ++ os2, w2).
Proof.
  induction cs1 as [|c cs IH]; intros cs2 s os1 s1 os2 s2 A B; [simpl in A; inversion A; subst; auto|].
  apply run_step in A. destruct A as (o & os' & s0 & -> & A & C). simpl app. apply run_step. exists o, (os' ++ os2), s0. eauto.
Qed.
Lemma Reach_step : forall c w s o s', Reach w s -> res_of (astep c s) = Some (o, s') -> exists w', cres (step c w) = Some (o, w') /\ Reach w' s'.
Proof.
  intros c w s o s' Re H. destruct (Inv_step _ _ _ _ _ (Reach_Inv _ _ Re) H) as (w' & A & B). destruct Re as (cs & os & P & Q). exists w'. split; auto.
  exists (cs ++ [c]), (os ++ [o]). split.
  - eapply arun_app; eauto. apply arun_step. exists o, [], s'. auto.
  - eapply run_app; eauto. apply run_step. exists o, [], w'. auto.
Qed.
(** a lawful call in a reachable world has an outcome, and leads to a reachable world *)
Lemma legal_step : forall c w s o w', Reach w s -> legal c s -> cres (step c w) = Some (o, w') -> exists s', res_of (astep c s) = Some (o, s') /\ Reach w' s'.
Proof.
  intros c w s o w' Re L H. unfold legal in L. destruct (res_of (astep c s)) as [[o' s']|] eqn:E.
  - destruct (Reach_step _ _ _ _ _ Re E) as (w1 & A & B). rewrite H in A. inversion A; subst. eauto.
  - destruct (astep c s); simpl in E; congruence.
Qed.

(** ** C01: one writer or many readers *)
Fixpoint total (f : cmd R -> obs R + Z -> Z) (cs : list (cmd R)) (os : list (obs R + Z)) : Z :=
  match cs, os with c :: cs, o :: os => f c o + total f cs os | _, _ => 0 end.
Lemma counts : forall cs w s os s', Inv w s -> arun cs s = Some (os, s') -> Forall2 (@whole R) cs os ->
  forall v, W s' v = W s v + total (@dW R v) cs os /\ Rd s' v = Rd s v + total (@dR R v) cs os.
Proof.
  induction cs as [|c cs IH]; intros w s os s' I H F v.
  - simpl in H. inversion H; subst. simpl. lia.
  - apply arun_step in H. destruct H as (o & os' & s1 & -> & A & B). destruct (Inv_step _ _ _ _ _ I A) as (w1 & C & I1). inversion F; subst.
    destruct (IH _ _ _ _ I1 B H4 v) as [P Q]. rewrite P, Q. simpl.
    assert (D1 : W s1 v = W s v + dW v c o) by exact (W_step _ _ _ _ _ _ v (i_new _ _ I) A H2).
    assert (D2 : Rd s1 v = Rd s v + dR v c o) by exact (R_step _ _ _ _ _ _ v (i_new _ _ I) A H2). lia.
Qed.
Lemma vec_of : forall w s v x, Rel w s -> w_vecs w v = Some x -> exists y, s_vecs s v = Some y /\ @vrel R w s v x y.
Proof. intros w s v x H E. pose proof (r_vec H v) as V. rewrite E in V. destruct (s_vecs s v); [eauto|contradiction]. Qed.
Lemma avec_of : forall w s v y, Rel w s -> s_vecs s v = Some y -> exists x, w_vecs w v = Some x /\ @vrel R w s v x y.
Proof. intros w s v x H E. pose proof (r_vec H v) as V. rewrite E in V. destruct (w_vecs w v); [eauto|contradiction]. Qed.

(** For every history a client may produce in which the calls that take two accesses at once succeed (see
    C05 for those that fail): the number of write accesses granted and not returned is 0 or 1, the number of
    read accesses is never negative, both are never outstanding together, and the state and reader count of
    the vector tell them exactly. *)
Theorem C01_exclusive : forall cs os s, arun cs empty_astate = Some (os, s) -> Forall2 (@whole R) cs os ->
  exists w, run cs empty_world = Some (os, w) /\
  forall v x, w_vecs w v = Some x ->
    let writers := total (@dW R v) cs os in let readers := total (@dR R v) cs os in
    0 <= writers <= 1 /\ 0 <= readers /\ (writers = 0 \/ readers = 0) /\ v_state x mod 2 = writers /\ v_readers x = readers.
Proof.
  intros cs os s A F. destruct (Inv_run _ _ _ _ _ Inv_init A) as (w & B & I). exists w. split; auto. intros v x E writers readers.
  destruct (counts _ _ _ _ _ Inv_init A F v) as [P Q]. fold writers in P. fold readers in Q. unfold W, Rd in P, Q. simpl in P, Q.
  destruct (vec_of _ _ _ _ (i_rel _ _ I) E) as (y & Ey & (V1 & V2 & V3 & V4 & _)).
  destruct (i_excl _ _ I v) as [X|X]; unfold W, Rd in X; rewrite (fld_at _ _ _ _ Ey) in P; rewrite (fld_at _ _ _ _ Ey) in Q; rewrite (fld_at _ _ _ _ Ey) in X; clearbody writers readers.
  all: assert (B0 : v_state x mod 2 = Z.b2z (busy y)) by (rewrite V2; unfold busy, even; rewrite <- Znumtheory.Zmod_div_mod; [|lia|reflexivity|exists (2^63); reflexivity];
      pose proof (Z.mod_pos_bound (a_clock y) 2 ltac:(lia)); destruct (Z.eqb_spec (a_clock y mod 2) 0); simpl; lia).
  all: rewrite B0; destruct (busy y); simpl in *; repeat split; try lia; auto.
Qed.

(** Calls that would break the rule are refused, with nothing changed ([w] is any world at all). *)
Theorem C01_writer_refuses : forall (w : world) v x, w_vecs w v = Some x -> v_state x mod 2 = 1 ->
  forall host mode a p val start stop st, src_ptr a w = ROk p w ->
  step (CGet v host) w = RErr ERR_ACCESS w /\ step (CGetRead v host) w = RErr ERR_ACCESS w /\ step (CGetWrite v host) w = RErr ERR_ACCESS w /\
  step (CSetArray v host mode a) w = RErr ERR_ACCESS w /\ step (CTake v host) w = RErr ERR_ACCESS w /\ step (CSync v host) w = RErr ERR_ACCESS w /\
  step (CSetValue v val) w = RErr ERR_ACCESS w /\ step (CSetValueStrided v start stop st val) w = RErr ERR_ACCESS w.
Proof.
  intros w v x E O host mode a p val start stop st SP.
  assert (Ev : even (v_state x) = false) by (unfold even; rewrite O; reflexivity).
  assert (U : unlocked v w = RErr ERR_ACCESS w) by (unfold unlocked, mbind, getv; rewrite E; rewrite Ev; reflexivity).
  repeat split; cbn [VecModel.step].
  - unfold mbind at 1. unfold vec_get_array. erewrite bind_err by eauto. reflexivity.
  - unfold mbind at 1. unfold vec_get_read, mbind at 1, getv. rewrite E. unfold mbind at 1. rewrite Ev. reflexivity.
  - unfold mbind at 1. unfold vec_get_write. erewrite bind_err by eauto. reflexivity.
  - erewrite bind_ok by eauto. apply done_err. unfold vec_set_array. erewrite bind_err by eauto. reflexivity.
  - unfold mbind at 1. unfold vec_take_array. erewrite bind_err by eauto. reflexivity.
  - apply done_err. unfold vec_sync, mbind at 1, getv. rewrite E. unfold mbind at 1. rewrite Ev. reflexivity.
  - apply done_err. unfold vec_set_value. erewrite bind_err by eauto. reflexivity.
  - apply done_err. unfold vec_set_value_strided. erewrite bind_err by eauto. reflexivity.
Qed.
Theorem C01_reader_refuses : forall (w : world) v x, w_vecs w v = Some x -> v_readers x <> 0 ->
  forall host mode a p val start stop st, src_ptr a w = ROk p w ->
  step (CGet v host) w = RErr ERR_ACCESS w /\ step (CGetWrite v host) w = RErr ERR_ACCESS w /\
  step (CSetArray v host mode a) w = RErr ERR_ACCESS w /\ step (CTake v host) w = RErr ERR_ACCESS w /\
  step (CSetValue v val) w = RErr ERR_ACCESS w /\ step (CSetValueStrided v start stop st val) w = RErr ERR_ACCESS w.
Proof.
  intros w v x E O host mode a p val start stop st SP.
  assert (U : unlocked v w = RErr ERR_ACCESS w).
  { unfold unlocked, mbind, getv. rewrite E. destruct (even (v_state x)); simpl; auto. apply Z.eqb_neq in O. rewrite O. reflexivity. }
  repeat split; cbn [VecModel.step].
  - unfold mbind at 1. unfold vec_get_array. erewrite bind_err by eauto. reflexivity.
  - unfold mbind at 1. unfold vec_get_write. erewrite bind_err by eauto. reflexivity.
  - erewrite bind_ok by eauto. apply done_err. unfold vec_set_array. erewrite bind_err by eauto. reflexivity.
  - unfold mbind at 1. unfold vec_take_array. erewrite bind_err by eauto. reflexivity.
  - apply done_err. unfold vec_set_value. erewrite bind_err by eauto. reflexivity.
  - apply done_err. unfold vec_set_value_strided. erewrite bind_err by eauto. reflexivity.
Qed.
Theorem C01_restore_refused : forall (w : world) v x, w_vecs w v = Some x ->
  (v_state x mod 2 = 0 -> step (CRestore v) w = RErr ERR_ACCESS w) /\ (v_readers x = 0 -> step (CRestoreRead v) w = RErr ERR_ACCESS w).
Proof.
  intros w v x E. split; intro O; cbn [VecModel.step]; apply done_err.
  - unfold vec_restore, mbind, getv. rewrite E. unfold even. rewrite O. reflexivity.
  - unfold vec_restore_read, mbind, getv. rewrite E. rewrite O. reflexivity.
Qed.
(** Readers do not exclude each other. *)
Theorem C01_readers_share : forall (w : world) v x, w_vecs w v = Some x -> v_state x mod 2 = 0 -> (v_len x = 0%nat \/ v_array x <> None) ->
  exists w', step (CGetRead v true) w = ROk ODone w'.
Proof.
  intros w v x E O L. assert (Ev : even (v_state x) = true) by (unfold even; rewrite O; reflexivity).
  cbn [VecModel.step]. unfold vec_get_read, mbind, getv. rewrite E, Ev. simpl check. unfold ret at 1. destruct (pos (v_len x)) eqn:P.
  - unfold has_valid, get_core_ref, mbind, getv, check, ret. rewrite E. destruct (Nat.eqb_spec (v_len x) 0) as [Z|Z]; [rewrite Z in P; discriminate|]. destruct L as [L|L]; [congruence|].
    destruct (v_array x); [|congruence]. simpl. rewrite ?E. unfold set_rptr, putv. simpl. rewrite ?E. simpl. eauto.
  - unfold ret. rewrite E. unfold putv, set_rptr. simpl. eauto.
Qed.

(** ** C02: contents *)
Lemma block_conts : forall w s v (y : avec), Rel w s -> s_vecs s v = Some y -> vblock w v = conts s y.
Proof.
  intros w s v y H E. destruct (avec_of _ _ _ _ H E) as (x & Ex & (_ & _ & _ & _ & _ & C & _)). unfold vblock, arr, conts. rewrite Ex. unfold crel in C. destruct (a_cont y).
  - destruct C as (_ & _ & ->). auto.
  - destruct C as (a & _ & _ & -> & -> & _). auto.
  - destruct C as (_ & _ & -> & l & U & _). rewrite U. apply (r_user H). auto.
Qed.
Lemma arr_cont : forall w s v (y : avec), Rel w s -> s_vecs s v = Some y ->
  (forall n, a_cont y = CShared n -> arr w v = Some (AU n)) /\ (a_cont y = CEmpty <-> arr w v = None) /\
  (forall n l, arr w v = Some (AU n) -> s_user s n = Some l -> a_cont y = CShared n).
Proof.
  intros w s v y H E. destruct (avec_of _ _ _ _ H E) as (x & Ex & (_ & _ & _ & _ & _ & C & _)). unfold arr. rewrite Ex. unfold crel in C. destruct (a_cont y); split; [|split| |split| |split]; try discriminate.
  - tauto.
  - intros n l. destruct C as (_ & _ & ->). discriminate.
  - destruct C as (a & A1 & A2 & A3 & A4 & _). rewrite A3. split; discriminate.
  - destruct C as (a & A1 & A2 & A3 & A4 & _). rewrite A3. intros n l1 Q U. inversion Q; subst. rewrite (r_dis H v Ex A1) in U. discriminate.
  - destruct C as (_ & _ & -> & _). intros n0 Q; inversion Q; auto.
  - destruct C as (_ & _ & -> & _). split; discriminate.
  - destruct C as (_ & _ & -> & _). intros n0 l Q _; inversion Q; auto.
Qed.
Lemma putc_self : forall (s : astate) v y l, s_vecs s v = Some y -> a_cont y <> CEmpty -> 
  exists y', s_vecs (putc s v y l) v = Some y' /\ conts (putc s v y l) y' = Some l.
Proof.
  intros s v y l E N. unfold putc. destruct (a_cont y) eqn:C; [congruence| |].
  - exists (ct y (COwn l)). split; [apply s_vecs_sv|reflexivity].
  - exists y. split; auto. unfold conts. rewrite C. simpl. apply nupd_same.
Qed.
Lemma put_block : forall w (s s' : astate) v (y : avec) l, Rel w s' -> s' = putc s v y l -> s_vecs s v = Some y -> a_cont y <> CEmpty -> vblock w v = Some l.
Proof. intros w s s' v y l H -> E N. destruct (putc_self _ _ _ l E N) as (y' & A & B). rewrite (block_conts _ _ _ _ H A). auto. Qed.

(** The observations of every lawful history (values read through granted pointers and in the client's own
    blocks, results, error codes) are those of the abstract machine, in which a vector simply holds a list of
    values or shares a client block. *)
Theorem C02_refinement : forall cs os s, arun cs empty_astate = Some (os, s) -> exists w, run cs empty_world = Some (os, w).
Proof. intros cs os s A. destruct (Inv_run _ _ _ _ _ Inv_init A) as (w & B & _). eauto. Qed.

(** A call that does not name [u] as its output, nor a vector that uses the same array, leaves the contents
    of [u] alone (including calls that fail). *)
Theorem C02_frame : forall c w s o w' u x, Reach w s -> legal c s -> cres (step c w) = Some (o, w') -> w_vecs w u = Some x -> ~ In u (writes c) ->
  (arr w u = None \/ forall t, In t (writes c) -> arr w t <> arr w u) -> (forall n i a, arr w u = Some (AU n) -> c <> UWrite n i a) ->
  vblock w' u = vblock w u.
Proof.
  intros c w s o w' u x Re L H E G T U. destruct (legal_step _ _ _ _ _ Re L H) as (s' & A & Re'). apply Reach_Inv in Re. apply Reach_Inv in Re'.
  pose proof (i_rel _ _ Re) as H1. pose proof (i_rel _ _ Re') as H2. destruct (vec_of _ _ _ _ H1 E) as (z & Ez & V).
  destruct (@frame_vec R fabs gtb sqrt big inv c s o s' u z (i_new _ _ Re) A Ez G) as (z' & Ez' & C & Ln). rewrite (block_conts _ _ _ _ H1 Ez), (block_conts _ _ _ _ H2 Ez'). unfold conts. rewrite C.
  destruct (arr_cont _ _ _ _ H1 Ez) as (B1 & B2 & B3). destruct (a_cont z) as [|l|n] eqn:Cz; auto.
  specialize (B1 n eq_refl). destruct V as (_ & _ & _ & _ & _ & V & _). unfold crel in V. rewrite Cz in V. destruct V as (_ & _ & _ & l & V & _).
  rewrite V. refine (@frame_shared R fabs gtb sqrt big inv c s o s' u z n l (i_new _ _ Re) A Ez Cz V _ G _ _).
  - destruct (Nat.lt_ge_cases n (s_nu s)); auto. rewrite <- (r_nu H1) in H0. pose proof (r_fu H1 H0). rewrite (r_user H1 n V) in H3. discriminate.
  - intros i a. eapply U. eauto.
  - intros t y It Et Ct. destruct T as [T|T]; [congruence|]. apply (T t It). rewrite B1. destruct (arr_cont _ _ _ _ H1 Et) as (B4 & _). apply B4. auto.
Qed.

Lemma ok_step : forall c w s o w', Reach w s -> legal c s -> step c w = ROk o w' -> exists s', astep c s = AOk o s' /\ Inv w s /\ Inv w' s'.
Proof.
  intros c w s o w' Re L H. destruct (legal_step c w s (inl o) w' Re L) as (s' & A & Re'); [rewrite H; reflexivity|]. exists s'. split; [|split; apply Reach_Inv; auto].
  destruct (astep c s); simpl in A; inversion A; subst; auto.
Qed.
Lemma entry_conts : forall w s v (y : avec) i, Rel w s -> s_vecs s v = Some y -> entry w v i = match conts s y with Some l => nth_error l i | None => None end.
Proof. intros. unfold entry. rewrite (block_conts _ _ _ _ H H0). auto. Qed.
Lemma nth_fill : forall n (f : nat -> R) old i, (n <= length old)%nat -> nth_error (fill n f old) i = if Nat.ltb i n then Some (f i) else nth_error old i.
Proof.
  intros n f old i L. unfold fill. destruct (Nat.ltb_spec i n) as [A|A].
  - rewrite nth_error_app1 by (rewrite map_length, seq_length; auto). rewrite nth_error_map. rewrite (nth_error_nth' _ 0%nat) by (rewrite seq_length; auto). rewrite seq_nth by auto. auto.
  - rewrite nth_error_app2 by (rewrite map_length, seq_length; auto). rewrite map_length, seq_length. rewrite <- (firstn_skipn n old) at 2.
    rewrite nth_error_app2 by (rewrite firstn_length; lia). rewrite firstn_length, Nat.min_l by auto. auto.
Qed.
Lemma nth_vf : forall (l : list R) i, (i < length l)%nat -> nth_error l i = Some (vf l i).
Proof. intros. unfold vf. apply nth_error_nth'. auto. Qed.
Lemma nth_fill_strided : forall a b c (f : nat -> R) old i, (b <= length old)%nat ->
  nth_error (fill_strided a b c f old) i = if (Nat.leb a i && Nat.ltb i b && Nat.eqb ((i - a) mod c) 0)%bool then Some (f i) else nth_error old i.
Proof.
  intros a b c f old i L. unfold fill_strided. rewrite nth_error_map. destruct (Nat.lt_ge_cases i (length old)) as [A|A].
  - rewrite (nth_error_nth' _ 0%nat) by (rewrite seq_length; auto). rewrite seq_nth by auto. simpl. destruct (_ && _); auto. rewrite nth_vf; auto.
  - destruct (Nat.ltb_spec i b); [lia|]. rewrite andb_false_r. simpl. rewrite (proj2 (nth_error_None (seq 0 (length old)) i)) by (rewrite seq_length; auto).
    rewrite (proj2 (nth_error_None old i)) by auto. auto.
Qed.
Lemma vlen_of : forall w s v (y : avec), Rel w s -> s_vecs s v = Some y -> vlen w v = a_len y.
Proof. intros w s v y H E. destruct (avec_of _ _ _ _ H E) as (x & Ex & (V & _)). unfold vlen. rewrite Ex. auto. Qed.
Lemma put_entry : forall w (s s' : astate) v (y : avec) l i, Rel w s' -> s' = putc s v y l -> s_vecs s v = Some y -> a_cont y <> CEmpty -> entry w v i = nth_error l i.
Proof. intros. unfold entry. erewrite put_block by eauto. auto. Qed.
Lemma conts_nonempty : forall (s : astate) (y : avec) l, conts s y = Some l -> a_cont y <> CEmpty.
Proof. unfold conts. intros s y l H Q. rewrite Q in H. discriminate. Qed.
Lemma zero_conts : forall (s : astate) (y : avec), invalid y = false -> a_len y <> 0%nat -> a_cont y <> CEmpty.
Proof. unfold invalid. intros s y H N Q. rewrite Q in H. apply Nat.eqb_neq in N. rewrite N in H. discriminate. Qed.

(** SetArray, copying: afterwards the vector holds the values the block has now. *)
Theorem C02_set_array_copy : forall w s v n l o w', Reach w s -> legal (CSetArray v true CopyValues (SUser n)) s -> step (CSetArray v true CopyValues (SUser n)) w = ROk o w' ->
  w_heap w (AU n) = Some l -> forall i, (i < vlen w v)%nat -> entry w' v i = nth_error l i.
Proof.
  intros w s v n l o w' Re L H HL i Hi. destruct (ok_step _ _ _ _ _ Re L H) as (s' & A & I & I'). clear L H Re. destruct I as [H1 N1 _]. destruct I' as [H2 _ _].
  cbn [VecSpec.astep] in A. unfold s_set_array, live in A. destruct (s_vecs s v) as [y|] eqn:E; [|discriminate]. rewrite (vlen_of _ _ _ _ H1 E) in Hi.
  destruct (locked y); [discriminate|]. destruct (Nat.eqb_spec (a_len y) 0); [lia|]. cbn [negb] in A. cbv zeta in A.
  set (y1 := match a_cont y with CEmpty => ct y (COwn (zeros (a_len y))) | _ => y end) in *.
  assert (Ly : a_len y1 = a_len y) by (unfold y1; destruct (a_cont y); auto).
  change (s_user (sv s v (tick y1 2)) n) with (s_user s n) in A. destruct (s_user s n) as [l1|] eqn:U; [|discriminate].
  rewrite (r_user H1 n U) in HL. inversion HL; subst l1.
  assert (B : exists old, Nat.leb (a_len y) (length l) = true /\ conts (sv s v (tick y1 2)) (tick y1 2) = Some old /\ s' = putc (sv s v (tick y1 2)) v (tick y1 2) (fill (a_len y) (vf l) old)).
  { destruct (conts (sv s v (tick y1 2)) (tick y1 2)) as [old|]; [|destruct (a_cont (tick y1 2)) as [| |m]; try discriminate; destruct (Nat.eqb m n); discriminate].
    exists old. change (a_len (tick y1 2)) with (a_len y1) in A. rewrite Ly in A.
    destruct (a_cont (tick y1 2)) as [| |m]; [| |destruct (Nat.eqb m n); [discriminate|]]; destruct (Nat.leb (a_len y) (length l)); inversion A; auto. }
  destruct B as (old & B1 & B2 & B3). erewrite put_entry; [|exact H2|exact B3|apply s_vecs_sv|eapply conts_nonempty; eauto].
  apply Nat.leb_le in B1. assert (Lo : (a_len y <= length old)%nat).
  { unfold conts in B2. change (a_cont (tick y1 2)) with (a_cont y1) in B2. unfold y1 in B2. destruct (a_cont y) eqn:C; simpl in B2.
    - inversion B2. rewrite zeros_length. auto.
    - rewrite C in B2. inversion B2; subst. refine (@conts_len R w s v y _ H1 E _). unfold conts. rewrite C. auto.
    - rewrite C in B2. refine (@conts_len R w s v y _ H1 E _). unfold conts. rewrite C. auto. }
  rewrite nth_fill by auto. apply Nat.ltb_lt in Hi. rewrite Hi. apply Nat.ltb_lt in Hi. rewrite nth_vf by lia. auto.
Qed.
(** SetArray, by pointer: from now on the vector's array is the client's block itself ... *)
Lemma set_pointer_arr : forall w v n mode o w', mode <> CopyValues -> step (CSetArray v true mode (SUser n)) w = ROk o w' -> vlen w v <> 0%nat -> 
  arr w' v = Some (AU n) /\ exists x, w_vecs w' v = Some x /\ v_owned x = if match mode with OwnPointer => true | _ => false end then Some (AU n) else None.
Proof.
  intros w v n mode o w' M H L. cbn [VecModel.step] in H. unfold mbind at 1 in H. simpl src_ptr in H. cbv iota beta in H. unfold done, vec_set_array, unlocked, set_array_ref, set_host_array, backend, bump, getv, putv, free, check, ret, fail, mbind, src_ptr in H.
  unfold vlen in L. destruct (w_vecs w v) as [x|] eqn:E; [|congruence]. destruct (even (v_state x)); [|discriminate]. destruct (v_readers x =? 0); [|discriminate].
  rewrite E in H. assert (P : pos (v_len x) = true) by (unfold pos; apply Nat.ltb_lt; lia). rewrite P in H. rewrite E in H.
  destruct mode; [congruence| |].
  - destruct (v_owned x) as [a|].
    + destruct (w_heap w a); [|discriminate]. simpl in H. rewrite nupd_same in H. inversion H; subst. unfold arr. simpl. rewrite nupd_same. simpl. eauto.
    + simpl in H. rewrite nupd_same in H. inversion H; subst. unfold arr. simpl. rewrite nupd_same. simpl. eauto.
  - destruct (v_owned x) as [a|].
    + destruct (w_heap w a); [|discriminate]. simpl in H. rewrite nupd_same in H. inversion H; subst. unfold arr. simpl. rewrite nupd_same. simpl. eauto.
    + simpl in H. rewrite nupd_same in H. inversion H; subst. unfold arr. simpl. rewrite nupd_same. simpl. eauto.
Qed.
Theorem C02_set_array_pointer : forall w s v n l mode o w', Reach w s -> mode <> CopyValues -> legal (CSetArray v true mode (SUser n)) s ->
  step (CSetArray v true mode (SUser n)) w = ROk o w' -> w_heap w (AU n) = Some l -> vlen w v <> 0%nat -> arr w' v = Some (AU n) /\ vblock w' v = Some l.
Proof.
  intros w s v n l mode o w' Re M L H HL Hv. destruct (set_pointer_arr _ _ _ _ _ _ M H Hv) as [A _]. split; auto.
  destruct (ok_step _ _ _ _ _ Re L H) as (s' & B & I & I'). clear L H Re. destruct I as [H1 N1 _]. destruct I' as [H2 _ _].
  cbn [VecSpec.astep] in B. unfold s_set_array, live in B. destruct (s_vecs s v) as [y|] eqn:E; [|discriminate]. rewrite (vlen_of _ _ _ _ H1 E) in Hv.
  destruct (locked y); [discriminate|]. destruct (Nat.eqb_spec (a_len y) 0); [lia|]. cbn [negb] in B. destruct mode; [congruence| |]; destruct (s_user s n) as [l1|] eqn:U; try discriminate;
    rewrite (r_user H1 n U) in HL; inversion HL; subst l1.
  - destruct (Nat.ltb (length l) (a_len y)); inversion B; subst. erewrite block_conts; [|eauto|apply s_vecs_sv]. unfold conts. simpl. auto.
  - destruct (_ || _); inversion B; subst. erewrite block_conts; [|eauto|simpl; apply nupd_same]. reflexivity.
Qed.
(** ... until the array is replaced, taken back or the vector destroyed: what the client writes to the block
    is what the vector holds, and what the library writes is in the client's block. *)
Theorem C02_shared_lasts : forall c w s o w' v n x, Reach w s -> legal c s -> cres (step c w) = Some (o, w') -> w_vecs w v = Some x -> v_borrowed x = Some (AU n) ->
  (forall host mode a, c <> CSetArray v host mode a) -> (forall host, c <> CTake v host) -> c <> CDestroy v ->
  exists x', w_vecs w' v = Some x' /\ v_borrowed x' = Some (AU n) /\ vblock w' v = w_heap w' (AU n).
Proof.
  intros c w s o w' v n x Re L H E B G1 G2 G3. destruct (legal_step _ _ _ _ _ Re L H) as (s' & A & Re'). apply Reach_Inv in Re. apply Reach_Inv in Re'. destruct Re as [H1 N1 _]. destruct Re' as [H2 _ _].
  destruct (vec_of _ _ _ _ H1 E) as (y & Ey & (_ & _ & _ & _ & _ & C & _)).
  assert (Cy : a_cont y = CShared n) by (unfold crel in C; destruct (a_cont y); [destruct C as (_ & ? & _)|destruct C as (? & _ & ? & _)|destruct C as (_ & ? & _)]; congruence).
  destruct (@shared_step R fabs gtb sqrt big inv c s o s' v y n N1 A Ey Cy G1 G2 G3) as (y' & Ey' & Cy').
  destruct (avec_of _ _ _ _ H2 Ey') as (x' & Ex' & (_ & _ & _ & _ & _ & C' & _)). unfold crel in C'. rewrite Cy' in C'. destruct C' as (_ & C1 & C2 & _).
  exists x'. split; auto. split; auto. unfold vblock, arr. rewrite Ex', C2. auto.
Qed.
(** SetValue *)
Theorem C02_set_value : forall w s v a o w', Reach w s -> legal (CSetValue v a) s -> step (CSetValue v a) w = ROk o w' ->
  forall i, entry w' v i = if Nat.ltb i (vlen w v) then Some a else entry w v i.
Proof.
  intros w s v a o w' Re L H i. destruct (ok_step _ _ _ _ _ Re L H) as (s' & A & I & I'). clear L H Re. destruct I as [H1 N1 _]. destruct I' as [H2 _ _].
  cbn [VecSpec.astep] in A. unfold s_set_value, live in A. destruct (s_vecs s v) as [y|] eqn:E; [|discriminate]. rewrite (vlen_of _ _ _ _ H1 E).
  destruct (locked y); [discriminate|]. destruct (Nat.eqb_spec (a_len y) 0) as [Z|Z].
  - inversion A; subst. rewrite Z. simpl. rewrite (entry_conts _ _ _ _ i H1 E). erewrite entry_conts; [|exact H2|apply s_vecs_sv].
    assert (IV : invalid y = false) by (unfold invalid; rewrite Z; reflexivity). unfold s_zero. rewrite IV. rewrite conts_sv. reflexivity.
  - destruct (conts (sv s v (tick (s_zero y) 2)) (tick (s_zero y) 2)) as [old|] eqn:C; inversion A; subst. clear A.
    erewrite put_entry; [|exact H2|reflexivity|apply s_vecs_sv|eapply conts_nonempty; eauto]. rewrite conts_sv in C.
    assert (Lo : (a_len y <= length old)%nat /\ (invalid y = true \/ conts s y = Some old)).
    { unfold s_zero in C. destruct (invalid y) eqn:IV; unfold conts in C; simpl in C.
      - inversion C. rewrite zeros_length. auto.
      - split; [exact (@conts_len R w s v y _ H1 E C)|right; exact C]. }
    destruct Lo as [Lo Q]. rewrite nth_fill by auto. destruct (Nat.ltb_spec i (a_len y)); auto. erewrite entry_conts by eauto. destruct Q as [Q| ->]; auto.
    unfold s_zero in C. rewrite Q in C. simpl in C. unfold conts in C. simpl in C. inversion C; subst. unfold invalid in Q. unfold conts. destruct (a_cont y); try (rewrite andb_false_r in Q; discriminate).
    apply nth_error_None. rewrite zeros_length. auto.
Qed.
(** writing and reading through granted pointers *)
Theorem C02_write : forall w s v i a o w', Reach w s -> legal (VWrite v i a) s -> step (VWrite v i a) w = ROk o w' ->
  forall j, entry w' v j = if Nat.eqb j i then Some a else entry w v j.
Proof.
  intros w s v i a o w' Re L H j. destruct (ok_step _ _ _ _ _ Re L H) as (s' & A & I & I'). clear L H Re. destruct I as [H1 N1 _]. destruct I' as [H2 _ _].
  cbn [VecSpec.astep] in A. unfold live in A. destruct (s_vecs s v) as [y|] eqn:E; [|discriminate]. destruct (a_wg y && Nat.ltb i (a_len y)) eqn:G; [|discriminate].
  destruct (conts s y) as [l|] eqn:C; inversion A; subst. erewrite put_entry; [|exact H2|reflexivity|eauto|eapply conts_nonempty; eauto]. erewrite entry_conts by eauto. rewrite C.
  apply andb_prop in G. destruct G as [_ G]. apply Nat.ltb_lt in G. assert (Ln : (a_len y <= length l)%nat) by exact (@conts_len R w s v y _ H1 E C).
  destruct (Nat.eqb_spec j i) as [->|N].
  - rewrite nth_vf by (rewrite upd_length; lia). rewrite vf_upd_same by lia. auto.
  - destruct (Nat.lt_ge_cases j (length l)) as [K|K].
    + rewrite !nth_vf by (rewrite ?upd_length; lia). rewrite vf_upd_other by auto. auto.
    + rewrite (proj2 (nth_error_None l j)) by auto. apply nth_error_None. rewrite upd_length. auto.
Qed.
Theorem C02_read : forall w s v i c o w', Reach w s -> c = VRead v i \/ c = VReadW v i -> legal c s -> step c w = ROk o w' -> exists a, o = OVal a /\ entry w v i = Some a /\ w' = w.
Proof.
  intros w s v i c o w' Re Hc L H. destruct (ok_step _ _ _ _ _ Re L H) as (s' & A & I & I'). destruct I as [H1 N1 _]. destruct I' as [H2 _ _].
  assert (B : exists y l, s_vecs s v = Some y /\ conts s y = Some l /\ (i < a_len y)%nat /\ o = OVal (vf l i)).
  { destruct Hc; subst; cbn [VecSpec.astep] in A; unfold live in A; destruct (s_vecs s v) as [y|] eqn:E; try discriminate.
    - destruct (a_rg y && Nat.ltb i (a_len y)) eqn:G; [|discriminate]. destruct (conts s y) as [l|] eqn:C; inversion A; subst.
      apply andb_prop in G. destruct G as [_ G]. apply Nat.ltb_lt in G. exists y, l. auto.
    - destruct (a_wg y && Nat.ltb i (a_len y)) eqn:G; [|discriminate]. destruct (conts s y) as [l|] eqn:C; inversion A; subst.
      apply andb_prop in G. destruct G as [_ G]. apply Nat.ltb_lt in G. exists y, l. auto. }
  destruct B as (y & l & E & C & G & ->). exists (vf l i). split; auto. split.
  - erewrite entry_conts by eauto. rewrite C. assert (Ln : (a_len y <= length l)%nat) by exact (@conts_len R w s v y _ H1 E C). apply nth_vf. lia.
  - destruct Hc; subst; cbn [VecModel.step] in H; unfold mbind, load, ret in H.
    + destruct (w_rptr w v) as [a|]; [|discriminate]. destruct (w_heap w a) as [l1|]; [|discriminate]. destruct (getZ l1 (Z.of_nat i)); inversion H; auto.
    + destruct (w_wptr w v) as [a|]; [|discriminate]. destruct (w_heap w a) as [l1|]; [|discriminate]. destruct (getZ l1 (Z.of_nat i)); inversion H; auto.
Qed.

(** ** C03: memory *)
(** No lawful history runs into undefined behaviour: no freed or foreign block is read or written, none is
    freed twice, no NULL pointer is followed. *)
Theorem C03_no_undefined_behaviour : forall cs os s, arun cs empty_astate = Some (os, s) -> run cs empty_world <> None.
Proof. intros cs os s A. destruct (Inv_run _ _ _ _ _ Inv_init A) as (w & B & _). congruence. Qed.

Lemma shared_user : forall w s v (y : avec) n, Rel w s -> s_vecs s v = Some y -> a_cont y = CShared n -> s_user s n <> None.
Proof. intros w s v y n H E C. destruct (avec_of _ _ _ _ H E) as (x & Ex & (_ & _ & _ & _ & _ & V & _)). unfold crel in V. rewrite C in V. destruct V as (_ & _ & _ & l & -> & _). discriminate. Qed.
(** A block of the client that no vector owns is released by no call, except the client's own [free] and
    a call that gives it away. *)
Theorem C03_user_kept : forall c w s o w' n l, Reach w s -> legal c s -> cres (step c w) = Some (o, w') -> w_heap w (AU n) = Some l ->
  (forall v x, w_vecs w v = Some x -> v_owned x <> Some (AU n)) -> c <> UFree n -> (forall v, c <> CSetArray v true OwnPointer (SUser n)) ->
  w_heap w' (AU n) <> None /\ forall v x, w_vecs w' v = Some x -> v_owned x <> Some (AU n).
Proof.
  intros c w s o w' n l Re L H HL NO G1 G2. destruct (legal_step _ _ _ _ _ Re L H) as (s' & A & Re'). apply Reach_Inv in Re. apply Reach_Inv in Re'. destruct Re as [H1 N1 _]. destruct Re' as [H2 _ _].
  assert (U : s_user s n <> None).
  { destruct (r_leak H1 _ HL) as [(m & Q & U)|(v & x & Ev & O)]; [inversion Q; subst; congruence|]. exfalso. eapply NO; eauto. }
  assert (U' : s_user s' n <> None). { apply (@user_live R fabs gtb sqrt big inv c s o s' n A U). intros [Q|(v & Q)]; [auto|eapply G2; eauto]. }
  destruct (s_user s' n) as [l'|] eqn:Q; [|congruence]. split.
  - rewrite (r_user H2 n Q). discriminate.
  - intros v x E O. rewrite (r_dis H2 v E O) in Q. discriminate.
Qed.
(** What a vector owns stays owned by a vector or is released; nothing else is ever lost. *)
Theorem C03_owned : forall c w s o w' a, Reach w s -> legal c s -> cres (step c w) = Some (o, w') -> (exists v x, w_vecs w v = Some x /\ v_owned x = Some a) ->
  w_heap w' a = None \/ exists v x, w_vecs w' v = Some x /\ v_owned x = Some a.
Proof.
  intros c w s o w' a Re L H (v & x & E & O). destruct (legal_step _ _ _ _ _ Re L H) as (s' & A & Re'). apply Reach_Inv in Re. apply Reach_Inv in Re'. destruct Re as [H1 N1 _]. destruct Re' as [H2 _ _].
  destruct (w_heap w' a) as [l|] eqn:HL; auto. right. destruct (r_leak H2 _ HL) as [(n & -> & U)|?]; auto. exfalso.
  pose proof (r_dis H1 v E O) as D.
  assert (Ln : (n < s_nu s)%nat).
  { destruct (Nat.lt_ge_cases n (s_nu s)) as [|G]; auto. rewrite <- (r_nu H1) in G. pose proof (r_fu H1 G) as F.
    destruct (vec_of _ _ _ _ H1 E) as (y & Ey & (_ & _ & _ & _ & _ & C & _)). unfold crel in C. destruct (a_cont y); [destruct C; congruence| |destruct C; congruence].
    destruct C as (a & C1 & _ & _ & C4 & _). congruence. }
  rewrite (@user_dead R fabs gtb sqrt big inv c s o s' n A D Ln) in U; [discriminate|]. intros v0 y m Ev Cv. eapply shared_user; eauto.
Qed.
(** A live block has exactly one owner: one vector, or the client. *)
Theorem C03_one_owner : forall w s, Reach w s -> forall a l, w_heap w a = Some l ->
  (exists v x, w_vecs w v = Some x /\ v_owned x = Some a /\ forall v' x', w_vecs w v' = Some x' -> v_owned x' = Some a -> v' = v) \/
  (exists n, a = AU n /\ forall v x, w_vecs w v = Some x -> v_owned x <> Some a).
Proof.
  intros w s Re a l HL. apply Reach_Inv in Re. destruct Re as [H1 _ _]. destruct (r_leak H1 _ HL) as [(n & -> & U)|(v & x & E & O)].
  - right. exists n. split; auto. intros v x E O. rewrite (r_dis H1 v E O) in U. discriminate.
  - left. exists v, x. split; auto. split; auto. intros v' x' E' O'. exact (r_inj H1 v' v E' E O' O).
Qed.
(** After every vector is destroyed nothing the library allocated is left, and of the client's blocks only
    those that were not given away. *)
Theorem C03_no_leak : forall w s, Reach w s -> (forall v, w_vecs w v = None) -> forall a, w_heap w a <> None -> exists n, a = AU n /\ s_user s n <> None.
Proof.
  intros w s Re D a HL. apply Reach_Inv in Re. destruct Re as [H1 _ _]. destruct (w_heap w a) as [l|] eqn:E; [|congruence].
  destruct (r_leak H1 _ E) as [(n & -> & U)|(v & x & Ev & _)]; [|rewrite D in Ev; discriminate]. exists n. split; auto. congruence.
Qed.
(** Giving a block away makes the vector its owner; a freed block stays freed, its address is never used again. *)
Theorem C03_given : forall w s v n o w', Reach w s -> legal (CSetArray v true OwnPointer (SUser n)) s -> step (CSetArray v true OwnPointer (SUser n)) w = ROk o w' -> vlen w v <> 0%nat ->
  exists x, w_vecs w' v = Some x /\ v_owned x = Some (AU n).
Proof. intros w s v n o w' _ _ H L. destruct (set_pointer_arr w v n OwnPointer o w' ltac:(discriminate) H L) as [_ (x & E & O)]. eauto. Qed.

(** freed blocks stay freed: every primitive keeps it *)
Definition old (w : world) (a : addr) : Prop := match a with AU n => (n < w_nu w)%nat | AL n => (n < w_nl w)%nat end.
Definition keeps (w w' : world) : Prop := (w_nu w <= w_nu w')%nat /\ (w_nl w <= w_nl w')%nat /\ forall a, old w a -> w_heap w a = None -> w_heap w' a = None.
Definition Keep A (m : M R A) : Prop := forall w, match m w with ROk _ w' | RErr _ w' => keeps w w' | RUB => True end.
Lemma keeps_refl : forall w, keeps w w. Proof. repeat split; auto. Qed.
Lemma keeps_old : forall w w' a, keeps w w' -> old w a -> old w' a.
Proof. intros w w' [n|n] (A & B & _) O; simpl in *; lia. Qed.
Lemma keeps_trans : forall w1 w2 w3, keeps w1 w2 -> keeps w2 w3 -> keeps w1 w3.
Proof. intros w1 w2 w3 H1 H2. pose proof H1 as (A1 & A2 & A3). pose proof H2 as (B1 & B2 & B3). repeat split; try lia. intros a O N. apply B3; auto. eapply keeps_old; eauto. Qed.
Lemma Keep_bind : forall A B (m : M R A) (k : A -> M R B), Keep A m -> (forall a, Keep B (k a)) -> Keep B (mbind m k).
Proof.
  intros A B m k Hm Hk w. unfold mbind. specialize (Hm w). destruct (m w) as [a w1|e w1|]; auto. specialize (Hk a w1). destruct (k a w1); auto; eapply keeps_trans; eauto.
Qed.
Lemma Keep_ret : forall A (a : A), Keep A (ret a). Proof. intros A a w. apply keeps_refl. Qed.
Lemma Keep_check : forall c e, Keep unit (check c e). Proof. intros [|] e w; apply keeps_refl. Qed.
Lemma Keep_getv : forall v, Keep _ (getv v). Proof. intros v w. unfold getv. destruct (w_vecs w v); auto. apply keeps_refl. Qed.
Lemma Keep_putv : forall v x, Keep _ (putv v x). Proof. intros v x w. repeat split; simpl; auto. Qed.
Lemma Keep_backend : forall A (m : M R A), Keep A m -> Keep A (backend m).
Proof. intros A m Hm w. specialize (Hm w). unfold backend. destruct (m w); auto. Qed.
Lemma Keep_calloc : forall n, Keep _ (calloc n).
Proof.
  intros n w. unfold calloc. repeat split; simpl; auto. intros a O N. unfold hupd. destruct (addr_eqb_spec a (AL (w_nl w))) as [->|]; auto. simpl in O. lia.
Qed.
Lemma keeps_seth : forall w a (l l' : list R), w_heap w a = Some l -> keeps w (seth w a (Some l')).
Proof. intros w a l l' E. repeat split; simpl; auto. intros b O N. unfold hupd. destruct (addr_eqb_spec b a) as [->|]; auto. congruence. Qed.
Lemma Keep_free : forall p, Keep _ (free p).
Proof. intros [a|] w; simpl; [|apply keeps_refl]. destruct (w_heap w a) eqn:E; auto. repeat split; simpl; auto. intros b O N. unfold hupd. destruct (addr_eqb_spec b a); auto. Qed.
Lemma Keep_load : forall p i, Keep _ (load p i).
Proof. intros [a|] i w; simpl; auto. destruct (w_heap w a); auto. destruct (getZ l i); auto. apply keeps_refl. Qed.
Lemma Keep_store : forall p i x, Keep _ (store p i x).
Proof. intros [a|] i x w; simpl; auto. destruct (w_heap w a) eqn:E; auto. destruct (setZ l i x); auto. eapply keeps_seth; eauto. Qed.
Lemma Keep_memcpy : forall p q n, Keep _ (memcpy p q n).
Proof. intros [d|] [a|] n w; simpl; auto. destruct (addr_eqb d a); auto. destruct (w_heap w d) eqn:E; auto. destruct (w_heap w a); auto. destruct (_ && _); auto. eapply keeps_seth; eauto. Qed.
Lemma Keep_if : forall A (b : bool) (m m' : M R A), Keep A m -> Keep A m' -> Keep A (if b then m else m'). Proof. intros A [|]; auto. Qed.
Ltac keep := repeat first [apply Keep_ret | apply Keep_check | apply Keep_getv | apply Keep_putv | apply Keep_calloc | apply Keep_free | apply Keep_load | apply Keep_store | apply Keep_memcpy
  | apply Keep_backend | apply Keep_bind; [|intro] | apply Keep_if].
Lemma Keep_set_host : forall v mode p, Keep _ (set_host_array v mode p).
Proof.
  intros. unfold set_host_array. keep. destruct mode; keep.
  - destruct (v_array _); keep. destruct (v_borrowed _); keep. destruct (v_owned _); keep.
  - destruct p; keep.
Qed.
Ltac keep2 := repeat first [apply Keep_ret | apply Keep_check | apply Keep_getv | apply Keep_putv | apply Keep_calloc | apply Keep_free | apply Keep_load | apply Keep_store | apply Keep_memcpy | apply Keep_set_host
  | apply Keep_backend | apply Keep_bind; [|intro] | apply Keep_if | progress cbv zeta].
Lemma Keep_unlocked : forall v, Keep _ (unlocked v). Proof. intros. unfold unlocked. keep2. Qed.
Lemma Keep_bump : forall v k, Keep _ (bump v k). Proof. intros. unfold bump. keep2. Qed.
Lemma Keep_valid : forall v, Keep _ (has_valid v). Proof. intros. unfold has_valid. keep2. Qed.
Ltac keep3 := repeat first [apply Keep_unlocked | apply Keep_bump | apply Keep_valid | apply Keep_ret | apply Keep_check | apply Keep_getv | apply Keep_putv | apply Keep_free | apply Keep_load | apply Keep_store | apply Keep_set_host
  | apply Keep_backend | apply Keep_bind; [|intro] | apply Keep_if | progress cbv zeta].
Lemma Keep_sa : forall v h m p, Keep _ (vec_set_array v h m p). Proof. intros. unfold vec_set_array, set_array_ref. keep3. Qed.
Lemma Keep_take : forall v h, Keep _ (vec_take_array v h). Proof. intros. unfold vec_take_array, has_borrowed, take_array_ref. keep3. Qed.
Lemma Keep_get : forall v h, Keep _ (vec_get_array v h). Proof. intros. unfold vec_get_array, get_core_ref. keep3. Qed.
Lemma Keep_read : forall v h, Keep _ (vec_get_read v h). Proof. intros. unfold vec_get_read, get_core_ref. keep3. Qed.
Lemma Keep_write : forall v h, Keep _ (vec_get_write v h). Proof. intros. unfold vec_get_write, get_core_ref. repeat (keep3; try apply Keep_sa). Qed.
Lemma Keep_restore : forall v, Keep _ (vec_restore v). Proof. intros. unfold vec_restore. keep3. Qed.
Lemma Keep_restore_read : forall v, Keep _ (vec_restore_read v). Proof. intros. unfold vec_restore_read. keep3. Qed.
Lemma Keep_loads : forall ps i, Keep _ (loads ps i). Proof. induction ps; intros; simpl; keep. apply IHps. Qed.
Lemma Keep_mfor : forall n i f, (forall i, Keep _ (f i)) -> Keep unit (mfor n i f). Proof. induction n; intros; simpl; keep; auto. Qed.
Lemma Keep_emap : forall n d ss f, Keep _ (emap n d ss f). Proof. intros. unfold emap. apply Keep_mfor. intro. keep. apply Keep_loads. Qed.
Lemma Keep_strided : forall fuel i stop st d ss f, Keep _ (strided fuel i stop st d ss f).
Proof. induction fuel; intros; simpl; (destruct (i <? stop); [|keep]). { intro w; simpl; auto. } keep; [apply Keep_loads|apply IHfuel]. Qed.
Lemma Keep_norm : forall nt p n i s, Keep _ (norm_loop fabs gtb nt p n i s). Proof. induction n; intros; simpl; keep. apply IHn. Qed.
Ltac keep4 := repeat first [apply Keep_sa | apply Keep_take | apply Keep_get | apply Keep_read | apply Keep_write | apply Keep_restore | apply Keep_restore_read | apply Keep_emap | apply Keep_strided | apply Keep_norm
  | apply Keep_unlocked | apply Keep_bump | apply Keep_valid | apply Keep_ret | apply Keep_check | apply Keep_getv | apply Keep_putv | apply Keep_free | apply Keep_load | apply Keep_store
  | apply Keep_backend | apply Keep_bind; [|intro] | apply Keep_if | progress cbv zeta].
Lemma Keep_self : forall A (f : world -> M R A), (forall w, Keep A (f w)) -> Keep A (fun w => f w w). Proof. intros A f H w. apply H. Qed.
Lemma Keep_step : forall c, Keep _ (step c).
Proof.
  intro c. destruct c; cbn [VecModel.step]; unfold done, vec_set_value, vec_set_value_strided, vec_sync, vec_copy, vec_copy_strided, vec_norm, vec_scale, vec_axpy, vec_axpby, vec_axp, vec_pointwise_mult, vec_reciprocal,
    vec_reference, vec_destroy, smap; keep4.
  all: try (intro w0; repeat split; simpl; auto; fail).
  - intro w0. destruct s; apply keeps_refl.
  - intro w0. repeat split; simpl; auto. intros a O N. unfold hupd. destruct (addr_eqb_spec a (AU (w_nu w0))) as [->|]; auto. simpl in O. lia.
  - intro w0. apply (Keep_load (w_rptr w0 v)).
  - intro w0. apply (Keep_store (w_wptr w0 v)).
  - intro w0. apply (Keep_load (w_wptr w0 v)).
Qed.
Theorem C03_freed_once : forall c w o w' a, cres (step c w) = Some (o, w') -> old w a -> w_heap w a = None -> old w' a /\ w_heap w' a = None.
Proof.
  intros c w o w' a H O N. pose proof (Keep_step c w) as K. destruct (step c w); simpl in H; inversion H; subst; (split; [eapply keeps_old; eauto|destruct K as (_ & _ & K); auto]).
Qed.

(** ** C04: the state *)
Lemma nv_mono : forall c s o s', res_of (astep c s) = Some (o, s') -> (s_nv s <= s_nv s')%nat.
Proof.
  assert (SV : forall (s : astate) v (y : avec) l, s_nv (putc s v y l) = s_nv s) by (intros; unfold putc; destruct (a_cont y); auto).
  intros c s o s' H. unfold res_of in H. destruct (astep c s) eqn:E; inversion H; subst; clear H; destruct c; allcases E; rewrite ?SV; simpl; lia.
Qed.
Lemma clock_run : forall cs w s os s', Inv w s -> arun cs s = Some (os, s') -> forall v y y', s_vecs s v = Some y -> s_vecs s' v = Some y' ->
  a_clock y <= a_clock y' <= a_clock y + 4 * Z.of_nat (length cs).
Proof.
  induction cs as [|c cs IH]; intros w s os s' I H v y y' E E'.
  - simpl in H. inversion H; subst. simpl. assert (y = y') by congruence. subst. lia.
  - apply arun_step in H. destruct H as (o & os' & s1 & -> & A & B). destruct (Inv_step _ _ _ _ _ I A) as (w1 & C & I1).
    assert (Lv : (v < s_nv s)%nat) by (destruct (Nat.lt_ge_cases v (s_nv s)); auto; rewrite (i_new _ _ I) in E by auto; discriminate).
    destruct (s_vecs s1 v) as [y1|] eqn:E1.
    + destruct (@Clk_step R fabs gtb sqrt big inv c s o s1 v y y1 E E1 A (i_new _ _ I)) as [P1 P2]. destruct (IH _ _ _ _ I1 B v y1 y' E1 E') as [Q1 Q2].
      rewrite Nat2Z.inj_succ || (cbn [length]; rewrite Nat2Z.inj_succ). lia.
    + exfalso. assert (D : forall cs s1 os' s', arun cs s1 = Some (os', s') -> (v < s_nv s1)%nat -> s_vecs s1 v = None -> s_vecs s' v = None).
      { clear. induction cs as [|c cs IH]; intros s1 os' s' H L D; [simpl in H; inversion H; subst; auto|].
        apply arun_step in H. destruct H as (o & os1 & s2 & -> & A & B). eapply IH; eauto.
        - pose proof (nv_mono _ _ _ _ A). lia.
        - exact (@dead_step R fabs gtb sqrt big inv c s1 o s2 v L D A). }
      rewrite (D _ _ _ _ B) in E'; [discriminate| |auto]. pose proof (nv_mono _ _ _ _ A). lia.
Qed.
Lemma live_between : forall cs s os s' v, arun cs s = Some (os, s') -> (v < s_nv s)%nat -> s_vecs s' v <> None -> s_vecs s v <> None.
Proof.
  induction cs as [|c cs IH]; intros s os s' v H L D; [simpl in H; inversion H; subst; auto|].
  apply arun_step in H. destruct H as (o & os1 & s2 & -> & A & B). intro Q. refine (IH _ _ _ _ B _ D _).
  - pose proof (nv_mono _ _ _ _ A). lia.
  - exact (@dead_step R fabs gtb sqrt big inv c s o s2 v L Q A).
Qed.
(** the calls that may change what a vector holds *)
Definition modifying (w : world) (v : nat) (c : cmd R) : Prop :=
  vlen w v <> 0%nat /\
  match c with
  | CSetArray u _ _ _ | CRestore u | CSetValue u _ | CSetValueStrided u _ _ _ _ | CScale u _ | CAxpy u _ _ | CAxpby u _ _ _ | CMult u _ _ | CRecip u | CCopy _ u => u = v
  | CCopyStrided x _ _ _ u => u = v /\ vlen w x <> 0%nat
  | _ => False
  end.
Lemma modifying_modifies : forall w s v c, Rel w s -> modifying w v c -> modifies s v c.
Proof.
  intros w s v c H [L M]. destruct c; simpl in *; auto. destruct M as [-> M]. split; auto. unfold vlen in M. destruct (w_vecs w v0) as [x|] eqn:E; [|congruence].
  destruct (vec_of _ _ _ _ H E) as (y & Ey & (V & _)). unfold alen. rewrite (fld_at _ _ _ _ Ey). congruence.
Qed.
Lemma equal_state : forall w s w' s' v (y y' : avec) x x' n, Rel w s -> Rel w' s' -> w_vecs w v = Some x -> w_vecs w' v = Some x' -> s_vecs s v = Some y -> s_vecs s' v = Some y' ->
  a_clock y <= a_clock y' <= a_clock y + 4 * n -> 4 * n < two64 -> v_state x' = v_state x -> a_clock y' = a_clock y.
Proof.
  intros w s w' s' v y y' x x' n H H' E E' Ey Ey' B N Q. destruct (vec_of _ _ _ _ H E) as (z & Ez & (_ & V & _)). destruct (vec_of _ _ _ _ H' E') as (z' & Ez' & (_ & V' & _)).
  assert (z = y) by congruence. assert (z' = y') by congruence. subst. rewrite V, V' in Q.
  assert (D : (a_clock y' - a_clock y) mod two64 = 0) by (rewrite Zminus_mod, Q, Z.sub_diag; reflexivity). rewrite Z.mod_small in D by lia. lia.
Qed.
(** Between two points of a history at which the state of a vector is the same (fewer than 2^62 calls
    apart), no call that may change its contents succeeded. *)
Theorem C04_same_state : forall w s cs1 c cs2 os1 o os2 s' w1 w' v x x', Reach w s -> arun (cs1 ++ c :: cs2) s = Some (os1 ++ o :: os2, s') ->
  run cs1 w = Some (os1, w1) -> run (c :: cs2) w1 = Some (o :: os2, w') ->
  w_vecs w v = Some x -> w_vecs w' v = Some x' -> 4 * Z.of_nat (length (cs1 ++ c :: cs2)) < two64 -> v_state x' = v_state x ->
  (exists r, o = inl r) -> ~ modifying w1 v c.
Proof.
  intros w s cs1 c cs2 os1 o os2 s' w1 w' v x x' Re A B1 B2 E E' N Q (r & ->) M. pose proof (Reach_Inv _ _ Re) as I.
  assert (SP : exists s1, arun cs1 s = Some (os1, s1) /\ arun (c :: cs2) s1 = Some (inl r :: os2, s')).
  { clear -A B1. revert s w os1 A B1. induction cs1 as [|d cs IH]; intros s w os1 A B1.
    - simpl in B1. inversion B1; subst. exists s. auto.
    - apply run_step in B1. destruct B1 as (o1 & os' & w2 & -> & C & D). change ((d :: cs) ++ c :: cs2) with (d :: (cs ++ c :: cs2)) in A.
      apply arun_step in A. destruct A as (o2 & os3 & s1 & P & A1 & A2). inversion P; subst. destruct (IH _ _ _ A2 D) as (s2 & F & G). exists s2. split; auto. apply arun_step. eauto 6. }
  destruct SP as (s1 & A1 & A2). destruct (Inv_run _ _ _ _ _ I A1) as (w1' & B1' & I1). assert (w1' = w1) by congruence. subst w1'.
  destruct (Inv_run _ _ _ _ _ I1 A2) as (w2' & B2' & I2). assert (w2' = w') by congruence. subst w2'.
  destruct (vec_of _ _ _ _ (i_rel _ _ I) E) as (y & Ey & _). destruct (vec_of _ _ _ _ (i_rel _ _ I2) E') as (y' & Ey' & _).
  pose proof (clock_run _ _ _ _ _ I A v y y' Ey Ey') as Bd. pose proof (equal_state _ _ _ _ _ _ _ _ _ _ (i_rel _ _ I) (i_rel _ _ I2) E E' Ey Ey' Bd N Q) as Eq.
  pose proof A2 as A3. apply arun_step in A3. destruct A3 as (o1 & os' & s2 & P & A3 & A4). inversion P; subst o1 os'. clear P.
  assert (Lv : (v < s_nv s)%nat) by (destruct (Nat.lt_ge_cases v (s_nv s)); auto; rewrite (i_new _ _ I) in Ey by auto; discriminate).
  assert (NV : forall cs s os s', arun cs s = Some (os, s') -> (s_nv s <= s_nv s')%nat).
  { clear. induction cs as [|c cs IH]; intros s os s' H; [simpl in H; inversion H; auto|]. apply arun_step in H. destruct H as (o & os1 & s2 & -> & A & B). pose proof (nv_mono _ _ _ _ A). specialize (IH _ _ _ B). lia. }
  pose proof (NV _ _ _ _ A1) as L1. pose proof (nv_mono _ _ _ _ A3) as L2.
  destruct (s_vecs s2 v) as [y2|] eqn:E2; [|exfalso; refine (live_between _ _ _ _ v A4 _ _ E2); [lia|congruence]].
  destruct (s_vecs s1 v) as [y1|] eqn:E1; [|exfalso; refine (live_between _ _ _ _ v A2 _ _ E1); [lia|congruence]].
  pose proof (clock_run _ _ _ _ _ I A1 v y y1 Ey E1) as R1. destruct (Inv_step _ _ _ _ _ I1 A3) as (w3 & _ & I3). pose proof (clock_run _ _ _ _ _ I3 A4 v y2 y' E2 Ey') as R2.
  assert (A5 : astep c s1 = AOk r s2) by (unfold res_of in A3; destruct (astep c s1); inversion A3; subst; auto).
  destruct (@Clk_mod R fabs gtb sqrt big inv c s1 r s2 v y1 y2 E1 E2 A5 (modifying_modifies _ _ _ _ (i_rel _ _ I1) M)) as [Z|Z]; [|lia].
  destruct M as [M _]. rewrite (vlen_of _ _ _ _ (i_rel _ _ I1) E1) in M. auto.
Qed.
(** So a cache keyed by the state is sound for vectors that own their array: equal even states, equal contents. *)
Lemma own_run : forall cs w s os s' v (y y' : avec) l, Inv w s -> arun cs s = Some (os, s') -> s_vecs s v = Some y -> s_vecs s' v = Some y' -> a_clock y' = a_clock y -> busy y = false ->
  a_cont y = COwn l -> a_cont y' = COwn l.
Proof.
  induction cs as [|c cs IH]; intros w s os s' v y y' l I A E E' Q B C.
  - simpl in A. inversion A; subst. congruence.
  - apply arun_step in A. destruct A as (o & os' & s1 & -> & A1 & A2). destruct (Inv_step _ _ _ _ _ I A1) as (w1 & _ & I1).
    assert (Lv : (v < s_nv s)%nat) by (destruct (Nat.lt_ge_cases v (s_nv s)); auto; rewrite (i_new _ _ I) in E by auto; discriminate).
    pose proof (nv_mono _ _ _ _ A1) as L2.
    destruct (s_vecs s1 v) as [y1|] eqn:E1; [|exfalso; refine (live_between _ _ _ _ v A2 _ _ E1); [lia|congruence]].
    pose proof (clock_run _ _ _ _ _ I1 A2 v y1 y' E1 E') as R2.
    destruct (@Clk_step R fabs gtb sqrt big inv c s o s1 v y y1 E E1 A1 (i_new _ _ I)) as [P1 P2].
    assert (Q1 : a_clock y1 = a_clock y) by lia.
    destruct (avec_of _ _ _ _ (i_rel _ _ I) E) as (x & Ex & (_ & _ & _ & _ & _ & V & W1 & _)).
    assert (Lp : (0 < a_len y)%nat) by (unfold crel in V; rewrite C in V; destruct V as (a & _ & _ & _ & _ & ? & _); auto).
    destruct (@own_step R fabs gtb sqrt big inv c s o s1 v y y1 l (i_new _ _ I) E E1 A1) as [C1 _]; auto.
    { intro T. destruct (W1 T) as [T1 _]. unfold busy. rewrite T1. auto. }
    eapply IH; eauto; [lia|]. unfold busy in *. rewrite Q1. auto.
Qed.
Theorem C04_cache : forall w s cs os s' w' v x x', Reach w s -> arun cs s = Some (os, s') -> run cs w = Some (os, w') -> w_vecs w v = Some x -> w_vecs w' v = Some x' ->
  4 * Z.of_nat (length cs) < two64 -> v_state x' = v_state x -> v_state x mod 2 = 0 -> v_owned x <> None -> vblock w' v = vblock w v.
Proof.
  intros w s cs os s' w' v x x' Re A B E E' N Q Ev O. pose proof (Reach_Inv _ _ Re) as I. destruct (Inv_run _ _ _ _ _ I A) as (w2 & B2 & I2). assert (w2 = w') by congruence. subst w2.
  destruct (vec_of _ _ _ _ (i_rel _ _ I) E) as (y & Ey & (_ & V2 & _ & _ & _ & V & _)). destruct (vec_of _ _ _ _ (i_rel _ _ I2) E') as (y' & Ey' & _).
  pose proof (clock_run _ _ _ _ _ I A v y y' Ey Ey') as Bd. pose proof (equal_state _ _ _ _ _ _ _ _ _ _ (i_rel _ _ I) (i_rel _ _ I2) E E' Ey Ey' Bd N Q) as Eq.
  unfold crel in V. destruct (a_cont y) as [|l|n] eqn:C; [destruct V; congruence| |destruct V; congruence].
  rewrite (block_conts _ _ _ _ (i_rel _ _ I) Ey), (block_conts _ _ _ _ (i_rel _ _ I2) Ey'). unfold conts. rewrite C.
  assert (Bz : busy y = false) by (unfold busy, even; rewrite V2, <- Znumtheory.Zmod_div_mod in Ev; [rewrite Ev; auto|lia|reflexivity|exists (2^63); reflexivity]).
  rewrite (own_run cs w s os s' v y y' l I A Ey Ey' Eq Bz C). auto.
Qed.
(** The state is odd exactly while a write access is outstanding: C01_exclusive.  Calls that fail with a
    nonterminal error, read accesses, TakeArray, Norm and Sync leave it alone. *)
Theorem C04_unchanged : forall c w s o w' v x, Reach w s -> legal c s -> cres (step c w) = Some (o, w') -> w_vecs w v = Some x ->
  match c with CTake _ _ | CGetRead _ _ | CRestoreRead _ | CSync _ _ | CNorm _ _ | CRef _ | UAlloc _ | UFree _ | URead _ _ | UWrite _ _ _ | VRead _ _ | VWrite _ _ _ | VReadW _ _ => True | _ => False end ->
  exists x', w_vecs w' v = Some x' /\ v_state x' = v_state x.
Proof.
  intros c w s o w' v x Re L H E M. destruct (legal_step _ _ _ _ _ Re L H) as (s' & A & Re'). apply Reach_Inv in Re. apply Reach_Inv in Re'. destruct Re as [H1 N1 _]. destruct Re' as [H2 _ _].
  destruct (vec_of _ _ _ _ H1 E) as (y & Ey & (_ & V & _)).
  assert (B : fld (fun y => Some (a_clock y)) None s' v = Some (a_clock y)).
  { assert (B0 : fld (fun y => Some (a_clock y)) None s v = Some (a_clock y)) by (rewrite (fld_at _ _ _ _ Ey); auto). clear H L E V H1 H2 N1.
    unfold res_of in A. destruct (astep c s) eqn:Q; inversion A; subst; clear A; destruct c; try contradiction; allcases Q; auto.
    all: try match goal with |- context [putc ?s ?u ?y ?l] => rewrite (@fld_putc R _ (fun y => Some (a_clock y))) by (first [intros; reflexivity | assumption]) end; auto.
    all: try rewrite fld_sv. all: try match goal with |- context [Nat.eqb ?a ?b] => destruct (Nat.eqb_spec a b); subst end; auto.
    all: simpl; assert (a = y) by congruence; subst; auto. }
  unfold fld in B. destruct (s_vecs s' v) as [y'|] eqn:E'; [|discriminate]. inversion B. destruct (avec_of _ _ _ _ H2 E') as (x' & Ex' & (_ & V' & _)).
  exists x'. split; auto. rewrite V, V'. congruence.
Qed.

(** ** C05: failing calls *)
Lemma locked_conc : forall w s v (y : avec) x, Rel w s -> s_vecs s v = Some y -> w_vecs w v = Some x -> 
  (busy y = true -> v_state x mod 2 = 1) /\ (busy y = false -> v_state x mod 2 = 0) /\ (locked y = true -> v_state x mod 2 = 1 \/ v_readers x <> 0).
Proof.
  intros w s v y x H Ey E. destruct (vec_of _ _ _ _ H E) as (y0 & Ey0 & (_ & V2 & V3 & _)). assert (y0 = y) by congruence. subst.
  assert (B0 : v_state x mod 2 = Z.b2z (busy y)) by (rewrite V2; unfold busy, even; rewrite <- Znumtheory.Zmod_div_mod; [|lia|reflexivity|exists (2^63); reflexivity];
      pose proof (Z.mod_pos_bound (a_clock y) 2 ltac:(lia)); destruct (Z.eqb_spec (a_clock y mod 2) 0); simpl; lia).
  rewrite B0, V3. unfold locked. destruct (busy y); simpl; repeat split; auto; try discriminate. intro Q. right. apply negb_true_iff in Q. apply Z.eqb_neq in Q. auto.
Qed.
Lemma src_run : forall a w, exists p, src_ptr a w = ROk p (w : world).
Proof. intros [| | |] w; simpl; eauto. Qed.
(** Every call of a single vector that returns a nonterminal (positive) error code leaves the whole world as it
    was: states, counters, contents, ownership and memory. *)
Theorem C05_unchanged : forall c w s e w', Reach w s -> legal c s -> step c w = RErr e w' -> 0 < e ->
  match c with CDestroy _ | CCopy _ _ | CCopyStrided _ _ _ _ _ | CAxpy _ _ _ | CAxpby _ _ _ _ | CMult _ _ _ => False | _ => True end -> w' = w.
Proof.
  intros c w s e w' Re L H P M. destruct (legal_step c w s (inr e) w' Re L) as (s' & A & _); [rewrite H; reflexivity|].
  assert (B : astep c s = AErr e s') by (unfold res_of in A; destruct (astep c s); inversion A; subst; auto). clear A. apply Reach_Inv in Re. destruct Re as [H1 _ _].
  assert (CV : forall v y, s_vecs s v = Some y -> exists x, w_vecs w v = Some x /\ (busy y = true -> v_state x mod 2 = 1) /\ (busy y = false -> v_state x mod 2 = 0) /\ (locked y = true -> v_state x mod 2 = 1 \/ v_readers x <> 0)).
  { intros v y E. destruct (avec_of _ _ _ _ H1 E) as (x & Ex & _). exists x. split; auto. eapply locked_conc; eauto. }
  assert (LK : forall v y, s_vecs s v = Some y -> locked y = true -> forall host mode a val start stop st, 
    step (CGet v host) w = RErr ERR_ACCESS w /\ step (CGetWrite v host) w = RErr ERR_ACCESS w /\
    step (CSetArray v host mode a) w = RErr ERR_ACCESS w /\ step (CTake v host) w = RErr ERR_ACCESS w /\
    step (CSetValue v val) w = RErr ERR_ACCESS w /\ step (CSetValueStrided v start stop st val) w = RErr ERR_ACCESS w).
  { intros v y E Lk host mode a val start stop st. destruct (CV v y E) as (x & Ex & _ & _ & C). destruct (src_run a w) as (p & SP). destruct (C Lk) as [O|O].
    - destruct (C01_writer_refuses w v x Ex O host mode a p val start stop st SP) as (? & ? & ? & ? & ? & ? & ? & ?). auto 10.
    - destruct (C01_reader_refuses w v x Ex O host mode a p val start stop st SP) as (? & ? & ? & ? & ? & ?). auto 10. }
  assert (BS : forall v y, s_vecs s v = Some y -> busy y = true -> forall host, step (CGetRead v host) w = RErr ERR_ACCESS w /\ step (CSync v host) w = RErr ERR_ACCESS w).
  { intros v y E Bz host. destruct (CV v y E) as (x & Ex & C & _). destruct (C01_writer_refuses w v x Ex (C Bz) host CopyValues SNull None 0%R 0 0 0 eq_refl) as (? & ? & ? & ? & ? & ? & ? & ?). auto. }
  destruct c; try contradiction; allcases B; try (cbv in P; discriminate); cbn [VecModel.step] in *;
    try (match goal with E : s_vecs _ ?v = Some ?y, Lk : locked ?y = true |- _ => destruct (LK v y E Lk host mode s0 0%R 0 0 0) as (? & ? & ? & ? & ? & ?); congruence end);
    try (match goal with E : s_vecs _ ?v = Some ?y, Lk : locked ?y = true |- _ => destruct (LK v y E Lk host CopyValues SNull 0%R 0 0 0) as (? & ? & ? & ? & ? & ?); congruence end);
    try (match goal with E : s_vecs _ ?v = Some ?y, Lk : busy ?y = true |- _ => destruct (BS v y E Lk host) as (? & ?); congruence end).
  - destruct (CV _ _ Heqo) as (x & Ex & _ & C & _). destruct (C01_restore_refused w v x Ex) as [Q _]. cbn [VecModel.step] in Q. rewrite (Q (C Heqb)) in H. inversion H; auto.
  - erewrite done_err in H by (eapply restore_read_err; eauto). inversion H; auto.
  - destruct (LK v a Heqo Heqb true CopyValues SNull x 0 0 0) as (? & ? & ? & ? & ? & ?). congruence.
  - destruct (LK v a Heqo Heqb true CopyValues SNull x start stop step) as (? & ? & ? & ? & ? & ?). congruence.
  - unfold done, vec_set_value_strided in H. unfold mbind at 1 in H. erewrite bind_ok in H by (rewrite (unlocked_run _ H1 Heqo), Heqb; reflexivity).
    destruct (CV _ _ Heqo) as (xx & Ex & _). erewrite bind_ok in H by (apply getv_run; eauto). cbv zeta in H. destruct (avec_of _ _ _ _ H1 Heqo) as (xx' & Ex' & (V & _)). assert (xx' = xx) by congruence; subst.
    rewrite V in H. apply negb_true_iff in Heqb0. rewrite Heqb0 in H. unfold mbind at 1 in H. simpl in H. inversion H; auto.
  - unfold vec_norm in H. unfold mbind at 1 in H. erewrite bind_ok in H by (eapply has_valid_run; eauto). rewrite Heqb in H. unfold mbind at 1 in H. simpl check in H. unfold ret at 1 in H.
    destruct (avec_of _ _ _ _ H1 Heqo) as (xx & Ex & (V & _)). erewrite bind_ok in H by (apply getv_run; eauto). rewrite V, Heqb0 in H. erewrite bind_err in H by (eapply read_busy; eauto). inversion H; auto.
  - unfold done, vec_scale in H. unfold mbind at 1 in H. erewrite bind_ok in H by (eapply has_valid_run; eauto). rewrite Heqb in H. unfold mbind at 1 in H. simpl check in H. unfold ret at 1 in H.
    destruct (avec_of _ _ _ _ H1 Heqo) as (xx & Ex & (V & _)). erewrite bind_ok in H by (apply getv_run; eauto). rewrite V, Heqb0 in H. erewrite bind_err in H by (eapply get_locked; eauto). inversion H; auto.
  - unfold done, vec_reciprocal in H. unfold mbind at 1 in H. erewrite bind_ok in H by (eapply has_valid_run; eauto). rewrite Heqb in H. unfold mbind at 1 in H. simpl check in H. unfold ret at 1 in H.
    destruct (avec_of _ _ _ _ H1 Heqo) as (xx & Ex & (V & V2 & _)). erewrite bind_ok in H by (apply getv_run; eauto). rewrite V2 in H. apply Z.eqb_eq in Heqb0. rewrite Heqb0 in H. unfold mbind at 1 in H. simpl in H. inversion H; auto.
  - unfold done, vec_reciprocal in H. unfold mbind at 1 in H. erewrite bind_ok in H by (eapply has_valid_run; eauto). rewrite Heqb in H. unfold mbind at 1 in H. simpl check in H. unfold ret at 1 in H.
    destruct (avec_of _ _ _ _ H1 Heqo) as (xx & Ex & (V & V2 & _)). erewrite bind_ok in H by (apply getv_run; eauto). rewrite V2 in H.
    assert (Q : (0 <? a_clock a mod two64) = true) by (apply Z.ltb_lt; apply Z.eqb_neq in Heqb0; pose proof (Z.mod_pos_bound (a_clock a) two64 ltac:(reflexivity)); lia). rewrite Q in H.
    unfold mbind at 1 in H. simpl check in H. unfold ret at 1 in H. rewrite V in H. 
    match type of H with context [Nat.eqb (a_len a) 0] => destruct (Nat.eqb_spec (a_len a) 0) end; [congruence|]. erewrite bind_err in H by (eapply get_locked; eauto). inversion H; auto.
Qed.
(** The other calls at least change no values when they fail so, except that PointwiseMult may have turned an
    empty output into zeros. *)
Theorem C05_contents : forall c w s e w' u x, Reach w s -> legal c s -> step c w = RErr e w' -> 0 < e -> w_vecs w u = Some x ->
  (forall p q r, c = CMult p q r -> arr w p <> None) -> vblock w' u = vblock w u /\ vlen w' u = vlen w u.
Proof.
  intros c w s e w' u x Re L H P E NM. destruct (legal_step c w s (inr e) w' Re L) as (s' & A & Re'); [rewrite H; reflexivity|].
  assert (B : astep c s = AErr e s') by (unfold res_of in A; destruct (astep c s); inversion A; subst; auto). apply Reach_Inv in Re. apply Reach_Inv in Re'. destruct Re as [H1 _ _]. destruct Re' as [H2 _ _].
  destruct (vec_of _ _ _ _ H1 E) as (y & Ey & _). destruct (@fail_conts R fabs gtb sqrt big inv c s e s' u y B P Ey) as (U & y' & Ey' & C & Ln).
  { intros p q r ->. specialize (NM p q r eq_refl). unfold fld. destruct (s_vecs s p) as [yp|] eqn:Ep; auto. unfold invalid. destruct (arr_cont _ _ _ _ H1 Ep) as (_ & Q & _).
    destruct (a_cont yp); try (rewrite andb_false_r; reflexivity). exfalso. apply NM. apply Q. auto. }
  rewrite (block_conts _ _ _ _ H1 Ey), (block_conts _ _ _ _ H2 Ey'), (vlen_of _ _ _ _ H1 Ey), (vlen_of _ _ _ _ H2 Ey'). split; auto. unfold conts. rewrite C. destruct (a_cont y); auto.
Qed.

(** ** C06: elementwise results ([C02_frame] says nothing else changes) *)
Definition map2 (f : R -> R -> R) (a b : option R) : option R := match a, b with Some a, Some b => Some (f a b) | _, _ => None end.
Lemma modify_entry : forall w s s' v f w' o, Inv w s -> Inv w' s' -> s_modify s v f = AOk o s' -> forall i, entry w' v i = if Nat.ltb i (vlen w v) then option_map f (entry w v i) else entry w v i.
Proof.
  intros w s s' v f w' o I I' A i. destruct I as [H1 N1 _]. destruct I' as [H2 _ _]. unfold s_modify, live in A. destruct (s_vecs s v) as [y|] eqn:E; [|discriminate]. rewrite (vlen_of _ _ _ _ H1 E).
  destruct (invalid y) eqn:IV; [discriminate|]. destruct (Nat.eqb_spec (a_len y) 0) as [Z|Z].
  - inversion A; subst. rewrite Z. simpl. erewrite !entry_conts by eauto. reflexivity.
  - destruct (locked y); [discriminate|]. destruct (conts s y) as [old|] eqn:C; inversion A; subst. erewrite put_entry; [|exact H2|reflexivity|apply s_vecs_sv|simpl; eapply conts_nonempty; eauto].
    assert (Ln : (a_len y <= length old)%nat) by exact (@conts_len R w s v y _ H1 E C). rewrite nth_fill by auto. erewrite entry_conts by eauto. rewrite C.
    destruct (Nat.ltb_spec i (a_len y)); auto. rewrite nth_vf by lia. reflexivity.
Qed.
Theorem C06_scale : forall w s v alpha o w', Reach w s -> legal (CScale v alpha) s -> step (CScale v alpha) w = ROk o w' ->
  forall i, entry w' v i = if Nat.ltb i (vlen w v) then option_map (fun a => (a * alpha)%R) (entry w v i) else entry w v i.
Proof. intros w s v alpha o w' Re L H. destruct (ok_step _ _ _ _ _ Re L H) as (s' & A & I & I'). eapply modify_entry; eauto. Qed.
Theorem C06_reciprocal : forall w s v o w', Reach w s -> legal (CRecip v) s -> step (CRecip v) w = ROk o w' ->
  forall i, entry w' v i = if Nat.ltb i (vlen w v) then option_map (fun a => if big a then inv a else a) (entry w v i) else entry w v i.
Proof.
  intros w s v o w' Re L H. destruct (ok_step _ _ _ _ _ Re L H) as (s' & A & I & I'). cbn [VecSpec.astep] in A. unfold s_recip, live in A. destruct (s_vecs s v) as [y|] eqn:E; [|discriminate].
  destruct (invalid y); [discriminate|]. destruct (_ =? 0); [discriminate|]. eapply modify_entry; eauto.
Qed.
Lemma axp_entry : forall w s s' y x f w' o, Inv w s -> Inv w' s' -> s_axp f s y x = AOk o s' -> forall i, entry w' y i = if Nat.ltb i (vlen w y) then map2 f (entry w x i) (entry w y i) else entry w y i.
Proof.
  intros w s s' y x f w' o I I' A i. destruct I as [H1 N1 _]. destruct I' as [H2 _ _]. unfold s_axp, live in A. destruct (s_vecs s y) as [yy|] eqn:E; [|discriminate]. destruct (s_vecs s x) as [xx|] eqn:Ex; [|discriminate].
  rewrite (vlen_of _ _ _ _ H1 E). destruct (Nat.eqb_spec (a_len xx) (a_len yy)) as [Le|]; [|discriminate]. cbn [negb] in A. destruct (Nat.eqb x y); [discriminate|]. destruct (invalid xx || invalid yy); [discriminate|].
  destruct (Nat.eqb_spec (a_len yy) 0) as [Z|Z].
  - inversion A; subst. rewrite Z. simpl. erewrite !entry_conts by eauto. reflexivity.
  - destruct (locked yy); [discriminate|]. destruct (busy xx); [discriminate|]. destruct (many xx); [discriminate|]. destruct (conts s xx) as [lx|] eqn:Cx; [|discriminate]. destruct (conts s yy) as [ly|] eqn:C; inversion A; subst.
    erewrite put_entry; [|exact H2|reflexivity|apply s_vecs_sv|simpl; eapply conts_nonempty; eauto].
    assert (Ln : (a_len yy <= length ly)%nat) by exact (@conts_len R w s y yy _ H1 E C). assert (Lx : (a_len xx <= length lx)%nat) by exact (@conts_len R w s x xx _ H1 Ex Cx).
    rewrite nth_fill by auto. rewrite (entry_conts _ _ _ _ i H1 E), (entry_conts _ _ _ _ i H1 Ex). rewrite C, Cx. destruct (Nat.ltb_spec i (a_len yy)); auto. rewrite !nth_vf by lia. reflexivity.
Qed.
Theorem C06_axpy : forall w s y alpha x o w', Reach w s -> legal (CAxpy y alpha x) s -> step (CAxpy y alpha x) w = ROk o w' ->
  forall i, entry w' y i = if Nat.ltb i (vlen w y) then map2 (fun a b => (b + alpha * a)%R) (entry w x i) (entry w y i) else entry w y i.
Proof. intros w s y alpha x o w' Re L H. destruct (ok_step _ _ _ _ _ Re L H) as (s' & A & I & I'). eapply axp_entry; eauto. Qed.
Theorem C06_axpby : forall w s y alpha beta x o w', Reach w s -> legal (CAxpby y alpha beta x) s -> step (CAxpby y alpha beta x) w = ROk o w' ->
  forall i, entry w' y i = if Nat.ltb i (vlen w y) then map2 (fun a b => (alpha * a + beta * b)%R) (entry w x i) (entry w y i) else entry w y i.
Proof. intros w s y alpha beta x o w' Re L H. destruct (ok_step _ _ _ _ _ Re L H) as (s' & A & I & I'). eapply axp_entry; eauto. Qed.
(** the three vectors may be the same or share arrays in any way *)
Theorem C06_pointwise_mult : forall w s z x y o w', Reach w s -> legal (CMult z x y) s -> step (CMult z x y) w = ROk o w' ->
  forall i, entry w' z i = if Nat.ltb i (vlen w z) then map2 (fun a b => (a * b)%R) (entry w x i) (entry w y i) else entry w z i.
Proof.
  intros w s z x y o w' Re L H i. destruct (ok_step _ _ _ _ _ Re L H) as (s' & A & I & I'). clear Re L H. destruct I as [H1 N1 _]. destruct I' as [H2 _ _]. cbn [VecSpec.astep] in A. unfold s_mult, live in A.
  destruct (s_vecs s z) as [zz|] eqn:E; [|discriminate]. destruct (s_vecs s x) as [xx|] eqn:Ex; [|discriminate]. destruct (s_vecs s y) as [yy|] eqn:Ey; [|discriminate].
  rewrite (vlen_of _ _ _ _ H1 E). destruct (Nat.leb_spec (a_len zz) (a_len xx)) as [L1|]; [|discriminate]. destruct (Nat.leb_spec (a_len zz) (a_len yy)) as [L2|]; [|discriminate]. cbn [negb andb] in A.
  destruct (invalid xx || invalid yy); [discriminate|]. destruct (Nat.eqb_spec (a_len zz) 0) as [Z|Z].
  - inversion A; subst. rewrite Z. simpl. erewrite !entry_conts by eauto. reflexivity.
  - destruct (locked zz); [discriminate|]. cbv zeta in A. destruct (negb (Nat.eqb x z) && busy xx); [discriminate|]. destruct (negb (Nat.eqb x z) && many xx); [discriminate|].
    destruct (negb (Nat.eqb y z) && negb (Nat.eqb y x) && busy yy); [discriminate|]. destruct (negb (Nat.eqb y z) && negb (Nat.eqb y x) && many yy); [discriminate|].
    destruct (conts s xx) as [lx|] eqn:Cx; [|discriminate]. destruct (conts s yy) as [ly|] eqn:Cy; [|discriminate]. rewrite conts_sv in A. destruct (conts s (s_zero zz)) as [lz|] eqn:C; inversion A; subst.
    erewrite put_entry; [|exact H2|reflexivity|apply s_vecs_sv|simpl; eapply conts_nonempty; eauto].
    assert (Lx : (a_len xx <= length lx)%nat) by exact (@conts_len R w s x xx _ H1 Ex Cx). assert (Ly : (a_len yy <= length ly)%nat) by exact (@conts_len R w s y yy _ H1 Ey Cy).
    assert (Q : (a_len zz <= length lz)%nat /\ ((a_cont zz = CEmpty /\ length lz = a_len zz) \/ conts s zz = Some lz)).
    { unfold s_zero in C. destruct (invalid zz) eqn:IV.
      - unfold conts in C. simpl in C. inversion C. rewrite zeros_length. split; auto. left. split; auto. unfold invalid in IV. destruct (a_cont zz); auto; rewrite andb_false_r in IV; discriminate.
      - split; auto. exact (@conts_len R w s z zz _ H1 E C). }
    destruct Q as [Lz Q]. rewrite nth_fill by auto. rewrite (entry_conts _ _ _ _ i H1 E), (entry_conts _ _ _ _ i H1 Ex), (entry_conts _ _ _ _ i H1 Ey). rewrite Cx, Cy.
    destruct (Nat.ltb_spec i (a_len zz)); [rewrite !nth_vf by lia; reflexivity|]. destruct Q as [[Q1 Q2]| ->]; auto. unfold conts. rewrite Q1. apply nth_error_None. lia.
Qed.
Theorem C06_copy : forall w s v u o w', Reach w s -> legal (CCopy v u) s -> step (CCopy v u) w = ROk o w' ->
  forall i, entry w' u i = if Nat.ltb i (vlen w u) then entry w v i else entry w u i.
Proof.
  intros w s v u o w' Re L H i. destruct (ok_step _ _ _ _ _ Re L H) as (s' & A & I & I'). clear Re L H. destruct I as [H1 N1 _]. destruct I' as [H2 _ _]. cbn [VecSpec.astep] in A. unfold s_copy, live in A.
  destruct (s_vecs s v) as [y|] eqn:E; [|discriminate]. destruct (s_vecs s u) as [z|] eqn:Ez; [|discriminate]. rewrite (vlen_of _ _ _ _ H1 Ez).
  destruct (Nat.eqb_spec (a_len y) (a_len z)) as [Le|]; [|discriminate]. cbn [negb] in A. destruct (locked y); [discriminate|]. destruct (invalid y); [discriminate|]. destruct (Nat.eqb_spec v u); [discriminate|]. simpl orb in A.
  destruct (locked z); [discriminate|]. destruct (Nat.eqb_spec (a_len y) 0) as [Z|Z].
  - inversion A; subst. rewrite <- Le, Z. simpl. rewrite (entry_conts _ _ _ _ i H1 Ez). erewrite entry_conts; [|exact H2|apply s_vecs_sv]. rewrite !conts_sv. reflexivity.
  - destruct (same_block y z); [discriminate|]. cbv zeta in A. set (z1 := match a_cont z with CEmpty => ct z (COwn (zeros (a_len z))) | _ => z end) in *. rewrite conts_sv in A. rewrite conts_sv in A. 
    destruct (conts s y) as [l|] eqn:C; [|discriminate]. destruct (conts s (tick z1 2)) as [old|] eqn:Cz; inversion A; subst.
    erewrite put_entry; [|exact H2|reflexivity|apply s_vecs_sv|eapply conts_nonempty; eauto].
    assert (Ll : (a_len y <= length l)%nat) by exact (@conts_len R w s v y _ H1 E C).
    assert (Q : (a_len z <= length old)%nat /\ ((a_cont z = CEmpty /\ length old = a_len z) \/ conts s z = Some old)).
    { unfold z1 in Cz. destruct (a_cont z) eqn:Q; simpl in Cz.
      - unfold conts in Cz. simpl in Cz. inversion Cz. rewrite zeros_length. auto.
      - assert (B : conts s z = Some old) by exact Cz. split; auto. exact (@conts_len R w s u z _ H1 Ez B).
      - assert (B : conts s z = Some old) by exact Cz. split; auto. exact (@conts_len R w s u z _ H1 Ez B). }
    destruct Q as [Lz Q]. rewrite nth_fill by auto. rewrite (entry_conts _ _ _ _ i H1 E), (entry_conts _ _ _ _ i H1 Ez). rewrite C.
    destruct (Nat.ltb_spec i (a_len z)); [rewrite !nth_vf by lia; reflexivity|]. destruct Q as [[Q1 Q2]| ->]; auto. unfold conts. rewrite Q1. apply nth_error_None. lia.
Qed.
(** the entries start, start + step, ... below stop *)
Definition selected (start stop step : Z) (i : nat) : bool := (start <=? Z.of_nat i) && (Z.of_nat i <? stop) && ((Z.of_nat i - start) mod step =? 0).
Lemma sel_eq : forall start stop step i, 0 <= start < stop -> 0 < step ->
  (Nat.leb (Z.to_nat start) i && Nat.ltb i (Z.to_nat stop) && Nat.eqb ((i - Z.to_nat start) mod Z.to_nat step) 0)%bool = selected start stop step i.
Proof.
  intros start stop st i H S. unfold selected. destruct (Nat.leb_spec (Z.to_nat start) i) as [A|A]; destruct (Z.leb_spec start (Z.of_nat i)) as [B|B]; try lia; auto.
  destruct (Nat.ltb_spec i (Z.to_nat stop)) as [C|C]; destruct (Z.ltb_spec (Z.of_nat i) stop) as [D|D]; try lia; auto. simpl.
  replace (Z.of_nat i - start) with (Z.of_nat (i - Z.to_nat start)) by lia. replace st with (Z.of_nat (Z.to_nat st)) at 2 by lia. rewrite <- Nat2Z.inj_mod.
  destruct (Nat.eqb_spec ((i - Z.to_nat start) mod Z.to_nat st) 0); destruct (Z.eqb_spec (Z.of_nat ((i - Z.to_nat start) mod Z.to_nat st)) 0); auto; lia.
Qed.
Lemma sel_none : forall start stop st i, stop <= start -> selected start stop st i = false.
Proof. intros. unfold selected. destruct (Z.leb_spec start (Z.of_nat i)); auto. destruct (Z.ltb_spec (Z.of_nat i) stop); auto; lia. Qed.
Theorem C06_set_value_strided : forall w s v start stop st a o w', Reach w s -> legal (CSetValueStrided v start stop st a) s -> step (CSetValueStrided v start stop st a) w = ROk o w' -> vlen w v <> 0%nat ->
  let stop' := if stop =? -1 then Z.of_nat (vlen w v) else stop in
  forall i, entry w' v i = if selected start stop' st i then Some a else entry w v i.
Proof.
  intros w s v start stop st a o w' Re L H LZ stop' i. destruct (ok_step _ _ _ _ _ Re L H) as (s' & A & I & I'). clear Re L H. destruct I as [H1 N1 _]. destruct I' as [H2 _ _]. cbn [VecSpec.astep] in A. unfold s_set_value_strided, live in A.
  destruct (s_vecs s v) as [y|] eqn:E; [|discriminate]. unfold stop'. rewrite (vlen_of _ _ _ _ H1 E) in *. destruct (locked y); [discriminate|]. cbv zeta in A.
  destruct ((-1 <=? stop) && (stop <=? Z.of_nat (a_len y))) eqn:G; [|discriminate]. cbn [negb] in A. destruct (Nat.eqb_spec (a_len y) 0); [congruence|]. destruct (invalid y); [discriminate|].
  set (sp := if stop =? -1 then Z.of_nat (a_len y) else stop) in *. destruct ((start <? sp) && ((start <? 0) || (st <=? 0))) eqn:G2; [discriminate|].
  destruct (conts s y) as [old|] eqn:C; inversion A; subst. erewrite put_entry; [|exact H2|reflexivity|apply s_vecs_sv|simpl; eapply conts_nonempty; eauto].
  assert (Ln : (a_len y <= length old)%nat) by exact (@conts_len R w s v y _ H1 E C). rewrite (entry_conts _ _ _ _ i H1 E), C.
  assert (Sp : sp <= Z.of_nat (a_len y)) by (unfold sp; destruct (stop =? -1); [lia|apply andb_prop in G; destruct G as [_ G]; apply Z.leb_le in G; auto]).
  destruct (Z.ltb_spec start sp) as [K|K]; [|rewrite sel_none by auto; auto]. simpl in G2. apply orb_false_elim in G2. destruct G2 as [G2 G3]. apply Z.ltb_ge in G2. apply Z.leb_gt in G3.
  rewrite nth_fill_strided by lia. rewrite sel_eq by lia. auto.
Qed.
Theorem C06_copy_strided : forall w s v start stop st u o w', Reach w s -> legal (CCopyStrided v start stop st u) s -> step (CCopyStrided v start stop st u) w = ROk o w' -> vlen w v <> 0%nat -> vlen w u <> 0%nat ->
  let stop' := if stop =? -1 then Z.of_nat (Nat.min (vlen w v) (vlen w u)) else stop in
  forall i, entry w' u i = if selected start stop' st i then entry w v i else entry w u i.
Proof.
  intros w s v start stop st u o w' Re L H LZ LU stop' i. destruct (ok_step _ _ _ _ _ Re L H) as (s' & A & I & I'). clear Re L H. destruct I as [H1 N1 _]. destruct I' as [H2 _ _]. cbn [VecSpec.astep] in A. unfold s_copy_strided, live in A.
  destruct (s_vecs s v) as [y|] eqn:E; [|discriminate]. destruct (s_vecs s u) as [z|] eqn:Ez; [|discriminate]. unfold stop'. rewrite (vlen_of _ _ _ _ H1 E), (vlen_of _ _ _ _ H1 Ez) in *.
  destruct (Nat.eqb_spec (a_len y) 0); [congruence|]. destruct (Nat.eqb_spec (a_len z) 0); [congruence|]. cbn [orb] in A. cbv zeta in A.
  destruct ((-1 <=? stop) && (stop <=? Z.of_nat (Nat.min (a_len y) (a_len z))) && ((0 <=? start) && (start <=? Z.of_nat (Nat.min (a_len y) (a_len z))) && ((start <=? stop) || (stop =? -1)))) eqn:G; [|discriminate]. cbn [negb] in A.
  destruct (busy y); [discriminate|]. destruct (invalid y); [discriminate|]. destruct (many y); [discriminate|]. destruct (Nat.eqb v u || locked z); [discriminate|]. destruct (invalid z); [discriminate|].
  set (sp := if stop =? -1 then Z.of_nat (Nat.min (a_len y) (a_len z)) else stop) in *. destruct ((start <? sp) && (st <=? 0)) eqn:G2; [discriminate|].
  destruct (conts s y) as [l|] eqn:C; [|discriminate]. destruct (conts s z) as [old|] eqn:Cz; inversion A; subst. erewrite put_entry; [|exact H2|reflexivity|apply s_vecs_sv|simpl; eapply conts_nonempty; eauto].
  assert (Ln : (a_len y <= length l)%nat) by exact (@conts_len R w s v y _ H1 E C). assert (Lz : (a_len z <= length old)%nat) by exact (@conts_len R w s u z _ H1 Ez Cz).
  rewrite (entry_conts _ _ _ _ i H1 E), (entry_conts _ _ _ _ i H1 Ez), C, Cz.
  apply andb_prop in G. destruct G as [Ga Gb]. apply andb_prop in Ga. destruct Ga as [_ Ga]. apply Z.leb_le in Ga. apply andb_prop in Gb. destruct Gb as [Gb _]. apply andb_prop in Gb. destruct Gb as [Gb _]. apply Z.leb_le in Gb.
  assert (Sp : sp <= Z.of_nat (Nat.min (a_len y) (a_len z))) by (unfold sp; destruct (stop =? -1); lia).
  destruct (Z.ltb_spec start sp) as [K|K]; [|rewrite sel_none by auto; auto]. simpl in G2. apply Z.leb_gt in G2.
  rewrite nth_fill_strided by lia. rewrite sel_eq by lia. destruct (selected start sp st i) eqn:S; auto. symmetry. apply nth_vf.
  unfold selected in S. apply andb_prop in S. destruct S as [S _]. apply andb_prop in S. destruct S as [_ S]. apply Z.ltb_lt in S. lia.
Qed.
(** the norms, for the values [a_0 ... a_(n-1)] of the vector *)
Theorem C06_norm : forall w s v nt o w', Reach w s -> legal (CNorm v nt) s -> step (CNorm v nt) w = ROk o w' -> exists l, length l = vlen w v /\ (forall i, (i < vlen w v)%nat -> entry w v i = nth_error l i) /\
  o = OVal match nt with
           | Norm1 => fold_left (fun t a => (t + fabs a)%R) l 0%R
           | Norm2 => match l with [] => 0%R | _ => sqrt (fold_left (fun t a => (t + fabs a * fabs a)%R) l 0%R) end
           | NormMax => fold_left (fun t a => if gtb t (fabs a) then t else fabs a) l 0%R
           end.
Proof.
  intros w s v nt o w' Re L H. destruct (ok_step _ _ _ _ _ Re L H) as (s' & A & I & I'). clear Re L H. destruct I as [H1 N1 _]. destruct I' as [H2 _ _]. cbn [VecSpec.astep] in A. unfold s_norm, live in A.
  destruct (s_vecs s v) as [y|] eqn:E; [|discriminate]. rewrite (vlen_of _ _ _ _ H1 E). destruct (invalid y); [discriminate|]. destruct (Nat.eqb_spec (a_len y) 0) as [Z|Z].
  - inversion A; subst. exists []. rewrite Z. split; auto. split; [intros; lia|]. destruct nt; auto.
  - destruct (busy y); [discriminate|]. destruct (many y); [discriminate|]. destruct (conts s y) as [l|] eqn:C; inversion A; subst. assert (Ln : (a_len y <= length l)%nat) by exact (@conts_len R w s' v y _ H1 E C).
    exists (firstn (a_len y) l). split; [rewrite firstn_length; lia|]. split.
    + intros i Hi. rewrite (entry_conts _ _ _ _ i H1 E), C. rewrite <- (firstn_skipn (a_len y) l) at 1. rewrite nth_error_app1; auto. rewrite firstn_length. lia.
    + destruct nt; auto. unfold norm_of. destruct (firstn (a_len y) l) eqn:F; auto. exfalso. assert (Q : length (firstn (a_len y) l) = 0%nat) by (rewrite F; auto). rewrite firstn_length in Q. lia.
Qed.
End P.
Arguments vblock {R}. Arguments entry {R}. Arguments vlen {R}. Arguments modifying {R}. Arguments old {R}.
Print Assumptions C01_exclusive.
Print Assumptions C01_writer_refuses.
Print Assumptions C01_reader_refuses.
Print Assumptions C01_restore_refused.
Print Assumptions C01_readers_share.
Print Assumptions C02_refinement.
Print Assumptions C02_frame.
Print Assumptions C02_set_array_copy.
Print Assumptions C02_set_array_pointer.
Print Assumptions C02_shared_lasts.
Print Assumptions C02_set_value.
Print Assumptions C02_write.
Print Assumptions C02_read.
Print Assumptions C03_no_undefined_behaviour.
Print Assumptions C03_user_kept.
Print Assumptions C03_owned.
Print Assumptions C03_one_owner.
Print Assumptions C03_no_leak.
Print Assumptions C03_given.
Print Assumptions C03_freed_once.
Print Assumptions C04_same_state.
Print Assumptions C04_cache.
Print Assumptions C04_unchanged.
Print Assumptions C05_unchanged.
Print Assumptions C05_contents.
Print Assumptions C06_scale.
Print Assumptions C06_reciprocal.
Print Assumptions C06_axpy.
Print Assumptions C06_axpby.
Print Assumptions C06_pointwise_mult.
Print Assumptions C06_copy.
Print Assumptions C06_set_value_strided.
Print Assumptions C06_copy_strided.
Print Assumptions C06_norm.
