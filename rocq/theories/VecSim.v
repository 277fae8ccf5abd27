(** * One call of the vector code follows one step of the abstract machine *)
From Coq Require Import List ZArith Lia Bool Arith.
From Verif Require Import Prelude RstrModel VecModel VecSpec VecProofs.
Import ListNotations.
Set Implicit Arguments.
Local Open Scope Z_scope.

Section P.
Variable R : Rng.
Notation world := (world R). Notation astate := (astate R). Notation avec := (avec R).

Lemma bind_ok : forall A B (m : M R A) (k : A -> M R B) w a w', m w = ROk a w' -> mbind m k w = k a w'.
Proof. intros; unfold mbind; rewrite H; auto. Qed.
Lemma bind_err : forall A B (m : M R A) (k : A -> M R B) w e w', m w = RErr e w' -> mbind m k w = RErr e w'.
Proof. intros; unfold mbind; rewrite H; auto. Qed.
Lemma getv_run : forall (w : world) v x, w_vecs w v = Some x -> getv v w = ROk x w.
Proof. intros; unfold getv; rewrite H; auto. Qed.
Lemma bump_run : forall (w : world) v x k, w_vecs w v = Some x -> bump v k w = ROk tt (setv w v (Some (with_state x (add64 (v_state x) k)))).
Proof. intros. unfold bump. erewrite bind_ok by (apply getv_run; eauto). reflexivity. Qed.

Lemma vrel_busy : forall w s v x y, @vrel R w s v x y -> even (v_state x) = negb (busy y).
Proof. intros w s v x y (_ & -> & _). rewrite even_mod. unfold busy. rewrite negb_involutive. auto. Qed.
Lemma unlocked_run : forall (w : world) (s : astate) v (y : avec), Rel w s -> s_vecs s v = Some y -> unlocked v w = if locked y then RErr ERR_ACCESS w else ROk tt w.
Proof.
  intros w s v y H E. destruct (r_look v H E) as (x & Ex & HV). unfold unlocked. erewrite bind_ok by (apply getv_run; eauto).
  rewrite (vrel_busy HV). destruct HV as (_ & _ & -> & _). unfold locked. destruct (busy y); simpl; auto.
  unfold check. destruct (a_readers y =? 0); auto.
Qed.
Lemma locked_wg : forall (w : world) (s : astate) v (y : avec), Rel w s -> s_vecs s v = Some y -> locked y = false -> a_wg y = false /\ a_rg y = false /\ even (a_clock y) = true /\ a_readers y = 0.
Proof.
  intros w s v y H E L. destruct (r_look v H E) as (x & Ex & HV). destruct HV as (_ & _ & _ & _ & _ & _ & W & G).
  unfold locked, busy in L. apply orb_false_iff in L. destruct L as (L1 & L2). apply negb_false_iff in L1, L2. apply Z.eqb_eq in L2.
  repeat split; auto.
  - destruct (a_wg y); auto. destruct (W eq_refl). congruence.
  - destruct (a_rg y); auto. destruct (G eq_refl). lia.
Qed.
Lemma busy_wg : forall (w : world) (s : astate) v (y : avec), Rel w s -> s_vecs s v = Some y -> busy y = false -> a_wg y = false /\ even (a_clock y) = true.
Proof.
  intros w s v y H E L. destruct (r_look v H E) as (x & Ex & HV). destruct HV as (_ & _ & _ & _ & _ & _ & W & G).
  unfold busy in L. apply negb_false_iff in L. split; auto. destruct (a_wg y); auto. destruct (W eq_refl). congruence.
Qed.
Lemma even_S : forall z, even (z + 1) = negb (even z).
Proof. intro. unfold even. destruct (Z.eqb_spec (z mod 2) 0), (Z.eqb_spec ((z + 1) mod 2) 0); auto; exfalso;
  pose proof (Z.div_mod z 2); pose proof (Z.div_mod (z+1) 2); pose proof (Z.mod_pos_bound z 2); pose proof (Z.mod_pos_bound (z+1) 2); lia. Qed.

(** calls that leave arrays and memory alone *)
Definition same (w w' : world) : Prop :=
  (forall u, arr w' u = arr w u) /\ w_heap w' = w_heap w /\ w_wptr w' = w_wptr w /\ w_rptr w' = w_rptr w.
Lemma same_refl : forall w, same w w. Proof. repeat split; auto. Qed.
Lemma same_trans : forall w1 w2 w3, same w1 w2 -> same w2 w3 -> same w1 w3.
Proof. unfold same; intuition; etransitivity; eauto. Qed.
Lemma same_setv : forall (w : world) v x x', w_vecs w v = Some x -> v_array x' = v_array x -> same w (setv w v (Some x')).
Proof.
  intros. repeat split; auto. intro u. unfold arr; simpl. unfold nupd. destruct (Nat.eqb_spec u v); auto. subst. rewrite H. auto.
Qed.
Lemma s_vecs_sv : forall (s : astate) v y, s_vecs (sv s v y) v = Some y.
Proof. intros; simpl; apply nupd_same. Qed.
Lemma s_vecs_sv' : forall (s : astate) v y u, u <> v -> s_vecs (sv s v y) u = s_vecs s u.
Proof. intros; simpl; apply nupd_other; auto. Qed.

(** the state after sequences of updates *)
Lemma sv_sv : forall (s : astate) v y y', seqv (sv (sv s v y) v y') (sv s v y').
Proof. intros. repeat split; auto. intro u. simpl. unfold nupd. destruct (Nat.eqb u v); auto. Qed.
Lemma sv_id : forall (s : astate) v y, s_vecs s v = Some y -> seqv (sv s v y) s.
Proof. intros. repeat split; auto. intro u. simpl. unfold nupd. destruct (Nat.eqb_spec u v); auto. subst; auto. Qed.
Lemma sv_comm : forall (s : astate) v u y z, v <> u -> seqv (sv (sv s v y) u z) (sv (sv s u z) v y).
Proof. intros. repeat split; auto. intro k. simpl. unfold nupd. destruct (Nat.eqb_spec k v), (Nat.eqb_spec k u); auto; congruence. Qed.
Lemma seqv_trans : forall s1 s2 s3 : astate, seqv s1 s2 -> seqv s2 s3 -> seqv s1 s3.
Proof. unfold seqv; intuition (try congruence); etransitivity; eauto. Qed.
Lemma seqv_sym : forall s1 s2 : astate, seqv s1 s2 -> seqv s2 s1.
Proof. unfold seqv; intuition congruence. Qed.
Lemma sv_cong : forall (s s' : astate) v y, seqv s s' -> seqv (sv s v y) (sv s' v y).
Proof. intros s s' v y (A & B & C & D). repeat split; auto. intro k. simpl. unfold nupd. destruct (Nat.eqb k v); auto. Qed.
Lemma Rel_seqv : forall (w : world) s s', Rel w s -> seqv s s' -> Rel w s'.
Proof. intros. eapply Rel_eq; eauto using weq_refl. Qed.
Lemma Rel_weq : forall (w w' : world) s, Rel w s -> weq w' w -> Rel w' s.
Proof. intros. eapply Rel_eq; eauto using seqv_refl, weq_sym. Qed.
Lemma conts_seqv : forall (s s' : astate) y, seqv s s' -> conts s y = conts s' y.
Proof. intros s s' y (_ & B & _). unfold conts. destruct (a_cont y); auto. Qed.

(** *** access *)
Definition bad (y : avec) (host : bool) : bool := invalid y || (negb (Nat.eqb (a_len y) 0) && negb host).

Lemma arr_isSome : forall (w : world) (s : astate) v (y : avec) x, Rel w s -> s_vecs s v = Some y -> w_vecs w v = Some x -> isSome (v_array x) = match a_cont y with CEmpty => false | _ => true end.
Proof.
  intros w s v y x H E Ex. destruct (r_look v H E) as (x' & Ex' & HV). rewrite Ex in Ex'; inversion Ex'; subst x'.
  destruct HV as (_ & _ & _ & _ & _ & HC & _). unfold crel in HC. destruct (a_cont y).
  - destruct HC as (_ & _ & ->); auto.
  - destruct HC as (a & _ & _ & -> & _); auto.
  - destruct HC as (_ & _ & -> & _); auto.
Qed.

Lemma has_valid_run : forall (w : world) (s : astate) v (y : avec), Rel w s -> s_vecs s v = Some y -> has_valid v w = ROk (negb (invalid y)) w.
Proof.
  intros w s v y H E. destruct (r_look v H E) as (x & Ex & HV). unfold has_valid. erewrite bind_ok by (apply getv_run; eauto).
  unfold ret. f_equal. rewrite (arr_isSome v H E Ex). destruct HV as (-> & _). unfold invalid.
  destruct (Nat.eqb (a_len y) 0); simpl; auto. destruct (a_cont y); auto.
Qed.
Lemma core_run : forall (w : world) (s : astate) v (y : avec) host, Rel w s -> s_vecs s v = Some y ->
  (if pos (a_len y) then mbind (has_valid v) (fun h => mbind (check h ERR_BACKEND) (fun _ => get_core_ref v host)) else ret None) w =
  if bad y host then RErr ERR_BACKEND w else ROk (arr w v) w.
Proof.
  intros w s v y host H E. destruct (r_look v H E) as (x & Ex & HV). unfold pos, bad.
  destruct (Nat.eqb_spec (a_len y) 0) as [L|L].
  - rewrite L. simpl. destruct (Rel_empty v H E L) as (C & A). unfold invalid. rewrite L. simpl. rewrite A. reflexivity.
  - replace (0 <? a_len y)%nat with true by (symmetry; apply Nat.ltb_lt; lia). erewrite bind_ok by (eapply has_valid_run; eauto).
    unfold get_core_ref. destruct (invalid y); simpl; [reflexivity|]. destruct host; simpl; [|reflexivity].
    unfold mbind, check, ret. unfold getv. rewrite Ex. unfold arr. rewrite Ex. reflexivity.
Qed.

Lemma get_locked : forall (w : world) (s : astate) v (y : avec) host, Rel w s -> s_vecs s v = Some y -> locked y = true -> vec_get_array v host w = RErr ERR_ACCESS w.
Proof. intros w s v y host H E L. unfold vec_get_array. apply bind_err. erewrite unlocked_run; eauto. rewrite L. auto. Qed.
Lemma get_bad : forall (w : world) (s : astate) v (y : avec) host, Rel w s -> s_vecs s v = Some y -> locked y = false -> bad y host = true -> vec_get_array v host w = RErr ERR_BACKEND w.
Proof.
  intros w s v y host H E L B. unfold vec_get_array. erewrite bind_ok by (erewrite unlocked_run by eauto; rewrite L; reflexivity).
  destruct (r_look v H E) as (x & Ex & HV). erewrite bind_ok by (apply getv_run; eauto). apply bind_err.
  destruct HV as (-> & _). erewrite core_run; eauto. rewrite B; auto.
Qed.
Lemma get_ok : forall (w : world) (s : astate) v (y : avec) host, Rel w s -> s_vecs s v = Some y -> locked y = false -> bad y host = false ->
  exists w', vec_get_array v host w = ROk (arr w v) w' /\ Rel w' (sv s v (tick y 1)) /\ same w w'.
Proof.
  intros w s v y host H E L B. unfold vec_get_array. erewrite bind_ok by (erewrite unlocked_run by eauto; rewrite L; reflexivity).
  destruct (r_look v H E) as (x & Ex & HV). erewrite bind_ok by (apply getv_run; eauto).
  destruct HV as (V1 & V2 & V3 & V4 & V5 & V6 & V7 & V8). rewrite V1. erewrite bind_ok by (erewrite core_run by eauto; rewrite B; reflexivity).
  erewrite bind_ok by (apply bump_run; eauto). eexists. split; [reflexivity|]. destruct (locked_wg v H E L) as (W & G & _ & _). split.
  - eapply Rel_counters with (y' := tick y 1); eauto; simpl; try congruence; try lia.
    + rewrite V2. apply add64_mod.
  - eapply same_setv; eauto.
Qed.
Lemma read_busy : forall (w : world) (s : astate) v (y : avec) host, Rel w s -> s_vecs s v = Some y -> busy y = true -> vec_get_read v host w = RErr ERR_ACCESS w.
Proof.
  intros w s v y host H E L. unfold vec_get_read. destruct (r_look v H E) as (x & Ex & HV). erewrite bind_ok by (apply getv_run; eauto).
  apply bind_err. rewrite (vrel_busy HV), L. auto.
Qed.
Lemma read_bad : forall (w : world) (s : astate) v (y : avec) host, Rel w s -> s_vecs s v = Some y -> busy y = false -> bad y host = true -> vec_get_read v host w = RErr ERR_BACKEND w.
Proof.
  intros w s v y host H E L B. unfold vec_get_read. destruct (r_look v H E) as (x & Ex & HV). erewrite bind_ok by (apply getv_run; eauto).
  erewrite bind_ok by (rewrite (vrel_busy HV), L; reflexivity). apply bind_err. destruct HV as (-> & _). erewrite core_run; eauto. rewrite B; auto.
Qed.
Lemma many_lt : forall y : avec, many y = false -> a_readers y + 1 < two64.
Proof. intros y H. unfold many in H. apply Z.leb_gt in H. auto. Qed.
Lemma read_ok : forall (w : world) (s : astate) v (y : avec) host, Rel w s -> s_vecs s v = Some y -> busy y = false -> bad y host = false -> many y = false ->
  exists w', vec_get_read v host w = ROk (arr w v) w' /\ Rel w' (sv s v (rd y 1)) /\ same w w'.
Proof.
  intros w s v y host H E L B MA. unfold vec_get_read. destruct (r_look v H E) as (x & Ex & HV). erewrite bind_ok by (apply getv_run; eauto).
  erewrite bind_ok by (rewrite (vrel_busy HV), L; reflexivity). destruct HV as (V1 & V2 & V3 & V4 & V5 & V6 & V7 & V8).
  rewrite V1. erewrite bind_ok by (erewrite core_run by eauto; rewrite B; reflexivity). erewrite bind_ok by (apply getv_run; eauto).
  erewrite bind_ok by reflexivity. eexists. split; [reflexivity|]. destruct (busy_wg v H E L) as (W & _). apply many_lt in MA.
  assert (Q: add64 (v_readers x) 1 = a_readers y + 1) by (unfold add64; rewrite V3; apply Z.mod_small; lia).
  split.
  - eapply Rel_counters with (y' := rd y 1); eauto; simpl; try congruence; try lia.
    + intro Q'. destruct (V8 Q'). split; auto. lia.
  - eapply same_setv; eauto.
Qed.
Lemma restore_ok : forall (w : world) (s : astate) v (y : avec), Rel w s -> s_vecs s v = Some y -> busy y = true ->
  exists w', vec_restore v w = ROk tt w' /\ Rel w' (sv s v (wg (tick y 1) false)) /\ same w w'.
Proof.
  intros w s v y H E L. unfold vec_restore. destruct (r_look v H E) as (x & Ex & HV). erewrite bind_ok by (apply getv_run; eauto).
  erewrite bind_ok by (rewrite (vrel_busy HV), L; reflexivity). destruct HV as (V1 & V2 & V3 & V4 & V5 & V6 & V7 & V8).
  erewrite bump_run by eauto. eexists. split; [reflexivity|]. split.
  - eapply Rel_counters with (y' := wg (tick y 1) false); eauto; simpl; try congruence; try lia.
    rewrite V2. apply add64_mod.
  - eapply same_setv; eauto.
Qed.
Lemma restore_err : forall (w : world) (s : astate) v (y : avec), Rel w s -> s_vecs s v = Some y -> busy y = false -> vec_restore v w = RErr ERR_ACCESS w.
Proof.
  intros w s v y H E L. unfold vec_restore. destruct (r_look v H E) as (x & Ex & HV). erewrite bind_ok by (apply getv_run; eauto).
  apply bind_err. rewrite (vrel_busy HV), L. auto.
Qed.
Lemma restore_read_ok : forall (w : world) (s : astate) v (y : avec), Rel w s -> s_vecs s v = Some y -> 0 < a_readers y ->
  exists w', vec_restore_read v w = ROk tt w' /\ Rel w' (sv s v (rg (rd y (-1)) (a_rg y && (1 <? a_readers y)))) /\ same w w'.
Proof.
  intros w s v y H E L. unfold vec_restore_read. destruct (r_look v H E) as (x & Ex & HV). erewrite bind_ok by (apply getv_run; eauto).
  destruct HV as (V1 & V2 & V3 & V4 & V5 & V6 & V7 & V8).
  erewrite bind_ok by (rewrite V3; rewrite (proj2 (Z.ltb_lt _ _) L); reflexivity).
  eexists. split; [reflexivity|].
  assert (Q: add64 (v_readers x) (-1) = a_readers y - 1) by (unfold add64; rewrite V3; apply Z.mod_small; lia). split.
  - eapply Rel_counters with (y' := rg (rd y (-1)) (a_rg y && (1 <? a_readers y))); eauto; simpl; try congruence; try lia.
    + intro Q'. apply andb_prop in Q'. destruct Q' as (Q1 & Q2). apply Z.ltb_lt in Q2. destruct (V8 Q1). split; auto. lia.
  - eapply same_setv; eauto.
Qed.
Lemma restore_read_err : forall (w : world) (s : astate) v (y : avec), Rel w s -> s_vecs s v = Some y -> (0 <? a_readers y) = false -> vec_restore_read v w = RErr ERR_ACCESS w.
Proof.
  intros w s v y H E L. unfold vec_restore_read. destruct (r_look v H E) as (x & Ex & HV). erewrite bind_ok by (apply getv_run; eauto).
  apply bind_err. destruct HV as (_ & _ & -> & _). rewrite L. auto.
Qed.

(** *** memory *)
Definition hp (w : world) (a : addr) : list R := match w_heap w a with Some l => l | None => [] end.
Lemma loads_run : forall (w : world) srcs i, (forall a, In a srcs -> exists l, w_heap w a = Some l /\ (i < length l)%nat) ->
  loads (map Some srcs) (Z.of_nat i) w = ROk (map (fun a => vf (hp w a) i) srcs) w.
Proof.
  intros w srcs i. induction srcs as [|a srcs IH]; intro H; simpl; auto.
  destruct (H a (or_introl eq_refl)) as (l & El & Hl). erewrite bind_ok.
  2:{ unfold load. rewrite El. unfold getZ. replace (Z.of_nat i <? 0) with false by (symmetry; apply Z.ltb_ge; lia).
      rewrite Nat2Z.id. rewrite (get_Some _ 0%R Hl). reflexivity. }
  erewrite bind_ok by (apply IH; intros; apply H; right; auto). unfold ret. unfold vf at 2. unfold hp at 2. rewrite El. reflexivity.
Qed.
Lemma store_run : forall (w : world) a l i x, w_heap w a = Some l -> (i < length l)%nat -> store (Some a) (Z.of_nat i) x w = ROk tt (seth w a (Some (upd l i x))).
Proof.
  intros w a l i x E L. unfold store. rewrite E. unfold setZ. replace (Z.of_nat i <? 0) with false by (symmetry; apply Z.ltb_ge; lia).
  rewrite Nat2Z.id, set_Some by auto. reflexivity.
Qed.
Lemma seth_seth : forall (w : world) a l l', weq (seth (seth w a l) a l') (seth w a l').
Proof. intros. repeat split; auto. intro b. simpl. unfold hupd. destruct (addr_eqb b a); auto. Qed.
Lemma seth_id : forall (w : world) a l, w_heap w a = Some l -> weq w (seth w a (Some l)).
Proof. intros. repeat split; auto. intro b. simpl. unfold hupd. destruct (addr_eqb_spec b a); auto. subst; auto. Qed.
Lemma seth_cong : forall (w w' : world) a l, weq w w' -> weq (seth w a l) (seth w' a l).
Proof. intros w w' a l (A & B & C). repeat split; try apply C; auto. intro b. simpl. unfold hupd. destruct (addr_eqb b a); auto. Qed.

Lemma vf_upd_other : forall (l : list R) i x j, j <> i -> vf (upd l i x) j = vf l j.
Proof.
  intros l i x j N. unfold vf. rewrite nth_upd. destruct (Nat.eqb_spec j i); [contradiction|]. auto.
Qed.
Lemma vf_upd_same : forall (l : list R) i x, (i < length l)%nat -> vf (upd l i x) i = x.
Proof. intros. rewrite vf_upd by auto. rewrite Nat.eqb_refl. auto. Qed.

(** entries selected by [sel] replaced by [g] *)
Definition upds (sel : nat -> bool) (g : nat -> R) (l : list R) : list R := map (fun j => if sel j then g j else vf l j) (seq 0 (length l)).
Lemma upds_length : forall sel g l, length (upds sel g l) = length l.
Proof. intros; unfold upds; rewrite map_length, seq_length; auto. Qed.
Lemma vf_upds : forall sel g l j, (j < length l)%nat -> vf (upds sel g l) j = if sel j then g j else vf l j.
Proof. intros. unfold upds. rewrite vf_map_seq by auto. auto. Qed.
Lemma upds_ext : forall sel sel' g g' l, (forall j, (j < length l)%nat -> sel j = sel' j) -> (forall j, (j < length l)%nat -> sel j = true -> g j = g' j) -> upds sel g l = upds sel' g' l.
Proof.
  intros. unfold upds. apply map_ext_in. intros j Hj. apply in_seq in Hj. rewrite <- H by lia. destruct (sel j) eqn:E; auto. apply H0; auto; lia.
Qed.
Lemma upds_none : forall sel g l, (forall j, (j < length l)%nat -> sel j = false) -> upds sel g l = l.
Proof. intros. apply vf_ext; [apply upds_length|]. intros j Hj. rewrite upds_length in Hj. rewrite vf_upds, H by auto. auto. Qed.
Lemma fill_upds : forall n (g : nat -> R) l, (n <= length l)%nat -> fill n g l = upds (fun j => Nat.ltb j n) g l.
Proof.
  intros n g l H. apply vf_ext.
  - rewrite upds_length. unfold fill. rewrite app_length, map_length, seq_length, skipn_length. lia.
  - intros j Hj. unfold fill in *. rewrite app_length, map_length, seq_length, skipn_length in Hj. rewrite vf_upds by lia.
    unfold vf. destruct (Nat.ltb_spec j n).
    + rewrite app_nth1 by (rewrite map_length, seq_length; auto). rewrite nth_map_seq by auto. auto.
    + rewrite app_nth2 by (rewrite map_length, seq_length; auto). rewrite map_length, seq_length. rewrite <- (firstn_skipn n l) at 2.
      rewrite app_nth2 by (rewrite firstn_length; lia). rewrite firstn_length. f_equal. lia.
Qed.
Lemma fill_length : forall n (g : nat -> R) l, (n <= length l)%nat -> length (fill n g l) = length l.
Proof. intros. rewrite fill_upds, upds_length; auto. Qed.

(** one pass over indices, reading only index [i] before writing index [i] *)
Lemma emap_run : forall d srcs (f : list R -> R) m i (w : world) ld,
  w_heap w d = Some ld -> (i + m <= length ld)%nat -> (forall a, In a srcs -> exists l, w_heap w a = Some l /\ (i + m <= length l)%nat) ->
  exists w', mfor m i (fun i => mbind (loads (map Some srcs) (Z.of_nat i)) (fun xs => store (Some d) (Z.of_nat i) (f xs))) w = ROk tt w' /\
    weq w' (seth w d (Some (upds (fun j => Nat.leb i j && Nat.ltb j (i + m)) (fun j => f (map (fun a => vf (hp w a) j) srcs)) ld))).
Proof.
  intros d srcs f m. induction m as [|m IH]; intros i w ld Hd Hn Hs.
  - simpl. exists w. split; auto. rewrite upds_none; [apply seth_id; auto|]. intros j _. destruct (Nat.leb_spec i j), (Nat.ltb_spec j (i + 0)); auto; lia.
  - simpl. set (x := f (map (fun a => vf (hp w a) i) srcs)).
    erewrite bind_ok.
    2:{ erewrite bind_ok by (apply loads_run; intros a Ha; destruct (Hs a Ha) as (l & ? & ?); exists l; split; auto; lia).
        apply store_run; eauto. lia. }
    fold x. set (w1 := seth w d (Some (upd ld i x))).
    assert (Hd1: w_heap w1 d = Some (upd ld i x)) by (simpl; apply hupd_same).
    destruct (IH (S i) w1 (upd ld i x) Hd1) as (w' & E & Q).
    + rewrite upd_length. lia.
    + intros a Ha. destruct (Hs a Ha) as (l & El & Hl). destruct (addr_eqb_spec a d) as [->|N].
      * exists (upd ld i x). split; auto. rewrite upd_length. lia.
      * exists l. split; [simpl; rewrite hupd_other; auto|lia].
    + exists w'. split; auto. eapply weq_trans; eauto. eapply weq_trans; [apply seth_seth|].
      match goal with |- weq (seth w d (Some ?a)) (seth w d (Some ?b)) => replace a with b; [apply weq_refl|] end.
      apply vf_ext; [rewrite !upds_length, upd_length; auto|]. intros j Hj. rewrite upds_length in Hj.
      rewrite !vf_upds by (rewrite ?upd_length; auto).
      assert (SAME: forall a, In a srcs -> j <> i -> vf (hp w1 a) j = vf (hp w a) j).
      { intros a Ha Nj. unfold hp. simpl. destruct (addr_eqb_spec a d) as [->|N].
        - rewrite hupd_same, Hd. apply vf_upd_other; auto.
        - rewrite hupd_other; auto. }
      replace (S i + m)%nat with (i + S m)%nat by lia.
      destruct (Nat.leb_spec i j), (Nat.ltb_spec j (i + S m)), (Nat.leb_spec (S i) j); simpl; try lia;
        try (rewrite vf_upd_other by lia; auto; fail).
      * f_equal. apply map_ext_in. intros a Ha. symmetry. apply SAME; auto; lia.
      * assert (j = i) by lia. subst j. rewrite vf_upd_same by lia. auto.
Qed.
Lemma emap_ok : forall d srcs (f : list R -> R) n (w : world) ld,
  w_heap w d = Some ld -> (n <= length ld)%nat -> (forall a, In a srcs -> exists l, w_heap w a = Some l /\ (n <= length l)%nat) ->
  exists w', emap n (Some d) (map Some srcs) f w = ROk tt w' /\
    weq w' (seth w d (Some (fill n (fun j => f (map (fun a => vf (hp w a) j) srcs)) ld))).
Proof.
  intros d srcs f n w ld Hd Hn Hs. destruct (emap_run d srcs f n 0 w Hd Hn Hs) as (w' & E & Q).
  exists w'. split; auto. rewrite fill_upds by auto. erewrite upds_ext; [exact Q| |auto]. intros j Hj. simpl. auto.
Qed.
Lemma strided_run : forall d srcs (f : list R -> R) (step : nat), (0 < step)%nat -> forall fuel i stop (w : world) ld,
  w_heap w d = Some ld -> (stop <= length ld)%nat -> (stop - i <= fuel)%nat -> (forall a, In a srcs -> exists l, w_heap w a = Some l /\ (stop <= length l)%nat) ->
  exists w', strided fuel (Z.of_nat i) (Z.of_nat stop) (Z.of_nat step) (Some d) (map Some srcs) f w = ROk tt w' /\
    weq w' (seth w d (Some (upds (fun j => Nat.leb i j && Nat.ltb j stop && Nat.eqb ((j - i) mod step) 0) (fun j => f (map (fun a => vf (hp w a) j) srcs)) ld))).
Proof.
  intros d srcs f step Hst fuel. induction fuel as [|fuel IH]; intros i stop w ld Hd Hn Hf Hs.
  - simpl. replace (Z.of_nat i <? Z.of_nat stop) with false by (symmetry; apply Z.ltb_ge; lia). exists w. split; auto.
    rewrite upds_none; [apply seth_id; auto|]. intros j _. destruct (Nat.leb_spec i j), (Nat.ltb_spec j stop); auto; lia.
  - simpl. destruct (Z.ltb_spec (Z.of_nat i) (Z.of_nat stop)) as [L|L].
    2:{ exists w. split; auto. rewrite upds_none; [apply seth_id; auto|]. intros j _. destruct (Nat.leb_spec i j), (Nat.ltb_spec j stop); auto; lia. }
    set (x := f (map (fun a => vf (hp w a) i) srcs)).
    erewrite bind_ok by (apply loads_run; intros a Ha; destruct (Hs a Ha) as (l & ? & ?); exists l; split; auto; lia).
    erewrite bind_ok by (apply store_run; [eauto|lia]).
    fold x. set (w1 := seth w d (Some (upd ld i x))).
    assert (Hd1: w_heap w1 d = Some (upd ld i x)) by (simpl; apply hupd_same).
    rewrite <- Nat2Z.inj_add.
    destruct (IH (i + step)%nat stop w1 (upd ld i x) Hd1) as (w' & E & Q).
    + rewrite upd_length. lia.
    + lia.
    + intros a Ha. destruct (Hs a Ha) as (l & El & Hl). destruct (addr_eqb_spec a d) as [->|N].
      * exists (upd ld i x). split; auto. rewrite upd_length. lia.
      * exists l. split; [simpl; rewrite hupd_other; auto|lia].
    + exists w'. split; auto. eapply weq_trans; eauto. eapply weq_trans; [apply seth_seth|].
      match goal with |- weq (seth w d (Some ?a)) (seth w d (Some ?b)) => replace a with b; [apply weq_refl|] end.
      apply vf_ext; [rewrite !upds_length, upd_length; auto|]. intros j Hj. rewrite upds_length in Hj.
      rewrite !vf_upds by (rewrite ?upd_length; auto).
      assert (SAME: forall a, In a srcs -> j <> i -> vf (hp w1 a) j = vf (hp w a) j).
      { intros a Ha Nj. unfold hp. simpl. destruct (addr_eqb_spec a d) as [->|N].
        - rewrite hupd_same, Hd. apply vf_upd_other; auto.
        - rewrite hupd_other; auto. }
      destruct (Nat.ltb_spec j stop) as [Ls|Ls]; [|rewrite !andb_false_r; simpl; rewrite vf_upd_other by lia; auto]. rewrite !andb_true_r.
      destruct (Nat.eq_dec j i) as [->|N].
      * rewrite (proj2 (Nat.leb_gt (i + step) i)) by lia. rewrite Nat.leb_refl, Nat.sub_diag, Nat.mod_0_l by lia. simpl. rewrite vf_upd_same by lia. auto.
      * rewrite vf_upd_other by auto. destruct (Nat.leb_spec (i + step) j) as [L1|L1].
        -- rewrite (proj2 (Nat.leb_le i j)) by lia. simpl. replace (j - i)%nat with (j - (i + step) + 1 * step)%nat by lia. rewrite Nat.mod_add by lia.
           destruct (Nat.eqb ((j - (i + step)) mod step) 0); auto. f_equal. apply map_ext_in. intros a Ha. symmetry. apply SAME; auto.
        -- destruct (Nat.leb_spec i j); auto. simpl. rewrite Nat.mod_small by lia. destruct (Nat.eqb_spec (j - i) 0); auto; lia.
Qed.
Lemma smap_ok : forall d srcs (f : list R -> R) start stop step (w : world) ld, 0 <= start -> 0 < step \/ stop <= start -> stop <= Z.of_nat (length ld) ->
  w_heap w d = Some ld -> (forall a, In a srcs -> exists l, w_heap w a = Some l /\ stop <= Z.of_nat (length l)) ->
  exists w', smap start stop step (Some d) (map Some srcs) f w = ROk tt w' /\
    weq w' (seth w d (Some (if start <? stop then fill_strided (Z.to_nat start) (Z.to_nat stop) (Z.to_nat step) (fun j => f (map (fun a => vf (hp w a) j) srcs)) ld else ld))).
Proof.
  intros d srcs f start stop step w ld H0 Hst Hl Hd Hs. unfold smap. destruct (Z.ltb_spec start stop) as [L|L].
  - destruct Hst as [Hst|]; [|lia].
    destruct (@strided_run d srcs f (Z.to_nat step) ltac:(lia) (Z.to_nat (stop - start)) (Z.to_nat start) (Z.to_nat stop) w ld Hd ltac:(lia) ltac:(lia)) as (w' & E & Q).
    { intros a Ha. destruct (Hs a Ha) as (l & ? & ?). exists l. split; auto. lia. }
    rewrite !Z2Nat.id in E by lia. exists w'. split; auto.
  - exists w. split; [|apply seth_id; auto]. destruct (Z.to_nat (stop - start)); simpl; replace (start <? stop) with false by (symmetry; apply Z.ltb_ge; lia); auto.
Qed.
Lemma norm_run : forall fabs gtb nt a l n i s (w : world), w_heap w a = Some l -> (i + n <= length l)%nat ->
  norm_loop fabs gtb nt (Some a) n i s w = ROk (fold_left (fun s y => match nt with
             | Norm1 => (s + fabs y)%R
             | Norm2 => (s + fabs y * fabs y)%R
             | NormMax => if gtb s (fabs y) then s else fabs y
             end) (firstn n (skipn i l)) s) w.
Proof.
  intros fabs gtb nt a l n. induction n as [|n IH]; intros i s w E L; [reflexivity|]. cbn [norm_loop].
  erewrite bind_ok.
  2:{ unfold load. rewrite E. unfold getZ. replace (Z.of_nat i <? 0) with false by (symmetry; apply Z.ltb_ge; lia).
      rewrite Nat2Z.id, (get_Some _ 0%R) by lia. reflexivity. }
  rewrite IH by (auto; lia).
  replace (skipn i l) with (nth i l 0%R :: skipn (S i) l); [reflexivity|].
  clear -L. revert l L. induction i; intros [|b l] L; simpl in *; try lia; auto. rewrite <- IHi by lia. auto.
Qed.
End P.
