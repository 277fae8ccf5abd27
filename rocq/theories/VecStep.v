(** * Every call and every history of the vector code follows the abstract machine *)
From Coq Require Import List ZArith Lia Bool Arith.
From Verif Require Import Prelude RstrModel VecModel VecSpec VecProofs VecSim.
Import ListNotations.
Set Implicit Arguments.
Local Open Scope Z_scope.

Section P.
Variable R : Rng.
Notation world := (world R). Notation astate := (astate R). Notation avec := (avec R).

Definition sim (ao : aout R) (o : out R (obs R)) : Prop :=
  match ao, o with
  | AIll, _ => True
  | AOk b s', ROk b' w' => b = b' /\ Rel w' s'
  | AErr e s', RErr e' w' => e = e' /\ Rel w' s'
  | _, _ => False
  end.
Lemma done_ok : forall A (m : M R A) w a w', m w = ROk a w' -> done m w = ROk ODone w'.
Proof. intros. unfold done. erewrite bind_ok by eauto. reflexivity. Qed.
Lemma done_err : forall A (m : M R A) w e w', m w = RErr e w' -> done m w = RErr e w'.
Proof. intros. unfold done. erewrite bind_err by eauto. reflexivity. Qed.
Lemma sim_done : forall A (m : M R A) w a w' s', m w = ROk a w' -> Rel w' s' -> sim (AOk ODone s') (done m w).
Proof. intros. erewrite done_ok by eauto. simpl. auto. Qed.
Lemma sim_fail : forall A (m : M R A) w e w' s', m w = RErr e w' -> Rel w' s' -> sim (AErr e s') (done m w).
Proof. intros. erewrite done_err by eauto. simpl. auto. Qed.

(** ** contents *)
Definition newc (y : avec) (l : list R) : avec := match a_cont y with COwn _ => ct y (COwn l) | _ => y end.
Lemma s_vecs_putc : forall (s : astate) v y l, s_vecs s v = Some y -> s_vecs (putc s v y l) v = Some (newc y l).
Proof. intros. unfold putc, newc. destruct (a_cont y); auto. apply s_vecs_sv. Qed.
Lemma s_vecs_putc' : forall (s : astate) v y l u, u <> v -> s_vecs (putc s v y l) u = s_vecs s u.
Proof. intros. unfold putc. destruct (a_cont y); auto. apply s_vecs_sv'; auto. Qed.
Lemma putc_sv : forall (f : avec -> avec) (s : astate) v y l, (forall c, ct (f y) c = f (ct y c)) -> a_cont (f y) = a_cont y -> s_vecs s v = Some y ->
  seqv (sv (putc s v y l) v (f (newc y l))) (putc (sv s v (f y)) v (f y) l).
Proof.
  intros f s v y l C E V. unfold putc, newc. rewrite E. destruct (a_cont y) eqn:Q.
  - apply seqv_refl.
  - rewrite C. repeat split; auto. intro k. simpl. unfold nupd. destruct (Nat.eqb k v); auto.
  - repeat split; auto.
Qed.
Lemma putc_sv' : forall (s : astate) v y l u z, u <> v -> seqv (sv (putc s v y l) u z) (putc (sv s u z) v y l).
Proof.
  intros s v y l u z N. unfold putc. destruct (a_cont y); try apply seqv_refl.
  apply sv_comm; auto.
Qed.
Lemma putc_cong : forall (s s' : astate) v y l, seqv s s' -> seqv (putc s v y l) (putc s' v y l).
Proof.
  intros s s' v y l H. unfold putc. destruct (a_cont y); auto using sv_cong.
  destruct H as (A & B & C & D). repeat split; auto. intro k. simpl. unfold nupd. destruct (Nat.eqb k n); auto.
Qed.
Lemma conts_putc_len : forall (s : astate) y, conts s y = conts s y. Proof. auto. Qed.
Lemma conts_cont : forall (s : astate) y y', a_cont y' = a_cont y -> conts s y' = conts s y.
Proof. intros. unfold conts. rewrite H. auto. Qed.
Lemma conts_sv : forall (s : astate) v z y, conts (sv s v z) y = conts s y.
Proof. intros. unfold conts. destruct (a_cont y); auto. Qed.

Lemma avec_eq : forall y y' : avec, a_len y = a_len y' -> a_clock y = a_clock y' -> a_readers y = a_readers y' -> a_refs y = a_refs y' -> a_cont y = a_cont y' ->
  a_wg y = a_wg y' -> a_rg y = a_rg y' -> y = y'.
Proof. intros [] []; simpl; congruence. Qed.
Lemma tick_tick : forall (y : avec) a b, tick (tick y a) b = tick y (a + b).
Proof. intros. apply avec_eq; simpl; auto. lia. Qed.
Lemma wg_tick2 : forall (y : avec), a_wg y = false -> wg (tick (tick y 1) 1) false = tick y 2.
Proof. intros. apply avec_eq; simpl; auto. lia. Qed.
Lemma rd_rd : forall w (s : astate) v (y : avec), Rel w s -> s_vecs s v = Some y -> rg (rd (rd y 1) (-1)) (a_rg y && (1 <? a_readers y + 1)) = y.
Proof.
  intros w s v y H E. destruct (r_look v H E) as (x & Ex & HV). destruct HV as (_ & _ & _ & _ & _ & _ & _ & G).
  apply avec_eq; simpl; auto; try lia. destruct (a_rg y) eqn:Q; auto. destruct (G eq_refl). simpl. apply Z.ltb_lt. lia.
Qed.

(** ** set array *)
Definition alloc_c (y : avec) : avec := match a_cont y with CEmpty => ct y (COwn (zeros (a_len y))) | _ => y end.
(** new blocks may appear, nothing else changes but the arrays of [v] *)
Definition grows (v : nat) (w w' : world) : Prop :=
  (forall u, u <> v -> arr w' u = arr w u) /\ (forall a l, w_heap w a = Some l -> w_heap w' a = Some l) /\ w_wptr w' = w_wptr w /\ w_rptr w' = w_rptr w.
Lemma same_grows : forall v w w', same w w' -> grows v w w'.
Proof. intros v w w' (A & B & C & D). repeat split; auto. rewrite B; auto. Qed.
Lemma grows_trans : forall v w1 w2 w3, grows v w1 w2 -> grows v w2 w3 -> grows v w1 w3.
Proof. intros v w1 w2 w3 (A & B & C & D) (A' & B' & C' & D'). repeat split; auto; try congruence. intros. rewrite A', A; auto. Qed.
Lemma zeros_length : forall n, length (@zeros R n) = n. Proof. intros; apply repeat_length. Qed.

Lemma alloc_run : forall (w : world) s v y x, Rel w s -> s_vecs s v = Some y -> w_vecs w v = Some x -> locked y = false -> (0 < a_len y)%nat ->
  exists w', (match v_array x with
       | Some _ => ret tt
       | None => match v_borrowed x with
                 | Some b => putv v (with_arrays x (v_owned x) (v_borrowed x) (Some b))
                 | None => match v_owned x with
                           | Some o => putv v (with_arrays x (v_owned x) (v_borrowed x) (Some o))
                           | None => mbind (calloc (v_len x)) (fun o => putv v (with_arrays x o (v_borrowed x) o))
                           end
                 end
       end) w = ROk tt w' /\ Rel w' (sv s v (alloc_c y)) /\ grows v w w' /\ (a_cont y <> CEmpty -> arr w' v = arr w v).
Proof.
  intros w s v y x H E Ex L P. destruct (locked_wg v H E L) as (W & G & _ & _).
  destruct (r_look v H E) as (x' & Ex' & HV). rewrite Ex in Ex'; inversion Ex'; subst x'; clear Ex'.
  destruct HV as (V1 & _ & _ & _ & _ & V6 & _). unfold crel in V6. unfold alloc_c. destruct (a_cont y) eqn:C.
  - destruct V6 as (-> & -> & ->). eexists. split; [reflexivity|]. rewrite V1. split; [|split].
    + apply (@Rel_alloc R w s v x y (zeros (a_len y))); auto. rewrite zeros_length. lia.
    + repeat split; auto.
      * intros u N. unfold arr. simpl. rewrite nupd_other; auto.
      * intros a l Ha. simpl. rewrite hupd_other; auto. intro; subst a. rewrite (r_fl H) in Ha; auto. discriminate.
    + congruence.
  - destruct V6 as (a & _ & _ & -> & _). exists w. split; [reflexivity|]. split; [|split].
    + eapply Rel_seqv; [eauto|]. apply seqv_sym, sv_id; auto.
    + repeat split; auto.
    + auto.
  - destruct V6 as (_ & _ & -> & _). exists w. split; [reflexivity|]. split; [|split].
    + eapply Rel_seqv; [eauto|]. apply seqv_sym, sv_id; auto.
    + repeat split; auto.
    + auto.
Qed.

Lemma bump_rel : forall (w : world) s v y k, Rel w s -> s_vecs s v = Some y -> even (a_clock y) = true -> 
  exists w', bump v k w = ROk tt w' /\ Rel w' (sv s v (tick y k)) /\ same w w'.
Proof.
  intros w s v y k H E EV. destruct (r_look v H E) as (x & Ex & HV). destruct HV as (V1 & V2 & V3 & V4 & V5 & V6 & V7 & V8).
  erewrite bump_run by eauto. eexists. split; [reflexivity|]. split.
  - eapply Rel_counters with (y' := tick y k); eauto; simpl; try congruence; try lia.
    + rewrite V2. apply add64_mod.
    + intro Q. destruct (V7 Q). congruence.
  - eapply same_setv; eauto.
Qed.

Lemma sa_locked : forall (w : world) s v y host mode p, Rel w s -> s_vecs s v = Some y -> locked y = true -> vec_set_array v host mode p w = RErr ERR_ACCESS w.
Proof. intros w s v y host mode p H E L. unfold vec_set_array. apply bind_err. erewrite unlocked_run by eauto. rewrite L. auto. Qed.
Lemma sa_zero : forall (w : world) s v y host mode p, Rel w s -> s_vecs s v = Some y -> locked y = false -> a_len y = 0%nat ->
  exists w', vec_set_array v host mode p w = ROk tt w' /\ Rel w' (sv s v (tick y 2)) /\ same w w'.
Proof.
  intros w s v y host mode p H E L Z. unfold vec_set_array. erewrite bind_ok by (erewrite unlocked_run by eauto; rewrite L; reflexivity).
  destruct (r_look v H E) as (x & Ex & HV). erewrite bind_ok by (apply getv_run; eauto). destruct HV as (-> & _). rewrite Z. simpl.
  erewrite bind_ok by reflexivity. eapply bump_rel; eauto. eapply locked_wg; eauto.
Qed.
Lemma sa_dev : forall (w : world) s v y mode p, Rel w s -> s_vecs s v = Some y -> locked y = false -> a_len y <> 0%nat ->
  vec_set_array v false mode p w = RErr ERR_BACKEND w.
Proof.
  intros w s v y mode p H E L Z. unfold vec_set_array. erewrite bind_ok by (erewrite unlocked_run by eauto; rewrite L; reflexivity).
  destruct (r_look v H E) as (x & Ex & HV). erewrite bind_ok by (apply getv_run; eauto). apply bind_err. destruct HV as (-> & _).
  unfold pos. rewrite (proj2 (Nat.ltb_lt _ _)) by lia. reflexivity.
Qed.
Lemma backend_ok : forall A (m : M R A) w a w', m w = ROk a w' -> backend m w = ROk a w'.
Proof. intros; unfold backend; rewrite H; auto. Qed.
Lemma sa_null : forall (w : world) s v y, Rel w s -> s_vecs s v = Some y -> locked y = false -> a_len y <> 0%nat ->
  exists w', vec_set_array v true CopyValues None w = ROk tt w' /\ Rel w' (sv s v (tick (alloc_c y) 2)) /\ grows v w w' /\ (a_cont y <> CEmpty -> arr w' v = arr w v).
Proof.
  intros w s v y H E L Z. unfold vec_set_array. erewrite bind_ok by (erewrite unlocked_run by eauto; rewrite L; reflexivity).
  destruct (r_look v H E) as (x & Ex & HV). erewrite bind_ok by (apply getv_run; eauto). destruct HV as (V1 & _). rewrite V1.
  unfold pos. rewrite (proj2 (Nat.ltb_lt _ _)) by lia.
  destruct (alloc_run v H E Ex L ltac:(lia)) as (w1 & R1 & Rel1 & G1 & A1).
  erewrite bind_ok.
  2:{ unfold set_array_ref. erewrite bind_ok by reflexivity. apply backend_ok. unfold set_host_array. erewrite bind_ok by (apply getv_run; eauto).
      erewrite bind_ok by exact R1. reflexivity. }
  destruct (bump_rel v 2 Rel1 (s_vecs_sv s v (alloc_c y))) as (w2 & R2 & Rel2 & S2).
  { unfold alloc_c. destruct (locked_wg v H E L) as (_ & _ & Q & _). destruct (a_cont y); auto. }
  exists w2. split; auto. split; [|split].
  - eapply Rel_seqv; [eauto|]. apply sv_sv.
  - eapply grows_trans; eauto. apply same_grows; auto.
  - intro C. destruct S2 as (-> & _). auto.
Qed.
Lemma firstn_map_vf : forall n (l : list R), (n <= length l)%nat -> firstn n l = map (vf l) (seq 0 n).
Proof.
  intros n l H. apply vf_ext.
  - rewrite firstn_length, map_length, seq_length. lia.
  - intros i Hi. rewrite firstn_length in Hi. rewrite vf_map_seq by lia. unfold vf. rewrite <- (firstn_skipn n l) at 2.
    rewrite app_nth1; auto. rewrite firstn_length. lia.
Qed.
Lemma sa_copy : forall (w : world) s v y a l, Rel w s -> s_vecs s v = Some y -> locked y = false -> a_len y <> 0%nat ->
  w_heap w a = Some l -> (a_len y <= length l)%nat -> arr w v <> Some a ->
  exists w' old, vec_set_array v true CopyValues (Some a) w = ROk tt w' /\ conts s (alloc_c y) = Some old /\
    Rel w' (putc (sv s v (tick (alloc_c y) 2)) v (tick (alloc_c y) 2) (fill (a_len y) (vf l) old)) /\ (forall u, u <> v -> arr w' u = arr w u).
Proof.
  intros w s v y a l H E L Z Ha Hl NA. unfold vec_set_array. erewrite bind_ok by (erewrite unlocked_run by eauto; rewrite L; reflexivity).
  destruct (r_look v H E) as (x & Ex & HV). erewrite bind_ok by (apply getv_run; eauto). destruct HV as (V1 & _). rewrite V1.
  unfold pos. rewrite (proj2 (Nat.ltb_lt _ _)) by lia.
  destruct (alloc_run v H E Ex L ltac:(lia)) as (w1 & R1 & Rel1 & G1 & A1).
  set (y1 := alloc_c y) in *. assert (L1: a_len y1 = a_len y) by (unfold y1, alloc_c; destruct (a_cont y); auto).
  assert (I1: invalid y1 = false) by (unfold y1, alloc_c, invalid; destruct (a_cont y) eqn:Q; simpl; rewrite ?Q; apply andb_false_r).
  destruct (Rel_conts v Rel1 (s_vecs_sv s v y1)) as (old & Ho); auto; [lia|].
  destruct (Rel_arr v Rel1 (s_vecs_sv s v y1) Ho) as (d & Ad & Hd & Hlen).
  destruct (r_look v Rel1 (s_vecs_sv s v y1)) as (x1 & Ex1 & HV1). destruct HV1 as (V11 & _).
  assert (ND: d <> a).
  { intro; subst d. destruct (a_cont y) eqn:C.
    - (* new block *)
      assert (Q: exists k, arr w1 v = Some (AL k) /\ w_heap w (AL k) = None).
      { destruct (r_look v H E) as (x' & Ex' & HV). rewrite Ex in Ex'; inversion Ex'; subst x'. destruct HV as (_ & _ & _ & _ & _ & V6 & _).
        unfold crel in V6. rewrite C in V6. destruct V6 as (Q1 & Q2 & Q3). rewrite Q1, Q2, Q3 in R1. inversion R1; subst w1. exists (w_nl w). split.
        - unfold arr. simpl. rewrite nupd_same. auto.
        - apply (r_fl H). auto. }
      destruct Q as (k & Q1 & Q2). rewrite Q1 in Ad. inversion Ad; subst a. congruence.
    - rewrite A1 in Ad by congruence. congruence.
    - rewrite A1 in Ad by congruence. congruence. }
  set (l' := fill (a_len y) (vf l) old).
  erewrite bind_ok.
  2:{ unfold set_array_ref. erewrite bind_ok by reflexivity. apply backend_ok. unfold set_host_array. erewrite bind_ok by (apply getv_run; eauto).
      erewrite bind_ok by exact R1. erewrite bind_ok by (apply getv_run; eauto). unfold memcpy. rewrite V11, L1.
      unfold arr in Ad. rewrite Ex1 in Ad. rewrite Ad. destruct (addr_eqb_spec d a); [contradiction|]. rewrite Hd.
      destruct G1 as (_ & G1 & _). rewrite (G1 _ _ Ha). rewrite (proj2 (Nat.leb_le _ _)) by lia. rewrite (proj2 (Nat.leb_le _ _)) by lia. reflexivity. }
  rewrite firstn_map_vf by auto. change (map (vf l) (seq 0 (a_len y)) ++ skipn (a_len y) old) with l'.
  assert (Rel2: Rel (seth w1 d (Some l')) (putc (sv s v y1) v y1 l')).
  { eapply Rel_write; eauto using s_vecs_sv. unfold l'. apply fill_length. lia. }
  pose proof (s_vecs_putc (sv s v y1) v l' (s_vecs_sv s v y1)) as SV2.
  destruct (bump_rel v 2 Rel2 SV2) as (w2 & R2 & Rel3 & S2).
  { destruct (locked_wg v H E L) as (_ & _ & Q & _). unfold newc, y1, alloc_c. destruct (a_cont y) eqn:C; simpl; rewrite ?C; simpl; auto. }
  exists w2, old. split; auto. split; [rewrite conts_sv in Ho; auto|]. split.
  - eapply Rel_seqv; [exact Rel3|]. eapply seqv_trans.
    + apply (putc_sv (fun y => tick y 2)); auto using s_vecs_sv.
    + apply putc_cong, sv_sv.
  - intros u N. destruct S2 as (-> & _). transitivity (arr w1 u); [reflexivity|]. destruct G1 as (G1 & _). auto.
Qed.

Lemma free_run : forall (w : world) s v x, Rel w s -> w_vecs w v = Some x -> free (v_owned x) w = ROk tt (freed w (v_owned x)).
Proof.
  intros w s v x H Ex. destruct (r_lookc v H Ex) as (y & E & HV). destruct HV as (_ & _ & _ & _ & _ & V6 & _). unfold crel in V6. destruct (a_cont y).
  - destruct V6 as (-> & _). reflexivity.
  - destruct V6 as (a & -> & _ & _ & Ha & _). simpl. rewrite Ha. reflexivity.
  - destruct V6 as (-> & _). reflexivity.
Qed.
Lemma sa_replace : forall (w : world) s v y mode p c us, mode <> CopyValues -> Rel w s -> s_vecs s v = Some y -> locked y = false -> a_len y <> 0%nat ->
  let o := match mode with OwnPointer => p | _ => None end in
  let b := match mode with UsePointer => p | _ => None end in
  match c with
  | CEmpty => o = None /\ b = None /\ us = None
  | COwn l => b = None /\ exists n, us = Some n /\ o = Some (AU n) /\ s_user s n = Some l /\ (0 < a_len y <= length l)%nat /\ shared_elsewhere s v n = false
  | CShared n => o = None /\ us = None /\ b = Some (AU n) /\ exists l, s_user s n = Some l /\ (0 < a_len y <= length l)%nat
  end ->
  exists w', vec_set_array v true mode p w = ROk tt w' /\
    Rel w' (match us with Some n => su (sv s v (tick (ct y c) 2)) n None | None => sv s v (tick (ct y c) 2) end).
Proof.
  intros w s v y mode p c us NM H E L Z o b HP. destruct (locked_wg v H E L) as (W & G & EV & _).
  unfold vec_set_array. erewrite bind_ok by (erewrite unlocked_run by eauto; rewrite L; reflexivity).
  destruct (r_look v H E) as (x & Ex & HV). erewrite bind_ok by (apply getv_run; eauto). destruct HV as (V1 & _). rewrite V1.
  unfold pos. rewrite (proj2 (Nat.ltb_lt _ _)) by lia.
  pose proof (@Rel_replace R w s v x y o b c us H Ex E W G HP) as RR.
  assert (SV: s_vecs (match us with Some n => su (sv s v (ct y c)) n None | None => sv s v (ct y c) end) v = Some (ct y c)).
  { destruct us; simpl; apply nupd_same. }
  destruct (bump_rel v 2 RR SV EV) as (w2 & R2 & Rel3 & S2).
  exists w2. split.
  - erewrite bind_ok; [exact R2|]. unfold set_array_ref. erewrite bind_ok by reflexivity. apply backend_ok. unfold set_host_array.
    erewrite bind_ok by (apply getv_run; eauto). destruct mode; [contradiction| |]; (erewrite bind_ok by (eapply free_run; eauto)); unfold putv; f_equal; unfold o, b; auto.
    destruct p; auto.
  - eapply Rel_seqv; [exact Rel3|]. destruct us.
    + repeat split; auto. intro k. simpl. unfold nupd. destruct (Nat.eqb k v); auto.
    + apply sv_sv.
Qed.

(** ** get array write *)
Lemma s_zero_len : forall y : avec, a_len (s_zero y) = a_len y. Proof. intro y. unfold s_zero. destruct (invalid y); auto. Qed.
Lemma write_prep : forall (w : world) s v y x, Rel w s -> s_vecs s v = Some y -> w_vecs w v = Some x -> locked y = false -> a_len y <> 0%nat ->
  exists w', (if isSome (v_array x) then ret tt else backend (vec_set_array v true CopyValues None)) w = ROk tt w' /\ Rel w' (sv s v (s_zero y)) /\ grows v w w'.
Proof.
  intros w s v y x H E Ex L Z. rewrite (arr_isSome v H E Ex). unfold s_zero, invalid. destruct (Nat.eqb_spec (a_len y) 0); [lia|]. simpl.
  destruct (a_cont y) eqn:C.
  - destruct (sa_null v H E L Z) as (w1 & R1 & Rel1 & G1 & _). exists w1. split; [apply backend_ok; auto|]. split; auto.
    unfold alloc_c in Rel1. rewrite C in Rel1. auto.
  - exists w. split; [reflexivity|]. split; [eapply Rel_seqv; [eauto|apply seqv_sym, sv_id; auto]|repeat split; auto].
  - exists w. split; [reflexivity|]. split; [eapply Rel_seqv; [eauto|apply seqv_sym, sv_id; auto]|repeat split; auto].
Qed.
Lemma s_zero_even : forall y : avec, even (a_clock y) = true -> even (a_clock (s_zero y)) = true.
Proof. intros y H. unfold s_zero. destruct (invalid y); auto. simpl. unfold even in *. rewrite <- Zplus_mod_idemp_r. simpl. rewrite Z.add_0_r. auto. Qed.
Lemma s_zero_wg : forall y : avec, a_wg (s_zero y) = a_wg y. Proof. intro y. unfold s_zero. destruct (invalid y); auto. Qed.
Lemma s_zero_rd : forall y : avec, a_readers (s_zero y) = a_readers y. Proof. intro y. unfold s_zero. destruct (invalid y); auto. Qed.
Lemma write_locked : forall (w : world) s v y host, Rel w s -> s_vecs s v = Some y -> locked y = true -> vec_get_write v host w = RErr ERR_ACCESS w.
Proof. intros w s v y host H E L. unfold vec_get_write. apply bind_err. erewrite unlocked_run by eauto. rewrite L. auto. Qed.
Lemma write_dev : forall (w : world) s v y, Rel w s -> s_vecs s v = Some y -> locked y = false -> a_len y <> 0%nat ->
  exists w', vec_get_write v false w = RErr ERR_BACKEND w' /\ Rel w' (sv s v (s_zero y)).
Proof.
  intros w s v y H E L Z. unfold vec_get_write. erewrite bind_ok by (erewrite unlocked_run by eauto; rewrite L; reflexivity).
  destruct (r_look v H E) as (x & Ex & HV). erewrite bind_ok by (apply getv_run; eauto). destruct HV as (V1 & _). rewrite V1.
  unfold pos. rewrite (proj2 (Nat.ltb_lt _ _)) by lia. destruct (write_prep v H E Ex L Z) as (w1 & R1 & Rel1 & _).
  exists w1. split; auto. apply bind_err. erewrite bind_ok by exact R1. reflexivity.
Qed.
Lemma write_ok : forall (w : world) s v y host, Rel w s -> s_vecs s v = Some y -> locked y = false -> (a_len y = 0%nat \/ host = true) ->
  exists w', vec_get_write v host w = ROk (arr w' v) w' /\ Rel w' (sv s v (tick (s_zero y) 1)) /\ grows v w w'.
Proof.
  intros w s v y host H E L Z. destruct (locked_wg v H E L) as (W & G & EV & _).
  unfold vec_get_write. erewrite bind_ok by (erewrite unlocked_run by eauto; rewrite L; reflexivity).
  destruct (r_look v H E) as (x & Ex & HV). erewrite bind_ok by (apply getv_run; eauto). destruct HV as (V1 & _). rewrite V1.
  destruct (Nat.eq_dec (a_len y) 0) as [Q|Q].
  - rewrite Q. cbn [pos Nat.ltb Nat.leb]. erewrite bind_ok by reflexivity.
    assert (S0: s_zero y = y) by (unfold s_zero, invalid; rewrite Q; auto). rewrite S0.
    destruct (bump_rel v 1 H E EV) as (w2 & R2 & Rel2 & S2). erewrite bind_ok by exact R2. exists w2. split; [|split; auto using same_grows].
    unfold ret. f_equal. destruct S2 as (-> & _). destruct (Rel_empty v H E Q) as (_ & ->). auto.
  - destruct Z as [Z|Hh]; [contradiction|]. subst host. unfold pos. rewrite (proj2 (Nat.ltb_lt _ _)) by lia. destruct (write_prep v H E Ex L Q) as (w1 & R1 & Rel1 & G1).
    destruct (r_look v Rel1 (s_vecs_sv s v (s_zero y))) as (x1 & Ex1 & HV1).
    erewrite bind_ok. 2:{ erewrite bind_ok by exact R1. unfold get_core_ref. erewrite bind_ok by reflexivity. erewrite bind_ok by (apply getv_run; eauto). reflexivity. }
    destruct (bump_rel v 1 Rel1 (s_vecs_sv s v (s_zero y)) (s_zero_even _ EV)) as (w2 & R2 & Rel2 & S2).
    erewrite bind_ok by exact R2. exists w2. split; [|split].
    + unfold ret. f_equal. destruct S2 as (-> & _). unfold arr. rewrite Ex1. auto.
    + eapply Rel_seqv; [eauto|apply sv_sv].
    + eapply grows_trans; eauto. apply same_grows; auto.
Qed.

(** ** a call that takes write access, changes the contents and gives access back *)
Lemma write_restore : forall (w : world) s v y l l' a w2, Rel w (sv s v (tick y 1)) -> a_wg y = false -> even (a_clock y) = true ->
  conts s y = Some l -> arr w v = Some a -> length l' = length l -> weq w2 (seth w a (Some l')) ->
  exists w3, vec_restore v w2 = ROk tt w3 /\ Rel w3 (putc (sv s v (tick y 2)) v (tick y 2) l').
Proof.
  intros w s v y l l' a w2 H W EV C A L Q.
  assert (Rel2: Rel w2 (putc (sv s v (tick y 1)) v (tick y 1) l')).
  { eapply Rel_weq; [|exact Q]. eapply Rel_write; eauto using s_vecs_sv. }
  pose proof (s_vecs_putc (sv s v (tick y 1)) v l' (s_vecs_sv s v (tick y 1))) as SV2.
  assert (B: busy (newc (tick y 1) l') = true).
  { unfold busy, newc. destruct (a_cont _); simpl; rewrite even_S, EV; auto. }
  destruct (restore_ok v Rel2 SV2 B) as (w3 & R3 & Rel3 & _). exists w3. split; auto.
  eapply Rel_seqv; [exact Rel3|]. eapply seqv_trans.
  - apply (putc_sv (fun y => wg (tick y 1) false)); auto using s_vecs_sv.
  - rewrite wg_tick2 by auto. apply putc_cong, sv_sv.
Qed.
Lemma modify_ok : forall (w : world) s v y l l' (act : ptr -> M R unit), Rel w s -> s_vecs s v = Some y -> locked y = false -> conts s y = Some l -> length l' = length l ->
  (forall w1 a, w_heap w1 a = Some l -> exists w2, act (Some a) w1 = ROk tt w2 /\ weq w2 (seth w1 a (Some l'))) ->
  exists w3, mbind (vec_get_array v true) (fun p => mbind (act p) (fun _ => vec_restore v)) w = ROk tt w3 /\ Rel w3 (putc (sv s v (tick y 2)) v (tick y 2) l').
Proof.
  intros w s v y l l' act H E L C LL ACT. destruct (locked_wg v H E L) as (W & G & EV & _).
  assert (B: bad y true = false).
  { unfold bad. rewrite andb_false_r, orb_false_r. unfold invalid. unfold conts in C. destruct (a_cont y); try discriminate; apply andb_false_r. }
  destruct (get_ok v true H E L B) as (w1 & R1 & Rel1 & S1). erewrite bind_ok by exact R1.
  destruct (Rel_arr v H E C) as (a & A & Ha & _). rewrite A. pose proof S1 as (S1a & S1h & _).
  destruct (ACT w1 a) as (w2 & R2 & Q2); [rewrite S1h; auto|]. erewrite bind_ok by exact R2.
  eapply write_restore; eauto. rewrite S1a; auto.
Qed.
End P.
