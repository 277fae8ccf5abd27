(** * C67: the arrays of element restrictions are freed once, by their owner, and not while they are read *)
From Coq Require Import List ZArith Lia Bool Arith.
From Verif Require Import Prelude RstrModel VecModel RaModel RaProofs RaStep.
Import ListNotations.
Local Open Scope Z_scope.
Local Open Scope list_scope.

(** No call that keeps the rules touches freed memory or frees twice. *)
Theorem C67_defined c x : hist c -> rule c x -> exists e c', step c x = ODone e c'.
Proof. intros H R. destruct (step_good c x (hist_good _ H) R) as (e & c' & S & _). eauto. Qed.

(** Every array is freed at most once, and an array that the user did not hand over is not freed. *)
Theorem C67_once c a x : hist c -> nth_error (arrs (c_s c)) a = Some x ->
  (a_frees x <= 1)%nat /\ (a_user x = true -> ~ In a (c_given c) -> a_frees x = 0%nat).
Proof.
  intros H E. apply hist_good in H. assert (U : users (arrs (c_s c)) a = Some (a_user x)) by (unfold users; now rewrite E).
  pose proof (v_sum _ _ _ _ _ _ _ H _ _ U) as S. unfold frees in S. rewrite E in S.
  pose proof (owners_nonneg (objs (c_s c)) a). pose proof (cntn_nonneg (c_lost c) a). pose proof (proj1 (v_given _ _ _ _ _ _ _ H a)).
  split.
  - destruct (a_user x); lia.
  - intros Ux N. rewrite Ux, (cntn_notIn _ _ N) in S. lia.
Qed.

Lemma cur_alive c n d w a : Good c -> nth_error (objs (c_s c)) n = Some d -> r_ilive d = true -> s_cur (pick w (r_impl d)) = Some a ->
  exists x, nth_error (arrs (c_s c)) a = Some x /\ a_frees x = 0%nat.
Proof.
  intros G E L C. destruct (v_cur _ _ _ _ _ _ _ G _ _ _ _ E L C) as (U & O). unfold users in U.
  destruct (nth_error (arrs (c_s c)) a) as [x|] eqn:EA; [|congruence]. exists x. split; auto.
  assert (U' : users (arrs (c_s c)) a = Some (a_user x)) by (unfold users; now rewrite EA).
  pose proof (v_sum _ _ _ _ _ _ _ G _ _ U') as S. unfold frees in S. rewrite EA in S.
  pose proof (cntn_nonneg (c_lost c) a). destruct (v_given _ _ _ _ _ _ _ G a) as (G1 & G2). pose proof (owners_nonneg (objs (c_s c)) a).
  destruct O as [O|O].
  - pose proof (sumo_ge (owns a) _ _ _ (owns_nonneg a) E) as X. fold (owners (objs (c_s c)) a) in X.
    assert (1 <= owns a d).
    { unfold owns. rewrite L. pose proof (one_nonneg a (s_own (i_off (r_impl d)))). pose proof (one_nonneg a (s_own (i_or (r_impl d)))).
      pose proof (one_nonneg a (s_own (i_cu (r_impl d)))). assert (1 = one a (s_own (pick w (r_impl d)))) by (rewrite O; symmetry; apply one_eq).
      destruct w; cbn [pick] in *; lia. }
    destruct (a_user x); lia.
  - pose proof (v_used _ _ _ _ _ _ _ G _ O) as V. rewrite V in U'. injection U' as U'. rewrite <- U' in S.
    apply cntn_In in O. assert (cntn (c_given c) a = 0). { pose proof (cntn_nonneg (c_given c) a). destruct (Z.lt_decidable 0 (cntn (c_given c) a)) as [P|P]; [|lia]. destruct (G2 P). lia. }
    lia.
Qed.

(** A pointer obtained and not restored points to memory that is not freed. *)
Theorem C67_pointers c n a : hist c -> In (n, Some a) (c_rd c) -> exists x, nth_error (arrs (c_s c)) a = Some x /\ a_frees x = 0%nat.
Proof.
  intros H J. apply hist_good in H. destruct (v_rp _ _ _ _ _ _ _ H _ _ J) as (o & d & w & _ & _ & ED & LD & C). eapply cur_alive; eauto.
Qed.

(** Every handle, also one to a copy whose original was destroyed, gives access to its arrays. *)
Theorem C67_handles c n w : hist c -> In n (c_h c) -> exists c' t p, step c (GetP w true n) = ODone 0 c' /\ c_rd c' = (t, p) :: c_rd c /\
  forall a, p = Some a -> exists x, nth_error (arrs (c_s c)) a = Some x /\ a_frees x = 0%nat.
Proof.
  intros H J. apply hist_good in H. destruct (target_ok c n w H J) as (t & o & d & T & GT & E & L & DS & ED & LD).
  cbn [step]. unfold readp. rewrite T. cbn [bind]. rewrite GT. cbn [bind]. rewrite DS. cbn [negb]. rewrite ED, LD. cbn [negb Z.eqb].
  eexists _, t, _. split; [reflexivity|]. split; [reflexivity|]. intros a Ea. eapply cur_alive; eauto.
Qed.

(** When the client has destroyed all its handles, nothing is left: every array that the library allocated or was given is
    freed, except orientations given to a blocked restriction; no structure is left, and no pointer is held. *)
Theorem C67_released c : hist c -> c_h c = [] ->
  (forall n o, nth_error (objs (c_s c)) n = Some o -> r_live o = false /\ r_ilive o = false) /\ c_rd c = [] /\
  forall a x, nth_error (arrs (c_s c)) a = Some x -> a_user x = false \/ In a (c_given c) -> ~ In a (c_lost c) -> a_frees x = 1%nat.
Proof.
  intros H HN. apply hist_good in H. unfold Good in H. rewrite HN in H.
  assert (D : forall n o, nth_error (objs (c_s c)) n = Some o -> r_live o = false).
  { intros n o E. destruct (r_live o) eqn:L; auto. exfalso. destruct (v_ref _ _ _ _ _ _ _ H _ _ E L) as (R & P). rewrite cntn_nil in R.
    assert (PC : 0 < sumo (isbase n) (objs (c_s c))) by (unfold copies in R; lia).
    destruct (sumo_pos _ _ (isbase_nonneg n) PC) as (m & y & Em & Q).
    unfold isbase in Q. destruct (r_live y) eqn:Ly; [|lia]. destruct (r_base y) as [b|] eqn:By; [|cbn in Q; lia].
    destruct (v_ref _ _ _ _ _ _ _ H _ _ Em Ly) as (R2 & P2). rewrite cntn_nil in R2. rewrite (copies_of_copy _ _ _ _ _ _ _ _ _ _ H Em Ly By) in R2. lia. }
  assert (IL : forall n o, nth_error (objs (c_s c)) n = Some o -> r_ilive o = false).
  { intros n o E. now destruct (v_dead _ _ _ _ _ _ _ H _ _ E (D _ _ E)) as (_ & _ & X & _). }
  split; [|split].
  - intros n o E. split; eauto.
  - destruct (c_rd c) as [|[n p] rd] eqn:RD; auto. exfalso. assert (P : 0 < rdc ((n, p) :: rd) n).
    { apply cntn_In. cbn. auto. }
    destruct (nth_error (objs (c_s c)) n) as [o|] eqn:E.
    + destruct (v_dead _ _ _ _ _ _ _ H _ _ E (D _ _ E)) as (_ & _ & _ & X). lia.
    + destruct (v_out _ _ _ _ _ _ _ H _ E) as (_ & _ & X). lia.
  - intros a x E O N. assert (U : users (arrs (c_s c)) a = Some (a_user x)) by (unfold users; now rewrite E).
    pose proof (v_sum _ _ _ _ _ _ _ H _ _ U) as S. unfold frees in S. rewrite E, (cntn_notIn _ _ N) in S.
    assert (Z : owners (objs (c_s c)) a = 0).
    { pose proof (owners_nonneg (objs (c_s c)) a). destruct (Z.lt_decidable 0 (owners (objs (c_s c)) a)) as [P|P]; [|lia]. exfalso.
      destruct (sumo_pos _ _ (owns_nonneg a) P) as (m & y & Em & Q). unfold owns in Q. rewrite (IL _ _ Em) in Q. lia. }
    destruct O as [O|O]; [rewrite O in S; lia|]. apply cntn_In in O. destruct (v_given _ _ _ _ _ _ _ H a) as (G1 & G2). destruct (G2 O) as (U2 & _).
    rewrite U in U2. injection U2 as U2. rewrite U2 in S. lia.
Qed.

(** Destroy succeeds, or it is refused because a pointer is held that was obtained through the restriction or the one it was copied from;
    then nothing is freed. *)
Theorem C67_destroy c n : hist c -> In n (c_h c) -> exists e c', step c (Destroy n) = ODone e c' /\
  (e = 0 \/ e = ERR_ACCESS /\ arrs (c_s c') = arrs (c_s c) /\ c_h c' = c_h c /\
   exists t p, In (t, p) (c_rd c) /\ (t = n \/ exists o, nth_error (objs (c_s c)) n = Some o /\ r_base o = Some t)).
Proof.
  intros H J. apply hist_good in H. unfold Good in H. assert (P : 1 <= cntn (c_h c) n) by (apply cntn_In in J; lia).
  destruct (destroy_ok _ _ _ _ _ _ _ _ H P) as (e & s' & D & Q). cbn [step]. destruct (c_s c) as [l ar] eqn:CS. cbn [objs arrs] in *. rewrite D.
  eexists _, _. split; [reflexivity|]. destruct Q as [(-> & _)|(-> & AR & t & T1 & T2)]; [auto|]. right. cbn [c_s c_h Z.eqb ERR_ACCESS]. repeat split; auto.
  apply cntn_In, in_map_iff in T1. destruct T1 as ([t' p] & <- & IN). exists t', p. auto.
Qed.

(** For example, a refused destroy can be repeated after the pointer was restored. *)
Example ex_retry : let x := [Alloc; Create false KStd true VOk OwnPointer 0 None; GetP GOff true 0; Destroy 0; RestoreP GOff 0; Destroy 0] in
  exists c, fold_left (fun o op => match o with Some c => match step c op with ODone _ c' => Some c' | OUndef => None end | None => None end) x (Some init) = Some c /\
    c_h c = [] /\ map a_frees (arrs (c_s c)) = [1%nat].
Proof. eexists. split; [reflexivity|]. split; reflexivity. Qed.

(** ** Findings *)

(** a run of calls that all are defined *)
Fixpoint run (c : cl) (l : list op) : option (list Z * cl) :=
  match l with
  | [] => Some ([], c)
  | x :: t => match step c x with
              | ODone e c' => match run c' t with Some (es, r) => Some (e :: es, r) | None => None end
              | OUndef => None end
  end.
(** all rules kept, and all calls successful *)
Fixpoint kept (c : cl) (l : list op) : Prop :=
  match l with [] => True | x :: t => rule c x /\ exists c', step c x = ODone 0 c' /\ kept c' t end.
Lemma kept_hist l : forall c r, hist c -> kept c l -> run c l = Some r -> hist (snd r).
Proof.
  induction l as [|x l IH]; intros c r H K E; cbn in K, E.
  - now injection E as <-.
  - destruct K as (R & c' & S & K). rewrite S in E. destruct (run c' l) as [[es r']|] eqn:E2; [|discriminate]. injection E as <-.
    apply (IH c' (es, r')); auto. eapply hist_step; eauto.
Qed.

(** Finding: CeedElemRestrictionCreateBlockedOriented and CreateBlockedCurlOriented with CEED_OWN_POINTER free the offsets but
    never the orientations (ceed-elemrestriction.c:1035, 1110). *)
Theorem C67_blocked_refuted : exists c a x, hist c /\ c_h c = [] /\ In a (c_given c) /\ nth_error (arrs (c_s c)) a = Some x /\ a_frees x = 0%nat.
Proof.
  pose (l := [Alloc; Alloc; Create true KOri true VOk OwnPointer 0 (Some 1%nat); Destroy 0]).
  destruct (run init l) as [[es c]|] eqn:E; [|vm_compute in E; discriminate].
  assert (H : hist c).
  { apply (kept_hist l init (es, c)); [constructor| |exact E]. cbn [kept l]. repeat (split; [|eexists; split; [vm_compute; reflexivity|]]); cbn; auto.
    split; [|split; [|congruence]].
    - intros a [<-|[<-|[]]]; (split; [eexists; split; reflexivity|intros []]).
    - intros _. split; [|intros a _ []]. repeat constructor; cbn; intuition congruence. }
  vm_compute in E. injection E as <- <-. eexists _, 1%nat, _. split; [exact H|]. split; [reflexivity|]. cbn. auto.
Qed.

(** Finding: when the backend refuses the arrays (an offset out of range) the call has made a restriction without Destroy function: with
    CEED_OWN_POINTER the array is freed neither by the failed call nor by CeedElemRestrictionDestroy, and the backend data and,
    for a blocked restriction, the padded arrays stay allocated. *)
Theorem C67_failed_refuted bl : exists es c, run init [Alloc; Create bl KStd true VRange OwnPointer 0 None; Destroy 0] = Some (es, c) /\
  es = [0; ERR_BACKEND; 0] /\ c_h c = [] /\ In 0%nat (c_given c) /\ (forall x, In x (arrs (c_s c)) -> a_frees x = 0%nat) /\
  exists o, In o (objs (c_s c)) /\ r_ilive o = true /\ r_live o = false.
Proof.
  destruct bl; eexists _, _; (split; [vm_compute; reflexivity|]); cbn; repeat split; auto; try (intros x [<-|[<-|[]]]; reflexivity);
    try (intros x [<-|[]]; reflexivity); eexists; (split; [left; reflexivity|split; reflexivity]).
Qed.

(** Finding: CeedElemRestrictionCreateUnsignedCopy and CreateUnorientedCopy copy the number of readers of the original; a copy made while
    somebody reads the original can never be destroyed, although nobody reads it. *)
Theorem C67_copy_refuted : exists es c, run init [Alloc; Create false KOri true VOk CopyValues 0 (Some 0%nat); GetP GOri true 0; Copy 0; RestoreP GOri 0] = Some (es, c) /\
  es = [0; 0; 0; 0; 0] /\ c_rd c = [] /\ c_h c = [1%nat; 0%nat] /\
  forall k, exists c', run c (repeat (Destroy 1) (S k)) = Some (repeat ERR_ACCESS (S k), c').
Proof.
  eexists _, _. split; [vm_compute; reflexivity|]. repeat split.
  match goal with |- forall k, exists c', run ?c _ = _ => set (c0 := c) end.
  assert (G : forall k z, z <= 1 -> exists c', run (CL (put (c_s c0) 1 (setref (nth 1 (objs (c_s c0)) (RO false 0 0 None 0 (IM empty empty empty) false false)) z)) (c_h c0) (c_rd c0) (c_given c0) (c_used c0) (c_lost c0))
     (repeat (Destroy 1) k) = Some (repeat ERR_ACCESS k, c')).
  { induction k as [|k IH]; intros z Z; [eexists; reflexivity|]. cbn [repeat run].
    destruct (IH (z - 1) ltac:(lia)) as (c' & E).
    assert (S : forall z, z <= 1 -> step (CL (put (c_s c0) 1 (setref (nth 1 (objs (c_s c0)) (RO false 0 0 None 0 (IM empty empty empty) false false)) z)) (c_h c0) (c_rd c0) (c_given c0) (c_used c0) (c_lost c0)) (Destroy 1)
       = ODone ERR_ACCESS (CL (put (c_s c0) 1 (setref (nth 1 (objs (c_s c0)) (RO false 0 0 None 0 (IM empty empty empty) false false)) (z - 1))) (c_h c0) (c_rd c0) (c_given c0) (c_used c0) (c_lost c0))).
    { intros y Y. unfold c0. cbn -[Z.gtb Z.sub]. replace (y - 1 >? 0) with false by (symmetry; rewrite Z.gtb_ltb; apply Z.ltb_ge; lia). reflexivity. }
    rewrite (S z Z), E. eexists. reflexivity. }
  intros k. destruct (G (S k) 1 ltac:(lia)) as (c' & E). exists c'. rewrite <- E. reflexivity.
Qed.

(** Finding: CeedElemRestrictionRestoreOffsets and the functions for orientations do not check that something was obtained: a restore too
    many makes the count of readers wrap around, and the next reader is not counted: its pointer does not keep the restriction from
    being destroyed and then points to freed memory. *)
Theorem C67_restore_refuted : exists es c, run init [Alloc; Create false KStd true VOk CopyValues 0 None; GetP GOff true 0; RestoreP GOff 0; RestoreP GOff 0;
    GetP GOff true 0; Destroy 0] = Some (es, c) /\ es = [0; 0; 0; 0; 0; 0; 0] /\
  c_rd c = [(0%nat, Some 1%nat)] /\ exists x, nth_error (arrs (c_s c)) 1 = Some x /\ a_frees x = 1%nat.
Proof. eexists _, _. split; [vm_compute; reflexivity|]. split; [reflexivity|]. split; [reflexivity|]. eexists. split; reflexivity. Qed.

(** Finding: a refused CeedElemRestrictionDestroy has already lowered the count.  A reference taken after it is not counted in full: the next
    Destroy frees the restriction although a handle is left, and using that handle is undefined. *)
Theorem C67_refused_refuted : exists es c, run init [Alloc; Create false KStd true VOk CopyValues 0 None; GetP GOff true 0; Destroy 0; RestoreP GOff 0;
    Reference 0; Destroy 0] = Some (es, c) /\ es = [0; 0; 0; ERR_ACCESS; 0; 0; 0] /\ c_h c = [0%nat] /\ step c (Destroy 0) = OUndef /\ step c (GetP GOff true 0) = OUndef.
Proof. eexists _, _. split; [vm_compute; reflexivity|]. repeat split. Qed.

(** Finding: an unsigned copy of an unsigned copy releases a reference of the original that it never took (see also C07): here the
    second copy frees the arrays that the first copy still uses. *)
Theorem C67_copy_of_copy_refuted : exists es c, run init [Alloc; Create false KStd true VOk CopyValues 0 None; Copy 0; Destroy 0; Copy 1] = Some (es, c) /\
  es = [0; 0; 0; 0; 0] /\ c_h c = [2%nat; 1%nat] /\ step c (GetP GOff true 1) = OUndef /\ exists x, nth_error (arrs (c_s c)) 1 = Some x /\ a_frees x = 1%nat.
Proof. eexists _, _. split; [vm_compute; reflexivity|]. repeat split. eexists. split; reflexivity. Qed.

(** ** The checks on the sizes *)

(** With sizes that were accepted, padding for blocks reads only inside the arrays of the user (of ne * es entries). *)
Theorem C67_sizes k ne es bs nc cs ls b j i : sizes_ok true k ne es bs nc cs ls = true -> (k = KOri -> 0 <= ne) ->
  0 <= b < num_block ne bs -> 0 <= j < bs -> 0 <= i < es -> 0 <= pad_read ne es (b * bs) j i < ne * es.
Proof.
  intros S N B J I. unfold sizes_ok in S. rewrite !andb_true_iff in S. destruct S as ((((S1 & S2) & S3) & _) & _).
  assert (NE : 0 <= ne) by (destruct k; try (now apply Z.leb_le); auto). apply Z.ltb_lt in S2, S3.
  assert (P : 0 < ne).
  { destruct (Z.eq_dec ne 0) as [->|]; [|lia]. unfold num_block in B. rewrite Z.quot_0_l, Z.rem_0_l in B by lia. cbn in B. lia. }
  unfold pad_read. assert (Q : 0 <= Z.min (b * bs + j) (ne - 1) <= ne - 1) by nia. nia.
Qed.

(** Finding: CeedElemRestrictionCreateBlockedOriented does not check that the number of elements is not negative
    (ceed-elemrestriction.c:1012); with -1 elements it reads before the arrays of the user.  All other creation functions check. *)
Theorem C67_sizes_refuted : sizes_ok true KOri (-1) 1 2 1 1 0 = true /\ 0 < num_block (-1) 2 /\ pad_read (-1) 1 0 0 0 < 0 /\
  forall bl k ne es bs nc cs ls, (bl, k) <> (true, KOri) -> sizes_ok bl k ne es bs nc cs ls = true -> 0 <= ne.
Proof.
  repeat split. intros bl k ne es bs nc cs ls N S. unfold sizes_ok in S. rewrite !andb_true_iff in S. destruct S as ((((S1 & _) & _) & _) & _).
  destruct bl, k; try (now apply Z.leb_le); congruence.
Qed.

(** ** Concrete cases *)

(** the user's offsets are handed over, the restriction is copied and destroyed, and the copy is read and destroyed *)
Definition ex_ops : list op := [Alloc; Alloc; Create false KOri true VOk OwnPointer 0 (Some 1%nat); Copy 0; GetP GOff true 1; Destroy 0; RestoreP GOff 1].
Example ex_hist : exists es c, run init ex_ops = Some (es, c) /\ hist c /\ c_h c = [1%nat] /\ c_given c = [0%nat; 1%nat] /\ map a_frees (arrs (c_s c)) = [0%nat; 0%nat] /\
  rule c (Destroy 1) /\ exists c', step c (Destroy 1) = ODone 0 c' /\ hist c' /\ c_h c' = [] /\ map a_frees (arrs (c_s c')) = [1%nat; 1%nat].
Proof.
  destruct (run init ex_ops) as [[es c]|] eqn:E; [|vm_compute in E; discriminate].
  assert (H : hist c).
  { apply (kept_hist ex_ops init (es, c)); [constructor| |exact E]. unfold ex_ops. cbn [kept]. repeat (split; [|eexists; split; [vm_compute; reflexivity|]]); cbn; auto.
    - split; [|split; [|congruence]].
      + intros a [<-|[<-|[]]]; (split; [eexists; split; reflexivity|intros []]).
      + intros _. split; [|intros a _ []]. repeat constructor; cbn; intuition congruence.
    - split; [auto|]. intros o Eo. injection Eo as <-. auto.
    - split; [auto|]. eexists _, _. split; [reflexivity|]. left. reflexivity. }
  vm_compute in E. injection E as <- <-. eexists _, _. split; [reflexivity|]. split; [exact H|]. repeat split; try (cbn; auto; fail).
  eexists. split; [vm_compute; reflexivity|]. split; [|split; reflexivity]. eapply (hist_step _ (Destroy 1)); [exact H|cbn; auto|vm_compute; reflexivity|auto].
Qed.
(** the copy is read after the original was destroyed: the pointer is to the user's array, which is alive *)
Example ex_read : exists es c, run init (firstn 6 ex_ops) = Some (es, c) /\ c_rd c = [(0%nat, Some 0%nat)] /\ c_h c = [1%nat] /\
  exists c', step c (Destroy 1) = ODone ERR_ACCESS c'.
Proof. eexists _, _. split; [vm_compute; reflexivity|]. split; [reflexivity|]. split; [reflexivity|]. eexists. vm_compute. reflexivity. Qed.
Example ex_sizes : sizes_ok true KCurl 3 4 2 1 1 12 = true /\ num_block 3 2 = 2 /\ pad_read 3 12 2 1 11 = 35.
Proof. repeat split. Qed.

(** the rule that an array is handed over once is needed: two restrictions that own the same array free it twice *)
Example ex_twice m : run init ([Alloc; Create false KStd true VOk OwnPointer 0 None; Create false KStd true VOk m 0 None; Destroy 0] ++ match m with OwnPointer => [Destroy 1] | _ => [GetP GOff true 1; RestoreP GOff 1; Destroy 1] end) = None <-> m = OwnPointer.
Proof. destruct m; vm_compute; split; congruence. Qed.
Print Assumptions C67_defined.
Print Assumptions C67_once.
Print Assumptions C67_pointers.
Print Assumptions C67_handles.
Print Assumptions C67_released.
Print Assumptions C67_destroy.
Print Assumptions C67_blocked_refuted.
Print Assumptions C67_failed_refuted.
Print Assumptions C67_copy_refuted.
Print Assumptions C67_restore_refuted.
Print Assumptions C67_refused_refuted.
Print Assumptions C67_copy_of_copy_refuted.
Print Assumptions C67_sizes.
Print Assumptions C67_sizes_refuted.
