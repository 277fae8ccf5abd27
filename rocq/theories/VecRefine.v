(** * Refinement: one lemma per command, then whole histories *)
From Coq Require Import List ZArith Lia Bool Arith.
From Verif Require Import Prelude RstrModel VecModel VecSpec VecProofs VecSim VecStep.
Import ListNotations.
Set Implicit Arguments.
Local Open Scope Z_scope.

Section P.
Variable R : Rng.
Notation world := (world R). Notation astate := (astate R). Notation avec := (avec R).
Variables (fabs : R -> R) (gtb : R -> R -> bool) (sqrt : R -> R) (big : R -> bool) (inv : R -> R).
Notation step := (step fabs gtb sqrt big inv).
Notation astep := (astep fabs gtb sqrt big inv).

Ltac live H E y := unfold live; match goal with |- context [s_vecs ?s ?v] => destruct (s_vecs s v) as [y|] eqn:E; [|exact I] end.

Lemma ref_get : forall (w : world) s v host, Rel w s -> sim (s_get s v host) (step (CGet v host) w).
Proof.
  intros w s v host H. unfold s_get. live H E y. change (step (CGet v host) w) with (mbind (vec_get_array v host) (set_wptr v) w).
  destruct (locked y) eqn:L.
  - erewrite bind_err by (eapply get_locked; eauto). simpl; auto.
  - fold (bad y host). destruct (bad y host) eqn:B.
    + erewrite bind_err by (eapply get_bad; eauto). simpl; auto.
    + destruct (get_ok v host H E L B) as (w1 & R1 & Rel1 & S1). erewrite bind_ok by exact R1. simpl. split; auto.
      destruct (locked_wg v H E L) as (_ & _ & EV & _). destruct S1 as (<- & _).
      eapply Rel_seqv; [eapply Rel_wptr; eauto using s_vecs_sv|apply sv_sv]. simpl. rewrite even_S, EV. auto.
Qed.
Lemma ref_get_read : forall (w : world) s v host, Rel w s -> sim (s_get_read s v host) (step (CGetRead v host) w).
Proof.
  intros w s v host H. unfold s_get_read. live H E y. change (step (CGetRead v host) w) with (mbind (vec_get_read v host) (set_rptr v) w).
  destruct (busy y) eqn:L.
  - erewrite bind_err by (eapply read_busy; eauto). simpl; auto.
  - fold (bad y host). destruct (bad y host) eqn:B.
    + erewrite bind_err by (eapply read_bad; eauto). simpl; auto.
    + destruct (many y) eqn:MA; [exact I|].
      destruct (read_ok v host H E L B MA) as (w1 & R1 & Rel1 & S1). erewrite bind_ok by exact R1. simpl. split; auto.
      destruct S1 as (<- & _). eapply Rel_seqv; [eapply Rel_rptr; eauto using s_vecs_sv|apply sv_sv]. simpl.
      destruct (r_look v H E) as (x & Ex & HV). destruct HV as (_ & _ & _ & V4 & _). lia.
Qed.
Lemma ref_get_write : forall (w : world) s v host, Rel w s -> sim (s_get_write s v host) (step (CGetWrite v host) w).
Proof.
  intros w s v host H. unfold s_get_write. live H E y. change (step (CGetWrite v host) w) with (mbind (vec_get_write v host) (set_wptr v) w).
  destruct (locked y) eqn:L.
  - erewrite bind_err by (eapply write_locked; eauto). simpl; auto.
  - destruct (Nat.eqb_spec (a_len y) 0) as [Z|Z]; simpl.
    2: destruct host; simpl.
    + destruct (@write_ok R w s v y host H E L (or_introl Z)) as (w1 & R1 & Rel1 & G1). erewrite bind_ok by exact R1. simpl. split; auto.
      destruct (locked_wg v H E L) as (_ & _ & EV & _).
      eapply Rel_seqv; [eapply Rel_wptr; eauto using s_vecs_sv|apply sv_sv]. simpl. rewrite even_S, s_zero_even; auto.
    + destruct (@write_ok R w s v y true H E L (or_intror eq_refl)) as (w1 & R1 & Rel1 & G1). erewrite bind_ok by exact R1. simpl. split; auto.
      destruct (locked_wg v H E L) as (_ & _ & EV & _).
      eapply Rel_seqv; [eapply Rel_wptr; eauto using s_vecs_sv|apply sv_sv]. simpl. rewrite even_S, s_zero_even; auto.
    + destruct (write_dev v H E L Z) as (w1 & R1 & Rel1). erewrite bind_err by exact R1. simpl; auto.
Qed.
Lemma ref_restore : forall (w : world) s v, Rel w s -> sim (s_restore s v) (step (CRestore v) w).
Proof.
  intros w s v H. unfold s_restore. live H E y. destruct (busy y) eqn:B.
  - destruct (restore_ok v H E B) as (w1 & R1 & Rel1 & _). eapply sim_done; eauto.
  - eapply sim_fail; eauto. eapply restore_err; eauto.
Qed.
Lemma ref_restore_read : forall (w : world) s v, Rel w s -> sim (s_restore_read s v) (step (CRestoreRead v) w).
Proof.
  intros w s v H. unfold s_restore_read. live H E y. destruct (Z.ltb_spec 0 (a_readers y)) as [B|B].
  - destruct (restore_read_ok v H E B) as (w1 & R1 & Rel1 & _). eapply sim_done; eauto.
  - eapply sim_fail; eauto. eapply restore_read_err; eauto. apply Z.ltb_ge; auto.
Qed.
Lemma ref_take : forall (w : world) s v host, Rel w s -> sim (s_take s v host) (step (CTake v host) w).
Proof.
  intros w s v host H. unfold s_take. live H E y. change (step (CTake v host) w) with (mbind (vec_take_array v host) (fun p => ret (@OPtr R p)) w).
  unfold vec_take_array. destruct (locked y) eqn:L.
  - erewrite bind_err by (apply bind_err; erewrite unlocked_run by eauto; rewrite L; reflexivity). simpl; auto.
  - destruct (locked_wg v H E L) as (W & G & EV & _). destruct (r_look v H E) as (x & Ex & HV).
    unfold mbind at 1. erewrite bind_ok by (erewrite unlocked_run by eauto; rewrite L; reflexivity). erewrite bind_ok by (apply getv_run; eauto).
    destruct HV as (V1 & _ & _ & _ & _ & V6 & _). rewrite V1. unfold pos. destruct (Nat.eqb_spec (a_len y) 0) as [Z|Z].
    + rewrite Z. simpl. auto.
    + rewrite (proj2 (Nat.ltb_lt _ _)) by lia. destruct host; simpl.
      * erewrite bind_ok. 2:{ unfold has_borrowed. erewrite bind_ok by (apply getv_run; eauto). reflexivity. }
        unfold crel in V6. destruct (a_cont y) as [|l|n] eqn:C.
        -- destruct V6 as (_ & -> & _). simpl. auto.
        -- destruct V6 as (a & _ & -> & _). simpl. auto.
        -- destruct V6 as (Vo & Vb & Va & l & Hl & Hlen). rewrite Vb. cbn [isSome]. erewrite bind_ok by reflexivity.
           erewrite bind_ok by (eapply has_valid_run; eauto). unfold invalid. rewrite C, andb_false_r. cbn [negb]. erewrite bind_ok by reflexivity.
           unfold take_array_ref. erewrite bind_ok by reflexivity. erewrite bind_ok by (apply getv_run; eauto). simpl. rewrite Vb. split; auto.
           rewrite Vo. pose proof (@Rel_replace R w s v x y None None CEmpty None H Ex E W G (conj eq_refl (conj eq_refl eq_refl))) as RR.
           rewrite Vo in RR. exact RR.
      * erewrite bind_err. 2:{ unfold has_borrowed. erewrite bind_ok by (apply getv_run; eauto). reflexivity. } simpl. auto.
Qed.

Lemma user_ptr : forall (w : world) s n l, Rel w s -> s_user s n = Some l -> w_heap w (AU n) = Some l.
Proof. intros. eapply r_user; eauto. Qed.
Lemma granted : forall (w : world) s u z rdp, Rel w s -> s_vecs s u = Some z -> (if rdp : bool then a_rg z else a_wg z) = true ->
  (if rdp then w_rptr w u else w_wptr w u) = arr w u.
Proof.
  intros w s u z rdp H E G. destruct (r_look u H E) as (x & Ex & HV). destruct HV as (_ & _ & _ & _ & _ & _ & W & Q). unfold arr. rewrite Ex.
  destruct rdp; [apply Q|apply W]; auto.
Qed.
(** two vectors with the same array share a client block *)
Lemma arr_inj : forall (w : world) s u v z y, Rel w s -> s_vecs s u = Some z -> s_vecs s v = Some y -> u <> v -> arr w u = arr w v -> arr w u <> None -> same_block y z = true.
Proof.
  intros w s u v z y H Eu Ev N A NN. destruct (r_look u H Eu) as (x & Ex & HV). destruct (r_look v H Ev) as (x' & Ex' & HV').
  unfold arr in *. rewrite Ex, Ex' in *. destruct HV as (_ & _ & _ & _ & _ & V & _). destruct HV' as (_ & _ & _ & _ & _ & V' & _).
  unfold crel in *. unfold same_block. destruct (a_cont z), (a_cont y).
  - destruct V as (_ & _ & V); congruence.
  - destruct V as (_ & _ & V); congruence.
  - destruct V as (_ & _ & V); congruence.
  - destruct V' as (_ & _ & V'); congruence.
  - destruct V as (a & O & _ & B & _). destruct V' as (a' & O' & _ & B' & _). exfalso. apply N. eapply (r_inj H); eauto. congruence.
  - destruct V as (a & O & _ & B & _). destruct V' as (_ & _ & B' & m & Hm & _). rewrite B, B' in A. inversion A; subst. rewrite (r_dis H _ Ex O) in Hm. discriminate.
  - destruct V' as (_ & _ & V'); congruence.
  - destruct V' as (a & O & _ & B & _). destruct V as (_ & _ & B' & m & Hm & _). rewrite B, B' in A. inversion A; subst. rewrite (r_dis H _ Ex' O) in Hm. discriminate.
  - destruct V as (_ & _ & B & _). destruct V' as (_ & _ & B' & _). rewrite B, B' in A. inversion A; subst. apply Nat.eqb_refl.
Qed.

Lemma alloc_c_tick : forall (y : avec) k, a_cont (tick (alloc_c y) k) = a_cont (alloc_c y). Proof. auto. Qed.
Lemma ref_set_array : forall (w : world) s v host mode a, Rel w s -> sim (s_set_array s v host mode a) (step (CSetArray v host mode a) w).
Proof.
  intros w s v host mode a H. unfold s_set_array. live H E y.
  assert (SP: exists p, src_ptr a w = ROk p w) by (destruct a; simpl; eauto). destruct SP as (p & SP).
  change (step (CSetArray v host mode a) w) with (mbind (src_ptr a) (fun p => done (vec_set_array v host mode p)) w). rewrite (bind_ok _ _ _ SP).
  destruct (locked y) eqn:L; [eapply sim_fail; eauto; eapply sa_locked; eauto|].
  destruct (Nat.eqb_spec (a_len y) 0) as [Z|Z].
  { destruct (sa_zero v host mode p H E L Z) as (w1 & R1 & Rel1 & _). eapply sim_done; eauto. }
  destruct host; simpl negb; cbv iota; [|eapply sim_fail; eauto; eapply sa_dev; eauto].
  destruct mode.
  - (* copy *)
    fold (alloc_c y). cbv zeta.
    assert (Ly: a_len (tick (alloc_c y) 2) = a_len y) by (unfold alloc_c; destruct (a_cont y); auto).
    assert (KEY: forall b l, p = Some b -> w_heap w b = Some l -> arr w v <> Some b ->
       sim (match conts (sv s v (tick (alloc_c y) 2)) (tick (alloc_c y) 2) with
            | Some old => if Nat.leb (a_len (tick (alloc_c y) 2)) (length l) then AOk ODone (putc (sv s v (tick (alloc_c y) 2)) v (tick (alloc_c y) 2) (fill (a_len (tick (alloc_c y) 2)) (vf l) old)) else AIll
            | None => AIll end) (done (vec_set_array v true CopyValues p) w)).
    { intros b l -> Hb NA. rewrite Ly. destruct (Nat.leb_spec (a_len y) (length l)) as [Hl|Hl].
      2:{ destruct (conts _ _); exact I. }
      destruct (sa_copy v H E L Z Hb Hl NA) as (w1 & old & R1 & C1 & Rel1 & _).
      rewrite conts_sv, (conts_cont s (alloc_c y) (tick (alloc_c y) 2)) by auto. rewrite C1. eapply sim_done; eauto. }
    assert (VEC: forall u (rdp : bool), p = (if rdp then w_rptr w u else w_wptr w u) ->
       sim (match s_vecs (sv s v (tick (alloc_c y) 2)) u with
            | Some z => if (if rdp then a_rg z else a_wg z) then
                          if Nat.eqb u v || same_block (tick (alloc_c y) 2) z then AIll
                          else match conts (sv s v (tick (alloc_c y) 2)) z with Some l => if Nat.eqb (a_len z) 0 then AIll else 
                            match conts (sv s v (tick (alloc_c y) 2)) (tick (alloc_c y) 2) with
                             | Some old => if Nat.leb (a_len (tick (alloc_c y) 2)) (length l) then AOk ODone (putc (sv s v (tick (alloc_c y) 2)) v (tick (alloc_c y) 2) (fill (a_len (tick (alloc_c y) 2)) (vf l) old)) else AIll
                             | None => AIll end
                           | None => AIll end
                        else AIll
            | None => AIll
            end) (done (vec_set_array v true CopyValues p) w)).
    { intros u rdp Hp. destruct (Nat.eqb_spec u v) as [->|N].
      { rewrite s_vecs_sv. match goal with |- sim (if ?b then _ else _) _ => destruct b; exact I end. }
      rewrite s_vecs_sv' by auto. destruct (s_vecs s u) as [z|] eqn:Eu; [|exact I]. destruct (if rdp then a_rg z else a_wg z) eqn:G; [|exact I].
      cbn [orb]. destruct (same_block (tick (alloc_c y) 2) z) eqn:SB; [exact I|]. rewrite conts_sv. destruct (conts s z) as [l|] eqn:Cz; [|exact I].
      destruct (Nat.eqb (a_len z) 0); [exact I|]. destruct (Rel_arr u H Eu Cz) as (b & Ab & Hb & _).
      apply KEY with (b := b); auto.
      - rewrite Hp, (granted u rdp H Eu G). auto.
      - intro Q. assert (SB': same_block y z = true) by (eapply arr_inj with (u := u) (v := v); eauto; congruence).
        revert SB SB'. unfold same_block, alloc_c. simpl. destruct (a_cont y) eqn:Cy; try discriminate. simpl. rewrite Cy. destruct (a_cont z); congruence. }
    destruct a as [|n|u|u]; simpl in SP; inversion SP; subst p; clear SP.
    + destruct (sa_null v H E L Z) as (w1 & R1 & Rel1 & _). eapply sim_done; eauto.
    + change (s_user (sv s v (tick (alloc_c y) 2)) n) with (s_user s n). destruct (s_user s n) as [l|] eqn:U; [|exact I].
      pose proof (user_ptr n H U) as Hh.
      assert (K2: (forall m, a_cont (tick (alloc_c y) 2) = CShared m -> m <> n) -> arr w v <> Some (AU n)).
      { intros Q A. destruct (r_look v H E) as (x & Ex & HV). destruct HV as (_ & _ & _ & _ & _ & V & _). unfold arr in A. rewrite Ex in A.
        unfold crel in V. unfold alloc_c in Q. destruct (a_cont y) as [|lo|m] eqn:C.
        - destruct V as (_ & _ & V). congruence.
        - destruct V as (b & O & _ & B & _). rewrite A in B; inversion B; subst b. rewrite (r_dis H _ Ex O) in U. discriminate.
        - destruct V as (_ & _ & B & _). rewrite A in B; inversion B; subst m. eapply Q; eauto. }
      destruct (a_cont (tick (alloc_c y) 2)) as [|lo|m] eqn:C.
      * eapply KEY; eauto. apply K2. discriminate.
      * eapply KEY; eauto. apply K2. discriminate.
      * destruct (Nat.eqb_spec m n); [exact I|]. eapply KEY; eauto. apply K2. congruence.
    + exact (VEC u true eq_refl).
    + exact (VEC u false eq_refl).
  - (* use *)
    destruct a as [|n|u|u]; simpl in SP; inversion SP; subst p; clear SP; try exact I.
    + destruct (@sa_replace R w s v y UsePointer None CEmpty None) as (w1 & R1 & Rel1); auto; [discriminate|]. eapply sim_done; eauto.
    + destruct (s_user s n) as [l|] eqn:U; [|exact I]. destruct (Nat.ltb_spec (length l) (a_len y)); [exact I|].
      destruct (@sa_replace R w s v y UsePointer (Some (AU n)) (CShared n) None) as (w1 & R1 & Rel1); auto; [discriminate| |].
      { repeat split; auto. exists l. split; auto. lia. }
      eapply sim_done; eauto.
  - (* own *)
    destruct a as [|n|u|u]; simpl in SP; inversion SP; subst p; clear SP; try exact I.
    + destruct (@sa_replace R w s v y OwnPointer None CEmpty None) as (w1 & R1 & Rel1); auto; [discriminate|]. eapply sim_done; eauto.
    + destruct (s_user s n) as [l|] eqn:U; [|exact I]. destruct (shared_elsewhere s v n) eqn:SE; [exact I|]. simpl.
      destruct (Nat.ltb_spec (length l) (a_len y)); [exact I|].
      destruct (@sa_replace R w s v y OwnPointer (Some (AU n)) (COwn l) (Some n)) as (w1 & R1 & Rel1); auto; [discriminate| |].
      { split; auto. exists n. repeat split; auto; lia. }
      eapply sim_done; eauto.
Qed.

Lemma bad_true : forall y : avec, bad y true = invalid y.
Proof. intro. unfold bad. rewrite andb_false_r, orb_false_r. auto. Qed.
Lemma s_zero_valid : forall y : avec, invalid (s_zero y) = false.
Proof. intro y. unfold s_zero. destruct (invalid y) eqn:E; auto. unfold invalid. simpl. apply andb_false_r. Qed.
Lemma ref_set_value : forall (w : world) s v x, Rel w s -> sim (s_set_value s v x) (step (CSetValue v x) w).
Proof.
  intros w s v x H. unfold s_set_value. live H E y. destruct (locked y) eqn:L.
  { eapply sim_fail; eauto. unfold vec_set_value. apply bind_err. erewrite unlocked_run by eauto. rewrite L. auto. }
  destruct (locked_wg v H E L) as (W & G & EV & _). cbv zeta.
  destruct (@write_ok R w s v y true H E L (or_intror eq_refl)) as (w1 & R1 & Rel1 & G1).
  destruct (r_look v Rel1 (s_vecs_sv s v _)) as (x1 & Ex1 & HV1). destruct HV1 as (V1 & _). simpl in V1. rewrite s_zero_len in V1.
  destruct (Nat.eqb_spec (a_len y) 0) as [Z|Z].
  - assert (B: busy (tick (s_zero y) 1) = true) by (unfold busy; simpl; rewrite even_S, s_zero_even; auto).
    destruct (restore_ok v Rel1 (s_vecs_sv s v _) B) as (w2 & R2 & Rel2 & _).
    eapply sim_done with (w' := w2) (a := tt).
    + unfold vec_set_value. erewrite bind_ok by (erewrite unlocked_run by eauto; rewrite L; reflexivity). erewrite bind_ok by exact R1.
      erewrite bind_ok by (apply getv_run; eauto). rewrite V1, Z. erewrite bind_ok by reflexivity. exact R2.
    + eapply Rel_seqv; [exact Rel2|]. rewrite wg_tick2 by (rewrite s_zero_wg; auto). apply sv_sv.
  - destruct (Rel_conts v Rel1 (s_vecs_sv s v _)) as (l & C).
    { simpl. rewrite s_zero_len. lia. } { apply (s_zero_valid y). }
    rewrite conts_sv, (conts_cont _ (s_zero y) (tick (s_zero y) 1)) in C by auto.
    rewrite conts_sv, (conts_cont _ (s_zero y) (tick (s_zero y) 2)) by auto. rewrite C.
    assert (C1: conts (sv s v (tick (s_zero y) 1)) (tick (s_zero y) 1) = Some l) by (rewrite conts_sv; auto).
    destruct (Rel_arr v Rel1 (s_vecs_sv s v _) C1) as (d & A & Hd & Hl). cbn [a_len tick] in Hl. rewrite s_zero_len in Hl.
    destruct (@emap_ok R d [] (fun _ => x) (a_len y) w1 l Hd ltac:(lia)) as (w2 & R2 & Q2). { intros ? []. }
    destruct (@write_restore R w1 s v (s_zero y) l (fill (a_len y) (fun _ => x) l) d w2) as (w3 & R3 & Rel3); auto.
    { rewrite s_zero_wg; auto. } { apply s_zero_even; auto. } { apply fill_length; lia. }
    eapply sim_done; [|exact Rel3].
    unfold vec_set_value. erewrite bind_ok by (erewrite unlocked_run by eauto; rewrite L; reflexivity). erewrite bind_ok by exact R1.
    erewrite bind_ok by (apply getv_run; eauto). rewrite V1, A. erewrite bind_ok by exact R2. exact R3.
Qed.
Lemma fill_strided_length : forall a b c (f : nat -> R) l, length (fill_strided a b c f l) = length l.
Proof. intros. unfold fill_strided. rewrite map_length, seq_length. auto. Qed.
Lemma ref_set_value_strided : forall (w : world) s v start stop st x, Rel w s -> sim (s_set_value_strided s v start stop st x) (step (CSetValueStrided v start stop st x) w).
Proof.
  intros w s v start stop st x H. unfold s_set_value_strided. live H E y. change (step (CSetValueStrided v start stop st x) w) with (done (vec_set_value_strided v start stop st x) w).
  destruct (locked y) eqn:L.
  { eapply sim_fail; eauto. unfold vec_set_value_strided. apply bind_err. erewrite unlocked_run by eauto. rewrite L. auto. }
  destruct (r_look v H E) as (x1 & Ex1 & HV1). destruct HV1 as (V1 & _). cbv zeta.
  assert (RUN: vec_set_value_strided v start stop st x w = (let len := Z.of_nat (a_len y) in
     mbind (check ((-1 <=? stop) && (stop <=? len)) ERR_ACCESS) (fun _ => if len <=? 0 then ret tt
       else mbind (vec_get_array v true) (fun p => mbind (smap start (if stop =? -1 then len else stop) st p [] (fun _ => x)) (fun _ => vec_restore v))) w)).
  { unfold vec_set_value_strided. erewrite bind_ok by (erewrite unlocked_run by eauto; rewrite L; reflexivity). erewrite bind_ok by (apply getv_run; eauto).
    rewrite V1. reflexivity. }
  destruct ((-1 <=? stop) && (stop <=? Z.of_nat (a_len y))) eqn:B; simpl negb; cbv iota.
  2:{ eapply sim_fail; eauto. rewrite RUN. simpl. rewrite B. reflexivity. }
  destruct (Nat.eqb_spec (a_len y) 0) as [Z|Z].
  { eapply sim_done; eauto. rewrite RUN. simpl. rewrite B, Z. reflexivity. }
  assert (RUN2: vec_set_value_strided v start stop st x w = mbind (vec_get_array v true) (fun p => mbind (smap start (if stop =? -1 then Z.of_nat (a_len y) else stop) st p [] (fun _ => x)) (fun _ => vec_restore v)) w).
  { rewrite RUN. cbv zeta. rewrite B. erewrite bind_ok by reflexivity. rewrite (proj2 (Z.leb_gt _ _)) by lia. reflexivity. }
  destruct (invalid y) eqn:IV.
  { eapply sim_fail; eauto. rewrite RUN2. apply bind_err. eapply get_bad; eauto. rewrite bad_true; auto. }
  set (stop' := if stop =? -1 then Z.of_nat (a_len y) else stop) in *.
  destruct (Rel_conts v H E) as (l & C); auto; [lia|]. rewrite C.
  destruct ((start <? stop') && ((start <? 0) || (st <=? 0))) eqn:G; [exact I|].
  destruct (Rel_arr v H E C) as (_ & _ & _ & Hl).
  assert (Hs: stop' <= Z.of_nat (length l)).
  { unfold stop'. apply andb_prop in B. destruct B as (B1 & B2). apply Z.leb_le in B2. destruct (stop =? -1); lia. }
  destruct (@modify_ok R w s v y l (if start <? stop' then fill_strided (Z.to_nat start) (Z.to_nat stop') (Z.to_nat st) (fun _ => x) l else l)
              (fun p => smap start stop' st p [] (fun _ => x)) H E L C) as (w3 & R3 & Rel3).
  - destruct (start <? stop'); auto. apply fill_strided_length.
  - intros w1 a Ha. destruct (start <? stop') eqn:LT.
    + simpl in G. apply orb_false_iff in G. destruct G as (G1 & G2). apply Z.ltb_ge in G1. apply Z.leb_gt in G2.
      destruct (@smap_ok R a [] (fun _ => x) start stop' st w1 l) as (w2 & R2 & Q2); auto. { intros ? []. }
      rewrite LT in Q2. eauto.
    + exists w1. split; [|apply seth_id; auto]. unfold smap. apply Z.ltb_ge in LT. replace (Z.to_nat (stop' - start)) with 0%nat by lia. simpl.
      rewrite (proj2 (Z.ltb_ge _ _)) by lia. reflexivity.
  - eapply sim_done; [|exact Rel3]. rewrite RUN2. exact R3.
Qed.
Lemma ref_sync : forall (w : world) s v host, Rel w s -> sim (s_sync s v host) (step (CSync v host) w).
Proof.
  intros w s v host H. unfold s_sync. live H E y. change (step (CSync v host) w) with (done (vec_sync v host) w).
  destruct (r_look v H E) as (x & Ex & HV). unfold vec_sync. destruct (busy y) eqn:B.
  { eapply sim_fail; eauto. erewrite bind_ok by (apply getv_run; eauto). apply bind_err. rewrite (vrel_busy HV), B. reflexivity. }
  assert (RUN: vec_sync v host w = (if Nat.eqb (a_len y) 0 then ret tt else mbind (vec_get_read v host) (fun _ => vec_restore_read v)) w).
  { unfold vec_sync. erewrite bind_ok by (apply getv_run; eauto). rewrite (vrel_busy HV), B. erewrite bind_ok by reflexivity. destruct HV as (-> & _). auto. }
  fold (vec_sync (R:=R) v host). destruct (Nat.eqb_spec (a_len y) 0) as [Z|Z].
  { eapply sim_done; [rewrite RUN; reflexivity|auto]. }
  assert (BD: bad y host = invalid y || negb host). { unfold bad. destruct (Nat.eqb_spec (a_len y) 0); [lia|]. auto. }
  rewrite <- BD. destruct (bad y host) eqn:BB.
  { eapply sim_fail; eauto. rewrite RUN. apply bind_err. eapply read_bad; eauto. }
  destruct (many y) eqn:MA; [exact I|]. destruct (read_ok v host H E B BB MA) as (w1 & R1 & Rel1 & _).
  destruct (restore_read_ok v Rel1 (s_vecs_sv s v _)) as (w2 & R2 & Rel2 & _).
  { simpl. destruct HV as (_ & _ & _ & V4 & _). lia. }
  eapply sim_done with (w' := w2). { rewrite RUN. erewrite bind_ok by exact R1. exact R2. }
  eapply Rel_seqv; [exact Rel2|]. cbn [a_rg rd a_readers]. rewrite (rd_rd v H E). eapply seqv_trans; [apply sv_sv|apply sv_id; auto].
Qed.
Lemma invalid_empty : forall (w : world) s v y, Rel w s -> s_vecs s v = Some y -> invalid y = false -> a_len y <> 0%nat -> a_cont y <> CEmpty.
Proof. intros w s v y H E IV Z C. unfold invalid in IV. rewrite C in IV. destruct (Nat.eqb_spec (a_len y) 0); [contradiction|discriminate]. Qed.
Lemma ref_copy : forall (w : world) s v u, Rel w s -> sim (s_copy s v u) (step (CCopy v u) w).
Proof.
  intros w s v u H. unfold s_copy. live H E y. unfold live. destruct (s_vecs s u) as [z|] eqn:F; [|exact I].
  change (step (CCopy v u) w) with (done (vec_copy v u) w).
  destruct (r_look v H E) as (x & Ex & HV). destruct (r_look u H F) as (x' & Ex' & HV'). destruct HV as (V1 & _). destruct HV' as (V1' & _).
  assert (RUN: vec_copy v u w = mbind (check (Nat.eqb (a_len y) (a_len z)) ERR_INCOMPATIBLE) (fun _ => mbind (vec_get_array v true) (fun p => mbind (vec_set_array u true CopyValues p) (fun _ => vec_restore v))) w).
  { unfold vec_copy. erewrite bind_ok by (apply getv_run; eauto). erewrite bind_ok by (apply getv_run; eauto). rewrite V1, V1'. auto. }
  destruct (Nat.eqb_spec (a_len y) (a_len z)) as [LE|LE]; simpl negb; cbv iota.
  2:{ eapply sim_fail; [rewrite RUN; reflexivity|auto]. }
  erewrite bind_ok in RUN by reflexivity.
  destruct (locked y) eqn:L. { eapply sim_fail; eauto. rewrite RUN. apply bind_err. eapply get_locked; eauto. }
  destruct (invalid y) eqn:IV. { eapply sim_fail; eauto. rewrite RUN. apply bind_err. eapply get_bad; eauto. rewrite bad_true; auto. }
  destruct (locked_wg v H E L) as (W & G & EV & _).
  destruct (get_ok v true H E L) as (w1 & R1 & Rel1 & S1). { rewrite bad_true; auto. }
  assert (BU: busy (tick y 1) = true) by (unfold busy; simpl; rewrite even_S, EV; auto).
  destruct (Nat.eqb_spec v u) as [->|N].
  { simpl. eapply sim_fail; eauto. rewrite RUN. erewrite bind_ok by exact R1. apply bind_err. eapply sa_locked; eauto using s_vecs_sv.
    unfold locked. rewrite BU. auto. }
  assert (F1: s_vecs (sv s v (tick y 1)) u = Some z) by (rewrite s_vecs_sv'; auto).
  simpl orb. destruct (locked z) eqn:Lz. { eapply sim_fail; eauto. rewrite RUN. erewrite bind_ok by exact R1. apply bind_err. eapply sa_locked; eauto. }
  destruct (Nat.eqb_spec (a_len y) 0) as [Z|Z].
  { destruct (sa_zero u true CopyValues (arr w v) Rel1 F1 Lz) as (w2 & R2 & Rel2 & _); [congruence|].
    assert (E2: s_vecs (sv (sv s v (tick y 1)) u (tick z 2)) v = Some (tick y 1)) by (rewrite s_vecs_sv' by auto; apply s_vecs_sv).
    destruct (restore_ok v Rel2 E2 BU) as (w3 & R3 & Rel3 & _).
    eapply sim_done. { rewrite RUN. erewrite bind_ok by exact R1. erewrite bind_ok by exact R2. exact R3. }
    eapply Rel_seqv; [exact Rel3|]. rewrite wg_tick2 by auto. eapply seqv_trans; [apply sv_comm; auto|]. apply sv_cong. apply sv_sv. }
  destruct (same_block y z) eqn:SB; [exact I|]. fold (alloc_c z). cbv zeta.
  destruct (Rel_conts v H E) as (l & C); auto; [lia|]. rewrite C.
  destruct (Rel_arr v H E C) as (a & A & Ha & Hl). rewrite A in R1. destruct S1 as (S1a & S1h & _).
  destruct (@sa_copy R w1 _ u z a l Rel1 F1 Lz ltac:(lia)) as (w2 & old & R2 & C2 & Rel2 & A2).
  { rewrite S1h; auto. } { lia. }
  { rewrite S1a. intro Q. assert (SB': same_block y z = true) by (eapply arr_inj with (u := u) (v := v) (w := w) (s := s); eauto; rewrite ?A, ?Q; congruence). congruence. }
  rewrite conts_sv in C2. rewrite conts_sv. rewrite (conts_cont _ (alloc_c z) (tick (alloc_c z) 2)) by auto. rewrite conts_sv, C2.
  set (z' := tick (alloc_c z) 2) in *. set (l' := fill (a_len z) (vf l) old) in *.
  assert (E2: s_vecs (putc (sv (sv s v (tick y 1)) u z') u z' l') v = Some (tick y 1)).
  { rewrite s_vecs_putc' by auto. rewrite s_vecs_sv' by auto. apply s_vecs_sv. }
  destruct (restore_ok v Rel2 E2 BU) as (w3 & R3 & Rel3 & _).
  eapply sim_done. { rewrite RUN. erewrite bind_ok by exact R1. erewrite bind_ok by exact R2. exact R3. }
  eapply Rel_seqv; [exact Rel3|]. rewrite wg_tick2 by auto. eapply seqv_trans; [apply putc_sv'; auto|]. apply putc_cong.
  eapply seqv_trans; [apply sv_comm; auto|]. apply sv_cong. apply sv_sv.
Qed.

Lemma ref_copy_strided : forall (w : world) s v start stop st u, Rel w s -> sim (s_copy_strided s v start stop st u) (step (CCopyStrided v start stop st u) w).
Proof.
  intros w s v start stop st u H. unfold s_copy_strided. live H E y. unfold live. destruct (s_vecs s u) as [z|] eqn:F; [|exact I].
  change (step (CCopyStrided v start stop st u) w) with (done (vec_copy_strided v start stop st u) w).
  destruct (r_look v H E) as (x & Ex & HV). destruct (r_look u H F) as (x' & Ex' & HV'). destruct HV as (V1 & _ & _ & V4 & _). destruct HV' as (V1' & _).
  set (len := Z.of_nat (Nat.min (a_len y) (a_len z))).
  assert (RUN: vec_copy_strided v start stop st u w = (if (Nat.eqb (a_len y) 0 || Nat.eqb (a_len z) 0)%bool then ret tt else
     mbind (check ((-1 <=? stop) && (stop <=? len)) ERR_ACCESS) (fun _ => mbind (check ((0 <=? start) && (start <=? len) && ((start <=? stop) || (stop =? -1))) ERR_ACCESS) (fun _ =>
      mbind (vec_get_read v true) (fun p => mbind (vec_get_array u true) (fun q =>
        mbind (smap start (if stop =? -1 then len else stop) st q [p] (fun l => hd 0%R l)) (fun _ => mbind (vec_restore_read v) (fun _ => vec_restore u))))))) w).
  { unfold vec_copy_strided. erewrite bind_ok by (apply getv_run; eauto). erewrite bind_ok by (apply getv_run; eauto). rewrite V1, V1'. auto. }
  destruct ((Nat.eqb (a_len y) 0 || Nat.eqb (a_len z) 0)%bool) eqn:Z. { eapply sim_done; [rewrite RUN; reflexivity|auto]. }
  apply orb_false_iff in Z. destruct Z as (Zy & Zz). apply Nat.eqb_neq in Zy, Zz. cbv zeta. fold len.
  destruct ((-1 <=? stop) && (stop <=? len)) eqn:C1. 2:{ simpl. eapply sim_fail; [rewrite RUN; reflexivity|auto]. }
  destruct ((0 <=? start) && (start <=? len) && ((start <=? stop) || (stop =? -1))) eqn:C2. 2:{ simpl. eapply sim_fail; [rewrite RUN; reflexivity|auto]. }
  simpl andb. cbn [negb]. cbv iota. erewrite bind_ok in RUN by reflexivity. erewrite bind_ok in RUN by reflexivity.
  destruct (busy y) eqn:B. { eapply sim_fail; eauto. rewrite RUN. apply bind_err. eapply read_busy; eauto. }
  destruct (invalid y) eqn:IV. { eapply sim_fail; eauto. rewrite RUN. apply bind_err. eapply read_bad; eauto. rewrite bad_true; auto. }
  destruct (many y) eqn:MA; [exact I|].
  destruct (read_ok v true H E B) as (w1 & R1 & Rel1 & S1); auto. { rewrite bad_true; auto. } erewrite bind_ok in RUN by exact R1.
  destruct (Nat.eqb_spec v u) as [->|N].
  { simpl. eapply sim_fail; eauto. rewrite RUN. apply bind_err. eapply get_locked; eauto using s_vecs_sv.
    unfold locked. simpl. rewrite (proj2 (Z.eqb_neq _ _)) by lia. apply orb_true_r. }
  simpl orb. assert (F1: s_vecs (sv s v (rd y 1)) u = Some z) by (rewrite s_vecs_sv'; auto).
  destruct (locked z) eqn:Lz. { eapply sim_fail; eauto. rewrite RUN. apply bind_err. eapply get_locked; eauto. }
  destruct (invalid z) eqn:IVz. { eapply sim_fail; eauto. rewrite RUN. apply bind_err. eapply get_bad; eauto. rewrite bad_true; auto. }
  destruct (get_ok u true Rel1 F1 Lz) as (w2 & R2 & Rel2 & S2). { rewrite bad_true; auto. } erewrite bind_ok in RUN by exact R2.
  set (stop' := if stop =? -1 then len else stop) in *.
  destruct ((start <? stop') && (st <=? 0)) eqn:G; [exact I|].
  destruct (Rel_conts v H E) as (l & C); auto; [lia|]. destruct (Rel_conts u H F) as (old & Co); auto; [lia|]. rewrite C, Co.
  destruct (Rel_arr v H E C) as (a & A & Ha & Hl). destruct (Rel_arr u H F Co) as (d & D & Hd & Hld).
  assert (SS: same w w2) by (eapply same_trans; eauto). destruct SS as (Sa & Sh & _).
  destruct (locked_wg u H F Lz) as (W & _ & EV & _).
  apply andb_prop in C1. destruct C1 as (C11 & C12). apply Z.leb_le in C11, C12.
  apply andb_prop in C2. destruct C2 as (C2 & C23). apply andb_prop in C2. destruct C2 as (C21 & C22). apply Z.leb_le in C21, C22.
  assert (Hst: stop' <= len) by (unfold stop'; destruct (stop =? -1); lia).
  assert (Hg: 0 < st \/ stop' <= start).
  { destruct (Z.ltb_spec start stop'); [|lia]. simpl in G. apply Z.leb_gt in G. auto. }
  destruct (@smap_ok R d [a] (fun l => hd 0%R l) start stop' st w2 old) as (w3 & R3 & Q3); auto.
  { unfold len in *. lia. } { rewrite Sh; auto. }
  { intros b [<-|[]]. exists l. rewrite Sh. split; auto. unfold len in *. lia. }
  destruct S1 as (S1a & _). rewrite S1a, A, D in RUN. erewrite bind_ok in RUN by exact R3.
  assert (HP: hp w2 a = l) by (unfold hp; rewrite Sh, Ha; auto).
  set (l' := if start <? stop' then fill_strided (Z.to_nat start) (Z.to_nat stop') (Z.to_nat st) (vf l) old else old).
  assert (Q3': weq w3 (seth w2 d (Some l'))).
  { unfold l'. simpl map in Q3. rewrite HP in Q3. exact Q3. }
  assert (Rel3: Rel w3 (putc (sv (sv s v (rd y 1)) u (tick z 1)) u (tick z 1) l')).
  { eapply Rel_weq; [|exact Q3']. eapply Rel_write with (l := old); [exact Rel2|apply s_vecs_sv|rewrite !conts_sv; exact Co|rewrite Sa; exact D|]. unfold l'. destruct (start <? stop'); auto. apply fill_strided_length. }
  assert (E3: s_vecs (putc (sv (sv s v (rd y 1)) u (tick z 1)) u (tick z 1) l') v = Some (rd y 1)).
  { rewrite s_vecs_putc' by auto. rewrite s_vecs_sv' by auto. apply s_vecs_sv. }
  destruct (restore_read_ok v Rel3 E3) as (w4 & R4 & Rel4 & _). { simpl. lia. } erewrite bind_ok in RUN by exact R4.
  cbn [a_rg rd a_readers] in Rel4. rewrite (rd_rd v H E) in Rel4.
  assert (Rel5: Rel w4 (putc (sv s u (tick z 1)) u (tick z 1) l')).
  { eapply Rel_seqv; [exact Rel4|]. eapply seqv_trans; [apply putc_sv'; auto|]. apply putc_cong. eapply seqv_trans; [apply sv_comm; auto|]. apply sv_cong.
    eapply seqv_trans; [apply sv_sv|apply sv_id; auto]. }
  assert (BU: busy (newc (tick z 1) l') = true).
  { unfold busy, newc. destruct (a_cont _); simpl; rewrite even_S, EV; auto. }
  destruct (restore_ok u Rel5 (s_vecs_putc _ _ _ (s_vecs_sv s u (tick z 1))) BU) as (w5 & R5 & Rel6 & _).
  eapply sim_done. { rewrite RUN. exact R5. }
  eapply Rel_seqv; [exact Rel6|]. eapply seqv_trans.
  - apply (putc_sv (fun y => wg (tick y 1) false)); auto using s_vecs_sv.
  - rewrite wg_tick2 by auto. apply putc_cong, sv_sv.
Qed.
Lemma ref_norm : forall (w : world) s v nt, Rel w s -> sim (s_norm fabs gtb sqrt s v nt) (step (CNorm v nt) w).
Proof.
  intros w s v nt H. unfold s_norm. live H E y. change (step (CNorm v nt) w) with (mbind (vec_norm fabs gtb sqrt v nt) (fun x => ret (OVal x)) w).
  destruct (r_look v H E) as (x & Ex & HV). destruct HV as (V1 & _ & _ & V4 & _).
  destruct (invalid y) eqn:IV.
  { erewrite bind_err; [simpl; split; eauto|]. unfold vec_norm. erewrite bind_ok by (eapply has_valid_run; eauto). rewrite IV. reflexivity. }
  assert (RUN: vec_norm fabs gtb sqrt v nt w = (if Nat.eqb (a_len y) 0 then ret 0%R else
      mbind (vec_get_read v true) (fun p => mbind (norm_loop fabs gtb nt p (a_len y) 0%nat 0%R) (fun s => mbind (vec_restore_read v) (fun _ => ret match nt with Norm2 => sqrt s | _ => s end)))) w).
  { unfold vec_norm. erewrite bind_ok by (eapply has_valid_run; eauto). rewrite IV. erewrite bind_ok by reflexivity. erewrite bind_ok by (apply getv_run; eauto).
    rewrite V1. reflexivity. }
  destruct (Nat.eqb_spec (a_len y) 0) as [Z|Z]. { erewrite bind_ok by (rewrite RUN; reflexivity). simpl; auto. }
  destruct (busy y) eqn:B. { erewrite bind_err; [simpl; eauto|]. rewrite RUN. apply bind_err. eapply read_busy; eauto. }
  destruct (many y) eqn:MA; [exact I|].
  destruct (read_ok v true H E B) as (w1 & R1 & Rel1 & S1); auto. { rewrite bad_true; auto. } erewrite bind_ok in RUN by exact R1.
  destruct (Rel_conts v H E) as (l & C); auto; [lia|]. rewrite C. destruct (Rel_arr v H E C) as (a & A & Ha & Hl). rewrite A in RUN.
  destruct S1 as (_ & Sh & _). erewrite bind_ok in RUN by (apply norm_run with (l := l); [rewrite Sh; auto|lia]). simpl skipn in RUN.
  destruct (restore_read_ok v Rel1 (s_vecs_sv s v _)) as (w2 & R2 & Rel2 & _). { simpl. lia. } erewrite bind_ok in RUN by exact R2.
  erewrite bind_ok by exact RUN. simpl. split.
  - unfold norm_of. destruct nt; auto.
  - eapply Rel_seqv; [exact Rel2|]. cbn [a_rg rd a_readers]. rewrite (rd_rd v H E). eapply seqv_trans; [apply sv_sv|apply sv_id; auto].
Qed.
Lemma conts_len : forall (w : world) s v y l, Rel w s -> s_vecs s v = Some y -> conts s y = Some l -> (a_len y <= length l)%nat.
Proof. intros w s v y l H E C. destruct (Rel_arr v H E C) as (a & _ & _ & ?). lia. Qed.
Lemma emap1 : forall (w : world) a l n (f : R -> R) (g : list R -> R), (forall x, g [x] = f x) -> w_heap w a = Some l -> (n <= length l)%nat ->
  exists w2, emap n (Some a) [Some a] g w = ROk tt w2 /\ weq w2 (seth w a (Some (fill n (fun i => f (vf l i)) l))).
Proof.
  intros w a l n f g Hg Ha Hn. destruct (@emap_ok R a [a] g n w l Ha Hn) as (w2 & R2 & Q2). { intros b [<-|[]]. eauto. }
  exists w2. split; auto. unfold fill in *. erewrite map_ext; [exact Q2|]. intro i. simpl. rewrite Hg. unfold hp. rewrite Ha. auto.
Qed.
Lemma ref_modify : forall (w : world) s v (f : R -> R) (g : list R -> R) (m : M R unit), Rel w s -> (forall x, g [x] = f x) ->
  (forall y, s_vecs s v = Some y -> m w = mbind (has_valid v) (fun h => mbind (check h ERR_BACKEND) (fun _ => mbind (getv v) (fun x =>
    if Nat.eqb (v_len x) 0 then ret tt else mbind (vec_get_array v true) (fun p => mbind (emap (v_len x) p [p] g) (fun _ => vec_restore v))))) w) ->
  sim (s_modify s v f) (done m w).
Proof.
  intros w s v f g m H Hg RUN. unfold s_modify. live H E y. specialize (RUN y eq_refl).
  destruct (r_look v H E) as (x & Ex & HV). destruct HV as (V1 & _ & _ & V4 & _).
  erewrite bind_ok in RUN by (eapply has_valid_run; eauto).
  destruct (invalid y) eqn:IV. { eapply sim_fail; [rewrite RUN; reflexivity|auto]. }
  erewrite bind_ok in RUN by reflexivity. erewrite bind_ok in RUN by (apply getv_run; eauto). rewrite V1 in RUN.
  destruct (Nat.eqb_spec (a_len y) 0) as [Z|Z]. { eapply sim_done; [rewrite RUN; reflexivity|auto]. }
  destruct (locked y) eqn:L. { eapply sim_fail; [|eauto]. rewrite RUN. apply bind_err. eapply get_locked; eauto. }
  destruct (Rel_conts v H E) as (l & C); auto; [lia|]. rewrite C. pose proof (conts_len v H E C) as Hl.
  destruct (@modify_ok R w s v y l (fill (a_len y) (fun i => f (vf l i)) l) (fun p => emap (a_len y) p [p] g) H E L C) as (w3 & R3 & Rel3).
  - apply fill_length; auto.
  - intros w1 a Ha. apply emap1; auto.
  - eapply sim_done; [|exact Rel3]. rewrite RUN. exact R3.
Qed.
Lemma ref_recip : forall (w : world) s v, Rel w s -> sim (s_recip big inv s v) (step (CRecip v) w).
Proof.
  intros w s v H. unfold s_recip. live H E y. change (step (CRecip v) w) with (done (vec_reciprocal big inv v) w).
  destruct (r_look v H E) as (x & Ex & HV). destruct HV as (V1 & V2 & _ & V4 & _).
  pose proof (mod_pos (a_clock y)) as MP. rewrite <- V2 in MP.
  destruct (invalid y) eqn:IV.
  { eapply sim_fail; [|eauto]. unfold vec_reciprocal. erewrite bind_ok by (eapply has_valid_run; eauto). rewrite IV. reflexivity. }
  rewrite <- V2. destruct (Z.eqb_spec (v_state x) 0) as [Q|Q].
  { eapply sim_fail; [|eauto]. unfold vec_reciprocal. erewrite bind_ok by (eapply has_valid_run; eauto). rewrite IV. erewrite bind_ok by reflexivity.
    erewrite bind_ok by (apply getv_run; eauto). rewrite Q. reflexivity. }
  apply ref_modify with (g := fun l => let y := hd 0%R l in if big y then inv y else y); auto.
  intros y' _. unfold vec_reciprocal, mbind. rewrite (has_valid_run v H E), IV. simpl. unfold check, ret, getv. rewrite Ex.
  rewrite (proj2 (Z.ltb_lt _ _)) by lia. reflexivity.
Qed.
Lemma ref_axp : forall (w : world) s (f : R -> R -> R) y x, Rel w s -> sim (s_axp f s y x) (done (vec_axp f y x) w).
Proof.
  intros w s f y x H. unfold s_axp. live H E yy. unfold live. destruct (s_vecs s x) as [xx|] eqn:F; [|exact I].
  destruct (r_look y H E) as (vy & Ey & HV). destruct (r_look x H F) as (vx & Ex' & HV'). destruct HV as (V1 & _ & _ & V4 & _). destruct HV' as (V1' & _ & _ & V4' & _).
  assert (RUN: vec_axp f y x w = mbind (check (Nat.eqb (a_len xx) (a_len yy)) ERR_UNSUPPORTED) (fun _ => mbind (check (negb (Nat.eqb x y)) ERR_UNSUPPORTED) (fun _ =>
    mbind (has_valid x) (fun h => mbind (check h ERR_BACKEND) (fun _ => mbind (has_valid y) (fun h => mbind (check h ERR_BACKEND) (fun _ =>
    if Nat.eqb (a_len yy) 0 then ret tt
    else mbind (vec_get_array y true) (fun p => mbind (vec_get_read x true) (fun q => mbind
         (emap (a_len yy) p [q; p] (fun l => f (nth 0 l 0%R) (nth 1 l 0%R))) (fun _ => mbind (vec_restore y) (fun _ => vec_restore_read x)))))))))) w).
  { unfold vec_axp. erewrite bind_ok by (apply getv_run; eauto). erewrite bind_ok by (apply getv_run; eauto). rewrite V1, V1'. reflexivity. }
  destruct (Nat.eqb_spec (a_len xx) (a_len yy)) as [LE|LE]. 2:{ eapply sim_fail; [rewrite RUN; reflexivity|auto]. }
  simpl. erewrite bind_ok in RUN by reflexivity.
  destruct (Nat.eqb_spec x y) as [|N]. { eapply sim_fail; [rewrite RUN; reflexivity|auto]. }
  simpl. erewrite bind_ok in RUN by reflexivity. erewrite bind_ok in RUN by (eapply has_valid_run; eauto).
  destruct (invalid xx) eqn:IVx. { eapply sim_fail; [rewrite RUN; reflexivity|auto]. } simpl.
  erewrite bind_ok in RUN by reflexivity. erewrite bind_ok in RUN by (eapply has_valid_run; eauto).
  destruct (invalid yy) eqn:IVy. { eapply sim_fail; [rewrite RUN; reflexivity|auto]. } simpl. erewrite bind_ok in RUN by reflexivity.
  destruct (Nat.eqb_spec (a_len yy) 0) as [Z|Z]. { eapply sim_done; [rewrite RUN; reflexivity|auto]. }
  destruct (locked yy) eqn:L. { eapply sim_fail; [|eauto]. rewrite RUN. apply bind_err. eapply get_locked; eauto. }
  destruct (get_ok y true H E L) as (w1 & R1 & Rel1 & S1). { rewrite bad_true; auto. } erewrite bind_ok in RUN by exact R1.
  assert (F1: s_vecs (sv s y (tick yy 1)) x = Some xx) by (rewrite s_vecs_sv'; auto).
  destruct (busy xx) eqn:B. { eapply sim_fail; [|eauto]. rewrite RUN. apply bind_err. eapply read_busy; eauto. }
  destruct (many xx) eqn:MA; [exact I|].
  destruct (read_ok x true Rel1 F1 B) as (w2 & R2 & Rel2 & S2); auto. { rewrite bad_true; auto. } erewrite bind_ok in RUN by exact R2.
  destruct (Rel_conts x H F) as (lx & Cx); auto; [lia|]. destruct (Rel_conts y H E) as (ly & Cy); auto; [lia|]. rewrite Cx, Cy.
  destruct (Rel_arr x H F Cx) as (a & A & Ha & Hl). destruct (Rel_arr y H E Cy) as (d & D & Hd & Hld).
  assert (SS: same w w2) by (eapply same_trans; eauto). destruct SS as (Sa & Sh & _). destruct S1 as (S1a & _).
  destruct (locked_wg y H E L) as (W & _ & EV & _).
  destruct (@emap_ok R d [a; d] (fun l => f (nth 0 l 0%R) (nth 1 l 0%R)) (a_len yy) w2 ly) as (w3 & R3 & Q3); auto.
  { rewrite Sh; auto. } { lia. } { intros b [<-|[<-|[]]]; rewrite Sh; [exists lx|exists ly]; split; auto; lia. }
  rewrite S1a, A, D in RUN. simpl map in R3. erewrite bind_ok in RUN by exact R3.
  set (l' := fill (a_len yy) (fun i => f (vf lx i) (vf ly i)) ly).
  assert (Q3': weq w3 (seth w2 d (Some l'))).
  { unfold l'. simpl in Q3. unfold hp in Q3. rewrite Sh, Ha, Hd in Q3. exact Q3. }
  assert (Rel2': Rel w2 (sv (sv s x (rd xx 1)) y (tick yy 1))) by (eapply Rel_seqv; [exact Rel2|apply sv_comm; auto]).
  destruct (@write_restore R w2 (sv s x (rd xx 1)) y yy ly l' d w3) as (w4 & R4 & Rel4); auto.
  { rewrite Sa; auto. } { apply fill_length; lia. } erewrite bind_ok in RUN by exact R4.
  assert (F4: s_vecs (putc (sv (sv s x (rd xx 1)) y (tick yy 2)) y (tick yy 2) l') x = Some (rd xx 1)).
  { rewrite s_vecs_putc' by auto. rewrite s_vecs_sv' by auto. apply s_vecs_sv. }
  destruct (restore_read_ok x Rel4 F4) as (w5 & R5 & Rel5 & _). { simpl. lia. }
  eapply sim_done. { rewrite RUN. exact R5. }
  cbn [a_rg rd a_readers] in Rel5. rewrite (rd_rd x H F) in Rel5. eapply Rel_seqv; [exact Rel5|].
  eapply seqv_trans; [apply putc_sv'; auto|]. apply putc_cong. eapply seqv_trans; [apply sv_comm; auto|]. apply sv_cong.
  eapply seqv_trans; [apply sv_sv|apply sv_id; auto].
Qed.
Lemma ref_reference : forall (w : world) s v y, Rel w s -> s_vecs s v = Some y -> sim (AOk ODone (sv s v (rf y 1))) (step (CRef v) w).
Proof.
  intros w s v y H E. change (step (CRef v) w) with (done (vec_reference v) w). destruct (r_look v H E) as (x & Ex & HV).
  destruct HV as (V1 & V2 & V3 & V4 & V5 & V6 & V7 & V8).
  eapply sim_done. { unfold vec_reference. erewrite bind_ok by (apply getv_run; eauto). reflexivity. }
  eapply Rel_counters with (y' := rf y 1); eauto; simpl; try congruence; try lia.
Qed.
Lemma ref_destroy : forall (w : world) s v, Rel w s -> sim (s_destroy s v) (step (CDestroy v) w).
Proof.
  intros w s v H. unfold s_destroy. live H E y. change (step (CDestroy v) w) with (done (vec_destroy v) w). destruct (r_look v H E) as (x & Ex & HV).
  destruct HV as (V1 & V2 & V3 & V4 & V5 & V6 & V7 & V8). cbv zeta.
  assert (Rel1: Rel (setv w v (Some (with_refs x (v_refs x - 1)))) (sv s v (rf y (-1)))).
  { eapply Rel_counters with (y' := rf y (-1)); eauto; simpl; try congruence; try lia. }
  assert (RUN: vec_destroy v w = (if 0 <? a_refs y - 1 then ret tt else mbind (unlocked v) (fun _ => mbind (free (v_owned x)) (fun _ => fun w => ROk tt (setv w v None)))) (setv w v (Some (with_refs x (v_refs x - 1))))).
  { unfold vec_destroy. erewrite bind_ok by (apply getv_run; eauto). erewrite bind_ok by reflexivity. simpl. rewrite V5. reflexivity. }
  assert (V: w_vecs (setv w v (Some (with_refs x (v_refs x - 1)))) v = Some (with_refs x (v_refs x - 1))) by (simpl; apply nupd_same).
  cbn [a_refs rf]. change (a_refs y + -1) with (a_refs y - 1). destruct (0 <? a_refs y - 1) eqn:Q. { eapply sim_done; [rewrite RUN; reflexivity|auto]. }
  change (locked (rf y (-1))) with (locked y). destruct (locked y) eqn:L.
  { eapply sim_fail; [|eauto]. rewrite RUN. apply bind_err. erewrite unlocked_run by (eauto using s_vecs_sv). change (locked (rf y (-1))) with (locked y). rewrite L. reflexivity. }
  eapply sim_done. { rewrite RUN. erewrite bind_ok by (erewrite unlocked_run by (eauto using s_vecs_sv); change (locked (rf y (-1))) with (locked y); rewrite L; reflexivity).
    erewrite bind_ok by (apply (@free_run R _ _ v _ Rel1 V)). reflexivity. }
  eapply Rel_seqv; [apply (@Rel_destroy R _ _ v _ Rel1 V)|]. repeat split; auto. intro k. simpl. unfold nupd. destruct (Nat.eqb k v); auto.
Qed.
Lemma load_run : forall (w : world) a l i, w_heap w a = Some l -> (i < length l)%nat -> load (Some a) (Z.of_nat i) w = ROk (vf l i) w.
Proof.
  intros w a l i E L. unfold load. rewrite E. unfold getZ. replace (Z.of_nat i <? 0) with false by (symmetry; apply Z.ltb_ge; lia).
  rewrite Nat2Z.id, (get_Some _ 0%R L). reflexivity.
Qed.
Lemma ref_vread : forall (w : world) s v i (rdp : bool), Rel w s -> 
  sim (live s v (fun y => if (if rdp then a_rg y else a_wg y) && Nat.ltb i (a_len y) then match conts s y with Some l => AOk (OVal (vf l i)) s | None => AIll end else AIll))
      (mbind (load (if rdp then w_rptr w v else w_wptr w v) (Z.of_nat i)) (fun x => ret (OVal x)) w).
Proof.
  intros w s v i rdp H. live H E y. destruct (if rdp then a_rg y else a_wg y) eqn:G; [|exact I]. simpl. destruct (Nat.ltb_spec i (a_len y)) as [Li|Li]; [|exact I].
  destruct (conts s y) as [l|] eqn:C; [|exact I]. destruct (Rel_arr v H E C) as (a & A & Ha & Hl).
  rewrite (granted v rdp H E G), A. erewrite bind_ok by (apply load_run; [eauto|lia]). simpl; auto.
Qed.

Lemma s_zero_id : forall y : avec, invalid y = false -> s_zero y = y.
Proof. intros y H. unfold s_zero. rewrite H. auto. Qed.
Lemma ref_mult : forall (w : world) s q x y, Rel w s -> sim (s_mult s q x y) (step (CMult q x y) w).
Proof.
  intros w s q x y H. change (step (CMult q x y) w) with (done (vec_pointwise_mult q x y) w).
  unfold s_mult. live H E qq. unfold live. destruct (s_vecs s x) as [xx|] eqn:F; [|exact I]. destruct (s_vecs s y) as [yy|] eqn:G; [|exact I].
  destruct (r_look q H E) as (vq & Eq & HV). destruct (r_look x H F) as (vx & Ex & HV'). destruct (r_look y H G) as (vy & Ey & HV'').
  destruct HV as (V1 & _ & _ & V4 & _). destruct HV' as (V1' & _ & _ & V4' & _). destruct HV'' as (V1'' & _ & _ & V4'' & _).
  assert (RUN: vec_pointwise_mult q x y w = mbind (check (Nat.leb (a_len qq) (a_len xx) && Nat.leb (a_len qq) (a_len yy)) ERR_UNSUPPORTED) (fun _ =>
    mbind (has_valid x) (fun h => mbind (check h ERR_BACKEND) (fun _ => mbind (has_valid y) (fun h => mbind (check h ERR_BACKEND) (fun _ =>
    if Nat.eqb (a_len qq) 0 then ret tt
    else mbind (if (Nat.eqb x q || Nat.eqb y q)%bool then vec_get_array q true else vec_get_write q true) (fun wp =>
         mbind (if negb (Nat.eqb x q) then vec_get_read x true else ret wp) (fun xp =>
         mbind (if (negb (Nat.eqb y q) && negb (Nat.eqb y x))%bool then vec_get_read y true else ret (if Nat.eqb y x then xp else wp)) (fun yp =>
         mbind (emap (a_len qq) wp [xp; yp] (fun l => nth 0 l 0 * nth 1 l 0)%R) (fun _ =>
         mbind (if (negb (Nat.eqb y q) && negb (Nat.eqb y x))%bool then vec_restore_read y else ret tt) (fun _ =>
         mbind (if negb (Nat.eqb x q) then vec_restore_read x else ret tt) (fun _ => vec_restore q)))))))))))  w).
  { unfold vec_pointwise_mult. erewrite bind_ok by (apply getv_run; eauto). erewrite bind_ok by (apply getv_run; eauto). erewrite bind_ok by (apply getv_run; eauto).
    rewrite V1, V1', V1''. reflexivity. }
  destruct (Nat.leb (a_len qq) (a_len xx) && Nat.leb (a_len qq) (a_len yy)) eqn:LE. 2:{ eapply sim_fail; [rewrite RUN; reflexivity|auto]. }
  apply andb_prop in LE. destruct LE as (LEx & LEy). apply Nat.leb_le in LEx, LEy.
  simpl. erewrite bind_ok in RUN by reflexivity. erewrite bind_ok in RUN by (eapply has_valid_run; eauto).
  destruct (invalid xx) eqn:IVx. { eapply sim_fail; [rewrite RUN; reflexivity|auto]. } simpl.
  erewrite bind_ok in RUN by reflexivity. erewrite bind_ok in RUN by (eapply has_valid_run; eauto).
  destruct (invalid yy) eqn:IVy. { eapply sim_fail; [rewrite RUN; reflexivity|auto]. } simpl. erewrite bind_ok in RUN by reflexivity.
  destruct (Nat.eqb_spec (a_len qq) 0) as [Z|Z]. { eapply sim_done; [rewrite RUN; reflexivity|auto]. }
  destruct (locked qq) eqn:L.
  { eapply sim_fail; [|eauto]. rewrite RUN. apply bind_err. destruct (Nat.eqb x q || Nat.eqb y q)%bool; [eapply get_locked|eapply write_locked]; eauto. }
  destruct (locked_wg q H E L) as (W & _ & EV & _). set (q1 := s_zero qq) in *.
  assert (S1: exists w1, (if (Nat.eqb x q || Nat.eqb y q)%bool then vec_get_array q true else vec_get_write q true) w = ROk (arr w1 q) w1 /\ Rel w1 (sv s q (tick q1 1)) /\ grows q w w1).
  { destruct (Nat.eqb x q || Nat.eqb y q)%bool eqn:AL.
    - assert (IVq: invalid qq = false).
      { apply orb_prop in AL. destruct AL as [AL|AL]; apply Nat.eqb_eq in AL; subst; congruence. }
      destruct (get_ok q true H E L) as (w1 & R1 & Rel1 & S1). { rewrite bad_true; auto. }
      exists w1. unfold q1. rewrite s_zero_id by auto. split; [|split; auto using same_grows]. rewrite R1. f_equal. destruct S1 as (<- & _). auto.
    - destruct (@write_ok R w s q qq true H E L (or_intror eq_refl)) as (w1 & R1 & Rel1 & G1). eauto. }
  destruct S1 as (w1 & R1 & Rel1 & G1). erewrite bind_ok in RUN by exact R1. set (s1 := sv s q (tick q1 1)) in *.
  assert (Lq1: a_len q1 = a_len qq) by apply s_zero_len.
  (* the record of a vector in s1 *)
  assert (REC: forall u z, s_vecs s u = Some z -> u <> q -> s_vecs s1 u = Some z) by (intros; unfold s1; rewrite s_vecs_sv'; auto).
  (* x *)
  destruct (negb (Nat.eqb x q) && busy xx) eqn:BX.
  { apply andb_prop in BX. destruct BX as (BX1 & BX2). eapply sim_fail; [|exact Rel1]. rewrite RUN. apply bind_err. rewrite BX1.
    apply negb_true_iff, Nat.eqb_neq in BX1. eapply read_busy; eauto. }
  destruct (negb (Nat.eqb x q) && many xx) eqn:MX; [exact I|].
  set (s2 := if Nat.eqb x q then s1 else sv s1 x (rd xx 1)).
  assert (S2: exists w2, (if negb (Nat.eqb x q) then vec_get_read x true else ret (arr w1 q)) w1 = ROk (arr w2 x) w2 /\ Rel w2 s2 /\ same w1 w2).
  { unfold s2. destruct (Nat.eqb_spec x q) as [Q|N]; simpl.
    - subst. exists w1. split; [reflexivity|split; auto using same_refl].
    - simpl in *. destruct (read_ok x true Rel1 (REC _ _ F N) BX) as (w2 & R2 & Rel2 & S2); auto. { rewrite bad_true; auto. }
      exists w2. split; auto. rewrite R2. f_equal. destruct S2 as (-> & _). auto. }
  destruct S2 as (w2 & R2 & Rel2 & S2). erewrite bind_ok in RUN by exact R2.
  (* y *)
  destruct (negb (Nat.eqb y q) && negb (Nat.eqb y x) && busy yy) eqn:BY.
  { apply andb_prop in BY. destruct BY as (BY1 & BY2). eapply sim_fail; [|exact Rel2]. rewrite RUN. apply bind_err. rewrite BY1.
    apply andb_prop in BY1. destruct BY1 as (BY1 & BY3). apply negb_true_iff, Nat.eqb_neq in BY1, BY3.
    assert (G2: s_vecs s2 y = Some yy). { unfold s2. destruct (Nat.eqb x q); [|rewrite s_vecs_sv' by auto]; apply REC; auto. }
    eapply read_busy; eauto. }
  destruct (negb (Nat.eqb y q) && negb (Nat.eqb y x) && many yy) eqn:MY; [exact I|].
  set (s3 := if (negb (Nat.eqb y q) && negb (Nat.eqb y x))%bool then sv s2 y (rd yy 1) else s2).
  assert (S3: exists w3, (if (negb (Nat.eqb y q) && negb (Nat.eqb y x))%bool then vec_get_read y true else ret (if Nat.eqb y x then arr w2 x else arr w1 q)) w2 = ROk (arr w3 y) w3 /\ Rel w3 s3 /\ same w2 w3).
  { unfold s3. destruct (negb (Nat.eqb y q) && negb (Nat.eqb y x)) eqn:C.
    - pose proof C as C'. apply andb_prop in C'. destruct C' as (C1 & C2). apply negb_true_iff, Nat.eqb_neq in C1, C2. simpl in *.
      assert (G2: s_vecs s2 y = Some yy). { unfold s2. destruct (Nat.eqb x q); [|rewrite s_vecs_sv' by auto]; apply REC; auto. }
      destruct (read_ok y true Rel2 G2 BY) as (w3 & R3 & Rel3 & S3); auto. { rewrite bad_true; auto. }
      exists w3. split; auto. rewrite R3. f_equal. destruct S3 as (-> & _). auto.
    - exists w2. split; [|split; auto using same_refl]. unfold ret. f_equal.
      destruct (Nat.eqb_spec y x); [subst; auto|]. rewrite andb_true_r in C. apply negb_false_iff, Nat.eqb_eq in C. subst y. destruct S2 as (-> & _). auto. }
  destruct S3 as (w3 & R3 & Rel3 & S3). erewrite bind_ok in RUN by exact R3.
  (* contents *)
  assert (CONT: forall u z l, s_vecs s u = Some z -> conts s z = Some l -> exists a, arr w3 u = Some a /\ w_heap w3 a = Some l /\ (a_len z <= length l)%nat).
  { intros u z l Eu Cu. assert (SS: same w1 w3) by (eapply same_trans; eauto). destruct SS as (Sa & Sh & _).
    assert (K: exists z', s_vecs s1 u = Some z' /\ conts s1 z' = Some l /\ a_len z' = a_len z).
    { destruct (Nat.eq_dec u q) as [->|N].
      - rewrite E in Eu; inversion Eu; subst z. exists (tick q1 1). unfold s1. rewrite s_vecs_sv. split; auto. rewrite conts_sv. unfold q1. rewrite s_zero_id; auto.
        unfold invalid. unfold conts in Cu. destruct (a_cont qq); try discriminate; apply andb_false_r.
      - exists z. unfold s1. rewrite s_vecs_sv' by auto. rewrite conts_sv. auto. }
    destruct K as (z' & K1 & K2 & K3). destruct (Rel_arr u Rel1 K1 K2) as (a & A & Ha & Hl). exists a. rewrite Sa, Sh. repeat split; auto. lia. }
  assert (VL: forall u z, s_vecs s u = Some z -> invalid z = false -> (a_len qq <= a_len z)%nat -> exists l, conts s z = Some l).
  { intros. eapply Rel_conts; eauto. lia. }
  destruct (VL x xx) as (lx & Cx); auto. destruct (VL y yy) as (ly & Cy); auto. rewrite Cx, Cy.
  destruct (CONT x xx lx) as (ax & Ax & Hax & Hlx); auto. destruct (CONT y yy ly) as (ay & Ay & Hay & Hly); auto.
  destruct (Rel_conts q Rel1 (s_vecs_sv s q (tick q1 1))) as (lq & Cq). { simpl. lia. } { apply (s_zero_valid qq). }
  destruct (Rel_arr q Rel1 (s_vecs_sv s q (tick q1 1)) Cq) as (d & D & Hd & Hlq). simpl a_len in Hlq.
  assert (Cq': conts s q1 = Some lq) by (unfold s1 in Cq; rewrite conts_sv in Cq; auto). rewrite conts_sv, Cq'.
  assert (SS: same w1 w3) by (eapply same_trans; eauto). destruct SS as (Sa & Sh & _).
  destruct (@emap_ok R d [ax; ay] (fun l => nth 0 l 0 * nth 1 l 0)%R (a_len qq) w3 lq) as (w4 & R4 & Q4).
  { rewrite Sh; auto. } { lia. } { intros b [<-|[<-|[]]]; eexists; split; eauto; lia. }
  simpl map in R4. rewrite D, <- (proj1 S3 x), Ax, Ay in RUN. erewrite bind_ok in RUN by exact R4.
  set (l' := fill (a_len qq) (fun i => (vf lx i * vf ly i)%R) lq).
  assert (Q4': weq w4 (seth w3 d (Some l'))). { unfold l'. simpl in Q4. unfold hp in Q4. rewrite Hax, Hay in Q4. exact Q4. }
  assert (E3: s_vecs s3 q = Some (tick q1 1)).
  { assert (E2: s_vecs s2 q = Some (tick q1 1)) by (unfold s2; destruct (Nat.eqb_spec x q); [|rewrite s_vecs_sv' by auto]; apply s_vecs_sv).
    unfold s3. destruct (Nat.eqb_spec y q); cbn [negb andb]; auto. destruct (Nat.eqb y x); cbn [negb]; auto. rewrite s_vecs_sv' by auto. auto. }
  assert (C3: conts s3 (tick q1 1) = Some lq).
  { rewrite <- Cq'. unfold s3, s2, s1. destruct (negb (Nat.eqb y q) && negb (Nat.eqb y x)), (Nat.eqb x q); rewrite ?conts_sv; auto. }
  assert (Rel4: Rel w4 (putc s3 q (tick q1 1) l')).
  { eapply Rel_weq; [|exact Q4']. eapply Rel_write with (l := lq); [exact Rel3|exact E3|exact C3|rewrite Sa; exact D|]. unfold l'. apply fill_length. lia. }
  (* give access back *)
  assert (S5: exists w5, (if (negb (Nat.eqb y q) && negb (Nat.eqb y x))%bool then vec_restore_read y else ret tt) w4 = ROk tt w5 /\ Rel w5 (putc s2 q (tick q1 1) l')).
  { unfold s3 in Rel4. destruct (negb (Nat.eqb y q) && negb (Nat.eqb y x)) eqn:C.
    - apply andb_prop in C. destruct C as (C1 & C2). apply negb_true_iff, Nat.eqb_neq in C1, C2.
      assert (G2: s_vecs s2 y = Some yy). { unfold s2. destruct (Nat.eqb x q); [|rewrite s_vecs_sv' by auto]; apply REC; auto. }
      assert (G4: s_vecs (putc (sv s2 y (rd yy 1)) q (tick q1 1) l') y = Some (rd yy 1)) by (rewrite s_vecs_putc' by auto; apply s_vecs_sv).
      destruct (restore_read_ok y Rel4 G4) as (w5 & R5 & Rel5 & _). { simpl. lia. }
      exists w5. split; auto. cbn [a_rg rd a_readers] in Rel5. rewrite (rd_rd y H G) in Rel5. eapply Rel_seqv; [exact Rel5|].
      eapply seqv_trans; [apply putc_sv'; auto|]. apply putc_cong. eapply seqv_trans; [apply sv_sv|apply sv_id; auto].
    - exists w4. split; auto. }
  destruct S5 as (w5 & R5 & Rel5). erewrite bind_ok in RUN by exact R5.
  assert (S6: exists w6, (if negb (Nat.eqb x q) then vec_restore_read x else ret tt) w5 = ROk tt w6 /\ Rel w6 (putc s1 q (tick q1 1) l')).
  { unfold s2 in Rel5. destruct (Nat.eqb_spec x q) as [C|C]; simpl.
    - exists w5. split; auto.
    - assert (F4: s_vecs (putc (sv s1 x (rd xx 1)) q (tick q1 1) l') x = Some (rd xx 1)) by (rewrite s_vecs_putc' by auto; apply s_vecs_sv).
      destruct (restore_read_ok x Rel5 F4) as (w6 & R6 & Rel6 & _). { simpl. lia. }
      exists w6. split; auto. cbn [a_rg rd a_readers] in Rel6. rewrite (rd_rd x H F) in Rel6. eapply Rel_seqv; [exact Rel6|].
      eapply seqv_trans; [apply putc_sv'; auto|]. apply putc_cong. eapply seqv_trans; [apply sv_sv|apply sv_id; auto]. }
  destruct S6 as (w6 & R6 & Rel6). erewrite bind_ok in RUN by exact R6.
  assert (BU: busy (newc (tick q1 1) l') = true).
  { unfold busy, newc. destruct (a_cont _); simpl; unfold q1; rewrite even_S, s_zero_even; auto. }
  destruct (restore_ok q Rel6 (s_vecs_putc _ _ _ (s_vecs_sv s q (tick q1 1))) BU) as (w7 & R7 & Rel7 & _).
  eapply sim_done. { rewrite RUN. exact R7. }
  eapply Rel_seqv; [exact Rel7|]. eapply seqv_trans.
  - apply (putc_sv (fun y => wg (tick y 1) false)); auto. unfold s1. apply s_vecs_sv.
  - rewrite wg_tick2 by (unfold q1; rewrite s_zero_wg; auto). apply putc_cong, sv_sv.
Qed.

(** ** One step *)
Theorem refine_step : forall (c : cmd R) (w : world) s, Rel w s -> sim (astep c s) (step c w).
Proof.
  intros c w s H. destruct c; cbn [VecSpec.astep].
  - simpl. split; [rewrite (r_nv H); auto|]. apply Rel_create; auto.
  - apply ref_set_array; auto.
  - apply ref_take; auto.
  - apply ref_get; auto.
  - apply ref_get_read; auto.
  - apply ref_get_write; auto.
  - apply ref_restore; auto.
  - apply ref_restore_read; auto.
  - apply ref_set_value; auto.
  - apply ref_set_value_strided; auto.
  - apply ref_sync; auto.
  - apply ref_copy; auto.
  - apply ref_copy_strided; auto.
  - apply ref_norm; auto.
  - apply (@ref_modify w s v (fun x => (x * alpha)%R) (fun l => hd 0 l * alpha)%R (vec_scale v alpha)); auto.
  - apply (@ref_axp w s (fun a b => (b + alpha * a)%R) y x H).
  - apply (@ref_axp w s (fun a b => (alpha * a + beta * b)%R) y x H).
  - apply ref_mult; auto.
  - apply ref_recip; auto.
  - unfold live. destruct (s_vecs s v) eqn:E; [|exact I]. eapply ref_reference; eauto.
  - apply ref_destroy; auto.
  - simpl. split; auto. apply Rel_ualloc; auto.
  - destruct (s_user s n) as [l|] eqn:U; [|exact I]. destruct (shared_elsewhere s (s_nv s) n) eqn:SE; [exact I|].
    simpl. unfold done, mbind, free. rewrite (user_ptr n H U). simpl. split; auto. eapply Rel_ufree; eauto.
  - destruct (s_user s n) as [l|] eqn:U; [|exact I]. destruct (nth_error l i) as [x|] eqn:N; [|exact I].
    assert (Li: (i < length l)%nat) by (apply nth_error_Some; congruence).
    cbn [VecModel.step]. erewrite bind_ok by (apply load_run; [eapply user_ptr; eauto|auto]). simpl. split; auto. unfold vf. f_equal. symmetry. apply nth_error_nth; auto.
  - destruct (s_user s n) as [l|] eqn:U; [|exact I]. destruct (Nat.ltb_spec i (length l)) as [L|L]; [|exact I].
    cbn [VecModel.step]. eapply sim_done; [apply store_run; [eapply user_ptr; eauto|auto]|]. eapply Rel_uwrite; eauto. apply upd_length.
  - apply (ref_vread v i true H).
  - unfold live. destruct (s_vecs s v) as [y|] eqn:E; [|exact I]. destruct (a_wg y) eqn:W; [|exact I]. simpl. destruct (Nat.ltb_spec i (a_len y)) as [L|L]; [|exact I].
    destruct (conts s y) as [l|] eqn:C; [|exact I]. destruct (Rel_arr v H E C) as (a & A & Ha & Hl).
    cbn [VecModel.step]. rewrite (granted v false H E W), A. eapply sim_done; [apply store_run; [eauto|lia]|]. eapply Rel_write; eauto. apply upd_length.
  - apply (ref_vread v i false H).
Qed.

(** ** Whole histories *)
Theorem refine_run : forall cs (w : world) s os s', Rel w s -> arun fabs gtb sqrt big inv cs s = Some (os, s') ->
  exists w', run fabs gtb sqrt big inv cs w = Some (os, w') /\ Rel w' s'.
Proof.
  intro cs. induction cs as [|c cs IH]; intros w s os s' H A; simpl in *.
  - inversion A; subst. eauto.
  - pose proof (refine_step c H) as S. destruct (astep c s) as [o s1|e s1|] eqn:E; simpl in S.
    + destruct (step c w) as [o' w1|e' w1|]; try contradiction. destruct S as (<- & Rel1).
      destruct (arun fabs gtb sqrt big inv cs s1) as [[os1 s2]|] eqn:Q; try discriminate. inversion A; subst.
      destruct (IH _ _ _ _ Rel1 Q) as (w' & -> & ?). eauto.
    + destruct (step c w) as [o' w1|e' w1|]; try contradiction. destruct S as (<- & Rel1).
      destruct (arun fabs gtb sqrt big inv cs s1) as [[os1 s2]|] eqn:Q; try discriminate. inversion A; subst.
      destruct (IH _ _ _ _ Rel1 Q) as (w' & -> & ?). eauto.
    + discriminate.
Qed.
End P.
