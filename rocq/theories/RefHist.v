(** * Reference counts: the remaining calls, and histories *)
From Coq Require Import List ZArith Lia Bool Arith.
From Verif Require Import Prelude RstrModel OpModel RefModel RefSpec RefProofs RefMain RefCalls.
Import ListNotations.
Local Open Scope nat_scope.

(** ** Operators *)
Definition inx (ext : list ptr) (p : option nat) : Prop := match p with Some p => In (PObj p) ext | None => True end.
Lemma slot_copy_new k h ext n s p : St h ext None -> In (PObj n) ext -> In (PObj p) ext -> s <> SDeleg -> k <= n ->
  safe (slot_copy h n s (PObj p)) (fun h' => St h' ext None /\ evk k h h').
Proof.
  intros S0 Hn Hp Hs Lk. eapply safe_imp. { eapply slot_copy_spec; eauto. - simpl. eapply in_live; eauto. apply S0. - congruence. }
  intros h' (S1 & O & o & o' & E & E' & B). split; auto. destruct (live_of _ _ _ (proj1 S0) Hn) as (o0 & E0 & F0 & _).
  rewrite E in E0. inversion E0; subst o0. eapply others_evk; eauto. rewrite B. apply sput_kind.
Qed.
Lemma copy_opt_new k h ext n s p : St h ext None -> In (PObj n) ext -> inx ext p -> s <> SDeleg -> k <= n ->
  safe (copy_opt h n s p) (fun h' => St h' ext None /\ evk k h h').
Proof.
  intros S0 Hn Hp Hs Lk. destruct p as [p|]; simpl; [now apply slot_copy_new|]. split; auto using evk_refl.
Qed.
Lemma make_op_spec atp q dq dqt h c ext : Pre false h ext -> In (PObj q) ext /\ inx ext dq /\ inx ext dqt -> In (PObj c) ext ->
  safe (make_op atp q dq dqt h c) (Post false G1 h ext).
Proof.
  intros [S0 _] (Hq & Hdq & Hdqt) Hc. unfold make_op. destruct (simple_op false atp) as (A & B & C).
  destruct (fresh_spec h ext c _ S0 Hc A B C) as (h1 & E1 & S1 & V1 & _ & N1 & L1). rewrite E1. cbn [rbind fst snd].
  assert (W : forall p, inx ext p -> inx (PObj (length h) :: ext) p) by (intros [p|]; simpl; auto).
  apply safe_bind. eapply safe_imp. { apply (slot_copy_new (length h)); [exact S1|left; auto|right; auto|discriminate|auto]. }
  intros h2 (S2 & V2). apply safe_bind. eapply safe_imp. { apply (copy_opt_new (length h)); [exact S2|left; auto|auto|discriminate|auto]. }
  intros h3 (S3 & V3). apply safe_bind. eapply safe_imp. { apply (copy_opt_new (length h)); [exact S3|left; auto|auto|discriminate|auto]. }
  intros h4 (S4 & V4). cbn [safe]. split; [exact S4|]. cbn [snd]. split; [|discriminate]. eauto using evk_trans.
Qed.
Lemma op_spec atp q dq dqt h c ext : Pre false h ext -> In (PObj q) ext /\ inx ext dq /\ inx ext dqt -> In (PObj c) ext ->
  safe (new_op atp q dq dqt h c) (Post false G1 h ext).
Proof.
  intros. apply create_spec with (pa := false) (K := fun ext => In (PObj q) ext /\ inx ext dq /\ inx ext dqt); auto using G1_inv, G1_stable.
  - intros e d (A & B & C). repeat split; [right; auto|destruct dq; simpl in *; auto|destruct dqt; simpl in *; auto].
  - intros. now apply make_op_spec.
Qed.

Lemma fptrs_upd n l : forall i f, i < length l ->
  cnt n (fptrs (upd l i (Some f))) + cnt n (fptrs [nth i l None]) = cnt n (fptrs l) + cnt n [of_rstr f; of_basis f; of_vec f].
Proof.
  induction l as [|a l IH]; intros i f L; simpl in L; [lia|]. destruct i as [|i]; simpl upd; simpl nth.
  - unfold fptrs. simpl flat_map. destruct a; rewrite ?app_nil_r, ?cnt_app; repeat (rewrite ?cnt_app, ?cnt_cons, ?cnt_nil; cbn [app]); lia.
  - specialize (IH i f).
    assert (E : forall l', fptrs (a :: l') = fptrs [a] ++ fptrs l') by (intros; unfold fptrs; simpl; now rewrite app_nil_r).
    rewrite (E l), (E (upd l i (Some f))), !cnt_app. assert (i < length l) by lia. specialize (IH H). lia.
Qed.
Lemma put_field_cnt n inp i f cm atp fi fo lo nf co rp fr su q dq dqt c : length fi = length fo -> i < length fi ->
  cnt n (held (put_field inp i f (BOp cm atp fi fo lo nf co rp fr su q dq dqt c)))
  = cnt n (held (BOp cm atp fi fo lo nf co rp fr su q dq dqt c)) + cnt n [of_rstr f; of_basis f; of_vec f].
Proof.
  intros L Li. simpl held. rewrite !cnt_app.
  assert (Hl : forall old, cnt n (fptrs (map Some (match old with Some x => x :: lo | None => lo end))) = cnt n (fptrs [old]) + cnt n (fptrs (map Some lo))).
  { intros [x|]; [|reflexivity]. cbn [map]. unfold fptrs. simpl flat_map. repeat (rewrite ?cnt_app, ?cnt_cons, ?cnt_nil; cbn [app]). lia. }
  rewrite Hl. destruct inp.
  - pose proof (fptrs_upd n fi i f Li). lia.
  - rewrite L in Li. pose proof (fptrs_upd n fo i f Li). lia.
Qed.
Lemma plx h ext p : Inv h ext -> (p = PStatic \/ (exists n, p = PObj n /\ In p ext)) -> pl h p.
Proof. intros I [->|(n & -> & H)]; simpl; auto. eapply in_live; eauto. Qed.
Definition argx (ext : list ptr) (p : ptr) : Prop := p = PStatic \/ (exists n, p = PObj n /\ In p ext).
Lemma argx_cons ext p q : argx ext p -> argx (q :: ext) p.
Proof. intros [->|(n & -> & H)]; [left; auto|right; exists n; simpl; auto]. Qed.

Lemma set_field_spec h ext n inp i r b v : St h ext None -> In (PObj n) ext -> argx ext r -> argx ext b -> argx ext v ->
  fields_set h n < FIELD_MAX -> safe (set_field h n inp i r b v) (fun h' => St h' ext None).
Proof.
  intros S0 Hn Hr Hb Hv Hf. unfold set_field. destruct (live_of _ _ _ (proj1 S0) Hn) as (o & E & F & R).
  unfold fields_set in Hf. rewrite E in Hf.
  rewrite (geto_live _ _ E F). cbn [rbind]. destruct (o_body o) as [| | | | | | |cm atp fi fo lo nf co rp fr su q dq dqt c] eqn:B; try exact I.
  destruct cm; [exact I|]. destruct (Nat.leb_spec FIELD_MAX i) as [Li|Li]; [exact I|].
  destruct (is_points h r && negb atp); [exact I|].
  apply safe_bind. apply safe_imp with (P := fun h1 => St h1 ext None /\ exists o1 fr1, nth_error h1 n = Some o1 /\ o_freed o1 = false /\ (0 < o_ref o1)%Z /\
     o_body o1 = BOp false atp fi fo lo nf co rp fr1 su q dq dqt c).
  { assert (D : safe (Ok h) (fun h1 => St h1 ext None /\ exists o1 fr1, nth_error h1 n = Some o1 /\ o_freed o1 = false /\ (0 < o_ref o1)%Z /\
       o_body o1 = BOp false atp fi fo lo nf co rp fr1 su q dq dqt c)) by (split; eauto 10).
    destruct (is_points h r); auto. destruct fr; auto. clear D.
    eapply safe_imp. { eapply slot_copy_spec; [exact S0|exact Hn|eapply plx; [apply S0|exact Hr]|discriminate]. }
    intros h1 (S1 & _ & o0 & o1 & E0 & E1 & B1). split; auto. rewrite E in E0. inversion E0; subst o0.
    destruct (live_of _ _ _ (proj1 S1) Hn) as (y & Ey & Fy & Ry). rewrite E1 in Ey. inversion Ey; subst y. exists o1, r. repeat split; auto. now rewrite B1, B. }
  intros h1 (S1 & o1 & fr1 & E1 & F1 & R1 & B1).
  destruct (@ref_spec 0 h1 _ _ v S1) as (h2 & E2 & S2 & _ & _ & _ & A2). { eapply plx; [apply S1|exact Hv]. }
  rewrite E2. cbn [rbind].
  destruct (@ref_spec 0 h2 _ _ r S2) as (h3 & E3 & S3 & _ & _ & _ & A3). { eapply plx; [apply S2|apply argx_cons; exact Hr]. }
  rewrite E3. cbn [rbind].
  destruct (@ref_spec 0 h3 _ _ b S3) as (h4 & E4 & S4 & _ & _ & _ & A4). { eapply plx; [apply S3|do 2 apply argx_cons; exact Hb]. }
  rewrite E4. cbn [rbind].
  destruct (A2 _ _ E1) as (o2 & Eo2 & B2 & _). destruct (A3 _ _ Eo2) as (o3 & Eo3 & B3 & _). destruct (A4 _ _ Eo3) as (o4 & Eo4 & B4 & _).
  destruct (live_of h4 (b :: r :: v :: ext) n (proj1 S4)) as (y & Ey & Fy & Ry). { do 3 right; auto. }
  rewrite Eo4 in Ey. inversion Ey; subst y. assert (B5 : o_body o4 = BOp false atp fi fo lo nf co rp fr1 su q dq dqt c) by congruence.
  pose proof (i_ok (proj1 S4) _ Eo4) as K. rewrite B5 in K. destruct K as (K1 & K2 & K3).
  destruct (@modb_spec 0 h4 (b :: r :: v :: ext) ext None n (put_field inp i (OF r b v)) o4 S4 Eo4 Ry Fy) as (h5 & E5 & S5 & _).
  - intros m. rewrite B5. rewrite put_field_cnt; [|exact K1|rewrite (K3 eq_refl); exact Li]. cbn [of_rstr of_basis of_vec]. rewrite !cnt_cons, !cnt_nil. lia.
  - rewrite B5. reflexivity.
  - rewrite B5. simpl. specialize (K3 eq_refl). rewrite ?K3 in *. destruct inp; rewrite ?upd_length; repeat split; auto; try lia.
  - lia.
  - rewrite E5. simpl. auto.
Qed.
Lemma set_points_spec h ext n r v : St h ext None -> In (PObj n) ext -> In (PObj r) ext -> In (PObj v) ext ->
  safe (set_points h n (PObj r) (PObj v)) (fun h' => St h' ext None).
Proof.
  intros S0 Hn Hr Hv. unfold set_points. destruct (live_of _ _ _ (proj1 S0) Hn) as (o & E & F & R).
  rewrite (geto_live _ _ E F). cbn [rbind]. destruct (o_body o) as [| | | | | | |cm atp fi fo lo nf co rp fr su q dq dqt c] eqn:B; try exact I.
  destruct atp; [|exact I].
  apply safe_bind. apply safe_imp with (P := fun h1 => St h1 ext None).
  { destruct fr; auto. eapply safe_imp; [apply (slot_copy_new 0 _ ext); [exact S0|exact Hn|exact Hr|discriminate|lia]|]. intros h' H. apply H. }
  intros h1 S1. apply safe_bind. eapply safe_imp; [apply (slot_copy_new 0 _ ext); [exact S1|exact Hn|exact Hr|discriminate|lia]|].
  intros h2 (S2 & _). eapply safe_imp; [apply (slot_copy_new 0 _ ext); [exact S2|exact Hn|exact Hv|discriminate|lia]|]. intros h' H. apply H.
Qed.
Lemma add_subop_spec h ext n s : St h ext None -> In (PObj n) ext -> In (PObj s) ext -> safe (add_subop h n s) (fun h' => St h' ext None).
Proof.
  intros S0 Hn Hs. unfold add_subop. destruct (live_of _ _ _ (proj1 S0) Hn) as (o & E & F & R).
  rewrite (geto_live _ _ E F). cbn [rbind]. destruct (o_body o) as [| | | | | | |cm atp fi fo lo nf co rp fr su q dq dqt c] eqn:B; try exact I.
  destruct cm; [|exact I]. destruct (FIELD_MAX <=? length su); [exact I|].
  destruct (@ref_spec 0 h ext None (PObj s) S0) as (h1 & E1 & S1 & _ & _ & _ & A1). { simpl. eapply in_live; eauto. apply S0. }
  destruct (A1 _ _ E) as (o1 & Eo1 & B1 & _).
  destruct (live_of h1 (PObj s :: ext) n (proj1 S1)) as (y & Ey & Fy & Ry). { right; auto. }
  rewrite Eo1 in Ey. inversion Ey; subst y. pose proof (i_ok (proj1 S1) _ Eo1) as K. rewrite B1, B in K.
  destruct (@modb_spec 0 h1 (PObj s :: ext) ext None n (put_sub (PObj s)) o1 S1 Eo1 Ry Fy) as (h2 & E2 & S2 & _); try lia.
  - intros m. rewrite B1, B. simpl held. repeat (rewrite ?cnt_app, ?cnt_cons, ?cnt_nil; cbn [app]). lia.
  - now rewrite B1, B.
  - rewrite B1, B. exact K.
  - destruct (store_reference h n (put_sub (PObj s)) s h1 h2 E1 E2) as (h3 & E3 & E4). rewrite E3. cbn [rbind]. rewrite E4. simpl. auto.
Qed.
Lemma set_ctx_spec h ext n x : St h ext None -> In (PObj n) ext -> (x = PNull \/ exists m, x = PObj m /\ In x ext) ->
  safe (set_ctx h n x) (fun h' => St h' ext None).
Proof.
  intros S0 Hn Hx. unfold set_ctx. apply safe_bind. eapply safe_imp. { eapply slot_drop_spec; [exact S0|exact Hn]. }
  intros h1 (S1 & L1 & o & o1 & Eo & Eo1 & R1 & F1 & B1 & G1' & _).
  destruct Hx as [->|(m & -> & Hm)].
  - destruct (@slot_set_spec 0 h1 ext None n SCtx PNull o1) as (h2 & E2 & _ & S2 & _); auto; try lia; try discriminate.
    { eapply St_perm; [|exact S1]. intros k. symmetry. apply cnt_nonobj. congruence. }
    rewrite E2. simpl. auto.
  - destruct (@ref_spec 0 h1 ext None (PObj m) S1) as (h2 & E2 & S2 & _ & _ & _ & A2). { simpl. eapply in_live; eauto. apply S1. }
    destruct (A2 _ _ Eo1) as (o2 & Eo2 & B2 & F2 & R2 & _).
    destruct (@slot_set_spec 0 h2 ext None n SCtx (PObj m) o2) as (h3 & E3 & E3' & S3 & _); auto; try lia; try discriminate.
    { congruence. } { now rewrite B2. }
    destruct (store_reference h1 n (sput SCtx (PObj m)) m h2 h3 E2 E3') as (h4 & E4 & E5).
    unfold slot_set, read. rewrite (geto_live _ _ Eo1 F1). cbn [rbind]. rewrite G1'. cbn [rbind]. rewrite E4. cbn [rbind]. rewrite E5. simpl. auto.
Qed.

(** ** Copies of restrictions *)
Lemma copy_rstr_spec h ext r : St h ext None -> In (PObj r) ext -> is_copy h r = false ->
  safe (copy_rstr h r) (fun x => St (snd x) (PObj (fst x) :: ext) None).
Proof.
  intros S0 Hr Hc. unfold copy_rstr. destruct (live_of _ _ _ (proj1 S0) Hr) as (o & E & F & R).
  unfold is_copy in Hc. rewrite E in Hc. rewrite (geto_live _ _ E F). cbn [rbind].
  destruct (o_body o) as [| |pt base c| | | | |] eqn:B; try exact I. destruct c as [| |c]; try exact I.
  assert (Hb : forall m, base <> PObj m) by (intros m ->; discriminate).
  cbn [alloc fst snd].
  assert (S1 : St (h ++ [mkObj 1 false (BRstr pt base PNull)]) (PObj (length h) :: ext) None).
  { split.
    - apply alloc_inv; simpl; auto. eapply inv_perm; [|apply S0]. intros n. rewrite cnt_nonobj by auto. rewrite cnt_nonobj by congruence. auto.
    - intros n y Ey Ry. destruct (nth_app_inv _ _ _ _ _ Ey) as [(L & E')|(-> & ->)]; [apply (proj2 S0 n y E' Ry)|simpl in Ry; lia]. }
  assert (Lc : live (h ++ [mkObj 1 false (BRstr pt base PNull)]) c).
  { eapply held_live with (m := r) (o := o); [apply S1| |exact R|].
    - rewrite nth_error_app1; auto. now apply nth_lt in E.
    - rewrite B. simpl. auto. }
  apply safe_bind. eapply safe_imp. { eapply slot_copy_spec; [exact S1|left; auto|exact Lc|discriminate]. }
  intros h2 (S2 & _). apply safe_bind. eapply safe_imp.
  { eapply slot_copy_spec; [exact S2|left; auto| |discriminate]. simpl. eapply in_live; [apply S2|right; exact Hr]. }
  intros h3 (S3 & _). exact S3.
Qed.

(** ** Chebyshev bases *)
Lemma pa_slot h h' n o o' : nth_error h n = Some o -> nth_error h' n = Some o' -> o_freed o' = false -> kindof (o_body o') <> OCeed ->
  (forall m, m <> n -> nth_error h' m = nth_error h m) -> parents_alive h -> parents_alive h'.
Proof.
  intros E E' F K O. apply pa_same.
  - intros m y Ey Py Fy. destruct (Nat.eq_dec m n) as [->|N].
    + rewrite E' in Ey. inversion Ey; subst y. destruct (o_body o'); simpl in *; congruence.
    + rewrite O in Ey by auto. exists y. auto.
  - intros m y Ey Fy. destruct (Nat.eq_dec m n) as [->|N]; [eauto|]. exists y. rewrite O; auto.
Qed.
Lemma chebyshev_spec h ext b : Pre true h ext -> In (PObj b) ext -> safe (chebyshev h b) (fun h' => St h' ext None).
Proof.
  intros P Hb. unfold chebyshev. destruct (live_of _ _ _ (proj1 (proj1 P)) Hb) as (o & E & F & R).
  rewrite (geto_live _ _ E F). cbn [rbind].
  destruct (o_body o) as [| | | |t k v x c| | |] eqn:B; try exact I.
  assert (D : safe (Ok h) (fun h' => St h' ext None)) by (apply P).
  destruct t; [|exact I]. destruct v; [|exact D|exact D]. destruct x; [|exact D|exact D]. destruct c as [| |c]; [exact D|exact D|]. clear D.
  assert (Lc : live h c). { eapply held_live; [apply P|exact E|exact R|]. rewrite B. simpl. auto 6. }
  destruct (Pre_ref true h ext c (S b) P Lc) as (h1 & E1 & P1 & V1 & M1 & L1). rewrite E1. cbn [rbind].
  apply safe_bind. eapply safe_imp. { eapply (new_spec true BVec OVec true); [apply simple_vec|exact P1|left; auto]. }
  intros [v h2] (S2 & V2 & M2). cbn [fst snd] in *. specialize (M2 eq_refl).
  assert (Pa2 : parents_alive h2).
  { apply (pa_evk h1 h2 (PObj c :: ext) [PObj v]); try apply P1; auto. apply S2. }
  destruct (live_of h2 (PObj v :: PObj c :: ext) b (proj1 S2)) as (o2 & Eo2 & Fo2 & Ro2). { simpl; auto. }
  assert (B2 : o_body o2 = o_body o).
  { destruct V1 as (_ & A1 & _). destruct (A1 _ _ E) as (y & Ey & _ & By & _). destruct V2 as (_ & A2 & _).
    destruct (A2 _ _ Ey) as (z & Ez & _ & Bz & _). rewrite Eo2 in Ez. inversion Ez; subst z. rewrite Bz, By; auto. now apply nth_lt in Ey. }
  destruct (@slot_set_spec 0 h2 (PObj c :: ext) None b SVch (PObj v) o2) as (h3 & E3 & _ & S3 & V3 & L3 & N3 & O3); auto; try lia; try discriminate.
  { rewrite B2, B. reflexivity. }
  rewrite E3. cbn [rbind].
  assert (P3 : Pre true h3 (PObj c :: ext)).
  { split; auto. intros _. eapply pa_slot; [exact Eo2|exact N3|reflexivity| |exact O3|exact Pa2]. rewrite B2, B. simpl. congruence. }
  apply safe_bind. eapply safe_imp. { eapply (basis_spec true); [exact P3|left; auto]. }
  intros [x h4] (S4 & V4 & _). cbn [fst snd] in *.
  destruct (live_of h4 (PObj x :: PObj c :: ext) b (proj1 S4)) as (o4 & Eo4 & Fo4 & Ro4). { simpl; auto. }
  assert (B4 : o_body o4 = sput SVch (PObj v) (o_body o)).
  { destruct V4 as (_ & A4 & _). destruct (A4 _ _ N3) as (z & Ez & _ & Bz & _). rewrite Eo4 in Ez. inversion Ez; subst z. rewrite Bz, B2; auto. now apply nth_lt in N3. }
  destruct (@slot_set_spec 0 h4 (PObj c :: ext) None b SBch (PObj x) o4) as (h5 & E5 & _ & S5 & _); auto; try lia; try discriminate.
  { rewrite B4, B. reflexivity. }
  rewrite E5. cbn [rbind]. destruct (destroy_St _ _ _ _ S5) as (h6 & E6 & S6 & _). rewrite E6. exact S6.
Qed.

(** ** Comparing contexts *)
Lemma same_ceed_spec h ext y x : Pre true h ext -> In (PObj y) ext -> In (PObj x) ext -> safe (same_ceed h y x) (fun h' => St h' ext None).
Proof.
  intros P Hy Hx. unfold same_ceed, read.
  destruct (live_of _ _ _ (proj1 (proj1 P)) Hy) as (oy & Ey & Fy & Ry). destruct (live_of _ _ _ (proj1 (proj1 P)) Hx) as (ox & Ex & Fx & Rx).
  rewrite (geto_live _ _ Ey Fy), (geto_live _ _ Ex Fx). cbn [rbind].
  destruct (sget (o_body oy) SCeed) as [cy|] eqn:Gy; [|exact I]. destruct (sget (o_body ox) SCeed) as [cx|] eqn:Gx; [|exact I]. cbn [rbind].
  assert (Sg : forall b c, sget b SCeed = Some c -> In c (held b)).
  { intros b c G. destruct b; simpl in G; try discriminate; inversion G; subst; simpl; rewrite ?in_app_iff; simpl; rewrite ?in_app_iff; simpl; auto 25. }
  destruct cx as [| |nx]; try exact I. destruct cy as [| |ny]; try exact I.
  assert (Ly : live h ny) by (eapply held_live; [apply P|exact Ey|exact Ry|apply Sg; exact Gy]).
  assert (Lx : live h nx) by (eapply held_live; [apply P|exact Ex|exact Rx|apply Sg; exact Gx]).
  destruct (Pre_ref true h ext ny (length h) P Ly) as (h1 & E1 & P1 & V1 & M1 & L1). rewrite E1. cbn [rbind].
  assert (Lx1 : live h1 nx).
  { eapply tot_live; [apply P1|]. destruct Lx as (z & Ez & _ & Rz). pose proof (i_cnt (proj1 (proj1 P)) _ Ez). specialize (M1 nx). rewrite cnt_cons. lia. }
  destruct (Pre_ref true h1 _ nx (length h) P1 Lx1) as (h2 & E2 & P2 & V2 & M2 & L2). rewrite E2. cbn [rbind].
  apply safe_bind. eapply safe_imp. { eapply get_parent_spec; [exact P2|]. eapply in_live; [apply P2|left; auto]. }
  intros [px h3] (P3 & _). cbn [fst snd] in *.
  apply safe_bind. eapply safe_imp. { eapply get_parent_spec; [exact P3|]. eapply in_live; [apply P3|simpl; auto]. }
  intros [py h4] ([S4 _] & _). cbn [fst snd] in *.
  apply (St_perm _ _ (PObj nx :: PObj ny :: PObj px :: PObj py :: ext)) in S4; [|perm].
  destruct (destroy_St _ _ _ _ S4) as (h5 & E5 & S5 & _). rewrite E5. cbn [rbind].
  destruct (destroy_St _ _ _ _ S5) as (h6 & E6 & S6 & _). rewrite E6. cbn [rbind].
  destruct (px =? py); [|exact I].
  destruct (destroy_St _ _ _ _ S6) as (h7 & E7 & S7 & _). rewrite E7. cbn [rbind].
  destruct (destroy_St _ _ _ _ S7) as (h8 & E8 & S8 & _). rewrite E8. exact S8.
Qed.

(** ** Contexts *)
Definition kb (k : nat) (h h' : heap) : Prop :=
  length h <= length h' /\ forall n o, n < k -> nth_error h n = Some o -> exists o', nth_error h' n = Some o' /\ o_body o' = o_body o.
Lemma kb_refl k h : kb k h h. Proof. split; auto. intros n o _ E. eauto. Qed.
Lemma kb_trans k h h' h'' : kb k h h' -> kb k h' h'' -> kb k h h''.
Proof.
  intros (L & A) (L' & A'). split; [lia|]. intros n o Ln E. destruct (A n o Ln E) as (o1 & E1 & B1). destruct (A' n o1 Ln E1) as (o2 & E2 & B2). exists o2. split; congruence.
Qed.
Lemma kb_dz k h h' : dz h h' -> kb k h h'.
Proof. intros D. split; [rewrite (dz_len D); auto|]. intros n o _ E. destruct (dz_at D _ E) as (o' & E' & B & _). eauto. Qed.
Lemma kb_mod k h h' n : k <= n -> length h' = length h -> (forall m, m <> n -> nth_error h' m = nth_error h m) -> kb k h h'.
Proof. intros L E A. split; [lia|]. intros m o Lm Em. exists o. rewrite A by lia. auto. Qed.

Definition isc (h : heap) (a : nat) : Prop := exists o, nth_error h a = Some o /\ kindof (o_body o) = OCeed.
Lemma set_delegate_spec k h ext a kd d : St h ext None -> In (PObj a) ext -> In (PObj d) ext -> a < d -> k <= a -> isc h a ->
  safe (set_delegate h a kd d) (fun h' => St h' ext None /\ kb k h h' /\ length h' = length h /\ isc h' a).
Proof.
  intros S0 Ha Hd Lad Lk (o0 & E0 & Ko). unfold set_delegate.
  apply safe_bind. apply safe_imp with (P := fun h1 => St h1 ext None /\ kb k h h1 /\ length h1 = length h /\ isc h1 a).
  { destruct kd as [kd|].
    - destruct (@ref_spec 0 h ext None (PObj d) S0) as (h1 & E1 & S1 & V1 & _ & L1 & A1). { simpl. eapply in_live; eauto. apply S0. }
      rewrite E1. cbn [rbind]. destruct (live_of h1 (PObj d :: ext) a (proj1 S1)) as (o & E & F & R). { right; auto. }
      assert (K1 : kb k h h1). { split; [lia|]. intros n y _ Ey. destruct (A1 n y Ey) as (y' & E' & B & _). eauto. }
      destruct (A1 _ _ E0) as (y & Ey & By & _). rewrite E in Ey. inversion Ey; subst y.
      pose proof (i_ok (proj1 S1) _ E) as Kb. rewrite <- By in Ko.
      destruct (o_body o) as [i0 d0 od f0 p0| | | | | | |] eqn:B; try discriminate. destruct Kb as (Kb1 & Kb2 & Kb3).
      destruct (@modb_spec 0 h1 (PObj d :: ext) ext None a (add_objd kd (PObj d)) o S1 E R F) as (h2 & E2 & S2 & _ & L2 & N2 & O2); try lia.
      + intros m. rewrite B. simpl held. rewrite map_app. repeat (rewrite ?cnt_app, ?cnt_cons, ?cnt_nil; cbn [app map]). simpl. lia.
      + now rewrite B.
      + rewrite B. simpl. split; auto. split; auto. intros k1 m H. apply in_app_or in H. destruct H as [H|[H|[]]]; [eauto|]. inversion H; subst; auto.
      + rewrite E2. simpl. split; auto. split; [|split; [lia|]].
        * eapply kb_trans; [exact K1|]. eapply kb_mod; [|exact L2|exact O2]. lia.
        * exists (mkObj (o_ref o) false (add_objd kd (PObj d) (o_body o))). split; auto. simpl. now rewrite B.
    - eapply safe_imp. { eapply slot_copy_spec; [exact S0|exact Ha|simpl; eapply in_live; eauto; apply S0|]. intros _ m H. inversion H; subst. auto. }
      intros h1 (S1 & (L1 & O1) & o & o' & E & E' & B). split; auto. split; [|split; auto].
      + split; [lia|]. intros n y Ln Ey. destruct (O1 n y Ey) as (y' & E2 & B2 & _); [lia|]. eauto.
      + exists o'. split; auto. rewrite B, sput_kind. congruence. }
  intros h1 (S1 & K1 & L1 & (oa & Ea & Ka)).
  destruct (live_of _ _ _ (proj1 S1) Hd) as (o & E & F & R). pose proof (i_ok (proj1 S1) _ E) as Kb.
  destruct (@modb_spec 0 h1 ext ext None d (set_parent a) o S1 E R F) as (h2 & E2 & S2 & _ & L2 & N2 & O2); try lia.
  - intros m. destruct (o_body o); reflexivity.
  - destruct (o_body o); reflexivity.
  - destruct (o_body o); auto. simpl in *. destruct Kb as (? & ? & _). split; auto. split; auto. intros m H1. inversion H1; subst; auto.
  - rewrite E2. simpl. split; auto. split; [|split; [lia|]].
    + eapply kb_trans; [exact K1|]. eapply kb_mod; [|exact L2|exact O2]. lia.
    + exists oa. rewrite O2 by lia. auto.
Qed.
Lemma init_spec : forall b h ext, St h ext None ->
  safe (init b h) (fun r => fst r = length h /\ St (snd r) (PObj (fst r) :: ext) None /\ kb (length h) h (snd r)).
Proof.
  fix IH 1. intros [impl ds] h ext S0. cbn [init]. cbn [alloc fst snd].
  set (h0 := h ++ [mkObj 1 false (BCeed impl PNull [] PNull None)]).
  assert (S1 : St h0 (PObj (length h) :: ext) None).
  { split.
    - apply alloc_inv; simpl; auto.
      + eapply inv_perm; [|apply S0]. intros n. rewrite !cnt_nonobj by congruence. auto.
      + split; [congruence|]. split; [intros ? ? []|congruence].
    - intros n y Ey Ry. destruct (nth_app_inv _ _ _ _ _ Ey) as [(L & E')|(-> & ->)]; [apply (proj2 S0 n y E' Ry)|simpl in Ry; lia]. }
  assert (K1 : kb (length h) h h0).
  { unfold h0. split; [rewrite app_length; lia|]. intros n o L E. exists o. rewrite nth_error_app1; auto. }
  assert (C1 : isc h0 (length h)). { eexists. split; [apply nth_app_new|reflexivity]. }
  clearbody h0. apply safe_bind.
  match goal with |- safe (?go ds h0) _ => set (g := go) end.
  assert (Hg : forall h1, St h1 (PObj (length h) :: ext) None -> kb (length h) h h1 -> isc h1 (length h) ->
    safe (g ds h1) (fun h2 => St h2 (PObj (length h) :: ext) None /\ kb (length h) h h2)).
  { clear h0 S1 K1 C1. revert ds g. fix IHd 1. intros ds g. destruct ds as [|[k d] ds].
    - intros h1 S1 K1 C1. simpl. auto.
    - intros h1 S1 K1 C1. cbv beta iota delta [g]. apply safe_bind. eapply safe_imp. { apply (IH d h1 _ S1). }
      intros [x h2] (X & S2 & K2). cbn [fst snd] in *. subst x.
      destruct C1 as (o1 & E1 & Ko1). pose proof (nth_lt _ _ E1) as L1.
      apply safe_bind. eapply safe_imp.
      { apply (set_delegate_spec (length h) h2 _ (length h) k (length h1) S2); simpl; auto.
        destruct K2 as (_ & A2). destruct (A2 _ _ L1 E1) as (y & Ey & By). exists y. split; auto. congruence. }
      intros h3 (S3 & K3 & L3 & C3).
      destruct (destroy_St _ _ _ _ S3) as (h4 & E4 & S4 & D4). rewrite E4. cbn [rbind].
      apply (IHd ds); auto.
      + eapply kb_trans; [exact K1|]. eapply kb_trans; [|eapply kb_trans; [exact K3|apply kb_dz; exact D4]].
        destruct K2 as (L2 & A2). split; auto. intros n o Ln E. apply A2; auto. lia.
      + destruct C3 as (y & Ey & Ky). destruct (dz_at D4 _ Ey) as (z & Ez & Bz & _). exists z. split; auto. congruence. }
  eapply safe_imp; [apply Hg; auto|]. intros h2 (S2 & K2). simpl. auto.
Qed.

(** ** The variables of the program *)
Lemma upd_cnt n hs : forall x p q, nth_error hs x = Some q -> cnt n (upd hs x p) + cnt n [q] = cnt n hs + cnt n [p].
Proof.
  induction hs as [|a hs IH]; intros [|x] p q E; simpl in E; try discriminate.
  - inversion E; subst. simpl upd. rewrite !(cnt_cons n _ hs), !cnt_cons, cnt_nil. lia.
  - simpl upd. rewrite (cnt_cons n a), (cnt_cons n a hs). specialize (IH _ p q E). lia.
Qed.
Definition WSt (w : rworld) : Prop := St (rw_heap w) (rw_h w) None.
Lemma hval_in w x p : nth_error (rw_h w) x = Some p -> In p (rw_h w). Proof. apply nth_error_In. Qed.
Lemma hval_bind B w x (f : ptr -> res B) P : (forall p, nth_error (rw_h w) x = Some p -> safe (f p) P) -> safe (rbind (hval w x) f) P.
Proof. unfold hval. destruct (nth_error (rw_h w) x); simpl; auto. Qed.
Lemma hobj_some w k x n : hobj w k x = Ok n -> nth_error (rw_h w) x = Some (PObj n).
Proof.
  unfold hobj, hval. destruct (nth_error (rw_h w) x) as [[| |m]|]; simpl; try discriminate.
  destruct (nth_error (rw_heap w) m) as [o|]; [|discriminate]. destruct (okind_eqb k (kindof (o_body o))); [|discriminate]. intros H; inversion H; auto.
Qed.
Lemma hobj_noub w k x : hobj w k x <> UB.
Proof.
  unfold hobj, hval. destruct (nth_error (rw_h w) x) as [[| |m]|]; simpl; try discriminate.
  destruct (nth_error (rw_heap w) m) as [o|]; [|discriminate]. destruct (okind_eqb k (kindof (o_body o))); discriminate.
Qed.
Lemma hobj_bind B w k x (f : nat -> res B) P : (forall n, nth_error (rw_h w) x = Some (PObj n) -> safe (f n) P) -> safe (rbind (hobj w k x) f) P.
Proof.
  intros H. destruct (hobj w k x) as [n| |] eqn:E; simpl; auto.
  - apply H. eapply hobj_some; eauto.
  - destruct (hobj_noub _ _ _ E).
Qed.
Lemma harg_bind B w k x (f : ptr -> res B) P : (forall p, argx (rw_h w) p -> safe (f p) P) -> safe (rbind (harg w k x) f) P.
Proof.
  intros H. unfold harg. destruct (nth_error (rw_h w) x) as [p|] eqn:E; unfold hval at 1; rewrite E; simpl; auto.
  assert (D : safe (rbind (rbind (hobj w k x) (fun n => Ok (PObj n))) f) P).
  { apply safe_bind. apply hobj_bind. intros n En. simpl. apply H. right. exists n. split; auto. eapply hval_in; eauto. }
  destruct p; auto. apply H. left; auto.
Qed.
Lemma hopt_bind B w k x (f : option nat -> res B) P : (forall p, inx (rw_h w) p -> safe (f p) P) -> safe (rbind (hopt w k x) f) P.
Proof.
  intros H. destruct x as [x|]; simpl; [|now apply H]. apply safe_bind. apply hobj_bind. intros n En. simpl. apply H. simpl. eapply hval_in; eauto.
Qed.
Lemma store_safe w h dst p : St h (p :: rw_h w) None -> safe (store w h dst p) WSt.
Proof.
  intros S0. unfold store. apply hval_bind. intros q E. destruct q; simpl; auto. unfold WSt. simpl.
  eapply St_perm; [|exact S0]. intros n. pose proof (upd_cnt n _ _ p _ E) as U. rewrite !cnt_cons, !cnt_nil in *. simpl in U. lia.
Qed.
Lemma put_new_safe w dst m : safe m (fun r => St (snd r) (PObj (fst r) :: rw_h w) None) -> safe (put_new w dst m) WSt.
Proof.
  intros H. unfold put_new. apply hval_bind. intros q E. destruct q; simpl; auto. apply safe_bind. eapply safe_imp; [exact H|].
  intros r S1. now apply store_safe.
Qed.
Lemma keep_safe w m : safe m (fun h => St h (rw_h w) None) -> safe (keep w m) WSt.
Proof. intros H. unfold keep. apply safe_bind. eapply safe_imp; [exact H|]. auto. Qed.
Lemma post_new b h ext r : Post b G1 h ext r -> St (snd r) (PObj (fst r) :: ext) None.
Proof. intros (H & _). exact H. Qed.

Lemma visible_held b p : In p (visible b) -> In p (held b).
Proof. destruct b; simpl; rewrite ?in_app_iff; simpl; rewrite ?in_app_iff; simpl; try tauto. Qed.

Ltac hin := match goal with H : nth_error (rw_h _) _ = Some ?p |- In ?p _ => exact (nth_error_In _ _ H) end.
Lemma fallback_safe w n b dst : WSt w -> In (PObj n) (rw_h w) ->
  safe (f <~ read (rw_heap w) n SFall ;;
        h <~ match f with PNull => x <~ init b (rw_heap w) ;; slot_set (snd x) n SFall (PObj (fst x)) | _ => Ok (rw_heap w) end ;;
        f <~ read h n SFall ;;
        h <~ reference h f ;;
        store w h dst f) WSt.
Proof.
  intros S0 Hn. unfold read at 1. destruct (live_of _ _ _ (proj1 S0) Hn) as (o & E & F & R).
  rewrite (geto_live _ _ E F). cbn [rbind]. destruct (sget (o_body o) SFall) as [f|] eqn:Gs; [|exact I]. cbn [rbind].
  apply safe_bind. apply safe_imp with (P := fun h1 => St h1 (rw_h w) None /\ exists o1 f1, nth_error h1 n = Some o1 /\ sget (o_body o1) SFall = Some f1 /\ f1 <> PNull).
  { assert (D : f <> PNull -> safe (Ok (rw_heap w)) (fun h1 => St h1 (rw_h w) None /\ exists o1 f1, nth_error h1 n = Some o1 /\ sget (o_body o1) SFall = Some f1 /\ f1 <> PNull)).
    { intros Nf. split; [exact S0|]. exists o, f. auto. }
    destruct f; try (apply D; discriminate). apply safe_bind. eapply safe_imp; [apply init_spec; exact S0|]. intros [x h1] (_ & S1 & (_ & K1)).
    cbn [fst snd] in *. destruct (K1 n o (nth_lt _ _ E) E) as (o1 & E1 & B1).
    destruct (live_of h1 (PObj x :: rw_h w) n (proj1 S1)) as (y & Ey & Fy & Ry). { right. auto. } rewrite E1 in Ey. inversion Ey; subst y.
    destruct (@slot_set_spec 0 h1 (rw_h w) None n SFall (PObj x) o1) as (h2 & E2 & _ & S2 & _ & _ & N2 & _); auto; try lia; try discriminate.
    { now rewrite B1. }
    rewrite E2. simpl. split; auto. eexists _, (PObj x). split; [exact N2|]. simpl. split; [|discriminate]. eapply sput_get. rewrite B1. exact Gs. }
  intros h1 (S1 & o1 & f1 & E1 & Gs1 & Nf). unfold read.
  destruct (live_of _ _ _ (proj1 S1) Hn) as (y & Ey & F1 & R1). rewrite E1 in Ey. inversion Ey; subst y.
  rewrite (geto_live _ _ E1 F1). cbn [rbind]. rewrite Gs1. cbn [rbind].
  destruct (@ref_spec 0 h1 _ _ f1 S1) as (h2 & E2 & S2 & _).
  { destruct f1 as [| |f1]; simpl; auto. eapply held_live; [apply S1|exact E1|exact R1|]. destruct (o_body o1); simpl in Gs1; try discriminate.
    inversion Gs1; subst. simpl. rewrite in_app_iff. simpl. auto. }
  rewrite E2. cbn [rbind]. now apply store_safe.
Qed.
Theorem rstep_safe w c : WSt w -> rgood w c -> safe (rstep w c) WSt.
Proof.
  intros S0 Gd. assert (P0 : Pre false (rw_heap w) (rw_h w)) by (split; [exact S0|discriminate]).
  destruct c; simpl in Gd; cbn [rstep].
  - apply put_new_safe. eapply safe_imp; [apply init_spec; exact S0|]. intros r (_ & H & _). exact H.
  - apply hobj_bind. intros n En. apply fallback_safe; auto. hin.
  - apply store_safe. eapply St_perm; [|exact S0]. intros m. symmetry. apply cnt_nonobj. congruence.
  - apply hobj_bind. intros n En. apply put_new_safe. eapply safe_imp; [eapply (new_spec _ _ _ false); [apply simple_vec|exact P0|hin]|]. apply post_new.
  - apply hobj_bind. intros n En. apply put_new_safe. eapply safe_imp; [eapply (new_spec _ _ _ false); [apply simple_rstr|exact P0|hin]|]. apply post_new.
  - apply hobj_bind. intros n En. apply put_new_safe. apply copy_rstr_spec; [exact S0|hin|]. now apply Gd.
  - apply hobj_bind. intros n En. apply put_new_safe. eapply safe_imp; [eapply (new_spec _ _ _ false); [apply simple_ctx|exact P0|hin]|]. apply post_new.
  - apply hobj_bind. intros n En. apply put_new_safe. eapply safe_imp; [eapply (new_spec _ _ _ false); [apply simple_qf|exact P0|hin]|]. apply post_new.
  - apply hobj_bind. intros n En. apply put_new_safe. eapply safe_imp; [eapply basis_spec; [split; [exact S0|auto]|hin]|]. apply post_new.
  - contradiction.
  - apply hobj_bind. intros n En. apply hobj_bind. intros q' Eq. apply hopt_bind. intros dq' Hdq. apply hopt_bind. intros dqt' Hdqt.
    apply put_new_safe. eapply safe_imp; [eapply op_spec; [exact P0|split; [hin|split; auto]|hin]|]. apply post_new.
  - apply hobj_bind. intros n En. apply put_new_safe. eapply safe_imp; [eapply (new_spec _ _ _ false); [apply simple_op|exact P0|hin]|]. apply post_new.
  - apply hobj_bind. intros n En. apply harg_bind. intros r' Hr. apply harg_bind. intros b' Hb. apply harg_bind. intros v' Hv.
    apply keep_safe. apply set_field_spec; auto; hin.
  - apply hobj_bind. intros n En. apply hobj_bind. intros r' Er. apply hobj_bind. intros v' Ev.
    apply keep_safe. apply set_points_spec; [exact S0|hin|hin|hin].
  - apply hobj_bind. intros n En. apply hobj_bind. intros s' Es. apply keep_safe. apply add_subop_spec; [exact S0|hin|hin].
  - apply hobj_bind. intros n En. apply hopt_bind. intros x' Hx. apply keep_safe. apply set_ctx_spec; [exact S0|hin|].
    destruct x' as [x'|]; [right; eauto|left; auto].
  - apply hobj_bind. intros n En. apply keep_safe. apply chebyshev_spec; [split; [exact S0|auto]|hin].
  - apply hval_bind. intros p Ep. destruct p as [| |n]; try exact I.
    destruct (live_of (rw_heap w) (rw_h w) n (proj1 S0)) as (o & E & F & R). { hin. }
    rewrite (geto_live _ _ E F). cbn [rbind]. destruct (nth_error (visible (o_body o)) i) as [p|] eqn:Ev; [|exact I].
    assert (D : p <> PNull -> safe (h <~ reference (rw_heap w) p ;; store w h dst p) WSt).
    { intros Np. destruct (@ref_spec 0 (rw_heap w) _ _ p S0) as (h2 & E2 & S2 & _).
      - destruct p as [| |m]; simpl; auto. eapply held_live; [apply S0|exact E|exact R|]. apply visible_held. eapply nth_error_In; eauto.
      - rewrite E2. cbn [rbind]. now apply store_safe. }
    destruct p; try (apply D; discriminate).
    apply store_safe. eapply St_perm; [|exact S0]. intros m. symmetry. apply cnt_nonobj. congruence.
  - apply hval_bind. intros p Ep. apply hval_bind. intros q Eq.
    assert (D : p <> PNull -> safe (h <~ reference (rw_heap w) p ;; h <~ destroy_ h q ;; Ok (RW h (upd (rw_h w) dst p))) WSt).
    { intros Np. destruct (@ref_spec 0 (rw_heap w) _ _ p S0) as (h2 & E2 & S2 & _). { eapply live_pl; [apply S0|hin|auto]. }
      rewrite E2. cbn [rbind].
      assert (S2' : St h2 (q :: upd (rw_h w) dst p) None).
      { eapply St_perm; [|exact S2]. intros m. pose proof (upd_cnt m _ _ p _ Eq) as U. rewrite !cnt_cons, ?cnt_nil in *. lia. }
      destruct (destroy_St _ _ _ _ S2') as (h3 & E3 & S3 & _). rewrite E3. exact S3. }
    destruct p; try (apply D; discriminate). exact I.
  - apply hval_bind. intros q Eq.
    assert (S2' : St (rw_heap w) (q :: upd (rw_h w) x PNull) None).
    { eapply St_perm; [|exact S0]. intros m. pose proof (upd_cnt m _ _ PNull _ Eq) as U. rewrite !cnt_cons, ?cnt_nil in *. simpl in U. lia. }
    destruct (destroy_St _ _ _ _ S2') as (h3 & E3 & S3 & _). rewrite E3. exact S3.
  - apply hobj_bind. intros a Ea. apply hobj_bind. intros b Eb. destruct (a =? b); [exact I|].
    apply keep_safe. apply same_ceed_spec; [split; [exact S0|auto]|hin|hin].
Qed.
Lemma w0_St nh : WSt (rw0 nh).
Proof.
  assert (Z : forall n, cnt n (repeat PNull nh) = 0). { intros n. induction nh; simpl; auto. }
  split; [split|]; simpl; try (intros [|n] o E; discriminate).
  - intros n _. rewrite Z, sumc_nil. reflexivity.
Qed.
Theorem rrun_safe l : forall w, WSt w -> good_run w l -> safe (rrun w l) WSt.
Proof.
  induction l as [|c l IH]; intros w S0 G; simpl; auto. destruct G as (G & Gn).
  pose proof (rstep_safe w c S0 G) as H. destruct (rstep w c) as [w'| |] eqn:E; simpl in *; auto.
Qed.

(** ** Reading the invariant *)
Lemma freed_ref w n o : WSt w -> nth_error (rw_heap w) n = Some o -> (o_freed o = false <-> (0 < o_ref o)%Z).
Proof.
  intros (I & Q) E. pose proof (i_cnt I _ E) as C. split; intros H.
  - destruct (Z.eq_dec (o_ref o) 0) as [Z0|]; [|lia]. destruct (Q n o E Z0); congruence.
  - destruct (o_freed o) eqn:F; auto. pose proof (i_fr I _ E F). lia.
Qed.
Lemma uses_sumc w n : WSt w -> uses w n = cnt n (rw_h w) + sumc (rw_heap w) n.
Proof.
  intros W. unfold uses, sumc. f_equal. f_equal. apply map_ext_in. intros o Hin. apply In_nth_error in Hin. destruct Hin as (m & E).
  unfold contrib. pose proof (freed_ref _ _ _ W E) as F. destruct (o_freed o) eqn:Fo.
  - destruct (Z.ltb_spec 0 (o_ref o)); auto. apply F in H. discriminate.
  - rewrite (proj2 (Z.ltb_lt _ _)); auto. now apply F.
Qed.
Lemma uses_count w n o : WSt w -> nth_error (rw_heap w) n = Some o -> o_ref o = Z.of_nat (uses w n).
Proof. intros W E. rewrite uses_sumc by auto. apply (i_cnt (proj1 W) _ E). Qed.
Lemma uses_pos w n : 1 <= uses w n <-> used_by_handle w n \/ used_by_object w n \/ left_behind w n.
Proof.
  unfold uses. assert (L : forall (f : obj -> nat) h, 1 <= list_sum (map f h) <-> exists m o, nth_error h m = Some o /\ 1 <= f o).
  { intros f h. induction h as [|a h IH]; simpl.
    - split; [lia|]. intros (m & o & E & _). destruct m; discriminate.
    - split.
      + intros H. destruct (Nat.eq_dec (f a) 0) as [Z0|].
        * assert (H0 : 1 <= list_sum (map f h)) by (unfold list_sum in *; lia). apply IH in H0. destruct H0 as (m & o & E & H1). exists (S m), o. auto.
        * exists 0, a. split; auto. lia.
      + intros ([|m] & o & E & H1); simpl in E.
        * inversion E; subst. unfold list_sum in *. lia.
        * assert (H0 : 1 <= list_sum (map f h)) by (apply IH; eauto). unfold list_sum in *. lia. }
  split.
  - intros H. destruct (Nat.eq_dec (cnt n (rw_h w)) 0) as [Z0|N0].
    + rewrite Z0 in H. simpl in H. apply L in H. destruct H as (m & o & E & H). apply in_cnt in H. right.
      destruct (o_freed o) eqn:F; [right|left]; exists m, o; auto.
    + left. assert (H0 : 1 <= cnt n (rw_h w)) by lia. apply in_cnt in H0. apply In_nth_error in H0. exact H0.
  - intros [(x & E)|[(m & o & E & F & H)|(m & o & E & F & H)]].
    + apply nth_error_In in E. apply cnt_in in E. lia.
    + assert (1 <= list_sum (map (fun o => cnt n (if o_freed o then stuck (o_body o) else held (o_body o))) (rw_heap w))); [|lia].
      apply L. exists m, o. split; auto. rewrite F. now apply cnt_in.
    + assert (1 <= list_sum (map (fun o => cnt n (if o_freed o then stuck (o_body o) else held (o_body o))) (rw_heap w))); [|lia].
      apply L. exists m, o. split; auto. rewrite F. now apply cnt_in.
Qed.
Lemma uses_in_heap w n : WSt w -> 1 <= uses w n -> exists o, nth_error (rw_heap w) n = Some o /\ o_freed o = false.
Proof.
  intros W H. rewrite uses_sumc in H by auto. destruct (tot_live _ (proj1 W) H) as (o & E & F & _). eauto.
Qed.
Lemma freed_iff w n o : WSt w -> nth_error (rw_heap w) n = Some o ->
  (o_freed o = false <-> used_by_handle w n \/ used_by_object w n \/ left_behind w n).
Proof.
  intros W E. rewrite <- uses_pos. pose proof (uses_count _ _ _ W E). pose proof (freed_ref _ _ _ W E) as F. rewrite F. lia.
Qed.

(** ** Everything is freed in the end *)
Lemma reaches_trans w a b c : holds_obj w a b -> (b = c \/ reaches w b c) -> reaches w a c.
Proof. intros H [->|R]; [now apply reach_one|eapply reach_step; eauto]. Qed.
Lemma all_freed w : WSt w -> (forall x n, nth_error (rw_h w) x <> Some (PObj n)) -> acyclic w -> (forall n, ~ left_behind w n) ->
  forall n o, nth_error (rw_heap w) n = Some o -> o_freed o = true.
Proof.
  intros W Hh Ac Lb n0 o0 E0. destruct (o_freed o0) eqn:F0; auto. exfalso.
  assert (Up : forall n o, nth_error (rw_heap w) n = Some o -> o_freed o = false -> exists m o', nth_error (rw_heap w) m = Some o' /\ o_freed o' = false /\ holds_obj w m n).
  { intros n o E F. apply (freed_iff w n o W E) in F. destruct F as [(x & Ex)|[(m & o' & E' & F' & H)|H]].
    - destruct (Hh _ _ Ex). - exists m, o'. split; auto. split; auto. exists o'. auto. - destruct (Lb _ H). }
  assert (Ch : forall k, exists n o l, nth_error (rw_heap w) n = Some o /\ o_freed o = false /\ length l = k /\ NoDup (n :: l) /\
     (forall x, In x l -> reaches w n x) /\ (forall x, In x (n :: l) -> x < length (rw_heap w))).
  { induction k as [|k (n & o & l & E & F & Ll & Nd & Rl & Bl)].
    - exists n0, o0, []. split; auto. split; auto. split; auto. split; [repeat constructor; auto|]. split; [intros x []|].
      intros x [<-|[]]. now apply nth_lt in E0.
    - destruct (Up n o E F) as (m & o' & E' & F' & Hm). exists m, o', (n :: l). split; auto. split; auto. split; [simpl; auto|].
      assert (Rm : forall x, In x (n :: l) -> reaches w m x). { intros x [<-|Hx]; eapply reaches_trans; eauto. }
      split; [|split; auto].
      + constructor; auto. intros Hin. apply (Ac m). auto.
      + intros x [<-|Hx]; auto. now apply nth_lt in E'. }
  destruct (Ch (length (rw_heap w))) as (n & o & l & _ & _ & Ll & Nd & _ & Bl).
  assert (Hi : incl (n :: l) (seq 0 (length (rw_heap w)))). { intros x Hx. apply in_seq. specialize (Bl x Hx). lia. }
  apply (NoDup_incl_length Nd) in Hi. rewrite seq_length in Hi. simpl in Hi. lia.
Qed.
