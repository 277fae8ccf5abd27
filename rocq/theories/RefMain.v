(** * Reference counts: every call keeps the invariant *)
From Coq Require Import List ZArith Lia Bool Arith.
From Verif Require Import Prelude RstrModel OpModel RefModel RefSpec RefProofs.
Import ListNotations.
Local Open Scope nat_scope.

(** objects without references are freed, except [x] *)
Definition Qx (x : option nat) (h : heap) : Prop :=
  forall n o, nth_error h n = Some o -> o_ref o = 0%Z -> o_freed o = true \/ x = Some n.
Definition St (h : heap) (ext : list ptr) (x : option nat) : Prop := Inv h ext /\ Qx x h.
Definition mono (h h' : heap) : Prop := forall n, sumc h n <= sumc h' n.
(** bodies below [k] stay, objects from [k] on are no contexts *)
Definition evk (k : nat) (h h' : heap) : Prop :=
  length h <= length h' /\
  (forall n o, nth_error h n = Some o -> exists o', nth_error h' n = Some o' /\ kindof (o_body o') = kindof (o_body o) /\
     (n < k -> o_body o' = o_body o) /\ (o_freed o = true -> o_freed o' = true)) /\
  (forall n o', nth_error h' n = Some o' -> nth_error h n = None -> k <= n /\ kindof (o_body o') <> OCeed).
Lemma evk_refl k h : evk k h h.
Proof. split; auto. split. - intros n o E. exists o. auto. - intros n o' E N. congruence. Qed.
Lemma evk_trans k h h' h'' : evk k h h' -> evk k h' h'' -> evk k h h''.
Proof.
  intros (L & A & B) (L' & A' & B'). split; [lia|]. split.
  - intros n o E. destruct (A n o E) as (o1 & E1 & K1 & S1 & F1). destruct (A' n o1 E1) as (o2 & E2 & K2 & S2 & F2).
    exists o2. split; auto. split; [congruence|]. split; auto. intros H. rewrite S2, S1; auto.
  - intros n o'' E N. destruct (nth_error h' n) as [o'|] eqn:E'.
    + destruct (B n o' E' N) as (K & H). split; auto. destruct (A' n o' E') as (o2 & E2 & K2 & _).
      rewrite E in E2. inversion E2; subst. congruence.
    + auto.
Qed.
Lemma evk_le k k' h h' : k <= k' -> k' <= length h -> evk k' h h' -> evk k h h'.
Proof.
  intros Lk Lh (L & A & B). split; auto. split.
  - intros n o E. destruct (A n o E) as (o' & E' & K & S0 & F). exists o'. split; auto. split; auto. split; auto. intros. apply S0. lia.
  - intros n o' E N. destruct (B n o' E N). split; auto. lia.
Qed.
Lemma mono_refl h : mono h h. Proof. intros n. lia. Qed.
Lemma mono_trans h h' h'' : mono h h' -> mono h' h'' -> mono h h''.
Proof. intros A B n. specialize (A n). specialize (B n). lia. Qed.
Lemma evk_upd k h n o o' : nth_error h n = Some o -> kindof (o_body o') = kindof (o_body o) -> (n < k -> o_body o' = o_body o) ->
  (o_freed o = true -> o_freed o' = true) -> evk k h (upd h n o').
Proof.
  intros E K B F. pose proof (nth_lt _ _ E) as L. split; [rewrite upd_length; auto|]. split.
  - intros m x Ex. destruct (Nat.eq_dec m n) as [->|N].
    + exists o'. rewrite nth_upd_same by auto. rewrite E in Ex. inversion Ex; subst x. auto.
    + exists x. rewrite nth_upd_other by auto. auto.
  - intros m x Ex N. destruct (nth_upd_inv _ _ _ _ Ex) as [(-> & _ & _)|(_ & H)]; congruence.
Qed.
Lemma dz_evk k h h' : dz h h' -> evk k h h'.
Proof.
  intros D. split; [rewrite (dz_len D); auto|]. split.
  - intros n o E. destruct (dz_at D _ E) as (o' & E' & B & _ & _ & F & _). exists o'. split; auto. rewrite B. auto.
  - intros n o' E N. apply nth_lt in E. rewrite (dz_len D) in E. apply nth_error_None in N. lia.
Qed.
Lemma dz_Q x h h' : dz h h' -> Qx x h -> Qx x h'.
Proof.
  intros D Q n o' E R. assert (L : n < length h). { apply nth_lt in E. now rewrite (dz_len D) in E. }
  destruct (nth_error h n) as [o|] eqn:Eo; [|apply nth_error_None in Eo; lia].
  destruct (dz_at D _ Eo) as (o1 & E1 & _ & Z1 & _ & _ & G). rewrite E in E1. inversion E1; subst o1.
  destruct (Z.eq_dec (o_ref o) 0) as [H|H].
  - rewrite (Z1 H) in *. eauto.
  - left. auto.
Qed.
Lemma destroy_St h p ext x : St h (p :: ext) x -> exists h', destroy_ h p = Ok h' /\ St h' ext x /\ dz h h'.
Proof. intros [I Q]. destruct (destroy_ok I) as (h' & E & I' & D). exists h'. split; auto. split; auto. split; auto. eapply dz_Q; eauto. Qed.
Lemma St_perm h ext ext' x : (forall n, cnt n ext = cnt n ext') -> St h ext x -> St h ext' x.
Proof. intros E [I Q]. split; auto. eapply inv_perm; eauto. Qed.
Ltac perm := let n := fresh "n" in intros n; repeat (rewrite ?cnt_app, ?cnt_cons, ?cnt_nil; cbn [app]); lia.
Lemma Q_upd x h n o o' : Qx x h -> nth_error h n = Some o -> (o_ref o' = 0%Z -> o_freed o' = true \/ x = Some n) -> Qx x (upd h n o').
Proof.
  intros Q E F m y Ey R. destruct (nth_upd_inv _ _ _ _ Ey) as [(-> & -> & _)|(N & H)]; eauto.
Qed.

(** ** Reference *)
Definition pl (h : heap) (p : ptr) : Prop := match p with PNull => False | PStatic => True | PObj n => live h n end.
Lemma live_pl h ext p : Inv h ext -> In p ext -> p <> PNull -> pl h p.
Proof. intros I H N. destruct p; simpl; auto; try congruence. eapply in_live; eauto. Qed.
Lemma ref_spec k h ext x p : St h ext x -> pl h p ->
  exists h', reference h p = Ok h' /\ St h' (p :: ext) x /\ evk k h h' /\ mono h h' /\ length h' = length h /\
  (forall n o, nth_error h n = Some o -> exists o', nth_error h' n = Some o' /\ o_body o' = o_body o /\ o_freed o' = o_freed o /\ (o_ref o <= o_ref o')%Z /\ (PObj n <> p -> o' = o)).
Proof.
  intros [I Q] P. destruct p as [| |n]; simpl in *; try contradiction.
  - exists h. split; auto. split. { eapply St_perm; [|split; eauto]. intros n. symmetry. now apply cnt_nonobj. }
    split; [apply evk_refl|]. split; [apply mono_refl|]. split; auto. intros n o E. exists o. repeat split; auto; lia.
  - destruct P as (o & E & F & R). rewrite (geto_live _ _ E F). simpl.
    pose proof (nth_lt _ _ E) as L.
    eexists. split; [reflexivity|]. split; [split|split; [|split; [|split]]].
    + eapply inv_upd; eauto.
      * intros m N. rewrite !contrib_pos by (simpl; lia). rewrite cnt_other by auto. reflexivity.
      * rewrite !contrib_pos by (simpl; lia). rewrite cnt_self. simpl. lia.
      * simpl; congruence.
      * apply (i_ok I _ E).
    + eapply Q_upd; eauto. simpl. lia.
    + eapply evk_upd; eauto; simpl; congruence.
    + intros m. pose proof (@sumc_upd h n o (mkObj (o_ref o + 1) false (o_body o)) m E) as U. rewrite !contrib_pos in U by (simpl; lia). simpl in U. lia.
    + apply upd_length.
    + intros m y Ey. destruct (Nat.eq_dec m n) as [->|N].
      * rewrite E in Ey. inversion Ey; subst y. eexists. rewrite nth_upd_same by auto. split; [reflexivity|]. simpl. repeat split; auto; try lia. congruence.
      * rewrite nth_upd_other by auto. exists y. repeat split; auto; lia.
Qed.
(** the first reference to a tensor contraction object *)
Lemma adopt k h ext n c : St h (PObj c :: ext) (Some n) -> nth_error h n = Some (mkObj 0 false (BContract (PObj c))) ->
  exists h', reference h (PObj n) = Ok h' /\ St h' (PObj n :: ext) None /\ evk k h h' /\ h' = upd h n (mkObj 1 false (BContract (PObj c))).
Proof.
  intros [I Q] E. simpl. rewrite (geto_live _ _ E eq_refl). simpl. pose proof (nth_lt _ _ E) as L.
  pose proof (i_cnt I _ E) as Cn. simpl in Cn.
  eexists. split; [reflexivity|]. split; [split|split; [|reflexivity]].
  - eapply inv_upd; eauto.
    + intros m N. rewrite (contrib_zero m (mkObj 0 false (BContract (PObj c)))) by (simpl; lia). rewrite contrib_pos by (simpl; lia).
      simpl held. simpl stuck. rewrite (cnt_other ext N). rewrite !cnt_cons, !cnt_nil. lia.
    + rewrite (contrib_zero n (mkObj 0 false (BContract (PObj c)))) by (simpl; lia). rewrite contrib_pos by (simpl; lia).
      simpl held. simpl stuck. rewrite cnt_self. rewrite !cnt_cons, !cnt_nil in *. simpl o_ref. lia.
    + simpl. congruence.
    + simpl. auto.
  - intros m y Ey R. destruct (nth_upd_inv _ _ _ _ Ey) as [(-> & -> & _)|(N & H)]; [simpl in R; lia|].
    destruct (Q m y H R) as [F|F]; [auto|congruence].
  - eapply evk_upd; eauto.
Qed.

(** ** Writing pointers *)
Lemma sput_cnt b s q p n : sget b s = Some q -> cnt n (held (sput s p b)) + cnt n [q] = cnt n (held b) + cnt n [p].
Proof.
  intros H. destruct b; destruct s; simpl in H; try discriminate; inversion H; subst; simpl held; rewrite ?cnt_app, ?cnt_cons, ?cnt_nil; try lia;
  repeat (rewrite ?cnt_app, ?cnt_cons, ?cnt_nil; cbn [app]); lia.
Qed.
Lemma sput_kind b s p : kindof (sput s p b) = kindof b. Proof. destruct b, s; reflexivity. Qed.
Lemma sput_get b s q p : sget b s = Some q -> sget (sput s p b) s = Some p.
Proof. destruct b, s; simpl; congruence. Qed.
Lemma sput_sput b s q p : sput s p (sput s q b) = sput s p b.
Proof. destruct b, s; reflexivity. Qed.
Lemma sput_bok n b s p : (s = SDeleg -> forall m, p = PObj m -> n < m) -> bok n b -> bok n (sput s p b).
Proof. intros H B. destruct b; destruct s; simpl in *; auto. intuition. Qed.
Lemma modb_spec k h ext ext' x n f o : St h ext x -> nth_error h n = Some o -> (0 < o_ref o)%Z -> o_freed o = false ->
  (forall m, cnt m ext' + cnt m (held (f (o_body o))) = cnt m ext + cnt m (held (o_body o))) ->
  kindof (f (o_body o)) = kindof (o_body o) -> bok n (f (o_body o)) -> k <= n ->
  exists h', modb h n f = Ok h' /\ St h' ext' x /\ evk k h h' /\ length h' = length h /\ nth_error h' n = Some (mkObj (o_ref o) false (f (o_body o))) /\
   (forall m, m <> n -> nth_error h' m = nth_error h m).
Proof.
  intros [I Q] E R F C K B Lk. unfold modb. rewrite (geto_live _ _ E F). simpl. pose proof (nth_lt _ _ E) as L.
  eexists. split; [reflexivity|]. split; [split|split; [|split; [|split]]].
  - eapply inv_upd; eauto.
    + intros m N. rewrite !contrib_pos by (simpl; lia). simpl. auto.
    + rewrite !contrib_pos by (simpl; lia). simpl. specialize (C n). lia.
    + simpl. congruence.
  - eapply Q_upd; eauto. simpl. lia.
  - eapply evk_upd; eauto; simpl; try lia; congruence.
  - apply upd_length.
  - now apply nth_upd_same.
  - intros. now apply nth_upd_other.
Qed.
Lemma slot_set_spec k h ext x n s p o : St h (p :: ext) x -> nth_error h n = Some o -> (0 < o_ref o)%Z -> o_freed o = false ->
  sget (o_body o) s = Some PNull -> (s = SDeleg -> forall m, p = PObj m -> n < m) -> k <= n ->
  exists h', slot_set h n s p = Ok h' /\ modb h n (sput s p) = Ok h' /\ St h' ext x /\ evk k h h' /\ length h' = length h /\
   nth_error h' n = Some (mkObj (o_ref o) false (sput s p (o_body o))) /\ (forall m, m <> n -> nth_error h' m = nth_error h m).
Proof.
  intros S0 E R F G D Lk.
  destruct (@modb_spec k h (p :: ext) ext x n (sput s p) o S0 E R F) as (h' & M & R' & Rest); auto.
  - intros m. pose proof (sput_cnt _ _ _ p m G) as C. rewrite !cnt_cons, !cnt_nil in *. simpl in C. lia.
  - apply sput_kind.
  - apply sput_bok; auto. apply (i_ok (proj1 S0) _ E).
  - exists h'. unfold slot_set, read. rewrite (geto_live _ _ E F). simpl. rewrite G. simpl. auto.
Qed.
Lemma live_of h ext n : Inv h ext -> In (PObj n) ext -> exists o, nth_error h n = Some o /\ o_freed o = false /\ (0 < o_ref o)%Z.
Proof. intros. eapply in_live; eauto. Qed.
Lemma slot_drop_spec h ext x n s : St h ext x -> In (PObj n) ext ->
  safe (slot_drop h n s) (fun h' => St h' ext x /\ length h' = length h /\ exists o o', nth_error h n = Some o /\ nth_error h' n = Some o' /\ (0 < o_ref o')%Z /\ o_freed o' = false /\
     o_body o' = sput s PNull (o_body o) /\ sget (o_body o') s = Some PNull /\
     (forall m y, nth_error h m = Some y -> m <> n -> exists y', nth_error h' m = Some y' /\ o_body y' = o_body y /\ (o_freed y = true -> o_freed y' = true))).
Proof.
  intros S0 Hn. destruct (live_of _ _ _ (proj1 S0) Hn) as (o & E & F & R).
  unfold slot_drop, read. rewrite (geto_live _ _ E F). simpl. destruct (sget (o_body o) s) as [q|] eqn:G; simpl; auto.
  destruct (@modb_spec 0 h ext (q :: ext) x n (sput s PNull) o S0 E R F) as (h1 & M & S1 & V1 & L1 & N1 & O1); try lia.
  - intros m. pose proof (sput_cnt _ _ _ PNull m G) as C. rewrite !cnt_cons, !cnt_nil in *. simpl in C. lia.
  - apply sput_kind.
  - apply sput_bok; [congruence|]. apply (i_ok (proj1 S0) _ E).
  - rewrite M. simpl. destruct (destroy_St _ _ _ _ S1) as (h2 & D & S2 & Z2). rewrite D. simpl. split; auto. split.
    { rewrite (dz_len Z2). auto. }
    destruct (live_of _ _ _ (proj1 S2) Hn) as (o2 & E2 & F2 & R2). exists o, o2. repeat (split; auto).
    + destruct (dz_at Z2 _ N1) as (y & Ey & B & _). rewrite E2 in Ey. inversion Ey; subst. rewrite B. reflexivity.
    + destruct (dz_at Z2 _ N1) as (y & Ey & B & _). rewrite E2 in Ey. inversion Ey; subst. rewrite B. simpl. eapply sput_get; eauto.
    + intros m y Ey N. rewrite <- O1 in Ey by auto. destruct (dz_at Z2 _ Ey) as (y' & E' & B & _ & _ & Fy & _). exists y'. auto.
Qed.
(** bodies of all objects but [n] stay *)
Definition others (n : nat) (h h' : heap) : Prop :=
  length h' = length h /\ forall m y, nth_error h m = Some y -> m <> n -> exists y', nth_error h' m = Some y' /\ o_body y' = o_body y /\ (o_freed y = true -> o_freed y' = true).
Lemma slot_copy_spec h ext x n s p : St h ext x -> In (PObj n) ext -> pl h p -> (s = SDeleg -> forall m, p = PObj m -> n < m) ->
  safe (slot_copy h n s p) (fun h' => St h' ext x /\ others n h h' /\ exists o o', nth_error h n = Some o /\ nth_error h' n = Some o' /\ o_body o' = sput s p (o_body o)).
Proof.
  intros S0 Hn Hp Hd. unfold slot_copy. destruct (@ref_spec 0 h ext x p S0 Hp) as (h1 & E1 & S1 & V1 & M1 & L1 & A1). rewrite E1. simpl.
  apply safe_bind. eapply safe_imp. { eapply slot_drop_spec; [exact S1|right; auto]. }
  intros h2 (S2 & L2 & o & o' & Eo & Eo' & R & F & B & G & O).
  destruct (@slot_set_spec 0 h2 ext x n s p o' S2 Eo' R F G Hd (Nat.le_0_l _)) as (h3 & _ & M & S3 & _ & L3 & N3 & O3).
  rewrite M. simpl. split; auto. split.
  - split; [congruence|]. intros m y Ey N. destruct (A1 m y Ey) as (y1 & Ey1 & B1 & F1 & _).
    destruct (O m y1 Ey1 N) as (y2 & Ey2 & B2 & F2). exists y2. rewrite O3 by auto. split; auto. split; [congruence|]. rewrite <- F1. auto.
  - destruct (live_of _ _ _ (proj1 S0) Hn) as (o0 & E0 & F0 & _). exists o0, (mkObj (o_ref o') false (sput s p (o_body o'))).
    split; auto. split; auto. simpl. rewrite B, sput_sput. destruct (A1 n o0 E0) as (y1 & Ey1 & B1 & _). congruence.
Qed.
Lemma others_evk k n h h' o o' : others n h h' -> nth_error h n = Some o -> nth_error h' n = Some o' -> kindof (o_body o') = kindof (o_body o) -> o_freed o = false -> k <= n -> evk k h h'.
Proof.
  intros [L A] E E' K F Lk. split; [lia|]. split.
  - intros m y Ey. destruct (Nat.eq_dec m n) as [->|N].
    + exists o'. rewrite E in Ey. inversion Ey; subst y. repeat split; auto; [lia|congruence].
    + destruct (A m y Ey N) as (y' & Ey' & B & Fy). exists y'. rewrite B. auto.
  - intros m y Ey N. apply nth_lt in Ey. apply nth_error_None in N. lia.
Qed.

(** ** New objects *)
Lemma nth_app_new A (l : list A) x : nth_error (l ++ [x]) (length l) = Some x.
Proof. rewrite nth_error_app2, Nat.sub_diag; auto. Qed.
Lemma nth_app_inv A (l : list A) x n y : nth_error (l ++ [x]) n = Some y -> (n < length l /\ nth_error l n = Some y) \/ (n = length l /\ y = x).
Proof.
  intros H. destruct (Nat.lt_ge_cases n (length l)) as [L|L].
  - left. split; auto. now rewrite nth_error_app1 in H.
  - right. rewrite nth_error_app2 in H by auto. destruct (n - length l) eqn:D; simpl in H; [|destruct n0; discriminate]. inversion H. split; auto; lia.
Qed.
Lemma alloc_inv h ext r b : Inv h (held b ++ ext) -> bok (length h) b -> (r = 1%Z) -> Inv (h ++ [mkObj r false b]) (PObj (length h) :: ext).
Proof.
  intros I B ->. assert (S0 : forall n, sumc (h ++ [mkObj 1 false b]) n = sumc h n + cnt n (held b)).
  { intros n. rewrite sumc_app, sumc_cons, sumc_nil. rewrite contrib_pos by (simpl; lia). simpl. lia. }
  split.
  - intros n o E. rewrite S0. destruct (nth_app_inv _ _ _ _ _ E) as [(L & E')|(-> & ->)].
    + rewrite (i_cnt I _ E'). rewrite cnt_app, cnt_other by lia. lia.
    + rewrite cnt_self. pose proof (i_out I (le_n _)) as O. rewrite cnt_app in O. simpl. lia.
  - intros n. rewrite app_length, S0. simpl. intros H. assert (H' : length h <= n) by lia. pose proof (i_out I H') as O.
    rewrite cnt_app in O. rewrite cnt_other by lia. lia.
  - intros n o E F. destruct (nth_app_inv _ _ _ _ _ E) as [(L & E')|(-> & ->)]; [apply (i_fr I _ E' F)|discriminate].
  - intros n o E. destruct (nth_app_inv _ _ _ _ _ E) as [(L & E')|(-> & ->)]; [apply (i_ok I _ E')|auto].
Qed.
Lemma alloc0_inv h ext b : Inv h ext -> stuck b = [] -> bok (length h) b -> Inv (h ++ [mkObj 0 false b]) ext.
Proof.
  intros I Sb B. assert (S0 : forall n, sumc (h ++ [mkObj 0 false b]) n = sumc h n).
  { intros n. rewrite sumc_app, sumc_cons, sumc_nil. rewrite contrib_zero by (simpl; lia). simpl. rewrite Sb, cnt_nil. lia. }
  split.
  - intros n o E. rewrite S0. destruct (nth_app_inv _ _ _ _ _ E) as [(L & E')|(-> & ->)].
    + apply (i_cnt I _ E').
    + pose proof (i_out I (le_n _)) as O. simpl. lia.
  - intros n. rewrite app_length, S0. simpl. intros H. apply (i_out I). lia.
  - intros n o E F. destruct (nth_app_inv _ _ _ _ _ E) as [(L & E')|(-> & ->)]; [apply (i_fr I _ E' F)|discriminate].
  - intros n o E. destruct (nth_app_inv _ _ _ _ _ E) as [(L & E')|(-> & ->)]; [apply (i_ok I _ E')|auto].
Qed.
Lemma evk_alloc k h o : k <= length h -> kindof (o_body o) <> OCeed -> evk k h (h ++ [o]).
Proof.
  intros L K. split; [rewrite app_length; lia|]. split.
  - intros n y E. exists y. rewrite nth_error_app1 by (now apply nth_lt in E). auto.
  - intros n y E N. destruct (nth_app_inv _ _ _ _ _ E) as [(_ & E')|(-> & ->)]; [congruence|auto].
Qed.
Lemma mono_alloc h o : mono h (h ++ [o]).
Proof. intros n. rewrite sumc_app. lia. Qed.
Lemma fresh_spec h ext c b : St h ext None -> In (PObj c) ext -> (forall p n, cnt n (held (b p)) = cnt n [p]) -> (forall p n, bok n (b p)) ->
  (forall p, kindof (b p) <> OCeed) ->
  exists h', fresh 1 b h c = Ok (length h, h') /\ St h' (PObj (length h) :: ext) None /\ evk (length h) h h' /\ mono h h' /\
  nth_error h' (length h) = Some (mkObj 1 false (b (PObj c))) /\ length h' = S (length h).
Proof.
  intros S0 Hc Hh Hb Hk. unfold fresh.
  destruct (@ref_spec (length h) h ext None (PObj c) S0 (in_live _ (proj1 S0) Hc)) as (h1 & E1 & S1 & V1 & M1 & L1 & _).
  rewrite E1. simpl. unfold alloc. rewrite L1. eexists. split; [reflexivity|]. split; [split|split; [|split; [|split]]].
  - rewrite <- L1. apply alloc_inv; auto. eapply inv_perm; [|apply S1]. intros n. rewrite cnt_app, Hh. rewrite cnt_cons, cnt_cons, cnt_nil. lia.
  - intros n o E R. destruct (nth_app_inv _ _ _ _ _ E) as [(L & E')|(-> & ->)]; [apply (proj2 S1 n o E' R)|simpl in R; lia].
  - eapply evk_trans; [exact V1|]. apply evk_alloc; [lia|apply Hk].
  - eapply mono_trans; [exact M1|apply mono_alloc].
  - rewrite <- L1. apply nth_app_new.
  - rewrite app_length. simpl. lia.
Qed.
