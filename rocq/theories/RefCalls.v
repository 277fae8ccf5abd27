(** * Reference counts: creating calls, histories *)
From Coq Require Import List ZArith Lia Bool Arith.
From Verif Require Import Prelude RstrModel OpModel RefModel RefSpec RefProofs RefMain.
Import ListNotations.
Local Open Scope nat_scope.

(** ** Creation through delegates *)
Definition G1 (ext : list ptr) (n : nat) (h : heap) : Prop := St h (PObj n :: ext) None.
Definition G0 (ext : list ptr) (n : nat) (h : heap) : Prop :=
  exists c, nth_error h n = Some (mkObj 0 false (BContract (PObj c))) /\ St h (PObj c :: ext) (Some n).
Definition Ginv (G : list ptr -> nat -> heap -> Prop) : Prop := forall ext n h, G ext n h -> exists g, Inv h (g ++ ext).
Definition Gstable (G : list ptr -> nat -> heap -> Prop) : Prop :=
  forall ext d n h, G (PObj d :: ext) n h -> exists h', destroy_ h (PObj d) = Ok h' /\ G ext n h' /\ dz h h'.
Lemma G1_inv : Ginv G1. Proof. intros ext n h [I _]. now exists [PObj n]. Qed.
Lemma G0_inv : Ginv G0. Proof. intros ext n h (c & _ & I & _). now exists [PObj c]. Qed.
Lemma G1_stable : Gstable G1.
Proof.
  intros ext d n h H. apply (St_perm _ _ (PObj d :: PObj n :: ext)) in H; [|perm].
  destruct (destroy_St _ _ _ _ H) as (h' & E & S1 & D). exists h'. auto.
Qed.
Lemma G0_stable : Gstable G0.
Proof.
  intros ext d n h (c & E & H). apply (St_perm _ _ (PObj d :: PObj c :: ext)) in H; [|perm].
  destruct (destroy_St _ _ _ _ H) as (h' & D & S1 & Z1). exists h'. split; auto. split; auto. exists c. split; auto.
  destruct (dz_at Z1 _ E) as (o' & E' & _ & Z0 & _). rewrite (Z0 eq_refl) in E'. auto.
Qed.

Definition Pre (pa : bool) (h : heap) (ext : list ptr) : Prop := St h ext None /\ (pa = true -> parents_alive h).
Lemma pa_same h h' : (forall n o', nth_error h' n = Some o' -> parent_field (o_body o') <> None -> o_freed o' = false ->
    exists o, nth_error h n = Some o /\ o_body o = o_body o' /\ o_freed o = false) ->
  (forall n o, nth_error h n = Some o -> o_freed o = false -> exists o', nth_error h' n = Some o' /\ o_freed o' = false) ->
  parents_alive h -> parents_alive h'.
Proof.
  intros A B P n o' p E F Ep. destruct (A n o' E) as (o & Eo & Bo & Fo); auto; try congruence.
  rewrite <- Bo in Ep. destruct (P n o p Eo Fo Ep) as (q & Eq & Fq). eauto.
Qed.
Lemma pa_ref h h' : length h' = length h ->
  (forall n o, nth_error h n = Some o -> exists o', nth_error h' n = Some o' /\ o_body o' = o_body o /\ o_freed o' = o_freed o) ->
  parents_alive h -> parents_alive h'.
Proof.
  intros L A. apply pa_same.
  - intros n o' E _ F. destruct (nth_error h n) as [o|] eqn:Eo.
    + destruct (A n o Eo) as (y & Ey & B & Fy). rewrite E in Ey. inversion Ey; subst y. exists o. repeat split; congruence.
    + apply nth_error_None in Eo. apply nth_lt in E. lia.
  - intros n o E F. destruct (A n o E) as (y & Ey & B & Fy). exists y. split; congruence.
Qed.
Lemma pa_evk h h' ext ext' : Inv h ext -> Qx None h -> Inv h' (ext' ++ ext) -> evk (length h) h h' -> mono h h' -> parents_alive h -> parents_alive h'.
Proof.
  intros I Q I' (L & A & B) M. apply pa_same.
  - intros n o' E N F. destruct (nth_error h n) as [o|] eqn:Eo.
    + destruct (A n o Eo) as (y & Ey & K & Bo & Fo). rewrite E in Ey. inversion Ey; subst y. exists o. split; auto.
      pose proof (nth_lt _ _ Eo). split; [symmetry; auto|]. destruct (o_freed o); auto. rewrite Fo in F; auto.
    + destruct (B n o' E Eo) as (_ & K). exfalso. destruct (o_body o'); simpl in *; congruence.
  - intros n o E F. assert (R : o_ref o <> 0%Z). { intros R. destruct (Q n o E R); congruence. }
    pose proof (i_cnt I _ E) as C. assert (T : 1 <= cnt n (ext' ++ ext) + sumc h' n). { specialize (M n). rewrite cnt_app. lia. }
    destruct (tot_live _ I' T) as (y & Ey & Fy & _). eauto.
Qed.
Lemma Pre_ref pa h ext d k : Pre pa h ext -> live h d ->
  exists h', reference h (PObj d) = Ok h' /\ Pre pa h' (PObj d :: ext) /\ evk k h h' /\ mono h h' /\ length h' = length h.
Proof.
  intros [S0 P] Hd. destruct (@ref_spec k h ext None (PObj d) S0 Hd) as (h' & E & S1 & V & M & L & A).
  exists h'. split; auto. split; [|auto]. split; auto. intros H. specialize (P H). revert P. apply pa_ref; auto.
  intros n o Eo. destruct (A n o Eo) as (o' & E' & B & F & _). eauto.
Qed.

Section Via.
Variables (pa mf strict : bool) (mk : heap -> nat -> res (nat * heap)) (G : list ptr -> nat -> heap -> Prop).
Hypothesis GI : Ginv G.
Hypothesis GS : Gstable G.
Variable K : list ptr -> Prop.
Hypothesis KS : forall ext d, K ext -> K (d :: ext).
Definition Post (h : heap) (ext : list ptr) (r : nat * heap) : Prop :=
  G ext (fst r) (snd r) /\ evk (length h) h (snd r) /\ (mf = true -> mono h (snd r)).
Hypothesis Hmk : forall h c ext, Pre pa h ext -> K ext -> In (PObj c) ext -> safe (mk h c) (Post h ext).

Lemma via_spec k : forall f h c ext, Pre pa h ext -> K ext -> In (PObj c) ext -> length h <= f + c -> safe (via (S f) strict mk k h c) (Post h ext).
Proof.
  induction f as [|f IH]; intros h c ext P Hk Hc Lf.
  - exfalso. destruct (live_of _ _ _ (proj1 (proj1 P)) Hc) as (o & E & _). apply nth_lt in E. lia.
  - destruct (live_of _ _ _ (proj1 (proj1 P)) Hc) as (o & E & F & R).
    unfold via; fold via. rewrite (geto_live _ _ E F). cbn [rbind].
    destruct (o_body o) as [impl dl od fb pr| | | | | | |] eqn:B; try exact I.
    destruct (existsb (okind_eqb k) impl); [now apply Hmk|].
    destruct (delegate_for od dl k) as [| |d] eqn:D; try (destruct strict; [exact I|now apply Hmk]).
    assert (Hd : In (PObj d) (held (o_body o)) /\ c < d).
    { rewrite B. pose proof (i_ok (proj1 (proj1 P)) _ E) as Kb. rewrite B in Kb. simpl in Kb. destruct Kb as (K1 & K2 & _).
      unfold delegate_for in D. destruct od as [|[k0 p0] od]; [subst dl; split; [simpl; auto|auto]|].
      destruct (okind_eqb k k0); subst.
      - split; [simpl; auto|]. eapply K2; simpl; eauto.
      - split; [simpl; auto|auto]. }
    destruct Hd as (Hd & Lcd).
    assert (Ld : live h d) by (eapply held_live; eauto; apply P).
    destruct (Pre_ref pa h ext d (length h) P Ld) as (h1 & E1 & P1 & V1 & M1 & L1). rewrite E1. cbn [rbind].
    apply safe_bind. eapply safe_imp. { apply (IH h1 d (PObj d :: ext)); auto. left; auto. lia. }
    intros [n h2] (G2 & V2 & M2). cbn [fst snd] in *.
    destruct (GS _ _ _ _ G2) as (h3 & E3 & G3 & Z3). rewrite E3. cbn [rbind safe]. split; [exact G3|]. cbn [fst snd].
    assert (V12 : evk (length h) h h2). { eapply evk_trans; [exact V1|]. rewrite <- L1. exact V2. }
    split. { eapply evk_trans; [exact V12|]. now apply dz_evk. }
    intros Hm. destruct (GI _ _ _ G2) as (g & I2).
    assert (I2' : Inv h2 (PObj d :: g ++ ext)) by (eapply inv_perm; [|exact I2]; perm).
    assert (T : 1 <= cnt d (g ++ ext) + sumc h2 d).
    { destruct V12 as (_ & A12 & _). destruct (A12 c o E) as (o2 & Eo2 & _ & Bo2 & _). pose proof (nth_lt _ _ E).
      destruct (live_of h2 (g ++ PObj d :: ext) c I2) as (o2' & Eo2' & _ & Ro2). { apply in_or_app. right. right. auto. }
      rewrite Eo2 in Eo2'. inversion Eo2'; subst o2'. pose proof (contrib_le _ _ d Eo2) as Cl. rewrite contrib_pos in Cl by auto.
      rewrite Bo2 in Cl by auto. pose proof (cnt_in _ _ Hd). lia. }
    destruct (destroy_temp I2' T) as (od2 & Eod & _ & Ed & Rd & _). rewrite Ed in E3. inversion E3; subst h3.
    eapply mono_trans; [eapply mono_trans; [exact M1|apply M2; auto]|].
    intros m. pose proof (@sumc_upd h2 d od2 (mkObj (o_ref od2 - 1) false (o_body od2)) m Eod) as U. rewrite !contrib_pos in U by (simpl; lia). simpl in U. lia.
Qed.
Lemma create_spec k h c ext : Pre pa h ext -> K ext -> In (PObj c) ext -> safe (create strict mk k h c) (Post h ext).
Proof. intros. apply via_spec; auto. lia. Qed.
End Via.

(** ** Parents *)
Lemma parent_spec : forall f h c ext, Pre true h ext -> live h c -> c < f ->
  safe (parent_of f h c) (fun r => Pre true (snd r) (PObj (fst r) :: ext) /\ evk (length h) h (snd r) /\ mono h (snd r) /\ length (snd r) = length h).
Proof.
  induction f as [|f IH]; intros h c ext P (o & E & F & R) L; [lia|].
  simpl. rewrite (geto_live _ _ E F). simpl.
  destruct (o_body o) as [impl dl od fb [p|]| | | | | | |] eqn:B; simpl; auto.
  - assert (Lp : p < c). { pose proof (i_ok (proj1 (proj1 P)) _ E) as K. rewrite B in K. simpl in K. apply K; auto. }
    destruct P as [P0 P1]. specialize (P1 eq_refl). destruct (P1 c o p E F) as (q & Eq & Fq). { rewrite B. reflexivity. }
    apply IH; [split; auto| |lia]. exists q. split; auto. split; auto.
    destruct (Z.eq_dec (o_ref q) 0) as [Z0|Z0]. { destruct (proj2 P0 p q Eq Z0); congruence. }
    pose proof (i_cnt (proj1 P0) _ Eq). lia.
  - destruct (Pre_ref true h ext c (length h) P) as (h1 & E1 & P1 & V1 & M1 & L1). { exists o. auto. }
    simpl in E1. rewrite (geto_live _ _ E F) in *. simpl in *. inversion E1; subst h1. rewrite B in *. split; [exact P1|]. split; [exact V1|]. split; [exact M1|]. exact L1.
Qed.
Lemma get_parent_spec h c ext : Pre true h ext -> live h c ->
  safe (get_parent h c) (fun r => Pre true (snd r) (PObj (fst r) :: ext) /\ evk (length h) h (snd r) /\ mono h (snd r) /\ length (snd r) = length h).
Proof. intros P L. apply parent_spec; auto. destruct L as (o & E & _). apply nth_lt in E. lia. Qed.

(** ** The simple objects *)
Definition simple (b : ptr -> body) : Prop :=
  (forall p n, cnt n (held (b p)) = cnt n [p]) /\ (forall p n, bok n (b p)) /\ (forall p, kindof (b p) <> OCeed).
Lemma fresh_post b pa h c ext : simple b -> Pre pa h ext -> In (PObj c) ext -> safe (fresh 1 b h c) (Post true G1 h ext).
Proof.
  intros (A & B & C) [S0 P] Hc. destruct (fresh_spec h ext c b S0 Hc A B C) as (h' & E & S1 & V & M & _). rewrite E. simpl. split; auto.
Qed.
Ltac simp := split; [|split]; [intros p n; simpl; rewrite ?cnt_cons, ?cnt_nil; simpl; lia | intros; simpl; auto | intros; simpl; congruence].
Lemma simple_vec : simple BVec. Proof. simp. Qed.
Lemma simple_ctx : simple BCtx. Proof. simp. Qed.
Lemma simple_qf : simple (BQf PNull). Proof. simp. Qed.
Lemma simple_rstr t : simple (BRstr t PNull). Proof. simp. Qed.
Lemma simple_basis t : simple (BBasis t PNull PNull PNull). Proof. simp. Qed.
Lemma simple_op cm a : simple (op_body cm a).
Proof.
  split; [|split]; [|intros p n; destruct cm; simpl; repeat split; auto; try lia; congruence|intros p; simpl; congruence].
  intros p n. destruct cm; simpl; rewrite !cnt_cons, !cnt_nil; simpl; lia.
Qed.
Lemma new_spec strict b k pa h c ext : simple b -> Pre pa h ext -> In (PObj c) ext -> safe (create strict (fresh 1 b) k h c) (Post true G1 h ext).
Proof.
  intros. apply create_spec with (pa := pa) (K := fun _ => True); auto using G1_inv, G1_stable. intros. eapply fresh_post; eauto.
Qed.
Lemma contract_spec pa h c ext : Pre pa h ext -> In (PObj c) ext -> safe (new_contract h c) (Post false G0 h ext).
Proof.
  intros P Hc. apply create_spec with (pa := pa) (K := fun _ => True); auto using G0_inv, G0_stable. clear.
  intros h c ext [S0 P] _ Hc. unfold fresh.
  destruct (@ref_spec (length h) h ext None (PObj c) S0 (in_live _ (proj1 S0) Hc)) as (h1 & E1 & S1 & V1 & M1 & L1 & _).
  rewrite E1. simpl. split; [|split; [|discriminate]].
  - exists c. cbn [fst snd alloc]. split; [apply nth_app_new|]. split.
    + apply alloc0_inv; auto. apply S1. simpl. auto.
    + intros n o E R. destruct (nth_app_inv _ _ _ _ _ E) as [(L & E')|(-> & ->)]; auto. destruct (proj2 S1 n o E' R); auto; congruence.
  - cbn [fst snd alloc]. eapply evk_trans; [exact V1|]. apply evk_alloc; [lia|simpl; congruence].
Qed.

(** storing first and referencing second is the same as the other order *)
Lemma upd_upd A (l : list A) n x y : upd (upd l n x) n y = upd l n y.
Proof. revert n; induction l as [|a l IH]; intros [|n]; simpl; auto. now rewrite IH. Qed.
Lemma upd_comm A (l : list A) n m x y : n <> m -> upd (upd l n x) m y = upd (upd l m y) n x.
Proof. revert n m; induction l as [|a l IH]; intros [|n] [|m] H; simpl; auto; try congruence. rewrite IH; auto. Qed.
Lemma store_reference h n f k h1 h2 : reference h (PObj k) = Ok h1 -> modb h1 n f = Ok h2 ->
  exists h3, modb h n f = Ok h3 /\ reference h3 (PObj k) = Ok h2.
Proof.
  unfold reference, modb. destruct (geto h k) as [o| |] eqn:Ek; simpl; try discriminate. intros E1. inversion E1; subst h1. clear E1.
  assert (Hk : nth_error h k = Some o /\ o_freed o = false).
  { unfold geto in Ek. destruct (nth_error h k) as [y|]; [|discriminate]. destruct (o_freed y) eqn:Fy; [discriminate|]. inversion Ek; subst; auto. }
  destruct Hk as (Nk & Fk). pose proof (nth_lt _ _ Nk) as Lk.
  destruct (Nat.eq_dec n k) as [->|N].
  - rewrite Ek. simpl. unfold geto at 1. rewrite nth_upd_same by auto. simpl. intros E2. inversion E2; subst h2. eexists. split; [reflexivity|].
    unfold geto. rewrite nth_upd_same by auto. simpl. now rewrite !upd_upd.
  - unfold geto at 1. rewrite nth_upd_other by auto. fold (geto h n). destruct (geto h n) as [y| |] eqn:En; simpl; try discriminate.
    intros E2. inversion E2; subst h2. eexists. split; [reflexivity|]. unfold geto. rewrite nth_upd_other by auto. rewrite Nk, Fk. simpl. now rewrite upd_comm by auto.
Qed.

Lemma make_basis_spec t h c ext : Pre true h ext -> In (PObj c) ext -> safe (make_basis t h c) (Post false G1 h ext).
Proof.
  intros [S0 P] Hc. unfold make_basis. destruct (simple_basis t) as (A & B & C).
  destruct (fresh_spec h ext c _ S0 Hc A B C) as (h1 & E1 & S1 & V1 & M1 & N1 & L1). rewrite E1. cbn [rbind fst snd].
  assert (P1 : Pre true h1 (PObj (length h) :: ext)).
  { split; auto. intros _. specialize (P eq_refl). revert P. apply (pa_evk h h1 ext [PObj (length h)]); auto; try apply S0; try apply S1. }
  destruct (Pre_ref true h1 _ c (length h) P1) as (h2 & E2 & P2 & V2 & M2 & L2). { eapply in_live; [apply S1|right; auto]. }
  rewrite E2. cbn [rbind].
  apply safe_bind. eapply safe_imp. { eapply get_parent_spec; [exact P2|]. eapply in_live; [apply P2|]. left; auto. }
  intros [p h3] (P3 & V3 & M3 & L3). cbn [fst snd] in *.
  apply safe_bind. eapply safe_imp. { eapply contract_spec; [exact P3|left; auto]. }
  intros [k h4] ((c' & N4 & S4) & V4 & _). cbn [fst snd] in *.
  destruct (adopt (length h) h4 _ k c' S4 N4) as (h5 & E5 & S5 & V5 & _).
  assert (Nx : exists o5, nth_error h5 (length h) = Some o5 /\ o_freed o5 = false /\ (0 < o_ref o5)%Z).
  { eapply live_of; [apply S5|]. simpl; auto. }
  destruct Nx as (o5 & Eo5 & Fo5 & Ro5).
  assert (B5 : o_body o5 = BBasis t PNull PNull PNull (PObj c)).
  { assert (V15 : evk (S (length h)) h1 h5).
    { eapply evk_trans. { eapply (evk_le _ (length h1)); [|auto|]. lia. eapply evk_trans; [|eapply evk_trans].
        - destruct (Pre_ref true h1 _ c (length h1) P1) as (h2' & E2' & _ & V2' & _). { eapply in_live; [apply S1|right; auto]. }
          rewrite E2 in E2'. inversion E2'; subst h2'. exact V2'.
        - rewrite <- L2. exact V3.
        - rewrite <- L2, <- L3. exact V4. }
      destruct (adopt (S (length h)) h4 _ k c' S4 N4) as (h5' & E5' & _ & V5' & _). rewrite E5 in E5'. inversion E5'; subst h5'. exact V5'. }
    destruct V15 as (_ & A15 & _). destruct (A15 _ _ N1) as (y & Ey & _ & By & _). rewrite Eo5 in Ey. inversion Ey; subst y. apply By. lia. }
  destruct (@slot_set_spec (length h) h5 (PObj p :: PObj c :: PObj (length h) :: ext) None (length h) SContract (PObj k) o5) as (h6 & E6 & E6' & S6 & V6 & L6 & N6 & _); auto.
  { rewrite B5. reflexivity. } { discriminate. }
  destruct (store_reference h4 (length h) (sput SContract (PObj k)) k h5 h6 E5 E6') as (h7 & E7 & E8).
  assert (Es : slot_set h4 (length h) SContract (PObj k) = Ok h7).
  { unfold slot_set, read. assert (Nk : length h <> k).
    { intros <-. unfold reference in E5. rewrite (geto_live _ _ N4 eq_refl) in E5. simpl in E5. inversion E5; subst h5.
      rewrite nth_upd_same in Eo5 by (now apply nth_lt in N4). inversion Eo5; subst o5. simpl in B5. discriminate. }
    unfold reference in E5. rewrite (geto_live _ _ N4 eq_refl) in E5. simpl in E5. inversion E5; subst h5. rewrite nth_upd_other in Eo5 by auto.
    rewrite (geto_live _ _ Eo5 Fo5). cbn [rbind]. rewrite B5. cbn [sget rbind]. exact E7. }
  rewrite Es. cbn [rbind]. rewrite E8. cbn [rbind].
  apply (St_perm _ _ (PObj c :: PObj p :: PObj (length h) :: ext)) in S6; [|perm].
  destruct (destroy_St _ _ _ _ S6) as (h9 & E9 & S9 & Z9). rewrite E9. cbn [rbind].
  destruct (destroy_St _ _ _ _ S9) as (h10 & E10 & S10 & Z10). rewrite E10. cbn [rbind safe].
  split; [exact S10|split; [|discriminate]]. cbn [snd].
  eapply evk_trans; [exact V1|]. eapply evk_trans; [exact V2|].
  eapply evk_trans; [eapply evk_le; [|apply le_n|exact V3]; lia|].
  eapply evk_trans; [eapply evk_le; [|apply le_n|exact V4]; lia|].
  eapply evk_trans; [exact V5|]. eapply evk_trans; [exact V6|].
  eapply evk_trans; [apply dz_evk; exact Z9|apply dz_evk; exact Z10].
Qed.
Lemma basis_spec t h c ext : Pre true h ext -> In (PObj c) ext -> safe (new_basis t h c) (Post false G1 h ext).
Proof. intros. apply create_spec with (pa := true) (K := fun _ => True); auto using G1_inv, G1_stable. intros. now apply make_basis_spec. Qed.
