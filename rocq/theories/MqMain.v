(** * CeedQFunctionApply: both backends keep the specification over whole histories *)
From Coq Require Import List ZArith Lia Bool Arith.
From Verif Require Import Prelude RstrModel BasisModel StrModel QfModel VecModel VecSpec VecProofs VecLaws VecProps McModel McSpec McProofs McStep McStep6 MqModel MqSpec MqProofs.
Import ListNotations.
Set Implicit Arguments.
Local Open Scope Z_scope.

Section P.
Variable R : Rng.
Variable D : Type.
Variables (fs : fsys) (roots : list str) (nan : R) (isnan : R -> bool) (eqs : R -> R -> bool) (eqd : D -> D -> bool).
Variables (fabs : R -> R) (gtb : R -> R -> bool) (sqrt : R -> R) (big : R -> bool) (inv : R -> R).
Hypothesis eqs_refl : forall a, eqs a a = true.
Hypothesis eqd_refl : forall a, eqd a a = true.
Notation sctx := (sctx D). Notation sconf := (sconf R D).
Notation good := (@good R D fabs gtb sqrt big inv).
Notation sstep := (@sstep R D fs roots isnan fabs gtb sqrt big inv).
Notation shrun := (@shrun R D fs roots isnan fabs gtb sqrt big inv).
Notation sbackend := (@sbackend R D fs roots isnan fabs gtb sqrt big inv).

(** ** Histories *)
Section H.
Variables (W K : Type) (k0 : K) (vstep : cmd R -> W -> option ((obs R + Z) * W)).
Variables (kget krest : bool -> K -> kout K) (kread : bool -> K -> option D) (kwrite : bool -> D -> K -> option K) (kset : D -> K -> kout K).
Variable RR : astate R -> ghost -> W -> Prop.
Variable KR : sctx -> K -> Prop.
Hypothesis GD : good vstep kget krest kread kwrite kset RR KR.
Hypothesis K0 : KR (mkSC false 0 None) k0.
Notation CR := (CR RR KR).
Variable be : qfun -> option (nat * bool) -> prog R D -> Z -> list nat -> list nat -> conf W K -> qout W K.
Hypothesis BE : forall q x f Q U V c c' o c1, CR c c' -> length V = length (q_out q) -> sbackend q x f Q U V c = Some (o, c1) ->
  exists c1', be q x f Q U V c' = outc o c1' /\ CR c1 c1'.
Notation apply := (fun q x f Q U V => qf_apply (be q x f Q) q Q U V).
Notation hrun := (hrun k0 vstep kget krest kread kset apply).
Notation hstep := (hstep k0 vstep kget krest kread kset apply).
Lemma step_sim : forall h c c' o c1, CR c c' -> sstep h c = Some (o, c1) -> exists c1', hstep h c' = Some (o, c1') /\ CR c1 c1'.
Proof.
  intros h c c' o c1 H S. destruct h as [x|q x f Q U V| |n d|n]; simpl in *.
  - destruct (vec fabs gtb sqrt big inv x c) as [[[ob|e] c2]|] eqn:E; [| |discriminate]; inversion S; subst; destruct (vec_sim GD _ H E) as (w & -> & H2 & _); eauto.
  - unfold sapply in S. unfold qf_apply. destruct (q_vlen q =? 0); [discriminate|]. destruct (negb (Z.rem Q (q_vlen q) =? 0)). { inversion S; subst. eexists. split; [reflexivity|auto]. }
    destruct (Nat.ltb_spec (length U) (length (q_in q))) as [|L1]; [discriminate|]. destruct (Nat.ltb_spec (length V) (length (q_out q))) as [|L2]; [discriminate|]. simpl in S.
    rewrite (proj2 (Nat.leb_le _ _) L1), (proj2 (Nat.leb_le _ _) L2). simpl.
    destruct (sbackend q x f Q (firstn (length (q_in q)) U) (firstn (length (q_out q)) V) c) as [[o2 c2]|] eqn:E; [|discriminate].
    assert (LV : length (firstn (length (q_out q)) V) = length (q_out q)) by (rewrite firstn_length; lia).
    destruct (BE _ _ _ _ _ _ H LV E) as (c2' & -> & H2).
    destruct o2 as [e|]; inversion S; subst; (eexists; split; [reflexivity|auto]).
  - inversion S; subst. rewrite (c_n H). eexists. split; [reflexivity|]. destruct H as [H1 H2 H3]. constructor; simpl; auto. intro m. unfold nupd. destruct (Nat.eqb m (sf_n c)); auto. apply H3.
  - unfold hk. destruct (sf_k c n) as [k|] eqn:E; [|discriminate]. pose proof (c_k H n) as KN. rewrite E in KN. destruct (cf_k c' n) as [kk|] eqn:E'; [|contradiction].
    destruct (G_set GD k kk d KN) as (A & B). destruct (sc_held k).
    + inversion S; subst. rewrite A by auto. eexists. split; [reflexivity|]. destruct H as [H1 H2 H3]. constructor; auto. intro m. rewrite (cknop c' n E'). apply H3.
    + destruct (Z.eqb_spec (sc_rd k) 0) as [Z0|]; [|discriminate]. simpl in S. inversion S; subst. destruct (B eq_refl Z0) as (k1 & -> & P). eexists. split; [reflexivity|]. apply CR_k; auto.
  - destruct (sf_k c n) as [k|] eqn:E; [|discriminate]. pose proof (c_k H n) as KN. rewrite E in KN. unfold hk. destruct (cf_k c' n) as [kk|] eqn:E'; [|contradiction].
    pose proof (G_get GD false _ _ KN) as G. unfold hold in G. simpl in G. destruct (sc_held k) eqn:HE.
    + inversion S; subst. rewrite G. eexists. split; [reflexivity|]. destruct H as [H1 H2 H3]. constructor; auto. intro m. rewrite (cknop c' n E'). apply H3.
    + destruct (sc_val k) as [d|] eqn:VE.
      * inversion S; subst. destruct G as (k1 & -> & P & Q). simpl. unfold nupd at 1. rewrite Nat.eqb_refl. rewrite (G_read GD false _ _ P Q eq_refl).
        unfold nupd at 1. rewrite Nat.eqb_refl. destruct (G_rest GD false _ _ P Q) as (k2 & -> & P2). eexists. split; [reflexivity|].
        destruct H as [H1 H2 H3]. constructor; auto. intro m. simpl. unfold nupd. destruct (Nat.eqb_spec m n); subst; [|apply H3]. rewrite E.
        unfold release in P2. simpl in P2. replace (sc_rd k + 1 - 1) with (sc_rd k) in P2 by lia. rewrite <- VE, <- HE in P2. destruct k; simpl in *. auto.
      * inversion S; subst. rewrite G. eexists. split; [reflexivity|]. destruct H as [H1 H2 H3]. constructor; auto. intro m. rewrite (cknop c' n E'). apply H3.
Qed.
Lemma run_sim : forall hs c c' os c1, CR c c' -> shrun hs c = Some (os, c1) -> exists c1', hrun hs c' = Some (os, c1') /\ CR c1 c1'.
Proof.
  induction hs as [|h hs IH]; intros c c' os c1 H S; simpl in *; [inversion S; subst; eauto|].
  destruct (sstep h c) as [[o c2]|] eqn:E; [|discriminate]. destruct (step_sim _ H E) as (c2' & -> & H2).
  destruct (shrun hs c2) as [[os' c3]|] eqn:E2; [|discriminate]. inversion S; subst. destruct (IH _ _ _ _ H2 E2) as (c3' & -> & H3). eauto.
Qed.
End H.

(** ** The ref backend *)
Definition RRr (s : astate R) (g : ghost) (w : world R) : Prop := @Inv R w s.
Definition KRr (k : sctx) (c : rctx D) : Prop := rc_busy c = sc_held k /\ rc_readers c = sc_rd k /\ rc_data c = sc_val k /\ 0 <= sc_rd k /\ (sc_held k = true -> sc_val k <> None).
Lemma ref_good : good (rv fabs gtb sqrt big inv) (@rc_get D) (@rc_restore D) (@rc_read D) (@rc_write D) (@rc_set D) RRr KRr.
Proof.
  constructor.
  - intros x s g g' w H _. unfold rv. destruct (astep fabs gtb sqrt big inv x s) as [o s'|e s'|] eqn:E; auto.
    + assert (Q : res_of (astep fabs gtb sqrt big inv x s) = Some (inl o, s')) by (rewrite E; auto). destruct (@Inv_step R fabs gtb sqrt big inv x w s _ s' H Q) as (w' & C & I). unfold cres in C. destruct (step fabs gtb sqrt big inv x w); inversion C; subst; eauto.
    + assert (Q : res_of (astep fabs gtb sqrt big inv x s) = Some (inr e, s')) by (rewrite E; auto). destruct (@Inv_step R fabs gtb sqrt big inv x w s _ s' H Q) as (w' & C & I). unfold cres in C. destruct (step fabs gtb sqrt big inv x w); inversion C; subst; eauto.
  - intros wr k kk (A & B & C & P & Q). unfold hold, rc_get. rewrite A, B, C. destruct (sc_held k) eqn:HE; auto. destruct (wr && negb (sc_rd k =? 0)) eqn:WE; auto. destruct (sc_val k) as [d|] eqn:VE; auto.
    eexists. split; [reflexivity|]. destruct wr; unfold KRr, holding; simpl; rewrite ?HE; repeat split; auto; try discriminate; lia.
  - intros wr k kk (A & B & C & P & Q) HK. unfold rc_restore, release, holding, KRr in *. destruct wr.
    + rewrite A, HK. eexists. split; [reflexivity|]. simpl. repeat split; auto; try discriminate.
    + rewrite B. rewrite (proj2 (Z.ltb_lt _ _) HK). eexists. split; [reflexivity|]. simpl. repeat split; auto. lia.
  - intros wr k kk d (A & B & C & P & Q) HK V. unfold rc_read. congruence.
  - intros k kk d (A & B & C & P & Q) HK. unfold rc_write, holding in *. rewrite C. destruct (sc_val k) eqn:V; [|exfalso; apply Q; auto]. eexists. split; [reflexivity|]. unfold KRr. simpl. repeat split; auto; try discriminate.
  - intros k kk d (A & B & C & P & Q). unfold rc_set. rewrite A. split; intro HE; rewrite HE; auto. intro Z0. eexists. split; [reflexivity|]. unfold KRr. simpl. rewrite B, Z0. repeat split; auto; try lia; try discriminate.
Qed.

(** ** The memcheck backend *)
Definition RRm (s : astate R) (g : ghost) (w : mworld R) : Prop := rel s w g.
Definition KRm (k : sctx) (c : kctx D) : Prop :=
  kc_busy c = sc_held k /\ kc_readers c = sc_rd k /\ 0 <= sc_rd k /\ (sc_held k = true -> sc_val k <> None) /\
  if sc_held k then kc_wr c = sc_val k /\ kc_data c <> None /\ sc_rd k = 0 /\ kc_ro c = None
  else kc_data c = sc_val k /\ kc_ro c = (if sc_rd k =? 0 then None else sc_val k) /\ (0 < sc_rd k -> sc_val k <> None).
Lemma mc_good : good (mv nan eqs fabs gtb sqrt big inv) (@kc_get D) (kc_restore eqd) (@kc_read D) (@kc_write D) (@kc_set D) RRm KRm.
Proof.
  constructor.
  - intros x s g g' w H S. unfold mv. pose proof (mc_step nan eqs eqs_refl fabs gtb sqrt big inv x H S) as P. unfold sim in P.
    destruct (astep fabs gtb sqrt big inv x s) as [o s'|e s'|] eqn:E; auto; destruct P as (w' & -> & P); eauto.
  - intros wr k kk (A & B & P & Q & C). unfold hold, kc_get. rewrite A, B. destruct (sc_held k) eqn:HE; auto. destruct C as (C1 & C2 & C3). rewrite C1.
    destruct (wr && negb (sc_rd k =? 0)) eqn:WE; auto. destruct (sc_val k) as [d|] eqn:VE; auto.
    eexists. split; [reflexivity|]. destruct wr; unfold KRm, holding; simpl; rewrite ?HE.
    + simpl in WE. apply negb_false_iff in WE. rewrite WE in C2. apply Z.eqb_eq in WE. repeat split; auto; try discriminate; lia.
    + destruct (Z.eqb_spec (sc_rd k + 1) 0); [lia|]. rewrite C2. repeat split; auto; try discriminate; try lia. destruct (sc_rd k =? 0); auto.
  - intros wr k kk (A & B & P & Q & C) HK. unfold kc_restore, release, holding, KRm in *. destruct wr.
    + rewrite A, HK in *. destruct C as (C1 & C2 & C3 & C4). rewrite C1. destruct (sc_val k) as [d|] eqn:VE; [|exfalso; apply Q; auto]. destruct (kc_data kk); [|contradiction].
      eexists. split; [reflexivity|]. simpl. rewrite C3, C4, B, C3. repeat split; auto; try discriminate; lia.
    + rewrite B. rewrite (proj2 (Z.ltb_lt _ _) HK). destruct (sc_held k) eqn:HE; [exfalso; destruct C as (_ & _ & C & _); lia|]. destruct C as (C1 & C2 & C3).
      destruct (Z.eqb_spec (sc_rd k) 0); [lia|]. specialize (C3 HK). destruct (sc_val k) as [d|] eqn:VE; [|contradiction]. rewrite C1, C2, eqd_refl.
      destruct (Z.eqb_spec (sc_rd k - 1) 0) as [Z1|Z1]; (eexists; split; [reflexivity|]); simpl; rewrite ?HE; repeat split; auto; try discriminate; try lia.
      { rewrite Z1. auto. } { destruct (Z.eqb_spec (sc_rd k - 1) 0); [lia|auto]. }
  - intros wr k kk d (A & B & P & Q & C) HK V. unfold kc_read, holding in *. destruct wr.
    + rewrite HK in C. destruct C as (C1 & _). congruence.
    + destruct (sc_held k); [exfalso; destruct C as (_ & _ & C & _); lia|]. destruct C as (C1 & C2 & C3). destruct (Z.eqb_spec (sc_rd k) 0); [lia|]. congruence.
  - intros k kk d (A & B & P & Q & C) HK. unfold kc_write, holding in *. rewrite HK in C. destruct C as (C1 & C2 & C3 & C4). rewrite C1. destruct (sc_val k) eqn:V; [|exfalso; apply Q; auto].
    eexists. split; [reflexivity|]. unfold KRm. simpl. rewrite HK. repeat split; auto. { congruence. } { discriminate. }
  - intros k kk d (A & B & P & Q & C). unfold kc_set. rewrite A. split; intro HE; rewrite HE in *; auto. intro Z0. destruct C as (C1 & C2 & C3). rewrite Z0 in C2. simpl in C2.
    eexists. split; [reflexivity|]. unfold KRm. simpl. rewrite B, C2, Z0. repeat split; auto; try lia; try discriminate.
Qed.
End P.
