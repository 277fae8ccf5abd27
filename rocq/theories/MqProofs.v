(** * CeedQFunctionApply: the loops against the specification, on any backend whose vectors and contexts behave *)
From Coq Require Import List ZArith Lia Bool Arith.
From Verif Require Import Prelude RstrModel BasisModel StrModel QfModel VecModel VecSpec McModel McSpec MqModel MqSpec.
Import ListNotations.
Set Implicit Arguments.
Local Open Scope Z_scope.

Section P.
Variable R : Rng.
Variable D : Type.
Variables (fs : fsys) (roots : list str) (isnan : R -> bool).
Variables (fabs : R -> R) (gtb : R -> R -> bool) (sqrt : R -> R) (big : R -> bool) (inv : R -> R).
Notation sctx := (sctx D). Notation sconf := (sconf R D).
Notation astep := (astep fabs gtb sqrt big inv).
Notation vec := (@vec R D fabs gtb sqrt big inv).
Notation until := (@until R D fabs gtb sqrt big inv).
Notation sbody := (@body R D fabs gtb sqrt big inv).

(** the caller holds the context *)
Definition holding (wr : bool) (k : sctx) : Prop := if wr then sc_held k = true else 0 < sc_rd k.
Definition ctxheld (x : option (nat * bool)) (c : sconf) : Prop := match x with None => True | Some (n, wr) => exists k, sf_k c n = Some k /\ holding wr k end.

Section G.
Variables (W K : Type) (vstep : cmd R -> W -> option ((obs R + Z) * W)) (vpoke : nat -> nat -> R -> W -> option W).
Variables (kget krest : bool -> K -> kout K) (kread : bool -> K -> option D) (kwrite : bool -> D -> K -> option K) (kset : D -> K -> kout K).
Variable RR : astate R -> ghost -> W -> Prop.
Variable KR : sctx -> K -> Prop.
Record good : Prop := {
  G_v : forall x s g g' w, RR s g w -> strict x s g = Some g' ->
    match astep x s with
    | AOk o s' => exists w', vstep x w = Some (inl o, w') /\ RR s' g' w'
    | AErr e s' => exists w', vstep x w = Some (inr e, w') /\ RR s' g' w'
    | AIll => True
    end;
  G_get : forall wr k kk, KR k kk -> match hold wr k with inl k' => exists kk', kget wr kk = KOk kk' /\ KR k' kk' /\ holding wr k' | inr e => kget wr kk = KErr e kk end;
  G_rest : forall wr k kk, KR k kk -> holding wr k -> exists kk', krest wr kk = KOk kk' /\ KR (release wr k) kk';
  G_read : forall wr k kk d, KR k kk -> holding wr k -> sc_val k = Some d -> kread wr kk = Some d;
  G_write : forall k kk d, KR k kk -> holding true k -> exists kk', kwrite true d kk = Some kk' /\ KR (mkSC (sc_held k) (sc_rd k) (Some d)) kk';
  G_set : forall k kk d, KR k kk -> (sc_held k = true -> kset d kk = KErr 1 kk) /\
    (sc_held k = false -> sc_rd k = 0 -> exists kk', kset d kk = KOk kk' /\ KR (mkSC false 0 (Some d)) kk') }.
Hypothesis GD : good.
Notation conf := (conf W K).
Record CR (c : sconf) (c' : conf) : Prop := {
  c_v : RR (sf_s c) (sf_g c) (cf_w c'); c_n : cf_n c' = sf_n c;
  c_k : forall n, match sf_k c n, cf_k c' n with Some k, Some kk => KR k kk | None, None => True | _, _ => False end }.

Lemma CR_w : forall c c' s g w, CR c c' -> RR s g w -> CR (sw c s g) (cw c' w).
Proof. intros c c' s g w [A B C] H. constructor; simpl; auto. Qed.
Lemma CR_k : forall c c' n k kk, CR c c' -> KR k kk -> CR (sk c n k) (ck c' n kk).
Proof. intros c c' n k kk [A B C] H. constructor; simpl; auto. intro m. unfold nupd. destruct (Nat.eqb m n); auto. apply C. Qed.
(** a vector call *)
Lemma vec_sim : forall x c c' o c1, CR c c' -> vec x c = Some (o, c1) -> exists w, vstep x (cf_w c') = Some (o, w) /\ CR c1 (cw c' w) /\ sf_k c1 = sf_k c.
Proof.
  intros x c c' o c1 H V. unfold MqSpec.vec in V. destruct (strict x (sf_s c) (sf_g c)) as [g|] eqn:S; [|discriminate].
  pose proof (G_v GD x (c_v H) S) as P. destruct (astep x (sf_s c)) as [ob s'|e s'|]; [| |discriminate]; inversion V; subst; destruct P as (w & E & P); exists w; split; auto; split; auto; apply CR_w; auto.
Qed.
Lemma until_sim : forall xs c c' c1 e, CR c c' -> until xs c = Some (c1, e) ->
  sf_k c1 = sf_k c /\
  forall f l, xs = map f l -> exists c1', vloop vstep f l c' = match e with None => QOk c1' | Some e => QErr (bcode e) c1' end /\ CR c1 c1'.
Proof.
  induction xs as [|x xs IH]; intros c c' c1 e H U; simpl in U.
  - inversion U; subst. split; auto. intros f [|v l] E; [|discriminate]. exists c'. split; auto.
  - destruct (vec x c) as [[[o|er] c2]|] eqn:V; [| |discriminate].
    + destruct (vec_sim _ H V) as (w & E & H2 & K2). destruct (IH _ _ _ _ H2 U) as (K1 & P). split; [congruence|].
      intros f [|v l] Q; [discriminate|]. simpl in Q. inversion Q; subst. simpl. unfold vcall. rewrite E. simpl. apply P; auto.
    + inversion U; subst. destruct (vec_sim _ H V) as (w & E & H2 & K2). split; [auto|].
      intros f [|v l] Q; [discriminate|]. simpl in Q. inversion Q; subst. simpl. unfold vcall. rewrite E. simpl. eauto.
Qed.
Lemma until_app : forall xs ys c, until (xs ++ ys) c = match until xs c with Some (c1, None) => until ys c1 | o => o end.
Proof. induction xs as [|x xs IH]; intros ys c; simpl; auto. destruct (vec x c) as [[[o|e] c1]|]; auto. Qed.

(** the user's function *)
Lemma held_k : forall x c c1, sf_k c1 = sf_k c -> ctxheld x c -> ctxheld x c1.
Proof. intros [(n, wr)|] c c1 E H; simpl in *; auto. rewrite E. auto. Qed.
Lemma body_sim : forall U V x p c c' rc c1, CR c c' -> ctxheld x c -> sbody U V x p c = Some (rc, c1) ->
  exists c1', frun vstep vpoke kread kwrite U V x p c' = Some (rc, c1') /\ CR c1 c1' /\ ctxheld x c1.
Proof.
  intros U V x p. induction p as [rc0|i j k IH|i j k IH|i j a p IH|i j a p IH|k IH|d p IH]; intros c c' rc c1 H X B; simpl in B |- *.
  - inversion B; subst. eauto.
  - destruct (nth_error U i) as [v|]; [|discriminate]. destruct (vec (VRead v j) c) as [[[o|e] c2]|] eqn:E; try discriminate. destruct o as [|a| |]; try discriminate.
    destruct (vec_sim _ H E) as (w & E1 & H2 & K2). rewrite E1. eapply IH; eauto. eapply held_k; eauto.
  - destruct (nth_error V i) as [v|]; [|discriminate]. destruct (vec (VReadW v j) c) as [[[o|e] c2]|] eqn:E; try discriminate. destruct o as [|a| |]; try discriminate.
    destruct (vec_sim _ H E) as (w & E1 & H2 & K2). rewrite E1. eapply IH; eauto. eapply held_k; eauto.
  - destruct (nth_error V i) as [v|]; [|discriminate]. destruct (vec (VWrite v j a) c) as [[[o|e] c2]|] eqn:E; try discriminate.
    destruct (vec_sim _ H E) as (w & E1 & H2 & K2). rewrite E1. eapply IH; eauto. eapply held_k; eauto.
  - discriminate.
  - destruct x as [(n, wr)|]; [|discriminate]. destruct X as (kk & E & HK). rewrite E in B. pose proof (c_k H n) as KN. rewrite E in KN. destruct (cf_k c' n) as [k'|]; [|contradiction].
    destruct (sc_val kk) as [d|] eqn:ED; [|discriminate]. rewrite (G_read GD wr KN HK ED). eapply IH; eauto. simpl. eauto.
  - destruct x as [(n, [|])|]; try discriminate. destruct X as (kk & E & HK). rewrite E in B. pose proof (c_k H n) as KN. rewrite E in KN. destruct (cf_k c' n) as [k'|]; [|contradiction].
    destruct (G_write GD d KN HK) as (k1 & E1 & R1). rewrite E1. eapply IH; eauto. { apply CR_k; auto. }
    simpl. eexists. unfold nupd. rewrite Nat.eqb_refl. split; [reflexivity|]. exact HK.
Qed.
(** taking the context *)
Definition taken (x : option (nat * bool)) (c : sconf) : option (sconf * option Z) :=
  match x with
  | None => Some (c, None)
  | Some (n, wr) => match sf_k c n with
                    | None => None
                    | Some k => match hold wr k with inl k => Some (sk c n k, None) | inr e => Some (c, Some e) end
                    end
  end.
Lemma cknop : forall (c : conf) n k, cf_k c n = Some k -> forall m, cf_k (ck c n k) m = cf_k c m.
Proof. intros c n k E m. simpl. unfold nupd. destruct (Nat.eqb_spec m n); subst; auto. Qed.
Lemma taken_sim : forall x c c' c1 e, CR c c' -> taken x c = Some (c1, e) ->
  exists c1', kopt x kget c' = match e with None => QOk c1' | Some e => QErr (bcode e) c1' end /\ CR c1 c1' /\ (e = None -> ctxheld x c1).
Proof.
  intros [(n, wr)|] c c' c1 e H T; simpl in *.
  - destruct (sf_k c n) as [k|] eqn:E; [|discriminate]. pose proof (c_k H n) as KN. rewrite E in KN. unfold kcall. destruct (cf_k c' n) as [kk|] eqn:E'; [|contradiction].
    pose proof (G_get GD wr KN) as P. destruct (hold wr k) as [k1|er]; inversion T; subst.
    + destruct P as (kk1 & -> & P & Q). eexists. split; [reflexivity|]. split; [apply CR_k; auto|]. intros _. exists k1. simpl. unfold nupd. rewrite Nat.eqb_refl. auto.
    + rewrite P. eexists. split; [reflexivity|]. split; [|discriminate]. destruct H as [H1 H2 H3]. constructor; auto. intro m. rewrite cknop by auto. apply H3.
  - inversion T; subst. eauto 7.
Qed.
Lemma release_sim : forall x c c', CR c c' -> ctxheld x c ->
  exists c1', kopt x krest c' = QOk c1' /\ CR (match x with None => c | Some (n, wr) => match sf_k c n with Some k => sk c n (release wr k) | None => c end end) c1'.
Proof.
  intros [(n, wr)|] c c' H X; simpl in *; [|eauto]. destruct X as (k & E & HK). rewrite E. pose proof (c_k H n) as KN. rewrite E in KN. unfold kcall. destruct (cf_k c' n) as [kk|]; [|contradiction].
  destruct (G_rest GD wr KN HK) as (k1 & -> & P). eexists. split; [reflexivity|]. apply CR_k; auto.
Qed.

(** ** The ref loop *)
Notation sbackend := (@sbackend R D fs roots isnan fabs gtb sqrt big inv).
Definition outc (o : option Z) (c : conf) : qout W K := match o with None => QOk c | Some e => QErr (bcode e) c end.
Lemma sbackend_inv : forall q x f Q U V c o c1, sbackend q x f Q U V c = Some (o, c1) ->
  exists c2 e2, taken x c = Some (c2, e2) /\
  match e2 with
  | Some e => o = Some e /\ c1 = c2
  | None => exists c3 e3, until (map (fun v => CGetRead v true) U) c2 = Some (c3, e3) /\
    match e3 with
    | Some e => o = Some e /\ c1 = c3
    | None => exists c4 e4, until (map (fun v => CGetWrite v true) V) c3 = Some (c4, e4) /\
      match e4 with
      | Some e => o = Some e /\ c1 = c4
      | None => exists rc c5, sbody U V x f c4 = Some (rc, c5) /\
        if rc =? 0 then src_found fs roots q = true /\ complete isnan c5 Q V (map qf_size (q_out q)) = true /\
          exists c6 c7, until (map CRestoreRead U) c5 = Some (c6, None) /\ until (map CRestore V) c6 = Some (c7, None) /\ o = None /\
            match x with None => c1 = c7 | Some (n, wr) => exists k, sf_k c7 n = Some k /\ c1 = sk c7 n (release wr k) end
        else o = Some rc /\ c1 = c5
      end
    end
  end.
Proof.
  intros q x f Q U V c o c1 H. unfold MqSpec.sbackend in H.
  change (match x with None => Some (c, None) | Some (n, wr) => _ end) with (taken x c) in H.
  destruct (taken x c) as [[c2 [e|]]|]; [| |discriminate]. { exists c2, (Some e). split; auto. inversion H; auto. }
  exists c2, None. split; auto. rewrite until_app in H.
  destruct (until (map (fun v => CGetRead v true) U) c2) as [[c3 [e|]]|]; [| |discriminate]. { exists c3, (Some e). split; auto. inversion H; auto. }
  exists c3, None. split; auto.
  destruct (until (map (fun v => CGetWrite v true) V) c3) as [[c4 [e|]]|]; [| |discriminate]. { exists c4, (Some e). split; auto. inversion H; auto. }
  exists c4, None. split; auto.
  destruct (sbody U V x f c4) as [[rc c5]|]; [|discriminate]. exists rc, c5. split; auto.
  destruct (rc =? 0); simpl in H; [|inversion H; auto].
  destruct (src_found fs roots q); [|discriminate]. simpl in H. destruct (complete isnan c5 Q V (map qf_size (q_out q))); [|discriminate]. simpl in H. split; auto. split; auto.
  rewrite until_app in H. destruct (until (map CRestoreRead U) c5) as [[c6 [e|]]|]; try discriminate.
  destruct (until (map CRestore V) c6) as [[c7 [e|]]|] eqn:U7; try discriminate. exists c6, c7. split; auto. split; auto.
  destruct x as [(n, wr)|]; [|inversion H; auto]. destruct (sf_k c7 n) as [k|]; [|discriminate]. inversion H; subst. split; eauto.
Qed.
Lemma sim_held : forall xs c c1 e, until xs c = Some (c1, e) -> sf_k c1 = sf_k c.
Proof.
  induction xs as [|x xs IH]; intros c c1 e H; simpl in H; [inversion H; auto|]. unfold MqSpec.vec in H. destruct (strict x (sf_s c) (sf_g c)); [|discriminate].
  destruct (astep x (sf_s c)); [| |discriminate]; [apply IH in H; auto|inversion H; auto].
Qed.
Lemma apply_ref_sim : forall q x f Q U V c c' o c1, CR c c' -> sbackend q x f Q U V c = Some (o, c1) ->
  exists c1', apply_ref vstep vpoke kget krest kread kwrite x f U V c' = outc o c1' /\ CR c1 c1'.
Proof.
  intros q x f Q U V c c' o c1 H S. apply sbackend_inv in S. destruct S as (c2 & e2 & T & S). unfold apply_ref.
  destruct (taken_sim _ H T) as (c2' & -> & H2 & X2). destruct e2 as [e|]. { destruct S as (-> & ->). simpl. eauto. }
  specialize (X2 eq_refl). simpl. destruct S as (c3 & e3 & U3 & S). destruct (until_sim _ H2 U3) as (K3 & P). destruct (P _ _ eq_refl) as (c3' & -> & H3). clear P.
  destruct e3 as [e|]. { destruct S as (-> & ->). simpl. eauto. } simpl.
  destruct S as (c4 & e4 & U4 & S). destruct (until_sim _ H3 U4) as (K4 & P). destruct (P _ _ eq_refl) as (c4' & -> & H4). clear P.
  destruct e4 as [e|]. { destruct S as (-> & ->). simpl. eauto. } simpl.
  destruct S as (rc & c5 & B & S). assert (X4 : ctxheld x c4) by (eapply held_k; [|exact X2]; congruence).
  destruct (body_sim _ _ _ _ H4 X4 B) as (c5' & E5 & H5 & X5). unfold fcall. rewrite E5.
  destruct (rc =? 0). 2: { destruct S as (-> & ->). simpl. eauto. } simpl.
  destruct S as (_ & _ & c6 & c7 & U6 & U7 & -> & S). destruct (until_sim _ H5 U6) as (K6 & P). destruct (P _ _ eq_refl) as (c6' & -> & H6). clear P. simpl.
  destruct (until_sim _ H6 U7) as (K7 & P). destruct (P _ _ eq_refl) as (c7' & -> & H7). clear P. simpl.
  assert (X7 : ctxheld x c7) by (eapply held_k; [|exact X5]; congruence). destruct (release_sim _ H7 X7) as (c8' & -> & H8). exists c8'. split; auto.
  destruct x as [(n, wr)|]; [|subst; auto]. destruct S as (k & E & ->). rewrite E in H8. auto.
Qed.

(** ** The memcheck loop *)
(** the function holds write access to all outputs *)
Definition writing (V : list nat) (c : sconf) : Prop := forall v, In v V -> exists y, s_vecs (sf_s c) v = Some y /\ a_wg y = true.
Definition dry (c : sconf) : Prop := forall v y, s_vecs (sf_s c) v = Some y -> a_wg y = true -> busy y = true.
(** calls that leave the pointers granted for writing, and the values, as they are *)
Lemma vec_step : forall x c o c1, vec x c = Some (o, c1) -> exists g s, strict x (sf_s c) (sf_g c) = Some g /\ c1 = sw c s g /\
  match o with inl ob => astep x (sf_s c) = AOk ob s | inr e => astep x (sf_s c) = AErr e s end.
Proof.
  intros x c o c1 H. unfold MqSpec.vec in H. destruct (strict x (sf_s c) (sf_g c)) as [g|]; [|discriminate].
  destruct (astep x (sf_s c)) as [ob s|e s|] eqn:E; [| |discriminate]; inversion H; subst; eauto.
Qed.

(** the states before and after *)
Lemma getw_inv : forall v c c1 ob, vec (CGetWrite v true) c = Some (inl ob, c1) ->
  exists y, s_vecs (sf_s c) v = Some y /\ locked y = false /\ s_vecs (sf_s c1) = nupd (s_vecs (sf_s c)) v (Some (wg (tick (s_zero y) 1) true)).
Proof.
  intros v c c1 ob H. destruct (vec_step _ _ H) as (g & s & _ & -> & A). simpl in *. unfold s_get_write, live in A. destruct (s_vecs (sf_s c) v) as [y|]; [|discriminate].
  destruct (locked y) eqn:L; [discriminate|]. rewrite andb_false_r in A. inversion A; subst. eauto.
Qed.
Lemma getw_busy : forall y : avec R, locked y = false -> busy (wg (tick (s_zero y) 1) true) = true.
Proof.
  intros y L. unfold locked in L. apply orb_false_iff in L. destruct L as (L & _). unfold busy in *. simpl. unfold s_zero. destruct (invalid y); simpl;
  unfold even in *; apply negb_true_iff, Z.eqb_neq; apply negb_false_iff, Z.eqb_eq in L; intro F;
  apply Z.mod_divide in L; try lia; apply Z.mod_divide in F; try lia; destruct L, F; lia.
Qed.
Lemma getws : forall V c c1, until (map (fun v => CGetWrite v true) V) c = Some (c1, None) ->
  (forall v, In v V -> exists y, s_vecs (sf_s c) v = Some y /\ locked y = false) /\
  (forall v y, s_vecs (sf_s c) v = Some y -> busy y = true -> s_vecs (sf_s c1) v = Some y) /\ NoDup V /\
  forall v, In v V -> exists y, s_vecs (sf_s c1) v = Some y /\ a_wg y = true.
Proof.
  induction V as [|v V IH]; intros c c1 H; simpl in H.
  - inversion H; subst. repeat split; auto; try constructor; contradiction.
  - destruct (vec (CGetWrite v true) c) as [[[o|e] c2]|] eqn:E; try discriminate. destruct (getw_inv _ _ E) as (y & Ey & L & S2).
    destruct (IH _ _ H) as (A & B & N & G). assert (E2 : s_vecs (sf_s c2) v = Some (wg (tick (s_zero y) 1) true)) by (rewrite S2; unfold nupd; rewrite Nat.eqb_refl; auto).
    assert (BZ := getw_busy y L).
    assert (NI : ~ In v V). { intro I. destruct (A v I) as (y2 & E3 & L2). rewrite E2 in E3. inversion E3; subst. unfold locked in L2. rewrite BZ in L2. discriminate. }
    repeat split.
    + intros u [->|I]; eauto. destruct (A u I) as (y2 & E3 & L2). rewrite S2 in E3. unfold nupd in E3. destruct (Nat.eqb_spec u v); subst; [contradiction|]. eauto.
    + intros u z Eu Bu. apply B; auto. rewrite S2. unfold nupd. destruct (Nat.eqb_spec u v); subst; auto. rewrite Ey in Eu. inversion Eu; subst. unfold locked in L. rewrite Bu in L. discriminate.
    + constructor; auto.
    + intros u [->|I]; [|apply G; auto]. eexists. split; [apply B; eauto|]. reflexivity.
Qed.
Lemma body_writing : forall U V V0 x p c rc c1, sbody U V x p c = Some (rc, c1) -> writing V0 c -> writing V0 c1.
Proof.
  intros U V V0 x p. induction p as [rc0|i j k IH|i j k IH|i j a p IH|i j a p IH|k IH|d p IH]; intros c rc c1 B X; simpl in B.
  - inversion B; subst. auto.
  - destruct (nth_error U i) as [v|]; [|discriminate]. destruct (vec (VRead v j) c) as [[[o|e] c2]|] eqn:E; try discriminate. destruct o as [|a| |]; try discriminate.
    eapply IH; eauto. destruct (vec_step _ _ E) as (g & s & _ & -> & A). simpl in A. unfold live in A. destruct (s_vecs (sf_s c) v) as [y|]; [|discriminate].
    destruct (a_rg y && Nat.ltb j (a_len y)); [|discriminate]. destruct (conts (sf_s c) y); inversion A; subst. exact X.
  - destruct (nth_error V i) as [v|]; [|discriminate]. destruct (vec (VReadW v j) c) as [[[o|e] c2]|] eqn:E; try discriminate. destruct o as [|a| |]; try discriminate.
    eapply IH; eauto. destruct (vec_step _ _ E) as (g & s & _ & -> & A). simpl in A. unfold live in A. destruct (s_vecs (sf_s c) v) as [y|]; [|discriminate].
    destruct (a_wg y && Nat.ltb j (a_len y)); [|discriminate]. destruct (conts (sf_s c) y); inversion A; subst. exact X.
  - destruct (nth_error V i) as [v|]; [|discriminate]. destruct (vec (VWrite v j a) c) as [[[o|e] c2]|] eqn:E; try discriminate.
    eapply IH; eauto. destruct (vec_step _ _ E) as (g & s & _ & -> & A). simpl in A. unfold live in A. destruct (s_vecs (sf_s c) v) as [y|] eqn:Ey; [|discriminate].
    destruct (a_wg y && Nat.ltb j (a_len y)) eqn:WG; [|discriminate]. destruct (conts (sf_s c) y); inversion A; subst. intros u I. destruct (X u I) as (z & Ez & Wz). simpl.
    unfold putc. destruct (a_cont y) eqn:Cy; simpl; eauto. unfold nupd. destruct (Nat.eqb_spec u v); eauto. subst. rewrite Ey in Ez. inversion Ez; subst. eauto.
  - discriminate.
  - destruct x as [(n, wr)|]; [|discriminate]. destruct (sf_k c n) as [kk|]; [|discriminate]. destruct (sc_val kk); [|discriminate]. eapply IH; eauto.
  - destruct x as [(n, [|])|]; try discriminate. destruct (sf_k c n) as [kk|]; [|discriminate]. eapply IH; eauto.
Qed.
(** giving back leaves the values *)
Lemma rr_inv : forall v c c1 ob, vec (CRestoreRead v) c = Some (inl ob, c1) ->
  exists y, s_vecs (sf_s c) v = Some y /\ s_vecs (sf_s c1) = nupd (s_vecs (sf_s c)) v (Some (rg (rd y (-1)) (a_rg y && (1 <? a_readers y)))) /\ s_user (sf_s c1) = s_user (sf_s c) /\ g_def (sf_g c1) = g_def (sf_g c).
Proof.
  intros v c c1 ob H. destruct (vec_step _ _ H) as (g & s & S & -> & A). simpl in *. unfold s_restore_read, live in A. destruct (s_vecs (sf_s c) v) as [y|]; [|discriminate].
  destruct (0 <? a_readers y); inversion A; subst. inversion S; subst. eauto 6.
Qed.
Lemma rw_inv : forall v c c1 ob, vec (CRestore v) c = Some (inl ob, c1) ->
  exists y, s_vecs (sf_s c) v = Some y /\ s_vecs (sf_s c1) = nupd (s_vecs (sf_s c)) v (Some (wg (tick y 1) false)) /\ s_user (sf_s c1) = s_user (sf_s c) /\ forall u, g_def (sf_g c1) u = g_def (sf_g c) u.
Proof.
  intros v c c1 ob H. destruct (vec_step _ _ H) as (g & s & S & -> & A). simpl in *. unfold s_restore, live in A. unfold zlive in S. destruct (s_vecs (sf_s c) v) as [y|]; [|discriminate].
  destruct (busy y); inversion A; subst. inversion S; subst. exists y. repeat split. intro u. simpl. unfold nupd. destruct (Nat.eqb_spec u v); subst; auto.
Qed.
Lemma filled_keep : forall (c c1 : sconf) v y y' j, (forall u, g_def (sf_g c1) u = g_def (sf_g c) u) -> s_user (sf_s c1) = s_user (sf_s c) ->
  s_vecs (sf_s c) v = Some y -> s_vecs (sf_s c1) = nupd (s_vecs (sf_s c)) v (Some y') -> a_len y' = a_len y -> a_cont y' = a_cont y ->
  forall u, filled isnan c1 u j = filled isnan c u j.
Proof.
  intros c c1 v y y' j G S E E1 L C u. unfold filled. rewrite G, E1. unfold nupd. destruct (Nat.eqb_spec u v); subst.
  - rewrite E, L. unfold conts. rewrite C, S. reflexivity.
  - destruct (s_vecs (sf_s c) u) as [z|]; auto. unfold conts. rewrite S. reflexivity.
Qed.
Lemma rrs : forall U V c c1, until (map CRestoreRead U) c = Some (c1, None) -> writing V c -> writing V c1 /\ forall u j, filled isnan c1 u j = filled isnan c u j.
Proof.
  induction U as [|v U IH]; intros V c c1 H X; simpl in H; [inversion H; subst; auto|].
  destruct (vec (CRestoreRead v) c) as [[[o|e] c2]|] eqn:E; try discriminate. destruct (rr_inv _ _ E) as (y & Ey & S2 & SU & SG).
  assert (X2 : writing V c2). { intros u I. destruct (X u I) as (z & Ez & Wz). rewrite S2. unfold nupd. destruct (Nat.eqb_spec u v); subst; eauto. rewrite Ey in Ez. inversion Ez; subst. eauto. }
  destruct (IH V _ _ H X2) as (A & B). split; auto. intros u j. rewrite B. eapply filled_keep; eauto; congruence.
Qed.
Lemma scan_ok : forall js v c c', CR c c' -> writing [v] c -> (forall j, In j js -> filled isnan c v j = true) -> exists c1', scan vstep isnan v js c' = QOk c1' /\ CR c c1'.
Proof.
  induction js as [|j js IH]; intros v c c' H X F; simpl; [eauto|]. destruct (X v (or_introl eq_refl)) as (y & Ey & Wy).
  pose proof (F j (or_introl eq_refl)) as Fj. unfold filled in Fj. rewrite Ey in Fj. apply andb_true_iff in Fj. destruct Fj as (F1 & F2). apply andb_true_iff in F2. destruct F2 as (F2 & F3).
  destruct (conts (sf_s c) y) as [l|] eqn:CL; [|discriminate].
  assert (V : vec (VReadW v j) c = Some (inl (OVal (vf l j)), c)).
  { unfold MqSpec.vec. simpl. unfold rule, live. rewrite F1, Ey, Wy, F2, CL. simpl. destruct c; reflexivity. }
  destruct (vec_sim _ H V) as (w & E1 & H2 & K2). rewrite E1. apply negb_true_iff in F3. rewrite F3. apply IH; auto. intros i I. apply F. right; auto.
Qed.
Lemma outloop_sim : forall Q V sizes c c' c7, length sizes = length V -> CR c c' -> NoDup V -> writing V c -> complete isnan c Q V sizes = true ->
  until (map CRestore V) c = Some (c7, None) -> exists c7', outloop vstep isnan Q (combine V sizes) c' = QOk c7' /\ CR c7 c7'.
Proof.
  intros Q V. induction V as [|v V IH]; intros [|z sizes] c c' c7 L H N X C U; simpl in L; try discriminate; simpl in U |- *.
  - inversion U; subst. eauto.
  - unfold complete in C. simpl in C. apply andb_true_iff in C. destruct C as (C1 & C2).
    assert (X1 : writing [v] c) by (intros u [->|[]]; apply X; left; auto).
    destruct (scan_ok (seq 0 (Z.to_nat (z * Q))) H X1) as (c1' & -> & H1). { intros j I. rewrite forallb_forall in C1. apply C1; auto. } simpl.
    destruct (vec (CRestore v) c) as [[[o|e] c2]|] eqn:E; try discriminate. destruct (vec_sim _ H1 E) as (w & E1 & H2 & K2). unfold vcall. rewrite E1. simpl.
    inversion N; subst. destruct (rw_inv _ _ E) as (y & Ey & S2 & SU & SG). eapply IH; eauto.
    + intros u I. destruct (X u (or_intror I)) as (zz & Ez & Wz). rewrite S2. unfold nupd. destruct (Nat.eqb_spec u v); subst; [contradiction|]. eauto.
    + unfold complete. rewrite forallb_forall in *. intros p I. specialize (C2 p I). rewrite forallb_forall in *. intros j J. rewrite <- (C2 j J). eapply filled_keep; eauto.
Qed.
Lemma src_found_ok : forall q, src_found fs roots q = true -> src_of fs roots q = Ok tt.
Proof. intros q H. unfold src_found in H. unfold src_of. destruct (q_get_source_path fs roots q) as [[p|e|] q']; try discriminate. simpl. destruct (fst (q_get_kernel_name q')); try discriminate. auto. Qed.
Lemma apply_mc_sim : forall q x f Q U V c c' o c1, CR c c' -> length V = length (q_out q) -> sbackend q x f Q U V c = Some (o, c1) ->
  exists c1', apply_mc vstep vpoke kget krest kread kwrite isnan (src_of fs roots q) (map qf_size (q_out q)) Q x f U V c' = outc o c1' /\ CR c1 c1'.
Proof.
  intros q x f Q U V c c' o c1 H LV S. apply sbackend_inv in S. destruct S as (c2 & e2 & T & S). unfold apply_mc.
  destruct (taken_sim _ H T) as (c2' & -> & H2 & X2). destruct e2 as [e|]. { destruct S as (-> & ->). simpl. eauto. }
  specialize (X2 eq_refl). simpl. destruct S as (c3 & e3 & U3 & S). destruct (until_sim _ H2 U3) as (K3 & P). destruct (P _ _ eq_refl) as (c3' & -> & H3). clear P.
  destruct e3 as [e|]. { destruct S as (-> & ->). simpl. eauto. } simpl.
  destruct S as (c4 & e4 & U4 & S). destruct (until_sim _ H3 U4) as (K4 & P). destruct (P _ _ eq_refl) as (c4' & -> & H4). clear P.
  destruct e4 as [e|]. { destruct S as (-> & ->). simpl. eauto. } simpl.
  destruct S as (rc & c5 & B & S). assert (X4 : ctxheld x c4) by (eapply held_k; [|exact X2]; congruence).
  destruct (body_sim _ _ _ _ H4 X4 B) as (c5' & E5 & H5 & X5). unfold fcall. rewrite E5.
  destruct (rc =? 0). 2: { destruct S as (-> & ->). simpl. eauto. } simpl.
  destruct S as (SF & CO & c6 & c7 & U6 & U7 & -> & S). destruct (until_sim _ H5 U6) as (K6 & P). destruct (P _ _ eq_refl) as (c6' & -> & H6). clear P. simpl.
  rewrite (src_found_ok _ SF). destruct (getws _ _ U4) as (_ & _ & ND & WR). assert (WR5 : writing V c5) by (eapply body_writing; eauto). assert (Q6 : writing V c6 /\ forall u j, filled isnan c6 u j = filled isnan c5 u j) by (eapply rrs; eauto). destruct Q6 as (WR6 & FI).
  assert (CO6 : complete isnan c6 Q V (map qf_size (q_out q)) = true).
  { unfold complete in *. rewrite forallb_forall in *. intros p I. specialize (CO p I). rewrite forallb_forall in *. intros j J. rewrite FI. auto. }
  destruct (until_sim _ H6 U7) as (K7 & _). assert (Q7 : exists c7', outloop vstep isnan Q (combine V (map qf_size (q_out q))) c6' = QOk c7' /\ CR c7 c7') by (eapply outloop_sim; eauto; rewrite map_length; auto). destruct Q7 as (c7' & -> & H7).
  simpl. assert (X7 : ctxheld x c7) by (eapply held_k; [|exact X5]; congruence). destruct (release_sim _ H7 X7) as (c8' & -> & H8). exists c8'. split; auto.
  destruct x as [(n, wr)|]; [|subst; auto]. destruct S as (k & E & ->). rewrite E in H8. auto.
Qed.
End G.
End P.
