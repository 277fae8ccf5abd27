(** * Contexts on the memcheck backend: setting, taking back and destroying data; the client's own actions *)
From Coq Require Import List ZArith Lia Bool Arith.
From Coq.Strings Require Import Byte.
From Verif Require Import Prelude RstrModel StrModel CtxModel CtxSpec CmModel CmSpec CmProofs CmStep CmStep2.
Import ListNotations.
Set Implicit Arguments.
Local Open Scope Z_scope.

Lemma idle_copies us hp y x : bodyx us hp y x -> busy y = false -> a_readers y = 0 -> k_wr x = None /\ k_ro x = None.
Proof.
  unfold bodyx, body, buf. intros B Eb R. rewrite Eb, R in B. cbn in B. destruct (a_cont y) as [|l|k].
  - split; apply B.
  - destruct B as (_ & _ & _ & la & _ & _ & B1 & B2 & _). split; assumption.
  - destruct B as (_ & _ & l & h & _ & _ & _ & _ & _ & _ & la & _ & _ & B1 & B2 & _). split; assumption.
Qed.
Arguments idle_copies {us hp y x} _ _ _.
(** the data of an idle context are discarded: every block of the client is as expected *)
Definition dropped (x : mctx) : mctx := ks_ext (ks_alloc x None) None (k_borrowed x).
Lemma drop_ok s w g y x : krel s w g -> s_ctx s = Some y -> w_k w = Some x -> busy y = false ->
  exists h, match k_owned x with
            | Some k => match w_kh w k with Some _ => KOk (ks_ext (ks_alloc x None) None (k_borrowed x)) (nupd (w_kh w) k None) | None => KUB end
            | None => KOk (ks_alloc x None) (w_kh w)
            end = KOk (dropped x) h /\ (forall n, s_user s n = h n).
Proof.
  intros H Ey Ex Eb. destruct (krel_live H Ey) as (x1 & Ex1 & A & B). rewrite Ex in Ex1. injection Ex1 as <-.
  unfold bodyx, body in B. rewrite Eb in B.
  assert (O : forall n, k_owned x <> Some n -> s_user s n = w_kh w n).
  { intros n N. destruct (k_borrowed x) as [k|] eqn:Ek.
    - destruct (a_cont y) as [|l|k'].
      + destruct B as (_ & _ & B & _). discriminate.
      + destruct B as (B & _). discriminate.
      + destruct B as (_ & B & l & h & B3 & B4 & B5 & B6 & B7 & _). injection B as <-. rewrite (B7 eq_refl) in B4. destruct (Nat.eq_dec n k) as [->|D]; [congruence|].
        apply (r_free H). intros z Z. rewrite Ex in Z. injection Z as <-. intros [P|P]; [contradiction|]. congruence.
    - apply (r_free H). intros z Z. rewrite Ex in Z. injection Z as <-. intros [P|P]; [contradiction|]. congruence. }
  destruct (k_owned x) as [k|] eqn:Eo.
  - assert (Q : s_user s k = None /\ exists h, w_kh w k = Some h).
    { destruct (a_cont y) as [|l|k'].
      - destruct B as (_ & B & _). discriminate.
      - destruct B as (_ & B & _). destruct (B k eq_refl) as (U & h & Hh & _). split; [exact U|]. exists h. exact Hh.
      - destruct B as (B & _). discriminate. }
    destruct Q as (U & h & Hh). rewrite Hh. eexists; split; [reflexivity|]. intro n. destruct (Nat.eq_dec n k) as [->|D].
    + rewrite nupd_same. exact U.
    + rewrite nupd_other by exact D. apply O. congruence.
  - eexists; split; [|intro n; apply O; discriminate]. unfold dropped. unfold ks_ext, ks_alloc. cbn. rewrite <- Eo at 1. destruct x; reflexivity.
Qed.
Lemma destroy_ok s w g y x K g' k : krel s w g -> s_ctx s = Some y -> w_k w = Some x -> busy y = false -> discard y (Some g) K = Some g' ->
  (s_dtor s y k = AErr ERR_BACKEND s /\ data_destroy_mc x (w_kh w) = KErr ERR_BACKEND x (w_kh w) /\ g' = g) \/
  s_dtor s y k = AIll \/
  (K = Some g' /\ exists s1 y1 h1, s_dtor s y k = k s1 y1 /\ data_destroy_mc x (w_kh w) = KOk (dropped x) h1 /\
     (forall n, s_user s1 n = h1 n) /\ s_nu s1 = s_nu s /\ (y1 = y \/ y1 = tick y 2) /\
     (forall n l, s_user s1 n = Some l -> s_user s n = Some l)).
Proof.
  intros H Ey Ex Eb D. destruct (krel_live H Ey) as (x1 & Ex1 & A & B). rewrite Ex in Ex1. injection Ex1 as <-.
  destruct (drop_ok H Ey Ex Eb) as (h & Dr & U).
  unfold discard, s_dtor, data_destroy_mc in *. rewrite (h_dt A). destruct (a_dtor y) as [d|] eqn:Ed.
  - destruct (a_readers y =? 0) eqn:Er; cbn in D; [|discriminate]. destruct (empty y) eqn:Ee; cbn in D; [discriminate|].
    unfold locked. rewrite Eb, Er. cbn. destruct (d_host d); cbn in *.
    + destruct (d_code d =? 0) eqn:Ec; cbn in D; [|discriminate]. destruct (d_frees d) eqn:Ef.
      * unfold bodyx, body, empty in *. destruct (a_cont y) as [|l|n] eqn:Ect; [discriminate|right; left; reflexivity|].
        destruct B as (B1 & B2 & l & hh & B3 & B4 & B5 & B6 & B7 & B8). unfold dtor_arg. rewrite B2, B3, B4. right. right. split; [exact D|].
        exists (su s n None), (tick y 2), (nupd (w_kh w) n None). cbn. rewrite B1. split; [reflexivity|]. split.
        { f_equal. unfold dropped, ks_ext, ks_alloc. cbn. rewrite <- B1 at 1. destruct x; reflexivity. }
        rewrite B1 in Dr. injection Dr as _ <-.
        split; [intro m; unfold VecModel.nupd; destruct (Nat.eqb m n); [reflexivity|apply U]|]. split; [reflexivity|]. split; [right; reflexivity|].
        intros m l0. unfold VecModel.nupd. destruct (Nat.eqb m n); [discriminate|auto].
      * right. right. split; [exact D|]. exists s, (tick y 2), h. cbn. rewrite Dr. repeat split; auto.
    + left. injection D as <-. rewrite (sc_id _ Ey). auto.
  - right. right. split; [exact D|]. exists s, y, h. cbn. rewrite Dr. repeat split; auto.
Qed.
Lemma k_destroy_ok s w g : krel s w g -> forall g', kstrict KDestroy s g = Some g' -> ksim (s_destroy s) (kbstep KDestroy w) g'.
Proof.
  intros H g' G. unfold s_destroy, live, kstrict, onctx in *. destruct (s_ctx s) as [y|] eqn:Ey; [|exact I].
  destruct (krel_live H Ey) as (x & Ex & A & B). unfold kbstep, mdone, mk_destroy, klive. rewrite Ex.
  set (x1 := ks_refs x (k_refs x - 1)) in *. set (y1 := rf y (-1)) in *.
  assert (H1 : krel (sc s y1) (putk w x1 (w_kh w)) g).
  { apply krel_put with g x; auto. constructor; cbn; try apply A. rewrite (h_rf A). reflexivity. }
  assert (Er : (0 <? k_refs x1) = (0 <? a_refs y1)) by (unfold x1, y1; cbn; rewrite (h_rf A); reflexivity). rewrite Er.
  assert (E1 : (1 <? a_refs y) = (0 <? a_refs y1)) by (unfold y1; cbn; destruct (Z.ltb_spec 1 (a_refs y)), (Z.ltb_spec 0 (a_refs y + -1)); lia). rewrite E1 in G.
  destruct (0 <? a_refs y1); cbn in G; [injection G as <-; apply ksim_ok, H1|].
  destruct (krel_live H1 eq_refl) as (x2 & Ex2 & A1 & B1). cbn in Ex2. injection Ex2 as <-. rewrite (kbusy_eq A1).
  change (busy y) with (busy y1) in G. destruct (busy y1) eqn:Eb; [injection G as <-; apply ksim_err, H1|].
  change (discard y (Some g) (Some g)) with (discard y1 (Some g) (Some g)) in G. cbn [w_kh putk w_knu].
  destruct (destroy_ok (Some g) (fun s y => AOk ODone (mkS None (s_user s) (s_nu s))) H1 eq_refl eq_refl Eb G) as [(E & M & ->)|[E|(E & s1 & y2 & h1 & M & N & U & V & _ & W)]].
  - rewrite E. cbn in M. rewrite M. apply ksim_err, H1.
  - rewrite E. exact I.
  - rewrite M. cbn in N. rewrite N. injection E as <-. cbn. split; [reflexivity|]. constructor; cbn.
    + rewrite V. apply (r_nu H).
    + exact I.
    + intros n _. apply U.
    + intros n L. rewrite V in L. cbn in L. rewrite <- U. destruct (r_new H L) as [P Q].
      assert (T : s_user s1 n = None) by (destruct (s_user s1 n) as [l|] eqn:T; [apply W in T; cbn in T; congruence|reflexivity]).
      rewrite T. auto.
Qed.
Lemma even_tick y1 y : y1 = y \/ y1 = tick y 2 -> even (a_clock y1) = even (a_clock y).
Proof. intros [->| ->]; [reflexivity|]. cbn. apply even_2. Qed.
Lemma k_set_ok s w g host mode size a : krel s w g -> forall g', kstrict (KSet host mode size a) s g = Some g' ->
  ksim (s_set s host mode size a) (kbstep (KSet host mode size a) w) g'.
Proof.
  intros H g' G. unfold s_set, live, kstrict, onctx in *. destruct (s_ctx s) as [y|] eqn:Ey; [|exact I].
  destruct (krel_live H Ey) as (x & Ex & A & B). unfold kbstep, after, mk_set, klive. rewrite Ex. rewrite (kbusy_eq A).
  destruct (busy y) eqn:Eb; [injection G as <-; apply ksim_err, H|].
  match goal with |- ksim (s_dtor s y ?k) _ _ => destruct (destroy_ok _ k H Ey Ex Eb G) as [(E & M & ->)|[E|(E & s1 & y1 & h1 & M & N & U & V & T & W)]] end.
  - rewrite E, M. cbn. rewrite (putk_id Ex). apply ksim_err, H.
  - rewrite E. exact I.
  - rewrite M, N. clear M N. destruct (a_readers y =? 0) eqn:Er; cbn in E; [|discriminate]. apply Z.eqb_eq in Er.
    destruct a as [|n| |]; try discriminate. destruct (s_user s n) as [l|] eqn:En; [|discriminate]. unfold rule in E.
    destruct host; cbn in E; [|discriminate]. destruct (Nat.leb size (length l)) eqn:El; [|discriminate]. injection E as <-.
    destruct (idle_copies B Eb Er) as [Wr Ro].
    assert (Q : s_user s1 n = None \/ s_user s1 n = Some l).
    { destruct (s_user s1 n) as [l1|] eqn:Q; [right|left; reflexivity]. apply W in Q. congruence. }
    set (fl := firstn size l). apply Nat.leb_le in El. assert (Lf : length fl = size) by (unfold fl; rewrite firstn_length; lia).
    assert (NU : forall m, (s_nu s1 <= m)%nat -> s_user s1 m = None).
    { intros m L. rewrite V in L. destruct (r_new H L) as [P _]. destruct (s_user s1 m) eqn:Z; [apply W in Z; congruence|reflexivity]. }
    assert (Hd : forall c o b, hdr (rg (wg (tick (ct (sz y1 size) c) 2) false) false)
                (ks_rp (ks_wp (bumpk (ks_alloc (ks_ext (ks_size (dropped x) size) o b) (Some fl)) 2) false) false) (g + 2)).
    { intros c o b. pose proof (even_tick T) as Ev.
      assert (Y : a_readers y1 = a_readers y /\ a_refs y1 = a_refs y /\ a_fields y1 = a_fields y /\ a_dtor y1 = a_dtor y) by (destruct T as [->| ->]; cbn; auto).
      destruct Y as (Y1 & Y2 & Y3 & Y4). constructor; cbn; rewrite ?Y1, ?Y2, ?Y3, ?Y4; try apply A; try (intro; discriminate); try reflexivity.
      - rewrite (h_st A). apply add64_mod.
      - rewrite !even_2, Ev. apply A.
      - intros _. exact Er. }
    assert (Bu : forall c, busy (rg (wg (tick (ct (sz y1 size) c) 2) false) false) = false).
    { intro c. unfold busy in *. cbn. rewrite even_2, (even_tick T). exact Eb. }
    assert (Rd : a_readers y1 = 0) by (destruct T as [->| ->]; exact Er).
    cbn [negb]. destruct Q as [Q|Q]; rewrite Q; [destruct mode; exact I|].
    unfold set_data_mc, ksource. cbn [kbind negb k_alloc k_owned ks_size ks_ext ks_alloc dropped]. rewrite <- U, Q.
    destruct mode; cbn [k_size ks_size ks_ext ks_alloc dropped]; unfold cpy; rewrite (proj2 (Nat.leb_le size (length l)) El); cbn [klift mthen].
    + (* values copied *)
      cbn [w_k putk]. split; [reflexivity|]. constructor; cbn.
      * rewrite V. apply (r_nu H).
      * split; [apply Hd|]. unfold bodyx, body. rewrite Bu. cbn. split; [reflexivity|]. split; [intros; discriminate|].
        unfold buf. fold fl. rewrite Lf. split; [lia|]. exists fl. rewrite Rd. cbn. repeat split; auto. rewrite firstn_all2 by lia. reflexivity.
      * intros m _. apply U.
      * intros m L. split; [apply NU; exact L|]. rewrite <- U. apply NU. exact L.
    + (* pointer used *)
      cbn [w_k putk]. split; [reflexivity|]. constructor; cbn.
      * rewrite V. apply (r_nu H).
      * split; [apply Hd|]. unfold bodyx, body. rewrite Bu. cbn. split; [reflexivity|]. split; [reflexivity|].
        exists l, l. rewrite <- U, Q. repeat split; auto. exists fl. rewrite Rd. cbn. repeat split; auto.
      * intros m _. apply U.
      * intros m L. split; [apply NU; exact L|]. rewrite <- U. apply NU. exact L.
    + (* pointer owned *)
      cbn [w_k putk]. split; [reflexivity|]. constructor; cbn.
      * rewrite V. apply (r_nu H).
      * split; [apply Hd|]. unfold bodyx, body. rewrite Bu. cbn. split; [reflexivity|]. split.
        { intros k Z. injection Z as <-. rewrite nupd_same. split; [reflexivity|]. exists l. rewrite <- U. split; [exact Q|exact El]. }
        split; [exact El|]. exists fl. rewrite Rd. cbn. repeat split; auto.
      * intros m F. rewrite nupd_other; [apply U|]. intros ->. apply (F _ eq_refl). left. reflexivity.
      * intros m L. rewrite <- U. rewrite (NU m L). split; [|reflexivity]. rewrite nupd_other; [apply NU; exact L|]. intros ->. rewrite (NU n L) in Q. discriminate.
Qed.
Lemma k_take_ok s w g host : krel s w g -> forall g', kstrict (KTake host) s g = Some g' -> ksim (s_take s host) (kbstep (KTake host) w) g'.
Proof.
  intros H g' G. unfold s_take, live, kstrict, onctx in *. destruct (s_ctx s) as [y|] eqn:Ey; [|exact I].
  destruct (krel_live H Ey) as (x & Ex & A & B). unfold kbstep, mk_take, klive at 2. unfold klive. rewrite Ex. rewrite (alloc_empty B), (kbusy_eq A).
  assert (Same : forall e, g' = g -> ksim (AErr e s) (MErr e w) g') by (intros e ->; apply ksim_err, H).
  unfold empty. destruct (a_cont y) as [|l|k] eqn:Ec; cbn [negb].
  - apply Same. congruence.
  - injection G as <-. destruct (busy y) eqn:Eb; [apply Same; reflexivity|]. destruct host; cbn; [|apply Same; reflexivity].
    unfold bodyx, body in B. rewrite Ec in B. destruct B as (B & _). rewrite B. apply Same; reflexivity.
  - destruct (busy y) eqn:Eb; cbn in G; [injection G as <-; apply Same; reflexivity|]. destruct host; cbn [negb orb] in *; [|injection G as <-; apply Same; reflexivity].
    unfold rule in G. destruct (a_readers y =? 0) eqn:Er; [|discriminate]. injection G as <-. apply Z.eqb_eq in Er.
    destruct (idle_copies B Eb Er) as [Wr Ro]. unfold bodyx, body in B. rewrite Ec, Eb in B.
    destruct B as (B1 & B2 & l & h & B3 & B4 & B5 & B6 & B7 & L & la & B8 & B9 & _ & _ & B10). pose proof (B7 eq_refl) as E. subst h.
    rewrite B2. cbn [has negb]. unfold take_mc, sync_mc. rewrite B1, B2, B8, (h_sz A). pose proof (cpy_out_ok B4 B9 L) as CO. unfold bytes in *. rewrite CO. cbn. split; [reflexivity|].
    assert (Q : la ++ skipn (a_size y) l = l) by (rewrite B10; apply firstn_skipn). rewrite Q.
    constructor; cbn.
    + apply (r_nu H).
    + split.
      * constructor; cbn; try apply A; try (intro; discriminate).
      * unfold bodyx, body. cbn. repeat split; auto.
    + intros n _. destruct (Nat.eq_dec n k) as [->|D]; [rewrite nupd_same; exact B3|]. rewrite nupd_other by exact D.
      apply (r_free H). intros z Z. rewrite Ex in Z. injection Z as <-. intros [P|P]; congruence.
    + intros n N. destruct (r_new H N) as [N1 N2]. split; [exact N1|]. rewrite nupd_other; [exact N2|]. intros ->. congruence.
Qed.

(** ** The client's own memory *)
Lemma user_block s w g n l : krel s w g -> s_user s n = Some l ->
  (lends s n = false -> w_kh w n = Some l) /\
  (lends s n = true -> match s_ctx s with Some y => busy y | None => false end = false -> w_kh w n = Some l).
Proof.
  intros H U. unfold lends, lent.
  destruct (s_ctx s) as [y|] eqn:Ey.
  - destruct (krel_live H Ey) as (x & Ex & A & B). unfold bodyx, body in B.
    assert (F : k_owned x <> Some n -> k_borrowed x <> Some n -> w_kh w n = Some l).
    { intros P Q. rewrite <- U. symmetry. apply (r_free H). intros z Z. rewrite Ex in Z. injection Z as <-. intros [V|V]; contradiction. }
    destruct (a_cont y) as [|l0|k]; (split; [|try (intro; discriminate)]).
    + intros _. destruct B as (_ & B1 & B2 & _). apply F; congruence.
    + intros _. destruct B as (B1 & B2 & _). apply F; [|congruence]. intro Z. destruct (B2 n Z) as [Z1 _]. congruence.
    + intro N. apply Nat.eqb_neq in N. destruct B as (B1 & B2 & _). apply F; congruence.
    + intros N Eb. apply Nat.eqb_eq in N. subst k. destruct B as (_ & _ & l1 & h & B3 & B4 & _ & _ & B5 & _). rewrite (B5 Eb) in B4. congruence.
  - split; [|intro; discriminate]. intros _. rewrite <- U. symmetry. apply (r_free H). intros z Z. pose proof (r_ctx H) as R. rewrite Ey, Z in R. contradiction.
Qed.
(** a block that is not held changes on both sides *)
Lemma krel_upd s w g n v v' : krel s w g -> s_user s n = Some v -> lends s n = false ->
  krel (su s n v') (mkKW (w_k w) (nupd (w_kh w) n v') (w_knu w)) g.
Proof.
  intros H U Le. assert (NH : forall x, w_k w = Some x -> ~ holds (k_owned x) (k_borrowed x) n).
  { intros x Ex. pose proof (r_ctx H) as R. rewrite Ex in R. unfold lends in Le. destruct (s_ctx s) as [y|]; [|contradiction]. destruct R as [A B].
    unfold bodyx, body in B. unfold lent in Le. intros [P|P]; destruct (a_cont y) as [|l|k].
    - destruct B as (_ & B & _). congruence.
    - destruct B as (_ & B & _). destruct (B n P). congruence.
    - destruct B as (B & _). congruence.
    - destruct B as (_ & _ & B & _). congruence.
    - destruct B as (B & _). congruence.
    - destruct B as (_ & B & _). apply Nat.eqb_neq in Le. congruence. }
  constructor; cbn.
  - apply (r_nu H).
  - pose proof (r_ctx H) as R. destruct (s_ctx s) as [y|], (w_k w) as [x|]; auto. destruct R as [A B]. split; [exact A|].
    specialize (NH x eq_refl). unfold bodyx, body, holds in *. destruct (a_cont y) as [|l|k]; [exact B| |].
    + destruct B as (B1 & B2 & B3). split; [exact B1|]. split; [|exact B3]. intros k Z. rewrite !nupd_other by (intros ->; tauto). apply B2, Z.
    + destruct B as (B1 & B2 & B3). split; [exact B1|]. split; [exact B2|]. rewrite !nupd_other by (intros ->; tauto). exact B3.
  - intros m F. unfold VecModel.nupd. destruct (Nat.eqb m n); [reflexivity|]. apply (r_free H). exact F.
  - intros m N. destruct (r_new H N) as [N1 N2]. rewrite !nupd_other by (intros ->; congruence). auto.
Qed.
Lemma k_user_ok s w g c : krel s w g -> match c with UAlloc _ | UFree _ | URead _ _ | UWrite _ _ _ => True | _ => False end ->
  forall g', kstrict c s g = Some g' -> ksim (astep c s) (kbstep c w) g'.
Proof.
  intros H C g' G. destruct c as [| | | | | | | | | | | | | | | |l|n|n i|n i b| | |]; try contradiction; clear C; cbn in G; unfold rule in G.
  - injection G as <-. cbn. split; [reflexivity|]. constructor; cbn.
    + f_equal. apply (r_nu H).
    + destruct (r_new H (le_n _)) as [F1 F2]. pose proof (r_ctx H) as R. destruct (s_ctx s) as [y|], (w_k w) as [x|]; auto. destruct R as [A B]. split; [exact A|].
      rewrite (r_nu H). unfold bodyx, body in *. destruct (a_cont y) as [|l0|k]; [exact B| |].
      * destruct B as (B1 & B2 & B3). split; [exact B1|]. split; [|exact B3]. intros k Z. destruct (B2 k Z) as (Z1 & h & Z2 & Z3).
        rewrite !nupd_other by (intros ->; congruence). split; [exact Z1|]. exists h. auto.
      * destruct B as (B1 & B2 & l0 & h & B3 & B4 & B5). split; [exact B1|]. split; [exact B2|]. exists l0, h. rewrite !nupd_other by (intros ->; congruence). auto.
    + intros m F. rewrite (r_nu H). unfold VecModel.nupd. destruct (Nat.eqb m (s_nu s)); [reflexivity|]. apply (r_free H). exact F.
    + intros m N. rewrite (r_nu H). rewrite !nupd_other by lia. apply (r_new H). lia.
  - destruct (lends s n) eqn:Le; [discriminate|]. injection G as <-. cbn. destruct (s_user s n) as [l|] eqn:U; [|exact I].
    destruct (user_block n H U) as [V _]. rewrite (V Le). split; [reflexivity|]. apply krel_upd with l; assumption.
  - cbn. destruct (s_user s n) as [l|] eqn:U; [|exact I]. cbn. destruct (nth_error l i) as [b|] eqn:N; [|exact I]. destruct (user_block n H U) as [V W].
    set (bz := match s_ctx s with Some y => busy y | None => false end) in *.
    assert (E : w_kh w n = Some l /\ g' = g).
    { destruct (lends s n), bz; cbn in G; try discriminate; injection G as <-; split; auto. }
    destruct E as [E ->]. rewrite E, N. split; [reflexivity|exact H].
  - destruct (lends s n) eqn:Le; [discriminate|]. injection G as <-. cbn. destruct (s_user s n) as [l|] eqn:U; [|exact I].
    destruct (inside l i 1) eqn:In; [|exact I]. destruct (user_block n H U) as [V _]. rewrite (V Le). unfold lwrite. cbn [length]. unfold inside in In. rewrite In.
    split; [reflexivity|]. apply krel_upd with l; assumption.
Qed.
(** the client's accesses through granted pointers *)
Lemma k_view_ok s w g c : krel s w g -> match c with VRead _ | VReadW _ | VWrite _ _ => True | _ => False end ->
  forall g', kstrict c s g = Some g' -> ksim (astep c s) (kbstep c w) g'.
Proof.
  intros H C g' G. destruct c as [| | | | | | | | | | | | | | | | | | | |i|i b|i]; try contradiction; clear C; unfold kstrict, astep, kbstep, live, onctx, rule in *;
    destruct (s_ctx s) as [y|] eqn:Ey; try exact I; destruct (krel_live H Ey) as (x & Ex & A & B); unfold klive; rewrite Ex;
    destruct (Nat.ltb i (a_size y)) eqn:Ei; try discriminate; injection G as <-; apply Nat.ltb_lt in Ei.
  - destruct (a_rg y) eqn:Eg; [|exact I]. destruct (h_rp A Eg) as [P R]. rewrite P. unfold peek.
    assert (Ee : empty y = false).
    { unfold bodyx, body in B. unfold empty. destruct (a_cont y); [|reflexivity|reflexivity]. destruct B as (_ & _ & _ & _ & _ & _ & B). lia. }
    assert (Eb : busy y = false) by (destruct (busy y) eqn:E; [pose proof (h_ex A E); lia|reflexivity]).
    destruct (body_data B Ee) as (l & D & L & la & E1 & E2 & E3 & E4). rewrite Eb in E4. destruct E4 as [E4 E5]. rewrite D, E3.
    destruct (Z.eqb_spec (a_readers y) 0); [lia|]. cbn. rewrite E5, nth_firstn by lia. destruct (nth_error l i); [split; [reflexivity|exact H]|exact I].
  - destruct (a_wg y) eqn:Eg; [|exact I]. destruct (h_wp A Eg) as [P Eb]. rewrite P. unfold poke.
    destruct (conts s y) as [l|] eqn:D; [|exact I]. destruct (inside l i 1); [|exact I].
    destruct (write_ok i [b] H Ey Ex Eb D) as (lw & K & Q & _); [cbn; lia|]. rewrite K. split; [reflexivity|exact Q].
  - destruct (a_wg y) eqn:Eg; [|exact I]. destruct (h_wp A Eg) as [P Eb]. rewrite P. unfold peek.
    destruct (conts s y) as [l|] eqn:D; [|exact I].
    assert (Ee : empty y = false) by (unfold conts in D; unfold empty; destruct (a_cont y); [discriminate| |]; reflexivity).
    destruct (body_data B Ee) as (l0 & D0 & L & la & E1 & E2 & E3 & E4). rewrite Eb in E4. rewrite D in D0. injection D0 as <-. rewrite E4.
    cbn. rewrite nth_firstn by lia. destruct (nth_error l i); [split; [reflexivity|exact H]|exact I].
Qed.
