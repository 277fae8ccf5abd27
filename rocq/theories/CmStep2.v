(** * Contexts on the memcheck backend: fields, the client's memory accesses, taking data back *)
From Coq Require Import List ZArith Lia Bool Arith.
From Coq.Strings Require Import Byte.
From Verif Require Import Prelude RstrModel StrModel CtxModel CtxSpec CmModel CmSpec CmProofs CmStep.
Import ListNotations.
Set Implicit Arguments.
Local Open Scope Z_scope.

Lemma slice_firstn (l : bytes) off n m : (off + n <= m)%nat -> firstn n (skipn off (firstn m l)) = firstn n (skipn off l).
Proof. intro N. rewrite skipn_firstn_comm, firstn_firstn. f_equal. lia. Qed.
Lemma splice_length (l v : bytes) off : (off + length v <= length l)%nat -> length (splice l off v) = length l.
Proof. intro N. unfold splice. rewrite !app_length, firstn_length, skipn_length. lia. Qed.
Lemma splice_firstn (l v : bytes) off m : (off + length v <= m)%nat -> (m <= length l)%nat -> splice (firstn m l) off v = firstn m (splice l off v).
Proof.
  intros N M. unfold splice. rewrite firstn_firstn, Nat.min_l by lia. rewrite firstn_app, firstn_firstn, firstn_length, Nat.min_r by lia.
  rewrite Nat.min_l by lia. f_equal. rewrite firstn_app. rewrite (firstn_all2 v) by lia. f_equal.
  rewrite skipn_firstn_comm. f_equal. lia.
Qed.
Lemma skipn_add (l : bytes) : forall n m, skipn n (skipn m l) = skipn (m + n) l.
Proof. intros n m. revert l. induction m; intros l; [reflexivity|]. destruct l; cbn; [rewrite skipn_nil; reflexivity|]. apply IHm. Qed.
Lemma splice_skipn (l v : bytes) off m : (off + length v <= m)%nat -> (m <= length l)%nat -> skipn m (splice l off v) = skipn m l.
Proof.
  intros N M. unfold splice. rewrite skipn_app, firstn_length, Nat.min_l by lia. rewrite skipn_all2 by (rewrite firstn_length; lia). cbn.
  rewrite skipn_app. rewrite (skipn_all2 v) by lia. cbn. rewrite skipn_add. f_equal. lia.
Qed.
Lemma nth_firstn (l : bytes) i m : (i < m)%nat -> nth_error (firstn m l) i = nth_error l i.
Proof. revert l i. induction m; intros l i; [lia|]. destruct l, i; cbn; auto. intro. apply IHm. lia. Qed.

Lemma get_ok s w g y x : krel s w g -> s_ctx s = Some y -> w_k w = Some x -> locked y = false -> empty y = false ->
  exists x', mk_get true w = MOk tt (putk w x' (w_kh w)) /\ krel (sc s (tick y 1)) (putk w x' (w_kh w)) (g + 1).
Proof.
  intros H Ey Ex Lo Ee. unfold locked in Lo. apply orb_false_iff in Lo. destruct Lo as [Eb Er]. apply negb_false_iff in Er.
  destruct (krel_live H Ey) as (x1 & Ex1 & A & B). rewrite Ex in Ex1. injection Ex1 as <-.
  destruct (body_data B Ee) as (l & C & L & la & E1 & E2 & E3 & E4). rewrite Eb in E4. destruct E4 as [E4 E5].
  exists (bumpk (ks_wr x (Some la)) 1). split.
  - unfold mk_get, klive. rewrite Ex, (kbusy_eq A), (alloc_empty B), (h_rd A), Eb, Er, Ee. cbn. unfold get_mc. cbn.
    rewrite E1, (h_sz A), (cpy_ok _ E2). reflexivity.
  - apply krel_put with g x; auto.
    + constructor; cbn; try apply A.
      * rewrite (h_st A). apply add64_mod.
      * rewrite !even_S. f_equal. apply A.
      * intro T. destruct (h_wp A T). congruence.
      * intros _. apply Z.eqb_eq, Er.
    + unfold bodyx in *. cbn. rewrite busy_1, Eb. cbn.
      apply body_map with (1 := B). apply some_data, Ee. intro; discriminate.
      intros l0 (Q1 & l1 & Q2 & Q3 & Q4 & Q5). rewrite Eb in Q5. destruct Q5 as [Q5 Q6]. split; [exact Q1|]. exists l1. repeat split; try assumption.
      rewrite Q2 in E1. injection E1 as <-. rewrite Q6 at 1. reflexivity.
Qed.
(** the context whose data were written *)
Definition wrote (y : actx) (l : bytes) : actx := match a_cont y with COwn _ => ct y (COwn l) | _ => y end.
Lemma write_ok s w g y x l off v : krel s w g -> s_ctx s = Some y -> w_k w = Some x -> busy y = true -> conts s y = Some l ->
  (off + length v <= a_size y)%nat ->
  exists lw, lwrite (k_wr x) off v = Some lw /\ krel (putd s y (splice l off v)) (putk w (ks_wr x (Some lw)) (w_kh w)) g /\
    s_ctx (putd s y (splice l off v)) = Some (wrote y (splice l off v)).
Proof.
  intros H Ey Ex Eb C N. destruct (krel_live H Ey) as (x1 & Ex1 & A & B). rewrite Ex in Ex1. injection Ex1 as <-.
  assert (Ee : empty y = false) by (unfold conts in C; unfold empty; destruct (a_cont y); [discriminate| |]; reflexivity).
  destruct (body_data B Ee) as (l0 & C0 & L & la & E1 & E2 & E3 & E4). rewrite C in C0. injection C0 as <-. rewrite Eb in E4.
  set (l' := splice l off v). assert (Ll : length l' = length l) by (apply splice_length; lia).
  exists (firstn (a_size y) l'). split.
  - unfold lwrite. rewrite E4, firstn_length, Nat.min_l by lia. rewrite (proj2 (Nat.leb_le _ _) N). f_equal. unfold l'.
    change (splice (firstn (a_size y) l) off v = firstn (a_size y) (splice l off v)). apply splice_firstn; lia.
  - assert (Bf : buf (a_size y) true (a_readers y) (k_alloc x) (Some (firstn (a_size y) l')) (k_ro x) l').
    { split; [lia|]. exists la. repeat split; assumption. }
    unfold bodyx, body in B. unfold putd, wrote, conts in *. destruct (a_cont y) as [|l1|k] eqn:Ec; [discriminate| |].
    + split; [|reflexivity]. apply krel_put with g x; auto.
      * constructor; cbn; apply A.
      * destruct B as (B1 & B2 & _). unfold bodyx, body. cbn. change (busy (ct y (COwn l'))) with (busy y). rewrite Eb.
        split; [exact B1|]. split; [exact B2|exact Bf].
    + split; [|reflexivity]. destruct B as (B1 & B2 & l1 & h & B3 & B4 & B5 & B6 & B7 & B8). rewrite C in B3. injection B3 as <-.
      constructor; cbn.
      * apply (r_nu H).
      * split; [constructor; cbn; apply A|]. unfold bodyx, body. cbn. rewrite Ec, Eb. split; [exact B1|]. split; [exact B2|].
        exists l', h. rewrite nupd_same. split; [reflexivity|]. split; [exact B4|]. split; [lia|]. split; [|split; [intro; discriminate|exact Bf]].
        unfold l'. rewrite splice_skipn by lia. exact B6.
      * intros n F. rewrite nupd_other by (intros ->; apply (F _ eq_refl); right; exact B2). apply (r_free H). intros z Z. rewrite Ex in Z. injection Z as <-.
        apply (F _ eq_refl).
      * intros n M. destruct (r_new H M) as [N1 N2]. split; [|exact N2]. rewrite nupd_other; [exact N1|]. intros ->. congruence.
Qed.

Lemma rd_back y : rg (rd (rd y 1) (-1)) (a_rg y) = y.
Proof. destruct y; unfold rd, rg; cbn. f_equal. lia. Qed.
Lemma k_get_field_ok s w g l t : krel s w g -> forall g', kstrict (KGetField l t) s g = Some g' -> ksim (s_get_field s l t) (kbstep (KGetField l t) w) g'.
Proof.
  intros H g' G. unfold s_get_field, kbstep, mk_get_field, mk_label. destruct l as [i|]; [|injection G as <-; apply ksim_err, H].
  unfold kstrict, onctx, live in *. destruct (s_ctx s) as [y|] eqn:Ey; [|exact I]. destruct (krel_live H Ey) as (x & Ex & A & B). unfold klive at 1. rewrite Ex.
  unfold s_label. rewrite (h_fl A). destruct (nth_error (a_fields y) i) as [f|] eqn:Ef; [|exact I].
  destruct (ftype_eqb (l_type f) t) eqn:Et; cbn in G; [|injection G as <-; apply ksim_err, H].
  destruct (mk_get_read_err true H Ey Ex) as [E1 E2].
  unfold s_reading. destruct (busy y) eqn:Eb; cbn in G; [injection G as <-; rewrite (E1 eq_refl); apply ksim_err, H|].
  destruct (empty y) eqn:Ee; cbn in G; cbn [orb negb]; [injection G as <-; rewrite (E2 eq_refl eq_refl); apply ksim_err, H|].
  destruct (many y) eqn:Em; [exact I|]. unfold rule in G. destruct (Nat.leb (l_off f + l_size f) (a_size y)) eqn:En; [|discriminate]. injection G as <-.
  destruct (get_read_ok H Ey Ex Eb Ee Em) as (l & x' & C & K & R & Ro & Le & Fl). rewrite K. cbn. rewrite C, Fl, Ef.
  destruct (inside l (l_off f) (Nat.div (l_size f) (fsize t) * fsize t)) eqn:Ei; [|exact I]. unfold lread. rewrite Ro.
  apply Nat.leb_le in En. assert (M : (Nat.div (l_size f) (fsize t) * fsize t <= l_size f)%nat).
  { rewrite Nat.mul_comm. apply Nat.mul_div_le. destruct t; cbn; lia. }
  rewrite firstn_length, Nat.min_l by lia. rewrite (proj2 (Nat.leb_le _ _)) by lia. rewrite slice_firstn by lia. split; [reflexivity|].
  exact (krel_rg R eq_refl ltac:(cbn; pose proof (h_r0 A); lia)).
Qed.
Lemma wrote_2 s y l : a_wg y = false -> s_ctx s = Some y -> empty y = false ->
  sc (putd (sc s (tick y 1)) (tick y 1) l) (wg (tick (wrote (tick y 1) l) 1) false) = putd (sc s (tick y 2)) (tick y 2) l.
Proof.
  intros W Ey Ee. unfold putd, wrote, empty in *. cbn. destruct y as [c r f n ct0 fs d wg0 rg0]; cbn in *. subst wg0.
  destruct ct0; [discriminate| |]; unfold sc, su, tick, wg, ct; cbn; replace (c + 1 + 1) with (c + 2) by lia; reflexivity.
Qed.
Lemma k_set_field_ok s w g l t vals : krel s w g -> forall g', kstrict (KSetField l t vals) s g = Some g' -> ksim (s_set_field s l t vals) (kbstep (KSetField l t vals) w) g'.
Proof.
  intros H g' G. unfold s_set_field, kbstep, mdone, mk_set_field, mk_label. destruct l as [i|]; [|injection G as <-; apply ksim_err, H].
  unfold kstrict, onctx, live in *. destruct (s_ctx s) as [y|] eqn:Ey; [|exact I]. destruct (krel_live H Ey) as (x & Ex & A & B). unfold klive at 1. rewrite Ex.
  unfold s_label. rewrite (h_fl A). destruct (nth_error (a_fields y) i) as [f|] eqn:Ef; [|exact I].
  destruct (ftype_eqb (l_type f) t) eqn:Et; cbn in G; [|injection G as <-; apply ksim_err, H].
  destruct (mk_get_read_err true H Ey Ex) as [E1 E2].
  unfold s_reading. destruct (busy y) eqn:Eb; cbn in G; [injection G as <-; rewrite (E1 eq_refl); apply ksim_err, H|].
  destruct (empty y) eqn:Ee; cbn in G; cbn [orb negb]; [injection G as <-; rewrite (E2 eq_refl eq_refl); apply ksim_err, H|].
  destruct (many y) eqn:Em; [exact I|].
  destruct (get_read_ok H Ey Ex Eb Ee Em) as (l & x' & C & K & R & Ro & Le & Fl). rewrite C in *. rewrite K.
  unfold rule in G. destruct (Nat.leb (l_off f + l_size f) (a_size y)) eqn:En; [|discriminate]. injection G as <-. apply Nat.leb_le in En.
  destruct (inside l (l_off f) (l_size f)) eqn:Ei; [|exact I]. destruct (Nat.leb (l_size f) (length vals)) eqn:Ev; [|exact I]. cbn [andb].
  cbn [mthen]. unfold klive at 1. cbn [w_k putk]. unfold lread. rewrite Ro. rewrite firstn_length, Nat.min_l by lia. rewrite (proj2 (Nat.leb_le _ _)) by lia.
  rewrite slice_firstn by lia.
  assert (R1 : 0 < a_readers (rd y 1)) by (cbn; pose proof (h_r0 A); lia).
  assert (Hb : a_rg y = true -> a_rg (rd y 1) = true /\ 1 < a_readers (rd y 1)) by (intro T; destruct (h_rp A T); cbn; split; [exact T|lia]).
  destruct (restore_read_ok (b := a_rg y) R eq_refl eq_refl R1 Hb) as (x2 & K2 & Q2 & _). rewrite K2. cbn [mthen].
  rewrite rd_back in Q2. change (sc (sc s (rd y 1)) y) with (sc s y) in Q2. rewrite (sc_id _ Ey) in Q2.
  change (w_kh (putk w x' (w_kh w))) with (w_kh w) in *. change (putk (putk w x' (w_kh w)) x2 (w_kh w)) with (putk w x2 (w_kh w)) in *.
  change (firstn (l_size f) (skipn (l_off f) l)) with (slice l (l_off f) (l_size f)).
  destruct (bytes_eqb (slice l (l_off f) (l_size f)) (firstn (l_size f) vals)) eqn:Eq; [apply ksim_ok, Q2|]. cbn [orb].
  destruct (locked y) eqn:Lo.
  - unfold mk_get, klive. cbn [w_k putk]. destruct (krel_live Q2 Ey) as (x3 & Ex3 & A3 & B3). cbn in Ex3. injection Ex3 as <-.
    rewrite (kbusy_eq A3), Eb, (h_rd A3). unfold locked in Lo. rewrite Eb in Lo. cbn in Lo. rewrite Lo. apply ksim_err, Q2.
  - destruct (get_ok Q2 Ey eq_refl Lo Ee) as (x3 & K3 & Q3). cbn [mthen]. rewrite K3. cbn [mthen]. unfold klive at 1. cbn [w_k putk].
    change (w_kh (putk w x2 (w_kh w))) with (w_kh w) in *. change (putk (putk w x2 (w_kh w)) x3 (w_kh w)) with (putk w x3 (w_kh w)) in *.
    assert (Lv : length (firstn (l_size f) vals) = l_size f) by (apply Nat.leb_le in Ev; rewrite firstn_length; lia).
    assert (Eb3 : busy (tick y 1) = true) by (rewrite busy_1, Eb; reflexivity).
    assert (C3 : conts (sc s (tick y 1)) (tick y 1) = Some l) by exact C.
    destruct (write_ok (l_off f) (firstn (l_size f) vals) Q3 eq_refl eq_refl Eb3 C3) as (lw & K4 & Q4 & Y4); [cbn; lia|].
    rewrite K4. set (l' := splice l (l_off f) (firstn (l_size f) vals)) in *.
    assert (Eb4 : busy (wrote (tick y 1) l') = true) by (unfold wrote; destruct (a_cont (tick y 1)); exact Eb3).
    destruct (restore_ok Q4 Y4 eq_refl Eb4) as (x5 & h5 & K5 & Q5). rewrite K5. cbn [mthen]. split; [reflexivity|].
    assert (W : a_wg y = false) by (destruct (a_wg y) eqn:T; [destruct (h_wp A T); congruence|reflexivity]).
    unfold l' in *. rewrite (wrote_2 _ _ W Ey Ee) in Q5. replace (g + 1 + 1) with (g + 2) in Q5 by lia. exact Q5.
Qed.
