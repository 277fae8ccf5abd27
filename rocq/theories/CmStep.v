(** * Contexts on the memcheck backend: returning access, fields *)
From Coq Require Import List ZArith Lia Bool Arith.
From Coq.Strings Require Import Byte.
From Verif Require Import Prelude RstrModel StrModel CtxModel CtxSpec CmModel CmSpec CmProofs.
Import ListNotations.
Set Implicit Arguments.
Local Open Scope Z_scope.

Lemma nupd_same {A} (f : nat -> A) k v : nupd f k v k = v.
Proof. unfold VecModel.nupd. rewrite Nat.eqb_refl. reflexivity. Qed.
Lemma nupd_other {A} (f : nat -> A) k v n : n <> k -> nupd f k v n = f n.
Proof. unfold VecModel.nupd. intro N. apply Nat.eqb_neq in N. rewrite N. reflexivity. Qed.
Lemma bytes_eqb_refl l : bytes_eqb l l = true.
Proof. unfold bytes_eqb. destruct (list_eq_dec byte_eq_dec l l); [reflexivity|contradiction]. Qed.
Lemma cpy_out_ok h k n la old : h k = Some old -> length la = n -> (n <= length old)%nat ->
  cpy_out h k n (Some la) = Some (nupd h k (Some (la ++ skipn n old))).
Proof.
  intros E L N. unfold cpy_out. rewrite E. rewrite (proj2 (Nat.leb_le n (length la))) by lia. rewrite (proj2 (Nat.leb_le n (length old))) by lia.
  cbn. rewrite (firstn_all2 la) by lia. reflexivity.
Qed.
Arguments cpy_out_ok {h k n la old} _ _ _.

(** the relation after the private buffer was brought up to date and copied out *)
Lemma restore_ok s w g y x : krel s w g -> s_ctx s = Some y -> w_k w = Some x -> busy y = true ->
  exists x' h', mk_restore w = MOk tt (putk w x' h') /\ krel (sc s (wg (tick y 1) false)) (putk w x' h') (g + 1).
Proof.
  intros H Ey Ex Eb. destruct (krel_live H Ey) as (x1 & Ex1 & A & B). rewrite Ex in Ex1. injection Ex1 as <-.
  assert (Ee : empty y = false).
  { unfold bodyx, body in B. unfold empty. destruct (a_cont y); [|reflexivity|reflexivity]. destruct B as (_ & _ & _ & _ & _ & B & _). congruence. }
  destruct (body_data B Ee) as (l & C & L & la & E1 & E2 & E3 & E4). rewrite Eb in E4.
  assert (Lw : length (firstn (a_size y) l) = a_size y) by (rewrite firstn_length; lia).
  set (lw := firstn (a_size y) l) in *.
  assert (R0 : a_readers y = 0) by (apply (h_ex A), Eb).
  set (fin := fun x => bumpk (ks_wr x None) 1).
  assert (K : forall x1 h1, sync_mc (ks_alloc x (Some lw)) (w_kh w) = KOk x1 h1 -> mk_restore w = MOk tt (putk w (fin x1) h1)).
  { intros x1 h1 S. unfold mk_restore, klive. rewrite Ex, (kbusy_eq A), Eb. unfold restore_mc. rewrite E1, E4, (h_sz A), E2, Lw, Nat.leb_refl. cbn [andb].
    rewrite (firstn_all2 lw) by lia. rewrite (skipn_all2 la) by lia. rewrite app_nil_r, S. reflexivity. }
  assert (Hd : hdr (wg (tick y 1) false) (fin (ks_alloc x (Some lw))) (g + 1)).
  { constructor; cbn; try apply A.
    - rewrite (h_st A). apply add64_mod.
    - rewrite !even_S. f_equal. apply A.
    - intro; discriminate.
    - intro T. change (busy (tick y 1) = true) in T. rewrite busy_1, Eb in T. discriminate. }
  assert (Eb' : busy (wg (tick y 1) false) = false) by (change (busy (tick y 1) = false); rewrite busy_1, Eb; reflexivity).
  assert (Bf : forall l0, firstn (a_size y) l0 = lw -> (a_size y <= length l0)%nat -> buf (a_size y) false (a_readers y) (Some lw) None (k_ro x) l0).
  { intros l0 F N. split; [exact N|]. exists lw. rewrite E3, R0. cbn. repeat split; auto. }
  unfold sync_mc in K. cbn - [cpy_out] in K. unfold bodyx, body in B. unfold conts in C. destruct (a_cont y) as [|l0|k] eqn:Ec; [discriminate| |].
  - injection C as ->. destruct B as (B1 & B2 & _). rewrite B1 in K. destruct (k_owned x) as [k|] eqn:Eo.
    + destruct (B2 k eq_refl) as (U & h & Hh & Lh). rewrite (h_sz A) in K. rewrite (cpy_out_ok Hh Lw Lh) in K.
      eexists; eexists; split; [apply K; reflexivity|]. constructor; cbn.
      * apply (r_nu H).
      * split; [exact Hd|]. unfold bodyx, body. cbn. rewrite Ec, Eo, Eb'. split; [exact B1|]. split; [|apply Bf; [reflexivity|exact L]].
        intros k' Q. injection Q as <-. split; [exact U|]. rewrite nupd_same. eexists; split; [reflexivity|]. rewrite app_length, Lw. lia.
      * intros n F. rewrite nupd_other by (intros ->; apply (F _ eq_refl); left; exact Eo). apply (r_free H). intros z Z. rewrite Ex in Z. injection Z as <-.
        apply (F _ eq_refl).
      * intros n N. destruct (r_new H N) as [N1 N2]. split; [exact N1|]. rewrite nupd_other; [exact N2|]. intros ->. congruence.
    + eexists; eexists; split; [apply K; reflexivity|]. apply krel_put with g x; auto.
      unfold bodyx, body. cbn. rewrite Ec, Eo, Eb'. split; [exact B1|]. split; [intros; discriminate|apply Bf; [reflexivity|exact L]].
  - destruct B as (B1 & B2 & l0 & h & B3 & B4 & B5 & B6 & B7 & B8). rewrite C in B3. injection B3 as <-.
    rewrite B1, B2 in K. rewrite (h_sz A) in K. rewrite (cpy_out_ok B4 Lw) in K by lia.
    assert (Q : lw ++ skipn (a_size y) h = l) by (rewrite B6; apply firstn_skipn).
    rewrite Q in K. eexists; eexists; split; [apply K; reflexivity|]. constructor; cbn.
    + apply (r_nu H).
    + split; [exact Hd|]. unfold bodyx, body. cbn. rewrite Ec, B1, B2, Eb'. split; [reflexivity|]. split; [reflexivity|].
      exists l, l. rewrite nupd_same. repeat split; auto.
      exists lw. rewrite E3, R0. cbn. repeat split; auto.
    + intros n F. rewrite nupd_other by (intros ->; apply (F _ eq_refl); right; exact B2). apply (r_free H). intros z Z. rewrite Ex in Z. injection Z as <-.
      apply (F _ eq_refl).
    + intros n N. destruct (r_new H N) as [N1 N2]. split; [exact N1|]. rewrite nupd_other; [exact N2|]. intros ->. congruence.
Qed.
Lemma k_restore_ok s w g : krel s w g -> forall g', kstrict KRestore s g = Some g' -> ksim (s_restore s) (kbstep KRestore w) g'.
Proof.
  intros H g' G. unfold s_restore, live, kstrict, onctx in *. destruct (s_ctx s) as [y|] eqn:Ey; [|exact I].
  destruct (krel_live H Ey) as (x & Ex & A & B). unfold kbstep, after. destruct (busy y) eqn:Eb; injection G as <-.
  - destruct (restore_ok H Ey Ex Eb) as (x' & h' & K & R). rewrite K. cbn. split; [reflexivity|].
    destruct (krel_live R eq_refl) as (x1 & Ex1 & A1 & B1). cbn in Ex1. injection Ex1 as <-.
    change (krel (sc (sc s (wg (tick y 1) false)) (wg (tick y 1) false)) (putk (putk w x' h') (ks_wp x' false) (w_kh (putk w x' h'))) (g + 1)).
    apply krel_put with (g + 1) x'; auto. constructor; cbn; try apply A1. intro; discriminate.
  - unfold mk_restore, klive. rewrite Ex, (kbusy_eq A), Eb. apply ksim_err, H.
Qed.
Lemma restore_read_ok s w g y x b : krel s w g -> s_ctx s = Some y -> w_k w = Some x -> 0 < a_readers y ->
  (b = true -> a_rg y = true /\ 1 < a_readers y) ->
  exists x', mk_restore_read w = MOk tt (putk w x' (w_kh w)) /\ krel (sc s (rg (rd y (-1)) b)) (putk w x' (w_kh w)) g /\
    k_rp x' = k_rp x /\ has (k_ro x') = (1 <? a_readers y).
Proof.
  intros H Ey Ex R Hb. destruct (krel_live H Ey) as (x1 & Ex1 & A & B). rewrite Ex in Ex1. injection Ex1 as <-.
  assert (Eb : busy y = false) by (destruct (busy y) eqn:E; [pose proof (h_ex A E); lia|reflexivity]).
  assert (Ee : empty y = false).
  { unfold bodyx, body in B. unfold empty. destruct (a_cont y); [|reflexivity|reflexivity]. destruct B as (_ & _ & _ & _ & _ & _ & B). lia. }
  destruct (body_data B Ee) as (l & C & L & la & E1 & E2 & E3 & E4). rewrite Eb in E4. destruct E4 as [E4 E5].
  pose proof (h_r0 A) as R0.
  assert (Ro : k_ro x = Some la) by (rewrite E3; destruct (Z.eqb_spec (a_readers y) 0); [lia|reflexivity]).
  assert (Ad : add64 (k_readers x) (-1) = a_readers y - 1) by (unfold VecModel.add64; rewrite (h_rd A), Z.mod_small; lia).
  set (x' := ks_ro (ks_readers x (a_readers y - 1)) (if a_readers y =? 1 then None else Some la)).
  exists x'.
  assert (K : mk_restore_read w = MOk tt (putk w x' (w_kh w))).
  { unfold mk_restore_read, klive. rewrite Ex. rewrite Ad. cbn [k_readers ks_readers]. rewrite (h_rd A). rewrite (proj2 (Z.ltb_lt 0 (a_readers y)) R).
    unfold x'. destruct (Z.eqb_spec (a_readers y) 1) as [E|E].
    - rewrite E. change (1 - 1 =? 0) with true. cbv iota. unfold restore_read_mc. cbn. rewrite E1, Ro, (h_sz A), E2, Nat.leb_refl. cbn. rewrite bytes_eqb_refl. reflexivity.
    - destruct (Z.eqb_spec (a_readers y - 1) 0); [lia|]. cbn. unfold ks_readers, ks_ro. cbn. rewrite Ro. reflexivity. }
  split; [exact K|]. split; [|split; [reflexivity|]].
  - apply krel_put with g x; auto.
    + constructor; cbn; try apply A.
      * lia.
      * lia.
      * intro T. destruct (Hb T) as [T1 T2]. destruct (h_rp A T1). split; [assumption|lia].
      * intro T. change (busy y = true) in T. congruence.
    + unfold bodyx in *. cbn. change (busy (rg (rd y (-1)) b)) with (busy y).
      apply body_map with (1 := B). apply some_data, Ee. auto.
      intros l0 (Q1 & l1 & Q2 & Q3 & Q4 & Q5). rewrite Eb in *. destruct Q5 as [Q5 Q6]. split; [exact Q1|]. exists l1. repeat split; try assumption.
      rewrite Q2 in E1. injection E1 as <-. destruct (Z.eqb_spec (a_readers y) 1), (Z.eqb_spec (a_readers y + -1) 0); try lia; reflexivity.
  - cbn. destruct (Z.eqb_spec (a_readers y) 1), (Z.ltb_spec 1 (a_readers y)); try lia; reflexivity.
Qed.
Lemma restore_read_sim s w g (m : mout unit) : krel s w g -> m = mk_restore_read w ->
  ksim (s_restore_read s) (after (fun x => ks_rp x (k_rp x && has (k_ro x))) m) g.
Proof.
  intros H ->. unfold s_restore_read, live. destruct (s_ctx s) as [y|] eqn:Ey; [|exact I].
  destruct (krel_live H Ey) as (x & Ex & A & B). destruct (Z.ltb_spec 0 (a_readers y)) as [R|R].
  - assert (Hb : a_rg y && (1 <? a_readers y) = true -> a_rg y = true /\ 1 < a_readers y) by (intro T; apply andb_true_iff in T; rewrite Z.ltb_lt in T; exact T).
    destruct (restore_read_ok H Ey Ex R Hb) as (x' & K & Q & P & O). rewrite K. unfold after. cbn. split; [reflexivity|].
    set (y' := rg (rd y (-1)) (a_rg y && (1 <? a_readers y))) in *.
    destruct (krel_live Q eq_refl) as (x1 & Ex1 & A1 & B1). cbn in Ex1. injection Ex1 as <-.
    change (krel (sc (sc s y') y') (putk (putk w x' (w_kh w)) (ks_rp x' (k_rp x' && has (k_ro x'))) (w_kh (putk w x' (w_kh w)))) g).
    apply krel_put with g x'; auto. constructor; cbn; try apply A1.
    intro T. destruct (h_rp A1 T) as [T1 T2]. split; [|exact T2]. rewrite T1, O. cbn in T. apply andb_true_iff in T. rewrite (proj2 T). reflexivity.
  - unfold after, mk_restore_read, klive. rewrite Ex, (h_rd A). rewrite (proj2 (Z.ltb_ge 0 (a_readers y)) R). apply ksim_err, H.
Qed.
Lemma k_restore_read_ok s w g : krel s w g -> ksim (s_restore_read s) (kbstep KRestoreRead w) g.
Proof. intro H. exact (restore_read_sim H eq_refl). Qed.
Lemma k_restore_field_ok s w g l t : krel s w g -> ksim (s_restore_field s l t) (kbstep (KRestoreField l t) w) g.
Proof.
  intro H. unfold s_restore_field, kbstep, mk_restore_field, mk_label. destruct l as [i|]; [|apply ksim_err, H].
  unfold live. destruct (s_ctx s) as [y|] eqn:Ey; [|exact I]. destruct (krel_live H Ey) as (x & Ex & A & B). unfold klive. rewrite Ex.
  unfold s_label. rewrite (h_fl A). destruct (nth_error (a_fields y) i) as [f|]; [|exact I].
  destruct (ftype_eqb (l_type f) t); [|apply ksim_err, H]. exact (restore_read_sim H eq_refl).
Qed.
