(** * The memcheck vector model against the abstract machine: relation and tools *)
From Coq Require Import List ZArith Lia Bool Arith.
From Verif Require Import Prelude RstrModel VecModel VecSpec VecProofs VecSim VecLaws McModel McSpec.
Import ListNotations.
Set Implicit Arguments.
Local Open Scope Z_scope.

Section P.
Variable R : Rng.
Notation upds := (@upds R). Notation astate := (astate R). Notation avec := (avec R). Notation mvec := (mvec R). Notation mworld := (mworld R). Notation heap := (heap R).

Definition agree (len : nat) (gd : nat -> bool) (la l : list R) : Prop := forall i, (i < len)%nat -> gd i = true -> vf la i = vf l i.
(** the buffers of a vector whose values are [l] *)
Definition data (len : nat) (gd : nat -> bool) (bz : bool) (rd : Z) (al wr ro : option (list R)) (l : list R) : Prop :=
  (len <= length l)%nat /\ exists la, al = Some la /\ length la = len /\ ro = (if rd =? 0 then None else Some la) /\
    if bz then exists lw, wr = Some lw /\ length lw = len /\ agree len gd lw l else wr = None /\ agree len gd la l.
Definition body (us hp : heap) (len : nat) (c : content R) (bz : bool) (rd : Z) (al : option (list R)) (ow bo : option nat)
    (wr ro : option (list R)) (gd : nat -> bool) (gs : bool) : Prop :=
  if Nat.eqb len 0 then (al = None \/ al = Some []) /\ ow = None /\ bo = None /\ wr = None /\ ro = None /\ c = CEmpty
  else match c with
  | CEmpty => al = None /\ ow = None /\ bo = None /\ wr = None /\ ro = None /\ bz = false /\ rd = 0
  | COwn l => bo = None /\ (forall k, ow = Some k -> us k = None /\ exists h, hp k = Some h /\ (len <= length h)%nat) /\ data len gd bz rd al wr ro l
  | CShared n => bo = Some n /\ ow = None /\ exists l h, us n = Some l /\ hp n = Some h /\ length h = length l /\ skipn len h = skipn len l /\
                 (gs = true -> bz = false /\ al = Some (firstn len h)) /\ data len gd bz rd al wr ro l
  end.
Record hdr (y : avec) (x : mvec) (st : Z) : Prop := {
  h_len : m_len x = a_len y; h_st : m_state x = st mod two64; h_ev : even st = even (a_clock y);
  h_rd : m_readers x = a_readers y; h_r0 : 0 <= a_readers y < two64; h_rf : m_refs x = a_refs y;
  h_wp : a_wg y = true -> m_wp x = true /\ busy y = true; h_rp : a_rg y = true -> (a_len y = O \/ m_rp x = true) /\ 0 < a_readers y;
  h_ex : busy y = true -> a_readers y = 0 }.
Definition vbody (us hp : heap) (y : avec) (x : mvec) gd gs : Prop :=
  body us hp (a_len y) (a_cont y) (busy y) (a_readers y) (m_alloc x) (m_owned x) (m_borrowed x) (m_wr x) (m_ro x) gd gs.
Definition holds (x : mvec) (n : nat) : Prop := m_owned x = Some n \/ m_borrowed x = Some n.
Record rel (s : astate) (w : mworld) (g : ghost) : Prop := {
  r_nv : w_mnv w = s_nv s; r_nu : w_mnu w = s_nu s; r_new : NewNone s;
  r_vec : forall v, match s_vecs s v, w_mv w v with
                    | Some y, Some x => hdr y x (g_st g v) /\ vbody (s_user s) (w_mh w) y x (g_def g v) (g_sync g v)
                    | None, None => True
                    | _, _ => False
                    end;
  r_free : forall n, (forall v x, w_mv w v = Some x -> ~ holds x n) -> s_user s n = w_mh w n;
  r_one : forall v u x z n, w_mv w v = Some x -> w_mv w u = Some z -> holds x n -> holds z n -> v = u;
  r_fresh : forall n, (s_nu s <= n)%nat -> s_user s n = None /\ w_mh w n = None }.

Lemma rel_init : rel empty_astate empty_mworld no_ghost.
Proof. constructor; simpl; auto; try discriminate. intros v _. reflexivity. Qed.

Lemma look : forall s w g v y, rel s w g -> s_vecs s v = Some y -> exists x, w_mv w v = Some x /\ hdr y x (g_st g v) /\ vbody (s_user s) (w_mh w) y x (g_def g v) (g_sync g v).
Proof. intros s w g v y H E. pose proof (r_vec H v) as V. rewrite E in V. destruct (w_mv w v) as [x|]; [|contradiction]. eauto. Qed.
Lemma look_rev : forall s w g v x, rel s w g -> w_mv w v = Some x -> exists y, s_vecs s v = Some y /\ hdr y x (g_st g v) /\ vbody (s_user s) (w_mh w) y x (g_def g v) (g_sync g v).
Proof. intros s w g v x H E. pose proof (r_vec H v) as V. rewrite E in V. destruct (s_vecs s v) as [y|]; [|contradiction]. eauto. Qed.
Lemma held_live : forall us hp y x gd gs n, vbody us hp y x gd gs -> holds x n -> hp n <> None.
Proof.
  intros us hp y x gd gs n B [O|O]; unfold vbody, body in B; destruct (Nat.eqb (a_len y) 0); try (destruct B as (_ & B1 & B2 & _); congruence);
    destruct (a_cont y) as [|l|k]; try (destruct B as (_ & B1 & B2 & _); congruence).
  - destruct B as (_ & B & _). destruct (B _ O) as (_ & h & ? & _). congruence.
  - destruct B as (B & _). congruence.
  - destruct B as (B & _ & l & h & _ & ? & _). rewrite O in B. inversion B; subst. congruence.
Qed.
Lemma vbody_ext : forall us hp us' hp' y x gd gs, vbody us hp y x gd gs -> (forall n, holds x n -> us' n = us n /\ hp' n = hp n) -> vbody us' hp' y x gd gs.
Proof.
  intros us hp us' hp' y x gd gs B E. unfold vbody, body in *. destruct (Nat.eqb (a_len y) 0); auto. destruct (a_cont y) as [|l|k]; auto.
  - destruct B as (B1 & B2 & B3). split; auto. split; auto. intros k H. destruct (E k (or_introl H)) as (E1 & E2). destruct (B2 _ H) as (F1 & F2). rewrite E1, E2. auto.
  - destruct B as (B1 & B2 & l & h & F1 & F2 & F). destruct (E k (or_intror B1)) as (E1 & E2). repeat split; auto. exists l, h. rewrite E1, E2. auto.
Qed.
(** the shared fields of a mirrored vector *)
Lemma bounds : forall us hp y x gd gs n, vbody us hp y x gd gs -> a_cont y = CShared n -> a_len y <> O -> m_borrowed x = Some n /\ m_owned x = None.
Proof. intros us hp y x gd gs n B C L. unfold vbody, body in B. rewrite C in B. destruct (Nat.eqb_spec (a_len y) 0); [contradiction|]. tauto. Qed.
Lemma shared_len : forall us hp y x gd gs n, vbody us hp y x gd gs -> a_cont y = CShared n -> a_len y <> O.
Proof. intros us hp y x gd gs n B C L. unfold vbody, body in B. rewrite C, L in B. simpl in B. destruct B as (_ & _ & _ & _ & _ & B). discriminate. Qed.
Lemma borrowed_shared : forall us hp y x gd gs n, vbody us hp y x gd gs -> m_borrowed x = Some n -> a_cont y = CShared n.
Proof.
  intros us hp y x gd gs n B C. unfold vbody, body in B. destruct (Nat.eqb (a_len y) 0); [destruct B as (_ & _ & B & _); congruence|].
  destruct (a_cont y) as [|l|k]; [destruct B as (_ & _ & B & _); congruence|destruct B as (B & _); congruence|destruct B as (B & _); congruence].
Qed.
Lemma owned_none : forall us hp y x gd gs n, vbody us hp y x gd gs -> m_owned x = Some n -> us n = None.
Proof.
  intros us hp y x gd gs n B C. unfold vbody, body in B. destruct (Nat.eqb (a_len y) 0); [destruct B as (_ & B & _); congruence|].
  destruct (a_cont y) as [|l|k]; [destruct B as (_ & B & _); congruence| |destruct B as (_ & B & _); congruence]. destruct B as (_ & B & _). apply B; auto.
Qed.

(** one vector and the blocks it held or holds change *)
Lemma rel_upd : forall s w g s' w' g' v y x y' x', rel s w g -> s_vecs s v = Some y -> w_mv w v = Some x ->
  s_nv s' = s_nv s -> s_nu s' = s_nu s -> w_mnv w' = w_mnv w -> w_mnu w' = w_mnu w ->
  (forall u, s_vecs s' u = if Nat.eqb u v then Some y' else s_vecs s u) ->
  (forall u, w_mv w' u = if Nat.eqb u v then Some x' else w_mv w u) ->
  (forall u, u <> v -> g_def g' u = g_def g u /\ g_sync g' u = g_sync g u /\ g_st g' u = g_st g u) ->
  (forall n, (s_user s' n = s_user s n /\ w_mh w' n = w_mh w n) \/ holds x n \/ holds x' n) ->
  (forall n, holds x' n -> holds x n \/ (s_user s n <> None /\ forall u z, w_mv w u = Some z -> ~ holds z n)) ->
  (forall n, holds x n -> ~ holds x' n -> s_user s' n = w_mh w' n) ->
  hdr y' x' (g_st g' v) -> vbody (s_user s') (w_mh w') y' x' (g_def g' v) (g_sync g' v) -> rel s' w' g'.
Proof.
  intros s w g s' w' g' v y x y' x' H Ey Ex N1 N2 N3 N4 SV WV G CH NEW OLD HD BD.
  assert (OTH: forall u z n, u <> v -> w_mv w u = Some z -> holds z n -> ~ holds x n /\ ~ holds x' n).
  { intros u z n Nu Eu Hz. assert (A : ~ holds x n) by (intro A; apply Nu; symmetry; eapply (r_one H); eauto). split; auto. intro B. destruct (NEW _ B) as [|(_ & F)]; [auto|]. eapply F; eauto. }
  assert (DEC: forall n, holds x n \/ ~ holds x n).
  { intro n. unfold holds. destruct (m_owned x) as [a|], (m_borrowed x) as [b|]; try destruct (Nat.eq_dec a n); try destruct (Nat.eq_dec b n); subst; auto; right; intros [|]; congruence. }
  assert (DEC': forall n, holds x' n \/ ~ holds x' n).
  { intro n. unfold holds. destruct (m_owned x') as [a|], (m_borrowed x') as [b|]; try destruct (Nat.eq_dec a n); try destruct (Nat.eq_dec b n); subst; auto; right; intros [|]; congruence. }
  assert (FR: forall n, holds x n -> (n < s_nu s)%nat).
  { intros n Hn. destruct (Nat.lt_ge_cases n (s_nu s)) as [|F]; auto. destruct (look v H Ey) as (x1 & Ex1 & _ & B). rewrite Ex in Ex1. inversion Ex1; subst.
    exfalso. eapply held_live; eauto. apply (r_fresh H); auto. }
  constructor.
  - rewrite N3, N1. apply (r_nv H).
  - rewrite N4, N2. apply (r_nu H).
  - intros u L. rewrite N1 in L. rewrite SV. destruct (Nat.eqb_spec u v) as [->|]; [|apply (r_new H); auto]. rewrite (r_new H) in Ey by auto. discriminate.
  - intro u. rewrite SV, WV. destruct (Nat.eqb_spec u v) as [->|Nu]; auto. pose proof (r_vec H u) as V. destruct (s_vecs s u) as [z|] eqn:Eu; destruct (w_mv w u) as [zx|] eqn:Ewu; auto.
    destruct V as (V1 & V2). destruct (G u Nu) as (G1 & G2 & G3). rewrite G1, G2, G3. split; auto. eapply vbody_ext; eauto. intros n Hn. destruct (OTH u zx n Nu Ewu Hn). destruct (CH n) as [|[|]]; try contradiction; auto.
  - intros n F. assert (F1: ~ holds x' n). { apply (F v). rewrite WV, Nat.eqb_refl. auto. }
    destruct (DEC n) as [D|D]; [apply OLD; auto|]. destruct (CH n) as [(C1 & C2)|[|]]; try contradiction. rewrite C1, C2. apply (r_free H). intros u z Eu.
    destruct (Nat.eq_dec u v) as [->|Nu]; [rewrite Ex in Eu; inversion Eu; subst; auto|]. apply (F u). rewrite WV. destruct (Nat.eqb_spec u v); [contradiction|auto].
  - intros a b xa xb n Ea Eb Ha Hb. rewrite WV in Ea, Eb. destruct (Nat.eqb_spec a v) as [->|Na], (Nat.eqb_spec b v) as [->|Nb]; auto.
    + inversion Ea; subst. exfalso. apply (proj2 (OTH b xb n Nb Eb Hb)); auto.
    + inversion Eb; subst. exfalso. apply (proj2 (OTH a xa n Na Ea Ha)); auto.
    + eapply (r_one H); eauto.
  - intros n L. rewrite N2 in L. destruct (r_fresh H L) as (F1 & F2). destruct (CH n) as [(-> & ->)|[C|C]]; auto.
    + exfalso. pose proof (FR n C). lia.
    + destruct (NEW n C) as [C'|(C' & _)]; [exfalso; pose proof (FR n C'); lia|contradiction].
Qed.
(** the usual case: no block changes *)
Lemma rel_upd0 : forall s w g s' w' g' v y x y' x', rel s w g -> s_vecs s v = Some y -> w_mv w v = Some x ->
  s_nv s' = s_nv s -> s_nu s' = s_nu s -> w_mnv w' = w_mnv w -> w_mnu w' = w_mnu w ->
  (forall u, s_vecs s' u = if Nat.eqb u v then Some y' else s_vecs s u) ->
  (forall u, w_mv w' u = if Nat.eqb u v then Some x' else w_mv w u) ->
  (forall u, u <> v -> g_def g' u = g_def g u /\ g_sync g' u = g_sync g u /\ g_st g' u = g_st g u) ->
  (forall n, s_user s' n = s_user s n) -> (forall n, w_mh w' n = w_mh w n) -> m_owned x' = m_owned x -> m_borrowed x' = m_borrowed x ->
  hdr y' x' (g_st g' v) -> vbody (s_user s) (w_mh w) y' x' (g_def g' v) (g_sync g' v) -> rel s' w' g'.
Proof.
  intros s w g s' w' g' v y x y' x' H Ey Ex N1 N2 N3 N4 SV WV G U W O B HD BD. eapply (@rel_upd s w g s' w' g' v y x y' x'); eauto.
  - unfold holds. rewrite O, B. auto.
  - unfold holds. rewrite O, B. intros n F1 F2. contradiction.
  - eapply vbody_ext; eauto.
Qed.
Lemma rel_ext : forall s w g s' w' g', rel s w g -> s_nv s' = s_nv s -> s_nu s' = s_nu s -> w_mnv w' = w_mnv w -> w_mnu w' = w_mnu w ->
  (forall u, s_vecs s' u = s_vecs s u) -> (forall u, w_mv w' u = w_mv w u) -> (forall u, g_def g' u = g_def g u /\ g_sync g' u = g_sync g u /\ g_st g' u = g_st g u) ->
  (forall n, s_user s' n = s_user s n) -> (forall n, w_mh w' n = w_mh w n) -> rel s' w' g'.
Proof.
  intros s w g s' w' g' H N1 N2 N3 N4 SV WV G U W. constructor.
  - rewrite N3, N1. apply (r_nv H).
  - rewrite N4, N2. apply (r_nu H).
  - intros u L. rewrite N1 in L. rewrite SV. apply (r_new H); auto.
  - intro u. rewrite SV, WV. pose proof (r_vec H u) as V. destruct (s_vecs s u), (w_mv w u); auto. destruct V as (V1 & V2). destruct (G u) as (-> & -> & ->). split; auto.
    eapply vbody_ext; eauto.
  - intros n F. rewrite U, W. apply (r_free H). intros v x E. apply (F v). rewrite WV. auto.
  - intros a b xa xb n. rewrite !WV. apply (r_one H).
  - intros n L. rewrite N2 in L. rewrite U, W. apply (r_fresh H); auto.
Qed.

(** ** Lists *)
Lemma lstrided_ok : forall (step : nat) (f : Z -> option R) (F : nat -> R), (0 < step)%nat -> forall fuel i stop l, (stop <= length l)%nat -> (stop - i <= fuel)%nat ->
  (forall j, (i <= j < stop)%nat -> f (Z.of_nat j) = Some (F j)) ->
  lstrided fuel (Z.of_nat i) (Z.of_nat stop) (Z.of_nat step) f l = Some (upds (fun j => Nat.leb i j && Nat.ltb j stop && Nat.eqb ((j - i) mod step) 0) F l).
Proof.
  intros step f F Hst fuel. induction fuel as [|fuel IH]; intros i stop l Hn Hf HF.
  - simpl. replace (Z.of_nat i <? Z.of_nat stop) with false by (symmetry; apply Z.ltb_ge; lia).
    rewrite upds_none; auto. intros j _. destruct (Nat.leb_spec i j), (Nat.ltb_spec j stop); auto; lia.
  - simpl. destruct (Z.ltb_spec (Z.of_nat i) (Z.of_nat stop)) as [L|L].
    2:{ rewrite upds_none; auto. intros j _. destruct (Nat.leb_spec i j), (Nat.ltb_spec j stop); auto; lia. }
    rewrite (HF i) by lia. unfold setZ. replace (Z.of_nat i <? 0) with false by (symmetry; apply Z.ltb_ge; lia). rewrite Nat2Z.id. unfold set.
    rewrite (proj2 (Nat.ltb_lt _ _)) by lia. rewrite <- Nat2Z.inj_add. rewrite IH by (rewrite ?upd_length; intros; try apply HF; lia). f_equal.
    apply vf_ext; [rewrite !upds_length, upd_length; auto|]. intros j Hj. rewrite upds_length, upd_length in Hj.
    rewrite !vf_upds by (rewrite ?upd_length; auto).
    destruct (Nat.ltb_spec j stop) as [Ls|Ls]; [|rewrite !andb_false_r; simpl; rewrite vf_upd_other by lia; auto]. rewrite !andb_true_r.
    destruct (Nat.eq_dec j i) as [->|N].
    + rewrite (proj2 (Nat.leb_gt (i + step) i)) by lia. rewrite Nat.leb_refl, Nat.sub_diag, Nat.mod_0_l by lia. simpl. rewrite vf_upd_same by lia. auto.
    + rewrite vf_upd_other by auto. destruct (Nat.leb_spec (i + step) j) as [L1|L1].
      * rewrite (proj2 (Nat.leb_le i j)) by lia. simpl. replace (j - i)%nat with (j - (i + step) + 1 * step)%nat by lia. rewrite Nat.mod_add by lia. auto.
      * destruct (Nat.leb_spec i j); auto. simpl. rewrite Nat.mod_small by lia. destruct (Nat.eqb_spec (j - i) 0); auto; lia.
Qed.
Lemma lsmap_ok : forall start stop step (f : Z -> option R) (F : nat -> R) l, 0 <= start \/ stop <= start -> 0 < step \/ stop <= start -> stop <= Z.of_nat (length l) ->
  (forall j, Z.of_nat j < stop -> f (Z.of_nat j) = Some (F j)) -> lsmap start stop step f l = Some (upds (inrange start stop step) F l).
Proof.
  intros start stop step f F l H0 H1 H2 HF. unfold lsmap. destruct (Z.ltb_spec start stop) as [L|L].
  - pose proof (@lstrided_ok (Z.to_nat step) f F ltac:(lia) (Z.to_nat (stop - start)) (Z.to_nat start) (Z.to_nat stop) l ltac:(lia) ltac:(lia)) as E.
    rewrite !Z2Nat.id in E by lia. rewrite E by (intros; apply HF; lia). f_equal. apply upds_ext; auto. intros j _. unfold inrange. rewrite (proj2 (Z.ltb_lt _ _)) by lia. reflexivity.
  - rewrite upds_none by (intros; unfold inrange; rewrite (proj2 (Z.ltb_ge _ _)) by lia; auto).
    replace (Z.to_nat (stop - start)) with 0%nat by lia. simpl. rewrite (proj2 (Z.ltb_ge _ _)) by lia. auto.
Qed.
Lemma lmap_ok : forall n (f : nat -> option R) (F : nat -> R) l, (n <= length l)%nat -> (forall j, (j < n)%nat -> f j = Some (F j)) -> lmap n f l = Some (upds (fun j => Nat.ltb j n) F l).
Proof.
  intros n f F l L HF. unfold lmap. rewrite (@lsmap_ok 0 (Z.of_nat n) 1 _ F) by (intros; rewrite ?Nat2Z.id; try apply HF; lia). f_equal. apply upds_ext; auto.
  intros j _. unfold inrange. rewrite Nat2Z.id. change (Z.to_nat 0) with 0%nat. change (Z.to_nat 1) with 1%nat. rewrite Nat.mod_1_r. simpl Nat.leb. simpl Nat.eqb. rewrite andb_true_r. simpl.
  destruct (Nat.ltb_spec j n); [|rewrite andb_false_r; auto]. rewrite (proj2 (Z.ltb_lt _ _)) by lia. auto.
Qed.
Lemma nth_vf : forall (l : list R) i, (i < length l)%nat -> nth_error l i = Some (vf l i).
Proof. intros. unfold vf. apply nth_error_nth'. auto. Qed.
Lemma skipn_fill : forall n f (l : list R), (n <= length l)%nat -> skipn n (fill n f l) = skipn n l.
Proof. intros n f l L. unfold fill. rewrite skipn_app, map_length, seq_length, Nat.sub_diag, skipn_all2 by (rewrite map_length, seq_length; lia). auto. Qed.
Lemma skipn_ext : forall n (a b : list R), length a = length b -> (forall j, (n <= j)%nat -> (j < length b)%nat -> vf a j = vf b j) -> skipn n a = skipn n b.
Proof.
  intros n a b L E. apply vf_ext; [rewrite !skipn_length; lia|]. intros j Hj. rewrite skipn_length in Hj.
  assert (G : forall c : list R, (n <= length c)%nat -> vf (skipn n c) j = vf c (n + j)%nat).
  { intros c Lc. unfold vf. rewrite <- (firstn_skipn n c) at 2. rewrite app_nth2 by (rewrite firstn_length; lia). rewrite firstn_length, Nat.min_l by auto. f_equal. lia. }
  rewrite !G by lia. apply E; lia.
Qed.
Lemma skipn_vf : forall n (a b : list R) j, skipn n a = skipn n b -> length a = length b -> (n <= j)%nat -> vf a j = vf b j.
Proof.
  intros n a b j E L H. destruct (Nat.lt_ge_cases j (length a)) as [A|A]; [|rewrite !vf_out by lia; auto].
  assert (G : forall c : list R, (n <= length c)%nat -> vf c j = vf (skipn n c) (j - n)%nat).
  { intros c Lc. unfold vf. rewrite <- (firstn_skipn n c) at 1. rewrite app_nth2 by (rewrite firstn_length; lia). rewrite firstn_length, Nat.min_l by auto. auto. }
  rewrite !G, E by lia. auto.
Qed.
Lemma firstn_vf : forall n (a : list R) i, (i < n)%nat -> vf (firstn n a) i = vf a i.
Proof.
  intros n a i H. unfold vf. destruct (Nat.lt_ge_cases i (length a)) as [A|A].
  - rewrite <- (firstn_skipn n a) at 2. rewrite app_nth1 by (rewrite firstn_length; lia). auto.
  - rewrite !nth_overflow by (rewrite ?firstn_length; lia). auto.
Qed.
Lemma firstn_app_len : forall n (a b : list R), length a = n -> firstn n (a ++ b) = a.
Proof. intros n a b <-. rewrite firstn_app, Nat.sub_diag, firstn_all. simpl. apply app_nil_r. Qed.
Lemma firstn_len : forall n (a : list R), length a = n -> firstn n a = a.
Proof. intros n a <-. apply firstn_all. Qed.
Lemma skipn_app_len : forall n (a b : list R), length a = n -> skipn n (a ++ b) = b.
Proof. intros n a b <-. rewrite skipn_app, Nat.sub_diag, skipn_all. auto. Qed.

(** ** Headers *)
Lemma even2 : forall z, even (z + 2) = even z.
Proof. intro z. unfold even. rewrite Z.add_mod by lia. change (2 mod 2) with 0. rewrite Z.add_0_r, Z.mod_mod by lia. auto. Qed.
Lemma hdr_busy : forall y x st, hdr y x st -> mbusy x = busy y.
Proof. intros y x st H. unfold mbusy, busy. rewrite (h_st H), even_mod, (h_ev H). auto. Qed.
Lemma hdr_locked : forall y x st, hdr y x st -> mlocked x = locked y.
Proof. intros y x st H. unfold mlocked, locked. rewrite (hdr_busy H), (h_rd H). auto. Qed.
Lemma hdr_empty : forall y x st, hdr y x st -> empty x = Nat.eqb (a_len y) 0.
Proof. intros y x st H. unfold empty. rewrite (h_len H). auto. Qed.
Lemma valid_ok : forall us hp y x gd gs st, hdr y x st -> vbody us hp y x gd gs -> mvalid x = negb (invalid y).
Proof.
  intros us hp y x gd gs st H B. unfold mvalid, invalid. rewrite (h_len H). unfold vbody, body in B. destruct (Nat.eqb (a_len y) 0); auto. simpl.
  destruct (a_cont y) as [|l|n].
  - destruct B as (-> & _). auto.
  - destruct B as (_ & _ & _ & la & -> & _). auto.
  - destruct B as (_ & _ & l & h & _ & _ & _ & _ & _ & _ & la & -> & _). auto.
Qed.

(** ** Changing the values of a vector *)
Definition cval (us : heap) (y : avec) : option (list R) := match a_cont y with CEmpty => None | COwn l => Some l | CShared n => us n end.
Lemma rel_modify : forall s w g s' w' g' v y x y1 x1 l' zz, rel s w g -> s_vecs s v = Some y -> w_mv w v = Some x -> a_len y <> O ->
  a_cont y1 = (match a_cont y with CEmpty => COwn zz | c => c end) -> a_len y1 = a_len y -> m_owned x1 = m_owned x -> m_borrowed x1 = m_borrowed x ->
  (forall n l, a_cont y = CShared n -> s_user s n = Some l -> length l' = length l /\ skipn (a_len y) l' = skipn (a_len y) l) ->
  s_nv s' = s_nv s -> s_nu s' = s_nu s -> w_mnv w' = w_mnv w -> w_mnu w' = w_mnu w ->
  (forall u, s_vecs s' u = if Nat.eqb u v then Some (match a_cont y1 with COwn _ => ct y1 (COwn l') | _ => y1 end) else s_vecs s u) ->
  (forall n, s_user s' n = match a_cont y1 with CShared m => if Nat.eqb n m then Some l' else s_user s n | _ => s_user s n end) ->
  (forall u, w_mv w' u = if Nat.eqb u v then Some x1 else w_mv w u) ->
  (forall n, w_mh w' n = w_mh w n \/ (holds x n /\ exists h h', w_mh w n = Some h /\ w_mh w' n = Some h' /\ length h' = length h /\ skipn (a_len y) h' = skipn (a_len y) h)) ->
  (forall u, u <> v -> g_def g' u = g_def g u /\ g_sync g' u = g_sync g u /\ g_st g' u = g_st g u) ->
  hdr y1 x1 (g_st g' v) -> data (a_len y) (g_def g' v) (busy y1) (a_readers y1) (m_alloc x1) (m_wr x1) (m_ro x1) l' ->
  (g_sync g' v = true -> forall n h', a_cont y = CShared n -> w_mh w' n = Some h' -> busy y1 = false /\ m_alloc x1 = Some (firstn (a_len y) h')) ->
  rel s' w' g'.
Proof.
  intros s w g s' w' g' v y x y1 x1 l' zz H Ey Ex L C1 L1 O1 B1 LEN N1 N2 N3 N4 SV SU WV WH G HD DA SY.
  assert (HO : forall n, holds x1 n <-> holds x n) by (intro n; unfold holds; rewrite O1, B1; tauto).
  destruct (look v H Ey) as (x0 & Ex0 & HD0 & BD0). rewrite Ex in Ex0. inversion Ex0; subst x0; clear Ex0.
  eapply rel_upd with (y := y) (x := x); eauto.
  - intro n. rewrite SU. destruct (WH n) as [->|(F & _)]; [|auto]. destruct (a_cont y1) as [|l1|m] eqn:Q; auto. destruct (Nat.eqb_spec n m) as [->|]; auto.
    right. left. right. destruct (a_cont y) as [|l2|m2] eqn:Q2; inversion C1; subst. eapply bounds; eauto.
  - intros n F. left. apply HO; auto.
  - intros n F1 F2. exfalso. apply F2, HO; auto.
  - destruct (a_cont y1) as [|l1|n1]; auto. destruct HD; constructor; auto.
  - unfold vbody, body in *. replace (a_len (match a_cont y1 with COwn _ => ct y1 (COwn l') | _ => y1 end)) with (a_len y) by (destruct (a_cont y1); auto).
    replace (busy (match a_cont y1 with COwn _ => ct y1 (COwn l') | _ => y1 end)) with (busy y1) by (destruct (a_cont y1); auto).
    replace (a_readers (match a_cont y1 with COwn _ => ct y1 (COwn l') | _ => y1 end)) with (a_readers y1) by (destruct (a_cont y1); auto).
    replace (a_cont (match a_cont y1 with COwn _ => ct y1 (COwn l') | _ => y1 end)) with (match a_cont y1 with COwn _ => COwn l' | c => c end) by (destruct (a_cont y1) eqn:Q; auto).
    destruct (Nat.eqb_spec (a_len y) 0) as [|_]; [contradiction|]. rewrite O1, B1, C1. destruct (a_cont y) as [|l|n] eqn:C; cbv iota.
    + destruct BD0 as (_ & -> & -> & _). split; auto. split; auto. discriminate.
    + destruct BD0 as (-> & F & _). split; auto. split; auto. intros k Ok. destruct (F k Ok) as (F1 & h & F2 & F3). rewrite SU, C1. split; auto.
      destruct (WH k) as [->|(_ & h1 & h2 & W1 & W2 & W3 & _)]; [eauto|]. rewrite W1 in F2. inversion F2; subst. exists h2. split; auto. lia.
    + destruct BD0 as (-> & -> & l & h & F1 & F2 & F3 & F4 & F5 & F6). split; auto. split; auto. destruct (LEN n l eq_refl F1) as (LE1 & LE2).
      destruct (WH n) as [W|(_ & h1 & h2 & W1 & W2 & W3 & W4)].
      * exists l', h. rewrite SU, C1, Nat.eqb_refl, W. split; auto. split; auto. split; [lia|]. split; [congruence|]. split; auto. intro Y. apply (SY Y n h); auto. rewrite W; auto.
      * rewrite F2 in W1. inversion W1; subst h1. exists l', h2. rewrite SU, C1, Nat.eqb_refl, W2. split; auto. split; auto. split; [lia|]. split; [congruence|]. split; auto. intro Y. apply (SY Y n h2); auto.
Qed.
Lemma putc_nv : forall (s : astate) v y l, s_nv (putc s v y l) = s_nv s. Proof. intros. unfold putc. destruct (a_cont y); auto. Qed.
Lemma putc_nu : forall (s : astate) v y l, s_nu (putc s v y l) = s_nu s. Proof. intros. unfold putc. destruct (a_cont y); auto. Qed.
Lemma putc_vecs : forall (s : astate) v y1 l u, s_vecs (putc (sv s v y1) v y1 l) u = if Nat.eqb u v then Some (match a_cont y1 with COwn _ => ct y1 (COwn l) | _ => y1 end) else s_vecs s u.
Proof. intros. unfold putc. destruct (a_cont y1) eqn:C; cbn; unfold nupd; destruct (Nat.eqb u v); auto. Qed.
Lemma putc_user : forall (s : astate) v y1 l n, s_user (putc (sv s v y1) v y1 l) n = match a_cont y1 with CShared m => if Nat.eqb n m then Some l else s_user s n | _ => s_user s n end.
Proof. intros. unfold putc. destruct (a_cont y1) eqn:C; cbn; auto. Qed.

(** a vector nobody uses *)
Lemma idle : forall us hp y x gd gs st, hdr y x st -> vbody us hp y x gd gs -> locked y = false -> a_len y <> O ->
  busy y = false /\ a_readers y = 0 /\ m_wr x = None /\ m_ro x = None /\
  (a_cont y = CEmpty /\ m_alloc x = None \/
   a_cont y <> CEmpty /\ exists l la, cval us y = Some l /\ m_alloc x = Some la /\ length la = a_len y /\ (a_len y <= length l)%nat /\ agree (a_len y) gd la l).
Proof.
  intros us hp y x gd gs st H B L N. unfold locked in L. apply orb_false_iff in L. destruct L as (L1 & L2). apply negb_false_iff, Z.eqb_eq in L2.
  unfold vbody, body in B. destruct (Nat.eqb_spec (a_len y) 0); [contradiction|]. rewrite L1, L2 in B. split; auto. split; auto. unfold cval. destruct (a_cont y) as [|l|k].
  - destruct B as (B1 & _ & _ & B2 & B3 & _). auto.
  - destruct B as (_ & _ & D1 & la & D2 & D3 & D4 & D5 & D6). split; [auto|split; [auto|]]. right. split; [discriminate|]. exists l, la. auto.
  - destruct B as (_ & _ & l & h & B1 & _ & _ & _ & _ & D1 & la & D2 & D3 & D4 & D5 & D6). split; [auto|split; [auto|]]. right. split; [discriminate|]. exists l, la. auto.
Qed.
Lemma conts_cval : forall (s : astate) y, conts s y = cval (s_user s) y. Proof. reflexivity. Qed.
Lemma valid_data : forall us hp y x gd gs, vbody us hp y x gd gs -> a_len y <> O -> a_cont y <> CEmpty ->
  exists l, cval us y = Some l /\ data (a_len y) gd (busy y) (a_readers y) (m_alloc x) (m_wr x) (m_ro x) l.
Proof.
  intros us hp y x gd gs B N C. unfold vbody, body in B. destruct (Nat.eqb_spec (a_len y) 0); [contradiction|]. unfold cval. destruct (a_cont y) as [|l|k].
  - contradiction.
  - exists l. tauto.
  - destruct B as (_ & _ & l & h & B1 & _ & _ & _ & _ & D). eauto.
Qed.
(** writing the private buffer to the arrays behind it *)
Lemma sync_ok : forall us (hp : heap) y x gd gs la, vbody us hp y x gd gs -> a_len y <> O -> m_len x = a_len y -> forall x1, m_owned x1 = m_owned x -> m_borrowed x1 = m_borrowed x -> m_len x1 = m_len x ->
  m_alloc x1 = Some la -> length la = a_len y ->
  exists h', sync_mc x1 hp true = BOk x1 h' /\
    (forall n, h' n = hp n \/ (holds x n /\ exists h h2, hp n = Some h /\ h' n = Some h2 /\ length h2 = length h /\ skipn (a_len y) h2 = skipn (a_len y) h)) /\
    (forall n h2, a_cont y = CShared n -> h' n = Some h2 -> firstn (a_len y) h2 = la).
Proof.
  intros us hp y x gd gs la B N LX x1 O1 B1 L1 AL LA. unfold vbody, body in B. destruct (Nat.eqb_spec (a_len y) 0); [contradiction|].
  unfold sync_mc. simpl negb. cbv iota. rewrite O1, B1, L1, AL, LX. destruct (a_cont y) as [|l|k].
  - destruct B as (_ & -> & -> & _). exists hp. split; auto. split; auto. discriminate.
  - destruct B as (-> & F & _). destruct (m_owned x) as [k|] eqn:O.
    + destruct (F k eq_refl) as (_ & h & F2 & F3). unfold cpy_out. rewrite F2. rewrite (proj2 (Nat.leb_le _ _)), (proj2 (Nat.leb_le _ _)) by lia. simpl.
      eexists. split; [reflexivity|]. split; [|discriminate]. intro m. unfold nupd. destruct (Nat.eqb_spec m k) as [->|]; auto.
      right. split; [left; auto|]. do 2 eexists. split; [eauto|]. split; [reflexivity|]. rewrite firstn_len by auto. split; [rewrite app_length, skipn_length; lia|apply skipn_app_len; auto].
    + exists hp. split; auto. split; auto. discriminate.
  - destruct B as (BB & BO & l & h & F1 & F2 & F3 & F4 & F5 & F6 & _). rewrite BB, BO. unfold cpy_out. rewrite F2. rewrite (proj2 (Nat.leb_le _ _)), (proj2 (Nat.leb_le _ _)) by lia. simpl.
    eexists. split; [reflexivity|]. rewrite firstn_len by auto. split.
    + intro m. unfold nupd. destruct (Nat.eqb_spec m k) as [->|]; auto.
      right. split; [right; auto|]. do 2 eexists. split; [eauto|]. split; [reflexivity|]. split; [rewrite app_length, skipn_length; lia|apply skipn_app_len; auto].
    + intros m h2 E. inversion E; subst m. unfold nupd. rewrite Nat.eqb_refl. intro Q. inversion Q; subst. apply firstn_app_len; auto.
Qed.
End P.
Arguments agree {R}. Arguments data {R}. Arguments body {R}. Arguments vbody {R}. Arguments hdr {R}. Arguments holds {R}. Arguments rel {R}. Arguments cval {R}.
Arguments idle {R us hp y x gd gs st}. Arguments valid_ok {R us hp y x gd gs st}. Arguments valid_data {R us hp y x gd gs}. Arguments sync_ok {R us hp y x gd gs la}.
Arguments held_live {R us hp y x gd gs n}. Arguments bounds {R us hp y x gd gs n}. Arguments shared_len {R us hp y x gd gs n}. Arguments borrowed_shared {R us hp y x gd gs n}.
Arguments owned_none {R us hp y x gd gs n}. Arguments vbody_ext {R us hp us' hp' y x gd gs}.
