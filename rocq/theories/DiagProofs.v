(** * Element diagonals: the loops of DiagModel.v compute the diagonals of the element matrices *)
From Coq Require Import List ZArith Lia Bool Arith.
From Verif Require Import Prelude RstrModel RstrSpec RstrProofs RstrMain RstrProps TensorModel TensorMain BasisModel BasisProps OpModel OpSpec OpLists OpMain AsmModel AsmSpec AsmProofs AsmProps CacheModel DenseModel DenseProofs FullModel FullSpec FullSide FullProofs FullMain DiagModel.
Import ListNotations.

(** ** loops that add to an array *)
Section Adds.
Variable R : Rng.
Add Ring Rr : (r_th R).
Local Open Scope nat_scope.
Variable N : nat.
Definition adds (c : nat -> R) (f : list R -> res (list R)) : Prop :=
  forall st, length st = N -> exists st', f st = Ok st' /\ length st' = N /\ forall i, vf st' i = (vf st i + c i)%R.
Lemma rfold_adds : forall n (f : nat -> list R -> res (list R)) c, (forall i, i < n -> adds (c i) (f i)) -> adds (fun p => sumn n (fun i => c i p)) (rfold (seq 0 n) f).
Proof.
  intros n f c H st Hst.
  destruct (@rfold_inv0 (list R) (fun m st' => length st' = N /\ forall p, vf st' p = (vf st p + sumn m (fun i => c i p))%R) f n st) as (st' & E & L & G).
  - split; auto. intros p. rewrite sumn_0. ring.
  - intros m s Hm (L & G). destruct (H m Hm s L) as (s' & E & L' & G'). exists s'. split; auto. split; auto. intros p. rewrite G', G. replace (m + 1) with (S m) by lia. rewrite sumn_S. ring.
  - exists st'. auto.
Qed.
Lemma adds_ext : forall (c c' : nat -> R) f, (forall p, c p = c' p) -> adds c f -> adds c' f.
Proof. intros c c' f E H st Hst. destruct (H st Hst) as (st' & E1 & L & G). exists st'. split; auto. split; auto. intros i. rewrite G, E. reflexivity. Qed.
Lemma addat_adds : forall i x, i < N -> adds (fun p => delta (p =? i) x) (fun st => ofopt (addat st i x)).
Proof.
  intros i x Hi st Hst. rewrite addat_Some by lia. cbn [ofopt]. eexists. split; [reflexivity|]. split; [rewrite upd_length; auto|]. intros p. rewrite vf_upd by lia.
  destruct (Nat.eqb_spec p i) as [->|]; cbn [delta]; ring.
Qed.
End Adds.

Section Diag.
Variable R : Rng.
Add Ring Rr2 : (r_th R).
Local Open Scope nat_scope.
Variable k : kernel R.
Variables (Jmin : nat) (chk : bool) (D : nat -> udesc) (bs : option nat).

(** ** offsets *)
Section Off.
Variables (o : oper R) (fs : list (ofield R)) (ptr : nat -> nat) (i : nat) (b : basis R).
Hypothesis Hwt : forall j, j < length fs -> is_active (fld fs j) = true -> f_mode (fld fs j) <> EvWeight.
Hypothesis Hos : one_side D (o_Q o) ptr fs i (Some b).
Hypothesis Hb : b_nc b = u_nc (D i).
Notation sl := (slots R fs (Some b)).
Notation nc := (u_nc (D i)).
Definition part (l : list nat) : list (nat * nat) := flat_map (fun j => if is_active (fld fs j) then map (pair j) (seq 0 (qcf R fs (Some b) j)) else []) l.
Lemma offsets_part : forall id, (forall j, j < length fs -> is_active (fld fs j) = true -> ptr j = id) -> forall l off, (forall j, In j l -> j < length fs) ->
  offsets (map (fun j => (ptr j, fld fs j)) l) off = (map (fun s => (id, off + s * nc)) (seq 0 (length (part l))), off + length (part l) * nc).
Proof.
  intros id Hid. induction l as [|j l IH]; intros off Hl; cbn [map offsets]. { cbn. rewrite Nat.add_0_r. reflexivity. }
  assert (Hj : j < length fs) by (apply Hl; left; auto). assert (Hl' : forall j, In j l -> j < length fs) by (intros; apply Hl; right; auto).
  cbn [part flat_map]. fold (part l). destruct (is_active (fld fs j)) eqn:Ea.
  - destruct (os_rstr Hos j Hj Ea) as (_ & Eb). assert (Em : length (field_modes (fld fs j)) = qcf R fs (Some b) j).
    { unfold field_modes, qcf. pose proof (Hwt j Hj Ea). rewrite Eb. destruct (f_mode (fld fs j)); try congruence; apply repeat_length. }
    rewrite Em, Eb. cbn [nc_of]. rewrite Hb. rewrite IH by auto. cbn [fst snd]. rewrite (Hid j Hj Ea). rewrite app_length, map_length, seq_length. f_equal; [|ring].
    rewrite seq_app, map_app. f_equal. cbn [Nat.add].
    assert (Hs : forall m a, seq a m = map (fun d => a + d) (seq 0 m)).
    { induction m as [|m IHm]; intros a; auto. rewrite !seq_S, map_app, <- IHm. reflexivity. }
    rewrite (Hs (length (part l)) (qcf R fs (Some b) j)), map_map. apply map_ext. intros d. f_equal. ring.
  - cbn [app]. apply IH. auto.
Qed.
Lemma offs_ok : forall id ms, groups ptr fs = [mkG id (Some b) (Some i) ms] ->
  group_offsets ptr fs id = map (fun s => s * nc) (seq 0 (length sl)) /\ snd (offsets (named ptr fs) 0) = length sl * nc.
Proof.
  intros id ms Hg.
  assert (Hid : forall j, j < length fs -> is_active (fld fs j) = true -> ptr j = id).
  { intros j Hj Ha. destruct (os_some Hos) as (j0 & Hj0 & Ha0). unfold groups in Hg. rewrite combine_fld in Hg.
    assert (Hadd : forall gs x, In x (map (@g_id R) gs) -> forall l, In x (map (@g_id R) (fold_left (fun gs jf => if is_active (snd jf) then add_group (ptr (fst jf)) (snd jf) gs else gs) (map (fun j => (j, fld fs j)) l) gs))).
    { intros gs x Hx l. revert gs Hx. induction l as [|a l IH]; intros gs Hx; cbn [map fold_left fst snd]; auto. apply IH. destruct (is_active (fld fs a)); auto.
      revert Hx. clear. induction gs as [|g gs IH]; intros Hx; [destruct Hx|]. cbn [add_group]. destruct (Nat.eqb_spec (g_id g) (ptr a)); cbn [map In g_id] in *; destruct Hx; auto. }
    assert (Hadd2 : forall gs l, In j l -> In (ptr j) (map (@g_id R) (fold_left (fun gs jf => if is_active (snd jf) then add_group (ptr (fst jf)) (snd jf) gs else gs) (map (fun j => (j, fld fs j)) l) gs))).
    { intros gs l. revert gs. induction l as [|a l IH]; intros gs Hin; [destruct Hin|]. cbn [map fold_left fst snd]. destruct Hin as [->|Hin]; auto. apply Hadd. rewrite Ha.
      clear. induction gs as [|g gs IH]; cbn [add_group map In g_id]; auto. destruct (Nat.eqb_spec (g_id g) (ptr j)); cbn [map In g_id]; auto. }
    specialize (Hadd2 [] (seq 0 (length fs))). rewrite Hg in Hadd2. cbn in Hadd2. destruct Hadd2 as [E|[]]; auto. apply in_seq. lia. }
  assert (En : named ptr fs = map (fun j => (ptr j, fld fs j)) (seq 0 (length fs))) by reflexivity.
  unfold group_offsets. rewrite En, (offsets_part id Hid) by (intros j Hj; apply in_seq in Hj; lia). cbn [fst snd Nat.add]. fold (slots R fs (Some b)). change (part (seq 0 (length fs))) with sl. split; auto.
  assert (Ef : filter (fun x => fst x =? id) (map (fun s => (id, s * nc)) (seq 0 (length sl))) = map (fun s => (id, s * nc)) (seq 0 (length sl))).
  { generalize (seq 0 (length sl)). induction l as [|a l IH]; simpl; auto. rewrite Nat.eqb_refl, IH. reflexivity. }
  rewrite Ef, map_map. reflexivity.
Qed.
End Off.

(** ** the loops *)
Lemma eqb_pair : forall P a n a0 n0, n < P -> n0 < P -> (a * P + n =? a0 * P + n0) = (a =? a0) && (n =? n0).
Proof.
  intros P a n a0 n0 H H0. destruct (Nat.eqb_spec a a0) as [->|Ha]; cbn [andb].
  - destruct (Nat.eqb_spec n n0) as [->|Hn]; [apply Nat.eqb_refl|]. apply Nat.eqb_neq. lia.
  - apply Nat.eqb_neq. intros E. apply Ha. assert (a < a0 \/ a0 < a) as [Hlt|Hlt] by lia; nia.
Qed.
Lemma delta_andb : forall (a b : bool) (x : R), delta (a && b) x = delta a (delta b x).
Proof. intros [] [] x; reflexivity. Qed.
Lemma sumn_pick : forall n m (f : nat -> R), m < n -> sumn n (fun i => delta (m =? i) (f i)) = f m.
Proof.
  intros n m f H. rewrite sumn_ext with (g := fun i => delta (i =? m) (f i)) by (intros; rewrite Nat.eqb_sym; reflexivity). rewrite sumn_delta. apply Nat.ltb_lt in H. rewrite H. reflexivity.
Qed.
Lemma sumn_dl : forall n (b : bool) (f : nat -> R), sumn n (fun i => delta b (f i)) = delta b (sumn n f).
Proof. intros n b f. destruct b; cbn [delta]; auto. apply sumn_zero. auto. Qed.

Section One.
Variables (o : oper R) (pi po : nat -> nat) (r : nat) (b : basis R).
Hypothesis H : full_wf R k Jmin chk D bs o pi po r r (Some b) (Some b).
Hypothesis Hnc : b_nc b = u_nc (D r).
Hypothesis Hnn : b_nodes b = u_es (D r).
Notation es := (u_es (D r)).
Notation nc := (u_nc (D r)).
Notation ne := (u_ne (D r)).
Notation sI := (slots R (o_in o) (Some b)).
Notation sO := (slots R (o_out o) (Some b)).
Notation valI := (bval R D o (o_in o) r (Some b)).
Notation valO := (bval R D o (o_out o) r (Some b)).
Variables (idi ido : nat) (A : list R) (vm : vmem R).
Hypothesis HA : is_assembled D o vm A.
Notation gi := (mkG idi (Some b) (Some r) (map (smode R (o_in o)) sI)).
Notation go := (mkG ido (Some b) (Some r) (map (smode R (o_out o)) sO)).
Notation offI := (map (fun s => s * nc) (seq 0 (length sI))).
Notation offO := (map (fun s => s * nc) (seq 0 (length sO))).
Notation l1 := (o_Q o).
Notation l2 := (o_Q o * (length sI * nc * (length sO * nc))).
Notation Afe := (Af R o A).
Definition term (e eo ei q co ci n : nat) : R := (valO (nth eo sO (0, 0)%nat) q n * Afe e (ei * nc + ci)%nat (eo * nc + co)%nat q * valI (nth ei sI (0, 0)%nat) q n)%R.

Lemma A_at : forall e ei ci eo co q, e < ne -> ei < length sI -> ci < nc -> eo < length sO -> co < nc -> q < o_Q o ->
  og A (q + ((ei * nc + ci) * (length sO * nc) + eo * nc + co) * l1 + e * l2) = Ok (Afe e (ei * nc + ci) (eo * nc + co) q).
Proof.
  intros e ei ci eo co q He Hei Hci Heo Hco Hq. pose proof (lenI R k Jmin chk D bs _ _ _ _ _ _ _ H) as LI. pose proof (lenO R k Jmin chk D bs _ _ _ _ _ _ _ H) as LO.
  pose proof (neI R k Jmin chk D bs _ _ _ _ _ _ _ H) as NI. destruct HA as (LA & _). cbv zeta in LA. rewrite LI, LO in LA.
  replace (q + ((ei * nc + ci) * (length sO * nc) + eo * nc + co) * l1 + e * l2) with
    (((e * (length sI * nc) + (ei * nc + ci)) * (length sO * nc) + (eo * nc + co)) * o_Q o + q) by ring.
  rewrite (og_nth A (0%R : R)); [unfold Af; rewrite LI, LO; reflexivity|]. rewrite LA.
  assert (ei * nc + ci < length sI * nc) by nia. assert (eo * nc + co < length sO * nc) by nia.
  assert (e * (length sI * nc) + (ei * nc + ci) < o_ne o * (length sI * nc)) by nia.
  assert ((e * (length sI * nc) + (ei * nc + ci)) * (length sO * nc) + (eo * nc + co) < o_ne o * (length sI * nc) * (length sO * nc)) by nia. nia.
Qed.
Lemma og_map : forall X Y (f : X -> Y) l i d, i < length l -> og (map f l) i = Ok (f (nth i l d)).
Proof. intros X Y f l i d Hi. rewrite (og_nth (map f l) (f d)) by (rewrite map_length; auto). rewrite map_nth. reflexivity. Qed.

Lemma point_adds : forall N e eo ei q co ci blk, e < ne -> ei < length sI -> ci < nc -> eo < length sO -> co < nc -> q < o_Q o -> (blk + 1) * es <= N ->
  adds R N (fun p => sumn es (fun n => delta (p =? blk * es + n) (term e eo ei q co ci n))) (point gi go offI offO (length sO * nc) A l1 l2 e eo ei q co ci blk).
Proof.
  intros N e eo ei q co ci blk He Hei Hci Heo Hco Hq HN. unfold point. cbn [g_basis g_modes nodes_of qpts_of].
  pose proof (os_qpts (fw_in _ _ _ _ _ _ _ _ _ _ _ _ _ H)) as EQ. cbn in EQ. rewrite EQ, Hnn.
  rewrite (og_map _ _ (fun s => s * nc) (seq 0 (length sI)) ei 0) by (rewrite seq_length; auto).
  rewrite (og_map _ _ (fun s => s * nc) (seq 0 (length sO)) eo 0) by (rewrite seq_length; auto). rewrite !seq_nth by auto. cbn [rbind Nat.add].
  rewrite A_at by auto. cbn [rbind].
  rewrite (shifts_ok R Jmin chk D bs o (o_in o) pi r (Some b) (Hfi R k Jmin chk D bs _ _ _ _ _ _ _ H) (Hwi R k Jmin chk D bs _ _ _ _ _ _ _ H) (fw_in _ _ _ _ _ _ _ _ _ _ _ _ _ H)
    (proj2 (posI R k Jmin chk D bs _ _ _ _ _ _ _ H))).
  rewrite (shifts_ok R Jmin chk D bs o (o_out o) po r (Some b) (Hfo R k Jmin chk D bs _ _ _ _ _ _ _ H) (Hwo R k Jmin chk D bs _ _ _ _ _ _ _ H) (fw_out _ _ _ _ _ _ _ _ _ _ _ _ _ H)
    (proj2 (posO R k Jmin chk D bs _ _ _ _ _ _ _ H))).
  rewrite !(og_map _ _ _ _ _ (0, 0)) by auto. cbn [rbind].
  apply (rfold_adds R N es _ (fun n p => delta (p =? blk * es + n) (term e eo ei q co ci n))). intros n Hn st Hst.
  rewrite (entry_ok R Jmin chk D bs o (o_out o) po r (Some b) (Hfo R k Jmin chk D bs _ _ _ _ _ _ _ H) (Hwo R k Jmin chk D bs _ _ _ _ _ _ _ H) (fw_out _ _ _ _ _ _ _ _ _ _ _ _ _ H)
    (proj2 (posO R k Jmin chk D bs _ _ _ _ _ _ _ H))) by (auto; apply nth_In; auto).
  rewrite (entry_ok R Jmin chk D bs o (o_in o) pi r (Some b) (Hfi R k Jmin chk D bs _ _ _ _ _ _ _ H) (Hwi R k Jmin chk D bs _ _ _ _ _ _ _ H) (fw_in _ _ _ _ _ _ _ _ _ _ _ _ _ H)
    (proj2 (posI R k Jmin chk D bs _ _ _ _ _ _ _ H))) by (auto; apply nth_In; auto).
  cbn [rbind]. apply (addat_adds R N (blk * es + n)); auto. nia.
Qed.

Notation rawd := (raw R D r r (o_Q o) (length sI) (length sO) (fun s => valI (nth s sI (0, 0))) (fun s => valO (nth s sO (0, 0))) Afe).
Lemma raw_terms : forall e ci co n, sumn (length sO) (fun eo => sumn (length sI) (fun ei => sumn (o_Q o) (fun q => term e eo ei q co ci n))) = rawd e ci co n n.
Proof.
  intros e ci co n. unfold raw.
  transitivity (sumn (o_Q o) (fun q => sumn (length sI) (fun ei => sumn (length sO) (fun eo => term e eo ei q co ci n)))).
  - rewrite sumn_swap. rewrite sumn_ext with (g := fun ei => sumn (o_Q o) (fun q => sumn (length sO) (fun eo => term e eo ei q co ci n))) by (intros; apply sumn_swap). apply sumn_swap.
  - apply sumn_ext. intros q _. apply sumn_ext. intros ei _. rewrite <- sumn_mul_r. apply sumn_ext. intros eo _. unfold term. ring.
Qed.

(** the diagonal *)
Lemma diag_ok : exists ed, elem_diag gi go offI offO (length sO * nc) A l1 l2 false ne (repeat 0%R (ne * (nc * es))) = Ok ed /\ length ed = ne * (nc * es) /\
  forall e c n, e < ne -> c < nc -> n < es -> vf ed ((e * nc + c) * es + n) = rawd e c c n n.
Proof.
  pose proof (os_qpts (fw_in _ _ _ _ _ _ _ _ _ _ _ _ _ H)) as EQ. cbn in EQ.
  assert (HH : adds R (ne * (nc * es)) (fun p => sumn ne (fun e => sumn (length sO) (fun eo => sumn (length sI) (fun ei => sumn nc (fun co => sumn (o_Q o) (fun q =>
    sumn es (fun n => delta (p =? (e * nc + co) * es + n) (term e eo ei q co co n)))))))) (elem_diag gi go offI offO (length sO * nc) A l1 l2 false ne)).
  { unfold elem_diag. cbn [g_basis g_modes nodes_of qpts_of nc_of]. rewrite EQ, Hnc, !map_length.
    apply (rfold_adds R _ ne _ (fun e p => sumn (length sO) (fun eo => sumn (length sI) (fun ei => sumn nc (fun co => sumn (o_Q o) (fun q =>
      sumn es (fun n => delta (p =? (e * nc + co) * es + n) (term e eo ei q co co n)))))))). intros e He.
    apply (rfold_adds R _ (length sO) _ (fun eo p => sumn (length sI) (fun ei => sumn nc (fun co => sumn (o_Q o) (fun q =>
      sumn es (fun n => delta (p =? (e * nc + co) * es + n) (term e eo ei q co co n))))))). intros eo Heo.
    apply (rfold_adds R _ (length sI) _ (fun ei p => sumn nc (fun co => sumn (o_Q o) (fun q =>
      sumn es (fun n => delta (p =? (e * nc + co) * es + n) (term e eo ei q co co n)))))). intros ei Hei.
    apply (rfold_adds R _ nc _ (fun co p => sumn (o_Q o) (fun q => sumn es (fun n => delta (p =? (e * nc + co) * es + n) (term e eo ei q co co n))))). intros co Hco.
    apply (rfold_adds R _ (o_Q o) _ (fun q p => sumn es (fun n => delta (p =? (e * nc + co) * es + n) (term e eo ei q co co n)))). intros q Hq.
    apply point_adds; auto. assert (e * nc + co + 1 <= ne * nc) by nia. nia. }
  destruct (HH (repeat 0%R (ne * (nc * es))) ltac:(apply repeat_length)) as (ed & E & L & G). exists ed. split; auto. split; auto. intros e c n He Hc Hn. rewrite G.
  assert (E0 : vf (repeat (0%R : R) (ne * (nc * es))) ((e * nc + c) * es + n) = 0%R) by apply nth_repeat. rewrite E0.
  transitivity (sumn ne (fun e' => delta (e =? e') (sumn (length sO) (fun eo => sumn (length sI) (fun ei => sumn nc (fun co => delta (c =? co) (sumn (o_Q o) (fun q => term e' eo ei q co co n)))))))).
  - transitivity (sumn ne (fun e' => sumn (length sO) (fun eo => sumn (length sI) (fun ei => sumn nc (fun co => sumn (o_Q o) (fun q =>
      sumn es (fun n' => delta ((e * nc + c) * es + n =? (e' * nc + co) * es + n') (term e' eo ei q co co n')))))))); [ring|].
    apply sumn_ext. intros e' He'. rewrite <- sumn_dl. apply sumn_ext. intros eo _. rewrite <- sumn_dl. apply sumn_ext. intros ei _. rewrite <- sumn_dl. apply sumn_ext. intros co Hco.
    rewrite <- !sumn_dl. apply sumn_ext. intros q _.
    rewrite sumn_ext with (g := fun n' => delta (e =? e') (delta (c =? co) (delta (n =? n') (term e' eo ei q co co n')))).
    + rewrite !sumn_dl. rewrite (sumn_pick es n (fun n' => term e' eo ei q co co n')) by auto. reflexivity.
    + intros n' Hn'. rewrite eqb_pair by auto. rewrite eqb_pair by auto. rewrite !delta_andb. reflexivity.
  - rewrite (sumn_pick ne e) by auto. rewrite <- raw_terms. apply sumn_ext. intros eo _. apply sumn_ext. intros ei _. rewrite (sumn_pick nc c) by auto. reflexivity.
Qed.
(** the point blocks *)
Lemma block_ok : exists ed, elem_diag gi go offI offO (length sO * nc) A l1 l2 true ne (repeat 0%R (ne * (nc * nc * es))) = Ok ed /\ length ed = ne * (nc * nc * es) /\
  forall e co ci n, e < ne -> co < nc -> ci < nc -> n < es -> vf ed (((e * nc + co) * nc + ci) * es + n) = rawd e ci co n n.
Proof.
  pose proof (os_qpts (fw_in _ _ _ _ _ _ _ _ _ _ _ _ _ H)) as EQ. cbn in EQ.
  pose (T := fun p e eo ei co q ci n => delta (p =? ((e * nc + co) * nc + ci) * es + n) (term e eo ei q co ci n)).
  assert (HH : adds R (ne * (nc * nc * es)) (fun p => sumn ne (fun e => sumn (length sO) (fun eo => sumn (length sI) (fun ei => sumn nc (fun co => sumn (o_Q o) (fun q =>
    sumn nc (fun ci => sumn es (fun n => T p e eo ei co q ci n)))))))) (elem_diag gi go offI offO (length sO * nc) A l1 l2 true ne)).
  { unfold elem_diag. cbn [g_basis g_modes nodes_of qpts_of nc_of]. rewrite EQ, Hnc, !map_length.
    apply (rfold_adds R _ ne _ (fun e p => sumn (length sO) (fun eo => sumn (length sI) (fun ei => sumn nc (fun co => sumn (o_Q o) (fun q => sumn nc (fun ci => sumn es (fun n => T p e eo ei co q ci n)))))))).
    intros e He.
    apply (rfold_adds R _ (length sO) _ (fun eo p => sumn (length sI) (fun ei => sumn nc (fun co => sumn (o_Q o) (fun q => sumn nc (fun ci => sumn es (fun n => T p e eo ei co q ci n))))))). intros eo Heo.
    apply (rfold_adds R _ (length sI) _ (fun ei p => sumn nc (fun co => sumn (o_Q o) (fun q => sumn nc (fun ci => sumn es (fun n => T p e eo ei co q ci n)))))). intros ei Hei.
    apply (rfold_adds R _ nc _ (fun co p => sumn (o_Q o) (fun q => sumn nc (fun ci => sumn es (fun n => T p e eo ei co q ci n))))). intros co Hco.
    apply (rfold_adds R _ (o_Q o) _ (fun q p => sumn nc (fun ci => sumn es (fun n => T p e eo ei co q ci n)))). intros q Hq.
    apply (rfold_adds R _ nc _ (fun ci p => sumn es (fun n => T p e eo ei co q ci n))). intros ci Hci.
    apply point_adds; auto. assert (e * nc + co + 1 <= ne * nc) by nia. assert ((e * nc + co) * nc + ci + 1 <= ne * nc * nc) by nia. nia. }
  destruct (HH (repeat 0%R (ne * (nc * nc * es))) ltac:(apply repeat_length)) as (ed & E & L & G). exists ed. split; auto. split; auto. intros e c d n He Hc Hd Hn. rewrite G.
  set (p0 := ((e * nc + c) * nc + d) * es + n).
  assert (E0 : vf (repeat (0%R : R) (ne * (nc * nc * es))) p0 = 0%R) by apply nth_repeat. rewrite E0.
  transitivity (sumn ne (fun e' => delta (e =? e') (sumn (length sO) (fun eo => sumn (length sI) (fun ei => sumn nc (fun co => delta (c =? co) (sumn (o_Q o) (fun q => sumn nc (fun ci => delta (d =? ci) (term e' eo ei q co ci n)))))))))).  
  - transitivity (sumn ne (fun e' => sumn (length sO) (fun eo => sumn (length sI) (fun ei => sumn nc (fun co => sumn (o_Q o) (fun q => sumn nc (fun ci => sumn es (fun n => T p0 e' eo ei co q ci n)))))))); [ring|].
    apply sumn_ext. intros e' He'. rewrite <- sumn_dl. apply sumn_ext. intros eo _. rewrite <- sumn_dl. apply sumn_ext. intros ei _. rewrite <- sumn_dl. apply sumn_ext. intros co Hco.
    rewrite <- !sumn_dl. apply sumn_ext. intros q _. rewrite <- !sumn_dl. apply sumn_ext. intros ci Hci.
    rewrite sumn_ext with (g := fun n' => delta (e =? e') (delta (c =? co) (delta (d =? ci) (delta (n =? n') (term e' eo ei q co ci n'))))).
    + rewrite !sumn_dl. rewrite (sumn_pick es n (fun n' => term e' eo ei q co ci n')) by auto. reflexivity.
    + intros n' Hn'. unfold T, p0. rewrite eqb_pair by auto. rewrite eqb_pair by auto. rewrite eqb_pair by auto. rewrite !delta_andb. reflexivity.
  - rewrite (sumn_pick ne e) by auto. rewrite <- raw_terms. apply sumn_ext. intros eo _. apply sumn_ext. intros ei _. rewrite (sumn_pick nc c) by auto. apply sumn_ext. intros q _. rewrite (sumn_pick nc d) by auto. reflexivity.
Qed.
End One.
End Diag.
