(** * CeedSymmetricSchurDecomposition: the iteration and the result *)
From Coq Require Import List ZArith Lia Bool Arith Reals Lra Psatz.
From Verif Require Import Prelude RstrModel OpModel OpLists DenseModel DenseProofs QrModel RealLin QrProofs QrFact SchurModel SchurTri SchurRot.
Import ListNotations.
Local Open Scope nat_scope.
Local Open Scope R_scope.

Lemma off_mono : forall n S S' T, (forall r c, (r < n)%nat -> (c < n)%nat -> S r c = true -> S' r c = true) -> Off n S' T <= Off n S T.
Proof.
  intros n S S' T H. apply Sum_le. intros r Hr. apply Sum_le. intros c Hc. unfold mask. specialize (H r c Hr Hc). destruct (S r c); [rewrite H by auto; lra|]. destruct (S' r c); nra.
Qed.
Lemma off_ext : forall n S T T', eqm n n T T' -> Off n S T = Off n S T'.
Proof. intros n S T T' H. apply F2_ext. intros r c Hr Hc. unfold mask. destruct (S r c); auto. Qed.
Lemma cj_gm_id : forall n k T i j, (k + 1 < n)%nat -> (i < n)%nat -> (j < n)%nat -> cj n (gm k 1 0) T i j = T i j.
Proof. intros n k T i j Hk Hi Hj. rewrite cj_gm by auto. unfold rowr, colr. deq; subst; try lia; ring. Qed.

Section Iter.
Variable tol : real.
Hypothesis Htol : 0 < tol.

(** ** one rotation *)
Lemma rot_ok : forall x z, exists c s, rot tol x z = Ok (c, s) /\ c * c + s * s = 1 /\ ((s * x + c * z = 0) \/ (c = 1 /\ s = 0 /\ Rabs z <= tol)).
Proof.
  intros x z. unfold rot. destruct (Rlt_dec tol (Rabs z)) as [Hz|Hz]; [|exists 1, 0; split; [auto|]; split; [ring|]; right; lra].
  assert (Hz0 : z <> 0) by (intros ->; rewrite Rabs_R0 in Hz; lra).
  assert (HN : forall t, exists h, rdiv 1 (sqrt (1 + t * t)) = Ok h /\ h * h * (1 + t * t) = 1).
  { intros t. assert (Hp : 0 < 1 + t * t) by nra. pose proof (sqrt_lt_R0 _ Hp) as Hq. pose proof (sqrt_sqrt (1 + t * t) ltac:(lra)) as Hqq. unfold rdiv. destruct (Req_EM_T (sqrt (1 + t * t)) 0); [lra|].
    eexists. split; [reflexivity|]. rewrite <- Hqq at 3. field. lra. }
  destruct (Rlt_dec (Rabs x) (Rabs z)) as [Hx|Hx].
  - unfold rdiv at 1. destruct (Req_EM_T z 0); [contradiction|]. cbn [rbind]. destruct (HN (- x / z)) as (h & -> & Hh). cbn [rbind]. exists (h * (- x / z)), h. split; auto. split; [rewrite <- Hh; ring|]. left. field. auto.
  - assert (Hx0 : x <> 0) by (intros ->; rewrite Rabs_R0 in Hx; lra). unfold rdiv at 1. destruct (Req_EM_T x 0); [contradiction|]. cbn [rbind]. destruct (HN (- z / x)) as (h & -> & Hh). cbn [rbind]. exists h, (h * (- z / x)). split; auto. split; [rewrite <- Hh; ring|]. left. field. auto.
Qed.

Variables (A : mtx) (n len : nat).
Hypothesis Hn : (2 <= n)%nat.
Hypothesis Hlen : (n * n <= len)%nat.
Hypothesis HA : symm n A.
(** the state is similar to [A] *)
Definition sim (T Q : list real) : Prop :=
  length T = (n * n)%nat /\ length Q = len /\ orth n (at2 Q n) /\ eqm n n (cj n (at2 Q n) A) (at2 T n) /\ symm n (at2 T n).
Definition RInv (p m : nat) (b : real) (k : nat) (st : list real * list real * real * real) : Prop :=
  let '(T, Q, x, z) := st in sim T Q /\ Off n (band p m k) (at2 T n) <= b /\ ((p < k)%nat -> (k < m)%nat -> x = at2 T n k (k - 1)%nat /\ z = at2 T n (k + 1)%nat (k - 1)%nat).
Lemma rot_step_ok : forall p q m b k st, (m = n - q - 1)%nat -> (p <= k)%nat -> (k < m)%nat -> RInv p m b k st -> exists st', rot_step tol n q k st = Ok st' /\ RInv p m (b + 2 * (tol * tol)) (k + 1) st'.
Proof.
  intros p q m b k (((T & Q) & x) & z) Hm Hp Hk ((HL & HLq & HO & HC & Hs) & Hoff & Hxz). unfold rot_step.
  destruct (rot_ok x z) as (c & s & Er & Hcs & Hz). rewrite Er. cbn [rbind].
  destruct (givens_col T c s k n) as (T1 & E1 & L1 & G1); [lia|lia|]. rewrite E1. cbn [rbind].
  destruct (givens_row T1 c s k n) as (T2 & E2 & L2 & G2); [lia|lia|]. rewrite E2. cbn [rbind].
  destruct (givens_col Q c s k n) as (Q1 & E3 & L3 & G3); [lia|lia|]. rewrite E3. cbn [rbind].
  set (G := gm k c s). assert (HG : orth n G) by (apply gm_orth; auto; lia).
  assert (HT2 : eqm n n (at2 T2 n) (cj n G (at2 T n))).
  { intros r col Hr Hc. rewrite G2 by auto. unfold G. rewrite cj_gm by (auto; lia). unfold rowr. rewrite !G1 by (auto; lia). reflexivity. }
  assert (HQ1 : eqm n n (at2 Q1 n) (mm n (at2 Q n) G)). { intros r col Hr Hc. rewrite G3 by auto. unfold G. rewrite mm_gm by (auto; lia). reflexivity. }
  assert (HS : sim T2 Q1).
  { split; [congruence|]. split; [congruence|]. split; [|split].
    - pose proof (orth_mm n _ _ HO HG) as (O1 & O2). split; intros r col Hr Hc; [rewrite <- (O1 r col Hr Hc)|rewrite <- (O2 r col Hr Hc)]; apply mm_ext; intros; unfold tr; apply HQ1; auto.
    - intros r col Hr Hc. rewrite HT2 by auto. rewrite (cj_ext n _ (mm n (at2 Q n) G) A A) by auto. rewrite cj_mm. apply cj_ext; auto.
    - intros r col Hr Hc. rewrite !HT2 by auto. apply cj_symm; auto. }
  assert (Hoff2 : Off n (band p m (k + 1)) (at2 T2 n) <= b + 2 * (tol * tol)).
  { rewrite (off_ext n _ _ _ HT2). destruct Hz as [Hz|(-> & -> & Hz)].
    - assert (Off n (band p m (k + 1)) (cj n G (at2 T n)) <= Off n (band p m k) (at2 T n)); [|nra]. apply off_step; auto; [lia|]. intros Hpk. destruct (Hxz Hpk Hk) as (<- & <-). auto.
    - rewrite (off_ext n _ (cj n G (at2 T n)) (at2 T n)). 2: { intros r col Hr Hc. apply cj_gm_id; auto; lia. }
      pose proof (off_skip n p m k (at2 T n) tol Hp Hk ltac:(lia) Hs) as H. enough ((p < k)%nat -> Rabs (at2 T n (k + 1)%nat (k - 1)%nat) <= tol) by (specialize (H ltac:(auto)); lra).
      intros Hpk. destruct (Hxz Hpk Hk) as (_ & <-). auto. }
  assert (HL2 : length T2 = (n * n)%nat) by congruence.
  destruct (Nat.ltb_spec (k + 2) (n - q)) as [Hlt|Hge].
  - replace (k + n * (k + 1))%nat with ((k + 1) * n + k)%nat by lia. replace (k + n * (k + 2))%nat with ((k + 2) * n + k)%nat by lia. rewrite og_ent by nia. cbn [rbind]. rewrite og_ent by nia. cbn [rbind].
    eexists. split; [reflexivity|]. split; auto. split; auto. intros _ _. replace (k + 1 - 1)%nat with k by lia. replace (k + 1 + 1)%nat with (k + 2)%nat by lia. auto.
  - eexists. split; [reflexivity|]. split; auto. split; auto. intros; lia.
Qed.

(** ** the search for small entries *)
Lemma small_ok : forall T l, length T = (n * n)%nat -> (forall i, In i l -> (i + 1 < n)%nat) ->
  exists c, small tol T n l = Ok c /\ (c <= length l)%nat /\ (forall j, (j < c)%nat -> Rabs (at2 T n (nth j l 0%nat + 1)%nat (nth j l 0%nat)) < tol) /\
  ((c < length l)%nat -> tol <= Rabs (at2 T n (nth c l 0%nat + 1)%nat (nth c l 0%nat))).
Proof.
  induction l as [|i l IH]; intros HL Hl; cbn [small].
  - exists 0%nat. split; auto. split; auto. split; [intros; lia|]. cbn. intros; lia.
  - pose proof (Hl i (or_introl eq_refl)). replace (i + n * (i + 1))%nat with ((i + 1) * n + i)%nat by lia. rewrite og_ent by nia. cbn [rbind]. fold (at2 T n (i + 1)%nat i).
    destruct (Rlt_dec (Rabs (at2 T n (i + 1)%nat i)) tol) as [Hs|Hs].
    + destruct IH as (c & -> & H1 & H2 & H3); auto. { intros; apply Hl; right; auto. } cbn [rbind]. exists (S c). split; auto. split; [cbn; lia|]. split.
      * intros [|j] Hj; cbn [nth]; auto. apply H2. lia.
      * intros Hc. cbn [nth]. apply H3. cbn in Hc. lia.
    + exists 0%nat. split; auto. split; [lia|]. split; [intros; lia|]. intros _. cbn [nth]. lra.
Qed.
Lemma copysign_add : forall d q, 0 < q -> d + copysign q d <> 0.
Proof. intros d q Hq. unfold copysign. rewrite (Rabs_pos_eq q) by lra. destruct (Rlt_dec d 0); lra. Qed.

(** ** one sweep *)
Lemma sweep_ok : forall p q T Q b, (q < n - 1)%nat -> (p <= n - q - 1)%nat -> sim T Q -> tol <= Rabs (at2 T n (n - 1 - q)%nat (n - 2 - q)%nat) -> (p < n - q - 1)%nat ->
  Off n (band p (n - q - 1) p) (at2 T n) <= b ->
  exists T' Q', sweep tol n p q T Q = Ok (T', Q') /\ sim T' Q' /\ Off n (band 0 (n - 1) 0) (at2 T' n) <= b + 2 * INR (n - 1) * (tol * tol).
Proof.
  intros p q T Q b Hq Hp HS Ht1 Hpm Hoff. pose proof HS as (HL & _). unfold sweep.
  assert (HP : forall r c, (r < n)%nat -> (c < n)%nat -> og T (c + n * r) = Ok (at2 T n r c)). { intros r c Hr Hc. replace (c + n * r)%nat with (r * n + c)%nat by lia. apply og_ent. rewrite HL. nia. }
  rewrite !HP by lia. cbn [rbind]. set (t1 := at2 T n (n - 1 - q)%nat (n - 2 - q)%nat) in *. set (d := _ / 2).
  assert (Ht0 : 0 < t1 * t1). { assert (t1 <> 0) by (intros E; rewrite E, Rabs_R0 in Ht1; lra). nra. }
  assert (Hden : d + copysign (sqrt (d * d + t1 * t1)) d <> 0) by (apply copysign_add; apply sqrt_lt_R0; nra).
  unfold rdiv. destruct (Req_EM_T (d + copysign (sqrt (d * d + t1 * t1)) d) 0); [contradiction|]. cbn [rbind]. rewrite ?HP by lia. cbn [rbind].
  match goal with |- context [rfold _ _ ?s00] => destruct (@rfold_inv _ (fun k st => RInv p (n - q - 1) (b + 2 * INR (k - p) * (tol * tol)) k st) (rot_step tol n q) (n - q - 1 - p) p s00) as ((((T' & Q') & x) & z) & E & H1 & H2 & _) end.
  - split; auto. rewrite Nat.sub_diag. cbn [INR]. split; [lra|]. intros; lia.
  - intros k st Hk HR. destruct (rot_step_ok p q (n - q - 1) (b + 2 * INR (k - p) * (tol * tol)) k st) as (st' & E & HR'); auto; try lia. exists st'. split; auto.
    replace (k + 1 - p)%nat with (S (k - p)) by lia. rewrite S_INR. replace (b + 2 * (INR (k - p) + 1) * (tol * tol)) with (b + 2 * INR (k - p) * (tol * tol) + 2 * (tol * tol)) by ring. auto.
  - rewrite E. cbn [rbind fst snd]. exists T', Q'. split; auto. split; auto. eapply Rle_trans; [apply (off_mono n (band p (n - q - 1) (p + (n - q - 1 - p))))|].
    + intros r c Hr Hc Hb. destruct (band_spec p (n - q - 1) (p + (n - q - 1 - p)) r c) as [Hx|]; [|discriminate]. destruct (band_spec 0 (n - 1) 0 r c) as [|Hy]; auto. exfalso. apply Hy. unfold bandP in *. lia.
    + eapply Rle_trans; [apply H2|]. apply Rplus_le_compat_l. apply Rmult_le_compat_r; [nra|]. apply Rmult_le_compat_l; [lra|]. apply le_INR. lia.
Qed.

(** ** the iteration *)
Lemma nth_rev_seq : forall m j, (j < m)%nat -> nth j (rev (seq 0 m)) 0%nat = (m - 1 - j)%nat.
Proof. intros m j Hj. rewrite rev_nth by (rewrite seq_length; auto). rewrite seq_length, seq_nth by lia. lia. Qed.
Lemma iter_ok : forall fuel T Q b, sim T Q -> Off n (band 0 (n - 1) 0) (at2 T n) <= b ->
  exists T' Q' ok, iter tol n fuel T Q = Ok (T', Q', ok) /\ sim T' Q' /\
  (ok = true -> Off n (band 0 0 0) (at2 T' n) <= b + INR fuel * (4 * INR (n - 1) * (tol * tol)) /\ forall j, (j + 1 < n)%nat -> Rabs (at2 T' n (j + 1)%nat j) < tol).
Proof.
  induction fuel as [|fuel IH]; intros T Q b HS Hoff; cbn [iter].
  - exists T, Q, false. split; auto. split; auto. discriminate.
  - pose proof HS as (HL & _ & _ & _ & Hs).
    destruct (small_ok T (rev (seq 0 (n - 1))) HL) as (q & Eq & Q1 & Q2 & Q3). { intros i Hi. apply in_rev in Hi. apply in_seq in Hi. lia. }
    rewrite Eq. cbn [rbind]. rewrite rev_length, seq_length in Q1, Q3.
    destruct (small_ok T (seq 0 (n - q - 1)) HL) as (p & Ep & P1 & P2 & P3). { intros i Hi. apply in_seq in Hi. lia. }
    rewrite Ep. cbn [rbind]. rewrite seq_length in P1, P3.
    assert (Hq : forall j, (n - q - 1 <= j)%nat -> (j + 1 < n)%nat -> Rabs (at2 T n (j + 1)%nat j) < tol).
    { intros j Hj1 Hj2. specialize (Q2 (n - 2 - j)%nat ltac:(lia)). rewrite nth_rev_seq in Q2 by lia. replace (n - 1 - 1 - (n - 2 - j))%nat with j in Q2 by lia. auto. }
    assert (Hp : forall j, (j < p)%nat -> Rabs (at2 T n (j + 1)%nat j) < tol). { intros j Hj. specialize (P2 j Hj). rewrite seq_nth in P2 by lia. auto. }
    assert (Hc : 0 <= INR (n - 1) * (tol * tol)) by (apply Rmult_le_pos; [apply pos_INR|nra]).
    assert (Hf : 0 <= INR fuel * (4 * INR (n - 1) * (tol * tol))) by (apply Rmult_le_pos; [apply pos_INR|nra]).
    destruct (Nat.eqb_spec q (n - 1)) as [->|Hne].
    + exists T, Q, true. split; auto. split; auto. intros _. split.
      * pose proof (off_drop n 0 0 0 (n - 1) 0 (at2 T n) tol Hn Hs) as H. rewrite S_INR. specialize (H ltac:(intros; left; apply Hq; lia) ltac:(lia)). nra.
      * intros j Hj. apply Hq; lia.
    + assert (Ht1 : tol <= Rabs (at2 T n (n - 1 - q)%nat (n - 2 - q)%nat)). { specialize (Q3 ltac:(lia)). rewrite nth_rev_seq in Q3 by lia. replace (n - 1 - 1 - q + 1)%nat with (n - 1 - q)%nat in Q3 by lia. replace (n - 1 - 1 - q)%nat with (n - 2 - q)%nat in Q3 by lia. auto. }
      assert (Hpm : (p < n - q - 1)%nat). { destruct (Nat.lt_ge_cases p (n - q - 1)); auto. exfalso. specialize (Hp (n - 2 - q)%nat ltac:(lia)). replace (n - 2 - q + 1)%nat with (n - 1 - q)%nat in Hp by lia. lra. }
      destruct (sweep_ok p q T Q (b + 2 * INR (n - 1) * (tol * tol))) as (T' & Q' & E & HS' & Hoff'); auto; try lia.
      { pose proof (off_drop n p (n - q - 1) 0 (n - 1) 0 (at2 T n) tol Hn Hs) as H. specialize (H ltac:(intros j ? ? ? [?|?]; left; [apply Hp; lia|apply Hq; lia]) ltac:(lia)). lra. }
      rewrite E. cbn [rbind fst snd]. destruct (IH T' Q' _ HS' Hoff') as (T2 & Q2' & ok & E2 & HS2 & H2). exists T2, Q2', ok. split; auto. split; auto. intros Hok. destruct (H2 Hok) as (H3 & H4). split; auto. rewrite S_INR. nra.
Qed.
End Iter.

(** ** the whole *)
Definition fits (n : nat) : Prop := (Z.of_nat n ^ 4 <= 2147483647)%Z.
Lemma init_id : forall n M, (n * n <= length M)%nat -> exists Id, rfold (seq 0 n) (fun i M => rfold (seq 0 n) (fun j M => put M (j + n * i) (if (i =? j)%nat then 1 else 0)) M) M = Ok Id /\ length Id = length M /\ eqm n n (at2 Id n) idm /\ (forall p, (n * n <= p)%nat -> ent Id p = ent M p).
Proof.
  intros n M HL.
  match goal with |- exists Id, rfold _ ?f _ = _ /\ _ => destruct (@rfold_inv0 (list real) (fun i X => length X = length M /\ (forall r c, (r < i)%nat -> (c < n)%nat -> at2 X n r c = idm r c) /\ (forall p, (n * n <= p)%nat -> ent X p = ent M p)) f n M) as (Id & E & H1 & H2 & H3) end.
  - split; auto. split; [intros; lia|auto].
  - intros i X Hi (HX & H & Hb).
    match goal with |- exists s', rfold _ ?f _ = _ /\ _ => destruct (@rfold_inv0 (list real) (fun j Y => length Y = length M /\ (forall r c, (r < i)%nat -> (c < n)%nat -> at2 Y n r c = idm r c) /\ (forall c, (c < j)%nat -> at2 Y n i c = idm i c) /\ (forall p, (n * n <= p)%nat -> ent Y p = ent M p)) f n X) as (Y' & E & H1 & H2 & H3 & H4) end.
    + split; auto. split; auto. split; [intros; lia|auto].
    + intros j Y Hj (HY & G1 & G2 & G3). replace (j + n * i)%nat with (i * n + j)%nat by lia. assert (HP : (i * n + j < length Y)%nat) by (rewrite HY; nia). rewrite put_ok by auto. eexists. split; [reflexivity|]. rewrite upd_length. split; auto.
      unfold at2 in *. split; [|split].
      * intros r c Hr Hc. rewrite ent_upd by auto. destruct (Nat.eqb_spec (r * n + c) (i * n + j)) as [Eq|]; [apply rowcol in Eq; lia|]. auto.
      * intros c Hc. rewrite ent_upd by auto. destruct (Nat.eqb_spec (i * n + c) (i * n + j)) as [Eq|]; [replace c with j by lia; reflexivity|]. apply G2. lia.
      * intros p Hp. rewrite ent_upd by auto. destruct (Nat.eqb_spec p (i * n + j)); [nia|auto].
    + exists Y'. split; auto. split; auto. split; auto. intros r c Hr Hc. destruct (Nat.eq_dec r i) as [->|]; auto. apply H2; auto; lia.
  - exists Id. repeat split; auto.
Qed.
Lemma rmap_nth : forall (T : list real) n m, (forall i, (i < m)%nat -> (i + n * i < length T)%nat) -> exists l, rmap (fun i => og T (i + n * i)) (seq 0 m) = Ok l /\ length l = m /\ forall i, (i < m)%nat -> ent l i = at2 T n i i.
Proof.
  intros T n m. assert (G : forall m a, (forall i, (i < m)%nat -> (a + i + n * (a + i) < length T)%nat) -> exists l, rmap (fun i => og T (i + n * i)) (seq a m) = Ok l /\ length l = m /\ forall i, (i < m)%nat -> ent l i = at2 T n (a + i)%nat (a + i)%nat).
  { induction m0 as [|m0 IH]; intros a H; unfold rmap; cbn [seq fold_right].
    - exists []. split; auto. split; auto. intros; lia.
    - pose proof (H 0%nat ltac:(lia)) as H0. rewrite Nat.add_0_r in H0. rewrite og_ent by auto. cbn [rbind]. destruct (IH (S a)) as (l & E & L & P). { intros i Hi. replace (S a + i)%nat with (a + S i)%nat by lia. apply H. lia. }
      fold (rmap (fun i => og T (i + n * i)) (seq (S a) m0)). rewrite E. cbn [rbind]. eexists. split; [reflexivity|]. split; [cbn; lia|]. intros [|i] Hi.
      + rewrite Nat.add_0_r. unfold at2, ent. cbn [nth]. f_equal. lia.
      + unfold ent in *. cbn [nth]. rewrite P by lia. f_equal; lia. }
  intros H. apply (G m 0%nat). intros. cbn. apply H. auto.
Qed.
Definition offd (n : nat) (M : mtx) : real := Sum n (fun r => Sum n (fun c => if (r =? c)%nat then 0 else M r c * M r c)).
Definition schur_bound (tol : real) (n : nat) : real := 4 * INR (n - 1) * INR n ^ 4 * (tol * tol).
Lemma schur_ok : forall tol junk mat n, 0 < tol -> (2 <= n)%nat -> fits n -> (n * n <= length mat)%nat -> symm n (at2 mat n) ->
  (schur tol junk mat n = UB /\ exists d, (1 <= d)%nat /\ (d <= n - 2)%nat /\ inv_space n (at2 mat n) d) \/ schur tol junk mat n = Err ERR_MINOR \/
  exists Q lam, schur tol junk mat n = Ok (Q, lam) /\ length Q = length mat /\ length lam = n /\ orth n (at2 Q n) /\
    (forall i, (i < n)%nat -> cj n (at2 Q n) (at2 mat n) i i = ent lam i) /\ offd n (cj n (at2 Q n) (at2 mat n)) <= schur_bound tol n /\
    (forall j, (j + 1 < n)%nat -> Rabs (cj n (at2 Q n) (at2 mat n) (j + 1)%nat j) < tol).
Proof.
  intros tol junk mat n Htol Hn Hf HL HA. unfold schur. destruct (Nat.leb_spec n 1); [lia|]. destruct (Nat.leb_spec (n * n) (length mat)); [|lia]. cbn [negb].
  destruct (init_id n mat HL) as (Id & EI & LI & HI & _). rewrite EI. cbn [rbind].
  assert (HT0 : eqm n n (at2 (firstn (n * n) mat) n) (at2 mat n)). { intros r c Hr Hc. unfold at2, ent. rewrite <- (firstn_skipn (n * n) mat) at 2. rewrite app_nth1; auto. rewrite firstn_length_le by lia. nia. }
  destruct (tri_ok (at2 mat n) n Hn HA (firstn (n * n) mat) (map junk (seq 0 (n - 1))) (map junk (seq 0 (n - 1)))) as [(E & Hd)|(T & tau & v & E & HT & Hlv)]; auto.
  { rewrite firstn_length_le; auto. } { rewrite map_length, seq_length; auto. } { rewrite map_length, seq_length; auto. }
  { left. rewrite E. split; auto. }
  right. rewrite E. cbn [rbind].
  destruct (acc_ok (at2 mat n) n T tau Hn HT Id v) as (T' & Q' & v' & E' & LT & LQ & HO & HC & Hs & Hz); auto; [lia|]. rewrite E'. cbn [rbind].
  unfold fits in Hf. destruct (Z.ltb_spec 2147483647 (Z.of_nat n ^ 4)); [lia|].
  destruct (iter_ok tol Htol (at2 mat n) n (length mat) Hn HL (n * n * n * n) T' Q' 0) as (T2 & Q2 & ok & E2 & (L2 & LQ2 & O2 & C2 & S2) & H2).
  { split; auto. split; [congruence|]. split; auto. }
  { unfold Off, F2. rewrite Sum_zero; [lra|]. intros r Hr. apply Sum_zero. intros c Hc. unfold mask. destruct (band_spec 0 (n - 1) 0 r c) as [|Hb]; [ring|]. unfold bandP in Hb.
    destruct (Nat.lt_ge_cases (c + 1) r); [rewrite Hz by auto; ring|]. rewrite Hs by auto. rewrite Hz by lia. ring. }
  rewrite E2. cbn [rbind]. destruct (rmap_nth T2 n n) as (lam & El & Ll & Hl). { intros i Hi. rewrite L2. nia. } rewrite El. cbn [rbind].
  destruct ok; [|left; auto]. right. exists Q2, lam. split; auto. split; auto. split; auto. split; auto. destruct (H2 eq_refl) as (H3 & H4). split; [|split].
  - intros i Hi. rewrite Hl by auto. apply C2; auto.
  - apply Rle_trans with (Off n (band 0 0 0) (at2 T2 n)).
    + apply Sum_le. intros r Hr. apply Sum_le. intros c Hc. unfold mask. destruct (Nat.eqb_spec r c) as [|Hne].
      * destruct (band 0 0 0 r c); nra.
      * destruct (band_spec 0 0 0 r c) as [Hb|_]; [unfold bandP in Hb; lia|]. rewrite C2 by auto. lra.
    + eapply Rle_trans; [apply H3|]. unfold schur_bound. rewrite !mult_INR. right. cbn [pow]. ring.
  - intros j Hj. rewrite C2 by lia. apply H4. auto.
Qed.
