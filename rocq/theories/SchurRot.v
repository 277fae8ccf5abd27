(** * CeedSymmetricSchurDecomposition: Givens rotations and the entries off the diagonal *)
From Coq Require Import List ZArith Lia Bool Arith Reals Lra Psatz.
From Verif Require Import Prelude RstrModel OpModel OpLists DenseModel DenseProofs QrModel RealLin QrProofs QrFact SchurModel SchurTri.
Import ListNotations.
Local Open Scope nat_scope.
Local Open Scope R_scope.

(** ** rotations *)
Definition colr (k : nat) (c s : real) (M : mtx) : mtx := fun r j =>
  if (j =? k)%nat then c * M r k - s * M r (k + 1)%nat else if (j =? k + 1)%nat then s * M r k + c * M r (k + 1)%nat else M r j.
Definition rowr (k : nat) (c s : real) (M : mtx) : mtx := fun i j =>
  if (i =? k)%nat then c * M k j - s * M (k + 1)%nat j else if (i =? k + 1)%nat then s * M k j + c * M (k + 1)%nat j else M i j.
Definition gm (k : nat) (c s : real) : mtx := colr k c s idm.
Lemma mm_gm : forall n k c s M i j, (k + 1 < n)%nat -> (j < n)%nat -> mm n M (gm k c s) i j = colr k c s M i j.
Proof.
  intros n k c s M i j Hk Hj. unfold gm, colr, mm. destruct (j =? k)%nat; [|destruct (j =? k + 1)%nat].
  - rewrite (Sum_ext n _ (fun l => c * (M i l * idm l k) - s * (M i l * idm l (k + 1)%nat))) by (intros; ring). rewrite Sum_sub, !Sum_mul.
    pose proof (mm_id_r n M i k ltac:(lia)) as E1. pose proof (mm_id_r n M i (k + 1) ltac:(lia)) as E2. unfold mm in E1, E2. rewrite E1, E2. reflexivity.
  - rewrite (Sum_ext n _ (fun l => s * (M i l * idm l k) + c * (M i l * idm l (k + 1)%nat))) by (intros; ring). rewrite Sum_add, !Sum_mul.
    pose proof (mm_id_r n M i k ltac:(lia)) as E1. pose proof (mm_id_r n M i (k + 1) ltac:(lia)) as E2. unfold mm in E1, E2. rewrite E1, E2. reflexivity.
  - apply mm_id_r. auto.
Qed.
Lemma mm_tgm : forall n k c s M i j, (k + 1 < n)%nat -> (i < n)%nat -> mm n (tr (gm k c s)) M i j = rowr k c s M i j.
Proof. intros n k c s M i j Hk Hi. transitivity (mm n (tr M) (gm k c s) j i). { apply Sum_ext. intros. unfold tr. ring. } rewrite mm_gm by auto. reflexivity. Qed.
Ltac deq := repeat match goal with |- context [(?a =? ?b)%nat] => destruct (Nat.eqb_spec a b) end.
Lemma gm_orth : forall n k c s, (k + 1 < n)%nat -> c * c + s * s = 1 -> orth n (gm k c s).
Proof.
  intros n k c s Hk H. split; intros i j Hi Hj.
  - rewrite (mm_ext n _ (gm k c s) _ (gm k c (- s))); auto.
    + rewrite mm_gm by auto. unfold gm, colr, idm. deq; try lia; subst; try lra; nra.
    + intros l _. unfold tr, gm, colr, idm. deq; try lia; subst; lra.
  - rewrite mm_gm by auto. unfold tr, gm, colr, idm. deq; try lia; subst; try lra; nra.
Qed.
Lemma cj_gm : forall n k c s T i j, (k + 1 < n)%nat -> (i < n)%nat -> (j < n)%nat -> cj n (gm k c s) T i j = rowr k c s (colr k c s T) i j.
Proof.
  intros n k c s T i j Hk Hi Hj. unfold cj. rewrite mm_assoc. rewrite mm_tgm by auto. unfold rowr. rewrite !mm_gm by (auto; lia). reflexivity.
Qed.

(** the model *)
Lemma givens_col : forall M c s k n, (k + 1 < n)%nat -> (n * n <= length M)%nat ->
  exists M', givens M c s NoTranspose k (k + 1) n n = Ok M' /\ length M' = length M /\ eqm n n (at2 M' n) (colr k c s (at2 M n)).
Proof.
  intros M c s k n Hk HL. unfold givens.
  match goal with |- exists M', rfold _ ?f _ = _ /\ _ => destruct (@rfold_inv0 (list real) (fun j A => length A = length M /\
      (forall r col, (r < n)%nat -> (col < n)%nat -> at2 A n r col = if (r <? j)%nat then colr k c s (at2 M n) r col else at2 M n r col)) f n M) as (M' & E & HL' & H) end.
  - split; auto.
  - intros j A Hj (HLA & H).
    assert (P1 : (k * 1 + j * n = j * n + k)%nat) by lia. assert (P2 : ((k + 1) * 1 + j * n = j * n + (k + 1))%nat) by lia. rewrite P1, P2.
    assert (L1 : (j * n + k < length A)%nat) by (rewrite HLA; nia). assert (L2 : (j * n + (k + 1) < length A)%nat) by (rewrite HLA; nia).
    rewrite !og_ent by auto. cbn [rbind]. rewrite put_ok by auto. cbn [rbind]. rewrite put_ok by (rewrite upd_length; auto). eexists. split; [reflexivity|]. rewrite !upd_length. split; auto.
    intros r col Hr Hc. unfold at2 at 1. rewrite ent_upd by (rewrite upd_length; auto). rewrite ent_upd by auto.
    fold (at2 A n j k) (at2 A n j (k + 1)%nat) (at2 A n r col). rewrite !H by (auto; lia). rewrite Nat.ltb_irrefl.
    destruct (Nat.eqb_spec (r * n + col) (j * n + (k + 1))) as [Eq|N1]; [|destruct (Nat.eqb_spec (r * n + col) (j * n + k)) as [Eq|N2]].
    + apply rowcol in Eq; try lia. destruct Eq as (-> & ->). destruct (Nat.ltb_spec j (j + 1)); [|lia]. unfold colr. rewrite Nat.eqb_refl. destruct (Nat.eqb_spec (k + 1) k); [lia|]. reflexivity.
    + apply rowcol in Eq; try lia. destruct Eq as (-> & ->). destruct (Nat.ltb_spec j (j + 1)); [|lia]. unfold colr. rewrite Nat.eqb_refl. reflexivity.
    + destruct (Nat.ltb_spec r j), (Nat.ltb_spec r (j + 1)); auto; try lia. replace r with j in * by lia. unfold colr.
      destruct (Nat.eqb_spec col k); [congruence|]. destruct (Nat.eqb_spec col (k + 1)); [congruence|]. reflexivity.
  - exists M'. split; auto. split; auto. intros r col Hr Hc. rewrite H by auto. destruct (Nat.ltb_spec r n); [reflexivity|lia].
Qed.
Lemma givens_row : forall M c s k n, (k + 1 < n)%nat -> (n * n <= length M)%nat ->
  exists M', givens M c s Transpose k (k + 1) n n = Ok M' /\ length M' = length M /\ eqm n n (at2 M' n) (rowr k c s (at2 M n)).
Proof.
  intros M c s k n Hk HL. unfold givens.
  match goal with |- exists M', rfold _ ?f _ = _ /\ _ => destruct (@rfold_inv0 (list real) (fun j A => length A = length M /\
      (forall r col, (r < n)%nat -> (col < n)%nat -> at2 A n r col = if (col <? j)%nat then rowr k c s (at2 M n) r col else at2 M n r col)) f n M) as (M' & E & HL' & H) end.
  - split; auto.
  - intros j A Hj (HLA & H).
    assert (P1 : (k * n + j * 1 = k * n + j)%nat) by lia. assert (P2 : ((k + 1) * n + j * 1 = (k + 1) * n + j)%nat) by lia. rewrite P1, P2.
    assert (L1 : (k * n + j < length A)%nat) by (rewrite HLA; nia). assert (L2 : ((k + 1) * n + j < length A)%nat) by (rewrite HLA; nia).
    rewrite !og_ent by auto. cbn [rbind]. rewrite put_ok by auto. cbn [rbind]. rewrite put_ok by (rewrite upd_length; auto). eexists. split; [reflexivity|]. rewrite !upd_length. split; auto.
    intros r col Hr Hc. unfold at2 at 1. rewrite ent_upd by (rewrite upd_length; auto). rewrite ent_upd by auto.
    fold (at2 A n k j) (at2 A n (k + 1)%nat j) (at2 A n r col). rewrite !H by (auto; lia). rewrite Nat.ltb_irrefl.
    destruct (Nat.eqb_spec (r * n + col) ((k + 1) * n + j)) as [Eq|N1]; [|destruct (Nat.eqb_spec (r * n + col) (k * n + j)) as [Eq|N2]].
    + apply rowcol in Eq; try lia. destruct Eq as (-> & ->). destruct (Nat.ltb_spec j (j + 1)); [|lia]. unfold rowr. rewrite Nat.eqb_refl. destruct (Nat.eqb_spec (k + 1) k); [lia|]. reflexivity.
    + apply rowcol in Eq; try lia. destruct Eq as (-> & ->). destruct (Nat.ltb_spec j (j + 1)); [|lia]. unfold rowr. rewrite Nat.eqb_refl. reflexivity.
    + destruct (Nat.ltb_spec col j), (Nat.ltb_spec col (j + 1)); auto; try lia. replace col with j in * by lia. unfold rowr.
      destruct (Nat.eqb_spec r k); [congruence|]. destruct (Nat.eqb_spec r (k + 1)); [congruence|]. reflexivity.
  - exists M'. split; auto. split; auto. intros r col Hr Hc. rewrite H by auto. destruct (Nat.ltb_spec col n); [reflexivity|lia].
Qed.

(** ** sums of squares *)
Definition F2 (n : nat) (E : mtx) : real := Sum n (fun r => Sum n (fun c => E r c * E r c)).
Lemma Sum_le : forall n f g, (forall i, (i < n)%nat -> f i <= g i) -> Sum n f <= Sum n g.
Proof. induction n as [|n IH]; intros f g H; cbn [Sum]; [lra|]. pose proof (IH f g ltac:(auto)). pose proof (H n ltac:(lia)). lra. Qed.
Lemma vec_orth : forall n G (x : nat -> real), eqm n n (mm n G (tr G)) idm -> Sum n (fun r => Sum n (fun l => G l r * x l) * Sum n (fun l => G l r * x l)) = Sum n (fun l => x l * x l).
Proof.
  intros n G x H.
  rewrite (Sum_ext n _ (fun r => Sum n (fun l => Sum n (fun m => (G l r * x l) * (G m r * x m))))).
  2: { intros r _. rewrite <- Sum_mulr. apply Sum_ext. intros l _. rewrite <- Sum_mul. reflexivity. }
  rewrite Sum_swap. apply Sum_ext. intros l Hl. rewrite Sum_swap.
  rewrite (Sum_ext n _ (fun m => idm l m * (x l * x m))). 2: { intros m Hm. rewrite <- (H l m Hl Hm). unfold mm, tr. rewrite <- Sum_mulr. apply Sum_ext. intros. ring. }
  apply (mm_id_l n (fun m _ => x l * x m) l 0%nat Hl).
Qed.
Lemma F2_ext : forall n E E', eqm n n E E' -> F2 n E = F2 n E'.
Proof. intros n E E' H. apply Sum_ext. intros r Hr. apply Sum_ext. intros c Hc. rewrite H by auto. reflexivity. Qed.
Lemma F2_tr : forall n E, F2 n (tr E) = F2 n E.
Proof. intros. unfold F2. rewrite Sum_swap. reflexivity. Qed.
Lemma F2_pos : forall n E, 0 <= F2 n E.
Proof. intros. apply Sum_pos. intros. apply Sum_pos. intros. nra. Qed.
Lemma F2_left : forall n G E, orth n G -> F2 n (mm n (tr G) E) = F2 n E.
Proof.
  intros n G E (H & _). unfold F2. rewrite Sum_swap. rewrite (Sum_swap n n (fun r c => E r c * E r c)). apply Sum_ext. intros c Hc. apply (vec_orth n G (fun l => E l c) H).
Qed.
Lemma F2_cj : forall n G E, orth n G -> F2 n (cj n G E) = F2 n E.
Proof.
  intros n G E H. unfold cj. rewrite <- F2_tr. rewrite (F2_ext n _ (mm n (tr G) (tr (mm n (tr G) E)))) by (intros i j _ _; apply tr_mm).
  rewrite F2_left by auto. rewrite F2_tr. apply F2_left. auto.
Qed.

(** ** the band *)
(** the diagonal, the entries next to it in the active part, and the bulge *)
Definition band (p m k r c : nat) : bool :=
  (r =? c)%nat || (c =? r + 1)%nat && (p <=? r)%nat && (r <? m)%nat || (r =? c + 1)%nat && (p <=? c)%nat && (c <? m)%nat ||
  (p <? k)%nat && (k <? m)%nat && ((r + 1 =? k)%nat && (c =? k + 1)%nat || (c + 1 =? k)%nat && (r =? k + 1)%nat).
Definition bandP (p m k r c : nat) : Prop :=
  (r = c \/ (c = r + 1 /\ p <= r /\ r < m) \/ (r = c + 1 /\ p <= c /\ c < m) \/ (p < k /\ k < m /\ ((r + 1 = k /\ c = k + 1) \/ (c + 1 = k /\ r = k + 1))))%nat.
Lemma band_spec : forall p m k r c, Bool.reflect (bandP p m k r c) (band p m k r c).
Proof.
  intros. apply iff_reflect. unfold bandP, band. rewrite !orb_true_iff, !andb_true_iff, !orb_true_iff, !andb_true_iff, !Nat.eqb_eq, !Nat.leb_le, !Nat.ltb_lt. lia.
Qed.
Definition mask (S : nat -> nat -> bool) (T : mtx) : mtx := fun r c => if S r c then 0 else T r c.
Definition Off (n : nat) (S : nat -> nat -> bool) (T : mtx) : real := F2 n (mask S T).

Lemma cj_add : forall n G A B i j, cj n G (fun r c => A r c + B r c) i j = cj n G A i j + cj n G B i j.
Proof.
  intros n G A B i j. unfold cj, mm. rewrite <- Sum_add. apply Sum_ext. intros l _. rewrite <- Rmult_plus_distr_r. f_equal. rewrite <- Sum_add. apply Sum_ext. intros. ring.
Qed.
Lemma off_step : forall n p m k c s T, (p <= k)%nat -> (k < m)%nat -> (m < n)%nat -> symm n T -> c * c + s * s = 1 ->
  ((p < k)%nat -> s * T k (k - 1)%nat + c * T (k + 1)%nat (k - 1)%nat = 0) ->
  Off n (band p m (k + 1)) (cj n (gm k c s) T) <= Off n (band p m k) T.
Proof.
  intros n p m k c s T Hp Hk Hm Hs Hcs Hb. set (G := gm k c s). set (E := mask (band p m k) T). unfold Off. fold E.
  assert (HO : orth n G) by (apply gm_orth; auto; lia). rewrite <- (F2_cj n G E HO).
  apply Sum_le. intros r Hr. apply Sum_le. intros q Hq. unfold mask. destruct (band_spec p m (k + 1) r q) as [Hin|Hout]; [nra|]. cbn [andb].
  set (B := fun r c => if band p m k r c then T r c else 0).
  assert (HT : cj n G T r q = cj n G B r q + cj n G E r q).
  { rewrite <- cj_add. apply cj_ext; auto. intros a b Ha Hb'. unfold B, E, mask. destruct (band p m k a b); ring. }
  assert (HB : forall a b, ~ bandP p m k a b -> B a b = 0) by (intros a b Hab; unfold B; destruct (band_spec p m k a b); [contradiction|auto]).
  assert (HB1 : forall a b, bandP p m k a b -> B a b = T a b) by (intros a b Hab; unfold B; destruct (band_spec p m k a b); [auto|contradiction]).
  enough (H0 : cj n G B r q = 0) by (rewrite HT, H0; nra).
  clear HT. unfold G. rewrite cj_gm by (auto; lia). clearbody B.
  assert (HBu : (p < k)%nat -> s * B k (k - 1)%nat + c * B (k + 1)%nat (k - 1)%nat = 0). { intros H. rewrite !HB1 by (unfold bandP; lia). auto. }
  assert (HBv : (p < k)%nat -> s * B (k - 1)%nat k + c * B (k - 1)%nat (k + 1)%nat = 0). { intros H. rewrite !HB1 by (unfold bandP; lia). rewrite (Hs (k - 1)%nat k), (Hs (k - 1)%nat (k + 1)%nat) by lia. auto. }
  unfold bandP in Hout. unfold rowr. destruct (Nat.eqb_spec r k) as [->|Hr1]; [|destruct (Nat.eqb_spec r (k + 1)) as [->|Hr2]]; unfold colr.
  - destruct (Nat.eqb_spec q k) as [->|Hq1]; [lia|]. destruct (Nat.eqb_spec q (k + 1)) as [->|Hq2]; [lia|]. rewrite !HB by (unfold bandP; lia). ring.
  - destruct (Nat.eqb_spec q k) as [->|Hq1]; [lia|]. destruct (Nat.eqb_spec q (k + 1)) as [->|Hq2]; [lia|].
    destruct (Nat.eq_dec q (k - 1)) as [->|]; [destruct (Nat.lt_ge_cases p k); [auto|]|]; rewrite !HB by (unfold bandP; lia); ring.
  - destruct (Nat.eqb_spec q k) as [->|Hq1]; [|destruct (Nat.eqb_spec q (k + 1)) as [->|Hq2]].
    + rewrite !HB by (unfold bandP; lia). ring.
    + destruct (Nat.eq_dec r (k - 1)) as [->|]; [destruct (Nat.lt_ge_cases p k); [auto|]|]; rewrite !HB by (unfold bandP; lia); ring.
    + apply HB. unfold bandP. lia.
Qed.
Lemma Sum_pair : forall n a b (x : real), (a < n)%nat -> (b < n)%nat -> Sum n (fun r => Sum n (fun c => (if (r =? a)%nat then 1 else 0) * ((if (c =? b)%nat then 1 else 0) * x))) = x.
Proof.
  intros n a b x Ha Hb. rewrite (Sum_ext n _ (fun r => (if (r =? a)%nat then 1 else 0) * x)). 2: { intros r _. rewrite Sum_mul. f_equal. apply (Sum_delta n b (fun _ => x)). auto. }
  apply (Sum_delta n a (fun _ => x)). auto.
Qed.
Lemma off_skip : forall n p m k T tol, (p <= k)%nat -> (k < m)%nat -> (m < n)%nat -> symm n T -> ((p < k)%nat -> Rabs (T (k + 1)%nat (k - 1)%nat) <= tol) ->
  Off n (band p m (k + 1)) T <= Off n (band p m k) T + 2 * (tol * tol).
Proof.
  intros n p m k T tol Hp Hk Hm Hs Hb. unfold Off, F2. set (ta := tol * tol). assert (0 <= ta) by (unfold ta; nra).
  replace (2 * ta) with (Sum n (fun r => Sum n (fun c => (if (r =? k - 1)%nat then 1 else 0) * ((if (c =? k + 1)%nat then 1 else 0) * ta))) + Sum n (fun r => Sum n (fun c => (if (r =? k + 1)%nat then 1 else 0) * ((if (c =? k - 1)%nat then 1 else 0) * ta)))) by (rewrite !Sum_pair by lia; ring).
  rewrite <- !Sum_add. apply Sum_le. intros r Hr. rewrite <- !Sum_add. apply Sum_le. intros c Hc. unfold mask.
  assert (Hsq : (p < k)%nat -> T (k + 1)%nat (k - 1)%nat * T (k + 1)%nat (k - 1)%nat <= ta). { intros Hq. specialize (Hb Hq). pose proof (Rabs_pos (T (k + 1)%nat (k - 1)%nat)). unfold ta. destruct (Rcase_abs (T (k + 1)%nat (k - 1)%nat)) as [Hc1|Hc1]; [rewrite Rabs_left in Hb by auto|rewrite Rabs_right in Hb by auto]; nra. }
  assert (Hind : forall a b d e : nat, 0 <= (if (a =? b)%nat then 1 else 0) * ((if (d =? e)%nat then 1 else 0) * ta)) by (intros; deq; lra).
  pose proof (Hind r (k - 1)%nat c (k + 1)%nat) as I1. pose proof (Hind r (k + 1)%nat c (k - 1)%nat) as I2.
  destruct (band_spec p m (k + 1) r c) as [H1|H1], (band_spec p m k r c) as [H2|H2]; try nra.
  unfold bandP in H1, H2. assert (Hbb : (p < k /\ ((r = k - 1 /\ c = k + 1) \/ (r = k + 1 /\ c = k - 1)))%nat) by lia. destruct Hbb as (Hpk & [(-> & ->)|(-> & ->)]).
  - rewrite (Hs (k - 1)%nat (k + 1)%nat) by lia. specialize (Hsq Hpk). rewrite !Nat.eqb_refl. rewrite !Nat.eqb_refl in *. pose proof (Hind (k - 1)%nat (k + 1)%nat (k + 1)%nat (k - 1)%nat). lra.
  - specialize (Hsq Hpk). rewrite !Nat.eqb_refl. pose proof (Hind (k + 1)%nat (k - 1)%nat (k - 1)%nat (k + 1)%nat). lra.
Qed.
(** leaving out the small entries next to the diagonal *)
Lemma off_drop : forall n p m p' m' k T tol, (2 <= n)%nat -> symm n T -> (forall j, (j + 1 < n)%nat -> (p' <= j)%nat -> (j < m')%nat -> (j < p \/ m <= j)%nat -> Rabs (T (j + 1)%nat j) <= tol) -> (k <= p' \/ m' <= k)%nat ->
  Off n (band p m p) T <= Off n (band p' m' k) T + 2 * INR (n - 1) * (tol * tol).
Proof.
  intros n p m p' m' k T tol Hn Hs H Hk. unfold Off, F2. set (ta := tol * tol). assert (Hta : 0 <= ta) by (unfold ta; nra).
  assert (HS : Sum n (fun r => Sum n (fun c => if (c =? r + 1)%nat then ta else 0)) = INR (n - 1) * ta).
  { replace n with (S (n - 1)) at 1 by lia. cbn [Sum]. rewrite (Sum_ext (n - 1) _ (fun r => ta)).
    2: { intros r Hr. rewrite (Sum_ext n _ (fun c => (if (c =? r + 1)%nat then 1 else 0) * ta)) by (intros; deq; ring). apply (Sum_delta n (r + 1) (fun _ => ta)). lia. }
    rewrite (Sum_zero n). 2: { intros c Hc. deq; [lia|auto]. } rewrite Rplus_0_r. clear. generalize (n - 1)%nat as j. induction j as [|j IH]; [cbn; ring|]. rewrite S_INR. cbn [Sum]. rewrite IH. ring. }
  replace (2 * INR (n - 1) * ta) with (Sum n (fun r => Sum n (fun c => if (c =? r + 1)%nat then ta else 0)) + Sum n (fun r => Sum n (fun c => if (r =? c + 1)%nat then ta else 0))).
  2: { rewrite (Sum_swap n n (fun r c => if (r =? c + 1)%nat then ta else 0)), HS. ring. }
  rewrite <- !Sum_add. apply Sum_le. intros r Hr. rewrite <- !Sum_add. apply Sum_le. intros c Hc. unfold mask.
  assert (Hind : forall a b : nat, 0 <= (if (a =? b)%nat then ta else 0)) by (intros; deq; lra).
  pose proof (Hind c (r + 1)%nat) as I1. pose proof (Hind r (c + 1)%nat) as I2.
  assert (Hsq : forall j, (j + 1 < n)%nat -> (p' <= j)%nat -> (j < m')%nat -> (j < p \/ m <= j)%nat -> T (j + 1)%nat j * T (j + 1)%nat j <= ta).
  { intros j H1 H2 H3 H4. specialize (H j H1 H2 H3 H4). unfold ta. destruct (Rcase_abs (T (j + 1)%nat j)) as [Hc1|Hc1]; [rewrite Rabs_left in H by auto|rewrite Rabs_right in H by auto]; nra. }
  destruct (band_spec p m p r c) as [H1|H1], (band_spec p' m' k r c) as [H2|H2]; try nra.
  unfold bandP in H1, H2. assert (Hbb : ((c = r + 1 /\ p' <= r /\ r < m' /\ (r < p \/ m <= r)) \/ (r = c + 1 /\ p' <= c /\ c < m' /\ (c < p \/ m <= c)))%nat) by lia.
  destruct Hbb as [(-> & Hx)|(-> & Hx)].
  - rewrite (Hs r (r + 1)%nat) by lia. rewrite Nat.eqb_refl. pose proof (Hsq r ltac:(lia) ltac:(lia) ltac:(lia) ltac:(lia)). lra.
  - rewrite Nat.eqb_refl. pose proof (Hsq c ltac:(lia) ltac:(lia) ltac:(lia) ltac:(lia)). lra.
Qed.
