(** * Full assembly: element matrices, positions, and the matrix they form *)
From Coq Require Import List ZArith Lia Bool Arith.
From Verif Require Import Prelude RstrModel RstrSpec RstrProofs RstrMain RstrProps TensorModel TensorMain BasisModel BasisProps OpModel OpSpec OpLists OpMain AsmModel AsmSpec AsmProofs AsmProps CacheModel DenseModel DenseProofs FullModel FullSpec FullSide.
Import ListNotations.

Lemma create_pos : forall chk d bs r, rstr_create chk d bs = Ok r -> 0 < u_es d /\ 0 < u_nc d.
Proof.
  intros chk d bs r H. unfold rstr_create in H. destruct bs as [[|b]|]; try discriminate;
    (destruct (RstrModel.check_dims d _) eqn:E; [discriminate|]; unfold RstrModel.check_dims in E;
     destruct (Nat.eqb_spec (u_es d) 0); [discriminate|]; destruct (Nat.eqb_spec (u_nc d) 0); [discriminate|]; lia).
Qed.

Section Elem.
Variable R : Rng.
Add Ring Rr : (r_th R).
Local Open Scope nat_scope.
Variable k : kernel R.
Variable Jmin : nat.
Variable D : nat -> udesc.
Variables rin rout Q nmI nmO : nat.
Variables Bin Bout A : list R.
Variables l1 l2 : nat.
Notation esI := (u_es (D rin)).
Notation ncI := (u_nc (D rin)).
Notation esO := (u_es (D rout)).
Notation ncO := (u_nc (D rout)).
Notation ne := (u_ne (D rin)).
Variables (bI bO : nat -> nat -> nat -> R).        (* basis values of slot, point, node *)
Variable Av : nat -> nat -> nat -> nat -> R.       (* element, input component, output component, point *)
Hypothesis HBin : length Bin = Q * nmI * esI /\ forall q s n, q < Q -> s < nmI -> n < esI -> vf Bin ((q * nmI + s) * esI + n) = bI s q n.
Hypothesis HBout : length Bout = Q * nmO * esO /\ forall q s n, q < Q -> s < nmO -> n < esO -> vf Bout ((q * nmO + s) * esO + n) = bO s q n.
Hypothesis HA : forall e ei ci eo co q, e < ne -> ei < nmI -> ci < ncI -> eo < nmO -> co < ncO -> q < Q ->
  q + (((ei * ncI + ci) * nmO + eo) * ncO + co) * l1 + e * l2 < length A /\
  vf A (q + (((ei * ncI + ci) * nmO + eo) * ncO + co) * l1 + e * l2) = Av e (ei * ncI + ci) (eo * ncO + co) q.
Hypothesis Hk : kernel_ok Jmin k.
Hypothesis HJ : 0 < esO /\ Jmin <= esO.
Hypothesis Hlen : lengths_ok (D rin) /\ lengths_ok (D rout) /\ u_ne (D rin) = u_ne (D rout).

Lemma btd_ok : forall e ci co, e < ne -> ci < ncI -> co < ncO ->
  exists T, btd R D rin rout Q nmI nmO Bout A l1 l2 e ci co = Ok T /\ length T = esO * (Q * nmI) /\
    forall n q ei, n < esO -> q < Q -> ei < nmI -> vf T (n * (Q * nmI) + (q * nmI + ei)) = sumn nmO (fun eo => (bO eo q n * Av e (ei * ncI + ci) (eo * ncO + co) q)%R).
Proof.
  intros e ci co He Hci Hco. unfold btd.
  pose (v := fun n q ei => sumn nmO (fun eo => (bO eo q n * Av e (ei * ncI + ci)%nat (eo * ncO + co)%nat q)%R)).
  match goal with |- exists T, cat ?a ?f = Ok T /\ _ => destruct (cat2 R a (Q * nmI) f (fun n => at2 nmI (v n))) as (T & E & L & G) end.
  - intros n Hn. apply cat_ok. intros q Hq. apply cat1. intros ei Hei.
    rewrite (rsum_ok R nmO _ (fun eo => (bO eo q n * Av e (ei * ncI + ci)%nat (eo * ncO + co)%nat q)%R)); [reflexivity|].
    intros eo Heo. destruct HBout as (LB & GB). destruct (HA e ei ci eo co q He Hei Hci Heo Hco Hq) as (HL & HV).
    rewrite (og_nth Bout (0%R : R)); [|assert (q * nmO + eo < Q * nmO) by nia; nia]. rewrite (og_nth A (0%R : R)) by exact HL. cbn [rbind].
    change (nth ?x Bout (0%R : R)) with (vf Bout x). change (nth ?x A (0%R : R)) with (vf A x). rewrite GB, HV by auto. reflexivity.
  - exists T. split; auto. split; auto. intros n q ei Hn Hq Hei. specialize (G n (q * nmI + ei) (0%R : R) Hn ltac:(nia)). unfold vf. rewrite G.
    rewrite at2_ij; auto.
Qed.

(** B^T D B *)
Definition raw (e ci co n p : nat) : R :=
  sumn Q (fun q => sumn nmI (fun ei => (sumn nmO (fun eo => bO eo q n * Av e (ei * ncI + ci)%nat (eo * ncO + co)%nat q) * bI ei q p)%R)).
Lemma raw_ok : forall contract e ci co m, e < ne -> ci < ncI -> co < ncO -> length m = esO * esI ->
  exists m', (t <~ btd R D rin rout Q nmI nmO Bout A l1 l2 e ci co ;;
     (if contract : bool then ofopt (k 1 (Q * nmI) esI esO t NoTranspose false Bin m) else matmul t Bin esO esI (Q * nmI))) = Ok m' /\
    length m' = esO * esI /\ forall n p, n < esO -> p < esI -> vf m' (n * esI + p) = raw e ci co n p.
Proof.
  intros contract e ci co m He Hci Hco Hm. destruct (btd_ok e ci co He Hci Hco) as (T & ET & LT & GT). rewrite ET. cbn [rbind].
  destruct HBin as (LB & GB).
  assert (Hsum : forall n p, n < esO -> p < esI -> sumn (Q * nmI) (fun x => (vf T (n * (Q * nmI) + x)%nat * vf Bin (x * esI + p)%nat)%R) = raw e ci co n p).
  { intros n p Hn Hp. rewrite sumn_mul. apply sumn_ext. intros q Hq. apply sumn_ext. intros ei Hei. rewrite GT, GB by auto. reflexivity. }
  destruct contract.
  - destruct (Hk 1 (Q * nmI) esI esO T NoTranspose false Bin m) as (m' & Em & L & G & _); try lia.
    rewrite Em. cbn [ofopt]. exists m'. split; auto. split; [lia|]. intros n p Hn Hp. specialize (G 0 n p ltac:(lia) Hn Hp).
    rewrite Nat.mul_0_l, Nat.add_0_l in G. rewrite G. rewrite <- Hsum by auto. simpl (0 * _ + _). ring_simplify. apply sumn_ext. intros x Hx. reflexivity.
  - destruct (matmul_ok R T Bin esO esI (Q * nmI)) as (m' & Em & L & G); try lia. rewrite Em. exists m'. split; auto. split; auto.
    intros n p Hn Hp. unfold vf at 1. rewrite G by auto. apply Hsum; auto.
Qed.

(** ** orientations *)
Notation cf d e n m := (coef R Signed d e n m).
Lemma three : forall es i (a : nat -> nat -> R) (x : nat -> R), i < es ->
  sumn es (fun n => ((if i + 1 =? n then a n 0%nat else if i =? n then a n 1%nat else if i =? n + 1 then a n 2%nat else 0) * x n)%R) =
  (x i * a i 1%nat + (if 0 <? i then x (i - 1)%nat * a (i - 1)%nat 2%nat else 0) + (if i <? es - 1 then x (i + 1)%nat * a (i + 1)%nat 0%nat else 0))%R.
Proof.
  intros es i a x Hi.
  rewrite sumn_ext with (g := fun n => (delta (n =? i) (a n 1%nat * x n) + (delta (n =? i + 1) (a n 0%nat * x n) + delta (0 <? i) (delta (n =? i - 1) (a n 2%nat * x n))))%R).
  - rewrite !sumn_add, !sumn_delta. rewrite sumn_ext with (n := es) (f := fun n => delta (0 <? i) _) (g := fun n => delta (n =? i - 1) (delta (0 <? i) (a n 2%nat * x n)%R)).
    + rewrite sumn_delta. destruct (Nat.ltb_spec i es); [|lia]. destruct (Nat.ltb_spec (i - 1) es); [|lia]. cbn [delta].
      destruct (Nat.ltb_spec (i + 1) es), (Nat.ltb_spec i (es - 1)); try lia; destruct (0 <? i); cbn [delta]; ring.
    + intros n Hn. destruct (0 <? i), (n =? i - 1); reflexivity.
  - intros n Hn. destruct (Nat.eqb_spec (i + 1) n), (Nat.eqb_spec i n), (Nat.eqb_spec i (n + 1)), (Nat.eqb_spec n i), (Nat.eqb_spec n (i + 1)), (Nat.ltb_spec 0 i), (Nat.eqb_spec n (i - 1)); try lia; cbn [delta]; ring.
Qed.
Lemma one : forall es i (s : nat -> bool) (x : nat -> R), i < es -> sumn es (fun n => (delta (n =? i) (if s n then - (1) else 1) * x n)%R) = (x i * sign R (s i))%R.
Proof.
  intros es i s x Hi. rewrite sumn_ext with (g := fun n => delta (n =? i) (x n * sign R (s n))%R).
  - rewrite sumn_delta. apply Nat.ltb_lt in Hi. rewrite Hi. reflexivity.
  - intros n Hn. unfold sign. destruct (n =? i), (s n); cbn [delta]; ring.
Qed.
Lemma plain : forall es i (x : nat -> R), i < es -> sumn es (fun n => (delta (n =? i) 1 * x n)%R) = x i.
Proof.
  intros es i x Hi. rewrite sumn_ext with (g := fun n => delta (n =? i) (x n)).
  - rewrite sumn_delta. apply Nat.ltb_lt in Hi. rewrite Hi. reflexivity.
  - intros n Hn. destruct (n =? i); cbn [delta]; ring.
Qed.
Definition is_mat (m : list R) (v : nat -> nat -> R) : Prop := length m = esO * esI /\ forall i j, i < esO -> j < esI -> vf m (i * esI + j) = v i j.
Lemma mat_og : forall m v i j, is_mat m v -> i < esO -> j < esI -> og m (i * esI + j) = Ok (v i j).
Proof. intros m v i j (L & G) Hi Hj. rewrite (og_nth m (0%R : R)) by nia. rewrite <- G by auto. reflexivity. Qed.
Lemma app2_mat : forall v r, appends2 esO esI v r -> exists m, r = Ok m /\ is_mat m v.
Proof. intros v r (m & E & L & G). exists m. split; auto. split; auto. intros i j Hi Hj. unfold vf. apply G; auto. Qed.

Lemma turn_out_ok : forall e m v, e < ne -> is_mat m v ->
  exists m', turn_out R D rin rout e m = Ok m' /\ is_mat m' (fun i j => sumn esO (fun n => (cf (D rout) e n i * v n j)%R)).
Proof.
  intros e m v He Hm. destruct Hlen as (_ & HLo & Ene). unfold turn_out. unfold lengths_ok in HLo. unfold coef. destruct (u_kind (D rout)) as [s0 s1 s2|off|off ors|off co] eqn:Ek.
  - exists m. split; auto. destruct Hm as (L & G). split; auto. intros i j Hi Hj. rewrite G by auto. symmetry. apply (plain esO i (fun n => v n j)). auto.
  - exists m. split; auto. destruct Hm as (L & G). split; auto. intros i j Hi Hj. rewrite G by auto. symmetry. apply (plain esO i (fun n => v n j)). auto.
  - apply app2_mat. apply cat2. intros i Hi. rewrite (og_nth ors false) by (destruct HLo; nia). cbn [rbind]. apply cat1. intros j Hj. rewrite (mat_og m v) by auto. cbn [rbind v_signs andb].
    do 2 f_equal. symmetry. apply (one esO i (fun n => nth (e * esO + n) ors false) (fun n => v n j)). auto.
  - apply app2_mat. apply cat2_map. intros i j Hi Hj. destruct HLo as (_ & HLo). cbn [v_orients v_signs].
    rewrite (three esO i (fun n c => zr R (nth (e * (3 * esO) + (3 * n + c)) co 0%Z)) (fun n => v n j) Hi). rewrite (mat_og m v) by auto. cbn [rbind].
    assert (Hx : forall x, x < 3 * esO -> og co (e * 3 * esO + x) = Ok (nth (e * (3 * esO) + x) co 0%Z)).
    { intros x Hx. replace (e * 3 * esO + x) with (e * (3 * esO) + x) by ring. apply og_nth. nia. }
    rewrite Hx by lia. cbn [rbind]. destruct (Nat.ltb_spec 0 i), (Nat.ltb_spec i (esO - 1)); cbn [rbind];
      rewrite ?(mat_og m v) by (auto; lia); cbn [rbind]; rewrite ?Hx by lia; cbn [rbind]; rewrite ?(mat_og m v) by (auto; lia); cbn [rbind]; rewrite ?Hx by lia; cbn [rbind];
      try replace (3 * i - 1) with (3 * (i - 1) + 2) by lia; try replace (3 * i + 3) with (3 * (i + 1) + 0) by lia; reflexivity.
Qed.
Lemma turn_in_ok : forall e m v, e < ne -> is_mat m v ->
  exists m', turn_in R D rin rout e m = Ok m' /\ is_mat m' (fun i j => sumn esI (fun p => (cf (D rin) e p j * v i p)%R)).
Proof.
  intros e m v He Hm. destruct Hlen as (HLi & _ & Ene). unfold turn_in. unfold lengths_ok in HLi. unfold coef. destruct (u_kind (D rin)) as [s0 s1 s2|off|off ors|off co] eqn:Ek.
  - exists m. split; auto. destruct Hm as (L & G). split; auto. intros i j Hi Hj. rewrite G by auto. symmetry. apply (plain esI j (fun n => v i n)). auto.
  - exists m. split; auto. destruct Hm as (L & G). split; auto. intros i j Hi Hj. rewrite G by auto. symmetry. apply (plain esI j (fun n => v i n)). auto.
  - apply app2_mat. apply cat2_map. intros i j Hi Hj. rewrite (og_nth ors false) by (destruct HLi; nia). cbn [rbind]. rewrite (mat_og m v) by auto. cbn [rbind v_signs andb].
    do 2 f_equal. symmetry. apply (one esI j (fun n => nth (e * esI + n) ors false) (fun n => v i n)). auto.
  - apply app2_mat. apply cat2_map. intros i j Hi Hj. destruct HLi as (_ & HLi). cbn [v_orients v_signs].
    rewrite (three esI j (fun n c => zr R (nth (e * (3 * esI) + (3 * n + c)) co 0%Z)) (fun n => v i n) Hj). rewrite (mat_og m v) by auto. cbn [rbind].
    assert (Hx : forall x, x < 3 * esI -> og co (e * 3 * esI + x) = Ok (nth (e * (3 * esI) + x) co 0%Z)).
    { intros x Hx. replace (e * 3 * esI + x) with (e * (3 * esI) + x) by ring. apply og_nth. nia. }
    rewrite Hx by lia. cbn [rbind]. destruct (Nat.ltb_spec 0 j), (Nat.ltb_spec j (esI - 1)); cbn [rbind];
      try replace (i * esI + j - 1) with (i * esI + (j - 1)) by lia; try replace (i * esI + j + 1) with (i * esI + (j + 1)) by lia;
      rewrite ?(mat_og m v) by (auto; lia); cbn [rbind]; rewrite ?Hx by lia; cbn [rbind]; rewrite ?(mat_og m v) by (auto; lia); cbn [rbind]; rewrite ?Hx by lia; cbn [rbind];
      try replace (3 * j - 1) with (3 * (j - 1) + 2) by lia; try replace (3 * j + 3) with (3 * (j + 1) + 0) by lia; reflexivity.
Qed.
(** entry (i, j) of an element matrix between L-vector nodes *)
Definition emat (e ci co i j : nat) : R := sumn esI (fun p => (cf (D rin) e p j * sumn esO (fun n => cf (D rout) e n i * raw e ci co n p))%R).
Lemma elem_mat_ok : forall contract e ci co m, e < ne -> ci < ncI -> co < ncO -> length m = esO * esI ->
  exists m', elem_mat k D rin rout Q nmI nmO Bin Bout A contract l1 l2 e ci co m = Ok m' /\ is_mat m' (emat e ci co).
Proof.
  intros contract e ci co m He Hci Hco Hm. unfold elem_mat. destruct (raw_ok contract e ci co m He Hci Hco Hm) as (m1 & E1 & L1 & G1).
  destruct (btd R D rin rout Q nmI nmO Bout A l1 l2 e ci co) as [T| |]; cbn [rbind] in E1 |- *; try discriminate. rewrite E1. cbn [rbind].
  destruct (turn_out_ok e m1 (raw e ci co) He (conj L1 G1)) as (m2 & E2 & H2). rewrite E2. cbn [rbind].
  destruct (turn_in_ok e m2 _ He H2) as (m3 & E3 & H3). exists m3. split; auto.
Qed.
Notation blk := (esO * esI).
Lemma elem_mats_ok : forall contract, exists b L, elem_mats k D rin rout Q nmI nmO Bin Bout A contract l1 l2 = Ok (b, L) /\
  length L = ne * (ncI * (ncO * blk)) /\
  forall e ci co i j, e < ne -> ci < ncI -> co < ncO -> i < esO -> j < esI ->
    vf L (e * (ncI * (ncO * blk)) + (ci * (ncO * blk) + (co * blk + (i * esI + j)))) = emat e ci co i j.
Proof.
  intros contract. unfold elem_mats.
  pose (v := fun e ci co => at2 esI (emat e ci co)).
  assert (H : extends (fun b : list R => length b = blk) (ne * (ncI * (ncO * blk))) (at2 (ncI * (ncO * blk)) (fun e => at2 (ncO * blk) (fun ci => at2 blk (v e ci))))
    (rfold (seq 0 ne) (fun e => rfold (seq 0 ncI) (fun ci => rfold (seq 0 ncO) (fun co st =>
      m <~ elem_mat k D rin rout Q nmI nmO Bin Bout A contract l1 l2 e ci co (fst st) ;; Ok (m, snd st ++ m)))))).
  { apply rfold_extends. intros e He. apply rfold_extends. intros ci Hci. apply rfold_extends. intros co Hco st Hst.
    destruct (elem_mat_ok contract e ci co (fst st) He Hci Hco Hst) as (m & E & L & G). rewrite E. cbn [rbind]. exists m, m. split; auto. split; auto. split; auto.
    intros x d Hx. assert (Hes : 0 < esI) by nia. unfold v, at2. pose proof (Nat.div_mod x esI ltac:(lia)). pose proof (Nat.mod_upper_bound x esI ltac:(lia)).
    assert (x / esI < esO) by (apply Nat.div_lt_upper_bound; lia). rewrite <- G by auto. unfold vf. rewrite nth_indep with (d' := 0%R) by lia. f_equal. lia. }
  destruct (H (repeat 0%R blk, [])) as (b & L & E & _ & HL & G). { apply repeat_length. }
  exists b, L. rewrite E. split; auto. split; auto. intros e ci co i j He Hci Hco Hi Hj. unfold vf.
  assert (B1 : i * esI + j < blk) by nia. assert (B2 : co * blk + (i * esI + j) < ncO * blk) by nia.
  assert (B3 : ci * (ncO * blk) + (co * blk + (i * esI + j)) < ncI * (ncO * blk)) by nia.
  rewrite G by nia. rewrite at2_ij by auto. rewrite at2_ij by auto. rewrite at2_ij by auto. unfold v. rewrite at2_ij by auto. reflexivity.
Qed.

(** ** the product with a vector *)
(** values the element matrices give to the element's nodes *)
Definition eout (x : list R) (e co n : nat) : R := sumn ncI (fun ci => sumn esI (fun p => (raw e ci co n p * Eval Signed (D rin) x e ci p)%R)).
Lemma coo_ok : forall rc L x q, length L = ne * (ncI * (ncO * blk)) -> length rc = length L ->
  (forall e ci co i j, e < ne -> ci < ncI -> co < ncO -> i < esO -> j < esI ->
    vf L (e * (ncI * (ncO * blk)) + (ci * (ncO * blk) + (co * blk + (i * esI + j)))) = emat e ci co i j /\
    nth (e * (ncI * (ncO * blk)) + (ci * (ncO * blk) + (co * blk + (i * esI + j)))) rc (0, 0)%Z = (col (D rout) e co i, col (D rin) e ci j)) ->
  coo rc L x q = Lval Signed (D rout) (eout x) q.
Proof.
  intros rc L x q HL Hrc H. unfold coo. rewrite Hrc, HL. destruct Hlen as (_ & _ & Ene). rewrite sumn_mul. unfold Lval. rewrite <- Ene. apply sumn_ext. intros e He.
  (* both sides as sums over components and nodes *)
  transitivity (sumn ncI (fun ci => sumn ncO (fun co => sumn esO (fun i => sumn esI (fun j =>
    delta (Z.of_nat q =? col (D rout) e co i)%Z (emat e ci co i j * vf x (Z.to_nat (col (D rin) e ci j)))%R))))).
  { rewrite sumn_mul. apply sumn_ext. intros ci Hci. rewrite sumn_mul. apply sumn_ext. intros co Hco. rewrite sumn_mul. apply sumn_ext. intros i Hi.
    apply sumn_ext. intros j Hj. destruct (H e ci co i j He Hci Hco Hi Hj) as (G1 & G2). rewrite G1, G2. cbn [fst snd]. rewrite Z.eqb_sym. reflexivity. }
  rewrite sumn_swap. apply sumn_ext. intros co Hco. rewrite sumn_swap.
  transitivity (sumn esO (fun i => delta (Z.of_nat q =? col (D rout) e co i)%Z (sumn esO (fun n => (cf (D rout) e n i * eout x e co n)%R)))).
  - apply sumn_ext. intros i Hi. destruct (Z.of_nat q =? col (D rout) e co i)%Z; cbn [delta]; [|apply sumn_zero; intros ci _; apply sumn_zero; auto].
    unfold eout, emat, Eval.
    transitivity (sumn ncI (fun ci => sumn esI (fun p => sumn esO (fun n => sumn esI (fun j =>
       (cf (D rout) e n i * (raw e ci co n p * (cf (D rin) e p j * vf x (Z.to_nat (col (D rin) e ci j)))))%R))))).
    + apply sumn_ext. intros ci _.
      transitivity (sumn esI (fun j => sumn esI (fun p => sumn esO (fun n => (cf (D rout) e n i * (raw e ci co n p * (cf (D rin) e p j * vf x (Z.to_nat (col (D rin) e ci j)))))%R)))).
      * apply sumn_ext. intros j _. rewrite <- sumn_mul_r. apply sumn_ext. intros p _. rewrite <- sumn_mul_l, <- sumn_mul_r. apply sumn_ext. intros n _. ring.
      * rewrite sumn_swap. apply sumn_ext. intros p _. apply sumn_swap.
    + transitivity (sumn ncI (fun ci => sumn esO (fun n => sumn esI (fun p => sumn esI (fun j =>
         (cf (D rout) e n i * (raw e ci co n p * (cf (D rin) e p j * vf x (Z.to_nat (col (D rin) e ci j)))))%R))))).
      { apply sumn_ext. intros ci _. apply sumn_swap. }
      rewrite sumn_swap. apply sumn_ext. intros n _. rewrite <- sumn_mul_l. apply sumn_ext. intros ci _. rewrite <- sumn_mul_l. apply sumn_ext. intros p _.
      rewrite <- !sumn_mul_l. reflexivity.
  - rewrite sumn_ext with (f := fun i => delta _ _) (g := fun i => sumn esO (fun n => delta (Z.of_nat q =? col (D rout) e co i)%Z (cf (D rout) e n i * eout x e co n)%R)).
    + apply sumn_swap.
    + intros i Hi. destruct (Z.of_nat q =? col (D rout) e co i)%Z; cbn [delta]; auto. symmetry. apply sumn_zero. auto.
Qed.
End Elem.
