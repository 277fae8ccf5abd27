(** * C52: the symmetric Schur decomposition *)
From Coq Require Import List ZArith Lia Bool Arith Reals Lra Psatz.
From Verif Require Import Prelude RstrModel OpModel OpLists DenseModel DenseProofs QrModel RealLin QrProofs QrFact SchurModel SchurTri SchurRot SchurMain.
Import ListNotations.
Local Open Scope R_scope.
Lemma tri2 : forall (a b c : real) (x y : real), exists v c' r, rfold (seq 0 1) (tri_step 2) ([a; b; b; c], [x], [y]) = Ok ([a; r; r; c'], [2], v) /\ c' = c /\ r = - b /\ length v = 1%nat.
Proof.
  intros a b c x y. eexists _, _, _. split; [|split; [|split]].
  - unfold rfold, tri_step. cbn -[sqrt copysign Rplus Rmult Rminus Ropp]. reflexivity.
  - ring.
  - rewrite Rplus_0_r. fold (Rsqr b). rewrite sqrt_Rsqr_abs. unfold copysign. rewrite Rabs_Rabsolu. destruct (Rlt_dec b 0); [rewrite Rabs_left by auto; ring|rewrite Rabs_pos_eq by lra; ring].
  - reflexivity.
Qed.
Lemma acc2 : forall (T : list real) (v : list real), length v = 1%nat -> exists v' x, rfold (rev (seq 0 1)) (acc_step 2 [2]) (T, [1; 0; 0; 1], v) = Ok (T, [1; 0; 0; x], v') /\ x = -1.
Proof.
  intros T [|x [|]] Hv; try discriminate. eexists _, _. split.
  - unfold rfold, acc_step. cbn -[Rlt_dec Rplus Rmult Rminus Ropp]. destruct (Rlt_dec 0 2); [|lra]. reflexivity.
  - ring.
Qed.

(** ** two by two *)
Section Two.
Variables (tol a b c : real).
Hypothesis Htol : 0 < tol.
Let A : mtx := at2 [a; b; b; c] 2.
Lemma symm2 : symm 2 A.
Proof. intros i j Hi Hj. destruct i as [|[|]], j as [|[|]]; try lia; reflexivity. Qed.
Lemma fits2 : fits 2. Proof. unfold fits. cbn. lia. Qed.
Lemma small2 : forall T, length T = 4%nat -> (Rabs (at2 T 2 1%nat 0%nat) < tol -> small tol T 2 [0%nat] = Ok 1%nat) /\ (tol <= Rabs (at2 T 2 1%nat 0%nat) -> small tol T 2 [0%nat] = Ok 0%nat).
Proof.
  intros T HL. cbn [small]. rewrite og_ent by (cbn; lia). cbn [rbind]. change (ent T (0 + 2 * (0 + 1))) with (at2 T 2 1%nat 0%nat). split; intros H; destruct (Rlt_dec (Rabs (at2 T 2 1%nat 0%nat)) tol); try lra; reflexivity.
Qed.
Lemma iter2_done : forall fuel T Q, length T = 4%nat -> Rabs (at2 T 2 1%nat 0%nat) < tol -> iter tol 2 (S fuel) T Q = Ok (T, Q, true).
Proof. intros fuel T Q HL H. cbn [iter]. change (rev (seq 0 (2 - 1))) with [0%nat]. rewrite (proj1 (small2 T HL) H). cbn [rbind]. reflexivity. Qed.
(** one sweep of a two by two matrix *)
Lemma sweep2 : forall T Q, sim A 2 4 T Q -> tol <= Rabs (at2 T 2 1%nat 0%nat) -> exists T' Q', sweep tol 2 0 0 T Q = Ok (T', Q') /\ sim A 2 4 T' Q' /\
  (tol < Rabs (at2 T 2 1%nat 0%nat) -> at2 T' 2 1%nat 0%nat = 0) /\ (Rabs (at2 T 2 1%nat 0%nat) = tol -> at2 T' 2 1%nat 0%nat = at2 T 2 1%nat 0%nat).
Proof.
  intros T Q HS Ht. pose proof HS as (HL & HLq & HO & HC & Hs).
  unfold sweep. assert (HP : forall p, (p < 4)%nat -> og T p = Ok (ent T p)) by (intros; apply og_ent; lia).
  cbn [Nat.sub Nat.add Nat.mul]. rewrite !HP by lia. cbn [rbind].
  change (ent T 3) with (at2 T 2 1%nat 1%nat). change (ent T 2) with (at2 T 2 1%nat 0%nat). change (ent T 0) with (at2 T 2 0%nat 0%nat).
  set (z := at2 T 2 1%nat 0%nat) in *. set (t0 := at2 T 2 0%nat 0%nat). set (t1 := at2 T 2 1%nat 1%nat). set (d := (t0 - t1) / 2). set (sg := copysign (sqrt (d * d + z * z)) d).
  assert (Hz : z <> 0) by (intros E; rewrite E, Rabs_R0 in Ht; lra). assert (Hzz : 0 < z * z) by nra.
  assert (Hden : d + sg <> 0) by (apply copysign_add; apply sqrt_lt_R0; nra).
  assert (Hsg : sg * sg = d * d + z * z). { pose proof (sqrt_sqrt (d * d + z * z) ltac:(nra)). pose proof (sqrt_pos (d * d + z * z)). unfold sg, copysign. rewrite Rabs_pos_eq by auto. destruct (Rlt_dec d 0); nra. }
  unfold rdiv. destruct (Req_EM_T (d + sg) 0); [contradiction|]. cbn [rbind]. set (mu := t1 - z * z / (d + sg)).
  assert (Hmu : (t0 - mu) * (t1 - mu) = z * z). { replace t0 with (t1 + 2 * d) by (unfold d; field). unfold mu. transitivity (z * z * (2 * d * (d + sg) + z * z) / ((d + sg) * (d + sg))); [field; auto|]. replace (2 * d * (d + sg) + z * z) with ((d + sg) * (d + sg)) by nra. field. auto. }
  cbn [seq rfold fold_left]. set (x := t0 - mu) in *.
  destruct (rot_ok tol Htol x z) as (cc & s & Er & Hcs & Hrz).
  assert (Hrz' : (tol < Rabs z -> s * x + cc * z = 0) /\ (Rabs z = tol -> cc = 1 /\ s = 0)).
  { split; intros Hzt.
    - destruct Hrz as [|(_ & _ & ?)]; [auto|lra].
    - unfold rot in Er. destruct (Rlt_dec tol (Rabs z)); [lra|]. inversion Er. auto. }
  assert (HR : RInv A 2 4 0 1 (Off 2 (band 0 1 0) (at2 T 2)) 0 (T, Q, x, z)) by (split; [auto|]; split; [lra|]; intros; lia).
  destruct (rot_step_ok tol Htol A 2 4 ltac:(lia) ltac:(lia) 0%nat 0%nat 1%nat _ 0%nat (T, Q, x, z) eq_refl ltac:(lia) ltac:(lia) HR) as ((((T' & Q') & x') & z') & E & HS' & _).
  exists T', Q'. rewrite E. cbn [rbind fst snd]. split; auto. split; auto.
  assert (HT' : at2 T' 2 1%nat 0%nat = s * (cc * t0 - s * z) + cc * (cc * z - s * t1)).
  { unfold rot_step in E. rewrite Er in E. cbn [rbind] in E.
    destruct (givens_col T cc s 0 2) as (T1 & E1 & L1 & G1); [lia|lia|]. rewrite E1 in E. cbn [rbind] in E.
    destruct (givens_row T1 cc s 0 2) as (T2 & E2 & L2 & G2); [lia|lia|]. rewrite E2 in E. cbn [rbind] in E.
    destruct (givens_col Q cc s 0 2) as (Q1 & E3 & L3 & G3); [lia|lia|]. rewrite E3 in E. cbn [rbind] in E. cbn in E. inversion E; subst T'.
    rewrite G2 by lia. unfold rowr. cbn [Nat.eqb Nat.add]. rewrite !G1 by lia. unfold colr. cbn [Nat.eqb Nat.add]. rewrite (Hs 0%nat 1%nat) by lia. reflexivity. }
  destruct Hrz' as (R1 & R2). split; intros Hzt.
  - specialize (R1 Hzt). rewrite HT'. assert (Hx : x <> 0) by (intros Ex; rewrite Ex in Hmu; lra).
    assert (E1 : s * (cc * t0 - s * z) + cc * (cc * z - s * t1) = - s * (cc * (t1 - mu) + s * z)). { replace t0 with (x + mu) by (unfold x; ring). replace (cc * z) with (- (s * x)) at 1 by lra. ring_simplify. nra. }
    rewrite E1. apply (Rmult_eq_reg_r x); [|auto]. transitivity (- s * (cc * (x * (t1 - mu)) + s * x * z)); [ring|]. rewrite Hmu. transitivity (- s * z * (s * x + cc * z)); [ring|]. rewrite R1. ring.
  - destruct (R2 Hzt) as (-> & ->). rewrite HT'. ring.
Qed.
Lemma iter2_sweep : forall fuel T Q, sim A 2 4 T Q -> tol <= Rabs (at2 T 2 1%nat 0%nat) -> exists T' Q', iter tol 2 (S fuel) T Q = iter tol 2 fuel T' Q' /\ sim A 2 4 T' Q' /\
  (tol < Rabs (at2 T 2 1%nat 0%nat) -> at2 T' 2 1%nat 0%nat = 0) /\ (Rabs (at2 T 2 1%nat 0%nat) = tol -> at2 T' 2 1%nat 0%nat = at2 T 2 1%nat 0%nat).
Proof.
  intros fuel T Q HS Ht. destruct (sweep2 T Q HS Ht) as (T' & Q' & E & H). exists T', Q'. split; auto. destruct HS as (HL & _). cbn [iter]. change (rev (seq 0 (2 - 1))) with [0%nat].
  rewrite (proj2 (small2 T HL) Ht). cbn [rbind]. change (seq 0 (2 - 0 - 1)) with [0%nat]. rewrite (proj2 (small2 T HL) Ht). cbn [rbind]. cbn [Nat.eqb Nat.sub]. rewrite E. reflexivity.
Qed.
Lemma iter2_stuck : forall fuel T Q, sim A 2 4 T Q -> Rabs (at2 T 2 1%nat 0%nat) = tol -> exists T' Q', iter tol 2 fuel T Q = Ok (T', Q', false) /\ length T' = 4%nat.
Proof.
  induction fuel as [|fuel IH]; intros T Q HS Ht. { exists T, Q. split; [auto|apply HS]. }
  destruct (iter2_sweep fuel T Q HS ltac:(lra)) as (T' & Q' & -> & HS' & _ & H). apply IH; auto. rewrite H by auto. auto.
Qed.
Lemma schur2 : forall junk, exists T Q, sim A 2 4 T Q /\ T = [a; - b; - b; c] /\ Q = [1; 0; 0; -1] /\
  schur tol junk [a; b; b; c] 2 = (r <~ iter tol 2 16 T Q ;; let '(T, Q, ok) := r in lam <~ rmap (fun i => og T (i + 2 * i)) (seq 0 2) ;; if ok : bool then Ok (Q, lam) else Err ERR_MINOR).
Proof.
  intros junk. exists [a; - b; - b; c], [1; 0; 0; -1]. split; [|split; [auto|split; [auto|]]].
  - split; auto. split; auto. split; [|split].
    + split; intros i j Hi Hj; destruct i as [|[|]], j as [|[|]]; try lia; cbv -[Rplus Rmult Ropp]; ring.
    + intros i j Hi Hj; destruct i as [|[|]], j as [|[|]]; try lia; cbv -[Rplus Rmult Ropp]; ring.
    + intros i j Hi Hj; destruct i as [|[|]], j as [|[|]]; try lia; reflexivity.
  - unfold schur. change (2 <=? 1)%nat with false. change (negb (2 * 2 <=? length [a; b; b; c])%nat) with false. cbv iota. change (firstn (2 * 2) [a; b; b; c]) with [a; b; b; c].
    match goal with |- rbind ?x _ = _ => change x with (Ok [1; 0; 0; 1]) end. cbn [rbind]. cbn [Nat.sub seq map].
    destruct (tri2 a b c (junk 0%nat) (junk 0%nat)) as (v & c' & r & E & -> & -> & Hv). cbn [seq] in E. rewrite E. cbn [rbind].
    destruct (acc2 [a; - b; - b; c] v Hv) as (v' & x & E' & ->). cbn [seq] in E'. rewrite E'. cbn [rbind]. reflexivity.
Qed.
Lemma diag2 : forall T, length T = 4%nat -> rmap (fun i => og T (i + 2 * i)) (seq 0 2) = Ok [ent T 0; ent T 3].
Proof. intros T HL. unfold rmap. cbn [seq fold_right]. rewrite !og_ent by (cbn; lia). reflexivity. Qed.
End Two.

(** ** C52 *)
(** the matrix stored in an array, row major *)
Definition M (l : list real) (n : nat) : mtx := fun i j => nth (i * n + j) l 0.
Definition eigen_res (n : nat) (A Q : mtx) (lam : nat -> real) (i : nat) : real := Sum n (fun r => (mm n A Q r i - lam i * Q r i) * (mm n A Q r i - lam i * Q r i)).

(** For every symmetric matrix the function ends in one of three ways: a division by zero, and then the first unit vector is in an invariant subspace of dimension
    at most n - 2; the error of no convergence; or success with an orthogonal Q for which the diagonal of Q^T A Q is lambda, and the other entries are small. *)
Theorem C52_schur : forall tol junk mat n, 0 < tol -> (2 <= n)%nat -> (Z.of_nat n ^ 4 <= 2147483647)%Z -> (n * n <= length mat)%nat -> (forall i j, (i < n)%nat -> (j < n)%nat -> M mat n i j = M mat n j i) ->
  (schur tol junk mat n = UB /\ exists d, (1 <= d)%nat /\ (d <= n - 2)%nat /\ inv_space n (M mat n) d) \/
  schur tol junk mat n = Err ERR_MINOR \/
  exists Q lam, schur tol junk mat n = Ok (Q, lam) /\ length Q = length mat /\ length lam = n /\
    (forall i j, (i < n)%nat -> (j < n)%nat -> Sum n (fun l => M Q n l i * M Q n l j) = (if (i =? j)%nat then 1 else 0) /\ Sum n (fun l => M Q n i l * M Q n j l) = (if (i =? j)%nat then 1 else 0)) /\
    (forall i, (i < n)%nat -> mm n (mm n (tr (M Q n)) (M mat n)) (M Q n) i i = nth i lam 0) /\
    Sum n (fun i => Sum n (fun j => if (i =? j)%nat then 0 else mm n (mm n (tr (M Q n)) (M mat n)) (M Q n) i j ^ 2)) <= 4 * INR (n - 1) * INR n ^ 4 * tol ^ 2 /\
    (forall j, (j + 1 < n)%nat -> Rabs (mm n (mm n (tr (M Q n)) (M mat n)) (M Q n) (j + 1)%nat j) < tol).
Proof.
  intros tol junk mat n Htol Hn Hf HL HA. destruct (schur_ok tol junk mat n Htol Hn Hf HL HA) as [H|[H|(Q & lam & E & LQ & Ll & (O1 & O2) & H1 & H2 & H3)]]; [left; auto|right; left; auto|].
  right. right. exists Q, lam. split; auto. split; auto. split; auto. split; [|split; [|split]]; auto.
  - intros i j Hi Hj. split; [apply (O2 i j Hi Hj)|apply (O1 i j Hi Hj)].
  - unfold schur_bound in H2. replace (tol ^ 2) with (tol * tol) by ring. eapply Rle_trans; [|apply H2]. right. apply Sum_ext. intros i Hi. apply Sum_ext. intros j Hj. destruct (i =? j)%nat; auto. cbn [pow]. rewrite Rmult_1_r. reflexivity.
Qed.
(** What the bound says about eigenvectors: for orthogonal Q and lambda the diagonal of Q^T A Q, the squared residual of column i is the sum of the squares of the other entries of
    column i of Q^T A Q. *)
Lemma residual : forall n A Q lam, orth n Q -> (forall i, (i < n)%nat -> cj n Q A i i = lam i) -> forall i, (i < n)%nat ->
  eigen_res n A Q lam i = Sum n (fun j => if (j =? i)%nat then 0 else cj n Q A j i * cj n Q A j i).
Proof.
  intros n A Q lam HO Hl i Hi. pose proof (cj_AQ A n Q (cj n Q A) HO ltac:(intros ? ? ? ?; reflexivity)) as HAQ. unfold eigen_res.
  set (x := fun j => if (j =? i)%nat then 0 else cj n Q A j i).
  rewrite (Sum_ext n _ (fun r => Sum n (fun l => tr Q l r * x l) * Sum n (fun l => tr Q l r * x l))).
  - rewrite vec_orth. 2: { intros a b Ha Hb. destruct HO as (_ & O2). rewrite <- (O2 a b Ha Hb). apply mm_ext; auto. }
    apply Sum_ext. intros j Hj. unfold x. destruct (j =? i)%nat; ring.
  - intros r Hr. rewrite HAQ by auto. assert (E : mm n Q (cj n Q A) r i - lam i * Q r i = Sum n (fun l => tr Q l r * x l)); [|rewrite E; reflexivity].
    rewrite <- (Sum_delta n i (fun l => lam i * Q r l)) by auto. unfold mm at 1. rewrite <- Sum_sub. apply Sum_ext. intros l Hl'. unfold tr, x. destruct (Nat.eqb_spec l i) as [->|]; [rewrite Hl by auto; ring|ring].
Qed.
Theorem C52_eigen : forall tol junk mat n Q lam, 0 < tol -> (2 <= n)%nat -> (Z.of_nat n ^ 4 <= 2147483647)%Z -> (n * n <= length mat)%nat -> (forall i j, (i < n)%nat -> (j < n)%nat -> M mat n i j = M mat n j i) ->
  schur tol junk mat n = Ok (Q, lam) ->
  Sum n (fun i => Sum n (fun r => (Sum n (fun l => M mat n r l * M Q n l i) - nth i lam 0 * M Q n r i) ^ 2)) <= 4 * INR (n - 1) * INR n ^ 4 * tol ^ 2.
Proof.
  intros tol junk mat n Q lam Htol Hn Hf HL HA E. destruct (schur_ok tol junk mat n Htol Hn Hf HL HA) as [(E' & _)|[E'|(Q' & lam' & E' & LQ & Ll & HO & H1 & H2 & H3)]]; rewrite E in E'; try discriminate.
  inversion E'; subst Q' lam'. unfold schur_bound in H2. replace (tol ^ 2) with (tol * tol) by ring. eapply Rle_trans; [|apply H2]. unfold offd. rewrite (Sum_swap n n (fun r c => if (r =? c)%nat then 0 else _)). right. apply Sum_ext. intros i Hi.
  pose proof (residual n (at2 mat n) (at2 Q n) (ent lam) HO H1 i Hi) as G. rewrite <- G. apply Sum_ext. intros r Hr. cbn [pow]. rewrite Rmult_1_r. reflexivity.
Qed.
(** Every symmetric two by two matrix is diagonalised, exactly unless the entry off the diagonal is below the tolerance, except if that entry is the tolerance. *)
Theorem C52_two : forall tol junk a b c, 0 < tol ->
  (Rabs b < tol -> schur tol junk [a; b; b; c] 2 = Ok ([1; 0; 0; -1], [a; c])) /\
  (tol < Rabs b -> exists Q l1 l2, schur tol junk [a; b; b; c] 2 = Ok (Q, [l1; l2]) /\ orth 2 (M Q 2) /\
     forall i j, (i < 2)%nat -> (j < 2)%nat -> mm 2 (mm 2 (tr (M Q 2)) (M [a; b; b; c] 2)) (M Q 2) i j = if (i =? j)%nat then nth i [l1; l2] 0 else 0).
Proof.
  intros tol junk a b c Htol. destruct (schur2 tol a b c junk) as (T & Q & HS & -> & -> & ->).
  assert (E0 : at2 [a; - b; - b; c] 2 1%nat 0%nat = - b) by reflexivity. split; intros Hb.
  - rewrite (iter2_done tol 15) by (auto; rewrite E0, Rabs_Ropp; auto). cbn [rbind]. rewrite diag2 by auto. reflexivity.
  - destruct (iter2_sweep tol a b c Htol 15 _ _ HS) as (T' & Q' & -> & HS' & H & _); [rewrite E0, Rabs_Ropp; lra|]. rewrite E0, Rabs_Ropp in H. specialize (H Hb).
    pose proof HS' as (HL & HLq & HO & HC & Hs).
    rewrite (iter2_done tol 14) by (auto; rewrite H, Rabs_R0; auto). cbn [rbind]. rewrite diag2 by auto. cbn [rbind]. exists Q', (ent T' 0), (ent T' 3). split; auto. split; auto.
    intros i j Hi Hj. pose proof (HC i j Hi Hj) as E. unfold cj in E. etransitivity; [exact E|]. pose proof (Hs 0%nat 1%nat ltac:(lia) ltac:(lia)) as Hs'. destruct i as [|[|]], j as [|[|]]; try lia; cbn [Nat.eqb nth]; auto. congruence.
Qed.
Theorem C52_errors : forall tol junk mat n, (n <= 1)%nat -> schur tol junk mat n = Err ERR_UNSUPPORTED.
Proof. intros tol junk mat n Hn. unfold schur. destruct (Nat.leb_spec n 1); [auto|lia]. Qed.
(** a first column with zeros below the diagonal gives 0 / 0 *)
Lemma breakdown : forall tol junk mat n, (3 <= n)%nat -> (n * n <= length mat)%nat -> symm n (at2 mat n) -> (forall i, (0 < i)%nat -> (i < n)%nat -> at2 mat n i 0%nat = 0) -> schur tol junk mat n = UB.
Proof.
  intros tol junk mat n Hn HL HA Hz. unfold schur. destruct (Nat.leb_spec n 1); [lia|]. destruct (Nat.leb_spec (n * n) (length mat)); [|lia]. cbn [negb].
  destruct (init_id n mat HL) as (Id & EI & _). rewrite EI. cbn [rbind]. set (T := firstn (n * n) mat).
  assert (HLT : length T = (n * n)%nat) by (apply firstn_length_le; auto).
  assert (HT : eqm n n (at2 T n) (at2 mat n)). { intros r c Hr Hc. unfold T, at2, ent. rewrite <- (firstn_skipn (n * n) mat) at 2. rewrite app_nth1; auto. fold T. rewrite HLT. nia. }
  assert (HI : TInv (at2 mat n) n 0 T (map junk (seq 0 (n - 1)))).
  { split; auto. split; [rewrite map_length, seq_length; auto|]. split; [intros; lia|]. assert (E : eqm n n (tcur 0 T n) (at2 mat n)) by (intros r c Hr Hc; unfold tcur; cbn; apply HT; auto). split.
    - intros r c Hr Hc. rewrite !E by auto. apply HA; auto.
    - intros r c Hr Hc. rewrite E by auto. unfold cj. cbn [qm]. rewrite mm_id_r by auto. rewrite (mm_ext n _ idm _ (at2 mat n)); auto; [apply mm_id_l; auto|]. intros. unfold tr. apply idm_sym. }
  destruct (tri_step_ok (at2 mat n) n ltac:(lia) 0 T (map junk (seq 0 (n - 1))) (map junk (seq 0 (n - 1)))) as (H1 & _); auto; [lia|rewrite map_length, seq_length; auto|].
  destruct (n - 1)%nat as [|m] eqn:En; [lia|]. cbn [seq rfold]. rewrite <- En in *. cbn [fold_left]. 
  match goal with |- context [tri_step n 0 ?s] => assert (E : tri_step n 0 s = UB) end.
  { rewrite En in H1. cbn [seq] in H1. apply H1; [lia|]. unfold tpivot. rewrite HT, Hz by lia. rewrite Sum_zero; [ring|]. intros l Hl. rewrite HT, Hz by lia. ring. }
  rewrite E. reflexivity.
Qed.
Example C52_ex_two : exists Q l1 l2, schur (/ 10) (fun _ => 0) [2; 1; 1; 2] 2 = Ok (Q, [l1; l2]) /\ orth 2 (M Q 2) /\
  forall i j, (i < 2)%nat -> (j < 2)%nat -> mm 2 (mm 2 (tr (M Q 2)) (M [2; 1; 1; 2] 2)) (M Q 2) i j = if (i =? j)%nat then nth i [l1; l2] 0 else 0.
Proof. apply C52_two; [lra|]. rewrite Rabs_pos_eq by lra. lra. Qed.

Lemma rdiv_ok : forall a b c, b <> 0 -> a / b = c -> rdiv a b = Ok c.
Proof. intros a b c H <-. unfold rdiv. destruct (Req_EM_T b 0); [contradiction|auto]. Qed.
Example C52_ex_three : forall junk, exists Q lam, schur 1 junk [1; /2; 0; /2; 2; 0; 0; 0; 3] 3 = Ok (Q, lam).
Proof.
  intros junk. unfold schur. cbn -[tri_step acc_step iter rfold Z.pow].
  match goal with |- context [rfold [0%nat; 1%nat] (tri_step 3) ?s] => assert (E : exists T v, rfold [0%nat; 1%nat] (tri_step 3) s = Ok (T, [2; 2], v) /\ length T = 9%nat /\ length v = 2%nat /\ Rabs (nth 3 T 0) < 1 /\ Rabs (nth 7 T 0) < 1) end.
  { assert (Es : sqrt (/2 * /2 + (0 + 0 * 0)) = /2). { replace (/2 * /2 + (0 + 0 * 0)) with (Rsqr (/2)) by (unfold Rsqr; ring). apply sqrt_Rsqr. lra. }
    assert (Ec : copysign (/2) (/2) = /2). { unfold copysign. destruct (Rlt_dec (/2) 0); [lra|]. apply Rabs_pos_eq. lra. }
    unfold rfold. unfold tri_step at 1. cbn -[tri_step rdiv sqrt copysign Rplus Rmult Rminus Ropp]. rewrite Es, Ec.
    rewrite (rdiv_ok _ _ 2) by (try field; lra). rewrite (rdiv_ok 0 _ 0) by (try field; lra). cbn -[tri_step rdiv sqrt copysign Rplus Rmult Rminus Ropp].
    repeat match goal with |- context [?x - ?y] => ring_simplify (x - y) end.
    unfold tri_step. cbn -[rdiv sqrt copysign Rplus Rmult Rminus Ropp].
    match goal with |- context [copysign ?x ?y] => assert (Ez : copysign x y = 0) end.
    { unfold copysign. rewrite Rplus_0_r. replace (0 * 0) with 0 by ring. rewrite sqrt_0, Rabs_R0. destruct (Rlt_dec _ 0); ring. }
    rewrite Ez. eexists _, _. split; [reflexivity|]. cbn [nth length]. split; auto. split; auto. split; [rewrite Rabs_Ropp, Rabs_pos_eq; lra|]. rewrite Rabs_Ropp, Rabs_R0. lra. }
  destruct E as (T & v & -> & HL & Hv & H1 & H2). cbn [rbind]. destruct v as [|v0 [|v1 [|]]]; try discriminate. do 9 (destruct T as [|? T]; [discriminate|]). destruct T; [|discriminate]. cbn [nth] in H1, H2.
  match goal with |- context [rbind (rfold [0%nat; 1%nat; 2%nat] ?f ?l) _] => change (rfold [0%nat; 1%nat; 2%nat] f l) with (Ok [1; 0; 0; 0; 1; 0; 0; 0; 1]) end. cbn [rbind].
  match goal with |- context [rfold [1%nat; 0%nat] (acc_step 3 [2; 2]) (?T0, ?Q0, ?v0)] => assert (E : exists T Q v, rfold [1%nat; 0%nat] (acc_step 3 [2; 2]) (T0, Q0, v0) = Ok (T, Q, v) /\ length T = 9%nat /\ Rabs (nth 3 T 0) < 1 /\ Rabs (nth 7 T 0) < 1) end.
  { unfold rfold, acc_step. cbn -[Rlt_dec Rplus Rmult Rminus Ropp]. destruct (Rlt_dec 0 2); [|lra]. cbn -[Rlt_dec Rplus Rmult Rminus Ropp]. destruct (Rlt_dec 0 2); [|lra]. eexists _, _, _. split; [reflexivity|]. cbn [nth]. auto. }
  destruct E as (T & Q & v & -> & HL' & H3 & H4). cbn [rbind]. do 9 (destruct T as [|? T]; [discriminate|]). destruct T; [|discriminate]. cbn [nth] in H3, H4.
  change (2147483647 <? 3 ^ 4)%Z with false. cbv iota. change 81%nat with (S 80). cbn [iter].
  repeat (cbn -[Rlt_dec iter]; match goal with |- context [Rlt_dec (Rabs ?x) 1] => destruct (Rlt_dec (Rabs x) 1); [|contradiction] end). cbn -[iter]. eexists _, _. reflexivity.
Qed.

(** Finding: a diagonal matrix, for which Q is the identity, is not decomposed if n > 2: the first column has zeros below the diagonal and the scaling of the reflector is 0 / 0 (ceed-basis.c:1251), so
    in floating point mat and lambda are NaN; CeedQRFactorization has the same division. *)
Theorem C52_diagonal_refuted : exists mat, (forall i j, (i < 3)%nat -> (j < 3)%nat -> M mat 3 i j = if (i =? j)%nat then INR (i + 1) else 0) /\ forall tol junk, schur tol junk mat 3 = UB.
Proof.
  exists [1; 0; 0; 0; 2; 0; 0; 0; 3]. split.
  - intros i j Hi Hj. destruct i as [|[|[|]]], j as [|[|[|]]]; try lia; cbn; ring.
  - intros tol junk. apply breakdown; [lia|cbn; lia| |].
    + intros i j Hi Hj. destruct i as [|[|[|]]], j as [|[|[|]]]; try lia; reflexivity.
    + intros i H1 H2. destruct i as [|[|[|]]]; try lia; reflexivity.
Qed.
(** Finding: an entry next to the diagonal which has exactly the absolute value of the tolerance is neither small (|x| < tol, 1292) nor rotated away (|z| > tol, 1310): the iteration makes no progress and
    the error "Symmetric QR failed to converge" is raised. *)
Theorem C52_converge_refuted : forall tol junk a c, 0 < tol -> schur tol junk [a; tol; tol; c] 2 = Err ERR_MINOR.
Proof.
  intros tol junk a c Htol. destruct (schur2 tol a tol c junk) as (T & Q & HS & -> & -> & ->).
  destruct (iter2_stuck tol a tol c Htol 16 _ _ HS) as (T' & Q' & -> & HL). { change (Rabs (- tol) = tol). rewrite Rabs_Ropp. apply Rabs_pos_eq. lra. }
  cbn [rbind]. rewrite diag2 by auto. reflexivity.
Qed.
Print Assumptions C52_schur.
Print Assumptions C52_eigen.
Print Assumptions C52_two.
Print Assumptions C52_errors.
Print Assumptions C52_diagonal_refuted.
Print Assumptions C52_converge_refuted.
