(** * C53: simultaneous diagonalization *)
From Coq Require Import List ZArith Lia Bool Arith Reals Lra Psatz.
From Verif Require Import Prelude RstrModel OpModel OpLists DenseModel DenseProofs QrModel RealLin QrProofs QrFact SchurModel SchurTri SchurRot SchurMain SchurProps SimDiag.
Import ListNotations.
Local Open Scope R_scope.
(** A and B symmetric, x^T B x >= delta |x|^2 with delta > 0.  The function ends in one of three ways.  A division by zero: the first unit vector is in an invariant subspace of dimension at most n - 2
    of B or of the matrix S^T A S of the second decomposition, where S^T B S has the diagonal 1.  The error of no convergence.  Or success: the diagonal of X^T A X is lambda, the rest of X^T A X
    and the difference of X^T B X and the identity are small, the values are in the order of the absolute values, and X is invertible. *)
Theorem C53_simdiag : forall tol junk A B n delta, 0 < tol -> 0 < delta -> (2 <= n)%nat -> (Z.of_nat n ^ 4 <= 2147483647)%Z -> (n * n <= length A)%nat -> (n * n <= length B)%nat ->
  (forall i j, (i < n)%nat -> (j < n)%nat -> M A n i j = M A n j i) -> (forall i j, (i < n)%nat -> (j < n)%nat -> M B n i j = M B n j i) ->
  (forall x : nat -> real, delta * Sum n (fun i => x i ^ 2) <= Sum n (fun i => Sum n (fun j => x i * M B n i j * x j))) ->
  (simdiag tol junk A B n = UB /\ exists d, (1 <= d)%nat /\ (d <= n - 2)%nat /\ (inv_space n (M B n) d \/
     exists S, inv_space n (mm n (mm n (tr S) (M A n)) S) d /\ forall i, (i < n)%nat -> mm n (mm n (tr S) (M B n)) S i i = 1)) \/
  simdiag tol junk A B n = Err ERR_MINOR \/
  exists X lam, simdiag tol junk A B n = Ok (X, lam) /\ length X = (n * n)%nat /\ length lam = n /\
    (forall i, (i < n)%nat -> mm n (mm n (tr (M X n)) (M A n)) (M X n) i i = nth i lam 0) /\
    Sum n (fun i => Sum n (fun j => if (i =? j)%nat then 0 else mm n (mm n (tr (M X n)) (M A n)) (M X n) i j ^ 2)) <= 4 * INR (n - 1) * INR n ^ 4 * tol ^ 2 /\
    Sum n (fun i => Sum n (fun j => (mm n (mm n (tr (M X n)) (M B n)) (M X n) i j - if (i =? j)%nat then 1 else 0) ^ 2)) <= 4 * INR (n - 1) * INR n ^ 4 * tol ^ 2 / delta ^ 2 /\
    (forall i j, (i <= j)%nat -> (j < n)%nat -> Rabs (nth i lam 0) <= Rabs (nth j lam 0)) /\
    exists Y : mtx, forall i j, (i < n)%nat -> (j < n)%nat -> mm n (M X n) Y i j = (if (i =? j)%nat then 1 else 0) /\ mm n Y (M X n) i j = if (i =? j)%nat then 1 else 0.
Proof.
  intros tol junk A B n de Htol Hde Hn Hf LA LB HA HB Hc.
  destruct (simdiag_ok tol junk A B n de Htol Hde Hn Hf LA LB HA HB) as [H|[H|(X & lam & E & LX & Ll & H1 & H2 & H3 & H4 & Y & Y1 & Y2)]]; [|left; exact H|right; left; exact H|].
  { intros x. eapply Rle_trans; [|apply (Hc x)]. right. f_equal. apply Sum_ext. intros. ring. }
  right. right. exists X, lam. unfold schur_bound in *. replace (tol ^ 2) with (tol * tol) by ring. replace (de ^ 2) with (de * de) by ring.
  split; auto. split; auto. split; auto. split; [|split; [|split; [|split]]]; auto.
  3: { exists Y. intros i j Hi Hj. split; [apply Y1; auto|apply Y2; auto]. }
  - eapply Rle_trans; [|apply H2]. right. apply Sum_ext. intros i Hi. apply Sum_ext. intros j Hj. destruct (i =? j)%nat; auto. cbn [pow]. rewrite Rmult_1_r. reflexivity.
  - eapply Rle_trans; [|apply H3]. right. apply Sum_ext. intros i Hi. apply Sum_ext. intros j Hj. cbn [pow]. rewrite Rmult_1_r. reflexivity.
Qed.
Theorem C53_errors : forall tol junk A B n, (n <= 1)%nat -> (n * n <= length B)%nat -> simdiag tol junk A B n = Err ERR_UNSUPPORTED.
Proof. intros tol junk A B n Hn HB. unfold simdiag. destruct (Nat.leb_spec (n * n) (length B)); [|lia]. cbn [negb]. rewrite C52_errors by auto. reflexivity. Qed.

(** the identity, two by two *)
Lemma sort2 : forall G a b, Rabs a <= Rabs b -> sort_cols 2 G [a; b] = Ok (G, [a; b]).
Proof. intros G a b H. unfold sort_cols. cbn [seq rev app rfold]. cbn [rbind]. unfold sort_step. cbn -[Rlt_dec]. destruct (Rlt_dec (Rabs b) (Rabs a)); [lra|]. reflexivity. Qed.
Lemma sim_id2 : forall tol junk a b c, 0 < tol -> simdiag tol junk [a; b; b; c] [1; 0; 0; 1] 2 =
  (cl <~ schur tol junk [a; - b; - b; c] 2 ;; cl <~ sort_cols 2 (fst cl) (snd cl) ;; X <~ @matmul Rrng [1; 0; 0; -1] (fst cl) 2 2 2 ;; Ok (X, snd cl)).
Proof.
  intros tol junk a b c Htol. unfold simdiag. match goal with |- (if ?t then _ else _) = _ => change t with false end. cbv iota. change (firstn (2 * 2) [1; 0; 0; 1]) with [1; 0; 0; 1].
  rewrite (proj1 (C52_two tol junk 1 0 1 Htol)) by (rewrite Rabs_R0; auto). cbn [rbind fst snd]. rewrite sort2 by lra. cbn [rbind].
  match goal with |- context [rbind (rfold (seq 0 2) ?f [1; 1]) _] => assert (E : rfold (seq 0 2) f [1; 1] = Ok [1; 1]) end.
  { cbn [seq rfold og]. cbn -[rdiv sqrt]. rewrite sqrt_1. rewrite (rdiv_ok 1 1 1) by lra. cbn -[rdiv sqrt]. rewrite sqrt_1. rewrite (rdiv_ok 1 1 1) by lra. reflexivity. }
  rewrite E. cbn [rbind].
  match goal with |- rbind (rfold _ ?f ?s) _ = _ => assert (E' : rfold (seq 0 2) f s = Ok ([1; 0; 0; -1], [1; 0; 0; -1])) end.
  { cbn -[Rmult]. replace (1 * 1) with 1 by ring. replace (0 * 1) with 0 by ring. replace (-1 * 1) with (-1) by ring. reflexivity. }
  rewrite E'. cbn [rbind].
  assert (E1 : @matmul Rrng [1; 0; 0; -1] [a; b; b; c] 2 2 2 = Ok [a; b; - b; - c]). { cbn -[Rmult Rplus]. f_equal. repeat (f_equal; [ring|]). f_equal. ring. }
  rewrite E1. cbn [rbind].
  assert (E2 : @matmul Rrng [a; b; - b; - c] [1; 0; 0; -1] 2 2 2 = Ok [a; - b; - b; c]). { cbn -[Rmult Rplus]. f_equal. repeat (f_equal; [ring|]). f_equal. ring. }
  rewrite E2. reflexivity.
Qed.
Lemma sort2_any : forall G a b, length G = 4%nat -> exists G' d, sort_cols 2 G [a; b] = Ok (G', d) /\ length G' = 4%nat.
Proof.
  intros G a b HL. destruct (sort_cols_ok 2 4 ltac:(lia) (fun _ => True)) with (G := G) (D := [a; b]) as (G' & D' & E & L & _); auto. exists G', D'. auto.
Qed.
Example C53_ex : forall junk, exists X lam, simdiag (/ 10) junk [2; 1; 1; 2] [1; 0; 0; 1] 2 = Ok (X, lam).
Proof.
  intros junk. rewrite sim_id2 by lra. destruct (C52_two (/ 10) junk 2 (- (1)) 2 ltac:(lra)) as (_ & H). destruct H as (Q & l1 & l2 & E & _). { rewrite Rabs_left by lra. lra. }
  assert (LQ : length Q = 4%nat). { destruct (C52_schur (/ 10) junk [2; - (1); - (1); 2] 2) as [(E' & _)|[E'|(Q' & lam & E' & L & _)]]; try rewrite E in E'; try discriminate; try lra; try lia; [cbn; lia| |inversion E'; subst; auto].
    intros i j Hi Hj. destruct i as [|[|]], j as [|[|]]; try lia; reflexivity. }
  rewrite E. cbn [rbind fst snd]. destruct (sort2_any Q l1 l2 LQ) as (Q' & d & E' & L'). rewrite E'. cbn [rbind fst snd]. do 4 (destruct Q' as [|? Q']; [discriminate|]). destruct Q'; [|discriminate]. eexists _, _. reflexivity.
Qed.
Example C53_ex_hyps : (forall i j, (i < 2)%nat -> (j < 2)%nat -> M [2; 1; 1; 2] 2 i j = M [2; 1; 1; 2] 2 j i) /\
  forall x : nat -> real, 1 * Sum 2 (fun i => x i ^ 2) <= Sum 2 (fun i => Sum 2 (fun j => x i * M [1; 0; 0; 1] 2 i j * x j)).
Proof. split; [intros i j Hi Hj; destruct i as [|[|]], j as [|[|]]; try lia; reflexivity|]. intros x. unfold M. cbn. nra. Qed.

(** Finding: B diagonal and positive, the mass matrix of a collocated (lumped) discretization or the identity, gives NaN for all A if n > 2 (see C52). *)
Theorem C53_lumped_refuted : forall tol junk A B n, (3 <= n)%nat -> (n * n <= length B)%nat -> (forall i j, (i < n)%nat -> (j < n)%nat -> M B n i j = if (i =? j)%nat then 1 else 0) ->
  simdiag tol junk A B n = UB.
Proof.
  intros tol junk A B n Hn HL HB. unfold simdiag. destruct (Nat.leb_spec (n * n) (length B)); [|lia]. cbn [negb].
  assert (E : eqm n n (at2 (firstn (n * n) B) n) (at2 B n)) by (apply firstn_at2; auto). assert (HB' : eqm n n (at2 B n) idm) by (intros i j Hi Hj; apply HB; auto).
  rewrite breakdown; auto.
  - rewrite firstn_length_le; auto.
  - intros i j Hi Hj. rewrite !E, !HB' by auto. apply idm_sym.
  - intros i H1 H2. rewrite E, HB' by lia. unfold idm. destruct (Nat.eqb_spec i 0); [lia|auto].
Qed.
(** Finding: the documentation calls the function equivalent to the LAPACK routine sygv, which returns the values in ascending order; the values are sorted by absolute value. *)
Theorem C53_ascending_refuted : forall tol junk, 0 < tol -> exists X, simdiag tol junk [1; 0; 0; -2] [1; 0; 0; 1] 2 = Ok (X, [1; -2]).
Proof.
  intros tol junk Htol. rewrite sim_id2 by auto. rewrite (proj1 (C52_two tol junk 1 (- 0) (-2) Htol)) by (rewrite Ropp_0, Rabs_R0; auto). cbn [rbind fst snd].
  rewrite sort2. 2: { rewrite (Rabs_left (-2)), Rabs_pos_eq by lra. lra. } cbn [rbind]. eexists. reflexivity.
Qed.
Print Assumptions C53_simdiag.
Print Assumptions C53_errors.
Print Assumptions C53_lumped_refuted.
Print Assumptions C53_ascending_refuted.
