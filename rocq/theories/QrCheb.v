(** * Uses of the pseudoinverse: collocated gradient, Chebyshev coefficients *)
From Coq Require Import List ZArith Lia Bool Arith Reals Lra Psatz Ring.
From Verif Require Import Prelude RstrModel BasisModel OpModel OpLists DenseModel DenseProofs PointsModel PointsProofs QrModel RealLin QrProofs QrFact QrPinv.
Import ListNotations.
Local Open Scope nat_scope.

Section C.
Variable R : Rng.
Add Ring Rr : (r_th R).
Lemma nth_padd : forall p q k, nth k (@padd R p q) 0%R = (nth k p 0 + nth k q 0)%R.
Proof. induction p as [|a p IH]; intros [|b q] [|k]; simpl; try ring. apply IH. Qed.
Lemma nth_pscale : forall c p k, nth k (@pscale R c p) 0%R = (c * nth k p 0)%R.
Proof. intros c. induction p as [|a p IH]; intros [|k]; simpl; try ring. apply IH. Qed.
Lemma length_padd : forall p q, length (@padd R p q) = Nat.max (length p) (length q).
Proof. induction p as [|a p IH]; intros [|b q]; simpl; auto. Qed.
Lemma length_pscale : forall c p, length (@pscale R c p) = length p.
Proof. intros. apply map_length. Qed.
Lemma length_cheb : forall n, length (@cheb R n) = n + 1.
Proof.
  enough (H : forall n, length (@cheb R n) = n + 1 /\ length (@cheb R (S n)) = S n + 1) by (intros n; apply H).
  induction n as [|n (H1 & H2)]; [split; reflexivity|]. split; auto. rewrite cheb_SS, length_padd. cbn [length]. rewrite !length_pscale, H1, H2. lia.
Qed.
Lemma cheb_coef : forall n k, nth k (@cheb R (S (S n))) 0%R = ((if k =? 0 then 0 else (1 + 1) * nth (k - 1) (cheb (S n)) 0) - nth k (cheb n) 0)%R.
Proof. intros n k. rewrite cheb_SS, nth_padd, nth_pscale. destruct k as [|k]; cbn [nth Nat.eqb]; [ring|]. rewrite nth_pscale. replace (S k - 1) with k by lia. ring. Qed.
End C.

Local Open Scope R_scope.
Definition ev (p : list real) (x : real) : real := @peval Rrng p x.
Lemma ev_cons : forall a p x, ev (a :: p) x = a + x * ev p x.
Proof. reflexivity. Qed.
(** synthetic division by [x - r] *)
Fixpoint sd (r : real) (p : list real) : list real := match p with [] => [] | a :: p => match p with [] => [] | _ => ev p r :: sd r p end end.
Lemma sd_cons : forall r a p, p <> [] -> sd r (a :: p) = ev p r :: sd r p.
Proof. intros r a [|b p] H; [congruence|reflexivity]. Qed.
Lemma sd_length : forall r p, length (sd r p) = (length p - 1)%nat.
Proof. induction p as [|a p IH]; auto. destruct p as [|b p]; [reflexivity|]. rewrite sd_cons by discriminate. cbn [length] in *. rewrite IH. lia. Qed.
Lemma sd_ev : forall r p x, ev p x = (x - r) * ev (sd r p) x + ev p r.
Proof.
  induction p as [|a p IH]; intros x. { unfold ev. cbn. ring. }
  destruct p as [|b p]. { unfold ev. cbn. ring. }
  rewrite sd_cons by discriminate. rewrite !(ev_cons a), (ev_cons (ev (b :: p) r)), IH. ring.
Qed.
Lemma sd_coef : forall r p k, ent p k = (if (k =? 0)%nat then ev p r else ent (sd r p) (k - 1)) - r * ent (sd r p) k.
Proof.
  induction p as [|a p IH]; intros k. { unfold ent. destruct k; cbn; unfold ev; cbn; [ring|]. destruct (k - 0)%nat, k; ring. }
  destruct p as [|b p]. { unfold ent. destruct k as [|[|k]]; cbn; unfold ev; cbn; try ring. }
  rewrite sd_cons by discriminate. destruct k as [|k].
  - unfold ent. cbn [nth Nat.eqb]. rewrite ev_cons. ring.
  - change (ent (a :: b :: p) (S k)) with (ent (b :: p) k). rewrite IH. cbn [Nat.eqb]. replace (S k - 1)%nat with k by lia. destruct k as [|k]; unfold ent; cbn [nth Nat.eqb]; try replace (S k - 1)%nat with k by lia; ring.
Qed.
(** a polynomial with as many roots as coefficients is zero *)
Lemma roots_zero : forall n p (xs : nat -> real), (length p <= n)%nat -> (forall i j, (i < n)%nat -> (j < n)%nat -> xs i = xs j -> i = j) ->
  (forall i, (i < n)%nat -> ev p (xs i) = 0) -> forall k, ent p k = 0.
Proof.
  induction n as [|n IH]; intros p xs HL Hinj Hr k.
  - destruct p; [|cbn in HL; lia]. unfold ent. destruct k; reflexivity.
  - assert (Hz : forall k, ent (sd (xs n) p) k = 0).
    { apply (IH (sd (xs n) p) xs).
      - rewrite sd_length. lia.
      - intros; apply Hinj; auto; lia.
      - intros i Hi. pose proof (sd_ev (xs n) p (xs i)) as E. rewrite !Hr in E by lia. assert (xs i - xs n <> 0). { intros H. assert (xs i = xs n) by lra. assert (i = n) by (apply Hinj; auto; lia). lia. } nra. }
    rewrite (sd_coef (xs n)), !Hz, Hr by lia. destruct (k =? 0)%nat; ring.
Qed.

(** ** Chebyshev polynomials at distinct points are independent *)
Definition U (a k : nat) : real := ent (@cheb Rrng a) k.
Lemma U_rec : forall n k, U (S (S n)) k = (if (k =? 0)%nat then 0 else 2 * U (S n) (k - 1)) - U n k.
Proof. intros n k. unfold U, ent. pose proof (cheb_coef Rrng n k) as E. transitivity ((if (k =? 0)%nat then 0 else (1 + 1) * nth (k - 1) (@cheb Rrng (S n)) 0) - nth k (@cheb Rrng n) 0); [exact E|]. reflexivity. Qed.
Lemma U_high : forall a k, (a < k)%nat -> U a k = 0.
Proof. intros a k H. unfold U, ent. apply nth_overflow. etransitivity; [|exact H]. apply Nat.eq_le_incl. etransitivity; [exact (length_cheb Rrng a)|apply Nat.add_1_r]. Qed.
Lemma U_lead : forall a, U a a = 2 ^ a.
Proof.
  enough (H : forall a, U a a = 2 ^ a /\ U (S a) (S a) = 2 ^ (S a)) by (intros a; apply H).
  induction a as [|a (H1 & H2)]. { split; unfold U, ent; cbn; ring. } split; auto.
  rewrite U_rec. cbn [Nat.eqb]. replace (S (S a) - 1)%nat with (S a) by lia. rewrite H2, U_high by lia. cbn [pow]. ring.
Qed.
Fixpoint comb (n : nat) (c : nat -> real) : list real := match n with O => [] | S n => @padd Rrng (comb n c) (@pscale Rrng (c n) (@cheb Rrng n)) end.
Lemma comb_length : forall n c, (length (comb n c) <= n)%nat.
Proof. induction n as [|n IH]; intros c; cbn [comb length]; auto.
  pose proof (length_padd Rrng (comb n c) (@pscale Rrng (c n) (@cheb Rrng n))) as L. rewrite length_pscale, length_cheb in L. specialize (IH c). cbn [car Rrng] in L. change (car Rrng) with real in L. lia. Qed.
Lemma comb_coef : forall n c k, ent (comb n c) k = Sum n (fun a => U a k * c a).
Proof.
  induction n as [|n IH]; intros c k; cbn [comb Sum]. { unfold ent. destruct k; reflexivity. }
  rewrite <- IH. unfold U, ent. transitivity (nth k (comb n c) 0 + nth k (@pscale Rrng (c n) (@cheb Rrng n)) 0); [exact (nth_padd Rrng _ _ k)|].
  f_equal. transitivity (c n * nth k (@cheb Rrng n) 0); [exact (nth_pscale Rrng _ _ k)|apply Rmult_comm].
Qed.
Lemma comb_ev : forall n c x, ev (comb n c) x = Sum n (fun a => @peval Rrng (@cheb Rrng a) x * c a).
Proof.
  induction n as [|n IH]; intros c x; cbn [comb Sum]. { reflexivity. }
  rewrite <- IH. unfold ev. transitivity (@peval Rrng (comb n c) x + @peval Rrng (@pscale Rrng (c n) (@cheb Rrng n)) x); [exact (@peval_padd Rrng _ _ x)|].
  f_equal. transitivity (c n * @peval Rrng (@cheb Rrng n) x); [exact (@peval_pscale Rrng _ _ x)|apply Rmult_comm].
Qed.
Lemma cheb_indep : forall n (xs : nat -> real), (forall i j, (i < n)%nat -> (j < n)%nat -> xs i = xs j -> i = j) ->
  indep n n (fun i a => @peval Rrng (@cheb Rrng a) (xs i)).
Proof.
  intros n xs Hinj c Hc. assert (Hz : forall k, ent (comb n c) k = 0).
  { apply (roots_zero n (comb n c) xs); auto; [apply comb_length|]. intros i Hi. rewrite comb_ev. apply Hc. auto. }
  apply (upper_inj n (fun k a => U a k)).
  - intros k a H _. apply U_high. auto.
  - intros a _. rewrite U_lead. apply pow_nonzero. lra.
  - intros k Hk. rewrite <- comb_coef. apply Hz.
Qed.

(** ** the routines *)
Lemma matmul_real : forall (A B : list real) m n k, (m * k <= length A)%nat -> (k * n <= length B)%nat ->
  exists C, @matmul Rrng A B m n k = Ok C /\ length C = (m * n)%nat /\ eqm m n (at2 C n) (mm k (at2 A k) (at2 B n)).
Proof.
  intros A B m n k HA HB. destruct (matmul_ok Rrng A B m n k HA HB) as (C & E & L & G). exists C. split; auto. split; auto.
  intros i j Hi Hj. etransitivity; [exact (G i j (0 : real) Hi Hj)|]. exact (Sum_sumn k _).
Qed.
Lemma collo_grad_ok : forall junk P Q (interp grad : list real), (0 < P)%nat -> (P <= Q)%nat -> (Q * P <= length interp)%nat -> (Q * P <= length grad)%nat -> indep Q P (at2 interp P) ->
  exists cg, collo_grad junk P Q interp grad = Ok cg /\ length cg = (Q * Q)%nat /\ eqm Q P (mm Q (at2 cg Q) (at2 interp P)) (at2 grad P).
Proof.
  intros junk P Q interp grad HP HPQ Hi Hg Hind. unfold collo_grad.
  destruct (pinv_ok junk interp Q P (repeat 0 (P * Q))) as (p & E & Lp & Hl & _); auto. { rewrite repeat_length. lia. }
  rewrite repeat_length in Lp. rewrite E. cbn [rbind]. destruct (matmul_real grad p Q Q P) as (cg & E' & L & G); auto; [lia|].
  exists cg. split; auto. split; auto. intros q r Hq Hr. rewrite (mm_ext Q _ (mm P (at2 grad P) (at2 p Q)) _ (at2 interp P)) by auto.
  rewrite mm_assoc. rewrite (mm_ext P _ (at2 grad P) _ idm) by auto. apply mm_id_r. auto.
Qed.
Lemma cheb_mat_ok : forall Q (qref : list real), (2 <= Q)%nat -> (Q <= length qref)%nat ->
  exists C : list real, rfold (seq 0 Q) (fun i (C : list real) => x <~ og qref i ;; r <~ ofopt (@cheb_vals Rrng x Q (skipn (i * Q) C)) ;; Ok (firstn (i * Q) C ++ r)) (repeat 0 (Q * Q)) = Ok C /\
  length C = (Q * Q)%nat /\ eqm Q Q (at2 C Q) (fun i a => @peval Rrng (@cheb Rrng a) (ent qref i)).
Proof.
  intros Q qref HQ Hq.
  match goal with |- exists C, rfold _ ?f ?s00 = _ /\ _ => destruct (@rfold_inv0 (list real) (fun i C => length C = (Q * Q)%nat /\ forall i' a, (i' < i)%nat -> (a < Q)%nat -> at2 C Q i' a = @peval Rrng (@cheb Rrng a) (ent qref i')) f Q s00) as (C & E & L & G) end.
  - split; [apply repeat_length|]. intros; lia.
  - intros i C Hi (L & G). rewrite og_ent by lia. cbn [rbind].
    assert (X : exists b : list real, @cheb_vals Rrng (ent qref i) Q (skipn (i * Q) C) = Some b /\ length b = length (skipn (i * Q) C) /\ (forall a, (a < Q)%nat -> ent b a = @peval Rrng (@cheb Rrng a) (ent qref i))).
    { destruct (@cheb_vals_ok Rrng (ent qref i) Q (skipn (i * Q) C)) as (b & E & Lb & G1 & G2); auto. { transitivity (length C - i * Q)%nat; [rewrite L; nia|]. apply Nat.eq_le_incl. symmetry. exact (skipn_length (i * Q) C). } exists b. split; [exact E|]. split; [exact Lb|exact G1]. }
    destruct X as (b & E & Lb & G1).
    match goal with |- exists s', rbind ?x _ = _ /\ _ => replace x with (@Ok (list real) b) by (symmetry; exact (f_equal (@ofopt _) E)) end.
    cbn [rbind]. eexists. split; [reflexivity|]. rewrite skipn_length, L in Lb. assert (HF : length (firstn (i * Q) C) = (i * Q)%nat) by (rewrite firstn_length; nia). change (car Rrng) with real.
    split. { rewrite app_length, HF. rewrite Lb. nia. }
    intros i' a Hi' Ha. unfold at2, ent. destruct (Nat.eq_dec i' i) as [->|].
    + rewrite app_nth2 by lia. rewrite HF. replace (i * Q + a - i * Q)%nat with a by lia. exact (G1 a Ha).
    + rewrite app_nth1 by (rewrite HF; nia). etransitivity; [|apply (G i' a); lia]. unfold at2, ent. rewrite <- (firstn_skipn (i * Q) C) at 2. rewrite app_nth1 by (rewrite HF; nia). reflexivity.
  - exists C. split; [exact E|]. split; auto.
Qed.
Lemma cheb_interp_ok : forall junk P Q (interp qref : list real), (0 < P)%nat -> (2 <= Q)%nat -> (Q * P <= length interp)%nat -> (Q <= length qref)%nat ->
  (forall i j, (i < Q)%nat -> (j < Q)%nat -> ent qref i = ent qref j -> i = j) ->
  exists ci, cheb_interp junk P Q interp qref = Ok ci /\ length ci = (Q * P)%nat /\
  eqm Q P (mm Q (fun q a => @peval Rrng (@cheb Rrng a) (ent qref q)) (at2 ci P)) (at2 interp P).
Proof.
  intros junk P Q interp qref HP HQ Hi Hq Hinj. unfold cheb_interp. destruct (Nat.ltb_spec 0 P); [|lia]. destruct (Nat.ltb_spec 0 Q); [|lia]. cbn [andb negb].
  destruct (cheb_mat_ok Q qref HQ Hq) as (C & E & L & G).
  match goal with |- exists s', rbind ?x _ = _ /\ _ => replace x with (@Ok (list real) C) by (symmetry; exact E) end. cbn [rbind]. clear E.
  destruct (pinv_ok junk C Q Q (repeat 0 (Q * Q))) as (p & E & Lp & _ & (q & (Ho & _) & Hr) & _); auto; try (rewrite ?repeat_length; lia).
  { apply (indep_ext Q Q (fun i a => @peval Rrng (@cheb Rrng a) (ent qref i)) _ (fun i j Hi Hj => eq_sym (G i j Hi Hj))). apply (cheb_indep Q (ent qref) Hinj). }
  rewrite repeat_length in Lp. rewrite E. cbn [rbind]. destruct (matmul_real p interp Q P Q) as (ci & E' & L' & G'); auto; [lia|].
  exists ci. split; auto. split; auto. intros i j Hi' Hj. rewrite (mm_ext Q _ (at2 C Q) _ (mm Q (at2 p Q) (at2 interp P))); auto. 2: { intros l Hl. rewrite G by auto. reflexivity. }
  rewrite <- mm_assoc. rewrite (mm_ext Q _ idm _ (at2 interp P)); auto; [apply mm_id_l; auto|]. intros l Hl. rewrite Hr by auto. apply Ho; auto.
Qed.
