(** * Projection between bases: the matrices *)
From Coq Require Import List ZArith Lia Bool Arith Reals Lra Psatz.
From Verif Require Import Prelude RstrProofs RstrModel TensorModel BasisModel Digits BasisProofs BasisMain BasisProps OpModel OpLists DenseModel DenseProofs QrModel RealLin QrProofs QrFact QrPinv QrCheb ProjModel.
Import ListNotations.
Local Open Scope nat_scope.

(** ** Kronecker products of products *)
Section Kron.
Variable R : Rng.
Add Ring Rkr : (r_th R).
Lemma kron_sum : forall n P (X : nat -> nat -> R), sumn (P ^ n) (fun p => prodn n (fun i => X i (dig P i p))) = prodn n (fun i => sumn P (X i)).
Proof.
  induction n as [|n IH]; intros P X.
  - rewrite Nat.pow_0_r, sumn_S. cbn. ring.
  - destruct (Nat.eq_dec P 0) as [->|HP].
    { rewrite Nat.pow_0_l by lia. cbn [prodn]. change (sumn 0 (X n)) with (0%R : R). transitivity (0%R : R); [reflexivity|ring]. }
    rewrite Nat.pow_succ_r', sumn_mul. cbn [prodn]. rewrite <- IH. rewrite (Rmul_comm (r_th R)), <- sumn_mul_r. apply sumn_ext. intros j Hj.
    rewrite <- sumn_mul_l. apply sumn_ext. intros l Hl. rewrite (Rmul_comm (r_th R)). f_equal.
    + f_equal. unfold dig. rewrite div_enc by auto. apply Nat.mod_small. auto.
    + apply prodn_ext. intros i Hi. rewrite dig_low by lia. reflexivity.
Qed.
Lemma prodn_mul : forall n (f g : nat -> R), (prodn n f * prodn n g)%R = prodn n (fun i => (f i * g i)%R).
Proof. induction n as [|n IH]; intros f g; cbn [prodn]; [ring|]. rewrite <- IH. ring. Qed.
Lemma kron_mm : forall n P (A B : nat -> nat -> R),
  sumn (P ^ n) (fun p => (prodn n (fun i => A i (dig P i p)) * prodn n (fun i => B i (dig P i p)))%R) = prodn n (fun i => sumn P (fun j => (A i j * B i j)%R)).
Proof.
  intros n P A B. rewrite <- (kron_sum n P (fun i j => (A i j * B i j)%R)). apply sumn_ext. intros p _. apply prodn_mul.
Qed.
End Kron.

Local Open Scope R_scope.
(** ** least squares *)
(** the columns of [Y] minimise the distance of [T Y] to [F] *)
Definition best (K n w : nat) (T F Y : mtx) : Prop := forall c, (c < w)%nat -> forall z : nat -> real,
  Sum K (fun r => (mm n T Y r c - F r c) * (mm n T Y r c - F r c)) <= Sum K (fun r => (Sum n (fun l => T r l * z l) - F r c) * (Sum n (fun l => T r l * z l) - F r c)).

Lemma normal_best : forall K n w T F Y, (forall l c, (l < n)%nat -> (c < w)%nat -> Sum K (fun r => T r l * (mm n T Y r c - F r c)) = 0) -> best K n w T F Y.
Proof.
  intros K n w T F Y H c Hc z.
  set (e := fun r => mm n T Y r c - F r c). set (d := fun r => Sum n (fun l => T r l * (z l - Y l c))).
  assert (Hd : forall r, Sum n (fun l => T r l * z l) - F r c = e r + d r).
  { intros r. unfold e, d, mm. rewrite (Sum_ext n (fun l => T r l * (z l - Y l c)) (fun l => T r l * z l - T r l * Y l c)) by (intros; ring). rewrite Sum_sub. ring. }
  assert (Ho : Sum K (fun r => e r * d r) = 0).
  { unfold d. rewrite (Sum_ext K _ (fun r => Sum n (fun l => (z l - Y l c) * (T r l * e r)))).
    2: { intros r _. rewrite <- Sum_mul. apply Sum_ext. intros. ring. }
    rewrite Sum_swap. apply Sum_zero. intros l Hl. rewrite Sum_mul. unfold e. rewrite H by auto. ring. }
  rewrite (Sum_ext K (fun r => (Sum n (fun l => T r l * z l) - F r c) * _) (fun r => (e r * e r + 2 * (e r * d r)) + d r * d r)).
  2: { intros r _. rewrite Hd. ring. }
  rewrite !Sum_add, Sum_mul, Ho. pose proof (Sum_pos K (fun r => d r * d r) ltac:(intros; nra)). unfold e. lra.
Qed.

Section Core.
Variables (eps : real) (junk : nat -> real) (T : list real) (K n : nat).
Hypothesis Hn : (0 < n)%nat.
Hypothesis HK : (n <= K)%nat.
Hypothesis HT : (K * n <= length T)%nat.
Hypothesis Hind : indep K n (at2 T n).

(** what one matrix is *)
Definition one_ok (F : list real) (w : nat) (l : list real) : Prop :=
  length l = (n * w)%nat /\ exists Y, eqm n w (at2 l w) (fun r c => chop eps (Y r c)) /\
    best K n w (at2 T n) (at2 F w) Y /\ forall C, eqm K w (mm n (at2 T n) C) (at2 F w) -> eqm n w Y C.

Lemma inv_ok : exists inv, pinv junk T K n (repeat 0 (K * n)) = Ok inv /\
  forall F w, (K * w <= length F)%nat -> exists l, project_one eps inv n w K F = Ok l /\ one_ok F w l.
Proof.
  destruct (pinv_ok junk T K n (repeat 0 (K * n))) as (P & E & L & Hl & (Q & HQ & HTP) & _); auto. { rewrite repeat_length. lia. }
  rewrite repeat_length in L. exists P. split; auto. intros F w HF. unfold project_one. destruct (Nat.leb_spec (K * w) (length F)); [|lia]. cbn [negb].
  destruct (matmul_real P F n w K) as (l & El & Ll & Gl); auto; [lia|].
  match goal with |- exists l', rbind ?x _ = _ /\ _ => replace x with (@Ok (list real) l) by (symmetry; exact El) end. cbn [rbind].
  eexists. split; [reflexivity|]. split. { rewrite map_length. auto. }
  assert (HTPT : forall r l', (r < K)%nat -> (l' < n)%nat -> mm K (mm n (at2 T n) (at2 P K)) (at2 T n) r l' = at2 T n r l').
  { intros r l' Hr Hl'. rewrite mm_assoc. rewrite (mm_ext n _ (at2 T n) _ idm) by auto. apply mm_id_r. auto. }
  exists (mm K (at2 P K) (at2 F w)). split; [|split].
  - intros r c Hr Hc. rewrite <- Gl by auto. unfold at2, ent. rewrite nth_indep with (d' := chop eps 0) by (rewrite map_length; change (car Rrng) with real in *; rewrite Ll; nia). apply map_nth.
  - apply normal_best. intros l' c Hl' Hc.
    rewrite (Sum_ext K _ (fun r => at2 T n r l' * mm n (at2 T n) (mm K (at2 P K) (at2 F w)) r c - at2 T n r l' * at2 F w r c)) by (intros; ring). rewrite Sum_sub.
    match goal with |- ?a - ?b = 0 => cut (a = b); [lra|] end.
    transitivity (mm K (tr (at2 T n)) (mm K (mm n (at2 T n) (at2 P K)) (at2 F w)) l' c).
    { unfold mm at 3. apply Sum_ext. intros r Hr. f_equal. symmetry. apply mm_assoc. }
    rewrite <- mm_assoc. apply Sum_ext. intros r Hr. f_equal. unfold mm at 1. rewrite <- HTPT by auto. unfold mm at 2. apply Sum_ext. intros s Hs. unfold tr. rewrite HTP, (HTP r s) by auto. unfold mm, tr. rewrite Rmult_comm. f_equal. apply Sum_ext. intros. ring.
  - intros C HC r c Hr Hc. rewrite (mm_ext K _ (at2 P K) _ (mm n (at2 T n) C)); auto. 2: { intros s Hs. symmetry. apply HC; auto. }
    rewrite <- mm_assoc. rewrite (mm_ext n _ idm _ C) by auto. apply mm_id_l. auto.
Qed.

(** [nd] gradient matrices one after the other *)
Lemma cat_each : forall (A : Type) (f : nat -> res (list A)) (P : nat -> list A -> Prop) s nd,
  (forall m, (m < nd)%nat -> exists l, f m = Ok l /\ length l = s /\ P m l) ->
  exists g, cat nd f = Ok g /\ length g = (nd * s)%nat /\ forall m, (m < nd)%nat -> P m (firstn s (skipn (m * s) g)).
Proof.
  intros A f P s. induction nd as [|nd IH]; intros H.
  - exists []. cbn. split; auto. split; auto. intros; lia.
  - destruct IH as (g & E & L & G). { intros m Hm. apply H. lia. }
    destruct (H nd) as (l & El & Ll & Pl); [lia|]. cbn [cat]. rewrite E. cbn [rbind]. rewrite El. cbn [rbind]. exists (g ++ l). split; auto.
    split. { rewrite app_length, L, Ll. lia. }
    intros m Hm. destruct (Nat.eq_dec m nd) as [->|].
    + rewrite skipn_app, L, Nat.sub_diag, skipn_all2 by lia. rewrite <- Ll. cbn. rewrite firstn_all. auto.
    + assert (Hm' : (m < nd)%nat) by lia. pose proof (G m Hm') as X. rewrite skipn_app, firstn_app. rewrite skipn_length, L.
      replace (s - (nd * s - m * s))%nat with 0%nat by nia. cbn [firstn]. rewrite app_nil_r. auto.
Qed.

Lemma core_ok : forall h1 Q qc w nd F G, (Q * qc)%nat = K -> (K * w <= length F)%nat -> (h1 = true -> qc = 1%nat /\ (nd * Q * w <= length G)%nat) ->
  exists ip gp, proj_core eps junk h1 Q qc n w nd T F G = Ok (ip, gp) /\ one_ok F w ip /\ length gp = (n * w * nd)%nat /\
    (h1 = true -> forall m, (m < nd)%nat -> one_ok (skipn (m * Q * w) G) w (firstn (n * w) (skipn (m * (n * w)) gp))).
Proof.
  intros h1 Q qc w nd F G EK HF HG. unfold proj_core. rewrite EK. destruct inv_ok as (inv & E & H). rewrite E. cbn [rbind].
  destruct (H F w HF) as (ip & E1 & O1). rewrite E1. cbn [rbind].
  destruct h1.
  - destruct (HG eq_refl) as (-> & HG').
    destruct (cat_each real (fun m => project_one eps inv n w K (skipn (m * Q * w) G)) (fun m l => one_ok (skipn (m * Q * w) G) w l) (n * w) nd) as (gp & E2 & L2 & G2).
    { intros m Hm. destruct (H (skipn (m * Q * w) G) w) as (l & El & Ol). { rewrite skipn_length. nia. } exists l. split; auto. split; auto. apply Ol. }
    rewrite E2. cbn [rbind]. exists ip, gp. split; auto. split; auto. split; [lia|]. auto.
  - cbn [rbind]. exists ip, (repeat 0 (n * w * nd)). split; auto. split; auto. split; [apply repeat_length|]. discriminate.
Qed.
End Core.
