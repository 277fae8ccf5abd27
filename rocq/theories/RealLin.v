(** * Real matrices: sums, products, Householder matrices, triangular systems *)
From Coq Require Import List ZArith Lia Bool Arith Reals Lra Psatz.
From Verif Require Import Prelude QrModel.
Import ListNotations.
Local Open Scope nat_scope.
Local Open Scope R_scope.
Notation "a <n b" := (Nat.lt a b) (at level 70).

Fixpoint Sum (n : nat) (f : nat -> real) : real := match n with O => 0 | S n => Sum n f + f n end.
Lemma Sum_sumn : forall n (f : nat -> real), @sumn Rrng n f = Sum n f.
Proof. induction n as [|n IH]; intros f; [reflexivity|]. rewrite sumn_S, IH. reflexivity. Qed.
Lemma Sum_ext : forall n f g, (forall i, (i < n)%nat -> f i = g i) -> Sum n f = Sum n g.
Proof. induction n as [|n IH]; intros f g H; cbn [Sum]; auto. rewrite (IH f g), H by auto. reflexivity. Qed.
Lemma Sum_zero : forall n f, (forall i, (i < n)%nat -> f i = 0) -> Sum n f = 0.
Proof. induction n as [|n IH]; intros f H; cbn [Sum]; auto. rewrite IH, H by auto. ring. Qed.
Lemma Sum_add : forall n f g, Sum n (fun i => f i + g i) = Sum n f + Sum n g.
Proof. induction n as [|n IH]; intros f g; cbn [Sum]; [ring|]. rewrite IH. ring. Qed.
Lemma Sum_sub : forall n f g, Sum n (fun i => f i - g i) = Sum n f - Sum n g.
Proof. induction n as [|n IH]; intros f g; cbn [Sum]; [ring|]. rewrite IH. ring. Qed.
Lemma Sum_mul : forall n c f, Sum n (fun i => c * f i) = c * Sum n f.
Proof. induction n as [|n IH]; intros c f; cbn [Sum]; [ring|]. rewrite IH. ring. Qed.
Lemma Sum_mulr : forall n c f, Sum n (fun i => f i * c) = Sum n f * c.
Proof. induction n as [|n IH]; intros c f; cbn [Sum]; [ring|]. rewrite IH. ring. Qed.
Lemma Sum_swap : forall n m (f : nat -> nat -> real), Sum n (fun i => Sum m (f i)) = Sum m (fun j => Sum n (fun i => f i j)).
Proof. induction n as [|n IH]; intros m f; cbn [Sum]; [symmetry; apply Sum_zero; auto|]. rewrite IH, Sum_add. reflexivity. Qed.
Lemma Sum_app : forall n m f, Sum (n + m) f = Sum n f + Sum m (fun i => f (n + i)%nat).
Proof. induction m as [|m IH]; intros f; cbn [Sum]; [rewrite Nat.add_0_r; ring|]. rewrite Nat.add_succ_r. cbn [Sum]. rewrite IH. ring. Qed.
Lemma Sum_delta : forall n k f, (k < n)%nat -> Sum n (fun i => (if i =? k then 1 else 0) * f i) = f k.
Proof.
  induction n as [|n IH]; intros k f Hk; [lia|]. cbn [Sum]. destruct (Nat.eqb_spec n k) as [->|Hne].
  - rewrite Sum_zero; [ring|]. intros i Hi. destruct (Nat.eqb_spec i k); [lia|ring].
  - rewrite IH by lia. ring.
Qed.
Lemma Sum_pos : forall n f, (forall i, (i < n)%nat -> 0 <= f i) -> 0 <= Sum n f.
Proof. induction n as [|n IH]; intros f H; cbn [Sum]; [lra|]. pose proof (H n ltac:(lia)). pose proof (IH f ltac:(auto)). lra. Qed.
Lemma Sum_sq_0 : forall n f, Sum n (fun i => f i * f i) = 0 -> forall i, (i < n)%nat -> f i = 0.
Proof.
  induction n as [|n IH]; intros f H i Hi; [lia|]. cbn [Sum] in H.
  assert (P : 0 <= Sum n (fun i => f i * f i)) by (apply Sum_pos; intros; nra). assert (Hn : f n * f n = 0) by nra. assert (H0 : f n = 0) by nra.
  destruct (Nat.eq_dec i n) as [->|]; auto. apply (IH f); [nra|lia].
Qed.

Lemma Sum_from : forall m f i, (i < m)%nat -> (forall l, (l < i)%nat -> f l = 0) -> Sum m f = f i + Sum (m - (i + 1)) (fun l => f (i + 1 + l)%nat).
Proof.
  intros m f i Hi Hz. replace m with (i + 1 + (m - (i + 1)))%nat at 1 by lia. rewrite Sum_app. f_equal. rewrite Nat.add_1_r. cbn [Sum]. rewrite Sum_zero by auto. ring.
Qed.

(** ** matrices *)
Definition mtx := nat -> nat -> real.
Definition mm (k : nat) (A B : mtx) : mtx := fun i j => Sum k (fun l => A i l * B l j).
Definition idm : mtx := fun i j => if i =? j then 1 else 0.
Definition tr (A : mtx) : mtx := fun i j => A j i.
Definition eqm (m n : nat) (A B : mtx) : Prop := forall i j, (i < m)%nat -> (j < n)%nat -> A i j = B i j.
Lemma mm_assoc : forall k l A B C i j, mm k (mm l A B) C i j = mm l A (mm k B C) i j.
Proof.
  intros k l A B C i j. unfold mm. rewrite (Sum_ext k _ (fun a => Sum l (fun b => A i b * B b a * C a j))).
  2: { intros a _. rewrite <- Sum_mulr. reflexivity. }
  rewrite Sum_swap. apply Sum_ext. intros b _. rewrite <- Sum_mul. apply Sum_ext. intros a _. ring.
Qed.
Lemma mm_id_l : forall k A i j, (i < k)%nat -> mm k idm A i j = A i j.
Proof. intros k A i j Hi. unfold mm, idm. rewrite <- (Sum_delta k i (fun l => A l j) Hi). apply Sum_ext. intros l _. rewrite Nat.eqb_sym. reflexivity. Qed.
Lemma mm_id_r : forall k A i j, (j < k)%nat -> mm k A idm i j = A i j.
Proof. intros k A i j Hj. unfold mm, idm. rewrite <- (Sum_delta k j (fun l => A i l) Hj). apply Sum_ext. intros l _. ring. Qed.
Lemma mm_ext : forall k A A' B B' i j, (forall l, (l < k)%nat -> A i l = A' i l) -> (forall l, (l < k)%nat -> B l j = B' l j) -> mm k A B i j = mm k A' B' i j.
Proof. intros k A A' B B' i j HA HB. apply Sum_ext. intros l Hl. rewrite HA, HB by auto. reflexivity. Qed.
Lemma tr_mm : forall k A B i j, tr (mm k A B) i j = mm k (tr B) (tr A) i j.
Proof. intros. unfold tr, mm. apply Sum_ext. intros. ring. Qed.
Lemma idm_sym : forall i j, idm i j = idm j i.
Proof. intros. unfold idm. rewrite Nat.eqb_sym. reflexivity. Qed.

(** ** orthogonal matrices *)
Definition orth (m : nat) (Q : mtx) : Prop := eqm m m (mm m Q (tr Q)) idm /\ eqm m m (mm m (tr Q) Q) idm.
Lemma orth_id : forall m, orth m idm.
Proof. intros m. split; intros i j Hi Hj; [rewrite mm_id_l by auto; unfold tr; apply idm_sym|rewrite mm_id_r by auto; unfold tr; apply idm_sym]. Qed.
Lemma orth_mm : forall m P Q, orth m P -> orth m Q -> orth m (mm m P Q).
Proof.
  intros m P Q (P1 & P2) (Q1 & Q2). split; intros i j Hi Hj.
  - rewrite (mm_ext m (mm m P Q) (mm m P Q) (tr (mm m P Q)) (mm m (tr Q) (tr P))) by (auto; intros; apply tr_mm).
    rewrite mm_assoc. rewrite (mm_ext m P P (mm m Q (mm m (tr Q) (tr P))) (tr P)); auto.
    intros l Hl. rewrite <- mm_assoc. rewrite (mm_ext m (mm m Q (tr Q)) idm (tr P) (tr P)); auto. apply mm_id_l. auto.
  - rewrite (mm_ext m (tr (mm m P Q)) (mm m (tr Q) (tr P)) (mm m P Q) (mm m P Q)) by (auto; intros; apply tr_mm).
    rewrite mm_assoc. rewrite (mm_ext m (tr Q) (tr Q) (mm m (tr P) (mm m P Q)) Q); auto.
    intros l Hl. rewrite <- mm_assoc. rewrite (mm_ext m (mm m (tr P) P) idm Q Q); auto. apply mm_id_l. auto.
Qed.

(** ** Householder matrices *)
Definition hm (t : real) (v : nat -> real) : mtx := fun i j => idm i j - t * v i * v j.
Definition hgood (m : nat) (t : real) (v : nat -> real) : Prop := t = 0 \/ t * Sum m (fun l => v l * v l) = 2.
Lemma hm_sym : forall t v i j, hm t v i j = hm t v j i.
Proof. intros. unfold hm. rewrite (idm_sym i j). ring. Qed.
Lemma hm_mm : forall m t v X i j, (i < m)%nat -> mm m (hm t v) X i j = X i j - t * v i * Sum m (fun l => v l * X l j).
Proof.
  intros m t v X i j Hi. unfold mm, hm. rewrite (Sum_ext m _ (fun l => idm i l * X l j - t * v i * (v l * X l j))) by (intros; ring).
  rewrite Sum_sub, Sum_mul. f_equal. apply (mm_id_l m X i j Hi).
Qed.
Lemma hm_orth : forall m t v, hgood m t v -> orth m (hm t v).
Proof.
  assert (H : forall m t v, hgood m t v -> eqm m m (mm m (hm t v) (hm t v)) idm).
  { intros m t v Hg i j Hi Hj. rewrite hm_mm by auto. unfold hm at 2.
    rewrite (Sum_ext m _ (fun l => v l * idm l j - (v l * v l) * (t * v j))) by (intros; unfold hm; ring).
    rewrite Sum_sub, Sum_mulr. pose proof (mm_id_r m (fun _ => v) 0 j Hj) as E. unfold mm in E. rewrite E. unfold hm.
    set (s := Sum m (fun l => v l * v l)) in *. destruct Hg as [->|Hg]; [ring|]. fold s in Hg.
    replace (idm i j - t * v i * v j - t * v i * (v j - s * (t * v j))) with (idm i j - 2 * t * v i * v j + t * v i * v j * (t * s)) by ring. rewrite Hg. ring. }
  intros m t v Hg. split; intros i j Hi Hj; (etransitivity; [|apply (H m t v Hg i j Hi Hj)]); apply mm_ext; intros; unfold tr; auto; apply hm_sym.
Qed.
(** the product of the first [c] *)
Fixpoint qm (m : nat) (ts : nat -> real) (vs : nat -> nat -> real) (c : nat) : mtx :=
  match c with O => idm | S c => mm m (qm m ts vs c) (hm (ts c) (vs c)) end.
Lemma qm_orth : forall m ts vs c, (forall i, (i < c)%nat -> hgood m (ts i) (vs i)) -> orth m (qm m ts vs c).
Proof. induction c as [|c IH]; intros H; cbn [qm]; [apply orth_id|]. apply orth_mm; [apply IH; auto|apply hm_orth; auto]. Qed.
Lemma qm_ext : forall m ts vs ts' vs' c, (forall i, (i < c)%nat -> ts i = ts' i) -> (forall i r, (i < c)%nat -> (r < m)%nat -> vs i r = vs' i r) -> eqm m m (qm m ts vs c) (qm m ts' vs' c).
Proof.
  induction c as [|c IH]; intros Ht Hv i j Hi Hj; cbn [qm]; auto. apply mm_ext; intros l Hl; [apply IH; auto|]. unfold hm. rewrite Ht, !Hv by auto. reflexivity.
Qed.

(** ** upper triangular matrices *)
Definition upper (n : nat) (r : mtx) : Prop := forall i j, (j < i)%nat -> (i < n)%nat -> r i j = 0.
Lemma upper_solve : forall n r b, upper n r -> (forall i, (i < n)%nat -> r i i <> 0) -> exists x, forall i, (i < n)%nat -> Sum n (fun j => r i j * x j) = b i.
Proof.
  induction n as [|n IH]; intros r b Hu Hd; [exists (fun _ => 0); intros; lia|].
  pose (xn := b n / r n n). destruct (IH r (fun i => b i - r i n * xn)) as (x & Hx).
  { intros i j Hij Hi. apply Hu; lia. } { intros; apply Hd; lia. }
  exists (fun j => if j =? n then xn else x j). intros i Hi. cbn [Sum]. rewrite Nat.eqb_refl.
  rewrite (Sum_ext n _ (fun j => r i j * x j)). 2: { intros j Hj. destruct (Nat.eqb_spec j n); [lia|reflexivity]. }
  destruct (Nat.eq_dec i n) as [->|Hne].
  - rewrite Sum_zero by (intros j Hj; rewrite Hu by lia; ring). unfold xn. field. apply Hd. lia.
  - rewrite Hx by lia. ring.
Qed.
Lemma upper_inj : forall n r x, upper n r -> (forall i, (i < n)%nat -> r i i <> 0) -> (forall i, (i < n)%nat -> Sum n (fun j => r i j * x j) = 0) -> forall j, (j < n)%nat -> x j = 0.
Proof.
  induction n as [|n IH]; intros r x Hu Hd H j Hj; [lia|].
  assert (Hn : x n = 0). { pose proof (H n ltac:(lia)) as E. cbn [Sum] in E. rewrite Sum_zero in E by (intros k Hk; rewrite Hu by lia; ring). pose proof (Hd n ltac:(lia)). nra. }
  destruct (Nat.eq_dec j n) as [->|]; auto. apply (IH r x); try lia.
  - intros a b Hab Ha. apply Hu; lia.
  - intros; apply Hd; lia.
  - intros i Hi. pose proof (H i ltac:(lia)) as E. cbn [Sum] in E. rewrite Hn in E. lra.
Qed.
(** linearly independent columns *)
Definition indep (m n : nat) (A : mtx) : Prop := forall c : nat -> real, (forall r, (r < m)%nat -> Sum n (fun j => A r j * c j) = 0) -> forall j, (j < n)%nat -> c j = 0.
Lemma indep_sub : forall m a b A, (a <= b)%nat -> indep m b A -> indep m a A.
Proof.
  intros m a b A Hab H c Hc j Hj. specialize (H (fun j => if (j <? a)%nat then c j else 0)). cbv beta in H.
  assert (E : (if (j <? a)%nat then c j else 0) = 0). 2: { destruct (Nat.ltb_spec j a); [auto|lia]. }
  apply (H); [|lia]. intros r Hr. replace b with (a + (b - a))%nat by lia. rewrite Sum_app. rewrite (Sum_ext a _ (fun j => A r j * c j)).
  2: { intros l Hl. destruct (Nat.ltb_spec l a); [reflexivity|lia]. }
  rewrite Hc by auto. rewrite Sum_zero; [ring|]. intros l Hl. destruct (Nat.ltb_spec (a + l) a); [lia|ring].
Qed.
