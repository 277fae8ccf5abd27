(** * Digits of an index in base Q, finite products.  Models no libCEED function. *)
From Coq Require Import List ZArith Lia Bool Arith Ring.
From Verif Require Import Prelude RstrProofs.
Import ListNotations.
Set Implicit Arguments.

Definition dig (Q i q : nat) : nat := (q / Q ^ i) mod Q.
Definition setdig (Q d b q : nat) : nat := (q / Q ^ (S d) * Q + b) * Q ^ d + q mod Q ^ d.

Lemma pow_pos : forall Q n, 0 < Q -> 0 < Q ^ n.
Proof. intros Q n H. induction n; simpl; nia. Qed.

Lemma pow_split : forall Q i d, i <= d -> Q ^ d = Q ^ (d - i) * Q ^ i.
Proof. intros Q i d H. rewrite <- Nat.pow_add_r. f_equal. lia. Qed.

Lemma dig_lt : forall Q i q, 0 < Q -> dig Q i q < Q.
Proof. intros. apply Nat.mod_upper_bound. lia. Qed.

Lemma dig_low : forall Q d i h l, 0 < Q -> i < d -> dig Q i (h * Q ^ d + l) = dig Q i l.
Proof.
  intros Q d i h l HQ Hi. unfold dig. pose proof (pow_pos i HQ).
  rewrite (@pow_split Q i d) by lia. replace (d - i) with (S (d - i - 1)) by lia. simpl.
  replace (h * (Q * Q ^ (d - i - 1) * Q ^ i) + l) with (l + (h * Q ^ (d - i - 1) * Q) * Q ^ i) by ring.
  rewrite Nat.div_add by lia. rewrite Nat.mod_add by lia. reflexivity.
Qed.

Lemma dig_at : forall Q d h j l, j < Q -> l < Q ^ d -> dig Q d ((h * Q + j) * Q ^ d + l) = j.
Proof.
  intros Q d h j l Hj Hl. unfold dig. rewrite div_enc by auto. rewrite mod_enc by auto. reflexivity.
Qed.

Lemma dig_high : forall Q d i h j l, j < Q -> l < Q ^ d -> d < i ->
  dig Q i ((h * Q + j) * Q ^ d + l) = dig Q (i - S d) h.
Proof.
  intros Q d i h j l Hj Hl Hi. unfold dig. f_equal.
  replace (Q ^ i) with (Q ^ d * (Q * Q ^ (i - S d))).
  2:{ replace (Q * Q ^ (i - S d)) with (Q ^ (S (i - S d))) by reflexivity. rewrite <- Nat.pow_add_r. f_equal. lia. }
  pose proof (@pow_pos Q d ltac:(lia)). pose proof (@pow_pos Q (i - S d) ltac:(lia)).
  rewrite <- Nat.div_div by nia. rewrite div_enc by auto. rewrite <- Nat.div_div by lia. rewrite div_enc by auto. reflexivity.
Qed.

(** Splitting an index at digit d *)
Lemma dig_split : forall Q d q, 0 < Q -> q = (q / Q ^ S d * Q + dig Q d q) * Q ^ d + q mod Q ^ d.
Proof.
  intros Q d q HQ. pose proof (pow_pos d HQ). unfold dig.
  rewrite (Nat.div_mod q (Q ^ d)) at 1 by lia. f_equal. rewrite Nat.mul_comm. f_equal.
  rewrite (Nat.div_mod (q / Q ^ d) Q) at 1 by lia. f_equal. rewrite Nat.mul_comm. f_equal.
  rewrite Nat.div_div by lia. f_equal. simpl. ring.
Qed.

Lemma setdig_same : forall Q d q, 0 < Q -> setdig Q d (dig Q d q) q = q.
Proof. intros. unfold setdig. symmetry. apply dig_split. auto. Qed.

Lemma dig_setdig : forall Q d b q i, 0 < Q -> b < Q -> dig Q i (setdig Q d b q) = if i =? d then b else dig Q i q.
Proof.
  intros Q d b q i HQ Hb. unfold setdig.
  assert (Hl : q mod Q ^ d < Q ^ d) by (apply Nat.mod_upper_bound; pose proof (pow_pos d HQ); lia).
  destruct (Nat.eqb_spec i d) as [->|Hne]; [apply dig_at; auto|].
  rewrite (@dig_split Q d q) at 3 by auto.
  destruct (Nat.lt_ge_cases i d).
  - rewrite !dig_low by auto. reflexivity.
  - rewrite !dig_high by (auto; try lia; apply dig_lt; auto). reflexivity.
Qed.

Lemma setdig_lt : forall Q d b q n, 0 < Q -> b < Q -> d < n -> q < Q ^ n -> setdig Q d b q < Q ^ n.
Proof.
  intros Q d b q n HQ Hb Hd Hq. unfold setdig. pose proof (pow_pos d HQ). pose proof (pow_pos (S d) HQ).
  assert (q mod Q ^ d < Q ^ d) by (apply Nat.mod_upper_bound; lia).
  assert (q / Q ^ S d < Q ^ (n - S d)).
  { apply Nat.div_lt_upper_bound; [lia|]. rewrite <- Nat.pow_add_r. replace (S d + (n - S d)) with n by lia. auto. }
  replace (Q ^ n) with (Q ^ (n - S d) * Q * Q ^ d).
  2:{ replace n with ((n - S d) + 1 + d) at 2 by lia. rewrite !Nat.pow_add_r. simpl. ring. }
  assert (q / Q ^ S d * Q + b < Q ^ (n - S d) * Q) by nia. nia.
Qed.

Lemma dig_ext : forall Q n p q, 0 < Q -> p < Q ^ n -> q < Q ^ n -> (forall i, i < n -> dig Q i p = dig Q i q) -> p = q.
Proof.
  intros Q n. induction n as [|n IH]; intros p q HQ Hp Hq H.
  - simpl in *. lia.
  - pose proof (pow_pos n HQ). simpl in Hp, Hq.
    assert (E1 : p / Q ^ n = q / Q ^ n).
    { specialize (H n ltac:(lia)). unfold dig in H. rewrite !Nat.mod_small in H; auto; apply Nat.div_lt_upper_bound; lia. }
    assert (E2 : p mod Q ^ n = q mod Q ^ n).
    { apply IH; auto; try (apply Nat.mod_upper_bound; lia). intros i Hi.
      assert (HH : forall r, dig Q i r = dig Q i (r mod Q ^ n)).
      { intros r. rewrite (Nat.div_mod r (Q ^ n)) at 1 by lia. rewrite (Nat.mul_comm (Q ^ n)). apply dig_low; auto. }
      rewrite <- !HH. apply H. lia. }
    rewrite (Nat.div_mod p (Q ^ n)), (Nat.div_mod q (Q ^ n)) by lia. rewrite E1, E2. reflexivity.
Qed.

(** ** Products *)
Section Prod.
Variable R : Rng.
Add Ring Rr : (r_th R).
Fixpoint prodn (n : nat) (f : nat -> R) : R := match n with O => 1%R | S n => (prodn n f * f n)%R end.
Lemma prodn_ext : forall n f g, (forall i, i < n -> f i = g i) -> prodn n f = prodn n g.
Proof. induction n as [|n IH]; intros f g H; simpl; auto. rewrite (IH f g), H by auto. reflexivity. Qed.
(** Changing one factor. *)
Lemma prodn_change : forall n d f (x : R), d < n ->
  prodn n (fun i => if i =? d then x else f i) = (x * prodn n (fun i => if i =? d then 1 else f i))%R.
Proof.
  induction n as [|n IH]; intros d f x Hd; [lia|]. simpl. destruct (Nat.eqb_spec n d) as [->|Hne].
  - rewrite (@prodn_ext d _ f), (@prodn_ext d (fun i => if i =? d then 1%R else f i) f); try ring;
      intros i Hi; destruct (Nat.eqb_spec i d); auto; lia.
  - rewrite IH by lia. ring.
Qed.
Lemma prodn_zero : forall n d f, d < n -> f d = 0%R -> prodn n f = 0%R.
Proof.
  induction n as [|n IH]; intros d f Hd Hf; [lia|]. simpl.
  destruct (Nat.eq_dec n d) as [->|]; [rewrite Hf; ring|]. rewrite (IH d) by (auto; lia). ring.
Qed.
Lemma prodn_one : forall n f, (forall i, i < n -> f i = 1%R) -> prodn n f = 1%R.
Proof. induction n as [|n IH]; intros f H; simpl; auto. rewrite IH, H by auto. ring. Qed.
End Prod.
Arguments prodn {R}.

(** A product of identity entries is an identity entry. *)
Lemma prodn_delta : forall (R : Rng) Q n p q, 0 < Q -> p < Q ^ n -> q < Q ^ n ->
  prodn n (fun i => delta (dig Q i q =? dig Q i p) (1%R : R)) = delta (q =? p) 1%R.
Proof.
  intros R Q n p q HQ Hp Hq. destruct (Nat.eqb_spec q p) as [->|Hne].
  - apply prodn_one. intros. rewrite Nat.eqb_refl. reflexivity.
  - assert (Hex : exists i, i < n /\ dig Q i q <> dig Q i p).
    { destruct (existsb (fun i => negb (dig Q i q =? dig Q i p)) (seq 0 n)) eqn:E.
      - apply existsb_exists in E. destruct E as (i & Hi & E). apply in_seq in Hi. exists i. split; [lia|].
        apply negb_true_iff, Nat.eqb_neq in E. auto.
      - exfalso. apply Hne. apply (@dig_ext Q n); auto. intros i Hi.
        destruct (Nat.eqb_spec (dig Q i q) (dig Q i p)) as [|Hd]; auto. exfalso.
        assert (existsb (fun i => negb (dig Q i q =? dig Q i p)) (seq 0 n) = true).
        { apply existsb_exists. exists i. split; [apply in_seq; lia|]. apply negb_true_iff, Nat.eqb_neq. auto. }
        congruence. }
    destruct Hex as (i & Hi & Hd). apply prodn_zero with (d := i); auto.
    apply Nat.eqb_neq in Hd. rewrite Hd. reflexivity.
Qed.
