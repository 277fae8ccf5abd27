(** * Reasoning rules for loops that add into or fill an array.  Models no libCEED function. *)
From Coq Require Import List ZArith Lia Bool Arith Ring.
From Verif Require Import Prelude.
Import ListNotations.
Set Implicit Arguments.

Lemma seq_mul : forall a b, seq 0 (a * b) = flat_map (fun i => map (fun j => i * b + j) (seq 0 b)) (seq 0 a).
Proof.
  induction a as [|a IH]; intros b.
  - reflexivity.
  - rewrite seq_S, flat_map_app, <- IH. simpl. rewrite app_nil_r.
    replace (b + a * b) with (a * b + b) by lia. rewrite seq_app. f_equal. simpl.
    clear IH. generalize (a * b) as c. intros c.
    replace (seq c b) with (seq (c + 0) b) by (f_equal; lia).
    generalize 0. revert c.
    induction b as [|b IHb]; intros c s; simpl; auto. f_equal.
    rewrite <- IHb. f_equal. lia.
Qed.

Lemma forN_mul : forall S a b (f : nat -> S -> option S) s,
  forN (a * b) f s = forN a (fun i => forN b (fun j => f (i * b + j))) s.
Proof.
  intros S a b f s. unfold forN. rewrite seq_mul, foldO_flat_map.
  apply foldO_ext. intros i s' _. rewrite foldO_map. reflexivity.
Qed.

Lemma forN_ext : forall S n (f g : nat -> S -> option S) s,
  (forall i s, i < n -> f i s = g i s) -> forN n f s = forN n g s.
Proof. intros S n f g s H. apply foldO_ext. intros i s' Hi. apply in_seq in Hi. apply H. lia. Qed.

Lemma seq_shift_map : forall a n, seq a n = map (fun i => a + i) (seq 0 n).
Proof.
  intros a n. replace (seq a n) with (seq (a + 0) n) by (f_equal; lia).
  generalize 0. induction n as [|n IH]; intros s; simpl; auto.
  f_equal. rewrite <- IH. f_equal. lia.
Qed.

Lemma forR_forN : forall S a b (f : nat -> S -> option S) s,
  forR a b f s = forN (b - a) (fun i => f (a + i)) s.
Proof. intros. unfold forR, forN. rewrite seq_shift_map, foldO_map. reflexivity. Qed.

Lemma forN_S : forall S n (f : nat -> S -> option S) s,
  forN (Datatypes.S n) f s = bind (forN n f s) (f n).
Proof.
  intros. unfold forN. rewrite seq_S, foldO_app. simpl.
  destruct (foldO (seq 0 n) f s) as [s'|]; simpl; auto. destruct (f n s'); reflexivity.
Qed.

Lemma forN_app : forall S n m (f : nat -> S -> option S) s,
  forN (n + m) f s = bind (forN n f s) (forN m (fun i => f (n + i))).
Proof.
  intros. unfold forN. rewrite seq_app, foldO_app. simpl.
  destruct (foldO (seq 0 n) f s) as [s'|]; simpl; auto.
  rewrite (seq_shift_map n m), foldO_map. reflexivity.
Qed.

(** A failing iteration makes the whole loop fail. *)
Lemma foldO_fail : forall I S (l : list I) (f : I -> S -> option S) s,
  (exists i, In i l /\ forall s, f i s = None) -> foldO l f s = None.
Proof.
  induction l as [|i l IH]; intros f s (j & Hj & Hf); simpl.
  - destruct Hj.
  - destruct Hj as [->|Hj].
    + rewrite Hf. reflexivity.
    + destruct (f i s); auto. apply IH. eauto.
Qed.

Lemma skipn_cons_S : forall A n (v t : list A) y, skipn n v = y :: t -> skipn (S n) v = t.
Proof.
  induction n as [|n IH]; intros [|a v] t y E; simpl in *; try congruence.
  destruct v; simpl; [destruct n; simpl in E; discriminate|]. apply (IH (a0 :: v) t y). exact E.
Qed.

Lemma upd_app_mid : forall A (l t : list A) y x n, length l = n -> upd (l ++ y :: t) n x = l ++ x :: t.
Proof. induction l as [|a l IH]; intros t y x n <-; simpl; auto. f_equal. apply IH. reflexivity. Qed.

(** Filling the first [n] entries of an array in order. *)
Lemma forN_fill : forall A n (val : nat -> option A) (h : nat -> A) (v : list A),
  (forall i, i < n -> val i = Some (h i)) -> n <= length v ->
  forN n (fun i w => x <- val i ;; set w i x) v = Some (map h (seq 0 n) ++ skipn n v).
Proof.
  intros A n val h v Hval. induction n as [|n IH]; intros Hn.
  - reflexivity.
  - rewrite forN_S, IH by (intros; try apply Hval; lia). cbn [bind].
    rewrite Hval by lia. cbn [bind].
    assert (Hlen : length (map h (seq 0 n)) = n) by (rewrite map_length, seq_length; auto).
    rewrite set_Some by (rewrite app_length, Hlen, skipn_length; lia).
    f_equal. rewrite seq_S, map_app, <- app_assoc. cbn [map app Nat.add].
    destruct (skipn n v) as [|y t] eqn:E.
    + apply (f_equal (@length A)) in E. rewrite skipn_length in E. simpl in E. lia.
    + replace (skipn (S n) v) with t.
      2:{ symmetry. apply skipn_cons_S with (y := y). exact E. }
      apply upd_app_mid. exact Hlen.
Qed.

Section AddsRules.
Variable R : Rng.
Add Ring Rr : (r_th R).
Local Open Scope rng_scope.

(** [Adds L f g]: on every array of length [L], [f] is defined, keeps the length,
    and adds [g q] to entry [q]. *)
Definition Adds (L : nat) (f : list R -> option (list R)) (g : nat -> R) : Prop :=
  forall v, length v = L -> exists v', f v = Some v' /\ length v' = L /\
    forall q, vf v' q = vf v q + g q.

Lemma Adds_id : forall L, Adds L (fun v => Some v) (fun _ => 0).
Proof. intros L v Hv. exists v. repeat split; auto. intros. ring. Qed.

Lemma Adds_ext : forall L f g g', Adds L f g -> (forall q, g q = g' q) -> Adds L f g'.
Proof.
  intros L f g g' H E v Hv. destruct (H v Hv) as (v' & E1 & E2 & E3).
  exists v'. repeat split; auto. intros. rewrite E3, E. reflexivity.
Qed.

Lemma Adds_fext : forall L f f' g, Adds L f g -> (forall v, length v = L -> f' v = f v) -> Adds L f' g.
Proof.
  intros L f f' g H E v Hv. destruct (H v Hv) as (v' & E1 & E2 & E3).
  exists v'. rewrite E by auto. auto.
Qed.

Lemma Adds_seq : forall L f1 f2 g1 g2, Adds L f1 g1 -> Adds L f2 g2 ->
  Adds L (fun v => w <- f1 v ;; f2 w) (fun q => g1 q + g2 q).
Proof.
  intros L f1 f2 g1 g2 H1 H2 v Hv.
  destruct (H1 v Hv) as (v1 & E1 & L1 & G1). destruct (H2 v1 L1) as (v2 & E2 & L2 & G2).
  exists v2. rewrite E1. simpl. repeat split; auto. intros. rewrite G2, G1. ring.
Qed.

Lemma Adds_forN : forall L n (f : nat -> list R -> option (list R)) (g : nat -> nat -> R),
  (forall i, (i < n)%nat -> Adds L (f i) (g i)) ->
  Adds L (forN n f) (fun q => sumn n (fun i => g i q)).
Proof.
  intros L n f g. induction n as [|n IH]; intros H.
  - intros v Hv. exists v. repeat split; auto. intros. rewrite sumn_0. ring.
  - intros v Hv. destruct (IH (fun i Hi => H i (Nat.lt_lt_succ_r _ _ Hi)) v Hv) as (v1 & E1 & L1 & G1).
    destruct (H n (Nat.lt_succ_diag_r n) v1 L1) as (v2 & E2 & L2 & G2).
    exists v2. rewrite forN_S, E1. simpl. repeat split; auto.
    intros. rewrite G2, G1, sumn_S. ring.
Qed.

Lemma Adds_forR : forall L a b (f : nat -> list R -> option (list R)) (g : nat -> nat -> R),
  (forall i, (a <= i < b)%nat -> Adds L (f i) (g i)) ->
  Adds L (forR a b f) (fun q => sumn (b - a) (fun i => g (a + i)%nat q)).
Proof.
  intros L a b f g H. apply Adds_fext with (f := forN (b - a) (fun i => f (a + i)%nat)).
  - apply Adds_forN with (g := fun i => g (a + i)%nat). intros. apply H. lia.
  - intros. apply forR_forN.
Qed.

Lemma Adds_bind : forall L A (m : option A) a (f : A -> list R -> option (list R)) g,
  m = Some a -> Adds L (f a) g -> Adds L (fun v => x <- m ;; f x v) g.
Proof. intros L A m a f g -> H. exact H. Qed.

Lemma Adds_addat : forall L i (x : R), (i < L)%nat ->
  Adds L (fun v => addat v i x) (fun q => delta (q =? i) x).
Proof.
  intros L i x Hi v Hv. rewrite addat_Some by lia. eexists. split; [reflexivity|]. split.
  - rewrite upd_length; auto.
  - intros q. rewrite vf_upd by lia. unfold delta. destruct (Nat.eqb_spec q i); subst; ring.
Qed.

Lemma Adds_addatZ : forall L z (x : R), (0 <= z < Z.of_nat L)%Z ->
  Adds L (fun v => addatZ v z x) (fun q => delta (Z.of_nat q =? z)%Z x).
Proof.
  intros L z x Hz. unfold addatZ. destruct (Z.ltb_spec z 0); [lia|].
  eapply Adds_ext; [apply Adds_addat; lia|].
  intros q. simpl. f_equal. apply eq_true_iff_eq. rewrite Nat.eqb_eq, Z.eqb_eq. lia.
Qed.
End AddsRules.
