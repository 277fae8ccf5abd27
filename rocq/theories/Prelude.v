(** * Prelude: scalars, checked arrays, loops, finite sums.

    This file models no libCEED function.  It fixes how C arrays and [for]
    loops are represented:
    - an array is a [list]; every access is checked, [None] is an access
      outside the array (undefined behaviour in C);
    - [for (i = 0; i < n; i++) body] is [forN n body], which stops with [None]
      as soon as one iteration is undefined;
    - [CeedScalar] is an element of an arbitrary commutative ring [Rng]
      (exact arithmetic; rounding is not modelled). *)
From Coq Require Import List ZArith Lia Bool Arith Ring Permutation.
Import ListNotations.
Set Implicit Arguments.

(** ** Scalars *)
Record Rng := mkRng {
  car :> Type;
  r0 : car; r1 : car;
  radd : car -> car -> car; rmul : car -> car -> car;
  rsub : car -> car -> car; ropp : car -> car;
  r_th : ring_theory r0 r1 radd rmul rsub ropp (@eq car)
}.
Arguments r0 {_}. Arguments r1 {_}.
Arguments radd {_} _ _. Arguments rmul {_} _ _.
Arguments rsub {_} _ _. Arguments ropp {_} _.

Declare Scope rng_scope.
Delimit Scope rng_scope with R.
Infix "+" := radd : rng_scope.
Infix "*" := rmul : rng_scope.
Infix "-" := rsub : rng_scope.
Notation "- x" := (ropp x) : rng_scope.
Notation "0" := r0 : rng_scope.
Notation "1" := r1 : rng_scope.

(** The integers, used for concrete instances. *)
Definition Zrng : Rng := @mkRng Z 0%Z 1%Z Z.add Z.mul Z.sub Z.opp Zth.

(** ** Option monad *)
Definition bind {A B} (m : option A) (f : A -> option B) : option B :=
  match m with Some a => f a | None => None end.
Notation "x <- m ;; k" := (bind m (fun x => k)) (at level 61, m at next level, right associativity).

(** ** Checked arrays *)
Definition get {A} (v : list A) (i : nat) : option A := nth_error v i.

Fixpoint upd {A} (v : list A) (i : nat) (x : A) : list A :=
  match v, i with
  | [], _ => []
  | _ :: t, O => x :: t
  | y :: t, S i' => y :: upd t i' x
  end.

Definition set {A} (v : list A) (i : nat) (x : A) : option (list A) :=
  if i <? length v then Some (upd v i x) else None.

(** Access with an index that the user supplies as a signed integer. *)
Definition getZ {A} (v : list A) (i : Z) : option A :=
  if (i <? 0)%Z then None else get v (Z.to_nat i).
Definition setZ {A} (v : list A) (i : Z) (x : A) : option (list A) :=
  if (i <? 0)%Z then None else set v (Z.to_nat i) x.

(** [v[i] += x] *)
Definition addat {R : Rng} (v : list R) (i : nat) (x : R) : option (list R) :=
  y <- get v i ;; set v i (y + x)%R.
Definition addatZ {R : Rng} (v : list R) (i : Z) (x : R) : option (list R) :=
  if (i <? 0)%Z then None else addat v (Z.to_nat i) x.

(** ** Loops *)
Fixpoint foldO {I S} (l : list I) (f : I -> S -> option S) (s : S) : option S :=
  match l with
  | [] => Some s
  | i :: l' => match f i s with Some s' => foldO l' f s' | None => None end
  end.
Definition forN {S} (n : nat) (f : nat -> S -> option S) (s : S) : option S :=
  foldO (seq 0 n) f s.
(** [for (i = a; i < b; i++)] *)
Definition forR {S} (a b : nat) (f : nat -> S -> option S) (s : S) : option S :=
  foldO (seq a (b - a)) f s.

(** Reading view of a vector: entry [i], zero outside (specifications only). *)
Definition vf {R : Rng} (v : list R) (i : nat) : R := nth i v r0.

(** ** Finite sums *)
Definition sumL {R : Rng} {A} (l : list A) (f : A -> R) : R :=
  fold_right (fun a acc => (f a + acc)%R) 0%R l.
Definition sumn {R : Rng} (n : nat) (f : nat -> R) : R := sumL (seq 0 n) f.
(** dot product of the first [n] entries *)
Definition dot {R : Rng} (n : nat) (u v : nat -> R) : R := sumn n (fun i => (u i * v i)%R).

Definition delta {R : Rng} (b : bool) (x : R) : R := if b then x else 0%R.

(** ** List facts *)
Lemma upd_length : forall A (v : list A) i x, length (upd v i x) = length v.
Proof. induction v; intros [|i] x; simpl; auto. Qed.

Lemma nth_error_upd : forall A (v : list A) i x k,
  nth_error (upd v i x) k = if (k =? i) && (k <? length v) then Some x else nth_error v k.
Proof.
  induction v as [|y v IH]; intros [|i] x [|k]; simpl; auto.
  - rewrite andb_false_r; auto.
  - rewrite IH. reflexivity.
Qed.

Lemma nth_upd : forall A (v : list A) i x k d,
  nth k (upd v i x) d = if (k =? i) && (k <? length v) then x else nth k v d.
Proof.
  intros. rewrite !nth_nth_error || idtac.
  revert i k; induction v as [|y v IH]; intros [|i] [|k]; simpl; auto.
  - rewrite andb_false_r; auto.
  - rewrite IH. reflexivity.
Qed.

Lemma get_Some : forall A (v : list A) i d, i < length v -> get v i = Some (nth i v d).
Proof. intros A v i d Hi. apply nth_error_nth'; auto. Qed.

Lemma get_None : forall A (v : list A) i, length v <= i -> get v i = None.
Proof. intros. apply nth_error_None; auto. Qed.

Lemma get_inv : forall A (v : list A) i x, get v i = Some x -> i < length v.
Proof. intros A v i x H. apply nth_error_Some. unfold get in H. congruence. Qed.

Lemma set_Some : forall A (v : list A) i x, i < length v -> set v i x = Some (upd v i x).
Proof. intros A v i x H. unfold set. apply Nat.ltb_lt in H. rewrite H. reflexivity. Qed.

Lemma set_inv : forall A (v v' : list A) i x, set v i x = Some v' -> i < length v /\ v' = upd v i x.
Proof.
  unfold set; intros A v v' i x H. destruct (Nat.ltb_spec i (length v)); inversion H; auto.
Qed.

Lemma seq_app' : forall a n m, seq a (n + m) = seq a n ++ seq (a + n) m.
Proof. intros. apply seq_app. Qed.

Lemma list_ext_nth : forall A (u v : list A) d,
  length u = length v -> (forall i, i < length u -> nth i u d = nth i v d) -> u = v.
Proof. intros A u v d Hl H. eapply nth_ext; eauto. Qed.

Lemma vf_ext : forall (R : Rng) (u v : list R),
  length u = length v -> (forall i, i < length u -> vf u i = vf v i) -> u = v.
Proof. intros R u v Hl H. eapply nth_ext; eauto. Qed.

Lemma vf_out : forall (R : Rng) (v : list R) i, length v <= i -> vf v i = 0%R.
Proof. intros. apply nth_overflow; auto. Qed.

Lemma vf_map_seq : forall (R : Rng) (f : nat -> R) n i,
  i < n -> vf (map f (seq 0 n)) i = f i.
Proof.
  intros R f n i Hi. unfold vf.
  rewrite nth_indep with (d' := f 0) by (rewrite map_length, seq_length; auto).
  rewrite map_nth, seq_nth; auto.
Qed.

Lemma nth_map_seq : forall A (f : nat -> A) n i d,
  i < n -> nth i (map f (seq 0 n)) d = f i.
Proof.
  intros A f n i d Hi.
  rewrite nth_indep with (d' := f 0) by (rewrite map_length, seq_length; auto).
  rewrite map_nth, seq_nth; auto.
Qed.

(** ** Loop facts *)
Lemma foldO_app : forall I S (l1 l2 : list I) (f : I -> S -> option S) s,
  foldO (l1 ++ l2) f s = bind (foldO l1 f s) (foldO l2 f).
Proof.
  induction l1 as [|i l1 IH]; intros; simpl; auto.
  destruct (f i s); simpl; auto.
Qed.

Lemma foldO_flat_map : forall I J S (l : list I) (g : I -> list J) (f : J -> S -> option S) s,
  foldO (flat_map g l) f s = foldO l (fun i => foldO (g i) f) s.
Proof.
  induction l as [|i l IH]; intros; simpl; auto.
  rewrite foldO_app. destruct (foldO (g i) f s); simpl; auto.
Qed.

Lemma foldO_map : forall I J S (l : list I) (g : I -> J) (f : J -> S -> option S) s,
  foldO (map g l) f s = foldO l (fun i => f (g i)) s.
Proof.
  induction l as [|i l IH]; intros; simpl; auto.
  destruct (f (g i) s); auto.
Qed.

Lemma foldO_ext : forall I S (l : list I) (f g : I -> S -> option S) s,
  (forall i s, In i l -> f i s = g i s) -> foldO l f s = foldO l g s.
Proof.
  induction l as [|i l IH]; intros f g s H; simpl; auto.
  rewrite H by (left; auto). destruct (g i s); auto. apply IH. intros; apply H; right; auto.
Qed.

Lemma foldO_inv : forall I S (P : list I -> S -> Prop) (f : I -> S -> option S) (l : list I) s,
  P [] s ->
  (forall done i rest s, l = done ++ i :: rest -> P done s ->
      exists s', f i s = Some s' /\ P (done ++ [i]) s') ->
  exists s', foldO l f s = Some s' /\ P l s'.
Proof.
  intros I S P f l s H0 Hs.
  assert (G : forall rest done s, l = done ++ rest -> P done s ->
              exists s', foldO rest f s = Some s' /\ P l s').
  { induction rest as [|i rest IH]; intros done s1 Hl HP.
    - rewrite app_nil_r in Hl. subst. simpl. eauto.
    - destruct (Hs _ _ _ _ Hl HP) as (s2 & E & HP2). simpl. rewrite E.
      apply (IH (done ++ [i])); auto. rewrite <- app_assoc. exact Hl. }
  apply (G l []); auto.
Qed.

(** The loop rule: an invariant indexed by the number of completed iterations. *)
Lemma forN_inv : forall S (P : nat -> S -> Prop) (f : nat -> S -> option S) n s,
  P 0 s ->
  (forall i s, i < n -> P i s -> exists s', f i s = Some s' /\ P (i + 1) s') ->
  exists s', forN n f s = Some s' /\ P n s'.
Proof.
  intros S P f n s H0 Hs. unfold forN.
  assert (G : forall m a s, a + m = n -> P a s ->
     exists s', foldO (seq a m) f s = Some s' /\ P n s').
  { induction m as [|m IH]; intros a s1 E HP; simpl.
    - exists s1. split; auto. replace n with a by lia. auto.
    - destruct (Hs a s1) as (s2 & E2 & HP2); [lia|auto|]. rewrite E2.
      apply IH; [lia|]. replace (Datatypes.S a) with (a + 1) by lia. auto. }
  apply G; auto.
Qed.

Lemma forR_inv : forall S (P : nat -> S -> Prop) (f : nat -> S -> option S) a b s,
  a <= b -> P a s ->
  (forall i s, a <= i < b -> P i s -> exists s', f i s = Some s' /\ P (i + 1) s') ->
  exists s', forR a b f s = Some s' /\ P b s'.
Proof.
  intros S P f a b s Hab H0 Hs. unfold forR.
  assert (G : forall m k s, a <= k -> k + m = b -> P k s ->
     exists s', foldO (seq k m) f s = Some s' /\ P b s').
  { induction m as [|m IH]; intros k s1 Hk E HP; simpl.
    - exists s1. split; auto. replace b with k by lia. auto.
    - destruct (Hs k s1) as (s2 & E2 & HP2); [lia|auto|]. rewrite E2.
      apply IH; [lia|lia|]. replace (Datatypes.S k) with (k + 1) by lia. auto. }
  apply G; auto; lia.
Qed.

(** ** Sum facts *)
Section Sums.
Variable R : Rng.
Add Ring Rr : (r_th R).
Local Open Scope rng_scope.

Lemma sumL_nil : forall A (f : A -> R), sumL [] f = 0.
Proof. reflexivity. Qed.
Lemma sumL_cons : forall A a l (f : A -> R), sumL (a :: l) f = f a + sumL l f.
Proof. reflexivity. Qed.
Lemma sumL_app : forall A (l1 l2 : list A) (f : A -> R), sumL (l1 ++ l2) f = sumL l1 f + sumL l2 f.
Proof. induction l1 as [|a l1 IH]; intros; simpl; [|rewrite IH]; ring. Qed.
Lemma sumL_ext : forall A (l : list A) (f g : A -> R), (forall a, In a l -> f a = g a) -> sumL l f = sumL l g.
Proof.
  induction l as [|a l IH]; intros f g H; simpl; auto.
  rewrite H by (left; auto). rewrite (IH f g); auto. intros; apply H; right; auto.
Qed.
Lemma sumL_0 : forall A (l : list A), sumL l (fun _ => 0) = (0 : R).
Proof. induction l as [|a l IH]; simpl; auto. rewrite IH. ring. Qed.
Lemma sumL_zero : forall A (l : list A) (f : A -> R), (forall a, In a l -> f a = 0) -> sumL l f = 0.
Proof. intros A l f H. rewrite <- (sumL_0 l). apply sumL_ext; auto. Qed.
Lemma sumL_add : forall A (l : list A) (f g : A -> R), sumL l (fun a => f a + g a) = sumL l f + sumL l g.
Proof. induction l as [|a l IH]; intros; simpl; [|rewrite IH]; ring. Qed.
Lemma sumL_mul_l : forall A (l : list A) (f : A -> R) c, sumL l (fun a => c * f a) = c * sumL l f.
Proof. induction l as [|a l IH]; intros; simpl; [|rewrite IH]; ring. Qed.
Lemma sumL_mul_r : forall A (l : list A) (f : A -> R) c, sumL l (fun a => f a * c) = sumL l f * c.
Proof. induction l as [|a l IH]; intros; simpl; [|rewrite IH]; ring. Qed.
Lemma sumL_swap : forall A B (l : list A) (m : list B) (f : A -> B -> R),
  sumL l (fun a => sumL m (fun b => f a b)) = sumL m (fun b => sumL l (fun a => f a b)).
Proof.
  induction l as [|a l IH]; intros m f; simpl.
  - symmetry; apply sumL_0.
  - rewrite IH, <- sumL_add. reflexivity.
Qed.
Lemma sumL_flat_map : forall A B (l : list A) (g : A -> list B) (f : B -> R),
  sumL (flat_map g l) f = sumL l (fun a => sumL (g a) f).
Proof. induction l as [|a l IH]; intros; simpl; auto. rewrite sumL_app, IH. reflexivity. Qed.
Lemma sumL_map : forall A B (l : list A) (g : A -> B) (f : B -> R),
  sumL (map g l) f = sumL l (fun a => f (g a)).
Proof. induction l as [|a l IH]; intros; simpl; auto. rewrite IH. reflexivity. Qed.
Lemma sumL_perm : forall A (l m : list A) (f : A -> R), Permutation l m -> sumL l f = sumL m f.
Proof. intros A l m f H. induction H; simpl; try congruence. ring. Qed.
Lemma sumL_filter : forall A (l : list A) (p : A -> bool) (f : A -> R),
  sumL (filter p l) f = sumL l (fun a => delta (p a) (f a)).
Proof.
  induction l as [|a l IH]; intros; simpl; auto.
  destruct (p a); simpl; rewrite IH; unfold delta; [reflexivity|ring].
Qed.

Lemma sumn_S : forall n (f : nat -> R), sumn (S n) f = sumn n f + f n.
Proof. intros. unfold sumn. rewrite seq_S, sumL_app. simpl. ring. Qed.
Lemma sumn_0 : forall (f : nat -> R), sumn 0 f = 0.
Proof. reflexivity. Qed.
Lemma sumn_ext : forall n (f g : nat -> R), (forall i, (i < n)%nat -> f i = g i) -> sumn n f = sumn n g.
Proof. intros n f g H. apply sumL_ext. intros a Ha. apply in_seq in Ha. apply H. lia. Qed.
Lemma sumn_zero : forall n (f : nat -> R), (forall i, (i < n)%nat -> f i = 0) -> sumn n f = 0.
Proof. intros n f H. apply sumL_zero. intros a Ha. apply in_seq in Ha. apply H. lia. Qed.
Lemma sumn_add : forall n (f g : nat -> R), sumn n (fun a => f a + g a) = sumn n f + sumn n g.
Proof. intros. apply sumL_add. Qed.
Lemma sumn_mul_l : forall n (f : nat -> R) c, sumn n (fun a => c * f a) = c * sumn n f.
Proof. intros. apply sumL_mul_l. Qed.
Lemma sumn_mul_r : forall n (f : nat -> R) c, sumn n (fun a => f a * c) = sumn n f * c.
Proof. intros. apply sumL_mul_r. Qed.
Lemma sumn_swap : forall n m (f : nat -> nat -> R),
  sumn n (fun a => sumn m (fun b => f a b)) = sumn m (fun b => sumn n (fun a => f a b)).
Proof. intros. apply sumL_swap. Qed.
Lemma sumn_sumL_swap : forall n A (l : list A) (f : nat -> A -> R),
  sumn n (fun a => sumL l (fun b => f a b)) = sumL l (fun b => sumn n (fun a => f a b)).
Proof. intros. apply sumL_swap. Qed.

Lemma sumn_app : forall n m (f : nat -> R), sumn (n + m) f = sumn n f + sumn m (fun i => f (n + i)%nat).
Proof.
  intros n m f. induction m as [|m IH].
  - rewrite Nat.add_0_r, sumn_0. ring.
  - replace (n + S m)%nat with (S (n + m)) by lia. rewrite !sumn_S, IH. ring.
Qed.

Lemma sumn_delta : forall n k (f : nat -> R),
  sumn n (fun i => delta (i =? k) (f i)) = delta (k <? n) (f k).
Proof.
  intros n k f. induction n as [|n IH].
  - rewrite sumn_0. reflexivity.
  - rewrite sumn_S, IH. unfold delta.
    destruct (Nat.eqb_spec n k); destruct (Nat.ltb_spec k n); destruct (Nat.ltb_spec k (S n)); subst; try lia; ring.
Qed.

(** Splitting an index range into rows and columns. *)
Lemma sumn_mul : forall a b (f : nat -> R),
  sumn (a * b) f = sumn a (fun i => sumn b (fun j => f (i * b + j)%nat)).
Proof.
  intros a b f. induction a as [|a IH].
  - reflexivity.
  - rewrite sumn_S, <- IH. replace (S a * b)%nat with (a * b + b)%nat by lia. apply sumn_app.
Qed.

Lemma delta_mul_l : forall b (x y : R), x * delta b y = delta b (x * y).
Proof. intros [] x y; unfold delta; ring. Qed.
Lemma delta_mul_r : forall b (x y : R), delta b x * y = delta b (x * y).
Proof. intros [] x y; unfold delta; ring. Qed.
Lemma delta_add : forall b (x y : R), delta b (x + y) = delta b x + delta b y.
Proof. intros [] x y; unfold delta; ring. Qed.

Lemma addat_Some : forall (v : list R) i x, (i < length v)%nat ->
  addat v i x = Some (upd v i (vf v i + x)).
Proof.
  intros v i x H. unfold addat, bind. rewrite (get_Some v 0 H). rewrite set_Some by auto. reflexivity.
Qed.

Lemma addat_length : forall (v v' : list R) i x, addat v i x = Some v' -> length v' = length v.
Proof.
  unfold addat, bind; intros v v' i x H. destruct (get v i); [|discriminate].
  apply set_inv in H. destruct H as [_ ->]. apply upd_length.
Qed.

Lemma vf_upd : forall (v : list R) i x k, (i < length v)%nat ->
  vf (upd v i x) k = if (k =? i) then x else vf v k.
Proof.
  intros v i x k Hi. unfold vf. rewrite nth_upd.
  destruct (Nat.eqb_spec k i); simpl; auto. subst.
  apply Nat.ltb_lt in Hi. rewrite Hi. reflexivity.
Qed.
End Sums.
