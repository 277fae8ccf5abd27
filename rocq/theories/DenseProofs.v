(** * Lemmas on the loops of DenseModel.v *)
From Coq Require Import List ZArith Lia Bool Arith.
From Verif Require Import Prelude RstrModel TensorModel BasisModel OpModel OpLists DenseModel.
Import ListNotations.
Local Open Scope nat_scope.

(** [f] appends [m] entries [v j] *)
Definition appends {A} (m : nat) (v : nat -> A) (r : res (list A)) : Prop :=
  exists l, r = Ok l /\ length l = m /\ forall j d, j < m -> nth j l d = v j.
Definition at2 {A} (m : nat) (v : nat -> nat -> A) (x : nat) : A := v (x / m) (x mod m).
Lemma at2_ij : forall A m (v : nat -> nat -> A) i j, j < m -> at2 m v (i * m + j) = v i j.
Proof.
  intros A m v i j Hj. unfold at2. rewrite Nat.div_add_l by lia. rewrite Nat.div_small by lia. rewrite Nat.add_0_r. f_equal.
  rewrite Nat.add_comm, Nat.mod_add by lia. apply Nat.mod_small. auto.
Qed.
Lemma cat_ok : forall A n m f (v : nat -> nat -> A), (forall i, i < n -> appends m (v i) (f i)) -> appends (n * m) (at2 m v) (cat n f).
Proof.
  intros A n m f v. induction n as [|n IH]; intros H.
  - exists []. split; [reflexivity|]. split; [reflexivity|]. intros j d Hj. simpl in Hj. lia.
  - destruct IH as (l & E & L & G). { intros i Hi. apply H. lia. }
    destruct (H n ltac:(lia)) as (x & Ex & Lx & Gx). cbn [cat]. rewrite E, Ex. cbn [rbind]. exists (l ++ x). split; [reflexivity|].
    split. { rewrite app_length. lia. }
    intros j d Hj. destruct (Nat.lt_ge_cases j (n * m)) as [Hlt|Hge].
    + rewrite app_nth1 by lia. apply G. auto.
    + rewrite app_nth2 by lia. rewrite L, Gx by lia. assert (Ej : j = n * m + (j - n * m)) by lia. set (r := j - n * m) in *.
      rewrite Ej, at2_ij by lia. reflexivity.
Qed.
(** the same with two indices *)
Definition appends2 {A} (n m : nat) (v : nat -> nat -> A) (r : res (list A)) : Prop :=
  exists l, r = Ok l /\ length l = n * m /\ forall i j d, i < n -> j < m -> nth (i * m + j) l d = v i j.
Lemma cat2 : forall A n m f (v : nat -> nat -> A), (forall i, i < n -> appends m (v i) (f i)) -> appends2 n m v (cat n f).
Proof.
  intros A n m f v H. destruct (cat_ok A n m f v H) as (l & E & L & G). exists l. split; auto. split; auto.
  intros i j d Hi Hj. rewrite G by nia. apply at2_ij. auto.
Qed.
Lemma cat1 : forall A n f (v : nat -> A), (forall i, i < n -> f i = Ok [v i]) -> appends n v (cat n f).
Proof.
  intros A n f v H. destruct (cat2 A n 1 f (fun i _ => v i)) as (l & E & L & G).
  { intros i Hi. exists [v i]. rewrite H by auto. split; auto. split; auto. intros [|j] d Hj; [reflexivity|lia]. }
  exists l. split; auto. split; [lia|]. intros j d Hj. specialize (G j 0 d Hj). rewrite Nat.mul_1_r, Nat.add_0_r in G. auto.
Qed.
Lemma appends_ext : forall A m (v w : nat -> A) r, (forall j, j < m -> v j = w j) -> appends m v r -> appends m w r.
Proof. intros A m v w r H (l & E & L & G). exists l. split; auto. split; auto. intros j d Hj. rewrite G, H by auto. reflexivity. Qed.
Lemma cat2_map : forall A n m f (v : nat -> nat -> A), (forall i j, i < n -> j < m -> f i j = Ok [v i j]) -> appends2 n m v (cat n (fun i => cat m (f i))).
Proof. intros A n m f v H. apply cat2. intros i Hi. apply cat1. auto. Qed.

(** loops that append to the second component of the state *)
Definition extends {A B} (P : B -> Prop) (m : nat) (v : nat -> A) (f : B * list A -> res (B * list A)) : Prop :=
  forall st, P (fst st) -> exists b l, f st = Ok (b, snd st ++ l) /\ P b /\ length l = m /\ forall j d, j < m -> nth j l d = v j.
Lemma rfold_extends : forall A B (P : B -> Prop) n m (f : nat -> B * list A -> res (B * list A)) (v : nat -> nat -> A),
  (forall i, i < n -> extends P m (v i) (f i)) -> extends P (n * m) (at2 m v) (rfold (seq 0 n) f).
Proof.
  intros A B P n m f v H st Hst.
  destruct (@rfold_inv0 (B * list A) (fun i s => P (fst s) /\ exists l, snd s = snd st ++ l /\ appends (i * m) (at2 m v) (Ok l)) f n st) as (s' & E & H1 & l & H2 & l' & L1 & L2 & L3).
  - split; auto. exists []. split; [symmetry; apply app_nil_r|]. exists []. split; auto. split; auto. intros j d Hj. simpl in Hj. lia.
  - intros i s Hi (Hp & l & El & l' & E' & L & G). inversion E'; subst l'. destruct (H i Hi s Hp) as (b & x & Ex & Hb & Lx & Gx).
    exists (b, snd s ++ x). split; auto. split; auto. exists (l ++ x). cbn [snd]. rewrite El, app_assoc. split; auto. exists (l ++ x). split; auto.
    split. { rewrite app_length. lia. }
    intros j d Hj. destruct (Nat.lt_ge_cases j (i * m)) as [Hlt|Hge].
    + rewrite app_nth1 by lia. apply G. auto.
    + rewrite app_nth2 by lia. rewrite L, Gx by lia. assert (Ej : j = i * m + (j - i * m)) by lia. set (r := j - i * m) in *.
      rewrite Ej, at2_ij by lia. reflexivity.
  - inversion L1; subst l'. destruct s' as (b, x). cbn [fst snd] in *. subst x. exists b, l. auto.
Qed.
Lemma extends_ext : forall A B (P : B -> Prop) m (v w : nat -> A) f, (forall j, j < m -> v j = w j) -> extends P m v f -> extends P m w f.
Proof. intros A B P m v w f H Hf st Hst. destruct (Hf st Hst) as (b & l & E & H1 & H2 & H3). exists b, l. split; auto. split; auto. split; auto. intros. rewrite H3, H; auto. Qed.

Lemma rsum_ok : forall (R : Rng) n (f : nat -> res R) g, (forall i, i < n -> f i = Ok (g i)) -> rsum n f = Ok (sumn n g).
Proof.
  intros R n f g H. unfold rsum.
  destruct (@rfold_inv0 R (fun i s => s = sumn i g) (fun i s => x <~ f i;; Ok (s + x)%R) n 0%R) as (s & E & Hs).
  - rewrite sumn_0. reflexivity.
  - intros i s Hi ->. rewrite H by auto. cbn [rbind]. eexists. split; [reflexivity|]. rewrite Nat.add_1_r, sumn_S. reflexivity.
  - rewrite E, Hs. reflexivity.
Qed.
Lemma store_ok : forall A l off (x : list A), off + length x <= length l -> exists s, store off x l = Ok s /\ length s = length l /\
  forall i d, nth i s d = if (off <=? i) && (i <? off + length x) then nth (i - off) x d else nth i l d.
Proof.
  intros A l off x H. unfold store. apply Nat.leb_le in H as H'. rewrite H'. eexists. split; [reflexivity|].
  split. { rewrite !app_length, firstn_length, skipn_length. lia. }
  intros i d. destruct (Nat.leb_spec off i), (Nat.ltb_spec i (off + length x)); simpl.
  - rewrite app_nth2 by (rewrite firstn_length; lia). rewrite firstn_length, Nat.min_l by lia. apply app_nth1. lia.
  - rewrite app_nth2 by (rewrite firstn_length; lia). rewrite firstn_length, Nat.min_l by lia. rewrite app_nth2 by lia.
    rewrite <- (firstn_skipn (off + length x) l) at 2. rewrite (app_nth2 (firstn _ _)) by (rewrite firstn_length; lia).
    rewrite firstn_length, Nat.min_l by lia. f_equal. lia.
  - rewrite app_nth1 by (rewrite firstn_length; lia). rewrite <- (firstn_skipn off l) at 2. rewrite app_nth1; auto. rewrite firstn_length. lia.
  - rewrite app_nth1 by (rewrite firstn_length; lia). rewrite <- (firstn_skipn off l) at 2. rewrite app_nth1; auto. rewrite firstn_length. lia.
Qed.

(** CeedMatrixMatrixMultiply computes the product (property C18) *)
Lemma matmul_ok : forall (R : Rng) (A B : list R) m n kk, m * kk <= length A -> kk * n <= length B ->
  appends2 m n (fun i j => sumn kk (fun k => (vf A (i * kk + k)%nat * vf B (k * n + j)%nat)%R)) (matmul A B m n kk).
Proof.
  intros R A B m n kk HA HB. apply cat2_map. intros i j Hi Hj.
  rewrite (rsum_ok R kk _ (fun k => (vf A (i * kk + k)%nat * vf B (k * n + j)%nat)%R)); [reflexivity|].
  intros k Hk. rewrite (og_nth A (0%R : R)) by nia. rewrite (og_nth B (0%R : R)) by nia. cbn [rbind]. unfold vf.
  rewrite (Nat.add_comm k), (Nat.add_comm j). reflexivity.
Qed.
