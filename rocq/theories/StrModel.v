(** * C strings

    This file models the few functions of <string.h> that the interface uses.
    A C string is the list of its characters without the terminating NUL; the
    strings the theorems speak about contain no NUL character where that matters. *)
From Coq Require Import List ZArith Lia Bool Arith Ascii String.
From Verif Require Import Prelude RstrModel.
Import ListNotations.
Set Implicit Arguments.
Local Open Scope char_scope.
Local Open Scope nat_scope.

Definition str := list ascii.
(** string literals *)
Definition lit (s : string) : str := list_ascii_of_string s.

Fixpoint seqb (a b : str) : bool :=
  match a, b with
  | [], [] => true
  | x :: a', y :: b' => Ascii.eqb x y && seqb a' b'
  | _, _ => false
  end.
Lemma seqb_eq : forall a b, seqb a b = true <-> a = b.
Proof.
  induction a as [|x a IH]; intros [|y b]; simpl; split; intros H; try discriminate; auto.
  - apply andb_prop in H as [H1 H2]. apply Ascii.eqb_eq in H1. apply IH in H2. congruence.
  - inversion H; subst. rewrite Ascii.eqb_refl. simpl. apply IH. reflexivity.
Qed.
Lemma seqb_refl : forall a, seqb a a = true.
Proof. intros. apply seqb_eq. reflexivity. Qed.
Lemma seqb_neq : forall a b, seqb a b = false <-> a <> b.
Proof.
  intros. split; intros H.
  - intros E. apply seqb_eq in E. congruence.
  - destruct (seqb a b) eqn:E; auto. apply seqb_eq in E. contradiction.
Qed.

(** [strchr(s, c)]: index of the first [c] *)
Fixpoint strchr (s : str) (c : ascii) : option nat :=
  match s with
  | [] => None
  | x :: t => if Ascii.eqb x c then Some 0 else option_map S (strchr t c)
  end.
(** [strrchr(s, c)]: index of the last [c] *)
Fixpoint strrchr (s : str) (c : ascii) : option nat :=
  match s with
  | [] => None
  | x :: t => match strrchr t c with
              | Some i => Some (S i)
              | None => if Ascii.eqb x c then Some 0 else None
              end
  end.
(** length of the common prefix: [while (p[n] && p[n] == r[n]) n++] *)
Fixpoint common (p r : str) : nat :=
  match p, r with
  | x :: p', y :: r' => if Ascii.eqb x y then S (common p' r') else 0
  | _, _ => 0
  end.

(** ** Facts *)
Lemma strchr_None : forall s c, strchr s c = None <-> ~ In c s.
Proof.
  induction s as [|x t IH]; simpl; intros c; [tauto|]. destruct (Ascii.eqb x c) eqn:E.
  - apply Ascii.eqb_eq in E. split; [discriminate|]. intros H. exfalso. auto.
  - apply Ascii.eqb_neq in E. specialize (IH c). destruct (strchr t c); simpl; split; intros H; try discriminate; auto.
    + exfalso. destruct IH as [_ IH]. assert (~ In c t) as N by tauto. apply IH in N. discriminate.
    + destruct IH as [IH _]. specialize (IH eq_refl). tauto.
Qed.
Lemma strchr_app : forall a b c, ~ In c a -> strchr (a ++ c :: b) c = Some (List.length a).
Proof.
  induction a as [|x a IH]; simpl; intros b c H.
  - now rewrite Ascii.eqb_refl.
  - destruct (Ascii.eqb x c) eqn:E; [apply Ascii.eqb_eq in E; exfalso; auto|]. rewrite IH; auto.
Qed.
Lemma strchr_Some : forall s c i, strchr s c = Some i -> s = firstn i s ++ c :: skipn (S i) s /\ ~ In c (firstn i s) /\ i < List.length s.
Proof.
  induction s as [|x t IH]; simpl; intros c i H; [discriminate|]. destruct (Ascii.eqb x c) eqn:E.
  - inversion H; subst. apply Ascii.eqb_eq in E. subst. simpl. split; [reflexivity|]. split; [tauto|lia].
  - destruct (strchr t c) as [j|] eqn:F; inversion H; subst. destruct (IH c j F) as (A & B & D). simpl. split; [|split; [|lia]].
    + f_equal. exact A.
    + intros [G|G]; [subst; rewrite Ascii.eqb_refl in E; discriminate|contradiction].
Qed.
Lemma strrchr_None : forall s c, strrchr s c = None <-> ~ In c s.
Proof.
  induction s as [|x t IH]; simpl; intros c; [tauto|]. specialize (IH c). destruct (strrchr t c).
  - split; [discriminate|]. intros H. assert (~ In c t) as N by tauto. apply IH in N. discriminate.
  - destruct (Ascii.eqb x c) eqn:E.
    + apply Ascii.eqb_eq in E. split; [discriminate|tauto].
    + apply Ascii.eqb_neq in E. split; auto. intros _. destruct IH as [IH _]. specialize (IH eq_refl). tauto.
Qed.
Lemma strrchr_app : forall a b c, ~ In c b -> strrchr (a ++ c :: b) c = Some (List.length a).
Proof.
  induction a as [|x a IH]; simpl; intros b c H.
  - rewrite (proj2 (strrchr_None b c) H). now rewrite Ascii.eqb_refl.
  - rewrite IH; auto.
Qed.
Lemma strrchr_Some : forall s c i, strrchr s c = Some i -> s = firstn i s ++ c :: skipn (S i) s /\ ~ In c (skipn (S i) s) /\ i < List.length s.
Proof.
  induction s as [|x t IH]; simpl; intros c i H; [discriminate|]. destruct (strrchr t c) as [j|] eqn:F.
  - inversion H; subst. destruct (IH c j F) as (A & B & D). simpl. split; [|split; [|lia]].
    + f_equal. exact A.
    + exact B.
  - destruct (Ascii.eqb x c) eqn:E; inversion H; subst. apply Ascii.eqb_eq in E. subst. simpl. split; [reflexivity|]. split; [|lia].
    apply strrchr_None. exact F.
Qed.
Lemma common_le : forall p r, common p r <= List.length p /\ common p r <= List.length r.
Proof. induction p as [|x p IH]; intros [|y r]; simpl; try lia. destruct (Ascii.eqb x y); simpl; [specialize (IH r); lia|lia]. Qed.
Lemma common_firstn : forall p r, firstn (common p r) p = firstn (common p r) r.
Proof.
  induction p as [|x p IH]; intros [|y r]; simpl; auto. destruct (Ascii.eqb x y) eqn:E; simpl; auto.
  apply Ascii.eqb_eq in E. subst. f_equal. apply IH.
Qed.
(** [common] is the largest length at which the two strings agree *)
Lemma common_max : forall k p r, k <= List.length p -> k <= List.length r -> firstn k p = firstn k r -> k <= common p r.
Proof.
  induction k as [|k IH]; intros p r Hp Hr H; [lia|]. destruct p as [|x p]; [simpl in Hp; lia|]. destruct r as [|y r]; [simpl in Hr; lia|].
  simpl in *. inversion H; subst. rewrite Ascii.eqb_refl. apply le_n_S. apply IH; auto; lia.
Qed.
