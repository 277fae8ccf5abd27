(** * Lemmas for the operator proofs: result folds, slices, first and last index of a group, duplicate detection *)
From Coq Require Import List ZArith Lia Bool Arith.
From Verif Require Import Prelude RstrModel BasisModel OpModel OpSpec.
Import ListNotations.
Set Implicit Arguments.
Local Open Scope nat_scope.

Lemma rfold_inv : forall T (P : nat -> T -> Prop) (f : nat -> T -> res T) n a s,
  P a s -> (forall i s, a <= i < a + n -> P i s -> exists s', f i s = Ok s' /\ P (i + 1) s') ->
  exists s', rfold (seq a n) f s = Ok s' /\ P (a + n) s'.
Proof.
  induction n as [|n IH]; intros a s H0 Hs; simpl.
  - exists s. rewrite Nat.add_0_r. auto.
  - destruct (Hs a s) as (s1 & E1 & H1); [lia|auto|]. rewrite E1. cbn [rbind].
    destruct (IH (S a) s1) as (s2 & E2 & H2).
    + replace (S a) with (a + 1) by lia. auto.
    + intros i s' Hi. apply Hs. lia.
    + exists s2. split; auto. replace (a + S n) with (S a + n) by lia. auto.
Qed.
Lemma rfold_inv0 : forall T (P : nat -> T -> Prop) (f : nat -> T -> res T) n s,
  P 0 s -> (forall i s, i < n -> P i s -> exists s', f i s = Ok s' /\ P (i + 1) s') ->
  exists s', rfold (seq 0 n) f s = Ok s' /\ P n s'.
Proof. intros T P f n s H0 Hs. apply (@rfold_inv T P f n 0 s H0). intros i s' Hi. apply Hs. lia. Qed.
Lemma rfold_down : forall T (P : nat -> T -> Prop) (f : nat -> T -> res T) n s,
  P n s -> (forall i s, i < n -> P (i + 1) s -> exists s', f i s = Ok s' /\ P i s') ->
  exists s', rfold (rev (seq 0 n)) f s = Ok s' /\ P 0 s'.
Proof.
  induction n as [|n IH]; intros s H0 Hs.
  - simpl. eauto.
  - rewrite seq_S, rev_app_distr. simpl. destruct (Hs n s) as (s1 & E1 & H1); [lia|rewrite Nat.add_1_r; auto|].
    rewrite E1. cbn [rbind]. apply IH; auto.
Qed.

Lemma og_nth : forall A (l : list A) i d, i < length l -> og l i = Ok (nth i l d).
Proof. intros A l i d H. unfold og. rewrite (get_Some l d H). reflexivity. Qed.
Lemma og_inv : forall A (l : list A) i x, og l i = Ok x -> i < length l /\ forall d, nth i l d = x.
Proof.
  intros A l i x H. unfold og, get in H. destruct (nth_error l i) eqn:E; [|discriminate]. inversion H; subst.
  split; [apply nth_error_Some; congruence|]. intros d. apply nth_error_nth; auto.
Qed.
Lemma rmap_ok : forall A B (f : A -> res B) (P : A -> B -> Prop) da db l,
  (forall i, i < length l -> exists b, f (nth i l da) = Ok b /\ P (nth i l da) b) ->
  exists l', rmap f l = Ok l' /\ length l' = length l /\ forall i, i < length l -> P (nth i l da) (nth i l' db).
Proof.
  intros A B f P da db l. induction l as [|a l IH]; intros H.
  - exists []. split; auto. split; auto. simpl. intros i Hi. lia.
  - destruct (H 0) as (b & Eb & Pb); [simpl; lia|].
    destruct IH as (l' & E & L & G). { intros i Hi. apply (H (S i)). simpl. lia. }
    change (rmap f (a :: l)) with (b <~ f a ;; t <~ rmap f l ;; Ok (b :: t)). simpl in Eb. rewrite Eb. cbn [rbind]. rewrite E. cbn [rbind]. exists (b :: l'). split; auto. split; [simpl; lia|].
    intros [|i] Hi; simpl in *; auto. apply G. lia.
Qed.

(** ** slices *)
Section Slices.
Variable R : Rng.
Implicit Types l x : list R.
Lemma nth_skipn : forall l off i, vf (skipn off l) i = vf l (off + i).
Proof.
  unfold vf. induction l as [|a l IH]; intros [|off] i; simpl; auto.
  destruct i; auto.
Qed.
Lemma nth_firstn : forall l n i, i < n -> vf (firstn n l) i = vf l i.
Proof.
  unfold vf. induction l as [|a l IH]; intros [|n] [|i] H; simpl; auto; try lia. apply IH. lia.
Qed.
Lemma slice_ok : forall l off n, off + n <= length l -> exists s, slice l off n = Ok s /\ length s = n /\ forall i, i < n -> vf s i = vf l (off + i).
Proof.
  intros l off n H. unfold slice. apply Nat.leb_le in H as H'. rewrite H'. eexists. split; [reflexivity|].
  split. { rewrite firstn_length, skipn_length. lia. }
  intros i Hi. rewrite nth_firstn, nth_skipn by auto. reflexivity.
Qed.
Lemma blit_ok : forall l off x, off + length x <= length l -> exists s, blit off x l = Ok s /\ length s = length l /\
  forall i, vf s i = if (off <=? i) && (i <? off + length x) then vf x (i - off) else vf l i.
Proof.
  intros l off x H. unfold blit. apply Nat.leb_le in H as H'. rewrite H'. eexists. split; [reflexivity|].
  split. { rewrite !app_length, firstn_length, skipn_length. lia. }
  intros i. unfold vf.
  destruct (Nat.leb_spec off i); cbn [andb].
  - rewrite app_nth2 by (rewrite firstn_length; lia). rewrite firstn_length, Nat.min_l by lia.
    destruct (Nat.ltb_spec i (off + length x)).
    + rewrite app_nth1 by lia. reflexivity.
    + rewrite app_nth2 by lia. change (vf (skipn (off + length x) l) (i - off - length x) = vf l i).
      rewrite nth_skipn. f_equal. lia.
  - rewrite app_nth1 by (rewrite firstn_length; lia). change (vf (firstn off l) i = vf l i). apply nth_firstn. auto.
Qed.
End Slices.

(** ** groups *)
Section Groups.
Variable E : nat -> nat -> bool.
Variable n : nat.
Hypothesis Erefl : forall i, E i i = true.
Hypothesis Esym : forall i j, E i j = E j i.
Hypothesis Etrans : forall i j h, E i j = true -> E j h = true -> E i h = true.

Definition first (j : nat) : nat := match find (fun i => E i j) (seq 0 j) with Some i => i | None => j end.
Definition last (j : nat) : nat := match find (fun i => E i j) (rev (seq 0 n)) with Some i => i | None => j end.

Lemma find_seq : forall (p : nat -> bool) m a, match find p (seq a m) with
  | Some i => a <= i < a + m /\ p i = true /\ forall h, a <= h < i -> p h = false
  | None => forall h, a <= h < a + m -> p h = false end.
Proof.
  intros p. induction m as [|m IH]; intros a; simpl.
  - intros; lia.
  - destruct (p a) eqn:Ea.
    + split; [lia|]. split; auto. intros; lia.
    + specialize (IH (S a)). destruct (find p (seq (S a) m)) as [i|].
      * destruct IH as (H1 & H2 & H3). split; [lia|]. split; auto.
        intros h Hh. destruct (Nat.eq_dec h a) as [->|]; auto. apply H3. lia.
      * intros h Hh. destruct (Nat.eq_dec h a) as [->|]; auto. apply IH. lia.
Qed.
Lemma find_rev : forall (p : nat -> bool) m, match find p (rev (seq 0 m)) with
  | Some i => i < m /\ p i = true /\ forall h, i < h < m -> p h = false
  | None => forall h, h < m -> p h = false end.
Proof.
  intros p. induction m as [|m IH].
  - simpl. intros; lia.
  - rewrite seq_S, rev_app_distr. simpl. destruct (p m) eqn:Em.
    + split; [lia|]. split; auto. intros; lia.
    + destruct (find p (rev (seq 0 m))) as [i|].
      * destruct IH as (H1 & H2 & H3). split; [lia|]. split; auto.
        intros h Hh. destruct (Nat.eq_dec h m) as [->|]; auto. apply H3. lia.
      * intros h Hh. destruct (Nat.eq_dec h m) as [->|]; auto. apply IH. lia.
Qed.

Lemma first_spec : forall j, first j <= j /\ E (first j) j = true /\ forall h, h < first j -> E h j = false.
Proof.
  intros j. unfold first. pose proof (find_seq (fun i => E i j) j 0) as H.
  destruct (find _ _) as [i|].
  - destruct H as (H1 & H2 & H3). split; [lia|]. split; auto. intros h Hh. apply H3. lia.
  - split; auto. split; auto. intros h Hh. apply H. lia.
Qed.
Lemma last_spec : forall j, j < n -> j <= last j < n /\ E (last j) j = true /\ forall h, last j < h < n -> E h j = false.
Proof.
  intros j Hj. unfold last. pose proof (find_rev (fun i => E i j) n) as H.
  destruct (find _ _) as [i|].
  - destruct H as (H1 & H2 & H3). split; [|split; auto]. split; auto.
    destruct (Nat.le_gt_cases j i); auto. exfalso.
    specialize (H3 j). rewrite Erefl in H3. discriminate H3. lia.
  - specialize (H j Hj). rewrite Erefl in H. discriminate.
Qed.
Lemma first_eq : forall i j, E i j = true -> first i = first j.
Proof.
  intros i j H. destruct (first_spec i) as (A1 & A2 & A3). destruct (first_spec j) as (B1 & B2 & B3).
  assert (E (first i) j = true) by eauto. assert (E (first j) i = true). { rewrite Esym in H. eauto. }
  destruct (Nat.lt_trichotomy (first i) (first j)) as [L|[L|L]]; auto.
  - rewrite B3 in H0; auto. discriminate.
  - rewrite A3 in H1; auto. discriminate.
Qed.
Lemma last_eq : forall i j, i < n -> j < n -> E i j = true -> last i = last j.
Proof.
  intros i j Hi Hj H. destruct (last_spec Hi) as (A1 & A2 & A3). destruct (last_spec Hj) as (B1 & B2 & B3).
  assert (E (last i) j = true) by eauto. assert (E (last j) i = true). { rewrite Esym in H. eauto. }
  destruct (Nat.lt_trichotomy (last i) (last j)) as [L|[L|L]]; auto.
  - rewrite A3 in H1. discriminate. lia.
  - rewrite B3 in H0. discriminate. lia.
Qed.
Lemma first_le : forall i j, E i j = true -> first j <= i.
Proof. intros i j H. rewrite <- (first_eq H). apply first_spec. Qed.
Lemma last_ge : forall i j, i < n -> j < n -> E i j = true -> i <= last j.
Proof. intros i j Hi Hj H. rewrite <- (@last_eq i j) by auto. apply last_spec; auto. Qed.
Lemma last_last : forall j, j < n -> last (last j) = last j.
Proof. intros j Hj. destruct (last_spec Hj) as (A & B & _). apply last_eq; auto; lia. Qed.
Lemma last_iff : forall i j, i < n -> j < n -> (E i j = true <-> last i = last j).
Proof.
  intros i j Hi Hj. split; [apply last_eq; auto|]. intros H.
  destruct (last_spec Hi) as (_ & B & _). destruct (last_spec Hj) as (_ & C & _). rewrite <- H in C.
  rewrite Esym in B. eauto.
Qed.
End Groups.

(** ** the duplicate loops *)
Section Dup.
Variable R : Rng.
Implicit Types fs : list (ofield R).
Definition sameE fs (i j : nat) : bool := same (fld fs i) (fld fs j).
Lemma vref_eqb_eq : forall a b, vref_eqb a b = true <-> a = b.
Proof.
  intros [| |x] [| |y]; simpl; split; intros H; try discriminate; auto.
  - apply Nat.eqb_eq in H. congruence.
  - inversion H. apply Nat.eqb_refl.
Qed.
Lemma onat_eqb_eq : forall a b, onat_eqb a b = true <-> a = b.
Proof.
  intros [x|] [y|]; simpl; split; intros H; try discriminate; auto.
  - apply Nat.eqb_eq in H. congruence.
  - inversion H. apply Nat.eqb_refl.
Qed.
Lemma same_eq : forall (f g : ofield R), same f g = true <-> f_vec f = f_vec g /\ f_rstr f = f_rstr g.
Proof. intros f g. unfold same. rewrite andb_true_iff, vref_eqb_eq, onat_eqb_eq. reflexivity. Qed.
Lemma sameE_refl : forall fs i, sameE fs i i = true.
Proof. intros. apply same_eq. auto. Qed.
Lemma sameE_sym : forall fs i j, sameE fs i j = sameE fs j i.
Proof. intros. apply eq_true_iff_eq. unfold sameE. rewrite !same_eq. intuition congruence. Qed.
Lemma sameE_trans : forall fs i j h, sameE fs i j = true -> sameE fs j h = true -> sameE fs i h = true.
Proof. unfold sameE. intros fs i j h. rewrite !same_eq. intuition congruence. Qed.

Definition bm fs i := basis_mode (f_mode (fld fs i)).
Lemma nn0 : forall fs j, j < length fs -> nth j (map (fun f : ofield R => basis_mode (f_mode f)) fs) false = bm fs j.
Proof.
  intros fs j H. unfold bm, fld. rewrite (nth_indep _ false (basis_mode (f_mode (mkOF 0 EvNone None None VNo : ofield R)))) by (rewrite map_length; auto).
  exact (map_nth (fun f : ofield R => basis_mode (f_mode f)) fs _ j).
Qed.
Lemma og_fld : forall fs i, i < length fs -> og fs i = Ok (fld fs i).
Proof. intros. apply og_nth. auto. Qed.

Lemma nth_upd' : forall A (l : list A) i x j d, i < length l -> nth j (upd l i x) d = if j =? i then x else nth j l d.
Proof.
  intros A l i x j d H. rewrite nth_upd. destruct (Nat.eqb_spec j i); simpl; auto. subst.
  apply Nat.ltb_lt in H. rewrite H. reflexivity.
Qed.

Section In.
Variable fs : list (ofield R).
Notation n := (length fs).
Notation fst' := (first (sameE fs)).
Hypothesis Hg : forall i j, i < j < n -> sameE fs i j = true -> (forall h, h < i -> sameE fs h i = false) -> bm fs i = true.

Lemma in_dup_nn : forall i j, i < j < n -> sameE fs i j = true -> bm fs i || (fst' i <? i) = true.
Proof.
  intros i j Hij H. destruct (first_spec (sameE fs) (sameE_refl fs) i) as (A & B & C).
  destruct (Nat.ltb_spec (fst' i) i) as [L|L]; [apply orb_true_r|].
  rewrite (@Hg i j); auto. intros h Hh. apply C. lia.
Qed.
Lemma first_lt_of : forall i j, i < j -> sameE fs i j = true -> fst' j < j /\ fst' j <= i /\ fst' j = fst' i.
Proof.
  intros i j Hij H.
  pose proof (@first_eq _ (sameE_refl fs) (sameE_sym fs) (@sameE_trans fs) i j H) as E.
  destruct (first_spec (sameE fs) (sameE_refl fs) i) as (A & _). lia.
Qed.

Definition Fsl i j := if fst' j <? i then fst' j else j.
Definition Fsk i j := (fst' j <? i) && (fst' j <? j).
Definition Fnn i j := bm fs j || ((fst' j <? i) && (fst' j <? j)).
Definition inv_in (i j0 : nat) (st : list bool * list nat * list bool) : Prop :=
  let '(nn, sl, sk) := st in length nn = n /\ length sl = n /\ length sk = n /\
  forall j, j < n -> let i' := if j <? j0 then i + 1 else i in
    nth j nn false = Fnn i' j /\ nth j sl 0 = Fsl i' j /\ nth j sk false = Fsk i' j.

Lemma Fle : forall i j, j <= i -> Fsl (i + 1) j = Fsl i j /\ Fsk (i + 1) j = Fsk i j /\ Fnn (i + 1) j = Fnn i j.
Proof.
  intros i j H. unfold Fsl, Fsk, Fnn. destruct (first_spec (sameE fs) (sameE_refl fs) j) as (A & _).
  destruct (Nat.ltb_spec (fst' j) i); destruct (Nat.ltb_spec (fst' j) (i + 1)); destruct (Nat.ltb_spec (fst' j) j); try lia; auto.
  assert (j = fst' j) by lia. repeat split; auto.
Qed.
Lemma Fdiff : forall i j, i < j -> sameE fs i j = false -> Fsl (i + 1) j = Fsl i j /\ Fsk (i + 1) j = Fsk i j /\ Fnn (i + 1) j = Fnn i j.
Proof.
  intros i j H Hs. unfold Fsl, Fsk, Fnn. destruct (first_spec (sameE fs) (sameE_refl fs) j) as (A & B & _).
  destruct (Nat.ltb_spec (fst' j) i); destruct (Nat.ltb_spec (fst' j) (i + 1)); try lia; auto.
  assert (E : fst' j = i) by lia. rewrite E in B. congruence.
Qed.

Lemma dup_in_ok : exists nn sl sk, dup_in fs = Ok (nn, sl, sk) /\ length sl = n /\ length sk = n /\
  forall j, j < n -> nth j sl 0 = fst' j /\ nth j sk false = (fst' j <? j).
Proof.
  unfold dup_in.
  match goal with |- context [rfold _ ?F ?s] => destruct (@rfold_inv0 _ (fun i st => inv_in i 0 st) F n s) as (st & E & H) end.
  - unfold inv_in. rewrite map_length, seq_length, repeat_length. repeat split; auto; cbn [Nat.ltb Nat.leb].
    + unfold Fnn. simpl. rewrite orb_false_r. apply nn0. auto.
    + unfold Fsl. simpl. rewrite seq_nth by auto. reflexivity.
    + unfold Fsk. simpl. apply nth_repeat.
  - intros i st Hi Hst.
    match goal with |- exists s', rfold _ ?F ?s = _ /\ _ => destruct (@rfold_inv _ (fun j0 st => inv_in i j0 st) F (n - S i) (S i) s) as (st' & E & H) end.
    + destruct st as ((nn, sl), sk). destruct Hst as (L1 & L2 & L3 & G). split; [auto|]. split; [auto|]. split; [auto|].
      intros j Hj. specialize (G j Hj). simpl in G. cbv zeta.
      destruct (Nat.ltb_spec j (S i)); auto. destruct (@Fle i j ltac:(lia)) as (-> & -> & ->). auto.
    + clear st Hst. intros j ((nn, sl), sk) Hj (L1 & L2 & L3 & G).
      unfold dup_in_step. rewrite !og_fld by lia. cbn [rbind].
      destruct (same (fld fs i) (fld fs j)) eqn:Es.
      * destruct (G i Hi) as (Gn & Gl & _). cbv zeta in Gn, Gl.
        destruct (Nat.ltb_spec i j); [|lia].
        rewrite (og_nth nn false) by lia. cbn [rbind]. rewrite Gn.
        assert (Hn : Fnn (i + 1) i = true).
        { unfold Fnn. pose proof (@in_dup_nn i j ltac:(lia) Es) as Hx.
          destruct (first_spec (sameE fs) (sameE_refl fs) i) as (A & _).
          destruct (Nat.ltb_spec (fst' i) (i + 1)); [|lia]. exact Hx. }
        rewrite Hn, (og_nth sl 0) by lia. cbn [rbind]. eexists. split; [reflexivity|].
        unfold inv_in. rewrite !upd_length. repeat split; auto;
          rewrite nth_upd' by lia; destruct (@first_lt_of i j ltac:(lia) Es) as (F1 & F2 & F3); destruct (G j0 H0) as (G1 & G2 & G3);
          cbv zeta in *; destruct (Nat.eqb_spec j0 j) as [->|Hne].
        -- destruct (Nat.ltb_spec j (j + 1)); [|lia]. unfold Fnn.
           destruct (Nat.ltb_spec (fst' j) (i + 1)); [|lia]. destruct (Nat.ltb_spec (fst' j) j); [|lia]. simpl. rewrite orb_true_r. reflexivity.
        -- rewrite G1. destruct (Nat.ltb_spec j0 j); destruct (Nat.ltb_spec j0 (j + 1)); auto; lia.
        -- destruct (Nat.ltb_spec j (j + 1)); [|lia]. rewrite Gl. unfold Fsl.
           destruct (Nat.ltb_spec (fst' j) (i + 1)); [|lia]. destruct (Nat.ltb_spec (fst' i) (i + 1)); [|lia]. auto.
        -- rewrite G2. destruct (Nat.ltb_spec j0 j); destruct (Nat.ltb_spec j0 (j + 1)); auto; lia.
        -- destruct (Nat.ltb_spec j (j + 1)); [|lia]. unfold Fsk.
           destruct (Nat.ltb_spec (fst' j) (i + 1)); [|lia]. destruct (Nat.ltb_spec (fst' j) j); [|lia]. auto.
        -- rewrite G3. destruct (Nat.ltb_spec j0 j); destruct (Nat.ltb_spec j0 (j + 1)); auto; lia.
      * eexists. split; [reflexivity|]. unfold inv_in. split; [auto|]. split; [auto|]. split; [auto|].
        intros j1 Hj1. destruct (G j1 Hj1) as (G1 & G2 & G3). cbv zeta in *.
        destruct (Nat.ltb_spec j1 j); destruct (Nat.ltb_spec j1 (j + 1)); auto; try lia.
        assert (j1 = j) by lia. subst j1. destruct (@Fdiff i j ltac:(lia) Es) as (-> & -> & ->). auto.
    + exists st'. split; auto. replace (S i + (n - S i)) with n in H by lia.
      destruct st' as ((nn, sl), sk). destruct H as (L1 & L2 & L3 & G). split; [auto|]. split; [auto|]. split; [auto|].
      intros j Hj. specialize (G j Hj). cbv zeta in *. apply Nat.ltb_lt in Hj. rewrite Hj in G. simpl. auto.
  - destruct st as ((nn, sl), sk). exists nn, sl, sk. split; auto. destruct H as (L1 & L2 & L3 & G). split; auto. split; auto.
    intros j Hj. destruct (G j Hj) as (_ & G2 & G3). simpl in G2, G3. unfold Fsl in G2. unfold Fsk in G3.
    destruct (first_spec (sameE fs) (sameE_refl fs) j) as (A & _).
    destruct (Nat.ltb_spec (fst' j) n); [|lia]. auto.
Qed.
End In.

Section Out.
Variable fs : list (ofield R).
Notation n := (length fs).
Notation fst' := (first (sameE fs)).
Notation lst := (last (sameE fs) n).
Hypothesis Hg : forall i j, i < j < n -> sameE fs i j = true -> bm fs j = true.

(* processed: all (i', j') with i' > i, and those with i' = i and j0 <= j' < i *)
Definition done (i j0 i' j' : nat) : Prop := j' < i' < n /\ (i < i' \/ i' = i /\ j0 <= j').
Definition inv_out (i j0 : nat) (st : list bool * list bool * list bool * list nat) : Prop :=
  let '(nn, sk, ad, ix) := st in length nn = n /\ length sk = n /\ length ad = n /\ length ix = n /\
  (forall j, j < n -> bm fs j = true -> nth j nn false = true) /\
  (forall j, j < n -> (nth j sk false = true <-> exists i', done i j0 i' j /\ sameE fs i' j = true)) /\
  (forall i', i' < n -> (nth i' ad false = true <-> exists j, done i j0 i' j /\ sameE fs i' j = true)) /\
  (forall j, j < n -> nth j sk false = true -> j < nth j ix 0 < n /\ sameE fs (nth j ix 0) j = true).

Lemma dup_out_ok : exists nn sk ad ix, dup_out fs = Ok (nn, sk, ad, ix) /\ length sk = n /\ length ad = n /\ length ix = n /\
  (forall j, j < n -> nth j sk false = (j <? lst j)) /\ (forall i, i < n -> nth i ad false = (fst' i <? i)) /\
  (forall j, j < n -> nth j sk false = true -> j < nth j ix 0 < n /\ sameE fs (nth j ix 0) j = true).
Proof.
  unfold dup_out.
  match goal with |- context [rfold _ ?F ?s] => destruct (@rfold_down _ (fun i st => inv_out i 0 st) F n s) as (st & E & H) end.
  - unfold inv_out. rewrite map_length, !repeat_length. repeat split; auto.
    + intros j Hj Hb. rewrite nn0; auto.
    + rewrite nth_repeat. discriminate.
    + intros (i' & D & _). unfold done in D. lia.
    + rewrite nth_repeat. discriminate.
    + intros (i & D & _). unfold done in D. lia.
    + rewrite nth_repeat in *. discriminate.
    + rewrite nth_repeat in *. discriminate.
    + rewrite !nth_repeat in *. discriminate.
  - intros i st Hi Hst.
    match goal with |- exists s', rfold _ ?F ?s = _ /\ _ => destruct (@rfold_down _ (fun j0 st => inv_out i j0 st) F i s) as (st' & E & H) end.
    + destruct st as (((nn, sk), ad), ix). destruct Hst as (L1 & L2 & L3 & L4 & G0 & G1 & G2 & G3).
      split; [auto|]. split; [auto|]. split; [auto|]. split; [auto|]. split; [auto|]. split; [|split; auto].
      * intros j Hj. rewrite (G1 j Hj). unfold done. split; intros (i' & D & S); exists i'; split; auto; lia.
      * intros i' Hi'. rewrite (G2 i' Hi'). unfold done. split; intros (j & D & S); exists j; split; auto; lia.
    + clear st Hst. intros j (((nn, sk), ad), ix) Hj (L1 & L2 & L3 & L4 & G0 & G1 & G2 & G3).
      unfold dup_out_step. rewrite !og_fld by lia. cbn [rbind].
      destruct (same (fld fs i) (fld fs j)) eqn:Es.
      * assert (Hb : bm fs i = true). { apply (@Hg j i); [lia|]. rewrite sameE_sym. exact Es. }
        rewrite (og_nth nn false) by lia. cbn [rbind]. rewrite G0 by auto. eexists. split; [reflexivity|].
        unfold inv_out. rewrite !upd_length. split; [auto|]. split; [auto|]. split; [auto|]. split; [auto|]. split; [|split; [|split]].
        -- intros j1 Hj1 H1. rewrite nth_upd' by lia. destruct (j1 =? j); auto.
        -- intros j1 Hj1. rewrite nth_upd' by lia. destruct (Nat.eqb_spec j1 j) as [->|Hne].
           ++ split; auto. intros _. exists i. split; auto. unfold done. lia.
           ++ rewrite (G1 j1 Hj1). split; intros (i' & D & S); exists i'; split; auto; unfold done in *; lia.
        -- intros i1 Hi1. rewrite nth_upd' by lia. destruct (Nat.eqb_spec i1 i) as [->|Hne].
           ++ split; auto. intros _. exists j. split; auto. unfold done. lia.
           ++ rewrite (G2 i1 Hi1). split; intros (j' & D & S); exists j'; split; auto; unfold done in *; lia.
        -- intros j1 Hj1. rewrite !nth_upd' by lia. destruct (Nat.eqb_spec j1 j) as [->|Hne]; auto.
      * eexists. split; [reflexivity|]. unfold inv_out. split; [auto|]. split; [auto|]. split; [auto|]. split; [auto|]. split; [auto|].
        split; [|split; auto].
        -- intros j1 Hj1. rewrite (G1 j1 Hj1). split; intros (i' & D & S); exists i'; split; auto; unfold done in *.
           ++ lia.
           ++ destruct D as (D1 & [D2|(-> & D2)]); [lia|]. destruct (Nat.eq_dec j1 j) as [->|]; [|lia]. unfold sameE in S. congruence.
        -- intros i1 Hi1. rewrite (G2 i1 Hi1). split; intros (j1 & D & S); exists j1; split; auto; unfold done in *.
           ++ lia.
           ++ destruct D as (D1 & [D2|(-> & D2)]); [lia|]. destruct (Nat.eq_dec j1 j) as [->|]; [|lia]. unfold sameE in S. congruence.
    + exists st'. split; auto.
  - destruct st as (((nn, sk), ad), ix). exists nn, sk, ad, ix. split; auto.
    destruct H as (L1 & L2 & L3 & L4 & G0 & G1 & G2 & G3). split; auto. split; auto. split; auto. split; [|split; auto].
    + intros j Hj. apply eq_true_iff_eq. rewrite (G1 j Hj), Nat.ltb_lt. unfold done.
      destruct (@last_spec (sameE fs) n (sameE_refl fs) j Hj) as (A & B & C). split.
      * intros (i' & D & S). pose proof (@last_ge _ n (sameE_refl fs) (sameE_sym fs) (@sameE_trans fs) i' j ltac:(lia) Hj S). lia.
      * intros H. exists (lst j). split; auto. lia.
    + intros i Hi. apply eq_true_iff_eq. rewrite (G2 i Hi), Nat.ltb_lt. unfold done.
      destruct (first_spec (sameE fs) (sameE_refl fs) i) as (A & B & C). split.
      * intros (j & D & S). rewrite sameE_sym in S. pose proof (@first_le _ (sameE_refl fs) (sameE_sym fs) (@sameE_trans fs) j i S). lia.
      * intros H. exists (fst' i). split; [lia|]. rewrite sameE_sym. auto.
Qed.
End Out.
End Dup.
