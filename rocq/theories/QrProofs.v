(** * Proofs about the model of Householder QR *)
From Coq Require Import List ZArith Lia Bool Arith Reals Lra Psatz.
From Verif Require Import Prelude RstrModel OpModel OpLists DenseModel DenseProofs QrModel RealLin.
Import ListNotations.
Local Open Scope nat_scope.
Local Open Scope R_scope.

Definition ent (A : list real) (p : nat) : real := nth p A 0.
Lemma og_ent : forall (A : list real) p, (p < length A)%nat -> og A p = Ok (ent A p).
Proof. intros. apply og_nth. auto. Qed.
Lemma put_ok : forall (A : list real) p x, (p < length A)%nat -> put A p x = Ok (upd A p x).
Proof. intros A p x H. unfold put. rewrite set_Some by auto. reflexivity. Qed.
Lemma ent_upd : forall (A : list real) p x q, (p < length A)%nat -> ent (upd A p x) q = if (q =? p)%nat then x else ent A q.
Proof. intros. unfold ent. apply nth_upd'. auto. Qed.

(** ** reflections *)
Definition vone (v : list real) (voff i : nat) : real := if (i =? 0)%nat then 1 else ent v (voff + i).
Section Reflect.
Variables (A0 v : list real) (off voff m n row col : nat) (b : real).
Let pos (i j : nat) : nat := (off + i * row + j * col)%nat.
Hypothesis Hm : (0 < m)%nat.
Hypothesis Hin : forall i j, (i < m)%nat -> (j < n)%nat -> (pos i j < length A0)%nat.
Hypothesis Hinj : forall i j i' j', (i < m)%nat -> (j < n)%nat -> (i' < m)%nat -> (j' < n)%nat -> pos i j = pos i' j' -> i = i' /\ j = j'.
Hypothesis Hv : (voff + m <= length v)%nat.
Let vv := vone v voff.
Let new (i j : nat) : real := ent A0 (pos i j) - b * vv i * Sum m (fun l => vv l * ent A0 (pos l j)).

Lemma reflect_ok : exists A', reflect A0 off v voff b m n row col = Ok A' /\ length A' = length A0 /\
  (forall i j, (i < m)%nat -> (j < n)%nat -> ent A' (pos i j) = new i j) /\
  (forall p, (forall i j, (i < m)%nat -> (j < n)%nat -> p <> pos i j) -> ent A' p = ent A0 p).
Proof.
  unfold reflect.
  match goal with |- exists A', rfold _ ?f _ = _ /\ _ => destruct (@rfold_inv0 (list real) (fun j A => length A = length A0 /\
      (forall i j', (i < m)%nat -> (j' < j)%nat -> ent A (pos i j') = new i j') /\
      (forall p, (forall i j', (i < m)%nat -> (j' < j)%nat -> p <> pos i j') -> ent A p = ent A0 p)) f n A0) as (A' & E & H) end.
  - split; auto. split; auto. intros; lia.
  - intros j A Hj (HL & H1 & H2).
    assert (Hcol : forall i, (i < m)%nat -> ent A (pos i j) = ent A0 (pos i j)).
    { intros i Hi. apply H2. intros i' j' Hi' Hj' E. destruct (Hinj i j i' j') as (_ & ?); auto; lia. }
    assert (HinA : forall i, (i < m)%nat -> (pos i j < length A)%nat) by (intros; rewrite HL; apply Hin; auto).
    change (off + 0 * row + j * col)%nat with (pos 0 j). rewrite og_ent by auto. cbn [rbind].
    match goal with |- exists s', (rbind (rfold _ ?f ?w00) _) = _ /\ _ => destruct (@rfold_inv real (fun i w => w = Sum i (fun l => vv l * ent A0 (pos l j))) f (m - 1) 1 w00) as (w & E & Hw) end.
    { cbn [Sum]. rewrite Hcol by auto. unfold vv, vone. cbn. ring. }
    { intros i w Hi ->. rewrite og_ent by lia. cbn [rbind]. fold (pos i j). rewrite og_ent by (apply HinA; lia). cbn [rbind].
      eexists. split; [reflexivity|]. rewrite Nat.add_1_r. cbn [Sum]. rewrite Hcol by lia. unfold vv at 3, vone. destruct (Nat.eqb_spec i 0); [lia|]. ring. }
    rewrite E. cbn [rbind]. replace (1 + (m - 1))%nat with m in Hw by lia. clear E.
    rewrite put_ok by auto. cbn [rbind].
    match goal with |- exists s', rfold _ ?f ?A10 = _ /\ _ => destruct (@rfold_inv (list real) (fun i A1 => length A1 = length A0 /\
       (forall i', (i' < i)%nat -> ent A1 (pos i' j) = new i' j) /\ (forall p, (forall i', (i' < i)%nat -> p <> pos i' j) -> ent A1 p = ent A p)) f (m - 1) 1 A10) as (A1 & E & HL1 & N1 & U1) end.
    { rewrite upd_length. split; auto. split.
      - intros i' Hi'. replace i' with 0%nat by lia. rewrite ent_upd by auto. rewrite Nat.eqb_refl, Hcol by auto. unfold new. rewrite <- Hw. unfold vv at 1, vone. cbn [Nat.eqb]. ring.
      - intros p Hp. rewrite ent_upd by auto. destruct (Nat.eqb_spec p (pos 0 j)); auto. exfalso; apply (Hp 0%nat); auto. }
    { intros i A1 Hi (HL1 & N1 & U1). fold (pos i j).
      assert (Hlt : (pos i j < length A1)%nat) by (rewrite HL1; apply Hin; lia).
      rewrite og_ent by auto. cbn [rbind]. rewrite og_ent by lia. cbn [rbind]. rewrite put_ok by auto. eexists. split; [reflexivity|].
      rewrite upd_length. split; auto. split.
      - intros i' Hi'. rewrite ent_upd by auto. destruct (Nat.eqb_spec (pos i' j) (pos i j)) as [Eq|Ne].
        + destruct (Hinj i' j i j) as (-> & _); try lia; auto. rewrite U1. 2: { intros i' Hi2 Eq2. destruct (Hinj i j i' j); auto; lia. }
          rewrite Hcol by lia. unfold new. rewrite <- Hw. unfold vv at 1, vone. destruct (Nat.eqb_spec i 0); [lia|]. ring.
        + apply N1. assert (i' <> i) by congruence. lia.
      - intros p Hp. rewrite ent_upd by auto. destruct (Nat.eqb_spec p (pos i j)) as [->|Ne]; [exfalso; apply (Hp i); auto; lia|]. apply U1. intros i' Hi'. apply Hp. lia. }
    rewrite E. exists A1. split; auto. split; auto. replace (1 + (m - 1))%nat with m in * by lia. split.
    + intros i j' Hi Hj'. destruct (Nat.eq_dec j' j) as [->|Hne]; auto. rewrite U1; [apply H1; auto; lia|].
      intros i' Hi' Eq. destruct (Hinj i j' i' j); auto; lia.
    + intros p Hp. rewrite U1 by (intros; apply Hp; auto; lia). apply H2. intros. apply Hp; auto; lia.
  - exists A'. rewrite E. split; auto.
Qed.
End Reflect.

(** rows [i..m) of an array read as an [m] by [n] matrix: multiplication with a Householder matrix *)
Definition vat (v : list real) (i r : nat) : real := if (r <? i)%nat then 0 else if (r =? i)%nat then 1 else ent v r.
Lemma Sum_tail : forall m i f, (i <= m)%nat -> (forall l, (l < i)%nat -> f l = 0) -> Sum m f = Sum (m - i) (fun l => f (i + l)%nat).
Proof. intros m i f Hi H. replace m with (i + (m - i))%nat at 1 by lia. rewrite Sum_app, (Sum_zero i) by auto. ring. Qed.
Lemma reflect_h : forall (A v : list real) off m n row col b i (pos := fun r j => (off + r * row + j * col)%nat),
  (i < m)%nat -> (forall r j, (r < m)%nat -> (j < n)%nat -> (pos r j < length A)%nat) ->
  (forall r j r' j', (r < m)%nat -> (j < n)%nat -> (r' < m)%nat -> (j' < n)%nat -> pos r j = pos r' j' -> r = r' /\ j = j') ->
  (m <= length v)%nat ->
  exists A', reflect A (off + i * row) v i b (m - i) n row col = Ok A' /\ length A' = length A /\
  (forall r j, (r < m)%nat -> (j < n)%nat -> ent A' (pos r j) = mm m (hm b (vat v i)) (fun r j => ent A (pos r j)) r j) /\
  (forall p, (forall r j, (r < m)%nat -> (j < n)%nat -> p <> pos r j) -> ent A' p = ent A p) /\
  (forall r j, (r < i)%nat -> (j < n)%nat -> ent A' (pos r j) = ent A (pos r j)).
Proof.
  intros A v off m n row col b i pos Hi Hin Hinj Hv.
  assert (Hpos : forall r j, (off + i * row + r * row + j * col = pos (i + r) j)%nat) by (intros; unfold pos; nia).
  destruct (reflect_ok A v (off + i * row) i (m - i) n row col b) as (A' & E & HL & H1 & H2); try lia.
  - intros r j Hr Hj. rewrite Hpos. apply Hin; auto; lia.
  - intros r j r' j' Hr Hj Hr' Hj'. rewrite !Hpos. intros Eq. destruct (Hinj (i + r)%nat j (i + r')%nat j'); auto; lia.
  - assert (H3 : forall r j, (r < i)%nat -> (j < n)%nat -> ent A' (pos r j) = ent A (pos r j)).
    { intros r j Hr Hj. apply H2. intros r' j' Hr' Hj'. rewrite Hpos. intros Eq. destruct (Hinj r j (i + r')%nat j'); auto; lia. }
    exists A'. split; auto. split; auto. split; [|split; auto].
    + intros r j Hr Hj. rewrite hm_mm by auto. destruct (Nat.lt_ge_cases r i) as [Hlt|Hge].
      * rewrite H3 by auto. unfold vat at 1. destruct (Nat.ltb_spec r i); [|lia]. ring.
      * replace r with (i + (r - i))%nat by lia. rewrite <- Hpos, H1 by lia. rewrite Hpos. f_equal. f_equal.
        { f_equal. unfold vone, vat. destruct (Nat.ltb_spec (i + (r - i)) i); [lia|]. destruct (Nat.eqb_spec (r - i) 0); destruct (Nat.eqb_spec (i + (r - i)) i); try lia; reflexivity. }
        rewrite (Sum_tail m i); [|lia|]. 2: { intros l Hl. unfold vat. destruct (Nat.ltb_spec l i); [ring|lia]. }
        apply Sum_ext. intros l Hl. rewrite Hpos. f_equal. unfold vone, vat. destruct (Nat.ltb_spec (i + l) i); [lia|]. destruct (Nat.eqb_spec l 0); destruct (Nat.eqb_spec (i + l) i); try lia; reflexivity.
    + intros p Hp. apply H2. intros r j Hr Hj. rewrite Hpos. apply Hp; auto; lia.
Qed.

(** ** the application of Q *)
(** the vectors and scalings stored by the factorization; [k] is the number of columns of the stored array *)
Definition qv (Q : list real) (k c r : nat) : real := if (r <? c)%nat then 0 else if (r =? c)%nat then 1 else ent Q (r * k + c).
Definition qmat (Q tau : list real) (m k : nat) : mtx := qm m (ent tau) (qv Q k) k.
Lemma mm_hm_ext : forall m t v v' X X' i j, (forall r, (r < m)%nat -> v r = v' r) -> (forall r, (r < m)%nat -> X r j = X' r j) -> (i < m)%nat -> mm m (hm t v) X i j = mm m (hm t v') X' i j.
Proof. intros m t v v' X X' i j Hv HX Hi. apply mm_ext; auto. intros l Hl. unfold hm. rewrite !Hv by auto. reflexivity. Qed.
Section Apply.
Variables (junk : nat -> real) (A0 Q tau : list real) (m n k row col : nat).
Let pos (r j : nat) : nat := (r * row + j * col)%nat.
Hypothesis Hin : forall r j, (r < m)%nat -> (j < n)%nat -> (pos r j < length A0)%nat.
Hypothesis Hinj : forall r j r' j', (r < m)%nat -> (j < n)%nat -> (r' < m)%nat -> (j' < n)%nat -> pos r j = pos r' j' -> r = r' /\ j = j'.
Hypothesis Hk : (k <= m)%nat.
Hypothesis HQ : (m * k <= length Q)%nat.
Hypothesis Ht : (k <= length tau)%nat.
Let X (A : list real) : mtx := fun r j => ent A (pos r j).
Lemma apply_step : forall i A v, (i < k)%nat -> length A = length A0 -> length v = m ->
  exists A' v', (v <~ rfold (seq (i + 1) (m - (i + 1))) (fun j v => x <~ og Q (j * k + i) ;; put v j x) v ;;
    t <~ og tau i ;; A' <~ reflect A (i * row) v i t (m - i) n row col ;; Ok (A', v)) = Ok (A', v') /\ length A' = length A0 /\ length v' = m /\
  (forall r j, (r < m)%nat -> (j < n)%nat -> X A' r j = mm m (hm (ent tau i) (qv Q k i)) (X A) r j) /\
  (forall p, (forall r j, (r < m)%nat -> (j < n)%nat -> p <> pos r j) -> ent A' p = ent A p).
Proof.
  intros i A v Hi HL Hlv.
  match goal with |- exists A' v', (rbind (rfold _ ?f ?w) _) = _ /\ _ => destruct (@rfold_inv (list real) (fun j v => length v = m /\ forall r, (i < r)%nat -> (r < j)%nat -> ent v r = ent Q (r * k + i)) f (m - (i + 1)) (i + 1) w) as (v' & E & Hlv' & Hv') end.
  { split; auto. intros; lia. }
  { intros j v' Hj (Hl & H). rewrite og_ent by nia. cbn [rbind]. rewrite put_ok by lia. eexists. split; [reflexivity|]. rewrite upd_length. split; auto.
    intros r Hr1 Hr2. rewrite ent_upd by lia. destruct (Nat.eqb_spec r j) as [->|]; auto. apply H; lia. }
  rewrite E. cbn [rbind]. rewrite og_ent by lia. cbn [rbind].
  destruct (reflect_h A v' 0 m n row col (ent tau i) i) as (A' & E' & HL' & H1 & H2 & _); try lia.
  { intros. rewrite HL. apply Hin; auto. } { intros. apply Hinj; auto. }
  cbn [Nat.add] in *. rewrite E'. cbn [rbind]. exists A', v'. split; auto. split; [congruence|]. split; auto. split; auto.
  intros r j Hr Hj. unfold X. unfold pos at 1. rewrite H1 by auto. apply mm_hm_ext; auto. intros r' Hr'. unfold vat, qv.
  destruct (Nat.ltb_spec r' i); auto. destruct (Nat.eqb_spec r' i); auto. apply Hv'; lia.
Qed.
Definition tmul (tm : tmode) (Q : mtx) : mtx := match tm with NoTranspose => Q | Transpose => tr Q end.
Lemma apply_q_ok : forall tm, exists A', apply_q junk A0 Q tau tm m n k row col = Ok A' /\ length A' = length A0 /\
  (forall r j, (r < m)%nat -> (j < n)%nat -> X A' r j = mm m (tmul tm (qmat Q tau m k)) (X A0) r j) /\
  (forall p, (forall r j, (r < m)%nat -> (j < n)%nat -> p <> pos r j) -> ent A' p = ent A0 p).
Proof.
  intros tm. unfold apply_q, qmat.
  pose (qk := qm m (ent tau) (qv Q k)). fold (qk k).
  assert (G : exists st, rfold (seq 0 k) (fun ii (st : list real * list real) =>
    let i := match tm with Transpose => ii | NoTranspose => (k - 1 - ii)%nat end in
    v <~ rfold (seq (i + 1) (m - (i + 1))) (fun j v => x <~ og Q (j * k + i) ;; put v j x) (snd st) ;;
    t <~ og tau i ;; A <~ reflect (fst st) (i * row) v i t (m - i) n row col ;; Ok (A, v)) (A0, map junk (seq 0 m)) = Ok st /\ length (fst st) = length A0 /\
    (forall r j, (r < m)%nat -> (j < n)%nat -> X (fst st) r j = mm m (tmul tm (qk k)) (X A0) r j) /\
    (forall p, (forall r j, (r < m)%nat -> (j < n)%nat -> p <> pos r j) -> ent (fst st) p = ent A0 p)).
  { destruct tm; cbn [tmul].
    - match goal with |- exists st, rfold _ ?f ?s00 = _ /\ _ => destruct (@rfold_inv0 _ (fun ii (st : list real * list real) => length (fst st) = length A0 /\ length (snd st) = m /\
        (forall r j, (r < m)%nat -> (j < n)%nat -> mm m (qk (k - ii)%nat) (X (fst st)) r j = mm m (qk k) (X A0) r j) /\
        (forall p, (forall r j, (r < m)%nat -> (j < n)%nat -> p <> pos r j) -> ent (fst st) p = ent A0 p)) f k s00) as (st & E & H) end.
      + cbn [fst snd]. rewrite map_length, seq_length. split; auto. split; auto. split; auto. intros. rewrite Nat.sub_0_r. reflexivity.
      + intros ii (A, v) Hii (HL & Hlv & H1 & H2). cbn [fst snd] in *. destruct (apply_step (k - 1 - ii) A v) as (A' & v' & E & HL' & Hlv' & H1' & H2'); auto; [lia|].
        exists (A', v'). split; [exact E|]. cbn [fst snd]. split; auto. split; auto. split.
        * intros r j Hr Hj. rewrite <- H1 by auto. replace (k - ii)%nat with (S (k - (ii + 1))) by lia. cbn [qm qk]. unfold qk. cbn [qm]. rewrite mm_assoc.
          apply mm_ext; auto. intros l Hl. rewrite H1' by auto. replace (k - (ii + 1))%nat with (k - 1 - ii)%nat by lia. reflexivity.
        * intros p Hp. rewrite H2' by auto. auto.
      + destruct H as (HL & _ & H1 & H2). exists st. split; auto. split; auto. split; auto. intros r j Hr Hj. rewrite <- H1 by auto. rewrite Nat.sub_diag. cbn [qm qk]. unfold qk. cbn [qm]. rewrite mm_id_l by auto. reflexivity.
    - match goal with |- exists st, rfold _ ?f ?s00 = _ /\ _ => destruct (@rfold_inv0 _ (fun ii (st : list real * list real) => length (fst st) = length A0 /\ length (snd st) = m /\
        (forall r j, (r < m)%nat -> (j < n)%nat -> X (fst st) r j = mm m (tr (qk ii)) (X A0) r j) /\
        (forall p, (forall r j, (r < m)%nat -> (j < n)%nat -> p <> pos r j) -> ent (fst st) p = ent A0 p)) f k s00) as (st & E & H) end.
      + cbn [fst snd]. rewrite map_length, seq_length. split; auto. split; auto. split; auto. intros r j Hr Hj. symmetry.
        rewrite (mm_ext m _ idm _ (X A0)); auto; [apply mm_id_l; auto|]. intros. unfold tr, qk. cbn [qm]. apply idm_sym.
      + intros ii (A, v) Hii (HL & Hlv & H1 & H2). cbn [fst snd] in *. destruct (apply_step ii A v) as (A' & v' & E & HL' & Hlv' & H1' & H2'); auto.
        exists (A', v'). split; [exact E|]. cbn [fst snd]. split; auto. split; auto. split.
        * intros r j Hr Hj. rewrite H1' by auto. rewrite Nat.add_1_r. unfold qk. cbn [qm].
          rewrite (mm_ext m (tr (mm m (qm m (ent tau) (qv Q k) ii) (hm (ent tau ii) (qv Q k ii)))) (mm m (hm (ent tau ii) (qv Q k ii)) (tr (qm m (ent tau) (qv Q k) ii))) (X A0) (X A0)); auto.
          -- rewrite mm_assoc. apply mm_ext; auto.
          -- intros l Hl. rewrite tr_mm. apply mm_ext; auto. intros. unfold tr. apply hm_sym.
        * intros p Hp. rewrite H2' by auto. auto.
      + destruct H as (HL & _ & H1 & H2). exists st. auto. }
  destruct G as (st & E & H). match goal with |- exists A', rbind ?x _ = _ /\ _ => replace x with (Ok st) by (symmetry; exact E) end. cbn [rbind]. exists (fst st). auto.
Qed.
End Apply.
