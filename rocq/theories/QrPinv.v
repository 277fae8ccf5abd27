(** * The pseudoinverse and its uses *)
From Coq Require Import List ZArith Lia Bool Arith Reals Lra Psatz.
From Verif Require Import Prelude RstrModel OpModel OpLists DenseModel DenseProofs QrModel RealLin QrProofs QrFact.
Import ListNotations.
Local Open Scope nat_scope.
Local Open Scope R_scope.

(** ** backward substitution *)
Section Back.
Variables (m n : nat) (Iq r : list real).
Hypothesis Hn : (0 < n)%nat.
Hypothesis HI : (n * m <= length Iq)%nat.
Hypothesis Hr : (n * n <= length r)%nat.
Let rr := cur n r n.
Hypothesis Hd : forall c, (c < n)%nat -> at2 r n c c <> 0.
Lemma rr_low : forall i k, (k < i)%nat -> (k < n)%nat -> rr i k = 0.
Proof. intros i k Hik Hk. unfold rr, cur. destruct (Nat.ltb_spec k n), (Nat.ltb_spec k i); cbn; auto; lia. Qed.
Lemma rr_up : forall i k, (i <= k)%nat -> rr i k = ent r (k + n * i).
Proof. intros i k Hik. unfold rr, cur. destruct (Nat.ltb_spec k i); [lia|]. rewrite andb_false_r. unfold at2. f_equal. nia. Qed.
Definition row_ok (j i : nat) (out : list real) : Prop := Sum n (fun k => rr i k * ent out (j + m * k)) = ent Iq (j + m * i).
Lemma row_split : forall j i out, (i < n)%nat -> Sum n (fun k => rr i k * ent out (j + m * k)) =
  rr i i * ent out (j + m * i) + Sum (n - (i + 1)) (fun l => ent r (i + 1 + l + n * i) * ent out (j + m * (i + 1 + l))).
Proof. intros j i out Hi. rewrite (Sum_from n _ i Hi) by (intros l Hl; rewrite rr_low by lia; ring). f_equal. apply Sum_ext. intros l Hl. rewrite rr_up by lia. reflexivity. Qed.
Lemma col_inj : forall j i j' i', (j < m)%nat -> (j' < m)%nat -> (j + m * i = j' + m * i')%nat -> j = j' /\ i = i'.
Proof. intros j i j' i' Hj Hj' E. destruct (rowcol m i j i' j'); auto; try lia. Qed.
Lemma row_keep : forall j i out out', (i < n)%nat -> (forall k, (i <= k)%nat -> (k < n)%nat -> ent out' (j + m * k) = ent out (j + m * k)) -> row_ok j i out -> row_ok j i out'.
Proof. intros j i out out' Hi H E. unfold row_ok in *. rewrite <- E. apply Sum_ext. intros k Hk. destruct (Nat.lt_ge_cases k i); [rewrite !rr_low by lia; ring|]. rewrite H by auto. reflexivity. Qed.
Lemma back_ok : forall out0, (n * m <= length out0)%nat -> exists out, rfold (seq 0 m) (fun j out =>
    if (n =? 0)%nat then UB else
    a <~ og Iq (j + m * (n - 1)) ;; b <~ og r (n * n - 1) ;; c <~ rdiv a b ;;
    out <~ put out (j + m * (n - 1)) c ;;
    rfold (rev (seq 0 (n - 1))) (fun i out =>
      a <~ og Iq (j + m * i) ;; out <~ put out (j + m * i) a ;;
      out <~ rfold (seq (i + 1) (n - (i + 1))) (fun k out => x <~ og out (j + m * i) ;; y <~ og r (k + n * i) ;; z <~ og out (j + m * k) ;; put out (j + m * i) (x - y * z)) out ;;
      x <~ og out (j + m * i) ;; y <~ og r (i + n * i) ;; z <~ rdiv x y ;; put out (j + m * i) z) out) out0 = Ok out /\
  length out = length out0 /\ (forall j i, (j < m)%nat -> (i < n)%nat -> row_ok j i out) /\ (forall p, (n * m <= p)%nat -> ent out p = ent out0 p).
Proof.
  intros out0 Ho.
  match goal with |- exists A', rfold _ ?f _ = _ /\ _ => destruct (@rfold_inv0 (list real) (fun j out => length out = length out0 /\
      (forall j' i, (j' < j)%nat -> (i < n)%nat -> row_ok j' i out) /\ (forall p, (n * m <= p)%nat -> ent out p = ent out0 p)) f m out0) as (out & E & H) end.
  - split; auto. split; auto. intros; lia.
  - intros j out Hj (HL & H1 & H2). assert (HP : forall i, (i < n)%nat -> (j + m * i < n * m)%nat) by (intros; nia).
    destruct (Nat.eqb_spec n 0); [lia|]. rewrite !og_ent by nia. cbn [rbind]. unfold rdiv at 1.
    replace (n * n - 1)%nat with ((n - 1) * n + (n - 1))%nat by nia. fold (at2 r n (n - 1)%nat (n - 1)%nat).
    destruct (Req_EM_T (at2 r n (n - 1)%nat (n - 1)%nat) 0) as [Hz|_]; [exfalso; apply (Hd (n - 1)%nat) in Hz; auto; lia|]. cbn [rbind].
    rewrite put_ok by (rewrite HL; pose proof (HP (n - 1)%nat ltac:(lia)); lia). cbn [rbind].
    match goal with |- exists s', rfold _ ?f ?s00 = _ /\ _ => destruct (@rfold_down (list real) (fun i o => length o = length out0 /\ (forall i', (i <= i')%nat -> (i' < n)%nat -> row_ok j i' o) /\
       (forall p, (forall i', (i' < n)%nat -> p <> (j + m * i')%nat) -> ent o p = ent out p)) f (n - 1) s00) as (o & E & HLo & G1 & G2) end.
    { rewrite upd_length. split; auto. pose proof (HP (n - 1)%nat ltac:(lia)) as HPn. split.
      - intros i' Hi1 Hi2. replace i' with (n - 1)%nat by lia. unfold row_ok. rewrite row_split by lia. replace (n - (n - 1 + 1))%nat with 0%nat by lia. cbn [Sum].
        rewrite ent_upd by lia. rewrite Nat.eqb_refl, rr_up by lia. unfold at2. replace (n - 1 + n * (n - 1))%nat with ((n - 1) * n + (n - 1))%nat by nia. field. apply (Hd (n - 1)%nat). lia.
      - intros p Hp. rewrite ent_upd by lia. destruct (Nat.eqb_spec p (j + m * (n - 1))); auto. exfalso; apply (Hp (n - 1)%nat); auto; lia. }
    { intros i o Hi (HLo & G1 & G2). pose proof (HP i ltac:(lia)) as HPi. rewrite og_ent by lia. cbn [rbind]. rewrite put_ok by lia. cbn [rbind].
      match goal with |- exists s', rbind (rfold _ ?f ?s00) _ = _ /\ _ => destruct (@rfold_inv (list real) (fun k o' => length o' = length out0 /\
         ent o' (j + m * i) = ent Iq (j + m * i) - Sum (k - (i + 1)) (fun l => ent r (i + 1 + l + n * i) * ent o (j + m * (i + 1 + l))) /\ (forall p, p <> (j + m * i)%nat -> ent o' p = ent o p)) f (n - (i + 1)) (i + 1) s00) as (o1 & E & HLo1 & V1 & V2) end.
      { rewrite upd_length. split; auto. rewrite ent_upd by lia. rewrite Nat.eqb_refl, Nat.sub_diag. cbn [Sum]. split; [ring|]. intros p Hp. rewrite ent_upd by lia. destruct (Nat.eqb_spec p (j + m * i)); [contradiction|auto]. }
      { intros k o1 Hk (HLo1 & V1 & V2). pose proof (HP k ltac:(lia)) as HPk. assert (k + n * i < n * n)%nat by nia. rewrite !og_ent by lia. cbn [rbind]. rewrite put_ok by lia. eexists. split; [reflexivity|]. rewrite upd_length. split; auto. split.
        - rewrite ent_upd by lia. rewrite Nat.eqb_refl, V1. replace (k + 1 - (i + 1))%nat with (S (k - (i + 1))) by lia. cbn [Sum]. rewrite (V2 (j + m * k)%nat). 2: { intros Eq. apply col_inj in Eq; lia. }
          replace (i + 1 + (k - (i + 1)))%nat with k by lia. ring.
        - intros p Hp. rewrite ent_upd by lia. destruct (Nat.eqb_spec p (j + m * i)); [contradiction|auto]. }
      replace (i + 1 + (n - (i + 1)))%nat with n in * by lia. rewrite E. clear E. cbn [rbind]. assert (i + n * i < n * n)%nat by nia. rewrite !og_ent by lia. cbn [rbind]. unfold rdiv.
      assert (Hdi : ent r (i + n * i) <> 0) by (pose proof (Hd i ltac:(lia)) as G; unfold at2 in G; replace (i + n * i)%nat with (i * n + i)%nat by nia; exact G).
      destruct (Req_EM_T (ent r (i + n * i)) 0); [contradiction|]. cbn [rbind]. rewrite put_ok by lia. eexists. split; [reflexivity|]. rewrite upd_length. split; auto.
      assert (Hk : forall p, p <> (j + m * i)%nat -> ent (upd o1 (j + m * i) (ent o1 (j + m * i) / ent r (i + n * i))) p = ent o p).
      { intros p Hp. rewrite ent_upd by lia. destruct (Nat.eqb_spec p (j + m * i)); [contradiction|auto]. }
      split.
      - intros i' Hi1 Hi2. destruct (Nat.eq_dec i' i) as [->|Hne].
        + unfold row_ok. rewrite row_split by lia.
          rewrite (Sum_ext (n - (i + 1)) _ (fun l => ent r (i + 1 + l + n * i) * ent o (j + m * (i + 1 + l)))). 2: { intros l Hl. rewrite Hk; [reflexivity|]. intros Eq. apply col_inj in Eq; lia. }
          rewrite ent_upd by lia. rewrite Nat.eqb_refl, V1, rr_up by lia. field. auto.
        + apply (row_keep j i' o); auto; [|apply G1; lia]. intros k Hk1 Hk2. apply Hk. intros Eq. apply col_inj in Eq; lia.
      - intros p Hp. rewrite Hk by (apply Hp; lia). auto. }
    rewrite E. exists o. split; auto. split; auto. split.
    + intros j' i Hj' Hi. destruct (Nat.eq_dec j' j) as [->|]; [apply G1; lia|]. apply (row_keep j' i out); auto; [|apply H1; auto; lia].
      intros k Hk1 Hk2. apply G2. intros i' Hi' Eq. apply col_inj in Eq; lia.
    + intros p Hp. rewrite G2; auto. intros i' Hi'. pose proof (HP i' Hi'). lia.
  - exists out. rewrite E. destruct H as (? & ? & ?). auto.
Qed.
End Back.

(** ** the pseudoinverse *)
Lemma at2_firstn : forall (mat : list real) m n r c, (r < m)%nat -> (c < n)%nat -> at2 (firstn (m * n) mat) n r c = at2 mat n r c.
Proof.
  intros mat m n r c Hr Hc. unfold at2, ent. assert (r * n + c < m * n)%nat by nia.
  rewrite <- (firstn_skipn (m * n) mat) at 2. destruct (Nat.lt_ge_cases (r * n + c) (length (firstn (m * n) mat))).
  - rewrite app_nth1 by auto. reflexivity.
  - rewrite firstn_length in *. assert (length mat <= r * n + c)%nat by lia. rewrite !nth_overflow; auto; [rewrite firstn_skipn; lia|rewrite firstn_length; lia].
Qed.
Lemma indep_ext : forall m n A B, eqm m n A B -> indep m n A -> indep m n B.
Proof. intros m n A B E H c Hc. apply H. intros r Hr. rewrite <- (Hc r Hr). apply Sum_ext. intros j Hj. rewrite E by auto. reflexivity. Qed.

Lemma pinv_ok : forall junk mat m n out, (0 < n)%nat -> (n <= m)%nat -> (m * n <= length mat)%nat -> (n * m <= length out)%nat -> indep m n (at2 mat n) ->
  exists P, pinv junk mat m n out = Ok P /\ length P = length out /\
  eqm n n (mm m (at2 P m) (at2 mat n)) idm /\
  (exists Q, orth m Q /\ eqm m m (mm n (at2 mat n) (at2 P m)) (mm n Q (tr Q))) /\
  (forall p, (n * m <= p)%nat -> ent P p = ent out p).
Proof.
  intros junk mat m n out Hn Hnm Hmat Hout Hind. unfold pinv. destruct (Nat.leb_spec (m * n) (length mat)); [|lia]. cbn [negb].
  set (A := firstn (m * n) mat). assert (HLA : length A = (m * n)%nat) by (unfold A; rewrite firstn_length; lia).
  assert (EA : eqm m n (at2 A n) (at2 mat n)) by (intros r c Hr Hc; apply at2_firstn; auto).
  assert (HindA : indep m n (at2 A n)) by (apply (indep_ext m n (at2 mat n)); auto; intros r c Hr Hc; symmetry; auto).
  destruct (qr_ok A (repeat 0 m) m n) with (junk := junk) as (M & tau & Eq & HI); auto; try lia.
  { rewrite repeat_length. lia. } { apply (indep_sub m _ n); auto; lia. }
  assert (Hdiag : forall c, (c < n)%nat -> at2 M n c c <> 0) by (apply (qr_diag A (repeat 0 m) m n) with (tau := tau); auto; try lia; rewrite repeat_length; lia).
  destruct HI as (HL & HLt & Hg & Hq & _ & _ & _). rewrite repeat_length in HLt. rewrite Eq. cbn [rbind].
  match goal with |- exists P, rbind (rfold _ ?f ?s00) _ = _ /\ _ => destruct (@rfold_inv0 (list real) (fun i I => length I = (m * m)%nat /\ forall r c, (r < m)%nat -> (c < m)%nat -> at2 I m r c = if (r <? i)%nat then idm r c else 0) f m s00) as (I0 & E & HLI & HI0) end.
  { rewrite repeat_length. split; auto. intros. unfold at2, ent. apply nth_repeat. }
  { intros i I Hi (HLI & HI). rewrite put_ok by (rewrite HLI; nia). eexists. split; [reflexivity|]. rewrite upd_length. split; auto. intros r c Hr Hc. unfold at2. rewrite ent_upd by (rewrite HLI; nia).
    destruct (Nat.eqb_spec (r * m + c) (i * m + i)) as [Er|Er].
    - apply rowcol in Er; try lia. destruct Er as (-> & ->). destruct (Nat.ltb_spec i (i + 1)); [|lia]. unfold idm. rewrite Nat.eqb_refl. reflexivity.
    - fold (at2 I m r c). rewrite HI by auto. destruct (Nat.ltb_spec r i), (Nat.ltb_spec r (i + 1)); auto; try lia.
      assert (r = i) by lia. subst r. unfold idm. destruct (Nat.eqb_spec i c) as [->|]; [exfalso; apply Er; lia|reflexivity]. }
  rewrite E. clear E. cbn [rbind].
  destruct (apply_q_ok junk I0 M tau m m n m 1) with (tm := Transpose) as (I1 & E & HL1 & HX & _); auto; try lia.
  { intros. nia. } { intros r j r' j' Hr Hj Hr' Hj' Er. apply (rowcol m); lia. }
  rewrite E. clear E. cbn [rbind tmul] in *.
  set (q := qmat M tau m n) in *. pose proof (qm_orth m (ent tau) (qv M n) n Hg) as Hort. fold (qmat M tau m n) in Hort. fold q in Hort.
  assert (HI1 : forall r j, (r < m)%nat -> (j < m)%nat -> ent I1 (j + m * r) = q j r).
  { intros r j Hr Hj. replace (j + m * r)%nat with (r * m + j * 1)%nat by lia. rewrite HX by auto. transitivity (mm m (tr q) idm r j); [|rewrite mm_id_r by auto; reflexivity]. apply mm_ext; auto.
    intros l Hl. rewrite Nat.mul_1_r. pose proof (HI0 l j Hl Hj) as G. destruct (Nat.ltb_spec l m); [exact G|lia]. }
  destruct (back_ok m n I1 M) with (out0 := out) as (P & E & HLP & HR & HB); auto; try nia.
  rewrite E. exists P. split; auto. split; auto.
  assert (HRP : forall i j, (i < n)%nat -> (j < m)%nat -> mm n (cur n M n) (at2 P m) i j = q j i).
  { intros i j Hi Hj. rewrite <- HI1 by lia. pose proof (HR j i Hj Hi) as G. unfold row_ok in G. rewrite <- G. apply Sum_ext. intros l _. unfold at2 at 1. f_equal. f_equal. nia. }
  assert (Hq' : forall r c, (r < m)%nat -> (c < n)%nat -> mm m q (cur n M n) r c = at2 mat n r c).
  { intros r c Hr Hc. rewrite <- EA by auto. apply Hq; auto. }
  split; [|split].
  - intros i j Hi Hj. assert (G : mm m (at2 P m) (at2 mat n) i j - idm i j = 0); [|lra].
    apply (upper_inj n (cur n M n) (fun i => mm m (at2 P m) (at2 mat n) i j - idm i j)); auto.
    + intros r c Hrc Hr. unfold cur. destruct (Nat.ltb_spec c n), (Nat.ltb_spec c r); cbn; auto; lia.
    + intros c Hc. unfold cur. rewrite Nat.ltb_irrefl, andb_false_r. auto.
    + intros r Hr. rewrite (Sum_ext n _ (fun k => cur n M n r k * mm m (at2 P m) (at2 mat n) k j - cur n M n r k * idm k j)) by (intros; ring).
      rewrite Sum_sub. fold (mm n (cur n M n) idm r j). rewrite mm_id_r by auto. fold (mm n (cur n M n) (mm m (at2 P m) (at2 mat n)) r j). rewrite <- mm_assoc.
      rewrite (mm_ext m _ (tr q) _ (mm m q (cur n M n))). 2: { intros l Hl. rewrite HRP by auto. reflexivity. } 2: { intros l Hl. rewrite Hq' by auto. reflexivity. }
      rewrite <- mm_assoc. rewrite (mm_ext m _ idm _ (cur n M n)); auto. 2: { intros l Hl. apply Hort; auto; lia. } rewrite mm_id_l by lia. ring.
  - exists q. split; auto. intros i j Hi Hj.
    rewrite (mm_ext n _ (mm m q (cur n M n)) _ (at2 P m)); auto. 2: { intros l Hl. rewrite Hq' by auto. reflexivity. }
    rewrite mm_assoc. unfold mm at 1. replace m with (n + (m - n))%nat at 1 by lia. rewrite Sum_app. rewrite (Sum_zero (m - n)).
    2: { intros l Hl. unfold mm. rewrite Sum_zero; [ring|]. intros k Hk. unfold cur. destruct (Nat.ltb_spec k n), (Nat.ltb_spec k (n + l)); cbn; try lia. ring. }
    rewrite Rplus_0_r. apply Sum_ext. intros l Hl. rewrite HRP by auto. reflexivity.
  - auto.
Qed.
