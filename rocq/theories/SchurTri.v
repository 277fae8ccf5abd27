(** * CeedSymmetricSchurDecomposition: reduction to tridiagonal form and accumulation of Q *)
From Coq Require Import List ZArith Lia Bool Arith Reals Lra Psatz.
From Verif Require Import Prelude RstrModel OpModel OpLists DenseModel DenseProofs QrModel RealLin QrProofs QrFact SchurModel.
Import ListNotations.
Local Open Scope nat_scope.
Local Open Scope R_scope.

(** ** similarity *)
Definition cj (n : nat) (Q A : mtx) : mtx := mm n (mm n (tr Q) A) Q.
Lemma cj_mm : forall n Q G A i j, cj n (mm n Q G) A i j = cj n G (cj n Q A) i j.
Proof.
  intros n Q G A i j. unfold cj.
  transitivity (mm n (mm n (mm n (tr G) (tr Q)) A) (mm n Q G) i j). { apply mm_ext; auto. intros l _. apply mm_ext; auto. intros l' _. apply tr_mm. }
  rewrite <- mm_assoc. apply mm_ext; auto. intros l _. rewrite <- mm_assoc. apply mm_ext; auto. intros l' _. apply mm_assoc.
Qed.
Lemma cj_ext : forall n Q Q' A A' i j, (forall a b, (a < n)%nat -> (b < n)%nat -> Q a b = Q' a b) -> (forall a b, (a < n)%nat -> (b < n)%nat -> A a b = A' a b) -> (i < n)%nat -> (j < n)%nat ->
  cj n Q A i j = cj n Q' A' i j.
Proof. intros. unfold cj. apply mm_ext; auto. intros l Hl. apply mm_ext; auto. intros; unfold tr; auto. Qed.
Definition symm (n : nat) (A : mtx) : Prop := forall i j, (i < n)%nat -> (j < n)%nat -> A i j = A j i.
Lemma cj_symm : forall n Q A, symm n A -> symm n (cj n Q A).
Proof.
  intros n Q A H i j Hi Hj. unfold cj. rewrite mm_assoc. change (mm n (mm n (tr Q) A) Q j i) with (tr (mm n (mm n (tr Q) A) Q) i j). rewrite tr_mm. apply mm_ext; auto.
  intros l Hl. rewrite tr_mm. apply mm_ext; auto. intros l' Hl'. unfold tr. apply H; auto.
Qed.
Lemma mm_hm_r : forall m t v X i j, (j < m)%nat -> mm m X (hm t v) i j = X i j - t * v j * Sum m (fun l => v l * X i l).
Proof.
  intros m t v X i j Hj. unfold mm, hm. rewrite (Sum_ext m _ (fun l => X i l * idm l j - t * v j * (v l * X i l))) by (intros; ring).
  rewrite Sum_sub, Sum_mul. f_equal. apply (mm_id_r m X i j Hj).
Qed.
Lemma cj_hm : forall n t v A i j, (i < n)%nat -> (j < n)%nat -> cj n (hm t v) A i j = mm n (mm n (hm t v) A) (hm t v) i j.
Proof. intros. unfold cj. apply mm_ext; auto. intros l _. apply mm_ext; auto. intros l' _. unfold tr. apply hm_sym. Qed.

(** ** the reduction *)
(** the reflector stored in column [c] *)
Definition rv (T : list real) (n c r : nat) : real := if (r <? c + 1)%nat then 0 else if (r =? c + 1)%nat then 1 else at2 T n r c.
(** the matrix; the entries which hold the first [i] reflectors count as zeros *)
Definition tcur (i : nat) (T : list real) (n : nat) : mtx := fun r c => if (c <? i)%nat && (c + 1 <? r)%nat then 0 else at2 T n r c.

Section Tri.
Variables (A : mtx) (n : nat).
Hypothesis Hn : (2 <= n)%nat.
Hypothesis HA : symm n A.

Definition TInv (i : nat) (T tau : list real) : Prop :=
  length T = (n * n)%nat /\ length tau = (n - 1)%nat /\
  (forall c, (c < i)%nat -> 0 < ent tau c /\ hgood n (ent tau c) (rv T n c)) /\
  symm n (tcur i T n) /\
  eqm n n (cj n (qm n (ent tau) (rv T n) i) A) (tcur i T n).

Definition tw (i : nat) (a : nat -> real) (u : real) : nat -> real := fun r => if (r <? i + 1)%nat then 0 else if (r =? i + 1)%nat then 1 else a r / u.
Lemma tri_alg : forall (i : nat) (T T' tau tau' : list real) (al := at2 T n (i + 1)%nat i) (a := fun r => at2 T n r i) (si := Sum (n - (i + 2)) (fun l => a (i + 2 + l)%nat * a (i + 2 + l)%nat))
    (rho := - copysign (sqrt (al * al + si)) al) (u := al - rho) t,
  (i < n - 1)%nat -> TInv i T tau -> 0 < t -> hgood n t (tw i a u) -> t * Sum n (fun l => tw i a u l * a l) = u ->
  (forall r, (i + 1 < r)%nat -> (r < n)%nat -> u <> 0) ->
  length T' = (n * n)%nat -> length tau' = (n - 1)%nat ->
  (forall c, (c < i)%nat -> ent tau' c = ent tau c) -> ent tau' i = t ->
  (forall r c, (r < n)%nat -> (c < n)%nat -> (r < i \/ c < i \/ (r = i /\ c = i))%nat -> at2 T' n r c = at2 T n r c) ->
  at2 T' n (i + 1)%nat i = rho -> at2 T' n i (i + 1)%nat = rho ->
  (forall r, (i + 1 < r)%nat -> (r < n)%nat -> at2 T' n r i = a r / u) -> (forall c, (i + 1 < c)%nat -> (c < n)%nat -> at2 T' n i c = 0) ->
  (forall r c, (i < r)%nat -> (r < n)%nat -> (i < c)%nat -> (c < n)%nat -> at2 T' n r c = mm n (mm n (hm t (tw i a u)) (tcur i T n)) (hm t (tw i a u)) r c) ->
  TInv (i + 1) T' tau'.
Proof.
  intros i T T' tau tau' al a si rho u t Hi (HL & HLt & Hg & Hs & HQ) Htp Hgt Hsum Hu HL' HLt' Ht1 Ht2 F1 F2 F3 F4 F5 F6.
  set (w := tw i a u) in *. set (C := tcur i T n) in *.
  assert (Hw0 : forall l, (l <= i)%nat -> w l = 0) by (intros l Hl; unfold w, tw; destruct (Nat.ltb_spec l (i + 1)); [auto|lia]).
  assert (Hwi : w (i + 1)%nat = 1) by (unfold w, tw; rewrite Nat.ltb_irrefl, Nat.eqb_refl; auto).
  assert (Hwr : forall l, (i + 1 < l)%nat -> w l = a l / u) by (intros l Hl; unfold w, tw; destruct (Nat.ltb_spec l (i + 1)); [lia|]; destruct (Nat.eqb_spec l (i + 1)); [lia|auto]).
  assert (HCi : forall r, C r i = a r) by (intros r; unfold C, tcur; rewrite Nat.ltb_irrefl; reflexivity).
  assert (HC0 : forall r c, (c < i)%nat -> (c + 1 < r)%nat -> C r c = 0) by (intros r c H1 H2; unfold C, tcur; destruct (Nat.ltb_spec c i); [|lia]; destruct (Nat.ltb_spec (c + 1) r); [auto|lia]).
  assert (Hgc : forall c, (c < i)%nat -> Sum n (fun l => w l * C l c) = 0).
  { intros c Hc. apply Sum_zero. intros l Hl. destruct (Nat.le_gt_cases l i); [rewrite Hw0 by auto; ring|]. rewrite HC0 by lia. ring. }
  assert (Hgi : t * Sum n (fun l => w l * C l i) = u) by (rewrite <- Hsum; f_equal; apply Sum_ext; intros; rewrite HCi; reflexivity).
  assert (Hqv : forall r, (r < n)%nat -> rv T' n i r = w r).
  { intros r Hr. unfold rv. destruct (Nat.ltb_spec r (i + 1)); [rewrite Hw0 by lia; auto|]. destruct (Nat.eqb_spec r (i + 1)) as [->|]; [auto|]. rewrite Hwr by lia. apply F4; lia. }
  assert (Hqv' : forall c r, (c < i)%nat -> (r < n)%nat -> rv T' n c r = rv T n c r).
  { intros c r Hc Hr. unfold rv. destruct (r <? c + 1)%nat; auto. destruct (r =? c + 1)%nat; auto. apply F1; auto; lia. }
  (* the new matrix *)
  assert (Hnew : forall r c, (r < n)%nat -> (c < n)%nat -> mm n (mm n (hm t w) C) (hm t w) r c = tcur (i + 1) T' n r c).
  { assert (HX : forall r c, (r < n)%nat -> (c < n)%nat -> (c <= r)%nat -> mm n (mm n (hm t w) C) (hm t w) r c = tcur (i + 1) T' n r c).
    { intros r c Hr Hc Hcr. unfold tcur. destruct (Nat.ltb_spec c (i + 1)) as [Hc1|Hc1]; cbn [andb].
      - rewrite mm_hm_r by auto. rewrite (Hw0 c) by lia. rewrite hm_mm by auto. destruct (Nat.eq_dec c i) as [->|Hne].
        + rewrite HCi. replace (t * w r * Sum n (fun l => w l * C l i)) with (w r * (t * Sum n (fun l => w l * C l i))) by ring. rewrite Hgi.
          destruct (Nat.ltb_spec (i + 1) r) as [H|H].
          * rewrite Hwr by auto. field. apply (Hu r); auto.
          * destruct (Nat.eq_dec r i) as [->|]; [rewrite Hw0, F1 by (auto; lia); unfold a; ring|]. replace r with (i + 1)%nat by lia. rewrite Hwi, F2. change (a (i + 1)%nat) with al. unfold u. ring.
        + rewrite Hgc by lia. unfold C, tcur. destruct (Nat.ltb_spec c i); [|lia]. cbn [andb]. destruct (c + 1 <? r)%nat; [ring|]. rewrite F1 by (auto; lia). ring.
      - symmetry. apply F6; lia. }
    intros r c Hr Hc. destruct (Nat.le_gt_cases c r) as [H|H]; [apply HX; auto|].
    transitivity (mm n (mm n (hm t w) C) (hm t w) c r). { rewrite <- !cj_hm by auto. apply cj_symm; auto. }
    rewrite HX by (auto; lia). unfold tcur. destruct (Nat.ltb_spec r (i + 1)) as [Hr1|Hr1].
    - cbn [andb]. destruct (Nat.ltb_spec c (i + 1)) as [Hc1|Hc1].
      + (* r < c <= i *) destruct (Nat.ltb_spec (c + 1) r); [lia|]. cbn [andb]. rewrite !F1 by (auto; lia). pose proof (Hs r c Hr Hc) as E. unfold C, tcur in E. fold (tcur i T n) in E.
        destruct (Nat.ltb_spec c i), (Nat.ltb_spec (c + 1) r), (Nat.ltb_spec r i), (Nat.ltb_spec (r + 1) c); cbn [andb] in *; try lia; auto.
      + cbn [andb]. destruct (Nat.eq_dec r i) as [->|].
        * destruct (Nat.ltb_spec (i + 1) c); [rewrite F5 by auto; auto|]. replace c with (i + 1)%nat by lia. congruence.
        * destruct (Nat.ltb_spec (r + 1) c); [|lia]. rewrite F1 by (auto; lia). pose proof (Hs r c Hr Hc) as E. unfold C, tcur in E.
          destruct (Nat.ltb_spec c i), (Nat.ltb_spec (c + 1) r), (Nat.ltb_spec r i), (Nat.ltb_spec (r + 1) c); cbn [andb] in *; try lia; auto.
    - cbn [andb]. destruct (Nat.ltb_spec c (i + 1)); [lia|]. cbn [andb]. rewrite !F6 by lia. rewrite <- !cj_hm by auto. apply cj_symm; auto. }
  split; auto. split; auto. split; [|split].
  - intros c Hc. assert (E : Sum n (fun l => rv T' n c l * rv T' n c l) = Sum n (fun l => (if (c =? i)%nat then w l else rv T n c l) * (if (c =? i)%nat then w l else rv T n c l))).
    { apply Sum_ext. intros l Hl. destruct (Nat.eqb_spec c i) as [->|]; [rewrite Hqv by auto; auto|rewrite Hqv' by (auto; lia); auto]. }
    unfold hgood. rewrite E. destruct (Nat.eqb_spec c i) as [->|]; [rewrite Ht2; split; [exact Htp|exact Hgt]|rewrite Ht1 by lia; apply Hg; lia].
  - intros r c Hr Hc. rewrite <- !Hnew by auto. rewrite <- !cj_hm by auto. apply cj_symm; auto.
  - intros r c Hr Hc. rewrite Nat.add_1_r at 1. cbn [qm]. rewrite cj_mm. rewrite <- Hnew, <- cj_hm by auto. apply cj_ext; auto.
    + intros x y Hx Hy. unfold hm. rewrite Ht2, !Hqv by auto. reflexivity.
    + intros x y Hx Hy. rewrite <- (HQ x y Hx Hy). apply cj_ext; auto. intros p q Hp Hq. apply qm_ext; auto.
Qed.
End Tri.

(** ** reflections of the lower right panel *)
Definition wof (v : list real) (i : nat) (w : nat -> real) (n : nat) : Prop :=
  (forall l, (l <= i)%nat -> w l = 0) /\ w (i + 1)%nat = 1 /\ (forall r, (i + 1 < r)%nat -> (r < n)%nat -> w r = ent v (r - 1)).
Lemma wof_vone : forall v i w n a, wof v i w n -> (i + 1 + a < n)%nat -> vone v i a = w (i + 1 + a)%nat.
Proof.
  intros v i w n a (W0 & W1 & W2) Ha. unfold vone. destruct (Nat.eqb_spec a 0) as [->|]; [rewrite Nat.add_0_r; auto|]. rewrite W2 by lia. f_equal. lia.
Qed.
Lemma panel_row : forall M v i b n w, (i < n - 1)%nat -> (n * n <= length M)%nat -> length v = (n - 1)%nat -> wof v i w n ->
  exists M', reflect M ((i + 1) + n * (i + 1)) v i b (n - (i + 1)) (n - (i + 1)) n 1 = Ok M' /\ length M' = length M /\
  (forall r c, (i < r)%nat -> (r < n)%nat -> (i < c)%nat -> (c < n)%nat -> at2 M' n r c = mm n (hm b w) (at2 M n) r c) /\
  (forall p, (forall r c, (i < r)%nat -> (r < n)%nat -> (i < c)%nat -> (c < n)%nat -> p <> (r * n + c)%nat) -> ent M' p = ent M p).
Proof.
  intros M v i b n w Hi HL Hlv Hw. pose proof Hw as (W0 & W1 & W2).
  assert (Hpos : forall r c, (i + 1 + n * (i + 1) + r * n + c * 1 = (i + 1 + r) * n + (i + 1 + c))%nat) by (intros; nia).
  destruct (reflect_ok M v (i + 1 + n * (i + 1)) i (n - (i + 1)) (n - (i + 1)) n 1 b) as (M' & E & HL' & H1 & H2); try lia.
  { intros r c Hr Hc. rewrite Hpos. nia. } { intros r c r' c' Hr Hc Hr' Hc'. rewrite !Hpos. intros Eq. apply rowcol in Eq; lia. }
  exists M'. split; auto. split; auto. split.
  - intros r c Hr1 Hr2 Hc1 Hc2. rewrite hm_mm by auto. unfold at2. specialize (H1 (r - (i + 1))%nat (c - (i + 1))%nat ltac:(lia) ltac:(lia)). rewrite Hpos in H1.
    replace (i + 1 + (r - (i + 1)))%nat with r in H1 by lia. replace (i + 1 + (c - (i + 1)))%nat with c in H1 by lia. rewrite H1. rewrite (wof_vone v i w n) by (auto; lia).
    replace (i + 1 + (r - (i + 1)))%nat with r by lia. f_equal. f_equal.
    rewrite (Sum_tail n (i + 1)) by (try lia; intros; rewrite W0 by lia; ring). apply Sum_ext. intros l Hl. rewrite (wof_vone v i w n) by (auto; lia). rewrite Hpos.
    replace (i + 1 + (c - (i + 1)))%nat with c by lia. reflexivity.
  - intros p Hp. apply H2. intros r c Hr Hc. rewrite Hpos. apply Hp; lia.
Qed.
Lemma panel_col : forall M v i b n w, (i < n - 1)%nat -> (n * n <= length M)%nat -> length v = (n - 1)%nat -> wof v i w n ->
  exists M', reflect M ((i + 1) + n * (i + 1)) v i b (n - (i + 1)) (n - (i + 1)) 1 n = Ok M' /\ length M' = length M /\
  (forall r c, (i < r)%nat -> (r < n)%nat -> (i < c)%nat -> (c < n)%nat -> at2 M' n r c = mm n (at2 M n) (hm b w) r c) /\
  (forall p, (forall r c, (i < r)%nat -> (r < n)%nat -> (i < c)%nat -> (c < n)%nat -> p <> (r * n + c)%nat) -> ent M' p = ent M p).
Proof.
  intros M v i b n w Hi HL Hlv Hw. pose proof Hw as (W0 & W1 & W2).
  assert (Hpos : forall c r, (i + 1 + n * (i + 1) + c * 1 + r * n = (i + 1 + r) * n + (i + 1 + c))%nat) by (intros; nia).
  destruct (reflect_ok M v (i + 1 + n * (i + 1)) i (n - (i + 1)) (n - (i + 1)) 1 n b) as (M' & E & HL' & H1 & H2); try lia.
  { intros r c Hr Hc. rewrite Hpos. nia. } { intros r c r' c' Hr Hc Hr' Hc'. rewrite !Hpos. intros Eq. apply rowcol in Eq; lia. }
  exists M'. split; auto. split; auto. split.
  - intros r c Hr1 Hr2 Hc1 Hc2. rewrite mm_hm_r by auto. unfold at2. specialize (H1 (c - (i + 1))%nat (r - (i + 1))%nat ltac:(lia) ltac:(lia)). rewrite Hpos in H1.
    replace (i + 1 + (r - (i + 1)))%nat with r in H1 by lia. replace (i + 1 + (c - (i + 1)))%nat with c in H1 by lia. rewrite H1. rewrite (wof_vone v i w n) by (auto; lia).
    replace (i + 1 + (c - (i + 1)))%nat with c by lia. f_equal. f_equal.
    rewrite (Sum_tail n (i + 1)) by (try lia; intros; rewrite W0 by lia; ring). apply Sum_ext. intros l Hl. rewrite (wof_vone v i w n) by (auto; lia). rewrite Hpos.
    replace (i + 1 + (r - (i + 1)))%nat with r by lia. reflexivity.
  - intros p Hp. apply H2. intros r c Hr Hc. rewrite Hpos. apply Hp; lia.
Qed.

(** numbers of one step; [l] says that the column has one entry *)
Lemma house_t : forall n i (a : nat -> real) (l : bool) (al := a (i + 1)%nat) (si := Sum (n - (i + 2)) (fun l => a (i + 2 + l)%nat * a (i + 2 + l)%nat)) (rho := - copysign (sqrt (al * al + si)) al) (u := al - rho)
    (t := if l then 2 else 2 * u * u / (u * u + si)),
  (i < n - 1)%nat -> l = (i =? n - 2)%nat -> (l = true \/ al * al + si <> 0) ->
  0 < t /\ hgood n t (tw i a u) /\ t * Sum n (fun l => tw i a u l * a l) = u /\ (l = false -> u <> 0 /\ u * u + si <> 0).
Proof.
  intros n i a l al si rho u t Hi El Hc. assert (Hsi : 0 <= si) by (apply Sum_pos; intros; nra).
  set (w := tw i a u).
  assert (Hw0 : forall l, (l < i + 1)%nat -> w l = 0) by (intros x Hx; unfold w, tw; destruct (Nat.ltb_spec x (i + 1)); [auto|lia]).
  assert (Hwi : w (i + 1)%nat = 1) by (unfold w, tw; rewrite Nat.ltb_irrefl, Nat.eqb_refl; auto).
  assert (Hwr : forall l, (i + 1 < l)%nat -> w l = a l / u) by (intros x Hx; unfold w, tw; destruct (Nat.ltb_spec x (i + 1)); [lia|]; destruct (Nat.eqb_spec x (i + 1)); [lia|auto]).
  unfold hgood. rewrite (Sum_from n (fun l => w l * w l) (i + 1)) by (try lia; intros; rewrite Hw0 by auto; ring).
  rewrite (Sum_from n (fun l => w l * a l) (i + 1)) by (try lia; intros; rewrite Hw0 by auto; ring). rewrite Hwi. fold al.
  replace (n - (i + 1 + 1))%nat with (n - (i + 2))%nat by lia. destruct l.
  - symmetry in El. apply Nat.eqb_eq in El. subst i. assert (E0 : (n - (n - 2 + 2) = 0)%nat) by lia. unfold t. unfold u, rho, si. rewrite E0. cbn [Sum]. split; [lra|]. split; [right; ring|]. split; [|discriminate].
    assert (E : copysign (sqrt (al * al + 0)) al = al).
    { rewrite Rplus_0_r. fold (Rsqr al). rewrite sqrt_Rsqr_abs. unfold copysign. rewrite Rabs_Rabsolu. destruct (Rlt_dec al 0); [rewrite Rabs_left by auto; ring|apply Rabs_pos_eq; lra]. }
    rewrite E. ring.
  - destruct Hc as [|Hc]; [discriminate|]. destruct (house_num al si Hsi Hc) as (Hrho & Hu & N1 & N2). fold rho u in Hrho, Hu, N1, N2.
    assert (Hd : u * u + si <> 0) by nra. assert (Hd' : 0 < u * u + si) by nra.
    rewrite (Sum_ext _ (fun l => w (i + 1 + 1 + l)%nat * w (i + 1 + 1 + l)%nat) (fun l => / (u * u) * (a (i + 2 + l)%nat * a (i + 2 + l)%nat))).
    2: { intros x Hx. rewrite Hwr by lia. replace (i + 1 + 1 + x)%nat with (i + 2 + x)%nat by lia. field. auto. }
    rewrite (Sum_ext _ (fun l => w (i + 1 + 1 + l)%nat * a (i + 1 + 1 + l)%nat) (fun l => / u * (a (i + 2 + l)%nat * a (i + 2 + l)%nat))).
    2: { intros x Hx. rewrite Hwr by lia. replace (i + 1 + 1 + x)%nat with (i + 2 + x)%nat by lia. field. auto. }
    rewrite !Sum_mul. fold si. unfold t. split; [|split; [|split; [|auto]]].
    + apply Rdiv_lt_0_compat; auto. assert (0 < u * u) by (apply Rsqr_pos_lt; auto). nra.
    + right. field. auto.
    + apply (Rmult_eq_reg_r (u * (u * u + si))); [|nra]. transitivity (2 * u * u * (al * u + si)); [field; split; auto|]. rewrite N2, N1. ring.
Qed.

Ltac dif := repeat match goal with |- context [if ?b then _ else _] => destruct b end; auto.
Section TriStep.
Variables (A : mtx) (n : nat).
Hypothesis Hn : (2 <= n)%nat.
Hypothesis HA : symm n A.
Definition tpivot (i : nat) (T : list real) : real := at2 T n (i + 1)%nat i * at2 T n (i + 1)%nat i + Sum (n - (i + 2)) (fun l => at2 T n (i + 2 + l)%nat i * at2 T n (i + 2 + l)%nat i).
Lemma tri_step_ok : forall i T tau v, (i < n - 1)%nat -> TInv A n i T tau -> length v = (n - 1)%nat ->
  (i <> (n - 2)%nat -> tpivot i T = 0 -> tri_step n i (T, tau, v) = UB) /\
  (i = (n - 2)%nat \/ tpivot i T <> 0 -> exists T' tau' v', tri_step n i (T, tau, v) = Ok (T', tau', v') /\ TInv A n (i + 1) T' tau' /\ length v' = (n - 1)%nat).
Proof.
  intros i T tau v Hi HI Hlv. pose proof HI as (HL & HLt & _).
  assert (HP : forall r c, (r < n)%nat -> (c < n)%nat -> (r * n + c < length T)%nat) by (intros; rewrite HL; nia).
  assert (Hop : forall r c, (c + n * r = r * n + c)%nat) by (intros; nia).
  unfold tri_step. rewrite Hop, (og_ent T) by (apply HP; lia). cbn [rbind]. rewrite put_ok by lia. cbn [rbind]. fold (at2 T n (i + 1)%nat i). set (al := at2 T n (i + 1)%nat i).
  match goal with |- context [rbind (rfold _ ?f ?s00) _] => destruct (@rfold_inv (list real * real) (fun j st => length (fst st) = (n - 1)%nat /\ (forall r, (i <= r)%nat -> (r < j)%nat -> ent (fst st) r = at2 T n (r + 1)%nat i) /\
     snd st = Sum (j - (i + 1)) (fun l => at2 T n (i + 2 + l)%nat i * at2 T n (i + 2 + l)%nat i)) f (n - 1 - (i + 1)) (i + 1) s00) as ((v1 & si) & E & Hl1 & Hv1 & Hsi) end.
  { cbn [fst snd]. rewrite upd_length. split; auto. split.
    - intros r Hr1 Hr2. rewrite ent_upd by lia. replace r with i by lia. rewrite Nat.eqb_refl. reflexivity.
    - rewrite Nat.sub_diag. reflexivity. }
  { intros j (v1, si) Hj (Hl & Hv & Hs). cbn [fst snd] in *. rewrite Hop, (og_ent T) by (apply HP; lia). cbn [rbind]. rewrite put_ok by lia. cbn [rbind]. rewrite og_ent by (rewrite upd_length; lia). cbn [rbind].
    eexists. split; [reflexivity|]. cbn [fst snd]. rewrite upd_length. split; auto. rewrite ent_upd by lia. rewrite Nat.eqb_refl. fold (at2 T n (j + 1)%nat i). split.
    - intros r Hr1 Hr2. rewrite ent_upd by lia. destruct (Nat.eqb_spec r j) as [->|]; auto. apply Hv; lia.
    - rewrite Hs. replace (j + 1 - (i + 1))%nat with (S (j - (i + 1))) by lia. cbn [Sum]. replace (i + 2 + (j - (i + 1)))%nat with (j + 1)%nat by lia. reflexivity. }
  cbn [fst snd] in *. rewrite E. clear E. cbn [rbind]. replace (i + 1 + (n - 1 - (i + 1)) - (i + 1))%nat with (n - (i + 2))%nat in Hsi by lia. replace (i + 1 + (n - 1 - (i + 1)))%nat with (n - 1)%nat in * by lia. rewrite og_ent by lia. cbn [rbind].
  rewrite (Hv1 i) by lia. fold al.
  assert (Hpv : tpivot i T = al * al + si) by (unfold tpivot; fold al; rewrite Hsi; reflexivity).
  assert (Hsi0 : 0 <= si) by (rewrite Hsi; apply Sum_pos; intros; nra).
  rewrite put_ok by lia. cbn [rbind]. rewrite og_ent by (rewrite upd_length; lia). cbn [rbind]. rewrite ent_upd by lia. rewrite Nat.eqb_refl.
  set (rho := - copysign (sqrt (al * al + si)) al). set (u := al - rho). split.
  { intros Hne Hz. rewrite Hpv in Hz. destruct (Nat.eqb_spec i (n - 2)); [contradiction|]. unfold rdiv at 1.
    destruct (house_zero al si Hsi0 Hz) as (H1 & H2 & H3). fold rho in H3. assert (Hu : u = 0) by (unfold u; lra). rewrite Hu, H2. destruct (Req_EM_T (0 * 0 + 0) 0) as [|Hx]; [reflexivity|]. exfalso. apply Hx. ring. }
  intros Hnz. rewrite Hpv in Hnz.
  destruct (house_t n i (fun r => at2 T n r i) (i =? n - 2)%nat) as (Ht0 & Hgd & Hsum & Hun); auto.
  { fold al. rewrite <- Hsi. destruct Hnz as [->|]; [left; apply Nat.eqb_refl|right; auto]. }
  fold al in Ht0, Hgd, Hsum, Hun. rewrite <- Hsi in Ht0, Hgd, Hsum, Hun. fold rho in Ht0, Hgd, Hsum, Hun. fold u in Ht0, Hgd, Hsum, Hun.
  set (t := if (i =? n - 2)%nat then 2 else 2 * u * u / (u * u + si)) in *.
  assert (Et : (if (i =? n - 2)%nat then Ok 2 else rdiv (2 * u * u) (u * u + si)) = Ok t).
  { unfold t. destruct (i =? n - 2)%nat; auto. unfold rdiv. destruct (Req_EM_T (u * u + si) 0); [|auto]. exfalso. apply Hun; auto. }
  rewrite Et. clear Et. cbn [rbind]. rewrite put_ok by lia. cbn [rbind].
  assert (Hu : forall r, (i + 1 < r)%nat -> (r < n)%nat -> u <> 0). { intros r H1 H2. apply Hun. destruct (Nat.eqb_spec i (n - 2)); [lia|auto]. }
  match goal with |- context [rbind (rfold _ ?f ?s00) _] => destruct (@rfold_inv (list real) (fun j v => length v = (n - 1)%nat /\ ent v i = u /\ (forall r, (i < r)%nat -> (r < n - 1)%nat -> ent v r = if (r <? j)%nat then at2 T n (r + 1)%nat i / u else at2 T n (r + 1)%nat i)) f (n - 1 - (i + 1)) (i + 1) s00)
     as (v2 & E & Hl2 & Hi2 & Hv2) end.
  { rewrite upd_length. split; auto. rewrite ent_upd by lia. rewrite Nat.eqb_refl. split; auto. intros r Hr1 Hr2. rewrite ent_upd by lia. destruct (Nat.eqb_spec r i); [lia|]. destruct (Nat.ltb_spec r (i + 1)); [lia|]. apply Hv1; lia. }
  { intros j v2 Hj (Hl & Hi' & Hv). rewrite !og_ent by lia. cbn [rbind]. rewrite Hi'. assert (Hu' : u <> 0) by (apply (Hu (i + 2)%nat); lia). unfold rdiv. destruct (Req_EM_T u 0); [contradiction|]. cbn [rbind]. rewrite put_ok by lia.
    eexists. split; [reflexivity|]. rewrite upd_length. split; auto. rewrite ent_upd by lia. destruct (Nat.eqb_spec i j); [lia|]. split; auto. intros r Hr1 Hr2. rewrite ent_upd by lia.
    destruct (Nat.eqb_spec r j) as [->|].
    - rewrite Hv by lia. rewrite Nat.ltb_irrefl. destruct (Nat.ltb_spec j (j + 1)); [reflexivity|lia].
    - rewrite Hv by lia. destruct (Nat.ltb_spec r j), (Nat.ltb_spec r (j + 1)); auto; lia. }
  rewrite E. clear E. cbn [rbind]. replace (i + 1 + (n - 1 - (i + 1)))%nat with (n - 1)%nat in * by lia.
  assert (Hv2' : forall r, (i < r)%nat -> (r < n - 1)%nat -> ent v2 r = at2 T n (r + 1)%nat i / u) by (intros r Hr1 Hr2; rewrite Hv2 by auto; destruct (Nat.ltb_spec r (n - 1)); [reflexivity|lia]). clear Hv2.
  (* zeros *)
  match goal with |- context [rbind (rfold _ ?f T) _] => destruct (@rfold_inv (list real) (fun j T1 => length T1 = length T /\ (forall r, (i + 1 < r)%nat -> (r < j)%nat -> at2 T1 n r i = 0 /\ at2 T1 n i r = 0) /\
       (forall p, (forall r, (i + 1 < r)%nat -> (r < n)%nat -> p <> (r * n + i)%nat /\ p <> (i * n + r)%nat) -> ent T1 p = ent T p)) f (n - (i + 2)) (i + 2) T)
     as (T1 & E & HL1 & G1 & G2) end.
  { split; auto. split; [intros; lia|auto]. }
  { intros j T1 Hj (HL1 & G1 & G2). rewrite !Hop. rewrite put_ok by (rewrite HL1; apply HP; lia). cbn [rbind]. rewrite put_ok by (rewrite upd_length, HL1; apply HP; lia). eexists. split; [reflexivity|]. rewrite !upd_length. split; auto.
    assert (Hu' : forall p, ent (upd (upd T1 (j * n + i) 0) (i * n + j) 0) p = if (p =? i * n + j)%nat then 0 else if (p =? j * n + i)%nat then 0 else ent T1 p).
    { intros p. rewrite ent_upd by (rewrite upd_length, HL1; apply HP; lia). rewrite ent_upd by (rewrite HL1; apply HP; lia). reflexivity. }
    split.
    - intros r Hr1 Hr2. unfold at2. rewrite !Hu'. destruct (Nat.eq_dec r j) as [->|].
      + rewrite !Nat.eqb_refl. split; [dif|auto].
      + destruct (G1 r) as (Ga & Gb); try lia. unfold at2 in Ga, Gb. rewrite Ga, Gb. split; dif.
    - intros p Hp. rewrite Hu'. destruct (Hp j ltac:(lia) ltac:(lia)) as (X1 & X2). destruct (Nat.eqb_spec p (i * n + j)); [contradiction|]. destruct (Nat.eqb_spec p (j * n + i)); [contradiction|]. auto. }
  rewrite E. clear E. cbn [rbind]. replace (i + 2 + (n - (i + 2)))%nat with n in * by lia.
  set (w := tw i (fun r => at2 T n r i) u) in *.
  assert (Hw : wof v2 i w n).
  { split; [|split].
    - intros l Hl. unfold w, tw. destruct (Nat.ltb_spec l (i + 1)); [auto|lia].
    - unfold w, tw. rewrite Nat.ltb_irrefl, Nat.eqb_refl. auto.
    - intros r Hr1 Hr2. unfold w, tw. destruct (Nat.ltb_spec r (i + 1)); [lia|]. destruct (Nat.eqb_spec r (i + 1)); [lia|]. rewrite Hv2' by lia. replace (r - 1 + 1)%nat with r by lia. reflexivity. }
  destruct (panel_row T1 v2 i t n w) as (T2 & E & HL2 & R1 & R2); auto; [rewrite HL1; lia|]. rewrite E. clear E. cbn [rbind].
  destruct (panel_col T2 v2 i t n w) as (T3 & E & HL3 & S1 & S2); auto; [rewrite HL2, HL1; lia|]. rewrite E. clear E. cbn [rbind].
  assert (HP3 : forall r c, (r < n)%nat -> (c < n)%nat -> (r * n + c < length T3)%nat) by (intros; rewrite HL3, HL2, HL1; auto).
  rewrite ?Hop. rewrite put_ok by (apply HP3; lia). cbn [rbind]. rewrite put_ok by (rewrite upd_length; apply HP3; lia). cbn [rbind].
  match goal with |- context [rbind (rfold _ ?f ?s00) _] => destruct (@rfold_inv (list real) (fun j T4 => length T4 = length T3 /\ at2 T4 n (i + 1)%nat i = rho /\ at2 T4 n i (i + 1)%nat = rho /\ (forall r, (i < r)%nat -> (r < j)%nat -> at2 T4 n (r + 1)%nat i = ent v2 r) /\
       (forall p, p <> (i * n + (i + 1))%nat -> (forall r, (i < r)%nat -> (r < n)%nat -> p <> (r * n + i)%nat) -> ent T4 p = ent T3 p)) f (n - 1 - (i + 1)) (i + 1) s00)
     as (T4 & E & HL4 & K1 & K2 & K3 & K4) end.
  { assert (Hu' : forall p, ent (upd (upd T3 ((i + 1) * n + i) rho) (i * n + (i + 1)) rho) p = if (p =? i * n + (i + 1))%nat then rho else if (p =? (i + 1) * n + i)%nat then rho else ent T3 p).
    { intros p. rewrite ent_upd by (rewrite upd_length; apply HP3; lia). rewrite ent_upd by (apply HP3; lia). reflexivity. }
    rewrite !upd_length. split; auto. unfold at2. rewrite !Hu', !Nat.eqb_refl. split; [dif|]. split; auto. split; [intros; lia|].
    intros p Hp1 Hp2. rewrite Hu'. destruct (Nat.eqb_spec p (i * n + (i + 1))); [contradiction|]. destruct (Nat.eqb_spec p ((i + 1) * n + i)); auto. exfalso. apply (Hp2 (i + 1)%nat); auto; lia. }
  { intros j T4 Hj (HL4 & K1 & K2 & K3 & K4). rewrite og_ent by lia. cbn [rbind]. rewrite Hop, put_ok by (rewrite HL4; apply HP3; lia). eexists. split; [reflexivity|]. rewrite upd_length. split; auto.
    assert (Hu' : forall p, ent (upd T4 ((j + 1) * n + i) (ent v2 j)) p = if (p =? (j + 1) * n + i)%nat then ent v2 j else ent T4 p) by (intros; apply ent_upd; rewrite HL4; apply HP3; lia).
    unfold at2 in *. split; [|split; [|split]].
    - rewrite Hu'. destruct (Nat.eqb_spec ((i + 1) * n + i) ((j + 1) * n + i)) as [Eq|]; auto. apply rowcol in Eq; lia.
    - rewrite Hu'. destruct (Nat.eqb_spec (i * n + (i + 1)) ((j + 1) * n + i)) as [Eq|]; auto. apply rowcol in Eq; lia.
    - intros r Hr1 Hr2. rewrite Hu'. destruct (Nat.eqb_spec ((r + 1) * n + i) ((j + 1) * n + i)) as [Eq|]. { apply rowcol in Eq; try lia. replace r with j by lia. reflexivity. } apply K3; auto. assert (r <> j) by congruence. lia.
    - intros p Hp1 Hp2. rewrite Hu'. destruct (Nat.eqb_spec p ((j + 1) * n + i)) as [->|]; [exfalso; apply (Hp2 (j + 1)%nat); auto; lia|]. auto. }
  rewrite E. clear E. cbn [rbind]. replace (i + 1 + (n - 1 - (i + 1)))%nat with (n - 1)%nat in * by lia.
  exists T4, (upd tau i t), v2. split; [reflexivity|]. split; [|auto].
  assert (Q1 : forall r c, (r < n)%nat -> (c < n)%nat -> (r <= i \/ c <= i)%nat -> at2 T3 n r c = at2 T1 n r c).
  { intros r c Hr Hc Ho. unfold at2. rewrite S2, R2; auto; intros r' c' H1 H2 H3 H4 Eq; apply rowcol in Eq; lia. }
  apply (tri_alg A n) with (i := i) (T := T) (tau := tau) (t := t); auto; fold al; rewrite <- ?Hsi; fold rho; fold u; fold w; auto.
  - congruence.
  - rewrite upd_length. auto.
  - intros c Hc. rewrite ent_upd by lia. destruct (Nat.eqb_spec c i); [lia|auto].
  - rewrite ent_upd by lia. rewrite Nat.eqb_refl. reflexivity.
  - intros r c Hr Hc Ho. transitivity (at2 T3 n r c). { apply K4; [intros Eq; apply rowcol in Eq; lia|]. intros r' H1 H2 Eq. apply rowcol in Eq; lia. }
    rewrite Q1 by lia. apply G2. intros r' H1 H2. split; intros Eq; apply rowcol in Eq; lia.
  - intros r H1 H2. replace r with (r - 1 + 1)%nat at 1 by lia. rewrite K3 by lia. rewrite Hv2' by lia. replace (r - 1 + 1)%nat with r by lia. reflexivity.
  - intros c H1 H2. transitivity (at2 T3 n i c). { apply K4; [intros Eq; apply rowcol in Eq; lia|]. intros r' H3 H4 Eq. apply rowcol in Eq; lia. }
    rewrite Q1 by lia. apply G1; lia.
  - intros r c H1 H2 H3 H4. transitivity (at2 T3 n r c). { apply K4; [intros Eq; apply rowcol in Eq; lia|]. intros r' H5 H6 Eq. apply rowcol in Eq; lia. }
    rewrite S1 by auto. rewrite !mm_hm_r by auto.
    assert (X : forall l, (i < l)%nat -> (l < n)%nat -> at2 T2 n r l = mm n (hm t w) (tcur i T n) r l).
    { intros l Hla Hlb. rewrite R1 by auto. rewrite !hm_mm by auto.
      assert (Y : forall x, (i < x)%nat -> (x < n)%nat -> at2 T1 n x l = tcur i T n x l).
      { intros x Hx1 Hx2. unfold tcur. destruct (Nat.ltb_spec l i); [lia|]. cbn [andb]. apply G2. intros r' H5 H6. split; intros Eq; apply rowcol in Eq; lia. }
      rewrite Y by auto. f_equal. f_equal. apply Sum_ext. intros x Hx. destruct (Nat.le_gt_cases x i); [destruct Hw as (W0 & _); rewrite W0 by auto; ring|]. rewrite Y by auto. reflexivity. }
    rewrite X by auto. f_equal. f_equal. apply Sum_ext. intros x Hx. destruct (Nat.le_gt_cases x i); [destruct Hw as (W0 & _); rewrite W0 by auto; ring|]. rewrite X by auto. reflexivity.
Qed.
End TriStep.

(** ** the accumulation of Q *)
Section Acc.
Variables (A : mtx) (n : nat) (T0 tau : list real).
Hypothesis Hn : (2 <= n)%nat.
Hypothesis HI : TInv A n (n - 1) T0 tau.
Let qk := qm n (ent tau) (rv T0 n).
Definition AInv (len i : nat) (st : list real * list real * list real) : Prop :=
  let '(T, Q, v) := st in
  length T = (n * n)%nat /\ length Q = len /\ length v = (n - 1)%nat /\
  (forall r c, (r < n)%nat -> (c < n)%nat -> at2 T n r c = if (i <=? c)%nat && (c + 1 <? r)%nat then 0 else at2 T0 n r c) /\
  (forall r c, (r < n)%nat -> (c < n)%nat -> (r <= i \/ c <= i)%nat -> at2 Q n r c = idm r c) /\
  eqm n n (mm n (qk i) (at2 Q n)) (qk (n - 1)).
Lemma acc_step_ok : forall len i st, (n * n <= len)%nat -> (i < n - 1)%nat -> AInv len (i + 1) st -> exists st', acc_step n tau i st = Ok st' /\ AInv len i st'.
Proof.
  intros len i ((T & Q) & v) Hlen Hi (HL & HLq & Hlv & HT & HQ & HM). pose proof HI as (HL0 & HLt & Hg & _ & _). destruct (Hg i Hi) as (Htp & Hgi).
  assert (HP : forall r c, (r < n)%nat -> (c < n)%nat -> (r * n + c < length T)%nat) by (intros; rewrite HL; nia).
  assert (Hop : forall r c, (c + n * r = r * n + c)%nat) by (intros; nia).
  unfold acc_step. rewrite og_ent by lia. cbn [rbind]. destruct (Rlt_dec 0 (ent tau i)) as [_|]; [|lra]. rewrite put_ok by lia. cbn [rbind].
  match goal with |- context [rbind (rfold _ ?f ?s00) _] => destruct (@rfold_inv (list real * list real) (fun j st => length (fst st) = (n - 1)%nat /\ length (snd st) = (n * n)%nat /\ (forall r, (i < r)%nat -> (r < j)%nat -> ent (fst st) r = at2 T0 n (r + 1)%nat i) /\
     (forall r c, (r < n)%nat -> (c < n)%nat -> at2 (snd st) n r c = if (i + 1 <=? c)%nat && (c + 1 <? r)%nat then 0 else if (c =? i)%nat && (i + 1 <? r)%nat && (r <? j + 1)%nat then 0 else at2 T0 n r c)) f (n - 1 - (i + 1)) (i + 1) s00) as ((v1 & T1) & E & Hl1 & HL1 & Hv1 & HT1) end.
  { cbn [fst snd]. rewrite upd_length. split; auto. split; auto. split; [intros; lia|]. intros r c Hr Hc. rewrite HT by auto. destruct ((i + 1 <=? c)%nat && (c + 1 <? r)%nat); auto.
    destruct (Nat.ltb_spec (i + 1) r), (Nat.ltb_spec r (i + 1 + 1)); try lia; rewrite ?andb_false_r; auto. }
  { intros j (v1, T1) Hj (Hl & HL1 & Hv & HT1). cbn [fst snd] in *. rewrite Hop. assert (HP1 : ((j + 1) * n + i < length T1)%nat) by (rewrite HL1; nia). rewrite og_ent by auto. cbn [rbind]. rewrite put_ok by lia. cbn [rbind]. rewrite put_ok by auto. cbn [rbind].
    eexists. split; [reflexivity|]. cbn [fst snd]. rewrite !upd_length. split; auto. split; auto. split.
    - intros r Hr1 Hr2. rewrite ent_upd by lia. destruct (Nat.eqb_spec r j) as [->|]; [|apply Hv; lia]. change (ent T1 ((j + 1) * n + i)) with (at2 T1 n (j + 1)%nat i). rewrite HT1 by lia.
      destruct (Nat.leb_spec (i + 1) i); [lia|]. cbn [andb]. rewrite Nat.ltb_irrefl, andb_false_r. auto.
    - intros r c Hr Hc. unfold at2 at 1. rewrite ent_upd by auto. destruct (Nat.eqb_spec (r * n + c) ((j + 1) * n + i)) as [Eq|Ne].
      + apply rowcol in Eq; try lia. destruct Eq as (-> & ->). rewrite Nat.eqb_refl. destruct (Nat.leb_spec (i + 1) i); [lia|]. destruct (Nat.ltb_spec (i + 1) (j + 1)); [|lia]. destruct (Nat.ltb_spec (j + 1) (j + 1 + 1)); [|lia]. reflexivity.
      + change (ent T1 (r * n + c)) with (at2 T1 n r c). rewrite HT1 by auto. destruct ((i + 1 <=? c)%nat && (c + 1 <? r)%nat); auto. destruct (Nat.eqb_spec c i) as [->|]; auto. cbn [andb].
        destruct (Nat.ltb_spec (i + 1) r); auto. cbn [andb]. assert (r <> (j + 1)%nat) by congruence. destruct (Nat.ltb_spec r (j + 1)), (Nat.ltb_spec r (j + 1 + 1)); auto; lia. }
  cbn [fst snd] in *. rewrite E. clear E. cbn [rbind]. replace (i + 1 + (n - 1 - (i + 1)))%nat with (n - 1)%nat in * by lia.
  set (w := rv T0 n i).
  assert (Hw : wof v1 i w n).
  { split; [|split].
    - intros l Hl. unfold w, rv. destruct (Nat.ltb_spec l (i + 1)); [auto|lia].
    - unfold w, rv. rewrite Nat.ltb_irrefl, Nat.eqb_refl. auto.
    - intros r Hr1 Hr2. unfold w, rv. destruct (Nat.ltb_spec r (i + 1)); [lia|]. destruct (Nat.eqb_spec r (i + 1)); [lia|]. rewrite Hv1 by lia. replace (r - 1 + 1)%nat with r by lia. reflexivity. }
  pose proof Hw as (W0 & _ & _).
  destruct (panel_row Q v1 i (ent tau i) n w) as (Q1 & E & HLq1 & R1 & R2); auto; [lia|]. rewrite E. clear E. cbn [rbind].
  exists (T1, Q1, v1). split; [reflexivity|]. split; auto. split; [congruence|]. split; auto.
  assert (HU : forall r c, (r < n)%nat -> (c < n)%nat -> (r <= i \/ c <= i)%nat -> at2 Q1 n r c = at2 Q n r c). { intros r c Hr Hc Ho. unfold at2. apply R2. intros r' c' H1 H2 H3 H4 Eq. apply rowcol in Eq; lia. }
  split; [|split].
  - intros r c Hr Hc. rewrite HT1 by auto. destruct (Nat.leb_spec (i + 1) c), (Nat.leb_spec i c), (Nat.eqb_spec c i), (Nat.ltb_spec (c + 1) r), (Nat.ltb_spec (i + 1) r), (Nat.ltb_spec r (n - 1 + 1)); cbn [andb]; try lia; auto.
  - intros r c Hr Hc Ho. rewrite HU by auto. apply HQ; lia.
  - intros r c Hr Hc. rewrite <- (HM r c Hr Hc). unfold qk. rewrite Nat.add_1_r. cbn [qm]. fold (qk i). fold w. rewrite mm_assoc. apply mm_ext; auto. intros l Hl.
    destruct (Nat.le_gt_cases c i) as [Hc'|Hc'].
    + rewrite HU by lia. rewrite hm_mm by auto. rewrite Sum_zero; [ring|]. intros x Hx. destruct (Nat.le_gt_cases x i); [rewrite W0 by auto; ring|]. rewrite HQ by (auto; lia). unfold idm. destruct (Nat.eqb_spec x c); [lia|ring].
    + destruct (Nat.le_gt_cases l i) as [Hl'|Hl']; [|apply R1; auto]. rewrite HU by lia. rewrite hm_mm by auto. rewrite W0 by auto. ring.
Qed.
Lemma acc_ok : forall Q v, (n * n <= length Q)%nat -> length v = (n - 1)%nat -> (forall r c, (r < n)%nat -> (c < n)%nat -> at2 Q n r c = idm r c) ->
  exists T' Q' v', rfold (rev (seq 0 (n - 1))) (acc_step n tau) (T0, Q, v) = Ok (T', Q', v') /\ length T' = (n * n)%nat /\ length Q' = length Q /\
    orth n (at2 Q' n) /\ eqm n n (cj n (at2 Q' n) A) (at2 T' n) /\ symm n (at2 T' n) /\ (forall r c, (r < n)%nat -> (c < n)%nat -> (c + 1 < r)%nat -> at2 T' n r c = 0).
Proof.
  intros Q v HLq Hlv HQ. pose proof HI as (HL0 & HLt & Hg & Hs & HC).
  destruct (@rfold_down _ (AInv (length Q)) (acc_step n tau) (n - 1) (T0, Q, v)) as (((T' & Q') & v') & E & (H1 & H2 & H3 & H4 & H5 & H6)).
  - split; auto. split; auto. split; auto. split; [|split].
    + intros r c Hr Hc. destruct (Nat.leb_spec (n - 1) c), (Nat.ltb_spec (c + 1) r); cbn [andb]; auto; lia.
    + auto.
    + intros r c Hr Hc. rewrite (mm_ext n _ (qk (n - 1)) _ idm) by auto. apply mm_id_r. auto.
  - intros i st Hi. apply acc_step_ok; auto.
  - assert (HQ' : eqm n n (at2 Q' n) (qk (n - 1))). { intros r c Hr Hc. rewrite <- (H6 r c Hr Hc). unfold qk. cbn [qm]. rewrite mm_id_l by auto. reflexivity. }
    assert (HT' : eqm n n (at2 T' n) (tcur (n - 1) T0 n)). { intros r c Hr Hc. rewrite H4 by auto. unfold tcur. cbn [Nat.leb]. destruct (Nat.ltb_spec c (n - 1)), (Nat.ltb_spec (c + 1) r); cbn [andb]; auto; lia. }
    exists T', Q', v'. split; auto. split; auto. split; auto. split; [|split; [|split]].
    + pose proof (qm_orth n (ent tau) (rv T0 n) (n - 1) (fun i Hi => proj2 (Hg i Hi))) as (O1 & O2). fold (qk (n - 1)) in O1, O2.
      split; intros r c Hr Hc; [rewrite <- (O1 r c Hr Hc)|rewrite <- (O2 r c Hr Hc)]; apply mm_ext; intros; unfold tr; apply HQ'; auto.
    + intros r c Hr Hc. rewrite HT' by auto. rewrite <- (HC r c Hr Hc). apply cj_ext; auto.
    + intros r c Hr Hc. rewrite !HT' by auto. apply Hs; auto.
    + intros r c Hr Hc Hrc. rewrite HT' by auto. unfold tcur. destruct (Nat.ltb_spec c (n - 1)), (Nat.ltb_spec (c + 1) r); cbn [andb]; auto; lia.
Qed.
End Acc.

(** ** breakdown *)
(** an invariant subspace of [A] of dimension [d] with an orthonormal basis, the columns of [W], of which the first is the first unit vector *)
Definition inv_space (n : nat) (A : mtx) (d : nat) : Prop :=
  exists W M : mtx, (forall r, (r < n)%nat -> W r 0%nat = idm r 0%nat) /\ eqm d d (mm n (tr W) W) idm /\ eqm n d (mm n A W) (mm d W M).
Section Break.
Variables (A : mtx) (n : nat).
Hypothesis Hn : (2 <= n)%nat.
Hypothesis HA : symm n A.
Lemma cj_AQ : forall Q C, orth n Q -> eqm n n (cj n Q A) C -> eqm n n (mm n A Q) (mm n Q C).
Proof.
  intros Q C (O1 & O2) H r c Hr Hc. symmetry. rewrite (mm_ext n Q Q C (mm n (tr Q) (mm n A Q))); auto. 2: { intros l Hl. rewrite <- H by auto. unfold cj. apply mm_assoc. }
  rewrite <- mm_assoc. rewrite (mm_ext n _ idm _ (mm n A Q)); auto. apply mm_id_l; auto.
Qed.
Lemma break_inv : forall i T tau, (i + 1 < n - 1)%nat -> TInv A n i T tau -> tpivot n i T = 0 -> inv_space n A (i + 1).
Proof.
  intros i T tau Hi (HL & HLt & Hg & Hs & HQ) Hz. set (Q := qm n (ent tau) (rv T n) i) in *. set (C := tcur i T n) in *.
  assert (HO : orth n Q) by (apply qm_orth; intros; apply Hg; auto).
  assert (Hz1 : forall r, (i < r)%nat -> (r < n)%nat -> at2 T n r i = 0).
  { intros r Hr1 Hr2. unfold tpivot in Hz. assert (0 <= Sum (n - (i + 2)) (fun l => at2 T n (i + 2 + l)%nat i * at2 T n (i + 2 + l)%nat i)) by (apply Sum_pos; intros; nra).
    destruct (Nat.eq_dec r (i + 1)) as [->|]; [nra|]. pose proof (Sum_sq_0 (n - (i + 2)) (fun l => at2 T n (i + 2 + l)%nat i)) as G. cbv beta in G.
    replace r with (i + 2 + (r - (i + 2)))%nat by lia. apply G; [nra|lia]. }
  assert (HC0 : forall r c, (c < i + 1)%nat -> (i + 1 <= r)%nat -> (r < n)%nat -> C r c = 0).
  { intros r c Hc Hr Hrn. unfold C, tcur. destruct (Nat.ltb_spec c i); cbn [andb]; [destruct (Nat.ltb_spec (c + 1) r); [auto|lia]|]. replace c with i by lia. apply Hz1; lia. }
  exists Q, C. split; [|split].
  - intros r Hr. unfold Q. clear -Hn Hr. induction i as [|i IH]; [reflexivity|]. cbn [qm]. rewrite mm_hm_r by lia. rewrite IH. unfold rv at 1. destruct (Nat.ltb_spec 0 (i + 1)); [ring|lia].
  - intros r c Hr Hc. destruct HO as (_ & O2). apply O2; lia.
  - intros r c Hr Hc. rewrite (cj_AQ Q C HO HQ) by (auto; lia). unfold mm. replace n with (i + 1 + (n - (i + 1)))%nat at 1 by lia. rewrite Sum_app, (Sum_zero (n - (i + 1))); [ring|]. intros l Hl. rewrite HC0 by lia. ring.
Qed.
Lemma tri_ok : forall (T0 tau0 v0 : list real), length T0 = (n * n)%nat -> eqm n n (at2 T0 n) A -> length tau0 = (n - 1)%nat -> length v0 = (n - 1)%nat ->
  (rfold (seq 0 (n - 1)) (tri_step n) (T0, tau0, v0) = UB /\ exists d, (1 <= d)%nat /\ (d <= n - 2)%nat /\ inv_space n A d) \/
  exists T tau v, rfold (seq 0 (n - 1)) (tri_step n) (T0, tau0, v0) = Ok (T, tau, v) /\ TInv A n (n - 1) T tau /\ length v = (n - 1)%nat.
Proof.
  intros T0 tau0 v0 HL HT HLt Hlv.
  assert (H0 : TInv A n 0 T0 tau0).
  { split; auto. split; auto. split; [intros; lia|]. assert (E : eqm n n (tcur 0 T0 n) A) by (intros r c Hr Hc; unfold tcur; cbn; apply HT; auto). split.
    - intros r c Hr Hc. rewrite !E by auto. apply HA; auto.
    - intros r c Hr Hc. rewrite E by auto. unfold cj. cbn [qm]. rewrite mm_id_r by auto. rewrite (mm_ext n _ idm _ A); auto; [apply mm_id_l; auto|]. intros. unfold tr. apply idm_sym. }
  pose (P := fun i (st : list real * list real * list real) => let '(T, tau, v) := st in TInv A n i T tau /\ length v = (n - 1)%nat).
  assert (G : forall m a st, P a st -> (a + m = n - 1)%nat ->
    (rfold (seq a m) (tri_step n) st = UB /\ exists d, (1 <= d)%nat /\ (d <= n - 2)%nat /\ inv_space n A d) \/ exists st', rfold (seq a m) (tri_step n) st = Ok st' /\ P (n - 1)%nat st').
  { induction m as [|m IH]; intros a st HP Ha; simpl.
    - right. exists st. split; auto. replace (n - 1)%nat with a by lia. auto.
    - destruct st as ((T & tau) & v). destruct HP as (HI & Hl). destruct (tri_step_ok A n Hn a T tau v ltac:(lia) HI Hl) as (S1 & S2).
      destruct (Nat.eq_dec a (n - 2)) as [Ea|Ea]; [|destruct (Req_dec (tpivot n a T) 0) as [Hz|Hz]].
      + destruct S2 as (T' & tau' & v' & E & HI' & Hl'); auto. rewrite E. cbn [rbind]. apply IH; [|lia]. rewrite Nat.add_1_r in HI'. split; auto.
      + left. rewrite S1 by auto. split; [reflexivity|]. exists (a + 1)%nat. split; [lia|]. split; [lia|]. apply (break_inv a T tau); auto. lia.
      + destruct S2 as (T' & tau' & v' & E & HI' & Hl'); auto. rewrite E. cbn [rbind]. apply IH; [|lia]. rewrite Nat.add_1_r in HI'. split; auto. }
  destruct (G (n - 1)%nat 0%nat (T0, tau0, v0)) as [H|(((T & tau) & v) & E & H1 & H2)]; auto. { split; auto. }
  right. exists T, tau, v. auto.
Qed.
End Break.
