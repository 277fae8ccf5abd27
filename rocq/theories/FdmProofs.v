(** * CeedOperatorCreateFDMElementInverse: the loops *)
From Coq Require Import List ZArith Lia Bool Arith Reals Lra Psatz.
From Verif Require Import Prelude RstrModel TensorModel BasisModel Digits BasisMain BasisProps OpModel OpLists DenseModel DenseProofs QrModel RealLin QrProofs QrFact ProjModel SchurModel SchurTri FdmModel.
Import ListNotations.
Local Open Scope nat_scope.
Local Open Scope R_scope.

(** two nested loops, each step writes its own entry *)
Lemma fill2 : forall n m (f : nat -> nat -> list real -> res (list real)) (ix : nat -> nat -> nat) (v : nat -> nat -> real) L A, length A = L ->
  (forall i j i' j', (i < n)%nat -> (j < m)%nat -> (i' < n)%nat -> (j' < m)%nat -> ix i j = ix i' j' -> i = i' /\ j = j') ->
  (forall i j l, (i < n)%nat -> (j < m)%nat -> length l = L -> ent l (ix i j) = ent A (ix i j) ->
     exists l', f i j l = Ok l' /\ length l' = L /\ forall x, ent l' x = if (x =? ix i j)%nat then v i j else ent l x) ->
  exists A', rfold (seq 0 n) (fun i A => rfold (seq 0 m) (fun j A => f i j A) A) A = Ok A' /\ length A' = L /\
    (forall i j, (i < n)%nat -> (j < m)%nat -> ent A' (ix i j) = v i j) /\
    forall x, (forall i j, (i < n)%nat -> (j < m)%nat -> x <> ix i j) -> ent A' x = ent A x.
Proof.
  intros n m f ix v L A LA Hinj Hf.
  match goal with |- exists A', rfold _ ?g _ = _ /\ _ => destruct (@rfold_inv0 (list real) (fun i l => length l = L /\
     (forall i' j', (i' < n)%nat -> (j' < m)%nat -> ent l (ix i' j') = if (i' <? i)%nat then v i' j' else ent A (ix i' j')) /\
     (forall x, (forall i j, (i < n)%nat -> (j < m)%nat -> x <> ix i j) -> ent l x = ent A x)) g n A) as (A' & E & L' & H & Ho) end.
  - split; auto.
  - intros i l Hi (Ll & Hl & Ho).
    match goal with |- exists A', rfold _ ?g _ = _ /\ _ => destruct (@rfold_inv0 (list real) (fun j l' => length l' = L /\
      (forall i' j', (i' < n)%nat -> (j' < m)%nat -> ent l' (ix i' j') = if (i' <? i)%nat || ((i' =? i)%nat && (j' <? j)%nat) then v i' j' else ent A (ix i' j')) /\
      (forall x, (forall i j, (i < n)%nat -> (j < m)%nat -> x <> ix i j) -> ent l' x = ent A x)) g m l) as (l' & E & L' & H & Ho') end.
    + split; auto. split; auto. intros i' j' Hi' Hj'. rewrite Hl by auto. rewrite Bool.andb_false_r, Bool.orb_false_r. reflexivity.
    + intros j l1 Hj (L1 & H1 & O1). destruct (Hf i j l1 Hi Hj L1) as (l2 & E2 & L2 & H2).
      { rewrite H1 by auto. rewrite !Nat.ltb_irrefl, Bool.andb_false_r. reflexivity. }
      exists l2. split; auto. split; auto. split.
      * intros i' j' Hi' Hj'. rewrite H2. destruct (Nat.eqb_spec (ix i' j') (ix i j)) as [Eq|Ne].
        -- apply Hinj in Eq; auto. destruct Eq as (-> & ->). rewrite Nat.eqb_refl. destruct (Nat.ltb_spec j (j + 1)); [|lia]. rewrite Bool.orb_true_r. reflexivity.
        -- rewrite H1 by auto. destruct (i' <? i)%nat eqn:Ei; auto. cbn [orb]. destruct (Nat.eqb_spec i' i) as [->|]; auto. cbn [andb].
           destruct (Nat.ltb_spec j' j), (Nat.ltb_spec j' (j + 1)); auto; try lia. exfalso. apply Ne. f_equal; lia.
      * intros x Hx. rewrite H2. destruct (Nat.eqb_spec x (ix i j)) as [->|]; auto. exfalso. exact (Hx i j Hi Hj eq_refl).
    + exists l'. split; auto. split; auto. split; auto. intros i' j' Hi' Hj'. rewrite H by auto.
      destruct (Nat.ltb_spec i' i), (Nat.ltb_spec i' (i + 1)), (Nat.eqb_spec i' i), (Nat.ltb_spec j' m); cbn [orb andb]; auto; lia.
  - exists A'. split; auto. split; auto. split; auto. intros i j Hi Hj. rewrite H by auto. destruct (Nat.ltb_spec i n); [reflexivity|lia].
Qed.
Lemma put_step : forall (l : list real) L i x, length l = L -> (i < L)%nat -> exists l', put l i x = Ok l' /\ length l' = L /\ forall y, ent l' y = if (y =? i)%nat then x else ent l y.
Proof. intros l L i x Hl Hi. rewrite put_ok by lia. eexists. split; [reflexivity|]. rewrite upd_length. split; auto. intros y. apply ent_upd. lia. Qed.

(** ** the matrices in one dimension *)
Definition gramm (m w : list real) (P Q : nat) : mtx := fun i j => Sum Q (fun k => at2 m P k i * ent w k * at2 m P k j).
Lemma gramm_sym : forall m w P Q i j, gramm m w P Q i j = gramm m w P Q j i.
Proof. intros. unfold gramm. apply Sum_ext. intros. ring. Qed.
Lemma gram_ok : forall m w P Q A, (Q * P <= length m)%nat -> (Q <= length w)%nat -> length A = (P * P)%nat ->
  exists A', gram m w P Q A = Ok A' /\ length A' = (P * P)%nat /\ eqm P P (at2 A' P) (gramm m w P Q).
Proof.
  intros m w P Q A Lm Lw LA. unfold gram.
  match goal with |- exists zz, rfold _ (fun zi zA => rfold _ (fun zj zB => @?g zi zj zB) zA) _ = _ /\ _ => destruct (fill2 P P g (fun i j => (i + j * P)%nat) (fun i j => gramm m w P Q i j) (P * P) A LA) as (A' & E & L' & H & _) end.
  - intros i j i' j' Hi Hj Hi' Hj' Eq. rewrite (Nat.add_comm i), (Nat.add_comm i') in Eq. apply rowcol in Eq; auto. lia.
  - intros i j l Hi Hj Hl _.
    match goal with |- exists l', rbind (rfold _ ?f _) _ = _ /\ _ => destruct (@rfold_inv0 real (fun k s => s = Sum k (fun k => at2 m P k i * ent w k * at2 m P k j)) f Q 0) as (s & Es & ->) end.
    + reflexivity.
    + intros k s Hk ->. rewrite !og_ent by nia. cbn [rbind]. eexists. split; [reflexivity|]. rewrite Nat.add_1_r. reflexivity.
    + rewrite Es. cbn [rbind]. apply put_step; auto. nia.
  - exists A'. split; auto. split; auto. intros i j Hi Hj. unfold at2. rewrite (Nat.add_comm (i * P)), H by auto. apply gramm_sym.
Qed.
Definition pert_lap (g w : list real) (P Q dim : nat) : mtx := fun i j => gramm g w P Q i j + if (i =? j)%nat then perturbation dim else 0.
Lemma mass_laplace_ok : forall b g w P Q dim, (Q * P <= length b)%nat -> (Q * P <= length g)%nat -> (Q <= length w)%nat ->
  exists M K, mass_laplace b g w P Q dim = Ok (M, K) /\ length M = (P * P)%nat /\ length K = (P * P)%nat /\ eqm P P (at2 M P) (gramm b w P Q) /\ eqm P P (at2 K P) (pert_lap g w P Q dim).
Proof.
  intros b g w P Q dim Lb Lg Lw. unfold mass_laplace.
  destruct (gram_ok b w P Q (repeat 0 (P * P)) Lb Lw (repeat_length _ _)) as (M & E1 & L1 & H1). rewrite E1. cbn [rbind].
  destruct (gram_ok g w P Q (repeat 0 (P * P)) Lg Lw (repeat_length _ _)) as (K & E2 & L2 & H2). rewrite E2. cbn [rbind].
  match goal with |- exists _ _, rbind (rfold _ ?f _) _ = _ /\ _ => destruct (@rfold_inv0 (list real) (fun k A => length A = (P * P)%nat /\
    forall i j, (i < P)%nat -> (j < P)%nat -> at2 A P i j = at2 K P i j + if (i =? j)%nat && (i <? k)%nat then perturbation dim else 0) f P K) as (K' & E3 & L3 & H3) end.
  - split; auto. intros i j Hi Hj. rewrite Bool.andb_false_r. ring.
  - intros k A Hk (LA & HA). rewrite og_ent by nia. cbn [rbind]. rewrite put_ok by nia. eexists. split; [reflexivity|]. rewrite upd_length. split; auto.
    intros i j Hi Hj. unfold at2 at 1. rewrite ent_upd by nia. destruct (Nat.eqb_spec (i * P + j) (k + P * k)) as [Eq|Ne].
    + rewrite (Nat.mul_comm P k), (Nat.add_comm k) in Eq. apply rowcol in Eq; auto. destruct Eq as (-> & ->). replace (k + P * k)%nat with (k * P + k)%nat by lia. fold (at2 A P k k). rewrite HA by auto.
      rewrite Nat.eqb_refl, Nat.ltb_irrefl. destruct (Nat.ltb_spec k (k + 1)); [|lia]. cbn [andb]. ring.
    + fold (at2 A P i j). rewrite HA by auto. destruct (Nat.eqb_spec i j) as [->|]; auto. cbn [andb]. destruct (Nat.ltb_spec j k), (Nat.ltb_spec j (k + 1)); auto; try lia. exfalso. apply Ne. replace j with k by lia. lia.
  - rewrite E3. cbn [rbind]. exists M, K'. split; auto. split; auto. split; auto. split; auto. intros i j Hi Hj. rewrite H3 by auto. unfold pert_lap. rewrite H2 by auto.
    destruct (Nat.ltb_spec i P); [|lia]. rewrite Bool.andb_true_r. reflexivity.
Qed.
Lemma fdm_interp_ok : forall x P, (P * P <= length x)%nat -> exists F, fdm_interp x P = Ok F /\ length F = (P * P)%nat /\ eqm P P (at2 F P) (tr (at2 x P)).
Proof.
  intros x P Lx. unfold fdm_interp.
  match goal with |- exists zz, rfold _ (fun zi zA => rfold _ (fun zj zB => @?g zi zj zB) zA) _ = _ /\ _ => destruct (fill2 P P g (fun i j => (i + j * P)%nat) (fun i j => at2 x P i j) (P * P) (repeat 0 (P * P)) (repeat_length _ _)) as (A' & E & L' & H & _) end.
  - intros i j i' j' Hi Hj Hi' Hj' Eq. rewrite (Nat.add_comm i), (Nat.add_comm i') in Eq. apply rowcol in Eq; auto. lia.
  - intros i j l Hi Hj Hl _. rewrite og_ent by nia. cbn [rbind]. unfold at2. rewrite (Nat.add_comm (i * P)). apply put_step; auto. nia.
  - exists A'. split; auto. split; auto. intros i j Hi Hj. unfold at2 at 1. rewrite (Nat.add_comm (i * P)), H by auto. reflexivity.
Qed.

(** ** element averages *)
Section Avg.
Variables (bound : real) (a : nat -> nat -> real) (w : nat -> real).
Definition big (q i : nat) : real := if Rlt_dec bound (Rabs (a q i)) then 1 else 0.
Definition bigsum (nq ni : nat) : real := Sum nq (fun q => Sum ni (fun i => big q i * (a q i / w q))).
Definition bigcnt (nq ni : nat) : real := Sum nq (fun q => Sum ni (fun i => big q i)).
Definition favg (nq ni : nat) : real := if Req_EM_T (bigcnt nq ni) 0 then 1 else bigsum nq ni / bigcnt nq ni.
End Avg.
Lemma elem_avg_ok : forall bound asm qw l0 l1 l2 nq ni e, (forall q i, (q < nq)%nat -> (i < ni)%nat -> (q * l0 + i * l1 + e * l2 < length asm)%nat) -> (nq <= length qw)%nat -> (forall q, (q < nq)%nat -> ent qw q <> 0) ->
  elem_avg bound asm qw l0 l1 l2 nq ni e = Ok (favg bound (fun q i => ent asm (q * l0 + i * l1 + e * l2)) (ent qw) nq ni).
Proof.
  intros bound asm qw l0 l1 l2 nq ni e Ha Lw Hw. unfold elem_avg. set (a := fun q i => ent asm (q * l0 + i * l1 + e * l2)).
  match goal with |- rbind (rfold _ ?f _) _ = _ => destruct (@rfold_inv0 (real * nat) (fun q st => fst st = bigsum bound a (ent qw) q ni /\ INR (snd st) = bigcnt bound a q ni) f nq (0, 0%nat)) as ((s & c) & E & E1 & E2) end.
  - split; reflexivity.
  - intros q st Hq (H1 & H2).
    match goal with |- exists s', rfold _ ?f _ = _ /\ _ => destruct (@rfold_inv0 (real * nat) (fun i st => fst st = bigsum bound a (ent qw) q ni + Sum i (fun i => big bound a q i * (a q i / ent qw q)) /\
      INR (snd st) = bigcnt bound a q ni + Sum i (fun i => big bound a q i)) f ni st) as (st' & E & E1 & E2) end.
    + cbn [Sum]. rewrite H1, H2. split; ring.
    + intros i st1 Hi (K1 & K2). rewrite og_ent by auto. cbn [rbind]. fold (a q i). rewrite Nat.add_1_r. cbn [Sum]. unfold big at 2 4. destruct (Rlt_dec bound (Rabs (a q i))).
      * rewrite og_ent by lia. cbn [rbind]. unfold rdiv. destruct (Req_EM_T (ent qw q) 0) as [E|]; [exfalso; apply (Hw q Hq E)|]. cbn [rbind]. eexists. split; [reflexivity|]. cbn [fst snd]. rewrite K1, S_INR, K2. split; ring.
      * eexists. split; [reflexivity|]. rewrite K1, K2. split; ring.
    + exists st'. split; auto. rewrite E1, E2, Nat.add_1_r. split; reflexivity.
  - rewrite E. cbn [rbind fst snd] in *. unfold favg. rewrite <- E1, <- E2. destruct (Nat.eqb_spec c 0) as [->|Hc].
    + destruct (Req_EM_T (INR 0) 0) as [|Hn]; [reflexivity|]. exfalso. apply Hn. reflexivity.
    + assert (Hn : INR c <> 0) by (apply not_0_INR; auto). unfold rdiv. destruct (Req_EM_T (INR c) 0); [contradiction|]. reflexivity.
Qed.
Lemma elem_avgs_ok : forall bound asm qw l0 l1 l2 nq ni ne, (forall q i e, (q < nq)%nat -> (i < ni)%nat -> (e < ne)%nat -> (q * l0 + i * l1 + e * l2 < length asm)%nat) -> (nq <= length qw)%nat -> (forall q, (q < nq)%nat -> ent qw q <> 0) ->
  exists avg, elem_avgs bound asm qw l0 l1 l2 nq ni ne = Ok avg /\ length avg = ne /\ forall e, (e < ne)%nat -> ent avg e = favg bound (fun q i => ent asm (q * l0 + i * l1 + e * l2)) (ent qw) nq ni.
Proof.
  intros bound asm qw l0 l1 l2 nq ni ne Ha Lw Hw. unfold elem_avgs.
  match goal with |- exists avg, rfold _ ?f _ = _ /\ _ => destruct (@rfold_inv0 (list real) (fun e l => length l = ne /\ forall e', (e' < e)%nat -> ent l e' = favg bound (fun q i => ent asm (q * l0 + i * l1 + e' * l2)) (ent qw) nq ni) f ne (repeat 0 ne)) as (l & E & L & H) end.
  - split; [apply repeat_length|lia].
  - intros e l He (L & H). rewrite elem_avg_ok by auto. cbn [rbind]. rewrite put_ok by lia. eexists. split; [reflexivity|]. rewrite upd_length. split; auto. intros e' He'. rewrite ent_upd by lia.
    destruct (Nat.eqb_spec e' e) as [->|]; auto. apply H. lia.
  - exists l. auto.
Qed.
Lemma favg_ext : forall b a w w' nq ni, (forall q, (q < nq)%nat -> w q = w' q) -> favg b a w nq ni = favg b a w' nq ni.
Proof.
  intros b a w w' nq ni H. unfold favg. replace (bigsum b a w nq ni) with (bigsum b a w' nq ni); auto. unfold bigsum. apply Sum_ext. intros q Hq. rewrite H by auto. reflexivity.
Qed.

(** ** the diagonal *)
Definition clip (bound x : real) : real := if Rlt_dec (Rabs x) bound then bound else x.
Definition fdv (interp grad : bool) (dim P : nat) (lam : nat -> real) (n : nat) : real := (if interp then 1 else 0) + (if grad then Sum dim (fun d => lam (dig P d n)) else 0).
Lemma fdm_diag_ok : forall bound interp grad dim nc P lam, (0 < P)%nat -> length lam = P ->
  exists D, fdm_diag bound interp grad dim nc P lam = Ok D /\ length D = (nc * P ^ dim)%nat /\
    forall c n, (c < nc)%nat -> (n < P ^ dim)%nat -> ent D (c * P ^ dim + n) = clip bound (fdv interp grad dim P (ent lam) n).
Proof.
  intros bound interp grad dim nc P lam HP Ll. unfold fdm_diag. set (nn := (P ^ dim)%nat).
  match goal with |- exists zz, rfold _ (fun zi zA => rfold _ (fun zj zB => @?g zi zj zB) zA) _ = _ /\ _ => destruct (fill2 nc nn g (fun c n => (c * nn + n)%nat) (fun c n => clip bound (fdv interp grad dim P (ent lam) n)) (nc * nn) (repeat 0 (nc * nn)) (repeat_length _ _)) as (A' & E & L' & H & _) end.
  - intros i j i' j' Hi Hj Hi' Hj' Eq. apply rowcol in Eq; auto.
  - intros c n l Hc Hn Ll' H0. assert (Hx : (c * nn + n < nc * nn)%nat) by nia. set (x := (c * nn + n)%nat) in *. clearbody x.
    assert (H0' : ent l x = 0). { rewrite H0. unfold ent. apply nth_repeat. } clear H0.
    assert (S1 : exists l1, (if interp then put l x 1 else Ok l) = Ok l1 /\ length l1 = (nc * nn)%nat /\ forall y, ent l1 y = if (y =? x)%nat then if interp then 1 else 0 else ent l y).
    { destruct interp; [apply put_step; auto|]. exists l. split; auto. split; auto. intros y. destruct (Nat.eqb_spec y x) as [->|]; auto. }
    destruct S1 as (l1 & E1 & L1 & H1). rewrite E1. cbn [rbind].
    assert (S2 : exists l2, (if grad then rfold (seq 0 dim) (fun d D => x0 <~ og lam ((n / P ^ d) mod P) ;; y <~ og D x ;; put D x (y + x0)) l1 else Ok l1) = Ok l2 /\ length l2 = (nc * nn)%nat /\
        forall y, ent l2 y = if (y =? x)%nat then fdv interp grad dim P (ent lam) n else ent l y).
    { unfold fdv. destruct grad.
      - match goal with |- exists l2, rfold _ ?f _ = _ /\ _ => destruct (@rfold_inv0 (list real) (fun d l2 => length l2 = (nc * nn)%nat /\
            forall y, ent l2 y = if (y =? x)%nat then (if interp then 1 else 0) + Sum d (fun d => ent lam (dig P d n)) else ent l y) f dim l1) as (l2 & E2 & L2 & H2) end.
        + split; auto. intros y. rewrite H1. destruct (y =? x)%nat; auto. cbn [Sum]. ring.
        + intros d l2 Hd (L2 & H2). rewrite (og_ent lam) by (rewrite Ll; apply Nat.mod_upper_bound; lia). cbn [rbind]. rewrite og_ent by lia. cbn [rbind]. rewrite put_ok by lia. eexists. split; [reflexivity|].
          rewrite upd_length. split; auto. intros y. rewrite ent_upd by lia. rewrite !H2, Nat.eqb_refl. destruct (y =? x)%nat; auto. rewrite Nat.add_1_r. cbn [Sum]. unfold dig. ring.
        + exists l2. auto.
      - exists l1. split; auto. split; auto. intros y. rewrite H1. destruct (y =? x)%nat; auto. ring. }
    destruct S2 as (l2 & E2 & L2 & H2). rewrite E2. cbn [rbind]. rewrite og_ent by lia. cbn [rbind]. rewrite H2, Nat.eqb_refl. unfold clip. destruct (Rlt_dec (Rabs (fdv interp grad dim P (ent lam) n)) bound).
    + destruct (put_step l2 (nc * nn) x bound L2 Hx) as (l3 & E3 & L3 & H3). exists l3. split; auto. split; auto. intros y. rewrite H3, H2. destruct (y =? x)%nat; auto.
    + exists l2. auto.
  - exists A'. auto.
Qed.

(** ** the data *)
Lemma fdm_data_ok : forall ne nc nn avg diag, length avg = ne -> length diag = (nc * nn)%nat -> (forall e, (e < ne)%nat -> ent avg e <> 0) -> (forall c n, (c < nc)%nat -> (n < nn)%nat -> ent diag (c * nn + n) <> 0) ->
  exists q, fdm_data ne nc nn avg diag = Ok q /\ length q = (ne * nc * nn)%nat /\ forall e c n, (e < ne)%nat -> (c < nc)%nat -> (n < nn)%nat -> ent q ((e * nc + c) * nn + n) = 1 / (ent avg e * ent diag (c * nn + n)).
Proof.
  intros ne nc nn avg diag La Ld Ha Hd. unfold fdm_data.
  match goal with |- exists q, rfold _ ?f _ = _ /\ _ => destruct (@rfold_inv0 (list real) (fun e l => length l = (ne * nc * nn)%nat /\
    forall e' c n, (e' < e)%nat -> (c < nc)%nat -> (n < nn)%nat -> ent l ((e' * nc + c) * nn + n) = 1 / (ent avg e' * ent diag (c * nn + n))) f ne (repeat 0 (ne * nc * nn))) as (q & E & L & H) end.
  - split; [apply repeat_length|lia].
  - intros e l He (L & H).
    match goal with |- exists zz, rfold _ (fun zi zA => rfold _ (fun zj zB => @?g zi zj zB) zA) _ = _ /\ _ => destruct (fill2 nc nn g (fun c n => ((e * nc + c) * nn + n)%nat) (fun c n => 1 / (ent avg e * ent diag (c * nn + n))) (ne * nc * nn) l L) as (A' & E & L' & HA & Ho) end.
    + intros i j i' j' Hi Hj Hi' Hj' Eq. apply rowcol in Eq; auto. lia.
    + intros c n l1 Hc Hn L1 _. rewrite og_ent by lia. cbn [rbind]. rewrite og_ent by nia. cbn [rbind]. unfold rdiv. destruct (Req_EM_T _ 0) as [E|]; [exfalso; apply Rmult_integral in E; destruct E; [eapply Ha|eapply Hd]; eauto|].
      cbn [rbind]. apply put_step; auto. assert (e * nc + c < ne * nc)%nat by nia. nia.
    + exists A'. split; auto. split; auto. intros e' c n He' Hc Hn. destruct (Nat.eq_dec e' e) as [->|]; auto. rewrite Ho; [apply H; auto; lia|].
      intros i j Hi Hj Eq. apply rowcol in Eq; auto. destruct Eq as (Eq & _). apply rowcol in Eq; auto. lia.
  - exists q. auto.
Qed.
