(** * CeedSimultaneousDiagonalization: the sort and the two congruences *)
From Coq Require Import List ZArith Lia Bool Arith Reals Lra Psatz.
From Verif Require Import Prelude RstrModel OpModel OpLists DenseModel DenseProofs QrModel RealLin QrProofs QrFact QrCheb SchurModel SchurTri SchurRot SchurMain.
Import ListNotations.
Local Open Scope nat_scope.
Local Open Scope R_scope.

(** ** adjacent transpositions *)
Definition sw (j c : nat) : nat := if (c =? j)%nat then (j + 1)%nat else if (c =? j + 1)%nat then j else c.
Lemma sw_lt : forall n j c, (j + 1 < n)%nat -> (c < n)%nat -> (sw j c < n)%nat.
Proof. intros. unfold sw. deq; lia. Qed.
Lemma sw_eqb : forall j r c, (sw j r =? sw j c)%nat = (r =? c)%nat.
Proof. intros. unfold sw. destruct (Nat.eqb_spec r j), (Nat.eqb_spec c j), (Nat.eqb_spec r (j + 1)), (Nat.eqb_spec c (j + 1)), (Nat.eqb_spec r c); try lia; deq; auto; lia. Qed.
Lemma Sum_sw : forall n j f, (j + 1 < n)%nat -> Sum n (fun c => f (sw j c)) = Sum n f.
Proof.
  intros n j f Hj. set (m := (n - j - 2)%nat). replace n with (j + (2 + m))%nat by lia.
  assert (G : forall f, Sum (j + (2 + m)) f = Sum j f + (0 + f (j + 0)%nat + f (j + 1)%nat + Sum m (fun i => f (j + (2 + i))%nat))) by (intros g; rewrite Sum_app, Sum_app; reflexivity).
  rewrite !G.
  rewrite (Sum_ext j (fun c => f (sw j c)) f). 2: { intros i Hi. unfold sw. deq; try lia. reflexivity. }
  rewrite (Sum_ext m (fun i => f (sw j (j + (2 + i))%nat)) (fun i => f (j + (2 + i))%nat)). 2: { intros i Hi. unfold sw. deq; try lia. reflexivity. }
  replace (sw j (j + 0)) with (j + 1)%nat by (unfold sw; deq; lia). replace (sw j (j + 1)) with (j + 0)%nat by (unfold sw; deq; lia). ring.
Qed.
Definition swc (j : nat) (G : mtx) : mtx := fun r c => G r (sw j c).
Lemma swc_orth : forall n j G, (j + 1 < n)%nat -> orth n G -> orth n (swc j G).
Proof.
  intros n j G Hj (O1 & O2). split; intros r c Hr Hc.
  - rewrite <- (O1 r c Hr Hc). apply (Sum_sw n j (fun l => G r l * tr G l c) Hj).
  - transitivity (mm n (tr G) G (sw j r) (sw j c)); [reflexivity|]. rewrite O2 by (apply sw_lt; auto). unfold idm. rewrite sw_eqb. reflexivity.
Qed.
Lemma swc_cj : forall n j G A r c, cj n (swc j G) A r c = cj n G A (sw j r) (sw j c).
Proof. reflexivity. Qed.
Lemma offd_ext : forall n E E', eqm n n E E' -> offd n E = offd n E'.
Proof. intros n E E' H. apply Sum_ext. intros r Hr. apply Sum_ext. intros c Hc. rewrite H by auto. reflexivity. Qed.
Lemma swc_offd : forall n j E, (j + 1 < n)%nat -> offd n (fun r c => E (sw j r) (sw j c)) = offd n E.
Proof.
  intros n j E Hj. unfold offd. etransitivity; [|apply (Sum_sw n j (fun r => Sum n (fun c => if (r =? c)%nat then 0 else E r c * E r c)) Hj)].
  apply Sum_ext. intros r Hr. cbv beta. etransitivity; [|apply (Sum_sw n j (fun c => if (sw j r =? c)%nat then 0 else E (sw j r) c * E (sw j r) c) Hj)].
  apply Sum_ext. intros c Hc. cbv beta. rewrite sw_eqb. reflexivity.
Qed.

(** ** the sort *)
Lemma swap_ok : forall A i j, i <> j -> (i < length A)%nat -> (j < length A)%nat -> exists A', swap A i j = Ok A' /\ length A' = length A /\
  forall p, ent A' p = if (p =? i)%nat then ent A j else if (p =? j)%nat then ent A i else ent A p.
Proof.
  intros A i j Hij Hi Hj. unfold swap. rewrite !og_ent by auto. cbn [rbind]. rewrite put_ok by auto. cbn [rbind]. rewrite put_ok by (rewrite upd_length; auto).
  eexists. split; [reflexivity|]. rewrite !upd_length. split; auto. intros p. rewrite ent_upd by (rewrite upd_length; auto). rewrite ent_upd by auto. deq; auto; lia.
Qed.
Section Sort.
Variables (n L : nat).
Hypothesis HL : (n * n <= L)%nat.
Definition shp (st : list real * list real) : Prop := length (fst st) = L /\ length (snd st) = n.
Lemma sort_step_ok : forall j st, (j + 1 < n)%nat -> shp st -> exists st', sort_step n j st = Ok st' /\ shp st' /\
  ((st' = st /\ Rabs (ent (snd st) j) <= Rabs (ent (snd st) (j + 1))) \/
   (Rabs (ent (snd st) (j + 1)) < Rabs (ent (snd st) j) /\ (forall k, (k < n)%nat -> ent (snd st') k = ent (snd st) (sw j k)) /\ eqm n n (at2 (fst st') n) (swc j (at2 (fst st) n)))).
Proof.
  intros j (G & D) Hj (LG & LD). cbn [fst snd] in *. unfold sort_step. cbn [fst snd]. rewrite !og_ent by lia. cbn [rbind].
  destruct (Rlt_dec (Rabs (ent D (j + 1))) (Rabs (ent D j))) as [Hlt|Hge].
  - destruct (swap_ok D j (j + 1)) as (D' & -> & LD' & HD); try lia. cbn [rbind].
    match goal with |- exists st', rbind (rfold _ ?f _) _ = _ /\ _ => destruct (@rfold_inv0 (list real) (fun i A => length A = L /\
      (forall r c, (r < n)%nat -> (c < n)%nat -> at2 A n r c = if (r <? i)%nat then swc j (at2 G n) r c else at2 G n r c)) f n G) as (G' & E & LG' & HG) end.
    + split; auto.
    + intros i A Hi (LA & HA). replace (i * n + j + 1)%nat with (i * n + (j + 1))%nat by lia.
      destruct (swap_ok A (i * n + j) (i * n + (j + 1))) as (A' & E & LA' & HA'); [lia|nia|nia|]. exists A'. split; auto. split; [lia|].
      intros r c Hr Hc. unfold at2 at 1. rewrite HA'. fold (at2 A n i j) (at2 A n i (j + 1)%nat) (at2 A n r c). rewrite !HA by lia. rewrite Nat.ltb_irrefl.
      destruct (Nat.eqb_spec (r * n + c) (i * n + j)) as [Eq|N1]; [|destruct (Nat.eqb_spec (r * n + c) (i * n + (j + 1))) as [Eq|N2]].
      * apply rowcol in Eq; try lia. destruct Eq as (-> & ->). destruct (Nat.ltb_spec i (i + 1)); [|lia]. unfold swc, sw. rewrite Nat.eqb_refl. reflexivity.
      * apply rowcol in Eq; try lia. destruct Eq as (-> & ->). destruct (Nat.ltb_spec i (i + 1)); [|lia]. unfold swc, sw. rewrite Nat.eqb_refl. destruct (Nat.eqb_spec (j + 1) j); [lia|]. reflexivity.
      * destruct (Nat.ltb_spec r i), (Nat.ltb_spec r (i + 1)); auto; try lia. replace r with i in * by lia. unfold swc, sw. deq; auto; congruence.
    + rewrite E. cbn [rbind]. exists (G', D'). split; auto. split; [split; cbn; lia|]. right. split; auto. cbn [fst snd]. split.
      * intros k Hk. rewrite HD. unfold sw. deq; auto.
      * intros r c Hr Hc. rewrite HG by auto. destruct (Nat.ltb_spec r n); [auto|lia].
  - exists (G, D). split; auto. split; [split; auto|]. left. split; auto. cbn. lra.
Qed.
Variable (P : list real * list real -> Prop).
Hypothesis HP : forall j st st', (j + 1 < n)%nat -> shp st -> shp st' -> P st -> (forall k, (k < n)%nat -> ent (snd st') k = ent (snd st) (sw j k)) -> eqm n n (at2 (fst st') n) (swc j (at2 (fst st) n)) -> P st'.
Definition srt (i : nat) (d : list real) : Prop := forall k l, (i <= l)%nat -> (l < n)%nat -> (k <= l)%nat -> Rabs (ent d k) <= Rabs (ent d l).
Lemma sort_cols_ok : forall G D, length G = L -> length D = n -> P (G, D) -> exists G' D', sort_cols n G D = Ok (G', D') /\ length G' = L /\ length D' = n /\ P (G', D') /\ srt 0 D'.
Proof.
  intros G D LG LD H0. unfold sort_cols.
  match goal with |- exists G' D', rfold _ ?f _ = _ /\ _ => destruct (@rfold_down (list real * list real) (fun i st => shp st /\ P st /\ srt i (snd st)) f n (G, D)) as ((G' & D') & E & (L1 & L2) & HPs & Hs) end.
  - split; [split; auto|]. split; auto. intros k l H1 H2. lia.
  - intros i st Hi (Hsh & HPs & Hs).
    match goal with |- exists s', rfold _ ?f _ = _ /\ _ => destruct (@rfold_inv0 (list real * list real) (fun j st => shp st /\ P st /\ srt (i + 1) (snd st) /\ forall k, (k <= j)%nat -> Rabs (ent (snd st) k) <= Rabs (ent (snd st) j)) f i st) as (st1 & E & Hsh1 & HP1 & Hs1 & Hm) end.
    + split; auto. split; auto. split; auto. intros k Hk. replace k with 0%nat by lia. lra.
    + intros j s Hj (Hsh1 & HP1 & Hs1 & Hm). destruct (sort_step_ok j s) as (s1 & E & Hsh2 & [(-> & Hle)|(Hlt & HD & HG)]); auto; [lia| |].
      * exists s. split; auto. split; auto. split; auto. split; auto. intros k Hk. destruct (Nat.eq_dec k (j + 1)) as [->|]; [lra|]. specialize (Hm k ltac:(lia)). lra.
      * exists s1. split; auto. split; auto. split; [apply (HP j s); auto; lia|]. split.
        -- intros k l H1 H2 H3. rewrite !HD by lia. replace (sw j l) with l by (unfold sw; deq; lia). apply Hs1; auto. unfold sw; deq; lia.
        -- intros k Hk. rewrite !HD by lia. replace (sw j (j + 1)) with j by (unfold sw; deq; lia). destruct (Nat.eq_dec k j) as [->|]; [unfold sw; rewrite Nat.eqb_refl; lra|]. apply Hm. unfold sw; deq; lia.
    + exists st1. split; auto. split; auto. split; auto. intros k l H1 H2 H3. destruct (Nat.eq_dec l i) as [->|]; [apply Hm; auto|apply Hs1; lia].
  - exists G', D'. split; auto.
Qed.
End Sort.

(** ** what is kept: an orthogonal matrix, the diagonal, the size of the rest *)
Definition dec (n : nat) (B : mtx) (b : real) (st : list real * list real) : Prop :=
  orth n (at2 (fst st) n) /\ (forall i, (i < n)%nat -> cj n (at2 (fst st) n) B i i = ent (snd st) i) /\ offd n (cj n (at2 (fst st) n) B) <= b.
Lemma orth_ext : forall n G G', eqm n n G G' -> orth n G -> orth n G'.
Proof. intros n G G' H (O1 & O2). split; intros r c Hr Hc; [rewrite <- (O1 r c Hr Hc)|rewrite <- (O2 r c Hr Hc)]; apply mm_ext; intros; unfold tr; symmetry; apply H; auto. Qed.
Lemma sort_dec : forall n L B b G D, (n * n <= L)%nat -> length G = L -> length D = n -> dec n B b (G, D) -> exists G' D', sort_cols n G D = Ok (G', D') /\ length G' = L /\ length D' = n /\ dec n B b (G', D') /\
  forall k l, (k <= l)%nat -> (l < n)%nat -> Rabs (ent D' k) <= Rabs (ent D' l).
Proof.
  intros n L B b G D HL LG LD H. destruct (sort_cols_ok n L HL (dec n B b)) with (G := G) (D := D) as (G' & D' & E & L1 & L2 & H1 & H2); auto.
  - intros j st st' Hj _ _ (HO & Hd & Hb) HD HG. assert (HC : eqm n n (cj n (at2 (fst st') n) B) (fun r c => cj n (at2 (fst st) n) B (sw j r) (sw j c))).
    { intros r c Hr Hc. rewrite <- swc_cj. apply cj_ext; auto. }
    split; [|split].
    + apply (orth_ext n (swc j (at2 (fst st) n))); [intros r c Hr Hc; symmetry; apply HG; auto|]. apply swc_orth; auto.
    + intros i Hi. rewrite HC, HD by auto. apply Hd. apply sw_lt; auto.
    + rewrite (offd_ext n _ _ HC), swc_offd by auto. auto.
  - exists G', D'. split; auto. split; auto. split; auto. split; auto. intros. apply H2; auto. lia.
Qed.

(** ** scaling *)
Lemma invsqrt_ok : forall n D, length D = n -> (forall i, (i < n)%nat -> 0 < ent D i) -> exists D', rfold (seq 0 n) (fun i D => d <~ og D i ;; x <~ rdiv 1 (sqrt d) ;; put D i x) D = Ok D' /\ length D' = n /\ forall i, (i < n)%nat -> ent D' i = / sqrt (ent D i).
Proof.
  intros n D LD Hp.
  match goal with |- exists D', rfold _ ?f _ = _ /\ _ => destruct (@rfold_inv0 (list real) (fun i E => length E = n /\ forall k, (k < n)%nat -> ent E k = if (k <? i)%nat then / sqrt (ent D k) else ent D k) f n D) as (D' & E & L & H) end.
  - split; auto.
  - intros i E Hi (LE & HE). rewrite og_ent by lia. cbn [rbind]. rewrite HE by auto. rewrite Nat.ltb_irrefl. unfold rdiv. destruct (Req_EM_T (sqrt (ent D i)) 0) as [Hz|_].
    { pose proof (sqrt_lt_R0 _ (Hp i Hi)). lra. }
    cbn [rbind]. rewrite put_ok by lia. eexists. split; [reflexivity|]. rewrite upd_length. split; auto. intros k Hk. rewrite ent_upd by lia. destruct (Nat.eqb_spec k i) as [->|].
    + destruct (Nat.ltb_spec i (i + 1)); [unfold Rdiv; ring|lia].
    + rewrite HE by auto. destruct (Nat.ltb_spec k i), (Nat.ltb_spec k (i + 1)); auto; lia.
  - exists D'. split; auto. split; auto. intros i Hi. rewrite H by auto. destruct (Nat.ltb_spec i n); [auto|lia].
Qed.
Lemma invsqrt_ub : forall n D i, length D = n -> (i < n)%nat -> ent D i <= 0 -> rfold (seq 0 n) (fun i D => d <~ og D i ;; x <~ rdiv 1 (sqrt d) ;; put D i x) D = UB.
Proof.
  intros n D i LD Hi Hneg. 
  assert (G : forall m a E, (a + m = n)%nat -> (a <= i)%nat -> length E = n -> (forall k, (a <= k)%nat -> ent E k = ent D k) -> rfold (seq a m) (fun i D => d <~ og D i ;; x <~ rdiv 1 (sqrt d) ;; put D i x) E = UB).
  { induction m as [|m IH]; intros a E Hm Ha LE HE; [lia|]. cbn [seq]. cbn [rfold].
    rewrite og_ent by lia. cbn [rbind]. unfold rdiv at 1. destruct (Req_EM_T (sqrt (ent E a)) 0) as [Hz|Hz].
    - reflexivity.
    - cbn [rbind]. rewrite put_ok by lia. cbn [rbind]. destruct (Nat.eq_dec a i) as [->|]; [exfalso; apply Hz; apply sqrt_neg_0; rewrite HE by lia; auto|].
      apply (IH (S a)); try lia; [rewrite upd_length; auto|]. intros k Hk. rewrite ent_upd by lia. destruct (Nat.eqb_spec k a); [lia|]. apply HE. lia. }
  apply (G n 0%nat D); auto. lia.
Qed.
Definition scl (G : mtx) (d : nat -> real) : mtx := fun r c => G r c * d c.
Lemma scale_ok : forall n G C D, length D = n -> length G = (n * n)%nat -> length C = (n * n)%nat -> exists G' C', rfold (seq 0 n) (fun i st => rfold (seq 0 n) (fun j (st : list real * list real) =>
          g <~ og (fst st) (i * n + j) ;; d <~ og D j ;; G <~ put (fst st) (i * n + j) (g * d) ;;
          g <~ og G (i * n + j) ;; C <~ put (snd st) (j * n + i) g ;; Ok (G, C)) st) (G, C) = Ok (G', C') /\
  length G' = (n * n)%nat /\ length C' = (n * n)%nat /\ eqm n n (at2 G' n) (scl (at2 G n) (ent D)) /\ eqm n n (at2 C' n) (tr (scl (at2 G n) (ent D))).
Proof.
  intros n G C D LD LG LC.
  match goal with |- exists G' C', rfold _ ?f _ = _ /\ _ => destruct (@rfold_inv0 (list real * list real) (fun i st => (length (fst st) = n * n)%nat /\ (length (snd st) = n * n)%nat /\
     (forall r c, (r < n)%nat -> (c < n)%nat -> at2 (fst st) n r c = if (r <? i)%nat then scl (at2 G n) (ent D) r c else at2 G n r c) /\
     (forall r c, (r < n)%nat -> (c < n)%nat -> (c < i)%nat -> at2 (snd st) n r c = scl (at2 G n) (ent D) c r)) f n (G, C)) as ((G' & C') & E & L1 & L2 & H1 & H2) end.
  - cbn. split; auto. split; auto. split; auto. intros; lia.
  - intros i st Hi (L1 & L2 & H1 & H2).
    match goal with |- exists s', rfold _ ?f _ = _ /\ _ => destruct (@rfold_inv0 (list real * list real) (fun j st => (length (fst st) = n * n)%nat /\ (length (snd st) = n * n)%nat /\
     (forall r c, (r < n)%nat -> (c < n)%nat -> at2 (fst st) n r c = if (r <? i)%nat || ((r =? i)%nat && (c <? j)%nat) then scl (at2 G n) (ent D) r c else at2 G n r c) /\
     (forall r c, (r < n)%nat -> (c < n)%nat -> (c < i)%nat \/ (c = i /\ (r < j)%nat) -> at2 (snd st) n r c = scl (at2 G n) (ent D) c r)) f n st) as (st1 & E & K1 & K2 & K3 & K4) end.
    + split; auto. split; auto. split.
      * intros r c Hr Hc. rewrite H1 by auto. change (c <? 0)%nat with false. rewrite andb_false_r, orb_false_r. reflexivity.
      * intros r c Hr Hc [?|(_ & ?)]; [apply H2; auto|lia].
    + intros j (g & cc) Hj (K1 & K2 & K3 & K4). cbn [fst snd] in *. rewrite og_ent by nia. cbn [rbind]. rewrite og_ent by lia. cbn [rbind]. rewrite put_ok by nia. cbn [rbind].
      rewrite og_ent by (rewrite upd_length; nia). cbn [rbind]. rewrite put_ok by nia. eexists. split; [reflexivity|]. cbn [fst snd]. rewrite !upd_length. split; auto. split; auto.
      assert (Hv : ent g (i * n + j) * ent D j = scl (at2 G n) (ent D) i j).
      { change (ent g (i * n + j)) with (at2 g n i j). rewrite K3 by auto. rewrite !Nat.ltb_irrefl, andb_false_r. reflexivity. }
      split.
      * intros r c Hr Hc. unfold at2 at 1. rewrite ent_upd by nia. fold (at2 g n r c). destruct (Nat.eqb_spec (r * n + c) (i * n + j)) as [Eq|Ne].
        -- apply rowcol in Eq; auto. destruct Eq as (-> & ->). rewrite Nat.eqb_refl. destruct (Nat.ltb_spec j (j + 1)); [|lia]. rewrite orb_true_r. auto.
        -- rewrite K3 by auto. destruct (Nat.ltb_spec r i); auto. destruct (Nat.eqb_spec r i) as [->|]; auto. cbn [orb andb]. destruct (Nat.ltb_spec c j), (Nat.ltb_spec c (j + 1)); auto; lia.
      * intros r c Hr Hc Hor. unfold at2 at 1. rewrite ent_upd by nia. fold (at2 cc n r c). rewrite ent_upd by nia. rewrite Nat.eqb_refl. destruct (Nat.eqb_spec (r * n + c) (j * n + i)) as [Eq|Ne].
        -- apply rowcol in Eq; auto. destruct Eq as (-> & ->). auto.
        -- apply K4; auto. destruct Hor as [|(-> & ?)]; auto. right. split; auto. destruct (Nat.eq_dec r j); [subst; congruence|lia].
    + exists st1. split; auto. split; auto. split; auto. split.
      * intros r c Hr Hc. rewrite K3 by auto. destruct (Nat.ltb_spec c n); [|lia]. rewrite andb_true_r. destruct (Nat.ltb_spec r i), (Nat.eqb_spec r i), (Nat.ltb_spec r (i + 1)); auto; lia.
      * intros r c Hr Hc Hi'. apply K4; auto. destruct (Nat.eq_dec c i); [right; auto|left; lia].
  - exists G', C'. split; auto. split; auto. split; auto. cbn [fst snd] in *. split; intros r c Hr Hc.
    + rewrite H1 by auto. destruct (Nat.ltb_spec r n); [auto|lia].
    + rewrite H2 by auto. reflexivity.
Qed.

(** ** the two congruences *)
Lemma cj_scl : forall n G d A r c, cj n (scl G d) A r c = d r * d c * cj n G A r c.
Proof.
  intros n G d A r c. unfold cj, mm, tr, scl. rewrite <- Sum_mul. apply Sum_ext. intros l _.
  rewrite (Sum_ext n (fun k => G k r * d r * A k l) (fun k => d r * (G k r * A k l))) by (intros; ring). rewrite Sum_mul. ring.
Qed.
Lemma cj_idm : forall n Q, orth n Q -> eqm n n (cj n Q idm) idm.
Proof. intros n Q (_ & O2) r c Hr Hc. unfold cj. rewrite <- (O2 r c Hr Hc). apply mm_ext; auto. intros l Hl. apply mm_id_r. auto. Qed.
Definition coer (n : nat) (B : mtx) (de : real) : Prop := forall x : nat -> real, de * Sum n (fun i => x i * x i) <= Sum n (fun i => Sum n (fun j => x i * B i j * x j)).
Lemma rayleigh : forall n G B de i, orth n G -> coer n B de -> (i < n)%nat -> de <= cj n G B i i.
Proof.
  intros n G B de i (_ & O2) HB Hi. specialize (HB (fun k => G k i)). cbv beta in HB.
  pose proof (O2 i i Hi Hi) as E. unfold mm, tr, idm in E. rewrite Nat.eqb_refl in E. rewrite E, Rmult_1_r in HB. eapply Rle_trans; [apply HB|]. right.
  unfold cj, mm, tr. rewrite Sum_swap. apply Sum_ext. intros j _. rewrite <- Sum_mulr. reflexivity.
Qed.
Lemma firstn_at2 : forall n (l : list real), (n * n <= length l)%nat -> eqm n n (at2 (firstn (n * n) l) n) (at2 l n).
Proof. intros n l HL r c Hr Hc. unfold at2, ent. rewrite <- (firstn_skipn (n * n) l) at 2. rewrite app_nth1; auto. rewrite firstn_length_le by lia. nia. Qed.
Lemma offd_scale : forall n de (K : mtx) (d : nat -> real), 0 < de -> (forall i, (i < n)%nat -> de <= K i i /\ d i = / sqrt (K i i)) ->
  F2 n (fun r c => d r * d c * K r c - idm r c) <= offd n K / (de * de).
Proof.
  intros n de K d Hde Hd. unfold offd, F2, Rdiv. rewrite <- Sum_mulr. apply Sum_le. intros r Hr. rewrite <- Sum_mulr. apply Sum_le. intros c Hc.
  destruct (Hd r Hr) as (K1 & D1), (Hd c Hc) as (K2 & D2). pose proof (sqrt_lt_R0 (K r r) ltac:(lra)) as S1. pose proof (sqrt_sqrt (K r r) ltac:(lra)) as S2.
  pose proof (sqrt_lt_R0 (K c c) ltac:(lra)) as S3. pose proof (sqrt_sqrt (K c c) ltac:(lra)) as S4. unfold idm. destruct (Nat.eqb_spec r c) as [<-|Hne].
  - assert (E : d r * d r * K r r - 1 = 0). { assert (E : / sqrt (K r r) * / sqrt (K r r) * (sqrt (K r r) * sqrt (K r r)) - 1 = 0) by (field; lra). rewrite S2 in E. rewrite D1. auto. } rewrite E. lra.
  - rewrite Rminus_0_r. assert (E : d r * d c * K r c * (d r * d c * K r c) = K r c * K r c * (/ (K r r) * / (K c c))).
    { assert (E : / (K r r) = / sqrt (K r r) * / sqrt (K r r)) by (rewrite <- Rinv_mult, S2; auto). assert (E' : / (K c c) = / sqrt (K c c) * / sqrt (K c c)) by (rewrite <- Rinv_mult, S4; auto).
      rewrite E, E', D1, D2. ring. }
    rewrite E. apply Rmult_le_compat_l; [nra|]. rewrite Rinv_mult. apply Rmult_le_compat; try (left; apply Rinv_0_lt_compat; lra); apply Rinv_le_contravar; lra.
Qed.
Lemma inv_space_ext : forall n A A' d, (d <= n)%nat -> eqm n n A A' -> inv_space n A d -> inv_space n A' d.
Proof. intros n A A' d Hd H (W & M & H1 & H2 & H3). exists W, M. split; auto. split; auto. intros r c Hr Hc. rewrite <- H3 by auto. apply mm_ext; auto. intros. symmetry. auto. Qed.
Definition invm (n : nat) (X Y : mtx) : Prop := eqm n n (mm n X Y) idm /\ eqm n n (mm n Y X) idm.
Lemma invm_orth : forall n Q, orth n Q -> invm n Q (tr Q).
Proof. intros n Q (O1 & O2). split; auto. Qed.
Lemma invm_ext : forall n X X' Y, eqm n n X X' -> invm n X Y -> invm n X' Y.
Proof. intros n X X' Y H (H1 & H2). split; intros i j Hi Hj; [rewrite <- (H1 i j Hi Hj)|rewrite <- (H2 i j Hi Hj)]; apply mm_ext; auto; intros; symmetry; auto. Qed.
Lemma invm_mm : forall n A B X Y, invm n A X -> invm n B Y -> invm n (mm n A B) (mm n Y X).
Proof.
  intros n A B X Y (A1 & A2) (B1 & B2). split; intros i j Hi Hj.
  - rewrite mm_assoc, (mm_ext n A A (mm n B (mm n Y X)) X); auto. intros l Hl. rewrite <- mm_assoc, (mm_ext n (mm n B Y) idm X X); auto. apply mm_id_l. auto.
  - rewrite mm_assoc, (mm_ext n Y Y (mm n X (mm n A B)) B); auto. intros l Hl. rewrite <- mm_assoc, (mm_ext n (mm n X A) idm B B); auto. apply mm_id_l. auto.
Qed.
Lemma invm_scl : forall n G Y d, invm n G Y -> (forall i, (i < n)%nat -> d i <> 0) -> invm n (scl G d) (fun r c => / d r * Y r c).
Proof.
  intros n G Y d (G1 & G2) Hd. split; intros i j Hi Hj.
  - rewrite <- (G1 i j Hi Hj). apply Sum_ext. intros l Hl. unfold scl. field. auto.
  - transitivity (/ d i * d j * mm n Y G i j). { unfold mm. rewrite <- Sum_mul. apply Sum_ext. intros. unfold scl. ring. }
    rewrite (G2 i j Hi Hj). unfold idm. destruct (Nat.eqb_spec i j) as [->|]; [field; auto|ring].
Qed.
Lemma simdiag_ok : forall tol junk A B n de, 0 < tol -> 0 < de -> (2 <= n)%nat -> fits n -> (n * n <= length A)%nat -> (n * n <= length B)%nat -> symm n (at2 A n) -> symm n (at2 B n) -> coer n (at2 B n) de ->
  (simdiag tol junk A B n = UB /\ exists d, (1 <= d)%nat /\ (d <= n - 2)%nat /\ (inv_space n (at2 B n) d \/ exists G, inv_space n (cj n G (at2 A n)) d /\ (forall i, (i < n)%nat -> cj n G (at2 B n) i i = 1))) \/
  simdiag tol junk A B n = Err ERR_MINOR \/
  exists X lam, simdiag tol junk A B n = Ok (X, lam) /\ length X = (n * n)%nat /\ length lam = n /\
    (forall i, (i < n)%nat -> cj n (at2 X n) (at2 A n) i i = ent lam i) /\ offd n (cj n (at2 X n) (at2 A n)) <= schur_bound tol n /\
    F2 n (fun r c => cj n (at2 X n) (at2 B n) r c - idm r c) <= schur_bound tol n / (de * de) /\
    (forall k l, (k <= l)%nat -> (l < n)%nat -> Rabs (ent lam k) <= Rabs (ent lam l)) /\ exists Y, invm n (at2 X n) Y.
Proof.
  intros tol junk A B n de Htol Hde Hn Hf LA LB HA HB Hc. unfold simdiag. destruct (Nat.leb_spec (n * n) (length B)); [|lia]. cbn [negb].
  assert (HB0 : eqm n n (at2 (firstn (n * n) B) n) (at2 B n)) by (apply firstn_at2; auto). assert (LB0 : length (firstn (n * n) B) = (n * n)%nat) by (apply firstn_length_le; auto).
  set (B0 := firstn (n * n) B) in *.
  destruct (schur_ok tol junk B0 n Htol Hn Hf ltac:(lia)) as [(E & d & D1 & D2 & HI)|[E|(G & D & E & LG & LD & HO & Hd & Hb & _)]].
  { intros i j Hi Hj. rewrite !HB0 by auto. apply HB; auto. }
  { left. rewrite E. split; auto. exists d. split; auto. split; auto. left. apply (inv_space_ext n (at2 B0 n)); auto; lia. }
  { right. left. rewrite E. auto. }
  rewrite E. cbn [rbind fst snd].
  assert (H0 : dec n (at2 B n) (schur_bound tol n) (G, D)).
  { assert (HC : eqm n n (cj n (at2 G n) (at2 B0 n)) (cj n (at2 G n) (at2 B n))) by (intros r c Hr Hcc; apply cj_ext; auto).
    split; [auto|]. cbn [fst snd]. split; [intros i Hi; rewrite <- HC by auto; auto|]. rewrite <- (offd_ext n _ _ HC). auto. }
  destruct (sort_dec n (n * n) _ _ G D (le_n _) ltac:(lia) LD H0) as (G1 & D1 & E1 & LG1 & LD1 & (O1 & Hd1 & Hb1) & _). rewrite E1. cbn [rbind]. cbn [fst snd] in *.
  assert (Hp : forall i, (i < n)%nat -> de <= ent D1 i). { intros i Hi. rewrite <- Hd1 by auto. apply rayleigh; auto. }
  destruct (invsqrt_ok n D1 LD1) as (D2 & E2 & LD2 & HD2). { intros i Hi. specialize (Hp i Hi). lra. }
  rewrite E2. cbn [rbind].
  destruct (scale_ok n G1 (repeat 0 (n * n)) D2 LD2 LG1 ltac:(apply repeat_length)) as (G2 & C1 & E3 & LG2 & LC1 & HG2 & HC1). rewrite E3. cbn [rbind].
  destruct (matmul_real C1 A n n n ltac:(lia) ltac:(lia)) as (X & E4 & LX & HX). rewrite E4. cbn [rbind]. change (@length real X = (n * n)%nat) in LX.
  destruct (matmul_real X G2 n n n ltac:(lia) ltac:(lia)) as (C2 & E5 & LC2 & HC2). rewrite E5. cbn [rbind]. change (@length real C2 = (n * n)%nat) in LC2.
  set (S := scl (at2 G1 n) (ent D2)) in *.
  assert (HC : eqm n n (at2 C2 n) (cj n S (at2 A n))).
  { intros r c Hr Hcc. rewrite HC2 by auto. apply mm_ext; intros l Hl; [|apply HG2; auto]. rewrite HX by auto. apply mm_ext; intros; auto. }
  assert (HB1 : forall r c, cj n S (at2 B n) r c = ent D2 r * ent D2 c * cj n (at2 G1 n) (at2 B n) r c) by (intros; apply cj_scl).
  destruct (schur_ok tol junk C2 n Htol Hn Hf ltac:(lia)) as [(E' & d & K1 & K2 & HI)|[E'|(Q & lam & E' & LQ & Ll & HOq & Hdq & Hbq & _)]].
  { intros i j Hi Hj. rewrite !HC by auto. apply cj_symm; auto. }
  { left. rewrite E'. split; auto. exists d. split; auto. split; auto. right. exists S. split; [apply (inv_space_ext n (at2 C2 n)); auto; lia|]. intros i Hi. rewrite HB1, HD2, Hd1 by auto. specialize (Hp i Hi).
    pose proof (sqrt_lt_R0 (ent D1 i) ltac:(lra)) as S1. pose proof (sqrt_sqrt (ent D1 i) ltac:(lra)) as S2. assert (E8 : / sqrt (ent D1 i) * / sqrt (ent D1 i) * (sqrt (ent D1 i) * sqrt (ent D1 i)) = 1) by (field; lra). rewrite S2 in E8. auto. }
  { right. left. rewrite E'. auto. }
  rewrite E'. cbn [rbind fst snd].
  assert (H1 : dec n (cj n S (at2 A n)) (schur_bound tol n) (Q, lam)).
  { assert (HC' : eqm n n (cj n (at2 Q n) (at2 C2 n)) (cj n (at2 Q n) (cj n S (at2 A n)))) by (intros r c Hr Hcc; apply cj_ext; auto).
    split; [auto|]. cbn [fst snd]. split; [intros i Hi; rewrite <- HC' by auto; auto|]. rewrite <- (offd_ext n _ _ HC'). auto. }
  destruct (sort_dec n (n * n) _ _ Q lam (le_n _) ltac:(lia) Ll H1) as (Q1 & lam1 & E6 & LQ1 & Ll1 & (Oq1 & Hdq1 & Hbq1) & Hs). rewrite E6. cbn [rbind fst snd]. cbn [fst snd] in *.
  destruct (matmul_real G2 Q1 n n n ltac:(lia) ltac:(lia)) as (X1 & E7 & LX1 & HX1). rewrite E7. cbn [rbind]. change (@length real X1 = (n * n)%nat) in LX1.
  assert (HX2 : forall M, eqm n n (cj n (at2 X1 n) M) (cj n (at2 Q1 n) (cj n S M))).
  { intros M r c Hr Hcc. rewrite <- cj_mm. apply cj_ext; auto. intros a b Ha Hb'. rewrite HX1 by auto. apply mm_ext; auto. }
  right. right. exists X1, lam1. split; auto. split; auto. split; auto. split; [|split; [|split; [|split]]]; auto.
  4: { eexists. apply (invm_ext n (mm n S (at2 Q1 n))).
    - intros r c Hr Hcc. rewrite HX1 by auto. apply mm_ext; auto. intros l Hl. symmetry. auto.
    - apply invm_mm; [apply invm_scl; [apply invm_orth; auto|]|apply invm_orth; auto]. intros i Hi. rewrite HD2 by auto. specialize (Hp i Hi). pose proof (sqrt_lt_R0 (ent D1 i) ltac:(lra)). apply Rinv_neq_0_compat. lra. }
  - intros i Hi. rewrite HX2 by auto. auto.
  - rewrite (offd_ext n _ _ (HX2 (at2 A n))). auto.
  - set (W := fun r c => ent D2 r * ent D2 c * cj n (at2 G1 n) (at2 B n) r c - idm r c).
    rewrite (F2_ext n _ (cj n (at2 Q1 n) W)).
    + rewrite F2_cj by auto. eapply Rle_trans; [apply (offd_scale n de); auto|].
      * intros i Hi. rewrite Hd1 by auto. split; auto.
      * apply Rmult_le_compat_r; auto. left. apply Rinv_0_lt_compat. nra.
    + intros r c Hr Hcc. rewrite HX2 by auto. rewrite <- (cj_idm n (at2 Q1 n) Oq1 r c Hr Hcc).
      assert (E8 : cj n (at2 Q1 n) (cj n S (at2 B n)) r c = cj n (at2 Q1 n) W r c + cj n (at2 Q1 n) idm r c); [|lra].
      rewrite <- cj_add. apply cj_ext; auto. intros a b Ha Hb'. rewrite HB1. unfold W. ring.
Qed.
