(** * C18: dense linear algebra helpers compute what they document (exact real arithmetic) *)
From Coq Require Import List ZArith Lia Bool Arith Reals Lra Psatz.
From Verif Require Import Prelude RstrModel TensorModel BasisModel BasisProofs BasisProps OpModel OpLists DenseModel DenseProofs PointsModel PointsProofs QrModel RealLin QrProofs QrFact QrPinv QrCheb.
Import ListNotations.
Local Open Scope nat_scope.

(** the product, over any ring *)
Theorem C18_matmul : forall (R : Rng) (A B : list R) m n k, m * k <= length A -> k * n <= length B ->
  exists C, matmul A B m n k = Ok C /\ length C = m * n /\
    forall i j, i < m -> j < n -> vf C (i * n + j) = sumn k (fun l => (vf A (i * k + l)%nat * vf B (l * n + j)%nat)%R).
Proof. intros R A B m n k HA HB. destruct (matmul_ok R A B m n k HA HB) as (C & E & L & G). exists C. split; auto. split; auto. intros. apply G; auto. Qed.
Print Assumptions C18_matmul.

Local Open Scope R_scope.
(** R: the stored array without the part below the diagonal *)
Definition upper_of (M : list real) (n : nat) : mtx := fun r c => if (c <? r)%nat then 0 else at2 M n r c.
(** [X] read with strides [row], [col] from an array; different entries at different places inside the array *)
Definition strided (X : list real) (m n row col : nat) : Prop :=
  (forall r j, (r < m)%nat -> (j < n)%nat -> (r * row + j * col < length X)%nat) /\
  (forall r j r' j', (r < m)%nat -> (j < n)%nat -> (r' < m)%nat -> (j' < n)%nat -> (r * row + j * col = r' * row + j' * col)%nat -> r = r' /\ j = j').
Definition strd (X : list real) (row col : nat) : mtx := fun r j => ent X (r * row + j * col).

(** CeedHouseholderApplyQ with the given arrays multiplies by [Q] (or its transpose) and touches nothing else *)
Definition applies (Qa tau : list real) (m k : nat) (Q : mtx) : Prop :=
  forall junk X n row col tm, strided X m n row col ->
  exists X', apply_q junk X Qa tau tm m n k row col = Ok X' /\ length X' = length X /\
    eqm m n (strd X' row col) (mm m (match tm with NoTranspose => Q | Transpose => tr Q end) (strd X row col)) /\
    forall p, (forall r j, (r < m)%nat -> (j < n)%nat -> p <> (r * row + j * col)%nat) -> ent X' p = ent X p.

Theorem C18_qr : forall junk (A tau : list real) m n, (n <= m)%nat -> (m * n <= length A)%nat -> (n <= length tau)%nat ->
  indep m (Nat.min n (m - 1)) (at2 A n) ->
  exists M tau', qr junk A tau m n = Ok (M, tau') /\ length M = length A /\ length tau' = length tau /\
    exists Q, orth m Q /\ eqm m n (at2 A n) (mm m Q (upper_of M n)) /\ applies M tau' m n Q.
Proof.
  intros junk A tau m n Hnm HA Ht Hind. destruct (qr_ok A tau m n Hnm HA Ht junk Hind) as (M & tau' & E & HI). destruct HI as (HL & HLt & Hg & Hq & _).
  exists M, tau'. split; auto. split; auto. split; auto. exists (qmat M tau' m n). split; [apply qm_orth; auto|]. split.
  - intros r c Hr Hc. rewrite <- Hq by auto. apply mm_ext; auto. intros l Hl. unfold cur, upper_of. destruct (Nat.ltb_spec c n); [reflexivity|lia].
  - intros jk X n' row col tm (S1 & S2). destruct (apply_q_ok jk X M tau' m n' n row col S1 S2 Hnm ltac:(lia) ltac:(lia) tm) as (X' & E' & L' & G1 & G2).
    exists X'. split; [exact E'|]. split; [exact L'|]. split; [|exact G2]. intros r j Hr Hj. unfold strd at 1. rewrite G1 by auto. destruct tm; reflexivity.
Qed.
(** it is exactly independence of those columns that is needed; otherwise (finding) 0/0 occurs *)
Theorem C18_qr_iff : forall junk (A tau : list real) m n, (n <= m)%nat -> (m * n <= length A)%nat -> (n <= length tau)%nat ->
  (indep m (Nat.min n (m - 1)) (at2 A n) <-> exists r, qr junk A tau m n = Ok r) /\
  (~ indep m (Nat.min n (m - 1)) (at2 A n) <-> qr junk A tau m n = UB).
Proof.
  intros junk A tau m n Hnm HA Ht.
  assert (H : (exists r, qr junk A tau m n = Ok r) -> indep m (Nat.min n (m - 1)) (at2 A n)).
  { intros (r & E). destruct (qr_or A tau m n Hnm HA Ht junk) as [E'|(M & tau' & E' & HI)]; [congruence|]. apply (Inv_indep A tau m n Hnm HA Ht M tau'); auto; [lia|]. intros c Hc. apply HI; lia. }
  split; split; auto.
  - intros Hi. destruct (qr_ok A tau m n Hnm HA Ht junk Hi) as (M & tau' & E & _). eauto.
  - intros Hni. destruct (qr_or A tau m n Hnm HA Ht junk) as [E'|(M & tau' & E' & HI)]; auto. exfalso. apply Hni, H. eauto.
  - intros E Hi. destruct (qr_ok A tau m n Hnm HA Ht junk Hi) as (M & tau' & E' & _). congruence.
Qed.
Theorem C18_qr_unsupported : forall junk (A tau out : list real) m n, (m < n)%nat ->
  qr junk A tau m n = Err ERR_UNSUPPORTED /\ ((m * n <= length A)%nat -> pinv junk A m n out = Err ERR_UNSUPPORTED).
Proof.
  intros junk A tau out m n H. assert (G : forall A tau, qr junk A tau m n = Err ERR_UNSUPPORTED) by (intros; unfold qr; destruct (Nat.leb_spec n m); [lia|reflexivity]).
  split; [apply G|]. intros HA. unfold pinv. destruct (Nat.leb_spec (m * n) (length A)); [|lia]. cbn [negb]. rewrite G. reflexivity.
Qed.

(** CeedHouseholderApplyQ with and without transpose undo each other, for every array that holds reflectors
    (vector and scaling with tau |v|^2 = 2, or tau = 0), in particular for a factorization. *)
Theorem C18_apply_undo : forall junk junk' (X Qa tau : list real) m n k row col tm tm', strided X m n row col -> (k <= m)%nat -> (m * k <= length Qa)%nat -> (k <= length tau)%nat ->
  (forall c, (c < k)%nat -> ent tau c = 0 \/ ent tau c * (1 + Sum (m - (c + 1)) (fun l => at2 Qa k (c + 1 + l)%nat c * at2 Qa k (c + 1 + l)%nat c)) = 2) ->
  tm <> tm' -> exists X', apply_q junk X Qa tau tm m n k row col = Ok X' /\ apply_q junk' X' Qa tau tm' m n k row col = Ok X.
Proof.
  intros junk junk' X Qa tau m n k row col tm tm' (S1 & S2) Hk HQ Ht Hg Htm.
  assert (Hort : orth m (qmat Qa tau m k)).
  { apply qm_orth. intros c Hc. destruct (Hg c Hc) as [H|H]; [left; auto|right]. rewrite (Sum_from m _ c); [|lia|intros l Hl; unfold qv; destruct (Nat.ltb_spec l c); [ring|lia]].
    rewrite <- H. f_equal. f_equal. { unfold qv. rewrite Nat.ltb_irrefl, Nat.eqb_refl. ring. } apply Sum_ext. intros l Hl. unfold qv. destruct (Nat.ltb_spec (c + 1 + l) c); [lia|]. destruct (Nat.eqb_spec (c + 1 + l) c); [lia|]. reflexivity. }
  destruct (apply_q_ok junk X Qa tau m n k row col S1 S2 Hk HQ Ht tm) as (X1 & E1 & L1 & G1 & N1).
  exists X1. split; auto.
  destruct (apply_q_ok junk' X1 Qa tau m n k row col) with (tm := tm') as (X2 & E2 & L2 & G2 & N2); auto. { intros. rewrite L1. apply S1; auto. }
  rewrite E2. f_equal. apply (nth_ext _ _ 0 0); [congruence|]. intros p Hp. fold (ent X2 p). fold (ent X p).
  assert (Hin : forall r j, (r < m)%nat -> (j < n)%nat -> ent X2 (r * row + j * col) = ent X (r * row + j * col)).
  { intros r j Hr Hj. rewrite G2 by auto. rewrite (mm_ext m _ (tmul tm' (qmat Qa tau m k)) _ (mm m (tmul tm (qmat Qa tau m k)) (strd X row col))); auto.
    rewrite <- mm_assoc. rewrite (mm_ext m _ idm _ (strd X row col)); [apply mm_id_l; auto| |auto]. intros l Hl. destruct Hort as (O1 & O2). destruct tm, tm'; try congruence; [apply O2|apply O1]; auto. }
  assert (Hdec : (exists r j, (r < m)%nat /\ (j < n)%nat /\ p = (r * row + j * col)%nat) \/ (forall r j, (r < m)%nat -> (j < n)%nat -> p <> (r * row + j * col)%nat)).
  { pose (l := list_prod (seq 0 m) (seq 0 n)). destruct (in_dec Nat.eq_dec p (map (fun rj => (fst rj * row + snd rj * col)%nat) l)) as [Hi|Hni].
    - apply in_map_iff in Hi. destruct Hi as ((r, j) & <- & Hi). apply in_prod_iff in Hi. rewrite !in_seq in Hi. left. exists r, j. cbn. lia.
    - right. intros r j Hr Hj ->. apply Hni. apply in_map_iff. exists (r, j). split; auto. apply in_prod_iff. rewrite !in_seq. lia. }
  destruct Hdec as [(r & j & Hr & Hj & ->)|Hno]; auto. rewrite N2, N1 by auto. reflexivity.
Qed.

(** the pseudoinverse: left inverse, and A P symmetric (so P is the Moore-Penrose inverse); for square matrices the inverse *)
Theorem C18_pinv : forall junk (A out : list real) m n, (0 < n)%nat -> (n <= m)%nat -> (m * n <= length A)%nat -> (n * m <= length out)%nat -> indep m n (at2 A n) ->
  exists P, pinv junk A m n out = Ok P /\ length P = length out /\
    eqm n n (mm m (at2 P m) (at2 A n)) idm /\
    (forall i j, (i < m)%nat -> (j < m)%nat -> mm n (at2 A n) (at2 P m) i j = mm n (at2 A n) (at2 P m) j i) /\
    (m = n -> eqm m m (mm n (at2 A n) (at2 P m)) idm) /\
    (forall p, (n * m <= p)%nat -> ent P p = ent out p).
Proof.
  intros junk A out m n Hn Hnm HA Ho Hind. destruct (pinv_ok junk A m n out Hn Hnm HA Ho Hind) as (P & E & L & G & (Q & (O1 & _) & HQ) & HB).
  exists P. split; auto. split; auto. split; auto. split; [|split; auto].
  - intros i j Hi Hj. rewrite !HQ by auto. apply Sum_ext. intros. unfold tr. ring.
  - intros ->. intros i j Hi Hj. rewrite HQ by auto. apply O1; auto.
Qed.
(** and only for full column rank *)
Theorem C18_pinv_iff : forall junk (A out : list real) m n, (0 < n)%nat -> (n <= m)%nat -> (m * n <= length A)%nat -> (n * m <= length out)%nat ->
  (indep m n (at2 A n) <-> exists P, pinv junk A m n out = Ok P).
Proof.
  intros junk A out m n Hn Hnm HA Ho. split.
  - intros Hi. destruct (pinv_ok junk A m n out Hn Hnm HA Ho Hi) as (P & E & _). eauto.
  - intros (P & E). unfold pinv in E. destruct (Nat.leb_spec (m * n) (length A)); [|lia]. cbn [negb] in E.
    assert (HLA : length (firstn (m * n) A) = (m * n)%nat) by (rewrite firstn_length; lia).
    apply (indep_ext m n (at2 (firstn (m * n) A) n)). { intros r c Hr Hc. apply at2_firstn; auto. }
    assert (Ht : (n <= length (repeat 0%Re m))%nat) by (rewrite repeat_length; lia).
    destruct (qr_or (firstn (m * n) A) (repeat 0 m) m n Hnm ltac:(lia) Ht junk) as [E'|(M & tau & E' & HI)]; rewrite E' in E; cbn [rbind] in E; [discriminate|].
    assert (HLM : length M = (m * n)%nat) by (destruct HI as (HL & _); lia).
    apply (Inv_indep (firstn (m * n) A) (repeat 0 m) m n Hnm ltac:(lia) Ht M tau n HI ltac:(lia)). intros c Hc.
    destruct (Nat.lt_ge_cases c (m - 1)) as [Hlt|Hge]; [apply HI; auto|].
    destruct (rfold (seq 0 m) _ (repeat 0 (m * m))) as [I0| |] eqn:E0; cbn [rbind] in E; try discriminate.
    destruct (apply_q junk I0 M tau Transpose m m n m 1) as [I1| |] eqn:E1; cbn [rbind] in E; try discriminate.
    destruct m as [|m']; [lia|]. cbn [seq rfold] in E. destruct (Nat.eqb_spec n 0); [lia|].
    destruct (og I1 _) as [a| |] eqn:Ea; cbn [rbind] in E; try discriminate. rewrite og_ent in E by nia. cbn [rbind] in E.
    replace (n * n - 1)%nat with (c * n + c)%nat in E by nia. unfold rdiv in E at 1. unfold at2. destruct (Req_EM_T (ent M (c * n + c)) 0); [discriminate|auto].
Qed.
(** finding: a matrix of rank zero, a very ordinary argument for a factorization, gives NaN *)
Theorem C18_zero_refuted : exists A tau m n, (0 < n)%nat /\ (n <= m)%nat /\ length A = (m * n)%nat /\ length tau = n /\ (forall junk, qr junk A tau m n = UB) /\
  exists Q M, orth m Q /\ eqm m n (at2 A n) (mm m Q (upper_of M n)).
Proof.
  exists [0; 0], [0], 2%nat, 1%nat. split; [lia|]. split; [lia|]. split; auto. split; auto. split.
  - intros junk. apply (C18_qr_iff junk [0; 0] [0] 2 1); cbn; try lia. intros H. specialize (H (fun _ => 1)). cbv beta in H.
    assert (1 = 0); [|lra]. apply (H) with (j := 0%nat); [|lia]. intros r Hr. cbn [Sum]. destruct r as [|[|r]]; [unfold at2, ent; cbn; lra|unfold at2, ent; cbn; lra|lia].
  - exists idm, [0; 0]. split; [apply orth_id|]. intros r c Hr Hc. rewrite mm_id_l by auto. unfold upper_of. destruct (Nat.ltb_spec c r); auto. unfold at2, ent. assert (c = 0)%nat by lia. subst. destruct r as [|[|r]]; cbn; auto; lia.
Qed.
Print Assumptions C18_qr. Print Assumptions C18_qr_iff. Print Assumptions C18_qr_unsupported. Print Assumptions C18_apply_undo. Print Assumptions C18_pinv. Print Assumptions C18_pinv_iff. Print Assumptions C18_zero_refuted.

(** ** Uses *)
(** CeedBasisGetCollocatedGrad: the gradient factors through interpolation *)
Theorem C18_collo_grad : forall junk P Q (interp grad : list real), (0 < P)%nat -> (P <= Q)%nat -> (Q * P <= length interp)%nat -> (Q * P <= length grad)%nat -> indep Q P (at2 interp P) ->
  exists cg, collo_grad junk P Q interp grad = Ok cg /\ length cg = (Q * Q)%nat /\ eqm Q P (mm Q (at2 cg Q) (at2 interp P)) (at2 grad P).
Proof. exact collo_grad_ok. Qed.
(** CeedBasisGetChebyshevInterp1D: the coefficients interpolate the basis functions at the quadrature points *)
Theorem C18_cheb_interp : forall junk P Q (interp qref : list real), (0 < P)%nat -> (2 <= Q)%nat -> (Q * P <= length interp)%nat -> (Q <= length qref)%nat ->
  (forall i j, (i < Q)%nat -> (j < Q)%nat -> ent qref i = ent qref j -> i = j) ->
  exists ci, cheb_interp junk P Q interp qref = Ok ci /\ length ci = (Q * P)%nat /\
  eqm Q P (mm Q (fun q a => @peval Rrng (@cheb Rrng a) (ent qref q)) (at2 ci P)) (at2 interp P).
Proof. exact cheb_interp_ok. Qed.
(** with this gradient CeedBasisCreateTensorH1 leaves a consistent basis (the hypothesis of C14_created) *)
Definition cgf_of (junk : nat -> real) (P Q : nat) (interp grad : list Rrng) : list Rrng := match collo_grad junk P Q interp grad with Ok l => l | _ => [] end.
Theorem C18_created : forall junk near Jmin dim nc P Q (interp grad w : list Rrng) t,
  tensor_create near (cgf_of junk) dim nc P Q interp grad w = Ok t ->
  length interp = (P * Q)%nat -> length grad = (P * Q)%nat -> length w = Q -> (Jmin <= P)%nat -> (Jmin <= Q)%nat ->
  (forall x, In x interp -> (near x 0%R = true -> x = 0%R) /\ (near x 1%R = true -> x = 1%R)) ->
  indep Q P (at2 interp P) ->
  @b_wf Rrng Jmin (BT t).
Proof.
  intros junk near Jmin dim nc P Q interp grad w t E Li Lg Lw HP HQ Hn Hind. apply (@C14_created Rrng near (cgf_of junk) Jmin dim nc P Q interp grad w t); auto.
  intros HPQ. assert (P0 : (0 < P)%nat). { unfold tensor_create in E. destruct (Nat.eqb_spec dim 0); [discriminate|]. destruct (Nat.eqb_spec nc 0); [discriminate|]. destruct (Nat.eqb_spec P 0); [discriminate|]. lia. }
  cbn [car Rrng] in *. destruct (collo_grad_ok junk P Q interp grad P0 HPQ) as (cg & Ec & Lc & Gc); auto; [change (car Rrng) with real in *; lia|change (car Rrng) with real in *; lia|].
  unfold cgf_of. rewrite Ec. split; [change (car Rrng) with real; lia|]. intros q p Hq Hp. etransitivity; [apply (Sum_sumn Q)|]. exact (Gc q p Hq Hp).
Qed.
Print Assumptions C18_collo_grad. Print Assumptions C18_cheb_interp. Print Assumptions C18_created.

(** ** Examples *)
Example C18_ex_indep : indep 3 2 (at2 [1; 2; 3; 4; 5; 6] 2) /\ length [1; 2; 3; 4; 5; 6] = (3 * 2)%nat.
Proof.
  split; auto. intros c H. pose proof (H 0%nat ltac:(lia)) as H0. pose proof (H 1%nat ltac:(lia)) as H1. unfold at2, ent in H0, H1. cbn in H0, H1.
  intros [|[|j]] Hj; try lia; lra.
Qed.
Example C18_ex_created : forall junk, exists t, tensor_create (fun _ _ => false) (cgf_of junk) 2 1 2 3 ([1; 2; 3; 4; 5; 6] : list Rrng) [1; 0; 0; 1; 0; 0] [1; 1; 1] = Ok t.
Proof. intros. eexists. unfold tensor_create. cbn -[cgf_of]. reflexivity. Qed.
Example C18_ex_strided : strided [1; 2; 3; 4; 5; 6] 3 2 2 1 /\ strided [1; 2; 3; 4; 5; 6] 3 2 1 3.
Proof. split; split; cbn [length]; intros; nia. Qed.
Example C18_ex_reflector : forall c, (c < 1)%nat -> ent [2 / 5] c = 0 \/ ent [2 / 5] c * (1 + Sum (2 - (c + 1)) (fun l => at2 [7; 2] 1 (c + 1 + l)%nat c * at2 [7; 2] 1 (c + 1 + l)%nat c)) = 2.
Proof. intros c Hc. assert (c = 0)%nat by lia. subst. right. unfold at2, ent. cbn. field. Qed.
