(** * C48: the gallery QFunctions are the weak mass and Poisson operators *)
From Coq Require Import List ZArith Lia Bool Arith Reals Lra Psatz.
From Verif Require Import Prelude RstrModel BasisModel OpModel OpLists OptProofs QrModel RealLin QrProofs QrFact LagProofs GalModel.
Import ListNotations.
Local Open Scope nat_scope.
Local Open Scope R_scope.

(** ** Specification *)
(** the Jacobian at point [i]: entry (c, k) is the derivative of coordinate [c] in reference direction [k], the gradient
    layout of C14 *)
Definition jac (n Q : nat) (J : list real) (i : nat) : mtx := fun c k => ent J ((k * n + c) * Q + i)%nat.
Definition det1 (M : mtx) : real := M 0%nat 0%nat.
Definition det2 (M : mtx) : real := M 0%nat 0%nat * M 1%nat 1%nat - M 0%nat 1%nat * M 1%nat 0%nat.
(** Sarrus *)
Definition det3 (M : mtx) : real :=
  M 0%nat 0%nat * M 1%nat 1%nat * M 2%nat 2%nat + M 0%nat 1%nat * M 1%nat 2%nat * M 2%nat 0%nat + M 0%nat 2%nat * M 1%nat 0%nat * M 2%nat 1%nat
  - M 0%nat 2%nat * M 1%nat 1%nat * M 2%nat 0%nat - M 0%nat 1%nat * M 1%nat 0%nat * M 2%nat 2%nat - M 0%nat 0%nat * M 1%nat 2%nat * M 2%nat 1%nat.
(** [X] is dX/dx: the inverse of the Jacobian *)
Definition inverse (n : nat) (X M : mtx) : Prop := eqm n n (mm n X M) idm.
(** the flux of the weak Laplacian in reference coordinates: w det(J) dX/dx dX/dx^T grad u *)
Definition flux (n : nat) (a : real) (X : mtx) (g : nat -> real) (j : nat) : real := a * Sum n (fun l => Sum n (fun d => X j d * X l d) * g l).

(** ** Loops over points *)
(** [o'] is [o] with entries k * Q + i (k < N) set to [val k] *)
Definition sets (N Q i : nat) (val : nat -> real) (o o' : list real) : Prop :=
  length o' = length o /\ (forall k, (k < N)%nat -> ent o' (k * Q + i) = val k) /\ (forall p, (forall k, (k < N)%nat -> p <> (k * Q + i)%nat) -> ent o' p = ent o p).

Lemma sets_nil : forall Q i val o, sets 0 Q i val o o.
Proof. intros. split; auto. split; auto. intros; lia. Qed.
Lemma sets_put : forall N Q i val o o' x, sets N Q i val o o' -> (i < Q)%nat -> ((S N) * Q <= length o)%nat -> x = val N ->
  exists o'', put o' (N * Q + i) x = Ok o'' /\ sets (S N) Q i val o o''.
Proof.
  intros N Q i val o o' x (L & H1 & H2) Hi HL ->. rewrite put_ok by nia. eexists. split; [reflexivity|]. split; [rewrite upd_length; auto|]. split.
  - intros k Hk. rewrite ent_upd by nia. destruct (Nat.eqb_spec (k * Q + i) (N * Q + i)) as [E|E].
    + assert (k = N) as -> by nia. auto.
    + apply H1. assert (k <> N) by (intros ->; auto). lia.
  - intros p Hp. rewrite ent_upd by nia. destruct (Nat.eqb_spec p (N * Q + i)) as [->|_]. + exfalso. apply (Hp N); auto. + apply H2. intros k Hk. apply Hp. lia.
Qed.

(** the pattern of all loops: every point writes its own entries *)
Definition filled (N Q : nat) (val : nat -> nat -> real) (o o' : list real) : Prop :=
  length o' = length o /\ (forall k i, (k < N)%nat -> (i < Q)%nat -> ent o' (k * Q + i) = val i k) /\ (forall p, (N * Q <= p)%nat -> ent o' p = ent o p).
Lemma points_ok : forall N Q (f : nat -> list real -> res (list real)) val o, (N * Q <= length o)%nat ->
  (forall i o1, (i < Q)%nat -> length o1 = length o -> exists o2, f i o1 = Ok o2 /\ sets N Q i (val i) o1 o2) ->
  exists o', rfold (seq 0 Q) f o = Ok o' /\ filled N Q val o o'.
Proof.
  intros N Q f val o HL Hf.
  destruct (@rfold_inv0 (list real) (fun n o' => length o' = length o /\ (forall k i, (k < N)%nat -> (i < n)%nat -> ent o' (k * Q + i) = val i k) /\ (forall p, (N * Q <= p)%nat -> ent o' p = ent o p)) f Q o) as (o' & E & H).
  - split; auto. split; auto. intros; lia.
  - intros n o1 Hn (L & H1 & H2). destruct (Hf n o1 Hn L) as (o2 & E & L2 & S1 & S2). exists o2. split; auto. split; [congruence|]. split.
    + intros k i Hk Hi. destruct (Nat.eq_dec i n) as [->|]; [auto|]. rewrite S2; [apply H1; auto; lia|]. intros k' Hk' Ek. apply rowcol in Ek; lia.
    + intros p Hp. rewrite S2; auto. intros k Hk ->. nia.
  - exists o'. split; auto.
Qed.

(** ** copy, scale, mass *)
Lemma ent3 : forall a n Q k c i, ((k * n + c) * Q + i < length a)%nat -> at3 a n Q k c i = Ok (ent a ((k * n + c) * Q + i)).
Proof. intros. unfold at3. apply og_ent. auto. Qed.
Lemma ent2 : forall a Q c i, (c * Q + i < length a)%nat -> at2q a Q c i = Ok (ent a (c * Q + i)).
Proof. intros. unfold at2q. apply og_ent. auto. Qed.

Lemma identity_ok : forall size Q input output, (Q * size <= length input)%nat -> (Q * size <= length output)%nat ->
  exists o, q_identity size Q input output = Ok o /\ length o = length output /\
    (forall p, (p < Q * size)%nat -> ent o p = ent input p) /\ (forall p, (Q * size <= p)%nat -> ent o p = ent output p).
Proof.
  intros size Q input output Hi Ho. unfold q_identity.
  destruct (points_ok 1 (Q * size) (fun i o => x <~ og input i ;; put o i x) (fun i _ => ent input i) output) as (o & E & L & H1 & H2); [lia| |].
  - intros i o1 Hi1 L. rewrite og_ent by lia. cbn [rbind]. destruct (sets_put 0 (Q * size) i (fun _ => ent input i) o1 o1 (ent input i)) as (o2 & E & S); auto; [apply sets_nil|lia|]. exists o2. split; auto.
  - exists o. split; auto. split; auto. split.
    + intros p Hp. apply (H1 0%nat p); lia.
    + intros p Hp. apply H2. lia.
Qed.
Lemma scale_ok : forall size Q input scale output, (Q * size <= length input)%nat -> (Q * size <= length scale)%nat -> (Q * size <= length output)%nat ->
  exists o, q_scale size Q input scale output = Ok o /\ length o = length output /\
    (forall p, (p < Q * size)%nat -> ent o p = ent input p * ent scale p) /\ (forall p, (Q * size <= p)%nat -> ent o p = ent output p).
Proof.
  intros size Q input scale output Hi Hs Ho. unfold q_scale.
  destruct (points_ok 1 (Q * size) (fun i o => x <~ og input i ;; s <~ og scale i ;; put o i (x * s)) (fun i _ => ent input i * ent scale i) output) as (o & E & L & H1 & H2); [lia| |].
  - intros i o1 Hi1 L. rewrite !og_ent by lia. cbn [rbind]. destruct (sets_put 0 (Q * size) i (fun _ => ent input i * ent scale i) o1 o1 (ent input i * ent scale i)) as (o2 & E & S); auto; [apply sets_nil|lia|]. exists o2. split; auto.
  - exists o. split; auto. split; auto. split.
    + intros p Hp. apply (H1 0%nat p); lia.
    + intros p Hp. apply H2. lia.
Qed.

(** reads of the entries at point [i] *)
Ltac rd := repeat (first [rewrite ent3 by (cbn; nia) | rewrite ent2 by (cbn; nia) | rewrite og_ent by nia]; cbn [rbind]).
Ltac one := match goal with |- exists o2, put ?o1 ?i ?x = Ok o2 /\ sets 1 ?Q ?i ?val ?o1 o2 => let o := fresh "o" in let E := fresh "E" in let S := fresh "S" in
  destruct (sets_put 0 Q i val o1 o1 x) as (o & E & S); [apply sets_nil|auto|lia| |exists o; split; [exact E|exact S]] end.

Definition mass_q (dim : nat) : nat -> list real -> list real -> list real -> res (list real) := match dim with 1 => q_mass1d | 2 => q_mass2d | _ => q_mass3d end%nat.
Definition detn (dim : nat) (M : mtx) : real := match dim with 1 => det1 M | 2 => det2 M | _ => det3 M end%nat.

Lemma mass_build : forall dim Q J w qd, (1 <= dim <= 3)%nat -> (dim * dim * Q <= length J)%nat -> (Q <= length w)%nat -> (Q <= length qd)%nat ->
  exists q, mass_q dim Q J w qd = Ok q /\ filled 1 Q (fun i _ => detn dim (jac dim Q J i) * ent w i) qd q.
Proof.
  intros dim Q J w qd Hd HJ Hw Hq. assert (dim = 1 \/ dim = 2 \/ dim = 3)%nat as [->|[->| ->]] by lia; cbn [mass_q detn].
  - apply points_ok; [lia|]. intros i o1 Hi L. rd. one. reflexivity.
  - apply points_ok; [lia|]. intros i o1 Hi L. rd. one. unfold det2, jac. ring.
  - apply points_ok; [lia|]. intros i o1 Hi L. rd. one. unfold det3, jac. ring.
Qed.
Lemma mass_ok : forall dim Q J w qd u v, (1 <= dim <= 3)%nat -> (dim * dim * Q <= length J)%nat -> (Q <= length w)%nat -> (Q <= length qd)%nat ->
  (Q <= length u)%nat -> (Q <= length v)%nat ->
  exists q v', mass_q dim Q J w qd = Ok q /\ q_mass_apply Q u q v = Ok v' /\ length v' = length v /\
    (forall i, (i < Q)%nat -> ent v' i = ent w i * detn dim (jac dim Q J i) * ent u i) /\ (forall p, (Q <= p)%nat -> ent v' p = ent v p).
Proof.
  intros dim Q J w qd u v Hd HJ Hw Hq Hu Hv. destruct (mass_build dim Q J w qd) as (q & E & Lq & G & _); auto. exists q.
  destruct (points_ok 1 Q (fun i o => x <~ og u i ;; y <~ og q i ;; put o i (x * y)) (fun i _ => ent w i * detn dim (jac dim Q J i) * ent u i) v) as (v' & E' & L & H1 & H2); [lia| |].
  - intros i o1 Hi L. rd. one. pose proof (G 0%nat i ltac:(lia) Hi) as X. cbn [Nat.mul Nat.add] in X. rewrite X. ring.
  - exists v'. split; auto. split; auto. split; auto. split. + intros i Hi. apply (H1 0%nat i); auto. + intros p Hp. apply H2. lia.
Qed.
Lemma mass3_ok : forall dim Q J w qd u v, (1 <= dim <= 3)%nat -> (dim * dim * Q <= length J)%nat -> (Q <= length w)%nat -> (Q <= length qd)%nat ->
  (3 * Q <= length u)%nat -> (3 * Q <= length v)%nat ->
  exists q v', mass_q dim Q J w qd = Ok q /\ q_vec3mass_apply Q u q v = Ok v' /\ length v' = length v /\
    (forall c i, (c < 3)%nat -> (i < Q)%nat -> ent v' (c * Q + i) = ent w i * detn dim (jac dim Q J i) * ent u (c * Q + i)) /\ (forall p, (3 * Q <= p)%nat -> ent v' p = ent v p).
Proof.
  intros dim Q J w qd u v Hd HJ Hw Hq Hu Hv. destruct (mass_build dim Q J w qd) as (q & E & Lq & G & _); auto. exists q.
  match goal with |- exists v', _ /\ q_vec3mass_apply _ _ _ _ = _ /\ _ => unfold q_vec3mass_apply end.
  match goal with |- exists v', _ /\ rfold _ ?f _ = _ /\ _ => destruct (points_ok 3 Q f (fun i c => ent w i * detn dim (jac dim Q J i) * ent u (c * Q + i)%nat) v) as (v' & E' & L & H1 & H2) end; [lia| |].
  - intros i o1 Hi L. 
    destruct (@rfold_inv0 (list real) (fun c o => sets c Q i (fun c => ent w i * detn dim (jac dim Q J i) * ent u (c * Q + i)%nat) o1 o) (fun c o => x <~ at2q u Q c i ;; y <~ og q i ;; put2q o Q c i (x * y)) 3 o1) as (o2 & E2 & S2).
    + apply sets_nil.
    + intros c o Hc S. rd. pose proof (G 0%nat i ltac:(lia) Hi) as X. cbn [Nat.mul Nat.add] in X. rewrite Nat.add_1_r. apply sets_put; auto; [nia|]. rewrite X. ring.
    + exists o2. split; auto.
  - exists v'. split; auto.
Qed.

(** ** Poisson *)
(** the adjugate is det(M) times any inverse *)
Lemma inv2_det : forall X M, inverse 2 X M -> det2 M <> 0 /\ M 1%nat 1%nat = det2 M * X 0%nat 0%nat /\ - M 0%nat 1%nat = det2 M * X 0%nat 1%nat /\ - M 1%nat 0%nat = det2 M * X 1%nat 0%nat /\ M 0%nat 0%nat = det2 M * X 1%nat 1%nat.
Proof.
  intros X M H. assert (H' : forall k l, (k < 2)%nat -> (l < 2)%nat -> X k 0%nat * M 0%nat l + X k 1%nat * M 1%nat l = idm k l).
  { intros k l Hk Hl. rewrite <- (H k l Hk Hl). unfold mm. cbn. ring. }
  pose proof (H' 0 0 ltac:(lia) ltac:(lia))%nat as H00. pose proof (H' 0 1 ltac:(lia) ltac:(lia))%nat as H01. pose proof (H' 1 0 ltac:(lia) ltac:(lia))%nat as H10. pose proof (H' 1 1 ltac:(lia) ltac:(lia))%nat as H11.
  unfold idm in *. cbn [Nat.eqb] in *. clear H H'. set (a := M 0%nat 0%nat) in *. set (b := M 0%nat 1%nat) in *. set (c := M 1%nat 0%nat) in *. set (d := M 1%nat 1%nat) in *.
  unfold det2. fold a b c d. split.
  - intros Hz. assert (E : (X 0%nat 0%nat * X 1%nat 1%nat - X 0%nat 1%nat * X 1%nat 0%nat) * (a * d - b * c) = 1).
    { transitivity ((X 0%nat 0%nat * a + X 0%nat 1%nat * c) * (X 1%nat 0%nat * b + X 1%nat 1%nat * d) - (X 0%nat 0%nat * b + X 0%nat 1%nat * d) * (X 1%nat 0%nat * a + X 1%nat 1%nat * c)); [ring|]. rewrite H00, H01, H10, H11. ring. }
    rewrite Hz in E. lra.
  - repeat split.
    + transitivity ((X 0%nat 0%nat * a + X 0%nat 1%nat * c) * d - (X 0%nat 0%nat * b + X 0%nat 1%nat * d) * c); [rewrite H00, H01; ring|ring].
    + transitivity (- (X 0%nat 0%nat * a + X 0%nat 1%nat * c) * b + (X 0%nat 0%nat * b + X 0%nat 1%nat * d) * a); [rewrite H00, H01; ring|ring].
    + transitivity ((X 1%nat 0%nat * a + X 1%nat 1%nat * c) * d - (X 1%nat 0%nat * b + X 1%nat 1%nat * d) * c); [rewrite H10, H11; ring|ring].
    + transitivity (- (X 1%nat 0%nat * a + X 1%nat 1%nat * c) * b + (X 1%nat 0%nat * b + X 1%nat 1%nat * d) * a); [rewrite H10, H11; ring|ring].
Qed.
(** A[k][j] of Poisson3DBuild for the matrix with entry J[k][c] = M c k *)
Definition cof (M : mtx) (k j : nat) : real :=
  M ((j + 1) mod 3)%nat ((k + 1) mod 3)%nat * M ((j + 2) mod 3)%nat ((k + 2) mod 3)%nat - M ((j + 1) mod 3)%nat ((k + 2) mod 3)%nat * M ((j + 2) mod 3)%nat ((k + 1) mod 3)%nat.
Lemma inv3_det : forall X M, inverse 3 X M -> det3 M <> 0 /\ forall k j, (k < 3)%nat -> (j < 3)%nat -> cof M k j = det3 M * X k j.
Proof.
  intros X M H. assert (H' : forall k l, (k < 3)%nat -> (l < 3)%nat -> X k 0%nat * M 0%nat l + X k 1%nat * M 1%nat l + X k 2%nat * M 2%nat l = idm k l).
  { intros k l Hk Hl. rewrite <- (H k l Hk Hl). unfold mm. cbn. ring. }
  split.
  - intros Hz.
    assert (E : det3 X * det3 M = 1).
    { transitivity (det3 (fun k l => X k 0%nat * M 0%nat l + X k 1%nat * M 1%nat l + X k 2%nat * M 2%nat l)); [unfold det3; ring|]. unfold det3. rewrite !H' by lia. unfold idm. cbn [Nat.eqb]. ring. }
    rewrite Hz in E. lra.
  - intros k j Hk Hj.
    transitivity (Sum 3 (fun l => (X k 0%nat * M 0%nat l + X k 1%nat * M 1%nat l + X k 2%nat * M 2%nat l) * cof M l j)).
    { cbn [Sum]. rewrite !H' by lia. unfold idm. destruct k as [|[|[|k]]]; try lia; cbn [Nat.eqb]; ring. }
    cbn [Sum]. unfold cof, det3. destruct j as [|[|[|j]]]; try lia; cbn [Nat.modulo Nat.divmod Nat.add Nat.sub fst snd]; ring.
Qed.

Ltac sput := match goal with S : sets ?N ?Q ?i ?val ?o1 ?o |- context [put2q ?o ?Q ?c ?i ?x] => let o2 := fresh "o" in let E := fresh "E" in let S' := fresh "S" in
  destruct (sets_put N Q i val o1 o x S) as (o2 & E & S'); [auto|nia| |change (put2q o Q c i x) with (put o (N * Q + i) x); rewrite E; cbn [rbind]; clear S E] end.

Definition sym2 (f : nat -> nat -> real) (k : nat) : real := match k with 0 => f 0 0 | 1 => f 1 1 | _ => f 0 1 end%nat.
Definition sym3 (f : nat -> nat -> real) (k : nat) : real := match k with 0 => f 0 0 | 1 => f 1 1 | 2 => f 2 2 | 3 => f 1 2 | 4 => f 0 2 | _ => f 0 1 end%nat.
Lemma sym2_voigt : forall f, (forall a b, f a b = f b a) -> forall j l, (j < 2)%nat -> (l < 2)%nat -> sym2 f (voigt2 j l) = f j l.
Proof. intros f H [|[|j]] [|[|l]] Hj Hl; try lia; cbn; auto. Qed.
Lemma sym3_voigt : forall f, (forall a b, f a b = f b a) -> forall j l, (j < 3)%nat -> (l < 3)%nat -> sym3 f (voigt3 j l) = f j l.
Proof. intros f H [|[|[|j]]] [|[|[|l]]] Hj Hl; try lia; cbn; auto. Qed.
(** w det(J) dX/dx dX/dx^T *)
Definition geo (n : nat) (a : real) (X : mtx) (j l : nat) : real := a * Sum n (fun d => X j d * X l d).
Lemma geo_sym : forall n a X j l, geo n a X j l = geo n a X l j.
Proof. intros. unfold geo. f_equal. apply Sum_ext. intros. ring. Qed.

Lemma poisson1d_build : forall Q J w qd X, (Q <= length J)%nat -> (Q <= length w)%nat -> (Q <= length qd)%nat -> (forall i, (i < Q)%nat -> inverse 1 (X i) (jac 1 Q J i)) ->
  exists q, q_poisson1d Q J w qd = Ok q /\ filled 1 Q (fun i _ => geo 1 (ent w i * detn 1 (jac 1 Q J i)) (X i) 0 0) qd q.
Proof.
  intros Q J w qd X HJ Hw Hq HX. apply points_ok; [lia|]. intros i o1 Hi L. rd.
  pose proof (HX i Hi 0%nat 0%nat ltac:(lia) ltac:(lia)) as H. unfold mm, idm, jac in H. cbn [Sum Nat.eqb Nat.mul Nat.add] in H.
  assert (Hn : ent J i <> 0) by (intros Hz; rewrite Hz in H; lra). rewrite rdiv_ok by auto. cbn [rbind]. one.
  unfold geo, detn, det1, jac. cbn [Sum Nat.mul Nat.add]. assert (E : X i 0%nat 0%nat = / ent J i) by (apply (Rmult_eq_reg_r (ent J i)); auto; rewrite Rinv_l by auto; lra). rewrite E. field. auto.
Qed.
Lemma poisson2d_build : forall Q J w qd X, (4 * Q <= length J)%nat -> (Q <= length w)%nat -> (3 * Q <= length qd)%nat -> (forall i, (i < Q)%nat -> inverse 2 (X i) (jac 2 Q J i)) ->
  exists q, q_poisson2d Q J w qd = Ok q /\ filled 3 Q (fun i => sym2 (geo 2 (ent w i * detn 2 (jac 2 Q J i)) (X i))) qd q.
Proof.
  intros Q J w qd X HJ Hw Hq HX. apply points_ok; [lia|]. intros i o1 Hi L. rd.
  destruct (inv2_det (X i) (jac 2 Q J i) (HX i Hi)) as (Hn & A & B & C & D). cbn [detn]. set (x := X i) in *. set (a := ent w i) in *.
  assert (Ed : ent J ((0 * 2 + 0) * Q + i) * ent J ((1 * 2 + 1) * Q + i) - ent J ((0 * 2 + 1) * Q + i) * ent J ((1 * 2 + 0) * Q + i) = det2 (jac 2 Q J i)) by (unfold det2, jac; ring).
  rewrite Ed. rewrite rdiv_ok by auto. cbn [rbind]. clear Ed. set (dt := det2 (jac 2 Q J i)) in *. clearbody dt. unfold jac in A, B, C, D.
  apply (f_equal Ropp) in B. apply (f_equal Ropp) in C. rewrite Ropp_involutive in B, C. rewrite A, B, C, D. clear A B C D.
  pose proof (sets_nil Q i (sym2 (geo 2 (a * dt) x)) o1) as S0.
  sput. { cbn [sym2]. unfold geo. cbn [Sum]. field. auto. }
  sput. { cbn [sym2]. unfold geo. cbn [Sum]. field. auto. }
  sput. { cbn [sym2]. unfold geo. cbn [Sum]. field. auto. }
  eexists. split; [reflexivity|]. eassumption.
Qed.
Lemma adj3_ok : forall Q J i k j, (9 * Q <= length J)%nat -> (i < Q)%nat -> (k < 3)%nat -> (j < 3)%nat -> adj3 Q J i k j = Ok (cof (jac 3 Q J i) k j).
Proof.
  intros Q J i k j HJ Hi Hk Hj. unfold adj3. assert (B : forall a, (a mod 3 < 3)%nat) by (intros; apply Nat.mod_upper_bound; lia).
  pose proof (B (k + 1)%nat). pose proof (B (k + 2)%nat). pose proof (B (j + 1)%nat). pose proof (B (j + 2)%nat).
  rewrite !ent3 by nia. cbn [rbind]. unfold cof, jac. reflexivity.
Qed.
Lemma poisson3d_build : forall Q J w qd X, (9 * Q <= length J)%nat -> (Q <= length w)%nat -> (6 * Q <= length qd)%nat -> (forall i, (i < Q)%nat -> inverse 3 (X i) (jac 3 Q J i)) ->
  exists q, q_poisson3d Q J w qd = Ok q /\ filled 6 Q (fun i => sym3 (geo 3 (ent w i * detn 3 (jac 3 Q J i)) (X i))) qd q.
Proof.
  intros Q J w qd X HJ Hw Hq HX. apply points_ok; [lia|]. intros i o1 Hi L.
  rewrite !adj3_ok by lia. cbn [rbind]. rd.
  destruct (inv3_det (X i) (jac 3 Q J i) (HX i Hi)) as (Hn & A). cbn [detn].
  assert (Ed : ent J ((0 * 3 + 0) * Q + i) * cof (jac 3 Q J i) 0 0 + ent J ((0 * 3 + 1) * Q + i) * cof (jac 3 Q J i) 0 1 + ent J ((0 * 3 + 2) * Q + i) * cof (jac 3 Q J i) 0 2 = det3 (jac 3 Q J i)).
  { unfold det3, cof, jac. cbn [Nat.modulo Nat.divmod Nat.add Nat.sub fst snd]. ring. }
  rewrite Ed. rewrite rdiv_ok by auto. cbn [rbind]. clear Ed. rewrite !A by lia. set (dt := det3 (jac 3 Q J i)) in *. clearbody dt. set (x := X i) in *. set (a := ent w i) in *.
  pose proof (sets_nil Q i (sym3 (geo 3 (a * dt) x)) o1) as S0.
  do 6 (sput; [cbn [sym3]; unfold geo; cbn [Sum]; field; auto|]).
  eexists. split; [reflexivity|]. eassumption.
Qed.

Lemma rfold_same : forall A B (f g : A -> B -> res B) l s, (forall i o, f i o = g i o) -> rfold l f s = rfold l g s.
Proof. induction l; cbn; intros s H; auto. rewrite H. destruct (g a s); cbn; auto. Qed.
Lemma rfold1 : forall B (f : nat -> B -> res B) s, rfold (seq 0 1) f s = f 0%nat s.
Proof. intros. cbn. destruct (f 0%nat s); reflexivity. Qed.
(** the two Apply loops *)
Lemma poisson_apply : forall n Q (ug vg : list real) (G : nat -> nat -> nat -> real) (loop : nat -> nat -> nat -> list real -> res (list real)) nc,
  (n * nc * Q <= length vg)%nat ->
  (forall i j c o, (i < Q)%nat -> (j < n)%nat -> (c < nc)%nat -> loop i j c o = put3 o nc Q j c i (Sum n (fun l => G i j l * ent ug ((l * nc + c) * Q + i)%nat))) ->
  exists v, rfold (seq 0 Q) (fun i o => rfold (seq 0 n) (fun j o => rfold (seq 0 nc) (fun c o => loop i j c o) o) o) vg = Ok v /\ length v = length vg /\
    (forall j c i, (j < n)%nat -> (c < nc)%nat -> (i < Q)%nat -> ent v ((j * nc + c) * Q + i)%nat = Sum n (fun l => G i j l * ent ug ((l * nc + c) * Q + i)%nat)) /\
    (forall p, (n * nc * Q <= p)%nat -> ent v p = ent vg p).
Proof.
  intros n Q ug vg G loop nc HL Hl.
  set (val := fun i k => Sum n (fun l => G i (k / nc)%nat l * ent ug ((l * nc + k mod nc) * Q + i)%nat)).
  destruct (points_ok (n * nc) Q (fun i o => rfold (seq 0 n) (fun j o => rfold (seq 0 nc) (fun c o => loop i j c o) o) o) val vg HL) as (v & E & L & H1 & H2).
  - intros i o1 Hi L.
    destruct (@rfold_inv0 (list real) (fun j o => sets (j * nc) Q i (val i) o1 o) (fun j o => rfold (seq 0 nc) (fun c o => loop i j c o) o) n o1) as (o2 & E & S2); [apply sets_nil| |exists o2; auto].
    intros j o Hj S0.
    destruct (@rfold_inv0 (list real) (fun c o => sets (j * nc + c) Q i (val i) o1 o) (fun c o => loop i j c o) nc o) as (o3 & E & S3).
    + rewrite Nat.add_0_r. exact S0.
    + intros c o3 Hc S3. rewrite (Hl i j c o3 Hi Hj Hc). replace (j * nc + (c + 1))%nat with (S (j * nc + c)) by lia. apply sets_put; auto; [rewrite L; apply Nat.le_trans with (n * nc * Q)%nat; [apply Nat.mul_le_mono_r; nia|exact HL]|].
      unfold val. rewrite Nat.div_add_l by lia. rewrite (Nat.div_small c nc) by auto. rewrite Nat.add_0_r. rewrite (Nat.add_comm (j * nc) c), Nat.mod_add by lia. rewrite Nat.mod_small by auto. reflexivity.
    + exists o3. split; auto. replace ((j + 1) * nc)%nat with (j * nc + nc)%nat by lia. exact S3.
  - exists v. split; auto. split; auto. split; auto. intros j c i Hj Hc Hi. rewrite (H1 (j * nc + c)%nat i) by nia.
    unfold val. rewrite Nat.div_add_l by lia. rewrite (Nat.div_small c nc) by auto. rewrite Nat.add_0_r. rewrite (Nat.add_comm (j * nc) c), Nat.mod_add by lia. rewrite Nat.mod_small by auto. reflexivity.
Qed.

(** Poisson{1,2,3}DBuild and the Apply functions of one component and of three *)
Definition poisson_q (dim : nat) : nat -> list real -> list real -> list real -> res (list real) := match dim with 1 => q_poisson1d | 2 => q_poisson2d | _ => q_poisson3d end%nat.
Definition poisson_a (dim : nat) (vec : bool) : nat -> list real -> list real -> list real -> res (list real) :=
  match dim with
  | 1 => if vec then q_vec3poisson1d_apply else q_poisson1d_apply
  | 2 => q_poisson2d_apply (comps vec)
  | _ => q_poisson3d_apply (comps vec)
  end%nat.

Lemma poisson_ok : forall dim vec Q J w qd ug vg X, (1 <= dim <= 3)%nat -> (dim * dim * Q <= length J)%nat -> (Q <= length w)%nat ->
  (dim * (dim + 1) / 2 * Q <= length qd)%nat -> (dim * comps vec * Q <= length ug)%nat -> (dim * comps vec * Q <= length vg)%nat ->
  (forall i, (i < Q)%nat -> inverse dim (X i) (jac dim Q J i)) ->
  exists q v, poisson_q dim Q J w qd = Ok q /\ poisson_a dim vec Q ug q vg = Ok v /\ length v = length vg /\
    (forall j c i, (j < dim)%nat -> (c < comps vec)%nat -> (i < Q)%nat ->
       ent v ((j * comps vec + c) * Q + i) = flux dim (ent w i * detn dim (jac dim Q J i)) (X i) (fun l => ent ug ((l * comps vec + c) * Q + i)) j) /\
    (forall p, (dim * comps vec * Q <= p)%nat -> ent v p = ent vg p).
Proof.
  intros dim vec Q J w qd ug vg X Hd HJ Hw Hq Hu Hv HX.
  assert (Hf : forall i j c, Sum dim (fun l => geo dim (ent w i * detn dim (jac dim Q J i)) (X i) j l * ent ug ((l * comps vec + c) * Q + i)%nat) = flux dim (ent w i * detn dim (jac dim Q J i)) (X i) (fun l => ent ug ((l * comps vec + c) * Q + i)%nat) j).
  { intros. unfold flux, geo. rewrite <- Sum_mul. apply Sum_ext. intros. ring. }
  assert (dim = 1 \/ dim = 2 \/ dim = 3)%nat as [->|[->| ->]] by lia; cbn [poisson_q poisson_a].
  - destruct (poisson1d_build Q J w qd X) as (q & E & Lq & Gq & _); [lia|lia|cbn in Hq; lia|auto|]. exists q.
    assert (Hg : forall i, (i < Q)%nat -> ent q i = geo 1 (ent w i * detn 1 (jac 1 Q J i)) (X i) 0 0) by (intros i Hi; apply (Gq 0%nat i); lia).
    assert (HQ : (Q <= length q)%nat) by (cbn in Hq; lia). destruct vec; cbn [comps] in *.
    + unfold q_vec3poisson1d_apply, q_vec3mass_apply.
      destruct (poisson_apply 1 Q ug vg (fun i j l => geo 1 (ent w i * detn 1 (jac 1 Q J i)) (X i) j l) (fun i j c o => x <~ at2q ug Q c i ;; y <~ og q i ;; put2q o Q c i (x * y)) 3) as (v & Ev & Lv & H1 & H2); [lia| |].
      * intros i j c o Hi Hj Hc. assert (j = 0)%nat as -> by lia. rd. rewrite (Hg i Hi). unfold put3. cbn [Sum Nat.mul Nat.add]. unfold put2q. f_equal. ring.
      * exists v. split; [exact E|]. split; [|split; [exact Lv|split; [|exact H2]]].
        -- rewrite <- Ev. apply rfold_same. intros i o. rewrite rfold1. reflexivity.
        -- intros j c i Hj Hc Hi. rewrite H1 by auto. apply (Hf i j c).
    + unfold q_poisson1d_apply, q_mass_apply.
      destruct (poisson_apply 1 Q ug vg (fun i j l => geo 1 (ent w i * detn 1 (jac 1 Q J i)) (X i) j l) (fun i j c o => x <~ og ug i ;; y <~ og q i ;; put o i (x * y)) 1) as (v & Ev & Lv & H1 & H2); [lia| |].
      * intros i j c o Hi Hj Hc. assert (j = 0)%nat as -> by lia. assert (c = 0)%nat as -> by lia. rd. rewrite (Hg i Hi). unfold put3. cbn [Sum Nat.mul Nat.add]. f_equal. ring.
      * exists v. split; [exact E|]. split; [|split; [exact Lv|split; [|exact H2]]].
        -- rewrite <- Ev. apply rfold_same. intros i o. rewrite !rfold1. reflexivity.
        -- intros j c i Hj Hc Hi. rewrite H1 by auto. apply (Hf i j c).
  - destruct (poisson2d_build Q J w qd X) as (q & E & Lq & Gq & _); [lia|lia|cbn in Hq; lia|auto|]. exists q.
    unfold q_poisson2d_apply. set (nc := comps vec) in *. cbn in Hq.
    match goal with |- exists v, _ /\ rfold _ _ _ = _ /\ _ => 
      destruct (poisson_apply 2 Q ug vg (fun i j l => geo 2 (ent w i * detn 2 (jac 2 Q J i)) (X i) j l) (fun i j c o => u0 <~ at3 ug nc Q 0 c i ;; a <~ at2q q Q (voigt2 0 j) i ;; u1 <~ at3 ug nc Q 1 c i ;; b <~ at2q q Q (voigt2 1 j) i ;; put3 o nc Q j c i (u0 * a + u1 * b)) nc) as (v & Ev & Lv & H1 & H2) end; [lia| |].
    + intros i j c o Hi Hj Hc. assert (V : forall a b, (a < 2)%nat -> (b < 2)%nat -> (voigt2 a b < 3)%nat) by (intros [|[|a]] [|[|b]]; cbn; lia).
      pose proof (V 0%nat j ltac:(lia) Hj). pose proof (V 1%nat j ltac:(lia) Hj).
      rewrite !ent3, !ent2 by nia. cbn [rbind]. rewrite !Gq by auto. rewrite !sym2_voigt by (auto; intros; apply geo_sym). f_equal. cbn [Sum]. rewrite (geo_sym _ _ _ j 0), (geo_sym _ _ _ j 1). ring.
    + exists v. split; [exact E|]. split; [exact Ev|]. split; [exact Lv|]. split; [|exact H2]. intros j c i Hj Hc Hi. rewrite H1 by auto. apply (Hf i j c).
  - destruct (poisson3d_build Q J w qd X) as (q & E & Lq & Gq & _); [lia|lia|cbn in Hq; lia|auto|]. exists q.
    unfold q_poisson3d_apply. set (nc := comps vec) in *. cbn in Hq.
    match goal with |- exists v, _ /\ rfold _ _ _ = _ /\ _ => 
      destruct (poisson_apply 3 Q ug vg (fun i j l => geo 3 (ent w i * detn 3 (jac 3 Q J i)) (X i) j l) (fun i j c o => u0 <~ at3 ug nc Q 0 c i ;; a <~ at2q q Q (voigt3 0 j) i ;; u1 <~ at3 ug nc Q 1 c i ;; b <~ at2q q Q (voigt3 1 j) i ;; u2 <~ at3 ug nc Q 2 c i ;; d <~ at2q q Q (voigt3 2 j) i ;; put3 o nc Q j c i (u0 * a + u1 * b + u2 * d)) nc) as (v & Ev & Lv & H1 & H2) end; [lia| |].
    + intros i j c o Hi Hj Hc. assert (V : forall a b, (a < 3)%nat -> (b < 3)%nat -> (voigt3 a b < 6)%nat) by (intros [|[|[|a]]] [|[|[|b]]] ? ?; cbn; lia).
      pose proof (V 0%nat j ltac:(lia) Hj). pose proof (V 1%nat j ltac:(lia) Hj). pose proof (V 2%nat j ltac:(lia) Hj).
      rewrite !ent3, !ent2 by nia. cbn [rbind]. rewrite !Gq by auto. rewrite !sym3_voigt by (auto; intros; apply geo_sym). f_equal. cbn [Sum]. rewrite (geo_sym _ _ _ j 0), (geo_sym _ _ _ j 1), (geo_sym _ _ _ j 2). ring.
    + exists v. split; [exact E|]. split; [exact Ev|]. split; [exact Lv|]. split; [|exact H2]. intros j c i Hj Hc Hi. rewrite H1 by auto. apply (Hf i j c).
Qed.

(** every entry (t, grad t) . flux = w det(J) (grad t) . (grad u) with the physical gradients (grad u)_d = sum_l dX_l/dx_d du/dX_l *)
Lemma flux_form : forall n a X g h, Sum n (fun j => h j * flux n a X g j) = a * Sum n (fun d => Sum n (fun l => X l d * h l) * Sum n (fun l => X l d * g l)).
Proof.
  intros. rewrite <- Sum_mul.
  transitivity (Sum n (fun j => Sum n (fun d => a * (X j d * h j) * Sum n (fun l => X l d * g l)))).
  - apply Sum_ext. intros j Hj. unfold flux.
    transitivity (Sum n (fun l => Sum n (fun d => a * (X j d * h j) * (X l d * g l)))).
    + rewrite <- !Sum_mul. apply Sum_ext. intros l Hl. rewrite (Rmult_comm _ (g l)), <- !Sum_mul. apply Sum_ext. intros; ring.
    + rewrite Sum_swap. apply Sum_ext. intros d Hd. rewrite <- Sum_mul. reflexivity.
  - rewrite Sum_swap. apply Sum_ext. intros d Hd. rewrite <- Rmult_assoc. rewrite <- (Sum_mul _ a). rewrite (Rmult_comm (Sum n (fun k => a * (X k d * h k)))), <- Sum_mul. apply Sum_ext. intros; ring.
Qed.

(** ** The theorems *)
(** arrays as long as the declared fields require for [Q] points *)
Definition fits (fs : list (nat * emode)) (Q : nat) (arrays : list (list real)) : Prop := Forall2 (fun f a => (fst f * Q <= length a)%nat) fs arrays.
(** dv_l for direction [l], component [c], point [i] of a gradient field *)
Definition dir (nc Q : nat) (g : list real) (c i l : nat) : real := ent g ((l * nc + c) * Q + i)%nat.
(** component [d] of the physical gradient *)
Definition grad (dim nc Q : nat) (X : mtx) (g : list real) (c i d : nat) : real := Sum dim (fun l => X l d * dir nc Q g c i l).

Ltac inv_fits := repeat match goal with H : fits _ _ (_ :: _) |- _ => unfold fits in H; cbn [gal_ins gal_outs] in H; inversion H; clear H; subst | H : Forall2 _ _ (_ :: _) |- _ => inversion H; clear H; subst | H : Forall2 _ _ [] |- _ => clear H end; cbn [fst] in *.

Theorem C48_identity : forall size Q input output, (size * Q <= length input)%nat -> (size * Q <= length output)%nat ->
  exists o, gal_run GIdentity (Some size) Q [input] output = Ok o /\ length o = length output /\
    (forall p, (p < size * Q)%nat -> ent o p = ent input p) /\ (forall p, (size * Q <= p)%nat -> ent o p = ent output p).
Proof. intros size Q input output Hi Ho. rewrite (Nat.mul_comm size Q) in *. apply identity_ok; auto. Qed.
Theorem C48_scale : forall size Q input scale output, (size * Q <= length input)%nat -> (size * Q <= length scale)%nat -> (size * Q <= length output)%nat ->
  exists o, gal_run GScale (Some size) Q [input; scale] output = Ok o /\ length o = length output /\
    (forall p, (p < size * Q)%nat -> ent o p = ent input p * ent scale p) /\ (forall p, (size * Q <= p)%nat -> ent o p = ent output p).
Proof. intros size Q input scale output Hi Hs Ho. rewrite (Nat.mul_comm size Q) in *. apply scale_ok; auto. Qed.
(** finding: gallery/scale/ceed-scale.c sets no context, while Scale reads the field size through the context pointer: created
    by name and used without a context of the caller's own, every call dereferences NULL (Identity gets a context with size 1) *)
Theorem C48_scale_context_refuted : forall Q ins out, gal_run GScale (gal_ctx GScale) Q ins out = UB.
Proof. intros. unfold gal_run, gal_ctx, og. destruct (get ins 0); reflexivity. Qed.

Theorem C48_mass : forall dim vec ctx ctx' Q J w qd u v, (1 <= dim <= 3)%nat ->
  fits (gal_ins (GMassBuild dim)) Q [J; w] -> fits (gal_outs (GMassBuild dim)) Q [qd] ->
  fits (gal_ins (GMassApply vec)) Q [u; qd] -> fits (gal_outs (GMassApply vec)) Q [v] ->
  exists q v', gal_run (GMassBuild dim) ctx Q [J; w] qd = Ok q /\ gal_run (GMassApply vec) ctx' Q [u; q] v = Ok v' /\ length q = length qd /\ length v' = length v /\
    (forall c i, (c < comps vec)%nat -> (i < Q)%nat -> ent v' (c * Q + i) = ent w i * detn dim (jac dim Q J i) * ent u (c * Q + i)) /\
    (forall p, (comps vec * Q <= p)%nat -> ent v' p = ent v p).
Proof.
  intros dim vec ctx ctx' Q J w qd u v Hd H1 H2 H3 H4. inv_fits.
  assert (Lq : forall q, mass_q dim Q J w qd = Ok q -> length q = length qd).
  { intros q E. destruct (mass_build dim Q J w qd) as (q' & E' & L & _); auto; try lia. congruence. }
  destruct vec; cbn [comps] in *.
  - destruct (mass3_ok dim Q J w qd u v) as (q & v' & E & E' & L & A & B); auto; try lia. exists q, v'. split; [exact E|]. split; [exact E'|]. split; [auto|]. split; [exact L|]. split; auto.
  - destruct (mass_ok dim Q J w qd u v) as (q & v' & E & E' & L & A & B); auto; try lia. exists q, v'. split; [exact E|]. split; [exact E'|]. split; [auto|]. split; [exact L|]. split; auto.
    + intros c i Hc Hi. assert (c = 0)%nat as -> by lia. apply A; auto.
    + intros p Hp. apply B. lia.
Qed.

Theorem C48_poisson : forall dim vec ctx ctx' Q J w qd ug vg X, (1 <= dim <= 3)%nat ->
  fits (gal_ins (GPoissonBuild dim)) Q [J; w] -> fits (gal_outs (GPoissonBuild dim)) Q [qd] ->
  fits (gal_ins (GPoissonApply dim vec)) Q [ug; qd] -> fits (gal_outs (GPoissonApply dim vec)) Q [vg] ->
  (forall i, (i < Q)%nat -> inverse dim (X i) (jac dim Q J i)) ->
  exists q v, gal_run (GPoissonBuild dim) ctx Q [J; w] qd = Ok q /\ gal_run (GPoissonApply dim vec) ctx' Q [ug; q] vg = Ok v /\ length v = length vg /\
    (forall j c i, (j < dim)%nat -> (c < comps vec)%nat -> (i < Q)%nat ->
       dir (comps vec) Q v c i j = flux dim (ent w i * detn dim (jac dim Q J i)) (X i) (dir (comps vec) Q ug c i) j) /\
    (forall p, (comps vec * dim * Q <= p)%nat -> ent v p = ent vg p).
Proof.
  intros dim vec ctx ctx' Q J w qd ug vg X Hd H1 H2 H3 H4 HX. inv_fits. rewrite (Nat.mul_comm (comps vec) dim) in *.
  destruct (poisson_ok dim vec Q J w qd ug vg X) as (q & v & E & E' & L & A & B); auto; try lia.
  exists q, v. split; [exact E|]. split; [exact E'|]. split; [exact L|]. split; auto.
Qed.
(** tested with any [tg], the result is the weak Laplacian: w det(J) grad t . grad u; so symmetric, and nonnegative for t = u where w det(J) is *)
Theorem C48_weak_form : forall dim vec ctx ctx' Q J w qd ug vg tg X, (1 <= dim <= 3)%nat ->
  fits (gal_ins (GPoissonBuild dim)) Q [J; w] -> fits (gal_outs (GPoissonBuild dim)) Q [qd] ->
  fits (gal_ins (GPoissonApply dim vec)) Q [ug; qd] -> fits (gal_outs (GPoissonApply dim vec)) Q [vg] ->
  (forall i, (i < Q)%nat -> inverse dim (X i) (jac dim Q J i)) ->
  exists q v, gal_run (GPoissonBuild dim) ctx Q [J; w] qd = Ok q /\ gal_run (GPoissonApply dim vec) ctx' Q [ug; q] vg = Ok v /\
    forall c i, (c < comps vec)%nat -> (i < Q)%nat ->
      Sum dim (fun j => dir (comps vec) Q tg c i j * dir (comps vec) Q v c i j) =
      ent w i * detn dim (jac dim Q J i) * Sum dim (fun d => grad dim (comps vec) Q (X i) tg c i d * grad dim (comps vec) Q (X i) ug c i d).
Proof.
  intros dim vec ctx ctx' Q J w qd ug vg tg X Hd H1 H2 H3 H4 HX. destruct (C48_poisson dim vec ctx ctx' Q J w qd ug vg X Hd H1 H2 H3 H4 HX) as (q & v & E & E' & L & A & B).
  exists q, v. split; [exact E|]. split; [exact E'|]. intros c i Hc Hi. rewrite (Sum_ext dim _ (fun j => dir (comps vec) Q tg c i j * flux dim (ent w i * detn dim (jac dim Q J i)) (X i) (dir (comps vec) Q ug c i) j)) by (intros j Hj; rewrite A by auto; reflexivity).
  apply flux_form.
Qed.
Lemma rfold_ub : forall (f : nat -> list real -> res (list real)) L n a s i, length s = L -> (a <= i < a + n)%nat ->
  (forall k o, (a <= k < a + n)%nat -> length o = L -> (f k o = UB \/ exists o', f k o = Ok o' /\ length o' = L)) ->
  (forall o, length o = L -> f i o = UB) -> rfold (seq a n) f s = UB.
Proof.
  induction n; intros a s i Ls Hi Hf Hu; [lia|]. cbn [seq rfold]. destruct (Nat.eq_dec i a) as [->|].
  - rewrite Hu; auto.
  - destruct (Hf a s ltac:(lia) Ls) as [->|(o' & -> & L')]; [reflexivity|]. cbn [rbind]. apply (IHn (Datatypes.S a) o' i); auto; try lia. intros. apply Hf; auto; lia.
Qed.
Lemma rdiv_0 : forall x y, y = 0 -> rdiv x y = UB.
Proof. intros x y ->. unfold rdiv. destruct (Req_EM_T 0 0); congruence. Qed.
Ltac puts := repeat (match goal with |- context [put2q ?o ?Q ?c ?i ?x] => change (put2q o Q c i x) with (put o (c * Q + i) x) end; rewrite put_ok by (rewrite ?upd_length; nia); cbn [rbind]).
(** a singular Jacobian at any point: the Poisson build functions divide by zero *)
Theorem C48_singular : forall dim ctx Q J w qd i, (1 <= dim <= 3)%nat -> fits (gal_ins (GPoissonBuild dim)) Q [J; w] -> fits (gal_outs (GPoissonBuild dim)) Q [qd] ->
  (i < Q)%nat -> detn dim (jac dim Q J i) = 0 -> gal_run (GPoissonBuild dim) ctx Q [J; w] qd = UB.
Proof.
  intros dim ctx Q J w qd i Hd H1 H2 Hi H0. inv_fits. assert (dim = 1 \/ dim = 2 \/ dim = 3)%nat as [->|[->| ->]] by lia; cbn [gal_run detn] in *; (match goal with H : (fst _ * _ <= _)%nat |- _ => cbn in H end); cbn [og get ofopt nth_error rbind].
  - apply (rfold_ub _ (length qd) Q 0 qd i); auto; [lia| |].
    + intros k o Hk Lo. rd. destruct (Req_dec (ent J k) 0) as [Z|Z]; [left; rewrite rdiv_0 by auto; reflexivity|right]. rewrite rdiv_ok by auto. cbn [rbind]. rewrite put_ok by lia. eexists. split; [reflexivity|]. rewrite upd_length. auto.
    + intros o Lo. rd. rewrite rdiv_0; [reflexivity|]. exact H0.
  - apply (rfold_ub _ (length qd) Q 0 qd i); auto; [lia| |].
    + intros k o Hk Lo. rd. match goal with |- context [rdiv ?x ?y] => destruct (Req_dec y 0) as [Z|Z]; [left; rewrite rdiv_0 by auto; reflexivity|right]; rewrite rdiv_ok by auto end. cbn [rbind]. puts. eexists. split; [reflexivity|]. rewrite !upd_length. auto.
    + intros o Lo. rd. rewrite rdiv_0; [reflexivity|]. rewrite <- H0. unfold det2, jac. ring.
  - apply (rfold_ub _ (length qd) Q 0 qd i); auto; [lia| |].
    + intros k o Hk Lo. rewrite !adj3_ok by lia. cbn [rbind]. rd. match goal with |- context [rdiv ?x ?y] => destruct (Req_dec y 0) as [Z|Z]; [left; rewrite rdiv_0 by auto; reflexivity|right]; rewrite rdiv_ok by auto end. cbn [rbind]. puts. eexists. split; [reflexivity|]. rewrite !upd_length. auto.
    + intros o Lo. rewrite !adj3_ok by lia. cbn [rbind]. rd. rewrite rdiv_0; [reflexivity|]. rewrite <- H0. unfold det3, cof, jac. cbn [Nat.modulo Nat.divmod Nat.add Nat.sub fst snd]. ring.
Qed.

(** ** Examples *)
(** two points of a plane map: Jacobian [[2 1] [0 1]] at the first and the identity at the second; rows dx/dX_0, dy/dX_0, dx/dX_1, dy/dX_1 *)
Definition exJ : list real := [2; 1; 0; 0; 1; 0; 1; 1].
Definition exX (i : nat) : mtx := fun j d =>
  nth d (nth j (nth i [[[1/2; -1/2]; [0; 1]]; [[1; 0]; [0; 1]]] []) []) 0.
Example C48_poisson_ex : forall i, (i < 2)%nat -> inverse 2 (exX i) (jac 2 2 exJ i).
Proof. intros [|[|i]] Hi [|[|k]] [|[|l]] Hk Hl; try lia; unfold mm, jac, idm, ent, exJ; cbn; lra. Qed.
Example C48_poisson_ex_run : exists q v, gal_run (GPoissonBuild 2) None 2 [exJ; [1; 3]] (repeat 0 6) = Ok q /\ gal_run (GPoissonApply 2 false) None 2 [[1; 1; 1; 2]; q] (repeat 7 5) = Ok v /\ length v = 5%nat /\
  ent v 0 = 0 /\ ent v 1 = 3 /\ ent v 2 = 1 /\ ent v 3 = 6 /\ ent v 4 = 7.
Proof.
  destruct (C48_poisson 2 false None None 2 exJ [1; 3] (repeat 0 6) [1; 1; 1; 2] (repeat 7 5) exX) as (q & v & E & E' & L & A & B); [lia|repeat constructor; cbn; lia..|apply C48_poisson_ex|].
  exists q, v. split; [exact E|]. split; [exact E'|]. split; [exact L|].
  split; [pose proof (A 0 0 0 ltac:(lia) ltac:(cbn; lia) ltac:(lia))%nat as G|split; [pose proof (A 0 0 1 ltac:(lia) ltac:(cbn; lia) ltac:(lia))%nat as G|split; [pose proof (A 1 0 0 ltac:(lia) ltac:(cbn; lia) ltac:(lia))%nat as G|split; [pose proof (A 1 0 1 ltac:(lia) ltac:(cbn; lia) ltac:(lia))%nat as G|rewrite (B 4%nat) by (cbn; lia); reflexivity]]]];
  unfold dir, flux, detn, det2, jac, ent, exJ in G; cbn in G; unfold ent; lra.
Qed.
Example C48_mass_ex : exists q v, gal_run (GMassBuild 2) None 2 [exJ; [1; 3]] (repeat 0 2) = Ok q /\ gal_run (GMassApply true) None 2 [[1; 2; 3; 4; 5; 6]; q] (repeat 0 6) = Ok v /\ ent v 0 = 2 /\ ent v 5 = 18.
Proof.
  destruct (C48_mass 2 true None None 2 exJ [1; 3] (repeat 0 2) [1; 2; 3; 4; 5; 6] (repeat 0 6)) as (q & v & E & E' & L & L' & A & B); [lia|repeat constructor; cbn; lia..|].
  exists q, v. split; [exact E|]. split; [exact E'|]. pose proof (A 0 0 ltac:(cbn; lia) ltac:(lia))%nat as G. pose proof (A 2 1 ltac:(cbn; lia) ltac:(lia))%nat as G'.
  unfold detn, det2, jac, ent, exJ in G, G'. cbn in G, G'. unfold ent. split; lra.
Qed.
Example C48_singular_ex : gal_run (GPoissonBuild 2) None 1 [[1; 2; 2; 4]; [1]] [0; 0; 0] = UB.
Proof. apply (C48_singular 2 None 1 [1; 2; 2; 4] [1] [0; 0; 0] 0%nat); [lia|repeat constructor; cbn; lia..|lia|]. unfold detn, det2, jac, ent. cbn. lra. Qed.
Example C48_scale_ex : exists o, gal_run GScale (Some 2%nat) 1 [[2; 3]; [5; 7]] [0; 0] = Ok o /\ ent o 0 = 10 /\ ent o 1 = 21.
Proof.
  destruct (C48_scale 2 1 [2; 3] [5; 7] [0; 0]) as (o & E & L & A & B); [cbn; lia..|]. exists o. split; [exact E|]. rewrite !A by lia. unfold ent. cbn. split; lra.
Qed.
Example C48_identity_ex : exists o, gal_run GIdentity (Some 2%nat) 1 [[2; 3]] [0; 0; 9] = Ok o /\ ent o 0 = 2 /\ ent o 1 = 3 /\ ent o 2 = 9.
Proof.
  destruct (C48_identity 2 1 [2; 3] [0; 0; 9]) as (o & E & L & A & B); [cbn; lia..|]. exists o. split; [exact E|]. rewrite !A, B by lia. unfold ent. cbn. repeat split; lra.
Qed.
Print Assumptions C48_identity. Print Assumptions C48_scale. Print Assumptions C48_scale_context_refuted. Print Assumptions C48_mass. Print Assumptions C48_poisson. Print Assumptions C48_weak_form. Print Assumptions C48_singular.
