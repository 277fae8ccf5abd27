(** * CeedOperatorCreateFDMElementInverse: the matrices *)
From Coq Require Import List ZArith Lia Bool Arith Reals Lra Psatz.
From Verif Require Import Prelude RstrModel RstrSpec RstrProofs TensorModel TensorMain BasisModel Digits BasisMain BasisProps OpModel OpSpec OpLists OpProofs OpTree OpProps DenseModel DenseProofs QrModel RealLin QrProofs QrFact QrCheb ProjModel ProjProofs ProjProps SchurModel SchurTri SchurRot SchurMain SimDiag FdmModel FdmProofs.
Import ListNotations.
Local Open Scope nat_scope.
Local Open Scope R_scope.

(** ** quadratic forms *)
Definition qf (n : nat) (A : mtx) (u : nat -> real) : real := Sum n (fun i => Sum n (fun j => u i * A i j * u j)).
Lemma qf_ext : forall n A B u v, eqm n n A B -> (forall i, (i < n)%nat -> u i = v i) -> qf n A u = qf n B v.
Proof. intros n A B u v H Hu. unfold qf. apply Sum_ext. intros i Hi. apply Sum_ext. intros j Hj. rewrite H, !Hu by auto. reflexivity. Qed.
Lemma qf_sub : forall n A B u, qf n (fun i j => A i j - B i j) u = qf n A u - qf n B u.
Proof. intros. unfold qf. rewrite <- Sum_sub. apply Sum_ext. intros i _. rewrite <- Sum_sub. apply Sum_ext. intros. ring. Qed.
Lemma qf_cj : forall n X A v, qf n (cj n X A) v = qf n A (fun i => Sum n (fun l => X i l * v l)).
Proof.
  intros n X A v. unfold qf, cj, mm, tr.
  transitivity (Sum n (fun i => Sum n (fun a => Sum n (fun b => Sum n (fun j => (X a i * v i) * A a b * (X b j * v j)))))).
  { apply Sum_ext. intros i _. rewrite (Sum_ext n _ (fun j => Sum n (fun b => Sum n (fun a => (X a i * v i) * A a b * (X b j * v j))))).
    2: { intros j _. rewrite <- Sum_mul, <- Sum_mulr. apply Sum_ext. intros b _. rewrite <- Sum_mulr, <- Sum_mul, <- Sum_mulr. apply Sum_ext. intros. ring. }
    rewrite (Sum_ext n _ (fun j => Sum n (fun a => Sum n (fun b => (X a i * v i) * A a b * (X b j * v j))))) by (intros; apply Sum_swap).
    rewrite Sum_swap. apply Sum_ext. intros a _. apply Sum_swap. }
  rewrite Sum_swap. apply Sum_ext. intros a _. rewrite (Sum_swap n n). apply Sum_ext. intros b _.
  rewrite <- Sum_mulr, <- Sum_mulr. apply Sum_ext. intros i _. rewrite <- Sum_mul. apply Sum_ext. intros. ring.
Qed.
Lemma cs : forall n a b, Sum n (fun i => a i * b i) * Sum n (fun i => a i * b i) <= Sum n (fun i => a i * a i) * Sum n (fun i => b i * b i).
Proof.
  intros n a b. set (S := Sum n (fun i => a i * b i)). set (A := Sum n (fun i => a i * a i)). set (B := Sum n (fun i => b i * b i)).
  assert (H : 0 <= Sum n (fun i => Sum n (fun j => (a i * b j - a j * b i) * (a i * b j - a j * b i)))) by (apply Sum_pos; intros; apply Sum_pos; intros; apply Rle_0_sqr).
  assert (E : Sum n (fun i => Sum n (fun j => (a i * b j - a j * b i) * (a i * b j - a j * b i))) = 2 * (A * B) - 2 * (S * S)); [|lra].
  rewrite (Sum_ext n _ (fun i => a i * a i * B + b i * b i * A - a i * b i * (2 * S))).
  2: { intros i _. unfold A, B, S. rewrite <- Sum_mul, <- Sum_mul, <- Sum_mul, <- Sum_mul, <- Sum_add, <- Sum_sub. apply Sum_ext. intros. ring. }
  rewrite Sum_sub, Sum_add, !Sum_mulr. fold A B S. ring.
Qed.
Lemma qf_bound : forall n E v, qf n E v * qf n E v <= F2 n E * (Sum n (fun i => v i * v i) * Sum n (fun i => v i * v i)).
Proof.
  intros n E v. set (V := Sum n (fun i => v i * v i)). assert (HV : 0 <= V) by (apply Sum_pos; intros; nra).
  assert (Eq : qf n E v = Sum n (fun i => v i * Sum n (fun j => E i j * v j))). { unfold qf. apply Sum_ext. intros i _. rewrite <- Sum_mul. apply Sum_ext. intros. ring. }
  rewrite Eq. eapply Rle_trans; [apply cs|]. fold V. rewrite <- Rmult_assoc, (Rmult_comm _ V). apply Rmult_le_compat_l; auto.
  unfold F2. rewrite <- Sum_mulr. apply Sum_le. intros i Hi. apply cs.
Qed.

Lemma inv_vec : forall n X Y t q, invm n X Y -> (q < n)%nat -> Sum n (fun p => Y q p * Sum n (fun l => X p l * t l)) = t q.
Proof.
  intros n X Y t q (_ & H) Hq. rewrite (Sum_ext n _ (fun p => Sum n (fun l => Y q p * X p l * t l))). 2: { intros p _. rewrite <- Sum_mul. apply Sum_ext. intros. ring. }
  rewrite Sum_swap. rewrite (Sum_ext n _ (fun l => (if (l =? q)%nat then 1 else 0) * t l)). 2: { intros l Hl. rewrite Sum_mulr. f_equal. pose proof (H q l Hq Hl) as E. unfold mm, idm in E. rewrite E, Nat.eqb_sym. reflexivity. }
  apply Sum_delta. auto.
Qed.
Lemma invm_sym : forall n X Y, invm n X Y -> invm n Y X.
Proof. intros n X Y (A & B). split; auto. Qed.
Lemma invm_tr : forall n X Y, invm n X Y -> invm n (tr X) (tr Y).
Proof.
  intros n X Y (A & B). split; intros i j Hi Hj.
  - transitivity (tr (mm n Y X) i j); [symmetry; apply tr_mm|]. unfold tr. rewrite B by auto. apply idm_sym.
  - transitivity (tr (mm n X Y) i j); [symmetry; apply tr_mm|]. unfold tr. rewrite A by auto. apply idm_sym.
Qed.

(** ** the nearby matrices *)
Definition mass_of (n : nat) (Y : mtx) : mtx := fun i j => Sum n (fun l => Y l i * Y l j).
Definition lap_of (n : nat) (Y : mtx) (lam : nat -> real) : mtx := fun i j => Sum n (fun l => Y l i * lam l * Y l j).
Lemma qf_mass_of : forall n Y u, qf n (mass_of n Y) u = Sum n (fun l => Sum n (fun j => Y l j * u j) * Sum n (fun j => Y l j * u j)).
Proof.
  intros n Y u. unfold qf, mass_of.
  transitivity (Sum n (fun i => Sum n (fun l => Sum n (fun j => Y l i * u i * (Y l j * u j))))).
  { apply Sum_ext. intros i _. rewrite Sum_swap. apply Sum_ext. intros j _. rewrite <- Sum_mul, <- Sum_mulr. apply Sum_ext. intros. ring. }
  rewrite Sum_swap. apply Sum_ext. intros l _. rewrite <- Sum_mulr. apply Sum_ext. intros. rewrite Sum_mul. reflexivity.
Qed.
Lemma cj_lap_of : forall n X Y lam i j, invm n X Y -> (i < n)%nat -> (j < n)%nat -> cj n X (lap_of n Y lam) i j = if (i =? j)%nat then lam i else 0.
Proof.
  intros n X Y lam i j HI Hi Hj. pose proof HI as (_ & H).
  transitivity (mm n (fun i l => if (i =? l)%nat then lam i else 0) (mm n Y X) i j).
  - rewrite <- mm_assoc. unfold cj. apply mm_ext; auto. intros b Hb. unfold mm, tr, lap_of.
    rewrite (Sum_ext n _ (fun a => Sum n (fun l => Y l a * X a i * (lam l * Y l b)))). 2: { intros a _. rewrite <- Sum_mul. apply Sum_ext. intros. ring. }
    rewrite Sum_swap. apply Sum_ext. intros l Hl. rewrite Sum_mulr. pose proof (H l i Hl Hi) as E. unfold mm, idm in E. rewrite E, Nat.eqb_sym. destruct (Nat.eqb_spec i l) as [->|]; ring.
  - unfold mm at 1. rewrite (Sum_ext n _ (fun l => (if (l =? i)%nat then 1 else 0) * (lam i * mm n Y X l j))).
    2: { intros l Hl. rewrite Nat.eqb_sym. destruct (l =? i)%nat; ring. }
    rewrite Sum_delta by auto. rewrite H by auto. unfold idm. destruct (i =? j)%nat; ring.
Qed.
Lemma cj_mass_of : forall n X Y i j, invm n X Y -> (i < n)%nat -> (j < n)%nat -> cj n X (mass_of n Y) i j = idm i j.
Proof.
  intros n X Y i j HI Hi Hj. rewrite (cj_ext n X X (mass_of n Y) (lap_of n Y (fun _ => 1))); auto. { rewrite (cj_lap_of n X Y) by auto. reflexivity. }
  intros. unfold mass_of, lap_of. apply Sum_ext. intros. ring.
Qed.
Lemma near_form : forall n X Y A B b u, invm n X Y -> F2 n (fun i j => cj n X A i j - cj n X B i j) <= b ->
  (qf n A u - qf n B u) * (qf n A u - qf n B u) <= b * (qf n (mass_of n Y) u * qf n (mass_of n Y) u).
Proof.
  intros n X Y A B b u HI Hb. rewrite qf_mass_of. set (v := fun l => Sum n (fun j => Y l j * u j)).
  assert (E : forall A, qf n A u = qf n (cj n X A) v). { intros A0. rewrite qf_cj. apply qf_ext; [intros i j _ _; reflexivity|]. intros i Hi. unfold v. symmetry. apply inv_vec; auto. apply invm_sym. auto. }
  rewrite !E, <- qf_sub. eapply Rle_trans; [apply qf_bound|]. apply Rmult_le_compat_r; auto. unfold v. pose proof (Sum_pos n (fun i => v i * v i) ltac:(intros; nra)). unfold v in *. nra.
Qed.

(** ** Kronecker products *)
Definition kron (dim P : nat) (A : nat -> mtx) : mtx := fun n p => @prodn Rrng dim (fun i => A i (dig P i n) (dig P i p)).
Lemma kron_inv : forall dim P X Y, (0 < P)%nat -> invm P X Y -> invm (P ^ dim) (kron dim P (fun _ => X)) (kron dim P (fun _ => Y)).
Proof.
  assert (G : forall dim P X Y, (0 < P)%nat -> eqm P P (mm P X Y) idm -> eqm (P ^ dim) (P ^ dim) (mm (P ^ dim) (kron dim P (fun _ => X)) (kron dim P (fun _ => Y))) idm).
  { intros dim P X Y HP H i j Hi Hj. unfold mm. rewrite <- Sum_sumn. unfold kron.
    etransitivity; [exact (@kron_mm Rrng dim P (fun a l => X (dig P a i) l) (fun a l => Y l (dig P a j)))|].
    etransitivity; [apply (@prodn_ext Rrng dim) with (g := fun a => @delta Rrng (dig P a i =? dig P a j)%nat 1)|].
    - intros a _. rewrite Sum_sumn. pose proof (H (dig P a i) (dig P a j) (dig_lt a i HP) (dig_lt a j HP)) as E. unfold mm, idm in E. etransitivity; [exact E|]. destruct (dig P a i =? dig P a j)%nat; reflexivity.
    - etransitivity; [exact (@prodn_delta Rrng P dim j i HP Hj Hi)|]. unfold idm. destruct (i =? j)%nat; reflexivity. }
  intros dim P X Y HP (A & B). split; apply G; auto.
Qed.
Definition onehot (dim P d : nat) (lam : nat -> real) (q : nat) : @prodn Rrng dim (fun i => if (i =? d)%nat then lam (dig P i q) else 1) = if (d <? dim)%nat then lam (dig P d q) else 1.
Proof.
  induction dim as [|dim IH]; [reflexivity|]. cbn [prodn]. rewrite IH. destruct (Nat.eqb_spec dim d) as [->|].
  - rewrite Nat.ltb_irrefl. destruct (Nat.ltb_spec d (S d)); [|lia]. cbn. ring.
  - destruct (Nat.ltb_spec d dim), (Nat.ltb_spec d (S dim)); try lia; cbn; ring.
Qed.
Lemma kron_mass : forall dim P Y n p, Sum (P ^ dim) (fun q => kron dim P (fun _ => Y) q n * kron dim P (fun _ => Y) q p) = kron dim P (fun _ => mass_of P Y) n p.
Proof.
  intros dim P Y n p. rewrite <- Sum_sumn. unfold kron. etransitivity; [exact (@kron_mm Rrng dim P (fun a l => Y l (dig P a n)) (fun a l => Y l (dig P a p)))|].
  apply (@prodn_ext Rrng). intros i _. unfold mass_of. apply Sum_sumn.
Qed.
Lemma kron_lap : forall dim P Y lam d n p, (d < dim)%nat -> Sum (P ^ dim) (fun q => kron dim P (fun _ => Y) q n * lam (dig P d q) * kron dim P (fun _ => Y) q p) = kron dim P (fun i => if (i =? d)%nat then lap_of P Y lam else mass_of P Y) n p.
Proof.
  intros dim P Y lam d n p Hd. rewrite <- Sum_sumn. unfold kron.
  transitivity (@prodn Rrng dim (fun i => @sumn Rrng P (fun l => Y l (dig P i n) * (if (i =? d)%nat then lam l else 1) * Y l (dig P i p)))).
  - rewrite <- (@kron_sum Rrng dim P (fun i l => Y l (dig P i n) * (if (i =? d)%nat then lam l else 1) * Y l (dig P i p))). apply (@sumn_ext Rrng). intros q _.
    pose proof (onehot dim P d lam q) as E. destruct (Nat.ltb_spec d dim); [|lia]. rewrite <- E.
    etransitivity; [apply f_equal2; [exact (@prodn_mul Rrng dim _ _)|reflexivity]|]. exact (@prodn_mul Rrng dim _ _).
  - apply (@prodn_ext Rrng). intros i _. rewrite Sum_sumn. destruct (i =? d)%nat; unfold lap_of, mass_of; apply Sum_ext; intros; ring.
Qed.

(** the separable matrix *)
Definition sepm (interp grad : bool) (dim P : nat) (M K : mtx) : mtx := fun n p =>
  (if interp then kron dim P (fun _ => M) n p else 0) + (if grad then Sum dim (fun d => kron dim P (fun i => if (i =? d)%nat then K else M) n p) else 0).
Lemma sepm_diag : forall interp grad dim P Y lam n p, Sum (P ^ dim) (fun q => kron dim P (fun _ => Y) q n * fdv interp grad dim P lam q * kron dim P (fun _ => Y) q p) = sepm interp grad dim P (mass_of P Y) (lap_of P Y lam) n p.
Proof.
  intros interp grad dim P Y lam n p. unfold sepm. rewrite <- kron_mass.
  transitivity ((if interp then 1 else 0) * Sum (P ^ dim) (fun q => kron dim P (fun _ => Y) q n * kron dim P (fun _ => Y) q p) +
    (if grad then Sum dim (fun d => Sum (P ^ dim) (fun q => kron dim P (fun _ => Y) q n * lam (dig P d q) * kron dim P (fun _ => Y) q p)) else 0)).
  - destruct grad.
    + rewrite Sum_swap, <- Sum_mul, <- Sum_add. apply Sum_ext. intros q _. unfold fdv.
      rewrite (Sum_ext dim (fun i => kron dim P (fun _ => Y) q n * lam (dig P i q) * kron dim P (fun _ => Y) q p) (fun i => kron dim P (fun _ => Y) q n * kron dim P (fun _ => Y) q p * lam (dig P i q))) by (intros; ring).
      rewrite Sum_mul. ring.
    + rewrite Rplus_0_r, <- Sum_mul. apply Sum_ext. intros q _. unfold fdv. ring.
  - f_equal; [destruct interp; ring|]. destruct grad; auto. apply Sum_ext. intros d Hd. apply kron_lap. auto.
Qed.
(** the inverse *)
Definition wmat (dim P : nat) (X : mtx) (s : nat -> real) : mtx := fun n m => Sum (P ^ dim) (fun q => kron dim P (fun _ => X) n q * s q * kron dim P (fun _ => X) m q).
Lemma sep_solve : forall interp grad dim P X Y lam a s (u : nat -> real) n, (0 < P)%nat -> invm P X Y -> (forall q, (q < P ^ dim)%nat -> a * fdv interp grad dim P lam q * s q = 1) -> (n < P ^ dim)%nat ->
  Sum (P ^ dim) (fun p => a * sepm interp grad dim P (mass_of P Y) (lap_of P Y lam) n p * Sum (P ^ dim) (fun m => wmat dim P X s p m * u m)) = u n.
Proof.
  intros interp grad dim P X Y lam a s u n HP HI Hs Hn. pose proof (kron_inv dim P X Y HP HI) as HK. set (N := (P ^ dim)%nat) in *. set (Xh := kron dim P (fun _ => X)) in *. set (Yh := kron dim P (fun _ => Y)) in *.
  set (t := fun q => s q * Sum N (fun m => Xh m q * u m)).
  assert (Hz : forall p, Sum N (fun m => wmat dim P X s p m * u m) = Sum N (fun q => Xh p q * t q)).
  { intros p. unfold wmat, t. fold N Xh. rewrite (Sum_ext N _ (fun m => Sum N (fun q => Xh p q * s q * Xh m q * u m))) by (intros; rewrite <- Sum_mulr; auto).
    rewrite Sum_swap. apply Sum_ext. intros q _. rewrite (Rmult_comm (s q)), <- Rmult_assoc. rewrite <- Sum_mul, <- Sum_mulr. apply Sum_ext. intros. ring. }
  rewrite (Sum_ext N _ (fun p => Sum N (fun q => Yh q n * (a * fdv interp grad dim P lam q) * (Yh q p * Sum N (fun l => Xh p l * t l))))).
  2: { intros p _. rewrite Hz, <- sepm_diag. fold N Yh. rewrite <- (Sum_mul N a), <- Sum_mulr. apply Sum_ext. intros. ring. }
  rewrite Sum_swap. rewrite (Sum_ext N _ (fun q => tr Yh n q * Sum N (fun m => tr Xh q m * u m))).
  - apply inv_vec; auto. apply invm_tr. auto.
  - intros q Hq. rewrite Sum_mul. rewrite inv_vec by auto. unfold t, tr. rewrite <- Rmult_assoc, !(Rmult_assoc (Yh q n)). rewrite Hs by auto. ring.
Qed.
