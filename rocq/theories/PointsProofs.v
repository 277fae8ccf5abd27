(** * Chebyshev values and evaluation at points *)
From Coq Require Import List ZArith Lia Bool Arith Ring.
From Verif Require Import Prelude Adds RstrModel RstrProofs TensorModel TensorProofs TensorMain Digits BasisModel BasisProofs BasisMain BasisApply PointsModel.
Import ListNotations.
Set Implicit Arguments.

Section P.
Variable R : Rng.
Add Ring Rr : (r_th R).

(** ** Polynomials by their coefficients (lowest first), independent of the code *)
Fixpoint peval (p : list R) (x : R) : R := match p with [] => 0%R | c :: p => (c + x * peval p x)%R end.
Fixpoint padd (p q : list R) : list R :=
  match p, q with [], _ => q | _, [] => p | a :: p, b :: q => (a + b)%R :: padd p q end.
Definition pscale (c : R) (p : list R) : list R := map (fun a => (c * a)%R) p.
Fixpoint natR (n : nat) : R := match n with O => 0%R | S n => (1 + natR n)%R end.
(** derivative: the coefficient of x^i becomes (i+1) times that of x^(i+1) *)
Fixpoint pderiv_from (n : nat) (p : list R) : list R := match p with [] => [] | c :: p => (natR n * c)%R :: pderiv_from (S n) p end.
Definition pderiv (p : list R) : list R := match p with [] => [] | _ :: p => pderiv_from 1 p end.
(** the polynomials U_0 = 1, U_1 = 2x, U_(n+2) = 2 x U_(n+1) - U_n *)
Fixpoint cheb_pair (n : nat) : list R * list R :=
  match n with
  | O => ([1%R], [0%R; (1 + 1)%R])
  | S n => let (a, b) := cheb_pair n in (b, padd (0%R :: pscale (1 + 1)%R b) (pscale (- (1))%R a))
  end.
Definition cheb (n : nat) : list R := fst (cheb_pair n).

Lemma cheb_0 : cheb 0 = [1%R]. Proof. reflexivity. Qed.
Lemma cheb_1 : cheb 1 = [0%R; (1 + 1)%R]. Proof. reflexivity. Qed.
Lemma cheb_SS : forall n, cheb (S (S n)) = padd (0%R :: pscale (1 + 1)%R (cheb (S n))) (pscale (- (1))%R (cheb n)).
Proof. intros n. unfold cheb. simpl. destruct (cheb_pair n) as [a b]. reflexivity. Qed.

Lemma peval_padd : forall p q x, peval (padd p q) x = (peval p x + peval q x)%R.
Proof. induction p as [|a p IH]; intros [|b q] x; simpl; try ring. rewrite IH. ring. Qed.
Lemma peval_pscale : forall c p x, peval (pscale c p) x = (c * peval p x)%R.
Proof. intros c p x. induction p as [|a p IH]; simpl; [ring|]. rewrite IH. ring. Qed.
Lemma pderiv_from_padd : forall p q n, pderiv_from n (padd p q) = padd (pderiv_from n p) (pderiv_from n q).
Proof. induction p as [|a p IH]; intros [|b q] n; simpl; auto. rewrite IH. f_equal. ring. Qed.
Lemma peval_pderiv_from_scale : forall c p n x, peval (pderiv_from n (pscale c p)) x = (c * peval (pderiv_from n p) x)%R.
Proof. intros c p. induction p as [|a p IH]; intros n x; simpl; [ring|]. rewrite IH. ring. Qed.
Lemma peval_pderiv_from_S : forall p n x, peval (pderiv_from (S n) p) x = (peval p x + peval (pderiv_from n p) x)%R.
Proof. induction p as [|a p IH]; intros n x; simpl; [ring|]. rewrite (IH (S n)). simpl. ring. Qed.
Lemma peval_pderiv_from_0 : forall p x, peval (pderiv_from 0 p) x = (x * peval (pderiv p) x)%R.
Proof. intros [|a p] x; simpl; ring. Qed.
Lemma peval_pderiv_padd : forall p q x, peval (pderiv (padd p q)) x = (peval (pderiv p) x + peval (pderiv q) x)%R.
Proof. intros [|a p] [|b q] x; simpl; try ring. rewrite pderiv_from_padd. apply peval_padd. Qed.
Lemma peval_pderiv_scale : forall c p x, peval (pderiv (pscale c p)) x = (c * peval (pderiv p) x)%R.
Proof. intros c [|a p] x; simpl; [ring|]. apply peval_pderiv_from_scale. Qed.
Lemma peval_pderiv_cons : forall a p x, peval (pderiv (a :: p)) x = (peval p x + x * peval (pderiv p) x)%R.
Proof. intros a p x. simpl. rewrite peval_pderiv_from_S, peval_pderiv_from_0. reflexivity. Qed.

Lemma cheb_rec : forall n x, peval (cheb (S (S n))) x = ((1 + 1) * x * peval (cheb (S n)) x - peval (cheb n) x)%R.
Proof. intros. rewrite cheb_SS, peval_padd, peval_pscale. cbn [peval]. rewrite peval_pscale. ring. Qed.
Lemma cheb_drec : forall n x, peval (pderiv (cheb (S (S n)))) x =
  ((1 + 1) * x * peval (pderiv (cheb (S n))) x + (1 + 1) * peval (cheb (S n)) x - peval (pderiv (cheb n)) x)%R.
Proof.
  intros. rewrite cheb_SS, peval_pderiv_padd, peval_pderiv_scale, peval_pderiv_cons, peval_pscale, peval_pderiv_scale. ring.
Qed.

Local Open Scope nat_scope.
(** ** What the routines compute *)
Lemma cheb_vals_ok : forall x n (buf : list R), 2 <= n -> n <= length buf ->
  exists b, cheb_vals x n buf = Some b /\ length b = length buf /\
    (forall i, i < n -> vf b i = peval (cheb i) x) /\ (forall i, n <= i -> vf b i = vf buf i).
Proof.
  intros x n buf Hn Hb. unfold cheb_vals. rewrite set_Some by lia. cbn [bind].
  rewrite set_Some by (rewrite upd_length; lia). cbn [bind].
  match goal with |- context [forR 2 n ?F ?s] => destruct (@forR_inv (list R) (fun i b => length b = length buf /\
     (forall j, j < i -> vf b j = peval (cheb j) x) /\ (forall j, i <= j -> vf b j = vf buf j)) F 2 n s) as (b & E & L & G & N) end; auto.
  - rewrite !upd_length. split; auto. split.
    + intros j Hj. rewrite !vf_upd by (rewrite ?upd_length; lia). destruct j as [|[|j]]; try lia; simpl; unfold two; ring.
    + intros j Hj. rewrite !vf_upd by (rewrite ?upd_length; lia). destruct j as [|[|j]]; try lia; reflexivity.
  - intros i b (H2i & Hin) (L & G & N). rewrite !get_vf by lia. cbn [bind]. rewrite set_Some by lia.
    eexists. split; [reflexivity|]. rewrite !upd_length. split; auto. split.
    + intros j Hj. rewrite vf_upd by lia. destruct (Nat.eqb_spec j i) as [->|]; [|apply G; lia].
      rewrite !G by lia. destruct i as [|[|i]]; try lia. replace (S (S i) - 1) with (S i) by lia. replace (S (S i) - 2) with i by lia.
      rewrite cheb_rec. reflexivity.
    + intros j Hj. rewrite vf_upd by lia. destruct (Nat.eqb_spec j i); [lia|]. apply N. lia.
  - exists b. auto.
Qed.

Lemma cheb_ders_ok : forall x n (buf : list R), 2 <= n -> n <= length buf ->
  exists b, cheb_ders x n buf = Some b /\ length b = length buf /\
    (forall i, i < n -> vf b i = peval (pderiv (cheb i)) x) /\ (forall i, n <= i -> vf b i = vf buf i).
Proof.
  intros x n buf Hn Hb. unfold cheb_ders. rewrite set_Some by lia. cbn [bind].
  rewrite set_Some by (rewrite upd_length; lia). cbn [bind].
  match goal with |- context [forR 2 n ?F ?s] => destruct (@forR_inv (R * R * list R) (fun i st => let '(x1, x2, b) := st in
     x1 = peval (cheb (i - 2)) x /\ x2 = peval (cheb (i - 1)) x /\ length b = length buf /\
     (forall j, j < i -> vf b j = peval (pderiv (cheb j)) x) /\ (forall j, i <= j -> vf b j = vf buf j)) F 2 n s) as ([[x1 x2] b] & E & _ & _ & L & G & N) end; auto.
  - simpl. split; [ring|]. split; [unfold two; ring|]. rewrite !upd_length. split; auto. split.
    + intros j Hj. rewrite !vf_upd by (rewrite ?upd_length; lia). destruct j as [|[|j]]; try lia; simpl; unfold two; ring.
    + intros j Hj. rewrite !vf_upd by (rewrite ?upd_length; lia). destruct j as [|[|j]]; try lia; reflexivity.
  - intros i [[x1 x2] b] (H2i & Hin) (E1 & E2 & L & G & N). rewrite !get_vf by lia. cbn [bind]. rewrite set_Some by lia.
    cbn [bind]. eexists. split; [reflexivity|].
    destruct i as [|[|i]]; try lia. replace (S (S i) - 1) with (S i) in * by lia. replace (S (S i) - 2) with i in * by lia.
    split. { rewrite E2. f_equal. f_equal. lia. }
    split. { replace (S (S i) + 1 - 1) with (S (S i)) by lia. rewrite cheb_rec, E1, E2. reflexivity. }
    rewrite !upd_length. split; auto. split.
    + intros j Hj. rewrite vf_upd by lia. destruct (Nat.eqb_spec j (S (S i))) as [->|]; [|apply G; lia].
      rewrite !G by lia. rewrite cheb_drec, E2. reflexivity.
    + intros j Hj. rewrite vf_upd by lia. destruct (Nat.eqb_spec j (S (S i))); [lia|]. apply N. lia.
  - rewrite E. cbn [bind snd]. exists b. auto.
Qed.
End P.
Arguments peval {R}. Arguments pderiv {R}. Arguments cheb {R}.

Section E.
Variable R : Rng.
Add Ring Rr : (r_th R).
Local Open Scope nat_scope.

(** The factor of direction [d], index [a], at point [p] *)
Definition W (pass : option nat) (np p : nat) (x : list R) (d a : nat) : R :=
  let y := vf x (d * np + p) in
  if match pass with Some q => q =? d | None => false end then peval (pderiv (cheb a)) y else peval (cheb a) y.

Lemma cheb_dir_ok : forall pass np Q p d (x buf : list R), 2 <= Q -> Q <= length buf -> d * np + p < length x ->
  exists b, cheb_dir pass np Q p d x buf = Some b /\ length b = length buf /\ forall a, a < Q -> vf b a = W pass np p x d a.
Proof.
  intros pass np Q p d x buf HQ Hb Hx. unfold cheb_dir. rewrite get_vf by auto. cbn [bind]. unfold W.
  destruct (match pass with Some q => q =? d | None => false end).
  - destruct (@cheb_ders_ok R (vf x (d * np + p)) Q buf) as (b & E & L & G & _); auto. exists b. auto.
  - destruct (@cheb_vals_ok R (vf x (d * np + p)) Q buf) as (b & E & L & G & _); auto. exists b. auto.
Qed.

(** A kernel that also works for one output row, given an output twice as long (true of AVX too) *)
Definition kernel_pt (k : kernel R) : Prop := forall A B t u v, 0 < A -> B <= length t -> A * B <= length u -> 2 * A <= length v ->
  exists v', k A B 1 1 t NoTranspose false u v = Some v' /\ contracts A B 1 1 t NoTranspose false u v v'.
Lemma kernel_pt_of : forall k, kernel_ok 0 k -> kernel_pt k.
Proof. intros k H A B t u v HA Ht Hu Hv. apply H; lia. Qed.
Lemma kernel_pt_avx : kernel_pt (@contract_avx R).
Proof.
  intros A B t u v HA Ht Hu Hv. apply avx_contracts; try lia. unfold avx_need. cbn [Nat.eqb andb].
  destruct (Nat.ltb_spec 4 A); [|lia]. apply Nat.max_lub; [lia|]. pose proof (Nat.mul_div_le (A - 1) 4 ltac:(lia)). lia.
Qed.

Lemma getb_putb : forall i (y : list R) T, getb i (putb i y T) = y.
Proof. intros i y T. unfold getb, putb. destruct (i =? 0); reflexivity. Qed.
Lemma putb_len : forall i (y : list R) T, length y = length (getb i T) ->
  length (fst (putb i y T)) = length (fst T) /\ length (snd (putb i y T)) = length (snd T).
Proof. intros i y T. unfold getb, putb. destruct (i =? 0); simpl; auto. Qed.
Lemma getb_len : forall i (T : bufs R) n, n <= length (fst T) -> n <= length (snd T) -> n <= length (getb i T).
Proof. intros i T n. unfold getb. destruct (i =? 0); auto. Qed.

Lemma point_contract_ok : forall k pass dim nc np Q p (x coeffs : list R) (T : bufs R) buf, kernel_pt k ->
  0 < dim -> 0 < nc -> 2 <= Q -> Q <= length buf -> p < np -> dim * np <= length x -> nc * Q ^ dim <= length coeffs ->
  nc * Q ^ dim <= length (fst T) -> nc * Q ^ dim <= length (snd T) ->
  exists T' buf', point_contract k pass dim nc np Q p x coeffs T buf = Some (T', buf') /\
    length (fst T') = length (fst T) /\ length (snd T') = length (snd T) /\ length buf' = length buf /\
    forall c, c < nc -> vf (getb (dim mod 2) T') c =
      sumn (Q ^ dim) (fun q => prodn dim (fun i => W pass np p x i (dig Q i q)) * vf coeffs (c * Q ^ dim + q)%nat)%R.
Proof.
  intros k pass dim nc np Q p x coeffs T buf Hk Hd Hnc HQ Hb Hp Hx Hc HT0 HT1. unfold point_contract.
  match goal with |- context [forN dim ?F ?s] => destruct (@forN_inv (nat * bufs R * list R)
    (fun d st => let '(pre, T', buf') := st in
       length (fst T') = length (fst T) /\ length (snd T') = length (snd T) /\ length buf' = length buf /\
       (d < dim -> pre = nc * Q ^ (dim - S d)) /\
       (let src := if d =? 0 then coeffs else getb (d mod 2) T' in forall a, a < nc * Q ^ (dim - d) ->
          vf src a = sumn (Q ^ d) (fun q => prodn d (fun i => W pass np p x i (dig Q i q)) * vf coeffs (a * Q ^ d + q)%nat)%R))
    F dim s) as ([[pre T'] buf'] & E & L0 & L1 & Lb & _ & G) end.
  - split; auto. split; auto. split; auto. split; [auto|]. cbn [Nat.eqb]. intros a Ha. rewrite Nat.pow_0_r, sumn_S, sumn_0.
    cbn [prodn]. replace (a * 1 + 0) with a by lia. ring.
  - intros d [[pre T1] buf1] Hdd (L0 & L1 & Lb & Hpre & G). rewrite (Hpre Hdd).
    destruct (@cheb_dir_ok pass np Q p d x buf1) as (b & Eb & Lb' & Gb); auto; try lia. { nia. }
    rewrite Eb. cbn [bind].
    assert (EP : Q ^ (dim - d) = Q ^ (dim - S d) * Q) by (replace (dim - d) with (S (dim - S d)) by lia; simpl; ring).
    pose proof (@pow_pos Q (dim - S d) ltac:(lia)) as Hpp.
    assert (Hle : nc * Q ^ (dim - d) <= nc * Q ^ dim) by (apply Nat.mul_le_mono_l, Nat.pow_le_mono_r; lia).
    set (src := if d =? 0 then coeffs else getb (d mod 2) T1) in *. cbv zeta in G.
    assert (Hsrc : nc * Q ^ dim <= length src).
    { unfold src. destruct (d =? 0); auto. apply getb_len; lia. }
    destruct (@Hk (nc * Q ^ (dim - S d)) Q b src (getb ((d + 1) mod 2) T1)) as (o & Eo & Lo & Go & No).
    { nia. } { lia. }
    { rewrite EP, Nat.mul_assoc in Hle. lia. }
    { assert (nc * Q ^ dim <= length (getb ((d + 1) mod 2) T1)) by (apply getb_len; lia). rewrite EP, Nat.mul_assoc in Hle.
      assert (2 * (nc * Q ^ (dim - S d)) <= nc * Q ^ (dim - S d) * Q) by nia. lia. }
    rewrite Eo. cbn [bind]. eexists. split; [reflexivity|]. destruct (@putb_len ((d + 1) mod 2) o T1 Lo) as (-> & ->).
    split; auto. split; auto. split; [congruence|]. rewrite !Nat.add_1_r. split.
    + intros Hd1. replace (dim - S d) with (S (dim - S (S d))) by lia. simpl Nat.pow.
      replace (nc * (Q * Q ^ (dim - S (S d)))) with (nc * Q ^ (dim - S (S d)) * Q) by ring. apply Nat.div_mul. lia.
    + cbn [Nat.eqb]. rewrite <- (Nat.add_1_r d), getb_putb. intros a Ha. rewrite Nat.add_1_r in Ha |- *.
      specialize (Go a 0 0 Ha ltac:(lia) ltac:(lia)). replace ((a * 1 + 0) * 1 + 0) with a in Go by lia. rewrite Go.
      rewrite (Radd_0_l (r_th R)). change (Q ^ S d) with (Q * Q ^ d). rewrite sumn_mul. apply sumn_ext. intros y Hy.
      replace (0 * Q + y) with y by lia. rewrite Gb by auto.
      replace ((a * Q + y) * 1 + 0) with (a * Q + y) by lia. rewrite G by nia. rewrite <- sumn_mul_l.
      apply sumn_ext. intros q Hq. cbn [prodn].
      replace (dig Q d (y * Q ^ d + q)) with y by (symmetry; apply (@dig_at Q d 0); auto).
      rewrite (@prodn_ext R d (fun i => W pass np p x i (dig Q i (y * Q ^ d + q))) (fun i => W pass np p x i (dig Q i q))).
      2:{ intros i Hi. rewrite dig_low by lia. reflexivity. }
      replace (a * (Q * Q ^ d) + (y * Q ^ d + q)) with ((a * Q + y) * Q ^ d + q) by ring. ring.
  - rewrite E. cbn [bind fst snd]. exists T', buf'. repeat (split; auto). intros c Hcc. cbv zeta in G.
    replace (dim =? 0) with false in G by (symmetry; apply Nat.eqb_neq; lia). apply G. rewrite Nat.sub_diag, Nat.pow_0_r. lia.
Qed.

(** Nodes to points *)
Lemma points_n_ok : forall k npass pass dim nc np Q (x coeffs : list R) (T : bufs R) buf v, kernel_pt k ->
  0 < dim -> 0 < nc -> 2 <= Q -> Q <= length buf -> dim * np <= length x -> nc * Q ^ dim <= length coeffs ->
  nc * Q ^ dim <= length (fst T) -> nc * Q ^ dim <= length (snd T) -> npass * nc * np <= length v ->
  exists v', points_n k npass pass dim nc np Q x coeffs T buf v = Some v' /\ length v' = length v /\
    (forall i c p, i < npass -> c < nc -> p < np -> vf v' ((i * nc + c) * np + p) =
      sumn (Q ^ dim) (fun q => prodn dim (fun d => W (pass i) np p x d (dig Q d q)) * vf coeffs (c * Q ^ dim + q)%nat)%R) /\
    (forall j, npass * nc * np <= j -> vf v' j = vf v j).
Proof.
  intros k npass pass dim nc np Q x coeffs T buf v Hk Hd Hnc HQ Hb Hx Hc HT0 HT1 Hv. unfold points_n.
  set (h := fun i c p => sumn (Q ^ dim) (fun q => prodn dim (fun d => W (pass i) np p x d (dig Q d q)) * vf coeffs (c * Q ^ dim + q)%nat)%R).
  set (inv0 := fun (st : bufs R * list R * list R) => let '(T', buf', v') := st in
    length (fst T') = length (fst T) /\ length (snd T') = length (snd T) /\ length buf' = length buf /\ length v' = length v /\
    (forall j, npass * nc * np <= j -> vf v' j = vf v j)).
  match goal with |- context [forN np ?F ?s] => destruct (@forN_inv (bufs R * list R * list R)
    (fun n st => inv0 st /\ forall i c p, i < npass -> c < nc -> p < n -> vf (snd st) ((i * nc + c) * np + p) = h i c p)
    F np s) as ([[T' buf'] v'] & E & (L0 & L1 & Lb & Lv & N) & G) end.
  - split; [unfold inv0; auto|]. intros; lia.
  - intros p st Hp (I0 & G0).
    match goal with |- context [forN npass ?F ?s] => destruct (@forN_inv (bufs R * list R * list R)
      (fun n st => inv0 st /\ (forall i c p', i < npass -> c < nc -> p' < p -> vf (snd st) ((i * nc + c) * np + p') = h i c p') /\
         (forall i c, i < n -> c < nc -> vf (snd st) ((i * nc + c) * np + p) = h i c p)) F npass s) as (st' & E & I1 & G1 & G2) end.
    + split; auto. split; auto. lia.
    + intros i [[T1 buf1] v1] Hi ((L0 & L1 & Lb & Lv & N) & G1 & G2).
      destruct (@point_contract_ok k (pass i) dim nc np Q p x coeffs T1 buf1) as (T2 & buf2 & E & L20 & L21 & Lb2 & GT); auto; try lia.
      rewrite E. cbn [bind].
      assert (HT : nc <= length (getb (dim mod 2) T2)).
      { pose proof (@pow_pos Q dim ltac:(lia)). apply getb_len; nia. }
      assert (Hpos : forall i c p, i < npass -> c < nc -> p < np -> (i * nc + c) * np + p < npass * nc * np) by (intros; apply idx_lt; auto).
      match goal with |- context [forN nc ?F v1] => destruct (@forN_inv (list R) (fun n v2 => length v2 = length v /\
         (forall j, npass * nc * np <= j -> vf v2 j = vf v j) /\
         (forall i' c' p', i' < npass -> c' < nc -> p' < np -> vf v2 ((i' * nc + c') * np + p') =
            if (i' =? i) && (c' <? n) && (p' =? p) then h i c' p else vf v1 ((i' * nc + c') * np + p'))) F nc v1) as (v2 & Ev & Lv2 & N2 & G3) end.
      * split; auto. split; auto. intros. rewrite Bool.andb_false_r. reflexivity.
      * intros c v2 Hcc (L2 & N2 & G3). rewrite get_vf by lia. cbn [bind]. pose proof (Hpos i c p Hi Hcc Hp).
        rewrite set_Some by lia. eexists. split; [reflexivity|]. rewrite upd_length. split; auto. split.
        -- intros j Hj. rewrite vf_upd by lia. destruct (Nat.eqb_spec j ((i * nc + c) * np + p)); [lia|]. auto.
        -- intros i' c' p' Hi' Hc' Hp'. rewrite vf_upd by lia. rewrite G3 by auto.
           destruct (Nat.eqb_spec ((i' * nc + c') * np + p') ((i * nc + c) * np + p)) as [Eq|Eq].
           { apply enc3_inj in Eq; auto. destruct Eq as (-> & -> & ->). rewrite !Nat.eqb_refl.
             replace (c <? c + 1) with true by (symmetry; apply Nat.ltb_lt; lia). simpl. rewrite GT by auto. reflexivity. }
           { destruct (Nat.eqb_spec i' i) as [->|]; auto. destruct (Nat.eqb_spec p' p) as [->|]; [|rewrite !Bool.andb_false_r; auto].
             assert (c' <> c) by (intros ->; apply Eq; auto).
             replace (c' <? c + 1) with (c' <? c); auto. destruct (Nat.ltb_spec c' c); destruct (Nat.ltb_spec c' (c + 1)); lia. }
      * rewrite Ev. cbn [bind]. eexists. split; [reflexivity|]. split; [|split].
        -- unfold inv0. repeat (split; [congruence|]). auto.
        -- cbn [snd] in *. intros i' c' p' Hi' Hc' Hp'. rewrite G3 by lia. destruct (Nat.eqb_spec p' p); [lia|]. rewrite Bool.andb_false_r. auto.
        -- cbn [snd] in *. intros i' c' Hi' Hc'. rewrite G3 by lia. rewrite Nat.eqb_refl, Bool.andb_true_r.
           assert (c' <? nc = true) as -> by (apply Nat.ltb_lt; auto). rewrite Bool.andb_true_r.
           destruct (Nat.eqb_spec i' i) as [->|]; auto. apply G2; lia.
    + exists st'. split; auto. split; auto. intros i c p' Hi Hcc Hp'. destruct (Nat.eq_dec p' p) as [->|]; [apply G2|apply G1]; auto. lia.
  - rewrite E. cbn [bind snd]. exists v'. auto.
Qed.

(** Points to coefficients *)
Lemma point_expand_ok : forall k Jmin pass dim nc np Q p addl (x : list R) (T : bufs R) buf coeffs, kernel_ok Jmin k -> Jmin <= Q ->
  0 < dim -> 0 < nc -> 2 <= Q -> Q <= length buf -> p < np -> dim * np <= length x -> nc * Q ^ dim <= length coeffs ->
  nc * Q ^ dim <= length (fst T) -> nc * Q ^ dim <= length (snd T) ->
  exists T' buf' coeffs', point_expand k pass dim nc np Q p addl x T buf coeffs = Some (T', buf', coeffs') /\
    length (fst T') = length (fst T) /\ length (snd T') = length (snd T) /\ length buf' = length buf /\ length coeffs' = length coeffs /\
    (forall c q, c < nc -> q < Q ^ dim -> vf coeffs' (c * Q ^ dim + q) =
      ((if addl then vf coeffs (c * Q ^ dim + q)%nat else 0) + prodn dim (fun i => W pass np p x i (dig Q i q)) * vf (fst T) c)%R) /\
    (forall j, nc * Q ^ dim <= j -> vf coeffs' j = vf coeffs j).
Proof.
  intros k Jmin pass dim nc np Q p addl x T buf coeffs Hk HJ Hd Hnc HQ Hb Hp Hx Hc HT0 HT1. unfold point_expand.
  match goal with |- context [forN dim ?F ?s] => destruct (@forN_inv (nat * bufs R * list R * list R)
    (fun d st => let '(post, T', buf', coeffs') := st in
       post = Q ^ d /\
       length (fst T') = length (fst T) /\ length (snd T') = length (snd T) /\ length buf' = length buf /\ length coeffs' = length coeffs /\
       (d < dim -> coeffs' = coeffs /\ forall c l, c < nc -> l < Q ^ d ->
          vf (getb (d mod 2) T') (c * Q ^ d + l) = (prodn d (fun i => W pass np p x i (dig Q i l)) * vf (fst T) c)%R) /\
       (d = dim -> (forall c q, c < nc -> q < Q ^ dim -> vf coeffs' (c * Q ^ dim + q) =
      ((if addl then vf coeffs (c * Q ^ dim + q)%nat else 0) + prodn dim (fun i => W pass np p x i (dig Q i q)) * vf (fst T) c)%R) /\
    (forall j, nc * Q ^ dim <= j -> vf coeffs' j = vf coeffs j)))
    F dim s) as ([[[post T'] buf'] coeffs'] & E & _ & L0 & L1 & Lb & Lc & _ & G) end.
  - repeat (split; [reflexivity|]). split; [|lia]. intros _. split; auto. intros c l Hcc Hl. simpl in Hl.
    replace l with 0 by lia. change (getb (0 mod 2) T) with (fst T). cbn [prodn]. rewrite Nat.pow_0_r.
    replace (c * 1 + 0) with c by lia. ring.
  - intros d [[[post T1] buf1] coeffs1] Hdd (-> & L0 & L1 & Lb & Lc & Hinv & _). destruct (Hinv Hdd) as (-> & G).
    destruct (@cheb_dir_ok pass np Q p d x buf1) as (b & Eb & Lb' & Gb); auto; try lia. { nia. }
    rewrite Eb. cbn [bind]. pose proof (@pow_pos Q d ltac:(lia)) as Hqd.
    assert (Hle : nc * Q ^ S d <= nc * Q ^ dim) by (apply Nat.mul_le_mono_l, Nat.pow_le_mono_r; lia).
    assert (Hle' : nc * 1 * Q ^ d <= nc * Q ^ dim).
    { rewrite Nat.mul_1_r. apply Nat.mul_le_mono_l, Nat.pow_le_mono_r; lia. }
    assert (Hsz : nc * Q * Q ^ d = nc * Q ^ S d) by (simpl; ring).
    assert (Hsrc : nc * Q ^ dim <= length (getb (d mod 2) T1)) by (apply getb_len; lia).
    assert (Hstep : forall add dst o, contracts nc 1 (Q ^ d) Q b Transpose add (getb (d mod 2) T1) dst o ->
      forall c q, c < nc -> q < Q ^ S d -> vf o (c * Q ^ S d + q) =
        ((if add then vf dst (c * Q ^ S d + q)%nat else 0) + prodn (S d) (fun i => W pass np p x i (dig Q i q)) * vf (fst T) c)%R).
    { intros add dst o (_ & Go & _) c q Hcc Hq. change (Q ^ S d) with (Q * Q ^ d) in *. destruct (@dec_mul Q (Q ^ d) q Hq) as (j & l & Hj & Hl & ->).
      replace (c * (Q * Q ^ d) + (j * Q ^ d + l)) with ((c * Q + j) * Q ^ d + l) by ring. rewrite Go by auto. f_equal.
      rewrite sumn_S, sumn_0, (Radd_0_l (r_th R)). replace (0 * Q + j) with j by lia. rewrite Gb by auto.
      replace ((c * 1 + 0) * Q ^ d + l) with (c * Q ^ d + l) by ring. rewrite G by auto. cbn [prodn].
      replace (dig Q d (j * Q ^ d + l)) with j by (symmetry; apply (@dig_at Q d 0); auto).
      rewrite (@prodn_ext R d (fun i => W pass np p x i (dig Q i (j * Q ^ d + l))) (fun i => W pass np p x i (dig Q i l))).
      2:{ intros i Hi. rewrite dig_low by lia. reflexivity. } ring. }
    destruct (Nat.eqb_spec d (dim - 1)) as [Ed|Ed].
    + destruct (@Hk nc 1 (Q ^ d) Q b Transpose addl (getb (d mod 2) T1) coeffs) as (o & Eo & Co); try lia.
      rewrite Eo. cbn [bind]. eexists. split; [reflexivity|]. pose proof (Hstep _ _ _ Co) as Hs. destruct Co as (Lo & _ & No).
      rewrite !Nat.add_1_r. split; [simpl; ring|]. repeat (split; [congruence|]). split; [lia|]. intros _.
      rewrite Hsz in No. replace (S d) with dim in Hs, No by lia. auto.
    + assert (Hdl : nc * Q ^ dim <= length (getb ((d + 1) mod 2) T1)) by (apply getb_len; lia).
      destruct (@Hk nc 1 (Q ^ d) Q b Transpose false (getb (d mod 2) T1) (getb ((d + 1) mod 2) T1)) as (o & Eo & Co); try lia.
      rewrite Eo. cbn [bind]. eexists. split; [reflexivity|]. pose proof (Hstep _ _ _ Co) as Hs. destruct Co as (Lo & _ & No).
      destruct (@putb_len ((d + 1) mod 2) o T1 Lo) as (-> & ->). rewrite getb_putb.
      rewrite !Nat.add_1_r. split; [simpl; ring|]. repeat (split; [congruence|]). split; [|lia]. intros _. split; auto.
      intros c l Hcc Hl. rewrite Hs by auto. ring.
  - rewrite E. cbn [bind]. exists T', buf', coeffs'. repeat (split; auto); apply G; auto.
Qed.

Lemma points_t_ok : forall k Jmin npass pass dim nc np Q (x u : list R) (T : bufs R) buf coeffs, kernel_ok Jmin k -> Jmin <= Q ->
  0 < dim -> 0 < nc -> 2 <= Q -> Q <= length buf -> dim * np <= length x -> nc * Q ^ dim <= length coeffs ->
  nc * Q ^ dim <= length (fst T) -> nc * Q ^ dim <= length (snd T) -> npass * nc * np <= length u -> 0 < npass ->
  exists coeffs', points_t k npass pass dim nc np Q x u T buf coeffs = Some coeffs' /\ length coeffs' = length coeffs /\
    (forall c q, c < nc -> q < Q ^ dim -> vf coeffs' (c * Q ^ dim + q) =
      ((if np =? 0 then vf coeffs (c * Q ^ dim + q)%nat else 0) +
       sumn np (fun p => sumn npass (fun i => prodn dim (fun d => W (pass i) np p x d (dig Q d q)) * vf u ((i * nc + c) * np + p)%nat)))%R).
Proof.
  intros k Jmin npass pass dim nc np Q x u T buf coeffs Hk HJ Hd Hnc HQ Hb Hx Hc HT0 HT1 Hu Hnp. unfold points_t.
  set (h := fun i p c q => (prodn dim (fun d => W (pass i) np p x d (dig Q d q)) * vf u ((i * nc + c) * np + p)%nat)%R).
  set (inv0 := fun (st : bufs R * list R * list R) => let '(T', buf', v') := st in
    length (fst T') = length (fst T) /\ length (snd T') = length (snd T) /\ length buf' = length buf /\ length v' = length coeffs).
  match goal with |- context [forN np ?F ?s] => destruct (@forN_inv (bufs R * list R * list R)
    (fun n st => inv0 st /\ (forall c q, c < nc -> q < Q ^ dim -> vf (snd st) (c * Q ^ dim + q) =
       ((if n =? 0 then vf coeffs (c * Q ^ dim + q)%nat else 0) + sumn n (fun p => sumn npass (fun i => h i p c q)))%R))
    F np s) as ([[T' buf'] v'] & E & (L0 & L1 & Lb & Lv) & G) end.
  - split; [unfold inv0; auto|]. intros. cbn [Nat.eqb]. rewrite sumn_0. simpl. ring.
  - intros p st Hp (I0 & G0). rewrite Nat.add_1_r.
    match goal with |- context [forN npass ?F ?s] => destruct (@forN_inv (bufs R * list R * list R)
      (fun n st' => inv0 st' /\ forall c q, c < nc -> q < Q ^ dim -> vf (snd st') (c * Q ^ dim + q) =
         ((if (p =? 0) && (0 <? n) then 0 else vf (snd st) (c * Q ^ dim + q)%nat) + sumn n (fun i => h i p c q))%R)
      F npass s) as (st' & E & I1 & G1) end.
    + split; auto. intros. rewrite Bool.andb_false_r, sumn_0. ring.
    + intros i [[T1 buf1] v1] Hi ((L0 & L1 & Lb & Lv) & G1).
      assert (HT : nc <= length (fst T1)). { pose proof (@pow_pos Q dim ltac:(lia)). nia. }
      assert (Hpos : forall c, c < nc -> (i * nc + c) * np + p < length u).
      { intros c Hcc. pose proof (idx_lt Hi Hcc Hp). lia. }
      rewrite (@forN_fill _ nc (fun c => get u ((i * nc + c) * np + p)) (fun c => vf u ((i * nc + c) * np + p))); auto.
      2:{ intros c Hcc. apply get_vf. auto. }
      cbn [bind]. set (t0 := map (fun c => vf u ((i * nc + c) * np + p)) (seq 0 nc) ++ skipn nc (fst T1)).
      assert (Lt : length t0 = length (fst T1)).
      { unfold t0. rewrite app_length, map_length, seq_length, skipn_length. lia. }
      destruct (@point_expand_ok k Jmin (pass i) dim nc np Q p ((0 <? p) || ((p =? 0) && (0 <? i))) x (t0, snd T1) buf1 v1)
        as (T2 & buf2 & v2 & E & L20 & L21 & Lb2 & Lv2 & Gv & _); auto; cbn [fst snd] in *; try lia.
      rewrite E. eexists. split; [reflexivity|]. split.
      * unfold inv0. repeat (split; [congruence|]). congruence.
      * intros c q Hcc Hq. cbn [snd] in *. rewrite Gv by auto. rewrite G1 by auto. rewrite Nat.add_1_r, sumn_S.
        replace (vf t0 c) with (vf u ((i * nc + c) * np + p)).
        2:{ unfold t0, vf. rewrite app_nth1 by (rewrite map_length, seq_length; lia).
            symmetry. apply (@vf_map_seq R (fun c => vf u ((i * nc + c) * np + p)) nc c Hcc). }
        fold (h i p c q). destruct p as [|p]; cbn [Nat.ltb Nat.leb Nat.eqb andb orb].
        -- destruct i as [|i]; cbn [Nat.ltb Nat.leb]; rewrite ?sumn_0; ring.
        -- ring.
    + exists st'. split; auto. split; auto. intros c q Hcc Hq. rewrite G1 by auto. rewrite sumn_S. cbn [Nat.eqb].
      assert (0 <? npass = true) as -> by (apply Nat.ltb_lt; auto). rewrite Bool.andb_true_r. rewrite G0 by auto.
      destruct p; cbn [Nat.eqb]; rewrite ?sumn_0; ring.
  - rewrite E. cbn [bind snd]. exists v'. auto.
Qed.
End E.
Arguments W {R}. Arguments kernel_pt {R}.

(** Sums of products factor by direction. *)
Section SP.
Variable R : Rng.
Add Ring Rr5 : (r_th R).
Lemma sumn_prodn : forall Q n (f : nat -> nat -> R), 0 < Q ->
  sumn (Q ^ n) (fun q => prodn n (fun i => f i (dig Q i q))) = prodn n (fun i => sumn Q (f i)).
Proof.
  intros Q n f HQ. induction n as [|n IH]; [simpl; rewrite sumn_S, sumn_0; ring|].
  change (Q ^ S n) with (Q * Q ^ n). rewrite sumn_mul. cbn [prodn]. rewrite <- IH.
  transitivity (sumn Q (fun j => (sumn (Q ^ n) (fun l => prodn n (fun i => f i (dig Q i l))) * f n j)%R)).
  - apply sumn_ext. intros j Hj. rewrite <- sumn_mul_r. apply sumn_ext. intros l Hl.
    replace (dig Q n (j * Q ^ n + l)) with j by (symmetry; apply (@dig_at Q n 0); auto). f_equal.
    apply prodn_ext. intros i Hi. rewrite dig_low by auto. reflexivity.
  - rewrite sumn_mul_l. ring.
Qed.
End SP.
