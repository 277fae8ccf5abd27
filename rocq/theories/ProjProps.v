(** * C47: projection between bases *)
From Coq Require Import List ZArith Lia Bool Arith Reals Lra Psatz.
From Verif Require Import Prelude RstrProofs RstrModel TensorModel TensorProofs TensorMain BasisModel Digits BasisProofs BasisMain BasisApply BasisProps OpModel OpLists DenseModel DenseProofs QrModel RealLin QrProofs QrFact QrPinv QrCheb QrProps ProjModel ProjProofs.
Import ListNotations.
Local Open Scope nat_scope.

(** part [d] of a vector stored as parts of size [s] *)
Definition part {A} (s d : nat) (l : list A) : list A := firstn s (skipn (d * s) l).

(** Applying [bp] and interpolating the result with [bt] is applying [bf]; for gradients, in each direction. *)
Definition transfers (bf bt bp : basis Rrng) (D : nat) (em : emode) : Prop :=
  forall k Jmin junk ne (u w0 v0 z0 : list Rrng), @kernel_ok Rrng Jmin k -> b_wf Jmin bf -> b_wf Jmin bt -> b_wf Jmin bp ->
  let nc := b_nc bt in let X := components (b_fe bt) (b_dim bt) EvInterp in
  length u = nc * b_nodes bf * ne -> length w0 = D * (nc * b_nodes bt * ne) -> length v0 = X * nc * b_qpts bt * ne ->
  length z0 = D * (X * nc * b_qpts bt * ne) ->
  exists w z, basis_apply k junk bp ne NoTranspose em (Some u) w0 = Ok w /\
    basis_apply k junk bf ne NoTranspose em (Some u) z0 = Ok z /\
    forall d, d < D -> basis_apply k junk bt ne NoTranspose EvInterp (Some (part (nc * b_nodes bt * ne) d w)) v0 = Ok (part (X * nc * b_qpts bt * ne) d z).

Lemma list_ext : forall (A : Type) (d : A) (a b : list A), length a = length b -> (forall i, i < length a -> nth i a d = nth i b d) -> a = b.
Proof. intros A d a b L H. apply (nth_ext a b d d L H). Qed.
Lemma part_nth : forall (A : Type) (x : A) s d l i, i < s -> nth i (part s d l) x = nth (d * s + i) l x.
Proof. intros A x s d l i Hi. unfold part. rewrite <- TensorMain.nth_skipn.
  generalize (skipn (d * s) l). clear l. intros l. revert s i Hi. induction l as [|a l IH]; intros [|s] [|i] Hi; cbn; auto; try lia. apply IH. lia. Qed.
Lemma part_length : forall (A : Type) s d D (l : list A), d < D -> length l = D * s -> length (part s d l) = s.
Proof. intros A s d D l Hd L. unfold part. rewrite firstn_length, skipn_length. nia. Qed.

Section Compose.
Variables (bf bt bp : basis Rrng) (D : nat) (em : emode) (mp mt mf : list Rrng).
Hypothesis Hp : reported bp em = Some mp.
Hypothesis Ht : reported bt EvInterp = Some mt.
Hypothesis Hf : reported bf em = Some mf.
Hypothesis Npf : b_nodes bp = b_nodes bf.
Hypothesis Qpt : b_qpts bp = b_nodes bt.
Hypothesis Qft : b_qpts bf = b_qpts bt.
Hypothesis Cf : b_nc bf = b_nc bt.
Hypothesis Cp : b_nc bp = b_nc bt.
Let X := components (b_fe bt) (b_dim bt) EvInterp.
Hypothesis Dp : components (b_fe bp) (b_dim bp) em = D.
Hypothesis Df : components (b_fe bf) (b_dim bf) em = D * X.
Hypothesis Heq : forall d x q p, d < D -> x < X -> q < b_qpts bt -> p < b_nodes bf ->
  sumn (b_nodes bt) (fun r => (vf mt ((x * b_qpts bt + q) * b_nodes bt + r)%nat * vf mp ((d * b_nodes bt + r) * b_nodes bf + p)%nat)%R) =
  vf mf (((d * X + x) * b_qpts bt + q) * b_nodes bf + p).

Lemma compose : transfers bf bt bp D em.
Proof.
  intros k Jmin junk ne u w0 v0 z0 Hk Wf Wt Wp nc X' Lu Lw Lv Lz. change X' with X in *. clear X'.
  assert (Ci : reported bt EvInterp <> None) by (rewrite Ht; discriminate).
  assert (Hem : em = EvInterp \/ em = EvGrad \/ em = EvDiv \/ em = EvCurl) by (apply (reported_mode _ _ Hp)).
  assert (CD : forall b a c y, (em = EvInterp \/ em = EvGrad \/ em = EvDiv \/ em = EvCurl) ->
    a = b_nc b * b_nodes b * ne -> c = components (b_fe b) (b_dim b) y * b_nc b * b_qpts b * ne -> (y = EvInterp \/ y = EvGrad \/ y = EvDiv \/ y = EvCurl) ->
    @check_dims Rrng b ne NoTranspose y a c = true).
  { intros b a c y _ Ha Hc Hy. rewrite <- (q_comp_spec b y) in Hc. destruct Hy as [->|[->|[->| ->]]]; unfold check_dims; apply andb_true_intro; split; apply Nat.leb_le; rewrite ?Ha, ?Hc; apply Nat.eq_le_incl; ring. }
  destruct (@C14_forward Rrng k Jmin junk bp ne em mp u w0 Hk Wp Hp) as (w & Ew & Lw' & Gw & _).
  { apply CD; auto. - rewrite Cp, Npf. auto. - rewrite Dp, Cp, Qpt. rewrite Lw. unfold nc. ring. }
  destruct (@C14_forward Rrng k Jmin junk bf ne em mf u z0 Hk Wf Hf) as (z & Ez & Lz' & Gz & _).
  { apply CD; auto. - rewrite Cf. auto. - rewrite Df, Cf, Qft. rewrite Lz. unfold nc. ring. }
  exists w, z. split; auto. split; auto. intros d Hd.
  rewrite Dp, Cp, Npf, Qpt in Gw. rewrite Df, Cf, Qft in Gz. fold nc in Gw, Gz.
  assert (Lpart : length (part (nc * b_nodes bt * ne) d w) = nc * b_nodes bt * ne) by (apply (part_length _ _ d D); auto; rewrite Lw', Lw; reflexivity).
  destruct (@C14_forward Rrng k Jmin junk bt ne EvInterp mt (part (nc * b_nodes bt * ne) d w) v0 Hk Wt Ht) as (v & Ev & Lv' & Gv & _).
  { apply CD; auto. }
  rewrite Ev. f_equal. apply (list_ext _ (0%R : Rrng)).
  { rewrite Lv', Lv. symmetry. apply (part_length _ _ d D); auto. rewrite Lz', Lz. reflexivity. }
  intros i Hi. rewrite Lv', Lv in Hi. rewrite part_nth by auto.
  destruct (@dec_mul (X * nc * b_qpts bt) ne i) as (a & e & Ha & He & ->); auto.
  destruct (@dec_mul (X * nc) (b_qpts bt) a) as (a' & q & Ha' & Hq & ->); auto.
  destruct (@dec_mul X nc a') as (x & c & Hx & Hc & ->); auto.
  fold X in Gv. fold nc in Gv. pose proof (Gv x c q e Hx Hc Hq He) as E1. unfold vf in E1 at 1. rewrite E1. clear E1.
  assert (HdX : d * X + x < D * X) by nia.
  pose proof (Gz (d * X + x) c q e HdX Hc Hq He) as E2.
  replace (d * (X * nc * b_qpts bt * ne) + (((x * nc + c) * b_qpts bt + q) * ne + e)) with ((((d * X + x) * nc + c) * b_qpts bt + q) * ne + e) by ring.
  unfold vf in E2 at 1. rewrite E2. clear E2.
  transitivity (sumn (b_nodes bt) (fun r => sumn (b_nodes bf) (fun p => (vf mt ((x * b_qpts bt + q) * b_nodes bt + r)%nat * vf mp ((d * b_nodes bt + r) * b_nodes bf + p)%nat * vf u ((c * b_nodes bf + p) * ne + e)%nat)%R))).
  { apply sumn_ext. intros r Hr. assert (vf (part (nc * b_nodes bt * ne) d w) ((c * b_nodes bt + r) * ne + e) = vf w (((d * nc + c) * b_nodes bt + r) * ne + e)) as ->.
    { unfold vf. rewrite part_nth. - f_equal. ring. - assert (c * b_nodes bt + r < nc * b_nodes bt) by nia. nia. }
    rewrite Gw by auto. rewrite <- sumn_mul_l. apply sumn_ext. intros p Hp'. apply (Rmul_assoc (r_th Rrng)). }
  rewrite sumn_swap. apply sumn_ext. intros p Hp'. rewrite <- Heq by auto. rewrite <- sumn_mul_r. reflexivity.
Qed.
End Compose.

Local Open Scope R_scope.
(** [x] is [y] with values of size below [10 eps] replaced by zero *)
Definition rounds (eps x y : real) : Prop := (Rabs y < 10 * eps -> x = 0) /\ (10 * eps <= Rabs y -> x = y).
(** the [n] x [w] array [l] is, up to this rounding, the matrix whose columns give the best approximation of the columns of
    [F] by columns of [T] in the sum of squares over the [K] rows; and the exact one if the columns of [F] are combinations of those of [T] *)
Definition projects (eps : real) (K n w : nat) (T F : mtx) (l : list real) : Prop :=
  length l = (n * w)%nat /\ exists Y : mtx, (forall r c, (r < n)%nat -> (c < w)%nat -> rounds eps (at2 l w r c) (Y r c)) /\
    (forall c, (c < w)%nat -> forall z : nat -> real,
       Sum K (fun r => (mm n T Y r c - F r c)²) <= Sum K (fun r => (Sum n (fun l => T r l * z l) - F r c)²)) /\
    (forall C, eqm K w (mm n T C) F -> eqm n w Y C).
(** the columns of [F] are those of [T C], and no entry of [C] is rounded *)
Definition nested (eps : real) (K n w : nat) (T F C : mtx) : Prop :=
  eqm K w (mm n T C) F /\ forall r c, (r < n)%nat -> (c < w)%nat -> C r c = 0 \/ 10 * eps <= Rabs (C r c).
(** the comparison within 1e-14 of the constructor is exact on the matrix *)
Definition near_exact (near : real -> real -> bool) (n w : nat) (C : mtx) : Prop := forall r c, (r < n)%nat -> (c < w)%nat ->
  (near (C r c) 0 = true -> C r c = 0) /\ (near (C r c) 1 = true -> C r c = 1).
(** rows [d * NQ], ... of a matrix with [w] columns *)
Definition rows (NQ w d : nat) (m : list real) : mtx := fun q p => at2 m w (d * NQ + q)%nat p.

Lemma chop_rounds : forall eps y, rounds eps (chop eps y) y.
Proof. intros eps y. unfold rounds, chop. destruct (Rlt_dec (Rabs y) (10 * eps)); split; intros; auto; lra. Qed.
Lemma one_projects : forall eps T K n F w l, one_ok eps T K n F w l -> projects eps K n w (at2 T n) (at2 F w) l.
Proof.
  intros eps T K n F w l (L & Y & HY & HB & HC). split; auto. exists Y. split; [|split; auto].
  - intros r c Hr Hc. rewrite HY by auto. apply chop_rounds.
Qed.
Lemma projects_nested : forall eps K n w T F l C, projects eps K n w T F l -> nested eps K n w T F C -> eqm n w (at2 l w) C.
Proof.
  intros eps K n w T F l C (L & Y & HY & _ & HC) (HN & Hz) r c Hr Hc. destruct (HY r c Hr Hc) as (R1 & R2). rewrite (HC C HN r c Hr Hc) in *.
  destruct (Hz r c Hr Hc) as [E|E]; [|auto]. rewrite E in *. destruct (Rlt_dec (Rabs 0) (10 * eps)); auto. apply R2. lra.
Qed.
Lemma projects_rows : forall eps K n w T G s l, projects eps K n w T (at2 (skipn (s * w)%nat G) w) l -> projects eps K n w T (fun q p => at2 G w (s + q)%nat p) l.
Proof.
  intros eps K n w T G s l (L & Y & HY & HB & HC). assert (E : forall q p, at2 (skipn (s * w)%nat G) w q p = at2 G w (s + q)%nat p).
  { intros q p. unfold at2, ent. rewrite TensorMain.nth_skipn. f_equal. lia. }
  split; auto. exists Y. split; auto. split.
  - intros c Hc z. specialize (HB c Hc z). rewrite (Sum_ext K _ (fun r => (mm n T Y r c - at2 (skipn (s * w)%nat G) w r c)²)) by (intros; rewrite E; auto).
    rewrite (Sum_ext K (fun r => (Sum n (fun l => T r l * z l) - at2 G w (s + r)%nat c)²) (fun r => (Sum n (fun l => T r l * z l) - at2 (skipn (s * w)%nat G) w r c)²)) by (intros; rewrite E; auto). exact HB.
  - intros C HH. apply HC. intros r c Hr Hc. rewrite HH by auto. symmetry. apply E.
Qed.

(** ** two tensor bases: the 1D matrices *)
Theorem C47_matrices_tensor : forall eps junk (f t : tbasis Rrng), sizes_ok f -> sizes_ok t -> t_dim f = t_dim t -> t_Q f = t_Q t -> (t_P t <= t_Q t)%nat ->
  indep (t_Q t) (t_P t) (at2 (t_interp t) (t_P t)) ->
  exists ip gp, proj_matrices eps junk (BT f) (BT t) = Ok (ip, gp) /\
    projects eps (t_Q t) (t_P t) (t_P f) (at2 (t_interp t) (t_P t)) (at2 (t_interp f) (t_P f)) ip /\
    projects eps (t_Q t) (t_P t) (t_P f) (at2 (t_interp t) (t_P t)) (at2 (t_grad f) (t_P f)) gp.
Proof.
  intros eps junk f t (_ & _ & HPf & HQf & Hif & Hgf & _) (_ & _ & HPt & HQt & Hit & _ & _) Ed EQ HK Hind. unfold proj_matrices. cbn [b_qpts b_fe]. rewrite Ed, EQ, Nat.eqb_refl. cbn [negb fe_eqb].
  destruct (core_ok eps junk (t_interp t) (t_Q t) (t_P t) HPt HK) with (h1 := true) (Q := t_Q t) (qc := 1%nat) (w := t_P f) (nd := 1%nat) (F := t_interp f) (G := t_grad f)
    as (ip & gp & E & O1 & Lg & Og); auto; try (change (car Rrng) with real in *; nia).
  exists ip, gp. split; [exact E|]. split; [apply one_projects; exact O1|].
  specialize (Og eq_refl 0%nat ltac:(lia)). cbn [Nat.mul skipn] in Og. rewrite firstn_all2 in Og by lia. apply one_projects. exact Og.
Qed.

(** ** otherwise: the full matrices *)
Definition not_both_tensor (a b : basis Rrng) : Prop := match a, b with BT _, BT _ => False | _, _ => True end.
Lemma interp_of_reported : forall b, interp_of b = ofopt (@reported Rrng b EvInterp).
Proof. intros [t|n]; reflexivity. Qed.
Lemma reported_len : forall Jmin (b : basis Rrng) em m, b_wf Jmin b -> reported b em = Some m -> (components (b_fe b) (b_dim b) em * b_qpts b * b_nodes b <= length m)%nat.
Proof.
  intros Jmin [t|n] em m Hb Hm; rewrite <- (q_comp_spec _ em).
  - destruct Hb as (Hs & _). destruct em; try discriminate; cbn in Hm.
    + destruct (@get_interp_ok Rrng t Hs) as (m' & E & L & _). rewrite Hm in E. injection E as <-. cbn. change (car Rrng) with real in *. lia.
    + destruct (@get_grad_ok Rrng t Hs) as (m' & E & L & _). rewrite Hm in E. injection E as <-. cbn. change (car Rrng) with real in *. lia.
  - destruct Hb as (_ & _ & _ & _ & _ & _ & H). specialize (H em m Hm). cbn [b_qpts b_nodes]. change (car Rrng) with real in *. nia.
Qed.
Lemma b_pos : forall Jmin (b : basis Rrng), b_wf Jmin b -> (0 < b_nodes b /\ 0 < b_qpts b /\ 0 < b_nc b /\ Jmin <= b_nodes b)%nat.
Proof.
  intros Jmin [t|n] Hb.
  - destruct Hb as ((Hd & Hc & HP & HQ & _) & J1 & J2 & _). cbn [b_nodes b_qpts b_nc].
    assert ((t_P t <= t_P t ^ t_dim t)%nat). { destruct (t_dim t) as [|d]; [lia|]. rewrite Nat.pow_succ_r'. pose proof (pow_pos d HP). nia. }
    pose proof (pow_pos (t_dim t) HP). pose proof (pow_pos (t_dim t) HQ). lia.
  - destruct Hb as (Hc & HP & HQ & JP & JQ & _). cbn. lia.
Qed.

Theorem C47_matrices : forall eps junk Jmin (bf bt : basis Rrng) T F G, not_both_tensor bf bt -> b_wf Jmin bf -> b_wf Jmin bt ->
  b_dim bf = b_dim bt -> b_qpts bf = b_qpts bt -> b_fe bf = b_fe bt ->
  reported bt EvInterp = Some T -> reported bf EvInterp = Some F -> (b_fe bf = H1 -> reported bf EvGrad = Some G) ->
  let K := (components (b_fe bt) (b_dim bt) EvInterp * b_qpts bt)%nat in let n := b_nodes bt in let w := b_nodes bf in
  (n <= K)%nat -> indep K n (at2 T n) ->
  exists ip gp, proj_matrices eps junk bf bt = Ok (ip, gp) /\ projects eps K n w (at2 T n) (at2 F w) ip /\ length gp = (b_dim bf * n * w)%nat /\
    (b_fe bf = H1 -> forall d, (d < b_dim bf)%nat -> projects eps K n w (at2 T n) (rows (b_qpts bt) w d G) (part (n * w)%nat d gp)).
Proof.
  intros eps junk Jmin bf bt T F G Hnb Wf Wt Ed EQ Efe HT HF HG K n w HK Hind.
  pose proof (reported_len _ _ _ _ Wt HT) as LT. pose proof (reported_len _ _ _ _ Wf HF) as LF. destruct (b_pos _ _ Wt) as (Pn & PQ & _). fold n in Pn.
  assert (Hq : q_comp bf EvInterp = components (b_fe bt) (b_dim bt) EvInterp) by (rewrite q_comp_spec, Ed, Efe; reflexivity).
  assert (X : proj_matrices eps junk bf bt = proj_core eps junk (is_h1 (b_fe bt)) (b_qpts bt) (q_comp bf EvInterp) n w (b_dim bf) T F (if is_h1 (b_fe bt) then G else [])).
  { unfold proj_matrices. rewrite EQ, Nat.eqb_refl, Efe. cbn [negb]. assert (fe_eqb (b_fe bt) (b_fe bt) = true) as -> by (destruct (b_fe bt); reflexivity). cbn [negb].
    assert (GG : (fg <~ (if is_h1 (b_fe bt) then grad_of bf else Ok []) ;; proj_core eps junk (is_h1 (b_fe bt)) (b_qpts bt) (q_comp bf EvInterp) n w (b_dim bf) T F fg) =
       proj_core eps junk (is_h1 (b_fe bt)) (b_qpts bt) (q_comp bf EvInterp) n w (b_dim bf) T F (if is_h1 (b_fe bt) then G else [])).
    { destruct (is_h1 (b_fe bt)) eqn:E1; [|reflexivity]. assert (Eh : b_fe bf = H1) by (rewrite Efe; destruct (b_fe bt); auto; discriminate). specialize (HG Eh).
      destruct bf as [f|f]; cbn in HG |- *; [rewrite HG; reflexivity|]. cbn in Eh. rewrite Eh in HG. injection HG as <-. reflexivity. }
    pose proof (interp_of_reported bt) as I1. rewrite HT in I1. pose proof (interp_of_reported bf) as I2. rewrite HF in I2.
    destruct bf as [f|f], bt as [t|t]; try (exfalso; exact Hnb);
    (etransitivity; [|exact GG]); rewrite I1, I2; reflexivity. }
  rewrite X. fold K in LT.
  assert (HKq : (b_qpts bt * q_comp bf EvInterp)%nat = K) by (rewrite Hq; unfold K; lia).
  destruct (core_ok eps junk T K n Pn HK) with (h1 := is_h1 (b_fe bt)) (Q := b_qpts bt) (qc := q_comp bf EvInterp) (w := w) (nd := b_dim bf) (F := F) (G := if is_h1 (b_fe bt) then G else [])
    as (ip & gp & E & O1 & Lg & Og); auto.
  - change (car Rrng) with real in *. rewrite Ed, Efe, EQ in LF. exact LF.
  - intros Eh. rewrite Eh. assert (E1 : b_fe bf = H1) by (rewrite Efe; destruct (b_fe bt); auto; discriminate). split; [rewrite q_comp_spec, E1; reflexivity|].
    specialize (HG E1). pose proof (reported_len _ _ _ _ Wf HG) as LG. rewrite E1, EQ in LG. exact LG.
  - exists ip, gp. split; auto. split; [apply one_projects; auto|]. split; [lia|]. intros E1 d Hd. assert (Eh : is_h1 (b_fe bt) = true) by (rewrite <- Efe, E1; reflexivity). specialize (Og Eh d Hd).
    rewrite Eh in Og. apply projects_rows. apply one_projects. exact Og.
Qed.

Lemma collo_total : forall near P Q (interp : list Rrng), (P * Q <= length interp)%nat -> exists c, @collo_test Rrng near P Q interp = Some c.
Proof.
  intros near P Q interp L. unfold collo_test. destruct (Nat.eqb_spec Q P) as [->|]; [|eauto].
  match goal with |- exists c, forN P ?F true = _ => destruct (@forN_inv bool (fun _ _ => True) F P true) as (h & E & _) end; auto; [|eauto].
  intros i h Hi _. rewrite get_vf by nia. cbn [bind].
  match goal with |- exists c, forN P ?F ?s = _ /\ _ => destruct (@forN_inv bool (fun _ _ => True) F P s) as (h' & E & _) end; auto; [|eauto].
  intros j h' Hj _. destruct (j =? i); [eauto|]. rewrite get_vf by nia. cbn [bind]. eauto.
Qed.
Lemma tensor_create_qr_ok : forall junk near Jmin dim nc P Q (interp grad w : list real), (0 < dim)%nat -> (0 < nc)%nat -> (0 < P)%nat -> (0 < Q)%nat -> (Jmin <= P)%nat -> (Jmin <= Q)%nat ->
  length interp = (P * Q)%nat -> length grad = (P * Q)%nat -> length w = Q -> ((P <= Q)%nat -> indep Q P (at2 interp P)) ->
  (forall x, In x interp -> (near x 0 = true -> x = 0) /\ (near x 1 = true -> x = 1)) ->
  exists t, tensor_create_qr junk near dim nc P Q interp grad w = Ok t /\ b_wf Jmin (BT t) /\
    t_dim t = dim /\ t_nc t = nc /\ t_P t = P /\ t_Q t = Q /\ t_interp t = interp /\ t_grad t = grad.
Proof.
  intros junk near Jmin dim nc P Q interp grad w Hd Hn HP HQ J1 J2 Li Lg Lw Hind Hnear.
  destruct (collo_total near P Q interp) as (c & Ec); [change (car Rrng) with real; lia|].
  assert (Cg : forall cgf, @tensor_create Rrng near cgf dim nc P Q interp grad w = Ok (@mkT Rrng dim nc P Q interp grad w c (if (P <=? Q)%nat && negb c then Some (cgf P Q interp grad) else None))).
  { intros cgf. unfold tensor_create. destruct (Nat.eqb_spec dim 0); [lia|]. destruct (Nat.eqb_spec nc 0); [lia|]. destruct (Nat.eqb_spec P 0); [lia|]. destruct (Nat.eqb_spec Q 0); [lia|]. rewrite Ec. reflexivity. }
  assert (W : forall t, @tensor_create Rrng near (cgf_of junk) dim nc P Q interp grad w = Ok t -> b_wf Jmin (BT t)).
  { intros t Et. apply (@C14_created Rrng near (cgf_of junk) Jmin dim nc P Q interp grad w t Et); auto.
    intros HPQ. destruct (collo_grad_ok junk P Q interp grad HP HPQ) as (cg & E & L & G); auto; try lia.
    unfold cgf_of. rewrite E. split; [change (car Rrng) with real; lia|]. intros q p Hq Hp. etransitivity; [apply (Sum_sumn Q)|]. exact (G q p Hq Hp). }
  unfold tensor_create_qr. rewrite (Cg (fun _ _ _ _ => [])). cbn [rbind t_cg t_collo].
  destruct ((P <=? Q)%nat && negb c) eqn:Eb.
  - apply andb_prop in Eb. destruct Eb as (E1 & E2). apply Nat.leb_le in E1.
    destruct (collo_grad_ok junk P Q interp grad HP E1) as (cg & E & L & G); auto; try lia.
    rewrite E. cbn [rbind]. eexists. split; [reflexivity|]. split; [|repeat split].
    apply W. rewrite Cg. unfold cgf_of. rewrite E. reflexivity.
  - eexists. split; [reflexivity|]. split; [|repeat split]. apply W. rewrite Cg. reflexivity.
Qed.

Lemma nested_indep : forall eps K n w T F C A, nested eps K n w T F C -> indep K w F -> eqm n w A C -> indep n w A.
Proof.
  intros eps K n w T F C A (HN & _) HF HA c Hz. apply HF. intros r Hr.
  rewrite (Sum_ext w _ (fun j => Sum n (fun l => T r l * (A l j * c j)))).
  2: { intros j Hj. rewrite <- HN by auto. unfold mm. rewrite <- Sum_mulr. apply Sum_ext. intros l Hl. rewrite HA by auto. ring. }
  rewrite Sum_swap. apply Sum_zero. intros l Hl. rewrite Sum_mul, Hz by auto. ring.
Qed.
Lemma near_in : forall near n w C l, length l = (n * w)%nat -> eqm n w (at2 l w) C -> near_exact near n w C ->
  forall x, In x l -> (near x 0 = true -> x = 0) /\ (near x 1 = true -> x = 1).
Proof.
  intros near n w C l L HE HN x Hx. apply (In_nth l x 0) in Hx. destruct Hx as (i & Hi & <-). rewrite L in Hi. destruct (@dec_mul n w i Hi) as (r & c & Hr & Hc & ->).
  pose proof (HE r c Hr Hc) as E. unfold at2, ent in E. rewrite E. apply HN; auto.
Qed.

(** The created basis carries coefficients of basis_from to the coefficients of the same function in basis_to: nested spaces,
    unisolvent quadrature. *)
Theorem C47_nested_tensor : forall eps junk near Jmin (f t : tbasis Rrng) C D, b_wf Jmin (BT f) -> b_wf Jmin (BT t) ->
  t_dim f = t_dim t -> t_Q f = t_Q t -> t_nc f = t_nc t -> (t_P t <= t_Q t)%nat ->
  indep (t_Q t) (t_P t) (at2 (t_interp t) (t_P t)) -> ((t_P f <= t_P t)%nat -> indep (t_Q t) (t_P f) (at2 (t_interp f) (t_P f))) ->
  nested eps (t_Q t) (t_P t) (t_P f) (at2 (t_interp t) (t_P t)) (at2 (t_interp f) (t_P f)) C ->
  nested eps (t_Q t) (t_P t) (t_P f) (at2 (t_interp t) (t_P t)) (at2 (t_grad f) (t_P f)) D ->
  near_exact near (t_P t) (t_P f) C ->
  exists p, create_projection eps junk near (BT f) (BT t) = Ok (BT p) /\ b_wf Jmin (BT p) /\
    t_dim p = t_dim t /\ t_nc p = t_nc t /\ t_P p = t_P f /\ t_Q p = t_P t /\
    eqm (t_P t) (t_P f) (at2 (t_interp p) (t_P f)) C /\ eqm (t_P t) (t_P f) (at2 (t_grad p) (t_P f)) D /\
    transfers (BT f) (BT t) (BT p) 1 EvInterp /\ transfers (BT f) (BT t) (BT p) (t_dim t) EvGrad.
Proof.
  intros eps junk near Jmin f t C D Wf Wt Ed EQ Enc HK Hind HindF NC ND Hnear.
  pose proof Wf as (Sf & Jf & JQ & _). pose proof Wt as (St & Jt & _ & _).
  destruct (C47_matrices_tensor eps junk f t Sf St Ed EQ HK Hind) as (ip & gp & E & PC & PD).
  pose proof (projects_nested _ _ _ _ _ _ _ _ PC NC) as EC. pose proof (projects_nested _ _ _ _ _ _ _ _ PD ND) as ED.
  destruct PC as (LC & _). destruct PD as (LD & _).
  destruct Sf as (Hd & Hn & HPf & HQf & Hif & Hgf & _). destruct St as (Hd' & Hn' & HPt & HQt & Hit & Hgt & Hwt).
  destruct (tensor_create_qr_ok junk near Jmin (t_dim t) (t_nc f) (t_P f) (t_P t) ip gp (repeat 0 (t_P t))) as (p & Ep & Wp & P1 & P2 & P3 & P4 & P5 & P6); auto; try lia.
  { apply repeat_length. } { intros HPP. exact (nested_indep _ _ _ _ _ _ _ _ NC (HindF HPP) EC). } { eapply near_in; eauto. }
  exists p. unfold create_projection. rewrite E. cbn [rbind]. rewrite Ep. cbn [rbind]. split; auto. split; auto. split; auto. split; [rewrite P2; auto|]. split; auto. split; auto.
  rewrite P5, P6. split; auto. split; auto.
  destruct (@get_interp_ok Rrng f) as (mf & Emf & _ & Gf); [apply Wf|]. destruct (@get_interp_ok Rrng t) as (mt & Emt & _ & Gt); [apply Wt|]. destruct (@get_interp_ok Rrng p) as (mp & Emp & _ & Gp); [apply Wp|].
  destruct (@get_grad_ok Rrng f) as (gf & Egf & _ & Ggf); [apply Wf|]. destruct (@get_grad_ok Rrng p) as (gp' & Egp & _ & Ggp); [apply Wp|].
  split.
  - apply compose with (mp := mp) (mt := mt) (mf := mf); auto; cbn [b_nodes b_qpts b_nc b_fe b_dim components]; try (rewrite ?P1, ?P2, ?P3, ?P4, ?Ed, ?EQ, ?Enc; reflexivity).
    intros d x q r Hd1 Hx Hq Hr. assert (d = 0)%nat as -> by lia. assert (x = 0)%nat as -> by lia. cbn [Nat.mul Nat.add]. rewrite Ed in Hr.
    rewrite P1, P3, P4 in Gp. rewrite Ed, EQ in Gf. rewrite Ed. rewrite Gf by auto. unfold FI. rewrite Ed, EQ.
    pose proof (kron_mm Rrng (t_dim t) (t_P t) (fun i j => vf (t_interp t) (dig (t_Q t) i q * t_P t + j)%nat) (fun i j => vf (t_interp p) (j * t_P f + dig (t_P f) i r)%nat)) as KM. cbv beta in KM.
    etransitivity; [etransitivity; [|exact KM]|clear KM].
    + apply sumn_ext. intros l Hl. rewrite Gt by auto. rewrite Gp by auto. unfold FI. rewrite P1, P3, P4. reflexivity.
    + apply prodn_ext. intros i Hi. pose proof (proj1 NC (dig (t_Q t) i q) (dig (t_P f) i r) (dig_lt i q HQt) (dig_lt i r HPf)) as X.
      etransitivity; [apply (Sum_sumn (t_P t))|]. etransitivity; [|exact X]. apply Sum_ext. intros l Hl. rewrite <- EC by (auto; apply dig_lt; auto). rewrite P5. reflexivity.
  - apply compose with (mp := gp') (mt := mt) (mf := gf); auto; cbn [b_nodes b_qpts b_nc b_fe b_dim components]; try (rewrite ?P1, ?P2, ?P3, ?P4, ?Ed, ?EQ, ?Enc; try reflexivity; lia).
    intros d x q r Hd1 Hx Hq Hr. assert (x = 0)%nat as -> by lia. rewrite Nat.mul_1_r, Nat.add_0_r. cbn [Nat.mul Nat.add]. rewrite Ed in Hr.
    rewrite P1, P3, P4 in Ggp. rewrite Ed, EQ in Ggf. rewrite Ed. rewrite Ggf by auto. unfold FG. rewrite Ed, EQ.
    pose proof (kron_mm Rrng (t_dim t) (t_P t) (fun i j => vf (t_interp t) (dig (t_Q t) i q * t_P t + j)%nat) (fun i j => vf (if i =? d then t_grad p else t_interp p) (j * t_P f + dig (t_P f) i r)%nat)) as KM. cbv beta in KM.
    etransitivity; [etransitivity; [|exact KM]|clear KM].
    + apply sumn_ext. intros l Hl. rewrite Gt by auto. rewrite Ggp by auto. unfold FI, FG. rewrite P1, P3, P4. reflexivity.
    + apply prodn_ext. intros i Hi. destruct (i =? d)%nat.
      * pose proof (proj1 ND (dig (t_Q t) i q) (dig (t_P f) i r) (dig_lt i q HQt) (dig_lt i r HPf)) as X.
        etransitivity; [apply (Sum_sumn (t_P t))|]. etransitivity; [|exact X]. apply Sum_ext. intros l Hl. rewrite <- ED by (auto; apply dig_lt; auto). rewrite P6. reflexivity.
      * pose proof (proj1 NC (dig (t_Q t) i q) (dig (t_P f) i r) (dig_lt i q HQt) (dig_lt i r HPf)) as X.
        etransitivity; [apply (Sum_sumn (t_P t))|]. etransitivity; [|exact X]. apply Sum_ext. intros l Hl. rewrite <- EC by (auto; apply dig_lt; auto). rewrite P5. reflexivity.
Qed.

Theorem C47_nested : forall eps junk near Jmin (bf bt : basis Rrng) T F G C D, not_both_tensor bf bt -> b_wf Jmin bf -> b_wf Jmin bt ->
  (b_dim bf <= 3)%nat -> b_dim bf = b_dim bt -> b_qpts bf = b_qpts bt -> b_fe bf = b_fe bt -> b_nc bf = b_nc bt ->
  reported bt EvInterp = Some T -> reported bf EvInterp = Some F -> (b_fe bf = H1 -> reported bf EvGrad = Some G) ->
  let K := (components (b_fe bt) (b_dim bt) EvInterp * b_qpts bt)%nat in let n := b_nodes bt in let w := b_nodes bf in
  (n <= K)%nat -> indep K n (at2 T n) -> nested eps K n w (at2 T n) (at2 F w) C ->
  (b_fe bf = H1 -> forall d, (d < b_dim bf)%nat -> nested eps K n w (at2 T n) (rows (b_qpts bt) w d G) (D d)) ->
  exists p ip gp, create_projection eps junk near bf bt = Ok (BN p) /\ b_wf Jmin (BN p) /\
    n_fe p = H1 /\ n_dim p = b_dim bf /\ n_nc p = b_nc bf /\ n_P p = w /\ n_Q p = n /\ reported (BN p) EvInterp = Some ip /\ reported (BN p) EvGrad = Some gp /\
    eqm n w (at2 ip w) C /\ (b_fe bf = H1 -> forall d, (d < b_dim bf)%nat -> eqm n w (rows n w d gp) (D d)) /\
    transfers bf bt (BN p) 1 EvInterp /\ (b_fe bf = H1 -> transfers bf bt (BN p) (b_dim bf) EvGrad).
Proof.
  intros eps junk near Jmin bf bt T F G C D Hnb Wf Wt H3 Ed EQ Efe Enc HT HF HG K n w HK Hind NC ND.
  destruct (C47_matrices eps junk Jmin bf bt T F G Hnb Wf Wt Ed EQ Efe HT HF HG HK Hind) as (ip & gp & E & PC & LD & PD). fold n w K in PC, LD, PD.
  pose proof (projects_nested _ _ _ _ _ _ _ _ PC NC) as EC.
  assert (ED : b_fe bf = H1 -> forall d, (d < b_dim bf)%nat -> eqm n w (rows n w d gp) (D d)).
  { intros Eh d Hd. pose proof (projects_nested _ _ _ _ _ _ _ _ (PD Eh d Hd) (ND Eh d Hd)) as X. intros r c Hr Hc. rewrite <- X by auto. unfold rows, at2, ent. rewrite part_nth by nia. f_equal. ring. }
  destruct PC as (LC & _).
  destruct (b_pos _ _ Wf) as (Pw & _ & Pnc & Jw). destruct (b_pos _ _ Wt) as (Pn & _ & _ & Jn). fold w in Pw, Jw. fold n in Pn, Jn.
  destruct (@C14_created_nontensor Rrng Jmin H1 (b_dim bf) (b_nc bf) w n ip gp (repeat 0 n)) as (p & Ep & Wp & P1 & P2 & P3 & P4 & P5 & _ & P6 & P7); auto.
  { cbn [components]. change (car Rrng) with real. lia. } { apply repeat_length. }
  assert (Et : topo_dim bf = b_dim bf) by (destruct bf; [apply Nat.min_r; exact H3|reflexivity]).
  exists p, ip, gp. split.
  { unfold create_projection. rewrite E. cbn [rbind]. rewrite Et. fold n w. destruct bf, bt; try (exfalso; exact Hnb); rewrite Ep; reflexivity. }
  split; auto. split; auto. split; auto. split; auto. split; auto. split; auto. split; auto. split; auto. split; auto. split; auto. split.
  - apply compose with (mp := ip) (mt := T) (mf := F); auto; cbn [b_nodes b_qpts b_nc b_fe b_dim]; rewrite ?P1, ?P2, ?P3, ?P4, ?P5; auto.
    { rewrite Ed, Efe. lia. }
    intros d x q r Hd1 Hx Hq Hr. assert (d = 0)%nat as -> by lia. cbn [Nat.mul Nat.add].
    assert (Hrow : (x * b_qpts bt + q < K)%nat) by (unfold K; nia). fold n. fold w in Hr |- *.
    pose proof (proj1 NC (x * b_qpts bt + q)%nat r Hrow Hr) as X. etransitivity; [apply (Sum_sumn n)|]. etransitivity; [|exact X]. apply Sum_ext. intros l Hl. rewrite <- EC by auto. reflexivity.
  - intros Eh. apply compose with (mp := gp) (mt := T) (mf := G); auto; cbn [b_nodes b_qpts b_nc b_fe b_dim]; rewrite ?P1, ?P2, ?P3, ?P4, ?P5; auto.
    { rewrite <- Efe, Eh. cbn [components]. lia. }
    intros d x q r Hd1 Hx Hq Hr. rewrite <- Efe, Eh in Hx |- *. cbn [components] in Hx |- *. assert (x = 0)%nat as -> by lia. rewrite Nat.mul_1_r, Nat.add_0_r. cbn [Nat.mul Nat.add]. fold n. fold w in Hr |- *.
    assert (Hrow : (q < K)%nat) by (unfold K; rewrite <- Efe, Eh; cbn [components]; lia).
    pose proof (proj1 (ND Eh d Hd1) q r Hrow Hr) as X. etransitivity; [apply (Sum_sumn n)|]. etransitivity; [|exact X]. apply Sum_ext. intros l Hl. rewrite <- (ED Eh d Hd1 l r) by auto. reflexivity.
Qed.

(** What is refused. *)
Theorem C47_refuses : forall eps junk near (bf bt : basis Rrng),
  (b_qpts bt <> b_qpts bf -> create_projection eps junk near bf bt = Err ERR_DIMENSION) /\
  (b_qpts bt = b_qpts bf -> b_fe bt <> b_fe bf -> create_projection eps junk near bf bt = Err ERR_MINOR) /\
  (forall f t, bf = BT f -> bt = BT t -> sizes_ok t -> t_dim f = t_dim t -> t_Q f = t_Q t -> (t_Q t < t_P t)%nat -> create_projection eps junk near bf bt = Err ERR_UNSUPPORTED).
Proof.
  intros eps junk near bf bt. split; [|split].
  - intros H. unfold create_projection, proj_matrices. destruct (Nat.eqb_spec (b_qpts bt) (b_qpts bf)); [contradiction|reflexivity].
  - intros E H. unfold create_projection, proj_matrices. rewrite E, Nat.eqb_refl. cbn [negb]. destruct (b_fe bt), (b_fe bf); try contradiction; try reflexivity.
  - intros f t -> -> (_ & _ & _ & _ & Hi & _) Ed EQ H. unfold create_projection, proj_matrices. cbn [b_qpts b_fe]. rewrite Ed, EQ, Nat.eqb_refl. cbn [negb fe_eqb]. unfold proj_core, pinv, qr.
    rewrite Nat.mul_1_r. destruct (Nat.leb_spec (t_P t) (t_Q t)); [lia|]. cbn [negb rbind].
    match goal with |- context [negb (t_Q t * t_P t <=? ?x)%nat] => destruct (Nat.leb_spec (t_Q t * t_P t) x) as [_|Hc]; [reflexivity|exfalso; rewrite Nat.mul_comm in Hc; exact (Nat.lt_irrefl _ (Nat.lt_le_trans _ _ _ Hc Hi))] end.
Qed.

(** The projection of a space to itself is the identity. *)
Theorem C47_identity : forall eps junk (f t : tbasis Rrng), sizes_ok f -> sizes_ok t -> t_dim f = t_dim t -> t_Q f = t_Q t -> t_P f = t_P t -> (t_P t <= t_Q t)%nat ->
  indep (t_Q t) (t_P t) (at2 (t_interp t) (t_P t)) -> t_interp f = t_interp t -> 10 * eps <= 1 ->
  exists ip gp, proj_matrices eps junk (BT f) (BT t) = Ok (ip, gp) /\ eqm (t_P t) (t_P t) (at2 ip (t_P t)) idm.
Proof.
  intros eps junk f t Sf St Ed EQ EP HK Hind Ei He. destruct (C47_matrices_tensor eps junk f t Sf St Ed EQ HK Hind) as (ip & gp & E & PC & _).
  exists ip, gp. split; auto. rewrite EP, Ei in PC. eapply projects_nested; [exact PC|]. split.
  - intros r c Hr Hc. apply mm_id_r. auto.
  - intros r c Hr Hc. unfold idm. destruct (r =? c); [right; rewrite Rabs_R1; auto|left; auto].
Qed.

(** finding: CeedBasisCreateProjection only compares the total number of quadrature points (ceed-basis.c:201-207).  Two tensor
    bases of different dimension can have the same total; the 1D matrix of basis_to is then read with the number of 1D
    points of basis_from, past its end when that is larger. *)
Definition const_basis (dim Q : nat) : tbasis Rrng := @mkT Rrng dim 1 1 Q (repeat 1 Q) (repeat 0 Q) (repeat 1 Q) false None.
Lemma const_wf : forall dim Q, (0 < dim)%nat -> (0 < Q)%nat -> b_wf 0 (BT (const_basis dim Q)).
Proof.
  intros dim Q Hd HQ. unfold const_basis. cbn. unfold t_wf, sizes_ok. cbn. rewrite !repeat_length. split; [repeat split; lia|]. split; [lia|]. split; [lia|]. split; discriminate.
Qed.
Lemma const_indep : forall Q n, (0 < n)%nat -> (n <= Q)%nat -> indep n 1 (at2 (repeat 1 Q) 1).
Proof.
  intros Q n Hn HQ c H j Hj. assert (j = 0)%nat as -> by lia. specialize (H 0%nat Hn). cbn [Sum] in H. unfold at2, ent in H. cbn [Nat.mul Nat.add] in H.
  destruct Q; [lia|]. cbn [repeat nth] in H. lra.
Qed.
Theorem C47_overread_refuted : exists bf bt : basis Rrng, b_wf 0 bf /\ b_wf 0 bt /\ b_qpts bf = b_qpts bt /\ b_fe bf = b_fe bt /\ b_nc bf = b_nc bt /\
  forall eps junk near, create_projection eps junk near bf bt = UB.
Proof.
  exists (BT (const_basis 1 4)), (BT (const_basis 2 2)). split; [apply const_wf; lia|]. split; [apply const_wf; lia|]. repeat split.
Qed.
(** finding: in the opposite case only the first 1D points of basis_to are used, and the result has neither the nodes of
    basis_from nor an error. *)
Definition pair_basis : tbasis Rrng := @mkT Rrng 2 1 2 2 [1; 0; 0; 1] [-1; 1; -1; 1] [1; 1] true None.
Theorem C47_dims_refuted : exists bf bt : basis Rrng, b_wf 0 bf /\ b_wf 0 bt /\ b_qpts bf = b_qpts bt /\ b_fe bf = b_fe bt /\ b_nc bf = b_nc bt /\
  forall eps junk near, exists bp, create_projection eps junk near bf bt = Ok bp /\ b_nodes bp <> b_nodes bf.
Proof.
  exists (BT pair_basis), (BT (const_basis 1 4)).
  split. { unfold pair_basis. cbn. unfold t_wf, sizes_ok. cbn. split; [repeat split; lia|]. split; [lia|]. split; [lia|]. split; [|discriminate].
    intros _. split; auto. split; auto. intros q p Hq Hp. destruct q as [|[|q]]; try lia; destruct p as [|[|p]]; try lia; reflexivity. }
  split; [apply const_wf; lia|]. split; [reflexivity|]. split; [reflexivity|]. split; [reflexivity|]. intros eps junk near.
  destruct (core_ok eps junk (repeat 1 4) 2 1) with (h1 := true) (Q := 2%nat) (qc := 1%nat) (w := 2%nat) (nd := 1%nat) (F := [1; 0; 0; 1]) (G := [-1; 1; -1; 1]) as (ip & gp & E & O1 & Lg & _); auto; try (cbn; lia).
  { apply const_indep; lia. }
  unfold create_projection. assert (proj_matrices eps junk (BT pair_basis) (BT (const_basis 1 4)) = Ok (ip, gp)) as -> by exact E. cbn [rbind].
  eexists. split; [reflexivity|]. cbn. lia.
Qed.
Print Assumptions C47_matrices_tensor. Print Assumptions C47_matrices. Print Assumptions C47_nested_tensor. Print Assumptions C47_nested.
Print Assumptions C47_refuses. Print Assumptions C47_identity. Print Assumptions C47_overread_refuted. Print Assumptions C47_dims_refuted.

(** ** Examples: linear to quadratic elements at three points, in two dimensions and as a non-tensor line element *)
Definition exI : list real := [1; 0; 0; 0; 1; 0; 0; 0; 1].
Definition exF : list real := [1; 0; / 2; / 2; 0; 1].
Definition exG : list real := [- / 2; / 2; - / 2; / 2; - / 2; / 2].
Definition ex_f : tbasis Rrng := @mkT Rrng 2 1 2 3 exF exG [1; 1; 1] false None.
Definition ex_t : tbasis Rrng := @mkT Rrng 2 1 3 3 exI exI [1; 1; 1] true None.
Definition ex_nf : nbasis Rrng := @mkN Rrng 1 1 2 3 H1 exF exG [] [] [1; 1; 1].
Definition ex_nt : nbasis Rrng := @mkN Rrng 1 1 3 3 H1 exI exI [] [] [1; 1; 1].
Lemma ex_wf : b_wf 2 (BT ex_f) /\ b_wf 2 (BT ex_t) /\ b_wf 2 (BN ex_nf) /\ b_wf 2 (BN ex_nt).
Proof.
  split; [|split; [|split]]; cbn; unfold t_wf, sizes_ok; cbn.
  - repeat (split; try lia); discriminate.
  - split; [repeat split; lia|]. split; [lia|]. split; [lia|]. split; [|discriminate]. intros _. split; auto. split; auto.
    intros [|[|[|q]]] [|[|[|p]]] Hq Hp; try lia; reflexivity.
  - repeat (split; try lia). intros [] m Hm; try discriminate; injection Hm as <-; cbn; lia.
  - repeat (split; try lia). intros [] m Hm; try discriminate; injection Hm as <-; cbn; lia.
Qed.
Lemma ex_indep : indep 3 3 (at2 exI 3) /\ indep 3 2 (at2 exF 2).
Proof.
  split; intros c H.
  - pose proof (H 0%nat ltac:(lia)) as H0. pose proof (H 1%nat ltac:(lia)) as H1. pose proof (H 2%nat ltac:(lia)) as H2. unfold at2, ent in *. cbn in H0, H1, H2. intros [|[|[|j]]] Hj; try lia; lra.
  - pose proof (H 0%nat ltac:(lia)) as H0. pose proof (H 2%nat ltac:(lia)) as H2. unfold at2, ent in *. cbn in H0, H2. intros [|[|j]] Hj; try lia; lra.
Qed.
Lemma ex_nested : nested (/ 1000) 3 3 2 (at2 exI 3) (at2 exF 2) (at2 exF 2) /\ nested (/ 1000) 3 3 2 (at2 exI 3) (at2 exG 2) (at2 exG 2).
Proof.
  split; split.
  - intros [|[|[|r]]] [|[|c]] Hr Hc; try lia; unfold mm, at2, ent; cbn; lra.
  - intros [|[|[|r]]] [|[|c]] Hr Hc; try lia; unfold at2, ent; cbn; try (left; lra); right; rewrite Rabs_pos_eq; lra.
  - intros [|[|[|r]]] [|[|c]] Hr Hc; try lia; unfold mm, at2, ent; cbn; lra.
  - intros [|[|[|r]]] [|[|c]] Hr Hc; try lia; unfold at2, ent; cbn; right; try rewrite Rabs_Ropp; rewrite Rabs_pos_eq; lra.
Qed.
Example C47_tensor_ex : forall junk, exists p, create_projection (/ 1000) junk (fun _ _ => false) (BT ex_f) (BT ex_t) = Ok (BT p) /\ b_nodes (BT p) = 4%nat /\ b_qpts (BT p) = 9%nat /\
  transfers (BT ex_f) (BT ex_t) (BT p) 2 EvGrad.
Proof.
  intros junk. destruct ex_wf as (W1 & W2 & _). destruct ex_nested as (N1 & N2). destruct ex_indep as (I1 & I2).
  destruct (C47_nested_tensor (/ 1000) junk (fun _ _ => false) 2 ex_f ex_t (at2 exF 2) (at2 exG 2)) as (p & E & _ & P1 & _ & P3 & P4 & _ & _ & _ & Tr); auto.
  { intros r c _ _. split; discriminate. }
  exists p. split; auto. cbn [b_nodes b_qpts]. rewrite P1, P3, P4. auto.
Qed.
Example C47_nontensor_ex : forall junk near, exists p, create_projection (/ 1000) junk near (BN ex_nf) (BN ex_nt) = Ok (BN p) /\ transfers (BN ex_nf) (BN ex_nt) (BN p) 1 EvInterp.
Proof.
  intros junk near. destruct ex_wf as (_ & _ & W1 & W2). destruct ex_nested as (N1 & N2). destruct ex_indep as (I1 & I2).
  destruct (C47_nested (/ 1000) junk near 2 (BN ex_nf) (BN ex_nt) exI exF exG (at2 exF 2) (fun _ => at2 exG 2)) as (p & ip & gp & E & _ & _ & _ & _ & _ & _ & _ & _ & _ & _ & Tr & _); auto; try (cbn; lia); try exact I.
  { intros _ d Hd. cbn in Hd. assert (d = 0)%nat as -> by lia. exact N2. }
  exists p. auto.
Qed.
