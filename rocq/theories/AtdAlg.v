(** * What the code adds up is the diagonal *)
From Coq Require Import List ZArith Lia Bool Arith.
From Verif Require Import Prelude RstrModel RstrSpec RstrProofs RstrMain RstrPoints RstrProps TensorModel TensorMain BasisModel BasisProofs BasisProps Digits PointsModel PointsProofs PointsProps OpModel OpSpec OpLists OpProofs OpMain OptModel OptProofs AtpModel AtpSpec AtpProofs AtpMain AsmModel AsmSpec AsmProofs AsmProps AtqModel AtqSpec AtqProofs FullMain DiagMain AtdModel AtdSpec AtdProofs.
Import ListNotations.
Local Open Scope nat_scope.

Section Alg.
Variable R : Rng.
Add Ring Rr : (r_th R).
Variable k : kernel R.
Variable Jmin : nat.
Variable chk : bool.
Variable D : nat -> pdesc.
Variable CB : nat -> tbasis R.
Variable a : atop R.
Notation o := (a_op a).
Hypothesis Hd : AtdSpec.diag_wf D CB a k Jmin chk.
Notation nin := (length (o_in o)).
Notation nout := (length (o_out o)).
Notation fi := (fld (o_in o)).
Notation fo := (fld (o_out o)).
Notation NE := (o_ne o).
Notation pdf := (pd R D).
Notation npt := (pts R D a).
Let Hwf : atp_wf R D CB a k Jmin chk. Proof. apply Hd. Qed.

(** ** plain restrictions *)
Lemma sum_pick : forall n i (f : nat -> R), i < n -> sumn n (fun m => delta (m =? i) (f m)) = f i.
Proof. intros n i f H. rewrite sumn_delta. destruct (Nat.ltb_spec i n); [reflexivity|lia]. Qed.
Lemma gather_plain : forall d x e c n, plain d -> n < p_cnt d e -> gather R d x e c n = vf x (pidx d e c n).
Proof.
  intros [d|ne npts nc ls offs] x e c n Hp Hn; cbn [gather pidx p_cnt plain] in *; [|reflexivity]. unfold Eval.
  rewrite sumn_ext with (g := fun m => delta (m =? n) (vf x (Z.to_nat (col d e c m)))).
  - apply (sum_pick (u_es d) n (fun m => vf x (Z.to_nat (col d e c m)))). auto.
  - intros m _. assert (E : coef R Signed d e n m = delta (n =? m) 1%R) by (unfold coef; destruct (u_kind d); tauto || auto). rewrite E, (Nat.eqb_sym n m). destruct (m =? n); cbn [delta]; ring.
Qed.
Lemma scatter1_plain : forall d e E q, plain d -> rwf chk NE d -> e < NE ->
  scatter1 R d e E q = sumn (p_nc d) (fun c => sumn (p_cnt d e) (fun n => delta (q =? pidx d e c n) (E e c n))).
Proof.
  intros [d|ne npts nc ls offs] e E q Hp Hw He; cbn [scatter1 pidx p_cnt p_nc plain rwf] in *.
  - destruct Hw as (_ & Hr & _ & _ & Hne). unfold Lblock. replace (min 1 (u_ne d - e * 1)) with 1 by lia. rewrite sumn_S, sumn_0. rewrite Nat.mul_1_r, Nat.add_0_r.
    match goal with |- (0 + ?x)%R = _ => transitivity x; [ring|] end.
    apply sumn_ext. intros c Hc. apply sumn_ext. intros n Hn.
    rewrite sumn_ext with (g := fun m => delta (m =? n) (delta (q =? Z.to_nat (col d e c m)) (E e c n))); [apply (sum_pick (u_es d) n (fun m => delta (q =? Z.to_nat (col d e c m)) (E e c n))); auto|].
    intros m Hm. assert (Ec : coef R Signed d e n m = delta (n =? m) 1%R) by (unfold coef; destruct (u_kind d); tauto || auto). rewrite Ec, (Nat.eqb_sym n m).
    assert (Eq : (Z.of_nat q =? col d e c m)%Z = (q =? Z.to_nat (col d e c m))).
    { specialize (Hr e c m ltac:(lia) Hc Hm). destruct (Z.eqb_spec (Z.of_nat q) (col d e c m)); destruct (Nat.eqb_spec q (Z.to_nat (col d e c m))); auto; lia. }
    rewrite Eq. destruct (m =? n); destruct (q =? _); cbn [delta]; ring.
  - apply sumn_swap.
Qed.

(** ** linear combinations *)
Lemma delta_sumn' : forall b N (f : nat -> R), delta b (sumn N f) = sumn N (fun j => delta b (f j)).
Proof. intros [|] N f; cbn [delta]; auto. symmetry. apply sumn_zero. auto. Qed.
Lemma lin_comb : forall pas T (m : nat -> nat) (w : nat -> nat -> bool) (U : nat -> nat -> nat -> nat -> R) act j c,
  j < nout -> is_active (fo j) = true -> c < f_size (fo j) ->
  (forall j' c', j' < nin -> is_active (fi j') = true -> c' < f_size (fi j') -> act j' c' = sumn T (fun i => sumn (m i) (fun t => delta (w i t) (U i t j' c')))) ->
  qf_at o (fill o pas act) j c = sumn T (fun i => sumn (m i) (fun t => delta (w i t) (qf_at o (fill o pas (U i t)) j c))).
Proof.
  intros pas T m w U act j c Hj Ha Hc Hact. assert (Hlin : linear o) by apply Hd.
  rewrite (fill_ext R o pas pas act (fun j' c' => sumn T (fun i => sumn (m i) (fun t => delta (w i t) (U i t j' c'))))).
  2:{ intros i c0 Hi Hc0. destruct (is_active (fi i)) eqn:E; auto. }
  rewrite (linear_sum R o pas _ j c Hlin Hj Ha Hc).
  transitivity (sumn T (fun i => sumn (m i) (fun t => delta (w i t) (sumn (length (comps (o_in o))) (fun x =>
      (qf_at o (fill o pas (AsmSpec.unit R (nth x (comps (o_in o)) (0, 0)%nat))) j c * U i t (fst (nth x (comps (o_in o)) (0, 0)%nat)) (snd (nth x (comps (o_in o)) (0, 0)%nat)))%R))))).
  - transitivity (sumn (length (comps (o_in o))) (fun x => sumn T (fun i => sumn (m i) (fun t => delta (w i t)
      (qf_at o (fill o pas (AsmSpec.unit R (nth x (comps (o_in o)) (0, 0)%nat))) j c * U i t (fst (nth x (comps (o_in o)) (0, 0)%nat)) (snd (nth x (comps (o_in o)) (0, 0)%nat)))%R)))).
    + apply sumn_ext. intros x _. rewrite <- sumn_mul_l. apply sumn_ext. intros i _. rewrite <- sumn_mul_l. apply sumn_ext. intros t _. apply delta_mul_l.
    + rewrite sumn_swap. apply sumn_ext. intros i _. rewrite sumn_swap. apply sumn_ext. intros t _. symmetry. apply delta_sumn'.
  - apply sumn_ext. intros i _. apply sumn_ext. intros t _. f_equal. symmetry. apply (linear_sum R o pas (U i t) j c Hlin Hj Ha Hc).
Qed.
Lemma oval_lin : forall vm e j T (m : nat -> nat) (w : nat -> nat -> bool) (Y : nat -> nat -> nat -> nat -> R) c n,
  oval R D CB a vm e j (fun p c => sumn T (fun i => sumn (m i) (fun t => delta (w i t) (Y i t p c)))) c n =
  sumn T (fun i => sumn (m i) (fun t => delta (w i t) (oval R D CB a vm e j (Y i t) c n))).
Proof.
  intros vm e j T m w Y c n. unfold oval.
  assert (G : forall P S (ph : nat -> nat -> R) (cc : nat -> nat),
    sumn P (fun p => sumn S (fun s => (ph p s * sumn T (fun i => sumn (m i) (fun t => delta (w i t) (Y i t p (cc s)))))%R)) =
    sumn T (fun i => sumn (m i) (fun t => delta (w i t) (sumn P (fun p => sumn S (fun s => (ph p s * Y i t p (cc s))%R)))))).
  { intros P S ph cc. transitivity (sumn P (fun p => sumn T (fun i => sumn (m i) (fun t => delta (w i t) (sumn S (fun s => (ph p s * Y i t p (cc s))%R)))))).
    - apply sumn_ext. intros p _. transitivity (sumn S (fun s => sumn T (fun i => sumn (m i) (fun t => delta (w i t) (ph p s * Y i t p (cc s))%R)))).
      + apply sumn_ext. intros s _. rewrite <- sumn_mul_l. apply sumn_ext. intros i _. rewrite <- sumn_mul_l. apply sumn_ext. intros t _. apply delta_mul_l.
      + rewrite sumn_swap. apply sumn_ext. intros i _. rewrite sumn_swap. apply sumn_ext. intros t _. symmetry. apply delta_sumn'.
    - rewrite sumn_swap. apply sumn_ext. intros i _. rewrite sumn_swap. apply sumn_ext. intros t _. symmetry. apply delta_sumn'. }
  destruct (f_mode (fo j)); try apply G. reflexivity.
Qed.

(** ** the diagonal *)
Variables (vm vm' : vmem R) (inv : option nat) (q : nat).
Hypothesis Hsame : at_same a vm vm'.
Hypothesis Hu : is_unit R (act_in R vm' inv) q.
Notation xc := (xcont R a vm).
Lemma cont_act : forall f : ofield R, is_active f = true -> contents vm' f inv = act_in R vm' inv.
Proof. intros f H. unfold contents, target, is_active, act_in in *. destruct (f_vec f); try discriminate. reflexivity. Qed.
Lemma act_mode' : forall j, j < nin -> is_active (fi j) = true -> f_mode (fi j) = EvNone \/ isb (f_mode (fi j)) = true.
Proof.
  intros j Hj Ha. pose proof (fin _ _ _ _ _ _ _ Hwf j Hj) as Hf. destruct (amode _ _ _ _ _ _ _ _ Hf) as [Ew|Hm]; auto. exfalso.
  destruct (aw_weight _ _ _ _ _ _ _ _ Hf Ew) as (_ & _ & X & _). apply X. unfold is_active in Ha. destruct (f_vec (fi j)); congruence.
Qed.
Definition at_place (i e t : nat) : nat := pidx (pdf (fi i)) e (t / p_cnt (pdf (fi i)) e) (t mod p_cnt (pdf (fi i)) e).
Notation evs i e := (p_cnt (pdf (fi i)) e * p_nc (pdf (fi i))).
Lemma place_split : forall i e c n, n < p_cnt (pdf (fi i)) e -> at_place i e (c * p_cnt (pdf (fi i)) e + n) = pidx (pdf (fi i)) e c n.
Proof.
  intros i e c n Hn. unfold at_place. rewrite Nat.div_add_l by lia. rewrite (Nat.div_small n) by auto. rewrite Nat.add_0_r.
  rewrite Nat.add_comm with (n := c * _), Nat.mod_add by lia. rewrite Nat.mod_small by auto. reflexivity.
Qed.
Lemma pl_in : forall i, i < nin -> is_active (fi i) = true -> plain (pdf (fi i)) /\ p_distinct a (pdf (fi i)).
Proof. intros i Hi Ha. destruct Hd as (_ & _ & H & _). apply H; auto. apply in_or_app. left. apply nth_In. auto. Qed.
Lemma pl_out : forall i, i < nout -> is_active (fo i) = true -> plain (pdf (fo i)) /\ p_distinct a (pdf (fo i)).
Proof. intros i Hi Ha. destruct Hd as (_ & _ & H & _). apply H; auto. apply in_or_app. right. apply nth_In. auto. Qed.
(** the values of the unit vector at a point *)
Lemma unit_sum : forall i e c p, i < nin -> is_active (fi i) = true -> e < NE -> c < f_size (fi i) -> p < npt e ->
  at_in_val R D CB a (fi i) (nth i (a_bin a) 0) xc (contents vm' (fi i) inv) e c p =
  sumn (evs i e) (fun t => delta (q =? at_place i e t) (unit_val R D CB a vm e i t c p)).
Proof.
  intros i e c p Hi Ha He Hc Hp. rewrite cont_act by auto. pose proof (fin _ _ _ _ _ _ _ Hwf i Hi) as Hf. destruct (pl_in i Hi Ha) as (Hpl & _).
  assert (Hone : forall c0 n0, c0 < p_nc (pdf (fi i)) -> n0 < p_cnt (pdf (fi i)) e -> gather R (pdf (fi i)) (act_in R vm' inv) e c0 n0 =
     sumn (evs i e) (fun t => delta (q =? at_place i e t) (delta (c0 * p_cnt (pdf (fi i)) e + n0 =? t) 1%R))).
  { intros c0 n0 Hc0 Hn0. rewrite gather_plain by auto. rewrite Hu.
    rewrite sumn_ext with (g := fun t => delta (t =? c0 * p_cnt (pdf (fi i)) e + n0) (delta (q =? at_place i e t) 1%R)).
    - rewrite sum_pick by nia. rewrite place_split by auto. rewrite Nat.eqb_sym. reflexivity.
    - intros t _. rewrite (Nat.eqb_sym t). destruct (_ =? t); destruct (q =? _); reflexivity. }
  unfold at_in_val, unit_val. destruct (act_mode' i Hi Ha) as [En|Eb].
  - rewrite En. destruct (aw_none _ _ _ _ _ _ _ _ Hf En) as (H1 & H2 & H3). rewrite H3 in Hone by auto. rewrite Hone by lia. rewrite H3 by auto. reflexivity.
  - pose proof (aw_b _ _ _ _ _ _ _ _ Hf Eb) as B. pose proof (fb_P _ _ _ _ _ _ _ B e) as EP. pose proof (fb_nc _ _ _ _ _ _ _ B) as Enc.
    transitivity (sumn (t_P (tb R (fi i)) ^ t_dim (tb R (fi i))) (fun n => (phi R CB (fi i) (nth i (a_bin a) 0%nat) (point R D a xc e p) (c / t_nc (tb R (fi i))) n *
      gather R (pdf (fi i)) (act_in R vm' inv) e (c mod t_nc (tb R (fi i))) n)%R)).
    { destruct (f_mode (fi i)); try discriminate; reflexivity. }
    transitivity (sumn (evs i e) (fun t => delta (q =? at_place i e t) (sumn (t_P (tb R (fi i)) ^ t_dim (tb R (fi i))) (fun n =>
           (phi R CB (fi i) (nth i (a_bin a) 0%nat) (point R D a xc e p) (c / t_nc (tb R (fi i))) n * delta ((c mod t_nc (tb R (fi i))) * t_P (tb R (fi i)) ^ t_dim (tb R (fi i)) + n =? t) 1)%R)))).
    2:{ destruct (f_mode (fi i)); try discriminate; reflexivity. }
    assert (Hcm : c mod t_nc (tb R (fi i)) < p_nc (pdf (fi i))). { rewrite <- Enc. apply Nat.mod_upper_bound. intros E0. rewrite (fb_sz _ _ _ _ _ _ _ B), E0 in Hc. lia. }
    rewrite EP. transitivity (sumn (p_cnt (pdf (fi i)) e) (fun n => sumn (evs i e) (fun t => delta (q =? at_place i e t)
      (phi R CB (fi i) (nth i (a_bin a) 0%nat) (point R D a xc e p) (c / t_nc (tb R (fi i))) n * delta ((c mod t_nc (tb R (fi i))) * p_cnt (pdf (fi i)) e + n =? t) 1)%R))).
    + apply sumn_ext. intros n Hn. rewrite Hone by auto. rewrite <- sumn_mul_l. apply sumn_ext. intros t _. apply delta_mul_l.
    + rewrite sumn_swap. apply sumn_ext. intros t _. symmetry. apply delta_sumn'.
Qed.
Lemma out_val : forall j e c n, j < nout -> is_active (fo j) = true -> e < NE -> c < p_nc (pdf (fo j)) -> n < p_cnt (pdf (fo j)) e ->
  at_out_val R D CB a vm' inv j e c n = sumn nin (fun i => sumn (if is_active (fi i) then evs i e else 0) (fun t => delta (q =? at_place i e t) (oval R D CB a vm e j (fun p c => Yu R D CB a vm e i t p j c) c n))).
Proof.
  intros j e c n Hj Ha He Hc Hn. rewrite <- (oval_lin vm e j nin _ (fun i t => q =? at_place i e t) (fun i t p c => Yu R D CB a vm e i t p j c)).
  assert (HY : forall p c0, p < npt e -> c0 < f_size (fo j) -> vf (nth j (at_outs_val R D CB a vm' inv e p) []) c0 =
     sumn nin (fun i => sumn (if is_active (fi i) then evs i e else 0) (fun t => delta (q =? at_place i e t) (Yu R D CB a vm e i t p j c0)))).
  { intros p c0 Hp Hc0. unfold Yu. rewrite <- (lin_comb (at_pas_val D CB a vm e p) nin (fun i => if is_active (fi i) then evs i e else 0) (fun i t => q =? at_place i e t) (fun i t => d_act R D CB a vm e i t p)
       (fun i c => at_in_val R D CB a (fi i) (nth i (a_bin a) 0) xc (contents vm' (fi i) inv) e c p)) ; auto.
    - unfold qf_at, at_outs_val.
      assert (Ei : at_ins_val R D CB a vm' inv e p = fill o (at_pas_val D CB a vm e p) (fun i c => at_in_val R D CB a (fi i) (nth i (a_bin a) 0) xc (contents vm' (fi i) inv) e c p)).
      { unfold at_ins_val, fill. apply map_ext_in. intros i Hi. apply in_seq in Hi. cbv zeta. apply map_ext. intros c1. destruct Hsame as (Ex & Ec). rewrite Ex. destruct (is_active (fi i)) eqn:Ea; auto.
        unfold at_pas_val. rewrite <- Ec by (auto; lia). unfold contents, target. unfold is_active in Ea. destruct (f_vec (fi i)); try discriminate; reflexivity. }
      rewrite Ei. destruct (o_ident o); reflexivity.
    - intros j' c' Hj' Ha' Hc'. rewrite unit_sum by auto. symmetry.
      rewrite sumn_ext with (g := fun i => delta (i =? j') (sumn (if is_active (fi i) then evs i e else 0) (fun t => delta (q =? at_place i e t) (d_act R D CB a vm e i t p j' c')))).
      + rewrite sum_pick by auto. rewrite Ha'. apply sumn_ext. intros t _. unfold d_act. rewrite Nat.eqb_refl. reflexivity.
      + intros i _. destruct (Nat.eqb_spec i j') as [->|Hne]; [reflexivity|]. cbn [delta]. apply sumn_zero. intros t _. unfold d_act. destruct (Nat.eqb_spec j' i); [congruence|]. destruct (q =? _); reflexivity. }
  unfold at_out_val, oval. destruct (fout _ _ _ _ _ _ _ Hwf j Hj) as (Hf & _). destruct Hsame as (Ex & _). rewrite Ex. cbv zeta.
  destruct (kind_out R k Jmin chk D CB a Hwf j Hj) as [(En & _)|(Eb & _)].
  - rewrite En. destruct (aw_none _ _ _ _ _ _ _ _ Hf En) as (H1 & H2 & H3). rewrite H3 in Hn by auto. apply HY; auto. lia.
  - pose proof (aw_b _ _ _ _ _ _ _ _ Hf Eb) as B. rewrite <- (fb_nc _ _ _ _ _ _ _ B) in Hc.
    assert (HY' : forall p i0, p < npt e -> i0 < slots_of (f_mode (fo j)) (t_dim (tb R (fo j))) -> i0 * t_nc (tb R (fo j)) + c < f_size (fo j)). { intros p i0 Hp Hi0. rewrite (fb_sz _ _ _ _ _ _ _ B). nia. }
    destruct (f_mode (fo j)); try discriminate; apply sumn_ext; intros p Hp; apply sumn_ext; intros i0 Hi0; (rewrite HY; [reflexivity|auto|apply (HY' p i0); auto]).
Qed.
(** one pair of fields on one element *)
Lemma pair_ok : forall e i j, e < NE -> i < nin -> j < nout -> is_active (fi i) = true -> is_active (fo j) = true ->
  scatter1 R (pdf (fo j)) e (fun e c n => sumn (evs i e) (fun t => delta (q =? at_place i e t) (oval R D CB a vm e j (fun p c => Yu R D CB a vm e i t p j c) c n))) q =
  sumn (evs i e) (fun t => Dq R D CB a vm e i t (Yu R D CB a vm e i t) j q).
Proof.
  intros e i j He Hi Hj Hai Haj. destruct (fout _ _ _ _ _ _ _ Hwf j Hj) as (Hf & Hnw). destruct (aw_rwf _ _ _ _ _ _ _ _ Hf Hnw) as (Hrw & _).
  destruct (pl_out j Hj Haj) as (Hpl & Hdi). rewrite scatter1_plain by auto.
  assert (Hpair : paired D a (fi i) (fo j)). { destruct Hd as (_ & _ & _ & H). apply H; auto; apply nth_In; auto. }
  transitivity (sumn (evs i e) (fun t => sumn (p_nc (pdf (fo j))) (fun c => sumn (p_cnt (pdf (fo j)) e) (fun n => delta (q =? pidx (pdf (fo j)) e c n)
     (delta (q =? at_place i e t) (oval R D CB a vm e j (fun p c => Yu R D CB a vm e i t p j c) c n)))))).
  { symmetry. rewrite sumn_swap. apply sumn_ext. intros c _. rewrite sumn_swap. apply sumn_ext. intros n _. symmetry. apply delta_sumn'. }
  apply sumn_ext. intros t Ht. unfold Dq. rewrite Haj. cbn [andb].
  assert (Hcnt : 0 < p_cnt (pdf (fi i)) e) by nia.
  assert (Et : t = t / p_cnt (pdf (fi i)) e * p_cnt (pdf (fi i)) e + t mod p_cnt (pdf (fi i)) e). { rewrite Nat.mul_comm. apply Nat.div_mod. lia. }
  pose proof (Nat.mod_upper_bound t (p_cnt (pdf (fi i)) e) ltac:(lia)) as Hm. assert (Hq : t / p_cnt (pdf (fi i)) e < p_nc (pdf (fi i))) by (apply Nat.div_lt_upper_bound; lia).
  destruct Hpair as [Ep|Hdis].
  - assert (Hmt : d_match D (fi i) (fo j) e = true). { unfold d_match. rewrite Ep. destruct (is_pts (pdf (fo j))); cbn [andb negb]; rewrite Nat.mul_comm; apply Nat.eqb_refl. }
    rewrite Hmt. cbn [delta]. rewrite scatter1_plain by auto. apply sumn_ext. intros c Hc. apply sumn_ext. intros n Hn. destruct (Nat.eqb_spec q (pidx (pdf (fo j)) e c n)) as [Eq|]; [|reflexivity]. cbn [delta]. f_equal.
    unfold at_place. rewrite Ep in *. destruct (Nat.eqb_spec q (pidx (pdf (fo j)) e (t / p_cnt (pdf (fo j)) e) (t mod p_cnt (pdf (fo j)) e))) as [Eq'|Nq].
    + destruct (Hdi e c n (t / p_cnt (pdf (fo j)) e) (t mod p_cnt (pdf (fo j)) e) He Hc Hq Hn Hm) as (E1 & E2); [congruence|]. symmetry. apply Nat.eqb_eq. rewrite Et, E1, E2. reflexivity.
    + symmetry. apply Nat.eqb_neq. intros E. apply Nq. rewrite Eq. rewrite <- E. rewrite Nat.div_add_l by lia. rewrite (Nat.div_small n) by auto. rewrite Nat.add_0_r.
      rewrite Nat.add_comm with (n := c * _), Nat.mod_add by lia. rewrite Nat.mod_small by auto. reflexivity.
  - destruct (Hdis e He) as (Hmt & Hne). rewrite Hmt. cbn [delta]. apply sumn_zero. intros c Hc. apply sumn_zero. intros n Hn. destruct (Nat.eqb_spec q (pidx (pdf (fo j)) e c n)) as [Eq|]; [|reflexivity]. cbn [delta].
    destruct (Nat.eqb_spec q (at_place i e t)) as [Eq'|]; [|reflexivity]. exfalso. apply (Hne (t / p_cnt (pdf (fi i)) e) (t mod p_cnt (pdf (fi i)) e) c n Hq Hm Hc Hn). unfold at_place in Eq'. congruence.
Qed.
Lemma scatter1_sumn : forall d e N (F : nat -> nat -> nat -> nat -> R), plain d -> rwf chk NE d -> e < NE ->
  scatter1 R d e (fun e c n => sumn N (fun i => F i e c n)) q = sumn N (fun i => scatter1 R d e (F i) q).
Proof.
  intros d e N F Hp Hw He. rewrite scatter1_plain by auto. rewrite (sumn_ext _ (fun i => scatter1 R d e (F i) q) (fun i => sumn (p_nc d) (fun c => sumn (p_cnt d e) (fun n => delta (q =? pidx d e c n) (F i e c n))))).
  2:{ intros i _. apply scatter1_plain; auto. }
  symmetry. rewrite sumn_swap. apply sumn_ext. intros c _. rewrite sumn_swap. apply sumn_ext. intros n _. symmetry. apply delta_sumn'.
Qed.
Lemma scatter1_same : forall d e E F, plain d -> rwf chk NE d -> e < NE -> (forall c n, c < p_nc d -> n < p_cnt d e -> E e c n = F e c n) -> scatter1 R d e E q = scatter1 R d e F q.
Proof. intros d e E F Hp Hw He H. rewrite !scatter1_plain by auto. apply sumn_ext. intros c Hc. apply sumn_ext. intros n Hn. rewrite H by auto. reflexivity. Qed.
Theorem raw_diagonal : forall v, (forall j, j < nout -> f_vec (fo j) <> VPas v) -> d_raw R D CB a vm q = at_added R D CB a vm' inv (Some v) v q.
Proof.
  intros v Hv. unfold d_raw, at_added.
  transitivity (sumn NE (fun e => sumn nout (fun j => delta (is_active (fo j)) (sumn nin (fun i => sumn (if is_active (fi i) then evs i e else 0) (fun t => Dq R D CB a vm e i t (Yu R D CB a vm e i t) j q)))))).
  - apply sumn_ext. intros e He. unfold Del.
    transitivity (sumn nin (fun i => sumn nout (fun j => delta (is_active (fo j)) (sumn (if is_active (fi i) then evs i e else 0) (fun t => Dq R D CB a vm e i t (Yu R D CB a vm e i t) j q))))).
    + apply sumn_ext. intros i Hi. destruct (is_active (fi i)); cbn [delta].
      * unfold Din. rewrite sumn_swap. apply sumn_ext. intros j Hj. destruct (is_active (fo j)) eqn:Ea; cbn [delta]; [reflexivity|]. apply sumn_zero. intros t _. unfold Dq. rewrite Ea. reflexivity.
      * symmetry. apply sumn_zero. intros j _. destruct (is_active (fo j)); reflexivity.
    + rewrite sumn_swap. apply sumn_ext. intros j _. symmetry. apply delta_sumn'.
  - rewrite sumn_swap. apply sumn_ext. intros j Hj.
    assert (Eo : oeq (target (fo j) (Some v)) v = is_active (fo j)).
    { specialize (Hv j Hj). unfold oeq, target, is_active. destruct (f_vec (fo j)) as [| |v']; auto. apply Nat.eqb_refl. destruct (Nat.eqb_spec v' v); congruence. }
    rewrite Eo. destruct (is_active (fo j)) eqn:Ea; cbn [delta]; [|apply sumn_zero; auto].
    destruct (fout _ _ _ _ _ _ _ Hwf j Hj) as (Hf & Hnw). destruct (aw_rwf _ _ _ _ _ _ _ _ Hf Hnw) as (Hrw & _). destruct (pl_out j Hj Ea) as (Hpl & _).
    rewrite <- (scatter1_sum R chk NE) by auto. apply sumn_ext. intros e He.
    rewrite (scatter1_same (pdf (fo j)) e (at_out_val R D CB a vm' inv j) (fun e c n => sumn nin (fun i => sumn (if is_active (fi i) then evs i e else 0) (fun t => delta (q =? at_place i e t) (oval R D CB a vm e j (fun p c => Yu R D CB a vm e i t p j c) c n))))).
    2-4:auto. 2:{ intros c n Hc Hn. apply out_val; auto. }
    rewrite scatter1_sumn by auto. apply sumn_ext. intros i Hi. destruct (is_active (fi i)) eqn:Eai.
    + symmetry. apply pair_ok; auto.
    + symmetry. rewrite scatter1_plain by auto. apply sumn_zero. intros c _. apply sumn_zero. intros n _. destruct (q =? _); reflexivity.
Qed.
End Alg.
