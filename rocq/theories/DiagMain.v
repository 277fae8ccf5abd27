(** * Diagonals: the assembled entries are the entries of the matrix of the operator *)
From Coq Require Import List ZArith Lia Bool Arith.
From Verif Require Import Prelude RstrModel RstrSpec RstrProofs RstrMain RstrProps TensorModel TensorMain BasisModel BasisProps OpModel OpSpec OpLists OpMain AsmModel AsmSpec AsmProofs AsmProps CacheModel DenseModel DenseProofs FullModel FullSpec FullSide FullProofs FullMain FullProps DiagModel DiagProofs.
Import ListNotations.

(** restrictions without tridiagonal transformations *)
Definition not_curl (d : udesc) : Prop := match u_kind d with UCurl _ _ => False | _ => True end.
(** different nodes and components of an element have different places in the L-vector *)
Definition distinct (d : udesc) : Prop := forall e c n c' n', e < u_ne d -> c < u_nc d -> c' < u_nc d -> n < u_es d -> n' < u_es d ->
  col d e c n = col d e c' n' -> c = c' /\ n = n'.

(** ** point blocks *)
Section Block.
Local Open Scope nat_scope.
Variable chk : bool.
(** [isnode]: the offsets of the nodes, over all the operators that are added *)
Variable isnode : Z -> Prop.
Definition offs (d : udesc) (e n : nat) : Z := match d_offsets d with Some off => nth (e * u_es d + n) off 0%Z | None => 0%Z end.
Definition nodes_ok (d : udesc) : Prop :=
  (forall e n, e < u_ne d -> n < u_es d -> isnode (offs d e n)) /\
  (forall x x' c c', isnode x -> isnode x' -> c < u_nc d -> c' < u_nc d -> (x + Z.of_nat c * u_cs d)%Z = (x' + Z.of_nat c' * u_cs d)%Z -> x = x' /\ c = c') /\
  (forall e n n', e < u_ne d -> n < u_es d -> n' < u_es d -> offs d e n = offs d e n' -> n = n').
(** there is an offset for every node, and the blocks fit in the vector *)
Definition pb_ok (d : udesc) : Prop := d_offsets d <> None /\
  (u_cs d <> 1%Z -> forall e n, e < u_ne d -> n < u_es d -> ((offs d e n + 1) * Z.of_nat (u_nc d) <= Z.of_nat (u_lsize d))%Z) /\
  exists r, pb_rstr chk d = Ok r.
Lemma col_offs : forall d e c n, d_offsets d <> None -> col d e c n = (offs d e n + Z.of_nat c * u_cs d)%Z.
Proof. intros d e c n Hd. unfold col, offs, d_offsets in *. destruct (u_kind d); congruence. Qed.
Lemma pb_col : forall d off e c n, d_offsets d = Some off -> length off = u_ne d * u_es d -> e < u_ne d -> n < u_es d -> col (pb_desc d off) e c n = (offs d e n * Z.of_nat (pb_shift d) + Z.of_nat c)%Z.
Proof.
  intros d off e c n Hd Hl He Hn. unfold col, pb_desc, offs. rewrite Hd. cbn [u_kind u_es u_cs].
  rewrite nth_indep with (d' := (fun o => (o * Z.of_nat (pb_shift d))%Z) 0%Z) by (rewrite map_length, Hl; nia). rewrite (map_nth (fun o => (o * Z.of_nat (pb_shift d))%Z)). ring.
Qed.
Lemma pb_range : forall d off, d_offsets d = Some off -> length off = u_ne d * u_es d -> in_range d -> 0 < u_nc d ->
  (u_cs d <> 1%Z -> forall e n, e < u_ne d -> n < u_es d -> ((offs d e n + 1) * Z.of_nat (u_nc d) <= Z.of_nat (u_lsize d))%Z) -> in_range (pb_desc d off).
Proof.
  intros d off Hoff Hlen Hr0 P2 Hfit e c n He Hc Hn. cbn [pb_desc u_ne u_nc u_es] in He, Hc, Hn. rewrite pb_col by auto. cbn [pb_desc u_lsize].
  assert (Hso' : d_offsets d <> None) by congruence.
  pose proof (Hr0 e 0 n He P2 Hn) as B0. pose proof (Hr0 e (u_nc d - 1) n He ltac:(lia) Hn) as B1. rewrite col_offs in B0, B1 by auto. unfold pb_shift. destruct (Z.eqb_spec (u_cs d) 1) as [E1|E1].
  - rewrite E1 in *. assert (Hc' : (Z.of_nat c < Z.of_nat (u_nc d) * Z.of_nat (u_nc d))%Z) by nia. split; [nia|]. assert ((offs d e n + Z.of_nat (u_nc d) <= Z.of_nat (u_lsize d))%Z) by lia. nia.
  - specialize (Hfit E1 e n He Hn). split; nia.
Qed.
Lemma pb_inj : forall d x x' c c', nodes_ok d -> isnode x -> isnode x' -> c < u_nc d * u_nc d -> c' < u_nc d * u_nc d -> 0 < u_nc d ->
  (x * Z.of_nat (pb_shift d) + Z.of_nat c)%Z = (x' * Z.of_nat (pb_shift d) + Z.of_nat c')%Z -> x = x' /\ c = c'.
Proof.
  intros d x x' c c' (_ & Hn & _) Hx Hx' Hc Hc' Hp E. assert (Ex : x = x'); [|subst; lia].
  unfold pb_shift in E. destruct (Z.eqb_spec (u_cs d) 1) as [E1|E1].
  - destruct (Z.eq_dec x x') as [|Hne]; auto. exfalso.
    assert (Hfar : (Z.of_nat (u_nc d) <= Z.abs (x - x'))%Z).
    { destruct (Z.le_gt_cases (Z.of_nat (u_nc d)) (Z.abs (x - x'))) as [|Hlt]; auto. exfalso. apply Hne.
      destruct (Z.le_gt_cases x x').
      - apply (Hn x x' (Z.to_nat (x' - x)) 0 Hx Hx'); [lia|lia|]. rewrite E1. lia.
      - apply (Hn x x' 0 (Z.to_nat (x - x')) Hx Hx'); [lia|lia|]. rewrite E1. lia. }
    nia.
  - nia.
Qed.
End Block.

Section Diag.
Variable R : Rng.
Add Ring Rr : (r_th R).
Local Open Scope nat_scope.
Variable k : kernel R.
Variables (Jmin : nat) (junk : nat -> nat -> R) (chk : bool) (D : nat -> udesc) (bs : option nat).
Variables (bi bo : nat -> nat -> nat).

(** ** signs *)
Definition sgn (d : udesc) (e n : nat) : R := match u_kind d with UOriented _ ors => if nth (e * u_es d + n) ors false then (- (1))%R else 1%R | _ => 1%R end.
Lemma coef_signed : forall d e n m, not_curl d -> coef R Signed d e n m = delta (n =? m) (sgn d e n).
Proof. intros d e n m Hd. unfold coef, sgn, not_curl in *. destruct (u_kind d); try reflexivity. destruct Hd. Qed.
Lemma coef_unsigned : forall d e n m, not_curl d -> coef R Unsigned d e n m = delta (n =? m) 1%R.
Proof. intros d e n m Hd. unfold coef, not_curl in *. destruct (u_kind d); try reflexivity. destruct Hd. Qed.
Lemma sgn_sq : forall d e n, (sgn d e n * sgn d e n)%R = 1%R.
Proof. intros d e n. unfold sgn. destruct (u_kind d) as [| |o ors|]; try ring. destruct (nth _ ors false); ring. Qed.
Lemma Lval_plain : forall w d (sg : nat -> nat -> R) E q, (forall e n m, coef R w d e n m = delta (n =? m) (sg e n)) ->
  Lval w d E q = sumn (u_ne d) (fun e => sumn (u_nc d) (fun c => sumn (u_es d) (fun n => delta (Z.of_nat q =? col d e c n)%Z (sg e n * E e c n)%R))).
Proof.
  intros w d sg E q H. unfold Lval. apply sumn_ext. intros e _. apply sumn_ext. intros c _. apply sumn_ext. intros n Hn.
  rewrite sumn_ext with (g := fun m => delta (n =? m) (delta (Z.of_nat q =? col d e c m)%Z (sg e n * E e c n)%R)).
  - apply (sumn_pick R (u_es d) n (fun m => delta (Z.of_nat q =? col d e c m)%Z (sg e n * E e c n)%R)). auto.
  - intros m _. rewrite H. destruct (n =? m), (Z.of_nat q =? col d e c m)%Z; cbn [delta]; ring.
Qed.
Definition is_unit (x : list R) (q : nat) : Prop := forall j, vf x j = delta (j =? q) 1%R.
Lemma Eval_unit : forall d x q e c p, not_curl d -> in_range d -> is_unit x q -> e < u_ne d -> c < u_nc d -> p < u_es d ->
  Eval Signed d x e c p = delta (Z.of_nat q =? col d e c p)%Z (sgn d e p).
Proof.
  intros d x q e c p Hd Hr Hx He Hc Hp. unfold Eval. rewrite sumn_ext with (g := fun m => delta (p =? m) (sgn d e p * vf x (Z.to_nat (col d e c m)))%R).
  - rewrite (sumn_pick R (u_es d) p (fun m => (sgn d e p * vf x (Z.to_nat (col d e c m)))%R)) by auto. rewrite Hx. pose proof (Hr e c p He Hc Hp).
    destruct (Nat.eqb_spec (Z.to_nat (col d e c p)) q), (Z.eqb_spec (Z.of_nat q) (col d e c p)); try lia; cbn [delta]; ring.
  - intros m _. rewrite coef_signed by auto. destruct (p =? m); cbn [delta]; ring.
Qed.

Section One.
Variables (o : oper R) (pi po : nat -> nat) (r : nat) (b : basis R).
Hypothesis H : full_wf R k Jmin chk D bs o pi po r r (Some b) (Some b).
Hypothesis Hcurl : not_curl (D r).
Notation es := (u_es (D r)).
Notation nc := (u_nc (D r)).
Notation ne := (u_ne (D r)).
Notation sI := (slots R (o_in o) (Some b)).
Notation sO := (slots R (o_out o) (Some b)).
Notation valI := (bval R D o (o_in o) r (Some b)).
Notation valO := (bval R D o (o_out o) r (Some b)).
Notation raws A := (raw R D r r (o_Q o) (length sI) (length sO) (fun s => valI (nth s sI (0, 0))) (fun s => valO (nth s sO (0, 0))) (Af R o A)).
Notation eouts A := (eout R D r r (o_Q o) (length sI) (length sO) (fun s => valI (nth s sI (0, 0))) (fun s => valO (nth s sO (0, 0))) (Af R o A)).

Lemma active_eout : forall A vm inv q, is_assembled D o vm A -> active_sum R D o vm inv q = Lval Signed (D r) (eouts A (act_in R vm inv)) q.
Proof.
  intros A vm inv q HA. unfold active_sum. symmetry.
  rewrite (Lval_ext R Signed (D r) _ (fun e co n => sumn (length (o_out o)) (fun j => delta (is_active (fld (o_out o) j)) (out_val D o vm inv j (fld (o_out o) j) e co n)))).
  - rewrite (Lval_sumn R Signed (D r)). apply sumn_ext. intros j Hj. rewrite (Lval_delta R Signed (D r)). destruct (is_active (fld (o_out o) j)) eqn:Ea; cbn [delta]; auto.
    unfold contrib. destruct (os_rstr (fw_out _ _ _ _ _ _ _ _ _ _ _ _ _ H) j Hj Ea) as (Er & _). unfold rd. rewrite Er. reflexivity.
  - intros e co n He Hco Hn. apply (eout_val R k Jmin chk D bs o pi po r r (Some b) (Some b) H); auto. rewrite <- (neO R k Jmin chk D bs _ _ _ _ _ _ _ H). auto.
Qed.
(** entry (row, q) of the matrix *)
Lemma entry_terms : forall A vm inv row q, is_assembled D o vm A -> is_unit (act_in R vm inv) q ->
  active_sum R D o vm inv row =
  sumn ne (fun e => sumn nc (fun co => sumn es (fun n => delta (Z.of_nat row =? col (D r) e co n)%Z
    (sumn nc (fun ci => sumn es (fun p => delta (Z.of_nat q =? col (D r) e ci p)%Z (sgn (D r) e n * sgn (D r) e p * raws A e ci co n p)%R)))))).
Proof.
  intros A vm inv row q HA Hu. rewrite (active_eout A) by auto. rewrite (Lval_plain Signed (D r) (sgn (D r))) by (intros; apply coef_signed; auto).
  destruct (goodI R k Jmin chk D bs _ _ _ _ _ _ _ H) as (_ & Hr & _).
  apply sumn_ext. intros e He. apply sumn_ext. intros co _. apply sumn_ext. intros n _. f_equal. unfold eout. rewrite <- sumn_mul_l. apply sumn_ext. intros ci Hci. rewrite <- sumn_mul_l.
  apply sumn_ext. intros p Hp. rewrite (Eval_unit _ _ q) by auto. destruct (Z.of_nat q =? col (D r) e ci p)%Z; cbn [delta]; ring.
Qed.
Lemma diag_entry : forall A vm inv q, distinct (D r) -> is_assembled D o vm A -> is_unit (act_in R vm inv) q ->
  Lval Unsigned (D r) (fun e c n => raws A e c c n n) q = active_sum R D o vm inv q.
Proof.
  intros A vm inv q Hd HA Hu. rewrite (entry_terms A vm inv q q HA Hu). rewrite (Lval_plain Unsigned (D r) (fun _ _ => 1%R)) by (intros; apply coef_unsigned; auto).
  apply sumn_ext. intros e He. apply sumn_ext. intros co Hco. apply sumn_ext. intros n Hn. destruct (Z.eqb_spec (Z.of_nat q) (col (D r) e co n)) as [Eq|]; cbn [delta]; auto.
  rewrite sumn_ext with (g := fun ci => delta (co =? ci) (raws A e ci co n n)).
  - rewrite (sumn_pick R nc co (fun ci => raws A e ci co n n)) by auto. ring.
  - intros ci Hci. rewrite sumn_ext with (g := fun p => delta (n =? p) (delta (co =? ci) (raws A e ci co n p))).
    + rewrite (sumn_pick R es n (fun p => delta (co =? ci) (raws A e ci co n p))) by auto. reflexivity.
    + intros p Hp. rewrite Eq. destruct (Z.eqb_spec (col (D r) e co n) (col (D r) e ci p)) as [Ec|Ec]; cbn [delta].
      * destruct (Hd e co n ci p He Hco Hci Hn Hp Ec) as (<- & <-). rewrite !Nat.eqb_refl. cbn [delta]. rewrite sgn_sq. ring.
      * destruct (Nat.eqb_spec n p), (Nat.eqb_spec co ci); subst; try congruence; reflexivity.
Qed.

(** ** one operator: the diagonal *)
Hypothesis Hnc : b_nc b = nc.
Hypothesis Hnn : b_nodes b = es.
Hypothesis Hptr : forall j j', j < length (o_in o) -> j' < length (o_out o) -> is_active (fld (o_in o) j) = true -> is_active (fld (o_out o) j') = true -> pi j = po j'.

Lemma both_groups : exists id, groups pi (o_in o) = [mkG id (Some b) (Some r) (map (smode R (o_in o)) sI)] /\ groups po (o_out o) = [mkG id (Some b) (Some r) (map (smode R (o_out o)) sO)].
Proof.
  pose proof (fw_in _ _ _ _ _ _ _ _ _ _ _ _ _ H) as HI. pose proof (fw_out _ _ _ _ _ _ _ _ _ _ _ _ _ H) as HO.
  destruct (groups_ok R D o (o_in o) pi r (Some b) (Hwi R k Jmin chk D bs _ _ _ _ _ _ _ H) HI (proj2 (posI R k Jmin chk D bs _ _ _ _ _ _ _ H))) as (idi & EGi).
  destruct (groups_ok R D o (o_out o) po r (Some b) (Hwo R k Jmin chk D bs _ _ _ _ _ _ _ H) HO (proj2 (posO R k Jmin chk D bs _ _ _ _ _ _ _ H))) as (ido & EGo).
  destruct (os_some HI) as (j & Hj & Ha). destruct (os_some HO) as (j' & Hj' & Ha').
  pose proof (group_ids R pi (o_in o) j Hj Ha) as G1. pose proof (group_ids R po (o_out o) j' Hj' Ha') as G2. rewrite EGi in G1. rewrite EGo in G2. cbn in G1, G2.
  destruct G1 as [G1|[]]. destruct G2 as [G2|[]]. exists idi. split; auto. assert (E : ido = idi) by (rewrite G1, G2; symmetry; apply Hptr; auto). rewrite <- E. auto.
Qed.
Lemma single_diag_ok : forall jl s i s' v vm y, build_or_update k junk chk D bs jl s i = Ok (s', v) -> c_ops s i = o -> bi i = pi -> bo i = po ->
  is_assembled D o vm (c_vec s' v) -> u_lsize (D r) <= length y -> distinct (D r) ->
  exists y', single_diag k junk chk D bs bi bo jl false i (s, y) = Ok (s', y') /\ length y' = length y /\
    forall vm2 inv q, is_assembled D o vm2 (c_vec s' v) -> is_unit (act_in R vm2 inv) q -> vf y' q = (vf y q + active_sum R D o vm2 inv q)%R.
Proof.
  intros jl s i s' v vm y Eb Eo Epi Epo HA Hy Hd. set (A := c_vec s' v) in *.
  pose proof (fw_in _ _ _ _ _ _ _ _ _ _ _ _ _ H) as HI. pose proof (fw_out _ _ _ _ _ _ _ _ _ _ _ _ _ H) as HO.
  destruct both_groups as (id & EGi & EGo). destruct (goodI R k Jmin chk D bs _ _ _ _ _ _ _ H) as (Hl & Hr & rs & Hcr).
  destruct (offs_ok R D o (o_in o) pi r b (Hwi R k Jmin chk D bs _ _ _ _ _ _ _ H) HI Hnc id _ EGi) as (O1 & _).
  destruct (offs_ok R D o (o_out o) po r b (Hwo R k Jmin chk D bs _ _ _ _ _ _ _ H) HO Hnc id _ EGo) as (O2 & O3).
  destruct (sizes R k Jmin chk D bs _ _ _ _ _ _ _ H) as (SI & SO).
  assert (Hes : r_esize rs = ne * (nc * es)). { rewrite (rp_esize (create_repr Hl Hcr)). destruct (create_bs Hcr) as (E1 & E2). rewrite E1, E2. cbn [nblocks bsize]. ring. }
  destruct (diag_ok R k Jmin chk D bs o pi po r b H Hnc Hnn id id A vm HA) as (ed & Ed & Led & Ged).
  assert (Hcu : curl_ok Unsigned (D r)). { unfold curl_ok, not_curl in *. destruct (u_kind (D r)); auto. destruct Hcurl. }
  destruct (@C09_transpose_adds R chk (D r) None rs Unsigned ed y Hl Hcr Hr Hcu ltac:(lia) Hy) as (y' & Ey & Ly & Gy). exists y'.
  split; [|split; auto].
  - unfold single_diag. cbn [fst snd]. rewrite Eo, Eb. cbn [rbind]. fold A. rewrite Epi, Epo, EGi, EGo. unfold pairs. cbn [length Nat.leb flat_map find g_id app]. rewrite Nat.eqb_refl. cbn [app rfold fst snd g_rstr].
    rewrite Nat.eqb_refl. cbn [negb]. rewrite Hcr. cbn [rbind g_id]. rewrite O1, O2, O3. cbn [asm_desc u_es u_nc]. rewrite SI, SO, Hes, Ed. cbn [rbind]. rewrite Ey. reflexivity.
  - intros vm2 inv q HA2 Hu. rewrite Gy. f_equal. rewrite <- (diag_entry A vm2 inv q Hd HA2 Hu). apply (Lval_ext R Unsigned (D r)). intros e c n He Hc Hn. cbn [bsize]. rewrite epos_1.
    rewrite <- Ged by auto. f_equal. ring.
Qed.

(** ** one operator: the point blocks *)
Variable isnode : Z -> Prop.
Notation nodes_ok := (nodes_ok isnode).
Notation pb_ok := (pb_ok chk).
Lemma sumn_nest2 : forall n m (f : nat -> R) (P : nat -> bool) a b, a < n -> b < m -> (forall c, c < n * m -> P c = (c =? a * m + b)) -> sumn (n * m) (fun c => delta (P c) (f c)) = f (a * m + b).
Proof.
  intros n m f P a c0 Ha Hb HP. rewrite sumn_ext with (g := fun c => delta (a * m + c0 =? c) (f c)).
  - apply (sumn_pick R (n * m) (a * m + c0) f). nia.
  - intros c Hc. rewrite HP by auto. rewrite Nat.eqb_sym. reflexivity.
Qed.
Lemma block_entry : forall A vm inv x co ci off, d_offsets (D r) = Some off -> nodes_ok (D r) -> isnode x -> (0 <= x)%Z -> co < nc -> ci < nc -> is_assembled D o vm A -> (0 <= u_cs (D r))%Z ->
  is_unit (act_in R vm inv) (Z.to_nat (x + Z.of_nat ci * u_cs (D r))) ->
  Lval Signed (pb_desc (D r) off) (fun e c n => raws A e (c mod nc) (c / nc) n n) (Z.to_nat (x * Z.of_nat (pb_shift (D r))) + (co * nc + ci)) =
  active_sum R D o vm inv (Z.to_nat (x + Z.of_nat co * u_cs (D r))).
Proof.
  intros A vm inv x co ci off Hoff Hn Hx Hx0 Hco Hci HA Hcs Hu.
  rewrite (entry_terms A vm inv _ _ HA Hu). rewrite (Lval_plain Signed (pb_desc (D r) off) (fun _ _ => 1%R)) by reflexivity. cbn [pb_desc u_ne u_nc u_es].
  assert (Hlen : length off = ne * es). { destruct (goodI R k Jmin chk D bs _ _ _ _ _ _ _ H) as (Hl & _). unfold lengths_ok, d_offsets in *. destruct (u_kind (D r)); inversion Hoff; subst; tauto. }
  assert (Hso : d_offsets (D r) <> None) by congruence. pose proof Hn as Hn0. destruct Hn as (N1 & N2 & N3).
  apply sumn_ext. intros e He.
  transitivity (sumn es (fun n => delta (x =? offs (D r) e n)%Z (raws A e ci co n n))).
  - rewrite sumn_swap. apply sumn_ext. intros n Hnn'. destruct (Z.eqb_spec x (offs (D r) e n)) as [Ex|Ex]; cbn [delta].
    + rewrite (sumn_nest2 nc nc (fun c => (1 * raws A e (c mod nc) (c / nc) n n)%R) (fun c => (Z.of_nat (Z.to_nat (x * Z.of_nat (pb_shift (D r))) + (co * nc + ci)) =? col (pb_desc (D r) off) e c n)%Z) co ci); [rewrite Nat.div_add_l, Nat.div_small, Nat.add_0_r by lia; rewrite Nat.add_comm, Nat.mod_add, Nat.mod_small by lia; ring|auto|auto|].
      intros c Hc. rewrite pb_col by auto. rewrite <- Ex. assert (0 <= x * Z.of_nat (pb_shift (D r)))%Z by nia. destruct (Nat.eqb_spec c (co * nc + ci)), (Z.eqb_spec (Z.of_nat (Z.to_nat (x * Z.of_nat (pb_shift (D r))) + (co * nc + ci))) (x * Z.of_nat (pb_shift (D r)) + Z.of_nat c)); auto; lia.
    + apply sumn_zero. intros c Hc. fold (pb_desc (D r) off). rewrite pb_col by auto.
      destruct (Z.eqb_spec (Z.of_nat (Z.to_nat (x * Z.of_nat (pb_shift (D r))) + (co * nc + ci))) (offs (D r) e n * Z.of_nat (pb_shift (D r)) + Z.of_nat c)) as [E|]; auto. exfalso. apply Ex.
      assert (0 <= x * Z.of_nat (pb_shift (D r)))%Z by nia.
      apply (pb_inj isnode (D r) x (offs (D r) e n) (co * nc + ci) c Hn0 Hx (N1 e n He Hnn')); [nia|auto|lia|lia].
  - rewrite sumn_swap. apply sumn_ext. intros n Hn'.
    assert (Hrow : forall c, c < nc -> (Z.of_nat (Z.to_nat (x + Z.of_nat co * u_cs (D r))) =? col (D r) e c n)%Z = (co =? c) && (x =? offs (D r) e n)%Z).
    { intros c Hc. rewrite col_offs by auto. destruct (Z.eqb_spec (Z.of_nat (Z.to_nat (x + Z.of_nat co * u_cs (D r)))) (offs (D r) e n + Z.of_nat c * u_cs (D r))) as [E|E].
      - destruct (N2 x (offs (D r) e n) co c Hx (N1 e n He Hn') Hco Hc) as (-> & ->); [nia|]. rewrite Nat.eqb_refl, Z.eqb_refl. reflexivity.
      - symmetry. apply andb_false_iff. destruct (Nat.eqb_spec co c) as [->|]; auto. right. apply Z.eqb_neq. intros ->. apply E. nia. }
    rewrite sumn_ext with (f := fun c => delta (Z.of_nat (Z.to_nat (x + Z.of_nat co * u_cs (D r))) =? col (D r) e c n)%Z _) (g := fun c => delta (co =? c) (delta (x =? offs (D r) e n)%Z
      (sumn nc (fun ci' => sumn es (fun p => delta (Z.of_nat (Z.to_nat (x + Z.of_nat ci * u_cs (D r))) =? col (D r) e ci' p)%Z (sgn (D r) e n * sgn (D r) e p * raws A e ci' c n p)%R))))).
    2: { intros c Hc. rewrite Hrow by auto. apply delta_andb. }
    rewrite (sumn_pick R nc co (fun c => delta (x =? offs (D r) e n)%Z _)) by auto. destruct (Z.eqb_spec x (offs (D r) e n)) as [Ex|Ex]; cbn [delta]; auto.
    rewrite sumn_ext with (f := fun ci' => sumn es _) (g := fun ci' => delta (ci =? ci') (raws A e ci' co n n)).
    + rewrite (sumn_pick R nc ci (fun ci' => raws A e ci' co n n)) by auto. reflexivity.
    + intros c Hc. rewrite sumn_ext with (g := fun p => delta (n =? p) (delta (ci =? c) (raws A e c co n p))).
      * apply (sumn_pick R es n (fun p => delta (ci =? c) (raws A e c co n p))). auto.
      * intros p Hp. rewrite col_offs by auto. destruct (Z.eqb_spec (Z.of_nat (Z.to_nat (x + Z.of_nat ci * u_cs (D r)))) (offs (D r) e p + Z.of_nat c * u_cs (D r))) as [E|E].
        -- destruct (N2 x (offs (D r) e p) ci c Hx (N1 e p He Hp) Hci Hc) as (E1 & <-); [nia|]. assert (n = p) by (apply (N3 e); auto; congruence). subst p. rewrite !Nat.eqb_refl. cbn [delta]. rewrite sgn_sq. ring.
        -- destruct (Nat.eqb_spec n p) as [->|], (Nat.eqb_spec ci c) as [->|]; auto. exfalso. apply E. rewrite <- Ex. nia.
Qed.
Lemma single_block_ok : forall jl s i s' v vm y, build_or_update k junk chk D bs jl s i = Ok (s', v) -> c_ops s i = o -> bi i = pi -> bo i = po ->
  is_assembled D o vm (c_vec s' v) -> u_lsize (D r) * nc <= length y -> nodes_ok (D r) -> pb_ok (D r) -> (0 <= u_cs (D r))%Z ->
  exists y', single_diag k junk chk D bs bi bo jl true i (s, y) = Ok (s', y') /\ length y' = length y /\
    forall vm2 inv x co ci, is_assembled D o vm2 (c_vec s' v) -> isnode x -> (0 <= x)%Z -> co < nc -> ci < nc -> is_unit (act_in R vm2 inv) (Z.to_nat (x + Z.of_nat ci * u_cs (D r))) ->
      let p := Z.to_nat (x * Z.of_nat (pb_shift (D r))) + (co * nc + ci) in vf y' p = (vf y p + active_sum R D o vm2 inv (Z.to_nat (x + Z.of_nat co * u_cs (D r))))%R.
Proof.
  intros jl s i s' v vm y Eb Eo Epi Epo HA Hy Hno Hpb Hcs. set (A := c_vec s' v) in *.
  pose proof (fw_in _ _ _ _ _ _ _ _ _ _ _ _ _ H) as HI. pose proof (fw_out _ _ _ _ _ _ _ _ _ _ _ _ _ H) as HO.
  destruct both_groups as (id & EGi & EGo). destruct (goodI R k Jmin chk D bs _ _ _ _ _ _ _ H) as (Hl0 & Hr0 & _).
  destruct Hpb as (Hso & Hfit & rs & Hcr). unfold pb_rstr in Hcr. destruct (d_offsets (D r)) as [off|] eqn:Hoff; [|congruence].
  assert (Hlen : length off = ne * es). { unfold lengths_ok, d_offsets in *. destruct (u_kind (D r)); inversion Hoff; subst; tauto. }
  destruct (posI R k Jmin chk D bs _ _ _ _ _ _ _ H) as (P1 & P2).
  assert (Hl : lengths_ok (pb_desc (D r) off)) by (cbn; rewrite map_length; auto).
  assert (Hr : in_range (pb_desc (D r) off)) by (apply (pb_range (D r) off); auto).
  destruct (offs_ok R D o (o_in o) pi r b (Hwi R k Jmin chk D bs _ _ _ _ _ _ _ H) HI Hnc id _ EGi) as (O1 & _).
  destruct (offs_ok R D o (o_out o) po r b (Hwo R k Jmin chk D bs _ _ _ _ _ _ _ H) HO Hnc id _ EGo) as (O2 & O3).
  destruct (sizes R k Jmin chk D bs _ _ _ _ _ _ _ H) as (SI & SO).
  assert (Hes : r_esize rs = ne * (nc * nc * es)). { rewrite (rp_esize (create_repr Hl Hcr)). destruct (create_bs Hcr) as (E1 & E2). rewrite E1, E2. cbn [nblocks bsize pb_desc u_ne u_es u_nc]. ring. }
  destruct (block_ok R k Jmin chk D bs o pi po r b H Hnc Hnn id id A vm HA) as (ed & Ed & Led & Ged).
  destruct (@C09_transpose_adds R chk (pb_desc (D r) off) None rs Signed ed y Hl Hcr Hr I ltac:(lia)) as (y' & Ey & Ly & Gy). { cbn [pb_desc u_lsize]. auto. }
  exists y'. split; [|split; auto].
  - unfold single_diag. cbn [fst snd]. rewrite Eo, Eb. cbn [rbind]. fold A. rewrite Epi, Epo, EGi, EGo. unfold pairs. cbn [length Nat.leb flat_map find g_id app]. rewrite Nat.eqb_refl. cbn [app rfold fst snd g_rstr].
    rewrite Nat.eqb_refl. cbn [negb]. unfold pb_rstr. rewrite Hoff, Hcr. cbn [rbind g_id]. rewrite O1, O2, O3. cbn [asm_desc u_es u_nc]. rewrite SI, SO, Hes, Ed. cbn [rbind]. rewrite Ey. reflexivity.
  - intros vm2 inv x co ci HA2 Hx Hx0 Hco Hci Hu p. rewrite Gy. f_equal. unfold p. rewrite <- (block_entry A vm2 inv x co ci off) by auto.
    apply (Lval_ext R Signed (pb_desc (D r) off)). intros e c n He Hc Hn. cbn [pb_desc u_ne u_nc u_es] in He, Hc, Hn. cbn [bsize]. rewrite epos_1. cbn [pb_desc u_nc u_es].
    assert (B1 : c / nc < nc) by (apply Nat.div_lt_upper_bound; lia). assert (B2 : c mod nc < nc) by (apply Nat.mod_upper_bound; lia).
    rewrite <- (Ged e (c / nc) (c mod nc) n) by auto. f_equal. pose proof (Nat.div_mod c nc ltac:(lia)). nia.
Qed.
End One.
End Diag.
