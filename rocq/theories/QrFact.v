(** * The factorization computed by CeedQRFactorization *)
From Coq Require Import List ZArith Lia Bool Arith Reals Lra Psatz.
From Verif Require Import Prelude RstrModel OpModel OpLists DenseModel DenseProofs QrModel RealLin QrProofs.
Import ListNotations.
Local Open Scope nat_scope.
Local Open Scope R_scope.

Lemma rowcol : forall n r c r' c', (c < n)%nat -> (c' < n)%nat -> (r * n + c = r' * n + c')%nat -> r = r' /\ c = c'.
Proof. intros n r c r' c' Hc Hc' E. assert (r = r') by (destruct (Nat.lt_trichotomy r r') as [?|[?|?]]; auto; nia). subst. split; auto. lia. Qed.
Lemma rfold_or : forall T (P : nat -> T -> Prop) (f : nat -> T -> res T) n a s,
  P a s -> (forall i s, (a <= i < a + n)%nat -> P i s -> f i s = UB \/ exists s', f i s = Ok s' /\ P (i + 1)%nat s') ->
  rfold (seq a n) f s = UB \/ exists s', rfold (seq a n) f s = Ok s' /\ P (a + n)%nat s'.
Proof.
  induction n as [|n IH]; intros a s H0 Hs; simpl.
  - right. exists s. rewrite Nat.add_0_r. auto.
  - destruct (Hs a s) as [->|(s1 & -> & H1)]; [lia|auto|left; reflexivity|]. cbn [rbind]. rewrite Nat.add_1_r in H1.
    destruct (IH (S a) s1) as [H|(s' & E & H)]; auto. { intros; apply Hs; auto; lia. }
    right. exists s'. split; auto. replace (a + S n)%nat with (S a + n)%nat by lia. auto.
Qed.

(** numbers of one step *)
Lemma house_num : forall al si, 0 <= si -> al * al + si <> 0 ->
  let rho := - copysign (sqrt (al * al + si)) al in let u := al - rho in
  rho <> 0 /\ u <> 0 /\ u * u + si = - 2 * rho * u /\ al * u + si = - rho * u.
Proof.
  intros al si Hs Hn rho u. assert (Hp : 0 < al * al + si) by nra. pose proof (sqrt_lt_R0 _ Hp) as Hq. pose proof (sqrt_sqrt (al * al + si) ltac:(lra)) as Hqq.
  set (q := sqrt (al * al + si)) in *. assert (Hr : (rho = - q /\ 0 <= al) \/ (rho = q /\ al < 0)).
  { unfold rho, copysign. rewrite (Rabs_pos_eq q) by lra. destruct (Rlt_dec al 0); [right|left]; split; lra. }
  assert (E : rho * rho = al * al + si) by (destruct Hr as [(-> & _)|(-> & _)]; nra). unfold u. split; [destruct Hr as [(-> & _)|(-> & _)]; lra|].
  split; [destruct Hr as [(-> & ?)|(-> & ?)]; lra|]. split; nra.
Qed.
Lemma house_zero : forall al si, 0 <= si -> al * al + si = 0 -> al = 0 /\ si = 0 /\ - copysign (sqrt (al * al + si)) al = 0.
Proof.
  intros al si Hs H. assert (al = 0) by nra. assert (si = 0) by nra. subst. split; auto. split; auto. rewrite Rmult_0_l, Rplus_0_l, sqrt_0. unfold copysign. destruct (Rlt_dec 0 0); [lra|]. rewrite Rabs_R0. ring.
Qed.

Definition at2 (M : list real) (n : nat) : mtx := fun r c => ent M (r * n + c).
(** the first [i] columns below the diagonal hold the reflectors, and count as zeros *)
Definition cur (i : nat) (M : list real) (n : nat) : mtx := fun r c => if (c <? i)%nat && (c <? r)%nat then 0 else at2 M n r c.

Section Fact.
Variables (A0 tau0 : list real) (m n : nat).
Hypothesis Hnm : (n <= m)%nat.
Hypothesis HA : (m * n <= length A0)%nat.
Hypothesis Htau : (n <= length tau0)%nat.

Definition Inv (i : nat) (M tau : list real) : Prop :=
  length M = length A0 /\ length tau = length tau0 /\
  (forall c, (c < i)%nat -> hgood m (ent tau c) (qv M n c)) /\
  eqm m n (mm m (qm m (ent tau) (qv M n) i) (cur i M n)) (at2 A0 n) /\
  (forall c, (c < i)%nat -> (c < m - 1)%nat -> at2 M n c c <> 0) /\
  (forall p, (m * n <= p)%nat -> ent M p = ent A0 p) /\ (forall p, (n <= p)%nat -> ent tau p = ent tau0 p).

Definition wv (i : nat) (a : nat -> real) (u : real) : nat -> real := fun r => if (r <? i)%nat then 0 else if (r =? i)%nat then 1 else a r / u.
(** algebra of one step *)
Lemma step_alg : forall i M M' tau tau' (al := at2 M n i i) (a := fun r => at2 M n r i) (si := Sum (m - (i + 1)) (fun l => a (i + 1 + l)%nat * a (i + 1 + l)%nat))
    (rho := - copysign (sqrt (al * al + si)) al) (u := al - rho) (t := 2 * u * u / (u * u + si)),
  (i < n)%nat -> (i < m - 1)%nat -> Inv i M tau -> al * al + si <> 0 ->
  length M' = length A0 -> length tau' = length tau0 ->
  (forall c, (c < i)%nat -> ent tau' c = ent tau c) -> ent tau' i = t -> (forall p, (n <= p)%nat -> ent tau' p = ent tau0 p) ->
  (forall r c, (r < m)%nat -> (c < i)%nat -> at2 M' n r c = at2 M n r c) ->
  at2 M' n i i = rho -> (forall r, (i < r)%nat -> (r < m)%nat -> at2 M' n r i = a r / u) -> (forall r, (r < i)%nat -> at2 M' n r i = at2 M n r i) ->
  (forall r c, (r < m)%nat -> (i < c)%nat -> (c < n)%nat -> at2 M' n r c = mm m (hm t (wv i a u)) (at2 M n) r c) ->
  (forall p, (m * n <= p)%nat -> ent M' p = ent A0 p) ->
  Inv (i + 1) M' tau'.
Proof.
  intros i M M' tau tau' al a si rho u t Hin Him (HL & HLt & Hg & Hq & Hd & Hb & Hbt) Hne HL' HLt' Ht1 Ht2 Ht3 F1 F2 F3 F4 F5 F6.
  assert (Hsi : 0 <= si) by (apply Sum_pos; intros; nra).
  destruct (house_num al si Hsi Hne) as (Hrho & Hu & N1 & N2). fold rho u in Hrho, Hu, N1, N2.
  assert (Hden : u * u + si <> 0) by nra.
  set (w := wv i a u) in *.
  assert (Hw0 : forall l, (l < i)%nat -> w l = 0) by (intros l Hl; unfold w, wv; destruct (Nat.ltb_spec l i); [auto|lia]).
  assert (Hwi : w i = 1) by (unfold w, wv; rewrite Nat.ltb_irrefl, Nat.eqb_refl; auto).
  assert (Hwr : forall l, (i < l)%nat -> w l = a l / u) by (intros l Hl; unfold w, wv; destruct (Nat.ltb_spec l i); [lia|]; destruct (Nat.eqb_spec l i); [lia|auto]).
  assert (Hgt : hgood m t w).
  { right. rewrite (Sum_from m _ i) by (try lia; intros; rewrite Hw0 by auto; ring). rewrite Hwi.
    rewrite (Sum_ext _ _ (fun l => / (u * u) * (a (i + 1 + l)%nat * a (i + 1 + l)%nat))). 2: { intros l Hl. rewrite Hwr by lia. field. auto. }
    rewrite Sum_mul. fold si. unfold t. field. split; auto. }
  assert (Hqv : forall r, (r < m)%nat -> qv M' n i r = w r).
  { intros r Hr. unfold qv. destruct (Nat.ltb_spec r i); [rewrite Hw0; auto|]. destruct (Nat.eqb_spec r i) as [->|]; [auto|]. rewrite Hwr by lia. apply F3; lia. }
  assert (Hqv' : forall c r, (c < i)%nat -> (r < m)%nat -> qv M' n c r = qv M n c r).
  { intros c r Hc Hr. unfold qv. destruct (r <? c)%nat; auto. destruct (r =? c)%nat; auto. apply F1; auto. }
  assert (Hcur : forall r c, (r < m)%nat -> (c < n)%nat -> mm m (hm t w) (cur i M n) r c = cur (i + 1) M' n r c).
  { intros r c Hr Hc. rewrite hm_mm by auto. destruct (Nat.lt_trichotomy c i) as [Hlt|[->|Hgt']].
    - rewrite Sum_zero. 2: { intros l Hl. destruct (Nat.lt_ge_cases l i); [rewrite Hw0 by auto; ring|]. unfold cur. destruct (Nat.ltb_spec c i); [|lia]. destruct (Nat.ltb_spec c l); [|lia]. cbn. ring. }
      unfold cur. destruct (Nat.ltb_spec c i); [|lia]. destruct (Nat.ltb_spec c (i + 1)); [|lia]. cbn [andb]. destruct (c <? r)%nat; [ring|]. rewrite F1 by auto. ring.
    - rewrite (Sum_from m _ i) by (try lia; intros; rewrite Hw0 by auto; ring). rewrite Hwi.
      assert (Hci : forall l, cur i M n l i = a l) by (intros l; unfold cur; rewrite Nat.ltb_irrefl; reflexivity).
      rewrite (Sum_ext _ _ (fun l => / u * (a (i + 1 + l)%nat * a (i + 1 + l)%nat))). 2: { intros l Hl. rewrite Hwr, Hci by lia. field. auto. }
      rewrite Sum_mul, !Hci. fold si. change (a i) with al.
      assert (Ex : t * (1 * al + / u * si) = u). { unfold t. apply (Rmult_eq_reg_r (u * (u * u + si))); [|nra]. transitivity (2 * u * u * (al * u + si)); [field; split; auto|]. rewrite N2, N1. ring. }
      replace (t * w r * (1 * al + / u * si)) with (w r * (t * (1 * al + / u * si))) by ring. rewrite Ex.
      unfold cur. destruct (Nat.ltb_spec i (i + 1)); [|lia]. cbn [andb]. destruct (Nat.ltb_spec i r).
      + rewrite Hwr by auto. field. auto.
      + destruct (Nat.eq_dec r i) as [->|].
        * rewrite F2, Hwi. change (a i) with al. unfold u. ring.
        * rewrite Hw0, F4 by lia. unfold a. ring.
    - unfold cur. destruct (Nat.ltb_spec c i); [lia|]. destruct (Nat.ltb_spec c (i + 1)); [lia|]. cbn [andb]. rewrite F5, hm_mm by auto. reflexivity. }
  split; auto. split; auto. split; [|split; [|split; [|split; auto]]].
  - intros c Hc. assert (E : Sum m (fun l => qv M' n c l * qv M' n c l) = Sum m (fun l => (if (c =? i)%nat then w l else qv M n c l) * (if (c =? i)%nat then w l else qv M n c l))).
    { apply Sum_ext. intros l Hl. destruct (Nat.eqb_spec c i) as [->|]; [rewrite Hqv by auto; auto|rewrite Hqv' by (auto; lia); auto]. }
    unfold hgood. rewrite E. destruct (Nat.eqb_spec c i) as [->|]; [rewrite Ht2; exact Hgt|rewrite Ht1 by lia; apply Hg; lia].
  - intros r c Hr Hc. rewrite Nat.add_1_r at 1. cbn [qm].
    rewrite mm_assoc. rewrite <- (Hq r c Hr Hc). apply mm_ext.
    + intros l Hl. apply qm_ext; auto.
    + intros l Hl. transitivity (mm m (hm t w) (cur (i + 1) M' n) l c).
      { rewrite Ht2. apply mm_hm_ext; auto. }
      transitivity (mm m (hm t w) (mm m (hm t w) (cur i M n)) l c). { apply mm_ext; auto. intros; symmetry; apply Hcur; auto. }
      rewrite <- mm_assoc. destruct (hm_orth m t w Hgt) as (Ho & _).
      rewrite (mm_ext m _ idm _ (cur i M n)); auto; [apply mm_id_l; auto|]. intros k Hk. rewrite <- (Ho l k Hl Hk). apply mm_ext; auto. intros; apply hm_sym.
  - intros c Hc Hc'. destruct (Nat.eq_dec c i) as [->|]; [rewrite F2; auto|]. rewrite F1 by lia. apply Hd; lia.
Qed.

(** one step of the loop *)
Definition pivot (i : nat) (M : list real) : real := at2 M n i i * at2 M n i i + Sum (m - (i + 1)) (fun l => at2 M n (i + 1 + l)%nat i * at2 M n (i + 1 + l)%nat i).
Lemma qr_step_ok : forall i M tau v, (i < n)%nat -> (i < m - 1)%nat -> Inv i M tau -> length v = m ->
  (pivot i M = 0 -> qr_step m n i (M, tau, v, false) = UB) /\
  (pivot i M <> 0 -> exists M' tau' v', qr_step m n i (M, tau, v, false) = Ok (M', tau', v', false) /\ Inv (i + 1) M' tau' /\ length v' = m).
Proof.
  intros i M tau v Hin Him HI Hlv. pose proof HI as (HL & HLt & _ & _ & _ & Hb & Hbt).
  assert (HP : forall r c, (r < m)%nat -> (c < n)%nat -> (r * n + c < length M)%nat) by (intros; rewrite HL; nia).
  assert (Hop : forall r, (i + n * r = r * n + i)%nat) by (intros; nia).
  unfold qr_step. destruct (Nat.leb_spec (m - 1) i); [lia|].
  rewrite Hop, (og_ent M) by (apply HP; lia). cbn [rbind]. rewrite put_ok by lia. cbn [rbind]. fold (at2 M n i i). set (al := at2 M n i i).
  match goal with |- context [rbind (rfold _ ?f ?s00) _] => destruct (@rfold_inv (list real * real) (fun j st => length (fst st) = m /\ (forall r, (i <= r)%nat -> (r < j)%nat -> ent (fst st) r = at2 M n r i) /\
     snd st = Sum (j - (i + 1)) (fun l => at2 M n (i + 1 + l)%nat i * at2 M n (i + 1 + l)%nat i)) f (m - (i + 1)) (i + 1) s00) as ((v1 & si) & E & Hl1 & Hv1 & Hsi) end.
  { cbn [fst snd]. rewrite upd_length. split; auto. split.
    - intros r Hr1 Hr2. rewrite ent_upd by lia. replace r with i by lia. rewrite Nat.eqb_refl. reflexivity.
    - rewrite Nat.sub_diag. reflexivity. }
  { intros j (v1, si) Hj (Hl & Hv & Hs). cbn [fst snd] in *. rewrite Hop, (og_ent M) by (apply HP; lia). cbn [rbind]. rewrite put_ok by lia. cbn [rbind]. rewrite og_ent by (rewrite upd_length; lia). cbn [rbind].
    eexists. split; [reflexivity|]. cbn [fst snd]. rewrite upd_length. split; auto. rewrite ent_upd by lia. rewrite Nat.eqb_refl. fold (at2 M n j i). split.
    - intros r Hr1 Hr2. rewrite ent_upd by lia. destruct (Nat.eqb_spec r j) as [->|]; auto. apply Hv; lia.
    - rewrite Hs. replace (j + 1 - (i + 1))%nat with (S (j - (i + 1))) by lia. cbn [Sum]. replace (i + 1 + (j - (i + 1)))%nat with j by lia. reflexivity. }
  cbn [fst snd] in *. replace (i + 1 + (m - (i + 1)))%nat with m in * by lia. rewrite E. clear E. cbn [rbind]. rewrite og_ent by lia. cbn [rbind].
  rewrite (Hv1 i) by lia. fold al. fold al in Hv1. 
  assert (Hpv : pivot i M = al * al + si) by (unfold pivot; fold al; rewrite Hsi; reflexivity).
  assert (Hsi0 : 0 <= si) by (rewrite Hsi; apply Sum_pos; intros; nra).
  rewrite put_ok by lia. cbn [rbind]. rewrite og_ent by (rewrite upd_length; lia). cbn [rbind]. rewrite ent_upd by lia. rewrite Nat.eqb_refl.
  set (rho := - copysign (sqrt (al * al + si)) al). set (u := al - rho). unfold rdiv at 1 3. split.
  { intros Hz. rewrite Hpv in Hz. destruct (house_zero al si Hsi0 Hz) as (H1 & H2 & H3). fold rho in H3. assert (Hu : u = 0) by (unfold u; lra). rewrite Hu, H2. destruct (Req_EM_T (0 * 0 + 0) 0); [reflexivity|]. exfalso. apply n0. ring. }
  intros Hnz. rewrite Hpv in Hnz. destruct (house_num al si Hsi0 Hnz) as (Hrho & Hu & N1 & N2). fold rho in Hrho, N1, N2. fold rho in Hu, N1, N2. fold u in Hu, N1, N2.
  destruct (Req_EM_T (u * u + si) 0) as [Hc|_]; [exfalso; nra|]. cbn [rbind]. set (t := 2 * u * u / (u * u + si)).
  rewrite put_ok by lia. cbn [rbind].
  match goal with |- context [rbind (rfold _ ?f ?s00) _] => destruct (@rfold_inv (list real) (fun j v => length v = m /\ ent v i = u /\ (forall r, (i < r)%nat -> (r < m)%nat -> ent v r = if (r <? j)%nat then at2 M n r i / u else at2 M n r i)) f (m - (i + 1)) (i + 1) s00)
     as (v2 & E & Hl2 & Hi2 & Hv2) end.
  { rewrite upd_length. split; auto. rewrite ent_upd by lia. rewrite Nat.eqb_refl. split; auto. intros r Hr1 Hr2. rewrite ent_upd by lia. destruct (Nat.eqb_spec r i); [lia|]. destruct (Nat.ltb_spec r (i + 1)); [lia|]. apply Hv1; lia. }
  { intros j v2 Hj (Hl & Hi & Hv). rewrite !og_ent by lia. cbn [rbind]. rewrite Hi. unfold rdiv. destruct (Req_EM_T u 0); [contradiction|]. cbn [rbind]. rewrite put_ok by lia.
    eexists. split; [reflexivity|]. rewrite upd_length. split; auto. rewrite ent_upd by lia. destruct (Nat.eqb_spec i j); [lia|]. split; auto. intros r Hr1 Hr2. rewrite ent_upd by lia.
    destruct (Nat.eqb_spec r j) as [->|].
    - rewrite Hv by lia. rewrite Nat.ltb_irrefl. destruct (Nat.ltb_spec j (j + 1)); [reflexivity|lia].
    - rewrite Hv by lia. destruct (Nat.ltb_spec r j), (Nat.ltb_spec r (j + 1)); auto; lia. }
  rewrite E. clear E. cbn [rbind]. replace (i + 1 + (m - (i + 1)))%nat with m in * by lia.
  assert (Hv2' : forall r, (i < r)%nat -> (r < m)%nat -> ent v2 r = at2 M n r i / u) by (intros r Hr1 Hr2; rewrite Hv2 by auto; destruct (Nat.ltb_spec r m); [reflexivity|lia]). clear Hv2.
  assert (Hpos : forall r j, (i + 1 + r * n + j * 1 = r * n + (i + 1 + j))%nat) by (intros; nia).
  destruct (reflect_h M v2 (i + 1) m (n - i - 1) n 1 t i) as (M1 & E & HL1 & R1 & R2 & _); try lia.
  { intros r j Hr Hj. rewrite Hpos. apply HP; lia. }
  { intros r j r' j' Hr Hj Hr' Hj'. rewrite !Hpos. intros Eq. apply rowcol in Eq; lia. }
  replace (i * n + i + 1)%nat with (i + 1 + i * n)%nat by lia. rewrite E. clear E. cbn [rbind]. rewrite put_ok by (rewrite HL1; apply HP; lia). cbn [rbind].
  match goal with |- context [rbind (rfold _ ?f ?s00) _] => destruct (@rfold_inv (list real) (fun j M2 => length M2 = length M /\ at2 M2 n i i = rho /\ (forall r, (i < r)%nat -> (r < j)%nat -> at2 M2 n r i = ent v2 r) /\
       (forall p, (forall r, (i <= r)%nat -> (r < m)%nat -> p <> (r * n + i)%nat) -> ent M2 p = ent M1 p)) f (m - (i + 1)) (i + 1) s00)
     as (M2 & E & HL2 & G1 & G2 & G3) end.
  { rewrite upd_length. split; auto. split; [|split].
    - unfold at2. rewrite ent_upd by (rewrite HL1; apply HP; lia). rewrite Nat.eqb_refl. reflexivity.
    - intros; lia.
    - intros p Hp. rewrite ent_upd by (rewrite HL1; apply HP; lia). destruct (Nat.eqb_spec p (i * n + i)); auto. exfalso. apply (Hp i); auto; lia. }
  { intros j M2 Hj (HL2 & G1 & G2 & G3). rewrite og_ent by lia. cbn [rbind]. rewrite Hop, put_ok by (rewrite HL2; apply HP; lia). eexists. split; [reflexivity|]. rewrite upd_length. split; auto.
    assert (Hu' : forall p, ent (upd M2 (j * n + i) (ent v2 j)) p = if (p =? j * n + i)%nat then ent v2 j else ent M2 p) by (intros; apply ent_upd; rewrite HL2; apply HP; lia).
    unfold at2 in *. split; [|split].
    - rewrite Hu'. destruct (Nat.eqb_spec (i * n + i) (j * n + i)) as [Eq|]; auto. apply rowcol in Eq; lia.
    - intros r Hr1 Hr2. rewrite Hu'. destruct (Nat.eqb_spec (r * n + i) (j * n + i)) as [Eq|]. { apply rowcol in Eq; try lia. destruct Eq as (-> & _). reflexivity. } apply G2; auto. assert (r <> j) by congruence. lia.
    - intros p Hp. rewrite Hu'. destruct (Nat.eqb_spec p (j * n + i)) as [->|]; [exfalso; apply (Hp j); auto; lia|]. auto. }
  rewrite E. clear E. cbn [rbind]. replace (i + 1 + (m - (i + 1)))%nat with m in * by lia.
  exists M2, (upd tau i t), v2. split; [reflexivity|]. split; [|auto].
  assert (Hnc : forall r c, (r < m)%nat -> (c < n)%nat -> (c <> i) -> at2 M2 n r c = at2 M1 n r c).
  { intros r c Hr Hc Hne. apply G3. intros r' Hr1 Hr2 Eq. apply rowcol in Eq; lia. }
  assert (Hni : forall r c, (r < m)%nat -> (c <= i)%nat -> at2 M1 n r c = at2 M n r c).
  { intros r c Hr Hc. apply R2. intros r' j' Hr' Hj'. rewrite Hpos. intros Eq. apply rowcol in Eq; lia. }
  apply (step_alg i M M2 tau (upd tau i t)); auto.
  - fold al. rewrite <- Hsi. exact Hnz.
  - congruence.
  - rewrite upd_length. auto.
  - intros c Hc. rewrite ent_upd by lia. destruct (Nat.eqb_spec c i); [lia|auto].
  - fold al. rewrite <- Hsi. rewrite ent_upd by lia. rewrite Nat.eqb_refl. reflexivity.
  - intros p Hp. rewrite ent_upd by lia. destruct (Nat.eqb_spec p i); [lia|auto].
  - intros r c Hr Hc. rewrite Hnc by lia. apply Hni; lia.
  - fold al. rewrite <- Hsi. exact G1.
  - fold al. rewrite <- Hsi. intros r Hr1 Hr2. rewrite G2 by auto. apply Hv2'; auto.
  - intros r Hr. rewrite <- (Hni r i) by lia. apply G3. intros r' Hr1 Hr2 Eq. apply rowcol in Eq; lia.
  - fold al. rewrite <- Hsi. fold rho. fold u. fold t. intros r c Hr Hc1 Hc2. rewrite Hnc by lia. unfold at2 at 1.
    replace (r * n + c)%nat with (i + 1 + r * n + (c - (i + 1)) * 1)%nat by lia. rewrite R1 by lia.
    rewrite !hm_mm by auto. rewrite !Hpos. replace (i + 1 + (c - (i + 1)))%nat with c by lia.
    assert (Hvv : forall l, (l < m)%nat -> vat v2 i l = wv i (fun r => at2 M n r i) u l).
    { intros l Hl. unfold vat, wv. destruct (Nat.ltb_spec l i); auto. destruct (Nat.eqb_spec l i); auto. apply Hv2'; lia. }
    rewrite Hvv by auto. f_equal. f_equal. apply Sum_ext. intros l Hl. rewrite Hvv by auto. rewrite Hpos. replace (i + 1 + (c - (i + 1)))%nat with c by lia. reflexivity.
  - intros p Hp. rewrite <- Hb by auto. rewrite G3. 2: { intros r Hr1 Hr2. nia. } apply R2. intros r j Hr Hj. rewrite Hpos. nia.
Qed.

Lemma Inv0 : Inv 0 A0 tau0.
Proof.
  split; auto. split; auto. split; [intros; lia|]. split; [|split; [intros; lia|auto]].
  intros r c Hr Hc. cbn [qm]. rewrite mm_id_l by auto. unfold cur. cbn. reflexivity.
Qed.
Lemma Inv_last : forall i M tau, (i < n)%nat -> (m - 1 <= i)%nat -> Inv i M tau -> n = (i + 1)%nat /\ Inv (i + 1) M (upd tau i 0).
Proof.
  intros i M tau Hi Hm (HL & HLt & Hg & Hq & Hd & Hb & Hbt). assert (Ht : forall p, ent (upd tau i 0) p = if (p =? i)%nat then 0 else ent tau p) by (intros; apply ent_upd; lia).
  split; [lia|]. split; auto. split; [rewrite upd_length; auto|]. split; [|split; [|split; [|split; auto]]].
  - intros c Hc. rewrite Ht. destruct (Nat.eqb_spec c i) as [->|]; [left; auto|apply Hg; lia].
  - intros r c Hr Hc. rewrite Nat.add_1_r. cbn [qm]. rewrite mm_assoc, <- (Hq r c Hr Hc). apply mm_ext.
    + intros l Hl. apply qm_ext; auto. intros c' Hc'. rewrite Ht. destruct (Nat.eqb_spec c' i); [lia|auto].
    + intros l Hl. rewrite hm_mm by auto. rewrite Ht, Nat.eqb_refl. unfold cur.
      destruct (Nat.ltb_spec c i), (Nat.ltb_spec c (S i)), (Nat.ltb_spec c l); cbn [andb]; try lia; ring.
  - intros c Hc Hc'. apply Hd; lia.
  - intros p Hp. rewrite Ht. destruct (Nat.eqb_spec p i); [lia|auto].
Qed.

(** no breakdown *)
Lemma nobreak : forall i M tau, (i < n)%nat -> Inv i M tau -> indep m (i + 1) (at2 A0 n) -> pivot i M <> 0.
Proof.
  intros i M tau Hi (HL & HLt & Hg & Hq & Hd & Hb & Hbt) Hind Hz.
  assert (Hz1 : forall r, (i <= r)%nat -> (r < m)%nat -> at2 M n r i = 0).
  { intros r Hr1 Hr2. unfold pivot in Hz. assert (0 <= Sum (m - (i + 1)) (fun l => at2 M n (i + 1 + l)%nat i * at2 M n (i + 1 + l)%nat i)) by (apply Sum_pos; intros; nra).
    destruct (Nat.eq_dec r i) as [->|]; [nra|]. pose proof (Sum_sq_0 (m - (i + 1)) (fun l => at2 M n (i + 1 + l)%nat i)) as G. cbv beta in G.
    replace r with (i + 1 + (r - (i + 1)))%nat by lia. apply G; [nra|lia]. }
  destruct (upper_solve i (cur i M n) (fun r => at2 M n r i)) as (x & Hx).
  { intros r c Hrc Hr. unfold cur. destruct (Nat.ltb_spec c i), (Nat.ltb_spec c r); cbn; auto; lia. }
  { intros c Hc. unfold cur. rewrite Nat.ltb_irrefl, andb_false_r. apply Hd; lia. }
  pose (y := fun j => if (j =? i)%nat then -1 else x j).
  assert (Hy : y i = 0). 2: { unfold y in Hy. rewrite Nat.eqb_refl in Hy. lra. }
  apply (Hind y); [|lia]. intros r Hr.
  rewrite (Sum_ext _ _ (fun j => mm m (qm m (ent tau) (qv M n) i) (cur i M n) r j * y j)). 2: { intros j Hj. rewrite Hq by (auto; lia). reflexivity. }
  unfold mm. rewrite (Sum_ext _ _ (fun j => Sum m (fun l => qm m (ent tau) (qv M n) i r l * (cur i M n l j * y j)))). 2: { intros j _. rewrite <- Sum_mulr. apply Sum_ext. intros. ring. }
  rewrite Sum_swap. apply Sum_zero. intros l Hl. rewrite Sum_mul. replace (Sum (i + 1) (fun j => cur i M n l j * y j)) with 0; [ring|].
  rewrite Nat.add_1_r. cbn [Sum]. unfold y at 2. rewrite Nat.eqb_refl. unfold cur at 2. rewrite Nat.ltb_irrefl. cbn [andb].
  rewrite (Sum_ext i _ (fun j => cur i M n l j * x j)). 2: { intros j Hj. unfold y. destruct (Nat.eqb_spec j i); [lia|reflexivity]. }
  destruct (Nat.lt_ge_cases l i).
  - rewrite Hx by auto. ring.
  - rewrite Hz1 by lia. rewrite Sum_zero; [ring|]. intros j Hj. unfold cur. destruct (Nat.ltb_spec j i), (Nat.ltb_spec j l); cbn; try lia; ring.
Qed.
(** the factorization shows independence of the columns with a nonzero diagonal entry *)
Lemma Inv_indep : forall M tau k, Inv n M tau -> (k <= n)%nat -> (forall c, (c < k)%nat -> at2 M n c c <> 0) -> indep m k (at2 A0 n).
Proof.
  intros M tau k (HL & HLt & Hg & Hq & Hd & Hb & Hbt) Hk Hdk c Hc.
  pose proof (qm_orth m (ent tau) (qv M n) n Hg) as (_ & Ho). set (q := qm m (ent tau) (qv M n) n) in *.
  apply (upper_inj k (cur n M n)).
  - intros r j Hrj Hr. unfold cur. destruct (Nat.ltb_spec j n), (Nat.ltb_spec j r); cbn; auto; lia.
  - intros j Hj. unfold cur. rewrite Nat.ltb_irrefl, andb_false_r. auto.
  - intros i Hi. assert (H : forall r, (r < m)%nat -> mm m q (fun l _ => Sum k (fun j => cur n M n l j * c j)) r 0%nat = 0).
    { intros r Hr. rewrite <- (Hc r Hr). unfold mm. rewrite (Sum_ext k _ (fun j => Sum m (fun l => q r l * (cur n M n l j * c j)))).
      2: { intros j Hj. rewrite <- Hq by (auto; lia). unfold mm. rewrite <- Sum_mulr. apply Sum_ext. intros. ring. }
      rewrite Sum_swap. apply Sum_ext. intros l Hl. rewrite Sum_mul. reflexivity. }
    pose proof (mm_assoc m m (tr q) q (fun l _ => Sum k (fun j => cur n M n l j * c j)) i 0%nat) as G.
    rewrite (mm_ext m (mm m (tr q) q) idm _ (fun l _ => Sum k (fun j => cur n M n l j * c j))) in G; auto. 2: { intros l Hl. apply Ho; auto; lia. }
    rewrite mm_id_l in G by lia. rewrite G. unfold mm at 1. apply Sum_zero. intros l Hl. rewrite H by auto. ring.
Qed.

Variable junk : nat -> real.
Definition Pst (i : nat) (st : list real * list real * list real * bool) : Prop :=
  let '(M, tau, v, stop) := st in length v = m /\ Inv i M tau /\ (stop = true -> i = n).
Lemma step_or : forall i st, (i < n)%nat -> Pst i st ->
  (qr_step m n i st = UB \/ exists st', qr_step m n i st = Ok st' /\ Pst (i + 1) st') /\
  (indep m (Nat.min n (m - 1)) (at2 A0 n) -> exists st', qr_step m n i st = Ok st' /\ Pst (i + 1) st').
Proof.
  intros i (((M, tau), v), stop) Hi (Hlv & HI & Hs). destruct stop; [specialize (Hs eq_refl); lia|].
  destruct (Nat.lt_ge_cases i (m - 1)) as [Him|Him].
  - destruct (qr_step_ok i M tau v Hi Him HI Hlv) as (H1 & H2). split.
    + destruct (Req_dec (pivot i M) 0) as [Hz|Hz]; [left; auto|right]. destruct (H2 Hz) as (M' & tau' & v' & E & HI' & Hl). exists (M', tau', v', false). split; auto. split; auto. split; auto. discriminate.
    + intros Hind. destruct H2 as (M' & tau' & v' & E & HI' & Hl). { apply (nobreak i M tau); auto. apply (indep_sub m _ (Nat.min n (m - 1))); auto; lia. }
      exists (M', tau', v', false). split; auto. split; auto. split; auto. discriminate.
  - destruct (Inv_last i M tau Hi Him HI) as (En & HI'). destruct HI as (_ & HLt & _).
    assert (G : exists st', qr_step m n i (M, tau, v, false) = Ok st' /\ Pst (i + 1) st').
    { unfold qr_step. destruct (Nat.leb_spec (m - 1) i); [|lia]. rewrite put_ok by lia. cbn [rbind]. eexists. split; [reflexivity|]. split; auto. }
    split; auto.
Qed.
Lemma qr_or : qr junk A0 tau0 m n = UB \/ exists M tau, qr junk A0 tau0 m n = Ok (M, tau) /\ Inv n M tau.
Proof.
  unfold qr. destruct (Nat.leb_spec n m); [|lia]. cbn [negb].
  destruct (rfold_or _ Pst (qr_step m n) n 0%nat (A0, tau0, map junk (seq 0 m), false)) as [E|((((M, tau), v), stop) & E & H1 & H2 & _)].
  - split; [rewrite map_length, seq_length; auto|]. split; [apply Inv0|discriminate].
  - intros i st Hi HP. apply step_or; auto; lia.
  - left. rewrite E. reflexivity.
  - right. exists M, tau. rewrite E. auto.
Qed.
Lemma qr_ok : indep m (Nat.min n (m - 1)) (at2 A0 n) -> exists M tau, qr junk A0 tau0 m n = Ok (M, tau) /\ Inv n M tau.
Proof.
  intros Hind. unfold qr. destruct (Nat.leb_spec n m); [|lia]. cbn [negb].
  destruct (@rfold_inv0 _ Pst (qr_step m n) n (A0, tau0, map junk (seq 0 m), false)) as ((((M, tau), v), stop) & E & H1 & H2 & _).
  - split; [rewrite map_length, seq_length; auto|]. split; [apply Inv0|discriminate].
  - intros i st Hi HP. apply step_or; auto.
  - exists M, tau. rewrite E. auto.
Qed.
Lemma qr_diag : forall M tau, Inv n M tau -> indep m n (at2 A0 n) -> forall c, (c < n)%nat -> at2 M n c c <> 0.
Proof.
  intros M tau HI Hind c Hc. destruct (Nat.lt_ge_cases c (m - 1)); [apply HI; auto|].
  intros Hz. pose proof HI as (HL & HLt & Hg & Hq & Hd & Hb & Hbt).
  (* the last column of a square matrix; the same argument as [nobreak] *)
  destruct (upper_solve c (cur n M n) (fun r => at2 M n r c)) as (x & Hx).
  { intros r j Hrj Hr. unfold cur. destruct (Nat.ltb_spec j n), (Nat.ltb_spec j r); cbn; auto; lia. }
  { intros j Hj. unfold cur. rewrite Nat.ltb_irrefl, andb_false_r. apply Hd; lia. }
  pose (y := fun j => if (j =? c)%nat then -1 else x j).
  assert (Hy : y c = 0). 2: { unfold y in Hy. rewrite Nat.eqb_refl in Hy. lra. }
  apply (Hind y); auto. intros r Hr.
  rewrite (Sum_ext _ _ (fun j => mm m (qm m (ent tau) (qv M n) n) (cur n M n) r j * y j)). 2: { intros j Hj. rewrite Hq by (auto; lia). reflexivity. }
  unfold mm. rewrite (Sum_ext _ _ (fun j => Sum m (fun l => qm m (ent tau) (qv M n) n r l * (cur n M n l j * y j)))). 2: { intros j _. rewrite <- Sum_mulr. apply Sum_ext. intros. ring. }
  rewrite Sum_swap. apply Sum_zero. intros l Hl. rewrite Sum_mul. replace (Sum n (fun j => cur n M n l j * y j)) with 0; [ring|].
  replace n with (S c) at 1 by lia. cbn [Sum]. unfold y at 2. rewrite Nat.eqb_refl. unfold cur at 2. destruct (Nat.ltb_spec c n); [|lia]. destruct (Nat.ltb_spec c l); [lia|]. cbn [andb].
  rewrite (Sum_ext c _ (fun j => cur n M n l j * x j)). 2: { intros j Hj. unfold y. destruct (Nat.eqb_spec j c); [lia|reflexivity]. }
  destruct (Nat.lt_ge_cases l c).
  - rewrite Hx by auto. ring.
  - replace l with c by lia. rewrite Hz. rewrite Sum_zero; [ring|]. intros j Hj. unfold cur. destruct (Nat.ltb_spec j n), (Nat.ltb_spec j c); cbn; try lia; ring.
Qed.
End Fact.
