(** * The restriction kernels compute the specification *)
From Coq Require Import List ZArith Lia Bool Arith Ring.
From Verif Require Import Prelude Adds RstrModel RstrSpec RstrProofs.
Import ListNotations.
Set Implicit Arguments.

Section K.
Variable R : Rng.
Add Ring Rr : (r_th R).
Implicit Types u v : list R.

Section NoT.
Variables (d : udesc) (r : rstr) (w : variant) (u v : list R) (start stop : nat).
Hypothesis Hrep : repr d r.
Hypothesis Hl : lengths_ok d.
Hypothesis Hr : in_range d.
Hypothesis Hc : curl_ok w d.
Hypothesis Hne : 0 < u_ne d.
Hypothesis Hss : start <= stop <= r_nb r.
Hypothesis Hu : u_lsize d <= length u.

Let bs := r_bs r.
Let es := u_es d.
Let nc := u_nc d.
Let N := (stop - start) * (nc * (es * bs)).
Hypothesis Hv : N <= length v.

Definition gather : list R :=
  map (fun q => Eval w d u (elt (u_ne d) (r_bs r) (start + dec_b (u_nc d) (u_es d) (r_bs r) q) (dec_j (r_bs r) q))
                     (dec_k (u_nc d) (u_es d) (r_bs r) q) (dec_n (u_es d) (r_bs r) q)) (seq 0 N).

Let finish : forall f,
  (forall s, f s = forN (stop - start) (fun b v => forN nc (fun k v => forN es (fun n v => forN bs (fun j v =>
     x <- Some (Eval w d u (elt (u_ne d) bs (start + b) j) k n) ;;
     set v (b * (nc * (es * bs)) + (k * (es * bs) + (n * bs + j))) x) v) v) v) s) ->
  f v = Some (gather ++ skipn N v).
Proof.
  intros f E. rewrite E.
  rewrite quad_fill with (h := fun b k n j => Eval w d u (elt (u_ne d) bs (start + b) j) k n); auto.
Qed.

Lemma core_offset_nt : forall o o',
  (forall el k m, col d el k m = (nth (el * u_es d + m) o 0 + Z.of_nat k * u_cs d)%Z) ->
  lay d r (u_es d) o o' -> length o = u_ne d * u_es d ->
  (forall k, k < u_nc d -> Z.of_nat (k * r_cs r) = (Z.of_nat k * u_cs d)%Z) ->
  (forall el n m, n < u_es d -> m < u_es d -> coef R w d el n m = delta (n =? m) 1%R) ->
  offset_notranspose o' nc bs (r_cs r) start stop es (start * bs * es * nc) u v = Some (gather ++ skipn N v).
Proof.
  intros o o' Hcol Hlay Hlo Hcs Hcoef.
  apply (finish (fun v => offset_notranspose o' nc bs (r_cs r) start stop es (start * bs * es * nc) u v)).
  intros s. unfold offset_notranspose. rewrite forR_forN. apply forN_ext. intros b s1 Hb. cbv zeta.
  apply forN_ext. intros k s2 Hk. rewrite forN_mul. apply forN_ext. intros n s3 Hn.
  apply forN_ext. intros j s4 Hj.
  destruct (@off_get R d r o o' (start + b) j n k (r_cs r) u) as (z & Ez & Ecol & Eu); auto; try lia.
  unfold es, bs, nc in *.
  replace (n * r_bs r + j + (start + b) * r_bs r * u_es d)
    with ((start + b) * r_bs r * u_es d + n * r_bs r + j) by ring.
  rewrite Ez. cbn [bind]. rewrite Eu. cbn [bind].
  rewrite (@Eval_diag R w d u _ k n 1%R); auto.
  replace (1 * vf u (Z.to_nat (col d (elt (u_ne d) (r_bs r) (start + b) j) k n)))%R
    with (vf u (Z.to_nat (col d (elt (u_ne d) (r_bs r) (start + b) j) k n))) by ring.
  f_equal. rewrite row_eq2. reflexivity.
Qed.

Lemma core_oriented_nt : forall o o' s s', u_kind d = UOriented o s -> v_signs w = true ->
  lay d r (u_es d) o o' -> lay d r (u_es d) s s' ->
  (forall k, k < u_nc d -> Z.of_nat (k * r_cs r) = (Z.of_nat k * u_cs d)%Z) ->
  oriented_notranspose o' s' nc bs (r_cs r) start stop es (start * bs * es * nc) u v = Some (gather ++ skipn N v).
Proof.
  intros o o' s s' Hkind Hw Hlay Hlays Hcs.
  assert (Hlo : length o = u_ne d * u_es d /\ length s = u_ne d * u_es d)
    by (unfold lengths_ok in Hl; rewrite Hkind in Hl; auto).
  destruct Hlo as (Hlo & Hls).
  apply (finish (fun v => oriented_notranspose o' s' nc bs (r_cs r) start stop es (start * bs * es * nc) u v)).
  intros s0. unfold oriented_notranspose. rewrite forR_forN. apply forN_ext. intros b s1 Hb. cbv zeta.
  apply forN_ext. intros k s2 Hk. rewrite forN_mul. apply forN_ext. intros n s3 Hn.
  apply forN_ext. intros j s4 Hj.
  destruct (@off_get R d r o o' (start + b) j n k (r_cs r) u) as (z & Ez & Ecol & Eu); auto; try lia.
  { intros. unfold col. rewrite Hkind. reflexivity. }
  unfold es, bs, nc in *.
  replace (n * r_bs r + j + (start + b) * r_bs r * u_es d)
    with ((start + b) * r_bs r * u_es d + n * r_bs r + j) by ring.
  rewrite Ez. cbn [bind]. rewrite Eu. cbn [bind].
  set (el := elt (u_ne d) (r_bs r) (start + b) j) in *.
  assert (Hel : el < u_ne d) by (apply elt_lt; auto).
  rewrite (Hlays (start + b) j n) by (auto; lia). fold el.
  rewrite (@get_Some _ s (el * u_es d + n) false) by (rewrite Hls; nia). cbn [bind].
  rewrite (@Eval_diag R w d u el k n (if nth (el * u_es d + n) s false then (- (1))%R else 1%R)); auto.
  2:{ intros m Hm. unfold coef. rewrite Hkind, Hw. reflexivity. }
  rewrite row_eq2. f_equal. destruct (nth (el * u_es d + n) s false); ring.
Qed.

Lemma core_strided_nt : forall s0 s1 s2, u_kind d = UStrided s0 s1 s2 ->
  strided_notranspose (backend_strides s0 s1 s2) s0 s1 s2 nc bs start stop (u_ne d) es (start * bs * es * nc) u v
  = Some (gather ++ skipn N v).
Proof.
  intros s0 s1 s2 Hkind.
  apply (finish (fun v => strided_notranspose (backend_strides s0 s1 s2) s0 s1 s2 nc bs start stop (u_ne d) es (start * bs * es * nc) u v)).
  intros s. unfold strided_notranspose. rewrite forR_forN. apply forN_ext. intros b t1 Hb. cbv zeta.
  apply forN_ext. intros k t2 Hk. apply forN_ext. intros n t3 Hn.
  apply forN_ext. intros j t4 Hj.
  unfold es, bs, nc in *.
  set (el := elt (u_ne d) (r_bs r) (start + b) j) in *.
  assert (Hel : el < u_ne d) by (apply elt_lt; auto).
  replace (Z.min (Z.of_nat ((start + b) * r_bs r + j)) (Z.of_nat (u_ne d) - 1)) with (Z.of_nat el)
    by (unfold el, elt; lia).
  replace (if backend_strides s0 s1 s2
     then (Z.of_nat (n + k * u_es d) + Z.of_nat el * Z.of_nat (u_es d) * Z.of_nat (u_nc d))%Z
     else (Z.of_nat n * s0 + Z.of_nat k * s1 + Z.of_nat el * s2)%Z) with (col d el k n).
  2:{ unfold col. rewrite Hkind. destruct (backend_strides s0 s1 s2); [lia|reflexivity]. }
  pose proof (Hr Hel Hk Hn) as Hrange.
  rewrite getZ_vf by lia. cbn [bind].
  rewrite (@Eval_diag R w d u el k n 1%R); auto.
  2:{ intros m Hm. unfold coef. rewrite Hkind. reflexivity. }
  rewrite row_eq. f_equal. ring.
Qed.

Lemma core_curl_nt : forall f o o' c c', u_kind d = UCurl o c -> v_orients w = true ->
  f = (if v_signs w then (fun z => z) else Z.abs) ->
  lay d r (u_es d) o o' -> lay d r (3 * u_es d) c c' ->
  (forall k, k < u_nc d -> Z.of_nat (k * r_cs r) = (Z.of_nat k * u_cs d)%Z) ->
  curl_notranspose f o' c' nc bs (r_cs r) start stop es (start * bs * es * nc) u v = Some (gather ++ skipn N v).
Proof.
  intros f o o' c c' Hkind Hw Hf Hlay Hlayc Hcs.
  assert (Hlo : length o = u_ne d * u_es d /\ length c = u_ne d * (3 * u_es d))
    by (unfold lengths_ok in Hl; rewrite Hkind in Hl; auto).
  destruct Hlo as (Hlo & Hlc).
  assert (Hes2 : 2 <= u_es d) by (unfold curl_ok in Hc; rewrite Hkind in Hc; auto).
  apply (finish (fun v => curl_notranspose f o' c' nc bs (r_cs r) start stop es (start * bs * es * nc) u v)).
  intros s0. unfold curl_notranspose. rewrite forR_forN. apply forN_ext. intros b s1 Hb. cbv zeta.
  apply forN_ext. intros k s2 Hk.
  rewrite (forN_first_last (n := es)) by auto.
  assert (HT : forall j m cc, j < bs -> m < es -> cc < 3 * es ->
     curl_term f o' c' bs (r_cs r) es ((start + b) * bs) k j m cc u =
     Some (vf u (Z.to_nat (col d (elt (u_ne d) (r_bs r) (start + b) j) k m)) *
           zr R (f (nth (elt (u_ne d) (r_bs r) (start + b) j * (3 * u_es d) + cc) c 0%Z)))%R).
  { intros j m cc Hj Hm Hcc. unfold curl_term.
    destruct (@off_get R d r o o' (start + b) j m k (r_cs r) u) as (z & Ez & Ecol & Eu); auto; try lia.
    { intros. unfold col. rewrite Hkind. reflexivity. }
    unfold es, bs, nc in *.
    replace (j + m * r_bs r + (start + b) * r_bs r * u_es d)
      with ((start + b) * r_bs r * u_es d + m * r_bs r + j) by ring.
    rewrite Ez. cbn [bind]. rewrite Eu. cbn [bind].
    replace (j + cc * r_bs r + (start + b) * r_bs r * 3 * u_es d)
      with ((start + b) * r_bs r * (3 * u_es d) + cc * r_bs r + j) by ring.
    rewrite (Hlayc (start + b) j cc) by (auto; lia).
    set (el := elt (u_ne d) (r_bs r) (start + b) j) in *.
    assert (Hel : el < u_ne d) by (apply elt_lt; auto).
    rewrite (@get_Some _ c (el * (3 * u_es d) + cc) 0%Z) by (rewrite Hlc; nia). reflexivity. }
  assert (HE : forall j n, j < bs -> n < es ->
     let el := elt (u_ne d) (r_bs r) (start + b) j in
     let U m := vf u (Z.to_nat (col d el k m)) in
     let a cc := zr R (f (nth (el * (3 * u_es d) + (3 * n + cc)) c 0%Z)) in
     Eval w d u el k n =
       (delta (0 <? n) (a 0%nat * U (n - 1)%nat) + a 1%nat * U n + delta (n + 1 <? es) (a 2%nat * U (n + 1)%nat))%R).
  { intros j n Hj Hn el U a. unfold Eval.
    fold es. rewrite <- sumn_tri by auto. apply sumn_ext. intros m Hm. f_equal.
    unfold coef. rewrite Hkind, Hw. unfold a. cbv zeta.
    rewrite Hf. destruct (v_signs w); reflexivity. }
  replace (Nat.max 1 (es - 1)) with (es - 1) by (unfold es; lia).
  assert (Row : forall n j, (start + b) * bs * es * nc + (k * es + n) * bs + j - start * bs * es * nc
                = b * (nc * (es * bs)) + (k * (es * bs) + (n * bs + j))) by (intros; apply row_eq).
  assert (E0 : forall s, forN bs (fun j v0 =>
      a <- curl_term f o' c' bs (r_cs r) es ((start + b) * bs) k j 0 (3 * 0 + 1) u;;
      b0 <- curl_term f o' c' bs (r_cs r) es ((start + b) * bs) k j (0 + 1) (3 * 0 + 2) u;;
      set v0 ((start + b) * bs * es * nc + (k * es + 0) * bs + j - start * bs * es * nc) (a + b0)%R) s =
      forN bs (fun j v0 => x <- Some (Eval w d u (elt (u_ne d) bs (start + b) j) k 0);;
      set v0 (b * (nc * (es * bs)) + (k * (es * bs) + (0 * bs + j))) x) s).
  { intros s. apply forN_ext. intros j s' Hj. rewrite !HT by (unfold es; lia). cbn [bind].
    rewrite HE by (unfold es in *; auto; lia). rewrite Row. f_equal.
    replace (0 + 1 <? es) with true by (symmetry; apply Nat.ltb_lt; unfold es; lia).
    change (0 <? 0) with false. unfold delta. cbn [Nat.mul Nat.add Nat.sub]. ring. }
  assert (E1 : forall s, forN bs (fun j v0 =>
      a <- curl_term f o' c' bs (r_cs r) es ((start + b) * bs) k j (es - 1 - 1) (3 * (es - 1) + 0) u;;
      b0 <- curl_term f o' c' bs (r_cs r) es ((start + b) * bs) k j (es - 1) (3 * (es - 1) + 1) u;;
      set v0 ((start + b) * bs * es * nc + (k * es + (es - 1)) * bs + j - start * bs * es * nc) (a + b0)%R) s =
      forN bs (fun j v0 => x <- Some (Eval w d u (elt (u_ne d) bs (start + b) j) k (es - 1));;
      set v0 (b * (nc * (es * bs)) + (k * (es * bs) + ((es - 1) * bs + j))) x) s).
  { intros s. apply forN_ext. intros j s' Hj. rewrite !HT by (unfold es; lia). cbn [bind].
    rewrite HE by (unfold es in *; auto; lia). rewrite Row. f_equal.
    replace (es - 1 + 1 <? es) with false by (symmetry; apply Nat.ltb_ge; unfold es; lia).
    replace (0 <? es - 1) with true by (symmetry; apply Nat.ltb_lt; unfold es; lia).
    unfold delta. ring. }
  rewrite E0. destruct (forN bs _ s2) as [t1|]; cbn [bind]; [|reflexivity].
  assert (EM : forall s, forR 1 (es - 1) (fun n v0 => forN bs (fun j v1 =>
      a <- curl_term f o' c' bs (r_cs r) es ((start + b) * bs) k j (n - 1) (3 * n + 0) u;;
      b0 <- curl_term f o' c' bs (r_cs r) es ((start + b) * bs) k j n (3 * n + 1) u;;
      c0 <- curl_term f o' c' bs (r_cs r) es ((start + b) * bs) k j (n + 1) (3 * n + 2) u;;
      set v1 ((start + b) * bs * es * nc + (k * es + n) * bs + j - start * bs * es * nc) (a + b0 + c0)%R) v0) s =
      forR 1 (es - 1) (fun n v0 => forN bs (fun j v1 => x <- Some (Eval w d u (elt (u_ne d) bs (start + b) j) k n);;
      set v1 (b * (nc * (es * bs)) + (k * (es * bs) + (n * bs + j))) x) v0) s).
  { intros s. apply foldO_ext. intros n s' Hn. apply in_seq in Hn.
    apply forN_ext. intros j s'' Hj. rewrite !HT by (unfold es in *; lia). cbn [bind].
    rewrite HE by (unfold es in *; auto; lia). rewrite Row. f_equal.
    replace (n + 1 <? es) with true by (symmetry; apply Nat.ltb_lt; lia).
    replace (0 <? n) with true by (symmetry; apply Nat.ltb_lt; lia).
    unfold delta. ring. }
  rewrite EM. destruct (forR 1 (es - 1) _ t1) as [t2|]; cbn [bind]; [|reflexivity].
  apply E1.
Qed.

Lemma apply_core_nt :
  apply_core r start stop NoTranspose (v_signs w) (v_orients w) u v = Some (gather ++ skipn N v).
Proof.
  pose proof (rp_kind Hrep) as Hk. pose proof (rp_cs Hrep) as Hcs.
  unfold apply_core. rewrite (rp_es Hrep), (rp_nc Hrep), (rp_ne Hrep). fold bs es nc.
  destruct (u_kind d) as [s0 s1 s2|o|o s|o c] eqn:Hkind.
  - rewrite Hk. apply core_strided_nt. auto.
  - destruct Hk as (o' & -> & Hlay). destruct Hcs as [(a & b & e & Habs)|Hcs]; [discriminate|].
    apply core_offset_nt with (o := o); auto.
    + intros. unfold col. rewrite Hkind. reflexivity.
    + unfold lengths_ok in Hl; rewrite Hkind in Hl; auto.
    + intros. unfold coef. rewrite Hkind. reflexivity.
  - destruct Hk as (o' & s' & -> & Hlay & Hlays). destruct Hcs as [(a & b & e & Habs)|Hcs]; [discriminate|].
    destruct (v_signs w) eqn:Hw.
    + eapply core_oriented_nt; eauto.
    + apply core_offset_nt with (o := o); auto.
      * intros. unfold col. rewrite Hkind. reflexivity.
      * unfold lengths_ok in Hl; rewrite Hkind in Hl; tauto.
      * intros. unfold coef. rewrite Hkind, Hw. reflexivity.
  - destruct Hk as (o' & c' & -> & Hlay & Hlayc). destruct Hcs as [(a & b & e & Habs)|Hcs]; [discriminate|].
    destruct (v_orients w) eqn:Ho.
    + rewrite andb_true_r. destruct (v_signs w) eqn:Hw.
      * eapply core_curl_nt; eauto. rewrite Hw. reflexivity.
      * eapply core_curl_nt; eauto. rewrite Hw. reflexivity.
    + rewrite andb_false_r.
      apply core_offset_nt with (o := o); auto.
      * intros. unfold col. rewrite Hkind. reflexivity.
      * unfold lengths_ok in Hl; rewrite Hkind in Hl; tauto.
      * intros. unfold coef. rewrite Hkind, Ho. reflexivity.
Qed.
End NoT.

Section T.
Variables (d : udesc) (r : rstr) (w : variant) (u : list R) (start stop L : nat).
Hypothesis Hrep : repr d r.
Hypothesis Hl : lengths_ok d.
Hypothesis Hr : in_range d.
Hypothesis Hc : curl_ok w d.
Hypothesis Hne : 0 < u_ne d.
Hypothesis Hss : start <= stop <= r_nb r.
Let bs := r_bs r.
Let es := u_es d.
Let nc := u_nc d.
Let N := (stop - start) * (nc * (es * bs)).
Hypothesis Hu : N <= length u.
Hypothesis HL : u_lsize d <= L.

(** Value of the E-vector for block [b] (counted from [start]), component, node, lane. *)
Definition evu (b k n j : nat) : R := vf u (b * (u_nc d * (u_es d * r_bs r)) + (k * (u_es d * r_bs r) + (n * r_bs r + j))).
Definition lanes (b : nat) : nat := Nat.min (r_bs r) (u_ne d - (start + b) * r_bs r).

Definition scatter (q : nat) : R :=
  sumn (stop - start) (fun b => sumn (u_nc d) (fun k => sumn (lanes b) (fun j => sumn (u_es d) (fun n => sumn (u_es d) (fun m =>
    delta (Z.of_nat q =? col d ((start + b) * r_bs r + j) k m)%Z
          (coef R w d ((start + b) * r_bs r + j) n m * evu b k n j)%R))))).

Lemma lanes_lt : forall b j, j < lanes b -> j < bs /\ (start + b) * bs + j < u_ne d /\
  elt (u_ne d) bs (start + b) j = (start + b) * bs + j.
Proof. intros b j. unfold lanes, elt, bs. lia. Qed.

Lemma evu_get : forall b k n j, b < stop - start -> k < nc -> n < es -> j < bs ->
  get u (b * (nc * (es * bs)) + (k * (es * bs) + (n * bs + j))) = Some (evu b k n j).
Proof.
  intros b k n j Hb Hk Hn Hj. apply get_vf. unfold N in Hu.
  assert (n * bs + j < es * bs) by (apply enc_lt; auto).
  assert (k * (es * bs) + (n * bs + j) < nc * (es * bs)) by (apply enc_lt; auto).
  assert (b * (nc * (es * bs)) + (k * (es * bs) + (n * bs + j)) < (stop - start) * (nc * (es * bs))) by (apply enc_lt; auto).
  lia.
Qed.

(** Kernels whose element matrix is diagonal. *)
Let diag_sum : forall (cf : nat -> nat -> R) q,
  (forall el n m, n < u_es d -> m < u_es d -> coef R w d el n m = delta (n =? m) (cf el n)) ->
  sumn (stop - start) (fun b => sumn nc (fun k => sumn es (fun n => sumn (lanes b) (fun j =>
    delta (Z.of_nat q =? col d ((start + b) * bs + j) k n)%Z (cf ((start + b) * bs + j)%nat n * evu b k n j)%R))))
  = scatter q.
Proof.
  intros cf q Hcf. unfold scatter. apply sumn_ext. intros b Hb. apply sumn_ext. intros k Hk.
  rewrite sumn_swap. apply sumn_ext. intros j Hj. apply sumn_ext. intros n Hn. symmetry.
  rewrite sumn_ext with (g := fun m => delta (m =? n) (delta (Z.of_nat q =? col d ((start + b) * bs + j) k m)%Z
     (cf ((start + b) * bs + j)%nat n * evu b k n j)%R)).
  - rewrite sumn_delta. apply Nat.ltb_lt in Hn. unfold es in Hn. rewrite Hn. reflexivity.
  - intros m Hm. rewrite Hcf by auto. rewrite (Nat.eqb_sym n m). fold bs.
    destruct (m =? n); unfold delta; destruct (Z.of_nat q =? _)%Z; ring.
Qed.

Lemma off_get_t : forall o o' b j n k,
  (forall el k m, col d el k m = (nth (el * u_es d + m) o 0 + Z.of_nat k * u_cs d)%Z) ->
  lay d r (u_es d) o o' -> length o = u_ne d * u_es d ->
  (forall k, k < u_nc d -> Z.of_nat (k * r_cs r) = (Z.of_nat k * u_cs d)%Z) ->
  b < stop - start -> k < nc -> n < es -> j < lanes b ->
  exists z, get o' ((start + b) * bs * es + n * bs + j) = Some z /\
    (z + Z.of_nat (k * r_cs r) = col d ((start + b) * bs + j) k n)%Z /\
    (0 <= col d ((start + b) * bs + j) k n < Z.of_nat L)%Z.
Proof.
  intros o o' b j n k Hcol Hlay Hlo Hcs Hb Hk Hn Hj. destruct (lanes_lt _ Hj) as (Hj1 & Hj2 & Hj3).
  exists (nth (((start + b) * bs + j) * es + n) o 0%Z). split; [|split].
  - unfold es, bs in *. rewrite Hlay by (auto; lia). rewrite Hj3.
    apply get_Some. rewrite Hlo. nia.
  - rewrite Hcol, Hcs by auto. reflexivity.
  - pose proof (Hr Hj2 Hk Hn). lia.
Qed.

Lemma core_offset_t : forall o o',
  (forall el k m, col d el k m = (nth (el * u_es d + m) o 0 + Z.of_nat k * u_cs d)%Z) ->
  lay d r (u_es d) o o' -> length o = u_ne d * u_es d ->
  (forall k, k < u_nc d -> Z.of_nat (k * r_cs r) = (Z.of_nat k * u_cs d)%Z) ->
  (forall el n m, n < u_es d -> m < u_es d -> coef R w d el n m = delta (n =? m) 1%R) ->
  Adds R L (offset_transpose o' nc bs (r_cs r) start stop (u_ne d) es (start * bs * es * nc) u) scatter.
Proof.
  intros o o' Hcol Hlay Hlo Hcs Hcoef.
  eapply Adds_ext; [|intros q; apply (@diag_sum (fun _ _ => 1%R)); auto].
  unfold offset_transpose.
  eapply Adds_fext; [|intros; apply forR_forN].
  apply Adds_forN with (g := fun b q => sumn nc (fun k => sumn es (fun n => sumn (lanes b) (fun j =>
    delta (Z.of_nat q =? col d ((start + b) * bs + j) k n)%Z (1 * evu b k n j)%R)))).
  intros b Hb. cbv zeta.
  apply Adds_forN with (g := fun k q => sumn es (fun n => sumn (lanes b) (fun j =>
    delta (Z.of_nat q =? col d ((start + b) * bs + j) k n)%Z (1 * evu b k n j)%R))).
  intros k Hk.
  apply Adds_forN with (g := fun n q => sumn (lanes b) (fun j =>
    delta (Z.of_nat q =? col d ((start + b) * bs + j) k n)%Z (1 * evu b k n j)%R)).
  intros n Hn.
  apply Adds_forN with (g := fun j q =>
    delta (Z.of_nat q =? col d ((start + b) * bs + j) k n)%Z (1 * evu b k n j)%R).
  intros j Hj. destruct (lanes_lt _ Hj) as (Hj1 & Hj2 & Hj3).
  rewrite row_eq2.
  destruct (@off_get_t o o' b j n k) as (z & Ez & Ecol & Hz); auto.
  eapply Adds_bind; [apply evu_get; auto|].
  eapply Adds_bind.
  { replace (n * bs + j + (start + b) * bs * es) with ((start + b) * bs * es + n * bs + j) by ring. exact Ez. }
  rewrite Ecol. eapply Adds_ext; [apply Adds_addatZ; auto|]. intros q. simpl. f_equal. ring.
Qed.

Lemma core_oriented_t : forall o o' s s', u_kind d = UOriented o s -> v_signs w = true ->
  lay d r (u_es d) o o' -> lay d r (u_es d) s s' ->
  (forall k, k < u_nc d -> Z.of_nat (k * r_cs r) = (Z.of_nat k * u_cs d)%Z) ->
  Adds R L (oriented_transpose o' s' nc bs (r_cs r) start stop (u_ne d) es (start * bs * es * nc) u) scatter.
Proof.
  intros o o' s s' Hkind Hw Hlay Hlays Hcs.
  assert (Hlo : length o = u_ne d * u_es d /\ length s = u_ne d * u_es d)
    by (unfold lengths_ok in Hl; rewrite Hkind in Hl; auto).
  destruct Hlo as (Hlo & Hls).
  set (cf := fun el n : nat => (if nth (el * u_es d + n) s false then ropp r1 else r1) : car R).
  eapply Adds_ext; [|intros q; apply (@diag_sum cf); auto].
  2:{ intros. unfold coef. rewrite Hkind, Hw. reflexivity. }
  unfold oriented_transpose.
  eapply Adds_fext; [|intros; apply forR_forN].
  apply Adds_forN with (g := fun b q => sumn nc (fun k => sumn es (fun n => sumn (lanes b) (fun j =>
    delta (Z.of_nat q =? col d ((start + b) * bs + j) k n)%Z (cf ((start + b) * bs + j)%nat n * evu b k n j)%R)))).
  intros b Hb. cbv zeta.
  apply Adds_forN with (g := fun k q => sumn es (fun n => sumn (lanes b) (fun j =>
    delta (Z.of_nat q =? col d ((start + b) * bs + j) k n)%Z (cf ((start + b) * bs + j)%nat n * evu b k n j)%R))).
  intros k Hk.
  apply Adds_forN with (g := fun n q => sumn (lanes b) (fun j =>
    delta (Z.of_nat q =? col d ((start + b) * bs + j) k n)%Z (cf ((start + b) * bs + j)%nat n * evu b k n j)%R)).
  intros n Hn.
  apply Adds_forN with (g := fun j q =>
    delta (Z.of_nat q =? col d ((start + b) * bs + j) k n)%Z (cf ((start + b) * bs + j)%nat n * evu b k n j)%R).
  intros j Hj. destruct (lanes_lt _ Hj) as (Hj1 & Hj2 & Hj3).
  rewrite row_eq2.
  destruct (@off_get_t o o' b j n k) as (z & Ez & Ecol & Hz); auto.
  { intros. unfold col. rewrite Hkind. reflexivity. }
  eapply Adds_bind; [apply evu_get; auto|].
  eapply Adds_bind.
  { replace (n * bs + j + (start + b) * bs * es) with ((start + b) * bs * es + n * bs + j) by ring.
    unfold es, bs in *. rewrite Hlays by (auto; lia). rewrite Hj3. apply get_Some with (d := false).
    rewrite Hls. nia. }
  eapply Adds_bind.
  { replace (n * bs + j + (start + b) * bs * es) with ((start + b) * bs * es + n * bs + j) by ring. exact Ez. }
  rewrite Ecol. eapply Adds_ext; [apply Adds_addatZ; auto|]. intros q. simpl. f_equal.
  unfold cf. destruct (nth _ s false); ring.
Qed.

Lemma core_strided_t : forall s0 s1 s2, u_kind d = UStrided s0 s1 s2 ->
  Adds R L (strided_transpose (backend_strides s0 s1 s2) s0 s1 s2 nc bs start stop (u_ne d) es (start * bs * es * nc) u) scatter.
Proof.
  intros s0 s1 s2 Hkind.
  eapply Adds_ext; [|intros q; apply (@diag_sum (fun _ _ => 1%R)); auto].
  2:{ intros. unfold coef. rewrite Hkind. reflexivity. }
  unfold strided_transpose.
  eapply Adds_fext; [|intros; apply forR_forN].
  apply Adds_forN with (g := fun b q => sumn nc (fun k => sumn es (fun n => sumn (lanes b) (fun j =>
    delta (Z.of_nat q =? col d ((start + b) * bs + j) k n)%Z (1 * evu b k n j)%R)))).
  intros b Hb. cbv zeta.
  apply Adds_forN with (g := fun k q => sumn es (fun n => sumn (lanes b) (fun j =>
    delta (Z.of_nat q =? col d ((start + b) * bs + j) k n)%Z (1 * evu b k n j)%R))).
  intros k Hk.
  apply Adds_forN with (g := fun n q => sumn (lanes b) (fun j =>
    delta (Z.of_nat q =? col d ((start + b) * bs + j) k n)%Z (1 * evu b k n j)%R)).
  intros n Hn.
  apply Adds_forN with (g := fun j q =>
    delta (Z.of_nat q =? col d ((start + b) * bs + j) k n)%Z (1 * evu b k n j)%R).
  intros j Hj. destruct (lanes_lt _ Hj) as (Hj1 & Hj2 & Hj3).
  rewrite row_eq.
  eapply Adds_bind; [apply evu_get; auto|].
  replace (if backend_strides s0 s1 s2
     then Z.of_nat (n + k * es + ((start + b) * bs + j) * es * nc)
     else (Z.of_nat n * s0 + Z.of_nat k * s1 + Z.of_nat ((start + b) * bs + j) * s2)%Z)
    with (col d ((start + b) * bs + j) k n).
  2:{ unfold col. rewrite Hkind. destruct (backend_strides s0 s1 s2); [unfold es, nc; lia|reflexivity]. }
  eapply Adds_ext; [apply Adds_addatZ|].
  - pose proof (Hr Hj2 Hk Hn). lia.
  - intros q. simpl. f_equal. ring.
Qed.

Lemma core_curl_t : forall f o o' c c', u_kind d = UCurl o c -> v_orients w = true ->
  f = (if v_signs w then (fun z => z) else Z.abs) ->
  lay d r (u_es d) o o' -> lay d r (3 * u_es d) c c' ->
  (forall k, k < u_nc d -> Z.of_nat (k * r_cs r) = (Z.of_nat k * u_cs d)%Z) ->
  Adds R L (curl_transpose f o' c' nc bs (r_cs r) start stop (u_ne d) es (start * bs * es * nc) u) scatter.
Proof.
  intros f o o' c c' Hkind Hw Hf Hlay Hlayc Hcs.
  assert (Hlo : length o = u_ne d * u_es d /\ length c = u_ne d * (3 * u_es d))
    by (unfold lengths_ok in Hl; rewrite Hkind in Hl; auto).
  destruct Hlo as (Hlo & Hlc).
  assert (Hes2 : 2 <= u_es d) by (unfold curl_ok in Hc; rewrite Hkind in Hc; auto).
  (* value added at node n *)
  set (cc := fun el i : nat => zr R (f (nth (el * (3 * u_es d) + i) c 0%Z))).
  set (gat := fun b k n j => let el := (start + b) * bs + j in
     (delta (0 <? n) (cc el (3 * n - 1)%nat * evu b k (n - 1) j) + cc el (3 * n + 1)%nat * evu b k n j
      + delta (n + 1 <? es) (cc el (3 * n + 3)%nat * evu b k (n + 1) j))%R).
  assert (Hgat : forall b k n j, n < es -> gat b k n j =
     sumn es (fun m => (coef R w d ((start + b) * bs + j) m n * evu b k m j)%R)).
  { intros b k n j Hn. unfold gat. cbv zeta. 
    rewrite <- (@sumn_tri R es n (cc ((start + b) * bs + j) (3 * n - 1)) (cc ((start + b) * bs + j) (3 * n + 1))
      (cc ((start + b) * bs + j) (3 * n + 3)) (fun m => evu b k m j)) by auto.
    apply sumn_ext. intros m Hm. f_equal. unfold coef. rewrite Hkind, Hw. cbv zeta. unfold cc.
    destruct (Nat.eqb_spec (m + 1) n).
    { replace (n + 1 =? m) with false by (symmetry; apply Nat.eqb_neq; lia).
      replace (n =? m) with false by (symmetry; apply Nat.eqb_neq; lia).
      replace (n =? m + 1) with true by (symmetry; apply Nat.eqb_eq; lia).
      replace (3 * m + 2) with (3 * n - 1) by lia. rewrite Hf. destruct (v_signs w); reflexivity. }
    destruct (Nat.eqb_spec m n).
    { subst m. replace (n + 1 =? n) with false by (symmetry; apply Nat.eqb_neq; lia).
      rewrite Nat.eqb_refl. rewrite Hf. destruct (v_signs w); reflexivity. }
    destruct (Nat.eqb_spec m (n + 1)).
    { subst m. rewrite Nat.eqb_refl. replace (3 * (n + 1) + 0) with (3 * n + 3) by lia.
      rewrite Hf. destruct (v_signs w); reflexivity. }
    replace (n + 1 =? m) with false by (symmetry; apply Nat.eqb_neq; lia).
    replace (n =? m) with false by (symmetry; apply Nat.eqb_neq; lia).
    replace (n =? m + 1) with false by (symmetry; apply Nat.eqb_neq; lia). reflexivity. }
  apply Adds_ext with (g := fun q => sumn (stop - start) (fun b => sumn nc (fun k => sumn es (fun n => sumn (lanes b) (fun j =>
    delta (Z.of_nat q =? col d ((start + b) * bs + j) k n)%Z (gat b k n j)))))).
  2:{ intros q. unfold scatter. apply sumn_ext. intros b Hb. apply sumn_ext. intros k Hk.
      rewrite sumn_swap. apply sumn_ext. intros j Hj.
      rewrite (sumn_swap R (u_es d) (u_es d)). apply sumn_ext. intros n Hn.
      rewrite Hgat by auto. fold bs es.
      destruct (Z.of_nat q =? _)%Z; unfold delta; [reflexivity|]. symmetry. apply sumn_zero. auto. }
  unfold curl_transpose.
  eapply Adds_fext; [|intros; apply forR_forN].
  apply Adds_forN with (g := fun b q => sumn nc (fun k => sumn es (fun n => sumn (lanes b) (fun j =>
    delta (Z.of_nat q =? col d ((start + b) * bs + j) k n)%Z (gat b k n j))))).
  intros b Hb. cbv zeta.
  apply Adds_forN with (g := fun k q => sumn es (fun n => sumn (lanes b) (fun j =>
    delta (Z.of_nat q =? col d ((start + b) * bs + j) k n)%Z (gat b k n j)))).
  intros k Hk.
  assert (HT : forall j m i, j < lanes b -> m < es -> i < 3 * es ->
     curl_term_t f c' nc bs es (start * bs * es * nc) ((start + b) * bs) k j m i u =
     Some (evu b k m j * cc ((start + b) * bs + j)%nat i)%R).
  { intros j m i Hj Hm Hi. destruct (lanes_lt _ Hj) as (Hj1 & Hj2 & Hj3).
    unfold curl_term_t. rewrite row_eq. rewrite evu_get by auto. cbn [bind].
    replace (j + i * bs + (start + b) * bs * 3 * es) with ((start + b) * bs * (3 * es) + i * bs + j) by ring.
    unfold es, bs in *. rewrite Hlayc by (auto; lia). rewrite Hj3.
    rewrite (@get_Some _ c _ 0%Z) by (rewrite Hlc; nia). reflexivity. }
  set (F := fun n v => forN (lanes b) (fun j v => o0 <- get o' (j + n * bs + (start + b) * bs * es) ;;
                         addatZ v (o0 + Z.of_nat (k * r_cs r)) (gat b k n j)) v).
  apply Adds_fext with (f := forN es F).
  2:{ intros v _. rewrite (forN_first_last (n := es)) by auto.
      fold (lanes b). 
      replace (Nat.max 1 (es - 1)) with (es - 1) by (unfold es; lia).
      assert (E0 : forall v0, forN (lanes b) (fun j v1 =>
         a <- curl_term_t f c' nc bs es (start * bs * es * nc) ((start + b) * bs) k j 0 (3 * 0 + 1) u;;
         b0 <- curl_term_t f c' nc bs es (start * bs * es * nc) ((start + b) * bs) k j (0 + 1) (3 * 0 + 3) u;;
         o0 <- get o' (j + 0 * bs + (start + b) * bs * es);; addatZ v1 (o0 + Z.of_nat (k * r_cs r)) (a + b0)%R) v0
         = F 0 v0).
      { intros v0. unfold F. apply forN_ext. intros j v1 Hj. rewrite !HT by (auto; unfold es; lia).
        cbn [bind]. f_equal.
        replace (gat b k 0 j) with (evu b k 0 j * cc ((start + b) * bs + j)%nat (3 * 0 + 1)%nat +
                 evu b k (0 + 1) j * cc ((start + b) * bs + j)%nat (3 * 0 + 3)%nat)%R; [reflexivity|].
        unfold gat. cbv zeta.
        replace (0 + 1 <? es) with true by (symmetry; apply Nat.ltb_lt; unfold es; lia).
        change (0 <? 0) with false. unfold delta. ring. }
      assert (E1 : forall v0, forN (lanes b) (fun j v1 =>
         a <- curl_term_t f c' nc bs es (start * bs * es * nc) ((start + b) * bs) k j (es - 1 - 1) (3 * (es - 1) - 1) u;;
         b0 <- curl_term_t f c' nc bs es (start * bs * es * nc) ((start + b) * bs) k j (es - 1) (3 * (es - 1) + 1) u;;
         o0 <- get o' (j + (es - 1) * bs + (start + b) * bs * es);; addatZ v1 (o0 + Z.of_nat (k * r_cs r)) (a + b0)%R) v0
         = F (es - 1) v0).
      { intros v0. unfold F. apply forN_ext. intros j v1 Hj. rewrite !HT by (auto; unfold es; lia).
        cbn [bind]. f_equal.
        replace (gat b k (es - 1) j) with (evu b k (es - 1 - 1) j * cc ((start + b) * bs + j)%nat (3 * (es - 1) - 1)%nat +
                 evu b k (es - 1) j * cc ((start + b) * bs + j)%nat (3 * (es - 1) + 1)%nat)%R; [reflexivity|].
        unfold gat. cbv zeta.
        replace (es - 1 + 1 <? es) with false by (symmetry; apply Nat.ltb_ge; unfold es; lia).
        replace (0 <? es - 1) with true by (symmetry; apply Nat.ltb_lt; unfold es; lia).
        unfold delta. ring. }
      assert (EM : forall v0, forR 1 (es - 1) (fun n v2 => forN (lanes b) (fun j v1 =>
         a <- curl_term_t f c' nc bs es (start * bs * es * nc) ((start + b) * bs) k j (n - 1) (3 * n - 1) u;;
         b0 <- curl_term_t f c' nc bs es (start * bs * es * nc) ((start + b) * bs) k j n (3 * n + 1) u;;
         c0 <- curl_term_t f c' nc bs es (start * bs * es * nc) ((start + b) * bs) k j (n + 1) (3 * n + 3) u;;
         o0 <- get o' (j + n * bs + (start + b) * bs * es);; addatZ v1 (o0 + Z.of_nat (k * r_cs r)) (a + b0 + c0)%R) v2) v0
         = forR 1 (es - 1) F v0).
      { intros v0. apply foldO_ext. intros n v2 Hn. apply in_seq in Hn.
        unfold F. apply forN_ext. intros j v1 Hj. rewrite !HT by (auto; unfold es in *; lia).
        cbn [bind]. f_equal.
        replace (gat b k n j) with (evu b k (n - 1) j * cc ((start + b) * bs + j)%nat (3 * n - 1)%nat +
                 evu b k n j * cc ((start + b) * bs + j)%nat (3 * n + 1)%nat +
                 evu b k (n + 1) j * cc ((start + b) * bs + j)%nat (3 * n + 3)%nat)%R; [reflexivity|].
        unfold gat. cbv zeta.
        replace (n + 1 <? es) with true by (symmetry; apply Nat.ltb_lt; lia).
        replace (0 <? n) with true by (symmetry; apply Nat.ltb_lt; lia).
        unfold delta. ring. }
      rewrite E0. destruct (F 0 v) as [t1|]; cbn [bind]; [|reflexivity].
      rewrite EM. destruct (forR 1 (es - 1) F t1) as [t2|]; cbn [bind]; [|reflexivity].
      apply E1. }
  apply Adds_forN with (g := fun n q => sumn (lanes b) (fun j =>
    delta (Z.of_nat q =? col d ((start + b) * bs + j) k n)%Z (gat b k n j))).
  intros n Hn. unfold F.
  apply Adds_forN with (g := fun j q =>
    delta (Z.of_nat q =? col d ((start + b) * bs + j) k n)%Z (gat b k n j)).
  intros j Hj.
  destruct (@off_get_t o o' b j n k) as (z & Ez & Ecol & Hz); auto.
  { intros. unfold col. rewrite Hkind. reflexivity. }
  eapply Adds_bind.
  { replace (j + n * bs + (start + b) * bs * es) with ((start + b) * bs * es + n * bs + j) by ring. exact Ez. }
  rewrite Ecol. apply Adds_addatZ; auto.
Qed.

Lemma apply_core_t :
  Adds R L (apply_core r start stop Transpose (v_signs w) (v_orients w) u) scatter.
Proof.
  pose proof (rp_kind Hrep) as Hk. pose proof (rp_cs Hrep) as Hcs.
  unfold apply_core. rewrite (rp_es Hrep), (rp_nc Hrep), (rp_ne Hrep). fold bs es nc.
  destruct (u_kind d) as [s0 s1 s2|o|o s|o c] eqn:Hkind.
  - rewrite Hk. apply core_strided_t. auto.
  - destruct Hk as (o' & -> & Hlay). destruct Hcs as [(a & b & e & Habs)|Hcs]; [discriminate|].
    apply core_offset_t with (o := o); auto.
    + intros. unfold col. rewrite Hkind. reflexivity.
    + unfold lengths_ok in Hl; rewrite Hkind in Hl; auto.
    + intros. unfold coef. rewrite Hkind. reflexivity.
  - destruct Hk as (o' & s' & -> & Hlay & Hlays). destruct Hcs as [(a & b & e & Habs)|Hcs]; [discriminate|].
    destruct (v_signs w) eqn:Hw.
    + eapply core_oriented_t; eauto.
    + apply core_offset_t with (o := o); auto.
      * intros. unfold col. rewrite Hkind. reflexivity.
      * unfold lengths_ok in Hl; rewrite Hkind in Hl; tauto.
      * intros. unfold coef. rewrite Hkind, Hw. reflexivity.
  - destruct Hk as (o' & c' & -> & Hlay & Hlayc). destruct Hcs as [(a & b & e & Habs)|Hcs]; [discriminate|].
    destruct (v_orients w) eqn:Ho.
    + rewrite andb_true_r. destruct (v_signs w) eqn:Hw.
      * eapply core_curl_t; eauto. rewrite Hw. reflexivity.
      * eapply core_curl_t; eauto. rewrite Hw. reflexivity.
    + rewrite andb_false_r.
      apply core_offset_t with (o := o); auto.
      * intros. unfold col. rewrite Hkind. reflexivity.
      * unfold lengths_ok in Hl; rewrite Hkind in Hl; tauto.
      * intros. unfold coef. rewrite Hkind, Ho. reflexivity.
Qed.
End T.
End K.
Arguments gather {R}. Arguments evu {R}. Arguments scatter {R}.
