(** * The AVX kernels add the contraction *)
From Coq Require Import List ZArith Lia Bool Arith Ring.
From Verif Require Import Prelude Adds RstrModel RstrProofs TensorModel TensorProofs.
Import ListNotations.
Set Implicit Arguments.

Section V.
Variable R : Rng.
Add Ring Rr : (r_th R).
Local Open Scope nat_scope.

Lemma sumn_trunc : forall n m (f : nat -> R), n <= m -> sumn m (fun i => delta (i <? n) (f i)) = sumn n f.
Proof.
  intros n m f H. replace m with (n + (m - n)) by lia. rewrite sumn_app.
  rewrite sumn_ext with (g := f). 2:{ intros i Hi. destruct (Nat.ltb_spec i n); [reflexivity|lia]. }
  rewrite sumn_zero with (n := m - n). ring.
  intros i Hi. destruct (Nat.ltb_spec (n + i) n); [lia|reflexivity].
Qed.

(** A range cut into full tiles and a rest. *)
Lemma sumn_tiles : forall n T (f : nat -> R), 0 < T ->
  (sumn (n / T) (fun t => sumn T (fun i => f (t * T + i)%nat)) + sumn (n - n / T * T) (fun i => f (n / T * T + i)%nat))%R = sumn n f.
Proof.
  intros n T f HT. rewrite <- sumn_mul, <- sumn_app. f_equal.
  pose proof (Nat.div_mod n T ltac:(lia)). lia.
Qed.

(** Tiles of four, the last one masked. *)
Lemma sumn_tiles4 : forall n (f : nat -> R),
  sumn ((n + 3) / 4) (fun t => sumn 4 (fun l => delta (l <? n - t * 4) (f (t * 4 + l)))) = sumn n f.
Proof.
  intros n f. rewrite <- (@sumn_trunc n ((n + 3) / 4 * 4) f).
  - rewrite sumn_mul. apply sumn_ext. intros t Ht. apply sumn_ext. intros l Hl. f_equal.
    apply eq_true_iff_eq. rewrite !Nat.ltb_lt. lia.
  - pose proof (Nat.div_mod (n + 3) 4 ltac:(lia)). pose proof (Nat.mod_upper_bound (n + 3) 4 ltac:(lia)). lia.
Qed.

Local Opaque Nat.div Nat.modulo.
Lemma brk_eq : forall J T, 0 < T -> 0 < J -> brk J T = Some ((J - 1) / T * T).
Proof.
  intros J T HT HJ. unfold brk.
  pose proof (Nat.div_mod J T ltac:(lia)) as E. pose proof (Nat.mod_upper_bound J T ltac:(lia)).
  destruct (Nat.eqb_spec (J mod T) 0) as [E0|E0].
  - destruct (Nat.eqb_spec (J / T) 0) as [E1|E1]; [rewrite E1, E0 in E; lia|].
    f_equal. f_equal. apply Nat.div_unique with (r := T - 1); [lia|].
    rewrite E0 in E. replace (T * (J / T - 1)) with (T * (J / T) - T) by nia. nia.
  - f_equal. f_equal. apply Nat.div_unique with (r := J mod T - 1); lia.
Qed.

Lemma sumn_range : forall a b (f : nat -> R), a <= b -> (sumn a f + sumn (b - a) (fun i => f (a + i)%nat))%R = sumn b f.
Proof. intros a b f H. rewrite <- sumn_app. f_equal. lia. Qed.

Section K.
Variables (A B C J : nat) (t : list R) (tm : tmode) (u : list R).
Hypothesis Ht : B * J <= length t.
Hypothesis Hu : A * B * C <= length u.
Let F (q a j c : nat) : R := delta (q =? (a * J + j) * C + c) (csum tm B C J t u a j c).

Lemma u_get : forall a b c, a < A -> b < B -> c < C -> get u ((a * B + b) * C + c) = Some (vf u ((a * B + b) * C + c)).
Proof. intros. apply get_vf. assert ((a * B + b) * C + c < A * B * C) by (apply idx_lt; auto). lia. Qed.

(** A double loop over registers accumulates lane by lane. *)
Lemma acc_lanes : forall nr k (X : nat -> nat -> nat -> nat -> R) q,
  sumn B (fun b => sumn nr (fun jj => sumn k (fun cc => sumn 4 (fun l =>
     delta (q =? (jj * k + cc) * 4 + l) (X b jj cc l)))))
  = sumn (nr * k) (fun i => sumn 4 (fun l => delta (q =? i * 4 + l) (sumn B (fun b => X b (i / k) (i mod k) l)))).
Proof.
  intros nr k X q. rewrite sumn_swap, sumn_mul. apply sumn_ext. intros jj Hjj.
  rewrite sumn_swap. apply sumn_ext. intros cc Hcc. rewrite sumn_swap. apply sumn_ext. intros l Hl.
  rewrite delta_sumn. apply sumn_ext. intros b Hb. rewrite div_enc, mod_enc by auto. reflexivity.
Qed.

Lemma lanes_merge : forall nr k (X : nat -> nat -> R),
  sumn (nr * k) (fun i => sumn 4 (fun l => X (i / k) ((i mod k) * 4 + l)))
  = sumn nr (fun jj => sumn (4 * k) (fun c => X jj c)).
Proof.
  intros nr k X. rewrite sumn_mul. apply sumn_ext. intros jj Hjj.
  rewrite (Nat.mul_comm 4 k), sumn_mul. apply sumn_ext. intros cc Hcc. apply sumn_ext. intros l Hl.
  rewrite div_enc, mod_enc by auto. reflexivity.
Qed.

Lemma tile_b : forall L a j c nr k, a < A -> 0 < k -> j + nr <= J -> c + 4 * k <= C -> A * J * C <= L ->
  Adds R L (avx_tile_b B C J t tm u a j c nr k)
    (fun q => sumn nr (fun jj => sumn (4 * k) (fun c' => F q a (j + jj) (c + c')))).
Proof.
  intros L a j c nr k Ha Hk Hj Hc HL. unfold avx_tile_b.
  set (base := fun i => (a * J + j + i / k) * C + c + i mod k * 4).
  set (D := fun i l => csum tm B C J t u a (j + i / k) (c + (i mod k * 4 + l))).
  assert (Hik : forall i, i < nr * k -> i / k < nr /\ i mod k < k).
  { intros i Hi. split; [apply Nat.div_lt_upper_bound; lia|apply Nat.mod_upper_bound; lia]. }
  eapply Adds_ext.
  - apply tile_adds with (D := D).
    + intros i Hi. destruct (Hik i Hi). unfold base.
      assert ((a * J + (j + i / k)) * C + (c + i mod k * 4 + 3) < A * J * C) by (apply idx_lt; lia). lia.
    + eapply Adds_ext.
      * apply Adds_forN with (g := fun b q => sumn nr (fun jj => sumn k (fun cc => sumn 4 (fun l =>
           delta (q =? (jj * k + cc) * 4 + l) (tval tm B J t (j + jj) b * vf u ((a * B + b) * C + (c + (cc * 4 + l)))%nat)%R)))).
        intros b Hb. apply Adds_forN with (g := fun jj q => sumn k (fun cc => sumn 4 (fun l =>
           delta (q =? (jj * k + cc) * 4 + l) (tval tm B J t (j + jj) b * vf u ((a * B + b) * C + (c + (cc * 4 + l)))%nat)%R))). intros jj Hjj.
        rewrite (@t_get R tm B J t (j + jj) b) by (auto; lia). cbn [bind].
        apply Adds_forN with (g := fun cc q => sumn 4 (fun l =>
           delta (q =? (jj * k + cc) * 4 + l) (tval tm B J t (j + jj) b * vf u ((a * B + b) * C + (c + (cc * 4 + l)))%nat)%R)). intros cc Hcc.
        apply (@fmadd4_adds R (nr * k * 4) (jj * k + cc) _ _ (fun _ => tval tm B J t (j + jj) b) (fun l => vf u ((a * B + b) * C + (c + (cc * 4 + l))))).
        -- assert (jj * k + cc < nr * k) by (apply enc_lt; auto). lia.
        -- auto.
        -- intros l Hl. rewrite <- u_get by lia. f_equal. lia.
      * intros q. cbv beta. rewrite (acc_lanes nr k (fun b jj cc l => tval tm B J t (j + jj) b * vf u ((a * B + b) * C + (c + (cc * 4 + l)))%nat)%R).
        reflexivity.
    + intros i i' l l' Hi Hi' Hl Hl' E. exfalso. destruct (Hik i ltac:(lia)). destruct (Hik i' Hi'). unfold base in E.
      set (r := i / k) in *. set (m := i mod k) in *. set (r' := i' / k) in *. set (m' := i' mod k) in *.
      assert (E1 : i = k * r + m) by (apply Nat.div_mod; lia). assert (E2 : i' = k * r' + m') by (apply Nat.div_mod; lia).
      assert (Hr : a * J + j + r = a * J + j + r').
      { rewrite <- (div_enc (a * J + j + r) (x := C) (y := c + m * 4 + l)) by lia.
        rewrite <- (div_enc (a * J + j + r') (x := C) (y := c + m' * 4 + l')) by lia. f_equal. lia. }
      assert (r = r') by lia. subst r'. nia.
  - intros q. rewrite <- (lanes_merge nr k (fun jj c' => F q a (j + jj) (c + c'))).
    apply sumn_ext. intros i Hi. apply sumn_ext. intros l Hl. unfold F, D, base. f_equal.
    f_equal. lia.
Qed.

Lemma blocked_adds : forall L JJ k, 0 < JJ -> 0 < k -> A * J * C <= L ->
  Adds R L (avx_blocked A B C J t tm u JJ k)
    (fun q => sumn A (fun a => sumn J (fun j => sumn (C / (4 * k) * (4 * k)) (fun c => F q a j c)))).
Proof.
  intros L JJ k HJ Hk HL. unfold avx_blocked.
  apply Adds_forN with (g := fun a q => sumn J (fun j => sumn (C / (4 * k) * (4 * k)) (fun c => F q a j c))).
  intros a Ha.
  pose proof (Nat.mul_div_le J JJ ltac:(lia)) as HJJ. pose proof (Nat.mul_div_le C (4 * k) ltac:(lia)) as HCC.
  eapply Adds_ext.
  - apply Adds_seq.
    + apply Adds_forN with (g := fun jt q => sumn (C / (4 * k)) (fun ct => sumn JJ (fun jj => sumn (4 * k) (fun c' => F q a (jt * JJ + jj) (ct * (4 * k) + c'))))).
      intros jt Hjt. apply Adds_forN with (g := fun ct q => sumn JJ (fun jj => sumn (4 * k) (fun c' => F q a (jt * JJ + jj) (ct * (4 * k) + c')))).
      intros ct Hct. apply tile_b; auto; nia.
    + instantiate (1 := fun q => sumn (C / (4 * k)) (fun ct => sumn (J - J / JJ * JJ) (fun jj => sumn (4 * k) (fun c' => F q a (J / JJ * JJ + jj) (ct * (4 * k) + c'))))).
      destruct (Nat.ltb_spec (J / JJ * JJ) J).
      * apply Adds_forN with (g := fun ct q => sumn (J - J / JJ * JJ) (fun jj => sumn (4 * k) (fun c' => F q a (J / JJ * JJ + jj) (ct * (4 * k) + c')))).
        intros ct Hct. apply tile_b; auto; nia.
      * eapply Adds_ext; [apply Adds_id|]. intros q. symmetry. apply sumn_zero. intros ct Hct.
        replace (J - J / JJ * JJ) with 0 by lia. reflexivity.
  - intros q. cbv beta.
    rewrite <- (@sumn_tiles J JJ (fun j => sumn (C / (4 * k) * (4 * k)) (fun c => F q a j c))) by auto.
    f_equal.
    + apply sumn_ext. intros jt Hjt. rewrite sumn_swap. apply sumn_ext. intros jj Hjj. rewrite sumn_mul. reflexivity.
    + rewrite sumn_swap. apply sumn_ext. intros jj Hjj. rewrite sumn_mul. reflexivity.
Qed.

Lemma tile_r : forall L a j c JJ, a < A -> j + JJ < J -> 2 <= C -> c < C -> c mod 4 = 0 -> A * J * C <= L ->
  Adds R L (avx_tile_r B C J t tm u a j c JJ)
    (fun q => sumn JJ (fun jj => sumn 4 (fun l => delta (l <? C - c) (F q a (j + jj) (c + l))))).
Proof.
  intros L a j c JJ Ha Hj HC Hc Hc4 HL. unfold avx_tile_r.
  set (D := fun jj l => delta (l <? C - c) (csum tm B C J t u a (j + jj) (c + l))).
  assert (Hc3 : c + 3 < 2 * C). { pose proof (Nat.div_mod c 4 ltac:(lia)). destruct (c / 4); lia. }
  eapply Adds_ext.
  - apply tile_adds with (D := D).
    + intros i Hi. assert (a * J + j + i + 1 < A * J) by nia. nia.
    + eapply Adds_ext.
      * apply Adds_forN with (g := fun b q => sumn JJ (fun jj => sumn 4 (fun l =>
           delta (q =? jj * 4 + l) (delta (l <? C - c) (vf u ((a * B + b) * C + (c + l))) * tval tm B J t (j + jj) b)%R))).
        intros b Hb. apply Adds_forN with (g := fun jj q => sumn 4 (fun l =>
           delta (q =? jj * 4 + l) (delta (l <? C - c) (vf u ((a * B + b) * C + (c + l))) * tval tm B J t (j + jj) b)%R)). intros jj Hjj.
        rewrite (@t_get R tm B J t (j + jj) b) by (auto; lia). cbn [bind].
        apply (@fmadd4_adds R (JJ * 4) jj _ _ (fun l => delta (l <? C - c) (vf u ((a * B + b) * C + (c + l)))) (fun _ => tval tm B J t (j + jj) b)).
        -- lia.
        -- intros l Hl. unfold masked. destruct (Nat.ltb_spec l (C - c)); [|reflexivity].
           unfold delta. rewrite <- u_get by lia. f_equal. lia.
        -- auto.
      * intros q. cbv beta. etransitivity; [apply sumn_swap|]. apply sumn_ext. intros jj Hjj. etransitivity; [apply sumn_swap|]. apply sumn_ext. intros l Hl.
        rewrite <- delta_sumn. f_equal. unfold D, csum. destruct (l <? C - c); unfold delta.
        -- apply sumn_ext. intros b Hb. ring.
        -- apply sumn_zero. intros b Hb. ring.
    + intros i i' l l' Hi Hi' Hl Hl' E. unfold D. destruct (Nat.ltb_spec l (C - c)); [|reflexivity]. exfalso.
      assert ((a * J + j + i) * C + C <= (a * J + j + i') * C) by nia. lia.
  - intros q. cbv beta. apply sumn_ext. intros jj Hjj. apply sumn_ext. intros l Hl. unfold F, D.
    replace ((a * J + j + jj) * C + c + l) with ((a * J + (j + jj)) * C + (c + l)) by ring.
    destruct (q =? _); destruct (l <? C - c); reflexivity.
Qed.

Lemma remainder_adds : forall L JJ CC, 0 < JJ -> CC mod 4 = 0 -> 0 < CC -> 0 < J -> 2 <= C -> A * J * C <= L ->
  Adds R L (avx_remainder A B C J t tm u JJ CC)
    (fun q => sumn A (fun a => sumn J (fun j => sumn (C - C / CC * CC) (fun c => F q a j (C / CC * CC + c))))).
Proof.
  intros L JJ CC HJ HC4 HCC HJ0 HC HL. unfold avx_remainder. rewrite brk_eq by auto. cbn [bind].
  set (jb := (J - 1) / JJ * JJ). set (c0 := C / CC * CC).
  assert (Hjb : jb < J). { pose proof (Nat.mul_div_le (J - 1) JJ ltac:(lia)). unfold jb. lia. }
  assert (Hc0 : c0 <= C). { pose proof (Nat.mul_div_le C CC ltac:(lia)). unfold c0. lia. }
  assert (Hjd : jb / JJ = (J - 1) / JJ) by (apply Nat.div_mul; lia).
  apply Adds_forN with (g := fun a q => sumn J (fun j => sumn (C - c0) (fun c => F q a j (c0 + c)))).
  intros a Ha. eapply Adds_ext.
  - apply Adds_seq.
    + apply Adds_forN with (g := fun ct q => sumn (jb / JJ) (fun jt => sumn JJ (fun jj => sumn 4 (fun l =>
         delta (l <? C - (c0 + ct * 4)) (F q a (jt * JJ + jj) (c0 + ct * 4 + l)))))).
      intros ct Hct. apply Adds_forN with (g := fun jt q => sumn JJ (fun jj => sumn 4 (fun l =>
         delta (l <? C - (c0 + ct * 4)) (F q a (jt * JJ + jj) (c0 + ct * 4 + l))))). intros jt Hjt.
      assert (ct * 4 < C - c0).
      { pose proof (Nat.div_mod (C - c0 + 3) 4 ltac:(lia)). pose proof (Nat.mod_upper_bound (C - c0 + 3) 4 ltac:(lia)). lia. }
      apply tile_r; auto; try lia.
      * rewrite Hjd in Hjt. unfold jb in Hjb. nia.
      * replace (c0 + ct * 4) with (c0 + ct * 4) by lia. rewrite Nat.mod_add by lia. unfold c0.
        rewrite Nat.mul_mod, HC4 by lia. rewrite Nat.mul_0_r. reflexivity.
    + apply Adds_forR with (g := fun j q => sumn B (fun b => sumn (C - c0) (fun c =>
         delta (q =? (a * J + j) * C + (c0 + c)) (tval tm B J t j b * vf u ((a * B + b) * C + (c0 + c))%nat)%R))).
      intros j Hj. apply Adds_forN with (g := fun b q => sumn (C - c0) (fun c =>
         delta (q =? (a * J + j) * C + (c0 + c)) (tval tm B J t j b * vf u ((a * B + b) * C + (c0 + c))%nat)%R)). intros b Hb.
      rewrite (@t_get R tm B J t j b) by (auto; lia). cbn [bind].
      apply Adds_forR with (g := fun c q => delta (q =? (a * J + j) * C + c) (tval tm B J t j b * vf u ((a * B + b) * C + c)%nat)%R).
      intros c Hc. rewrite u_get by lia. cbn [bind]. apply Adds_addat.
      assert ((a * J + j) * C + c < A * J * C) by (apply idx_lt; lia). lia.
  - intros q. cbv beta.
    rewrite <- (@sumn_range jb J (fun j => sumn (C - c0) (fun c => F q a j (c0 + c)))) by lia. f_equal.
    + unfold jb at 2. rewrite <- Hjd. rewrite sumn_mul, sumn_swap. apply sumn_ext. intros jt Hjt.
      rewrite sumn_swap. apply sumn_ext. intros jj Hjj.
      rewrite <- (@sumn_tiles4 (C - c0) (fun c => F q a (jt * JJ + jj) (c0 + c))).
      apply sumn_ext. intros ct Hct. apply sumn_ext. intros l Hl.
      replace (C - c0 - ct * 4) with (C - (c0 + ct * 4)) by lia. rewrite Nat.add_assoc. reflexivity.
    + apply sumn_ext. intros j Hj. rewrite sumn_swap. apply sumn_ext. intros c Hc.
      unfold F, csum. rewrite <- delta_sumn. reflexivity.
Qed.
End K.

(** ** C = 1 *)
Section S1.
Variables (A B J : nat) (t : list R) (tm : tmode) (u : list R).
Hypothesis Ht : B * J <= length t.
Hypothesis Hu : A * B <= length u.
Let cs (a j : nat) : R := sumn B (fun b => (tval tm B J t j b * vf u (a * B + b)%nat)%R).
Let F (q a j : nat) : R := delta (q =? a * J + j) (cs a j).

Lemma u1_get : forall a b, a < A -> b < B -> get u (a * B + b) = Some (vf u (a * B + b)).
Proof. intros. apply get_vf. nia. Qed.

Lemma tile_s : forall L a j nr k, 0 < k -> a + nr <= A -> j + 4 * k <= J -> A * J <= L ->
  Adds R L (avx_tile_s B J t tm u a j nr k)
    (fun q => sumn nr (fun aa => sumn (4 * k) (fun j' => F q (a + aa) (j + j')))).
Proof.
  intros L a j nr k Hk Ha Hj HL. unfold avx_tile_s.
  set (base := fun i => (a + i / k) * J + j + i mod k * 4).
  set (D := fun i l => cs (a + i / k) (j + (i mod k * 4 + l))).
  assert (Hik : forall i, i < nr * k -> i / k < nr /\ i mod k < k).
  { intros i Hi. split; [apply Nat.div_lt_upper_bound; lia|apply Nat.mod_upper_bound; lia]. }
  eapply Adds_ext.
  - apply tile_adds with (D := D).
    + intros i Hi. destruct (Hik i Hi). unfold base. nia.
    + eapply Adds_ext.
      * apply Adds_forN with (g := fun b q => sumn k (fun jj => sumn nr (fun aa => sumn 4 (fun l =>
           delta (q =? (aa * k + jj) * 4 + l) (tval tm B J t (j + (jj * 4 + l)) b * vf u ((a + aa) * B + b)%nat)%R)))).
        intros b Hb. apply Adds_forN with (g := fun jj q => sumn nr (fun aa => sumn 4 (fun l =>
           delta (q =? (aa * k + jj) * 4 + l) (tval tm B J t (j + (jj * 4 + l)) b * vf u ((a + aa) * B + b)%nat)%R))). intros jj Hjj.
        apply Adds_forN with (g := fun aa q => sumn 4 (fun l =>
           delta (q =? (aa * k + jj) * 4 + l) (tval tm B J t (j + (jj * 4 + l)) b * vf u ((a + aa) * B + b)%nat)%R)). intros aa Haa.
        apply (@fmadd4_adds R (nr * k * 4) (aa * k + jj) _ _ (fun l => tval tm B J t (j + (jj * 4 + l)) b) (fun _ => vf u ((a + aa) * B + b))).
        -- assert (aa * k + jj < nr * k) by (apply enc_lt; auto). lia.
        -- intros l Hl. rewrite <- t_get by (auto; lia). f_equal. lia.
        -- intros l Hl. apply u1_get; lia.
      * intros q. rewrite <- (acc_lanes B nr k (fun b aa jj l => tval tm B J t (j + (jj * 4 + l)) b * vf u ((a + aa) * B + b)%nat)%R).
        apply sumn_ext. intros b Hb. apply sumn_swap.
    + intros i i' l l' Hi Hi' Hl Hl' E. exfalso. destruct (Hik i ltac:(lia)). destruct (Hik i' Hi'). unfold base in E.
      set (r := i / k) in *. set (m := i mod k) in *. set (r' := i' / k) in *. set (m' := i' mod k) in *.
      assert (E1 : i = k * r + m) by (apply Nat.div_mod; lia). assert (E2 : i' = k * r' + m') by (apply Nat.div_mod; lia).
      assert (Hr : a + r = a + r').
      { rewrite <- (div_enc (a + r) (x := J) (y := j + m * 4 + l)) by lia.
        rewrite <- (div_enc (a + r') (x := J) (y := j + m' * 4 + l')) by lia. f_equal. lia. }
      assert (r = r') by lia. subst r'. nia.
  - intros q. rewrite <- (lanes_merge nr k (fun aa j' => F q (a + aa) (j + j'))).
    apply sumn_ext. intros i Hi. apply sumn_ext. intros l Hl. unfold F, D, base. f_equal.
    f_equal. lia.
Qed.

Lemma tile_sr : forall L a j AA, a + AA <= A -> j < J -> (0 < AA -> (a + AA - 1) * J + j + 3 < L) ->
  Adds R L (avx_tile_sr B J t tm u a j AA)
    (fun q => sumn AA (fun aa => sumn 4 (fun l => delta (l <? J - j) (F q (a + aa) (j + l))))).
Proof.
  intros L a j AA Ha Hj HL. unfold avx_tile_sr.
  set (D := fun aa l => delta (l <? J - j) (cs (a + aa) (j + l))).
  eapply Adds_ext.
  - apply tile_adds with (D := D).
    + intros i Hi. specialize (HL ltac:(lia)). assert ((a + i) * J <= (a + AA - 1) * J) by (apply Nat.mul_le_mono_r; lia). lia.
    + eapply Adds_ext.
      * apply Adds_forN with (g := fun b q => sumn AA (fun aa => sumn 4 (fun l =>
           delta (q =? aa * 4 + l) (delta (l <? J - j) (tval tm B J t (j + l) b) * vf u ((a + aa) * B + b)%nat)%R))).
        intros b Hb. apply Adds_forN with (g := fun aa q => sumn 4 (fun l =>
           delta (q =? aa * 4 + l) (delta (l <? J - j) (tval tm B J t (j + l) b) * vf u ((a + aa) * B + b)%nat)%R)). intros aa Haa.
        apply (@fmadd4_adds R (AA * 4) aa _ _ (fun l => delta (l <? J - j) (tval tm B J t (j + l) b)) (fun _ => vf u ((a + aa) * B + b))).
        -- lia.
        -- intros l Hl. unfold masked. destruct (Nat.ltb_spec l (J - j)); [|reflexivity].
           unfold delta. apply t_get; auto; lia.
        -- intros l Hl. apply u1_get; lia.
      * intros q. cbv beta. etransitivity; [apply sumn_swap|]. apply sumn_ext. intros aa Haa. etransitivity; [apply sumn_swap|]. apply sumn_ext. intros l Hl.
        rewrite <- delta_sumn. f_equal. unfold D, cs. destruct (l <? J - j); unfold delta.
        -- apply sumn_ext. intros b Hb. ring.
        -- apply sumn_zero. intros b Hb. ring.
    + intros i i' l l' Hi Hi' Hl Hl' E. unfold D. destruct (Nat.ltb_spec l (J - j)); [|reflexivity]. exfalso.
      assert ((a + i) * J + J <= (a + i') * J) by nia. lia.
  - intros q. cbv beta. apply sumn_ext. intros aa Haa. apply sumn_ext. intros l Hl. unfold F, D.
    replace ((a + aa) * J + j + l) with ((a + aa) * J + (j + l)) by ring.
    destruct (q =? _); destruct (l <? J - j); reflexivity.
Qed.

Lemma single_adds : forall L AA k, 0 < AA -> 0 < k -> 0 < A -> 0 < J -> A * J <= L ->
  (J = 1 -> AA < A -> (A - 1) / AA * AA + 3 <= L) ->
  Adds R L (avx_single A B J t tm u AA k) (fun q => sumn A (fun a => sumn J (fun j => F q a j))).
Proof.
  intros L AA k HA Hk HA0 HJ0 HL Hspill. unfold avx_single. rewrite brk_eq by auto. cbn [bind].
  set (ab := (A - 1) / AA * AA). set (JJ := 4 * k). set (j0 := J / JJ * JJ). set (a0 := A / AA * AA).
  assert (Hab : ab < A). { pose proof (Nat.mul_div_le (A - 1) AA ltac:(lia)). unfold ab. lia. }
  assert (Hj0 : j0 <= J). { pose proof (Nat.mul_div_le J JJ ltac:(lia)). unfold j0. lia. }
  assert (Ha0 : a0 <= A). { pose proof (Nat.mul_div_le A AA ltac:(lia)). unfold a0. lia. }
  assert (Hjd : ab / AA = (A - 1) / AA) by (apply Nat.div_mul; lia).
  eapply Adds_ext.
  - apply Adds_seq; [|apply Adds_seq; [|apply Adds_seq]].
    + apply Adds_forN with (g := fun at' q => sumn (J / JJ) (fun jt => sumn AA (fun aa => sumn JJ (fun j' => F q (at' * AA + aa) (jt * JJ + j'))))).
      intros at' Hat. apply Adds_forN with (g := fun jt q => sumn AA (fun aa => sumn JJ (fun j' => F q (at' * AA + aa) (jt * JJ + j')))).
      intros jt Hjt.
      assert (at' * AA + AA <= a0) by (unfold a0; replace (at' * AA + AA) with (S at' * AA) by lia; apply Nat.mul_le_mono_r; lia).
      assert (jt * JJ + JJ <= j0) by (unfold j0; replace (jt * JJ + JJ) with (S jt * JJ) by lia; apply Nat.mul_le_mono_r; lia).
      apply tile_s; auto; lia.
    + apply Adds_forN with (g := fun jt q => sumn (A - a0) (fun aa => sumn JJ (fun j' => F q (a0 + aa) (jt * JJ + j')))).
      intros jt Hjt.
      assert (jt * JJ + JJ <= j0) by (unfold j0; replace (jt * JJ + JJ) with (S jt * JJ) by lia; apply Nat.mul_le_mono_r; lia).
      apply tile_s; auto; lia.
    + apply Adds_forN with (g := fun jt q => sumn (ab / AA) (fun at' => sumn AA (fun aa => sumn 4 (fun l =>
         delta (l <? J - (j0 + jt * 4)) (F q (at' * AA + aa) (j0 + jt * 4 + l)))))).
      intros jt Hjt. apply Adds_forN with (g := fun at' q => sumn AA (fun aa => sumn 4 (fun l =>
         delta (l <? J - (j0 + jt * 4)) (F q (at' * AA + aa) (j0 + jt * 4 + l))))). intros at' Hat.
      assert (jt * 4 < J - j0).
      { pose proof (Nat.div_mod (J - j0 + 3) 4 ltac:(lia)). pose proof (Nat.mod_upper_bound (J - j0 + 3) 4 ltac:(lia)). lia. }
      assert (Hle : at' * AA + AA <= ab). { rewrite Hjd in Hat. unfold ab. nia. }
      apply tile_sr; try lia. intros _.
      assert (H4 : exists m, j0 + jt * 4 = 4 * m). { unfold j0, JJ. exists (J / (4 * k) * k + jt). ring. }
      destruct H4 as (m & Hm).
      destruct (Nat.eq_dec J 1) as [E1|E1].
      * specialize (Hspill E1 ltac:(lia)). fold ab in Hspill. rewrite E1 in *. nia.
      * assert (j0 + jt * 4 + 3 < 2 * J) by (destruct m; lia).
        assert ((at' * AA + AA - 1) * J + 2 * J <= A * J) by (rewrite <- Nat.mul_add_distr_r; apply Nat.mul_le_mono_r; lia). lia.
    + apply Adds_forN with (g := fun b q => sumn (J - j0) (fun j => sumn (A - ab) (fun a =>
         delta (q =? (ab + a) * J + (j0 + j)) (tval tm B J t (j0 + j) b * vf u ((ab + a) * B + b)%nat)%R))).
      intros b Hb. apply Adds_forR with (g := fun j q => sumn (A - ab) (fun a =>
         delta (q =? (ab + a) * J + j) (tval tm B J t j b * vf u ((ab + a) * B + b)%nat)%R)). intros j Hj.
      rewrite (@t_get R tm B J t j b) by (auto; lia). cbn [bind].
      apply Adds_forR with (g := fun a q => delta (q =? a * J + j) (tval tm B J t j b * vf u (a * B + b)%nat)%R).
      intros a Ha. rewrite u1_get by lia. cbn [bind]. apply Adds_addat. nia.
  - intros q. cbv beta.
    transitivity (sumn A (fun a => sumn j0 (fun j => F q a j)) + sumn A (fun a => sumn (J - j0) (fun j => F q a (j0 + j)%nat)))%R.
    2:{ rewrite <- sumn_add. apply sumn_ext. intros a Ha. apply sumn_range. auto. }
    rewrite <- (@sumn_tiles A AA (fun a => sumn j0 (fun j => F q a j))) by auto.
    rewrite <- (@sumn_range ab A (fun a => sumn (J - j0) (fun j => F q a (j0 + j)))) by lia.
    fold a0.
    match goal with |- (?x1 + (?x2 + (?x3 + ?x4)))%R = _ => transitivity ((x1 + x2) + (x3 + x4))%R; [ring|] end.
    f_equal; f_equal.
    + apply sumn_ext. intros at' Hat. rewrite sumn_swap. apply sumn_ext. intros aa Haa. unfold j0. rewrite sumn_mul. reflexivity.
    + rewrite sumn_swap. apply sumn_ext. intros aa Haa. unfold j0. rewrite sumn_mul. reflexivity.
    + unfold ab at 2. rewrite <- Hjd. rewrite sumn_mul, sumn_swap. apply sumn_ext. intros at' Hat.
      rewrite sumn_swap. apply sumn_ext. intros aa Haa.
      rewrite <- (@sumn_tiles4 (J - j0) (fun j => F q (at' * AA + aa) (j0 + j))).
      apply sumn_ext. intros jt Hjt. apply sumn_ext. intros l Hl.
      replace (J - j0 - jt * 4) with (J - (j0 + jt * 4)) by lia. rewrite Nat.add_assoc. reflexivity.
    + transitivity (sumn B (fun b => sumn (A - ab) (fun a => sumn (J - j0) (fun j =>
         delta (q =? (ab + a) * J + (j0 + j)) (tval tm B J t (j0 + j) b * vf u ((ab + a) * B + b)%nat)%R)))).
      { apply sumn_ext. intros b Hb. apply sumn_swap. }
      rewrite sumn_swap. apply sumn_ext. intros a Ha. rewrite sumn_swap. apply sumn_ext. intros j Hj.
      unfold F, cs. rewrite delta_sumn. reflexivity.
Qed.
End S1.
End V.
