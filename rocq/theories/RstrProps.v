(** * Properties C08-C12: element restrictions *)
From Coq Require Import List ZArith Lia Bool Arith Ring.
From Verif Require Import Prelude Adds RstrModel RstrSpec RstrProofs RstrKernels RstrMain RstrPoints.
Import ListNotations.
Set Implicit Arguments.
Arguments create_repr [chk d bs r] _ _. Arguments apply_nt_ok [R d r w] _ _ _ _ u v _ _.
Arguments apply_t_ok [R d r w] _ _ _ _ u v _ _. Arguments block_nt_ok [R d r w] _ _ _ _ _ w' [b] u v _ _ _.
Arguments block_t_ok [R d r w] _ _ _ _ _ w' [b] u v E _ _ _ _.

Lemma create_bs : forall chk d bs r, rstr_create chk d bs = Ok r -> r_bs r = bsize bs /\ r_nb r = nblocks d bs.
Proof.
  intros chk d bs r E. unfold rstr_create in E. unfold bsize, nblocks.
  destruct bs as [[|b]|]; try discriminate; destruct (check_dims d _); try discriminate;
    destruct (make_kind d _ _) as [k|]; try discriminate;
    destruct (kind_offsets k); try (inversion E; subst; simpl; auto; fail);
    destruct (offsets_check _ _ _ _ _ _ _); inversion E; subst; simpl; auto.
Qed.

Arguments create_bs [chk d bs r] _.
(** Concrete restrictions used to show that hypotheses can be met. *)
Definition d_std : udesc := mkU 3 2 2 4%Z 8 (UStandard [0; 1; 1; 2; 2; 3]%Z).
Definition d_ori : udesc := mkU 3 2 1 1%Z 4 (UOriented [0; 1; 1; 2; 2; 3]%Z [false; true; false; false; true; true]).
Definition d_curl : udesc := mkU 2 3 1 1%Z 5 (UCurl [0; 1; 2; 2; 3; 4]%Z
   [0; 1; 2; 0; -1; 0; 1; 1; 0;  0; 1; 0; 3; 1; -1; 0; 1; 0]%Z).
Definition d_str : udesc := mkU 2 2 2 0%Z 8 (UStrided 2 1 4).

Ltac conjs := repeat match goal with |- _ /\ _ => split end.
Ltac range_tac := intros el k m Hel Hk Hm; simpl in *;
  destruct el as [|[|[|el]]]; try lia; destruct k as [|[|k]]; try lia; destruct m as [|[|[|m]]]; try lia; vm_compute; intuition congruence.
Example d_std_ok : lengths_ok d_std /\ in_range d_std /\ (exists r, rstr_create true d_std (Some 2) = Ok r) /\ exists r, rstr_create true d_std None = Ok r.
Proof. conjs; try (eexists; reflexivity); try (simpl; lia); try (simpl; split; reflexivity); range_tac. Qed.
Example d_ori_ok : lengths_ok d_ori /\ in_range d_ori /\ exists r, rstr_create true d_ori (Some 2) = Ok r.
Proof. conjs; try (eexists; reflexivity); try (simpl; lia); try (simpl; split; reflexivity); range_tac. Qed.
Example d_curl_ok : lengths_ok d_curl /\ in_range d_curl /\ curl_ok Signed d_curl /\ exists r, rstr_create true d_curl (Some 2) = Ok r.
Proof. conjs; try (eexists; reflexivity); try (simpl; lia); try (simpl; split; reflexivity); try range_tac. intros _. vm_compute. lia. Qed.
Example d_str_ok : lengths_ok d_str /\ in_range d_str /\ exists r, rstr_create true d_str None = Ok r.
Proof. conjs; try (eexists; reflexivity); try (simpl; lia); try (simpl; split; reflexivity); range_tac. Qed.

(** ** C08: the gather *)
Theorem C08_gather : forall (R : Rng) chk d bs r w (u v : list R),
  lengths_ok d -> rstr_create chk d bs = Ok r -> in_range d -> curl_ok w d ->
  u_lsize d <= length u -> r_esize r <= length v ->
  exists v', rstr_apply w r NoTranspose u v = Ok v' /\ length v' = length v /\
   (* every (node, component, element) *)
   (forall el k n, el < u_ne d -> k < u_nc d -> n < u_es d ->
      vf v' (epos d (bsize bs) el k n) = Eval w d u el k n) /\
   (* padding lanes repeat the last element *)
   (forall el k n, u_ne d <= el < nblocks d bs * bsize bs -> k < u_nc d -> n < u_es d ->
      vf v' (epos d (bsize bs) el k n) = Eval w d u (u_ne d - 1) k n) /\
   (* nothing beyond the E-vector changes *)
   (forall i, r_esize r <= i -> vf v' i = vf v i).
Proof.
  intros R chk d bs r w u v Hl Hcr Hr Hc Hu Hv.
  pose proof (create_repr Hl Hcr) as Hrep. destruct (create_bs Hcr) as (Ebs & Enb).
  destruct (apply_nt_ok Hrep Hl Hr Hc u v Hu Hv) as (v' & E & Hlen & Hin & Hout).
  pose proof (rp_bs Hrep) as Bp. pose proof (rp_nb1 Hrep) as B1.
  exists v'. split; auto. split; auto. rewrite <- Ebs, <- Enb.
  assert (G : forall el k n, el < r_nb r * r_bs r -> k < u_nc d -> n < u_es d ->
     vf v' (epos d (r_bs r) el k n) = Eval w d u (Nat.min el (u_ne d - 1)) k n).
  { intros el k n Hel Hk Hn.
    assert (Hb : el / r_bs r < r_nb r) by (apply Nat.div_lt_upper_bound; lia).
    assert (Hj : el mod r_bs r < r_bs r) by (apply Nat.mod_upper_bound; lia).
    pose proof (Nat.div_mod el (r_bs r) ltac:(lia)) as Hdm.
    specialize (Hin (el / r_bs r) (el mod r_bs r) k n Hb Hj Hk Hn).
    replace (el / r_bs r * r_bs r + el mod r_bs r) with el in Hin by lia.
    rewrite Hin. unfold elt. replace (el / r_bs r * r_bs r + el mod r_bs r) with el by lia. reflexivity. }
  split; [|split; auto].
  - intros el k n Hel Hk Hn. rewrite G by (auto; lia). rewrite Nat.min_l by lia. reflexivity.
  - intros el k n Hel Hk Hn. rewrite G by (auto; lia). rewrite Nat.min_r by lia. reflexivity.
Qed.
Arguments C08_gather [R chk d bs r w] u v _ _ _ _ _ _.
Print Assumptions C08_gather.

(** For unblocked restrictions the position is the one CeedElemRestrictionGetELayout documents. *)
Theorem C08_layout_unblocked : forall chk d r el k n, lengths_ok d -> rstr_create chk d None = Ok r ->
  let '(l0, l1, l2) := e_layout r in
  el < u_ne d -> k < u_nc d -> n < u_es d -> epos d 1 el k n = n * l0 + k * l1 + el * l2.
Proof.
  intros chk d r el k n Hl Hcr. pose proof (create_repr Hl Hcr) as Hrep.
  unfold e_layout, epos. rewrite (rp_es Hrep), (rp_nc Hrep). intros.
  rewrite Nat.div_1_r, Nat.mod_1_r. ring.
Qed.
Print Assumptions C08_layout_unblocked.

(** Finding: blocked restrictions report the unblocked layout. *)
Theorem C08_layout_blocked_refuted : exists d b r u v v' el k n,
  lengths_ok d /\ in_range d /\ rstr_create true d (Some b) = Ok r /\
  @rstr_apply Zrng Signed r NoTranspose u v = Ok v' /\
  el < u_ne d /\ k < u_nc d /\ n < u_es d /\
  let '(l0, l1, l2) := e_layout r in
  @vf Zrng v' (n * l0 + k * l1 + el * l2) <> Eval (R := Zrng) Signed d u el k n.
Proof.
  exists d_std, 2. eexists. exists [10; 11; 12; 13; 20; 21; 22; 23]%Z, (repeat 0%Z 16). eexists.
  exists 1, 0, 0. split; [apply d_std_ok|]. split; [apply d_std_ok|].
  split; [reflexivity|]. split; [reflexivity|]. repeat split; try (simpl; lia). vm_compute. discriminate.
Qed.

(** Finding: the unsigned copy still applies the signs when applied block by block. *)
Theorem C08_unsigned_block_refuted : exists d r u v,
  lengths_ok d /\ in_range d /\ rstr_create true d None = Ok r /\ u_ne d = 1 /\
  @rstr_apply Zrng Unsigned r NoTranspose u v <> rstr_apply_block Unsigned r 0 NoTranspose u v.
Proof.
  exists (mkU 1 1 1 1%Z 1 (UOriented [0%Z] [true])). eexists. exists [5%Z], [0%Z].
  split; [vm_compute; tauto|]. split.
  { intros el k m Hel Hk Hm; simpl in *. destruct el; try lia; destruct k; try lia; destruct m; try lia. vm_compute; intuition congruence. }
  split; [reflexivity|]. split; [reflexivity|]. vm_compute. discriminate.
Qed.

(** At-points restrictions. *)
Lemma create_points_ok : forall ne npts nc lsize offs, points_ok ne npts nc lsize offs ->
  exists r, rstr_create_points ne npts nc lsize offs = Ok r /\ r_kind r = KPoints offs /\ r_ne r = ne /\ r_nb r = ne /\
    r_nc r = nc /\ r_lsize r = lsize /\ npts * nc <= r_esize r.
Proof.
  intros ne npts nc lsize offs Hok. pose proof Hok as (Hne & Hnc & Hlen & Hls & H0 & H1 & Hm & Hp).
  unfold rstr_create_points.
  destruct (Nat.eqb_spec nc 0); [lia|]. destruct (Nat.ltb_spec lsize (npts * nc)); [lia|].
  unfold points_total.
  destruct (@forN_inv _ (fun k (s : Z * Z) => (forall e, e < k -> (Z.of_nat (p_num offs e) <= fst s)%Z) /\
     (snd s = nth k offs 0 - nth 0 offs 0)%Z)
     (fun i s => np <- num_points_in offs i;; Some (Z.max (fst s) np, (snd s + np)%Z)) ne (0%Z, 0%Z)) as (s & E & Hs1 & Hs2).
  { simpl. split; [intros; lia|lia]. }
  { intros i s Hi (A & B). rewrite (num_points_ok Hok Hi). cbn [bind]. eexists. split; [reflexivity|].
    simpl. split.
    - intros e He. destruct (Nat.eq_dec e i); [subst; lia|]. specialize (A e ltac:(lia)). lia.
    - destruct (p_range Hok Hi) as (_ & _ & P & _). rewrite P, B. lia. }
  rewrite E. destruct s as (mx & tot). simpl in *.
  assert (G1 : getZ offs (Z.of_nat ne) = Some (nth ne offs 0%Z)).
  { unfold getZ. destruct (Z.ltb_spec (Z.of_nat ne) 0); [lia|]. rewrite Nat2Z.id. apply get_Some. lia. }
  assert (G2 : getZ offs (Z.of_nat ne - 1) = Some (nth (ne - 1) offs 0%Z)).
  { unfold getZ. destruct (Z.ltb_spec (Z.of_nat ne - 1) 0); [lia|].
    replace (Z.to_nat (Z.of_nat ne - 1)) with (ne - 1) by lia. apply get_Some. lia. }
  rewrite G1, G2.
  destruct (p_range Hok (e := ne - 1) ltac:(lia)) as (_ & _ & P & _).
  replace (ne - 1 + 1) with ne in P by lia. rewrite <- P.
  specialize (Hs1 (ne - 1) ltac:(lia)).
  destruct (Z.leb_spec (Z.of_nat (npts * nc)) ((tot + (mx - Z.of_nat (p_num offs (ne - 1)))) * Z.of_nat nc)).
  - eexists. split; [reflexivity|]. simpl. repeat split; auto. lia.
  - exfalso. nia.
Qed.

Theorem C08_points_gather : forall (R : Rng) ne npts nc lsize offs r (u v : list R),
  points_ok ne npts nc lsize offs -> rstr_create_points ne npts nc lsize offs = Ok r ->
  lsize <= length u -> r_esize r <= length v ->
  exists v', rstr_apply Signed r NoTranspose u v = Ok v' /\ length v' = length v /\
    (forall e i j, e < ne -> i < p_num offs e -> j < nc ->
       vf v' (p_start nc offs e + (j * p_num offs e + i)) = vf u (p_idx offs e i * nc + j)) /\
    (forall q, npts * nc <= q -> vf v' q = vf v q).
Proof.
  intros R ne npts nc lsize offs r u v Hok Hcr Hu Hv.
  destruct (create_points_ok Hok) as (r' & Hcr' & Hk & Hne & Hnb & Hnc & Hls & Hes).
  rewrite Hcr in Hcr'. inversion Hcr'; subst r'. clear Hcr'.
  unfold rstr_apply. rewrite Hls, Hne, Hnb.
  replace (lsize <=? length u) with true by (symmetry; apply Nat.leb_le; lia).
  replace (r_esize r <=? length v) with true by (symmetry; apply Nat.leb_le; lia). cbn [negb].
  replace (0 <? ne) with true by (symmetry; apply Nat.ltb_lt; apply Hok).
  unfold apply_core. rewrite Hk, Hnc.
  destruct (@points_nt R ne npts nc lsize offs Hok u v 0 ne) as (v' & E & Hlen & Hin & Hout); auto; try lia.
  { pose proof (p_start_ne Hok). simpl p_start. lia. }
  rewrite E. exists v'. split; auto. split; auto. simpl p_start in *. rewrite Nat.sub_0_r in Hout. split.
  - intros e i j He Hi Hj. rewrite <- (Hin e i j) by (auto; lia). f_equal. lia.
  - intros q Hq. apply Hout. rewrite (p_start_ne Hok). auto.
Qed.
Print Assumptions C08_points_gather.
Definition pts_ex : list Z := [3; 5; 6;  2; 0; 1]%Z.
Example pts_ex_ok : points_ok 2 3 2 6 pts_ex /\ exists r, rstr_create_points 2 3 2 6 pts_ex = Ok r.
Proof.
  split; [|eexists; reflexivity].
  unfold points_ok. repeat split; try (simpl; lia); try reflexivity.
  - intros e He. destruct e as [|[|e]]; try lia; vm_compute; discriminate.
  - destruct k as [|[|[|[|[|[|k]]]]]]; try lia; vm_compute; discriminate.
  - destruct k as [|[|[|[|[|[|k]]]]]]; try lia; simpl; lia.
Qed.

(** ** C09: transpose *)
(** The transpose adds, to every entry, exactly the specified sum; nothing else changes. *)
Theorem C09_transpose_adds : forall (R : Rng) chk d bs r w (u v : list R),
  lengths_ok d -> rstr_create chk d bs = Ok r -> in_range d -> curl_ok w d ->
  r_esize r <= length u -> u_lsize d <= length v ->
  exists v', rstr_apply w r Transpose u v = Ok v' /\ length v' = length v /\
   forall q, vf v' q = (vf v q + Lval w d (fun el k n => vf u (epos d (bsize bs) el k n)) q)%R.
Proof.
  intros R chk d bs r w u v Hl Hcr Hr Hc Hu Hv.
  destruct (create_bs Hcr) as (Ebs & _). rewrite <- Ebs.
  exact (apply_t_ok (create_repr Hl Hcr) Hl Hr Hc u v Hu Hv).
Qed.
Arguments C09_transpose_adds [R chk d bs r w] u v _ _ _ _ _ _.
Print Assumptions C09_transpose_adds.

Lemma epos_1 : forall d el k n, epos d 1 el k n = el * (u_nc d * u_es d) + (k * u_es d + n).
Proof. intros. unfold epos. rewrite Nat.div_1_r, Nat.mod_1_r. ring. Qed.

(** dot(E x, y) = dot(x, E^T y) for any block size (padding lanes are not part of the E-space). *)
Theorem C09_adjoint : forall (R : Rng) chk d bs r w (x y v0 ex ly : list R),
  lengths_ok d -> rstr_create chk d bs = Ok r -> in_range d -> curl_ok w d ->
  u_lsize d <= length x -> r_esize r <= length y -> r_esize r <= length v0 ->
  rstr_apply w r NoTranspose x v0 = Ok ex ->
  rstr_apply w r Transpose y (repeat 0%R (length x)) = Ok ly ->
  sumn (u_ne d) (fun el => sumn (u_nc d) (fun k => sumn (u_es d) (fun n =>
     (vf ex (epos d (bsize bs) el k n) * vf y (epos d (bsize bs) el k n))%R)))
  = dot (length x) (vf x) (vf ly).
Proof.
  intros R chk d bs r w x y v0 ex ly Hl Hcr Hr Hc Hx Hy Hv0 E1 E2.
  destruct (@C08_gather R chk d bs r w x v0 Hl Hcr Hr Hc Hx Hv0) as (ex' & E1' & _ & Hin & _).
  destruct (@C09_transpose_adds R chk d bs r w y (repeat 0%R (length x)) Hl Hcr Hr Hc Hy) as (ly' & E2' & _ & Hq).
  { rewrite repeat_length. auto. }
  rewrite E1 in E1'. rewrite E2 in E2'. inversion E1'; inversion E2'; subst ex' ly'.
  unfold dot.
  rewrite sumn_ext with (n := length x) (g := fun q => (vf x q * Lval w d (fun el k n => vf y (epos d (bsize bs) el k n)) q)%R).
  - rewrite Eval_Lval_adjoint by auto.
    apply sumn_ext. intros el Hel. apply sumn_ext. intros k Hk. apply sumn_ext. intros n Hn.
    rewrite Hin by auto. reflexivity.
  - intros q Hq'. rewrite Hq. f_equal. unfold vf at 1. rewrite nth_repeat.
    destruct (r_th R) as [H0 _ _ _ _ _ _ _ _]. apply H0.
Qed.
Print Assumptions C09_adjoint.

(** Unblocked: plain dot products over the whole E-vector. *)
Theorem C09_adjoint_unblocked : forall (R : Rng) chk d r w (x y v0 ex ly : list R),
  lengths_ok d -> rstr_create chk d None = Ok r -> in_range d -> curl_ok w d ->
  u_lsize d <= length x -> r_esize r <= length y -> r_esize r <= length v0 ->
  rstr_apply w r NoTranspose x v0 = Ok ex ->
  rstr_apply w r Transpose y (repeat 0%R (length x)) = Ok ly ->
  dot (r_esize r) (vf ex) (vf y) = dot (length x) (vf x) (vf ly).
Proof.
  intros R chk d r w x y v0 ex ly Hl Hcr Hr Hc Hx Hy Hv0 E1 E2.
  rewrite <- (@C09_adjoint R chk d None r w x y v0 ex ly) by auto.
  destruct (create_bs Hcr) as (Ebs & Enb). simpl in Ebs, Enb.
  rewrite (rp_esize (create_repr Hl Hcr)), Ebs, Enb. unfold dot.
  replace (u_ne d * 1 * u_es d * u_nc d) with (u_ne d * (u_nc d * u_es d)) by ring.
  rewrite sumn_mul. apply sumn_ext. intros el Hel.
  rewrite sumn_mul. apply sumn_ext. intros k Hk. apply sumn_ext. intros n Hn.
  cbn [bsize]. rewrite epos_1. reflexivity.
Qed.
Print Assumptions C09_adjoint_unblocked.

Lemma pts_sum_adjoint : forall (R : Rng) ne npts nc lsize offs (x : list R) (y : list R) L,
  points_ok ne npts nc lsize offs -> lsize <= L ->
  sumn L (fun q => (vf x q * pts_sum nc offs y 0 ne q)%R)
  = sumn ne (fun e => sumn (p_num offs e) (fun i => sumn nc (fun j =>
      (vf x (p_idx offs e i * nc + j)%nat * vf y (p_start nc offs e + (j * p_num offs e + i))%nat)%R))).
Proof.
  intros R ne npts nc lsize offs x y L Hok HL. unfold pts_sum. rewrite Nat.sub_0_r.
  rewrite sumn_ext with (g := fun q => sumn ne (fun a => sumn (p_num offs a) (fun i => sumn nc (fun j =>
    delta (q =? p_idx offs a i * nc + j) (vf x q * vf y (p_start nc offs a + (j * p_num offs a + i))%nat)%R)))).
  2:{ intros q Hq. rewrite <- sumn_mul_l. apply sumn_ext. intros a Ha. cbv zeta. simpl p_start. rewrite Nat.add_0_l.
      rewrite <- sumn_mul_l. apply sumn_ext. intros i Hi. rewrite <- sumn_mul_l. apply sumn_ext. intros j Hj.
      rewrite delta_mul_l, Nat.sub_0_r. reflexivity. }
  rewrite sumn_swap. apply sumn_ext. intros e He. rewrite sumn_swap. apply sumn_ext. intros i Hi.
  rewrite sumn_swap. apply sumn_ext. intros j Hj.
  rewrite (@sumn_delta R L (p_idx offs e i * nc + j) (fun q => (vf x q * vf y (p_start nc offs e + (j * p_num offs e + i))%nat)%R)).
  destruct (pt_get Hok He Hi) as (_ & P).
  replace (p_idx offs e i * nc + j <? L) with true by (symmetry; apply Nat.ltb_lt; nia). reflexivity.
Qed.

Theorem C09_points_adjoint : forall (R : Rng) ne npts nc lsize offs r (x y v0 ex ly : list R),
  points_ok ne npts nc lsize offs -> rstr_create_points ne npts nc lsize offs = Ok r ->
  lsize <= length x -> r_esize r <= length y -> r_esize r <= length v0 ->
  rstr_apply Signed r NoTranspose x v0 = Ok ex ->
  rstr_apply Signed r Transpose y (repeat 0%R (length x)) = Ok ly ->
  dot (npts * nc) (vf ex) (vf y) = dot (length x) (vf x) (vf ly).
Proof.
  intros R ne npts nc lsize offs r x y v0 ex ly Hok Hcr Hx Hy Hv0 E1 E2.
  destruct (@C08_points_gather R ne npts nc lsize offs r x v0 Hok Hcr Hx Hv0) as (ex' & E1' & _ & Hin & _).
  rewrite E1 in E1'. inversion E1'; subst ex'. clear E1'.
  destruct (create_points_ok Hok) as (r' & Hcr' & Hk & Hne & Hnb & Hnc & Hls & Hes).
  rewrite Hcr in Hcr'. inversion Hcr'; subst r'. clear Hcr'.
  unfold rstr_apply in E2. rewrite Hls, Hne, Hnb, repeat_length in E2.
  replace (lsize <=? length x) with true in E2 by (symmetry; apply Nat.leb_le; lia).
  replace (r_esize r <=? length y) with true in E2 by (symmetry; apply Nat.leb_le; lia). cbn [negb] in E2.
  replace (0 <? ne) with true in E2 by (symmetry; apply Nat.ltb_lt; apply Hok).
  unfold apply_core in E2. rewrite Hk, Hnc in E2.
  destruct (@points_t R ne npts nc lsize offs Hok y 0 ne (length x)) with (v := repeat (0%R : R) (length x)) as (ly' & E & Hlen & Hq); auto; try lia.
  { pose proof (p_start_ne Hok). simpl p_start. lia. }
  { apply repeat_length. }
  rewrite E in E2. inversion E2; subst ly'.
  unfold dot.
  rewrite sumn_ext with (n := length x) (g := fun q => (vf x q * pts_sum nc offs y 0 ne q)%R).
  2:{ intros q _. rewrite Hq. f_equal. unfold vf at 1. rewrite nth_repeat.
      destruct (r_th R) as [H0 _ _ _ _ _ _ _ _]. apply H0. }
  rewrite (@pts_sum_adjoint R ne npts nc lsize offs x y (length x)) by auto.
  rewrite <- (p_start_ne Hok).
  assert (G : forall k, k <= ne -> sumn (p_start nc offs k) (fun i => (vf ex i * vf y i)%R) =
    sumn k (fun e => sumn (p_num offs e) (fun i => sumn nc (fun j =>
      (vf x (p_idx offs e i * nc + j)%nat * vf y (p_start nc offs e + (j * p_num offs e + i))%nat)%R)))).
  { induction k as [|k IH]; intros Hkk; [reflexivity|].
    rewrite sumn_S, <- IH by lia. rewrite p_start_S, sumn_app. f_equal.
    rewrite (Nat.mul_comm (p_num offs k) nc), sumn_mul, sumn_swap.
    apply sumn_ext. intros i Hi. apply sumn_ext. intros j Hj.
    rewrite Hin by (auto; lia). reflexivity. }
  apply G. lia.
Qed.
Print Assumptions C09_points_adjoint.

(** ** C10: memory safety *)
Theorem C10_in_bounds : forall (R : Rng) chk d bs r w tm (u v : list R),
  lengths_ok d -> rstr_create chk d bs = Ok r -> in_range d -> curl_ok w d ->
  rstr_apply w r tm u v <> UB.
Proof.
  intros R chk d bs r w tm u v Hl Hcr Hr Hc. pose proof (create_repr Hl Hcr) as Hrep.
  destruct tm.
  - destruct (Nat.leb_spec (u_lsize d) (length u)) as [Hu|Hu].
    + destruct (Nat.leb_spec (r_esize r) (length v)) as [Hv|Hv].
      * destruct (apply_nt_ok Hrep Hl Hr Hc u v Hu Hv) as (v' & E & _). rewrite E. discriminate.
      * unfold rstr_apply. rewrite (rp_ls Hrep). apply Nat.leb_le in Hu. rewrite Hu. simpl.
        apply Nat.leb_gt in Hv. rewrite Hv. discriminate.
    + unfold rstr_apply. rewrite (rp_ls Hrep). apply Nat.leb_gt in Hu. rewrite Hu. discriminate.
  - destruct (Nat.leb_spec (r_esize r) (length u)) as [Hu|Hu].
    + destruct (Nat.leb_spec (u_lsize d) (length v)) as [Hv|Hv].
      * destruct (apply_t_ok Hrep Hl Hr Hc u v Hu Hv) as (v' & E & _). rewrite E. discriminate.
      * unfold rstr_apply. rewrite (rp_ls Hrep). apply Nat.leb_le in Hu. rewrite Hu. simpl.
        apply Nat.leb_gt in Hv. rewrite Hv. discriminate.
    + unfold rstr_apply. apply Nat.leb_gt in Hu. rewrite Hu. discriminate.
Qed.
Print Assumptions C10_in_bounds.

(** A wrong length is reported as an error. *)
Theorem C10_length_errors : forall (R : Rng) chk d bs r w tm (u v : list R),
  lengths_ok d -> rstr_create chk d bs = Ok r ->
  let need_u := match tm with NoTranspose => u_lsize d | Transpose => r_esize r end in
  let need_v := match tm with NoTranspose => r_esize r | Transpose => u_lsize d end in
  (length u < need_u \/ length v < need_v) <-> rstr_apply w r tm u v = Err ERR_DIMENSION.
Proof.
  intros R chk d bs r w tm u v Hl Hcr. pose proof (create_repr Hl Hcr) as Hrep. cbv zeta.
  unfold rstr_apply. rewrite (rp_ls Hrep). destruct tm.
  - destruct (Nat.leb_spec (u_lsize d) (length u)); destruct (Nat.leb_spec (r_esize r) (length v)); cbn [negb];
    split; intros Hx; try lia; auto; destruct (0 <? r_ne r); try discriminate; unfold ofopt in Hx;
    match type of Hx with context[match ?x with Some _ => _ | None => _ end] => destruct x end; discriminate.
  - destruct (Nat.leb_spec (r_esize r) (length u)); destruct (Nat.leb_spec (u_lsize d) (length v)); cbn [negb];
    split; intros Hx; try lia; auto; destruct (0 <? r_ne r); try discriminate; unfold ofopt in Hx;
    match type of Hx with context[match ?x with Some _ => _ | None => _ end] => destruct x end; discriminate.
Qed.
Print Assumptions C10_length_errors.

Definition off_ok (d : udesc) (o : Z) : Prop := (0 <= o /\ o + (Z.of_nat (u_nc d) - 1) * u_cs d < Z.of_nat (u_lsize d))%Z.

Lemma offsets_check_spec : forall d o n, n <= length o ->
  forN n (fun i (bad : bool) => o0 <- get o i ;;
     Some (bad || negb ((0 <=? o0) && (o0 + (Z.of_nat (u_nc d) - 1) * u_cs d <? Z.of_nat (u_lsize d)))%Z)) false
  = Some (existsb (fun o0 => negb ((0 <=? o0) && (o0 + (Z.of_nat (u_nc d) - 1) * u_cs d <? Z.of_nat (u_lsize d)))%Z) (firstn n o)).
Proof.
  intros d o n. induction n as [|n IH]; intros Hn; [reflexivity|].
  rewrite forN_S, IH by lia. cbn [bind]. rewrite (@get_Some _ o n 0%Z) by lia. cbn [bind]. f_equal.
  replace (firstn (S n) o) with (firstn n o ++ [nth n o 0%Z]).
  - rewrite existsb_app. simpl. rewrite orb_false_r. reflexivity.
  - clear IH. revert n Hn. induction o as [|a o IHo]; intros [|n] Hn; simpl in *; try lia; auto.
    f_equal. apply IHo. lia.
Qed.

Lemma in_range_off : forall d o, lengths_ok d ->
  (u_kind d = UStandard o \/ (exists s, u_kind d = UOriented o s) \/ (exists c, u_kind d = UCurl o c)) ->
  check_dims d None = None ->
  (in_range d <-> Forall (off_ok d) o).
Proof.
  intros d o Hl Hk Hd.
  assert (Hlo : length o = u_ne d * u_es d).
  { unfold lengths_ok in Hl. destruct Hk as [->|[(s & Hs)|(c & Hs)]] in Hl; auto; rewrite Hs in Hl; tauto. }
  assert (Hcol : forall el k m, col d el k m = (nth (el * u_es d + m) o 0 + Z.of_nat k * u_cs d)%Z).
  { intros. unfold col. destruct Hk as [->|[(s & ->)|(c & ->)]]; reflexivity. }
  assert (Hdd : u_es d <> 0 /\ u_nc d <> 0 /\ (u_nc d = 1 \/ (0 < u_cs d)%Z)).
  { unfold check_dims in Hd. destruct (Nat.eqb_spec (u_es d) 0); [discriminate|].
    destruct (Nat.eqb_spec (u_nc d) 0); [discriminate|]. repeat split; auto.
    destruct Hk as [Hs|[(s & Hs)|(c & Hs)]]; rewrite Hs in Hd;
      destruct (Nat.eqb_spec (u_nc d) 1); auto; simpl in Hd; destruct (Z.ltb_spec 0 (u_cs d)); auto; discriminate. }
  destruct Hdd as (He & Hn & Hcs).
  split.
  - intros Hr. apply Forall_forall. intros x Hx. apply (In_nth _ _ 0%Z) in Hx. destruct Hx as (i & Hi & <-).
    rewrite Hlo in Hi.
    pose proof (Nat.div_mod i (u_es d) He) as Hdm.
    assert (i / u_es d < u_ne d) by (apply Nat.div_lt_upper_bound; lia).
    assert (i mod u_es d < u_es d) by (apply Nat.mod_upper_bound; lia).
    pose proof (Hr (i / u_es d) 0 (i mod u_es d) ltac:(auto) ltac:(lia) ltac:(auto)) as A.
    pose proof (Hr (i / u_es d) (u_nc d - 1) (i mod u_es d) ltac:(auto) ltac:(lia) ltac:(auto)) as B.
    rewrite Hcol in A, B. replace (i / u_es d * u_es d + i mod u_es d) with i in * by lia.
    unfold off_ok. replace (Z.of_nat (u_nc d) - 1)%Z with (Z.of_nat (u_nc d - 1)) by lia. lia.
  - intros HF el k m Hel Hk' Hm. rewrite Hcol. rewrite Forall_forall in HF.
    assert (Hin : In (nth (el * u_es d + m) o 0%Z) o) by (apply nth_In; rewrite Hlo; nia).
    destruct (HF _ Hin) as (A & B).
    destruct Hcs as [Hcs|Hcs].
    + replace k with 0 by lia. rewrite Hcs in B. lia.
    + assert (0 <= Z.of_nat k * u_cs d <= (Z.of_nat (u_nc d) - 1) * u_cs d)%Z by nia. lia.
Qed.

(** Unblocked creation on the checking backends accepts exactly the offsets that stay in range. *)
Theorem C10_check_exact : forall d, lengths_ok d -> check_dims d None = None ->
  (forall s0 s1 s2, u_kind d <> UStrided s0 s1 s2) ->
  (in_range d /\ exists r, rstr_create true d None = Ok r) \/
  (~ in_range d /\ rstr_create true d None = Err ERR_BACKEND).
Proof.
  intros d Hl Hd Hs. unfold rstr_create. rewrite Hd.
  assert (G : forall o k, length o = u_ne d * u_es d ->
    (u_kind d = UStandard o \/ (exists s, u_kind d = UOriented o s) \/ (exists c, u_kind d = UCurl o c)) ->
    kind_offsets k = Some o -> make_kind d None (u_ne d) = Some k ->
    (in_range d /\ exists r, rstr_create true d None = Ok r) \/ (~ in_range d /\ rstr_create true d None = Err ERR_BACKEND)).
  { intros o k Hlo Hk Hko Hmk. unfold rstr_create. rewrite Hd, Hmk, Hko.
    unfold offsets_check. rewrite offsets_check_spec by lia. rewrite firstn_all2 by lia.
    rewrite (@in_range_off d o Hl Hk Hd).
    destruct (existsb _ o) eqn:Ex.
    - right. split; auto. intros HF. apply existsb_exists in Ex. destruct Ex as (x & Hx & Hb).
      rewrite Forall_forall in HF. destruct (HF x Hx) as (A & B).
      apply negb_true_iff in Hb. apply andb_false_iff in Hb. destruct Hb as [Hb|Hb].
      + apply Z.leb_gt in Hb. lia.
      + apply Z.ltb_ge in Hb. lia.
    - left. split; [|eexists; reflexivity]. apply Forall_forall. intros x Hx.
      destruct ((0 <=? x) && (x + (Z.of_nat (u_nc d) - 1) * u_cs d <? Z.of_nat (u_lsize d)))%Z eqn:Hb.
      + apply andb_true_iff in Hb. destruct Hb as (A & B). apply Z.leb_le in A. apply Z.ltb_lt in B. split; auto.
      + exfalso. assert (existsb (fun o0 => negb ((0 <=? o0) && (o0 + (Z.of_nat (u_nc d) - 1) * u_cs d <? Z.of_nat (u_lsize d)))%Z) o = true).
        { apply existsb_exists. exists x. rewrite Hb. auto. }
        congruence. }
  unfold rstr_create in G. rewrite Hd in G. unfold lengths_ok in Hl. destruct (u_kind d) as [a b c|o|o s|o c] eqn:Ek.
  - exfalso. eapply Hs. reflexivity.
  - apply (G o (KStandard o)); eauto. unfold make_kind. rewrite Ek. reflexivity.
  - apply (G o (KOriented o s)); try tauto; eauto. unfold make_kind. rewrite Ek. reflexivity.
  - apply (G o (KCurl o c)); try tauto; eauto. unfold make_kind. rewrite Ek. reflexivity.
Qed.
Print Assumptions C10_check_exact.
Example C10_check_ex : check_dims d_std None = None /\ (forall s0 s1 s2, u_kind d_std <> UStrided s0 s1 s2) /\
  rstr_create true (mkU 1 2 2 3%Z 5 (UStandard [0; 2]%Z)) None = Err ERR_BACKEND.
Proof. repeat split; try reflexivity. discriminate. Qed.

(** Consequence: on the checking backends an accepted unblocked restriction never leaves the arrays. *)
Theorem C10_checked_safe : forall (R : Rng) d r w tm (u v : list R),
  lengths_ok d -> rstr_create true d None = Ok r ->
  (forall s0 s1 s2, u_kind d <> UStrided s0 s1 s2) -> curl_ok w d ->
  rstr_apply w r tm u v <> UB.
Proof.
  intros R d r w tm u v Hl Hcr Hs Hc.
  assert (Hd : check_dims d None = None).
  { unfold rstr_create in Hcr. destruct (check_dims d None); [discriminate|reflexivity]. }
  destruct (@C10_check_exact d Hl Hd Hs) as [(Hr & _)|(_ & E)]; [|congruence].
  eapply C10_in_bounds; eauto.
Qed.
Print Assumptions C10_checked_safe.

(** One block: safe for block numbers below the number of blocks. *)
Theorem C10_block_in_bounds : forall (R : Rng) chk d bs r w b tm (u v : list R),
  lengths_ok d -> rstr_create chk d bs = Ok r -> in_range d -> curl_ok Signed d -> b < r_nb r ->
  rstr_apply_block w r b tm u v <> UB.
Proof.
  intros R chk d bs r w b tm u v Hl Hcr Hr Hc Hb. pose proof (create_repr Hl Hcr) as Hrep.
  assert (Hlen : forall a, rstr_apply_block w r b tm u v = UB -> a = tm ->
     match tm with NoTranspose => length u = u_lsize d /\ length v = r_bs r * u_es d * u_nc d
                 | Transpose => length u = r_bs r * u_es d * u_nc d /\ length v = u_lsize d end).
  { intros a E _. unfold rstr_apply_block in E. rewrite (rp_ls Hrep), (rp_es Hrep), (rp_nc Hrep) in E.
    destruct tm.
    - destruct (Nat.eqb_spec (u_lsize d) (length u)); [|discriminate].
      destruct (Nat.eqb_spec (r_bs r * u_es d * u_nc d) (length v)); [auto|discriminate].
    - destruct (Nat.eqb_spec (r_bs r * u_es d * u_nc d) (length u)); [|discriminate].
      destruct (Nat.eqb_spec (u_lsize d) (length v)); [auto|discriminate]. }
  intros E. specialize (Hlen tm E eq_refl). destruct tm; destruct Hlen as (L1 & L2).
  - destruct (block_nt_ok Hrep Hl Hr Hc eq_refl w u v L1 L2 Hb) as (v' & E' & _). congruence.
  - destruct (block_t_ok Hrep Hl Hr Hc eq_refl w u v
       (fun el k n => vf u (k * (u_es d * r_bs r) + (n * r_bs r + (el - b * r_bs r)))) L1 L2 Hb) as (v' & E' & _); [|congruence].
    intros j k n Hj Hk Hn. f_equal. lia.
Qed.
Print Assumptions C10_block_in_bounds.

(** Findings: accepted calls that leave the arrays. *)
(** a curl-oriented restriction with one node per element *)
Theorem C10_curl_one_node_refuted : exists d r (u v : list Zrng),
  lengths_ok d /\ in_range d /\ rstr_create true d None = Ok r /\ rstr_apply Signed r NoTranspose u v = UB.
Proof.
  exists (mkU 1 1 1 1%Z 1 (UCurl [0%Z] [0; 1; 0]%Z)). eexists. exists [5%Z], [0%Z].
  split; [vm_compute; tauto|]. split.
  { intros el k m Hel Hk Hm; simpl in *. destruct el; try lia; destruct k; try lia; destruct m; try lia. vm_compute; intuition congruence. }
  split; reflexivity.
Qed.
(** the block index check admits the block one past the end *)
Theorem C10_block_index_refuted : exists d r (u v : list Zrng),
  lengths_ok d /\ in_range d /\ rstr_create true d None = Ok r /\ rstr_apply_block Signed r (r_nb r) NoTranspose u v = UB.
Proof.
  exists (mkU 1 1 1 1%Z 1 (UStandard [0%Z])). eexists. exists [5%Z], [0%Z].
  split; [vm_compute; tauto|]. split.
  { intros el k m Hel Hk Hm; simpl in *. destruct el; try lia; destruct k; try lia; destruct m; try lia. vm_compute; intuition congruence. }
  split; reflexivity.
Qed.
(** the range check of a blocked restriction misses entries of the padded last block *)
Theorem C10_blocked_check_refuted : exists d r (u v : list Zrng),
  lengths_ok d /\ ~ in_range d /\ rstr_create true d (Some 2) = Ok r /\ rstr_apply Signed r NoTranspose u v = UB.
Proof.
  exists (mkU 1 2 1 1%Z 2 (UStandard [0; 99]%Z)). eexists. exists [5; 6]%Z, [0; 0; 0; 0]%Z.
  split; [vm_compute; tauto|]. split.
  { intros Hr. specialize (Hr 0 0 1). simpl in Hr. vm_compute in Hr. destruct Hr; try lia. discriminate. }
  split; reflexivity.
Qed.
(** strides of a strided restriction are not checked against the L-vector size *)
Theorem C10_strides_refuted : exists d r (u v : list Zrng),
  lengths_ok d /\ rstr_create true d None = Ok r /\ rstr_apply Signed r NoTranspose u v = UB.
Proof.
  exists (mkU 1 2 1 0%Z 2 (UStrided 7 1 1)). eexists. exists [5; 6]%Z, [0; 0]%Z.
  split; [vm_compute; tauto|]. split; reflexivity.
Qed.
(** backends other than ref do not check at all *)
Theorem C10_unchecked_backend_refuted : exists d r (u v : list Zrng),
  lengths_ok d /\ rstr_create false d None = Ok r /\ rstr_apply Signed r NoTranspose u v = UB.
Proof.
  exists (mkU 1 1 1 1%Z 1 (UStandard [3]%Z)). eexists. exists [5]%Z, [0]%Z.
  split; [vm_compute; tauto|]. split; reflexivity.
Qed.
(** point indices of at-points restrictions are never checked *)
Theorem C10_points_refuted : exists offs r (u v : list Zrng),
  length offs = 1 + 1 + 1 /\ rstr_create_points 1 1 1 1 offs = Ok r /\ rstr_apply Signed r NoTranspose u v = UB.
Proof. exists [2; 3; 9]%Z. eexists. exists [5]%Z, [0]%Z. repeat split; reflexivity. Qed.
(** creating an at-points restriction without elements reads before the array *)
Theorem C10_points_empty_refuted : exists offs, length offs = 0 + 1 + 0 /\ rstr_create_points 0 0 1 0 offs = UB.
Proof. exists [1%Z]. split; reflexivity. Qed.
(** a zero block size is divided by before it is rejected *)
Theorem C10_zero_block_refuted : exists d, lengths_ok d /\ in_range d /\ rstr_create true d (Some 0) = UB.
Proof. exists d_std. split; [apply d_std_ok|]. split; [apply d_std_ok|reflexivity]. Qed.

(** ** C11: blocked = unblocked *)
Theorem C11_blocked_gather : forall (R : Rng) c1 c2 d b r1 rb w (u v1 vb e1 eb : list R),
  lengths_ok d -> in_range d -> curl_ok w d ->
  rstr_create c1 d None = Ok r1 -> rstr_create c2 d (Some b) = Ok rb ->
  u_lsize d <= length u -> r_esize r1 <= length v1 -> r_esize rb <= length vb ->
  rstr_apply w r1 NoTranspose u v1 = Ok e1 -> rstr_apply w rb NoTranspose u vb = Ok eb ->
  forall el k n, el < u_ne d -> k < u_nc d -> n < u_es d ->
    vf eb (epos d b el k n) = vf e1 (epos d 1 el k n).
Proof.
  intros R c1 c2 d b r1 rb w u v1 vb e1 eb Hl Hr Hc H1 Hb Hu Hv1 Hvb E1 Eb el k n Hel Hk Hn.
  destruct (C08_gather u v1 Hl H1 Hr Hc Hu Hv1) as (x1 & X1 & _ & G1 & _).
  destruct (C08_gather u vb Hl Hb Hr Hc Hu Hvb) as (xb & Xb & _ & Gb & _).
  rewrite E1 in X1. rewrite Eb in Xb. inversion X1; inversion Xb; subst.
  simpl bsize in *. rewrite G1, Gb by auto. reflexivity.
Qed.
Print Assumptions C11_blocked_gather.

Theorem C11_blocked_transpose : forall (R : Rng) c1 c2 d b r1 rb w (u1 ub v l1 lb : list R),
  lengths_ok d -> in_range d -> curl_ok w d ->
  rstr_create c1 d None = Ok r1 -> rstr_create c2 d (Some b) = Ok rb ->
  u_lsize d <= length v -> r_esize r1 <= length u1 -> r_esize rb <= length ub ->
  (forall el k n, el < u_ne d -> k < u_nc d -> n < u_es d -> vf ub (epos d b el k n) = vf u1 (epos d 1 el k n)) ->
  rstr_apply w r1 Transpose u1 v = Ok l1 -> rstr_apply w rb Transpose ub v = Ok lb ->
  lb = l1.
Proof.
  intros R c1 c2 d b r1 rb w u1 ub v l1 lb Hl Hr Hc H1 Hb Hv Hu1 Hub HE E1 Eb.
  destruct (C09_transpose_adds u1 v Hl H1 Hr Hc Hu1 Hv) as (x1 & X1 & L1 & G1).
  destruct (C09_transpose_adds ub v Hl Hb Hr Hc Hub Hv) as (xb & Xb & Lb & Gb).
  rewrite E1 in X1. rewrite Eb in Xb. inversion X1; inversion Xb; subst.
  apply vf_ext; [congruence|]. intros q Hq. rewrite G1, Gb. f_equal. unfold Lval.
  apply sumn_ext. intros el Hel. apply sumn_ext. intros k Hk. apply sumn_ext. intros n Hn.
  apply sumn_ext. intros m Hm. simpl bsize. rewrite HE by auto. reflexivity.
Qed.
Print Assumptions C11_blocked_transpose.

(** Block by block equals all at once. *)
Definition slice {A} (n i : nat) (l : list A) : list A := firstn n (skipn (i * n) l).
Lemma vf_slice : forall (R : Rng) n i (l : list R) q, q < n -> vf (slice n i l) q = vf l (i * n + q).
Proof.
  intros R n i l q Hq. unfold slice, vf.
  assert (G : forall m (l : list R) q, q < m -> nth q (firstn m l) r0 = nth q l r0).
  { induction m as [|m IH]; intros [|a l'] [|q'] H; simpl; auto; try lia. apply IH. lia. }
  rewrite G by auto. generalize (i * n) as c. clear. induction c as [|c IH] in l |- *; intros; simpl; auto.
  destruct l; simpl; auto. destruct q; auto.
Qed.
Lemma slice_length : forall A n i (l : list A), (i + 1) * n <= length l -> length (slice n i l) = n.
Proof. intros A n i l H. unfold slice. rewrite firstn_length, skipn_length. nia. Qed.

Theorem C11_block_gather : forall (R : Rng) chk d bs r b (u v vb e : list R),
  lengths_ok d -> rstr_create chk d bs = Ok r -> in_range d -> curl_ok Signed d ->
  length u = u_lsize d -> length v = r_esize r -> length vb = r_bs r * u_es d * u_nc d -> b < r_nb r ->
  rstr_apply Signed r NoTranspose u v = Ok e ->
  rstr_apply_block Signed r b NoTranspose u vb = Ok (slice (r_bs r * u_es d * u_nc d) b e).
Proof.
  intros R chk d bs r b u v vb e Hl Hcr Hr Hc Hu Hv Hvb Hb E.
  pose proof (create_repr Hl Hcr) as Hrep.
  destruct (apply_nt_ok Hrep Hl Hr Hc u v ltac:(lia) ltac:(lia)) as (e' & E' & Hlen & Hin & _).
  rewrite E in E'. inversion E'; subst e'.
  destruct (block_nt_ok Hrep Hl Hr Hc eq_refl Signed u vb Hu Hvb Hb) as (v' & Ev & Hlv & Hvb').
  rewrite Ev. f_equal.
  pose proof (rp_esize Hrep) as Ees.
  assert (Hsl : length (slice (r_bs r * u_es d * u_nc d) b e) = r_bs r * u_es d * u_nc d).
  { apply slice_length. rewrite Hlen, Hv, Ees. nia. }
  apply vf_ext; [congruence|]. intros q Hq. rewrite Hlv, Hvb in Hq.
  rewrite vf_slice by auto.
  set (bs' := r_bs r) in *. set (es := u_es d) in *. set (nc := u_nc d) in *.
  pose proof (rp_bs Hrep). pose proof (rp_pos Hrep) as (P1 & P2). fold es in P1. fold nc in P2.
  assert (D1 : q = q / (es * bs') * (es * bs') + q mod (es * bs')).
  { pose proof (Nat.div_mod q (es * bs') ltac:(nia)). lia. }
  assert (D2 : q mod (es * bs') = (q mod (es * bs')) / bs' * bs' + (q mod (es * bs')) mod bs').
  { pose proof (Nat.div_mod (q mod (es * bs')) bs' ltac:(lia)). lia. }
  set (k := q / (es * bs')) in *. set (n := (q mod (es * bs')) / bs') in *. set (j := (q mod (es * bs')) mod bs') in *.
  assert (Hk : k < nc) by (apply Nat.div_lt_upper_bound; nia).
  assert (Hn : n < es).
  { apply Nat.div_lt_upper_bound; [lia|]. rewrite (Nat.mul_comm bs' es). apply Nat.mod_upper_bound. nia. }
  assert (Hj : j < bs') by (apply Nat.mod_upper_bound; lia).
  assert (Eq : q = k * (es * bs') + (n * bs' + j)) by lia.
  rewrite Eq at 1. unfold es, bs' at 1. rewrite Hvb' by auto.
  rewrite <- (Hin b j k n Hb Hj Hk Hn). f_equal. rewrite epos_enc by auto. fold bs' es nc. rewrite <- Eq. ring.
Qed.
Print Assumptions C11_block_gather.

Fixpoint blocks_transpose {R : Rng} (r : rstr) (blk : nat) (u : list R) (n : nat) (v : list R) : res (list R) :=
  match n with
  | 0 => Ok v
  | S n' => match blocks_transpose r blk u n' v with
            | Ok v' => rstr_apply_block Signed r n' Transpose (slice blk n' u) v'
            | Err c => Err c | UB => UB
            end
  end.

Theorem C11_blocks_transpose : forall (R : Rng) chk d bs r (u v : list R),
  lengths_ok d -> rstr_create chk d bs = Ok r -> in_range d -> curl_ok Signed d ->
  length u = r_esize r -> length v = u_lsize d ->
  blocks_transpose r (r_bs r * u_es d * u_nc d) u (r_nb r) v = rstr_apply Signed r Transpose u v.
Proof.
  intros R chk d bs r u v Hl Hcr Hr Hc Hu Hv.
  pose proof (create_repr Hl Hcr) as Hrep.
  set (blk := r_bs r * u_es d * u_nc d).
  set (E := fun el k n => vf u (epos d (r_bs r) el k n)).
  assert (G : forall n, n <= r_nb r -> exists v', blocks_transpose r blk u n v = Ok v' /\ length v' = u_lsize d /\
     forall q, vf v' q = (vf v q + sumn n (fun b => @Lblock R Signed d (r_bs r) b E q))%R).
  { induction n as [|n IH]; intros Hn.
    - exists v. simpl. split; auto. split; auto. intros q. rewrite sumn_0.
      destruct (r_th R) as [H0 Hc' _ _ _ _ _ _ _]. rewrite Hc'. symmetry. apply H0.
    - destruct (IH ltac:(lia)) as (v1 & E1 & L1 & G1). simpl. rewrite E1.
      assert (Hsl : length (slice blk n u) = blk).
      { apply slice_length. rewrite Hu, (rp_esize Hrep). unfold blk. nia. }
      destruct (block_t_ok Hrep Hl Hr Hc eq_refl Signed (slice blk n u) v1 E Hsl L1 Hn) as (v2 & E2 & L2 & G2).
      + intros j k m Hj Hk Hm. unfold E. rewrite epos_enc by auto.
        rewrite vf_slice.
        * f_equal. unfold blk. ring.
        * unfold blk. replace (r_bs r * u_es d * u_nc d) with (u_nc d * (u_es d * r_bs r)) by ring.
          apply enc_lt; auto. apply enc_lt; auto.
      + exists v2. split; auto. split; [congruence|]. intros q. rewrite G2, G1, sumn_S.
        destruct (r_th R) as [_ _ Ha _ _ _ _ _ _]. symmetry. apply Ha. }
  destruct (G (r_nb r) ltac:(lia)) as (v' & E' & L' & G'). rewrite E'.
  destruct (apply_t_ok Hrep Hl Hr Hc u v ltac:(lia) ltac:(lia)) as (v2 & E2 & L2 & G2). rewrite E2. f_equal.
  apply vf_ext; [congruence|]. intros q Hq. rewrite G', G2. f_equal. apply Lblock_Lval. apply (rp_nb1 Hrep).
Qed.
Print Assumptions C11_blocks_transpose.

(** ** C12: multiplicity *)
(** Number of (element, component, node) triples mapped to L-vector entry [q]. *)
Definition refcount (d : udesc) (q : nat) : nat :=
  length (filter (fun t : nat * (nat * nat) => (Z.of_nat q =? col d (fst t) (fst (snd t)) (snd (snd t)))%Z)
    (list_prod (seq 0 (u_ne d)) (list_prod (seq 0 (u_nc d)) (seq 0 (u_es d))))).
Fixpoint natR (R : Rng) (n : nat) : R := match n with 0 => 0%R | S n' => (natR R n' + 1)%R end.

Section Mult.
Variable R : Rng.
Add Ring Rr2 : (r_th R).
Lemma sumL_list_prod : forall A B (l : list A) (m : list B) (f : A * B -> R),
  sumL (list_prod l m) f = sumL l (fun a => sumL m (fun b => f (a, b))).
Proof.
  induction l as [|a l IH]; intros m f; [reflexivity|].
  change (list_prod (a :: l) m) with (map (fun y => (a, y)) m ++ list_prod l m).
  rewrite sumL_app, IH, sumL_map. reflexivity.
Qed.
Lemma sumL_count : forall A (p : A -> bool) (l : list A),
  sumL l (fun a => delta (p a) (1%R : R)) = natR R (length (filter p l)).
Proof.
  induction l as [|a l IH]; simpl; auto. rewrite IH. destruct (p a); simpl; unfold delta; ring.
Qed.

Lemma mult_lval : forall w d q n, in_range d -> u_lsize d <= n ->
  match u_kind d with UCurl _ _ => v_orients w = false | _ => True end ->
  Lval w d (fun el k m => Eval w d (repeat (1%R : R) n) el k m) q = natR R (refcount d q).
Proof.
  intros w d q n Hr Hn Hk.
  assert (Hc : forall el a b, a < u_es d -> b < u_es d -> exists s : R, (s * s = 1)%R /\
     forall m, m < u_es d -> coef R w d el a m = delta (a =? m) s).
  { intros el a b Ha Hb. unfold coef. destruct (u_kind d) as [s0 s1 s2|o|o s|o c].
    - exists 1%R. split; [ring|auto].
    - exists 1%R. split; [ring|auto].
    - destruct (v_signs w && nth (el * u_es d + a) s false); [exists (- (1))%R|exists 1%R]; split; auto; ring.
    - rewrite Hk. exists 1%R. split; [ring|auto]. }
  transitivity (sumL (list_prod (seq 0 (u_ne d)) (list_prod (seq 0 (u_nc d)) (seq 0 (u_es d))))
     (fun t : nat * (nat * nat) => delta (Z.of_nat q =? col d (fst t) (fst (snd t)) (snd (snd t)))%Z (1%R : R))).
  2:{ rewrite sumL_count. reflexivity. }
  rewrite sumL_list_prod. unfold Lval.
  apply sumn_ext. intros el Hel. rewrite sumL_list_prod.
  apply sumn_ext. intros k Hk'. apply sumn_ext. intros a Ha. simpl.
  destruct (Hc el a a Ha Ha) as (s & Hs & Hcoef).
  rewrite (@Eval_diag R w d (repeat 1%R n) el k a s) by auto.
  rewrite sumn_ext with (g := fun m => delta (m =? a) (delta (Z.of_nat q =? col d el k m)%Z (s * (s * vf (repeat 1%R n) (Z.to_nat (col d el k a)))))%R).
  - rewrite sumn_delta. replace (a <? u_es d) with true by (symmetry; apply Nat.ltb_lt; auto). unfold delta at 1.
    f_equal. pose proof (Hr el k a Hel Hk' Ha).
    replace (vf (repeat 1%R n) (Z.to_nat (col d el k a))) with (1%R : R).
    + transitivity (s * s)%R; [ring|auto].
    + symmetry. unfold vf. rewrite nth_indep with (d' := 1%R) by (rewrite repeat_length; lia). apply nth_repeat.
  - intros m Hm. rewrite Hcoef by auto. rewrite (Nat.eqb_sym a m).
    destruct (m =? a); unfold delta; destruct (Z.of_nat q =? col d el k m)%Z; ring.
Qed.
End Mult.

Theorem C12_multiplicity : forall (R : Rng) chk d bs r w n (junk : list R),
  lengths_ok d -> rstr_create chk d bs = Ok r -> in_range d ->
  (* not a curl-oriented restriction, or its unoriented copy *)
  match u_kind d with UCurl _ _ => v_orients w = false | _ => True end ->
  u_lsize d <= n -> length junk = r_esize r ->
  exists m, rstr_multiplicity w r n junk = Ok m /\ length m = n /\
    forall q, vf m q = natR R (refcount d q).
Proof.
  intros R chk d bs r w n junk Hl Hcr Hr Hk Hn Hj.
  assert (Hc : curl_ok w d).
  { unfold curl_ok. destruct (u_kind d); auto. rewrite Hk. discriminate. }
  destruct (@C08_gather R chk d bs r w (repeat 1%R n) junk Hl Hcr Hr Hc) as (e & E & Le & Gin & _).
  { rewrite repeat_length. auto. } { lia. }
  destruct (@C09_transpose_adds R chk d bs r w e (repeat 0%R n) Hl Hcr Hr Hc) as (m & Em & Lm & Gm).
  { lia. } { rewrite repeat_length. auto. }
  unfold rstr_multiplicity. rewrite E, Em. exists m. split; auto.
  rewrite repeat_length in Lm. split; auto. intros q. rewrite Gm.
  rewrite <- (@mult_lval R w d q n Hr Hn Hk).
  replace (vf (repeat 0%R n) q) with (0%R : R) by (unfold vf; rewrite nth_repeat; reflexivity).
  destruct (r_th R) as [H0 _ _ _ _ _ _ _ _]. rewrite H0.
  unfold Lval. apply sumn_ext. intros el Hel. apply sumn_ext. intros k Hk'. apply sumn_ext. intros a Ha.
  apply sumn_ext. intros b Hb. rewrite Gin by auto. reflexivity.
Qed.
Print Assumptions C12_multiplicity.
Example C12_ex : exists r m, rstr_create true d_ori (Some 2) = Ok r /\
  @rstr_multiplicity Zrng Signed r 4 (repeat 7%Z 8) = Ok m /\ m = [1; 2; 2; 1]%Z.
Proof. eexists. eexists. split; [reflexivity|]. split; vm_compute; reflexivity. Qed.

(** Finding: on a curl-oriented restriction the result is not a count. *)
Theorem C12_curl_refuted : exists d r (junk m : list Zrng) q,
  lengths_ok d /\ in_range d /\ curl_ok Signed d /\ rstr_create true d None = Ok r /\
  rstr_multiplicity Signed r (u_lsize d) junk = Ok m /\ vf m q <> natR Zrng (refcount d q).
Proof.
  exists d_curl. eexists. exists (repeat 0%Z 6). eexists. exists 0.
  split; [apply d_curl_ok|]. split; [apply d_curl_ok|]. split; [apply d_curl_ok|]. split; [reflexivity|].
  split; [reflexivity|]. vm_compute. discriminate.
Qed.
