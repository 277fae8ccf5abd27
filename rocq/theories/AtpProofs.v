(** * Operators at points: restriction of one element, setup, complete E-vectors of passive inputs *)
From Coq Require Import List ZArith Lia Bool Arith.
From Verif Require Import Prelude RstrModel RstrSpec RstrProofs RstrMain RstrPoints RstrProps Adds TensorModel TensorMain BasisModel BasisProofs BasisProps Digits PointsModel PointsProofs PointsProps OpModel OpSpec OpLists OpProofs OpMain OptModel OptProofs AtpModel AtpSpec.
Import ListNotations.
Local Open Scope nat_scope.

Section Elem.
Variable R : Rng.
Add Ring Rr : (r_th R).
Variable chk : bool.
Variable ne : nat.

Definition rwf (d : pdesc) : Prop :=
  match d with
  | PStd d => lengths_ok d /\ in_range d /\ curl_ok Signed d /\ (exists r, rstr_create chk d None = Ok r) /\ u_ne d = ne
  | PPts n npts nc lsize offs => points_ok n npts nc lsize offs /\ n = ne
  end.
Definition scatter1 (d : pdesc) (e : nat) (E : nat -> nat -> nat -> R) (q : nat) : R :=
  match d with
  | PStd d => @Lblock R Signed d 1 e E q
  | PPts _ _ nc _ offs => sumn (p_num offs e) (fun n => sumn nc (fun c => delta (q =? p_idx offs e n * nc + c) (E e c n)))
  end.
Lemma scatter1_sum : forall d E q, rwf d -> sumn ne (fun e => scatter1 d e E q) = scatter R d E q.
Proof.
  intros [d|n npts nc ls offs] E q H; cbn [scatter1 scatter] in *.
  - destruct H as (_ & _ & _ & _ & <-). apply Lblock_Lval. lia.
  - destruct H as (_ & ->). reflexivity.
Qed.
Lemma scatter_ext : forall d E F q, (forall e c n, e < p_ne d -> c < p_nc d -> n < p_cnt d e -> E e c n = F e c n) -> scatter R d E q = scatter R d F q.
Proof.
  intros [d|n npts nc ls offs] E F q H; cbn [scatter p_ne p_nc p_cnt] in *.
  - apply Lval_ext. intros; apply H; auto.
  - apply sumn_ext. intros e He. apply sumn_ext. intros i Hi. apply sumn_ext. intros c Hc. rewrite H by auto. reflexivity.
Qed.
Lemma delta_sumn : forall b N (f : nat -> R), delta b (sumn N f) = sumn N (fun j => delta b (f j)).
Proof. intros [|] N f; cbn [delta]; auto. symmetry. apply sumn_zero. auto. Qed.
Lemma scatter_sumn : forall d N (F : nat -> nat -> nat -> nat -> R) q, scatter R d (fun e c n => sumn N (fun j => F j e c n)) q = sumn N (fun j => scatter R d (F j) q).
Proof.
  intros [d|n npts nc ls offs] N F q; cbn [scatter].
  - apply Lval_sumn.
  - symmetry. rewrite sumn_swap. apply sumn_ext. intros e He. rewrite sumn_swap. apply sumn_ext. intros i Hi. rewrite sumn_swap. apply sumn_ext. intros c Hc.
    symmetry. apply delta_sumn.
Qed.
Lemma scatter_delta : forall d b (F : nat -> nat -> nat -> R) q, scatter R d (fun e c n => delta b (F e c n)) q = delta b (scatter R d F q).
Proof.
  intros [d|n npts nc ls offs] b F q; cbn [scatter].
  - apply Lval_delta.
  - destruct b; cbn [delta]; auto. apply sumn_zero. intros e He. apply sumn_zero. intros i Hi. apply sumn_zero. intros c Hc. destruct (q =? _); reflexivity.
Qed.
Lemma scatter1_ext : forall d e E F q, (forall e c n, c < p_nc d -> n < p_cnt d e -> E e c n = F e c n) -> scatter1 d e E q = scatter1 d e F q.
Proof.
  intros [d|n npts nc ls offs] e E F q H; cbn [scatter1 p_nc p_cnt] in *.
  - unfold Lblock. apply sumn_ext. intros j Hj. apply sumn_ext. intros kk Hk. apply sumn_ext. intros n Hn. apply sumn_ext. intros m Hm. rewrite H by auto. reflexivity.
  - apply sumn_ext. intros i Hi. apply sumn_ext. intros c Hc. rewrite H by auto. reflexivity.
Qed.

Lemma std_kind : forall d r, rstr_create chk d None = Ok r -> forall (A : Type) (f : list Z -> A) (y : A), match r_kind r with KPoints o => f o | _ => y end = y.
Proof.
  intros d r E A f y. unfold rstr_create in E. destruct (RstrModel.check_dims d _); try discriminate.
  destruct (make_kind d _ _) as [kd|] eqn:Ek; try discriminate.
  assert (Er : r_kind r = kd). { destruct (kind_offsets kd); try (inversion E; subst; reflexivity). destruct (offsets_check _ _ _ _ _ _ _); inversion E; subst; reflexivity. }
  rewrite Er. destruct kd; auto. exfalso. unfold make_kind in Ek.
  repeat match type of Ek with context [match ?z with _ => _ end] => destruct z; try discriminate end.
Qed.

Definition len_in (d : pdesc) (u : list R) : Prop := if is_pts d then p_ls d <= length u else length u = p_ls d.
Definition len_e (d : pdesc) (e : nat) (v : list R) : Prop := if is_pts d then p_nc d * p_cnt d e <= length v else length v = p_nc d * p_cnt d e.

Lemma elem_nt : forall d r e u v, rwf d -> pcreate chk d = Ok r -> e < ne -> len_in d u -> len_e d e v ->
  exists v', elem_apply R r e NoTranspose u v = Ok v' /\ length v' = length v /\
    forall c n, c < p_nc d -> n < p_cnt d e -> vf v' (c * p_cnt d e + n) = gather R d u e c n.
Proof.
  intros [d|n npts nc ls offs] r e u v Hd Hc He Hu Hv; unfold len_in, len_e, elem_apply in *; cbn [is_pts p_nc p_cnt p_ls gather rwf pcreate] in *.
  - rewrite (std_kind d r Hc). destruct Hd as (H1 & H2 & H3 & _ & H5). destruct (create_bs Hc) as (Ebs & Enb). cbn [bsize nblocks] in Ebs, Enb.
    pose proof (create_repr H1 Hc) as Hrep.
    assert (Lv : length v = r_bs r * u_es d * u_nc d) by (rewrite Ebs, Hv; ring).
    destruct (block_nt_ok Hrep H1 H2 H3 eq_refl Signed u v Hu Lv (b := e)) as (v' & E & L & G). { rewrite Enb. lia. }
    exists v'. split; auto. split; auto. intros c i Hcc Hi. rewrite Ebs in G.
    specialize (G 0 c i ltac:(lia) Hcc Hi). rewrite !Nat.mul_1_r, Nat.add_0_r in G. rewrite G.
    unfold elt. rewrite Nat.mul_1_r, Nat.add_0_r, Nat.min_l by lia. reflexivity.
  - destruct Hd as (Hok & ->). destruct (create_points_ok Hok) as (r' & Er & Ek & E1 & E2 & E3 & E4 & E5). rewrite Hc in Er. inversion Er; subst r'. clear Er.
    rewrite Ek. unfold rstr_apply_points. rewrite Ek, (num_points_ok Hok He), E1, E3, E4. cbv zeta.
    destruct (Z.leb_spec (Z.of_nat ls) (Z.of_nat (length u))); [|lia]. cbn [negb].
    destruct (Z.leb_spec (Z.of_nat (p_num offs e) * Z.of_nat nc) (Z.of_nat (length v))); [|nia]. cbn [negb].
    apply Nat.ltb_lt in He as He'. rewrite He'. cbn [negb].
    destruct (@points_nt R ne npts nc ls offs Hok u v e (e + 1)) as (v' & E & L & G & _); [lia|auto| |].
    { rewrite Nat.add_1_r, p_start_S. nia. }
    rewrite E. exists v'. split; auto. split; auto. intros c i Hcc Hi. rewrite <- G by (auto; lia). f_equal. lia.
Qed.
Lemma elem_t : forall d r e u v E, rwf d -> pcreate chk d = Ok r -> e < ne -> len_in d v -> len_e d e u ->
  (forall c n, c < p_nc d -> n < p_cnt d e -> vf u (c * p_cnt d e + n) = E e c n) ->
  exists v', elem_apply R r e Transpose u v = Ok v' /\ length v' = length v /\ forall q, vf v' q = (vf v q + scatter1 d e E q)%R.
Proof.
  intros [d|n npts nc ls offs] r e u v E Hd Hc He Hv Hu HE; unfold len_in, len_e, elem_apply in *; cbn [is_pts p_nc p_cnt p_ls scatter1 rwf pcreate] in *.
  - rewrite (std_kind d r Hc). destruct Hd as (H1 & H2 & H3 & _ & H5). destruct (create_bs Hc) as (Ebs & Enb). cbn [bsize nblocks] in Ebs, Enb.
    pose proof (create_repr H1 Hc) as Hrep.
    destruct (block_t_ok Hrep H1 H2 H3 eq_refl Signed (b := e) u v E) as (v' & Ev & L & G).
    { rewrite Ebs, Hu. ring. } { auto. } { rewrite Enb. lia. }
    { intros j kk i Hj Hk Hi. rewrite Ebs in *. replace j with 0 by lia. rewrite !Nat.mul_1_r, !Nat.add_0_r. apply HE; auto. }
    exists v'. rewrite Ebs in G. auto.
  - destruct Hd as (Hok & ->). destruct (create_points_ok Hok) as (r' & Er & Ek & E1 & E2 & E3 & E4 & E5). rewrite Hc in Er. inversion Er; subst r'. clear Er.
    rewrite Ek. unfold rstr_apply_points. rewrite Ek, (num_points_ok Hok He), E1, E3, E4. cbv zeta.
    destruct (Z.leb_spec (Z.of_nat (p_num offs e) * Z.of_nat nc) (Z.of_nat (length u))); [|nia]. cbn [negb].
    destruct (Z.leb_spec (Z.of_nat ls) (Z.of_nat (length v))); [|lia]. cbn [negb].
    apply Nat.ltb_lt in He as He'. rewrite He'. cbn [negb].
    destruct (@RstrPoints.points_t R ne npts nc ls offs Hok u e (e + 1) (length v)) with (v := v) as (v' & Ev & L & G); auto; try lia.
    { rewrite Nat.add_1_r, p_start_S. nia. }
    rewrite Ev. exists v'. split; auto. split; auto. intros q. rewrite G. f_equal. unfold pts_sum. replace (e + 1 - e) with 1 by lia. rewrite sumn_S, sumn_0.
    cbv zeta. rewrite Nat.add_0_r, Nat.sub_diag. cbn [Nat.add]. transitivity (sumn (p_num offs e) (fun i => sumn nc (fun j => delta (q =? p_idx offs e i * nc + j) (vf u (j * p_num offs e + i))))). { ring. }
    apply sumn_ext. intros i Hi. apply sumn_ext. intros c Hcc. rewrite HE by auto. reflexivity.
Qed.

(** ** complete E-vectors *)
Definition pstart (d : pdesc) (e : nat) : nat := match d with PStd d => e * (u_nc d * u_es d) | PPts _ _ nc _ offs => p_start nc offs e end.
Definition psz (d : pdesc) : nat := match pcreate chk d with Ok r => r_esize r | _ => 0 end.
Definition full (d : pdesc) (u e : list R) : Prop :=
  length e = psz d /\ (forall el, el < ne -> pstart d el + p_nc d * p_cnt d el <= length e) /\
  forall el c n, el < ne -> c < p_nc d -> n < p_cnt d el -> vf e (pstart d el + (c * p_cnt d el + n)) = gather R d u el c n.
Lemma full_ok : forall d r u e0, rwf d -> pcreate chk d = Ok r -> p_ls d <= length u -> length e0 = psz d ->
  exists e, be (rstr_apply Signed r NoTranspose u e0) = Ok e /\ full d u e.
Proof.
  intros d r u e0 Hd Hc Hu He. unfold full. assert (Ep : psz d = r_esize r) by (unfold psz; rewrite Hc; auto). rewrite Ep in *. clear Ep.
  destruct d as [d|n npts nc ls offs]; cbn [is_pts p_nc p_cnt p_ls gather rwf pcreate pstart] in *.
  - destruct Hd as (H1 & H2 & H3 & _ & H5).
    destruct (C08_gather u e0 H1 Hc H2 H3 Hu ltac:(lia)) as (e & E & L & G & _). rewrite E. exists e. split; auto. split; [lia|]. split.
    + intros el Hel. rewrite L, He, (rp_esize (create_repr H1 Hc)). destruct (create_bs Hc) as (-> & ->). cbn [bsize nblocks]. nia.
    + intros el c i Hel Hcc Hi. cbn [bsize] in G. rewrite <- G by (auto; lia). rewrite epos_1. reflexivity.
  - destruct Hd as (Hok & ->). destruct (@C08_points_gather R ne npts nc ls offs r u e0 Hok Hc Hu ltac:(lia)) as (e & E & L & G & _). rewrite E. exists e. split; auto. split; [lia|].
    destruct (create_points_ok Hok) as (r' & Er & Ek & E1 & E2 & E3 & E4 & E5). rewrite Hc in Er. inversion Er; subst r'. clear Er. split.
    + intros el Hel. pose proof (@p_start_le nc offs (S el) ne Hel) as P. rewrite p_start_S in P. pose proof (p_start_ne Hok). lia.
    + intros el c i Hel Hcc Hi. apply G; auto.
Qed.
End Elem.

Section Setup.
Variable R : Rng.
Add Ring Rr2 : (r_th R).
Variable k : kernel R.
Variable Jmin : nat.
Variable junk : nat -> nat -> R.
Variable chk : bool.
Variable D : nat -> pdesc.
Variable CB : nat -> tbasis R.
Variable a : atop R.
Notation o := (a_op a).
Hypothesis Hwf : atp_wf R D CB a k Jmin chk.
Notation nin := (length (o_in o)).
Notation nout := (length (o_out o)).
Notation fi := (fld (o_in o)).
Notation fo := (fld (o_out o)).
Notation fst_in := (first (sameE (o_in o))).
Notation fst_out := (first (sameE (o_out o))).
Notation lst := (last (sameE (o_out o)) nout).
Notation NE := (o_ne o).
Notation pdf := (pd R D).
Notation dimX := (p_nc (D (a_rpts a))).

(** ** fields *)
Definition isb (m : emode) : bool := match m with EvInterp | EvGrad => true | _ => false end.
Lemma amode : forall f b, at_field_wf R D CB a Jmin chk f b -> f_mode f = EvWeight \/ f_mode f = EvNone \/ isb (f_mode f) = true.
Proof. intros f b H. unfold at_field_wf in H. destruct (f_mode f); auto; destruct H. Qed.
Lemma aw_rwf : forall f b, at_field_wf R D CB a Jmin chk f b -> f_mode f <> EvWeight -> rwf chk NE (pdf f) /\ exists i, f_rstr f = Some i /\ pdf f = D i.
Proof.
  intros f b H Hn. unfold at_field_wf in H. unfold pd in *. destruct (f_mode f); try congruence; try (destruct H; fail); destruct H as (H1 & _ & H2 & _);
    (split; [exact H2|]); destruct (f_rstr f) as [i|]; eauto; congruence.
Qed.
Lemma aw_none : forall f b, at_field_wf R D CB a Jmin chk f b -> f_mode f = EvNone ->
  is_pts (pdf f) = true /\ f_size f = p_nc (pdf f) /\ forall e, e < NE -> p_cnt (pdf f) e = pts R D a e.
Proof.
  intros f b H E. unfold at_field_wf in H. rewrite E in H. destruct H as (_ & H1 & _ & H2 & H3). split; auto. split; auto.
  intros e He. rewrite <- H3 by auto. destruct (pdf f); [discriminate|]. reflexivity.
Qed.
Record fb_ok (f : ofield R) (b : nat) : Prop := {
  fb_std : is_pts (pdf f) = false; fb_b : f_basis f = Some (BT (tb R f)); fb_wf : b_wf Jmin (BT (CB b)); fb_ch : cheb_basis (tb R f) (CB b);
  fb_Q : 2 <= t_Q (tb R f); fb_dim : t_dim (tb R f) = dimX; fb_nc : t_nc (tb R f) = p_nc (pdf f);
  fb_P : forall e, t_P (tb R f) ^ t_dim (tb R f) = p_cnt (pdf f) e; fb_sz : f_size f = slots_of (f_mode f) (t_dim (tb R f)) * t_nc (tb R f) }.
Lemma aw_b : forall f b, at_field_wf R D CB a Jmin chk f b -> isb (f_mode f) = true -> fb_ok f b.
Proof.
  intros f b H E. unfold at_field_wf in H. destruct (f_mode f) eqn:Em; try discriminate;
    destruct H as (_ & H1 & _ & H2 & H3 & H4 & H5 & H6 & H7 & H8 & H9); constructor; auto; try (rewrite Em; auto);
    intros e; rewrite H8; destruct (pdf f); auto; discriminate.
Qed.
Lemma aw_weight : forall f b, at_field_wf R D CB a Jmin chk f b -> f_mode f = EvWeight -> f_size f = 1 /\ f_rstr f = None /\ f_vec f <> VAct /\ exists t, f_basis f = Some (BT t).
Proof. intros f b H E. unfold at_field_wf in H. rewrite E in H. auto. Qed.
Lemma fin : forall i, i < nin -> at_field_wf R D CB a Jmin chk (fi i) (nth i (a_bin a) 0).
Proof. intros i Hi. apply (aw_in _ _ _ _ _ _ _ Hwf). auto. Qed.
Lemma fout : forall i, i < nout -> at_field_wf R D CB a Jmin chk (fo i) (nth i (a_bout a) 0) /\ f_mode (fo i) <> EvWeight.
Proof. intros i Hi. apply (aw_out _ _ _ _ _ _ _ Hwf). auto. Qed.
Lemma same_pd : forall (f g : ofield R), same f g = true -> pdf f = pdf g /\ f_rstr f = f_rstr g /\ f_vec f = f_vec g.
Proof. intros f g H. apply same_eq in H. destruct H as (Hv & Hr). unfold pd. rewrite Hr. auto. Qed.
Lemma same_w : forall i j, i < nin -> j < nin -> sameE (o_in o) i j = true -> f_mode (fi i) = EvWeight -> f_mode (fi j) = EvWeight.
Proof.
  intros i j Hi Hj Hs Hw. destruct (same_pd _ _ Hs) as (_ & Hr & _).
  destruct (aw_weight _ _ (fin i Hi) Hw) as (_ & N & _). rewrite N in Hr.
  destruct (amode _ _ (fin j Hj)) as [|Hm]; auto. exfalso.
  destruct (aw_rwf _ _ (fin j Hj)) as (_ & x & Hx & _). { intros E. rewrite E in Hm. destruct Hm; discriminate. }
  congruence.
Qed.

(** ** the duplicate loop of the inputs: only that a field is no weight matters *)
Definition unnone (f : ofield R) : ofield R := mkOF (f_size f) (match f_mode f with EvNone => EvInterp | m => m end) (f_rstr f) (f_basis f) (f_vec f).
Lemma fld_map : forall fs i, i < length fs -> fld (map unnone fs) i = unnone (fld fs i).
Proof. intros fs i Hi. unfold fld. rewrite (nth_indep _ _ (unnone (mkOF 0 EvNone None None VNo))) by (rewrite map_length; auto). apply map_nth. Qed.
Lemma same_unnone : forall f g : ofield R, same (unnone f) (unnone g) = same f g.
Proof. reflexivity. Qed.
Lemma first_ext : forall (E F : nat -> nat -> bool) j, (forall i, i < j -> E i j = F i j) -> first E j = first F j.
Proof.
  intros E F j H. unfold first. assert (G : forall l, (forall i, In i l -> i < j) -> find (fun i => E i j) l = find (fun i => F i j) l).
  { induction l as [|x l IH]; intros Hl; simpl; auto. rewrite H by (apply Hl; left; auto). destruct (F x j); auto. apply IH. intros; apply Hl; right; auto. }
  rewrite G; auto. intros i Hi. apply in_seq in Hi. lia.
Qed.
Lemma rfold_ext_in : forall T (f g : nat -> T -> res T) l s, (forall i s, In i l -> f i s = g i s) -> rfold l f s = rfold l g s.
Proof.
  intros T f g l. induction l as [|i l IH]; intros s H; simpl; auto. rewrite H by (left; auto). destruct (g i s); auto. cbn [rbind]. apply IH. intros; apply H; right; auto.
Qed.
Lemma dup_in_unnone : forall fs, opt_dup_in (map unnone fs) = opt_dup_in fs.
Proof.
  intros fs. unfold opt_dup_in. rewrite map_length, map_map.
  assert (E : map (fun x => not_weight (f_mode (unnone x))) fs = map (fun f => not_weight (f_mode f)) fs).
  { apply map_ext. intros f. unfold unnone. simpl. destruct (f_mode f); reflexivity. }
  rewrite E. apply rfold_ext_in. intros i s Hi. apply in_seq in Hi. apply rfold_ext_in. intros j s' Hj. apply in_seq in Hj.
  unfold dup_in_step. destruct s' as ((nn, sl), sk). rewrite !og_fld by (rewrite ?map_length; lia). rewrite !fld_map by lia. cbn [rbind]. reflexivity.
Qed.
Lemma a_dup_in_ok : exists nn sl sk, opt_dup_in (o_in o) = Ok (nn, sl, sk) /\ length sl = nin /\ length sk = nin /\
  forall j, j < nin -> nth j sl 0 = fst_in j /\ nth j sk false = (fst_in j <? j).
Proof.
  rewrite <- dup_in_unnone.
  destruct (opt_dup_in_ok (map unnone (o_in o))) as (nn & sl & sk & E & L1 & L2 & G).
  - rewrite map_length. intros i j Hij Hs _. unfold sameE in Hs. rewrite !fld_map in Hs by lia. rewrite same_unnone in Hs.
    destruct (aw_din _ _ _ _ _ _ _ Hwf i j Hij Hs) as (Hn & _). unfold bm. rewrite fld_map by lia. unfold unnone. simpl.
    destruct (amode _ _ (fin i ltac:(lia))) as [Ew|[En|Eb]]; [congruence|rewrite En; auto|destruct (f_mode (fi i)); auto; discriminate].
  - rewrite map_length in *. exists nn, sl, sk. split; auto. split; auto. split; auto. intros j Hj.
    assert (Ef : first (sameE (map unnone (o_in o))) j = fst_in j). { apply first_ext. intros i Hi. unfold sameE. rewrite !fld_map by lia. apply same_unnone. }
    rewrite <- Ef. apply G; auto.
Qed.

(** ** points *)
Lemma x_desc : exists npts nc ls offs, D (a_rpts a) = PPts NE npts nc ls offs /\ points_ok NE npts nc ls offs.
Proof.
  destruct (aw_x _ _ _ _ _ _ _ Hwf) as (H1 & H2). destruct (D (a_rpts a)) as [d|n npts nc ls offs]; [discriminate|]. destruct H2 as (H2 & ->). eauto 6.
Qed.
Lemma x_create : exists rx, pcreate chk (D (a_rpts a)) = Ok rx /\ r_ne rx = NE /\ r_nc rx = dimX /\ r_kind rx = KPoints (p_of (D (a_rpts a))) /\
  (forall e, e < NE -> num_points rx e = Ok (pts R D a e)) /\ forall e u v, rstr_apply_points rx e NoTranspose u v = elem_apply R rx e NoTranspose u v.
Proof.
  destruct x_desc as (npts & nc & ls & offs & Ed & Hok). unfold pts. rewrite Ed. cbn [pcreate p_nc p_of].
  destruct (create_points_ok Hok) as (r & Er & Ek & E1 & E2 & E3 & E4 & E5). exists r. split; auto. split; auto. split; auto. split; auto. split.
  - intros e He. unfold num_points. rewrite Ek, (num_points_ok Hok He). cbn. rewrite Nat2Z.id. reflexivity.
  - intros e u v. unfold elem_apply. rewrite Ek. reflexivity.
Qed.
Lemma max_ok : forall rx, r_ne rx = NE -> (forall e, e < NE -> num_points rx e = Ok (pts R D a e)) ->
  exists mx, max_points rx = Ok mx /\ forall e, e < NE -> pts R D a e <= mx.
Proof.
  intros rx E1 E2. unfold max_points. rewrite E1.
  destruct (@rfold_inv0 _ (fun m x => forall e, e < m -> pts R D a e <= x) (fun e m => n <~ num_points rx e ;; Ok (Nat.max m n)) NE 0) as (mx & E & H).
  - intros; lia.
  - intros i x Hi H. rewrite E2 by auto. cbn [rbind]. eexists. split; [reflexivity|]. intros e He. destruct (Nat.eq_dec e i) as [->|]; [lia|]. specialize (H e ltac:(lia)). lia.
  - eauto.
Qed.

(** ** setup *)
Record astat_ok (s : stat) : Prop := {
  ao_rin : length (s_rin s) = nin /\ forall i, i < nin -> f_mode (fi i) <> EvWeight -> exists r, nth i (s_rin s) None = Some r /\ pcreate chk (pdf (fi i)) = Ok r;
  ao_rout : length (s_rout s) = nout /\ forall i, i < nout -> exists r, nth i (s_rout s) None = Some r /\ pcreate chk (pdf (fo i)) = Ok r;
  ao_slot : length (s_slot s) = nin /\ forall i, i < nin -> nth i (s_slot s) 0 = fst_in i;
  ao_skin : length (s_skin s) = nin /\ forall i, i < nin -> nth i (s_skin s) false = (fst_in i <? i);
  ao_skout : length (s_skout s) = nout /\ forall j, j < nout -> nth j (s_skout s) false = (j <? lst j);
  ao_add : length (s_add s) = nout /\ forall j, j < nout -> nth j (s_add s) false = (fst_out j <? j);
  ao_idx : length (s_idx s) = nout /\ forall j, j < nout -> nth j (s_idx s) 0 = lst j
}.
Section Mx.
Variable mx : nat.
(** length of the E-vector of one element *)
Definition evl (f : ofield R) : nat := match f_mode f with EvNone => mx * f_size f | EvWeight => 0 | _ => p_cnt (pdf f) 0 * p_nc (pdf f) end.
Definition a_qin_ok (qin : list (list R)) : Prop := length qin = nin /\ forall i, i < nin ->
  (isb (f_mode (fi i)) = true -> length (nth i qin []) = mx * f_size (fi i)) /\
  (f_mode (fi i) = EvWeight -> length (nth i qin []) = mx /\ forall p, p < mx -> vf (nth i qin []) p = 1%R).
Definition a_qo_ok (qout : list (list R)) : Prop := length qout = nout /\ forall j, j < nout -> length (nth j qout []) = mx * f_size (fo j).
Definition a_eb_ok (eb : list (list R)) : Prop := length eb = nin /\ forall i, i < nin -> length (nth i eb []) = evl (fi i).
Definition a_eo_ok (eo : list (list R)) : Prop := length eo = nout /\ forall j, j < nout -> length (nth j eo []) = evl (fo j).
Definition a_ein_len (ein : list (option (list R))) : Prop := length ein = nin /\
  forall i e, i < nin -> f_mode (fi i) <> EvWeight -> nth i ein None = Some e -> length e = psz chk (pdf (fi i)).
Record adyn_ok (x : adyn R) : Prop := {
  ay_st : length (d_states (ad x)) = nin; ay_ein : a_ein_len (d_ein (ad x)); ay_eo : a_eo_ok (d_eout (ad x)); ay_qin : a_qin_ok (d_qin (ad x));
  ay_qo : a_qo_ok (d_qout (ad x)); ay_eb : a_eb_ok (ad_eb x); ay_xe : length (ad_xe x) = dimX * mx; ay_vc : vc_ok R CB (ad_vc x) }.
Definition a_cache_ok (d : dyn R) (vm : vmem R) : Prop :=
  forall i v, i < nin -> f_mode (fi i) <> EvWeight -> fst_in i = i -> f_vec (fi i) = VPas v ->
    (nth i (d_states d) 0 <= vv_state (vm v))%Z /\
    (nth i (d_states d) 0%Z = vv_state (vm v) -> forall u, vv_data (vm v) = Some u -> exists e, nth i (d_ein d) None = Some e /\ full R chk NE (pdf (fi i)) u e).
End Mx.
(** everything the backend keeps *)
Definition a_im_ok (im : rstr * stat * adyn R) : Prop := let '(rx, s, x) := im in
  pcreate chk (D (a_rpts a)) = Ok rx /\ astat_ok s /\ exists mx, (forall e, e < NE -> pts R D a e <= mx) /\ adyn_ok mx x.

Lemma p_field_rstr_ok : forall f b, at_field_wf R D CB a Jmin chk f b -> exists ro, p_field_rstr chk D f = Ok ro /\
  (f_mode f <> EvWeight -> exists r, ro = Some r /\ pcreate chk (pdf f) = Ok r).
Proof.
  intros f b H. unfold p_field_rstr. destruct (amode _ _ H) as [Ew|Hw].
  - rewrite Ew. eexists. split; [reflexivity|]. congruence.
  - assert (Hn : f_mode f <> EvWeight). { intros E. rewrite E in Hw. destruct Hw; discriminate. }
    destruct (aw_rwf _ _ H Hn) as (Hr & i & Ei & Ed). rewrite Ei.
    assert (Hc : exists r, pcreate chk (pdf f) = Ok r).
    { destruct (pdf f) as [d|n npts nc ls offs]; cbn [rwf pcreate] in *. { apply Hr. } { destruct Hr as (Hok & _). destruct (create_points_ok Hok) as (r & Er & _). eauto. } }
    destruct Hc as (r & Ec). rewrite Ed in Ec. rewrite Ec. cbn [be rbind]. exists (Some r). split. { destruct (f_mode f); auto. congruence. }
    intros _. exists r. rewrite Ed. auto.
Qed.
Lemma p_field_qvec_ok : forall mx f b, at_field_wf R D CB a Jmin chk f b -> exists q, p_field_qvec k junk CB mx (f, b) = Ok q /\ length q = mx * f_size f /\
  (f_mode f = EvWeight -> forall p, p < mx -> vf q p = 1%R).
Proof.
  intros mx f b H. unfold p_field_qvec. destruct (amode _ _ H) as [Ew|[En|Eb]].
  - destruct (aw_weight _ _ H Ew) as (Es & _ & _ & t & Et). rewrite Ew, Et, Es. unfold apply_at_points, at_points_check, at_points_core. cbn [andb length fold_right].
    rewrite orb_true_r, Nat.add_0_r, repeat_length, Nat.leb_refl. cbn [negb Nat.eqb]. cbn. eexists. split; [reflexivity|].
    rewrite repeat_length. split; [lia|]. intros _ p Hp. unfold vf.
    rewrite nth_indep with (d' := 1%R) by (rewrite repeat_length; auto). apply nth_repeat.
  - rewrite En. eexists. split; [reflexivity|]. rewrite repeat_length. split; auto. discriminate.
  - pose proof (aw_b _ _ H Eb) as B. rewrite (fb_b _ _ B). exists (repeat 0%R (mx * f_size f)). rewrite repeat_length.
    destruct (f_mode f); try discriminate; repeat split; auto; discriminate.
Qed.
Lemma combine_nth' : forall A B (l : list A) (l' : list B) i x y, length l = length l' -> nth i (combine l l') (x, y) = (nth i l x, nth i l' y).
Proof. intros. apply combine_nth. auto. Qed.

Lemma atp_setup_ok : forall vc, vc_ok R CB vc -> exists im, atp_setup k junk chk D CB a vc = Ok im /\ a_im_ok im /\
  (forall i, i < nin -> nth i (d_states (ad (snd im))) 0%Z = 0%Z).
Proof.
  intros vc Hvc. unfold atp_setup.
  destruct x_create as (rx & Ex & X1 & X2 & X3 & X4 & _). rewrite Ex. cbn [be rbind].
  destruct (max_ok rx X1 X4) as (mx & Em & Hmx). rewrite Em. cbn [be rbind].
  destruct (aw_bl _ _ _ _ _ _ _ Hwf) as (Bi & Bo).
  pose proof (fun fs => @rmap_ok _ _ (p_field_rstr chk D) (fun (f : ofield R) ro => f_mode f <> EvWeight -> exists r, ro = Some r /\ pcreate chk (pdf f) = Ok r)
    (mkOF 0 EvNone None None VNo : ofield R) None fs) as Hr.
  pose proof (fun l => @rmap_ok _ _ (p_field_qvec k junk CB mx) (fun (fb : ofield R * nat) (q : list R) => length q = mx * f_size (fst fb) /\
    (f_mode (fst fb) = EvWeight -> forall p, p < mx -> vf q p = 1%R)) (mkOF 0 EvNone None None VNo : ofield R, 0) [] l) as Hq.
  destruct (Hr (o_in o)) as (rin & E1 & L1 & G1). { intros i Hi. apply (p_field_rstr_ok _ _ (fin i Hi)). }
  destruct (Hq (combine (o_in o) (a_bin a))) as (qin & E2 & L2 & G2).
  { intros i Hi. rewrite combine_length in Hi. rewrite combine_nth' by auto. apply (p_field_qvec_ok mx _ _ (fin i ltac:(lia))). }
  destruct a_dup_in_ok as (nn & sl & sk & E3 & L3 & L3' & G3).
  destruct (Hr (o_out o)) as (rout & E4 & L4 & G4). { intros i Hi. apply (p_field_rstr_ok _ _ (proj1 (fout i Hi))). }
  destruct (Hq (combine (o_out o) (a_bout a))) as (qout & E5 & L5 & G5).
  { intros i Hi. rewrite combine_length in Hi. rewrite combine_nth' by auto. apply (p_field_qvec_ok mx _ _ (proj1 (fout i ltac:(lia)))). }
  destruct (opt_dup_out_ok (o_out o)) as (nn' & slo & sko & ad & E6 & L6 & L6' & L6'' & G6 & G6' & G6'').
  { intros i j Hij Hs. destruct (aw_dout _ _ _ _ _ _ _ Hwf i j Hij Hs) as (Hn & _). unfold bm. destruct (fout j ltac:(lia)) as (H1 & H2).
    destruct (amode _ _ H1) as [Ew|[En|Eb]]; try congruence. destruct (f_mode (fo j)); auto; discriminate. }
  rewrite E1. cbn [rbind]. rewrite E2. cbn [rbind]. rewrite E3. cbn [rbind]. rewrite E4. cbn [rbind]. rewrite E5. cbn [rbind]. rewrite E6. cbn [rbind].
  rewrite combine_length in L2, L5, G2, G5.
  assert (Hev : forall f b, at_field_wf R D CB a Jmin chk f b -> length (block_evec None mx f : list R) = evl mx f).
  { intros f b Hf. unfold block_evec, evl. destruct (amode _ _ Hf) as [Ew|[En|Eb]].
    - rewrite Ew. reflexivity.
    - rewrite En, repeat_length. cbn [bsize]. lia.
    - pose proof (aw_b _ _ Hf Eb) as B. rewrite (fb_b _ _ B). rewrite <- (fb_P _ _ B 0), <- (fb_nc _ _ B). destruct (f_mode f); try discriminate; rewrite repeat_length; cbn [bsize b_nodes b_nc]; lia. }
  eexists. split; [reflexivity|]. split.
  - split; auto. split.
    + constructor; cbn; split; auto.
      * intros i Hi. apply G4; auto. apply (fout i Hi).
      * intros i Hi. apply G3. auto.
      * intros i Hi. apply G3. auto.
    + exists mx. split; auto. constructor; cbn; auto.
      * apply repeat_length.
      * split; [apply repeat_length|]. intros i e Hi _. rewrite nth_repeat. discriminate.
      * split; [apply map_length|]. intros j Hj. rewrite (nth_indep _ [] (block_evec None mx (mkOF 0 EvNone None None VNo))) by (rewrite map_length; auto).
        rewrite (map_nth (block_evec None mx)). apply (Hev _ _ (proj1 (fout j Hj))).
      * split; [lia|]. intros i Hi. specialize (G2 i ltac:(lia)). rewrite combine_nth' in G2 by auto. cbn [fst] in G2. fold (fi i) in G2. destruct G2 as (Ga & Gb). split; auto.
        intros Ew. split; auto. rewrite Ga. destruct (aw_weight _ _ (fin i Hi) Ew) as (-> & _). lia.
      * split; [lia|]. intros i Hi. specialize (G5 i ltac:(lia)). rewrite combine_nth' in G5 by auto. apply G5.
      * split; [apply map_length|]. intros j Hj. rewrite (nth_indep _ [] (block_evec None mx (mkOF 0 EvNone None None VNo))) by (rewrite map_length; auto).
        rewrite (map_nth (block_evec None mx)). apply (Hev _ _ (fin j Hj)).
      * rewrite repeat_length, X2. reflexivity.
  - cbn. intros i Hi. apply nth_repeat.
Qed.

(** ** complete E-vectors of the passive inputs (as OpProofs.v, with restrictions of both kinds) *)
Variable vm : vmem R.
Variable s : stat.
Hypothesis Hs : astat_ok s.
Hypothesis Hvec : forall i, i < nin -> f_mode (fi i) <> EvWeight -> is_active (fi i) = false -> at_has R D vm (fi i) None false.
Lemma a_fst_in : forall i, fst_in i <= i /\ sameE (o_in o) (fst_in i) i = true.
Proof. intros i. destruct (first_spec (sameE (o_in o)) (sameE_refl (o_in o)) i) as (A & B & _). auto. Qed.
Lemma a_fst_fst : forall i, fst_in (fst_in i) = fst_in i.
Proof.
  intros i. destruct (a_fst_in i) as (_ & B).
  apply (@first_eq _ (sameE_refl (o_in o)) (sameE_sym (o_in o)) (@sameE_trans _ (o_in o))). auto.
Qed.
Definition a_ein_ok (i : nat) (ein : list (option (list R))) : Prop :=
  exists e, nth (fst_in i) ein None = Some e /\ full R chk NE (pdf (fi i)) (contents vm (fi i) None) e.
Lemma full_same : forall i j e, sameE (o_in o) i j = true -> full R chk NE (pdf (fi i)) (contents vm (fi i) None) e -> full R chk NE (pdf (fi j)) (contents vm (fi j) None) e.
Proof.
  intros i j e H Hr. destruct (same_pd _ _ H) as (E1 & _ & E2). unfold contents, target in *. rewrite <- E1, <- E2. exact Hr.
Qed.
Lemma act_same : forall i j, sameE (o_in o) i j = true -> is_active (fi i) = is_active (fi j).
Proof. intros i j H. destruct (same_pd _ _ H) as (_ & _ & Hv). unfold is_active. rewrite Hv. reflexivity. Qed.

Lemma a_setup_inputs_ok : forall d, length (d_states d) = nin -> a_ein_len (d_ein d) -> a_cache_ok d vm ->
  exists d1, setup_inputs o s vm None true d = Ok d1 /\ length (d_states d1) = nin /\ a_ein_len (d_ein d1) /\ a_cache_ok d1 vm /\
    d_eout d1 = d_eout d /\ d_qin d1 = d_qin d /\ d_qout d1 = d_qout d /\
    forall i, i < nin -> f_mode (fi i) <> EvWeight -> is_active (fi i) = false -> a_ein_ok i (d_ein d1).
Proof.
  intros d Hd1 Hd2 Hc. unfold setup_inputs.
  set (P := fun (i : nat) (st : list Z * list (option (list R))) => let '(sts, ein) := st in
    length sts = nin /\ length ein = nin /\
    (forall j e, j < nin -> f_mode (fi j) <> EvWeight -> nth j ein None = Some e -> length e = psz chk (pdf (fi j))) /\
    (forall j, i <= j -> nth j sts 0%Z = nth j (d_states d) 0%Z /\ nth j ein None = nth j (d_ein d) None) /\
    (forall j, j < i -> f_mode (fi j) <> EvWeight -> is_active (fi j) = false -> a_ein_ok j ein /\ forall v, target (fi j) None = Some v -> nth j sts 0%Z = vv_state (vm v))).
  destruct (@rfold_inv0 _ P (setup_input o s vm None true) nin (d_states d, d_ein d)) as ((sts, ein) & E & H).
  - unfold P. split; [auto|]. split; [apply Hd2|]. split; [apply Hd2|]. split; auto. intros; lia.
  - intros i (sts, ein) Hi (L1 & L2 & G1 & G2 & G3). unfold setup_input. rewrite og_fld by auto. cbn [rbind].
    cbn [andb]. destruct (is_active (fi i)) eqn:Ek.
    + eexists. split; [reflexivity|]. split; auto. split; auto. split; auto. split.
      * intros j Hj. apply G2. lia.
      * intros j Hj Hm Hsk. destruct (Nat.eq_dec j i) as [->|]; [congruence|]. apply G3; auto; lia.
    + destruct (amode _ _ (fin i Hi)) as [Ew|Hm].
      * rewrite Ew. eexists. split; [reflexivity|]. split; auto. split; auto. split; auto. split.
        -- intros j Hj. apply G2. lia.
        -- intros j Hj Hm Hsk. destruct (Nat.eq_dec j i) as [->|]; [congruence|]. apply G3; auto; lia.
      * assert (Hn : f_mode (fi i) <> EvWeight). { intros E. rewrite E in Hm. destruct Hm; discriminate. }
        rewrite (notweight _ _ Hn).
        destruct (@Hvec i Hi Hn Ek) as (v & u & Ht & Hu & Hlen). cbn [andb] in Hlen. rewrite Ht.
        destruct (ao_slot _ Hs) as (Lsl & Gsl). destruct (ao_skin _ Hs) as (Lsk & Gsk).
        destruct (a_fst_in i) as (F1 & F2).
        rewrite (og_nth sts 0%Z), (og_nth (s_skin s) false), (og_nth (s_slot s) 0) by lia. cbn [rbind].
        rewrite Gsl, Gsk by auto. rewrite (og_nth ein None) by lia. cbn [rbind].
        assert (Hcont : contents vm (fi i) None = u). { unfold contents. rewrite Ht, Hu. reflexivity. }
        destruct (aw_rwf _ _ (fin i Hi) Hn) as (Hrd & _).
        assert (Hrest : exists e ein', (if (negb (vv_state (vm v) =? nth i sts 0)%Z || oeq None v) && negb (fst_in i <? i) then
                ro <~ og (s_rin s) i ;;
                match ro, vv_data (vm v) with
                | Some r, Some u =>
                    e <~ be (rstr_apply Signed r NoTranspose u (match nth (fst_in i) ein None with Some e => e | None => repeat 0%R (r_esize r) end)) ;;
                    Ok (upd ein (fst_in i) (Some e))
                | Some r, None => Err ERR_BACKEND
                | None, _ => UB
                end
              else Ok ein) = Ok ein' /\ nth (fst_in i) ein' None = Some e /\ full R chk NE (pdf (fi i)) u e /\ length ein' = nin /\
              (forall j, j <> i -> nth j ein' None = nth j ein None) /\ (fst_in i < i -> ein' = ein)).
        { destruct (Nat.ltb_spec (fst_in i) i) as [Hlt|Hge].
          - rewrite andb_false_r.
            destruct (G3 (fst_in i) Hlt) as ((e & Ee & Re) & _).
            { intros E. apply Hn. apply (@same_w (fst_in i) i); auto. lia. }
            { rewrite (@act_same (fst_in i) i); auto. }
            rewrite a_fst_fst in Ee. exists e, ein. split; auto. split; auto. split; [|split; auto].
            rewrite <- Hcont. apply (@full_same (fst_in i) i); auto.
          - assert (Ef : fst_in i = i) by lia. rewrite Ef. cbn [negb]. rewrite andb_true_r.
            destruct (negb (vv_state (vm v) =? nth i sts 0)%Z || oeq None v) eqn:Ec.
            + destruct (ao_rin _ Hs) as (Lr & Gr). destruct (Gr i Hi Hn) as (r & Er & Ecr).
              rewrite (og_nth (s_rin s) None) by lia. cbn [rbind]. rewrite Er, Hu.
              match goal with |- context [rstr_apply _ _ _ _ ?e0] => destruct (@full_ok R chk NE (pdf (fi i)) r u e0) as (e & Ee & Re); auto end.
              { destruct (nth i ein None) as [e0|] eqn:E0; [apply (G1 i); auto|]. rewrite repeat_length. unfold psz. rewrite Ecr. reflexivity. }
              rewrite Ee. cbn [rbind]. exists e. eexists. split; [reflexivity|].
              rewrite nth_upd' by lia. rewrite Nat.eqb_refl. split; auto. split; auto. rewrite upd_length. split; auto. split; [|lia].
              intros j Hj. rewrite nth_upd' by lia. apply Nat.eqb_neq in Hj. rewrite Hj. reflexivity.
            + apply orb_false_iff in Ec. destruct Ec as (Ec1 & Ec2).
              apply negb_false_iff, Z.eqb_eq in Ec1.
              assert (Hp : f_vec (fi i) = VPas v).
              { unfold target in Ht. destruct (f_vec (fi i)) as [| |w]; [discriminate|discriminate|congruence]. }
              destruct (Hc i v Hi Hn Ef Hp) as (_ & Hcc). destruct (G2 i (Nat.le_refl i)) as (G2a & G2b).
              destruct (Hcc ltac:(congruence) u Hu) as (e & Ee & Re).
              exists e, ein. split; auto. split; [congruence|]. split; auto. }
        destruct Hrest as (e & ein' & -> & Ee & Re & L2' & Gne & Glt). cbn [rbind].
        rewrite (og_nth ein' None) by lia. cbn [rbind]. rewrite Ee.
        eexists. split; [reflexivity|]. split; [rewrite upd_length; auto|]. split; auto. split; [|split].
        -- intros j e' Hj Hmj Hej. destruct (Nat.eq_dec j i) as [->|Hji].
           ++ destruct (Nat.eq_dec (fst_in i) i) as [Ef|Ef].
              ** rewrite Ef, Hej in Ee. inversion Ee; subst. apply Re.
              ** rewrite Glt in Hej by lia. apply (G1 i); auto.
           ++ rewrite Gne in Hej by auto. apply (G1 j); auto.
        -- intros j Hj. destruct (G2 j) as (Ga & Gb); [lia|]. rewrite nth_upd' by lia.
           destruct (Nat.eqb_spec j i); [lia|]. rewrite Gne by lia. auto.
        -- intros j Hj Hmj Hskj. destruct (Nat.eq_dec j i) as [->|Hji].
           ++ split.
              ** exists e. split; auto. rewrite Hcont. auto.
              ** intros v' Hv'. rewrite nth_upd', Nat.eqb_refl by lia. congruence.
           ++ destruct (G3 j ltac:(lia) Hmj Hskj) as ((e' & Ee' & Re') & Gs). split.
              ** exists e'. split; auto. rewrite Gne; auto. pose proof (a_fst_in j). lia.
              ** intros v' Hv'. rewrite nth_upd' by lia. destruct (Nat.eqb_spec j i); [lia|]. auto.
  - rewrite E. cbn [rbind]. eexists. split; [reflexivity|]. cbn. destruct H as (L1 & L2 & G1 & G2 & G3).
    split; [auto|]. split; [split; auto|]. split; [|split; [auto|split; [auto|split; [auto|]]]].
    + intros i v Hi Hm Hf Hv. cbn.
      destruct (is_active (fi i)) eqn:Ek. { unfold is_active in Ek. rewrite Hv in Ek. discriminate. }
      destruct (G3 i Hi Hm Ek) as ((e & Ee & Re) & Gs). rewrite Hf in Ee.
      assert (Ht : target (fi i) None = Some v) by (unfold target; rewrite Hv; auto).
      rewrite (Gs v Ht). split; [lia|]. intros _ u Hu. exists e. split; auto.
      unfold contents in Re. rewrite Ht, Hu in Re. auto.
    + intros i Hi Hm Hk. apply G3; auto.
Qed.
End Setup.
