(** * Operators at points: one element, the loop over the elements, one application *)
From Coq Require Import List ZArith Lia Bool Arith.
From Verif Require Import Prelude RstrModel RstrSpec RstrProofs RstrMain RstrPoints RstrProps Adds TensorModel TensorMain BasisModel BasisProofs BasisProps Digits PointsModel PointsProofs PointsProps OpModel OpSpec OpLists OpProofs OpMain OptModel OptProofs AtpModel AtpSpec AtpProofs.
Import ListNotations.
Local Open Scope nat_scope.

Section Main.
Variable R : Rng.
Add Ring Rr : (r_th R).
Variable k : kernel R.
Variable Jmin : nat.
Variable junk : nat -> nat -> R.
Variable chk : bool.
Variable D : nat -> pdesc.
Variable CB : nat -> tbasis R.
Variable a : atop R.
Notation o := (a_op a).
Hypothesis Hwf : atp_wf R D CB a k Jmin chk.
Notation nin := (length (o_in o)).
Notation nout := (length (o_out o)).
Notation fi := (fld (o_in o)).
Notation fo := (fld (o_out o)).
Notation fst_in := (first (sameE (o_in o))).
Notation fst_out := (first (sameE (o_out o))).
Notation lst := (last (sameE (o_out o)) nout).
Notation NE := (o_ne o).
Notation pdf := (pd R D).
Notation dimX := (p_nc (D (a_rpts a))).
Notation npt := (pts R D a).
Notation bi := (fun i => nth i (a_bin a) 0).
Notation bo := (fun i => nth i (a_bout a) 0).
Variable mx : nat.
Hypothesis Hmx : forall e, e < NE -> npt e <= mx.
Variable s : stat.
Hypothesis Hs : astat_ok R chk D a s.
Variable rx : rstr.
Hypothesis Hrx : pcreate chk (D (a_rpts a)) = Ok rx.
Variable vm : vmem R.
Variables inv outv : option nat.
Hypothesis Hvec : at_vec_ok R D a vm inv outv.
Notation xc := (xcont R a vm).

(** ** evaluation at the points of one element *)
Definition xe_ok (e : nat) (xe : list R) : Prop := length xe = dimX * mx /\
  forall d p, d < dimX -> p < npt e -> vf xe (d * npt e + p) = vf xc (p_idx (p_of (D (a_rpts a))) e p * dimX + d).
Lemma phi_eq : forall e xe f b i p n, xe_ok e xe -> t_dim (tb R f) = dimX -> p < npt e ->
  expansion R (f_mode f) (t_dim (tb R f)) (t_P (tb R f)) (t_Q (tb R f)) (npt e) (t_interp (CB b)) xe i p n = phi R CB f b (point R D a xc e p) i n.
Proof.
  intros e xe f b i p n (_ & Hx) Hd Hp. unfold phi, expansion. apply prodn_ext. intros d Hdd. apply sumn_ext. intros q Hq. f_equal.
  rewrite Hd in Hdd. rewrite Hx by auto. unfold point. rewrite Nat.mul_1_r, Nat.add_0_r, vf_map_seq by auto. reflexivity.
Qed.
Lemma aap_check : forall f b np tm (x u v : list R), fb_ok R Jmin D CB a f b -> isb (f_mode f) = true -> t_dim (tb R f) * np <= length x ->
  match tm with NoTranspose => t_nc (tb R f) * t_P (tb R f) ^ t_dim (tb R f) <= length u | Transpose => t_nc (tb R f) * t_P (tb R f) ^ t_dim (tb R f) <= length v end ->
  at_points_check (BT (tb R f)) [np] tm (f_mode f) (length x) (length u) (length v) = Ok tt.
Proof.
  intros f b np tm x u v B Hm Hx Hl. unfold at_points_check. cbn [length fold_right b_nodes b_nc b_dim]. rewrite Nat.add_0_r.
  destruct (Nat.leb_spec (np * t_dim (tb R f)) (length x)); [|lia]. cbn [orb negb].
  assert (Hle : match tm with NoTranspose => 1 * t_P (tb R f) ^ t_dim (tb R f) * t_nc (tb R f) <=? length u | Transpose => 1 * t_P (tb R f) ^ t_dim (tb R f) * t_nc (tb R f) <=? length v end = true).
  { destruct tm; apply Nat.leb_le; lia. }
  destruct (f_mode f); try discriminate; destruct tm; cbv zeta; rewrite Hle, orb_true_r; reflexivity.
Qed.
Lemma mode_iff : forall m, isb m = true -> m = EvInterp \/ m = EvGrad.
Proof. intros []; auto; discriminate. Qed.
Lemma in_basis : forall f b e xe u vc q0 (g : nat -> nat -> R), fb_ok R Jmin D CB a f b -> isb (f_mode f) = true -> e < NE -> xe_ok e xe ->
  t_nc (tb R f) * t_P (tb R f) ^ t_dim (tb R f) <= length u -> length vc = t_nc (CB b) * t_Q (CB b) ^ t_dim (CB b) -> length q0 = mx * f_size f ->
  (forall c n, c < t_nc (tb R f) -> n < t_P (tb R f) ^ t_dim (tb R f) -> vf u (c * t_P (tb R f) ^ t_dim (tb R f) + n) = g c n) ->
  exists vc' q, apply_at_points k junk (BT (tb R f)) (CB b) false [npt e] NoTranspose (f_mode f) xe u vc q0 = Ok (vc', q) /\ length vc' = length vc /\ length q = length q0 /\
    forall c p, c < f_size f -> p < npt e -> vf q (c * npt e + p) =
      sumn (t_P (tb R f) ^ t_dim (tb R f)) (fun n => phi R CB f b (point R D a xc e p) (c / t_nc (tb R f)) n * g (c mod t_nc (tb R f)) n)%R.
Proof.
  intros f b e xe u vc q0 g B Hm He Hx Hu Hvc Hq0 Hg. unfold apply_at_points. cbn [andb].
  pose proof (fb_dim _ _ _ _ _ _ _ B) as Bd. pose proof (Hmx e He) as Hme.
  assert (Lx : t_dim (tb R f) * npt e <= length xe). { destruct Hx as (-> & _). rewrite Bd. nia. }
  rewrite (aap_check f b (npt e) NoTranspose xe u q0 B Hm Lx Hu).
  destruct (fb_ch _ _ _ _ _ _ _ B) as (C1 & C2 & C3 & C4). rewrite C1, C2, C4 in Hvc.
  destruct (@C43_forward R k Jmin junk (tb R f) (CB b) (f_mode f) (npt e) (aw_k _ _ _ _ _ _ _ Hwf) (aw_kp _ _ _ _ _ _ _ Hwf) (fb_wf _ _ _ _ _ _ _ B) (fb_ch _ _ _ _ _ _ _ B) (fb_Q _ _ _ _ _ _ _ B) (mode_iff _ Hm) xe u vc q0 Lx Hu)
    as (vc' & q & E & L1 & L2 & G & _). { lia. } { rewrite Hq0, (fb_sz _ _ _ _ _ _ _ B). rewrite Nat.mul_comm. apply Nat.mul_le_mono_r. auto. }
  exists vc', q. split; auto. split; auto. split; auto. intros c p Hc Hp.
  rewrite (fb_sz _ _ _ _ _ _ _ B) in Hc. apply dec_mul in Hc. destruct Hc as (i & c' & Hi & Hc' & ->).
  rewrite G by auto. rewrite Nat.div_add_l, (Nat.div_small c'), Nat.add_0_r by lia. rewrite (Nat.add_comm _ c'), Nat.mod_add, (Nat.mod_small c') by lia.
  apply sumn_ext. intros n Hn. rewrite Hg by auto. rewrite phi_eq by auto. reflexivity.
Qed.

(** ** the inputs of one element *)
Definition qv (i e : nat) (q : list R) : Prop := f_size (fi i) * npt e <= length q /\
  forall c p, c < f_size (fi i) -> p < npt e -> vf q (c * npt e + p) = at_in_val R D CB a (fi i) (bi i) xc (contents vm (fi i) inv) e c p.
Definition ev (i e : nat) (l : list R) : Prop := forall c n, c < p_nc (pdf (fi i)) -> n < p_cnt (pdf (fi i)) e ->
  vf l (c * p_cnt (pdf (fi i)) e + n) = gather R (pdf (fi i)) (contents vm (fi i) inv) e c n.
Fixpoint offp (e : nat) : nat := match e with 0 => 0 | S e => offp e + npt e end.
Lemma pstart_none : forall f b e, at_field_wf R D CB a Jmin chk f b -> f_mode f = EvNone -> e <= NE -> pstart (pdf f) e = offp e * f_size f.
Proof.
  intros f b e Hf En. destruct (aw_none _ _ _ _ _ _ _ _ Hf En) as (H1 & H2 & H3). destruct (pdf f) as [d|n npts nc ls offs]; [discriminate|]. cbn [pstart p_nc p_cnt] in *.
  induction e as [|e IH]; intros He; [reflexivity|]. cbn [offp]. rewrite p_start_S, IH, H3 by lia. rewrite H2. ring.
Qed.
Lemma len_eb : forall i e l, i < nin -> e < NE -> f_mode (fi i) <> EvWeight -> length l = evl R D mx (fi i) -> len_e R (pdf (fi i)) e l.
Proof.
  intros i e l Hi He Hn Hl. unfold len_e. unfold evl in Hl. pose proof (Hmx e He). destruct (amode _ _ _ _ _ _ _ _ (fin _ _ _ _ _ _ _ Hwf i Hi)) as [Ew|[En|Eb]]; [congruence| |].
  - destruct (aw_none _ _ _ _ _ _ _ _ (fin _ _ _ _ _ _ _ Hwf i Hi) En) as (H1 & H2 & H3). rewrite H1, H3 by auto. rewrite En in Hl. rewrite Hl, H2. nia.
  - pose proof (aw_b _ _ _ _ _ _ _ _ (fin _ _ _ _ _ _ _ Hwf i Hi) Eb) as B. rewrite (fb_std _ _ _ _ _ _ _ B). rewrite <- !(fb_P _ _ _ _ _ _ _ B) in *. destruct (f_mode (fi i)); try discriminate; lia.
Qed.
Lemma same_cont : forall (f g : ofield R), same f g = true -> contents vm f inv = contents vm g inv.
Proof. intros f g H. apply same_eq in H. unfold contents, target. destruct H as (-> & _). reflexivity. Qed.
Lemma weightm : forall i, i < nin -> f_mode (fi i) <> EvWeight -> f_mode (fi i) = EvNone \/ isb (f_mode (fi i)) = true.
Proof. intros i Hi Hn. destruct (amode _ _ _ _ _ _ _ _ (fin _ _ _ _ _ _ _ Hwf i Hi)) as [Ew|]; [congruence|auto]. Qed.

Definition in_inv (e i : nat) (st : list (list R) * list (list R) * (nat -> list R)) : Prop := let '(eb, qin, vc) := st in
  a_eb_ok R D a mx eb /\ a_qin_ok R a mx qin /\ vc_ok R CB vc /\
  (forall j, j < i -> is_active (fi j) = true -> f_mode (fi j) <> EvWeight -> ev j e (nth (fst_in j) eb [])) /\
  (forall j, j < i -> qv j e (nth j qin [])).

Lemma cset_ok : forall vc b l, vc_ok R CB vc -> length l = length (vc b) -> vc_ok R CB (cset R vc b l).
Proof. intros vc b l H Hl b'. unfold cset. destruct (Nat.eqb_spec b' b) as [->|]; auto. rewrite Hl. apply H. Qed.

Lemma qin_upd : forall qin i q, a_qin_ok R a mx qin -> i < nin -> f_mode (fi i) <> EvWeight -> (isb (f_mode (fi i)) = true -> length q = mx * f_size (fi i)) -> a_qin_ok R a mx (upd qin i q).
Proof.
  intros qin i q (L & G) Hi Hn Hq. split; [rewrite upd_length; auto|]. intros j Hj. rewrite nth_upd' by lia. destruct (Nat.eqb_spec j i) as [->|]; auto.
  split; auto. congruence.
Qed.
Lemma qv_upd : forall (qin : list (list R)) e i q, length qin = nin -> i < nin -> (forall j, j < i -> qv j e (nth j qin [])) -> qv i e q -> forall j, j < i + 1 -> qv j e (nth j (upd qin i q) []).
Proof.
  intros qin e i q L Hi H Hq j Hj. rewrite nth_upd' by lia. destruct (Nat.eqb_spec j i) as [->|]; auto. apply H. lia.
Qed.

Lemma atp_input_ok : forall vm1 ein xe e i st, e < NE -> i < nin -> xe_ok e xe ->
  (forall v, inv = Some v -> (exists j, j < nin /\ f_vec (fi j) = VAct) -> vm1 v = vm v) -> length ein = nin ->
  (forall i, i < nin -> f_mode (fi i) <> EvWeight -> is_active (fi i) = false -> a_ein_ok R chk D a vm i ein) ->
  in_inv e i st -> exists st', atp_input k junk D CB a s vm1 inv ein xe e (offp e) (npt e) i st = Ok st' /\ in_inv e (i + 1) st'.
Proof.
  intros vm1 ein xe e i ((eb, qin), vc) He Hi Hx Hvm Lein Hein (Heb & Hq & Hvc & Hev & Hqv).
  pose proof (fin _ _ _ _ _ _ _ Hwf i Hi) as Hf. pose proof Heb as (Leb & Geb). pose proof Hq as (Lq & Gq).
  destruct (ao_slot _ _ _ _ _ Hs) as (Lsl & Gsl). destruct (ao_skin _ _ _ _ _ Hs) as (Lsk & Gsk). destruct (ao_rin _ _ _ _ _ Hs) as (Lri & Gri).
  destruct (a_fst_in R a i) as (F1 & F2). destruct (aw_bl _ _ _ _ _ _ _ Hwf) as (Bi & _).
  unfold atp_input. rewrite og_fld by auto. cbn [rbind]. rewrite (og_nth (s_skin s) false), (og_nth (s_slot s) 0) by lia. cbn [rbind].
  rewrite (og_nth (s_rin s) None) by lia. cbn [rbind]. rewrite Gsl, Gsk by auto.
  destruct (amode _ _ _ _ _ _ _ _ Hf) as [Ew|Hm].
  { (* weight *)
    destruct (is_active (fi i) && negb (fst_in i <? i)) eqn:Ea.
    - exfalso. apply andb_true_iff in Ea. destruct Ea as (Ea & _). destruct (aw_weight _ _ _ _ _ _ _ _ Hf Ew) as (_ & _ & Nv & _). apply Nv. unfold is_active in Ea. destruct (f_vec (fi i)); congruence.
    - cbn [rbind]. rewrite Ew. eexists. split; [reflexivity|]. split; auto. split; auto. split; auto. split.
      + intros j Hj Haj Hmj. destruct (Nat.eq_dec j i) as [->|]; [congruence|]. apply Hev; auto. lia.
      + intros j Hj. destruct (Nat.eq_dec j i) as [->|]; [|apply Hqv; lia]. destruct (aw_weight _ _ _ _ _ _ _ _ Hf Ew) as (Es & _). destruct (Gq i Hi) as (_ & Gw). destruct (Gw Ew) as (Lw & Vw).
        pose proof (Hmx e He). split; [rewrite Es; lia|]. intros c p Hc Hp. rewrite Es in Hc. replace c with 0 by lia. cbn [Nat.mul Nat.add]. rewrite Vw by lia. unfold at_in_val. rewrite Ew. reflexivity. }
  assert (Hn : f_mode (fi i) <> EvWeight). { intros E. rewrite E in Hm. destruct Hm; discriminate. }
  destruct (aw_rwf _ _ _ _ _ _ _ _ Hf Hn) as (Hrw & ri & Eri & Edi).
  destruct Hvec as (Hvi & _ & _ & Hvd & _).
  assert (Hrest : exists eb', (if is_active (fi i) && negb (fst_in i <? i) then
           match nth i (s_rin s) None, inv with
           | None, _ => UB
           | Some _, None => Err ERR_BACKEND
           | Some r, Some v =>
             match vv_data (vm1 v) with
             | None => Err ERR_BACKEND
             | Some u => e0 <~ og eb (fst_in i) ;; l <~ be (elem_apply R r e NoTranspose u e0) ;; Ok (upd eb (fst_in i) l)
             end
           end
         else Ok eb) = Ok eb' /\ a_eb_ok R D a mx eb' /\
         (forall j, j < i + 1 -> is_active (fi j) = true -> f_mode (fi j) <> EvWeight -> ev j e (nth (fst_in j) eb' []))).
  { destruct (is_active (fi i)) eqn:Ea; cbn [andb].
    2:{ exists eb. split; auto. split; auto. intros j Hj Haj Hmj. destruct (Nat.eq_dec j i) as [->|]; [congruence|]. apply Hev; auto. lia. }
    destruct (Nat.ltb_spec (fst_in i) i) as [Hlt|Hge]; cbn [negb].
    - exists eb. split; auto. split; auto. intros j Hj Haj Hmj. destruct (Nat.eq_dec j i) as [->|]; [|apply Hev; auto; lia].
      pose proof (Hev (fst_in i) Hlt) as H1. rewrite a_fst_fst in H1. destruct (same_pd R D _ _ F2) as (Ep & _ & _).
      assert (H2 : ev (fst_in i) e (nth (fst_in i) eb [])). { apply H1. rewrite (act_same R D a (fst_in i) i); auto. intros E. apply Hn. apply (same_w R k Jmin chk D CB a Hwf (fst_in i) i); auto. lia. }
      unfold ev in *. rewrite Ep, (same_cont _ _ F2) in H2. exact H2.
    - assert (Ef : fst_in i = i) by lia. rewrite Ef. destruct (Gri i Hi Hn) as (r & Er & Ecr). rewrite Er.
      assert (Ev : f_vec (fi i) = VAct) by (unfold is_active in Ea; destruct (f_vec (fi i)); congruence).
      destruct (Hvi i Hi Hn) as (v & u & Tv & Dv & Lv). rewrite Ea in Lv. cbn [andb] in Lv. assert (Einv : inv = Some v). { unfold target in Tv. rewrite Ev in Tv. auto. }
      rewrite Einv, (Hvm v Einv), Dv by eauto. rewrite (og_nth eb []) by lia. cbn [rbind].
      destruct (elem_nt R chk NE (pdf (fi i)) r e u (nth i eb []) Hrw Ecr He) as (l & El & Ll & Gl).
      { unfold len_in. destruct (is_pts (pdf (fi i))); auto. }
      { apply len_eb; auto. }
      rewrite El. cbn [be rbind]. eexists. split; [reflexivity|]. split.
      + split; [rewrite upd_length; auto|]. intros j Hj. rewrite nth_upd' by lia. destruct (Nat.eqb_spec j i) as [->|]; auto. rewrite Ll. auto.
      + intros j Hj Haj Hmj. rewrite nth_upd' by lia. destruct (Nat.eq_dec j i) as [->|].
        * rewrite Ef, Nat.eqb_refl. unfold ev. intros c n Hc Hnn. rewrite Gl by auto. unfold contents. rewrite Tv, Dv. reflexivity.
        * destruct (a_fst_in R a j) as (J1 & _). destruct (Nat.eqb_spec (fst_in j) i); [lia|]. apply Hev; auto. lia. }
  destruct Hrest as (eb' & -> & Heb' & Hev'). cbn [rbind]. pose proof Heb' as (Leb' & Geb').
  destruct Hm as [En|Eb].
  - (* on points *)
    rewrite En. destruct (aw_none _ _ _ _ _ _ _ _ Hf En) as (Hp & Hsz & Hcnt).
    destruct (is_active (fi i)) eqn:Ea.
    + assert (Ef : fst_in i = i). { destruct (Nat.eq_dec (fst_in i) i); auto. exfalso. destruct (aw_din _ _ _ _ _ _ _ Hwf (fst_in i) i ltac:(lia) F2) as (_ & H).
        apply (H En). unfold is_active in Ea. destruct (f_vec (fi i)); congruence. }
      rewrite (og_nth eb' []) by lia. cbn [rbind]. eexists. split; [reflexivity|]. split; auto.
      split. { apply qin_upd; auto. rewrite En. discriminate. } split; auto. split; auto. apply qv_upd; auto.
      pose proof (Hev' i ltac:(lia) Ea Hn) as Hv. rewrite Ef in Hv. unfold ev in Hv. rewrite Hcnt, <- Hsz in Hv by auto.
      split. { rewrite Geb' by auto. unfold evl. rewrite En. pose proof (Hmx e He). nia. }
      intros c p Hc Hpp. rewrite Hv by auto. unfold at_in_val. rewrite En. reflexivity.
    + destruct (Hein i Hi Hn Ea) as (ed & Ee & (_ & Hb & Hfu)). rewrite (og_nth ein None) by lia. cbn [rbind]. rewrite Ee.
      pose proof (Hb e He) as Hbe. rewrite (pstart_none (fi i) (bi i) e Hf En), Hcnt, <- Hsz in Hbe by (auto; lia).
      destruct (@slice_ok R ed (offp e * f_size (fi i)) (npt e * f_size (fi i))) as (q & Eq & Lqq & Gqq). { lia. }
      rewrite Eq. cbn [rbind]. eexists. split; [reflexivity|]. split; auto.
      split. { apply qin_upd; auto. rewrite En. discriminate. } split; auto. split; auto. apply qv_upd; auto.
      split. { lia. }
      intros c p Hc Hpp. rewrite Gqq by nia. rewrite <- (pstart_none (fi i) (bi i) e Hf En) by lia.
      rewrite Hsz in Hc. specialize (Hfu e c p He Hc). rewrite Hcnt in Hfu by auto. rewrite Hfu by auto. unfold at_in_val. rewrite En.
      unfold is_active in Ea. unfold contents, target. destruct (f_vec (fi i)); auto; discriminate.
  - (* with a basis *)
    pose proof (aw_b _ _ _ _ _ _ _ _ Hf Eb) as B. pose proof (fb_std _ _ _ _ _ _ _ B) as Bs.
    assert (Hu : exists u, (if is_active (fi i) then og eb' (fst_in i)
                else ed <~ og ein (fst_in i) ;;
                     match ed with None => UB | Some ed => slice ed (e * p_esize D (fi i) * b_nc (BT (tb R (fi i)))) (b_nodes (BT (tb R (fi i))) * b_nc (BT (tb R (fi i)))) end) = Ok u /\
       t_nc (tb R (fi i)) * t_P (tb R (fi i)) ^ t_dim (tb R (fi i)) <= length u /\
       forall c n, c < t_nc (tb R (fi i)) -> n < t_P (tb R (fi i)) ^ t_dim (tb R (fi i)) -> vf u (c * t_P (tb R (fi i)) ^ t_dim (tb R (fi i)) + n) = gather R (pdf (fi i)) (contents vm (fi i) inv) e c n).
    { rewrite (fb_P _ _ _ _ _ _ _ B e), (fb_nc _ _ _ _ _ _ _ B). destruct (is_active (fi i)) eqn:Ea.
      - rewrite (og_nth eb' []) by lia. eexists. split; [reflexivity|]. destruct (same_pd R D _ _ F2) as (Ep & _ & _). split.
        + rewrite Geb' by lia. unfold evl. rewrite Ep. rewrite <- (fb_P _ _ _ _ _ _ _ B e), (fb_P _ _ _ _ _ _ _ B 0).
          assert (Hnf : f_mode (fi (fst_in i)) <> EvWeight). { intros E. apply Hn. apply (same_w R k Jmin chk D CB a Hwf (fst_in i) i); auto. lia. }
          destruct (weightm (fst_in i) ltac:(lia) Hnf) as [E0|E0].
          * exfalso. destruct (aw_none _ _ _ _ _ _ _ _ (fin _ _ _ _ _ _ _ Hwf (fst_in i) ltac:(lia)) E0) as (X & _). rewrite Ep in X. congruence.
          * destruct (f_mode (fi (fst_in i))); try discriminate; lia.
        + intros c n Hc Hnn. apply (Hev' i ltac:(lia) Ea Hn); auto.
      - destruct (Hein i Hi Hn Ea) as (ed & Ee & (_ & Hb & Hfu)). rewrite (og_nth ein None) by lia. cbn [rbind]. rewrite Ee.
        specialize (Hb e He). cbn [b_nc b_nodes].
        assert (Est : e * p_esize D (fi i) * t_nc (tb R (fi i)) = pstart (pdf (fi i)) e).
        { unfold p_esize. rewrite Eri. rewrite Edi in *. rewrite (fb_nc _ _ _ _ _ _ _ B), Edi. destruct (D ri); [|discriminate]. cbn [pstart p_nc]. ring. }
        rewrite Est. rewrite (fb_P _ _ _ _ _ _ _ B e), (fb_nc _ _ _ _ _ _ _ B).
        destruct (@slice_ok R ed (pstart (pdf (fi i)) e) (p_cnt (pdf (fi i)) e * p_nc (pdf (fi i)))) as (u & Eu & Lu & Gu). { lia. }
        rewrite Eu. exists u. split; auto. split; [lia|]. intros c n Hc Hnn. rewrite Gu by nia. rewrite Hfu by auto.
        unfold is_active in Ea. unfold contents, target. destruct (f_vec (fi i)); auto; discriminate. }
    destruct Hu as (u & Eu & Lu & Gu).
    destruct (in_basis (fi i) (bi i) e xe u (vc (bi i)) (nth i qin []) _ B Eb He Hx Lu (Hvc (bi i)) (proj1 (Gq i Hi) Eb) Gu) as (vc' & q & E & L1 & L2 & G).
    assert (Eres : (q0 <~ og qin i ;; b <~ og (a_bin a) i ;;
      match f_basis (fi i) with
      | None => UB
      | Some bb =>
          u <~ (if is_active (fi i) then og eb' (fst_in i)
                else ed <~ og ein (fst_in i) ;;
                     match ed with None => UB | Some ed => slice ed (e * p_esize D (fi i) * b_nc bb) (b_nodes bb * b_nc bb) end) ;;
          r <~ be (apply_at_points k junk bb (CB b) false [npt e] NoTranspose (f_mode (fi i)) xe u (vc b) q0) ;;
          Ok (eb', upd qin i (snd r), cset R vc b (fst r))
      end) = Ok (eb', upd qin i q, cset R vc (bi i) vc')).
    { rewrite (og_nth qin []), (og_nth (a_bin a) 0) by lia. cbn [rbind]. rewrite (fb_b _ _ _ _ _ _ _ B), Eu. cbn [rbind]. rewrite E. reflexivity. }
    exists (eb', upd qin i q, cset R vc (bi i) vc'). split. { destruct (f_mode (fi i)); try discriminate; exact Eres. }
    split; auto. split. { apply qin_upd; auto. intros _. rewrite L2. apply (Gq i Hi). auto. } split. { apply cset_ok; auto. } split; auto. apply qv_upd; auto.
    split. { rewrite L2, (proj1 (Gq i Hi) Eb). pose proof (Hmx e He). nia. }
    intros c p Hc Hp. rewrite G by auto. unfold at_in_val. destruct (f_mode (fi i)); try discriminate; reflexivity.
Qed.

(** ** the QFunction *)
Lemma combine_seq : forall (fs : list (ofield R)) (q : list (list R)), length q = length fs -> combine fs q = map (fun i => (fld fs i, nth i q [])) (seq 0 (length fs)).
Proof.
  intros fs q H. apply nth_ext with (d := (mkOF 0 EvNone None None VNo, [])) (d' := (mkOF 0 EvNone None None VNo, [])).
  - rewrite combine_length, map_length, seq_length. lia.
  - intros i Hi. rewrite combine_length in Hi. rewrite combine_nth by auto. rewrite nth_map_seq by lia. reflexivity.
Qed.
Lemma ins_at_eq : forall e p qin, length qin = nin -> (forall i, i < nin -> qv i e (nth i qin [])) -> p < npt e ->
  ins_at o (npt e) qin p = at_ins_val R D CB a vm inv e p.
Proof.
  intros e p qin L H Hp. unfold ins_at, at_ins_val. rewrite combine_seq by auto. rewrite map_map. apply map_ext_in. intros i Hi. apply in_seq in Hi. cbn [fst snd].
  apply map_ext_in. intros c Hc. apply in_seq in Hc. destruct (H i ltac:(lia)) as (_ & G). apply G; auto; lia.
Qed.
Definition Y (j e p c : nat) : R := vf (nth j (at_outs_val R D CB a vm inv e p) []) c.
Lemma atp_call_ok : forall e qin eo qout, o_ident o = false -> e < NE -> length qin = nin -> (forall i, i < nin -> qv i e (nth i qin [])) -> a_eo_ok R D a mx eo -> a_qo_ok R a mx qout ->
  exists eo' qout', atp_call o (npt e) qin (eo, qout) = Ok (eo', qout') /\ a_eo_ok R D a mx eo' /\ a_qo_ok R a mx qout' /\
    forall j c p, j < nout -> c < f_size (fo j) -> p < npt e ->
      (f_mode (fo j) = EvNone -> vf (nth j eo' []) (c * npt e + p) = Y j e p c) /\
      (isb (f_mode (fo j)) = true -> vf (nth j qout' []) (c * npt e + p) = Y j e p c).
Proof.
  intros e qin eo qout Hid He Lq Hv Heo Hqo. unfold atp_call. destruct (aw_vl _ _ _ _ _ _ _ Hwf Hid) as (V1 & V2).
  destruct (Nat.eqb_spec (o_vlen o) 0); [lia|]. rewrite V2 by auto. cbn [Nat.eqb negb].
  assert (Hins : ins_ok o (npt e) qin = true).
  { unfold ins_ok. rewrite Lq, Nat.eqb_refl. cbn [andb]. rewrite combine_seq by auto. apply forallb_forall. intros x Hx. apply in_map_iff in Hx. destruct Hx as (i & <- & Hi). apply in_seq in Hi.
    cbn [fst snd]. apply Nat.leb_le. apply (Hv i). lia. }
  rewrite Hins. cbn [negb]. pose proof (Hmx e He) as Hme.
  assert (Hoa : forall j c p, c < f_size (fo j) -> p < npt e -> vf (out_arr o (npt e) qin j (f_size (fo j))) (c * npt e + p) = Y j e p c).
  { intros j c p Hc Hp. unfold out_arr. rewrite vf_map_seq by nia. rewrite Nat.div_add_l, (Nat.div_small p), Nat.add_0_r by lia.
    rewrite (Nat.add_comm _ p), Nat.mod_add, (Nat.mod_small p) by lia. rewrite ins_at_eq by auto. unfold Y, at_outs_val. rewrite Hid. reflexivity. }
  assert (Loa : forall j, length (out_arr o (npt e) qin j (f_size (fo j))) = f_size (fo j) * npt e). { intros j. unfold out_arr. rewrite map_length, seq_length. reflexivity. }
  destruct (@rfold_inv0 _ (fun m (st : list (list R) * list (list R)) => let '(eo', qout') := st in a_eo_ok R D a mx eo' /\ a_qo_ok R a mx qout' /\
     forall j c p, j < m -> c < f_size (fo j) -> p < npt e ->
      (f_mode (fo j) = EvNone -> vf (nth j eo' []) (c * npt e + p) = Y j e p c) /\
      (isb (f_mode (fo j)) = true -> vf (nth j qout' []) (c * npt e + p) = Y j e p c))
     (fun j st => f <~ og (o_out o) j ;; put_out o (seq 0 nout) 0 j (out_arr o (npt e) qin j (f_size f)) st) nout (eo, qout)) as ((eo', qout') & E & H1 & H2 & H3).
  - split; auto. split; auto. intros; lia.
  - intros j (eo1, qo1) Hj ((Le & Ge) & (Lo & Go) & G). rewrite og_fld by auto. cbn [rbind]. unfold put_out. rewrite og_fld by auto. cbn [rbind].
    destruct (fout _ _ _ _ _ _ _ Hwf j Hj) as (Hf & Hnw). destruct (amode _ _ _ _ _ _ _ _ Hf) as [Ew|[En|Eb]]; [congruence| |].
    + rewrite En. rewrite (og_nth (seq 0 nout) 0) by (rewrite seq_length; auto). rewrite seq_nth by auto. cbn [rbind Nat.add]. rewrite (og_nth eo1 []) by lia. cbn [rbind Nat.mul].
      destruct (@blit_ok R (nth j eo1 []) 0 (out_arr o (npt e) qin j (f_size (fo j)))) as (l & El & Ll & Gl).
      { rewrite Loa, Ge by auto. unfold evl. rewrite En. nia. }
      rewrite El. cbn [rbind]. eexists. split; [reflexivity|]. split; [|split; [split; auto|]].
      * split; [rewrite upd_length; auto|]. intros i Hi. rewrite nth_upd' by lia. destruct (Nat.eqb_spec i j) as [->|]; auto. rewrite Ll. auto.
      * intros i c p Hi Hc Hp. rewrite nth_upd' by lia. destruct (Nat.eqb_spec i j) as [->|].
        -- split; [|rewrite En; discriminate]. intros _. rewrite Gl. cbn [Nat.leb andb Nat.add]. rewrite Loa. destruct (Nat.ltb_spec (c * npt e + p) (f_size (fo j) * npt e)); [|nia].
           rewrite Nat.sub_0_r. apply Hoa; auto.
        -- apply G; auto. lia.
    + destruct (@blit_ok R (nth j qo1 []) 0 (out_arr o (npt e) qin j (f_size (fo j)))) as (l & El & Ll & Gl).
      { rewrite Loa, Go by auto. nia. }
      exists (eo1, upd qo1 j l). split.
      { rewrite (og_nth qo1 []) by lia. cbn [rbind]. rewrite El. destruct (f_mode (fo j)); try discriminate; reflexivity. }
      split; [split; auto|]. split.
      * split; [rewrite upd_length; auto|]. intros i Hi. rewrite nth_upd' by lia. destruct (Nat.eqb_spec i j) as [->|]; auto. rewrite Ll. auto.
      * intros i c p Hi Hc Hp. rewrite nth_upd' by lia. destruct (Nat.eqb_spec i j) as [->|].
        -- split. { intros En. rewrite En in Eb. discriminate. } intros _. rewrite Gl. cbn [Nat.leb andb Nat.add]. rewrite Loa. destruct (Nat.ltb_spec (c * npt e + p) (f_size (fo j) * npt e)); [|nia].
           rewrite Nat.sub_0_r. apply Hoa; auto.
        -- apply G; auto. lia.
  - exists eo', qout'. split; auto.
Qed.

(** ** the transposed basis *)
Notation ov := (at_out_val R D CB a vm inv).
Lemma out_basis_ok : forall j e xe q l vc aa, j < nout -> isb (f_mode (fo j)) = true -> e < NE -> xe_ok e xe -> length q = mx * f_size (fo j) ->
  length l = p_cnt (pdf (fo j)) 0 * p_nc (pdf (fo j)) -> length vc = t_nc (CB (bo j)) * t_Q (CB (bo j)) ^ t_dim (CB (bo j)) -> (aa = true -> t_collo (CB (bo j)) = false) ->
  (forall c p, c < f_size (fo j) -> p < npt e -> vf q (c * npt e + p) = Y j e p c) ->
  exists vc' l', apply_at_points k junk (BT (tb R (fo j))) (CB (bo j)) aa [npt e] Transpose (f_mode (fo j)) xe q vc l = Ok (vc', l') /\ length vc' = length vc /\ length l' = length l /\
    forall c n, c < p_nc (pdf (fo j)) -> n < p_cnt (pdf (fo j)) e -> vf l' (c * p_cnt (pdf (fo j)) e + n) = ((if aa then vf l (c * p_cnt (pdf (fo j)) e + n) else 0) + ov j e c n)%R.
Proof.
  cbv beta. intros j e xe q l vc aa Hj Hm He Hx Lq Ll Lvc Haa Hq. destruct (fout _ _ _ _ _ _ _ Hwf j Hj) as (Hf & _).
  pose proof (aw_b _ _ _ _ _ _ _ _ Hf Hm) as B. unfold apply_at_points. rewrite andb_false_r.
  pose proof (fb_dim _ _ _ _ _ _ _ B) as Bd. pose proof (Hmx e He) as Hme.
  assert (Lx : t_dim (tb R (fo j)) * npt e <= length xe). { destruct Hx as (-> & _). rewrite Bd. nia. }
  assert (Ll' : t_nc (tb R (fo j)) * t_P (tb R (fo j)) ^ t_dim (tb R (fo j)) <= length l). { rewrite Ll, <- (fb_P _ _ _ _ _ _ _ B), (fb_nc _ _ _ _ _ _ _ B). lia. }
  rewrite (aap_check (fo j) (bo j) (npt e) Transpose xe q l B Hm Lx Ll').
  destruct (fb_ch _ _ _ _ _ _ _ B) as (C1 & C2 & C3 & C4). rewrite C1, C2, C4 in Lvc.
  destruct (@C43_backward R k Jmin junk (tb R (fo j)) (CB (bo j)) (f_mode (fo j)) (npt e) (aw_k _ _ _ _ _ _ _ Hwf) (fb_wf _ _ _ _ _ _ _ B) (fb_ch _ _ _ _ _ _ _ B) (fb_Q _ _ _ _ _ _ _ B) (mode_iff _ Hm) aa xe q vc l)
    as (vc' & l' & E & L1 & L2 & G & _); auto. { apply (aw_pts _ _ _ _ _ _ _ Hwf). auto. } { rewrite Lq, (fb_sz _ _ _ _ _ _ _ B). rewrite Nat.mul_comm. apply Nat.mul_le_mono_r. auto. } { lia. }
  exists vc', l'. split; auto. split; auto. split; auto. intros c n Hc Hn. rewrite <- (fb_nc _ _ _ _ _ _ _ B) in Hc. rewrite <- (fb_P _ _ _ _ _ _ _ B) in *.
  rewrite G by auto. f_equal. unfold at_out_val.
  transitivity (sumn (npt e) (fun p => sumn (slots_of (f_mode (fo j)) (t_dim (tb R (fo j)))) (fun i =>
           (phi R CB (fo j) (bo j) (point R D a xc e p) i n * vf (nth j (at_outs_val R D CB a vm inv e p) []) (i * t_nc (tb R (fo j)) + c))%R))).
  - apply sumn_ext. intros p Hp. apply sumn_ext. intros i Hi. rewrite phi_eq by auto. rewrite Hq; auto. rewrite (fb_sz _ _ _ _ _ _ _ B). nia.
  - destruct (f_mode (fo j)); try discriminate; reflexivity.
Qed.

(** ** what was added after [e] elements and [m] fields of the next *)
Notation tg := (tgt o outv).
Notation tch := (touched o outv).
Definition gs (p e c n : nat) : R := sumn nout (fun j => delta (lst j =? p) (ov j e c n)).
Definition ps (i p e c n : nat) : R := sumn i (fun j => delta (lst j =? p) (ov j e c n)).
Definition W (e m v q : nat) : R := sumn m (fun p => delta ((lst p =? p) && tg p v) (scatter1 R (pdf (fo p)) e (gs p) q)).
Definition A (e m v q : nat) : R := (sumn e (fun e' => W e' nout v q) + W e m v q)%R.
Definition T (e m v : nat) : bool := (0 <? e) && tch nout v || tch m v.
Definition binv (e m : nat) (vm1 : vmem R) : Prop := forall v,
  if T e m v then vv_len (vm1 v) = vv_len (vm v) /\ (vv_state (vm v) < vv_state (vm1 v))%Z /\
     exists x x', vv_data (vm v) = Some x /\ vv_data (vm1 v) = Some x' /\ length x' = length x /\ forall q, vf x' q = (vf x q + A e m v q)%R
  else vm1 v = vm v.
Lemma tch_0 : forall v, tch 0 v = false. Proof. reflexivity. Qed.
Lemma W_0 : forall e m v q, tch m v = false -> W e m v q = 0%R.
Proof.
  intros b m v q H. unfold W. apply sumn_zero. intros p Hp. unfold touched in H.
  assert (E : (lst p =? p) && tg p v = false).
  { destruct ((lst p =? p) && tg p v) eqn:E; auto. exfalso.
    assert (existsb (fun p => (lst p =? p) && tg p v) (seq 0 m) = true). { apply existsb_exists. exists p. split; auto. apply in_seq. lia. }
    congruence. }
  rewrite E. reflexivity.
Qed.
Lemma A_0 : forall e m v q, T e m v = false -> A e m v q = 0%R.
Proof.
  intros b m v q H. unfold T in H. apply orb_false_iff in H. destruct H as (H1 & H2). unfold A. rewrite (W_0 _ _ _ _ H2).
  rewrite sumn_zero. ring. intros b' Hb'. apply W_0. destruct (Nat.ltb_spec 0 b); [|lia]. exact H1.
Qed.
Lemma binv_next : forall e vm1, binv e nout vm1 -> binv (e + 1) 0 vm1.
Proof.
  intros b vm1 H v. specialize (H v). unfold T in *. rewrite tch_0, orb_false_r. replace (0 <? b + 1) with true by (symmetry; apply Nat.ltb_lt; lia). cbn [andb].
  assert (E : (0 <? b) && tch nout v || tch nout v = tch nout v) by (destruct (0 <? b), (tch nout v); auto). rewrite E in H. destruct (tch nout v); auto.
  destruct H as (A1 & A2 & x & x' & C1 & C2 & C3 & C4). split; auto. split; auto. exists x, x'. repeat split; auto. intros q. rewrite C4.
  unfold A. rewrite Nat.add_1_r, sumn_S. replace (W (S b) 0 v q) with (0%R : R) by (symmetry; apply W_0; auto). ring.
Qed.
(** vectors that are no output keep their contents *)
Lemma binv_keep : forall e m vm1 v, binv e m vm1 -> m <= nout -> (forall j, j < nout -> target (fo j) outv <> Some v) -> vm1 v = vm v.
Proof.
  intros b m vm1 v H Hm Hv. specialize (H v).
  assert (Hno : forall m', m' <= nout -> tch m' v = false).
  { intros m' Hm'. unfold touched. destruct (existsb _ _) eqn:E; auto. exfalso. apply existsb_exists in E. destruct E as (p & Hp & E). apply in_seq in Hp.
    apply andb_true_iff in E. destruct E as (_ & E). unfold tgt in E. apply (@oeq_eq (target (fo p) outv) v) in E. apply (Hv p); auto. lia. }
  unfold T in H. rewrite !Hno, andb_false_r in H by lia. exact H.
Qed.
Lemma binv_skip : forall e i vm1, lst i <> i -> binv e i vm1 -> binv e (i + 1) vm1.
Proof.
  intros b i vm1 Hn H v. specialize (H v). unfold T in *. rewrite touched_S. apply Nat.eqb_neq in Hn. rewrite Hn. cbn [andb]. rewrite orb_false_r.
  destruct ((0 <? b) && tch nout v || tch i v); auto. destruct H as (B1 & B2 & x1 & x2 & C1 & C2 & C3 & C4).
  split; auto. split; auto. exists x1, x2. repeat split; auto. intros q. rewrite C4. unfold A. f_equal. f_equal. unfold W. rewrite Nat.add_1_r, sumn_S, Hn. cbn [andb delta]. ring.
Qed.
Lemma restrict_ok : forall e p vm1 l, e < NE -> p < nout -> lst p = p -> binv e p vm1 -> len_e R (pdf (fo p)) e l ->
  (forall c n, c < p_nc (pdf (fo p)) -> n < p_cnt (pdf (fo p)) e -> vf l (c * p_cnt (pdf (fo p)) e + n) = gs p e c n) ->
  exists vm2, atp_restrict (nth p (s_rout s) None) e l (target (fo p) outv) vm1 = Ok vm2 /\ binv e (p + 1) vm2.
Proof.
  intros b p vm1 e Hb Hp Elp H Le He. destruct (ao_rout _ _ _ _ _ Hs) as (L2 & G2). destruct (G2 p Hp) as (r & Er & Ecr).
  destruct Hvec as (_ & Ho & _). destruct (Ho p Hp) as (v & x & Et & Ex & Lx). cbn [andb] in Lx.
  unfold atp_restrict. rewrite Er, Et. cbv zeta.
  assert (Hcur : exists x', vv_data (vm1 v) = Some x' /\ vv_len (vm1 v) = vv_len (vm v) /\ (vv_state (vm v) <= vv_state (vm1 v))%Z /\ length x' = length x /\ forall q, vf x' q = (vf x q + A b p v q)%R).
  { specialize (H v). destruct (T b p v) eqn:ET.
    - destruct H as (B1 & B2 & x1 & x' & C1 & C2 & C3 & C4). rewrite Ex in C1. inversion C1; subst x1. exists x'. repeat split; auto. lia.
    - exists x. rewrite H. repeat split; auto. lia. intros q. rewrite A_0 by auto. ring. }
  destruct Hcur as (x' & Ex' & El' & Est & Lxx & Gx'). rewrite Ex'.
  destruct (fout _ _ _ _ _ _ _ Hwf p Hp) as (Hf & Hnw). destruct (aw_rwf _ _ _ _ _ _ _ _ Hf Hnw) as (Hrw & _).
  destruct (elem_t R chk NE (pdf (fo p)) r b e x' (gs p) Hrw Ecr Hb) as (l' & El & Ll & Gl); auto.
  { unfold len_in. rewrite Lxx. destruct (is_pts (pdf (fo p))); auto. }
  rewrite El. cbn [be rbind]. eexists. split; [reflexivity|]. intros v'.
  assert (HT : T b (p + 1) v' = T b p v' || tg p v').
  { unfold T. rewrite touched_S, Elp, Nat.eqb_refl. cbn [andb]. rewrite orb_assoc. reflexivity. }
  assert (HA : forall q, A b (p + 1) v' q = (A b p v' q + delta (tg p v') (scatter1 R (pdf (fo p)) b (gs p) q))%R).
  { intros q. unfold A. unfold W at 2 4. rewrite Nat.add_1_r, sumn_S, Elp, Nat.eqb_refl. cbn [andb]. ring. }
  rewrite HT. unfold tgt in HA |- * at 1. rewrite Et in HA |- *. cbn [oeq] in HA |- *. unfold vset. rewrite (Nat.eqb_sym v' v). destruct (Nat.eqb_spec v v') as [<-|Hn].
  - rewrite orb_true_r. cbn [vv_len vv_state vv_data]. split; auto. split; [lia|]. exists x, l'. repeat split; auto. lia.
    intros q. rewrite Gl, Gx', HA. cbn [delta]. ring.
  - rewrite orb_false_r. specialize (H v'). destruct (T b p v'); auto. destruct H as (B1 & B2 & x1 & x2 & C1 & C2 & C3 & C4).
    split; auto. split; auto. exists x1, x2. repeat split; auto. intros q. rewrite C4, HA. cbn [delta]. ring.
Qed.
Lemma out_same : forall i j, sameE (o_out o) i j = true -> pdf (fo i) = pdf (fo j).
Proof. intros i j H. apply (same_pd R D _ _ H). Qed.
Lemma A_added : forall v q, A NE 0 v q = at_added R D CB a vm inv outv v q.
Proof.
  intros v q. unfold A. rewrite (W_0 NE 0 v q eq_refl). unfold W. rewrite sumn_swap.
  transitivity (sumn nout (fun p => sumn nout (fun j => delta ((lst p =? p) && tg p v) (delta (lst j =? p) (scatter R (pdf (fo p)) (ov j) q))))).
  - transitivity (sumn nout (fun p => delta ((lst p =? p) && tg p v) (scatter R (pdf (fo p)) (gs p) q))).
    + match goal with |- (?x + 0)%R = _ => transitivity x; [ring|] end. apply sumn_ext. intros p Hp. destruct (fout _ _ _ _ _ _ _ Hwf p Hp) as (Hf & Hnw). destruct (aw_rwf _ _ _ _ _ _ _ _ Hf Hnw) as (Hrw & _).
      destruct ((lst p =? p) && tg p v); cbn [delta]. { rewrite (scatter1_sum R chk NE) by auto. reflexivity. } { apply sumn_zero. auto. }
    + apply sumn_ext. intros p Hp. unfold gs. rewrite scatter_sumn.
      destruct ((lst p =? p) && tg p v); cbn [delta].
      * apply sumn_ext. intros j Hj. apply scatter_delta.
      * symmetry. apply sumn_zero. auto.
  - unfold at_added. rewrite sumn_swap. apply sumn_ext. intros j Hj. fold (tg j v).
    rewrite sumn_ext with (g := fun p => delta (p =? lst j) (delta (tg j v) (scatter R (pdf (fo j)) (ov j) q))).
    + rewrite sumn_delta. destruct (@lst_spec _ o j Hj). destruct (Nat.ltb_spec (lst j) nout); [|lia]. reflexivity.
    + intros p Hp. rewrite (Nat.eqb_sym p). destruct (Nat.eqb_spec (lst j) p) as [E|E]; cbn [delta].
      * rewrite <- E. rewrite lst_lst, Nat.eqb_refl by auto. rewrite (tgt_lst (fun _ => mkU 0 0 0 0%Z 0 (UStandard [])) o outv) by auto. cbn [andb].
        destruct (@lst_spec _ o j Hj) as (_ & Hsm). rewrite (out_same _ _ Hsm). reflexivity.
      * destruct ((lst p =? p) && tg p v); reflexivity.
Qed.
Lemma binv_adds : forall vm1, binv NE 0 vm1 -> at_adds R D CB a vm inv outv vm1.
Proof.
  intros vm1 H v. specialize (H v). unfold T in H. rewrite tch_0, orb_false_r in H.
  assert (Hp : 0 <? NE = true). { apply Nat.ltb_lt. apply (aw_ne _ _ _ _ _ _ _ Hwf). }
  rewrite Hp in H. cbn [andb] in H. rewrite touched_all in H by exact (fun _ => mkU 0 0 0 0%Z 0 (UStandard [])). destruct (existsb _ _); auto.
  destruct H as (A1 & A2 & x & x' & C1 & C2 & C3 & C4). split; auto. split; auto. exists x, x'. repeat split; auto.
  intros q. rewrite C4, A_added. reflexivity.
Qed.

(** ** outputs of one element *)
Lemma len_eo : forall j e l, j < nout -> e < NE -> length l = evl R D mx (fo j) -> len_e R (pdf (fo j)) e l.
Proof.
  intros i e l Hi He Hl. destruct (fout _ _ _ _ _ _ _ Hwf i Hi) as (Hf & Hn). unfold len_e. unfold evl in Hl. pose proof (Hmx e He). destruct (amode _ _ _ _ _ _ _ _ Hf) as [Ew|[En|Eb]]; [congruence| |].
  - destruct (aw_none _ _ _ _ _ _ _ _ Hf En) as (H1 & H2 & H3). rewrite H1, H3 by auto. rewrite En in Hl. rewrite Hl, H2. nia.
  - pose proof (aw_b _ _ _ _ _ _ _ _ Hf Eb) as B. rewrite (fb_std _ _ _ _ _ _ _ B). rewrite <- !(fb_P _ _ _ _ _ _ _ B) in *. destruct (f_mode (fo i)); try discriminate; lia.
Qed.
Lemma kind_out : forall j, j < nout -> (f_mode (fo j) = EvNone /\ is_pts (pdf (fo j)) = true) \/ (isb (f_mode (fo j)) = true /\ is_pts (pdf (fo j)) = false).
Proof.
  intros j Hj. destruct (fout _ _ _ _ _ _ _ Hwf j Hj) as (Hf & Hn). destruct (amode _ _ _ _ _ _ _ _ Hf) as [Ew|[En|Eb]]; [congruence| |].
  - left. split; auto. apply (aw_none _ _ _ _ _ _ _ _ Hf En).
  - right. split; auto. apply (fb_std _ _ _ _ _ _ _ (aw_b _ _ _ _ _ _ _ _ Hf Eb)).
Qed.
Lemma same_kind : forall i j, i < nout -> j < nout -> sameE (o_out o) i j = true -> isb (f_mode (fo i)) = isb (f_mode (fo j)).
Proof.
  intros i j Hi Hj H. apply out_same in H. destruct (kind_out i Hi) as [(A1 & B1)|(A1 & B1)], (kind_out j Hj) as [(A2 & B2)|(A2 & B2)]; try congruence.
Qed.
Lemma none_alone : forall i j, i < nout -> j < nout -> f_mode (fo i) = EvNone -> sameE (o_out o) i j = true -> i = j.
Proof.
  intros i j Hi Hj En H. destruct (Nat.eq_dec i j); auto. exfalso. pose proof (same_kind i j Hi Hj H) as Hk. rewrite En in Hk.
  destruct (kind_out j Hj) as [(A2 & _)|(A2 & _)]; [|rewrite A2 in Hk; discriminate].
  assert (i < j \/ j < i) as [Hl|Hl] by lia.
  - apply (aw_dout _ _ _ _ _ _ _ Hwf i j); auto.
  - rewrite sameE_sym in H. apply (aw_dout _ _ _ _ _ _ _ Hwf j i); auto.
Qed.
Lemma ps_gs : forall p e c n, p < nout -> lst p = p -> ps (p + 1) p e c n = gs p e c n.
Proof.
  intros p e c n Hp Hl. unfold ps, gs. symmetry. assert (En : nout = (p + 1) + (nout - (p + 1))) by lia. rewrite En at 1. rewrite sumn_app.
  match goal with |- (_ + ?z)%R = _ => replace z with (0%R : R) end; [ring|]. symmetry. apply sumn_zero. intros j Hj.
  destruct (@lst_spec _ o (p + 1 + j) ltac:(lia)) as (H & _). destruct (Nat.eqb_spec (lst (p + 1 + j)) p); [lia|]. reflexivity.
Qed.
Lemma gs_none : forall i e c n, i < nout -> f_mode (fo i) = EvNone -> gs i e c n = ov i e c n.
Proof.
  intros i e c n Hi En. unfold gs. rewrite sumn_ext with (g := fun j => delta (j =? i) (ov i e c n)).
  - rewrite sumn_delta. destruct (Nat.ltb_spec i nout); [reflexivity|lia].
  - intros j Hj. destruct (Nat.eqb_spec j i) as [->|Hn].
    + destruct (@lst_spec _ o i Hi) as (H1 & H2). rewrite sameE_sym in H2. rewrite <- (none_alone i (lst i)) by (auto; lia). rewrite Nat.eqb_refl. reflexivity.
    + destruct (Nat.eqb_spec (lst j) i) as [E|]; [|reflexivity]. exfalso. apply Hn. symmetry. apply none_alone; auto. rewrite <- E. apply (@lst_spec _ o j Hj).
Qed.
Lemma ps_other : forall i p e c n, lst i <> p -> ps (i + 1) p e c n = ps i p e c n.
Proof. intros i p e c n H. unfold ps. rewrite Nat.add_1_r, sumn_S. apply Nat.eqb_neq in H. rewrite H. cbn [delta]. ring. Qed.
Lemma ps_self : forall i e c n, ps (i + 1) (lst i) e c n = (ps i (lst i) e c n + ov i e c n)%R.
Proof. intros i e c n. unfold ps. rewrite Nat.add_1_r, sumn_S, Nat.eqb_refl. reflexivity. Qed.
Lemma ps_first : forall i e c n, i < nout -> fst_out i = i -> ps i (lst i) e c n = 0%R.
Proof.
  intros i e c n Hi Hf. unfold ps. apply sumn_zero. intros j Hj. destruct (Nat.eqb_spec (lst j) (lst i)) as [E|]; [|reflexivity]. exfalso.
  apply lst_iff in E; [|lia|auto]. pose proof (@first_spec (sameE (o_out o)) (sameE_refl _) i) as (_ & _ & H3). rewrite H3 in E by lia. discriminate.
Qed.

Definition out_inv (e i : nat) (st : list (list R) * (nat -> list R) * vmem R) : Prop := let '(eo, vc, vm1) := st in
  a_eo_ok R D a mx eo /\ vc_ok R CB vc /\ binv e i vm1 /\
  (forall j c p, j < nout -> f_mode (fo j) = EvNone -> c < f_size (fo j) -> p < npt e -> vf (nth j eo []) (c * npt e + p) = Y j e p c) /\
  (forall j c n, j < i -> isb (f_mode (fo j)) = true -> c < p_nc (pdf (fo j)) -> n < p_cnt (pdf (fo j)) e ->
     vf (nth (lst j) eo []) (c * p_cnt (pdf (fo j)) e + n) = ps i (lst j) e c n).
Lemma evl_same : forall i j, i < nout -> j < nout -> isb (f_mode (fo i)) = true -> sameE (o_out o) i j = true -> evl R D mx (fo i) = evl R D mx (fo j).
Proof.
  intros i j Hi Hj Hb H. pose proof (same_kind i j Hi Hj H) as Hk. rewrite Hb in Hk. apply out_same in H. unfold evl. rewrite H.
  destruct (f_mode (fo i)); try discriminate; destruct (f_mode (fo j)); try discriminate; reflexivity.
Qed.
Lemma atp_output_ok : forall e xe qout i st, e < NE -> i < nout -> xe_ok e xe -> a_qo_ok R a mx qout ->
  (isb (f_mode (fo i)) = true -> forall c p, c < f_size (fo i) -> p < npt e -> vf (nth i qout []) (c * npt e + p) = Y i e p c) ->
  out_inv e i st -> exists st', atp_output k junk CB a s outv xe e (npt e) qout i st = Ok st' /\ out_inv e (i + 1) st'.
Proof.
  intros e xe qout i ((eo, vc), vm1) He Hi Hx (Lq & Gq) HY (Heo & Hvc & HB & HN & HP). unfold atp_output.
  rewrite og_fld by auto. cbn [rbind]. destruct (ao_idx _ _ _ _ _ Hs) as (Li & Gi). rewrite (og_nth (s_idx s) 0) by lia. cbn [rbind]. rewrite Gi by auto.
  destruct (@lst_spec _ o i Hi) as (Hl & Hsm). destruct (ao_skout _ _ _ _ _ Hs) as (Lsk & Gsk). destruct (ao_rout _ _ _ _ _ Hs) as (Lro & _).
  assert (Hstep : exists eo' vc', match f_mode (fo i) with
       | EvNone => Ok (eo, vc)
       | EvWeight => Err ERR_BACKEND
       | _ => l <~ og eo (lst i) ;; q <~ og qout i ;; r <~ atp_basis k junk CB a s xe (npt e) i (fo i) q l vc ;; Ok (upd eo (lst i) (fst r), snd r)
       end = Ok (eo', vc') /\ a_eo_ok R D a mx eo' /\ vc_ok R CB vc' /\
       (forall j c p, j < nout -> f_mode (fo j) = EvNone -> c < f_size (fo j) -> p < npt e -> vf (nth j eo' []) (c * npt e + p) = Y j e p c) /\
       (forall j c n, j < i + 1 -> isb (f_mode (fo j)) = true -> c < p_nc (pdf (fo j)) -> n < p_cnt (pdf (fo j)) e ->
         vf (nth (lst j) eo' []) (c * p_cnt (pdf (fo j)) e + n) = ps (i + 1) (lst j) e c n)).
  { destruct (kind_out i Hi) as [(En & _)|(Eb & Es)].
    - rewrite En. exists eo, vc. split; [reflexivity|]. split; [exact Heo|]. split; [exact Hvc|]. split; [exact HN|].
      intros j c n Hj Hb Hc Hn. assert (j <> i). { intros ->. rewrite En in Hb. discriminate. } rewrite ps_other. { apply HP; auto. lia. }
      intros E. apply lst_iff in E; [|lia|lia]. apply none_alone in E; auto; lia.
    - destruct Heo as (Le & Ge). destruct (ao_add _ _ _ _ _ Hs) as (La & Ga).
      destruct (out_basis_ok i e xe (nth i qout []) (nth (lst i) eo []) (vc (nth i (a_bout a) 0)) (fst_out i <? i) Hi Eb He Hx) as (vc' & l' & E & L1 & L2 & G).
      { auto. } { rewrite Ge by lia. rewrite (evl_same (lst i) i) by (auto; try lia; rewrite (same_kind (lst i) i); auto; lia). unfold evl. destruct (f_mode (fo i)); try discriminate; reflexivity. }
      { apply Hvc. } { intros Hlt. apply Nat.ltb_lt in Hlt. pose proof (@first_spec (sameE (o_out o)) (sameE_refl _) i) as (_ & H2 & _). apply (aw_dout _ _ _ _ _ _ _ Hwf (fst_out i) i); auto. }
      { auto. }
      destruct (fout _ _ _ _ _ _ _ Hwf i Hi) as (Hf & _). destruct (aw_bl _ _ _ _ _ _ _ Hwf) as (_ & Lb).
      exists (upd eo (lst i) l'), (cset R vc (nth i (a_bout a) 0) vc'). split.
      { rewrite (og_nth eo []) by lia. cbn [rbind]. rewrite (og_nth qout []) by lia. cbn [rbind]. unfold atp_basis.
        rewrite (og_nth (s_add s) false) by lia. rewrite Ga by auto. cbn [rbind]. rewrite (og_nth (a_bout a) 0) by lia. cbn [rbind].
        rewrite (fb_b _ _ _ _ _ _ _ (aw_b _ _ _ _ _ _ _ _ Hf Eb)). rewrite E. cbn [be rbind fst snd]. destruct (f_mode (fo i)); try discriminate; reflexivity. }
      split; [|split; [|split]].
      + split; [rewrite upd_length; auto|]. intros j Hj. rewrite nth_upd' by lia. destruct (Nat.eqb_spec j (lst i)) as [->|]; auto. rewrite L2. auto.
      + apply cset_ok; auto.
      + intros j c p Hj En Hc Hp. rewrite nth_upd' by lia. destruct (Nat.eqb_spec j (lst i)) as [->|]; [|apply HN; auto].
        exfalso. pose proof (same_kind (lst i) i ltac:(lia) Hi Hsm) as Hk. rewrite En, Eb in Hk. discriminate.
      + intros j c n Hj Hb Hc Hn. rewrite nth_upd' by lia. destruct (Nat.eqb_spec (lst j) (lst i)) as [E1|E1].
        * assert (Ep : pdf (fo j) = pdf (fo i)). { apply out_same. apply lst_iff; auto. lia. } rewrite Ep in *. rewrite G by auto. rewrite E1, ps_self. f_equal.
          destruct (Nat.ltb_spec (fst_out i) i) as [Hlt|Hge].
          -- pose proof (@first_spec (sameE (o_out o)) (sameE_refl _) i) as (_ & H2 & _). assert (E2 : lst (fst_out i) = lst i). { apply lst_iff; auto. lia. }
             pose proof (HP (fst_out i) c n Hlt) as Hpf. rewrite E2 in Hpf. rewrite (out_same _ _ H2) in Hpf. apply Hpf; auto. rewrite (same_kind (fst_out i) i); auto. lia.
          -- symmetry. apply ps_first; auto. pose proof (@first_spec (sameE (o_out o)) (sameE_refl _) i) as (H1 & _). lia.
        * assert (j <> i) by congruence. rewrite ps_other by auto. apply HP; auto. lia. }
  destruct Hstep as (eo' & vc' & E & Heo' & Hvc' & HN' & HP'). rewrite E. cbn [rbind fst snd].
  rewrite (og_nth (s_skout s) false) by lia. cbn [rbind]. rewrite Gsk by auto. destruct (Nat.ltb_spec i (lst i)) as [Hlt|Hge].
  - eexists. split; [reflexivity|]. split; [exact Heo'|]. split; [exact Hvc'|]. split; [apply binv_skip; auto; lia|]. auto.
  - assert (Eli : lst i = i) by lia. rewrite Eli. destruct Heo' as (Le & Ge). rewrite (og_nth eo' []) by lia. cbn [rbind]. rewrite (og_nth (s_rout s) None) by lia. cbn [rbind].
    destruct (restrict_ok e i vm1 (nth i eo' []) He Hi Eli HB) as (vm2 & E2 & HB').
    { apply len_eo; auto. }
    { intros c n Hc Hn. destruct (fout _ _ _ _ _ _ _ Hwf i Hi) as (Hf & _). destruct (kind_out i Hi) as [(En & _)|(Eb & _)].
      - destruct (aw_none _ _ _ _ _ _ _ _ Hf En) as (_ & H2 & H3). rewrite H3 in * by auto. rewrite HN' by (auto; lia). rewrite gs_none by auto. unfold at_out_val. rewrite En. reflexivity.
      - pose proof (HP' i c n ltac:(lia) Eb Hc Hn) as Hpp. rewrite Eli in Hpp. rewrite Hpp. apply ps_gs; auto. }
    rewrite E2. cbn [rbind]. eexists. split; [reflexivity|]. split; [split; auto|]. split; [exact Hvc'|]. split; [exact HB'|]. auto.
Qed.

(** ** an identity QFunction *)
Lemma atp_ident_ok : forall e xe qin vc vm1, o_ident o = true -> e < NE -> binv e 0 vm1 -> length qin = nin -> qv 0 e (nth 0 qin []) ->
  exists vm2, atp_ident_output k junk CB a s outv xe e (npt e) (qin, vc, vm1) = Ok (upd qin 0 (nth 0 qin []), vc, vm2) /\ binv e nout vm2.
Proof.
  intros e xe qin vc vm1 Hid He HB Lq (Hq1 & Hq2). destruct (aw_id _ _ _ _ _ _ _ Hwf Hid) as (Ni & No & Esz & Em). unfold atp_ident_output.
  rewrite og_fld by lia. cbn [rbind]. rewrite (og_nth qin []) by lia. cbn [rbind]. rewrite Em. cbn [rbind fst snd].
  destruct (ao_rout _ _ _ _ _ Hs) as (Lro & _). rewrite (og_nth (s_rout s) None) by lia. cbn [rbind].
  assert (El0 : lst 0 = 0). { destruct (@lst_spec _ o 0 ltac:(lia)). lia. }
  destruct (fout _ _ _ _ _ _ _ Hwf 0 ltac:(lia)) as (Hf & _). destruct (aw_none _ _ _ _ _ _ _ _ Hf Em) as (H1 & H2 & H3).
  destruct (restrict_ok e 0 vm1 (nth 0 qin []) He ltac:(lia) El0 HB) as (vm2 & E2 & HB').
  { unfold len_e. rewrite H1, <- H2, H3 by auto. rewrite <- Esz. exact Hq1. }
  { intros c n Hc Hn. rewrite H3 in * by auto. rewrite <- H2, <- Esz in Hc. rewrite Hq2 by auto. rewrite gs_none by (auto; lia). unfold at_out_val. rewrite Em. unfold at_outs_val. rewrite Hid. cbn [nth].
    unfold at_ins_val. rewrite nth_map_seq by lia. cbv zeta. rewrite vf_map_seq by auto. reflexivity. }
  rewrite E2. cbn [rbind]. exists vm2. split; auto. rewrite No. exact HB'.
Qed.

(** ** one element *)
Definition el_inv (e : nat) (st : nat * list R * list (list R) * list (list R) * list (list R) * list (list R) * (nat -> list R) * vmem R) : Prop :=
  let '(off, xe, eb, qin, eo, qout, vc, vm1) := st in off = offp e /\ length xe = dimX * mx /\ a_eb_ok R D a mx eb /\ a_qin_ok R a mx qin /\
  a_eo_ok R D a mx eo /\ a_qo_ok R a mx qout /\ vc_ok R CB vc /\ binv e 0 vm1.
Lemma upd_nth : forall (q : list (list R)) i, upd q i (nth i q []) = q.
Proof. induction q as [|x q IH]; intros [|i]; simpl; auto. f_equal. apply IH. Qed.
Lemma atp_pass_ok : forall ein e st, e < NE -> length ein = nin ->
  (forall i, i < nin -> f_mode (fi i) <> EvWeight -> is_active (fi i) = false -> a_ein_ok R chk D a vm i ein) ->
  el_inv e st -> exists st', atp_pass k junk D CB a rx s ein inv outv e st = Ok st' /\ el_inv (e + 1) st'.
Proof.
  intros ein e (((((((off, xe), eb), qin), eo), qout), vc), vm1) He Lein Hein (-> & Lxe & Heb & Hqin & Heo & Hqo & Hvc & HB). unfold atp_pass.
  destruct Hvec as (Hvi & Hvo & (x & Ex & Lx) & Hva & Hvx).
  rewrite (binv_keep e 0 vm1 (a_xvec a) HB ltac:(lia) Hvx). rewrite Ex.
  destruct (x_create R k Jmin chk D CB a Hwf) as (rx' & Cx & X1 & X2 & X3 & X4 & X5). rewrite Hrx in Cx. inversion Cx; subst rx'. clear Cx.
  destruct (aw_x _ _ _ _ _ _ _ Hwf) as (Hpx & Hrw). pose proof (Hmx e He) as Hme.
  assert (Ecnt : p_cnt (D (a_rpts a)) e = npt e). { unfold pts. destruct (D (a_rpts a)); [discriminate|]. reflexivity. }
  destruct (elem_nt R chk NE (D (a_rpts a)) rx e x xe Hrw Hrx He) as (xe' & E0 & L0 & G0).
  { unfold len_in. rewrite Hpx. exact Lx. } { unfold len_e. rewrite Hpx, Ecnt, Lxe. nia. }
  rewrite X5, E0. cbn [be rbind]. rewrite X4 by auto. cbn [be rbind].
  assert (Hxe : xe_ok e xe').
  { split; [congruence|]. intros d p Hd Hp. rewrite Ecnt in G0. rewrite G0 by auto. unfold xcont. rewrite Ex. destruct (D (a_rpts a)); [discriminate|]. reflexivity. }
  destruct (@rfold_inv0 _ (in_inv e) (atp_input k junk D CB a s vm1 inv ein xe' e (offp e) (npt e)) nin (eb, qin, vc)) as (((eb1, qin1), vc1) & E1 & I1 & I2 & I3 & I4 & I5).
  { split; auto. split; auto. split; auto. split; intros; lia. }
  { intros i st Hi Hst. apply atp_input_ok; auto. intros v Ev (j & Hj & Hact). apply (binv_keep e 0); auto; [lia|]. intros j' Hj'. rewrite <- Ev. apply (Hva j); auto. }
  rewrite E1. cbn [rbind]. destruct (o_ident o) eqn:Hid.
  - destruct (aw_id _ _ _ _ _ _ _ Hwf Hid) as (Ni & No & _ & _). destruct I2 as (Lq1 & Gq1).
    destruct (atp_ident_ok e xe' qin1 vc1 vm1 Hid He HB Lq1) as (vm2 & E2 & HB2). { apply I5. lia. }
    rewrite E2. cbn [rbind]. eexists. split; [reflexivity|]. rewrite upd_nth. unfold el_inv.
    split; [rewrite Nat.add_1_r; reflexivity|]. split; [congruence|]. split; [exact I1|]. split; [split; auto|]. split; [exact Heo|]. split; [exact Hqo|]. split; [exact I3|]. apply binv_next. exact HB2.
  - destruct (atp_call_ok e qin1 eo qout Hid He) as (eo1 & qo1 & E2 & C1 & C2 & C3); auto. { apply I2. }
    rewrite E2. cbn [rbind fst snd].
    destruct (@rfold_inv0 _ (out_inv e) (atp_output k junk CB a s outv xe' e (npt e) qo1) nout (eo1, vc1, vm1)) as (((eo2, vc2), vm2) & E3 & O1 & O2 & O3 & _).
    { split; auto. split; auto. split; auto. split. { intros j c p Hj En Hc Hp. apply C3; auto. } intros; lia. }
    { intros i st Hi Hst. apply atp_output_ok; auto. intros Hb c p Hc Hp. apply C3; auto. }
    rewrite E3. cbn [rbind]. eexists. split; [reflexivity|]. unfold el_inv.
    split; [rewrite Nat.add_1_r; reflexivity|]. split; [congruence|]. split; [exact I1|]. split; [exact I2|]. split; [exact O1|]. split; [exact C2|]. split; [exact O2|]. apply binv_next. exact O3.
Qed.
Lemma a_cache_mono : forall d (vm1 vm2 : vmem R), (forall v, vm2 v = vm1 v \/ (vv_state (vm1 v) < vv_state (vm2 v))%Z) ->
  a_cache_ok R chk D a d vm1 -> a_cache_ok R chk D a d vm2.
Proof.
  intros d vm1 vm2 H Hc i v Hi Hm Hf Hv. destruct (Hc i v Hi Hm Hf Hv) as (A1 & B). destruct (H v) as [E|E].
  - rewrite E. auto.
  - split; [lia|]. intros Hx. lia.
Qed.
Lemma at_adds_mono : forall vm', at_adds R D CB a vm inv outv vm' -> forall v, vm' v = vm v \/ (vv_state (vm v) < vv_state (vm' v))%Z.
Proof. intros vm' H v. specialize (H v). destruct (existsb _ _); [right|left]; auto. apply H. Qed.

(** ** one application *)
Theorem atp_apply_be_ok : forall x, adyn_ok R chk D CB a mx x -> a_cache_ok R chk D a (ad x) vm ->
  exists x' vm', atp_apply_be k junk D CB a rx s x vm inv outv = Ok (x', vm') /\ adyn_ok R chk D CB a mx x' /\ a_cache_ok R chk D a (ad x') vm' /\ at_adds R D CB a vm inv outv vm'.
Proof.
  intros x Hx Hc. unfold atp_apply_be. destruct Hx as [X1 X2 X3 X4 X5 X6 X7 X8].
  destruct (a_setup_inputs_ok R k Jmin chk D CB a Hwf vm s Hs) with (d := ad x) as (d1 & E1 & S1 & S2 & S3 & S4 & S5 & S6 & S7); auto.
  { intros i Hi Hm Hna. destruct Hvec as (Hvi & _). destruct (Hvi i Hi Hm) as (v & y & Ty & Dy & Ly). rewrite Hna in Ly. cbn [andb] in Ly. exists v, y. split; [|auto].
    unfold target in *. unfold is_active in Hna. destruct (f_vec (fi i)); auto. discriminate. }
  rewrite E1. cbn [rbind].
  destruct (@rfold_inv0 _ el_inv (atp_pass k junk D CB a rx s (d_ein d1) inv outv) NE (0, ad_xe x, ad_eb x, d_qin d1, d_eout d1, d_qout d1, ad_vc x, vm))
    as ((((((((off, xe), eb), qin), eo), qout), vc), vm') & E2 & _ & H2 & H3 & H4 & H5 & H6 & H7 & H8).
  { unfold el_inv. rewrite S4, S5, S6. split; [reflexivity|]. repeat (split; [assumption|]). intros v. reflexivity. }
  { intros e st He Hst. apply atp_pass_ok; auto. apply S2. }
  rewrite E2. cbn [rbind]. apply binv_adds in H8. eexists. eexists. split; [reflexivity|]. split; [|split; [|exact H8]].
  - constructor; cbn [ad d_states d_ein d_eout d_qin d_qout ad_eb ad_xe ad_vc]; auto.
  - cbn [ad]. apply a_cache_mono with (vm1 := vm). { apply at_adds_mono. exact H8. } exact S3.
Qed.
End Main.
