(** * The diagonal of operators at points: what the code computes *)
From Coq Require Import List ZArith Lia Bool Arith.
From Verif Require Import Prelude RstrModel RstrSpec RstrProofs RstrMain RstrPoints RstrProps TensorModel TensorMain BasisModel BasisProofs BasisProps Digits PointsModel PointsProofs PointsProps OpModel OpSpec OpLists OpProofs OpMain OptModel OptProofs AtpModel AtpSpec AtpProofs AtpMain AsmModel AsmSpec AsmProofs AtqModel AtqSpec AtqProofs AtdModel AtdSpec.
Import ListNotations.
Local Open Scope nat_scope.

Section Atd.
Variable R : Rng.
Add Ring Rr : (r_th R).
Variable k : kernel R.
Variable Jmin : nat.
Variable junk : nat -> nat -> R.
Variable chk : bool.
Variable D : nat -> pdesc.
Variable CB : nat -> tbasis R.
Variable a : atop R.
Notation o := (a_op a).
Hypothesis Hwf : atp_wf R D CB a k Jmin chk.
Notation nin := (length (o_in o)).
Notation nout := (length (o_out o)).
Notation fi := (fld (o_in o)).
Notation fo := (fld (o_out o)).
Notation fst_in := (first (sameE (o_in o))).
Notation fst_out := (first (sameE (o_out o))).
Notation lst := (last (sameE (o_out o)) nout).
Notation NE := (o_ne o).
Notation pdf := (pd R D).
Notation dimX := (p_nc (D (a_rpts a))).
Notation npt := (pts R D a).
Variable mx : nat.
Hypothesis Hmx : forall e, e < NE -> npt e <= mx.
Variable s : stat.
Hypothesis Hs : astat_ok R chk D a s.
Variable rx : rstr.
Hypothesis Hrx : pcreate chk (D (a_rpts a)) = Ok rx.
Variable vm : vmem R.
Variables sv av : nat.
Hypothesis Hxv : exists x, vv_data (vm (a_xvec a)) = Some x /\ p_ls (D (a_rpts a)) <= length x.
Hypothesis Hout : forall j, j < nout -> at_has R D vm (fo j) (Some sv) true.
Hypothesis Hav : exists y, vv_data (vm av) = Some y /\ forall j, j < nout -> is_active (fo j) = true -> len_in R (pdf (fo j)) y.
Hypothesis Hnav : forall j, j < nout -> target (fo j) (Some sv) <> Some av /\ target (fo j) (Some sv) <> Some (a_xvec a).
Hypothesis Havx : av <> a_xvec a.
Notation xc := (xcont R a vm).
Notation xe_ok := (xe_ok R D a mx vm).
Notation offp := (offp R D a).

(** ** the memory *)
Definition minv (F : nat -> R) (vm1 : vmem R) : Prop :=
  (forall v, vm1 v = vm v \/ ((vv_state (vm v) < vv_state (vm1 v))%Z /\ vv_len (vm1 v) = vv_len (vm v) /\ exists x x', vv_data (vm v) = Some x /\ vv_data (vm1 v) = Some x' /\ length x' = length x)) /\
  (forall v, v <> av -> (forall j, j < nout -> target (fo j) (Some sv) <> Some v) -> vm1 v = vm v) /\
  exists x x', vv_data (vm av) = Some x /\ vv_data (vm1 av) = Some x' /\ length x' = length x /\ forall q, vf x' q = (vf x q + F q)%R.
Lemma minv_ext : forall F G vm1, (forall q, F q = G q) -> minv F vm1 -> minv G vm1.
Proof. intros F G vm1 H (A1 & A2 & x & x' & A3 & A4 & A5 & A6). split; auto. split; auto. exists x, x'. repeat split; auto. intros q. rewrite A6, H. reflexivity. Qed.
Lemma minv_data : forall F vm1 v x, minv F vm1 -> vv_data (vm v) = Some x -> exists x', vv_data (vm1 v) = Some x' /\ length x' = length x /\ vv_len (vm1 v) = vv_len (vm v) /\ (vv_state (vm v) <= vv_state (vm1 v))%Z.
Proof.
  intros F vm1 v x (A1 & _) Hx. destruct (A1 v) as [E|(E1 & E2 & y & y' & E3 & E4 & E5)].
  - exists x. rewrite E. repeat split; auto. lia.
  - rewrite Hx in E3. inversion E3; subst y. exists y'. repeat split; auto. lia.
Qed.
Lemma restrict_frame : forall F e j vm1 l, e < NE -> j < nout -> minv F vm1 -> len_e R (pdf (fo j)) e l ->
  exists vm2, atp_restrict (nth j (s_rout s) None) e l (target (fo j) (Some sv)) vm1 = Ok vm2 /\ minv F vm2.
Proof.
  intros F e j vm1 l He Hj HM Hl. destruct (ao_rout _ _ _ _ _ Hs) as (L2 & G2). destruct (G2 j Hj) as (r & Er & Ecr).
  destruct (Hout j Hj) as (v & x & Et & Ex & Lx). cbn [andb] in Lx. unfold atp_restrict. rewrite Er, Et. cbv zeta.
  destruct (minv_data F vm1 v x HM Ex) as (x' & Ex' & Lx' & Ev & Es). rewrite Ex'.
  destruct (fout _ _ _ _ _ _ _ Hwf j Hj) as (Hf & Hnw). destruct (aw_rwf _ _ _ _ _ _ _ _ Hf Hnw) as (Hrw & _).
  destruct (elem_t R chk NE (pdf (fo j)) r e l x' (fun _ c n => vf l (c * p_cnt (pdf (fo j)) e + n)) Hrw Ecr He) as (l' & El & Ll & Gl); auto.
  { unfold len_in. rewrite Lx'. destruct (is_pts (pdf (fo j))); auto. }
  rewrite El. cbn [be rbind]. eexists. split; [reflexivity|]. destruct HM as (A1 & A2 & A3). destruct (Hnav j Hj) as (Nv & _). rewrite Et in Nv.
  split; [|split].
  - intros v'. unfold vset. destruct (Nat.eqb_spec v' v) as [->|]; [|apply A1]. right. cbn [vv_state vv_len vv_data]. split; [lia|]. split; auto. exists x, l'. repeat split; auto. lia.
  - intros v' Hv Hv'. unfold vset. destruct (Nat.eqb_spec v' v) as [->|]; [|auto]. exfalso. apply (Hv' j); auto.
  - unfold vset. destruct (Nat.eqb_spec av v) as [->|]; [congruence|]. exact A3.
Qed.
Lemma restrict_av : forall F e j vm1 l r, e < NE -> j < nout -> is_active (fo j) = true -> pcreate chk (pdf (fo j)) = Ok r -> minv F vm1 -> len_e R (pdf (fo j)) e l ->
  exists vm2, atp_restrict (Some r) e l (Some av) vm1 = Ok vm2 /\ minv (fun q => (F q + scatter1 R (pdf (fo j)) e (fun _ c n => vf l (c * p_cnt (pdf (fo j)) e + n)) q)%R) vm2.
Proof.
  intros F e j vm1 l r He Hj Ha Ecr HM Hl. destruct Hav as (y & Ey & Ly). unfold atp_restrict. cbv zeta.
  destruct (minv_data F vm1 av y HM Ey) as (x' & Ex' & Lx' & Ev & Es). rewrite Ex'.
  destruct (fout _ _ _ _ _ _ _ Hwf j Hj) as (Hf & Hnw). destruct (aw_rwf _ _ _ _ _ _ _ _ Hf Hnw) as (Hrw & _).
  destruct (elem_t R chk NE (pdf (fo j)) r e l x' (fun _ c n => vf l (c * p_cnt (pdf (fo j)) e + n)) Hrw Ecr He) as (l' & El & Ll & Gl); auto.
  { specialize (Ly j Hj Ha). unfold len_in in *. rewrite Lx'. exact Ly. }
  rewrite El. cbn [be rbind]. eexists. split; [reflexivity|]. destruct HM as (A1 & A2 & (x & x1 & A3 & A4 & A5 & A6)). rewrite Ey in A3. inversion A3; subst x. rewrite Ex' in A4. inversion A4; subst x1.
  split; [|split].
  - intros v'. unfold vset. destruct (Nat.eqb_spec v' av) as [->|]; [|apply A1]. right. cbn [vv_state vv_len vv_data]. split; [lia|]. split; auto. exists y, l'. repeat split; auto. lia.
  - intros v' Hv Hv'. unfold vset. destruct (Nat.eqb_spec v' av) as [->|]; [congruence|auto].
  - unfold vset. rewrite Nat.eqb_refl. cbn [vv_data]. exists y, l'. repeat split; auto. lia. intros q. rewrite Gl, A6. ring.
Qed.

(** ** restrictions *)
Lemma create_info : forall d r e, rwf chk NE d -> pcreate chk d = Ok r -> e < NE -> is_kpts r = is_pts d /\ r_nc r = p_nc d /\ el_size r e = Ok (p_cnt d e) /\ (is_pts d = false -> r_es r = p_cnt d e).
Proof.
  intros [d|n npts nc ls offs] r e Hd Hc He; cbn [rwf pcreate is_pts p_nc p_cnt] in *.
  - destruct Hd as (H1 & _). pose proof (create_repr H1 Hc) as Hrep.
    assert (Ek : is_kpts r = false). { unfold is_kpts. apply (std_kind chk d r Hc bool (fun _ => true) false). }
    unfold el_size. rewrite Ek. split; auto. split. { apply (rp_nc Hrep). } rewrite (rp_es Hrep). auto.
  - destruct Hd as (Hok & ->). destruct (create_points_ok Hok) as (r' & Er & Ek & E1 & E2 & E3 & E4 & E5). rewrite Hc in Er. inversion Er; subst r'. clear Er.
    unfold el_size, is_kpts. rewrite Ek. split; auto. split; auto. split; [|discriminate]. unfold num_points. rewrite Ek, (num_points_ok Hok He). cbn. rewrite Nat2Z.id. reflexivity.
Qed.

Lemma act_mode : forall j, j < nin -> is_active (fi j) = true -> f_mode (fi j) = EvNone \/ isb (f_mode (fi j)) = true.
Proof.
  intros j Hj Ha. pose proof (fin _ _ _ _ _ _ _ Hwf j Hj) as Hf. destruct (amode _ _ _ _ _ _ _ _ Hf) as [Ew|Hm]; auto. exfalso.
  destruct (aw_weight _ _ _ _ _ _ _ _ Hf Ew) as (_ & _ & X & _). apply X. unfold is_active in Ha. destruct (f_vec (fi j)); congruence.
Qed.
Lemma act_nw : forall j, j < nin -> is_active (fi j) = true -> f_mode (fi j) <> EvWeight.
Proof. intros j Hj Ha E. destruct (act_mode j Hj Ha) as [X|X]; rewrite E in X; discriminate. Qed.
Lemma clear_q_ok : forall eb qin j, a_eb_ok R D a mx eb -> a_qin_ok R a mx qin -> j < nin -> is_active (fi j) = true ->
  exists eb' q, clear_q (fi j) j (eb, qin) = Ok (eb', upd qin j q) /\ a_eb_ok R D a mx eb' /\ a_qin_ok R a mx (upd qin j q) /\ length q = mx * f_size (fi j) /\ forall x, vf q x = 0%R.
Proof using Hwf.
  clear Hnav Havx Hav Hout Hxv. intros eb qin j (Leb & Geb) (Lq & Gq) Hj Ha. unfold clear_q. cbn [fst snd]. destruct (act_mode j Hj Ha) as [En|Eb].
  - rewrite En. rewrite (og_nth eb []) by lia. cbn [rbind]. do 2 eexists. split; [reflexivity|]. split; [|split; [|split]].
    + split; [rewrite upd_length; auto|]. intros i' Hi'. rewrite nth_upd' by lia. destruct (Nat.eqb_spec i' j) as [->|]; auto. rewrite repeat_length. auto.
    + apply qin_upd; [split; auto|auto|rewrite En; discriminate|]. rewrite En. discriminate.
    + rewrite repeat_length, Geb by auto. unfold evl. rewrite En. reflexivity.
    + intros x. apply vf_repeat0.
  - exists eb, (repeat 0%R (length (nth j qin []))). split. { rewrite (og_nth qin []) by lia. cbn [rbind]. destruct (f_mode (fi j)); try discriminate; reflexivity. }
    split; [split; auto|]. assert (Hl : length (repeat (0%R : R) (length (nth j qin []))) = mx * f_size (fi j)). { rewrite repeat_length. apply (Gq j Hj). auto. }
    split. { apply qin_upd; [split; auto|auto| |auto]. apply act_nw; auto. } split; auto. intros x. apply vf_repeat0.
Qed.

(** ** one call of the QFunction *)
Section El.
Variable e : nat.
Hypothesis He : e < NE.
Notation N := (npt e).
Variable xe : list R.
Hypothesis Hx : xe_ok e xe.
Definition Yq (qin : list (list R)) (p j c : nat) : R := qf_at o (ins_at o N qin p) j c.
Lemma call_gen : forall qin eo qout, o_ident o = false -> ins_ok o N qin = true -> a_eo_ok R D a mx eo -> a_qo_ok R a mx qout ->
  exists eo' qout', atp_call o N qin (eo, qout) = Ok (eo', qout') /\ a_eo_ok R D a mx eo' /\ a_qo_ok R a mx qout' /\
    forall j c p, j < nout -> c < f_size (fo j) -> p < N ->
      (f_mode (fo j) = EvNone -> vf (nth j eo' []) (c * N + p) = Yq qin p j c) /\
      (isb (f_mode (fo j)) = true -> vf (nth j qout' []) (c * N + p) = Yq qin p j c).
Proof.
  intros qin eo qout Hid Hins Heo Hqo. unfold atp_call. destruct (aw_vl _ _ _ _ _ _ _ Hwf Hid) as (V1 & V2).
  destruct (Nat.eqb_spec (o_vlen o) 0); [lia|]. rewrite V2 by auto. cbn [Nat.eqb negb].
  rewrite Hins. cbn [negb]. pose proof (Hmx e He) as Hme.
  assert (Hoa : forall j c p, c < f_size (fo j) -> p < N -> vf (out_arr o N qin j (f_size (fo j))) (c * N + p) = Yq qin p j c).
  { intros j c p Hc Hp. rewrite (out_arr_nth R D a e) by auto. unfold Yq, qf_at. rewrite Hid. reflexivity. }
  assert (Loa : forall j, length (out_arr o N qin j (f_size (fo j))) = f_size (fo j) * N). { intros j. unfold out_arr. rewrite map_length, seq_length. reflexivity. }
  destruct (@rfold_inv0 _ (fun m (st : list (list R) * list (list R)) => let '(eo', qout') := st in a_eo_ok R D a mx eo' /\ a_qo_ok R a mx qout' /\
     forall j c p, j < m -> c < f_size (fo j) -> p < N ->
      (f_mode (fo j) = EvNone -> vf (nth j eo' []) (c * N + p) = Yq qin p j c) /\
      (isb (f_mode (fo j)) = true -> vf (nth j qout' []) (c * N + p) = Yq qin p j c))
     (fun j st => f <~ og (o_out o) j ;; put_out o (seq 0 nout) 0 j (out_arr o N qin j (f_size f)) st) nout (eo, qout)) as ((eo', qout') & E & H1 & H2 & H3).
  - split; auto. split; auto. intros; lia.
  - intros j (eo1, qo1) Hj ((Le & Ge) & (Lo & Go) & G). rewrite og_fld by auto. cbn [rbind]. unfold put_out. rewrite og_fld by auto. cbn [rbind].
    destruct (fout _ _ _ _ _ _ _ Hwf j Hj) as (Hf & Hnw). destruct (amode _ _ _ _ _ _ _ _ Hf) as [Ew|[En|Eb]]; [congruence| |].
    + rewrite En. rewrite (og_nth (seq 0 nout) 0) by (rewrite seq_length; auto). rewrite seq_nth by auto. cbn [rbind Nat.add]. rewrite (og_nth eo1 []) by lia. cbn [rbind Nat.mul].
      destruct (@blit_ok R (nth j eo1 []) 0 (out_arr o N qin j (f_size (fo j)))) as (l & El & Ll & Gl).
      { rewrite Loa, Ge by auto. unfold evl. rewrite En. nia. }
      rewrite El. cbn [rbind]. eexists. split; [reflexivity|]. split; [|split; [split; auto|]].
      * split; [rewrite upd_length; auto|]. intros i Hi. rewrite nth_upd' by lia. destruct (Nat.eqb_spec i j) as [->|]; auto. rewrite Ll. auto.
      * intros i c p Hi Hc Hp. rewrite nth_upd' by lia. destruct (Nat.eqb_spec i j) as [->|].
        -- split; [|rewrite En; discriminate]. intros _. rewrite Gl. cbn [Nat.leb andb Nat.add]. rewrite Loa. destruct (Nat.ltb_spec (c * N + p) (f_size (fo j) * N)); [|nia].
           rewrite Nat.sub_0_r. apply Hoa; auto.
        -- apply G; auto. lia.
    + destruct (@blit_ok R (nth j qo1 []) 0 (out_arr o N qin j (f_size (fo j)))) as (l & El & Ll & Gl).
      { rewrite Loa, Go by auto. nia. }
      exists (eo1, upd qo1 j l). split.
      { rewrite (og_nth qo1 []) by lia. cbn [rbind]. rewrite El. destruct (f_mode (fo j)); try discriminate; reflexivity. }
      split; [split; auto|]. split.
      * split; [rewrite upd_length; auto|]. intros i Hi. rewrite nth_upd' by lia. destruct (Nat.eqb_spec i j) as [->|]; auto. rewrite Ll. auto.
      * intros i c p Hi Hc Hp. rewrite nth_upd' by lia. destruct (Nat.eqb_spec i j) as [->|].
        -- split. { intros En. rewrite En in Eb. discriminate. } intros _. rewrite Gl. cbn [Nat.leb andb Nat.add]. rewrite Loa. destruct (Nat.ltb_spec (c * N + p) (f_size (fo j) * N)); [|nia].
           rewrite Nat.sub_0_r. apply Hoa; auto.
        -- apply G; auto. lia.
  - exists eo', qout'. split; auto.
Qed.

(** ** the transposed basis *)
Definition oval (j : nat) (Y : nat -> nat -> R) (c n : nat) : R :=
  match f_mode (fo j) with
  | EvNone => Y n c
  | _ => sumn N (fun p => sumn (slots_of (f_mode (fo j)) (t_dim (tb R (fo j)))) (fun i =>
           (phi R CB (fo j) (nth j (a_bout a) 0%nat) (point R D a xc e p) i n * Y p (i * t_nc (tb R (fo j)) + c)%nat)%R))
  end.
Lemma out_basis_gen : forall j q l vc aa Y, j < nout -> isb (f_mode (fo j)) = true -> length q = mx * f_size (fo j) ->
  length l = p_cnt (pdf (fo j)) 0 * p_nc (pdf (fo j)) -> length vc = t_nc (CB (nth j (a_bout a) 0)) * t_Q (CB (nth j (a_bout a) 0)) ^ t_dim (CB (nth j (a_bout a) 0)) ->
  (aa = true -> t_collo (CB (nth j (a_bout a) 0)) = false) ->
  (forall c p, c < f_size (fo j) -> p < N -> vf q (c * N + p) = Y p c) ->
  exists vc' l', apply_at_points k junk (BT (tb R (fo j))) (CB (nth j (a_bout a) 0)) aa [N] Transpose (f_mode (fo j)) xe q vc l = Ok (vc', l') /\ length vc' = length vc /\ length l' = length l /\
    forall c n, c < p_nc (pdf (fo j)) -> n < p_cnt (pdf (fo j)) e -> vf l' (c * p_cnt (pdf (fo j)) e + n) = ((if aa then vf l (c * p_cnt (pdf (fo j)) e + n) else 0) + oval j Y c n)%R.
Proof.
  intros j q l vc aa Y Hj Hm Lq Ll Lvc Haa Hq. destruct (fout _ _ _ _ _ _ _ Hwf j Hj) as (Hf & _).
  pose proof (aw_b _ _ _ _ _ _ _ _ Hf Hm) as B. unfold apply_at_points. rewrite andb_false_r.
  pose proof (fb_dim _ _ _ _ _ _ _ B) as Bd. pose proof (Hmx e He) as Hme.
  assert (Lx : t_dim (tb R (fo j)) * N <= length xe). { destruct Hx as (-> & _). rewrite Bd. nia. }
  assert (Ll' : t_nc (tb R (fo j)) * t_P (tb R (fo j)) ^ t_dim (tb R (fo j)) <= length l). { rewrite Ll, <- (fb_P _ _ _ _ _ _ _ B), (fb_nc _ _ _ _ _ _ _ B). lia. }
  rewrite (aap_check R Jmin D CB a (fo j) _ N Transpose xe q l B Hm Lx Ll').
  destruct (fb_ch _ _ _ _ _ _ _ B) as (C1 & C2 & C3 & C4). rewrite C1, C2, C4 in Lvc.
  destruct (@C43_backward R k Jmin junk (tb R (fo j)) (CB (nth j (a_bout a) 0)) (f_mode (fo j)) N (aw_k _ _ _ _ _ _ _ Hwf) (fb_wf _ _ _ _ _ _ _ B) (fb_ch _ _ _ _ _ _ _ B) (fb_Q _ _ _ _ _ _ _ B) (mode_iff _ Hm) aa xe q vc l)
    as (vc' & l' & E & L1 & L2 & G & _); auto. { apply (aw_pts _ _ _ _ _ _ _ Hwf). auto. } { rewrite Lq, (fb_sz _ _ _ _ _ _ _ B). rewrite Nat.mul_comm. apply Nat.mul_le_mono_r. auto. } { lia. }
  exists vc', l'. split; auto. split; auto. split; auto. intros c n Hc Hn. rewrite <- (fb_nc _ _ _ _ _ _ _ B) in Hc. rewrite <- (fb_P _ _ _ _ _ _ _ B) in *.
  rewrite G by auto. f_equal. unfold oval.
  transitivity (sumn N (fun p => sumn (slots_of (f_mode (fo j)) (t_dim (tb R (fo j)))) (fun i =>
           (phi R CB (fo j) (nth j (a_bout a) 0%nat) (point R D a xc e p) i n * Y p (i * t_nc (tb R (fo j)) + c)%nat)%R))).
  - apply sumn_ext. intros p Hp. apply sumn_ext. intros i Hi. rewrite (phi_eq R D CB a mx vm) by auto. rewrite Hq; auto. rewrite (fb_sz _ _ _ _ _ _ _ B). nia.
  - destruct (f_mode (fo j)); try discriminate; reflexivity.
Qed.

(** ** the outputs into the vector that is thrown away *)
Lemma lst_none : forall j, j < nout -> f_mode (fo j) = EvNone -> lst j = j.
Proof. intros j Hj En. destruct (@lst_spec _ o j Hj) as (H1 & H2). rewrite sameE_sym in H2. symmetry. apply (none_alone R k Jmin chk D CB a Hwf); auto. lia. Qed.
Lemma lst_kind : forall j, j < nout -> isb (f_mode (fo (lst j))) = isb (f_mode (fo j)) /\ (isb (f_mode (fo j)) = true -> evl R D mx (fo (lst j)) = evl R D mx (fo j)).
Proof.
  intros j Hj. destruct (@lst_spec _ o j Hj) as (H1 & H2). assert (Hk : isb (f_mode (fo (lst j))) = isb (f_mode (fo j))) by (apply (same_kind R k Jmin chk D CB a Hwf); auto; lia).
  split; auto. intros Hb. apply (evl_same R k Jmin chk D CB a Hwf); auto. lia. congruence.
Qed.
Lemma evl_b : forall f, isb (f_mode f) = true -> evl R D mx f = p_cnt (pdf f) 0 * p_nc (pdf f).
Proof. intros f H. unfold evl. destruct (f_mode f); try discriminate; reflexivity. Qed.
Definition finv (F : nat -> R) (eo0 : list (list R)) (st : list (list R) * (nat -> list R) * vmem R) : Prop := let '(eo, vc, vm1) := st in
  a_eo_ok R D a mx eo /\ vc_ok R CB vc /\ minv F vm1 /\ forall j, j < nout -> f_mode (fo j) = EvNone -> nth j eo [] = nth j eo0 [].
Lemma output_frame : forall F eo0 qout i st, i < nout -> a_qo_ok R a mx qout -> finv F eo0 st ->
  exists st', atp_output k junk CB a s (Some sv) xe e N qout i st = Ok st' /\ finv F eo0 st'.
Proof.
  intros F eo0 qout i ((eo, vc), vm1) Hi (Lq & Gq) (Heo & Hvc & HM & HN). unfold atp_output.
  rewrite og_fld by auto. cbn [rbind]. destruct (ao_idx _ _ _ _ _ Hs) as (Li & Gi). rewrite (og_nth (s_idx s) 0) by lia. cbn [rbind]. rewrite Gi by auto.
  destruct (@lst_spec _ o i Hi) as (Hl & Hsm). destruct (ao_skout _ _ _ _ _ Hs) as (Lsk & Gsk). destruct (ao_rout _ _ _ _ _ Hs) as (Lro & _).
  destruct (fout _ _ _ _ _ _ _ Hwf i Hi) as (Hf & _). destruct (aw_bl _ _ _ _ _ _ _ Hwf) as (_ & Lb).
  assert (Hstep : exists eo' vc', match f_mode (fo i) with
       | EvNone => Ok (eo, vc)
       | EvWeight => Err ERR_BACKEND
       | _ => l <~ og eo (lst i) ;; q <~ og qout i ;; r <~ atp_basis k junk CB a s xe N i (fo i) q l vc ;; Ok (upd eo (lst i) (fst r), snd r)
       end = Ok (eo', vc') /\ a_eo_ok R D a mx eo' /\ vc_ok R CB vc' /\ (forall j, j < nout -> f_mode (fo j) = EvNone -> nth j eo' [] = nth j eo0 [])).
  { destruct (kind_out R k Jmin chk D CB a Hwf i Hi) as [(En & _)|(Eb & Es)].
    - rewrite En. exists eo, vc. auto.
    - destruct Heo as (Le & Ge). destruct (ao_add _ _ _ _ _ Hs) as (La & Ga). destruct (lst_kind i Hi) as (Hk1 & Hk2).
      destruct (out_basis_gen i (nth i qout []) (nth (lst i) eo []) (vc (nth i (a_bout a) 0)) (fst_out i <? i) (fun p c => vf (nth i qout []) (c * N + p)) Hi Eb) as (vc' & l' & E & L1 & L2 & _); auto.
      { rewrite Ge by lia. rewrite Hk2 by auto. apply evl_b; auto. }
      { intros Hlt. apply Nat.ltb_lt in Hlt. pose proof (@first_spec (sameE (o_out o)) (sameE_refl _) i) as (_ & H2 & _). apply (aw_dout _ _ _ _ _ _ _ Hwf (fst_out i) i); auto. }
      exists (upd eo (lst i) l'), (cset R vc (nth i (a_bout a) 0) vc'). split.
      { rewrite (og_nth eo []) by lia. cbn [rbind]. rewrite (og_nth qout []) by lia. cbn [rbind]. unfold atp_basis.
        rewrite (og_nth (s_add s) false) by lia. rewrite Ga by auto. cbn [rbind]. rewrite (og_nth (a_bout a) 0) by lia. cbn [rbind].
        rewrite (fb_b _ _ _ _ _ _ _ (aw_b _ _ _ _ _ _ _ _ Hf Eb)). rewrite E. cbn [be rbind fst snd]. destruct (f_mode (fo i)); try discriminate; reflexivity. }
      split; [|split].
      + split; [rewrite upd_length; auto|]. intros j Hj. rewrite nth_upd' by lia. destruct (Nat.eqb_spec j (lst i)) as [->|]; auto. rewrite L2. auto.
      + apply cset_ok; auto.
      + intros j Hj En. rewrite nth_upd' by lia. destruct (Nat.eqb_spec j (lst i)) as [->|]; auto. rewrite En in Hk1. cbn in Hk1. congruence. }
  destruct Hstep as (eo' & vc' & E & Heo' & Hvc' & HN'). rewrite E. cbn [rbind fst snd].
  rewrite (og_nth (s_skout s) false) by lia. cbn [rbind]. rewrite Gsk by auto. destruct (Nat.ltb_spec i (lst i)) as [Hlt|Hge].
  - eexists. split; [reflexivity|]. split; auto.
  - assert (Eli : lst i = i) by lia. rewrite Eli. destruct Heo' as (Le & Ge). rewrite (og_nth eo' []) by lia. cbn [rbind]. rewrite (og_nth (s_rout s) None) by lia. cbn [rbind].
    destruct (restrict_frame F e i vm1 (nth i eo' []) He Hi HM) as (vm2 & E2 & HB').
    { apply (len_eo R k Jmin chk D CB a Hwf mx Hmx); auto. }
    rewrite E2. cbn [rbind]. eexists. split; [reflexivity|]. split; [split; auto|]. auto.
Qed.

(** ** the outputs into the diagonal *)
Lemma only_ok : forall (l : list R) sx, sx < length l -> exists l', only R l sx = Ok l' /\ length l' = length l /\ forall x, vf l' x = delta (x =? sx) (vf l x).
Proof.
  intros l sx H. unfold only. rewrite (og_nth l 0%R) by auto. cbn [rbind]. eexists. split; [reflexivity|]. split; [rewrite upd_length, repeat_length; auto|].
  intros x. rewrite vf_upd by (rewrite repeat_length; auto). destruct (Nat.eqb_spec x sx) as [->|]; [reflexivity|]. rewrite vf_repeat0. reflexivity.
Qed.
Section In.
Variable i : nat.
Hypothesis Hi : i < nin.
Hypothesis Hia : is_active (fi i) = true.
Notation evs := (p_cnt (pdf (fi i)) e * p_nc (pdf (fi i))).
Notation actp := (is_pts (pdf (fi i))).
Notation bi := (nth i (a_bin a) 0).
Section Sx.
Variable sx : nat.
Hypothesis Hsx : sx < evs.
Definition Dq (Y : nat -> nat -> nat -> R) (j q : nat) : R :=
  delta (is_active (fo j) && d_match D (fi i) (fo j) e)
    (scatter1 R (pdf (fo j)) e (fun _ c n => delta (c * p_cnt (pdf (fo j)) e + n =? sx) (oval j (fun p c => Y p j c) c n)) q).
Definition dinv (F : nat -> R) (Y : nat -> nat -> nat -> R) (eo0 : list (list R)) (m : nat) (st : list (list R) * (nat -> list R) * vmem R) : Prop := let '(eo, vc, vm1) := st in
  a_eo_ok R D a mx eo /\ vc_ok R CB vc /\ minv (fun q => (F q + sumn m (fun j => Dq Y j q))%R) vm1 /\ forall j, m <= j < nout -> f_mode (fo j) = EvNone -> nth j eo [] = nth j eo0 [].
Lemma d_info : forall j r, j < nout -> pcreate chk (pdf (fo j)) = Ok r ->
  is_kpts r = is_pts (pdf (fo j)) /\ r_nc r = p_nc (pdf (fo j)) /\ el_size r e = Ok (p_cnt (pdf (fo j)) e).
Proof.
  intros j r Hj Hr. destruct (fout _ _ _ _ _ _ _ Hwf j Hj) as (Hf & Hnw). destruct (aw_rwf _ _ _ _ _ _ _ _ Hf Hnw) as (Hrw & _).
  destruct (create_info _ _ e Hrw Hr He) as (A1 & A2 & A3 & _). auto.
Qed.
Lemma dinv_skip : forall F Y eo0 j st, is_active (fo j) && d_match D (fi i) (fo j) e = false -> dinv F Y eo0 j st -> dinv F Y eo0 (j + 1) st.
Proof.
  intros F Y eo0 j ((eo, vc), vm1) H (A1 & A2 & A3 & A4). split; auto. split; auto. split; [|intros; apply A4; auto; lia].
  apply minv_ext with (2 := A3). intros q. rewrite Nat.add_1_r, sumn_S. unfold Dq at 3. rewrite H. cbn [delta]. ring.
Qed.
Lemma scatter1_ext' : forall d E F q, (forall c n, c < p_nc d -> n < p_cnt d e -> E e c n = F e c n) -> scatter1 R d e E q = scatter1 R d e F q.
Proof.
  intros [d|n npts nc ls offs] E F q H; cbn [scatter1 p_nc p_cnt] in *.
  - unfold Lblock. apply sumn_ext. intros j Hj. apply sumn_ext. intros kk Hk. apply sumn_ext. intros n Hn. apply sumn_ext. intros m Hm.
    replace (e * 1 + j) with e by lia. rewrite H by auto. reflexivity.
  - apply sumn_ext. intros i0 Hi0. apply sumn_ext. intros c Hc. rewrite H by auto. reflexivity.
Qed.
Lemma d_add : forall F Y j vm1 l l0 r, j < nout -> is_active (fo j) = true -> d_match D (fi i) (fo j) e = true -> pcreate chk (pdf (fo j)) = Ok r ->
  minv (fun q => (F q + sumn j (fun j => Dq Y j q))%R) vm1 -> len_e R (pdf (fo j)) e l0 ->
  (forall x, vf l0 x = delta (x =? sx) (vf l x)) ->
  (forall c n, c < p_nc (pdf (fo j)) -> n < p_cnt (pdf (fo j)) e -> vf l (c * p_cnt (pdf (fo j)) e + n) = oval j (fun p c => Y p j c) c n) ->
  exists vm2, atp_restrict (Some r) e l0 (Some av) vm1 = Ok vm2 /\ minv (fun q => (F q + sumn (j + 1) (fun j => Dq Y j q))%R) vm2.
Proof.
  intros F Y j vm1 l l0 r Hj Ha Hm Hr HM Hl0 Hv Hl. destruct (restrict_av _ e j vm1 l0 r He Hj Ha Hr HM Hl0) as (vm2 & E & HM2).
  exists vm2. split; auto. apply minv_ext with (2 := HM2). intros q. rewrite Nat.add_1_r, sumn_S.
  assert (E1 : scatter1 R (pdf (fo j)) e (fun _ c n => vf l0 (c * p_cnt (pdf (fo j)) e + n)) q = Dq Y j q); [|rewrite E1; ring].
  unfold Dq. rewrite Ha, Hm. cbn [andb delta]. apply scatter1_ext'. intros c n Hc Hn. rewrite Hv, Hl by auto. reflexivity.
Qed.
Lemma len_ge : forall j l, j < nout -> len_e R (pdf (fo j)) e l -> d_match D (fi i) (fo j) e = true -> sx < length l.
Proof.
  intros j l Hj Hl Hm. unfold d_match in Hm. apply andb_true_iff in Hm. destruct Hm as (_ & Hm). apply Nat.eqb_eq in Hm. unfold len_e in Hl. destruct (is_pts (pdf (fo j))); lia.
Qed.
Lemma match_eq : forall j, d_match D (fi i) (fo j) e = negb (actp && negb (is_pts (pdf (fo j)))) && (evs =? p_nc (pdf (fo j)) * p_cnt (pdf (fo j)) e).
Proof. reflexivity. Qed.
Lemma diag_out_ok : forall F Y eo0 qout j st, j < nout -> a_qo_ok R a mx qout ->
  (forall c p, c < f_size (fo j) -> p < N -> (f_mode (fo j) = EvNone -> vf (nth j eo0 []) (c * N + p) = Y p j c) /\ (isb (f_mode (fo j)) = true -> vf (nth j qout []) (c * N + p) = Y p j c)) ->
  dinv F Y eo0 j st -> exists st', diag_out k junk CB a s av xe e N evs actp sx qout j st = Ok st' /\ dinv F Y eo0 (j + 1) st'.
Proof.
  intros F Y eo0 qout j ((eo, vc), vm1) Hj (Lq & Gq) HY Hd. pose proof Hd as (Heo & Hvc & HM & HN). unfold diag_out. rewrite og_fld by auto. cbn [rbind].
  pose proof (match_eq j) as Hmq.
  destruct (is_active (fo j)) eqn:Ea; cbn [negb].
  2:{ eexists. split; [reflexivity|]. apply dinv_skip; auto. rewrite Ea. reflexivity. }
  destruct (ao_rout _ _ _ _ _ Hs) as (Lro & Gro). destruct (Gro j Hj) as (r & Er & Ecr). rewrite (og_nth (s_rout s) None) by lia. cbn [rbind]. rewrite Er.
  destruct (d_info j r Hj Ecr) as (K1 & K2 & K3). rewrite K1. destruct (actp && negb (is_pts (pdf (fo j)))) eqn:Ep.
  { eexists. split; [reflexivity|]. apply dinv_skip; auto. rewrite Hmq, andb_false_r. reflexivity. }
  rewrite K3. cbn [rbind]. rewrite K2. cbn [negb andb] in Hmq. destruct (evs =? p_nc (pdf (fo j)) * p_cnt (pdf (fo j)) e) eqn:Ee; cbn [negb].
  2:{ eexists. split; [reflexivity|]. apply dinv_skip; auto. rewrite Hmq, andb_false_r. reflexivity. }
  destruct (ao_idx _ _ _ _ _ Hs) as (Lid & Gid). rewrite (og_nth (s_idx s) 0) by lia. cbn [rbind]. rewrite Gid by auto.
  destruct (@lst_spec _ o j Hj) as (Hl & Hsm). pose proof Heo as (Le & Ge). rewrite (og_nth eo []) by lia. cbn [rbind].
  destruct (fout _ _ _ _ _ _ _ Hwf j Hj) as (Hf & _). destruct (aw_bl _ _ _ _ _ _ _ Hwf) as (_ & Lb). destruct (lst_kind j Hj) as (Hk1 & Hk2).
  assert (Hstep : exists l vc', match f_mode (fo j) with
         | EvNone => Ok (nth (lst j) eo [], vc)
         | EvWeight => Err ERR_BACKEND
         | m => q <~ og qout j ;; b <~ og (a_bout a) j ;;
                match f_basis (fo j) with
                | None => UB
                | Some bb => y <~ be (apply_at_points k junk bb (CB b) false [N] Transpose m xe q (vc b) (nth (lst j) eo [])) ;; Ok (snd y, cset R vc b (fst y))
                end
         end = Ok (l, vc') /\ length l = length (nth (lst j) eo []) /\ len_e R (pdf (fo j)) e l /\ vc_ok R CB vc' /\
       forall c n, c < p_nc (pdf (fo j)) -> n < p_cnt (pdf (fo j)) e -> vf l (c * p_cnt (pdf (fo j)) e + n) = oval j (fun p c => Y p j c) c n).
  { destruct (kind_out R k Jmin chk D CB a Hwf j Hj) as [(En & _)|(Eb & Es)].
    - rewrite En. rewrite lst_none by auto. exists (nth j eo []), vc. split; auto. split; auto. split. { apply (len_eo R k Jmin chk D CB a Hwf mx Hmx); auto. } split; auto.
      intros c n Hc Hn. destruct (aw_none _ _ _ _ _ _ _ _ Hf En) as (_ & H2 & H3). rewrite H3 in * by auto. rewrite HN by (auto; lia). unfold oval. rewrite En. apply HY; auto. lia.
    - destruct (out_basis_gen j (nth j qout []) (nth (lst j) eo []) (vc (nth j (a_bout a) 0)) false (fun p c => Y p j c) Hj Eb) as (vc' & l' & E & L1 & L2 & G); auto.
      { rewrite Ge by lia. rewrite Hk2 by auto. apply evl_b; auto. } { discriminate. } { intros c p Hc Hp. apply HY; auto. }
      exists l', (cset R vc (nth j (a_bout a) 0) vc'). split.
      { rewrite (og_nth qout []) by lia. cbn [rbind]. rewrite (og_nth (a_bout a) 0) by lia. cbn [rbind]. rewrite (fb_b _ _ _ _ _ _ _ (aw_b _ _ _ _ _ _ _ _ Hf Eb)).
        revert E. destruct (f_mode (fo j)); try discriminate; intros ->; reflexivity. }
      split; auto. split. { apply (len_eo R k Jmin chk D CB a Hwf mx Hmx); auto. rewrite L2, Ge by lia. auto. } split. { apply cset_ok; auto. }
      intros c n Hc Hn. rewrite G by auto. ring. }
  destruct Hstep as (l & vc' & E & Ll & Hll & Hvc' & HlY). rewrite E. cbn [rbind fst snd].
  destruct (only_ok l sx) as (l' & E1 & Ll' & Gl'). { apply (len_ge j); auto. }
  rewrite E1. cbn [rbind].
  destruct (d_add F Y j vm1 l l' r Hj Ea Hmq Ecr HM) as (vm2 & E2 & HM2); auto. { unfold len_e in *. rewrite Ll'. auto. }
  rewrite E2. cbn [rbind]. eexists. split; [reflexivity|]. split; [|split; [exact Hvc'|split; [exact HM2|]]].
  - split; [rewrite upd_length; auto|]. intros j' Hj'. rewrite nth_upd' by lia. destruct (Nat.eqb_spec j' (lst j)) as [->|]; auto. rewrite Ll', Ll. auto.
  - intros j' Hj' En. rewrite nth_upd' by lia. destruct (Nat.eqb_spec j' (lst j)) as [->|]; [|apply HN; auto; lia].
    exfalso. rewrite En in Hk1. destruct (kind_out R k Jmin chk D CB a Hwf j Hj) as [(En' & _)|(Eb & Es)]; [|rewrite Eb in Hk1; discriminate]. rewrite lst_none in Hj' by auto. lia.
Qed.

(** ** one unit vector after the evaluation of the inputs *)
Lemma step_out : forall F qin eo qout vc vm1, o_ident o = false -> ins_ok o N qin = true -> a_eo_ok R D a mx eo -> a_qo_ok R a mx qout -> vc_ok R CB vc -> minv F vm1 ->
  exists eo' qout' vc' vm2,
    (eq <~ atp_call o N qin (eo, qout) ;;
     r <~ rfold (seq 0 nout) (atp_output k junk CB a s (Some sv) xe e N (snd eq)) (fst eq, vc, vm1) ;;
     r <~ rfold (seq 0 nout) (diag_out k junk CB a s av xe e N evs actp sx (snd eq)) r ;;
     let '(eo, vc, vm) := r in Ok (qin, eo, snd eq, vc, vm)) = Ok (qin, eo', qout', vc', vm2) /\
    a_eo_ok R D a mx eo' /\ a_qo_ok R a mx qout' /\ vc_ok R CB vc' /\ minv (fun q => (F q + sumn nout (fun j => Dq (Yq qin) j q))%R) vm2.
Proof.
  intros F qin eo qout vc vm1 Hid Hins Heo Hqo Hvc HM.
  destruct (call_gen qin eo qout Hid Hins Heo Hqo) as (eo1 & qo1 & E1 & C1 & C2 & C3). rewrite E1. cbn [rbind fst snd].
  destruct (@rfold_inv0 _ (fun _ => finv F eo1) (atp_output k junk CB a s (Some sv) xe e N qo1) nout (eo1, vc, vm1)) as (((eo2, vc2), vm2) & E2 & F1 & F2 & F3 & F4).
  { split; auto. } { intros j st Hj Hst. apply output_frame; auto. }
  rewrite E2. cbn [rbind].
  destruct (@rfold_inv0 _ (dinv F (Yq qin) eo1) (diag_out k junk CB a s av xe e N evs actp sx qo1) nout (eo2, vc2, vm2)) as (((eo3, vc3), vm3) & E3 & G1 & G2 & G3 & G4).
  { split; auto. split; auto. split; [|intros; apply F4; auto; lia]. apply minv_ext with (2 := F3). intros q. cbn. ring. }
  { intros j st Hj Hst. apply diag_out_ok; auto. }
  rewrite E3. cbn [rbind]. exists eo3, qo1, vc3, vm3. auto.
Qed.
Lemma ident_Y : forall qin p c, o_ident o = true -> length qin = nin -> c < f_size (fi 0) -> Yq qin p 0 c = vf (nth 0 qin []) (c * N + p).
Proof.
  intros qin p c Hid Lq Hc. unfold Yq, qf_at. rewrite Hid. cbn [nth]. unfold ins_at. rewrite combine_seq by auto. rewrite map_map.
  rewrite nth_map_seq by lia. cbn [fst snd]. rewrite vf_map_seq by auto. reflexivity.
Qed.
Lemma step_ident : forall F qin vc vm1, o_ident o = true -> length qin = nin -> f_size (fi 0) * N <= length (nth 0 qin []) -> minv F vm1 ->
  exists q0 vm2,
    (r <~ atp_ident_output k junk CB a s (Some sv) xe e N (qin, vc, vm1) ;;
     diag_ident k junk CB a s av xe e N evs actp sx r) = Ok (upd qin 0 q0, vc, vm2) /\ length q0 = length (nth 0 qin []) /\
    minv (fun q => (F q + sumn nout (fun j => Dq (Yq qin) j q))%R) vm2.
Proof.
  intros F qin vc vm1 Hid Lq Hlen HM. destruct (aw_id _ _ _ _ _ _ _ Hwf Hid) as (Ni & No & Esz & Em). unfold atp_ident_output.
  rewrite og_fld by lia. cbn [rbind]. rewrite (og_nth qin []) by lia. cbn [rbind]. rewrite Em. cbn [rbind fst snd].
  destruct (ao_rout _ _ _ _ _ Hs) as (Lro & Gro). rewrite (og_nth (s_rout s) None) by lia. cbn [rbind].
  destruct (fout _ _ _ _ _ _ _ Hwf 0 ltac:(lia)) as (Hf & _). destruct (aw_none _ _ _ _ _ _ _ _ Hf Em) as (H1 & H2 & H3).
  assert (Hle : len_e R (pdf (fo 0)) e (nth 0 qin [])). { unfold len_e. rewrite H1, <- H2, H3 by auto. rewrite <- Esz. exact Hlen. }
  destruct (restrict_frame F e 0 vm1 (nth 0 qin []) He ltac:(lia) HM Hle) as (vm2 & E2 & HM2).
  rewrite E2. cbn [rbind]. unfold diag_ident. rewrite og_fld by lia. cbn [rbind]. rewrite upd_nth.
  rewrite No. pose proof (match_eq 0) as Hmq.
  assert (Hskip : is_active (fo 0) && d_match D (fi i) (fo 0) e = false -> exists q0 vm3, Ok (qin, vc, vm2) = Ok (upd qin 0 q0, vc, vm3) /\ length q0 = length (nth 0 qin []) /\
    minv (fun q => (F q + sumn 1 (fun j => Dq (Yq qin) j q))%R) vm3).
  { intros Hno. exists (nth 0 qin []), vm2. rewrite upd_nth. split; auto. split; auto. apply minv_ext with (2 := HM2). intros q. rewrite sumn_S, sumn_0. unfold Dq. rewrite Hno. cbn [delta]. ring. }
  destruct (is_active (fo 0)) eqn:Ea; cbn [negb andb] in *; [|auto].
  destruct (Gro 0 ltac:(lia)) as (r & Er & Ecr). rewrite (og_nth (s_rout s) None) by lia. cbn [rbind]. rewrite Er.
  destruct (d_info 0 r ltac:(lia) Ecr) as (K1 & K2 & K3). rewrite K1. destruct (actp && negb (is_pts (pdf (fo 0)))) eqn:Ep.
  { apply Hskip. rewrite Hmq. reflexivity. }
  rewrite K3. cbn [rbind]. rewrite K2. cbn [negb andb] in Hmq. destruct (evs =? p_nc (pdf (fo 0)) * p_cnt (pdf (fo 0)) e) eqn:Ee; cbn [negb].
  2:{ apply Hskip. rewrite Hmq. reflexivity. }
  rewrite (og_nth qin []) by lia. cbn [rbind]. rewrite Em. cbn [rbind fst snd].
  destruct (only_ok (nth 0 qin []) sx) as (l' & E1 & Ll' & Gl'). { apply (len_ge 0); auto. lia. }
  rewrite E1. cbn [rbind].
  destruct (d_add F (Yq qin) 0 vm2 (nth 0 qin []) l' r ltac:(lia) Ea Hmq Ecr) as (vm3 & E3 & HM3); auto.
  { apply minv_ext with (2 := HM2). intros q. cbn. ring. } { unfold len_e in *. rewrite Ll'. auto. }
  { intros c n Hc Hn. rewrite H3 in * by auto. unfold oval. rewrite Em. rewrite ident_Y; auto. lia. }
  rewrite E3. cbn [rbind]. exists l', vm3. auto.
Qed.

(** ** the unit vector *)
Definition unit_val (m c p : nat) : R :=
  match f_mode (fi i) with
  | EvNone => delta (c * N + p =? m) 1%R
  | _ => sumn (t_P (tb R (fi i)) ^ t_dim (tb R (fi i))) (fun n =>
           (phi R CB (fi i) bi (point R D a xc e p) (c / t_nc (tb R (fi i))) n * delta ((c mod t_nc (tb R (fi i))) * t_P (tb R (fi i)) ^ t_dim (tb R (fi i)) + n =? m) 1)%R)
  end.
Definition d_act (m p j c : nat) : R := if j =? i then unit_val m c p else 0%R.
Definition Yu (m p j c : nat) : R := qf_at o (fill o (at_pas_val D CB a vm e p) (d_act m p)) j c.
Lemma slot_ok : fst_in i < nin /\ evl R D mx (fi (fst_in i)) = evl R D mx (fi i) /\ (f_mode (fi i) = EvNone -> fst_in i = i).
Proof.
  destruct (a_fst_in R a i) as (F1 & F2). assert (Hl : fst_in i < nin) by lia. split; auto. destruct (same_pd R D _ _ F2) as (Ep & _ & _).
  assert (Haf : is_active (fi (fst_in i)) = true) by (rewrite (act_same R D a (fst_in i) i); auto).
  assert (HN : f_mode (fi i) = EvNone -> fst_in i = i).
  { intros En. destruct (Nat.eq_dec (fst_in i) i); auto. exfalso. destruct (aw_din _ _ _ _ _ _ _ Hwf (fst_in i) i ltac:(lia) F2) as (_ & H).
    apply (H En). unfold is_active in Hia. destruct (f_vec (fi i)); congruence. }
  split; auto. destruct (act_mode i Hi Hia) as [En|Eb]. { rewrite HN by auto. reflexivity. }
  destruct (act_mode (fst_in i) Hl Haf) as [En'|Eb'].
  - exfalso. destruct (aw_none _ _ _ _ _ _ _ _ (fin _ _ _ _ _ _ _ Hwf (fst_in i) Hl) En') as (X & _). rewrite Ep in X.
    pose proof (fb_std _ _ _ _ _ _ _ (aw_b _ _ _ _ _ _ _ _ (fin _ _ _ _ _ _ _ Hwf i Hi) Eb)). congruence.
  - rewrite !evl_b by auto. rewrite Ep. reflexivity.
Qed.
Lemma evs_le : evs <= evl R D mx (fi i).
Proof.
  pose proof (fin _ _ _ _ _ _ _ Hwf i Hi) as Hf. pose proof (Hmx e He). destruct (act_mode i Hi Hia) as [En|Eb].
  - destruct (aw_none _ _ _ _ _ _ _ _ Hf En) as (H1 & H2 & H3). rewrite H3 by auto. unfold evl. rewrite En, H2. apply Nat.mul_le_mono_r. auto.
  - rewrite evl_b by auto. pose proof (aw_b _ _ _ _ _ _ _ _ Hf Eb) as B. rewrite <- (fb_P _ _ _ _ _ _ _ B e), (fb_P _ _ _ _ _ _ _ B 0). auto.
Qed.
Lemma unit_in_ok : forall eb qin vc, a_eb_ok R D a mx eb -> a_qin_ok R a mx qin -> vc_ok R CB vc -> length (nth i qin []) = mx * f_size (fi i) ->
  (0 < sx -> forall x, vf (nth (fst_in i) eb []) x = delta (x =? sx - 1) 1%R) ->
  exists eb' q vc', unit_in k junk CB a s xe N i sx (eb, qin, vc) = Ok (eb', upd qin i q, vc') /\ a_eb_ok R D a mx eb' /\ vc_ok R CB vc' /\ length q = mx * f_size (fi i) /\ (forall x, vf (nth (fst_in i) eb' []) x = delta (x =? sx) 1%R) /\ forall c p, c < f_size (fi i) -> p < N -> vf q (c * N + p) = unit_val sx c p.
Proof.
  intros eb qin vc (Leb & Geb) (Lq & Gq) Hvc Hli Hprev. pose proof slot_ok as (S1 & S2 & S3). pose proof evs_le as Hle. pose proof (fin _ _ _ _ _ _ _ Hwf i Hi) as Hf.
  destruct (ao_slot _ _ _ _ _ Hs) as (Lsl & Gsl). destruct (aw_bl _ _ _ _ _ _ _ Hwf) as (Bi & _). unfold unit_in. rewrite og_fld by auto. cbn [rbind]. rewrite (og_nth (s_slot s) 0) by lia. cbn [rbind]. rewrite Gsl by (auto using act_nw).
  rewrite (og_nth eb []) by lia. cbn [rbind].
  assert (He2 : exists e2, (e1 <~ poke R (if sx =? 0 then repeat 0%R (length (nth (fst_in i) eb [])) else nth (fst_in i) eb []) sx 1%R ;; (if 0 <? sx then poke R e1 (sx - 1) 0%R else Ok e1)) = Ok e2 /\
     length e2 = evl R D mx (fi i) /\ forall x, vf e2 x = delta (x =? sx) 1%R).
  { unfold poke. assert (Hl : length (if sx =? 0 then repeat 0%R (length (nth (fst_in i) eb [])) else nth (fst_in i) eb []) = evl R D mx (fi i)).
    { destruct (sx =? 0); rewrite ?repeat_length, Geb by auto; auto. }
    rewrite Hl. destruct (Nat.ltb_spec sx (evl R D mx (fi i))); [|lia]. cbn [rbind]. destruct (Nat.ltb_spec 0 sx) as [Hp|Hp].
    - rewrite upd_length, Hl. destruct (Nat.ltb_spec (sx - 1) (evl R D mx (fi i))); [|lia]. eexists. split; [reflexivity|]. split. { rewrite !upd_length. auto. }
      intros x. rewrite vf_upd by (rewrite upd_length, Hl; lia). rewrite vf_upd by (rewrite Hl; lia). destruct (Nat.eqb_spec sx 0); [lia|].
      destruct (Nat.eqb_spec x (sx - 1)) as [->|Hne]. { destruct (Nat.eqb_spec (sx - 1) sx); [lia|]. reflexivity. }
      destruct (Nat.eqb_spec x sx); [reflexivity|]. rewrite Hprev by auto. destruct (Nat.eqb_spec x (sx - 1)); [lia|]. reflexivity.
    - eexists. split; [reflexivity|]. split. { rewrite !upd_length. auto. } intros x. rewrite vf_upd by (rewrite Hl; lia). destruct (Nat.eqb_spec x sx); [reflexivity|].
      destruct (Nat.eqb_spec sx 0); [|lia]. apply vf_repeat0. }
  destruct He2 as (e2 & E2 & Le2 & Ge2). destruct (poke R _ sx 1%R) as [e1| |]; cbn [rbind] in E2; try discriminate. cbn [rbind]. rewrite E2. cbn [rbind].
  assert (Heb' : a_eb_ok R D a mx (upd eb (fst_in i) e2)).
  { split; [rewrite upd_length; auto|]. intros j Hj. rewrite nth_upd' by lia. destruct (Nat.eqb_spec j (fst_in i)) as [->|]; auto. congruence. }
  assert (Hsl : forall x, vf (nth (fst_in i) (upd eb (fst_in i) e2) []) x = delta (x =? sx) 1%R). { intros x. rewrite nth_upd', Nat.eqb_refl by lia. auto. }
  destruct (act_mode i Hi Hia) as [En|Eb].
  - rewrite En. rewrite (og_nth _ []) by (rewrite upd_length; lia). cbn [rbind]. do 3 eexists. split; [reflexivity|]. split; auto. split; auto. rewrite S3 in * by auto. split.
    { rewrite nth_upd', Nat.eqb_refl by lia. rewrite Le2. unfold evl. rewrite En. reflexivity. } split; auto.
    intros c p Hc Hp. rewrite Hsl. unfold unit_val. rewrite En. reflexivity.
  - pose proof (aw_b _ _ _ _ _ _ _ _ Hf Eb) as B.
    destruct (in_basis R k Jmin junk chk D CB a Hwf mx Hmx vm (fi i) bi e xe e2 (vc bi) (nth i qin []) (fun c n => delta (c * t_P (tb R (fi i)) ^ t_dim (tb R (fi i)) + n =? sx) 1%R) B Eb He Hx) as (vc' & q & E & L1 & L2 & G); auto.
    { rewrite Le2, evl_b by auto. rewrite (fb_nc _ _ _ _ _ _ _ B), (fb_P _ _ _ _ _ _ _ B 0). lia. }
    exists (upd eb (fst_in i) e2), q, (cset R vc bi vc'). split.
    { rewrite (og_nth qin []), (og_nth (a_bin a) 0) by lia. cbn [rbind]. rewrite (fb_b _ _ _ _ _ _ _ B). revert E. destruct (f_mode (fi i)); try discriminate; intros ->; reflexivity. }
    split; auto. split. { apply cset_ok; auto. } split; [congruence|]. split; auto.
    intros c p Hc Hp. rewrite G by auto. unfold unit_val. destruct (f_mode (fi i)); try discriminate; reflexivity.
Qed.

(** ** one unit vector *)
Definition qlen (qin : list (list R)) : Prop := forall j, j < nin -> is_active (fi j) = true -> length (nth j qin []) = mx * f_size (fi j).
Definition sinv (F : nat -> R) (m : nat) (st : dst R) : Prop := let '(eb, qin, eo, qout, vc, vm1) := st in
  a_eb_ok R D a mx eb /\ a_qin_ok R a mx qin /\ a_eo_ok R D a mx eo /\ a_qo_ok R a mx qout /\ vc_ok R CB vc /\ minv F vm1 /\ qlen qin /\
  (forall j, j < nin -> is_active (fi j) = true -> j <> i -> forall x, vf (nth j qin []) x = 0%R) /\
  (m = 0 \/ m = evs -> forall x, vf (nth i qin []) x = 0%R) /\
  (0 < m < evs -> forall x, vf (nth (fst_in i) eb []) x = delta (x =? m - 1) 1%R) /\
  pas_ok R D CB a vm e qin.
Lemma ins_ok_d : forall qin, length qin = nin -> qlen qin -> pas_ok R D CB a vm e qin -> ins_ok o N qin = true.
Proof.
  intros qin Lq Ql Hps. unfold ins_ok. rewrite Lq, Nat.eqb_refl. cbn [andb]. rewrite combine_seq by auto. apply forallb_forall. intros x Hxx. apply in_map_iff in Hxx. destruct Hxx as (j & <- & Hj). apply in_seq in Hj.
  cbn [fst snd]. apply Nat.leb_le. destruct (is_active (fi j)) eqn:Ea.
  - rewrite Ql by (auto; lia). pose proof (Hmx e He). nia.
  - apply (Hps j); auto. lia.
Qed.
Lemma pas_upd : forall qin j q, length qin = nin -> j < nin -> is_active (fi j) = true -> pas_ok R D CB a vm e qin -> pas_ok R D CB a vm e (upd qin j q).
Proof. intros qin j q Lq Hj Ha H j' Hj' Ha'. rewrite nth_upd' by lia. destruct (Nat.eqb_spec j' j) as [->|]; [congruence|]. apply H; auto. Qed.
Lemma qlen_upd : forall qin j q, length qin = nin -> j < nin -> qlen qin -> length q = mx * f_size (fi j) -> qlen (upd qin j q).
Proof. intros qin j q Lq Hj H Hq j' Hj' Ha'. rewrite nth_upd' by lia. destruct (Nat.eqb_spec j' j) as [->|]; auto. Qed.
Lemma oval_ext : forall j Y Z c n, j < nout -> c < p_nc (pdf (fo j)) -> n < p_cnt (pdf (fo j)) e -> (forall p c, p < N -> c < f_size (fo j) -> Y p c = Z p c) -> oval j Y c n = oval j Z c n.
Proof.
  intros j Y Z c n Hj Hc Hn H. unfold oval. destruct (fout _ _ _ _ _ _ _ Hwf j Hj) as (Hf & _). destruct (kind_out R k Jmin chk D CB a Hwf j Hj) as [(En & _)|(Eb & _)].
  - rewrite En. destruct (aw_none _ _ _ _ _ _ _ _ Hf En) as (H1 & H2 & H3). rewrite H3 in Hn by auto. apply H; auto. lia.
  - pose proof (aw_b _ _ _ _ _ _ _ _ Hf Eb) as B. rewrite <- (fb_nc _ _ _ _ _ _ _ B) in Hc.
    assert (E : forall p i0, p < N -> i0 < slots_of (f_mode (fo j)) (t_dim (tb R (fo j))) -> Y p (i0 * t_nc (tb R (fo j)) + c) = Z p (i0 * t_nc (tb R (fo j)) + c)).
    { intros p i0 Hp Hi0. apply H; auto. rewrite (fb_sz _ _ _ _ _ _ _ B). nia. }
    destruct (f_mode (fo j)); try discriminate; apply sumn_ext; intros p Hp; apply sumn_ext; intros i0 Hi0; rewrite E; auto.
Qed.
Lemma Dq_ext : forall Y Z j q, j < nout -> (forall p c, p < N -> c < f_size (fo j) -> Y p j c = Z p j c) -> Dq Y j q = Dq Z j q.
Proof.
  intros Y Z j q Hj H. unfold Dq. f_equal. apply scatter1_ext'. intros c n Hc Hn. f_equal. apply oval_ext; auto.
Qed.
Lemma upd_upd : forall (T : Type) (l : list T) n x y, upd (upd l n x) n y = upd l n y.
Proof. induction l as [|h t IH]; intros [|n] x y; cbn; auto. f_equal. apply IH. Qed.
Lemma atd_step_ok : forall F st, sinv F sx st ->
  exists st', atd_step k junk CB a s sv av xe e N i evs actp sx st = Ok st' /\ sinv (fun q => (F q + sumn nout (fun j => Dq (Yu sx) j q))%R) (sx + 1) st'.
Proof.
  intros F (((((eb, qin), eo), qout), vc), vm1) (A1 & A2 & A3 & A4 & A5 & A6 & A7 & A8 & A9 & A10 & A11). unfold atd_step.
  destruct (unit_in_ok eb qin vc A1 A2 A5) as (eb1 & q1 & vc1 & E1 & B1 & B2 & B3 & B4 & B5). { apply A7; auto. } { intros Hp. apply A10. lia. }
  rewrite E1. cbn [rbind]. pose proof A2 as (Lq & Gq).
  assert (Q1 : a_qin_ok R a mx (upd qin i q1)). { apply qin_upd; auto. apply act_nw; auto. }
  assert (P1 : pas_ok R D CB a vm e (upd qin i q1)) by (apply pas_upd; auto). assert (L1 : qlen (upd qin i q1)) by (apply qlen_upd; auto).
  assert (Hout' : exists q2 eo' qout' vc' vm2,
    (if o_ident o then
          r <~ atp_ident_output k junk CB a s (Some sv) xe e N (upd qin i q1, vc1, vm1) ;;
          r <~ diag_ident k junk CB a s av xe e N evs actp sx r ;;
          let '(qin, vc, vm) := r in Ok (qin, eo, qout, vc, vm)
        else
          eq <~ atp_call o N (upd qin i q1) (eo, qout) ;;
          r <~ rfold (seq 0 nout) (atp_output k junk CB a s (Some sv) xe e N (snd eq)) (fst eq, vc1, vm1) ;;
          r <~ rfold (seq 0 nout) (diag_out k junk CB a s av xe e N evs actp sx (snd eq)) r ;;
          let '(eo, vc, vm) := r in Ok (upd qin i q1, eo, snd eq, vc, vm)) = Ok (upd qin i q2, eo', qout', vc', vm2) /\
    length q2 = mx * f_size (fi i) /\ a_eo_ok R D a mx eo' /\ a_qo_ok R a mx qout' /\ vc_ok R CB vc' /\ minv (fun q => (F q + sumn nout (fun j => Dq (Yq (upd qin i q1)) j q))%R) vm2).
  { destruct (o_ident o) eqn:Eid.
    - destruct (aw_id _ _ _ _ _ _ _ Hwf Eid) as (Ni & No & Esz & Em). assert (E00 : i = 0) by lia. pose proof (Hmx e He).
      assert (L10 : length (nth 0 (upd qin i q1) []) = mx * f_size (fi 0)). { pose proof (L1 i Hi Hia) as X. rewrite E00 in X at 1 3. exact X. }
      destruct (step_ident F (upd qin i q1) vc1 vm1 Eid) as (q0 & vm2 & E2 & L2 & M2); auto. { rewrite upd_length. lia. } { rewrite L10. nia. }
      destruct (atp_ident_output k junk CB a s (Some sv) xe e N (upd qin i q1, vc1, vm1)) as [r| |]; cbn [rbind] in E2; try discriminate. cbn [rbind]. rewrite E2. cbn [rbind].
      exists q0, eo, qout, vc1, vm2. rewrite L10 in L2. split. { rewrite E00 at 1. rewrite <- E00 at 1. rewrite <- E00. rewrite upd_upd. reflexivity. } split; auto. rewrite L2. rewrite <- E00. reflexivity.
    - destruct (step_out F (upd qin i q1) eo qout vc1 vm1 Eid) as (eo' & qo' & vc' & vm2 & E2 & C1 & C2 & C3 & C4); auto. { apply ins_ok_d; auto. apply Q1. }
      exists q1, eo', qo', vc', vm2. split; [exact E2|]. auto. }
  destruct Hout' as (q2 & eo' & qout' & vc' & vm2 & E2 & L2 & C1 & C2 & C3 & C4). rewrite E2. cbn [rbind].
  assert (Q2 : a_qin_ok R a mx (upd qin i q2)). { apply qin_upd; auto. apply act_nw; auto. }
  assert (HY : forall q, sumn nout (fun j => Dq (Yq (upd qin i q1)) j q) = sumn nout (fun j => Dq (Yu sx) j q)).
  { intros q. apply sumn_ext. intros j Hj. apply Dq_ext; auto. intros p c Hp Hc. unfold Yq, Yu. f_equal. apply (ins_fill R D CB a vm e He); auto. { rewrite upd_length; auto. }
    intros j' c' Hj' Ha' Hc'. unfold d_act. rewrite nth_upd' by lia. destruct (Nat.eqb_spec j' i) as [->|]; auto. }
  assert (C5 : minv (fun q => (F q + sumn nout (fun j => Dq (Yu sx) j q))%R) vm2). { apply minv_ext with (2 := C4). intros q. rewrite HY. reflexivity. }
  destruct (Nat.eqb_spec sx (evs - 1)) as [Hend|Hend].
  - rewrite og_fld by auto. cbn [rbind]. destruct (clear_q_ok eb1 (upd qin i q2) i B1 Q2 Hi Hia) as (eb2 & q3 & E3 & K1 & K2 & K3 & K4). rewrite upd_upd in *. rewrite E3. cbn [rbind fst snd].
    eexists. split; [reflexivity|]. split; auto. split; auto. split; auto. split; auto. split; auto. split; auto. split. { apply qlen_upd; auto. }
    split. { intros j Hj Ha Hne x. rewrite nth_upd' by lia. destruct (Nat.eqb_spec j i); [congruence|]. auto. }
    split. { intros _ x. rewrite nth_upd', Nat.eqb_refl by lia. auto. } split; [intros; lia|]. apply pas_upd; auto.
  - cbn [rbind fst snd]. eexists. split; [reflexivity|]. split; auto. split; auto. split; auto. split; auto. split; auto. split; auto. split. { apply qlen_upd; auto. }
    split. { intros j Hj Ha Hne x. rewrite nth_upd' by lia. destruct (Nat.eqb_spec j i); [congruence|]. auto. }
    split. { intros; lia. } split. { intros _ x. rewrite Nat.add_sub. auto. } apply pas_upd; auto.
Qed.
End Sx.

(** ** one input *)
Definition linv (F : nat -> R) (st : dst R) : Prop := let '(eb, qin, eo, qout, vc, vm1) := st in
  a_eb_ok R D a mx eb /\ a_qin_ok R a mx qin /\ a_eo_ok R D a mx eo /\ a_qo_ok R a mx qout /\ vc_ok R CB vc /\ minv F vm1 /\ qlen qin /\
  (forall j, j < nin -> is_active (fi j) = true -> forall x, vf (nth j qin []) x = 0%R) /\ pas_ok R D CB a vm e qin.
Definition Din (q : nat) : R := sumn evs (fun sx => sumn nout (fun j => Dq sx (Yu sx) j q)).
Lemma atd_input_ok : forall F st, linv F st -> exists st', atd_input k junk CB a s sv av xe e N i st = Ok st' /\ linv (fun q => (F q + Din q)%R) st'.
Proof.
  intros F (((((eb, qin), eo), qout), vc), vm1) (A1 & A2 & A3 & A4 & A5 & A6 & A7 & A8 & A9). unfold atd_input. rewrite og_fld by auto. cbn [rbind]. rewrite Hia. cbn [negb].
  pose proof (act_nw i Hi Hia) as Hnw. pose proof (fin _ _ _ _ _ _ _ Hwf i Hi) as Hf.
  destruct (ao_rin _ _ _ _ _ Hs) as (Lri & Gri). destruct (Gri i Hi Hnw) as (r & Er & Ecr). rewrite (og_nth (s_rin s) None) by lia. cbn [rbind]. rewrite Er.
  destruct (aw_rwf _ _ _ _ _ _ _ _ Hf Hnw) as (Hrw & _). destruct (create_info _ _ e Hrw Ecr He) as (K1 & K2 & K3 & K4). rewrite K1, K2.
  assert (Es : (if actp then Ok N else Ok (r_es r)) = Ok (p_cnt (pdf (fi i)) e)).
  { destruct actp eqn:Ep; [|rewrite K4; auto]. destruct (act_mode i Hi Hia) as [En|Eb].
    - destruct (aw_none _ _ _ _ _ _ _ _ Hf En) as (_ & _ & H3). rewrite H3; auto.
    - pose proof (fb_std _ _ _ _ _ _ _ (aw_b _ _ _ _ _ _ _ _ Hf Eb)). congruence. }
  rewrite Es. cbn [rbind].
  destruct (@rfold_inv0 _ (fun m => sinv (fun q => (F q + sumn m (fun sx => sumn nout (fun j => Dq sx (Yu sx) j q)))%R) m) (atd_step k junk CB a s sv av xe e N i evs actp) evs (eb, qin, eo, qout, vc, vm1)) as (st' & E & H).
  - split; auto. split; auto. split; auto. split; auto. split; auto. split. { apply minv_ext with (2 := A6). intros q. cbn. ring. } split; auto. split; auto. split; auto. split; [intros; lia|]. auto.
  - intros m st Hm Hst. destruct (atd_step_ok m Hm _ st Hst) as (st' & E & H'). exists st'. split; auto.
    destruct st' as (((((eb', qin'), eo'), qout'), vc'), vm2). destruct H' as (B1 & B2 & B3 & B4 & B5 & B6 & B7).
    split; auto. split; auto. split; auto. split; auto. split; auto. split; auto. apply minv_ext with (2 := B6). intros q. rewrite (Nat.add_1_r m), sumn_S. ring.
  - exists st'. split; auto. destruct st' as (((((eb', qin'), eo'), qout'), vc'), vm2). destruct H as (B1 & B2 & B3 & B4 & B5 & B6 & B7 & B8 & B9 & B10 & B11).
    split; auto. split; auto. split; auto. split; auto. split; auto. split; auto. split; auto. split; auto.
    intros j Hj Ha x. destruct (Nat.eq_dec j i) as [->|]; auto.
Qed.
End In.
Definition Del (q : nat) : R := sumn nin (fun i => delta (is_active (fi i)) (Din i q)).
Lemma inputs_ok : forall F st, linv F st -> exists st', rfold (seq 0 nin) (atd_input k junk CB a s sv av xe e N) st = Ok st' /\ linv (fun q => (F q + Del q)%R) st'.
Proof.
  intros F st Hst.
  apply (@rfold_inv0 _ (fun m => linv (fun q => (F q + sumn m (fun i => delta (is_active (fi i)) (Din i q)))%R))).
  - destruct st as (((((eb', qin'), eo'), qout'), vc'), vm2). destruct Hst as (B1 & B2 & B3 & B4 & B5 & B6 & B7). split; auto. split; auto. split; auto. split; auto. split; auto. split; auto.
    apply minv_ext with (2 := B6). intros q. cbn. ring.
  - intros i st1 Hi H1. destruct (is_active (fi i)) eqn:Ea.
    + destruct (atd_input_ok i Hi Ea _ st1 H1) as (st' & E & H). exists st'. split; auto.
      destruct st' as (((((eb', qin'), eo'), qout'), vc'), vm2). destruct H as (B1 & B2 & B3 & B4 & B5 & B6 & B7). split; auto. split; auto. split; auto. split; auto. split; auto. split; auto.
      apply minv_ext with (2 := B6). intros q. rewrite Nat.add_1_r, sumn_S, Ea. cbn [delta]. ring.
    + exists st1. split. { unfold atd_input. rewrite og_fld by auto. cbn [rbind]. rewrite Ea. reflexivity. }
      destruct st1 as (((((eb', qin'), eo'), qout'), vc'), vm2). destruct H1 as (B1 & B2 & B3 & B4 & B5 & B6 & B7). split; auto. split; auto. split; auto. split; auto. split; auto. split; auto.
      apply minv_ext with (2 := B6). intros q. rewrite Nat.add_1_r, sumn_S, Ea. cbn [delta]. ring.
Qed.
End El.

(** ** elements *)
Definition dclean (qin : list (list R)) : Prop := forall j, j < nin -> is_active (fi j) = true -> forall x, vf (nth j qin []) x = 0%R.
Definition einv (e : nat) (st : nat * list R * dst R) : Prop := let '(off, xe, (eb, qin, eo, qout, vc, vm1)) := st in
  off = offp e /\ length xe = dimX * mx /\ a_eb_ok R D a mx eb /\ a_qin_ok R a mx qin /\ a_eo_ok R D a mx eo /\ a_qo_ok R a mx qout /\ vc_ok R CB vc /\
  minv (fun q => sumn e (fun e => Del e q)) vm1 /\ qlen qin /\ dclean qin.
Lemma pas_input_vm : forall vm1 ein xe e off np i st, pas_input k junk D CB a s vm1 ein xe e off np i st = pas_input k junk D CB a s vm ein xe e off np i st.
Proof.
  intros vm1 ein xe e off np i ((eb, qin), vc). unfold pas_input, atp_input. destruct (og (o_in o) i) as [f| |]; cbn [rbind]; auto.
Qed.
Lemma atd_pass_ok : forall ein e st, e < NE -> length ein = nin ->
  (forall i, i < nin -> f_mode (fi i) <> EvWeight -> is_active (fi i) = false -> a_ein_ok R chk D a vm i ein) ->
  einv e st -> exists st', atd_pass k junk D CB a rx s sv av ein e st = Ok st' /\ einv (e + 1) st'.
Proof.
  intros ein e ((off, xe), (((((eb, qin), eo), qout), vc), vm1)) He Lein Hein (-> & Wx & We & Wq & Weo & Wqo & Wv & Wm & Wl & Wc). unfold atd_pass.
  destruct Hxv as (x & Ex & Lx).
  assert (Exv : vm1 (a_xvec a) = vm (a_xvec a)). { apply (proj1 (proj2 Wm)); [congruence|]. intros j Hj. apply Hnav. auto. }
  rewrite Exv, Ex.
  destruct (x_create R k Jmin chk D CB a Hwf) as (rx' & Cx & X1 & X2 & X3 & X4 & X5). rewrite Hrx in Cx. inversion Cx; subst rx'. clear Cx.
  destruct (aw_x _ _ _ _ _ _ _ Hwf) as (Hpx & Hrw). pose proof (Hmx e He) as Hme.
  assert (Ecnt : p_cnt (D (a_rpts a)) e = npt e). { unfold pts. destruct (D (a_rpts a)); [discriminate|]. reflexivity. }
  destruct (elem_nt R chk NE (D (a_rpts a)) rx e x xe Hrw Hrx He) as (xe' & E0 & L0 & G0).
  { unfold len_in. rewrite Hpx. exact Lx. } { unfold len_e. rewrite Hpx, Ecnt, Wx. nia. }
  rewrite X5, E0. cbn [be rbind]. rewrite X4 by auto. cbn [be rbind].
  assert (Hxe : xe_ok e xe').
  { split; [congruence|]. intros d p Hd Hp. rewrite Ecnt in G0. rewrite G0 by auto. unfold xcont. rewrite Ex. destruct (D (a_rpts a)); [discriminate|]. reflexivity. }
  destruct (@rfold_inv0 _ (pinv R D CB a mx vm qin e) (pas_input k junk D CB a s vm1 ein xe' e (offp e) (npt e)) nin (eb, qin, vc)) as (((eb1, qin1), vc1) & E1 & I1 & I2 & I3 & I4 & I5).
  { split; auto. split; auto. split; auto. split; auto. intros; lia. }
  { intros i st Hi Hst. rewrite pas_input_vm. apply (pas_input_ok R k Jmin junk chk D CB a Hwf mx Hmx s Hs vm); auto. }
  rewrite E1. cbn [rbind].
  destruct (inputs_ok e He xe' Hxe (fun q => sumn e (fun e => Del e q)) (eb1, qin1, eo, qout, vc1, vm1)) as (st' & E2 & H2).
  { split; auto. split; auto. split; auto. split; auto. split; auto. split; auto. split. { intros j Hj Ha. rewrite I4 by auto. auto. } split. { intros j Hj Ha y. rewrite I4 by auto. apply Wc; auto. } intros j Hj Ha. apply I5; auto. }
  rewrite E2. cbn [rbind]. eexists. split; [reflexivity|]. destruct st' as (((((eb', qin'), eo'), qout'), vc'), vm2). destruct H2 as (B1 & B2 & B3 & B4 & B5 & B6 & B7 & B8 & B9).
  split. { rewrite Nat.add_1_r. reflexivity. } split; [congruence|]. split; auto. split; auto. split; auto. split; auto. split; auto. split; auto.
  apply minv_ext with (2 := B6). intros q. rewrite Nat.add_1_r, sumn_S. reflexivity.
Qed.
Definition d_raw (q : nat) : R := sumn NE (fun e => Del e q).
Lemma clear_all_ok : forall eb qin, a_eb_ok R D a mx eb -> a_qin_ok R a mx qin ->
  exists eb' qin', clear_all o (eb, qin) = Ok (eb', qin') /\ a_eb_ok R D a mx eb' /\ a_qin_ok R a mx qin' /\ qlen qin' /\ dclean qin'.
Proof.
  intros eb qin Heb Hq. unfold clear_all.
  destruct (@rfold_inv0 _ (fun m (st : list (list R) * list (list R)) => a_eb_ok R D a mx (fst st) /\ a_qin_ok R a mx (snd st) /\
     forall j, j < m -> j < nin -> is_active (fi j) = true -> length (nth j (snd st) []) = mx * f_size (fi j) /\ forall x, vf (nth j (snd st) []) x = 0%R)
     (fun i st => f <~ og (o_in o) i ;; if is_active f then clear_q f i st else Ok st) nin (eb, qin)) as ((eb', qin') & E & H1 & H2 & H3).
  - split; auto. split; auto. intros; lia.
  - intros i (eb1, qin1) Hi (G1 & G2 & G3). cbn [fst snd] in *. rewrite og_fld by auto. cbn [rbind]. destruct (is_active (fi i)) eqn:Ea.
    + destruct (clear_q_ok eb1 qin1 i G1 G2 Hi Ea) as (eb2 & q & E & K1 & K2 & K3 & K4). rewrite E. eexists. split; [reflexivity|]. cbn [fst snd]. split; auto. split; auto.
      destruct G2 as (Lq & _). intros j Hj Hjn Ha. rewrite nth_upd' by lia. destruct (Nat.eqb_spec j i) as [->|]; [auto|]. apply G3; auto. lia.
    + eexists. split; [reflexivity|]. cbn [fst snd]. split; auto. split; auto. intros j Hj Hjn Ha. destruct (Nat.eq_dec j i) as [->|]; [congruence|]. apply G3; auto. lia.
  - exists eb', qin'. split; auto. cbn [fst snd] in *. split; auto. split; auto. split.
    + intros j Hj Ha. apply H3; auto.
    + intros j Hj Ha. apply H3; auto.
Qed.
Theorem atd_core_ok : forall x, adyn_ok R chk D CB a mx x -> a_cache_ok R chk D a (ad x) vm ->
  (forall i, i < nin -> f_mode (fi i) <> EvWeight -> is_active (fi i) = false -> at_has R D vm (fi i) None false) ->
  exists x' vm', atd_core k junk D CB a rx s x sv av vm = Ok (x', vm') /\ adyn_ok R chk D CB a mx x' /\ a_cache_ok R chk D a (ad x') vm' /\ dclean (d_qin (ad x')) /\ minv d_raw vm'.
Proof.
  intros x [D1 D2 D3 D4 D5 D6 D7 D8] Hc Hpas. unfold atd_core.
  destruct (clear_all_ok _ _ D6 D4) as (eb0 & qin0 & E0 & K1 & K2 & K3 & K4). rewrite E0. cbn [rbind fst snd].
  destruct (a_setup_inputs_ok R k Jmin chk D CB a Hwf vm s Hs Hpas (ad x) D1 D2 Hc) as (d1 & E1 & S1 & S2 & S3 & S4 & S5 & S6 & S7).
  rewrite E1. cbn [rbind]. rewrite S4, S6.
  destruct (@rfold_inv0 _ einv (atd_pass k junk D CB a rx s sv av (d_ein d1)) NE (0, ad_xe x, (eb0, qin0, d_eout (ad x), d_qout (ad x), ad_vc x, vm))) as (((off, xe), (((((eb, qin), eo), qout), vc), vm')) & E2 & I).
  { split; auto. split; auto. split; auto. split; auto. split; auto. split; auto. split; auto. split; auto. destruct Hav as (y & Ey & _). split; auto. split; auto. exists y, y. repeat split; auto. intros q. cbn. ring. }
  { intros e st He Hst. apply atd_pass_ok; auto. apply S2. }
  rewrite E2. cbn [rbind]. destruct I as (I1 & I2 & I3 & I4 & I5 & I6 & I7 & I8 & I9 & I10). do 2 eexists. split; [reflexivity|]. split; [|split; [|split]]; auto.
  - constructor; cbn [ad d_states d_ein d_eout d_qin d_qout ad_eb ad_xe ad_vc]; auto.
  - apply (a_cache_mono R chk D a (mkDy (d_states d1) (d_ein d1) eo qin qout) vm vm'); [|exact S3].
    intros v. destruct (proj1 I8 v) as [X|(X & _)]; auto.
Qed.
End Atd.
