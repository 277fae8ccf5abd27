(** * Proof that assembly at points computes the matrix of the QFunction at each point *)
From Coq Require Import List ZArith Lia Bool Arith.
From Verif Require Import Prelude RstrModel RstrSpec RstrProofs RstrMain RstrPoints RstrProps TensorModel TensorMain BasisModel BasisProofs BasisProps Digits PointsModel PointsProofs PointsProps OpModel OpSpec OpLists OpProofs OpMain OptModel OptProofs AtpModel AtpSpec AtpProofs AtpMain AsmModel AsmSpec AsmProofs AtqModel AtqSpec.
Import ListNotations.
Local Open Scope nat_scope.

Section Atq.
Variable R : Rng.
Add Ring Rr : (r_th R).
Variable k : kernel R.
Variable Jmin : nat.
Variable junk : nat -> nat -> R.
Variable chk : bool.
Variable D : nat -> pdesc.
Variable CB : nat -> tbasis R.
Variable a : atop R.
Notation o := (a_op a).
Hypothesis Hwf : atp_wf R D CB a k Jmin chk.
Notation nin := (length (o_in o)).
Notation nout := (length (o_out o)).
Notation fi := (fld (o_in o)).
Notation fo := (fld (o_out o)).
Notation fst_in := (first (sameE (o_in o))).
Notation NE := (o_ne o).
Notation pdf := (pd R D).
Notation dimX := (p_nc (D (a_rpts a))).
Notation npt := (pts R D a).
Notation ni := (length (comps (o_in o))).
Notation no := (length (comps (o_out o))).
Notation bi := (fun i => nth i (a_bin a) 0).
Variable mx : nat.
Hypothesis Hmx : forall e, e < NE -> npt e <= mx.
Variable s : stat.
Hypothesis Hs : astat_ok R chk D a s.
Variable rx : rstr.
Hypothesis Hrx : pcreate chk (D (a_rpts a)) = Ok rx.
Variable vm : vmem R.

Hypothesis Hxv : exists x, vv_data (vm (a_xvec a)) = Some x /\ p_ls (D (a_rpts a)) <= length x.
Notation xc := (xcont R a vm).
Notation qv := (qv R D CB a vm None).
Notation xe_ok := (xe_ok R D a mx vm).
Notation offp := (offp R D a).
Hypothesis Hact : forall i, i < nin -> is_active (fi i) = true -> isb (f_mode (fi i)) = true.
Hypothesis Hacto : forall i, i < nout -> is_active (fo i) = true -> isb (f_mode (fo i)) = true.

Lemma before_offp : forall e, before D a e = offp e.
Proof.
  induction e as [|e IH]; [reflexivity|]. unfold before in *. rewrite seq_S, map_app, list_sum_app, IH. cbn. lia.
Qed.

(** ** passive inputs *)
Definition pinv (qin0 : list (list R)) (e i : nat) (st : list (list R) * list (list R) * (nat -> list R)) : Prop := let '(eb, qin, vc) := st in
  a_eb_ok R D a mx eb /\ a_qin_ok R a mx qin /\ vc_ok R CB vc /\
  (forall j, j < nin -> is_active (fi j) = true -> nth j qin [] = nth j qin0 []) /\
  (forall j, j < i -> is_active (fi j) = false -> qv j e (nth j qin [])).
Lemma pqv_upd : forall (qin : list (list R)) e i q, length qin = nin -> i < nin -> (forall j, j < i -> is_active (fi j) = false -> qv j e (nth j qin [])) -> qv i e q ->
  forall j, j < i + 1 -> is_active (fi j) = false -> qv j e (nth j (upd qin i q) []).
Proof.
  intros qin e i q L Hi H Hq j Hj Ha. rewrite nth_upd' by lia. destruct (Nat.eqb_spec j i) as [->|]; auto. apply H; auto. lia.
Qed.
Lemma pas_input_ok : forall ein xe e i qin0 st, e < NE -> i < nin -> xe_ok e xe -> length ein = nin ->
  (forall i, i < nin -> f_mode (fi i) <> EvWeight -> is_active (fi i) = false -> a_ein_ok R chk D a vm i ein) ->
  pinv qin0 e i st -> exists st', pas_input k junk D CB a s vm ein xe e (offp e) (npt e) i st = Ok st' /\ pinv qin0 e (i + 1) st'.
Proof.
  intros ein xe e i qin0 ((eb, qin), vc) He Hi Hx Lein Hein (Heb & Hq & Hvc & Hac & Hqv). unfold pas_input. rewrite og_fld by auto. cbn [rbind].
  pose proof (fin _ _ _ _ _ _ _ Hwf i Hi) as Hf. pose proof Hq as (Lq & Gq).
  destruct (is_active (fi i)) eqn:Ea.
  { eexists. split; [reflexivity|]. split; auto. split; auto. split; auto. split; auto. intros j Hj Hja. destruct (Nat.eq_dec j i) as [->|]; [congruence|]. apply Hqv; auto. lia. }
  destruct (ao_slot _ _ _ _ _ Hs) as (Lsl & Gsl). destruct (ao_skin _ _ _ _ _ Hs) as (Lsk & Gsk). destruct (ao_rin _ _ _ _ _ Hs) as (Lri & Gri).
  destruct (a_fst_in R a i) as (F1 & F2). destruct (aw_bl _ _ _ _ _ _ _ Hwf) as (Bi & _).
  assert (Hkeep : forall q j, j < nin -> is_active (fi j) = true -> nth j (upd qin i q) [] = nth j qin0 []).
  { intros q j Hj Hja. rewrite nth_upd' by lia. destruct (Nat.eqb_spec j i) as [->|]; [congruence|auto]. }
  unfold atp_input. rewrite og_fld by auto. cbn [rbind]. rewrite (og_nth (s_skin s) false), (og_nth (s_slot s) 0) by lia. cbn [rbind].
  rewrite (og_nth (s_rin s) None) by lia. cbn [rbind]. rewrite Gsl, Gsk by auto. rewrite Ea. cbn [andb rbind].
  destruct (amode _ _ _ _ _ _ _ _ Hf) as [Ew|Hm].
  { rewrite Ew. eexists. split; [reflexivity|]. split; auto. split; auto. split; auto. split; auto.
    intros j Hj Hja. destruct (Nat.eq_dec j i) as [->|]; [|apply Hqv; auto; lia]. destruct (aw_weight _ _ _ _ _ _ _ _ Hf Ew) as (Es & _). destruct (Gq i Hi) as (_ & Gw). destruct (Gw Ew) as (Lw & Vw).
    pose proof (Hmx e He). split; [rewrite Es; lia|]. intros c p Hc Hp. rewrite Es in Hc. replace c with 0 by lia. cbn [Nat.mul Nat.add]. rewrite Vw by lia. unfold at_in_val. rewrite Ew. reflexivity. }
  assert (Hn : f_mode (fi i) <> EvWeight). { intros E. rewrite E in Hm. destruct Hm; discriminate. }
  destruct (aw_rwf _ _ _ _ _ _ _ _ Hf Hn) as (Hrw & ri & Eri & Edi).
  destruct (Hein i Hi Hn Ea) as (ed & Ee & (_ & Hb & Hfu)).
  destruct Hm as [En|Eb].
  - rewrite En. destruct (aw_none _ _ _ _ _ _ _ _ Hf En) as (Hp & Hsz & Hcnt).
    rewrite (og_nth ein None) by lia. cbn [rbind]. rewrite Ee.
    pose proof (Hb e He) as Hbe. rewrite (pstart_none R Jmin chk D CB a (fi i) (bi i) e Hf En), Hcnt, <- Hsz in Hbe by (auto; lia).
    destruct (@slice_ok R ed (offp e * f_size (fi i)) (npt e * f_size (fi i))) as (q & Eq & Lqq & Gqq). { lia. }
    rewrite Eq. cbn [rbind]. eexists. split; [reflexivity|]. split; auto.
    split. { apply qin_upd; auto. rewrite En. discriminate. } split; auto. split; auto. apply pqv_upd; auto.
    split. { lia. }
    intros c p Hc Hpp. rewrite Gqq by nia. rewrite <- (pstart_none R Jmin chk D CB a (fi i) (bi i) e Hf En) by lia.
    rewrite Hsz in Hc. specialize (Hfu e c p He Hc). rewrite Hcnt in Hfu by auto. rewrite Hfu by auto. unfold at_in_val. rewrite En. reflexivity.
  - pose proof (aw_b _ _ _ _ _ _ _ _ Hf Eb) as B. pose proof (fb_std _ _ _ _ _ _ _ B) as Bs.
    specialize (Hb e He).
    assert (Est : e * p_esize D (fi i) * t_nc (tb R (fi i)) = pstart (pdf (fi i)) e).
    { unfold p_esize. rewrite Eri. rewrite Edi in *. rewrite (fb_nc _ _ _ _ _ _ _ B), Edi. destruct (D ri); [|discriminate]. cbn [pstart p_nc]. ring. }
    destruct (@slice_ok R ed (pstart (pdf (fi i)) e) (p_cnt (pdf (fi i)) e * p_nc (pdf (fi i)))) as (u & Eu & Lu & Gu). { lia. }
    assert (Lu' : t_nc (tb R (fi i)) * t_P (tb R (fi i)) ^ t_dim (tb R (fi i)) <= length u). { rewrite (fb_P _ _ _ _ _ _ _ B e), (fb_nc _ _ _ _ _ _ _ B). lia. }
    assert (Gu' : forall c n, c < t_nc (tb R (fi i)) -> n < t_P (tb R (fi i)) ^ t_dim (tb R (fi i)) -> vf u (c * t_P (tb R (fi i)) ^ t_dim (tb R (fi i)) + n) = gather R (pdf (fi i)) (contents vm (fi i) None) e c n).
    { rewrite (fb_P _ _ _ _ _ _ _ B e), (fb_nc _ _ _ _ _ _ _ B). intros c n Hc Hnn. rewrite Gu by nia. rewrite Hfu by auto. reflexivity. }
    destruct (in_basis R k Jmin junk chk D CB a Hwf mx Hmx vm (fi i) (bi i) e xe u (vc (bi i)) (nth i qin []) _ B Eb He Hx Lu' (Hvc (bi i)) (proj1 (Gq i Hi) Eb) Gu') as (vc' & q & E & L1 & L2 & G).
    assert (Eres : (q0 <~ og qin i ;; b <~ og (a_bin a) i ;;
      match f_basis (fi i) with
      | None => UB
      | Some bb =>
          u <~ (ed <~ og ein (fst_in i) ;;
                     match ed with None => UB | Some ed => slice ed (e * p_esize D (fi i) * b_nc bb) (b_nodes bb * b_nc bb) end) ;;
          r <~ be (apply_at_points k junk bb (CB b) false [npt e] NoTranspose (f_mode (fi i)) xe u (vc b) q0) ;;
          Ok (eb, upd qin i (snd r), cset R vc b (fst r))
      end) = Ok (eb, upd qin i q, cset R vc (bi i) vc')).
    { rewrite (og_nth qin []), (og_nth (a_bin a) 0) by lia. cbn [rbind]. rewrite (fb_b _ _ _ _ _ _ _ B). rewrite (og_nth ein None) by lia. cbn [rbind]. rewrite Ee.
      cbn [b_nc b_nodes]. rewrite Est, (fb_P _ _ _ _ _ _ _ B e), (fb_nc _ _ _ _ _ _ _ B), Eu. cbn [rbind]. rewrite E. reflexivity. }
    exists (eb, upd qin i q, cset R vc (bi i) vc'). split. { destruct (f_mode (fi i)); try discriminate; exact Eres. }
    split; auto. split. { apply qin_upd; auto. intros _. rewrite L2. apply (Gq i Hi). auto. } split. { apply cset_ok; auto. } split; auto. apply pqv_upd; auto.
    split. { rewrite L2, (proj1 (Gq i Hi) Eb). pose proof (Hmx e He). nia. }
    intros c p Hc Hp. rewrite G by auto. unfold at_in_val. destruct (f_mode (fi i)); try discriminate; reflexivity.
Qed.

(** ** one component *)
Section El.
Variable e : nat.
Hypothesis He : e < NE.
Notation N := (npt e).

Lemma set_comp_ok : forall qin i c v, a_qin_ok R a mx qin -> i < nin -> is_active (fi i) = true -> c < f_size (fi i) ->
  exists qin', set_comp N i c v qin = Ok qin' /\ a_qin_ok R a mx qin' /\
    (forall j, j <> i -> nth j qin' [] = nth j qin []) /\
    forall x, vf (nth i qin' []) x = if (c * N <=? x) && (x <? c * N + N) then v else vf (nth i qin []) x.
Proof.
  intros qin i c v Hq Hi Ha Hc. pose proof Hq as (Lq & Gq). unfold set_comp. rewrite (og_nth qin []) by lia. cbn [rbind].
  destruct (Gq i Hi) as (Li & _). specialize (Li (Hact i Hi Ha)). pose proof (Hmx e He) as Hme.
  destruct (@blit_ok R (nth i qin []) (c * N) (repeat v N)) as (q' & E & L & G).
  { rewrite repeat_length, Li. nia. }
  rewrite E. cbn [rbind]. eexists. split; [reflexivity|]. split; [|split].
  - apply qin_upd; auto. { intros Ew. pose proof (Hact i Hi Ha) as Hb. rewrite Ew in Hb. discriminate. } intros _. lia.
  - intros j Hj. destruct (Nat.lt_ge_cases j (length qin)).
    + rewrite nth_upd' by lia. destruct (Nat.eqb_spec j i); [lia|]. auto.
    + rewrite !nth_overflow by (rewrite ?upd_length; lia). auto.
  - intros x. rewrite nth_upd', Nat.eqb_refl by lia. rewrite G, repeat_length.
    destruct (Nat.leb_spec (c * N) x); cbn [andb]; auto. destruct (Nat.ltb_spec x (c * N + N)); auto.
    unfold vf. rewrite nth_indep with (d' := v) by (rewrite repeat_length; lia). apply nth_repeat.
Qed.
Lemma out_arr_nth : forall qin j size c p, c < size -> p < N -> vf (out_arr o N qin j size) (c * N + p) = vf (nth j (o_pt o (ins_at o N qin p)) []) c.
Proof.
  intros qin j size c p Hc Hp. unfold out_arr. rewrite vf_map_seq by nia.
  rewrite Nat.div_add_l by lia. rewrite (Nat.div_small p) by auto. rewrite Nat.add_comm with (n := c * N), Nat.mod_add by lia.
  rewrite Nat.mod_small by auto. rewrite Nat.add_0_r. reflexivity.
Qed.
Lemma ident_no : 0 < no -> o_ident o = false.
Proof.
  intros H. destruct (o_ident o) eqn:Eid; auto. exfalso. destruct (aw_id _ _ _ _ _ _ _ Hwf Eid) as (_ & No & _ & Em).
  destruct (is_active (fo 0)) eqn:E. { pose proof (Hacto 0 ltac:(lia) E) as Hb. rewrite Em in Hb. discriminate. }
  unfold comps in H. rewrite No in H. unfold comps_n in H. simpl in H. rewrite E in H. simpl in H. lia.
Qed.
Lemma atq_outs_ok : forall qin buf pos, length qin = nin -> ins_ok o N qin = true -> 0 < no -> pos + no * N <= length buf ->
  exists buf', atq_outs o N qin (buf, pos) = Ok (buf', pos + no * N) /\ length buf' = length buf /\
    (forall x, x < pos \/ pos + no * N <= x -> vf buf' x = vf buf x) /\
    forall b p, b < no -> p < N -> vf buf' (pos + (b * N + p)) =
      qf_at o (ins_at o N qin p) (fst (nth b (comps (o_out o)) (0, 0))) (snd (nth b (comps (o_out o)) (0, 0))).
Proof.
  intros qin buf pos Lq Hins Hno Hlen. unfold atq_outs. pose proof (ident_no Hno) as Eid. rewrite Eid.
  destruct (aw_vl _ _ _ _ _ _ _ Hwf Eid) as (V1 & V2). destruct (Nat.eqb_spec (o_vlen o) 0); [lia|].
  rewrite V2 by auto. cbn [negb Nat.eqb]. rewrite Hins. cbn [negb].
  set (P := fun (j : nat) (st : list R * nat) => snd st = pos + pre (o_out o) j * N /\ length (fst st) = length buf /\
      (forall x, x < pos \/ pos + pre (o_out o) j * N <= x -> vf (fst st) x = vf buf x) /\
      forall b p, b < pre (o_out o) j -> p < N -> vf (fst st) (pos + (b * N + p)) =
        qf_at o (ins_at o N qin p) (fst (nth b (comps (o_out o)) (0, 0))) (snd (nth b (comps (o_out o)) (0, 0)))).
  match goal with |- context [rfold _ ?F ?st] => destruct (@rfold_inv0 _ P F nout st) as ((buf', pos') & E & H1 & H2 & H3 & H4) end.
  + unfold P. change (pre (o_out o) 0) with 0. cbn [fst snd]. split; [lia|]. split; auto. split; auto. intros; lia.
  + intros j (bf, ps) Hj (P1 & P2 & P3 & P4). cbn [fst snd] in *. rewrite og_fld by auto. cbn [rbind].
    pose proof (pre_S (o_out o) j) as Ep. destruct (is_active (fo j)) eqn:Ea.
    * assert (Hle : pre (o_out o) (j + 1) <= no) by (apply pre_mono; lia).
      assert (Lx : length (out_arr o N qin j (f_size (fo j))) = f_size (fo j) * N) by (unfold out_arr; rewrite map_length, seq_length; auto).
      destruct (@blit_ok R bf ps (out_arr o N qin j (f_size (fo j)))) as (bf' & Eb & Lb & Gb). { rewrite Lx. nia. }
      rewrite Eb. cbn [rbind]. eexists. split; [reflexivity|]. unfold P. cbn [fst snd]. rewrite Ep. split; [lia|]. split; [lia|].
      assert (G : forall x, vf bf' x = if (ps <=? x) && (x <? ps + f_size (fo j) * N) then vf (out_arr o N qin j (f_size (fo j))) (x - ps) else vf bf x).
      { intros x. rewrite Gb, Lx. reflexivity. }
      split.
      -- intros x Hx. rewrite G. rewrite <- P3 by (destruct Hx; [left|right]; nia).
         destruct (Nat.leb_spec ps x); cbn [andb]; auto. destruct (Nat.ltb_spec x (ps + f_size (fo j) * N)); auto. exfalso. nia.
      -- intros b p Hb Hp. rewrite G. destruct (Nat.lt_ge_cases b (pre (o_out o) j)) as [Hlt|Hge].
         ++ rewrite <- P4 by auto. destruct (Nat.leb_spec ps (pos + (b * N + p))); cbn [andb]; auto. exfalso. nia.
         ++ set (c := b - pre (o_out o) j). assert (Eb' : b = pre (o_out o) j + c) by lia. assert (Hc : c < f_size (fo j)) by lia.
            assert (Ex : pos + (b * N + p) = ps + (c * N + p)) by nia. assert (c * N + p < f_size (fo j) * N) by nia.
            rewrite Ex. destruct (Nat.leb_spec ps (ps + (c * N + p))); [|lia].
            destruct (Nat.ltb_spec (ps + (c * N + p)) (ps + f_size (fo j) * N)); [|lia]. cbn [andb].
            replace (ps + (c * N + p) - ps) with (c * N + p) by lia. rewrite out_arr_nth by auto.
            unfold comps. rewrite Eb', (@comps_nth R (o_out o)) by auto. cbn [fst snd]. unfold qf_at. rewrite Eid. reflexivity.
    * eexists. split; [reflexivity|]. unfold P. cbn [fst snd]. rewrite Ep, Nat.add_0_r. auto.
  + cbn [fst snd] in *. exists buf'. rewrite E. change (pre (o_out o) nout) with no in *. rewrite H1. auto.
Qed.
Definition pas_ok (qin : list (list R)) : Prop := forall i, i < nin -> is_active (fi i) = false -> qv i e (nth i qin []).
Lemma ins_fill : forall qin p act, length qin = nin -> p < N -> pas_ok qin ->
  (forall i c, i < nin -> is_active (fi i) = true -> c < f_size (fi i) -> vf (nth i qin []) (c * N + p) = act i c) ->
  ins_at o N qin p = fill o (at_pas_val D CB a vm e p) act.
Proof.
  intros qin p act Lq Hp Hps Hac. unfold ins_at, fill. rewrite combine_seq by auto. rewrite map_map. apply map_ext_in. intros i Hi. apply in_seq in Hi. cbn [fst snd].
  apply map_ext_in. intros c Hc. apply in_seq in Hc. destruct (is_active (fi i)) eqn:Ea; [apply Hac; auto; lia|].
  destruct (Hps i ltac:(lia) Ea) as (_ & G). apply G; auto; lia.
Qed.
Lemma ins_ok_q : forall qin, a_qin_ok R a mx qin -> pas_ok qin -> ins_ok o N qin = true.
Proof.
  intros qin (Lq & Gq) Hps. unfold ins_ok. rewrite Lq, Nat.eqb_refl. cbn [andb]. rewrite combine_seq by auto. apply forallb_forall. intros x Hx. apply in_map_iff in Hx. destruct Hx as (i & <- & Hi). apply in_seq in Hi.
  cbn [fst snd]. apply Nat.leb_le. destruct (is_active (fi i)) eqn:Ea.
  - rewrite (proj1 (Gq i ltac:(lia)) (Hact i ltac:(lia) Ea)). pose proof (Hmx e He). nia.
  - apply (Hps i); auto. lia.
Qed.
End El.

(** ** the loops *)
Definition zeros (qin : list (list R)) (e i : nat) : Prop := forall x, x < f_size (fi i) * npt e -> vf (nth i qin []) x = 0%R.
Definition clean (qin : list (list R)) : Prop := forall e i, e < NE -> i < nin -> is_active (fi i) = true -> zeros qin e i.
Variable cl : bool.
Variable len : nat.
Hypothesis Hno : 0 < no.
Hypothesis Hlen : ni * no * offp NE <= len.
Record inv (e i c : nat) (st : list (list R) * (list R * nat)) : Prop := {
  v_q : a_qin_ok R a mx (fst st);
  v_pas : pas_ok e (fst st);
  v_pos : snd (snd st) = ni * no * offp e + (pre (o_in o) i + c) * (no * npt e);
  v_len : length (fst (snd st)) = len;
  v_prev : forall e' j, e' < e -> j < nin -> is_active (fi j) = true -> zeros (fst st) e' j;
  v_done : forall j, j < i -> is_active (fi j) = true -> zeros (fst st) e j;
  v_cur : forall x, x < c * npt e -> vf (nth i (fst st) []) x = 0%R;
  v_clean : cl = true -> clean (fst st);
  v_buf : cl = true \/ ni = 1 -> forall e' ca cb p, e' < e /\ ca < ni \/ e' = e /\ ca < pre (o_in o) i + c -> cb < no -> p < npt e' ->
     vf (fst (snd st)) (ni * no * offp e' + ((ca * no + cb) * npt e' + p)) = at_entry D CB a vm e' ca cb p
}.
Lemma pre_lt : forall i c, i < nin -> is_active (fi i) = true -> c < f_size (fi i) -> pre (o_in o) i + c < ni.
Proof. intros i c Hi Ha Hc. pose proof (pre_S (o_in o) i) as H. rewrite Ha in H. pose proof (@pre_mono R (o_in o) (i + 1) nin ltac:(lia)). unfold comps. unfold pre in *. lia. Qed.
Lemma offp_le : forall e e', e <= e' -> offp e <= offp e'.
Proof. intros e e' H. induction H; auto. cbn [AtpMain.offp]. lia. Qed.
Lemma atq_comp_ok : forall e i c st, e < NE -> i < nin -> is_active (fi i) = true -> c < f_size (fi i) -> inv e i c st ->
  exists st', atq_comp o (npt e) i c st = Ok st' /\ inv e i (c + 1) st'.
Proof.
  intros e i c (qin, (buf, pos)) He Hi Ha Hc [Vq Vp Vpos Vl Vpr Vd Vcu Vc Vb]. cbn [fst snd] in *. unfold atq_comp. cbn [fst snd].
  destruct (set_comp_ok e He qin i c 1%R Vq Hi Ha Hc) as (q1 & E1 & K1 & K2 & K3). rewrite E1. cbn [rbind].
  pose proof (pre_lt i c Hi Ha Hc) as Hpre. set (t := pre (o_in o) i + c) in *.
  pose proof (offp_le (e + 1) NE ltac:(lia)) as Hof. rewrite Nat.add_1_r in Hof. cbn [AtpMain.offp] in Hof.
  assert (Hroom : pos + no * npt e <= length buf).
  { rewrite Vl, Vpos. eapply Nat.le_trans; [|exact Hlen]. transitivity (ni * no * (offp e + npt e)); [|apply Nat.mul_le_mono_l; auto].
    rewrite Nat.mul_add_distr_l. assert (t * (no * npt e) + no * npt e <= ni * no * npt e); [|lia].
    transitivity ((t + 1) * (no * npt e)); [lia|]. rewrite <- Nat.mul_assoc. apply Nat.mul_le_mono_r. lia. }
  assert (Hp1 : pas_ok e q1). { intros j Hj Hja. rewrite K2 by congruence. apply Vp; auto. }
  destruct (atq_outs_ok e He q1 buf pos) as (buf' & E2 & L2 & O2 & G2); auto. { apply K1. } { apply ins_ok_q; auto. }
  rewrite E2. cbn [rbind].
  destruct (set_comp_ok e He q1 i c 0%R K1 Hi Ha Hc) as (q2 & E3 & M1 & M2 & M3). rewrite E3. cbn [rbind].
  eexists. split; [reflexivity|].
  assert (Hother : forall j, j <> i -> nth j q2 [] = nth j qin []) by (intros j Hj; rewrite M2, K2 by auto; auto).
  assert (Hsame : forall x, vf (nth i q2 []) x = if (c * npt e <=? x) && (x <? c * npt e + npt e) then 0%R else vf (nth i qin []) x).
  { intros x. rewrite M3, K3. destruct ((c * npt e <=? x) && (x <? c * npt e + npt e)); auto. }
  assert (Hz : forall j x, vf (nth j qin []) x = 0%R -> vf (nth j q2 []) x = 0%R).
  { intros j x H. destruct (Nat.eq_dec j i) as [->|]; [|rewrite Hother; auto]. rewrite Hsame. destruct (_ && _); auto. }
  split; cbn [fst snd]; auto.
  - intros j Hj Hja. rewrite Hother by congruence. apply Vp; auto.
  - rewrite Vpos. unfold t. ring.
  - lia.
  - intros e' j He' Hj Hja x Hx. apply Hz. apply (Vpr e' j); auto.
  - intros j Hj Hja x Hx. apply Hz. apply (Vd j); auto.
  - intros x Hx. rewrite Hsame. destruct (Nat.leb_spec (c * npt e) x); cbn [andb]; [|auto]. destruct (Nat.ltb_spec x (c * npt e + npt e)); auto. lia.
  - intros Ecl e' j He' Hj Hja x Hx. apply Hz. apply (Vc Ecl e' j); auto.
  - intros Ecl e' ca cb p Hca Hcb Hp.
    assert (Hx : (ca = t /\ e' = e) \/ (e' < e /\ ca < ni \/ e' = e /\ ca < t)) by (unfold t in *; lia).
    destruct Hx as [(-> & ->)|Hx].
    + replace (ni * no * offp e + ((t * no + cb) * npt e + p)) with (pos + (cb * npt e + p)) by (rewrite Vpos; unfold t; ring).
      rewrite G2 by auto. rewrite (ins_fill e He q1 p (@AsmSpec.unit R (i, c))).
      * unfold at_entry. assert (En : nth t (comps (o_in o)) (0, 0) = (i, c)) by (apply comps_nth; auto). rewrite En. reflexivity.
      * apply K1.
      * auto.
      * auto.
      * intros j c' Hj Hja Hc'. unfold AsmSpec.unit. cbn [fst snd].
        assert (Hjc : j = i /\ c' = c \/ (cl = true /\ (j <> i \/ c' <> c))).
        { destruct Ecl as [|E]. { destruct (Nat.eq_dec j i); [destruct (Nat.eq_dec c' c)|]; auto. }
          left. pose proof (pre_lt j c' Hj Hja Hc') as Hpj. rewrite E in Hpj, Hpre.
          pose proof (@comps_nth R (o_in o) nin i c (0, 0) Hi Ha Hc) as X1. pose proof (@comps_nth R (o_in o) nin j c' (0, 0) Hj Hja Hc') as X2. unfold t in *.
          replace (pre (o_in o) i + c) with 0 in X1 by lia. replace (pre (o_in o) j + c') with 0 in X2 by lia. rewrite X1 in X2. inversion X2. auto. }
        destruct Hjc as [(-> & ->)|(Ecl' & Hne)].
        -- rewrite !Nat.eqb_refl. cbn [andb]. rewrite K3. destruct (Nat.leb_spec (c * npt e) (c * npt e + p)); [|lia]. destruct (Nat.ltb_spec (c * npt e + p) (c * npt e + npt e)); [|lia]. reflexivity.
        -- assert (Hzz : vf (nth j qin []) (c' * npt e + p) = 0%R). { apply (Vc Ecl' e j); auto. nia. }
           destruct (Nat.eqb_spec j i) as [->|Hn]; cbn [andb].
           ++ destruct (Nat.eqb_spec c' c) as [->|Hnc]; [destruct Hne; congruence|]. rewrite K3.
              destruct (Nat.leb_spec (c * npt e) (c' * npt e + p)); cbn [andb]; auto. destruct (Nat.ltb_spec (c' * npt e + p) (c * npt e + npt e)); auto. exfalso. nia.
           ++ rewrite K2 by auto. auto.
    + rewrite O2. { apply Vb; auto. } left. rewrite Vpos. fold t. destruct Hx as [(H1 & H2)|(-> & H2)].
      * pose proof (offp_le (e' + 1) e ltac:(lia)) as Ho. rewrite Nat.add_1_r in Ho. cbn [AtpMain.offp] in Ho.
        assert ((ca * no + cb) * npt e' + p < ni * no * npt e'). { assert (ca * no + cb < ni * no) by nia. nia. }
        assert (ni * no * (offp e' + npt e') <= ni * no * offp e) by (apply Nat.mul_le_mono_l; auto). rewrite Nat.mul_add_distr_l in H0. lia.
      * assert ((ca * no + cb) * npt e + p < t * (no * npt e)); [|lia]. assert (ca * no + cb < t * no) by nia. rewrite Nat.mul_assoc. nia.
Qed.
Lemma atq_input_ok : forall e i st, e < NE -> i < nin -> inv e i 0 st -> exists st', atq_input o (npt e) i st = Ok st' /\ inv e (i + 1) 0 st'.
Proof.
  intros e i st He Hi Hinv. unfold atq_input. rewrite og_fld by auto. cbn [rbind]. pose proof (pre_S (o_in o) i) as Ep. destruct (is_active (fi i)) eqn:Ea.
  - destruct (@rfold_inv0 _ (inv e i) (atq_comp o (npt e) i) (f_size (fi i)) st) as (st' & E & [Vq Vp Vpos Vl Vpr Vd Vcu Vc Vb]); auto.
    { intros c st0 Hc H. apply atq_comp_ok; auto. }
    exists st'. split; auto. split; auto.
    + rewrite Vpos, Ep. ring.
    + intros j Hj Hja. destruct (Nat.eq_dec j i) as [->|]; [|apply Vd; auto; lia]. exact Vcu.
    + intros x Hx. lia.
    + rewrite Ep, Nat.add_0_r. auto.
  - exists st. split; auto. destruct Hinv as [Vq Vp Vpos Vl Vpr Vd Vcu Vc Vb]. split; auto; rewrite ?Ep, ?Nat.add_0_r in *; auto.
    { intros j Hj Hja. destruct (Nat.eq_dec j i) as [->|]; [congruence|]. apply Vd; auto. lia. } { intros x Hx. lia. }
Qed.

(** ** elements *)
Record einv (e : nat) (st : nat * list R * list (list R) * list (list R) * (nat -> list R) * (list R * nat)) : Prop := {
  w_off : fst (fst (fst (fst (fst st)))) = offp e;
  w_xe : length (snd (fst (fst (fst (fst st))))) = dimX * mx;
  w_eb : a_eb_ok R D a mx (snd (fst (fst (fst st))));
  w_q : a_qin_ok R a mx (snd (fst (fst st)));
  w_vc : vc_ok R CB (snd (fst st));
  w_pos : snd (snd st) = ni * no * offp e;
  w_len : length (fst (snd st)) = len;
  w_prev : forall e' j, e' < e -> j < nin -> is_active (fi j) = true -> zeros (snd (fst (fst st))) e' j;
  w_clean : cl = true -> clean (snd (fst (fst st)));
  w_buf : cl = true \/ ni = 1 -> forall e' ca cb p, e' < e -> ca < ni -> cb < no -> p < npt e' ->
     vf (fst (snd st)) (ni * no * offp e' + ((ca * no + cb) * npt e' + p)) = at_entry D CB a vm e' ca cb p
}.
Lemma atq_pass_ok : forall ein e st, e < NE -> length ein = nin ->
  (forall i, i < nin -> f_mode (fi i) <> EvWeight -> is_active (fi i) = false -> a_ein_ok R chk D a vm i ein) ->
  einv e st -> exists st', atq_pass k junk D CB a rx s vm ein e st = Ok st' /\ einv (e + 1) st'.
Proof.
  intros ein e (((((off, xe), eb), qin), vc), (buf, pos)) He Lein Hein [Wo Wx We Wq Wv Wp Wl Wpr Wc Wb]. cbn [fst snd] in *. subst off. unfold atq_pass.
  destruct Hxv as (x & Ex & Lx). rewrite Ex.
  destruct (x_create R k Jmin chk D CB a Hwf) as (rx' & Cx & X1 & X2 & X3 & X4 & X5). rewrite Hrx in Cx. inversion Cx; subst rx'. clear Cx.
  destruct (aw_x _ _ _ _ _ _ _ Hwf) as (Hpx & Hrw). pose proof (Hmx e He) as Hme.
  assert (Ecnt : p_cnt (D (a_rpts a)) e = npt e). { unfold pts. destruct (D (a_rpts a)); [discriminate|]. reflexivity. }
  destruct (elem_nt R chk NE (D (a_rpts a)) rx e x xe Hrw Hrx He) as (xe' & E0 & L0 & G0).
  { unfold len_in. rewrite Hpx. exact Lx. } { unfold len_e. rewrite Hpx, Ecnt, Wx. nia. }
  rewrite X5, E0. cbn [be rbind]. rewrite X4 by auto. cbn [be rbind].
  assert (Hxe : xe_ok e xe').
  { split; [congruence|]. intros d p Hd Hp. rewrite Ecnt in G0. rewrite G0 by auto. unfold xcont. rewrite Ex. destruct (D (a_rpts a)); [discriminate|]. reflexivity. }
  destruct (@rfold_inv0 _ (pinv qin e) (pas_input k junk D CB a s vm ein xe' e (offp e) (npt e)) nin (eb, qin, vc)) as (((eb1, qin1), vc1) & E1 & I1 & I2 & I3 & I4 & I5).
  { split; auto. split; auto. split; auto. split; auto. intros; lia. }
  { intros i st Hi Hst. apply pas_input_ok; auto. }
  rewrite E1. cbn [rbind].
  destruct (@rfold_inv0 _ (fun i => inv e i 0) (atq_input o (npt e)) nin (qin1, (buf, pos))) as ((qin2, (buf2, pos2)) & E2 & [Vq Vp Vpos Vl Vpr Vd Vcu Vc Vb]).
  { assert (P0 : pre (o_in o) 0 = 0) by reflexivity. split; cbn [fst snd]; auto; rewrite ?P0.
    - rewrite Wp. cbn. lia.
    - intros e' j He' Hj Hja x0 Hx0. rewrite I4 by auto. apply (Wpr e' j); auto.
    - intros; lia.
    - cbn. intros; lia.
    - intros Ecl e' j He' Hj Hja x0 Hx0. rewrite I4 by auto. apply (Wc Ecl e' j); auto.
    - intros Ecl e' ca cb p [(H1 & H2)|(_ & H2)] Hcb Hp; [|lia]. apply Wb; auto. }
  { intros i st Hi Hst. apply atq_input_ok; auto. }
  rewrite E2. cbn [rbind fst snd] in *. eexists. split; [reflexivity|].
  assert (Pn : pre (o_in o) nin = ni) by reflexivity. split; cbn [fst snd]; auto.
  - rewrite Nat.add_1_r. reflexivity.
  - congruence.
  - rewrite Vpos, Pn, Nat.add_0_r, Nat.add_1_r. cbn [AtpMain.offp]. ring.
  - intros e' j He' Hj Hja. destruct (Nat.eq_dec e' e) as [->|]; [apply Vd; auto|apply Vpr; auto; lia].
  - intros Ecl e' ca cb p He' Hca Hcb Hp. apply Vb; auto. rewrite Pn. destruct (Nat.eq_dec e' e) as [->|]; [right|left]; lia.
Qed.
End Atq.

(** ** one assembly after setup *)
Section Core.
Variable R : Rng.
Add Ring Rr2 : (r_th R).
Variable k : kernel R.
Variable Jmin : nat.
Variable junk : nat -> nat -> R.
Variable chk : bool.
Variable D : nat -> pdesc.
Variable CB : nat -> tbasis R.
Variable a : atop R.
Notation o := (a_op a).
Hypothesis Hq : atq_wf D CB a k Jmin chk.
Notation nin := (length (o_in o)).
Notation nout := (length (o_out o)).
Notation fi := (fld (o_in o)).
Notation fo := (fld (o_out o)).
Notation NE := (o_ne o).
Notation npt := (pts R D a).
Notation ni := (length (comps (o_in o))).
Notation no := (length (comps (o_out o))).
Notation offp := (offp R D a).
Lemma q_wf : atp_wf R D CB a k Jmin chk. Proof. apply Hq. Qed.
Lemma q_in : forall i, i < nin -> is_active (fi i) = true -> isb (f_mode (fi i)) = true.
Proof.
  intros i Hi Ha. destruct Hq as (Hwf & _ & _ & Hn). pose proof (fin _ _ _ _ _ _ _ Hwf i Hi) as Hf. destruct (amode _ _ _ _ _ _ _ _ Hf) as [Ew|[En|]]; auto; exfalso.
  - destruct (aw_weight _ _ _ _ _ _ _ _ Hf Ew) as (_ & _ & X & _). apply X. unfold is_active in Ha. destruct (f_vec (fi i)); congruence.
  - destruct (aw_none _ _ _ _ _ _ _ _ Hf En) as (X & _). rewrite Hn in X; [discriminate| |auto]. apply in_or_app. left. apply nth_In. auto.
Qed.
Lemma q_out : forall i, i < nout -> is_active (fo i) = true -> isb (f_mode (fo i)) = true.
Proof.
  intros i Hi Ha. destruct Hq as (Hwf & _ & _ & Hn). destruct (fout _ _ _ _ _ _ _ Hwf i Hi) as (Hf & Hw). destruct (amode _ _ _ _ _ _ _ _ Hf) as [Ew|[En|]]; [congruence| |auto]. exfalso.
  destruct (aw_none _ _ _ _ _ _ _ _ Hf En) as (X & _). rewrite Hn in X; [discriminate| |auto]. apply in_or_app. right. apply nth_In. auto.
Qed.
Lemma at_pts_eq : forall f : ofield R, at_pts D f = true -> is_pts (pd R D f) = true.
Proof. intros f. unfold at_pts, pd. destruct (f_rstr f) as [i|]; [|discriminate]. destruct (D i); auto. Qed.
Lemma no_pts : forall f, In f (o_in o ++ o_out o) -> is_active f && at_pts D f = false.
Proof.
  intros f Hf. destruct Hq as (_ & _ & _ & Hn). destruct (is_active f) eqn:Ea; auto. destruct (at_pts D f) eqn:Ep; auto. apply at_pts_eq in Ep. rewrite Hn in Ep by auto. discriminate.
Qed.
Lemma count_in_ok : forall n, n = 0 \/ n = ni -> count_in D o n = Ok ni.
Proof.
  intros n Hn. unfold count_in. destruct Hq as (_ & Hni & _). destruct (Nat.eqb_spec n 0) as [->|]; [|destruct Hn; [lia|subst; auto]].
  destruct (existsb _ (o_in o)) eqn:E.
  { exfalso. apply existsb_exists in E. destruct E as (f & Hf & E). rewrite no_pts in E; [discriminate|]. apply in_or_app. auto. }
  rewrite act_size_comps. destruct (Nat.eqb_spec ni 0); [lia|reflexivity].
Qed.
Lemma clean_upd : forall qin i, clean R D a qin -> i < length qin -> clean R D a (upd qin i (repeat 0%R (length (nth i qin [])))).
Proof.
  intros qin i H Hi e j He Hj Ha x Hx. rewrite nth_upd' by auto. destruct (Nat.eqb_spec j i) as [->|]; [|apply (H e j); auto]. apply vf_repeat0.
Qed.
Lemma count_out_ok : forall s mx mxc off run n qin (ein : list (option (list R))), n = 0 \/ n = no -> a_qin_ok R a mx qin ->
  (n = 0 -> forall j, j < nout -> is_active (fo j) = true -> j < nin /\ f_mode (fi j) <> EvWeight /\ (run = true -> f_mode (fi j) <> EvNone)) ->
  exists qin', count_out D o s mxc off run n qin ein = Ok (no, qin', ein) /\ a_qin_ok R a mx qin' /\ (clean R D a qin -> clean R D a qin').
Proof.
  intros s mx mxc off run n qin ein Hn Hqin Hf. unfold count_out. destruct Hq as (_ & _ & Hno & _). destruct (Nat.eqb_spec n 0) as [->|].
  2:{ destruct Hn; [lia|subst]. exists qin. auto. }
  specialize (Hf eq_refl).
  match goal with |- context [rfold _ ?F ?s0] => destruct (@rfold_inv0 _ (fun _ (st : list (list R) * list (option (list R))) => a_qin_ok R a mx (fst st) /\ snd st = ein /\ (clean R D a qin -> clean R D a (fst st))) F nout s0) as ((qin', ein') & E & H1 & H2 & H3) end; auto.
  - intros j (q, ei) Hj (G1 & G2 & G3). cbn [fst snd] in *. subst ei. rewrite og_fld by auto. cbn [rbind]. destruct (is_active (fo j)) eqn:Ea.
    2:{ eexists. split; [reflexivity|]. auto. }
    pose proof (no_pts (fo j)) as Hp. rewrite Ea in Hp. cbn [andb] in Hp. rewrite Hp by (apply in_or_app; right; apply nth_In; auto).
    destruct (Hf j Hj Ea) as (F1 & F2 & F3). unfold zero_qin. rewrite (nth_error_nth' _ (mkOF 0 EvNone None None VNo)) by auto. fold (fi j). pose proof G1 as (Lq & Gq).
    rewrite (og_nth q []) by lia. cbn [rbind].
    assert (Hres : exists st', Ok (upd q j (repeat 0%R (length (nth j q []))), ein) = Ok st' /\ a_qin_ok R a mx (fst st') /\ snd st' = ein /\ (clean R D a qin -> clean R D a (fst st'))).
    { eexists. split; [reflexivity|]. cbn [fst snd]. split; [|split; auto].
      - apply qin_upd; auto. intros Hb. rewrite repeat_length. apply (Gq j F1); auto.
      - intros Hc. apply clean_upd; auto. lia. }
    destruct (f_mode (fi j)); try exact Hres. destruct run; [exfalso; apply F3; auto|]. exact Hres.
  - cbn [fst snd] in *. subst ein'. rewrite E. cbn [rbind fst snd]. rewrite act_size_comps. destruct (Nat.eqb_spec no 0); [lia|]. exists qin'. auto.
Qed.
Lemma create_any : forall npts nc ls offs nc', points_ok NE npts nc ls offs -> 0 < nc' -> exists r, rstr_create_points NE npts nc' (nc' * npts) offs = Ok r.
Proof.
  intros npts nc ls offs nc' (H1 & H2 & H3 & H4 & H5 & H6 & H7 & H8) Hn.
  assert (Hok : points_ok NE npts nc' ((ls + npts) * nc') offs).
  { split; auto. split; auto. split; auto. split; [nia|]. split; auto. split; auto. split; auto. intros i Hi. destruct (H8 i Hi) as (A & B). split; auto.
    assert (Z.to_nat (nth i offs 0%Z) + 1 <= ls) by nia. nia. }
  destruct (create_points_ok Hok) as (r & Er & _). unfold rstr_create_points in *. destruct (nc' =? 0); [discriminate|].
  destruct (Nat.ltb_spec (nc' * npts) (npts * nc')); [lia|]. destruct ((ls + npts) * nc' <? npts * nc'); [discriminate|].
  destruct (points_total NE offs) as [(m, t)|]; [|discriminate]. destruct (getZ offs (Z.of_nat NE)); [|discriminate]. destruct (getZ offs (Z.of_nat NE - 1)); [|discriminate].
  cbv zeta in *. destruct (_ <=? _)%Z; [|discriminate]. eauto.
Qed.
Lemma last_off_ok : forall rx, (forall e, e < NE -> num_points rx e = Ok (npt e)) -> r_ne rx = NE -> exists l, last_off rx = Ok l.
Proof.
  intros rx H E. unfold last_off. rewrite E.
  destruct (@rfold_inv0 _ (fun _ _ => True) (fun e n => m <~ num_points rx e ;; Ok (n + m)) (NE - 1) 0) as (l & El & _); auto; eauto.
  intros e n He _. rewrite H by lia. cbn [rbind]. eauto.
Qed.
Lemma offp_pstart : forall offs e, (forall e, npt e = p_num offs e) -> offp e = p_start 1 offs e.
Proof. intros offs e H. induction e as [|e IH]; auto. cbn [AtpMain.offp]. rewrite p_start_S, IH, H. lia. Qed.

Theorem atq_core_ok : forall cl mx s rx vm x n1 n2 run, (forall e, e < NE -> npt e <= mx) -> astat_ok R chk D a s -> pcreate chk (D (a_rpts a)) = Ok rx -> adyn_ok R chk D CB a mx x ->
  a_cache_ok R chk D a (ad x) vm -> at_passive_ok D a vm -> n1 = 0 \/ n1 = ni -> n2 = 0 \/ n2 = no ->
  (n2 = 0 -> forall j, j < nout -> is_active (fo j) = true -> j < nin /\ f_mode (fi j) <> EvWeight /\ (run = true -> f_mode (fi j) <> EvNone)) ->
  (cl = true -> clean R D a (d_qin (ad x))) ->
  exists x' r A, atq_core k junk D CB a rx s x n1 n2 run vm = Ok (x', (ni, no), r, A) /\ adyn_ok R chk D CB a mx x' /\ a_cache_ok R chk D a (ad x') vm /\ clean R D a (d_qin (ad x')) /\
    (cl = true \/ ni = 1 -> at_assembled D CB a vm A).
Proof.
  intros cl mx s rx vm x n1 n2 run Hmx Hs Hrx Hx Hc (Hpas & Hxv) H1 H2 Hfirst Hcl. unfold atq_core. pose proof q_wf as Hwf. destruct Hq as (_ & Hni & Hno & _).
  destruct (x_create R k Jmin chk D CB a Hwf) as (rx' & Cx & X1 & X2 & X3 & X4 & X5). rewrite Hrx in Cx. inversion Cx; subst rx'. clear Cx.
  destruct (max_ok R D a rx X1 X4) as (mx' & Em & _). rewrite Em. cbn [be rbind].
  destruct (last_off_ok rx X4 X1) as (l & El). rewrite El. cbn [be rbind].
  destruct Hx as [D1 D2 D3 D4 D5 D6 D7 D8].
  destruct (a_setup_inputs_ok R k Jmin chk D CB a Hwf vm s Hs Hpas (ad x) D1 D2 Hc) as (d1 & E1 & S1 & S2 & S3 & S4 & S5 & S6 & S7).
  rewrite E1. cbn [rbind]. rewrite count_in_ok by auto. cbn [rbind].
  assert (D4' : a_qin_ok R a mx (d_qin d1)) by (rewrite S5; exact D4).
  destruct (count_out_ok s mx mx' l run n2 (d_qin d1) (d_ein d1) H2 D4' Hfirst) as (qin & E2 & Q1 & Q2). rewrite E2. cbn [rbind]. rewrite S5 in Q2.
  destruct (x_desc R k Jmin chk D CB a Hwf) as (npts & nc & ls & offs & Ed & Hok). rewrite Ed.
  destruct (create_any npts nc ls offs (ni * no) Hok) as (r & Er). { apply Nat.mul_pos_pos; auto. } rewrite Er. cbn [be rbind].
  assert (Eof : offp NE = npts).
  { rewrite (offp_pstart offs). 2:{ intros e. unfold pts. rewrite Ed. reflexivity. }
    assert (Hok1 : points_ok NE npts 1 (ls + npts) offs).
    { destruct Hok as (A1 & A2 & A3 & A4 & A5 & A6 & A7 & A8). split; auto. split; auto. split; auto. split; [lia|]. split; auto. split; auto. split; auto. intros i Hi. destruct (A8 i Hi) as (B1 & B2). split; auto.
      assert (Z.to_nat (nth i offs 0%Z) + 1 <= ls) by nia. lia. }
    rewrite (p_start_ne Hok1). lia. }
  destruct (@rfold_inv0 _ (einv R D CB a mx vm cl (ni * no * npts)) (atq_pass k junk D CB a rx s vm (d_ein d1)) NE (0, ad_xe x, ad_eb x, qin, ad_vc x, (repeat 0%R (ni * no * npts), 0)))
    as ((((((off, xe), eb), qin'), vc), (buf, pos)) & E3 & [Wo Wx We Wq Wv Wp Wl Wpr Wc Wb]).
  { split; cbn [fst snd]; auto.
    - apply repeat_length.
    - intros; lia.
    - intros; lia. }
  { intros e st He Hst. apply (atq_pass_ok R k Jmin junk chk D CB a Hwf mx Hmx s Hs rx Hrx vm Hxv); auto. { apply q_in. } { apply q_out. } { rewrite Eof. auto. } { apply S2. } }
  rewrite E3. cbn [rbind fst snd] in *. eexists. exists r, buf. split; [reflexivity|]. split; [|split; [|split]].
  - constructor; cbn [ad d_states d_ein d_eout d_qin d_qout ad_eb ad_xe ad_vc]; auto; try rewrite S4; try rewrite S6; auto.
  - exact S3.
  - cbn [ad d_qin]. intros e j He Hj Hja. apply Wpr; auto.
  - intros Hgood. split. { rewrite Wl, before_offp, Eof. reflexivity. }
    intros e ca cb p He Hca Hcb Hp. rewrite before_offp. apply Wb; auto.
Qed.
End Core.
