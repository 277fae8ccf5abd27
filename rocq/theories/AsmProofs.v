(** * Proof that assembly computes the matrix of the QFunction at each point, for any block size *)
From Coq Require Import List ZArith Lia Bool Arith.
From Verif Require Import Prelude RstrModel RstrSpec RstrProofs RstrProps TensorModel TensorMain BasisModel BasisProofs BasisProps OpModel OpSpec OpLists OpProofs OpMain OpTree AsmModel AsmSpec.
Import ListNotations.
Set Implicit Arguments.
Local Open Scope nat_scope.

Section Comps.
Variable R : Rng.
Variable fs : list (ofield R).
Lemma comps_S : forall n, comps_n fs (n + 1) = comps_n fs n ++ if is_active (fld fs n) then map (pair n) (seq 0 (f_size (fld fs n))) else [].
Proof. intros n. unfold comps_n. rewrite Nat.add_1_r, seq_S, flat_map_app. simpl. rewrite app_nil_r. reflexivity. Qed.
Definition pre (n : nat) : nat := length (comps_n fs n).
Lemma pre_S : forall n, pre (n + 1) = pre n + if is_active (fld fs n) then f_size (fld fs n) else 0.
Proof. intros n. unfold pre. rewrite comps_S, app_length. destruct (is_active _); rewrite ?map_length, ?seq_length; auto. Qed.
Lemma pre_mono : forall m n, m <= n -> pre m <= pre n.
Proof. intros m n H. induction H; auto. pose proof (pre_S m0). rewrite Nat.add_1_r in H0. lia. Qed.
Lemma comps_prefix : forall m n a d, m <= n -> a < pre m -> nth a (comps_n fs n) d = nth a (comps_n fs m) d.
Proof.
  intros m n a d H Ha. induction H; auto. rewrite <- Nat.add_1_r, comps_S, app_nth1; auto.
  pose proof (pre_mono H). unfold pre in *. lia.
Qed.
Lemma comps_nth : forall n i c d, i < n -> is_active (fld fs i) = true -> c < f_size (fld fs i) -> nth (pre i + c) (comps_n fs n) d = (i, c).
Proof.
  intros n i c d Hi Ha Hc. rewrite (@comps_prefix (i + 1)); [|lia|rewrite pre_S, Ha; lia].
  rewrite comps_S, app_nth2 by (unfold pre; lia). rewrite Ha. fold (pre i). replace (pre i + c - pre i) with c by lia.
  rewrite nth_indep with (d' := pair i 0) by (rewrite map_length, seq_length; auto).
  rewrite (map_nth (pair i)), seq_nth by auto. reflexivity.
Qed.
Lemma comps_inv : forall n a, a < pre n -> exists i c, i < n /\ is_active (fld fs i) = true /\ c < f_size (fld fs i) /\ a = pre i + c.
Proof.
  induction n as [|n IH]; intros a Ha; [unfold pre in Ha; simpl in Ha; lia|].
  rewrite <- Nat.add_1_r, pre_S in Ha. destruct (Nat.lt_ge_cases a (pre n)) as [H|H].
  - destruct (IH a H) as (i & c & A & B). exists i, c. split; [lia|auto].
  - destruct (is_active (fld fs n)) eqn:E; [|lia]. exists n, (a - pre n). repeat split; auto; lia.
Qed.
Lemma act_size_gen : forall l n, fold_left (fun n (f : ofield R) => if is_active f then n + f_size f else n) l n = n + act_size l.
Proof.
  unfold act_size. induction l as [|f l IH]; intros n; simpl; [lia|]. rewrite IH, (IH (if is_active f then f_size f else 0)).
  destruct (is_active f); lia.
Qed.
End Comps.
Lemma act_size_comps : forall (R : Rng) (fs : list (ofield R)), act_size fs = length (comps fs).
Proof.
  intros R fs. enough (H : forall n, n <= length fs -> act_size (firstn n fs) = pre fs n).
  { change (length (comps fs)) with (pre fs (length fs)). rewrite <- (H (length fs)), firstn_all; auto. }
  induction n as [|n IH]; intros Hn; [reflexivity|].
  rewrite <- Nat.add_1_r, pre_S, <- IH by lia.
  assert (E : firstn (n + 1) fs = firstn n fs ++ [fld fs n]).
  { unfold fld. clear IH. rewrite Nat.add_1_r. revert n Hn. induction fs as [|f l IHl]; intros n Hn; [simpl in Hn; lia|].
    destruct n; [reflexivity|]. simpl in Hn. rewrite !firstn_cons. cbn [app nth]. f_equal. apply IHl. lia. }
  rewrite E. unfold act_size at 1. rewrite fold_left_app. cbn [fold_left]. fold (act_size (firstn n fs)). destruct (is_active _); lia.
Qed.

Section Asm.
Variable R : Rng.
Add Ring Rr : (r_th R).
Variable k : kernel R.
Variable Jmin : nat.
Variable junk : nat -> nat -> R.
Variable chk : bool.
Variable D : nat -> udesc.
Variable bs : option nat.
Variable o : oper R.
Hypothesis Hwf : op_wf D k Jmin chk bs o.
Notation BS := (bsize bs).
Notation NB := (op_blocks bs o).
Notation nin := (length (o_in o)).
Notation nout := (length (o_out o)).
Notation fi := (fld (o_in o)).
Notation fo := (fld (o_out o)).
Notation Q := (o_Q o).
Notation N := (o_Q o * bsize bs).
Notation ni := (length (comps (o_in o))).
Notation no := (length (comps (o_out o))).
(** CEED_EVAL_WEIGHT goes with CEED_VECTOR_NONE *)
Definition weights_passive : Prop := forall i, i < nin -> f_mode (fi i) = EvWeight -> is_active (fi i) = false.
Hypothesis Hw : weights_passive.
Variable vm : vmem R.
Hypothesis Hvec : forall i, i < nin -> f_mode (fi i) <> EvWeight -> is_active (fi i) = false -> has D vm (fi i) None.

Lemma og_fl : forall fs i, i < length fs -> og fs i = Ok (fld fs i : ofield R).
Proof. intros fs i H. apply og_nth. auto. Qed.

(** active component (i, c) of all points has value [v] *)
Definition zeros (qin : list (list R)) (i : nat) : Prop := forall c p, c < f_size (fi i) -> p < N -> vf (nth i qin []) (c * N + p) = 0%R.
Definition pas_ok (b : nat) (qin : list (list R)) : Prop := forall i, i < nin -> is_active (fi i) = false -> qvals D bs o vm None i b (nth i qin []).

Lemma set_comp_ok : forall qin i c v, qin_ok bs o qin -> i < nin -> is_active (fi i) = true -> c < f_size (fi i) ->
  exists qin', set_comp N i c v qin = Ok qin' /\ qin_ok bs o qin' /\
    (forall j, j <> i -> nth j qin' [] = nth j qin []) /\
    forall c' p, p < N -> vf (nth i qin' []) (c' * N + p) = if c' =? c then v else vf (nth i qin []) (c' * N + p).
Proof.
  intros qin i c v (Lq & Gq) Hi Ha Hc. unfold set_comp. rewrite (og_nth qin []) by lia. cbn [rbind].
  destruct (Gq i Hi) as (Li & _). unfold qlen in Li.
  destruct (@blit_ok R (nth i qin []) (c * N) (repeat v N)) as (q' & E & L & G).
  { rewrite repeat_length, Li. nia. }
  rewrite E. cbn [rbind]. eexists. split; [reflexivity|]. split; [|split].
  - split. { rewrite upd_length. auto. }
    intros j Hj. destruct (Nat.eq_dec j i) as [->|Hne].
    + rewrite nth_upd' by lia. rewrite Nat.eqb_refl. split. { unfold qlen. lia. }
      intros Hm. rewrite Hw in Ha by auto. discriminate.
    + rewrite nth_upd' by lia. destruct (Nat.eqb_spec j i); [lia|]. auto.
  - intros j Hj. destruct (Nat.lt_ge_cases j (length qin)).
    + rewrite nth_upd' by lia. destruct (Nat.eqb_spec j i); [lia|]. auto.
    + rewrite !nth_overflow by (rewrite ?upd_length; lia). auto.
  - intros c' p Hp. rewrite nth_upd', Nat.eqb_refl by lia. rewrite G, repeat_length.
    destruct (Nat.eqb_spec c' c) as [->|Hne].
    + destruct (Nat.leb_spec (c * N) (c * N + p)); [|lia]. destruct (Nat.ltb_spec (c * N + p) (c * N + N)); [|lia]. cbn [andb].
      unfold vf. rewrite nth_indep with (d' := v) by (rewrite repeat_length; lia). apply nth_repeat.
    + destruct (Nat.leb_spec (c * N) (c' * N + p)); cbn [andb]; auto. destruct (Nat.ltb_spec (c' * N + p) (c * N + N)); auto. exfalso. nia.
Qed.

Lemma shared_eq : unshared o -> forall i j, i < nin -> j < nin -> shared (o_in o) i j = true -> i = j.
Proof.
  intros Hu i j Hi Hj H. unfold shared in H.
  rewrite (nth_error_nth' _ (mkOF 0 EvNone None None VNo) Hi), (nth_error_nth' _ (mkOF 0 EvNone None None VNo) Hj) in H. fold (fi i) (fi j) in H.
  rewrite !andb_true_iff in H. destruct H as ((A & B) & C). unfold same in B. apply andb_true_iff in B. destruct B as (B1 & B2).
  apply Hu; auto.
  - unfold is_active in *. destruct (f_vec (fi i)), (f_vec (fi j)); try discriminate; reflexivity.
  - destruct (f_mode (fi i)); try discriminate; reflexivity.
  - destruct (f_mode (fi i)), (f_mode (fi j)); try discriminate; reflexivity.
  - destruct (f_rstr (fi i)), (f_rstr (fi j)); try discriminate; auto. simpl in B2. apply Nat.eqb_eq in B2. subst; auto.
Qed.
Lemma set_comp_mem_eq : forall bor qin i c v, (bor = true -> unshared o) -> length qin = nin -> i < nin ->
  set_comp_mem bor (o_in o) N i c v qin = set_comp N i c v qin.
Proof.
  intros bor qin i c v Hu Lq Hi. unfold set_comp_mem. destruct (set_comp N i c v qin) as [q1| |] eqn:E; cbn [rbind]; auto.
  assert (L1 : length q1 = nin).
  { unfold set_comp in E. rewrite (og_nth qin []) in E by lia. cbn [rbind] in E. destruct (blit _ _ _); cbn [rbind] in E; inversion E. rewrite upd_length. auto. }
  rewrite (og_nth q1 []) by lia. cbn [rbind]. f_equal.
  apply (nth_ext _ _ [] []). { rewrite map_length, combine_length, seq_length. lia. }
  intros j Hj. rewrite map_length, combine_length, seq_length, Nat.min_id in Hj.
  set (g := fun jq : nat * list R => if bor && shared (o_in o) i (fst jq) then nth i q1 [] else snd jq).
  rewrite (nth_indep _ [] (g (0, []))) by (rewrite map_length, combine_length, seq_length; lia).
  rewrite (map_nth g), combine_nth, seq_nth by (rewrite ?seq_length; auto). unfold g. cbn [fst snd]. rewrite Nat.add_0_l.
  destruct bor; cbn [andb]; auto. destruct (shared (o_in o) i j) eqn:Es; auto.
  rewrite (shared_eq (Hu eq_refl) Hi (j := j)) by (auto; lia). reflexivity.
Qed.

Lemma ins_at_nth : forall qin p i c, length qin = nin -> i < nin -> c < f_size (fi i) -> vf (nth i (ins_at o N qin p) []) c = vf (nth i qin []) (c * N + p).
Proof.
  intros qin p i c Lq Hi Hc. unfold ins_at.
  set (g := fun fq : ofield R * list R => map (fun c => vf (snd fq) (c * N + p)) (seq 0 (f_size (fst fq)))).
  rewrite (nth_indep _ [] (g (mkOF 0 EvNone None None VNo, []))) by (rewrite map_length, combine_length; lia).
  rewrite (map_nth g), combine_nth by auto. unfold g. cbn [fst snd]. rewrite vf_map_seq by auto. reflexivity.
Qed.
Lemma out_arr_nth : forall qin j size c p, c < size -> p < N -> vf (out_arr o N qin j size) (c * N + p) = vf (nth j (o_pt o (ins_at o N qin p)) []) c.
Proof.
  intros qin j size c p Hc Hp. unfold out_arr. rewrite vf_map_seq by nia.
  rewrite Nat.div_add_l by lia. rewrite (Nat.div_small p) by auto. rewrite Nat.add_comm with (n := c * N), Nat.mod_add by lia.
  rewrite Nat.mod_small by auto. rewrite Nat.add_0_r. reflexivity.
Qed.

Lemma asm_outs_ok : forall qin buf pos, qin_ok bs o qin -> 0 < no -> pos + no * N <= length buf ->
  exists buf', asm_outs bs o qin (buf, pos) = Ok (buf', pos + no * N) /\ length buf' = length buf /\
    (forall x, x < pos \/ pos + no * N <= x -> vf buf' x = vf buf x) /\
    forall b p, b < no -> p < N -> vf buf' (pos + (b * N + p)) =
      qf_at o (ins_at o N qin p) (fst (nth b (comps (o_out o)) (0, 0))) (snd (nth b (comps (o_out o)) (0, 0))).
Proof.
  intros qin buf pos Hq Hno Hlen. pose proof Hq as (Lq & Gq). unfold asm_outs. destruct (o_ident o) eqn:Eid.
  - destruct (ow_id Hwf Eid) as (Ni & No & Esz & _). cbn [fst snd].
    assert (Ea : is_active (fo 0) = true).
    { destruct (is_active (fo 0)) eqn:E; auto. exfalso. unfold comps in Hno. rewrite No in Hno. unfold comps_n in Hno. simpl in Hno. rewrite E in Hno. simpl in Hno. lia. }
    assert (Eno : no = f_size (fo 0)).
    { unfold comps. rewrite No. change (pre (o_out o) (0 + 1) = f_size (fo 0)). rewrite pre_S, Ea. reflexivity. }
    rewrite og_fl by lia. cbn [rbind]. rewrite (og_nth qin []) by lia. cbn [rbind].
    destruct (Gq 0 ltac:(lia)) as (L0 & _). unfold qlen in L0.
    destruct (@slice_ok R (nth 0 qin []) 0 (f_size (fo 0) * N)) as (y & Ey & Ly & Gy). { rewrite L0, <- Esz. nia. }
    rewrite Ey. cbn [rbind]. destruct (@blit_ok R buf pos y) as (buf' & Eb & Lb & Gb). { rewrite Ly. lia. }
    rewrite Eb. cbn [rbind]. exists buf'. rewrite Eno. split; auto. split; auto. split.
    + intros x Hx. rewrite Gb, Ly. destruct (Nat.leb_spec pos x); cbn [andb]; auto. destruct (Nat.ltb_spec x (pos + f_size (fo 0) * N)); auto. lia.
    + intros b p Hb Hp. assert (b * N + p < f_size (fo 0) * N) by nia. rewrite Gb, Ly.
      destruct (Nat.leb_spec pos (pos + (b * N + p))); [|lia]. destruct (Nat.ltb_spec (pos + (b * N + p)) (pos + f_size (fo 0) * N)); [|lia]. cbn [andb].
      replace (pos + (b * N + p) - pos) with (b * N + p) by lia. rewrite Gy by auto. cbn [plus].
      unfold comps. change b with (pre (o_out o) 0 + b) at 2 3. rewrite (@comps_nth R (o_out o)) by (auto; lia). cbn [fst snd].
      unfold qf_at. rewrite Eid. cbn [nth]. rewrite ins_at_nth by (auto; lia). reflexivity.
  - destruct (ow_vl Hwf Eid) as (V1 & V2). destruct (Nat.eqb_spec (o_vlen o) 0); [lia|].
    apply Nat.eqb_eq in V2. rewrite V2. cbn [negb]. rewrite (ins_ok_true Hq). cbn [negb].
    set (P := fun (j : nat) (st : list R * nat) => snd st = pos + pre (o_out o) j * N /\ length (fst st) = length buf /\
      (forall x, x < pos \/ pos + pre (o_out o) j * N <= x -> vf (fst st) x = vf buf x) /\
      forall b p, b < pre (o_out o) j -> p < N -> vf (fst st) (pos + (b * N + p)) =
        qf_at o (ins_at o N qin p) (fst (nth b (comps (o_out o)) (0, 0))) (snd (nth b (comps (o_out o)) (0, 0)))).
    match goal with |- context [rfold _ ?F ?st] => destruct (@rfold_inv0 _ P F nout st) as ((buf', pos') & E & H1 & H2 & H3 & H4) end.
    + unfold P. change (pre (o_out o) 0) with 0. cbn [fst snd]. split; [lia|]. split; auto. split; auto. intros; lia.
    + intros j (bf, ps) Hj (P1 & P2 & P3 & P4). cbn [fst snd] in *. rewrite og_fl by auto. cbn [rbind].
      pose proof (pre_S (o_out o) j) as Ep. destruct (is_active (fo j)) eqn:Ea.
      * assert (Hle : pre (o_out o) (j + 1) <= no) by (apply pre_mono; lia).
        assert (Lx : length (out_arr o N qin j (f_size (fo j))) = f_size (fo j) * N) by (unfold out_arr; rewrite map_length, seq_length; auto).
        destruct (@blit_ok R bf ps (out_arr o N qin j (f_size (fo j)))) as (bf' & Eb & Lb & Gb). { rewrite Lx. nia. }
        rewrite Eb. cbn [rbind]. eexists. split; [reflexivity|]. unfold P. cbn [fst snd]. rewrite Ep. split; [lia|]. split; [lia|].
        assert (G : forall x, vf bf' x = if (ps <=? x) && (x <? ps + f_size (fo j) * N) then vf (out_arr o N qin j (f_size (fo j))) (x - ps) else vf bf x).
        { intros x. rewrite Gb, Lx. reflexivity. }
        split.
        -- intros x Hx. rewrite G. rewrite <- P3 by (destruct Hx; [left|right]; nia).
           destruct (Nat.leb_spec ps x); cbn [andb]; auto. destruct (Nat.ltb_spec x (ps + f_size (fo j) * N)); auto. exfalso. nia.
        -- intros b p Hb Hp. rewrite G. destruct (Nat.lt_ge_cases b (pre (o_out o) j)) as [Hlt|Hge].
           ++ rewrite <- P4 by auto. destruct (Nat.leb_spec ps (pos + (b * N + p))); cbn [andb]; auto. exfalso. nia.
           ++ set (c := b - pre (o_out o) j). assert (Eb' : b = pre (o_out o) j + c) by lia. assert (Hc : c < f_size (fo j)) by lia.
              assert (Ex : pos + (b * N + p) = ps + (c * N + p)) by nia. assert (c * N + p < f_size (fo j) * N) by nia.
              rewrite Ex. destruct (Nat.leb_spec ps (ps + (c * N + p))); [|lia].
              destruct (Nat.ltb_spec (ps + (c * N + p)) (ps + f_size (fo j) * N)); [|lia]. cbn [andb].
              replace (ps + (c * N + p) - ps) with (c * N + p) by lia. rewrite out_arr_nth by auto.
              unfold comps. rewrite Eb', (@comps_nth R (o_out o)) by auto. cbn [fst snd]. unfold qf_at. rewrite Eid. reflexivity.
      * eexists. split; [reflexivity|]. unfold P. cbn [fst snd]. rewrite Ep, Nat.add_0_r. auto.
    + cbn [fst snd] in *. exists buf'. rewrite E. change (pre (o_out o) nout) with no in *. rewrite H1. auto.
Qed.

Lemma ins_fill : forall qin b p act, length qin = nin -> p < N -> pas_ok b qin ->
  (forall i c, i < nin -> is_active (fi i) = true -> c < f_size (fi i) -> vf (nth i qin []) (c * N + p) = act i c) ->
  ins_at o N qin p = fill o (pas_val D o vm (cap o (b * BS + p mod BS)) (p / BS)) act.
Proof.
  intros qin b p act Lq Hp Hpas Hact. pose proof (ow_bs Hwf) as HB. unfold ins_at, fill.
  apply (nth_ext _ _ [] []). { rewrite !map_length, combine_length, seq_length. lia. }
  intros i Hi. rewrite map_length, combine_length, Lq, Nat.min_id in Hi.
  set (g := fun fq : ofield R * list R => map (fun c => vf (snd fq) (c * N + p)) (seq 0 (f_size (fst fq)))).
  rewrite (nth_indep _ [] (g (mkOF 0 EvNone None None VNo, []))) by (rewrite map_length, combine_length; lia).
  rewrite (map_nth g), combine_nth by auto.
  rewrite nth_map_seq by auto. unfold g. cbn [fst snd]. fold (fi i). apply map_ext_in. intros c Hc. apply in_seq in Hc.
  destruct (is_active (fi i)) eqn:Ea; [apply Hact; auto; lia|].
  assert (Hx : p / BS < Q) by (apply Nat.div_lt_upper_bound; lia).
  assert (Hl : p mod BS < BS) by (apply Nat.mod_upper_bound; lia).
  pose proof (Hpas i Hi Ea c (p / BS) (p mod BS) ltac:(lia) Hx Hl) as E. unfold pas_val. rewrite <- E. f_equal.
  pose proof (Nat.div_mod p BS ltac:(lia)). nia.
Qed.

(** the array holds [nb] blocks, the first is block [b0] *)
Variables b0 nb : nat.
Hypothesis Hnb : b0 + nb <= NB.
(** value of the assembled array at chunk [t], output component [b], point [p] of the block *)
Definition W (t b p : nat) : R := entry D o vm (cap o ((b0 + t / ni) * BS + p mod BS)) (t mod ni) b (p / BS).
Variable cl : bool.
Variable len : nat.
Definition zeros_to (i c : nat) (qin : list (list R)) : Prop :=
  (forall j, j < i -> is_active (fi j) = true -> zeros qin j) /\ forall c' p, c' < c -> p < N -> vf (nth i qin []) (c' * N + p) = 0%R.
Record inv (b i c : nat) (st : list (list R) * (list R * nat)) : Prop := {
  v_q : qin_ok bs o (fst st);
  v_pas : pas_ok (b0 + b) (fst st);
  v_pos : snd (snd st) = (b * ni + (pre (o_in o) i + c)) * (no * N);
  v_len : length (fst (snd st)) = len;
  v_done : zeros_to i c (fst st);
  v_clean : cl = true -> forall j, j < nin -> is_active (fi j) = true -> zeros (fst st) j;
  v_buf : cl = true -> forall t, t < b * ni + (pre (o_in o) i + c) -> forall bb p, bb < no -> p < N -> vf (fst (snd st)) (t * (no * N) + (bb * N + p)) = W t bb p
}.
Variable bor : bool.
Hypothesis Hbor : bor = true -> unshared o.
Hypothesis Hno : 0 < no.
Hypothesis Hlen : nb * ni * (no * N) <= len.

Lemma asm_comp_ok : forall b i c st, b < nb -> i < nin -> is_active (fi i) = true -> c < f_size (fi i) -> inv b i c st ->
  exists st', asm_comp bs bor o i c st = Ok st' /\ inv b i (c + 1) st'.
Proof.
  intros b i c (qin, (buf, pos)) Hb Hi Ha Hc [Vq Vp Vpos Vl Vd Vc Vb]. cbn [fst snd] in *. unfold asm_comp. cbn [fst snd].
  rewrite (@set_comp_mem_eq bor qin) by (auto; apply Vq).
  destruct (set_comp_ok 1%R Vq Hi Ha Hc) as (q1 & E1 & K1 & K2 & K3). rewrite E1. cbn [rbind].
  assert (Hpre : pre (o_in o) i + c < ni).
  { pose proof (pre_S (o_in o) i) as H. rewrite Ha in H. pose proof (@pre_mono R (o_in o) (i + 1) nin ltac:(lia)). unfold comps. unfold pre in *. lia. }
  set (t := b * ni + (pre (o_in o) i + c)) in *.
  assert (Ht : t + 1 <= nb * ni) by (unfold t; nia).
  assert (Hroom : pos + no * N <= length buf). { rewrite Vl, Vpos. eapply Nat.le_trans; [|exact Hlen]. nia. }
  destruct (asm_outs_ok buf pos K1 Hno Hroom) as (buf' & E2 & L2 & O2 & G2). rewrite E2. cbn [rbind].
  rewrite (@set_comp_mem_eq bor q1) by (auto; apply K1).
  destruct (set_comp_ok 0%R K1 Hi Ha Hc) as (q2 & E3 & M1 & M2 & M3). rewrite E3. cbn [rbind].
  eexists. split; [reflexivity|].
  assert (Hother : forall j, j <> i -> nth j q2 [] = nth j qin []) by (intros j Hj; rewrite M2, K2 by auto; auto).
  assert (Hsame : forall c' p, p < N -> vf (nth i q2 []) (c' * N + p) = if c' =? c then 0%R else vf (nth i qin []) (c' * N + p)).
  { intros c' p Hp. rewrite M3 by auto. destruct (Nat.eqb_spec c' c); auto. rewrite K3 by auto. destruct (Nat.eqb_spec c' c); [lia|auto]. }
  split; cbn [fst snd]; auto.
  - intros j Hj Hja. rewrite Hother by congruence. apply Vp; auto.
  - rewrite Vpos. unfold t. ring.
  - lia.
  - destruct Vd as (D1 & D2). split.
    + intros j Hj Hja c' p Hc' Hp. rewrite Hother by lia. apply D1; auto.
    + intros c' p Hc' Hp. rewrite Hsame by auto. destruct (Nat.eqb_spec c' c); auto. apply D2; auto. lia.
  - intros Ecl j Hj Hja c' p Hc' Hp. destruct (Nat.eq_dec j i) as [->|Hne].
    + rewrite Hsame by auto. destruct (Nat.eqb_spec c' c); auto. apply (Vc Ecl i); auto.
    + rewrite Hother by auto. apply (Vc Ecl j); auto.
  - intros Ecl t' Ht' bb p Hbb Hp.
    assert (bb * N + p < no * N) by nia.
    destruct (Nat.eq_dec t' t) as [->|Hne].
    + rewrite <- Vpos. rewrite G2 by auto.
      rewrite (@ins_fill q1 (b0 + b) p (@AsmSpec.unit R (i, c))).
      * unfold W, entry. unfold t. rewrite Nat.div_add_l by lia. rewrite (Nat.div_small (pre (o_in o) i + c)) by lia. rewrite Nat.add_0_r.
        rewrite (Nat.add_comm (b * ni)), Nat.mod_add by lia. rewrite (Nat.mod_small (pre (o_in o) i + c)) by lia.
        assert (En : nth (pre (o_in o) i + c) (comps (o_in o)) (0, 0) = (i, c)) by (apply comps_nth; auto). rewrite En. reflexivity.
      * apply K1.
      * auto.
      * intros j Hj Hja. rewrite K2 by congruence. apply Vp; auto.
      * intros j c' Hj Hja Hc'. unfold AsmSpec.unit. cbn [fst snd]. destruct (Nat.eqb_spec j i) as [->|Hn]; cbn [andb].
        -- rewrite K3 by auto. destruct (Nat.eqb_spec c' c); auto. apply (Vc Ecl i); auto.
        -- rewrite K2 by auto. apply (Vc Ecl j); auto.
    + rewrite O2 by (left; rewrite Vpos; nia). apply Vb; auto. unfold t in *. lia.
Qed.

Lemma asm_input_ok : forall b i st, b < nb -> i < nin -> inv b i 0 st -> exists st', asm_input bs bor o i st = Ok st' /\ inv b (i + 1) 0 st'.
Proof.
  intros b i st Hb Hi Hv. unfold asm_input. rewrite og_fl by auto. cbn [rbind].
  assert (Hnext : forall st', inv b i (if is_active (fi i) then f_size (fi i) else 0) st' -> inv b (i + 1) 0 st').
  { intros st' [Vq Vp Vpos Vl Vd Vc Vb]. pose proof (pre_S (o_in o) i) as Ep. split; auto.
    - rewrite Vpos, Ep, Nat.add_0_r. reflexivity.
    - destruct Vd as (D1 & D2). split; [|intros; lia]. intros j Hj Hja. destruct (Nat.eq_dec j i) as [->|Hne].
      + rewrite Hja in D2. intros c p Hc Hp. apply D2; auto.
      + apply D1; auto. lia.
    - rewrite Ep, Nat.add_0_r. auto. }
  destruct (is_active (fi i)) eqn:Ea.
  - destruct (@rfold_inv0 _ (inv b i) (asm_comp bs bor o i) (f_size (fi i)) st Hv) as (st' & E & Hv').
    { intros c st1 Hc Hi1. apply asm_comp_ok; auto. }
    exists st'. rewrite E. auto.
  - eauto.
Qed.

(** between blocks *)
Record binv (b : nat) (st : list (list R) * (list R * nat)) : Prop := {
  w_q : qin_ok bs o (fst st);
  w_pos : snd (snd st) = b * ni * (no * N);
  w_len : length (fst (snd st)) = len;
  w_done : 0 < b -> forall j, j < nin -> is_active (fi j) = true -> zeros (fst st) j;
  w_clean : cl = true -> forall j, j < nin -> is_active (fi j) = true -> zeros (fst st) j;
  w_buf : cl = true -> forall t, t < b * ni -> forall bb p, bb < no -> p < N -> vf (fst (snd st)) (t * (no * N) + (bb * N + p)) = W t bb p
}.
Variable s : stat.
Hypothesis Hs : stat_ok chk D bs o s.
Variable ein : list (option (list R)).
Hypothesis Hein : length ein = nin /\ forall i, i < nin -> f_mode (fi i) <> EvWeight -> is_active (fi i) = false -> ein_ok D bs o vm None i ein.

Lemma asm_elem_ok : forall b st, b < nb -> binv b st -> exists st', asm_elem k junk D bs bor o s ein ((b0 + b) * BS) st = Ok st' /\ binv (b + 1) st'.
Proof.
  intros b (qin, bp) Hb [Wq Wp Wl Wd Wc Wb]. cbn [fst snd] in *. unfold asm_elem. cbn [fst snd]. destruct Hein as (Le & He).
  assert (HbN : b0 + b < NB) by lia.
  destruct (inputs_ok junk Hwf (vm := vm) (inv := None) Hs true HbN Le Wq) as (q1 & E1 & K1 & K2 & K3).
  { intros i Hi Hm Hsk. apply He; auto. }
  rewrite E1. cbn [rbind].
  assert (Hz : forall j, j < nin -> is_active (fi j) = true -> nth j q1 [] = nth j qin []) by (intros j Hj Hja; apply K3; auto).
  destruct (@rfold_inv0 _ (fun i => inv b i 0) (asm_input bs bor o) nin (q1, bp)) as (st' & E & [Vq Vp Vpos Vl Vd Vc Vb]).
  - split; cbn [fst snd]; auto.
    + intros i Hi Ha. apply K2; auto.
    + change (pre (o_in o) 0) with 0. rewrite Wp. lia.
    + split; intros; lia.
    + intros Ecl j Hj Hja c p Hc Hp. rewrite Hz by auto. apply (Wc Ecl j); auto.
    + change (pre (o_in o) 0) with 0. rewrite !Nat.add_0_r. auto.
  - intros i st Hi Hv. apply asm_input_ok; auto.
  - exists st'. split; auto. change (pre (o_in o) nin) with ni in *. split; auto.
    + rewrite Vpos. lia.
    + intros _ j Hj Hja. apply Vd; auto.
    + intros Ecl t Ht. apply Vb; auto. lia.
Qed.

Lemma asm_elems_ok : forall qin buf, 0 < nb -> qin_ok bs o qin -> length buf = len -> (cl = true -> forall j, j < nin -> is_active (fi j) = true -> zeros qin j) ->
  exists qin' buf' pos', rfold (seq 0 nb) (fun b => asm_elem k junk D bs bor o s ein ((b0 + b) * BS)) (qin, (buf, 0)) = Ok (qin', (buf', pos')) /\
    qin_ok bs o qin' /\ length buf' = len /\ (forall j, j < nin -> is_active (fi j) = true -> zeros qin' j) /\
    (cl = true -> forall t, t < nb * ni -> forall bb p, bb < no -> p < N -> vf buf' (t * (no * N) + (bb * N + p)) = W t bb p).
Proof.
  intros qin buf Hpos Hq Hl Hc.
  destruct (@rfold_inv0 _ binv (fun b => asm_elem k junk D bs bor o s ein ((b0 + b) * BS)) nb (qin, (buf, 0))) as ((q' & buf' & pos') & E & [Wq Wp Wl Wd Wc Wb]).
  - split; cbn [fst snd]; auto; intros; lia.
  - intros b st Hb Hv. apply asm_elem_ok; auto.
  - exists q', buf', pos'. cbn [fst snd] in *. split; auto.
Qed.
End Asm.

Section Scatter.
Variable R : Rng.
Add Ring Rr3 : (r_th R).
(** the transpose of the strided restriction of the assembled vector moves every value to its own place *)
Lemma strided_Lval : forall (w : variant) ne q nc l (E : nat -> nat -> nat -> R) e kk n, 0 < q -> e < ne -> kk < nc -> n < q ->
  Lval w (mkU ne q nc 0%Z l (UStrided 1 (Z.of_nat q) (Z.of_nat (nc * q)))) E (e * (nc * q) + (kk * q + n)) = E e kk n.
Proof.
  intros w ne q nc l E e kk n Hq He Hk Hn. unfold Lval. cbn [u_ne u_nc u_es].
  assert (Hc : forall el k m, el < ne -> k < nc -> m < q ->
    (Z.of_nat (e * (nc * q) + (kk * q + n)) =? col (mkU ne q nc 0 l (UStrided 1 (Z.of_nat q) (Z.of_nat (nc * q)))) el k m)%Z = (el =? e) && (k =? kk) && (m =? n)).
  { intros el k m Hel Hk1 Hm. unfold col. cbn [u_kind]. unfold backend_strides. cbn [Z.eqb andb].
    replace (Z.of_nat m * 1 + Z.of_nat k * Z.of_nat q + Z.of_nat el * Z.of_nat (nc * q))%Z with (Z.of_nat (el * (nc * q) + (k * q + m))) by lia.
    apply eq_true_iff_eq. rewrite Z.eqb_eq, !andb_true_iff, !Nat.eqb_eq, Nat2Z.inj_iff. split.
    - intros H. assert (kk * q + n < nc * q) by nia. assert (k * q + m < nc * q) by nia.
      assert (el = e) by nia. subst el. assert (k = kk) by nia. subst k. lia.
    - intros ((-> & ->) & ->). reflexivity. }
  rewrite sumn_ext with (g := fun el => delta (el =? e) (E el kk n)).
  - rewrite sumn_delta. apply Nat.ltb_lt in He. rewrite He. reflexivity.
  - intros el Hel. rewrite sumn_ext with (g := fun k => delta (k =? kk) (delta (el =? e) (E el k n))).
    + rewrite sumn_delta. apply Nat.ltb_lt in Hk. rewrite Hk. reflexivity.
    + intros k Hk1. rewrite sumn_ext with (g := fun m => delta (m =? n) (delta (k =? kk) (delta (el =? e) (E el k m)))).
      * rewrite sumn_delta. apply Nat.ltb_lt in Hn. rewrite Hn. reflexivity.
      * intros m Hm. rewrite sumn_ext with (g := fun m' => delta (m' =? m) (delta ((el =? e) && (k =? kk) && (m' =? n)) (E el k m))).
        -- rewrite sumn_delta. apply Nat.ltb_lt in Hm. rewrite Hm. destruct (el =? e), (k =? kk), (m =? n); reflexivity.
        -- intros m' Hm'. rewrite Hc by auto. unfold coef. cbn [u_kind]. rewrite (Nat.eqb_sym m m').
           destruct (m' =? m), ((el =? e) && (k =? kk) && (m' =? n)); cbn [delta]; ring.
Qed.
End Scatter.

Section Core.
Variable R : Rng.
Add Ring Rr2 : (r_th R).
Variable k : kernel R.
Variable Jmin : nat.
Variable junk : nat -> nat -> R.
Variable chk : bool.
Variable D : nat -> udesc.
Variable bs : option nat.
Variable o : oper R.
Hypothesis Hwf : op_wf D k Jmin chk bs o.
Notation BS := (bsize bs).
Notation NB := (op_blocks bs o).
Notation nin := (length (o_in o)).
Notation nout := (length (o_out o)).
Notation fi := (fld (o_in o)).
Notation fo := (fld (o_out o)).
Notation Q := (o_Q o).
Notation N := (o_Q o * bsize bs).
Notation ni := (length (comps (o_in o))).
Notation no := (length (comps (o_out o))).
Hypothesis Hw : weights_passive o.

Definition all_zero (qin : list (list R)) : Prop := forall j, j < nin -> is_active (fi j) = true -> zeros bs o qin j.

Lemma zero_active_ok : forall qin, qin_ok bs o qin -> qin_ok bs o (zero_active (o_in o) qin) /\ all_zero (zero_active (o_in o) qin).
Proof.
  intros qin (Lq & Gq). unfold zero_active.
  set (g := fun fq : ofield R * list R => if is_active (fst fq) then repeat 0%R (length (snd fq)) else snd fq).
  assert (E : forall j, j < nin -> nth j (map g (combine (o_in o) qin)) [] = if is_active (fi j) then repeat 0%R (length (nth j qin [])) else nth j qin []).
  { intros j Hj. rewrite (nth_indep _ [] (g (mkOF 0 EvNone None None VNo, []))) by (rewrite map_length, combine_length; lia).
    rewrite (map_nth g), combine_nth by auto. reflexivity. }
  split.
  - split. { rewrite map_length, combine_length. lia. }
    intros j Hj. rewrite E by auto. destruct (Gq j Hj) as (L & G). destruct (is_active (fi j)) eqn:Ea; auto.
    rewrite repeat_length. split; auto. intros Hm. rewrite (Hw Hj Hm) in Ea. discriminate.
  - intros j Hj Ha c p Hc Hp. rewrite E, Ha by auto. unfold vf. apply nth_repeat.
Qed.

End Core.

Lemma asm_core_ok : forall (R : Rng) k Jmin junk chk D bs (o : oper R) (Hwf : op_wf D k Jmin chk bs o) (Hw : weights_passive o) (vm : vmem R)
  (Hvec : forall i, i < length (o_in o) -> f_mode (fld (o_in o) i) <> EvWeight -> is_active (fld (o_in o) i) = false -> has D vm (fld (o_in o) i) None)
  (Hni : 0 < length (comps (o_in o))) (Hno : 0 < length (comps (o_out o))) (Hnid : ident_rstr o = false) bor (Hbor : bor = true -> unshared o) jl s d n1 n2 cl, stat_ok chk D bs o s -> dyn_ok D bs o d -> cache_ok D bs o d vm ->
  (n1 = 0 \/ n1 = length (comps (o_in o))) -> (n2 = 0 \/ n2 = length (comps (o_out o))) -> (cl = true -> n1 <> 0 -> all_zero bs o (d_qin d)) ->
  exists d' A, asm_core k junk chk D bs bor jl o s d n1 n2 vm = Ok (d', (length (comps (o_in o)), length (comps (o_out o))), A) /\ dyn_ok D bs o d' /\ cache_ok D bs o d' vm /\
    all_zero bs o (d_qin d') /\ (cl = true -> is_assembled D o vm A).
Proof.
  intros R k Jmin junk chk D bs o Hwf Hw vm Hvec Hni Hno Hnid bor Hbor jl s d n1 n2 cl Hs Hd Hc E1 E2 Hcl. unfold asm_core. rewrite Hnid.
  assert (Hv : forall i, i < (length (o_in o)) -> f_mode ((fld (o_in o)) i) <> EvWeight -> skipped o true i = false -> has D vm ((fld (o_in o)) i) None) by (intros; apply Hvec; auto).
  destruct (setup_inputs_ok Hwf Hs true Hv Hd Hc) as (d1 & Es & Hd1 & Hc1 & Eo & Eq & Eqo & He). rewrite Es. cbn [rbind].
  set (qin := if n1 =? 0 then zero_active (o_in o) (d_qin d1) else d_qin d1).
  assert (N1 : (if n1 =? 0 then act_size (o_in o) else n1) = (length (comps (o_in o)))). { rewrite act_size_comps. destruct (Nat.eqb_spec n1 0), E1; lia. }
  assert (N2 : (if n2 =? 0 then act_size (o_out o) else n2) = (length (comps (o_out o)))). { rewrite act_size_comps. destruct (Nat.eqb_spec n2 0), E2; lia. }
  rewrite N1, N2. destruct (Nat.eqb_spec (length (comps (o_in o))) 0); [lia|]. destruct (Nat.eqb_spec (length (comps (o_out o))) 0); [lia|].
  assert (Hq1 : qin_ok bs o (d_qin d1)) by (destruct Hd1; auto).
  assert (Hq : qin_ok bs o qin /\ (cl = true -> all_zero bs o qin)).
  { unfold qin. destruct (Nat.eqb_spec n1 0) as [->|Hn].
    - destruct (zero_active_ok Hw Hq1) as (A & B). auto.
    - split; auto. intros Ec. rewrite Eq. apply Hcl; auto. }
  destruct Hq as (Hq & Hz).
  set (zs := repeat 0%R (o_ne o * (o_Q o) * (length (comps (o_in o))) * (length (comps (o_out o))))).
  set (buf := match bs with None => zs | Some _ => map jl (seq 0 ((op_blocks bs o) * (bsize bs) * (o_Q o) * (length (comps (o_in o))) * (length (comps (o_out o))))) end).
  assert (NB1 : bs = None -> (op_blocks bs o) = o_ne o). { intros ->. unfold op_blocks. simpl bsize. rewrite Nat.div_1_r, Nat.mod_1_r. simpl. lia. }
  assert (Hlen : (op_blocks bs o) * (length (comps (o_in o))) * ((length (comps (o_out o))) * (o_Q o * bsize bs)) <= length buf).
  { unfold buf, zs. destruct bs as [bsz|] eqn:Eb.
    - rewrite map_length, seq_length. apply Nat.eq_le_incl. ring.
    - rewrite repeat_length, NB1 by auto. simpl bsize. apply Nat.eq_le_incl. ring. }
  assert (HNB : 0 < op_blocks bs o) by (pose proof (nb_bounds Hwf); pose proof (ow_ne Hwf); nia).
  destruct (@asm_elems_ok R k Jmin junk chk D bs o Hwf Hw vm 0 (op_blocks bs o) (Nat.le_refl _) cl (length buf) bor Hbor Hno Hlen s Hs (d_ein d1)) with (qin := qin) (buf := buf)
    as (q' & buf' & pos' & E & Q1 & Q2 & Q3 & Q4); auto.
  { split; [apply (dy_ein Hd1)|]. intros i Hi Hm Ha. apply He; auto. }
  cbn [Nat.add] in E. rewrite E. cbn [rbind fst snd].
  set (d2 := mkDy (d_states d1) (d_ein d1) (d_eout d1) q' (d_qout d1)).
  assert (Hd2 : dyn_ok D bs o d2). { destruct Hd1. split; auto. }
  assert (Hc2 : cache_ok D bs o d2 vm) by exact Hc1.
  pose proof (ow_Q Hwf) as HQ. pose proof (ow_bs Hwf) as HB. pose proof (nb_bounds Hwf) as (B1 & B2). pose proof (ow_ne Hwf) as Hne.
  assert (Hcap : forall e, e < o_ne o -> cap o e = e) by (intros; unfold cap; lia).
  destruct bs as [bsz|] eqn:Eb.
  - assert (Hnb0 : (op_blocks (Some bsz) o) <> 0) by (intros E0; rewrite E0 in B1; lia). apply Nat.eqb_neq in Hnb0. rewrite Hnb0. cbn [andb].
    set (dd := asm_desc o (length (comps (o_in o))) (length (comps (o_out o)))).
    assert (Hcr : exists r, rstr_create chk dd (Some bsz) = Ok r).
    { unfold rstr_create, RstrModel.check_dims, dd, asm_desc. cbn [u_es u_nc u_ne u_kind u_lsize].
      destruct (Nat.eqb_spec (o_Q o) 0); [lia|]. simpl bsize in HB. destruct bsz; [lia|]. destruct (Nat.eqb_spec ((length (comps (o_in o))) * (length (comps (o_out o)))) 0); [nia|].
      replace (o_ne o * (o_Q o) * ((length (comps (o_in o))) * (length (comps (o_out o))))) with ((length (comps (o_in o))) * (length (comps (o_out o))) * o_ne o * (o_Q o)) by ring. rewrite Nat.ltb_irrefl. cbn. eauto. }
    destruct Hcr as (r & Hr). rewrite Hr. cbn [be rbind].
    assert (Hir : in_range dd).
    { intros el kk m Hel Hkk Hm. unfold col, dd, asm_desc in *. cbn [u_kind u_ne u_nc u_es u_lsize] in *. unfold backend_strides. cbn [Z.eqb andb].
      assert (kk * (o_Q o) + m < (length (comps (o_in o))) * (length (comps (o_out o))) * (o_Q o)) by nia. assert (el * ((length (comps (o_in o))) * (length (comps (o_out o))) * (o_Q o)) + (kk * (o_Q o) + m) < (length (comps (o_in o))) * (length (comps (o_out o))) * o_ne o * (o_Q o)) by nia. nia. }
    assert (Hesz : r_esize r = length buf).
    { assert (Hrp := create_repr (d := dd) (r := r) I Hr). rewrite (rp_esize Hrp). destruct (create_bs Hr) as (-> & ->).
      rewrite (nb_eq Hwf) by reflexivity. unfold buf, dd, asm_desc. cbn [u_es u_nc]. rewrite map_length, seq_length. simpl bsize. ring. }
    destruct (@C09_transpose_adds R chk dd (Some bsz) r Signed buf' zs I Hr Hir I) as (A & EA & LA & GA).
    { lia. } { unfold zs, dd, asm_desc. cbn [u_lsize]. rewrite repeat_length. apply Nat.eq_le_incl. ring. }
    rewrite EA. cbn [be rbind]. eexists. exists A. split; [reflexivity|]. split; auto. split; auto. split; auto.
    intros Ec. split. { rewrite LA. unfold zs. rewrite repeat_length. ring. }
    intros e a b q He' Ha Hb Hqq. rewrite GA. unfold zs at 1. unfold vf at 1. rewrite nth_repeat.
    assert (Hkk : a * (length (comps (o_out o))) + b < (length (comps (o_in o))) * (length (comps (o_out o)))) by nia.
    replace (((e * (length (comps (o_in o))) + a) * (length (comps (o_out o))) + b) * (o_Q o) + q) with (e * ((length (comps (o_in o))) * (length (comps (o_out o))) * (o_Q o)) + ((a * (length (comps (o_out o))) + b) * (o_Q o) + q)) by ring.
    unfold dd, asm_desc. rewrite strided_Lval by auto. fold dd. rewrite (Radd_0_l (r_th R)).
    unfold epos. cbn [u_es u_nc asm_desc]. set (bb := e / bsize (Some bsz)). set (l := e mod bsize (Some bsz)).
    assert (Hl : l < bsize (Some bsz)) by (apply Nat.mod_upper_bound; lia).
    assert (Ee : e = bb * bsize (Some bsz) + l) by (rewrite Nat.mul_comm; apply Nat.div_mod; lia).
    assert (Hbb : bb < (op_blocks (Some bsz) o)) by nia.
    set (p := q * bsize (Some bsz) + l). assert (Hp : p < (o_Q o) * bsize (Some bsz)) by (unfold p; nia).
    transitivity (vf buf' ((bb * (length (comps (o_in o))) + a) * ((length (comps (o_out o))) * ((o_Q o) * bsize (Some bsz))) + (b * ((o_Q o) * bsize (Some bsz)) + p))). { f_equal. unfold p. ring. }
    rewrite Q4 by (auto; nia). unfold W. rewrite Nat.add_0_l.
    rewrite Nat.div_add_l by lia. rewrite (Nat.div_small a) by auto. rewrite Nat.add_0_r.
    rewrite (Nat.add_comm (bb * (length (comps (o_in o))))), Nat.mod_add by lia. rewrite (Nat.mod_small a) by auto.
    unfold p. rewrite Nat.div_add_l by lia. rewrite (Nat.div_small l) by auto. rewrite Nat.add_0_r.
    rewrite (Nat.add_comm (q * _)), Nat.mod_add by lia. rewrite (Nat.mod_small l) by auto. rewrite <- Ee, Hcap by auto. reflexivity.
  - eexists. exists buf'. split; [reflexivity|]. split; auto. split; auto. split; auto. intros Ec.
    assert (En : (op_blocks None o) = o_ne o) by auto. split. { rewrite Q2. unfold buf, zs. rewrite repeat_length. ring. }
    intros e a b q He' Ha Hb Hqq. simpl bsize in Q4.
    replace (((e * (length (comps (o_in o))) + a) * (length (comps (o_out o))) + b) * (o_Q o) + q) with ((e * (length (comps (o_in o))) + a) * ((length (comps (o_out o))) * ((o_Q o) * 1)) + (b * ((o_Q o) * 1) + q)) by ring.
    rewrite Q4; auto; try lia. 2:{ rewrite En. nia. }
    unfold W. rewrite Nat.add_0_l. simpl bsize. rewrite Nat.div_add_l by lia. rewrite (Nat.div_small a) by auto.
    rewrite (Nat.add_comm (e * (length (comps (o_in o))))), Nat.mod_add by lia. rewrite (Nat.mod_small a) by auto. rewrite Nat.div_1_r, Nat.mod_1_r, Nat.mul_1_r, !Nat.add_0_r, Hcap by auto. reflexivity.
Qed.
