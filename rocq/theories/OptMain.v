(** * The optimised operator driver: the loop over the blocks and one application *)
From Coq Require Import List ZArith Lia Bool Arith.
From Verif Require Import Prelude RstrModel RstrSpec RstrProofs RstrMain RstrProps TensorModel BasisModel BasisProps TensorMain Digits OpModel OpSpec OpLists OpProofs OpMain OptModel OptProofs.
Import ListNotations.
Set Implicit Arguments.

Section Main.
Variable R : Rng.
Add Ring Rr : (r_th R).
Local Open Scope nat_scope.
Variable k : kernel R.
Variable Jmin : nat.
Variable junk : nat -> nat -> R.
Variable chk : bool.
Variable D : nat -> udesc.
Variable bs : option nat.
Variable o : oper R.
Hypothesis Hwf : op_wf D k Jmin chk bs o.
Notation BS := (bsize bs).
Notation NB := (op_blocks bs o).
Notation nin := (length (o_in o)).
Notation nout := (length (o_out o)).
Notation fi := (fld (o_in o)).
Notation fo := (fld (o_out o)).
Notation Q := (o_Q o).
Notation lst := (last (sameE (o_out o)) nout).
Notation bz := (bsz D bs o).
Variable s : stat.
Hypothesis Hs : stat_ok chk D bs o s.
Hypothesis Hsl : slots_ok o s.
Variable vm : vmem R.
Variables inv outv : option nat.
Hypothesis Hvec : vec_ok D o vm inv outv.
(** lengths are exact, and no output is the active input *)
Hypothesis Hli : forall i, i < nin -> f_mode (fi i) <> EvWeight -> f_vec (fi i) = VAct -> length (contents vm (fi i) inv) = u_lsize (rd D (fi i)).
Hypothesis Hlo : forall j, j < nout -> length (contents vm (fo j) outv) = u_lsize (rd D (fo j)).
Hypothesis Hne : forall i j, i < nin -> f_mode (fi i) <> EvWeight -> f_vec (fi i) = VAct -> j < nout -> target (fo j) outv <> inv.
Notation tg := (tgt o outv).
Notation tch := (touched o outv).

Lemma Hlen' : forall i x, i < nin -> f_mode (fi i) <> EvWeight -> f_vec (fi i) = VAct -> x = contents vm (fi i) inv -> length x = u_lsize (rd D (fi i)).
Proof. intros i x Hi Hm Hv ->. apply Hli; auto. Qed.

(** ** what was added after [b] blocks and [m] fields of the next *)
Definition Eb (p el kk n : nat) : R := gsum D o vm inv p (cap o el) kk n.
Definition W (b m v q : nat) : R := sumn m (fun p => delta ((lst p =? p) && tg p v) (@Lblock R Signed (rd D (fo p)) BS b (Eb p) q)).
Definition A (b m v q : nat) : R := (sumn b (fun b' => W b' nout v q) + W b m v q)%R.
Definition T (b m v : nat) : bool := (0 <? b) && tch nout v || tch m v.
Definition binv (b m : nat) (vm1 : vmem R) : Prop := forall v,
  if T b m v then vv_len (vm1 v) = vv_len (vm v) /\ (vv_state (vm v) < vv_state (vm1 v))%Z /\
     exists x x', vv_data (vm v) = Some x /\ vv_data (vm1 v) = Some x' /\ length x' = length x /\ forall q, vf x' q = (vf x q + A b m v q)%R
  else vm1 v = vm v.
Lemma tch_0 : forall v, tch 0 v = false. Proof. reflexivity. Qed.
Lemma W_0 : forall b m v q, tch m v = false -> W b m v q = 0%R.
Proof.
  intros b m v q H. unfold W. apply sumn_zero. intros p Hp. unfold touched in H.
  assert (E : (lst p =? p) && tg p v = false).
  { destruct ((lst p =? p) && tg p v) eqn:E; auto. exfalso.
    assert (existsb (fun p => (lst p =? p) && tg p v) (seq 0 m) = true). { apply existsb_exists. exists p. split; auto. apply in_seq. lia. }
    congruence. }
  rewrite E. reflexivity.
Qed.
Lemma A_0 : forall b m v q, T b m v = false -> A b m v q = 0%R.
Proof.
  intros b m v q H. unfold T in H. apply orb_false_iff in H. destruct H as (H1 & H2). unfold A. rewrite (W_0 _ _ _ _ H2).
  rewrite sumn_zero. ring. intros b' Hb'. apply W_0. destruct (Nat.ltb_spec 0 b); [|lia]. exact H1.
Qed.
Lemma binv_next : forall b vm1, binv b nout vm1 -> binv (b + 1) 0 vm1.
Proof.
  intros b vm1 H v. specialize (H v). unfold T in *. rewrite tch_0, orb_false_r. replace (0 <? b + 1) with true by (symmetry; apply Nat.ltb_lt; lia). cbn [andb].
  assert (E : (0 <? b) && tch nout v || tch nout v = tch nout v) by (destruct (0 <? b), (tch nout v); auto). rewrite E in H. destruct (tch nout v); auto.
  destruct H as (A1 & A2 & x & x' & C1 & C2 & C3 & C4). split; auto. split; auto. exists x, x'. repeat split; auto. intros q. rewrite C4.
  unfold A. rewrite Nat.add_1_r, sumn_S. replace (W (S b) 0 v q) with (0%R : R) by (symmetry; apply W_0; auto). ring.
Qed.
Lemma binv_in : forall b m vm1 i v, binv b m vm1 -> m <= nout -> i < nin -> f_mode (fi i) <> EvWeight -> f_vec (fi i) = VAct -> inv = Some v -> vm1 v = vm v.
Proof.
  intros b m vm1 i v H Hm Hi Hmo Hv Ev. specialize (H v).
  assert (Hno : forall m', m' <= nout -> tch m' v = false).
  { intros m' Hm'. unfold touched. destruct (existsb _ _) eqn:E; auto. exfalso. apply existsb_exists in E. destruct E as (p & Hp & E). apply in_seq in Hp.
    apply andb_true_iff in E. destruct E as (_ & E). unfold tgt in E. apply (@oeq_eq (target (fo p) outv) v) in E.
    apply (@Hne i p Hi Hmo Hv); [lia|]. congruence. }
  unfold T in H. rewrite !Hno, andb_false_r in H by lia. exact H.
Qed.

(** one output block *)
Lemma restrict_ok : forall b p vm1 e, b < NB -> p < nout -> lst p = p -> binv b p vm1 -> length e = bszd bs (rd D (fo p)) ->
  (forall kk n l, kk < u_nc (rd D (fo p)) -> n < u_es (rd D (fo p)) -> l < BS -> vf e ((kk * u_es (rd D (fo p)) + n) * BS + l) = Eb p (b * BS + l) kk n) ->
  exists vm2, block_restrict (nth p (s_rout s) None) b e (target (fo p) outv) vm1 = Ok vm2 /\ binv b (p + 1) vm2.
Proof.
  intros b p vm1 e Hb Hp Elp H Le He. destruct (so_rout Hs) as (L2 & G2). destruct (G2 p Hp) as (r & Er & Ecr).
  destruct Hvec as (_ & Ho). destruct (Ho p Hp) as (v & x & Et & Ex & Lx).
  assert (Lx' : length x = u_lsize (rd D (fo p))). { rewrite <- (Hlo Hp). unfold contents. rewrite Et, Ex. reflexivity. }
  unfold block_restrict. rewrite Er, Et. cbv zeta.
  assert (Hcur : exists x', vv_data (vm1 v) = Some x' /\ vv_len (vm1 v) = vv_len (vm v) /\ (vv_state (vm v) <= vv_state (vm1 v))%Z /\ length x' = length x /\ forall q, vf x' q = (vf x q + A b p v q)%R).
  { specialize (H v). destruct (T b p v) eqn:ET.
    - destruct H as (B1 & B2 & x1 & x' & C1 & C2 & C3 & C4). rewrite Ex in C1. inversion C1; subst x1. exists x'. repeat split; auto. lia.
    - exists x. rewrite H. repeat split; auto. lia. intros q. rewrite A_0 by auto. ring. }
  destruct Hcur as (x' & Ex' & El' & Est & Lxx & Gx'). rewrite Ex'.
  pose proof (out_rwf Hwf Hp) as Hw. destruct Hw as (W1 & W2 & W3 & _ & W5).
  destruct (create_bs Ecr) as (Ebs & Enb). rewrite (nb_eq Hwf _ W5) in Enb. pose proof (create_repr W1 Ecr) as Hrep.
  destruct (block_t_ok Hrep W1 W2 W3 eq_refl Signed (b := b) e x' (Eb p)) as (l' & El & Ll & Gl).
  { rewrite Le, Ebs. reflexivity. } { lia. } { lia. }
  { intros j kk n Hj Hk Hn. rewrite Ebs in *. rewrite <- He by auto. f_equal. ring. }
  rewrite El. cbn [be rbind]. eexists. split; [reflexivity|]. intros v'.
  assert (HT : T b (p + 1) v' = T b p v' || tg p v').
  { unfold T. rewrite touched_S, Elp, Nat.eqb_refl. cbn [andb]. rewrite orb_assoc. reflexivity. }
  assert (HA : forall q, A b (p + 1) v' q = (A b p v' q + delta (tg p v') (@Lblock R Signed (rd D (fo p)) BS b (Eb p) q))%R).
  { intros q. unfold A. unfold W at 2 4. rewrite Nat.add_1_r, sumn_S, Elp, Nat.eqb_refl. cbn [andb]. ring. }
  rewrite HT. unfold tgt in HA |- * at 1. rewrite Et in HA |- *. cbn [oeq] in HA |- *. unfold vset. rewrite (Nat.eqb_sym v' v). destruct (Nat.eqb_spec v v') as [<-|Hn].
  - rewrite orb_true_r. cbn [vv_len vv_state vv_data]. split; auto. split; [lia|]. exists x, l'. repeat split; auto. lia.
    intros q. rewrite Gl, Gx', HA, Ebs. cbn [delta]. ring.
  - rewrite orb_false_r. specialize (H v'). destruct (T b p v'); auto. destruct H as (B1 & B2 & x1 & x2 & C1 & C2 & C3 & C4).
    split; auto. split; auto. exists x1, x2. repeat split; auto. intros q. rewrite C4, HA. cbn [delta]. ring.
Qed.

Lemma A_added : forall v q, A NB 0 v q = added D o vm inv outv v q.
Proof.
  intros v q. rewrite <- radded_added.
  unfold A. rewrite (W_0 NB 0 v q eq_refl). unfold W, radded. rewrite sumn_swap.
  assert (E : sumn nout (fun j => sumn NB (fun i => delta ((lst j =? j) && tg j v) (@Lblock R Signed (rd D (fo j)) BS i (Eb j) q))) =
              sumn nout (fun p => delta ((lst p =? p) && tg p v) (Lval Signed (rd D (fo p)) (gsum D o vm inv p) q))).
  { apply sumn_ext. intros p Hp. destruct ((lst p =? p) && tg p v); cbn [delta].
    - destruct (out_rwf Hwf Hp) as (_ & _ & _ & _ & W5). pose proof (nb_bounds Hwf) as (N1 & N2).
      rewrite Lblock_Lval by lia. apply Lval_ext. intros el kk n Hel _ _. unfold Eb, cap. rewrite Nat.min_l by lia. reflexivity.
    - apply sumn_zero. auto. }
  rewrite E. ring.
Qed.
Lemma binv_adds : forall vm1, binv NB 0 vm1 -> adds D o vm inv outv vm1.
Proof.
  intros vm1 H v. specialize (H v). unfold T in H. rewrite tch_0, orb_false_r in H.
  assert (Hp : 0 <? NB = true). { apply Nat.ltb_lt. pose proof (nb_bounds Hwf). pose proof (ow_ne Hwf). nia. }
  rewrite Hp in H. cbn [andb] in H. rewrite touched_all in H by exact D. destruct (existsb _ _); auto.
  destruct H as (A1 & A2 & x & x' & C1 & C2 & C3 & C4). split; auto. split; auto. exists x, x'. repeat split; auto.
  intros q. rewrite C4, A_added. reflexivity.
Qed.

(** ** outputs of one block *)
Definition Yb (b : nat) : nat -> nat -> nat -> nat -> R := fun j x l c => vf (nth j (outs_val D o vm inv (cap o (b * BS + l)) x) []) c.
Lemma binv_skip : forall b i vm1, lst i <> i -> binv b i vm1 -> binv b (i + 1) vm1.
Proof.
  intros b i vm1 Hn H v. specialize (H v). unfold T in *. rewrite touched_S. apply Nat.eqb_neq in Hn. rewrite Hn. cbn [andb]. rewrite orb_false_r.
  destruct ((0 <? b) && tch nout v || tch i v); auto. destruct H as (B1 & B2 & x1 & x2 & C1 & C2 & C3 & C4).
  split; auto. split; auto. exists x1, x2. repeat split; auto. intros q. rewrite C4. unfold A. f_equal. f_equal. unfold W. rewrite Nat.add_1_r, sumn_S, Hn. cbn [andb delta]. ring.
Qed.
Lemma opt_output_step : forall b e0 qout i eout eob vm1, b < NB -> i < nout -> qo_ok bs o qout ->
  (isnone o i = false -> forall c x l, c < f_size (fo i) -> x < Q -> l < BS -> vf (nth i qout []) ((c * Q + x) * BS + l) = Yb b i x l c) ->
  ob_inv D bs o b e0 (Yb b) i eout -> Sim D bs o b eout eob -> binv b i vm1 ->
  exists eout' eob' vm2, opt_output k junk bs o s outv b qout i (eob, vm1) = Ok (eob', vm2) /\
    ob_inv D bs o b e0 (Yb b) (i + 1) eout' /\ Sim D bs o b eout' eob' /\ binv b (i + 1) vm2.
Proof.
  intros b e0 qout i eout eob vm1 Hb Hi Hq HY Hob HS HB.
  destruct (@output_step R k Jmin junk chk D bs o Hwf s Hs (s_idx s) Hsl b e0 qout (Yb b) i eout Hb Hi Hq HY Hob) as (eout' & E1 & Hob').
  destruct (@out_sim R k Jmin junk chk D bs o Hwf s Hs Hsl b qout i eout eout' eob Hb Hi Hq HS E1) as (eob' & E2 & HS').
  destruct Hsl as (Lsl & Gsl). destruct (so_skout Hs) as (Lsk & Gsk). destruct (so_rout Hs) as (Lro & _). destruct (lst_spec o Hi) as (Hl & _).
  pose proof (sim_len Hb HS') as (Leob & Geob).
  assert (E3 : opt_output k junk bs o s outv b qout i (eob, vm1) =
    (if nth i (s_skout s) false then Ok (eob', vm1) else e <~ og eob' (lst i) ;; ro <~ og (s_rout s) i ;; vm <~ block_restrict ro b e (target (fo i) outv) vm1 ;; Ok (eob', vm))).
  { unfold opt_output. rewrite og_fld by auto. cbn [rbind]. rewrite (og_nth (s_idx s) 0) by lia. cbn [rbind]. rewrite Gsl by auto.
    unfold out_basis in E2. rewrite E2. cbn [rbind]. rewrite (og_nth (s_skout s) false) by lia. reflexivity. }
  rewrite E3, Gsk by auto. destruct (Nat.ltb_spec i (lst i)) as [Hlt|Hge].
  - exists eout', eob', vm1. split; auto. split; auto. split; auto. apply binv_skip; auto. lia.
  - assert (Eli : lst i = i) by lia. rewrite Eli. rewrite (og_nth eob' []) by lia. cbn [rbind]. rewrite (og_nth (s_rout s) None) by lia. cbn [rbind].
    destruct (@restrict_ok b i vm1 (nth i eob' []) Hb Hi Eli HB (Geob i Hi)) as (vm2 & E4 & HB').
    { intros kk n l Hk Hn Hll. destruct HS' as (_ & _ & Gs). rewrite Gs by auto. rewrite vf_cut.
      2:{ unfold bsz. assert (kk * u_es (rd D (fo i)) + n < u_nc (rd D (fo i)) * u_es (rd D (fo i))) by nia. nia. }
      destruct Hob' as (_ & _ & Hbk). assert (HSt : St o (i + 1) i = true). { unfold St. destruct (Nat.ltb_spec i (i + 1)); auto. lia. }
      specialize (Hbk i Hi HSt). rewrite Eli in Hbk. transitivity (part o (fun _ => true) (Yb b) i kk n l). 2:{ unfold part, Eb, gsum. apply sumn_ext. intros h Hh. cbn [andb]. f_equal. }
      specialize (Hbk kk n l Hk Hn Hll). unfold bpos in Hbk. rewrite Hbk.
      apply part_ext. intros j Hj Ej. unfold St. assert (j <= i). { destruct (lst_spec o Hj) as (X & _). lia. } destruct (Nat.ltb_spec j (i + 1)); auto. lia. }
    rewrite E4. cbn [rbind]. exists eout', eob', vm2. auto.
Qed.

(** ** one block *)
Lemma opt_pass_ok : forall ein b eb qin eo qout vm1, b < NB -> length ein = nin ->
  (forall i, i < nin -> f_mode (fi i) <> EvWeight -> is_active (fi i) = false -> ein_ok D bs o vm inv i ein) ->
  eb_ok D bs o eb -> qin_ok bs o qin -> ob_ok D bs o eo -> qo_ok bs o qout -> binv b 0 vm1 ->
  exists eb' qin' eo' qout' vm2, opt_pass k junk D bs o s ein inv outv b (eb, qin, eo, qout, vm1) = Ok (eb', qin', eo', qout', vm2) /\
    eb_ok D bs o eb' /\ qin_ok bs o qin' /\ ob_ok D bs o eo' /\ qo_ok bs o qout' /\ binv (b + 1) 0 vm2.
Proof.
  intros ein b eb qin eo qout vm1 Hb Lei Hein Heb Hq Heo Hqo HB. unfold opt_pass.
  destruct Hvec as (Hvi & _).
  pose proof (vein_ok Hwf Hs Hlen' Hein) as Hve.
  assert (Lv : length (vein o s vm inv ein) = nin) by (unfold vein; rewrite map_length, seq_length; auto).
  destruct (@inputs_ok R k Jmin junk chk D bs o Hwf vm inv s Hs false (vein o s vm inv ein) b qin Hb Lv Hq) as (qin' & E1 & Q1 & V1 & _).
  { intros i Hi Hm _. apply Hve; auto. }
  destruct (@rfold_sim _ _ _ (fun (q : list (list R)) (t : list (list R) * list (list R)) => snd t = q /\ eb_ok D bs o (fst t))
     (input_basis k junk D bs o s (vein o s vm inv ein) (b * BS) false) (opt_input k junk D bs o s vm1 inv ein b) _ _ _ (eb, qin) E1) as ((eb', qin2) & E2 & X1 & X2).
  { auto. }
  { intros i q1 q1' (eb1, q1'') Hi Ei (Eq & Hebi). cbn [fst snd] in *. subst q1''. apply in_seq in Hi.
    destruct (@opt_input_sim R k Jmin junk chk D bs o Hwf s Hs vm inv Hvi Hlen' vm1 ein b i eb1 q1 q1' Hb ltac:(lia) Lei Hebi) as (eb2 & E2 & H2); auto.
    { intros j Hj Hm Hact v Ev. rewrite (@binv_in b 0 vm1 j v HB); auto. lia. }
    exists (eb2, q1'). auto. }
  cbn [fst snd] in *. subst qin2. rewrite E2. cbn [rbind snd].
  destruct (embed Hb Heo) as (eout & HS).
  assert (V : forall i, i < nin -> qvals D bs o vm inv i b (nth i qin' [])). { intros i Hi. apply V1; auto. }
  pose proof HS as (He & _).
  destruct (@call_qf_ok R k Jmin chk D bs o Hwf (s_idx s) Hsl b qin' eout qout _ Hb Q1 He Hqo (outs_val_Y Hwf Q1 V)) as (e1 & q1 & E3 & P1 & P2 & P3 & P4).
  destruct (@call_sim R k Jmin chk D bs o Hwf s Hsl b qin' (eout, qout) (e1, q1) (eo, qout) Hb Q1) as ((eo1, q1') & E4 & S1 & S2); auto.
  { split; auto. }
  cbn [fst snd] in *. subst q1'. rewrite E4. cbn [rbind fst snd].
  fold (Yb b) in P4.
  destruct (@rfold_inv0 _ (fun i (st : list (list R) * vmem R) => exists eout1, ob_inv D bs o b e1 (Yb b) i eout1 /\ Sim D bs o b eout1 (fst st) /\ binv b i (snd st))
     (opt_output k junk bs o s outv b q1) nout (eo1, vm1)) as ((eo2, vm2) & E5 & eout2 & _ & S3 & HB2).
  { exists e1. split; [|auto]. split; auto. split; [apply keeps_refl|]. intros j Hj Hsj. unfold St in Hsj. simpl in Hsj.
    pose proof (P4 j Hj) as Haj. rewrite Hsj in Haj. intros kk n l Hk Hn Hl. rewrite Haj by auto.
    pose proof (isnone_spec Hwf Hj) as Hm. rewrite Hsj in Hm.
    symmetry. rewrite part_single with (i := j); auto.
    + unfold OV. rewrite Hm. reflexivity.
    + intros h Hh Eh Hne'. unfold St. simpl. destruct (isnone o h) eqn:Enh; auto. exfalso.
      pose proof (isnone_spec Hwf Hh) as Hmh. rewrite Enh in Hmh. apply (@nodup_none R k Jmin chk D bs o Hwf (s_idx s) Hsl h j); auto. }
  { intros i (eo3, vm3) Hi (eout3 & H1 & H2 & H3). cbn [fst snd] in *.
    destruct (@opt_output_step b e1 q1 i eout3 eo3 vm3 Hb Hi P2) as (eout4 & eo4 & vm4 & E6 & K1 & K2 & K3); auto.
    { intros Hno. pose proof (P4 i Hi) as Hai. rewrite Hno in Hai. exact Hai. }
    exists (eo4, vm4). split; auto. exists eout4. auto. }
  cbn [fst snd] in *. rewrite E5. cbn [rbind fst snd].
  exists eb', qin', eo2, q1, vm2. split; auto. split; auto. split; auto. split; [apply (sim_len Hb S3)|]. split; auto. apply binv_next. auto.
Qed.
Lemma binv_0 : binv 0 0 vm.
Proof. intros v. reflexivity. Qed.

Lemma opt_blocks_ok : forall ein eb qin eo qout, length ein = nin ->
  (forall i, i < nin -> f_mode (fi i) <> EvWeight -> is_active (fi i) = false -> ein_ok D bs o vm inv i ein) ->
  eb_ok D bs o eb -> qin_ok bs o qin -> ob_ok D bs o eo -> qo_ok bs o qout ->
  exists eb' qin' eo' qout' vm2, rfold (seq 0 NB) (opt_pass k junk D bs o s ein inv outv) (eb, qin, eo, qout, vm) = Ok (eb', qin', eo', qout', vm2) /\
    eb_ok D bs o eb' /\ qin_ok bs o qin' /\ ob_ok D bs o eo' /\ qo_ok bs o qout' /\ adds D o vm inv outv vm2.
Proof.
  intros ein eb qin eo qout Lei Hein Heb Hq Heo Hqo.
  destruct (@rfold_inv0 _ (fun b (st : list (list R) * list (list R) * list (list R) * list (list R) * vmem R) => let '(eb, qin, eo, qout, vm1) := st in
     eb_ok D bs o eb /\ qin_ok bs o qin /\ ob_ok D bs o eo /\ qo_ok bs o qout /\ binv b 0 vm1)
     (opt_pass k junk D bs o s ein inv outv) NB (eb, qin, eo, qout, vm)) as (((((eb', qin'), eo'), qout'), vm') & E & H1 & H2 & H3 & H4 & H5).
  - split; auto. split; auto. split; auto. split; auto. apply binv_0.
  - intros b ((((eb1, qin1), eo1), qout1), vm1) Hb (H1 & H2 & H3 & H4 & H5).
    destruct (@opt_pass_ok ein b eb1 qin1 eo1 qout1 vm1 Hb Lei Hein H1 H2 H3 H4 H5) as (eb2 & qin2 & eo2 & qout2 & vm2 & E & K).
    exists (eb2, qin2, eo2, qout2, vm2). auto.
  - exists eb', qin', eo', qout', vm'. split; auto. split; auto. split; auto. split; auto. split; auto. apply binv_adds. auto.
Qed.

(** ** an identity QFunction without bases *)
Lemma opt_ident_ok : forall eb, ident_rstr o = true -> eb_ok D bs o eb ->
  exists eb' vm', rfold (seq 0 NB) (opt_ident_pass s inv outv) (eb, vm) = Ok (eb', vm') /\ eb_ok D bs o eb' /\ adds D o vm inv outv vm'.
Proof.
  intros eb Eid Heb. unfold ident_rstr in Eid. apply andb_true_iff in Eid. destruct Eid as (Eid & Emm).
  destruct (ow_id Hwf Eid) as (Ni & No & Esz & Hact).
  assert (Em : f_mode (fi 0) = EvNone /\ f_mode (fo 0) = EvNone).
  { unfold fld. destruct (o_in o) as [|f l]; [discriminate|]. destruct (o_out o) as [|g l']; [discriminate|]. simpl.
    destruct (f_mode f); try discriminate. destruct (f_mode g); try discriminate. auto. }
  destruct Em as (Em1 & Em2). destruct (Hact Em1 Em2) as (Ev1 & Ev2).
  pose proof Hvec as (Hi & Ho). destruct (Hi 0 ltac:(lia) ltac:(congruence)) as (u & xu & Tu & Du & Lu).
  assert (Einv : inv = Some u). { unfold target in Tu. rewrite Ev1 in Tu. auto. }
  assert (Eout : target (fo 0) outv = outv). { unfold target. rewrite Ev2. auto. }
  pose proof (@ow_in _ _ _ _ _ _ _ Hwf 0 ltac:(lia)) as Hfi. destruct (@ow_out _ _ _ _ _ _ _ Hwf 0 ltac:(lia)) as (Hfo & _).
  assert (Wi : rstr_wf chk bs o (rd D (fi 0))). { apply (fwf_rd _ _ _ _ _ _ Hfi). congruence. }
  pose proof (@out_rwf _ _ _ _ _ _ _ Hwf 0 ltac:(lia)) as Wo.
  destruct (fwf_none _ _ _ _ _ _ Hfi Em1) as (S1 & Q1). destruct (fwf_none _ _ _ _ _ _ Hfo Em2) as (S2 & Q2).
  destruct (so_rin Hs) as (L1 & G1). destruct (so_rout Hs) as (L2 & G2).
  destruct (G1 0 ltac:(lia) ltac:(congruence)) as (ri & Eri & Cri).
  assert (El0 : lst 0 = 0). { destruct (@lst_spec _ o 0 ltac:(lia)). lia. }
  assert (Lxu : length xu = u_lsize (rd D (fi 0))). { rewrite <- (@Hli 0); auto; [|lia|congruence]. unfold contents. rewrite Tu, Du. reflexivity. }
  destruct Wi as (W1 & W2 & W3 & _ & W5). destruct (create_bs Cri) as (Ebs & Enb). rewrite (nb_eq Hwf _ W5) in Enb. pose proof (create_repr W1 Cri) as Hrep.
  destruct (@rfold_inv0 _ (fun b (st : list (list R) * vmem R) => eb_ok D bs o (fst st) /\ binv b 0 (snd st)) (opt_ident_pass s inv outv) NB (eb, vm)) as ((eb', vm') & E & H1 & H2).
  - split; auto. apply binv_0.
  - intros b (eb1, vm1) Hb ((Lb & Gb) & HB). cbn [fst snd] in *. unfold opt_ident_pass.
    rewrite (og_nth (s_rin s) None) by lia. cbn [rbind]. rewrite (og_nth (s_rout s) None) by lia. cbn [rbind]. rewrite (og_nth eb1 []) by lia. cbn [rbind].
    rewrite Eri, Einv. rewrite (@binv_in b 0 vm1 0 u HB); auto; try lia; try congruence. rewrite Du.
    assert (Lv : length (nth 0 eb1 []) = r_bs ri * u_es (rd D (fi 0)) * u_nc (rd D (fi 0))). { rewrite Gb by (try lia; congruence). unfold bszd. rewrite Ebs. reflexivity. }
    destruct (block_nt_ok Hrep W1 W2 W3 eq_refl Signed xu (nth 0 eb1 []) Lxu Lv (b := b)) as (e & Ee & Le & Ge); [lia|].
    rewrite Ee. cbn [be rbind]. rewrite <- Eout.
    assert (Enc : u_nc (rd D (fo 0)) = u_nc (rd D (fi 0))) by lia. assert (Ees : u_es (rd D (fo 0)) = u_es (rd D (fi 0))) by lia.
    destruct (@restrict_ok b 0 vm1 e Hb ltac:(lia) El0 HB) as (vm2 & E2 & HB2).
    { rewrite Le, Lv. unfold bszd. rewrite Enc, Ees, Ebs. reflexivity. }
    { intros kk n l Hk Hn Hl. rewrite Enc in Hk. rewrite Ees in Hn |- *.
      replace ((kk * u_es (rd D (fi 0)) + n) * BS + l) with (kk * (u_es (rd D (fi 0)) * r_bs ri) + (n * r_bs ri + l)) by (rewrite Ebs; ring).
      rewrite Ge by (auto; lia). unfold Eb, gsum. pose proof El0 as El1. rewrite No in El1 |- *. rewrite sumn_S, sumn_0, El1. cbn [Nat.eqb delta].
      unfold out_val. rewrite Em2. unfold outs_val. rewrite Eid. cbn [nth].
      unfold ins_val. set (g := fun f : ofield R => map (fun c0 => in_val D f (contents vm f inv) (cap o (b * BS + l)) c0 n) (seq 0 (f_size f))).
      rewrite (nth_indep _ [] (g (mkOF 0 EvNone None None VNo))) by (rewrite map_length; lia). rewrite (map_nth g).
      unfold g. fold (fi 0). rewrite vf_map_seq by lia. unfold in_val. rewrite Em1. unfold contents. rewrite Tu, Du.
      unfold elt, cap. rewrite Ebs, W5. ring. }
    rewrite E2. cbn [rbind]. eexists. split; [reflexivity|]. cbn [fst snd]. split.
    + split; [rewrite upd_length; auto|]. intros i Hi' Hm. rewrite nth_upd' by lia. assert (i = 0) by lia. subst i. rewrite Nat.eqb_refl, Le, Lv. unfold bszd. rewrite Ebs. reflexivity.
    + apply binv_next. rewrite No. exact HB2.
  - exists eb', vm'. split; auto. split; auto. apply binv_adds. auto.
Qed.

(** ** one application *)
Theorem opt_apply_be_ok : forall x, odyn_ok D bs o x -> cache_ok D bs o (od x) vm ->
  exists x' vm', opt_apply_be k junk D bs o s x vm inv outv = Ok (x', vm') /\ odyn_ok D bs o x' /\ cache_ok D bs o (od x') vm' /\ adds D o vm inv outv vm'.
Proof.
  intros x Hx Hc. unfold opt_apply_be. destruct (ident_rstr o) eqn:Eid.
  - destruct (opt_ident_ok Eid (od_ebk Hx)) as (eb' & vm' & E & H1 & H2). rewrite E. cbn [rbind fst snd].
    eexists. eexists. split; [reflexivity|]. split; [|split; auto].
    + destruct Hx. constructor; auto.
    + cbn [od]. apply cache_mono with (vm1 := vm); auto. apply (adds_mono H2).
  - destruct (od x) as [sts ein eo qin qout] eqn:Ex. pose proof Hx as Hx'. destruct Hx' as [X1 X2 X3 X4 X5 X6]. rewrite Ex in *. cbn [d_states d_ein d_eout d_qin d_qout] in *.
    set (ve := map (fun j => repeat 0%R (esz bs o (rd D (fo j)))) (seq 0 nout) : list (list R)).
    assert (Hd : dyn_ok D bs o (mkDy sts ein ve qin qout)).
    { constructor; cbn [d_states d_ein d_eout d_qin d_qout]; auto. unfold ve. rewrite map_length, seq_length. split; auto.
      intros j Hj. rewrite nth_map_seq by auto. simpl. apply repeat_length. }
    destruct (@setup_inputs_ok R k Jmin chk D bs o Hwf vm None s Hs true) with (d := mkDy sts ein ve qin qout) as (d1 & E1 & D1 & C1 & Y1 & Y2 & Y3 & Y4); auto.
    { intros i Hi Hm Hsk. destruct Hvec as (Hv & _). destruct (Hv i Hi Hm) as (v & y & Ty & Dy & Ly). exists v, y. split; auto.
      unfold skipped in Hsk. cbn [andb] in Hsk. unfold is_active in Hsk. unfold target in *. destruct (f_vec (fi i)); auto; discriminate. }
    assert (E2 : exists d2, opt_setup_inputs o s vm (mkDy sts ein eo qin qout) = Ok d2 /\ d_states d2 = d_states d1 /\ d_ein d2 = d_ein d1 /\ d_eout d2 = eo /\ d_qin d2 = qin /\ d_qout d2 = qout).
    { unfold opt_setup_inputs, setup_inputs in *. cbn [d_states d_ein d_eout d_qin d_qout] in *.
      destruct (rfold _ _ _) as [st| |]; cbn [rbind] in *; try discriminate. inversion E1; subst d1. eexists. split; [reflexivity|]. cbn. auto. }
    destruct E2 as (d2 & E2 & Z1 & Z2 & Z3 & Z4 & Z5). rewrite E2. cbn [rbind]. rewrite Z1, Z2, Z3, Z4, Z5.
    destruct (@opt_blocks_ok (d_ein d1) (od_eb x) qin eo qout) as (eb' & qin' & eo' & qout' & vm' & E3 & P1 & P2 & P3 & P4 & P5); auto.
    { apply (dy_ein D1). }
    { intros i Hi Hm Ha. destruct (Y4 i Hi Hm) as (e & Ee & He). { unfold skipped. rewrite Ha. reflexivity. }
      exists e. split; auto. unfold contents, target in *. unfold is_active in Ha. destruct (f_vec (fi i)); auto; discriminate. }
    rewrite E3. cbn [rbind]. eexists. eexists. split; [reflexivity|]. split; [|split; auto].
    + constructor; cbn; auto; try apply (dy_st D1); try apply (dy_ein D1).
    + cbn [od]. apply cache_mono with (vm1 := vm). { apply (adds_mono P5). }
      intros i v Hi Hm Hf Hv. destruct (C1 i v Hi Hm Hf Hv) as (A1 & A2). split; auto.
Qed.
End Main.
