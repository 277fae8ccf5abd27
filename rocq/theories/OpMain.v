(** * Operator application: the element loop, the output restrictions, and the result of one application *)
From Coq Require Import List ZArith Lia Bool Arith.
From Verif Require Import Prelude RstrModel RstrSpec RstrProofs RstrProps TensorModel BasisModel BasisProps TensorMain Digits OpModel OpSpec OpLists OpProofs.
Import ListNotations.
Set Implicit Arguments.

Section Lin.
Variable R : Rng.
Add Ring Rr : (r_th R).
Local Open Scope nat_scope.
Variable w : variant.
Variable d : udesc.
Lemma Lval_ext : forall (E F : nat -> nat -> nat -> R) q, (forall el kk n, el < u_ne d -> kk < u_nc d -> n < u_es d -> E el kk n = F el kk n) ->
  Lval w d E q = Lval w d F q.
Proof.
  intros E F q H. unfold Lval. apply sumn_ext. intros el Hel. apply sumn_ext. intros kk Hk. apply sumn_ext. intros n Hn.
  apply sumn_ext. intros m Hm. rewrite H by auto. reflexivity.
Qed.
Lemma Lval_add : forall (E F : nat -> nat -> nat -> R) q, Lval w d (fun el kk n => (E el kk n + F el kk n)%R) q = (Lval w d E q + Lval w d F q)%R.
Proof.
  intros E F q. unfold Lval. rewrite <- sumn_add. apply sumn_ext. intros el Hel. rewrite <- sumn_add. apply sumn_ext. intros kk Hk.
  rewrite <- sumn_add. apply sumn_ext. intros n Hn. rewrite <- sumn_add. apply sumn_ext. intros m Hm.
  destruct (Z.of_nat q =? _)%Z; cbn [delta]; ring.
Qed.
Lemma Lval_zero : forall q, Lval w d (fun _ _ _ => 0%R : R) q = 0%R.
Proof.
  intros q. unfold Lval.
  apply sumn_zero. intros el _. apply sumn_zero. intros kk _. apply sumn_zero. intros n _. apply sumn_zero. intros m _.
  destruct (Z.of_nat q =? _)%Z; cbn [delta]; ring.
Qed.
Lemma Lval_sumn : forall N (F : nat -> nat -> nat -> nat -> R) q, Lval w d (fun el kk n => sumn N (fun j => F j el kk n)) q = sumn N (fun j => Lval w d (F j) q).
Proof.
  induction N as [|N IH]; intros F q.
  - rewrite sumn_0. apply Lval_zero.
  - rewrite sumn_S, <- IH, <- Lval_add. apply Lval_ext. intros. rewrite sumn_S. reflexivity.
Qed.
Lemma Lval_delta : forall b (F : nat -> nat -> nat -> R) q, Lval w d (fun el kk n => delta b (F el kk n)) q = delta b (Lval w d F q).
Proof. intros [|] F q; cbn [delta]; auto. apply Lval_zero. Qed.
End Lin.

Section Main.
Variable R : Rng.
Add Ring Rr2 : (r_th R).
Local Open Scope nat_scope.
Variable k : kernel R.
Variable Jmin : nat.
Variable junk : nat -> nat -> R.
Variable chk : bool.
Variable D : nat -> udesc.
Variable bs : option nat.
Variable o : oper R.
Hypothesis Hwf : op_wf D k Jmin chk bs o.
Notation BS := (bsize bs).
Notation NB := (op_blocks bs o).
Notation nin := (length (o_in o)).
Notation nout := (length (o_out o)).
Notation fi := (fld (o_in o)).
Notation fo := (fld (o_out o)).
Notation Q := (o_Q o).
Notation fst_in := (first (sameE (o_in o))).
Notation lst := (last (sameE (o_out o)) nout).
Variable s : stat.
Hypothesis Hs : stat_ok chk D bs o s.

Lemma out_ptrs_ok : exists ptr, out_ptrs o s = Ok ptr /\ length ptr = nout /\ forall j, j < nout -> nth j ptr 0 = lst j.
Proof.
  unfold out_ptrs.
  match goal with |- context [rfold _ ?F ?st] => destruct (@rfold_down _ (fun i p => length p = nout /\ forall j, i <= j < nout -> nth j p 0 = lst j) F nout st) as (p & E & L & G) end.
  - rewrite repeat_length. split; auto. intros j Hj. lia.
  - intros i p Hi (L & G). destruct (so_skout Hs) as (L1 & G1). destruct (so_idx Hs) as (L2 & G2).
    rewrite (og_nth (s_skout s) false) by lia. cbn [rbind]. rewrite G1 by auto.
    destruct (Nat.ltb_spec i (lst i)) as [Hlt|Hge].
    + destruct (G2 i Hi Hlt) as (Hj & Hsm). rewrite (og_nth (s_idx s) 0) by lia. cbn [rbind]. rewrite (og_nth p 0) by lia. cbn [rbind].
      eexists. split; [reflexivity|]. split; [rewrite upd_length; auto|]. intros j Hij. rewrite nth_upd' by lia.
      destruct (Nat.eqb_spec j i) as [->|]. 2:{ apply G. lia. }
      rewrite G by lia. apply lst_iff; auto; lia.
    + eexists. split; [reflexivity|]. split; [rewrite upd_length; auto|]. intros j Hij. rewrite nth_upd' by lia.
      destruct (Nat.eqb_spec j i) as [->|]. 2:{ apply G. lia. }
      destruct (@lst_spec _ o i Hi). lia.
  - exists p. split; auto. split; auto. intros j Hj. apply G. lia.
Qed.

Variable vm : vmem R.
Variables inv outv : option nat.
Hypothesis Hvec : vec_ok D o vm inv outv.

(** the sum of the output fields sharing E-vector [p] *)
Definition gsum (p el kk n : nat) : R := sumn nout (fun j => delta (lst j =? p) (out_val D o vm inv j (fo j) el kk n)).

Lemma outs_val_Y : forall qin b, qin_ok bs o qin -> (forall i, i < nin -> qvals D bs o vm inv i b (nth i qin [])) ->
  qf_out bs o qin (fun j x l c => vf (nth j (outs_val D o vm inv (cap o (b * BS + l)) x) []) c).
Proof.
  intros qin b Hq Hv j c x l Hj Hc Hx Hl. unfold outs_val. destruct (o_ident o) eqn:Eid.
  - destruct (ow_id Hwf Eid) as (Ni & No & Esz & _). assert (j = 0) by lia. subst j. simpl nth at 1.
    unfold ins_val.
    set (g := fun f : ofield R => map (fun c0 => in_val D f (contents vm f inv) (cap o (b * BS + l)) c0 x) (seq 0 (f_size f))).
    rewrite (nth_indep _ [] (g (mkOF 0 EvNone None None VNo))) by (rewrite map_length; lia). rewrite (map_nth g).
    unfold g. fold (fi 0). rewrite vf_map_seq by lia. symmetry. apply Hv; auto; lia.
  - rewrite (ins_at_val Hx Hl Hq Hv). reflexivity.
Qed.

Lemma elem_pass_ok : forall ptr ein b qin eout qout, (length ptr = nout /\ forall j, j < nout -> nth j ptr 0 = lst j) ->
  b < NB -> length ein = nin -> qin_ok bs o qin -> eo_ok D bs o eout -> qo_ok bs o qout ->
  (forall i, i < nin -> f_mode (fi i) <> EvWeight -> ein_ok D bs o vm inv i ein) ->
  exists qin' eout' qout', elem_pass k junk D bs o s ptr ein (b * BS) (qin, eout, qout) = Ok (qin', eout', qout') /\
    qin_ok bs o qin' /\ eo_ok D bs o eout' /\ qo_ok bs o qout' /\ keeps D bs o b eout eout' /\
    forall j, j < nout -> blk D bs o eout' (lst j) b (fun kk n l => gsum (lst j) (cap o (b * BS + l)) kk n).
Proof.
  intros ptr ein b qin eout qout Hptr Hb Le Hq He Hqo Hein. unfold elem_pass.
  destruct (@inputs_ok R k Jmin junk chk D bs o Hwf vm inv s Hs false ein b qin Hb Le Hq) as (qin' & E1 & Q1 & V1 & _).
  { intros i Hi Hm _. auto. }
  rewrite E1. cbn [rbind].
  assert (V : forall i, i < nin -> qvals D bs o vm inv i b (nth i qin' [])). { intros i Hi. apply V1; auto. }
  destruct (@call_qf_ok R k Jmin chk D bs o Hwf ptr Hptr b qin' eout qout _ Hb Q1 He Hqo (outs_val_Y Q1 V)) as (e1 & q1 & E2 & P1 & P2 & P3 & P4).
  rewrite E2. cbn [rbind fst snd].
  destruct (@outputs_ok R k Jmin junk chk D bs o Hwf s Hs ptr Hptr b e1 q1 _ Hb P1 P2 P4) as (e2 & E3 & P5 & P6 & P7).
  rewrite E3. cbn [rbind]. exists qin', e2, q1. split; auto. split; auto. split; auto. split; auto. split. { eapply keeps_trans; eauto. }
  intros j Hj kk n l Hk Hn Hl. rewrite (P7 j Hj kk n l Hk Hn Hl). unfold part, gsum. apply sumn_ext. intros h Hh. f_equal.
Qed.

Lemma elems_ok : forall ptr ein qin eout qout, (length ptr = nout /\ forall j, j < nout -> nth j ptr 0 = lst j) ->
  length ein = nin -> qin_ok bs o qin -> eo_ok D bs o eout -> qo_ok bs o qout ->
  (forall i, i < nin -> f_mode (fi i) <> EvWeight -> ein_ok D bs o vm inv i ein) ->
  exists qin' eout' qout', rfold (seq 0 NB) (fun b => elem_pass k junk D bs o s ptr ein (b * BS)) (qin, eout, qout) = Ok (qin', eout', qout') /\
    qin_ok bs o qin' /\ eo_ok D bs o eout' /\ qo_ok bs o qout' /\
    forall b j, b < NB -> j < nout -> blk D bs o eout' (lst j) b (fun kk n l => gsum (lst j) (cap o (b * BS + l)) kk n).
Proof.
  intros ptr ein qin eout qout Hptr Le Hq He Hqo Hein.
  destruct (@rfold_inv0 _ (fun m st => let '(qi, eo, qo) := st in qin_ok bs o qi /\ eo_ok D bs o eo /\ qo_ok bs o qo /\
     forall b j, b < m -> j < nout -> blk D bs o eo (lst j) b (fun kk n l => gsum (lst j) (cap o (b * BS + l)) kk n))
     (fun b => elem_pass k junk D bs o s ptr ein (b * BS)) NB (qin, eout, qout)) as (((qi, eo), qo) & E & G).
  - split; auto. split; auto. split; auto. intros; lia.
  - intros b ((qi, eo), qo) Hb (G1 & G2 & G3 & G4).
    destruct (@elem_pass_ok ptr ein b qi eo qo Hptr Hb Le G1 G2 G3 Hein) as (qi' & eo' & qo' & E & K1 & K2 & K3 & K4 & K5).
    exists (qi', eo', qo'). split; auto. split; auto. split; auto. split; auto.
    intros b' j Hb' Hj. destruct (Nat.eq_dec b' b) as [->|Hne]; auto.
    intros kk n l Hk Hn Hl. destruct (@lst_spec _ o j Hj). rewrite (K4 (lst j) b') by (auto; lia). apply G4; auto; lia.
  - exists qi, eo, qo. split; auto.
Qed.

(** ** the output restrictions *)
Lemma gather_out : forall eout p q, eo_ok D bs o eout -> p < nout -> lst p = p ->
  (forall b j, b < NB -> j < nout -> blk D bs o eout (lst j) b (fun kk n l => gsum (lst j) (cap o (b * BS + l)) kk n)) ->
  Lval Signed (rd D (fo p)) (fun el kk n => vf (nth p eout []) (epos (rd D (fo p)) BS el kk n)) q = Lval Signed (rd D (fo p)) (gsum p) q.
Proof.
  intros eout p q He Hp Elp Hb. apply Lval_ext. intros el kk n Hel Hk Hn.
  destruct (out_rwf Hwf Hp) as (_ & _ & _ & _ & Ene). rewrite Ene in Hel. pose proof (ow_bs Hwf) as HB.
  pose proof (nb_bounds Hwf) as (N1 & N2).
  assert (Eel : el = el / BS * BS + el mod BS). { rewrite Nat.mul_comm. apply Nat.div_mod. lia. }
  assert (Hl : el mod BS < BS) by (apply Nat.mod_upper_bound; lia).
  assert (Hbb : el / BS < NB). { apply Nat.div_lt_upper_bound; nia. }
  rewrite Eel at 1. rewrite epos_block by auto. specialize (Hb _ p Hbb Hp). rewrite Elp in Hb. unfold blk, bpos, bsz in Hb.
  rewrite Hb by auto. rewrite <- Eel. unfold cap. rewrite Nat.min_l by lia. reflexivity.
Qed.

Definition tgt (p v : nat) : bool := oeq (target (fo p) outv) v.
Lemma tgt_lst : forall j v, j < nout -> tgt (lst j) v = tgt j v.
Proof.
  intros j v Hj. unfold tgt, target. destruct (@lst_spec _ o j Hj) as (_ & Hsm).
  destruct (same_rd D _ _ Hsm) as (_ & _ & E). rewrite E. reflexivity.
Qed.
Lemma lst_lst : forall j, j < nout -> lst (lst j) = lst j.
Proof. intros. apply last_last; auto using sameE_refl, sameE_sym. apply sameE_trans. Qed.

Definition radded (m v q : nat) : R := sumn m (fun p => delta ((lst p =? p) && tgt p v) (Lval Signed (rd D (fo p)) (gsum p) q)).
Lemma radded_added : forall v q, radded nout v q = added D o vm inv outv v q.
Proof.
  intros v q. unfold radded, added.
  transitivity (sumn nout (fun p => sumn nout (fun j => delta ((lst p =? p) && tgt p v) (delta (lst j =? p) (Lval Signed (rd D (fo p)) (out_val D o vm inv j (fo j)) q))))).
  - apply sumn_ext. intros p Hp. unfold gsum. rewrite Lval_sumn.
    destruct ((lst p =? p) && tgt p v); cbn [delta].
    + apply sumn_ext. intros j Hj. apply Lval_delta.
    + symmetry. apply sumn_zero. auto.
  - rewrite sumn_swap. apply sumn_ext. intros j Hj. fold (tgt j v).
    rewrite sumn_ext with (g := fun p => delta (p =? lst j) (delta (tgt j v) (contrib D o vm inv j q))).
    + rewrite sumn_delta. destruct (@lst_spec _ o j Hj). destruct (Nat.ltb_spec (lst j) nout); [|lia]. reflexivity.
    + intros p Hp. rewrite (Nat.eqb_sym p). destruct (Nat.eqb_spec (lst j) p) as [E|E]; cbn [delta].
      * rewrite <- E. rewrite lst_lst, Nat.eqb_refl, tgt_lst by auto. cbn [andb]. unfold contrib. rewrite lst_rd by auto. reflexivity.
      * destruct ((lst p =? p) && tgt p v); reflexivity.
Qed.

Definition touched (m v : nat) : bool := existsb (fun p => (lst p =? p) && tgt p v) (seq 0 m).
Lemma touched_all : forall v, touched nout v = existsb (fun f => oeq (target f outv) v) (o_out o).
Proof.
  intros v. apply eq_true_iff_eq. unfold touched. rewrite !existsb_exists. split.
  - intros (p & Hp & H). apply in_seq in Hp. apply andb_true_iff in H. exists (fo p). split; [apply nth_In; lia|apply H].
  - intros (f & Hf & H). destruct (In_nth _ _ (mkOF 0 EvNone None None VNo) Hf) as (j & Hj & E).
    exists (lst j). destruct (@lst_spec _ o j Hj). split; [apply in_seq; lia|]. rewrite lst_lst, Nat.eqb_refl, tgt_lst by auto.
    cbn [andb]. unfold tgt, fld. rewrite E. exact H.
Qed.

Definition rinv (m : nat) (vm1 : vmem R) : Prop := forall v,
  if touched m v then vv_len (vm1 v) = vv_len (vm v) /\ (vv_state (vm v) < vv_state (vm1 v))%Z /\
     exists x x', vv_data (vm v) = Some x /\ vv_data (vm1 v) = Some x' /\ length x' = length x /\ forall q, vf x' q = (vf x q + radded m v q)%R
  else vm1 v = vm v.

Lemma touched_S : forall m v, touched (m + 1) v = touched m v || ((lst m =? m) && tgt m v).
Proof. intros m v. unfold touched. rewrite Nat.add_1_r, seq_S, existsb_app. simpl. rewrite orb_false_r. reflexivity. Qed.
Lemma radded_0 : forall m v q, touched m v = false -> radded m v q = 0%R.
Proof.
  intros m v q H. unfold radded. apply sumn_zero. intros p Hp. unfold touched in H.
  assert (E : (lst p =? p) && tgt p v = false).
  { destruct ((lst p =? p) && tgt p v) eqn:E; auto. exfalso.
    assert (existsb (fun p => (lst p =? p) && tgt p v) (seq 0 m) = true). { apply existsb_exists. exists p. split; auto. apply in_seq. lia. }
    congruence. }
  rewrite E. reflexivity.
Qed.
Lemma oeq_eq : forall a v, oeq a v = true <-> a = Some v.
Proof. intros [a|] v; simpl. rewrite Nat.eqb_eq. split; congruence. split; discriminate. Qed.

Lemma restricts_ok : forall eout, eo_ok D bs o eout ->
  (forall b j, b < NB -> j < nout -> blk D bs o eout (lst j) b (fun kk n l => gsum (lst j) (cap o (b * BS + l)) kk n)) ->
  exists vm', rfold (seq 0 nout) (out_restrict o s eout outv) vm = Ok vm' /\ adds D o vm inv outv vm'.
Proof.
  intros eout He Hb.
  destruct (@rfold_inv0 _ rinv (out_restrict o s eout outv) nout vm) as (vm' & E & G).
  - intros v. simpl. reflexivity.
  - intros i vm1 Hi G. unfold out_restrict. destruct (so_skout Hs) as (L1 & G1). destruct (so_rout Hs) as (L2 & G2).
    rewrite (og_nth (s_skout s) false) by lia. cbn [rbind]. rewrite G1 by auto. destruct (@lst_spec _ o i Hi) as (Hl & _).
    destruct (Nat.ltb_spec i (lst i)) as [Hlt|Hge].
    + exists vm1. split; auto. intros v. specialize (G v). rewrite touched_S.
      assert (Ef : (lst i =? i) = false) by (apply Nat.eqb_neq; lia). rewrite Ef. cbn [andb]. rewrite orb_false_r.
      destruct (touched i v); auto. destruct G as (A & B & x & x' & C1 & C2 & C3 & C4). split; auto. split; auto. exists x, x'.
      repeat split; auto. intros q. rewrite C4. unfold radded. rewrite Nat.add_1_r, sumn_S, Ef. cbn [andb delta]. ring.
    + assert (Eli : lst i = i) by lia. rewrite og_fld by auto. cbn [rbind]. rewrite (og_nth eout []) by (destruct He; lia). cbn [rbind].
      rewrite (og_nth (s_rout s) None) by lia. cbn [rbind]. destruct (G2 i Hi) as (r & Er & Ecr). rewrite Er.
      destruct Hvec as (_ & Ho). destruct (Ho i Hi) as (v & x & Et & Ex & Lx). rewrite Et. cbv zeta.
      assert (Hcur : exists x', vv_data (vm1 v) = Some x' /\ vv_len (vm1 v) = vv_len (vm v) /\ (vv_state (vm v) <= vv_state (vm1 v))%Z /\ length x' = length x /\ forall q, vf x' q = (vf x q + radded i v q)%R).
      { specialize (G v). destruct (touched i v) eqn:Et'.
        - destruct G as (A & B & x1 & x' & C1 & C2 & C3 & C4). rewrite Ex in C1. inversion C1; subst x1. exists x'. repeat split; auto. lia.
        - exists x. rewrite G. repeat split; auto. lia. intros q. rewrite radded_0 by auto. ring. }
      destruct Hcur as (x' & Ex' & El' & Est & Lx' & Gx').
      destruct (out_rwf Hwf Hi) as (W1 & W2 & W3 & _ & W5).
      destruct (@C09_transpose_adds R chk (rd D (fo i)) bs r Signed (nth i eout []) x' W1 Ecr W2 W3) as (l' & Ea & La & Ga).
      { rewrite (esize_eq Hwf) with (d := rd D (fo i)); auto. destruct He as (_ & He). rewrite He by auto. lia. apply (out_rwf Hwf Hi). }
      { lia. }
      rewrite Ex', Ea. cbn [be rbind]. eexists. split; [reflexivity|]. intros v'.
      rewrite touched_S, Eli, Nat.eqb_refl. cbn [andb]. unfold tgt at 1. rewrite Et. cbn [oeq].
      unfold vset. rewrite (Nat.eqb_sym v' v). destruct (Nat.eqb_spec v v') as [<-|Hne].
      * rewrite orb_true_r. cbn [vv_len vv_state vv_data]. split; auto. split; [lia|]. exists x, l'. repeat split; auto. lia.
        intros q. rewrite Ga, Gx', gather_out by auto. unfold radded. rewrite Nat.add_1_r, sumn_S, Eli, Nat.eqb_refl.
        unfold tgt. rewrite Et. cbn [oeq andb]. rewrite Nat.eqb_refl. cbn [delta]. ring.
      * rewrite orb_false_r. specialize (G v'). destruct (touched i v'); auto. destruct G as (A & B & x1 & x2 & C1 & C2 & C3 & C4).
        split; auto. split; auto. exists x1, x2. repeat split; auto. intros q. rewrite C4. unfold radded. rewrite Nat.add_1_r, sumn_S.
        assert (Et' : tgt i v' = false). { unfold tgt. rewrite Et. cbn [oeq]. apply Nat.eqb_neq. auto. } rewrite Et', andb_false_r. cbn [delta]. ring.
  - exists vm'. split; auto. intros v. specialize (G v). rewrite touched_all in G. destruct (existsb _ _); auto.
    destruct G as (A & B & x & x' & C1 & C2 & C3 & C4). split; auto. split; auto. exists x, x'. repeat split; auto.
    intros q. rewrite C4, radded_added. reflexivity.
Qed.

Lemma cache_mono : forall d (vm1 vm2 : vmem R), (forall v, vm2 v = vm1 v \/ (vv_state (vm1 v) < vv_state (vm2 v))%Z) ->
  cache_ok D bs o d vm1 -> cache_ok D bs o d vm2.
Proof.
  intros d vm1 vm2 H Hc i v Hi Hm Hf Hv. destruct (Hc i v Hi Hm Hf Hv) as (A & B). destruct (H v) as [E|E].
  - rewrite E. auto.
  - split; [lia|]. intros Hx. lia.
Qed.
Lemma adds_mono : forall vm', adds D o vm inv outv vm' -> forall v, vm' v = vm v \/ (vv_state (vm v) < vv_state (vm' v))%Z.
Proof. intros vm' H v. specialize (H v). destruct (existsb _ _); [right|left]; auto. apply H. Qed.

(** ** one application *)
Theorem apply_add_ok : forall d, dyn_ok D bs o d -> cache_ok D bs o d vm ->
  exists d' vm', apply_add_be k junk D bs o s d vm inv outv = Ok (d', vm') /\ dyn_ok D bs o d' /\ cache_ok D bs o d' vm' /\ adds D o vm inv outv vm'.
Proof.
  intros d Hd Hc. unfold apply_add_be. destruct (ident_rstr o) eqn:Eid.
  - (* two restrictions *)
    unfold ident_rstr in Eid. apply andb_true_iff in Eid. destruct Eid as (Eid & Emm).
    destruct (ow_id Hwf Eid) as (Ni & No & Esz & Hact).
    assert (Em : f_mode (fi 0) = EvNone /\ f_mode (fo 0) = EvNone).
    { unfold fld. destruct (o_in o) as [|f l]; [discriminate|]. destruct (o_out o) as [|g l']; [discriminate|]. simpl.
      destruct (f_mode f); try discriminate. destruct (f_mode g); try discriminate. auto. }
    destruct Em as (Em1 & Em2). destruct (Hact Em1 Em2) as (Ev1 & Ev2).
    destruct Hvec as (Hi & Ho). destruct (Hi 0 ltac:(lia) ltac:(congruence)) as (u & xu & Tu & Du & Lu).
    destruct (Ho 0 ltac:(lia)) as (v & xv & Tv & Dv & Lv).
    assert (Einv : inv = Some u). { unfold target in Tu. rewrite Ev1 in Tu. auto. }
    assert (Eoutv : outv = Some v). { unfold target in Tv. rewrite Ev2 in Tv. auto. }
    pose proof (@ow_in _ _ _ _ _ _ _ Hwf 0 ltac:(lia)) as Hfi. destruct (@ow_out _ _ _ _ _ _ _ Hwf 0 ltac:(lia)) as (Hfo & _).
    assert (Wi : rstr_wf chk bs o (rd D (fi 0))). { apply (fwf_rd _ _ _ _ _ _ Hfi). congruence. }
    pose proof (@out_rwf _ _ _ _ _ _ _ Hwf 0 ltac:(lia)) as Wo.
    destruct (fwf_none _ _ _ _ _ _ Hfi Em1) as (S1 & Q1). destruct (fwf_none _ _ _ _ _ _ Hfo Em2) as (S2 & Q2).
    destruct (so_rin Hs) as (L1 & G1). destruct (so_rout Hs) as (L2 & G2).
    destruct (G1 0 ltac:(lia) ltac:(congruence)) as (ri & Eri & Cri). destruct (G2 0 ltac:(lia)) as (ro & Ero & Cro).
    destruct (dy_ein Hd) as (Le & Ge).
    unfold apply_ident. rewrite (og_nth (s_rin s) None) by lia. cbn [rbind]. rewrite (og_nth (s_rout s) None) by lia. cbn [rbind].
    rewrite (og_nth (d_ein d) None) by lia. cbn [rbind]. rewrite Eri, Ero, Einv, Eoutv, Du.
    set (e0 := match nth 0 (d_ein d) None with Some e => e | None => repeat 0%R (r_esize ri) end).
    assert (Le0 : length e0 = esz bs o (rd D (fi 0))).
    { unfold e0. destruct (nth 0 (d_ein d) None) eqn:E; [apply (Ge 0); auto; [lia|congruence]|]. rewrite repeat_length. apply (esize_eq Hwf); auto. }
    destruct (gather_ok Hwf xu e0 Wi Cri Lu Le0) as (e & Ee & He). rewrite Ee. cbn [be rbind]. rewrite Dv.
    pose proof Wo as Wo'. destruct Wo as (W1 & W2 & W3 & W4 & W5).
    assert (Les : length e = esz bs o (rd D (fo 0))).
    { destruct He as (He & _). rewrite He. unfold esz. rewrite Q1, Q2, <- S1, <- S2, Esz. reflexivity. }
    destruct (@C09_transpose_adds R chk (rd D (fo 0)) bs ro Signed e xv W1 Cro W2 W3) as (l' & Ea & La & Ga).
    { rewrite (esize_eq Hwf Wo' Cro). lia. }
    { lia. }
    rewrite Ea. cbn [be rbind]. eexists. eexists. split; [reflexivity|].
    assert (Hads : adds D o vm inv outv (vset vm v (mkVV (vv_len (vm v)) (Some l') (vv_state (vm v) + 2)%Z))).
    { intros v'.
      assert (Ee1 : existsb (fun f => oeq (target f outv) v') (o_out o) = oeq (target (fo 0) outv) v').
      { unfold fld. destruct (o_out o) as [|f [|]]; try discriminate. simpl. apply orb_false_r. }
      rewrite Ee1, Tv. cbn [oeq]. unfold vset. rewrite (Nat.eqb_sym v' v). destruct (Nat.eqb_spec v v') as [<-|]; auto.
      cbn [vv_len vv_state vv_data]. split; auto. split; [lia|]. exists xv, l'. repeat split; auto.
      intros q. rewrite Ga. unfold added, contrib. rewrite No, sumn_S, sumn_0, Tv. cbn [oeq]. rewrite Nat.eqb_refl. cbn [delta].
      assert (El : Lval Signed (rd D (fo 0)) (fun el k0 n => vf e (epos (rd D (fo 0)) BS el k0 n)) q = Lval Signed (rd D (fo 0)) (out_val D o vm inv 0 (fo 0)) q).
      { apply Lval_ext. intros el kk n Hel Hk Hn. rewrite W5 in Hel. pose proof (ow_bs Hwf) as HB. pose proof (nb_bounds Hwf) as (N1 & N2).
        assert (Eel : el = el / BS * BS + el mod BS). { rewrite Nat.mul_comm. apply Nat.div_mod. lia. }
        assert (Hl : el mod BS < BS) by (apply Nat.mod_upper_bound; lia).
        assert (Hbb : el / BS < NB). { apply Nat.div_lt_upper_bound; nia. }
        rewrite Eel at 1. rewrite epos_block by auto. destruct He as (_ & He).
        assert (Enc : u_nc (rd D (fo 0)) = u_nc (rd D (fi 0))) by lia.
        rewrite Q2, Enc, <- Q1. rewrite He by (auto; lia). rewrite <- Eel. unfold cap. rewrite Nat.min_l by lia.
        unfold out_val. rewrite Em2. unfold outs_val. rewrite Eid. cbn [nth].
        unfold ins_val. set (g := fun f : ofield R => map (fun c0 => in_val D f (contents vm f inv) el c0 n) (seq 0 (f_size f))).
        rewrite (nth_indep _ [] (g (mkOF 0 EvNone None None VNo))) by (rewrite map_length; lia). rewrite (map_nth g).
        unfold g. fold (fi 0). rewrite vf_map_seq by lia. unfold in_val. rewrite Em1. unfold contents. rewrite Tu, Du. reflexivity. }
      rewrite El. ring. }
    split; [|split; auto].
    + destruct Hd as [d1 d2 d3 d4 d5]. constructor; auto. cbn [d_ein]. rewrite upd_length. split; auto.
      intros i e1 Hi' Hm. rewrite nth_upd' by lia. assert (i = 0) by lia. subst i. rewrite Nat.eqb_refl. intros E. inversion E; subst e1. apply He.
    + apply cache_mono with (vm1 := vm). { apply adds_mono. exact Hads. }
      intros i v' Hi' Hm Hf Hv'. assert (i = 0) by lia. subst i. congruence.
    + rewrite Einv, Eoutv in Hads. exact Hads.
  - destruct Hvec as (Hvi & Hvo).
    destruct (@setup_inputs_ok R k Jmin chk D bs o Hwf vm inv s Hs false) with (d := d) as (d1 & E1 & D1 & C1 & X1 & X2 & X3 & X4); auto.
    rewrite E1. cbn [rbind]. destruct out_ptrs_ok as (ptr & E2 & Hptr). rewrite E2. cbn [rbind].
    destruct (@elems_ok ptr (d_ein d1) (d_qin d1) (d_eout d1) (d_qout d1) Hptr) as (qi & eo & qo & E3 & P1 & P2 & P3 & P4).
    { apply (dy_ein D1). } { apply (dy_qin D1). } { apply (dy_eout D1). } { apply (dy_qout D1). } { intros i Hi Hm. apply X4; auto. }
    rewrite E3. cbn [rbind]. destruct (restricts_ok P2 P4) as (vm' & E4 & Ha). rewrite E4. cbn [rbind].
    eexists. eexists. split; [reflexivity|]. split; [|split; auto].
    + destruct D1 as [d1' d2 d3 d4 d5]. constructor; auto.
    + apply cache_mono with (vm1 := vm); auto. apply adds_mono. auto.
Qed.
End Main.
