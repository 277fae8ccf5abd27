(** * Property C51: the diagonal of operators at points *)
From Coq Require Import List ZArith Lia Bool Arith.
From Verif Require Import Prelude RstrModel RstrSpec RstrProofs RstrPoints RstrProps TensorModel TensorMain BasisModel BasisProofs BasisProps Digits PointsModel PointsProofs PointsProps OpModel OpSpec OpLists OpProofs OpMain OpTree OpProps OptModel AtpModel AtpSpec AtpProofs AtpMain AtpProps AsmModel AsmSpec AsmProofs AsmProps AtqModel AtqSpec AtqProofs AtqProps DiagMain FullMain AtdModel AtdSpec AtdProofs AtdAlg.
Import ListNotations.

Section History.
Variable R : Rng.
Local Open Scope nat_scope.
Variable k : kernel R. Variable Jmin : nat. Variable junk : nat -> nat -> R. Variable chk : bool.
Variable D : nat -> pdesc. Variable CB : nat -> tbasis R. Variable a : atop R. Variable vc0 : nat -> list R.
Add Ring RrD : (r_th R).
Notation o := (a_op a).
Notation fi := (fld (o_in o)).
Notation fo := (fld (o_out o)).
(** Histories of vector changes, applications, assemblies of the QFunction and of the diagonal of one operator.  The flag: it was not
    applied, or something was assembled after the last application. *)
Inductive dreached : bool -> qimpl R -> vmem R -> Prop :=
| dr_new : forall vm, mem_ok vm -> dreached true new_qimpl vm
| dr_set : forall c st vm v x, dreached c st vm -> length x = vv_len (vm v) -> dreached c st (vec_event R (ESet v x) vm)
| dr_take : forall c st vm v, dreached c st vm -> dreached c st (vec_event R (ETake v) vm)
| dr_apply : forall c st vm inv outv st' vm', dreached c st vm -> at_vec_len R D a vm inv outv ->
    atq_apply k junk chk D CB a vc0 st vm inv outv = Ok (st', vm') -> dreached false st' vm'
| dr_asm : forall c st vm st' r A, dreached c st vm -> atq_wf D CB a k Jmin chk -> at_passive_ok D a vm -> first_ok a st ->
    atq_assemble k junk chk D CB a vc0 st vm = Ok (st', r, A) -> dreached true st' vm
| dr_add : forall c st vm sv av N st' vm', dreached c st vm -> at_passive_ok D a vm -> diag_vec_ok D a vm sv av N ->
    atd_add k junk chk D CB a vc0 st vm sv av = Ok (st', vm') -> dreached true st' vm'
| dr_diag : forall c st vm sv av N st' vm', dreached c st vm -> at_passive_ok D a vm -> diag_vec_ok D a vm sv av N ->
    (forall f, In f (o_in o) -> f_vec f <> VPas av) ->
    atd_diag k junk chk D CB a vc0 st vm sv av = Ok (st', vm') -> dreached true st' vm'.

Lemma at_lsize_ok : forall fs bl N, (forall i, i < length fs -> at_field_wf R D CB a Jmin chk (fld fs i) (nth i bl 0)) -> (exists f, In f fs /\ is_active f = true) ->
  (forall f, In f fs -> is_active f = true -> p_ls (pd R D f) = N) -> at_lsize D fs = Some N.
Proof.
  intros fs bl N Hf (g & Hg & Ha) HN. unfold at_lsize.
  assert (Hr : forall f, In f fs -> is_active f = true -> exists i, f_rstr f = Some i /\ pd R D f = D i).
  { intros f Hin Hac. destruct (In_nth _ _ (mkOF 0 EvNone None None VNo) Hin) as (i & Hi & Ei). specialize (Hf i Hi). unfold fld in Hf. rewrite Ei in Hf.
    destruct (aw_rwf _ _ _ _ _ _ _ _ Hf) as (_ & i0 & E0 & E1); [|eauto]. intros Ew. destruct (aw_weight _ _ _ _ _ _ _ _ Hf Ew) as (_ & _ & Nv & _). apply Nv. unfold is_active in Hac. destruct (f_vec f); congruence. }
  destruct (find _ fs) as [f|] eqn:Ef.
  - apply find_some in Ef. destruct Ef as (Hin & Hb). apply andb_true_iff in Hb. destruct Hb as (Hb & _). destruct (Hr f Hin Hb) as (i & Ei & Ed). rewrite Ei. f_equal.
    rewrite <- (HN f Hin Hb), Ed. destruct (D i); reflexivity.
  - exfalso. destruct (Hr g Hg Ha) as (i & Ei & _). pose proof (find_none _ _ Ef g Hg) as Hn. cbv beta in Hn. rewrite Ha, Ei in Hn. discriminate.
Qed.
Lemma dclean_clean : forall q, dclean R a q -> clean R D a q.
Proof. intros q H e i He Hi Ha x Hx. apply H; auto. Qed.
Lemma same_set : forall (vm : vmem R) sv w, (forall f, In f (o_in o) -> f_vec f <> VPas sv) -> sv <> a_xvec a -> at_same a (vset vm sv w) vm.
Proof.
  intros vm sv w Hf Hx. split.
  - unfold xcont, vset. destruct (Nat.eqb_spec (a_xvec a) sv); congruence.
  - intros i Hi Ha. specialize (Hf _ (nth_In _ (mkOF 0 EvNone None None VNo) Hi)). fold (fi i) in Hf. unfold contents, target, vset. destruct (f_vec (fi i)) as [| |v]; auto. destruct (Nat.eqb_spec v sv); congruence.
Qed.
Lemma same_trans : forall (x y z : vmem R), at_same a x y -> at_same a y z -> at_same a x z.
Proof. intros x y z (A1 & A2) (B1 & B2). split; [congruence|]. intros i Hi Ha. rewrite B2, A2; auto. Qed.

Lemma dadd_ok : forall c st vm sv av N, atp_wf R D CB a k Jmin chk -> vc_ok R CB vc0 -> sq_ok R chk D CB a c st vm -> at_passive_ok D a vm -> diag_vec_ok D a vm sv av N ->
  exists st' vm' y y', atd_add k junk chk D CB a vc0 st vm sv av = Ok (st', vm') /\ sq_ok R chk D CB a true st' vm' /\
    (forall v, v <> av -> pas_out a v = false -> vm' v = vm v) /\ (forall v, vv_len (vm' v) = vv_len (vm v)) /\
    vv_data (vm av) = Some y /\ vv_data (vm' av) = Some y' /\ length y' = length y /\ forall q, vf y' q = (vf y q + d_raw R D CB a (vset vm sv (mkVV N (Some (repeat 0%R N)) 2%Z)) q)%R.
Proof.
  intros c st vm sv av N Hwf Hvc (Hm & Hi & Hn1 & Hn2 & Hc) (Hp & Hxv) (Ai & Ao & HN & Hsv & Hsa & Hsx & Hax & Hy & Hpo). unfold atd_add.
  assert (L1 : at_lsize D (o_in o) = Some N). { eapply at_lsize_ok; eauto. apply (aw_in _ _ _ _ _ _ _ Hwf). intros f Hf. apply HN. apply in_app_iff. auto. }
  assert (L2 : at_lsize D (o_out o) = Some N). { eapply at_lsize_ok; eauto. intros i Hi'. apply (aw_out _ _ _ _ _ _ _ Hwf i Hi'). intros f Hf. apply HN. apply in_app_iff. auto. }
  rewrite L1, L2. unfold onat_eqb. rewrite Nat.eqb_refl. cbn [negb].
  pose proof (aw_ne _ _ _ _ _ _ _ Hwf) as Hne. destruct (Nat.eqb_spec (o_ne o) 0) as [E0|_]; [lia|].
  set (vm1 := vset vm sv (mkVV N (Some (repeat 0%R N)) 2%Z)).
  assert (V1 : forall v, v <> sv -> vm1 v = vm v). { intros v Hv. unfold vm1, vset. destruct (Nat.eqb_spec v sv); congruence. }
  assert (V2 : vm1 sv = mkVV N (Some (repeat 0%R N)) 2%Z). { unfold vm1, vset. rewrite Nat.eqb_refl. auto. }
  assert (Hca1 : forall d, a_cache_ok R chk D a d vm -> a_cache_ok R chk D a d vm1).
  { intros d H i v Hin Hmo Hfi Hve. rewrite V1; [apply H; auto|]. intros ->. apply (Hsv (fi i)); auto. apply in_app_iff. left. apply nth_In. auto. }
  assert (Hsd : exists rx s x, match q_im st with Some sd => Ok sd | None => atp_setup k junk chk D CB a vc0 end = Ok (rx, s, x) /\ a_im_ok R chk D CB a (rx, s, x) /\ a_cache_ok R chk D a (ad x) vm).
  { destruct (q_im st) as [((rx, s), x)|].
    - destruct Hi as (H1 & H2). exists rx, s, x. auto.
    - destruct (atp_setup_ok R k Jmin junk chk D CB a Hwf vc0 Hvc) as (((rx, s), x) & E & H1 & H2). exists rx, s, x. split; auto. split; auto.
      intros i v Hin Hmo Hfi Hve. cbn [snd] in H2. rewrite H2 by auto. destruct (Hm v) as (M1 & M2 & _). split; auto.
      intros E0 u Hu. rewrite M2 in Hu by auto. discriminate. }
  destruct Hsd as (rx & s & x & E & (Hrx & Hs & mx & Hmx & Hd) & Hca). rewrite E. cbn [rbind].
  assert (T1 : forall j, j < length (o_out o) -> target (fo j) (Some sv) <> Some av /\ target (fo j) (Some sv) <> Some (a_xvec a)).
  { intros j Hj. destruct (is_active (fo j)) eqn:Ea.
    - unfold target, is_active in *. destruct (f_vec (fo j)); try discriminate Ea. split; congruence.
    - destruct (Hpo j Hj Ea) as (_ & P1 & P2). unfold target, is_active in *. destruct (f_vec (fo j)); try discriminate Ea; split; congruence. }
  destruct (atd_core_ok R k Jmin junk chk D CB a Hwf mx Hmx s Hs rx Hrx vm1 sv av) with (x := x) as (x' & vm2 & EC & K1 & K2 & K3 & (M1 & M2 & M3)).
  - rewrite V1 by auto. exact Hxv.
  - intros j Hj. destruct (is_active (fo j)) eqn:Ea.
    + exists sv. eexists. split. { unfold target, is_active in *. destruct (f_vec (fo j)); try discriminate Ea. reflexivity. }
      rewrite V2. split; [reflexivity|]. rewrite repeat_length. rewrite (HN (fo j)); auto. 2:{ apply in_app_iff. right. apply nth_In. auto. }
      destruct (true && _); auto.
    + destruct (Hpo j Hj Ea) as ((v & y & Ht & Hyv & Hl) & _). exists v, y. split. { unfold target, is_active in *. destruct (f_vec (fo j)); try discriminate Ea; auto. }
      rewrite V1; auto. intros ->. assert (Hj' := Hsv (fo j)). unfold target in Ht. destruct (f_vec (fo j)); try discriminate. inversion Ht; subst. apply Hj'; auto. apply in_app_iff. right. apply nth_In. auto.
  - destruct Hy as (y & Ey & Ly). exists y. rewrite V1 by congruence. split; auto. intros j Hj Ea. unfold len_in. rewrite (HN (fo j)); auto. 2:{ apply in_app_iff. right. apply nth_In. auto. }
    destruct (is_pts _); lia.
  - exact T1.
  - exact Hax.
  - exact Hd.
  - apply Hca1. exact Hca.
  - intros i Hi' Hm' Ha. destruct (Hp i Hi' Hm' Ha) as (v & y & Ht & Hyv & Hl). exists v, y. split; auto. rewrite V1; auto. intros ->.
    assert (Hj' := Hsv (fi i)). unfold target in Ht. destruct (f_vec (fi i)); try discriminate. inversion Ht; subst. apply Hj'; auto. apply in_app_iff. left. apply nth_In. auto.
  - fold vm1. rewrite EC. cbn [rbind fst snd]. destruct M3 as (y & y' & Y1 & Y2 & Y3 & Y4). rewrite V1 in Y1 by congruence.
    assert (W : forall v, v <> sv -> vset vm2 sv (vm sv) v = vm2 v). { intros v Hv. unfold vset. destruct (Nat.eqb_spec v sv); congruence. }
    assert (Ws : vset vm2 sv (vm sv) sv = vm sv). { unfold vset. rewrite Nat.eqb_refl. auto. }
    do 2 eexists. exists y, y'. split; [reflexivity|]. split; [|split; [|split; [|split; [exact Y1|split; [|split; [exact Y3|exact Y4]]]]]].
    + split; [|split; [|split; [exact Hn1|split; [exact Hn2|]]]]; cbn [q_im q_ni q_no].
      * intros v. destruct (Nat.eq_dec v sv) as [->|Nv]; [rewrite Ws; apply Hm|]. rewrite W by auto. destruct (M1 v) as [E1|(S1 & L & z & z' & Z1 & Z2 & Z3)]; rewrite V1 in * by auto; [rewrite E1; apply Hm|].
        destruct (Hm v) as (Q1 & Q2 & Q3). split; [lia|]. split; [lia|]. intros u Hu. rewrite Z2 in Hu. inversion Hu; subst u. rewrite L, Z3. auto.
      * split. { split; auto. split; auto. exists mx. auto. }
        intros i v Hin Hmo Hfi Hve. rewrite W; [apply K2; auto|]. intros ->. apply (Hsv (fi i)); auto. apply in_app_iff. left. apply nth_In. auto.
      * intros _. apply dclean_clean. exact K3.
    + intros v Hv Hpv. destruct (Nat.eq_dec v sv) as [->|Nv]; auto. rewrite W by auto. rewrite M2; auto. intros j Hj Ht. unfold pas_out in Hpv.
      assert (existsb (fun f => vref_eqb (f_vec f) (VPas v)) (o_out o) = true); [|congruence]. apply existsb_exists. exists (fo j). split; [apply nth_In; auto|].
      unfold target in Ht. destruct (f_vec (fo j)); try congruence. inversion Ht; subst. simpl. apply Nat.eqb_refl.
    + intros v. destruct (Nat.eq_dec v sv) as [->|Nv]; [rewrite Ws; auto|]. rewrite W by auto. destruct (M1 v) as [E1|(_ & L & _)]; rewrite V1 in * by auto; [rewrite E1; auto|auto].
    + rewrite W by congruence. exact Y2.
Qed.
Lemma vzero_sq : forall c st vm v, sq_ok R chk D CB a c st vm -> sq_ok R chk D CB a c st (vzero vm v).
Proof.
  intros c st vm v (Hm & Hi & Hn). split; [|split; [|exact Hn]].
  - intros w. unfold vzero, vset. destruct (Nat.eqb_spec w v) as [->|]; [|apply Hm]. destruct (Hm v) as (M1 & M2 & M3). cbn [vv_state vv_data vv_len].
    split; [lia|]. split; [lia|]. intros y Ey. inversion Ey; subst; auto. apply repeat_length.
  - apply aim_fresh with (vm := vm); auto. intros w. unfold vzero, vset. destruct (Nat.eqb_spec w v) as [->|]; auto. right. cbn [vv_state]. lia.
Qed.
Lemma ddiag_ok : forall c st vm sv av N, atp_wf R D CB a k Jmin chk -> vc_ok R CB vc0 -> sq_ok R chk D CB a c st vm -> at_passive_ok D a vm -> diag_vec_ok D a vm sv av N ->
  (forall f, In f (o_in o) -> f_vec f <> VPas av) ->
  exists st' vm' y', atd_diag k junk chk D CB a vc0 st vm sv av = Ok (st', vm') /\ sq_ok R chk D CB a true st' vm' /\
    (forall v, v <> av -> pas_out a v = false -> vm' v = vm v) /\ (forall v, vv_len (vm' v) = vv_len (vm v)) /\
    vv_data (vm' av) = Some y' /\ length y' = N /\ forall q, vf y' q = d_raw R D CB a (vset (vzero vm av) sv (mkVV N (Some (repeat 0%R N)) 2%Z)) q.
Proof.
  intros c st vm sv av N Hwf Hvc Hst (Hp & Hxv) Hdv Hna.
  assert (V : forall v, v <> av -> vzero vm av v = vm v). { intros v Hv. unfold vzero, vset. destruct (Nat.eqb_spec v av); congruence. }
  pose proof Hdv as (Ai & Ao & HN & Hsv & Hsa & Hsx & Hax & (y & Ey & Ly) & Hpo).
  assert (Lav : vv_len (vm av) = N). { destruct Hst as (Hm & _). destruct (Hm av) as (_ & _ & M). rewrite <- Ly. symmetry. auto. }
  destruct (dadd_ok c st (vzero vm av) sv av N Hwf Hvc) as (st' & vm' & z & z' & E & K1 & K2 & K3 & K4 & K5 & K6 & K7).
  - apply vzero_sq. exact Hst.
  - split; [|rewrite V by auto; exact Hxv]. intros i Hi Hm Ha. destruct (Hp i Hi Hm Ha) as (v & x & Ht & Hx & Hl). exists v, x. split; auto. rewrite V; auto. intros ->.
    apply (Hna (fi i)). apply nth_In; auto. unfold target in Ht. destruct (f_vec (fi i)); congruence.
  - repeat (split; [assumption|]). split.
    + exists (repeat 0%R N). split; [|apply repeat_length]. unfold vzero, vset. rewrite Nat.eqb_refl, Lav. reflexivity.
    + intros j Hj Ha. destruct (Hpo j Hj Ha) as ((v & x & Ht & Hx & Hl) & P1 & P2). split; auto. exists v, x. split; auto. rewrite V; auto. intros ->. apply P1. unfold target in Ht. destruct (f_vec (fo j)); congruence.
  - exists st', vm', z'. split; [|split; [exact K1|split; [|split; [|split; [exact K5|split]]]]].
    + unfold atd_diag. pose proof E as E'. unfold atd_add in E'. destruct (negb (onat_eqb _ _)); [discriminate|]. pose proof (aw_ne _ _ _ _ _ _ _ Hwf) as Hne. destruct (Nat.eqb_spec (o_ne o) 0) as [E0|_]; [lia|]. exact E.
    + intros v Hv Hpv. rewrite K2; auto.
    + intros v. rewrite K3. unfold vzero, vset. destruct (Nat.eqb_spec v av) as [->|]; reflexivity.
    + rewrite K6. unfold vzero, vset in K4. rewrite Nat.eqb_refl, Lav in K4. inversion K4. apply repeat_length.
    + intros q. rewrite K7. unfold vzero, vset in K4. rewrite Nat.eqb_refl in K4. inversion K4. rewrite vf_repeat0. ring.
Qed.
Lemma dapply_ok : forall c st vm inv outv, atp_wf R D CB a k Jmin chk -> vc_ok R CB vc0 -> sq_ok R chk D CB a c st vm -> at_vec_len R D a vm inv outv ->
  exists st' vm', atq_apply k junk chk D CB a vc0 st vm inv outv = Ok (st', vm') /\ sq_ok R chk D CB a false st' vm' /\
    forall v, if outs o outv v
      then vv_len (vm' v) = vv_len (vm v) /\ exists x', vv_data (vm' v) = Some x' /\ length x' = vv_len (vm v) /\ forall q, vf x' q = at_added R D CB a vm inv outv v q
      else vm' v = vm v.
Proof.
  intros c st vm inv outv Hq Hvc (Hm & Hi & Hn1 & Hn2 & Hc) Hv. unfold atq_apply.
  destruct (C49_apply R k Jmin junk chk D CB a vc0 (q_im st) vm inv outv Hq Hm Hi Hvc Hv) as (im' & vm' & E & P1 & P2 & P3).
  rewrite E. cbn [rbind fst snd]. do 2 eexists. split; [reflexivity|]. split; [|exact P3].
  split; auto. cbn [q_im q_ni q_no]. split; auto. split; auto. split; auto. discriminate.
Qed.
Lemma dreached_ok : forall c st vm, atp_wf R D CB a k Jmin chk -> vc_ok R CB vc0 -> dreached c st vm -> sq_ok R chk D CB a c st vm.
Proof.
  intros c st vm Hwf Hvc H. induction H as [vm Hm|c st vm v x H IH Hx|c st vm v H IH|c st vm inv outv st' vm' H IH Hv E|c st vm st' r A H IH Hq Hp Hf E|c st vm sv av N st' vm' H IH Hp Hv E|c st vm sv av N st' vm' H IH Hp Hv Hna E].
  - split; auto. cbn. auto.
  - destruct IH as (Hm & Hi & Hn). cbn [vec_event]. split; [|split; [|auto]].
    + intros w. unfold vset. destruct (Nat.eqb_spec w v) as [->|]; [|apply Hm]. destruct (Hm v) as (M1 & M2 & M3). cbn [vv_state vv_data vv_len].
      split; [lia|]. split; [lia|]. intros y Ey. inversion Ey; subst; auto.
    + apply aim_fresh with (vm := vm); auto. intros w. unfold vset. destruct (Nat.eqb_spec w v) as [->|]; auto. right. cbn [vv_state]. lia.
  - destruct IH as (Hm & Hi & Hn). cbn [vec_event]. split; [|split; [|auto]].
    + intros w. unfold vset. destruct (Nat.eqb_spec w v) as [->|]; [|apply Hm]. destruct (Hm v) as (M1 & M2 & M3). cbn [vv_state vv_data vv_len].
      split; auto. split; auto. discriminate.
    + unfold aim_ok in *. destruct (q_im st) as [((rx, s), d)|]; auto. destruct Hi as (H1 & H3). split; auto.
      intros i w Hin Hmo Hf Hve. destruct (H3 i w Hin Hmo Hf Hve) as (K1 & K2). unfold vset. destruct (Nat.eqb_spec w v) as [->|]; auto.
      cbn [vv_state vv_data]. split; auto. discriminate.
  - destruct (dapply_ok c st vm inv outv Hwf Hvc IH Hv) as (st2 & vm2 & E2 & K & _). rewrite E in E2. inversion E2; subst. auto.
  - destruct (qasm_ok R k Jmin junk chk D CB a vc0 c st vm Hq Hvc IH Hp Hf) as (st2 & r2 & A2 & E2 & K & _). rewrite E in E2. inversion E2; subst. auto.
  - destruct (dadd_ok c st vm sv av N Hwf Hvc IH Hp Hv) as (st2 & vm2 & y & y' & E2 & K & _). rewrite E in E2. inversion E2; subst. auto.
  - destruct (ddiag_ok c st vm sv av N Hwf Hvc IH Hp Hv Hna) as (st2 & vm2 & y' & E2 & K & _). rewrite E in E2. inversion E2; subst. auto.
Qed.
End History.

(** ** C51 *)
(** After any history CeedOperatorLinearAssembleAddDiagonal adds the diagonal to the vector: entry q grows by entry q of the result of an
    application to the unit vector q, with the same passive inputs and coordinates.  Other vectors are unchanged except passive outputs (finding). *)
Theorem C51_add_diagonal : forall (R : Rng) k Jmin junk chk D CB (a : atop R) vc0 c st vm sv av N,
  AtdSpec.diag_wf D CB a k Jmin chk -> vc_ok R CB vc0 -> dreached R k Jmin junk chk D CB a vc0 c st vm -> at_passive_ok D a vm -> diag_vec_ok D a vm sv av N ->
  exists st' vm' y y', atd_add k junk chk D CB a vc0 st vm sv av = Ok (st', vm') /\ dreached R k Jmin junk chk D CB a vc0 true st' vm' /\
    (forall v, v <> av -> pas_out a v = false -> vm' v = vm v) /\
    vv_data (vm av) = Some y /\ vv_data (vm' av) = Some y' /\ length y' = length y /\
    forall vm2 inv v q, at_same a vm vm2 -> pas_out a v = false -> is_unit R (act_in R vm2 inv) q -> vf y' q = (vf y q + at_added R D CB a vm2 inv (Some v) v q)%R.
Proof.
  intros R k Jmin junk chk D CB a vc0 c st vm sv av N Hd Hvc Hr Hp Hv. pose proof Hd as (Hwf & _). pose proof (dreached_ok _ _ _ _ _ _ _ _ _ _ _ _ Hwf Hvc Hr) as Hst.
  destruct (dadd_ok R k Jmin junk chk D CB a vc0 c st vm sv av N Hwf Hvc Hst Hp Hv) as (st' & vm' & y & y' & E & _ & K2 & _ & K4 & K5 & K6 & K7).
  exists st', vm', y, y'. split; auto. split; [eapply dr_add; eauto|]. repeat (split; [assumption|]).
  intros vm2 inv v q Hs Hn Hu. rewrite K7. f_equal. destruct Hv as (_ & _ & _ & Hsv & _ & Hsx & _).
  eapply raw_diagonal; eauto.
  - eapply same_trans; [|exact Hs]. apply same_set; auto. intros f Hf. apply Hsv. apply in_app_iff. auto.
  - intros j Hj Ej. unfold pas_out in Hn. assert (existsb (fun f => vref_eqb (f_vec f) (VPas v)) (o_out (a_op a)) = true); [|congruence].
    apply existsb_exists. exists (fld (o_out (a_op a)) j). split; [apply nth_In; exact Hj|]. rewrite Ej. simpl. apply Nat.eqb_refl.
Qed.
Print Assumptions C51_add_diagonal.
(** CeedOperatorLinearAssembleDiagonal overwrites the vector (which is no passive input) with the diagonal. *)
Theorem C51_diagonal : forall (R : Rng) k Jmin junk chk D CB (a : atop R) vc0 c st vm sv av N,
  AtdSpec.diag_wf D CB a k Jmin chk -> vc_ok R CB vc0 -> dreached R k Jmin junk chk D CB a vc0 c st vm -> at_passive_ok D a vm -> diag_vec_ok D a vm sv av N ->
  (forall f, In f (o_in (a_op a)) -> f_vec f <> VPas av) ->
  exists st' vm' y', atd_diag k junk chk D CB a vc0 st vm sv av = Ok (st', vm') /\ dreached R k Jmin junk chk D CB a vc0 true st' vm' /\
    (forall v, v <> av -> pas_out a v = false -> vm' v = vm v) /\ vv_data (vm' av) = Some y' /\ length y' = N /\
    forall vm2 inv v q, at_same a vm vm2 -> pas_out a v = false -> is_unit R (act_in R vm2 inv) q -> vf y' q = at_added R D CB a vm2 inv (Some v) v q.
Proof.
  intros R k Jmin junk chk D CB a vc0 c st vm sv av N Hd Hvc Hr Hp Hv Hna. pose proof Hd as (Hwf & _). pose proof (dreached_ok _ _ _ _ _ _ _ _ _ _ _ _ Hwf Hvc Hr) as Hst.
  destruct (ddiag_ok R k Jmin junk chk D CB a vc0 c st vm sv av N Hwf Hvc Hst Hp Hv Hna) as (st' & vm' & y' & E & _ & K2 & _ & K5 & K6 & K7).
  exists st', vm', y'. split; auto. split; [eapply dr_diag; eauto|]. repeat (split; [assumption|]).
  intros vm2 inv v q Hs Hn Hu. rewrite K7. destruct Hv as (_ & _ & _ & Hsv & _ & Hsx & Hax & _).
  eapply raw_diagonal; eauto.
  - eapply same_trans; [|eapply same_trans; [|exact Hs]].
    + apply same_set; auto. intros f Hf. apply Hsv. apply in_app_iff. auto.
    + unfold vzero. apply same_set; auto.
  - intros j Hj Ej. unfold pas_out in Hn. assert (existsb (fun f => vref_eqb (f_vec f) (VPas v)) (o_out (a_op a)) = true); [|congruence].
    apply existsb_exists. exists (fld (o_out (a_op a)) j). split; [apply nth_In; exact Hj|]. rewrite Ej. simpl. apply Nat.eqb_refl.
Qed.
Print Assumptions C51_diagonal.
(** The two interface functions agree: entry q of the assembled diagonal is entry q of what CeedOperatorApply, in any state of the operator
    with the same data, computes from the unit vector q. *)
Theorem C51_agree : forall (R : Rng) k Jmin junk chk D CB (a : atop R) vc0 c st vm sv av N st' vm' c2 st2 vm2 inv v q,
  AtdSpec.diag_wf D CB a k Jmin chk -> vc_ok R CB vc0 -> dreached R k Jmin junk chk D CB a vc0 c st vm -> at_passive_ok D a vm -> diag_vec_ok D a vm sv av N ->
  (forall f, In f (o_in (a_op a)) -> f_vec f <> VPas av) -> atd_diag k junk chk D CB a vc0 st vm sv av = Ok (st', vm') ->
  dreached R k Jmin junk chk D CB a vc0 c2 st2 vm2 -> at_same a vm vm2 -> at_vec_len R D a vm2 inv (Some v) -> pas_out a v = false -> is_unit R (act_in R vm2 inv) q ->
  exists st3 vm3 y w, atq_apply k junk chk D CB a vc0 st2 vm2 inv (Some v) = Ok (st3, vm3) /\ dreached R k Jmin junk chk D CB a vc0 false st3 vm3 /\
    vv_data (vm' av) = Some y /\ vv_data (vm3 v) = Some w /\ vf w q = vf y q.
Proof.
  intros R k Jmin junk chk D CB a vc0 c st vm sv av N st' vm' c2 st2 vm2 inv v q Hd Hvc Hr Hp Hv Hna E Hr2 Hs Hvl Hn Hu. pose proof Hd as (Hwf & _).
  destruct (C51_diagonal R k Jmin junk chk D CB a vc0 c st vm sv av N Hd Hvc Hr Hp Hv Hna) as (st1 & vm1 & y & E1 & _ & _ & Hy & _ & H). rewrite E in E1. inversion E1; subst st1 vm1.
  destruct (dapply_ok R k Jmin junk chk D CB a vc0 c2 st2 vm2 inv (Some v) Hwf Hvc (dreached_ok _ _ _ _ _ _ _ _ _ _ _ _ Hwf Hvc Hr2) Hvl) as (st3 & vm3 & E3 & _ & K).
  specialize (K v). assert (Eo : outs (a_op a) (Some v) v = true).
  { unfold outs. apply existsb_exists. destruct Hv as (_ & (f & Hf & Ha) & _). exists f. split; auto. unfold target, is_active in *. destruct (f_vec f); try discriminate. simpl. apply Nat.eqb_refl. }
  rewrite Eo in K. destruct K as (_ & w & Hw & _ & Hq). exists st3, vm3, y, w. split; auto. split; [eapply dr_apply; eauto|]. split; auto. split; auto. rewrite Hq. symmetry. apply H; auto.
Qed.
Print Assumptions C51_agree.
(** Assembling the diagonal does not disturb what follows: applications compute the specification (C49), and assemblies of the QFunction after it
    give the matrix (C50), also if the operator was applied before. *)
Theorem C51_after : forall (R : Rng) k Jmin junk chk D CB (a : atop R) vc0 c st vm,
  atp_wf R D CB a k Jmin chk -> vc_ok R CB vc0 -> dreached R k Jmin junk chk D CB a vc0 c st vm ->
  (forall inv outv, at_vec_len R D a vm inv outv -> exists st' vm', atq_apply k junk chk D CB a vc0 st vm inv outv = Ok (st', vm') /\ dreached R k Jmin junk chk D CB a vc0 false st' vm' /\
    forall v, if outs (a_op a) outv v
      then vv_len (vm' v) = vv_len (vm v) /\ exists x', vv_data (vm' v) = Some x' /\ length x' = vv_len (vm v) /\ forall q, vf x' q = at_added R D CB a vm inv outv v q
      else vm' v = vm v) /\
  (atq_wf D CB a k Jmin chk -> at_passive_ok D a vm -> first_ok a st -> c = true \/ length (comps (o_in (a_op a))) = 1%nat ->
    exists st' r A, atq_assemble k junk chk D CB a vc0 st vm = Ok (st', r, A) /\ dreached R k Jmin junk chk D CB a vc0 true st' vm /\ at_assembled D CB a vm A).
Proof.
  intros R k Jmin junk chk D CB a vc0 c st vm Hwf Hvc Hr. pose proof (dreached_ok _ _ _ _ _ _ _ _ _ _ _ _ Hwf Hvc Hr) as Hst. split.
  - intros inv outv Hv. destruct (dapply_ok R k Jmin junk chk D CB a vc0 c st vm inv outv Hwf Hvc Hst Hv) as (st' & vm' & E & _ & H). exists st', vm'. split; auto. split; auto. eapply dr_apply; eauto.
  - intros Hq Hp Hf Hc. destruct (qasm_ok R k Jmin junk chk D CB a vc0 c st vm Hq Hvc Hst Hp Hf) as (st' & r & A & E & _ & _ & H). exists st', r, A. split; auto. split; [eapply dr_asm; eauto|auto].
Qed.
Print Assumptions C51_after.
(** Operators that are not square are rejected, and nothing happens. *)
Theorem C51_errors : forall (R : Rng) k Jmin junk chk D CB (a : atop R) vc0 st vm sv av N M,
  atp_wf R D CB a k Jmin chk -> (exists f, In f (o_in (a_op a)) /\ is_active f = true) -> (exists f, In f (o_out (a_op a)) /\ is_active f = true) ->
  (forall f, In f (o_in (a_op a)) -> is_active f = true -> p_ls (pd R D f) = N) -> (forall f, In f (o_out (a_op a)) -> is_active f = true -> p_ls (pd R D f) = M) -> N <> M ->
  atd_add k junk chk D CB a vc0 st vm sv av = Err ERR_DIMENSION /\ atd_diag k junk chk D CB a vc0 st vm sv av = Err ERR_DIMENSION.
Proof.
  intros R k Jmin junk chk D CB a vc0 st vm sv av N M Hwf Ai Ao HN HM Hne. unfold atd_diag, atd_add.
  rewrite (at_lsize_ok R Jmin chk D CB a (o_in (a_op a)) (a_bin a) N); auto. 2:apply (aw_in _ _ _ _ _ _ _ Hwf).
  rewrite (at_lsize_ok R Jmin chk D CB a (o_out (a_op a)) (a_bout a) M); auto. 2:{ intros i Hi. apply (aw_out _ _ _ _ _ _ _ Hwf i Hi). }
  unfold onat_eqb. destruct (Nat.eqb_spec N M); [contradiction|]. split; reflexivity.
Qed.
Print Assumptions C51_errors.

(** ** Examples *)
Definition ad_add D := atd_add (@contract_avx Zrng) junkZ true D at_CB.
Definition ad_diag D := atd_diag (@contract_avx Zrng) junkZ true D at_CB.
Definition ad_unit (n q : nat) : list Zrng := map (fun j => if j =? q then 1%Z else 0%Z) (seq 0 n).
Definition dat (vm : vmem Zrng) (v : nat) : list Z := match vv_data (vm v) with Some x => x | None => [] end.
(** entry q of the result of an application (of a new operator) to the unit vector q *)
Definition ad_entry (D : nat -> pdesc) (a : atop Zrng) (vm : vmem Zrng) (n q : nat) : Z :=
  vf (dat (snd (aok (atp_apply (@contract_avx Zrng) junkZ true D at_CB a at_vc None (vset vm 1 (mkVV n (Some (ad_unit n q)) 2%Z)) (Some 1) (Some 2)))) 2) q.
Ltac ad_mem f Hf := intros f Hf; simpl in Hf; repeat match type of Hf with _ \/ _ => destruct Hf as [Hf|Hf] | False => destruct Hf end; subst f.
Ltac ad_vec := split; [eexists; split; [left; reflexivity|reflexivity]|]; split; [eexists; split; [left; reflexivity|reflexivity]|];
  split; [let f := fresh in let Hf := fresh in let Ha := fresh in ad_mem f Hf; intros Ha; first [discriminate Ha|reflexivity]|]; split; [let f := fresh in let Hf := fresh in ad_mem f Hf; discriminate|];
  split; [discriminate|]; split; [discriminate|]; split; [discriminate|]; split; [eexists; split; reflexivity|].
Ltac ad_out := let j := fresh "j" in let Hj := fresh in let Ha := fresh in intros j Hj Ha; simpl in Hj; repeat first [lia | destruct j as [|j]; [discriminate Ha|]].
Lemma aq_distinct : p_distinct aq_ex (at_D 0).
Proof.
  intros e c n c' n' He Hc Hc' Hn Hn' E. simpl in He, Hc, Hc', Hn, Hn'. assert (c = 0) by lia. assert (c' = 0) by lia. subst. split; auto. revert E.
  destruct e as [|[|e]]; [| |lia]; (destruct n as [|[|[|[|n]]]]; try lia); (destruct n' as [|[|[|[|n']]]]; try lia); try reflexivity; vm_compute; discriminate.
Qed.
Lemma aq_diag_wf : AtdSpec.diag_wf at_D at_CB aq_ex (@contract_avx Zrng) 2 true.
Proof.
  split; [apply aq_ex_wf|]. split; [apply aq_linear|]. split.
  - intros f Hf Ha. simpl in Hf. repeat match type of Hf with _ \/ _ => destruct Hf as [Hf|Hf] | False => destruct Hf end; subst f; try discriminate Ha; (split; [exact I|exact aq_distinct]).
  - intros f g Hf Hg Ha Hb. left. simpl in Hf, Hg. repeat match type of Hf with _ \/ _ => destruct Hf as [Hf|Hf] | False => destruct Hf end; subst f; try discriminate Ha;
      repeat match type of Hg with _ \/ _ => destruct Hg as [Hg|Hg] | False => destruct Hg end; subst g; try discriminate Hb; reflexivity.
Qed.
Lemma aq_diag_vec : diag_vec_ok at_D aq_ex at_vm 9 2 6.
Proof. ad_vec. intros j Hj Ha. simpl in Hj. destruct j as [|[|[|j]]]; try lia; try discriminate Ha. split; [at_has 4|]. split; discriminate. Qed.
(** the operator of C50_ex (values and gradient at the points, a passive output): assembled, added, and by applications *)
Example C51_ex : AtdSpec.diag_wf at_D at_CB aq_ex (@contract_avx Zrng) 2 true /\ vc_ok Zrng at_CB at_vc /\ mem_ok at_vm /\ at_passive_ok at_D aq_ex at_vm /\ diag_vec_ok at_D aq_ex at_vm 9 2 6 /\
  pas_out aq_ex 2 = false /\
  dat (snd (apst (ad_diag at_D aq_ex at_vc new_qimpl at_vm 9 2))) 2 = [205; 324; 547; 1000; 296; 608]%Z /\
  dat (snd (apst (ad_add at_D aq_ex at_vc new_qimpl at_vm 9 2))) 2 = [215; 344; 577; 1040; 346; 668]%Z /\
  map (ad_entry at_D aq_ex at_vm 6) (seq 0 6) = [205; 324; 547; 1000; 296; 608]%Z /\
  forall q, (q < 6)%nat -> is_unit Zrng (act_in Zrng (vset at_vm 1 (mkVV 6 (Some (ad_unit 6 q)) 2%Z)) (Some 1)) q.
Proof.
  split; [apply aq_diag_wf|]. split; [intros b; reflexivity|]. split; [apply at_mem_ok|]. split; [aq_pas|]. split; [apply aq_diag_vec|].
  split; [reflexivity|]. split; [vm_compute; reflexivity|]. split; [vm_compute; reflexivity|]. split; [vm_compute; reflexivity|].
  intros q Hq j. cbn -[ad_unit]. unfold vf. destruct (Nat.lt_ge_cases j 6) as [Hj|Hj].
  - do 6 (destruct q as [|q]; [do 6 (destruct j as [|j]; [reflexivity|]); lia|]). lia.
  - rewrite nth_overflow by (unfold ad_unit; rewrite map_length, seq_length; auto). destruct (Nat.eqb_spec j q); [lia|reflexivity].
Qed.
(** an active field on the points themselves, after an application and a change of the passive data *)
Definition ad_pts : atop Zrng := at_gen [at_none 2 VAct; at_none 2 (VPas 3)] [at_none 2 VAct] 1 false (fun ins => [[gz2 ins 0 0 * gz2 ins 1 0]])%Z.
Definition ad_vmp : vmem Zrng := vset at_vm3 3 (mkVV 3 (Some [2;3;-1]%Z) 2%Z).
Definition ad_vmq : vmem Zrng := vec_event Zrng (ESet 3 [7;11;13]%Z) (snd (apst (aq_app ad_pts at_vc new_qimpl ad_vmp (Some 1) (Some 2)))).
Lemma ad_pts_wf : AtdSpec.diag_wf at_D at_CB ad_pts (@contract_avx Zrng) 2 true.
Proof.
  split; [unfold ad_pts; aq_wf|]. split.
  { intros pas a1 a2 t j c Hj Ha Hc. simpl in Hj. destruct j as [|j]; try lia. simpl in Hc. destruct c as [|c]; [|lia]. unfold qf_at, fill. cbn -[Z.mul Z.add]. ring. }
  split.
  - assert (Hd : p_distinct ad_pts (at_D 2)).
    { intros e c n c' n' He Hc Hc' Hn Hn' E. simpl in He, Hc, Hc'. assert (c = 0) by lia. assert (c' = 0) by lia. subst. split; auto. revert Hn Hn' E.
      destruct e as [|[|e]]; [| |lia]; (destruct n as [|[|n]]); (destruct n' as [|[|n']]); try reflexivity; intros Hn Hn' E; vm_compute in E; try discriminate E; vm_compute in Hn, Hn'; lia. }
    intros f Hf Ha. simpl in Hf. repeat match type of Hf with _ \/ _ => destruct Hf as [Hf|Hf] | False => destruct Hf end; subst f; try discriminate Ha; (split; [exact I|exact Hd]).
  - intros f g Hf Hg Ha Hb. left. simpl in Hf, Hg. repeat match type of Hf with _ \/ _ => destruct Hf as [Hf|Hf] | False => destruct Hf end; subst f; try discriminate Ha;
      repeat match type of Hg with _ \/ _ => destruct Hg as [Hg|Hg] | False => destruct Hg end; subst g; try discriminate Hb; reflexivity.
Qed.
Example C51_ex_history : let st := fst (apst (aq_app ad_pts at_vc new_qimpl ad_vmp (Some 1) (Some 2))) in
  AtdSpec.diag_wf at_D at_CB ad_pts (@contract_avx Zrng) 2 true /\ dreached Zrng (@contract_avx Zrng) 2 junkZ true at_D at_CB ad_pts at_vc false st ad_vmq /\
  at_passive_ok at_D ad_pts ad_vmq /\ diag_vec_ok at_D ad_pts ad_vmq 9 2 3 /\ dat ad_vmq 2 = [8; 15; -6]%Z /\
  dat (snd (apst (ad_diag at_D ad_pts at_vc st ad_vmq 9 2))) 2 = [7; 11; 13]%Z /\ map (ad_entry at_D ad_pts ad_vmq 3) (seq 0 3) = [7; 11; 13]%Z.
Proof.
  assert (Hv : at_vec_len Zrng at_D ad_pts ad_vmp (Some 1) (Some 2)).
  { split; [|split; [|split; [|split]]].
    - intros i Hi Hm. simpl in Hi. destruct i as [|[|i]]; try lia; [at_has 1|at_has 3].
    - intros i Hi. simpl in Hi. destruct i as [|i]; try lia. exists 2. split; [reflexivity|]. simpl. lia.
    - eexists. split; [reflexivity|]. simpl. lia.
    - intros f v Hf Hm Ht. simpl in Hf. repeat match type of Hf with _ \/ _ => destruct Hf as [Hf|Hf] | False => destruct Hf end; subst f; try discriminate Ht; inversion Ht; subst v; reflexivity.
    - reflexivity. }
  assert (Hm : mem_ok ad_vmp). { intros v. unfold ad_vmp, vset. destruct (Nat.eqb_spec v 3) as [->|]; [|destruct v as [|[|[|v]]]]; cbn; (split; [lia|]); (split; [try discriminate; reflexivity|]); intros x E; inversion E; reflexivity. }
  intros st. split; [apply ad_pts_wf|]. split.
  { unfold ad_vmq. apply dr_set; [|vm_compute; reflexivity]. eapply dr_apply; [apply dr_new; exact Hm|exact Hv|]. apply apst_ok. vm_compute. reflexivity. }
  split; [aq_pas|]. split; [ad_vec; ad_out|]. split; [vm_compute; reflexivity|]. split; vm_compute; reflexivity.
Qed.

(** ** Findings *)
(** Finding: assembling the diagonal runs the outputs of the operator with the unit inputs; what they give for passive outputs is added to these
    vectors (ceed-ref-operator.c:1453-1455; only the active output is redirected), so the caller's passive output data are destroyed. *)
Theorem C51_passive_refuted : exists (a : atop Zrng) st' vm', AtdSpec.diag_wf at_D at_CB a (@contract_avx Zrng) 2 true /\ at_passive_ok at_D a at_vm /\ diag_vec_ok at_D a at_vm 9 2 6 /\
  ad_diag at_D a at_vc new_qimpl at_vm 9 2 = Ok (st', vm') /\ dat at_vm 4 = [100; 200; 300]%Z /\ dat vm' 4 = [225; 325; 325]%Z.
Proof.
  set (r := ad_diag at_D aq_ex at_vc new_qimpl at_vm 9 2). exists aq_ex, (fst (apst r)), (snd (apst r)). split; [apply aq_diag_wf|]. split; [aq_pas|]. split; [apply aq_diag_vec|].
  split; [apply apst_ok; vm_compute; reflexivity|]. split; vm_compute; reflexivity.
Qed.
Print Assumptions C51_passive_refuted.

Definition ad_D (i : nat) : pdesc := match i with
  | 6 => PStd (mkU 2 4 1 1%Z 12 (UStandard [0;1;2;3; 2;3;4;5]%Z)) | 7 => PStd (mkU 2 4 1 1%Z 12 (UStandard [6;7;8;9; 8;9;10;11]%Z))
  | 8 => PStd (mkU 2 4 1 1%Z 6 (UOriented [0;1;2;3; 2;3;4;5]%Z [false;true;false;false; false;false;false;true]))
  | 9 => PStd (mkU 2 4 1 1%Z 6 (UStandard [0;0;2;3; 2;3;4;5]%Z))
  | _ => at_D i end.
Definition ad_interp (r : nat) (v : vref) : ofield Zrng := mkOF 1 EvInterp (Some r) (Some (BT PointsProps.ex_pt)) v.
Definition ad_pair : atop Zrng := at_gen [ad_interp 6 VAct; ad_interp 7 VAct] [ad_interp 6 VAct; ad_interp 7 VAct] 1 false (fun ins => [[3 * gz2 ins 1 0]; [0]])%Z.
Definition ad_vm12 : vmem Zrng := vset at_vm 2 (mkVV 12 (Some (repeat 0%Z 12)) 6%Z).
(** Finding: an output belongs to an input if the numbers of values on the element are equal (ceed-ref-operator.c:1470-1490); for two active fields with different
    restrictions of the same size (a mixed operator) couplings between the fields appear on the diagonal.  Here the operator is v = 3 w, its diagonal zero. *)
Theorem C51_coupling_refuted : exists (a : atop Zrng) st' vm', linear (a_op a) /\ at_passive_ok ad_D a ad_vm12 /\ diag_vec_ok ad_D a ad_vm12 9 2 12 /\
  ad_diag ad_D a at_vc new_qimpl ad_vm12 9 2 = Ok (st', vm') /\ dat vm' 2 = [54; 48; 183; 300; 48; 192; 0; 0; 0; 0; 0; 0]%Z /\ map (ad_entry ad_D a ad_vm12 12) (seq 0 12) = repeat 0%Z 12.
Proof.
  set (r := ad_diag ad_D ad_pair at_vc new_qimpl ad_vm12 9 2). exists ad_pair, (fst (apst r)), (snd (apst r)). split.
  { intros pas a1 a2 t j c Hj Ha Hc. simpl in Hj. destruct j as [|[|j]]; try lia; simpl in Hc; (destruct c as [|c]; [|lia]); unfold qf_at, fill; cbn -[Z.mul Z.add]; ring. }
  split; [aq_pas|]. split; [ad_vec; ad_out|]. split; [apply apst_ok; vm_compute; reflexivity|]. split; vm_compute; reflexivity.
Qed.
Print Assumptions C51_coupling_refuted.

Definition ad_one (r : nat) : atop Zrng := at_gen [ad_interp r VAct] [ad_interp r VAct] 1 false (fun ins => [[gz2 ins 0 0]])%Z.
Lemma ad_one_linear : forall r, linear (a_op (ad_one r)).
Proof. intros r pas a1 a2 t j c Hj Ha Hc. simpl in Hj. destruct j as [|j]; try lia. simpl in Hc. destruct c as [|c]; [|lia]. unfold qf_at, fill. cbn -[Z.mul Z.add]. ring. Qed.
(** Finding: the unit vectors are set on the element, where the signs of an oriented restriction have been applied; the result goes through the
    restriction once more.  The diagonal entries of flipped nodes have the wrong sign. *)
Theorem C51_orientation_refuted : exists (a : atop Zrng) st' vm', linear (a_op a) /\ at_passive_ok ad_D a at_vm /\ diag_vec_ok ad_D a at_vm 9 2 6 /\
  ad_diag ad_D a at_vc new_qimpl at_vm 9 2 = Ok (st', vm') /\ dat vm' 2 = [18; -16; 61; 100; 16; -64]%Z /\ map (ad_entry ad_D a at_vm 6) (seq 0 6) = [18; 16; 61; 100; 16; 64]%Z.
Proof.
  set (r := ad_diag ad_D (ad_one 8) at_vc new_qimpl at_vm 9 2). exists (ad_one 8), (fst (apst r)), (snd (apst r)). split; [apply ad_one_linear|].
  split; [aq_pas|]. split; [ad_vec; ad_out|]. split; [apply apst_ok; vm_compute; reflexivity|]. split; vm_compute; reflexivity.
Qed.
Print Assumptions C51_orientation_refuted.
(** Finding: if two nodes of an element are the same, the couplings between them are missing from the diagonal (as in C36). *)
Theorem C51_repeated_refuted : exists (a : atop Zrng) st' vm', linear (a_op a) /\ at_passive_ok ad_D a at_vm /\ diag_vec_ok ad_D a at_vm 9 2 6 /\
  ad_diag ad_D a at_vc new_qimpl at_vm 9 2 = Ok (st', vm') /\ dat vm' 2 = [34; 0; 61; 100; 16; 64]%Z /\ map (ad_entry ad_D a at_vm 6) (seq 0 6) = [58; 0; 61; 100; 16; 64]%Z.
Proof.
  set (r := ad_diag ad_D (ad_one 9) at_vc new_qimpl at_vm 9 2). exists (ad_one 9), (fst (apst r)), (snd (apst r)). split; [apply ad_one_linear|].
  split; [aq_pas|]. split; [ad_vec; ad_out|]. split; [apply apst_ok; vm_compute; reflexivity|]. split; vm_compute; reflexivity.
Qed.
Print Assumptions C51_repeated_refuted.
