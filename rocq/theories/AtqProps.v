(** * Property C50: assembly of the QFunction of operators at points *)
From Coq Require Import List ZArith Lia Bool Arith.
From Verif Require Import Prelude RstrModel RstrSpec RstrProofs RstrPoints RstrProps TensorModel TensorMain BasisModel BasisProofs BasisProps Digits PointsModel PointsProofs PointsProps OpModel OpSpec OpLists OpProofs OpMain OpTree OpProps OptModel AtpModel AtpSpec AtpProofs AtpMain AtpProps AsmModel AsmSpec AsmProofs AsmProps AtqModel AtqSpec AtqProofs.
Import ListNotations.

(** value of the active component [ic] when the active input is vector [inv] *)
Definition at_active_val {R : Rng} (D : nat -> pdesc) (CB : nat -> tbasis R) (a : atop R) (vm : vmem R) (inv : option nat) (e p : nat) (ic : nat * nat) : R :=
  let f := fld (o_in (a_op a)) (fst ic) in at_in_val R D CB a f (nth (fst ic) (a_bin a) 0%nat) (xcont R a vm) (contents vm f inv) e (snd ic) p.
(** If an array has these values and this layout, its matrix at every point, applied to the values of any active input
    vector, gives the values the QFunction has in an application ([at_outs_val], AtpSpec.v, the values C49 integrates). *)
Theorem C50_represents : forall (R : Rng) D CB (a : atop R) vm inv A, at_assembled D CB a vm A -> linear (a_op a) ->
  forall e p b j c, (e < o_ne (a_op a))%nat -> (p < pts R D a e)%nat -> (b < length (comps (o_out (a_op a))))%nat -> nth b (comps (o_out (a_op a))) (0, 0)%nat = (j, c) ->
  let ni := length (comps (o_in (a_op a))) in let no := length (comps (o_out (a_op a))) in
  sumn ni (fun ca => (vf A (ni * no * before D a e + ((ca * no + b) * pts R D a e + p))%nat * at_active_val D CB a vm inv e p (nth ca (comps (o_in (a_op a))) (0, 0)%nat))%R) =
  vf (nth j (at_outs_val R D CB a vm inv e p) []) c.
Proof.
  intros R D CB a vm inv A (Hl & HA) Hlin e p b j c He Hp Hb Ebc ni no. set (o := a_op a) in *.
  destruct (@comps_inv R (o_out o) (length (o_out o)) b Hb) as (j' & c' & B1 & B2 & B3 & B4).
  assert (Ejc : (j', c') = (j, c)). { rewrite <- Ebc. unfold comps. rewrite B4. symmetry. apply comps_nth; auto. }
  inversion Ejc; subst j' c'. clear Ejc.
  rewrite sumn_ext with (g := fun ca => (qf_at o (fill o (at_pas_val D CB a vm e p) (AsmSpec.unit R (nth ca (comps (o_in o)) (0, 0)%nat))) j c *
    at_active_val D CB a vm inv e p (nth ca (comps (o_in o)) (0, 0)%nat))%R).
  - pose proof (linear_sum R o (at_pas_val D CB a vm e p) (fun i c => at_active_val D CB a vm inv e p (i, c)) j c Hlin B1 B2 B3) as H.
    cbv beta in H. unfold ni. etransitivity; [|etransitivity; [symmetry; exact H|]].
    + apply sumn_ext. intros ca Hca. destruct (nth ca (comps (o_in o)) (0, 0)%nat). reflexivity.
    + assert (Ei : fill o (at_pas_val D CB a vm e p) (fun i c => at_active_val D CB a vm inv e p (i, c)) = at_ins_val R D CB a vm inv e p).
      { unfold fill, at_ins_val. fold o. apply map_ext_in. intros i Hi. cbv zeta. apply map_ext. intros c0. unfold at_active_val, at_pas_val. cbn [fst snd]. fold o.
        destruct (is_active (fld (o_in o) i)) eqn:Ea; auto. unfold contents, target, is_active in *. destruct (f_vec (fld (o_in o) i)); auto. discriminate. }
      rewrite Ei. unfold qf_at, at_outs_val. fold o. destruct (o_ident o); reflexivity.
  - intros ca Hca. f_equal. unfold ni, no. rewrite HA by auto. unfold at_entry. fold o. rewrite Ebc. reflexivity.
Qed.
Print Assumptions C50_represents.

Section History.
Variable R : Rng.
Variable k : kernel R.
Variable Jmin : nat.
Variable junk : nat -> nat -> R.
Variable chk : bool.
Variable D : nat -> pdesc.
Variable CB : nat -> tbasis R.
Variable a : atop R.
Variable vc0 : nat -> list R.
Local Open Scope nat_scope.
Notation o := (a_op a).
Notation ni := (length (comps (o_in o))).
Notation no := (length (comps (o_out o))).
(** Histories of vector changes, applications and assemblies of one operator.  The flag: it was not applied, or it was assembled
    after the last application. *)
Inductive qreached : bool -> qimpl R -> vmem R -> Prop :=
| qr_new : forall vm, mem_ok vm -> qreached true new_qimpl vm
| qr_set : forall c st vm v x, qreached c st vm -> length x = vv_len (vm v) -> qreached c st (vec_event R (ESet v x) vm)
| qr_take : forall c st vm v, qreached c st vm -> qreached c st (vec_event R (ETake v) vm)
| qr_apply : forall c st vm inv outv st' vm', qreached c st vm -> at_vec_len R D a vm inv outv ->
    atq_apply k junk chk D CB a vc0 st vm inv outv = Ok (st', vm') -> qreached false st' vm'
| qr_asm : forall c st vm st' r A, qreached c st vm -> at_passive_ok D a vm -> first_ok a st ->
    atq_assemble k junk chk D CB a vc0 st vm = Ok (st', r, A) -> qreached true st' vm.

Definition sq_ok (c : bool) (st : qimpl R) (vm : vmem R) : Prop :=
  mem_ok vm /\ aim_ok R chk D CB a (q_im st) vm /\ (q_ni st = 0 \/ q_ni st = ni) /\ (q_no st = 0 \/ q_no st = no) /\
  (c = true -> match q_im st with Some (_, _, x) => clean R D a (d_qin (ad x)) | None => True end).
Lemma rmap_inv : forall A B (f : A -> res B) da db l l', rmap f l = Ok l' -> length l' = length l /\ forall i, i < length l -> f (nth i l da) = Ok (nth i l' db).
Proof.
  intros A B f da db. induction l as [|x l IH]; intros l' H.
  - inversion H; subst. split; auto. simpl. intros; lia.
  - cbn in H. destruct (f x) eqn:E; try discriminate. fold (rmap f l) in H. cbn [rbind] in H. unfold rmap in IH.
    match type of H with rbind ?m _ = _ => destruct m eqn:E2; try discriminate end. cbn [rbind] in H. inversion H; subst. destruct (IH _ E2) as (L & G). split. { simpl. rewrite L. auto. }
    intros [|i] Hi; simpl in *; auto. apply G. lia.
Qed.
Lemma setup_clean : forall rx s x, atq_wf D CB a k Jmin chk -> atp_setup k junk chk D CB a vc0 = Ok (rx, s, x) -> clean R D a (d_qin (ad x)).
Proof.
  intros rx s x Hq E. pose proof (q_wf _ _ _ _ _ _ _ Hq) as Hwf. unfold atp_setup in E.
  repeat match type of E with rbind ?m _ = _ => let X := fresh "X" in destruct m eqn:X; cbn [rbind] in E; try discriminate E end.
  match type of E with (let '(p, _) := ?d in _) = _ => destruct d as ((?, ?), ?) end.
  match type of E with (let '(p, _) := ?d in _) = _ => destruct d as (((?, ?), ?), ?) end.
  inversion E; subst. cbn [ad d_qin]. clear E.
  destruct (aw_bl _ _ _ _ _ _ _ Hwf) as (Bi & _).
  match goal with H : rmap _ (combine (o_in o) (a_bin a)) = Ok ?q |- _ => destruct (rmap_inv _ _ _ (mkOF 0 EvNone None None VNo, 0) [] _ _ H) as (L & G); clear H; intros e i He Hi Ha y Hy end.
  assert (Hl : length (combine (o_in o) (a_bin a)) = length (o_in o)) by (rewrite combine_length; lia).
  specialize (G i ltac:(lia)). rewrite combine_nth' in G by auto. fold (fld (o_in o) i) in G. unfold p_field_qvec in G.
  pose proof (q_in _ _ _ _ _ _ _ Hq i Hi Ha) as Hb. destruct (f_mode (fld (o_in o) i)); try discriminate; destruct (f_basis (fld (o_in o) i)); try discriminate; inversion G as [G']; apply vf_repeat0.
Qed.
Lemma qasm_ok : forall c st vm, atq_wf D CB a k Jmin chk -> vc_ok R CB vc0 -> sq_ok c st vm -> at_passive_ok D a vm -> first_ok a st ->
  exists st' r A, atq_assemble k junk chk D CB a vc0 st vm = Ok (st', r, A) /\ sq_ok true st' vm /\ q_no st' = no /\ (c = true \/ ni = 1 -> at_assembled D CB a vm A).
Proof.
  intros c st vm Hq Hvc (Hm & Hi & Hn1 & Hn2 & Hc) Hp Hf. pose proof (q_wf _ _ _ _ _ _ _ Hq) as Hwf. unfold atq_assemble.
  assert (Hsd : exists rx s x, match q_im st with Some sd => Ok sd | None => atp_setup k junk chk D CB a vc0 end = Ok (rx, s, x) /\ a_im_ok R chk D CB a (rx, s, x) /\ a_cache_ok R chk D a (ad x) vm /\
     (c = true -> clean R D a (d_qin (ad x)))).
  { destruct (q_im st) as [((rx, s), x)|].
    - destruct Hi as (H1 & H2). exists rx, s, x. auto.
    - destruct (atp_setup_ok R k Jmin junk chk D CB a Hwf vc0 Hvc) as (((rx, s), x) & E & H1 & H2). exists rx, s, x. split; auto. split; auto. split.
      + intros i v Hin Hmo Hfi Hve. cbn [snd] in H2. rewrite H2 by auto. destruct (Hm v) as (M1 & M2 & _). split; auto.
        intros E0 u Hu. rewrite M2 in Hu by auto. discriminate.
      + intros _. apply (setup_clean rx s x Hq E). }
  destruct Hsd as (rx & s & x & E & (Hrx & Hs & mx & Hmx & Hd) & Hca & Hcl). rewrite E. cbn [rbind].
  destruct (atq_core_ok R k Jmin junk chk D CB a Hq c mx s rx vm x (q_ni st) (q_no st) (q_run st) Hmx Hs Hrx Hd Hca Hp Hn1 Hn2 Hf Hcl) as (x' & r & A & EA & K1 & K2 & K3 & K4).
  rewrite EA. cbn [rbind fst snd]. eexists. exists r, A. split; [reflexivity|]. split; [|split; [reflexivity|exact K4]].
  split; auto. cbn [q_im q_ni q_no]. split. { split; auto. split; auto. split; auto. exists mx. auto. } auto.
Qed.
Lemma qapply_ok : forall c st vm inv outv, atq_wf D CB a k Jmin chk -> vc_ok R CB vc0 -> sq_ok c st vm -> at_vec_len R D a vm inv outv ->
  exists st' vm', atq_apply k junk chk D CB a vc0 st vm inv outv = Ok (st', vm') /\ sq_ok false st' vm' /\
    forall v, if outs o outv v
      then vv_len (vm' v) = vv_len (vm v) /\ exists x', vv_data (vm' v) = Some x' /\ length x' = vv_len (vm v) /\ forall q, vf x' q = at_added R D CB a vm inv outv v q
      else vm' v = vm v.
Proof.
  intros c st vm inv outv Hq Hvc (Hm & Hi & Hn1 & Hn2 & Hc) Hv. unfold atq_apply.
  destruct (C49_apply R k Jmin junk chk D CB a vc0 (q_im st) vm inv outv (q_wf _ _ _ _ _ _ _ Hq) Hm Hi Hvc Hv) as (im' & vm' & E & P1 & P2 & P3).
  rewrite E. cbn [rbind fst snd]. do 2 eexists. split; [reflexivity|]. split; [|exact P3].
  split; auto. cbn [q_im q_ni q_no]. split; auto. split; auto. split; auto. discriminate.
Qed.
Lemma qreached_ok : forall c st vm, atq_wf D CB a k Jmin chk -> vc_ok R CB vc0 -> qreached c st vm -> sq_ok c st vm.
Proof.
  intros c st vm Hwf Hvc H. induction H as [vm Hm|c st vm v x H IH Hx|c st vm v H IH|c st vm inv outv st' vm' H IH Hv E|c st vm st' r A H IH Hp Hf E].
  - split; auto. cbn. auto.
  - destruct IH as (Hm & Hi & Hn). cbn [vec_event]. split; [|split; [|auto]].
    + intros w. unfold vset. destruct (Nat.eqb_spec w v) as [->|]; [|apply Hm]. destruct (Hm v) as (M1 & M2 & M3). cbn [vv_state vv_data vv_len].
      split; [lia|]. split; [lia|]. intros y Ey. inversion Ey; subst; auto.
    + apply aim_fresh with (vm := vm); auto. intros w. unfold vset. destruct (Nat.eqb_spec w v) as [->|]; auto. right. cbn [vv_state]. lia.
  - destruct IH as (Hm & Hi & Hn). cbn [vec_event]. split; [|split; [|auto]].
    + intros w. unfold vset. destruct (Nat.eqb_spec w v) as [->|]; [|apply Hm]. destruct (Hm v) as (M1 & M2 & M3). cbn [vv_state vv_data vv_len].
      split; auto. split; auto. discriminate.
    + unfold aim_ok in *. destruct (q_im st) as [((rx, s), d)|]; auto. destruct Hi as (H1 & H3). split; auto.
      intros i w Hin Hmo Hf Hve. destruct (H3 i w Hin Hmo Hf Hve) as (K1 & K2). unfold vset. destruct (Nat.eqb_spec w v) as [->|]; auto.
      cbn [vv_state vv_data]. split; auto. discriminate.
  - destruct (qapply_ok c st vm inv outv Hwf Hvc IH Hv) as (st2 & vm2 & E2 & K & _). rewrite E in E2. inversion E2; subst. auto.
  - destruct (qasm_ok c st vm Hwf Hvc IH Hp Hf) as (st2 & r2 & A2 & E2 & K & _). rewrite E in E2. inversion E2; subst. auto.
Qed.
End History.

(** ** C50 *)
(** After any history that does not end with an application (or if there is only one active input component) assembly succeeds
    and returns the matrix of the QFunction at every point of every element.  [first_ok] matters for the first assembly only. *)
Theorem C50_assemble : forall (R : Rng) k Jmin junk chk D CB (a : atop R) vc0 c st vm,
  atq_wf D CB a k Jmin chk -> vc_ok R CB vc0 -> qreached R k junk chk D CB a vc0 c st vm -> c = true \/ length (comps (o_in (a_op a))) = 1%nat -> at_passive_ok D a vm -> first_ok a st ->
  exists st' r A, atq_assemble k junk chk D CB a vc0 st vm = Ok (st', r, A) /\ qreached R k junk chk D CB a vc0 true st' vm /\ first_ok a st' /\ at_assembled D CB a vm A.
Proof.
  intros R k Jmin junk chk D CB a vc0 c st vm Hwf Hvc Hr Hc Hp Hf. pose proof (qreached_ok _ _ _ junk _ _ _ _ _ _ _ _ Hwf Hvc Hr) as Hst.
  destruct (qasm_ok R k Jmin junk chk D CB a vc0 c st vm Hwf Hvc Hst Hp Hf) as (st' & r & A & E & _ & En & H). exists st', r, A. split; auto. split; [|split].
  - eapply qr_asm; eauto.
  - intros E0. destruct Hwf as (_ & _ & Hno & _). rewrite En in E0. exfalso. lia.
  - auto.
Qed.
Print Assumptions C50_assemble.
(** Assembling does not disturb later applications: after every such history Apply computes the specification (C49). *)
Theorem C50_apply : forall (R : Rng) k Jmin junk chk D CB (a : atop R) vc0 c st vm inv outv,
  atq_wf D CB a k Jmin chk -> vc_ok R CB vc0 -> qreached R k junk chk D CB a vc0 c st vm -> at_vec_len R D a vm inv outv ->
  exists st' vm', atq_apply k junk chk D CB a vc0 st vm inv outv = Ok (st', vm') /\ qreached R k junk chk D CB a vc0 false st' vm' /\
    forall v, if outs (a_op a) outv v
      then vv_len (vm' v) = vv_len (vm v) /\ exists x', vv_data (vm' v) = Some x' /\ length x' = vv_len (vm v) /\ forall q, vf x' q = at_added R D CB a vm inv outv v q
      else vm' v = vm v.
Proof.
  intros R k Jmin junk chk D CB a vc0 c st vm inv outv Hwf Hvc Hr Hv. pose proof (qreached_ok _ _ _ junk _ _ _ _ _ _ _ _ Hwf Hvc Hr) as Hst.
  destruct (qapply_ok R k Jmin junk chk D CB a vc0 c st vm inv outv Hwf Hvc Hst Hv) as (st' & vm' & E & _ & H). exists st', vm'. split; auto. split; auto.
  eapply qr_apply; eauto.
Qed.
Print Assumptions C50_apply.
(** No active input or output, or an active one on the points: an error.  (The inputs are looked at first.) *)
Theorem C50_errors : forall (R : Rng) k Jmin junk chk D CB (a : atop R) vc0 vm,
  atp_wf R D CB a k Jmin chk -> mem_ok vm -> vc_ok R CB vc0 -> at_passive_ok D a vm ->
  comps (o_in (a_op a)) = [] \/ (exists f, In f (o_in (a_op a)) /\ is_active f = true /\ is_pts (pd R D f) = true) \/
  (exists f l, o_out (a_op a) = f :: l /\ is_active f = true /\ is_pts (pd R D f) = true) \/ forallb (fun f => negb (is_active f)) (o_out (a_op a)) = true ->
  atq_assemble k junk chk D CB a vc0 new_qimpl vm = Err ERR_BACKEND.
Proof.
  intros R k Jmin junk chk D CB a vc0 vm Hwf Hm Hvc (Hp & Hxv) H. unfold atq_assemble. cbn [new_qimpl q_im q_ni q_no q_run].
  destruct (atp_setup_ok R k Jmin junk chk D CB a Hwf vc0 Hvc) as (((rx, s), x) & E & (Hrx & Hs & mx & Hmx & Hd) & H2). rewrite E. cbn [rbind]. unfold atq_core.
  destruct (x_create R k Jmin chk D CB a Hwf) as (rx' & Cx & X1 & X2 & X3 & X4 & X5). rewrite Hrx in Cx. inversion Cx; subst rx'. clear Cx.
  destruct (max_ok R D a rx X1 X4) as (mx' & Em & _). rewrite Em. cbn [be rbind].
  destruct (last_off_ok R D a rx X4 X1) as (l & El). rewrite El. cbn [be rbind].
  assert (Hca : a_cache_ok R chk D a (ad x) vm).
  { intros i v Hin Hmo Hfi Hve. cbn [snd] in H2. rewrite H2 by auto. destruct (Hm v) as (M1 & M2 & _). split; auto. intros E0 u Hu. rewrite M2 in Hu by auto. discriminate. }
  destruct (a_setup_inputs_ok R k Jmin chk D CB a Hwf vm s Hs Hp (ad x) (ay_st _ _ _ _ _ _ _ Hd) (ay_ein _ _ _ _ _ _ _ Hd) Hca) as (d1 & E1 & _). rewrite E1. cbn [rbind].
  unfold count_in. cbn [Nat.eqb]. destruct (existsb (fun f => is_active f && at_pts D f) (o_in (a_op a))) eqn:Ex; [reflexivity|].
  rewrite act_size_comps. destruct (Nat.eqb_spec (length (comps (o_in (a_op a)))) 0) as [E0|E0]; [reflexivity|]. cbn [rbind].
  assert (Hpt : forall f b, at_field_wf R D CB a Jmin chk f b -> f_mode f <> EvWeight -> is_pts (pd R D f) = true -> at_pts D f = true).
  { intros f b Hf Hw Hpp. destruct (aw_rwf _ _ _ _ _ _ _ _ Hf Hw) as (_ & i & Ei & Ed). unfold at_pts. rewrite Ei. rewrite Ed in Hpp. destruct (D i); [discriminate|reflexivity]. }
  destruct H as [H|[(f & Hf & Ha & Hpp)|[(f & l0 & Ho & Ha & Hpp)|H]]].
  - rewrite H in E0. simpl in E0. lia.
  - exfalso. destruct (In_nth _ _ (mkOF 0 EvNone None None VNo) Hf) as (i & Hi & Ei). fold (fld (o_in (a_op a)) i) in Ei.
    pose proof (fin _ _ _ _ _ _ _ Hwf i Hi) as Hfw. rewrite Ei in Hfw.
    assert (existsb (fun f => is_active f && at_pts D f) (o_in (a_op a)) = true); [|congruence]. apply existsb_exists. exists f. split; auto. rewrite Ha. cbn [andb].
    apply (Hpt f _ Hfw); auto. intros Ew. destruct (aw_weight _ _ _ _ _ _ _ _ Hfw Ew) as (_ & _ & Nv & _). apply Nv. unfold is_active in Ha. destruct (f_vec f); congruence.
  - unfold count_out. cbn [Nat.eqb]. rewrite Ho. cbn [length seq].
    destruct (fout _ _ _ _ _ _ _ Hwf 0) as (Hfw & Hw). { rewrite Ho. simpl. lia. }
    assert (Ef : fld (o_out (a_op a)) 0 = f) by (rewrite Ho; reflexivity). rewrite Ef in Hfw, Hw.
    unfold rfold at 1. change (og (f :: l0) 0) with (Ok f). cbn [rbind]. rewrite Ha, (Hpt f _ Hfw) by auto. reflexivity.
  - unfold count_out. cbn [Nat.eqb].
    match goal with |- context [rfold ?L ?F ?s0] => assert (Er : rfold L F s0 = Ok s0) end.
    { destruct (@rfold_inv0 _ (fun _ st => st = (d_qin d1, d_ein d1)) (fun i st => f <~ og (o_out (a_op a)) i ;;
           if is_active f then if at_pts D f then Err ERR_BACKEND else zero_qin (a_op a) s mx' l false i st else Ok st) (length (o_out (a_op a))) (d_qin d1, d_ein d1)) as (st & Es & ->); auto.
      intros i st Hi ->. rewrite og_fld by auto. cbn [rbind]. rewrite forallb_forall in H. specialize (H (fld (o_out (a_op a)) i) (nth_In _ _ Hi)).
      destruct (is_active (fld (o_out (a_op a)) i)); [discriminate|]. eexists. split; reflexivity. }
    rewrite Er. cbn [rbind].
    assert (Ez : act_size (o_out (a_op a)) = 0%nat).
    { rewrite act_size_comps. destruct (comps (o_out (a_op a))) as [|q l1] eqn:Ec; auto. exfalso. assert (Hq : (0 < length (comps (o_out (a_op a))))%nat) by (rewrite Ec; simpl; lia).
      destruct (@comps_inv R (o_out (a_op a)) (length (o_out (a_op a))) 0 Hq) as (j & c & B1 & B2 & _). rewrite forallb_forall in H. specialize (H _ (nth_In _ (mkOF 0 EvNone None None VNo) B1)).
      fold (fld (o_out (a_op a)) j) in H. rewrite B2 in H. discriminate. }
    rewrite Ez. reflexivity.
Qed.
Print Assumptions C50_errors.

(** ** Example: two elements with two and one points; values and gradient of the active vector, weight, passive data on the points;
    three outputs, the passive one not linear *)
Definition aq_pt (ins : list (list Zrng)) : list (list Zrng) :=
  [[gz2 ins 0 0 * gz2 ins 3 0 * gz2 ins 2 0 + 5 * gz2 ins 1 1]; [gz2 ins 3 0 * gz2 ins 1 0; gz2 ins 0 0 + 2 * gz2 ins 1 1]; [gz2 ins 0 0 * gz2 ins 0 0]]%Z.
Definition aq_grad (v : vref) : ofield Zrng := mkOF 2 EvGrad (Some 0) (Some (BT PointsProps.ex_pt)) v.
Definition aq_weight : ofield Zrng := mkOF 1 EvWeight None (Some (BT PointsProps.ex_pt)) VNo.
Definition aq_ex : atop Zrng := at_gen [at_interp VAct; aq_grad VAct; aq_weight; at_none 2 (VPas 3)] [at_interp VAct; aq_grad VAct; at_none 2 (VPas 4)] 1 false aq_pt.
Definition aq_asm := atq_assemble (@contract_avx Zrng) junkZ true at_D at_CB.
Definition aq_app := atq_apply (@contract_avx Zrng) junkZ true at_D at_CB.
Ltac aq_field := first [apply at_weight_wf | apply at_none_wf; reflexivity | apply at_basis_wf; [reflexivity|reflexivity|auto]].
Ltac aq_fields i := let Hi := fresh "Hi" in intros i Hi; simpl in Hi; repeat first [lia | destruct i as [|i]; [try (split; [|discriminate]); unfold fld, at_gen, at_interp, aq_grad, aq_weight, at_none; cbn [nth o_in o_out a_op a_bin a_bout repeat length]; aq_field|]].
Ltac aq_wf :=
  constructor;
  [ simpl; lia | apply avx_ok | apply kernel_pt_avx | split; [reflexivity|]; simpl; split; [apply at_pok|reflexivity]
  | let e := fresh "e" in let He := fresh "He" in intros e He; simpl in He; destruct e as [|[|e]]; [| |lia]; vm_compute; lia
  | let i := fresh "i" in aq_fields i | let i := fresh "i" in aq_fields i | split; reflexivity
  | let i := fresh "i" in let j := fresh "j" in at_pairs i j | let i := fresh "i" in let j := fresh "j" in at_pairs i j
  | discriminate | intros _; split; [simpl; lia|]; let e := fresh "e" in let He := fresh "He" in intros e He; apply Nat.mod_1_r ].
Lemma aq_ex_wf : atp_wf Zrng at_D at_CB aq_ex (@contract_avx Zrng) 2 true.
Proof. unfold aq_ex. aq_wf. Qed.
Ltac aq_act := let f := fresh "f" in let Hf := fresh "Hf" in let Ha := fresh "Ha" in intros f Hf Ha; simpl in Hf;
  repeat match type of Hf with _ \/ _ => destruct Hf as [Hf|Hf] | False => destruct Hf end; subst f; try discriminate Ha; reflexivity.
Ltac aq_pas := split; [let i := fresh "i" in let Hi := fresh "Hi" in let Hm := fresh "Hm" in let Ha := fresh "Ha" in
  intros i Hi Hm Ha; simpl in Hi; repeat first [lia | destruct i as [|i]; [first [discriminate Ha | exfalso; apply Hm; reflexivity | at_has 3]|]]
  | eexists; split; [reflexivity|]; simpl; lia].
Lemma aq_linear : linear (a_op aq_ex).
Proof.
  intros pas a1 a2 t j c Hj Ha Hc. simpl in Hj. destruct j as [|[|[|j]]]; try lia; try discriminate Ha; simpl in Hc.
  - destruct c as [|c]; [|lia]. unfold qf_at, fill. cbn -[Z.mul Z.add]. ring.
  - destruct c as [|[|c]]; [| |lia]; unfold qf_at, fill; cbn -[Z.mul Z.add]; ring.
Qed.
Definition adec (r : res (qimpl Zrng * rstr * list Z)) : qimpl Zrng * list Z := match r with Ok (st, _, A) => (st, A) | _ => (new_qimpl, []) end.
Definition apst (r : res (qimpl Zrng * vmem Zrng)) : qimpl Zrng * vmem Zrng := match r with Ok x => x | _ => (new_qimpl, at_vm) end.
Lemma adec_ok : forall r, (match r with Ok _ => true | _ => false end) = true -> exists x, r = Ok (fst (adec r), x, snd (adec r)).
Proof. intros [((a, b), c)|e|] H; try discriminate. exists b. reflexivity. Qed.
Lemma apst_ok : forall r, (match r with Ok _ => true | _ => false end) = true -> r = Ok (fst (apst r), snd (apst r)).
Proof. intros [(a, b)|e|] H; try discriminate. reflexivity. Qed.
Definition at_table (a : atop Zrng) (vm : vmem Zrng) : list Z :=
  concat (map (fun e => concat (map (fun ca => concat (map (fun cb => map (at_entry at_D at_CB a vm e ca cb) (seq 0 (pts Zrng at_D a e))) (seq 0 (length (comps (o_out (a_op a))))))) (seq 0 (length (comps (o_in (a_op a))))))) (seq 0 (o_ne (a_op a)))).
Example C50_ex : atq_wf at_D at_CB aq_ex (@contract_avx Zrng) 2 true /\ linear (a_op aq_ex) /\ vc_ok Zrng at_CB at_vc /\ mem_ok at_vm /\ at_passive_ok at_D aq_ex at_vm /\ first_ok aq_ex new_qimpl /\
  comps (o_in (a_op aq_ex)) = [(0, 0); (1, 0); (1, 1)]%nat /\ comps (o_out (a_op aq_ex)) = [(0, 0); (1, 0); (1, 1)]%nat /\
  at_table aq_ex at_vm = [-1;2; 0;0; 1;1;  0;0; -1;2; 0;0;  5;5; 0;0; 2;2;     3; 0; 1;  0; 3; 0;  5; 0; 2]%Z /\
  snd (adec (aq_asm aq_ex at_vc new_qimpl at_vm)) = at_table aq_ex at_vm.
Proof.
  split. { split; [apply aq_ex_wf|]. split; [vm_compute; lia|]. split; [vm_compute; lia|]. aq_act. }
  split; [apply aq_linear|]. split; [intros b; reflexivity|]. split; [apply at_mem_ok|]. split; [aq_pas|]. split.
  { intros _ j Hj Ha. simpl in Hj. destruct j as [|[|[|j]]]; try lia; try discriminate Ha; (split; [simpl; lia|]); (split; [discriminate|discriminate]). }
  repeat split; vm_compute; reflexivity.
Qed.
(** apply, change the data, assemble, apply: with one active component every history is covered *)
Definition aq_one : atop Zrng := at_gen [at_interp VAct; aq_weight; at_none 2 (VPas 3)] [at_interp VAct] 1 false (fun ins => [[gz2 ins 0 0 * gz2 ins 1 0 * gz2 ins 2 0]])%Z.
Definition aq_vm2 : vmem Zrng := vec_event Zrng (ESet 3 [7;11;13]%Z) (snd (apst (aq_app aq_one at_vc new_qimpl at_vm (Some 1) (Some 2)))).
Example C50_ex_history : let st := fst (apst (aq_app aq_one at_vc new_qimpl at_vm (Some 1) (Some 2))) in
  atq_wf at_D at_CB aq_one (@contract_avx Zrng) 2 true /\ qreached Zrng (@contract_avx Zrng) junkZ true at_D at_CB aq_one at_vc false st aq_vm2 /\ length (comps (o_in (a_op aq_one))) = 1 /\
  at_passive_ok at_D aq_one aq_vm2 /\ first_ok aq_one st /\ snd (adec (aq_asm aq_one at_vc st aq_vm2)) = at_table aq_one aq_vm2 /\ at_table aq_one aq_vm2 = [13; 7; 11]%Z.
Proof.
  assert (Hwf : atq_wf at_D at_CB aq_one (@contract_avx Zrng) 2 true).
  { split; [unfold aq_one; aq_wf|]. split; [vm_compute; lia|]. split; [vm_compute; lia|]. aq_act. }
  assert (Hv : at_vec_len Zrng at_D aq_one at_vm (Some 1) (Some 2)).
  { split; [|split; [|split; [|split]]].
    - intros i Hi Hm. simpl in Hi. destruct i as [|[|[|i]]]; try lia; [at_has 1|exfalso; apply Hm; reflexivity|at_has 3].
    - intros i Hi. simpl in Hi. destruct i as [|i]; try lia. exists 2. split; [reflexivity|]. simpl. lia.
    - eexists. split; [reflexivity|]. simpl. lia.
    - intros f v Hf Hm Ht. simpl in Hf. repeat match type of Hf with _ \/ _ => destruct Hf as [Hf|Hf] | False => destruct Hf end; subst f; try discriminate Ht; inversion Ht; subst v; reflexivity.
    - reflexivity. }
  intros st. split; [exact Hwf|]. split.
  { unfold aq_vm2. apply qr_set; [|vm_compute; reflexivity]. eapply qr_apply; [apply qr_new; apply at_mem_ok|exact Hv|]. apply apst_ok. vm_compute. reflexivity. }
  split; [reflexivity|]. split; [aq_pas|]. split.
  { intros _ j Hj Ha. simpl in Hj. destruct j as [|j]; try lia. split; [simpl; lia|]. split; discriminate. }
  split; vm_compute; reflexivity.
Qed.

(** ** Findings *)
Definition aq_late : atop Zrng := at_gen [aq_weight; at_interp VAct; at_none 2 (VPas 3)] [at_interp VAct] 1 false (fun ins => [[gz2 ins 1 0 * gz2 ins 0 0 * gz2 ins 2 0]])%Z.
(** Finding: the first assembly sets the Q-vector of the input to zero that has the number of an active output (ceed-ref-operator.c:1167, q_vecs_in for q_vecs_out).
    If that input is the quadrature weight, which is computed once at setup, the assembled matrix is wrong, and all later applications are. *)
Theorem C50_weight_refuted : exists (a : atop Zrng) st' r A im' vm' x', atq_wf at_D at_CB a (@contract_avx Zrng) 2 true /\ linear (a_op a) /\ at_passive_ok at_D a at_vm /\
  aq_asm a at_vc new_qimpl at_vm = Ok (st', r, A) /\ A = [0;0;0]%Z /\ at_table a at_vm = [-1;2;3]%Z /\
  aq_app a at_vc st' at_vm (Some 1) (Some 2) = Ok (im', vm') /\ vv_data (vm' 2) = Some x' /\ x' = [0;0;0;0;0;0]%Z /\
  aout (atp_apply (@contract_avx Zrng) junkZ true at_D at_CB a at_vc None at_vm (Some 1) (Some 2)) 2 = Some (map (at_added Zrng at_D at_CB a at_vm (Some 1) (Some 2) 2) (seq 0 6)) /\
  at_added Zrng at_D at_CB a at_vm (Some 1) (Some 2) 2 0 <> 0%Z.
Proof.
  assert (Hw : atq_wf at_D at_CB aq_late (@contract_avx Zrng) 2 true). { split; [unfold aq_late; aq_wf|]. split; [vm_compute; lia|]. split; [vm_compute; lia|]. aq_act. }
  assert (Hl : linear (a_op aq_late)). { intros pas a1 a2 t j c Hj Ha Hc. simpl in Hj. destruct j as [|j]; try lia. simpl in Hc. destruct c as [|c]; [|lia]. unfold qf_at, fill. cbn -[Z.mul Z.add]. ring. }
  assert (Hp : at_passive_ok at_D aq_late at_vm) by aq_pas.
  set (r := aq_asm aq_late at_vc new_qimpl at_vm). set (r2 := aq_app aq_late at_vc (fst (adec r)) at_vm (Some 1) (Some 2)).
  destruct (adec_ok r) as (rs & Er); [vm_compute; reflexivity|].
  exists aq_late, (fst (adec r)), rs, (snd (adec r)), (fst (apst r2)), (snd (apst r2)). eexists.
  split; [exact Hw|]. split; [exact Hl|]. split; [exact Hp|]. split; [exact Er|]. split; [vm_compute; reflexivity|]. split; [vm_compute; reflexivity|]. split; [apply apst_ok; vm_compute; reflexivity|].
  split; [vm_compute; reflexivity|]. split; [vm_compute; reflexivity|]. split; [vm_compute; reflexivity|]. vm_compute. discriminate.
Qed.
Print Assumptions C50_weight_refuted.

Definition aq_early : atop Zrng := at_gen [at_none 2 (VPas 3); at_interp VAct] [at_interp VAct] 1 false (fun ins => [[gz2 ins 1 0 * gz2 ins 0 0]])%Z.
(** Finding: the same with a passive CEED_EVAL_NONE input and an application before the first assembly: the Q-vector then borrows the array of the E-vector, the zeros
    end up in the data of the last element, and the assembled matrix is zero there.  The E-vector counts as up to date: applications go on reading the zeros. *)
Theorem C50_data_refuted : exists (a : atop Zrng) st1 vm1 st2 r A, atq_wf at_D at_CB a (@contract_avx Zrng) 2 true /\ linear (a_op a) /\ at_passive_ok at_D a at_vm /\
  aq_app a at_vc new_qimpl at_vm (Some 1) (Some 2) = Ok (st1, vm1) /\ aq_asm a at_vc st1 vm1 = Ok (st2, r, A) /\ A = [-1;2;0]%Z /\ at_table a vm1 = [-1;2;3]%Z /\
  exists st3 vm3 x, aq_app a at_vc st2 vm1 (Some 1) (Some 2) = Ok (st3, vm3) /\ vv_data (vm3 2) = Some x /\ vf x 5 = 0%Z /\ at_added Zrng at_D at_CB a vm1 (Some 1) (Some 2) 2 5 <> 0%Z.
Proof.
  assert (Hw : atq_wf at_D at_CB aq_early (@contract_avx Zrng) 2 true). { split; [unfold aq_early; aq_wf|]. split; [vm_compute; lia|]. split; [vm_compute; lia|]. aq_act. }
  assert (Hl : linear (a_op aq_early)). { intros pas a1 a2 t j c Hj Ha Hc. simpl in Hj. destruct j as [|j]; try lia. simpl in Hc. destruct c as [|c]; [|lia]. unfold qf_at, fill. cbn -[Z.mul Z.add]. ring. }
  assert (Hp : at_passive_ok at_D aq_early at_vm) by aq_pas.
  set (r1 := aq_app aq_early at_vc new_qimpl at_vm (Some 1) (Some 2)). set (r := aq_asm aq_early at_vc (fst (apst r1)) (snd (apst r1))).
  destruct (adec_ok r) as (rs & Er); [vm_compute; reflexivity|]. set (r2 := aq_app aq_early at_vc (fst (adec r)) (snd (apst r1)) (Some 1) (Some 2)).
  exists aq_early, (fst (apst r1)), (snd (apst r1)), (fst (adec r)), rs, (snd (adec r)).
  split; [exact Hw|]. split; [exact Hl|]. split; [exact Hp|]. split; [apply apst_ok; vm_compute; reflexivity|]. split; [exact Er|]. split; [vm_compute; reflexivity|]. split; [vm_compute; reflexivity|].
  exists (fst (apst r2)), (snd (apst r2)). eexists. split; [apply apst_ok; vm_compute; reflexivity|]. split; [vm_compute; reflexivity|]. split; [vm_compute; reflexivity|]. vm_compute. discriminate.
Qed.
Print Assumptions C50_data_refuted.
(** Finding: active inputs are not set to zero before an assembly.  With more than one active component, an assembly after an application
    adds the values left by the application to those of the unit inputs: here assembly, application, assembly; the last one is wrong, one more is right. *)
Theorem C50_stale_refuted : exists st0 r0 st1 vm1 st2 r A, aq_asm aq_ex at_vc new_qimpl at_vm = Ok (st0, r0, at_table aq_ex at_vm) /\ aq_app aq_ex at_vc st0 at_vm (Some 1) (Some 2) = Ok (st1, vm1) /\
  first_ok aq_ex st1 /\ at_passive_ok at_D aq_ex vm1 /\ aq_asm aq_ex at_vc st1 vm1 = Ok (st2, r, A) /\ A <> at_table aq_ex vm1 /\
  exists st3 r3, aq_asm aq_ex at_vc st2 vm1 = Ok (st3, r3, at_table aq_ex vm1).
Proof.
  assert (Hf : forall st, first_ok aq_ex st).
  { intros st _ j Hj Ha. simpl in Hj. destruct j as [|[|[|j]]]; try lia; try discriminate Ha; (split; [simpl; lia|]); (split; [discriminate|discriminate]). }
  assert (Hp : at_passive_ok at_D aq_ex (snd (apst (aq_app aq_ex at_vc (fst (adec (aq_asm aq_ex at_vc new_qimpl at_vm))) at_vm (Some 1) (Some 2))))).
  { split. { intros i Hi Hm Ha. simpl in Hi. destruct i as [|[|[|[|i]]]]; try lia; try discriminate Ha; [exfalso; apply Hm; reflexivity|].
      exists 3, [2;3;-1]%Z. split; [reflexivity|]. split; [vm_compute; reflexivity|simpl; lia]. }
    exists [1;0; 0;1; -1;1]%Z. split; [vm_compute; reflexivity|simpl; lia]. }
  set (r0 := aq_asm aq_ex at_vc new_qimpl at_vm) in *. destruct (adec_ok r0) as (rs0 & Er0); [vm_compute; reflexivity|].
  set (r1 := aq_app aq_ex at_vc (fst (adec r0)) at_vm (Some 1) (Some 2)) in *. set (r := aq_asm aq_ex at_vc (fst (apst r1)) (snd (apst r1))).
  destruct (adec_ok r) as (rs & Er); [vm_compute; reflexivity|]. set (r2 := aq_asm aq_ex at_vc (fst (adec r)) (snd (apst r1))). destruct (adec_ok r2) as (rs2 & Er2); [vm_compute; reflexivity|].
  exists (fst (adec r0)), rs0, (fst (apst r1)), (snd (apst r1)), (fst (adec r)), rs, (snd (adec r)).
  split. { replace (at_table aq_ex at_vm) with (snd (adec r0)) by (vm_compute; reflexivity). exact Er0. }
  split; [apply apst_ok; vm_compute; reflexivity|]. split; [apply Hf|]. split; [exact Hp|]. split; [exact Er|]. split.
  { intros X. apply (f_equal (fun l => nth 0 l 0%Z)) in X. revert X. vm_compute. discriminate. }
  exists (fst (adec r2)), rs2. replace (at_table aq_ex (snd (apst r1))) with (snd (adec r2)) by (vm_compute; reflexivity). exact Er2.
Qed.
Print Assumptions C50_stale_refuted.
(** Finding: an active output whose number is not the number of an input: q_vecs_in[i] is NULL. *)
Theorem C50_outputs_refuted : exists a : atop Zrng, atq_wf at_D at_CB a (@contract_avx Zrng) 2 true /\ linear (a_op a) /\ at_passive_ok at_D a at_vm /\
  aq_asm a at_vc new_qimpl at_vm = UB.
Proof.
  exists (at_gen [at_interp VAct] [at_interp VAct; aq_grad VAct] 1 false (fun ins => [[gz2 ins 0 0]; [gz2 ins 0 0; gz2 ins 0 0]])%Z).
  split. { split; [aq_wf|]. split; [vm_compute; lia|]. split; [vm_compute; lia|]. aq_act. }
  split. { intros pas a1 a2 t j c Hj Ha Hc. simpl in Hj. destruct j as [|[|j]]; try lia; simpl in Hc; [destruct c as [|c]; [|lia]|destruct c as [|[|c]]; [| |lia]]; unfold qf_at, fill; cbn -[Z.mul Z.add]; ring. }
  split; [aq_pas|]. vm_compute. reflexivity.
Qed.
Print Assumptions C50_outputs_refuted.
(** Finding: the restriction returned with the array does not describe it: applied to the array it does not give, for an element, the values at its points
    (component by component), as CeedElemRestrictionApplyAtPointsInElement does for data at points. *)
Theorem C50_restriction_refuted : exists st' r A E, aq_asm aq_ex at_vc new_qimpl at_vm = Ok (st', r, A) /\ at_assembled at_D at_CB aq_ex at_vm A /\
  rstr_apply_points r 0 NoTranspose A (repeat 0%Z 27) = Ok E /\
  (exists ca cb p, ca < 3 /\ cb < 3 /\ p < pts Zrng at_D aq_ex 0 /\ vf E ((ca * 3 + cb) * pts Zrng at_D aq_ex 0 + p) <> at_entry at_D at_CB aq_ex at_vm 0 ca cb p).
Proof.
  destruct (C50_assemble Zrng (@contract_avx Zrng) 2 junkZ true at_D at_CB aq_ex at_vc true new_qimpl at_vm) as (st' & r & A & E & _ & _ & HA).
  { apply C50_ex. } { apply C50_ex. } { apply qr_new. apply at_mem_ok. } { auto. } { apply C50_ex. } { apply C50_ex. }
  exists st', r, A. assert (ER : match aq_asm aq_ex at_vc new_qimpl at_vm with Ok (_, r, A) => match rstr_apply_points r 0 NoTranspose A (repeat 0%Z 27) with Ok E => nth 0 E 0%Z =? 3 | _ => false end | _ => false end%Z = true) by (vm_compute; reflexivity).
  change (atq_assemble (@contract_avx Zrng) junkZ true at_D at_CB aq_ex at_vc new_qimpl at_vm) with (aq_asm aq_ex at_vc new_qimpl at_vm) in E. rewrite E in ER.
  destruct (rstr_apply_points r 0 NoTranspose A (repeat 0%Z 27)) as [Ev|e|]; try discriminate ER. exists Ev. split; auto. split; auto. split; auto.
  exists 0, 0, 0. repeat split; try (vm_compute; lia). apply Z.eqb_eq in ER. change (vf Ev ((0 * 3 + 0) * pts Zrng at_D aq_ex 0 + 0)) with (nth 0 Ev 0%Z). rewrite ER. vm_compute. discriminate.
Qed.
Print Assumptions C50_restriction_refuted.
