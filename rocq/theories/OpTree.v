(** * Operator application through the interface: single operators, composite trees, histories *)
From Coq Require Import List ZArith Lia Bool Arith Permutation.
From Verif Require Import Prelude RstrModel RstrSpec RstrProofs RstrProps TensorModel BasisModel BasisProps TensorMain Digits OpModel OpSpec OpLists OpProofs OpMain.
Import ListNotations.
Set Implicit Arguments.

Section Tree.
Variable R : Rng.
Add Ring Rr : (r_th R).
Local Open Scope nat_scope.
Variable k : kernel R.
Variable Jmin : nat.
Variable junk : nat -> nat -> R.
Variable chk : bool.
Variable D : nat -> udesc.
Variable bs : option nat.

(** backend data agrees with the vectors *)
Definition im_ok (o : oper R) (im : impl R) (vm : vmem R) : Prop :=
  match im with None => True | Some (s, d) => stat_ok chk D bs o s /\ dyn_ok D bs o d /\ cache_ok D bs o d vm end.
(** a vector either did not change or its state increased *)
Definition fresh (vm vm' : vmem R) : Prop := forall v, vm' v = vm v \/ (vv_state (vm v) < vv_state (vm' v))%Z.
Lemma fresh_refl : forall vm, fresh vm vm. Proof. intros vm v. auto. Qed.
Lemma fresh_trans : forall a b c, fresh a b -> fresh b c -> fresh a c.
Proof.
  intros a b c H1 H2 v. destruct (H1 v) as [E1|E1], (H2 v) as [E2|E2].
  - left. congruence.
  - right. rewrite <- E1. auto.
  - right. rewrite E2. auto.
  - right. lia.
Qed.
Lemma im_fresh : forall o im vm vm', fresh vm vm' -> im_ok o im vm -> im_ok o im vm'.
Proof.
  intros o [(s, d)|] vm vm' Hf H; auto. destruct H as (H1 & H2 & H3). split; auto. split; auto. apply cache_mono with (vm1 := vm); auto.
Qed.
Lemma adds_fresh : forall o vm inv outv vm', adds D o vm inv outv vm' -> fresh vm vm'.
Proof. intros o vm inv outv vm' H v. eapply adds_mono; eauto. Qed.
Lemma adds_mem : forall o (vm : vmem R) inv outv vm', mem_ok vm -> adds D o vm inv outv vm' -> mem_ok vm'.
Proof.
  intros o vm inv outv vm' Hm Ha v. specialize (Ha v). specialize (Hm v). destruct (existsb _ _); [|rewrite Ha; auto].
  destruct Ha as (A & B & x & x' & C1 & C2 & C3 & C4). destruct Hm as (M1 & M2 & M3). split; [lia|]. split; [lia|].
  intros y Hy. rewrite C2 in Hy. inversion Hy; subst y. rewrite C3, A. apply M3. auto.
Qed.

Theorem single_add_ok : forall o im (vm : vmem R) inv outv, op_wf D k Jmin chk bs o -> mem_ok vm -> im_ok o im vm -> vec_ok D o vm inv outv ->
  exists im' vm', single_apply_add k junk chk D bs o im vm inv outv = Ok (im', vm') /\ im_ok o im' vm' /\ mem_ok vm' /\ adds D o vm inv outv vm'.
Proof.
  intros o im vm inv outv Hwf Hm Hi Hv. unfold single_apply_add. pose proof (ow_ne Hwf) as Hne. apply Nat.ltb_lt in Hne. rewrite Hne.
  assert (Hsd : exists s d, match im with Some sd => Ok sd | None => op_setup k junk chk D bs o end = Ok (s, d) /\ stat_ok chk D bs o s /\ dyn_ok D bs o d /\ cache_ok D bs o d vm).
  { destruct im as [(s, d)|].
    - destruct Hi as (H1 & H2 & H3). exists s, d. auto.
    - destruct (op_setup_ok junk Hwf) as (s & d & E & H1 & H2 & H3). exists s, d. split; auto. split; auto. split; auto.
      intros i v Hin Hmo Hf Hve. rewrite H3 by auto. destruct (Hm v) as (M1 & M2 & _). split; auto.
      intros E0 u Hu. rewrite M2 in Hu by auto. discriminate. }
  destruct Hsd as (s & d & E & Hs & Hd & Hc). rewrite E. cbn [rbind fst snd].
  destruct (apply_add_ok junk Hwf Hs Hv Hd Hc) as (d' & vm' & E' & P1 & P2 & P3). rewrite E'. cbn [rbind fst snd].
  eexists. eexists. split; [reflexivity|]. split; [split; auto|]. split; auto. eapply adds_mem; eauto.
Qed.

(** ** the added values depend on the contents of the inputs only *)
Lemma added_ext : forall (o : oper R) (vm vm' : vmem R) inv outv v q,
  (forall f, In f (o_in o) -> f_mode f <> EvWeight -> contents vm f inv = contents vm' f inv) ->
  added D o vm inv outv v q = added D o vm' inv outv v q.
Proof.
  intros o vm vm' inv outv v q H.
  assert (Hi : forall e x, ins_val D o vm inv e x = ins_val D o vm' inv e x).
  { intros e x. unfold ins_val. apply map_ext_in. intros f Hf. apply map_ext. intros c. unfold in_val.
    destruct (mode_cases (f_mode f)) as [E|E]; [rewrite E; auto|].
    assert (Hn : f_mode f <> EvWeight) by (intros E'; rewrite E' in E; destruct E as [E|E]; discriminate).
    rewrite (H f Hf Hn). reflexivity. }
  unfold added. apply sumn_ext. intros j Hj. f_equal. unfold contrib. apply Lval_ext. intros el kk n _ _ _.
  unfold out_val, outs_val. destruct (f_mode (fld (o_out o) j)); try (rewrite Hi; reflexivity);
    apply sumn_ext; intros d _; apply sumn_ext; intros x _; rewrite Hi; reflexivity.
Qed.

(** ** Apply *)
Definition outs (o : oper R) (outv : option nat) (v : nat) : bool := existsb (fun f => oeq (target f outv) v) (o_out o).
Definition zeroed (vm : vmem R) (P : nat -> bool) (vm' : vmem R) : Prop := forall v,
  if P v then vv_len (vm' v) = vv_len (vm v) /\ vv_data (vm' v) = Some (repeat 0%R (vv_len (vm v))) /\ (vv_state (vm v) < vv_state (vm' v))%Z
  else vm' v = vm v.
Lemma zeroed_step : forall vm P vm' v, zeroed vm P vm' -> zeroed vm (fun x => P x || (x =? v)) (vzero vm' v).
Proof.
  intros vm P vm' v H x. specialize (H x). unfold vzero, vset. destruct (Nat.eqb_spec x v) as [->|Hne].
  - rewrite orb_true_r. cbn [vv_len vv_data vv_state]. destruct (P v).
    + destruct H as (A & B & C). rewrite A. repeat split; auto. lia.
    + rewrite H. repeat split; auto. lia.
  - rewrite orb_false_r. auto.
Qed.
Lemma zeroed_ext : forall vm P P' vm', (forall v, P v = P' v) -> zeroed vm P vm' -> zeroed vm P' vm'.
Proof. intros vm P P' vm' H Hz v. rewrite <- H. apply Hz. Qed.
Lemma zero_fields : forall fs outv vm0 P vm, zeroed vm0 P vm ->
  zeroed vm0 (fun v => P v || existsb (fun f : ofield R => oeq (target f outv) v) fs) (fold_left (fun vm f => zero_target outv f vm) fs vm).
Proof.
  induction fs as [|f fs IH]; intros outv vm0 P vm H; simpl.
  - eapply zeroed_ext; [|exact H]. intros v. cbv beta. rewrite orb_false_r. auto.
  - assert (H1 : zeroed vm0 (fun v => P v || oeq (target f outv) v) (zero_target outv f vm)).
    { unfold zero_target. destruct (target f outv) as [v|] eqn:E; cbn [oeq].
      - eapply zeroed_ext; [|apply zeroed_step; exact H]. intros x. cbv beta. rewrite Nat.eqb_sym. auto.
      - eapply zeroed_ext; [|exact H]. intros x. cbv beta. rewrite orb_false_r. auto. }
    eapply zeroed_ext; [|apply IH; exact H1]. intros v. cbv beta. rewrite orb_assoc. auto.
Qed.
Lemma zeroed_mem : forall (vm : vmem R) P vm', mem_ok vm -> zeroed vm P vm' -> mem_ok vm'.
Proof.
  intros vm P vm' Hm Hz v. specialize (Hz v). specialize (Hm v). destruct (P v); [|rewrite Hz; auto].
  destruct Hz as (A & B & C). destruct Hm as (M1 & M2 & M3). split; [lia|]. split; [lia|]. intros x Hx. rewrite B in Hx. inversion Hx. rewrite repeat_length, A. auto.
Qed.
Lemma zeroed_fresh : forall vm P vm', zeroed vm P vm' -> fresh vm vm'.
Proof. intros vm P vm' H v. specialize (H v). destruct (P v); [right; apply H|left; auto]. Qed.

(** vectors of an Apply: inputs with data, outputs long enough *)
Definition vec_len (o : oper R) (vm : vmem R) (inv outv : option nat) : Prop :=
  (forall i, i < length (o_in o) -> f_mode (fld (o_in o) i) <> EvWeight -> has D vm (fld (o_in o) i) inv) /\
  (forall i, i < length (o_out o) -> exists v, target (fld (o_out o) i) outv = Some v /\ u_lsize (rd D (fld (o_out o) i)) <= vv_len (vm v)).
(** no input is an output *)
Definition apart (o : oper R) (inv outv : option nat) : Prop :=
  forall f v, In f (o_in o) -> f_mode f <> EvWeight -> target f inv = Some v -> outs o outv v = false.
(** result of an overwriting application *)
Definition sets (o : oper R) (vm : vmem R) (inv outv : option nat) (vm' : vmem R) : Prop := forall v,
  if outs o outv v
  then vv_len (vm' v) = vv_len (vm v) /\ (vv_state (vm v) < vv_state (vm' v))%Z /\
       exists x', vv_data (vm' v) = Some x' /\ length x' = vv_len (vm v) /\ forall q, vf x' q = added D o vm inv outv v q
  else vm' v = vm v.

Lemma contents_apart : forall o vm vm' inv outv, apart o inv outv -> zeroed vm (outs o outv) vm' ->
  forall f, In f (o_in o) -> f_mode f <> EvWeight -> contents vm' f inv = contents vm f inv.
Proof.
  intros o vm vm' inv outv Hap Hz f Hf Hm. unfold contents. destruct (target f inv) as [v|] eqn:E; auto.
  specialize (Hz v). rewrite (Hap f v Hf Hm E) in Hz. rewrite Hz. auto.
Qed.

Theorem single_apply_ok : forall o im (vm : vmem R) inv outv, op_wf D k Jmin chk bs o -> mem_ok vm -> im_ok o im vm -> vec_len o vm inv outv -> apart o inv outv ->
  exists im' vm', single_apply k junk chk D bs o im vm inv outv = Ok (im', vm') /\ im_ok o im' vm' /\ mem_ok vm' /\ sets o vm inv outv vm'.
Proof.
  intros o im vm inv outv Hwf Hm Hi (Hv1 & Hv2) Hap. unfold single_apply.
  set (vz := fold_left (fun vm f => zero_target outv f vm) (o_out o) vm).
  assert (Hz : zeroed vm (outs o outv) vz).
  { assert (H0 : zeroed vm (fun _ => false) vm) by (intros v; auto).
    exact (@zero_fields (o_out o) outv vm (fun _ => false) vm H0). }
  pose proof (contents_apart Hap Hz) as Hc.
  assert (Hvec : vec_ok D o vz inv outv).
  { split.
    - intros i Hin Hmo. destruct (Hv1 i Hin Hmo) as (v & x & T & Dx & Lx). exists v, x. split; auto. split; auto.
      specialize (Hz v). rewrite (Hap (fld (o_in o) i) v) in Hz; auto. rewrite Hz; auto. apply nth_In. auto.
    - intros i Hio. destruct (Hv2 i Hio) as (v & T & Lx). exists v, (repeat 0%R (vv_len (vm v))).
      assert (Ho : outs o outv v = true). { apply existsb_exists. exists (fld (o_out o) i). split; [apply nth_In; auto|]. rewrite T. simpl. apply Nat.eqb_refl. }
      specialize (Hz v). rewrite Ho in Hz. destruct Hz as (A & B & _). split; auto. split; auto. rewrite repeat_length. auto. }
  destruct (@single_add_ok o im vz inv outv Hwf) as (im' & vm' & E & P1 & P2 & P3); auto.
  { eapply zeroed_mem; eauto. } { eapply im_fresh; eauto. eapply zeroed_fresh; eauto. }
  rewrite E. exists im', vm'. split; auto. split; auto. split; auto. intros v. specialize (P3 v). specialize (Hz v).
  fold (outs o outv v) in P3. destruct (outs o outv v).
  - destruct Hz as (A & B & C). destruct P3 as (A1 & B1 & x & x' & C1 & C2 & C3 & C4). rewrite B in C1. inversion C1; subst x.
    split; [lia|]. split; [lia|]. exists x'. rewrite repeat_length in C3. split; auto. split; auto. intros q. rewrite C4, vf_repeat0.
    rewrite (added_ext _ vm vz); [ring|]. intros f Hf Hmf. symmetry. apply Hc; auto.
  - rewrite P3. auto.
Qed.

(** ** Composite operators *)
Fixpoint leaves (t : optree R) : list (oper R * impl R) :=
  match t with Leaf o im => [(o, im)] | Comp l => flat_map leaves l end.
Definition tree_ind' (P : optree R -> Prop) (HL : forall o im, P (Leaf o im)) (HC : forall l, Forall P l -> P (Comp l)) : forall t, P t :=
  fix go t := match t with Leaf o im => HL o im | Comp l => HC l ((fix gl l : Forall P l := match l return Forall P l with [] => Forall_nil P | t :: l => Forall_cons t (go t) (gl l) end) l) end.

(** an operator with elements, or none *)
Definition leaf_wf (o : oper R) : Prop := op_wf D k Jmin chk bs o \/ (o_ne o = 0 /\ forall j, j < length (o_out o) -> u_ne (rd D (fld (o_out o) j)) = 0).

Section Sum.
Variables inv outv : option nat.
Definition isout (os : list (oper R)) (v : nat) : bool := existsb (fun o => outs o outv v) os.
Definition total (os : list (oper R)) (vm : vmem R) (v q : nat) : R := sumL os (fun o => added D o vm inv outv v q).
Definition sum_adds (os : list (oper R)) (vm0 vm vm' : vmem R) : Prop := forall v,
  vv_len (vm' v) = vv_len (vm v) /\
  if isout os v then exists x x', vv_data (vm v) = Some x /\ vv_data (vm' v) = Some x' /\ length x' = length x /\ forall q, vf x' q = (vf x q + total os vm0 v q)%R
  else vm' v = vm v.
(** no input of any is an output of any *)
Definition apart_all (os : list (oper R)) : Prop := forall o f v, In o os -> In f (o_in o) -> f_mode f <> EvWeight -> target f inv = Some v -> isout os v = false.

Lemma sum_adds_app : forall a b vm0 vm1 vm2 vm3, sum_adds a vm0 vm1 vm2 -> sum_adds b vm0 vm2 vm3 -> sum_adds (a ++ b) vm0 vm1 vm3.
Proof.
  intros a b vm0 vm1 vm2 vm3 H1 H2 v. destruct (H1 v) as (L1 & G1). destruct (H2 v) as (L2 & G2). split; [lia|].
  unfold isout. rewrite existsb_app. fold (isout a v) (isout b v).
  assert (Ht : forall q, total (a ++ b) vm0 v q = (total a vm0 v q + total b vm0 v q)%R). { intros q. unfold total. apply sumL_app. }
  assert (Hz : forall l q, isout l v = false -> total l vm0 v q = 0%R).
  { intros l q Hl. unfold total. apply sumL_zero. intros o Ho. unfold added. apply sumn_zero. intros j Hj.
    assert (E : oeq (target (fld (o_out o) j) outv) v = false).
    { destruct (oeq (target (fld (o_out o) j) outv) v) eqn:E; auto. exfalso.
      assert (isout l v = true); [|congruence]. apply existsb_exists. exists o. split; auto. apply existsb_exists. exists (fld (o_out o) j). split; auto. apply nth_In. auto. }
    rewrite E. reflexivity. }
  destruct (isout a v) eqn:Ea, (isout b v) eqn:Eb; cbn [orb].
  - destruct G1 as (x & x1 & A1 & A2 & A3 & A4). destruct G2 as (y & y1 & B1 & B2 & B3 & B4). rewrite A2 in B1. inversion B1; subst y.
    exists x, y1. repeat split; auto. lia. intros q. rewrite B4, A4, Ht. ring.
  - destruct G1 as (x & x1 & A1 & A2 & A3 & A4). exists x, x1. rewrite G2. repeat split; auto. intros q. rewrite A4, Ht, (Hz b) by auto. ring.
  - destruct G2 as (y & y1 & B1 & B2 & B3 & B4). exists y, y1. rewrite <- G1. repeat split; auto. intros q. rewrite B4, Ht, (Hz a) by auto. ring.
  - rewrite G2. auto.
Qed.

Lemma leaf_add : forall o im vm, leaf_wf o -> mem_ok vm -> im_ok o im vm -> vec_ok D o vm inv outv ->
  exists im' vm', single_apply_add k junk chk D bs o im vm inv outv = Ok (im', vm') /\ im_ok o im' vm' /\ mem_ok vm' /\ fresh vm vm' /\ sum_adds [o] vm vm vm'.
Proof.
  intros o im vm [Hwf|(Hne & Hu)] Hm Hi Hv.
  - destruct (single_add_ok im Hwf Hm Hi Hv) as (im' & vm' & E & P1 & P2 & P3). exists im', vm'. split; auto. split; auto. split; auto.
    split. { eapply adds_fresh; eauto. } intros v. specialize (P3 v). unfold isout. simpl. rewrite orb_false_r. fold (outs o outv v) in P3. destruct (outs o outv v).
    + destruct P3 as (A & B & x & x' & C1 & C2 & C3 & C4). split; auto. exists x, x'. repeat split; auto. intros q. rewrite C4. unfold total. simpl. ring.
    + rewrite P3. auto.
  - exists im, vm. unfold single_apply_add. rewrite Hne. simpl. split; auto. split; auto. split; auto. split; [apply fresh_refl|].
    intros v. split; auto. unfold isout. simpl. rewrite orb_false_r. destruct (outs o outv v) eqn:E; auto.
    unfold outs in E. apply existsb_exists in E. destruct E as (f & Hf & E). destruct (In_nth _ _ (mkOF 0 EvNone None None VNo) Hf) as (j & Hj & Ej).
    destruct Hv as (_ & Hv). destruct (Hv j Hj) as (v' & x & T & Dx & Lx). unfold fld in T. rewrite Ej in T. rewrite T in E. simpl in E. apply Nat.eqb_eq in E. subst v'.
    exists x, x. repeat split; auto. intros q. unfold total. simpl.
    assert (Ez : added D o vm inv outv v q = 0%R).
    { unfold added. apply sumn_zero. intros i Hi'. unfold contrib, Lval. rewrite (Hu i Hi'), sumn_0. destruct (oeq _ _); reflexivity. }
    rewrite Ez. ring.
Qed.

Lemma vec_ok_adds : forall os vm0 vm vm' (o : oper R), sum_adds os vm0 vm vm' -> vec_ok D o vm inv outv -> vec_ok D o vm' inv outv.
Proof.
  intros os vm0 vm vm' o H (H1 & H2).
  assert (Hh : forall f act, has D vm f act -> has D vm' f act).
  { intros f act (v & x & T & Dx & Lx). destruct (H v) as (_ & G). destruct (isout os v).
    - destruct G as (y & y' & A1 & A2 & A3 & _). exists v, y'. rewrite Dx in A1. inversion A1; subst y. repeat split; auto. lia.
    - exists v, x. rewrite G. auto. }
  split; intros; apply Hh; auto.
Qed.
Lemma contents_adds : forall os all vm0 vm vm' o f, sum_adds os vm0 vm vm' -> incl os all -> apart_all all -> In o all -> In f (o_in o) -> f_mode f <> EvWeight ->
  contents vm' f inv = contents vm f inv.
Proof.
  intros os all vm0 vm vm' o f H Hincl Hap Ho Hf Hm. unfold contents. destruct (target f inv) as [v|] eqn:T; auto.
  destruct (H v) as (_ & G). pose proof (Hap o f v Ho Hf Hm T) as Hn.
  assert (isout os v = false).
  { destruct (isout os v) eqn:E; auto. apply existsb_exists in E. destruct E as (o' & Ho' & E).
    assert (isout all v = true); [|congruence]. apply existsb_exists. exists o'. auto. }
  rewrite H0 in G. rewrite G. auto.
Qed.

Definition go_apply := fix go (l : list (optree R)) vm := match l with
                           | [] => Ok ([], vm)
                           | t :: l => r <~ tree_apply_add k junk chk D bs t vm inv outv ;; q <~ go l (snd r) ;; Ok (fst r :: fst q, snd q)
                           end.
Lemma tree_apply_comp : forall l vm, tree_apply_add k junk chk D bs (Comp l) vm inv outv = (r <~ go_apply l vm ;; Ok (Comp (fst r), snd r)).
Proof. reflexivity. Qed.
(** same operators, new backend data *)
Definition tree_ok (os : list (oper R)) (vm : vmem R) (t : optree R) : Prop :=
  Forall (fun oi => leaf_wf (fst oi) /\ In (fst oi) os /\ im_ok (fst oi) (snd oi) vm /\ vec_ok D (fst oi) vm inv outv) (leaves t).

Lemma tree_step : forall all vm0, apart_all all -> forall t (vm : vmem R), mem_ok vm -> tree_ok all vm t ->
  (forall o f, In o all -> In f (o_in o) -> f_mode f <> EvWeight -> contents vm f inv = contents vm0 f inv) ->
  exists t' vm', tree_apply_add k junk chk D bs t vm inv outv = Ok (t', vm') /\ mem_ok vm' /\ fresh vm vm' /\
    map fst (leaves t') = map fst (leaves t) /\ tree_ok all vm' t' /\ sum_adds (map fst (leaves t)) vm0 vm vm'.
Proof.
  intros all vm0 Hap. induction t as [o im|l IH] using tree_ind'; intros vm Hm Ht Hc.
  - inversion Ht as [|x ll (W & Hin & Him & Hv) _]; subst. cbn [fst snd] in *.
    destruct (leaf_add im W Hm Him Hv) as (im' & vm' & E & P1 & P2 & P3 & P4). cbn [tree_apply_add]. rewrite E. cbn [rbind fst snd].
    exists (Leaf o im'), vm'. split; auto. split; auto. split; auto. split; auto. split.
    + constructor; [|constructor]. cbn [fst snd]. split; auto. split; auto. split; auto. eapply vec_ok_adds; eauto.
    + simpl. intros v. destruct (P4 v) as (A & B). split; auto. destruct (isout [o] v); auto. destruct B as (x & x' & B1 & B2 & B3 & B4).
      exists x, x'. repeat split; auto. intros q. rewrite B4. f_equal. unfold total. simpl. f_equal. apply added_ext. intros f Hf Hmf. apply (Hc o); auto.
  - rewrite tree_apply_comp.
    assert (Hgo : forall l, Forall (fun t => forall vm, mem_ok vm -> tree_ok all vm t ->
        (forall o f, In o all -> In f (o_in o) -> f_mode f <> EvWeight -> contents vm f inv = contents vm0 f inv) ->
        exists t' vm', tree_apply_add k junk chk D bs t vm inv outv = Ok (t', vm') /\ mem_ok vm' /\ fresh vm vm' /\
          map fst (leaves t') = map fst (leaves t) /\ tree_ok all vm' t' /\ sum_adds (map fst (leaves t)) vm0 vm vm') l ->
      forall vm, mem_ok vm -> Forall (tree_ok all vm) l ->
        (forall o f, In o all -> In f (o_in o) -> f_mode f <> EvWeight -> contents vm f inv = contents vm0 f inv) ->
        exists l' vm', go_apply l vm = Ok (l', vm') /\ mem_ok vm' /\ fresh vm vm' /\
          map fst (flat_map leaves l') = map fst (flat_map leaves l) /\ Forall (tree_ok all vm') l' /\ sum_adds (map fst (flat_map leaves l)) vm0 vm vm').
    { clear l IH vm Hm Ht Hc. induction l as [|t l IH]; intros HF vm Hm Ht Hc.
      - exists [], vm. simpl. split; auto. split; auto. split; [apply fresh_refl|]. split; auto. split; auto. intros v. split; reflexivity.
      - inversion HF as [|? ? Ht0 HF']; subst. inversion Ht as [|? ? T1 T2]; subst.
        destruct (Ht0 vm Hm T1 Hc) as (t' & vm1 & E1 & M1 & F1 & L1 & K1 & S1).
        assert (Hincl : incl (map fst (leaves t)) all).
        { intros o Ho. apply in_map_iff in Ho. destruct Ho as (oi & <- & Ho). unfold tree_ok in T1. rewrite Forall_forall in T1. apply T1 in Ho. apply Ho. }
        destruct (IH HF' vm1 M1) as (l' & vm2 & E2 & M2 & F2 & L2 & K2 & S2).
        { rewrite Forall_forall in T2 |- *. intros tt Htt. specialize (T2 tt Htt). unfold tree_ok in *. rewrite Forall_forall in T2 |- *.
          intros oi Hoi. destruct (T2 oi Hoi) as (A & B & C & E). split; auto. split; auto. split. eapply im_fresh; eauto. eapply vec_ok_adds; eauto. }
        { intros o f Ho Hf Hmf. rewrite <- (Hc o f) by auto. eapply contents_adds; eauto. }
        exists (t' :: l'), vm2. cbn [go_apply]. fold go_apply. rewrite E1. cbn [rbind fst snd]. rewrite E2. cbn [rbind fst snd].
        split; auto. split; auto. split. { eapply fresh_trans; eauto. } cbn [flat_map]. rewrite !map_app. split. { congruence. }
        split.
        + constructor; auto. unfold tree_ok in *. rewrite Forall_forall in K1 |- *. intros oi Hoi. destruct (K1 oi Hoi) as (A & B & C & E).
          split; auto. split; auto. split. eapply im_fresh; eauto. eapply vec_ok_adds; eauto.
        + eapply sum_adds_app; eauto. }
    destruct (Hgo l IH vm Hm) as (l' & vm' & E & M & F & L & K & S); auto.
    { unfold tree_ok in *. simpl in Ht. rewrite Forall_forall in Ht |- *. intros t Hin. rewrite Forall_forall. intros oi Hoi. apply Ht. apply in_flat_map. eauto. }
    rewrite E. cbn [rbind fst snd]. exists (Comp l'), vm'. split; auto. split; auto. split; auto. split; auto. split; auto.
    unfold tree_ok in *. simpl. rewrite Forall_forall in K |- *. intros oi Hoi. apply in_flat_map in Hoi. destruct Hoi as (t & Hin & Hoi).
    specialize (K t Hin). rewrite Forall_forall in K. auto.
Qed.

Theorem tree_add_ok : forall t (vm : vmem R), mem_ok vm -> apart_all (map fst (leaves t)) ->
  (forall o im, In (o, im) (leaves t) -> leaf_wf o /\ im_ok o im vm /\ vec_ok D o vm inv outv) ->
  exists t' vm', tree_apply_add k junk chk D bs t vm inv outv = Ok (t', vm') /\ mem_ok vm' /\ fresh vm vm' /\
    map fst (leaves t') = map fst (leaves t) /\ (forall o im, In (o, im) (leaves t') -> leaf_wf o /\ im_ok o im vm' /\ vec_ok D o vm' inv outv) /\
    sum_adds (map fst (leaves t)) vm vm vm'.
Proof.
  intros t vm Hm Hap H. destruct (@tree_step (map fst (leaves t)) vm Hap t vm Hm) as (t' & vm' & E & M & F & L & K & S).
  - unfold tree_ok. rewrite Forall_forall. intros (o, im) Hin. cbn [fst snd]. destruct (H o im Hin) as (A & B & C). repeat split; auto; try apply C.
    apply in_map_iff. exists (o, im). auto.
  - auto.
  - exists t', vm'. split; auto. split; auto. split; auto. split; auto. split; auto. intros o im Hin. unfold tree_ok in K. rewrite Forall_forall in K.
    destruct (K _ Hin) as (A & B & C & E'). auto.
Qed.

(** ** Apply of a composite operator of single operators *)
Definition is_leaf (t : optree R) : bool := match t with Leaf _ _ => true | Comp _ => false end.
Lemma zero_passive : forall fs vm0 P vm, zeroed vm0 P vm ->
  zeroed vm0 (fun v => P v || existsb (fun f : ofield R => match f_vec f with VPas u => u =? v | _ => false end) fs)
    (fold_left (fun vm f => match f_vec f with VPas v => vzero vm v | _ => vm end) fs vm).
Proof.
  induction fs as [|f fs IH]; intros vm0 P vm H; simpl.
  - eapply zeroed_ext; [|exact H]. intros v. cbv beta. rewrite orb_false_r. auto.
  - assert (H1 : zeroed vm0 (fun v => P v || match f_vec f with VPas u => u =? v | _ => false end) (match f_vec f with VPas v => vzero vm v | _ => vm end)).
    { destruct (f_vec f) as [| |v].
      - eapply zeroed_ext; [|exact H]. intros x. cbv beta. rewrite orb_false_r. auto.
      - eapply zeroed_ext; [|exact H]. intros x. cbv beta. rewrite orb_false_r. auto.
      - eapply zeroed_ext; [|apply zeroed_step; exact H]. intros x. cbv beta. rewrite Nat.eqb_sym. auto. }
    eapply zeroed_ext; [|apply IH; exact H1]. intros v. cbv beta. rewrite orb_assoc. auto.
Qed.
(** what a composite Apply overwrites *)
Definition cleared (l : list (optree R)) (v : nat) : bool :=
  oeq outv v || existsb (fun oi => existsb (fun f : ofield R => match f_vec f with VPas u => u =? v | _ => false end) (o_out (fst oi))) (flat_map leaves l).
Lemma zero_subs_ok : forall l vm, forallb is_leaf l = true -> exists vz, zero_subs outv l vm = Ok vz /\ zeroed vm (cleared l) vz.
Proof.
  intros l vm Hl. unfold zero_subs.
  assert (H0 : zeroed vm (fun v => oeq outv v) (match outv with Some v => vzero vm v | None => vm end)).
  { destruct outv as [v|].
    - assert (Hx : zeroed vm (fun _ => false) vm) by (intros x; auto).
      eapply zeroed_ext; [|apply (zeroed_step v Hx)]. intros x. simpl. apply Nat.eqb_sym.
    - intros x. simpl. reflexivity. }
  assert (Hgen : forall l vz P, forallb is_leaf l = true -> zeroed vm P vz -> exists vz', rfold l (fun t vm => match t with
    | Leaf o _ => Ok (fold_left (fun vm f => match f_vec f with VPas v => vzero vm v | _ => vm end) (o_out o) vm)
    | Comp _ => Err ERR_MINOR
    end) vz = Ok vz' /\
    zeroed vm (fun v => P v || existsb (fun oi => existsb (fun f : ofield R => match f_vec f with VPas u => u =? v | _ => false end) (o_out (fst oi))) (flat_map leaves l)) vz').
  { clear. induction l as [|t l IH]; intros vz P Hl H0.
    - exists vz. split; auto. eapply zeroed_ext; [|exact H0]. intros v. simpl. rewrite orb_false_r. auto.
    - simpl in Hl. apply andb_true_iff in Hl. destruct Hl as (Ht & Hl). destruct t as [o im|]; [|discriminate]. cbn [rfold]. cbn [rbind].
      destruct (IH _ _ Hl (zero_passive (o_out o) H0)) as (vz' & E & Hz). exists vz'. split; auto.
      eapply zeroed_ext; [|exact Hz]. intros v. simpl. rewrite orb_assoc. auto. }
  exact (Hgen l _ _ Hl H0).
Qed.
Definition vec_len_at (o : oper R) (vm : vmem R) := vec_len o vm inv outv.
(** inputs are not overwritten *)
Definition apart_comp (l : list (optree R)) : Prop := forall o f v, In o (map fst (flat_map leaves l)) -> In f (o_in o) -> f_mode f <> EvWeight -> target f inv = Some v -> cleared l v = false.

Theorem comp_apply_ok : forall l (vm : vmem R), forallb is_leaf l = true -> mem_ok vm -> apart_comp l ->
  (forall o im, In (o, im) (leaves (Comp l)) -> leaf_wf o /\ im_ok o im vm /\ vec_len o vm inv outv) ->
  exists t' vm', tree_apply k junk chk D bs (Comp l) vm inv outv = Ok (t', vm') /\ mem_ok vm' /\ map fst (leaves t') = map fst (leaves (Comp l)) /\
    (forall o im, In (o, im) (leaves t') -> im_ok o im vm') /\
    forall v, if cleared l v
      then vv_len (vm' v) = vv_len (vm v) /\ exists x', vv_data (vm' v) = Some x' /\ length x' = vv_len (vm v) /\
             forall q, vf x' q = total (map fst (leaves (Comp l))) vm v q
      else vm' v = vm v.
Proof.
  intros l vm Hl Hm Hap H. unfold tree_apply. destruct (zero_subs_ok l vm Hl) as (vz & Ez & Hz). rewrite Ez. cbn [rbind].
  assert (Hsub : forall o v, In o (map fst (flat_map leaves l)) -> outs o outv v = true -> cleared l v = true).
  { intros o v Ho E. unfold cleared. apply existsb_exists in E. destruct E as (f & Hf & E). destruct (oeq outv v) eqn:Eo; auto. cbn [orb].
    apply in_map_iff in Ho. destruct Ho as (oi & <- & Ho). apply existsb_exists. exists oi. split; auto. apply existsb_exists. exists f. split; auto.
    unfold target in E. destruct (f_vec f); try discriminate; try congruence. exact E. }
  assert (Hap' : apart_all (map fst (leaves (Comp l)))).
  { intros o f v Ho Hf Hmf T. pose proof (Hap o f v Ho Hf Hmf T) as Hc. destruct (isout _ v) eqn:E; auto. apply existsb_exists in E.
    destruct E as (o' & Ho' & E). rewrite (Hsub o' v Ho' E) in Hc. discriminate. }
  assert (Hcont : forall o f, In o (map fst (flat_map leaves l)) -> In f (o_in o) -> f_mode f <> EvWeight -> contents vz f inv = contents vm f inv).
  { intros o f Ho Hf Hmf. unfold contents. destruct (target f inv) as [v|] eqn:T; auto. specialize (Hz v). rewrite (Hap o f v Ho Hf Hmf T) in Hz. rewrite Hz. auto. }
  destruct (@tree_add_ok (Comp l) vz (zeroed_mem Hm Hz) Hap') as (t' & vm' & E & M & F & L & K & S).
  { intros o im Hin. destruct (H o im Hin) as (A & B & (V1 & V2)). split; auto. split. { eapply im_fresh; eauto. eapply zeroed_fresh; eauto. }
    assert (Ho : In o (map fst (flat_map leaves l))). { apply in_map_iff. exists (o, im). auto. }
    split.
    - intros i Hi Hmo. destruct (V1 i Hi Hmo) as (v & x & T & Dx & Lx). exists v, x. split; auto. split; auto. specialize (Hz v).
      rewrite (Hap o (fld (o_in o) i) v) in Hz; auto. rewrite Hz; auto. apply nth_In; auto.
    - intros i Hi. destruct (V2 i Hi) as (v & T & Lx). exists v, (repeat 0%R (vv_len (vm v))). split; auto.
      specialize (Hz v). rewrite (Hsub o v) in Hz; auto. destruct Hz as (_ & B' & _). split; auto. rewrite repeat_length. auto.
      apply existsb_exists. exists (fld (o_out o) i). split. apply nth_In; auto. rewrite T. simpl. apply Nat.eqb_refl. }
  exists t', vm'. split; auto. split; auto. split; auto. split. { intros o im Hin. apply K. auto. }
  intros v. destruct (S v) as (L1 & G). specialize (Hz v). destruct (cleared l v) eqn:Ecl.
  - destruct Hz as (A & B & C). split; [lia|].
    assert (Htot : forall q, total (map fst (leaves (Comp l))) vz v q = total (map fst (leaves (Comp l))) vm v q).
    { intros q. unfold total. apply sumL_ext. intros o Ho. apply added_ext. intros f Hf Hmf. apply (Hcont o); auto. }
    destruct (isout (map fst (leaves (Comp l))) v) eqn:Eo.
    + destruct G as (x & x' & B1 & B2 & B3 & B4). rewrite B in B1. inversion B1; subst x. exists x'. rewrite repeat_length in B3. split; auto. split; auto.
      intros q. rewrite B4, vf_repeat0, Htot. ring.
    + exists (repeat 0%R (vv_len (vm v))). rewrite G. split; auto. rewrite repeat_length. split; auto. intros q. rewrite vf_repeat0.
      symmetry. unfold total. apply sumL_zero. intros o Ho. unfold added. apply sumn_zero. intros j Hj.
      destruct (oeq (target (fld (o_out o) j) outv) v) eqn:E1; auto. exfalso. assert (isout (map fst (leaves (Comp l))) v = true); [|congruence].
      apply existsb_exists. exists o. split; auto. apply existsb_exists. exists (fld (o_out o) j). split; auto. apply nth_In. auto.
  - destruct (isout (map fst (leaves (Comp l))) v) eqn:Eo; [|rewrite G; auto].
    apply existsb_exists in Eo. destruct Eo as (o & Ho & Eo). rewrite (Hsub o v Ho Eo) in Ecl. discriminate.
Qed.
End Sum.
End Tree.
