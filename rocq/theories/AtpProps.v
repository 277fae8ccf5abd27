(** * Property C49: operators at points *)
From Coq Require Import List ZArith Lia Bool Arith.
From Verif Require Import Prelude RstrModel RstrSpec RstrProofs RstrPoints RstrProps TensorModel TensorMain BasisModel BasisProofs BasisProps Digits PointsModel PointsProofs PointsProps OpModel OpSpec OpLists OpProofs OpMain OpTree OpProps OptModel AtpModel AtpSpec AtpProofs AtpMain.
Import ListNotations.

Section Interface.
Variable R : Rng.
Add Ring Rr : (r_th R).
Local Open Scope nat_scope.
Variable k : kernel R.
Variable Jmin : nat.
Variable junk : nat -> nat -> R.
Variable chk : bool.
Variable D : nat -> pdesc.
Variable CB : nat -> tbasis R.
Notation wf a := (atp_wf R D CB a k Jmin chk).

Lemma emode_dec : forall m, m = EvWeight \/ m <> EvWeight.
Proof. intros []; auto; right; discriminate. Qed.
(** backend data agrees with the vectors *)
Definition aim_ok (a : atop R) (im : aimpl R) (vm : vmem R) : Prop :=
  match im with None => True | Some (rx, s, x) => a_im_ok R chk D CB a (rx, s, x) /\ a_cache_ok R chk D a (ad x) vm end.
Lemma aim_fresh : forall a im vm vm', fresh vm vm' -> aim_ok a im vm -> aim_ok a im vm'.
Proof. intros a [((rx, s), d)|] vm vm' Hf H; auto. destruct H as (H1 & H2). split; auto. apply (a_cache_mono R chk D a (ad d) vm); auto. Qed.
(** vectors of an Apply: inputs and coordinates with data, outputs of the right length, and no input or coordinate vector is an output *)
Definition at_vec_len (a : atop R) (vm : vmem R) (inv outv : option nat) : Prop :=
  (forall i, i < length (o_in (a_op a)) -> f_mode (fld (o_in (a_op a)) i) <> EvWeight -> at_has R D vm (fld (o_in (a_op a)) i) inv (is_active (fld (o_in (a_op a)) i))) /\
  (forall i, i < length (o_out (a_op a)) -> exists v, target (fld (o_out (a_op a)) i) outv = Some v /\
     if is_pts (pd R D (fld (o_out (a_op a)) i)) then p_ls (pd R D (fld (o_out (a_op a)) i)) <= vv_len (vm v) else vv_len (vm v) = p_ls (pd R D (fld (o_out (a_op a)) i))) /\
  (exists x, vv_data (vm (a_xvec a)) = Some x /\ p_ls (D (a_rpts a)) <= length x) /\
  apart (a_op a) inv outv /\ outs (a_op a) outv (a_xvec a) = false.

Lemma atp_add_ok : forall a vc0 im (vm : vmem R) inv outv, wf a -> mem_ok vm -> aim_ok a im vm -> vc_ok R CB vc0 -> at_vec_ok R D a vm inv outv ->
  exists im' vm', atp_apply_add k junk chk D CB a vc0 im vm inv outv = Ok (im', vm') /\ aim_ok a im' vm' /\ mem_ok vm' /\ at_adds R D CB a vm inv outv vm'.
Proof.
  intros a vc0 im vm inv outv Hwf Hm Hi Hvc Hv. unfold atp_apply_add. pose proof (aw_ne _ _ _ _ _ _ _ Hwf) as Hne. apply Nat.ltb_lt in Hne. rewrite Hne.
  assert (Hsd : exists rx s x, match im with Some sd => Ok sd | None => atp_setup k junk chk D CB a vc0 end = Ok (rx, s, x) /\ a_im_ok R chk D CB a (rx, s, x) /\ a_cache_ok R chk D a (ad x) vm).
  { destruct im as [((rx, s), x)|].
    - destruct Hi as (H1 & H2). exists rx, s, x. auto.
    - destruct (atp_setup_ok R k Jmin junk chk D CB a Hwf vc0 Hvc) as (((rx, s), x) & E & H1 & H2). exists rx, s, x. split; auto. split; auto.
      intros i v Hin Hmo Hf Hve. cbn [snd] in H2. rewrite H2 by auto. destruct (Hm v) as (M1 & M2 & _). split; auto.
      intros E0 u Hu. rewrite M2 in Hu by auto. discriminate. }
  destruct Hsd as (rx & s & x & E & (Hrx & Hs & mx & Hmx & Hd) & Hc). rewrite E. cbn [rbind].
  destruct (atp_apply_be_ok R k Jmin junk chk D CB a Hwf mx Hmx s Hs rx Hrx vm inv outv Hv x Hd Hc) as (x' & vm' & E' & P1 & P2 & P3).
  rewrite E'. cbn [rbind fst snd]. eexists. eexists. split; [reflexivity|]. split; [|split; [|exact P3]].
  - split; auto. split; auto. split; auto. exists mx. auto.
  - intros v. specialize (P3 v). specialize (Hm v). destruct (existsb _ _); [|rewrite P3; auto].
    destruct P3 as (A & B & y & y' & C1 & C2 & C3 & C4). destruct Hm as (M1 & M2 & M3). split; [lia|]. split; [lia|].
    intros z Hz. rewrite C2 in Hz. inversion Hz; subst z. rewrite C3, A. apply M3. auto.
Qed.

Lemma at_added_ext : forall a (vm vm' : vmem R) inv outv v q,
  (forall f, In f (o_in (a_op a)) -> f_mode f <> EvWeight -> contents vm f inv = contents vm' f inv) -> xcont R a vm = xcont R a vm' ->
  at_added R D CB a vm inv outv v q = at_added R D CB a vm' inv outv v q.
Proof.
  intros a vm vm' inv outv v q H Hx.
  assert (Hin : forall e p, at_ins_val R D CB a vm inv e p = at_ins_val R D CB a vm' inv e p).
  { intros e p. unfold at_ins_val. apply map_ext_in. intros i Hi. apply in_seq in Hi. cbv zeta. apply map_ext. intros c. rewrite Hx.
    destruct (emode_dec (f_mode (fld (o_in (a_op a)) i))) as [E|E]. { unfold at_in_val. rewrite E. reflexivity. }
    rewrite H; auto. apply nth_In. lia. }
  unfold at_added. apply sumn_ext. intros j Hj. f_equal. apply scatter_ext. intros e c n _ _ _. unfold at_out_val, at_outs_val. rewrite Hx.
  destruct (f_mode (fld (o_out (a_op a)) j)); try (rewrite Hin; reflexivity); apply sumn_ext; intros p Hp; apply sumn_ext; intros i Hi; rewrite Hin; reflexivity.
Qed.

Lemma atp_apply_ok : forall a vc0 im (vm : vmem R) inv outv, wf a -> mem_ok vm -> aim_ok a im vm -> vc_ok R CB vc0 -> at_vec_len a vm inv outv ->
  exists im' vm', atp_apply k junk chk D CB a vc0 im vm inv outv = Ok (im', vm') /\ aim_ok a im' vm' /\ mem_ok vm' /\
    forall v, if outs (a_op a) outv v
      then vv_len (vm' v) = vv_len (vm v) /\ exists x', vv_data (vm' v) = Some x' /\ length x' = vv_len (vm v) /\ forall q, vf x' q = at_added R D CB a vm inv outv v q
      else vm' v = vm v.
Proof.
  intros a vc0 im vm inv outv Hwf Hm Hi Hvc (Hv1 & Hv2 & Hv3 & Hap & Hxo). unfold atp_apply. set (o := a_op a) in *.
  set (vz := fold_left (fun vm f => zero_target outv f vm) (o_out o) vm).
  assert (Hz : zeroed vm (outs o outv) vz).
  { assert (H0 : zeroed vm (fun _ => false) vm) by (intros v; auto). exact (@zero_fields R (o_out o) outv vm (fun _ => false) vm H0). }
  pose proof (contents_apart Hap Hz) as Hc.
  assert (Ex : vz (a_xvec a) = vm (a_xvec a)). { specialize (Hz (a_xvec a)). rewrite Hxo in Hz. exact Hz. }
  assert (Ho' : forall f v, In f (o_out o) -> target f outv = Some v -> outs o outv v = true).
  { intros f v Hf Hv. apply existsb_exists. exists f. split; auto. rewrite Hv. simpl. apply Nat.eqb_refl. }
  assert (Hvec : at_vec_ok R D a vz inv outv).
  { split; [|split; [|split; [|split]]].
    - intros i Hin Hmo. destruct (Hv1 i Hin Hmo) as (v & x & T & Dx & Lx). exists v, x. split; auto. split; auto.
      specialize (Hz v). rewrite (Hap (fld (o_in o) i) v) in Hz; auto. rewrite Hz; auto. apply nth_In. auto.
    - intros i Hio. destruct (Hv2 i Hio) as (v & T & Lx). exists v, (repeat 0%R (vv_len (vm v))).
      assert (Ho : outs o outv v = true). { apply (Ho' (fld (o_out o) i)); auto. apply nth_In. auto. }
      specialize (Hz v). rewrite Ho in Hz. destruct Hz as (A & B & _). split; auto. split; auto. rewrite repeat_length. fold o. cbn [andb].
      destruct (is_pts (pd R D (fld (o_out o) i))); auto.
    - rewrite Ex. auto.
    - intros i j Hin Ha Hj Eq.
      destruct (emode_dec (f_mode (fld (o_in o) i))) as [Ew|Hmo].
      { pose proof (aw_in _ _ _ _ _ _ _ Hwf i Hin) as Hf. fold o in Hf. unfold at_field_wf in Hf. rewrite Ew in Hf. destruct Hf as (_ & _ & Hf & _). auto. }
      destruct (Hv1 i Hin Hmo) as (v & x & T & Dx & Lx). assert (outs o outv v = false). { apply (Hap (fld (o_in o) i)); auto. apply nth_In. auto. }
      rewrite (Ho' (fld (o_out o) j) v) in H; [discriminate|apply nth_In; auto|]. fold o in Eq. rewrite Eq. fold o in Ha. unfold target in T. rewrite Ha in T. auto.
    - intros j Hj Eq. rewrite (Ho' (fld (o_out o) j) (a_xvec a)) in Hxo; [discriminate|apply nth_In; auto|exact Eq]. }
  destruct (atp_add_ok a vc0 im vz inv outv Hwf) as (im' & vm' & E & P1 & P2 & P3); auto.
  { eapply zeroed_mem; eauto. } { eapply aim_fresh; eauto. eapply zeroed_fresh; eauto. }
  rewrite E. exists im', vm'. split; auto. split; auto. split; auto. intros v. specialize (P3 v). specialize (Hz v). fold o in P3.
  fold (outs o outv v) in P3. destruct (outs o outv v).
  - destruct Hz as (A & B & C). destruct P3 as (A1 & B1 & x & x' & C1 & C2 & C3 & C4). rewrite B in C1. inversion C1; subst x.
    split; [lia|]. exists x'. rewrite repeat_length in C3. split; auto. split; auto. intros q. rewrite C4, vf_repeat0.
    rewrite (at_added_ext a vm vz); [ring| |]. { intros f Hf Hmf. symmetry. apply Hc; auto. } { unfold xcont. rewrite Ex. reflexivity. }
  - rewrite P3. auto.
Qed.
End Interface.

(** ** C49 *)
(** ApplyAdd adds to every output vector the specified sum over elements, points and nodes ([at_added], AtpSpec.v), whatever
    backend data and contents of vec_chebyshev earlier applications have left, and changes nothing else. *)
Theorem C49_apply_add : forall (R : Rng) k Jmin junk chk D CB (a : atop R) vc0 im vm inv outv,
  atp_wf R D CB a k Jmin chk -> mem_ok vm -> aim_ok R chk D CB a im vm -> vc_ok R CB vc0 -> at_vec_ok R D a vm inv outv ->
  exists im' vm', atp_apply_add k junk chk D CB a vc0 im vm inv outv = Ok (im', vm') /\ aim_ok R chk D CB a im' vm' /\ mem_ok vm' /\
    forall v,
      if outs (a_op a) outv v
      then vv_len (vm' v) = vv_len (vm v) /\ exists x x', vv_data (vm v) = Some x /\ vv_data (vm' v) = Some x' /\ length x' = length x /\
           forall q, vf x' q = (vf x q + at_added R D CB a vm inv outv v q)%R
      else vm' v = vm v.
Proof.
  intros R k Jmin junk chk D CB a vc0 im vm inv outv Hwf Hm Hi Hvc Hv.
  destruct (atp_add_ok R k Jmin junk chk D CB a vc0 im vm inv outv Hwf Hm Hi Hvc Hv) as (im' & vm' & E & P1 & P2 & P3). exists im', vm'. split; auto. split; auto. split; auto.
  intros v. specialize (P3 v). fold (outs (a_op a) outv v) in P3. destruct (outs (a_op a) outv v); auto. destruct P3 as (A & _ & B). auto.
Qed.
Print Assumptions C49_apply_add.
(** Apply overwrites the outputs with these values. *)
Theorem C49_apply : forall (R : Rng) k Jmin junk chk D CB (a : atop R) vc0 im vm inv outv,
  atp_wf R D CB a k Jmin chk -> mem_ok vm -> aim_ok R chk D CB a im vm -> vc_ok R CB vc0 -> at_vec_len R D a vm inv outv ->
  exists im' vm', atp_apply k junk chk D CB a vc0 im vm inv outv = Ok (im', vm') /\ aim_ok R chk D CB a im' vm' /\ mem_ok vm' /\
    forall v,
      if outs (a_op a) outv v
      then vv_len (vm' v) = vv_len (vm v) /\ exists x', vv_data (vm' v) = Some x' /\ length x' = vv_len (vm v) /\ forall q, vf x' q = at_added R D CB a vm inv outv v q
      else vm' v = vm v.
Proof. intros. apply atp_apply_ok with (Jmin := Jmin); auto. Qed.
Print Assumptions C49_apply.

(** ** histories *)
Section History.
Variable R : Rng.
Variable k : kernel R.
Variable junk : nat -> nat -> R.
Variable chk : bool.
Variable D : nat -> pdesc.
Variable CB : nat -> tbasis R.
Variable a : atop R.
Variables vc0 vc1 : nat -> list R.
Definition astep (st : aimpl R * vmem R) (e : event R) : res (aimpl R * vmem R) :=
  match e with
  | EAdd i v => atp_apply_add k junk chk D CB a vc0 (fst st) (snd st) i v
  | EApply i v => atp_apply k junk chk D CB a vc0 (fst st) (snd st) i v
  | _ => Ok (fst st, vec_event R e (snd st))
  end.
Fixpoint arun (st : aimpl R * vmem R) (h : list (event R)) : res (aimpl R * vmem R) :=
  match h with [] => Ok st | e :: h => st' <~ astep st e ;; arun st' h end.
(** with a new operator, and other contents of vec_chebyshev, for every application *)
Definition astep0 (vm : vmem R) (e : event R) : res (vmem R) :=
  match e with
  | EAdd i v => r <~ atp_apply_add k junk chk D CB a vc1 None vm i v ;; Ok (snd r)
  | EApply i v => r <~ atp_apply k junk chk D CB a vc1 None vm i v ;; Ok (snd r)
  | _ => Ok (vec_event R e vm)
  end.
Fixpoint arun0 (vm : vmem R) (h : list (event R)) : res (vmem R) :=
  match h with [] => Ok vm | e :: h => vm' <~ astep0 vm e ;; arun0 vm' h end.
Definition aevent_ok (vm : vmem R) (e : event R) : Prop :=
  match e with
  | ESet v x => length x = vv_len (vm v)
  | ETake v => True
  | EAdd i v => at_vec_ok R D a vm i v
  | EApply i v => at_vec_len R D a vm i v
  end.
Fixpoint ahist_ok (vm : vmem R) (h : list (event R)) : Prop :=
  match h with [] => True | e :: h => aevent_ok vm e /\ forall vm', astep0 vm e = Ok vm' -> ahist_ok vm' h end.
Lemma alike_at_has : forall vm vm' f act ex, alike R vm vm' -> at_has R D vm f act ex -> at_has R D vm' f act ex.
Proof. intros vm vm' f act ex H (v & x & T & Dx & Lx). exists v, x. destruct (H v) as (_ & E). rewrite <- E. auto. Qed.
Lemma alike_aev : forall vm vm' e, alike R vm vm' -> aevent_ok vm e -> aevent_ok vm' e.
Proof.
  intros vm vm' [v x|v|i v|i v] H; simpl; auto.
  - destruct (H v) as (E & _). rewrite E. auto.
  - intros (H1 & H2 & (x & Hx & Lx) & H4). split; [|split; [|split; [|exact H4]]].
    + intros; eapply alike_at_has; eauto.
    + intros; eapply alike_at_has; eauto.
    + exists x. destruct (H (a_xvec a)) as (_ & E). rewrite <- E. auto.
  - intros (H1 & H2 & (x & Hx & Lx) & H4). split; [|split; [|split; [|exact H4]]].
    + intros; eapply alike_at_has; eauto.
    + intros j Hj. destruct (H2 j Hj) as (w & T & L). exists w. destruct (H w) as (E & _). rewrite <- E. auto.
    + exists x. destruct (H (a_xvec a)) as (_ & E). rewrite <- E. auto.
Qed.
Lemma alike_xcont : forall vm vm', alike R vm vm' -> xcont R a vm = xcont R a vm'.
Proof. intros vm vm' H. unfold xcont. destruct (H (a_xvec a)) as (_ & E). rewrite E. reflexivity. Qed.

(** Keeping the backend data (E-vectors, vector states, vec_chebyshev) from one application to the next has the effect of starting afresh. *)
Theorem C49_history : forall Jmin h im vm vm0, atp_wf R D CB a k Jmin chk -> vc_ok R CB vc0 -> vc_ok R CB vc1 ->
  mem_ok vm -> mem_ok vm0 -> alike R vm vm0 -> aim_ok R chk D CB a im vm -> ahist_ok vm0 h ->
  exists im' vm' vm0', arun (im, vm) h = Ok (im', vm') /\ arun0 vm0 h = Ok vm0' /\ alike R vm' vm0' /\ aim_ok R chk D CB a im' vm' /\ mem_ok vm' /\ mem_ok vm0'.
Proof.
  intros Jmin h im vm vm0 Hwf Hc0 Hc1. revert im vm vm0. induction h as [|e h IH]; intros im vm vm0 Hm Hm0 Hal Hi Hh.
  - exists im, vm, vm0. simpl. auto 10.
  - destruct Hh as (He & Hh). cbn [arun arun0].
    assert (Hst : exists im1 vm1 vm01, astep (im, vm) e = Ok (im1, vm1) /\ astep0 vm0 e = Ok vm01 /\ alike R vm1 vm01 /\ aim_ok R chk D CB a im1 vm1 /\ mem_ok vm1 /\ mem_ok vm01).
    { destruct e as [v x|v|i v|i v]; simpl in He.
      - exists im, (vec_event R (ESet v x) vm), (vec_event R (ESet v x) vm0). split; auto. split; auto.
        assert (Hmm : forall m : vmem R, mem_ok m -> length x = vv_len (m v) -> mem_ok (vec_event R (ESet v x) m)).
        { intros m Hmm Hx w. simpl. unfold vset. destruct (Nat.eqb_spec w v) as [->|]; [|apply Hmm]. destruct (Hmm v) as (A & B & C). simpl. split; [lia|]. split; [lia|]. intros y E. inversion E; subst. auto. }
        destruct (Hal v) as (El & _). split; [|split; [|split; [apply Hmm; auto; lia|apply Hmm; auto]]].
        + intros w. simpl. unfold vset. destruct (Nat.eqb_spec w v) as [->|]; [|apply Hal]. simpl. auto.
        + eapply aim_fresh; [|exact Hi]. intros w. simpl. unfold vset. destruct (Nat.eqb_spec w v) as [->|]; auto. simpl. right. lia.
      - exists im, (vec_event R (ETake v) vm), (vec_event R (ETake v) vm0). split; auto. split; auto.
        assert (Hmm : forall m : vmem R, mem_ok m -> mem_ok (vec_event R (ETake v) m)).
        { intros m Hmm w. simpl. unfold vset. destruct (Nat.eqb_spec w v) as [->|]; [|apply Hmm]. destruct (Hmm v) as (A & B & C). simpl. split; auto. split; auto. discriminate. }
        destruct (Hal v) as (El & _). split; [|split; [|split; auto]].
        + intros w. simpl. unfold vset. destruct (Nat.eqb_spec w v) as [->|]; [|apply Hal]. simpl. auto.
        + destruct im as [((rx, s), d)|]; auto. destruct Hi as (H1 & H3). split; auto. intros j w Hj Hmo Hf Hw.
          destruct (H3 j w Hj Hmo Hf Hw) as (A & B). simpl. unfold vset. destruct (Nat.eqb_spec w v) as [->|]; [|auto]. simpl. split; auto. discriminate.
      - assert (He' : aevent_ok vm (EAdd i v)). { apply (alike_aev vm0 vm (EAdd i v)); auto. intros w. destruct (Hal w). auto. }
        destruct (C49_apply_add R k Jmin junk chk D CB a vc0 im vm i v Hwf Hm Hi Hc0 He') as (im1 & vm1 & E1 & I1 & M1 & G1).
        destruct (C49_apply_add R k Jmin junk chk D CB a vc1 None vm0 i v Hwf Hm0 I Hc1 He) as (im2 & vm2 & E2 & I2 & M2 & G2).
        exists im1, vm1, vm2. split; auto. split. { unfold astep0. rewrite E2. reflexivity. } split; [|auto].
        intros w. destruct (Hal w) as (Lw & Dw). specialize (G1 w). specialize (G2 w). destruct (outs (a_op a) v w).
        + destruct G1 as (A1 & x & x1 & B1 & B2 & B3 & B4). destruct G2 as (A2 & y & y1 & C1 & C2 & C3 & C4).
          split; [congruence|]. rewrite B1, C1 in Dw. inversion Dw; subst y. rewrite B2, C2. f_equal. apply vf_ext; [congruence|].
          intros q Hq. rewrite B4, C4. f_equal. apply at_added_ext; [|apply alike_xcont; auto]. intros f Hf Hmf. apply alike_contents. auto.
        + rewrite G1, G2. auto.
      - assert (He' : aevent_ok vm (EApply i v)). { apply (alike_aev vm0 vm (EApply i v)); auto. intros w. destruct (Hal w). auto. }
        destruct (C49_apply R k Jmin junk chk D CB a vc0 im vm i v Hwf Hm Hi Hc0 He') as (im1 & vm1 & E1 & I1 & M1 & G1).
        destruct (C49_apply R k Jmin junk chk D CB a vc1 None vm0 i v Hwf Hm0 I Hc1 He) as (im2 & vm2 & E2 & I2 & M2 & G2).
        exists im1, vm1, vm2. split; auto. split. { unfold astep0. rewrite E2. reflexivity. } split; [|auto].
        intros w. destruct (Hal w) as (Lw & Dw). specialize (G1 w). specialize (G2 w). destruct (outs (a_op a) v w).
        + destruct G1 as (A1 & x1 & B2 & B3 & B4). destruct G2 as (A2 & y1 & C2 & C3 & C4).
          split; [congruence|]. rewrite B2, C2. f_equal. apply vf_ext; [congruence|].
          intros q Hq. rewrite B4, C4. apply at_added_ext; [|apply alike_xcont; auto]. intros f Hf Hmf. apply alike_contents. auto.
        + rewrite G1, G2. auto. }
    destruct Hst as (im1 & vm1 & vm01 & E1 & E2 & P1 & P2 & P3 & P4). rewrite E1, E2. cbn [rbind].
    apply (IH im1 vm1 vm01); auto.
Qed.
End History.
Print Assumptions C49_history.

(** ** Example: two elements with two and one points, bilinear basis in two dimensions, four inputs (weight, values and gradient of
    the active vector, passive data on the points), three outputs (two sharing their E-vector, one on the points) *)
Definition at_D (i : nat) : pdesc :=
  match i with
  | 0 => PStd (mkU 2 4 1 1%Z 6 (UStandard [0;1;2;3; 2;3;4;5]%Z))
  | 1 => PPts 2 3 2 6 pts_ex
  | 2 => PPts 2 3 1 3 pts_ex
  | 3 => PPts 2 2 2 6 [3; 5; 5;  2; 0]%Z
  | 4 => PPts 2 2 1 3 [3; 5; 5;  2; 0]%Z
  | _ => PStd (mkU 2 3 1 1%Z 6 (UStandard [0;1;2; 3;4;5]%Z))
  end.
Definition at_CB (b : nat) : tbasis Zrng := ex_pc.
Definition gz2 (l : list (list Z)) (i c : nat) : Z := nth c (nth i l []) 0%Z.
Definition at_pt (ins : list (list Zrng)) : list (list Zrng) :=
  [[gz2 ins 1 0 * gz2 ins 3 0 + gz2 ins 0 0]; [gz2 ins 3 0 * gz2 ins 2 0; gz2 ins 1 0 + gz2 ins 2 1]; [gz2 ins 1 0 * gz2 ins 1 0]]%Z.
Definition at_ex_op : oper Zrng := mkOp
  [mkOF 1 EvWeight None (Some (BT PointsProps.ex_pt)) VNo; mkOF 1 EvInterp (Some 0) (Some (BT PointsProps.ex_pt)) VAct; mkOF 2 EvGrad (Some 0) (Some (BT PointsProps.ex_pt)) VAct;
   mkOF 1 EvNone (Some 2) None (VPas 3)]
  [mkOF 1 EvInterp (Some 0) (Some (BT PointsProps.ex_pt)) VAct; mkOF 2 EvGrad (Some 0) (Some (BT PointsProps.ex_pt)) VAct; mkOF 1 EvNone (Some 2) None (VPas 4)] 2 2 false 1 at_pt.
Definition at_ex : atop Zrng := mkAt at_ex_op [0;0;0;0] [0;0;0] 1 0.
Definition at_vm : vmem Zrng := fun v => match v with
  | 0 => mkVV 6 (Some [1;0; 0;1; -1;1]%Z) 2%Z | 1 => mkVV 6 (Some [1;-2;3;5;7;-1]%Z) 4%Z | 2 => mkVV 6 (Some [10;20;30;40;50;60]%Z) 6%Z
  | 3 => mkVV 3 (Some [2;3;-1]%Z) 2%Z | 4 => mkVV 3 (Some [100;200;300]%Z) 2%Z | _ => mkVV 0 None 0%Z end.
Definition at_vc (b : nat) : list Zrng := [9;8;7;6]%Z.

Lemma at_pok : points_ok 2 3 2 6 pts_ex /\ points_ok 2 3 1 3 pts_ex.
Proof.
  split; [apply pts_ex_ok|].
  unfold points_ok. repeat split; try (simpl; lia); try reflexivity.
  - intros e He. destruct e as [|[|e]]; try lia; vm_compute; discriminate.
  - destruct k as [|[|[|[|[|[|k]]]]]]; try lia; vm_compute; discriminate.
  - destruct k as [|[|[|[|[|[|k]]]]]]; try lia; simpl; lia.
Qed.
Lemma at_rwf0 : forall a : atop Zrng, o_ne (a_op a) = 2 -> p_rstr_wf Zrng a true (at_D 0).
Proof.
  intros a Ha. simpl. rewrite Ha. split; [reflexivity|]. split.
  { intros el kk m Hel Hk Hm. simpl in Hel, Hk, Hm. do 2 (destruct el as [|el]; [do 1 (destruct kk as [|kk]; [do 4 (destruct m as [|m]; [vm_compute; intuition congruence|]); lia|]); lia|]); lia. }
  split; [exact I|]. split; [eexists; reflexivity|reflexivity].
Qed.
Lemma at_pt_wf : b_wf 2 (BT PointsProps.ex_pt) /\ b_wf 2 (BT ex_pc) /\ cheb_basis PointsProps.ex_pt ex_pc.
Proof. destruct C43_ex as (A & B & C & _). auto. Qed.
Lemma at_basis_wf : forall (a : atop Zrng) m v n, o_ne (a_op a) = 2 -> a_rpts a = 1 -> m = EvInterp /\ n = 1 \/ m = EvGrad /\ n = 2 ->
  at_field_wf Zrng at_D at_CB a 2 true (mkOF n m (Some 0) (Some (BT PointsProps.ex_pt)) v) 0.
Proof.
  intros a m v n Ha Hr Hm. destruct at_pt_wf as (_ & B & C).
  assert (H : is_pts (at_D 0) = false /\ p_rstr_wf Zrng a true (at_D 0)). { split; [reflexivity|]. apply at_rwf0. auto. }
  destruct H as (H1 & H2). destruct Hm as [(-> & ->)|(-> & ->)]; unfold at_field_wf; cbn [f_mode f_rstr f_basis f_size]; rewrite Hr;
    (split; [discriminate|]); (split; [exact H1|]); (split; [exact H2|]); (split; [reflexivity|]); (split; [exact B|]); (split; [exact C|]); repeat split; simpl; lia.
Qed.
Lemma at_none_wf : forall (a : atop Zrng) v, o_ne (a_op a) = 2 -> a_rpts a = 1 -> at_field_wf Zrng at_D at_CB a 2 true (mkOF 1 EvNone (Some 2) None v) 0.
Proof.
  intros a v Ha Hr. unfold at_field_wf, pts. cbn [f_mode f_rstr f_basis f_size pd]. rewrite Hr. split; [discriminate|]. split; [reflexivity|]. split.
  { simpl. rewrite Ha. split; [apply at_pok|reflexivity]. } split; reflexivity.
Qed.
Lemma at_weight_wf : forall (a : atop Zrng), at_field_wf Zrng at_D at_CB a 2 true (mkOF 1 EvWeight None (Some (BT PointsProps.ex_pt)) VNo) 0.
Proof. intros a. unfold at_field_wf. cbn [f_mode f_size f_rstr f_vec f_basis]. repeat split; try discriminate. eauto. Qed.
Ltac at_field := first [apply at_weight_wf | apply at_basis_wf; auto; fail | apply at_none_wf; auto; fail].
Ltac at_fields i := let Hi := fresh "Hi" in intros i Hi; simpl in Hi; repeat first [lia | destruct i as [|i]; [try (split; [|discriminate]); unfold fld; cbn [nth o_in o_out a_op a_bin a_bout at_ex at_ex_op]; at_field|]].
Ltac at_pairs i j := let Hij := fresh "Hij" in let Hs := fresh "Hs" in intros i j Hij Hs; simpl in Hij; destruct i as [|[|[|[|i]]]]; try lia; destruct j as [|[|[|[|j]]]]; try lia; try discriminate Hs; split; simpl; try discriminate; reflexivity.
Ltac at_has v := exists v; eexists; split; [reflexivity|]; split; [reflexivity|]; simpl; lia.
Lemma at_ex_wf : atp_wf Zrng at_D at_CB at_ex (@contract_avx Zrng) 2 true.
Proof.
  constructor.
  - simpl; lia.
  - apply avx_ok.
  - apply kernel_pt_avx.
  - split; [reflexivity|]. simpl. split; [apply at_pok|reflexivity].
  - intros e He. simpl in He. destruct e as [|[|e]]; [| |lia]; vm_compute; lia.
  - at_fields i.
  - at_fields i.
  - split; reflexivity.
  - at_pairs i j.
  - at_pairs i j.
  - discriminate.
  - intros _. split; [simpl; lia|]. intros e He. apply Nat.mod_1_r.
Qed.
Lemma at_mem_ok : mem_ok at_vm.
Proof. intros [|[|[|[|[|v]]]]]; simpl; (split; [lia|]); split; try lia; try discriminate; auto; intros x E; inversion E; reflexivity. Qed.
Example C49_ex : atp_wf Zrng at_D at_CB at_ex (@contract_avx Zrng) 2 true /\ mem_ok at_vm /\ vc_ok Zrng at_CB at_vc /\
  at_vec_ok Zrng at_D at_ex at_vm (Some 1) (Some 2) /\ at_vec_len Zrng at_D at_ex at_vm (Some 1) (Some 2) /\
  map (at_added Zrng at_D at_CB at_ex at_vm (Some 1) (Some 2) 2) (seq 0 6) = [697; 1008; 3458; 4616; 3206; 4108]%Z /\
  map (at_added Zrng at_D at_CB at_ex at_vm (Some 1) (Some 2) 4) (seq 0 3) = [2809; 3481; 225]%Z.
Proof.
  split; [apply at_ex_wf|]. split; [apply at_mem_ok|]. split; [intros b; reflexivity|].
  assert (Hi : forall i, i < 4 -> f_mode (fld (o_in at_ex_op) i) <> EvWeight -> at_has Zrng at_D at_vm (fld (o_in at_ex_op) i) (Some 1) (is_active (fld (o_in at_ex_op) i))).
  { intros i Hi Hm. destruct i as [|[|[|[|i]]]]; try lia; [exfalso; apply Hm; reflexivity|at_has 1|at_has 1|at_has 3]. }
  split; [|split; [|split; vm_compute; reflexivity]].
  - split; [exact Hi|]. split. { intros i H. simpl in H. destruct i as [|[|[|i]]]; try lia; [at_has 2|at_has 2|at_has 4]. }
    split. { eexists. split; [reflexivity|]. simpl. lia. } split.
    + intros i j Hi' _ Hj. simpl in Hj. destruct j as [|[|[|j]]]; try lia; discriminate.
    + intros j Hj. simpl in Hj. destruct j as [|[|[|j]]]; try lia; discriminate.
  - split; [exact Hi|]. split. { intros i H. simpl in H. destruct i as [|[|[|i]]]; try lia; [exists 2|exists 2|exists 4]; (split; [reflexivity|]); simpl; lia. }
    split. { eexists. split; [reflexivity|]. simpl. lia. } split; [|reflexivity].
    intros f v Hf Hm Ht. simpl in Hf. repeat match type of Hf with _ \/ _ => destruct Hf as [Hf|Hf] | False => destruct Hf end; subst f; try discriminate Ht; inversion Ht; subst v; reflexivity.
Qed.
Definition aout (r : res (aimpl Zrng * vmem Zrng)) (v : nat) : option (list Z) := match r with Ok (_, vm) => vv_data (vm v) | _ => None end.
Definition at_add := atp_apply_add (@contract_avx Zrng) junkZ true at_D at_CB.
Example C49_ex_run : aout (at_add at_ex at_vc None at_vm (Some 1) (Some 2)) 2 = Some [707; 1028; 3488; 4656; 3256; 4168]%Z /\
  aout (at_add at_ex at_vc None at_vm (Some 1) (Some 2)) 4 = Some [2909; 3681; 525]%Z /\
  aout (atp_apply (@contract_avx Zrng) junkZ true at_D at_CB at_ex at_vc None at_vm (Some 1) (Some 2)) 4 = Some [2809; 3481; 225]%Z.
Proof. repeat split; vm_compute; reflexivity. Qed.
(** a history: apply, change the passive input and the points, take the passive input away and give a new one, add twice *)
Definition at_hist : list (event Zrng) :=
  [EApply (Some 1) (Some 2); ESet 3 [1;1;4]%Z; EAdd (Some 1) (Some 2); ESet 0 [0;0; 1;1; 0;-1]%Z; ETake 3; ESet 3 [2;0;5]%Z; EAdd (Some 1) (Some 2); EAdd (Some 1) (Some 2)].
Definition some_len (vm : vmem Zrng) (v n : nat) : bool := match vv_data (vm v) with Some x => length x =? n | None => false end.
Definition aev (vm : vmem Zrng) (e : event Zrng) : bool :=
  match e with
  | ESet v x => length x =? vv_len (vm v)
  | ETake v => true
  | EAdd (Some 1) (Some 2) => some_len vm 0 6 && some_len vm 1 6 && some_len vm 2 6 && some_len vm 3 3 && some_len vm 4 3
  | EApply (Some 1) (Some 2) => some_len vm 0 6 && some_len vm 1 6 && some_len vm 3 3 && (vv_len (vm 2) =? 6) && (vv_len (vm 4) =? 3)
  | _ => false
  end.
Lemma some_len_ok : forall vm v n, some_len vm v n = true -> exists x, vv_data (vm v) = Some x /\ length x = n.
Proof. intros vm v n H. unfold some_len in H. destruct (vv_data (vm v)) as [x|]; [|discriminate]. exists x. split; auto. apply Nat.eqb_eq. auto. Qed.
Ltac at_has' v X := let x := fresh in let E := fresh in let L := fresh in destruct X as (x & E & L); exists v, x; split; [reflexivity|]; split; [exact E|]; cbn; first [exact L | exact (Nat.eq_le_incl _ _ (eq_sym L))].
Lemma aev_ok : forall vm e, aev vm e = true -> aevent_ok Zrng at_D at_ex vm e.
Proof.
  intros vm [v x|v|i v|i v] H; cbn [aev aevent_ok] in *; auto.
  - apply Nat.eqb_eq. auto.
  - destruct i as [[|[|]]|]; try discriminate. destruct v as [[|[|[|]]]|]; try discriminate.
    repeat (apply andb_true_iff in H; destruct H as (H & ?)). apply some_len_ok in H, H0, H1, H2, H3.
    split; [|split; [|split; [|split]]].
    + intros i Hi Hm. simpl in Hi. destruct i as [|[|[|[|i]]]]; try lia; [exfalso; apply Hm; reflexivity|at_has' 1 H3|at_has' 1 H3|at_has' 3 H1].
    + intros i Hi. simpl in Hi. destruct i as [|[|[|i]]]; try lia; [at_has' 2 H2|at_has' 2 H2|at_has' 4 H0].
    + destruct H as (x & E & L). exists x. split; [exact E|]. exact (Nat.eq_le_incl _ _ (eq_sym L)).
    + intros i j Hi' _ Hj. simpl in Hj. destruct j as [|[|[|j]]]; try lia; discriminate.
    + intros j Hj. simpl in Hj. destruct j as [|[|[|j]]]; try lia; discriminate.
  - destruct i as [[|[|]]|]; try discriminate. destruct v as [[|[|[|]]]|]; try discriminate.
    repeat (apply andb_true_iff in H; destruct H as (H & ?)). apply some_len_ok in H, H2, H3. apply Nat.eqb_eq in H0, H1.
    split; [|split; [|split; [|split; [|reflexivity]]]].
    + intros i Hi Hm. simpl in Hi. destruct i as [|[|[|[|i]]]]; try lia; [exfalso; apply Hm; reflexivity|at_has' 1 H3|at_has' 1 H3|at_has' 3 H2].
    + intros i Hi. simpl in Hi. destruct i as [|[|[|i]]]; try lia; [exists 2|exists 2|exists 4]; (split; [reflexivity|]); simpl; lia.
    + destruct H as (x & E & L). exists x. split; [exact E|]. exact (Nat.eq_le_incl _ _ (eq_sym L)).
    + intros f v Hf Hm Ht. simpl in Hf. repeat match type of Hf with _ \/ _ => destruct Hf as [Hf|Hf] | False => destruct Hf end; subst f; try discriminate Ht; inversion Ht; subst v; reflexivity.
Qed.
Definition at_vc1 (b : nat) : list Zrng := [0;0;0;0]%Z.
Definition at_step0 := astep0 Zrng (@contract_avx Zrng) junkZ true at_D at_CB at_ex at_vc1.
Fixpoint ahb (vm : vmem Zrng) (h : list (event Zrng)) : bool :=
  match h with [] => true | e :: h => aev vm e && match at_step0 vm e with Ok vm' => ahb vm' h | _ => true end end.
Lemma ahb_ok : forall h vm, ahb vm h = true -> ahist_ok Zrng (@contract_avx Zrng) junkZ true at_D at_CB at_ex at_vc1 vm h.
Proof.
  induction h as [|e h IH]; intros vm H; simpl in *; auto. apply andb_true_iff in H. destruct H as (H1 & H2).
  split. { apply aev_ok. auto. } intros vm' E. unfold at_step0 in H2. rewrite E in H2. auto.
Qed.
Example C49_ex_hist : ahist_ok Zrng (@contract_avx Zrng) junkZ true at_D at_CB at_ex at_vc1 at_vm at_hist /\ vc_ok Zrng at_CB at_vc1 /\
  aout (arun Zrng (@contract_avx Zrng) junkZ true at_D at_CB at_ex at_vc (None, at_vm) at_hist) 4 = Some [6676; 55012; 468]%Z.
Proof. split; [apply ahb_ok; vm_compute; reflexivity|]. split; [intros b; reflexivity|]. vm_compute. reflexivity. Qed.

(** ** Findings *)
Definition at_gen (ins outs : list (ofield Zrng)) (rp : nat) (id : bool) (pt : list (list Zrng) -> list (list Zrng)) : atop Zrng :=
  mkAt (mkOp ins outs 2 2 id 1 pt) (repeat 0 (length ins)) (repeat 0 (length outs)) rp 0.
Definition at_none (r : nat) (v : vref) : ofield Zrng := mkOF 1 EvNone (Some r) None v.
Definition at_interp (v : vref) : ofield Zrng := mkOF 1 EvInterp (Some 0) (Some (BT PointsProps.ex_pt)) v.
Definition at_vm3 : vmem Zrng := fun v => match v with
  | 0 => mkVV 6 (Some [1;0; 0;1; -1;1]%Z) 2%Z | 1 => mkVV 3 (Some [4;5;6]%Z) 4%Z | 2 => mkVV 3 (Some [0;0;0]%Z) 6%Z | _ => mkVV 0 None 0%Z end.
Definition at_fields_wf (a : atop Zrng) : Prop :=
  (forall i, i < length (o_in (a_op a)) -> at_field_wf Zrng at_D at_CB a 2 true (fld (o_in (a_op a)) i) (nth i (a_bin a) 0)) /\
  (forall i, i < length (o_out (a_op a)) -> at_field_wf Zrng at_D at_CB a 2 true (fld (o_out (a_op a)) i) (nth i (a_bout a) 0)).
Definition aok (r : res (aimpl Zrng * vmem Zrng)) : aimpl Zrng * vmem Zrng := match r with Ok x => x | _ => (None, at_vm) end.
Lemma aok_ok : forall r, (match r with Ok _ => true | _ => false end) = true -> r = Ok (fst (aok r), snd (aok r)).
Proof. intros [(a, b)|e|] H; try discriminate. reflexivity. Qed.
Ltac fw := split; let i := fresh "i" in let Hi := fresh "Hi" in intros i Hi; simpl in Hi; repeat first [lia | destruct i as [|i]; [first [refine (at_none_wf _ VAct _ _); reflexivity | refine (at_basis_wf _ EvInterp VAct 1 _ _ _); auto]|]].
Ltac vec3 := split; [|split; [|split; [|split]]];
  [ intros i Hi Hm; simpl in Hi; repeat first [lia | destruct i as [|i]; [at_has 1|]]
  | intros i Hi; simpl in Hi; repeat first [lia | destruct i as [|i]; [at_has 2|]]
  | eexists; split; [reflexivity|]; simpl; lia
  | intros i j Hi _ Hj; simpl in Hj; repeat first [lia | destruct j as [|j]; [discriminate|]]
  | intros j Hj; simpl in Hj; repeat first [lia | destruct j as [|j]; [discriminate|]] ].
(** Finding: of two active CEED_EVAL_NONE inputs with the same restriction the second reads zeros: its Q-vector is the E-vector created for it,
    while the restriction fills that of the first (ceed-ref-operator.c:735-737, 789-791, 911). *)
Theorem C49_inputs_none_refuted : exists (a : atop Zrng) im' vm' x', at_fields_wf a /\ mem_ok at_vm3 /\ at_vec_ok Zrng at_D a at_vm3 (Some 1) (Some 2) /\
  at_add a at_vc None at_vm3 (Some 1) (Some 2) = Ok (im', vm') /\ vv_data (vm' 2) = Some x' /\
  x' = [0;0;0]%Z /\ map (at_added Zrng at_D at_CB a at_vm3 (Some 1) (Some 2) 2) (seq 0 3) = [4;5;6]%Z.
Proof.
  set (a := at_gen [at_none 2 VAct; at_none 2 VAct] [at_none 2 VAct] 1 false (fun ins => [nth 1 ins []])). set (r := at_add a at_vc None at_vm3 (Some 1) (Some 2)).
  exists a, (fst (aok r)), (snd (aok r)). eexists. split; [fw|]. split. { intros [|[|[|v]]]; simpl; (split; [lia|]); split; try lia; try discriminate; auto; intros x E; inversion E; reflexivity. }
  split; [vec3|]. split; [apply aok_ok; vm_compute; reflexivity|]. split; [vm_compute; reflexivity|]. split; vm_compute; reflexivity.
Qed.
(** Finding: of two CEED_EVAL_NONE outputs with the same vector and restriction one contribution is lost. *)
Theorem C49_outputs_none_refuted : exists (a : atop Zrng) im' vm' x', at_fields_wf a /\ mem_ok at_vm3 /\ at_vec_ok Zrng at_D a at_vm3 (Some 1) (Some 2) /\
  at_add a at_vc None at_vm3 (Some 1) (Some 2) = Ok (im', vm') /\ vv_data (vm' 2) = Some x' /\
  x' = [4;5;6]%Z /\ map (at_added Zrng at_D at_CB a at_vm3 (Some 1) (Some 2) 2) (seq 0 3) = [8;10;12]%Z.
Proof.
  set (a := at_gen [at_none 2 VAct] [at_none 2 VAct; at_none 2 VAct] 1 false (fun ins => [nth 0 ins []; nth 0 ins []])). set (r := at_add a at_vc None at_vm3 (Some 1) (Some 2)).
  exists a, (fst (aok r)), (snd (aok r)). eexists. split; [fw|]. split. { intros [|[|[|v]]]; simpl; (split; [lia|]); split; try lia; try discriminate; auto; intros x E; inversion E; reflexivity. }
  split; [vec3|]. split; [apply aok_ok; vm_compute; reflexivity|]. split; [vm_compute; reflexivity|]. split; vm_compute; reflexivity.
Qed.
Definition at_vm6 : vmem Zrng := fun v => match v with
  | 0 => mkVV 6 (Some [1;0; 0;1; -1;1]%Z) 2%Z | 1 => mkVV 3 (Some [4;5;6]%Z) 4%Z | 2 => mkVV 6 (Some [0;0;0;0;0;0]%Z) 6%Z | _ => mkVV 0 None 0%Z end.
(** Finding: an identity QFunction with a basis on its output: the E-vector of the output is replaced by the Q-vector of the input
    (ceed-ref-operator.c:876-879), which in general has another length; the application fails. *)
Theorem C49_identity_refuted : exists a : atop Zrng, at_fields_wf a /\ o_ident (a_op a) = true /\ mem_ok at_vm6 /\ at_vec_ok Zrng at_D a at_vm6 (Some 1) (Some 2) /\
  at_add a at_vc None at_vm6 (Some 1) (Some 2) = Err ERR_BACKEND.
Proof.
  exists (at_gen [at_none 2 VAct] [at_interp VAct] 1 true (fun ins => ins)). split; [fw|]. split; [reflexivity|].
  split. { intros [|[|[|v]]]; simpl; (split; [lia|]); split; try lia; try discriminate; auto; intros x E; inversion E; reflexivity. }
  split; [vec3|]. vm_compute. reflexivity.
Qed.
Definition at_vm7 : vmem Zrng := fun v => match v with
  | 0 => mkVV 6 (Some [1;0; 0;1; -1;1]%Z) 2%Z | 1 => mkVV 6 (Some [1;-2;3;5;7;-1]%Z) 4%Z | 2 => mkVV 6 (Some [0;0;0;0;0;0]%Z) 6%Z | _ => mkVV 0 None 0%Z end.
(** Finding: in an element without points the transposed basis action uses the Chebyshev coefficients left by the element before
    (CeedBasisApplyAtPoints with num_points 0 does not reset vec_chebyshev, C43): its nodes receive a contribution although nothing is there. *)
Theorem C49_no_points_refuted : exists (a : atop Zrng) im' vm' x',
  points_ok 2 2 2 6 (p_of (at_D (a_rpts a))) /\ pts Zrng at_D a 1 = 0 /\ mem_ok at_vm7 /\ at_vec_ok Zrng at_D a at_vm7 (Some 1) (Some 2) /\
  at_add a at_vc1 None at_vm7 (Some 1) (Some 2) = Ok (im', vm') /\ vv_data (vm' 2) = Some x' /\
  at_added Zrng at_D at_CB a at_vm7 (Some 1) (Some 2) 2 5 = 0%Z /\ vf x' 5 <> 0%Z.
Proof.
  set (a := at_gen [at_interp VAct] [at_interp VAct] 3 false (fun ins => ins)). set (r := at_add a at_vc1 None at_vm7 (Some 1) (Some 2)).
  exists a, (fst (aok r)), (snd (aok r)). eexists. split.
  { unfold points_ok. repeat split; try (simpl; lia); try reflexivity.
    - intros e He. destruct e as [|[|e]]; try lia; vm_compute; discriminate.
    - destruct k as [|[|[|[|[|k]]]]]; try lia; vm_compute; discriminate.
    - destruct k as [|[|[|[|[|k]]]]]; try lia; simpl; lia. }
  split; [reflexivity|]. split. { intros [|[|[|v]]]; simpl; (split; [lia|]); split; try lia; try discriminate; auto; intros x E; inversion E; reflexivity. }
  split; [vec3|]. split; [apply aok_ok; vm_compute; reflexivity|]. split; [vm_compute; reflexivity|]. split; [vm_compute; reflexivity|]. vm_compute. discriminate.
Qed.
Definition at_vm8 : vmem Zrng := fun v => match v with
  | 0 => mkVV 6 (Some [1;0; 0;1; -1;1]%Z) 2%Z | 1 => mkVV 6 (Some [1;2;3;4;5;6]%Z) 4%Z | 2 => mkVV 3 (Some [0;0;0]%Z) 6%Z | _ => mkVV 0 None 0%Z end.
(** Finding: a passive CEED_EVAL_NONE input with a restriction on nodes is accepted (CeedOperatorSetField, ceed-operator.c:922-945) but read at
    the offset of the points: the point of the second element gets the value of the third node of the first. *)
Theorem C49_nodes_none_refuted : exists (a : atop Zrng) im' vm' x', mem_ok at_vm8 /\ at_vec_ok Zrng at_D a at_vm8 None (Some 2) /\
  at_add a at_vc None at_vm8 None (Some 2) = Ok (im', vm') /\ vv_data (vm' 2) = Some x' /\
  p_idx pts_ex 1 0 = 1 /\ gather Zrng (at_D 5) [1;2;3;4;5;6]%Z 1 0 0 = 4%Z /\ vf x' 1 = 3%Z /\ at_added Zrng at_D at_CB a at_vm8 None (Some 2) 2 1 = 4%Z.
Proof.
  set (a := at_gen [at_none 5 (VPas 1)] [at_none 2 VAct] 1 false (fun ins => ins)). set (r := at_add a at_vc None at_vm8 None (Some 2)).
  exists a, (fst (aok r)), (snd (aok r)). eexists. split. { intros [|[|[|v]]]; simpl; (split; [lia|]); split; try lia; try discriminate; auto; intros x E; inversion E; reflexivity. }
  split; [vec3|]. split; [apply aok_ok; vm_compute; reflexivity|]. repeat split; vm_compute; reflexivity.
Qed.
Print Assumptions C49_inputs_none_refuted. Print Assumptions C49_outputs_none_refuted. Print Assumptions C49_identity_refuted.
Print Assumptions C49_no_points_refuted. Print Assumptions C49_nodes_none_refuted.
