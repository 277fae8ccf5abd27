(** * Property C44: operators on the optimised CPU backends *)
From Coq Require Import List ZArith Lia Bool Arith Permutation.
From Verif Require Import Prelude RstrModel RstrSpec RstrProofs RstrProps TensorModel TensorMain BasisModel BasisProofs BasisMain BasisApply BasisProps Digits OpModel OpSpec OpLists OpProofs OpMain OpTree OpProps OptModel OptProofs OptMain.
Import ListNotations.

Section Interface.
Variable R : Rng.
Add Ring Rr : (r_th R).
Local Open Scope nat_scope.
Variable k : kernel R.
Variable Jmin : nat.
Variable junk : nat -> nat -> R.
Variable chk : bool.
Variable D : nat -> udesc.
Variable bs : option nat.

(** the vectors of an application on the optimised backends: active vectors have exactly the length of the L-vector,
    and the active input is not written (findings below) *)
Definition exact (o : oper R) (vm : vmem R) (inv outv : option nat) : Prop :=
  (forall f, In f (o_in o) -> f_mode f <> EvWeight -> f_vec f = VAct -> length (contents vm f inv) = u_lsize (rd D f) /\
     forall g, In g (o_out o) -> target g outv <> inv) /\
  (forall f, In f (o_out o) -> length (contents vm f outv) = u_lsize (rd D f)).
(** backend data agrees with the vectors *)
Definition oim_ok (o : oper R) (im : oimpl R) (vm : vmem R) : Prop :=
  match im with None => True | Some (s, x) => stat_ok chk D bs o s /\ slots_ok o s /\ odyn_ok D bs o x /\ cache_ok D bs o (od x) vm end.
Lemma oim_fresh : forall o im vm vm', fresh vm vm' -> oim_ok o im vm -> oim_ok o im vm'.
Proof.
  intros o [(s, d)|] vm vm' Hf H; auto. destruct H as (H1 & H2 & H3 & H4). split; auto. split; auto. split; auto. apply (@cache_mono R D bs o (od d) vm); auto.
Qed.

Lemma opt_add_ok : forall o im (vm : vmem R) inv outv, op_wf D k Jmin chk bs o -> mem_ok vm -> oim_ok o im vm -> vec_ok D o vm inv outv -> exact o vm inv outv ->
  exists im' vm', opt_apply_add k junk chk D bs o im vm inv outv = Ok (im', vm') /\ oim_ok o im' vm' /\ mem_ok vm' /\ adds D o vm inv outv vm'.
Proof.
  intros o im vm inv outv Hwf Hm Hi Hv (X1 & X2). unfold opt_apply_add. pose proof (ow_ne Hwf) as Hne. apply Nat.ltb_lt in Hne. rewrite Hne.
  assert (Hsd : exists s x, match im with Some sd => Ok sd | None => opt_setup k junk chk D bs o end = Ok (s, x) /\ stat_ok chk D bs o s /\ slots_ok o s /\ odyn_ok D bs o x /\ cache_ok D bs o (od x) vm).
  { destruct im as [(s, x)|].
    - destruct Hi as (H1 & H2 & H3). exists s, x. auto.
    - destruct (opt_setup_ok junk Hwf) as (s & x & E & H1 & H1' & H2 & H3). exists s, x. split; auto. split; auto. split; auto. split; auto.
      intros i v Hin Hmo Hf Hve. rewrite H3 by auto. destruct (Hm v) as (M1 & M2 & _). split; auto.
      intros E0 u Hu. rewrite M2 in Hu by auto. discriminate. }
  destruct Hsd as (s & x & E & Hs & Hsl & Hd & Hc). rewrite E. cbn [rbind fst snd].
  destruct (@opt_apply_be_ok R k Jmin junk chk D bs o Hwf s Hs Hsl vm inv outv Hv) with (x := x) as (x' & vm' & E' & P1 & P2 & P3); auto.
  { intros i Hin Hmo Ha. apply (X1 (fld (o_in o) i)); auto. apply nth_In. auto. }
  { intros j Hj. apply X2. apply nth_In. auto. }
  { intros i j Hin Hmo Ha Hj. apply (X1 (fld (o_in o) i)); auto; apply nth_In; auto. }
  rewrite E'. cbn [rbind fst snd]. eexists. eexists. split; [reflexivity|]. split; [split; auto|]. split; auto. eapply adds_mem; eauto.
Qed.

Lemma opt_apply_ok : forall o im (vm : vmem R) inv outv, op_wf D k Jmin chk bs o -> mem_ok vm -> oim_ok o im vm -> vec_len D o vm inv outv -> apart o inv outv ->
  (forall f, In f (o_in o) -> f_mode f <> EvWeight -> f_vec f = VAct -> length (contents vm f inv) = u_lsize (rd D f)) ->
  (forall f v, In f (o_out o) -> target f outv = Some v -> vv_len (vm v) = u_lsize (rd D f)) ->
  exists im' vm', opt_apply k junk chk D bs o im vm inv outv = Ok (im', vm') /\ oim_ok o im' vm' /\ mem_ok vm' /\ sets D o vm inv outv vm'.
Proof.
  intros o im vm inv outv Hwf Hm Hi (Hv1 & Hv2) Hap HX1 HX2. unfold opt_apply.
  set (vz := fold_left (fun vm f => zero_target outv f vm) (o_out o) vm).
  assert (Hz : zeroed vm (outs o outv) vz).
  { assert (H0 : zeroed vm (fun _ => false) vm) by (intros v; auto).
    exact (@zero_fields R (o_out o) outv vm (fun _ => false) vm H0). }
  pose proof (contents_apart Hap Hz) as Hc.
  assert (Ho' : forall f v, In f (o_out o) -> target f outv = Some v -> outs o outv v = true).
  { intros f v Hf Hv. apply existsb_exists. exists f. split; auto. rewrite Hv. simpl. apply Nat.eqb_refl. }
  assert (Hvec : vec_ok D o vz inv outv).
  { split.
    - intros i Hin Hmo. destruct (Hv1 i Hin Hmo) as (v & x & T & Dx & Lx). exists v, x. split; auto. split; auto.
      specialize (Hz v). rewrite (Hap (fld (o_in o) i) v) in Hz; auto. rewrite Hz; auto. apply nth_In. auto.
    - intros i Hio. destruct (Hv2 i Hio) as (v & T & Lx). exists v, (repeat 0%R (vv_len (vm v))).
      assert (Ho : outs o outv v = true). { apply (Ho' (fld (o_out o) i)); auto. apply nth_In. auto. }
      specialize (Hz v). rewrite Ho in Hz. destruct Hz as (A & B & _). split; auto. split; auto. rewrite repeat_length. auto. }
  assert (Hex : exact o vz inv outv).
  { split.
    - intros f Hf Hmo Ha. split. { rewrite Hc by auto. apply HX1; auto. }
      intros g Hg Eg. destruct (In_nth _ _ (mkOF 0 EvNone None None VNo) Hf) as (i & Hin & Ei).
      destruct (Hv1 i Hin) as (v & x & T & _). { unfold fld. rewrite Ei. auto. }
      assert (Et : target f inv = Some v). { rewrite <- Ei. exact T. }
      pose proof (Hap f v Hf Hmo Et) as Hn. rewrite (Ho' g v Hg) in Hn; [discriminate|]. rewrite Eg. unfold target in Et. rewrite Ha in Et. auto.
    - intros f Hf. destruct (In_nth _ _ (mkOF 0 EvNone None None VNo) Hf) as (i & Hio & Ei). destruct (Hv2 i Hio) as (v & T & _). unfold fld in T. rewrite Ei in T.
      unfold contents. rewrite T. specialize (Hz v). rewrite (Ho' f v Hf T) in Hz. destruct Hz as (A & B & _). rewrite B, repeat_length. apply HX2; auto. }
  destruct (@opt_add_ok o im vz inv outv Hwf) as (im' & vm' & E & P1 & P2 & P3); auto.
  { eapply zeroed_mem; eauto. } { eapply oim_fresh; eauto. eapply zeroed_fresh; eauto. }
  rewrite E. exists im', vm'. split; auto. split; auto. split; auto. intros v. specialize (P3 v). specialize (Hz v).
  fold (outs o outv v) in P3. destruct (outs o outv v).
  - destruct Hz as (A & B & C). destruct P3 as (A1 & B1 & x & x' & C1 & C2 & C3 & C4). rewrite B in C1. inversion C1; subst x.
    split; [lia|]. split; [lia|]. exists x'. rewrite repeat_length in C3. split; auto. split; auto. intros q. rewrite C4, vf_repeat0.
    rewrite (added_ext D o vm vz); [ring|]. intros f Hf Hmf. symmetry. apply Hc; auto.
  - rewrite P3. auto.
Qed.
End Interface.
Arguments exact {R}. Arguments oim_ok {R}.

(** ** C44 *)
(** ApplyAdd on the optimised backends, with or without backend data from earlier applications, adds to every output
    vector the transposed restriction of the integrated QFunction values ([added], OpSpec.v) and changes nothing else. *)
Theorem C44_apply_add : forall (R : Rng) k Jmin junk chk D bs (o : oper R) im vm inv outv,
  op_wf D k Jmin chk bs o -> mem_ok vm -> oim_ok chk D bs o im vm -> vec_ok D o vm inv outv -> exact D o vm inv outv ->
  exists im' vm', opt_apply_add k junk chk D bs o im vm inv outv = Ok (im', vm') /\ oim_ok chk D bs o im' vm' /\ mem_ok vm' /\
    forall v,
      if outs o outv v
      then vv_len (vm' v) = vv_len (vm v) /\ exists x x', vv_data (vm v) = Some x /\ vv_data (vm' v) = Some x' /\ length x' = length x /\
           forall q, vf x' q = (vf x q + added D o vm inv outv v q)%R
      else vm' v = vm v.
Proof.
  intros R k Jmin junk chk D bs o im vm inv outv Hwf Hm Hi Hv Hx.
  destruct (opt_add_ok R k Jmin junk chk D bs o im vm inv outv Hwf Hm Hi Hv Hx) as (im' & vm' & E & P1 & P2 & P3). exists im', vm'. split; auto. split; auto. split; auto.
  intros v. specialize (P3 v). fold (outs o outv v) in P3. destruct (outs o outv v); auto. destruct P3 as (A & _ & B). auto.
Qed.
Print Assumptions C44_apply_add.

(** Apply overwrites the outputs with these values. *)
Theorem C44_apply : forall (R : Rng) k Jmin junk chk D bs (o : oper R) im vm inv outv,
  op_wf D k Jmin chk bs o -> mem_ok vm -> oim_ok chk D bs o im vm -> vec_len D o vm inv outv -> apart o inv outv ->
  (forall f, In f (o_in o) -> f_mode f <> EvWeight -> f_vec f = VAct -> length (contents vm f inv) = u_lsize (rd D f)) ->
  (forall f v, In f (o_out o) -> target f outv = Some v -> vv_len (vm v) = u_lsize (rd D f)) ->
  exists im' vm', opt_apply k junk chk D bs o im vm inv outv = Ok (im', vm') /\ oim_ok chk D bs o im' vm' /\ mem_ok vm' /\
    forall v,
      if outs o outv v
      then vv_len (vm' v) = vv_len (vm v) /\ exists x', vv_data (vm' v) = Some x' /\ length x' = vv_len (vm v) /\ forall q, vf x' q = added D o vm inv outv v q
      else vm' v = vm v.
Proof.
  intros R k Jmin junk chk D bs o im vm inv outv Hwf Hm Hi Hv Ha H1 H2.
  destruct (opt_apply_ok R k Jmin junk chk D bs o im vm inv outv Hwf Hm Hi Hv Ha H1 H2) as (im' & vm' & E & P1 & P2 & P3). exists im', vm'. split; auto. split; auto. split; auto.
  intros v. specialize (P3 v). destruct (outs o outv v); auto. destruct P3 as (A & _ & B). auto.
Qed.
Print Assumptions C44_apply.

(** ** histories: the optimised backend against the reference backend *)
Section History.
Variable R : Rng.
Variables k kr : kernel R.
Variables junk junkr : nat -> nat -> R.
Variables chk chkr : bool.
Variable D : nat -> udesc.
Variable b : nat.
Variable o : oper R.
Definition ostep (st : oimpl R * vmem R) (e : event R) : res (oimpl R * vmem R) :=
  match e with
  | EAdd i v => opt_apply_add k junk chk D (Some b) o (fst st) (snd st) i v
  | EApply i v => opt_apply k junk chk D (Some b) o (fst st) (snd st) i v
  | _ => Ok (fst st, vec_event R e (snd st))
  end.
Fixpoint orun (st : oimpl R * vmem R) (h : list (event R)) : res (oimpl R * vmem R) :=
  match h with [] => Ok st | e :: h => st' <~ ostep st e ;; orun st' h end.
Definition oevent_ok (vm : vmem R) (e : event R) : Prop :=
  match e with
  | ESet v x => length x = vv_len (vm v)
  | ETake v => True
  | EAdd i v => vec_ok D o vm i v /\ exact D o vm i v
  | EApply i v => vec_len D o vm i v /\ apart o i v /\
      (forall f, In f (o_in o) -> f_mode f <> EvWeight -> f_vec f = VAct -> length (contents vm f i) = u_lsize (rd D f)) /\
      (forall f w, In f (o_out o) -> target f v = Some w -> vv_len (vm w) = u_lsize (rd D f))
  end.
(** every application of the history has valid vectors, on the reference backend *)
Fixpoint ohist_ok (vm : vmem R) (h : list (event R)) : Prop :=
  match h with [] => True | e :: h => oevent_ok vm e /\ forall vm', step0 R kr junkr chkr D None o vm e = Ok vm' -> ohist_ok vm' h end.

Lemma alike_oev : forall vm vm' e, alike R vm vm' -> oevent_ok vm e -> oevent_ok vm' e.
Proof.
  intros vm vm' [v x|v|i v|i v] H; simpl; auto.
  - destruct (H v) as (E & _). rewrite E. auto.
  - intros ((H1 & H2) & (H3 & H4)). split. { split; intros; eapply alike_has; eauto. } split.
    + intros f Hf Hm Ha. destruct (H3 f Hf Hm Ha) as (A & B). split; auto. rewrite <- (alike_contents R vm vm'); auto.
    + intros f Hf. rewrite <- (alike_contents R vm vm'); auto.
  - intros ((H1 & H2) & H3 & H4 & H5). split; [|split; [|split]]; auto.
    + split. { intros; eapply alike_has; eauto. } intros j Hj. destruct (H2 j Hj) as (w & T & L). exists w. destruct (H w) as (E & _). rewrite <- E. auto.
    + intros f Hf Hm Ha. rewrite <- (alike_contents R vm vm'); auto.
    + intros f w Hf T. destruct (H w) as (E & _). rewrite <- E. auto.
Qed.

(** From alike vectors, a history on the optimised backend (block size [b]; backend data kept) and the same history on the reference backend
    (a new operator for every application) end with alike vectors. *)
Theorem C44_history : forall Jmin Jr h im vm vm0, op_wf D k Jmin chk (Some b) o -> op_wf D kr Jr chkr None o ->
  mem_ok vm -> mem_ok vm0 -> alike R vm vm0 -> oim_ok chk D (Some b) o im vm -> ohist_ok vm0 h ->
  exists im' vm' vm0', orun (im, vm) h = Ok (im', vm') /\ run0 R kr junkr chkr D None o vm0 h = Ok vm0' /\ alike R vm' vm0' /\ oim_ok chk D (Some b) o im' vm' /\ mem_ok vm' /\ mem_ok vm0'.
Proof.
  intros Jmin Jr h im vm vm0 Hwf Hwr. revert im vm vm0. induction h as [|e h IH]; intros im vm vm0 Hm Hm0 Hal Hi Hh.
  - exists im, vm, vm0. simpl. auto 10.
  - destruct Hh as (He & Hh). cbn [orun run0].
    assert (Hst : exists im1 vm1 vm01, ostep (im, vm) e = Ok (im1, vm1) /\ step0 R kr junkr chkr D None o vm0 e = Ok vm01 /\ alike R vm1 vm01 /\ oim_ok chk D (Some b) o im1 vm1 /\ mem_ok vm1 /\ mem_ok vm01).
    { destruct e as [v x|v|i v|i v]; simpl in He.
      - exists im, (vec_event R (ESet v x) vm), (vec_event R (ESet v x) vm0). split; auto. split; auto.
        assert (Hmm : forall m : vmem R, mem_ok m -> length x = vv_len (m v) -> mem_ok (vec_event R (ESet v x) m)).
        { intros m Hmm Hx w. simpl. unfold vset. destruct (Nat.eqb_spec w v) as [->|]; [|apply Hmm]. destruct (Hmm v) as (A & B & C). simpl. split; [lia|]. split; [lia|]. intros y E. inversion E; subst. auto. }
        destruct (Hal v) as (El & _). split; [|split; [|split; [apply Hmm; auto; lia|apply Hmm; auto]]].
        + intros w. simpl. unfold vset. destruct (Nat.eqb_spec w v) as [->|]; [|apply Hal]. simpl. auto.
        + eapply oim_fresh; [|exact Hi]. intros w. simpl. unfold vset. destruct (Nat.eqb_spec w v) as [->|]; auto. simpl. right. lia.
      - exists im, (vec_event R (ETake v) vm), (vec_event R (ETake v) vm0). split; auto. split; auto.
        assert (Hmm : forall m : vmem R, mem_ok m -> mem_ok (vec_event R (ETake v) m)).
        { intros m Hmm w. simpl. unfold vset. destruct (Nat.eqb_spec w v) as [->|]; [|apply Hmm]. destruct (Hmm v) as (A & B & C). simpl. split; auto. split; auto. discriminate. }
        destruct (Hal v) as (El & _). split; [|split; [|split; auto]].
        + intros w. simpl. unfold vset. destruct (Nat.eqb_spec w v) as [->|]; [|apply Hal]. simpl. auto.
        + destruct im as [(s, d)|]; auto. destruct Hi as (H1 & H2 & H2' & H3). split; auto. split; auto. split; auto. intros j w Hj Hmo Hf Hw.
          destruct (H3 j w Hj Hmo Hf Hw) as (A & B). simpl. unfold vset. destruct (Nat.eqb_spec w v) as [->|]; [|auto]. simpl. split; auto. discriminate.
      - assert (He' : oevent_ok vm (EAdd i v)). { apply (alike_oev vm0 vm (EAdd i v)); auto. intros w. destruct (Hal w). auto. }
        destruct He' as (V' & X'). destruct He as (V0 & X0).
        destruct (C44_apply_add R k Jmin junk chk D (Some b) o im vm i v Hwf Hm Hi V' X') as (im1 & vm1 & E1 & I1 & M1 & G1).
        destruct (C28_apply_add R kr Jr junkr chkr D None o None vm0 i v Hwr Hm0 I V0) as (im2 & vm2 & E2 & I2 & M2 & G2).
        exists im1, vm1, vm2. split; auto. split. { unfold step0. simpl. rewrite E2. reflexivity. } split; [|auto].
        intros w. destruct (Hal w) as (Lw & Dw). specialize (G1 w). specialize (G2 w). destruct (outs o v w).
        + destruct G1 as (A1 & x & x1 & B1 & B2 & B3 & B4). destruct G2 as (A2 & y & y1 & C1 & C2 & C3 & C4).
          split; [congruence|]. rewrite B1, C1 in Dw. inversion Dw; subst y. rewrite B2, C2. f_equal. apply vf_ext; [congruence|].
          assert (Ea : forall q, added D o vm i v w q = added D o vm0 i v w q). { intros q. apply added_ext. intros f Hf Hmf. apply alike_contents. auto. }
          intros q Hq. rewrite B4, C4, Ea. reflexivity.
        + rewrite G1, G2. auto.
      - assert (He' : oevent_ok vm (EApply i v)). { apply (alike_oev vm0 vm (EApply i v)); auto. intros w. destruct (Hal w). auto. }
        destruct He' as (V' & A' & X1 & X2). destruct He as (V0 & _ & _ & _).
        destruct (C44_apply R k Jmin junk chk D (Some b) o im vm i v Hwf Hm Hi V' A' X1 X2) as (im1 & vm1 & E1 & I1 & M1 & G1).
        destruct (C29_apply R kr Jr junkr chkr D None o None vm0 i v Hwr Hm0 I V0 A') as (im2 & vm2 & E2 & I2 & M2 & G2).
        exists im1, vm1, vm2. split; auto. split. { unfold step0. simpl. rewrite E2. reflexivity. } split; [|auto].
        intros w. destruct (Hal w) as (Lw & Dw). specialize (G1 w). specialize (G2 w). destruct (outs o v w).
        + destruct G1 as (A1 & x1 & B2 & B3 & B4). destruct G2 as (A2 & y1 & C2 & C3 & C4).
          split; [congruence|]. rewrite B2, C2. f_equal. apply vf_ext; [congruence|].
          intros q Hq. rewrite B4, C4. apply added_ext. intros f Hf Hmf. apply alike_contents. auto.
        + rewrite G1, G2. auto. }
    destruct Hst as (im1 & vm1 & vm01 & E1 & E2 & P1 & P2 & P3 & P4). rewrite E1, E2. cbn [rbind].
    apply (IH im1 vm1 vm01); auto.
Qed.
End History.
Print Assumptions C44_history.

(** ** Examples *)
(** the operator of OpProps.v: four inputs, two outputs sharing their E-vector; one block and two blocks *)
Lemma rwf2 : forall (o : oper Zrng) i, o_ne o = 3 -> i < 6 -> rstr_wf true (Some 2) o (ex_D i).
Proof. intros o i Ho Hi. destruct i as [|[|[|[|[|[|i]]]]]]; try lia; unfold rstr_wf; rewrite Ho; rwf3. Qed.
Lemma interp2 : forall (o : oper Zrng) m i v, o_ne o = 3 -> o_Q o = 3 -> m = EvInterp \/ m = EvGrad -> i = 0 \/ i = 4 ->
  field_wf ex_D 2 true (Some 2) o (mkOF 1 m (Some i) (Some (BT ex_b1)) v).
Proof.
  intros o m i v Ho HQ [-> | ->] Hi; unfold field_wf; cbn [f_mode]; do 3 eexists; (split; [reflexivity|]); (split; [reflexivity|]);
    (split; [apply rwf2; auto; lia|]); (split; [apply ex_b1_wf; lia|]); rewrite HQ; destruct Hi as [-> | ->]; repeat split; reflexivity.
Qed.
Lemma none2 : forall (o : oper Zrng) i v, o_ne o = 3 -> o_Q o = 3 -> 0 < i < 4 -> field_wf ex_D 2 true (Some 2) o (mkOF 1 EvNone (Some i) None v).
Proof.
  intros o i v Ho HQ Hi. unfold field_wf; cbn [f_mode]. eexists. split; [reflexivity|]. split; [apply rwf2; auto; lia|].
  rewrite HQ. destruct i as [|[|[|[|i]]]]; try lia; split; reflexivity.
Qed.
Ltac field2 := first [apply ex_weight; auto | apply interp2; auto; fail | apply none2; auto; lia].
Ltac fields2 i := let Hi := fresh "Hi" in intros i Hi; simpl in Hi; repeat first [lia | destruct i as [|i]; [try (split; [|discriminate]); unfold fld; cbn [nth o_in o_out]; field2|]].
Lemma op_wf2 : op_wf ex_D (@contract_avx Zrng) 2 true (Some 2) ex_op.
Proof.
  constructor; try (simpl; lia).
  - apply avx_ok.
  - fields2 i.
  - fields2 i.
  - intros i j Hij Hsm Hfst. simpl in Hij. ex_pairs i j.
  - intros i j Hij Hsm. simpl in Hij. ex_pairs i j.
Qed.
Ltac insd H := simpl in H; repeat match type of H with _ \/ _ => destruct H as [H|H] | False => destruct H end; subst.
Example C44_ex : op_wf ex_D (@contract_avx Zrng) 2 true (Some 8) ex_op /\ op_wf ex_D (@contract_avx Zrng) 2 true (Some 2) ex_op /\
  mem_ok ex_vm /\ vec_ok ex_D ex_op ex_vm (Some 1) (Some 2) /\ exact ex_D ex_op ex_vm (Some 1) (Some 2) /\ vec_len ex_D ex_op ex_vm (Some 1) (Some 2) /\ apart ex_op (Some 1) (Some 2) /\
  map (added ex_D ex_op ex_vm (Some 1) (Some 2) 2) (seq 0 4) = [19; -138; 305; 276]%Z.
Proof.
  split; [apply ex_op_wf; auto|]. split; [apply op_wf2|]. split; [apply ex_mem_ok|]. split; [apply ex_vec_ok|]. split.
  { split.
    - intros f Hf Hm Ha. insd Hf; try discriminate; try (exfalso; apply Hm; reflexivity); (split; [reflexivity|]); intros g Hg; insd Hg; discriminate.
    - intros f Hf. insd Hf; reflexivity. }
  destruct C29_ex_apply as (_ & A & B & _). split; auto.
Qed.
Definition oout (r : res (oimpl Zrng * vmem Zrng)) (v : nat) : option (list Z) := match r with Ok (_, vm) => vv_data (vm v) | _ => None end.
Example C44_ex_run : oout (opt_apply_add (@contract_avx Zrng) junkZ true ex_D (Some 2) ex_op None ex_vm (Some 1) (Some 2)) 2 = Some [29; -118; 335; 316]%Z /\
  oout (opt_apply (@contract_avx Zrng) junkZ true ex_D (Some 8) ex_op None ex_vm (Some 1) (Some 2)) 2 = Some [19; -138; 305; 276]%Z.
Proof. split; vm_compute; reflexivity. Qed.
Definition len4 (vm : vmem Zrng) (v : nat) : bool := match vv_data (vm v) with Some x => length x =? 4 | None => false end.
Definition oev (vm : vmem Zrng) (e : event Zrng) : bool :=
  event_okb Zrng ex_D ex_op vm e && match e with
  | EAdd (Some 1) (Some 2) => len4 vm 1 && len4 vm 2 | EApply (Some 1) (Some 2) => len4 vm 1 && (vv_len (vm 2) =? 4)
  | EAdd _ _ | EApply _ _ => false | _ => true end.
Lemma len4_ok : forall vm v f act, target f act = Some v -> len4 vm v = true -> length (contents vm f act) = 4.
Proof. intros vm v f act T H. unfold contents, len4 in *. rewrite T. destruct (vv_data (vm v)); [|discriminate]. apply Nat.eqb_eq. auto. Qed.
Lemma oev_ok : forall vm e, oev vm e = true -> oevent_ok Zrng ex_D ex_op vm e.
Proof.
  intros vm e H. apply andb_true_iff in H. destruct H as (H1 & H2). apply event_okb_ok in H1. destruct e as [v x|v|i v|i v]; auto.
  - destruct i as [[|[|]]|]; try discriminate. destruct v as [[|[|[|]]]|]; try discriminate. apply andb_true_iff in H2. destruct H2 as (H2 & H3). split; auto. split.
    + intros f Hf Hm Ha. insd Hf; try discriminate; try (exfalso; apply Hm; reflexivity); (split; [apply len4_ok with (v := 1); auto|]); intros g Hg; insd Hg; discriminate.
    + intros f Hf. insd Hf; apply len4_ok with (v := 2); auto.
  - destruct i as [[|[|]]|]; try discriminate. destruct v as [[|[|[|]]]|]; try discriminate. apply andb_true_iff in H2. destruct H2 as (H2 & H3). destruct H1 as (H1 & H1').
    split; auto. split; auto. split.
    + intros f Hf Hm Ha. insd Hf; try discriminate; try (exfalso; apply Hm; reflexivity); apply len4_ok with (v := 1); auto.
    + intros f w Hf T. apply Nat.eqb_eq in H3. insd Hf; inversion T; subst w; exact H3.
Qed.
Fixpoint ohb (vm : vmem Zrng) (h : list (event Zrng)) : bool :=
  match h with [] => true | e :: h => oev vm e && match step0 Zrng (@contract_ref Zrng) junkZ true ex_D None ex_op vm e with Ok vm' => ohb vm' h | _ => true end end.
Lemma ohb_ok : forall h vm, ohb vm h = true -> ohist_ok Zrng (@contract_ref Zrng) junkZ true ex_D ex_op vm h.
Proof.
  induction h as [|e h IH]; intros vm H; simpl in *; auto. apply andb_true_iff in H. destruct H as (H1 & H2).
  split. { apply oev_ok. auto. } intros vm' E. rewrite E in H2. auto.
Qed.
(** the history of OpProps.v changes and takes the passive input between applications *)
Definition ex_ohist : list (event Zrng) := [EApply (Some 1) (Some 2); ESet 0 [9;8;7;6;5;4;3;2;1]%Z; EAdd (Some 1) (Some 2); ETake 0; ESet 0 [1;1;1;1;1;1;1;1;1]%Z; ESet 2 [1;2;3;4]%Z; EAdd (Some 1) (Some 2)].
Example C44_ex_hist : ohist_ok Zrng (@contract_ref Zrng) junkZ true ex_D ex_op ex_vm ex_ohist.
Proof. apply ohb_ok. vm_compute. reflexivity. Qed.
Example C44_ex_hist_run : oout (orun Zrng (@contract_avx Zrng) junkZ true ex_D 2 ex_op (None, ex_vm) ex_ohist) 2 = hres0 (run0 Zrng (@contract_ref Zrng) junkZ true ex_D None ex_op ex_vm ex_ohist) /\
  hres0 (run0 Zrng (@contract_ref Zrng) junkZ true ex_D None ex_op ex_vm ex_ohist) = Some [15; -43; 62; 38]%Z.
Proof. split; vm_compute; reflexivity. Qed.

(** ** Findings *)
Definition ook (r : res (oimpl Zrng * vmem Zrng)) : oimpl Zrng * vmem Zrng := match r with Ok x => x | _ => (None, ex_vm) end.
Lemma ook_ok : forall r, (match r with Ok _ => true | _ => false end) = true -> r = Ok (fst (ook r), snd (ook r)).
Proof. intros [(a, b)|e|] H; try discriminate. reflexivity. Qed.
(** Finding: ApplyAdd with the same vector as active input and active output adds the right values on the reference and blocked backends
    (C28), which restrict the input once; the optimised backends restrict block by block and read entries of earlier blocks that they
    have already changed.  CeedOperatorApplyAdd accepts the call. *)
Theorem C44_in_place_refuted : exists (o : oper Zrng) vm im' vm' x',
  op_wf ex_D (@contract_avx Zrng) 2 true (Some 2) o /\ mem_ok vm /\ vec_ok ex_D o vm (Some 1) (Some 1) /\ length (contents vm (fld (o_out o) 0) (Some 1)) = u_lsize (rd ex_D (fld (o_out o) 0)) /\
  opt_apply_add (@contract_avx Zrng) junkZ true ex_D (Some 2) o None vm (Some 1) (Some 1) = Ok (im', vm') /\
  vv_data (vm' 1) = Some x' /\ vf x' 2 <> Z.add (vf (contents vm (fld (o_out o) 0) (Some 1)) 2) (added ex_D o vm (Some 1) (Some 1) 1 2).
Proof.
  set (r := opt_apply_add (@contract_avx Zrng) junkZ true ex_D (Some 2) ex_op None ex_vm (Some 1) (Some 1)).
  exists ex_op, ex_vm, (fst (ook r)), (snd (ook r)). eexists. split; [apply op_wf2|]. split; [apply ex_mem_ok|]. split.
  { split. intros i Hi Hm. simpl in Hi. destruct i as [|[|[|[|i]]]]; try lia; [exfalso; apply Hm; reflexivity|ex_has 1|ex_has 1|ex_has 0].
    intros i Hi. simpl in Hi. destruct i as [|[|i]]; try lia; ex_has 1. }
  split; [reflexivity|]. split; [apply ook_ok; vm_compute; reflexivity|]. split; [vm_compute; reflexivity|]. vm_compute. discriminate.
Qed.
(** Finding: an active vector longer than the L-vector is accepted by the reference and blocked backends (C28); on the optimised backends
    the application fails, because CeedElemRestrictionApplyBlock wants the exact length. *)
Definition ex_vm5 : vmem Zrng := fun v => match v with
  | 0 => mkVV 9 (Some [1;2;3;4;5;6;7;8;9]%Z) 2%Z | 1 => mkVV 5 (Some [1;-2;3;5;0]%Z) 4%Z | 2 => mkVV 4 (Some [10;20;30;40]%Z) 6%Z | _ => mkVV 0 None 0%Z end.
Theorem C44_longer_refuted : exists (o : oper Zrng) vm,
  op_wf ex_D (@contract_avx Zrng) 2 true (Some 2) o /\ mem_ok vm /\ vec_ok ex_D o vm (Some 1) (Some 2) /\ apart o (Some 1) (Some 2) /\
  opt_apply_add (@contract_avx Zrng) junkZ true ex_D (Some 2) o None vm (Some 1) (Some 2) = Err ERR_BACKEND.
Proof.
  exists ex_op, ex_vm5. split; [apply op_wf2|]. split.
  { intros [|[|[|v]]]; simpl; (split; [lia|]); split; try lia; try discriminate; auto; intros x E; inversion E; reflexivity. } split.
  { split. intros i Hi Hm. simpl in Hi. destruct i as [|[|[|[|i]]]]; try lia; [exfalso; apply Hm; reflexivity|ex_has 1|ex_has 1|ex_has 0].
    intros i Hi. simpl in Hi. destruct i as [|[|i]]; try lia; ex_has 2. }
  split. { apply C29_ex_apply. } vm_compute. reflexivity.
Qed.
(** Finding: of two active outputs without basis and with the same restriction one contribution is lost, without an error (on the reference
    backend the operator crashes, C31). *)
Theorem C44_outputs_none_refuted : exists (o : oper Zrng) im' vm' x',
  (forall i, i < length (o_in o) -> field_wf ex_D 2 true (Some 2) o (fld (o_in o) i)) /\
  (forall i, i < length (o_out o) -> field_wf ex_D 2 true (Some 2) o (fld (o_out o) i) /\ f_mode (fld (o_out o) i) = EvNone) /\
  mem_ok ex_vm9 /\ vec_ok ex_D o ex_vm9 (Some 0) (Some 2) /\ exact ex_D o ex_vm9 (Some 0) (Some 2) /\
  opt_apply_add (@contract_ref Zrng) junkZ true ex_D (Some 2) o None ex_vm9 (Some 0) (Some 2) = Ok (im', vm') /\
  vv_data (ex_vm9 2) = Some (repeat 0%Z 9) /\ vv_data (vm' 2) = Some x' /\ vf x' 0 <> added ex_D o ex_vm9 (Some 0) (Some 2) 2 0.
Proof.
  set (r := opt_apply_add (@contract_ref Zrng) junkZ true ex_D (Some 2) ex_dup_out None ex_vm9 (Some 0) (Some 2)).
  exists ex_dup_out, (fst (ook r)), (snd (ook r)). eexists. split. { fields2 i. } split.
  { intros i Hi. simpl in Hi. destruct i as [|[|i]]; try lia; (split; [apply none2; auto; lia|reflexivity]). }
  split. { intros [|[|[|v]]]; simpl; (split; [lia|]); split; try lia; try discriminate; auto; intros x E; inversion E; reflexivity. }
  split. { split. intros i Hi Hm. simpl in Hi. destruct i as [|i]; try lia; ex_has 0. intros i Hi. simpl in Hi. destruct i as [|[|i]]; try lia; ex_has 2. }
  split. { split. intros f Hf Hm Ha. insd Hf. split; [reflexivity|]. intros g Hg. insd Hg; discriminate. intros f Hf. insd Hf; reflexivity. }
  split; [apply ook_ok; vm_compute; reflexivity|]. split; [reflexivity|]. split; [vm_compute; reflexivity|]. vm_compute. discriminate.
Qed.
Print Assumptions C44_in_place_refuted. Print Assumptions C44_longer_refuted. Print Assumptions C44_outputs_none_refuted.
