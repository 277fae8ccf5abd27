(** * Facts about the reference counts of operators *)
From Coq Require Import List ZArith Lia Bool Arith.
From Verif Require Import Prelude RstrModel BasisModel StrModel QfModel BuildModel BuildProofs FbModel QueModel.
From Verif Require BuildProps.
Import ListNotations.
Local Open Scope Z_scope.

Definition here (s sd : bool) (j i : nat) : bool := Bool.eqb s sd && (j =? i)%nat.
Lemma here_spec s sd j i : here s sd j i = true <-> s = sd /\ j = i.
Proof. unfold here. rewrite andb_true_iff, Nat.eqb_eq. split; intros (A & B); split; auto; [apply Bool.eqb_prop; exact A|subst; apply Bool.eqb_reflx]. Qed.

Lemma accepts_with_slot st c side i f sd j x : accepts st c side i f -> accepts (with_slot st sd j x) c side i f.
Proof. intros []. split; auto. Qed.
Lemma alloc_ok st c side i f : accepts st c side i f -> alloc st c = Some (side, i).
Proof.
  intros A. unfold alloc. rewrite (ac_find _ _ _ _ _ A).
  rewrite (set_field_accepts _ _ _ _ _ (accepts_with_slot _ _ _ _ _ side i FNull A)). cbn [snd].
  pose proof (BuildProps.slot_after (with_slot st side i FNull) c side i side i) as E. rewrite Bool.eqb_reflx, Nat.eqb_refl in E. cbn [andb] in E. unfold slot in E. rewrite E. reflexivity.
Qed.
Lemma alloc_find st c sd i : alloc st c = Some (sd, i) -> find_field (b_qf st) (c_name c) = Some (sd, i).
Proof. unfold alloc. destruct (find_field _ _) as [(a, b)|]; [|discriminate]. cbv zeta. match goal with |- match ?x with _ => _ end = _ -> _ => destruct x end; congruence. Qed.
Lemma alloc_err st c e st' : set_field st c = (e, st') -> e <> Ok tt ->
  match alloc st c with
  | None => forall s j, slot st' s j = slot st s j
  | Some (sd, i) => e = Err ERR_INCOMPATIBLE /\ b_qf st' = q_set_imm (b_qf st) /\ forall s j, slot st' s j = if here s sd j i then FBlank else slot st s j
  end.
Proof.
  intros H He. destruct (find_field (b_qf st) (c_name c)) as [(sd, i)|] eqn:F.
  2:{ unfold alloc. rewrite F. intros s j. destruct (set_field_err _ _ _ _ H He) as (_&_&_&_&_&_&_&_&_&_&_&Hs). destruct (Hs s j) as [K|(_ & K & _)]; [exact K|congruence]. }
  unfold alloc. rewrite F. destruct (set_field (with_slot st sd i FNull) c) as (e2, st2) eqn:H2. cbn [snd].
  unfold set_field in H, H2. change (b_imm (with_slot st sd i FNull)) with (b_imm st) in H2. destruct (b_imm st) eqn:Hi.
  Ltac dn sd H H2 := injection H as <- <-; injection H2 as _ <-; cbn; unfold slot, upd; destruct sd; cbn; rewrite ?Nat.eqb_refl; auto; fail.
  { dn sd H H2. }
  destruct c as [nm r b v]. cbn [c_r c_b c_v c_name] in *.
  destruct r as [| |dr]. { dn sd H H2. }
  all: destruct b as [| |db]; [dn sd H H2| |].
  all: destruct v as [| | |v]; [dn sd H H2| | |].
  all: cbv beta iota zeta in H, H2.
  all: cbn [b_hasr b_ne b_at b_first with_slot] in H2.
  all: match type of H with (if ?x then _ else _) = _ => destruct x; [dn sd H H2|] end.
  all: match type of H with (match ?x with inl _ => _ | inr _ => _ end) = _ => match type of H2 with (match ?y with inl _ => _ | inr _ => _ end) = _ =>
    assert (D : (exists e0, x = inl e0 /\ y = inl e0) \/ (exists z, x = inr (with_first st z) /\ y = inr (with_first (with_slot st sd i FNull) z))) end end.
  all: try (match goal with |- (exists _, _) \/ _ => clear H H2; match goal with |- context [r_pts ?r] => destruct (r_pts r) as [p|] end;
     [destruct (negb (b_at st)); [left; eauto|]; match goal with |- context [negb (is_bnone ?b)] => destruct (negb (is_bnone b)); [left; eauto|] end; destruct (b_first st) as [p0|] eqn:F0;
       [destruct (list_eq_dec Z.eq_dec p0 p); [right; exists (b_first st); destruct st; auto|left; eauto]|right; eauto]
     |right; exists (b_first st); destruct st; auto] end).
  all: destruct D as [(e0 & D1 & D2)|(z & D1 & D2)]; rewrite D1 in H; rewrite D2 in H2; clear D1 D2; [dn sd H H2|].
  all: cbn [b_nq with_first with_slot] in H, H2.
  all: match type of H with (if ?x then _ else _) = _ => destruct x; [dn sd H H2|] end.
  all: cbn [b_qf with_qf with_first with_slot q_get_fields snd] in H, H2; change (find_field (q_set_imm (b_qf st)) nm) with (find_field (b_qf st) nm) in H, H2; rewrite F in H, H2.
  all: match type of H with match ?x with _ => _ end = _ => destruct x as [f|] end; [|dn sd H H2].
  all: match type of H with match ?x with _ => _ end = _ => destruct x as [?|?|] end; [|dn sd H H2|dn sd H H2].
  all: try (injection H as <- <-; exfalso; congruence).
  all: destruct sd; cbn in H, H2.
  all: match type of H with match (if ?x then _ else _) with _ => _ end = _ => destruct x; [injection H as <- <-; exfalso; congruence|] end.
  all: injection H as <- <-; injection H2 as _ <-; cbn; unfold upd; rewrite Nat.eqb_refl; split; [reflexivity|split; [reflexivity|]];
    intros s j; unfold slot, here; cbn; unfold upd; destruct s; cbn; auto.
Qed.

(** ** Histories *)
Inductive xh := XSet (x : xcall) | XPts (p : list Z) (r v : nat) | XReady | XIn (n : str) (z : Z) (m : emode) | XOut (n : str) (z : Z) (m : emode).
Definition xstep (s : xop) (h : xh) : res unit * xop :=
  match h with
  | XSet x => x_set s x
  | XPts p r v => x_set_points s p r v
  | XReady => x_ready s
  | XIn n z m => let r := q_add_input (b_qf (x_st s)) n z m in (fst r, x_with s (with_qf (x_st s) (snd r)))
  | XOut n z m => let r := q_add_output (b_qf (x_st s)) n z m in (fst r, x_with s (with_qf (x_st s) (snd r)))
  end.
Definition xrun (s : xop) (hs : list xh) : xop := fold_left (fun s h => snd (xstep s h)) hs s.
Lemma xrun_snoc s hs h : xrun s (hs ++ [h]) = snd (xstep (xrun s hs) h).
Proof. unfold xrun. rewrite fold_left_app. reflexivity. Qed.

(** no name is passed again after a call with it was accepted or refused as incompatible *)
Definition once2 (s : xop) (hs : list xh) : Prop :=
  forall l1 x1 l2 x2 l3, hs = l1 ++ XSet x1 :: l2 ++ XSet x2 :: l3 -> c_name (xc x1) = c_name (xc x2) ->
    fst (xstep (xrun s l1) (XSet x1)) <> Ok tt /\ fst (xstep (xrun s l1) (XSet x1)) <> Err ERR_INCOMPATIBLE.

(** what a slot holds *)
Definition one (x o : obj) : Z := if obj_eq_dec o x then 1 else 0.
Definition onep (x : option obj) (o : obj) : Z := match x with Some y => one y o | None => 0 end.
Definition contrib (s : xop) (side : bool) (i : nat) (o : obj) : Z :=
  match x_slot s side i with
  | FNull => 0
  | FBlank => one OMem o
  | FSet _ => match x_hnd s side i with Some h => 2 * one OMem o + onep (r_obj h) o + onep (b_obj h) o + onep (v_obj (h_v h)) o | None => 0 end
  end.
Definition extras (s : xop) (o : obj) : Z :=
  onep (option_map ORstr (x_first s)) o + onep (option_map (fun q => ORstr (fst q)) (x_pts s)) o + onep (option_map (fun q => OVec (snd q)) (x_pts s)) o.
Fixpoint zsum (f : nat -> Z) (l : list nat) : Z := match l with [] => 0 | i :: t => f i + zsum f t end.
Definition both (s : xop) (o : obj) (i : nat) : Z := contrib s true i o + contrib s false i o.

Lemma add_eq c x z o : add c x z o = c o + z * one x o.
Proof. unfold add, one. destruct (obj_eq_dec o x); lia. Qed.
Lemma take_eq c x o : take c x o = c o + onep x o.
Proof. destruct x; cbn; [rewrite add_eq|]; lia. Qed.
Lemma drop_eq c x o : drop c x o = c o - onep x o.
Proof. destruct x; cbn; [rewrite add_eq|]; lia. Qed.
Lemma one_nn x o : 0 <= one x o.
Proof. unfold one. destruct (obj_eq_dec o x); lia. Qed.
Lemma onep_nn x o : 0 <= onep x o.
Proof. destruct x; cbn; [apply one_nn|lia]. Qed.
Lemma contrib_nn s side i o : 0 <= contrib s side i o.
Proof.
  unfold contrib. destruct (x_slot s side i); [lia|apply one_nn|]. destruct (x_hnd s side i) as [h|]; [|lia].
  pose proof (one_nn OMem o). pose proof (onep_nn (r_obj h) o). pose proof (onep_nn (b_obj h) o). pose proof (onep_nn (v_obj (h_v h)) o). lia.
Qed.
Lemma zsum_app f a b : zsum f (a ++ b) = zsum f a + zsum f b.
Proof. induction a; cbn; lia. Qed.
Lemma zsum_ext f g l : (forall i, In i l -> f i = g i) -> zsum f l = zsum g l.
Proof. induction l as [|a l IH]; intros H; cbn; [reflexivity|]. rewrite H by (left; reflexivity). rewrite IH; [reflexivity|]. intros i Hi. apply H. right. exact Hi. Qed.
Lemma zsum_zero f l : (forall i, In i l -> f i = 0) -> zsum f l = 0.
Proof. intros H. rewrite (zsum_ext f (fun _ => 0) l H). clear. induction l; cbn; lia. Qed.
Lemma zsum_plus f g l : zsum (fun i => f i + g i) l = zsum f l + zsum g l.
Proof. induction l; cbn; lia. Qed.
Lemma zsum_upd f g i l : NoDup l -> In i l -> (forall j, j <> i -> f j = g j) -> zsum f l = zsum g l + f i - g i.
Proof.
  induction l as [|a l IH]; intros N I E; [contradiction|]. inversion N; subst. cbn. destruct I as [->|I].
  - rewrite (zsum_ext f g l); [lia|]. intros j Hj. apply E. intros ->. contradiction.
  - rewrite (IH H2 I E), (E a); [lia|]. intros ->. contradiction.
Qed.
Lemma zsum_nn f l : (forall i, 0 <= f i) -> 0 <= zsum f l.
Proof. intros H. induction l as [|a l IH]; cbn; [lia|]. specialize (H a). lia. Qed.
Lemma zsum_ge f i l : (forall j, 0 <= f j) -> In i l -> f i <= zsum f l.
Proof. intros H. induction l as [|a l IH]; intros I; [contradiction|]. cbn. pose proof (zsum_nn f l H). destruct I as [->|I]; [lia|]. specialize (IH I). pose proof (H a). lia. Qed.

(** ** One call *)
Lemma x_set_st s x : x_st (snd (x_set s x)) = snd (set_field (x_st s) (xc x)) /\ fst (x_set s x) = fst (set_field (x_st s) (xc x)).
Proof. unfold x_set. destruct (set_field _ _) as (r, st'). destruct (first_ref _ _ _ _ _) as (f, c). destruct (alloc _ _) as [(sd, i)|]; split; reflexivity. Qed.
Lemma x_pts_st s p r v : x_st (snd (x_set_points s p r v)) = snd (set_points (x_st s) p) /\ fst (x_set_points s p r v) = fst (set_points (x_st s) p).
Proof. unfold x_set_points. destruct (set_points _ _) as (e, st'). destruct (first_ref _ _ _ _ _) as (f, c). destruct e; split; reflexivity. Qed.
Lemma set_points_st st p : snd (set_points st p) = st \/ (b_first st = None /\ snd (set_points st p) = with_first st (Some p)).
Proof. unfold set_points. destruct (negb _); [auto|]. destruct (b_imm st); [auto|]. destruct (b_first st); [|auto]. destruct (list_eq_dec _ _ _); auto. Qed.
Lemma xstep_moved s h : BuildProps.moved (x_st s) (x_st (snd (xstep s h))).
Proof.
  destruct h as [x|p r v| |n z m|n z m]; cbn [xstep].
  - rewrite (proj1 (x_set_st s x)). apply (BuildProps.step_moved (x_st s) (HSet (xc x))).
  - rewrite (proj1 (x_pts_st s p r v)). destruct (set_points_st (x_st s) p) as [-> |(E & ->)]; [apply BuildProps.moved_refl|].
    split; auto. { unfold BuildProps.frozen. cbn. auto. } intros K. congruence.
  - pose proof (BuildProps.step_moved (x_st s) HReady) as M. cbn in M. unfold x_ready. destruct (check_ready (x_st s)). exact M.
  - apply (BuildProps.step_moved (x_st s) (HIn n z m)).
  - apply (BuildProps.step_moved (x_st s) (HOut n z m)).
Qed.
(** the slot allocated by a call *)
Definition halloc (s : xop) (h : xh) : option (bool * nat) := match h with XSet x => alloc (x_st s) (xc x) | _ => None end.
Definition acc2 (s : xop) (h : xh) : Prop := fst (xstep s h) = Ok tt \/ fst (xstep s h) = Err ERR_INCOMPATIBLE.
Lemma xslot_slot s sd i : x_slot s sd i = slot (x_st s) sd i. Proof. reflexivity. Qed.
Lemma xstep_slots s h : let s' := snd (xstep s h) in
  match halloc s h with
  | None => forall sd i, x_slot s' sd i = x_slot s sd i /\ x_hnd s' sd i = x_hnd s sd i
  | Some (sd, i) => acc2 s h /\ q_imm (b_qf (x_st s')) = true /\ (forall sd' i', (sd', i') <> (sd, i) -> x_slot s' sd' i' = x_slot s sd' i' /\ x_hnd s' sd' i' = x_hnd s sd' i') /\
      exists x, h = XSet x /\ find_field (b_qf (x_st s)) (c_name (xc x)) = Some (sd, i) /\
        ((fst (xstep s h) = Ok tt /\ x_slot s' sd i = FSet (OF (c_name (xc x)) (c_r (xc x)) (c_b (xc x)) (c_v (xc x))) /\ x_hnd s' sd i = Some (hnd_of x)) \/
         (fst (xstep s h) = Err ERR_INCOMPATIBLE /\ x_slot s' sd i = FBlank))
  end.
Proof.
  cbv zeta. destruct h as [x|p r v| |n z m|n z m]; cbn [halloc].
  - destruct (set_field (x_st s) (xc x)) as (e, st') eqn:E. pose proof (x_set_st s x) as (X1 & X2). rewrite E in X1, X2. cbn [fst snd] in X1, X2.
    assert (D : e = Ok tt \/ e <> Ok tt). { destruct e as [[]|z|]; auto; right; discriminate. }
    destruct D as [->|D].
    + destruct (set_field_ok_inv (x_st s) (xc x)) as (sd & i & f & A). { rewrite E. reflexivity. }
      rewrite (alloc_ok _ _ _ _ _ A). pose proof E as E0. rewrite (set_field_accepts _ _ _ _ _ A) in E0. injection E0 as <-.
      split. { left. exact X2. } split. { cbn [xstep]. rewrite X1. reflexivity. }
      assert (H : x_hnd (snd (xstep s (XSet x))) sd i = Some (hnd_of x) /\ forall sd' i', (sd', i') <> (sd, i) -> x_hnd (snd (xstep s (XSet x))) sd' i' = x_hnd s sd' i').
      { cbn [xstep]. unfold x_set. rewrite E, (alloc_ok _ _ _ _ _ A). destruct (first_ref _ _ _ _ _) as (f0, c0). cbn [snd]. unfold x_hnd. cbn [x_in x_out]. unfold upd. split.
        - destruct sd; rewrite Nat.eqb_refl; reflexivity.
        - intros sd' i' N. destruct sd', sd; auto; destruct (Nat.eqb_spec i' i); auto; subst; contradiction. }
      split.
      * intros sd' i' N. split; [|apply H; exact N]. rewrite !xslot_slot. cbn [xstep]. rewrite X1, BuildProps.slot_after. fold (here sd' sd i' i).
        destruct (here sd' sd i' i) eqn:Q; [|reflexivity]. apply here_spec in Q. destruct Q; subst. contradiction.
      * exists x. split; [reflexivity|]. split; [apply (ac_find _ _ _ _ _ A)|]. left. split; [exact X2|]. split; [|apply H].
        rewrite xslot_slot. cbn [xstep]. rewrite X1, BuildProps.slot_after, Bool.eqb_reflx, Nat.eqb_refl. reflexivity.
    + pose proof (alloc_err _ _ _ _ E D) as A. destruct (alloc (x_st s) (xc x)) as [(sd, i)|] eqn:AL.
      * destruct A as (-> & Q & A).
        split. { right. exact X2. } split. { cbn [xstep]. rewrite X1, Q. reflexivity. }
        split.
        -- intros sd' i' N. split.
           ++ rewrite !xslot_slot. cbn [xstep]. rewrite X1, A. destruct (here sd' sd i' i) eqn:H; [|reflexivity]. apply here_spec in H. destruct H; subst. contradiction.
           ++ cbn [xstep]. unfold x_set. rewrite E, AL. destruct (first_ref _ _ _ _ _) as (f0, c0). cbn [snd]. unfold x_hnd. cbn [x_in x_out]. unfold upd.
              destruct sd', sd; auto; destruct (Nat.eqb_spec i' i); auto; subst; contradiction.
        -- exists x. split; [reflexivity|]. split; [apply alloc_find; exact AL|]. right. split; [exact X2|].
           rewrite xslot_slot. cbn [xstep]. rewrite X1, A. assert (H : here sd sd i i = true) by (apply here_spec; auto). rewrite H. reflexivity.
      * intros sd i. split.
        -- rewrite !xslot_slot. cbn [xstep]. rewrite X1. apply A.
        -- cbn [xstep]. unfold x_set. rewrite E, AL. destruct (first_ref _ _ _ _ _) as (f0, c0). reflexivity.
  - intros sd i. split.
    + rewrite !xslot_slot. cbn [xstep]. rewrite (proj1 (x_pts_st s p r v)). destruct (set_points_st (x_st s) p) as [-> |(E & ->)]; reflexivity.
    + cbn [xstep]. unfold x_set_points. destruct (set_points _ _) as (e, st'). destruct (first_ref _ _ _ _ _) as (f, c). destruct e; reflexivity.
  - intros sd i. split.
    + rewrite !xslot_slot. pose proof (BuildProps.step_slot (x_st s) HReady sd i) as [K|[(o & _ & [])|(_ & c & K & _)]]; [|discriminate].
      cbn [xstep hstep] in *. unfold x_ready. destruct (check_ready (x_st s)). exact K.
    + cbn [xstep]. unfold x_ready. destruct (check_ready (x_st s)). reflexivity.
  - intros sd i. split; reflexivity.
  - intros sd i. split; reflexivity.
Qed.
Definition fok (s : xop) : Prop := b_first (x_st s) = None -> x_first s = None.
Lemma first_ref_eq bf af r f c o : (bf = None -> f = None) -> let (f', c') := first_ref bf af r f c in
  c' o = c o + onep (option_map ORstr f') o - onep (option_map ORstr f) o.
Proof. intros H. unfold first_ref. destruct bf; [lia|]. destruct af; [|lia]. rewrite add_eq, (H eq_refl). cbn [option_map onep]. lia. Qed.
Lemma first_ref_ok bf af r f c : (bf = None -> f = None) -> (bf <> None -> af = bf) -> af = None -> fst (first_ref bf af r f c) = None.
Proof. intros H K E. subst af. unfold first_ref. destruct bf; [exfalso; assert (X : None = Some l) by (apply K; discriminate); discriminate|]. cbn. auto. Qed.
Lemma xstep_fok s h : fok s -> fok (snd (xstep s h)).
Proof.
  intros F. pose proof (BuildProps.m_first _ _ (xstep_moved s h)) as M. unfold fok in *. destruct h as [x|p r v| |n z m|n z m]; cbn [xstep] in *; auto.
  - unfold x_set in *. destruct (set_field (x_st s) (xc x)) as (e, st') eqn:E.
    pose proof (first_ref_ok (b_first (x_st s)) (b_first st') (xc_r x) (x_first s) (x_c s) F) as K.
    destruct (first_ref _ _ _ _ _) as (f, c). cbn [fst] in K. destruct (alloc _ _) as [(sd, i)|]; cbn [snd x_st x_first] in *; intros E1; apply K; auto.
  - unfold x_set_points in *. destruct (set_points (x_st s) p) as (e, st') eqn:E.
    pose proof (first_ref_ok (b_first (x_st s)) (b_first st') r (x_first s) (x_c s) F) as K.
    destruct (first_ref _ _ _ _ _) as (f, c). cbn [fst] in K. destruct e; cbn [snd x_st x_first] in *; intros E1; apply K; auto.
  - unfold x_ready in *. destruct (check_ready (x_st s)) as (e, st') eqn:E. cbn [snd x_with x_st x_first] in *. intros E1. apply F. destruct (b_first (x_st s)); [|reflexivity]. rewrite <- E1. symmetry. apply M. discriminate.
Qed.
Lemma xstep_counts s h o : fok s ->
  x_c (snd (xstep s h)) o = x_c s o + (extras (snd (xstep s h)) o - extras s o) + match halloc s h with Some (sd, i) => contrib (snd (xstep s h)) sd i o | None => 0 end.
Proof.
  intros F. pose proof (xstep_slots s h) as SL. cbv zeta in SL. destruct h as [x|p r v| |n z m|n z m].
  - cbn [halloc] in *. destruct (alloc (x_st s) (xc x)) as [(sd, i)|] eqn:AL.
    + destruct SL as (_ & _ & _ & x' & [= <-] & _ & [(X1 & X2 & X3)|(X1 & X2)]).
      * unfold contrib. rewrite X2, X3. clear X2 X3. cbn [xstep] in *. unfold x_set in *. destruct (set_field (x_st s) (xc x)) as (e, st') eqn:E.
        pose proof (first_ref_eq (b_first (x_st s)) (b_first st') (xc_r x) (x_first s) (x_c s) o F) as K. destruct (first_ref _ _ _ _ _) as (f, c). rewrite AL in *.
        cbn [fst] in X1. subst e. cbn [snd x_c]. rewrite add_eq, !take_eq, K. unfold extras. cbn [x_first x_pts hnd_of h_v]. lia.
      * unfold contrib. rewrite X2. clear X2. cbn [xstep] in *. unfold x_set in *. destruct (set_field (x_st s) (xc x)) as (e, st') eqn:E.
        pose proof (first_ref_eq (b_first (x_st s)) (b_first st') (xc_r x) (x_first s) (x_c s) o F) as K. destruct (first_ref _ _ _ _ _) as (f, c). rewrite AL in *.
        cbn [fst] in X1. subst e. cbn [snd x_c]. rewrite add_eq, K. unfold extras. cbn [x_first x_pts]. lia.
    + cbn [xstep] in *. unfold x_set in *. destruct (set_field (x_st s) (xc x)) as (e, st') eqn:E.
      pose proof (first_ref_eq (b_first (x_st s)) (b_first st') (xc_r x) (x_first s) (x_c s) o F) as K. destruct (first_ref _ _ _ _ _) as (f, c). rewrite AL in *.
      cbn [snd x_c]. rewrite K. unfold extras. cbn [x_first x_pts]. lia.
  - cbn [halloc xstep]. unfold x_set_points. destruct (set_points (x_st s) p) as (e, st') eqn:E.
    pose proof (first_ref_eq (b_first (x_st s)) (b_first st') r (x_first s) (x_c s) o F) as K. destruct (first_ref _ _ _ _ _) as (f, c).
    destruct e; cbn [snd x_c]; rewrite ?drop_eq, ?add_eq, ?drop_eq, ?add_eq, K; unfold extras; cbn [x_first x_pts option_map onep fst snd]; destruct (x_pts s) as [(qa, qb)|]; cbn [option_map onep fst snd]; lia.
  - cbn [halloc xstep]. unfold x_ready. destruct (check_ready (x_st s)). unfold extras. cbn. lia.
  - cbn [halloc xstep]. unfold extras. cbn. lia.
  - cbn [halloc xstep]. unfold extras. cbn. lia.
Qed.
(** the references held by a slot that a call overwrites *)
Definition overwritten (s : xop) (h : xh) (o : obj) : Z := match halloc s h with Some (sd, i) => contrib s sd i o | None => 0 end.
Fixpoint lost (s : xop) (hs : list xh) (o : obj) : Z := match hs with [] => 0 | h :: t => overwritten s h o + lost (snd (xstep s h)) t o end.
Lemma lost_snoc s hs h o : lost s (hs ++ [h]) o = lost s hs o + overwritten (xrun s hs) h o.
Proof. revert s. induction hs as [|a hs IH]; intros s; cbn [app lost]; [cbn; lia|]. rewrite IH. unfold xrun. cbn [fold_left]. lia. Qed.

Definition covers (s : xop) (N : nat) : Prop := forall sd i, (N <= i)%nat -> x_slot s sd i = FNull.
Lemma covers_step s h N : covers (snd (xstep s h)) N -> covers s N /\ forall sd i, halloc s h = Some (sd, i) -> (i < N)%nat.
Proof.
  intros C. pose proof (xstep_slots s h) as SL. cbv zeta in SL. destruct (halloc s h) as [(sd, i)|].
  - destruct SL as (_ & _ & S1 & x & _ & _ & S2).
    assert (L : (i < N)%nat). { destruct (Nat.lt_ge_cases i N) as [L|L]; [exact L|]. specialize (C sd i L). destruct S2 as [(_ & S2 & _)|(_ & S2)]; congruence. }
    split; [|intros sd' i' [= <- <-]; exact L]. intros sd' i' L'. rewrite <- (proj1 (S1 sd' i' ltac:(intros [= -> ->]; lia))). apply C. exact L'.
  - split; [|discriminate]. intros sd i L. rewrite <- (proj1 (SL sd i)). apply C. exact L.
Qed.
Lemma contrib_same s s' sd i o : x_slot s' sd i = x_slot s sd i -> x_hnd s' sd i = x_hnd s sd i -> contrib s' sd i o = contrib s sd i o.
Proof. unfold contrib. intros -> ->. reflexivity. Qed.
Lemma both_step s h N o : covers (snd (xstep s h)) N ->
  zsum (both (snd (xstep s h)) o) (seq 0 N) = zsum (both s o) (seq 0 N) - overwritten s h o + match halloc s h with Some (sd, i) => contrib (snd (xstep s h)) sd i o | None => 0 end.
Proof.
  intros C. destruct (covers_step _ _ _ C) as (_ & L). pose proof (xstep_slots s h) as SL. cbv zeta in SL. unfold overwritten. destruct (halloc s h) as [(sd, i)|].
  - destruct SL as (_ & _ & S1 & _). specialize (L sd i eq_refl).
    rewrite (zsum_upd (both (snd (xstep s h)) o) (both s o) i); [|apply seq_NoDup|apply in_seq; lia|].
    + unfold both. destruct sd.
      * rewrite (contrib_same s (snd (xstep s h)) false i o); [lia| |]; apply S1; discriminate.
      * rewrite (contrib_same s (snd (xstep s h)) true i o); [lia| |]; apply S1; discriminate.
    + intros j J. unfold both. rewrite !(contrib_same s (snd (xstep s h)) _ j o); auto; apply S1; intros [= _ ->]; contradiction.
  - rewrite (zsum_ext (both (snd (xstep s h)) o) (both s o)); [lia|]. intros j _. unfold both. rewrite !(contrib_same s (snd (xstep s h)) _ j o); auto; apply SL.
Qed.
Lemma balance qf ap c0 hs o N : let s := xrun (x_create qf ap c0) hs in covers s N ->
  x_c s o = c0 o + lost (x_create qf ap c0) hs o + zsum (both s o) (seq 0 N) + extras s o /\ fok s.
Proof.
  cbv zeta. induction hs as [|h hs IH] using rev_ind.
  - intros _. split; [|intros _; reflexivity]. cbn. rewrite zsum_zero; [lia|]. intros i _. reflexivity.
  - rewrite xrun_snoc. intros C. destruct (covers_step _ _ _ C) as (C' & _). destruct (IH C') as (E & F). split; [|apply xstep_fok; exact F].
    rewrite (xstep_counts _ _ _ F), E, lost_snoc, (both_step _ _ _ _ C). lia.
Qed.
Lemma free_eq s sd l c o : fold_left (free_slot s sd) l c o = c o - zsum (fun i => contrib s sd i o) l.
Proof.
  revert c. induction l as [|i l IH]; intros c; cbn [fold_left zsum]; [lia|]. rewrite IH. unfold free_slot, contrib. destruct (x_slot s sd i); [lia|rewrite add_eq; lia|].
  destruct (x_hnd s sd i); [|lia]. rewrite add_eq, !drop_eq. lia.
Qed.
Lemma destroy_eq s o : x_destroy s o = x_c s o - zsum (both s o) (seq 0 (b_nf (x_st s))) - extras s o.
Proof. unfold x_destroy. rewrite !drop_eq, !free_eq. unfold both, extras. rewrite zsum_plus. lia. Qed.
Lemma covers_ex qf ap c0 hs : exists N, covers (xrun (x_create qf ap c0) hs) N.
Proof.
  induction hs as [|h hs (N & C)] using rev_ind; [exists 0%nat; intros [] i _; reflexivity|]. rewrite xrun_snoc.
  pose proof (xstep_slots (xrun (x_create qf ap c0) hs) h) as SL. cbv zeta in SL. destruct (halloc _ h) as [(sd, i)|].
  - exists (Nat.max N (S i)). intros sd' i' L. destruct SL as (_ & _ & S1 & _). rewrite (proj1 (S1 sd' i' ltac:(intros [= _ ->]; lia))). apply C. lia.
  - exists N. intros sd i L. rewrite (proj1 (SL sd i)). apply C. exact L.
Qed.

(** ** Where the slots come from *)
Lemma origin qf ap c0 hs sd i : let s0 := x_create qf ap c0 in let s := xrun s0 hs in x_slot s sd i <> FNull ->
  q_imm (b_qf (x_st s)) = true /\ exists l1 x l2, hs = l1 ++ XSet x :: l2 /\ acc2 (xrun s0 l1) (XSet x) /\ find_field (b_qf (x_st s)) (c_name (xc x)) = Some (sd, i) /\
    (forall f, x_slot s sd i = FSet f -> fst (xstep (xrun s0 l1) (XSet x)) = Ok tt /\ f = OF (c_name (xc x)) (c_r (xc x)) (c_b (xc x)) (c_v (xc x)) /\ x_hnd s sd i = Some (hnd_of x)).
Proof.
  cbv zeta. induction hs as [|h hs IH] using rev_ind. { intros H. exfalso. apply H. destruct sd; reflexivity. }
  rewrite xrun_snoc. set (s := xrun (x_create qf ap c0) hs) in *. intros NN. pose proof (xstep_slots s h) as SL. cbv zeta in SL. pose proof (BuildProps.m_qf _ _ (xstep_moved s h)) as FR.
  assert (OLD : x_slot (snd (xstep s h)) sd i = x_slot s sd i -> x_hnd (snd (xstep s h)) sd i = x_hnd s sd i -> q_imm (b_qf (x_st (snd (xstep s h)))) = true /\
    exists l1 x l2, hs ++ [h] = l1 ++ XSet x :: l2 /\ acc2 (xrun (x_create qf ap c0) l1) (XSet x) /\ find_field (b_qf (x_st (snd (xstep s h)))) (c_name (xc x)) = Some (sd, i) /\
    (forall f, x_slot (snd (xstep s h)) sd i = FSet f -> fst (xstep (xrun (x_create qf ap c0) l1) (XSet x)) = Ok tt /\ f = OF (c_name (xc x)) (c_r (xc x)) (c_b (xc x)) (c_v (xc x)) /\ x_hnd (snd (xstep s h)) sd i = Some (hnd_of x))).
  { intros E1 E2. rewrite E1, E2 in *. destruct (IH NN) as (Q & l1 & x & l2 & -> & A & F & G). split. { apply (FR Q). }
    exists l1, x, (l2 ++ [h]). rewrite <- app_assoc. split; [reflexivity|]. split; [exact A|]. split; [|exact G]. rewrite (BuildProps.frozen_find _ _ _ FR Q). exact F. }
  destruct (halloc s h) as [(sd', i')|] eqn:HA.
  - destruct SL as (A & Q & S1 & x & -> & F & S2). destruct (here sd sd' i i') eqn:H.
    + apply here_spec in H. destruct H; subst. split; [exact Q|]. exists hs, x, []. split; [reflexivity|]. split; [exact A|]. split.
      * cbn [xstep]. rewrite (proj1 (x_set_st s x)). destruct (set_field (x_st s) (xc x)) as (e, st') eqn:E. cbn [snd].
        assert (D : e = Ok tt \/ e <> Ok tt). { destruct e as [[]|z|]; auto; right; discriminate. } destruct D as [->|D].
        -- destruct (set_field_ok_inv (x_st s) (xc x)) as (sd2 & i2 & f & A2). { rewrite E. reflexivity. } rewrite (set_field_accepts _ _ _ _ _ A2) in E. injection E as <-. exact F.
        -- destruct (set_field_err _ _ _ _ E D) as (_&_&_&_&_&_&_&_&_&_&K&_). destruct K as [-> | ->]; exact F.
      * intros f Hf. destruct S2 as [(X1 & X2 & X3)|(_ & X2)]; [|congruence]. split; [exact X1|]. split; [congruence|exact X3].
    + assert (N : (sd, i) <> (sd', i')). { intros [= -> ->]. assert (K : here sd' sd' i' i' = true) by (apply here_spec; auto). congruence. }
      destruct (S1 _ _ N). apply OLD; auto.
  - destruct (SL sd i). apply OLD; auto.
Qed.
Lemma once2_prefix s hs h : once2 s (hs ++ [h]) -> once2 s hs.
Proof. intros O l1 x1 l2 x2 l3 E. apply (O l1 x1 l2 x2 (l3 ++ [h])). rewrite E, <- !app_assoc. cbn [app]. rewrite <- app_assoc. reflexivity. Qed.
Lemma fresh qf ap c0 hs h sd i : let s0 := x_create qf ap c0 in once2 s0 (hs ++ [h]) -> halloc (xrun s0 hs) h = Some (sd, i) -> x_slot (xrun s0 hs) sd i = FNull.
Proof.
  cbv zeta. intros O A. assert (D : x_slot (xrun (x_create qf ap c0) hs) sd i = FNull \/ x_slot (xrun (x_create qf ap c0) hs) sd i <> FNull). { destruct (x_slot _ _ _); auto; right; discriminate. }
  destruct D as [D|D]; [exact D|]. exfalso. destruct (origin _ _ _ _ _ _ D) as (Q & l1 & x & l2 & -> & AC & F & _).
  destruct h as [x2|p r v| |n z m|n z m]; try discriminate. cbn [halloc] in A. apply alloc_find in A.
  destruct (BuildProps.find_field_at _ _ _ _ F) as (f1 & B1 & B2). destruct (BuildProps.find_field_at _ _ _ _ A) as (f2 & C1 & C2).
  destruct (O l1 x l2 x2 []) as (P1 & P2); [rewrite <- app_assoc; reflexivity|congruence|]. destruct AC; contradiction.
Qed.
Lemma lost_zero qf ap c0 hs o : once2 (x_create qf ap c0) hs -> lost (x_create qf ap c0) hs o = 0.
Proof.
  induction hs as [|h hs IH] using rev_ind; [reflexivity|]. intros O. rewrite lost_snoc, IH by (eapply once2_prefix; exact O).
  unfold overwritten. destruct (halloc _ h) as [(sd, i)|] eqn:A; [|reflexivity]. unfold contrib. rewrite (fresh _ _ _ _ _ _ _ O A). reflexivity.
Qed.
Definition xset (s : xop) (p : bool * nat) : Prop := exists f, x_slot s (fst p) (snd p) = FSet f.
Lemma nf_step s h : b_nf (x_st (snd (xstep s h))) = match h with XSet x => match fst (x_set s x) with Ok _ => S (b_nf (x_st s)) | _ => b_nf (x_st s) end | _ => b_nf (x_st s) end.
Proof.
  destruct h as [x|p r v| |n z m|n z m]; cbn [xstep]; try reflexivity.
  - destruct (x_set_st s x) as (-> & ->). destruct (set_field (x_st s) (xc x)) as (e, st') eqn:E. cbn [fst snd].
    assert (D : e = Ok tt \/ e <> Ok tt). { destruct e as [[]|z|]; auto; right; discriminate. } destruct D as [->|D].
    + destruct (set_field_ok_inv (x_st s) (xc x)) as (sd2 & i2 & f & A2). { rewrite E. reflexivity. } rewrite (set_field_accepts _ _ _ _ _ A2) in E. injection E as <-. reflexivity.
    + destruct (set_field_err _ _ _ _ E D) as (_&K&_). rewrite K. destruct e as [[]|z|]; [contradiction|reflexivity|reflexivity].
  - rewrite (proj1 (x_pts_st s p r v)). destruct (set_points_st (x_st s) p) as [-> |(_ & ->)]; reflexivity.
  - unfold x_ready, check_ready. destruct (b_ready _); [reflexivity|]. destruct (_ =? 0)%nat; [reflexivity|]. cbv zeta. destruct (negb _); [reflexivity|]. destruct (negb _); [reflexivity|]. destruct (negb _); reflexivity.
Qed.
Lemma counted qf ap c0 hs : let s := xrun (x_create qf ap c0) hs in once2 (x_create qf ap c0) hs ->
  exists L, NoDup L /\ (forall p, In p L <-> xset s p) /\ List.length L = b_nf (x_st s).
Proof.
  cbv zeta. induction hs as [|h hs IH] using rev_ind.
  - intros _. exists []. split; [constructor|]. split; [|reflexivity]. intros (sd, i). split; [contradiction|]. intros (f & E). destruct sd; discriminate.
  - intros O. destruct (IH (once2_prefix _ _ _ O)) as (L & N & I & E). rewrite xrun_snoc, nf_step. set (s := xrun (x_create qf ap c0) hs) in *.
    pose proof (xstep_slots s h) as SL. cbv zeta in SL. destruct (halloc s h) as [(sd, i)|] eqn:A.
    + pose proof (fresh _ _ _ _ _ _ _ O A) as FR. fold s in FR. destruct SL as (_ & _ & S1 & x & -> & _ & [(X1 & X2 & _)|(X1 & X2)]); cbn [xstep] in X1; rewrite X1.
      * exists ((sd, i) :: L). split; [|split; [|cbn; congruence]].
        -- constructor; [|exact N]. intros K. apply I in K. destruct K as (f & K). cbn in K. congruence.
        -- intros (sd', i'). unfold xset. cbn [fst snd In]. destruct (here sd' sd i' i) eqn:H.
           ++ apply here_spec in H. destruct H; subst. split; [intros _; eauto|auto].
           ++ assert (NE : (sd', i') <> (sd, i)). { intros [= -> ->]. assert (K : here sd sd i i = true) by (apply here_spec; auto). congruence. }
              rewrite (proj1 (S1 _ _ NE)). rewrite <- (I (sd', i')). split; [intros [K|K]; [congruence|exact K]|auto].
      * exists L. split; [exact N|]. split; [|exact E]. intros (sd', i'). rewrite I. unfold xset. cbn [fst snd]. destruct (here sd' sd i' i) eqn:H.
        -- apply here_spec in H. destruct H; subst. rewrite X2, FR. split; intros (f & K); discriminate.
        -- rewrite (proj1 (S1 sd' i' ltac:(intros [= -> ->]; assert (K : here sd sd i i = true) by (apply here_spec; auto); congruence))). reflexivity.
    + exists L. split; [exact N|]. split; [intros p; rewrite I; unfold xset; rewrite (proj1 (SL _ _)); reflexivity|].
      rewrite E. destruct h as [x| | | |]; auto. destruct (fst (x_set s x)) as [[]|z|] eqn:OK; auto.
      exfalso. rewrite (proj2 (x_set_st s x)) in OK. destruct (set_field_ok_inv _ _ OK) as (sd & i & f & AC). cbn [halloc] in A. rewrite (alloc_ok _ _ _ _ _ AC) in A. discriminate.
Qed.
Definition nfields (s : xop) : nat := (List.length (q_in (b_qf (x_st s))) + List.length (q_out (b_qf (x_st s))))%nat.
Lemma nf_mono s h : (b_nf (x_st s) <= b_nf (x_st (snd (xstep s h))))%nat.
Proof. rewrite nf_step. destruct h as [x| | | |]; auto. destruct (fst (x_set s x)); lia. Qed.
Lemma check_ready_ok st : fst (check_ready st) = Ok tt -> b_ready st = false ->
  b_nf st = (List.length (q_in (b_qf st)) + List.length (q_out (b_qf st)))%nat.
Proof.
  intros H R. unfold check_ready in H. rewrite R in H. destruct (_ =? 0)%nat; [discriminate|]. cbv zeta in H. destruct (negb _) eqn:N; [discriminate|]. apply negb_false_iff, Nat.eqb_eq in N. exact N.
Qed.
Lemma ready_step s h : b_ready (x_st (snd (xstep s h))) = true -> b_ready (x_st s) = true \/ (h = XReady /\ fst (check_ready (x_st s)) = Ok tt /\ q_imm (b_qf (x_st (snd (xstep s h)))) = true /\ nfields (snd (xstep s h)) = nfields s).
Proof.
  destruct h as [x|p r v| |n z m|n z m]; cbn [xstep]; auto.
  - rewrite (proj1 (x_set_st s x)). destruct (set_field (x_st s) (xc x)) as (e, st') eqn:E. cbn [snd].
    assert (D : e = Ok tt \/ e <> Ok tt). { destruct e as [[]|z|]; auto; right; discriminate. } destruct D as [->|D].
    + destruct (set_field_ok_inv (x_st s) (xc x)) as (sd2 & i2 & f & A2). { rewrite E. reflexivity. } rewrite (set_field_accepts _ _ _ _ _ A2) in E. injection E as <-. auto.
    + destruct (set_field_err _ _ _ _ E D) as (_&_&_&_&_&_&_&K&_). rewrite K. auto.
  - rewrite (proj1 (x_pts_st s p r v)). destruct (set_points_st (x_st s) p) as [-> |(_ & ->)]; auto.
  - unfold x_ready, nfields. unfold check_ready. destruct (b_ready (x_st s)) eqn:R; [cbn; auto|]. destruct (_ =? 0)%nat; [cbn; congruence|]. cbv zeta.
    destruct (negb _); [cbn; congruence|]. destruct (negb _); [cbn; congruence|]. destruct (negb _); [cbn; congruence|]. cbn. auto.
Qed.
Lemma ready_nf qf ap c0 hs : let s := xrun (x_create qf ap c0) hs in b_ready (x_st s) = true -> q_imm (b_qf (x_st s)) = true /\ (nfields s <= b_nf (x_st s))%nat.
Proof.
  cbv zeta. induction hs as [|h hs IH] using rev_ind; [discriminate|]. rewrite xrun_snoc. set (s := xrun (x_create qf ap c0) hs) in *. intros R.
  pose proof (nf_mono s h). destruct (ready_step _ _ R) as [R'|(-> & K & Q & N)].
  - destruct (IH R') as (Q & N). destruct (BuildProps.m_qf _ _ (xstep_moved s h) Q) as (E1 & E2 & E3). unfold nfields in *. rewrite E1, E2. split; [exact E3|lia].
  - split; [exact Q|]. rewrite N. destruct (b_ready (x_st s)) eqn:R0; [destruct (IH eq_refl); lia|]. pose proof (check_ready_ok _ K R0). unfold nfields. lia.
Qed.
Lemma ready_fields qf ap c0 hs : let s := xrun (x_create qf ap c0) hs in fst (check_ready (x_st s)) = Ok tt -> (nfields s <= b_nf (x_st s))%nat.
Proof. cbv zeta. intros K. destruct (b_ready (x_st (xrun (x_create qf ap c0) hs))) eqn:R; [apply ready_nf; exact R|]. pose proof (check_ready_ok _ K R). unfold nfields. lia. Qed.
Lemma at_len q sd i f : qf_at q sd i = Some f -> (i < List.length (if sd then q_in q else q_out q))%nat.
Proof. unfold qf_at. intros H. apply nth_error_Some. congruence. Qed.
Lemma covered qf ap c0 hs : let s := xrun (x_create qf ap c0) hs in fst (check_ready (x_st s)) = Ok tt -> covers s (b_nf (x_st s)).
Proof.
  cbv zeta. intros K sd i L. pose proof (ready_fields qf ap c0 hs K) as N. set (s := xrun (x_create qf ap c0) hs) in *.
  assert (D : x_slot s sd i = FNull \/ x_slot s sd i <> FNull). { destruct (x_slot _ _ _); auto; right; discriminate. } destruct D as [D|D]; [exact D|]. exfalso.
  destruct (origin qf ap c0 hs sd i D) as (Q & l1 & x & l2 & _ & _ & F & _). destruct (BuildProps.find_field_at _ _ _ _ F) as (f & Hf & _). apply at_len in Hf. fold s in Hf. unfold nfields in N. destruct sd; lia.
Qed.
(** every field of the QFunction is set *)
Lemma complete qf ap c0 hs : let s := xrun (x_create qf ap c0) hs in once2 (x_create qf ap c0) hs -> fst (check_ready (x_st s)) = Ok tt ->
  forall (sd : bool) i, (i < List.length (if sd then q_in (b_qf (x_st s)) else q_out (b_qf (x_st s))))%nat -> xset s (sd, i).
Proof.
  cbv zeta. intros O K sd i L. destruct (counted _ _ _ _ O) as (M & N & I & E). pose proof (ready_fields qf ap c0 hs K) as NF. set (s := xrun (x_create qf ap c0) hs) in *.
  apply I. assert (INC : incl M (BuildProps.all_slots (b_qf (x_st s)))).
  { intros (a, b) H. apply BuildProps.all_slots_in. apply I in H. destruct H as (f & H). cbn in H. destruct (origin qf ap c0 hs a b) as (_ & l1 & x & l2 & _ & _ & F & _); [fold s; congruence|].
    destruct (BuildProps.find_field_at _ _ _ _ F) as (g & Hg & _). exists g. exact Hg. }
  assert (INC2 : incl (BuildProps.all_slots (b_qf (x_st s))) M).
  { apply NoDup_length_incl; auto. rewrite BuildProps.all_slots_len, E. exact NF. }
  apply INC2. apply BuildProps.all_slots_in. unfold qf_at. destruct (nth_error _ i) eqn:H; [eauto|]. apply nth_error_None in H. lia.
Qed.
