(** * Multigrid levels: lemmas for C68 *)
From Coq Require Import List ZArith Lia Bool Arith.
From Verif Require Import Prelude RstrModel BasisModel StrModel QfModel BuildModel BuildProofs FbModel QueModel QueProofs QueProps MlModel.
From Verif Require BuildProps.
Import ListNotations.
Local Open Scope Z_scope.

Definition robj (rf : rfine) : option obj := match rf with Some (rn, _) => option_map ORstr rn | None => None end.
Definition xsets (l : list xcall) : list xh := map XSet l.
Definition name_of (x : xcall) : str := c_name (xc x).

Lemma xrun_app s a b : xrun s (a ++ b) = xrun (xrun s a) b.
Proof. unfold xrun. apply fold_left_app. Qed.

(** ** Distinct names are enough *)
Lemma xsets_in l x : In (XSet x) (xsets l) -> In x l.
Proof. intros H. apply in_map_iff in H. destruct H as (y & E & H). injection E as <-. exact H. Qed.
Lemma xsets_split l l1 x r : xsets l = l1 ++ XSet x :: r -> exists a b, l = a ++ x :: b /\ l1 = xsets a /\ r = xsets b.
Proof.
  revert l1. induction l as [|y l IH]; intros l1 E; [destruct l1; discriminate|]. destruct l1 as [|h l1].
  - cbn in E. injection E as <- <-. exists [], l. auto.
  - cbn in E. injection E as <- E. destruct (IH l1 E) as (a & b & -> & -> & ->). exists (y :: a), b. auto.
Qed.
Lemma nodup_once2 s l : NoDup (map name_of l) -> once2 s (xsets l).
Proof.
  intros N l1 x1 l2 x2 l3 E H. exfalso. apply xsets_split in E. destruct E as (a & b & -> & -> & E). symmetry in E. apply xsets_split in E. destruct E as (c & d & -> & -> & ->).
  rewrite map_app in N. cbn [map] in N. apply NoDup_remove_2 in N. apply N. apply in_or_app. right. rewrite map_app. apply in_or_app. right. left. symmetry. exact H.
Qed.
Lemma once2_ready s hs : once2 s hs -> once2 s (hs ++ [XReady]).
Proof.
  intros O l1 x1 l2 x2 l3 E. destruct l3 as [|h l3] using rev_ind.
  - exfalso. rewrite app_comm_cons, app_assoc in E. change [XSet x2] with ([] ++ [XSet x2]) in E. apply app_inj_tail in E. destruct E. discriminate.
  - clear IHl3. apply (O l1 x1 l2 x2 l3). rewrite !app_comm_cons, !app_assoc in E. apply app_inj_tail in E. destruct E as (-> & _). rewrite <- !app_assoc. reflexivity.
Qed.

(** ** A checked operator *)
Lemma ready_again s : fst (x_ready s) = Ok tt -> fst (check_ready (x_st (snd (x_ready s)))) = Ok tt /\ b_ready (x_st (snd (x_ready s))) = true.
Proof.
  unfold x_ready. destruct (check_ready (x_st s)) as (r, st) eqn:E. cbn [fst snd]. intros ->. cbn [x_with x_st].
  assert (B : b_ready st = true).
  { unfold check_ready in E. destruct (b_ready (x_st s)) eqn:R; [injection E as <-; exact R|]. destruct (_ =? 0)%nat; [discriminate|]. cbv zeta in E. repeat (destruct (negb _); [discriminate|]). injection E as <-. reflexivity. }
  split; [|exact B]. unfold check_ready. rewrite B. reflexivity.
Qed.

(** ** The loop over the fields *)
Definition clones (a : args) (F : xop) (p : bool * nat) (x : xcall) : Prop :=
  exists f h, x_slot F (fst p) (snd p) = FSet f /\ x_hnd F (fst p) (snd p) = Some h /\ x = clone_call a f h.
(** what rstr_fine can be *)
Definition rf_ok (F : xop) (rf : rfine) : Prop :=
  match rf with None => True | Some (rn, rd) => exists sd i f h, x_slot F sd i = FSet f /\ x_hnd F sd i = Some h /\ h_v h = VActive /\ rn = h_r h /\ rd = of_r f end.

Lemma clone_ok a F sd l : forall s rf t s' rf' t', clone a F sd l s rf t = (Ok tt, s', rf', t') ->
  exists xs, s' = xrun s (xsets xs) /\ Forall2 (clones a F) (map (pair sd) l) xs /\ (forall o, t' o = t o + onep (robj rf') o - onep (robj rf) o) /\
    (rf_ok F rf -> rf_ok F rf') /\ (forall r, rf = Some r -> rf' = Some r) /\
    (forall i h, In i l -> x_hnd F sd i = Some h -> h_v h = VActive -> rf' <> None) /\
    (forall l1 x l2, xs = l1 ++ x :: l2 -> fst (xstep (xrun s (xsets l1)) (XSet x)) = Ok tt).
Proof.
  induction l as [|i l IH]; intros s rf t s' rf' t' E.
  - cbn in E. injection E as <- <- <-. exists []. split; [reflexivity|]. split; [constructor|]. split; [intros; lia|]. split; [auto|]. split; [auto|]. split; [intros ? ? []|]. intros [|] ? ? K; discriminate.
  - cbn [clone] in E. destruct (x_slot F sd i) as [| |f] eqn:S; [discriminate|discriminate|]. destruct (x_hnd F sd i) as [h|] eqn:H; [|discriminate]. cbv zeta in E.
    set (x := clone_call a f h) in *.
    set (t1 := take (take (take t (v_obj (h_v h))) (r_obj (hnd_of x))) (b_obj (hnd_of x))) in *.
    set (m := match h_v h, rf with VActive, None => (Some (h_r h, of_r f), take t1 (r_obj h)) | _, _ => (rf, t1) end) in *.
    assert (M : (forall o, snd m o = t1 o + onep (robj (fst m)) o - onep (robj rf) o) /\ (rf_ok F rf -> rf_ok F (fst m)) /\ (forall r, rf = Some r -> fst m = Some r) /\ (h_v h = VActive -> fst m <> None)).
    { unfold m. destruct rf as [(rn, rd)|].
      - destruct (h_v h); cbn [fst snd]; (split; [intros; lia|]); repeat split; auto; discriminate.
      - destruct (h_v h) eqn:V; cbn [fst snd]; (split; [intros o; try rewrite take_eq; cbn [robj onep]; unfold r_obj; try lia|]); repeat split; auto; try discriminate.
        intros _. exists sd, i, f, h. auto. }
    destruct m as (rf1, t2). cbn [fst snd] in M. destruct M as (M1 & M2 & M3 & M4). destruct (x_set s x) as (r, s1) eqn:X. destruct r as [[]| |]; try discriminate.
    destruct (IH _ _ _ _ _ _ E) as (xs & -> & A2 & A3 & A4 & A5 & A6 & A7). exists (x :: xs). split; [|split; [|split; [|split; [|split; [|split]]]]].
    + cbn [xsets map]. unfold xrun at 2. cbn [fold_left xstep]. rewrite X. reflexivity.
    + cbn [map]. constructor; [exists f, h; auto|exact A2].
    + intros o. rewrite A3, !drop_eq, M1. unfold t1. rewrite !take_eq. lia.
    + auto.
    + intros r0 R. apply A5, M3. exact R.
    + intros j h' [<-|J] Hj V; [|eapply A6; eauto]. rewrite H in Hj. injection Hj as <-. specialize (M4 V). destruct rf1 as [r1|]; [|congruence]. rewrite (A5 _ eq_refl). discriminate.
    + intros [|y l1] z l2 K; cbn in K; injection K as <- K.
      * cbn [xsets map]. unfold xrun. cbn [fold_left xstep]. rewrite X. reflexivity.
      * cbn [xsets map]. unfold xrun. cbn [fold_left xstep]. rewrite X. apply (A7 l1 z l2 K).
Qed.

(** ** The fine operator after CeedOperatorCheckReady *)
Section Fine.
Variables (qf : qfun) (ap : bool) (c0 : cnts) (hs : list xh).
Let s0 := x_create qf ap c0.
Let F := xrun s0 hs.
Hypothesis O : once2 s0 hs.
Hypothesis R : fst (check_ready (x_st F)) = Ok tt.
Let q := b_qf (x_st F).

(** the name of a field tells where it is *)
Lemma fine_name sd i f : x_slot F sd i = FSet f -> q_imm q = true /\ find_field q (of_name f) = Some (sd, i).
Proof.
  intros S. destruct (origin qf ap c0 hs sd i) as (Q & l1 & x & l2 & _ & _ & N & G). { fold s0 F. congruence. } fold s0 F q in Q, N. destruct (G f S) as (_ & -> & _). cbn [of_name]. auto.
Qed.
Lemma fine_hnd sd i f h : x_slot F sd i = FSet f -> x_hnd F sd i = Some h -> h_v h <> VActive -> forall a, hnd_of (clone_call a f h) = h /\ clone_call a f h = XC (Call (of_name f) (of_r f) (of_b f) (of_v f)) (xc_r (clone_call a f h)) (xc_b (clone_call a f h)).
Proof.
  intros S H V a. destruct (origin qf ap c0 hs sd i) as (_ & l1 & x & l2 & _ & _ & N & G). { fold s0 F. congruence. } destruct (G f S) as (_ & -> & X). fold s0 F in X. rewrite H in X. injection X as ->.
  clear - V. destruct x as [[n r b v] ri bi]. unfold clone_call, hnd_of in *. cbn in *. destruct v; try congruence; (split; [|reflexivity]); cbn; destruct r, b; reflexivity.
Qed.
Definition places : list (bool * nat) := map (pair true) (seq 0 (List.length (q_in q))) ++ map (pair false) (seq 0 (List.length (q_out q))).
Lemma places_nodup : NoDup places.
Proof.
  unfold places. assert (P : forall b : bool, NoDup (map (pair b) (seq 0 (List.length (if b then q_in q else q_out q))))).
  { intros b. apply FinFun.Injective_map_NoDup; [intros x y E; injection E; auto|apply seq_NoDup]. }
  pose proof (P true) as PT. pose proof (P false) as PF. cbn in PT, PF. clear P. induction (map (pair true) (seq 0 (List.length (q_in q)))) as [|y l IH] eqn:E in PT |- *; [exact PF|].
  cbn [app]. inversion PT; subst. assert (K : forall z, In z (map (pair true) (seq 0 (List.length (q_in q)))) -> fst z = true). { intros z Z. apply in_map_iff in Z. destruct Z as (k & <- & _). reflexivity. }
  rewrite E in K. clear E IH. revert K PT. assert (KF : forall z, In z (map (pair false) (seq 0 (List.length (q_out q)))) -> fst z = false). { intros z Z. apply in_map_iff in Z. destruct Z as (k & <- & _). reflexivity. }
  intros K PT. change (NoDup ((y :: l) ++ map (pair false) (seq 0 (List.length (q_out q))))). clear H1 H2. revert K PT. generalize (y :: l). intros m. induction m as [|z m IH]; intros K PT; [exact PF|]. cbn [app]. inversion PT; subst. constructor.
  - intros I. apply in_app_or in I. destruct I as [I|I]; [contradiction|]. apply KF in I. rewrite (K z) in I by (left; reflexivity). discriminate.
  - apply IH; [intros w W; apply K; right; exact W|assumption].
Qed.
Lemma clones_names a ps xs : Forall2 (clones a F) ps xs -> map (fun x => find_field q (name_of x)) xs = map Some ps.
Proof.
  induction 1 as [|(sd, i) x ps xs (f & h & S & H & ->) _ IH]; [reflexivity|]. cbn [map]. rewrite IH. f_equal. cbn [fst snd] in S. destruct (fine_name _ _ _ S) as (_ & N). rewrite <- N.
  unfold name_of, clone_call. destruct (h_v h); reflexivity.
Qed.
Lemma clones_nodup a xs : Forall2 (clones a F) places xs -> NoDup (map name_of xs).
Proof.
  intros H. apply clones_names in H. apply (NoDup_map_inv (find_field q)). rewrite map_map, H. apply FinFun.Injective_map_NoDup; [intros x y E; injection E; auto|apply places_nodup].
Qed.
Lemma fine_imm : places <> [] -> q_imm q = true.
Proof.
  intros NE. unfold places in NE. destruct (q_in q) as [|g l] eqn:E.
  - destruct (q_out q) as [|g l] eqn:E2; [cbn in NE; congruence|].
    destruct (field_at qf ap c0 hs O R false 0) as (f & h & S & _); [fold s0 F q; rewrite E2; cbn; lia|]. apply (fine_name _ _ _ S).
  - destruct (field_at qf ap c0 hs O R true 0) as (f & h & S & _); [fold s0 F q; rewrite E; cbn; lia|]. apply (fine_name _ _ _ S).
Qed.
End Fine.

(** ** CeedOperatorSetField and the QFunction *)
Lemma set_field_qf st c : q_in (b_qf (snd (set_field st c))) = q_in (b_qf st) /\ q_out (b_qf (snd (set_field st c))) = q_out (b_qf st).
Proof.
  destruct (set_field st c) as (e, st') eqn:E. cbn [snd]. destruct e as [[]|z|].
  - destruct (set_field_ok_inv st c) as (side & i & f & A). { rewrite E. reflexivity. } rewrite (set_field_accepts _ _ _ _ _ A) in E. injection E as <-. cbn. auto.
  - destruct (set_field_err _ _ _ _ E) as (A1&A2&A3&A4&A5&A6&A7&A8&A9&A10&A11&_); [discriminate|]. destruct A11 as [-> | ->]; cbn; auto.
  - destruct (set_field_err _ _ _ _ E) as (A1&A2&A3&A4&A5&A6&A7&A8&A9&A10&A11&_); [discriminate|]. destruct A11 as [-> | ->]; cbn; auto.
Qed.
Lemma check_ready_qf st : q_in (b_qf (snd (check_ready st))) = q_in (b_qf st) /\ q_out (b_qf (snd (check_ready st))) = q_out (b_qf st).
Proof. unfold check_ready. destruct (b_ready st); [auto|]. destruct (_ =? 0)%nat; [auto|]. cbv zeta. repeat (destruct (negb _); [auto|]). auto. Qed.
Lemma find_field_eq q q' n : q_in q' = q_in q -> q_out q' = q_out q -> find_field q' n = find_field q n.
Proof. intros A B. unfold find_field. rewrite A, B. reflexivity. Qed.
Definition plain (h : xh) : Prop := match h with XSet _ | XReady => True | _ => False end.
Lemma xrun_qf hs : forall s, Forall plain hs -> q_in (b_qf (x_st (xrun s hs))) = q_in (b_qf (x_st s)) /\ q_out (b_qf (x_st (xrun s hs))) = q_out (b_qf (x_st s)).
Proof.
  induction hs as [|h hs IH]; intros s P; [auto|]. inversion P; subst. change (xrun s (h :: hs)) with (xrun (snd (xstep s h)) hs). destruct (IH (snd (xstep s h)) H2) as (A & B). rewrite A, B. destruct h; try contradiction; cbn [xstep].
  - rewrite (proj1 (x_set_st s x)). apply set_field_qf.
  - unfold x_ready. pose proof (check_ready_qf (x_st s)). destruct (check_ready (x_st s)). exact H.
Qed.
Lemma plain_sets xs : Forall plain (xsets xs).
Proof. unfold xsets. apply Forall_forall. intros h H. apply in_map_iff in H. destruct H as (x & <- & _). exact I. Qed.

(** ** An operator built by distinct accepted calls *)
Definition op_of (q : qfun) (xs : list xcall) : xop := xrun (x_create q false zero) (xsets xs ++ [XReady]).
Lemma op_of_spec q xs : NoDup (map name_of xs) -> fst (check_ready (x_st (op_of q xs))) = Ok tt ->
  (forall o, x_destroy (op_of q xs) o = 0) /\
  (forall x sd i, In x xs -> find_field q (name_of x) = Some (sd, i) -> x_slot (op_of q xs) sd i = FSet (OF (c_name (xc x)) (c_r (xc x)) (c_b (xc x)) (c_v (xc x))) /\ x_hnd (op_of q xs) sd i = Some (hnd_of x)) /\
  (forall sd i, x_slot (op_of q xs) sd i <> FNull -> exists x, In x xs /\ find_field q (name_of x) = Some (sd, i)).
Proof.
  intros N R. pose proof (once2_ready _ _ (nodup_once2 (x_create q false zero) xs N)) as O. unfold op_of in *.
  assert (Q : forall n, find_field (b_qf (x_st (xrun (x_create q false zero) (xsets xs ++ [XReady])))) n = find_field q n).
  { intros n. destruct (xrun_qf (xsets xs ++ [XReady]) (x_create q false zero)) as (A & B). { apply Forall_app. split; [apply plain_sets|repeat constructor]. } apply find_field_eq; [exact A|exact B]. }
  assert (S : forall sd i, x_slot (xrun (x_create q false zero) (xsets xs ++ [XReady])) sd i <> FNull -> exists x, In x xs /\ find_field q (name_of x) = Some (sd, i) /\
    (forall f, x_slot (xrun (x_create q false zero) (xsets xs ++ [XReady])) sd i = FSet f -> f = OF (c_name (xc x)) (c_r (xc x)) (c_b (xc x)) (c_v (xc x)) /\ x_hnd (xrun (x_create q false zero) (xsets xs ++ [XReady])) sd i = Some (hnd_of x))).
  { intros sd i D. destruct (origin q false zero (xsets xs ++ [XReady]) sd i D) as (_ & l1 & x & l2 & E & _ & F & G). rewrite Q in F. exists x. split; [|split; [exact F|]].
    - assert (K : In (XSet x) (xsets xs ++ [XReady])) by (rewrite E; apply in_or_app; right; left; reflexivity). apply in_app_or in K. destruct K as [K|[K|[]]]; [apply xsets_in; exact K|discriminate].
    - intros f E2. destruct (G f E2) as (_ & A & B). auto. }
  split; [|split].
  - intros o. apply (C66_released q false zero _ o O R).
  - intros x sd i Ix F. assert (L : (i < List.length (if sd then q_in (b_qf (x_st (xrun (x_create q false zero) (xsets xs ++ [XReady])))) else q_out (b_qf (x_st (xrun (x_create q false zero) (xsets xs ++ [XReady]))))))%nat).
    { rewrite <- Q in F. destruct (BuildProps.find_field_at _ _ _ _ F) as (g & Hg & _). apply at_len in Hg. exact Hg. }
    destruct (field_at q false zero _ O R sd i L) as (f & h & E1 & E2). destruct (S sd i) as (y & Iy & Fy & G); [congruence|]. destruct (G f E1) as (-> & E3).
    assert (XY : y = x).
    { assert (NM : name_of y = name_of x). { destruct (BuildProps.find_field_at _ _ _ _ F) as (g & Hg & <-). destruct (BuildProps.find_field_at _ _ _ _ Fy) as (g' & Hg' & <-). congruence. }
      clear - N Ix Iy NM. induction xs as [|z xs IH]; [contradiction|]. cbn in N. inversion N; subst. destruct Ix as [->|Ix], Iy as [->|Iy]; auto.
      - exfalso. apply H1. rewrite <- NM. apply in_map. exact Iy.
      - exfalso. apply H1. rewrite NM. apply in_map. exact Ix. }
    subst y. auto.
  - intros sd i D. destruct (S sd i D) as (x & A & B & _). eauto.
Qed.
Lemma set_all_ok l : forall s s', set_all s l = (Ok tt, s') -> s' = xrun s (xsets l ++ [XReady]) /\ fst (check_ready (x_st s')) = Ok tt.
Proof.
  induction l as [|x l IH]; intros s s' E.
  - cbn [set_all] in E. cbn [xsets map app]. unfold xrun. cbn [fold_left xstep]. rewrite E. split; [reflexivity|]. pose proof (ready_again s) as A. rewrite E in A. cbn [fst snd] in A. apply A. reflexivity.
  - cbn [set_all] in E. destruct (x_set s x) as (r, s1) eqn:X. destruct r as [[]| |]; try discriminate. destruct (IH _ _ E) as (-> & K). split; [|exact K].
    cbn [xsets map app]. unfold xrun at 2. cbn [fold_left xstep]. rewrite X. reflexivity.
Qed.
