(** * C68: creating a multigrid level keeps no references *)
From Coq Require Import List ZArith Lia Bool Arith.
From Verif Require Import Prelude RstrModel BasisModel StrModel QfModel BuildModel BuildProofs FbModel QueModel QueProofs QueProps MlModel MlProofs.
From Verif Require BuildProps.
Import ListNotations.
Local Open Scope Z_scope.

Definition bobj (b : option (nat * bdesc)) : option obj := option_map (fun p => OBasis (fst p)) b.
Definition ncomp (a : args) : Z := bd_comp (bi_d (a_info a (a_bci a))).
Definition rcalls (a : args) (n : nat) (rd : rarg) (bi : nat) (bd : bdesc) : list xcall :=
  [XC (Call nm_input rd BNone VActive) n 0; XC (Call nm_scale rd BNone (VVec (a_mv a))) (a_rp a) 0; XC (Call nm_output (RArg (a_rc a)) (BArg bd) VActive) (a_rci a) bi].
Definition pcalls (a : args) (n : nat) (rd : rarg) (bi : nat) (bd : bdesc) : list xcall :=
  [XC (Call nm_input (RArg (a_rc a)) (BArg bd) VActive) (a_rci a) bi; XC (Call nm_scale rd BNone (VVec (a_mv a))) (a_rp a) 0; XC (Call nm_output rd BNone VActive) n 0].
Definition rq (a : args) := scale_qf (ncomp a) EvNone EvInterp.
Definition pq (a : args) := scale_qf (ncomp a) EvInterp EvNone.
Definition okop (s : xop) : Prop := fst (check_ready (x_st s)) = Ok tt.

Lemma finish_ok a oc kr kp t tend : lv_r (finish a oc (kr, kp) t tend) = Ok tt ->
  (a_wr a = true -> fst kr = Ok tt) /\ (a_wp a = true -> fst kp = Ok tt) /\ fst (x_ready oc) = Ok tt /\
  finish a oc (kr, kp) t tend = LV (Ok tt) (Some (snd (x_ready oc))) (if a_wr a then Some (snd kr) else None) (if a_wp a then Some (snd kp) else None) tend.
Proof.
  unfold finish. destruct kr as (r1, o1), kp as (r2, o2). destruct (a_wr a), (a_wp a); cbn [fst snd];
    repeat match goal with |- context [match ?x with Ok _ => _ | _ => _ end] => is_var x; destruct x as [[]| |]; cbn [lv_r] end; try discriminate;
    destruct (x_ready oc) as ([[]| |], oc'); cbn [lv_r]; try discriminate; intros _; cbn; repeat split; auto; try discriminate.
Qed.

Lemma restrict_op a n rd bi bd o : make_restrict a n rd bi bd (ncomp a) = (Ok tt, o) -> o = op_of (rq a) (rcalls a n rd bi bd) /\ okop (op_of (rq a) (rcalls a n rd bi bd)).
Proof. intros M. assert (K : o = op_of (rq a) (rcalls a n rd bi bd) /\ okop o) by (unfold op_of, rq, rcalls, okop; apply set_all_ok; exact M). destruct K as (-> & K). split; [apply eq_refl|exact K]. Qed.
Lemma prolong_op a n rd bi bd o : make_prolong a n rd bi bd (ncomp a) = (Ok tt, o) -> o = op_of (pq a) (pcalls a n rd bi bd) /\ okop (op_of (pq a) (pcalls a n rd bi bd)).
Proof. intros M. assert (K : o = op_of (pq a) (pcalls a n rd bi bd) /\ okop o) by (unfold op_of, pq, pcalls, okop; apply set_all_ok; exact M). destruct K as (-> & K). split; [apply eq_refl|exact K]. Qed.

Section Single.
Variables (qf : qfun) (ap : bool) (c0 : cnts) (hs : list xh).
Let s0 := x_create qf ap c0.
Let F := xrun s0 hs.
Hypothesis O : once2 s0 hs.
Hypothesis R : fst (check_ready (x_st F)) = Ok tt.
Let q := b_qf (x_st F).

Lemma clone_both a t s1 rf1 t1 oc rf t2 :
  clone a F true (seq 0 (List.length (q_in q))) (x_create q false zero) None t = (Ok tt, s1, rf1, t1) ->
  clone a F false (seq 0 (List.length (q_out q))) s1 rf1 t1 = (Ok tt, oc, rf, t2) ->
  exists xs, Forall2 (clones a F) (places qf ap c0 hs) xs /\ oc = xrun (x_create q false zero) (xsets xs) /\ (forall o, t2 o = t o + onep (robj rf) o) /\ rf_ok F rf /\
    ((exists i h, field F true i h /\ h_v h = VActive) -> rf <> None) /\
    (forall l1 x l2, xs = l1 ++ x :: l2 -> fst (xstep (xrun (x_create q false zero) (xsets l1)) (XSet x)) = Ok tt).
Proof.
  intros E1 E2. destruct (clone_ok _ _ _ _ _ _ _ _ _ _ E1) as (x1 & -> & A2 & A3 & A4 & A5 & A6 & A7). destruct (clone_ok _ _ _ _ _ _ _ _ _ _ E2) as (x2 & -> & B2 & B3 & B4 & B5 & B6 & B7).
  exists (x1 ++ x2). split; [apply Forall2_app; assumption|]. split; [unfold xsets; rewrite map_app, xrun_app; reflexivity|]. split; [intros o; rewrite B3, A3; cbn [robj onep]; lia|]. split; [apply B4, A4; exact I|]. split.
  - intros (i & h & ((f & S) & H) & V). assert (N1 : rf1 <> None). { apply (A6 i h); [|exact H|exact V]. apply in_seq. pose proof (field_lt qf ap c0 hs true i f S). fold s0 F q in H0. cbn in H0. lia. }
    destruct rf1 as [r|]; [|congruence]. rewrite (B5 r eq_refl). discriminate.
  - intros l1 x l2 E. destruct (Nat.lt_ge_cases (List.length l1) (List.length x1)) as [L|L].
    + apply app_eq_app in E. destruct E as (m & [(E3 & E4)|(E3 & E4)]).
      * destruct m as [|y m]; [rewrite app_nil_r in E3; subst; lia|]. cbn in E4. injection E4 as <- E4. apply (A7 l1 x m E3).
      * subst l1. rewrite app_length in L. lia.
    + apply app_eq_app in E. destruct E as (m & [(E3 & E4)|(E3 & E4)]).
      * subst x1. rewrite app_length in L. destruct m; [|cbn in L; lia]. cbn in E4. rewrite app_nil_r in *. rewrite <- (app_nil_l (x :: l2)) in E4. specialize (B7 [] x l2 (eq_sym E4)). exact B7.
      * subst l1. unfold xsets. rewrite map_app, xrun_app. apply (B7 m x l2 E4).
Qed.

Lemma single_ok a b t : lv_r (single a (Some F) b t) = Ok tt -> let L := single a (Some F) b t in
  exists xs, Forall2 (clones a F) (places qf ap c0 hs) xs /\ lv_c L = Some (op_of q xs) /\ okop (op_of q xs) /\ (forall o, lv_t L o = t o - onep (bobj b) o) /\
   (transfers a = false -> lv_rs L = None /\ lv_pr L = None) /\
   (transfers a = true -> exists n rd bi bd, b = Some (bi, bd) /\ rf_ok F (Some (Some n, rd)) /\
      lv_rs L = (if a_wr a then Some (op_of (rq a) (rcalls a n rd bi bd)) else None) /\ (a_wr a = true -> okop (op_of (rq a) (rcalls a n rd bi bd))) /\
      lv_pr L = (if a_wp a then Some (op_of (pq a) (pcalls a n rd bi bd)) else None) /\ (a_wp a = true -> okop (op_of (pq a) (pcalls a n rd bi bd)))).
Proof.
  cbv zeta. unfold single. fold q. destruct (clone a F true _ _ None t) as (((r1, s1), rf1), t1) eqn:E1. destruct r1 as [[]| |]; [|discriminate|discriminate].
  destruct (clone a F false _ s1 rf1 t1) as (((r2, oc), rf), t2) eqn:E2. destruct r2 as [[]| |]; [|discriminate|discriminate].
  destruct (clone_both _ _ _ _ _ _ _ _ E1 E2) as (xs & A1 & A2 & A3 & A4 & _ & _). clear E1 E2. destruct (transfers a) eqn:T.
  - destruct rf as [(rn, rd)|]; [|discriminate]. destruct (match rn with Some n => a_curl a n | None => false end); [discriminate|]. destruct (negb (a_pm a)); [discriminate|]. destruct rn as [n|]; [|discriminate].
    cbv zeta. destruct (a_mult a) as [[]| |]; [|discriminate|discriminate]. destruct b as [(bi, bd)|]; [|discriminate]. intros H. destruct (finish_ok _ _ _ _ _ _ H) as (H1 & H2 & H3 & H4). rewrite H4. clear H H4. cbn [lv_c lv_rs lv_pr lv_t].
    exists xs. split; [exact A1|]. assert (OC : snd (x_ready oc) = op_of q xs). { rewrite A2. unfold op_of. rewrite xrun_app. reflexivity. } rewrite <- OC. split; [reflexivity|]. split; [apply (ready_again oc H3)|]. split.
    { intros o. rewrite !add_eq, A3. cbn [robj option_map onep bobj fst]. lia. }
    split; [discriminate|]. intros _. exists n, rd, bi, bd. split; [reflexivity|]. split; [exact A4|].
    split; [|split; [|split]].
    + destruct (a_wr a); [|reflexivity]. specialize (H1 eq_refl). destruct (make_restrict a n rd bi bd (bd_comp _)) as (r, o) eqn:M. cbn [fst snd] in *. subst r. destruct (restrict_op _ _ _ _ _ _ M) as (E0 & _). f_equal. exact E0.
    + intros W. specialize (H1 W). destruct (make_restrict a n rd bi bd (bd_comp _)) as (r, o) eqn:M. cbn [fst] in H1. subst r. apply (restrict_op _ _ _ _ _ _ M).
    + destruct (a_wp a); [|reflexivity]. specialize (H2 eq_refl). destruct (make_prolong a n rd bi bd (bd_comp _)) as (r, o) eqn:M. cbn [fst snd] in *. subst r. destruct (prolong_op _ _ _ _ _ _ M) as (E0 & _). f_equal. exact E0.
    + intros W. specialize (H2 W). destruct (make_prolong a n rd bi bd (bd_comp _)) as (r, o) eqn:M. cbn [fst] in H2. subst r. apply (prolong_op _ _ _ _ _ _ M).
  - intros H. destruct (finish_ok _ _ _ _ _ _ H) as (H1 & H2 & H3 & H4). rewrite H4. clear H H4. cbn [lv_c lv_rs lv_pr lv_t].
    exists xs. split; [exact A1|]. assert (OC : snd (x_ready oc) = op_of q xs). { rewrite A2. unfold op_of. rewrite xrun_app. reflexivity. } rewrite <- OC. split; [reflexivity|]. split; [apply (ready_again oc H3)|]. split.
    { intros o. rewrite !drop_eq, A3. unfold robj, bobj. lia. }
    unfold transfers in T. apply orb_false_iff in T. destruct T as (-> & ->). split; [auto|discriminate].
Qed.
End Single.

(** ** Statements *)
(** The three ways to make a level: by projection, with an interpolation matrix and a tensor basis, with an interpolation matrix *)
Inductive how := ByProj (proj : res bdesc) | ByInterp (v : variant).
Definition level (w : how) (a : args) (F : option xop) : lv := match w with ByProj p => level_create a F p | ByInterp v => level_interp v a F end.
(** What stays counted when the operators made have been destroyed *)
Definition rest (x : option xop) (o : obj) : Z := match x with Some s => x_destroy s o | None => 0 end.
Definition remains (L : lv) (o : obj) : Z := lv_t L o + rest (lv_c L) o + rest (lv_rs L) o + rest (lv_pr L) o.
(** The coarse operator has the fields of the fine one, the active ones on the coarse space *)
Definition coarse_of (a : args) (F oc : xop) : Prop := forall sd i,
  (x_slot F sd i = FNull -> x_slot oc sd i = FNull) /\
  (forall f h, x_slot F sd i = FSet f -> x_hnd F sd i = Some h ->
    (h_v h = VActive -> x_slot oc sd i = FSet (OF (of_name f) (RArg (a_rc a)) (BArg (bi_d (a_info a (a_bci a)))) VActive) /\ x_hnd oc sd i = Some (HN (Some (a_rci a)) (Some (a_bci a)) VActive)) /\
    (h_v h <> VActive -> x_slot oc sd i = FSet f /\ x_hnd oc sd i = Some h)).

Section Level.
Variables (qf : qfun) (ap : bool) (c0 : cnts) (hs : list xh).
Let s0 := x_create qf ap c0.
Let F := xrun s0 hs.
Let F1 := xrun s0 (hs ++ [XReady]).
Hypothesis O : once2 s0 hs.
Hypothesis R : fst (check_ready (x_st F)) = Ok tt.

Lemma F1_eq : F1 = snd (x_ready F).
Proof. unfold F1. rewrite xrun_app. reflexivity. Qed.
Lemma F1_ready : fst (check_ready (x_st F1)) = Ok tt.
Proof. rewrite F1_eq. apply ready_again. unfold x_ready. destruct (check_ready (x_st F)). exact R. Qed.
Lemma F1_slot sd i : x_slot F1 sd i = x_slot F sd i /\ x_hnd F1 sd i = x_hnd F sd i.
Proof.
  rewrite F1_eq. unfold x_ready. destruct (check_ready (x_st F)) as (r, st) eqn:E. cbn [snd]. unfold x_slot, x_hnd, x_with. cbn [x_st x_in x_out]. split; [|reflexivity].
  unfold check_ready in E. destruct (b_ready (x_st F)); [injection E as <- <-; reflexivity|]. destruct (_ =? 0)%nat; [injection E as <- <-; reflexivity|]. cbv zeta in E.
  repeat (destruct (negb _); [injection E as <- <-; reflexivity|]). injection E as <- <-. reflexivity.
Qed.
Lemma F1_field sd i h : field F1 sd i h <-> field F sd i h.
Proof. unfold field. destruct (F1_slot sd i) as (-> & ->). reflexivity. Qed.
Lemma F1_sole p sd b : sole p F1 sd b <-> sole p F sd b.
Proof. unfold sole. split; intros ((i & h & A & B) & C); (split; [exists i, h; rewrite ?F1_field in *; auto|]); intros j k J; apply (C j k); apply F1_field; exact J. Qed.
Lemma fine_ready_eq : fine_ready (Some F) = (Ok tt, Some F1).
Proof. unfold fine_ready. rewrite F1_eq. unfold x_ready. destruct (check_ready (x_st F)). cbn [fst] in R. subst. reflexivity. Qed.

(** the query for the active basis *)
Lemma active_basis : let g := get_active_bases (Some F1) true false in
  (exists bf, aq_r g = Ok tt /\ aq_i g = Some bf /\ sole h_b F true bf /\ forall o, taken (Some F1) (aq_op g) o = onep (option_map OBasis bf) o) \/
  (exists e, aq_r g = Err e).
Proof.
  cbv zeta. destruct (C65_active h_b OBasis qf ap c0 (hs ++ [XReady]) true false (or_introl (conj eq_refl eq_refl)) (once2_ready _ _ O) F1_ready) as (A & B & C). fold s0 F1 in A, B, C.
  change (get_active h_b OBasis (Some F1) true false) with (get_active_bases (Some F1) true false) in *.
  destruct B as [B|[B|B]]; [left|right; eauto|right; eauto]. specialize (C B). destruct C as (C1 & C2 & s' & C3 & _ & _ & C4). destruct (proj1 A B) as (A1 & _). destruct (A1 eq_refl) as (bf & S).
  exists bf. assert (I : aq_i (get_active_bases (Some F1) true false) = Some bf) by (apply C1; auto). split; [exact B|]. split; [exact I|]. split; [apply F1_sole; exact S|].
  intros o. rewrite C3. cbn [taken]. rewrite C4, I. destruct (aq_o (get_active_bases (Some F1) true false)) as [z|] eqn:Z; [|lia]. exfalso. destruct (proj1 (C2 z) eq_refl) as (X & _). discriminate.
Qed.

(** every way that does not fail before comes to CeedSingleOperatorMultigridLevel *)
Lemma level_cases w a : (exists e t, e <> Ok tt /\ (match w with ByProj p => p <> UB | ByInterp _ => True end -> e <> UB) /\ level w a (Some F) = failed e t) \/
  (exists b t, level w a (Some F) = single a (Some F1) b t /\ (transfers a = true -> (exists bd, b = Some (a_b a, bd)) /\ exists bf, sole h_b F true bf) /\
     match w, transfers a with
     | ByInterp _, false => exists bf, sole h_b F true bf /\ forall o, t o - onep (bobj b) o = onep (option_map OBasis bf) o
     | _, _ => forall o, t o - onep (bobj b) o = 0
     end).
Proof.
  destruct w as [p|v]; cbn [level]; unfold level_create, level_interp; rewrite fine_ready_eq.
  - destruct (transfers a) eqn:T.
    + cbv zeta. destruct active_basis as [(bf & -> & -> & S & C)|(e & E)].
      * destruct p as [bd|e|].
        -- right. eexists _, _. split; [reflexivity|]. split; [intros _; split; eauto|]. intros o. rewrite drop_eq, add_eq, C. cbn [bobj option_map fst onep]. lia.
        -- left. eexists _, _. split; [|split; [|reflexivity]]; intros; discriminate.
        -- left. eexists _, _. split; [|split; [|reflexivity]]; [discriminate|intros X; congruence].
      * rewrite E. left. eexists _, _. split; [|split; [|reflexivity]]; intros; discriminate.
    + right. eexists _, _. split; [reflexivity|]. split; [discriminate|]. intros o. reflexivity.
  - cbv zeta. destruct active_basis as [(bf & -> & -> & S & C)|(e & E)].
    + destruct (negb _); [left; eexists _, _; split; [|split; [|reflexivity]]; intros; discriminate|]. destruct (transfers a) eqn:T.
      * destruct (negb _); [left; eexists _, _; split; [|split; [|reflexivity]]; intros; discriminate|]. destruct (make_basis v a (info_of (a_info a) bf)) as [(bd, z)|e|] eqn:M.
        -- right. eexists _, _. split; [reflexivity|]. split; [intros _; split; eauto|]. intros o. rewrite drop_eq, add_eq, C. cbn [bobj option_map fst onep]. lia.
        -- left. eexists _, _. split; [|split; [|reflexivity]]; intros; discriminate.
        -- exfalso. unfold make_basis, create_tensor, create_h1 in M. destruct v; [destruct (bi_tensor _); [|discriminate]|]; repeat (destruct (negb _); [discriminate|]); discriminate.
      * right. eexists _, _. split; [reflexivity|]. split; [discriminate|]. exists bf. split; [exact S|]. intros o. rewrite C. cbn [bobj option_map onep]. lia.
    + rewrite E. left. eexists _, _. split; [|split; [|reflexivity]]; intros; discriminate.
Qed.
End Level.

Lemma rcalls_nodup a n rd bi bd : NoDup (map name_of (rcalls a n rd bi bd)) /\ NoDup (map name_of (pcalls a n rd bi bd)).
Proof.
  assert (N : NoDup [nm_input; nm_scale; nm_output]). { repeat constructor; cbn; intuition discriminate. }
  split; exact N.
Qed.

(** ** C68: the theorems *)
(** For every fine operator that is ready (built by any history in which no name was passed again after being accepted or refused as incompatible), all arguments and all three ways of
    making a level: if the call succeeds, the counts of all restrictions, bases and vectors and the number of allocated fields are back at their old values once the operators made have been destroyed, in any
    order; for the two calls that take a matrix this needs that a transfer operator was asked for. *)
Theorem C68_released qf ap c0 hs w a : let s0 := x_create qf ap c0 in let F := xrun s0 hs in once2 s0 hs -> fst (check_ready (x_st F)) = Ok tt ->
  let L := level w a (Some F) in lv_r L = Ok tt -> (forall v, w = ByInterp v -> transfers a = true) -> forall o, remains L o = 0.
Proof.
  cbv zeta. intros O R H W o. destruct (level_cases qf ap c0 hs O R w a) as [(e & t & NE & _ & E)|(b & t & E & _ & B)]; rewrite E in H |- *; [cbn in H; congruence|].
  destruct (single_ok qf ap c0 (hs ++ [XReady]) a b t H) as (xs & A1 & A2 & A3 & A4 & A5 & A6). cbv zeta in *.
  pose proof (clones_nodup qf ap c0 (hs ++ [XReady]) a xs A1) as N. destruct (op_of_spec _ _ N A3) as (D & _). unfold remains. rewrite A2, A4. cbn [rest]. rewrite D.
  assert (T0 : t o - onep (bobj b) o = 0). { destruct w as [p|v]; [apply B|]. rewrite (W v eq_refl) in B. apply B. } rewrite T0. clear W B. destruct (transfers a).
  - destruct (A6 eq_refl) as (n & rd & bi & bd & _ & _ & B1 & B2 & B3 & B4). rewrite B1, B3. destruct (rcalls_nodup a n rd bi bd) as (N1 & N2).
    assert (X : rest (if a_wr a then Some (op_of (rq a) (rcalls a n rd bi bd)) else None) o = 0). { destruct (a_wr a); [|reflexivity]. apply (op_of_spec _ _ N1 (B2 eq_refl)). }
    assert (Y : rest (if a_wp a then Some (op_of (pq a) (pcalls a n rd bi bd)) else None) o = 0). { destruct (a_wp a); [|reflexivity]. apply (op_of_spec _ _ N2 (B4 eq_refl)). }
    rewrite X, Y. reflexivity.
  - destruct (A5 eq_refl) as (-> & ->). reflexivity.
Qed.

Lemma fld q xs : (forall x sd i, In x xs -> find_field q (name_of x) = Some (sd, i) -> x_slot (op_of q xs) sd i = FSet (OF (c_name (xc x)) (c_r (xc x)) (c_b (xc x)) (c_v (xc x))) /\ x_hnd (op_of q xs) sd i = Some (hnd_of x)) ->
  forall x sd i h, In x xs -> find_field q (name_of x) = Some (sd, i) -> hnd_of x = h -> field (op_of q xs) sd i h.
Proof. intros Q x sd i h K1 K2 <-. destruct (Q x _ _ K1 K2) as (K3 & K4). split; eauto. Qed.

(** If the call succeeds, the coarse operator is ready and has exactly the fields of the fine operator, the active ones with the coarse restriction and basis, the others unchanged; the transfer operators are made
    exactly if they were asked for, are ready, and have the fields input, scale and output on the coarse space with the new basis, on the restriction [n] of an active field of the fine operator without a
    basis, and on the copy of that restriction with the multiplicity. *)
Theorem C68_operators qf ap c0 hs w a : let s0 := x_create qf ap c0 in let F := xrun s0 hs in once2 s0 hs -> fst (check_ready (x_st F)) = Ok tt ->
  let L := level w a (Some F) in lv_r L = Ok tt ->
  (exists oc, lv_c L = Some oc /\ okop oc /\ coarse_of a F oc) /\ (lv_rs L = None <-> a_wr a = false) /\ (lv_pr L = None <-> a_wp a = false) /\
  exists n, (transfers a = true -> exists sd i h, field F sd i h /\ h_v h = VActive /\ h_r h = Some n) /\
    (forall s, lv_rs L = Some s -> okop s /\ field s true 0 (HN (Some n) None VActive) /\ field s true 1 (HN (Some (a_rp a)) None (VVec (a_mv a))) /\ field s false 0 (HN (Some (a_rci a)) (Some (a_b a)) VActive)) /\
    (forall s, lv_pr L = Some s -> okop s /\ field s true 0 (HN (Some (a_rci a)) (Some (a_b a)) VActive) /\ field s true 1 (HN (Some (a_rp a)) None (VVec (a_mv a))) /\ field s false 0 (HN (Some n) None VActive)).
Proof.
  cbv zeta. intros O R H. destruct (level_cases qf ap c0 hs O R w a) as [(e & t & NE & _ & E)|(b & t & E & BB & _)]; rewrite E in H |- *; [cbn in H; congruence|].
  destruct (single_ok qf ap c0 (hs ++ [XReady]) a b t H) as (xs & A1 & A2 & A3 & _ & A5 & A6). cbv zeta in *.
  pose proof (clones_nodup qf ap c0 (hs ++ [XReady]) a xs A1) as N. destruct (op_of_spec _ _ N A3) as (_ & D1 & D2).
  set (F1 := xrun (x_create qf ap c0) (hs ++ [XReady])) in *. pose proof (F1_slot qf ap c0 hs R) as FS. cbv zeta in FS. fold F1 in FS.
  assert (CP : forall p x, In x xs -> find_field (b_qf (x_st F1)) (name_of x) = Some p -> clones a F1 p x).
  { intros p x I1 I2. revert I1. pose proof (clones_names qf ap c0 (hs ++ [XReady]) a _ _ A1) as NM. fold F1 in NM. clear - A1 I2 NM. induction A1 as [|p' y ps xs C A IH]; [contradiction|]. cbn [map] in NM. injection NM as N1 N2. intros [->|I]; [|apply IH; auto]. rewrite I2 in N1. injection N1 as ->. exact C. }
  split; [|split; [|split]].
  - exists (op_of (b_qf (x_st F1)) xs). split; [exact A2|]. split; [exact A3|]. intros sd i. destruct (FS sd i) as (FS1 & FS2). split.
    + intros Z. destruct (x_slot (op_of (b_qf (x_st F1)) xs) sd i) eqn:S; [reflexivity| |]; exfalso;
      (destruct (D2 sd i) as (x & I1 & I2); [congruence|]; destruct (CP _ _ I1 I2) as (f' & h' & K & _); cbn [fst snd] in K; congruence).
    + intros f h S1 S2. rewrite <- FS1 in S1. rewrite <- FS2 in S2.
      assert (CX : In (clone_call a f h) xs /\ find_field (b_qf (x_st F1)) (name_of (clone_call a f h)) = Some (sd, i)).
      { assert (NM : name_of (clone_call a f h) = of_name f) by (unfold name_of, clone_call; destruct (h_v h); reflexivity). rewrite NM. split; [|apply (fine_name qf ap c0 (hs ++ [XReady]) _ _ _ S1)].
        assert (P : In (sd, i) (places qf ap c0 (hs ++ [XReady]))).
        { unfold places. pose proof (field_lt qf ap c0 (hs ++ [XReady]) sd i f S1) as L. apply in_or_app. destruct sd; [left|right]; apply in_map, in_seq; cbn in L; lia. }
        clear - A1 P S1 S2. induction A1 as [|p' y ps xs C A IH]; [contradiction|]. destruct P as [->|P]; [|right; apply IH; exact P]. left. destruct C as (f' & h' & C1 & C2 & ->). cbn [fst snd] in *. congruence. }
      destruct CX as (CX1 & CX2). destruct (D1 _ _ _ CX1 CX2) as (D3 & D4). split.
      * intros V. rewrite D3, D4. unfold clone_call, hnd_of. rewrite V. auto.
      * intros V. destruct (fine_hnd qf ap c0 (hs ++ [XReady]) sd i f h S1 S2 V a) as (E1 & E2). rewrite D4, E1. split; [|reflexivity]. rewrite D3, E2. cbn [xc c_name c_r c_b c_v]. destruct f; reflexivity.
  - destruct (transfers a) eqn:T; [destruct (A6 eq_refl) as (n & rd & bi & bd & _ & _ & -> & _); destruct (a_wr a); split; congruence|]. destruct (A5 eq_refl) as (-> & _). unfold transfers in T. apply orb_false_iff in T. tauto.
  - destruct (transfers a) eqn:T; [destruct (A6 eq_refl) as (n & rd & bi & bd & _ & _ & _ & _ & -> & _); destruct (a_wp a); split; congruence|]. destruct (A5 eq_refl) as (_ & ->). unfold transfers in T. apply orb_false_iff in T. tauto.
  - destruct (transfers a) eqn:T.
    + destruct (A6 eq_refl) as (n & rd & bi & bd & Eb & RF & B1 & B2 & B3 & B4). destruct (BB eq_refl) as ((bd' & Eb') & _). rewrite Eb in Eb'. injection Eb' as -> <-. exists n. split.
      { intros _. destruct RF as (sd & i & f & h & S1 & S2 & V & Hn & _). destruct (FS sd i) as (FS1 & FS2). exists sd, i, h. split; [split; [exists f; congruence|congruence]|]. auto. }
      assert (BN : rd <> RNone /\ rd <> RNull -> exists d, rd = RArg d). { destruct rd; intros (? & ?); try congruence. eauto. }
      assert (RA : exists d, rd = RArg d).
      { destruct RF as (sd & i & f & h & S1 & S2 & V & Hn & ->). destruct (origin qf ap c0 (hs ++ [XReady]) sd i) as (_ & l1 & x & l2 & _ & _ & _ & G). { fold F1. congruence. } destruct (G f S1) as (_ & -> & X). fold F1 in X. rewrite S2 in X. injection X as ->. cbn [of_r]. unfold hnd_of in Hn. cbn [h_r] in Hn. destruct (c_r (xc x)); try discriminate. eauto. }
      destruct RA as (d & ->). destruct (rcalls_nodup a n (RArg d) (a_b a) bd) as (N1 & N2). split.
      * intros s E1. rewrite B1 in E1. destruct (a_wr a); [|discriminate]. injection E1 as <-. specialize (B2 eq_refl). destruct (op_of_spec _ _ N1 B2) as (_ & Q & _). split; [exact B2|].
        split; [|split]; [apply (fld (rq a) (rcalls a n (RArg d) (a_b a) bd) Q (nth 0 (rcalls a n (RArg d) (a_b a) bd) (XC (Call [] RNone BNone VNull) 0 0))); [left; reflexivity|reflexivity|reflexivity]|apply (fld (rq a) (rcalls a n (RArg d) (a_b a) bd) Q (nth 1 (rcalls a n (RArg d) (a_b a) bd) (XC (Call [] RNone BNone VNull) 0 0))); [right; left; reflexivity|reflexivity|reflexivity]|apply (fld (rq a) (rcalls a n (RArg d) (a_b a) bd) Q (nth 2 (rcalls a n (RArg d) (a_b a) bd) (XC (Call [] RNone BNone VNull) 0 0))); [right; right; left; reflexivity|reflexivity|reflexivity]].
      * intros s E1. rewrite B3 in E1. destruct (a_wp a); [|discriminate]. injection E1 as <-. specialize (B4 eq_refl). destruct (op_of_spec _ _ N2 B4) as (_ & Q & _). split; [exact B4|].
        split; [|split]; [apply (fld (pq a) (pcalls a n (RArg d) (a_b a) bd) Q (nth 0 (pcalls a n (RArg d) (a_b a) bd) (XC (Call [] RNone BNone VNull) 0 0))); [left; reflexivity|reflexivity|reflexivity]|apply (fld (pq a) (pcalls a n (RArg d) (a_b a) bd) Q (nth 1 (pcalls a n (RArg d) (a_b a) bd) (XC (Call [] RNone BNone VNull) 0 0))); [right; left; reflexivity|reflexivity|reflexivity]|apply (fld (pq a) (pcalls a n (RArg d) (a_b a) bd) Q (nth 2 (pcalls a n (RArg d) (a_b a) bd) (XC (Call [] RNone BNone VNull) 0 0))); [right; right; left; reflexivity|reflexivity|reflexivity]].
    + destruct (A5 eq_refl) as (-> & ->). exists 0%nat. split; [discriminate|]. split; intros s X; discriminate.
Qed.

(** ** No undefined behaviour *)
Lemma check_field_defined f r b : check_field f r b <> UB.
Proof. unfold check_field. destruct (negb _); [discriminate|]. cbv zeta. destruct (negb _); [discriminate|]. destruct (_ && _); [discriminate|]. destruct (qf_mode f); try discriminate; destruct (_ =? _); discriminate. Qed.
Lemma set_field_defined st c : fst (set_field st c) <> UB.
Proof.
  unfold set_field. destruct (b_imm st); [discriminate|].
  destruct (c_r c) as [| |d]; try discriminate; destruct (c_b c) as [| |e]; try discriminate; destruct (c_v c) as [| | |v]; try discriminate;
  match goal with |- context [match ?m with inl _ => _ | inr _ => _ end] => match type of m with (res unit + opst)%type => set (M := m) end; assert (ME : forall x, M = inl x -> x <> UB) by
    (intros x EM XU; subst x; unfold M in EM; revert EM; destruct (r_pts _); [|discriminate]; destruct (negb (b_at st)); [discriminate|]; destruct (negb (is_bnone _)); [discriminate|]; destruct (b_first st); [|discriminate]; destruct (list_eq_dec _ _ _); discriminate); clearbody M end;
  destruct (negb _); try discriminate; destruct M as [x|st1]; try exact (ME x eq_refl);
  destruct (negb _); try discriminate; cbv zeta;
  match goal with |- context [find_field ?q ?n] => destruct (find_field q n) as [(sd, i)|] eqn:E2; [|discriminate]; destruct (BuildProps.find_field_at _ _ _ _ E2) as (g & Hg & _); rewrite Hg end;
  match goal with |- context [check_field ?gg ?r ?b] => pose proof (check_field_defined gg r b); destruct (check_field gg r b) as [[]| |]; [|discriminate|congruence] end;
  try discriminate; match goal with |- context [match ?m with inl _ => _ | inr _ => _ end] => destruct m; discriminate end.
Qed.
Lemma x_set_defined s x : fst (x_set s x) <> UB.
Proof. rewrite (proj2 (x_set_st s x)). apply set_field_defined. Qed.
Lemma x_ready_defined s : fst (x_ready s) <> UB.
Proof. unfold x_ready, check_ready. destruct (b_ready (x_st s)); [discriminate|]. destruct (_ =? 0)%nat; [discriminate|]. cbv zeta. repeat (destruct (negb _); [discriminate|]). discriminate. Qed.
Lemma set_all_defined l : forall s, fst (set_all s l) <> UB.
Proof.
  induction l as [|x l IH]; intros s; cbn [set_all]; [apply x_ready_defined|]. pose proof (x_set_defined s x). destruct (x_set s x) as (r, s'). cbn [fst] in *. destruct r; [apply IH|discriminate|congruence].
Qed.
Lemma finish_defined a oc kr kp t tend : fst kr <> UB -> fst kp <> UB -> lv_r (finish a oc (kr, kp) t tend) <> UB.
Proof.
  intros A B. unfold finish. pose proof (x_ready_defined oc). destruct kr as (r1, o1), kp as (r2, o2), (x_ready oc) as (r3, o3). cbn [fst] in *.
  destruct (a_wr a), (a_wp a); repeat match goal with |- context [match ?x with Ok _ => _ | _ => _ end] => is_var x; destruct x; cbn [lv_r] end; try congruence; discriminate.
Qed.
Lemma clone_defined qf ap c0 hs a (sd : bool) l : let F := xrun (x_create qf ap c0) hs in once2 (x_create qf ap c0) hs -> fst (check_ready (x_st F)) = Ok tt ->
  (forall i, In i l -> (i < List.length (if sd then q_in (b_qf (x_st F)) else q_out (b_qf (x_st F))))%nat) -> forall s rf t, fst (fst (fst (clone a F sd l s rf t))) <> UB.
Proof.
  cbv zeta. intros O R. induction l as [|i l IH]; intros L s rf t; cbn [clone]; [discriminate|]. destruct (field_at qf ap c0 hs O R sd i (L i (or_introl eq_refl))) as (f & h & -> & ->). cbv zeta.
  match goal with |- context [let (_, _) := ?m in _] => lazymatch type of m with (res unit * xop)%type => fail | _ => destruct m as (rf1, t2) end end. pose proof (x_set_defined s (clone_call a f h)) as X. destruct (x_set s (clone_call a f h)) as (r, s'). cbn [fst] in X. destruct r; [|discriminate|congruence].
  apply IH. intros j J. apply L. right. exact J.
Qed.
(** For every fine operator as above no way of making a level dereferences a NULL pointer: rstr_fine has been found whenever it is used, and it is never CEED_ELEMRESTRICTION_NONE *)
Theorem C68_defined qf ap c0 hs w a : let s0 := x_create qf ap c0 in let F := xrun s0 hs in once2 s0 hs -> fst (check_ready (x_st F)) = Ok tt ->
  a_mult a <> UB -> (forall p, w = ByProj p -> p <> UB) -> lv_r (level w a (Some F)) <> UB.
Proof.
  cbv zeta. intros O R MU W. destruct (level_cases qf ap c0 hs O R w a) as [(e & t & NE & U & E)|(b & t & E & BB & _)]; rewrite E. { cbn [failed lv_r]. apply U. destruct w; [apply (W _ eq_refl)|exact I]. }
  pose proof (once2_ready _ _ O) as O1. pose proof (F1_ready qf ap c0 hs R) as R1. pose proof (F1_field qf ap c0 hs R) as FF. cbv zeta in FF.
  set (F1 := xrun (x_create qf ap c0) (hs ++ [XReady])) in *. unfold single.
  pose proof (clone_defined qf ap c0 (hs ++ [XReady]) a true (seq 0 (List.length (q_in (b_qf (x_st F1))))) O1 R1) as D1. fold F1 in D1. specialize (D1 ltac:(intros i Hi; apply in_seq in Hi; lia) (x_create (b_qf (x_st F1)) false zero) None t).
  destruct (clone a F1 true _ _ None t) as (((r1, s1), rf1), t1) eqn:E1. cbn [fst] in D1. destruct r1 as [[]| |]; [|discriminate|congruence].
  pose proof (clone_defined qf ap c0 (hs ++ [XReady]) a false (seq 0 (List.length (q_out (b_qf (x_st F1))))) O1 R1) as D2. fold F1 in D2. specialize (D2 ltac:(intros i Hi; apply in_seq in Hi; lia) s1 rf1 t1).
  destruct (clone a F1 false _ s1 rf1 t1) as (((r2, oc), rf), t2) eqn:E2. cbn [fst] in D2. destruct r2 as [[]| |]; [|discriminate|congruence].
  destruct (clone_both qf ap c0 (hs ++ [XReady]) a t _ _ _ _ _ _ E1 E2) as (xs & A1 & A2 & _ & A4 & A5 & A6). fold F1 in A1, A2, A4, A5, A6. destruct (transfers a) eqn:T.
  - destruct (BB eq_refl) as ((bd & ->) & bf & ((i0 & h0 & Hf & V0 & _) & _)). destruct rf as [(rn, rd)|]; [|exfalso; apply A5; [exists i0, h0; split; [apply FF; exact Hf|exact V0]|reflexivity]].
    destruct (match rn with Some n => a_curl a n | None => false end); [discriminate|]. destruct (negb (a_pm a)); [discriminate|]. destruct rn as [n|].
    + cbv zeta. destruct (a_mult a) as [[]| |]; [|discriminate|congruence]. apply finish_defined; apply set_all_defined.
    + exfalso. destruct A4 as (sd & i & f & h & S1 & S2 & V & Hn & _).
      destruct (origin qf ap c0 (hs ++ [XReady]) sd i) as (_ & l1 & x & l2 & EH & _ & FN & G). { fold F1. congruence. } destruct (G f S1) as (OK & -> & X). fold F1 in X, FN. rewrite S2 in X. injection X as ->.
      unfold hnd_of in Hn. cbn [h_r] in Hn.
      (* in the fine operator the field has mode weight *)
      cbn [xstep] in OK. rewrite (proj2 (x_set_st _ _)) in OK. destruct (set_field_ok_inv _ _ OK) as (sd1 & i1 & g1 & Acc1). pose proof (fit_weight _ _ _ (ac_fits _ _ _ _ _ Acc1)) as FW. pose proof (fit_r _ _ _ (ac_fits _ _ _ _ _ Acc1)) as FR.
      assert (RN : c_r (xc x) = RNone) by (destruct (c_r (xc x)); congruence). apply FW in RN.
      (* in the coarse operator it has not *)
      assert (P : In (sd, i) (places qf ap c0 (hs ++ [XReady]))). { unfold places. pose proof (field_lt qf ap c0 (hs ++ [XReady]) sd i _ S1) as Lt. apply in_or_app. destruct sd; [left|right]; apply in_map, in_seq; cbn in Lt; lia. }
      assert (CX : exists m1 m2, xs = m1 ++ clone_call a (OF (c_name (xc x)) (c_r (xc x)) (c_b (xc x)) (c_v (xc x))) (hnd_of x) :: m2).
      { apply in_split. clear - A1 P S1 S2. induction A1 as [|p' y ps xs C A IH]; [contradiction|]. destruct P as [->|P]; [|right; apply IH; exact P]. left. destruct C as (f' & h' & C1 & C2 & ->). cbn [fst snd] in *. congruence. }
      destruct CX as (m1 & m2 & CX). specialize (A6 _ _ _ CX). cbn [xstep] in A6. rewrite (proj2 (x_set_st _ _)) in A6. destruct (set_field_ok_inv _ _ A6) as (sd2 & i2 & g2 & Acc2).
      pose proof (fit_weight _ _ _ (ac_fits _ _ _ _ _ Acc2)) as FW2. unfold clone_call in FW2 at 1. rewrite V in FW2. cbn [xc c_r] in FW2.
      assert (GG : g1 = g2).
      { pose proof (ac_find _ _ _ _ _ Acc2) as Fi2. pose proof (ac_f _ _ _ _ _ Acc2) as At2. destruct (xrun_qf (xsets m1) (x_create (b_qf (x_st F1)) false zero) (plain_sets m1)) as (Q1 & Q2).
        rewrite (find_field_eq _ _ _ Q1 Q2) in Fi2. unfold qf_at in At2. rewrite Q1, Q2 in At2. cbn [x_create x_st op_create b_qf] in Fi2, At2. unfold clone_call in Fi2. rewrite V in Fi2. cbn [xc c_name of_name] in Fi2. rewrite FN in Fi2. injection Fi2 as <- <-.
        pose proof (BuildProps.find_field_at _ _ _ _ FN) as (g & Hg & _). unfold qf_at in Hg. rewrite Hg in At2. injection At2 as <-.
        (* the QFunction at the time of the call was already the final one as far as this field goes *)
        pose proof (ac_find _ _ _ _ _ Acc1) as Fi1. pose proof (ac_f _ _ _ _ _ Acc1) as At1.
        assert (FRZ : q_in (b_qf (x_st F1)) = q_in (b_qf (x_st (xrun (x_create qf ap c0) l1))) /\ q_out (b_qf (x_st F1)) = q_out (b_qf (x_st (xrun (x_create qf ap c0) l1)))).
        { assert (Q : forall l s, q_imm (b_qf (x_st s)) = true -> q_in (b_qf (x_st (xrun s l))) = q_in (b_qf (x_st s)) /\ q_out (b_qf (x_st (xrun s l))) = q_out (b_qf (x_st s))).
          { induction l as [|hh l IH]; intros s Im; [auto|]. destruct (BuildProps.m_qf _ _ (xstep_moved s hh) Im) as (M1 & M2 & M3). change (xrun s (hh :: l)) with (xrun (snd (xstep s hh)) l). destruct (IH _ M3) as (I1 & I2). split; congruence. }
          unfold F1. rewrite EH, xrun_app. change (xrun (xrun (x_create qf ap c0) l1) (XSet x :: l2)) with (xrun (snd (x_set (xrun (x_create qf ap c0) l1) x)) l2).
          assert (ST : x_st (snd (x_set (xrun (x_create qf ap c0) l1) x)) = after (x_st (xrun (x_create qf ap c0) l1)) (xc x) sd1 i1). { rewrite (proj1 (x_set_st _ _)), (set_field_accepts _ _ _ _ _ Acc1). reflexivity. }
          destruct (Q l2 (snd (x_set (xrun (x_create qf ap c0) l1) x))) as (Q3 & Q4). { rewrite ST. reflexivity. } rewrite Q3, Q4, ST. auto. }
        destruct FRZ as (Z1 & Z2). rewrite <- (find_field_eq _ _ _ Z1 Z2), FN in Fi1. injection Fi1 as <- <-. unfold qf_at in At1. rewrite <- Z1, <- Z2 in At1. rewrite Hg in At1. injection At1 as <-. reflexivity. }
      rewrite GG in RN. apply FW2 in RN. discriminate.
  - apply finish_defined; discriminate.
Qed.

(** ** What the interpolation variants keep *)
(** Without transfer operators each successful call of CeedOperatorMultigridLevelCreateTensorH1 or CeedOperatorMultigridLevelCreateH1 keeps exactly one reference, to the active basis of the fine operator *)
Theorem C68_leak qf ap c0 hs v a : let s0 := x_create qf ap c0 in let F := xrun s0 hs in once2 s0 hs -> fst (check_ready (x_st F)) = Ok tt -> transfers a = false ->
  let L := level (ByInterp v) a (Some F) in lv_r L = Ok tt -> exists bf, sole h_b F true bf /\ forall o, remains L o = onep (option_map OBasis bf) o.
Proof.
  cbv zeta. intros O R T H. destruct (level_cases qf ap c0 hs O R (ByInterp v) a) as [(e & t & NE & _ & E)|(b & t & E & _ & B)]; rewrite E in H |- *; [cbn in H; congruence|]. rewrite T in B. destruct B as (bf & S & B). exists bf. split; [exact S|]. intros o.
  destruct (single_ok qf ap c0 (hs ++ [XReady]) a b t H) as (xs & A1 & A2 & A3 & A4 & A5 & _). cbv zeta in *. destruct (A5 T) as (N1 & N2).
  pose proof (clones_nodup qf ap c0 (hs ++ [XReady]) a xs A1) as N. destruct (op_of_spec _ _ N A3) as (D & _). unfold remains. rewrite A2, A4, N1, N2. cbn [rest]. rewrite D, B. lia.
Qed.

(** ** A concrete level: the mass operator of the earlier examples, restriction and basis 1, to restriction and basis 7 *)
Definition ex_info (n : nat) : binfo := BI (match c_b BuildProps.mass_cu with BArg d => d | _ => BD true 1 1 1 end) true 2 2 1.
Definition ex_rc : rdesc := match c_r BuildProps.mass_cu with RArg d => RD (rd_ne d) (rd_comp d) 1 4 None | _ => RD 0 0 0 0 None end.
Definition ex_a (wp wr pm : bool) : args := MA ex_rc 7 7 ex_info (fun _ => false) wp wr pm true (Ok tt) 8 9 9.
Definition ex_F := Eval vm_compute in xrun (x_create ex_q false zero) ex_hs.
Lemma ex_F_eq : xrun (x_create ex_q false zero) ex_hs = ex_F. Proof. vm_compute. reflexivity. Qed.
Definition ex_bd : bdesc := BD true 1 1 2.
Definition ex_w (k : nat) : how := match k with O => ByProj (Ok ex_bd) | 1%nat => ByInterp (VTensor (fun n => n)) | _ => ByInterp VH1 end.
Lemma ex_once : once2 (x_create ex_q false zero) ex_hs. Proof. apply once2b_ok. vm_compute. reflexivity. Qed.
Example C68_witness : fst (check_ready (x_st ex_F)) = Ok tt /\ lv_r (level (ex_w 0) (ex_a true true true) (Some ex_F)) = Ok tt /\ lv_r (level (ex_w 1) (ex_a true true true) (Some ex_F)) = Ok tt /\
  lv_r (level (ex_w 2) (ex_a true false true) (Some ex_F)) = Ok tt /\ lv_r (level (ex_w 0) (ex_a false false true) (Some ex_F)) = Ok tt /\
  lv_r (level (ex_w 1) (ex_a false false true) (Some ex_F)) = Ok tt.
Proof. vm_compute. repeat split. Qed.

(** Finding: CeedOperatorMultigridLevelCreateTensorH1 and CeedOperatorMultigridLevelCreateH1 destroy their reference to the basis of the fine operator only inside the conditional that makes
    transfer operators (ceed-preconditioning.c:2636, 2701), so that a successful call that asks for the coarse operator alone leaks a reference to that basis, which is then never freed. *)
Theorem C68_leak_refuted v : exists qf hs a, let F := xrun (x_create qf false zero) hs in once2 (x_create qf false zero) hs /\ fst (check_ready (x_st F)) = Ok tt /\
  let L := level (ByInterp v) a (Some F) in lv_r L = Ok tt /\ remains L (OBasis 1) = 1 /\ exists i h, field F true i h /\ h_v h = VActive /\ h_b h = Some 1%nat.
Proof.
  exists ex_q, ex_hs, (ex_a false false true). cbv zeta. rewrite ex_F_eq. split; [exact ex_once|]. split; [vm_compute; reflexivity|]. destruct v as [cb|]; (split; [vm_compute; reflexivity|]; split; [vm_compute; reflexivity|]; exists 0%nat, (HN (Some 1%nat) (Some 1%nat) VActive); split; [split; [eexists|]; vm_compute; reflexivity|split; reflexivity]).
Qed.

(** Finding: a call that fails keeps references. With transfer operators but without p_mult_fine all three calls return an error after the fine restriction and the new basis have been taken
    (ceed-preconditioning.c:939-946), and the reference to the restriction of the fine operator and the new basis are lost; without interp_c_to_f the reference to the basis of the fine operator is lost (2631, 2695). *)
Theorem C68_failed_refuted : exists qf hs, let F := xrun (x_create qf false zero) hs in once2 (x_create qf false zero) hs /\ fst (check_ready (x_st F)) = Ok tt /\
  (forall k, exists a, let L := level (ex_w k) a (Some F) in lv_r L = Err ERR_INCOMPATIBLE /\ transfers a = true /\ a_pm a = false /\ lv_t L (ORstr 1) = 1 /\ lv_t L (OBasis (a_b a)) = 1) /\
  (forall v, exists a, let L := level (ByInterp v) a (Some F) in lv_r L = Err ERR_INCOMPATIBLE /\ transfers a = true /\ a_im a = false /\ lv_c L = None /\ lv_t L (OBasis 1) = 1).
Proof.
  exists ex_q, ex_hs. cbv zeta. rewrite ex_F_eq. split; [exact ex_once|]. split; [vm_compute; reflexivity|]. split.
  - intros k. exists (ex_a true true false). destruct k as [|[|k]]; vm_compute; repeat split.
  - intros v. exists (MA ex_rc 7 7 ex_info (fun _ => false) true true true false (Ok tt) 8 9 9). destruct v; vm_compute; repeat split.
Qed.

(** ** The size of the interpolation matrix *)
(** In one, two and three dimensions, with n nodes per direction on the coarse level and a cube root whose integer part is right at n^3, exactly P_1d * n entries of interp_c_to_f are read, and the new basis has
    the dimension and components of the fine one and as many points as the fine basis has nodes; the non-tensor call reads (fine nodes) * (coarse nodes) entries *)
Theorem C68_interp cb a f n : 0 < n -> 0 < bd_comp (bi_d f) -> bi_tensor f = true -> 0 < bi_p1 f -> 0 < bd_dim (bi_d f) <= 3 -> rd_esz (a_rc a) = n ^ bd_dim (bi_d f) -> cb (n ^ 3) = n ->
  make_basis (VTensor cb) a f = Ok (BD true (bd_dim (bi_d f)) (bd_comp (bi_d f)) (bi_p1 f ^ bd_dim (bi_d f)), bi_p1 f * n).
Proof.
  intros N C T P D E K. unfold make_basis. rewrite T, E. set (d := bd_dim (bi_d f)) in *.
  assert (X : nodes_1d cb d (n ^ d) = n).
  { unfold nodes_1d. assert (d = 1 \/ d = 2 \/ d = 3) as [->|[->| ->]] by lia; cbn [Z.eqb Pos.eqb]; [apply Z.pow_1_r| |exact K]. rewrite Z.pow_2_r. apply Z.sqrt_square. lia. }
  rewrite X. unfold create_tensor. destruct (Z.ltb_spec 0 d); [|lia]. destruct (Z.ltb_spec 0 (bd_comp (bi_d f))); [|lia]. destruct (Z.ltb_spec 0 n); [|lia]. destruct (Z.ltb_spec 0 (bi_p1 f)); [|lia]. reflexivity.
Qed.
Theorem C68_interp_h1 a f : 0 < bd_comp (bi_d f) -> 0 < bi_p f -> 0 < rd_esz (a_rc a) -> make_basis VH1 a f = Ok (BD true (bi_td f) (bd_comp (bi_d f)) (bi_p f), bi_p f * rd_esz (a_rc a)).
Proof. intros C P E. unfold make_basis, create_h1. destruct (Z.ltb_spec 0 (bd_comp (bi_d f))); [|lia]. destruct (Z.ltb_spec 0 (rd_esz (a_rc a))); [|lia]. destruct (Z.ltb_spec 0 (bi_p f)); [|lia]. reflexivity. Qed.
(** Finding: CeedOperatorMultigridLevelCreateTensorH1 takes the cube root of the number of coarse nodes in every dimension but one and two (ceed-preconditioning.c:2638). In dimension four, which
    CeedBasisCreateTensorH1 accepts, 3^4 = 81 coarse nodes give 4 nodes per direction, the call succeeds, and P_1d more entries of interp_c_to_f are read than the matrix has. *)
Theorem C68_dim4_refuted cb : (forall m k, 0 <= k -> k ^ 3 <= m < (k + 1) ^ 3 -> cb m = k) -> exists a f, bi_tensor f = true /\ 0 < bi_p1 f /\ rd_esz (a_rc a) = 3 ^ bd_dim (bi_d f) /\ bi_p f = bi_p1 f ^ bd_dim (bi_d f) /\
  exists bd, make_basis (VTensor cb) a f = Ok (bd, bi_p1 f * 3 + bi_p1 f).
Proof.
  intros K. exists (MA (RD 1 1 81 81 None) 7 7 ex_info (fun _ => false) true true true true (Ok tt) 8 9 9), (BI (BD true 4 1 625) true 625 5 4). cbn [a_rc rd_esz bi_tensor bi_p1 bi_d bd_dim bi_p]. repeat split; try reflexivity.
  unfold make_basis, nodes_1d. cbn [bi_tensor bi_d bd_dim Z.eqb Pos.eqb a_rc rd_esz bd_comp bi_p1]. rewrite (K 81 4) by lia. eexists. reflexivity.
Qed.
(** the integer part of the cube root exists: the hypotheses of the last theorems can be met *)
Fixpoint icbrt (f : nat) (k m : Z) : Z := match f with O => k | S f => if (k + 1) ^ 3 <=? m then icbrt f (k + 1) m else k end.
Lemma icbrt_ok f : forall k m j, 0 <= k <= j -> j - k <= Z.of_nat f -> j ^ 3 <= m < (j + 1) ^ 3 -> icbrt f k m = j.
Proof.
  induction f as [|f IH]; intros k m j H D M; cbn [icbrt]; [lia|]. destruct (Z.leb_spec ((k + 1) ^ 3) m) as [L|L].
  - assert (k <> j) by (intros ->; lia). apply IH; lia.
  - destruct (Z.eq_dec k j) as [|N]; [assumption|]. pose proof (Z.pow_le_mono_l (k + 1) j 3). lia.
Qed.
Example C68_cbrt : exists cb, (forall m k, 0 <= k -> k ^ 3 <= m < (k + 1) ^ 3 -> cb m = k) /\ cb (5 ^ 3) = 5.
Proof.
  assert (G : forall m k, 0 <= k -> k ^ 3 <= m < (k + 1) ^ 3 -> icbrt (Z.to_nat m) 0 m = k).
  { intros m k H M. apply icbrt_ok; [lia| |exact M]. assert (k <= k ^ 3) by (destruct (Z.eq_dec k 0) as [->|]; [lia|]; replace (k ^ 3) with (k * (k * k)) by ring; nia). lia. }
  exists (fun m => icbrt (Z.to_nat m) 0 m). split; [exact G|]. apply G; lia.
Qed.

Print Assumptions C68_released.
Print Assumptions C68_operators.
Print Assumptions C68_defined.
Print Assumptions C68_leak.
Print Assumptions C68_leak_refuted.
Print Assumptions C68_failed_refuted.
Print Assumptions C68_interp.
Print Assumptions C68_interp_h1.
Print Assumptions C68_dim4_refuted.
