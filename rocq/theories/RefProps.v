(** * C07: objects die exactly with their last reference *)
From Coq Require Import List ZArith Lia Bool Arith.
From Verif Require Import Prelude RstrModel OpModel RefModel RefSpec RefProofs RefMain RefCalls RefHist.
Import ListNotations.
Local Open Scope nat_scope.

(** A state that the program reaches with calls as in [rgood] *)
Definition rreached (nh : nat) (w : rworld) : Prop := exists l, good_run (rw0 nh) l /\ rrun (rw0 nh) l = Ok w.
Lemma rreached_WSt nh w : rreached nh w -> WSt w.
Proof. intros (l & G & E). pose proof (rrun_safe l (rw0 nh) (w0_St nh) G) as H. rewrite E in H. exact H. Qed.

(** No call touches a freed object, whatever the number of variables and calls *)
Theorem C07_safe nh l : good_run (rw0 nh) l -> rrun (rw0 nh) l <> UB.
Proof. intros G E. pose proof (rrun_safe l (rw0 nh) (w0_St nh) G) as H. rewrite E in H. exact H. Qed.
(** An object is not freed if and only if a variable, an object that is not freed, or a field struct left behind by a freed
    operator holds it *)
Theorem C07_exact nh w n o : rreached nh w -> nth_error (rw_heap w) n = Some o ->
  (o_freed o = false <-> used_by_handle w n \/ used_by_object w n \/ left_behind w n).
Proof. intros R E. apply freed_iff; auto. eapply rreached_WSt; eauto. Qed.
(** All pointers in use are to objects that exist and are not freed *)
Theorem C07_no_dangling nh w n : rreached nh w -> used_by_handle w n \/ used_by_object w n \/ left_behind w n ->
  exists o, nth_error (rw_heap w) n = Some o /\ o_freed o = false.
Proof. intros R H. apply uses_in_heap; [eapply rreached_WSt; eauto|]. now apply uses_pos. Qed.
(** ref_count is the number of uses *)
Theorem C07_count nh w n o : rreached nh w -> nth_error (rw_heap w) n = Some o -> o_ref o = Z.of_nat (uses w n).
Proof. intros R E. apply uses_count; auto. eapply rreached_WSt; eauto. Qed.
(** Destroy succeeds on every variable (NULL and the static objects included) and leaves NULL; ReferenceCopy succeeds for every variable that is not
    NULL, also onto itself and onto a variable that holds an object *)
Theorem C07_destroy nh w x p : rreached nh w -> nth_error (rw_h w) x = Some p ->
  exists h, rstep w (RDestroy x) = Ok (RW h (upd (rw_h w) x PNull)) /\ rreached nh (RW h (upd (rw_h w) x PNull)).
Proof.
  intros R E. pose proof (rreached_WSt _ _ R) as W. simpl. unfold hval. rewrite E. simpl.
  assert (S0 : St (rw_heap w) (p :: upd (rw_h w) x PNull) None).
  { eapply St_perm; [|exact W]. intros m. pose proof (upd_cnt m _ _ PNull _ E) as U. rewrite !cnt_cons, ?cnt_nil in *. simpl in U. lia. }
  destruct (destroy_St _ _ _ _ S0) as (h & Eh & _). rewrite Eh. simpl. exists h. split; auto.
  destruct R as (l & G & Er). exists (l ++ [RDestroy x]). clear W S0.
  revert G Er. generalize (rw0 nh). induction l as [|c l IH]; simpl; intros w0 G Er.
  - inversion Er; subst. split; [split; auto; intros; exact I|]. simpl. unfold hval. rewrite E. simpl. rewrite Eh. reflexivity.
  - destruct G as (G & Gn). destruct (rstep w0 c) as [w1| |] eqn:E1; simpl in *; try discriminate. destruct (IH w1 (Gn _ eq_refl) Er) as (A & B).
    split; auto. split; auto. intros w' H. inversion H; subst. auto.
Qed.
Theorem C07_copy nh w x y p q : rreached nh w -> nth_error (rw_h w) x = Some p -> nth_error (rw_h w) y = Some q -> p <> PNull ->
  exists h, rstep w (RCopy x y) = Ok (RW h (upd (rw_h w) y p)) /\
    (forall n, p = PObj n -> exists o, nth_error h n = Some o /\ o_freed o = false).
Proof.
  intros R Ex Ey Np. pose proof (rreached_WSt _ _ R) as W. pose proof (rstep_safe w (RCopy x y) W I) as Sf.
  cbn [rstep] in *. unfold hval in *. rewrite Ex, Ey in *. cbn [rbind] in *.
  destruct (@ref_spec 0 (rw_heap w) _ _ p W) as (h2 & E2 & S2 & _). { eapply live_pl; [apply W|eapply nth_error_In; eauto|auto]. }
  assert (S2' : St h2 (q :: upd (rw_h w) y p) None).
  { eapply St_perm; [|exact S2]. intros m. pose proof (upd_cnt m _ _ p _ Ey) as U. rewrite !cnt_cons, ?cnt_nil in *. lia. }
  destruct (destroy_St _ _ _ _ S2') as (h3 & E3 & S3 & _). exists h3. split.
  - destruct p; [congruence| |]; rewrite E2; cbn [rbind]; rewrite E3; reflexivity.
  - intros n ->. destruct (live_of h3 (upd (rw_h w) y (PObj n)) n (proj1 S3)) as (o & E & F & _); eauto.
    apply (nth_error_In _ y). apply nth_upd_same. eapply nth_lt; eauto.
Qed.
(** When no variable holds an object, no cycle of pointers was built and no operator left field structs behind, every
    object has been freed *)
Theorem C07_all_freed nh w : rreached nh w -> (forall x n, nth_error (rw_h w) x <> Some (PObj n)) -> acyclic w -> (forall n, ~ left_behind w n) ->
  forall n o, nth_error (rw_heap w) n = Some o -> o_freed o = true.
Proof. intros R. apply all_freed. eapply rreached_WSt; eauto. Qed.

(** ** Deciding the hypotheses on examples *)
Definition pab (h : heap) : bool :=
  forallb (fun o => o_freed o || match parent_field (o_body o) with None => true | Some p => match nth_error h p with Some o' => negb (o_freed o') | None => false end end) h.
Lemma pab_ok h : pab h = true -> parents_alive h.
Proof.
  unfold pab. rewrite forallb_forall. intros H n o p E F P. specialize (H o (nth_error_In _ _ E)). rewrite F, P in H. simpl in H.
  destruct (nth_error h p) as [o'|]; [|discriminate]. exists o'. split; auto. now destruct (o_freed o').
Qed.
Definition objb (w : rworld) (x : nat) (f : nat -> bool) : bool := match nth_error (rw_h w) x with Some (PObj n) => f n | _ => true end.
Lemma objb_ok w x f : objb w x f = true -> forall n, nth_error (rw_h w) x = Some (PObj n) -> f n = true.
Proof. unfold objb. intros H n E. now rewrite E in H. Qed.
Definition rgoodb (w : rworld) (c : rcmd) : bool :=
  match c with
  | RBasis _ _ _ | RAtPoints _ | RAxpy _ _ => pab (rw_heap w)
  | RField op _ _ _ _ _ => objb w op (fun n => fields_set (rw_heap w) n <? FIELD_MAX)
  | RRstrCopy r _ => objb w r (fun n => negb (is_copy (rw_heap w) n))
  | RContract _ _ => false
  | _ => true
  end.
Lemma rgoodb_ok w c : rgoodb w c = true -> rgood w c.
Proof.
  destruct c; simpl; intros H; auto using pab_ok; try discriminate.
  - intros n E. apply (objb_ok _ _ _ H) in E. now destruct (is_copy (rw_heap w) n).
  - intros n E. apply (objb_ok _ _ _ H) in E. now apply Nat.ltb_lt.
Qed.
Fixpoint good_runb (w : rworld) (l : list rcmd) : bool :=
  match l with [] => true | c :: l => rgoodb w c && match rstep w c with Ok w' => good_runb w' l | _ => true end end.
Lemma good_runb_ok l : forall w, good_runb w l = true -> good_run w l.
Proof.
  induction l as [|c l IH]; simpl; intros w H; auto. apply andb_prop in H. destruct H as (A & B). split; [now apply rgoodb_ok|].
  intros w' E. rewrite E in B. auto.
Qed.
(** all pointers go to older objects *)
Definition rankb (w : rworld) : bool :=
  forallb (fun m => match nth_error (rw_heap w) m with
    | Some o => o_freed o || forallb (fun p => match p with PObj n => n <? m | _ => true end) (held (o_body o)) | None => true end) (seq 0 (length (rw_heap w))).
Lemma rankb_ok w : rankb w = true -> acyclic w.
Proof.
  unfold rankb. rewrite forallb_forall. intros H.
  assert (A : forall m n, holds_obj w m n -> n < m).
  { intros m n (o & E & F & Hin). assert (L : m < length (rw_heap w)) by (apply nth_error_Some; congruence).
    specialize (H m). rewrite E, F in H. simpl in H. assert (H0 : In m (seq 0 (length (rw_heap w)))) by (apply in_seq; lia).
    specialize (H H0). rewrite forallb_forall in H. specialize (H _ Hin). now apply Nat.ltb_lt in H. }
  assert (B : forall m n, reaches w m n -> n < m). { intros m n R. induction R as [m n R|m k n R _ IH]; apply A in R; lia. }
  intros n R. apply B in R. lia.
Qed.
Definition run_ends (nh : nat) (l : list rcmd) (f : rworld -> bool) : bool := match rrun (rw0 nh) l with Ok w => f w | _ => false end.
Lemma run_ends_ok nh l f : run_ends nh l f = true -> exists w, rrun (rw0 nh) l = Ok w /\ f w = true.
Proof. unfold run_ends. destruct (rrun (rw0 nh) l) as [w| |]; try discriminate. eauto. Qed.
Definition is_ub {A} (r : res A) : bool := match r with UB => true | _ => false end.
Lemma is_ub_ok A (r : res A) : is_ub r = true -> r = UB. Proof. destruct r; simpl; congruence. Qed.
Definition no_obj (w : rworld) : bool := forallb (fun p => match p with PObj _ => false | _ => true end) (rw_h w).
Lemma no_obj_ok w : no_obj w = true -> forall x n, nth_error (rw_h w) x <> Some (PObj n).
Proof. unfold no_obj. rewrite forallb_forall. intros H x n E. specialize (H _ (nth_error_In _ _ E)). discriminate. Qed.
Definition all_freedb (w : rworld) : bool := forallb o_freed (rw_heap w).
Definition nothing_left (w : rworld) : bool := forallb (fun o => negb (o_freed o) || match stuck (o_body o) with [] => true | _ => false end) (rw_heap w).
Lemma nothing_left_ok w : nothing_left w = true -> forall n, ~ left_behind w n.
Proof.
  unfold nothing_left. rewrite forallb_forall. intros H n (m & o & E & F & Hin). specialize (H o (nth_error_In _ _ E)). rewrite F in H. simpl in H.
  destruct (stuck (o_body o)); [destruct Hin|discriminate].
Qed.
Definition some_unfreed (w : rworld) : bool := negb (all_freedb w).
Lemma some_unfreed_ok w : some_unfreed w = true -> exists n o, nth_error (rw_heap w) n = Some o /\ o_freed o = false.
Proof.
  unfold some_unfreed, all_freedb. rewrite negb_true_iff. intros H.
  assert (X : exists o, In o (rw_heap w) /\ o_freed o = false).
  { induction (rw_heap w) as [|a h IH]; simpl in H; [discriminate|]. destruct (o_freed a) eqn:F.
    - destruct (IH H) as (o & Hi & Fo). exists o. simpl; auto. - exists a. simpl; auto. }
  destruct X as (o & Hi & F). apply In_nth_error in Hi. destruct Hi as (n & E). eauto.
Qed.

(** ** Examples *)
Definition ex_ref : bk := Bk [OVec; ORstr; OContract; OBasis; OCtx; OQf; OOper] [].
Definition ex_opt : bk := Bk [OOper; OContract] [(None, ex_ref)].
(** a delegating context with a composite operator at points, contexts, copies onto occupied and own variables, fallback *)
Definition ex_hist : list rcmd :=
  [RInit ex_opt 0; RVec 0 1; RVec 0 2; RRstr true 0 3; RRstrCopy 3 4; RBasis true 0 5; RQf 0 6; RCtx 0 7; RSetCtx 6 (Some 7); RSetCtx 6 (Some 7);
   ROp true 0 6 (Some 6) None 8; RStatic 9; RField 8 true 0 3 5 9; RField 8 false 0 3 5 1; RPoints 8 3 2; RComp 0 10; RAddSub 10 8; RAddSub 10 8;
   RAtPoints 5; RAxpy 1 2; RCopy 1 2; RCopy 1 1; RGet 5 0 11; RFallback 0 ex_ref 12; RGet 1 0 13; RSetCtx 6 None;
   RDestroy 8; RDestroy 6; RDestroy 3; RDestroy 5; RDestroy 1; RDestroy 7].
Definition ex_end : list rcmd := map RDestroy (seq 0 14).
Example C07_ex_good : good_run (rw0 14) (ex_hist ++ ex_end).
Proof. apply good_runb_ok. vm_compute. reflexivity. Qed.
(** in the middle the composite operator (variable 10) still keeps its suboperator and the objects of its fields *)
Example C07_ex_middle : run_ends 14 ex_hist (fun w => (length (rw_heap w) =? 16) && (length (filter (fun o => negb (o_freed o)) (rw_heap w)) =? 15)) = true.
Proof. vm_compute. reflexivity. Qed.
Example C07_ex_end : run_ends 14 (ex_hist ++ ex_end) (fun w => all_freedb w && no_obj w && rankb w && nothing_left w) = true.
Proof. vm_compute. reflexivity. Qed.
Example C07_ex_reached : exists w, rreached 14 w /\ (forall x n, nth_error (rw_h w) x <> Some (PObj n)) /\ acyclic w /\ (forall n, ~ left_behind w n) /\ length (rw_heap w) = 16.
Proof.
  assert (X : run_ends 14 (ex_hist ++ ex_end) (fun w => no_obj w && rankb w && nothing_left w && (length (rw_heap w) =? 16)) = true) by (vm_compute; reflexivity).
  apply run_ends_ok in X. destruct X as (w & E & H). apply andb_prop in H. destruct H as (H & H4). apply andb_prop in H. destruct H as (H & H3). apply andb_prop in H. destruct H as (H1 & H2).
  exists w. split; [exists (ex_hist ++ ex_end); split; [exact C07_ex_good|exact E]|].
  split; [now apply no_obj_ok|]. split; [now apply rankb_ok|]. split; [now apply nothing_left_ok|]. now apply Nat.eqb_eq.
Qed.

(** ** What is not true *)
(** delegate->parent is not counted: the context of two vectors may be destroyed before CeedVectorAXPY asks for the parent *)
Theorem C07_parent_refuted : exists l w, good_run (rw0 3) l /\ rrun (rw0 3) l = Ok w /\ used_by_handle w 2 /\ used_by_handle w 3 /\ rstep w (RAxpy 1 2) = UB.
Proof.
  set (l := [RInit ex_opt 0; RVec 0 1; RVec 0 2; RDestroy 0]). exists l.
  assert (X : run_ends 3 l (fun w => is_ub (rstep w (RAxpy 1 2)) && match rw_h w with [_; PObj 2; PObj 3] => true | _ => false end) = true) by (vm_compute; reflexivity).
  apply run_ends_ok in X. destruct X as (w & E & H). apply andb_prop in H. destruct H as (H & H'). exists w.
  split; [apply good_runb_ok; vm_compute; reflexivity|]. split; auto.
  destruct (rw_h w) as [|? [|[| |[|[|[|?]]]] [|[| |[|[|[|[|?]]]]] [|? ?]]]] eqn:Eh; try discriminate.
  split; [exists 1; now rewrite Eh|]. split; [exists 2; now rewrite Eh|]. now apply is_ub_ok.
Qed.
(** the same at the next creation of a basis through the delegate *)
Theorem C07_parent_basis_refuted : exists l w, good_run (rw0 4) l /\ rrun (rw0 4) l = Ok w /\ rstep w (RBasis true 2 3) = UB.
Proof.
  set (l := [RInit ex_opt 0; RVec 0 1; RGet 1 0 2; RDestroy 0]). exists l.
  assert (X : run_ends 4 l (fun w => is_ub (rstep w (RBasis true 2 3))) = true) by (vm_compute; reflexivity).
  apply run_ends_ok in X. destruct X as (w & E & H). exists w.
  split; [apply good_runb_ok; vm_compute; reflexivity|]. split; auto. now apply is_ub_ok.
Qed.
(** a copy of a copy of a restriction: Destroy of all variables touches a freed object *)
Theorem C07_copy_of_copy_refuted : rrun (rw0 4) [RInit ex_ref 0; RRstr false 0 1; RRstrCopy 1 2; RRstrCopy 2 3; RDestroy 1; RDestroy 3; RDestroy 2] = UB.
Proof. vm_compute. reflexivity. Qed.
(** an operator that accepted 17 fields (9 inputs and 8 outputs) cannot be destroyed *)
Theorem C07_fields_refuted :
  rrun (rw0 4) ([RInit ex_ref 0; RQf 0 1; ROp false 0 1 None None 2; RStatic 3] ++ map (fun i => RField 2 true i 3 3 3) (seq 0 9) ++
                map (fun i => RField 2 false i 3 3 3) (seq 0 8) ++ [RDestroy 2]) = UB.
Proof. vm_compute. reflexivity. Qed.
(** an operator destroyed while some of its fields are not set: the vector of its only field is never freed *)
Theorem C07_incomplete_refuted : exists l w, good_run (rw0 5) l /\ rrun (rw0 5) l = Ok w /\ (forall x n, nth_error (rw_h w) x <> Some (PObj n)) /\ acyclic w /\
  exists n o, nth_error (rw_heap w) n = Some o /\ o_freed o = false.
Proof.
  set (l := [RInit ex_ref 0; RQf 0 1; ROp false 0 1 None None 2; RStatic 3; RVec 0 4; RField 2 true 1 3 3 4] ++ map RDestroy (seq 0 5)). exists l.
  assert (X : run_ends 5 l (fun w => no_obj w && rankb w && some_unfreed w) = true) by (vm_compute; reflexivity).
  apply run_ends_ok in X. destruct X as (w & E & H). apply andb_prop in H. destruct H as (H & H3). apply andb_prop in H. destruct H as (H1 & H2). exists w.
  split; [apply good_runb_ok; vm_compute; reflexivity|]. split; auto. split; [now apply no_obj_ok|]. split; [now apply rankb_ok|]. now apply some_unfreed_ok.
Qed.
(** the same field set twice: the first vector is never freed *)
Theorem C07_twice_refuted : exists l w, good_run (rw0 5) l /\ rrun (rw0 5) l = Ok w /\ (forall x n, nth_error (rw_h w) x <> Some (PObj n)) /\ acyclic w /\
  exists n o, nth_error (rw_heap w) n = Some o /\ o_freed o = false.
Proof.
  set (l := [RInit ex_ref 0; RQf 0 1; ROp false 0 1 None None 2; RStatic 3; RVec 0 4; RField 2 true 0 3 3 4; RField 2 true 0 3 3 3] ++ map RDestroy (seq 0 5)). exists l.
  assert (X : run_ends 5 l (fun w => no_obj w && rankb w && some_unfreed w) = true) by (vm_compute; reflexivity).
  apply run_ends_ok in X. destruct X as (w & E & H). apply andb_prop in H. destruct H as (H & H3). apply andb_prop in H. destruct H as (H1 & H2). exists w.
  split; [apply good_runb_ok; vm_compute; reflexivity|]. split; auto. split; [now apply no_obj_ok|]. split; [now apply rankb_ok|]. now apply some_unfreed_ok.
Qed.
(** a tensor contraction object starts with count 0: the destruction of a copy frees it under the first variable *)
Theorem C07_contract_refuted : rrun (rw0 3) [RInit ex_ref 0; RContract 0 1; RCopy 1 2; RDestroy 2; RDestroy 1] = UB.
Proof. vm_compute. reflexivity. Qed.
(** a composite operator added to itself is never freed *)
Example C07_cycle : exists l w, good_run (rw0 2) l /\ rrun (rw0 2) l = Ok w /\ (forall x n, nth_error (rw_h w) x <> Some (PObj n)) /\
  exists n o, nth_error (rw_heap w) n = Some o /\ o_freed o = false.
Proof.
  set (l := [RInit ex_ref 0; RComp 0 1; RAddSub 1 1; RDestroy 0; RDestroy 1]). exists l.
  assert (X : run_ends 2 l (fun w => no_obj w && some_unfreed w) = true) by (vm_compute; reflexivity).
  apply run_ends_ok in X. destruct X as (w & E & H). apply andb_prop in H. destruct H as (H1 & H3). exists w.
  split; [apply good_runb_ok; vm_compute; reflexivity|]. split; auto. split; [now apply no_obj_ok|]. now apply some_unfreed_ok.
Qed.

Print Assumptions C07_safe.
Print Assumptions C07_exact.
Print Assumptions C07_no_dangling.
Print Assumptions C07_count.
Print Assumptions C07_destroy.
Print Assumptions C07_copy.
Print Assumptions C07_all_freed.
Print Assumptions C07_parent_refuted.
Print Assumptions C07_parent_basis_refuted.
Print Assumptions C07_copy_of_copy_refuted.
Print Assumptions C07_fields_refuted.
Print Assumptions C07_incomplete_refuted.
Print Assumptions C07_twice_refuted.
Print Assumptions C07_contract_refuted.
