(** * Facts about the abstract machine, used by the vector properties *)
From Coq Require Import List ZArith Lia Bool Arith.
From Verif Require Import Prelude RstrModel VecModel VecSpec VecProofs VecSim VecStep VecRefine.
Import ListNotations.
Set Implicit Arguments.
Local Open Scope Z_scope.

Section P.
Variable R : Rng.
Notation world := (world R). Notation astate := (astate R). Notation avec := (avec R).
Variables (fabs : R -> R) (gtb : R -> R -> bool) (sqrt : R -> R) (big : R -> bool) (inv : R -> R).
Notation astep := (astep fabs gtb sqrt big inv).

(** ** One field of one vector *)
Definition fld A (f : avec -> A) (d : A) (s : astate) (v : nat) : A := match s_vecs s v with Some y => f y | None => d end.
Lemma fld_sv : forall A (f : avec -> A) d s u y v, fld f d (sv s u y) v = if Nat.eqb v u then f y else fld f d s v.
Proof. intros. unfold fld. simpl. unfold nupd. destruct (Nat.eqb v u); auto. Qed.
Lemma fld_su : forall A (f : avec -> A) d s n l v, fld f d (su s n l) v = fld f d s v.
Proof. reflexivity. Qed.
Lemma fld_putc : forall A (f : avec -> A) d s u y l v, (forall y c, f (ct y c) = f y) -> s_vecs s u = Some y -> fld f d (putc s u y l) v = fld f d s v.
Proof.
  intros A f d s u y l v C E. unfold putc. destruct (a_cont y); auto. rewrite fld_sv. destruct (Nat.eqb_spec v u); auto. subst. unfold fld. rewrite E. auto.
Qed.
Lemma fld_at : forall A (f : avec -> A) d s v y, s_vecs s v = Some y -> fld f d s v = f y.
Proof. intros. unfold fld. rewrite H. auto. Qed.

(** Outcomes *)
Definition res_of (o : aout R) : option ((obs R + Z) * astate) := match o with AOk o s => Some (inl o, s) | AErr e s => Some (inr e, s) | AIll => None end.

Ltac brk H := repeat match type of H with context [match ?x with _ => _ end] => destruct x eqn:?; try discriminate H end; inversion H; subst; clear H.
Ltac unf H := unfold s_set_array, s_take, s_get, s_get_read, s_get_write, s_restore, s_restore_read, s_set_value, s_set_value_strided, s_sync, s_copy, s_copy_strided, s_modify, s_axp, s_mult,
    s_norm, s_recip, s_destroy, live in H.
(** case analysis over all commands *)
Ltac allcases H := unfold VecSpec.astep in H; unf H; unfold s_modify, live in H; cbv zeta in H; brk H.

Definition W (s : astate) (v : nat) : Z := fld (fun y => Z.b2z (busy y)) 0 s v.
Definition Rd (s : astate) (v : nat) : Z := fld (@a_readers R) 0 s v.
Definition Clk (s : astate) (v : nat) : Z := fld (@a_clock R) 0 s v.

Lemma busy_t1 : forall y : avec, busy (tick y 1) = negb (busy y).
Proof. intros. unfold busy. simpl. rewrite even_S. auto. Qed.
Lemma busy_t2 : forall y : avec, busy (tick y 2) = busy y.
Proof. intros. unfold busy. simpl. replace (a_clock y + 2) with (a_clock y + 1 + 1) by lia. rewrite !even_S. rewrite negb_involutive. auto. Qed.
Lemma busy_zero : forall y : avec, busy (s_zero y) = busy y.
Proof. intros. unfold s_zero. destruct (invalid y); auto. rewrite busy_t2. auto. Qed.
Lemma readers_zero : forall y : avec, a_readers (s_zero y) = a_readers y.
Proof. intros. unfold s_zero. destruct (invalid y); auto. Qed.
Lemma busy_ct : forall (y : avec) c, busy (ct y c) = busy y. Proof. reflexivity. Qed.
Lemma busy_wg : forall (y : avec) c, busy (wg y c) = busy y. Proof. reflexivity. Qed.
Lemma busy_rg : forall (y : avec) c, busy (rg y c) = busy y. Proof. reflexivity. Qed.
Lemma busy_rd : forall (y : avec) c, busy (rd y c) = busy y. Proof. reflexivity. Qed.
Lemma busy_rf : forall (y : avec) c, busy (rf y c) = busy y. Proof. reflexivity. Qed.
Lemma locked_false : forall y : avec, locked y = false -> busy y = false /\ a_readers y = 0.
Proof. intros y H. unfold locked in H. apply orb_false_elim in H. destruct H as [A B]. split; auto. apply negb_false_iff in B. apply Z.eqb_eq in B. auto. Qed.

(** Counting grants and returns in a history *)
Definition dW (v : nat) (c : cmd R) (o : obs R + Z) : Z :=
  match c, o with
  | CGet u _, inl _ | CGetWrite u _, inl _ => if Nat.eqb u v then 1 else 0
  | CRestore u, inl _ => if Nat.eqb u v then -1 else 0
  | _, _ => 0
  end.
Definition dR (v : nat) (c : cmd R) (o : obs R + Z) : Z :=
  match c, o with
  | CGetRead u _, inl _ => if Nat.eqb u v then 1 else 0
  | CRestoreRead u, inl _ => if Nat.eqb u v then -1 else 0
  | _, _ => 0
  end.
(** the calls that take two accesses succeed if they are made *)
Definition whole (c : cmd R) (o : obs R + Z) : Prop :=
  match c, o with
  | CCopy _ _, inr _ | CCopyStrided _ _ _ _ _, inr _ | CAxpy _ _ _, inr _ | CAxpby _ _ _ _, inr _ | CMult _ _ _, inr _ => False
  | _, _ => True
  end.

Lemma fld_mk : forall A (f : avec -> A) d s u (y : option avec) n m us v,
  fld f d (mkS (nupd (s_vecs s) u y) us n m) v = if Nat.eqb v u then match y with Some y => f y | None => d end else fld f d s v.
Proof. intros. unfold fld. simpl. unfold nupd. destruct (Nat.eqb v u); auto. Qed.
Lemma fld_mk0 : forall A (f : avec -> A) d s us n m v, fld f d (mkS (s_vecs s) us n m) v = fld f d s v.
Proof. reflexivity. Qed.

Ltac fin f :=
  intros;
  repeat match goal with
  | |- context [putc ?s ?u ?y ?l] => rewrite (@fld_putc _ f) by (first [intros; reflexivity | simpl; unfold nupd; rewrite Nat.eqb_refl; reflexivity | assumption])
  | |- context [fld _ _ (sv ?s ?u ?y) _] => rewrite fld_sv
  | |- context [fld _ _ (su ?s ?u ?y) _] => rewrite fld_su
  | |- context [fld _ _ (mkS _ _ _ _) _] => first [rewrite fld_mk | rewrite fld_mk0]
  end.
Ltac start H c := unfold res_of in H; match type of H with match ?x with _ => _ end = _ => destruct x eqn:E; inversion H; subst; clear H; destruct c; allcases E end.
Ltac putr f := try match goal with |- context [putc ?s ?u ?y ?l] => rewrite (@fld_putc _ f) by (first [intros; reflexivity | simpl; unfold nupd; rewrite Nat.eqb_refl; reflexivity | assumption]) end.
Ltac lk := repeat match goal with
  | H : locked _ = false |- _ => apply locked_false in H; destruct H
  | H : _ || _ = false |- _ => apply orb_false_elim in H; destruct H
  end.
Ltac busys := rewrite ?busy_wg, ?busy_t1, ?busy_t2, ?busy_ct, ?busy_rg, ?busy_rd, ?busy_rf, ?busy_zero, ?busy_ct.
Definition NewNone (s : astate) := forall v, (s_nv s <= v)%nat -> s_vecs s v = None.

Lemma W_step : forall c s o s' v, NewNone s -> res_of (astep c s) = Some (o, s') -> whole c o -> W s' v = W s v + dW v c o.
Proof.
  intros c s o s' v NN H G. unfold W. start H c; simpl in G; try contradiction; try (simpl dW; rewrite ?Z.add_0_r; reflexivity).
  all: putr (fun y0 : avec => Z.b2z (busy y0)).
  all: fin (fun y0 : avec => Z.b2z (busy y0)); simpl dW.
  all: lk.
  all: repeat match goal with |- context [Nat.eqb ?a ?b] => destruct (Nat.eqb_spec a b); subst end; try congruence; rewrite ?Z.add_0_r; auto.
  all: try (unfold fld; rewrite ?NN by lia; reflexivity).
  all: try (match goal with H : s_vecs _ _ = Some _ |- _ => rewrite (fld_at _ _ _ _ H) end; busys; auto).
  all: try match goal with H : busy _ = _ |- _ => rewrite ?H; reflexivity end.
  rewrite busy_rf in H. rewrite H. auto.
Qed.
Lemma R_step : forall c s o s' v, NewNone s -> res_of (astep c s) = Some (o, s') -> whole c o -> Rd s' v = Rd s v + dR v c o.
Proof.
  intros c s o s' v NN H G. unfold Rd. start H c; simpl in G; try contradiction; try (simpl dR; rewrite ?Z.add_0_r; reflexivity).
  all: putr (@a_readers R).
  all: fin (@a_readers R); simpl dR.
  all: lk.
  all: repeat match goal with |- context [Nat.eqb ?a ?b] => destruct (Nat.eqb_spec a b); subst end; try congruence; rewrite ?Z.add_0_r; auto.
  all: try (unfold fld; rewrite ?NN by lia; reflexivity).
  all: try (match goal with H : s_vecs _ _ = Some _ |- _ => rewrite (fld_at _ _ _ _ H) end; simpl; rewrite ?readers_zero; auto).
Qed.
(** ** Writers exclude readers *)
Definition Excl (s : astate) := forall v, W s v = 0 \/ Rd s v = 0.
Lemma NewNone_step : forall c s o s', NewNone s -> res_of (astep c s) = Some (o, s') -> NewNone s'.
Proof.
  intros c s o s' NN H v L.
  assert (X : fld (fun _ => true) false s' v = false).
  2:{ unfold fld in X. destruct (s_vecs s' v); congruence. }
  assert (Y : forall v, (s_nv s <= v)%nat -> fld (fun _ : avec => true) false s v = false) by (intros; unfold fld; rewrite NN; auto).
  assert (Z : forall v y, s_vecs s v = Some y -> (v < s_nv s)%nat) by (intros v0 y0 E0; destruct (Nat.lt_ge_cases v0 (s_nv s)); auto; rewrite NN in E0 by auto; discriminate).
  assert (SV : forall s v (y : avec) l, s_nv (putc s v y l) = s_nv s) by (intros; unfold putc; destruct (a_cont y); auto).
  start H c; rewrite ?SV in L; simpl in L.
  all: putr (fun _ : avec => true).
  all: fin (fun _ : avec => true).
  all: repeat match goal with H : s_vecs _ _ = Some _ |- _ => apply Z in H end.
  all: repeat match goal with |- context [Nat.eqb ?a ?b] => destruct (Nat.eqb_spec a b); subst end; try lia.
  all: try (apply Y; lia).
Qed.
Lemma Excl_step : forall c s o s', NewNone s -> Excl s -> res_of (astep c s) = Some (o, s') -> Excl s'.
Proof.
  intros c s o s' NN X H v. unfold W, Rd. start H c; auto.
  all: putr (fun y0 : avec => Z.b2z (busy y0)).
  all: fin (fun y0 : avec => Z.b2z (busy y0)).
  all: putr (@a_readers R).
  all: fin (@a_readers R).
  all: lk.
  all: repeat match goal with |- context [Nat.eqb ?a ?b] => destruct (Nat.eqb_spec a b); subst end; try congruence.
  all: try (apply X).
  all: busys; simpl; rewrite ?readers_zero; auto.
  all: repeat match goal with H : s_vecs ?s0 ?v = Some ?y |- _ => let Q := fresh "Q" in match goal with X0 : Excl _ |- _ => pose proof (X0 v) as Q end; unfold W, Rd in Q; rewrite !(fld_at _ _ _ _ H) in Q; clear H end; auto.
  all: repeat match goal with H : busy _ = _ |- _ => rewrite ?H in *; clear H end; simpl in *; auto.
  all: try (right; lia).
  all: repeat match goal with H : _ \/ _ |- _ => destruct H end; try discriminate; auto.
  all: try match goal with H : busy (rf _ _) = _ |- _ => rewrite busy_rf in H end; try (left; simpl; congruence); try (right; simpl; lia).
  all: left; match goal with H : busy ?a = false |- _ => rewrite H; reflexivity end.
Qed.
(** ** The clock *)
Lemma clock_zero : forall y : avec, a_clock y <= a_clock (s_zero y) <= a_clock y + 2.
Proof. intros. unfold s_zero. destruct (invalid y); simpl; lia. Qed.
Lemma dead_step : forall c s o s' v, (v < s_nv s)%nat -> s_vecs s v = None -> res_of (astep c s) = Some (o, s') -> s_vecs s' v = None.
Proof.
  intros c s o s' v L D H.
  assert (X : fld (fun _ => true) false s' v = false).
  2:{ unfold fld in X. destruct (s_vecs s' v); congruence. }
  assert (Y : fld (fun _ : avec => true) false s v = false) by (unfold fld; rewrite D; auto).
  start H c.
  all: putr (fun _ : avec => true).
  all: fin (fun _ : avec => true).
  all: repeat match goal with |- context [Nat.eqb ?a ?b] => destruct (Nat.eqb_spec a b); subst end; try lia; try congruence.
Qed.
Lemma Clk_step : forall c s o s' v y y', s_vecs s v = Some y -> s_vecs s' v = Some y' -> res_of (astep c s) = Some (o, s') -> NewNone s ->
  a_clock y <= a_clock y' <= a_clock y + 4.
Proof.
  intros c s o s' v y y' E1 E2 H NN.
  assert (L : (v < s_nv s)%nat) by (destruct (Nat.lt_ge_cases v (s_nv s)); auto; rewrite NN in E1 by auto; discriminate).
  assert (X : fld (@a_clock R) (a_clock y) s' v = a_clock y') by (unfold fld; rewrite E2; auto).
  assert (Y : fld (@a_clock R) (a_clock y) s v = a_clock y) by (unfold fld; rewrite E1; auto).
  rewrite <- X. clear E2 X y'.
  start H c; try lia.
  all: putr (@a_clock R).
  all: fin (@a_clock R); try lia.
  all: repeat match goal with |- context [Nat.eqb ?a ?b] => destruct (Nat.eqb_spec a b); subst end; try lia; try congruence.
  all: repeat match goal with H : Some _ = Some _ |- _ => inversion H; subst; clear H end.
  all: repeat match goal with H : s_vecs _ ?v = Some ?a, H' : s_vecs _ ?v = Some ?b |- _ => assert (a = b) by congruence; subst; clear H end.
  all: repeat match goal with |- context [s_zero ?a] => lazymatch goal with H : a_clock a <= a_clock (s_zero a) <= _ |- _ => fail | _ => pose proof (clock_zero a) end end.
  all: simpl; try lia.
Qed.

(** calls that, when they succeed, may have changed the contents of [v] *)
Definition alen (s : astate) (v : nat) : nat := fld (@a_len R) 0%nat s v.
Definition modifies (s : astate) (v : nat) (c : cmd R) : Prop :=
  match c with
  | CSetArray u _ _ _ | CRestore u | CSetValue u _ | CSetValueStrided u _ _ _ _ | CScale u _ | CAxpy u _ _ | CAxpby u _ _ _ | CMult u _ _ | CRecip u | CCopy _ u => u = v
  | CCopyStrided x _ _ _ u => u = v /\ alen s x <> 0%nat
  | _ => False
  end.
Lemma Clk_mod : forall c s o s' v y y', s_vecs s v = Some y -> s_vecs s' v = Some y' -> astep c s = AOk o s' -> modifies s v c ->
  a_len y = 0%nat \/ a_clock y < a_clock y'.
Proof.
  intros c s o s' v y y' E1 E2 H G.
  assert (X : fld (@a_clock R) (a_clock y) s' v = a_clock y') by (unfold fld; rewrite E2; auto).
  assert (Y : fld (@a_clock R) (a_clock y) s v = a_clock y) by (unfold fld; rewrite E1; auto).
  rewrite <- X. clear E2 X y'.
  destruct c; simpl in G; try contradiction; try subst v0; allcases H; try lia.
  all: putr (@a_clock R).
  all: fin (@a_clock R); try lia.
  all: repeat match goal with H : Some _ = Some _ |- _ => inversion H; subst; clear H end.
  all: repeat match goal with H : s_vecs _ ?v = Some ?a, H' : s_vecs _ ?v = Some ?b |- _ => assert (a = b) by congruence; subst; clear H end.
  all: repeat match goal with |- context [s_zero ?a] => lazymatch goal with H : a_clock a <= a_clock (s_zero a) <= _ |- _ => fail | _ => pose proof (clock_zero a) end end.
  all: try (rewrite !Nat.eqb_refl; simpl; lia).
  all: try (left; apply Nat.eqb_eq; assumption).
  all: try (subst; rewrite !Nat.eqb_refl; simpl; lia).
  all: destruct G as [-> G]; assert (a0 = y) by congruence; subst a0; try (rewrite !Nat.eqb_refl; simpl; lia).
  left. unfold alen in G. rewrite (fld_at _ _ _ _ Heqo0) in G. apply Nat.eqb_neq in G. rewrite G in Heqb. apply Nat.eqb_eq. auto.
Qed.
(** a vector that owns its array keeps its values while its clock stands still at an even time *)
Lemma own_step : forall c s o s' v y y' l, NewNone s -> s_vecs s v = Some y -> s_vecs s' v = Some y' -> res_of (astep c s) = Some (o, s') ->
  (a_wg y = true -> busy y = true) -> busy y = false -> a_clock y' = a_clock y -> a_cont y = COwn l -> (0 < a_len y)%nat ->
  a_cont y' = COwn l /\ a_len y' = a_len y.
Proof.
  intros c s o s' v y y' l NN E1 E2 H WG B CL CO LN.
  assert (WF : a_wg y = false) by (destruct (a_wg y); auto; rewrite WG in B; auto).
  assert (IV : invalid y = false) by (unfold invalid; rewrite CO, andb_false_r; auto).
  assert (L : (v < s_nv s)%nat) by (destruct (Nat.lt_ge_cases v (s_nv s)); auto; rewrite NN in E1 by auto; discriminate).
  start H c; try (assert (y' = y) by congruence; subst; auto).
  all: unfold putc in E2; try match type of E2 with context [match ?x with _ => _ end] => destruct x eqn:? end.
  all: simpl in E2; unfold nupd in E2.
  all: repeat match type of E2 with context [Nat.eqb ?a ?b] => destruct (Nat.eqb_spec a b); subst end; try lia; try discriminate; try (assert (y' = y) by congruence; subst; auto).
  all: repeat match goal with H : Some _ = Some _ |- _ => inversion H; subst; clear H end.
  all: repeat match goal with H : s_vecs _ ?v = Some ?a, H' : s_vecs _ ?v = Some ?b |- _ => assert (a = b) by congruence; subst; clear H end.
  all: try (inversion E2; subst; clear E2; simpl in CL; try lia; simpl; auto).
  all: unfold s_zero in *; try rewrite IV in *; simpl in CL; try lia; simpl; auto.
  all: try congruence.
  rewrite WF in Heqb. discriminate.
Qed.
(** ** What a call may change *)
Definition writes (c : cmd R) : list nat :=
  match c with
  | CSetArray v _ _ _ | CTake v _ | CGetWrite v _ | CSetValue v _ | CSetValueStrided v _ _ _ _ | CScale v _ | CAxpy v _ _ | CAxpby v _ _ _ | CMult v _ _
  | CRecip v | CDestroy v | VWrite v _ _ => [v]
  | CCopy _ u | CCopyStrided _ _ _ _ u => [u]
  | _ => []
  end.
Definition touches (c : cmd R) (n : nat) : Prop :=
  match c with UWrite m _ _ | UFree m => m = n | CSetArray _ true OwnPointer (SUser m) => m = n | _ => False end.
Lemma putc_vecs : forall s v (y : avec) l u, u <> v -> s_vecs (putc s v y l) u = s_vecs s u.
Proof. intros. unfold putc. destruct (a_cont y); auto. simpl. apply nupd_other. auto. Qed.
Lemma putc_user : forall s v (y : avec) l n, a_cont y <> CShared n -> s_user (putc s v y l) n = s_user s n.
Proof. intros. unfold putc. destruct (a_cont y) eqn:E; auto. simpl. apply nupd_other. congruence. Qed.
Lemma putc_live : forall s v (y : avec) l n, s_user s n <> None -> s_user (putc s v y l) n <> None.
Proof. intros. unfold putc. destruct (a_cont y) eqn:E; auto. simpl. unfold nupd. destruct (Nat.eqb n n0); auto. discriminate. Qed.

Lemma fld_putc_other : forall A (f : avec -> A) d s v (y : avec) l u, u <> v -> fld f d (putc s v y l) u = fld f d s u.
Proof. intros. unfold fld. rewrite putc_vecs; auto. Qed.

Lemma frame_vec : forall c s o s' u z, NewNone s -> res_of (astep c s) = Some (o, s') -> s_vecs s u = Some z -> ~ In u (writes c) ->
  exists z', s_vecs s' u = Some z' /\ a_cont z' = a_cont z /\ a_len z' = a_len z.
Proof.
  intros c s o s' u z NN H E1 G.
  assert (L : (u < s_nv s)%nat) by (destruct (Nat.lt_ge_cases u (s_nv s)); auto; rewrite NN in E1 by auto; discriminate).
  assert (X : fld (fun y => Some (a_cont y, a_len y)) None s' u = Some (a_cont z, a_len z)).
  2:{ unfold fld in X. destruct (s_vecs s' u) as [z'|]; inversion X. eauto. }
  assert (Y : fld (fun y => Some (a_cont y, a_len y)) None s u = Some (a_cont z, a_len z)) by (unfold fld; rewrite E1; auto).
  start H c; auto.
  all: simpl in G.
  all: try (rewrite fld_putc_other by intuition).
  all: fin (fun y : avec => Some (a_cont y, a_len y)).
  all: repeat match goal with |- context [Nat.eqb ?a ?b] => destruct (Nat.eqb_spec a b); subst end; try lia; auto; try (exfalso; auto; fail).
  all: repeat match goal with H : Some _ = Some _ |- _ => inversion H; subst; clear H end.
  all: repeat match goal with H : s_vecs _ ?v = Some ?a, H' : s_vecs _ ?v = Some ?b |- _ => assert (a = b) by congruence; subst; clear H end.
  all: auto.
Qed.
Lemma cont_zero : forall (y : avec) n, a_cont (s_zero y) = CShared n -> a_cont y = CShared n.
Proof. intros y n. unfold s_zero. destruct (invalid y); auto. simpl. discriminate. Qed.
Lemma frame_user : forall c s o s' n l, res_of (astep c s) = Some (o, s') -> s_user s n = Some l -> (n < s_nu s)%nat -> ~ touches c n ->
  (forall t y, In t (writes c) -> s_vecs s t = Some y -> a_cont y <> CShared n) -> s_user s' n = Some l.
Proof.
  intros c s o s' n l H E1 LN G F.
  start H c; auto.
  all: try match goal with H : negb ?h = false |- _ => destruct h; [|discriminate H] end.
  all: simpl in G.
  all: try match goal with |- context [putc ?s ?v ?y ?l] => rewrite (@putc_user s v y l); [auto|] end.
  all: try (simpl; unfold nupd; destruct (Nat.eqb_spec n n0); subst; auto; tauto).
  all: try (simpl; unfold nupd; destruct (Nat.eqb_spec n (s_nu s)); subst; auto; lia).
  all: intro Q; simpl in Q.
  all: repeat match goal with H : _ \/ _ |- _ => destruct H end.
  all: try apply cont_zero in Q.
  all: try (match goal with H : s_vecs ?s ?t = Some ?y, Q : a_cont ?y = CShared _ |- _ => apply (F t y); simpl; auto end; fail).
Qed.
Lemma user_live : forall c s o s' n, res_of (astep c s) = Some (o, s') -> s_user s n <> None -> ~ (c = UFree n \/ exists v, c = CSetArray v true OwnPointer (SUser n)) ->
  s_user s' n <> None.
Proof.
  intros c s o s' n H E1 G.
  start H c; auto.
  all: try match goal with H : negb ?h = false |- _ => destruct h; [|discriminate H] end.
  all: repeat apply putc_live; auto.
  all: simpl; unfold nupd; match goal with |- context [Nat.eqb ?a ?b] => destruct (Nat.eqb_spec a b); subst; auto; try discriminate end.
  all: exfalso; apply G; eauto.
Qed.
Lemma user_dead : forall c s o s' n, res_of (astep c s) = Some (o, s') -> s_user s n = None -> (n < s_nu s)%nat -> 
  (forall v y m, s_vecs s v = Some y -> a_cont y = CShared m -> s_user s m <> None) -> s_user s' n = None.
Proof.
  intros c s o s' n H E1 LN G.
  start H c; auto.
  all: try match goal with |- context [putc ?s ?v ?y ?l] => rewrite (@putc_user s v y l); [auto|] end.
  all: try (simpl; unfold nupd; match goal with |- context [Nat.eqb ?a ?b] => destruct (Nat.eqb_spec a b); subst; auto; try lia; congruence end).
  all: intro Q; simpl in Q; try apply cont_zero in Q.
  all: match goal with H : s_vecs ?s ?t = Some ?y, Q : a_cont ?y = CShared _ |- _ => apply (G t y n); simpl; auto end.
Qed.
(** ** A call that fails with a nonterminal error changes no contents *)
Lemma fail_conts : forall c s e s' u z, astep c s = AErr e s' -> 0 < e -> s_vecs s u = Some z ->
  (forall w x y, c = CMult w x y -> fld (@invalid R) false s w = false) ->
  (forall n, s_user s' n = s_user s n) /\ exists z', s_vecs s' u = Some z' /\ a_cont z' = a_cont z /\ a_len z' = a_len z.
Proof.
  intros c s e s' u z H P E1 NM.
  assert (E2 : forall t a, s_vecs s t = Some a -> forall k, (forall n, s_user (sv s t (tick a k)) n = s_user s n) /\ exists z', s_vecs (sv s t (tick a k)) u = Some z' /\ a_cont z' = a_cont z /\ a_len z' = a_len z).
  { intros t a Et k. split; auto. simpl. unfold nupd. destruct (Nat.eqb_spec u t); [subst; assert (a = z) by congruence; subst|]; eauto. }
  destruct c; allcases H; try (cbv in P; discriminate); try (split; [auto|eauto; fail]); try (eapply E2; eassumption).
  all: try (match goal with H : s_vecs _ ?w0 = Some ?a |- context [s_zero ?a] => specialize (NM _ _ _ eq_refl); rewrite (fld_at _ _ _ _ H) in NM; unfold s_zero; rewrite NM end; try (eapply E2; eassumption)).
  all: split; auto; simpl; unfold nupd.
  all: repeat match goal with |- context [Nat.eqb ?a ?b] => destruct (Nat.eqb_spec a b); subst end; eauto.
  all: repeat match goal with H : Some _ = Some _ |- _ => inversion H; subst; clear H end.
  all: repeat match goal with H : s_vecs _ ?v = Some ?a, H' : s_vecs _ ?v = Some ?b |- _ => assert (a = b) by congruence; subst; clear H end.
  all: eauto.
Qed.
Lemma shared_elsewhere_false : forall s v n u z, NewNone s -> shared_elsewhere s v n = false -> s_vecs s u = Some z -> u <> v -> a_cont z <> CShared n.
Proof.
  intros s v n u z NN H E N C. assert (L : (u < s_nv s)%nat) by (destruct (Nat.lt_ge_cases u (s_nv s)); auto; rewrite NN in E by auto; discriminate).
  unfold shared_elsewhere in H. assert (X : existsb (fun v' => negb (Nat.eqb v' v) && match s_vecs s v' with Some y => match a_cont y with CShared m => Nat.eqb m n | _ => false end | None => false end)
    (seq 0 (s_nv s)) = true); [|congruence].
  apply existsb_exists. exists u. split; [apply in_seq; lia|]. rewrite E, C. apply Nat.eqb_neq in N. rewrite N, Nat.eqb_refl. auto.
Qed.
Lemma frame_shared : forall c s o s' u z n l, NewNone s -> res_of (astep c s) = Some (o, s') -> s_vecs s u = Some z -> a_cont z = CShared n -> s_user s n = Some l -> (n < s_nu s)%nat ->
  ~ In u (writes c) -> (forall i a, c <> UWrite n i a) ->
  (forall t y, In t (writes c) -> s_vecs s t = Some y -> a_cont y <> CShared n) -> s_user s' n = Some l.
Proof.
  intros c s o s' u z n l NN H E1 CS US LN G UW F.
  start H c; auto.
  all: simpl in G.
  all: try match goal with |- context [putc ?s ?v ?y ?l] => rewrite (@putc_user s v y l); [auto|] end.
  all: try (simpl; unfold nupd; match goal with |- context [Nat.eqb ?a ?b] => destruct (Nat.eqb_spec a b); subst; auto; try lia end).
  all: try (exfalso; eapply UW; reflexivity).
  all: try match goal with H : _ || _ = false |- _ => apply orb_false_elim in H; destruct H end.
  all: try (exfalso; match goal with H : shared_elsewhere _ _ _ = false |- _ => refine (@shared_elsewhere_false _ _ _ _ _ NN H E1 _ CS) end; intro; subst; try (rewrite NN in E1 by lia; discriminate); apply G; auto).
  all: try (intro Q; simpl in Q; try apply cont_zero in Q; match goal with H : s_vecs ?s ?t = Some ?y, Q : a_cont ?y = CShared _ |- _ => apply (F t y); simpl; auto end; fail).
Qed.
Lemma shared_step : forall c s o s' v y n, NewNone s -> res_of (astep c s) = Some (o, s') -> s_vecs s v = Some y -> a_cont y = CShared n ->
  (forall host mode a, c <> CSetArray v host mode a) -> (forall host, c <> CTake v host) -> c <> CDestroy v ->
  exists y', s_vecs s' v = Some y' /\ a_cont y' = CShared n.
Proof.
  intros c s o s' v y n NN H E1 C G1 G2 G3.
  assert (L : (v < s_nv s)%nat) by (destruct (Nat.lt_ge_cases v (s_nv s)); auto; rewrite NN in E1 by auto; discriminate).
  assert (IV : invalid y = false) by (unfold invalid; rewrite C, andb_false_r; auto).
  start H c; eauto.
  all: unfold putc; try match goal with |- exists y', s_vecs (match ?x with _ => _ end) _ = _ /\ _ => destruct x eqn:? end; simpl; unfold nupd.
  all: repeat match goal with |- context [Nat.eqb ?a ?b] => destruct (Nat.eqb_spec a b); subst end; eauto; try lia.
  all: repeat match goal with H : Some _ = Some _ |- _ => inversion H; subst; clear H end.
  all: try (exfalso; eapply G1; reflexivity). all: try (exfalso; eapply G2; reflexivity). all: try (exfalso; apply G3; reflexivity).
  all: repeat match goal with H : s_vecs _ ?v = Some ?a, H' : s_vecs _ ?v = Some ?b |- _ => assert (a = b) by congruence; subst; clear H end.
  all: unfold s_zero in *; rewrite ?IV in *; simpl in *; eauto; try congruence.
Qed.
End P.
