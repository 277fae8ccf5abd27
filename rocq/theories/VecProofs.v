(** * The vector code refines the abstract machine *)
From Coq Require Import List ZArith Lia Bool Arith.
From Verif Require Import Prelude RstrModel VecModel VecSpec.
Import ListNotations.
Set Implicit Arguments.
Local Open Scope Z_scope.

Section P.
Variable R : Rng.
Notation world := (world R). Notation astate := (astate R). Notation avec := (avec R).

Definition arr (w : world) (v : nat) : ptr := match w_vecs w v with Some x => v_array x | None => None end.

(** ** The relation *)
Definition crel (w : world) (s : astate) (x : vec) (y : avec) : Prop :=
  match a_cont y with
  | CEmpty => v_owned x = None /\ v_borrowed x = None /\ v_array x = None
  | COwn l => exists a, v_owned x = Some a /\ v_borrowed x = None /\ v_array x = Some a /\ w_heap w a = Some l /\ (0 < a_len y <= length l)%nat
  | CShared n => v_owned x = None /\ v_borrowed x = Some (AU n) /\ v_array x = Some (AU n) /\
                 exists l, s_user s n = Some l /\ (0 < a_len y <= length l)%nat
  end.
Definition vrel (w : world) (s : astate) (v : nat) (x : vec) (y : avec) : Prop :=
  v_len x = a_len y /\ v_state x = a_clock y mod two64 /\ v_readers x = a_readers y /\ 0 <= a_readers y < two64 /\
  v_refs x = a_refs y /\ crel w s x y /\
  (a_wg y = true -> even (a_clock y) = false /\ w_wptr w v = v_array x) /\
  (a_rg y = true -> 0 < a_readers y /\ w_rptr w v = v_array x).
Record Rel (w : world) (s : astate) : Prop := {
  r_nv : w_nv w = s_nv s;
  r_nu : w_nu w = s_nu s;
  r_vec : forall v, match w_vecs w v, s_vecs s v with
                    | Some x, Some y => vrel w s v x y
                    | None, None => True
                    | _, _ => False
                    end;
  r_user : forall n l, s_user s n = Some l -> w_heap w (AU n) = Some l;
  r_inj : forall v v' x x' a, w_vecs w v = Some x -> w_vecs w v' = Some x' -> v_owned x = Some a -> v_owned x' = Some a -> v = v';
  r_dis : forall v x n, w_vecs w v = Some x -> v_owned x = Some (AU n) -> s_user s n = None;
  r_fv : forall v, (w_nv w <= v)%nat -> w_vecs w v = None;
  r_fl : forall k, (w_nl w <= k)%nat -> w_heap w (AL k) = None;
  r_fu : forall k, (w_nu w <= k)%nat -> w_heap w (AU k) = None;
  r_leak : forall a l, w_heap w a = Some l -> (exists n, a = AU n /\ s_user s n = Some l) \/ exists v x, w_vecs w v = Some x /\ v_owned x = Some a
}.

Definition weq (w w' : world) : Prop :=
  (forall v, w_vecs w v = w_vecs w' v) /\ (forall a, w_heap w a = w_heap w' a) /\ w_nv w = w_nv w' /\ w_nl w = w_nl w' /\ w_nu w = w_nu w' /\
  (forall v, w_wptr w v = w_wptr w' v) /\ (forall v, w_rptr w v = w_rptr w' v).
Definition seqv (s s' : astate) : Prop :=
  (forall v, s_vecs s v = s_vecs s' v) /\ (forall n, s_user s n = s_user s' n) /\ s_nv s = s_nv s' /\ s_nu s = s_nu s'.

Lemma weq_refl : forall w, weq w w. Proof. repeat split; auto. Qed.
Lemma weq_sym : forall w w', weq w w' -> weq w' w.
Proof. unfold weq; intuition congruence. Qed.
Lemma weq_trans : forall w1 w2 w3, weq w1 w2 -> weq w2 w3 -> weq w1 w3.
Proof. unfold weq; intuition (try congruence); etransitivity; eauto. Qed.
Lemma seqv_refl : forall s, seqv s s. Proof. repeat split; auto. Qed.

Lemma crel_eq : forall w w' s s' x y, weq w w' -> seqv s s' -> crel w s x y -> crel w' s' x y.
Proof.
  intros w w' s s' x y (Hv & Hh & _) (Hs & Hu & _). unfold crel. destruct (a_cont y); auto.
  - intros (a & ?). exists a. rewrite <- Hh. auto.
  - intros (? & ? & ? & l & ?). repeat split; auto. exists l. rewrite <- Hu. auto.
Qed.
Lemma Rel_eq : forall w w' s s', Rel w s -> weq w w' -> seqv s s' -> Rel w' s'.
Proof.
  intros w w' s s' H E1 E2. pose proof E1 as (Hv & Hh & ? & ? & ? & Hw & Hr). pose proof E2 as (Hs & Hu & ? & ?).
  destruct H. constructor; try congruence.
  - intro v. specialize (r_vec0 v). rewrite <- Hv, <- Hs. destruct (w_vecs w v), (s_vecs s v); auto.
    unfold vrel in *. rewrite <- Hw, <- Hr. intuition. eapply crel_eq; eauto.
  - intros n l. rewrite <- Hu, <- Hh. auto.
  - intros v v' x x' a. rewrite <- !Hv. eauto.
  - intros v x n. rewrite <- Hv, <- Hu. eauto.
  - intros v. rewrite <- Hv. intros. apply r_fv0. congruence.
  - intros k. rewrite <- Hh. intros. apply r_fl0. congruence.
  - intros k. rewrite <- Hh. intros. apply r_fu0. congruence.
  - intros a l. rewrite <- Hh. intro HH. destruct (r_leak0 _ _ HH) as [(n & ? & ?)|(v & x & ? & ?)].
    + left. exists n. rewrite <- Hu. auto.
    + right. exists v, x. rewrite <- Hv. auto.
Qed.

Lemma nupd_same : forall A (f : nat -> A) k x, nupd f k x k = x.
Proof. intros; unfold nupd; rewrite Nat.eqb_refl; auto. Qed.
Lemma nupd_other : forall A (f : nat -> A) k x j, j <> k -> nupd f k x j = f j.
Proof. intros; unfold nupd. destruct (Nat.eqb_spec j k); congruence. Qed.
Lemma addr_eqb_spec : forall a b, reflect (a = b) (addr_eqb a b).
Proof. intros [n|n] [m|m]; simpl; try (constructor; congruence); destruct (Nat.eqb_spec n m); constructor; congruence. Qed.
Lemma hupd_same : forall (f : addr -> option (list R)) k x, hupd f k x k = x.
Proof. intros; unfold hupd. destruct (addr_eqb_spec k k); congruence. Qed.
Lemma hupd_other : forall (f : addr -> option (list R)) k x j, j <> k -> hupd f k x j = f j.
Proof. intros; unfold hupd. destruct (addr_eqb_spec j k); congruence. Qed.

Lemma mod_pos : forall z, 0 <= z mod two64 < two64.
Proof. intro. apply Z.mod_pos_bound. reflexivity. Qed.
Lemma even_mod : forall z, even (z mod two64) = even z.
Proof.
  intro. unfold even. rewrite <- Znumtheory.Zmod_div_mod; auto; try reflexivity.
  exists 9223372036854775808. reflexivity.
Qed.
Lemma add64_mod : forall z k, add64 (z mod two64) k = (z + k) mod two64.
Proof. intros. unfold add64. rewrite Zplus_mod_idemp_l. auto. Qed.

Lemma r_look : forall w s v y, Rel w s -> s_vecs s v = Some y -> exists x, w_vecs w v = Some x /\ vrel w s v x y.
Proof. intros w s v y H E. pose proof (r_vec H v) as HV. rewrite E in HV. destruct (w_vecs w v); [eauto|contradiction]. Qed.
Lemma r_lookc : forall w s v x, Rel w s -> w_vecs w v = Some x -> exists y, s_vecs s v = Some y /\ vrel w s v x y.
Proof. intros w s v x H E. pose proof (r_vec H v) as HV. rewrite E in HV. destruct (s_vecs s v); [eauto|contradiction]. Qed.

(** *** L1: changing counters of one vector *)
Lemma Rel_counters : forall w s v x y st rd rf,
  Rel w s -> w_vecs w v = Some x -> s_vecs s v = Some y -> forall y',
  a_len y' = a_len y -> a_cont y' = a_cont y -> st = a_clock y' mod two64 -> rd = a_readers y' -> 0 <= rd < two64 -> rf = a_refs y' ->
  (a_wg y' = true -> even (a_clock y') = false /\ w_wptr w v = v_array x) -> (a_rg y' = true -> 0 < a_readers y' /\ w_rptr w v = v_array x) ->
  Rel (setv w v (Some (mkV (v_len x) st rd rf (v_owned x) (v_borrowed x) (v_array x)))) (sv s v y').
Proof.
  intros w s v x y st rd rf H Ex Ey y' El Ec Est Erd Hrd Erf Hwg Hrg.
  destruct (r_look v H Ey) as (x0 & Ex0 & HV). rewrite Ex in Ex0. inversion Ex0; subst x0; clear Ex0.
  assert (Hown: forall u z, w_vecs (setv w v (Some (mkV (v_len x) st rd rf (v_owned x) (v_borrowed x) (v_array x)))) u = Some z ->
                exists z', w_vecs w u = Some z' /\ v_owned z = v_owned z').
  { intros u z. simpl. destruct (Nat.eq_dec u v) as [->|N]; [rewrite nupd_same|rewrite nupd_other by auto]; intro E.
    - inversion E; subst. eexists; split; eauto.
    - eauto. }
  destruct H. constructor; simpl; auto.
  - intro u. destruct (Nat.eq_dec u v) as [->|N].
    + rewrite !nupd_same. destruct HV as (? & ? & ? & ? & ? & HC & ?).
      unfold vrel. simpl. repeat split; try congruence; try (apply Hwg; auto; fail); try (apply Hrg; auto; fail); try lia.
      unfold crel in *. rewrite Ec, El. simpl. auto.
    + rewrite !nupd_other by auto. specialize (r_vec0 u). destruct (w_vecs w u), (s_vecs s u); auto.
  - intros u u' z z' a H1 H2. destruct (Hown _ _ H1) as (? & ? & ->). destruct (Hown _ _ H2) as (? & ? & ->). eauto.
  - intros u z n H1. destruct (Hown _ _ H1) as (? & ? & ->). eauto.
  - intros u Hu. rewrite nupd_other; auto. intro; subst. rewrite r_fv0 in Ex; auto; congruence.
  - intros a l Ha. destruct (r_leak0 _ _ Ha) as [?|(u & z & H1 & H2)]; auto. right.
    destruct (Nat.eq_dec u v) as [->|N].
    + exists v. rewrite nupd_same. eexists; split; eauto. simpl. congruence.
    + exists u, z. rewrite nupd_other; auto.
Qed.

(** *** the block behind a vector *)
Lemma Rel_arr : forall w s v y l, Rel w s -> s_vecs s v = Some y -> conts s y = Some l ->
  exists a, arr w v = Some a /\ w_heap w a = Some l /\ (0 < a_len y <= length l)%nat.
Proof.
  intros w s v y l H E C. destruct (r_look v H E) as (x & Ex & HV). destruct HV as (? & ? & ? & ? & ? & HC & _).
  unfold crel, conts, arr in *. rewrite Ex. destruct (a_cont y) as [|l'|n]; try discriminate.
  - inversion C; subst. destruct HC as (a & ? & ? & ? & ? & ?). eauto.
  - destruct HC as (? & ? & ? & l' & El & ?). rewrite C in El; inversion El; subst. exists (AU n). split; auto. split; auto. eapply r_user; eauto.
Qed.
Lemma Rel_conts : forall w s v y, Rel w s -> s_vecs s v = Some y -> (0 < a_len y)%nat -> invalid y = false -> exists l, conts s y = Some l.
Proof.
  intros w s v y H E P I. destruct (r_look v H E) as (x & Ex & HV). destruct HV as (? & ? & ? & ? & ? & HC & _).
  unfold crel, conts, invalid in *. destruct (a_cont y) as [|l'|n]; eauto.
  - destruct (Nat.eqb_spec (a_len y) 0); simpl in I; [lia|discriminate].
  - destruct HC as (? & ? & ? & l' & El & ?). eauto.
Qed.
Lemma Rel_empty : forall w s v y, Rel w s -> s_vecs s v = Some y -> a_len y = 0%nat -> a_cont y = CEmpty /\ arr w v = None.
Proof.
  intros w s v y H E P. destruct (r_look v H E) as (x & Ex & HV). destruct HV as (? & ? & ? & ? & ? & HC & _).
  unfold crel, arr in *. rewrite Ex. destruct (a_cont y) as [|l'|n].
  - intuition.
  - destruct HC as (? & ? & ? & ? & ? & ?). lia.
  - destruct HC as (? & ? & ? & ? & ? & ?). lia.
Qed.

(** *** L2: writing the contents *)
Lemma Rel_write : forall w s v y l l' a, Rel w s -> s_vecs s v = Some y -> conts s y = Some l -> arr w v = Some a -> length l' = length l ->
  Rel (seth w a (Some l')) (putc s v y l').
Proof.
  intros w s v y l l' a H E C A L. destruct (r_look v H E) as (x & Ex & HV). pose proof HV as (Hlen & Hst & Hrd & Hrb & Hrf & HC & Hwg & Hrg).
  unfold arr in A. rewrite Ex in A. unfold putc, conts, crel in *. destruct (a_cont y) as [|lo|n] eqn:Ec; try discriminate.
  - inversion C; subst lo; clear C. destruct HC as (a' & Ho & Hb & Ha & Hh & Hl). rewrite A in Ha. inversion Ha; subst a'; clear Ha.
    assert (U: forall n m, a = AU n -> s_user s n = Some m -> False).
    { intros n m -> Hn. rewrite (@r_dis _ _ H _ _ _ Ex Ho) in Hn. discriminate. }
    pose proof (r_fl H) as FL. pose proof (r_fu H) as FU.
    destruct H. constructor; simpl; auto.
    + intro u. destruct (Nat.eq_dec u v) as [->|N].
      * rewrite Ex, nupd_same. unfold vrel; simpl. repeat split; try congruence; try lia; try (apply Hwg; auto); try (apply Hrg; auto).
        unfold crel; simpl. exists a. rewrite hupd_same. repeat split; auto; lia.
      * rewrite nupd_other by auto. specialize (r_vec0 u). destruct (w_vecs w u) eqn:Eu, (s_vecs s u) eqn:Fu; auto.
        destruct r_vec0 as (V1 & V2 & V3 & V4 & V5 & V6 & V7 & V8). unfold vrel. simpl. do 5 (split; [assumption|]). split; [|split; assumption].
        unfold crel in *. simpl. destruct (a_cont a0); auto.
        destruct V6 as (b & Hb1 & Hb2 & Hb3 & Hb4 & Hb5). exists b. rewrite hupd_other; auto.
        intro; subst b. apply N. eapply r_inj0; eauto.
    + intros n m Hn. rewrite hupd_other; eauto.
    + intros k Hk. rewrite hupd_other; auto. intro; subst a. rewrite FL in Hh; auto; congruence.
    + intros k Hk. rewrite hupd_other; auto. intro; subst a. rewrite FU in Hh; auto; congruence.
    + intros b m. destruct (addr_eqb_spec b a) as [->|N].
      * intros _. right. eauto.
      * rewrite hupd_other by auto. auto.
  - destruct HC as (Ho & Hb & Ha & lo & Hu & Hl). rewrite C in Hu; inversion Hu; subst lo. rewrite A in Ha. inversion Ha; subst a. clear Ha Hu.
    pose proof (@r_user _ _ H _ _ C) as Hh. pose proof (r_fu H) as FU.
    destruct H. constructor; simpl; auto.
    + intro u. specialize (r_vec0 u). destruct (w_vecs w u) eqn:Eu, (s_vecs s u) eqn:Fu; auto.
      destruct r_vec0 as (V1 & V2 & V3 & V4 & V5 & V6 & V7 & V8). unfold vrel. simpl. do 5 (split; [assumption|]). split; [|split; assumption].
        unfold crel in *. simpl. destruct (a_cont a); auto.
      * destruct V6 as (b & Hb1 & Hb2 & Hb3 & Hb4 & Hb5). exists b. rewrite hupd_other; auto.
        intro; subst b. rewrite (r_dis0 _ _ _ Eu Hb1) in C. discriminate.
      * destruct V6 as (H61 & H62 & H63 & m & Hm & Hl'). repeat split; auto. destruct (Nat.eq_dec n0 n) as [->|N].
        -- rewrite nupd_same. exists l'. split; auto. rewrite C in Hm; inversion Hm; subst. lia.
        -- rewrite nupd_other by auto. eauto.
    + intros m k. destruct (Nat.eq_dec m n) as [->|N].
      * rewrite nupd_same, hupd_same. auto.
      * rewrite nupd_other, hupd_other by congruence. auto.
    + intros u z m H1 H2. destruct (Nat.eq_dec m n) as [->|N].
      * rewrite (r_dis0 _ _ _ H1 H2) in C. discriminate.
      * rewrite nupd_other by auto. eauto.
    + intros k Hk. rewrite hupd_other; auto. intro E1; inversion E1; subst. rewrite FU in Hh; auto; congruence.
    + intros b m. destruct (addr_eqb_spec b (AU n)) as [->|N].
      * rewrite hupd_same. intro E1; inversion E1; subst. left. exists n. rewrite nupd_same. auto.
      * rewrite hupd_other by auto. intro E1. destruct (r_leak0 _ _ E1) as [(k & -> & Hk)|?]; auto.
        left. exists k. rewrite nupd_other by congruence. auto.
Qed.

(** *** L3: a new owned block for an empty vector *)
Lemma Rel_alloc : forall w s v x y (l : list R), Rel w s -> w_vecs w v = Some x -> s_vecs s v = Some y -> a_cont y = CEmpty ->
  a_wg y = false -> a_rg y = false -> (0 < a_len y <= length l)%nat ->
  Rel (@mkW R (nupd (w_vecs w) v (Some (with_arrays x (Some (AL (w_nl w))) None (Some (AL (w_nl w)))))) (hupd (w_heap w) (AL (w_nl w)) (Some l))
         (w_nv w) (S (w_nl w)) (w_nu w) (w_wptr w) (w_rptr w)) (sv s v (ct y (COwn l))).
Proof.
  intros w s v x y l H Ex E Ec W G L. destruct (r_look v H E) as (x0 & Ex0 & HV). rewrite Ex in Ex0; inversion Ex0; subst x0; clear Ex0.
  pose proof HV as (Hlen & Hst & Hrd & Hrb & Hrf & HC & Hwg & Hrg). unfold crel in HC. rewrite Ec in HC. destruct HC as (Ho & Hb & Ha).
  pose proof (r_fl H (k:=w_nl w) (le_n _)) as F.
  assert (NA: forall u z, w_vecs w u = Some z -> v_owned z = Some (AL (w_nl w)) -> False).
  { intros u z Hz Hoz. destruct (r_lookc u H Hz) as (yy & Hyy & HVV). destruct HVV as (_ & _ & _ & _ & _ & HCC & _).
    unfold crel in HCC. destruct (a_cont yy).
    - destruct HCC; congruence.
    - destruct HCC as (b & Hb1 & _ & _ & Hb4 & _). rewrite Hoz in Hb1; inversion Hb1; subst. congruence.
    - destruct HCC; congruence. }
  destruct H. constructor; simpl; auto.
  - intro u. destruct (Nat.eq_dec u v) as [->|N].
    + rewrite !nupd_same. unfold vrel; simpl. rewrite W, G. repeat split; try congruence; try lia.
      unfold crel; simpl. exists (AL (w_nl w)). rewrite hupd_same. repeat split; auto; lia.
    + rewrite !nupd_other by auto. specialize (r_vec0 u). destruct (w_vecs w u) eqn:Eu, (s_vecs s u) eqn:Fu; auto.
      destruct r_vec0 as (V1 & V2 & V3 & V4 & V5 & V6 & V7 & V8). unfold vrel. simpl. do 5 (split; [assumption|]). split; [|split; assumption].
        unfold crel in *. simpl. destruct (a_cont a); auto.
      destruct V6 as (b & Hb1 & Hb2 & Hb3 & Hb4 & Hb5). exists b. rewrite hupd_other; auto.
      intro; subst b. congruence.
  - intros u u' z z' a. destruct (Nat.eq_dec u v) as [->|N1], (Nat.eq_dec u' v) as [->|N2]; auto.
    + rewrite nupd_same, nupd_other by auto. intros E1 E2 E3 E4. inversion E1; subst z. simpl in E3. inversion E3; subst a. exfalso; eauto.
    + rewrite nupd_same, nupd_other by auto. intros E1 E2 E3 E4. inversion E2; subst z'. simpl in E4. inversion E4; subst a. exfalso; eauto.
    + rewrite !nupd_other by auto. eauto.
  - intros u z n. destruct (Nat.eq_dec u v) as [->|N1].
    + rewrite nupd_same. intro E1; inversion E1; subst; simpl. discriminate.
    + rewrite nupd_other by auto. eauto.
  - intros u Hu. rewrite nupd_other; auto. intro; subst. rewrite r_fv0 in Ex; auto; congruence.
  - intros k Hk. rewrite hupd_other; [apply r_fl0; lia|]. intro E1; inversion E1; lia.
  - intros b m. destruct (addr_eqb_spec b (AL (w_nl w))) as [->|N].
    + intros _. right. exists v. rewrite nupd_same. eauto.
    + rewrite hupd_other by auto. intro E1. destruct (r_leak0 _ _ E1) as [?|(u & z & Hu & Hz)]; auto. right.
      exists u, z. rewrite nupd_other; auto. intro; subst. congruence.
Qed.

(** *** L4/L5: the arrays of a vector are replaced after freeing the owned block *)
(** world after [free (v_owned x)] *)
Definition freed (w : world) (p : ptr) : world := match p with Some a => seth w a None | None => w end.
Lemma Rel_replace : forall w s v x y o b c us, Rel w s -> w_vecs w v = Some x -> s_vecs s v = Some y -> a_wg y = false -> a_rg y = false ->
  (* what the new pointers say *)
  match c with
  | CEmpty => o = None /\ b = None /\ us = None
  | COwn l => b = None /\ exists n, us = Some n /\ o = Some (AU n) /\ s_user s n = Some l /\ (0 < a_len y <= length l)%nat /\ shared_elsewhere s v n = false
  | CShared n => o = None /\ us = None /\ b = Some (AU n) /\ exists l, s_user s n = Some l /\ (0 < a_len y <= length l)%nat
  end ->
  Rel (setv (freed w (v_owned x)) v (Some (with_arrays x o b (match o with Some _ => o | None => b end))))
      (match us with Some n => su (sv s v (ct y c)) n None | None => sv s v (ct y c) end).
Proof.
  intros w s v x y o b c us H Ex E W G HP. destruct (r_look v H E) as (x0 & Ex0 & HV). rewrite Ex in Ex0; inversion Ex0; subst x0; clear Ex0.
  pose proof HV as (Hlen & Hst & Hrd & Hrb & Hrf & HC & Hwg & Hrg).
  (* facts about the freed heap *)
  assert (FH: forall a', v_owned x <> Some a' -> w_heap (freed w (v_owned x)) a' = w_heap w a').
  { intros a' N. unfold freed. destruct (v_owned x) as [a0|]; auto. simpl. rewrite hupd_other; congruence. }
  assert (FF: forall a' l, w_heap (freed w (v_owned x)) a' = Some l -> w_heap w a' = Some l /\ v_owned x <> Some a').
  { intros a' l. unfold freed. destruct (v_owned x) as [a0|]; [|split; congruence]. simpl.
    destruct (addr_eqb_spec a' a0) as [->|N]; [rewrite hupd_same; congruence|rewrite hupd_other by auto; split; congruence]. }
  assert (EV: w_vecs (freed w (v_owned x)) = w_vecs w) by (unfold freed; destruct (v_owned x); auto).
  assert (ENV: w_nv (freed w (v_owned x)) = w_nv w) by (unfold freed; destruct (v_owned x); auto).
  assert (ENU: w_nu (freed w (v_owned x)) = w_nu w) by (unfold freed; destruct (v_owned x); auto).
  assert (ENL: w_nl (freed w (v_owned x)) = w_nl w) by (unfold freed; destruct (v_owned x); auto).
  assert (EW: w_wptr (freed w (v_owned x)) = w_wptr w) by (unfold freed; destruct (v_owned x); auto).
  assert (ER: w_rptr (freed w (v_owned x)) = w_rptr w) by (unfold freed; destruct (v_owned x); auto).
  set (s' := match us with Some n => su (sv s v (ct y c)) n None | None => sv s v (ct y c) end).
  assert (SV: forall u, s_vecs s' u = nupd (s_vecs s) v (Some (ct y c)) u) by (intro; unfold s'; destruct us; auto).
  assert (SU: forall n, us <> Some n -> s_user s' n = s_user s n).
  { intros n N. unfold s'. destruct us as [m|]; simpl; auto. rewrite nupd_other; congruence. }
  assert (SU': forall n, us = Some n -> s_user s' n = None).
  { intros n ->. unfold s'. simpl. apply nupd_same. }
  assert (SUI: forall n l, s_user s' n = Some l -> s_user s n = Some l /\ us <> Some n).
  { intros n l Hn. assert (N: us <> Some n) by (intro Q; rewrite (SU' _ Q) in Hn; discriminate). rewrite SU in Hn by auto. auto. }
  (* a user block of s is not owned by x *)
  assert (DX: forall n l, s_user s n = Some l -> v_owned x <> Some (AU n)).
  { intros n l Hn Q. rewrite (@r_dis _ _ H _ _ _ Ex Q) in Hn. discriminate. }
  (* new owner *)
  assert (NO: forall a0, o = Some a0 -> exists n l, a0 = AU n /\ us = Some n /\ s_user s n = Some l).
  { intros a0 Q. destruct c; [destruct HP; congruence| |destruct HP; congruence].
    destruct HP as (_ & n & ? & Q2 & ? & _). exists n, l. rewrite Q in Q2. inversion Q2; auto. }
  assert (NUS: forall n, us = Some n -> o = Some (AU n)).
  { intros n Q. destruct c; [destruct HP as (?&?&?); congruence| |destruct HP as (?&?&?); congruence]. destruct HP as (_ & m & ? & ? & _). congruence. }
  (* an owner elsewhere is not the new block *)
  assert (OW: forall u z a0, w_vecs w u = Some z -> v_owned z = Some a0 -> o = Some a0 -> False).
  { intros u z a0 Hz Hoz Q. destruct (NO _ Q) as (n & l & -> & ? & Hn). rewrite (@r_dis _ _ H _ _ _ Hz Hoz) in Hn. discriminate. }
  destruct H. constructor.
  - simpl. rewrite ENV. unfold s'; destruct us; auto.
  - simpl. rewrite ENU. unfold s'; destruct us; auto.
  - intro u. cbn [w_vecs setv]. rewrite SV, EV. destruct (Nat.eq_dec u v) as [->|N].
    + rewrite !nupd_same. unfold vrel; simpl. rewrite W, G. repeat split; try congruence; try lia.
      unfold crel; simpl. destruct c as [|l|n].
      * destruct HP as (-> & -> & _). auto.
      * destruct HP as (-> & n & -> & -> & Hu & Hl & _). exists (AU n). cbn. repeat split; auto; try lia.
        rewrite FH; [apply r_user0; auto|eauto].
      * destruct HP as (-> & -> & -> & l & Hu & Hl). repeat split; auto. exists l. split; auto.
    + rewrite !nupd_other by auto. pose proof (r_vec0 u) as V. destruct (w_vecs w u) eqn:Eu, (s_vecs s u) eqn:Fu; auto.
      destruct V as (V1 & V2 & V3 & V4 & V5 & V6 & V7 & V8). unfold vrel. simpl. rewrite EW, ER. do 5 (split; [assumption|]). split; [|split; assumption].
      unfold crel in *. simpl. destruct (a_cont a) eqn:Eca; auto.
      * destruct V6 as (b0 & Hb1 & Hb2 & Hb3 & Hb4 & Hb5). exists b0. rewrite FH; auto. intro Q. apply N. eapply r_inj0; eauto.
      * destruct V6 as (H61 & H62 & H63 & m & Hm & Hl'). repeat split; auto. exists m. rewrite SU; auto.
        intro Q. destruct c; [destruct HP as (?&?&?); congruence| |destruct HP as (?&?&?); congruence].
        destruct HP as (_ & n' & Hus & _ & _ & _ & SE). assert (n' = n) by congruence. subst n'.
        unfold shared_elsewhere in SE. rewrite <- Bool.not_true_iff_false in SE. apply SE. apply existsb_exists. exists u. split.
        -- apply in_seq. rewrite <- r_nv0. destruct (Nat.ltb_spec u (w_nv w)); [lia|]. rewrite r_fv0 in Eu; auto; discriminate.
        -- destruct (Nat.eqb_spec u v); [contradiction|]. simpl. rewrite Fu, Eca. apply Nat.eqb_refl.
  - intros n l Hn. cbn. destruct (SUI _ _ Hn). rewrite FH; eauto.
  - intros u u' z z' a. cbn [w_vecs setv]. rewrite EV. destruct (Nat.eq_dec u v) as [->|N1], (Nat.eq_dec u' v) as [->|N2]; auto.
    + rewrite nupd_same, nupd_other by auto. intros E1 E2 E3 E4. inversion E1; subst z. simpl in E3. exfalso; eauto.
    + rewrite nupd_same, nupd_other by auto. intros E1 E2 E3 E4. inversion E2; subst z'. simpl in E4. exfalso; eauto.
    + rewrite !nupd_other by auto. eauto.
  - intros u z n. cbn [w_vecs setv]. rewrite EV. destruct (Nat.eq_dec u v) as [->|N1].
    + rewrite nupd_same. intro E1; inversion E1; subst; simpl. intro Q. destruct (NO _ Q) as (m & l & Q1 & Q2 & Q3). inversion Q1; subst m. auto.
    + rewrite nupd_other by auto. intros E1 E2. destruct (Nat.eq_dec 0 0); [|lia].
      assert (NN: us <> Some n). { intro Q. eapply OW; eauto. } rewrite SU; eauto.
  - intros u. cbn [w_vecs setv w_nv]. rewrite EV, ENV. intro Hu. rewrite nupd_other; auto. intro; subst. rewrite r_fv0 in Ex; auto; congruence.
  - intros k. cbn [w_heap setv w_nl]. rewrite ENL. intro Hk. destruct (w_heap (freed w (v_owned x)) (AL k)) eqn:Q; auto. destruct (FF _ _ Q) as (Q1 & _).
    rewrite r_fl0 in Q1; auto.
  - intros k. cbn [w_heap setv w_nu]. rewrite ENU. intro Hk. destruct (w_heap (freed w (v_owned x)) (AU k)) eqn:Q; auto. destruct (FF _ _ Q) as (Q1 & _).
    rewrite r_fu0 in Q1; auto.
  - intros a l. cbn [w_heap setv w_vecs]. rewrite EV. intro Q. destruct (FF _ _ Q) as (Q1 & Q2).
    destruct (r_leak0 _ _ Q1) as [(n & -> & Hn)|(u & z & Hu & Hz)].
    + assert (D: us = Some n \/ us <> Some n) by (destruct us as [m|]; [destruct (Nat.eq_dec m n); [left|right]|right]; congruence).
      destruct D as [D|D].
      * right. exists v. rewrite nupd_same. eexists; split; [reflexivity|]. simpl. auto.
      * left. exists n. rewrite SU; auto.
    + right. exists u, z. rewrite nupd_other; auto. intro; subst. congruence.
Qed.

(** *** L6: destroying a vector *)
Lemma Rel_destroy : forall w s v x, Rel w s -> w_vecs w v = Some x ->
  Rel (setv (freed w (v_owned x)) v None) (@mkS R (nupd (s_vecs s) v None) (s_user s) (s_nv s) (s_nu s)).
Proof.
  intros w s v x H Ex.
  assert (FH: forall a', v_owned x <> Some a' -> w_heap (freed w (v_owned x)) a' = w_heap w a').
  { intros a' N. unfold freed. destruct (v_owned x) as [a0|]; auto. simpl. rewrite hupd_other; congruence. }
  assert (FF: forall a' l, w_heap (freed w (v_owned x)) a' = Some l -> w_heap w a' = Some l /\ v_owned x <> Some a').
  { intros a' l. unfold freed. destruct (v_owned x) as [a0|]; [|split; congruence]. simpl.
    destruct (addr_eqb_spec a' a0) as [->|N]; [rewrite hupd_same; congruence|rewrite hupd_other by auto; split; congruence]. }
  assert (EV: w_vecs (freed w (v_owned x)) = w_vecs w) by (unfold freed; destruct (v_owned x); auto).
  assert (ENV: w_nv (freed w (v_owned x)) = w_nv w) by (unfold freed; destruct (v_owned x); auto).
  assert (ENU: w_nu (freed w (v_owned x)) = w_nu w) by (unfold freed; destruct (v_owned x); auto).
  assert (ENL: w_nl (freed w (v_owned x)) = w_nl w) by (unfold freed; destruct (v_owned x); auto).
  assert (EW: w_wptr (freed w (v_owned x)) = w_wptr w) by (unfold freed; destruct (v_owned x); auto).
  assert (ER: w_rptr (freed w (v_owned x)) = w_rptr w) by (unfold freed; destruct (v_owned x); auto).
  assert (DX: forall n l, s_user s n = Some l -> v_owned x <> Some (AU n)).
  { intros n l Hn Q. rewrite (@r_dis _ _ H _ _ _ Ex Q) in Hn. discriminate. }
  destruct H. constructor.
  - simpl. congruence.
  - simpl. congruence.
  - intro u. cbn [w_vecs setv s_vecs]. rewrite EV. destruct (Nat.eq_dec u v) as [->|N].
    + rewrite !nupd_same. auto.
    + rewrite !nupd_other by auto. pose proof (r_vec0 u) as V. destruct (w_vecs w u) eqn:Eu, (s_vecs s u) eqn:Fu; auto.
      destruct V as (V1 & V2 & V3 & V4 & V5 & V6 & V7 & V8). unfold vrel. simpl. rewrite EW, ER. do 5 (split; [assumption|]). split; [|split; assumption].
      unfold crel in *. simpl. destruct (a_cont a) eqn:Eca; auto.
      destruct V6 as (b0 & Hb1 & Hb2 & Hb3 & Hb4 & Hb5). exists b0. rewrite FH; auto. intro Q. apply N. eapply r_inj0; eauto.
  - intros n l Hn. cbn. rewrite FH; eauto.
  - intros u u' z z' a. cbn [w_vecs setv]. rewrite EV. intros E1 E2.
    assert (u <> v) by (intro; subst; rewrite nupd_same in E1; discriminate).
    assert (u' <> v) by (intro; subst; rewrite nupd_same in E2; discriminate).
    rewrite nupd_other in * by auto. eauto.
  - intros u z n. cbn [w_vecs setv]. rewrite EV. intros E1.
    assert (u <> v) by (intro; subst; rewrite nupd_same in E1; discriminate). rewrite nupd_other in * by auto. simpl. eauto.
  - intros u. cbn [w_vecs setv w_nv]. rewrite EV, ENV. intro Hu. unfold nupd. destruct (Nat.eqb u v); auto.
  - intros k. cbn [w_heap setv w_nl]. rewrite ENL. intro Hk. destruct (w_heap (freed w (v_owned x)) (AL k)) eqn:Q; auto. destruct (FF _ _ Q) as (Q1 & _).
    rewrite r_fl0 in Q1; auto.
  - intros k. cbn [w_heap setv w_nu]. rewrite ENU. intro Hk. destruct (w_heap (freed w (v_owned x)) (AU k)) eqn:Q; auto. destruct (FF _ _ Q) as (Q1 & _).
    rewrite r_fu0 in Q1; auto.
  - intros a l. cbn [w_heap setv w_vecs]. rewrite EV. intro Q. destruct (FF _ _ Q) as (Q1 & Q2).
    destruct (r_leak0 _ _ Q1) as [?|(u & z & Hu & Hz)]; [left; auto|].
    right. exists u, z. rewrite nupd_other; auto. intro; subst. congruence.
Qed.

(** *** L7: creation *)
Lemma Rel_create : forall w s len, Rel w s ->
  Rel (@mkW R (nupd (w_vecs w) (w_nv w) (Some (mkV len 0 0 1 None None None))) (w_heap w) (S (w_nv w)) (w_nl w) (w_nu w) (w_wptr w) (w_rptr w))
      (@mkS R (nupd (s_vecs s) (s_nv s) (Some (@mkA R len 0 0 1 CEmpty false false))) (s_user s) (S (s_nv s)) (s_nu s)).
Proof.
  intros w s len H.
  assert (O: forall u z a, nupd (w_vecs w) (w_nv w) (Some (mkV len 0 0 1 None None None)) u = Some z -> v_owned z = Some a -> w_vecs w u = Some z).
  { intros u z a. unfold nupd. destruct (Nat.eqb_spec u (w_nv w)); auto. intro E; inversion E; subst; simpl; discriminate. }
  destruct H. constructor; simpl; auto.
  - intro u. rewrite <- r_nv0. destruct (Nat.eq_dec u (w_nv w)) as [->|N].
    + rewrite !nupd_same. unfold vrel, crel; simpl. repeat split; auto; try lia; try discriminate.
    + rewrite !nupd_other by auto. specialize (r_vec0 u). destruct (w_vecs w u), (s_vecs s u); auto.
  - intros u u' z z' a E1 E2 E3 E4. pose proof (O _ _ _ E1 E3). pose proof (O _ _ _ E2 E4). eauto.
  - intros u z n E1 E2. pose proof (O _ _ _ E1 E2). eauto.
  - intros u Hu. rewrite nupd_other by lia. apply r_fv0. lia.
  - intros a l E. destruct (r_leak0 _ _ E) as [?|(u & z & Hu & Hz)]; auto. right. exists u, z. rewrite nupd_other; auto.
    intro; subst. rewrite r_fv0 in Hu; auto. discriminate.
Qed.

(** *** L8, L9: client blocks *)
Lemma Rel_ualloc : forall w s l, Rel w s ->
  Rel (@mkW R (w_vecs w) (hupd (w_heap w) (AU (w_nu w)) (Some l)) (w_nv w) (w_nl w) (S (w_nu w)) (w_wptr w) (w_rptr w))
      (@mkS R (s_vecs s) (nupd (s_user s) (s_nu s) (Some l)) (s_nv s) (S (s_nu s))).
Proof.
  intros w s l H. pose proof (r_fu H (le_n (w_nu w))) as F.
  assert (SF: s_user s (w_nu w) = None).
  { destruct (s_user s (w_nu w)) eqn:E; auto. rewrite (@r_user _ _ H _ _ E) in F. discriminate. }
  assert (NA: forall u z, w_vecs w u = Some z -> v_owned z = Some (AU (w_nu w)) -> False).
  { intros u z Hz Hoz. destruct (r_lookc u H Hz) as (yy & Hyy & HVV). destruct HVV as (_ & _ & _ & _ & _ & HCC & _).
    unfold crel in HCC. destruct (a_cont yy).
    - destruct HCC; congruence.
    - destruct HCC as (b & Hb1 & _ & _ & Hb4 & _). rewrite Hoz in Hb1; inversion Hb1; subst. congruence.
    - destruct HCC; congruence. }
  destruct H. constructor; simpl; auto.
  - intro u. pose proof (r_vec0 u) as V. destruct (w_vecs w u) eqn:Eu, (s_vecs s u) eqn:Fu; auto.
    destruct V as (V1 & V2 & V3 & V4 & V5 & V6 & V7 & V8). unfold vrel. simpl. do 5 (split; [assumption|]). split; [|split; assumption].
    unfold crel in *. simpl. destruct (a_cont a); auto.
    + destruct V6 as (b & Hb1 & Hb2 & Hb3 & Hb4 & Hb5). exists b. rewrite hupd_other; auto. intro; subst b. congruence.
    + destruct V6 as (H61 & H62 & H63 & m & Hm & Hl'). repeat split; auto. exists m. rewrite nupd_other; auto. intro; subst. congruence.
  - intros n m. rewrite <- r_nu0. destruct (Nat.eq_dec n (w_nu w)) as [->|N].
    + rewrite nupd_same, hupd_same. auto.
    + rewrite nupd_other by auto. rewrite hupd_other; auto. intro Q; inversion Q; auto.
  - intros u z n E1 E2. rewrite nupd_other; eauto. intro; subst. rewrite <- r_nu0 in E2. eauto.
  - intros k Hk. rewrite hupd_other; [apply r_fu0; lia|]. intro Q; inversion Q; lia.
  - intros b m. destruct (addr_eqb_spec b (AU (w_nu w))) as [->|N].
    + rewrite hupd_same. intro E; inversion E; subst. left. exists (w_nu w). rewrite r_nu0, nupd_same. auto.
    + rewrite hupd_other by auto. intro E. destruct (r_leak0 _ _ E) as [(n & -> & Hn)|?]; auto. left. exists n. rewrite nupd_other; auto.
      intro; subst. rewrite <- r_nu0 in N. auto.
Qed.
Lemma Rel_ufree : forall w s n l, Rel w s -> s_user s n = Some l -> shared_elsewhere s (s_nv s) n = false ->
  Rel (seth w (AU n) None) (su s n None).
Proof.
  intros w s n l H C SE.
  assert (NS: forall u y, s_vecs s u = Some y -> a_cont y = CShared n -> False).
  { intros u y Hu Hc. rewrite <- Bool.not_true_iff_false in SE. apply SE. apply existsb_exists. exists u.
    assert (u < s_nv s)%nat.
    { destruct (Nat.ltb_spec u (s_nv s)); auto. destruct (r_look u H Hu) as (x & Hx & _). rewrite (r_fv H) in Hx; [discriminate|]. rewrite (r_nv H). auto. }
    split; [apply in_seq; lia|]. destruct (Nat.eqb_spec u (s_nv s)); [lia|]. simpl. rewrite Hu, Hc. apply Nat.eqb_refl. }
  destruct H. constructor; simpl; auto.
  - intro u. pose proof (r_vec0 u) as V. destruct (w_vecs w u) eqn:Eu, (s_vecs s u) eqn:Fu; auto.
    destruct V as (V1 & V2 & V3 & V4 & V5 & V6 & V7 & V8). unfold vrel. simpl. do 5 (split; [assumption|]). split; [|split; assumption].
    unfold crel in *. simpl. destruct (a_cont a) eqn:Eca; auto.
    + destruct V6 as (b & Hb1 & Hb2 & Hb3 & Hb4 & Hb5). exists b. rewrite hupd_other; auto. intro; subst b. rewrite (r_dis0 _ _ _ Eu Hb1) in C. discriminate.
    + destruct V6 as (H61 & H62 & H63 & m & Hm & Hl'). repeat split; auto. exists m. rewrite nupd_other; auto. intro; subst. eauto.
  - intros m k. destruct (Nat.eq_dec m n) as [->|N].
    + rewrite nupd_same. discriminate.
    + rewrite nupd_other by auto. rewrite hupd_other; auto. intro Q; inversion Q; auto.
  - intros u z m E1 E2. unfold nupd. destruct (Nat.eqb m n); eauto.
  - intros k Hk. unfold hupd. destruct (addr_eqb _ _); auto.
  - intros b m. destruct (addr_eqb_spec b (AU n)) as [->|N].
    + rewrite hupd_same. discriminate.
    + rewrite hupd_other by auto. intro E. destruct (r_leak0 _ _ E) as [(k & -> & Hk)|?]; auto. left. exists k. rewrite nupd_other by congruence. auto.
Qed.
Lemma Rel_uwrite : forall w s n l l', Rel w s -> s_user s n = Some l -> length l' = length l -> Rel (seth w (AU n) (Some l')) (su s n (Some l')).
Proof.
  intros w s n l l' H C L. pose proof (@r_user _ _ H _ _ C) as Hh. pose proof (r_fu H) as FU.
  destruct H. constructor; simpl; auto.
  - intro u. pose proof (r_vec0 u) as V. destruct (w_vecs w u) eqn:Eu, (s_vecs s u) eqn:Fu; auto.
    destruct V as (V1 & V2 & V3 & V4 & V5 & V6 & V7 & V8). unfold vrel. simpl. do 5 (split; [assumption|]). split; [|split; assumption].
    unfold crel in *. simpl. destruct (a_cont a); auto.
    + destruct V6 as (b & Hb1 & Hb2 & Hb3 & Hb4 & Hb5). exists b. rewrite hupd_other; auto.
      intro; subst b. rewrite (r_dis0 _ _ _ Eu Hb1) in C. discriminate.
    + destruct V6 as (H61 & H62 & H63 & m & Hm & Hl'). repeat split; auto. destruct (Nat.eq_dec n0 n) as [->|N].
      * rewrite nupd_same. exists l'. split; auto. rewrite C in Hm; inversion Hm; subst. lia.
      * rewrite nupd_other by auto. eauto.
  - intros m k. destruct (Nat.eq_dec m n) as [->|N].
    + rewrite nupd_same, hupd_same. auto.
    + rewrite nupd_other by auto. rewrite hupd_other; auto. intro Q; inversion Q; auto.
  - intros u z m H1 H2. destruct (Nat.eq_dec m n) as [->|N].
    + rewrite (r_dis0 _ _ _ H1 H2) in C. discriminate.
    + rewrite nupd_other by auto. eauto.
  - intros k Hk. rewrite hupd_other; auto. intro E1; inversion E1; subst. rewrite FU in Hh; auto; congruence.
  - intros b m. destruct (addr_eqb_spec b (AU n)) as [->|N].
    + rewrite hupd_same. intro E1; inversion E1; subst. left. exists n. rewrite nupd_same. auto.
    + rewrite hupd_other by auto. intro E1. destruct (r_leak0 _ _ E1) as [(k & -> & Hk)|?]; auto.
      left. exists k. rewrite nupd_other by congruence. auto.
Qed.

(** *** L10: the client keeps a granted pointer *)
Lemma Rel_wptr : forall w s v y, Rel w s -> s_vecs s v = Some y -> even (a_clock y) = false ->
  Rel (@mkW R (w_vecs w) (w_heap w) (w_nv w) (w_nl w) (w_nu w) (nupd (w_wptr w) v (arr w v)) (w_rptr w)) (sv s v (wg y true)).
Proof.
  intros w s v y H E C. destruct (r_look v H E) as (x & Ex & HV). destruct HV as (V1 & V2 & V3 & V4 & V5 & V6 & V7 & V8).
  destruct H. constructor; simpl; auto.
  intro u. destruct (Nat.eq_dec u v) as [->|N].
  - rewrite nupd_same, Ex. unfold vrel; simpl. do 5 (split; [assumption|]). split; [exact V6|]. split; [|assumption].
    intros _. rewrite nupd_same. unfold arr. rewrite Ex. auto.
  - rewrite nupd_other by auto. specialize (r_vec0 u). destruct (w_vecs w u), (s_vecs s u); auto.
    unfold vrel in *; simpl. rewrite nupd_other by auto. exact r_vec0.
Qed.
Lemma Rel_rptr : forall w s v y, Rel w s -> s_vecs s v = Some y -> 0 < a_readers y ->
  Rel (@mkW R (w_vecs w) (w_heap w) (w_nv w) (w_nl w) (w_nu w) (w_wptr w) (nupd (w_rptr w) v (arr w v))) (sv s v (rg y true)).
Proof.
  intros w s v y H E C. destruct (r_look v H E) as (x & Ex & HV). destruct HV as (V1 & V2 & V3 & V4 & V5 & V6 & V7 & V8).
  destruct H. constructor; simpl; auto.
  intro u. destruct (Nat.eq_dec u v) as [->|N].
  - rewrite nupd_same, Ex. unfold vrel; simpl. do 5 (split; [assumption|]). split; [exact V6|]. split; [assumption|].
    intros _. rewrite nupd_same. unfold arr. rewrite Ex. auto.
  - rewrite nupd_other by auto. specialize (r_vec0 u). destruct (w_vecs w u), (s_vecs s u); auto.
    unfold vrel in *; simpl. rewrite nupd_other by auto. exact r_vec0.
Qed.

Lemma Rel_init : Rel empty_world empty_astate.
Proof. constructor; simpl; auto; try discriminate. Qed.
End P.
