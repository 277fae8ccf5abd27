(** * Property C34: cached assembled QFunctions *)
From Coq Require Import List ZArith Lia Bool Arith.
From Verif Require Import Prelude RstrModel RstrSpec RstrProofs RstrProps TensorModel BasisModel BasisProps OpModel OpSpec OpLists OpProofs OpMain OpTree OpProps AsmModel AsmSpec AsmProofs AsmProps MgModel CacheModel CacheSpec.
Import ListNotations.

Section Hist.
Variable R : Rng.
Variable k : kernel R.
Variable Jmin : nat.
Variable junk : nat -> nat -> R.
Variable chk : bool.
Variable D : nat -> udesc.
Variable bs : option nat.
Local Open Scope nat_scope.
Notation wf := (asm_wf R k Jmin chk D bs).
Notation dat s i := (match c_ptr s i with Some p => c_data s p | None => new_qd end).

(** histories of calls on any number of operators, newest first *)
Inductive history : list (hev R) -> cstate R -> Prop :=
| h_new : forall ops vm, (forall i, wf (ops i)) -> mem_ok vm -> history [] (new_cs ops vm)
| h_reuse : forall h s i b, history h s -> history (HReuse i b :: h) (set_reuse s i b)
| h_need : forall h s i b, history h s -> history (HNeed i b :: h) (set_need s i b)
| h_strip : forall h s i, history h s -> history (HStrip i :: h) (strip s i)
| h_share : forall h s f c, history h s -> history (HShare f c :: h) (share s f c)
| h_write : forall h s v x, history h s -> history (HWrite v x :: h) (set_vec s v x)
| h_set : forall h s v x, history h s -> length x = vv_len (c_vm s v) -> history (HOther :: h) (set_vm s (vec_event R (ESet v x) (c_vm s)))
| h_take : forall h s v, history h s -> history (HOther :: h) (set_vm s (vec_event R (ETake v) (c_vm s)))
| h_ctx : forall h s f, history h s -> (forall i, wf (set_pt (c_ops s i) (f i))) -> history (HOther :: h) (set_ctx s f)
| h_apply : forall h s i inv outv s', history h s -> vec_len D (c_ops s i) (c_vm s) inv outv -> apart (c_ops s i) inv outv ->
    cache_apply k junk chk D bs s i inv outv = Ok s' -> history (HApply i :: h) s'
| h_call : forall h s jl i s' v, history h s -> passive_ok R D (c_ops s i) (c_vm s) ->
    build_or_update k junk chk D bs jl s i = Ok (s', v) -> history (HCall i v (c_vec s' v) :: h) s'.

Definition sh_ok (h : list (hev R)) (s : cstate R) : Prop :=
  forall i j, shares h i j = true <-> i = j \/ exists p, c_ptr s i = Some p /\ c_ptr s j = Some p.
Definition fl_ok (h : list (hev R)) (s : cstate R) : Prop := forall i,
  q_reuse (dat s i) = reuse h i /\ q_need (dat s i) = need h i /\
  last h i = match q_vec (dat s i) with None => None | Some v => Some (v, c_vec s v) end.
Definition hp_ok (s : cstate R) : Prop :=
  (forall i p, c_ptr s i = Some p -> p < c_nd s) /\
  (forall p v, p < c_nd s -> q_vec (c_data s p) = Some v -> v < c_nv s) /\
  (forall p p' v, p < c_nd s -> p' < c_nd s -> q_vec (c_data s p) = Some v -> q_vec (c_data s p') = Some v -> p = p').
Definition op_ok (h : list (hev R)) (s : cstate R) : Prop :=
  forall i, wf (c_ops s i) /\ st_ok R chk D bs (c_ops s i) (assembled h i) (clean h i) (c_st s i) (c_vm s).
Definition inv_ok (h : list (hev R)) (s : cstate R) : Prop := sh_ok h s /\ fl_ok h s /\ hp_ok s /\ op_ok h s.

Lemma put_eq : forall A (f : nat -> A) i x, put f i x i = x.
Proof. intros. unfold put. rewrite Nat.eqb_refl. reflexivity. Qed.
Lemma put_ne : forall A (f : nat -> A) i x j, j <> i -> put f i x j = f j.
Proof. intros A f i x j H. unfold put. apply Nat.eqb_neq in H. rewrite H. reflexivity. Qed.

(** making the assembly data changes nothing that can be seen *)
Lemma get_data_ok : forall h s i, inv_ok h s ->
  let s' := fst (get_data s i) in let p := snd (get_data s i) in
  inv_ok h s' /\ c_ptr s' i = Some p /\ p < c_nd s' /\ c_ops s' = c_ops s /\ c_st s' = c_st s /\ c_vm s' = c_vm s /\ c_vec s' = c_vec s /\ c_nv s' = c_nv s.
Proof.
  intros h s i (Hs & Hf & (B1 & B2 & B3) & Ho) s' p. unfold s', p, get_data. destruct (c_ptr s i) as [q|] eqn:Eq; cbn [fst snd].
  { split; [split; auto; split; auto; split; auto; split; auto|]. split; auto. split; [eapply B1; eauto|]. auto 6. }
  cbn [c_ptr c_nd c_ops c_st c_vm c_vec c_nv c_data]. rewrite put_eq. split; [|split; auto; split; [lia|auto 6]].
  assert (Hne : forall j q, c_ptr s j = Some q -> q <> c_nd s). { intros j q Hj. apply B1 in Hj. lia. }
  split; [|split; [|split]].
  - intros a b. cbn [c_ptr]. rewrite (Hs a b). split; (intros [E|(q & E1 & E2)]; [auto|]).
    + right. exists q. rewrite !put_ne by congruence. auto.
    + unfold put in E1, E2. destruct (Nat.eqb_spec a i) as [->|], (Nat.eqb_spec b i) as [->|]; auto.
      * exfalso. inversion E1; subst q. eapply Hne; eauto.
      * exfalso. inversion E2; subst q. eapply Hne; eauto.
      * right. exists q. auto.
  - intros j. cbn [c_ptr c_data c_vec]. specialize (Hf j). destruct (Nat.eq_dec j i) as [->|n].
    + rewrite Eq in Hf. rewrite !put_eq. auto.
    + rewrite !(put_ne _ (c_ptr s) i _ j n). destruct (c_ptr s j) as [q|] eqn:Ej; auto. rewrite !put_ne by (eapply Hne; eauto). auto.
  - unfold hp_ok. cbn [c_ptr c_data c_vec c_nd c_nv]. split; [|split].
    + intros j q. unfold put. destruct (Nat.eqb_spec j i) as [->|]; intros E; [inversion E; subst; cbn [c_nd]; lia|]. apply B1 in E. lia.
    + intros q v Hq. unfold put. destruct (Nat.eqb_spec q (c_nd s)) as [->|]; [discriminate|]. apply B2. lia.
    + intros q q' v Hq Hq'. unfold put. destruct (Nat.eqb_spec q (c_nd s)) as [->|]; [discriminate|].
      destruct (Nat.eqb_spec q' (c_nd s)) as [->|]; [discriminate|]. apply B3; lia.
  - exact Ho.
Qed.
Lemma sh_refl : forall h s, sh_ok h s -> forall i, shares h i i = true.
Proof. intros h s H i. apply H. auto. Qed.

(** changing the flags of the data of [i] is seen by those who share it *)
Lemma dat_set : forall h s i p d j, sh_ok h s -> c_ptr s i = Some p ->
  (match c_ptr (set_data s p d) j with Some q => c_data (set_data s p d) q | None => new_qd end) = (if shares h j i then d else dat s j).
Proof.
  intros h s i p d j Hs Hp. cbn [set_data c_ptr c_data]. destruct (shares h j i) eqn:E.
  - apply Hs in E. destruct E as [->|(q & E1 & E2)]; [rewrite Hp, put_eq; auto|]. rewrite E1. rewrite Hp in E2. inversion E2. rewrite put_eq. auto.
  - destruct (c_ptr s j) as [q|] eqn:Ej; auto. apply put_ne. intros ->. rewrite (proj2 (Hs j i)) in E; [discriminate|]. right. exists p. auto.
Qed.
Lemma hp_set : forall s p d, hp_ok s -> q_vec d = q_vec (c_data s p) -> hp_ok (set_data s p d).
Proof.
  intros s p d (B1 & B2 & B3) E.
  assert (Ev : forall q, q_vec (c_data (set_data s p d) q) = q_vec (c_data s q)).
  { intros q. cbn [set_data c_data]. unfold put. destruct (Nat.eqb_spec q p) as [->|]; auto. }
  split; [exact B1|]. split; [intros q v Hq; rewrite Ev; apply B2; auto|]. intros q q' v Hq Hq'. rewrite !Ev. apply B3; auto.
Qed.
Lemma set_reuse_ok : forall h s i b, inv_ok h s -> inv_ok (HReuse i b :: h) (set_reuse s i b).
Proof.
  intros h s i b H. unfold set_reuse. destruct (get_data_ok h s i H) as ((Hs & Hf & Hh & Ho) & Hp & _).
  set (s1 := fst (get_data s i)) in *. set (p := snd (get_data s i)) in *. split; [exact Hs|]. split; [|split; [apply hp_set; auto|exact Ho]].
  intros j. rewrite (dat_set h s1 i p _ j Hs Hp). cbn [reuse need last]. destruct (Hf j) as (F1 & F2 & F3). destruct (shares h j i) eqn:E; [|auto].
  cbn [q_reuse q_need q_vec]. split; auto. split; auto. rewrite F3. apply Hs in E. destruct E as [->|(q & E1 & E2)]; [rewrite Hp; auto|].
  rewrite E1. rewrite Hp in E2. inversion E2. auto.
Qed.
Lemma set_need_ok : forall h s i b, inv_ok h s -> inv_ok (HNeed i b :: h) (set_need s i b).
Proof.
  intros h s i b H. unfold set_need. destruct (get_data_ok h s i H) as ((Hs & Hf & Hh & Ho) & Hp & _).
  set (s1 := fst (get_data s i)) in *. set (p := snd (get_data s i)) in *. split; [exact Hs|]. split; [|split; [apply hp_set; auto|exact Ho]].
  intros j. rewrite (dat_set h s1 i p _ j Hs Hp). cbn [reuse need last]. destruct (Hf j) as (F1 & F2 & F3). destruct (shares h j i) eqn:E; [|auto].
  cbn [q_reuse q_need q_vec]. rewrite F3, <- F1. apply Hs in E. destruct E as [->|(q & E1 & E2)]; [rewrite Hp; auto|].
  rewrite E1. rewrite Hp in E2. inversion E2. auto.
Qed.
Lemma strip_ok : forall h s i, inv_ok h s -> inv_ok (HStrip i :: h) (strip s i).
Proof.
  intros h s i (Hs & Hf & (B1 & B2 & B3) & Ho). split; [|split; [|split; [split; [|split; auto]|exact Ho]]].
  - intros a b. cbn [shares strip c_ptr]. rewrite !orb_true_iff, !andb_true_iff, !negb_true_iff, (Hs a b), Nat.eqb_eq, !Nat.eqb_neq. unfold put. split.
    + intros [E|((Ea & Eb) & [E|(p & E1 & E2)])]; auto. right. exists p. apply Nat.eqb_neq in Ea, Eb. rewrite Ea, Eb. auto.
    + intros [E|(p & E1 & E2)]; auto. destruct (Nat.eqb_spec a i); [discriminate|]. destruct (Nat.eqb_spec b i); [discriminate|]. right. split; auto. right. eauto.
  - intros j. cbn [reuse need last strip c_ptr c_data c_vec]. unfold put. destruct (j =? i); [auto|exact (Hf j)].
  - intros j p. cbn [strip c_ptr]. unfold put. destruct (j =? i); [discriminate|]. apply B1.
Qed.
Lemma share_ok : forall h s f c, inv_ok h s -> inv_ok (HShare f c :: h) (share s f c).
Proof.
  intros h s f c H. unfold share. destruct (get_data_ok h s f H) as ((Hs & Hf & (B1 & B2 & B3) & Ho) & Hp & Hlt & _).
  set (s1 := fst (get_data s f)) in *. set (p := snd (get_data s f)) in *. cbv zeta.
  assert (Ep : forall j, put (c_ptr s1) c (Some p) j = c_ptr s1 (src f c j)). { intros j. unfold put, src. destruct (j =? c); auto. }
  split; [|split; [|split; [split; [|split; auto]|exact Ho]]].
  - intros a b. cbn [shares c_ptr]. rewrite !Ep, (Hs _ _). split; (intros [E|E]; [|right; exact E]).
    + destruct (Nat.eq_dec a b) as [|Hn]; auto. right. exists p. rewrite <- E.
      assert (Ef : src f c a = f). { unfold src in *. destruct (Nat.eqb_spec a c), (Nat.eqb_spec b c); congruence. }
      rewrite Ef. auto.
    + subst. auto.
  - intros j. cbn [reuse need last c_ptr c_data c_vec]. rewrite !Ep. exact (Hf (src f c j)).
  - intros j q. cbn [c_ptr c_nd]. rewrite Ep. apply B1.
Qed.
Lemma write_ok : forall h s v x, inv_ok h s -> inv_ok (HWrite v x :: h) (set_vec s v x).
Proof.
  intros h s v x (Hs & Hf & Hh & Ho). split; [exact Hs|]. split; [|split; [exact Hh|exact Ho]].
  intros j. destruct (Hf j) as (F1 & F2 & F3). split; [exact F1|]. split; [exact F2|]. cbn [last set_vec c_ptr c_data c_vec]. rewrite F3.
  destruct (q_vec (dat s j)) as [w|]; auto.
Qed.
Lemma st_fresh : forall o a c st vm vm', mem_ok vm' -> (forall im, im_ok chk D bs o im vm -> im_ok chk D bs o im vm') ->
  st_ok R chk D bs o a c st vm -> st_ok R chk D bs o a c st vm'.
Proof. intros o a c st vm vm' Hm Hf (H1 & H2 & H3 & H4). split; auto. Qed.
Lemma set_vm_ok : forall h s vm', (forall i, st_ok R chk D bs (c_ops s i) (assembled h i) (clean h i) (c_st s i) (c_vm s) -> st_ok R chk D bs (c_ops s i) (assembled h i) (clean h i) (c_st s i) vm') ->
  inv_ok h s -> inv_ok (HOther :: h) (set_vm s vm').
Proof.
  intros h s vm' Hx (Hs & Hf & Hh & Ho). split; [exact Hs|]. split; [exact Hf|]. split; [exact Hh|]. intros i. destruct (Ho i) as (H1 & H2). split; [exact H1|]. apply Hx. exact H2.
Qed.
Lemma st_pt : forall o f a c st vm, st_ok R chk D bs o a c st vm -> st_ok R chk D bs (set_pt o f) a c st vm.
Proof.
  intros o f a c st vm (H1 & H2 & H3 & H4). split; [exact H1|]. split; [|split; [exact H3|exact H4]].
  destruct (a_im st) as [(s, d)|]; [|exact I]. destruct H2 as ([K1 K2 K3 K4 K5 K6 K7] & [L1 L2 L3 L4 L5] & K). split; [constructor|split; [constructor|]]; assumption.
Qed.
Lemma ctx_ok : forall h s f, (forall i, wf (set_pt (c_ops s i) (f i))) -> inv_ok h s -> inv_ok (HOther :: h) (set_ctx s f).
Proof.
  intros h s f Hw (Hs & Hf & Hh & Ho). split; [exact Hs|]. split; [exact Hf|]. split; [exact Hh|]. intros i. destruct (Ho i) as (H1 & H2). split; [apply Hw|].
  apply st_pt. exact H2.
Qed.

(** the state after a call *)
Lemma call_post : forall h s i p v A s2, inv_ok h s -> c_ptr s i = Some p -> p < c_nd s ->
  q_vec (c_data s p) = Some v \/ (q_vec (c_data s p) = None /\ v = c_nv s) ->
  c_ops s2 = c_ops s -> c_ptr s2 = c_ptr s -> c_nd s2 = c_nd s -> c_nv s <= c_nv s2 -> v < c_nv s2 ->
  (forall q, c_data s2 q = put (c_data s) p (mkQD (Some v) (q_reuse (c_data s p)) false) q) ->
  (forall w, c_vec s2 w = put (c_vec s) v A w) ->
  (forall j, st_ok R chk D bs (c_ops s j) (assembled (HCall i v A :: h) j) (clean (HCall i v A :: h) j) (c_st s2 j) (c_vm s2)) ->
  inv_ok (HCall i v A :: h) s2.
Proof.
  intros h s i p v A s2 (Hs & Hf & (B1 & B2 & B3) & Ho) Hp Hlt Hv E1 E2 E3 E4 E5 Ed Ev Hst.
  assert (Hpv : forall q, q < c_nd s -> q <> p -> q_vec (c_data s q) <> Some v).
  { intros q Hq Hn E. destruct Hv as [Hv|(Hv & ->)]; [apply Hn; eapply B3; eauto|]. apply B2 in E; auto. lia. }
  split; [|split; [|split]].
  - intros a b. rewrite E2. apply Hs.
  - intros j. rewrite E2. destruct (Hf j) as (F1 & F2 & F3). cbn [reuse need last]. destruct (shares h j i) eqn:E.
    + assert (Ej : c_ptr s j = Some p). { apply Hs in E. destruct E as [->|(q & A1 & A2)]; auto. congruence. }
      rewrite Ej in *. rewrite !Ed, !put_eq. cbn [q_reuse q_need q_vec]. rewrite Ev, put_eq. auto.
    + destruct (c_ptr s j) as [q|] eqn:Ej; [|cbn [q_vec new_qd] in *; auto].
      assert (Hq : q <> p). { intros ->. rewrite (proj2 (Hs j i)) in E; [discriminate|]. right. eauto. }
      rewrite !Ed, !put_ne by auto. split; auto. split; auto. rewrite F3. destruct (q_vec (c_data s q)) as [w|] eqn:Ew; auto.
      rewrite Ev, put_ne; auto. intros ->. apply (Hpv q); auto. eapply B1; eauto.
  - unfold hp_ok. rewrite E2, E3. split; auto. split.
    + intros q w Hq. rewrite Ed. unfold put. destruct (Nat.eqb_spec q p) as [->|]; cbn [q_vec].
      * intros E. inversion E. lia.
      * intros E. apply B2 in E; auto. lia.
    + intros q q' w Hq Hq'. rewrite !Ed. unfold put. destruct (Nat.eqb_spec q p) as [->|], (Nat.eqb_spec q' p) as [->|]; cbn [q_vec]; auto; intros A1 A2.
      * exfalso. inversion A1; subst. apply (Hpv q'); auto.
      * exfalso. inversion A2; subst. apply (Hpv q); auto.
      * eapply B3; eauto.
  - intros j. rewrite E1. split; [apply Ho|]. apply Hst.
Qed.
Lemma call_ok : forall h s jl i, inv_ok h s -> passive_ok R D (c_ops s i) (c_vm s) ->
  exists s' v, build_or_update k junk chk D bs jl s i = Ok (s', v) /\ inv_ok (HCall i v (c_vec s' v) :: h) s' /\
    match kept h i with Some (v0, A0) => v = v0 /\ c_vec s' v = A0 | None => clean h i = true -> is_assembled D (c_ops s i) (c_vm s) (c_vec s' v) end /\
    (forall v0 A0, last h i = Some (v0, A0) -> v = v0) /\ c_ops s' = c_ops s /\ c_vm s' = c_vm s.
Proof.
  intros h s jl i H Hp. unfold build_or_update. destruct (get_data_ok h s i H) as (Hi & Ep & Hlt & E1 & E2 & E3 & E4 & E5).
  destruct (get_data s i) as (s1, p) eqn:Eg. cbn [fst snd] in *. clear H Eg.
  assert (Hi' := Hi). destruct Hi' as (Hs & Hf & Hh & Ho). destruct (Hf i) as (F1 & F2 & F3). rewrite Ep in F1, F2, F3.
  rewrite <- E1, <- E3 in Hp. destruct (Ho i) as (Hw & Hst).
  destruct (assemble_ok R k Jmin junk chk D bs (c_ops s1 i) jl _ _ _ _ (wf_base _ _ _ _ _ _ _ Hw) Hst Hp (fun _ => asm_unshared _ _ _ _ _ _ _ Hw)) as (st' & A & Ea & Hst' & HA).
  assert (Hkept : kept h i = if update_needed (c_data s1 p) then None else match q_vec (c_data s1 p) with None => None | Some v => Some (v, c_vec s1 v) end).
  { unfold kept, update_needed. rewrite <- F1, <- F2, F3. destruct (q_reuse (c_data s1 p)), (q_need (c_data s1 p)); reflexivity. }
  assert (Hst2 : forall v A j, kept h i = None -> st_ok R chk D bs (c_ops s1 j) (assembled (HCall i v A :: h) j) (clean (HCall i v A :: h) j) (put (c_st s1) i st' j) (c_vm s1)).
  { intros v A0 j Hk. cbn [assembled clean]. unfold put. destruct (Nat.eqb_spec j i) as [->|]; cbn [andb orb]; [|apply Ho].
    rewrite Hk. cbn [orb]. exact Hst'. }
  destruct (q_vec (c_data s1 p)) as [v|] eqn:Ev.
  - destruct (update_needed (c_data s1 p)) eqn:Eu; rewrite Hkept.
    + rewrite Ea. cbn [rbind fst snd]. eexists. exists v. split; [reflexivity|].
      cbn [set_data c_vec c_data c_ops c_vm]. rewrite put_eq. split; [|split; [|split; [|split; [exact E1|exact E3]]]].
      * apply (call_post h s1 i p v A); cbn [set_data c_ops c_ptr c_nd c_nv c_data c_vec c_st c_vm]; auto.
        { destruct Hh as (_ & B2 & _). eapply B2; eauto. }
        { intros q. rewrite Ev. reflexivity. }
      * rewrite <- E1, <- E3. auto.
      * intros v0 A0 E. rewrite F3 in E. inversion E. auto.
    + cbn [rbind]. eexists. exists v. split; [reflexivity|]. cbn [set_data c_vec c_data c_ops c_vm].
      split; [|split; [|split; [|split; [exact E1|exact E3]]]].
      * apply (call_post h s1 i p v (c_vec s1 v)); cbn [set_data c_ops c_ptr c_nd c_nv c_data c_vec c_st c_vm]; auto.
        { destruct Hh as (_ & B2 & _). eapply B2; eauto. }
        { intros q. rewrite Ev. reflexivity. }
        { intros w. unfold put. destruct (Nat.eqb_spec w v); subst; auto. }
        { intros j. cbn [assembled clean]. destruct (Nat.eqb_spec j i) as [->|]; cbn [andb orb]; [|apply Ho]. rewrite Hkept. cbn [orb]. exact Hst. }
      * auto.
      * intros v0 A0 E. rewrite F3 in E. inversion E. auto.
  - assert (Hk : kept h i = None). { rewrite Hkept. destruct (update_needed _); auto. }
    rewrite Hk, Ea. cbn [rbind fst snd]. eexists. exists (c_nv s1). split; [reflexivity|].
    cbn [set_data c_vec c_data c_ops c_vm]. rewrite put_eq. split; [|split; [|split; [|split; [exact E1|exact E3]]]].
    + apply (call_post h s1 i p (c_nv s1) A); cbn [set_data c_ops c_ptr c_nd c_nv c_data c_vec c_st c_vm]; auto; try lia.
      intros q. rewrite put_eq. cbn [q_reuse q_vec]. unfold put. destruct (q =? p); auto.
    + rewrite <- E1, <- E3. auto.
    + intros v0 A0 E. rewrite F3 in E. discriminate.
Qed.
Lemma applied_ok : forall h s i inv outv, inv_ok h s -> vec_len D (c_ops s i) (c_vm s) inv outv -> apart (c_ops s i) inv outv ->
  exists s', cache_apply k junk chk D bs s i inv outv = Ok s' /\ inv_ok (HApply i :: h) s'.
Proof.
  intros h s i inv outv (Hs & Hf & Hh & Ho) Hv Ha. unfold cache_apply. destruct (Ho i) as (Hw & Hst). assert (Hw' := Hw). destruct Hw' as (Hwf & _).
  destruct (apply_ok R k Jmin junk chk D bs (c_ops s i) _ _ _ _ inv outv Hwf Hst Hv Ha) as (st' & vm' & E & Hst' & _). rewrite E. cbn [rbind fst snd].
  eexists. split; [reflexivity|]. split; [exact Hs|]. split; [exact Hf|]. split; [exact Hh|].
  assert (Hfr : fresh vm' vm' /\ fresh (c_vm s) vm' /\ mem_ok vm').
  { split; [apply fresh_refl|]. destruct Hst as (Hm & Him & _). unfold asm_apply in E.
    destruct (single_apply_ok junk (a_im (c_st s i)) Hwf Hm Him Hv Ha) as (im2 & vm2 & E2 & P1 & P2 & P3). rewrite E2 in E. cbn [rbind fst snd] in E. inversion E; subst vm2.
    split; auto. intros w. specialize (P3 w). destruct (outs (c_ops s i) outv w); auto. destruct P3 as (_ & P & _). auto. }
  destruct Hfr as (_ & Hfr & Hm').
  intros j. destruct (Ho j) as (Hwj & Hj). split; [exact Hwj|]. cbn [assembled clean c_ops c_st c_vm]. unfold put. destruct (Nat.eqb_spec j i) as [->|]; [exact Hst'|].
  eapply st_fresh; [exact Hm'| |exact Hj]. intros im Him. eapply im_fresh; eauto.
Qed.
Lemma history_ok : forall h s, history h s -> inv_ok h s.
Proof.
  intros h s H. induction H as [ops vm Hw Hm|h s i b H IH|h s i b H IH|h s i H IH|h s f c H IH|h s v x H IH|h s v x H IH Hx|h s v H IH|h s f H IH Hw|h s i inv outv s' H IH Hv Ha E|h s jl i s' v H IH Hp E].
  - split; [|split; [|split]].
    + intros i j. cbn [shares new_cs c_ptr]. rewrite Nat.eqb_eq. split; auto. intros [E|(p & E & _)]; auto. discriminate.
    + intros i. cbn. auto.
    + split; [discriminate|]. split; [intros p v Hp; cbn in Hp; lia|]. intros p p' v Hp; cbn in Hp; lia.
    + intros i. split; [apply Hw|]. split; [exact Hm|]. split; [exact I|]. split; [split; reflexivity|discriminate].
  - apply set_reuse_ok; auto.
  - apply set_need_ok; auto.
  - apply strip_ok; auto.
  - apply share_ok; auto.
  - apply write_ok; auto.
  - apply set_vm_ok; auto. intros i Hst. assert (Hm := Hst). destruct Hm as (Hm & _). eapply st_fresh; [| |exact Hst].
    + intros w. cbn [vec_event]. unfold vset. destruct (Nat.eqb_spec w v) as [->|]; [|apply Hm]. destruct (Hm v) as (M1 & M2 & M3). cbn [vv_state vv_data vv_len].
      split; [lia|]. split; [lia|]. intros y Ey. inversion Ey; subst; auto.
    + intros im Him. apply im_fresh with (vm := c_vm s); auto. intros w. cbn [vec_event]. unfold vset. destruct (Nat.eqb_spec w v) as [->|]; auto. right. cbn [vv_state]. lia.
  - apply set_vm_ok; auto. intros i Hst. assert (Hm := Hst). destruct Hm as (Hm & _). eapply st_fresh; [| |exact Hst].
    + intros w. cbn [vec_event]. unfold vset. destruct (Nat.eqb_spec w v) as [->|]; [|apply Hm]. destruct (Hm v) as (M1 & M2 & M3). cbn [vv_state vv_data vv_len].
      split; auto. split; auto. discriminate.
    + intros im Him. unfold im_ok in *. destruct im as [(s0, d)|]; auto. destruct Him as (H1 & H2 & H3). split; auto. split; auto.
      intros j w Hin Hmo Hf Hve. destruct (H3 j w Hin Hmo Hf Hve) as (K1 & K2). cbn [vec_event]. unfold vset. destruct (Nat.eqb_spec w v) as [->|]; auto.
      cbn [vv_state vv_data]. split; auto. discriminate.
  - apply ctx_ok; auto.
  - destruct (applied_ok h s i inv outv IH Hv Ha) as (s2 & E2 & K). rewrite E in E2. inversion E2; subst. auto.
  - destruct (call_ok h s jl i IH Hp) as (s2 & v2 & E2 & K & _). rewrite E in E2. inversion E2; subst. auto.
Qed.
End Hist.

(** ** C34 *)
(** After every history of calls on any number of operators, BuildOrUpdate succeeds.  It returns the vector and the contents of the
    last call (as the caller left them) if reuse is on and no update was requested since; otherwise the values assembled now
    (correct where C33 says so).  Operators that share their data share the vector until it is stripped. *)
Theorem C34_call : forall (R : Rng) k Jmin junk chk D bs h (s : cstate R) jl i,
  history R k Jmin junk chk D bs h s -> passive_ok R D (c_ops s i) (c_vm s) ->
  exists s' v, build_or_update k junk chk D bs jl s i = Ok (s', v) /\ history R k Jmin junk chk D bs (HCall i v (c_vec s' v) :: h) s' /\
    match kept h i with
    | Some (v0, A0) => v = v0 /\ c_vec s' v = A0
    | None => clean h i = true -> is_assembled D (c_ops s i) (c_vm s) (c_vec s' v)
    end /\
    (forall v0 A0, last h i = Some (v0, A0) -> v = v0).
Proof.
  intros R k Jmin junk chk D bs h s jl i Hh Hp.
  destruct (call_ok R k Jmin junk chk D bs h s jl i (history_ok R k Jmin junk chk D bs h s Hh) Hp) as (s' & v & E & _ & Hk & Hl & _).
  exists s', v. split; auto. split; auto. eapply h_call; eauto.
Qed.
Print Assumptions C34_call.

(** Sharing between the levels of a multigrid hierarchy is sound: the array is right for the coarse operator if it is right for
    the fine one, whatever coarse restriction and basis are. *)
Theorem C34_coarse : forall (R : Rng) D (o : oper R) rc bc vm A, is_assembled D o vm A <-> is_assembled D (op_coarse rc bc o) vm A.
Proof.
  intros R D o rc bc vm A.
  assert (Hf : forall fs j, fld (map (coarse_field rc bc) fs) j = coarse_field rc bc (fld fs j)).
  { intros fs j. unfold fld. apply (map_nth (coarse_field rc bc) fs (mkOF 0 EvNone None None VNo) j). }
  assert (Ha : forall f : ofield R, is_active (coarse_field rc bc f) = is_active f). { intros f. unfold coarse_field, is_active. destruct (f_vec f) eqn:E; try rewrite E; reflexivity. }
  assert (Hsz : forall f : ofield R, f_size (coarse_field rc bc f) = f_size f). { intros f. unfold coarse_field. destruct (f_vec f); reflexivity. }
  assert (Hc : forall fs, comps (map (coarse_field rc bc) fs) = comps fs).
  { intros fs. unfold comps, comps_n. rewrite map_length. apply flat_map_ext. intros j. rewrite Hf, Ha, Hsz. reflexivity. }
  assert (He : forall e a b q, entry D (op_coarse rc bc o) vm e a b q = entry D o vm e a b q).
  { intros e a b q. unfold entry. cbn [op_coarse o_out o_in]. rewrite !Hc. unfold qf_at. cbn [op_coarse o_ident o_pt].
    assert (Ef : forall u, fill (op_coarse rc bc o) (pas_val D (op_coarse rc bc o) vm e q) u = fill o (pas_val D o vm e q) u).
    { intros u. unfold fill. cbn [op_coarse o_in]. rewrite map_length. apply map_ext. intros j. rewrite Hf, Ha, Hsz. apply map_ext. intros c.
      destruct (is_active (fld (o_in o) j)) eqn:Ej; auto. unfold pas_val. cbn [op_coarse o_in]. rewrite Hf. unfold coarse_field, is_active in *. destruct (f_vec (fld (o_in o) j)); try discriminate; reflexivity. }
    rewrite Ef. reflexivity. }
  unfold is_assembled. cbn [op_coarse o_in o_out o_ne o_Q]. rewrite !Hc. split; (intros (H1 & H2); split; [exact H1|]); intros e a b q K1 K2 K3 K4.
  - rewrite He. auto.
  - rewrite <- He. auto.
Qed.
Print Assumptions C34_coarse.

(** Setting the flags of a composite operator of any depth sets those of all its single operators. *)
Fixpoint leaves (t : ctree) : list nat := match t with CLeaf i => [i] | CComp l => flat_map leaves l end.
Fixpoint tsize (t : ctree) : nat := match t with CLeaf i => 1 | CComp l => S (fold_right (fun t n => tsize t + n) 0 l) end.
Lemma tree_history : forall R k Jmin junk chk D bs (ev : nat -> hev R) (f : nat -> cstate R -> cstate R) (ft : ctree -> cstate R -> cstate R),
  (forall h s i, history R k Jmin junk chk D bs h s -> history R k Jmin junk chk D bs (ev i :: h) (f i s)) ->
  (forall i s, ft (CLeaf i) s = f i s) -> (forall l s, ft (CComp l) s = fold_left (fun s t => ft t s) l s) ->
  forall n t h s, tsize t <= n -> history R k Jmin junk chk D bs h s -> history R k Jmin junk chk D bs (rev (map ev (leaves t)) ++ h) (ft t s).
Proof.
  intros R k Jmin junk chk D bs ev f ft Hf H1 H2. induction n as [|n IH]; intros t h s Hn Hh. { destruct t; simpl in Hn; lia. }
  destruct t as [i|l].
  - rewrite H1. apply Hf. auto.
  - rewrite H2. cbn [leaves]. cbn [tsize] in Hn. revert h s Hn Hh. induction l as [|t l IHl]; intros h s Hn Hh; [exact Hh|].
    cbn [flat_map fold_left fold_right] in *. rewrite map_app, rev_app_distr, <- app_assoc. apply IHl; [lia|]. apply IH; [lia|auto].
Qed.
Theorem C34_composite : forall (R : Rng) k Jmin junk chk D bs h (s : cstate R) t b, history R k Jmin junk chk D bs h s ->
  history R k Jmin junk chk D bs (rev (map (fun i => HReuse i b) (leaves t)) ++ h) (set_reuse_tree b t s) /\
  history R k Jmin junk chk D bs (rev (map (fun i => HNeed i b) (leaves t)) ++ h) (set_need_tree b t s).
Proof.
  intros R k Jmin junk chk D bs h s t b Hh. split.
  - apply (tree_history R k Jmin junk chk D bs (fun i => HReuse i b) (fun i s => set_reuse s i b) (set_reuse_tree b)) with (n := tsize t); auto. intros. apply h_reuse. auto.
  - apply (tree_history R k Jmin junk chk D bs (fun i => HNeed i b) (fun i s => set_need s i b) (set_need_tree b)) with (n := tsize t); auto. intros. apply h_need. auto.
Qed.
Print Assumptions C34_composite.
(** Stripping works for single operators and composite operators of single operators. *)
Theorem C34_strip : forall (R : Rng) k Jmin junk chk D bs h (s : cstate R) l, history R k Jmin junk chk D bs h s ->
  history R k Jmin junk chk D bs (rev (map HStrip l) ++ h) (strip_tree (CComp (map CLeaf l)) s).
Proof.
  intros R k Jmin junk chk D bs h s l. revert h s. induction l as [|i l IH]; intros h s Hh; [exact Hh|].
  cbn [map rev]. rewrite <- app_assoc. cbn [strip_tree map fold_left]. apply (IH (HStrip i :: h) (strip s i)). apply h_strip. auto.
Qed.
Print Assumptions C34_strip.

(** *** the theorems at work *)
Notation ref_call s i := (build_or_update (@contract_avx Zrng) junkZ true ex_D None (fun _ => 0%Z) s i).
Notation ref_hist := (history Zrng (@contract_avx Zrng) 2 junkZ true ex_D None).
Definition cs0 : cstate Zrng := new_cs (fun _ => ex_op) ex_vm.
Definition cs1 : cstate Zrng := set_reuse cs0 0 true.
Definition cs2 := okA cs0 0 (ref_call cs1 0).
Definition cs3 : cstate Zrng := set_vm (fst cs2) (vec_event Zrng (ESet 0 [11;12;13;14;15;16;17;18;19]%Z) (c_vm (fst cs2))).
Definition cs4 := okA cs0 0 (ref_call cs3 0).
Definition cs5 := okA cs0 0 (ref_call (set_need (fst cs4) 0 true) 0).
Lemma ex_pas : forall vm u, vv_data (vm 0) = Some u -> length u = 9 -> passive_ok Zrng ex_D ex_op vm.
Proof.
  intros vm u Hu Hl i Hi Hm Ha. simpl in Hi. destruct i as [|[|[|[|i]]]]; try lia; try discriminate; [exfalso; apply Hm; reflexivity|].
  exists 0. exists u. split; [reflexivity|]. split; [exact Hu|]. rewrite Hl. simpl. lia.
Qed.
Lemma cs3_hist : ref_hist (HOther :: HCall 0 0 (c_vec (fst cs2) 0) :: HReuse 0 true :: []) cs3.
Proof.
  apply h_set; [|reflexivity]. eapply (h_call _ _ _ _ _ _ _ _ cs1).
  - apply h_reuse. apply h_new; [|apply ex_mem_ok]. intros i. apply C33_ex. auto.
  - eapply ex_pas; reflexivity.
  - change 0 with (snd cs2) at 2. apply okA_ok. vm_compute. reflexivity.
Qed.
(** first call, then a change of a passive vector that is not seen until an update is requested *)
Example C34_ex : ref_hist (HOther :: HCall 0 0 (c_vec (fst cs2) 0) :: HReuse 0 true :: []) cs3 /\
  passive_ok Zrng ex_D (c_ops cs3 0) (c_vm cs3) /\
  kept (HOther :: HCall 0 0 (c_vec (fst cs2) 0) :: HReuse 0 true :: []) 0 = Some (0, c_vec (fst cs2) 0) /\
  c_vec (fst cs4) 0 = c_vec (fst cs2) 0 /\
  c_vec (fst cs2) 0 = [1;4;9; 1;1;1; 0;0;0; 1;2;3;  4;10;18; 1;1;1; 0;0;0; 4;5;6;  7;16;27; 1;1;1; 0;0;0; 7;8;9]%Z /\
  c_vec (fst cs5) 0 = [11;24;39; 1;1;1; 0;0;0; 11;12;13;  14;30;48; 1;1;1; 0;0;0; 14;15;16;  17;36;57; 1;1;1; 0;0;0; 17;18;19]%Z.
Proof. split; [apply cs3_hist|]. split; [eapply ex_pas; reflexivity|]. split; [reflexivity|]. repeat split; vm_compute; reflexivity. Qed.

(** Finding: stripping a composite operator does not reach single operators two levels down, they keep the cached values: with
    reuse on, the next call returns the old ones. *)
Definition cs6 := okA cs0 0 (ref_call (strip_tree (CComp [CComp [CLeaf 0]]) cs3) 0).
Theorem C34_strip_refuted : exists h (s : cstate Zrng) t i, ref_hist h s /\ In i (leaves t) /\ passive_ok Zrng ex_D (c_ops s i) (c_vm s) /\ clean (HStrip i :: h) i = true /\
  exists s' v, ref_call (strip_tree t s) i = Ok (s', v) /\ ~ is_assembled ex_D (c_ops s i) (c_vm s) (c_vec s' v).
Proof.
  exists (HOther :: HCall 0 0 (c_vec (fst cs2) 0) :: HReuse 0 true :: []), cs3, (CComp [CComp [CLeaf 0]]), 0.
  split; [apply cs3_hist|]. split; [left; reflexivity|]. split; [eapply ex_pas; reflexivity|]. split; [reflexivity|].
  exists (fst cs6), (snd cs6). split; [unfold cs6; apply okA_ok; vm_compute; reflexivity|].
  intros (_ & H). specialize (H 0 0 0 0). revert H. vm_compute. intros H. specialize (H ltac:(lia) ltac:(lia) ltac:(lia) ltac:(lia)). discriminate.
Qed.
Print Assumptions C34_strip_refuted.
