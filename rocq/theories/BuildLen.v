(** * Property C40: active vector lengths *)
From Coq Require Import List ZArith Lia Bool Arith.
From Verif Require Import Prelude RstrModel BasisModel StrModel QfModel BuildModel BuildProofs BuildProps.
Import ListNotations.
Local Open Scope Z_scope.

(** ** Single operators *)
(** The reported length is the L-vector size of every active field of that side, and -1 exactly when there is none. *)
Theorem C40_single : forall qf ap hs, all_created hs -> once (op_create qf ap) hs ->
  let st := run (op_create qf ap) hs in forall side : bool,
  let len := if side then b_isz st else b_osz st in
  (forall i o, slot st side i = FSet o -> of_v o = VActive -> len = r_lsz (of_r o)) /\
  (len = -1 <-> forall i o, slot st side i = FSet o -> of_v o <> VActive).
Proof.
  intros qf ap hs C O st side len. pose proof (inv_run qf ap hs C) as I. pose proof (cnt_run qf ap hs C O) as N. fold st in I, N.
  assert (A : forall i o, slot st side i = FSet o -> of_v o = VActive -> len = r_lsz (of_r o) /\ 0 <= len).
  { intros i o Ho Hv. apply (g_sz _ _ _ _ (i_good _ _ _ I _ _ _ Ho) Hv). }
  split. { intros i o Ho Hv. apply (A i o Ho Hv). }
  split.
  - intros E i o Ho Hv. destruct (A i o Ho Hv). lia.
  - intros H. destruct (Z.eq_dec len (-1)); auto. exfalso. destruct (n_sz _ N side) as (i & o & Ho & Hv); auto. apply (H i o Ho Hv).
Qed.
Example C40_single_case : let st := run (op_create mass_qf false) mass_hs in b_isz st = 5 /\ b_osz st = 5 /\
  slot st true 0 = FSet (OF (c_name mass_cu) (c_r mass_cu) (c_b mass_cu) VActive).
Proof. vm_compute. auto. Qed.

(** ** Trees *)
Fixpoint go_len (l : list otree) (ci co : Z) {struct l} : res unit * (Z * Z * list otree) :=
  match l with
  | [] => (Ok tt, (ci, co, []))
  | x :: l' =>
    match get_len x with
    | (Ok (si, so), x') =>
      let ci1 := if ci =? -1 then si else ci in
      let co1 := if co =? -1 then so else co in
      if ((si =? -1) || (si =? ci1)) && ((so =? -1) || (so =? co1)) then
        match go_len l' ci1 co1 with (r, (ri, ro, l2)) => (r, (ri, ro, x' :: l2)) end
      else (Err ERR_MAJOR, (ci1, co1, x' :: l'))
    | (Err c, x') => (Err c, (ci, co, x' :: l'))
    | (UB, x') => (UB, (ci, co, x' :: l'))
    end
  end.
Lemma get_len_comp : forall s i o subs, get_len (OComp s i o subs) =
  if (i =? -1) || (o =? -1) then
    match go_len subs i o with
    | (Ok _, (i', o', subs')) => (Ok (i, o), OComp s i' o' subs')
    | (Err c, (i', o', subs')) => (Err c, OComp s i' o' subs')
    | (UB, (i', o', subs')) => (UB, OComp s i' o' subs')
    end
  else (Ok (i, o), OComp s i o subs).
Proof.
  intros. cbn [get_len]. destruct ((i =? -1) || (o =? -1)); auto.
Qed.
(** induction on trees *)
Lemma otree_ind' : forall P : otree -> Prop, (forall r i o, P (OLeaf r i o)) ->
  (forall s i o subs, (forall x, In x subs -> P x) -> P (OComp s i o subs)) -> forall t, P t.
Proof.
  intros P HL HC. fix F 1. intros [r i o|s i o subs]; [apply HL|]. apply HC.
  induction subs as [|x t IH]; intros y H; [destruct H|]. destruct H as [<-|H]; [apply F|apply IH; auto].
Qed.

(** Every size known anywhere in the tree is [si] (input) and [so] (output). *)
Fixpoint consistent (si so : Z) (t : otree) : Prop :=
  match t with
  | OLeaf _ i o => (i = -1 \/ i = si) /\ (o = -1 \/ o = so)
  | OComp _ i o subs => (i = -1 \/ i = si) /\ (o = -1 \/ o = so) /\ (fix all l := match l with [] => True | x :: l' => consistent si so x /\ all l' end) subs
  end.
Lemma consistent_comp : forall si so s i o subs, consistent si so (OComp s i o subs) <->
  (i = -1 \/ i = si) /\ (o = -1 \/ o = so) /\ forall x, In x subs -> consistent si so x.
Proof.
  intros. cbn [consistent].
  assert (X : (fix all l := match l with [] => True | x :: l' => consistent si so x /\ all l' end) subs <-> forall x, In x subs -> consistent si so x).
  { induction subs as [|x t IH]; cbn; [split; [intros _ y []|auto]|]. rewrite IH. split.
    - intros (A & B) y [<-|H]; auto.
    - intros H. split; auto. }
  rewrite X. reflexivity.
Qed.
Definition stored (t : otree) : Z * Z := match t with OLeaf _ i o => (i, o) | OComp _ i o _ => (i, o) end.
(** what the leaves know about the input and output size *)
Fixpoint leaf_knows (pick : Z * Z -> Z) (t : otree) : bool :=
  match t with
  | OLeaf _ i o => negb (pick (i, o) =? -1)
  | OComp _ _ _ subs => existsb (leaf_knows pick) subs
  end.

Lemma get_len_reports_stored : forall t r t', get_len t = (Ok r, t') -> r = stored t.
Proof.
  intros [b i o|s i o subs] r t' H. { cbn in H. injection H as <- _. reflexivity. }
  rewrite get_len_comp in H. destruct ((i =? -1) || (o =? -1)); [|injection H as <- _; reflexivity].
  destruct (go_len subs i o) as ([[]| |], ((a, b), c)); try discriminate. injection H as <- _. reflexivity.
Qed.
Lemma existsb_map_ext : forall A (f : A -> bool) (g : A -> A) l, (forall x, In x l -> f (g x) = f x) -> existsb f (map g l) = existsb f l.
Proof. intros A f g l H. induction l as [|x t IH]; cbn; auto. rewrite H by (left; reflexivity). rewrite IH; auto. intros y Hy. apply H. right. auto. Qed.
Section Consistent.
Variables (si so : Z).
Hypothesis Hsi : 0 <= si.
Hypothesis Hso : 0 <= so.

Lemma go_len_consistent : forall l ci co, (forall x, In x l -> consistent si so x) ->
  (forall x, In x l -> exists x', get_len x = (Ok (stored x), x') /\ consistent si so x' /\
     (forall pick, leaf_knows pick x' = leaf_knows pick x)) ->
  (ci = -1 \/ ci = si) -> (co = -1 \/ co = so) ->
  exists ci' co' l', go_len l ci co = (Ok tt, (ci', co', l')) /\
    l' = map (fun x => snd (get_len x)) l /\
    (ci' = if (ci =? -1) && negb (existsb (fun x => negb (fst (stored x) =? -1)) l) then -1 else si) /\
    (co' = if (co =? -1) && negb (existsb (fun x => negb (snd (stored x) =? -1)) l) then -1 else so).
Proof.
  induction l as [|x l IH]; intros ci co Hl Hg Hci Hco.
  - exists ci, co, []. cbn. rewrite !Bool.andb_true_r. split; auto. split; auto.
    split; [destruct (Z.eqb_spec ci (-1))|destruct (Z.eqb_spec co (-1))]; tauto.
  - destruct (Hg x (or_introl eq_refl)) as (x' & E & Cx' & _). cbn [go_len]. rewrite E.
    assert (Hx : (fst (stored x) = -1 \/ fst (stored x) = si) /\ (snd (stored x) = -1 \/ snd (stored x) = so)).
    { pose proof (Hl x (or_introl eq_refl)) as Cx. destruct x; [apply Cx|]. apply consistent_comp in Cx. cbn. tauto. }
    destruct (stored x) as (ai, ao) eqn:Es. cbn [fst snd] in Hx. cbv zeta.
    assert (T : ((ai =? -1) || (ai =? (if ci =? -1 then ai else ci))) && ((ao =? -1) || (ao =? (if co =? -1 then ao else co))) = true).
    { apply andb_true_intro. split.
      - destruct (Z.eqb_spec ai (-1)); auto. cbn. destruct (Z.eqb_spec ci (-1)); apply Z.eqb_eq; auto. destruct Hci, (proj1 Hx); congruence.
      - destruct (Z.eqb_spec ao (-1)); auto. cbn. destruct (Z.eqb_spec co (-1)); apply Z.eqb_eq; auto. destruct Hco, (proj2 Hx); congruence. }
    rewrite T. edestruct (IH (if ci =? -1 then ai else ci) (if co =? -1 then ao else co)) as (ci' & co' & l' & E2 & El & Ei & Eo).
    { intros y Hy. apply Hl. right. auto. } { intros y Hy. apply Hg. right. auto. }
    { destruct (ci =? -1); tauto. } { destruct (co =? -1); tauto. }
    rewrite E2. exists ci', co', (x' :: l'). split; auto. split. { cbn [map]. rewrite E. cbn. congruence. }
    cbn [existsb]. rewrite Es. cbn [fst snd]. split.
    + rewrite Ei. destruct (Z.eqb_spec ci (-1)) as [->|Hc]; cbn [andb].
      * destruct (Z.eqb_spec ai (-1)); cbn [negb orb andb]; auto.
      * destruct (Z.eqb_spec ci (-1)); [congruence|]. reflexivity.
    + rewrite Eo. destruct (Z.eqb_spec co (-1)) as [->|Hc]; cbn [andb].
      * destruct (Z.eqb_spec ao (-1)); cbn [negb orb andb]; auto.
      * destruct (Z.eqb_spec co (-1)); [congruence|]. reflexivity.
Qed.
Lemma get_len_consistent : forall t, consistent si so t -> exists t', get_len t = (Ok (stored t), t') /\ consistent si so t' /\
  (forall pick, leaf_knows pick t' = leaf_knows pick t).
Proof.
  induction t as [r i o|s i o subs IH] using otree_ind'; intros C.
  - exists (OLeaf r i o). auto.
  - rewrite get_len_comp. destruct ((i =? -1) || (o =? -1)); [|exists (OComp s i o subs); auto].
    apply consistent_comp in C. destruct C as (Ci & Co & Cs).
    destruct (go_len_consistent subs i o Cs (fun x Hx => IH x Hx (Cs x Hx)) Ci Co) as (i' & o' & l' & E & El & Ei & Eo).
    rewrite E. eexists. split; [reflexivity|]. split.
    + apply (proj2 (consistent_comp _ _ _ _ _ _)). split; [rewrite Ei; match goal with |- (if ?b then _ else _) = _ \/ _ => destruct b; auto end|]. split; [rewrite Eo; match goal with |- (if ?b then _ else _) = _ \/ _ => destruct b; auto end|].
      intros x Hx. rewrite El in Hx. apply in_map_iff in Hx. destruct Hx as (y & <- & Hy). destruct (IH y Hy (Cs y Hy)) as (y' & Ey & Cy & _). rewrite Ey. exact Cy.
    + intros pick. cbn [leaf_knows]. rewrite El. apply existsb_map_ext. intros x Hx. destruct (IH x Hx (Cs x Hx)) as (y' & Ey & _ & Ly). rewrite Ey. apply Ly.
Qed.

(** Iterating the query. *)
Fixpoint ask (n : nat) (t : otree) : otree := match n with O => t | S m => snd (get_len (ask m t)) end.
Lemma ask_in : forall n t, ask (S n) t = ask n (snd (get_len t)).
Proof. induction n as [|n IH]; intros t; [reflexivity|]. cbn [ask] in *. rewrite IH. reflexivity. Qed.
Lemma ask_consistent : forall n t, consistent si so t -> consistent si so (ask n t) /\ forall pick, leaf_knows pick (ask n t) = leaf_knows pick t.
Proof.
  induction n as [|n IH]; intros t C; auto. cbn [ask]. destruct (IH t C) as (A & B). destruct (get_len_consistent _ A) as (t' & E & C' & L). rewrite E. cbn. split; auto.
  intros. rewrite L. apply B.
Qed.
Fixpoint height (t : otree) : nat := match t with OLeaf _ _ _ => O | OComp _ _ _ subs => S (fold_right (fun x m => Nat.max (height x) m) O subs) end.
Lemma height_sub : forall s i o subs x, In x subs -> (height x < height (OComp s i o subs))%nat.
Proof. intros s i o subs x H. cbn [height]. induction subs as [|y t IH]; [destruct H|]. cbn [fold_right]. destruct H as [->|H]; [lia|]. specialize (IH H). lia. Qed.
Lemma ask_comp : forall s i0 o0 subs, consistent si so (OComp s i0 o0 subs) -> forall n, exists i o l, ask n (OComp s i0 o0 subs) = OComp s i o l /\
  ((i <> -1 /\ o <> -1) \/ l = map (ask n) subs).
Proof.
  intros s i0 o0 subs C n. induction n as [|n (i & o & l & E & H)].
  - exists i0, o0, subs. split; auto. right. symmetry. apply map_id.
  - cbn [ask]. rewrite E, get_len_comp. destruct ((i =? -1) || (o =? -1)) eqn:K.
    + destruct H as [(A & B)| ->]. { apply Z.eqb_neq in A, B. rewrite A, B in K. discriminate. }
      destruct (ask_consistent n _ C) as (Cn & _). rewrite E in Cn. apply consistent_comp in Cn. destruct Cn as (Ci & Co & Cs).
      destruct (go_len_consistent _ i o Cs (fun x Hx => get_len_consistent x (Cs x Hx)) Ci Co) as (i' & o' & l' & E' & El & _ & _).
      rewrite E'. cbn. exists i', o', l'. split; auto. right. rewrite El, map_map. reflexivity.
    + cbn. exists i, o, l. split; auto. left. apply Bool.orb_false_iff in K. destruct K as (A & B). apply Z.eqb_neq in A, B. auto.
Qed.
Lemma settles : forall t, consistent si so t -> forall n, (height t <= n)%nat ->
  (leaf_knows fst t = true -> fst (stored (ask n t)) = si) /\ (leaf_knows snd t = true -> snd (stored (ask n t)) = so).
Proof.
  induction t as [r i o|s i o subs IH] using otree_ind'; intros C n Hn.
  - assert (E : ask n (OLeaf r i o) = OLeaf r i o). { clear. induction n as [|n IH]; auto. cbn [ask]. rewrite IH. reflexivity. }
    rewrite E. cbn in *. destruct C as (A & B). split; intros H; apply Bool.negb_true_iff, Z.eqb_neq in H; tauto.
  - destruct n as [|m]. { cbn in Hn. lia. }
    assert (Cs : forall x, In x subs -> consistent si so x) by (apply consistent_comp in C; apply C).
    assert (Hm : forall x, In x subs -> (height x <= m)%nat). { intros x Hx. pose proof (height_sub s i o subs x Hx). lia. }
    destruct (ask_comp _ _ _ _ C m) as (i1 & o1 & l & E & H). destruct (ask_consistent m _ C) as (Cm & _). rewrite E in Cm. apply consistent_comp in Cm. destruct Cm as (Ci & Co & Cl).
    cbn [ask]. rewrite E, get_len_comp. destruct ((i1 =? -1) || (o1 =? -1)) eqn:K.
    + destruct H as [(A & B)| ->]. { apply Z.eqb_neq in A, B. rewrite A, B in K. discriminate. }
      destruct (go_len_consistent _ i1 o1 Cl (fun x Hx => get_len_consistent x (Cl x Hx)) Ci Co) as (i' & o' & l' & E' & _ & Ei & Eo).
      rewrite E'. cbn [snd fst stored]. cbn [leaf_knows]. split; intros Hk; apply existsb_exists in Hk; destruct Hk as (x & Hx & Kx); destruct (IH x Hx (Cs x Hx) m (Hm x Hx)) as (IH1 & IH2).
      * assert (X : existsb (fun x => negb (fst (stored x) =? -1)) (map (ask m) subs) = true).
        { apply existsb_exists. exists (ask m x). split; [apply in_map; auto|]. rewrite (IH1 Kx). apply Bool.negb_true_iff, Z.eqb_neq. lia. }
        rewrite X, Bool.andb_false_r in Ei. exact Ei.
      * assert (X : existsb (fun x => negb (snd (stored x) =? -1)) (map (ask m) subs) = true).
        { apply existsb_exists. exists (ask m x). split; [apply in_map; auto|]. rewrite (IH2 Kx). apply Bool.negb_true_iff, Z.eqb_neq. lia. }
        rewrite X, Bool.andb_false_r in Eo. exact Eo.
    + cbn. apply Bool.orb_false_iff in K. destruct K as (A & B). apply Z.eqb_neq in A, B. split; intros _; tauto.
Qed.
End Consistent.

(** On a tree whose known sizes agree, the query never fails and reports the common size or -1, also after any
    number of queries. *)
Theorem C40_consistent : forall si so t n, 0 <= si -> 0 <= so -> consistent si so t ->
  exists i o t', get_len (ask n t) = (Ok (i, o), t') /\ (i = -1 \/ i = si) /\ (o = -1 \/ o = so).
Proof.
  intros si so t n Hi Ho C. destruct (ask_consistent si so n t C) as (Cn & _).
  destruct (get_len_consistent si so _ Cn) as (t' & E & _ & _). rewrite E. destruct (stored (ask n t)) as (i, o) eqn:Es.
  exists i, o, t'. split; auto. destruct (ask n t) as [r a b|s a b l]; cbn in Es; injection Es as <- <-; [exact Cn|]. apply consistent_comp in Cn. tauto.
Qed.
(** After as many queries as the tree is deep, every size some sub-operator knows is reported. *)
Theorem C40_settles : forall si so t n, 0 <= si -> 0 <= so -> consistent si so t -> (height t <= n)%nat ->
  exists i o t', get_len (ask n t) = (Ok (i, o), t') /\ (leaf_knows fst t = true -> i = si) /\ (leaf_knows snd t = true -> o = so).
Proof.
  intros si so t n Hi Ho C Hn. destruct (ask_consistent si so n t C) as (Cn & _).
  destruct (get_len_consistent si so _ Cn) as (t' & E & _ & _). rewrite E. destruct (settles si so Hi Ho t C n Hn) as (A & B).
  exists (fst (stored (ask n t))), (snd (stored (ask n t))), t'. split; auto. f_equal. f_equal. apply surjective_pairing.
Qed.
Example C40_tree_case : let t := OComp false (-1) (-1) [OLeaf true 5 (-1); OComp false (-1) (-1) [OLeaf true (-1) 7; OLeaf true 5 7]] in
  consistent 5 7 t /\ height t = 2%nat /\ leaf_knows fst t = true /\ leaf_knows snd t = true /\ fst (get_len t) = Ok (-1, -1) /\ fst (get_len (ask 2 t)) = Ok (5, 7).
Proof. vm_compute. intuition. Qed.

(** ** Composing single operators *)
(** AddSub rejects a sub-operator that reports a different size, and keeps the sub-operators it has. *)
Theorem C40_conflict : forall s i o subs x si so x', (List.length subs < 16)%nat -> get_len x = (Ok (si, so), x') ->
  (i <> -1 /\ si <> -1 /\ si <> i) \/ (o <> -1 /\ so <> -1 /\ so <> o) ->
  exists i' o', add_sub (OComp s i o subs) x = (Err ERR_MAJOR, OComp s i' o' subs) /\ (i <> -1 -> i' = i) /\ (o <> -1 -> o' = o).
Proof.
  intros s i o subs x si so x' Hl E H. cbn [add_sub]. destruct (Nat.leb_spec 16 (List.length subs)); [lia|]. rewrite E.
  assert (X : ((si =? -1) || (si =? (if i =? -1 then si else i))) && ((so =? -1) || (so =? (if o =? -1 then so else o))) = false).
  { apply Bool.andb_false_iff. destruct H as [(A & B & C)|(A & B & C)]; [left|right].
    - destruct (Z.eqb_spec si (-1)); [contradiction|]. destruct (Z.eqb_spec i (-1)); [contradiction|]. apply Z.eqb_neq in C. rewrite C. reflexivity.
    - destruct (Z.eqb_spec so (-1)); [contradiction|]. destruct (Z.eqb_spec o (-1)); [contradiction|]. apply Z.eqb_neq in C. rewrite C. reflexivity. }
  cbv zeta. rewrite X. eexists. eexists. split; [reflexivity|]. split; intros N; apply Z.eqb_neq in N; rewrite N; reflexivity.
Qed.
(** Histories of a composite operator: adding single operators, querying, checking readiness. *)
Inductive cop := CAdd (r : bool) (i o : Z) | CLen | CReady.
Definition cstep (t : otree) (h : cop) : otree :=
  match h with CAdd r i o => snd (add_sub t (OLeaf r i o)) | CLen => snd (get_len t) | CReady => snd (tree_ready t) end.
Definition cempty := OComp false (-1) (-1) [].
(** readiness is not checked before the first sub-operator was added (finding C40_empty_refuted) *)
Fixpoint nonempty_checks (t : otree) (hs : list cop) : Prop :=
  match hs with
  | [] => True
  | h :: l => (h = CReady -> exists s i o x subs, t = OComp s i o (x :: subs)) /\ nonempty_checks (cstep t h) l
  end.
Definition leaf_ok (i o : Z) (x : otree) : Prop := exists r a b, x = OLeaf r a b /\ (a = -1 \/ a = i) /\ (b = -1 \/ b = o).
(** invariant: all leaves, agreeing with the stored sizes *)
Definition cinv (t : otree) : Prop := exists s i o subs, t = OComp s i o subs /\ forall x, In x subs -> leaf_ok i o x.
Lemma go_len_leaves : forall l i o, (forall x, In x l -> leaf_ok i o x) -> go_len l i o = (Ok tt, (i, o, l)).
Proof.
  induction l as [|x l IH]; intros i o H; auto. destruct (H x (or_introl eq_refl)) as (r & a & b & -> & Ha & Hb). cbn [go_len get_len]. cbv zeta.
  assert (Ei : (if i =? -1 then a else i) = i). { destruct (Z.eqb_spec i (-1)) as [->|]; destruct Ha; auto. }
  assert (Eo : (if o =? -1 then b else o) = o). { destruct (Z.eqb_spec o (-1)) as [->|]; destruct Hb; auto. }
  rewrite Ei, Eo.
  assert (X : ((a =? -1) || (a =? i)) && ((b =? -1) || (b =? o)) = true).
  { apply andb_true_intro. split; apply Bool.orb_true_iff; rewrite !Z.eqb_eq; auto. }
  rewrite X, IH; auto. intros y Hy. apply H. right. auto.
Qed.
Lemma get_len_cinv : forall s i o subs, (forall x, In x subs -> leaf_ok i o x) -> get_len (OComp s i o subs) = (Ok (i, o), OComp s i o subs).
Proof. intros s i o subs H. rewrite get_len_comp, go_len_leaves by auto. destruct (_ || _); reflexivity. Qed.
Fixpoint go_ready (l : list otree) : res unit * list otree :=
  match l with
  | [] => (Ok tt, [])
  | x :: l' => match tree_ready x with
               | (Ok _, x') => match go_ready l' with (r, l2) => (r, x' :: l2) end
               | (e, x') => (e, x' :: l')
               end
  end.
Lemma go_ready_leaves : forall i o l, (forall x, In x l -> leaf_ok i o x) -> snd (go_ready l) = l.
Proof.
  intros i o. induction l as [|x l IH]; intros H; auto. destruct (H x (or_introl eq_refl)) as (r & a & b & -> & _). cbn [go_ready tree_ready].
  destruct r; [|reflexivity]. destruct (go_ready l) as (e, l2). cbn in *. rewrite IH; auto.
Qed.
Lemma tree_ready_cinv : forall s i o x subs, (forall y, In y (x :: subs) -> leaf_ok i o y) ->
  exists s', snd (tree_ready (OComp s i o (x :: subs))) = OComp s' i o (x :: subs).
Proof.
  intros s i o x subs H. cbn [tree_ready]. destruct s; [eexists; reflexivity|].
  match goal with |- context [match ?g with pair r1 subs' => _ end] => change g with (go_ready (x :: subs)) end.
  pose proof (go_ready_leaves i o (x :: subs) H) as G. destruct (go_ready (x :: subs)) as (e, l). cbn [snd] in G. subst l.
  destruct e as [[]| |]; cbn [snd]; try (eexists; reflexivity).
  rewrite get_len_cinv by auto. cbn. eexists. reflexivity.
Qed.
Lemma cinv_run : forall hs t, cinv t -> nonempty_checks t hs -> cinv (fold_left cstep hs t).
Proof.
  induction hs as [|h hs IH]; intros t C N; auto. destruct N as (N1 & N2). cbn [fold_left]. apply IH; auto.
  destruct C as (s & i & o & subs & -> & C). destruct h as [r a b| |].
  - cbn [cstep add_sub]. destruct (16 <=? List.length subs)%nat; [exists s, i, o, subs; auto|]. cbn [get_len]. cbv zeta.
    set (i1 := if i =? -1 then a else i). set (o1 := if o =? -1 then b else o).
    assert (Up : forall x, In x subs -> leaf_ok i1 o1 x).
    { intros x Hx. destruct (C x Hx) as (r' & a' & b' & -> & Ha & Hb). exists r', a', b'. split; auto. unfold i1, o1. split.
      - destruct (Z.eqb_spec i (-1)) as [->|]; [destruct Ha; auto|auto].
      - destruct (Z.eqb_spec o (-1)) as [->|]; [destruct Hb; auto|auto]. }
    destruct (((a =? -1) || (a =? i1)) && ((b =? -1) || (b =? o1))) eqn:E; cbn [snd].
    + exists s, i1, o1, (subs ++ [OLeaf r a b]). split; auto. intros x Hx. apply in_app_or in Hx. destruct Hx as [Hx|[<-|[]]]; auto.
      exists r, a, b. split; auto. apply andb_prop in E. destruct E as (E1 & E2). apply Bool.orb_true_iff in E1, E2. rewrite !Z.eqb_eq in E1, E2. auto.
    + exists s, i1, o1, subs. auto.
  - cbn [cstep]. rewrite get_len_cinv by auto. exists s, i, o, subs. auto.
  - cbn [cstep]. destruct (N1 eq_refl) as (s' & i' & o' & x & subs' & E). injection E as -> -> -> ->.
    destruct (tree_ready_cinv s' i' o' x subs' C) as (s2 & E). rewrite E. exists s2, i', o', (x :: subs'). auto.
Qed.
(** Composed of single operators, a composite reports sizes that all its sub-operators share (or leave open). *)
Theorem C40_composite : forall hs, nonempty_checks cempty hs ->
  exists s i o subs, fold_left cstep hs cempty = OComp s i o subs /\
    get_len (OComp s i o subs) = (Ok (i, o), OComp s i o subs) /\
    forall x, In x subs -> exists r a b, x = OLeaf r a b /\ (a = -1 \/ a = i) /\ (b = -1 \/ b = o).
Proof.
  intros hs N. assert (C : cinv cempty). { exists false, (-1), (-1), []. split; auto. intros x []. }
  destruct (cinv_run hs cempty C N) as (s & i & o & subs & E & H). exists s, i, o, subs. split; auto. split; auto. apply get_len_cinv; auto.
Qed.
Example C40_composite_case : let hs := [CAdd true 5 (-1); CLen; CAdd true 5 7; CAdd true 6 7; CReady; CAdd true (-1) 7] in
  nonempty_checks cempty hs /\ fold_left cstep hs cempty = OComp true 5 7 [OLeaf true 5 (-1); OLeaf true 5 7; OLeaf true (-1) 7].
Proof. cbn. split; auto. repeat split; try discriminate; intros _; repeat eexists. Qed.

(** *** Findings *)
(** The first query of a composite reports -1 although its sub-operators know the sizes. *)
Theorem C40_stale_refuted : exists t, consistent 5 5 t /\ leaf_knows fst t = true /\ fst (get_len t) = Ok (-1, -1) /\ fst (get_len (ask 1 t)) = Ok (5, 5).
Proof. exists (OComp false (-1) (-1) [OLeaf true 5 5]). vm_compute. intuition. Qed.
(** A sub-operator that learns its sizes after it was added is not checked: a composite is reported ready although
    its sub-operators conflict. *)
Theorem C40_late_refuted : exists t1 t2, fst (add_sub cempty (OLeaf true 5 5)) = Ok tt /\
  add_sub (snd (add_sub cempty (OLeaf true 5 5))) (OLeaf false (-1) (-1)) = (Ok tt, t1) /\
  t1 = OComp false 5 5 [OLeaf true 5 5; OLeaf false (-1) (-1)] /\
  t2 = OComp false 5 5 [OLeaf true 5 5; OLeaf true 7 7] (* the fields of the second sub-operator are now set *) /\
  fst (tree_ready t2) = Ok tt /\ fst (get_len t2) = Ok (5, 5).
Proof. do 2 eexists. repeat split. Qed.
(** Checking an empty composite for readiness fixes its sizes to zero; nothing can be added afterwards. *)
Theorem C40_empty_refuted : exists t, tree_ready cempty = (Ok tt, t) /\ fst (add_sub t (OLeaf true 5 5)) = Err ERR_MAJOR /\ fst (add_sub cempty (OLeaf true 5 5)) = Ok tt.
Proof. eexists. repeat split. Qed.
(** A rejected sub-operator can fix the size of the composite: input rejected, output size taken over. *)
Theorem C40_rejected_refuted : exists t x, fst (add_sub t x) = Err ERR_MAJOR /\ (exists s subs, t = OComp s 5 (-1) subs) /\
  fst (add_sub t (OLeaf true 5 8)) = Ok tt /\ fst (add_sub (snd (add_sub t x)) (OLeaf true 5 8)) = Err ERR_MAJOR.
Proof. exists (OComp false 5 (-1) [OLeaf true 5 (-1)]), (OLeaf true 6 9). repeat split. do 2 eexists. reflexivity. Qed.
(** C27: a composite that was found ready still accepts sub-operators. *)
Theorem C27_add_refuted : exists t x, fst (tree_ready t) = Ok tt /\ snd (tree_ready t) = OComp true 5 5 [OLeaf true 5 5] /\
  add_sub (snd (tree_ready t)) x = (Ok tt, OComp true 5 5 [OLeaf true 5 5; x]) /\ fst (tree_ready x) = Err ERR_INCOMPLETE /\
  fst (tree_ready (snd (add_sub (snd (tree_ready t)) x))) = Ok tt.
Proof. exists (OComp false 5 5 [OLeaf true 5 5]), (OLeaf false 5 5). repeat split. Qed.

Print Assumptions C26_ready. Print Assumptions C26_complete. Print Assumptions C26_order.
Print Assumptions C27_qfunction. Print Assumptions C27_sizes.
Print Assumptions C40_single. Print Assumptions C40_settles. Print Assumptions C40_composite.
