(** * C37: the multiplicity counts the sub-operators that touch a node; the skip list is ignored *)
From Coq Require Import List ZArith Lia Bool Arith.
From Verif Require Import Prelude RstrModel RstrSpec RstrProofs RstrProps BasisModel OpModel OpSpec OpLists OpProps MultModel.
Import ListNotations.

(** Sub-operator [t] touches node [q]: a node of an element of its active restriction is mapped to [q]. *)
Definition touches (D : nat -> udesc) (t : optree Zrng) (q : nat) : Prop :=
  exists o im f i el k m, t = Leaf o im /\ In f (o_in o) /\ f_vec f = VAct /\ f_rstr f = Some i /\
    el < u_ne (D i) /\ k < u_nc (D i) /\ m < u_es (D i) /\ col (D i) el k m = Z.of_nat q.
(** every sub-operator has one active restriction [i], of size [n] *)
Definition sub_wf (chk : bool) (D : nat -> udesc) (n : nat) (t : optree Zrng) : Prop :=
  exists o im i r, t = Leaf o im /\ (exists f, In f (o_in o) /\ f_vec f = VAct) /\
    (forall f, In f (o_in o) -> f_vec f = VAct -> f_rstr f = Some i) /\
    lengths_ok (D i) /\ in_range (D i) /\ rstr_create chk (D i) None = Ok r /\ u_lsize (D i) = n.

Lemma find_active_go (l : list (ofield Zrng)) i : (forall f, In f l -> f_vec f = VAct -> f_rstr f = Some i) -> forall a, a = None \/ a = Some (Some i) ->
  rfold l (fun f a =>
    match f_vec f with
    | VAct => match a with
              | None => Ok (Some (f_rstr f))
              | Some r => if onat_eqb r (f_rstr f) then Ok a else Err ERR_MINOR
              end
    | _ => Ok a
    end) a = Ok (if existsb (fun f : ofield Zrng => match f_vec f with VAct => true | _ => false end) l then Some (Some i) else a).
Proof.
  induction l as [|f l IH]; intros Hl a Ha; cbn [rfold existsb]; [reflexivity|].
  assert (Hl' : forall f, In f l -> f_vec f = VAct -> f_rstr f = Some i) by (intros; apply Hl; simpl; auto).
  destruct (f_vec f) eqn:E; cbn [rbind orb].
  - rewrite (Hl f (or_introl eq_refl) E). destruct Ha as [-> | ->]; cbn [rbind onat_eqb]; rewrite ?Nat.eqb_refl; cbn [rbind]; rewrite IH by auto; now destruct (existsb _ l).
  - now apply IH.
  - now apply IH.
Qed.
Lemma active_ok (o : oper Zrng) im i : (exists f, In f (o_in o) /\ f_vec f = VAct) -> (forall f, In f (o_in o) -> f_vec f = VAct -> f_rstr f = Some i) ->
  active_rstr (Leaf o im) = Ok (Some i).
Proof.
  intros (f & Hf & Hv) Ha. unfold active_rstr, find_active. rewrite (find_active_go _ i Ha) by auto.
  replace (existsb _ (o_in o)) with true; [reflexivity|]. symmetry. apply existsb_exists. exists f. rewrite Hv. auto.
Qed.

Lemma natR_Z n : natR Zrng n = Z.of_nat n.
Proof. induction n as [|n IH]; [reflexivity|]. cbn [natR]. rewrite IH. cbn. lia. Qed.
Lemma flag_loop n (m : list Z) : length m = n -> forall mult, length mult = n ->
  exists mult', rfold (seq 0 n) (fun j mult => x <~ og m j ;; if (0 <? x)%Z then y <~ og mult j ;; Ok (upd mult j (y + 1)%Z) else Ok mult) mult = Ok mult' /\
    length mult' = n /\ forall q, q < n -> nth q mult' 0%Z = (nth q mult 0 + (if (0 <? nth q m 0) then 1 else 0))%Z.
Proof.
  intros Hm mult Hl.
  destruct (@rfold_inv0 (list Z) (fun k mu => length mu = n /\ forall q, q < n -> nth q mu 0%Z = (nth q mult 0 + (if (q <? k)%nat && (0 <? nth q m 0)%Z then 1 else 0))%Z)
    (fun j mult => x <~ og m j ;; if (0 <? x)%Z then y <~ og mult j ;; Ok (upd mult j (y + 1)%Z) else Ok mult) n mult) as (m' & E & L & G).
  - split; auto. intros q Hq. cbn. lia.
  - intros k mu Hk [L G]. rewrite (og_nth m 0%Z) by lia. cbn [rbind]. destruct (0 <? nth k m 0)%Z eqn:E.
    + rewrite (og_nth mu 0%Z) by lia. cbn [rbind]. eexists. split; [reflexivity|]. split; [now rewrite upd_length|].
      intros q Hq. rewrite nth_upd' by lia. destruct (Nat.eqb_spec q k) as [->|Hn].
      * rewrite G by lia. rewrite E, Nat.ltb_irrefl. replace (k <? k + 1) with true by (symmetry; apply Nat.ltb_lt; lia). cbn. lia.
      * rewrite G by lia. replace (q <? k + 1) with (q <? k); auto. destruct (Nat.ltb_spec q k), (Nat.ltb_spec q (k + 1)); auto; lia.
    + eexists. split; [reflexivity|]. split; auto. intros q Hq. rewrite G by lia.
      destruct (Nat.eqb_spec q k) as [->|Hn]; [rewrite E, !andb_false_r; auto|].
      replace (q <? k + 1) with (q <? k); auto. destruct (Nat.ltb_spec q k), (Nat.ltb_spec q (k + 1)); auto; lia.
  - exists m'. split; auto. split; auto. intros q Hq. rewrite G by auto. now replace (q <? n) with true by (symmetry; apply Nat.ltb_lt; auto).
Qed.

Section C37.
Variable chk : bool. Variable D : nat -> udesc. Variable junk : list Z.
Lemma refcount_touch o im i q : (exists f, In f (o_in o) /\ f_vec f = VAct) -> (forall f, In f (o_in o) -> f_vec f = VAct -> f_rstr f = Some i) ->
  (0 < refcount (D i) q)%nat <-> touches D (Leaf o im) q.
Proof.
  intros (f & Hf & Hv) Ha. unfold refcount. set (p := fun t : nat * (nat * nat) => _). split.
  - intros H. destruct (filter p _) as [|t l] eqn:E; [cbn in H; lia|]. assert (Ht : In t (t :: l)) by now left. rewrite <- E in Ht.
    apply filter_In in Ht as [H1 H2]. destruct t as (el & k & m). apply in_prod_iff in H1 as [H1 H3]. apply in_prod_iff in H3 as [H3 H4].
    apply in_seq in H1, H3, H4. unfold p in H2. cbn in H2. apply Z.eqb_eq in H2. exists o, im, f, i, el, k, m. rewrite (Ha f Hf Hv). repeat split; auto; lia.
  - intros (o' & im' & f' & i' & el & k & m & E & F1 & F2 & F3 & H1 & H2 & H3 & H4). injection E as <- <-. assert (i' = i) by (specialize (Ha f' F1 F2); congruence). subst i'.
    assert (Hin : In (el, (k, m)) (filter p (list_prod (seq 0 (u_ne (D i))) (list_prod (seq 0 (u_nc (D i))) (seq 0 (u_es (D i))))))).
    { apply filter_In. split. { apply in_prod; [|apply in_prod]; apply in_seq; lia. } unfold p. cbn. rewrite H4. apply Z.eqb_refl. }
    destruct (filter p _); [destruct Hin|cbn; lia].
Qed.
Lemma skip_loop (i : nat) skip : rfold skip (fun j _ => if (j =? Z.of_nat i)%Z then Ok tt else Ok tt) tt = Ok tt.
Proof. induction skip as [|j skip IH]; cbn [rfold]; auto. now destruct (_ =? _)%Z. Qed.
Lemma sub_mult_ok skip n ix t mult : sub_wf chk D n t -> length mult = n -> exists mult', sub_mult chk D junk skip n (ix, t) mult = Ok mult' /\ length mult' = n /\
  forall q, q < n -> (touches D t q -> nth q mult' 0 = nth q mult 0 + 1)%Z /\ (~ touches D t q -> nth q mult' 0 = nth q mult 0)%Z.
Proof.
  intros (o & im & i & r & -> & Hex & Ha & Hlen & Hr & Hc & Hs) Hl. unfold sub_mult. cbn [fst snd]. rewrite skip_loop. cbn [rbind]. rewrite (active_ok o im i Hex Ha). cbn [rbind]. rewrite Hc. cbn [rbind].
  set (J := firstn (r_esize r) (junk ++ repeat 0%Z (r_esize r))).
  assert (LJ : length J = r_esize r) by (unfold J; rewrite firstn_length, app_length, repeat_length; lia).
  assert (Hls : r_lsize r = n) by (rewrite (rp_ls (create_repr Hlen Hc)); auto).
  assert (Hk : match u_kind (D i) with UCurl _ _ => v_orients Unoriented = false | _ => True end) by (destruct (u_kind (D i)); reflexivity || exact I).
  destruct (@C12_multiplicity Zrng chk (D i) None r Unoriented n J Hlen Hc Hr Hk ltac:(lia) LJ) as (m & Em & Lm & Gm).
  unfold rstr_multiplicity in Em. change (repeat 1%R n : list Zrng) with (repeat 1%Z n : list Zrng) in Em. change (repeat 0%R n : list Zrng) with (repeat 0%Z n : list Zrng) in Em.
  destruct (rstr_apply Unoriented r NoTranspose (repeat 1%Z n : list Zrng) J) as [e|c|] eqn:Ee; try discriminate. cbn [rbind]. rewrite Hls, Em. cbn [rbind].
  destruct (flag_loop n m Lm mult Hl) as (mult' & E & L & G). exists mult'. split; auto. split; auto. intros q Hq. rewrite G by auto.
  assert (Eq : @nth Z q m 0%Z = Z.of_nat (refcount (D i) q)). { specialize (Gm q). rewrite natR_Z in Gm. exact Gm. }
  rewrite Eq. pose proof (refcount_touch o im i q Hex Ha) as T. split; intros Ht.
  - apply T in Ht. now replace (0 <? Z.of_nat (refcount (D i) q))%Z with true by (symmetry; apply Z.ltb_lt; lia).
  - assert (refcount (D i) q = 0) by (destruct (refcount (D i) q); auto; exfalso; apply Ht, T; lia). rewrite H. cbn. lia.
Qed.
(** A count of the sub-operators with property [P]. *)
Inductive counts (P : optree Zrng -> Prop) : list (optree Zrng) -> Z -> Prop :=
| cnt_nil : counts P [] 0%Z
| cnt_yes t l n : P t -> counts P l n -> counts P (t :: l) (n + 1)%Z
| cnt_no t l n : ~ P t -> counts P l n -> counts P (t :: l) n.
Lemma touches_dec n t q : sub_wf chk D n t -> touches D t q \/ ~ touches D t q.
Proof.
  intros (o & im & i & r & -> & Hex & Ha & _). pose proof (refcount_touch o im i q Hex Ha) as T.
  destruct (refcount (D i) q) eqn:E; [right; rewrite <- T; lia|left; apply T; lia].
Qed.
Lemma mult_run skip n l : (forall t, In t l -> sub_wf chk D n t) -> forall a mult, length mult = n ->
  exists mult', rfold (combine (seq a (length l)) l) (sub_mult chk D junk skip n) mult = Ok mult' /\ length mult' = n /\
  forall q, q < n -> exists c, counts (fun t => touches D t q) l c /\ nth q mult' 0%Z = (nth q mult 0 + c)%Z.
Proof.
  induction l as [|t l IH]; intros Hw a mult Hl.
  - exists mult. split; [reflexivity|]. split; auto. intros q Hq. exists 0%Z. split; [constructor|lia].
  - destruct (sub_mult_ok skip n a t mult (Hw t (or_introl eq_refl)) Hl) as (m1 & E1 & L1 & G1). cbn [length seq combine rfold]. rewrite E1. cbn [rbind].
    destruct (IH (fun t' H => Hw t' (or_intror H)) (S a) m1 L1) as (m2 & E2 & L2 & G2). exists m2. split; auto. split; auto. intros q Hq.
    destruct (G2 q Hq) as (c & Hc & E). destruct (G1 q Hq) as [Gy Gn]. destruct (touches_dec n t q (Hw t (or_introl eq_refl))) as [Ht|Ht].
    + exists (c + 1)%Z. split; [now constructor|]. rewrite E, Gy; auto. lia.
    + exists c. split; [now constructor|]. rewrite E, Gn; auto.
Qed.
End C37.

(** C37 without indices to skip: entry [q] is the number of sub-operators that touch [q]. *)
Theorem C37_counts : forall chk D junk l n, (forall t, In t l -> sub_wf chk D n t) ->
  exists m, comp_multiplicity chk D junk l [] n = Ok m /\ length m = n /\
    forall q, q < n -> counts (fun t => touches D t q) l (nth q m 0%Z).
Proof.
  intros chk D junk l n Hw. unfold comp_multiplicity.
  destruct (mult_run chk D junk [] n l Hw 0 (repeat 0%Z n) (repeat_length _ _)) as (m & E & L & G). exists m. split; auto. split; auto.
  intros q Hq. destruct (G q Hq) as (c & Hc & Eq). rewrite nth_repeat in Eq. now rewrite Eq, Z.add_0_l.
Qed.
(** Finding: the indices to skip have no effect, whatever they are. *)
Theorem C37_skip_ignored : forall chk D junk l skip n, comp_multiplicity chk D junk l skip n = comp_multiplicity chk D junk l [] n.
Proof.
  intros. unfold comp_multiplicity. generalize (combine (seq 0 (length l)) l) as L. generalize (repeat 0%Z n) as m. intros m L. revert m.
  induction L as [|t L IH]; intros m; cbn [rfold]; auto.
  replace (sub_mult chk D junk skip n t m) with (sub_mult chk D junk [] n t m).
  - destruct (sub_mult chk D junk [] n t m); cbn [rbind]; auto.
  - unfold sub_mult. now rewrite !skip_loop.
Qed.
Definition ex37 : list (optree Zrng) := [Leaf ex_op None; Leaf (mkOp [mkOF 1 EvInterp (Some 6) (Some (BT ex_b1)) VAct] [] 1 3 false 1 ex_pt) None].
Definition ex37_D (i : nat) : udesc := match i with 6 => mkU 1 2 1 1%Z 4 (UStandard [0; 1]%Z) | _ => ex_D i end.
Example C37_ex : (forall t, In t ex37 -> sub_wf true ex37_D 4 t) /\ comp_multiplicity true ex37_D [] ex37 [] 4 = Ok [2; 2; 1; 1]%Z.
Proof.
  split; [|vm_compute; reflexivity].
  intros t [<-|[<-|[]]]; [eexists; eexists; exists 0; eexists | eexists; eexists; exists 6; eexists]; (split; [reflexivity|]).
  - split; [eexists; split; [right; left; reflexivity|reflexivity]|]. split.
    { intros f Hf Hv. destruct Hf as [<-|[<-|[<-|[<-|[]]]]]; cbn in Hv |- *; congruence. }
    split; [reflexivity|]. split; [|split; [vm_compute; reflexivity|reflexivity]].
    intros el k m Hel Hk Hm. cbn in Hel, Hk, Hm. cases el; cases k; cases m; vm_compute; split; discriminate || reflexivity.
  - split; [eexists; split; [left; reflexivity|reflexivity]|]. split.
    { intros f [<-|[]]. reflexivity. }
    split; [reflexivity|]. split; [|split; [vm_compute; reflexivity|reflexivity]].
    intros el k m Hel Hk Hm. cbn in Hel, Hk, Hm. cases el; cases k; cases m; vm_compute; split; discriminate || reflexivity.
Qed.
(** Skipping sub-operator 1 should leave one sub-operator for node 0, but the result is 2. *)
Theorem C37_skip_refuted : exists l skip n m, (forall t, In t l -> sub_wf true ex37_D n t) /\
  comp_multiplicity true ex37_D [] l skip n = Ok m /\ skip = [1%Z] /\ length l = 2 /\ nth 0 m 0%Z = 2%Z.
Proof.
  exists ex37, [1%Z], 4. eexists. split; [apply C37_ex|]. split; [vm_compute; reflexivity|]. auto.
Qed.
Print Assumptions C37_counts.
Print Assumptions C37_skip_ignored.
