(** * Property C36: assembly of diagonals and point block diagonals *)
From Coq Require Import List ZArith Lia Bool Arith.
From Verif Require Import Prelude RstrModel RstrSpec RstrProofs RstrMain RstrProps TensorModel TensorMain BasisModel BasisMain BasisApply BasisProps OpModel OpSpec OpLists OpProofs OpMain OpTree OpProps AsmModel AsmSpec AsmProofs AsmProps
  CacheModel CacheSpec CacheProps DenseModel DenseProofs FullModel FullSpec FullSide FullProofs FullMain FullProps DiagModel DiagProofs DiagMain.
Import ListNotations.

Section Loop.
Variable R : Rng.
Add Ring Rr : (r_th R).
Local Open Scope nat_scope.
Variable k : kernel R.
Variables (Jmin : nat) (junk : nat -> nat -> R) (chk : bool) (D : nat -> udesc) (bs : option nat).
Variables (bi bo : nat -> nat -> nat).
Notation history := (history R k Jmin junk chk D bs).

(** ** operators whose diagonal is assembled correctly *)
(** one restriction [r] and one basis for all active fields, no tridiagonal transformations, vectors of length [N] *)
Definition diag_wf (s : cstate R) (N i r : nat) : Prop := exists b,
  full_wf R k Jmin chk D bs (c_ops s i) (bi i) (bo i) r r (Some b) (Some b) /\ b_nc b = u_nc (D r) /\ b_nodes b = u_es (D r) /\
  (forall j j', j < length (o_in (c_ops s i)) -> j' < length (o_out (c_ops s i)) -> is_active (fld (o_in (c_ops s i)) j) = true -> is_active (fld (o_out (c_ops s i)) j') = true -> bi i j = bo i j') /\
  not_curl (D r) /\ u_lsize (D r) = N.
Lemma diag_wf_ops : forall s s' N i r, c_ops s' = c_ops s -> diag_wf s N i r -> diag_wf s' N i r.
Proof. intros s s' N i r E. unfold diag_wf. rewrite E. auto. Qed.

(** ** sizes *)
Lemma act_lsize_ok : forall Q ptr (fs : list (ofield R)) i b, one_side D Q ptr fs i b -> act_lsize D fs = Some (u_lsize (D i)).
Proof.
  intros Q ptr fs i b Hos. unfold act_lsize. destruct (find _ fs) as [f|] eqn:Ef.
  - apply find_some in Ef. destruct Ef as (Hin & Hf). apply andb_prop in Hf. destruct Hf as (Ha & _). destruct (In_nth fs f (mkOF 0 EvNone None None VNo) Hin) as (j & Hj & Ej).
    destruct (os_rstr Hos j Hj) as (E & _); unfold fld in *; rewrite Ej in *; auto. rewrite E. reflexivity.
  - exfalso. destruct (os_some Hos) as (j & Hj & Ha). destruct (os_rstr Hos j Hj Ha) as (E & _). pose proof (find_none _ _ Ef (fld fs j) (nth_In _ _ Hj)) as Hf. cbv beta in Hf. rewrite Ha, E in Hf. discriminate.
Qed.
Lemma tsize_in : forall l t, In t l -> tsize t <= fold_right (fun t n => tsize t + n) 0 l.
Proof. induction l as [|a l IH]; intros t Ht; [destruct Ht|]. cbn [fold_right]. destruct Ht as [->|Ht]; [lia|]. specialize (IH t Ht). lia. Qed.
Definition sized (s : cstate R) (N : nat) (t : ctree) : Prop := forall i, In i (leaves t) -> act_lsize D (o_in (c_ops s i)) = Some N /\ act_lsize D (o_out (c_ops s i)) = Some N.
Lemma sizes_tree : forall s N n t, tsize t <= n -> sized s N t -> tree_sizes D s t = (Some N, Some N) \/ (leaves t = [] /\ tree_sizes D s t = (None, None)).
Proof.
  intros s N. induction n as [|n IH]; intros t Hn Hs; [destruct t; cbn in Hn; lia|]. destruct t as [i|l]; cbn [tree_sizes leaves].
  - left. destruct (Hs i ltac:(left; auto)) as (-> & ->). reflexivity.
  - cbn [tsize] in Hn.
    assert (G : forall l acc, (forall t, In t l -> tree_sizes D s t = (Some N, Some N) \/ (leaves t = [] /\ tree_sizes D s t = (None, None))) -> acc = (Some N, Some N) \/ acc = (None, None) ->
      let r := fold_left (fun acc t => let x := tree_sizes D s t in (first_some (fst acc) (fst x), first_some (snd acc) (snd x))) l acc in
      r = (Some N, Some N) \/ (flat_map leaves l = [] /\ r = (None, None) /\ acc = (None, None))).
    { clear. induction l as [|t l IHl]; intros acc Ht Hacc; cbv zeta; cbn [fold_left flat_map]. { destruct Hacc as [-> | ->]; auto. }
      destruct Hacc as [-> | ->]; destruct (Ht t (or_introl eq_refl)) as [E|(E0 & E)]; rewrite E; cbn [fst snd first_some].
      - destruct (IHl (Some N, Some N)) as [H|(_ & _ & H)]; auto; [intros; apply Ht; right; auto|discriminate].
      - destruct (IHl (Some N, Some N)) as [H|(_ & _ & H)]; auto; [intros; apply Ht; right; auto|discriminate].
      - destruct (IHl (Some N, Some N)) as [H|(_ & _ & H)]; auto; [intros; apply Ht; right; auto|discriminate].
      - rewrite E0. cbn [app]. apply IHl; auto. intros; apply Ht; right; auto. }
    destruct (G l (None, None)) as [H|(H1 & H2 & _)]; auto.
    intros t Ht. apply IH.
    + pose proof (tsize_in l t Ht). lia.
    + intros i Hi. apply Hs. cbn [leaves]. apply in_flat_map. eauto.
Qed.
Lemma square_ok : forall s N t, sized s N t -> square D s t = true.
Proof. intros s N t H. unfold square. destruct (sizes_tree s N (tsize t) t (le_n _) H) as [E|(_ & E)]; rewrite E; cbn; auto. apply Nat.eqb_refl. Qed.

(** ** the traversal of a composite operator visits the leaves *)
Definition leaf_step (jl : nat -> R) (pb : bool) (i : nat) (st : cstate R * list R) : res (cstate R * list R) :=
  if o_ne (c_ops (fst st) i) =? 0 then Ok st else single_diag k junk chk D bs bi bo jl pb i st.
Lemma build_ops : forall jl s i s' v, build_or_update k junk chk D bs jl s i = Ok (s', v) -> c_ops s' = c_ops s.
Proof.
  intros jl s i s' v E. unfold build_or_update in E. destruct (get_data s i) as (s1, p) eqn:Eg.
  assert (E1 : c_ops s1 = c_ops s). { unfold get_data in Eg. destruct (c_ptr s i); inversion Eg; reflexivity. }
  destruct (q_vec (c_data s1 p)) as [w|].
  - destruct (update_needed (c_data s1 p)); [destruct (assemble _ _ _ _ _ _ _ _ _) as [ra| |]|]; cbn [rbind] in E; try discriminate; inversion E; subst; exact E1.
  - destruct (assemble _ _ _ _ _ _ _ _ _) as [ra| |]; cbn [rbind] in E; try discriminate; inversion E; subst; exact E1.
Qed.
Lemma leaf_step_ops : forall jl pb i st st', leaf_step jl pb i st = Ok st' -> c_ops (fst st') = c_ops (fst st).
Proof.
  intros jl pb i st st' E. unfold leaf_step in E. destruct (o_ne (c_ops (fst st) i) =? 0); [inversion E; auto|]. unfold single_diag in E.
  destruct (build_or_update k junk chk D bs jl (fst st) i) as [(s1, v)| |] eqn:Eb; cbn [rbind] in E; try discriminate.
  match type of E with (y <~ ?x ;; _) = _ => destruct x as [y| |]; cbn [rbind] in E; try discriminate end. inversion E; subst. cbn [fst]. eapply build_ops; eauto.
Qed.
Lemma rfold_app : forall A B (f : A -> B -> res B) l1 l2 b, rfold (l1 ++ l2) f b = (x <~ rfold l1 f b ;; rfold l2 f x).
Proof. intros A B f. induction l1 as [|a l1 IH]; intros l2 b; cbn [app rfold]; auto. destruct (f a b); cbn [rbind]; auto. Qed.
Lemma fold_ops : forall jl pb l st st', rfold l (leaf_step jl pb) st = Ok st' -> c_ops (fst st') = c_ops (fst st).
Proof.
  intros jl pb. induction l as [|i l IH]; intros st st' E; cbn [rfold] in E; [inversion E; auto|]. destruct (leaf_step jl pb i st) as [s1| |] eqn:E1; cbn [rbind] in E; try discriminate.
  rewrite (IH _ _ E). eapply leaf_step_ops; eauto.
Qed.
Lemma add_leaves : forall jl pb N n t st, tsize t <= n -> sized (fst st) N t -> add_diag k junk chk D bs bi bo jl pb t st = rfold (leaves t) (leaf_step jl pb) st.
Proof.
  intros jl pb N. induction n as [|n IH]; intros t st Hn Hs; [destruct t; cbn in Hn; lia|]. destruct t as [i|l]; cbn [add_diag]; rewrite (square_ok (fst st) N) by auto; cbn [negb leaves].
  - cbn [rfold]. unfold leaf_step. destruct (o_ne (c_ops (fst st) i) =? 0); cbn [rbind]; auto. destruct (single_diag _ _ _ _ _ _ _ _ _ _ _); reflexivity.
  - cbn [tsize] in Hn. assert (Hs' : forall t, In t l -> sized (fst st) N t). { intros t Ht i Hi. apply Hs. cbn [leaves]. apply in_flat_map. eauto. }
    assert (Hn' : forall t, In t l -> tsize t <= n).
    { intros t Ht. pose proof (tsize_in l t Ht). lia. }
    clear Hn Hs. revert st Hs'. induction l as [|t l IHl]; intros st Hs'; [reflexivity|]. cbn [flat_map]. rewrite rfold_app. rewrite IH; [|apply Hn'; left; auto|apply Hs'; left; auto].
    destruct (rfold (leaves t) (leaf_step jl pb) st) as [st'| |] eqn:E; cbn [rbind]; auto. apply IHl; [intros; apply Hn'; right; auto|].
    intros t' Ht' i Hi. rewrite (fold_ops _ _ _ _ _ E). apply (Hs' t'); auto. right; auto.
Qed.

(** ** a list of operators *)
Section List.
Variable pb : bool.
Variable X : Type.                               (* entries *)
Variable V : X -> Prop.
Variables (pos row cl : X -> nat).               (* position in the assembled vector, row and column of the matrix *)
Variable L : nat.
Variable ops : nat -> oper R.
Variable wf : nat -> Prop.
Hypothesis Hop : forall i, wf i -> 0 < o_ne (ops i).
Hypothesis Hstep : forall jl s i s' v vm y, wf i -> build_or_update k junk chk D bs jl s i = Ok (s', v) -> c_ops s = ops -> is_assembled D (ops i) vm (c_vec s' v) -> L <= length y ->
  exists y', single_diag k junk chk D bs bi bo jl pb i (s, y) = Ok (s', y') /\ length y' = length y /\
    forall vm2 inv x, is_assembled D (ops i) vm2 (c_vec s' v) -> V x -> is_unit R (act_in R vm2 inv) (cl x) -> vf y' (pos x) = (vf y (pos x) + active_sum R D (ops i) vm2 inv (row x))%R.
Lemma diag_loop : forall jl l s h y, c_ops s = ops -> history h s -> (forall i, In i l -> wf i /\ passive_ok R D (c_ops s i) (c_vm s) /\ ready R D s h i) ->
  (forall i j, In i l -> In j l -> shares h i j = true -> i = j) -> L <= length y ->
  exists s' h' y', rfold l (leaf_step jl pb) (s, y) = Ok (s', y') /\ history (h' ++ h) s' /\ (forall e, In e h' -> exists i v A, In i l /\ e = HCall i v A) /\
    c_ops s' = c_ops s /\ c_vm s' = c_vm s /\ length y' = length y /\
    forall vm2 inv x, (forall i, In i l -> same_passive R (c_ops s i) (c_vm s) vm2) -> V x -> is_unit R (act_in R vm2 inv) (cl x) ->
      vf y' (pos x) = (vf y (pos x) + sumL l (fun i => active_sum R D (c_ops s i) vm2 inv (row x)))%R.
Proof.
  intros jl l. induction l as [|i l IH]; intros s h y Es Hh H Hsh Hy.
  - exists s, [], y. cbn [rfold app]. split; auto. split; auto. split; [intros e []|]. repeat (split; auto). intros. rewrite sumL_nil. ring.
  - destruct (H i (or_introl eq_refl)) as (Hw & Hp & Hr).
    pose proof (history_ok R k Jmin junk chk D bs h s Hh) as Hinv.
    destruct (call_ok R k Jmin junk chk D bs h s jl i Hinv Hp) as (s1 & v & Eb & _ & Hk & _ & Eo & Ev).
    assert (HA : is_assembled D (c_ops s i) (c_vm s) (c_vec s1 v)).
    { unfold ready in Hr. destruct (kept h i) as [(v0, A0)|]; auto. destruct Hk as (_ & ->). auto. }
    assert (HA' := HA). rewrite Es in HA'. destruct (Hstep jl s i s1 v (c_vm s) y Hw Eb Es HA' Hy) as (y1 & E1 & L1 & G1).
    pose proof (h_call R k Jmin junk chk D bs h s jl i s1 v Hh Hp Eb) as Hh1.
    assert (Hrefl : shares h i i = true) by (destruct Hinv as (Hsh0 & _); apply (sh_refl R h s Hsh0)).
    destruct (IH s1 (HCall i v (c_vec s1 v) :: h) y1) as (s' & h' & y' & E2 & H2 & H3 & H4 & H5 & H6 & H7); try congruence.
    { intros j Hj. destruct (H j (or_intror Hj)) as (J1 & J2 & J3). unfold passive_ok. rewrite Eo, Ev. split; auto. split; auto.
      eapply ready_call; eauto. destruct (Nat.eq_dec j i) as [->|Hne]; auto. right. destruct (shares h j i) eqn:Esh; auto. exfalso. apply Hne. apply Hsh; auto; [right|left]; auto. }
    { intros a b Ha Hb. cbn [shares]. apply Hsh; right; auto. }
    exists s', (h' ++ [HCall i v (c_vec s1 v)]), y'. split; [|split; [|split; [|split; [|split; [|split]]]]].
    + cbn [rfold]. unfold leaf_step at 1. cbn [fst]. rewrite Es. pose proof (Hop i Hw). destruct (Nat.eqb_spec (o_ne (ops i)) 0); [lia|]. rewrite E1. cbn [rbind]. exact E2.
    + rewrite <- app_assoc. exact H2.
    + intros x Hx. apply in_app_or in Hx. destruct Hx as [Hx|[<-|[]]]; [|exists i, v, (c_vec s1 v); split; auto; left; auto].
      destruct (H3 x Hx) as (a & b & c & Ha & Hb). exists a, b, c. split; auto. right; auto.
    + congruence.
    + congruence.
    + congruence.
    + intros vm2 inv x Hvm Hx Hu. rewrite sumL_cons. rewrite (H7 vm2 inv x); auto.
      * rewrite (G1 vm2 inv x); auto. { rewrite Eo, Es. ring. } rewrite <- Es. eapply asm_other; eauto. apply Hvm. left; auto.
      * intros j Hj. rewrite Eo, Ev. apply Hvm. right; auto.
Qed.
End List.
End Loop.

(** ** C36 *)
(** The diagonal of a single or a composite operator, after any history of calls, is added to a vector that is long enough:
    to entry [q] what the operators add to entry [q] of the output for the unit vector [q] as input. *)
Theorem C36_add_diagonal : forall (R : Rng) k Jmin junk chk D bs bi bo jl h (s : cstate R) t N y,
  history R k Jmin junk chk D bs h s ->
  (forall i, In i (leaves t) -> (exists r, diag_wf R k Jmin chk D bs bi bo s N i r /\ distinct (D r)) /\ passive_ok R D (c_ops s i) (c_vm s) /\ ready R D s h i) ->
  (forall i j, In i (leaves t) -> In j (leaves t) -> shares h i j = true -> i = j) -> N <= length y ->
  exists s' h' y', add_diag k junk chk D bs bi bo jl false t (s, y) = Ok (s', y') /\
    history R k Jmin junk chk D bs (h' ++ h) s' /\ (forall e, In e h' -> exists i v A, In i (leaves t) /\ e = HCall i v A) /\ c_ops s' = c_ops s /\ c_vm s' = c_vm s /\ length y' = length y /\
    forall vm inv v q, (forall i, In i (leaves t) -> same_passive R (c_ops s i) (c_vm s) vm /\ not_passive (c_ops s i) v) -> is_unit R (act_in R vm inv) q ->
      vf y' q = (vf y q + sumL (leaves t) (fun i => added D (c_ops s i) vm inv (Some v) v q))%R.
Proof.
  intros R k Jmin junk chk D bs bi bo jl h s t N y Hh H Hsh Hy.
  pose (wf := fun i => exists r, diag_wf R k Jmin chk D bs bi bo s N i r /\ distinct (D r)).
  assert (Hop : forall i, wf i -> 0 < o_ne (c_ops s i)). { intros i (r & (b & Hw & _) & _). destruct (fw_asm _ _ _ _ _ _ _ _ _ _ _ _ _ Hw) as (Ho & _). apply (ow_ne Ho). }
  assert (Hz : sized R D s N t).
  { intros i Hi. destruct (H i Hi) as ((r & (b & Hw & _ & _ & _ & _ & HN) & _) & _). rewrite <- HN. split; [apply (act_lsize_ok R D _ _ _ _ _ (fw_in _ _ _ _ _ _ _ _ _ _ _ _ _ Hw))|apply (act_lsize_ok R D _ _ _ _ _ (fw_out _ _ _ _ _ _ _ _ _ _ _ _ _ Hw))]. }
  destruct (diag_loop R k Jmin junk chk D bs bi bo false nat (fun _ => True) (fun q => q) (fun q => q) (fun q => q) N (c_ops s) wf Hop) with (jl := jl) (l := leaves t) (s := s) (h := h) (y := y)
    as (s' & h' & y' & E & H1 & H2 & H3 & H4 & H5 & H6); auto.
  - intros jl' s0 i s1 v vm y0 (r & (b & Hw & B1 & B2 & B3 & B4 & HN) & Hd) Eb Eo HA Hy0.
    destruct (single_diag_ok R k Jmin junk chk D bs bi bo (c_ops s i) (bi i) (bo i) r b Hw B4 B1 B2 B3 jl' s0 i s1 v vm y0 Eb ltac:(congruence) eq_refl eq_refl HA ltac:(lia) Hd) as (y' & E1 & E2 & E3).
    exists y'. split; [exact E1|]. split; [exact E2|]. intros vm2 inv x HA2 _ Hu. apply E3; auto.
  - exists s', h', y'. rewrite (add_leaves R k junk chk D bs bi bo jl false N (tsize t) t (s, y) (le_n _) Hz). repeat (split; [assumption|]).
    intros vm inv v q Hv Hu. rewrite (H6 vm inv q) by (auto; intros i Hi; apply Hv; auto). f_equal. apply sumL_ext. intros i Hi. symmetry. apply added_active. apply Hv. auto.
Qed.
Print Assumptions C36_add_diagonal.
Lemma not_empty : forall (R : Rng) k junk chk D bs bi bo jl pb t (st : cstate R * list R), (forall i, In i (leaves t) -> o_ne (c_ops (fst st) i) <> 0) ->
  assemble_diag k junk chk D bs bi bo jl pb t st = add_diag k junk chk D bs bi bo jl pb t (fst st, repeat 0%R (length (snd st))).
Proof.
  intros R k junk chk D bs bi bo jl pb t st H. unfold assemble_diag. destruct t as [i|l].
  - cbn [add_diag fst]. destruct (negb (square D (fst st) (CLeaf i))); auto. specialize (H i (or_introl eq_refl)). apply Nat.eqb_neq in H. rewrite H. reflexivity.
  - destruct (negb (square D (fst st) (CComp l))) eqn:E; auto. cbn [add_diag fst]. rewrite E. reflexivity.
Qed.
(** CeedOperatorLinearAssembleDiagonal: the vector is overwritten with the diagonal. *)
Theorem C36_diagonal : forall (R : Rng) k Jmin junk chk D bs bi bo jl h (s : cstate R) t N y,
  history R k Jmin junk chk D bs h s ->
  (forall i, In i (leaves t) -> (exists r, diag_wf R k Jmin chk D bs bi bo s N i r /\ distinct (D r)) /\ passive_ok R D (c_ops s i) (c_vm s) /\ ready R D s h i) ->
  (forall i j, In i (leaves t) -> In j (leaves t) -> shares h i j = true -> i = j) -> N <= length y ->
  exists s' h' y', assemble_diag k junk chk D bs bi bo jl false t (s, y) = Ok (s', y') /\
    history R k Jmin junk chk D bs (h' ++ h) s' /\ (forall e, In e h' -> exists i v A, In i (leaves t) /\ e = HCall i v A) /\ c_ops s' = c_ops s /\ c_vm s' = c_vm s /\ length y' = length y /\
    forall vm inv v q, (forall i, In i (leaves t) -> same_passive R (c_ops s i) (c_vm s) vm /\ not_passive (c_ops s i) v) -> is_unit R (act_in R vm inv) q ->
      vf y' q = sumL (leaves t) (fun i => added D (c_ops s i) vm inv (Some v) v q).
Proof.
  intros R k Jmin junk chk D bs bi bo jl h s t N y Hh H Hsh Hy.
  destruct (C36_add_diagonal R k Jmin junk chk D bs bi bo jl h s t N (repeat 0%R (length y)) Hh H Hsh ltac:(rewrite repeat_length; auto)) as (s' & h' & y' & E & H1 & H2 & H3 & H4 & H5 & H6).
  exists s', h', y'. split.
  - rewrite not_empty; [exact E|]. intros i Hi. destruct (H i Hi) as ((r & (b & Hw & _) & _) & _). destruct (fw_asm _ _ _ _ _ _ _ _ _ _ _ _ _ Hw) as (Ho & _). pose proof (ow_ne Ho). cbn [fst]. lia.
  - repeat (split; [assumption|]). split; [rewrite H5; apply repeat_length|]. intros vm inv v q Hv Hu. rewrite (H6 vm inv v q Hv Hu). unfold vf at 1. rewrite nth_repeat. apply (Radd_0_l (r_th R)).
Qed.
Print Assumptions C36_diagonal.
(** Together with C29: entry [q] is entry [q] of the result of CeedOperatorApply for the unit vector [q]. *)
Theorem C36_apply : forall (R : Rng) k Jmin junk chk D bs bi bo jl h (s : cstate R) i r N y s' y' im vm inv v q,
  history R k Jmin junk chk D bs h s -> diag_wf R k Jmin chk D bs bi bo s N i r -> distinct (D r) -> passive_ok R D (c_ops s i) (c_vm s) -> ready R D s h i -> N <= length y ->
  assemble_diag k junk chk D bs bi bo jl false (CLeaf i) (s, y) = Ok (s', y') ->
  mem_ok vm -> im_ok chk D bs (c_ops s i) im vm -> vec_len D (c_ops s i) vm inv (Some v) -> apart (c_ops s i) inv (Some v) ->
  same_passive R (c_ops s i) (c_vm s) vm -> not_passive (c_ops s i) v -> is_unit R (act_in R vm inv) q ->
  exists im' vm' w, single_apply k junk chk D bs (c_ops s i) im vm inv (Some v) = Ok (im', vm') /\ vv_data (vm' v) = Some w /\ vf w q = vf y' q.
Proof.
  intros R k Jmin junk chk D bs bi bo jl h s i r N y s' y' im vm inv v q Hh Hw Hd Hp Hr Hy E Hm Him Hvl Hap Hs Hn Hu.
  destruct (C36_diagonal R k Jmin junk chk D bs bi bo jl h s (CLeaf i) N y Hh) as (s2 & h2 & y2 & E2 & _ & _ & _ & _ & _ & Hdiag); auto.
  { intros j [<-|[]]. eauto. } { intros a b [<-|[]] [<-|[]] _. reflexivity. }
  rewrite E in E2. inversion E2; subst s2 y2. destruct Hw as (b & Hf & _). destruct (fw_asm _ _ _ _ _ _ _ _ _ _ _ _ _ Hf) as (Hop & _).
  destruct (C29_apply R k Jmin junk chk D bs (c_ops s i) im vm inv (Some v) Hop Hm Him Hvl Hap) as (im' & vm' & Ea & _ & _ & Hout). exists im', vm'.
  specialize (Hout v). assert (Ho : outs (c_ops s i) (Some v) v = true).
  { unfold outs. apply existsb_exists. destruct (os_some (fw_out _ _ _ _ _ _ _ _ _ _ _ _ _ Hf)) as (j & Hj & Ha). exists (fld (o_out (c_ops s i)) j). split; [apply nth_In; auto|].
    unfold OpModel.target, is_active, oeq in *. destruct (f_vec (fld (o_out (c_ops s i)) j)); try discriminate. apply Nat.eqb_refl. }
  rewrite Ho in Hout. destruct Hout as (_ & w & E1 & E3 & E4). exists w. split; auto. split; auto. rewrite E4.
  rewrite (Hdiag vm inv v q); [|intros j [<-|[]]; auto|auto]. cbn [leaves]. rewrite sumL_cons, sumL_nil. pose proof (r_th R) as Hth. rewrite (Radd_comm Hth (added _ _ _ _ _ _ _)), (Radd_0_l Hth). reflexivity.
Qed.
Print Assumptions C36_apply.

(** *** point blocks *)
(** [isnode]: L-vector offsets of the nodes of all operators, [nc] components with stride [cs]; block entry (node x, c_out, c_in) *)
Definition block_wf (R : Rng) k Jmin chk D bs bi bo (s : cstate R) (isnode : Z -> Prop) (N nc : nat) (cs : Z) (i : nat) : Prop :=
  exists r, diag_wf R k Jmin chk D bs bi bo s N i r /\ nodes_ok isnode (D r) /\ pb_ok chk (D r) /\ u_nc (D r) = nc /\ u_cs (D r) = cs.
Definition bshift (nc : nat) (cs : Z) : nat := if (cs =? 1)%Z then nc else nc * nc.
Definition bpos (nc : nat) (cs : Z) (x : Z) (co ci : nat) : nat := Z.to_nat (x * Z.of_nat (bshift nc cs)) + (co * nc + ci).
(** The point blocks are added: to the entry (x, c_out, c_in) the matrix entry of the components c_out and c_in of node x. *)
Theorem C36_add_blocks : forall (R : Rng) k Jmin junk chk D bs bi bo jl h (s : cstate R) t N nc cs isnode y,
  history R k Jmin junk chk D bs h s ->
  (forall i, In i (leaves t) -> block_wf R k Jmin chk D bs bi bo s isnode N nc cs i /\ passive_ok R D (c_ops s i) (c_vm s) /\ ready R D s h i) ->
  (forall i j, In i (leaves t) -> In j (leaves t) -> shares h i j = true -> i = j) -> N * nc <= length y -> (0 <= cs)%Z ->
  exists s' h' y', add_diag k junk chk D bs bi bo jl true t (s, y) = Ok (s', y') /\
    history R k Jmin junk chk D bs (h' ++ h) s' /\ (forall e, In e h' -> exists i v A, In i (leaves t) /\ e = HCall i v A) /\ c_ops s' = c_ops s /\ c_vm s' = c_vm s /\ length y' = length y /\
    forall vm inv v x co ci, (forall i, In i (leaves t) -> same_passive R (c_ops s i) (c_vm s) vm /\ not_passive (c_ops s i) v) ->
      isnode x -> (0 <= x)%Z -> co < nc -> ci < nc -> is_unit R (act_in R vm inv) (Z.to_nat (x + Z.of_nat ci * cs)) ->
      vf y' (bpos nc cs x co ci) = (vf y (bpos nc cs x co ci) + sumL (leaves t) (fun i => added D (c_ops s i) vm inv (Some v) v (Z.to_nat (x + Z.of_nat co * cs))))%R.
Proof.
  intros R k Jmin junk chk D bs bi bo jl h s t N nc cs isnode y Hh H Hsh Hy Hcs.
  pose (wf := block_wf R k Jmin chk D bs bi bo s isnode N nc cs).
  assert (Hop : forall i, wf i -> 0 < o_ne (c_ops s i)). { intros i (r & (b & Hw & _) & _). destruct (fw_asm _ _ _ _ _ _ _ _ _ _ _ _ _ Hw) as (Ho & _). apply (ow_ne Ho). }
  assert (Hz : sized R D s N t).
  { intros i Hi. destruct (H i Hi) as ((r & (b & Hw & _ & _ & _ & _ & HN) & _) & _). rewrite <- HN. split; [apply (act_lsize_ok R D _ _ _ _ _ (fw_in _ _ _ _ _ _ _ _ _ _ _ _ _ Hw))|apply (act_lsize_ok R D _ _ _ _ _ (fw_out _ _ _ _ _ _ _ _ _ _ _ _ _ Hw))]. }
  destruct (diag_loop R k Jmin junk chk D bs bi bo true (Z * (nat * nat)) (fun x => isnode (fst x) /\ (0 <= fst x)%Z /\ fst (snd x) < nc /\ snd (snd x) < nc)
    (fun x => bpos nc cs (fst x) (fst (snd x)) (snd (snd x))) (fun x => Z.to_nat (fst x + Z.of_nat (fst (snd x)) * cs)) (fun x => Z.to_nat (fst x + Z.of_nat (snd (snd x)) * cs)) (N * nc) (c_ops s) wf Hop)
    with (jl := jl) (l := leaves t) (s := s) (h := h) (y := y) as (s' & h' & y' & E & H1 & H2 & H3 & H4 & H5 & H6); auto.
  - intros jl' s0 i s1 v vm y0 (r & (b & Hw & B1 & B2 & B3 & B4 & HN) & Hno & Hpb & Enc & Ecs) Eb Eo HA Hy0.
    destruct (single_block_ok R k Jmin junk chk D bs bi bo (c_ops s i) (bi i) (bo i) r b Hw B4 B1 B2 B3 isnode jl' s0 i s1 v vm y0 Eb ltac:(congruence) eq_refl eq_refl HA) as (y' & E1 & E2 & E3); auto.
    { rewrite HN, Enc. auto. } { rewrite Ecs. auto. }
    exists y'. split; auto. split; auto. intros vm2 inv (x & co & ci) HA2 (V1 & V2 & V3 & V4) Hu. cbn [fst snd] in *. rewrite <- Ecs in Hu. rewrite <- Enc in V3, V4.
    specialize (E3 vm2 inv x co ci HA2 V1 V2 V3 V4 Hu). cbv zeta in E3. unfold pb_shift in E3. rewrite Ecs, Enc in E3. exact E3.
  - exists s', h', y'. rewrite (add_leaves R k junk chk D bs bi bo jl true N (tsize t) t (s, y) (le_n _) Hz). repeat (split; [assumption|]).
    intros vm inv v x co ci Hv V1 V2 V3 V4 Hu. pose proof (H6 vm inv (x, (co, ci)) ltac:(intros i Hi; apply Hv; auto) ltac:(cbn [fst snd]; auto) Hu) as G. cbn [fst snd] in G. rewrite G. f_equal. apply sumL_ext. intros i Hi. symmetry. apply added_active. apply Hv. auto.
Qed.
Print Assumptions C36_add_blocks.
Theorem C36_blocks : forall (R : Rng) k Jmin junk chk D bs bi bo jl h (s : cstate R) t N nc cs isnode y,
  history R k Jmin junk chk D bs h s ->
  (forall i, In i (leaves t) -> block_wf R k Jmin chk D bs bi bo s isnode N nc cs i /\ passive_ok R D (c_ops s i) (c_vm s) /\ ready R D s h i) ->
  (forall i j, In i (leaves t) -> In j (leaves t) -> shares h i j = true -> i = j) -> N * nc <= length y -> (0 <= cs)%Z ->
  exists s' h' y', assemble_diag k junk chk D bs bi bo jl true t (s, y) = Ok (s', y') /\
    history R k Jmin junk chk D bs (h' ++ h) s' /\ (forall e, In e h' -> exists i v A, In i (leaves t) /\ e = HCall i v A) /\ c_ops s' = c_ops s /\ c_vm s' = c_vm s /\ length y' = length y /\
    forall vm inv v x co ci, (forall i, In i (leaves t) -> same_passive R (c_ops s i) (c_vm s) vm /\ not_passive (c_ops s i) v) ->
      isnode x -> (0 <= x)%Z -> co < nc -> ci < nc -> is_unit R (act_in R vm inv) (Z.to_nat (x + Z.of_nat ci * cs)) ->
      vf y' (bpos nc cs x co ci) = sumL (leaves t) (fun i => added D (c_ops s i) vm inv (Some v) v (Z.to_nat (x + Z.of_nat co * cs))).
Proof.
  intros R k Jmin junk chk D bs bi bo jl h s t N nc cs isnode y Hh H Hsh Hy Hcs.
  destruct (C36_add_blocks R k Jmin junk chk D bs bi bo jl h s t N nc cs isnode (repeat 0%R (length y)) Hh H Hsh ltac:(rewrite repeat_length; auto) Hcs) as (s' & h' & y' & E & H1 & H2 & H3 & H4 & H5 & H6).
  exists s', h', y'. split.
  - rewrite not_empty; [exact E|]. intros i Hi. destruct (H i Hi) as ((r & (b & Hw & _) & _) & _). destruct (fw_asm _ _ _ _ _ _ _ _ _ _ _ _ _ Hw) as (Ho & _). pose proof (ow_ne Ho). cbn [fst]. lia.
  - repeat (split; [assumption|]). split; [rewrite H5; apply repeat_length|]. intros vm inv v x co ci Hv V1 V2 V3 V4 Hu. rewrite (H6 vm inv v x co ci Hv V1 V2 V3 V4 Hu). unfold vf at 1. rewrite nth_repeat. apply (Radd_0_l (r_th R)).
Qed.
Print Assumptions C36_blocks.

(** *** rows and columns of the point blocks *)
Lemma rfold_est : forall A B (f : A -> B -> res B) (Inv : B -> Prop) (Pres : B -> B -> Prop) (Good : A -> B -> Prop) (l : list A),
  (forall b, Pres b b) -> (forall a b c, Pres a b -> Pres b c -> Pres a c) -> (forall a b c, In a l -> Pres b c -> Good a b -> Good a c) ->
  (forall a b, In a l -> Inv b -> exists b', f a b = Ok b' /\ Inv b' /\ Pres b b' /\ Good a b') ->
  forall b, Inv b -> exists b', rfold l f b = Ok b' /\ Inv b' /\ Pres b b' /\ forall a, In a l -> Good a b'.
Proof.
  intros A B f Inv Pres Good l Hrefl Htr. induction l as [|a l IH]; intros Hst Hs b Hb.
  - exists b. cbn [rfold]. repeat split; auto. intros a [].
  - destruct (Hs a b (or_introl eq_refl) Hb) as (b1 & E1 & I1 & P1 & G1). destruct IH with (b := b1) as (b' & E & I' & P' & G'); auto.
    { intros; eapply Hst; eauto; right; auto. } { intros; apply Hs; auto; right; auto. }
    exists b'. cbn [rfold]. rewrite E1. cbn [rbind]. split; auto. split; auto. split; [eapply Htr; eauto|].
    intros x [<-|Hx]; auto. apply (Hst a b1); auto. left; auto.
Qed.
(** the operators called by the symbolic assembly *)
Definition flat (t : ctree) (l : list nat) : Prop := match t with CLeaf i => l = [i] | CComp ts => ts = map CLeaf l /\ l <> [] end.
Lemma flat_leaves : forall t l, flat t l -> leaves t = l.
Proof. intros [i|ts] l H; cbn [flat leaves] in *; [auto|]. destruct H as (-> & _). clear. induction l as [|i l IH]; cbn; auto. f_equal. exact IH. Qed.
(** It succeeds with N * nc rows and columns, and at the place of the block entry (x, c_out, c_in) of every node x of the operators
    they are the places of the components c_out and c_in of the node in the L-vector; different block entries have different places. *)
Theorem C36_block_symbolic : forall (R : Rng) k Jmin chk D bs bi bo (s : cstate R) t l N nc cs isnode,
  flat t l -> (forall i, In i l -> block_wf R k Jmin chk D bs bi bo s isnode N nc cs i) ->
  exists rows cols, pb_symbolic chk D bi s t = Ok (rows, cols) /\ length rows = N * nc /\ length cols = N * nc /\
    (forall i r e n co ci, In i l -> diag_wf R k Jmin chk D bs bi bo s N i r -> e < u_ne (D r) -> n < u_es (D r) -> co < nc -> ci < nc ->
       let x := offs (D r) e n in bpos nc cs x co ci < N * nc /\
       nth (bpos nc cs x co ci) rows 0%Z = (x + Z.of_nat co * cs)%Z /\ nth (bpos nc cs x co ci) cols 0%Z = (x + Z.of_nat ci * cs)%Z) /\
    (forall x x' co ci co' ci', isnode x -> isnode x' -> (0 <= x)%Z -> (0 <= x')%Z -> co < nc -> ci < nc -> co' < nc -> ci' < nc ->
       bpos nc cs x co ci = bpos nc cs x' co' ci' -> x = x' /\ co = co' /\ ci = ci').
Proof.
  intros R k Jmin chk D bs bi bo s t l N nc cs isnode Ht Hw.
  assert (Hne : l <> []). { destruct t; cbn [flat] in Ht; [subst; discriminate|tauto]. }
  assert (Hinj : forall x x' co ci co' ci', isnode x -> isnode x' -> (0 <= x)%Z -> (0 <= x')%Z -> co < nc -> ci < nc -> co' < nc -> ci' < nc ->
       bpos nc cs x co ci = bpos nc cs x' co' ci' -> x = x' /\ co = co' /\ ci = ci').
  { intros x x' co ci co' ci' Hx Hx' H0 H0' B1 B2 B3 B4 E. destruct l as [|i0 l']; [congruence|]. destruct (Hw i0 (or_introl eq_refl)) as (r & _ & Hn & _ & En & Ec).
    assert (Epb : pb_shift (D r) = bshift nc cs) by (unfold pb_shift, bshift; rewrite En, Ec; reflexivity).
    destruct (pb_inj isnode (D r) x x' (co * nc + ci) (co' * nc + ci') Hn Hx Hx') as (Ex & Ey); rewrite ?En; try nia.
    { rewrite Epb. unfold bpos in E. nia. }
    split; auto. assert (co = co') by nia. subst co'. split; auto. nia. }
  assert (Hr1 : forall i r, In i l -> diag_wf R k Jmin chk D bs bi bo s N i r -> act_rstr None (o_in (c_ops s i)) = Ok r /\ exists id ms b, groups (bi i) (o_in (c_ops s i)) = [mkG id (Some b) (Some r) ms]).
  { intros i r Hi (b & Hf & _ & _ & Hptr & _). split; [apply (act_rstr_ok R D _ _ _ _ _ (fw_in _ _ _ _ _ _ _ _ _ _ _ _ _ Hf))|].
    destruct (both_groups R k Jmin chk D bs _ _ _ _ b Hf Hptr) as (id & EG & _). eauto. }
  assert (Hrs : forall i r, In i l -> diag_wf R k Jmin chk D bs bi bo s N i r -> act_rstrs (bi i) (c_ops s i) = Ok [r]).
  { intros i r Hi Hd. destruct (Hr1 i r Hi Hd) as (_ & id & ms & b & EG). unfold act_rstrs. rewrite EG. reflexivity. }
  assert (Hgood : forall i r, In i l -> diag_wf R k Jmin chk D bs bi bo s N i r -> nodes_ok isnode (D r) /\ pb_ok chk (D r) /\ u_nc (D r) = nc /\ u_cs (D r) = cs).
  { intros i r Hi Hd. destruct (Hw i Hi) as (r' & Hd' & Hx). destruct (Hr1 i r Hi Hd) as (E & _). destruct (Hr1 i r' Hi Hd') as (E' & _). assert (r = r') by congruence. subst. exact Hx. }
  assert (Hz : sized R D s N t).
  { intros i Hi. rewrite (flat_leaves t l Ht) in Hi. destruct (Hw i Hi) as (r & (b & Hf & _ & _ & _ & _ & HN) & _). rewrite <- HN. split; [apply (act_lsize_ok R D _ _ _ _ _ (fw_in _ _ _ _ _ _ _ _ _ _ _ _ _ Hf))|apply (act_lsize_ok R D _ _ _ _ _ (fw_out _ _ _ _ _ _ _ _ _ _ _ _ _ Hf))]. }
  unfold pb_symbolic. rewrite (square_ok R D s N t Hz). cbn [negb].
  assert (El : match t with CLeaf i => [Some i] | CComp l => map (fun t => match t with CLeaf i => Some i | CComp _ => None end) l end = map Some l).
  { destruct t; cbn [flat] in Ht; [subst; reflexivity|]. destruct Ht as (-> & _). rewrite map_map. reflexivity. }
  rewrite El.
  assert (Ek : pb_check D bi s (map Some l) = Ok nc).
  { destruct l as [|i0 l0] eqn:E0; [congruence|]. rewrite <- E0 in *. assert (H0 : In i0 l) by (rewrite E0; left; auto). unfold pb_check.
    destruct (Hw i0 H0) as (r0 & Hd0 & _ & _ & En0 & Ec0).
    replace (map Some l) with (Some i0 :: map Some l0) at 1 by (rewrite E0; reflexivity). rewrite (Hrs i0 r0 H0 Hd0). cbn [rbind].
    change (og [r0] 0) with (Ok r0). cbn [rbind]. rewrite En0, Ec0.
    match goal with |- (_ <~ ?x ;; _) = _ => assert (E : x = Ok tt) end; [|rewrite E; reflexivity].
    clear E0 H0 El Ht Hne. clear - Hw Hrs. induction l as [|i l IH]; [reflexivity|]. cbn [map rfold].
    destruct (Hw i (or_introl eq_refl)) as (r & Hd & _ & _ & En & Ec). rewrite (Hrs i r (or_introl eq_refl) Hd). cbn [rbind rfold].
    rewrite En, Ec, Z.eqb_refl, Nat.eqb_refl. cbn [negb rbind]. apply IH; intros; [apply Hw|apply Hrs]; auto; right; auto. }
  rewrite Ek. cbn [rbind].
  assert (Esz : fst (tree_sizes D s t) = Some N).
  { destruct (sizes_tree R D s N (tsize t) t (le_n _) Hz) as [E|(E & _)]; [rewrite E; reflexivity|]. rewrite (flat_leaves t l Ht) in E. congruence. }
  rewrite Esz.
  pose (Inv := fun st : list Z * list Z => length (fst st) = N * nc /\ length (snd st) = N * nc).
  pose (gd := fun (st : list Z * list Z) x co ci => nth (bpos nc cs x co ci) (fst st) 0%Z = (x + Z.of_nat co * cs)%Z /\ nth (bpos nc cs x co ci) (snd st) 0%Z = (x + Z.of_nat ci * cs)%Z).
  pose (Pres := fun st st' => forall x co ci, isnode x -> (0 <= x)%Z -> co < nc -> ci < nc -> gd st x co ci -> gd st' x co ci).
  assert (Prefl : forall st, Pres st st) by (intros st x co ci; auto).
  assert (Ptr : forall a b c, Pres a b -> Pres b c -> Pres a c). { intros a b c H1 H2 x co ci V1 V2 V3 V4 G. apply H2; auto. }
  pose (Good := fun (x : option nat) (st : list Z * list Z) => match x with None => True | Some i => forall r e n co ci, diag_wf R k Jmin chk D bs bi bo s N i r -> e < u_ne (D r) -> n < u_es (D r) -> co < nc -> ci < nc ->
    bpos nc cs (offs (D r) e n) co ci < N * nc /\ gd st (offs (D r) e n) co ci end).
  assert (Hoff : forall i r e n, In i l -> diag_wf R k Jmin chk D bs bi bo s N i r -> e < u_ne (D r) -> n < u_es (D r) ->
    isnode (offs (D r) e n) /\ (0 <= offs (D r) e n)%Z /\ forall co ci, co < nc -> ci < nc -> bpos nc cs (offs (D r) e n) co ci < N * nc).
  { intros i r e n Hi Hd He Hn. destruct (Hgood i r Hi Hd) as (Hno & (Hso & Hfit & _) & En & Ec). destruct Hd as (b & Hf & _ & _ & _ & _ & HN).
    destruct (goodI R k Jmin chk D bs _ _ _ _ _ _ _ Hf) as (Hl0 & Hr0 & _). destruct (posI R k Jmin chk D bs _ _ _ _ _ _ _ Hf) as (P1 & P2).
    destruct (d_offsets (D r)) as [off|] eqn:Ho; [|congruence].
    assert (Hlen : length off = u_ne (D r) * u_es (D r)). { unfold lengths_ok, d_offsets in *. destruct (u_kind (D r)); inversion Ho; subst; tauto. }
    split; [apply Hno; auto|]. assert (Hso' : d_offsets (D r) <> None) by congruence.
    pose proof (Hr0 e 0 n He P2 Hn) as B0. rewrite col_offs in B0 by auto. split; [lia|]. intros co ci Hco Hci.
    pose proof (pb_range (D r) off Ho Hlen Hr0 P2 Hfit e (co * nc + ci) n He) as B. cbn [pb_desc u_nc u_es u_lsize] in B. rewrite En, HN in B. specialize (B ltac:(nia) Hn).
    rewrite pb_col in B by auto. unfold bpos. replace (bshift nc cs) with (pb_shift (D r)) by (unfold pb_shift, bshift; rewrite En, Ec; reflexivity). nia. }
  destruct (rfold_est _ _ (fun x st => match x with Some i => pb_rows chk D s nc i st | None => Err ERR_INCOMPATIBLE end) Inv Pres Good (map Some l)) with (b := (repeat 0%Z (N * nc), repeat 0%Z (N * nc)))
    as ((rows, cols) & E & (L1 & L2) & _ & HG); auto.
  - intros a b c Ha HP HG. destruct a as [i|]; cbn [Good] in *; auto. intros r e n co ci Hd He Hn Hco Hci. apply in_map_iff in Ha. destruct Ha as (i' & Ei & Hi). inversion Ei; subst i'.
    destruct (Hoff i r e n Hi Hd He Hn) as (V1 & V2 & _). destruct (HG r e n co ci Hd He Hn Hco Hci) as (G1 & G2). split; auto.
  - intros a st Ha HI. apply in_map_iff in Ha. destruct Ha as (i & <- & Hi). destruct (Hw i Hi) as (r & Hd & Hno & (Hso & Hfit & rs & Hcr) & En & Ec).
    destruct (Hr1 i r Hi Hd) as (Er & _). unfold pb_rows. rewrite Er. cbn [rbind]. assert (Hoff' := Hoff i r). destruct (d_offsets (D r)) as [off|] eqn:Ho; [|congruence]. rewrite Hcr. cbn [rbind].
    assert (Hlen : length off = u_ne (D r) * u_es (D r)).
    { destruct Hd as (b & Hf & _). destruct (goodI R k Jmin chk D bs _ _ _ _ _ _ _ Hf) as (Hl0 & _). unfold lengths_ok, d_offsets in *. destruct (u_kind (D r)); inversion Ho; subst; tauto. }
    assert (Hx : forall m, m < u_ne (D r) * u_es (D r) -> nth m off 0%Z = offs (D r) (m / u_es (D r)) (m mod u_es (D r)) /\ m / u_es (D r) < u_ne (D r) /\ m mod u_es (D r) < u_es (D r)).
    { intros m Hm. assert (Pe : 0 < u_es (D r)) by nia. split; [|split; [apply Nat.div_lt_upper_bound; lia|apply Nat.mod_upper_bound; lia]].
      unfold offs. rewrite Ho. f_equal. pose proof (Nat.div_mod m (u_es (D r)) ltac:(lia)). lia. }
    destruct (rfold_est nat _ (fun m => rfold (seq 0 nc) (fun co => rfold (seq 0 nc) (fun ci st =>
        o <~ og off m ;; let p := (o * Z.of_nat (pb_shift (D r)) + Z.of_nat (co * nc + ci))%Z in
        rows <~ setat (fst st) p (o + Z.of_nat co * u_cs (D r))%Z ;; cols <~ setat (snd st) p (o + Z.of_nat ci * u_cs (D r))%Z ;; Ok (rows, cols)))) Inv Pres
      (fun m st => forall co ci, co < nc -> ci < nc -> gd st (nth m off 0%Z) co ci) (seq 0 (u_ne (D r) * u_es (D r)))) with (b := st) as (st' & E & I' & P' & G'); auto.
    + intros m b c Hm HP HG co ci Hco Hci. apply in_seq in Hm. destruct (Hx m ltac:(lia)) as (Ex & B1 & B2). destruct (Hoff' _ _ Hi Hd B1 B2) as (V1 & V2 & _). rewrite <- Ex in V1, V2. apply HP; auto.
    + intros m b Hm HI'. apply in_seq in Hm. destruct (Hx m ltac:(lia)) as (Ex & B1 & B2). destruct (Hoff' _ _ Hi Hd B1 B2) as (V1 & V2 & V3). rewrite <- Ex in V1, V2, V3.
      destruct (rfold_est nat _ (fun co => rfold (seq 0 nc) (fun ci st =>
        o <~ og off m ;; let p := (o * Z.of_nat (pb_shift (D r)) + Z.of_nat (co * nc + ci))%Z in
        rows <~ setat (fst st) p (o + Z.of_nat co * u_cs (D r))%Z ;; cols <~ setat (snd st) p (o + Z.of_nat ci * u_cs (D r))%Z ;; Ok (rows, cols))) Inv Pres
        (fun co st => forall ci, ci < nc -> gd st (nth m off 0%Z) co ci) (seq 0 nc)) with (b := b) as (b' & E & I' & P' & G'); auto.
      * intros co a c Hco HP HG ci Hci. apply in_seq in Hco. apply HP; auto. lia.
      * intros co a Hco HIa. apply in_seq in Hco.
        destruct (rfold_est nat _ (fun ci st =>
          o <~ og off m ;; let p := (o * Z.of_nat (pb_shift (D r)) + Z.of_nat (co * nc + ci))%Z in
          rows <~ setat (fst st) p (o + Z.of_nat co * u_cs (D r))%Z ;; cols <~ setat (snd st) p (o + Z.of_nat ci * u_cs (D r))%Z ;; Ok (rows, cols)) Inv Pres
          (fun ci st => gd st (nth m off 0%Z) co ci) (seq 0 nc)) with (b := a) as (b' & E & I' & P' & G'); auto.
        -- intros ci a' c Hci HP HG. apply in_seq in Hci. apply HP; auto; lia.
        -- intros ci (rw, cl) Hci (LI1 & LI2). cbn [fst snd] in LI1, LI2. apply in_seq in Hci. rewrite (og_nth off 0%Z) by lia. cbn [rbind fst snd].
           replace (pb_shift (D r)) with (bshift nc cs) by (unfold pb_shift, bshift; rewrite En, Ec; reflexivity). rewrite Ec.
           set (x := nth m off 0%Z) in *. assert (Ep : Z.to_nat (x * Z.of_nat (bshift nc cs) + Z.of_nat (co * nc + ci)) = bpos nc cs x co ci). { unfold bpos. rewrite Z2Nat.inj_add, Nat2Z.id by nia. reflexivity. }
           assert (Hlt : bpos nc cs x co ci < N * nc) by (apply V3; lia).
           unfold setat. destruct (Z.ltb_spec (x * Z.of_nat (bshift nc cs) + Z.of_nat (co * nc + ci)) 0) as [Hneg|_]; [exfalso; nia|]. rewrite Ep.
           rewrite set_Some by lia. cbn [ofopt rbind]. rewrite set_Some by lia. cbn [ofopt rbind]. eexists. split; [reflexivity|].
           split; [|split].
           ++ split; cbn [fst snd]; rewrite upd_length; auto.
           ++ intros x' co' ci' W1 W2 W3 W4 (G1 & G2). unfold gd. cbn [fst snd] in *. rewrite !nth_upd' by lia.
              destruct (Nat.eqb_spec (bpos nc cs x' co' ci') (bpos nc cs x co ci)) as [Eq|Eq]; auto.
              destruct (Hinj x' x co' ci' co ci) as (-> & -> & ->); auto; lia.
           ++ unfold gd. cbn [fst snd]. rewrite !nth_upd' by lia. rewrite Nat.eqb_refl. auto.
        -- exists b'. split; [exact E|]. split; auto. split; auto. intros ci Hci. apply G'. apply in_seq. lia.
      * exists b'. split; [exact E|]. split; auto. split; auto. intros co ci Hco Hci. apply G'; auto. apply in_seq. lia.
    + exists st'. split; [exact E|]. split; auto. split; auto. intros r' e n co ci Hd' He Hn Hco Hci.
      destruct (Hr1 i r' Hi Hd') as (Er' & _). assert (r' = r) by congruence. subst r'. split; [apply (Hoff' e n Hi Hd He Hn); auto|].
      assert (Em : e * u_es (D r) + n < u_ne (D r) * u_es (D r)) by nia. specialize (G' (e * u_es (D r) + n) ltac:(apply in_seq; lia) co ci Hco Hci).
      unfold offs. rewrite Ho. exact G'.
  - split; cbn [fst snd]; apply repeat_length.
  - exists rows, cols. split; [exact E|]. split; [exact L1|]. split; [exact L2|]. split; [|exact Hinj].
    intros i r e n co ci Hi Hd He Hn Hco Hci. cbv zeta. specialize (HG (Some i) ltac:(apply in_map; auto)). cbn [Good] in HG. destruct (HG r e n co ci Hd He Hn Hco Hci) as (G1 & G2 & G3). auto.
Qed.
Print Assumptions C36_block_symbolic.

(** *** errors *)
(** Operators that are not square, and active fields with different restrictions for the input and the output. *)
Theorem C36_errors : forall (R : Rng) k Jmin junk chk D bs bi bo jl h (s : cstate R) i rin rout bI bO pb y,
  history R k Jmin junk chk D bs h s -> full_wf R k Jmin chk D bs (c_ops s i) (bi i) (bo i) rin rout bI bO -> passive_ok R D (c_ops s i) (c_vm s) ->
  (u_lsize (D rin) <> u_lsize (D rout) ->
     assemble_diag k junk chk D bs bi bo jl pb (CLeaf i) (s, y) = Err ERR_DIMENSION /\ add_diag k junk chk D bs bi bo jl pb (CLeaf i) (s, y) = Err ERR_DIMENSION /\
     pb_symbolic chk D bi s (CLeaf i) = Err ERR_DIMENSION) /\
  (u_lsize (D rin) = u_lsize (D rout) -> rin <> rout ->
     (exists j j', j < length (o_in (c_ops s i)) /\ j' < length (o_out (c_ops s i)) /\ is_active (fld (o_in (c_ops s i)) j) = true /\ is_active (fld (o_out (c_ops s i)) j') = true /\ bi i j = bo i j') ->
     assemble_diag k junk chk D bs bi bo jl pb (CLeaf i) (s, y) = Err ERR_UNSUPPORTED /\ add_diag k junk chk D bs bi bo jl pb (CLeaf i) (s, y) = Err ERR_UNSUPPORTED).
Proof.
  intros R k Jmin junk chk D bs bi bo jl h s i rin rout bI bO pb y Hh Hf Hp.
  pose proof (act_lsize_ok R D _ _ _ _ _ (fw_in _ _ _ _ _ _ _ _ _ _ _ _ _ Hf)) as Ei. pose proof (act_lsize_ok R D _ _ _ _ _ (fw_out _ _ _ _ _ _ _ _ _ _ _ _ _ Hf)) as Eo.
  assert (Es : square D s (CLeaf i) = (u_lsize (D rin) =? u_lsize (D rout))). { unfold square. cbn [tree_sizes fst snd]. rewrite Ei, Eo. reflexivity. }
  split.
  - intros Hne. apply Nat.eqb_neq in Hne. rewrite Hne in Es. unfold assemble_diag, pb_symbolic. cbn [add_diag fst]. rewrite Es. auto.
  - intros Heq Hne (j & j' & Hj & Hj' & Ha & Ha' & Eb). rewrite Heq, Nat.eqb_refl in Es.
    assert (Hpos : o_ne (c_ops s i) =? 0 = false). { destruct (fw_asm _ _ _ _ _ _ _ _ _ _ _ _ _ Hf) as (Ho & _). pose proof (ow_ne Ho). apply Nat.eqb_neq. lia. }
    pose proof (history_ok R k Jmin junk chk D bs h s Hh) as Hinv. destruct (call_ok R k Jmin junk chk D bs h s jl i Hinv Hp) as (s1 & v & Ebu & _).
    pose proof (fw_in _ _ _ _ _ _ _ _ _ _ _ _ _ Hf) as HI. pose proof (fw_out _ _ _ _ _ _ _ _ _ _ _ _ _ Hf) as HO.
    destruct (groups_ok R D _ _ _ rin bI (Hwi R k Jmin chk D bs _ _ _ _ _ _ _ Hf) HI (proj2 (posI R k Jmin chk D bs _ _ _ _ _ _ _ Hf))) as (idi & EGi).
    destruct (groups_ok R D _ _ _ rout bO (Hwo R k Jmin chk D bs _ _ _ _ _ _ _ Hf) HO (proj2 (posO R k Jmin chk D bs _ _ _ _ _ _ _ Hf))) as (ido & EGo).
    pose proof (group_ids R (bi i) _ j Hj Ha) as G1. pose proof (group_ids R (bo i) _ j' Hj' Ha') as G2. rewrite EGi in G1. rewrite EGo in G2. cbn in G1, G2. destruct G1 as [G1|[]]. destruct G2 as [G2|[]].
    assert (Eid : ido = idi) by congruence. rewrite Eid in EGo.
    assert (E : forall y, single_diag k junk chk D bs bi bo jl pb i (s, y) = Err ERR_UNSUPPORTED).
    { intros y0. unfold single_diag. cbn [fst snd]. rewrite Ebu. cbn [rbind]. rewrite EGi, EGo. unfold pairs. cbn [length Nat.leb flat_map find g_id app]. rewrite Nat.eqb_refl. cbn [app rfold fst snd g_rstr].
      apply Nat.eqb_neq in Hne. rewrite Hne. reflexivity. }
    unfold assemble_diag. cbn [add_diag fst snd]. rewrite Es, Hpos. cbn [negb]. rewrite !E. auto.
Qed.
Print Assumptions C36_errors.

(** *** the theorems at work *)
Definition unit_at (n q : nat) : list Z := map (fun j => if j =? q then 1%Z else 0%Z) (seq 0 n).
(** entry [r] of the result of CeedOperatorApply for the unit vector [q] of length [n] *)
Definition matrix_at (k : kernel Zrng) (D : nat -> udesc) (bs : option nat) (o : oper Zrng) (n r q : nat) : option Z :=
  match single_apply k junkZ true D bs o None (fun v => match v with 1 => mkVV n (Some (unit_at n q : list Zrng)) 0%Z | 2 => mkVV n (Some (repeat 8%Z n : list Zrng)) 0%Z | v => ex_vm v end) (Some 1) (Some 2) with
  | Ok (_, vm') => match vv_data (vm' 2) with Some w => nth_error w r | None => None end
  | _ => None
  end.
Definition diag_data (r : res (cstate Zrng * list Zrng)) : option (list Z) := match r with Ok (_, y) => Some y | _ => None end.
Lemma ex_distinct : distinct (ex_D 0).
Proof.
  intros e c n c' n' He Hc Hc' Hn Hn'. simpl in He, Hc, Hc', Hn, Hn'. assert (c = 0) by lia. assert (c' = 0) by lia. subst.
  do 3 (destruct e as [|e]; [do 2 (destruct n as [|n]; [do 2 (destruct n' as [|n']; [vm_compute; intuition congruence|]); lia|]); lia|]). lia.
Qed.
Example C36_ex : forall bs i, ex_bs2 bs -> diag_wf Zrng (@contract_avx Zrng) 2 true ex_D bs one_ptr one_ptr ex_cs 4 i 0 /\ distinct (ex_D 0).
Proof. intros bs i Hb. split; [|apply ex_distinct]. exists (BT ex_b1). split; [apply ex_full; auto|]. repeat split. Qed.
(** the diagonal of the matrix of C35_ex_run; added to a vector, and twice for the composite operator *)
Example C36_ex_run : forall bs, ex_bs2 bs ->
  diag_data (assemble_diag (@contract_avx Zrng) junkZ true ex_D bs one_ptr one_ptr (fun _ => 5%Z) false (CLeaf 0) (ex_cs, [9; 9; 9; 9]%Z)) = Some [17; 62; 110; 60]%Z /\
  diag_data (add_diag (@contract_avx Zrng) junkZ true ex_D bs one_ptr one_ptr (fun _ => 5%Z) false (CLeaf 0) (ex_cs, [9; 9; 9; 9]%Z)) = Some [26; 71; 119; 69]%Z /\
  diag_data (assemble_diag (@contract_avx Zrng) junkZ true ex_D bs one_ptr one_ptr (fun _ => 5%Z) false (CComp [CLeaf 0; CComp [CLeaf 1]]) (ex_cs, [9; 9; 9; 9]%Z)) = Some [34; 124; 220; 120]%Z /\
  map (fun q => matrix_at (@contract_avx Zrng) ex_D bs ex_op 4 q q) (seq 0 4) = [Some 17; Some 62; Some 110; Some 60]%Z.
Proof. intros bs [-> | ->]; repeat split; vm_compute; reflexivity. Qed.

(** a mass operator with one or two coupled components on one element with two nodes, restriction [d] *)
Definition ex_b3 (nc : nat) : tbasis Zrng := @mkT Zrng 1 nc 2 2 [1;1; 0;1]%Z [-1;1; -1;1]%Z [1;1]%Z false None.
Definition pt3 (nc : nat) (ins : list (list Zrng)) : list (list Zrng) :=
  let u := nth 0 ins [] in if nc =? 2 then [[vf u 0 + 2 * vf u 1; 3 * vf u 0 + 4 * vf u 1]]%Z else [[vf u 0]].
Definition ex_op3 (d : udesc) : oper Zrng :=
  mkOp [mkOF (u_nc d) EvInterp (Some 0) (Some (BT (ex_b3 (u_nc d)))) VAct] [mkOF (u_nc d) EvInterp (Some 0) (Some (BT (ex_b3 (u_nc d)))) VAct] 1 2 false 1 (pt3 (u_nc d)).
Definition cs3 (d : udesc) : cstate Zrng := new_cs (fun _ => ex_op3 d) ex_vm.
Definition ok3 (d : udesc) : Prop := rstr_wf true None (ex_op3 d) d /\ u_es d = 2 /\ (u_nc d = 1 \/ u_nc d = 2).
Lemma ex3 : forall d, ok3 d -> history Zrng (@contract_ref Zrng) 0 junkZ true (fun _ => d) None [] (cs3 d) /\
  full_wf Zrng (@contract_ref Zrng) 0 true (fun _ => d) None (ex_op3 d) (one_ptr 0) (one_ptr 0) 0 0 (Some (BT (ex_b3 (u_nc d)))) (Some (BT (ex_b3 (u_nc d)))) /\
  passive_ok Zrng (fun _ => d) (ex_op3 d) ex_vm.
Proof.
  intros d (Hr & He & Hn).
  assert (Hb : b_wf 0 (BT (ex_b3 (u_nc d)))). { simpl. unfold t_wf, sizes_ok. simpl. repeat split; try lia; try discriminate. }
  assert (Hf : field_wf (fun _ => d) 0 true None (ex_op3 d) (mkOF (u_nc d) EvInterp (Some 0) (Some (BT (ex_b3 (u_nc d)))) VAct)).
  { unfold field_wf. cbn [f_mode]. exists 0, (BT (ex_b3 (u_nc d))). eexists. split; [reflexivity|]. split; [reflexivity|]. split; [exact Hr|]. split; [exact Hb|]. split; [reflexivity|]. split; [rewrite He; reflexivity|].
    split; [reflexivity|]. split; [reflexivity|]. cbn [f_size q_comp b_fe BasisModel.b_nc ex_b3 t_nc b_dim t_dim]. lia. }
  assert (Ho : op_wf (fun _ => d) (@contract_ref Zrng) 0 true None (ex_op3 d)).
  { constructor; try (simpl; lia); try (simpl; discriminate); try apply ref_ok.
    - intros i Hi. simpl in Hi. destruct i; [|lia]. exact Hf.
    - intros i Hi. simpl in Hi. destruct i; [|lia]. split; [exact Hf|discriminate]. }
  assert (Hc : 0 < length (comps (o_in (ex_op3 d))) /\ 0 < length (comps (o_out (ex_op3 d)))). { unfold ex_op3. destruct Hn as [-> | ->]; simpl; lia. }
  assert (Ha : asm_wf Zrng (@contract_ref Zrng) 0 true (fun _ => d) None (ex_op3 d)).
  { split; [exact Ho|]. split; [|split; [apply Hc|split; [apply Hc|split; [reflexivity|]]]].
    - intros i Hi Hm. simpl in Hi. destruct i; [discriminate|lia].
    - intros i j Hi Hj. simpl in Hi, Hj. lia. }
  assert (Hs : one_side (fun _ => d) 2 (one_ptr 0) (o_in (ex_op3 d)) 0 (Some (BT (ex_b3 (u_nc d))))).
  { constructor; [exists 0; split; [simpl; lia|reflexivity]| |reflexivity|reflexivity|].
    - intros j Hj _. simpl in Hj. destruct j; [|lia]. split; reflexivity.
    - intros j j' Hj Hj' _ _ _. simpl in Hj, Hj'. lia. }
  split; [|split].
  - apply h_new; [|apply ex_mem_ok]. intros _. exact Ha.
  - constructor; auto.
    + intros pas a1 a2 t j c Hj _ Hc'. simpl in Hj. destruct j; [|lia]. unfold qf_at, ex_op3, pt3, fill, vf in *. simpl in Hc'. destruct Hn as [E|E]; rewrite E in *.
      * destruct c; [|lia]. cbn -[Z.add Z.mul]. ring.
      * destruct c as [|[|c]]; try lia; cbn -[Z.add Z.mul]; ring.
    + destruct Hr as (_ & _ & _ & Hr & _). exact Hr.
    + destruct Hr as (_ & _ & _ & Hr & _). exact Hr.
    + lia.
  - intros i Hi Hm Hact. simpl in Hi. destruct i; [discriminate|lia].
Qed.
Ltac ok3 := split; [|split; [reflexivity|simpl; lia]]; split; [repeat split|]; split; [|split; [unfold curl_ok; simpl; try exact I; intros; lia|split; [eexists; reflexivity|reflexivity]]];
  intros e c n He Hc Hn; simpl in He, Hc, Hn; destruct e; [|lia]; do 2 (try (destruct c as [|c]; [do 2 (destruct n as [|n]; [vm_compute; intuition congruence|]); lia|])); lia.
Definition d_blk : udesc := mkU 1 2 2 1%Z 4 (UStandard [0; 2]%Z).
Definition isnode3 (x : Z) : Prop := x = 0%Z \/ x = 2%Z.
Example C36_ex_blocks : block_wf Zrng (@contract_ref Zrng) 0 true (fun _ => d_blk) None one_ptr one_ptr (cs3 d_blk) isnode3 4 2 1 0 /\ flat (CLeaf 0) [0].
Proof.
  assert (H : ok3 d_blk) by ok3. split; [|reflexivity]. exists 0. split; [|split; [|split; [|split; reflexivity]]].
  - exists (BT (ex_b3 2)). split; [apply (ex3 d_blk H)|]. repeat split.
  - split; [|split].
    + intros e n He Hn. simpl in He, Hn. destruct e; [|lia]. destruct n as [|[|n]]; [left|right|lia]; reflexivity.
    + unfold isnode3. simpl. intros x x' c c' Hx Hx' Hc Hc' E. lia.
    + intros e n n' He Hn Hn'. simpl in He, Hn, Hn'. destruct e; [|lia]. destruct n as [|[|n]], n' as [|[|n']]; try lia; try reflexivity; vm_compute; congruence.
  - split; [discriminate|]. split; [simpl; congruence|]. eexists. reflexivity.
Qed.
Example C36_ex_blocks_run :
  diag_data (assemble_diag (@contract_ref Zrng) junkZ true (fun _ => d_blk) None one_ptr one_ptr (fun _ => 5%Z) true (CLeaf 0) (cs3 d_blk, repeat 9%Z 8)) = Some [1; 2; 3; 4; 2; 4; 6; 8]%Z /\
  pb_symbolic true (fun _ => d_blk) one_ptr (cs3 d_blk) (CLeaf 0) = Ok ([0; 0; 1; 1; 2; 2; 3; 3], [0; 1; 0; 1; 2; 3; 2; 3])%Z /\
  map (fun rc => matrix_at (@contract_ref Zrng) (fun _ => d_blk) None (ex_op3 d_blk) 4 (fst rc) (snd rc)) (combine [0; 0; 1; 1; 2; 2; 3; 3] [0; 1; 0; 1; 2; 3; 2; 3]) =
    [Some 1; Some 2; Some 3; Some 4; Some 2; Some 4; Some 6; Some 8]%Z.
Proof. repeat split; vm_compute; reflexivity. Qed.

(** *** findings *)
Notation diag3 pb d n := (diag_data (assemble_diag (@contract_ref Zrng) junkZ true (fun _ => d) None one_ptr one_ptr (fun _ => 0%Z) pb (CLeaf 0) (cs3 d, repeat 9%Z n))).
Notation true3 d n := (map (fun q => matrix_at (@contract_ref Zrng) (fun _ => d) None (ex_op3 d) n q q) (seq 0 n)).
(** 1. Tridiagonal transformations: the element diagonals are transformed with absolute values, as if they were vectors. *)
Theorem C36_curl_refuted : exists d, ok3 d /\ distinct d /\ diag3 false d 2 = Some [1; 3]%Z /\ true3 d 2 = [Some 1; Some 5]%Z.
Proof.
  exists (mkU 1 2 1 1%Z 2 (UCurl [0; 1] [0;1;1; 0;1;0])%Z). split; [ok3|]. split; [|split; vm_compute; reflexivity].
  intros e c n c' n' He Hc Hc' Hn Hn'. simpl in *. assert (c = 0) by lia. assert (c' = 0) by lia. assert (e = 0) by lia. subst. destruct n as [|[|n]], n' as [|[|n']]; try lia; vm_compute; intuition congruence.
Qed.
(** 2. An element with two nodes at the same place of the L-vector: the entries between the two nodes are left out. *)
Theorem C36_repeated_refuted : exists d, ok3 d /\ not_curl d /\ diag3 false d 1 = Some [3]%Z /\ true3 d 1 = [Some 5]%Z.
Proof. exists (mkU 1 2 1 1%Z 1 (UStandard [0; 0]%Z)). split; [ok3|]. split; [exact I|]. split; vm_compute; reflexivity. Qed.
(** 3. Input and output fields with different basis objects (here with the same matrices): nothing is assembled; with two bases
    for both the terms between the bases are left out. *)
Theorem C36_bases_refuted : exists bi bo bi' bo' : nat -> nat -> nat,
  (forall bs, ex_bs2 bs -> history Zrng (@contract_avx Zrng) 2 junkZ true ex_D bs [] ex_cs /\ linear ex_op /\ map (fun q => matrix_at (@contract_avx Zrng) ex_D bs ex_op 4 q q) (seq 0 4) = [Some 17; Some 62; Some 110; Some 60]%Z /\
     diag_data (assemble_diag (@contract_avx Zrng) junkZ true ex_D bs bi bo (fun _ => 5%Z) false (CLeaf 0) (ex_cs, [9; 9; 9; 9]%Z)) = Some [0; 0; 0; 0]%Z /\
     diag_data (assemble_diag (@contract_avx Zrng) junkZ true ex_D bs bi' bo' (fun _ => 5%Z) false (CLeaf 0) (ex_cs, [9; 9; 9; 9]%Z)) = Some [14; 58; 106; 59]%Z).
Proof.
  exists (fun _ _ => 0), (fun _ _ => 1), (fun _ j => j - 1), (fun _ j => j). intros bs Hb. split; [apply (C35_ex bs Hb)|]. split; [apply (C33_ex bs Hb)|].
  destruct Hb as [-> | ->]; repeat split; vm_compute; reflexivity.
Qed.
(** 4. Active fields without basis (CEED_EVAL_NONE): nothing is assembled. *)
Definition op_none : oper Zrng := mkOp [mkOF 1 EvNone (Some 0) None VAct] [mkOF 1 EvNone (Some 0) None VAct] 1 2 false 1 (fun ins => [[2 * vf (nth 0 ins []) 0]]%Z).
Definition d_none : udesc := mkU 1 2 1 1%Z 2 (UStandard [0; 1]%Z).
Theorem C36_none_refuted :
  full_wf Zrng (@contract_ref Zrng) 0 true (fun _ => d_none) None op_none (one_ptr 0) (one_ptr 0) 0 0 None None /\
  history Zrng (@contract_ref Zrng) 0 junkZ true (fun _ => d_none) None [] (new_cs (fun _ => op_none) ex_vm) /\
  diag_data (assemble_diag (@contract_ref Zrng) junkZ true (fun _ => d_none) None one_ptr one_ptr (fun _ => 0%Z) false (CLeaf 0) (new_cs (fun _ => op_none) ex_vm, [9; 9]%Z)) = Some [0; 0]%Z /\
  map (fun q => matrix_at (@contract_ref Zrng) (fun _ => d_none) None op_none 2 q q) (seq 0 2) = [Some 2; Some 2]%Z.
Proof.
  assert (Hr : rstr_wf true None op_none d_none).
  { split; [reflexivity|]. split; [|split; [exact I|split; [eexists; reflexivity|reflexivity]]]. intros e c n He Hc Hn. simpl in *. assert (e = 0) by lia. assert (c = 0) by lia. subst. destruct n as [|[|n]]; try lia; vm_compute; intuition congruence. }
  assert (Hf : field_wf (fun _ => d_none) 0 true None op_none (mkOF 1 EvNone (Some 0) None VAct)).
  { unfold field_wf. cbn [f_mode]. exists 0. split; [reflexivity|]. split; [exact Hr|]. split; reflexivity. }
  assert (Ha : asm_wf Zrng (@contract_ref Zrng) 0 true (fun _ => d_none) None op_none).
  { split; [|split; [|split; [simpl; lia|split; [simpl; lia|split; [reflexivity|]]]]].
    - constructor; try (simpl; lia); try (simpl; discriminate); try apply ref_ok.
      + intros i Hi. simpl in Hi. destruct i; [|lia]. exact Hf.
      + intros i Hi. simpl in Hi. destruct i; [|lia]. split; [exact Hf|discriminate].
    - intros i Hi Hm. simpl in Hi. destruct i; [discriminate|lia].
    - intros i j Hi Hj. simpl in Hi, Hj. lia. }
  assert (Hs : one_side (fun _ => d_none) 2 (one_ptr 0) (o_in op_none) 0 None).
  { constructor; [exists 0; split; [simpl; lia|reflexivity]| |reflexivity| |].
    - intros j Hj _. simpl in Hj. destruct j; [|lia]. split; reflexivity.
    - reflexivity.
    - intros j j' Hj Hj' _ _ _. simpl in Hj, Hj'. lia. }
  split; [|split; [|split; vm_compute; reflexivity]].
  - constructor; auto; try (destruct Hr as (_ & _ & _ & Hr & _); exact Hr); try lia.
    intros pas a1 a2 t j c Hj _ Hc'. simpl in Hj. destruct j; [|lia]. simpl in Hc'. destruct c; [|lia]. unfold qf_at, op_none, fill, vf. cbn -[Z.add Z.mul]. ring.
  - apply h_new; [|apply ex_mem_ok]. intros _. exact Ha.
Qed.
(** 5. An operator without elements: the vector is not set to zero although the matrix is zero. *)
Theorem C36_empty_refuted : o_ne ex_op0 = 0 /\
  diag_data (assemble_diag (@contract_ref Zrng) junkZ true ex_D0 None one_ptr one_ptr (fun _ => 0%Z) false (CLeaf 0) (new_cs (fun _ => ex_op0) ex_vm, [9; 8; 7; 6]%Z)) = Some [9; 8; 7; 6]%Z.
Proof. split; reflexivity. Qed.
(** 6. Point blocks with components at a stride that is neither 1 nor the number of nodes: the places of the blocks can be outside
    of the vector; the restriction of the blocks is not created.  Strided active restrictions: the offsets are read through a null
    pointer. *)
Theorem C36_block_layout_refuted : exists d d', ok3 d /\ ok3 d' /\ distinct d /\ distinct d' /\ not_curl d /\ not_curl d' /\
  (forall y, assemble_diag (@contract_ref Zrng) junkZ true (fun _ => d) None one_ptr one_ptr (fun _ => 0%Z) true (CLeaf 0) (cs3 d, y) = Err ERR_BACKEND) /\
  pb_symbolic true (fun _ => d) one_ptr (cs3 d) (CLeaf 0) = Err ERR_BACKEND /\ true3 d 8 = [Some 1; Some 0; Some 4; Some 0; Some 0; Some 2; Some 0; Some 8]%Z /\
  (forall y, assemble_diag (@contract_ref Zrng) junkZ true (fun _ => d') None one_ptr one_ptr (fun _ => 0%Z) true (CLeaf 0) (cs3 d', y) = UB) /\
  pb_symbolic true (fun _ => d') one_ptr (cs3 d') (CLeaf 0) = UB /\ true3 d' 4 = [Some 1; Some 4; Some 2; Some 8]%Z.
Proof.
  exists (mkU 1 2 2 2%Z 8 (UStandard [0; 5]%Z)), (mkU 1 2 2 1%Z 4 (UStrided 2 1 4)). split; [ok3|]. split; [ok3|]. split; [|split; [|split; [exact I|split; [exact I|]]]].
  - intros e c n c' n' He Hc Hc' Hn Hn'. simpl in *. assert (e = 0) by lia. subst. destruct n as [|[|n]], n' as [|[|n']], c as [|[|c]], c' as [|[|c']]; try lia; vm_compute; intuition congruence.
  - intros e c n c' n' He Hc Hc' Hn Hn'. simpl in *. assert (e = 0) by lia. subst. destruct n as [|[|n]], n' as [|[|n']], c as [|[|c]], c' as [|[|c']]; try lia; vm_compute; intuition congruence.
  - repeat split; try (vm_compute; reflexivity).
Qed.
(** 7. A node of the L-vector that belongs to no element: its rows and columns are the pair (0, 0), several times. *)
Theorem C36_block_pairs_refuted : exists d, ok3 d /\ distinct d /\ not_curl d /\
  pb_symbolic true (fun _ => d) one_ptr (cs3 d) (CLeaf 0) = Ok ([0; 0; 1; 1;  0; 0; 0; 0;  4; 4; 5; 5], [0; 1; 0; 1;  0; 0; 0; 0;  4; 5; 4; 5])%Z.
Proof.
  exists (mkU 1 2 2 1%Z 6 (UStandard [0; 4]%Z)). split; [ok3|]. split; [|split; [exact I|vm_compute; reflexivity]].
  intros e c n c' n' He Hc Hc' Hn Hn'. simpl in *. assert (e = 0) by lia. subst. destruct n as [|[|n]], n' as [|[|n']], c as [|[|c]], c' as [|[|c']]; try lia; vm_compute; intuition congruence.
Qed.
Print Assumptions C36_curl_refuted.
Print Assumptions C36_repeated_refuted.
Print Assumptions C36_bases_refuted.
Print Assumptions C36_none_refuted.
Print Assumptions C36_empty_refuted.
Print Assumptions C36_block_layout_refuted.
Print Assumptions C36_block_pairs_refuted.
