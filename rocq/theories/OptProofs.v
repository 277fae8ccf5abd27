(** * The optimised operator driver simulates the blocked reference driver block by block *)
From Coq Require Import List ZArith Lia Bool Arith.
From Verif Require Import Prelude RstrModel RstrSpec RstrProofs RstrMain RstrProps TensorModel BasisModel BasisProps TensorMain Digits OpModel OpSpec OpLists OpProofs OpMain OptModel.
Import ListNotations.
Set Implicit Arguments.

(** ** folds that run side by side *)
Lemma rfold_sim : forall I S T (Rel : S -> T -> Prop) (f : I -> S -> res S) (g : I -> T -> res T) l s s' t,
  rfold l f s = Ok s' -> Rel s t ->
  (forall i s1 s1' t1, In i l -> f i s1 = Ok s1' -> Rel s1 t1 -> exists t1', g i t1 = Ok t1' /\ Rel s1' t1') ->
  exists t', rfold l g t = Ok t' /\ Rel s' t'.
Proof.
  intros I S T Rel f g l. induction l as [|i l IH]; intros s s' t E H Hst; simpl in *.
  - inversion E; subst. exists t. auto.
  - destruct (f i s) as [s1| |] eqn:E1; try discriminate. cbn [rbind] in E.
    destruct (Hst i s s1 t (or_introl eq_refl) E1 H) as (t1 & E2 & H1). rewrite E2. cbn [rbind].
    apply (IH s1 s' t1 E H1). intros i' a b c Hi. apply Hst. auto.
Qed.
Lemma rbind_ok : forall A B (m : res A) (f : A -> res B) y, rbind m f = Ok y -> exists x, m = Ok x /\ f x = Ok y.
Proof. intros A B [x| |] f y H; simpl in H; try discriminate. exists x. auto. Qed.
Lemma be_ok : forall A (m : res A) x, be m = Ok x -> m = Ok x.
Proof. intros A [y|c|] x H; simpl in H; congruence. Qed.
Lemma og_some : forall A (l : list A) i x d, og l i = Ok x -> i < length l /\ nth i l d = x.
Proof.
  intros A l i x d H. destruct (Nat.lt_ge_cases i (length l)) as [Hi|Hi].
  - rewrite (og_nth l d) in H by auto. inversion H. auto.
  - exfalso. unfold og, get in H. assert (E : nth_error l i = None) by (apply nth_error_None; auto). rewrite E in H. discriminate.
Qed.

(** ** the duplicate loops *)
Section Dup.
Variable R : Rng.
Implicit Types fs : list (ofield R).
Lemma nnw0 : forall fs j, j < length fs -> nth j (map (fun f : ofield R => not_weight (f_mode f)) fs) false = not_weight (f_mode (fld fs j)).
Proof.
  intros fs j H. unfold fld. rewrite (nth_indep _ false (not_weight (f_mode (mkOF 0 EvNone None None VNo : ofield R)))) by (rewrite map_length; auto).
  exact (map_nth (fun f : ofield R => not_weight (f_mode f)) fs _ j).
Qed.
Lemma opt_dup_in_ok : forall fs,
  (forall i j, i < j < length fs -> sameE fs i j = true -> (forall h, h < i -> sameE fs h i = false) -> bm fs i = true) ->
  exists nn sl sk, opt_dup_in fs = Ok (nn, sl, sk) /\ length sl = length fs /\ length sk = length fs /\
  forall j, j < length fs -> nth j sl 0 = first (sameE fs) j /\ nth j sk false = (first (sameE fs) j <? j).
Proof.
  intros fs Hg. destruct (dup_in_ok fs Hg) as (nn & sl & sk & E & H). unfold dup_in in E.
  set (Rel := fun (a b : list bool * list nat * list bool) => let '(n1, s1, k1) := a in let '(n2, s2, k2) := b in
    s1 = s2 /\ k1 = k2 /\ length n1 = length fs /\ length n2 = length fs /\ forall j, nth j n1 false = true -> nth j n2 false = true).
  match type of E with rfold _ _ _ = _ => unfold opt_dup_in end.
  match goal with |- context [rfold _ ?G ?t] => destruct (@rfold_sim _ _ _ Rel _ G _ _ _ t E) as (((n2, s2), k2) & E2 & R2) end.
  - unfold Rel. rewrite !map_length. split; auto. split; auto. split; auto. split; auto. intros j Hj.
    destruct (Nat.lt_ge_cases j (length fs)) as [Hl|Hl].
    + rewrite nn0 in Hj by auto. rewrite nnw0 by auto. unfold bm in Hj. destruct (f_mode (fld fs j)); auto.
    + rewrite nth_overflow in Hj by (rewrite map_length; auto). discriminate.
  - intros i a a' b _ Ea Rab. apply (@rfold_sim _ _ _ Rel _ _ _ _ _ b Ea Rab). clear.
    intros j ((n1, s1), k1) a' ((n2, s2), k2) _ Ea (H1 & H2 & L1 & L2 & H3). unfold dup_in_step in *.
    apply rbind_ok in Ea. destruct Ea as (fi & -> & Ea). apply rbind_ok in Ea. destruct Ea as (fj & -> & Ea). cbn [rbind].
    destruct (same fi fj).
    + apply rbind_ok in Ea. destruct Ea as (b & Eb & Ea). destruct b; [|discriminate].
      apply (@og_some _ _ _ _ false) in Eb. destruct Eb as (Lb & Eb). apply H3 in Eb. rewrite (og_nth n2 false) by lia. cbn [rbind]. rewrite Eb.
      apply rbind_ok in Ea. destruct Ea as (s & Es & Ea). inversion Ea; subst a'. subst s2 k2. rewrite Es. cbn [rbind].
      eexists. split; [reflexivity|]. unfold Rel. rewrite !upd_length. split; [reflexivity|]. split; [reflexivity|]. split; [auto|]. split; [auto|]. intros j0.
      rewrite !nth_upd. rewrite L1, L2. destruct ((j0 =? j) && (j0 <? length fs)); auto.
    + inversion Ea; subst a'. eexists. split; [reflexivity|]. unfold Rel. auto.
  - exists n2, s2, k2. split; auto. destruct R2 as (<- & <- & _). auto.
Qed.

Section Out.
Variable fs : list (ofield R).
Notation n := (length fs).
Notation fst' := (first (sameE fs)).
Notation lst := (last (sameE fs) n).
Hypothesis Hg : forall i j, i < j < n -> sameE fs i j = true -> bm fs j = true.
Definition inv_opt (i j0 : nat) (st : list bool * list nat * list bool * list bool) : Prop :=
  let '(nn, sl, sk, ad) := st in length nn = n /\ length sk = n /\ length ad = n /\ length sl = n /\
  (forall j, j < n -> bm fs j = true -> nth j nn false = true) /\
  (forall j, j < n -> (nth j sk false = true <-> exists i', done fs i j0 i' j /\ sameE fs i' j = true)) /\
  (forall i', i' < n -> (nth i' ad false = true <-> exists j, done fs i j0 i' j /\ sameE fs i' j = true)) /\
  (forall j, j < n -> nth j sl 0 = if nth j sk false then lst j else j).

Lemma opt_dup_out_ok : exists nn sl sk ad, opt_dup_out fs = Ok (nn, sl, sk, ad) /\ length sl = n /\ length sk = n /\ length ad = n /\
  (forall j, j < n -> nth j sk false = (j <? lst j)) /\ (forall i, i < n -> nth i ad false = (fst' i <? i)) /\
  (forall j, j < n -> nth j sl 0 = lst j).
Proof.
  unfold opt_dup_out.
  match goal with |- context [rfold _ ?F ?s] => destruct (@rfold_down _ (fun i st => inv_opt i 0 st) F n s) as (st & E & H) end.
  - unfold inv_opt. rewrite map_length, !repeat_length, seq_length. split; auto. split; auto. split; auto. split; auto. split; [|split; [|split]].
    + intros j Hj Hb. rewrite nnw0 by auto. unfold bm in Hb. destruct (f_mode (fld fs j)); auto.
    + intros j Hj. rewrite nth_repeat. split; [discriminate|]. intros (i' & D & _). unfold done in D. lia.
    + intros j Hj. rewrite nth_repeat. split; [discriminate|]. intros (i' & D & _). unfold done in D. lia.
    + intros j Hj. rewrite nth_repeat, seq_nth by auto. reflexivity.
  - intros i st Hi Hst.
    match goal with |- exists s', rfold _ ?F ?s = _ /\ _ => destruct (@rfold_down _ (fun j0 st => inv_opt i j0 st) F i s) as (st' & E & H) end.
    + destruct st as (((nn, sl), sk), ad). destruct Hst as (L1 & L2 & L3 & L4 & G0 & G1 & G2 & G3).
      split; [auto|]. split; [auto|]. split; [auto|]. split; [auto|]. split; [auto|]. split; [|split; auto].
      * intros j Hj. rewrite (G1 j Hj). unfold done. split; intros (i' & D & S); exists i'; split; auto; lia.
      * intros i' Hi'. rewrite (G2 i' Hi'). unfold done. split; intros (j & D & S); exists j; split; auto; lia.
    + clear st Hst. intros j (((nn, sl), sk), ad) Hj (L1 & L2 & L3 & L4 & G0 & G1 & G2 & G3).
      unfold opt_dup_out_step. rewrite !og_fld by lia. cbn [rbind].
      destruct (same (fld fs i) (fld fs j)) eqn:Es.
      * assert (Hb : bm fs i = true). { apply (@Hg j i); [lia|]. rewrite sameE_sym. exact Es. }
        rewrite (og_nth nn false) by lia. cbn [rbind]. rewrite G0 by auto. rewrite (og_nth sl 0) by lia. cbn [rbind].
        eexists. split; [reflexivity|].
        unfold inv_opt. rewrite !upd_length. split; [auto|]. split; [auto|]. split; [auto|]. split; [auto|]. split; [|split; [|split]].
        -- intros j1 Hj1 H1. rewrite nth_upd' by lia. destruct (j1 =? j); auto.
        -- intros j1 Hj1. rewrite nth_upd' by lia. destruct (Nat.eqb_spec j1 j) as [->|Hne].
           ++ split; auto. intros _. exists i. split; auto. unfold done. lia.
           ++ rewrite (G1 j1 Hj1). split; intros (i' & D & S); exists i'; split; auto; unfold done in *; lia.
        -- intros i1 Hi1. rewrite nth_upd' by lia. destruct (Nat.eqb_spec i1 i) as [->|Hne].
           ++ split; auto. intros _. exists j. split; auto. unfold done. lia.
           ++ rewrite (G2 i1 Hi1). split; intros (j' & D & S); exists j'; split; auto; unfold done in *; lia.
        -- intros j1 Hj1. rewrite !nth_upd' by lia. destruct (Nat.eqb_spec j1 j) as [->|Hne]; auto.
           assert (El : lst i = lst j). { apply last_iff; auto using sameE_refl, sameE_sym; try lia. apply sameE_trans. }
           rewrite <- El, G3 by auto. destruct (nth i sk false) eqn:Eki; auto.
           destruct (@last_spec (sameE fs) n (sameE_refl fs) i Hi) as (A & B & _).
           destruct (Nat.eq_dec (lst i) i) as [|Hne]; auto. exfalso.
           assert (nth i sk false = true). { apply G1; auto. exists (lst i). split; auto. unfold done. lia. } congruence.
      * eexists. split; [reflexivity|]. unfold inv_opt. split; [auto|]. split; [auto|]. split; [auto|]. split; [auto|]. split; [auto|].
        split; [|split; auto].
        -- intros j1 Hj1. rewrite (G1 j1 Hj1). split; intros (i' & D & S); exists i'; split; auto; unfold done in *.
           ++ lia.
           ++ destruct D as (D1 & [D2|(-> & D2)]); [lia|]. destruct (Nat.eq_dec j1 j) as [->|]; [|lia]. unfold sameE in S. congruence.
        -- intros i1 Hi1. rewrite (G2 i1 Hi1). split; intros (j1 & D & S); exists j1; split; auto; unfold done in *.
           ++ lia.
           ++ destruct D as (D1 & [D2|(-> & D2)]); [lia|]. destruct (Nat.eq_dec j1 j) as [->|]; [|lia]. unfold sameE in S. congruence.
    + exists st'. split; auto.
  - destruct st as (((nn, sl), sk), ad). exists nn, sl, sk, ad. split; auto.
    destruct H as (L1 & L2 & L3 & L4 & G0 & G1 & G2 & G3). split; auto. split; auto. split; auto.
    assert (Gs : forall j, j < n -> nth j sk false = (j <? lst j)).
    { intros j Hj. apply eq_true_iff_eq. rewrite (G1 j Hj), Nat.ltb_lt. unfold done.
      destruct (@last_spec (sameE fs) n (sameE_refl fs) j Hj) as (A & B & C). split.
      * intros (i' & D & S). pose proof (@last_ge _ n (sameE_refl fs) (sameE_sym fs) (@sameE_trans _ fs) i' j ltac:(lia) Hj S). lia.
      * intros H. exists (lst j). split; auto. lia. }
    split; auto. split.
    + intros i Hi. apply eq_true_iff_eq. rewrite (G2 i Hi), Nat.ltb_lt. unfold done.
      destruct (first_spec (sameE fs) (sameE_refl fs) i) as (A & B & C). split.
      * intros (j & D & S). rewrite sameE_sym in S. pose proof (@first_le _ (sameE_refl fs) (sameE_sym fs) (@sameE_trans _ fs) j i S). lia.
      * intros H. exists (fst' i). split; [lia|]. rewrite sameE_sym. auto.
    + intros j Hj. rewrite G3, Gs by auto. destruct (@last_spec (sameE fs) n (sameE_refl fs) j Hj) as (A & _).
      destruct (Nat.ltb_spec j (lst j)); auto. lia.
Qed.
End Out.
End Dup.

Section Opt.
Variable R : Rng.
Add Ring Rr : (r_th R).
Local Open Scope nat_scope.
Variable k : kernel R.
Variable Jmin : nat.
Variable junk : nat -> nat -> R.
Variable chk : bool.
Variable D : nat -> udesc.
Variable bs : option nat.
Variable o : oper R.
Hypothesis Hwf : op_wf D k Jmin chk bs o.
Notation BS := (bsize bs).
Notation NB := (op_blocks bs o).
Notation nin := (length (o_in o)).
Notation nout := (length (o_out o)).
Notation fi := (fld (o_in o)).
Notation fo := (fld (o_out o)).
Notation Q := (o_Q o).
Notation fst_in := (first (sameE (o_in o))).
Notation fst_out := (first (sameE (o_out o))).
Notation lst := (last (sameE (o_out o)) nout).

(** entries in one block *)
Definition bszd (d : udesc) : nat := BS * u_es d * u_nc d.
Definition eb_ok (eb : list (list R)) : Prop := length eb = nin /\
  forall i, i < nin -> f_mode (fi i) <> EvWeight -> length (nth i eb []) = bszd (rd D (fi i)).
Definition ob_ok (eo : list (list R)) : Prop := length eo = nout /\ forall j, j < nout -> length (nth j eo []) = bszd (rd D (fo j)).
Definition slots_ok (s : stat) : Prop := length (s_idx s) = nout /\ forall j, j < nout -> nth j (s_idx s) 0 = lst j.
Record odyn_ok (x : odyn R) : Prop := {
  od_st : length (d_states (od x)) = nin;
  od_ein : length (d_ein (od x)) = nin /\ forall i e, i < nin -> f_mode (fi i) <> EvWeight -> nth i (d_ein (od x)) None = Some e -> length e = esz bs o (rd D (fi i));
  od_q : qin_ok bs o (d_qin (od x));
  od_qo : qo_ok bs o (d_qout (od x));
  od_eo : ob_ok (d_eout (od x));
  od_ebk : eb_ok (od_eb x)
}.

Lemma block_evec_len : forall f, field_wf D Jmin chk bs o f -> f_mode f <> EvWeight -> length (block_evec bs Q f) = bszd (rd D f).
Proof.
  intros f Hf Hm. unfold block_evec, bszd. destruct (mode_cases (f_mode f)) as [E|[E|E]]; [congruence| |].
  - rewrite E, repeat_length. destruct (fwf_none _ _ _ _ _ _ Hf E) as (-> & ->). ring.
  - destruct (fwf_basis _ _ _ _ _ _ Hf E) as (EB & _ & Enc & Enp & _). rewrite EB.
    assert (H : length (repeat 0%R (b_nodes (bd f) * b_nc (bd f) * BS) : list R) = BS * u_es (rd D f) * u_nc (rd D f)) by (rewrite repeat_length, Enc, Enp; ring).
    destruct (f_mode f); try discriminate; exact H.
Qed.

Lemma opt_setup_ok : exists s x, opt_setup k junk chk D bs o = Ok (s, x) /\ stat_ok chk D bs o s /\ slots_ok s /\ odyn_ok x /\
  (forall i, i < nin -> nth i (d_states (od x)) 0%Z = 0%Z).
Proof.
  pose proof (@rmap_ok _ _ (field_rstr chk D bs) (fun (f : ofield R) ro => f_mode f <> EvWeight -> exists r, ro = Some r /\ rstr_create chk (rd D f) bs = Ok r)
    (mkOF 0 EvNone None None VNo : ofield R) None) as Hr.
  pose proof (@rmap_ok _ _ (field_qvec k junk bs Q) (fun (f : ofield R) (q : list R) => length q = qlen bs o f /\
    (f_mode f = EvWeight -> forall x l, x < Q -> l < BS -> vf q (x * BS + l) = qweight (bd f) x)) (mkOF 0 EvNone None None VNo : ofield R) []) as Hq.
  destruct (Hr (o_in o)) as (rin & E1 & L1 & G1). { intros i Hi. apply (@field_rstr_ok R Jmin chk D bs o). apply (ow_in Hwf Hi). }
  destruct (Hq (o_in o)) as (qin & E2 & L2 & G2). { intros i Hi. apply (field_qvec_ok junk Hwf). apply (ow_in Hwf Hi). }
  destruct (@opt_dup_in_ok R (o_in o)) as (nn & sl & sk & E3 & L3 & L3' & G3). { apply (ow_din Hwf). }
  destruct (Hr (o_out o)) as (rout & E4 & L4 & G4). { intros i Hi. apply (@field_rstr_ok R Jmin chk D bs o). apply (ow_out Hwf Hi). }
  destruct (Hq (o_out o)) as (qout & E5 & L5 & G5). { intros i Hi. apply (field_qvec_ok junk Hwf). apply (ow_out Hwf Hi). }
  destruct (@opt_dup_out_ok R (o_out o)) as (nn' & slo & sko & ad & E6 & L6 & L6' & L6'' & G6 & G6' & G6''). { intros i j Hij Hs. apply (@ow_dout _ _ _ _ _ _ _ Hwf i j Hij Hs). }
  unfold opt_setup. rewrite E1. cbn [rbind]. rewrite E2. cbn [rbind]. rewrite E3. cbn [rbind]. rewrite E4. cbn [rbind].
  rewrite E5. cbn [rbind]. rewrite E6. cbn [rbind]. eexists. eexists. split; [reflexivity|]. split; [|split; [|split]].
  - constructor; cbn; split; auto.
    + intros i Hi. apply G4; auto. apply (ow_out Hwf Hi).
    + intros i Hi. apply G3. auto.
    + intros i Hi. apply G3. auto.
    + intros j Hj Hjl. rewrite G6'' by auto. destruct (lst_spec o Hj). split; auto. lia.
  - split; auto.
  - constructor; cbn.
    + apply repeat_length.
    + split; [apply repeat_length|]. intros i e Hi _. rewrite nth_repeat. discriminate.
    + split; auto.
    + split; auto. intros j Hj. apply G5. auto.
    + split; [apply map_length|]. intros j Hj.
      rewrite nth_indep with (d' := block_evec bs Q (mkOF 0 EvNone None None VNo)) by (rewrite map_length; lia).
      rewrite (map_nth (block_evec bs Q)). destruct (ow_out Hwf Hj). apply block_evec_len; auto.
    + split; [apply map_length|]. intros j Hj Hm.
      rewrite nth_indep with (d' := block_evec bs Q (mkOF 0 EvNone None None VNo)) by (rewrite map_length; lia).
      rewrite (map_nth (block_evec bs Q)). apply block_evec_len; auto. apply (ow_in Hwf Hj).
  - cbn. intros i Hi. apply nth_repeat.
Qed.

Variable s : stat.
Hypothesis Hs : stat_ok chk D bs o s.
Hypothesis Hsl : slots_ok s.
Variable vm : vmem R.
Variables inv outv : option nat.
Hypothesis Hvi : forall i, i < nin -> f_mode (fi i) <> EvWeight -> has D vm (fi i) inv.
Hypothesis Hlen : forall i x, i < nin -> f_mode (fi i) <> EvWeight -> f_vec (fi i) = VAct -> x = contents vm (fi i) inv -> length x = u_lsize (rd D (fi i)).

(** ** inputs: the complete E-vectors an active input would have *)
Definition vein (ein : list (option (list R))) : list (option (list R)) :=
  map (fun i => if is_active (fi i) then
    match nth i (s_rin s) None with
    | Some r => match rstr_apply Signed r NoTranspose (contents vm (fi i) inv) (repeat 0%R (r_esize r)) with Ok e => Some e | _ => None end
    | None => None
    end else nth i ein None) (seq 0 nin).
Lemma vein_nth : forall ein i, i < nin -> nth i (vein ein) None = if is_active (fi i) then
    match nth i (s_rin s) None with
    | Some r => match rstr_apply Signed r NoTranspose (contents vm (fi i) inv) (repeat 0%R (r_esize r)) with Ok e => Some e | _ => None end
    | None => None
    end else nth i ein None.
Proof. intros ein i Hi. unfold vein. rewrite nth_map_seq by auto. reflexivity. Qed.
Lemma active_same : forall i j, sameE (o_in o) i j = true -> is_active (fi i) = is_active (fi j).
Proof. intros i j H. destruct (same_rd D _ _ H) as (_ & _ & E). unfold is_active. rewrite E. reflexivity. Qed.
Lemma active_vec : forall f : ofield R, is_active f = true -> f_vec f = VAct.
Proof. intros f. unfold is_active. destruct (f_vec f); auto; discriminate. Qed.

Lemma vein_act : forall ein i, i < nin -> f_mode (fi i) <> EvWeight -> is_active (fi i) = true -> fst_in i = i ->
  exists r e, nth i (s_rin s) None = Some r /\ rstr_create chk (rd D (fi i)) bs = Ok r /\
    rstr_apply Signed r NoTranspose (contents vm (fi i) inv) (repeat 0%R (r_esize r)) = Ok e /\
    nth i (vein ein) None = Some e /\ restricted bs o (rd D (fi i)) (contents vm (fi i) inv) e.
Proof.
  intros ein i Hi Hm Ha Hf. destruct (so_rin Hs) as (Lr & Gr). destruct (Gr i Hi Hm) as (r & Er & Ec).
  assert (Hw : rstr_wf chk bs o (rd D (fi i))). { apply (@fwf_rd R Jmin chk D bs o); auto. apply (ow_in Hwf Hi). }
  pose proof (esize_eq Hwf Hw Ec) as Ees.
  destruct (gather_ok Hwf (contents vm (fi i) inv) (repeat 0%R (r_esize r)) Hw Ec) as (e & Ee & He).
  { rewrite (@Hlen i _ Hi Hm (active_vec _ Ha) eq_refl). auto. }
  { rewrite repeat_length. auto. }
  apply be_ok in Ee. exists r, e. split; auto. split; auto. split; auto. split; auto. rewrite vein_nth, Ha, Er, Ee by auto. reflexivity.
Qed.
Lemma vein_ok : forall ein, (forall i, i < nin -> f_mode (fi i) <> EvWeight -> is_active (fi i) = false -> ein_ok D bs o vm inv i ein) ->
  forall i, i < nin -> f_mode (fi i) <> EvWeight -> ein_ok D bs o vm inv i (vein ein).
Proof.
  intros ein He i Hi Hm. destruct (fst_in_spec o i) as (F1 & F2). unfold ein_ok.
  destruct (is_active (fi i)) eqn:Ea.
  - assert (Hm' : f_mode (fi (fst_in i)) <> EvWeight). { intros E. apply Hm. apply (same_weight Hwf) with (i := fst_in i); auto. lia. }
    destruct (@vein_act ein (fst_in i)) as (r & e & _ & _ & _ & En & Hr); auto; try lia.
    { rewrite (active_same _ _ F2). auto. } { apply fst_in_fst. }
    exists e. split; auto. apply (@restricted_same R D bs o vm inv (fst_in i) i e F2 Hr).
  - rewrite vein_nth by lia. rewrite (active_same _ _ F2), Ea. apply He; auto.
Qed.

(** the opt input step stores the same Q-vector as the step of the reference driver on the complete E-vectors *)
Lemma firstn_all' : forall A (l : list A) n, length l = n -> firstn n l = l.
Proof. intros A l n <-. apply firstn_all. Qed.
Lemma opt_input_sim : forall (vm1 : vmem R) ein b i eb qin qin', b < NB -> i < nin -> length ein = nin -> eb_ok eb ->
  (forall j, j < nin -> f_mode (fi j) <> EvWeight -> f_vec (fi j) = VAct -> forall v, inv = Some v -> vv_data (vm1 v) = vv_data (vm v)) ->
  input_basis k junk D bs o s (vein ein) (b * BS) false i qin = Ok qin' ->
  exists eb', opt_input k junk D bs o s vm1 inv ein b i (eb, qin) = Ok (eb', qin') /\ eb_ok eb'.
Proof.
  intros vm1 ein b i eb qin qin' Hb Hi Lei (Lb & Gb) Hsame E. unfold opt_input. rewrite og_fld by auto. cbn [rbind].
  destruct (so_slot Hs) as (Lsl & Gsl). destruct (fst_in_spec o i) as (F1 & F2).
  destruct (is_active (fi i)) eqn:Ea.
  - unfold input_basis in E. rewrite og_fld in E by auto. cbn [rbind andb] in E.
    destruct (mode_cases (f_mode (fi i))) as [Ew|Hm].
    { rewrite Ew in *. inversion E; subst. exists eb. split; auto. split; auto. }
    assert (Hn : f_mode (fi i) <> EvWeight). { intros X. rewrite X in Hm. destruct Hm; discriminate. }
    assert (Hn' : f_mode (fi (fst_in i)) <> EvWeight). { intros X. apply Hn. apply (same_weight Hwf) with (i := fst_in i); auto. lia. }
    destruct (@vein_act ein (fst_in i)) as (r & e & Er & Ecr & Ee & En & Hre); auto; try lia.
    { rewrite (active_same _ _ F2). auto. } { apply fst_in_fst. }
    destruct (same_rd D _ _ F2) as (Erd & Erf & Evf).
    assert (Econt : contents vm (fi (fst_in i)) inv = contents vm (fi i) inv) by (unfold contents, target; rewrite Evf; auto).
    destruct (so_rin Hs) as (Lr & Gr). destruct (Gr i Hi Hn) as (r' & Er' & Ecr').
    rewrite Erd in Ecr, Hre. rewrite Econt in Hre, Ee. assert (r' = r) by congruence. subst r'.
    pose proof (ow_in Hwf Hi) as Hfw.
    assert (Hw : rstr_wf chk bs o (rd D (fi i))) by (apply (@fwf_rd R Jmin chk D bs o); auto).
    destruct (Hvi Hi Hn) as (v & u & Ht & Hu & _).
    assert (Einv : inv = Some v). { unfold target in Ht. rewrite (active_vec _ Ea) in Ht. auto. }
    assert (Eu : contents vm (fi i) inv = u). { unfold contents. rewrite Ht, Hu. auto. }
    assert (Eu1 : vv_data (vm1 v) = Some u). { rewrite (Hsame i Hi Hn (active_vec _ Ea) v Einv). auto. }
    destruct (create_bs Ecr) as (Ebs & Enb). pose proof Hw as (W1 & W2 & W3 & _ & W5). rewrite (nb_eq Hwf _ W5) in Enb.
    assert (Lu : length u = u_lsize (rd D (fi i))). { apply (@Hlen i u Hi Hn (active_vec _ Ea)). auto. }
    assert (Lsb : length (nth (fst_in i) eb []) = r_bs r * u_es (rd D (fi i)) * u_nc (rd D (fi i))).
    { rewrite Gb by (auto; lia). unfold bszd. rewrite Erd, Ebs. reflexivity. }
    pose proof (@C11_block_gather R chk (rd D (fi i)) bs r b u (repeat 0%R (r_esize r)) (nth (fst_in i) eb []) e W1 Ecr W2 W3 Lu (repeat_length _ _) Lsb) as HB.
    rewrite Eu in Ee. rewrite Enb in HB. specialize (HB Hb Ee). rewrite Ebs in HB.
    set (xb := RstrProps.slice (BS * u_es (rd D (fi i)) * u_nc (rd D (fi i))) b e) in *.
    assert (Les : length e = NB * (BS * u_es (rd D (fi i)) * u_nc (rd D (fi i)))) by (destruct Hre as (X & _); exact X).
    assert (Lx : length xb = bszd (rd D (fi i))).
    { unfold xb, bszd. apply slice_length. rewrite Les. nia. }
    assert (Hup : eb_ok (upd eb (fst_in i) xb)).
    { split; [rewrite upd_length; auto|]. intros j Hj Hmj. rewrite nth_upd' by lia. destruct (Nat.eqb_spec j (fst_in i)) as [->|]; auto. rewrite Erd. auto. }
    rewrite (og_nth (s_rin s) None) by lia. rewrite (og_nth (s_slot s) 0) by lia. cbn [rbind]. rewrite Gsl, Er' by auto.
    rewrite (og_nth eb []) by lia. cbn [rbind]. rewrite Einv, Eu1.
    rewrite (og_nth (s_slot s) 0) in E by lia. cbn [rbind] in E. rewrite Gsl in E by auto.
    rewrite (og_nth (vein ein) None) in E by (unfold vein; rewrite map_length, seq_length; lia). cbn [rbind] in E. rewrite En in E.
    destruct Hm as [Eno|Eb].
    + rewrite Eno in E |- *. rewrite HB. cbn [be rbind]. destruct (fwf_none _ _ _ _ _ _ Hfw Eno) as (S1 & S2).
      apply rbind_ok in E. destruct E as (q & Eq & E). inversion E; subst qin'.
      exists (upd eb (fst_in i) xb). split; auto. repeat f_equal.
      unfold slice in Eq. destruct (_ <=? _) in Eq; [|discriminate]. inversion Eq. unfold xb, RstrProps.slice.
      replace (Q * f_size (fi i) * BS) with (BS * u_es (rd D (fi i)) * u_nc (rd D (fi i))) by (rewrite S1, S2; ring).
      replace (b * BS * Q * f_size (fi i)) with (b * (BS * u_es (rd D (fi i)) * u_nc (rd D (fi i)))) by (rewrite S1, S2; ring). reflexivity.
    + destruct (fwf_basis _ _ _ _ _ _ Hfw Eb) as (EB & _ & Enc & Enp & _).
      assert (HX : exists q, be (basis_apply k junk (bd (fi i)) BS NoTranspose (f_mode (fi i)) (Some xb) (nth i qin [])) = Ok q /\ qin' = upd qin i q /\ i < length qin).
      { assert (E2 : (q0 <~ og qin i ;; u <~ slice e (b * BS * esize_of D (fi i) * b_nc (bd (fi i))) (b_nodes (bd (fi i)) * b_nc (bd (fi i)) * BS) ;;
            q <~ be (basis_apply k junk (bd (fi i)) BS NoTranspose (f_mode (fi i)) (Some u) q0) ;; Ok (upd qin i q)) = Ok qin').
        { rewrite EB in E. destruct (f_mode (fi i)); try discriminate; exact E. }
        apply rbind_ok in E2. destruct E2 as (q0 & Eq0 & E2). apply (@og_some _ _ _ _ []) in Eq0. destruct Eq0 as (Lq0 & Eq0).
        apply rbind_ok in E2. destruct E2 as (u' & Eu' & E2). apply rbind_ok in E2. destruct E2 as (q & Eq & E2). inversion E2; subst qin'.
        exists q. split; auto. rewrite Eq0.
        assert (Exb : u' = xb). 2:{ rewrite <- Exb. exact Eq. }
        unfold slice in Eu'. destruct (_ <=? _) in Eu'; [|discriminate]. inversion Eu'. unfold xb, RstrProps.slice.
        rewrite (@esize_of_rd R Jmin chk D bs o _ Hfw Hn), Enc, Enp. f_equal; [ring|]. f_equal. ring. }
      destruct HX as (q & Eq & -> & Lq).
      exists (upd eb (fst_in i) xb). split; auto.
      rewrite HB. cbn [be rbind]. rewrite (og_nth qin []) by auto. cbn [rbind]. rewrite EB.
      destruct (f_mode (fi i)); try discriminate; rewrite Eq; reflexivity.
  - assert (E' : input_basis k junk D bs o s ein (b * BS) false i qin = Ok qin').
    { rewrite <- E. unfold input_basis. rewrite og_fld by auto. cbn [rbind andb]. rewrite (og_nth (s_slot s) 0) by lia. cbn [rbind].
      rewrite Gsl by auto.
      assert (Ev : og (vein ein) (fst_in i) = og ein (fst_in i)).
      { rewrite (og_nth (vein ein) None) by (unfold vein; rewrite map_length, seq_length; lia). rewrite (og_nth ein None) by lia.
        rewrite vein_nth, (active_same _ _ F2), Ea by lia. reflexivity. }
      rewrite Ev. reflexivity. }
    rewrite E'. cbn [rbind]. exists eb. split; auto. split; auto.
Qed.

(** ** outputs: the block E-vectors are block [b] of complete ones *)
Notation bz := (bsz D bs o).
Definition cut (p b : nat) (l : list R) : list R := firstn (bz p) (skipn (b * bz p) l).
Definition Sim (b : nat) (eout eo : list (list R)) : Prop := eo_ok D bs o eout /\ length eo = nout /\ forall p, p < nout -> nth p eo [] = cut p b (nth p eout []).
Lemma bz_bound : forall p b, b < NB -> b * bz p + bz p <= esz bs o (rd D (fo p)).
Proof. intros p b Hb. unfold esz. fold (bz p). pose proof (@blk_bound _ bs o b (bz p) Hb). lia. Qed.
Lemma cut_length : forall p b l, b < NB -> length l = esz bs o (rd D (fo p)) -> length (cut p b l) = bz p.
Proof. intros p b l Hb Hl. unfold cut. rewrite firstn_length, skipn_length. pose proof (bz_bound p Hb). lia. Qed.
Lemma vf_cut : forall p b l i, i < bz p -> vf (cut p b l) i = vf l (b * bz p + i).
Proof. intros p b l i Hi. unfold cut. rewrite nth_firstn, nth_skipn by auto. reflexivity. Qed.
Lemma sim_len : forall b eout eo, b < NB -> Sim b eout eo -> ob_ok eo.
Proof. intros b eout eo Hb ((_ & Ge) & L & G). split; auto. intros j Hj. rewrite G by auto. rewrite cut_length by auto. reflexivity. Qed.
Lemma embed : forall b eo, b < NB -> ob_ok eo -> exists eout, Sim b eout eo.
Proof.
  intros b eo Hb (L & G).
  exists (map (fun p => repeat 0%R (b * bz p) ++ nth p eo [] ++ repeat 0%R ((NB - b - 1) * bz p)) (seq 0 nout)).
  split; [|split; auto].
  - split; [rewrite map_length, seq_length; auto|]. intros j Hj. rewrite nth_map_seq by auto. simpl.
    rewrite !app_length, !repeat_length, G by auto. unfold esz. change (BS * u_es (rd D (fo j)) * u_nc (rd D (fo j))) with (bz j). change (bszd (rd D (fo j))) with (bz j). nia.
  - intros p Hp. rewrite nth_map_seq by auto. simpl. unfold cut.
    rewrite skipn_app, repeat_length, Nat.sub_diag, (skipn_all2 (repeat _ _)) by (rewrite repeat_length; auto). simpl.
    assert (Gp : length (nth p eo []) = bz p) by exact (G p Hp).
    rewrite firstn_app, (firstn_all' _ Gp), Gp. rewrite Nat.sub_diag. simpl. rewrite app_nil_r. reflexivity.
Qed.
Lemma blit_cut : forall off (x l l' : list R), blit off x l = Ok l' -> firstn (length x) (skipn off l') = x /\ length l' = length l.
Proof.
  intros off x l l' E. unfold blit in E. destruct (Nat.leb_spec (off + length x) (length l)) as [H|]; [|discriminate]. inversion E; subst l'. split.
  - rewrite skipn_app, firstn_length, Nat.min_l by lia. rewrite Nat.sub_diag, skipn_all2 by (rewrite firstn_length; lia). simpl.
    rewrite firstn_app, Nat.sub_diag, firstn_all. simpl. apply app_nil_r.
  - rewrite !app_length, firstn_length, skipn_length. lia.
Qed.
Lemma blit0 : forall x l : list R, length x = length l -> blit 0 x l = Ok x.
Proof.
  intros x l H. unfold blit. simpl. rewrite H, Nat.leb_refl. f_equal. rewrite skipn_all2 by lia. apply app_nil_r.
Qed.
Lemma sim_upd : forall b eout eo p l' x, b < NB -> p < nout -> Sim b eout eo -> blit (b * bz p) x (nth p eout []) = Ok l' -> length x = bz p ->
  Sim b (upd eout p l') (upd eo p x).
Proof.
  intros b eout eo p l' x Hb Hp ((Le & Ge) & L & G) E Lx. destruct (blit_cut _ _ _ E) as (C1 & C2). rewrite Lx in C1. split; [|split].
  - split; [rewrite upd_length; auto|]. intros j Hj. rewrite nth_upd' by lia. destruct (Nat.eqb_spec j p) as [->|]; auto. rewrite C2. auto.
  - rewrite upd_length. auto.
  - intros j Hj. rewrite !nth_upd' by lia. destruct (Nat.eqb_spec j p) as [->|]; auto.
Qed.

Lemma Hptr : length (s_idx s) = nout /\ forall j, j < nout -> nth j (s_idx s) 0 = lst j.
Proof. exact Hsl. Qed.
Definition SimQ (b : nat) (a c : list (list R) * list (list R)) : Prop := Sim b (fst a) (fst c) /\ snd a = snd c.
Lemma put_sim : forall b j x st st' t, b < NB -> j < nout -> length x = qlen bs o (fo j) -> SimQ b st t ->
  put_out o (s_idx s) (b * BS) j x st = Ok st' -> exists t', put_out o (s_idx s) 0 j x t = Ok t' /\ SimQ b st' t'.
Proof.
  intros b j x (eout, qout) st' (eo, qo) Hb Hj Lx (HS & Eq) E. cbn [fst snd] in *. subst qo. unfold put_out in *.
  rewrite og_fld in * by auto. cbn [rbind] in *. destruct Hsl as (Lp & Gp).
  destruct (f_mode (fo j)) eqn:Em; try (apply rbind_ok in E; destruct E as (q0 & -> & E); cbn [rbind]; apply rbind_ok in E; destruct E as (q & -> & E);
    inversion E; subst st'; cbn [rbind]; eexists; split; [reflexivity|]; split; auto; fail).
  rewrite (og_nth (s_idx s) 0) in * by lia. cbn [rbind] in *. rewrite Gp in * by auto.
  destruct (@none_bsz R k Jmin chk D bs o Hwf j Hj Em) as (B1 & _). destruct (lst_spec o Hj) as (Hl & _).
  pose proof HS as ((Le & Ge) & L & G).
  rewrite (og_nth eout []) in E by lia. cbn [rbind] in E. apply rbind_ok in E. destruct E as (l' & El & E). inversion E; subst st'.
  replace (b * BS * Q * f_size (fo j)) with (b * bz (lst j)) in El by (rewrite B1; unfold qlen; ring).
  rewrite (og_nth eo []) by lia. cbn [rbind]. simpl (0 * Q * _).
  destruct (sim_len Hb HS) as (_ & Lo). rewrite blit0 by (rewrite Lo by lia; rewrite Lx, <- B1; reflexivity).
  cbn [rbind]. eexists. split; [reflexivity|]. split; auto. cbn [fst]. apply sim_upd; auto; lia.
Qed.
Lemma call_sim : forall b qin st st' t, b < NB -> qin_ok bs o qin -> SimQ b st t ->
  call_qf bs o (s_idx s) (b * BS) qin st = Ok st' -> exists t', call_qf bs o (s_idx s) 0 qin t = Ok t' /\ SimQ b st' t'.
Proof.
  intros b qin st st' t Hb (Lq & Gq) HS E. unfold call_qf in *. destruct (o_ident o) eqn:Eid.
  - destruct (ow_id Hwf Eid) as (Ni & No & Esz & _). apply rbind_ok in E. destruct E as (x & Ex & E). rewrite Ex. cbn [rbind].
    apply (@og_some _ _ _ _ []) in Ex. destruct Ex as (_ & Ex).
    apply (@put_sim b 0 x st st' t); auto; try lia. rewrite <- Ex. destruct (Gq 0 ltac:(lia)) as (-> & _). unfold qlen. rewrite Esz. auto.
  - cbv zeta in *. destruct (o_vlen o =? 0); [discriminate|]. destruct (negb _); [discriminate|]. destruct (negb _); [discriminate|].
    apply (@rfold_sim _ _ _ (SimQ b) _ _ _ _ _ t E HS). intros j a a' c Hj Ea Hac. apply in_seq in Hj.
    rewrite og_fld in * by lia. cbn [rbind] in *. apply (@put_sim b j _ a a' c); auto; try lia.
    unfold out_arr. rewrite map_length, seq_length. unfold qlen. ring.
Qed.

(** the basis part of an output step *)
Definition out_basis (qout : list (list R)) (i : nat) (eo : list (list R)) : res (list (list R)) :=
  match f_mode (fo i) with
  | EvNone => Ok eo
  | EvWeight => Err ERR_BACKEND
  | m =>
      l <~ og eo (lst i) ;; q <~ og qout i ;; ad <~ og (s_add s) i ;;
      match f_basis (fo i) with
      | Some bb => l' <~ be (if ad then basis_apply_add k junk bb BS Transpose m (Some q) l else basis_apply k junk bb BS Transpose m (Some q) l) ;;
                   Ok (upd eo (lst i) l')
      | None => UB
      end
  end.
Lemma out_sim : forall b qout i eout eout' eo, b < NB -> i < nout -> qo_ok bs o qout -> Sim b eout eo ->
  output_basis k junk D bs o s (s_idx s) (b * BS) qout i eout = Ok eout' ->
  exists eo', out_basis qout i eo = Ok eo' /\ Sim b eout' eo'.
Proof.
  intros b qout i eout eout' eo Hb Hi (Lq & Gq) HS E. unfold output_basis in E. rewrite og_fld in E by auto. cbn [rbind] in E. unfold out_basis.
  destruct (mode_cases (f_mode (fo i))) as [Em|[Em|Em]].
  - rewrite Em in E. discriminate.
  - rewrite Em in *. inversion E; subst. exists eo. auto.
  - destruct (ow_out Hwf Hi) as (Hfw & Hnw). destruct (fwf_basis _ _ _ _ _ _ Hfw Em) as (EB & Hbw & Enc & Enp & Enq & Erep & Es).
    destruct (lst_spec o Hi) as (Hl & _). pose proof (lst_rd D o Hi) as Erd. pose proof HS as ((Le & Ge) & L & G).
    destruct (so_add Hs) as (La & Ga). destruct Hsl as (Lp & Gp).
    set (p := lst i) in *. set (bb := bd (fo i)) in *.
    assert (Ebz : bz p = b_nodes bb * b_nc bb * BS). { unfold bsz. rewrite Erd, <- Enp, <- Enc. ring. }
    assert (Eoff : b * BS * esize_of D (fo i) * b_nc bb = b * bz p). { rewrite (@esize_of_rd R Jmin chk D bs o _ Hfw Hnw), <- Enp, Ebz. ring. }
    assert (E2 : (x <~ slice (nth p eout []) (b * bz p) (bz p) ;;
        x' <~ be (if nth i (s_add s) false then basis_apply_add k junk bb BS Transpose (f_mode (fo i)) (Some (nth i qout [])) x else basis_apply k junk bb BS Transpose (f_mode (fo i)) (Some (nth i qout [])) x) ;;
        l' <~ blit (b * bz p) x' (nth p eout []) ;; Ok (upd eout p l')) = Ok eout').
    { rewrite (og_nth (s_idx s) 0) in E by lia. cbn [rbind] in E. rewrite Gp in E by auto. fold p in E. rewrite (og_nth eout []) in E by lia. cbn [rbind] in E.
      rewrite (og_nth qout []) in E by lia. cbn [rbind] in E. rewrite (og_nth (s_add s) false) in E by lia. cbn [rbind] in E. rewrite EB in E. cbv zeta in E.
      rewrite Eoff, <- Ebz in E. destruct (f_mode (fo i)); try discriminate; exact E. }
    apply rbind_ok in E2. destruct E2 as (x & Ex & E2). apply rbind_ok in E2. destruct E2 as (x' & Ex' & E2).
    apply rbind_ok in E2. destruct E2 as (l' & El & E2). inversion E2; subst eout'.
    assert (Exe : x = nth p eo []).
    { rewrite G by lia. unfold slice in Ex. destruct (_ <=? _) in Ex; [|discriminate]. inversion Ex. reflexivity. }
    assert (Lx : length x = bz p). { rewrite Exe. destruct (sim_len Hb HS) as (_ & Lo). rewrite Lo by lia. reflexivity. }
    assert (Hcd : check_dims bb BS Transpose (f_mode (fo i)) (length (nth i qout [])) (length x) = true).
    { rewrite Gq, Lx by auto. unfold qlen. rewrite Es, Ebz. fold bb.
      assert (Hx : (BS * b_nc bb * b_qpts bb * q_comp bb (f_mode (fo i)) <=? Q * (q_comp bb (f_mode (fo i)) * b_nc bb) * BS) && (BS * b_nc bb * b_nodes bb <=? b_nodes bb * b_nc bb * BS) = true).
      { apply andb_true_iff. split; apply Nat.leb_le; rewrite ?Enq; nia. }
      unfold check_dims. destruct (f_mode (fo i)); try discriminate; exact Hx. }
    assert (Lx' : length x' = bz p).
    { rewrite <- Lx. apply be_ok in Ex'. rewrite Ga in Ex' by auto.
      destruct (Nat.ltb_spec (fst_out i) i) as [Hf|Hf].
      - assert (Hnc : collocated bb = false).
        { destruct (first_spec (sameE (o_out o)) (sameE_refl (o_out o)) i) as (_ & Hfs & _).
          apply (@ow_dout _ _ _ _ _ _ _ Hwf (fst_out i) i ltac:(lia) Hfs). }
        destruct (@C16_add R k Jmin junk junk bb BS (f_mode (fo i)) _ (nth i qout []) x x (ow_k Hwf) Hbw Erep Hnc eq_refl Hcd) as (w & w0' & Ew & _ & Lw & _).
        rewrite Ew in Ex'. inversion Ex'; subst. auto.
      - destruct (@C14_backward R k Jmin junk bb BS (f_mode (fo i)) _ (nth i qout []) x (ow_k Hwf) Hbw Erep Hcd) as (w0 & E0 & L0 & _).
        rewrite repeat_length in L0. rewrite E0 in Ex'. inversion Ex'; subst. auto. }
    exists (upd eo p x'). split.
    + rewrite (og_nth eo []) by lia. cbn [rbind]. rewrite (og_nth qout []) by lia. cbn [rbind]. rewrite (og_nth (s_add s) false) by lia. cbn [rbind].
      rewrite EB, <- Exe. destruct (f_mode (fo i)); try discriminate; rewrite Ex'; reflexivity.
    + apply sim_upd; auto. lia.
Qed.
End Opt.
