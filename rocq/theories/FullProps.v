(** * Property C35: assembly of an operator to a matrix in coordinate format *)
From Coq Require Import List ZArith Lia Bool Arith.
From Verif Require Import Prelude RstrModel RstrSpec RstrProofs RstrMain RstrProps TensorModel TensorMain BasisModel BasisMain BasisApply BasisProps OpModel OpSpec OpLists OpProofs OpMain OpTree OpProps AsmModel AsmSpec AsmProofs AsmProps
  CacheModel CacheSpec CacheProps DenseModel DenseProofs FullModel FullSpec FullSide FullProofs FullMain.
Import ListNotations.

Section Loop.
Variable R : Rng.
Add Ring Rr : (r_th R).
Local Open Scope nat_scope.
Variable k : kernel R.
Variables (Jmin : nat) (junk : nat -> nat -> R) (chk : bool) (D : nat -> udesc) (bs : option nat).
Variables (bi bo : nat -> nat -> nat).
Notation history := (history R k Jmin junk chk D bs).
Notation sub_wf := (sub_wf R k Jmin chk D bs bi bo).

(** the next BuildOrUpdate of operator [i] returns correct values (C34): it assembles, or what is kept is up to date *)
Definition ready (s : cstate R) (h : list (hev R)) (i : nat) : Prop :=
  match kept h i with Some (_, A) => is_assembled D (c_ops s i) (c_vm s) A | None => clean h i = true end.
Lemma ready_call : forall s s' h i j v A, shares h j j = true -> c_ops s' = c_ops s -> c_vm s' = c_vm s -> is_assembled D (c_ops s j) (c_vm s) A ->
  (i = j \/ shares h i j = false) -> ready s h i -> ready s' (HCall j v A :: h) i.
Proof.
  intros s s' h i j v A Hrefl Eo Ev HA Hij Hr. unfold ready in *. rewrite Eo, Ev. unfold kept in *. cbn [reuse need last clean]. destruct Hij as [->|Hij].
  - rewrite Hrefl. cbn [negb]. destruct (reuse h j) eqn:Er; cbn [andb] in *; auto. unfold kept. rewrite Er. cbn [andb]. rewrite Nat.eqb_refl. reflexivity.
  - rewrite Hij. destruct (if reuse h i && negb (need h i) then last h i else None) as [(v0, A0)|]; auto. rewrite Hr. apply orb_true_r.
Qed.

Fixpoint syms (s : cstate R) (l : list nat) : res (list (Z * Z)) :=
  match l with [] => Ok [] | i :: l => e <~ symbolic chk D (c_ops s i) ;; r <~ syms s l ;; Ok (e ++ r) end.
Lemma syms_ops : forall s s' l, c_ops s' = c_ops s -> syms s' l = syms s l.
Proof. intros s s' l E. induction l as [|i l IH]; cbn [syms]; auto. rewrite E, IH. reflexivity. Qed.
Lemma syms_ok : forall s l, (forall i, In i l -> sub_wf s i) -> exists rc, syms s l = Ok rc.
Proof.
  intros s l. induction l as [|i l IH]; intros H; cbn [syms]. { eauto. }
  destruct (sub_sym R k Jmin chk D bs bi bo s i (H i (or_introl eq_refl))) as (e & E & _). rewrite E. cbn [rbind].
  destruct IH as (r & Er). { intros; apply H; right; auto. } rewrite Er. cbn [rbind]. eauto.
Qed.
Lemma store_app : forall A (V x : list A) z n, length x <= n -> store (length V) x (V ++ repeat z n) = Ok (V ++ x ++ repeat z (n - length x)).
Proof.
  intros A V x z n H. unfold store. rewrite app_length, repeat_length. destruct (Nat.leb_spec (length V + length x) (length V + n)); [|lia].
  rewrite firstn_app, Nat.sub_diag, firstn_O, app_nil_r, firstn_all2 by lia. rewrite skipn_app, skipn_all2 by lia. replace (length V + length x - length V) with (length x) by lia.
  cbn [app]. rewrite skipn_rep. reflexivity.
Qed.
Lemma sym_loop : forall s l V n rc, (forall i, In i l -> sub_wf s i) -> syms s l = Ok rc -> length rc <= n ->
  rfold (map Some l) (fun x (st : nat * list (Z * Z)) => match x with
    | Some i => e <~ symbolic chk D (c_ops s i) ;; a <~ store (fst st) e (snd st) ;; m <~ count_entries D (c_ops s i) ;; Ok (fst st + m, a)
    | None => Err ERR_UNSUPPORTED end) (length V, V ++ repeat (0, 0)%Z n) = Ok (length V + length rc, V ++ rc ++ repeat (0, 0)%Z (n - length rc)).
Proof.
  intros s l. induction l as [|i l IH]; intros V n rc H Hs Hn; cbn [syms] in Hs.
  - inversion Hs; subst. cbn [map rfold length app]. rewrite Nat.add_0_r, Nat.sub_0_r. reflexivity.
  - destruct (sub_sym R k Jmin chk D bs bi bo s i (H i (or_introl eq_refl))) as (e & E & Ec). rewrite E in Hs. cbn [rbind] in Hs.
    destruct (syms s l) as [r| |] eqn:Er; cbn [rbind] in Hs; try discriminate. inversion Hs; subst rc. rewrite app_length in Hn |- *.
    cbn [map rfold]. rewrite E. cbn [rbind fst snd]. rewrite store_app by lia. cbn [rbind]. rewrite Ec. cbn [rbind].
    specialize (IH (V ++ e) (n - length e) r ltac:(intros; apply H; right; auto) eq_refl ltac:(lia)). rewrite app_length, <- app_assoc in IH. rewrite IH.
    rewrite <- !app_assoc. do 2 f_equal; [lia|]. do 4 f_equal. lia.
Qed.
Lemma count_loop : forall s l n rc, (forall i, In i l -> sub_wf s i) -> syms s l = Ok rc ->
  rfold (map Some l) (fun x n => match x with Some i => m <~ count_entries D (c_ops s i) ;; Ok (n + m) | None => Err ERR_UNSUPPORTED end) n = Ok (n + length rc).
Proof.
  intros s l. induction l as [|i l IH]; intros n rc H Hs; cbn [syms] in Hs.
  - inversion Hs; subst. cbn [map rfold length]. rewrite Nat.add_0_r. reflexivity.
  - destruct (sub_sym R k Jmin chk D bs bi bo s i (H i (or_introl eq_refl))) as (e & E & Ec). rewrite E in Hs. cbn [rbind] in Hs.
    destruct (syms s l) as [r| |] eqn:Er; cbn [rbind] in Hs; try discriminate. inversion Hs; subst rc. rewrite app_length. cbn [map rfold]. rewrite Ec. cbn [rbind].
    rewrite (IH _ r); auto; [f_equal; lia|]. intros; apply H; right; auto.
Qed.

Definition same_passive (o : oper R) (vm vm2 : vmem R) : Prop :=
  forall j, j < length (o_in o) -> is_active (fld (o_in o) j) = false -> contents vm2 (fld (o_in o) j) None = contents vm (fld (o_in o) j) None.
Lemma values_loop : forall jl s0 l s h V n rc, c_ops s0 = c_ops s -> history h s ->
  (forall i, In i l -> sub_wf s i /\ passive_ok R D (c_ops s i) (c_vm s) /\ ready s h i) ->
  (forall i j, In i l -> In j l -> shares h i j = true -> i = j) -> syms s l = Ok rc -> length rc <= n ->
  exists s' h' L,
    rfold (map Some l) (fun x (st : nat * (cstate R * list R)) => match x with
      | Some i => sv <~ single_assemble k junk chk D bs bi bo jl i (fst st) (snd st) ;; m <~ count_entries D (c_ops s0 i) ;; Ok (fst st + m, sv)
      | None => Err ERR_UNSUPPORTED end) (length V, (s, V ++ repeat 0%R n)) = Ok (length V + length rc, (s', V ++ L ++ repeat 0%R (n - length rc))) /\
    history (h' ++ h) s' /\ (forall e, In e h' -> exists i v A, In i l /\ e = HCall i v A) /\ c_ops s' = c_ops s /\ c_vm s' = c_vm s /\ length L = length rc /\
    forall vm2 inv q, (forall i, In i l -> same_passive (c_ops s i) (c_vm s) vm2) -> coo rc L (act_in R vm2 inv) q = sumL l (fun i => active_sum R D (c_ops s i) vm2 inv q).
Proof.
  intros jl s0 l. induction l as [|i l IH]; intros s h V n rc E0 Hh H Hsh Hs Hn; cbn [syms] in Hs.
  - inversion Hs; subst. exists s, [], []. cbn [map rfold length app]. rewrite Nat.add_0_r, Nat.sub_0_r. split; auto. split; auto. split; [intros e []|]. auto 6.
  - destruct (H i (or_introl eq_refl)) as (Hw & Hp & Hr). destruct (sub_sym R k Jmin chk D bs bi bo s i Hw) as (e & E & Ec). rewrite E in Hs. cbn [rbind] in Hs.
    destruct (syms s l) as [r| |] eqn:Er; cbn [rbind] in Hs; try discriminate. inversion Hs; subst rc. rewrite app_length in Hn |- *.
    pose proof (history_ok R k Jmin junk chk D bs h s Hh) as Hinv.
    destruct (call_ok R k Jmin junk chk D bs h s jl i Hinv Hp) as (s1 & v & Eb & _ & Hk & _ & Eo & Ev).
    assert (HA : is_assembled D (c_ops s i) (c_vm s) (c_vec s1 v)).
    { unfold ready in Hr. destruct (kept h i) as [(v0, A0)|]; auto. destruct Hk as (_ & ->). auto. }
    destruct Hw as (rin & rout & bI & bO & Hw).
    destruct (single_values R k Jmin junk chk D bs bi bo (c_ops s i) (bi i) (bo i) rin rout bI bO Hw jl s i s1 v (c_vm s) (length V) V Eb eq_refl eq_refl eq_refl HA eq_refl) as (L1 & HL1 & Hst & Hc).
    destruct (Hc e E) as (HLe & Hcoo). rewrite <- HLe in HL1, Hst.
    pose proof (h_call R k Jmin junk chk D bs h s jl i s1 v Hh Hp Eb) as Hh1.
    assert (Hrefl : shares h i i = true) by (destruct Hinv as (Hsh0 & _); apply (sh_refl R h s Hsh0)).
    destruct (IH s1 (HCall i v (c_vec s1 v) :: h) (V ++ L1) (n - length e) r) as (s' & h' & L2 & E2 & H2 & H3 & H4 & H5 & H6 & H7); try congruence.
    { intros j Hj. destruct (H j (or_intror Hj)) as (J1 & J2 & J3). unfold FullMain.sub_wf, passive_ok. rewrite Eo, Ev. split; auto. split; auto.
      eapply ready_call; eauto. destruct (Nat.eq_dec j i) as [->|Hne]; auto. right. destruct (shares h j i) eqn:Esh; auto. exfalso. apply Hne. apply Hsh; auto; [right|left]; auto. }
    { intros a b Ha Hb. cbn [shares]. apply Hsh; right; auto. }
    { rewrite (syms_ops s s1) by auto. exact Er. } { lia. }
    exists s', (h' ++ [HCall i v (c_vec s1 v)]), (L1 ++ L2). split; [|split; [|split; [|split; [|split; [|split]]]]].
    + cbn [map rfold]. cbn [fst snd]. rewrite (Hst n) by lia. cbn [rbind]. assert (Ec0 : count_entries D (c_ops s0 i) = Ok (length e)) by (rewrite E0; exact Ec). rewrite Ec0. cbn [rbind]. rewrite app_length, HL1, <- app_assoc in E2. rewrite E2. rewrite <- !app_assoc.
      do 2 f_equal; [lia|]. do 5 f_equal. lia.
    + rewrite <- app_assoc. exact H2.
    + intros x Hx. apply in_app_or in Hx. destruct Hx as [Hx|[<-|[]]]; [|exists i, v, (c_vec s1 v); split; auto; left; auto].
      destruct (H3 x Hx) as (a & b & c & Ha & Hb). exists a, b, c. split; auto. right; auto.
    + congruence.
    + congruence.
    + rewrite app_length. lia.
    + intros vm2 inv q Hvm. rewrite coo_app by lia. rewrite sumL_cons. rewrite Hcoo.
      * rewrite H7; [rewrite Eo; reflexivity|]. intros j Hj. rewrite Eo, Ev. apply Hvm. right; auto.
      * eapply asm_other; eauto. apply Hvm. left; auto.
Qed.
End Loop.

(** ** C35 *)
(** the single operators of a target: one, or those of a composite operator *)
Definition singles (t : target) (l : list nat) : Prop := match t with TSingle i => l = [i] | TComp l' => l' = map Some l end.
(** no output is written to the vector [v] other than through the active output *)
Definition not_passive {R} (o : oper R) (v : nat) : Prop := forall j, j < length (o_out o) -> f_vec (fld (o_out o) j) <> VPas v.
Lemma added_active : forall (R : Rng) D (o : oper R) vm inv v q, not_passive o v -> added D o vm inv (Some v) v q = active_sum R D o vm inv q.
Proof.
  intros R D o vm inv v q Hp. unfold added, active_sum. apply sumn_ext. intros j Hj. specialize (Hp j Hj). unfold OpModel.target, is_active, oeq. destruct (f_vec (fld (o_out o) j)) as [| |w]; auto.
  - rewrite Nat.eqb_refl. reflexivity.
  - destruct (Nat.eqb_spec w v); auto. congruence.
Qed.

(** The symbolic assembly succeeds; rows and columns are valid indices of the output and the input vector. *)
Theorem C35_symbolic : forall (R : Rng) k Jmin chk D bs bi bo (s : cstate R) t l, singles t l -> (forall i, In i l -> sub_wf R k Jmin chk D bs bi bo s i) ->
  exists rc, assemble_symbolic chk D s t = Ok rc /\
    forall r c, In (r, c) rc -> exists i rin rout bI bO, In i l /\ full_wf R k Jmin chk D bs (c_ops s i) (bi i) (bo i) rin rout bI bO /\
      (0 <= r < Z.of_nat (u_lsize (D rout)))%Z /\ (0 <= c < Z.of_nat (u_lsize (D rin)))%Z.
Proof.
  intros R k Jmin chk D bs bi bo s t l Ht Hw. destruct (syms_ok R k Jmin chk D bs bi bo s l Hw) as (rc & Erc). exists rc. split.
  - destruct t as [i|l']; cbn [singles] in Ht; subst; cbn [assemble_symbolic].
    + destruct (sub_sym R k Jmin chk D bs bi bo s i (Hw i (or_introl eq_refl))) as (e & E & Ec). rewrite Ec. cbn [rbind]. rewrite E. cbn [rbind]. cbn [syms] in Erc. rewrite E in Erc. cbn [rbind] in Erc.
      inversion Erc. rewrite app_nil_r. pose proof (store_app (Z * Z) [] e (0, 0)%Z (length e) (le_n _)) as Hst. cbn [length app] in Hst. rewrite Hst, Nat.sub_diag. cbn [repeat]. rewrite app_nil_r. reflexivity.
    + rewrite (count_loop R k Jmin chk D bs bi bo s l 0 rc Hw Erc). cbn [rbind Nat.add].
      pose proof (sym_loop R k Jmin chk D bs bi bo s l [] (length rc) rc Hw Erc (le_n _)) as Hlp. cbn [length app Nat.add] in Hlp. rewrite Hlp. cbn [rbind snd]. rewrite Nat.sub_diag. cbn [repeat]. rewrite app_nil_r. reflexivity.
  - revert rc Erc. clear Ht. induction l as [|i l IH]; intros rc Erc r c Hin; cbn [syms] in Erc. { inversion Erc; subst. destruct Hin. }
    destruct (symbolic chk D (c_ops s i)) as [e| |] eqn:E; cbn [rbind] in Erc; try discriminate. destruct (syms R chk D s l) as [r'| |] eqn:Er; cbn [rbind] in Erc; try discriminate.
    inversion Erc; subst rc. apply in_app_or in Hin. destruct Hin as [Hin|Hin].
    + destruct (Hw i (or_introl eq_refl)) as (rin & rout & bI & bO & H). exists i, rin, rout, bI, bO. split; [left; auto|]. split; auto.
      pose proof (act_rstr_ok R D _ _ _ _ _ (fw_in _ _ _ _ _ _ _ _ _ _ _ _ _ H)) as ERi. pose proof (act_rstr_ok R D _ _ _ _ _ (fw_out _ _ _ _ _ _ _ _ _ _ _ _ _ H)) as ERo.
      pose proof (neI R k Jmin chk D bs _ _ _ _ _ _ _ H) as NI. pose proof (neO R k Jmin chk D bs _ _ _ _ _ _ _ H) as NO.
      assert (GI := goodI R k Jmin chk D bs _ _ _ _ _ _ _ H). assert (GO := goodO R k Jmin chk D bs _ _ _ _ _ _ _ H).
      destruct (symbolic_ok chk D R _ rin rout GI GO ltac:(congruence) ERi ERo) as (e' & E' & L & G). rewrite E in E'. inversion E'; subst e'.
      destruct (In_nth e (r, c) (0, 0)%Z Hin) as (n & Hn & En). rewrite L in Hn.
      set (blk := u_es (D rout) * u_es (D rin)) in *. set (m2 := u_nc (D rout) * blk) in *. set (m1 := u_nc (D rin) * m2) in *.
      assert (P1 : 0 < m1) by nia. assert (P2 : 0 < m2) by nia. assert (P3 : 0 < blk) by nia. assert (P4 : 0 < u_es (D rin)) by nia.
      assert (B0 : n / m1 < u_ne (D rin)) by (apply Nat.div_lt_upper_bound; lia).
      assert (B1 : n mod m1 / m2 < u_nc (D rin)) by (apply Nat.div_lt_upper_bound; [lia|]; pose proof (Nat.mod_upper_bound n m1 ltac:(lia)); lia).
      assert (B2 : n mod m1 mod m2 / blk < u_nc (D rout)) by (apply Nat.div_lt_upper_bound; [lia|]; pose proof (Nat.mod_upper_bound (n mod m1) m2 ltac:(lia)); lia).
      assert (B3 : n mod m1 mod m2 mod blk / u_es (D rin) < u_es (D rout)) by (apply Nat.div_lt_upper_bound; [lia|]; pose proof (Nat.mod_upper_bound (n mod m1 mod m2) blk ltac:(lia)); lia).
      assert (B4 : n mod m1 mod m2 mod blk mod u_es (D rin) < u_es (D rin)) by (apply Nat.mod_upper_bound; lia).
      specialize (G _ _ _ _ _ B0 B1 B2 B3 B4).
      replace (n / m1 * m1 + (n mod m1 / m2 * m2 + (n mod m1 mod m2 / blk * blk + (n mod m1 mod m2 mod blk / u_es (D rin) * u_es (D rin) + n mod m1 mod m2 mod blk mod u_es (D rin))))) with n in G.
      2: { pose proof (Nat.div_mod n m1 ltac:(lia)). pose proof (Nat.div_mod (n mod m1) m2 ltac:(lia)). pose proof (Nat.div_mod (n mod m1 mod m2) blk ltac:(lia)).
           pose proof (Nat.div_mod (n mod m1 mod m2 mod blk) (u_es (D rin)) ltac:(lia)). lia. }
      rewrite En in G. inversion G; subst r c. destruct GI as (_ & RI & _). destruct GO as (_ & RO & _). split; [apply RO|apply RI]; auto. congruence.
    + destruct (IH ltac:(intros; apply Hw; right; auto) r' eq_refl r c Hin) as (a & Ha). destruct Ha as (b1 & b2 & b3 & b4 & H1 & H2). exists a, b1, b2, b3, b4. split; [right; auto|auto].
Qed.
Print Assumptions C35_symbolic.

(** The numeric assembly of a single operator or a composite operator, after any history of calls, into a vector that is long
    enough: it succeeds, the values beyond the entries are zero, and the matrix times any input vector is what the single
    operators add to their active output vector. *)
Theorem C35_matrix : forall (R : Rng) k Jmin junk chk D bs bi bo jl h (s : cstate R) t l rc vals,
  history R k Jmin junk chk D bs h s -> singles t l ->
  (forall i, In i l -> sub_wf R k Jmin chk D bs bi bo s i /\ passive_ok R D (c_ops s i) (c_vm s) /\ ready R D s h i) ->
  (forall i j, In i l -> In j l -> shares h i j = true -> i = j) ->
  assemble_symbolic chk D s t = Ok rc -> length rc <= length vals ->
  exists s' h' vals', assemble_values k junk chk D bs bi bo jl s t vals = Ok (s', vals') /\
    history R k Jmin junk chk D bs (h' ++ h) s' /\ (forall e, In e h' -> exists i v A, In i l /\ e = HCall i v A) /\ c_ops s' = c_ops s /\ c_vm s' = c_vm s /\
    length vals' = length vals /\ (forall n, length rc <= n -> vf vals' n = 0%R) /\
    forall vm inv v q, (forall i, In i l -> same_passive R (c_ops s i) (c_vm s) vm /\ not_passive (c_ops s i) v) ->
      coo rc vals' (act_in R vm inv) q = sumL l (fun i => added D (c_ops s i) vm inv (Some v) v q).
Proof.
  intros R k Jmin junk chk D bs bi bo jl h s t l rc vals Hh Ht H Hsh Erc Hlen.
  assert (Hw : forall i, In i l -> sub_wf R k Jmin chk D bs bi bo s i) by (intros; apply H; auto).
  destruct (syms_ok R k Jmin chk D bs bi bo s l Hw) as (rc' & Es).
  assert (Err : rc' = rc).
  { destruct t as [i|l']; cbn [singles] in Ht; subst; cbn [assemble_symbolic] in Erc.
    + destruct (sub_sym R k Jmin chk D bs bi bo s i (Hw i (or_introl eq_refl))) as (e & E & Ec). rewrite Ec in Erc. cbn [rbind] in Erc. rewrite E in Erc. cbn [rbind] in Erc. cbn [syms] in Es. rewrite E in Es. cbn [rbind] in Es.
      inversion Es. rewrite app_nil_r. pose proof (store_app (Z * Z) [] e (0, 0)%Z (length e) (le_n _)) as Hst. cbn [length app] in Hst. rewrite Hst, Nat.sub_diag in Erc. cbn [repeat] in Erc. rewrite app_nil_r in Erc. congruence.
    + rewrite (count_loop R k Jmin chk D bs bi bo s l 0 rc' Hw Es) in Erc. cbn [rbind Nat.add] in Erc.
      pose proof (sym_loop R k Jmin chk D bs bi bo s l [] (length rc') rc' Hw Es (le_n _)) as Hlp. cbn [length app Nat.add] in Hlp. rewrite Hlp in Erc. cbn [rbind snd] in Erc. rewrite Nat.sub_diag in Erc. cbn [repeat] in Erc. rewrite app_nil_r in Erc. congruence. }
  subst rc'.
  destruct (values_loop R k Jmin junk chk D bs bi bo jl s l s h [] (length vals) rc eq_refl Hh H Hsh Es Hlen) as (s' & h' & L & E & H1 & H2 & H3 & H4 & H5 & H6).
  cbn [app length Nat.add] in E. exists s', h', (L ++ repeat 0%R (length vals - length rc)). split.
  - destruct t as [i|l']; cbn [singles] in Ht; subst; cbn [assemble_values].
    + destruct (Hw i (or_introl eq_refl)) as (rin & rout & bI & bO & Hf). destruct (fw_asm _ _ _ _ _ _ _ _ _ _ _ _ _ Hf) as (Hop & _). pose proof (ow_ne Hop) as Hpos.
      destruct (Nat.eqb_spec (o_ne (c_ops s i)) 0); [lia|]. cbn [map rfold fst snd] in E.
      destruct (single_assemble k junk chk D bs bi bo jl i 0 (s, repeat 0%R (length vals))) as [sv| |]; cbn [rbind] in E; try discriminate.
      destruct (count_entries D (c_ops s i)) as [m| |]; cbn [rbind] in E; try discriminate. inversion E. reflexivity.
    + rewrite E. cbn [rbind snd]. reflexivity.
  - split; [exact H1|]. split; [exact H2|]. split; [exact H3|]. split; [exact H4|]. split; [rewrite app_length, repeat_length; lia|]. split.
    + intros n Hn. unfold vf. rewrite app_nth2 by lia. destruct (Nat.lt_ge_cases (n - length L) (length vals - length rc)); [apply nth_repeat|apply nth_overflow; rewrite repeat_length; lia].
    + intros vm inv v q Hv. rewrite coo_more by lia. rewrite H6 by (intros; apply Hv; auto).
      clear - Hv. induction l as [|i l IH]; [reflexivity|]. rewrite !sumL_cons, IH by (intros; apply Hv; right; auto). rewrite added_active by (apply Hv; left; auto). reflexivity.
Qed.
Print Assumptions C35_matrix.

(** Together with C29: applying the operator to any input vector gives the matrix times that vector. *)
Theorem C35_apply : forall (R : Rng) k Jmin junk chk D bs bi bo jl h (s : cstate R) i rc vals s' vals' im vm inv v,
  history R k Jmin junk chk D bs h s -> sub_wf R k Jmin chk D bs bi bo s i -> passive_ok R D (c_ops s i) (c_vm s) -> ready R D s h i ->
  assemble_symbolic chk D s (TSingle i) = Ok rc -> length rc <= length vals -> assemble_values k junk chk D bs bi bo jl s (TSingle i) vals = Ok (s', vals') ->
  mem_ok vm -> im_ok chk D bs (c_ops s i) im vm -> vec_len D (c_ops s i) vm inv (Some v) -> apart (c_ops s i) inv (Some v) ->
  same_passive R (c_ops s i) (c_vm s) vm -> not_passive (c_ops s i) v ->
  exists im' vm' y, single_apply k junk chk D bs (c_ops s i) im vm inv (Some v) = Ok (im', vm') /\ vv_data (vm' v) = Some y /\ length y = vv_len (vm v) /\
    forall q, vf y q = coo rc vals' (act_in R vm inv) q.
Proof.
  intros R k Jmin junk chk D bs bi bo jl h s i rc vals s' vals' im vm inv v Hh Hw Hp Hr Erc Hl Ev Hm Him Hvl Hap Hs Hn.
  destruct (C35_matrix R k Jmin junk chk D bs bi bo jl h s (TSingle i) [i] rc vals Hh eq_refl) as (s2 & h2 & v2 & E2 & _ & _ & _ & _ & _ & _ & Hmat); auto.
  { intros j [<-|[]]. auto. } { intros a b [<-|[]] [<-|[]] _. reflexivity. }
  rewrite Ev in E2. inversion E2; subst s2 v2. destruct Hw as (rin & rout & bI & bO & Hf). destruct (fw_asm _ _ _ _ _ _ _ _ _ _ _ _ _ Hf) as (Hop & _).
  destruct (C29_apply R k Jmin junk chk D bs (c_ops s i) im vm inv (Some v) Hop Hm Him Hvl Hap) as (im' & vm' & E & _ & _ & Hout). exists im', vm'.
  specialize (Hout v). assert (Ho : outs (c_ops s i) (Some v) v = true).
  { unfold outs. apply existsb_exists. destruct (os_some (fw_out _ _ _ _ _ _ _ _ _ _ _ _ _ Hf)) as (j & Hj & Ha). exists (fld (o_out (c_ops s i)) j). split; [apply nth_In; auto|].
    unfold OpModel.target, is_active, oeq in *. destruct (f_vec (fld (o_out (c_ops s i)) j)); try discriminate. apply Nat.eqb_refl. }
  rewrite Ho in Hout. destruct Hout as (_ & y & E1 & E3 & E4). exists y. split; auto. split; auto. split; auto. intros q. rewrite E4.
  rewrite (Hmat vm inv v q). { rewrite sumL_cons, sumL_nil. pose proof (r_th R) as Hth. rewrite (Radd_comm Hth), (Radd_0_l Hth). reflexivity. }
  intros j [<-|[]]. auto.
Qed.
Print Assumptions C35_apply.
Theorem C35_apply_composite : forall (R : Rng) k Jmin junk chk D bs bi bo jl h (s : cstate R) l rc vals s' vals' ims vm inv v,
  history R k Jmin junk chk D bs h s ->
  (forall i, In i l -> sub_wf R k Jmin chk D bs bi bo s i /\ passive_ok R D (c_ops s i) (c_vm s) /\ ready R D s h i) ->
  (forall i j, In i l -> In j l -> shares h i j = true -> i = j) ->
  assemble_symbolic chk D s (TComp (map Some l)) = Ok rc -> length rc <= length vals -> assemble_values k junk chk D bs bi bo jl s (TComp (map Some l)) vals = Ok (s', vals') ->
  mem_ok vm -> let subs := map (fun i => Leaf (c_ops s i) (ims i)) l in apart_comp inv (Some v) subs ->
  (forall i, In i l -> im_ok chk D bs (c_ops s i) (ims i) vm /\ vec_len D (c_ops s i) vm inv (Some v) /\ same_passive R (c_ops s i) (c_vm s) vm /\ not_passive (c_ops s i) v) ->
  exists t' vm' y, tree_apply k junk chk D bs (Comp subs) vm inv (Some v) = Ok (t', vm') /\ vv_data (vm' v) = Some y /\ length y = vv_len (vm v) /\
    forall q, vf y q = coo rc vals' (act_in R vm inv) q.
Proof.
  intros R k Jmin junk chk D bs bi bo jl h s l rc vals s' vals' ims vm inv v Hh H Hsh Erc Hl Ev Hm subs Hap Ho.
  destruct (C35_matrix R k Jmin junk chk D bs bi bo jl h s (TComp (map Some l)) l rc vals Hh eq_refl H Hsh Erc Hl) as (s2 & h2 & v2 & E2 & _ & _ & _ & _ & _ & _ & Hmat).
  rewrite Ev in E2. inversion E2; subst s2 v2.
  assert (Hlv : forall o im, In (o, im) (OpTree.leaves (Comp subs)) -> exists i, In i l /\ o = c_ops s i /\ im = ims i).
  { intros o im Hin. cbn [OpTree.leaves] in Hin. apply in_flat_map in Hin. destruct Hin as (x & Hx & Hin). unfold subs in Hx. apply in_map_iff in Hx. destruct Hx as (i & <- & Hi). cbn [OpTree.leaves] in Hin.
    destruct Hin as [Hin|[]]. inversion Hin. eauto. }
  assert (Hmap : map fst (OpTree.leaves (Comp subs)) = map (c_ops s) l).
  { unfold subs. cbn [OpTree.leaves]. clear. induction l as [|i l IH]; simpl; auto. f_equal. exact IH. }
  destruct (C29_composite_apply R k Jmin junk chk D bs inv (Some v) subs vm) as (t' & vm' & E & _ & Hout); auto.
  { unfold subs. apply forallb_forall. intros x Hx. apply in_map_iff in Hx. destruct Hx as (i & <- & _). reflexivity. }
  { intros o im Hin. destruct (Hlv o im Hin) as (i & Hi & -> & ->). destruct (H i Hi) as ((rin & rout & bI & bO & Hf) & _). destruct (Ho i Hi) as (K1 & K2 & _). split; auto.
    left. apply (fw_asm _ _ _ _ _ _ _ _ _ _ _ _ _ Hf). }
  exists t', vm'. specialize (Hout v). assert (Hc : cleared (Some v) subs v = true).
  { unfold cleared. rewrite orb_true_iff. left. unfold oeq. apply Nat.eqb_refl. }
  rewrite Hc in Hout. destruct Hout as (_ & y & E1 & E3 & E4). exists y. split; auto. split; auto. split; auto. intros q. rewrite E4, Hmap.
  rewrite (Hmat vm inv v q) by (intros i Hi; destruct (Ho i Hi) as (_ & _ & K); exact K). apply (@sumL_map R nat (oper R) l (c_ops s) (fun o => added D o vm inv (Some v) v q)).
Qed.
Print Assumptions C35_apply_composite.

(** What cannot be assembled is rejected with an error: composite operators inside composite operators, active fields with
    different restrictions, active inputs or active outputs with different bases. *)
Lemma rfold_stops : forall A B (f : A -> B -> res B) (x : A) l, In x l -> (forall b r, f x b <> Ok r) -> forall b r, rfold l f b <> Ok r.
Proof.
  intros A B f x l. induction l as [|a l IH]; intros Hin Hx b r; [destruct Hin|]. cbn [rfold]. destruct Hin as [->|Hin].
  - destruct (f x b) as [b'| |] eqn:E; cbn [rbind]; try discriminate. exfalso. apply (Hx b b'). auto.
  - destruct (f a b) as [b'| |]; cbn [rbind]; try discriminate. apply IH; auto.
Qed.
Lemma group_ids : forall (R : Rng) ptr (fs : list (ofield R)) j, j < length fs -> is_active (fld fs j) = true -> In (ptr j) (map (@g_id R) (groups ptr fs)).
Proof.
  intros R ptr fs j Hj Ha. unfold groups. rewrite combine_fld.
  assert (Hadd : forall id f gs x, In x (map (@g_id R) gs) \/ x = id -> In x (map (@g_id R) (add_group id f gs))).
  { intros id f. induction gs as [|g gs IH]; intros x Hx; cbn [add_group map].
    - destruct Hx as [[] | ->]. left. reflexivity.
    - destruct (Nat.eqb_spec (g_id g) id) as [E|E]; cbn [map In g_id] in *; [|destruct Hx as [[Hx|Hx]|Hx]; auto].
      destruct Hx as [[Hx|Hx]|Hx]; auto. left. congruence. }
  assert (H : forall l gs, (In (ptr j) (map (@g_id R) gs) \/ In j l) ->
    In (ptr j) (map (@g_id R) (fold_left (fun gs jf => if is_active (snd jf) then add_group (ptr (fst jf)) (snd jf) gs else gs) (map (fun j => (j, fld fs j)) l) gs))).
  { induction l as [|a l IH]; intros gs Hx; cbn [map fold_left fst snd]. { destruct Hx as [Hx|[]]; auto. }
    apply IH. destruct Hx as [Hx|[->|Hx]]; auto.
    - left. destruct (is_active (fld fs a)); auto.
    - left. rewrite Ha. apply Hadd. auto. }
  apply H. right. apply in_seq. lia.
Qed.
Lemma act_rstr_two : forall (R : Rng) (fs : list (ofield R)) j j' i i', j < length fs -> j' < length fs -> is_active (fld fs j) = true -> is_active (fld fs j') = true ->
  f_rstr (fld fs j) = Some i -> f_rstr (fld fs j') = Some i' -> i <> i' -> (forall f, In f fs -> is_active f = true -> f_rstr f <> None) -> act_rstr None fs = Err ERR_MINOR.
Proof.
  intros R fs j j' i i' Hj Hj' Ha Ha' Er Er' Hne Hsome.
  assert (H : forall l acc, (forall f, In f l -> is_active f = true -> f_rstr f <> None) ->
    (exists f f' : ofield R, In f l /\ In f' l /\ is_active f = true /\ is_active f' = true /\ f_rstr f <> f_rstr f') \/ (exists a f, acc = Some a /\ In f l /\ is_active f = true /\ f_rstr f <> Some a) ->
    act_rstr acc l = Err ERR_MINOR).
  { induction l as [|g l IH]; intros acc Hs Hx. { destruct Hx as [(f & f' & [] & _)|(a & f & _ & [] & _)]. }
    cbn [act_rstr]. destruct (is_active g) eqn:Eg.
    - destruct (f_rstr g) as [r|] eqn:Egr; [|exfalso; apply (Hs g (or_introl eq_refl) Eg); auto].
      assert (Hs' : forall f, In f l -> is_active f = true -> f_rstr f <> None) by (intros; apply Hs; auto; right; auto).
      destruct acc as [a|].
      + destruct (Nat.eqb_spec r a) as [->|]; auto. apply IH; auto. destruct Hx as [(f & f' & [->|H1] & [->|H2] & A1 & A2 & A3)|(a' & f & E & [->|H1] & A1 & A2)]; try congruence.
        * right. exists a, f'. split; auto. split; auto. split; auto. congruence.
        * right. exists a, f. split; auto. split; auto. split; auto. congruence.
        * left. exists f, f'. auto.
        * right. exists a', f. auto.
      + apply IH; auto. destruct Hx as [(f & f' & [->|H1] & [->|H2] & A1 & A2 & A3)|(a' & f & E & _)]; try congruence.
        * right. exists r, f'. split; auto. split; auto. split; auto. congruence.
        * right. exists r, f. split; auto. split; auto. split; auto. congruence.
        * left. exists f, f'. auto.
    - apply IH; [intros; apply Hs; auto; right; auto|]. destruct Hx as [(f & f' & [->|H1] & [->|H2] & A1 & A2 & A3)|(a' & f & E & [->|H1] & A1 & A2)]; try congruence.
      + left. exists f, f'. auto.
      + right. exists a', f. auto. }
  apply H; auto. left. exists (fld fs j), (fld fs j'). repeat (split; [try apply nth_In; auto|]). congruence.
Qed.
Theorem C35_errors : forall (R : Rng) k Jmin junk chk D bs bi bo jl h (s : cstate R) vals, history R k Jmin junk chk D bs h s ->
  (forall l r, In None l -> assemble_symbolic chk D s (TComp l) <> Ok r) /\
  (forall l r, In None l -> assemble_values k junk chk D bs bi bo jl s (TComp l) vals <> Ok r) /\
  (forall l, assemble_symbolic chk D s (TComp (None :: l)) = Err ERR_UNSUPPORTED /\ assemble_values k junk chk D bs bi bo jl s (TComp (None :: l)) vals = Err ERR_UNSUPPORTED) /\
  (forall i j j', j < length (o_in (c_ops s i)) -> j' < length (o_in (c_ops s i)) -> is_active (fld (o_in (c_ops s i)) j) = true -> is_active (fld (o_in (c_ops s i)) j') = true ->
     f_rstr (fld (o_in (c_ops s i)) j) <> f_rstr (fld (o_in (c_ops s i)) j') -> assemble_symbolic chk D s (TSingle i) = Err ERR_MINOR) /\
  (forall i, passive_ok R D (c_ops s i) (c_vm s) ->
     (exists j j', j < length (o_in (c_ops s i)) /\ j' < length (o_in (c_ops s i)) /\ is_active (fld (o_in (c_ops s i)) j) = true /\ is_active (fld (o_in (c_ops s i)) j') = true /\ bi i j <> bi i j') \/
     (exists j j', j < length (o_out (c_ops s i)) /\ j' < length (o_out (c_ops s i)) /\ is_active (fld (o_out (c_ops s i)) j) = true /\ is_active (fld (o_out (c_ops s i)) j') = true /\ bo i j <> bo i j') ->
     assemble_values k junk chk D bs bi bo jl s (TSingle i) vals = Err ERR_UNSUPPORTED).
Proof.
  intros R k Jmin junk chk D bs bi bo jl h s vals Hh. split; [|split; [|split; [|split]]].
  - intros l r Hin E. cbn [assemble_symbolic] in E.
    match type of E with rbind (rfold ?l ?f ?b) _ = _ => destruct (rfold l f b) as [n| |] eqn:En; cbn [rbind] in E; try discriminate; revert En; apply (rfold_stops _ _ f None l Hin) end. discriminate.
  - intros l r Hin E. cbn [assemble_values] in E.
    match type of E with rbind (rfold ?l ?f ?b) _ = _ => destruct (rfold l f b) as [n| |] eqn:En; cbn [rbind] in E; try discriminate; revert En; apply (rfold_stops _ _ f None l Hin) end. discriminate.
  - intros l. split; reflexivity.
  - intros i j j' Hj Hj' Ha Ha' Hne. cbn [assemble_symbolic]. unfold count_entries.
    pose proof (history_ok R k Jmin junk chk D bs h s Hh) as (_ & _ & _ & Hop). destruct (Hop i) as ((Hw & Hwp & _) & _).
    assert (Hsome : forall f, In f (o_in (c_ops s i)) -> is_active f = true -> f_rstr f <> None).
    { intros f Hf Hfa. destruct (In_nth _ f (mkOF 0 EvNone None None VNo) Hf) as (x & Hx & Ex). pose proof (ow_in Hw Hx) as Hfw. pose proof (Hwp x Hx) as Hpw. unfold fld in *. rewrite Ex in *.
      unfold field_wf in Hfw. destruct (f_mode f); try (destruct Hfw as (a & b & mt & E & _); congruence); try (destruct Hfw as (a & E & _); congruence). rewrite Hpw in Hfa by auto. discriminate. }
    assert (E : act_rstr None (o_in (c_ops s i)) = Err ERR_MINOR).
    { destruct (f_rstr (fld (o_in (c_ops s i)) j)) as [a|] eqn:E1. 2: { exfalso. apply (Hsome (fld (o_in (c_ops s i)) j)); auto. apply nth_In; auto. }
      destruct (f_rstr (fld (o_in (c_ops s i)) j')) as [b|] eqn:E2. 2: { exfalso. apply (Hsome (fld (o_in (c_ops s i)) j')); auto. apply nth_In; auto. }
      apply (act_rstr_two R _ j j' a b); auto. }
    rewrite E. reflexivity.
  - intros i Hp Hx. cbn [assemble_values]. pose proof (history_ok R k Jmin junk chk D bs h s Hh) as Hinv. assert (Hinv' := Hinv). destruct Hinv' as (_ & _ & _ & Hop). destruct (Hop i) as ((Hw & _) & _).
    pose proof (ow_ne Hw) as Hpos. destruct (Nat.eqb_spec (o_ne (c_ops s i)) 0) as [|Hn0]; [lia|]. unfold single_assemble. cbn [fst snd]. apply Nat.eqb_neq in Hn0. rewrite Hn0.
    destruct (call_ok R k Jmin junk chk D bs h s jl i Hinv Hp) as (s1 & v & Eb & _). rewrite Eb. cbn [rbind].
    assert (Htwo : forall ptr (fs : list (ofield R)) j j' g, j < length fs -> j' < length fs -> is_active (fld fs j) = true -> is_active (fld fs j') = true -> ptr j <> ptr j' -> groups ptr fs <> [g]).
    { intros ptr fs j j' g Hj Hj' Ha Ha' Hne E. pose proof (group_ids R ptr fs j Hj Ha) as G1. pose proof (group_ids R ptr fs j' Hj' Ha') as G2. rewrite E in G1, G2. cbn [map In] in G1, G2.
      destruct G1 as [G1|[]]. destruct G2 as [G2|[]]. congruence. }
    assert (HX : ~ exists g g', groups (bi i) (o_in (c_ops s1 i)) = [g] /\ groups (bo i) (o_out (c_ops s1 i)) = [g']).
    { destruct (call_ok R k Jmin junk chk D bs h s jl i Hinv Hp) as (s2 & v2 & Eb2 & _ & _ & _ & Eo & _). rewrite Eb in Eb2. inversion Eb2; subst s2. rewrite Eo. intros (g & g' & E1 & E2).
      destruct Hx as [(j & j' & K1 & K2 & K3 & K4 & K5)|(j & j' & K1 & K2 & K3 & K4 & K5)]; [apply (Htwo (bi i) _ j j' g K1 K2 K3 K4 K5 E1)|apply (Htwo (bo i) _ j j' g' K1 K2 K3 K4 K5 E2)]. }
    assert (Eo : c_ops s1 = c_ops s). { destruct (call_ok R k Jmin junk chk D bs h s jl i Hinv Hp) as (s2 & v2 & Eb2 & _ & _ & _ & Eo & _). rewrite Eb in Eb2. inversion Eb2; subst s2. exact Eo. }
    rewrite Eo in HX. destruct (groups (bi i) (o_in (c_ops s i))) as [|g [|g2 gs]]; try reflexivity. destruct (groups (bo i) (o_out (c_ops s i))) as [|g' [|g2 gs]]; try reflexivity.
    exfalso. apply HX. eauto.
Qed.
Print Assumptions C35_errors.

(** *** the theorems at work *)
Definition one_ptr (i j : nat) : nat := 0.
Notation ex_bs2 bs := (bs = None \/ bs = Some 8).
Lemma ex_full : forall bs, ex_bs2 bs -> full_wf Zrng (@contract_avx Zrng) 2 true ex_D bs ex_op (one_ptr 0) (one_ptr 0) 0 0 (Some (BT ex_b1)) (Some (BT ex_b1)).
Proof.
  intros bs Hb. destruct (C33_ex bs Hb) as (H1 & _ & H3 & _). constructor; auto.
  - constructor; [exists 1; split; [simpl; lia|reflexivity]| |reflexivity|reflexivity|].
    + intros j Hj Ha. simpl in Hj. destruct j as [|[|[|[|j]]]]; try lia; try discriminate; split; reflexivity.
    + intros j j' Hj Hj' Ha Ha' Hm. simpl in Hj'. destruct j as [|[|[|[|j]]]]; try lia; try discriminate; simpl; lia.
  - constructor; [exists 1; split; [simpl; lia|reflexivity]| |reflexivity|reflexivity|].
    + intros j Hj Ha. simpl in Hj. destruct j as [|[|j]]; try lia; split; reflexivity.
    + intros j j' Hj Hj' Ha Ha' Hm. simpl in Hj'. destruct j as [|[|j]]; try lia; simpl; lia.
  - eexists; reflexivity.
  - eexists; reflexivity.
Qed.
Definition ex_cs : cstate Zrng := new_cs (fun _ => ex_op) ex_vm.
Definition tri (rc : res (list (Z * Z))) (vals : res (cstate Zrng * list Zrng)) : list ((Z * Z) * Z) :=
  match rc, vals with Ok rc, Ok (_, v) => combine rc v | _, _ => [] end.
Example C35_ex : forall bs, ex_bs2 bs ->
  history Zrng (@contract_avx Zrng) 2 junkZ true ex_D bs [] ex_cs /\
  (forall i, In i [0; 1] -> sub_wf Zrng (@contract_avx Zrng) 2 true ex_D bs one_ptr one_ptr ex_cs i /\ passive_ok Zrng ex_D (c_ops ex_cs i) (c_vm ex_cs) /\ ready Zrng ex_D ex_cs [] i) /\
  (forall i j, In i [0; 1] -> In j [0; 1] -> shares ([] : list (hev Zrng)) i j = true -> i = j) /\
  not_passive ex_op 2 /\ mem_ok ex_vm /\ vec_len ex_D ex_op ex_vm (Some 1) (Some 2) /\ apart ex_op (Some 1) (Some 2).
Proof.
  intros bs Hb. split; [|split; [|split; [|split]]].
  - apply h_new; [|apply ex_mem_ok]. intros i. apply C33_ex. auto.
  - intros i _. split; [exists 0, 0, (Some (BT ex_b1)), (Some (BT ex_b1)); apply ex_full; auto|]. split; [apply (C33_ex bs Hb)|reflexivity].
  - intros i j _ _ E. cbn [shares] in E. apply Nat.eqb_eq in E. auto.
  - intros j Hj. simpl in Hj. destruct j as [|[|j]]; try lia; discriminate.
  - split; [apply ex_mem_ok|]. split; apply C29_ex_apply.
Qed.
(** three elements with two nodes; once and twice; the product with the vector [1; -2; 3; 5] is that of C29_ex_apply *)
Example C35_ex_run : forall bs, ex_bs2 bs ->
  tri (assemble_symbolic true ex_D ex_cs (TSingle 0)) (assemble_values (@contract_avx Zrng) junkZ true ex_D bs one_ptr one_ptr (fun _ => 5%Z) ex_cs (TSingle 0) (repeat 9%Z 12)) =
    [((0,0),17);((0,1),-1);((1,0),-2);((1,1),18); ((1,1),44);((1,2),-4);((2,1),-5);((2,2),39); ((2,2),71);((2,3),-7);((3,2),-8);((3,3),60)]%Z /\
  match assemble_symbolic true ex_D ex_cs (TComp [Some 0; Some 1]), assemble_values (@contract_avx Zrng) junkZ true ex_D bs one_ptr one_ptr (fun _ => 5%Z) ex_cs (TComp [Some 0; Some 1]) (repeat 9%Z 24) with
  | Ok rc, Ok (_, v) => map (coo rc v ([1; -2; 3; 5]%Z : list Zrng)) (seq 0 4) = [38; -276; 610; 552]%Z
  | _, _ => False end.
Proof. intros bs [-> | ->]; split; vm_compute; reflexivity. Qed.

(** Finding: two active inputs with the same evaluation mode of several components (two gradients in two dimensions) make
    CeedOperatorAssemblyDataGetBases count through the directions twice; it reads past the end of the gradient matrix. *)
Definition ex_b2 : tbasis Zrng := @mkT Zrng 2 1 1 1 [1]%Z [1]%Z [1]%Z false None.
Definition ex_D2 (i : nat) : udesc := mkU 1 1 1 1%Z 1 (UStandard [0]%Z).
Definition ex_op2 : oper Zrng := mkOp [mkOF 2 EvGrad (Some 0) (Some (BT ex_b2)) VAct; mkOF 2 EvGrad (Some 0) (Some (BT ex_b2)) VAct]
  [mkOF 1 EvInterp (Some 0) (Some (BT ex_b2)) VAct] 1 1 false 1 (fun ins => [[vf (nth 0 ins []) 0 + vf (nth 1 ins []) 1]]%Z).
Definition cs_two : cstate Zrng := new_cs (fun _ => ex_op2) ex_vm.
Lemma ex_b2_wf : b_wf 0 (BT ex_b2).
Proof. simpl. unfold t_wf, sizes_ok. simpl. repeat split; try lia; try discriminate. Qed.
Theorem C35_two_grad_refuted : exists (s : cstate Zrng) vals,
  history Zrng (@contract_ref Zrng) 0 junkZ true ex_D2 None [] s /\ linear (c_ops s 0) /\ passive_ok Zrng ex_D2 (c_ops s 0) (c_vm s) /\
  (forall j, j < 2 -> fld (o_in (c_ops s 0)) j = mkOF 2 EvGrad (Some 0) (Some (BT ex_b2)) VAct) /\
  assemble_values (@contract_ref Zrng) junkZ true ex_D2 None one_ptr one_ptr (fun _ => 0%Z) s (TSingle 0) vals = UB.
Proof.
  exists cs_two, [0%Z].
  assert (Hr : rstr_wf true None ex_op2 (ex_D2 0)).
  { split; [reflexivity|]. split; [|split; [exact I|split; [eexists; reflexivity|reflexivity]]]. intros el kk m Hel Hk Hm. simpl in *. assert (el = 0) by lia. assert (kk = 0) by lia. assert (m = 0) by lia. subst. vm_compute. intuition congruence. }
  split; [|split; [|split; [|split]]].
  - apply h_new; [|apply ex_mem_ok]. intros _. split; [|split; [|split; [|split; [|split; [reflexivity|]]]]]; try (simpl; lia).
    + constructor; try (simpl; lia).
      * apply ref_ok.
      * intros i Hi. simpl in Hi. destruct i as [|[|i]]; try lia; (unfold field_wf; cbn [fld nth o_in ex_op2 f_mode]; exists 0, (BT ex_b2); eexists; split; [reflexivity|]; split; [reflexivity|]; split; [exact Hr|]; split; [apply ex_b2_wf|]; repeat split).
      * intros i Hi. simpl in Hi. destruct i as [|i]; try lia. split; [|discriminate].
        unfold field_wf; cbn [fld nth o_out ex_op2 f_mode]; exists 0, (BT ex_b2); eexists; split; [reflexivity|]; split; [reflexivity|]; split; [exact Hr|]; split; [apply ex_b2_wf|]; repeat split.
      * intros i j Hij Hsm Hfst. simpl in Hij. destruct i as [|[|i]]; try lia; reflexivity.
    + intros i Hi Hm. simpl in Hi. destruct i as [|[|i]]; try lia; discriminate.
    + intros i j Hi Hj _ _ Mi. simpl in Hi. destruct i as [|[|i]]; try lia; discriminate.
  - intros pas a1 a2 t j c Hj Ha Hc. simpl in Hj. destruct j; [|lia]. simpl in Hc. destruct c; [|lia]. unfold qf_at, cs_two, ex_op2, fill, vf. simpl. ring.
  - intros i Hi Hm Ha. simpl in Hi. destruct i as [|[|i]]; try lia; discriminate.
  - intros j Hj. destruct j as [|[|j]]; try lia; reflexivity.
  - vm_compute. reflexivity.
Qed.
Print Assumptions C35_two_grad_refuted.
