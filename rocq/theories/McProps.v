(** * The memcheck backend: property C56, concrete histories and findings

    [srun] (McSpec) says what a client may do; the conclusions speak of the two modelled backends, [run] (ref,
    VecModel) and [mrun] (memcheck, McModel). *)
From Coq Require Import List ZArith Lia Bool Arith.
From Verif Require Import Prelude RstrModel VecModel VecSpec VecProofs VecSim VecStep VecRefine VecLaws VecProps McModel McSpec McProofs McStep McStep2 McStep3 McStep4 McStep5 McStep6.
Import ListNotations.
Local Open Scope Z_scope.

Arguments MBase {R} c. Arguments MWriteRead {R} v i x.
Section P.
Variable R : Rng.
Variables (nan : R) (eqs : R -> R -> bool).
Hypothesis eqs_refl : forall a, eqs a a = true.
Variables (fabs : R -> R) (gtb : R -> R -> bool) (sqrt : R -> R) (big : R -> bool) (inv : R -> R).
Notation srun := (srun fabs gtb sqrt big inv). Notation run := (run fabs gtb sqrt big inv). Notation mrun := (mrun nan eqs fabs gtb sqrt big inv). Notation mstep := (mstep nan eqs fabs gtb sqrt big inv).
Notation base := (map (@MBase R)).

(** Every history of a client that keeps the rules runs on both backends with the same outcomes: the same error codes,
    the same values read, no undefined behaviour - whatever value stands for NAN. *)
Theorem C56_refines : forall cs os s g, srun cs empty_astate no_ghost = Some (os, s, g) ->
  (exists w, run cs empty_world = Some (os, w)) /\ (exists w, mrun (base cs) empty_mworld = Some (os, w)).
Proof.
  intros cs os s g H. destruct (mc_run nan eqs eqs_refl _ _ _ _ _ cs (rel_init R) H) as (A & w & B & _). split; [|eauto].
  destruct (Inv_run _ _ _ _ _ _ _ _ _ _ _ (Inv_init R) A) as (w' & C & _). eauto.
Qed.

(** what the client sees through the pointer granted for reading *)
Definition sees (w : mworld R) (v i : nat) : option R := match mstep (MBase (VRead v i)) w with MOk (OVal a) _ => Some a | _ => None end.
Definition writes (v : nat) (ws : list (nat * R)) : list (mcmd R) := map (fun p => MWriteRead v (fst p) (snd p)) ws.
Lemma sees_at : forall w v i x l, w_mv w v = Some x -> m_rp x = true -> m_ro x = Some l -> sees w v i = nth_error l i.
Proof. intros w v i x l E P O. unfold sees. simpl. unfold mlive. rewrite E, P, O. simpl. destruct (nth_error l i); auto. Qed.
Lemma writes_run : forall ws w v x l, w_mv w v = Some x -> m_rp x = true -> m_ro x = Some l -> Forall (fun p => (fst p < length l)%nat) ws ->
  exists os w' l', mrun (writes v ws) w = Some (os, w') /\ w_mv w' v = Some (mc_ro x (Some l')) /\ length l' = length l /\ (forall ws' i a, ws = ws' ++ [(i, a)] -> nth_error l' i = Some a).
Proof.
  induction ws as [|(i & a) ws IH]; intros w v x l E P O F.
  - exists [], w, l. split; [reflexivity|]. split. { rewrite E. f_equal. destruct x; simpl in *; subst; reflexivity. } split; auto. intros ws' i a Q. destruct ws'; discriminate.
  - inversion F; subst. simpl in H1. set (x1 := mc_ro x (Some (upd l i a))).
    assert (L1 : length (upd l i a) = length l) by apply upd_length.
    destruct (IH (putm w v x1 (w_mh w)) v x1 (upd l i a)) as (os & w' & l' & A & B & C & D); auto.
    { simpl. apply nupd_eq. } { rewrite L1. auto. }
    exists (inl ODone :: os), w', l'. split; [|split; [exact B|split; [lia|]]].
    + simpl. unfold mlive. rewrite E. unfold poke. rewrite P, O. rewrite set_Some by auto. fold x1. change (map (fun p : nat * R => MWriteRead v (fst p) (snd p)) ws) with (writes v ws). rewrite A. auto.
    + intros ws' j b Q. destruct ws' as [|q ws']; simpl in Q; inversion Q; subst.
      * simpl in A. inversion A; subst. simpl in B. rewrite nupd_eq in B. assert (l' = upd l j b) by (unfold x1, mc_ro in B; inversion B; auto). subst. rewrite nth_error_upd, Nat.eqb_refl, (proj2 (Nat.ltb_lt _ _)) by auto. auto.
      * apply (D ws' j b). reflexivity.
Qed.
Lemma same_spec : forall n (a b : list R), (n <= length a)%nat -> (n <= length b)%nat ->
  exists c, same eqs n a b = Some c /\ (c = false <-> exists i x y, (i < n)%nat /\ nth_error a i = Some x /\ nth_error b i = Some y /\ eqs x y = false).
Proof.
  induction n as [|n IH]; intros [|x a] [|y b] A B; simpl in *; try lia.
  1-4: exists true; split; auto; split; [discriminate|]; intros (i & ? & ? & L & _); lia.
  destruct (IH a b) as (c & -> & D); [lia|lia|]. exists (eqs x y && c). split; auto. split.
  - intro Q. apply andb_false_iff in Q. destruct Q as [Q|Q].
    + exists 0%nat, x, y. repeat split; auto. lia.
    + apply D in Q. destruct Q as (i & p & q & L & Q). exists (S i), p, q. split; [lia|auto].
  - intros (i & p & q & L & P & Q & N). destruct i as [|i]; simpl in P, Q.
    + inversion P; inversion Q; subst. rewrite N. auto.
    + apply andb_false_iff. right. apply D. exists i, p, q. split; [lia|auto].
Qed.
(** A client holds a pointer granted for reading and writes through it, any number of entries of the array.  The last
    CeedVectorRestoreArrayRead fails exactly if the bytes of some entry now differ; an earlier one always succeeds. *)
Theorem C56_detects : forall cs os s g v y ws, srun cs empty_astate no_ghost = Some (os, s, g) ->
  s_vecs s v = Some y -> a_rg y = true -> a_len y <> O -> Forall (fun p => (fst p < a_len y)%nat) ws ->
  exists w0 w1 os1, mrun (base cs) empty_mworld = Some (os, w0) /\ mrun (writes v ws) w0 = Some (os1, w1) /\
  (forall ws' i a, ws = ws' ++ [(i, a)] -> sees w1 v i = Some a) /\
  let touched := exists i a b, (i < a_len y)%nat /\ sees w0 v i = Some a /\ sees w1 v i = Some b /\ eqs a b = false in
  (1 < a_readers y -> exists w2, mstep (MBase (CRestoreRead v)) w1 = MOk ODone w2) /\
  (a_readers y = 1 -> (touched /\ exists w2, mstep (MBase (CRestoreRead v)) w1 = MErr ERR_BACKEND w2) \/ (~ touched /\ exists w2, mstep (MBase (CRestoreRead v)) w1 = MOk ODone w2)).
Proof.
  intros cs os s g v y ws H Ey RG Z F. destruct (mc_run nan eqs eqs_refl _ _ _ _ _ cs (rel_init R) H) as (_ & w0 & B & RL).
  destruct (look v RL Ey) as (x & Ex & HD & BD). destruct (rg_data _ _ _ _ HD BD RG Z) as (l & la & _ & RP & RO & LA & _).
  assert (AL : m_alloc x = Some la).
  { destruct (h_rp HD RG) as (_ & RD). assert (C : a_cont y <> CEmpty). { intro C. unfold vbody, body in BD. destruct (Nat.eqb_spec (a_len y) 0); [contradiction|]. rewrite C in BD. destruct BD as (_ & _ & _ & _ & _ & _ & Q). lia. }
    destruct (valid_data BD Z C) as (l0 & _ & _ & lb & Q1 & _ & Q3 & _). rewrite RO in Q3. destruct (a_readers y =? 0); [discriminate|]. congruence. }
  destruct (writes_run ws w0 v x la Ex RP RO) as (os1 & w1 & lr & W1 & W2 & W3 & W4). { eapply Forall_impl; [|exact F]. simpl. lia. }
  exists w0, w1, os1. split; auto. split; auto. split. { intros ws' i a Q. erewrite sees_at; [|exact W2|exact RP|reflexivity]. eapply W4; eauto. }
  pose proof (h_r0 HD) as R0. intro touched.
  assert (ST : mstep (MBase (CRestoreRead v)) w1 = after v (fun x => mc_rp x (m_rp x && has (m_ro x))) (mi_restore_read eqs v w1)) by reflexivity.
  rewrite ST. unfold mi_restore_read, mlive. rewrite W2. cbn [m_readers mc_ro]. rewrite (h_rd HD).
  split; intro RD.
  - rewrite (proj2 (Z.ltb_lt _ _)) by lia. cbv zeta. cbn [m_readers mc_readers]. rewrite rd_add by lia. rewrite (proj2 (Z.eqb_neq (a_readers y + -1) 0)) by lia. rewrite andb_false_r.
    cbn [lift odone fst snd]. rewrite after_ok. eauto.
  - rewrite RD. cbn [Z.ltb Z.compare]. cbv zeta. cbn [m_readers mc_readers]. rewrite rd_add by lia. cbn [Z.eqb Z.add Z.opp Z.pos_sub]. unfold empty. cbn [m_len mc_readers mc_ro]. rewrite (h_len HD). rewrite (proj2 (Nat.eqb_neq _ _)) by auto. simpl negb. cbn [andb].
    unfold restore_read_mc. cbn [m_alloc m_ro m_len mc_readers mc_ro]. rewrite AL, (h_len HD). destruct (same_spec (a_len y) la lr) as (c & -> & D); [lia|lia|].
    assert (T : touched <-> c = false).
    { rewrite D. unfold touched. split; intros (i & a & b & L & P & Q & N); exists i, a, b; (split; [auto|]); rewrite ?(sees_at _ _ _ _ _ Ex RP RO), ?(sees_at w1 v i _ lr W2 RP eq_refl) in *; auto. }
    destruct c.
    + right. split. { intro Q. apply T in Q. discriminate. } cbn [lift odone fst snd]. rewrite after_ok. eauto.
    + left. split. { apply T. auto. } cbn [lift]. simpl. eauto.
Qed.
End P.

(** ** Concrete histories; scalars are integers *)
#[local] Canonical Structure Zrng.
Notation zbig := (fun x : Zrng => negb (Z.eqb x 0)).
Notation zinv := (fun x : Zrng => x).
Notation zstep := (@step Zrng Z.abs Z.gtb Z.sqrt zbig zinv).
Notation zrun := (@run Zrng Z.abs Z.gtb Z.sqrt zbig zinv).
Notation zarun := (@arun Zrng Z.abs Z.gtb Z.sqrt zbig zinv).
Notation zsrun := (@srun Zrng Z.abs Z.gtb Z.sqrt zbig zinv).
Notation zmrun := (@mrun Zrng (-999) Z.eqb Z.abs Z.gtb Z.sqrt zbig zinv).
Definition zcmd := cmd Zrng.
(** the outcomes on the ref backend and on the memcheck backend *)
Definition refobs (cs : list zcmd) := match zrun cs empty_world with Some (os, _) => Some os | None => None end.
Definition mcobs (cs : list zcmd) := match zmrun (map (@MBase Zrng) cs) empty_mworld with Some (os, _) => Some os | None => None end.
Definition lawful (cs : list zcmd) : bool := match zarun cs empty_astate with Some _ => true | None => false end.

(** the hypotheses of C56_refines: a history with every kind of action, lent and owned arrays, refused calls *)
Definition hmc : list zcmd :=
  [CCreate 3; CCreate 3; UAlloc [5; 6; 7; 8]; UAlloc [1; 2; 3]; UAlloc [4; 4; 4]; CSetArray 0 true UsePointer (SUser 0); CSetArray 1 true CopyValues (SUser 1);
   CAxpy 0 2 1; CScale 0 3; CAxpby 0 1 2 1; CSync 0 true; URead 0 2; CGetRead 0 true; VRead 0 1; CGet 0 true; CRestoreRead 0; CGet 0 true; VWrite 0 1 9; VReadW 0 1; CRestore 0; URead 0 1;
   CCopy 0 1; CCopyStrided 0 1 (-1) 2 1; CSetValueStrided 1 0 2 1 11; CNorm 1 Norm1; CMult 1 0 0; CRecip 1; CRestore 1; CGetWrite 1 true; VWrite 1 0 1; VWrite 1 1 2; VWrite 1 2 3; CRestore 1;
   CTake 0 true; URead 0 0; UFree 0; CSetArray 1 true OwnPointer (SUser 2); CRef 1; CDestroy 1; CSetValue 1 6; CNorm 1 NormMax; CDestroy 1; CDestroy 0; UWrite 1 0 8; UFree 1].
Example hmc_ok : exists os s g, zsrun hmc empty_astate no_ghost = Some (os, s, g) /\ refobs hmc = Some os /\ mcobs hmc = Some os /\
  nth 11 os (inr 0) = inl (OVal 81) /\ nth 14 os (inr 0) = inr ERR_ACCESS /\ nth 20 os (inr 0) = inl (OVal 9) /\ nth 24 os (inr 0) = inl (OVal 103) /\ nth 40 os (inr 0) = inl (OVal 6).
Proof. vm_compute. do 3 eexists. repeat split; reflexivity. Qed.
(** the hypotheses of C56_detects: two readers, then one *)
Definition hrd : list zcmd := [CCreate 2; CSetValue 0 3; CGetRead 0 true].
Example hrd_ok : match zsrun hrd empty_astate no_ghost with Some (_, s, _) => match s_vecs s 0%nat with Some y => a_rg y = true /\ a_readers y = 1 /\ a_len y = 2%nat | None => False end | None => False end.
Proof. vm_compute. auto. Qed.
Example hrd_fails : option_map fst (zmrun (map (@MBase Zrng) hrd ++ [MWriteRead 0 1 9; MBase (CRestoreRead 0)]) empty_mworld) = Some [inl (OId 0); inl ODone; inl ODone; inl ODone; inr ERR_BACKEND] /\
  option_map fst (zmrun (map (@MBase Zrng) hrd ++ [MWriteRead 0 1 9; MWriteRead 0 1 3; MBase (CRestoreRead 0)]) empty_mworld) = Some [inl (OId 0); inl ODone; inl ODone; inl ODone; inl ODone; inl ODone].
Proof. vm_compute. auto. Qed.

(** ** Findings: the two backends differ on lawful histories *)
Definition last2 (o : option (list (obs Zrng + Z))) : list (obs Zrng + Z) := match o with Some os => skipn (length os - 2) os | None => [] end.
(** Finding: with a backend function CeedVectorScale (and AXPY, AXPBY, PointwiseMult, Reciprocal) does not check the access lock (ceed-vector.c:698-722):
    on the memcheck backend scaling a vector during write access reports success and the result is lost when the access
    is returned; on the ref backend the call is refused. *)
Theorem C56_scale_lost_refuted : exists cs, lawful cs = true /\ last2 (refobs (cs ++ [CScale 0 2; CRestore 0])) = [inr ERR_ACCESS; inl ODone] /\ last2 (mcobs (cs ++ [CScale 0 2; CRestore 0])) = [inl ODone; inl ODone] /\
  last2 (mcobs (cs ++ [CScale 0 2; CRestore 0; CGetRead 0 true; VRead 0 0])) = [inl ODone; inl (OVal 3)].
Proof. exists [CCreate 2; CSetValue 0 3; CGet 0 true]. vm_compute. repeat split; reflexivity. Qed.
(** Finding: scaling during read access succeeds as well, and then the client who only read is told by CeedVectorRestoreArrayRead that
    the array was changed (ceed-memcheck-vector.c:291-293). *)
Theorem C56_scale_accused_refuted : exists cs, lawful (cs ++ [CScale 0 2; CRestoreRead 0]) = true /\ last2 (refobs (cs ++ [CScale 0 2; CRestoreRead 0])) = [inr ERR_ACCESS; inl ODone] /\ last2 (mcobs (cs ++ [CScale 0 2; CRestoreRead 0])) = [inl ODone; inr ERR_BACKEND].
Proof. exists [CCreate 2; CSetValue 0 3; CGetRead 0 true]. vm_compute. repeat split; reflexivity. Qed.
(** Finding: with a backend function the vector's state does not advance, so that CeedVectorGetState cannot tell that the contents changed and
    everything cached by state (evaluated passive inputs of operators) is stale. *)
Theorem C56_state_refuted : exists cs v w w', zmrun (map (@MBase Zrng) cs) empty_mworld = Some w /\ zmrun (map (@MBase Zrng) (cs ++ [CScale v 2])) empty_mworld = Some w' /\
  option_map (@m_state Zrng) (w_mv (snd w) v) = option_map (@m_state Zrng) (w_mv (snd w') v) /\ option_map (@m_alloc Zrng) (w_mv (snd w) v) <> option_map (@m_alloc Zrng) (w_mv (snd w') v).
Proof. exists [CCreate 2; CSetValue 0 3], 0%nat. vm_compute. do 2 eexists. repeat split; try reflexivity. discriminate. Qed.
(** Finding: CeedVectorPointwiseMult into a fresh vector leaves its state 0, so that CeedVectorReciprocal refuses the vector although it has values
    (ceed-vector.c:966-969); on the ref backend both succeed. *)
Theorem C56_recip_refuted : exists cs, lawful (cs ++ [CRecip 1]) = true /\ last2 (refobs (cs ++ [CRecip 1])) = [inl ODone; inl ODone] /\ last2 (mcobs (cs ++ [CRecip 1])) = [inl ODone; inr ERR_INCOMPLETE].
Proof. exists [CCreate 2; CSetValue 0 3; CCreate 2; CMult 1 0 0]. vm_compute. repeat split; reflexivity. Qed.
(** Finding: when CeedVectorRestoreArrayRead reports a write through a pointer granted for reading, the backend keeps the written copy
    (ceed-memcheck-vector.c:291-297 returns before the copy is freed): after CeedVectorSetValue every later reader gets that copy, not the
    vector's values, and every later CeedVectorRestoreArrayRead fails, the client having done nothing wrong since. *)
Theorem C56_violation_sticks_refuted : exists cs, last2 (option_map fst (zmrun cs empty_mworld)) = [inl ODone; inr ERR_BACKEND] /\
  option_map (fun p => skipn 5 (fst p)) (zmrun (cs ++ map (@MBase Zrng) [CSetValue 0 4; CGetRead 0 true; VRead 0 0; CRestoreRead 0; CGetRead 0 true; CRestoreRead 0]) empty_mworld) =
    Some [inl ODone; inl ODone; inl (OVal 9); inr ERR_BACKEND; inl ODone; inr ERR_BACKEND].
Proof. exists (map (@MBase Zrng) [CCreate 2; CSetValue 0 3; CGetRead 0 true] ++ [MWriteRead 0 0 9; MBase (CRestoreRead 0)]). vm_compute. repeat split; reflexivity. Qed.
(** Finding: values the client writes to an array lent with CEED_USE_POINTER do not reach the vector (it works on a copy made by CeedVectorSetArray,
    ceed-memcheck-vector.c:45-97); on the ref backend they do, as the documentation of CEED_USE_POINTER says. *)
Theorem C56_lent_write_refuted : exists cs, lawful cs = true /\ last2 (refobs cs) = [inl ODone; inl (OVal 9)] /\ last2 (mcobs cs) = [inl ODone; inl (OVal 1)].
Proof. exists [UAlloc [1; 2]; CCreate 2; CSetArray 0 true UsePointer (SUser 0); UWrite 0 0 9; CGetRead 0 true; VRead 0 0]. vm_compute. repeat split; reflexivity. Qed.
(** Finding: values set with CeedVectorSetValue, Scale, AXPY or PointwiseMult do not reach an array lent with CEED_USE_POINTER when the vector is destroyed
    (CeedVectorDestroy_Memcheck, ceed-memcheck-vector.c:384-402, does not copy them back) or given another array; on the ref backend they are there. *)
Theorem C56_lent_destroy_refuted : exists cs, lawful cs = true /\ last2 (refobs cs) = [inl ODone; inl (OVal 5)] /\ last2 (mcobs cs) = [inl ODone; inl (OVal 1)].
Proof. exists [UAlloc [1; 2]; CCreate 2; CSetArray 0 true UsePointer (SUser 0); CSetValue 0 5; CDestroy 0; URead 0 0]. vm_compute. repeat split; reflexivity. Qed.
(** Finding: CeedVectorSyncArray and CeedVectorSetValueStrided on a vector without data succeed on the memcheck backend and fail on the ref backend. *)
Theorem C56_no_data_refuted : last2 (refobs [CCreate 2; CSync 0 true]) = [inl (OId 0); inr ERR_BACKEND] /\ last2 (mcobs [CCreate 2; CSync 0 true]) = [inl (OId 0); inl ODone] /\
  last2 (refobs [CCreate 2; CSetValueStrided 0 0 (-1) 1 7]) = [inl (OId 0); inr ERR_BACKEND] /\ last2 (mcobs [CCreate 2; CSetValueStrided 0 0 (-1) 1 7]) = [inl (OId 0); inl ODone].
Proof. vm_compute. repeat split; reflexivity. Qed.

Print Assumptions C56_refines.
Print Assumptions C56_detects.
Print Assumptions C56_scale_lost_refuted.
Print Assumptions C56_scale_accused_refuted.
Print Assumptions C56_state_refuted.
Print Assumptions C56_recip_refuted.
Print Assumptions C56_violation_sticks_refuted.
Print Assumptions C56_lent_write_refuted.
Print Assumptions C56_lent_destroy_refuted.
Print Assumptions C56_no_data_refuted.
