(** * C57: QFunction contexts on the memcheck backend

    [arun] (CtxSpec) and [kstricts] (CmSpec) say what a client may do; the conclusions speak of the two modelled
    backends, [run] (ref, CtxModel) and [krun] (memcheck, CmModel). *)
From Coq Require Import List ZArith Lia Bool Arith.
From Coq.Strings Require Import Byte.
From Verif Require Import Prelude RstrModel StrModel CtxModel CtxSpec CtxProofs CtxProps CmModel CmSpec CmProofs CmStep CmStep2 CmStep3.
From Verif Require VecModel.
Import ListNotations.
Local Open Scope Z_scope.

Lemma find_registered name : forall fs i r, (exists j, field_index i fs name r = Some j) <-> (exists j, r = Some j) \/ existsb (fun f => seqb (l_name f) name) fs = true.
Proof.
  induction fs as [|f fs IH]; intros i r; cbn.
  - split; [auto|]. intros [H|H]; [exact H|discriminate].
  - rewrite IH. destruct (seqb (l_name f) name); cbn; [|tauto]. split; [auto|]. intros _. left. eauto.
Qed.
Lemma k_small_ok s w g c : krel s w g ->
  match c with KRegister _ _ _ _ | KLabel _ | KDtor _ | KRef | KSize | KState => True | _ => False end ->
  forall g', kstrict c s g = Some g' -> ksim (astep c s) (kbstep c w) g'.
Proof.
  intros H C g' G. destruct c as [| | | | | |name off t num|name| | | |d| | | | | | | | | | |]; try contradiction; clear C; unfold kstrict, onctx in G; unfold astep, kbstep, mdone, live.
  - injection G as <-. unfold s_register, live, mk_register, klive. destruct (s_ctx s) as [y|] eqn:Ey; [|exact I]. destruct (krel_live H Ey) as (x & Ex & A & B). rewrite Ex, (h_fl A).
    pose proof (find_registered name (a_fields y) 0 None) as F. unfold registered. destruct (field_index 0 (a_fields y) name None) as [j|].
    + destruct (proj1 F ltac:(eauto)) as [[? E]|E]; [discriminate|]. rewrite E. apply ksim_err, H.
    + destruct (existsb _ (a_fields y)) eqn:E; [destruct (proj2 F ltac:(auto)); discriminate|]. cbn. split; [reflexivity|].
      apply krel_put with g x; auto. constructor; cbn; try apply A. reflexivity.
  - injection G as <-. unfold klive. destruct (s_ctx s) as [y|] eqn:Ey; [|exact I]. destruct (krel_live H Ey) as (x & Ex & A & B). rewrite Ex, (h_fl A). apply ksim_ok, H.
  - injection G as <-. destruct d as [d|]; unfold mk_dtor, klive; [|apply ksim_err, H]. destruct (s_ctx s) as [y|] eqn:Ey; [|exact I]. destruct (krel_live H Ey) as (x & Ex & A & B). rewrite Ex. cbn. split; [reflexivity|].
    apply krel_put with g x; auto. constructor; cbn; try apply A. reflexivity.
  - injection G as <-. unfold mk_reference, klive. destruct (s_ctx s) as [y|] eqn:Ey; [|exact I]. destruct (krel_live H Ey) as (x & Ex & A & B). rewrite Ex. cbn. split; [reflexivity|].
    apply krel_put with g x; auto. constructor; cbn; try apply A. rewrite (h_rf A). reflexivity.
  - injection G as <-. unfold klive. destruct (s_ctx s) as [y|] eqn:Ey; [|exact I]. destruct (krel_live H Ey) as (x & Ex & A & B). rewrite Ex, (h_sz A). apply ksim_ok, H.
  - unfold klive. destruct (s_ctx s) as [y|] eqn:Ey; [|exact I]. destruct (krel_live H Ey) as (x & Ex & A & B). rewrite Ex, (h_st A). unfold rule in G.
    destruct (Z.eqb_spec (g mod two64) (a_clock y mod two64)) as [E|]; [|discriminate]. injection G as <-. rewrite E. apply ksim_ok, H.
Qed.
Lemma kbstep_ok s w g c : krel s w g -> forall g', kstrict c s g = Some g' -> ksim (astep c s) (kbstep c w) g'.
Proof.
  intros H g' G. destruct c.
  - exact (k_set_ok _ _ _ _ H G).
  - exact (k_take_ok _ H G).
  - exact (k_get_ok _ H G).
  - injection G as <-. exact (k_get_read_ok _ H).
  - exact (k_restore_ok H G).
  - injection G as <-. exact (k_restore_read_ok H).
  - exact (k_small_ok s w g (KRegister _ _ _ _) H I g' G).
  - exact (k_small_ok s w g (KLabel _) H I g' G).
  - exact (k_set_field_ok _ _ _ H G).
  - exact (k_get_field_ok _ _ H G).
  - injection G as <-. exact (k_restore_field_ok _ _ H).
  - exact (k_small_ok s w g (KDtor _) H I g' G).
  - exact (k_small_ok s w g KRef H I g' G).
  - exact (k_destroy_ok H G).
  - exact (k_small_ok s w g KSize H I g' G).
  - exact (k_small_ok s w g KState H I g' G).
  - exact (k_user_ok (UAlloc _) H I G).
  - exact (k_user_ok (UFree _) H I G).
  - exact (k_user_ok (URead _ _) H I G).
  - exact (k_user_ok (UWrite _ _ _) H I G).
  - exact (k_view_ok (VRead _) H I G).
  - exact (k_view_ok (VWrite _ _) H I G).
  - exact (k_view_ok (VReadW _) H I G).
Qed.
Lemma new_krel : krel new_astate new_kworld 0.
Proof.
  constructor; cbn; auto. split.
  - constructor; cbn; try reflexivity; try (intro; discriminate). unfold VecModel.two64. lia.
  - unfold bodyx, body. cbn. repeat split; reflexivity.
Qed.
Lemma krun_ok : forall cs s w g rs s', krel s w g -> kstricts cs s g = true -> arun cs s = Some (rs, s') ->
  exists w' g', krun (map KBase cs) w = Some (rs, w') /\ krel s' w' g'.
Proof.
  induction cs as [|c cs IH]; intros s w g rs s' H K R; cbn in *.
  - injection R as <- <-. eauto.
  - destruct (kstrict c s g) as [g1|] eqn:G; [|discriminate]. pose proof (kbstep_ok s w g c H g1 G) as S.
    destruct (astep c s) as [o s1|e s1|]; [| |discriminate]; destruct (kbstep c w) as [o' w1|e' w1|]; cbn in S; try contradiction; destruct S as [<- S];
      (destruct (arun cs s1) as [[os s2]|] eqn:Q; [|discriminate]); injection R as <- <-;
      destruct (IH s1 w1 g1 os s2 S K Q) as (w' & g' & K1 & K2); rewrite K1; eauto.
Qed.

(** Every history of a client that keeps the rules runs on both backends with the same outcomes: the same error codes,
    the same bytes and field values read, no undefined behaviour. *)
Theorem C57_refines : forall cs rs s, kstricts cs new_astate 0 = true -> arun cs new_astate = Some (rs, s) ->
  (exists w, run cs new_world = Some (rs, w)) /\ (exists w, krun (map KBase cs) new_kworld = Some (rs, w)).
Proof.
  intros cs rs s K R. split; [apply C23_refines with s, R|]. destruct (krun_ok cs _ _ _ _ _ new_krel K R) as (w & g & A & _). eauto.
Qed.

(** what the client sees through the pointer granted for reading *)
Definition ksees (w : kworld) (i : nat) : option byte := match kstep (KBase (VRead i)) w with MOk (OByte b) _ => Some b | _ => None end.
Definition kwrites (ws : list (nat * byte)) : list kcmd := map (fun p => KWriteRead (fst p) (snd p)) ws.
Lemma ksees_at w i x l : w_k w = Some x -> k_rp x = true -> k_ro x = Some l -> ksees w i = nth_error l i.
Proof. intros E P O. unfold ksees. cbn. unfold klive. rewrite E, P, O. cbn. destruct (nth_error l i); reflexivity. Qed.
Lemma lwrite_in (l : bytes) i b : (i < length l)%nat -> exists l', lwrite (Some l) i [b] = Some l' /\ length l' = length l /\ nth_error l' i = Some b.
Proof.
  intro N. unfold lwrite. cbn [length]. rewrite (proj2 (Nat.leb_le (i + 1) (length l))) by lia. eexists; split; [reflexivity|]. split.
  - rewrite !app_length, firstn_length, skipn_length. cbn. lia.
  - rewrite nth_error_app2 by (rewrite firstn_length; lia). rewrite firstn_length, Nat.min_l by lia. rewrite Nat.sub_diag. reflexivity.
Qed.
Lemma kwrites_run : forall ws w x l, w_k w = Some x -> k_rp x = true -> k_ro x = Some l -> Forall (fun p => (fst p < length l)%nat) ws ->
  exists os w' l', krun (kwrites ws) w = Some (os, w') /\ w_k w' = Some (ks_ro x (Some l')) /\ length l' = length l /\ (forall ws' i a, ws = ws' ++ [(i, a)] -> nth_error l' i = Some a).
Proof.
  induction ws as [|(i & a) ws IH]; intros w x l E P O F.
  - exists [], w, l. split; [reflexivity|]. split; [rewrite E; destruct x; cbn in *; subst; reflexivity|]. split; [reflexivity|]. intros ws' i a Q. destruct ws'; discriminate.
  - inversion F as [|? ? F1 F2]; subst. cbn in F1. destruct (lwrite_in l i a F1) as (l1 & W1 & L1 & N1). set (x1 := ks_ro x (Some l1)).
    destruct (IH (putk w x1 (w_kh w)) x1 l1) as (os & w' & l' & A & B & C & D); auto. { rewrite L1. exact F2. }
    exists (Good ODone :: os), w', l'. split; [|split; [exact B|split; [lia|]]].
    + cbn. unfold klive. rewrite E. unfold poke. rewrite P, O, W1. fold x1. change (map (fun p : nat * byte => KWriteRead (fst p) (snd p)) ws) with (kwrites ws). rewrite A. reflexivity.
    + intros ws' j b Q. destruct ws' as [|q ws']; cbn in Q; inversion Q; [|apply (D ws' j b); assumption].
      subst. cbn in A. injection A as _ <-. cbn in B. injection B as B. unfold x1 in B. cbn in B. inversion B. subst. exact N1.
Qed.
Lemma beqb_spec (a b : bytes) : length a = length b -> (bytes_eqb a b = false <-> exists i p q, (i < length a)%nat /\ nth_error a i = Some p /\ nth_error b i = Some q /\ p <> q).
Proof.
  intro L. unfold bytes_eqb. destruct (list_eq_dec byte_eq_dec a b) as [->|N].
  - split; [discriminate|]. intros (i & p & q & _ & P & Q & D). congruence.
  - split; [intros _|reflexivity]. revert b L N. induction a as [|p a IH]; intros [|q b] L N; try discriminate; [contradiction|].
    destruct (byte_eq_dec p q) as [->|D].
    + destruct (IH b) as (i & p & r & A & B & C & E); [cbn in L; lia|congruence|]. exists (S i), p, r. cbn. repeat split; auto. lia.
    + exists 0%nat, p, q. cbn. repeat split; auto. lia.
Qed.
(** A client holds a pointer granted for reading and writes through it, any number of bytes.  The last
    CeedQFunctionContextRestoreDataRead fails exactly if some byte now differs; an earlier one always succeeds. *)
Theorem C57_detects : forall cs rs s y ws, kstricts cs new_astate 0 = true -> arun cs new_astate = Some (rs, s) ->
  s_ctx s = Some y -> a_rg y = true -> Forall (fun p => (fst p < a_size y)%nat) ws ->
  exists w0 w1 os1, krun (map KBase cs) new_kworld = Some (rs, w0) /\ krun (kwrites ws) w0 = Some (os1, w1) /\
  (forall ws' i a, ws = ws' ++ [(i, a)] -> ksees w1 i = Some a) /\
  let touched := exists i a b, (i < a_size y)%nat /\ ksees w0 i = Some a /\ ksees w1 i = Some b /\ a <> b in
  (1 < a_readers y -> exists w2, kstep (KBase KRestoreRead) w1 = MOk ODone w2) /\
  (a_readers y = 1 -> (touched /\ exists w2, kstep (KBase KRestoreRead) w1 = MErr ERR_BACKEND w2) \/ (~ touched /\ exists w2, kstep (KBase KRestoreRead) w1 = MOk ODone w2)).
Proof.
  intros cs rs s y ws K R Ey RG F. destruct (krun_ok cs _ _ _ _ _ new_krel K R) as (w0 & g & B & RL).
  destruct (krel_live RL Ey) as (x & Ex & A & BD). destruct (h_rp A RG) as [RP RD].
  assert (Ee : empty y = false).
  { unfold bodyx, body in BD. unfold empty. destruct (a_cont y); [|reflexivity|reflexivity]. destruct BD as (_ & _ & _ & _ & _ & _ & Q). lia. }
  assert (Eb : busy y = false) by (destruct (busy y) eqn:E; [pose proof (h_ex A E); lia|reflexivity]).
  destruct (body_data BD Ee) as (l & C & L & la & E1 & E2 & E3 & E4). rewrite Eb in E4. destruct E4 as [E4 E5].
  assert (RO : k_ro x = Some la) by (rewrite E3; destruct (Z.eqb_spec (a_readers y) 0); [lia|reflexivity]).
  destruct (kwrites_run ws w0 x la Ex RP RO) as (os1 & w1 & lr & W1 & W2 & W3 & W4). { rewrite E2. exact F. }
  exists w0, w1, os1. split; [exact B|]. split; [exact W1|]. split. { intros ws' i a Q. rewrite (ksees_at _ i _ lr W2 RP eq_refl). eapply W4, Q. }
  pose proof (h_r0 A) as R0. intro touched.
  assert (Ad : add64 (a_readers y) (-1) = a_readers y - 1) by (unfold VecModel.add64; rewrite Z.mod_small; lia).
  unfold kstep, kbstep, after, mk_restore_read, klive. rewrite W2. cbn [k_readers ks_ro ks_readers]. rewrite (h_rd A), Ad.
  rewrite (proj2 (Z.ltb_lt 0 (a_readers y))) by lia. split; intro RN.
  - destruct (Z.eqb_spec (a_readers y - 1) 0); [lia|]. cbn. eauto.
  - rewrite RN. change (1 - 1 =? 0) with true. cbv iota. unfold restore_read_mc. cbn [k_alloc k_ro k_size ks_readers ks_ro]. rewrite E1, (h_sz A), W3, E2, Nat.leb_refl. cbn [andb].
    rewrite !firstn_all2 by lia.
    assert (T : touched <-> bytes_eqb la lr = false).
    { rewrite beqb_spec by lia. unfold touched. rewrite E2. split; intros (i & a & b & Q1 & P & Q & N); exists i, a, b; (split; [exact Q1|]);
        rewrite ?(ksees_at _ i _ _ Ex RP RO), ?(ksees_at w1 i _ lr W2 RP eq_refl) in *; auto. }
    destruct (bytes_eqb la lr).
    + right. split; [intro Q; apply T in Q; discriminate|]. cbn. eauto.
    + left. split; [apply T; reflexivity|]. cbn. eauto.
Qed.

(** ** Concrete histories *)
(** the outcomes on the ref backend and on the memcheck backend *)
Definition refobs (cs : list cmd) := option_map fst (run cs new_world).
Definition mcobs (cs : list cmd) := option_map fst (krun (map KBase cs) new_kworld).
Definition lawful (cs : list cmd) : bool := match arun cs new_astate with Some _ => true | None => false end.
Definition nm : str := [Ascii.ascii_of_nat 97].
(** the hypotheses of C57_refines: a history with every kind of action, lent, owned and copied data, refused calls *)
Definition hcm : list cmd :=
  [UAlloc [x01; x02; x03; x04; x05; x06]; UAlloc [x11; x12; x13; x14]; UAlloc [x21; x22; x23; x24; x25]; KSet true UsePointer 5 (SUser 0); KRegister nm 1 FInt32 1; KLabel nm;
   KSetField (Some 0%nat) FInt32 [x31; x32; x33; x34]; URead 0 2; KGetField (Some 0%nat) FInt32; KGet true; VRead 3; KGetRead true; KRestoreField (Some 0%nat) FInt32; KRestoreRead;
   KGet true; VWrite 0 x77; VReadW 0; KRestore; URead 0 0; KState; KTake true; URead 0 0; UFree 0; KGet true; KSet true CopyValues 4 (SUser 1); KGetRead true; VRead 3; KRestoreRead;
   KSet true OwnPointer 5 (SUser 2); KSetField (Some 0%nat) FInt32 [x41; x42; x43; x44]; KSetField (Some 0%nat) FDouble []; KSize; UWrite 1 0 x51; KSet true UsePointer 4 (SUser 1);
   KDtor (Some (mkD true true 0)); KRef; KDestroy; KDestroy].
Example hcm_ok : kstricts hcm new_astate 0 = true /\ lawful hcm = true /\ refobs hcm = mcobs hcm /\
  option_map (fun rs => (nth 7 rs (Bad 0), nth 8 rs (Bad 0), nth 9 rs (Bad 0), nth 18 rs (Bad 0), nth 23 rs (Bad 0), nth 26 rs (Bad 0), nth 30 rs (Bad 0), nth 37 rs (Bad 0))) (mcobs hcm) =
  Some (Good (OByte x32), Good (OVals 1 [x31; x32; x33; x34]), Bad ERR_MINOR, Good (OByte x77), Bad ERR_BACKEND, Good (OByte x14), Bad ERR_UNSUPPORTED, Good ODone).
Proof. vm_compute. repeat split; reflexivity. Qed.
(** the hypotheses of C57_detects *)
Definition hct : list cmd := [UAlloc [x01; x02; x03]; KSet true CopyValues 3 (SUser 0); KGetRead true].
Example hct_ok : kstricts hct new_astate 0 = true /\ match arun hct new_astate with
  | Some (_, s) => match s_ctx s with Some y => a_rg y = true /\ a_readers y = 1 /\ a_size y = 3%nat | None => False end | None => False end.
Proof. vm_compute. auto. Qed.
Example hct_fails : option_map fst (krun (map KBase hct ++ [KWriteRead 2 x09; KBase KRestoreRead]) new_kworld) = Some [Good ODone; Good ODone; Good ODone; Good ODone; Bad ERR_BACKEND] /\
  option_map fst (krun (map KBase hct ++ [KWriteRead 2 x09; KWriteRead 2 x03; KBase KRestoreRead]) new_kworld) = Some [Good ODone; Good ODone; Good ODone; Good ODone; Good ODone; Good ODone].
Proof. vm_compute. auto. Qed.

(** ** Findings: the two backends differ on lawful histories *)
Definition lasts (k : nat) (o : option (list res)) : list res := match o with Some os => skipn (length os - k) os | None => [] end.
(** Finding: CeedQFunctionContextTakeData does not ask for readers (ceed-qfunctioncontext.c:649-669).  On the memcheck backend it frees the private
    buffer, and returning the read access then compares with a NULL pointer (ceed-memcheck-qfunctioncontext.c:216); on the ref backend the same
    calls succeed. *)
Theorem C57_take_while_read_refuted : exists cs, lawful (cs ++ [KTake true; KRestoreRead]) = true /\
  lasts 2 (refobs (cs ++ [KTake true; KRestoreRead])) = [Good (OPtr (Some (AU 0))); Good ODone] /\
  lasts 1 (mcobs (cs ++ [KTake true])) = [Good (OPtr (Some (AU 0)))] /\ mcobs (cs ++ [KTake true; KRestoreRead]) = None.
Proof. exists [UAlloc [x01; x02]; KSet true UsePointer 2 (SUser 0); KGetRead true]. vm_compute. repeat split; reflexivity. Qed.
(** Finding: CeedQFunctionContextSetData does not ask for readers either.  On the memcheck backend everyone who reads before the old access is returned gets
    the old data, and the last return fails although nobody wrote; with larger new data it compares past the end of the old copy. *)
Theorem C57_set_while_read_refuted : exists cs cs', lawful (cs ++ cs') = true /\
  lasts 4 (refobs (cs ++ cs')) = [Good ODone; Good (OByte x09); Good ODone; Good ODone] /\
  lasts 4 (mcobs (cs ++ cs')) = [Good ODone; Good (OByte x01); Good ODone; Bad ERR_BACKEND] /\
  lawful (cs ++ [KSet true CopyValues 4 (SUser 2); KRestoreRead]) = true /\ mcobs (cs ++ [KSet true CopyValues 4 (SUser 2); KRestoreRead]) = None.
Proof.
  exists [UAlloc [x01; x02]; UAlloc [x09; x08]; UAlloc [x01; x02; x03; x04]; KSet true CopyValues 2 (SUser 0); KGetRead true],
         [KSet true CopyValues 2 (SUser 1); KGetRead true; VRead 0; KRestoreRead; KRestoreRead].
  vm_compute. repeat split; reflexivity.
Qed.
(** Finding: a CeedQFunctionContextSetData that is refused (data in device memory) has already freed the old data on the memcheck backend
    (ceed-qfunctioncontext.c:628-630); on the ref backend the old data are still there. *)
Theorem C57_failed_set_refuted : exists cs, lawful (cs ++ [KSet false CopyValues 2 (SUser 0); KGetRead true]) = true /\
  lasts 2 (refobs (cs ++ [KSet false CopyValues 2 (SUser 0); KGetRead true])) = [Bad ERR_BACKEND; Good ODone] /\
  lasts 2 (mcobs (cs ++ [KSet false CopyValues 2 (SUser 0); KGetRead true])) = [Bad ERR_BACKEND; Bad ERR_BACKEND].
Proof. exists [UAlloc [x01; x02]; KSet true CopyValues 2 (SUser 0)]. vm_compute. repeat split; reflexivity. Qed.
(** Finding: CEED_USE_POINTER or CEED_OWN_POINTER with NULL empties the context on the ref backend; the memcheck backend copies from the NULL pointer
    (ceed-memcheck-qfunctioncontext.c:87). *)
Theorem C57_null_refuted : exists cs, lawful cs = true /\ refobs cs = Some [Good ODone] /\ mcobs cs = None.
Proof. exists [KSet true UsePointer 2 SNull]. vm_compute. repeat split; reflexivity. Qed.
(** Finding: the client's destroy function (CeedQFunctionContextSetDataDestroy) gets the lent or owned pointer, never the context's data: after
    CEED_COPY_VALUES it gets NULL on the memcheck backend (ceed-memcheck-qfunctioncontext.c:243-245) and the data on the ref backend. *)
Theorem C57_dtor_null_refuted : exists cs w w' x x' d, run cs new_world = Some w /\ krun (map KBase cs) new_kworld = Some w' /\
  w_ctx (snd w) = Some x /\ w_k (snd w') = Some x' /\ c_dtor x = Some d /\ k_dtor x' = Some d /\ c_data x <> None /\ k_alloc x' <> None /\ dtor_arg x' = None.
Proof.
  exists [UAlloc [x01; x02]; KSet true CopyValues 2 (SUser 0); KDtor (Some (mkD true false 0))].
  do 5 eexists. repeat split; try reflexivity; discriminate.
Qed.
(** Finding: the destroy function runs although a reader holds the data: the memcheck backend asks for no access (ceed-memcheck-qfunctioncontext.c:230-262)
    where the ref backend refuses. *)
Theorem C57_dtor_while_read_refuted : exists cs, lawful (cs ++ [KDestroy]) = true /\
  lasts 1 (refobs (cs ++ [KDestroy])) = [Bad ERR_MINOR] /\ lasts 1 (mcobs (cs ++ [KDestroy])) = [Good ODone].
Proof. exists [UAlloc [x01; x02]; KSet true UsePointer 2 (SUser 0); KDtor (Some (mkD true true 0)); KGetRead true]. vm_compute. repeat split; reflexivity. Qed.
(** Finding: a client who registers the destroy function before the first data cannot set data at all on the ref backend, nor destroy the context
    (CeedQFunctionContextDestroyData asks for access to data that are not there, ceed-qfunctioncontext.c:111-131); on the memcheck backend the function is called
    with NULL and the call succeeds. *)
Theorem C57_dtor_first_refuted : exists cs, lawful cs = true /\ lasts 2 (refobs cs) = [Bad ERR_BACKEND; Bad ERR_BACKEND] /\ lasts 2 (mcobs cs) = [Good ODone; Good ODone].
Proof. exists [UAlloc [x01; x02]; KDtor (Some (mkD true true 0)); KSet true UsePointer 2 (SUser 0); KDestroy]. vm_compute. repeat split; reflexivity. Qed.
(** Finding: when CeedQFunctionContextRestoreDataRead reports a write, the written copy is kept (ceed-memcheck-qfunctioncontext.c:218 returns before it is freed):
    later readers get it instead of the data, even of new data, and every later return fails. *)
Theorem C57_violation_sticks_refuted : exists cs, lasts 2 (option_map fst (krun cs new_kworld)) = [Good ODone; Bad ERR_BACKEND] /\
  lasts 4 (option_map fst (krun (cs ++ map KBase [KSet true CopyValues 3 (SUser 1); KGetRead true; VRead 2; KRestoreRead]) new_kworld)) = [Good ODone; Good ODone; Good (OByte x09); Bad ERR_BACKEND].
Proof. exists (map KBase ([UAlloc [x01; x02; x03]; UAlloc [x04; x05; x06]; KSet true CopyValues 3 (SUser 0); KGetRead true]) ++ [KWriteRead 2 x09; KBase KRestoreRead]). vm_compute. repeat split; reflexivity. Qed.
(** Finding: CeedQFunctionContextSetData reports a failing destroy function; the ref backend leaves the context locked for ever (ceed-qfunctioncontext.c:122-128), the
    memcheck backend does not. *)
Theorem C57_dtor_fails_refuted : exists cs, lawful cs = true /\ lasts 2 (refobs cs) = [Bad 7; Bad ERR_MINOR] /\ lasts 2 (mcobs cs) = [Bad 7; Good ODone].
Proof. exists [UAlloc [x01; x02]; KSet true UsePointer 2 (SUser 0); KDtor (Some (mkD true false 7)); KSet true UsePointer 2 (SUser 0); KGetRead true]. vm_compute. repeat split; reflexivity. Qed.

Print Assumptions C57_refines.
Print Assumptions C57_detects.
Print Assumptions C57_take_while_read_refuted.
Print Assumptions C57_set_while_read_refuted.
Print Assumptions C57_failed_set_refuted.
Print Assumptions C57_null_refuted.
Print Assumptions C57_dtor_null_refuted.
Print Assumptions C57_dtor_while_read_refuted.
Print Assumptions C57_dtor_first_refuted.
Print Assumptions C57_violation_sticks_refuted.
Print Assumptions C57_dtor_fails_refuted.
