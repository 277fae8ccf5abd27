(** * CeedQFunctionApply on ref and memcheck: property C58, concrete histories and findings

    [shrun] (MqSpec) says what a client and the user's function may do; the conclusions speak of the two modelled
    backends, [rhrun] (ref) and [mhrun] (memcheck), whole histories over one Ceed. *)
From Coq Require Import List ZArith Lia Bool Arith String.
From Verif Require Import Prelude RstrModel BasisModel StrModel QfModel VecModel VecSpec VecProofs VecLaws VecProps McModel McSpec McProofs McStep McStep6 MqModel MqSpec MqProofs MqMain MqDetect.
Import ListNotations.
Local Open Scope Z_scope.

Section P.
Variable R : Rng.
Variable D : Type.
Variables (fs : fsys) (roots : list str) (nan : R) (isnan : R -> bool) (eqs : R -> R -> bool) (eqd : D -> D -> bool).
Variables (fabs : R -> R) (gtb : R -> R -> bool) (sqrt : R -> R) (big : R -> bool) (inv : R -> R).
Notation shrun := (@shrun R D fs roots isnan fabs gtb sqrt big inv).
Notation rhrun := (@rhrun R D fabs gtb sqrt big inv).
Notation mhrun := (@mhrun R D eqd fs roots nan isnan eqs fabs gtb sqrt big inv).
Notation mapply := (@mapply R D eqd fs roots nan isnan eqs fabs gtb sqrt big inv).
Notation mv := (mv nan eqs fabs gtb sqrt big inv).
Notation flog := (flog mv (mpoke nan eqs fabs gtb sqrt big inv) (@kc_read D) (@kc_write D)).
Notation start := (@start R D nan eqs fabs gtb sqrt big inv).

(** Every history that keeps the rules runs on both backends with the same outcomes: the same error codes, the same
    values read, no undefined behaviour - whatever values stand for NAN. *)
Theorem C58_refines : (forall a, eqs a a = true) -> (forall d, eqd d d = true) -> forall hs os c, shrun hs (sempty R D) = Some (os, c) ->
  (exists c', rhrun hs (hempty _ (@empty_world R)) = Some (os, c')) /\ (exists c', mhrun hs (hempty _ (@empty_mworld R)) = Some (os, c')).
Proof.
  intros E1 E2 hs os c H. split.
  - edestruct run_sim with (RR := @RRr R) (KR := @KRr D) (k0 := mkRC (D := D) false 0 None) (c' := hempty (rctx D) (@empty_world R))
      (be := fun (q : qfun) x f (Q : Z) U V => apply_ref (rv fabs gtb sqrt big inv) (@rpoke R) (@rc_get D) (@rc_restore D) (@rc_read D) (@rc_write D) x f U V) as (c' & A & _); [| | | |exact H|].
    + apply ref_good.
    + unfold KRr. simpl. repeat split; auto; try lia; discriminate.
    + intros q x f Q U V c0 c0' o c1 HC LV S. eapply apply_ref_sim; eauto. apply ref_good.
    + constructor; simpl; auto. apply Inv_init.
    + exists c'. exact A.
  - edestruct run_sim with (RR := @RRm R) (KR := @KRm D) (k0 := mkKC (D := D) false 0 None None None) (c' := hempty (kctx D) (@empty_mworld R))
      (be := fun (q : qfun) x f (Q : Z) U V => apply_mc mv (mpoke nan eqs fabs gtb sqrt big inv) (@kc_get D) (kc_restore eqd) (@kc_read D) (@kc_write D) isnan (src_of fs roots q) (map qf_size (q_out q)) Q x f U V) as (c' & A & _); [| | | |exact H|].
    + apply mc_good; auto.
    + unfold KRm. simpl. repeat split; auto; try lia; discriminate.
    + intros q x f Q U V c0 c0' o c1 HC LV S. eapply apply_mc_sim; eauto. apply mc_good; auto.
    + constructor; simpl; auto. apply rel_init.
    + exists c'. exact A.
Qed.

(** Success on memcheck, from any state: every entry [j < size * Q] of every output was written during this call by
    the user's function, the last value it wrote there is not a NaN, and it is what the client then reads. *)
Theorem C58_outputs : isnan nan = true -> forall q x f Q U V c c1, sane c -> mapply q x f Q U V c = QOk c1 ->
  let U' := firstn (List.length (q_in q)) U in let V' := firstn (List.length (q_out q)) V in
  exists c4, start x U' V' c = QOk c4 /\
  forall i v fld j, nth_error V' i = Some v -> nth_error (q_out q) i = Some fld -> (j < Z.to_nat (qf_size fld * Q))%nat ->
    exists a, lastw true v j (flog U' V' x f c4) = Some a /\ isnan a = false /\
      exists w1 w2, mv (CGet v true) (cf_w c1) = Some (inl (ODone), w1) /\ mv (VReadW v j) w1 = Some (inl (OVal a), w2).
Proof.
  intros NN q x f Q U V c c1 SN H U' V'. destruct (outputs_ok _ _ _ _ _ _ _ _ _ _ _ NN _ _ _ _ _ _ SN H) as (c4 & ST & P). exists c4. split; auto.
  intros i v fld j A B J. destruct (P i v fld j A B J) as (a & Q1 & Q2 & _ & _ & Q3). eauto.
Qed.
(** Success on memcheck: where the function wrote an input nobody else was reading, it wrote what was there. *)
Theorem C58_inputs : forall q x f Q U V c c1, mapply q x f Q U V c = QOk c1 -> Z.of_nat (List.length U) < two64 ->
  let U' := firstn (List.length (q_in q)) U in let V' := firstn (List.length (q_out q)) V in
  exists c4, start x U' V' c = QOk c4 /\
  forall u y j b, In u U' -> w_mv (cf_w c) u = Some y -> m_readers y = 0 -> m_ro y = None -> lastw false u j (flog U' V' x f c4) = Some b ->
    exists a, value c u j = Some a /\ eqs a b = true.
Proof. intros. eapply inputs_ok; eauto. Qed.
(** Success on memcheck: a function given the context for reading, while nobody else reads it, left the data alone. *)
Theorem C58_context : forall q n f Q U V c c1, mapply q (Some (n, false)) f Q U V c = QOk c1 ->
  let U' := firstn (List.length (q_in q)) U in let V' := firstn (List.length (q_out q)) V in
  exists c4, start (Some (n, false)) U' V' c = QOk c4 /\
  forall k d, cf_k c n = Some k -> kc_readers k = 0 -> lastc (flog U' V' (Some (n, false)) f c4) = Some d -> exists d0, kc_data k = Some d0 /\ eqd d0 d = true.
Proof. intros. eapply ctx_ok; eauto. Qed.
End P.
Print Assumptions C58_refines.
Print Assumptions C58_outputs.
Print Assumptions C58_inputs.
Print Assumptions C58_context.

(** ** Concrete histories over Z; -999 stands for NAN *)
#[local] Canonical Structure Zrng.
Notation zbig := (fun x : Zrng => negb (Z.eqb x 0)).
Notation zinv := (fun x : Zrng => x).
Notation znan := (fun x : Zrng => Z.eqb x (-999)).
Definition ex_files : fsys := fun s => seqb s (lit "/jit/scale.h").
Definition ex_roots : list str := [lit "/jit/"].
Definition zs (hs : list (hcmd Zrng Z)) := match @shrun Zrng Z ex_files ex_roots znan Z.abs Z.gtb Z.sqrt zbig zinv hs (sempty Zrng Z) with Some (os, _) => Some os | None => None end.
Definition zr (hs : list (hcmd Zrng Z)) := match @rhrun Zrng Z Z.abs Z.gtb Z.sqrt zbig zinv hs (hempty _ (@empty_world Zrng)) with Some (os, _) => Some os | None => None end.
Definition zm (hs : list (hcmd Zrng Z)) := match @mhrun Zrng Z Z.eqb ex_files ex_roots (-999) znan Z.eqb Z.abs Z.gtb Z.sqrt zbig zinv hs (hempty _ (@empty_mworld Zrng)) with Some (os, _) => Some os | None => None end.
(** one input and one output field of size 1; a source file that exists, none, and one that does not *)
Definition ex_q (user : option str) : qfun := mkQFun 1 [mkQField (lit "u") 1 EvInterp] [mkQField (lit "v") 1 EvInterp] false user None None.
Definition ex_good := ex_q (Some (lit "scale.h:scale")).
Definition ex_bad := ex_q (Some (lit "lost.h:scale")).
(** v[i] = ctx * u[i] for i < 2 *)
Definition f_scale : prog Zrng Z := RdCtx (fun d => RdIn 0 0 (fun a => RdIn 0 1 (fun b => WrOut 0 0 (d * a) (WrOut 0 1 (d * b) (Ret 0))))).
Definition setup : list (hcmd Zrng Z) := [HVec (CCreate 2); HVec (CCreate 2); HVec (CSetValue 0 3); HVec (CSetValue 1 8); HCtx; HSet 0 5].
Definition look (v j : nat) : list (hcmd Zrng Z) := [HVec (CGetRead v true); HVec (VRead v j); HVec (CRestoreRead v)].
Definition setup_ok := [inl (OV (OId 0)); inl (OV (OId 1)); inl (OV ODone); inl (OV ODone); inl (ON 0%nat); inl OUnit] : list (hobs Zrng Z + Z).
Definition saw (a : Z) : list (hobs Zrng Z + Z) := [inl (OV ODone); inl (OV (OVal (a : Zrng))); inl (OV ODone)].

(** the rules are kept by a history with success, wrong counts, a busy output, a busy context and a function that fails *)
Definition ex_hist : list (hcmd Zrng Z) :=
  setup ++ [HApply ex_good (Some (0%nat, false)) f_scale 2 [0%nat] [1%nat]] ++ look 1 0 ++ look 1 1 ++ look 0 0 ++
  [HApply ex_good (Some (0%nat, true)) (RdCtx (fun d => WrCtx (d + 1) (WrOut 0 1 d (RdOut 0 1 (fun b => WrOut 0 0 (b + 1) (Ret 0)))))) 2 [1%nat] [0%nat]; HRead 0] ++ look 0 0 ++ look 0 1 ++
  [HApply (mkQFun 4 [] [] false None None None) None (Ret 0) 6 [] []; HApply ex_good None f_scale 2 [0%nat] [0%nat]; HVec (CRestoreRead 0); HVec (CGet 1 true);
   HApply ex_good (Some (0%nat, true)) f_scale 2 [0%nat] [1%nat]; HRead 0; HSet 0 7].
Example C58_ex : exists os, zs ex_hist = Some os /\ zr ex_hist = Some os /\ zm ex_hist = Some os /\
  os = setup_ok ++ [inl OUnit] ++ saw 15 ++ saw 15 ++ saw 3 ++ [inl OUnit; inl (OD 6)] ++ saw 6 ++ saw 5 ++
       [inr ERR_DIMENSION; inr ERR_BACKEND; inl (OV ODone); inl (OV ODone); inr ERR_BACKEND; inr 1; inr 1].
Proof. eexists. vm_compute. repeat split; reflexivity. Qed.

(** Finding: a function whose result is legitimately a NaN succeeds on ref; on memcheck the call fails, the output and
    the context are never given back (so that every later use of them fails), only the inputs are. *)
Theorem C58_nan_result_refuted : exists f, let hs := setup ++ [HApply ex_good (Some (0%nat, true)) f 2 [0%nat] [1%nat]; HVec (CSetValue 0 4); HVec (CSetValue 1 4); HSet 0 5] in
  zr hs = Some (setup_ok ++ [inl OUnit; inl (OV ODone); inl (OV ODone); inl OUnit]) /\
  zm hs = Some (setup_ok ++ [inr ERR_BACKEND; inl (OV ODone); inr ERR_ACCESS; inr 1]).
Proof. exists (RdCtx (fun d => WrOut 0 0 d (WrOut 0 1 (-999) (Ret 0)))). vm_compute. repeat split; reflexivity. Qed.
(** Finding: when the user's function returns an error, CeedQFunctionApply returns on both backends without giving back
    anything: inputs, outputs and a writable context stay locked for good. *)
Theorem C58_error_keeps_access_refuted : exists f, let hs := setup ++ [HApply ex_good (Some (0%nat, true)) f 2 [0%nat] [1%nat]; HVec (CSetValue 0 4); HVec (CSetValue 1 4); HSet 0 5; HApply ex_good None (Ret 0) 2 [0%nat] [1%nat]] in
  zs hs = zr hs /\ zm hs = zr hs /\ zr hs = Some (setup_ok ++ [inr ERR_BACKEND; inr ERR_ACCESS; inr ERR_ACCESS; inr 1; inr ERR_BACKEND]).
Proof. exists (RdCtx (fun d => WrOut 0 0 d (Ret 1))). vm_compute. repeat split; reflexivity. Qed.
(** Finding: memcheck looks for the source file of the QFunction only to print it in a message, but when the file is
    not there CeedQFunctionApply fails after the function has run, and the output stays locked; ref never looks. *)
Theorem C58_source_missing_refuted : let hs := setup ++ [HApply ex_bad (Some (0%nat, false)) f_scale 2 [0%nat] [1%nat]; HVec (CSetValue 1 4)] in
  zr hs = Some (setup_ok ++ [inl OUnit; inl (OV ODone)]) /\ exists e, zm hs = Some (setup_ok ++ [inr e; inr ERR_ACCESS]).
Proof. vm_compute. split; [reflexivity|]. eexists. reflexivity. Qed.
(** Finding: an output vector longer than [size * Q] keeps its further entries on ref; on memcheck they become NAN, and
    the call succeeds. *)
Theorem C58_tail_lost_refuted : exists f, let hs := setup ++ [HApply ex_good None f 1 [0%nat] [1%nat]] ++ look 1 0 ++ look 1 1 in
  zr hs = Some (setup_ok ++ [inl OUnit] ++ saw 2 ++ saw 8) /\ zm hs = Some (setup_ok ++ [inl OUnit] ++ saw 2 ++ saw (-999)).
Proof. exists (WrOut 0 0 2 (Ret 0)). vm_compute. repeat split; reflexivity. Qed.
(** Finding: a function that adds to its output works on ref and sees NAN on memcheck; if it then writes a number computed
    otherwise the difference goes unnoticed. *)
Theorem C58_read_output_refuted : exists f, let hs := setup ++ [HApply ex_good None f 1 [0%nat] [1%nat]] ++ look 1 0 in
  zr hs = Some (setup_ok ++ [inl OUnit] ++ saw 9) /\ zm hs = Some (setup_ok ++ [inl OUnit] ++ saw (-998)).
Proof. exists (RdOut 0 0 (fun a => WrOut 0 0 (a + 1) (Ret 0))). vm_compute. repeat split; reflexivity. Qed.
(** Finding: a write to a context given for reading is reported by memcheck, but after the outputs were given back: the
    call returns an error and the output has changed; and the changed copy is what the next reader gets, so that a
    next, correct, call fails as well. *)
Theorem C58_context_write_refuted : exists f, let hs := setup ++ [HApply ex_good (Some (0%nat, false)) f 2 [0%nat] [1%nat]] ++ look 1 0 ++ [HApply ex_good (Some (0%nat, false)) f_scale 2 [0%nat] [1%nat]] in
  zr hs = Some (setup_ok ++ [inl OUnit] ++ saw 1 ++ [inl OUnit]) /\ zm hs = Some (setup_ok ++ [inr ERR_BACKEND] ++ saw 1 ++ [inr ERR_BACKEND]).
Proof. exists (WrCtx 6 (WrOut 0 0 1 (WrOut 0 1 1 (Ret 0)))). vm_compute. repeat split; reflexivity. Qed.
(** Finding: when an input of a call is also an output (or an output is in use) the call fails with the context and
    the inputs taken so far still locked, on both backends. *)
Theorem C58_alias_keeps_access_refuted : let hs := setup ++ [HApply ex_good (Some (0%nat, true)) f_scale 2 [0%nat] [0%nat]; HVec (CSetValue 0 1); HSet 0 7] in
  zs hs = zr hs /\ zm hs = zr hs /\ zr hs = Some (setup_ok ++ [inr ERR_BACKEND; inr ERR_ACCESS; inr 1]).
Proof. vm_compute. repeat split; reflexivity. Qed.
(** a function that writes its input, one that leaves an entry unset: refused by memcheck, not by ref; and one that
    writes an input another client is reading is not refused *)
Example C58_detect_ex :
  (let hs := setup ++ [HApply ex_good None (WrIn 0 1 4 (WrOut 0 0 1 (WrOut 0 1 1 (Ret 0)))) 2 [0%nat] [1%nat]] in zr hs = Some (setup_ok ++ [inl OUnit]) /\ zm hs = Some (setup_ok ++ [inr ERR_BACKEND])) /\
  (let hs := setup ++ [HApply ex_good None (WrOut 0 0 1 (Ret 0)) 2 [0%nat] [1%nat]] in zr hs = Some (setup_ok ++ [inl OUnit]) /\ zm hs = Some (setup_ok ++ [inr ERR_BACKEND])) /\
  (let hs := setup ++ [HVec (CGetRead 0 true); HApply ex_good None (WrIn 0 1 4 (WrOut 0 0 1 (WrOut 0 1 1 (Ret 0)))) 2 [0%nat] [1%nat]; HVec (VRead 0 1); HVec (CRestoreRead 0)] in
   zm hs = Some (setup_ok ++ [inl (OV ODone); inl OUnit; inl (OV (OVal (4 : Zrng))); inr ERR_BACKEND])).
Proof. vm_compute. repeat split; reflexivity. Qed.
(** the hypotheses of C58_outputs, C58_inputs and C58_context are met *)
Example C58_success_ex : exists os c c1, @mhrun Zrng Z Z.eqb ex_files ex_roots (-999) znan Z.eqb Z.abs Z.gtb Z.sqrt zbig zinv setup (hempty _ (@empty_mworld Zrng)) = Some (os, c) /\ sane c /\
  @mapply Zrng Z Z.eqb ex_files ex_roots (-999) znan Z.eqb Z.abs Z.gtb Z.sqrt zbig zinv ex_good (Some (0%nat, false)) (WrCtx 5 (WrIn 0 1 3 f_scale)) 2 [0%nat] [1%nat] c = QOk c1 /\
  (exists y, w_mv (cf_w c) 0%nat = Some y /\ m_readers y = 0 /\ m_ro y = None) /\ (exists k, cf_k c 0%nat = Some k /\ kc_readers k = 0).
Proof.
  do 3 eexists. split; [vm_compute; reflexivity|]. split; [|split; [vm_compute; reflexivity|split; eexists; repeat split; reflexivity]].
  intros v x E L. destruct v as [|[|v]]; vm_compute in E; inversion E; subst; discriminate.
Qed.
