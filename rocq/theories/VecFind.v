(** * Vectors: concrete histories meeting the hypotheses of VecProps, and refuted claims (findings)

    Scalars are integers here. *)
From Coq Require Import List ZArith Lia Bool Arith.
From Verif Require Import Prelude RstrModel VecModel VecSpec VecProofs VecSim VecStep VecRefine VecLaws VecProps.
Import ListNotations.
Local Open Scope Z_scope.

#[local] Canonical Structure Zrng.
Notation zbig := (fun x : Zrng => negb (Z.eqb x 0)).
Notation zinv := (fun x : Zrng => x).
Notation zstep := (@step Zrng Z.abs Z.gtb Z.sqrt zbig zinv).
Notation zrun := (@run Zrng Z.abs Z.gtb Z.sqrt zbig zinv).
Notation zastep := (@astep Zrng Z.abs Z.gtb Z.sqrt zbig zinv).
Notation zarun := (@arun Zrng Z.abs Z.gtb Z.sqrt zbig zinv).
Notation zReach := (@Reach Zrng Z.abs Z.gtb Z.sqrt zbig zinv).
Notation zlegal := (@legal Zrng Z.abs Z.gtb Z.sqrt zbig zinv).
Definition zcmd := cmd Zrng.
(** the world and the client's view after a history *)
Definition Wof (cs : list zcmd) : world Zrng := match zrun cs empty_world with Some (_, w) => w | None => empty_world end.
Definition Sof (cs : list zcmd) : astate Zrng := match zarun cs empty_astate with Some (_, s) => s | None => empty_astate end.
Definition okrun (cs : list zcmd) : bool := match zarun cs empty_astate with Some _ => true | None => false end.
Lemma reach_of : forall cs, okrun cs = true -> zReach (Wof cs) (Sof cs).
Proof.
  intros cs H. unfold okrun in H. destruct (zarun cs empty_astate) as [[os s]|] eqn:E; [|discriminate].
  destruct (Inv_run _ _ _ _ _ _ _ _ _ _ _ (Inv_init Zrng) E) as (w & R & _). exists cs, os. unfold Wof, Sof. rewrite E, R. auto.
Qed.
Definition okcmd (c : zcmd) (cs : list zcmd) : bool := match zastep c (Sof cs) with AIll => false | _ => true end.
Lemma legal_of : forall c cs, okcmd c cs = true -> zlegal c (Sof cs).
Proof. intros c cs H. unfold legal. unfold okcmd in H. destruct (zastep c (Sof cs)); congruence. Qed.
Definition stof (w : world Zrng) (v : nat) : Z := match w_vecs w v with Some x => v_state x | None => -1 end.
Definition refsof (w : world Zrng) (v : nat) : Z := match w_vecs w v with Some x => v_refs x | None => -1 end.
Definition rdof (w : world Zrng) (v : nat) : Z := match w_vecs w v with Some x => v_readers x | None => -1 end.

(** ** Concrete histories *)
(** two vectors of length 3, the first holding 5 6 7 in its own memory, the second the client's block 1 *)
Definition h0 : list zcmd := [CCreate 3; CCreate 3; UAlloc [5; 6; 7]; UAlloc [1; 2; 3]; CSetArray 0 true CopyValues (SUser 0); CSetArray 1 true UsePointer (SUser 1)].
Example h0_reach : zReach (Wof h0) (Sof h0). Proof. apply reach_of. vm_compute. reflexivity. Qed.
Example h0_contents : vblock (Wof h0) 0 = Some [5; 6; 7] /\ vblock (Wof h0) 1 = Some [1; 2; 3] /\ arr (Wof h0) 1 = Some (AU 1). Proof. vm_compute. auto. Qed.
(** C01: a history with reads, writes and refused calls *)
Definition h1 : list zcmd := h0 ++ [CGetRead 0 true; CGetRead 0 true; CGet 0 true; CRestoreRead 0; CRestoreRead 0; CRestoreRead 0; CGet 0 true; CGetRead 0 true; VWrite 0 1 9; CNorm 1 Norm1].
Example h1_runs : match zarun h1 empty_astate with Some (os, _) => Forall2 (@whole Zrng) h1 os /\ skipn 6 os = [inl ODone; inl ODone; inr ERR_ACCESS; inl ODone; inl ODone; inr ERR_ACCESS; inl ODone; inr ERR_ACCESS; inl ODone; inl (OVal 6)] | None => False end.
Proof. vm_compute. split; [repeat constructor; intro; discriminate|reflexivity]. Qed.
Example h1_state : stof (Wof h1) 0 mod 2 = 1 /\ rdof (Wof h1) 0 = 0 /\ vblock (Wof h1) 0 = Some [5; 9; 7]. Proof. vm_compute. auto. Qed.
(** C02, C06: every elementwise operation is legal and succeeds after [h0] *)
Example ops_legal : forallb (fun c => okcmd c h0 && match zstep c (Wof h0) with ROk _ _ => true | _ => false end)
  [CSetValue 0 4; CSetValueStrided 0 0 (-1) 2 4; CCopy 0 1; CCopyStrided 0 1 3 1 1; CNorm 0 Norm2; CScale 1 3; CAxpy 1 2 0; CAxpby 1 2 3 0; CMult 0 0 1; CMult 1 0 0; CRecip 0;
   CSetArray 0 true OwnPointer (SUser 0); CSetArray 1 true CopyValues (SUser 0); CTake 1 true; CRef 0; CDestroy 0; CGet 0 true; CGetRead 1 true; UWrite 1 2 8; UFree 0] = true.
Proof. vm_compute. reflexivity. Qed.
Example ops_values :
  vblock (Wof (h0 ++ [CAxpy 1 2 0])) 1 = Some [11; 14; 17] /\ vblock (Wof (h0 ++ [CAxpby 1 2 3 0])) 1 = Some [13; 18; 23] /\ vblock (Wof (h0 ++ [CMult 1 0 0])) 1 = Some [25; 36; 49] /\
  vblock (Wof (h0 ++ [CSetValueStrided 0 0 (-1) 2 4])) 0 = Some [4; 6; 4] /\ vblock (Wof (h0 ++ [CCopyStrided 0 1 3 1 1])) 1 = Some [1; 6; 7] /\ vblock (Wof (h0 ++ [CScale 1 3])) 1 = Some [3; 6; 9] /\
  w_heap (Wof (h0 ++ [CScale 1 3])) (AU 1) = Some [3; 6; 9] /\ vblock (Wof (h0 ++ [UWrite 1 2 8])) 1 = Some [1; 2; 8] /\ vblock (Wof (h0 ++ [UWrite 0 2 8])) 0 = Some [5; 6; 7].
Proof. vm_compute. repeat split; reflexivity. Qed.
(** C03: all handles destroyed, a client block given away and one kept *)
Definition h3 : list zcmd := h0 ++ [CSetArray 0 true OwnPointer (SUser 0); CRef 0; CScale 0 2; CDestroy 0; CDestroy 1; CDestroy 0].
Example h3_ok : okrun h3 = true /\ w_vecs (Wof h3) 0%nat = None /\ w_vecs (Wof h3) 1%nat = None /\ w_heap (Wof h3) (AU 0) = None /\ w_heap (Wof h3) (AU 1) = Some [1; 2; 3] /\ w_heap (Wof h3) (AL 0) = None.
Proof. vm_compute. repeat split; reflexivity. Qed.
(** C04: a cached state that is still valid, with a read and a refused write in between *)
Example h4_ok : okrun (h0 ++ [CGetRead 0 true; CGet 0 true; VRead 0 1; CRestoreRead 0; CScale 1 5]) = true /\ stof (Wof (h0 ++ [CGetRead 0 true; CGet 0 true; VRead 0 1; CRestoreRead 0; CScale 1 5])) 0 = stof (Wof h0) 0 /\
  stof (Wof h0) 0 mod 2 = 0 /\ stof (Wof (h0 ++ [CGet 0 true; CRestore 0])) 0 = stof (Wof h0) 0 + 2.
Proof. vm_compute. repeat split; reflexivity. Qed.
(** C05: refused calls *)
Example h5_ok : forallb (fun c => okcmd c (h0 ++ [CGet 0 true]) && match zstep c (Wof (h0 ++ [CGet 0 true])) with RErr e _ => 0 <? e | _ => false end)
  [CGet 0 true; CGetRead 0 true; CSetArray 0 true CopyValues (SUser 0); CTake 0 true; CSetValue 0 1; CScale 0 2; CRestoreRead 0; CNorm 0 Norm1; CDestroy 0; CAxpy 1 2 0; CCopy 0 1; CMult 1 0 1] = true.
Proof. vm_compute. reflexivity. Qed.

(** ** Findings *)
(** C05 as documented in include/ceed/types.h:118-129 would be: a call failing with a positive code changes nothing. *)
(** ceed-vector.c:922-935: destroying the last handle of a vector in use is refused, after the reference count was decremented *)
Theorem C05_destroy_refuted : exists w s v, zReach w s /\ zlegal (CDestroy v) s /\
  match zstep (CDestroy v) w with RErr e w' => 0 < e /\ refsof w v = 1 /\ refsof w' v = 0 | _ => False end.
Proof.
  exists (Wof (h0 ++ [CGet 0 true])), (Sof (h0 ++ [CGet 0 true])), 0%nat. split; [apply reach_of|split; [apply legal_of|]]; vm_compute; auto.
Qed.
(** the release of the lock then leaves a vector whose next Destroy drives the count to -1 *)
Theorem C05_destroy_negative_refuted : exists cs v, okrun cs = true /\ refsof (Wof cs) v = 0 /\ exists w', zstep (CDestroy v) (Wof cs) = ROk ODone w' /\ w_vecs w' v = None.
Proof. exists (h0 ++ [CGet 0 true; CDestroy 0; CRestore 0]), 0%nat. split; [vm_compute; auto|]. split; [vm_compute; auto|]. eexists. split; [vm_compute; reflexivity|reflexivity]. Qed.
(** AXPY (ceed-vector.c:752-765), AXPBY, PointwiseMult, Copy, CopyStrided: the failing second access leaves the first one outstanding *)
Theorem C05_axpy_refuted : exists w s y x, zReach w s /\ zlegal (CAxpy y 1 x) s /\
  match zstep (CAxpy y 1 x) w with RErr e w' => 0 < e /\ stof w y mod 2 = 0 /\ stof w' y mod 2 = 1 | _ => False end.
Proof. exists (Wof (h0 ++ [CGet 0 true])), (Sof (h0 ++ [CGet 0 true])), 1%nat, 0%nat. split; [apply reach_of|split; [apply legal_of|]]; vm_compute; auto. Qed.
Theorem C05_axpby_refuted : exists w s y x, zReach w s /\ zlegal (CAxpby y 1 1 x) s /\
  match zstep (CAxpby y 1 1 x) w with RErr e w' => 0 < e /\ stof w y mod 2 = 0 /\ stof w' y mod 2 = 1 | _ => False end.
Proof. exists (Wof (h0 ++ [CGet 0 true])), (Sof (h0 ++ [CGet 0 true])), 1%nat, 0%nat. split; [apply reach_of|split; [apply legal_of|]]; vm_compute; auto. Qed.
Theorem C05_mult_refuted : exists w s z x, zReach w s /\ zlegal (CMult z x x) s /\
  match zstep (CMult z x x) w with RErr e w' => 0 < e /\ stof w z mod 2 = 0 /\ stof w' z mod 2 = 1 | _ => False end.
Proof. exists (Wof (h0 ++ [CGet 0 true])), (Sof (h0 ++ [CGet 0 true])), 1%nat, 0%nat. split; [apply reach_of|split; [apply legal_of|]]; vm_compute; auto. Qed.
Theorem C05_copy_strided_refuted : exists w s v u, zReach w s /\ zlegal (CCopyStrided v 0 (-1) 1 u) s /\
  match zstep (CCopyStrided v 0 (-1) 1 u) w with RErr e w' => 0 < e /\ rdof w v = 0 /\ rdof w' v = 1 | _ => False end.
Proof. exists (Wof (h0 ++ [CGet 1 true])), (Sof (h0 ++ [CGet 1 true])), 0%nat, 1%nat. split; [apply reach_of|split; [apply legal_of|]]; vm_compute; auto. Qed.
(** copying a vector onto itself (ceed-vector.c:248-292, 306-352) fails and leaves an access outstanding: every later write access is refused *)
Theorem C05_copy_self_refuted : exists w s v, zReach w s /\ zlegal (CCopy v v) s /\
  match zstep (CCopy v v) w with RErr e w' => 0 < e /\ (stof w v mod 2 = 0 /\ rdof w v = 0) /\ (stof w' v mod 2 = 1 \/ rdof w' v = 1) | _ => False end.
Proof. exists (Wof h0), (Sof h0), 0%nat. split; [apply reach_of|split; [apply legal_of|]]; vm_compute; auto. Qed.
Theorem C05_copy_strided_self_refuted : exists w s v, zReach w s /\ zlegal (CCopyStrided v 0 (-1) 1 v) s /\
  match zstep (CCopyStrided v 0 (-1) 1 v) w with RErr e w' => 0 < e /\ (stof w v mod 2 = 0 /\ rdof w v = 0) /\ (stof w' v mod 2 = 1 \/ rdof w' v = 1) | _ => False end.
Proof. exists (Wof h0), (Sof h0), 0%nat. split; [apply reach_of|split; [apply legal_of|]]; vm_compute; auto. Qed.
(** a refused PointwiseMult into a vector without values (ceed-vector.c:841-842) makes that vector valid, full of zeros *)
Theorem C05_mult_contents_refuted : exists w s z x, zReach w s /\ zlegal (CMult z x x) s /\
  match zstep (CMult z x x) w with RErr e w' => 0 < e /\ vblock w z = None /\ vblock w' z = Some [0; 0; 0] | _ => False end.
Proof.
  exists (Wof (h0 ++ [CCreate 3; CGet 0 true])), (Sof (h0 ++ [CCreate 3; CGet 0 true])), 2%nat, 0%nat. split; [apply reach_of|split; [apply legal_of|]]; vm_compute; auto.
Qed.
(** GetArrayWrite for device memory fails with CEED_ERROR_BACKEND, having allocated and zeroed the empty vector and advanced its state (ceed-ref-vector.c:138-153) *)
Theorem C05_device_write_refuted : exists w s v, zReach w s /\ zlegal (CGetWrite v false) s /\
  match zstep (CGetWrite v false) w with RErr e w' => e = ERR_BACKEND /\ vblock w v = None /\ vblock w' v = Some [0; 0] /\ stof w v <> stof w' v | _ => False end.
Proof. exists (Wof [CCreate 2]), (Sof [CCreate 2]), 0%nat. split; [apply reach_of|split; [apply legal_of|]]; vm_compute; repeat split; auto; discriminate. Qed.
(** C04: two equal even states with different contents: TakeArray in between (ceed-vector.c:381-413) *)
Theorem C04_take_refuted : exists cs c v, okrun (cs ++ [c]) = true /\ stof (Wof cs) v mod 2 = 0 /\ stof (Wof (cs ++ [c])) v = stof (Wof cs) v /\ vblock (Wof cs) v <> vblock (Wof (cs ++ [c])) v.
Proof. exists h0, (CTake 1 true), 1%nat. vm_compute. repeat split; discriminate. Qed.
(** C04: or with the client writing its own array, shared by CEED_USE_POINTER *)
Theorem C04_shared_write_refuted : exists cs c v, okrun (cs ++ [c]) = true /\ stof (Wof cs) v mod 2 = 0 /\ stof (Wof (cs ++ [c])) v = stof (Wof cs) v /\ vblock (Wof cs) v <> vblock (Wof (cs ++ [c])) v.
Proof. exists h0, (UWrite 1 0 9), 1%nat. vm_compute. repeat split; discriminate. Qed.
(** C03: an array handed to a vector of length 0 with CEED_OWN_POINTER is neither taken over nor freed (ceed-vector.c:212) *)
Theorem C03_zero_length_leak_refuted : exists cs v n l, okrun (cs ++ [CSetArray v true OwnPointer (SUser n); CDestroy v]) = true /\
  w_heap (Wof (cs ++ [CSetArray v true OwnPointer (SUser n)])) (AU n) = Some l /\
  match w_vecs (Wof (cs ++ [CSetArray v true OwnPointer (SUser n)])) v with Some x => v_owned x = None | None => False end /\
  w_heap (Wof (cs ++ [CSetArray v true OwnPointer (SUser n); CDestroy v])) (AU n) = Some l.
Proof. exists [CCreate 0; UAlloc [1; 2]], 0%nat, 0%nat, [1; 2]. vm_compute. auto. Qed.
(** C06: SetValueStrided with a negative start or a step that is not positive, CopyStrided with a step that is not positive (ceed-vector.c:494-530, 306-352): accesses out of bounds or never ends *)
Theorem C06_strided_refuted : exists w s v u, zReach w s /\ zstep (CSetValueStrided v (-1) (-1) 1 7) w = RUB /\ zstep (CSetValueStrided v 1 (-1) (-1) 7) w = RUB /\ zstep (CSetValueStrided v 0 (-1) 0 7) w = RUB /\
  zstep (CCopyStrided v 1 (-1) (-1) u) w = RUB /\ zstep (CCopyStrided v 0 (-1) 0 u) w = RUB.
Proof. exists (Wof h0), (Sof h0), 0%nat, 1%nat. split; [apply reach_of|]; vm_compute; auto. Qed.
Print Assumptions C05_destroy_refuted.
Print Assumptions C05_destroy_negative_refuted.
Print Assumptions C05_axpy_refuted.
Print Assumptions C05_axpby_refuted.
Print Assumptions C05_mult_refuted.
Print Assumptions C05_copy_strided_refuted.
Print Assumptions C05_copy_self_refuted.
Print Assumptions C05_copy_strided_self_refuted.
Print Assumptions C05_mult_contents_refuted.
Print Assumptions C05_device_write_refuted.
Print Assumptions C04_take_refuted.
Print Assumptions C04_shared_write_refuted.
Print Assumptions C03_zero_length_leak_refuted.
Print Assumptions C06_strided_refuted.
