(** * CeedOperatorCreateFDMElementInverse: the call, and the operator it returns *)
From Coq Require Import List ZArith Lia Bool Arith Reals Lra Psatz.
From Verif Require Import Prelude RstrModel RstrSpec RstrProofs TensorModel TensorMain BasisModel Digits BasisMain BasisProps OpModel OpSpec OpLists OpProofs OpTree OpProps OpMain DenseModel DenseProofs QrModel RealLin QrProofs QrFact QrCheb ProjModel ProjProofs ProjProps SchurModel SchurTri SchurRot SchurMain SimDiag FdmModel FdmProofs FdmInv.
Import ListNotations.
Local Open Scope nat_scope.
Local Open Scope R_scope.

(** ** the collocation test *)
Definition colt (near : real -> real -> bool) (P : nat) (F : list real) : bool :=
  forallb (fun i => near (ent F (i + P * i)) 1 && forallb (fun j => (j =? i)%nat || near (ent F (j + P * i)) 0) (seq 0 P)) (seq 0 P).
Lemma forallb_snoc : forall A (f : A -> bool) l x, forallb f (l ++ [x]) = forallb f l && f x.
Proof. intros. rewrite forallb_app. cbn [forallb]. rewrite Bool.andb_true_r. reflexivity. Qed.
Lemma collo_colt : forall near P F, (P * P <= length F)%nat -> @collo_test Rrng near P P F = Some (colt near P F).
Proof.
  intros near P F LF. unfold collo_test. rewrite Nat.eqb_refl.
  match goal with |- forN P ?f true = _ => destruct (@forN_inv bool (fun n h => h = forallb (fun i => near (ent F (i + P * i)) 1 && forallb (fun j => (j =? i)%nat || near (ent F (j + P * i)) 0) (seq 0 P)) (seq 0 n)) f P true) as (h & E & H) end.
  - reflexivity.
  - intros i h Hi ->. rewrite (get_vf Rrng) by (apply Nat.lt_le_trans with (P * P)%nat; [nia|exact LF]). cbn [bind].
    match goal with |- exists s', forN P ?f ?s = _ /\ _ => destruct (@forN_inv bool (fun n h' => h' = (s && forallb (fun j => (j =? i)%nat || near (ent F (j + P * i)) 0) (seq 0 n))%bool) f P s) as (h' & E & H) end.
    + cbn. rewrite Bool.andb_true_r. reflexivity.
    + intros j h' Hj ->. destruct (Nat.eqb_spec j i) as [->|Hne].
      * eexists. split; [reflexivity|]. rewrite Nat.add_1_r, seq_S, forallb_snoc. cbn [Nat.add]. rewrite Nat.eqb_refl. cbn [orb]. rewrite Bool.andb_true_r. reflexivity.
      * rewrite (get_vf Rrng) by (apply Nat.lt_le_trans with (P * P)%nat; [nia|exact LF]). cbn [bind]. eexists. split; [reflexivity|]. rewrite Nat.add_1_r, seq_S, forallb_snoc. cbn [Nat.add]. destruct (Nat.eqb_spec j i); [contradiction|]. cbn [orb].
        rewrite Bool.andb_assoc. reflexivity.
    + exists h'. split; auto. rewrite H, Nat.add_1_r, seq_S, forallb_snoc, <- Bool.andb_assoc. reflexivity.
  - rewrite E, H. reflexivity.
Qed.
Lemma colt_true : forall near P F, colt near P F = true <-> forall i j, (i < P)%nat -> (j < P)%nat -> near (at2 F P i j) (idm i j) = true.
Proof.
  intros near P F. unfold colt. rewrite forallb_forall. split.
  - intros H i j Hi Hj. specialize (H i ltac:(apply in_seq; lia)). apply andb_prop in H. destruct H as (H1 & H2). rewrite forallb_forall in H2. unfold at2, idm. destruct (Nat.eqb_spec i j) as [->|Hne].
    + replace (j * P + j)%nat with (j + P * j)%nat by lia. auto.
    + specialize (H2 j ltac:(apply in_seq; lia)). destruct (Nat.eqb_spec j i); [congruence|]. cbn [orb] in H2. replace (i * P + j)%nat with (j + P * i)%nat by lia. auto.
  - intros H i Hi. apply in_seq in Hi. apply andb_true_intro. split.
    + specialize (H i i ltac:(lia) ltac:(lia)). unfold at2, idm in H. rewrite Nat.eqb_refl in H. replace (i + P * i)%nat with (i * P + i)%nat by lia. auto.
    + apply forallb_forall. intros j Hj. apply in_seq in Hj. destruct (Nat.eqb_spec j i); auto. cbn [orb]. specialize (H i j ltac:(lia) ltac:(lia)). unfold at2, idm in H. destruct (Nat.eqb_spec i j); [congruence|].
      replace (j + P * i)%nat with (i * P + j)%nat by lia. auto.
Qed.
Definition exactly (x y : real) : bool := if Req_EM_T x y then true else false.
Lemma fdm_basis_wf : forall junk near Jmin dim nc P (F : list real), (0 < dim)%nat -> (0 < nc)%nat -> (0 < P)%nat -> (Jmin <= P)%nat -> length F = (P * P)%nat -> indep P P (at2 F P) ->
  ((forall i j, (i < P)%nat -> (j < P)%nat -> near (at2 F P i j) (idm i j) = true) -> eqm P P (at2 F P) idm) ->
  exists t, tensor_create_qr junk near dim nc P P F (repeat 0 (P * P)) (repeat 0 P) = Ok t /\ b_wf Jmin (BT t) /\
    t_dim t = dim /\ t_nc t = nc /\ t_P t = P /\ t_Q t = P /\ t_interp t = F.
Proof.
  intros junk near Jmin dim nc P F Hd Hn HP HJ LF Hind Hnear.
  assert (E : exists near', (forall x, (near' x 0 = true -> x = 0) /\ (near' x 1 = true -> x = 1)) /\ colt near P F = colt near' P F).
  { destruct (colt near P F) eqn:Ec.
    - exists exactly. split; [intros x; unfold exactly; split; [destruct (Req_EM_T x 0); auto; discriminate|destruct (Req_EM_T x 1); auto; discriminate]|].
      symmetry. apply colt_true. intros i j Hi Hj. rewrite Hnear; auto; [unfold exactly; destruct (Req_EM_T (idm i j) (idm i j)); auto|]. apply colt_true. auto.
    - exists (fun _ _ => false). split; [split; discriminate|]. destruct (colt (fun _ _ => false) P F) eqn:Ef; auto. pose proof (proj1 (colt_true _ P F) Ef 0%nat 0%nat ltac:(lia) ltac:(lia)). discriminate. }
  destruct E as (near' & Hn' & Ec).
  destruct (tensor_create_qr_ok junk near' Jmin dim nc P P F (repeat 0 (P * P)) (repeat 0 P)) as (t & E & W & H1 & H2 & H3 & H4 & H5 & _); auto; try apply repeat_length.
  exists t. split; [|repeat (split; auto)]. rewrite <- E. unfold tensor_create_qr, tensor_create. rewrite !collo_colt by (change (car Rrng) with real; lia). rewrite Ec. reflexivity.
Qed.
Lemma fdm_basis_ok : forall junk near Jmin dim nc P (F : list real), (0 < dim)%nat -> (0 < nc)%nat -> (0 < P)%nat -> (Jmin <= P)%nat -> length F = (P * P)%nat -> indep P P (at2 F P) ->
  exists t, tensor_create_qr junk near dim nc P P F (repeat 0 (P * P)) (repeat 0 P) = Ok t /\ t_dim t = dim /\ t_nc t = nc /\ t_P t = P /\ t_Q t = P /\ t_interp t = F /\
    (((forall i j, (i < P)%nat -> (j < P)%nat -> near (at2 F P i j) (idm i j) = true) -> eqm P P (at2 F P) idm) -> b_wf Jmin (BT t)).
Proof.
  intros junk near Jmin dim nc P F Hd Hn HP HJ LF Hind. destruct (colt near P F) eqn:Ec.
  - assert (E : exists t, tensor_create_qr junk near dim nc P P F (repeat 0 (P * P)) (repeat 0 P) = Ok t /\ t_dim t = dim /\ t_nc t = nc /\ t_P t = P /\ t_Q t = P /\ t_interp t = F).
    { unfold tensor_create_qr, tensor_create. destruct (Nat.eqb_spec dim 0); [lia|]. destruct (Nat.eqb_spec nc 0); [lia|]. destruct (Nat.eqb_spec P 0); [lia|].
      rewrite collo_colt by (change (car Rrng) with real; lia). rewrite Ec. cbn [negb]. rewrite Bool.andb_false_r. cbn [rbind t_cg]. eexists. split; [reflexivity|]. repeat split. }
    destruct E as (t & E & H1 & H2 & H3 & H4 & H5). exists t. do 6 (split; [auto; fail|]). intros H. destruct (fdm_basis_wf junk near Jmin dim nc P F Hd Hn HP HJ LF Hind H) as (t' & E' & W & _). rewrite E in E'. injection E' as <-. exact W.
  - destruct (fdm_basis_wf junk near Jmin dim nc P F Hd Hn HP HJ LF Hind) as (t & E & W & K0).
    { intros H. apply colt_true in H. congruence. }
    exists t. destruct K0 as (H1 & H2 & H3 & H4 & H5). do 6 (split; [auto; fail|]). auto.
Qed.
Lemma indep_inv : forall n X Y, invm n X Y -> indep n n X.
Proof.
  intros n X Y HI c Hc j Hj. rewrite <- (inv_vec n X Y c j HI Hj). apply Sum_zero. intros p Hp. rewrite Hc by auto. ring.
Qed.
Lemma indep_ext : forall m n A B, eqm m n A B -> indep m n A -> indep m n B.
Proof. intros m n A B H HA c Hc. apply HA. intros r Hr. rewrite <- (Hc r Hr). apply Sum_ext. intros j Hj. rewrite H by auto. reflexivity. Qed.
Lemma eqm_sym : forall m n A B, eqm m n A B -> eqm m n B A.
Proof. intros m n A B H i j Hi Hj. symmetry. auto. Qed.
Lemma eqm_trans : forall m n A B C, eqm m n A B -> eqm m n B C -> eqm m n A C.
Proof. intros m n A B C H K i j Hi Hj. rewrite H by auto. auto. Qed.

(** ** the call *)
Section Call.
Variables (eps : real) (junk : nat -> real) (bjunk : nat -> nat -> real) (near : real -> real -> bool) (k : kernel Rrng) (Jmin : nat).
Variables (D : nat -> udesc) (fs : list (ofield Rrng)) (asm : list real) (l0 l1 l2 : nat) (t : tbasis Rrng) (r : nat) (interp grad : bool) (de : real).
Notation P := (t_P t). Notation dim := (t_dim t). Notation nn := (t_P t ^ t_dim t)%nat. Notation nq := (t_Q t ^ t_dim t)%nat. Notation nc := (t_nc t). Notation ne := (u_ne (D r)).
Definition modes : nat := ((if interp then 1 else 0) + (if grad then dim else 0))%nat.
Notation ni := (nc * nc * modes * modes)%nat.
Definition mass1 : mtx := gramm (t_interp t) (t_w t) P (t_Q t).
Definition lap1 : mtx := pert_lap (t_grad t) (t_w t) P (t_Q t) dim.
Definition avg1 (e : nat) : real := favg (max_norm asm * 100 * eps) (fun q i => ent asm (q * l0 + i * l1 + e * l2)) (@qweight Rrng (BT t)) nq ni.
Hypothesis Heps : 0 < eps.
Hypothesis Hde : 0 < de.
Hypothesis Hb : @b_wf Rrng Jmin (BT t).
Hypothesis Hscan : fdm_scan fs = (interp, grad, Some (Some (BT t)), Some (Some r)).
Hypothesis HP : (2 <= P)%nat.
Hypothesis Hfits : fits P.
Hypothesis Hcoer : coer P mass1 de.
Hypothesis Hasm : forall q i e, (q < nq)%nat -> (i < ni)%nat -> (e < ne)%nat -> (q * l0 + i * l1 + e * l2 < length asm)%nat.
Hypothesis Hw : forall q, (q < nq)%nat -> @qweight Rrng (BT t) q <> 0.
Notation call := (fdm_create eps junk bjunk near k D fs asm l0 l1 l2).

Definition diagonalises (X : list real) (lam : list real) (Y : mtx) : Prop :=
  length lam = P /\ invm P (at2 X P) Y /\ (forall i, (i < P)%nat -> cj P (at2 X P) lap1 i i = ent lam i) /\
  offd P (cj P (at2 X P) lap1) <= schur_bound eps P /\ F2 P (fun i j => cj P (at2 X P) mass1 i j - idm i j) <= schur_bound eps P / (de * de).
Lemma fdm_call :
  (call = UB /\ exists d, (1 <= d)%nat /\ (d <= P - 2)%nat /\ (inv_space P mass1 d \/ exists S, inv_space P (cj P S lap1) d /\ (forall i, (i < P)%nat -> cj P S mass1 i i = 1))) \/
  (call = Err ERR_MINOR /\ exists M K, mass_laplace (t_interp t) (t_grad t) (t_w t) P (t_Q t) dim = Ok (M, K) /\ simdiag eps junk K M P = Err ERR_MINOR) \/
  exists X lam Y, diagonalises X lam Y /\
    ((exists e, (e < ne)%nat /\ avg1 e = 0) -> call = UB) /\
    ((forall e, (e < ne)%nat -> avg1 e <> 0) ->
     exists x, call = Ok x /\ fd_rstr x = r /\ t_dim (fd_basis x) = dim /\ t_nc (fd_basis x) = nc /\ t_P (fd_basis x) = P /\ t_Q (fd_basis x) = P /\
       eqm P P (at2 (t_interp (fd_basis x)) P) (tr (at2 X P)) /\ length (fd_data x) = (ne * nc * nn)%nat /\
       (forall e c n, (e < ne)%nat -> (c < nc)%nat -> (n < nn)%nat -> ent (fd_data x) ((e * nc + c) * nn + n) = 1 / (avg1 e * clip (INR nn * eps) (fdv interp grad dim P (ent lam) n))) /\
       (((forall i j, (i < P)%nat -> (j < P)%nat -> near (at2 (t_interp (fd_basis x)) P i j) (idm i j) = true) -> eqm P P (at2 (t_interp (fd_basis x)) P) idm) -> b_wf Jmin (BT (fd_basis x)))).
Proof.
  destruct Hb as ((Hdim & Hnc & HP0 & HQ & Hi & Hg & Hwl) & J1 & J2 & _). unfold fdm_create. rewrite Hscan.
  change (car Rrng) with real in Hi, Hg, Hwl.
  destruct (mass_laplace_ok (t_interp t) (t_grad t) (t_w t) P (t_Q t) dim) as (M & K & E1 & LM & LK & HM & HK); try (change (car Rrng) with real; lia).
  rewrite E1. cbn [rbind fst snd]. fold mass1 in HM. fold lap1 in HK.
  assert (SM : symm P (at2 M P)). { intros i j H1 H2. rewrite !HM by auto. apply gramm_sym. }
  assert (SK : symm P (at2 K P)). { intros i j H1 H2. rewrite !HK by auto. unfold lap1, pert_lap. rewrite gramm_sym, Nat.eqb_sym. reflexivity. }
  assert (CM : coer P (at2 M P) de). { intros x. eapply Rle_trans; [apply (Hcoer x)|]. right. apply Sum_ext. intros i H1. apply Sum_ext. intros j H2. rewrite HM by auto. reflexivity. }
  destruct (simdiag_ok eps junk K M P de Heps Hde HP Hfits ltac:(lia) ltac:(lia) SK SM CM) as [(E2 & d & D1 & D2 & Hd)|[E2|(X & lam & E2 & LX & Ll & G1 & G2 & G3 & _ & Y & HY)]].
  { left. rewrite E2. split; auto. exists d. split; auto. split; auto. destruct Hd as [Hd|(S & S1 & S2)].
    - left. apply (inv_space_ext P (at2 M P)); auto. lia.
    - right. exists S. split; [apply (inv_space_ext P (cj P S (at2 K P))); auto; [lia|]; intros i j Hi' Hj'; apply cj_ext; auto|]. intros i Hi'. rewrite <- (S2 i Hi'). apply cj_ext; auto. intros. symmetry. auto. }
  { right. left. rewrite E2. split; [reflexivity|]. exists M, K. auto. }
  right. right. exists X, lam, Y. rewrite E2. cbn [rbind fst snd].
  assert (CK : eqm P P (cj P (at2 X P) (at2 K P)) (cj P (at2 X P) lap1)) by (intros i j H1 H2; apply cj_ext; auto).
  assert (CM' : eqm P P (cj P (at2 X P) (at2 M P)) (cj P (at2 X P) mass1)) by (intros i j H1 H2; apply cj_ext; auto).
  split. { split; auto. split; auto. split; [intros i H1; rewrite <- CK by auto; auto|]. split; [rewrite <- (offd_ext P _ _ CK); auto|].
    rewrite (F2_ext P _ (fun i j => cj P (at2 X P) (at2 M P) i j - idm i j)); auto. intros i j H1 H2. rewrite CM' by auto. reflexivity. }
  destruct (fdm_interp_ok X P ltac:(lia)) as (F & E3 & LF & HF). rewrite E3. cbn [rbind].
  destruct (@C14_weights Rrng k Jmin bjunk (BT t) 1 None (@alloc Rrng nq junk) Hb ltac:(lia)) as (qw & E4 & Lq & Hq & _).
  { cbn [check_dims BasisModel.check_dims b_qpts]. apply Nat.leb_le. unfold alloc. rewrite map_length, seq_length. lia. }
  rewrite E4. cbn [rbind]. unfold alloc in Lq. rewrite map_length, seq_length in Lq. change (@length real qw = nq) in Lq.
  assert (Hqw : forall q, (q < nq)%nat -> ent qw q = @qweight Rrng (BT t) q). { intros q H. pose proof (Hq q 0%nat H ltac:(lia)) as E. rewrite Nat.mul_1_r, Nat.add_0_r in E. exact E. }
  fold modes. destruct (elem_avgs_ok (max_norm asm * 100 * eps) asm qw l0 l1 l2 nq ni ne Hasm ltac:(lia)) as (avg & E5 & La & Ha). { intros q H. rewrite Hqw by auto. auto. }
  rewrite E5. cbn [rbind].
  assert (Ha' : forall e, (e < ne)%nat -> ent avg e = avg1 e). { intros e He. rewrite Ha by auto. apply favg_ext. auto. }
  destruct (fdm_diag_ok (INR nn * eps) interp grad dim nc P lam ltac:(lia) Ll) as (dg & E6 & Ld & Hdg). rewrite E6. cbn [rbind].
  assert (Hnn : (0 < nn)%nat) by (apply pow_pos; lia).
  assert (Hbd : 0 < INR nn * eps) by (apply Rmult_lt_0_compat; auto; apply lt_0_INR; auto).
  assert (Hcl : forall c n, (c < nc)%nat -> (n < nn)%nat -> ent dg (c * nn + n) <> 0).
  { intros c n H1 H2. rewrite Hdg by auto. unfold clip. destruct (Rlt_dec _ _) as [_|Hn]; [lra|]. intros E0. rewrite E0, Rabs_R0 in Hn. lra. }
  split.
  - intros (e & He & Ez). enough (Eu : fdm_data ne nc nn avg dg = UB) by (rewrite Eu; reflexivity).
    unfold fdm_data.
    assert (Hu : forall n a l, length l = (ne * nc * nn)%nat -> (a <= e < a + n)%nat -> (a + n <= ne)%nat -> rfold (seq a n) (fun e q => rfold (seq 0 nc) (fun c q => rfold (seq 0 nn) (fun n q =>
        a <~ og avg e ;; y <~ og dg (c * nn + n) ;; x <~ rdiv 1 (a * y) ;; put q ((e * nc + c) * nn + n) x) q) q) l = UB).
    { induction n as [|n IH]; intros a l Ll0 H1 H2; [lia|]. cbn [seq rfold]. destruct (Req_EM_T (ent avg a) 0) as [Za|Za].
      - replace nc with (S (nc - 1))%nat by lia. cbn [seq rfold]. replace nn with (S (nn - 1))%nat at 1 by lia. cbn [seq rfold]. rewrite og_ent by lia. cbn [rbind]. rewrite og_ent by nia. cbn [rbind]. rewrite Za. unfold rdiv.
        destruct (Req_EM_T (0 * ent dg (0 * nn + 0)) 0) as [_|N]; [reflexivity|]. exfalso. apply N. ring.
      - assert (a <> e) by (intros ->; apply Za; rewrite Ha' by auto; auto).
        match goal with |- rbind (rfold _ (fun zi zA => rfold _ (fun zj zB => @?g zi zj zB) zA) _) _ = _ => destruct (fill2 nc nn g (fun c n => ((a * nc + c) * nn + n)%nat) (fun c n => 1 / (ent avg a * ent dg (c * nn + n))) (ne * nc * nn) l Ll0) as (A' & E & L' & _ & _) end.
        + intros i j i' j' H3 H4 H5 H6 Eq. apply rowcol in Eq; auto. lia.
        + intros c m l' Hc Hm L1 _. rewrite og_ent by lia. cbn [rbind]. rewrite og_ent by nia. cbn [rbind]. unfold rdiv. destruct (Req_EM_T _ 0) as [E|]; [exfalso; apply Rmult_integral in E; destruct E as [E|E]; [auto|apply (Hcl c m Hc Hm E)]|].
          cbn [rbind]. apply put_step; auto. assert (a * nc + c < ne * nc)%nat by nia. nia.
        + rewrite E. cbn [rbind]. apply IH; auto; lia. }
    apply Hu; [apply repeat_length|lia|lia].
  - intros Hav. destruct (fdm_data_ok ne nc nn avg dg La Ld) as (qd & E7 & Lqd & Hqd); auto. { intros e He. rewrite Ha' by auto. auto. }
    rewrite E7. cbn [rbind].
    assert (HIF : indep P P (at2 F P)). { apply (indep_ext P P (tr (at2 X P))); [apply eqm_sym; auto|]. apply (indep_inv P _ (tr Y)). apply invm_tr. auto. }
    destruct (fdm_basis_ok junk near Jmin dim nc P F Hdim Hnc HP0 J1 LF HIF) as (fb & E8 & F1 & F2' & F3 & F4 & F5 & Wf).
    rewrite E8. cbn [rbind]. eexists. split; [reflexivity|]. cbn [fd_rstr fd_basis fd_data]. rewrite F1, F2', F3, F4, F5. repeat (split; [auto; fail|]). split; auto.
    intros e c n He Hc Hn. rewrite Hqd, Ha', Hdg by auto. reflexivity.
Qed.
End Call.

(** ** applying the operator *)
Lemma fdm_rstr_wf : forall chk bs ne nc nn, (0 < nc)%nat -> (0 < nn)%nat -> (0 < bsize bs)%nat ->
  lengths_ok (fdm_rstr ne nc nn) /\ in_range (fdm_rstr ne nc nn) /\ curl_ok Signed (fdm_rstr ne nc nn) /\ exists r, rstr_create chk (fdm_rstr ne nc nn) bs = Ok r.
Proof.
  intros chk bs ne nc nn Hc Hn Hb. split; [exact I|]. split; [|split; [exact I|]].
  - intros e c m He Hcc Hm. unfold fdm_rstr, col in *. cbn [u_kind u_ne u_nc u_es u_lsize] in *. unfold backend_strides. cbn [Z.eqb andb].
    replace (Z.of_nat m * 1 + Z.of_nat c * Z.of_nat nn + Z.of_nat e * Z.of_nat (nn * nc))%Z with (Z.of_nat ((e * nc + c) * nn + m)) by lia.
    assert (e * nc + c < ne * nc)%nat by nia. split; [lia|]. apply inj_lt. nia.
  - unfold rstr_create. destruct bs as [[|b]|]; [cbn in Hb; lia| |];
      (unfold RstrModel.check_dims, fdm_rstr; cbn [u_es u_nc u_kind u_lsize u_ne]; destruct (Nat.eqb_spec nn 0); [lia|]; destruct (Nat.eqb_spec nc 0); [lia|]; destruct (Nat.ltb_spec (ne * nc * nn) (ne * nn * nc)); [lia|]; cbn; eexists; reflexivity).
Qed.
Lemma fdm_rstr_Eval : forall ne nc nn (s : list Rrng) e c n, (n < nn)%nat ->
  @Eval Rrng Signed (fdm_rstr ne nc nn) s e c n = ent s ((e * nc + c) * nn + n).
Proof.
  intros ne nc nn s e c n Hn. unfold Eval, fdm_rstr, coef, col. cbn [u_kind u_es u_nc].
  rewrite Sum_sumn. rewrite (Sum_ext nn _ (fun m => idm n m * ent s ((e * nc + c) * nn + m))).
  - rewrite <- (Sum_delta nn n (fun m => ent s ((e * nc + c) * nn + m)) Hn). apply Sum_ext. intros m _. unfold idm. rewrite Nat.eqb_sym. reflexivity.
  - intros m Hm. unfold backend_strides. cbn [Z.eqb andb].
    replace (Z.of_nat m * 1 + Z.of_nat c * Z.of_nat nn + Z.of_nat e * Z.of_nat (nn * nc))%Z with (Z.of_nat ((e * nc + c) * nn + m)) by lia. rewrite Nat2Z.id.
    unfold idm, delta. destruct (n =? m)%nat; reflexivity.
Qed.

Section Apply.
Variables (k : kernel Rrng) (Jmin : nat).
Lemma fdm_apply : forall (x : fdm) (X : mtx) jk chk D bs qi qv im (vm : vmem Rrng) inv outv u y, let t := fd_basis x in let P := t_P t in let nn := (P ^ t_dim t)%nat in let ne := u_ne (D (fd_rstr x)) in let o := fdm_oper x ne qi qv in
  @b_wf Rrng Jmin (BT t) -> t_Q t = P -> eqm P P (at2 (t_interp t) P) (tr X) -> kernel_ok Jmin k -> (0 < bsize bs)%nat -> (0 < ne)%nat ->
  rstr_wf chk bs o (D (fd_rstr x)) -> u_nc (D (fd_rstr x)) = t_nc t -> u_es (D (fd_rstr x)) = nn -> D qi = fdm_rstr ne (t_nc t) nn ->
  mem_ok vm -> im_ok chk D bs o im vm ->
  vv_data (vm inv) = Some u -> (u_lsize (D (fd_rstr x)) <= length u)%nat -> vv_data (vm outv) = Some y -> (u_lsize (D (fd_rstr x)) <= length y)%nat ->
  vv_data (vm qv) = Some (fd_data x) -> (ne * t_nc t * nn <= length (fd_data x))%nat ->
  exists im' vm' y', single_apply_add k jk chk D bs o im vm (Some inv) (Some outv) = Ok (im', vm') /\ im_ok chk D bs o im' vm' /\ mem_ok vm' /\ (forall v, v <> outv -> vm' v = vm v) /\
    vv_data (vm' outv) = Some y' /\ length y' = length y /\
    forall q, ent y' q = ent y q + @Lval Rrng Signed (D (fd_rstr x)) (fun e c n => Sum nn (fun m => wmat (t_dim t) P X (fun j => ent (fd_data x) ((e * t_nc t + c) * nn + j)) n m * @Eval Rrng Signed (D (fd_rstr x)) u e c m)) q.
Proof.
  intros x X jk chk D bs qi qv im vm inv outv u y t P nn ne o Hb HQ HX Hk Hbs Hne HR Hrc Hre Hqi Hm Him Hu Lu Hy Ly Hq Lq.
  pose proof Hb as (Hsz & _). pose proof Hsz as (Hdim & Hnc & HP0 & _). fold P in HP0.
  assert (Hnn : (0 < nn)%nat) by (apply pow_pos; auto).
  destruct (get_interp_ok Hsz) as (mt & Emt & _ & Gmt). rewrite HQ in Gmt. fold P nn in Gmt.
  destruct (fdm_rstr_wf chk bs ne (t_nc t) nn Hnc Hnn Hbs) as (F1 & F2' & F3 & F4).
  assert (Rqi : rstr_wf chk bs o (D qi)). { rewrite Hqi. repeat (split; auto). }
  assert (FA : field_wf D Jmin chk bs o (mkOF (t_nc t) EvInterp (Some (fd_rstr x)) (Some (BT t)) VAct)).
  { cbn. exists (fd_rstr x), (BT t), mt. cbn [b_nc b_nodes b_qpts]. fold nn. rewrite Hrc, Hre. repeat (split; auto). cbn. lia. }
  assert (W : op_wf D k Jmin chk bs o).
  { constructor; auto; unfold o, fdm_oper; fold t; cbn [o_ne o_Q o_in o_out o_ident o_vlen].
    - rewrite HQ. auto.
    - intros i Hi. cbn in Hi. destruct i as [|[|i]]; [exact FA| |lia]. cbn. exists qi. rewrite Hqi. cbn [u_nc u_es fdm_rstr]. split; auto. split; [rewrite <- Hqi; exact Rqi|]. split; auto. fold t. rewrite HQ. reflexivity.
    - intros i Hi. cbn in Hi. destruct i as [|i]; [|lia]. split; [exact FA|cbn; discriminate].
    - intros i j Hij. cbn in Hij. assert (i = 0 /\ j = 1)%nat as (-> & ->) by lia. cbn. discriminate.
    - intros i j Hij. cbn in Hij. lia.
    - discriminate. }
  assert (V : vec_ok D o vm (Some inv) (Some outv)).
  { split.
    - intros i Hi _. cbn in Hi. destruct i as [|[|i]]; [exists inv, u; auto| |lia]. exists qv, (fd_data x). cbn. rewrite Hqi. auto.
    - intros i Hi. cbn in Hi. destruct i as [|i]; [exists outv, y; auto|lia]. }
  destruct (@C28_apply_add Rrng k Jmin jk chk D bs o im vm (Some inv) (Some outv) W Hm Him V) as (im' & vm' & E & I1 & I2 & H).
  pose proof (H outv) as Ho. unfold outs in Ho. cbn in Ho. rewrite Nat.eqb_refl in Ho. cbn [orb] in Ho. destruct Ho as (_ & y0 & y' & Y0 & Y1 & Y2 & Y3).
  rewrite Hy in Y0. injection Y0 as <-. exists im', vm', y'. repeat (split; auto).
  - intros v Hv. specialize (H v). unfold outs in H. cbn in H. destruct (Nat.eqb_spec outv v) as [->|]; [contradiction|]. cbn in H. auto.
  - intros q. specialize (Y3 q). etransitivity; [exact Y3|]. apply f_equal2; [reflexivity|].
    transitivity (contrib D o vm (Some inv) 0 q); [unfold delta; apply Rplus_0_r|].
    unfold contrib. change (fld (o_out o) 0) with (mkOF (t_nc t) EvInterp (Some (fd_rstr x)) (Some (BT t)) (@VAct)). set (fo := mkOF (t_nc t) EvInterp (Some (fd_rstr x)) (Some (BT t)) (@VAct)). change (rd D fo) with (D (fd_rstr x)).
    apply (@Lval_ext Rrng). intros e c n He Hc Hn. rewrite Hrc in Hc. rewrite Hre in Hn.
    assert (HFI : forall j p, (j < nn)%nat -> (p < nn)%nat -> @vf Rrng mt (j * nn + p)%nat = kron (t_dim t) P (fun _ => X) p j).
    { intros j p Hj Hp. etransitivity; [exact (Gmt j p Hj Hp)|]. unfold FI, kron. apply (@prodn_ext Rrng). intros i _. rewrite HQ. fold P. change (@vf Rrng (t_interp t) (dig P i j * P + dig P i p)%nat) with (at2 (t_interp t) P (dig P i j) (dig P i p)). rewrite HX by (apply dig_lt; auto). reflexivity. }
    unfold out_val. cbn [f_mode fo bd f_basis q_comp b_fe b_dim b_qpts b_nodes b_nc]. fold t. rewrite HQ. fold P nn.
    rewrite Sum_sumn. cbn [Sum]. rewrite Sum_sumn. change (0 * nn)%nat with 0%nat. cbn [Nat.add Nat.mul]. rewrite Rplus_0_l.
    unfold mat. cbn [reported]. rewrite Emt.
    rewrite (Sum_ext nn _ (fun j => kron (t_dim t) P (fun _ => X) n j * (ent (fd_data x) ((e * t_nc t + c) * nn + j) * Sum nn (fun p => kron (t_dim t) P (fun _ => X) p j * @Eval Rrng Signed (D (fd_rstr x)) u e c p)))).
    + unfold wmat. fold nn. rewrite (Sum_ext nn (fun m => Sum nn _ * _) (fun m => Sum nn (fun j => kron (t_dim t) P (fun _ => X) n j * ent (fd_data x) ((e * t_nc t + c) * nn + j) * kron (t_dim t) P (fun _ => X) m j * @Eval Rrng Signed (D (fd_rstr x)) u e c m))) by (intros; rewrite <- Sum_mulr; reflexivity).
      rewrite Sum_swap. apply Sum_ext. intros j _. rewrite <- Sum_mul, <- Sum_mul. apply Sum_ext. intros. ring.
    + intros j Hj. rewrite HFI by auto. apply f_equal2; [reflexivity|].
      unfold outs_val. cbn [o fdm_oper o_ident o_pt]. unfold pt_scale. cbn [nth]. fold t. rewrite (@vf_map_seq Rrng) by auto.
      unfold ins_val. cbn [o fdm_oper o_in map nth f_size]. fold t. rewrite !(@vf_map_seq Rrng) by auto.
      rewrite (Rmult_comm (ent _ _)). apply (f_equal2 Rmult).
      * unfold in_val. cbn [f_mode bd f_basis b_qpts b_nodes b_nc rd f_rstr contents target f_vec]. fold t. rewrite HQ. fold P nn. rewrite Sum_sumn. rewrite Hu. rewrite Nat.div_small, Nat.mod_small by auto. cbn [Nat.mul Nat.add]. unfold mat. cbn [reported]. rewrite Emt.
        apply Sum_ext. intros p Hp. rewrite HFI by auto. reflexivity.
      * unfold in_val. cbn [f_mode rd f_rstr contents target f_vec]. rewrite Hq, Hqi. apply fdm_rstr_Eval. auto.
Qed.
End Apply.
