(** * C54: the fast diagonalization inverse of the element operator *)
From Coq Require Import List ZArith Lia Bool Arith Reals Lra Psatz.
From Verif Require Import Prelude RstrModel RstrSpec RstrProofs TensorModel TensorMain BasisModel Digits BasisMain BasisProps OpModel OpSpec OpLists OpProofs OpTree OpProps OpMain DenseModel DenseProofs QrModel RealLin QrProofs QrFact QrCheb ProjModel ProjProofs ProjProps SchurModel SchurTri SchurRot SchurMain SchurProps SimDiag SimProps FdmModel FdmProofs FdmInv FdmMain.
Import ListNotations.
Local Open Scope nat_scope.
Local Open Scope R_scope.

(** ** the eigenvalues are bounded below *)
Lemma cj_diag : forall n X A i, cj n X A i i = qf n A (fun a => X a i).
Proof.
  intros n X A i. unfold cj, qf, mm, tr. rewrite Sum_swap. apply Sum_ext. intros b _. rewrite <- Sum_mulr. reflexivity.
Qed.
Lemma qf_gramm : forall m w P Q u, qf P (gramm m w P Q) u = Sum Q (fun q => ent w q * (Sum P (fun a => at2 m P q a * u a) * Sum P (fun a => at2 m P q a * u a))).
Proof.
  intros m w P Q u. unfold qf, gramm.
  transitivity (Sum P (fun i => Sum Q (fun q => Sum P (fun j => u i * (at2 m P q i * ent w q * at2 m P q j) * u j)))).
  { apply Sum_ext. intros i _. rewrite Sum_swap. apply Sum_ext. intros j _. rewrite <- Sum_mul, <- Sum_mulr. reflexivity. }
  rewrite Sum_swap. apply Sum_ext. intros q _. rewrite <- Sum_mulr, <- Sum_mul. apply Sum_ext. intros i _. rewrite <- Sum_mul, <- Sum_mul. apply Sum_ext. intros. ring.
Qed.
Lemma qf_add : forall n A B u, qf n (fun i j => A i j + B i j) u = qf n A u + qf n B u.
Proof. intros. unfold qf. rewrite <- Sum_add. apply Sum_ext. intros i _. rewrite <- Sum_add. apply Sum_ext. intros. ring. Qed.
Lemma qf_scal : forall n c u, qf n (fun i j => if (i =? j)%nat then c else 0) u = c * Sum n (fun i => u i * u i).
Proof.
  intros n c u. unfold qf. rewrite <- Sum_mul. apply Sum_ext. intros i Hi. rewrite <- (Sum_delta n i (fun j => c * (u i * u j)) Hi). apply Sum_ext. intros j _. rewrite Nat.eqb_sym. destruct (j =? i)%nat; ring.
Qed.
Lemma pert_pos : forall dim, 0 < perturbation dim.
Proof. intros dim. unfold perturbation. destruct (2 <? dim)%nat; lra. Qed.
Lemma F2_entry : forall n A i j, (i < n)%nat -> (j < n)%nat -> A i j * A i j <= F2 n A.
Proof.
  intros n A i j Hi Hj. unfold F2.
  assert (G : forall n f k, (k < n)%nat -> (forall l, (l < n)%nat -> 0 <= f l) -> f k <= Sum n f).
  { clear. induction n as [|n IH]; intros f k Hk H; [lia|]. cbn [Sum]. destruct (Nat.eq_dec k n) as [->|].
    - pose proof (Sum_pos n f ltac:(intros; apply H; lia)). lra.
    - pose proof (IH f k ltac:(lia) ltac:(intros; apply H; lia)). pose proof (H n ltac:(lia)). lra. }
  eapply Rle_trans; [|apply (G n (fun i => Sum n (fun j => A i j * A i j)) i Hi); intros; apply Sum_pos; intros; apply Rle_0_sqr].
  apply (G n (fun j => A i j * A i j) j Hj). intros. apply Rle_0_sqr.
Qed.
Lemma Sum_const : forall n c, Sum n (fun _ => c) = INR n * c.
Proof. induction n as [|n IH]; intros c; [cbn; ring|]. cbn [Sum]. rewrite IH, S_INR. ring. Qed.
Section Lam.
Variables (eps de mu be : real) (t : tbasis Rrng) (X lam : list real) (Y : mtx).
Notation P := (t_P t). Notation dim := (t_dim t).
Hypothesis HD : diagonalises eps t de X lam Y.
Hypothesis Hw : forall q, (q < t_Q t)%nat -> 0 <= ent (t_w t) q.
Hypothesis Hmu : 0 < mu.
Hypothesis HM : forall u, qf P (mass1 t) u <= mu * Sum P (fun i => u i * u i).
Hypothesis Hbe : 0 <= be < 1.
Hypothesis Hb : schur_bound eps P / (de * de) <= be * be.
Lemma lam_low : forall i, (i < P)%nat -> perturbation dim * (1 - be) / mu <= ent lam i.
Proof.
  intros i Hi. destruct HD as (_ & _ & H1 & _ & H2). rewrite <- (H1 i Hi). rewrite cj_diag. unfold lap1, pert_lap. rewrite qf_add, qf_gramm, qf_scal.
  set (S := Sum P (fun a => at2 X P a i * at2 X P a i)).
  match goal with |- _ <= ?g + _ => assert (0 <= g) end. { apply Sum_pos. intros q Hq. apply Rmult_le_pos; [auto|apply Rle_0_sqr]. }
  assert (HS : (1 - be) / mu <= S).
  { pose proof (HM (fun a => at2 X P a i)) as G. fold S in G. pose proof (F2_entry P (fun i j => cj P (at2 X P) (mass1 t) i j - idm i j) i i Hi Hi) as G2. cbv beta in G2. rewrite cj_diag in G2. unfold idm in G2. rewrite Nat.eqb_refl in G2.
    set (m := qf P (mass1 t) (fun a => at2 X P a i)) in *. assert (1 - be <= m). { assert (Hs : (m - 1) * (m - 1) <= be * be) by (eapply Rle_trans; [exact G2|]; eapply Rle_trans; [exact H2|exact Hb]). destruct (Rle_dec (1 - be) m) as [|Hn]; [assumption|]. apply Rnot_le_lt in Hn. exfalso. nra. }
    apply (Rmult_le_reg_l mu); auto. replace (mu * ((1 - be) / mu)) with (1 - be) by (field; apply Rgt_not_eq; exact Hmu). eapply Rle_trans; [|exact G]. assumption. }
  pose proof (pert_pos dim). apply (Rmult_le_compat_l (perturbation dim)) in HS; [|lra]. unfold Rdiv in *. lra.
Qed.
Lemma fdv_low : forall (interp grad : bool) n, (0 < P)%nat -> (if interp then 1 else 0) + (if grad then INR dim * (perturbation dim * (1 - be) / mu) else 0) <= fdv interp grad dim P (ent lam) n.
Proof.
  intros interp grad n HP. unfold fdv. apply Rplus_le_compat_l. destruct grad; [|lra]. rewrite <- (Sum_const dim). apply Sum_le. intros d _. apply lam_low. apply dig_lt. auto.
Qed.
End Lam.

(** ** C54 *)
Definition some_mode (g : emode -> bool) (fs : list (ofield Rrng)) : bool := existsb (fun f => is_active f && g (f_mode f)) fs.
Definition is_interp (m : emode) : bool := match m with EvInterp => true | _ => false end.
Definition is_grad (m : emode) : bool := match m with EvGrad => true | _ => false end.
Definition first_active (fs : list (ofield Rrng)) : option (ofield Rrng) := find (fun f => is_active f) fs.
Lemma scan_spec : forall fs, fdm_scan fs = (some_mode is_interp fs, some_mode is_grad fs, option_map (@f_basis Rrng) (first_active fs), option_map (@f_rstr Rrng) (first_active fs)).
Proof.
  assert (G : forall fs i g b r, fold_left scan_step fs (i, g, b, r) = (i || some_mode is_interp fs, g || some_mode is_grad fs,
    match b with None => option_map (@f_basis Rrng) (first_active fs) | _ => b end, match r with None => option_map (@f_rstr Rrng) (first_active fs) | _ => r end)).
  { induction fs as [|f fs IH]; intros i g b r.
    - cbn. rewrite !Bool.orb_false_r. destruct b, r; reflexivity.
    - cbn [fold_left scan_step]. unfold some_mode, first_active in *. cbn [existsb find]. destruct (is_active f) eqn:Ea; cbn [andb].
      + rewrite IH, <- !Bool.orb_assoc. destruct b, r; reflexivity.
      + rewrite IH. reflexivity. }
  intros fs. unfold fdm_scan. rewrite G. reflexivity.
Qed.

(** an operator with a tensor basis on its first active input *)
Record fdm_input (eps : real) (Jmin : nat) (D : nat -> udesc) (fs : list (ofield Rrng)) (asm : list real) (l0 l1 l2 : nat) (t : tbasis Rrng) (r : nat) (interp grad : bool) (de : real) : Prop := {
  fi_eps : 0 < eps;
  fi_first : exists f, first_active fs = Some f /\ f_basis f = Some (BT t) /\ f_rstr f = Some r;
  fi_interp : interp = some_mode is_interp fs;
  fi_grad : grad = some_mode is_grad fs;
  fi_basis : @b_wf Rrng Jmin (BT t);
  fi_P : (2 <= t_P t)%nat;
  fi_int : (Z.of_nat (t_P t) ^ 4 <= 2147483647)%Z;
  (* the mass matrix in one dimension is positive definite *)
  fi_de : 0 < de;
  fi_mass : forall u : nat -> real, de * Sum (t_P t) (fun i => u i * u i) <= qf (t_P t) (mass1 t) u;
  (* the assembled QFunction has as many components as the active inputs squared *)
  fi_asm : forall q i e, (q < t_Q t ^ t_dim t)%nat -> (i < t_nc t * t_nc t * modes t interp grad * modes t interp grad)%nat -> (e < u_ne (D r))%nat -> (q * l0 + i * l1 + e * l2 < length asm)%nat;
  fi_w : forall q, (q < t_Q t ^ t_dim t)%nat -> @qweight Rrng (BT t) q <> 0 }.
Lemma input_call : forall eps Jmin D fs asm l0 l1 l2 t r interp grad de, fdm_input eps Jmin D fs asm l0 l1 l2 t r interp grad de -> fdm_scan fs = (interp, grad, Some (Some (BT t)), Some (Some r)) /\ coer (t_P t) (mass1 t) de.
Proof.
  intros eps Jmin D fs asm l0 l1 l2 t r interp grad de [H1 (f & F1 & F2' & F3) -> -> _ _ _ _ H3 _ _]. split; [rewrite scan_spec, F1; cbn [option_map]; rewrite F2', F3; reflexivity|].
  exact H3.
Qed.
Lemma zero_dec : forall n (f : nat -> real), (exists e, (e < n)%nat /\ f e = 0) \/ forall e, (e < n)%nat -> f e <> 0.
Proof.
  induction n as [|n IH]; intros f; [right; intros; lia|]. destruct (IH f) as [(e & He & E)|H]; [left; exists e; split; auto; lia|].
  destruct (Req_EM_T (f n) 0) as [E|E]; [left; exists n; auto|]. right. intros e He. destruct (Nat.eq_dec e n) as [->|]; auto. apply H. lia.
Qed.

(** The call divides by zero in the tridiagonalization of a matrix with an invariant subspace spanned by coordinates, or fails because the iteration does not converge, or divides by the average of an
    element that is zero, or succeeds. *)
Theorem C54_create : forall eps junk bjunk near k Jmin D fs asm l0 l1 l2 t r interp grad de, fdm_input eps Jmin D fs asm l0 l1 l2 t r interp grad de ->
  let call := fdm_create eps junk bjunk near k D fs asm l0 l1 l2 in
  (call = UB /\ exists d, (1 <= d)%nat /\ (d <= t_P t - 2)%nat /\ (inv_space (t_P t) (mass1 t) d \/
     exists S, inv_space (t_P t) (mm (t_P t) (mm (t_P t) (tr S) (lap1 t)) S) d /\ forall i, (i < t_P t)%nat -> mm (t_P t) (mm (t_P t) (tr S) (mass1 t)) S i i = 1)) \/
  call = Err ERR_MINOR \/
  (call = UB /\ exists e, (e < u_ne (D r))%nat /\ avg1 eps asm l0 l1 l2 t interp grad e = 0) \/
  ((forall e, (e < u_ne (D r))%nat -> avg1 eps asm l0 l1 l2 t interp grad e <> 0) /\ exists x, call = Ok x).
Proof.
  intros eps junk bjunk near k Jmin D fs asm l0 l1 l2 t r interp grad de H call. destruct (input_call _ _ _ _ _ _ _ _ _ _ _ _ _ H) as (Hs & Hc). destruct H as [He _ _ _ Hb HP Hf Hd _ Ha Hw].
  destruct (fdm_call eps junk bjunk near k Jmin D fs asm l0 l1 l2 t r interp grad de He Hd Hb Hs HP Hf Hc Ha Hw) as [(E & G)|[(E & _)|(X & lam & Y & _ & G1 & G2)]]; auto.
  destruct (zero_dec (u_ne (D r)) (avg1 eps asm l0 l1 l2 t interp grad)) as [Z|Z]; [right; right; left; split; auto|]. right. right. right. split; auto. destruct (G2 Z) as (x & E & _). exists x. exact E.
Qed.

(** The matrices that are inverted: mass and stiffness in one dimension up to the accuracy of the diagonalization, the stiffness with the perturbation of CeedBuildMassLaplace *)
Definition close (eps de : real) (t : tbasis Rrng) (M K : mtx) : Prop := forall u,
  (qf (t_P t) (mass1 t) u - qf (t_P t) M u) ^ 2 <= 4 * INR (t_P t - 1) * INR (t_P t) ^ 4 * eps ^ 2 / de ^ 2 * qf (t_P t) M u ^ 2 /\
  (qf (t_P t) (lap1 t) u - qf (t_P t) K u) ^ 2 <= 4 * INR (t_P t - 1) * INR (t_P t) ^ 4 * eps ^ 2 * qf (t_P t) M u ^ 2.
(** Applying the operator adds, for every element, the solution of a separable system: the average of the element times the sum of the Kronecker products of [M] and [K] *)
Theorem C54_inverse : forall eps junk bjunk near k Jmin D fs asm l0 l1 l2 t r interp grad de x mu be, fdm_input eps Jmin D fs asm l0 l1 l2 t r interp grad de ->
  fdm_create eps junk bjunk near k D fs asm l0 l1 l2 = Ok x ->
  (* the collocation test of the basis constructor does not take another matrix for the identity *)
  ((forall i j, (i < t_P t)%nat -> (j < t_P t)%nat -> near (at2 (t_interp (fd_basis x)) (t_P t) i j) (if (i =? j)%nat then 1 else 0) = true) ->
     forall i j, (i < t_P t)%nat -> (j < t_P t)%nat -> at2 (t_interp (fd_basis x)) (t_P t) i j = if (i =? j)%nat then 1 else 0) ->
  (* the diagonal is not clipped *)
  (forall q, (q < t_Q t)%nat -> 0 <= ent (t_w t) q) -> 0 < mu -> (forall u, qf (t_P t) (mass1 t) u <= mu * Sum (t_P t) (fun i => u i * u i)) ->
  0 <= be < 1 -> 4 * INR (t_P t - 1) * INR (t_P t) ^ 4 * eps ^ 2 / de ^ 2 <= be ^ 2 ->
  INR (t_P t ^ t_dim t) * eps <= (if interp then 1 else 0) + (if grad then INR (t_dim t) * (perturbation (t_dim t) * (1 - be) / mu) else 0) ->
  exists M K, close eps de t M K /\ (forall i j, M i j = M j i /\ K i j = K j i) /\
  forall jk chk bs qi qv im (vm : vmem Rrng) inv outv u y, let ne := u_ne (D r) in let nn := (t_P t ^ t_dim t)%nat in let o := fdm_oper x ne qi qv in
    kernel_ok Jmin k -> (0 < bsize bs)%nat -> (0 < ne)%nat -> u_nc (D r) = t_nc t -> u_es (D r) = nn -> D qi = fdm_rstr ne (t_nc t) nn ->
    lengths_ok (D r) -> in_range (D r) -> curl_ok Signed (D r) -> (exists c, rstr_create chk (D r) bs = Ok c) -> mem_ok vm -> im_ok chk D bs o im vm ->
    vv_data (vm inv) = Some u -> (u_lsize (D r) <= length u)%nat -> vv_data (vm outv) = Some y -> (u_lsize (D r) <= length y)%nat -> vv_data (vm qv) = Some (fd_data x) ->
    exists im' vm' y' z, single_apply_add k jk chk D bs o im vm (Some inv) (Some outv) = Ok (im', vm') /\ (forall v, v <> outv -> vm' v = vm v) /\ vv_data (vm' outv) = Some y' /\ length y' = length y /\
      (forall q, ent y' q = ent y q + @Lval Rrng Signed (D r) z q) /\
      forall e c n, (e < ne)%nat -> (c < t_nc t)%nat -> (n < nn)%nat ->
        Sum nn (fun p => avg1 eps asm l0 l1 l2 t interp grad e * sepm interp grad (t_dim t) (t_P t) M K n p * z e c p) = @Eval Rrng Signed (D r) u e c n.
Proof.
  intros eps junk bjunk near k Jmin D fs asm l0 l1 l2 t r interp grad de x mu be H Ex Hnear Hw0 Hmu HM Hbe Hb2 Hclip. destruct (input_call _ _ _ _ _ _ _ _ _ _ _ _ _ H) as (Hs & Hc). destruct H as [He _ _ _ Hb HP Hf Hd _ Ha Hw].
  destruct (fdm_call eps junk bjunk near k Jmin D fs asm l0 l1 l2 t r interp grad de He Hd Hb Hs HP Hf Hc Ha Hw) as [(E & _)|[(E & _)|(X & lam & Y & HD & G1 & G2)]]; try (rewrite Ex in E; discriminate).
  destruct (zero_dec (u_ne (D r)) (avg1 eps asm l0 l1 l2 t interp grad)) as [Z|Z]; [rewrite Ex in G1; specialize (G1 Z); discriminate|].
  destruct (G2 Z) as (x' & E & X1 & X2 & X3 & X4 & X5 & X6 & X7 & X8 & X9). rewrite Ex in E. injection E as <-. specialize (X9 Hnear).
  pose proof HD as (_ & HI & D1 & D2 & D3). pose proof Hb as ((Hdim & Hnc & HP0 & _) & _).
  exists (mass_of (t_P t) Y), (lap_of (t_P t) Y (ent lam)). split; [|split].
  - intros u. split.
    + replace (4 * INR (t_P t - 1) * INR (t_P t) ^ 4 * eps ^ 2 / de ^ 2) with (schur_bound eps (t_P t) / (de * de)) by (unfold schur_bound; field; lra).
      pose proof (near_form (t_P t) (at2 X (t_P t)) Y (mass1 t) (mass_of (t_P t) Y) (schur_bound eps (t_P t) / (de * de)) u HI) as N. cbn [pow]. rewrite !Rmult_1_r. apply N.
      eapply Rle_trans; [|exact D3]. right. apply F2_ext. intros i j Hi Hj. rewrite (cj_mass_of _ _ Y) by auto. reflexivity.
    + replace (4 * INR (t_P t - 1) * INR (t_P t) ^ 4 * eps ^ 2) with (schur_bound eps (t_P t)) by (unfold schur_bound; ring).
      pose proof (near_form (t_P t) (at2 X (t_P t)) Y (lap1 t) (lap_of (t_P t) Y (ent lam)) (schur_bound eps (t_P t)) u HI) as N. cbn [pow]. rewrite !Rmult_1_r. apply N.
      eapply Rle_trans; [|exact D2]. right. unfold F2, offd. apply Sum_ext. intros i Hi. apply Sum_ext. intros j Hj. rewrite (cj_lap_of _ _ Y) by auto. destruct (Nat.eqb_spec i j) as [->|]; [rewrite D1 by auto; ring|ring].
  - intros i j. split; [unfold mass_of|unfold lap_of]; apply Sum_ext; intros; ring.
  - intros jk chk bs qi qv im vm inv outv u y ne nn o Hk Hbs Hne Hrc Hre Hqi R1 R2 R3 R4 Hm Him Hu Lu Hy Ly Hq.
    destruct (fdm_apply k Jmin x (at2 X (t_P t)) jk chk D bs qi qv im vm inv outv u y) as (im' & vm' & y' & E & I1 & I2 & I3 & I4 & I5 & I6); rewrite ?X1, ?X2, ?X3, ?X4, ?X5; auto.
    { repeat (split; auto). } { fold ne nn. rewrite X7. lia. }
    rewrite X1, X2, X3, X4 in I6. fold ne nn in I6. rewrite X1 in E. eexists im', vm', y', _. split; [exact E|]. split; [exact I3|]. split; [exact I4|]. split; [exact I5|]. split; [exact I6|].
    intros e c n He' Hc' Hn. apply sep_solve; auto. intros q Hqq. rewrite X8 by auto.
    assert (Hv : INR nn * eps <= fdv interp grad (t_dim t) (t_P t) (ent lam) q).
    { eapply Rle_trans; [exact Hclip|]. apply (fdv_low eps de mu be t X lam Y); auto. eapply Rle_trans; [|eapply Rle_trans; [exact Hb2|right; ring]]. right. unfold schur_bound. field. lra. }
    assert (Hpos : 0 < INR nn * eps) by (apply Rmult_lt_0_compat; auto; apply lt_0_INR; apply pow_pos; auto).
    unfold clip. rewrite Rabs_pos_eq by (eapply Rle_trans; [left; exact Hpos|exact Hv]). destruct (Rlt_dec _ _) as [L|_]; [exfalso; apply (Rlt_irrefl (INR nn * eps)); eapply Rle_lt_trans; [exact Hv|exact L]|].
    field. split; [|apply Z; auto]. apply Rgt_not_eq. eapply Rlt_le_trans; [exact Hpos|exact Hv].
Qed.

(** The matrix of an element whose assembled QFunction is [a] times the quadrature weight, at every point and for every active mode, is [a] times the same sum of Kronecker products with the exact mass and the
    stiffness without perturbation *)
Theorem C54_element : forall Jmin (t : tbasis Rrng) (interp grad : bool) a n p, @b_wf Rrng Jmin (BT t) ->
  Sum (t_Q t ^ t_dim t) (fun q => a * @qweight Rrng (BT t) q * ((if interp then @FI Rrng t q n * @FI Rrng t q p else 0) + (if grad then Sum (t_dim t) (fun d => @FG Rrng t d q n * @FG Rrng t d q p) else 0))) =
  a * sepm interp grad (t_dim t) (t_P t) (mass1 t) (fun i j => lap1 t i j - if (i =? j)%nat then perturbation (t_dim t) else 0) n p.
Proof.
  intros Jmin t interp grad a n p _.
  assert (W : forall (B : nat -> list Rrng), Sum (t_Q t ^ t_dim t) (fun q => @qweight Rrng (BT t) q * (@prodn Rrng (t_dim t) (fun i => @vf Rrng (B i) (dig (t_Q t) i q * t_P t + dig (t_P t) i n)%nat) * @prodn Rrng (t_dim t) (fun i => @vf Rrng (B i) (dig (t_Q t) i q * t_P t + dig (t_P t) i p)%nat))) =
    kron (t_dim t) (t_P t) (fun i => gramm (B i) (t_w t) (t_P t) (t_Q t)) n p).
  { intros B. rewrite <- Sum_sumn. unfold kron.
    etransitivity; [|etransitivity; [exact (@kron_sum Rrng (t_dim t) (t_Q t) (fun i l => @vf Rrng (t_w t) l * (@vf Rrng (B i) (l * t_P t + dig (t_P t) i n)%nat * @vf Rrng (B i) (l * t_P t + dig (t_P t) i p)%nat)))|]].
    - apply (@sumn_ext Rrng). intros q _. etransitivity; [|exact (@prodn_mul Rrng (t_dim t) (fun i => @vf Rrng (t_w t) (dig (t_Q t) i q)) _)]. apply (f_equal2 Rmult); [reflexivity|]. exact (@prodn_mul Rrng (t_dim t) _ _).
    - apply (@prodn_ext Rrng). intros i _. rewrite Sum_sumn. unfold gramm. apply Sum_ext. intros l _. unfold at2, ent, vf. cbn. ring. }
  rewrite (Sum_ext _ _ (fun q => a * (@qweight Rrng (BT t) q * ((if interp then @FI Rrng t q n * @FI Rrng t q p else 0) + (if grad then Sum (t_dim t) (fun d => @FG Rrng t d q n * @FG Rrng t d q p) else 0))))) by (intros; ring).
  rewrite Sum_mul. f_equal. unfold sepm. rewrite (Sum_ext _ _ (fun q => @qweight Rrng (BT t) q * (if interp then @FI Rrng t q n * @FI Rrng t q p else 0) + @qweight Rrng (BT t) q * (if grad then Sum (t_dim t) (fun d => @FG Rrng t d q n * @FG Rrng t d q p) else 0))) by (intros; ring).
  rewrite Sum_add. f_equal.
  - destruct interp; [|apply Sum_zero; intros; ring]. exact (W (fun _ => t_interp t)).
  - destruct grad; [|apply Sum_zero; intros; ring].
    rewrite (Sum_ext _ _ (fun q => Sum (t_dim t) (fun d => @qweight Rrng (BT t) q * (@FG Rrng t d q n * @FG Rrng t d q p)))) by (intros; symmetry; apply Sum_mul).
    rewrite Sum_swap. apply Sum_ext. intros d _. etransitivity; [exact (W (fun i => if (i =? d)%nat then t_grad t else t_interp t))|]. unfold kron. apply (@prodn_ext Rrng). intros i _. destruct (i =? d)%nat; [|reflexivity].
    unfold lap1, pert_lap. match goal with |- ?l = ?r => change (@eq real l r) end. destruct (dig (t_P t) i n =? dig (t_P t) i p)%nat; ring.
Qed.
(** If the assembled values of an element that are not negligible are [a] times the quadrature weight, the average is [a] *)
Theorem C54_average : forall eps asm l0 l1 l2 t interp grad e a, (forall q, (q < t_Q t ^ t_dim t)%nat -> @qweight Rrng (BT t) q <> 0) ->
  let v := fun q i => ent asm (q * l0 + i * l1 + e * l2) in let bound := max_norm asm * 100 * eps in let ni := (t_nc t * t_nc t * modes t interp grad * modes t interp grad)%nat in
  (forall q i, (q < t_Q t ^ t_dim t)%nat -> (i < ni)%nat -> bound < Rabs (v q i) -> v q i = a * @qweight Rrng (BT t) q) ->
  (exists q i, (q < t_Q t ^ t_dim t)%nat /\ (i < ni)%nat /\ bound < Rabs (v q i)) ->
  avg1 eps asm l0 l1 l2 t interp grad e = a.
Proof.
  intros eps asm l0 l1 l2 t interp grad e a Hw v bound ni Hv (q0 & i0 & H1 & H2 & H3). unfold avg1, favg. fold bound ni. change (fun q i => ent asm (q * l0 + i * l1 + e * l2)) with v.
  set (w := @qweight Rrng (BT t)) in *. set (nq := (t_Q t ^ t_dim t)%nat) in *.
  assert (B : bigsum bound v w nq ni = a * bigcnt bound v nq ni).
  { unfold bigsum, bigcnt. rewrite <- Sum_mul. apply Sum_ext. intros q Hq. rewrite <- Sum_mul. apply Sum_ext. intros i Hi. unfold big. destruct (Rlt_dec bound (Rabs (v q i))) as [L|_]; [|ring]. rewrite (Hv q i) by auto. field. auto. }
  assert (C : 1 <= bigcnt bound v nq ni).
  { assert (G : forall n f k, (k < n)%nat -> (forall l, 0 <= f l) -> f k <= Sum n f).
    { clear. induction n as [|n IH]; intros f k Hk H; [lia|]. cbn [Sum]. destruct (Nat.eq_dec k n) as [->|]; [pose proof (Sum_pos n f ltac:(auto)); lra|]. pose proof (IH f k ltac:(lia) H). pose proof (H n). lra. }
    assert (Bp : forall q i, 0 <= big bound v q i) by (intros; unfold big; destruct (Rlt_dec _ _); lra).
    replace 1 with (big bound v q0 i0) by (unfold big; destruct (Rlt_dec _ _); [auto|contradiction]).
    eapply Rle_trans; [apply (G ni (fun i => big bound v q0 i) i0); auto|]. unfold bigcnt. apply (G nq (fun q => Sum ni (fun i => big bound v q i)) q0); auto. intros. apply Sum_pos. auto. }
  destruct (Req_EM_T (bigcnt bound v nq ni) 0) as [E|_]; [lra|]. rewrite B. field. lra.
Qed.
(** no active input; a basis that is not a tensor basis; one node *)
Theorem C54_errors : forall eps junk bjunk near k D fs asm l0 l1 l2, let call := fdm_create eps junk bjunk near k D fs asm l0 l1 l2 in
  (first_active fs = None -> call = Err ERR_BACKEND) /\
  (forall f, first_active fs = Some f -> (forall t, f_basis f <> Some (BT t)) -> call = Err ERR_MINOR) /\
  (forall f t r Jmin, first_active fs = Some f -> f_basis f = Some (BT t) -> f_rstr f = Some r -> @b_wf Rrng Jmin (BT t) -> t_P t = 1%nat -> call = Err ERR_UNSUPPORTED).
Proof.
  intros eps junk bjunk near k D fs asm l0 l1 l2 call. unfold call, fdm_create. rewrite scan_spec. split; [|split].
  - intros ->. reflexivity.
  - intros f -> H. cbn [option_map]. destruct (f_basis f) as [[t|n]|]; [exfalso; apply (H t); reflexivity|reflexivity|reflexivity].
  - intros f t r Jmin -> Eb Er Hb HP. cbn [option_map]. rewrite Eb, Er. destruct Hb as ((Hdim & Hnc & HP0 & HQ & Hi & Hg & Hwl) & _). change (car Rrng) with real in Hi, Hg, Hwl.
    destruct (mass_laplace_ok (t_interp t) (t_grad t) (t_w t) (t_P t) (t_Q t) (t_dim t)) as (M & K & E1 & LM & LK & _); try (change (car Rrng) with real; lia).
    rewrite E1. cbn [rbind fst snd]. rewrite C53_errors; [reflexivity|lia|lia].
Qed.

(** ** Two nodes, two points, one dimension *)
Definition ex_t54 : tbasis Rrng := @mkT Rrng 1 1 2 2 [1; 0; 0; 1] [- / 2; / 2; - / 2; / 2] [1; 1] true None.
Definition ex_r54 : udesc := mkU 1 2 1 1%Z 2 (UStandard [0; 1]%Z).
Definition ex_d54 (i : nat) : udesc := match i with O => ex_r54 | _ => fdm_rstr 1 1 2 end.
Definition ex_act (m : emode) : ofield Rrng := mkOF 1 m (Some 0%nat) (Some (BT ex_t54)) VAct.
Lemma ex_wf54 : @b_wf Rrng 2 (BT ex_t54).
Proof.
  cbn. unfold BasisApply.t_wf, sizes_ok. cbn. split; [repeat split; lia|]. split; [lia|]. split; [lia|]. split.
  - intros _. split; [reflexivity|]. split; [reflexivity|]. intros q p Hq Hp. destruct q as [|[|]], p as [|[|]]; try lia; reflexivity.
  - discriminate.
Qed.
Lemma list4 : forall l : list real, length l = 4%nat -> l = [ent l 0; ent l 1; ent l 2; ent l 3].
Proof. intros l H. do 4 (destruct l as [|? l]; [discriminate|]). destruct l; [reflexivity|discriminate]. Qed.
Lemma ex_mass54 : eqm 2 2 (mass1 ex_t54) idm.
Proof. intros i j Hi Hj. unfold mass1, gramm, at2, ent, idm. destruct i as [|[|]], j as [|[|]]; try lia; cbn; ring. Qed.
Lemma ex_sim54 : forall eps junk M K, 0 < eps -> eps < / 2 -> mass_laplace (t_interp ex_t54) (t_grad ex_t54) (t_w ex_t54) 2 2 1 = Ok (M, K) -> exists X lam, simdiag eps junk K M 2 = Ok (X, lam).
Proof.
  intros eps junk M K H0 H1 E. destruct (mass_laplace_ok (t_interp ex_t54) (t_grad ex_t54) (t_w ex_t54) 2 2 1) as (M' & K' & E1 & LM & LK & HM & HK); try (cbn; lia).
  rewrite E in E1. injection E1 as <- <-.
  assert (EM : M = [1; 0; 0; 1]). { rewrite (list4 M LM). pose proof (HM 0 0)%nat. pose proof (HM 0 1)%nat. pose proof (HM 1 0)%nat. pose proof (HM 1 1)%nat. pose proof (ex_mass54 0 0)%nat as A1. pose proof (ex_mass54 0 1)%nat as A2. pose proof (ex_mass54 1 0)%nat as A3. pose proof (ex_mass54 1 1)%nat as A4.
    unfold at2 in *. cbn [Nat.mul Nat.add] in *. unfold mass1 in A1, A2, A3, A4. cbn [t_P t_Q t_dim ex_t54] in *.
    rewrite H, H2, H3, H4 by lia. rewrite A1, A2, A3, A4 by lia. reflexivity. }
  assert (EK : K = [/ 2 + / 10000; - / 2; - / 2; / 2 + / 10000]).
  { rewrite (list4 K LK). pose proof (HK 0 0)%nat. pose proof (HK 0 1)%nat. pose proof (HK 1 0)%nat. pose proof (HK 1 1)%nat. unfold at2 in *. cbn [Nat.mul Nat.add] in *. rewrite H, H2, H3, H4 by lia.
    unfold pert_lap, gramm, at2, ent, perturbation. cbn. repeat (apply f_equal2; [field|]). reflexivity. }
  rewrite EM, EK, sim_id2 by auto. destruct (C52_two eps junk (/ 2 + / 10000) (- - / 2) (/ 2 + / 10000) H0) as (_ & H). destruct H as (Q & m1 & m2 & E' & _). { rewrite Ropp_involutive, Rabs_pos_eq by lra. lra. }
  assert (LQ : length Q = 4%nat). { destruct (C52_schur eps junk [/ 2 + / 10000; - - / 2; - - / 2; / 2 + / 10000] 2) as [(E2 & _)|[E2|(Q' & lam & E2 & L & _)]]; try rewrite E' in E2; try discriminate; try lra; try lia; [cbn; lia| |inversion E2; subst; auto].
    intros i j Hi Hj. destruct i as [|[|]], j as [|[|]]; try lia; reflexivity. }
  rewrite E'. cbn [rbind fst snd]. destruct (sort2_any Q m1 m2 LQ) as (Q' & d & E2 & L'). rewrite E2. cbn [rbind fst snd]. do 4 (destruct Q' as [|? Q']; [discriminate|]). destruct Q'; [|discriminate]. eexists _, _. reflexivity.
Qed.
Lemma ex_input54 : forall eps m asm (i g : bool), 0 < eps -> (m = EvInterp \/ m = EvGrad) -> i = is_interp m -> g = is_grad m -> (2 <= length asm)%nat -> fdm_input eps 2 ex_d54 [ex_act m] asm 1 2 2 ex_t54 0 i g 1.
Proof.
  intros eps m asm i g He Hm -> -> La.
  constructor; auto; try (cbn; lia); try lra.
  - exists (ex_act m). split; [reflexivity|]. split; reflexivity.
  - cbn. rewrite Bool.orb_false_r. reflexivity.
  - cbn. rewrite Bool.orb_false_r. reflexivity.
  - apply ex_wf54.
  - intros u. change (t_P ex_t54) with 2%nat. rewrite (qf_ext 2 (mass1 ex_t54) idm u u ex_mass54) by auto. unfold idm. rewrite qf_scal. lra.
  - intros q j e Hq Hj He'. assert (Hj' : (j < 1)%nat) by (destruct Hm as [-> | ->]; exact Hj). cbn in Hq, He'. lia.
  - intros q Hq. cbn in Hq. destruct q as [|[|]]; try lia; cbn; lra.
Qed.
Lemma ex_call54 : forall eps junk bjunk near k m asm, 0 < eps -> eps < / 2 -> (m = EvInterp \/ m = EvGrad) -> (2 <= length asm)%nat ->
  (fdm_create eps junk bjunk near k ex_d54 [ex_act m] asm 1 2 2 = UB /\ avg1 eps asm 1 2 2 ex_t54 (is_interp m) (is_grad m) 0 = 0) \/
  (avg1 eps asm 1 2 2 ex_t54 (is_interp m) (is_grad m) 0 <> 0 /\ exists x, fdm_create eps junk bjunk near k ex_d54 [ex_act m] asm 1 2 2 = Ok x).
Proof.
  intros eps junk bjunk near k m asm He He2 Hm La. pose proof (ex_input54 eps m asm _ _ He Hm eq_refl eq_refl La) as H.
  destruct (input_call _ _ _ _ _ _ _ _ _ _ _ _ _ H) as (Hs & Hc). destruct H as [_ _ _ _ Hb HP Hf Hd _ Ha Hw].
  destruct (fdm_call eps junk bjunk near k 2 ex_d54 [ex_act m] asm 1 2 2 ex_t54 0 _ _ 1 He Hd Hb Hs HP Hf Hc Ha Hw) as [(_ & d & D1 & D2 & _)|[(_ & M & K & E & E')|(X & lam & Y & _ & G1 & G2)]].
  - cbn in D2. lia.
  - destruct (ex_sim54 eps junk M K He He2 E) as (X & lam & E2). cbn [t_P ex_t54] in E'. rewrite E2 in E'. discriminate.
  - destruct (Req_EM_T (avg1 eps asm 1 2 2 ex_t54 (is_interp m) (is_grad m) 0) 0) as [Z|Z].
    + left. split; auto. apply G1. exists 0%nat. split; [cbn; lia|auto].
    + right. split; auto. destruct G2 as (x & E & _); [|exists x; exact E]. intros e He'. cbn in He'. assert (e = 0)%nat as -> by lia. auto.
Qed.
(** the hypotheses of C54_inverse are met by the mass operator and by the stiffness operator *)
Example C54_ex : forall junk bjunk k m, (m = EvInterp \/ m = EvGrad) -> let eps := / 1000000 in
  fdm_input eps 2 ex_d54 [ex_act m] [1; 1] 1 2 2 ex_t54 0 (is_interp m) (is_grad m) 1 /\
  (exists x, fdm_create eps junk bjunk exactly k ex_d54 [ex_act m] [1; 1] 1 2 2 = Ok x) /\
  (forall q, (q < 2)%nat -> 0 <= ent (t_w ex_t54) q) /\ (forall u, qf 2 (mass1 ex_t54) u <= 1 * Sum 2 (fun i => u i * u i)) /\
  4 * INR (2 - 1) * INR 2 ^ 4 * eps ^ 2 / 1 ^ 2 <= (/ 100) ^ 2 /\
  INR (2 ^ 1) * eps <= (if is_interp m then 1 else 0) + (if is_grad m then INR 1 * (perturbation 1 * (1 - / 100) / 1) else 0) /\
  avg1 eps [1; 1] 1 2 2 ex_t54 (is_interp m) (is_grad m) 0 = 1.
Proof.
  intros junk bjunk k m Hm eps. assert (He : 0 < eps) by (unfold eps; lra).
  assert (Av : avg1 eps [1; 1] 1 2 2 ex_t54 (is_interp m) (is_grad m) 0 = 1).
  { assert (Hn : max_norm [1; 1] = 1). { unfold max_norm. cbn [fold_left]. rewrite Rabs_R1. destruct (Rlt_dec 1 0); [lra|]. destruct (Rlt_dec 1 1); auto. }
    assert (Hni : (t_nc ex_t54 * t_nc ex_t54 * modes ex_t54 (is_interp m) (is_grad m) * modes ex_t54 (is_interp m) (is_grad m) = 1)%nat) by (destruct Hm as [-> | ->]; reflexivity).
    apply C54_average.
    - intros q Hq. cbn in Hq. destruct q as [|[|]]; try lia; cbn; lra.
    - rewrite Hni. intros q i Hq Hi _. assert (i = 0)%nat as -> by lia. cbn in Hq. destruct q as [|[|]]; try lia; cbn; ring.
    - rewrite Hni. exists 0%nat, 0%nat. split; [cbn; lia|]. split; [lia|]. rewrite Hn. change (ent [1; 1] (0 * 1 + 0 * 2 + 0 * 2)) with 1. rewrite Rabs_R1. unfold eps. lra. }
  split; [apply ex_input54; auto|]. split; [|split; [|split; [|split; [|split]]]]; auto.
  - destruct (ex_call54 eps junk bjunk exactly k m [1; 1] He ltac:(unfold eps; lra) Hm ltac:(cbn; lia)) as [(_ & Z)|(_ & x & E)]; [rewrite Av in Z; lra|]. exists x. exact E.
  - intros q Hq. destruct q as [|[|]]; try lia; cbn; lra.
  - intros u. rewrite (qf_ext 2 (mass1 ex_t54) idm u u ex_mass54) by auto. unfold idm. rewrite qf_scal. lra.
  - unfold eps. cbn [INR Nat.sub]. lra.
  - unfold eps, perturbation. destruct Hm as [-> | ->]; cbn; lra.
Qed.
Definition ex_vm54 (u0 u1 : real) (d : list real) : vmem Rrng := fun v => match v with O => @mkVV Rrng 2 (Some [u0; u1]) 2%Z | S O => @mkVV Rrng 2 (Some [0; 0]) 2%Z | S (S O) => @mkVV Rrng 2 (Some d) 2%Z | _ => @mkVV Rrng 0 None 0%Z end.
(** the same operators applied: the memory, the restriction and the data meet the hypotheses of C54_inverse *)
Example C54_ex_apply : forall junk bjunk jk m u0 u1, (m = EvInterp \/ m = EvGrad) -> exists x M K im' vm' y' z, let eps := / 1000000 in
  fdm_create eps junk bjunk exactly (@contract_avx Rrng) ex_d54 [ex_act m] [1; 1] 1 2 2 = Ok x /\ close eps 1 ex_t54 M K /\
  single_apply_add (@contract_avx Rrng) jk true ex_d54 None (fdm_oper x 1 1 2) None
    (ex_vm54 u0 u1 (fd_data x)) (Some 0%nat) (Some 1%nat) = Ok (im', vm') /\
  vv_data (vm' 1%nat) = Some y' /\ (forall q, ent y' q = ent [0; 0] q + @Lval Rrng Signed ex_r54 z q) /\
  forall n, (n < 2)%nat -> Sum 2 (fun p => 1 * sepm (is_interp m) (is_grad m) 1 2 M K n p * z 0%nat 0%nat p) = @Eval Rrng Signed ex_r54 [u0; u1] 0 0 n.
Proof.
  intros junk bjunk jk m u0 u1 Hm. destruct (C54_ex junk bjunk (@contract_avx Rrng) m Hm) as (H1 & (x & Ex) & H2 & H3 & H4 & H5 & H6).
  destruct (C54_inverse _ _ _ _ _ _ _ _ _ _ _ _ _ _ _ _ _ x 1 (/ 100) H1 Ex) as (M & K & H7 & _ & H8); auto; try lra.
  { intros H i j Hi Hj. specialize (H i j Hi Hj). unfold exactly in H. destruct (Req_EM_T _ _); auto. discriminate. }
  assert (Lx : length (fd_data x) = 2%nat).
  { destruct (input_call _ _ _ _ _ _ _ _ _ _ _ _ _ H1) as (Hs & Hc). destruct H1 as [He _ _ _ Hb HP Hf Hd _ Ha Hw].
    destruct (fdm_call _ junk bjunk exactly (@contract_avx Rrng) 2 ex_d54 [ex_act m] [1; 1] 1 2 2 ex_t54 0 _ _ 1 He Hd Hb Hs HP Hf Hc Ha Hw) as [(E & _)|[(E & _)|(X & lam & Y & _ & _ & G2)]]; try (rewrite Ex in E; discriminate).
    destruct G2 as (x' & E & _ & _ & _ & _ & _ & _ & L & _). { intros e He'. cbn in He'. assert (e = 0)%nat as -> by lia. rewrite H6. lra. } rewrite Ex in E. injection E as <-. rewrite L. reflexivity. }
  specialize (H8 jk true None 1%nat 2%nat None (ex_vm54 u0 u1 (fd_data x)) 0%nat 1%nat [u0; u1] [0; 0]).
  cbv zeta in H8. destruct H8 as (im' & vm' & y' & z & E & _ & Y1 & _ & Y3 & Y4); auto; try (cbn; lia); try exact I; try reflexivity.
  - apply avx_ok.
  - intros e c j Hel Hc Hj. cbn in Hel, Hc, Hj. unfold col. cbn. assert (e = 0 /\ c = 0)%nat as (-> & ->) by lia. destruct j as [|[|]]; try lia; cbn; lia.
  - eexists. reflexivity.
  - intros v. destruct v as [|[|[|]]]; cbn; (split; [lia|split; [try discriminate; auto|]]); intros l E; inversion E; subst; auto.
  - exists x, M, K, im', vm', y', z. split; [exact Ex|]. split; [exact H7|]. split; [exact E|]. split; [exact Y1|]. split; [exact Y3|].
    intros n Hn. etransitivity; [|exact (Y4 0%nat 0%nat n ltac:(cbn; lia) ltac:(cbn; lia) ltac:(cbn; lia))]. rewrite H6. reflexivity.
Qed.

(** ** Findings *)
(** Finding: the average of an element whose assembled values have both signs can be zero, and all its data become infinite (2891).  Here the mass operator with a coefficient that changes sign between the two
    quadrature points; the entries off the diagonal of a skew-symmetric (convection) coefficient also cancel. *)
Theorem C54_average_refuted : forall eps junk bjunk near k, 0 < eps -> eps < / 100 -> fdm_create eps junk bjunk near k ex_d54 [ex_act EvInterp] [1; -1] 1 2 2 = UB.
Proof.
  intros eps junk bjunk near k H0 H1. destruct (ex_call54 eps junk bjunk near k EvInterp [1; -1] H0 ltac:(lra) ltac:(auto) ltac:(cbn; lia)) as [(E & _)|(Z & _)]; auto. exfalso. apply Z.
  assert (Hn : max_norm [1; -1] = 1). { unfold max_norm. cbn [fold_left]. rewrite Rabs_R1, (Rabs_left (-1)) by lra. destruct (Rlt_dec 1 0); [lra|]. destruct (Rlt_dec _ _); lra. }
  unfold avg1, favg. rewrite Hn. unfold bigcnt, bigsum, big. change (t_Q ex_t54 ^ t_dim ex_t54)%nat with 2%nat. change (t_nc ex_t54 * t_nc ex_t54 * modes ex_t54 (is_interp EvInterp) (is_grad EvInterp) * modes ex_t54 (is_interp EvInterp) (is_grad EvInterp))%nat with 1%nat.
  cbn [Sum]. change (ent [1; -1] (0 * 1 + 0 * 2 + 0 * 2)) with 1. change (ent [1; -1] (1 * 1 + 0 * 2 + 0 * 2)) with (-1). rewrite Rabs_R1, (Rabs_left (-1)) by lra.
  destruct (Rlt_dec (1 * 100 * eps) 1) as [_|N]; [|lra]. destruct (Rlt_dec (1 * 100 * eps) (- -1)) as [_|N]; [|lra]. destruct (Req_EM_T _ 0); [lra|]. cbn. field.
Qed.
(** Finding: the loop over the assembled components (2848) takes the active outputs to have the modes of the active inputs.  An operator with the value and the gradient as inputs and the value as output (convection)
    has two components per point, and the call reads four: past the end of the array. *)
Theorem C54_modes_refuted : forall eps junk bjunk near a b c d, 0 < eps -> eps < / 2 -> fdm_create eps junk bjunk near (@contract_ref Rrng) ex_d54 [ex_act EvInterp; ex_act EvGrad] [a; b; c; d] 1 2 4 = UB.
Proof.
  intros eps junk bjunk near a b c d H0 H1. unfold fdm_create. change (fdm_scan [ex_act EvInterp; ex_act EvGrad]) with (true, true, Some (Some (BT ex_t54)), Some (Some 0%nat)). cbv iota zeta.
  destruct (mass_laplace_ok (t_interp ex_t54) (t_grad ex_t54) (t_w ex_t54) 2 2 1) as (M & K & E1 & _); try (cbn; lia).
  change (t_P ex_t54) with 2%nat. change (t_Q ex_t54) with 2%nat. change (t_dim ex_t54) with 1%nat. rewrite E1. cbn [rbind fst snd]. destruct (ex_sim54 eps junk M K H0 H1 E1) as (X & lam & E2). rewrite E2. cbn [rbind fst snd].
  destruct (fdm_interp X 2) as [F| |] eqn:E3; cbn [rbind]; auto.
  2: { exfalso. revert E3. unfold fdm_interp. do 4 (destruct X as [|? X]; [cbn; discriminate|]). cbn. discriminate. }
  destruct (@C14_weights Rrng (@contract_ref Rrng) 2 bjunk (BT ex_t54) 1 None (@alloc Rrng (2 ^ 1) junk) ex_wf54 ltac:(lia)) as (qw & E4 & Lq & Hq & _). { reflexivity. }
  rewrite E4. cbn [rbind]. unfold elem_avgs. change (u_ne (ex_d54 0)) with 1%nat. cbn [seq rfold].
  assert (EA : forall bound, elem_avg bound [a; b; c; d] qw 1 2 4 (2 ^ 1) (t_nc ex_t54 * t_nc ex_t54 * (1 + 1) * (1 + 1)) 0 = UB); [|rewrite EA; reflexivity].
  change (length qw = 2%nat) in Lq. destruct qw as [|w [|w1 [|]]]; try discriminate Lq.
  assert (Hw : w <> 0). { assert (E : w = 1) by (transitivity (@qweight Rrng (BT ex_t54) 0); [exact (Hq 0%nat 0%nat ltac:(cbn; lia) ltac:(lia))|cbn; ring]). rewrite E. lra. }
  intros bound. unfold elem_avg. cbn -[Rlt_dec rdiv INR Rabs].
  assert (Ed : forall y, rdiv y w = Ok (y / w)) by (intros y; unfold rdiv; destruct (Req_EM_T w 0); [contradiction|auto]).
  destruct (Rlt_dec bound (Rabs a)); [rewrite Ed|]; cbn -[Rlt_dec rdiv INR Rabs]; (destruct (Rlt_dec bound (Rabs c)); [rewrite Ed|]; reflexivity).
Qed.
(** Finding: with a collocated basis of at least three nodes the mass matrix in one dimension is diagonal, and its tridiagonalization computes 0 / 0 (C52): the call never succeeds. *)
Theorem C54_collocated_refuted : forall eps junk bjunk near k Jmin D fs asm l0 l1 l2 f t r, first_active fs = Some f -> f_basis f = Some (BT t) -> f_rstr f = Some r -> @b_wf Rrng Jmin (BT t) ->
  (3 <= t_P t)%nat -> t_collo t = true -> fdm_create eps junk bjunk near k D fs asm l0 l1 l2 = UB.
Proof.
  intros eps junk bjunk near k Jmin D fs asm l0 l1 l2 f t r Hf Eb Er Hb HP Hc. unfold fdm_create. rewrite scan_spec, Hf. cbn [option_map]. rewrite Eb, Er. destruct Hb as ((Hdim & Hnc & HP0 & HQ & Hi & Hg & Hwl) & _ & _ & HC & _). change (car Rrng) with real in Hi, Hg, Hwl.
  destruct (HC Hc) as (EQ & _ & HI). clear HC. destruct (mass_laplace_ok (t_interp t) (t_grad t) (t_w t) (t_P t) (t_Q t) (t_dim t)) as (M & K & E1 & LM & LK & HM & _); try (change (car Rrng) with real; lia).
  rewrite E1. cbn [rbind fst snd]. set (n := t_P t) in *.
  assert (Hd : forall i j, (i < n)%nat -> (j < n)%nat -> i <> j -> at2 M n i j = 0).
  { intros i j H1 H2 H3. rewrite HM by auto. unfold gramm. apply Sum_zero. intros q Hq. assert (G : forall p, (p < n)%nat -> at2 (t_interp t) n q p = if (q =? p)%nat then 1 else 0). { intros p Hp. etransitivity; [exact (HI q p Hq Hp)|]. unfold delta. destruct (q =? p)%nat; reflexivity. }
    rewrite !G by auto. destruct (Nat.eqb_spec q i), (Nat.eqb_spec q j); subst; try contradiction; ring. }
  assert (Eu : simdiag eps junk K M n = UB); [|rewrite Eu; reflexivity].
  unfold simdiag. destruct (Nat.leb_spec (n * n) (length M)); [|lia]. cbn [negb].
  assert (E : eqm n n (at2 (firstn (n * n) M) n) (at2 M n)) by (apply firstn_at2; auto). rewrite breakdown; auto.
  - rewrite firstn_length_le; auto.
  - intros i j H1 H2. rewrite !E by auto. destruct (Nat.eq_dec i j) as [->|]; auto. rewrite !Hd; auto.
  - intros i H1 H2. rewrite E by lia. apply Hd; lia.
Qed.
Print Assumptions C54_create. Print Assumptions C54_inverse. Print Assumptions C54_element. Print Assumptions C54_average. Print Assumptions C54_errors.
Print Assumptions C54_average_refuted. Print Assumptions C54_modes_refuted. Print Assumptions C54_collocated_refuted.
