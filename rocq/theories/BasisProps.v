(** * Properties C14-C17: basis application *)
From Coq Require Import List ZArith Lia Bool Arith Ring.
From Verif Require Import Prelude Adds RstrModel RstrProofs TensorModel TensorProofs TensorMain Digits BasisModel BasisProofs BasisMain BasisApply.
Import ListNotations.
Set Implicit Arguments.
Local Open Scope nat_scope.
Ltac conjs := repeat match goal with |- _ /\ _ => split end.

(** The matrix the library reports for a mode: CeedBasisGetInterp, GetGrad, GetDiv, GetCurl
    (ceed-basis.c:2217-2400). *)
Definition reported (R : Rng) (b : basis R) (em : emode) : option (list R) :=
  match b, em with
  | BT t, EvInterp => get_interp t
  | BT t, EvGrad => get_grad t
  | BN n, EvInterp => Some (n_interp n)
  | BN n, EvGrad => match n_fe n with H1 => Some (n_grad n) | _ => None end
  | BN n, EvDiv => match n_fe n with Hdiv => Some (n_div n) | _ => None end
  | BN n, EvCurl => match n_fe n with Hcurl => Some (n_curl n) | _ => None end
  | _, _ => None
  end.

(** A basis as its constructor leaves it (tensor: see C14_created); [Jmin] is the smallest number of 1D
    points or nodes the contraction kernel supports (0 for ref and opt, 2 for AVX). *)
Definition b_wf (R : Rng) (Jmin : nat) (b : basis R) : Prop :=
  match b with
  | BT t => t_wf Jmin t
  | BN n => 0 < n_nc n /\ 0 < n_P n /\ 0 < n_Q n /\ Jmin <= n_P n /\ Jmin <= n_Q n /\ n_Q n <= length (n_w n) /\
      forall em m, reported (BN n) em = Some m -> q_comp (BN n) em * n_P n * n_Q n <= length m
  end.

(** Components per quadrature point and field component: the value of an H1 field is a scalar, of an H(div) or
    H(curl) field a vector; a gradient has one entry per direction; the curl is a scalar in one and two
    dimensions (include/ceed/types.h: CeedEvalMode, documentation of the constructors). *)
Definition components (fe : fespace) (dim : nat) (em : emode) : nat :=
  match em, fe with
  | EvInterp, H1 => 1
  | EvInterp, _ | EvGrad, _ => dim
  | EvCurl, _ => match dim with 0 | 1 | 2 => 1 | _ => dim end
  | _, _ => 1
  end.
Lemma q_comp_spec : forall (R : Rng) (b : basis R) em, q_comp b em = components (b_fe b) (b_dim b) em.
Proof. intros R b em. unfold q_comp, components. destruct em; destruct (b_fe b); try reflexivity; destruct (b_dim b) as [|[|[|n]]]; reflexivity. Qed.

(** CeedBasisCreateH1, CreateHdiv and CreateHcurl, given arrays of the documented sizes, succeed and leave such a
    basis, which reports the arrays it was given. *)
Theorem C14_created_nontensor : forall (R : Rng) Jmin fe dim nc P Q (interp deriv w : list R),
  0 < nc -> 0 < P -> 0 < Q -> Jmin <= P -> Jmin <= Q ->
  let dm := match fe with H1 => EvGrad | Hdiv => EvDiv | Hcurl => EvCurl end in
  length interp = components fe dim EvInterp * Q * P -> length deriv = components fe dim dm * Q * P -> length w = Q ->
  exists n, nontensor_create fe dim nc P Q interp deriv w = Ok n /\ b_wf Jmin (BN n) /\
    n_dim n = dim /\ n_nc n = nc /\ n_P n = P /\ n_Q n = Q /\ n_fe n = fe /\ n_w n = w /\
    reported (BN n) EvInterp = Some interp /\ reported (BN n) dm = Some deriv.
Proof.
  intros R Jmin fe dim nc P Q interp deriv w Hnc HP HQ JP JQ dm Li Ld Lw. unfold nontensor_create.
  destruct (Nat.eqb_spec nc 0); [lia|]. destruct (Nat.eqb_spec P 0); [lia|]. destruct (Nat.eqb_spec Q 0); [lia|].
  assert (C : forall (l : list R) m, length l = m -> copyn m l = Some l).
  { intros l m E. unfold copyn. rewrite <- E, Nat.leb_refl, firstn_all. reflexivity. }
  rewrite (C w Q Lw). cbn [bind].
  assert (Hcc : (if dim <? 3 then 1 else dim) = components fe dim EvCurl). { destruct dim as [|[|[|d]]]; destruct fe; reflexivity. }
  rewrite Hcc. destruct fe; subst dm; (rewrite (C interp); [|rewrite Li; cbn [components]; lia]); cbn [bind];
    (rewrite (C deriv); [|rewrite Ld; cbn [components]; lia]); cbn [bind ofopt]; eexists; (split; [reflexivity|]); cbn;
    (split; [|conjs; reflexivity]); conjs; auto; try lia;
    intros em m Em; destruct em; try discriminate; injection Em as <-; rewrite q_comp_spec; cbn [b_fe b_dim n_fe n_dim n_P n_Q];
    first [rewrite Li|rewrite Ld]; cbn [components]; nia.
Qed.

(** CeedBasisCreateTensorH1 leaves such a basis, if the collocation test (a comparison within 1e-14 in C) is
    exact on the matrix at hand and the collocated gradient meets its defining equation (see C18). *)
Theorem C14_created : forall (R : Rng) near cgf Jmin dim nc P Q (interp grad w : list R) t,
  tensor_create near cgf dim nc P Q interp grad w = Ok t ->
  length interp = P * Q -> length grad = P * Q -> length w = Q -> Jmin <= P -> Jmin <= Q ->
  (forall x, In x interp -> (near x 0%R = true -> x = 0%R) /\ (near x 1%R = true -> x = 1%R)) ->
  (P <= Q -> Q * Q <= length (cgf P Q interp grad) /\ forall q p, q < Q -> p < P ->
     sumn Q (fun b => vf (cgf P Q interp grad) (q * Q + b)%nat * vf interp (b * P + p)%nat)%R = vf grad (q * P + p)) ->
  b_wf Jmin (BT t).
Proof.
  intros R near cgf Jmin dim nc P Q interp grad w t E Li Lg Lw HP HQ Hnear Hcg. unfold tensor_create in E.
  destruct (Nat.eqb_spec dim 0); [discriminate|]. destruct (Nat.eqb_spec nc 0); [discriminate|].
  destruct (Nat.eqb_spec P 0); [discriminate|]. destruct (Nat.eqb_spec Q 0); [discriminate|].
  destruct (collo_test near P Q interp) as [c|] eqn:Ec; [|discriminate]. inversion E; subst t; clear E.
  simpl. unfold t_wf, sizes_ok. simpl. conjs; try lia.
  - intros ->. unfold collo_test in Ec. destruct (Nat.eqb_spec Q P) as [->|]; [|discriminate].
    split; auto. split. { rewrite Bool.andb_false_r. reflexivity. }
    assert (Hx : forall i, i < P * P -> In (vf interp i) interp). { intros i Hi. apply nth_In. lia. }
    (* a conjunction over all entries *)
    match type of Ec with forN P ?F true = _ => destruct (@forN_inv bool (fun n h => h = true -> forall q p, q < n -> p < P ->
       vf interp (q * P + p) = delta (q =? p) 1%R) F P true) as (h & Eh & Hh) end.
    + intros; lia.
    + intros i h Hi IH. rewrite get_vf by nia. cbn [bind].
      match goal with |- context [forN P ?F ?s] => destruct (@forN_inv bool (fun n h' => h' = true -> h = true /\ vf interp (i + P * i) = 1%R /\
         forall j, j < n -> j <> i -> vf interp (j + P * i) = 0%R) F P s) as (h' & Eh & Hh) end.
      * intros Ht. apply andb_prop in Ht. destruct Ht as (Ht & Hn). split; auto. split; [|lia]. apply Hnear; auto. apply Hx. nia.
      * intros j h' Hj IH'. destruct (Nat.eqb_spec j i) as [->|Hne].
        -- eexists. split; [reflexivity|]. intros Ht. destruct (IH' Ht) as (A & B & C). split; auto. split; auto.
           intros j Hj' Hne. apply C; auto. lia.
        -- rewrite get_vf by nia. cbn [bind]. eexists. split; [reflexivity|]. intros Ht. apply andb_prop in Ht. destruct Ht as (Ht & Hn).
           destruct (IH' Ht) as (A & B & C). split; auto. split; auto. intros j' Hj' Hne'.
           destruct (Nat.eq_dec j' j) as [->|]; [|apply C; auto; lia]. apply Hnear; auto. apply Hx. nia.
      * exists h'. split; auto. intros Ht. destruct (Hh Ht) as (A & B & C). intros q p Hq Hp.
        destruct (Nat.eq_dec q i) as [->|]; [|apply IH; auto; lia].
        replace (i * P + p) with (p + P * i) by ring. destruct (Nat.eqb_spec i p) as [->|]; simpl; auto.
    + rewrite Ec in Eh. inversion Eh; subst h. auto.
  - intros cg Ecg. destruct (Nat.leb_spec P Q); [|discriminate]. destruct c; [discriminate|]. simpl in Ecg. inversion Ecg; subst cg.
    destruct (Hcg ltac:(auto)). auto.
Qed.
Print Assumptions C14_created.

Section Spec.
Variable R : Rng.
Add Ring Rr : (r_th R).

(** What an application must do, for a matrix [m] stored as [(slot * NQ + q) * NP + p]. *)
Definition forward (nc NP NQ D ne : nat) (m u v v' : list R) : Prop :=
  length v' = length v /\
  (forall d c q e, d < D -> c < nc -> q < NQ -> e < ne ->
     vf v' (((d * nc + c) * NQ + q) * ne + e) =
     sumn NP (fun p => vf m ((d * NQ + q) * NP + p)%nat * vf u ((c * NP + p) * ne + e)%nat)%R) /\
  (forall i, D * nc * NQ * ne <= i -> vf v' i = vf v i).
Definition backward (nc NP NQ D ne : nat) (m u v v' : list R) : Prop :=
  length v' = length v /\
  (forall c p e, c < nc -> p < NP -> e < ne ->
     vf v' ((c * NP + p) * ne + e) = (vf v ((c * NP + p) * ne + e)%nat +
     sumn D (fun d => sumn NQ (fun q => vf m ((d * NQ + q) * NP + p)%nat * vf u (((d * nc + c) * NQ + q) * ne + e)%nat)))%R) /\
  (forall i, nc * NP * ne <= i -> vf v' i = vf v i).
End Spec.
Arguments forward {R}. Arguments backward {R}.

Lemma reported_mode : forall (R : Rng) (b : basis R) em m, reported b em = Some m -> em = EvInterp \/ em = EvGrad \/ em = EvDiv \/ em = EvCurl.
Proof. intros R b em m. unfold reported. destruct b, em; try discriminate; auto. Qed.

Lemma vf_repeat0 : forall (R : Rng) n i, vf (repeat (0%R : R) n) i = 0%R.
Proof.
  intros R n i. unfold vf. destruct (Nat.lt_ge_cases i n).
  - apply nth_repeat.
  - apply nth_overflow. rewrite repeat_length. auto.
Qed.

Definition collocated (R : Rng) (b : basis R) : bool := match b with BT t => t_collo t | BN _ => false end.
Section Core.
Variable R : Rng.
Add Ring Rr2 : (r_th R).
Variables (k : kernel R) (Jmin : nat) (junk : nat -> nat -> R) (b : basis R) (ne : nat).
Hypothesis Hk : kernel_ok Jmin k.
Hypothesis Hb : b_wf Jmin b.

Lemma core_n : forall em m u v, reported b em = Some m ->
  b_nc b * b_nodes b * ne <= length u -> q_comp b em * b_nc b * b_qpts b * ne <= length v ->
  exists v', apply_core k junk b false ne NoTranspose em (Some u) v = Ok v' /\
    forward (b_nc b) (b_nodes b) (b_qpts b) (q_comp b em) ne m u v v'.
Proof.
  intros em m u v Hm Hu Hv. unfold apply_core.
  destruct b as [t|n].
  - simpl in *. destruct em; try discriminate.
    + change (q_comp (BT t) EvInterp) with 1 in *. destruct (@tensor_interp_n R k Jmin junk t ne Hk Hb u v) as (v' & E & L & G & N); auto; try lia.
      exists v'. split; auto. split; auto. split; auto. intros d c q e Hd Hc Hq He. rewrite G by auto. rewrite (Radd_0_l (r_th R)).
      destruct (@get_interp_ok R t) as (m' & Em & Lm & Gm). { apply Hb. }
      rewrite Hm in Em. inversion Em; subst m'. apply sumn_ext. intros p Hp. replace d with 0 by lia. cbn [Nat.mul Nat.add]. rewrite Gm by auto. reflexivity.
    + change (q_comp (BT t) EvGrad) with (t_dim t) in *. destruct (@tensor_grad_n R k Jmin junk t ne Hk Hb u v) as (v' & E & L & G & N); auto.
      exists v'. split; auto. split; auto. split; auto. intros d c q e Hd Hc Hq He. rewrite G by auto. rewrite (Radd_0_l (r_th R)).
      destruct (@get_grad_ok R t) as (m' & Em & Lm & Gm). { apply Hb. }
      rewrite Hm in Em. inversion Em; subst m'. apply sumn_ext. intros p Hp. rewrite Gm by auto. reflexivity.
  - destruct Hb as (Hnc & HP & HQ & HJP & HJQ & Hw & Hml). pose proof (Hml em m Hm) as Lm.
    assert (Happ : apply_nontensor k n false ne NoTranspose em u v =
       ofopt (contract_strided k (n_nc n) (n_P n) ne (q_comp (BN n) em) (n_Q n) m NoTranspose false u v)).
    { unfold apply_nontensor. destruct em; simpl in Hm; try discriminate; try (destruct (n_fe n); try discriminate); inversion Hm; reflexivity. }
    destruct (@strided_n_ok R k Jmin (n_nc n) (n_P n) ne (q_comp (BN n) em) (n_Q n) m false u v) as (v' & E & L & G & N); auto.
    exists v'. split. { simpl in *. destruct em; try discriminate; rewrite Happ, E; reflexivity. }
    split; auto. split; auto. intros d c q e Hd Hc Hq He. cbn [b_nc b_qpts b_nodes] in *. rewrite G by auto. apply (Radd_0_l (r_th R)).
Qed.

(** In transpose mode [v0] is what is added to: zeros for Apply, the old contents for ApplyAdd. *)
Lemma core_t : forall aa em m u v, reported b em = Some m -> (aa = true -> collocated b = false) ->
  q_comp b em * b_nc b * b_qpts b * ne <= length u -> b_nc b * b_nodes b * ne <= length v ->
  exists v', apply_core k junk b aa ne Transpose em (Some u) v = Ok v' /\
    backward (b_nc b) (b_nodes b) (b_qpts b) (q_comp b em) ne m u (if aa then v else repeat 0%R (length v)) v'.
Proof.
  intros aa em m u v Hm Haa Hu Hv. unfold apply_core.
  set (v0 := if aa then v else repeat 0%R (length v)).
  assert (L0 : length v0 = length v). { unfold v0. destruct aa; auto. apply repeat_length. }
  replace (if aa then v else repeat 0%R (length v)) with v0 by reflexivity.
  assert (Hz : collocated b = true -> forall i, vf v0 i = 0%R).
  { intros Hc i. unfold v0. destruct aa; [rewrite Haa in Hc by auto; discriminate|]. apply vf_repeat0. }
  unfold collocated in *.
  destruct b as [t|n].
  - assert (Hfix : forall x i, (x = vf v0 i) -> (if negb (t_collo t) then x else 0%R) = x).
    { intros x i ->. destruct (t_collo t) eqn:E; simpl; auto. symmetry. apply Hz. auto. }
    simpl in *. destruct em; try discriminate.
    + change (q_comp (BT t) EvInterp) with 1 in *. destruct (@tensor_interp_t R k Jmin junk t ne Hk Hb aa u v0) as (v' & E & L & G & N); auto; try lia.
      exists v'. split; auto. split; auto. split; auto. intros c p e Hc Hp He. rewrite G by auto.
      rewrite (Hfix _ _ eq_refl). f_equal.
      destruct (@get_interp_ok R t) as (m' & Em & Lm & Gm). { apply Hb. }
      rewrite Hm in Em. inversion Em; subst m'. apply sumn_ext. intros d Hd. apply sumn_ext. intros q Hq.
      replace d with 0 by lia. cbn [Nat.mul Nat.add]. rewrite Gm by auto. reflexivity.
    + change (q_comp (BT t) EvGrad) with (t_dim t) in *. destruct (@tensor_grad_t R k Jmin junk t ne Hk Hb aa u v0) as (v' & E & L & G & N); auto; try lia.
      exists v'. split; auto. split; auto. split; auto. intros c p e Hc Hp He. rewrite G by auto.
      rewrite (Hfix _ _ eq_refl). f_equal.
      destruct (@get_grad_ok R t) as (m' & Em & Lm & Gm). { apply Hb. }
      rewrite Hm in Em. inversion Em; subst m'. apply sumn_ext. intros d Hd. apply sumn_ext. intros q Hq.
      rewrite Gm by auto. reflexivity.
  - destruct Hb as (Hnc & HP & HQ & HJP & HJQ & Hw & Hml). pose proof (Hml em m Hm) as Lm.
    assert (Happ : apply_nontensor k n aa ne Transpose em u v0 =
       ofopt (contract_strided k (n_nc n) (n_P n) ne (q_comp (BN n) em) (n_Q n) m Transpose true u v0)).
    { unfold apply_nontensor. rewrite Bool.orb_true_r. destruct em; simpl in Hm; try discriminate; try (destruct (n_fe n); try discriminate); inversion Hm; reflexivity. }
    destruct (@strided_t_ok R k Jmin (n_nc n) (n_P n) ne (q_comp (BN n) em) (n_Q n) m u v0) as (v' & E & G); auto.
    { rewrite L0. auto. }
    exists v'. split. { fold v0. simpl in *. destruct em; try discriminate; rewrite Happ, E; reflexivity. }
    exact G.
Qed.
End Core.

Section Props.
Variable R : Rng.
Add Ring Rr3 : (r_th R).
Implicit Types (k : kernel R) (b : basis R).

Lemma check_n : forall b ne em (u v : list R) m, reported b em = Some m -> check_dims b ne NoTranspose em (length u) (length v) = true ->
  b_nc b * b_nodes b * ne <= length u /\ q_comp b em * b_nc b * b_qpts b * ne <= length v.
Proof.
  intros b ne em u v m Hm H. destruct (reported_mode _ _ Hm) as [Hem|[Hem|[Hem|Hem]]]; subst em; unfold check_dims in H;
  apply andb_prop in H; destruct H as (H1 & H2); apply Nat.leb_le in H1, H2;
  (split; [eapply Nat.le_trans; [|exact H2]|eapply Nat.le_trans; [|exact H1]]; apply Nat.eq_le_incl; ring).
Qed.
Lemma check_t : forall b ne em (u v : list R) m, reported b em = Some m -> check_dims b ne Transpose em (length u) (length v) = true ->
  q_comp b em * b_nc b * b_qpts b * ne <= length u /\ b_nc b * b_nodes b * ne <= length v.
Proof.
  intros b ne em u v m Hm H. destruct (reported_mode _ _ Hm) as [Hem|[Hem|[Hem|Hem]]]; subst em; unfold check_dims in H;
  apply andb_prop in H; destruct H as (H1 & H2); apply Nat.leb_le in H1, H2;
  (split; [eapply Nat.le_trans; [|exact H1]|eapply Nat.le_trans; [|exact H2]]; apply Nat.eq_le_incl; ring).
Qed.

(** ** C14: application is multiplication by the reported matrix *)
Theorem C14_forward : forall k Jmin junk b ne em m (u v : list R), kernel_ok Jmin k -> b_wf Jmin b -> reported b em = Some m ->
  check_dims b ne NoTranspose em (length u) (length v) = true ->
  exists v', basis_apply k junk b ne NoTranspose em (Some u) v = Ok v' /\
    forward (b_nc b) (b_nodes b) (b_qpts b) (components (b_fe b) (b_dim b) em) ne m u v v'.
Proof.
  intros k Jmin junk b ne em m u v Hk Hb Hm Hc. rewrite <- (q_comp_spec b em). unfold basis_apply. cbn [olen]. rewrite Hc.
  destruct (check_n _ _ _ _ _ Hm Hc). apply (@core_n R k Jmin); auto.
Qed.

Theorem C14_backward : forall k Jmin junk b ne em m (u v : list R), kernel_ok Jmin k -> b_wf Jmin b -> reported b em = Some m ->
  check_dims b ne Transpose em (length u) (length v) = true ->
  exists v', basis_apply k junk b ne Transpose em (Some u) v = Ok v' /\
    backward (b_nc b) (b_nodes b) (b_qpts b) (components (b_fe b) (b_dim b) em) ne m u (repeat 0%R (length v)) v'.
Proof.
  intros k Jmin junk b ne em m u v Hk Hb Hm Hc. rewrite <- (q_comp_spec b em). unfold basis_apply. cbn [olen]. rewrite Hc.
  destruct (check_t _ _ _ _ _ Hm Hc). apply (@core_t R k Jmin junk b ne Hk Hb false em m u v Hm); auto. discriminate.
Qed.

(** The matrices reported for a tensor basis are the Kronecker products (independent formula). *)
Theorem C14_reported_tensor : forall Jmin (t : tbasis R) , b_wf Jmin (BT t) ->
  (exists m, reported (BT t) EvInterp = Some m /\ forall q p, q < t_Q t ^ t_dim t -> p < t_P t ^ t_dim t ->
     vf m (q * t_P t ^ t_dim t + p) = prodn (t_dim t) (fun i => vf (t_interp t) ((q / t_Q t ^ i) mod t_Q t * t_P t + (p / t_P t ^ i) mod t_P t))) /\
  (exists m, reported (BT t) EvGrad = Some m /\ forall d q p, d < t_dim t -> q < t_Q t ^ t_dim t -> p < t_P t ^ t_dim t ->
     vf m ((d * t_Q t ^ t_dim t + q) * t_P t ^ t_dim t + p) = prodn (t_dim t) (fun i => vf (if i =? d then t_grad t else t_interp t) ((q / t_Q t ^ i) mod t_Q t * t_P t + (p / t_P t ^ i) mod t_P t))).
Proof.
  intros Jmin t (Hs & _). split.
  - destruct (get_interp_ok Hs) as (m & E & _ & G). exists m. split; auto.
  - destruct (get_grad_ok Hs) as (m & E & _ & G). exists m. split; auto.
Qed.

(** The quadrature weights of a tensor basis. *)
Theorem C14_weights : forall k Jmin junk b ne (u : option (list R)) (v : list R), b_wf Jmin b -> 0 < ne ->
  check_dims b ne NoTranspose EvWeight (olen u) (length v) = true ->
  exists v', basis_apply k junk b ne NoTranspose EvWeight u v = Ok v' /\ length v' = length v /\
    (forall q e, q < b_qpts b -> e < ne -> vf v' (q * ne + e) =
       match b with BT t => prodn (t_dim t) (fun i => vf (t_w t) ((q / t_Q t ^ i) mod t_Q t)) | BN n => vf (n_w n) q end) /\
    (forall i, b_qpts b * ne <= i -> vf v' i = vf v i).
Proof.
  intros k Jmin junk b ne u v Hb Hne Hc. unfold basis_apply. rewrite Hc. unfold check_dims in Hc. apply Nat.leb_le in Hc.
  assert (Hu : forall x, apply_core k junk b false ne NoTranspose EvWeight u v = x <->
     match b with BT t => ofopt (weights (t_dim t) ne (t_Q t) (t_w t) v)
     | BN n => ofopt (forN (n_Q n) (fun i v => forN ne (fun e v => x <- get (n_w n) i ;; set v (i * ne + e) x) v) v) end = x).
  { intros x. unfold apply_core. destruct u; destruct b; reflexivity. }
  destruct b as [t|n].
  - destruct Hb as ((Hd & Hnc & HP & HQ & Hi & Hg & Hw) & _).
    destruct (@weights_ok R (t_dim t) ne (t_Q t) (t_w t) v) as (v' & E & L & G & N); auto.
    { simpl in Hc. lia. }
    exists v'. split; auto. apply Hu. rewrite E. reflexivity.
  - destruct Hb as (Hnc & HP & HQ & HJP & HJQ & Hw & Hml). simpl in Hc. cbn [b_qpts].
    destruct (@forN_inv (list R) (fun i v' => length v' = length v /\ forall x, vf v' x = if x <? i * ne then vf (n_w n) (x / ne) else vf v x)
      (fun i v => forN ne (fun e v => x <- get (n_w n) i ;; set v (i * ne + e) x) v) (n_Q n) v) as (v' & E & L & G).
    + split; auto.
    + intros i v1 Hi (L1 & G1).
      destruct (@forN_inv (list R) (fun e v' => length v' = length v /\ forall x, vf v' x = if x <? i * ne + e then vf (n_w n) (x / ne) else vf v x)
        (fun e v => x <- get (n_w n) i ;; set v (i * ne + e) x) ne v1) as (v2 & E & L & G).
      * split; auto. rewrite Nat.add_0_r. auto.
      * intros e v2 He (L2 & G2). rewrite get_vf by lia. cbn [bind].
        assert (i * ne + e < length v2) by nia. rewrite set_Some by auto. eexists. split; [reflexivity|].
        split; [rewrite upd_length; auto|]. intros x. rewrite vf_upd by auto. rewrite G2.
        destruct (Nat.eqb_spec x (i * ne + e)) as [Ex|Ex]; destruct (Nat.ltb_spec x (i * ne + e)); destruct (Nat.ltb_spec x (i * ne + (e + 1))); try lia; auto.
        subst x. rewrite div_enc by auto. reflexivity.
      * exists v2. split; auto. split; auto. intros x. rewrite G. replace ((i + 1) * ne) with (i * ne + ne) by ring. reflexivity.
    + exists v'. split. { apply Hu. rewrite E. reflexivity. } split; auto. split.
      * intros q e Hq He. rewrite G. assert (q * ne + e < n_Q n * ne) by nia. apply Nat.ltb_lt in H. rewrite H. rewrite div_enc by auto. reflexivity.
      * intros i Hi. rewrite G. destruct (Nat.ltb_spec i (n_Q n * ne)); [lia|]. reflexivity.
Qed.

(** ** C15: transpose is the adjoint *)
Lemma sum3 : forall A B C (f : nat -> R), sumn (A * B * C) f = sumn A (fun a => sumn B (fun x => sumn C (fun c => f ((a * B + x) * C + c)))).
Proof. intros. rewrite !sumn_mul. reflexivity. Qed.
Theorem C15_adjoint : forall k Jmin junk b ne em m (u v w w' : list R), kernel_ok Jmin k -> b_wf Jmin b -> reported b em = Some m ->
  check_dims b ne NoTranspose em (length u) (length w) = true ->
  check_dims b ne Transpose em (length v) (length w') = true ->
  exists bu btv, basis_apply k junk b ne NoTranspose em (Some u) w = Ok bu /\ basis_apply k junk b ne Transpose em (Some v) w' = Ok btv /\
    dot (components (b_fe b) (b_dim b) em * b_nc b * b_qpts b * ne) (vf bu) (vf v) = dot (b_nc b * b_nodes b * ne) (vf u) (vf btv).
Proof.
  intros k Jmin junk b ne em m u v w w' Hk Hb Hm Hc1 Hc2. rewrite <- (q_comp_spec b em).
  destruct (@C14_forward _ _ junk _ _ _ _ _ _ Hk Hb Hm Hc1) as (bu & E1 & _ & G1 & _); rewrite <- (q_comp_spec b em) in G1.
  destruct (@C14_backward _ _ junk _ _ _ _ _ _ Hk Hb Hm Hc2) as (btv & E2 & _ & G2 & _); rewrite <- (q_comp_spec b em) in G2.
  exists bu, btv. split; auto. split; auto. unfold dot.
  set (D := q_comp b em) in *. set (nc := b_nc b) in *. set (NQ := b_qpts b) in *. set (NP := b_nodes b) in *.
  rewrite !sum3.
  set (F := fun d c q p e => (vf m ((d * NQ + q) * NP + p)%nat * vf u ((c * NP + p) * ne + e)%nat * vf v (((d * nc + c) * NQ + q) * ne + e)%nat)%R).
  transitivity (sumn D (fun d => sumn nc (fun c => sumn NQ (fun q => sumn ne (fun e => sumn NP (fun p => F d c q p e)))))).
  { rewrite sumn_mul. apply sumn_ext. intros d Hd. apply sumn_ext. intros c Hc. apply sumn_ext. intros q Hq. apply sumn_ext. intros e He.
    rewrite G1 by auto. rewrite <- sumn_mul_r. reflexivity. }
  transitivity (sumn nc (fun c => sumn NP (fun p => sumn ne (fun e => sumn D (fun d => sumn NQ (fun q => F d c q p e)))))).
  2:{ apply sumn_ext. intros c Hc. apply sumn_ext. intros p Hp. apply sumn_ext. intros e He. rewrite G2 by auto.
      rewrite vf_repeat0, (Radd_0_l (r_th R)). rewrite <- sumn_mul_l. apply sumn_ext. intros d Hd. rewrite <- sumn_mul_l. apply sumn_ext. intros q Hq.
      unfold F. ring. }
  rewrite sumn_swap. apply sumn_ext. intros c Hc.
  transitivity (sumn D (fun d => sumn NP (fun p => sumn ne (fun e => sumn NQ (fun q => F d c q p e))))).
  { apply sumn_ext. intros d Hd. rewrite sumn_swap.
    transitivity (sumn ne (fun e => sumn NP (fun p => sumn NQ (fun q => F d c q p e)))).
    { apply sumn_ext. intros e He. apply sumn_swap. }
    apply sumn_swap. }
  rewrite sumn_swap. apply sumn_ext. intros p Hp. apply sumn_swap.
Qed.

(** ** C16: Apply overwrites, ApplyAdd adds *)
Theorem C16_overwrite : forall k Jmin junk junk' b ne tm em m (u v1 v2 : list R), kernel_ok Jmin k -> b_wf Jmin b -> reported b em = Some m ->
  length v1 = length v2 -> check_dims b ne tm em (length u) (length v1) = true ->
  exists w1 w2, basis_apply k junk b ne tm em (Some u) v1 = Ok w1 /\ basis_apply k junk' b ne tm em (Some u) v2 = Ok w2 /\
    forall i, i < match tm with NoTranspose => components (b_fe b) (b_dim b) em * b_nc b * b_qpts b * ne | Transpose => b_nc b * b_nodes b * ne end ->
      vf w1 i = vf w2 i.
Proof.
  intros k Jmin junk junk' b ne tm em m u v1 v2 Hk Hb Hm Hl Hc. pose proof Hc as Hc'. rewrite Hl in Hc'. destruct tm.
  - destruct (@C14_forward _ _ junk _ _ _ _ _ _ Hk Hb Hm Hc) as (w1 & E1 & _ & G1 & _).
    destruct (@C14_forward _ _ junk' _ _ _ _ _ _ Hk Hb Hm Hc') as (w2 & E2 & _ & G2 & _).
    exists w1, w2. split; auto. split; auto. intros i Hi.
    apply dec_mul in Hi. destruct Hi as (x & e & Hx & He & ->). apply dec_mul in Hx. destruct Hx as (y & q & Hy & Hq & ->).
    apply dec_mul in Hy. destruct Hy as (d & c & Hd & Hcc & ->). rewrite G1, G2 by auto. reflexivity.
  - destruct (@C14_backward _ _ junk _ _ _ _ _ _ Hk Hb Hm Hc) as (w1 & E1 & _ & G1 & _).
    destruct (@C14_backward _ _ junk' _ _ _ _ _ _ Hk Hb Hm Hc') as (w2 & E2 & _ & G2 & _).
    exists w1, w2. split; auto. split; auto. intros i Hi.
    apply dec_mul in Hi. destruct Hi as (x & e & Hx & He & ->). apply dec_mul in Hx. destruct Hx as (c & p & Hcc & Hp & ->).
    rewrite G1, G2 by auto. rewrite !vf_repeat0. reflexivity.
Qed.

Theorem C16_add : forall k Jmin junk junk' b ne em m (u v v0 : list R), kernel_ok Jmin k -> b_wf Jmin b -> reported b em = Some m ->
  collocated b = false -> length v0 = length v -> check_dims b ne Transpose em (length u) (length v) = true ->
  exists w w0, basis_apply_add k junk b ne Transpose em (Some u) v = Ok w /\ basis_apply k junk' b ne Transpose em (Some u) v0 = Ok w0 /\
    length w = length v /\ forall i, vf w i = (vf v i + vf w0 i)%R.
Proof.
  intros k Jmin junk junk' b ne em m u v v0 Hk Hb Hm Hco Hl Hc.
  destruct (check_t _ _ _ _ _ Hm Hc) as (Hu & Hv).
  destruct (@core_t R k Jmin junk b ne Hk Hb true em m u v Hm) as (w & E & L & G & N); auto.
  destruct (@C14_backward k Jmin junk' b ne em m u v0 Hk Hb Hm) as (w0 & E0 & L0 & G0 & N0). { rewrite Hl. auto. } rewrite <- (q_comp_spec b em) in G0.
  exists w, w0. unfold basis_apply_add. cbn [olen]. rewrite Hc. split; auto. split; auto. split; auto.
  intros i. destruct (Nat.lt_ge_cases i (b_nc b * b_nodes b * ne)) as [Hi|Hi].
  - apply dec_mul in Hi. destruct Hi as (x & e & Hx & He & ->). apply dec_mul in Hx. destruct Hx as (c & p & Hcc & Hp & ->).
    rewrite G, G0 by auto. rewrite vf_repeat0. ring.
  - rewrite N, N0 by auto. rewrite vf_repeat0. ring.
Qed.

Theorem C16_add_notranspose : forall k junk b ne em u (v : list R), basis_apply_add k junk b ne NoTranspose em u v = Err ERR_UNSUPPORTED.
Proof. reflexivity. Qed.

(** ** C17: the length check is enough *)
Theorem C17_safe : forall k Jmin junk b ne tm em u (v : list R), kernel_ok Jmin k -> b_wf Jmin b ->
  (em <> EvWeight -> em <> EvNone -> reported b em <> None) -> (em = EvWeight -> 0 < ne) ->
  basis_apply k junk b ne tm em u v <> UB.
Proof.
  intros k Jmin junk b ne tm em u v Hk Hb Hrep Hne.
  destruct (check_dims b ne tm em (olen u) (length v)) eqn:Hc; [|unfold basis_apply; rewrite Hc; discriminate].
  destruct (reported b em) as [m|] eqn:Hm.
  - destruct u as [u|].
    + destruct tm.
      * destruct (@C14_forward _ _ junk _ _ _ _ _ _ Hk Hb Hm Hc) as (w & -> & _). discriminate.
      * destruct (@C14_backward _ _ junk _ _ _ _ _ _ Hk Hb Hm Hc) as (w & -> & _). discriminate.
    + unfold basis_apply. rewrite Hc. destruct (reported_mode _ _ Hm) as [Hem|[Hem|[Hem|Hem]]]; subst em; discriminate.
  - destruct em; try (exfalso; apply Hrep; congruence).
    + unfold basis_apply. rewrite Hc. unfold apply_core. destruct u; [|discriminate]. destruct b; discriminate.
    + destruct tm.
      * destruct (@C14_weights k Jmin junk b ne u v Hb (Hne eq_refl) Hc) as (w & -> & _). discriminate.
      * unfold basis_apply. rewrite Hc. unfold apply_core. destruct u, b; discriminate.
Qed.

Lemma core_t_len : forall k Jmin junk b ne em m (u v : list R), kernel_ok Jmin k -> b_wf Jmin b -> reported b em = Some m -> forall aa,
  q_comp b em * b_nc b * b_qpts b * ne <= length u -> b_nc b * b_nodes b * ne <= length v ->
  exists v', apply_core k junk b aa ne Transpose em (Some u) v = Ok v' /\ length v' = length v.
Proof.
  intros k Jmin junk b ne em m u v Hk Hb Hm aa Hu Hv.
  set (v0 := if aa then v else repeat 0%R (length v)).
  assert (L0 : length v0 = length v). { unfold v0. destruct aa; auto. apply repeat_length. }
  destruct b as [t|n].
  - unfold apply_core. fold v0. simpl in *. destruct em; try discriminate.
    + change (q_comp (BT t) EvInterp) with 1 in *. destruct (@tensor_interp_t R k Jmin junk t ne Hk Hb aa u v0) as (v' & E & L & _); auto; try lia. exists v'. split; auto. congruence.
    + change (q_comp (BT t) EvGrad) with (t_dim t) in *. destruct (@tensor_grad_t R k Jmin junk t ne Hk Hb aa u v0) as (v' & E & L & _); auto; try lia. exists v'. split; auto. congruence.
  - destruct (@core_t R k Jmin junk (BN n) ne Hk Hb aa em m u v Hm) as (v' & E & L & _); auto. exists v'. split; auto. fold v0 in L. congruence.
Qed.
Theorem C17_safe_add : forall k Jmin junk b ne tm em u (v : list R), kernel_ok Jmin k -> b_wf Jmin b ->
  (em <> EvWeight -> em <> EvNone -> reported b em <> None) ->
  basis_apply_add k junk b ne tm em u v <> UB.
Proof.
  intros k Jmin junk b ne tm em u v Hk Hb Hrep. unfold basis_apply_add. destruct tm; [discriminate|].
  destruct (check_dims b ne Transpose em (olen u) (length v)) eqn:Hc; [|discriminate].
  destruct (reported b em) as [m|] eqn:Hm.
  - destruct u as [u|].
    + destruct (check_t _ _ _ _ _ Hm Hc) as (Hu & Hv).
      destruct (@core_t_len k Jmin junk b ne em m u v Hk Hb Hm true Hu Hv) as (w & -> & _). discriminate.
    + destruct (reported_mode _ _ Hm) as [Hem|[Hem|[Hem|Hem]]]; subst em; discriminate.
  - destruct em; try (exfalso; apply Hrep; congruence); unfold apply_core; destruct u; destruct b; discriminate.
Qed.
End Props.
Print Assumptions C17_safe_add.
Print Assumptions C14_forward. Print Assumptions C14_backward. Print Assumptions C14_reported_tensor. Print Assumptions C14_weights.
Print Assumptions C15_adjoint. Print Assumptions C16_overwrite. Print Assumptions C16_add. Print Assumptions C16_add_notranspose. Print Assumptions C17_safe.

(** ** Concrete bases meeting the hypotheses, and the findings *)
Definition nearZ (x y : Zrng) : bool := Z.eqb x y.
(** 2 nodes, 3 points: interp rows (1 0) (1 1) (0 1), grad rows (2 -1) (1 0) (-1 1), cg * interp = grad *)
Definition cgZ (P Q : nat) (i g : list Zrng) : list Zrng := [2;0;-1; 1;0;0; -1;0;1]%Z.
Definition ex_t : res (tbasis Zrng) := @tensor_create Zrng nearZ cgZ 2 2 2 3 [1;0; 1;1; 0;1]%Z [2;-1; 1;0; -1;1]%Z [1;2;3]%Z.
Definition ex_tb : tbasis Zrng := @mkT Zrng 2 2 2 3 [1;0; 1;1; 0;1]%Z [2;-1; 1;0; -1;1]%Z [1;2;3]%Z false (Some [2;0;-1; 1;0;0; -1;0;1]%Z).
Example C14_created_ex : ex_t = Ok ex_tb /\ b_wf 2 (BT ex_tb).
Proof.
  split; [reflexivity|]. eapply (@C14_created Zrng nearZ cgZ 2 2 2 2 3 [1;0; 1;1; 0;1]%Z [2;-1; 1;0; -1;1]%Z [1;2;3]%Z); try reflexivity; try lia.
  - intros x _. split; intros H; apply Z.eqb_eq in H; auto.
  - intros _. split; [simpl; lia|]. intros q p Hq Hp. destruct q as [|[|[|q]]]; try lia; destruct p as [|[|p]]; try lia; reflexivity.
Qed.
(** underintegrated: 3 nodes, 2 points *)
Definition ex_under : tbasis Zrng := @mkT Zrng 2 1 3 2 [1;2;3; 4;5;6]%Z [1;0;-1; 2;2;1]%Z [1;2]%Z false None.
Definition ex_collo : tbasis Zrng := @mkT Zrng 2 1 2 2 [1;0; 0;1]%Z [-1;1; -1;1]%Z [1;1]%Z true None.
Example ex_under_wf : b_wf 2 (BT ex_under).
Proof. simpl. unfold t_wf, sizes_ok. simpl. repeat split; try lia; try discriminate. Qed.
Example ex_collo_wf : b_wf 2 (BT ex_collo).
Proof.
  simpl. unfold t_wf, sizes_ok. simpl. repeat split; try lia; try discriminate.
  intros q p Hq Hp. destruct q as [|[|q]]; try lia; destruct p as [|[|p]]; try lia; reflexivity.
Qed.
Definition ex_hdiv : nbasis Zrng := @mkN Zrng 2 1 3 2 Hdiv [1;2;3;4;5;6;7;8;9;10;11;12]%Z [] [1;2;3;4;5;6]%Z [] [1;2]%Z.
Example ex_hdiv_wf : b_wf 2 (BN ex_hdiv).
Proof. simpl. repeat split; try lia. intros [] m E; inversion E; subst; simpl; lia. Qed.
Definition junkZ (a b : nat) : Zrng := Z.of_nat (a * 7 + b * 3 + 5).
Example C14_ex_grad : exists v', basis_apply (@contract_avx Zrng) junkZ (BT ex_tb) 2 NoTranspose EvGrad (Some (map Z.of_nat (seq 1 16))) (repeat 9%Z 72) = Ok v' /\
  nth 5 v' 0%Z <> 0%Z /\ check_dims (BT ex_tb) 2 NoTranspose EvGrad 16 72 = true.
Proof. eexists. split; [vm_compute; reflexivity|]. split; [vm_compute; discriminate|reflexivity]. Qed.
Example C15_ex : check_dims (BN ex_hdiv) 3 NoTranspose EvInterp 9 12 = true /\ check_dims (BN ex_hdiv) 3 Transpose EvInterp 12 9 = true
  /\ reported (BN ex_hdiv) EvInterp <> None.
Proof. repeat split; try reflexivity. discriminate. Qed.
Example C16_ex : collocated (BT ex_tb) = false /\ collocated (BT ex_under) = false. Proof. split; reflexivity. Qed.

(** Finding: a collocated basis ignores the previous contents in ApplyAdd. *)
Theorem C16_add_interp_refuted : exists (b : basis Zrng) ne (u v w w0 : list Zrng), b_wf 2 b /\
  basis_apply_add (@contract_ref Zrng) junkZ b ne Transpose EvInterp (Some u) v = Ok w /\
  basis_apply (@contract_ref Zrng) junkZ b ne Transpose EvInterp (Some u) v = Ok w0 /\
  check_dims b ne Transpose EvInterp (length u) (length v) = true /\ vf w 0 <> (vf v 0 + vf w0 0)%R.
Proof.
  exists (BT ex_collo), 1, [1;2;3;4]%Z, [5;5;5;5]%Z. eexists. eexists. split; [apply ex_collo_wf|].
  split; [vm_compute; reflexivity|]. split; [vm_compute; reflexivity|]. split; [reflexivity|]. vm_compute. discriminate.
Qed.
Theorem C16_add_grad_refuted : exists (b : basis Zrng) ne (u v w w0 : list Zrng), b_wf 2 b /\
  basis_apply_add (@contract_ref Zrng) junkZ b ne Transpose EvGrad (Some u) v = Ok w /\
  basis_apply (@contract_ref Zrng) junkZ b ne Transpose EvGrad (Some u) v = Ok w0 /\
  check_dims b ne Transpose EvGrad (length u) (length v) = true /\ vf w 0 <> (vf v 0 + vf w0 0)%R.
Proof.
  exists (BT ex_collo), 1, [1;2;3;4;5;6;7;8]%Z, [5;5;5;5]%Z. eexists. eexists. split; [apply ex_collo_wf|].
  split; [vm_compute; reflexivity|]. split; [vm_compute; reflexivity|]. split; [reflexivity|]. vm_compute. discriminate.
Qed.
(** Finding: a mode the space does not have (here the gradient on H(div)) passes the check and dereferences the missing matrix. *)
Theorem C17_missing_refuted : exists (b : basis Zrng) ne em (u v : list Zrng), b_wf 2 b /\
  check_dims b ne NoTranspose em (length u) (length v) = true /\
  basis_apply (@contract_ref Zrng) junkZ b ne NoTranspose em (Some u) v = UB.
Proof.
  exists (BN ex_hdiv), 1, EvGrad, [1;2;3]%Z, [0;0;0;0]%Z. split; [apply ex_hdiv_wf|]. split; reflexivity.
Qed.
(** Finding: weights with zero elements in two or more dimensions read one entry of a possibly empty vector. *)
Theorem C17_weight_empty_refuted : exists (b : basis Zrng) (v : list Zrng), b_wf 2 b /\
  check_dims b 0 NoTranspose EvWeight 0 (length v) = true /\
  basis_apply (@contract_ref Zrng) junkZ b 0 NoTranspose EvWeight None v = UB.
Proof. exists (BT ex_under), []. split; [apply ex_under_wf|]. split; reflexivity. Qed.
Print Assumptions C16_add_interp_refuted. Print Assumptions C16_add_grad_refuted. Print Assumptions C17_missing_refuted. Print Assumptions C17_weight_empty_refuted.
