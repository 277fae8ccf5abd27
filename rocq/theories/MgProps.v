(** * C38: multigrid prolongation and restriction are transposes of each other *)
From Coq Require Import List ZArith Lia Bool Arith.
From Verif Require Import Prelude RstrModel RstrSpec RstrProofs RstrMain RstrProps TensorModel BasisModel BasisProps TensorMain OpModel OpSpec OpLists OpTree OpProps MgModel.
Import ListNotations.

Section Mg.
Variable R : Rng.
Add Ring Rmg : (r_th R).
Local Open Scope nat_scope.

(** the sign of node [n] of element [el] *)
Definition sg (w : variant) (d : udesc) (el n : nat) : R :=
  match u_kind d with UOriented _ ors => if v_signs w && nth (el * u_es d + n) ors false then (- (1))%R else 1%R | _ => 1%R end.
Definition uncurled (d : udesc) : Prop := match u_kind d with UCurl _ _ => False | _ => True end.
Lemma coef_sg w d el n m : uncurled d -> coef R w d el n m = delta (n =? m) (sg w d el n).
Proof. unfold coef, sg, uncurled. destruct (u_kind d); tauto || auto. Qed.
Lemma sg_sq w d el n : (sg w d el n * sg w d el n = 1)%R.
Proof. unfold sg. destruct (u_kind d); try ring. destruct (_ && _); ring. Qed.
Lemma sumn_delta' n k (f : nat -> R) : k < n -> sumn n (fun m => delta (k =? m) (f m)) = f k.
Proof.
  intros H. rewrite sumn_ext with (g := fun m => delta (m =? k) (f m)) by (intros; now rewrite Nat.eqb_sym).
  rewrite sumn_delta. unfold delta. now replace (k <? n) with true by (symmetry; now apply Nat.ltb_lt).
Qed.
Lemma Eval_sg w d x el k n : uncurled d -> n < u_es d -> Eval (R := R) w d x el k n = (sg w d el n * vf x (Z.to_nat (col d el k n)))%R.
Proof.
  intros Hu Hn. unfold Eval. rewrite sumn_ext with (g := fun m => delta (n =? m) (sg w d el n * vf x (Z.to_nat (col d el k m)))%R).
  - now rewrite (sumn_delta' _ n (fun m => (sg w d el n * vf x (Z.to_nat (col d el k m)))%R)).
  - intros m Hm. rewrite coef_sg by auto. apply delta_mul_r.
Qed.
Lemma Lval_sg w d E q : uncurled d -> Lval (R := R) w d E q =
  sumn (u_ne d) (fun el => sumn (u_nc d) (fun k => sumn (u_es d) (fun n => delta (Z.of_nat q =? col d el k n)%Z (sg w d el n * E el k n)%R))).
Proof.
  intros Hu. unfold Lval. apply sumn_ext; intros el Hel. apply sumn_ext; intros k Hk. apply sumn_ext; intros n Hn.
  rewrite sumn_ext with (g := fun m => delta (n =? m) (delta (Z.of_nat q =? col d el k m)%Z (sg w d el n * E el k n)%R)).
  - now rewrite (sumn_delta' _ n (fun m => delta (Z.of_nat q =? col d el k m)%Z (sg w d el n * E el k n)%R)).
  - intros m Hm. rewrite coef_sg by auto. unfold delta. destruct (_ =? _)%Z, (n =? m); ring.
Qed.
Lemma count_sum d q (c : R) :
  sumn (u_ne d) (fun el => sumn (u_nc d) (fun k => sumn (u_es d) (fun n => delta (Z.of_nat q =? col d el k n)%Z c))) = (natR R (refcount d q) * c)%R.
Proof.
  unfold refcount. rewrite <- (@sumL_count R _ (fun t : nat * (nat * nat) => (Z.of_nat q =? col d (fst t) (fst (snd t)) (snd (snd t)))%Z)).
  rewrite sumL_list_prod, <- sumL_mul_r. apply sumn_ext; intros el Hel. rewrite sumL_list_prod, <- sumL_mul_r. apply sumn_ext; intros k Hk.
  rewrite <- sumL_mul_r. apply sumn_ext; intros n Hn. cbn [fst snd]. rewrite delta_mul_r. f_equal. ring.
Qed.
Lemma col_unsigned d el k n : col (unsigned d) el k n = col d el k n.
Proof. unfold col, unsigned. destruct (u_kind d) eqn:E; cbn; rewrite ?E; auto. Qed.
Lemma uncurled_seen bs d : uncurled d -> uncurled (copy_seen bs d).
Proof. unfold uncurled, copy_seen, unsigned. destruct bs; auto. destruct (u_kind d) eqn:E; cbn; rewrite ?E; auto. Qed.
Lemma seen_size bs d : u_ne (copy_seen bs d) = u_ne d /\ u_es (copy_seen bs d) = u_es d /\ u_nc (copy_seen bs d) = u_nc d /\ u_lsize (copy_seen bs d) = u_lsize d.
Proof. unfold copy_seen, unsigned. destruct bs; auto. destruct (u_kind d); auto. Qed.
Lemma seen_lengths bs d : lengths_ok d -> lengths_ok (copy_seen bs d).
Proof. unfold copy_seen, unsigned. destruct bs; auto. unfold lengths_ok. destruct (u_kind d) eqn:E; cbn; rewrite ?E; tauto. Qed.
Lemma seen_range bs d : in_range d -> in_range (copy_seen bs d).
Proof.
  unfold copy_seen. destruct bs; auto. intros H el k m. pose proof (seen_size None d) as (A & B & C & E). cbn [copy_seen] in *.
  rewrite A, B, C, E, col_unsigned. apply H.
Qed.
Lemma seen_create chk bs d r : rstr_create chk d bs = Ok r -> exists r', rstr_create chk (copy_seen bs d) bs = Ok r'.
Proof.
  unfold copy_seen. destruct bs as [b|]; eauto. unfold unsigned. destruct (u_kind d) eqn:E; eauto.
  unfold rstr_create, RstrModel.check_dims, make_kind, perm_opt. cbn [u_kind u_es u_nc u_cs u_ne u_lsize]. rewrite E. intros H.
  destruct (u_es d =? 0); [discriminate H|]. destruct (u_nc d =? 0); [discriminate H|]. destruct (negb _); [discriminate H|]. cbn [bind kind_offsets] in *.
  destruct (offsets_check _ _ _ _ _ _ _); try discriminate H; eauto.
Qed.
(** What the ref backend does with the copy is what Apply of the copy does: the model of the copy in an operator is faithful. *)
Lemma unsigned_apply chk d r r' tm (u v : list R) : uncurled d -> rstr_create chk d None = Ok r -> rstr_create chk (unsigned d) None = Ok r' ->
  rstr_apply Unsigned r tm u v = rstr_apply Signed r' tm u v.
Proof.
  unfold uncurled, unsigned. destruct (u_kind d) eqn:E; intros Hu H1 H2; try tauto.
  1,2: assert (r' = r) by congruence; subst r'; unfold rstr_create, make_kind in H1; rewrite E in H1; destruct (RstrModel.check_dims _ _); try discriminate;
    cbn [perm_opt bind kind_offsets] in H1; try (destruct (offsets_check _ _ _ _ _ _ _); try discriminate); injection H1 as <-; unfold rstr_apply, apply_core; cbn; destruct tm; reflexivity.
  unfold rstr_create, make_kind, RstrModel.check_dims in H1, H2. cbn [u_kind u_es u_nc u_cs u_ne u_lsize] in H2. rewrite E in H1.
  destruct (u_es d =? 0); [discriminate|]. destruct (u_nc d =? 0); [discriminate|]. destruct (negb _); [discriminate|]. cbn [perm_opt bind kind_offsets] in H1, H2.
  destruct (offsets_check _ _ _ _ _ _ _); try discriminate. injection H1 as <-. injection H2 as <-. unfold rstr_apply, apply_core. cbn. destruct tm; reflexivity.
Qed.

(** ** The level *)
Variable k : kernel R. Variable Jmin : nat. Variable junk : nat -> nat -> R.
Variable recip : R -> R. Variable chk : bool. Variable D : nat -> udesc. Variable bs : option nat.
(** fine restriction [rf], coarse restriction [rc], interpolation from the coarse nodes to the fine nodes [b] *)
Record mg_wf (rf rc pm : nat) (bc b : basis R) : Prop := {
  mw_k : kernel_ok Jmin k; mw_bs : 0 < bsize bs;
  mw_ne : 0 < u_ne (D rf); mw_es : 0 < u_es (D rf);
  mw_f : lengths_ok (D rf) /\ in_range (D rf) /\ uncurled (D rf) /\ (exists r, rstr_create chk (D rf) None = Ok r) /\ (exists r, rstr_create chk (D rf) bs = Ok r);
  mw_c : lengths_ok (D rc) /\ in_range (D rc) /\ curl_ok Signed (D rc) /\ (exists r, rstr_create chk (D rc) bs = Ok r);
  mw_ne' : u_ne (D rc) = u_ne (D rf); mw_nc : u_nc (D rc) = u_nc (D rf); mw_nb : b_nc b = u_nc (D rf); mw_nbc : b_nc bc = u_nc (D rf);
  mw_b : b_wf Jmin b; mw_p : b_nodes b = u_es (D rc); mw_q : b_qpts b = u_es (D rf); mw_fe : q_comp b EvInterp = 1;
  mw_mat : exists mt, reported b EvInterp = Some mt;
  mw_pm : pm <> rf /\ pm <> rc
}.

(** value at fine node [n] of element [el] of the coarse function [x] *)
Definition interp_at (rc : nat) (b : basis R) (x : list R) (el c n : nat) : R :=
  sumn (u_es (D rc)) (fun p => (vf (mat b EvInterp) (n * u_es (D rc) + p)%nat * Eval Signed (D rc) x el c p)%R).

Lemma mg_mult_ok rf x p : lengths_ok (D rf) -> in_range (D rf) -> uncurled (D rf) -> (exists r, rstr_create chk (D rf) None = Ok r) ->
  vv_data p = Some x -> u_lsize (D rf) <= length x ->
  exists s, mg_mult recip chk D rf p = Ok (mkVV (u_lsize (D rf)) (Some s) 6%Z) /\ length s = u_lsize (D rf) /\
    forall q, q < u_lsize (D rf) -> vf s q = recip (natR R (refcount (D rf) q) * vf x q)%R.
Proof.
  intros Hl Hr Hu (r & Hc) Hx Lx. unfold mg_mult. rewrite Hx, Hc. cbn [rbind].
  assert (Hk : curl_ok Unsigned (D rf)) by (unfold curl_ok, uncurled in *; destruct (u_kind (D rf)); tauto).
  destruct (@C08_gather R chk (D rf) None r Unsigned x (repeat 0%R (r_esize r)) Hl Hc Hr Hk Lx) as (e & E1 & L1 & G1 & _); [now rewrite repeat_length|].
  rewrite E1. cbn [rbind].
  assert (Els : r_lsize r = u_lsize (D rf)) by exact (rp_ls (create_repr Hl Hc)).
  destruct (@C09_transpose_adds R chk (D rf) None r Unsigned e (repeat 0%R (r_lsize r)) Hl Hc Hr Hk) as (s & E2 & L2 & G2).
  { rewrite L1, repeat_length. auto. } { rewrite repeat_length. lia. }
  rewrite E2. cbn [rbind]. exists (map recip s). rewrite Els. split; [reflexivity|]. rewrite map_length, L2, repeat_length. split; [exact Els|].
  intros q Hq. unfold vf at 1. rewrite nth_indep with (d' := recip 0%R) by (rewrite map_length, L2, repeat_length; lia). rewrite map_nth.
  f_equal. change (nth q s 0%R) with (vf s q). rewrite G2. unfold vf at 1. rewrite nth_repeat. rewrite Lval_sg by auto.
  rewrite <- count_sum.
  match goal with |- (0 + ?a)%R = ?b => replace a with b; [ring|] end.
  apply sumn_ext; intros el Hel. apply sumn_ext; intros c Hcc. apply sumn_ext; intros n Hn.
  rewrite G1 by auto. rewrite Eval_sg by auto. unfold delta. destruct (Z.eqb_spec (Z.of_nat q) (col (D rf) el c n)) as [Eq|Eq]; auto.
  rewrite <- Eq, Nat2Z.id. transitivity ((sg Unsigned (D rf) el n * sg Unsigned (D rf) el n) * vf x q)%R; [rewrite sg_sq; ring|ring].
Qed.

Section Level.
Variables (rf rc pm m : nat) (bc b : basis R).
Hypothesis W : mg_wf rf rc pm bc b.
Notation D' := (env D bs rf pm).
Notation P := (op_prolong (u_nc (D rf)) (u_ne (D rf)) rf rc pm m b).
Notation Q := (op_restrict (u_nc (D rf)) (u_ne (D rf)) rf rc pm m b).
Lemma env_pm : D' pm = copy_seen bs (D rf). Proof. unfold env. now rewrite Nat.eqb_refl. Qed.
Lemma env_f : D' rf = D rf. Proof. unfold env. destruct (Nat.eqb_spec rf pm); auto. destruct (mw_pm _ _ _ _ _ W); congruence. Qed.
Lemma env_c : D' rc = D rc. Proof. unfold env. destruct (Nat.eqb_spec rc pm); auto. destruct (mw_pm _ _ _ _ _ W); congruence. Qed.
Lemma wf_f (o : oper R) : o_ne o = u_ne (D rf) -> rstr_wf chk bs o (D' rf).
Proof.
  intros Ho. rewrite env_f. destruct (mw_f _ _ _ _ _ W) as (A & B & C & _ & E). repeat split; auto; try apply B; auto.
  unfold curl_ok, uncurled in *. destruct (u_kind (D rf)); tauto.
Qed.
Lemma wf_c (o : oper R) : o_ne o = u_ne (D rf) -> rstr_wf chk bs o (D' rc).
Proof.
  intros Ho. rewrite env_c. destruct (mw_c _ _ _ _ _ W) as (A & B & C & E). repeat split; auto; try apply B; auto. rewrite (mw_ne' _ _ _ _ _ W). auto.
Qed.
Lemma wf_pm (o : oper R) : o_ne o = u_ne (D rf) -> rstr_wf chk bs o (D' pm).
Proof.
  intros Ho. rewrite env_pm. destruct (mw_f _ _ _ _ _ W) as (A & B & C & _ & (r & E)). split; [now apply seen_lengths|]. split; [now apply seen_range|].
  split. { pose proof (uncurled_seen bs _ C) as U. unfold curl_ok, uncurled in *. destruct (u_kind (copy_seen bs (D rf))); tauto. }
  split; [eapply seen_create; eauto|]. rewrite (proj1 (seen_size bs (D rf))). auto.
Qed.
Lemma fw_f (o : oper R) v : o_ne o = u_ne (D rf) -> o_Q o = u_es (D rf) -> field_wf D' Jmin chk bs o (mkOF (u_nc (D rf)) EvNone (Some rf) None v).
Proof. intros H1 H2. exists rf. split; [reflexivity|]. split; [now apply wf_f|]. rewrite env_f. auto. Qed.
Lemma fw_pm (o : oper R) v : o_ne o = u_ne (D rf) -> o_Q o = u_es (D rf) -> field_wf D' Jmin chk bs o (mkOF (u_nc (D rf)) EvNone (Some pm) None v).
Proof. intros H1 H2. exists pm. split; [reflexivity|]. split; [now apply wf_pm|]. rewrite env_pm. destruct (seen_size bs (D rf)) as (_ & A & B & _). cbn. split; congruence. Qed.
Lemma fw_c (o : oper R) v : o_ne o = u_ne (D rf) -> o_Q o = u_es (D rf) -> field_wf D' Jmin chk bs o (mkOF (u_nc (D rf)) EvInterp (Some rc) (Some b) v).
Proof.
  intros H1 H2. destruct (mw_mat _ _ _ _ _ W) as (mt & Em). exists rc, b, mt. split; [reflexivity|]. split; [reflexivity|]. split; [now apply wf_c|].
  split; [apply (mw_b _ _ _ _ _ W)|]. rewrite env_c. rewrite (mw_nb _ _ _ _ _ W), (mw_nc _ _ _ _ _ W), (mw_p _ _ _ _ _ W), (mw_q _ _ _ _ _ W), (mw_fe _ _ _ _ _ W), H2. cbn [f_size].
  repeat split; auto. lia.
Qed.
Lemma prolong_wf : op_wf D' k Jmin chk bs P.
Proof.
  constructor; try (cbn; discriminate).
  - apply (mw_ne _ _ _ _ _ W).
  - cbn. rewrite (mw_q _ _ _ _ _ W). apply (mw_es _ _ _ _ _ W).
  - apply (mw_bs _ _ _ _ _ W).
  - apply (mw_k _ _ _ _ _ W).
  - intros [|[|i]] Hi; cbn in Hi; try lia; unfold fld; cbn [nth o_in op_prolong]; [apply fw_c|apply fw_pm]; auto; apply (mw_q _ _ _ _ _ W).
  - intros [|i] Hi; cbn in Hi; try lia. split; [|discriminate]. unfold fld; cbn [nth o_out op_prolong]. apply fw_f; auto; apply (mw_q _ _ _ _ _ W).
  - intros i j Hij Hs _. cbn in Hij. destruct i as [|[|i]]; try lia. destruct j as [|[|j]]; try lia. discriminate.
  - intros i j Hij Hs. cbn in Hij. lia.
  - intros _. split; [cbn; lia|]. cbn [o_vlen op_prolong]. apply Nat.mod_1_r.
Qed.
Lemma restrict_wf : op_wf D' k Jmin chk bs Q.
Proof.
  constructor; try (cbn; discriminate).
  - apply (mw_ne _ _ _ _ _ W).
  - cbn. rewrite (mw_q _ _ _ _ _ W). apply (mw_es _ _ _ _ _ W).
  - apply (mw_bs _ _ _ _ _ W).
  - apply (mw_k _ _ _ _ _ W).
  - intros [|[|i]] Hi; cbn in Hi; try lia; unfold fld; cbn [nth o_in op_restrict]; [apply fw_f|apply fw_pm]; auto; apply (mw_q _ _ _ _ _ W).
  - intros [|i] Hi; cbn in Hi; try lia. split; [|discriminate]. unfold fld; cbn [nth o_out op_restrict]. apply fw_c; auto; apply (mw_q _ _ _ _ _ W).
  - intros i j Hij Hs _. cbn in Hij. destruct i as [|[|i]]; try lia. destruct j as [|[|j]]; try lia. discriminate.
  - intros i j Hij Hs. cbn in Hij. lia.
  - intros _. split; [cbn; lia|]. cbn [o_vlen op_restrict]. apply Nat.mod_1_r.
Qed.
(** a vector [i] with contents [x], an output vector [o] of length [n], the scale vector unchanged *)
Definition call_ok (s : list R) (vm : vmem R) (i o : nat) (x : list R) (n : nat) : Prop :=
  vv_data (vm m) = Some s /\ vv_data (vm i) = Some x /\ vv_len (vm o) = n /\ i <> o /\ m <> o.
Lemma vf_row (f : nat -> R) n c : c < n -> vf (map f (seq 0 n)) c = f c.
Proof. apply vf_map_seq. Qed.
Lemma prolong_run s vm i o x n im : call_ok s vm i o x n -> length s = u_lsize (D rf) -> u_lsize (D rc) <= length x -> u_lsize (D rf) <= n ->
  mem_ok vm -> im_ok chk D' bs P im vm ->
  exists im' vm' y, single_apply k junk chk D' bs P im vm (Some i) (Some o) = Ok (im', vm') /\ im_ok chk D' bs P im' vm' /\ mem_ok vm' /\ (forall v, v <> o -> vm' v = vm v) /\
    vv_data (vm' o) = Some y /\ length y = n /\
    forall q, vf y q = Lval Signed (D rf) (fun el c n => (interp_at rc b x el c n * Eval Signed (copy_seen bs (D rf)) s el c n)%R) q.
Proof.
  intros (Hs & Hx & Ho & Nio & Nmo) Ls Lx Ln Hm Hi.
  destruct (@C29_apply R k Jmin junk chk D' bs P im vm (Some i) (Some o) prolong_wf Hm Hi) as (im' & vm' & E & I' & M' & G).
  - split.
    + intros [|[|j]] Hj Hw; cbn in Hj; try lia; unfold fld; cbn [nth o_in op_prolong].
      * exists i, x. cbn. split; auto. split; auto. rewrite env_c. lia.
      * exists m, s. cbn. split; auto. split; auto. rewrite env_pm. destruct (seen_size bs (D rf)) as (_ & _ & _ & A). lia.
    + intros [|j] Hj; cbn in Hj; try lia. exists o. cbn. split; auto. rewrite env_f. lia.
  - intros f v Hf Hw Ht. unfold outs. cbn. rewrite orb_false_r. cbn in Hf. destruct Hf as [<-|[<-|[]]]; cbn in Ht; injection Ht as <-; apply Nat.eqb_neq; auto.
  - exists im', vm'. pose proof (G o) as Go. unfold outs in Go. cbn [existsb o_out op_prolong target f_vec oeq] in Go. rewrite Nat.eqb_refl in Go. cbn [orb] in Go.
    destruct Go as (_ & y & Ey & Ly & Gy). exists y. split; auto. split; auto. split; auto. split.
    { intros v Hv. specialize (G v). unfold outs in G. cbn [existsb o_out op_prolong target f_vec oeq] in G. now replace (o =? v) with false in G by (symmetry; apply Nat.eqb_neq; auto). }
    split; auto. split; [congruence|]. intros q. rewrite Gy. unfold added. cbn [length o_out op_prolong]. rewrite sumn_S, sumn_0. unfold fld. cbn [nth target f_vec oeq]. rewrite Nat.eqb_refl. cbn [delta].
    unfold contrib, fld. cbn [nth o_out op_prolong]. unfold rd at 1. cbn [f_rstr]. rewrite env_f.
    match goal with |- (0 + ?a)%R = ?z => replace a with z; [ring|] end.
    unfold Lval. apply sumn_ext; intros el Hel. apply sumn_ext; intros c Hc. apply sumn_ext; intros nn Hn. apply sumn_ext; intros mm Hmm. f_equal. f_equal.
    unfold out_val. cbn [f_mode]. unfold outs_val. cbn [o_ident op_prolong o_pt]. unfold scale_pt. cbn [nth]. rewrite vf_row by auto.
    unfold ins_val. cbn [o_in op_prolong map nth f_size]. rewrite !vf_row by auto. unfold contents. cbn [target f_vec]. rewrite Hs, Hx. unfold in_val. cbn [f_mode]. unfold rd, bd. cbn [f_rstr f_basis].
    rewrite env_c, env_pm. f_equal. unfold interp_at. rewrite (mw_p _ _ _ _ _ W), (mw_nb _ _ _ _ _ W), (mw_q _ _ _ _ _ W). rewrite Nat.div_small, Nat.mod_small by auto. reflexivity.
Qed.
Lemma restrict_run s vm i o x n im : call_ok s vm i o x n -> length s = u_lsize (D rf) -> u_lsize (D rf) <= length x -> u_lsize (D rc) <= n ->
  mem_ok vm -> im_ok chk D' bs Q im vm ->
  exists im' vm' y, single_apply k junk chk D' bs Q im vm (Some i) (Some o) = Ok (im', vm') /\ im_ok chk D' bs Q im' vm' /\ mem_ok vm' /\ (forall v, v <> o -> vm' v = vm v) /\
    vv_data (vm' o) = Some y /\ length y = n /\
    forall q, vf y q = Lval Signed (D rc) (fun el c p => sumn (u_es (D rf)) (fun n => (vf (mat b EvInterp) (n * u_es (D rc) + p)%nat *
      (Eval Signed (D rf) x el c n * Eval Signed (copy_seen bs (D rf)) s el c n))%R)) q.
Proof.
  intros (Hs & Hx & Ho & Nio & Nmo) Ls Lx Ln Hm Hi.
  destruct (@C29_apply R k Jmin junk chk D' bs Q im vm (Some i) (Some o) restrict_wf Hm Hi) as (im' & vm' & E & I' & M' & G).
  - split.
    + intros [|[|j]] Hj Hw; cbn in Hj; try lia; unfold fld; cbn [nth o_in op_restrict].
      * exists i, x. cbn. split; auto. split; auto. rewrite env_f. lia.
      * exists m, s. cbn. split; auto. split; auto. rewrite env_pm. destruct (seen_size bs (D rf)) as (_ & _ & _ & A). lia.
    + intros [|j] Hj; cbn in Hj; try lia. exists o. cbn. split; auto. rewrite env_c. lia.
  - intros f v Hf Hw Ht. unfold outs. cbn. rewrite orb_false_r. cbn in Hf. destruct Hf as [<-|[<-|[]]]; cbn in Ht; injection Ht as <-; apply Nat.eqb_neq; auto.
  - exists im', vm'. pose proof (G o) as Go. unfold outs in Go. cbn [existsb o_out op_restrict target f_vec oeq] in Go. rewrite Nat.eqb_refl in Go. cbn [orb] in Go.
    destruct Go as (_ & y & Ey & Ly & Gy). exists y. split; auto. split; auto. split; auto. split.
    { intros v Hv. specialize (G v). unfold outs in G. cbn [existsb o_out op_restrict target f_vec oeq] in G. now replace (o =? v) with false in G by (symmetry; apply Nat.eqb_neq; auto). }
    split; auto. split; [congruence|]. intros q. rewrite Gy. unfold added. cbn [length o_out op_restrict]. rewrite sumn_S, sumn_0. unfold fld. cbn [nth target f_vec oeq]. rewrite Nat.eqb_refl. cbn [delta].
    unfold contrib, fld. cbn [nth o_out op_restrict]. unfold rd at 1. cbn [f_rstr]. rewrite env_c.
    match goal with |- (0 + ?a)%R = ?z => replace a with z; [ring|] end.
    unfold Lval. apply sumn_ext; intros el Hel. apply sumn_ext; intros c Hc. rewrite (mw_nc _ _ _ _ _ W) in Hc. apply sumn_ext; intros nn Hn. apply sumn_ext; intros mm Hmm. f_equal. f_equal.
    unfold out_val. cbn [f_mode]. unfold bd. cbn [f_basis]. rewrite (mw_fe _ _ _ _ _ W), sumn_S, sumn_0, (mw_q _ _ _ _ _ W), (mw_p _ _ _ _ _ W), (mw_nb _ _ _ _ _ W).
    match goal with |- ?z = (0 + ?a)%R => replace a with z; [ring|] end.
    apply sumn_ext; intros qq Hqq. cbn [Nat.mul Nat.add]. f_equal.
    unfold outs_val. cbn [o_ident op_restrict o_pt]. unfold scale_pt. cbn [nth]. rewrite vf_row by auto.
    unfold ins_val. cbn [o_in op_restrict map nth f_size]. rewrite !vf_row by auto. unfold contents. cbn [target f_vec]. rewrite Hs, Hx. unfold in_val. cbn [f_mode]. unfold rd. cbn [f_rstr].
    now rewrite env_f, env_pm.
Qed.
Lemma transfer_adjoint s x y lf lc : u_lsize (D rf) <= lf -> u_lsize (D rc) <= lc ->
  sumn lf (fun q => (vf y q * Lval Signed (D rf) (fun el c n => (interp_at rc b x el c n * Eval Signed (copy_seen bs (D rf)) s el c n)%R) q)%R) =
  sumn lc (fun q => (vf x q * Lval Signed (D rc) (fun el c p => sumn (u_es (D rf)) (fun n => (vf (mat b EvInterp) (n * u_es (D rc) + p)%nat *
      (Eval Signed (D rf) y el c n * Eval Signed (copy_seen bs (D rf)) s el c n))%R)) q)%R).
Proof.
  intros Lf Lc. destruct (mw_f _ _ _ _ _ W) as (_ & Rf & _). destruct (mw_c _ _ _ _ _ W) as (_ & Rc & _).
  rewrite !Eval_Lval_adjoint by auto. rewrite (mw_ne' _ _ _ _ _ W), (mw_nc _ _ _ _ _ W).
  apply sumn_ext; intros el Hel. apply sumn_ext; intros c Hc. unfold interp_at.
  transitivity (sumn (u_es (D rf)) (fun n => sumn (u_es (D rc)) (fun p => (vf (mat b EvInterp) (n * u_es (D rc) + p)%nat * Eval Signed (D rc) x el c p * Eval Signed (D rf) y el c n * Eval Signed (copy_seen bs (D rf)) s el c n)%R))).
  - apply sumn_ext; intros n Hn. rewrite <- sumn_mul_r, <- sumn_mul_l. apply sumn_ext; intros p Hp. ring.
  - rewrite sumn_swap. apply sumn_ext; intros p Hp. rewrite <- sumn_mul_l. apply sumn_ext; intros n Hn. ring.
Qed.
(** the copy keeps no sign on the ref backend, or when there is none *)
Lemma seen_eval (s : list R) el c n : bs = None \/ (forall o ors, u_kind (D rf) <> UOriented o ors) -> n < u_es (D rf) ->
  Eval Signed (copy_seen bs (D rf)) s el c n = vf s (Z.to_nat (col (D rf) el c n)).
Proof.
  intros H Hn. destruct (mw_f _ _ _ _ _ W) as (_ & _ & U & _). rewrite Eval_sg.
  2:{ now apply uncurled_seen. } 2:{ destruct (seen_size bs (D rf)) as (_ & -> & _). auto. }
  replace (col (copy_seen bs (D rf)) el c n) with (col (D rf) el c n).
  2:{ unfold copy_seen. destruct bs; auto. now rewrite col_unsigned. }
  unfold sg, copy_seen, unsigned. destruct H as [-> | H].
  - destruct (u_kind (D rf)) eqn:E; cbn [u_kind]; rewrite ?E; try ring.
  - destruct bs; destruct (u_kind (D rf)) eqn:E; cbn [u_kind]; rewrite ?E; try ring; exfalso; eapply H; eauto.
Qed.
Lemma reproduce (s x : list R) (px : R) (g : nat -> R) q : bs = None \/ (forall o ors, u_kind (D rf) <> UOriented o ors) ->
  (forall el c n, el < u_ne (D rf) -> c < u_nc (D rf) -> n < u_es (D rf) -> interp_at rc b x el c n = (sg Signed (D rf) el n * g (Z.to_nat (col (D rf) el c n)))%R) ->
  (recip (natR R (refcount (D rf) q) * px) * (natR R (refcount (D rf) q) * px) = 1)%R ->
  vf s q = recip (natR R (refcount (D rf) q) * px)%R ->
  (Lval Signed (D rf) (fun el c n => (interp_at rc b x el c n * Eval Signed (copy_seen bs (D rf)) s el c n)%R) q * px = g q)%R.
Proof.
  intros Hb Hg Hr Hs. destruct (mw_f _ _ _ _ _ W) as (_ & _ & U & _). rewrite Lval_sg by auto.
  transitivity ((natR R (refcount (D rf) q) * (vf s q * g q)) * px)%R.
  - f_equal. rewrite <- count_sum. apply sumn_ext; intros el Hel. apply sumn_ext; intros c Hc. apply sumn_ext; intros n Hn.
    unfold delta. destruct (Z.eqb_spec (Z.of_nat q) (col (D rf) el c n)) as [Eq|Eq]; auto.
    rewrite Hg, seen_eval by auto. rewrite <- Eq, Nat2Z.id.
    transitivity ((sg Signed (D rf) el n * sg Signed (D rf) el n) * (vf s q * g q))%R; [ring|rewrite sg_sq; ring].
  - rewrite Hs. transitivity ((recip (natR R (refcount (D rf) q) * px) * (natR R (refcount (D rf) q) * px)) * g q)%R; [ring|rewrite Hr; ring].
Qed.
End Level.
End Mg.
Arguments call_ok {R}. Arguments interp_at {R}.

(** the first active field of operator [o], inputs before outputs, has restriction [rf] *)
Definition active_on {R : Rng} (o : oper R) (rf : nat) : Prop :=
  exists l f l', o_in o ++ o_out o = l ++ f :: l' /\ f_vec f = VAct /\ f_rstr f = Some rf /\ forall g, In g l -> f_vec g <> VAct.
Lemma active_first {R : Rng} (o : oper R) rf : active_on o rf -> exists f, first_active (o_in o ++ o_out o) = Some f /\ f_rstr f = Some rf.
Proof.
  intros (l & f & l' & -> & Hf & Hr & Hl). exists f. split; auto. induction l as [|g l IH]; cbn [app first_active]; [now rewrite Hf|].
  specialize (Hl g (or_introl eq_refl)) as Hg. destruct (f_vec g); try tauto; apply IH; intros h Hh; apply Hl; now right.
Qed.

(** The level is created; only the new vector is written, and it holds the inverse of the multiplicity: the number of
    (element, component, node) triples mapped to [q], times the given entry. *)
Theorem C38_level : forall (R : Rng) k Jmin recip chk D bs (o : oper R) rf rc pm m bc b p x vm,
  mg_wf R k Jmin chk D bs rf rc pm bc b -> active_on o rf -> vv_data (vm p) = Some x -> u_lsize (D rf) <= length x ->
  exists oc P Q vm' s, mg_level recip chk D o rc bc (Some p) (Some b) pm m vm = Ok (oc, P, Q, vm') /\
    (forall v, v <> m -> vm' v = vm v) /\ vv_data (vm' m) = Some s /\ length s = u_lsize (D rf) /\
    forall q, q < u_lsize (D rf) -> vf s q = recip (natR R (refcount (D rf) q) * vf x q)%R.
Proof.
  intros R k Jmin recip chk D bs o rf rc pm m bc b p x vm W Ha Hx Lx. destruct (active_first o rf Ha) as (f & E1 & E2).
  destruct (mw_f _ _ _ _ _ _ _ _ _ _ _ W) as (A & B & C & F & _). destruct (mg_mult_ok R 0 (fun _ _ => 0%R) recip chk D rf x (vm p) A B C F Hx Lx) as (s & Es & Ls & Gs).
  unfold mg_level. rewrite E1, E2, Es. unfold uncurled in C. do 4 eexists. exists s. split; [destruct (u_kind (D rf)); try tauto; cbn [rbind]; reflexivity|].
  split. { intros v Hv. unfold vset. now replace (v =? m) with false by (symmetry; now apply Nat.eqb_neq). }
  split; auto. unfold vset. now rewrite Nat.eqb_refl.
Qed.
(** C38: the prolongation from [x] and the restriction from [y] succeed, and dot(P x, y) = dot(x, R y), whatever the multiplicity
    vector was (and whatever [recip] is), on both backends, at any later time as long as the scale vector is not changed. *)
Theorem C38_adjoint : forall (R : Rng) k Jmin junk recip chk D bs (o : oper R) rf rc pm m bc b p vm oc P Q vm' s,
  mg_wf R k Jmin chk D bs rf rc pm bc b -> active_on o rf ->
  mg_level recip chk D o rc bc (Some p) (Some b) pm m vm = Ok (oc, P, Q, vm') -> vv_data (vm' m) = Some s ->
  forall imP imQ vm1 vm2 i1 o1 i2 o2 x y,
  call_ok m s vm1 i1 o1 x (length y) -> call_ok m s vm2 i2 o2 y (length x) -> u_lsize (D rc) <= length x -> u_lsize (D rf) <= length y ->
  mem_ok vm1 -> mem_ok vm2 -> im_ok chk (env D bs rf pm) bs P imP vm1 -> im_ok chk (env D bs rf pm) bs Q imQ vm2 ->
  exists imP' vm1' imQ' vm2' px qy,
    single_apply k junk chk (env D bs rf pm) bs P imP vm1 (Some i1) (Some o1) = Ok (imP', vm1') /\ vv_data (vm1' o1) = Some px /\ length px = length y /\
    single_apply k junk chk (env D bs rf pm) bs Q imQ vm2 (Some i2) (Some o2) = Ok (imQ', vm2') /\ vv_data (vm2' o2) = Some qy /\ length qy = length x /\
    im_ok chk (env D bs rf pm) bs P imP' vm1' /\ im_ok chk (env D bs rf pm) bs Q imQ' vm2' /\
    dot (length y) (vf px) (vf y) = dot (length x) (vf x) (vf qy).
Proof.
  intros R k Jmin junk recip chk D bs o rf rc pm m bc b p vm oc P Q vm' s W Ha El Es imP imQ vm1 vm2 i1 o1 i2 o2 x y C1 C2 Lx Ly M1 M2 I1 I2.
  destruct (active_first o rf Ha) as (f & E1 & E2). unfold mg_level in El. rewrite E1, E2 in El.
  destruct (mw_f _ _ _ _ _ _ _ _ _ _ _ W) as (A & B & C & F & _).
  assert (exists t, mg_mult recip chk D rf (vm p) = Ok t /\ P = op_prolong (u_nc (D rf)) (u_ne (D rf)) rf rc pm m b /\ Q = op_restrict (u_nc (D rf)) (u_ne (D rf)) rf rc pm m b /\ vm' = vset vm m t) as (t & Et & -> & -> & ->).
  { destruct (u_kind (D rf)); try discriminate; destruct (mg_mult recip chk D rf (vm p)) as [t| |]; try discriminate; cbn [rbind] in El;
      rewrite (mw_nbc _ _ _ _ _ _ _ _ _ _ _ W) in El; injection El as _ <- <- <-; eauto. }
  assert (Ls : length s = u_lsize (D rf)).
  { unfold vset in Es. rewrite Nat.eqb_refl in Es. unfold mg_mult in Et. destruct (vv_data (vm p)) as [pv|] eqn:Ev; [|discriminate].
    assert (Lp : u_lsize (D rf) <= length pv).
    { destruct F as (r & Er). rewrite Er in Et. cbn [rbind] in Et. unfold rstr_apply at 1 in Et. rewrite (rp_ls (create_repr A Er)) in Et.
      destruct (Nat.leb_spec (u_lsize (D rf)) (length pv)); auto. discriminate. }
    destruct (mg_mult_ok R 0 (fun _ _ => 0%R) recip chk D rf pv (vm p) A B C F Ev Lp) as (s' & Es' & Ls' & _). unfold mg_mult in Es'. rewrite Ev in Es'. rewrite Es' in Et. injection Et as <-. cbn in Es. congruence. }
  destruct (prolong_run R k Jmin junk recip chk D bs rf rc pm m bc b W s vm1 i1 o1 x (length y) imP C1 Ls Lx Ly M1 I1) as (imP' & vm1' & px & Ep & Ip & _ & _ & Dp & Lp & Gp).
  destruct (restrict_run R k Jmin junk recip chk D bs rf rc pm m bc b W s vm2 i2 o2 y (length x) imQ C2 Ls Ly Lx M2 I2) as (imQ' & vm2' & qy & Eq & Iq & _ & _ & Dq & Lq & Gq).
  exists imP', vm1', imQ', vm2', px, qy. repeat (split; [assumption|]).
  unfold dot. transitivity (sumn (length y) (fun q => (vf y q * Lval Signed (D rf) (fun el c n => (interp_at D rc b x el c n * Eval Signed (copy_seen bs (D rf)) s el c n)%R) q)%R)).
  - apply sumn_ext; intros q Hq. rewrite Gp. destruct (r_th R) as [_ _ _ _ Hc _ _ _ _]. apply Hc.
  - rewrite (transfer_adjoint R k Jmin chk D bs rf rc pm bc b W s x y (length y) (length x) Ly Lx). apply sumn_ext; intros q Hq. now rewrite Gq.
Qed.
(** What the prolongation computes: when the interpolated values of [x] agree on the shared fine nodes, up to the orientation
    of the node in the element, with a function [g] of the fine nodes, the result is [g] divided by the given multiplicity. *)
Theorem C38_prolong : forall (R : Rng) k Jmin junk recip chk D bs (o : oper R) rf rc pm m bc b p pv vm oc P Q vm' s,
  mg_wf R k Jmin chk D bs rf rc pm bc b -> active_on o rf -> vv_data (vm p) = Some pv -> u_lsize (D rf) <= length pv ->
  mg_level recip chk D o rc bc (Some p) (Some b) pm m vm = Ok (oc, P, Q, vm') -> vv_data (vm' m) = Some s ->
  bs = None \/ (forall o ors, u_kind (D rf) <> UOriented o ors) ->
  forall im vm1 i1 o1 x g, call_ok m s vm1 i1 o1 x (u_lsize (D rf)) -> u_lsize (D rc) <= length x -> mem_ok vm1 -> im_ok chk (env D bs rf pm) bs P im vm1 ->
  (forall el c n, el < u_ne (D rf) -> c < u_nc (D rf) -> n < u_es (D rf) -> interp_at D rc b x el c n = (sg R Signed (D rf) el n * g (Z.to_nat (col (D rf) el c n)))%R) ->
  exists im' vm1' px, single_apply k junk chk (env D bs rf pm) bs P im vm1 (Some i1) (Some o1) = Ok (im', vm1') /\ vv_data (vm1' o1) = Some px /\
    forall q, q < u_lsize (D rf) -> (recip (natR R (refcount (D rf) q) * vf pv q) * (natR R (refcount (D rf) q) * vf pv q) = 1)%R -> (vf px q * vf pv q = g q)%R.
Proof.
  intros R k Jmin junk recip chk D bs o rf rc pm m bc b p pv vm oc P Q vm' s W Ha Hp Lp El Es Hb im vm1 i1 o1 x g C1 Lx M1 I1 Hg.
  destruct (C38_level R k Jmin recip chk D bs o rf rc pm m bc b p pv vm W Ha Hp Lp) as (oc2 & P2 & Q2 & vm2 & s2 & E2 & _ & Es2 & Ls & Gs).
  rewrite E2 in El. injection El as -> -> -> ->. assert (s2 = s) by congruence. subst s2.
  assert (P = op_prolong (u_nc (D rf)) (u_ne (D rf)) rf rc pm m b) as ->.
  { destruct (active_first o rf Ha) as (f & F1 & F2). unfold mg_level in E2. rewrite F1, F2 in E2.
    destruct (u_kind (D rf)); try discriminate; destruct (mg_mult recip chk D rf (vm p)) as [t| |]; try discriminate; cbn [rbind] in E2;
      rewrite (mw_nbc _ _ _ _ _ _ _ _ _ _ _ W) in E2; injection E2 as _ <- _ _; reflexivity. }
  destruct (prolong_run R k Jmin junk recip chk D bs rf rc pm m bc b W s vm1 i1 o1 x (u_lsize (D rf)) im C1 Ls Lx (Nat.le_refl _) M1 I1) as (im' & vm1' & px & Ep & _ & _ & _ & Dp & _ & Gp).
  exists im', vm1', px. split; auto. split; auto. intros q Hq Hr. rewrite Gp.
  apply (reproduce R k Jmin recip chk D bs rf rc pm bc b W s x (vf pv q) g q Hb Hg Hr). now apply Gs.
Qed.
Print Assumptions C38_level. Print Assumptions C38_adjoint. Print Assumptions C38_prolong.

(** Two elements with three fine and two coarse nodes each, fine nodes oriented, one node shared. *)
Definition mg_D (i : nat) : udesc :=
  match i with 0 => mkU 2 3 1 1%Z 5 (UOriented [0;1;2; 2;3;4]%Z [false;true;true; false;false;true]) | _ => mkU 2 2 1 1%Z 3 (UStandard [0;1; 1;2]%Z) end.
Definition mg_op : oper Zrng := mkOp [mkOF 1 EvWeight None (Some (BT ex_b1)) VNo; mkOF 1 EvNone (Some 0) None VAct] [mkOF 1 EvNone (Some 0) None VAct] 2 3 false 1 (fun l => l).
Definition mg_vm : vmem Zrng := fun v => match v with
  | 0 => mkVV 5 (Some [1;1;1;1;1]%Z) 2%Z | 1 => mkVV 3 (Some [1;-2;3]%Z) 2%Z | 2 => mkVV 5 (Some [2;7;1;8;-5]%Z) 2%Z | 3 => mkVV 5 None 0%Z | 4 => mkVV 3 None 0%Z | _ => mkVV 0 None 0%Z end.
Definition rec7 (x : Z) : Z := if (x =? 1)%Z then 1 else (7 - x)%Z.
Lemma mg_ex_wf : forall bs, bs = None \/ bs = Some 8 -> mg_wf Zrng (@contract_avx Zrng) 2 true mg_D bs 0 1 7 (BT ex_b1) (BT ex_b1).
Proof.
  intros bs Hb. assert (R0 : forall i, in_range (mg_D i)).
  { intros i el c n Hel Hc Hn. destruct i as [|i]; cbn in Hel, Hc, Hn; cases el; cases c; cases n; vm_compute; split; discriminate || reflexivity. }
  constructor.
  - apply avx_ok.
  - destruct Hb as [-> | ->]; cbn; lia.
  - cbn; lia.
  - cbn; lia.
  - split; [split; reflexivity|]. split; [apply R0|]. split; [exact I|]. split; [eexists; vm_compute; reflexivity|]. destruct Hb as [-> | ->]; eexists; vm_compute; reflexivity.
  - split; [reflexivity|]. split; [apply R0|]. split; [exact I|]. destruct Hb as [-> | ->]; eexists; vm_compute; reflexivity.
  - reflexivity.
  - reflexivity.
  - reflexivity.
  - reflexivity.
  - apply ex_b1_wf; lia.
  - reflexivity.
  - reflexivity.
  - reflexivity.
  - eexists; reflexivity.
  - lia.
Qed.
Lemma mg_ex_active : active_on mg_op 0.
Proof. exists [mkOF 1 EvWeight None (Some (BT ex_b1)) VNo]. do 2 eexists. split; [reflexivity|]. split; [reflexivity|]. split; [reflexivity|]. intros g [<-|[]]. discriminate. Qed.
Definition mg_res := mg_level rec7 true mg_D mg_op 1 (BT ex_b1) (Some 0) (Some (BT ex_b1)) 7 5 mg_vm.
Definition mg_get : oper Zrng * oper Zrng * oper Zrng * vmem Zrng := match mg_res with Ok x => x | _ => (mg_op, mg_op, mg_op, mg_vm) end.
Definition mg_P := snd (fst (fst mg_get)).
Definition mg_Q := snd (fst mg_get).
Lemma mg_res_ok : mg_res = Ok (fst (fst (fst mg_get)), mg_P, mg_Q, snd mg_get).
Proof. reflexivity. Qed.
Lemma mg_ex_mem : mem_ok (snd mg_get).
Proof. intros v. do 6 (destruct v as [|v]; [vm_compute; split; [discriminate|]; split; [discriminate || reflexivity|]; intros x E; discriminate E || (injection E as <-; reflexivity)|]). vm_compute. split; [discriminate|]. split; [reflexivity|discriminate]. Qed.
Definition mg_run bs (o : oper Zrng) i v := out_data (single_apply (@contract_avx Zrng) junkZ true (env mg_D bs 0 7) bs o None (snd mg_get) (Some i) (Some v)) v.
(** the hypotheses of the theorems hold; the computed values on both backends *)
Example C38_ex : mg_wf Zrng (@contract_avx Zrng) 2 true mg_D None 0 1 7 (BT ex_b1) (BT ex_b1) /\ mg_wf Zrng (@contract_avx Zrng) 2 true mg_D (Some 8) 0 1 7 (BT ex_b1) (BT ex_b1) /\
  active_on mg_op 0 /\ mg_res = Ok (fst (fst (fst mg_get)), mg_P, mg_Q, snd mg_get) /\ vv_data (snd mg_get 5) = Some [1;1;5;1;1]%Z /\
  call_ok 5 [1;1;5;1;1]%Z (snd mg_get) 1 3 [1;-2;3]%Z 5 /\ call_ok 5 [1;1;5;1;1]%Z (snd mg_get) 2 4 [2;7;1;8;-5]%Z 3 /\ mem_ok (snd mg_get).
Proof.
  split; [apply mg_ex_wf; auto|]. split; [apply mg_ex_wf; auto|]. split; [apply mg_ex_active|]. split; [apply mg_res_ok|]. split; [vm_compute; reflexivity|].
  split; [repeat split; vm_compute; try reflexivity; discriminate|]. split; [repeat split; vm_compute; try reflexivity; discriminate|apply mg_ex_mem].
Qed.
Example C38_ex_run : mg_run None mg_P 1 3 = Some [1; 1; 0; 1; -3]%Z /\ mg_run None mg_Q 2 4 = Some [-5; 1; 13]%Z /\
  mg_run (Some 8) mg_P 1 3 = Some [1; -1; -20; 1; 3]%Z /\ mg_run (Some 8) mg_Q 2 4 = Some [9; 25; 3]%Z.
Proof. repeat split; vm_compute; reflexivity. Qed.

(** Finding: the blocked backend puts the signs of an oriented fine restriction back into the scaling, so its prolongation is not
    the one of C38_prolong (on the ref backend it is).  All other hypotheses of C38_prolong hold. *)
Definition sgn_D (i : nat) : udesc := match i with 0 => mkU 2 3 1 1%Z 6 (UOriented [0;1;2; 3;4;5]%Z [false;true;true; false;false;true]) | _ => mkU 2 2 1 1%Z 3 (UStandard [0;1; 1;2]%Z) end.
Definition sgn_vm : vmem Zrng := fun v => match v with
  | 0 => mkVV 6 (Some [1;1;1;1;1;1]%Z) 2%Z | 1 => mkVV 3 (Some [1;-2;3]%Z) 2%Z | 3 => mkVV 6 None 0%Z | _ => mkVV 0 None 0%Z end.
Definition sgn_g (q : nat) : Z := nth q [1; 1; 2; -2; 1; -3]%Z 0%Z.
Definition sgn_res := mg_level (fun x : Zrng => x) true sgn_D mg_op 1 (BT ex_b1) (Some 0) (Some (BT ex_b1)) 7 5 sgn_vm.
Definition sgn_get : oper Zrng * oper Zrng * oper Zrng * vmem Zrng := match sgn_res with Ok x => x | _ => (mg_op, mg_op, mg_op, mg_vm) end.
Lemma sgn_wf : forall bs, bs = None \/ bs = Some 8 -> mg_wf Zrng (@contract_avx Zrng) 2 true sgn_D bs 0 1 7 (BT ex_b1) (BT ex_b1).
Proof.
  intros bs Hb. assert (R0 : forall i, in_range (sgn_D i)).
  { intros i el c n Hel Hc Hn. destruct i as [|i]; cbn in Hel, Hc, Hn; cases el; cases c; cases n; vm_compute; split; discriminate || reflexivity. }
  constructor.
  - apply avx_ok.
  - destruct Hb as [-> | ->]; cbn; lia.
  - cbn; lia.
  - cbn; lia.
  - split; [split; reflexivity|]. split; [apply R0|]. split; [exact I|]. split; [eexists; vm_compute; reflexivity|]. destruct Hb as [-> | ->]; eexists; vm_compute; reflexivity.
  - split; [reflexivity|]. split; [apply R0|]. split; [exact I|]. destruct Hb as [-> | ->]; eexists; vm_compute; reflexivity.
  - reflexivity.
  - reflexivity.
  - reflexivity.
  - reflexivity.
  - apply ex_b1_wf; lia.
  - reflexivity.
  - reflexivity.
  - reflexivity.
  - eexists; reflexivity.
  - lia.
Qed.
Lemma sgn_ok : sgn_res = Ok (fst (fst (fst sgn_get)), snd (fst (fst sgn_get)), snd (fst sgn_get), snd sgn_get).
Proof. reflexivity. Qed.
Lemma sgn_mem : mem_ok (snd sgn_get).
Proof. intros v. do 6 (destruct v as [|v]; [vm_compute; split; [discriminate|]; split; [discriminate || reflexivity|]; intros x E; discriminate E || (injection E as <-; reflexivity)|]). vm_compute. split; [discriminate|]. split; [reflexivity|discriminate]. Qed.
Lemma sgn_interp : forall el c n, el < u_ne (sgn_D 0) -> c < u_nc (sgn_D 0) -> n < u_es (sgn_D 0) ->
  interp_at sgn_D 1 (BT ex_b1) [1;-2;3]%Z el c n = (sg Zrng Signed (sgn_D 0) el n * sgn_g (Z.to_nat (col (sgn_D 0) el c n)))%R.
Proof. intros el c n Hel Hc Hn. cbn in Hel, Hc, Hn. cases el; cases c; cases n; vm_compute; reflexivity. Qed.
Definition sgn_run bs := single_apply (@contract_avx Zrng) junkZ true (env sgn_D bs 0 7) bs (snd (fst (fst sgn_get))) None (snd sgn_get) (Some 1) (Some 3).
Theorem C38_blocked_sign_refuted : exists D (o : oper Zrng) rf rc pm m (b : basis Zrng) p pv vm oc P Q vm' s x g im' vm1' px q,
  let bs := Some 8 in
  mg_wf Zrng (@contract_avx Zrng) 2 true D bs rf rc pm b b /\ active_on o rf /\ vv_data (vm p) = Some pv /\ u_lsize (D rf) <= length pv /\
  mg_level (fun x : Zrng => x) true D o rc b (Some p) (Some b) pm m vm = Ok (oc, P, Q, vm') /\ vv_data (vm' m) = Some s /\
  call_ok m s vm' 1 3 x (u_lsize (D rf)) /\ u_lsize (D rc) <= length x /\ mem_ok vm' /\
  (forall el c n, el < u_ne (D rf) -> c < u_nc (D rf) -> n < u_es (D rf) -> interp_at D rc b x el c n = (sg Zrng Signed (D rf) el n * g (Z.to_nat (col (D rf) el c n)))%R) /\
  single_apply (@contract_avx Zrng) junkZ true (env D bs rf pm) bs P None vm' (Some 1) (Some 3) = Ok (im', vm1') /\ vv_data (vm1' 3) = Some px /\
  q < u_lsize (D rf) /\ (natR Zrng (refcount (D rf) q) * vf pv q = 1)%R /\ (vf px q * vf pv q <> g q)%R.
Proof.
  exists sgn_D, mg_op, 0, 1, 7, 5, (BT ex_b1), 0, [1;1;1;1;1;1]%Z, sgn_vm. do 4 eexists. exists [1;1;1;1;1;1]%Z, [1;-2;3]%Z, sgn_g, (fst (okv (sgn_run (Some 8)))), (snd (okv (sgn_run (Some 8)))), [1; -1; -2; -2; 1; 3]%Z, 1.
  cbv zeta. split; [apply sgn_wf; auto|]. split; [apply mg_ex_active|]. split; [reflexivity|]. split; [cbn; lia|]. split; [exact sgn_ok|]. split; [vm_compute; reflexivity|].
  split; [repeat split; vm_compute; try reflexivity; discriminate|]. split; [cbn; lia|]. split; [exact sgn_mem|]. split; [exact sgn_interp|].
  split; [apply okv_ok; vm_compute; reflexivity|]. split; [vm_compute; reflexivity|]. split; [cbn; lia|]. split; [vm_compute; reflexivity|vm_compute; discriminate].
Qed.
Example C38_ex_ref : out_data (sgn_run None) 3 = Some [1; 1; 2; -2; 1; -3]%Z.
Proof. vm_compute. reflexivity. Qed.
Print Assumptions C38_blocked_sign_refuted.
