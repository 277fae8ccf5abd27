(** * Property C33: the assembled QFunction *)
From Coq Require Import List ZArith Lia Bool Arith.
From Verif Require Import Prelude RstrModel RstrSpec RstrProofs RstrProps TensorModel TensorMain BasisModel BasisProofs BasisProps OpModel OpSpec OpLists OpProofs OpMain OpTree OpProps AsmModel AsmSpec AsmProofs.
Import ListNotations.

Section Lin.
Variable R : Rng.
Add Ring Rr : (r_th R).
Local Open Scope nat_scope.
Variable o : oper R.
Notation N := (length (comps (o_in o))).
Notation cp a := (nth a (comps (o_in o)) (0, 0)).

Lemma fill_ext : forall pas pas' a a', (forall i c, i < length (o_in o) -> c < f_size (fld (o_in o) i) ->
    if is_active (fld (o_in o) i) then a i c = a' i c else pas i c = pas' i c) -> fill o pas a = fill o pas' a'.
Proof.
  intros pas pas' a a' H. unfold fill. apply map_ext_in. intros i Hi. apply in_seq in Hi. apply map_ext_in. intros c Hc. apply in_seq in Hc.
  specialize (H i c ltac:(lia) ltac:(lia)). destruct (is_active _); auto.
Qed.
Lemma comps_of : forall i c, i < length (o_in o) -> is_active (fld (o_in o) i) = true -> c < f_size (fld (o_in o) i) ->
  pre (o_in o) i + c < N /\ forall a, a < N -> (fst (cp a) =? i) && (snd (cp a) =? c) = (a =? pre (o_in o) i + c).
Proof.
  intros i c Hi Ha Hc.
  assert (Hb : forall i c, i < length (o_in o) -> is_active (fld (o_in o) i) = true -> c < f_size (fld (o_in o) i) -> pre (o_in o) i + c < N).
  { clear. intros i c Hi Ha Hc. pose proof (pre_S (o_in o) i) as H. rewrite Ha in H. pose proof (@pre_mono R (o_in o) (i + 1) (length (o_in o)) ltac:(lia)).
    unfold comps, pre in *. lia. }
  split; auto. intros a Hx. destruct (@comps_inv R (o_in o) (length (o_in o)) a Hx) as (i' & c' & A1 & A2 & A3 & A4).
  unfold comps. rewrite A4, (@comps_nth R (o_in o)) by auto. cbn [fst snd].
  apply eq_true_iff_eq. rewrite andb_true_iff, !Nat.eqb_eq. split.
  - intros (-> & ->). reflexivity.
  - intros E. destruct (Nat.lt_trichotomy i' i) as [L|[L|L]].
    + exfalso. pose proof (pre_S (o_in o) i') as H. rewrite A2 in H. pose proof (@pre_mono R (o_in o) (i' + 1) i ltac:(lia)). lia.
    + subst i'. split; auto. lia.
    + exfalso. pose proof (pre_S (o_in o) i) as H. rewrite Ha in H. pose proof (@pre_mono R (o_in o) (i + 1) i' ltac:(lia)). lia.
Qed.

(** a linear QFunction is the combination of its values at unit inputs *)
Lemma linear_sum : forall pas act j c, linear o -> j < length (o_out o) -> is_active (fld (o_out o) j) = true -> c < f_size (fld (o_out o) j) ->
  qf_at o (fill o pas act) j c = sumn N (fun a => (qf_at o (fill o pas (AsmSpec.unit R (cp a))) j c * act (fst (cp a)) (snd (cp a)))%R).
Proof.
  intros pas act j c Hlin Hj Ha Hc.
  set (part := fun n i c => sumn n (fun a => (AsmSpec.unit R (cp a) i c * act (fst (cp a)) (snd (cp a)))%R)).
  assert (Hp : forall n, qf_at o (fill o pas (part n)) j c = sumn n (fun a => (qf_at o (fill o pas (AsmSpec.unit R (cp a))) j c * act (fst (cp a)) (snd (cp a)))%R)).
  { induction n as [|n IH].
    - rewrite sumn_0. pose proof (Hlin pas (part 0) (part 0) (- (1))%R j c Hj Ha Hc) as H.
      rewrite (fill_ext pas pas _ (part 0)) in H.
      + rewrite H. ring.
      + intros i c0 _ _. destruct (is_active (fld (o_in o) i)); auto. unfold part. rewrite sumn_0. ring.
    - rewrite sumn_S, <- IH. rewrite (fill_ext pas pas _ (fun i c => (part n i c + act (fst (cp n)) (snd (cp n)) * AsmSpec.unit R (cp n) i c)%R)).
      + rewrite Hlin by auto. ring.
      + intros i c0 _ _. destruct (is_active (fld (o_in o) i)); auto. unfold part. rewrite sumn_S. ring. }
  rewrite <- Hp. f_equal. apply fill_ext. intros i c0 Hi Hc0. destruct (is_active (fld (o_in o) i)) eqn:Ea; auto.
  destruct (comps_of i c0 Hi Ea Hc0) as (Hlt & Heq). unfold part.
  rewrite sumn_ext with (g := fun a => delta (a =? pre (o_in o) i + c0) (act i c0)).
  - rewrite sumn_delta. apply Nat.ltb_lt in Hlt. rewrite Hlt. reflexivity.
  - intros a Hx. unfold AsmSpec.unit. rewrite (Nat.eqb_sym i), (Nat.eqb_sym c0), Heq by auto.
    destruct (Nat.eqb_spec a (pre (o_in o) i + c0)) as [E|E]; cbn [delta]; [|ring].
    specialize (Heq a Hx). rewrite E, Nat.eqb_refl in Heq. apply andb_true_iff in Heq. rewrite !Nat.eqb_eq in Heq. rewrite <- E in Heq.
    destruct Heq as (-> & ->). ring.
Qed.
End Lin.

Lemma map_fld : forall (R : Rng) B (g : ofield R -> B) fs, map g fs = map (fun i => g (fld fs i)) (seq 0 (length fs)).
Proof.
  intros R B g fs. apply (nth_ext _ _ (g (mkOF 0 EvNone None None VNo)) (g (mkOF 0 EvNone None None VNo))).
  { rewrite !map_length, seq_length. reflexivity. }
  intros i Hi. rewrite map_length in Hi. rewrite (map_nth g). rewrite nth_map_seq by auto. reflexivity.
Qed.

(** ** C33 *)
(** [active_val]: value of the active component [ic] when the active input is vector [inv]. *)
Definition active_val {R : Rng} (D : nat -> udesc) (o : oper R) (vm : vmem R) (inv : option nat) (e q : nat) (ic : nat * nat) : R :=
  in_val D (fld (o_in o) (fst ic)) (contents vm (fld (o_in o) (fst ic)) inv) e (snd ic) q.
(** If an array has the documented values and layout, its matrix at every point, applied to the values of any active input
    vector, gives the values the QFunction has in an application ([outs_val], OpSpec.v, the values C28 integrates). *)
Theorem C33_represents : forall (R : Rng) D (o : oper R) vm inv A, is_assembled D o vm A -> linear o ->
  forall e q b j c, e < o_ne o -> q < o_Q o -> b < length (comps (o_out o)) -> nth b (comps (o_out o)) (0, 0) = (j, c) ->
  let ni := length (comps (o_in o)) in let no := length (comps (o_out o)) in
  sumn ni (fun a => (vf A (((e * ni + a) * no + b) * o_Q o + q)%nat * active_val D o vm inv e q (nth a (comps (o_in o)) (0, 0)%nat))%R) =
  vf (nth j (outs_val D o vm inv e q) []) c.
Proof.
  intros R D o vm inv A (Hl & HA) Hlin e q b j c He Hq Hb Ebc ni no.
  destruct (@comps_inv R (o_out o) (length (o_out o)) b Hb) as (j' & c' & B1 & B2 & B3 & B4).
  assert (Ejc : (j', c') = (j, c)). { rewrite <- Ebc. unfold comps. rewrite B4. symmetry. apply comps_nth; auto. }
  inversion Ejc; subst j' c'. clear Ejc.
  rewrite sumn_ext with (g := fun a => (qf_at o (fill o (pas_val D o vm e q) (AsmSpec.unit R (nth a (comps (o_in o)) (0, 0)%nat))) j c *
    active_val D o vm inv e q (nth a (comps (o_in o)) (0, 0)%nat))%R).
  - pose proof (linear_sum R o (pas_val D o vm e q) (fun i c => active_val D o vm inv e q (i, c)) j c Hlin B1 B2 B3) as H.
    cbv beta in H. unfold ni. etransitivity; [|etransitivity; [symmetry; exact H|]].
    + apply sumn_ext. intros a Ha. destruct (nth a (comps (o_in o)) (0, 0)). reflexivity.
    + assert (Ei : fill o (pas_val D o vm e q) (fun i c => active_val D o vm inv e q (i, c)) = ins_val D o vm inv e q).
      { unfold fill, ins_val. rewrite (map_fld R _ _ (o_in o)). apply map_ext_in. intros i Hi. apply map_ext. intros c0. unfold active_val, pas_val. cbn [fst snd].
        destruct (is_active (fld (o_in o) i)) eqn:Ea; auto. unfold contents, target, is_active in *. destruct (f_vec (fld (o_in o) i)); auto. discriminate. }
      rewrite Ei. unfold qf_at, outs_val. destruct (o_ident o); reflexivity.
  - intros a Ha. f_equal. unfold ni, no. rewrite HA by auto. unfold entry. rewrite Ebc. reflexivity.
Qed.
Print Assumptions C33_represents.

Section History.
Variable R : Rng.
Variable k : kernel R.
Variable Jmin : nat.
Variable junk : nat -> nat -> R.
Variable chk : bool.
Variable D : nat -> udesc.
Variable bs : option nat.
Variable o : oper R.
Local Open Scope nat_scope.
(** the passive inputs have valid arrays *)
Definition passive_ok (vm : vmem R) : Prop := forall i, i < length (o_in o) -> f_mode (fld (o_in o) i) <> EvWeight -> is_active (fld (o_in o) i) = false -> has D vm (fld (o_in o) i) None.
(** the operator can be assembled: active inputs and outputs, not just two restrictions; weights go with CEED_VECTOR_NONE *)
Definition asm_base : Prop := op_wf D k Jmin chk bs o /\ weights_passive o /\ 0 < length (comps (o_in o)) /\ 0 < length (comps (o_out o)) /\ ident_rstr o = false.
(** ... and no two active inputs without basis read the same restriction *)
Definition asm_wf : Prop := op_wf D k Jmin chk bs o /\ weights_passive o /\ 0 < length (comps (o_in o)) /\ 0 < length (comps (o_out o)) /\ ident_rstr o = false /\ unshared o.

(** Histories of vector changes, applications and assemblies of one operator.  First flag: it was assembled before.  Second
    flag: it was not applied after it was first assembled, or it was assembled again after the last application. *)
Inductive reached : bool -> bool -> aimpl R -> vmem R -> Prop :=
| r_new : forall vm, mem_ok vm -> reached false true (new_aimpl R) vm
| r_set : forall a c st vm v x, reached a c st vm -> length x = vv_len (vm v) -> reached a c st (vec_event R (ESet v x) vm)
| r_take : forall a c st vm v, reached a c st vm -> reached a c st (vec_event R (ETake v) vm)
| r_apply : forall a c st vm inv outv st' vm', reached a c st vm -> vec_len D o vm inv outv -> apart o inv outv ->
    asm_apply k junk chk D bs o st vm inv outv = Ok (st', vm') -> reached a (negb a) st' vm'
| r_asm : forall a c st vm jl st' A, reached a c st vm -> passive_ok vm -> (a_bor st = true -> unshared o) ->
    assemble k junk chk D bs jl o st vm = Ok (st', A) -> reached true true st' vm.

Definition st_ok (a c : bool) (st : aimpl R) (vm : vmem R) : Prop :=
  mem_ok vm /\ im_ok chk D bs o (a_im st) vm /\
  (if a then a_in st = length (comps (o_in o)) /\ a_out st = length (comps (o_out o)) else a_in st = 0 /\ a_out st = 0) /\
  (a = true -> match a_im st with Some (_, d) => c = true -> all_zero bs o (d_qin d) | None => False end).

Lemma setup_any : forall st vm, op_wf D k Jmin chk bs o -> mem_ok vm -> im_ok chk D bs o (a_im st) vm ->
  exists s d, match a_im st with Some sd => Ok sd | None => op_setup k junk chk D bs o end = Ok (s, d) /\ stat_ok chk D bs o s /\ dyn_ok D bs o d /\ cache_ok D bs o d vm /\
    match a_im st with Some (_, d') => d' = d | None => True end.
Proof.
  intros st vm Hwf Hm Hi. destruct (a_im st) as [(s, d)|].
  - destruct Hi as (H1 & H2 & H3). exists s, d. auto 6.
  - destruct (op_setup_ok junk Hwf) as (s & d & E & H1 & H2 & H3). exists s, d. split; auto. split; auto. split; auto. split; auto.
    intros i v Hin Hmo Hf Hve. rewrite H3 by auto. destruct (Hm v) as (M1 & M2 & _). split; auto.
    intros E0 u Hu. rewrite M2 in Hu by auto. discriminate.
Qed.
Lemma assemble_ok : forall jl a c st vm, asm_base -> st_ok a c st vm -> passive_ok vm -> (a_bor st = true -> unshared o) ->
  exists st' A, assemble k junk chk D bs jl o st vm = Ok (st', A) /\ st_ok true true st' vm /\ (c = true -> is_assembled D o vm A).
Proof.
  intros jl a c st vm (Hwf & Hw & Hni & Hno & Hid) (Hm & Hi & Hn & Hz) Hp Hu. unfold assemble.
  destruct (setup_any st vm Hwf Hm Hi) as (s & d & E & Hs & Hd & Hc & Ed). rewrite E. cbn [rbind fst snd].
  destruct (@asm_core_ok R k Jmin junk chk D bs o Hwf Hw vm Hp Hni Hno Hid (a_bor st) Hu jl s d (a_in st) (a_out st) c Hs Hd Hc) as (d' & A & EA & K1 & K2 & K3 & K4).
  - destruct a; destruct Hn; auto.
  - destruct a; destruct Hn; auto.
  - intros Ec Hne. destruct a; [|destruct Hn; lia]. specialize (Hz eq_refl). destruct (a_im st) as [(s', d0)|].
    + subst d0. auto.
    + contradiction.
  - rewrite EA. cbn [rbind fst snd]. eexists. exists A. split; [reflexivity|]. split; auto. split; auto. split; [split; auto|]. split; auto. cbn [a_in a_out]. auto.
  cbn [a_im]. auto.
Qed.
Lemma apply_ok : forall a c st vm inv outv, op_wf D k Jmin chk bs o -> st_ok a c st vm -> vec_len D o vm inv outv -> apart o inv outv ->
  exists st' vm', asm_apply k junk chk D bs o st vm inv outv = Ok (st', vm') /\ st_ok a (negb a) st' vm' /\
    forall v, if outs o outv v
      then vv_len (vm' v) = vv_len (vm v) /\ exists x', vv_data (vm' v) = Some x' /\ length x' = vv_len (vm v) /\ forall q, vf x' q = added D o vm inv outv v q
      else vm' v = vm v.
Proof.
  intros a c st vm inv outv Hwf (Hm & Hi & Hn & Hz) Hv Ha. unfold asm_apply.
  destruct (C29_apply R k Jmin junk chk D bs o (a_im st) vm inv outv Hwf Hm Hi Hv Ha) as (im' & vm' & E & P1 & P2 & P3).
  rewrite E. cbn [rbind fst snd]. do 2 eexists. split; [reflexivity|]. split; auto.
  split; auto. split; auto. split; auto. intros ->. cbn [a_im]. destruct im' as [(s', d')|].
  - discriminate.
  - unfold single_apply, single_apply_add in E. pose proof (ow_ne Hwf) as Hne. apply Nat.ltb_lt in Hne. rewrite Hne in E.
    destruct (match a_im st with Some sd => Ok sd | None => op_setup k junk chk D bs o end) as [sd|e|]; cbn [rbind] in E; try discriminate.
    match type of E with rbind ?m _ = _ => destruct m; cbn [rbind] in E; discriminate end.
Qed.
Lemma reached_ok : forall a c st vm, asm_base -> reached a c st vm -> st_ok a c st vm.
Proof.
  intros a c st vm Hwf H. induction H as [vm Hm|a c st vm v x H IH Hx|a c st vm v H IH|a c st vm inv outv st' vm' H IH Hv Ha E|a c st vm jl st' A H IH Hp Hu E].
  - split; auto. split; [exact I|]. split; [split; reflexivity|]. discriminate.
  - destruct IH as (Hm & Hi & Hn & Hz). cbn [vec_event]. split; [|split; [|auto]].
    + intros w. unfold vset. destruct (Nat.eqb_spec w v) as [->|]; [|apply Hm]. destruct (Hm v) as (M1 & M2 & M3). cbn [vv_state vv_data vv_len].
      split; [lia|]. split; [lia|]. intros y Ey. inversion Ey; subst; auto.
    + apply im_fresh with (vm := vm); auto. intros w. unfold vset. destruct (Nat.eqb_spec w v) as [->|]; auto. right. cbn [vv_state]. lia.
  - destruct IH as (Hm & Hi & Hn & Hz). cbn [vec_event]. split; [|split; [|auto]].
    + intros w. unfold vset. destruct (Nat.eqb_spec w v) as [->|]; [|apply Hm]. destruct (Hm v) as (M1 & M2 & M3). cbn [vv_state vv_data vv_len].
      split; auto. split; auto. discriminate.
    + unfold im_ok in *. destruct (a_im st) as [(s, d)|]; auto. destruct Hi as (H1 & H2 & H3). split; auto. split; auto.
      intros i w Hin Hmo Hf Hve. destruct (H3 i w Hin Hmo Hf Hve) as (K1 & K2). unfold vset. destruct (Nat.eqb_spec w v) as [->|]; auto.
      cbn [vv_state vv_data]. split; auto. discriminate.
  - destruct Hwf as (Hwf & _). destruct (apply_ok a c st vm inv outv Hwf IH Hv Ha) as (st2 & vm2 & E2 & K & _). rewrite E in E2. inversion E2; subst. auto.
  - destruct (assemble_ok jl a c st vm Hwf IH Hp Hu) as (st2 & A2 & E2 & K & _). rewrite E in E2. inversion E2; subst. auto.
Qed.
End History.

Lemma wf_base : forall (R : Rng) k Jmin chk D bs (o : oper R), asm_wf R k Jmin chk D bs o -> asm_base R k Jmin chk D bs o.
Proof. intros R k Jmin chk D bs o (A & B & C & E & F & _). repeat (split; [assumption|]). assumption. Qed.

Lemma asm_unshared : forall (R : Rng) k Jmin chk D bs (o : oper R), asm_wf R k Jmin chk D bs o -> unshared o.
Proof. intros R k Jmin chk D bs o (A & B & C & E & F & G). exact G. Qed.

(** After any history in which the operator was not applied since it was first assembled, or was assembled again since, assembly
    succeeds and returns the matrix of the QFunction at every point, in the documented layout; both backends, any block size.
    If the operator was applied before at all, no two active inputs without basis may read the same restriction. *)
Theorem C33_assemble : forall (R : Rng) k Jmin junk chk D bs (o : oper R) jl a st vm,
  asm_base R k Jmin chk D bs o -> reached R k junk chk D bs o a true st vm -> passive_ok R D o vm -> (a_bor st = true -> unshared o) ->
  exists st' A, assemble k junk chk D bs jl o st vm = Ok (st', A) /\ reached R k junk chk D bs o true true st' vm /\ is_assembled D o vm A.
Proof.
  intros R k Jmin junk chk D bs o jl a st vm Hwf Hr Hp Hu. pose proof (reached_ok _ _ _ _ _ _ _ _ _ _ _ _ Hwf Hr) as Hst.
  destruct (assemble_ok _ _ _ junk _ _ _ _ jl a true st vm Hwf Hst Hp Hu) as (st' & A & E & _ & H). exists st', A. split; auto. split; auto.
  eapply r_asm; eauto.
Qed.
Print Assumptions C33_assemble.
(** Assembling never disturbs later applications: after every history Apply computes the specification (C29). *)
Theorem C33_apply : forall (R : Rng) k Jmin junk chk D bs (o : oper R) a c st vm inv outv,
  asm_base R k Jmin chk D bs o -> reached R k junk chk D bs o a c st vm -> vec_len D o vm inv outv -> apart o inv outv ->
  exists st' vm', asm_apply k junk chk D bs o st vm inv outv = Ok (st', vm') /\ reached R k junk chk D bs o a (negb a) st' vm' /\
    forall v, if outs o outv v
      then vv_len (vm' v) = vv_len (vm v) /\ exists x', vv_data (vm' v) = Some x' /\ length x' = vv_len (vm v) /\ forall q, vf x' q = added D o vm inv outv v q
      else vm' v = vm v.
Proof.
  intros R k Jmin junk chk D bs o a c st vm inv outv Hwf Hr Hv Ha. pose proof (reached_ok _ _ _ _ _ _ _ _ _ _ _ _ Hwf Hr) as Hst.
  destruct Hwf as (Hwf & _). destruct (apply_ok _ _ _ junk _ _ _ _ a c st vm inv outv Hwf Hst Hv Ha) as (st' & vm' & E & _ & H). exists st', vm'. split; auto. split; auto.
  eapply r_apply; eauto.
Qed.
Print Assumptions C33_apply.

(** Without active inputs and outputs, and for an operator that is just two restrictions, assembly fails with an error. *)
Theorem C33_errors : forall (R : Rng) k Jmin junk chk D bs (o : oper R) jl vm,
  op_wf D k Jmin chk bs o -> mem_ok vm -> passive_ok R D o vm ->
  ident_rstr o = true \/ comps (o_in o) = [] \/ comps (o_out o) = [] ->
  assemble k junk chk D bs jl o (new_aimpl R) vm = Err ERR_BACKEND.
Proof.
  intros R k Jmin junk chk D bs o jl vm Hwf Hm Hp H. unfold assemble. cbn [new_aimpl a_im a_in a_out].
  destruct (setup_any _ _ _ junk _ _ _ _ (new_aimpl R) vm Hwf Hm I) as (s & d & E & Hs & Hd & Hc & _). cbn [new_aimpl a_im] in E. rewrite E. cbn [rbind fst snd].
  unfold asm_core. destruct (ident_rstr o) eqn:Eid; [reflexivity|].
  destruct (@setup_inputs_ok R k Jmin chk D bs o Hwf vm None s Hs true) with (d := d) as (d1 & Es & _); auto.
  rewrite Es. cbn [rbind Nat.eqb]. rewrite !act_size_comps.
  destruct H as [H|[H|H]]; [discriminate| |]; rewrite H; cbn [length Nat.eqb]; [reflexivity|].
  destruct (length (comps (o_in o)) =? 0); reflexivity.
Qed.
Print Assumptions C33_errors.

Example C33_ex : forall bs, bs = None \/ bs = Some 8 -> asm_wf Zrng (@contract_avx Zrng) 2 true ex_D bs ex_op /\ passive_ok Zrng ex_D ex_op ex_vm /\ linear ex_op /\
  reached Zrng (@contract_avx Zrng) junkZ true ex_D bs ex_op false true (new_aimpl Zrng) ex_vm /\
  comps (o_in ex_op) = [(1, 0); (2, 0)] /\ comps (o_out ex_op) = [(0, 0); (1, 0)].
Proof.
  intros bs Hb. split; [|split; [|split; [|split; [|split; reflexivity]]]].
  - split; [apply ex_op_wf; auto|]. split; [|split; [|split; [|split; [reflexivity|]]]]; try (simpl; lia).
    + intros i Hi Hm. simpl in Hi. destruct i as [|[|[|[|i]]]]; try lia; try discriminate; reflexivity.
    + intros i j Hi Hj Ai Aj Mi Mj. simpl in Hi, Hj. destruct i as [|[|[|[|i]]]]; try lia; try discriminate Ai; try discriminate Mi; destruct j as [|[|[|[|j]]]]; try lia; try discriminate Aj; try discriminate Mj; auto.
  - intros i Hi Hm Ha. simpl in Hi. destruct i as [|[|[|[|i]]]]; try lia; try discriminate; [exfalso; apply Hm; reflexivity|ex_has 0].
  - intros pas a1 a2 t j c Hj Ha Hc. simpl in Hj. destruct j as [|[|j]]; try lia; simpl in Hc; (destruct c; [|lia]); unfold qf_at, ex_op, ex_pt, fill, gz, vf; simpl; ring.
  - apply r_new. apply ex_mem_ok.
Qed.
Definition asm_data (r : res (aimpl Zrng * list Zrng)) : option (list Z) := match r with Ok (_, A) => Some A | _ => None end.
Example C33_ex_run : asm_data (assemble (@contract_avx Zrng) junkZ true ex_D None (fun _ => 77%Z) ex_op (new_aimpl Zrng) ex_vm) =
    asm_data (assemble (@contract_avx Zrng) junkZ true ex_D (Some 8) (fun _ => 77%Z) ex_op (new_aimpl Zrng) ex_vm) /\
  asm_data (assemble (@contract_avx Zrng) junkZ true ex_D None (fun _ => 77%Z) ex_op (new_aimpl Zrng) ex_vm) =
    Some [1;4;9; 1;1;1; 0;0;0; 1;2;3;  4;10;18; 1;1;1; 0;0;0; 4;5;6;  7;16;27; 1;1;1; 0;0;0; 7;8;9]%Z.
Proof. split; vm_compute; reflexivity. Qed.

(** Finding: the active q_vecs are set to zero when the sizes are counted, at the first assembly only; an application in between
    leaves its values there, and the next assembly starts from them.  Here the operator is assembled, applied and assembled. *)
Definition okA {A B} (d : A) (e : B) (r : res (A * B)) : A * B := match r with Ok x => x | _ => (d, e) end.
Definition is_ok {A} (r : res A) : bool := match r with Ok _ => true | _ => false end.
Lemma okA_ok : forall A B (d : A) (e : B) r, is_ok r = true -> r = Ok (fst (okA d e r), snd (okA d e r)).
Proof. intros A B d e [(a, b)|x|] H; try discriminate. reflexivity. Qed.
Notation ref_asm st vm := (assemble (@contract_avx Zrng) junkZ true ex_D None (fun _ => 0%Z) ex_op st vm).
Definition ex_asm1 : aimpl Zrng * list Zrng := okA (new_aimpl Zrng) [] (ref_asm (new_aimpl Zrng) ex_vm).
Definition ex_app2 : aimpl Zrng * vmem Zrng := okA (new_aimpl Zrng) ex_vm (asm_apply (@contract_avx Zrng) junkZ true ex_D None ex_op (fst ex_asm1) ex_vm (Some 1) (Some 2)).
Theorem C33_stale_refuted : exists (st : aimpl Zrng) vm st' A,
  asm_wf Zrng (@contract_avx Zrng) 2 true ex_D None ex_op /\ linear ex_op /\ passive_ok Zrng ex_D ex_op vm /\
  reached Zrng (@contract_avx Zrng) junkZ true ex_D None ex_op true false st vm /\
  ref_asm st vm = Ok (st', A) /\ ~ is_assembled ex_D ex_op vm A.
Proof.
  exists (fst ex_app2), (snd ex_app2). pose (r := okA (new_aimpl Zrng) [] (ref_asm (fst ex_app2) (snd ex_app2))). exists (fst r), (snd r).
  destruct (C33_ex None (or_introl eq_refl)) as (H1 & H2 & H3 & H4 & _).
  assert (R1 : reached Zrng (@contract_avx Zrng) junkZ true ex_D None ex_op true true (fst ex_asm1) ex_vm).
  { eapply r_asm with (A := snd ex_asm1); [exact H4|exact H2|discriminate|]. unfold ex_asm1. apply okA_ok. vm_compute. reflexivity. }
  assert (R2 : reached Zrng (@contract_avx Zrng) junkZ true ex_D None ex_op true false (fst ex_app2) (snd ex_app2)).
  { change false with (negb true). eapply r_apply with (inv := Some 1) (outv := Some 2); [exact R1|apply C29_ex_apply|apply C29_ex_apply|].
    unfold ex_app2. apply okA_ok. vm_compute. reflexivity. }
  split; auto. split; auto. split.
  { intros i Hi Hm Ha. simpl in Hi. destruct i as [|[|[|[|i]]]]; try lia; try discriminate; [exfalso; apply Hm; reflexivity|].
    exists 0. exists [1;2;3;4;5;6;7;8;9]%Z. split; [reflexivity|]. split; [vm_compute; reflexivity|simpl; lia]. }
  split; [exact R2|]. split; [unfold r; apply okA_ok; vm_compute; reflexivity|].
  intros (_ & H). specialize (H 0 0 1 0). revert H. vm_compute. intros H. specialize (H ltac:(lia) ltac:(lia) ltac:(lia) ltac:(lia)). discriminate.
Qed.
Print Assumptions C33_stale_refuted.

(** Finding: for an operator without elements the reference backend returns an empty array, the blocked backend fails. *)
Definition ex_D0 (i : nat) : udesc := mkU 0 3 1 1%Z 4 (UStandard []).
Definition ex_op0 : oper Zrng := mkOp [mkOF 1 EvNone (Some 0) None VAct] [mkOF 1 EvNone (Some 0) None VAct] 0 3 false 1 (fun l => l).
Theorem C33_empty_refuted :
  asm_data (assemble (@contract_ref Zrng) junkZ true ex_D0 None (fun _ => 0%Z) ex_op0 (new_aimpl Zrng) ex_vm) = Some [] /\
  assemble (@contract_ref Zrng) junkZ true ex_D0 (Some 8) (fun _ => 0%Z) ex_op0 (new_aimpl Zrng) ex_vm = Err ERR_BACKEND.
Proof. split; vm_compute; reflexivity. Qed.
Print Assumptions C33_empty_refuted.

(** Finding: two active inputs without basis on the same restriction share an E-vector, and after an application their q_vecs borrow it:
    the ones stored for a component of one input are then read for the other input as well.  Here the operator is applied and then
    assembled for the first time; without the application the same assembly is right. *)
Definition op_sh : oper Zrng := mkOp [mkOF 1 EvInterp (Some 1) (Some (BT ex_b3)) VAct; mkOF 1 EvNone (Some 1) None VAct; mkOF 1 EvNone (Some 1) None VAct]
  [mkOF 1 EvNone (Some 2) None VAct] 3 3 false 1 (fun ins => [[gz ins 0 + (gz ins 1 + gz ins 1) + (gz ins 2 + gz ins 2 + gz ins 2)]%Z]).
Lemma op_sh_base : forall bs, bs = None \/ bs = Some 8 -> asm_base Zrng (@contract_avx Zrng) 2 true ex_D bs op_sh.
Proof.
  intros bs Hb.
  split; [|split; [|split; [simpl; lia|split; [simpl; lia|reflexivity]]]].
  - constructor; try (simpl; lia).
    + destruct Hb as [-> | ->]; simpl; lia.
    + apply avx_ok.
    + intros i Hi. simpl in Hi. destruct i as [|[|[|i]]]; try lia; unfold fld; cbn [nth o_in op_sh]; [|apply ex_none; auto; lia|apply ex_none; auto; lia].
      unfold field_wf. cbn [f_mode]. do 3 eexists. split; [reflexivity|]. split; [reflexivity|]. split; [apply ex_rwf; auto; lia|]. split; [apply ex_b3_wf|].
      repeat split; reflexivity.
    + ex_fields i.
    + intros i j Hij Hsm Hfst. simpl in Hij. destruct i as [|[|i]]; [reflexivity| |lia].
      exfalso. specialize (Hfst 0 ltac:(lia)). vm_compute in Hfst. discriminate.
  - intros i Hi Hm. simpl in Hi. destruct i as [|[|[|i]]]; try lia; discriminate.
Qed.
Definition ex_sh1 : aimpl Zrng * vmem Zrng := okA (new_aimpl Zrng) ex_vm9 (asm_apply (@contract_avx Zrng) junkZ true ex_D None op_sh (new_aimpl Zrng) ex_vm9 (Some 0) (Some 2)).
Notation sh_asm st vm := (assemble (@contract_avx Zrng) junkZ true ex_D None (fun _ => 0%Z) op_sh st vm).
Theorem C33_shared_refuted : exists (st : aimpl Zrng) vm st' A,
  asm_base Zrng (@contract_avx Zrng) 2 true ex_D None op_sh /\ linear op_sh /\ passive_ok Zrng ex_D op_sh vm /\
  reached Zrng (@contract_avx Zrng) junkZ true ex_D None op_sh false true st vm /\
  sh_asm st vm = Ok (st', A) /\ ~ is_assembled ex_D op_sh vm A /\
  asm_data (sh_asm st vm) = Some [1;1;1; 5;5;5; 5;5;5;  1;1;1; 5;5;5; 5;5;5;  1;1;1; 5;5;5; 5;5;5]%Z /\
  asm_data (sh_asm (new_aimpl Zrng) vm) = Some [1;1;1; 2;2;2; 3;3;3;  1;1;1; 2;2;2; 3;3;3;  1;1;1; 2;2;2; 3;3;3]%Z.
Proof.
  exists (fst ex_sh1), (snd ex_sh1). pose (r := okA (new_aimpl Zrng) [] (sh_asm (fst ex_sh1) (snd ex_sh1))). exists (fst r), (snd r).
  split; [apply op_sh_base; auto|]. split.
  { intros pas a1 a2 t j c Hj Ha Hc. simpl in Hj. destruct j as [|j]; try lia; simpl in Hc; (destruct c; [|lia]); unfold qf_at, op_sh, fill, gz, vf; simpl; ring. }
  split. { intros i Hi Hm Ha. simpl in Hi. destruct i as [|[|[|i]]]; try lia; discriminate. }
  split.
  { change true with (negb false). eapply r_apply with (inv := Some 0) (outv := Some 2) (c := true) (vm := ex_vm9).
    - apply r_new. intros [|[|[|v]]]; simpl; (split; [lia|]); split; try lia; try discriminate; auto; intros x E; inversion E; reflexivity.
    - split. intros i Hi Hm. simpl in Hi. destruct i as [|[|[|i]]]; try lia; ex_has 0.
      intros i Hi. simpl in Hi. destruct i as [|i]; try lia. exists 2. split; [reflexivity|simpl; lia].
    - intros f v Hf Hm Ht. simpl in Hf. destruct Hf as [<- | [<- | [<- | []]]]; inversion Ht; reflexivity.
    - unfold ex_sh1. apply okA_ok. vm_compute. reflexivity. }
  split; [unfold r; apply okA_ok; vm_compute; reflexivity|]. split; [|split; vm_compute; reflexivity].
  intros (_ & H). specialize (H 0 1 0 0). revert H. vm_compute. intros H. specialize (H ltac:(lia) ltac:(lia) ltac:(lia) ltac:(lia)). discriminate.
Qed.
Print Assumptions C33_shared_refuted.
