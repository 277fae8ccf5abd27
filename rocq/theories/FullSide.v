(** * Full assembly: the fields and the basis matrix of one side *)
From Coq Require Import List ZArith Lia Bool Arith.
From Verif Require Import Prelude RstrModel RstrSpec RstrProofs TensorModel TensorMain BasisModel BasisMain BasisProps OpModel OpSpec OpLists AsmModel AsmSpec AsmProofs CacheModel DenseModel DenseProofs FullModel FullSpec.
Import ListNotations.

Lemma emode_eqb_eq : forall a b, emode_eqb a b = true <-> a = b.
Proof. intros [] []; simpl; split; congruence. Qed.
Lemma combine_fld : forall (R : Rng) (fs : list (ofield R)), combine (seq 0 (length fs)) fs = map (fun j => (j, fld fs j)) (seq 0 (length fs)).
Proof.
  intros R fs. apply (nth_ext _ _ (0, mkOF 0 EvNone None None VNo) (0, mkOF 0 EvNone None None VNo)).
  { rewrite combine_length, map_length, seq_length. lia. }
  intros j Hj. rewrite combine_length, seq_length, Nat.min_id in Hj. rewrite combine_nth by apply seq_length.
  rewrite nth_indep with (d' := (fun j => (j, fld fs j)) 0) (l := map _ _) by (rewrite map_length, seq_length; auto).
  rewrite (map_nth (fun j => (j, fld fs j))). rewrite seq_nth by auto. reflexivity.
Qed.
Lemma flat_map_map : forall A B C (f : B -> list C) (g : A -> B) l, flat_map f (map g l) = flat_map (fun a => f (g a)) l.
Proof. induction l as [|a l IH]; simpl; auto. rewrite IH. reflexivity. Qed.
Lemma flat_map_const : forall A B m (g : A -> list B) l, (forall a, In a l -> length (g a) = m) ->
  length (flat_map g l) = length l * m /\ forall s c d a0, s < length l -> c < m -> nth (s * m + c) (flat_map g l) d = nth c (g (nth s l a0)) d.
Proof.
  intros A B m g l. induction l as [|a l IH]; intros H.
  - split; auto. intros s c d a0 Hs. simpl in Hs. lia.
  - destruct IH as (L & G). { intros; apply H; right; auto. }
    pose proof (H a (or_introl eq_refl)) as La. split. { simpl. rewrite app_length, L. lia. }
    intros [|s] c d a0 Hs Hc; simpl.
    + apply app_nth1. lia.
    + rewrite app_nth2 by lia. replace (m + s * m + c - length (g a)) with (s * m + c) by lia. apply G; auto. simpl in Hs. lia.
Qed.
Lemma seq_blocks : forall nc q, seq 0 (q * nc) = flat_map (fun d => map (fun c => d * nc + c) (seq 0 nc)) (seq 0 q).
Proof.
  intros nc. induction q as [|q IH]; auto. rewrite seq_S, flat_map_app. cbn [flat_map]. rewrite app_nil_r, <- IH. simpl (S q * nc). rewrite Nat.add_comm, seq_app. f_equal.
  simpl. clear. assert (H : forall n a b, seq (a + b) n = map (fun c => a + c) (seq b n)).
  { induction n as [|n IHn]; intros a b; simpl; auto. f_equal. rewrite <- Nat.add_succ_r. apply IHn. }
  specialize (H nc (q * nc) 0). rewrite Nat.add_0_r in H. auto.
Qed.

Section Side.
Variable R : Rng.
Add Ring Rr : (r_th R).
Local Open Scope nat_scope.
Variable k : kernel R.
Variable Jmin : nat.
Variable chk : bool.
Variable D : nat -> udesc.
Variable bs : option nat.
Variable o : oper R.
Variable fs : list (ofield R).
Variable ptr : nat -> nat.
Variable i : nat.
Variable b : option (basis R).
Hypothesis Hfs : forall j, j < length fs -> field_wf D Jmin chk bs o (fld fs j).
Hypothesis Hwt : forall j, j < length fs -> is_active (fld fs j) = true -> f_mode (fld fs j) <> EvWeight.
Hypothesis Hos : one_side D (o_Q o) ptr fs i b.
Hypothesis Hnc : 0 < u_nc (D i).

Definition qcf (j : nat) : nat := qc b (f_mode (fld fs j)).
Definition slots : list (nat * nat) := flat_map (fun j => if is_active (fld fs j) then map (pair j) (seq 0 (qcf j)) else []) (seq 0 (length fs)).
Definition smode (s : nat * nat) : emode := f_mode (fld fs (fst s)).
Notation slot s := (nth s slots (0, 0)).

Lemma slot_in : forall s, In s slots -> fst s < length fs /\ is_active (fld fs (fst s)) = true /\ snd s < qcf (fst s).
Proof.
  intros s H. unfold slots in H. apply in_flat_map in H. destruct H as (j & Hj & H). apply in_seq in Hj.
  destruct (is_active (fld fs j)) eqn:E; [|destruct H]. apply in_map_iff in H. destruct H as (d & <- & Hd). apply in_seq in Hd. cbn [fst snd]. split; [lia|]. split; auto. lia.
Qed.
Lemma size_of : forall j, j < length fs -> is_active (fld fs j) = true -> f_size (fld fs j) = qcf j * u_nc (D i).
Proof.
  intros j Hj Ha. destruct (os_rstr Hos j Hj Ha) as (Er & Eb). pose proof (Hfs j Hj) as Hf. pose proof (Hwt j Hj Ha) as Hw. unfold field_wf in Hf. unfold qcf.
  destruct (f_mode (fld fs j)) eqn:Em; try congruence.
  - destruct Hf as (i' & E1 & _ & E2 & _). rewrite Er in E1. inversion E1; subst i'. destruct b; simpl; lia.
  - destruct Hf as (i' & b' & mt & E1 & E2 & _ & _ & E3 & _ & _ & _ & E4). rewrite Er in E1. rewrite Eb in E2. inversion E1; subst i'. rewrite E2. cbn [qc]. rewrite E4, E3. reflexivity.
  - destruct Hf as (i' & b' & mt & E1 & E2 & _ & _ & E3 & _ & _ & _ & E4). rewrite Er in E1. rewrite Eb in E2. inversion E1; subst i'. rewrite E2. cbn [qc]. rewrite E4, E3. reflexivity.
  - destruct Hf as (i' & b' & mt & E1 & E2 & _ & _ & E3 & _ & _ & _ & E4). rewrite Er in E1. rewrite Eb in E2. inversion E1; subst i'. rewrite E2. cbn [qc]. rewrite E4, E3. reflexivity.
  - destruct Hf as (i' & b' & mt & E1 & E2 & _ & _ & E3 & _ & _ & _ & E4). rewrite Er in E1. rewrite Eb in E2. inversion E1; subst i'. rewrite E2. cbn [qc]. rewrite E4, E3. reflexivity.
Qed.
Lemma comps_slots : comps fs = flat_map (fun s => map (fun c => (fst s, snd s * u_nc (D i) + c)) (seq 0 (u_nc (D i)))) slots.
Proof.
  unfold comps, comps_n, slots.
  assert (H : forall n, n <= length fs ->
    flat_map (fun j => if is_active (fld fs j) then map (pair j) (seq 0 (f_size (fld fs j))) else []) (seq 0 n) =
    flat_map (fun s => map (fun c => (fst s, snd s * u_nc (D i) + c)) (seq 0 (u_nc (D i))))
      (flat_map (fun j => if is_active (fld fs j) then map (pair j) (seq 0 (qcf j)) else []) (seq 0 n))).
  { induction n as [|n IH]; intros Hn; auto. rewrite seq_S, !flat_map_app, IH by lia. f_equal. cbn [flat_map Nat.add]. rewrite !app_nil_r.
    destruct (is_active (fld fs n)) eqn:Ea; auto. rewrite size_of by (auto; lia). rewrite seq_blocks, flat_map_map. cbn [fst snd].
    generalize (seq 0 (qcf n)). induction l as [|d l IHl]; auto. cbn [flat_map]. rewrite map_app, IHl, map_map. reflexivity. }
  apply H. auto.
Qed.
Lemma comps_len : length (comps fs) = length slots * u_nc (D i).
Proof. rewrite comps_slots. apply flat_map_const. intros s _. rewrite map_length, seq_length. reflexivity. Qed.
Lemma comps_at : forall s c, s < length slots -> c < u_nc (D i) ->
  nth (s * u_nc (D i) + c) (comps fs) (0, 0) = (fst (slot s), snd (slot s) * u_nc (D i) + c).
Proof.
  intros s c Hs Hc. rewrite comps_slots. pose proof (flat_map_const _ _ (u_nc (D i)) (fun s => map (fun c => (fst s, snd s * u_nc (D i) + c)) (seq 0 (u_nc (D i)))) slots) as (_ & G).
  { intros a _. rewrite map_length, seq_length. reflexivity. }
  rewrite (G s c (0, 0) (0, 0) Hs Hc). rewrite nth_indep with (d' := (fun c => (fst (slot s), snd (slot s) * u_nc (D i) + c)) 0) by (rewrite map_length, seq_length; auto).
  rewrite (map_nth (fun c => (fst (slot s), snd (slot s) * u_nc (D i) + c))), seq_nth by auto. reflexivity.
Qed.

(** ** the assembly data *)
Lemma modes_slots : flat_map (fun j => if is_active (fld fs j) then field_modes (fld fs j) else []) (seq 0 (length fs)) = map smode slots.
Proof.
  unfold slots. assert (H : forall n, n <= length fs -> flat_map (fun j => if is_active (fld fs j) then field_modes (fld fs j) else []) (seq 0 n) =
    map smode (flat_map (fun j => if is_active (fld fs j) then map (pair j) (seq 0 (qcf j)) else []) (seq 0 n))); [|apply H; auto].
  induction n as [|n IH]; intros Hn; auto. rewrite seq_S, !flat_map_app, map_app, IH by lia. f_equal. cbn [flat_map Nat.add]. rewrite !app_nil_r.
  destruct (is_active (fld fs n)) eqn:Ea; auto. rewrite map_map. unfold smode. cbn [fst].
  destruct (os_rstr Hos n ltac:(lia) Ea) as (_ & Eb). pose proof (Hwt n ltac:(lia) Ea) as Hw. unfold field_modes, qcf. rewrite Eb.
  assert (Er : forall (m : emode) q a, repeat m q = map (fun _ : nat => m) (seq a q)). { intros m q. induction q as [|q IHq]; intros a; auto. simpl. f_equal. apply IHq. }
  destruct (f_mode (fld fs n)); try congruence; apply Er.
Qed.
Lemma groups_ok : exists id, groups ptr fs = [mkG id b (Some i) (map smode slots)].
Proof.
  destruct (os_some Hos) as (j0 & Hj0 & Ha0). exists (ptr j0). rewrite <- modes_slots. unfold groups. rewrite combine_fld.
  set (step := fun gs jf => if is_active (snd jf) then add_group (ptr (fst jf)) (snd jf) gs else gs).
  assert (Hall : forall j, j < length fs -> is_active (fld fs j) = true -> ptr j = ptr j0 /\ f_rstr (fld fs j) = Some i /\ f_basis (fld fs j) = b).
  { intros j Hj Ha. split; [apply (os_ptr Hos); auto|]. apply (os_rstr Hos); auto. }
  assert (H1 : forall l ms, (forall j, In j l -> j < length fs) -> fold_left step (map (fun j => (j, fld fs j)) l) [mkG (ptr j0) b (Some i) ms] =
    [mkG (ptr j0) b (Some i) (ms ++ flat_map (fun j => if is_active (fld fs j) then field_modes (fld fs j) else []) l)]).
  { induction l as [|j l IH]; intros ms Hl; cbn [map fold_left flat_map]. { rewrite app_nil_r. reflexivity. }
    unfold step at 2. cbn [fst snd]. destruct (is_active (fld fs j)) eqn:Ea; [|apply IH; intros; apply Hl; right; auto].
    destruct (Hall j) as (E1 & E2 & E3); [apply Hl; left; auto|auto|]. cbn [add_group g_id g_basis g_rstr g_modes]. rewrite E1, Nat.eqb_refl, IH, <- app_assoc; auto.
    intros; apply Hl; right; auto. }
  assert (H2 : forall l, (forall j, In j l -> j < length fs) -> (exists j, In j l /\ is_active (fld fs j) = true) -> fold_left step (map (fun j => (j, fld fs j)) l) [] =
    [mkG (ptr j0) b (Some i) (flat_map (fun j => if is_active (fld fs j) then field_modes (fld fs j) else []) l)]).
  { induction l as [|j l IH]; intros Hl (j1 & H & Ha); [destruct H|]. cbn [map fold_left flat_map]. unfold step at 2. cbn [fst snd].
    destruct (is_active (fld fs j)) eqn:Ea.
    - destruct (Hall j) as (E1 & E2 & E3); [apply Hl; left; auto|auto|]. cbn [add_group]. rewrite E1, E2, E3. apply H1. intros; apply Hl; right; auto.
    - apply IH. { intros; apply Hl; right; auto. } exists j1. split; auto. destruct H as [->|H]; auto. congruence. }
  apply H2. { intros j Hj. apply in_seq in Hj. lia. } exists j0. split; auto. apply in_seq. lia.
Qed.
Lemma act_rstr_ok : act_rstr None fs = Ok i.
Proof.
  destruct (os_some Hos) as (j0 & Hj0 & Ha0).
  assert (Hall : forall f, In f fs -> is_active f = true -> f_rstr f = Some i).
  { intros f Hf Ha. destruct (In_nth fs f (mkOF 0 EvNone None None VNo) Hf) as (j & Hj & Ej). destruct (os_rstr Hos j Hj) as (E & _); unfold fld in *; rewrite Ej in *; auto. }
  assert (Hex : exists f, In f fs /\ is_active f = true). { exists (fld fs j0). split; auto. apply nth_In. auto. }
  assert (H1 : forall l : list (ofield R), (forall f, In f l -> is_active f = true -> f_rstr f = Some i) -> act_rstr (Some i) l = Ok i).
  { induction l as [|f l IH]; intros Hl; auto. cbn [act_rstr]. destruct (is_active f) eqn:Ea; [|apply IH; intros; apply Hl; auto; right; auto].
    rewrite (Hl f (or_introl eq_refl) Ea), Nat.eqb_refl. apply IH. intros; apply Hl; auto; right; auto. }
  clear - Hall Hex H1. induction fs as [|f l IH]. { destruct Hex as (f & [] & _). }
  cbn [act_rstr]. destruct (is_active f) eqn:Ea.
  - rewrite (Hall f (or_introl eq_refl) Ea). apply H1. intros; apply Hall; auto; right; auto.
  - apply IH. { intros; apply Hall; auto; right; auto. } destruct Hex as (f' & [->|Hf'] & E); [congruence|]. exists f'. auto.
Qed.

(** ** the basis matrix *)
Lemma shifts_ok : shifts b None 0 (map smode slots) = map snd slots.
Proof.
  assert (Hrun : forall m n d0 rest, 1 < qc b m -> shifts b (Some m) d0 (repeat m n ++ rest) = seq (d0 + 1) n ++ shifts b (Some m) (d0 + n) rest).
  { intros m. induction n as [|n IH]; intros d0 rest Hq; cbn [repeat app seq]. { rewrite Nat.add_0_r. reflexivity. }
    cbn [shifts]. apply Nat.ltb_lt in Hq as Hq'. rewrite Hq'. assert (Em : emode_eqb m m = true) by (apply emode_eqb_eq; auto). rewrite Em. rewrite IH by auto.
    replace (d0 + 1 + 1) with (S (d0 + 1)) by lia. replace (d0 + 1 + n) with (d0 + S n) by lia. reflexivity. }
  assert (Er : forall j q, map smode (map (pair j) (seq 0 q)) = repeat (f_mode (fld fs j)) q).
  { intros j q. rewrite map_map. unfold smode. cbn [fst]. generalize 0. induction q as [|q IHq]; intros a; auto. simpl. f_equal. apply IHq. }
  assert (Hs : forall l prev d0, (forall j, In j l -> j < length fs) -> (forall p, prev = Some p -> forall j, In j l -> is_active (fld fs j) = true -> f_mode (fld fs j) = p -> qcf j <= 1) ->
     (forall l1 j l2 j', l = l1 ++ j :: l2 -> In j' l2 -> j < j') ->
     shifts b prev d0 (map smode (flat_map (fun j => if is_active (fld fs j) then map (pair j) (seq 0 (qcf j)) else []) l)) =
     map snd (flat_map (fun j => if is_active (fld fs j) then map (pair j) (seq 0 (qcf j)) else []) l)).
  { induction l as [|j l IH]; intros prev d0 Hl Hp Hord; auto. cbn [flat_map]. rewrite !map_app.
    assert (Hl' : forall j0, In j0 l -> j0 < length fs) by (intros; apply Hl; right; auto).
    assert (Hord' : forall l1 j0 l2 j', l = l1 ++ j0 :: l2 -> In j' l2 -> j0 < j'). { intros l1 j0 l2 j' E. apply (Hord (j :: l1)). rewrite E. reflexivity. }
    destruct (is_active (fld fs j)) eqn:Ea; [|apply IH; auto; intros p Ep j1 H1; apply (Hp p Ep); right; auto].
    rewrite Er, map_map. cbn [snd]. rewrite map_id.
    assert (Hnext : forall p, Some (f_mode (fld fs j)) = Some p -> forall j0, In j0 l -> is_active (fld fs j0) = true -> f_mode (fld fs j0) = p -> qcf j0 <= 1).
    { intros p Ep j1 H1 Ha1 Em0. assert (Em : f_mode (fld fs j1) = f_mode (fld fs j)) by congruence. pose proof (os_twice Hos j j1) as Ht. pose proof (Hord [] j l j1 eq_refl H1) as Hlt.
      specialize (Ht Hlt (Hl' _ H1) Ea Ha1 (eq_sym Em)). rewrite size_of in Ht by (auto; apply Hl; left; auto).
      assert (Eq : qcf j1 = qcf j) by (unfold qcf; rewrite Em; auto). rewrite Eq. nia. }
    change (qc b (f_mode (fld fs j))) with (qcf j) in *. destruct (qcf j) as [|[|q]] eqn:Eq.
    - cbn [repeat app seq]. apply IH; auto. intros p Ep j1 H1. apply (Hp p Ep). right; auto.
    - cbn [repeat app seq shifts]. assert (E1 : (1 <? qc b (f_mode (fld fs j))) = false) by (apply Nat.ltb_ge; fold (qcf j); lia). rewrite E1. f_equal. apply IH; auto.
    - cbn [repeat app shifts]. assert (H1 : 1 < qc b (f_mode (fld fs j))) by (fold (qcf j); lia). apply Nat.ltb_lt in H1 as H1'. rewrite H1'.
      assert (E0 : match prev with Some p => if emode_eqb (f_mode (fld fs j)) p then d0 + 1 else 0 | None => 0 end = 0).
      { destruct prev as [p|]; auto. destruct (emode_eqb (f_mode (fld fs j)) p) eqn:Ee; auto. exfalso. apply emode_eqb_eq in Ee.
        specialize (Hp p eq_refl j (or_introl eq_refl) Ea Ee). lia. }
      rewrite E0. assert (Em : emode_eqb (f_mode (fld fs j)) (f_mode (fld fs j)) = true) by (apply emode_eqb_eq; auto). rewrite Em. rewrite Hrun by auto.
      rewrite IH by auto. reflexivity. }
  apply Hs.
  - intros j Hj. apply in_seq in Hj. lia.
  - discriminate.
  - intros l1 j l2 j' E Hj'. assert (Hn : forall a n l1 j l2 j', seq a n = l1 ++ j :: l2 -> In j' l2 -> j < j').
    { clear. intros a n. revert a. induction n as [|n IH]; intros a l1 j l2 j' E H; simpl in E. { destruct l1; discriminate. }
      destruct l1 as [|x l1]; simpl in E; inversion E; subst.
      - apply in_seq in H. lia.
      - eapply IH; eauto. }
    eapply Hn; eauto.
Qed.

(** value at point [q] of node [n] for slot [s] *)
Definition bval (s : nat * nat) (q n : nat) : R :=
  match smode s with
  | EvNone => if q =? n then 1%R else 0%R
  | m => match b with Some b => vf (mat b m) ((snd s * o_Q o + q) * u_es (D i) + n) | None => 0%R end
  end.
Lemma reported_len : forall (bb : basis R) m mt, b_wf Jmin bb -> reported bb m = Some mt -> q_comp bb m * b_qpts bb * b_nodes bb <= length mt.
Proof.
  intros bb m mt Hw Hr. destruct bb as [t|n].
  - assert (Hs' : sizes_ok t) by apply Hw. destruct m; try discriminate.
    + destruct (get_interp_ok Hs') as (x & E & L & _). cbn [reported] in Hr. rewrite E in Hr. inversion Hr; subst. rewrite L. cbn [q_comp b_fe b_qpts b_nodes]. lia.
    + destruct (get_grad_ok Hs') as (x & E & L & _). cbn [reported] in Hr. rewrite E in Hr. inversion Hr; subst. rewrite L. cbn [q_comp b_dim b_qpts b_nodes]. lia.
  - destruct Hw as (_ & _ & _ & _ & _ & _ & H). specialize (H m mt Hr). cbn [b_qpts b_nodes]. nia.
Qed.
Lemma entry_ok : forall s q n, In s slots -> q < o_Q o -> n < u_es (D i) -> basis_entry b (o_Q o) (u_es (D i)) (smode s) (snd s) q n = Ok (bval s q n).
Proof.
  intros s q n Hs Hq Hn. destruct (slot_in s Hs) as (Hj & Ha & Hd). unfold smode, bval, qcf in *. unfold smode.
  destruct (os_rstr Hos _ Hj Ha) as (Er & Eb). pose proof (Hfs _ Hj) as Hf. pose proof (Hwt _ Hj Ha) as Hw. unfold field_wf in Hf.
  destruct (f_mode (fld fs (fst s))) eqn:Em; try congruence; [reflexivity| | | | ];
    (destruct Hf as (i' & b' & mt & E1 & E2 & _ & Hb & E3 & E4 & E5 & E6 & E7); rewrite Er in E1; rewrite Eb in E2; inversion E1; subst i'; rewrite E2 in Hd |- *;
     cbn [basis_entry qc] in *; rewrite E6; pose proof (reported_len _ _ _ Hb E6) as HL; rewrite E4, E5 in HL;
     rewrite (og_nth mt (0%R : R)); [unfold mat; rewrite E6; unfold vf; do 2 f_equal; ring|];
     assert (snd s * o_Q o + q + 1 <= q_comp b' (f_mode (fld fs (fst s))) * o_Q o) by (rewrite Em; nia); rewrite Em in *; nia).
Qed.
Lemma b_mat_ok : exists B, b_mat b (o_Q o) (u_es (D i)) (map smode slots) = Ok B /\ length B = o_Q o * length slots * u_es (D i) /\
  forall q s n, q < o_Q o -> s < length slots -> n < u_es (D i) -> vf B ((q * length slots + s) * u_es (D i) + n) = bval (slot s) q n.
Proof.
  unfold b_mat. rewrite map_length, shifts_ok. set (es := u_es (D i)) in *. set (nm := length slots) in *.
  match goal with |- exists B, cat ?n ?f = Ok B /\ _ => destruct (cat2 R n (nm * es) f (fun q => at2 es (fun s nn => bval (slot s) q nn))) as (B & E & L & G) end.
  - intros q Hq. apply (cat_ok R nm es _ (fun s n => bval (slot s) q n)). intros s Hs. apply cat1. intros n Hn.
    assert (Es : og (map smode slots) s = Ok (smode (slot s))).
    { rewrite (og_nth _ (smode (0, 0))) by (rewrite map_length; auto). rewrite (map_nth smode). reflexivity. }
    assert (Ed : og (map snd slots) s = Ok (snd (slot s))).
    { rewrite (og_nth _ (snd (0, 0))) by (rewrite map_length; auto). rewrite (map_nth snd). reflexivity. }
    rewrite Es, Ed. cbn [rbind]. rewrite entry_ok; auto. apply nth_In. auto.
  - exists B. split; auto. split; [lia|]. intros q s n Hq Hs Hn. specialize (G q (s * es + n) (0%R : R) Hq ltac:(nia)).
    replace ((q * nm + s) * es + n) with (q * (nm * es) + (s * es + n)) by ring. unfold vf. rewrite G. rewrite at2_ij; auto.
Qed.
Lemma g_qpts_ok : forall id ms, g_qpts D (mkG id b (Some i) ms) = Ok (o_Q o).
Proof. intros id ms. unfold g_qpts. cbn [g_basis g_rstr]. pose proof (os_qpts Hos). destruct b; congruence. Qed.
Lemma slots_sum : forall F : nat * nat -> R, sumn (length slots) (fun s => F (slot s)) =
  sumn (length fs) (fun j => delta (is_active (fld fs j)) (sumn (qcf j) (fun d => F (j, d)))).
Proof.
  intros F. assert (H : forall l, sumn (length l) (fun s => F (nth s l (0, 0))) = sumL l F).
  { clear. intros l. unfold sumn. rewrite <- (@sumL_map R nat (nat * nat) (seq 0 (length l)) (fun s => nth s l (0, 0)) F). f_equal.
    apply (nth_ext _ _ (0, 0) (0, 0)). { rewrite map_length, seq_length. auto. }
    intros n Hn. rewrite map_length, seq_length in Hn. rewrite nth_indep with (d' := (fun s => nth s l (0, 0)) 0) by (rewrite map_length, seq_length; auto).
    rewrite (map_nth (fun s => nth s l (0, 0))), seq_nth by auto. reflexivity. }
  rewrite H. unfold slots. rewrite sumL_flat_map. unfold sumn. apply sumL_ext. intros j _. destruct (is_active (fld fs j)); cbn [delta]; [|reflexivity].
  rewrite sumL_map. reflexivity.
Qed.
End Side.
