(** * Properties C20 (QFunction fields), C21 (source strings), C22 (lookup) *)
From Coq Require Import List ZArith Lia Bool Arith Ascii String Permutation.
From Verif Require Import Prelude RstrModel BasisModel StrModel QfModel.
Import ListNotations.
Local Open Scope char_scope.
Local Open Scope nat_scope.

(** ** C20: field lists *)
Definition names (q : qfun) : list str := map qf_name (q_in q ++ q_out q).

Lemma dup_In : forall name l, dup name l = true <-> In name (map qf_name l).
Proof.
  intros. unfold dup. rewrite existsb_exists, in_map_iff. split; intros (f & A & B).
  - apply seqb_eq in B. exists f. auto.
  - exists f. split; auto. apply seqb_eq. auto.
Qed.
Lemma dup_nIn : forall name l, dup name l = false <-> ~ In name (map qf_name l).
Proof. intros. rewrite <- dup_In. destruct (dup name l); split; intros H; try discriminate; auto. exfalso; auto. Qed.

Definition in_ok (q : qfun) (n : str) (s : Z) (m : emode) : Prop :=
  q_imm q = false /\ (m = EvWeight -> s = 1%Z) /\ ~ In n (names q).
Definition out_ok (q : qfun) (n : str) (m : emode) : Prop :=
  q_imm q = false /\ m <> EvWeight /\ ~ In n (names q).

Lemma names_In : forall q n, In n (names q) <-> In n (map qf_name (q_in q)) \/ In n (map qf_name (q_out q)).
Proof. intros. unfold names. rewrite map_app, in_app_iff. tauto. Qed.

(** An input is accepted exactly when the QFunction is not frozen, a weight has size one, the name is
    new and a slot is free; the only change is the new field at the end of the input list. *)
Theorem C20_add_input : forall q n s m,
  (in_ok q n s m /\ List.length (q_in q) < FIELD_MAX ->
     q_add_input q n s m = (Ok tt, q_with_in q (q_in q ++ [mkQField n s m]))) /\
  (in_ok q n s m /\ FIELD_MAX <= List.length (q_in q) -> fst (q_add_input q n s m) = UB) /\
  (~ in_ok q n s m -> exists c, q_add_input q n s m = (Err c, q)).
Proof.
  intros q n s m. unfold in_ok. rewrite names_In. unfold q_add_input.
  destruct (q_imm q) eqn:I. { split; [intros [[A _] _]; discriminate|]. split; [intros [[A _] _]; discriminate|]. eauto. }
  destruct (match m with EvWeight => negb (s =? 1)%Z | _ => false end) eqn:W.
  { destruct m; try discriminate. apply negb_true_iff, Z.eqb_neq in W.
    split; [intros [(_ & A & _) _]; exfalso; apply W, A; auto|]. split; [intros [(_ & A & _) _]; exfalso; apply W, A; auto|]. eauto. }
  assert (Hw : m = EvWeight -> s = 1%Z). { intros ->. apply negb_false_iff, Z.eqb_eq in W. exact W. }
  destruct (dup n (q_in q)) eqn:D1. { apply dup_In in D1. split; [intros [(_ & _ & A) _]; exfalso; auto|]. split; [intros [(_ & _ & A) _]; exfalso; auto|]. eauto. }
  destruct (dup n (q_out q)) eqn:D2. { apply dup_In in D2. split; [intros [(_ & _ & A) _]; exfalso; auto|]. split; [intros [(_ & _ & A) _]; exfalso; auto|]. eauto. }
  apply dup_nIn in D1, D2. destruct (Nat.ltb_spec (List.length (q_in q)) FIELD_MAX) as [L|L].
  - split; [auto|]. split; [intros [_ A]; lia|]. intros H. exfalso. apply H. tauto.
  - split; [intros [_ A]; lia|]. split; [auto|]. intros H. exfalso. apply H. tauto.
Qed.
Theorem C20_add_output : forall q n s m,
  (out_ok q n m /\ List.length (q_out q) < FIELD_MAX ->
     q_add_output q n s m = (Ok tt, q_with_out q (q_out q ++ [mkQField n s m]))) /\
  (out_ok q n m /\ FIELD_MAX <= List.length (q_out q) -> fst (q_add_output q n s m) = UB) /\
  (~ out_ok q n m -> exists c, q_add_output q n s m = (Err c, q)).
Proof.
  intros q n s m. unfold out_ok. rewrite names_In. unfold q_add_output.
  destruct (q_imm q) eqn:I. { split; [intros [[A _] _]; discriminate|]. split; [intros [[A _] _]; discriminate|]. eauto. }
  destruct (match m with EvWeight => true | _ => false end) eqn:W.
  { destruct m; try discriminate. split; [intros [(_ & A & _) _]; exfalso; auto|]. split; [intros [(_ & A & _) _]; exfalso; auto|]. eauto. }
  assert (Hw : m <> EvWeight). { intros ->. discriminate. }
  destruct (dup n (q_in q)) eqn:D1. { apply dup_In in D1. split; [intros [(_ & _ & A) _]; exfalso; auto|]. split; [intros [(_ & _ & A) _]; exfalso; auto|]. eauto. }
  destruct (dup n (q_out q)) eqn:D2. { apply dup_In in D2. split; [intros [(_ & _ & A) _]; exfalso; auto|]. split; [intros [(_ & _ & A) _]; exfalso; auto|]. eauto. }
  apply dup_nIn in D1, D2. destruct (Nat.ltb_spec (List.length (q_out q)) FIELD_MAX) as [L|L].
  - split; [auto|]. split; [intros [_ A]; lia|]. intros H. exfalso. apply H. tauto.
  - split; [intros [_ A]; lia|]. split; [auto|]. intros H. exfalso. apply H. tauto.
Qed.

(** one call: how the field lists change *)
Definition added_in (o : qop) (r : res unit) : list qfield :=
  match o, r with QAddIn n s m, Ok _ => [mkQField n s m] | _, _ => [] end.
Definition added_out (o : qop) (r : res unit) : list qfield :=
  match o, r with QAddOut n s m, Ok _ => [mkQField n s m] | _, _ => [] end.

Definition inv (q : qfun) : Prop :=
  NoDup (names q) /\ (forall f, In f (q_in q) -> qf_mode f = EvWeight -> qf_size f = 1%Z) /\
  (forall f, In f (q_out q) -> qf_mode f <> EvWeight) /\ List.length (q_in q) <= FIELD_MAX /\ List.length (q_out q) <= FIELD_MAX.

Lemma fallback_orig : forall q, snd (q_fallback q) = q \/ snd (q_fallback q) = q_set_imm q.
Proof.
  intros q. unfold q_fallback. destruct (fallback_source q); simpl; auto. destruct (q_create (q_vlen q) a); simpl; auto.
  destruct (add_inputs a0 (q_in q)) as [[] ?]; simpl; auto. destruct (add_outputs q0 (q_out q)) as [[] ?]; simpl; auto.
Qed.
Lemma fallback_orig_ok : forall q, out (fst (q_fallback q)) = Ok tt -> snd (q_fallback q) = q_set_imm q.
Proof.
  intros q. unfold q_fallback. destruct (fallback_source q); simpl; try discriminate. destruct (q_create (q_vlen q) a); simpl; try discriminate.
  destruct (add_inputs a0 (q_in q)) as [[] ?]; simpl; auto. destruct (add_outputs q0 (q_out q)) as [[] ?]; simpl; auto.
Qed.

Lemma step_fields : forall fs roots q o r q', q_step fs roots q o = (r, q') ->
  q_in q' = q_in q ++ added_in o r /\ q_out q' = q_out q ++ added_out o r.
Proof.
  intros fs roots q o r q' H. unfold added_in, added_out. destruct o; simpl in H.
  - unfold q_add_input in H. destruct (q_imm q); [inversion H; subst; rewrite !app_nil_r; auto|].
    destruct (match m with EvWeight => negb (size =? 1)%Z | _ => false end); [inversion H; subst; rewrite !app_nil_r; auto|].
    destruct (dup name (q_in q)); [inversion H; subst; rewrite !app_nil_r; auto|]. destruct (dup name (q_out q)); [inversion H; subst; rewrite !app_nil_r; auto|].
    destruct (List.length (q_in q) <? FIELD_MAX); inversion H; subst; rewrite !app_nil_r; auto.
  - unfold q_add_output in H. destruct (q_imm q); [inversion H; subst; rewrite !app_nil_r; auto|].
    destruct (match m with EvWeight => true | _ => false end); [inversion H; subst; rewrite !app_nil_r; auto|].
    destruct (dup name (q_in q)); [inversion H; subst; rewrite !app_nil_r; auto|]. destruct (dup name (q_out q)); [inversion H; subst; rewrite !app_nil_r; auto|].
    destruct (List.length (q_out q) <? FIELD_MAX); inversion H; subst; rewrite !app_nil_r; auto.
  - inversion H; subst. simpl. rewrite !app_nil_r. auto.
  - unfold q_apply in H. destruct (q_vlen q =? 0)%Z; [inversion H; subst; rewrite !app_nil_r; auto|].
    destruct (negb (Z.rem Q (q_vlen q) =? 0)%Z); inversion H; subst; simpl; rewrite !app_nil_r; auto.
  - inversion H; subst. rewrite !app_nil_r. unfold q_get_kernel_name. destruct (q_kname q); auto. destruct (q_user q); auto. destruct (strrchr s ":"); auto.
  - inversion H; subst. rewrite !app_nil_r. unfold q_get_source_path. destruct (q_path q); auto. destruct (q_user q); auto. destruct (strrchr s ":"); auto.
    destruct (if check_file_path fs s then Ok s else jit_absolute fs roots s); auto.
  - inversion H; subst. rewrite !app_nil_r. destruct (fallback_orig q) as [E|E]; rewrite E; auto.
Qed.
Lemma step_imm : forall fs roots q o r q', q_step fs roots q o = (r, q') -> q_imm q = true -> q_imm q' = true.
Proof.
  intros fs roots q o r q' H I. destruct o; simpl in H.
  - unfold q_add_input in H. rewrite I in H. inversion H; subst; auto.
  - unfold q_add_output in H. rewrite I in H. inversion H; subst; auto.
  - inversion H; subst. auto.
  - unfold q_apply in H. destruct (q_vlen q =? 0)%Z; [inversion H; subst; auto|]. destruct (negb (Z.rem Q (q_vlen q) =? 0)%Z); inversion H; subst; auto.
  - inversion H; subst. unfold q_get_kernel_name. destruct (q_kname q); auto. destruct (q_user q); auto. destruct (strrchr s ":"); auto.
  - inversion H; subst. unfold q_get_source_path. destruct (q_path q); auto. destruct (q_user q); auto. destruct (strrchr s ":"); auto.
    destruct (if check_file_path fs s then Ok s else jit_absolute fs roots s); auto.
  - inversion H; subst. destruct (fallback_orig q) as [E|E]; rewrite E; auto.
Qed.
Lemma NoDup_mid : forall A (a b : list A) x, NoDup (a ++ b) -> ~ In x (a ++ b) -> NoDup (a ++ x :: b).
Proof.
  induction a as [|y a IH]; simpl; intros b x H N; [constructor; auto|]. inversion H; subst. constructor.
  - rewrite in_app_iff in *. simpl. intros [G|[G|G]]; subst; tauto.
  - apply IH; tauto.
Qed.
Lemma step_inv : forall fs roots q o r q', q_step fs roots q o = (r, q') -> inv q -> inv q'.
Proof.
  intros fs roots q o r q' H (V1 & V2 & V3 & V4 & V5). pose proof (step_fields _ _ _ _ _ _ H) as [F1 F2]. unfold inv, names in *. rewrite F1, F2.
  destruct o; simpl; try (rewrite !app_nil_r; auto).
  - destruct r; simpl; try (rewrite !app_nil_r; auto). simpl in H. destruct (C20_add_input q name size m) as (A & B & C).
    destruct (C20_add_input q name size m) as (_ & _ & _). assert (K : in_ok q name size m /\ List.length (q_in q) < FIELD_MAX).
    { assert (in_ok q name size m). { unfold in_ok. unfold q_add_input in H. rewrite names_In, <- !dup_In. destruct (q_imm q); [discriminate|].
        destruct m; simpl in H; try (destruct (Z.eqb_spec size 1); simpl in H; [|discriminate]);
        destruct (dup name (q_in q)); [discriminate| |discriminate| |discriminate| |discriminate| |discriminate| |discriminate| ];
        destruct (dup name (q_out q)); try discriminate; (split; [auto|]); (split; [intros; auto; try discriminate|]); intros [|]; discriminate. }
      split; auto. destruct (Nat.lt_ge_cases (List.length (q_in q)) FIELD_MAX); auto. rewrite H in B. specialize (B (conj H0 H1)). discriminate. }
    destruct K as [(K1 & K2 & K3) K4]. rewrite app_length. simpl. split; [|split; [|split; [|split]]]; auto; [| |lia].
    + rewrite <- app_assoc. simpl. rewrite map_app. simpl. apply NoDup_mid; [now rewrite <- map_app|]. rewrite <- map_app. exact K3.
    + intros f Hf. apply in_app_iff in Hf. destruct Hf as [Hf|[Hf|[]]]; auto. subst f. simpl. auto.
  - destruct r; simpl; try (rewrite !app_nil_r; auto). simpl in H. destruct (C20_add_output q name size m) as (A & B & C).
    assert (K : out_ok q name m /\ List.length (q_out q) < FIELD_MAX).
    { assert (out_ok q name m). { unfold out_ok. unfold q_add_output in H. rewrite names_In, <- !dup_In. destruct (q_imm q); [discriminate|].
        destruct m; simpl in H; try discriminate;
        destruct (dup name (q_in q)); [discriminate| |discriminate| |discriminate| |discriminate| |discriminate| ];
        destruct (dup name (q_out q)); try discriminate; (split; [auto|]); (split; [intros; auto; try discriminate|]); intros [|]; discriminate. }
      split; auto. destruct (Nat.lt_ge_cases (List.length (q_out q)) FIELD_MAX); auto. rewrite H in B. specialize (B (conj H0 H1)). discriminate. }
    destruct K as [(K1 & K2 & K3) K4]. rewrite app_length. simpl. split; [|split; [|split; [|split]]]; auto; [| |lia].
    + rewrite app_assoc, map_app. simpl. apply NoDup_mid; rewrite app_nil_r; auto.
    + intros f Hf. apply in_app_iff in Hf. destruct Hf as [Hf|[Hf|[]]]; auto. subst f. simpl. auto.
Qed.
Lemma run_step : forall fs roots q o t rs qe, q_run fs roots q (o :: t) = (rs, qe) ->
  exists r q1, q_step fs roots q o = (r, q1) /\ ((r = UB /\ rs = [UB] /\ qe = q1) \/ (exists rs1, r <> UB /\ rs = r :: rs1 /\ q_run fs roots q1 t = (rs1, qe))).
Proof.
  intros fs roots q o t rs qe H. simpl in H. destruct (q_step fs roots q o) as [r q1] eqn:E. exists r, q1. split; auto.
  destruct r; [right|right|left].
  - destruct (q_run fs roots q1 t) as [rs1 q2] eqn:F. inversion H; subst. exists rs1. split; [discriminate|]. auto.
  - destruct (q_run fs roots q1 t) as [rs1 q2] eqn:F. inversion H; subst. exists rs1. split; [discriminate|]. auto.
  - inversion H; auto.
Qed.
Lemma run_inv : forall fs roots l q rs qe, q_run fs roots q l = (rs, qe) -> inv q -> inv qe.
Proof.
  intros fs roots. induction l as [|o t IH]; intros q rs qe H V; [inversion H; subst; auto|].
  destruct (run_step _ _ _ _ _ _ _ H) as (r & q1 & S1 & [(A & B & C)|(rs1 & A & B & C)]); pose proof (step_inv _ _ _ _ _ _ S1 V) as V1.
  - subst. auto.
  - eapply IH; eauto.
Qed.
Lemma create_inv : forall vlen src q, q_create vlen src = Ok q -> inv q /\ q_in q = [] /\ q_out q = [].
Proof.
  intros vlen src q H. unfold q_create in H. assert (q_in q = [] /\ q_out q = []) as [A B].
  { destruct src; [inversion H; auto|]. destruct (strrchr (a :: src) ":"); inversion H; auto. }
  unfold inv, names. rewrite A, B. simpl. repeat split; try lia; try constructor; tauto.
Qed.

(** Names are unique across inputs and outputs, a weight input has size one and no output is a weight, after any history. *)
Theorem C20_unique : forall fs roots vlen src q0 l rs q, q_create vlen src = Ok q0 -> q_run fs roots q0 l = (rs, q) ->
  NoDup (map qf_name (q_in q ++ q_out q)) /\ (forall f, In f (q_in q) -> qf_mode f = EvWeight -> qf_size f = 1%Z) /\
  (forall f, In f (q_out q) -> qf_mode f <> EvWeight) /\ List.length (q_in q) <= 16 /\ List.length (q_out q) <= 16.
Proof. intros fs roots vlen src q0 l rs q C H. apply (run_inv _ _ _ _ _ _ H). apply (create_inv _ _ _ C). Qed.

(** The field lists are exactly the accepted calls in the order of the calls. *)
Theorem C20_order : forall fs roots vlen src q0 l rs q, q_create vlen src = Ok q0 -> q_run fs roots q0 l = (rs, q) ->
  q_in q = flat_map (fun p => added_in (fst p) (snd p)) (combine l rs) /\
  q_out q = flat_map (fun p => added_out (fst p) (snd p)) (combine l rs).
Proof.
  intros fs roots vlen src q0 l rs q C H. destruct (create_inv _ _ _ C) as (_ & A & B).
  assert (G : forall l q0 rs q, q_run fs roots q0 l = (rs, q) -> q_in q = q_in q0 ++ flat_map (fun p => added_in (fst p) (snd p)) (combine l rs) /\
      q_out q = q_out q0 ++ flat_map (fun p => added_out (fst p) (snd p)) (combine l rs)).
  { clear. induction l as [|o t IH]; intros q0 rs q H; [inversion H; subst; simpl; rewrite !app_nil_r; auto|].
    destruct (run_step _ _ _ _ _ _ _ H) as (r & q1 & S1 & [(A & B & C)|(rs1 & A & B & C)]); destruct (step_fields _ _ _ _ _ _ S1) as [F1 F2].
    - subst. simpl. destruct t; simpl; rewrite !app_nil_r; auto.
    - subst rs. simpl. destruct (IH _ _ _ C) as [G1 G2]. rewrite G1, G2, F1, F2, !app_assoc. auto. }
  destruct (G _ _ _ _ H) as [G1 G2]. rewrite A in G1. rewrite B in G2. auto.
Qed.

(** A call that is rejected with an error leaves the QFunction as it was. *)
Theorem C20_rejected : forall fs roots q n s m c q',
  (q_step fs roots q (QAddIn n s m) = (Err c, q') -> q' = q) /\ (q_step fs roots q (QAddOut n s m) = (Err c, q') -> q' = q).
Proof.
  intros fs roots q n s m c q'. simpl. split; intros H.
  - unfold q_add_input in H. destruct (q_imm q); [inversion H; auto|]. destruct (match m with EvWeight => negb (s =? 1)%Z | _ => false end); [inversion H; auto|].
    destruct (dup n (q_in q)); [inversion H; auto|]. destruct (dup n (q_out q)); [inversion H; auto|]. destruct (List.length (q_in q) <? FIELD_MAX); inversion H.
  - unfold q_add_output in H. destruct (q_imm q); [inversion H; auto|]. destruct (match m with EvWeight => true | _ => false end); [inversion H; auto|].
    destruct (dup n (q_in q)); [inversion H; auto|]. destruct (dup n (q_out q)); [inversion H; auto|]. destruct (List.length (q_out q) <? FIELD_MAX); inversion H.
Qed.

Definition freezes (o : qop) : Prop := match o with QGetFields | QApply _ _ | QFallback => True | _ => False end.
Definition is_add (o : qop) : Prop := match o with QAddIn _ _ _ | QAddOut _ _ _ => True | _ => False end.
Lemma step_freezes : forall fs roots q o q', freezes o -> q_step fs roots q o = (Ok tt, q') -> q_imm q' = true.
Proof.
  intros fs roots q o q' F H. destruct o; try contradiction; simpl in H.
  - inversion H; auto.
  - unfold q_apply in H. destruct (q_vlen q =? 0)%Z; [discriminate|]. destruct (negb (Z.rem Q (q_vlen q) =? 0)%Z); [discriminate|]. inversion H; auto.
  - inversion H. rewrite fallback_orig_ok; auto.
Qed.
Lemma frozen_run : forall fs roots l q rs qe, q_imm q = true -> q_run fs roots q l = (rs, qe) ->
  q_in qe = q_in q /\ q_out qe = q_out q /\ (forall k o r, nth_error l k = Some o -> is_add o -> nth_error rs k = Some r -> r = Err ERR_MAJOR).
Proof.
  intros fs roots. induction l as [|o t IH]; intros q rs qe I H.
  - inversion H; subst. repeat split; auto. intros [|k] o r E; discriminate.
  - assert (Hadd : forall r q1, q_step fs roots q o = (r, q1) -> is_add o -> r = Err ERR_MAJOR).
    { intros r q1 Es Ha. destruct o; try contradiction; simpl in Es; [unfold q_add_input in Es|unfold q_add_output in Es]; rewrite I in Es; inversion Es; auto. }
    destruct (run_step _ _ _ _ _ _ _ H) as (r & q1 & S1 & [(A & B & C)|(rs1 & A & B & C)]); destruct (step_fields _ _ _ _ _ _ S1) as [F1 F2];
    pose proof (step_imm _ _ _ _ _ _ S1 I) as I1; specialize (Hadd _ _ S1).
    + subst. split; [|split].
      * rewrite F1. unfold added_in. destruct o; rewrite ?app_nil_r; auto.
      * rewrite F2. unfold added_out. destruct o; rewrite ?app_nil_r; auto.
      * intros [|k] o' r E Ha Er; simpl in *; [inversion E; subst; specialize (Hadd Ha); discriminate|]. destruct k; discriminate.
    + subst rs. destruct (IH _ _ _ I1 C) as (G1 & G2 & G3). split; [|split].
      * rewrite G1, F1. unfold added_in. destruct o; rewrite ?app_nil_r; auto. specialize (Hadd Logic.I). subst r. rewrite ?app_nil_r; auto.
      * rewrite G2, F2. unfold added_out. destruct o; rewrite ?app_nil_r; auto. specialize (Hadd Logic.I). subst r. rewrite ?app_nil_r; auto.
      * intros [|k] o' r' E Ha Er; simpl in *; [inversion E; inversion Er; subst; auto|]. eapply G3; eauto.
Qed.
Lemma run_app : forall fs roots l1 l2 q rs qe, q_run fs roots q (l1 ++ l2) = (rs, qe) ->
  List.length l1 < List.length rs -> exists rs1 q1 rs2, q_run fs roots q l1 = (rs1, q1) /\ List.length rs1 = List.length l1 /\ rs = rs1 ++ rs2 /\ q_run fs roots q1 l2 = (rs2, qe).
Proof.
  intros fs roots. induction l1 as [|o t IH]; simpl; intros l2 q rs qe H L.
  - exists [], q, rs. auto.
  - change (q_run fs roots q (o :: (t ++ l2)) = (rs, qe)) in H. destruct (run_step _ _ _ _ _ _ _ H) as (r & q1 & S1 & [(A & B & C)|(rs1 & A & B & C)]).
    + subst. simpl in L. lia.
    + subst rs. simpl in L. destruct (IH _ _ _ _ C) as (rs1' & q1' & rs2 & D1 & D2 & D3 & D4); [lia|]. exists (r :: rs1'), q1', rs2. rewrite S1, D1.
      split; [|split; [|split]]; simpl; auto; [|congruence]. destruct r; auto. exfalso; auto.
Qed.

(** After the first successful field query, application or fallback copy every later attempt to add a field
    fails with the "immutable" error and the field lists stay what they were before that call. *)
Theorem C20_frozen : forall fs roots vlen src q0 l1 o l2 rs q, q_create vlen src = Ok q0 -> freezes o ->
  q_run fs roots q0 (l1 ++ o :: l2) = (rs, q) -> nth_error rs (List.length l1) = Some (Ok tt) ->
  (exists rs1 q1, q_run fs roots q0 l1 = (rs1, q1) /\ q_in q = q_in q1 /\ q_out q = q_out q1) /\
  (forall k o' r, nth_error l2 k = Some o' -> is_add o' -> nth_error rs (S (List.length l1) + k) = Some r -> r = Err ERR_MAJOR).
Proof.
  intros fs roots vlen src q0 l1 o l2 rs q C Fz H N. assert (L : List.length l1 < List.length rs). { apply nth_error_Some. congruence. }
  destruct (run_app _ _ _ _ _ _ _ H L) as (rs1 & q1 & rs2 & D1 & D2 & D3 & D4).
  destruct (run_step _ _ _ _ _ _ _ D4) as (r & q2 & S1 & [(E1 & E2 & E3)|(rs3 & E1 & E2 & E3)]); subst rs rs2.
  - rewrite nth_error_app2 in N by lia. rewrite D2, Nat.sub_diag in N. simpl in N. discriminate.
  - rewrite nth_error_app2 in N by lia. rewrite D2, Nat.sub_diag in N. simpl in N. inversion N; subst r.
    pose proof (step_freezes _ _ _ _ _ Fz S1) as I. destruct (step_fields _ _ _ _ _ _ S1) as [F1 F2]. destruct (frozen_run _ _ _ _ _ _ I E3) as (G1 & G2 & G3). split.
    + exists rs1, q1. split; auto. rewrite G1, G2, F1, F2. destruct o; try contradiction; simpl; rewrite !app_nil_r; auto.
    + intros k o' r A B D. rewrite nth_error_app2 in D by lia. rewrite D2 in D. replace (S (List.length l1) + k - List.length l1) with (S k) in D by lia. simpl in D. eapply G3; eauto.
Qed.
Print Assumptions C20_add_input. Print Assumptions C20_add_output. Print Assumptions C20_unique. Print Assumptions C20_order. Print Assumptions C20_rejected. Print Assumptions C20_frozen.

Definition nofs : fsys := fun _ => false.
Definition ex_hist : list qop := [QAddIn (lit "u") 2 EvInterp; QAddIn (lit "w") 2 EvWeight; QAddOut (lit "u") 1 EvNone; QAddIn (lit "w") 1 EvWeight;
  QAddOut (lit "v") 2 EvInterp; QGetFields; QAddOut (lit "z") 1 EvNone].
Example C20_ex : exists q0 rs q, q_create 1 [] = Ok q0 /\ q_run nofs [] q0 ex_hist = (rs, q) /\
  rs = [Ok tt; Err ERR_DIMENSION; Err ERR_MINOR; Ok tt; Ok tt; Ok tt; Err ERR_MAJOR] /\ map qf_name (q_in q) = [lit "u"; lit "w"] /\ map qf_name (q_out q) = [lit "v"].
Proof. do 3 eexists. split; [reflexivity|]. split; [vm_compute; reflexivity|]. repeat split; reflexivity. Qed.

(** Finding: the seventeenth field passes every check and is written past the array. *)
Theorem C20_seventeenth_refuted : exists q0 l, q_create 1 [] = Ok q0 /\ NoDup (map (fun o => match o with QAddIn n _ _ => n | _ => [] end) l) /\ List.length l = 17 /\
  (forall o, In o l -> match o with QAddIn _ s m => s = 1%Z /\ m = EvNone | _ => False end) /\ nth_error (fst (q_run nofs [] q0 l)) 16 = Some UB.
Proof.
  exists (mkQFun 1 [] [] false None None None), (map (fun k => QAddIn (repeat "x" k) 1 EvNone) (seq 0 17)). split; [reflexivity|]. split; [|split; [reflexivity|split]].
  - rewrite map_map. apply FinFun.Injective_map_NoDup; [|apply seq_NoDup]. intros a b E. rewrite <- (repeat_length "x" a), <- (repeat_length "x" b). congruence.
  - intros o H. apply in_map_iff in H as (k & <- & _). auto.
  - vm_compute. reflexivity.
Qed.
Print Assumptions C20_seventeenth_refuted.

(** ** C21: source strings *)
(** The path the files system search should give for a relative or absolute path [p]: [p] itself if it can be opened,
    otherwise [p] in the directory of the first root (in order) where it can be opened. *)
Inductive resolves (fs : fsys) : list str -> str -> str -> Prop :=
| res_abs : forall roots p, fs p = true -> resolves fs roots p p
| res_root : forall pre d b post p, fs p = false ->
    (forall r, In r pre -> exists d' b', r = d' ++ "/" :: b' /\ ~ In "/" b' /\ fs (d' ++ "/" :: p) = false) ->
    ~ In "/" b -> fs (d ++ "/" :: p) = true -> resolves fs (pre ++ (d ++ "/" :: b) :: post) p (d ++ "/" :: p).

Lemma firstn_app_exact : forall A (a b : list A), firstn (List.length a) (a ++ b) = a.
Proof. intros. rewrite firstn_app, Nat.sub_diag, firstn_all. simpl. apply app_nil_r. Qed.
Lemma skipn_app_exact : forall A (a b : list A), skipn (List.length a) (a ++ b) = b.
Proof. intros. rewrite skipn_app, Nat.sub_diag, skipn_all. reflexivity. Qed.
Lemma check_colon : forall fs p n, ~ In ":" n -> check_file_path fs (p ++ ":" :: n) = fs p.
Proof. intros. unfold check_file_path. rewrite strrchr_app, firstn_app_exact; auto. Qed.
Lemma concat_ok : forall d b rel, ~ In "/" b -> path_concat (d ++ "/" :: b) rel = Ok (d ++ "/" :: rel).
Proof.
  intros d b rel H. unfold path_concat. rewrite strrchr_app by auto. f_equal. change (d ++ "/" :: b) with (d ++ ["/"] ++ b). rewrite app_assoc.
  rewrite firstn_app. replace (S (List.length d) - List.length (d ++ ["/"])) with 0 by (rewrite app_length; cbn [List.length]; lia).
  rewrite firstn_all2 by (rewrite app_length; simpl; lia). simpl. rewrite app_nil_r, <- app_assoc. reflexivity.
Qed.
Lemma jit_spec : forall fs p n, ~ In ":" n -> forall pre d b post,
  (forall r, In r pre -> exists d' b', r = d' ++ "/" :: b' /\ ~ In "/" b' /\ fs (d' ++ "/" :: p) = false) -> ~ In "/" b -> fs (d ++ "/" :: p) = true ->
  jit_absolute fs (pre ++ (d ++ "/" :: b) :: post) (p ++ ":" :: n) = Ok ((d ++ "/" :: p) ++ ":" :: n).
Proof.
  intros fs p n Hn. induction pre as [|r pre IH]; simpl; intros d b post Hp Hb Hf.
  - rewrite concat_ok by auto. change ("/" :: p ++ ":" :: n) with (("/" :: p) ++ ":" :: n). rewrite app_assoc, check_colon, Hf by auto. reflexivity.
  - destruct (Hp r) as (d' & b' & E & Hb' & Hf'); auto. subst r. rewrite concat_ok by auto. change ("/" :: p ++ ":" :: n) with (("/" :: p) ++ ":" :: n).
    rewrite app_assoc, check_colon, Hf' by auto. apply IH; auto.
Qed.
Lemma resolves_len : forall fs roots p P n, ~ In ":" n -> resolves fs roots p P ->
  (if check_file_path fs (p ++ ":" :: n) then @Ok str (p ++ ":" :: n) else jit_absolute fs roots (p ++ ":" :: n)) = Ok (P ++ ":" :: n).
Proof.
  intros fs roots p P n Hn H. inversion H; subst.
  - rewrite check_colon, H0; auto.
  - rewrite check_colon, H0 by auto. apply jit_spec; auto.
Qed.
Lemma resolves_fs : forall fs roots p P, resolves fs roots p P -> fs P = true.
Proof. intros fs roots p P H. inversion H; auto. Qed.
Lemma resolves_det : forall fs roots p P P', resolves fs roots p P -> resolves fs roots p P' -> P = P'.
Proof.
  intros fs roots p P P' H H'. pose proof (resolves_len _ _ _ _ [] (fun x => x) H) as A. pose proof (resolves_len _ _ _ _ [] (fun x => x) H') as B.
  rewrite A in B. inversion B. apply app_inv_tail in H1. exact H1.
Qed.
Lemma jit_Ok_inv : forall fs p n, ~ In ":" n -> fs p = false -> forall roots a, jit_absolute fs roots (p ++ ":" :: n) = Ok a -> exists P, a = P ++ ":" :: n /\ resolves fs roots p P.
Proof.
  intros fs p n Hn Hf. induction roots as [|r roots IH]; simpl; intros a H; [discriminate|]. unfold path_concat in H.
  destruct (strrchr r "/") as [i|] eqn:E; [|discriminate]. destruct (strrchr_Some _ _ E) as (A & B & C).
  assert (F : firstn (S i) r = firstn i r ++ ["/"]). { rewrite A at 1. rewrite firstn_app, firstn_length_le by lia. replace (S i - i) with 1 by lia.
    rewrite firstn_all2 by (rewrite firstn_length_le; lia). reflexivity. }
  rewrite F in H. assert (G : (firstn i r ++ ["/"]) ++ p ++ ":" :: n = (firstn i r ++ "/" :: p) ++ ":" :: n). { rewrite <- !app_assoc. reflexivity. }
  rewrite G, check_colon in H by auto. clear F G C E. revert A B H. generalize (firstn i r) as d0, (skipn (S i) r) as b0. intros d0 b0 A B H. subst r. destruct (fs (d0 ++ "/" :: p)) eqn:K.
  - inversion H; subst. eexists. split; [reflexivity|]. apply (res_root fs [] d0 b0 roots p); auto. intros ? [].
  - destruct (IH a H) as (P & -> & HP). exists P. split; auto. inversion HP; subst; [congruence|].
    apply (res_root fs ((d0 ++ "/" :: b0) :: pre) d b post p); auto. intros r' [<-|Hr]; auto. exists d0, b0. auto.
Qed.

(** What a history keeps: the source string, a correct cached kernel name, a correct cached path *)
Definition sinv (fs : fsys) (roots : list str) (p n : str) (q : qfun) : Prop :=
  q_user q = Some (p ++ ":" :: n) /\ (q_kname q = None \/ q_kname q = Some n) /\
  (q_path q = None \/ exists P, q_path q = Some P /\ resolves fs roots p P).
Lemma sinv_eq : forall fs roots p n q q', q_user q' = q_user q -> q_kname q' = q_kname q -> q_path q' = q_path q -> sinv fs roots p n q -> sinv fs roots p n q'.
Proof. unfold sinv. intros fs roots p n q q' A B C H. rewrite A, B, C. exact H. Qed.
Lemma kernel_spec : forall fs roots p n q, ~ In ":" n -> sinv fs roots p n q -> fst (q_get_kernel_name q) = Ok n /\ sinv fs roots p n (snd (q_get_kernel_name q)).
Proof.
  intros fs roots p n q Hn (U & K & P). unfold q_get_kernel_name. destruct K as [K|K]; rewrite K.
  - rewrite U, strrchr_app by auto. assert (E : skipn (S (List.length p)) (p ++ ":" :: n) = n).
    { change (p ++ ":" :: n) with (p ++ [":"] ++ n). rewrite app_assoc. replace (S (List.length p)) with (List.length (p ++ [":"])) by (rewrite app_length; simpl; lia). apply skipn_app_exact. }
    rewrite E. simpl. split; auto. unfold sinv. simpl. auto.
  - simpl. split; auto. unfold sinv. auto.
Qed.
Lemma path_spec : forall fs roots p n q, ~ In ":" n -> sinv fs roots p n q ->
  sinv fs roots p n (snd (q_get_source_path fs roots q)) /\ (forall P, resolves fs roots p P -> fst (q_get_source_path fs roots q) = Ok (Some P)) /\
  (q_path q = None -> fst (q_get_source_path fs roots q) = match (if check_file_path fs (p ++ ":" :: n) then @Ok str (p ++ ":" :: n) else jit_absolute fs roots (p ++ ":" :: n)) with
     Ok a => Ok (Some (firstn (List.length a - List.length n - 1) a)) | Err c => Err c | UB => UB end).
Proof.
  intros fs roots p n q Hn (U & K & P). unfold q_get_source_path. destruct P as [P|(P0 & P & R)]; rewrite P.
  - rewrite U, strrchr_app by auto. assert (E : skipn (S (List.length p)) (p ++ ":" :: n) = n).
    { change (p ++ ":" :: n) with (p ++ [":"] ++ n). rewrite app_assoc. replace (S (List.length p)) with (List.length (p ++ [":"])) by (rewrite app_length; simpl; lia). apply skipn_app_exact. }
    rewrite E. destruct (if check_file_path fs (p ++ ":" :: n) then @Ok str (p ++ ":" :: n) else jit_absolute fs roots (p ++ ":" :: n)) as [a|c|] eqn:F.
    + assert (exists P, a = P ++ ":" :: n /\ resolves fs roots p P) as (P1 & -> & R1).
      { destruct (check_file_path fs (p ++ ":" :: n)) eqn:G.
        - inversion F; subst. exists p. split; auto. apply res_abs. rewrite check_colon in G; auto.
        - rewrite check_colon in G by auto. eapply jit_Ok_inv; eauto. }
      assert (L : firstn (List.length (P1 ++ ":" :: n) - List.length n - 1) (P1 ++ ":" :: n) = P1).
      { rewrite app_length. simpl. replace (List.length P1 + S (List.length n) - List.length n - 1) with (List.length P1) by lia. apply firstn_app_exact. }
      rewrite L. simpl. split; [|split; auto].
      * unfold sinv. simpl. split; [auto|]. split; [auto|]. right. exists P1. auto.
      * intros P2 R2. rewrite (resolves_det _ _ _ _ _ R1 R2). reflexivity.
    + simpl. split; [unfold sinv; auto|]. split; auto. intros P1 R1. rewrite (resolves_len _ _ _ _ n Hn R1) in F. discriminate.
    + simpl. split; [unfold sinv; auto|]. split; auto. intros P1 R1. rewrite (resolves_len _ _ _ _ n Hn R1) in F. discriminate.
  - simpl. split; [unfold sinv; split; auto; split; auto; right; exists P0; auto|]. split; [|intros; congruence].
    intros P1 R1. rewrite (resolves_det _ _ _ _ _ R R1). reflexivity.
Qed.
Lemma step_sinv : forall fs roots p n q o r q', ~ In ":" n -> q_step fs roots q o = (r, q') -> sinv fs roots p n q -> sinv fs roots p n q'.
Proof.
  intros fs roots p n q o r q' Hn H V. destruct o; simpl in H.
  - unfold q_add_input in H. destruct (q_imm q); [inversion H; subst; auto|]. destruct (match m with EvWeight => negb (size =? 1)%Z | _ => false end); [inversion H; subst; auto|].
    destruct (dup name (q_in q)); [inversion H; subst; auto|]. destruct (dup name (q_out q)); [inversion H; subst; auto|]. destruct (List.length (q_in q) <? FIELD_MAX); inversion H; subst; auto.
  - unfold q_add_output in H. destruct (q_imm q); [inversion H; subst; auto|]. destruct (match m with EvWeight => true | _ => false end); [inversion H; subst; auto|].
    destruct (dup name (q_in q)); [inversion H; subst; auto|]. destruct (dup name (q_out q)); [inversion H; subst; auto|]. destruct (List.length (q_out q) <? FIELD_MAX); inversion H; subst; auto.
  - inversion H; subst. auto.
  - unfold q_apply in H. destruct (q_vlen q =? 0)%Z; [inversion H; subst; auto|]. destruct (negb (Z.rem Q (q_vlen q) =? 0)%Z); inversion H; subst; auto.
  - inversion H; subst. apply (kernel_spec fs roots p n q Hn V).
  - inversion H; subst. apply (path_spec fs roots p n q Hn V).
  - inversion H; subst. destruct (fallback_orig q) as [E|E]; rewrite E; auto.
Qed.
Lemma run_sinv : forall fs roots p n, ~ In ":" n -> forall l q rs qe, q_run fs roots q l = (rs, qe) -> sinv fs roots p n q -> sinv fs roots p n qe.
Proof.
  intros fs roots p n Hn. induction l as [|o t IH]; intros q rs qe H V; [inversion H; subst; auto|].
  destruct (run_step _ _ _ _ _ _ _ H) as (r & q1 & S1 & [(A & B & C)|(rs1 & A & B & C)]); pose proof (step_sinv _ _ _ _ _ _ _ _ Hn S1 V) as V1.
  - subst. auto.
  - eapply IH; eauto.
Qed.
Lemma create_split : forall vlen p n, q_create vlen (p ++ ":" :: n) = Ok (mkQFun vlen [] [] false (Some (p ++ ":" :: n)) None None).
Proof.
  intros. unfold q_create. destruct (p ++ ":" :: n) as [|a t] eqn:E; [destruct p; discriminate|]. rewrite <- E. destruct (strrchr (p ++ ":" :: n) ":") eqn:F; auto.
  apply strrchr_None in F. exfalso. apply F. apply in_app_iff. simpl. auto.
Qed.

(** A source is accepted exactly if it is empty or contains a colon. *)
Theorem C21_accept : forall vlen s, (exists q, q_create vlen s = Ok q) <-> s = [] \/ exists p n, s = p ++ ":" :: n /\ ~ In ":" n.
Proof.
  intros vlen s. split.
  - intros (q & H). unfold q_create in H. destruct s as [|a s]; auto. right. destruct (strrchr (a :: s) ":") as [i|] eqn:E; [|discriminate].
    destruct (strrchr_Some _ _ E) as (A & B & _). eauto.
  - intros [->|(p & n & -> & _)]; [eexists; reflexivity|]. eexists. apply create_split.
Qed.

(** Kernel name and path after any history: the part after the last colon, and the file the search finds for the part before it. *)
Theorem C21_split : forall fs roots vlen p n q0 l rs q, ~ In ":" n -> q_create vlen (p ++ ":" :: n) = Ok q0 -> q_run fs roots q0 l = (rs, q) ->
  fst (q_get_kernel_name q) = Ok n /\ forall P, resolves fs roots p P -> fst (q_get_source_path fs roots q) = Ok (Some P).
Proof.
  intros fs roots vlen p n q0 l rs q Hn C H. rewrite create_split in C. inversion C; subst q0.
  assert (V : sinv fs roots p n q). { eapply run_sinv; eauto. unfold sinv; simpl; auto. }
  split; [apply (kernel_spec fs roots p n q Hn V)|apply (path_spec fs roots p n q Hn V)].
Qed.
(** In particular an openable absolute path is returned unchanged. *)
Corollary C21_absolute : forall fs roots vlen p n q0 l rs q, ~ In ":" n -> fs p = true -> q_create vlen (p ++ ":" :: n) = Ok q0 -> q_run fs roots q0 l = (rs, q) ->
  fst (q_get_source_path fs roots q) = Ok (Some p).
Proof. intros. eapply C21_split; eauto. constructor. auto. Qed.

Lemma add_inputs_ok : forall l q, q_imm q = false -> NoDup (names q ++ map qf_name l) -> (forall f, In f l -> qf_mode f = EvWeight -> qf_size f = 1%Z) ->
  List.length (q_in q) + List.length l <= FIELD_MAX -> q_out q = [] -> add_inputs q l = (Ok tt, q_with_in q (q_in q ++ l)).
Proof.
  induction l as [|f l IH]; intros q I N W L O; simpl.
  - rewrite app_nil_r. destruct q; reflexivity.
  - destruct (C20_add_input q (qf_name f) (qf_size f) (qf_mode f)) as (A & _ & _). rewrite A.
    + rewrite IH; simpl; auto.
      * f_equal. unfold q_with_in. simpl. rewrite <- app_assoc. destruct f; reflexivity.
      * unfold names in *. simpl in *. rewrite O in *. rewrite app_nil_r in *. rewrite map_app. simpl. rewrite <- app_assoc. simpl. exact N.
      * intros g Hg. apply W. simpl. auto.
      * rewrite app_length. simpl in *. lia.
    + split; [|simpl in L; lia]. split; auto. split; [apply W; simpl; auto|]. simpl in N. apply NoDup_remove_2 in N. rewrite in_app_iff in N. tauto.
Qed.
Lemma add_outputs_ok : forall l q, q_imm q = false -> NoDup (names q ++ map qf_name l) -> (forall f, In f l -> qf_mode f <> EvWeight) ->
  List.length (q_out q) + List.length l <= FIELD_MAX -> add_outputs q l = (Ok tt, q_with_out q (q_out q ++ l)).
Proof.
  induction l as [|f l IH]; intros q I N W L; simpl.
  - rewrite app_nil_r. destruct q; reflexivity.
  - destruct (C20_add_output q (qf_name f) (qf_size f) (qf_mode f)) as (A & _ & _). rewrite A.
    + rewrite IH; simpl; auto.
      * f_equal. unfold q_with_out. simpl. rewrite <- app_assoc. destruct f; reflexivity.
      * unfold names in *. simpl in *. rewrite !map_app in *. simpl. rewrite <- !app_assoc in *. simpl. exact N.
      * intros g Hg. apply W. simpl. auto.
      * rewrite app_length. simpl in *. lia.
    + split; [|simpl in L; lia]. split; auto. split; [apply W; simpl; auto|]. simpl in N. apply NoDup_remove_2 in N. rewrite in_app_iff in N. tauto.
Qed.

(** The fallback QFunction has the same vector length, fields, kernel name and source path, provided the kernel name was
    queried before if the source path was. *)
Theorem C21_fallback : forall fs roots vlen p n q0 l rs q, ~ In ":" n -> q_create vlen (p ++ ":" :: n) = Ok q0 -> q_run fs roots q0 l = (rs, q) ->
  (q_path q <> None -> q_kname q <> None) ->
  exists qb, fst (q_fallback q) = Ok qb /\ q_vlen qb = q_vlen q /\ q_in qb = q_in q /\ q_out qb = q_out q /\ q_imm qb = false /\
    fst (q_get_kernel_name qb) = Ok n /\ fst (q_get_source_path fs roots qb) = fst (q_get_source_path fs roots q).
Proof.
  intros fs roots vlen p n q0 l rs q Hn C H Hk. pose proof (run_inv _ _ _ _ _ _ H (proj1 (create_inv _ _ _ C))) as (I1 & I2 & I3 & I4 & I5).
  rewrite create_split in C. inversion C; subst q0. assert (V : sinv fs roots p n q). { eapply run_sinv; eauto. unfold sinv; simpl; auto. }
  assert (G : forall P, let qb := mkQFun (q_vlen q) [] [] false (Some (P ++ ":" :: n)) None None in fallback_source q = Ok (P ++ ":" :: n) ->
     fst (q_fallback q) = Ok (q_with_out (q_with_in qb (q_in q)) (q_out q))).
  { intros P qb Hs. unfold q_fallback. rewrite Hs, create_split. simpl. unfold names in I1. rewrite map_app in I1.
    rewrite add_inputs_ok; simpl; auto; try (unfold names; simpl). 2:{ clear - I1. induction (map qf_name (q_in q)); [constructor|]. simpl in I1. inversion I1; subst. constructor; auto. rewrite in_app_iff in H1. tauto. }
    rewrite add_outputs_ok; simpl; auto. unfold names. simpl. rewrite app_nil_r. exact I1. }
  destruct V as (U & K & Pp). destruct Pp as [Pp|(P & Pp & R)].
  - assert (Hs : fallback_source q = Ok (p ++ ":" :: n)). { unfold fallback_source. rewrite Pp, U. reflexivity. }
    eexists. split; [apply (G p Hs)|]. repeat (split; [reflexivity|]).
    assert (Vb : sinv fs roots p n (q_with_out (q_with_in (mkQFun (q_vlen q) [] [] false (Some (p ++ ":" :: n)) None None) (q_in q)) (q_out q))) by (unfold sinv; simpl; auto).
    split; [apply (kernel_spec fs roots p n _ Hn Vb)|]. destruct (path_spec fs roots p n _ Hn Vb) as (_ & _ & E1).
    assert (Va : sinv fs roots p n q) by (unfold sinv; auto). destruct (path_spec fs roots p n q Hn Va) as (_ & _ & E2). rewrite E1, E2; auto.
  - destruct K as [K|K]; [exfalso; apply Hk; congruence|]. assert (Hs : fallback_source q = Ok (P ++ ":" :: n)). { unfold fallback_source. rewrite Pp, K. reflexivity. }
    eexists. split; [apply (G P Hs)|]. repeat (split; [reflexivity|]).
    assert (Vb : sinv fs roots P n (q_with_out (q_with_in (mkQFun (q_vlen q) [] [] false (Some (P ++ ":" :: n)) None None) (q_in q)) (q_out q))) by (unfold sinv; simpl; auto).
    split; [apply (kernel_spec fs roots P n _ Hn Vb)|]. destruct (path_spec fs roots P n _ Hn Vb) as (_ & E1 & _). rewrite (E1 P).
    + unfold q_get_source_path. rewrite Pp. reflexivity.
    + apply res_abs. eapply resolves_fs; eauto.
Qed.
Print Assumptions C21_accept. Print Assumptions C21_split. Print Assumptions C21_absolute. Print Assumptions C21_fallback.

Definition ex_fs : fsys := fun s => seqb s (lit "/opt/jit/a:b/k.h") || seqb s (lit "/opt/jit/dir/f.h").
Example C21_ex : exists q0, q_create 1 (lit "a:b/k.h:mass") = Ok q0 /\ ~ In ":" (lit "mass") /\ resolves ex_fs [lit "/usr/"; lit "/opt/jit/"] (lit "a:b/k.h") (lit "/opt/jit/a:b/k.h") /\
  fst (q_get_source_path ex_fs [lit "/usr/"; lit "/opt/jit/"] q0) = Ok (Some (lit "/opt/jit/a:b/k.h")) /\
  fst (q_run ex_fs [lit "/usr/"; lit "/opt/jit/"] q0 [QKernelName; QSourcePath; QFallback]) = [Ok tt; Ok tt; Ok tt].
Proof.
  eexists. split; [reflexivity|]. split. { intros H. simpl in H. repeat destruct H as [H|H]; try discriminate. exact H. }
  split. { apply (res_root ex_fs [lit "/usr/"] (lit "/opt/jit") [] []); auto. intros r [<-|[]]. exists (lit "/usr"), []. repeat split; auto. }
  split; vm_compute; reflexivity.
Qed.

(** Finding: a fallback copy after only the source path was queried takes the length of a NULL kernel name. *)
Theorem C21_fallback_refuted : exists q0, q_create 1 (lit "/opt/jit/dir/f.h:mass") = Ok q0 /\ q_run ex_fs [] q0 [QSourcePath; QFallback] = ([Ok tt; UB], snd (q_get_source_path ex_fs [] q0)).
Proof. eexists. split; [reflexivity|]. vm_compute. reflexivity. Qed.
(** Finding: a JiT root directory given without a trailing slash is searched in its parent: the file is not found though it exists below the root. *)
Theorem C21_root_refuted : exists q0, q_create 1 (lit "dir/f.h:mass") = Ok q0 /\ ex_fs (lit "/opt/jit" ++ lit "/" ++ lit "dir/f.h") = true /\
  fst (q_get_source_path ex_fs [lit "/opt/jit"] q0) = Err ERR_MAJOR.
Proof. eexists. split; [reflexivity|]. split; [reflexivity|]. vm_compute. reflexivity. Qed.
Print Assumptions C21_fallback_refuted. Print Assumptions C21_root_refuted.

(** ** C22: lookup *)
Definition starts (s t : str) : Prop := exists rest, t = s ++ rest.
(** the requested resource up to the first colon *)
Definition stem (r : str) : str := firstn (stem_length r) r.
Lemma stem_app : forall r, exists rest, r = stem r ++ rest /\ ~ In ":" (stem r) /\ (rest = [] \/ exists t, rest = ":" :: t).
Proof.
  unfold stem. induction r as [|c r (rest & A & B & C)]; simpl; [exists []; auto|]. destruct (Ascii.eqb c ":") eqn:E.
  - apply Ascii.eqb_eq in E. subst. simpl. exists (":" :: r). split; auto. split; auto. right. eauto.
  - simpl. exists rest. split; [congruence|]. split; auto. intros [G|G]; [subst; discriminate|auto].
Qed.
Lemma stem_len : forall r, List.length (stem r) = stem_length r.
Proof. intros r. unfold stem. rewrite firstn_length_le; auto. induction r as [|c r IH]; simpl; auto. destruct (Ascii.eqb c ":"); simpl; lia. Qed.
Lemma common_stem : forall p r, ~ In ":" p -> common p r <= stem_length r.
Proof.
  induction p as [|x p IH]; intros [|y r] H; simpl; try lia. destruct (Ascii.eqb x y) eqn:E; [|lia]. apply Ascii.eqb_eq in E. subst.
  destruct (Ascii.eqb y ":") eqn:F; [apply Ascii.eqb_eq in F; subst; exfalso; apply H; simpl; auto|]. apply le_n_S, IH. simpl in H. tauto.
Qed.
Lemma common_starts : forall p r, ~ In ":" p -> (common p r = stem_length r <-> starts (stem r) p).
Proof.
  intros p r Hp. split.
  - intros E. exists (skipn (stem_length r) p). unfold stem. rewrite <- E, <- common_firstn. symmetry. apply firstn_skipn.
  - intros (rest & E). apply Nat.le_antisymm; [apply common_stem; auto|]. apply common_max.
    + rewrite E, app_length, stem_len. lia.
    + rewrite <- stem_len. destruct (stem_app r) as (t & A & _). rewrite A at 2. rewrite app_length. lia.
    + rewrite E. rewrite <- stem_len at 1. rewrite firstn_app_exact. reflexivity.
Qed.

(** the loop keeps the best candidate: longest match, then lowest priority, then first *)
Definition bestof (r : str) (pre : list backend) (best : nat * Z * option nat) : Prop :=
  let '(ml, mp, mi) := best in
  (forall b, In b pre -> common (be_prefix b) r <= ml) /\
  match mi with
  | None => ml = 0 /\ mp = MAX_PRIO /\ (forall b, In b pre -> (MAX_PRIO <= be_prio b)%Z)
  | Some i => exists b, nth_error pre i = Some b /\ common (be_prefix b) r = ml /\ be_prio b = mp /\
      (forall j b', nth_error pre j = Some b' -> common (be_prefix b') r = ml -> (be_prio b <= be_prio b')%Z /\ (j < i -> (0 < ml \/ (be_prio b < MAX_PRIO)%Z) -> (be_prio b < be_prio b')%Z))
  end.
Lemma find_backend_best : forall r l pre best, bestof r pre best -> bestof r (pre ++ l) (find_backend r (List.length pre) l best).
Proof.
  intros r. induction l as [|b l IH]; intros pre best H; [simpl; rewrite app_nil_r; auto|]. simpl. destruct best as [[ml mp] mi].
  assert (K : bestof r (pre ++ [b]) (if (ml <? common (be_prefix b) r) || ((common (be_prefix b) r =? ml) && (be_prio b <? mp)%Z) then (common (be_prefix b) r, be_prio b, Some (List.length pre)) else (ml, mp, mi))).
  { destruct H as [H1 H2]. destruct (Nat.ltb_spec ml (common (be_prefix b) r)) as [L|L]; simpl.
    - split. { intros c Hc. apply in_app_iff in Hc. destruct Hc as [Hc|[<-|[]]]; auto. specialize (H1 c Hc). lia. }
      exists b. rewrite nth_error_app2, Nat.sub_diag by lia. repeat split; auto.
      + destruct (Nat.lt_ge_cases j (List.length pre)) as [G|G].
        * rewrite nth_error_app1 in H by auto. apply nth_error_In in H. specialize (H1 _ H). lia.
        * rewrite nth_error_app2 in H by auto. destruct (j - List.length pre) as [|k]; simpl in H; [inversion H; subst; lia|destruct k; discriminate].
      + intros G _. rewrite nth_error_app1 in H by auto. apply nth_error_In in H. specialize (H1 _ H). lia.
    - destruct (Nat.eqb_spec (common (be_prefix b) r) ml) as [E|E]; simpl.
      + destruct (Z.ltb_spec (be_prio b) mp) as [Q|Q].
        * split. { intros c Hc. apply in_app_iff in Hc. rewrite E. destruct Hc as [Hc|[<-|[]]]; auto; lia. }
          exists b. rewrite nth_error_app2, Nat.sub_diag by lia. split; auto. split; auto. split; auto. intros j b' Hj Cj.
          destruct (Nat.lt_ge_cases j (List.length pre)) as [G|G].
          -- rewrite nth_error_app1 in Hj by auto. destruct mi as [i|].
             ++ destruct H2 as (b0 & A & B & C & D). destruct (D j b' Hj) as [D1 D2]; [lia|]. rewrite C in D1. split; intros; lia.
             ++ destruct H2 as (-> & -> & D). apply nth_error_In in Hj. specialize (D _ Hj). split; intros; lia.
          -- rewrite nth_error_app2 in Hj by auto. destruct (j - List.length pre) as [|k]; simpl in Hj; [inversion Hj; subst; split; intros; lia|destruct k; discriminate].
        * split. { intros c Hc. apply in_app_iff in Hc. destruct Hc as [Hc|[<-|[]]]; auto; lia. }
          destruct mi as [i|].
          -- destruct H2 as (b0 & A & B & C & D). exists b0. rewrite nth_error_app1 by (apply nth_error_Some; congruence). split; auto. split; auto. split; auto. intros j b' Hj Cj.
             destruct (Nat.lt_ge_cases j (List.length pre)) as [G|G].
             ++ rewrite nth_error_app1 in Hj by auto. eauto.
             ++ assert (i < List.length pre) by (apply nth_error_Some; congruence). rewrite nth_error_app2 in Hj by auto. destruct (j - List.length pre) as [|k] eqn:J; simpl in Hj; [inversion Hj; subst; split; intros; lia|destruct k; discriminate].
          -- destruct H2 as (-> & -> & D). split; auto. split; auto. intros c Hc. apply in_app_iff in Hc. destruct Hc as [Hc|[<-|[]]]; auto.
      + split. { intros c Hc. apply in_app_iff in Hc. destruct Hc as [Hc|[<-|[]]]; auto. }
        destruct mi as [i|]; [|lia]. destruct H2 as (b0 & A & B & C & D). exists b0. rewrite nth_error_app1 by (apply nth_error_Some; congruence). split; auto. split; auto. split; auto. intros j b' Hj Cj.
        destruct (Nat.lt_ge_cases j (List.length pre)) as [G|G].
        * rewrite nth_error_app1 in Hj by auto. eauto.
        * rewrite nth_error_app2 in Hj by auto. destruct (j - List.length pre) as [|k] eqn:J; simpl in Hj; [inversion Hj; subst; lia|destruct k; discriminate]. }
  specialize (IH _ _ K). rewrite app_length, Nat.add_1_r, <- app_assoc in IH. simpl in IH. exact IH.
Qed.

(** the resource without the "help:" prefix *)
Definition request (resource : str) : str := if common (lit "help") resource =? 4 then skipn 5 resource else resource.
Definition candidate (tbl : list backend) (resource : str) (i : nat) (b : backend) : Prop :=
  nth_error tbl i = Some b /\ starts (stem (request resource)) (be_prefix b).
(** CeedInit chooses backend [i] exactly if the requested stem has at least two characters, backend [i] starts with it,
    no other candidate has a smaller priority number and no earlier candidate has the same. *)
Theorem C22_init : forall tbl resource i, (forall b, In b tbl -> ~ In ":" (be_prefix b)) -> resource <> lit "help" ->
  (ceed_find tbl resource = Ok i <->
   2 <= List.length (stem (request resource)) /\ exists b, candidate tbl resource i b /\
     forall j b', candidate tbl resource j b' -> (be_prio b <= be_prio b')%Z /\ (j < i -> (be_prio b < be_prio b')%Z)).
Proof.
  intros tbl resource i Hc Hh. unfold candidate. set (r := request resource).
  assert (E : ceed_find tbl resource = let '(ml, _, mi) := find_backend r 0 tbl (0, MAX_PRIO, None) in
    if (ml <=? 1) || negb (ml =? stem_length r) then match tbl with [] => UB | _ => Err ERR_MAJOR end else match mi with Some i => Ok i | None => UB end).
  { unfold ceed_find, r, request. destruct (common (lit "help") resource =? 4) eqn:F; auto. destruct (List.length resource =? 4) eqn:G; auto. exfalso. apply Hh.
    apply Nat.eqb_eq in F, G. pose proof (common_firstn (lit "help") resource) as A. rewrite F in A. rewrite (firstn_all2 resource) in A by lia. symmetry. exact A. }
  rewrite E. clear E. pose proof (find_backend_best r tbl [] (0, MAX_PRIO, None)) as B. simpl in B. assert (B0 : (forall b : backend, In b [] -> common (be_prefix b) r <= 0) /\ 0 = 0 /\ MAX_PRIO = MAX_PRIO /\ (forall b : backend, In b [] -> (MAX_PRIO <= be_prio b)%Z)) by (repeat split; intros ? []).
  specialize (B B0). clear B0. rewrite stem_len. destruct (find_backend r 0 tbl (0, MAX_PRIO, None)) as [[ml mp] mi]. destruct B as [B1 B2].
  destruct (Nat.leb_spec ml 1) as [L|L]; simpl.
  - split; [destruct tbl; discriminate|]. intros (L2 & b & (Ni & St) & _). exfalso. apply nth_error_In in Ni. apply common_starts in St; [|auto]. specialize (B1 _ Ni). lia.
  - destruct (Nat.eqb_spec ml (stem_length r)) as [E|E]; simpl.
    + destruct mi as [k|]; [|destruct B2 as (-> & _); lia]. destruct B2 as (b & A1 & A2 & A3 & A4). split.
      * intros H. inversion H; subst k. split; [lia|]. exists b. split. { split; auto. apply common_starts; [apply Hc; eapply nth_error_In; eauto|congruence]. }
        intros j b' (Nj & St). apply common_starts in St; [|apply Hc; eapply nth_error_In; eauto]. destruct (A4 j b' Nj) as [A5 A6]; [congruence|]. split; auto. intros J. apply A6; auto. lia.
      * intros (L2 & b' & (Ni & St) & Hmin). apply common_starts in St; [|apply Hc; eapply nth_error_In; eauto]. f_equal.
        destruct (A4 i b' Ni) as [A5 A6]; [congruence|]. assert (Sk : starts (stem r) (be_prefix b)). { apply common_starts; [apply Hc; eapply nth_error_In; eauto|congruence]. }
        destruct (Hmin k b (conj A1 Sk)) as [M1 M2]. destruct (Nat.lt_trichotomy i k) as [G|[G|G]]; auto.
        -- assert (be_prio b < be_prio b')%Z by (apply A6; auto; lia). lia.
        -- specialize (M2 G). lia.
    + split; [destruct tbl; discriminate|]. intros (L2 & b & (Ni & St) & _). exfalso. pose proof (nth_error_In _ _ Ni) as Ib. apply common_starts in St; [|auto].
      specialize (B1 _ Ib). destruct mi as [k|]; [|destruct B2 as (-> & _); lia]. destruct B2 as (b0 & A1 & A2 & _). pose proof (common_stem (be_prefix b0) r (Hc _ (nth_error_In _ _ A1))). lia.
Qed.
(** The chosen backend does not depend on the registration order if no two candidates have equal priority. *)
Theorem C22_order : forall tbl tbl' resource i i', (forall b, In b tbl -> ~ In ":" (be_prefix b)) -> Permutation tbl tbl' ->
  (forall j j' b b', candidate tbl resource j b -> candidate tbl resource j' b' -> be_prio b = be_prio b' -> b = b') ->
  ceed_find tbl resource = Ok i -> ceed_find tbl' resource = Ok i' -> nth_error tbl i = nth_error tbl' i'.
Proof.
  intros tbl tbl' resource i i' Hc P U H H'. assert (Hh : resource <> lit "help"). { intros ->. vm_compute in H. discriminate. }
  assert (Hc' : forall b, In b tbl' -> ~ In ":" (be_prefix b)). { intros b Hb. apply Hc. eapply Permutation_in; [apply Permutation_sym|]; eauto. }
  apply C22_init in H; auto. apply C22_init in H'; auto. destruct H as (_ & b & (A1 & A2) & A3). destruct H' as (_ & b' & (B1 & B2) & B3). rewrite A1, B1. f_equal.
  assert (exists j, nth_error tbl j = Some b') as (j & Hj). { apply In_nth_error. eapply Permutation_in; [apply Permutation_sym; eauto|]. eapply nth_error_In; eauto. }
  assert (exists j, nth_error tbl' j = Some b) as (j' & Hj'). { apply In_nth_error. eapply Permutation_in; [eauto|]. eapply nth_error_In; eauto. }
  apply (U i j); [split; auto|split; auto|]. destruct (A3 j b') as [L _]; [split; auto|]. destruct (B3 j' b) as [L' _]; [split; auto|]. lia.
Qed.
(** Success itself does not depend on the order at all. *)
Theorem C22_success : forall tbl resource, (forall b, In b tbl -> ~ In ":" (be_prefix b)) -> resource <> lit "help" ->
  ((exists i, ceed_find tbl resource = Ok i) <-> 2 <= List.length (stem (request resource)) /\ exists b, In b tbl /\ starts (stem (request resource)) (be_prefix b)).
Proof.
  intros tbl resource Hc Hh. split.
  - intros (i & H). apply C22_init in H; auto. destruct H as (L & b & (A & B) & _). split; auto. exists b. split; auto. eapply nth_error_In; eauto.
  - intros (L & b0 & I0 & S0).
    assert (M : forall l, (exists b, In b l /\ starts (stem (request resource)) (be_prefix b)) -> exists i b, nth_error l i = Some b /\ starts (stem (request resource)) (be_prefix b) /\
       forall j b', nth_error l j = Some b' -> starts (stem (request resource)) (be_prefix b') -> (be_prio b <= be_prio b')%Z /\ (j < i -> (be_prio b < be_prio b')%Z)).
    { induction l as [|b l IH]; intros (c & Hi & Hs); [destruct Hi|].
      assert (D : (exists b, In b l /\ starts (stem (request resource)) (be_prefix b)) \/ (b = c /\ forall b, In b l -> ~ starts (stem (request resource)) (be_prefix b))).
      { assert (Dec : forall p, {starts (stem (request resource)) p} + {~ starts (stem (request resource)) p}).
        { intros p. destruct (seqb (firstn (List.length (stem (request resource))) p) (stem (request resource))) eqn:E.
          - left. apply seqb_eq in E. exists (skipn (List.length (stem (request resource))) p). rewrite <- E at 1. symmetry. apply firstn_skipn.
          - right. intros (t & ->). rewrite firstn_app_exact, seqb_refl in E. discriminate. }
        destruct (Exists_dec (fun b => starts (stem (request resource)) (be_prefix b)) l (fun b => Dec (be_prefix b))) as [X|X].
        - left. apply Exists_exists in X as (x & X1 & X2). eauto.
        - right. split. { destruct Hi as [|Hi]; auto. exfalso. apply X. apply Exists_exists. eauto. } intros b' Hb' S'. apply X, Exists_exists. eauto. }
      destruct D as [D|[-> D]].
      - destruct (IH D) as (i & b1 & A1 & A2 & A3). destruct (Bool.bool_dec (seqb (firstn (List.length (stem (request resource))) (be_prefix b)) (stem (request resource))) true) as [E|E].
        + apply seqb_eq in E. assert (Sb : starts (stem (request resource)) (be_prefix b)). { exists (skipn (List.length (stem (request resource))) (be_prefix b)). rewrite <- E at 1. symmetry. apply firstn_skipn. }
          destruct (Z_le_gt_dec (be_prio b) (be_prio b1)) as [Q|Q].
          * exists 0, b. split; auto. split; auto. intros [|j] b' Hj Sj; simpl in Hj; [inversion Hj; subst; split; intros; lia|]. destruct (A3 j b' Hj Sj). split; intros; lia.
          * exists (S i), b1. split; auto. split; auto. intros [|j] b' Hj Sj; simpl in Hj; [inversion Hj; subst; split; intros; lia|]. destruct (A3 j b' Hj Sj) as [X Y]. split; auto. intros. apply Y. lia.
        + exists (S i), b1. split; auto. split; auto. intros [|j] b' Hj Sj; simpl in Hj.
          * inversion Hj; subst. exfalso. apply E. destruct Sj as (t & ->). rewrite firstn_app_exact. apply seqb_refl.
          * destruct (A3 j b' Hj Sj) as [X Y]. split; auto. intros. apply Y. lia.
      - exists 0, c. split; auto. split; auto. intros [|j] b' Hj Sj; simpl in Hj; [inversion Hj; subst; split; intros; lia|]. exfalso. eapply D; eauto. eapply nth_error_In; eauto. }
    destruct (M tbl (ex_intro _ b0 (conj I0 S0))) as (i & b & A1 & A2 & A3). exists i. apply C22_init; auto. split; auto. exists b. split; [split; auto|]. intros j b' (X & Y). auto.
Qed.
(** Up to 32 registrations with prefixes shorter than 1024 characters fill the table in order, all reporting success. *)
Theorem C22_register : forall l tbl, List.length tbl + List.length l <= 32 -> (forall b, In b l -> List.length (be_prefix b) < 1024) ->
  register_all tbl l = (map (fun _ => Ok tt) l, tbl ++ l).
Proof.
  induction l as [|b l IH]; intros tbl L H; cbn [register_all map]; [rewrite app_nil_r; auto|]. simpl in L. unfold ceed_register, register_impl, MAX_BACKENDS.
  destruct (Nat.ltb_spec (List.length tbl) 32) as [G|G]; [|lia]. cbn [snd]. assert (E : mkBE (firstn RES_LEN (be_prefix b)) (be_prio b) = b).
  { rewrite firstn_all2; [destruct b; auto|]. assert (List.length (be_prefix b) < 1024) by (apply H; simpl; auto). unfold RES_LEN. lia. }
  rewrite E, IH.
  - rewrite <- app_assoc. reflexivity.
  - rewrite app_length. cbn [List.length]. lia.
  - intros c Hc. apply H. simpl. auto.
Qed.
Print Assumptions C22_init. Print Assumptions C22_order. Print Assumptions C22_success. Print Assumptions C22_register.

Definition ex_tbl : list backend := [mkBE (lit "/cpu/self/opt/serial") 45; mkBE (lit "/cpu/self/ref/serial") 50; mkBE (lit "/cpu/self/opt/blocked") 40; mkBE (lit "/gpu/cuda/ref") MAX_PRIO].
Example C22_ex : ceed_find ex_tbl (lit "/cpu/self") = Ok 2 /\ ceed_find ex_tbl (lit "/cpu/self/ref:device_id=0") = Ok 1 /\ ceed_find ex_tbl (lit "help:/gpu") = Ok 3 /\
  ceed_find ex_tbl (lit "/cpu/serial") = Err ERR_MAJOR /\ (forall b, In b ex_tbl -> ~ In ":" (be_prefix b)) /\ (forall j j' b b', candidate ex_tbl (lit "/cpu/self") j b -> candidate ex_tbl (lit "/cpu/self") j' b' -> be_prio b = be_prio b' -> b = b').
Proof.
  repeat (split; [vm_compute; reflexivity|]). split.
  - intros b H K. simpl in H. repeat destruct H as [<-|H]; try contradiction; simpl in K; repeat destruct K as [K|K]; try discriminate; auto.
  - intros j j' b b' [A _] [B _] E. apply nth_error_In in A, B. simpl in A, B. repeat destruct A as [<-|A]; repeat destruct B as [<-|B]; simpl in E; auto; try discriminate; contradiction.
Qed.
(** Finding: CeedInit("help") reads past the end of the string. *)
Theorem C22_help_refuted : exists tbl, (forall b, In b tbl -> ~ In ":" (be_prefix b)) /\ ceed_find tbl (lit "help") = UB.
Proof. exists ex_tbl. split; [apply C22_ex|]. vm_compute. reflexivity. Qed.
(** Finding: the thirty-third registration reports success and is lost. *)
Theorem C22_register_refuted : exists l b, List.length l = 32 /\ fst (ceed_register (snd (register_all [] l)) b) = Ok tt /\ be_prefix b = lit "/mine" /\
  ceed_find (snd (ceed_register (snd (register_all [] l)) b)) (lit "/mine") = Err ERR_MAJOR.
Proof. exists (repeat (mkBE (lit "/cpu/self") 1) 32), (mkBE (lit "/mine") 1). repeat split; vm_compute; reflexivity. Qed.
(** Finding: ties in priority are resolved by registration order. *)
Theorem C22_tie_refuted : exists tbl tbl' i i', Permutation tbl tbl' /\ ceed_find tbl (lit "/cpu") = Ok i /\ ceed_find tbl' (lit "/cpu") = Ok i' /\ nth_error tbl i <> nth_error tbl' i'.
Proof.
  exists [mkBE (lit "/cpu/a") 5; mkBE (lit "/cpu/b") 5], [mkBE (lit "/cpu/b") 5; mkBE (lit "/cpu/a") 5], 0, 0. split; [constructor|]. repeat split; vm_compute; try reflexivity. discriminate.
Qed.
Print Assumptions C22_help_refuted. Print Assumptions C22_register_refuted. Print Assumptions C22_tie_refuted.

(** Gallery *)
Lemma find_name_best : forall name l pre best, 
  ((forall g, In g pre -> common (ge_name g) name <= fst best) /\ match snd best with None => fst best = 0 | Some i => exists g, nth_error pre i = Some g /\ common (ge_name g) name = fst best /\
     (forall j g', j < i -> nth_error pre j = Some g' -> common (ge_name g') name < fst best) end) ->
  let best' := find_name name (List.length pre) l best in
  ((forall g, In g (pre ++ l) -> common (ge_name g) name <= fst best') /\ match snd best' with None => fst best' = 0 | Some i => exists g, nth_error (pre ++ l) i = Some g /\ common (ge_name g) name = fst best' /\
     (forall j g', j < i -> nth_error (pre ++ l) j = Some g' -> common (ge_name g') name < fst best') end).
Proof.
  intros name. induction l as [|g l IH]; intros pre best [H1 H2]; [simpl; rewrite app_nil_r; auto|]. simpl.
  replace (pre ++ g :: l) with ((pre ++ [g]) ++ l) by (rewrite <- app_assoc; auto). replace (S (List.length pre)) with (List.length (pre ++ [g])) by (rewrite app_length; simpl; lia). apply IH.
  destruct (Nat.ltb_spec (fst best) (common (ge_name g) name)) as [L|L]; simpl.
  - split. { intros c Hc. apply in_app_iff in Hc. destruct Hc as [Hc|[<-|[]]]; auto. specialize (H1 _ Hc). lia. }
    exists g. rewrite nth_error_app2, Nat.sub_diag by lia. split; auto. split; auto. intros j g' J N. rewrite nth_error_app1 in N by auto. apply nth_error_In in N. specialize (H1 _ N). lia.
  - split. { intros c Hc. apply in_app_iff in Hc. destruct Hc as [Hc|[<-|[]]]; auto. }
    destruct (snd best) as [i|]; auto. destruct H2 as (g0 & A & B & C). assert (i < List.length pre) by (apply nth_error_Some; congruence). exists g0. rewrite nth_error_app1 by auto. split; auto. split; auto. intros j g' J N. rewrite nth_error_app1 in N by lia. eauto.
Qed.
(** CreateInteriorByName uses the first of the entries with the longest common prefix, and succeeds exactly if that entry's init accepts. *)
Theorem C22_gallery : forall tbl name i, create_by_name tbl name = Ok i <->
  exists g, nth_error tbl i = Some g /\ 0 < common (ge_name g) name /\ (exists u, ge_init g name = Ok u) /\
   forall j g', nth_error tbl j = Some g' -> common (ge_name g') name <= common (ge_name g) name /\ (j < i -> common (ge_name g') name < common (ge_name g) name).
Proof.
  intros tbl name i. unfold create_by_name. pose proof (find_name_best name tbl [] (0, None)) as B. simpl in B. destruct B as [B1 B2]; [split; auto; intros ? []|].
  destruct (find_name name 0 tbl (0, None)) as [ml mi]. simpl in *. destruct (Nat.ltb_spec 0 ml) as [L|L]; simpl.
  - destruct mi as [k|]; [|lia]. destruct B2 as (g & A1 & A2 & A3). unfold get. rewrite A1. split.
    + intros H. destruct (ge_init g name) as [u| |] eqn:I; inversion H; subst k. exists g. split; auto. split; [lia|]. split; eauto. intros j g' N. rewrite A2. split; [apply B1; eapply nth_error_In; eauto|]. intros; eauto.
    + intros (g' & C1 & C2 & (u & C3) & C4). assert (i = k).
      { destruct (C4 k g A1) as [D1 D2]. assert (common (ge_name g') name <= ml) by (apply B1; eapply nth_error_In; eauto). destruct (Nat.lt_trichotomy i k) as [G|[G|G]]; auto.
        - specialize (A3 i g' G C1). lia. - specialize (D2 G). lia. }
      subst k. rewrite A1 in C1. inversion C1; subst g'. rewrite C3. reflexivity.
  - split; [discriminate|]. intros (g & C1 & C2 & _). apply nth_error_In in C1. specialize (B1 _ C1). lia.
Qed.
Lemma common_self : forall p, common p p = List.length p.
Proof. induction p; simpl; auto. rewrite Ascii.eqb_refl. congruence. Qed.
(** With init functions that compare names (all of the shipped gallery), success means the requested name itself was found,
    and a registered nonempty name is found exactly if no earlier entry's name starts with it. *)
Theorem C22_gallery_exact : forall l name, let tbl := map (fun n => mkGE n (gallery_init n)) l in
  (forall i, create_by_name tbl name = Ok i -> nth_error l i = Some name) /\
  (forall i, nth_error l i = Some name -> name <> [] -> (create_by_name tbl name = Ok i <-> forall j n', j < i -> nth_error l j = Some n' -> ~ starts name n')).
Proof.
  intros l name tbl. split.
  - intros i H. apply C22_gallery in H as (g & A & _ & (u & B) & _). unfold tbl in A. rewrite nth_error_map in A. destruct (nth_error l i) as [n|]; inversion A; subst g. simpl in B. unfold gallery_init in B.
    destruct (seqb n name) eqn:E; [|discriminate]. apply seqb_eq in E. congruence.
  - intros i Hi Hne. rewrite C22_gallery. assert (St : forall n', starts name n' <-> common n' name = List.length name).
    { intros n'. split. - intros (t & ->). apply Nat.le_antisymm; [apply common_le|]. apply common_max; [rewrite app_length; lia|lia|]. rewrite firstn_app_exact. rewrite firstn_all. auto.
      - intros E. exists (skipn (List.length name) n'). pose proof (common_firstn n' name) as F. rewrite E, firstn_all in F. rewrite <- F at 1. symmetry. apply firstn_skipn. }
    split.
    + intros (g & A & B & _ & C) j n' J Hj Hs. unfold tbl in A. rewrite nth_error_map, Hi in A. inversion A; subst g. simpl in C. rewrite common_self in C.
      destruct (C j (mkGE n' (gallery_init n'))) as [_ D]; [unfold tbl; rewrite nth_error_map, Hj; auto|]. specialize (D J). simpl in D. apply St in Hs. lia.
    + intros H. exists (mkGE name (gallery_init name)). unfold tbl. split; [rewrite nth_error_map, Hi; auto|]. simpl. rewrite common_self. split; [destruct name; [contradiction|simpl; lia]|].
      split; [exists tt; unfold gallery_init; rewrite seqb_refl; auto|]. intros j g' Hj. rewrite nth_error_map in Hj. destruct (nth_error l j) as [n'|] eqn:Hj'; inversion Hj; subst g'. simpl.
      pose proof (proj2 (common_le n' name)). split; auto. intros J. specialize (H j n' J Hj'). rewrite St in H. lia.
Qed.
(** gallery/ceed-gallery-list.h: the shipped gallery in registration order *)
Definition shipped : list str := map lit ["Identity"; "Mass1DBuild"; "Mass2DBuild"; "Mass3DBuild"; "MassApply"; "Vector3MassApply"; "Poisson1DApply"; "Poisson1DBuild";
  "Poisson2DApply"; "Poisson2DBuild"; "Poisson3DApply"; "Poisson3DBuild"; "Vector3Poisson1DApply"; "Vector3Poisson2DApply"; "Vector3Poisson3DApply"; "Scale"]%string.
Example C22_gallery_ex : map (fun n => create_by_name (map (fun n => mkGE n (gallery_init n)) shipped) n) shipped = map (@Ok nat) (seq 0 16) /\
  create_by_name (map (fun n => mkGE n (gallery_init n)) shipped) (lit "Mass") = Err ERR_UNSUPPORTED.
Proof. split; vm_compute; reflexivity. Qed.
(** Finding: a registered name is not found if a longer name that starts with it was registered before. *)
Theorem C22_shadow_refuted : exists l name, In name l /\ NoDup l /\ create_by_name (map (fun n => mkGE n (gallery_init n)) l) name = Err ERR_UNSUPPORTED.
Proof. exists [lit "Scale2"; lit "Scale"], (lit "Scale"). split; [simpl; auto|]. split; [|vm_compute; reflexivity]. repeat constructor; simpl; intuition discriminate. Qed.
Print Assumptions C22_gallery. Print Assumptions C22_gallery_exact. Print Assumptions C22_shadow_refuted.
