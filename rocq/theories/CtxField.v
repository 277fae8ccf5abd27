(** * C23, continued: fields of a QFunction context are typed and separate *)
From Coq Require Import String List ZArith Lia Bool Arith.
From Coq.Strings Require Import Byte.
From Verif Require Import Prelude RstrModel StrModel CtxModel CtxSpec CtxProofs CtxProps.
From Verif Require VecModel.
Import ListNotations.
Local Open Scope Z_scope.

(** The fields registered in a history, in order; a label is a position in this list. *)
Definition regs1 (c : cmd) (r : res) : list label :=
  match c, r with KRegister name off t num, Good _ => [mkL name t off (fsize t * num) num] | _, _ => [] end.
Fixpoint regs (cs : list cmd) (rs : list res) : list label :=
  match cs, rs with c :: cs, r :: rs => regs1 c r ++ regs cs rs | _, _ => [] end.
Definition apart (f g : label) : Prop := (l_off f + l_size f <= l_off g \/ l_off g + l_size g <= l_off f)%nat.
Definition outside (f : label) (i : nat) : Prop := (i < l_off f \/ l_off f + l_size f <= i)%nat.
(** commands after which field [f] must still hold its value *)
Definition quiet (R : list label) (f : label) (c : cmd) : Prop :=
  match c with
  | KSet _ _ _ _ => False
  | VWrite i _ | UWrite _ i _ => outside f i
  | KSetField (Some l') _ _ => forall g, nth_error R l' = Some g -> apart f g
  | _ => True
  end.

(** ** The abstract machine: fields *)
Definition fields_are (s : astate) (R : list label) : Prop := forall y, s_ctx s = Some y -> a_fields y = R.
Lemma sc_fields s y y' R : fields_are s R -> s_ctx s = Some y -> a_fields y' = a_fields y -> fields_are (sc s y') R.
Proof. intros H Hy E y0 [= <-]. rewrite E. auto. Qed.
Lemma putd_ctx s y l : s_ctx s = Some y -> exists c, s_ctx (putd s y l) = Some (ct y c).
Proof.
  intros H. unfold putd. destruct (a_cont y) eqn:E; cbn; eauto. exists CEmpty. rewrite H. f_equal. destruct y; cbn in *. now rewrite E.
  exists (CShared n). f_equal. destruct y; cbn in *. now rewrite E.
Qed.
Lemma dtor_fields s y k R : (forall s y', a_fields y' = a_fields y -> match k s y' with AOk _ s' | AErr _ s' => fields_are s' R | AIll => True end) ->
  a_fields y = R -> match s_dtor s y k with AOk _ s' | AErr _ s' => fields_are s' R | AIll => True end.
Proof.
  intros Hk Hy. unfold s_dtor. assert (S0 : forall s y', a_fields y' = a_fields y -> fields_are (sc s y') R) by (intros s0 y' E y0 [= <-]; congruence).
  destruct (a_dtor y) as [d|]; [|now apply Hk]. destruct (locked y); [now apply S0|]. destruct (_ || _); [now apply S0|].
  assert (N : forall s, match (if d_code d =? 0 then k s (tick y 2) else AErr (d_code d) (sc s (tick y 1))) with AOk _ s' | AErr _ s' => fields_are s' R | AIll => True end).
  { intros s0. destruct (d_code d =? 0); [now apply Hk|now apply S0]. }
  destruct (d_frees d); [|apply N]. destruct (a_cont y); auto. destruct (s_user s n); [apply N|auto].
Qed.
Lemma astep_fields c s R : fields_are s R ->
  match astep c s with
  | AOk o s' => fields_are s' (R ++ regs1 c (Good o))
  | AErr e s' => fields_are s' (R ++ regs1 c (Bad e))
  | AIll => True
  end.
Proof.
  intros H. assert (E0 : forall r, (forall n o t m, c <> KRegister n o t m) -> R ++ regs1 c r = R).
  { intros r Hc. destruct c; cbn; auto using app_nil_r. exfalso. eapply Hc; eauto. }
  destruct c; cbn [astep]; try (assert (E1 : forall r, R ++ regs1 _ r = R) by (intros r; apply E0; discriminate); cbn [regs1] in E1; cbn [regs1]; rewrite ?app_nil_r).
  all: try (unfold s_take, s_get, s_get_read, s_restore, s_restore_read, s_set_field, s_get_field, s_restore_field, byte_at, live, s_label, s_reading;
            destruct (s_ctx s) as [y|] eqn:Hy; auto;
            repeat match goal with
                   | |- match (match ?x with _ => _ end) with _ => _ end => destruct x; auto
                   | |- match (if ?x then _ else _) with _ => _ end => destruct x; auto
                   end; auto; try (now eapply sc_fields; eauto); fail).
  - unfold s_set, live. destruct (s_ctx s) as [y|] eqn:Hy; auto. destruct (busy y); auto. apply dtor_fields; auto.
    intros s2 y' E. assert (S0 : forall s y2, a_fields y2 = a_fields y -> fields_are (sc s y2) R) by (intros s3 y2 E2 y0 [= <-]; rewrite E2; auto).
    destruct (negb host); [now apply S0|]. destruct mode, s0; auto; try (destruct (s_user s2 n); auto; try destruct (Nat.leb _ _); auto); now apply S0.
  - unfold s_register, live. destruct (s_ctx s) as [y|] eqn:Hy; auto. destruct (registered y name); cbn [regs1].
    + now rewrite app_nil_r.
    + intros y0 [= <-]. cbn. now rewrite (H y Hy).
  - unfold s_set_field. destruct l as [l|]; auto. unfold live. destruct (s_ctx s) as [y|] eqn:Hy; auto.
    unfold s_label. destruct (nth_error _ _); auto. destruct (ftype_eqb _ _); auto. unfold s_reading. destruct (busy y); auto. destruct (_ || _); auto. destruct (many y); auto.
    destruct (conts s y) as [old|]; auto. destruct (_ && _); auto. destruct (bytes_eqb _ _); auto. destruct (locked y); auto.
    destruct (putd_ctx (sc s (tick y 2)) (tick y 2) (splice old (l_off l0) (firstn (l_size l0) vals)) eq_refl) as (c & Ec).
    intros y0 Hy0. rewrite Ec in Hy0. injection Hy0 as <-. cbn. auto.
  - unfold s_restore_field, s_restore_read. destruct l; auto. unfold live, s_label. destruct (s_ctx s) as [y|] eqn:Hy; auto.
    destruct (nth_error _ _); auto. destruct (ftype_eqb _ _); auto. destruct (0 <? _); auto. now eapply sc_fields; eauto.
  - unfold s_destroy, live. destruct (s_ctx s) as [y|] eqn:Hy; auto. destruct (0 <? _); [now eapply sc_fields; eauto|]. destruct (busy _); [now eapply sc_fields; eauto|].
    apply dtor_fields; [|cbn; auto]. intros s0 y' E y0 [=].
  - exact H.
  - unfold live. destruct (s_ctx s) as [y|] eqn:Hy; auto. destruct (a_wg y); auto. destruct (conts s y); auto. destruct (inside _ _ _); auto.
    destruct (putd_ctx s y (splice b0 i [b]) Hy) as (c & Ec). intros y0 Hy0. rewrite Ec in Hy0. injection Hy0 as <-. cbn. auto.
Qed.
Lemma arun_fields cs : forall s R rs s', fields_are s R -> arun cs s = Some (rs, s') -> fields_are s' (R ++ regs cs rs) /\ List.length rs = List.length cs.
Proof.
  induction cs as [|c cs IH]; intros s R rs s' H; cbn [arun].
  - intros [= <- <-]. cbn. rewrite app_nil_r. auto.
  - pose proof (astep_fields c s R H) as F. destruct (astep c s) as [o s1|e s1|]; [| |discriminate].
    + destruct (arun cs s1) as [[os s2]|] eqn:E; [|discriminate]. intros [= <- <-]. destruct (IH _ _ _ _ F E) as [I1 I2]. cbn. rewrite app_assoc. auto.
    + destruct (arun cs s1) as [[os s2]|] eqn:E; [|discriminate]. intros [= <- <-]. destruct (IH _ _ _ _ F E) as [I1 I2]. cbn. rewrite app_assoc. auto.
Qed.
Lemma arun_app a : forall b s rs s', arun (a ++ b) s = Some (rs, s') ->
  exists r1 s1 r2, arun a s = Some (r1, s1) /\ arun b s1 = Some (r2, s') /\ rs = r1 ++ r2.
Proof.
  induction a as [|c a IH]; intros b s rs s' H; cbn [arun app] in *.
  - exists [], s, rs. auto.
  - destruct (astep c s) as [o s1|e s1|]; [| |discriminate].
    + destruct (arun (a ++ b) s1) as [[os s2]|] eqn:E; [|discriminate]. injection H as <- <-.
      destruct (IH _ _ _ _ E) as (r1 & s3 & r2 & -> & E2 & ->). do 3 eexists. split; eauto.
    + destruct (arun (a ++ b) s1) as [[os s2]|] eqn:E; [|discriminate]. injection H as <- <-.
      destruct (IH _ _ _ _ E) as (r1 & s3 & r2 & -> & E2 & ->). do 3 eexists. split; eauto.
Qed.
Lemma regs_app a : forall b ra rb, List.length ra = List.length a -> regs (a ++ b) (ra ++ rb) = regs a ra ++ regs b rb.
Proof.
  induction a as [|c a IH]; intros b [|r ra] rb H; try discriminate; cbn; auto. rewrite IH by (cbn in H; lia). now rewrite app_assoc.
Qed.
Lemma regs_wf cs : forall rs f, In f (regs cs rs) -> l_size f = (fsize (l_type f) * l_num f)%nat.
Proof.
  induction cs as [|c cs IH]; intros [|r rs] f; cbn; try tauto. rewrite in_app_iff. intros [H|H]; [|eauto].
  destruct c; cbn in H; try tauto. destruct r; cbn in H; [|tauto]. destruct H as [<-|[]]. reflexivity.
Qed.

(** ** Bytes *)
Lemma app_split {A} (a a' b b' : list A) : a ++ b = a' ++ b' -> List.length a = List.length a' -> a = a' /\ b = b'.
Proof. revert a'. induction a as [|x a IH]; intros [|y a'] E H; try discriminate; cbn in *; [auto|]. injection E as -> E. destruct (IH a') as [-> ->]; auto. Qed.
Lemma nth_error_ext {A} (a b : list A) : (forall k, nth_error a k = nth_error b k) -> a = b.
Proof.
  revert b. induction a as [|x a IH]; intros [|y b] H; auto; try (specialize (H 0%nat); discriminate).
  pose proof (H 0%nat) as H0. injection H0 as ->. f_equal. apply IH. intros k. apply (H (S k)).
Qed.
Lemma nth_error_skipn {A} (l : list A) : forall k i, nth_error (skipn k l) i = nth_error l (k + i).
Proof. induction l as [|a l IH]; intros [|k] i; cbn; auto. now destruct i. Qed.
Lemma nth_error_firstn {A} (l : list A) : forall n i, (i < n)%nat -> nth_error (firstn n l) i = nth_error l i.
Proof. induction l as [|a l IH]; intros [|n] [|i] H; cbn; auto; try lia. apply IH. lia. Qed.
Lemma len_splice l off v : (off + List.length v <= List.length l)%nat -> List.length (splice l off v) = List.length l.
Proof. intros H. unfold splice. rewrite !app_length, firstn_length, skipn_length. lia. Qed.
Lemma nth_splice l off v i : (off + List.length v <= List.length l)%nat ->
  nth_error (splice l off v) i = if (off <=? i)%nat && (i <? off + List.length v)%nat then nth_error v (i - off) else nth_error l i.
Proof.
  intros H. unfold splice. destruct (Nat.leb_spec off i) as [L|L]; cbn [andb].
  - rewrite nth_error_app2 by (rewrite firstn_length; lia). rewrite firstn_length, Nat.min_l by lia.
    destruct (Nat.ltb_spec i (off + List.length v)) as [L2|L2].
    + now rewrite nth_error_app1 by lia.
    + rewrite nth_error_app2 by lia. rewrite nth_error_skipn. f_equal. lia.
  - rewrite nth_error_app1 by (rewrite firstn_length; lia). now rewrite nth_error_firstn by lia.
Qed.
Lemma nth_slice l off n k : (k < n)%nat -> nth_error (slice l off n) k = nth_error l (off + k).
Proof. intros H. unfold slice. rewrite nth_error_firstn by auto. now rewrite nth_error_skipn. Qed.
Lemma len_slice l off n : (off + n <= List.length l)%nat -> List.length (slice l off n) = n.
Proof. intros H. unfold slice. rewrite firstn_length, skipn_length. lia. Qed.

(** ** The value of a field in the abstract machine *)
Definition holds (s : astate) (f : label) (v : bytes) : Prop := forall y d, s_ctx s = Some y -> conts s y = Some d ->
  (l_off f + l_size f <= List.length d)%nat /\ forall k, (k < l_size f)%nat -> nth_error d (l_off f + k) = nth_error v k.
(** shared blocks are old *)
Definition old (s : astate) : Prop := forall y n, s_ctx s = Some y -> a_cont y = CShared n -> (n < s_nu s)%nat.
Lemma rel_old w s : Rel w s -> old s.
Proof.
  intros R y n Hy Hc. pose proof (r_ctx w s R) as C. rewrite Hy in C. destruct (w_ctx w) as [x|]; [|contradiction].
  pose proof (cr_cont x w s y C) as K. unfold cont_rel in K. rewrite Hc in K. tauto.
Qed.
Lemma same_cont_holds s f v y y' : holds s f v -> s_ctx s = Some y -> a_cont y' = a_cont y -> holds (sc s y') f v.
Proof. intros H Hy E y0 d [= <-] Hd. apply (H y d Hy). unfold conts in *. now rewrite E in Hd. Qed.
Lemma none_holds s n f v : holds s f v -> holds (su s n None) f v.
Proof.
  intros H y d Hy Hd. cbn in Hy. apply (H y d Hy). unfold conts in *. cbn in Hd. destruct (a_cont y); auto.
  unfold VecModel.nupd in Hd. destruct (Nat.eqb n0 n); [discriminate|auto].
Qed.
Lemma put_holds s f v y l l' : holds s f v -> s_ctx s = Some y -> conts s y = Some l -> List.length l' = List.length l ->
  (forall k, (k < l_size f)%nat -> nth_error l' (l_off f + k) = nth_error l (l_off f + k)) -> forall y', a_cont y' = a_cont y -> holds (putd (sc s y') y' l') f v.
Proof.
  intros H Hy Hl Hlen Hn y' Hc y0 d Hy0 Hd. destruct (H y l Hy Hl) as [H1 H2].
  assert (d = l').
  { unfold putd in Hy0, Hd. unfold conts in Hl. rewrite Hc in *. destruct (a_cont y) eqn:E; [discriminate| |].
    - cbn in Hy0. injection Hy0 as <-. unfold conts in Hd. cbn in Hd. congruence.
    - cbn in Hy0. injection Hy0 as <-. unfold conts in Hd. rewrite Hc in Hd. cbn in Hd. rewrite nupd_same in Hd. congruence. }
  subst d. rewrite Hlen. split; auto. intros k Hk. rewrite Hn; auto.
Qed.
Lemma user_holds s f v n l l' : holds s f v -> s_user s n = Some l -> List.length l' = List.length l ->
  (forall k, (k < l_size f)%nat -> nth_error l' (l_off f + k) = nth_error l (l_off f + k)) -> holds (su s n (Some l')) f v.
Proof.
  intros H Hl Hlen Hn y d Hy Hd. cbn in Hy. unfold conts in Hd. destruct (a_cont y) as [|b|m] eqn:E; [discriminate| |].
  - apply (H y d Hy). unfold conts. now rewrite E.
  - cbn in Hd. unfold VecModel.nupd in Hd. destruct (Nat.eqb_spec m n) as [->|Hm].
    + injection Hd as <-. destruct (H y l Hy) as [H1 H2]. { unfold conts. now rewrite E. } rewrite Hlen. split; auto. intros k Hk. rewrite Hn; auto.
    + apply (H y d Hy). unfold conts. now rewrite E.
Qed.
Lemma dtor_holds s y k f v : holds s f v -> s_ctx s = Some y ->
  (forall s' y', holds s' f v -> holds (sc s' y') f v -> match k s' y' with AOk _ s' | AErr _ s' => holds s' f v | AIll => True end) ->
  match s_dtor s y k with AOk _ s' | AErr _ s' => holds s' f v | AIll => True end.
Proof.
  intros H Hy Hk. assert (S0 : forall y', a_cont y' = a_cont y -> holds (sc s y') f v) by (intros; eapply same_cont_holds; eauto).
  unfold s_dtor. destruct (a_dtor y) as [d|]; [|apply Hk; auto]. destruct (locked y); [now apply S0|]. destruct (_ || _); [now apply S0|].
  assert (N : forall s', holds s' f v -> (forall y', a_cont y' = a_cont y -> holds (sc s' y') f v) -> match (if d_code d =? 0 then k s' (tick y 2) else AErr (d_code d) (sc s' (tick y 1))) with AOk _ s' | AErr _ s' => holds s' f v | AIll => True end).
  { intros s' Hs' Hs2. destruct (d_code d =? 0); [now apply Hk; auto|now apply Hs2]. }
  destruct (d_frees d); [|apply N; auto]. destruct (a_cont y) as [|b|n] eqn:Ec; auto. destruct (s_user s n); [|auto].
  assert (N0 : holds (su s n None) f v) by now apply none_holds.
  apply N; auto. intros y' E. apply (same_cont_holds _ f v y y' N0); auto. congruence.
Qed.
Lemma apart_bytes f g d v k : apart f g -> (l_off g + l_size g <= List.length d)%nat -> List.length v = l_size g -> (k < l_size f)%nat ->
  nth_error (splice d (l_off g) v) (l_off f + k) = nth_error d (l_off f + k).
Proof.
  intros A L Hv Hk. rewrite nth_splice by lia. rewrite Hv. unfold apart in A.
  destruct (Nat.leb_spec (l_off g) (l_off f + k)); cbn [andb]; auto. destruct (Nat.ltb_spec (l_off f + k) (l_off g + l_size g)); auto. lia.
Qed.
Lemma outside_bytes f d i b k : outside f i -> (i < List.length d)%nat -> (k < l_size f)%nat ->
  nth_error (splice d i [b]) (l_off f + k) = nth_error d (l_off f + k).
Proof.
  intros A L Hk. rewrite nth_splice by (cbn; lia). unfold outside in A. cbn [List.length].
  destruct (Nat.leb_spec i (l_off f + k)); cbn [andb]; auto. destruct (Nat.ltb_spec (l_off f + k) (i + 1)); auto. lia.
Qed.
Lemma astep_holds c s R f v : fields_are s R -> old s -> (forall n, (s_nu s <= n)%nat -> s_user s n = None) -> quiet R f c -> holds s f v ->
  match astep c s with AOk _ s' | AErr _ s' => holds s' f v | AIll => True end.
Proof.
  intros HR Ho Hf Hq H. destruct c; cbn [astep]; cbn [quiet] in Hq; try contradiction.
  all: try (unfold s_take, s_get, s_get_read, s_restore, s_restore_read, s_register, s_get_field, s_restore_field, s_restore_read, byte_at, live, s_label, s_reading;
            repeat match goal with |- match (match ?x with _ => _ end) with _ => _ end => destruct x eqn:?; auto end; auto;
            try (now eapply same_cont_holds; eauto); fail).
  - unfold s_take, live. destruct (s_ctx s) as [y|] eqn:Hy; auto. destruct (empty y); auto. destruct (busy y); auto. destruct host; auto. cbn.
    destruct (a_cont y); auto. intros y0 d [= <-]. discriminate.
  - unfold s_set_field. destruct l as [l|]; auto. unfold live. destruct (s_ctx s) as [y|] eqn:Hy; auto.
    unfold s_label. destruct (nth_error (a_fields y) l) as [g|] eqn:Hg; auto. destruct (ftype_eqb _ _); auto. unfold s_reading. destruct (busy y); auto. destruct (_ || _); auto. destruct (many y); auto.
    destruct (conts s y) as [d|] eqn:Hd; auto. unfold inside. destruct (Nat.leb_spec (l_off g + l_size g) (List.length d)) as [L|]; auto. cbn [andb].
    destruct (Nat.leb_spec (l_size g) (List.length vals)) as [Lv|]; auto. destruct (bytes_eqb _ _); auto. destruct (locked y); auto.
    assert (Ev : List.length (firstn (l_size g) vals) = l_size g) by (rewrite firstn_length; lia).
    change (sc s (tick y 2)) with (sc s (tick y 2)). eapply put_holds; eauto.
    + apply len_splice. lia.
    + intros k Hk. apply apart_bytes; auto. apply Hq. now rewrite <- (HR y Hy).
    + reflexivity.
  - unfold s_destroy, live. destruct (s_ctx s) as [y|] eqn:Hy; auto. destruct (0 <? _); [now eapply same_cont_holds; eauto|]. destruct (busy _); [now eapply same_cont_holds; eauto|].
    apply dtor_holds; [now eapply same_cont_holds; eauto|reflexivity|]. intros s' y' _ _ y0 d [=].
  - intros y d Hy Hd. cbn in Hy. apply (H y d Hy). unfold conts in *. destruct (a_cont y) eqn:E; auto. cbn in Hd.
    rewrite nupd_other in Hd; auto. pose proof (Ho y n Hy E). lia.
  - destruct (s_user s n); auto. now apply none_holds.
  - destruct (s_user s n) as [d|] eqn:E; auto. unfold inside. destruct (Nat.leb_spec (i + 1) (List.length d)); auto.
    eapply user_holds; eauto. { apply len_splice. cbn. lia. } intros k Hk. apply outside_bytes; auto. lia.
  - unfold live. destruct (s_ctx s) as [y|] eqn:Hy; auto. destruct (a_wg y); auto. destruct (conts s y) as [d|] eqn:Hd; auto.
    unfold inside. destruct (Nat.leb_spec (i + 1) (List.length d)); auto.
    replace s with (sc s y) at 1 by now apply self_sc. eapply put_holds; eauto. { apply len_splice. cbn. lia. } intros k Hk. apply outside_bytes; auto. lia.
Qed.
Lemma quiet_prefix R R' f c : quiet (R ++ R') f c -> quiet R f c.
Proof.
  unfold quiet. destruct c; auto. destruct l as [l|]; auto. intros H g Hg. apply H. rewrite nth_error_app1; auto. apply nth_error_Some. congruence.
Qed.
Lemma arun_holds cs : forall s R rs s' f v, fields_are s R -> (exists w, Rel w s) -> Forall (quiet (R ++ regs cs rs) f) cs ->
  arun cs s = Some (rs, s') -> holds s f v -> holds s' f v.
Proof.
  induction cs as [|c cs IH]; intros s R rs s' f v HR [w Hw] HQ; cbn [arun].
  - intros [= <- <-]. auto.
  - intros Hrun H. inversion HQ as [|c0 cs0 Q1 Q2]; subst.
    pose proof (astep_holds c s R f v HR (rel_old w s Hw) (r_fresh w s Hw) (quiet_prefix _ _ _ _ Q1) H) as A.
    pose proof (astep_fields c s R HR) as F. pose proof (sim_step w s c Hw) as S0. unfold sim in S0.
    destruct (astep c s) as [o s1|e s1|]; [| |discriminate]; destruct S0 as (w1 & _ & R1);
      destruct (arun cs s1) as [[os s2]|] eqn:E; try discriminate; injection Hrun as <- <-;
      cbn [regs] in Q2; rewrite app_assoc in Q2; apply (IH s1 _ os s2 f v F); eauto.
Qed.
Lemma arun_rel cs : forall s rs s', (exists w, Rel w s) -> arun cs s = Some (rs, s') -> exists w, Rel w s'.
Proof. intros s rs s' [w Hw] H. destruct (run_sim cs w s rs s' Hw H) as (w' & _ & H'). eauto. Qed.
Lemma new_fields : fields_are new_astate [].
Proof. intros y [= <-]. reflexivity. Qed.

Definition behaves (cs : list cmd) : Prop := arun cs new_astate <> None.
Lemma behaves_run cs rs w : behaves cs -> run cs new_world = Some (rs, w) -> exists s, arun cs new_astate = Some (rs, s) /\ Rel w s.
Proof.
  intros H Hr. unfold behaves in H. destruct (arun cs new_astate) as [[rs' s]|] eqn:E; [|congruence].
  destruct (run_sim cs _ _ _ _ new_rel E) as (w' & Hw & R). rewrite Hr in Hw. injection Hw as <- <-. eauto.
Qed.
Lemma arun_cons c cs s rs s' : arun (c :: cs) s = Some (rs, s') -> exists r rs2 s1, rs = r :: rs2 /\ arun cs s1 = Some (rs2, s') /\
  match r with Good o => astep c s = AOk o s1 | Bad e => astep c s = AErr e s1 end.
Proof.
  cbn [arun]. destruct (astep c s) as [o s1|e s1|]; [| |discriminate]; destruct (arun cs s1) as [[os s2]|] eqn:E; try discriminate; intros [= <- <-]; eauto 8.
Qed.
Lemma ftype_eqb_eq a b : ftype_eqb a b = true -> a = b.
Proof. now destruct a, b. Qed.
Lemma bytes_eqb_eq a b : bytes_eqb a b = true <-> a = b.
Proof. unfold bytes_eqb. destruct (list_eq_dec _ _ _); split; congruence. Qed.
Lemma put_conts s y l l' : s_ctx s = Some y -> conts s y = Some l -> exists y', s_ctx (putd s y l') = Some y' /\ conts (putd s y l') y' = Some l' /\ a_clock y' = a_clock y /\ a_readers y' = a_readers y.
Proof.
  intros Hy Hl. unfold putd. unfold conts in Hl. destruct (a_cont y) as [|b|n] eqn:E; [discriminate| |]; cbn.
  - eexists. split; [reflexivity|]. auto.
  - exists y. split; auto. unfold conts. rewrite E. cbn. now rewrite nupd_same.
Qed.
(** a successful set and a successful get, in the abstract machine *)
Lemma set_inv s l t vals s' R : fields_are s R -> s_set_field s (Some l) t vals = AOk ODone s' ->
  exists y d f, s_ctx s = Some y /\ conts s y = Some d /\ nth_error R l = Some f /\ l_type f = t /\ (l_off f + l_size f <= List.length d)%nat /\ (l_size f <= List.length vals)%nat /\
    ((slice d (l_off f) (l_size f) = firstn (l_size f) vals /\ s' = s) \/
     (slice d (l_off f) (l_size f) <> firstn (l_size f) vals /\ locked y = false /\
      s' = putd (sc s (tick y 2)) (tick y 2) (splice d (l_off f) (firstn (l_size f) vals)))).
Proof.
  intros HR. unfold s_set_field, live. destruct (s_ctx s) as [y|] eqn:Hy; [|discriminate].
  unfold s_label. destruct (nth_error (a_fields y) l) as [f|] eqn:Hf; [|discriminate]. destruct (ftype_eqb (l_type f) t) eqn:Ht; [|discriminate].
  unfold s_reading. destruct (busy y); [discriminate|]. destruct (_ || _); [discriminate|]. destruct (many y); [discriminate|].
  destruct (conts s y) as [d|] eqn:Hd; [|discriminate]. unfold inside. destruct (Nat.leb_spec (l_off f + l_size f) (List.length d)); [|discriminate]. cbn [andb].
  destruct (Nat.leb_spec (l_size f) (List.length vals)); [|discriminate].
  intros HH. exists y, d, f. rewrite (HR y Hy) in Hf. repeat (split; [first [assumption|reflexivity|now apply ftype_eqb_eq]|]).
  destruct (bytes_eqb _ _) eqn:B.
  - left. apply bytes_eqb_eq in B. injection HH as <-. auto.
  - right. destruct (locked y) eqn:K; [discriminate|]. injection HH as <-. split; [|auto]. intros Eq. apply bytes_eqb_eq in Eq. congruence.
Qed.
Lemma get_inv s l t n v s' R : fields_are s R -> s_get_field s (Some l) t = AOk (OVals n v) s' ->
  exists y d f, s_ctx s = Some y /\ conts s y = Some d /\ nth_error R l = Some f /\ l_type f = t /\ n = Nat.div (l_size f) (fsize t) /\
    (l_off f + n * fsize t <= List.length d)%nat /\ v = slice d (l_off f) (n * fsize t) /\ s' = sc s (rg (rd y 1) true).
Proof.
  intros HR. unfold s_get_field, live. destruct (s_ctx s) as [y|] eqn:Hy; [|discriminate].
  unfold s_label. destruct (nth_error (a_fields y) l) as [f|] eqn:Hf; [|discriminate]. destruct (ftype_eqb (l_type f) t) eqn:Ht; [|discriminate].
  unfold s_reading. destruct (busy y); [discriminate|]. destruct (_ || _); [discriminate|]. destruct (many y); [discriminate|].
  destruct (conts s y) as [d|] eqn:Hd; [|discriminate]. unfold inside. set (m := Nat.div (l_size f) (fsize t)).
  destruct (Nat.leb_spec (l_off f + m * fsize t) (List.length d)); [|discriminate]. intros [= <- <- <-].
  exists y, d, f. rewrite (HR y Hy) in Hf. repeat (split; [first [assumption|reflexivity|now apply ftype_eqb_eq]|]). reflexivity.
Qed.
Lemma set_holds s l t vals s' R f : fields_are s R -> s_set_field s (Some l) t vals = AOk ODone s' -> nth_error R l = Some f -> holds s' f (firstn (l_size f) vals).
Proof.
  intros HR H Hf. destruct (set_inv s l t vals s' R HR H) as (y & d & f' & Hy & Hd & Hf' & Ht & L & Lv & K).
  assert (f' = f) by congruence. subst f'. assert (Ev : List.length (firstn (l_size f) vals) = l_size f) by (rewrite firstn_length; lia).
  destruct K as [[E ->] | (_ & _ & ->)].
  - intros y0 d0 Hy0 Hd0. rewrite Hy in Hy0. injection Hy0 as <-. rewrite Hd in Hd0. injection Hd0 as <-. split; auto.
    intros k Hk. rewrite <- E. now rewrite nth_slice.
  - destruct (put_conts (sc s (tick y 2)) (tick y 2) d (splice d (l_off f) (firstn (l_size f) vals)) eq_refl Hd) as (y' & Y1 & Y2 & _).
    intros y0 d0 Hy0 Hd0. rewrite Y1 in Hy0. injection Hy0 as <-. rewrite Y2 in Hd0. injection Hd0 as <-.
    rewrite len_splice by lia. split; auto. intros k Hk. rewrite nth_splice by lia.
    destruct (Nat.leb_spec (l_off f) (l_off f + k)); [|lia]. cbn [andb]. rewrite Ev. destruct (Nat.ltb_spec (l_off f + k) (l_off f + l_size f)); [|lia]. f_equal. lia.
Qed.
Lemma sizes cs rs l f : nth_error (regs cs rs) l = Some f -> (Nat.div (l_size f) (fsize (l_type f)) = l_num f)%nat /\ (l_num f * fsize (l_type f) = l_size f)%nat.
Proof.
  intros H. apply nth_error_In in H. apply regs_wf in H. rewrite H, (Nat.mul_comm (fsize _)). split; auto. apply Nat.div_mul. now destruct (l_type f).
Qed.

(** ** C23: a field reads back what was last set through its label *)
Theorem C23_readback : forall cs l t vals cs2 r1 r2 n v w f,
  let h := cs ++ KSetField (Some l) t vals :: cs2 ++ [KGetField (Some l) t] in
  behaves h -> run h new_world = Some (r1 ++ Good ODone :: r2 ++ [Good (OVals n v)], w) ->
  List.length r1 = List.length cs -> List.length r2 = List.length cs2 ->
  nth_error (regs cs r1) l = Some f -> Forall (quiet (regs cs r1 ++ regs cs2 r2) f) cs2 ->
  n = l_num f /\ l_type f = t /\ v = firstn (l_size f) vals.
Proof.
  intros cs l t vals cs2 r1 r2 n v w f h Hb Hrun L1 L2 Hf HQ. destruct (behaves_run h _ w Hb Hrun) as (s & Ha & _).
  unfold h in Ha. apply arun_app in Ha as (q1 & s1 & q2 & A1 & A2 & E).
  destruct (arun_fields cs _ [] q1 s1 new_fields A1) as [F1 M1]. cbn [app] in F1.
  apply app_split in E as [<- <-]; [|lia].
  destruct (arun_cons _ _ _ _ _ A2) as (r & rs2 & s2 & E & A3 & S2). injection E as <- <-. cbn [astep] in S2.
  pose proof (set_holds s1 l t vals s2 _ f F1 S2 Hf) as H2.
  assert (F2 : fields_are s2 (regs cs r1)). { pose proof (astep_fields (KSetField (Some l) t vals) s1 _ F1) as F. cbn [astep] in F. rewrite S2 in F. cbn in F. now rewrite app_nil_r in F. }
  assert (R2 : exists w, Rel w s2).
  { destruct (arun_rel cs _ _ _ (ex_intro _ _ new_rel) A1) as [w1 R1]. pose proof (sim_step w1 s1 (KSetField (Some l) t vals) R1) as S3. cbn [astep] in S3. rewrite S2 in S3. destruct S3 as (w2 & _ & R2). eauto. }
  apply arun_app in A3 as (q3 & s3 & q4 & A3 & A4 & E).
  destruct (arun_fields cs2 _ _ q3 s3 F2 A3) as [F3 M3].
  apply app_split in E as [<- <-]; [|lia]. pose proof (arun_holds cs2 s2 _ r2 s3 f _ F2 R2 HQ A3 H2) as H3.
  destruct (arun_cons _ _ _ _ _ A4) as (r & rs3 & s4 & E4 & _ & S4). injection E4 as <- <-. cbn [astep] in S4.
  destruct (get_inv s3 l t n v s4 _ F3 S4) as (y & d & f' & Hy & Hd & Hf' & Ht & Hn & L & Hv & _).
  rewrite nth_error_app1 in Hf' by (apply nth_error_Some; congruence). assert (f' = f) by congruence. subst f'.
  destruct (sizes cs r1 l f Hf) as [Z1 Z2]. rewrite <- Ht in Hn. rewrite Z1 in Hn. subst n. split; auto. split; auto.
  rewrite <- Ht, Z2 in Hv, L. destruct (H3 y d Hy Hd) as [_ K]. subst v.
  destruct (set_inv s1 l t vals s2 _ F1 S2) as (_ & _ & f' & _ & _ & Hf2 & _ & _ & Lv & _). assert (f' = f) by congruence. subst f'.
  apply nth_error_ext. intros k. destruct (Nat.ltb_spec k (l_size f)) as [Hk|Hk].
  - rewrite nth_slice by auto. apply K; auto.
  - rewrite (proj2 (nth_error_None _ _)), (proj2 (nth_error_None _ _)); auto; [rewrite firstn_length; lia|]. rewrite len_slice; auto.
Qed.

(** ** C23: setting a field changes the bytes of its range and no others *)
Theorem C23_frame : forall cs l t vals i r1 b b' w f,
  let look := [KGetRead true; VRead i; KRestoreRead] in
  let h := cs ++ look ++ KSetField (Some l) t vals :: look in
  behaves h -> run h new_world = Some (r1 ++ [Good ODone; Good (OByte b); Good ODone; Good ODone; Good ODone; Good (OByte b'); Good ODone], w) ->
  nth_error (regs cs r1) l = Some f ->
  (outside f i -> b' = b) /\ (~ outside f i -> nth_error vals (i - l_off f) = Some b').
Proof.
  intros cs l t vals i r1 b b' w f look h Hb Hrun Hf. destruct (behaves_run h _ w Hb Hrun) as (s & Ha & _).
  unfold h in Ha. apply arun_app in Ha as (q1 & s1 & q2 & A1 & A2 & E).
  destruct (arun_fields cs _ [] q1 s1 new_fields A1) as [F1 M1]. cbn [app] in F1.
  assert (L : List.length r1 = List.length q1).
  { destruct (arun_fields _ _ _ _ _ F1 A2) as [_ L2]. apply (f_equal (@List.length _)) in E. rewrite !app_length in E. cbn in L2, E. lia. }
  apply app_split in E as [<- <-]; auto. unfold look in A2. cbn [app] in A2.
  destruct (arun_cons _ _ _ _ _ A2) as (? & ? & s2 & E & A3 & S1). injection E as <- <-. cbn [astep] in S1. clear A2.
  destruct (arun_cons _ _ _ _ _ A3) as (? & ? & s3 & E & A4 & S2). injection E as <- <-. cbn [astep] in S2. clear A3.
  destruct (arun_cons _ _ _ _ _ A4) as (? & ? & s4 & E & A5 & S3). injection E as <- <-. cbn [astep] in S3. clear A4.
  destruct (arun_cons _ _ _ _ _ A5) as (? & ? & s5 & E & A6 & S4). injection E as <- <-. cbn [astep] in S4. clear A5.
  destruct (arun_cons _ _ _ _ _ A6) as (? & ? & s6 & E & A7 & S5). injection E as <- <-. cbn [astep] in S5. clear A6.
  destruct (arun_cons _ _ _ _ _ A7) as (? & ? & s7 & E & A8 & S6). injection E as <- <-. cbn [astep] in S6. clear A7 A8.
  assert (K1 : exists y d, s_ctx s4 = Some y /\ conts s4 y = Some d /\ nth_error d i = Some b /\ fields_are s4 (regs cs r1)).
  { unfold s_get_read, live in S1. destruct (s_ctx s1) as [y|] eqn:Hy; [|discriminate]. unfold s_reading in S1.
    destruct (busy y); [discriminate|]. destruct (_ || _); [discriminate|]. destruct (many y); [discriminate|]. injection S1 as <-.
    unfold live in S2. cbn [s_ctx sc] in S2. cbn [a_rg rg] in S2. unfold byte_at in S2.
    destruct (conts _ _) as [d|] eqn:Hd in S2; [|discriminate]. destruct (nth_error d i) as [b0|] eqn:Hi; [|discriminate]. injection S2 as <- <-.
    unfold s_restore_read, live in S3. cbn [s_ctx sc] in S3. destruct (0 <? _); [|discriminate]. injection S3 as <-.
    eexists. exists d. split; [reflexivity|]. split; [exact Hd|]. split; auto. intros y0 [= <-]. cbn. auto. }
  destruct K1 as (y & d & Hy & Hd & Hi & F4).
  destruct (set_inv s4 l t vals s5 _ F4 S4) as (y1 & d1 & f1 & Hy1 & Hd1 & Hf1 & Ht & L1 & Lv & K).
  assert (y1 = y) by congruence. subst y1. assert (d1 = d) by congruence. subst d1. assert (f1 = f) by congruence. subst f1.
  assert (K2 : exists y' d', s_ctx s5 = Some y' /\ conts s5 y' = Some d' /\ nth_error d' i = Some b').
  { unfold s_get_read, live in S5. destruct (s_ctx s5) as [y'|] eqn:Hy'; [|discriminate]. unfold s_reading in S5.
    destruct (busy y'); [discriminate|]. destruct (_ || _); [discriminate|]. destruct (many y'); [discriminate|]. injection S5 as <-.
    unfold live in S6. cbn [s_ctx sc] in S6. cbn [a_rg rg] in S6. unfold byte_at in S6.
    destruct (conts _ _) as [d'|] eqn:Hd' in S6; [|discriminate]. destruct (nth_error d' i) as [b0|] eqn:Hi'; [|discriminate]. injection S6 as <- <-.
    exists y', d'. split; auto. }
  destruct K2 as (y' & d' & Hy' & Hd' & Hi').
  assert (Ev : List.length (firstn (l_size f) vals) = l_size f) by (rewrite firstn_length; lia).
  assert (Ed : d' = splice d (l_off f) (firstn (l_size f) vals)).
  { destruct K as [[E ->] | (_ & _ & ->)].
    - assert (y' = y) by congruence. subst y'. assert (d' = d) by congruence. subst d'. rewrite <- E.
      apply nth_error_ext. intros k. rewrite nth_splice; rewrite len_slice; auto. destruct (Nat.leb_spec (l_off f) k); cbn [andb]; auto.
      destruct (Nat.ltb_spec k (l_off f + l_size f)); auto. rewrite nth_slice by lia. f_equal. lia.
    - destruct (put_conts (sc s4 (tick y 2)) (tick y 2) d (splice d (l_off f) (firstn (l_size f) vals)) eq_refl Hd) as (y2 & Y1 & Y2 & _).
      rewrite Y1 in Hy'. injection Hy' as <-. congruence. }
  rewrite Ed, nth_splice in Hi' by lia. rewrite Ev in Hi'. unfold outside.
  destruct (Nat.leb_spec (l_off f) i); cbn [andb] in Hi'.
  - destruct (Nat.ltb_spec i (l_off f + l_size f)) as [Hl|Hl].
    + split; [lia|]. intros _. rewrite nth_error_firstn in Hi' by lia. exact Hi'.
    + split; [congruence|lia].
  - split; [congruence|lia].
Qed.

(** ** C23: the state of the context changes exactly when the value of the field changes *)
Theorem C23_state : forall cs l t vals r1 n v a b w f,
  let h := cs ++ [KGetField (Some l) t; KRestoreField (Some l) t; KState; KSetField (Some l) t vals; KState] in
  behaves h -> run h new_world = Some (r1 ++ [Good (OVals n v); Good ODone; Good (OZ a); Good ODone; Good (OZ b)], w) ->
  nth_error (regs cs r1) l = Some f ->
  b = if bytes_eqb v (firstn (l_size f) vals) then a else (a + 2) mod two64.
Proof.
  intros cs l t vals r1 n v a b w f h Hb Hrun Hf. destruct (behaves_run h _ w Hb Hrun) as (s & Ha & _).
  unfold h in Ha. apply arun_app in Ha as (q1 & s1 & q2 & A1 & A2 & E).
  destruct (arun_fields cs _ [] q1 s1 new_fields A1) as [F1 M1]. cbn [app] in F1.
  assert (L : List.length r1 = List.length q1).
  { destruct (arun_fields _ _ _ _ _ F1 A2) as [_ L2]. apply (f_equal (@List.length _)) in E. rewrite !app_length in E. cbn in L2, E. lia. }
  apply app_split in E as [<- <-]; auto.
  destruct (arun_cons _ _ _ _ _ A2) as (? & ? & s2 & E & A3 & S1). injection E as <- <-. cbn [astep] in S1. clear A2.
  destruct (arun_cons _ _ _ _ _ A3) as (? & ? & s3 & E & A4 & S2). injection E as <- <-. cbn [astep] in S2. clear A3.
  destruct (arun_cons _ _ _ _ _ A4) as (? & ? & s4 & E & A5 & S3). injection E as <- <-. cbn [astep] in S3. clear A4.
  destruct (arun_cons _ _ _ _ _ A5) as (? & ? & s5 & E & A6 & S4). injection E as <- <-. cbn [astep] in S4. clear A5.
  destruct (arun_cons _ _ _ _ _ A6) as (? & ? & s6 & E & A7 & S5). injection E as <- <-. cbn [astep] in S5. clear A6 A7.
  destruct (get_inv s1 l t n v s2 _ F1 S1) as (y & d & f' & Hy & Hd & Hf' & Ht & Hn & L1 & Hv & ->).
  assert (f' = f) by congruence. subst f'. destruct (sizes cs r1 l f Hf) as [Z1 Z2]. rewrite <- Ht, Z1 in Hn. subst n. rewrite <- Ht, Z2 in Hv.
  assert (K : exists y4, s_ctx s4 = Some y4 /\ conts s4 y4 = Some d /\ a = a_clock y4 mod two64 /\ fields_are s4 (regs cs r1)).
  { unfold s_restore_field, live in S2. cbn [s_ctx sc] in S2. unfold s_label in S2. cbn [a_fields rg rd] in S2.
    destruct (nth_error (a_fields y) l); [|discriminate]. destruct (ftype_eqb _ _); [|discriminate]. unfold s_restore_read, live in S2. cbn [s_ctx sc] in S2.
    destruct (0 <? _); [|discriminate]. injection S2 as <-. unfold live in S3. cbn [s_ctx sc] in S3. injection S3 as <- <-.
    eexists. split; [reflexivity|]. split; [exact Hd|]. split; [reflexivity|]. intros y0 [= <-]. cbn. auto. }
  destruct K as (y4 & Hy4 & Hd4 & Ea & F4).
  destruct (set_inv s4 l t vals s5 _ F4 S4) as (y1 & d1 & f1 & Hy1 & Hd1 & Hf1 & _ & L2 & Lv & K).
  assert (y1 = y4) by congruence. subst y1. assert (d1 = d) by congruence. subst d1. assert (f1 = f) by congruence. subst f1.
  rewrite <- Hv in K. destruct K as [[E ->] | (E & _ & ->)].
  - rewrite (proj2 (bytes_eqb_eq _ _) E). unfold live in S5. rewrite Hy4 in S5. injection S5 as <- <-. auto.
  - destruct (bytes_eqb v (firstn (l_size f) vals)) eqn:B; [apply bytes_eqb_eq in B; congruence|].
    destruct (put_conts (sc s4 (tick y4 2)) (tick y4 2) d (splice d (l_off f) (firstn (l_size f) vals)) eq_refl Hd4) as (y2 & Y1 & Y2 & Y3 & _).
    unfold live in S5. rewrite Y1 in S5. injection S5 as <- <-. rewrite Y3, Ea. cbn [a_clock tick]. now rewrite Zplus_mod_idemp_l.
Qed.

(** ** C23: another type, or no label, is refused without effect *)
Theorem C23_mismatch : forall cs rs w l f t, behaves cs -> run cs new_world = Some (rs, w) -> w_ctx w <> None ->
  nth_error (regs cs rs) l = Some f -> l_type f <> t ->
  (forall vals, step (KSetField (Some l) t vals) w = RErr ERR_UNSUPPORTED w) /\
  step (KGetField (Some l) t) w = RErr ERR_UNSUPPORTED w /\ step (KRestoreField (Some l) t) w = RErr ERR_UNSUPPORTED w.
Proof.
  intros cs rs w l f t Hb Hrun Hw Hf Ht. destruct (behaves_run cs rs w Hb Hrun) as (s & Ha & R).
  destruct (arun_fields cs _ [] rs s new_fields Ha) as [F _]. cbn [app] in F.
  destruct (w_ctx w) as [x|] eqn:Hx; [|congruence].
  assert (Hn : nth_error (c_fields x) l = Some f).
  { pose proof (r_ctx w s R) as C. rewrite Hx in C. destruct (s_ctx s) as [y|] eqn:Hy; [|contradiction]. rewrite (cr_fields x w s y C), (F y Hy). exact Hf. }
  assert (E : ftype_eqb (l_type f) t = false) by (destruct (l_type f), t; auto; congruence).
  repeat split; [intros vals| |]; cbn [step]; unfold done, ctx_set_field, ctx_get_field, ctx_restore_field, ctx_set_generic, ctx_set_at, ctx_get_generic, ctx_get_at, ctx_restore_at, mbind, deref, mbind, getc;
    rewrite Hx, Hn; cbn; rewrite E; reflexivity.
Qed.
Theorem C23_null_label : forall w t, (forall vals, step (KSetField None t vals) w = RErr ERR_UNSUPPORTED w) /\
  step (KGetField None t) w = RErr ERR_UNSUPPORTED w /\ step (KRestoreField None t) w = RErr ERR_UNSUPPORTED w.
Proof. repeat split. Qed.

(** ** C23: labels stand for names *)
Lemma field_index_some fs name : forall i r k, field_index i fs name r = Some k ->
  r = Some k \/ ((i <= k)%nat /\ exists f, nth_error fs (k - i) = Some f /\ l_name f = name).
Proof.
  induction fs as [|f fs IH]; intros i r k H; cbn in H; [auto|]. apply IH in H. destruct H as [H|(H & g & G1 & G2)].
  - destruct (seqb (l_name f) name) eqn:E; [|auto]. injection H as <-. right. split; [lia|]. exists f. rewrite Nat.sub_diag. split; auto. now apply seqb_eq.
  - right. split; [lia|]. exists g. replace (k - i)%nat with (S (k - S i)) by lia. auto.
Qed.
Definition distinct (R : list label) : Prop := NoDup (map l_name R).
Lemma astep_distinct c s R o s' : fields_are s R -> (s_ctx s <> None -> distinct R) -> astep c s = AOk o s' -> s_ctx s' <> None -> distinct (R ++ regs1 c (Good o)).
Proof.
  intros F D H Hl. destruct (s_ctx s) as [y|] eqn:Hy.
  - specialize (D ltac:(discriminate)). destruct c; cbn [regs1]; rewrite ?app_nil_r; auto.
    cbn [astep] in H. unfold s_register, live in H. rewrite Hy in H. destruct (registered y name) eqn:E; [discriminate|].
    unfold distinct. rewrite map_app. cbn.
    unfold registered in E. rewrite (F y Hy) in E. revert E D. unfold distinct. clear. induction R as [|g R IH]; cbn; intros E D.
    + constructor; auto.
    + apply orb_false_iff in E as [E1 E2]. inversion D; subst. constructor; auto. rewrite in_app_iff. cbn. intros [K|[K|[]]]; [auto|]. rewrite K in E1. now rewrite seqb_refl in E1.
  - exfalso. destruct c; cbn [astep] in H; unfold s_set, s_take, s_get, s_get_read, s_restore, s_restore_read, s_register, s_set_field, s_get_field, s_restore_field, s_destroy, live, byte_at in H;
      rewrite ?Hy in H; try discriminate; repeat match goal with H : match ?x with _ => _ end = AOk _ _ |- _ => destruct x; try discriminate end; injection H as <- <-; cbn in Hl; congruence.
Qed.
Lemma arun_distinct cs : forall s R rs s', fields_are s R -> (s_ctx s <> None -> distinct R) -> arun cs s = Some (rs, s') -> s_ctx s' <> None -> distinct (R ++ regs cs rs).
Proof.
  induction cs as [|c cs IH]; intros s R rs s' F D; cbn [arun].
  - intros [= <- <-]. cbn. now rewrite app_nil_r.
  - pose proof (astep_fields c s R F) as F1. pose proof (astep_distinct c s R) as D1. destruct (astep c s) as [o s1|e s1|] eqn:E; [| |discriminate].
    + destruct (arun cs s1) as [[os s2]|] eqn:E2; [|discriminate]. intros [= <- <-] Hl. cbn. rewrite app_assoc. eapply IH; eauto.
    + destruct (arun cs s1) as [[os s2]|] eqn:E2; [|discriminate]. intros [= <- <-] Hl. cbn. rewrite app_assoc. eapply IH; eauto.
      assert (Er : regs1 c (Bad e) = []) by (destruct c; reflexivity). rewrite Er, app_nil_r. intros Hs1. apply D. intros Hn.
      clear - E Hn Hs1. destruct c; cbn [astep] in E; unfold s_set, s_take, s_get, s_get_read, s_restore, s_restore_read, s_register, s_set_field, s_get_field, s_restore_field, s_destroy, live, byte_at in E;
      rewrite ?Hn in E; try discriminate; repeat match goal with H : match ?x with _ => _ end = AErr _ _ |- _ => destruct x; try discriminate end; injection E as <- <-; congruence.
Qed.
Theorem C23_labels : forall cs rs w name, behaves cs -> run cs new_world = Some (rs, w) -> w_ctx w <> None ->
  NoDup (map l_name (regs cs rs)) /\
  exists r, step (KLabel name) w = ROk (OLab r) w /\
  match r with
  | Some k => exists f, nth_error (regs cs rs) k = Some f /\ l_name f = name
  | None => ~ In name (map l_name (regs cs rs))
  end.
Proof.
  intros cs rs w name Hb Hrun Hw. destruct (behaves_run cs rs w Hb Hrun) as (s & Ha & R).
  destruct (arun_fields cs _ [] rs s new_fields Ha) as [F _]. cbn [app] in F.
  destruct (w_ctx w) as [x|] eqn:Hx; [|congruence]. pose proof (r_ctx w s R) as C. rewrite Hx in C. destruct (s_ctx s) as [y|] eqn:Hy; [|contradiction].
  split.
  - apply (arun_distinct cs new_astate [] rs s new_fields); auto; [intros _; constructor|congruence].
  - pose proof (cr_fields x w s y C) as Ec. rewrite (F y Hy) in Ec. exists (field_index 0 (regs cs rs) name None). split.
    + cbn [step]. unfold mbind, ctx_label, mbind, getc. rewrite Hx. cbn. now rewrite Ec.
    + destruct (field_index 0 (regs cs rs) name None) as [k|] eqn:E.
      * apply field_index_some in E as [E|(_ & f & E1 & E2)]; [discriminate|]. rewrite Nat.sub_0_r in E1. eauto.
      * apply field_index_none in E as [_ E]. rewrite in_map_iff. intros (f & F1 & F2).
        assert (existsb (fun f => seqb (l_name f) name) (regs cs rs) = true). { apply existsb_exists. exists f. split; auto. rewrite F1. apply seqb_refl. } congruence.
Qed.

(** ** Concrete histories *)
Local Open Scope string_scope.
Local Open Scope list_scope.
Local Open Scope Z_scope.
Definition b0 : byte := x00. Definition b1 : byte := x01. Definition b2 : byte := x02.
Definition rep (n : nat) (b : byte) : bytes := List.repeat b n.
(** a context of 16 bytes: a flag at byte 1, an integer at byte 4 and a double at byte 8 *)
Definition ex_hist : list cmd :=
  [UAlloc (rep 16 b0); KSet true CopyValues 16 (SUser 0); KRegister (lit "flag") 1 FBool 1; KRegister (lit "n") 4 FInt32 1; KRegister (lit "x") 8 FDouble 1].
Example C23_readback_ex : exists w,
  let h := ex_hist ++ KSetField (Some 1%nat) FInt32 (rep 4 b1) :: [KSetField (Some 2%nat) FDouble (rep 8 b2); KGet true; VWrite 0 b2; KRestore] ++ [KGetField (Some 1%nat) FInt32] in
  behaves h /\ run h new_world = Some ([Good ODone; Good ODone; Good ODone; Good ODone; Good ODone] ++ Good ODone :: [Good ODone; Good ODone; Good ODone; Good ODone] ++ [Good (OVals 1 (rep 4 b1))], w) /\
  Forall (quiet (regs ex_hist [Good ODone; Good ODone; Good ODone; Good ODone; Good ODone]) (mkL (lit "n") FInt32 4 4 1)) [KSetField (Some 2%nat) FDouble (rep 8 b2); KGet true; VWrite 0 b2; KRestore].
Proof.
  eexists. split; [unfold behaves; vm_compute; discriminate|]. split; [vm_compute; reflexivity|].
  repeat apply Forall_cons; try apply Forall_nil; cbn [quiet]; auto.
  - intros g Hg. vm_compute in Hg. injection Hg as <-. left. cbn. lia.
  - left. cbn. lia.
Qed.
Example C23_frame_ex : exists w,
  let look := [KGetRead true; VRead 5; KRestoreRead] in
  let h := ex_hist ++ look ++ KSetField (Some 1%nat) FInt32 (rep 4 b1) :: look in
  behaves h /\ run h new_world = Some ([Good ODone; Good ODone; Good ODone; Good ODone; Good ODone] ++ [Good ODone; Good (OByte b0); Good ODone; Good ODone; Good ODone; Good (OByte b1); Good ODone], w).
Proof. eexists. split; [unfold behaves; vm_compute; discriminate|vm_compute; reflexivity]. Qed.
Example C23_state_ex : exists w,
  let h := ex_hist ++ [KGetField (Some 1%nat) FInt32; KRestoreField (Some 1%nat) FInt32; KState; KSetField (Some 1%nat) FInt32 (rep 4 b1); KState] in
  behaves h /\ run h new_world = Some ([Good ODone; Good ODone; Good ODone; Good ODone; Good ODone] ++ [Good (OVals 1 (rep 4 b0)); Good ODone; Good (OZ 2); Good ODone; Good (OZ 4)], w).
Proof. eexists. split; [unfold behaves; vm_compute; discriminate|vm_compute; reflexivity]. Qed.
Example C23_exclusive_ex : exists rs w, run (ex_hist ++ [KGet true]) new_world = Some (rs, w) /\ held (ex_hist ++ [KGet true]) rs (false, 0) = (true, 0).
Proof. do 2 eexists. split; vm_compute; reflexivity. Qed.
Example C23_exclusive_ex2 : exists rs w, run (ex_hist ++ [KGetRead true; KGetField (Some 0%nat) FBool]) new_world = Some (rs, w) /\
  held (ex_hist ++ [KGetRead true; KGetField (Some 0%nat) FBool]) rs (false, 0) = (false, 2) /\ step (KGet true) w = RErr ERR_MINOR w.
Proof. do 2 eexists. split; [vm_compute; reflexivity|]. split; vm_compute; reflexivity. Qed.

(** ** Findings *)
(** New data is accepted while a reader is outstanding; what the reader was given is freed. *)
Theorem C23_set_with_reader_refuted : exists cs rs w, run cs new_world = Some (rs, w) /\ snd (held cs rs (false, 0)) = 1 /\
  Forall (fun r => match r with Good _ => True | Bad _ => False end) rs /\ step (VRead 0) w = RUB.
Proof.
  exists (ex_hist ++ [KGetRead true; KSet true CopyValues 16 (SUser 0)]). do 2 eexists. split; [vm_compute; reflexivity|].
  split; [reflexivity|]. split; [repeat constructor|reflexivity].
Qed.
Theorem C23_destroy_with_reader_refuted : exists cs rs w, run cs new_world = Some (rs, w) /\ snd (held cs rs (false, 0)) = 1 /\
  Forall (fun r => match r with Good _ => True | Bad _ => False end) rs /\ step (VRead 0) w = RUB /\ step KRestoreRead w = RUB.
Proof.
  exists (ex_hist ++ [KGetRead true; KDestroy]). do 2 eexists. split; [vm_compute; reflexivity|].
  split; [reflexivity|]. split; [repeat constructor|]. split; reflexivity.
Qed.
(** Copying values from the context's own data reads freed memory. *)
Theorem C23_copy_self_refuted : exists cs rs w, run cs new_world = Some (rs, w) /\ snd (held cs rs (false, 0)) = 1 /\
  step (VRead 15) w = ROk (OByte b0) w /\ step (KSet true CopyValues 16 SRead) w = RUB.
Proof.
  exists (ex_hist ++ [KGetRead true]). do 2 eexists. split; [vm_compute; reflexivity|]. split; [reflexivity|]. split; reflexivity.
Qed.
(** With a destroy function and no data, no data can ever be set. *)
Theorem C23_dtor_first : forall w x d, w_ctx w = Some x -> c_dtor x = Some d -> c_data x = None -> even (c_state x) = true -> c_readers x = 0 ->
  forall host mode size s, step (KSet host mode size s) w = RErr ERR_BACKEND w.
Proof.
  intros w x d Hx Hd Hn He Hr host mode size s.
  assert (E : forall p, ctx_set_data host mode size p w = RErr ERR_BACKEND w).
  { intros p. unfold ctx_set_data, mbind, getc. rewrite Hx. cbn. rewrite He. cbn. unfold destroy_data, mbind, getc. rewrite Hx, Hd.
    unfold ctx_get, mbind, getc. rewrite Hx. cbn. rewrite He, Hr. cbn. now rewrite Hn. }
  destruct s; cbn [step]; unfold mbind, src_ptr, done, mbind; now rewrite E.
Qed.
Theorem C23_dtor_first_refuted : exists w,
  run [UAlloc (rep 16 b0); KDtor (Some (mkD true false 0)); KSet true CopyValues 16 (SUser 0); KDestroy] new_world =
    Some ([Good ODone; Good ODone; Bad ERR_BACKEND; Bad ERR_BACKEND], w).
Proof. eexists. vm_compute. reflexivity. Qed.
(** A destroy function that fails leaves the context locked: no reader is admitted, and it cannot be destroyed until
    a RestoreData that no GetData of the client belongs to. *)
Theorem C23_dtor_fails_refuted : exists w,
  let h := [KDtor (Some (mkD true false 1)); KSet true CopyValues 16 (SUser 0); KGetRead true; KDestroy; KRestore] in
  run (ex_hist ++ h) new_world =
    Some ([Good ODone; Good ODone; Good ODone; Good ODone; Good ODone; Good ODone; Bad 1; Bad ERR_MINOR; Bad ERR_MINOR; Good ODone], w).
Proof. eexists. vm_compute. reflexivity. Qed.
(** A refused SetData still changes the size of the context. *)
Theorem C23_size_refuted : exists w, run (ex_hist ++ [KSize; KSet false CopyValues 99 (SUser 0); KSize]) new_world =
  Some ([Good ODone; Good ODone; Good ODone; Good ODone; Good ODone; Good (ONat 16); Bad ERR_BACKEND; Good (ONat 99)], w).
Proof. eexists. vm_compute. reflexivity. Qed.
(** A field may be registered beyond the end of the data; setting it leaves the block. *)
Theorem C23_range_refuted : exists cs rs w, run cs new_world = Some (rs, w) /\ Forall (fun r => match r with Good _ => True | Bad _ => False end) rs /\
  step (KSetField (Some 3%nat) FDouble (rep 8 b1)) w = RUB.
Proof.
  exists (ex_hist ++ [KRegister (lit "y") 12 FDouble 1]). do 2 eexists. split; [vm_compute; reflexivity|]. split; [repeat constructor|reflexivity].
Qed.

Print Assumptions C23_refines.
Print Assumptions C23_exclusive.
Print Assumptions C23_readback.
Print Assumptions C23_frame.
Print Assumptions C23_state.
Print Assumptions C23_mismatch.
Print Assumptions C23_labels.
Print Assumptions C23_dtor_first.
