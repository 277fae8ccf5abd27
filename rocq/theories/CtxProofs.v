(** * The context code follows the abstract machine *)
From Coq Require Import List ZArith Lia Bool Arith.
From Coq.Strings Require Import Byte.
From Verif Require Import Prelude RstrModel StrModel CtxModel CtxSpec.
From Verif Require VecModel.
Import ListNotations.
Local Open Scope Z_scope.

Definition cont_rel (x : ctx) (h : addr -> option bytes) (nl : nat) (s : astate) (y : actx) : Prop :=
  match a_cont y with
  | CEmpty => c_owned x = None /\ c_borrowed x = None /\ c_data x = None
  | COwn l => exists a, c_owned x = Some a /\ c_borrowed x = None /\ c_data x = Some a /\ h a = Some l /\
                match a with VecModel.AU n => s_user s n = None /\ (n < s_nu s)%nat | VecModel.AL k => (k < nl)%nat end
  | CShared n => c_owned x = None /\ c_borrowed x = Some (AU n) /\ c_data x = Some (AU n) /\ (n < s_nu s)%nat
  end.
Record ctx_rel (x : ctx) (w : world) (s : astate) (y : actx) : Prop := {
  cr_state : c_state x = a_clock y mod two64;
  cr_readers : c_readers x = a_readers y;
  cr_range : 0 <= a_readers y < two64;
  cr_refs : c_refs x = a_refs y;
  cr_size : c_size x = a_size y;
  cr_fields : c_fields x = a_fields y;
  cr_dtor : c_dtor x = a_dtor y;
  cr_cont : cont_rel x (w_heap w) (w_nl w) s y;
  cr_wg : a_wg y = true -> w_wptr w = c_data x;
  cr_rg : a_rg y = true -> w_rptr w = c_data x }.
Record Rel (w : world) (s : astate) : Prop := {
  r_ctx : match w_ctx w, s_ctx s with
          | Some x, Some y => ctx_rel x w s y
          | None, None => True
          | _, _ => False
          end;
  r_user : forall n l, s_user s n = Some l -> w_heap w (AU n) = Some l;
  r_nu : w_nu w = s_nu s;
  r_fresh : forall n, (s_nu s <= n)%nat -> s_user s n = None }.

Definition sim (o : out obs) (a : aout) : Prop :=
  match a with
  | AOk b s => exists w, o = ROk b w /\ Rel w s
  | AErr e s => exists w, o = RErr e w /\ Rel w s
  | AIll => True
  end.

Lemma addr_eqb_eq a b : addr_eqb a b = true <-> a = b.
Proof.
  destruct a, b; cbn; try (split; discriminate); rewrite Nat.eqb_eq; split; intros H; try inversion H; subst; auto.
Qed.
Lemma addr_refl a : addr_eqb a a = true.
Proof. now apply addr_eqb_eq. Qed.
Lemma addr_neq a b : a <> b -> addr_eqb a b = false.
Proof. intros H. destruct (addr_eqb a b) eqn:E; auto. apply addr_eqb_eq in E. congruence. Qed.
Lemma hupd_same h a l : hupd h a l a = l.
Proof. unfold hupd. now rewrite addr_refl. Qed.
Lemma hupd_other h a l b : b <> a -> hupd h a l b = h b.
Proof. intros H. unfold hupd. now rewrite addr_neq. Qed.
Lemma nupd_same {A} (f : nat -> A) k x : nupd f k x k = x.
Proof. unfold VecModel.nupd. now rewrite Nat.eqb_refl. Qed.
Lemma nupd_other {A} (f : nat -> A) k x n : n <> k -> nupd f k x n = f n.
Proof. intros H. unfold VecModel.nupd. destruct (Nat.eqb_spec n k); congruence. Qed.
Lemma even_mod z : even (z mod two64) = even z.
Proof.
  unfold VecModel.even. replace (z mod two64 mod 2) with (z mod 2); auto.
  symmetry. replace two64 with (2 * 9223372036854775808) by reflexivity.
  rewrite Z.rem_mul_r by lia. rewrite (Z.mul_comm 2), Z_mod_plus_full. apply Z.mod_mod. lia.
Qed.
Lemma add64_mod a b : add64 (a mod two64) b = (a + b) mod two64.
Proof. unfold VecModel.add64. now rewrite Zplus_mod_idemp_l. Qed.
Lemma add64_small a b : 0 <= a + b < two64 -> add64 a b = a + b.
Proof. intros H. unfold VecModel.add64. now apply Z.mod_small. Qed.

Lemma field_index_none fs name : forall i r, field_index i fs name r = None <-> r = None /\ existsb (fun f => seqb (l_name f) name) fs = false.
Proof.
  induction fs as [|f fs IH]; intros i r; cbn; [tauto|].
  rewrite IH. destruct (seqb (l_name f) name); cbn; [|tauto]. split; [intros [H _]; discriminate | intros [_ H]; discriminate].
Qed.

(** Data pointers and contents *)
Lemma data_none x h nl s y : cont_rel x h nl s y -> isSome (c_data x) = negb (empty y).
Proof.
  unfold cont_rel, empty. destruct (a_cont y).
  - intros (_ & _ & ->). reflexivity.
  - intros (a & _ & _ & -> & _). reflexivity.
  - intros (_ & _ & -> & _). reflexivity.
Qed.
Lemma data_block x w s y l : Rel w s -> cont_rel x (w_heap w) (w_nl w) s y -> conts s y = Some l ->
  exists a, c_data x = Some a /\ w_heap w a = Some l.
Proof.
  intros Hr Hc. unfold cont_rel, conts in *. destruct (a_cont y).
  - discriminate.
  - intros [= <-]. destruct Hc as (a & _ & _ & -> & H & _). eauto.
  - intros H. destruct Hc as (_ & _ & -> & _). exists (AU n). split; auto. now apply (r_user _ _ Hr).
Qed.

Lemma mread_ok w p a l off n : p = Some a -> w_heap w a = Some l -> (off + n <= length l)%nat ->
  mread p off n w = ROk (slice l off n) w.
Proof.
  intros -> H L. unfold mread, mbind, block. rewrite H. cbn [fst snd].
  replace (Nat.leb (off + n) (length l)) with true by (symmetry; now apply Nat.leb_le). reflexivity.
Qed.
Lemma mwrite_ok w p a l off v : p = Some a -> w_heap w a = Some l -> (off + length v <= length l)%nat ->
  mwrite p off v w = ROk tt (seth w a (Some (splice l off v))).
Proof.
  intros -> H L. unfold mwrite, mbind, block. rewrite H. cbn [fst snd].
  replace (Nat.leb (off + length v) (length l)) with true by (symmetry; now apply Nat.leb_le). reflexivity.
Qed.
Lemma read1_ok w p a l i b : p = Some a -> w_heap w a = Some l -> nth_error l i = Some b -> read1 p i w = ROk (OByte b) w.
Proof.
  intros Hp Hl Hb. assert (L : (i < length l)%nat) by (apply nth_error_Some; congruence).
  unfold read1, mbind. rewrite (mread_ok _ _ _ _ _ _ Hp Hl) by lia.
  unfold slice. apply nth_error_split in Hb. destruct Hb as (l1 & l2 & -> & <-).
  rewrite skipn_app, Nat.sub_diag, skipn_all. reflexivity.
Qed.

(** Changing only the heap block of the data *)
Lemma write_rel w s x y a l l' : Rel w s -> w_ctx w = Some x -> s_ctx s = Some y -> c_data x = Some a -> conts s y = Some l ->
  Rel (seth w a (Some l')) (putd s y l').
Proof.
  intros Hr Hx Hy Ha Hl. pose proof (r_ctx _ _ Hr) as Hc. rewrite Hx, Hy in Hc.
  destruct Hc as [h1 h2 h3 h4 h5 h6 h7 h8 h9 h10]. destruct Hr as [_ Hu Hn Hf].
  unfold cont_rel, conts, putd in *. destruct (a_cont y) as [|l0|n] eqn:E.
  - discriminate.
  - injection Hl as ->. destruct h8 as (a' & o1 & o2 & o3 & o4 & o5). rewrite Ha in o3. injection o3 as <-.
    constructor; cbn; auto.
    + rewrite Hx. constructor; cbn; auto. unfold cont_rel. cbn. exists a. rewrite hupd_same. auto.
    + intros n l1 H1. rewrite hupd_other; auto. intros <-. destruct o5. congruence.
  - destruct h8 as (o1 & o2 & o3 & o4). rewrite Ha in o3. injection o3 as ->.
    constructor; cbn; auto.
    + rewrite Hx. constructor; cbn; auto. unfold cont_rel. cbn. rewrite E. auto.
    + intros m l1 H1. unfold VecModel.nupd in H1. destruct (Nat.eqb_spec m n).
      * subst. rewrite hupd_same. congruence.
      * rewrite hupd_other; auto. congruence.
    + intros m H1. unfold VecModel.nupd. destruct (Nat.eqb_spec m n); [lia|auto].
Qed.

(** Changing only the counters of a context *)
Lemma rel_intro w s x' y' : Rel w s ->
  (forall x y, w_ctx w = Some x -> s_ctx s = Some y -> ctx_rel x w s y -> ctx_rel x' (setc w (Some x')) (sc s y') y') ->
  (exists x, w_ctx w = Some x) -> Rel (setc w (Some x')) (sc s y').
Proof.
  intros Hr Hk [x Hx]. pose proof (r_ctx _ _ Hr) as Hc. rewrite Hx in Hc. destruct (s_ctx s) as [y|] eqn:Hy; [|destruct Hc].
  specialize (Hk x y Hx eq_refl Hc). destruct Hr as [_ Hu Hn Hf]. constructor; cbn; auto.
Qed.

Lemma upd_rel w s x y x' y' : Rel w s -> w_ctx w = Some x -> s_ctx s = Some y ->
  (ctx_rel x w s y -> ctx_rel x' w s y') -> Rel (setc w (Some x')) (sc s y').
Proof.
  intros Hr Hx Hy Hk. pose proof (r_ctx _ _ Hr) as Hc. rewrite Hx, Hy in Hc. specialize (Hk Hc).
  destruct Hr as [_ Hu Hn Hf]. constructor; cbn; auto.
  destruct Hk as [h1 h2 h3 h4 h5 h6 h7 h8 h9 h10]. constructor; auto.
Qed.
Lemma same_rel w s y : Rel w s -> s_ctx s = Some y -> Rel w (sc s y).
Proof.
  intros Hr Hy. destruct s as [c u n]. cbn in *. subst c. exact Hr.
Qed.
Lemma self_sc s y : s_ctx s = Some y -> sc s y = s.
Proof. destruct s as [c u n]. cbn. now intros ->. Qed.

Lemma clock_tick c k : add64 (c mod two64) k = (c + k) mod two64.
Proof. apply add64_mod. Qed.

Section Step.
Variables (w : world) (s : astate) (x : ctx) (y : actx).
Hypothesis (Hr : Rel w s) (Hx : w_ctx w = Some x) (Hy : s_ctx s = Some y).
Lemma Hc : ctx_rel x w s y.
Proof. pose proof (r_ctx _ _ Hr) as H. now rewrite Hx, Hy in H. Qed.
Lemma busy_eq : even (c_state x) = negb (busy y).
Proof. unfold busy. rewrite (cr_state _ _ _ _ Hc), even_mod. now destruct (even _). Qed.
Lemma get_eq host : ctx_get host w =
  if locked y then RErr ERR_MINOR w else if empty y || negb host then RErr ERR_BACKEND w
  else ROk (c_data x) (setc w (Some (with_state x (add64 (c_state x) 1)))).
Proof.
  unfold ctx_get, mbind, getc. rewrite Hx. cbn. rewrite busy_eq, (cr_readers _ _ _ _ Hc).
  rewrite (data_none _ _ _ _ _ (cr_cont _ _ _ _ Hc)). unfold locked.
  destruct (busy y); cbn; auto. destruct (a_readers y =? 0); cbn; auto.
  destruct (empty y); cbn; auto. unfold get_data_ref, mbind, check. destruct host; cbn; auto.
  unfold getc. repeat (rewrite Hx; cbn). reflexivity.
Qed.
Lemma get_read_eq host : ctx_get_read host w =
  if busy y then RErr ERR_MINOR w else if empty y || negb host then RErr ERR_BACKEND w
  else ROk (c_data x) (setc w (Some (with_readers x (add64 (c_readers x) 1)))).
Proof.
  unfold ctx_get_read, mbind, getc. rewrite Hx. cbn. rewrite busy_eq.
  rewrite (data_none _ _ _ _ _ (cr_cont _ _ _ _ Hc)).
  destruct (busy y); cbn; auto.
  destruct (empty y); cbn; auto. unfold get_data_ref, mbind, check. destruct host; cbn; auto.
  unfold getc. repeat (rewrite Hx; cbn). reflexivity.
Qed.
Lemma restore_eq : ctx_restore w = if busy y then ROk tt (setc w (Some (with_state x (add64 (c_state x) 1)))) else RErr ERR_MINOR w.
Proof. unfold ctx_restore, mbind, getc. rewrite Hx. cbn. rewrite busy_eq, negb_involutive. now destruct (busy y). Qed.
Lemma restore_read_eq : ctx_restore_read w =
  if 0 <? a_readers y then ROk tt (setc w (Some (with_readers x (add64 (c_readers x) (-1))))) else RErr ERR_MINOR w.
Proof. unfold ctx_restore_read, mbind, getc. rewrite Hx. cbn. rewrite (cr_readers _ _ _ _ Hc). now destruct (0 <? a_readers y). Qed.

Lemma tick_rel k : Rel (setc w (Some (with_state x (add64 (c_state x) k)))) (sc s (tick y k)).
Proof.
  apply (upd_rel _ _ x y); auto. intros [h1 h2 h3 h4 h5 h6 h7 h8 h9 h10]. constructor; cbn; auto.
  rewrite h1. apply add64_mod.
Qed.
Lemma rd_rel k : 0 <= a_readers y + k < two64 -> Rel (setc w (Some (with_readers x (add64 (c_readers x) k)))) (sc s (rd y k)).
Proof.
  intros Hk. apply (upd_rel _ _ x y); auto. intros [h1 h2 h3 h4 h5 h6 h7 h8 h9 h10]. constructor; cbn; auto.
  rewrite h2. now apply add64_small.
Qed.
End Step.

Lemma grant_w w s y p : Rel w s -> s_ctx s = Some y -> (forall x, w_ctx w = Some x -> p = c_data x) ->
  Rel (mkW (w_ctx w) (w_heap w) (w_nl w) (w_nu w) p (w_rptr w)) (sc s (wg y true)).
Proof.
  intros Hr Hy Hp. pose proof (r_ctx _ _ Hr) as Hc. rewrite Hy in Hc. destruct (w_ctx w) as [x|] eqn:Hx; [|destruct Hc].
  destruct Hc as [h1 h2 h3 h4 h5 h6 h7 h8 h9 h10]. destruct Hr as [_ Hu Hn Hf]. constructor; cbn; auto. constructor; cbn; auto.
Qed.
Lemma grant_r w s y p : Rel w s -> s_ctx s = Some y -> (forall x, w_ctx w = Some x -> p = c_data x) ->
  Rel (mkW (w_ctx w) (w_heap w) (w_nl w) (w_nu w) (w_wptr w) p) (sc s (rg y true)).
Proof.
  intros Hr Hy Hp. pose proof (r_ctx _ _ Hr) as Hc. rewrite Hy in Hc. destruct (w_ctx w) as [x|] eqn:Hx; [|destruct Hc].
  destruct Hc as [h1 h2 h3 h4 h5 h6 h7 h8 h9 h10]. destruct Hr as [_ Hu Hn Hf]. constructor; cbn; auto. constructor; cbn; auto.
Qed.

(** Both sides destroyed or both alive *)
Lemma alive w s : Rel w s -> (w_ctx w = None /\ s_ctx s = None) \/ (exists x y, w_ctx w = Some x /\ s_ctx s = Some y).
Proof. intros [H _ _ _]. destruct (w_ctx w), (s_ctx s); try destruct H; eauto. Qed.

Ltac go Hr x y Hx Hy :=
  destruct (alive _ _ Hr) as [[_ Hy] | (x & y & Hx & Hy)]; unfold live; rewrite Hy; [exact I|].
Ltac keep := eexists; split; [reflexivity|]; auto.

Lemma sim_get w s host : Rel w s -> sim (step (KGet host) w) (s_get s host).
Proof.
  intros Hr. unfold s_get. go Hr x y Hx Hy. cbn [step]. unfold mbind. rewrite (get_eq w s x y) by auto.
  destruct (locked y); cbn; [keep|]. destruct (empty y || negb host); cbn; [keep|]. keep.
  pose proof (tick_rel w s x y Hr Hx Hy 1) as T.
  exact (grant_w _ _ (tick y 1) (c_data x) T eq_refl ltac:(intros x' [= <-]; reflexivity)).
Qed.
Lemma sim_get_read w s host : Rel w s -> sim (step (KGetRead host) w) (s_get_read s host).
Proof.
  intros Hr. unfold s_get_read. go Hr x y Hx Hy. cbn [step]. unfold mbind, s_reading. rewrite (get_read_eq w s x y) by auto.
  destruct (busy y); cbn; [keep|]. destruct (empty y || negb host); cbn; [keep|]. destruct (many y) eqn:Em; [exact I|]. keep.
  assert (0 <= a_readers y + 1 < two64) as L.
  { unfold many in Em. apply Z.leb_gt in Em. pose proof (cr_range _ _ _ _ (Hc w s x y Hr Hx Hy)). lia. }
  pose proof (rd_rel w s x y Hr Hx Hy 1 L) as T.
  exact (grant_r _ _ (rd y 1) (c_data x) T eq_refl ltac:(intros x' [= <-]; reflexivity)).
Qed.
Lemma sim_restore w s : Rel w s -> sim (step KRestore w) (s_restore s).
Proof.
  intros Hr. unfold s_restore. go Hr x y Hx Hy. cbn [step]. unfold done, mbind. rewrite (restore_eq w s x y) by auto.
  destruct (busy y); cbn; [|keep]. keep.
  apply (upd_rel _ _ x y); auto. intros [h1 h2 h3 h4 h5 h6 h7 h8 h9 h10]. constructor; cbn; auto; try discriminate.
  rewrite h1. apply add64_mod.
Qed.
Lemma restore_read_rel w s x y : Rel w s -> w_ctx w = Some x -> s_ctx s = Some y -> (0 <? a_readers y) = true ->
  Rel (setc w (Some (with_readers x (add64 (c_readers x) (-1))))) (sc s (rg (rd y (-1)) (a_rg y && (1 <? a_readers y)))).
Proof.
  intros Hr Hx Hy L. apply Z.ltb_lt in L.
  apply (upd_rel _ _ x y); auto. intros [h1 h2 h3 h4 h5 h6 h7 h8 h9 h10]. constructor; cbn; auto; try discriminate.
  - rewrite h2. apply add64_small. lia.
  - lia.
  - rewrite andb_true_iff. tauto.
Qed.
Lemma sim_restore_read w s : Rel w s -> sim (done ctx_restore_read w) (s_restore_read s).
Proof.
  intros Hr. unfold s_restore_read. go Hr x y Hx Hy. unfold done, mbind. rewrite (restore_read_eq w s x y) by auto.
  destruct (0 <? a_readers y) eqn:E; cbn; [|keep]. keep. now apply restore_read_rel.
Qed.
Lemma sim_register w s name off t num : Rel w s -> sim (step (KRegister name off t num) w) (s_register s name off t num).
Proof.
  intros Hr. unfold s_register. go Hr x y Hx Hy. cbn [step]. unfold done, ctx_register, mbind, getc. rewrite Hx. cbn.
  pose proof (Hc w s x y Hr Hx Hy) as H. unfold registered. rewrite <- (cr_fields _ _ _ _ H).
  destruct (field_index 0 (c_fields x) name None) eqn:E.
  - destruct (existsb (fun f => seqb (l_name f) name) (c_fields x)) eqn:E2; [keep|].
    rewrite (proj2 (field_index_none _ _ 0%nat None)) in E by auto. discriminate.
  - apply field_index_none in E. destruct E as [_ ->]. keep.
    apply (upd_rel _ _ x y); auto. intros [h1 h2 h3 h4 h5 h6 h7 h8 h9 h10]. constructor; cbn; auto.
Qed.
Lemma sim_take w s host : Rel w s -> sim (step (KTake host) w) (s_take s host).
Proof.
  intros Hr. unfold s_take. go Hr x y Hx Hy. cbn [step]. unfold mbind, ctx_take, mbind, getc. rewrite Hx.
  pose proof (Hc w s x y Hr Hx Hy) as H. rewrite (data_none _ _ _ _ _ (cr_cont _ _ _ _ H)), (busy_eq w s x y) by auto.
  destruct (empty y) eqn:E; cbn; [keep|]. destruct (busy y); cbn; [keep|]. destruct host; cbn; [|keep].
  pose proof (cr_cont _ _ _ _ H) as C. unfold cont_rel in C. unfold empty in E. destruct (a_cont y) as [|l|n] eqn:Ec; [discriminate| |].
  - destruct C as (a & o1 & o2 & o3 & _). rewrite o2. cbn. keep.
  - destruct C as (o1 & o2 & o3 & o4). rewrite o2. cbn. unfold take_data_ref, mbind, check, getc. cbn. rewrite Hx. cbn. rewrite o3. keep.
    apply (upd_rel _ _ x y); auto. intros [h1 h2 h3 h4 h5 h6 h7 h8 h9 h10]. constructor; cbn; auto; try discriminate.
Qed.

(** CeedQFunctionContextDestroyData *)
Lemma sim_dtor w s y (k : M obs) (a : astate -> actx -> aout) : Rel w s -> s_ctx s = Some y ->
  (forall w s y, Rel w s -> s_ctx s = Some y -> sim (k w) (a s y)) ->
  (forall s s' y, s_user s = s_user s' -> s_nu s = s_nu s' -> a s y = a s' y) ->
  sim (mbind destroy_data (fun _ => k) w) (s_dtor s y a).
Proof.
  intros Hr Hy Hk Hs. destruct (alive _ _ Hr) as [[_ Hy'] | (x & y0 & Hx & Hy0)]; [congruence|].
  assert (y0 = y) by congruence. subst y0.
  pose proof (Hc w s x y Hr Hx Hy) as H. unfold s_dtor, mbind, destroy_data, mbind, getc. rewrite Hx, (cr_dtor _ _ _ _ H).
  destruct (a_dtor y) as [d|]; [|now apply Hk].
  rewrite (get_eq w s x y) by auto. destruct (locked y) eqn:El; [keep; now apply same_rel|].
  destruct (empty y || negb (d_host d)) eqn:Ee; [keep; now apply same_rel|].
  assert (Hb : busy (tick y 1) = true).
  { unfold locked in El. apply orb_false_iff in El. destruct El as [El _]. unfold busy in *. cbn.
    unfold VecModel.even in *. apply negb_false_iff, Z.eqb_eq in El. apply negb_true_iff, Z.eqb_neq.
    rewrite <- Zplus_mod_idemp_l, El. cbn. lia. }
  assert (K : forall w1 s1 x1, Rel w1 s1 -> w_ctx w1 = Some x1 -> s_ctx s1 = Some (tick y 1) ->
            sim (match match check (d_code d =? 0) (d_code d) w1 with
                       | ROk _ w2 => ctx_restore w2
                       | RErr e w2 => RErr e w2
                       | RUB => RUB
                       end with ROk _ w3 => k w3 | RErr e w3 => RErr e w3 | RUB => RUB end)
                (if d_code d =? 0 then a s1 (tick y 2) else AErr (d_code d) (sc s1 (tick y 1)))).
  { intros w1 s1 x1 R1 X1 Y1. destruct (d_code d =? 0); cbn.
    - rewrite (restore_eq w1 s1 x1 (tick y 1)), Hb by auto.
      rewrite (Hs s1 (sc s1 (tick (tick y 1) 1))) by reflexivity.
      replace (tick y 2) with (tick (tick y 1) 1) by (unfold tick; cbn; f_equal; lia).
      apply Hk; auto. now apply tick_rel.
    - keep. now apply same_rel. }
  pose proof (tick_rel w s x y Hr Hx Hy 1) as T.
  destruct (d_frees d) eqn:Ef.
  - pose proof (cr_cont _ _ _ _ H) as C. unfold cont_rel in C. unfold empty in Ee. destruct (a_cont y) as [|l|n] eqn:Ec; [exact I|exact I|].
    destruct C as (o1 & o2 & o3 & o4). destruct (s_user s n) as [l|] eqn:Eu; [|exact I].
    rewrite o3. unfold free. cbn. rewrite (r_user _ _ Hr n l Eu).
    eassert (E : (if d_code d =? 0 then a (su s n None) (tick y 2) else AErr (d_code d) (sc (su s n None) (tick y 1))) =
              (if d_code d =? 0 then a (su (sc s (tick y 1)) n None) (tick y 2) else AErr (d_code d) (sc (su (sc s (tick y 1)) n None) (tick y 1)))).
    { destruct (d_code d =? 0); auto. }
    rewrite E. eapply K; [|reflexivity|reflexivity].
    destruct T as [t1 t2 t3 t4]. constructor; cbn; auto.
    + cbn in t1. destruct t1 as [h1 h2 h3 h4 h5 h6 h7 h8 h9 h10]. constructor; cbn; auto. unfold cont_rel. cbn. rewrite Ec.
      rewrite o1, o2, o3. auto.
    + intros m l1. unfold VecModel.nupd. destruct (Nat.eqb_spec m n); [discriminate|].
      intros H1. rewrite hupd_other by congruence. now apply t2.
    + intros m Hm. unfold VecModel.nupd. destruct (Nat.eqb_spec m n); auto. apply (t4 m Hm).
  - unfold ret.
    eassert (E : (if d_code d =? 0 then a s (tick y 2) else AErr (d_code d) (sc s (tick y 1))) =
              (if d_code d =? 0 then a (sc s (tick y 1)) (tick y 2) else AErr (d_code d) (sc (sc s (tick y 1)) (tick y 1)))).
    { destruct (d_code d =? 0); auto. }
    rewrite E. eapply K; [exact T|reflexivity|reflexivity].
Qed.

(** CeedQFunctionContextSetData *)
Lemma free_owned w s x y : Rel w s -> w_ctx w = Some x -> s_ctx s = Some y ->
  exists w', free (c_owned x) w = ROk tt w' /\ w_ctx w' = w_ctx w /\ w_nl w' = w_nl w /\ w_nu w' = w_nu w /\
    (forall n l, s_user s n = Some l -> w_heap w' (AU n) = Some l) /\ (forall k, (w_nl w <= k)%nat -> True).
Proof.
  intros Hr Hx Hy. pose proof (Hc w s x y Hr Hx Hy) as H. pose proof (cr_cont _ _ _ _ H) as C. unfold cont_rel in C.
  destruct (a_cont y) as [|l|n].
  - destruct C as (-> & _). exists w. repeat split; auto. apply (r_user _ _ Hr).
  - destruct C as (a & -> & _ & _ & Ha & Hb). unfold free. rewrite Ha. eexists. repeat split.
    intros n l1 H1. cbn. rewrite hupd_other; [now apply (r_user _ _ Hr)|]. intros <-. destruct Hb. congruence.
  - destruct C as (-> & _). exists w. repeat split; auto. apply (r_user _ _ Hr).
Qed.

Definition set_tail (host : bool) (mode : cmode) (size : nat) (p : ptr) : M obs :=
  mbind (mbind getc (fun x => mbind (putc (with_size x size)) (fun _ => mbind (set_data_ref host mode p) (fun _ =>
    mbind getc (fun x => putc (with_state x (add64 (c_state x) 2))))))) (fun _ => ret ODone).
Definition set_atail (host : bool) (mode : cmode) (size : nat) (a : src) (s : astate) (y : actx) : aout :=
  let y := sz y size in
  if negb host then AErr ERR_BACKEND (sc s y)
  else
    let fin y s := AOk ODone (sc s (rg (wg (tick y 2) false) false)) in
    match mode, a with
    | CopyValues, SUser n => match s_user s n with
                             | Some l => if Nat.leb size (length l) then fin (ct y (COwn (firstn size l))) s else AIll
                             | None => AIll
                             end
    | OwnPointer, SUser n => match s_user s n with
                             | Some l => fin (ct y (COwn l)) (su s n None)
                             | None => AIll
                             end
    | UsePointer, SUser n => match s_user s n with Some _ => fin (ct y (CShared n)) s | None => AIll end
    | (OwnPointer | UsePointer), SNull => fin (ct y CEmpty) s
    | _, _ => AIll
    end.
Definition srcp (a : src) (w : world) : ptr :=
  match a with SNull => None | SUser n => Some (AU n) | SRead => w_rptr w | SWrite => w_wptr w end.

Lemma user_lt w s n l : Rel w s -> s_user s n = Some l -> (n < s_nu s)%nat.
Proof. intros Hr H. destruct (Nat.lt_ge_cases n (s_nu s)); auto. rewrite (r_fresh _ _ Hr) in H by auto. discriminate. Qed.

Lemma sim_set_tail host mode size a p : (match a with SNull => p = None | SUser n => p = Some (AU n) | _ => True end) ->
  forall w s y, Rel w s -> s_ctx s = Some y -> sim (set_tail host mode size p w) (set_atail host mode size a s y).
Proof.
  intros Hp w s y Hr Hy. destruct (alive _ _ Hr) as [[_ Hy'] | (x & y0 & Hx & Hy0)]; [congruence|].
  assert (y0 = y) by congruence. subst y0.
  pose proof (Hc w s x y Hr Hx Hy) as H.
  unfold set_tail, set_atail, mbind at 1 2 3. unfold getc at 1. rewrite Hx. unfold putc at 1.
  unfold set_data_ref, mbind, getc, check. cbn.
  destruct host; cbn.
  2:{ keep. apply (upd_rel _ _ x y); auto. intros [h1 h2 h3 h4 h5 h6 h7 h8 h9 h10]. constructor; cbn; auto. }
  destruct (free_owned w s x y Hr Hx Hy) as (w1 & F & F1 & F2 & F3 & F4 & _).
  assert (F' : free (c_owned x) (setc w (Some (with_size x size))) = ROk tt (setc w1 (Some (with_size x size)))).
  { unfold free in *. destruct (c_owned x) as [b|]; cbn in *; [|injection F as <-; reflexivity].
    destruct (w_heap w b); [|discriminate]. injection F as <-. reflexivity. }
  rewrite F'. destruct H as [h1 h2 h3 h4 h5 h6 h7 h8 h9 h10].
  assert (N : w_nu w1 = s_nu s) by (rewrite F3; apply (r_nu _ _ Hr)).
  assert (Fr := r_fresh _ _ Hr).
  destruct mode; destruct a as [|n| |]; try exact I; subst p; cbn.
  - (* CopyValues *) destruct (s_user s n) as [l|] eqn:Eu; [|exact I]. destruct (Nat.leb_spec size (length l)) as [L|L]; [|exact I].
    rewrite (mread_ok _ _ (AU n) l 0 size) by (auto; now apply F4). cbn. keep.
    constructor; cbn; auto.
    + constructor; cbn; auto; try discriminate.
      * rewrite h1. apply add64_mod.
      * unfold cont_rel. cbn. exists (AL (w_nl w1)). rewrite hupd_same. repeat split; auto.
  - (* UsePointer NULL *) keep. constructor; cbn; auto. constructor; cbn; auto; try discriminate.
    rewrite h1. apply add64_mod.
  - destruct (s_user s n) as [l|] eqn:Eu; [|exact I]. keep. constructor; cbn; auto. constructor; cbn; auto; try discriminate.
    + rewrite h1. apply add64_mod.
    + unfold cont_rel. cbn. repeat split; auto. now apply (user_lt w s n l).
  - keep. constructor; cbn; auto. constructor; cbn; auto; try discriminate.
    rewrite h1. apply add64_mod.
  - destruct (s_user s n) as [l|] eqn:Eu; [|exact I]. keep. constructor; cbn; auto.
    + constructor; cbn; auto; try discriminate.
      * rewrite h1. apply add64_mod.
      * unfold cont_rel. cbn. exists (AU n). repeat split; auto. { now apply nupd_same. } now apply (user_lt w s n l).
    + intros m l1. unfold VecModel.nupd. destruct (Nat.eqb_spec m n); [discriminate|]. auto.
    + intros m Hm. unfold VecModel.nupd. destruct (Nat.eqb_spec m n); auto.
Qed.
Lemma set_atail_ext host mode size a s s' y : s_user s = s_user s' -> s_nu s = s_nu s' ->
  set_atail host mode size a s y = set_atail host mode size a s' y.
Proof. destruct s as [c u n], s' as [c' u' n']. cbn. intros -> ->. reflexivity. Qed.

Lemma sim_set w s host mode size a : Rel w s -> sim (step (KSet host mode size a) w) (s_set s host mode size a).
Proof.
  intros Hr. unfold s_set. go Hr x y Hx Hy. cbn [step].
  replace (mbind (src_ptr a) (fun p => done (ctx_set_data host mode size p)) w) with (done (ctx_set_data host mode size (srcp a w)) w)
    by (destruct a; reflexivity).
  assert (E : done (ctx_set_data host mode size (srcp a w)) w =
     if busy y then RErr ERR_MINOR w else mbind destroy_data (fun _ => set_tail host mode size (srcp a w)) w).
  { unfold done, ctx_set_data, mbind at 1 2 3. unfold getc at 1. rewrite Hx. unfold check. rewrite (busy_eq w s x y) by auto.
    destruct (busy y); cbn; [reflexivity|]. unfold set_tail, mbind. destruct (destroy_data w); reflexivity. }
  rewrite E. destruct (busy y); [keep|].
  change (sim (mbind destroy_data (fun _ => set_tail host mode size (srcp a w)) w) (s_dtor s y (set_atail host mode size a))).
  apply sim_dtor; auto; [|intros; now apply set_atail_ext].
  intros w1 s1 y1 R1 Y1. apply sim_set_tail; auto. now destruct a.
Qed.

Lemma sim_destroy w s : Rel w s -> sim (step KDestroy w) (s_destroy s).
Proof.
  intros Hr. unfold s_destroy. go Hr x y Hx Hy. cbn [step].
  set (k := mbind getc (fun x => mbind (free (c_owned x)) (fun _ => mbind (fun w => ROk tt (setc w None)) (fun _ => ret ODone)))).
  assert (R1 : Rel (setc w (Some (with_refs x (c_refs x - 1)))) (sc s (rf y (-1)))).
  { apply (upd_rel _ _ x y); auto. intros [h1 h2 h3 h4 h5 h6 h7 h8 h9 h10]. constructor; cbn; auto. lia. }
  assert (E : done ctx_destroy w =
     if 0 <? a_refs (rf y (-1)) then ROk ODone (setc w (Some (with_refs x (c_refs x - 1))))
     else if busy (rf y (-1)) then RErr ERR_MINOR (setc w (Some (with_refs x (c_refs x - 1))))
     else mbind destroy_data (fun _ => k) (setc w (Some (with_refs x (c_refs x - 1))))).
  { pose proof (Hc w s x y Hr Hx Hy) as H.
    unfold done, ctx_destroy, mbind at 1 2 3. unfold getc at 1. rewrite Hx. cbn. rewrite (cr_refs _ _ _ _ H).
    destruct (0 <? a_refs y + -1) eqn:E0.
    - replace (0 <? a_refs y - 1) with true by (rewrite <- E0; f_equal; lia). reflexivity.
    - replace (0 <? a_refs y - 1) with false by (rewrite <- E0; f_equal; lia).
      unfold check. rewrite (busy_eq w s x y) by auto. change (busy (rf y (-1))) with (busy y). destruct (busy y); [reflexivity|]. cbn.
      unfold k, mbind. destruct (destroy_data _); try reflexivity. destruct (getc w0); try reflexivity.
      destruct (free _ _); reflexivity. }
  rewrite E. destruct (0 <? a_refs (rf y (-1))); [keep|]. destruct (busy (rf y (-1))); [keep|].
  apply sim_dtor; auto.
  - intros w1 s1 y1 R2 Y2. destruct (alive _ _ R2) as [[_ Y'] | (x2 & y2 & X2 & Y')]; [congruence|].
    assert (y2 = y1) by congruence. subst y2. unfold k, mbind, getc. rewrite X2.
    destruct (free_owned w1 s1 x2 y1 R2 X2 Y2) as (w2 & -> & F1 & F2 & F3 & F4 & _). cbn. keep.
    constructor; cbn; auto; [rewrite F3; apply (r_nu _ _ R2)|apply (r_fresh _ _ R2)].
  - intros [c u n] [c' u' n']. cbn. intros _ -> ->. reflexivity.
Qed.

(** Fields *)
Lemma deref_eq w s x y l : Rel w s -> w_ctx w = Some x -> s_ctx s = Some y ->
  deref l w = match nth_error (a_fields y) l with Some f => ROk f w | None => RUB end.
Proof.
  intros Hr Hx Hy. unfold deref, mbind, getc. rewrite Hx, (cr_fields _ _ _ _ (Hc w s x y Hr Hx Hy)).
  now destruct (nth_error (a_fields y) l).
Qed.
Lemma many_range y : many y = false -> 0 <= a_readers y -> 0 <= a_readers y + 1 < two64.
Proof. unfold many. rewrite Z.leb_gt. lia. Qed.
Lemma set_readers_back x r : with_readers (with_readers x r) (c_readers x) = x.
Proof. now destruct x. Qed.
Lemma setc_setc w a b : setc (setc w a) b = setc w b.
Proof. reflexivity. Qed.
Lemma setc_self w x : w_ctx w = Some x -> setc w (Some x) = w.
Proof. destruct w. cbn. now intros ->. Qed.

Lemma sim_set_field w s l t vals : Rel w s -> sim (step (KSetField l t vals) w) (s_set_field s l t vals).
Proof.
  intros Hr. unfold s_set_field. cbn [step]. destruct l as [l|]; [|cbn; keep].
  go Hr x y Hx Hy. pose proof (Hc w s x y Hr Hx Hy) as H. unfold s_label, done, ctx_set_field, ctx_set_generic, ctx_set_at, mbind.
  rewrite (deref_eq w s x y) by auto.
  destruct (nth_error (a_fields y) l) as [f|]; [|exact I]. unfold check. destruct (ftype_eqb (l_type f) t); cbn; [|keep].
  rewrite (get_read_eq w s x y) by auto. unfold s_reading.
  destruct (busy y) eqn:Eb; [keep|]. cbn [negb]. rewrite orb_false_r. destruct (empty y) eqn:Ee; [keep|]. cbn.
  destruct (many y) eqn:Em; [exact I|].
  destruct (conts s y) as [old|] eqn:Ec; [|exact I]. unfold inside.
  destruct (Nat.leb_spec (l_off f + l_size f) (length old)) as [L|L]; [|exact I]. cbn.
  destruct (Nat.leb (l_size f) (length vals)) eqn:Ev; [|exact I].
  destruct (data_block x w s y old Hr (cr_cont _ _ _ _ H) Ec) as (a & Ha & Hh).
  set (w1 := setc w (Some (with_readers x (add64 (c_readers x) 1)))).
  rewrite (mread_ok w1 _ a old _ _ Ha) by auto. cbv beta iota delta [ret].
  assert (Hm := many_range y Em (proj1 (cr_range _ _ _ _ H))).
  pose proof (rd_rel w s x y Hr Hx Hy 1 Hm) as R1. fold w1 in R1.
  rewrite (restore_read_eq w1 _ _ _ R1 eq_refl eq_refl). cbn [a_readers rd c_readers with_readers].
  replace (0 <? a_readers y + 1) with true by (symmetry; apply Z.ltb_lt; pose proof (cr_range _ _ _ _ H); lia).
  assert (Eback : setc w1 (Some (with_readers (with_readers x (add64 (c_readers x) 1)) (add64 (add64 (c_readers x) 1) (-1)))) = w).
  { assert (En : add64 (add64 (c_readers x) 1) (-1) = c_readers x).
    { rewrite (cr_readers _ _ _ _ H). pose proof (cr_range _ _ _ _ H).
      rewrite (add64_small (a_readers y) 1) by auto. rewrite (add64_small (a_readers y + 1) (-1)) by lia. lia. }
    rewrite En, set_readers_back. unfold w1. rewrite setc_setc. now apply setc_self. }
  rewrite Eback.
  destruct (bytes_eqb (slice old (l_off f) (l_size f)) (firstn (l_size f) vals)); [keep|].
  rewrite (get_eq w s x y), Ee by auto. destruct (locked y) eqn:El; [keep|]. cbv beta iota delta [orb negb].
  set (w2 := setc w (Some (with_state x (add64 (c_state x) 1)))).
  assert (Lv : length (firstn (l_size f) vals) = l_size f) by (apply firstn_length_le; now apply Nat.leb_le).
  rewrite (mwrite_ok w2 _ a old) by (auto; rewrite Lv; auto). cbv beta iota.
  pose proof (tick_rel w s x y Hr Hx Hy 1) as R2. fold w2 in R2.
  pose proof (write_rel w2 (sc s (tick y 1)) _ (tick y 1) a old (splice old (l_off f) (firstn (l_size f) vals)) R2 eq_refl eq_refl Ha) as R3.
  specialize (R3 ltac:(exact Ec)).
  assert (exists y3, s_ctx (putd (sc s (tick y 1)) (tick y 1) (splice old (l_off f) (firstn (l_size f) vals))) = Some y3 /\ busy y3 = true /\
    sc (putd (sc s (tick y 1)) (tick y 1) (splice old (l_off f) (firstn (l_size f) vals))) (tick y3 1) =
    putd (sc s (tick y 2)) (tick y 2) (splice old (l_off f) (firstn (l_size f) vals))) as (y3 & Y3 & B3 & S3).
  { assert (B : forall c, busy (mkA (a_clock y + 1) (a_readers y) (a_refs y) (a_size y) c (a_fields y) (a_dtor y) (a_wg y) (a_rg y)) = true).
    { intros c. unfold busy in *. cbn. unfold VecModel.even in *. apply negb_false_iff, Z.eqb_eq in Eb. apply negb_true_iff, Z.eqb_neq.
      rewrite <- Zplus_mod_idemp_l, Eb. cbn. lia. }
    unfold putd. unfold conts in Ec. cbn. destruct (a_cont y) as [|l0|n] eqn:Ecc; [discriminate| |]; eexists; (split; [reflexivity|]; split; [apply B|]);
    unfold tick, ct, sc, su; cbn; rewrite ?Ecc; replace (a_clock y + 1 + 1) with (a_clock y + 2) by lia; reflexivity. }
  match type of R3 with Rel ?w3 _ => rewrite (restore_eq w3 _ _ y3 R3 eq_refl Y3) end. rewrite B3. cbn. keep.
  rewrite <- S3. match type of R3 with Rel ?w3 _ => exact (tick_rel w3 _ _ y3 R3 eq_refl Y3 1) end.
Qed.

Lemma sim_get_field w s l t : Rel w s -> sim (step (KGetField l t) w) (s_get_field s l t).
Proof.
  intros Hr. unfold s_get_field. cbn [step]. destruct l as [l|]; [|cbn; keep].
  go Hr x y Hx Hy. pose proof (Hc w s x y Hr Hx Hy) as H. unfold s_label, ctx_get_field, ctx_get_generic, ctx_get_at, mbind.
  rewrite (deref_eq w s x y) by auto.
  destruct (nth_error (a_fields y) l) as [f|]; [|exact I]. unfold check. destruct (ftype_eqb (l_type f) t); cbn; [|keep].
  rewrite (get_read_eq w s x y) by auto. unfold s_reading.
  destruct (busy y) eqn:Eb; [keep|]. cbn [negb]. rewrite orb_false_r. destruct (empty y) eqn:Ee; [keep|]. cbn.
  destruct (many y) eqn:Em; [exact I|].
  destruct (conts s y) as [old|] eqn:Ec; [|exact I]. unfold inside.
  destruct (Nat.leb_spec (l_off f + Nat.div (l_size f) (fsize t) * fsize t) (length old)) as [L|L]; [|exact I].
  destruct (data_block x w s y old Hr (cr_cont _ _ _ _ H) Ec) as (a & Ha & Hh).
  rewrite (mread_ok _ _ a old _ _ Ha) by auto. cbn. keep.
  assert (Hm := many_range y Em (proj1 (cr_range _ _ _ _ H))).
  pose proof (rd_rel w s x y Hr Hx Hy 1 Hm) as T.
  exact (grant_r _ _ (rd y 1) (c_data x) T eq_refl ltac:(intros x' [= <-]; reflexivity)).
Qed.
Lemma sim_restore_field w s l t : Rel w s -> sim (step (KRestoreField l t) w) (s_restore_field s l t).
Proof.
  intros Hr. unfold s_restore_field. cbn [step]. destruct l as [l|]; [|cbn; keep].
  pose proof (sim_restore_read w s Hr) as R.
  go Hr x y Hx Hy. unfold s_label, done, ctx_restore_field, ctx_restore_at, mbind.
  rewrite (deref_eq w s x y) by auto.
  destruct (nth_error (a_fields y) l) as [f|]; [|exact I]. unfold check. destruct (ftype_eqb (l_type f) t); cbn; [|keep].
  exact R.
Qed.

Lemma sim_byte w s p l i : Rel w s -> (forall b, l = Some b -> exists a, p = Some a /\ w_heap w a = Some b) -> sim (read1 p i w) (byte_at l i s).
Proof.
  intros Hr Hp. unfold byte_at. destruct l as [l|]; [|exact I]. destruct (Hp l eq_refl) as (a & Ha & Hl).
  destruct (nth_error l i) as [b|] eqn:E; [|exact I]. rewrite (read1_ok w p a l i b) by auto. keep.
Qed.

Lemma sim_step w s c : Rel w s -> sim (step c w) (astep c s).
Proof.
  intros Hr. destruct c.
  - now apply sim_set.
  - now apply sim_take.
  - now apply sim_get.
  - now apply sim_get_read.
  - now apply sim_restore.
  - now apply sim_restore_read.
  - now apply sim_register.
  - cbn [astep step]. go Hr x y Hx Hy. unfold mbind, ctx_label, mbind, getc. rewrite Hx. cbn.
    rewrite (cr_fields _ _ _ _ (Hc w s x y Hr Hx Hy)). keep.
  - now apply sim_set_field.
  - now apply sim_get_field.
  - now apply sim_restore_field.
  - cbn [astep step]. destruct d as [d|]; [|cbn; keep]. go Hr x y Hx Hy. unfold done, ctx_set_dtor, mbind, getc. cbn. rewrite Hx. cbn. keep.
    apply (upd_rel _ _ x y); auto. intros [h1 h2 h3 h4 h5 h6 h7 h8 h9 h10]. constructor; cbn; auto.
  - cbn [astep step]. go Hr x y Hx Hy. unfold done, ctx_reference, mbind, getc. rewrite Hx. cbn. keep.
    apply (upd_rel _ _ x y); auto. intros [h1 h2 h3 h4 h5 h6 h7 h8 h9 h10]. constructor; cbn; auto. lia.
  - now apply sim_destroy.
  - cbn [astep step]. go Hr x y Hx Hy. unfold mbind, getc. rewrite Hx. cbn. rewrite (cr_size _ _ _ _ (Hc w s x y Hr Hx Hy)). keep.
  - cbn [astep step]. go Hr x y Hx Hy. unfold mbind, getc. rewrite Hx. cbn. rewrite (cr_state _ _ _ _ (Hc w s x y Hr Hx Hy)). keep.
  - cbn [astep step]. keep. destruct Hr as [h1 h2 h3 h4]. constructor; cbn; auto.
    + destruct (w_ctx w) as [x|], (s_ctx s) as [y|]; auto. destruct h1 as [e1 e2 e3 e4 e5 e6 e7 e8 e9 e10]. constructor; cbn; auto.
      unfold cont_rel in *. cbn. destruct (a_cont y); auto.
      * destruct e8 as (a & o1 & o2 & o3 & o4 & o5). exists a. repeat split; auto.
        -- rewrite hupd_other; auto. intros ->. lia.
        -- destruct a; auto. rewrite nupd_other by lia. destruct o5. split; auto; lia.
      * destruct e8 as (o1 & o2 & o3 & o4). auto with arith.
    + intros n l1. rewrite h3. unfold VecModel.nupd. destruct (Nat.eqb_spec n (s_nu s)).
      * intros [= <-]. subst n. apply hupd_same.
      * intros H. rewrite hupd_other by congruence. auto.
    + intros n Hn. rewrite nupd_other by lia. apply h4. lia.
  - cbn [astep step]. destruct (s_user s n) as [l|] eqn:E; [|exact I]. unfold done, mbind, free. rewrite (r_user _ _ Hr n l E). keep.
    destruct Hr as [h1 h2 h3 h4]. constructor; cbn; auto.
    + destruct (w_ctx w) as [x|], (s_ctx s) as [y|]; auto. destruct h1 as [e1 e2 e3 e4 e5 e6 e7 e8 e9 e10]. constructor; cbn; auto.
      unfold cont_rel in *. cbn. destruct (a_cont y); auto.
      destruct e8 as (a & o1 & o2 & o3 & o4 & o5). exists a. repeat split; auto.
      * rewrite hupd_other; auto. intros ->. destruct o5. congruence.
      * destruct a; auto. unfold VecModel.nupd. destruct (Nat.eqb_spec n0 n); auto. destruct o5. auto.
    + intros m l1. unfold VecModel.nupd. destruct (Nat.eqb_spec m n); [discriminate|]. intros H. rewrite hupd_other by congruence. auto.
    + intros m Hm. unfold VecModel.nupd. destruct (Nat.eqb_spec m n); auto.
  - cbn [astep step]. apply sim_byte; auto. intros b H. exists (AU n). split; auto. now apply (r_user _ _ Hr).
  - cbn [astep step]. destruct (s_user s n) as [l|] eqn:E; [|exact I]. unfold inside. destruct (Nat.leb_spec (i + 1) (length l)); [|exact I].
    unfold done, mbind. rewrite (mwrite_ok w _ (AU n) l) by (auto; apply (r_user _ _ Hr n l E)). keep.
    destruct Hr as [h1 h2 h3 h4]. constructor; cbn; auto.
    + destruct (w_ctx w) as [x|], (s_ctx s) as [y|]; auto. destruct h1 as [e1 e2 e3 e4 e5 e6 e7 e8 e9 e10]. constructor; cbn; auto.
      unfold cont_rel in *. cbn. destruct (a_cont y); auto.
      destruct e8 as (a & o1 & o2 & o3 & o4 & o5). exists a. repeat split; auto.
      * rewrite hupd_other; auto. intros ->. destruct o5. congruence.
      * destruct a; auto. unfold VecModel.nupd. destruct (Nat.eqb_spec n0 n); auto. subst. destruct o5. congruence.
    + intros m l1. unfold VecModel.nupd. destruct (Nat.eqb_spec m n).
      * intros [= <-]. subst. apply hupd_same.
      * intros H1. rewrite hupd_other by congruence. auto.
    + intros m Hm. unfold VecModel.nupd. destruct (Nat.eqb_spec m n); auto. subst. rewrite h4 in E by auto. discriminate.
  - cbn [astep step]. go Hr x y Hx Hy. pose proof (Hc w s x y Hr Hx Hy) as H. destruct (a_rg y) eqn:E; [|exact I].
    apply sim_byte; auto. intros b Hb. rewrite (cr_rg _ _ _ _ H E). eapply data_block; eauto. apply (cr_cont _ _ _ _ H).
  - cbn [astep step]. go Hr x y Hx Hy. pose proof (Hc w s x y Hr Hx Hy) as H. destruct (a_wg y) eqn:E; [|exact I].
    destruct (conts s y) as [l|] eqn:El; [|exact I]. unfold inside. destruct (Nat.leb_spec (i + 1) (length l)); [|exact I].
    destruct (data_block x w s y l Hr (cr_cont _ _ _ _ H) El) as (a & Ha & Hh).
    unfold done, mbind. rewrite (cr_wg _ _ _ _ H E). rewrite (mwrite_ok w _ a l) by auto. keep.
    eapply write_rel; eauto.
  - cbn [astep step]. go Hr x y Hx Hy. pose proof (Hc w s x y Hr Hx Hy) as H. destruct (a_wg y) eqn:E; [|exact I].
    apply sim_byte; auto. intros b Hb. rewrite (cr_wg _ _ _ _ H E). eapply data_block; eauto. apply (cr_cont _ _ _ _ H).
Qed.

Lemma new_rel : Rel new_world new_astate.
Proof.
  constructor; cbn; auto; try discriminate. constructor; cbn; auto; try discriminate. split; [lia|reflexivity].
Qed.
Lemma run_sim cs : forall w s rs s', Rel w s -> arun cs s = Some (rs, s') -> exists w', run cs w = Some (rs, w') /\ Rel w' s'.
Proof.
  induction cs as [|c cs IH]; intros w s rs s' Hr; cbn.
  - intros [= <- <-]. eauto.
  - pose proof (sim_step w s c Hr) as H. unfold sim in H. destruct (astep c s) as [o s1|e s1|]; [| |discriminate].
    + destruct H as (w1 & -> & R1). destruct (arun cs s1) as [[os s2]|] eqn:E; [|discriminate]. intros [= <- <-].
      destruct (IH w1 s1 os s2 R1 E) as (w2 & -> & R2). eauto.
    + destruct H as (w1 & -> & R1). destruct (arun cs s1) as [[os s2]|] eqn:E; [|discriminate]. intros [= <- <-].
      destruct (IH w1 s1 os s2 R1 E) as (w2 & -> & R2). eauto.
Qed.
