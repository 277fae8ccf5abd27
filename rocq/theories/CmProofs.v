(** * Contexts on the memcheck backend: simulation of the abstract machine of CtxSpec *)
From Coq Require Import List ZArith Lia Bool Arith.
From Coq.Strings Require Import Byte.
From Verif Require Import Prelude RstrModel StrModel CtxModel CtxSpec CmModel CmSpec.
Import ListNotations.
Set Implicit Arguments.
Local Open Scope Z_scope.

Record hdr (y : actx) (x : mctx) (g : Z) : Prop := {
  h_st : k_state x = g mod two64;
  h_ev : even g = even (a_clock y);
  h_rd : k_readers x = a_readers y;
  h_r0 : 0 <= a_readers y < two64;
  h_rf : k_refs x = a_refs y;
  h_sz : k_size x = a_size y;
  h_fl : k_fields x = a_fields y;
  h_dt : k_dtor x = a_dtor y;
  h_wp : a_wg y = true -> k_wp x = true /\ busy y = true;
  h_rp : a_rg y = true -> k_rp x = true /\ 0 < a_readers y;
  h_ex : busy y = true -> a_readers y = 0 }.
(** the private buffer and the copies that stand for the data [l] *)
Definition buf (n : nat) (b : bool) (r : Z) (al wr ro : option bytes) (l : bytes) : Prop :=
  (n <= length l)%nat /\ exists la, al = Some la /\ length la = n /\ ro = (if r =? 0 then None else Some la) /\
  if b then wr = Some (firstn n l) else wr = None /\ la = firstn n l.
Definition body (us hp : nat -> option bytes) (c : content) (b : bool) (r : Z) (n : nat)
  (al : option bytes) (ow bo : option nat) (wr ro : option bytes) : Prop :=
  match c with
  | CEmpty => al = None /\ ow = None /\ bo = None /\ wr = None /\ ro = None /\ b = false /\ r = 0
  | COwn l => bo = None /\ (forall k, ow = Some k -> us k = None /\ exists h, hp k = Some h /\ (n <= length h)%nat) /\ buf n b r al wr ro l
  | CShared k => ow = None /\ bo = Some k /\ exists l h, us k = Some l /\ hp k = Some h /\ length h = length l /\
                 skipn n h = skipn n l /\ (b = false -> h = l) /\ buf n b r al wr ro l
  end.
Definition bodyx (us hp : nat -> option bytes) (y : actx) (x : mctx) : Prop :=
  body us hp (a_cont y) (busy y) (a_readers y) (a_size y) (k_alloc x) (k_owned x) (k_borrowed x) (k_wr x) (k_ro x).
Definition holds (ow bo : option nat) (n : nat) : Prop := ow = Some n \/ bo = Some n.
Record krel (s : astate) (w : kworld) (g : Z) : Prop := {
  r_nu : w_knu w = s_nu s;
  r_ctx : match s_ctx s, w_k w with Some y, Some x => hdr y x g /\ bodyx (s_user s) (w_kh w) y x | None, None => True | _, _ => False end;
  r_free : forall n, (forall x, w_k w = Some x -> ~ holds (k_owned x) (k_borrowed x) n) -> s_user s n = w_kh w n;
  r_new : forall n, (s_nu s <= n)%nat -> s_user s n = None /\ w_kh w n = None }.
Definition ksim (a : aout) (m : mout obs) (g : Z) : Prop :=
  match a, m with
  | AOk o s, MOk o' w => o = o' /\ krel s w g
  | AErr e s, MErr e' w => e = e' /\ krel s w g
  | AIll, _ => True
  | _, _ => False
  end.

(** ** Arithmetic of the counters *)
Lemma add64_mod (a b : Z) : add64 (a mod two64) b = (a + b) mod two64.
Proof. unfold VecModel.add64. rewrite Zplus_mod_idemp_l. reflexivity. Qed.
Lemma even_mod (a : Z) : even (a mod two64) = even a.
Proof.
  unfold VecModel.even. rewrite <- Znumtheory.Zmod_div_mod; [reflexivity|lia|reflexivity|]. exists (2^63). reflexivity.
Qed.
Lemma even_S (a : Z) : even (a + 1) = negb (even a).
Proof. unfold VecModel.even. rewrite !Zmod_even, Z.even_add. cbn. destruct (Z.even a); reflexivity. Qed.
Lemma even_2 (a : Z) : even (a + 2) = even a.
Proof. unfold VecModel.even. rewrite !Zmod_even, Z.even_add. cbn. destruct (Z.even a); reflexivity. Qed.
Lemma kbusy_eq y x g : hdr y x g -> kbusy x = busy y.
Proof. intros [A B]. unfold kbusy, busy. rewrite A, even_mod, B. reflexivity. Qed.
Lemma busy_1 y : busy (tick y 1) = negb (busy y).
Proof. unfold busy. cbn. rewrite even_S, negb_involutive. reflexivity. Qed.
Lemma busy_2 y : busy (tick y 2) = busy y.
Proof. unfold busy. cbn. rewrite even_2. reflexivity. Qed.
Lemma cpy_ok n l : length l = n -> cpy n l = Some l.
Proof. intros <-. unfold cpy. rewrite Nat.leb_refl, firstn_all. reflexivity. Qed.

(** ** Building the relation *)
Lemma krel_live s w g y : krel s w g -> s_ctx s = Some y ->
  exists x, w_k w = Some x /\ hdr y x g /\ bodyx (s_user s) (w_kh w) y x.
Proof.
  intros H E. pose proof (r_ctx H) as C. rewrite E in C. destruct (w_k w) as [x|]; [|contradiction].
  exists x. destruct C as [C D]. auto.
Qed.
Lemma krel_put s w g g' y x x' : krel s w g -> w_k w = Some x -> k_owned x' = k_owned x -> k_borrowed x' = k_borrowed x ->
  hdr y x' g' -> bodyx (s_user s) (w_kh w) y x' -> krel (sc s y) (putk w x' (w_kh w)) g'.
Proof.
  intros H E O B A D. constructor; cbn.
  - exact (r_nu H).
  - split; assumption.
  - intros n F. apply (r_free H). intros z Z. rewrite E in Z. injection Z as <-. rewrite <- O, <- B. apply F. reflexivity.
  - apply (r_new H).
Qed.
Lemma sc_id s y : s_ctx s = Some y -> sc s y = s.
Proof. destruct s; cbn. intros ->. reflexivity. Qed.
Lemma putk_id w x : w_k w = Some x -> putk w x (w_kh w) = w.
Proof. destruct w; cbn. intros ->. reflexivity. Qed.
(** a call that fails and leaves everything *)
Lemma ksim_err e s w g : krel s w g -> ksim (AErr e s) (MErr e w) g.
Proof. split; [reflexivity|assumption]. Qed.
Lemma ksim_ok o s w g : krel s w g -> ksim (AOk o s) (MOk o w) g.
Proof. split; [reflexivity|assumption]. Qed.

Lemma alloc_empty us hp y x : bodyx us hp y x -> has (k_alloc x) = negb (empty y).
Proof.
  unfold bodyx, body, empty, buf. destruct (a_cont y) as [|l|k]; cbn.
  - intros (-> & _). reflexivity.
  - intros (_ & _ & _ & la & -> & _). reflexivity.
  - intros (_ & _ & l & h & _ & _ & _ & _ & _ & _ & la & -> & _). reflexivity.
Qed.
(** data of a context that has some *)
Lemma body_data s hp y x : bodyx (s_user s) hp y x -> empty y = false ->
  exists l, conts s y = Some l /\ buf (a_size y) (busy y) (a_readers y) (k_alloc x) (k_wr x) (k_ro x) l.
Proof.
  unfold bodyx, body, empty, conts. destruct (a_cont y) as [|l|k]; intros B E; [discriminate| |].
  - exists l. split; [reflexivity|apply B].
  - destruct B as (_ & _ & l & h & A & _ & _ & _ & _ & D). exists l. split; assumption.
Qed.

Arguments alloc_empty {us hp y x} _.
Arguments body_data {s hp y x} _ _.
Arguments kbusy_eq {y x g} _.
Arguments putk_id {w x} _.
Lemma body_map us hp c b r n al ow bo wr ro b' r' al' wr' ro' :
  body us hp c b r n al ow bo wr ro -> match c with CEmpty => False | _ => True end -> (b' = false -> b = false) ->
  (forall l, buf n b r al wr ro l -> buf n b' r' al' wr' ro' l) -> body us hp c b' r' n al' ow bo wr' ro'.
Proof.
  unfold body. destruct c as [|l|k]; intros B C D E; [contradiction| |].
  - destruct B as (B1 & B2 & B3). split; [exact B1|]. split; [exact B2|]. apply E, B3.
  - destruct B as (B1 & B2 & l0 & h0 & B3 & B4 & B5 & B6 & B7 & B8). split; [exact B1|]. split; [exact B2|]. exists l0, h0.
    split; [exact B3|]. split; [exact B4|]. split; [exact B5|]. split; [exact B6|]. split; [intro F; apply B7, D, F|apply E, B8].
Qed.
Lemma some_data y : empty y = false -> match a_cont y with CEmpty => False | _ => True end.
Proof. unfold empty. destruct (a_cont y); intro E; [discriminate| |]; exact I. Qed.
Lemma readers1 y : 0 <= a_readers y -> many y = false -> add64 (a_readers y) 1 = a_readers y + 1 /\ 0 <= a_readers y + 1 < two64.
Proof. unfold many. intros A M. apply Z.leb_gt in M. unfold VecModel.add64. rewrite Z.mod_small; lia. Qed.

(** ** Access *)
Lemma k_get_ok s w g host : krel s w g -> forall g', kstrict (KGet host) s g = Some g' -> ksim (s_get s host) (kbstep (KGet host) w) g'.
Proof.
  intros H g' G. unfold s_get, live, kstrict, onctx in *. destruct (s_ctx s) as [y|] eqn:Ey; [|exact I].
  destruct (krel_live H Ey) as (x & Ex & A & B). unfold kbstep, after, mk_get, klive. rewrite Ex.
  rewrite (kbusy_eq A), (alloc_empty B), (h_rd A). unfold locked in *.
  destruct (busy y) eqn:Eb; cbn in *; [injection G as <-; apply ksim_err, H|].
  destruct (a_readers y =? 0) eqn:Er; cbn in *; [|injection G as <-; apply ksim_err, H].
  destruct (empty y) eqn:Ee; cbn in *; [injection G as <-; apply ksim_err, H|].
  unfold get_mc. destruct host; cbn in *.
  - injection G as <-. destruct (body_data B Ee) as (l & C & L & la & E1 & E2 & E3 & E4). rewrite Eb in E4. destruct E4 as [E4 E5].
    rewrite E1, (h_sz A), (cpy_ok _ E2). cbn. split; [reflexivity|].
    change (krel (sc s (wg (tick y 1) true)) (putk w (ks_wp (bumpk (ks_wr x (Some la)) 1) true) (w_kh w)) (g + 1)).
    apply krel_put with g x; auto.
    + constructor; cbn; try apply A.
      * rewrite (h_st A). apply add64_mod.
      * rewrite !even_S. f_equal. apply A.
      * intros _. split; [reflexivity|]. change (busy (tick y 1) = true). rewrite busy_1, Eb. reflexivity.
      * intros _. apply Z.eqb_eq, Er.
    + unfold bodyx in *. cbn. change (busy (wg (tick y 1) true)) with (busy (tick y 1)). rewrite busy_1, Eb. cbn.
      apply body_map with (1 := B). apply some_data, Ee. intro; discriminate.
      intros l0 (Q1 & l1 & Q2 & Q3 & Q4 & Q5). rewrite Eb in Q5. destruct Q5 as [Q5 Q6]. split; [exact Q1|]. exists l1. repeat split; try assumption. rewrite Q2 in E1. injection E1 as <-. rewrite Q6 at 1. reflexivity.
  - injection G as <-. rewrite (putk_id Ex). apply ksim_err, H.
Qed.
(** read access granted: the context afterwards *)
Lemma get_read_ok s w g y x : krel s w g -> s_ctx s = Some y -> w_k w = Some x -> busy y = false -> empty y = false -> many y = false ->
  exists l x', conts s y = Some l /\ mk_get_read true w = MOk tt (putk w x' (w_kh w)) /\ krel (sc s (rd y 1)) (putk w x' (w_kh w)) g /\
    k_ro x' = Some (firstn (a_size y) l) /\ (a_size y <= length l)%nat /\ k_fields x' = a_fields y.
Proof.
  intros H Ey Ex Eb Ee M. destruct (krel_live H Ey) as (x1 & Ex1 & A & B). rewrite Ex in Ex1. injection Ex1 as <-.
  destruct (readers1 y (proj1 (h_r0 A)) M) as [R1 R2].
  destruct (body_data B Ee) as (l & C & L & la & E1 & E2 & E3 & E4). rewrite Eb in E4. destruct E4 as [E4 E5].
  exists l, (ks_readers (ks_ro x (Some la)) (a_readers y + 1)). split; [exact C|].
  assert (K : mk_get_read true w = MOk tt (putk w (ks_readers (ks_ro x (Some la)) (a_readers y + 1)) (w_kh w))).
  { unfold mk_get_read, klive. rewrite Ex, (kbusy_eq A), Eb, (alloc_empty B), Ee. cbn. unfold get_read_mc. cbn. rewrite E3, E1, (h_sz A), (cpy_ok _ E2).
    destruct (a_readers y =? 0) eqn:Er; cbn.
    - rewrite (h_rd A), R1. reflexivity.
    - rewrite (h_rd A), R1. unfold ks_readers, ks_ro. cbn. rewrite E3. reflexivity. }
  split; [exact K|]. split.
  - apply krel_put with g x; auto.
    + constructor; cbn; try apply A; auto.
      * intro T. destruct (h_rp A T). split; [assumption|lia].
      * intro T. change (busy y = true) in T. congruence.
    + unfold bodyx in *. cbn. change (busy (rd y 1)) with (busy y).
      apply body_map with (1 := B). apply some_data, Ee. auto.
      intros l0 (Q1 & l1 & Q2 & Q3 & Q4 & Q5). rewrite Eb in *. destruct Q5 as [Q5 Q6]. split; [exact Q1|]. exists l1. repeat split; try assumption.
      pose proof (h_r0 A). destruct (Z.eqb_spec (a_readers y + 1) 0); [lia|]. rewrite Q2 in E1. injection E1 as <-. reflexivity.
  - cbn. rewrite E5. split; [reflexivity|]. split; [exact L|apply A].
Qed.
(** setting the client's pointer *)
Lemma krel_rg s w g y x : krel (sc s y) w g -> w_k w = Some x -> 0 < a_readers y -> krel (sc s (rg y true)) (putk w (ks_rp x true) (w_kh w)) g.
Proof.
  intros H Ex R. destruct (krel_live H eq_refl) as (x1 & Ex1 & A & B). rewrite Ex in Ex1. injection Ex1 as <-.
  change (krel (sc (sc s y) (rg y true)) (putk w (ks_rp x true) (w_kh w)) g). apply krel_put with g x; auto.
  constructor; cbn; try apply A. intros _. auto.
Qed.
Lemma mk_get_read_err s w g y x host : krel s w g -> s_ctx s = Some y -> w_k w = Some x ->
  (busy y = true -> mk_get_read host w = MErr ERR_MINOR w) /\ (busy y = false -> empty y || negb host = true -> mk_get_read host w = MErr ERR_BACKEND w).
Proof.
  intros H Ey Ex. destruct (krel_live H Ey) as (x1 & Ex1 & A & B). rewrite Ex in Ex1. injection Ex1 as <-.
  unfold mk_get_read, klive. rewrite Ex, (kbusy_eq A), (alloc_empty B). split; intro E; rewrite E; [reflexivity|].
  destruct (empty y); cbn; [reflexivity|]. intro F. unfold get_read_mc. rewrite F. cbn. rewrite (putk_id Ex). reflexivity.
Qed.
Lemma k_get_read_ok s w g host : krel s w g -> ksim (s_get_read s host) (kbstep (KGetRead host) w) g.
Proof.
  intros H. unfold s_get_read, live. destruct (s_ctx s) as [y|] eqn:Ey; [|exact I].
  destruct (krel_live H Ey) as (x & Ex & A & B). destruct (mk_get_read_err host H Ey Ex) as [E1 E2].
  unfold s_reading, kbstep, after. destruct (busy y) eqn:Eb; [rewrite (E1 eq_refl); apply ksim_err, H|].
  destruct (empty y || negb host) eqn:Ee; [rewrite (E2 eq_refl eq_refl); apply ksim_err, H|].
  destruct (many y) eqn:Em; [exact I|]. apply orb_false_iff in Ee. destruct Ee as [Ee Eh]. destruct host; [|discriminate].
  destruct (get_read_ok H Ey Ex Eb Ee Em) as (l & x' & C & K & R & _). rewrite K. cbn. split; [reflexivity|].
  exact (krel_rg R eq_refl ltac:(cbn; pose proof (h_r0 A); lia)).
Qed.
