(** * C69: access to context data through QFunctions *)
From Coq Require Import List ZArith Lia Bool Arith.
From Verif Require Import Prelude RstrModel QcModel QcProofs.
Import ListNotations.
Local Open Scope Z_scope.

(** ** Statements *)
(** Every call of the history keeps the rules in the state it is made in *)
Fixpoint client (s : st) (l : list op) : Prop := match l with [] => True | o :: l => ruled s o /\ match step s o with Some (_, s') => client s' l | None => True end end.
(** No CeedQFunctionGetContextData of the history was refused *)
Fixpoint granted (s : st) (l : list op) : Prop :=
  match l with [] => True | o :: l => match step s o with Some (e, s') => (match o with QGet false _ => e = 0 | _ => True end) /\ granted s' l | None => True end end.
(** The live QFunctions with context [c], and the accesses for reading and for writing that they and the client have obtained and not restored *)
Definition users (s : st) (c : nat) : Z := sumq (fun x => if q_live x && match q_ctx x with Some d => Nat.eqb d c | None => false end then 1 else 0) (qs s).
Definition held (s : st) (c : nat) (f : cx -> Z) : Z := match nth_error (cs s) c with Some k => f k | None => 0 end.
Definition reading (s : st) (c : nat) : Z := held s c k_dr + sumq (fun x => if q_live x && match q_ctx x with Some d => Nat.eqb d c | None => false end && negb (q_wr x) then q_held x else 0) (qs s).
Definition writing (s : st) (c : nat) : Z := held s c k_dw + sumq (fun x => if q_live x && match q_ctx x with Some d => Nat.eqb d c | None => false end && q_wr x then q_held x else 0) (qs s).

Lemma init_inv : inv init. Proof. split; cbn [cs qs init]; intros [|n] x E; discriminate. Qed.
Lemma run_inv l : forall s, inv s -> client s l -> exists s', run s l = Some s' /\ inv s'.
Proof.
  induction l as [|o l IH]; intros s I C; cbn [run]; [eauto|]. destruct C as (R & C). destruct (step_inv s o I R) as (e & s' & E & I' & _). rewrite E in C |- *. apply IH; assumption.
Qed.
Lemma client_app l : forall s l', client s (l ++ l') -> client s l /\ forall s', run s l = Some s' -> client s' l'.
Proof.
  induction l as [|o l IH]; intros s l' C; cbn [app client run] in *; [split; [exact I|intros s' E; injection E as <-; exact C]|]. destruct C as (R & C). destruct (step s o) as [(e, s1)|]; [|split; [auto|discriminate]]. destruct (IH _ _ C). auto.
Qed.

(** No call of a client that keeps the rules touches a freed context, and no call but a request for access fails: restoring what was obtained always succeeds *)
Theorem C69_defined l : client init l -> run init l <> None /\
  forall l1 o l2 s, l = l1 ++ o :: l2 -> run init l1 = Some s -> exists e s', step s o = Some (e, s') /\ (is_get o = false -> e = 0).
Proof.
  intros C. split. { destruct (run_inv l init init_inv C) as (s & -> & _). discriminate. }
  intros l1 o l2 s -> E. destruct (client_app _ _ _ C) as (C1 & C2). destruct (run_inv l1 init init_inv C1) as (s1 & E1 & I). rewrite E in E1. injection E1 as <-. destruct (C2 s E) as (R & _). destruct (step_inv s o I R) as (e & s' & A & _ & B). eauto.
Qed.
Lemma totals s c k : nth_error (cs s) c = Some k -> writing s c = k_dw k + sumq (fw c) (qs s) /\ reading s c = k_dr k + sumq (fr c) (qs s).
Proof. intros K. unfold writing, reading, held. rewrite K. split; reflexivity. Qed.
(** The access lock and the number of readers are exactly the accesses that QFunctions and the client hold: at most one for writing, and then none for reading *)
Theorem C69_locks l s : client init l -> run init l = Some s -> forall c k, nth_error (cs s) c = Some k -> k_live k = true ->
  writing s c = (if k_lock k then 1 else 0) /\ reading s c = k_rd k /\ (writing s c = 0 \/ writing s c = 1 /\ reading s c = 0).
Proof.
  intros C E c k K V. destruct (run_inv l init init_inv C) as (s1 & E1 & I). rewrite E in E1. injection E1 as <-. destruct (i_c s I c k K) as (_ & _ & G & _). destruct (G V) as (_ & _ & G3 & G4 & G5 & _).
  destruct (totals s c k K) as (-> & ->). rewrite <- G4. split; [lia|]. split; [lia|]. destruct (k_lock k); [specialize (G5 eq_refl); lia|lia].
Qed.
(** A request is granted exactly if there is no context, or the context has data, nobody writes, and - for a writable context - nobody reads *)
Theorem C69_get l s i q x : client init (l ++ [QGet i q]) -> run init l = Some s -> nth_error (qs s) q = Some x -> exists e s', step s (QGet i q) = Some (e, s') /\
  (e = 0 <-> forall c, q_ctx x = Some c -> exists k, nth_error (cs s) c = Some k /\ k_valid k = true /\ writing s c = 0 /\ (q_wr x = true -> reading s c = 0)) /\
  (e = 0 -> exists x', nth_error (qs s') q = Some x' /\ q_held x' = q_held x + 1).
Proof.
  intros C E X. destruct (client_app _ _ _ C) as (C1 & C2). destruct (run_inv l init init_inv C1) as (s1 & E1 & I). rewrite E in E1. injection E1 as <-. destruct (C2 s E) as (R & _). cbn [ruled] in R. destruct R as (x1 & X1 & L). rewrite X in X1. injection X1 as <-.
  cbn [step]. unfold access. assert (W : wr s q = q_wr x) by (unfold wr; rewrite X; reflexivity). rewrite X, L, W. destruct (q_ctx x) as [c|] eqn:Q.
  - destruct (ctx_live s I q x c X L Q) as (k & K & V & _ & _ & _ & (_ & _ & G & _)). destruct (G V) as (R1 & R2 & R3 & R4 & _). cbn [onp]. unfold onc. rewrite K, V.
    set (res := (if i then through_inner (c_get (q_wr x)) else through (c_get (q_wr x))) k). destruct res as (e, k') eqn:ER. eexists _, _. split; [reflexivity|]. split.
    + assert (EE : e = 0 <-> k_lock k = false /\ (q_wr x = true -> k_rd k = 0) /\ k_valid k = true).
      { change e with (fst (e, k')). rewrite <- ER. unfold res. clear - R2. destruct k as [lv rf lk rd vd us lkd dw dr]. cbn [k_refs k_lock k_rd k_valid] in *.
        destruct i; unfold through_inner, through, c_destroy, c_get, c_reference, refs; cbn [k_live k_refs k_lock k_rd k_valid k_user k_leak k_dw k_dr]; cbv zeta; cbn [k_live k_refs k_lock k_rd k_valid k_user k_leak k_dw k_dr];
        replace (rf + 1 - 1) with rf by lia; (destruct (Z.ltb_spec 0 rf); [|lia]); cbn [Z.eqb]; destruct lk; cbn [k_refs k_lock k_rd k_valid]; destruct (q_wr x); cbn [andb negb]; try (destruct (Z.eqb_spec rd 0)); cbn [negb]; try destruct vd; cbn;
        replace (rf + 1 - 1) with rf by lia; (destruct (Z.ltb_spec 0 rf); [|lia]); cbn [fst]; split; intros; try discriminate; try tauto; repeat split; intros; try assumption; try reflexivity; try discriminate; intuition (try discriminate; try lia). }
      destruct (totals s c k K) as (TW & TR). rewrite EE. split.
      * intros (A & B & D) c' Hc. injection Hc as <-. exists k. rewrite A in R3. repeat split; [exact K|exact D|lia|]. intros Y. specialize (B Y). lia.
      * intros H. destruct (H c eq_refl) as (k2 & K2 & A & B & D). rewrite K in K2. injection K2 as <-. destruct (k_lock k); [lia|]. repeat split; [|exact A]. intros Y. specialize (D Y). lia.
    + intros ->. cbn [Z.eqb]. eexists. split; [exact (upd_at _ _ _ _ _ X)|reflexivity].
  - cbn [onp Z.eqb]. eexists _, _. split; [reflexivity|]. split; [split; [intros _ c Hc; discriminate|reflexivity]|]. intros _. eexists. split; [exact (upd_at _ _ _ _ _ X)|reflexivity].
Qed.

Lemma upd_other A (l : list A) n y m : m <> n -> nth_error (upd l n y) m = nth_error l m.
Proof. revert n m. induction l as [|a l IH]; intros [|n] [|m] N; cbn [upd nth_error]; try reflexivity; try congruence. apply IH. congruence. Qed.
(** The same for a request of the client itself: for writing ([w]) or for reading; nothing but the access of the client to this context changes *)
Theorem C69_direct l s w c k : client init (l ++ [CGet w c]) -> run init l = Some s -> nth_error (cs s) c = Some k -> exists e s', step s (CGet w c) = Some (e, s') /\
  (e = 0 <-> k_valid k = true /\ writing s c = 0 /\ (w = true -> reading s c = 0)) /\ qs s' = qs s /\
  (forall d, writing s' d = writing s d + (if Nat.eqb d c && (e =? 0) && w then 1 else 0) /\ reading s' d = reading s d + (if Nat.eqb d c && (e =? 0) && negb w then 1 else 0)).
Proof.
  intros C E K. destruct (client_app _ _ _ C) as (C1 & C2). destruct (run_inv l init init_inv C1) as (s1 & E1 & I). rewrite E in E1. injection E1 as <-. destruct (C2 s E) as (R & _). cbn [ruled] in R. destruct R as (k1 & K1 & U). rewrite K in K1. injection K1 as <-.
  pose proof (i_c s I c k K) as (_ & _ & G3 & G4). assert (V : k_live k = true) by (destruct (k_live k); [reflexivity|destruct (G4 eq_refl); lia]). destruct (G3 V) as (_ & _ & R3 & R4 & R5 & _). destruct (totals s c k K) as (TW & TR).
  cbn [step]. unfold onc. rewrite K, V. destruct (c_get w k) as (e, k1) eqn:Q. eexists _, _. split; [reflexivity|].
  assert (EE : (e = 0 <-> k_lock k = false /\ (w = true -> k_rd k = 0) /\ k_valid k = true) /\ k_dw k1 = k_dw k /\ k_dr k1 = k_dr k).
  { unfold c_get in Q. destruct (k_lock k) eqn:LK; [injection Q as <- <-; split; [split; [discriminate|intros (A & _); discriminate]|auto]|]. destruct w; cbn [andb] in Q; [destruct (Z.eqb_spec (k_rd k) 0) as [Z|Z]; cbn [negb] in Q; [|injection Q as <- <-; split; [split; [discriminate|intros (_ & A & _); exfalso; apply Z, A; reflexivity]|auto]]|];
    destruct (k_valid k) eqn:VK; cbn [negb] in Q; injection Q as <- <-; (split; [split; [try discriminate; intros _; repeat split; intros; try discriminate; assumption|intros (_ & _ & A); try discriminate; reflexivity]|split; reflexivity]). }
  destruct EE as (EE & DW & DR). split.
  { rewrite EE. split; [intros (A & B & D); rewrite A in R3; repeat split; [exact D|lia|intros Y; specialize (B Y); lia]|]. intros (A & B & D). destruct (k_lock k); [lia|]. repeat split; [|exact A]. intros Y. specialize (D Y). lia. }
  split; [reflexivity|]. intros d. unfold writing, reading, held. cbn [cs qs]. destruct (Nat.eqb_spec d c) as [->|N]; cbn [andb].
  - rewrite (upd_at _ _ _ _ _ K), K. destruct (e =? 0); cbn [andb]; [|rewrite DW, DR; split; lia]. unfold direct. destruct w; cbn [k_dw k_dr negb]; rewrite DW, DR; split; lia.
  - rewrite upd_other by exact N. split; lia.
Qed.

Definition noleak (s : st) : Prop := forall c k, nth_error (cs s) c = Some k -> k_leak k = 0.
Lemma onp_noleak s c f e s' : noleak s -> onp s c f = Some (e, s') -> (forall k, k_leak k = 0 -> fst (f k) = e -> k_leak (snd (f k)) = 0) -> noleak s' /\ qs s' = qs s.
Proof.
  intros N E0 F. revert E0. destruct c as [c|]; cbn [onp]; [|intros E; injection E as <- <-; auto]. unfold onc. destruct (nth_error (cs s) c) as [k|] eqn:K; [|discriminate]. destruct (k_live k); [|discriminate]. specialize (F k (N c k K)). destruct (f k) as (e1, k1). intros E. injection E as <- <-. split; [|reflexivity].
  intros c' kk KK. cbn [cs] in KK. destruct (nth_upd_cases _ _ _ _ _ _ KK) as [(-> & -> & _)|(_ & K2)]; [apply F; reflexivity|apply (N _ _ K2)].
Qed.
Lemma destroy_noleak k : k_leak (snd (c_destroy k)) = k_leak k. Proof. unfold c_destroy. cbv zeta. destruct (0 <? _); [reflexivity|]. destruct (k_lock _); reflexivity. Qed.
Lemma get_noleak w k : k_leak (snd (c_get w k)) = k_leak k. Proof. unfold c_get. destruct (k_lock k); [reflexivity|]. destruct (_ && _); [reflexivity|]. destruct (negb _); [reflexivity|]. destruct w; reflexivity. Qed.
Lemma restore_noleak w k : k_leak (snd (c_restore w k)) = k_leak k. Proof. unfold c_restore. destruct w; [destruct (k_lock k)|destruct (0 <? _)]; reflexivity. Qed.
Lemma through_noleak acc k e : (forall k, k_leak (snd (acc k)) = k_leak k) -> k_leak k = 0 -> fst (through acc k) = e -> e = 0 -> k_leak (snd (through acc k)) = 0.
Proof.
  intros A Z F E. unfold through in *. pose proof (A (c_reference k)) as A1. destruct (acc (c_reference k)) as (e1, k1). cbn [snd] in A1. destruct (Z.eqb_spec e1 0); [rewrite destroy_noleak, A1; exact Z|]. cbn [fst] in F. congruence.
Qed.
Lemma inner_noleak acc k : (forall k, k_leak (snd (acc k)) = k_leak k) -> k_leak (snd (through_inner acc k)) = k_leak k.
Proof. intros A. unfold through_inner. pose proof (destroy_noleak (c_reference k)) as D. destruct (c_destroy (c_reference k)) as (e1, k1). cbn [snd] in D. destruct (e1 =? 0); [rewrite A|cbn [snd]]; exact D. Qed.
Lemma access_noleak s q i acc d e s' : noleak s -> (forall k, k_leak (snd (acc k)) = k_leak k) -> access s q i acc d = Some (e, s') -> (i = false -> e = 0) -> noleak s'.
Proof.
  intros N A E Z. unfold access in E. destruct (nth_error (qs s) q) as [x|]; [|discriminate]. destruct (q_live x); [|discriminate]. destruct (onp s (q_ctx x) _) as [(e1, s1)|] eqn:O; [|discriminate]. injection E as <- <-.
  destruct (onp_noleak _ _ _ _ _ N O) as (N1 & _). { intros k K F. destruct i; [rewrite inner_noleak; assumption|]. apply (through_noleak _ _ e1 A K F). auto. }
  destruct (e1 =? 0); exact N1.
Qed.
Lemma step_noleak s o e s' : noleak s -> step s o = Some (e, s') -> (match o with QGet false _ => e = 0 | QRestore false _ => e = 0 | _ => True end) -> noleak s'.
Proof.
  intros N E Z. destruct o as [v|c|w c|w c| |q c|q b|i q|i q|q]; cbn [step] in E.
  - injection E as <- <-. intros c k K. cbn [cs] in K. destruct (Nat.lt_ge_cases c (length (cs s))) as [L|L]; [rewrite nth_error_app1 in K by exact L; apply (N c k K)|]. rewrite nth_error_app2 in K by exact L. destruct (c - length (cs s))%nat as [|m]; [|destruct m; discriminate]. injection K as <-. reflexivity.
  - apply (onp_noleak s (Some c) _ e s' N) in E; [apply E|]. intros k K _. rewrite destroy_noleak. exact K.
  - apply (onp_noleak s (Some c) _ e s' N) in E; [apply E|]. intros k K _. pose proof (get_noleak w k) as D. destruct (c_get w k) as (e1, k1). cbn [snd] in *. destruct (e1 =? 0); [destruct w|]; cbn [direct k_leak]; congruence.
  - apply (onp_noleak s (Some c) _ e s' N) in E; [apply E|]. intros k K _. pose proof (restore_noleak w k) as D. destruct (c_restore w k) as (e1, k1). cbn [snd] in *. destruct (e1 =? 0); [destruct w|]; cbn [direct k_leak]; congruence.
  - injection E as <- <-. exact N.
  - destruct (nth_error (qs s) q) as [x|]; [|discriminate]. destruct (q_live x); [|discriminate]. destruct (onp s (q_ctx x) c_destroy) as [(e1, s1)|] eqn:O; [|discriminate].
    destruct (onp_noleak _ _ _ _ _ N O) as (N1 & _). { intros k K _. rewrite destroy_noleak. exact K. } destruct (e1 =? 0); [|injection E as <- <-; exact N1].
    apply (onp_noleak (setq s1 q (QF true c (q_wr x) (q_held x)))) in E; [apply E|exact N1|]. intros k K _. exact K.
  - destruct (nth_error (qs s) q) as [x|]; [|discriminate]. destruct (q_live x); [|discriminate]. injection E as <- <-. exact N.
  - apply (access_noleak _ _ _ _ _ _ _ N (get_noleak _) E). intros ->. exact Z.
  - apply (access_noleak _ _ _ _ _ _ _ N (restore_noleak _) E). intros ->. exact Z.
  - destruct (nth_error (qs s) q) as [x|]; [|discriminate]. destruct (q_live x); [|discriminate]. destruct (onp s (q_ctx x) c_destroy) as [(e1, s1)|] eqn:O; [|discriminate]. injection E as <- <-.
    destruct (onp_noleak _ _ _ _ _ N O) as (N1 & _). { intros k K _. rewrite destroy_noleak. exact K. } destruct (e1 =? 0); exact N1.
Qed.
Lemma run_noleak l : forall s s', inv s -> noleak s -> client s l -> granted s l -> run s l = Some s' -> noleak s'.
Proof.
  induction l as [|o l IH]; intros s s' I N C G E; cbn [run client granted] in *; [injection E as <-; exact N|]. destruct C as (R & C). destruct (step_inv s o I R) as (e & s1 & E1 & I1 & Z). rewrite E1 in *. destruct G as (G1 & G2). apply (IH s1 s' I1); auto.
  apply (step_noleak s o e s1 N E1). destruct o as [| | | | | | |[]|[]|]; auto.
Qed.
(** If no CeedQFunctionGetContextData was refused, the count of a context is the number of handles that the client has plus the number of QFunctions that use it; a context is freed exactly when both are zero *)
Theorem C69_count l s : client init l -> granted init l -> run init l = Some s -> forall c k, nth_error (cs s) c = Some k ->
  (k_live k = true -> k_refs k = k_user k + users s c) /\ (k_live k = false <-> k_user k = 0 /\ users s c = 0).
Proof.
  intros C Gr E c k K. pose proof (run_noleak l init s init_inv ltac:(intros [|n] x X; discriminate) C Gr E c k K) as LK. destruct (run_inv l init init_inv C) as (s1 & E1 & I). rewrite E in E1. injection E1 as <-.
  destruct (i_c s I c k K) as (G1 & _ & G3 & G4). change (users s c) with (sumq (f1 c) (qs s)). pose proof (users_nonneg s c). split; [intros V; destruct (G3 V); lia|]. split; [intros V; destruct (G4 V) as (A & _ & B); auto|]. intros (A & B). destruct (k_live k); [|reflexivity]. destruct (G3 eq_refl) as (R1 & R2 & _). lia.
Qed.

(** The flag and the context of QFunction [q] that the calls of a history ask for, in the order of the calls *)
Fixpoint asked (q : nat) (d : bool * option nat) (l : list op) : bool * option nat :=
  match l with
  | [] => d
  | QWr q' b :: l => asked q (if Nat.eqb q' q then (b, snd d) else d) l
  | QSet q' c :: l => asked q (if Nat.eqb q' q then (fst d, c) else d) l
  | _ :: l => asked q d l
  end.
Definition cur (s : st) (q : nat) : bool * option nat := match nth_error (qs s) q with Some x => (q_wr x, q_ctx x) | None => (true, None) end.
Lemma onp_qs s c f e s' : onp s c f = Some (e, s') -> qs s' = qs s.
Proof. destruct c as [c|]; cbn [onp]; [|intros E; injection E as <- <-; reflexivity]. unfold onc. destruct (nth_error (cs s) c) as [k|]; [|discriminate]. destruct (k_live k); [|discriminate]. destruct (f k). intros E. injection E as <- <-. reflexivity. Qed.
Lemma cur_qs s s' q : qs s' = qs s -> cur s' q = cur s q. Proof. intros E. unfold cur. rewrite E. reflexivity. Qed.
Lemma cur_setq s q' y q : (q' < length (qs s))%nat -> cur (setq s q' y) q = if Nat.eqb q' q then (q_wr y, q_ctx y) else cur s q.
Proof.
  intros L. unfold cur, setq. cbn [qs]. destruct (Nat.eqb_spec q' q) as [->|N]; [|rewrite upd_other by congruence; reflexivity].
  destruct (nth_error (qs s) q) as [x|] eqn:X; [rewrite (upd_at _ _ _ _ y X); reflexivity|]. apply nth_error_None in X. lia.
Qed.
Lemma access_cur s q' i acc d e s' q : access s q' i acc d = Some (e, s') -> cur s' q = cur s q.
Proof.
  unfold access. destruct (nth_error (qs s) q') as [x|] eqn:X; [|discriminate]. destruct (q_live x); [|discriminate]. destruct (onp s (q_ctx x) _) as [(e1, s1)|] eqn:O; [|discriminate]. intros E. injection E as <- <-. pose proof (onp_qs _ _ _ _ _ O) as Q.
  destruct (e1 =? 0); [|apply cur_qs; exact Q]. rewrite cur_setq by (rewrite Q; apply nth_error_Some; congruence). cbn [q_wr q_ctx]. destruct (Nat.eqb_spec q' q) as [->|N]; [unfold cur; rewrite X; reflexivity|apply cur_qs; exact Q].
Qed.
Lemma step_cur s o e s' q : step s o = Some (e, s') -> (is_get o = false -> e = 0) -> cur s' q = asked q (cur s q) [o].
Proof.
  intros E Z. destruct o as [v|c|w c|w c| |q' c|q' b|i q'|i q'|q']; cbn [step asked is_get] in *.
  - injection E as <- <-. reflexivity.
  - apply cur_qs. apply (onp_qs s (Some c) _ _ _ E).
  - apply cur_qs. apply (onp_qs s (Some c) _ _ _ E).
  - apply cur_qs. apply (onp_qs s (Some c) _ _ _ E).
  - injection E as <- <-. unfold cur. cbn [qs]. destruct (Nat.lt_ge_cases q (length (qs s))) as [L|L]; [rewrite nth_error_app1 by exact L; reflexivity|]. rewrite nth_error_app2 by exact L. rewrite (proj2 (nth_error_None (qs s) q) L). destruct (q - length (qs s))%nat as [|[|m]]; reflexivity.
  - destruct (nth_error (qs s) q') as [x|] eqn:X; [|discriminate]. destruct (q_live x); [|discriminate]. destruct (onp s (q_ctx x) c_destroy) as [(e1, s1)|] eqn:O; [|discriminate]. pose proof (onp_qs _ _ _ _ _ O) as Q.
    destruct (Z.eqb_spec e1 0) as [E1|E1]; [|injection E as -> _; exfalso; apply E1, Z; reflexivity]. rewrite (cur_qs _ _ q (onp_qs _ _ _ _ _ E)). rewrite cur_setq by (rewrite Q; apply nth_error_Some; congruence). cbn [q_wr q_ctx].
    destruct (Nat.eqb_spec q' q) as [->|N]; [unfold cur; rewrite X; reflexivity|apply cur_qs; exact Q].
  - destruct (nth_error (qs s) q') as [x|] eqn:X; [|discriminate]. destruct (q_live x); [|discriminate]. injection E as <- <-. rewrite cur_setq by (apply nth_error_Some; congruence). cbn [q_wr q_ctx]. destruct (Nat.eqb_spec q' q) as [->|N]; [unfold cur; rewrite X; reflexivity|reflexivity].
  - apply (access_cur _ _ _ _ _ _ _ q E).
  - apply (access_cur _ _ _ _ _ _ _ q E).
  - destruct (nth_error (qs s) q') as [x|] eqn:X; [|discriminate]. destruct (q_live x); [|discriminate]. destruct (onp s (q_ctx x) c_destroy) as [(e1, s1)|] eqn:O; [|discriminate]. injection E as <- <-. pose proof (onp_qs _ _ _ _ _ O) as Q.
    destruct (e1 =? 0); [|apply cur_qs; exact Q]. rewrite cur_setq by (rewrite Q; apply nth_error_Some; congruence). cbn [q_wr q_ctx]. destruct (Nat.eqb_spec q' q) as [->|N]; [unfold cur; rewrite X; reflexivity|apply cur_qs; exact Q].
Qed.
Lemma asked_cons q d o l : asked q d (o :: l) = asked q (asked q d [o]) l. Proof. destruct o; reflexivity. Qed.
Lemma run_cur q l : forall s s', inv s -> client s l -> run s l = Some s' -> cur s' q = asked q (cur s q) l.
Proof.
  induction l as [|o l IH]; intros s s' I C E; cbn [run client] in *; [injection E as <-; reflexivity|]. destruct C as (R & C). destruct (step_inv s o I R) as (e & s1 & E1 & I1 & Z). rewrite E1 in *. rewrite asked_cons, <- (step_cur s o e s1 q E1 Z). apply IH; assumption.
Qed.
(** The context of a QFunction is the one set last, and the flag is the one set last, writable if none was set: nothing else - no access, no call on another QFunction, not CeedQFunctionSetContext for the flag - changes them *)
Theorem C69_settings l s q x : client init l -> run init l = Some s -> nth_error (qs s) q = Some x -> (q_wr x, q_ctx x) = asked q (true, None) l.
Proof.
  intros C E X. pose proof (run_cur q l init s init_inv C E) as H. unfold cur in H. rewrite X in H. cbn [init qs] in H. destruct q; exact H.
Qed.

(** ** Findings *)
Definition ex_l : list op := [CNew true; QNew; QNew; QSet 0 (Some 0%nat); QSet 1 (Some 0%nat); QWr 1 false; QGet true 1; QGet true 1; QRestore false 1; QRestore true 1; QGet false 0; QGet true 1; QRestore true 0; QDestroy 0; CGet true 0; QGet true 1; CRestore true 0; CGet false 0; QGet true 1; QRestore true 1; CRestore false 0; CDestroy 0].
Definition qok (s : st) (q : nat) (f : qf -> bool) : bool := match nth_error (qs s) q with Some x => q_live x && f x | None => false end.
Definition cok (s : st) (c : nat) (f : cx -> bool) : bool := match nth_error (cs s) c with Some k => (0 <? k_user k) && f k | None => false end.
Definition ruledb (s : st) (o : op) : bool :=
  match o with
  | CNew _ | QNew => true
  | CDestroy c => cok s c (fun k => negb (k_user k =? 1) || (k_dw k =? 0) && (k_dr k =? 0))
  | CGet _ c => cok s c (fun _ => true)
  | CRestore w c => cok s c (fun k => 0 <? (if w then k_dw k else k_dr k))
  | QSet q c => qok s q (fun x => q_held x =? 0) && match c with Some d => cok s d (fun _ => true) | None => true end
  | QWr q _ | QDestroy q => qok s q (fun x => q_held x =? 0)
  | QGet _ q => qok s q (fun _ => true)
  | QRestore _ q => qok s q (fun x => 0 <? q_held x)
  end.
Lemma qok_spec s q f : qok s q f = true -> exists x, nth_error (qs s) q = Some x /\ q_live x = true /\ f x = true.
Proof. unfold qok. destruct (nth_error (qs s) q) as [x|]; [|discriminate]. intros H. apply andb_true_iff in H. exists x. tauto. Qed.
Lemma cok_spec s c f : cok s c f = true -> exists k, nth_error (cs s) c = Some k /\ 0 < k_user k /\ f k = true.
Proof. unfold cok. destruct (nth_error (cs s) c) as [k|]; [|discriminate]. intros H. apply andb_true_iff in H. destruct H as (H & F). apply Z.ltb_lt in H. eauto. Qed.
Lemma ruledb_spec s o : ruledb s o = true -> ruled s o.
Proof.
  destruct o as [v|c|w c|w c| |q c|q b|i q|i q|q]; cbn [ruledb ruled]; auto;
  try (intros H; apply qok_spec in H; destruct H as (x & A & B & C); exists x; try apply Z.eqb_eq in C; try apply Z.ltb_lt in C; auto; fail).
  - intros H. destruct (cok_spec _ _ _ H) as (k & K & U & F). exists k. split; [exact K|]. split; [exact U|]. intros E. cbv beta in F. rewrite E in F. cbn [Z.eqb Pos.eqb negb orb] in F. apply andb_true_iff in F. destruct F as (C & D). apply Z.eqb_eq in C, D. auto.
  - intros H. destruct (cok_spec _ _ _ H) as (k & K & U & _). eauto.
  - intros H. destruct (cok_spec _ _ _ H) as (k & K & U & F). apply Z.ltb_lt in F. eauto.
  - intros H. apply andb_true_iff in H. destruct H as (H1 & H2). apply qok_spec in H1. destruct H1 as (x & A & B & C). apply Z.eqb_eq in C. split; [exists x; auto|]. intros d ->. destruct (cok_spec _ _ _ H2) as (k & K & U & _). eauto.
Qed.
Fixpoint clientb (s : st) (l : list op) : bool := match l with [] => true | o :: l => ruledb s o && match step s o with Some (_, s') => clientb s' l | None => true end end.
Lemma clientb_spec l : forall s, clientb s l = true -> client s l.
Proof. induction l as [|o l IH]; intros s H; cbn [clientb client] in *; [exact I|]. apply andb_true_iff in H. destruct H as (H1 & H2). split; [apply ruledb_spec; exact H1|]. destruct (step s o) as [(e, s')|]; [apply IH; exact H2|exact I]. Qed.
Example C69_witness : client init ex_l /\ granted init ex_l /\ exists s k, run init ex_l = Some s /\ nth_error (cs s) 0 = Some k /\ k_live k = true /\ k_refs k = 1 /\ users s 0 = 1 /\ asked 1 (true, None) ex_l = (false, Some 0%nat).
Proof. split; [apply clientb_spec; vm_compute; reflexivity|]. split; [vm_compute; repeat split|]. eexists _, _. split; [vm_compute; reflexivity|]. split; [reflexivity|]. repeat split. Qed.

(** Finding: CeedQFunctionGetContextData takes a reference to the context and returns without dropping it when access is refused (ceed-qfunction.c:354-366), so that after a refused request -
    for example because another QFunction with the same context has access - the context and its data are never freed. CeedQFunctionGetInnerContextData does not have this fault. *)
Theorem C69_refused_refuted : exists l s k, client init l /\ run init l = Some s /\ nth_error (cs s) 0 = Some k /\ k_user k = 0 /\ users s 0 = 0 /\ k_live k = true /\ k_refs k = 1.
Proof.
  exists [CNew true; QNew; QNew; QSet 0 (Some 0%nat); QSet 1 (Some 0%nat); QGet false 0; QGet false 1; QRestore false 0; QDestroy 0; QDestroy 1; CDestroy 0]. eexists _, _.
  split; [apply clientb_spec; vm_compute; reflexivity|]. split; [vm_compute; reflexivity|]. split; [reflexivity|]. repeat split.
Qed.
(** Finding: CeedQFunctionRestoreContextData looks at the present value of is_context_writable. If CeedQFunctionSetContextWritable is called between obtaining and restoring, the restore is refused in either variant,
    the lock stays and the next request for the data is refused as well; only setting the flag back makes the restore succeed, and in the variant that is not inner a reference has been lost by then. *)
Theorem C69_writable_refuted i : exists s s1 s2 s3 s4, run init [CNew true; QNew; QSet 0 (Some 0%nat); QGet i 0; QWr 0 false] = Some s /\ step s (QRestore i 0) = Some (1, s1) /\
  step s1 (QGet i 0) = Some (1, s2) /\ (exists k, nth_error (cs s1) 0 = Some k /\ k_lock k = true) /\ step s1 (QWr 0 true) = Some (0, s3) /\ step s3 (QRestore i 0) = Some (0, s4) /\
  exists k, nth_error (cs s4) 0 = Some k /\ k_lock k = false /\ k_refs k = k_user k + users s4 0 + (if i then 0 else 1).
Proof. destruct i; eexists _, _, _, _, _; (split; [vm_compute; reflexivity|]); (split; [vm_compute; reflexivity|]); (split; [vm_compute; reflexivity|]); (split; [eexists; split; reflexivity|]); (split; [vm_compute; reflexivity|]); (split; [vm_compute; reflexivity|]); eexists; repeat split. Qed.
(** Finding: if the context of a QFunction is replaced between obtaining and restoring, the restore goes to the new context: it succeeds by giving back the access of another QFunction, and
    write access is then granted while that other QFunction still reads. *)
Theorem C69_replaced_refuted : exists s s1 s2, run init [CNew true; CNew true; QNew; QNew; QNew; QWr 0 false; QWr 1 false; QSet 0 (Some 0%nat); QSet 1 (Some 1%nat); QSet 2 (Some 1%nat); QGet false 0; QGet false 1; QSet 0 (Some 1%nat)] = Some s /\
  step s (QRestore false 0) = Some (0, s1) /\ step s1 (QGet false 2) = Some (0, s2) /\ (exists x, nth_error (qs s2) 1 = Some x /\ q_wr x = false /\ q_held x = 1) /\ writing s2 1 = 1 /\ reading s2 1 = 1.
Proof. eexists _, _, _. split; [vm_compute; reflexivity|]. split; [vm_compute; reflexivity|]. split; [vm_compute; reflexivity|]. split; [eexists; split; [reflexivity|]; split; reflexivity|]. split; reflexivity. Qed.
(** Finding: CeedQFunctionSetContext destroys the old context before it references the new one (ceed-qfunction.c:935-937): setting the context that the QFunction already has, after the client gave its own handle
    away, uses freed memory. *)
Theorem C69_same_refuted : exists s, run init [CNew true; QNew; QSet 0 (Some 0%nat); CDestroy 0] = Some s /\ (exists k, nth_error (cs s) 0 = Some k /\ k_live k = true) /\ step s (QSet 0 (Some 0%nat)) = None.
Proof. eexists. split; [vm_compute; reflexivity|]. split; [eexists; split; reflexivity|reflexivity]. Qed.
(** Finding: CeedQFunctionContextDestroy checks the write lock but not the readers (ceed-qfunctioncontext.c:935), so that the last destroy frees data that is being read, while it is refused when the data is being written. *)
Theorem C69_reader_refuted : (exists s s1, run init [CNew true; QNew; QWr 0 false; QSet 0 (Some 0%nat); CDestroy 0; QGet false 0] = Some s /\ step s (QDestroy 0) = Some (0, s1) /\ exists k, nth_error (cs s1) 0 = Some k /\ k_live k = false /\ k_rd k = 1) /\
  (exists s s1, run init [CNew true; QNew; QSet 0 (Some 0%nat); CDestroy 0; QGet false 0] = Some s /\ step s (QDestroy 0) = Some (1, s1) /\ exists k, nth_error (cs s1) 0 = Some k /\ k_live k = true).
Proof. split; (eexists _, _; split; [vm_compute; reflexivity|]; split; [vm_compute; reflexivity|]; eexists; repeat split). Qed.

Print Assumptions C69_defined.
Print Assumptions C69_locks.
Print Assumptions C69_get.
Print Assumptions C69_direct.
Print Assumptions C69_count.
Print Assumptions C69_settings.
Print Assumptions C69_refused_refuted.
Print Assumptions C69_writable_refuted.
Print Assumptions C69_replaced_refuted.
Print Assumptions C69_same_refuted.
Print Assumptions C69_reader_refuted.
