(** * What success of CeedQFunctionApply on the memcheck backend guarantees, from any state *)
From Coq Require Import List ZArith Lia Bool Arith.
From Verif Require Import Prelude RstrModel BasisModel StrModel QfModel VecModel VecProofs McModel MqModel.
Import ListNotations.
Set Implicit Arguments.
Local Open Scope Z_scope.

(** the writes of the user's function, first to last: entry [j] of vector [v], through [out[i]] ([true]) or [in[i]],
    and the context data *)
Inductive entry (R : Rng) (D : Type) := LVec (out : bool) (v j : nat) (a : R) | LCtx (d : D).
Arguments LVec {R D}. Arguments LCtx {R D}.
Section L.
Variable R : Rng.
Variable D : Type.
Section M.
Variables (W K : Type) (vstep : cmd R -> W -> option ((obs R + Z) * W)) (vpoke : nat -> nat -> R -> W -> option W).
Variables (kread : bool -> K -> option D) (kwrite : bool -> D -> K -> option K).
Fixpoint flog (U V : list nat) (x : option (nat * bool)) (p : prog R D) (c : conf W K) : list (entry R D) :=
  match p with
  | Ret rc => []
  | RdIn i j k => match nth_error U i with
                  | Some v => match vstep (VRead v j) (cf_w c) with Some (inl (OVal a), w) => flog U V x (k a) (cw c w) | _ => [] end
                  | None => []
                  end
  | RdOut i j k => match nth_error V i with
                   | Some v => match vstep (VReadW v j) (cf_w c) with Some (inl (OVal a), w) => flog U V x (k a) (cw c w) | _ => [] end
                   | None => []
                   end
  | WrOut i j a p => match nth_error V i with
                     | Some v => match vstep (VWrite v j a) (cf_w c) with Some (inl _, w) => LVec true v j a :: flog U V x p (cw c w) | _ => [] end
                     | None => []
                     end
  | WrIn i j a p => match nth_error U i with
                    | Some v => match vpoke v j a (cf_w c) with Some w => LVec false v j a :: flog U V x p (cw c w) | None => [] end
                    | None => []
                    end
  | RdCtx k => match x with
               | Some (n, wr) => match cf_k c n with
                                 | Some kk => match kread wr kk with Some d => flog U V x (k d) c | None => [] end
                                 | None => []
                                 end
               | None => []
               end
  | WrCtx d p => match x with
                 | Some (n, wr) => match cf_k c n with
                                   | Some kk => match kwrite wr d kk with Some kk => LCtx d :: flog U V x p (ck c n kk) | None => [] end
                                   | None => []
                                   end
                 | None => []
                 end
  end.
End M.
(** the last value written to an entry, to the context *)
Fixpoint lastw (out : bool) (v j : nat) (l : list (entry R D)) : option R :=
  match l with
  | [] => None
  | e :: l => match lastw out v j l with
              | Some a => Some a
              | None => match e with
                        | LVec o u i a => if (Bool.eqb o out && Nat.eqb u v && Nat.eqb i j)%bool then Some a else None
                        | LCtx _ => None
                        end
              end
  end.
Fixpoint lastc (l : list (entry R D)) : option D :=
  match l with [] => None | e :: l => match lastc l with Some d => Some d | None => match e with LCtx d => Some d | LVec _ _ _ _ => None end end end.
End L.

Section P.
Variable R : Rng.
Variable D : Type.
Variables (fs : fsys) (roots : list str) (nan : R) (isnan : R -> bool) (eqs : R -> R -> bool) (eqd : D -> D -> bool).
Variables (fabs : R -> R) (gtb : R -> R -> bool) (sqrt : R -> R) (big : R -> bool) (inv : R -> R).
Hypothesis nan_nan : isnan nan = true.
Notation mv := (mv nan eqs fabs gtb sqrt big inv).
Notation mpoke := (mpoke nan eqs fabs gtb sqrt big inv).
Notation mworld := (mworld R). Notation mvec := (mvec R). Notation kctx := (kctx D).
Notation conf := (conf mworld kctx).
Notation frun := (frun mv mpoke (@kc_read D) (@kc_write D)).
Notation flog := (flog mv mpoke (@kc_read D) (@kc_write D)).
Notation vloop := (@vloop R _ kctx mv).

(** ** Single calls *)
Lemma getread_inv : forall u w o w', mv (CGetRead u true) w = Some (inl o, w') ->
  exists x x', w_mv w u = Some x /\ (forall t, w_mv w' t = if Nat.eqb t u then Some x' else w_mv w t) /\
    m_len x' = m_len x /\ m_readers x' = add64 (m_readers x) 1 /\ m_alloc x' = m_alloc x /\ m_wr x' = m_wr x /\ (m_len x = O -> m_ro x' = m_ro x) /\
    (m_len x <> O -> exists l, m_ro x' = Some l /\ match m_ro x with Some l0 => l = l0 | None => exists la, m_alloc x = Some la /\ (m_len x <= length la)%nat /\ l = firstn (m_len x) la end).
Proof.
  intros u w o w' H. unfold MqModel.mv in H. simpl in H. unfold after, mi_get_read, mlive in H. destruct (w_mv w u) as [x|] eqn:E; [|discriminate]. simpl in H.
  destruct (mbusy x); [discriminate|]. destruct (negb (mvalid x)); [discriminate|]. unfold lift in H. unfold empty in H.
  destruct (Nat.eqb_spec (m_len x) 0) as [L|L].
  - simpl in H. unfold nupd in H. rewrite Nat.eqb_refl in H. inversion H; subst. eexists. eexists. split; [reflexivity|]. split. { intro t. simpl. unfold nupd. destruct (Nat.eqb t u); reflexivity. } simpl. repeat split. contradiction.
  - unfold get_read_mc in H. simpl in H. destruct (m_ro x) as [l0|] eqn:RO.
    + simpl in H. unfold nupd in H. rewrite Nat.eqb_refl in H. inversion H; subst. eexists. eexists. split; [reflexivity|]. split. { intro t. simpl. unfold nupd. destruct (Nat.eqb t u); reflexivity. } simpl. repeat split. intros _. rewrite RO. eauto.
    + destruct (m_alloc x) as [la|] eqn:AL; [|discriminate]. unfold cpy in H. destruct (Nat.leb_spec (m_len x) (length la)); [|discriminate].
      simpl in H. unfold nupd in H. rewrite Nat.eqb_refl in H. inversion H; subst. eexists. eexists. split; [reflexivity|]. split. { intro t. simpl. unfold nupd. destruct (Nat.eqb t u); reflexivity. } simpl. repeat split; auto. { intro; contradiction. } intros _. rewrite RO. eauto 6.
Qed.
Lemma ensure_inv : forall (x : mvec) h x' h', ensure_mc nan x h = BOk x' h' -> m_len x' = m_len x /\ m_readers x' = m_readers x /\ m_state x' = m_state x /\ (exists la, m_alloc x' = Some la).
Proof.
  intros x h x' h' H. unfold ensure_mc in H. destruct (m_alloc x) eqn:A. { inversion H; subst. eauto. }
  unfold set_array_mc in H. simpl in H. inversion H; subst. simpl. eauto.
Qed.
Lemma getwrite_inv : forall v w o w', mv (CGetWrite v true) w = Some (inl o, w') ->
  exists x x', w_mv w v = Some x /\ mlocked x = false /\ (forall t, w_mv w' t = if Nat.eqb t v then Some x' else w_mv w t) /\
    m_len x' = m_len x /\ m_readers x' = m_readers x /\ m_state x' = add64 (m_state x) 1 /\ (m_len x <> O -> m_wr x' = Some (repeat nan (m_len x))) /\ (m_len x = O -> m_wr x' = m_wr x /\ m_ro x' = m_ro x).
Proof.
  intros v w o w' H. unfold MqModel.mv in H. simpl in H. unfold after, mi_get_write, mlive in H. destruct (w_mv w v) as [x|] eqn:E; [|discriminate]. simpl in H.
  destruct (mlocked x) eqn:LK; [discriminate|]. unfold lift in H. unfold empty in H.
  destruct (Nat.eqb_spec (m_len x) 0) as [L|L].
  - simpl in H. unfold nupd in H. rewrite Nat.eqb_refl in H. inversion H; subst. eexists. eexists. split; [reflexivity|]. split; [auto|]. split. { intro t. simpl. unfold nupd. destruct (Nat.eqb t v); reflexivity. } simpl. repeat split. contradiction.
  - unfold get_write_mc in H. simpl in H. destruct (ensure_mc nan x (w_mh w)) as [x1 h1|e x1 h1|] eqn:EN; simpl in H; try discriminate.
    destruct (ensure_inv _ _ EN) as (L1 & R1 & S1 & la & A1). unfold get_mc in H. simpl in H. rewrite A1 in H. destruct (cpy (m_len x1) la); [|discriminate].
    simpl in H. unfold nupd in H. rewrite Nat.eqb_refl in H. inversion H; subst. eexists. eexists. split; [reflexivity|]. split; [auto|]. split. { intro t. simpl. unfold nupd. destruct (Nat.eqb t v); reflexivity. } simpl. rewrite L1, R1, S1. repeat split; contradiction.
Qed.
Lemma restoreread_inv : forall u w o w', mv (CRestoreRead u) w = Some (inl o, w') ->
  exists x x', w_mv w u = Some x /\ 0 < m_readers x /\ (forall t, w_mv w' t = if Nat.eqb t u then Some x' else w_mv w t) /\
    m_len x' = m_len x /\ m_readers x' = add64 (m_readers x) (-1) /\ m_alloc x' = m_alloc x /\
    (m_readers x' <> 0 -> m_ro x' = m_ro x) /\
    (m_readers x' = 0 -> m_len x <> O -> exists la lr, m_alloc x = Some la /\ m_ro x = Some lr /\ same eqs (m_len x) la lr = Some true).
Proof.
  intros v w o w' H. unfold MqModel.mv in H. simpl in H. unfold after, mi_restore_read, mlive in H. destruct (w_mv w v) as [x|] eqn:E; [|discriminate]. simpl in H.
  destruct (Z.ltb_spec 0 (m_readers x)) as [P|]; [|discriminate]. unfold lift, empty in H. simpl in H.
  destruct (Nat.eqb_spec (m_len x) 0) as [L|L]; simpl in H.
  - unfold nupd in H. rewrite Nat.eqb_refl in H. inversion H; subst. eexists. eexists. split; [reflexivity|]. split; [auto|]. split. { intro t. simpl. unfold nupd. destruct (Nat.eqb t v); reflexivity. } simpl. repeat split. contradiction.
  - destruct (Z.eqb_spec (add64 (m_readers x) (-1)) 0) as [Z0|Z0].
    + unfold restore_read_mc in H. simpl in H. destruct (m_alloc x) as [la|] eqn:AL; [|discriminate]. destruct (m_ro x) as [lr|] eqn:RO; [|discriminate].
      destruct (same eqs (m_len x) la lr) as [[|]|] eqn:SM; try discriminate. simpl in H.
      unfold nupd in H. rewrite Nat.eqb_refl in H. inversion H; subst. eexists. eexists. split; [reflexivity|]. split; [auto|]. split. { intro t. simpl. unfold nupd. destruct (Nat.eqb t v); reflexivity. } simpl. repeat split; auto. { contradiction. } { intros _ _. eauto. }
    + simpl in H. unfold nupd in H. rewrite Nat.eqb_refl in H. inversion H; subst. eexists. eexists. split; [reflexivity|]. split; [auto|]. split. { intro t. simpl. unfold nupd. destruct (Nat.eqb t v); reflexivity. } simpl. repeat split; auto. contradiction.
Qed.
Lemma sync_inv : forall (x : mvec) h x' h', sync_mc x h true = BOk x' h' -> x' = x.
Proof.
  intros x h x' h' H. unfold sync_mc in H. simpl in H. destruct (match m_owned x with Some k => cpy_out h k (m_len x) (m_alloc x) | None => Some h end); [|discriminate].
  destruct (match m_borrowed x with Some k => cpy_out _ k (m_len x) (m_alloc x) | None => Some _ end); [|discriminate]. inversion H. auto.
Qed.
Lemma restore_inv : forall v w o w', mv (CRestore v) w = Some (inl o, w') ->
  exists x x', w_mv w v = Some x /\ mbusy x = true /\ (forall t, w_mv w' t = if Nat.eqb t v then Some x' else w_mv w t) /\
    m_len x' = m_len x /\ m_readers x' = m_readers x /\ m_state x' = add64 (m_state x) 1 /\
    (m_len x <> O -> exists la lw, m_wr x = Some lw /\ m_alloc x' = Some (firstn (m_len x) lw ++ la) /\ (m_len x <= length lw)%nat).
Proof.
  intros v w o w' H. unfold MqModel.mv in H. simpl in H. unfold after, mi_restore, mlive in H. destruct (w_mv w v) as [x|] eqn:E; [|discriminate]. simpl in H.
  destruct (mbusy x) eqn:BZ; [|discriminate]. unfold lift, empty in H. simpl in H.
  destruct (Nat.eqb_spec (m_len x) 0) as [L|L]; simpl in H.
  - unfold nupd in H. rewrite Nat.eqb_refl in H. inversion H; subst. eexists. eexists. split; [reflexivity|]. split; [auto|]. split. { intro t. simpl. unfold nupd. destruct (Nat.eqb t v); reflexivity. } simpl. repeat split. contradiction.
  - unfold restore_mc in H. destruct (m_alloc x) as [la|] eqn:AL; [|discriminate]. destruct (m_wr x) as [lw|] eqn:WR; [|discriminate].
    destruct (Nat.leb_spec (m_len x) (length la)) as [L1|]; [|discriminate]. destruct (Nat.leb_spec (m_len x) (length lw)) as [L2|]; [|discriminate]. simpl in H.
    match type of H with context [sync_mc ?a ?b true] => destruct (sync_mc a b true) as [x2 h2|e x2 h2|] eqn:SY end; simpl in H; try discriminate.
    apply sync_inv in SY. subst x2. simpl in H. unfold nupd in H. rewrite Nat.eqb_refl in H. inversion H; subst. eexists. eexists. split; [reflexivity|]. split; [auto|]. split. { intro t. simpl. unfold nupd. destruct (Nat.eqb t v); reflexivity. } simpl. repeat split. intros _. eauto.
Qed.

(** ** The user's function *)
Definition kept (f : nat -> option R) (o o1 : option (list R)) : Prop :=
  match o, o1 with
  | Some l, Some l1 => length l1 = length l /\ forall j, nth_error l1 j = match f j with Some b => Some b | None => nth_error l j end
  | None, None => forall j, f j = None
  | _, _ => False
  end.
Lemma kept_refl : forall f o, (forall j, f j = None) -> kept f o o.
Proof. intros f [l|] H; simpl; auto. split; auto. intro j. rewrite H. auto. Qed.
Lemma kept_trans : forall f g h o o1 o2, kept f o o1 -> kept g o1 o2 -> (forall j, h j = match g j with Some b => Some b | None => f j end) -> kept h o o2.
Proof.
  intros f g h [l|] [l1|] [l2|] A B H; simpl in *; try contradiction. { destruct A as (A0 & A), B as (B0 & B). split; [congruence|]. intro j. rewrite B, H. destruct (g j); auto. } intro j. rewrite H, B. auto.
Qed.
Lemma upd_nth : forall (l : list R) i a j, (i < length l)%nat -> nth_error (upd l i a) j = if Nat.eqb i j then Some a else nth_error l j.
Proof.
  induction l as [|b l IH]; intros i a j L; simpl in L; [lia|]. destruct i as [|i], j as [|j]; simpl; auto. apply IH. lia.
Qed.
Lemma poke_kept : forall p o i a l, poke p o i a = Some l -> kept (fun j => if Nat.eqb i j then Some a else None) o (Some l).
Proof.
  intros p o i a l H. unfold poke in H. destruct p; [|discriminate]. destruct o as [l0|]; [|discriminate]. apply set_inv in H. destruct H as (L & ->). simpl. split; [apply upd_length|]. intro j. rewrite upd_nth by auto. destruct (Nat.eqb i j); auto.
Qed.
Definition tracked (log : list (entry R D)) (v : nat) (y y1 : mvec) : Prop :=
  m_len y1 = m_len y /\ m_state y1 = m_state y /\ m_readers y1 = m_readers y /\ m_alloc y1 = m_alloc y /\
  kept (fun j => lastw true v j log) (m_wr y) (m_wr y1) /\ kept (fun j => lastw false v j log) (m_ro y) (m_ro y1).
Lemma tracked_nil : forall v y, tracked [] v y y.
Proof. intros v y. repeat split; apply kept_refl; auto. Qed.
Lemma tracked_cons : forall e log v y y1 y2, tracked [e] v y y1 -> tracked log v y1 y2 -> tracked (e :: log) v y y2.
Proof.
  intros e log v y y1 y2 (A1 & A2 & A3 & A4 & A5 & A6) (B1 & B2 & B3 & B4 & B5 & B6). repeat split; try congruence.
  - eapply kept_trans; [exact A5|exact B5|]. intro j. simpl. destruct (lastw true v j log); auto.
  - eapply kept_trans; [exact A6|exact B6|]. intro j. simpl. destruct (lastw false v j log); auto.
Qed.
Lemma track : forall U V x p c rc c1, frun U V x p c = Some (rc, c1) -> forall v y, w_mv (cf_w c) v = Some y ->
  exists y1, w_mv (cf_w c1) v = Some y1 /\ tracked (flog U V x p c) v y y1.
Proof.
  intros U V x p. induction p as [rc0|i j k IH|i j k IH|i j a p IH|i j a p IH|k IH|d p IH]; intros c rc c1 B v y Y; simpl in B |- *.
  - inversion B; subst. exists y. split; auto. apply tracked_nil.
  - destruct (nth_error U i) as [u|]; [|discriminate]. destruct (mv (VRead u j) (cf_w c)) as [[[o|e] w]|] eqn:E; try discriminate. destruct o as [|a| |]; try discriminate.
    assert (w = cf_w c). { unfold MqModel.mv in E. simpl in E. unfold mlive in E. destruct (w_mv (cf_w c) u) as [z|]; [|discriminate]. destruct (peek (m_rp z) (m_ro z) j); inversion E; auto. } subst w. eapply IH; eauto.
  - destruct (nth_error V i) as [u|]; [|discriminate]. destruct (mv (VReadW u j) (cf_w c)) as [[[o|e] w]|] eqn:E; try discriminate. destruct o as [|a| |]; try discriminate.
    assert (w = cf_w c). { unfold MqModel.mv in E. simpl in E. unfold mlive in E. destruct (w_mv (cf_w c) u) as [z|]; [|discriminate]. destruct (peek (m_wp z) (m_wr z) j); inversion E; auto. } subst w. eapply IH; eauto.
  - destruct (nth_error V i) as [u|]; [|discriminate]. destruct (mv (VWrite u j a) (cf_w c)) as [[[o|e] w]|] eqn:E; try discriminate.
    assert (Q : exists z l, w_mv (cf_w c) u = Some z /\ poke (m_wp z) (m_wr z) j a = Some l /\ w = putm (cf_w c) u (mc_wr z (Some l) (m_wo z)) (w_mh (cf_w c))).
    { unfold MqModel.mv in E. simpl in E. unfold mlive in E. destruct (w_mv (cf_w c) u) as [z|]; [|discriminate]. destruct (poke (m_wp z) (m_wr z) j a) as [l|] eqn:PK; inversion E; eauto 6. }
    destruct Q as (z & l & Z1 & PK & ->).
    assert (Q : exists y1, w_mv (putm (cf_w c) u (mc_wr z (Some l) (m_wo z)) (w_mh (cf_w c))) v = Some y1 /\ tracked [LVec true u j a] v y y1).
    { simpl. unfold nupd. destruct (Nat.eqb_spec v u).
      - subst. rewrite Y in Z1. inversion Z1; subst. eexists. split; [reflexivity|]. repeat split.
        + simpl. eapply kept_trans with (g := fun _ => None); [eapply poke_kept; eauto|apply kept_refl; auto|]. intro t. rewrite Nat.eqb_refl. reflexivity.
        + simpl. apply kept_refl. auto.
      - exists y. split; auto. repeat split; apply kept_refl; intro t; simpl; auto. destruct (Nat.eqb_spec u v); [congruence|]. auto. }
    destruct Q as (y1 & Y1 & T1). destruct (IH _ _ _ B v y1 Y1) as (y2 & Y2 & T2). exists y2. split; auto. eapply tracked_cons; eauto.
  - destruct (nth_error U i) as [u|]; [|discriminate]. destruct (mpoke u j a (cf_w c)) as [w|] eqn:E; try discriminate.
    assert (Q : exists z l, w_mv (cf_w c) u = Some z /\ poke (m_rp z) (m_ro z) j a = Some l /\ w = putm (cf_w c) u (mc_ro z (Some l)) (w_mh (cf_w c))).
    { unfold MqModel.mpoke in E. simpl in E. unfold mlive in E. destruct (w_mv (cf_w c) u) as [z|]; [|discriminate]. destruct (poke (m_rp z) (m_ro z) j a) as [l|] eqn:PK; inversion E; eauto 6. }
    destruct Q as (z & l & Z1 & PK & ->).
    assert (Q : exists y1, w_mv (putm (cf_w c) u (mc_ro z (Some l)) (w_mh (cf_w c))) v = Some y1 /\ tracked [LVec false u j a] v y y1).
    { simpl. unfold nupd. destruct (Nat.eqb_spec v u).
      - subst. rewrite Y in Z1. inversion Z1; subst. eexists. split; [reflexivity|]. repeat split.
        + simpl. apply kept_refl. auto.
        + simpl. eapply kept_trans with (g := fun _ => None); [eapply poke_kept; eauto|apply kept_refl; auto|]. intro t. rewrite Nat.eqb_refl. reflexivity.
      - exists y. split; auto. repeat split; apply kept_refl; intro t; simpl; auto. destruct (Nat.eqb_spec u v); [congruence|]. auto. }
    destruct Q as (y1 & Y1 & T1). destruct (IH _ _ _ B v y1 Y1) as (y2 & Y2 & T2). exists y2. split; auto. eapply tracked_cons; eauto.
  - destruct x as [(n, wr)|]; [|discriminate]. destruct (cf_k c n) as [kk|]; [|discriminate]. destruct (kc_read wr kk); [|discriminate]. eapply IH; eauto.
  - destruct x as [(n, wr)|]; [|discriminate]. destruct (cf_k c n) as [kk|]; [|discriminate]. destruct (kc_write wr d kk) as [k1|]; [|discriminate].
    destruct (IH _ _ _ B v y Y) as (y2 & Y2 & T2). exists y2. split; auto. eapply tracked_cons; [|exact T2]. repeat split; apply kept_refl; auto.
Qed.
Lemma kept_bound : forall f l l1 j b, kept f (Some l) (Some l1) -> f j = Some b -> (j < length l)%nat.
Proof. intros f l l1 j b (L & H) F. specialize (H j). rewrite F in H. rewrite <- L. apply nth_error_Some. congruence. Qed.
(** the context during the function *)
Lemma track_ctx : forall U V n p c rc c1 kk, frun U V (Some (n, false)) p c = Some (rc, c1) -> cf_k c n = Some kk ->
  exists k1, cf_k c1 n = Some k1 /\ kc_data k1 = kc_data kk /\ kc_readers k1 = kc_readers kk /\
    kc_ro k1 = match lastc (flog U V (Some (n, false)) p c) with Some d => Some d | None => kc_ro kk end.
Proof.
  intros U V n p. induction p as [rc0|i j k IH|i j k IH|i j a p IH|i j a p IH|k IH|d p IH]; intros c rc c1 kk B E; simpl in B |- *.
  - inversion B; subst. eauto.
  - destruct (nth_error U i) as [u|]; [|discriminate]. destruct (mv (VRead u j) (cf_w c)) as [[[o|e] w]|]; try discriminate. destruct o as [|a| |]; try discriminate. eapply IH; eauto.
  - destruct (nth_error V i) as [u|]; [|discriminate]. destruct (mv (VReadW u j) (cf_w c)) as [[[o|e] w]|]; try discriminate. destruct o as [|a| |]; try discriminate. eapply IH; eauto.
  - destruct (nth_error V i) as [u|]; [|discriminate]. destruct (mv (VWrite u j a) (cf_w c)) as [[[o|e] w]|]; try discriminate.
    destruct (IH _ _ _ kk B E) as (k1 & A1 & A2 & A3 & A4). exists k1. simpl. rewrite A4. repeat split; auto. destruct (lastc _); auto.
  - destruct (nth_error U i) as [u|]; [|discriminate]. destruct (mpoke u j a (cf_w c)) as [w|]; try discriminate.
    destruct (IH _ _ _ kk B E) as (k1 & A1 & A2 & A3 & A4). exists k1. simpl. rewrite A4. repeat split; auto. destruct (lastc _); auto.
  - rewrite E in B |- *. unfold kc_read in B |- *; destruct (kc_ro kk) as [d|] eqn:RO; [|discriminate]. rewrite <- RO. eapply IH; eauto.
  - rewrite E in B |- *. unfold kc_write in B |- *. destruct (kc_ro kk) eqn:RO; [|discriminate].
    edestruct IH as (k1 & A1 & A2 & A3 & A4); [exact B|simpl; unfold nupd; rewrite Nat.eqb_refl; reflexivity|].
    exists k1. simpl in *. rewrite A4. repeat split; auto. destruct (lastc _); auto.
Qed.

(** ** The loops *)
Lemma vcall_inv : forall x (c c1 : conf), vcall mv x c = QOk c1 -> exists o w, mv x (cf_w c) = Some (inl o, w) /\ c1 = cw c w.
Proof. intros x c c1 H. unfold vcall in H. destruct (mv x (cf_w c)) as [[[o|e] w]|]; inversion H; eauto. Qed.
Lemma qthen_inv : forall W K (m : qout W K) k c1, qthen m k = QOk c1 -> exists c, m = QOk c /\ k c = QOk c1.
Proof. intros W K [c|e c|] k c1 H; simpl in H; try discriminate. eauto. Qed.
Lemma vloop_k : forall f l (c c1 : conf), vloop f l c = QOk c1 -> cf_k c1 = cf_k c.
Proof.
  induction l as [|v l IH]; intros c c1 H; simpl in H; [inversion H; auto|]. apply qthen_inv in H. destruct H as (c2 & A & B).
  apply vcall_inv in A. destruct A as (o & w & _ & ->). apply IH in B. auto.
Qed.
(** write access: all entries are NaN, nobody reads *)
Lemma getwrites : forall V (c c1 : conf), vloop (fun v => CGetWrite v true) V c = QOk c1 ->
  (forall t x, w_mv (cf_w c) t = Some x -> m_readers x <> 0 -> w_mv (cf_w c1) t = Some x) /\
  (forall t x, w_mv (cf_w c) t = Some x -> mbusy x = true -> w_mv (cf_w c1) t = Some x) /\
  (forall v, In v V -> exists x, w_mv (cf_w c) v = Some x /\ mlocked x = false) /\ NoDup V /\
  forall v, In v V -> exists x, w_mv (cf_w c1) v = Some x /\ mbusy x = true /\ m_readers x = 0 /\ (m_len x <> O -> m_wr x = Some (repeat nan (m_len x))).
Proof.
  induction V as [|v V IH]; intros c c1 H; simpl in H.
  - inversion H; subst. repeat split; auto; try constructor; contradiction.
  - apply qthen_inv in H. destruct H as (c2 & A & B). apply vcall_inv in A. destruct A as (o & w & E & ->).
    destruct (getwrite_inv _ _ E) as (x & x' & X & LK & S & L' & R' & S' & W' & _).
    destruct (IH _ _ B) as (I1 & I2 & I3 & I4 & I5). simpl in *.
    pose proof LK as LK0. unfold mlocked in LK. apply orb_false_iff in LK. destruct LK as (BZ & RD). apply negb_false_iff, Z.eqb_eq in RD.
    assert (BX : mbusy x' = true).
    { unfold mbusy in *. rewrite S'. unfold add64. rewrite even_mod. apply negb_false_iff in BZ. unfold even in *. apply Z.eqb_eq in BZ. apply negb_true_iff, Z.eqb_neq. rewrite Z.add_mod by lia. rewrite BZ. vm_compute. discriminate. }
    assert (NI : ~ In v V). { intro I. destruct (I3 v I) as (z & Z1 & Z2). rewrite S, Nat.eqb_refl in Z1. inversion Z1; subst. unfold mlocked in Z2. rewrite BX in Z2. discriminate. }
    split; [|split; [|split; [|split]]].
    + intros t z Z1 Z2. apply I1; auto. rewrite S. destruct (Nat.eqb_spec t v); subst; auto. congruence.
    + intros t z Z1 Z2. apply I2; auto. rewrite S. destruct (Nat.eqb_spec t v); subst; auto. congruence.
    + intros u [<-|I]; eauto. destruct (I3 u I) as (z & Z1 & Z2). rewrite S in Z1. destruct (Nat.eqb_spec u v); subst; [contradiction|]. eauto.
    + constructor; auto.
    + intros u [<-|I]; [|apply I5; auto]. exists x'. split; [apply I2; auto; rewrite S, Nat.eqb_refl; auto|]. split; auto. split; [congruence|]. rewrite L'. auto.
Qed.
(** giving back the inputs leaves vectors nobody reads alone *)
Lemma restorereads_other : forall U (c c1 : conf), vloop CRestoreRead U c = QOk c1 -> forall t x, w_mv (cf_w c) t = Some x -> m_readers x = 0 -> w_mv (cf_w c1) t = Some x.
Proof.
  induction U as [|u U IH]; intros c c1 H t x X Z0; simpl in H; [inversion H; subst; auto|]. apply qthen_inv in H. destruct H as (c2 & A & B). apply vcall_inv in A. destruct A as (o & w & E & ->).
  destruct (restoreread_inv _ _ E) as (z & z' & Z1 & P & S & _). eapply IH; eauto. simpl. rewrite S. destruct (Nat.eqb_spec t u); subst; auto. rewrite X in Z1. inversion Z1; subst. lia.
Qed.
Lemma scan_inv : forall v js (c c1 : conf) x, scan mv isnan v js c = QOk c1 -> w_mv (cf_w c) v = Some x ->
  cf_w c1 = cf_w c /\ cf_k c1 = cf_k c /\ forall j, In j js -> exists l a, m_wr x = Some l /\ nth_error l j = Some a /\ isnan a = false.
Proof.
  induction js as [|j js IH]; intros c c1 x H X; simpl in H. { inversion H; subst. repeat split; auto. contradiction. }
  destruct (mv (VReadW v j) (cf_w c)) as [[[o|e] w]|] eqn:E; try discriminate. destruct o as [|a| |]; try discriminate. destruct (isnan a) eqn:NA; [discriminate|].
  unfold MqModel.mv in E. simpl in E. unfold mlive in E. rewrite X in E. destruct (peek (m_wp x) (m_wr x) j) as [b|] eqn:PK; inversion E; subst.
  destruct (IH (cw c (cf_w c)) _ _ H X) as (A & A2 & B). split; auto. split; auto. intros i [<-|I]; auto. unfold peek in PK. destruct (m_wp x); [|discriminate]. destruct (m_wr x) as [l|]; [|discriminate]. eauto.
Qed.
Definition written (x x2 : mvec) (n : nat) : Prop :=
  m_len x2 = m_len x /\ m_readers x2 = m_readers x /\ m_state x2 = add64 (m_state x) 1 /\
  forall j, (j < n)%nat -> exists l a la, m_wr x = Some l /\ nth_error l j = Some a /\ isnan a = false /\ m_alloc x2 = Some la /\
    ((j < m_len x)%nat -> nth_error la j = Some a /\ (m_len x <= length la)%nat).
Lemma outloop_inv : forall Q l (c c1 : conf), outloop mv isnan Q l c = QOk c1 -> NoDup (map fst l) ->
  cf_k c1 = cf_k c /\ (forall t, ~ In t (map fst l) -> w_mv (cf_w c1) t = w_mv (cf_w c) t) /\
  forall v z, In (v, z) l -> exists x x2, w_mv (cf_w c) v = Some x /\ w_mv (cf_w c1) v = Some x2 /\ (m_len x <> O -> written x x2 (Z.to_nat (z * Q))) /\ mbusy x = true /\
    (m_len x = O -> forall j, (j < Z.to_nat (z * Q))%nat -> exists l, m_wr x = Some l).
Proof.
  intros Q l. induction l as [|(v, z) l IH]; intros c c1 H N; simpl in H. { inversion H; subst. repeat split; auto; contradiction. }
  apply qthen_inv in H. destruct H as (c2 & A & H). apply qthen_inv in H. destruct H as (c3 & B & H). inversion N; subst.
  apply vcall_inv in B. destruct B as (o & w & E & ->). destruct (restore_inv _ _ E) as (x & x' & X & BZ & S & L' & R' & S' & W').
  destruct (w_mv (cf_w c) v) as [x0|] eqn:X0.
  2: { exfalso. destruct (seq 0 (Z.to_nat (z * Q))) as [|j js]; simpl in A. { inversion A; subst. congruence. } unfold MqModel.mv in A. simpl in A. unfold mlive in A. rewrite X0 in A. discriminate. }
  destruct (scan_inv _ _ _ A X0) as (EW & EK & SC). rewrite EW in X. rewrite X0 in X. inversion X; subst x0. clear X.
  destruct (IH _ _ H) as (K1 & O1 & V1); auto. simpl in *.
  split; [congruence|]. split.
  - intros t NT. rewrite O1 by tauto. rewrite S. destruct (Nat.eqb_spec t v); [subst; tauto|]. rewrite EW. auto.
  - intros u y [F|I].
    + inversion F; subst u y. exists x, x'. split; auto. split. { rewrite O1 by auto. rewrite S, Nat.eqb_refl. auto. } split; [|split; auto].
      * intro LN. split; auto. split; auto. split; auto. intros j J. destruct (SC j) as (l0 & a & W0 & N0 & I0). { apply in_seq. lia. }
        destruct (W' LN) as (la & lw & W1 & A1 & LL). assert (lw = l0) by congruence. subst lw. exists l0, a, (firstn (m_len x) l0 ++ la). split; auto. split; auto. split; auto. split; auto. intro LJ.
        split; [|rewrite app_length, firstn_length; lia]. rewrite nth_error_app1 by (rewrite firstn_length; lia).
        rewrite <- N0. clear -LJ LL. revert j l0 LJ LL. induction (m_len x) as [|n IHn]; intros j l0 LJ LL; [lia|]. destruct l0 as [|b l0]; simpl in *; [lia|]. destruct j; simpl; auto. apply IHn; lia.
      * intros _ j J. destruct (SC j) as (l0 & a & W0 & _). { apply in_seq. lia. } eauto.
    + destruct (V1 _ _ I) as (y1 & y2 & Y1 & Y2 & Y). exists y1, y2. rewrite S in Y1. destruct (Nat.eqb_spec u v); [|rewrite EW in Y1; auto].
      subst. exfalso. apply H2. change v with (fst (v, y)). apply in_map. auto.
Qed.

(** ** The inputs *)
Notation count u U := (Z.of_nat (count_occ Nat.eq_dec U u)).
Lemma getreads : forall U (c c1 : conf), vloop (fun v => CGetRead v true) U c = QOk c1 -> forall u x, w_mv (cf_w c) u = Some x ->
  0 <= m_readers x -> m_readers x + count u U < two64 ->
  exists x1, w_mv (cf_w c1) u = Some x1 /\ m_len x1 = m_len x /\ m_alloc x1 = m_alloc x /\ m_readers x1 = m_readers x + count u U /\
    (m_len x = O -> m_ro x = None -> m_ro x1 = None) /\
    (m_len x <> O -> match m_ro x with
                     | Some l => m_ro x1 = Some l
                     | None => In u U -> exists la, m_alloc x = Some la /\ (m_len x <= length la)%nat /\ m_ro x1 = Some (firstn (m_len x) la)
                     end).
Proof.
  induction U as [|v U IH]; intros c c1 H u x X P L; simpl in H.
  - inversion H; subst. exists x. simpl. repeat split; auto; try lia. intros _. destruct (m_ro x); auto. contradiction.
  - apply qthen_inv in H. destruct H as (c2 & A & B). apply vcall_inv in A. destruct A as (o & w & E & ->).
    destruct (getread_inv _ _ E) as (y & y' & Y & S & L' & R' & A' & _ & RE & RO). simpl in L.
    destruct (Nat.eq_dec v u) as [->|NE].
    + rewrite X in Y. inversion Y; subst y. assert (R1 : m_readers y' = m_readers x + 1) by (rewrite R'; unfold add64; rewrite Z.mod_small; lia).
      assert (Y' : w_mv (cf_w (cw c w)) u = Some y') by (simpl; rewrite S, Nat.eqb_refl; auto).
      destruct (IH _ _ B u y' Y') as (x1 & X1 & B1 & B2 & B3 & B4 & B5); [lia|lia|]. exists x1. rewrite B1, B2, B3, L', A'. simpl. destruct (Nat.eq_dec u u); [|contradiction]. repeat split; auto; try lia.
      * intros L0 N0. apply B4; [congruence|]. rewrite RE; auto.
      * intro LN. destruct (RO LN) as (l & RO1 & RO2). rewrite L', A', RO1 in B5. specialize (B5 LN). destruct (m_ro x) as [l0|]; [congruence|]. intros _. destruct RO2 as (la & Q1 & Q2 & ->). eauto.
    + assert (Y' : w_mv (cf_w (cw c w)) u = Some x) by (simpl; rewrite S; destruct (Nat.eqb_spec u v); [congruence|auto]).
      destruct (Nat.eq_dec v u); [contradiction|].
      destruct (IH _ _ B u x Y') as (x1 & X1 & B1 & B2 & B3 & B4 & B5); auto. exists x1. simpl. destruct (Nat.eq_dec v u); [contradiction|]. repeat split; auto.
      intro LN. specialize (B5 LN). destruct (m_ro x); auto. intros [F|I]; [contradiction|auto].
Qed.
Lemma restorereads : forall U (c c1 : conf), vloop CRestoreRead U c = QOk c1 -> forall u x, w_mv (cf_w c) u = Some x ->
  In u U -> m_readers x = count u U -> count u U < two64 -> m_len x <> O -> exists la lr, m_alloc x = Some la /\ m_ro x = Some lr /\ same eqs (m_len x) la lr = Some true.
Proof.
  induction U as [|v U IH]; intros c c1 H u x X I P T L; simpl in H; [contradiction|].
  apply qthen_inv in H. destruct H as (c2 & A & B). apply vcall_inv in A. destruct A as (o & w & E & ->).
  destruct (restoreread_inv _ _ E) as (y & y' & Y & PY & S & L' & R' & A' & RO & RZ).
  destruct (Nat.eq_dec v u) as [->|NE].
  - rewrite X in Y. inversion Y; subst y. simpl in P, T. destruct (Nat.eq_dec u u); [|contradiction].
    assert (R1 : m_readers y' = count u U) by (rewrite R'; unfold add64; rewrite Z.mod_small; lia).
    destruct (Z.eq_dec (m_readers y') 0) as [Z0|Z0]; [apply RZ; auto|].
    destruct (IH _ _ B u y') as (la & lr & Q1 & Q2 & Q3); auto; try lia.
    { simpl. rewrite S, Nat.eqb_refl. auto. }
    { destruct (in_dec Nat.eq_dec u U); auto. exfalso. apply count_occ_not_In with (eq_dec := Nat.eq_dec) in n. lia. }
    exists la, lr. rewrite <- RO, <- A', <- L'; auto.
  - simpl in P, T. destruct (Nat.eq_dec v u); [contradiction|]. destruct I as [->|I]; [contradiction|].
    eapply (IH _ _ B u x); auto. simpl. rewrite S. destruct (Nat.eqb_spec u v); [congruence|auto].
Qed.
Lemma same_nth : forall n (a b : list R), same eqs n a b = Some true -> forall j x y, (j < n)%nat -> nth_error a j = Some x -> nth_error b j = Some y -> eqs x y = true.
Proof.
  induction n as [|n IH]; intros a b H j x y L A B; [lia|]. destruct a as [|a0 a], b as [|b0 b]; simpl in H; try discriminate. destruct (same eqs n a b) as [[|]|] eqn:S; try discriminate; inversion H as [H1]; rewrite H1.
  - rewrite andb_true_r in H1. destruct j; simpl in *; [congruence|]. eapply IH; eauto. lia.
  - rewrite andb_false_r in H1. discriminate.
Qed.

(** ** The whole call *)
(** everything before the user's function is called *)
Definition start (x : option (nat * bool)) (U V : list nat) (c : conf) : qout mworld kctx :=
  qthen (kopt x (@kc_get D) c) (fun c => qthen (vloop (fun v => CGetRead v true) U c) (fun c => vloop (fun v => CGetWrite v true) V c)).
(** entry [j] of a vector, in its private buffer *)
Definition value (c : conf) (v j : nat) : option R := match w_mv (cf_w c) v with Some x => match m_alloc x with Some l => nth_error l j | None => None end | None => None end.
Definition free (c : conf) (v : nat) : Prop := exists x, w_mv (cf_w c) v = Some x /\ mlocked x = false.
(** vectors without entries have no buffers *)
Definition sane (c : conf) : Prop := forall v x, w_mv (cf_w c) v = Some x -> m_len x = O -> m_wr x = None /\ m_ro x = None.
Lemma value_seen : forall c v j a, free c v -> value c v j = Some a -> (forall x, w_mv (cf_w c) v = Some x -> (j < m_len x)%nat /\ forall l, m_alloc x = Some l -> (m_len x <= length l)%nat) ->
  exists w1 w2, mv (CGet v true) (cf_w c) = Some (inl ODone, w1) /\ mv (VReadW v j) w1 = Some (inl (OVal a), w2).
Proof.
  intros c v j a (x & X & LK) V H. unfold value in V. rewrite X in V. destruct (m_alloc x) as [l|] eqn:AL; [|discriminate]. destruct (H x X) as (J & LL). specialize (LL l AL).
  unfold MqModel.mv. simpl. unfold after, mi_get, mlive. rewrite X. simpl. rewrite LK. unfold empty. destruct (Nat.eqb_spec (m_len x) 0); [lia|]. unfold mvalid. rewrite AL. simpl. rewrite orb_true_r. simpl.
  unfold get_mc. simpl. rewrite AL. unfold cpy. rewrite (proj2 (Nat.leb_le _ _) LL). simpl. unfold nupd. rewrite Nat.eqb_refl. eexists. eexists. split; [reflexivity|]. simpl. unfold nupd. rewrite Nat.eqb_refl. simpl.
  replace (nth_error (firstn (m_len x) l) j) with (Some a); [reflexivity|]. rewrite <- V. clear -J LL. revert j l J LL. induction (m_len x) as [|n IHn]; intros j l J LL; [lia|]. destruct l as [|b l]; simpl in *; [lia|]. destruct j; simpl; auto. apply IHn; lia.
Qed.

Lemma sane_r : forall U (c c1 : conf), vloop (fun v => CGetRead v true) U c = QOk c1 -> sane c -> sane c1.
Proof.
  induction U as [|v U IH]; intros c c1 H SN; simpl in H; [inversion H; subst; auto|]. apply qthen_inv in H. destruct H as (c2 & A & B). apply vcall_inv in A. destruct A as (o & w & E & ->).
  destruct (getread_inv _ _ E) as (y & y' & Y & S & L' & _ & _ & W' & RE & _). eapply IH; eauto. intros u x X L. simpl in X. rewrite S in X. destruct (Nat.eqb_spec u v); [|eapply SN; eauto].
  inversion X; subst. rewrite L' in L. rewrite W', RE by auto. eapply SN; eauto.
Qed.
Lemma sane_w : forall U (c c1 : conf), vloop (fun v => CGetWrite v true) U c = QOk c1 -> sane c -> sane c1.
Proof.
  induction U as [|v U IH]; intros c c1 H SN; simpl in H; [inversion H; subst; auto|]. apply qthen_inv in H. destruct H as (c2 & A & B). apply vcall_inv in A. destruct A as (o & w & E & ->).
  destruct (getwrite_inv _ _ E) as (y & y' & Y & _ & S & L' & _ & _ & _ & RE). eapply IH; eauto. intros u x X L. simpl in X. rewrite S in X. destruct (Nat.eqb_spec u v); [|eapply SN; eauto].
  inversion X; subst. rewrite L' in L. destruct (RE L) as (-> & ->). eapply SN; eauto.
Qed.
Lemma kopt_w : forall x f (c c1 : conf), kopt x f c = QOk c1 -> cf_w c1 = cf_w c.
Proof. intros [(n, wr)|] f c c1 H; simpl in H; [|inversion H; auto]. unfold kcall in H. destruct (cf_k c n) as [k|]; [|discriminate]. destruct (f wr k); inversion H; auto. Qed.
Notation mapply := (@mapply R D eqd fs roots nan isnan eqs fabs gtb sqrt big inv).
Lemma apply_inv : forall q x f Q U V c c1, mapply q x f Q U V c = QOk c1 ->
  let U' := firstn (length (q_in q)) U in let V' := firstn (length (q_out q)) V in
  exists c4 c5 c6 c7, start x U' V' c = QOk c4 /\ frun U' V' x f c4 = Some (0, c5) /\ vloop CRestoreRead U' c5 = QOk c6 /\
    outloop mv isnan Q (combine V' (map qf_size (q_out q))) c6 = QOk c7 /\ kopt x (kc_restore eqd) c7 = QOk c1 /\ length V' = length (q_out q).
Proof.
  intros q x f Q U V c c1 H U' V'. unfold MqModel.mapply, qf_apply in H. destruct (q_vlen q =? 0); [discriminate|]. destruct (negb (Z.rem Q (q_vlen q) =? 0)); [discriminate|].
  destruct (Nat.leb_spec (length (q_in q)) (length U)); [|discriminate]. destruct (Nat.leb_spec (length (q_out q)) (length V)); [|discriminate]. simpl in H. fold U' V' in H. unfold apply_mc in H.
  apply qthen_inv in H. destruct H as (c2 & A2 & H). apply qthen_inv in H. destruct H as (c3 & A3 & H). apply qthen_inv in H. destruct H as (c4 & A4 & H). apply qthen_inv in H. destruct H as (c5 & A5 & H).
  apply qthen_inv in H. destruct H as (c6 & A6 & H). destruct (src_of fs roots q); try discriminate. apply qthen_inv in H. destruct H as (c7 & A7 & H).
  exists c4, c5, c6, c7. split. { unfold start. rewrite A2. simpl. rewrite A3. simpl. auto. } split.
  { unfold fcall in A5. destruct (frun U' V' x f c4) as [[rc c5']|]; [|discriminate]. destruct (Z.eqb_spec rc 0); inversion A5; subst; auto. }
  repeat split; auto. unfold V'. rewrite firstn_length. lia.
Qed.
Lemma start_inv : forall x U V c c4, start x U V c = QOk c4 -> exists c2 c3, kopt x (@kc_get D) c = QOk c2 /\ vloop (fun v => CGetRead v true) U c2 = QOk c3 /\ vloop (fun v => CGetWrite v true) V c3 = QOk c4.
Proof. intros x U V c c4 H. unfold start in H. apply qthen_inv in H. destruct H as (c2 & A2 & H). apply qthen_inv in H. destruct H as (c3 & A3 & H). eauto. Qed.
Lemma sane_kw : forall c c2 : conf, cf_w c2 = cf_w c -> sane c -> sane c2.
Proof. intros c c2 E H. unfold sane. rewrite E. auto. Qed.
Lemma combine_nth : forall (A B : Type) (l : list A) (m : list B) i a b, nth_error l i = Some a -> nth_error m i = Some b -> In (a, b) (combine l m).
Proof. induction l as [|a0 l IH]; intros [|b0 m] [|i] a b A1 B1; simpl in *; try discriminate; [left; congruence|right; eauto]. Qed.
Lemma combine_fst : forall (A B : Type) (l : list A) (m : list B), length l = length m -> map fst (combine l m) = l.
Proof. induction l as [|a l IH]; intros [|b m] L; simpl in *; try discriminate; auto. f_equal. apply IH. lia. Qed.

Theorem outputs_ok : forall q x f Q U V c c1, sane c -> mapply q x f Q U V c = QOk c1 ->
  let U' := firstn (length (q_in q)) U in let V' := firstn (length (q_out q)) V in
  exists c4, start x U' V' c = QOk c4 /\
  forall i v fld j, nth_error V' i = Some v -> nth_error (q_out q) i = Some fld -> (j < Z.to_nat (qf_size fld * Q))%nat ->
    exists a, lastw true v j (flog U' V' x f c4) = Some a /\ isnan a = false /\ value c1 v j = Some a /\ free c1 v /\
      exists w1 w2, mv (CGet v true) (cf_w c1) = Some (inl ODone, w1) /\ mv (VReadW v j) w1 = Some (inl (OVal a), w2).
Proof.
  intros q x f Q U V c c1 SN H U' V'. destruct (apply_inv _ _ _ _ _ _ _ H) as (c4 & c5 & c6 & c7 & ST & FR & RR & OL & KR & LV). fold U' V' in ST, FR, RR, OL, LV. exists c4. split; auto.
  destruct (start_inv _ _ _ _ ST) as (c2 & c3 & A2 & A3 & A4). assert (SN4 : sane c4). { eapply sane_w; [exact A4|]. eapply sane_r; [exact A3|]. eapply sane_kw; [eapply kopt_w; exact A2|auto]. }
  destruct (getwrites _ _ A4) as (_ & _ & _ & ND & WV).
  destruct (outloop_inv _ _ _ OL) as (_ & _ & OV). { rewrite combine_fst by (rewrite map_length; auto). auto. }
  intros i v fld j NV NF J. assert (IV : In v V') by (eapply nth_error_In; eauto). destruct (WV v IV) as (y4 & Y4 & BZ4 & RD4 & WR4).
  destruct (track _ _ _ _ _ FR v Y4) as (y5 & Y5 & T1 & T2 & T3 & T4 & T5 & T6). pose proof (restorereads_other _ _ RR v Y5 (eq_trans T3 RD4)) as Y6.
  destruct (OV v (qf_size fld)) as (y6 & y7 & Y6' & Y7 & WT & BZ & EM). { eapply combine_nth; eauto. apply map_nth_error; auto. }
  rewrite Y6 in Y6'. inversion Y6'; subst y6. clear Y6'. pose proof (kopt_w _ _ _ KR) as KW.
  assert (LN : m_len y4 <> O). { intro L0. destruct (SN4 v y4 Y4 L0) as (W0 & _). rewrite <- T1 in L0. destruct (EM L0 j J) as (l & EL). rewrite W0, EL in T5. simpl in T5. contradiction. }
  destruct WT as (W1 & W2 & W3 & W4). { congruence. } destruct (W4 j J) as (l & a & la & Q1 & Q2 & Q3 & Q4 & Q5).
  rewrite WR4 in T5 by auto. rewrite Q1 in T5. rewrite (proj2 T5) in Q2.
  assert (LA : lastw true v j (flog U' V' x f c4) = Some a).
  { destruct (lastw true v j (flog U' V' x f c4)) as [b|] eqn:LW; [congruence|]. exfalso. apply nth_error_In in Q2. apply repeat_spec in Q2. congruence. }
  assert (LJ : (j < m_len y5)%nat).
  { rewrite T1. assert (KB : (j < length (repeat nan (m_len y4)))%nat) by (eapply kept_bound; [exact T5|exact LA]). rewrite repeat_length in KB. auto. }
  destruct (Q5 LJ) as (Q6 & Q7).
  assert (V7 : value c1 v j = Some a) by (unfold value; rewrite KW, Y7, Q4; auto).
  assert (F7 : free c1 v).
  { exists y7. rewrite KW. split; auto. unfold mlocked. rewrite W2, T3, RD4. simpl. rewrite orb_false_r. unfold mbusy in *. rewrite W3. unfold add64. rewrite even_mod. apply negb_true_iff in BZ. unfold even in *. apply Z.eqb_neq in BZ.
    apply negb_false_iff, Z.eqb_eq. pose proof (Z.mod_pos_bound (m_state y5) 2 eq_refl). rewrite Z.add_mod by lia. replace (m_state y5 mod 2) with 1 by lia. reflexivity. }
  exists a. split; auto. split; auto. split; auto. split; auto. eapply value_seen; eauto. intros z Z1. rewrite KW, Y7 in Z1. inversion Z1; subst z. split; [congruence|]. intros l' L'. rewrite Q4 in L'. inversion L'; subst l'. congruence.
Qed.

Theorem inputs_ok : forall q x f Q U V c c1, mapply q x f Q U V c = QOk c1 -> Z.of_nat (length U) < two64 ->
  let U' := firstn (length (q_in q)) U in let V' := firstn (length (q_out q)) V in
  exists c4, start x U' V' c = QOk c4 /\
  forall u y j b, In u U' -> w_mv (cf_w c) u = Some y -> m_readers y = 0 -> m_ro y = None -> lastw false u j (flog U' V' x f c4) = Some b ->
    exists a, value c u j = Some a /\ eqs a b = true.
Proof.
  intros q x f Q U V c c1 H LU U' V'. destruct (apply_inv _ _ _ _ _ _ _ H) as (c4 & c5 & c6 & c7 & ST & FR & RR & OL & KR & LV). fold U' V' in ST, FR, RR, OL, LV. exists c4. split; auto.
  destruct (start_inv _ _ _ _ ST) as (c2 & c3 & A2 & A3 & A4). intros u y j b IU Y RD RO LW.
  assert (LC : Z.of_nat (count_occ Nat.eq_dec U' u) < two64). { pose proof (count_occ_bound Nat.eq_dec u U'). unfold U' in *. rewrite firstn_length in H0. lia. }
  assert (CP : 0 < Z.of_nat (count_occ Nat.eq_dec U' u)). { apply (count_occ_In Nat.eq_dec) in IU. lia. }
  pose proof (kopt_w _ _ _ A2) as KW. assert (Y2 : w_mv (cf_w c2) u = Some y) by (rewrite KW; auto).
  destruct (getreads _ _ A3 u Y2) as (y3 & Y3 & B1 & B2 & B3 & B4 & B5); [lia|lia|]. destruct (getwrites _ _ A4) as (G1 & _).
  assert (Y4 : w_mv (cf_w c4) u = Some y3) by (apply G1; auto; lia).
  destruct (track _ _ _ _ _ FR u Y4) as (y5 & Y5 & T1 & T2 & T3 & T4 & T5 & T6).
  destruct (Nat.eq_dec (m_len y) 0) as [L0|LN].
  { rewrite (B4 L0 RO) in T6. destruct (m_ro y5); simpl in T6; [contradiction|]. rewrite T6 in LW. discriminate. }
  specialize (B5 LN). rewrite RO in B5. destruct (B5 IU) as (la & AL & LL & RO3). rewrite RO3 in T6.
  destruct (restorereads _ _ RR u Y5 IU) as (la' & lr & Q1 & Q2 & Q3); [lia|lia|congruence|].
  rewrite T4, B2, AL in Q1. inversion Q1; subst la'. rewrite Q2 in T6. rewrite T1, B1 in Q3.
  assert (KB : (j < length (firstn (m_len y) la))%nat) by (eapply kept_bound; [exact T6|exact LW]). rewrite firstn_length in KB.
  assert (NB : nth_error lr j = Some b) by (rewrite (proj2 T6), LW; auto).
  destruct (nth_error la j) as [a|] eqn:NA. 2: { apply nth_error_None in NA. lia. }
  exists a. split. { unfold value. rewrite Y, AL. auto. } eapply same_nth; eauto. lia.
Qed.
Theorem ctx_ok : forall q n f Q U V c c1, mapply q (Some (n, false)) f Q U V c = QOk c1 ->
  let U' := firstn (length (q_in q)) U in let V' := firstn (length (q_out q)) V in
  exists c4, start (Some (n, false)) U' V' c = QOk c4 /\
  forall k d, cf_k c n = Some k -> kc_readers k = 0 -> lastc (flog U' V' (Some (n, false)) f c4) = Some d -> exists d0, kc_data k = Some d0 /\ eqd d0 d = true.
Proof.
  intros q n f Q U V c c1 H U' V'. destruct (apply_inv _ _ _ _ _ _ _ H) as (c4 & c5 & c6 & c7 & ST & FR & RR & OL & KR & LV). fold U' V' in ST, FR, RR, OL, LV. exists c4. split; auto.
  destruct (start_inv _ _ _ _ ST) as (c2 & c3 & A2 & A3 & A4). intros k d K0 R0 LD.
  simpl in A2. unfold kcall in A2. rewrite K0 in A2. unfold kc_get in A2. destruct (kc_busy k); [discriminate|]. simpl in A2. destruct (kc_data k) as [d0|] eqn:KD; [|discriminate]. inversion A2; subst c2.
  exists d0. split; auto. apply vloop_k in A3. apply vloop_k in A4. assert (K4 : cf_k c4 n = Some (mkKC false (kc_readers k + 1) (Some d0) (kc_wr k) (match kc_ro k with Some r => Some r | None => Some d0 end))).
  { rewrite A4, A3. simpl. unfold nupd. rewrite Nat.eqb_refl. auto. }
  destruct (track_ctx _ _ _ _ _ FR K4) as (k5 & K5 & D5 & R5 & O5). simpl in *. rewrite LD in O5. apply vloop_k in RR.
  assert (K7 : cf_k c7 n = Some k5).
  { destruct (start_inv _ _ _ _ ST) as (? & ? & _ & _ & A4'). destruct (getwrites _ _ A4') as (_ & _ & _ & ND & _).
    destruct (outloop_inv _ _ _ OL) as (EK & _). { rewrite combine_fst by (rewrite map_length; auto). auto. } rewrite EK, RR. auto. }
  unfold kcall in KR. rewrite K7 in KR. unfold kc_restore in KR. rewrite R5, R0, D5, O5 in KR. simpl in KR. destruct (eqd d0 d); auto. discriminate.
Qed.
End P.
