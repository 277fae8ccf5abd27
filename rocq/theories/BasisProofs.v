(** * Proofs about basis application *)
From Coq Require Import List ZArith Lia Bool Arith Ring.
From Verif Require Import Prelude Adds RstrModel RstrProofs TensorModel TensorProofs TensorMain Digits BasisModel.
Import ListNotations.
Set Implicit Arguments.

Section B.
Variable R : Rng.
Add Ring Rr : (r_th R).
Local Open Scope nat_scope.

(** [v'_ajc = (add ? v_ajc : 0) + sum_b M j b u_abc], the rest of [v] unchanged *)
Definition kapply (A B C J : nat) (M : nat -> nat -> R) (add : bool) (u v v' : list R) : Prop :=
  length v' = length v /\
  (forall a j c, a < A -> j < J -> c < C ->
     vf v' ((a * J + j) * C + c) = ((if add then vf v ((a * J + j) * C + c)%nat else 0) +
       sumn B (fun b => M j b * vf u ((a * B + b) * C + c)%nat))%R) /\
  (forall q, A * J * C <= q -> vf v' q = vf v q).

Lemma dec_mul : forall A B q, q < A * B -> exists a b, a < A /\ b < B /\ q = a * B + b.
Proof.
  intros A B q H. assert (0 < B) by nia. exists (q / B), (q mod B). repeat split.
  - apply Nat.div_lt_upper_bound; lia.
  - apply Nat.mod_upper_bound; lia.
  - pose proof (Nat.div_mod q B ltac:(lia)). lia.
Qed.

Section Chain.
Variables (k : kernel R) (Jmin dim nc ne P Q : nat) (mat : nat -> list R) (tm : tmode) (u : list R).
Hypothesis Hk : kernel_ok Jmin k.
Hypothesis Hdim : 0 < dim.
Hypothesis Hnc : 0 < nc.
Hypothesis HP : 0 < P.
Hypothesis HQ : 0 < Q.
Hypothesis HJ : Jmin <= Q.
Hypothesis Hmat : forall d, d < dim -> P * Q <= length (mat d).
Hypothesis Hu : nc * P ^ dim * ne <= length u.

Definition Kd (d : nat) (ql pl : nat) : R := prodn d (fun i => tval tm P Q (mat i) (dig Q i ql) (dig P i pl)).

Definition Xinv (d : nat) (src : list R) : Prop := forall c ph ql e, c < nc -> ph < P ^ (dim - d) -> ql < Q ^ d -> e < ne ->
  vf src (((c * P ^ (dim - d) + ph) * Q ^ d + ql) * ne + e) =
  sumn (P ^ d) (fun pl => (Kd d ql pl * vf u ((c * P ^ dim + ph * P ^ d + pl) * ne + e)%nat)%R).

Lemma Xinv0 : Xinv 0 u.
Proof.
  intros c ph ql e Hc Hph Hql He. simpl in Hql. replace ql with 0 by lia. rewrite Nat.sub_0_r, !Nat.pow_0_r.
  rewrite sumn_S, sumn_0. unfold Kd. cbn [prodn].
  replace ((c * P ^ dim + ph * 1 + 0) * ne + e) with (((c * P ^ dim + ph) * 1 + 0) * ne + e) by ring.
  ring.
Qed.

Lemma chain_step : forall d src add v v', d < dim -> Xinv d src ->
  contracts (nc * P ^ (dim - S d)) P (ne * Q ^ d) Q (mat d) tm add src v v' ->
  forall c ph ql e, c < nc -> ph < P ^ (dim - S d) -> ql < Q ^ S d -> e < ne ->
  vf v' (((c * P ^ (dim - S d) + ph) * Q ^ S d + ql) * ne + e) =
  ((if add then vf v (((c * P ^ (dim - S d) + ph) * Q ^ S d + ql) * ne + e)%nat else 0) +
  sumn (P ^ S d) (fun pl => Kd (S d) ql pl * vf u ((c * P ^ dim + ph * P ^ S d + pl) * ne + e)%nat))%R.
Proof.
  intros d src add v v' Hd HX (_ & G & _) c ph ql e Hc Hph Hql He.
  pose proof (pow_pos d HQ) as HQd. pose proof (pow_pos d HP) as HPd.
  destruct (@dec_mul Q (Q ^ d) ql) as (j & l & Hj & Hl & ->); [exact Hql|].
  assert (Hidx : ((c * P ^ (dim - S d) + ph) * Q ^ S d + (j * Q ^ d + l)) * ne + e =
                 ((c * P ^ (dim - S d) + ph) * Q + j) * (ne * Q ^ d) + (l * ne + e)) by (simpl; ring).
  rewrite Hidx. assert (EP : P ^ (dim - d) = P ^ (dim - S d) * P).
  { replace (dim - d) with (S (dim - S d)) by lia. simpl. ring. }
  rewrite G; [|nia|auto|nia].
  f_equal. change (P ^ S d) with (P * P ^ d). rewrite sumn_mul. apply sumn_ext. intros b Hb.
  replace (((c * P ^ (dim - S d) + ph) * P + b) * (ne * Q ^ d) + (l * ne + e)) with
    (((c * P ^ (dim - d) + (ph * P + b)) * Q ^ d + l) * ne + e) by (rewrite EP; ring).
  rewrite HX by (auto; rewrite EP; nia). rewrite <- sumn_mul_l. apply sumn_ext. intros pl Hpl.
  unfold Kd. simpl prodn.
  replace (dig Q d (j * Q ^ d + l)) with j.
  2:{ symmetry. apply (@dig_at Q d 0); auto. }
  replace (dig P d (b * P ^ d + pl)) with b.
  2:{ symmetry. apply (@dig_at P d 0); auto. }
  rewrite (@prodn_ext R d (fun i => tval tm P Q (mat i) (dig Q i (j * Q ^ d + l)) (dig P i (b * P ^ d + pl)))
            (fun i => tval tm P Q (mat i) (dig Q i l) (dig P i pl))).
  2:{ intros i Hi. rewrite !dig_low by auto. reflexivity. }
  replace ((c * P ^ dim + ph * (P * P ^ d) + (b * P ^ d + pl)) * ne + e) with
    ((c * P ^ dim + (ph * P + b) * P ^ d + pl) * ne + e) by ring.
  unfold tval. destruct tm; ring.
Qed.

Lemma chain_ok : forall addl (T : bufs R) (out : list R),
  ne * nc * Q * Nat.max P Q ^ (dim - 1) <= length (fst T) ->
  ne * nc * Q * Nat.max P Q ^ (dim - 1) <= length (snd T) ->
  nc * Q ^ dim * ne <= length out ->
  exists T' out', chain k dim nc ne P Q mat tm addl u T out = Some (T', out') /\
    length (fst T') = length (fst T) /\ length (snd T') = length (snd T) /\
    kapply nc (P ^ dim) ne (Q ^ dim) (Kd dim) addl u out out'.
Proof.
  intros addl T out HT0 HT1 Ho. unfold chain.
  assert (Hbuf : forall d, S d < dim -> nc * P ^ (dim - S d) * Q * (ne * Q ^ d) <= ne * nc * Q * Nat.max P Q ^ (dim - 1)).
  { intros d Hd. set (Mx := Nat.max P Q). replace (dim - 1) with ((dim - S d) + d) by lia. rewrite Nat.pow_add_r.
    assert (P ^ (dim - S d) <= Mx ^ (dim - S d)) by (apply Nat.pow_le_mono_l; unfold Mx; lia).
    assert (Q ^ d <= Mx ^ d) by (apply Nat.pow_le_mono_l; unfold Mx; lia).
    assert (P ^ (dim - S d) * Q ^ d <= Mx ^ (dim - S d) * Mx ^ d) by (apply Nat.mul_le_mono; auto).
    replace (nc * P ^ (dim - S d) * Q * (ne * Q ^ d)) with ((ne * nc * Q) * (P ^ (dim - S d) * Q ^ d)) by ring.
    apply Nat.mul_le_mono_l. auto. }
  assert (Hsz : forall d, d < dim -> nc * P ^ (dim - S d) * P * (ne * Q ^ d) = nc * P ^ (dim - d) * Q ^ d * ne).
  { intros d Hd. replace (dim - d) with (S (dim - S d)) by lia. simpl. ring. }
  match goal with |- context [forN dim ?F ?s] => destruct (@forN_inv (nat * nat * bufs R * list R)
    (fun d st => let '(pre, post, T', out') := st in
       length (fst T') = length (fst T) /\ length (snd T') = length (snd T) /\
       (d < dim -> pre = nc * P ^ (dim - S d) /\ post = ne * Q ^ d /\ out' = out /\
          let src := if d =? 0 then u else getb (d mod 2) T' in
          nc * P ^ (dim - d) * Q ^ d * ne <= length src /\ Xinv d src) /\
       (d = dim -> kapply nc (P ^ dim) ne (Q ^ dim) (Kd dim) addl u out out'))
    F dim s)
    as ([[[pre' post'] T'] out'] & E & L0 & L1 & _ & Hfin) end.
  - split; auto. split; auto. split; [|lia]. intros _. rewrite Nat.pow_0_r, Nat.sub_0_r. repeat split; try lia.
    + simpl. lia.
    + simpl. apply Xinv0.
  - intros d [[[pre post] T1] out1] Hd (L0 & L1 & Hinv & _). specialize (Hinv Hd).
    cbv zeta in Hinv. destruct Hinv as (-> & -> & -> & Hlen & HX).
    set (src := if d =? 0 then u else getb (d mod 2) T1) in *. cbv zeta.
    assert (HA : 0 < nc * P ^ (dim - S d)) by (pose proof (pow_pos (dim - S d) HP); nia).
    destruct (Nat.eqb_spec d (dim - 1)) as [Ed|Ed].
    + destruct (@Hk (nc * P ^ (dim - S d)) P (ne * Q ^ d) Q (mat d) tm addl src out) as (o & Eo & Co); auto.
      { rewrite Hsz by auto. auto. }
      { rewrite Ed at 1. replace (dim - S (dim - 1)) with 0 by lia. rewrite Nat.pow_0_r.
        replace (nc * 1 * Q * (ne * Q ^ d)) with (nc * Q ^ S d * ne) by (simpl; ring). replace (S d) with dim by lia. auto. }
      rewrite Eo. cbn [bind]. eexists. split; [reflexivity|]. split; auto. split; auto. split; [lia|]. intros _.
      pose proof (@chain_step d src addl out o Hd HX Co) as Hst. destruct Co as (Lo & _ & No).
      assert (ES : S d = dim) by lia. rewrite ES in Hst, No. rewrite Nat.sub_diag in Hst, No. rewrite Nat.pow_0_r in Hst, No.
      split; auto. split.
      * intros a j c Ha Hj Hc. specialize (Hst a 0 j c Ha ltac:(lia) Hj Hc).
        replace (((a * 1 + 0) * Q ^ dim + j) * ne + c) with ((a * Q ^ dim + j) * ne + c) in Hst by ring.
        rewrite Hst. f_equal. apply sumn_ext. intros b Hb. f_equal. f_equal. ring.
      * intros q Hq. apply No. replace (nc * 1 * Q * (ne * Q ^ d)) with (nc * Q ^ S d * ne) by (simpl; ring).
        replace (S d) with dim by lia. auto.
    + set (dst := getb ((d + 1) mod 2) T1).
      assert (Hdl : ne * nc * Q * Nat.max P Q ^ (dim - 1) <= length dst).
      { unfold dst, getb. destruct ((d + 1) mod 2 =? 0); [rewrite L0|rewrite L1]; auto. }
      destruct (@Hk (nc * P ^ (dim - S d)) P (ne * Q ^ d) Q (mat d) tm false src dst) as (o & Eo & Co); auto.
      { rewrite Hsz by auto. auto. }
      { pose proof (Hbuf d ltac:(lia)). lia. }
      rewrite Eo. cbn [bind]. eexists. split; [reflexivity|].
      pose proof (@chain_step d src false dst o Hd HX Co) as Hst. destruct Co as (Lo & _ & No).
      assert (Hb : forall i x, getb i (putb i x T1) = x). { intros i x. unfold getb, putb. destruct (i =? 0); reflexivity. }
      split. { unfold putb, dst, getb in *. destruct ((d + 1) mod 2 =? 0); simpl in *; congruence. }
      split. { unfold putb, dst, getb in *. destruct ((d + 1) mod 2 =? 0); simpl in *; congruence. }
      split; [|lia]. intros Hd1. rewrite !Nat.add_1_r in *.
      replace (dim - S d) with (S (dim - S (S d))) by lia. split.
      { simpl Nat.pow. replace (nc * (P * P ^ (dim - S (S d)))) with (nc * P ^ (dim - S (S d)) * P) by ring. apply Nat.div_mul. lia. }
      split. { simpl. ring. } split; auto. cbv zeta. cbn [Nat.eqb]. rewrite Hb. split.
      * rewrite Lo. pose proof (Hbuf d ltac:(lia)).
        replace (S (dim - S (S d))) with (dim - S d) by lia.
        replace (nc * P ^ (dim - S d) * Q ^ S d * ne) with (nc * P ^ (dim - S d) * Q * (ne * Q ^ d)) by (simpl; ring). lia.
      * intros c ph ql e Hc Hph Hql He. rewrite Hst by auto. ring.
  - rewrite E. cbn [bind fst snd]. exists T', out'. auto.
Qed.
End Chain.

(** ** One contraction in direction d *)
Lemma dir_idx : forall Q dim d c q ne e, 0 < Q -> d < dim ->
  (c * Q ^ dim + q) * ne + e =
  ((c * Q ^ (dim - S d) + q / Q ^ S d) * Q + dig Q d q) * (ne * Q ^ d) + (q mod Q ^ d * ne + e).
Proof.
  intros Q dim d c q ne e HQ Hd.
  replace (Q ^ dim) with (Q ^ (dim - S d) * Q * Q ^ d).
  2:{ replace dim with ((dim - S d) + 1 + d) at 2 by lia. rewrite !Nat.pow_add_r. simpl. ring. }
  rewrite (@dig_split Q d q) at 1 by auto. ring.
Qed.
Lemma dir_idx_set : forall Q dim d c q b ne e, 0 < Q -> d < dim -> b < Q ->
  (c * Q ^ dim + setdig Q d b q) * ne + e =
  ((c * Q ^ (dim - S d) + q / Q ^ S d) * Q + b) * (ne * Q ^ d) + (q mod Q ^ d * ne + e).
Proof.
  intros Q dim d c q b ne e HQ Hd Hb.
  replace (Q ^ dim) with (Q ^ (dim - S d) * Q * Q ^ d).
  2:{ replace dim with ((dim - S d) + 1 + d) at 2 by lia. rewrite !Nat.pow_add_r. simpl. ring. }
  unfold setdig. ring.
Qed.

Lemma dir_ok : forall k Jmin dim nc ne Q mat tm add d (u v : list R), kernel_ok Jmin k -> d < dim -> 0 < nc -> 0 < Q -> Jmin <= Q ->
  Q * Q <= length mat -> nc * Q ^ dim * ne <= length u -> nc * Q ^ dim * ne <= length v ->
  exists v', k (nc * Q ^ (dim - S d)) Q (ne * Q ^ d) Q mat tm add u v = Some v' /\ length v' = length v /\
    (forall c q e, c < nc -> q < Q ^ dim -> e < ne ->
      vf v' ((c * Q ^ dim + q) * ne + e) = ((if add then vf v ((c * Q ^ dim + q) * ne + e)%nat else 0) +
        sumn Q (fun b => tval tm Q Q mat (dig Q d q) b * vf u ((c * Q ^ dim + setdig Q d b q) * ne + e)%nat))%R) /\
    (forall i, nc * Q ^ dim * ne <= i -> vf v' i = vf v i).
Proof.
  intros k Jmin dim nc ne Q mat tm add d u v Hk Hd Hnc HQ HJ Hm Hu Hv.
  assert (Hsz : nc * Q ^ (dim - S d) * Q * (ne * Q ^ d) = nc * Q ^ dim * ne).
  { replace dim with ((dim - S d) + 1 + d) at 2 by lia. rewrite !Nat.pow_add_r. simpl. ring. }
  destruct (@Hk (nc * Q ^ (dim - S d)) Q (ne * Q ^ d) Q mat tm add u v) as (v' & E & Lv & G & N); auto; try (rewrite Hsz; auto).
  { pose proof (pow_pos (dim - S d) HQ). nia. }
  exists v'. split; auto. split; auto. split; [|intros i Hi; apply N; lia].
  intros c q e Hc Hq He. rewrite (@dir_idx Q dim d c q ne e) by auto.
  pose proof (pow_pos d HQ). pose proof (pow_pos (S d) HQ).
  assert (q mod Q ^ d < Q ^ d) by (apply Nat.mod_upper_bound; lia).
  assert (q / Q ^ S d < Q ^ (dim - S d)).
  { apply Nat.div_lt_upper_bound; [lia|]. rewrite <- Nat.pow_add_r. replace (S d + (dim - S d)) with dim by lia. auto. }
  rewrite G; [|nia|apply dig_lt; auto|nia]. f_equal. apply sumn_ext. intros b Hb.
  rewrite (@dir_idx_set Q dim d c q b ne e) by auto. unfold tval. destruct tm; reflexivity.
Qed.

Lemma at_off_ok : forall off f (v w : list R), off <= length v -> f (skipn off v) = Some w -> length w = length v - off ->
  exists v', at_off off f v = Some v' /\ length v' = length v /\
    (forall q, q < off -> vf v' q = vf v q) /\ (forall q, vf v' (off + q) = vf w q).
Proof.
  intros off f v w Ho E Lw. unfold at_off. rewrite E. cbn [bind]. eexists. split; [reflexivity|].
  assert (Lf : length (firstn off v) = off) by (rewrite firstn_length; lia).
  split; [rewrite app_length; lia|]. split.
  - intros q Hq. unfold vf. rewrite app_nth1 by lia. rewrite <- (firstn_skipn off v) at 2. rewrite app_nth1 by lia. reflexivity.
  - intros q. unfold vf. rewrite app_nth2 by lia. f_equal. lia.
Qed.

(** Several slots, each with its own matrix. *)
Definition app_n (A B C D J : nat) (M : nat -> nat -> nat -> R) (add : bool) (u v v' : list R) : Prop :=
  length v' = length v /\
  (forall d a j c, d < D -> a < A -> j < J -> c < C ->
     vf v' (((d * A + a) * J + j) * C + c) = ((if add then vf v (((d * A + a) * J + j) * C + c)%nat else 0) +
       sumn B (fun b => M d j b * vf u ((a * B + b) * C + c)%nat))%R) /\
  (forall q, D * A * J * C <= q -> vf v' q = vf v q).
Definition app_t (A B C D J : nat) (M : nat -> nat -> nat -> R) (add : bool) (u v v' : list R) : Prop :=
  length v' = length v /\
  (forall a b c, a < A -> b < B -> c < C ->
     vf v' ((a * B + b) * C + c) = ((if add then vf v ((a * B + b) * C + c)%nat else 0) +
       sumn D (fun d => sumn J (fun j => M d j b * vf u (((d * A + a) * J + j) * C + c)%nat)))%R) /\
  (forall q, A * B * C <= q -> vf v' q = vf v q).

(** Filling slot after slot of [v] (not transposed). *)
Lemma slots_n : forall A B C D J (M : nat -> nat -> nat -> R) (add : bool) (u v : list R) (S0 : Type) (f : nat -> S0 * list R -> option (S0 * list R)) s0 (I : nat -> S0 -> Prop),
  I 0 s0 -> D * A * J * C <= length v ->
  (forall d s v1, d < D -> I d s -> length v1 = length v ->
     exists s' v2, f d (s, v1) = Some (s', v2) /\ I (S d) s' /\ length v2 = length v /\
       (forall q, q < d * A * J * C -> vf v2 q = vf v1 q) /\
       (forall a j c, a < A -> j < J -> c < C -> vf v2 (d * A * J * C + ((a * J + j) * C + c)) =
          ((if add then vf v1 (d * A * J * C + ((a * J + j) * C + c))%nat else 0) + sumn B (fun b => M d j b * vf u ((a * B + b) * C + c)%nat))%R) /\
       (forall q, A * J * C <= q -> vf v2 (d * A * J * C + q) = vf v1 (d * A * J * C + q))) ->
  exists s' v', forN D f (s0, v) = Some (s', v') /\ I D s' /\ app_n A B C D J M add u v v'.
Proof.
  intros A B C D J M add u v S0 f s0 I Hs0 Hv Hf.
  destruct (@forN_inv (S0 * list R) (fun n st => I n (fst st) /\ length (snd st) = length v /\
    (forall d a j c, d < n -> a < A -> j < J -> c < C ->
     vf (snd st) (((d * A + a) * J + j) * C + c) = ((if add then vf v (((d * A + a) * J + j) * C + c)%nat else 0) +
       sumn B (fun b => M d j b * vf u ((a * B + b) * C + c)%nat))%R) /\
    (forall q, n * A * J * C <= q -> vf (snd st) q = vf v q)) f D (s0, v)) as ([s' v'] & E & I' & L' & G' & N').
  - simpl. split; auto. split; auto. split; [lia|auto].
  - intros d [s v1] Hd (Is & L1 & G1 & N1). cbn [fst snd] in *.
    destruct (Hf d s v1 Hd Is L1) as (s' & v2 & E & Is' & L2 & Glow & Gmid & Ghi).
    exists (s', v2). split; auto. cbn [fst snd]. rewrite !Nat.add_1_r. split; auto. split; auto. split.
    + intros d' a j c Hd' Ha Hj Hc.
      assert (((d' * A + a) * J + j) * C + c < (d' * A + A) * J * C) by (apply idx_lt; lia).
      destruct (Nat.eq_dec d' d) as [->|Hne].
      * replace (((d * A + a) * J + j) * C + c) with (d * A * J * C + ((a * J + j) * C + c)) by ring.
        rewrite Gmid by auto. rewrite N1 by lia. reflexivity.
      * assert ((d' * A + A) * J * C <= d * A * J * C).
        { replace ((d' * A + A) * J * C) with (S d' * (A * J * C)) by ring. replace (d * A * J * C) with (d * (A * J * C)) by ring.
          apply Nat.mul_le_mono_r. lia. }
        rewrite Glow by lia. apply G1; auto; lia.
    + intros q Hq. replace (S d * A * J * C) with (d * A * J * C + A * J * C) in Hq by ring.
      replace q with (d * A * J * C + (q - d * A * J * C)) by lia. rewrite Ghi by lia. apply N1. lia.
  - exists s', v'. split; auto. split; auto. split; auto.
Qed.

(** Adding slot after slot into [v] (transposed); [add0]: does the first slot add? *)
Lemma slots_t : forall A B C D J (M : nat -> nat -> nat -> R) (addf : nat -> bool) (u v : list R) (S0 : Type) (f : nat -> S0 * list R -> option (S0 * list R)) s0 (I : nat -> S0 -> Prop),
  I 0 s0 -> 0 < D -> (forall d, 0 < d -> d < D -> addf d = true) ->
  (forall d s v1, d < D -> I d s -> length v1 = length v ->
     exists s' v2, f d (s, v1) = Some (s', v2) /\ I (S d) s' /\ length v2 = length v /\
       (forall a b c, a < A -> b < B -> c < C -> vf v2 ((a * B + b) * C + c) =
          ((if addf d then vf v1 ((a * B + b) * C + c)%nat else 0) + sumn J (fun j => M d j b * vf u (((d * A + a) * J + j) * C + c)%nat))%R) /\
       (forall q, A * B * C <= q -> vf v2 q = vf v1 q)) ->
  exists s' v', forN D f (s0, v) = Some (s', v') /\ I D s' /\ app_t A B C D J M (addf 0) u v v'.
Proof.
  intros A B C D J M addf u v S0 f s0 I Hs0 HD Hadd Hf.
  destruct (@forN_inv (S0 * list R) (fun n st => I n (fst st) /\ length (snd st) = length v /\
    (n = 0 -> snd st = v) /\
    (0 < n -> forall a b c, a < A -> b < B -> c < C ->
     vf (snd st) ((a * B + b) * C + c) = ((if addf O then vf v ((a * B + b) * C + c)%nat else 0) +
       sumn n (fun d => sumn J (fun j => M d j b * vf u (((d * A + a) * J + j) * C + c)%nat)))%R) /\
    (forall q, A * B * C <= q -> vf (snd st) q = vf v q)) f D (s0, v)) as ([s' v'] & E & I' & L' & _ & G' & N').
  - simpl. split; auto. split; auto. split; auto. split; [lia|auto].
  - intros d [s v1] Hd (Is & L1 & Z1 & G1 & N1). cbn [fst snd] in *.
    destruct (Hf d s v1 Hd Is L1) as (s' & v2 & E & Is' & L2 & Gmid & Ghi).
    exists (s', v2). split; auto. cbn [fst snd]. rewrite !Nat.add_1_r. split; auto. split; auto. split; [lia|]. split.
    + intros _ a b c Ha Hb Hc. rewrite Gmid by auto. rewrite sumn_S. destruct (Nat.eq_dec d 0) as [->|Hne].
      * rewrite Z1 by auto. rewrite sumn_0. destruct (addf 0); ring.
      * rewrite Hadd, G1 by (auto; lia). ring.
    + intros q Hq. rewrite Ghi, N1 by auto. reflexivity.
  - exists s', v'. split; auto. split; auto. split; auto.
Qed.
End B.
Arguments kapply {R}. Arguments app_n {R}. Arguments app_t {R}. Arguments Kd {R}.
