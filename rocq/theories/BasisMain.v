(** * Basis application equals the full matrices *)
From Coq Require Import List ZArith Lia Bool Arith Ring.
From Verif Require Import Prelude Adds RstrModel RstrProofs TensorModel TensorProofs TensorMain Digits BasisModel BasisProofs.
Import ListNotations.
Set Implicit Arguments.

Section M.
Variable R : Rng.
Add Ring Rr : (r_th R).
Local Open Scope nat_scope.

(** ** Sums over indices split at digit d *)
Lemma pow_dim : forall Q dim d, d < dim -> Q ^ dim = Q ^ (dim - S d) * Q * Q ^ d.
Proof. intros. replace dim with ((dim - S d) + 1 + d) at 1 by lia. rewrite !Nat.pow_add_r. simpl. ring. Qed.

Lemma sumn_dig : forall Q dim d (f : nat -> R), d < dim ->
  sumn (Q ^ dim) f = sumn (Q ^ (dim - S d)) (fun h => sumn Q (fun j => sumn (Q ^ d) (fun l => f ((h * Q + j) * Q ^ d + l)))).
Proof. intros Q dim d f Hd. rewrite (pow_dim Q Hd). rewrite !sumn_mul. reflexivity. Qed.

Lemma setdig_enc : forall Q d b h j l, j < Q -> l < Q ^ d -> setdig Q d b ((h * Q + j) * Q ^ d + l) = (h * Q + b) * Q ^ d + l.
Proof.
  intros Q d b h j l Hj Hl. unfold setdig. rewrite mod_enc by auto. f_equal. f_equal. f_equal. f_equal.
  pose proof (@pow_pos Q d ltac:(lia)).
  change (Q ^ S d) with (Q * Q ^ d). rewrite (Nat.mul_comm Q (Q ^ d)). rewrite <- Nat.div_div by lia.
  rewrite div_enc, div_enc by auto. reflexivity.
Qed.

(** Reindexing: (q, b) -> (q with digit d replaced by b, old digit d). *)
Lemma sumn_reindex : forall Q dim d (g : nat -> nat -> nat -> R), d < dim ->
  sumn (Q ^ dim) (fun q => sumn Q (fun b => g (dig Q d q) b (setdig Q d b q))) =
  sumn (Q ^ dim) (fun q => sumn Q (fun a => g a (dig Q d q) q)).
Proof.
  intros Q dim d g Hd. rewrite !(sumn_dig Q _ Hd). apply sumn_ext. intros h Hh.
  transitivity (sumn Q (fun j => sumn Q (fun b => sumn (Q ^ d) (fun l => g j b ((h * Q + b) * Q ^ d + l))))).
  { apply sumn_ext. intros j Hj. rewrite sumn_swap. apply sumn_ext. intros b Hb. apply sumn_ext. intros l Hl.
    rewrite dig_at, setdig_enc by auto. reflexivity. }
  rewrite sumn_swap. apply sumn_ext. intros b Hb. rewrite sumn_swap. apply sumn_ext. intros l Hl.
  apply sumn_ext. intros a Ha. rewrite dig_at by auto. reflexivity.
Qed.

(** A matrix that is the identity except in direction d. *)
Lemma sumn_ident : forall Q dim d q (m : nat -> R) (f : nat -> R), 0 < Q -> d < dim -> q < Q ^ dim ->
  sumn (Q ^ dim) (fun p => (prodn dim (fun i => if i =? d then m (dig Q d p) else delta (dig Q i q =? dig Q i p) 1) * f p)%R) =
  sumn Q (fun b => (m b * f (setdig Q d b q))%R).
Proof.
  intros Q dim d q m f HQ Hd Hq.
  assert (Hp : forall p, p < Q ^ dim -> prodn dim (fun i => if i =? d then m (dig Q d p) else delta (dig Q i q =? dig Q i p) 1%R)
     = (m (dig Q d p) * delta (q =? setdig Q d (dig Q d q) p) 1)%R).
  { intros p Hp. rewrite prodn_change by auto. f_equal.
    rewrite <- (@prodn_delta R Q dim (setdig Q d (dig Q d q) p) q) by (auto; apply setdig_lt; auto; apply dig_lt; auto).
    apply prodn_ext. intros i Hi. rewrite dig_setdig by (auto; apply dig_lt; auto).
    destruct (Nat.eqb_spec i d) as [->|]; auto. rewrite Nat.eqb_refl. reflexivity. }
  rewrite sumn_ext with (g := fun p => (m (dig Q d p) * delta (q =? setdig Q d (dig Q d q) p) 1 * f p)%R).
  2:{ intros p Hp'. rewrite Hp by auto. reflexivity. }
  rewrite (sumn_dig Q _ Hd).
  transitivity (sumn (Q ^ (dim - S d)) (fun h => sumn Q (fun j => sumn (Q ^ d) (fun l =>
     (m j * delta (q =? (h * Q + dig Q d q) * Q ^ d + l) 1 * f ((h * Q + j) * Q ^ d + l)%nat)%R)))).
  { apply sumn_ext. intros h Hh. apply sumn_ext. intros j Hj. apply sumn_ext. intros l Hl.
    rewrite dig_at, setdig_enc by auto. reflexivity. }
  rewrite sumn_swap. apply sumn_ext. intros b Hb.
  pose proof (pow_pos d HQ). pose proof (pow_pos (S d) HQ).
  assert (Hl0 : q mod Q ^ d < Q ^ d) by (apply Nat.mod_upper_bound; lia).
  assert (Hh0 : q / Q ^ S d < Q ^ (dim - S d)).
  { apply Nat.div_lt_upper_bound; [lia|]. rewrite <- Nat.pow_add_r. replace (S d + (dim - S d)) with dim by lia. auto. }
  assert (Huniq : forall h l, l < Q ^ d -> q = (h * Q + dig Q d q) * Q ^ d + l -> h = q / Q ^ S d /\ l = q mod Q ^ d).
  { intros h l Hl E. rewrite (@dig_split Q d q HQ) in E at 1.
    apply enc3_inj in E; auto; try (apply dig_lt; auto). destruct E as (-> & _ & ->). auto. }
  rewrite (@sumn_one R _ (q / Q ^ S d)); auto.
  2:{ intros h Hh Hne. apply sumn_zero. intros l Hl.
      destruct (Nat.eqb_spec q ((h * Q + dig Q d q) * Q ^ d + l)) as [E|E]; [|unfold delta; ring].
      exfalso. apply Huniq in E; auto. destruct E. contradiction. }
  rewrite (@sumn_one R _ (q mod Q ^ d)); auto.
  2:{ intros l Hl Hne. destruct (Nat.eqb_spec q ((q / Q ^ S d * Q + dig Q d q) * Q ^ d + l)) as [E|E]; [|unfold delta; ring].
      exfalso. apply Huniq in E; auto. destruct E. contradiction. }
  rewrite <- (@dig_split Q d q HQ). rewrite Nat.eqb_refl. unfold delta, setdig. ring.
Qed.

(** ** One contraction per direction *)
Lemma dirs_n : forall k Jmin dim nc ne Q (mat : list R) add (u v : list R), @kernel_ok R Jmin k -> 0 < nc -> 0 < Q -> Jmin <= Q ->
  Q * Q <= length mat -> nc * Q ^ dim * ne <= length u -> dim * nc * Q ^ dim * ne <= length v ->
  exists v', dirs k dim nc ne (Q ^ dim) Q mat NoTranspose (fun _ => add) u v = Some v' /\ length v' = length v /\
    (forall d c q e, d < dim -> c < nc -> q < Q ^ dim -> e < ne ->
      vf v' (((d * nc + c) * Q ^ dim + q) * ne + e) = ((if add then vf v (((d * nc + c) * Q ^ dim + q) * ne + e)%nat else 0) +
        sumn Q (fun b => vf mat (dig Q d q * Q + b)%nat * vf u ((c * Q ^ dim + setdig Q d b q) * ne + e)%nat))%R) /\
    (forall i, dim * nc * Q ^ dim * ne <= i -> vf v' i = vf v i).
Proof.
  intros k Jmin dim nc ne Q mat add u v Hk Hnc HQ HJ Hm Hu Hv. unfold dirs.
  destruct (Nat.eq_dec dim 0) as [->|Hdim]. { exists v. repeat split; auto. intros; lia. }
  match goal with |- context [forN dim ?F ?s] => destruct (@forN_inv (nat * nat * list R)
    (fun n st => let '(pre, post, v') := st in length v' = length v /\
    (n < dim -> pre = nc * Q ^ (dim - S n) /\ post = ne * Q ^ n) /\
    (forall d c q e, d < n -> c < nc -> q < Q ^ dim -> e < ne ->
      vf v' (((d * nc + c) * Q ^ dim + q) * ne + e) = ((if add then vf v (((d * nc + c) * Q ^ dim + q) * ne + e)%nat else 0) +
        sumn Q (fun b => vf mat (dig Q d q * Q + b)%nat * vf u ((c * Q ^ dim + setdig Q d b q) * ne + e)%nat))%R) /\
    (forall i, n * nc * Q ^ dim * ne <= i -> vf v' i = vf v i)) F dim s)
    as ([[pre post] v'] & E & L' & _ & G' & N') end.
  - split; auto. split; [|split; [intros; lia|auto]]. intros _. rewrite Nat.pow_0_r. split; [reflexivity|lia].
  - intros d [[pre post] v1] Hd (L1 & Hpp & G1 & N1). destruct (Hpp Hd) as (-> & ->).
    assert (Hmul : d * Q ^ dim * nc * ne + nc * Q ^ dim * ne <= dim * nc * Q ^ dim * ne).
    { replace (d * Q ^ dim * nc * ne + nc * Q ^ dim * ne) with (S d * (nc * Q ^ dim * ne)) by ring.
      replace (dim * nc * Q ^ dim * ne) with (dim * (nc * Q ^ dim * ne)) by ring. apply Nat.mul_le_mono_r. lia. }
    destruct (@dir_ok R k Jmin dim nc ne Q mat NoTranspose add d u (skipn (d * Q ^ dim * nc * ne) v1)) as (w & Ew & Lw & Gw & Nw); auto.
    { rewrite skipn_length. lia. }
    rewrite skipn_length in Lw.
    destruct (@at_off_ok R (d * Q ^ dim * nc * ne) (k (nc * Q ^ (dim - S d)) Q (ne * Q ^ d) Q mat NoTranspose add u) v1 w) as (v2 & E2 & L2 & Lo2 & Hi2); auto; try lia.
    rewrite E2. cbn [bind]. eexists. split; [reflexivity|]. split; [congruence|]. rewrite !Nat.add_1_r. split; [|split].
    + intros Hd1. replace (dim - S d) with (S (dim - S (S d))) by lia. split; [|simpl; ring].
      simpl Nat.pow. replace (nc * (Q * Q ^ (dim - S (S d)))) with (nc * Q ^ (dim - S (S d)) * Q) by ring. apply Nat.div_mul. lia.
    + intros d' c q e Hd' Hc Hq He.
      assert (((d' * nc + c) * Q ^ dim + q) * ne + e < (d' * nc + nc) * Q ^ dim * ne) by (apply idx_lt; lia).
      destruct (Nat.eq_dec d' d) as [->|Hne].
      * replace (((d * nc + c) * Q ^ dim + q) * ne + e) with (d * Q ^ dim * nc * ne + ((c * Q ^ dim + q) * ne + e)) by ring.
        rewrite Hi2, Gw by auto. rewrite vf_skipn, N1 by lia. reflexivity.
      * assert ((d' * nc + nc) * Q ^ dim * ne <= d * Q ^ dim * nc * ne).
        { replace ((d' * nc + nc) * Q ^ dim * ne) with (S d' * (Q ^ dim * nc * ne)) by ring.
          replace (d * Q ^ dim * nc * ne) with (d * (Q ^ dim * nc * ne)) by ring. apply Nat.mul_le_mono_r. lia. }
        rewrite Lo2 by lia. apply G1; auto; lia.
    + intros i Hi. replace (S d * nc * Q ^ dim * ne) with (d * Q ^ dim * nc * ne + nc * Q ^ dim * ne) in Hi by ring.
      replace i with (d * Q ^ dim * nc * ne + (i - d * Q ^ dim * nc * ne)) by lia. rewrite Hi2, Nw by lia. rewrite vf_skipn. apply N1. lia.
  - rewrite E. cbn [bind snd]. exists v'. auto.
Qed.

Lemma dirs_t : forall k Jmin dim nc ne Q (mat : list R) (add : nat -> bool) (u v : list R), @kernel_ok R Jmin k -> 0 < dim -> 0 < nc -> 0 < Q -> Jmin <= Q ->
  (forall d, 0 < d -> d < dim -> add d = true) ->
  Q * Q <= length mat -> dim * nc * Q ^ dim * ne <= length u -> nc * Q ^ dim * ne <= length v ->
  exists v', dirs k dim nc ne (Q ^ dim) Q mat Transpose add u v = Some v' /\ length v' = length v /\
    (forall c q e, c < nc -> q < Q ^ dim -> e < ne ->
      vf v' ((c * Q ^ dim + q) * ne + e) = ((if add 0%nat then vf v ((c * Q ^ dim + q) * ne + e)%nat else 0) +
        sumn dim (fun d => sumn Q (fun b => vf mat (b * Q + dig Q d q)%nat * vf u (((d * nc + c) * Q ^ dim + setdig Q d b q) * ne + e)%nat)))%R) /\
    (forall i, nc * Q ^ dim * ne <= i -> vf v' i = vf v i).
Proof.
  intros k Jmin dim nc ne Q mat add u v Hk Hdim Hnc HQ HJ Hadd Hm Hu Hv. unfold dirs.
  match goal with |- context [forN dim ?F ?s] => destruct (@forN_inv (nat * nat * list R)
    (fun n st => let '(pre, post, v') := st in length v' = length v /\
    (n < dim -> pre = nc * Q ^ (dim - S n) /\ post = ne * Q ^ n) /\ (n = 0 -> v' = v) /\
    (0 < n -> forall c q e, c < nc -> q < Q ^ dim -> e < ne ->
      vf v' ((c * Q ^ dim + q) * ne + e) = ((if add 0%nat then vf v ((c * Q ^ dim + q) * ne + e)%nat else 0) +
        sumn n (fun d => sumn Q (fun b => vf mat (b * Q + dig Q d q)%nat * vf u (((d * nc + c) * Q ^ dim + setdig Q d b q) * ne + e)%nat)))%R) /\
    (forall i, nc * Q ^ dim * ne <= i -> vf v' i = vf v i)) F dim s)
    as ([[pre post] v'] & E & L' & _ & _ & G' & N') end.
  - split; auto. split; [|split; [auto|split; [lia|auto]]]. intros _. rewrite Nat.pow_0_r. split; [reflexivity|lia].
  - intros d [[pre post] v1] Hd (L1 & Hpp & Z1 & G1 & N1). destruct (Hpp Hd) as (-> & ->).
    assert (Hmul : d * Q ^ dim * nc * ne + nc * Q ^ dim * ne <= dim * nc * Q ^ dim * ne).
    { replace (d * Q ^ dim * nc * ne + nc * Q ^ dim * ne) with (S d * (nc * Q ^ dim * ne)) by ring.
      replace (dim * nc * Q ^ dim * ne) with (dim * (nc * Q ^ dim * ne)) by ring. apply Nat.mul_le_mono_r. lia. }
    destruct (@dir_ok R k Jmin dim nc ne Q mat Transpose (add d) d (skipn (d * Q ^ dim * nc * ne) u) v1) as (w & Ew & Lw & Gw & Nw); auto; try lia.
    { rewrite skipn_length. lia. }
    rewrite Ew. cbn [bind]. eexists. split; [reflexivity|]. split; [congruence|]. rewrite !Nat.add_1_r. split; [|split; [lia|split]].
    + intros Hd1. replace (dim - S d) with (S (dim - S (S d))) by lia. split; [|simpl; ring].
      simpl Nat.pow. replace (nc * (Q * Q ^ (dim - S (S d)))) with (nc * Q ^ (dim - S (S d)) * Q) by ring. apply Nat.div_mul. lia.
    + intros _ c q e Hc Hq He. rewrite Gw by auto. rewrite sumn_S.
      match goal with |- (_ + ?a = _ + (_ + ?b))%R => replace a with b end.
      2:{ apply sumn_ext. intros b Hb. unfold tval. rewrite vf_skipn. f_equal. f_equal. ring. }
      destruct (Nat.eq_dec d 0) as [->|Hne].
      * rewrite Z1 by auto. rewrite sumn_0. destruct (add 0); ring.
      * rewrite Hadd, G1 by (auto; lia). ring.
    + intros i Hi. rewrite Nw, N1 by auto. reflexivity.
  - rewrite E. cbn [bind snd]. exists v'. auto.
Qed.

(** ** The full matrices *)
Definition FI (t : tbasis R) (q p : nat) : R :=
  prodn (t_dim t) (fun i => vf (t_interp t) (dig (t_Q t) i q * t_P t + dig (t_P t) i p)).
Definition FG (t : tbasis R) (d q p : nat) : R :=
  prodn (t_dim t) (fun i => vf (if i =? d then t_grad t else t_interp t) (dig (t_Q t) i q * t_P t + dig (t_P t) i p)).

(** Multiplying every entry of an array in order. *)
Lemma forN_mulat : forall n (y : nat -> option R) (h : nat -> R) (m : list R), n = length m ->
  (forall i, i < n -> y i = Some (h i)) ->
  exists m', forN n (fun i m => x <- get m i ;; z <- y i ;; set m i (x * z)%R) m = Some m' /\ length m' = length m /\
    forall i, i < n -> vf m' i = (vf m i * h i)%R.
Proof.
  intros n y h m Hn Hy.
  destruct (@forN_inv (list R) (fun i m' => length m' = length m /\ forall q, vf m' q = if q <? i then (vf m q * h q)%R else vf m q)
    (fun i m => x <- get m i ;; z <- y i ;; set m i (x * z)%R) n m) as (m' & E & L & G).
  - split; auto.
  - intros i m1 Hi (L1 & G1). rewrite get_vf by lia. cbn [bind]. rewrite Hy by auto. cbn [bind].
    rewrite set_Some by lia. eexists. split; [reflexivity|]. split; [rewrite upd_length; auto|].
    intros q. rewrite vf_upd by lia. rewrite !G1.
    destruct (Nat.eqb_spec q i); destruct (Nat.ltb_spec q i); destruct (Nat.ltb_spec q (i + 1)); subst; try lia; auto.
    destruct (Nat.ltb_spec i i); [lia|reflexivity].
  - exists m'. split; auto. split; auto. intros i Hi. rewrite G. destruct (Nat.ltb_spec i n); [reflexivity|lia].
Qed.

Definition sizes_ok (t : tbasis R) : Prop :=
  0 < t_dim t /\ 0 < t_nc t /\ 0 < t_P t /\ 0 < t_Q t /\
  t_P t * t_Q t <= length (t_interp t) /\ t_P t * t_Q t <= length (t_grad t) /\ t_Q t <= length (t_w t).

Lemma mat_get : forall (m : list R) P Q q p, P * Q <= length m -> q < Q -> p < P -> get m (q * P + p) = Some (vf m (q * P + p)).
Proof. intros. apply get_vf. nia. Qed.

Lemma get_interp_ok : forall t, sizes_ok t ->
  exists m, get_interp t = Some m /\ length m = t_Q t ^ t_dim t * t_P t ^ t_dim t /\
    forall q p, q < t_Q t ^ t_dim t -> p < t_P t ^ t_dim t -> vf m (q * t_P t ^ t_dim t + p) = FI t q p.
Proof.
  intros t (Hd & Hnc & HP & HQ & Hi & Hg & Hw). unfold get_interp.
  set (NP := t_P t ^ t_dim t). set (NQ := t_Q t ^ t_dim t).
  match goal with |- context [forN (t_dim t) ?F ?s] => destruct (@forN_inv (list R)
    (fun n m => length m = NQ * NP /\ forall q p, q < NQ -> p < NP ->
       vf m (q * NP + p) = prodn n (fun i => vf (t_interp t) (dig (t_Q t) i q * t_P t + dig (t_P t) i p))) F (t_dim t) s)
    as (m & E & L & G) end.
  - split; [apply repeat_length|]. intros q p Hq Hp. cbn [prodn]. unfold vf. 
    rewrite nth_indep with (d' := 1%R) by (rewrite repeat_length; nia). apply nth_repeat.
  - intros d m Hd' (L & G).
    destruct (@forN_mulat (NQ * NP) (fun i => get (t_interp t) (dig (t_Q t) d (i / NP) * t_P t + dig (t_P t) d (i mod NP)))
      (fun i => vf (t_interp t) (dig (t_Q t) d (i / NP) * t_P t + dig (t_P t) d (i mod NP))) m) as (m' & E' & L' & G'); auto.
    { intros i Hi'. apply (@mat_get _ _ (t_Q t)); auto; apply dig_lt; auto. }
    exists m'. split; [|split].
    + rewrite <- E', forN_mul. apply forN_ext. intros q s Hq. apply forN_ext. intros p s' Hp.
      rewrite div_enc, mod_enc by auto. reflexivity.
    + congruence.
    + intros q p Hq Hp. rewrite G' by (apply enc_lt; auto). rewrite G by auto. rewrite div_enc, mod_enc by auto.
      rewrite Nat.add_1_r. reflexivity.
  - exists m. auto.
Qed.

Lemma get_grad_ok : forall t, sizes_ok t ->
  exists m, get_grad t = Some m /\ length m = t_dim t * t_Q t ^ t_dim t * t_P t ^ t_dim t /\
    forall d q p, d < t_dim t -> q < t_Q t ^ t_dim t -> p < t_P t ^ t_dim t ->
      vf m ((d * t_Q t ^ t_dim t + q) * t_P t ^ t_dim t + p) = FG t d q p.
Proof.
  intros t (Hd & Hnc & HP & HQ & Hi & Hg & Hw). unfold get_grad.
  set (NP := t_P t ^ t_dim t). set (NQ := t_Q t ^ t_dim t). set (dim := t_dim t) in *.
  match goal with |- context [forN dim ?F (repeat 1%R ?s)] => destruct (@forN_inv (list R)
    (fun n m => length m = dim * NQ * NP /\ forall d q p, d < dim -> q < NQ -> p < NP ->
       vf m ((d * NQ + q) * NP + p) = prodn n (fun i => vf (if i =? d then t_grad t else t_interp t) (dig (t_Q t) i q * t_P t + dig (t_P t) i p)))
       F dim (repeat 1%R s)) as (m & E & L & G) end.
  - split; [apply repeat_length|]. intros d q p Hd' Hq Hp. cbn [prodn]. unfold vf.
    pose proof (idx_lt Hd' Hq Hp).
    rewrite nth_indep with (d' := 1%R) by (rewrite repeat_length; auto). apply nth_repeat.
  - intros d m Hd' (L & G).
    destruct (@forN_mulat (dim * NQ * NP)
      (fun i => if i / NP / NQ =? d then get (t_grad t) (dig (t_Q t) d ((i / NP) mod NQ) * t_P t + dig (t_P t) d (i mod NP))
                else get (t_interp t) (dig (t_Q t) d ((i / NP) mod NQ) * t_P t + dig (t_P t) d (i mod NP)))
      (fun i => vf (if d =? i / NP / NQ then t_grad t else t_interp t) (dig (t_Q t) d ((i / NP) mod NQ) * t_P t + dig (t_P t) d (i mod NP))) m)
      as (m' & E' & L' & G'); auto.
    { intros i Hi'. rewrite (Nat.eqb_sym d). destruct (_ =? d); apply (@mat_get _ _ (t_Q t)); auto; apply dig_lt; auto. }
    exists m'. split; [|split].
    + rewrite <- E', !forN_mul. apply forN_ext. intros i s Hi'. apply forN_ext. intros q s' Hq. apply forN_ext. intros p s'' Hp.
      rewrite !div_enc, !mod_enc by auto. reflexivity.
    + congruence.
    + intros i q p Hi' Hq Hp. rewrite G' by (apply idx_lt; auto). rewrite G by auto.
      rewrite !div_enc, !mod_enc by auto.
      rewrite Nat.add_1_r. reflexivity.
  - exists m. auto.
Qed.
End M.
Arguments FI {R}. Arguments FG {R}. Arguments sizes_ok {R}.
