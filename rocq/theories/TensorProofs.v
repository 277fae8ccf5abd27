(** * Proofs about the contraction kernels *)
From Coq Require Import List ZArith Lia Bool Arith Ring.
From Verif Require Import Prelude Adds RstrModel RstrProofs TensorModel.
Import ListNotations.
Set Implicit Arguments.

Section T.
Variable R : Rng.
Add Ring Rr : (r_th R).

(** Entry (j,b) of the contracted matrix. *)
Definition tval (tm : tmode) (B J : nat) (t : list R) (j b : nat) : R :=
  vf t (match tm with NoTranspose => j * B + b | Transpose => b * J + j end).
(** sum over b of t(j,b) u(a,b,c) *)
Definition csum (tm : tmode) (B C J : nat) (t u : list R) (a j c : nat) : R :=
  sumn B (fun b => (tval tm B J t j b * vf u ((a * B + b) * C + c)%nat)%R).
Definition tcg (A B C J : nat) t tm u (q : nat) : R :=
  sumn A (fun a => sumn J (fun j => sumn C (fun c => delta (q =? (a * J + j) * C + c) (csum tm B C J t u a j c)))).

Lemma get_vf : forall (v : list R) i, i < length v -> get v i = Some (vf v i).
Proof. intros v i H. apply get_Some. auto. Qed.

Lemma t_get : forall tm B J (t : list R) j b, j < J -> b < B -> B * J <= length t ->
  get t (j * ts0 tm B + b * ts1 tm J) = Some (tval tm B J t j b).
Proof.
  intros tm B J t j b Hj Hb Hl. unfold tval, ts0, ts1. destruct tm.
  - replace (j * B + b * 1) with (j * B + b) by lia. apply get_vf. nia.
  - replace (j * 1 + b * J) with (b * J + j) by lia. apply get_vf. nia.
Qed.

Lemma delta_sumn : forall b n (f : nat -> R), delta b (sumn n f) = sumn n (fun i => delta b (f i)).
Proof. intros [] n f; unfold delta; [reflexivity|]. symmetry. apply sumn_zero. auto. Qed.

Lemma idx_lt : forall a j c A J C, a < A -> j < J -> c < C -> (a * J + j) * C + c < A * J * C.
Proof. intros. assert (a * J + j < A * J) by nia. nia. Qed.

(** The plain loop. *)
Lemma loop_adds : forall A B C J t tm u L, B * J <= length t -> A * B * C <= length u -> A * J * C <= L ->
  Adds R L (contract_loop A B C J t tm u) (tcg A B C J t tm u).
Proof.
  intros A B C J t tm u L Ht Hu HL. unfold contract_loop, tcg.
  eapply Adds_ext.
  - apply Adds_forN with (g := fun a q => sumn B (fun b => sumn J (fun j => sumn C (fun c =>
      delta (q =? (a * J + j) * C + c) (tval tm B J t j b * vf u ((a * B + b) * C + c)%nat)%R)))).
    intros a Ha. apply Adds_forN with (g := fun b q => _). intros b Hb.
    apply Adds_forN with (g := fun j q => _). intros j Hj.
    rewrite (@t_get tm B J t j b) by auto. cbn [bind].
    apply Adds_forN with (g := fun c q => delta (q =? (a * J + j) * C + c) (tval tm B J t j b * vf u ((a * B + b) * C + c)%nat)%R).
    intros c Hc. rewrite get_vf by (pose proof (idx_lt Ha Hb Hc); lia). cbn [bind].
    apply Adds_addat. pose proof (idx_lt Ha Hj Hc). lia.
  - intros q. apply sumn_ext. intros a Ha. rewrite sumn_swap. apply sumn_ext. intros j Hj.
    rewrite sumn_swap. apply sumn_ext. intros c Hc. unfold csum. rewrite delta_sumn. reflexivity.
Qed.

(** ** Tiles *)
Lemma forN_fill_mul4 : forall n (val : nat -> nat -> option R) (h : nat -> R) (v : list R),
  (forall i l, i < n -> l < 4 -> val i l = Some (h (i * 4 + l))) -> n * 4 <= length v ->
  forN n (fun i w => forN 4 (fun l w => x <- val i l ;; set w (i * 4 + l) x) w) v = Some (map h (seq 0 (n * 4)) ++ skipn (n * 4) v).
Proof.
  intros n val h v Hv Hl.
  rewrite <- (@forN_fill R (n * 4) (fun q => val (q / 4) (q mod 4)) h v).
  - rewrite forN_mul. apply forN_ext. intros i s Hi. apply forN_ext. intros l s' Hll.
    rewrite div_enc, mod_enc by auto. reflexivity.
  - intros q Hq. rewrite Hv.
    + f_equal. f_equal. pose proof (Nat.div_mod q 4 ltac:(lia)). lia.
    + apply Nat.div_lt_upper_bound; lia.
    + apply Nat.mod_upper_bound. lia.
  - auto.
Qed.

Lemma load_ok : forall n base (v : list R), (forall i, i < n -> base i + 3 < length v) ->
  exists w, tile_load n base v = Some w /\ length w = n * 4 /\ forall i l, i < n -> l < 4 -> vf w (i * 4 + l) = vf v (base i + l).
Proof.
  intros n base v Hb. unfold tile_load.
  rewrite forN_fill_mul4 with (h := fun q => vf v (base (q / 4) + q mod 4)).
  - eexists. split; [reflexivity|]. rewrite skipn_all2 by (rewrite repeat_length; auto). rewrite app_nil_r.
    split; [rewrite map_length, seq_length; auto|].
    intros i l Hi Hl. rewrite vf_map_seq by nia. rewrite div_enc, mod_enc by auto. reflexivity.
  - intros i l Hi Hl. rewrite div_enc, mod_enc by auto. apply get_vf. specialize (Hb i Hi). lia.
  - rewrite repeat_length. auto.
Qed.

(** Storing the tile adds [D], provided a lane overwritten by a later register carries no change. *)
Lemma store_ok : forall n base (v0 w : list R) (D : nat -> R),
  (forall i, i < n -> base i + 3 < length v0) -> length w = n * 4 ->
  (forall i l, i < n -> l < 4 -> vf w (i * 4 + l) = (vf v0 (base i + l) + D (i * 4 + l)%nat)%R) ->
  (forall i i' l l', i < i' -> i' < n -> l < 4 -> l' < 4 -> base i + l = base i' + l' -> D (i * 4 + l) = 0%R) ->
  exists v', tile_store n base w v0 = Some v' /\ length v' = length v0 /\
    forall q, vf v' q = (vf v0 q + sumn n (fun i => sumn 4 (fun l => delta (q =? base i + l)%nat (D (i * 4 + l)%nat))))%R.
Proof.
  intros n base v0 w D Hb Hw HD Hov. unfold tile_store.
  destruct (@forN_inv _ (fun m v => length v = length v0 /\
     forall q, vf v q = (vf v0 q + sumn m (fun i => sumn 4 (fun l => delta (q =? base i + l)%nat (D (i * 4 + l)%nat))))%R)
     (fun i v => forN 4 (fun l v => x <- get w (i * 4 + l) ;; set v (base i + l) x) v) n v0) as (v' & E & HP).
  - split; auto. intros q. rewrite sumn_0. ring.
  - intros m v Hm (Lv & Gv).
    destruct (@forN_inv _ (fun k (v1 : list R) => length v1 = length v0 /\
       forall q, vf v1 q = if (base m <=? q) && (q <? base m + k) then (vf v0 q + D (m * 4 + (q - base m))%nat)%R else vf v q)
       (fun l v => x <- get w (m * 4 + l) ;; set v (base m + l) x) 4 v) as (v1 & E1 & L1 & G1).
    + split; auto. intros q. destruct (Nat.leb_spec (base m) q); destruct (Nat.ltb_spec q (base m + 0)); simpl; auto; lia.
    + intros l v1 Hl (L1 & G1). rewrite get_vf by nia. cbn [bind]. rewrite HD by auto.
      rewrite set_Some by (specialize (Hb m Hm); lia). eexists. split; [reflexivity|].
      rewrite upd_length. split; auto. intros q. rewrite vf_upd by (specialize (Hb m Hm); lia). rewrite G1.
      destruct (Nat.eqb_spec q (base m + l)).
      * subst. destruct (Nat.leb_spec (base m) (base m + l)); [|lia]. destruct (Nat.ltb_spec (base m + l) (base m + (l + 1))); [|lia].
        simpl. replace (base m + l - base m) with l by lia. reflexivity.
      * destruct (Nat.leb_spec (base m) q); destruct (Nat.ltb_spec q (base m + l)); destruct (Nat.ltb_spec q (base m + (l + 1))); simpl; auto; lia.
    + exists v1. split; auto. split; auto. intros q. rewrite G1. replace (m + 1) with (S m) by lia. rewrite sumn_S.
      destruct (Nat.leb_spec (base m) q); destruct (Nat.ltb_spec q (base m + 4)); simpl.
      * rewrite sumn_zero with (f := fun i => _).
        2:{ intros i Hi. apply sumn_zero. intros l Hl. unfold delta. destruct (Nat.eqb_spec q (base i + l)); auto.
            apply (Hov i m l (q - base m)); auto; lia. }
        rewrite sumn_ext with (g := fun l => delta (l =? q - base m) (D (m * 4 + l)%nat)).
        2:{ intros l Hl. f_equal. apply eq_true_iff_eq. rewrite !Nat.eqb_eq. lia. }
        rewrite sumn_delta. destruct (Nat.ltb_spec (q - base m) 4); [|lia]. unfold delta. ring.
      * rewrite Gv. rewrite (@sumn_zero R 4).
        2:{ intros l Hl. unfold delta. destruct (Nat.eqb_spec q (base m + l)); auto. lia. }
        ring.
      * rewrite Gv. rewrite (@sumn_zero R 4).
        2:{ intros l Hl. unfold delta. destruct (Nat.eqb_spec q (base m + l)); auto. lia. }
        ring.
      * lia.
  - exists v'. split; auto.
Qed.

Lemma fmadd4_adds : forall L i x y (fx fy : nat -> R), i * 4 + 4 <= L ->
  (forall l, l < 4 -> x l = Some (fx l)) -> (forall l, l < 4 -> y l = Some (fy l)) ->
  Adds R L (fmadd4 i x y) (fun q => sumn 4 (fun l => delta (q =? i * 4 + l)%nat (fx l * fy l)%R)).
Proof.
  intros L i x y fx fy HL Hx Hy. unfold fmadd4.
  apply Adds_forN with (g := fun l q => delta (q =? i * 4 + l)%nat (fx l * fy l)%R).
  intros l Hl. rewrite Hx, Hy by auto. cbn [bind]. apply Adds_addat. lia.
Qed.

(** A whole tile: load, accumulate, store. *)
Lemma tile_adds : forall L n base acc (D : nat -> nat -> R),
  (forall i, i < n -> base i + 3 < L) ->
  Adds R (n * 4) acc (fun q => sumn n (fun i => sumn 4 (fun l => delta (q =? i * 4 + l)%nat (D i l)))) ->
  (forall i i' l l', i < i' -> i' < n -> l < 4 -> l' < 4 -> base i + l = base i' + l' -> D i l = 0%R) ->
  Adds R L (fun v => w <- tile_load n base v ;; w <- acc w ;; tile_store n base w v)
    (fun q => sumn n (fun i => sumn 4 (fun l => delta (q =? base i + l)%nat (D i l)))).
Proof.
  intros L n base acc D Hb Hacc Hov v Hv.
  destruct (@load_ok n base v) as (w & Ew & Lw & Gw). { intros i Hi. rewrite Hv. auto. }
  destruct (Hacc w Lw) as (w' & Ew' & Lw' & Gw').
  rewrite Ew. cbn [bind]. rewrite Ew'. cbn [bind].
  destruct (@store_ok n base v w' (fun q => D (q / 4) (q mod 4))) as (v' & Ev' & Lv' & Gv').
  - intros i Hi. rewrite Hv. auto.
  - auto.
  - intros i l Hi Hl. rewrite Gw', Gw by auto. f_equal. rewrite div_enc, mod_enc by auto.
    transitivity (sumn n (fun i' => delta (i' =? i) (D i' l))).
    + apply sumn_ext. intros i' Hi'.
      rewrite sumn_ext with (g := fun l' => delta (l' =? l) (delta (i' =? i) (D i' l'))).
      * rewrite sumn_delta. destruct (Nat.ltb_spec l 4); [reflexivity|lia].
      * intros l' Hl'. unfold delta. destruct (Nat.eqb_spec (i * 4 + l) (i' * 4 + l'));
          destruct (Nat.eqb_spec l' l); destruct (Nat.eqb_spec i' i); auto; lia.
    + rewrite sumn_delta. destruct (Nat.ltb_spec i n); [reflexivity|lia].
  - intros i i' l l' H1 H2 H3 H4 H5. rewrite div_enc, mod_enc by auto. eapply Hov; eauto.
  - exists v'. split; auto. split; [congruence|]. intros q. rewrite Gv'. f_equal.
    apply sumn_ext. intros i Hi. apply sumn_ext. intros l Hl. rewrite div_enc, mod_enc by auto. reflexivity.
Qed.
End T.
Arguments tval {R}. Arguments csum {R}. Arguments tcg {R}.
