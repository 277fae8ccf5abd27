(** * Basis application, mode by mode *)
From Coq Require Import List ZArith Lia Bool Arith Ring.
From Verif Require Import Prelude Adds RstrModel RstrProofs TensorModel TensorProofs TensorMain Digits BasisModel BasisProofs BasisMain.
Import ListNotations.
Set Implicit Arguments.

Section A.
Variable R : Rng.
Add Ring Rr : (r_th R).
Local Open Scope nat_scope.

(** A basis as the constructor leaves it: sizes; the collocated flag tells the truth; the collocated
    gradient satisfies its defining equation. *)
Definition t_wf (Jmin : nat) (t : tbasis R) : Prop :=
  sizes_ok t /\ Jmin <= t_P t /\ Jmin <= t_Q t /\
  (t_collo t = true -> t_Q t = t_P t /\ t_cg t = None /\
     forall q p, q < t_Q t -> p < t_P t -> vf (t_interp t) (q * t_P t + p) = delta (q =? p) 1%R) /\
  (forall cg, t_cg t = Some cg -> t_P t <= t_Q t /\ t_Q t * t_Q t <= length cg /\
     forall q p, q < t_Q t -> p < t_P t ->
       sumn (t_Q t) (fun b => vf cg (q * t_Q t + b)%nat * vf (t_interp t) (b * t_P t + p)%nat)%R = vf (t_grad t) (q * t_P t + p)).

Lemma alloc_length : forall n (j : nat -> R), length (alloc n j) = n.
Proof. intros. unfold alloc. rewrite map_length, seq_length. reflexivity. Qed.

Lemma kapply_n : forall A B C J M add (u v v' : list R), kapply A B C J M add u v v' -> app_n A B C 1 J (fun _ => M) add u v v'.
Proof.
  intros A B C J M add u v v' (L & G & N). split; auto. split.
  - intros d a j c Hd Ha Hj Hc. replace d with 0 by lia. cbn [Nat.mul Nat.add]. apply G; auto.
  - intros q Hq. apply N. lia.
Qed.
Lemma kapply_t : forall A B C J M add (u v v' : list R), kapply A B C J (fun j b => M b j) add u v v' -> app_t A J C 1 B (fun _ => M) add u v v'.
Proof.
  intros A B C J M add u v v' (L & G & N). split; auto. split; [|auto].
  intros a b c Ha Hb Hc. rewrite G by auto. rewrite sumn_S, sumn_0. cbn [Nat.mul Nat.add]. f_equal. symmetry. apply (Radd_0_l (r_th R)).
Qed.
Lemma app_n_ext : forall A B C D J M M' add (u v v' : list R),
  (forall d j b, d < D -> j < J -> b < B -> M d j b = M' d j b) -> app_n A B C D J M add u v v' -> app_n A B C D J M' add u v v'.
Proof.
  intros A B C D J M M' add u v v' H (L & G & N). split; auto. split; auto. intros d a j c Hd Ha Hj Hc.
  rewrite G by auto. f_equal. apply sumn_ext. intros b Hb. rewrite H by auto. reflexivity.
Qed.
Lemma app_t_ext : forall A B C D J M M' add (u v v' : list R),
  (forall d j b, d < D -> j < J -> b < B -> M d j b = M' d j b) -> app_t A B C D J M add u v v' -> app_t A B C D J M' add u v v'.
Proof.
  intros A B C D J M M' add u v v' H (L & G & N). split; auto. split; auto. intros a b c Ha Hb Hc.
  rewrite G by auto. f_equal. apply sumn_ext. intros d Hd. apply sumn_ext. intros j Hj. rewrite H by auto. reflexivity.
Qed.

Lemma FG_split : forall (t : tbasis R) d q p, d < t_dim t -> FG t d q p =
  (vf (t_grad t) (dig (t_Q t) d q * t_P t + dig (t_P t) d p)%nat *
   prodn (t_dim t) (fun i => if i =? d then 1 else vf (t_interp t) (dig (t_Q t) i q * t_P t + dig (t_P t) i p)%nat))%R.
Proof.
  intros t d q p Hd. rewrite <- prodn_change by auto. unfold FG. apply prodn_ext. intros i Hi.
  destruct (Nat.eqb_spec i d) as [->|]; reflexivity.
Qed.
Lemma FI_set : forall (t : tbasis R) d b q p, d < t_dim t -> 0 < t_Q t -> b < t_Q t -> FI t (setdig (t_Q t) d b q) p =
  (vf (t_interp t) (b * t_P t + dig (t_P t) d p)%nat *
   prodn (t_dim t) (fun i => if i =? d then 1 else vf (t_interp t) (dig (t_Q t) i q * t_P t + dig (t_P t) i p)%nat))%R.
Proof.
  intros t d b q p Hd HQ Hb. rewrite <- prodn_change by auto. unfold FI. apply prodn_ext. intros i Hi.
  rewrite dig_setdig by auto. destruct (Nat.eqb_spec i d) as [->|]; reflexivity.
Qed.

Lemma cg_compose : forall Jmin (t : tbasis R) cg d q p, t_wf Jmin t -> t_cg t = Some cg -> d < t_dim t ->
  sumn (t_Q t) (fun b => vf cg (dig (t_Q t) d q * t_Q t + b)%nat * FI t (setdig (t_Q t) d b q) p)%R = FG t d q p.
Proof.
  intros Jmin t cg d q p ((Hd & Hnc & HP & HQ & _) & _ & _ & _ & Hcg) E Hdd.
  destruct (Hcg cg E) as (_ & _ & Hc). rewrite FG_split by auto.
  rewrite <- Hc by (apply dig_lt; auto). rewrite <- sumn_mul_r. apply sumn_ext. intros b Hb.
  rewrite FI_set by auto. ring.
Qed.

Lemma setdig_back : forall Q d b q, 0 < Q -> b < Q -> setdig Q d (dig Q d q) (setdig Q d b q) = q.
Proof.
  intros Q d b q HQ Hb. unfold setdig at 2. rewrite setdig_enc; auto.
  - symmetry. apply dig_split. auto.
  - apply Nat.mod_upper_bound. pose proof (pow_pos d HQ). lia.
Qed.

Section T.
Variables (k : kernel R) (Jmin : nat) (junk : nat -> nat -> R) (t : tbasis R) (ne : nat).
Hypothesis Hk : kernel_ok Jmin k.
Hypothesis Hwf : t_wf Jmin t.
Let dim := t_dim t.
Let nc := t_nc t.
Let P := t_P t.
Let Q := t_Q t.

Lemma max_same : forall a, Nat.max a a = a. Proof. intros. lia. Qed.
Lemma pow_pred : forall a n, 0 < n -> a * a ^ (n - 1) = a ^ n.
Proof. intros a n H. replace n with (S (n - 1)) at 2 by lia. reflexivity. Qed.

Lemma interp_copy : forall n (u v : list R), n <= length u -> n <= length v ->
  exists v', forN n (fun i v => x <- get u i ;; set v i x) v = Some v' /\ length v' = length v /\
    (forall i, i < n -> vf v' i = vf u i) /\ (forall i, n <= i -> vf v' i = vf v i).
Proof.
  intros n u v Hu Hv. rewrite (@forN_fill _ n (fun i => get u i) (vf u)) by (auto; intros; apply get_vf; lia).
  eexists. split; [reflexivity|]. split; [|split].
  - rewrite app_length, map_length, seq_length, skipn_length. lia.
  - intros i Hi. unfold vf. rewrite app_nth1 by (rewrite map_length, seq_length; lia).
    rewrite nth_indep with (d' := vf u 0) by (rewrite map_length, seq_length; lia). rewrite map_nth, seq_nth by lia. reflexivity.
  - intros i Hi. unfold vf. rewrite app_nth2 by (rewrite map_length, seq_length; lia).
    rewrite map_length, seq_length, nth_skipn. f_equal. lia.
Qed.

(** Interpolation *)
Lemma tensor_interp_n : forall u v, nc * P ^ dim * ne <= length u -> nc * Q ^ dim * ne <= length v ->
  exists v', apply_tensor k junk t false ne NoTranspose EvInterp u v = Ok v' /\
    app_n nc (P ^ dim) ne 1 (Q ^ dim) (fun _ => FI t) false u v v'.
Proof.
  intros u v Hu Hv. destruct Hwf as ((Hd & Hnc & HP & HQ & Hi & Hg & Hw) & HJP & HJQ & Hco & Hcg).
  unfold apply_tensor. fold dim nc P Q in Hd, Hnc, HP, HQ, Hi, Hg, Hw, HJP, HJQ, Hco, Hcg |- *. destruct (t_collo t) eqn:Ec.
  - destruct (Hco eq_refl) as (EQ & _ & Hid).
    destruct (@interp_copy (ne * nc * P ^ dim) u v) as (v' & E & L & G & N).
    { replace (ne * nc * P ^ dim) with (nc * P ^ dim * ne) by ring. auto. }
    { rewrite <- EQ. replace (ne * nc * Q ^ dim) with (nc * Q ^ dim * ne) by ring. auto. }
    rewrite E. cbn [ofopt]. eexists. split; [reflexivity|]. split; auto. split.
    + intros d a j c Hd' Ha Hj Hc. replace d with 0 by lia. cbn [Nat.mul Nat.add]. rewrite EQ in Hj |- * || rewrite ?EQ.
      rewrite G. 2:{ pose proof (idx_lt Ha Hj Hc). nia. }
      rewrite sumn_ext with (g := fun b => delta (b =? j) (vf u ((a * P ^ dim + b) * ne + c))).
      * rewrite sumn_delta. apply Nat.ltb_lt in Hj. rewrite Hj. unfold delta. ring.
      * intros b Hb. unfold FI. fold dim P Q. rewrite EQ.
        rewrite prodn_ext with (g := fun i => delta (dig P i j =? dig P i b) 1%R).
        -- rewrite prodn_delta by auto. rewrite Nat.eqb_sym. unfold delta. destruct (b =? j); ring.
        -- intros i Hi'. apply Hid; rewrite ?EQ; apply dig_lt; auto.
    + intros q Hq. apply N. rewrite <- EQ. nia.
  - destruct (@chain_ok R k Jmin dim nc ne P Q (fun _ => t_interp t) NoTranspose u Hk Hd Hnc HP HQ HJQ ltac:(intros; auto) Hu false
      (alloc (ne * nc * Q * Nat.max P Q ^ (dim - 1)) (junk 0), alloc (ne * nc * Q * Nat.max P Q ^ (dim - 1)) (junk 1)) v)
      as (T' & v' & E & _ & _ & K); auto; try (cbn [fst snd]; rewrite alloc_length; lia).
    cbn [orb]. rewrite E. cbn [bind snd ofopt]. eexists. split; [reflexivity|]. apply kapply_n. exact K.
Qed.

Lemma tensor_interp_t : forall aa u v, nc * Q ^ dim * ne <= length u -> nc * P ^ dim * ne <= length v ->
  exists v', apply_tensor k junk t aa ne Transpose EvInterp u v = Ok v' /\
    app_t nc (P ^ dim) ne 1 (Q ^ dim) (fun _ => FI t) (negb (t_collo t)) u v v'.
Proof.
  intros aa u v Hu Hv. destruct Hwf as ((Hd & Hnc & HP & HQ & Hi & Hg & Hw) & HJP & HJQ & Hco & Hcg).
  unfold apply_tensor. fold dim nc P Q in Hd, Hnc, HP, HQ, Hi, Hg, Hw, HJP, HJQ, Hco, Hcg |- *. destruct (t_collo t) eqn:Ec.
  - destruct (Hco eq_refl) as (EQ & _ & Hid). cbn [negb].
    destruct (@interp_copy (ne * nc * P ^ dim) u v) as (v' & E & L & G & N).
    { rewrite <- EQ. replace (ne * nc * Q ^ dim) with (nc * Q ^ dim * ne) by ring. auto. }
    { replace (ne * nc * P ^ dim) with (nc * P ^ dim * ne) by ring. auto. }
    rewrite E. cbn [ofopt]. eexists. split; [reflexivity|]. split; auto. split.
    + intros a j c Ha Hj Hc. rewrite sumn_S, sumn_0. cbn [Nat.mul Nat.add]. rewrite EQ in Hj |- * || rewrite ?EQ.
      rewrite G. 2:{ pose proof (idx_lt Ha Hj Hc). nia. }
      rewrite sumn_ext with (g := fun b => delta (b =? j) (vf u ((a * P ^ dim + b) * ne + c))).
      * rewrite sumn_delta. apply Nat.ltb_lt in Hj. rewrite Hj. unfold delta. ring.
      * intros b Hb. unfold FI. fold dim P Q. rewrite EQ.
        rewrite prodn_ext with (g := fun i => delta (dig P i b =? dig P i j) 1%R).
        -- rewrite prodn_delta by auto. unfold delta. destruct (b =? j); ring.
        -- intros i Hi'. apply Hid; rewrite ?EQ; apply dig_lt; auto.
    + intros q Hq. apply N. nia.
  - destruct (@chain_ok R k Jmin dim nc ne Q P (fun _ => t_interp t) Transpose u Hk Hd Hnc HQ HP HJP ltac:(intros; rewrite Nat.mul_comm; auto) Hu true
      (alloc (ne * nc * P * Nat.max Q P ^ (dim - 1)) (junk 0), alloc (ne * nc * P * Nat.max Q P ^ (dim - 1)) (junk 1)) v)
      as (T' & v' & E & _ & _ & K); auto; try (cbn [fst snd]; rewrite alloc_length; lia).
    rewrite Bool.orb_true_r. rewrite E. cbn [bind snd ofopt]. eexists. split; [reflexivity|]. apply kapply_t. exact K.
Qed.

(** Gradient *)
Lemma tensor_grad_n : forall u v, nc * P ^ dim * ne <= length u -> dim * nc * Q ^ dim * ne <= length v ->
  exists v', apply_tensor k junk t false ne NoTranspose EvGrad u v = Ok v' /\
    app_n nc (P ^ dim) ne dim (Q ^ dim) (FG t) false u v v'.
Proof.
  intros u v Hu Hv. destruct Hwf as ((Hd & Hnc & HP & HQ & Hi & Hg & Hw) & HJP & HJQ & Hco & Hcg).
  unfold apply_tensor. fold dim nc P Q in Hd, Hnc, HP, HQ, Hi, Hg, Hw, HJP, HJQ, Hco, Hcg |- *. destruct (t_cg t) as [cg|] eqn:Ecg.
  - destruct (Hcg cg eq_refl) as (HPQ & Hcl & Hc).
    assert (Hsz : ne * nc * Q * Nat.max P Q ^ (dim - 1) = nc * Q ^ dim * ne).
    { replace (Nat.max P Q) with Q by lia. rewrite <- (@pow_pred Q dim) by auto. ring. }
    destruct (@chain_ok R k Jmin dim nc ne P Q (fun _ => t_interp t) NoTranspose u Hk Hd Hnc HP HQ HJQ ltac:(intros; auto) Hu false
      (alloc (ne * nc * Q * Nat.max P Q ^ (dim - 1)) (junk 0), alloc (ne * nc * Q * Nat.max P Q ^ (dim - 1)) (junk 1))
      (alloc (ne * nc * Q * Nat.max P Q ^ (dim - 1)) (junk 2)))
      as (T' & itp & E & _ & _ & (Li & Gi & _)); auto; try (cbn [fst snd]; rewrite alloc_length; lia).
    rewrite E. cbn [bind snd]. rewrite alloc_length in Li.
    destruct (@dirs_n R k Jmin dim nc ne Q cg false itp v) as (v' & Ev & Lv & Gv & Nv); auto; try lia.
    rewrite Ev. cbn [ofopt]. eexists. split; [reflexivity|]. split; auto. split; auto.
    intros d a j c Hdd Ha Hj Hcc. rewrite Gv by auto. f_equal.
    transitivity (sumn Q (fun b => sumn (P ^ dim) (fun p => (vf cg (dig Q d j * Q + b)%nat * FI t (setdig Q d b j) p) * vf u ((a * P ^ dim + p) * ne + c)%nat)%R)).
    { apply sumn_ext. intros b Hb. rewrite Gi by (auto; apply setdig_lt; auto). rewrite (Radd_0_l (r_th R)), <- sumn_mul_l.
      apply sumn_ext. intros p Hp. rewrite (Rmul_assoc (r_th R)). reflexivity. }
    rewrite sumn_swap. apply sumn_ext. intros p Hp. rewrite sumn_mul_r. f_equal. exact (@cg_compose Jmin t cg d j p Hwf Ecg Hdd).
  - destruct (t_collo t) eqn:Ec.
    + destruct (Hco eq_refl) as (EQ & _ & Hid).
      destruct (@dirs_n R k Jmin dim nc ne P (t_grad t) false u v) as (v' & Ev & Lv & Gv & Nv); auto; try lia.
      { rewrite <- EQ. auto. }
      cbn [orb andb]. rewrite EQ. rewrite Ev. cbn [ofopt]. eexists. split; [reflexivity|].
      split; auto. split; auto.
      intros d a j c Hdd Ha Hj Hcc. rewrite Gv by auto. f_equal.
      rewrite <- (@sumn_ident R P dim d j (fun b => vf (t_grad t) (dig P d j * P + b)) (fun p => vf u ((a * P ^ dim + p) * ne + c))) by auto.
      apply sumn_ext. intros p Hp. f_equal. unfold FG. fold dim P Q. rewrite EQ. apply prodn_ext. intros i Hi'.
      destruct (Nat.eqb_spec i d) as [->|]; auto. symmetry. apply Hid; rewrite ?EQ; apply dig_lt; auto.
    + set (n := ne * nc * Q * Nat.max P Q ^ (dim - 1)).
      match goal with |- context [forN dim ?F ?s] =>
        destruct (@slots_n R nc (P ^ dim) ne dim (Q ^ dim) (FG t) false u v (bufs R) F (fst s)
          (fun _ T => n <= length (fst T) /\ n <= length (snd T))) as (T' & v' & E & _ & G) end; auto.
      * cbn [fst snd]. rewrite !alloc_length. auto.
      * intros d T v1 Hdd (HT0 & HT1) L1. cbn [orb].
        assert (Hmul : d * nc * Q ^ dim * ne + nc * Q ^ dim * ne <= dim * nc * Q ^ dim * ne).
        { replace (d * nc * Q ^ dim * ne + nc * Q ^ dim * ne) with (S d * (nc * Q ^ dim * ne)) by ring.
          replace (dim * nc * Q ^ dim * ne) with (dim * (nc * Q ^ dim * ne)) by ring. apply Nat.mul_le_mono_r. lia. }
        assert (Hmd : forall d', d' < dim -> P * Q <= length (if d =? d' then t_grad t else t_interp t)) by (intros d' _; destruct (d =? d'); auto).
        destruct (@chain_ok R k Jmin dim nc ne P Q (fun d' => if d =? d' then t_grad t else t_interp t) NoTranspose u Hk Hd Hnc HP HQ HJQ
           Hmd Hu false T (skipn (d * nc * Q ^ dim * ne) v1)) as (T' & w & E & LT0 & LT1 & (Lw & Gw & Nw)); auto.
        { rewrite skipn_length. lia. }
        rewrite E. cbn [bind fst snd]. rewrite skipn_length in Lw.
        assert (Lf : length (firstn (d * nc * Q ^ dim * ne) v1) = d * nc * Q ^ dim * ne) by (rewrite firstn_length; lia).
        exists T', (firstn (d * nc * Q ^ dim * ne) v1 ++ w). split; [reflexivity|]. split; [rewrite LT0, LT1; auto|].
        assert (Hhi : forall q, vf (firstn (d * nc * Q ^ dim * ne) v1 ++ w) (d * nc * Q ^ dim * ne + q) = vf w q).
        { intros q. unfold vf. rewrite app_nth2 by lia. f_equal. lia. }
        split; [rewrite app_length; lia|]. split; [|split].
        -- intros q Hq. unfold vf. rewrite app_nth1 by lia. rewrite <- (firstn_skipn (d * nc * Q ^ dim * ne) v1) at 2. rewrite app_nth1 by lia. reflexivity.
        -- intros a j c Ha Hj Hcc. rewrite Hhi, Gw by auto. f_equal. apply sumn_ext. intros b Hb. f_equal.
           unfold Kd, FG. apply prodn_ext. intros i Hi'. rewrite (Nat.eqb_sym d). reflexivity.
        -- intros q Hq. rewrite Hhi, Nw by auto. apply vf_skipn.
      * match goal with |- context [forN dim ?F ?s] => replace (forN dim F s) with (Some (T', v')) by (symmetry; exact E) end. cbn [bind snd ofopt]. exists v'. auto.
Qed.

Lemma tensor_grad_t : forall aa u v, dim * nc * Q ^ dim * ne <= length u -> nc * P ^ dim * ne <= length v ->
  exists v', apply_tensor k junk t aa ne Transpose EvGrad u v = Ok v' /\
    app_t nc (P ^ dim) ne dim (Q ^ dim) (FG t) (negb (t_collo t)) u v v'.
Proof.
  intros aa u v Hu Hv. destruct Hwf as ((Hd & Hnc & HP & HQ & Hi & Hg & Hw) & HJP & HJQ & Hco & Hcg).
  unfold apply_tensor. fold dim nc P Q in Hd, Hnc, HP, HQ, Hi, Hg, Hw, HJP, HJQ, Hco, Hcg |- *. rewrite Bool.orb_true_r. destruct (t_cg t) as [cg|] eqn:Ecg.
  - destruct (Hcg cg eq_refl) as (HPQ & Hcl & Hc).
    assert (Enc : t_collo t = false).
    { destruct (t_collo t) eqn:E; auto. destruct (Hco eq_refl) as (_ & E' & _). discriminate. }
    rewrite Enc. cbn [negb].
    assert (Hsz : ne * nc * Q * Nat.max Q Q ^ (dim - 1) = nc * Q ^ dim * ne).
    { rewrite max_same. rewrite <- (@pow_pred Q dim) by auto. ring. }
    destruct (@dirs_t R k Jmin dim nc ne Q cg (fun d => 0 <? d) u (alloc (ne * nc * Q * Nat.max Q Q ^ (dim - 1)) (junk 2)))
      as (itp & Ei & Li & Gi & _); auto.
    { intros d Hd1 _. apply Nat.ltb_lt. auto. }
    { rewrite alloc_length. lia. }
    rewrite Ei. cbn [bind]. rewrite alloc_length in Li. cbn [Nat.ltb Nat.leb] in Gi.
    assert (Hbuf : ne * nc * P * Nat.max Q P ^ (dim - 1) <= ne * nc * Q * Nat.max Q Q ^ (dim - 1)).
    { replace (Nat.max Q P) with Q by lia. rewrite max_same. apply Nat.mul_le_mono_r. apply Nat.mul_le_mono_l. auto. }
    destruct (@chain_ok R k Jmin dim nc ne Q P (fun _ => t_interp t) Transpose itp Hk Hd Hnc HQ HP HJP ltac:(intros; rewrite Nat.mul_comm; auto) ltac:(lia) true
      (alloc (ne * nc * Q * Nat.max Q Q ^ (dim - 1)) (junk 0), alloc (ne * nc * Q * Nat.max Q Q ^ (dim - 1)) (junk 1)) v)
      as (T' & v' & E & _ & _ & (Lv & Gv & Nv)); auto; try (cbn [fst snd]; rewrite alloc_length; lia).
    rewrite E. cbn [bind snd ofopt]. eexists. split; [reflexivity|]. split; auto. split; auto.
    intros a b c Ha Hb Hcc. rewrite Gv by auto. f_equal.
    transitivity (sumn (Q ^ dim) (fun q => sumn dim (fun d => sumn Q (fun x =>
      (FI t (setdig Q d (dig Q d q) (setdig Q d x q)) b * vf cg (x * Q + dig Q d q)%nat * vf u (((d * nc + a) * Q ^ dim + setdig Q d x q) * ne + c)%nat)%R)))).
    { apply sumn_ext. intros q Hq. rewrite Gi by auto. rewrite (Radd_0_l (r_th R)).
      rewrite <- sumn_mul_l. apply sumn_ext. intros d Hdd. rewrite <- sumn_mul_l. apply sumn_ext. intros x Hx.
      rewrite setdig_back by auto. rewrite <- (Rmul_assoc (r_th R)). reflexivity. }
    rewrite sumn_swap. apply sumn_ext. intros d Hdd.
    rewrite (@sumn_reindex R Q dim d (fun a' b' q' => FI t (setdig Q d a' q') b * vf cg (b' * Q + a')%nat * vf u (((d * nc + a) * Q ^ dim + q') * ne + c)%nat)%R) by auto.
    apply sumn_ext. intros q Hq. rewrite sumn_mul_r. f_equal.
    rewrite <- (@cg_compose Jmin t cg d q b Hwf Ecg Hdd). apply sumn_ext. intros x Hx. apply (Rmul_comm (r_th R)).
  - destruct (t_collo t) eqn:Ec.
    + destruct (Hco eq_refl) as (EQ & _ & Hid). cbn [negb].
      destruct (@dirs_t R k Jmin dim nc ne Q (t_grad t) (fun d => true && (0 <? d)) u v) as (v' & Ev & Lv & Gv & Nv); auto; try lia.
      { intros d Hd1 _. cbn [andb]. apply Nat.ltb_lt. auto. }
      { rewrite EQ. auto. }
      rewrite Ev. cbn [ofopt]. eexists. split; [reflexivity|].
      cbn [Nat.ltb Nat.leb andb] in Gv. rewrite EQ in Gv, Nv |- *. split; auto. split; auto.
      intros a b c Ha Hb Hcc. rewrite Gv by auto. f_equal. apply sumn_ext. intros d Hdd.
      rewrite <- (@sumn_ident R P dim d b (fun x => vf (t_grad t) (x * P + dig P d b)) (fun q => vf u (((d * nc + a) * P ^ dim + q) * ne + c))) by auto.
      apply sumn_ext. intros q Hq. f_equal. unfold FG. fold dim P Q. rewrite EQ. apply prodn_ext. intros i Hi'.
      destruct (Nat.eqb_spec i d) as [->|]; auto. rewrite Nat.eqb_sym. symmetry. apply Hid; rewrite ?EQ; apply dig_lt; auto.
    + cbn [negb]. set (n := ne * nc * P * Nat.max Q P ^ (dim - 1)).
      match goal with |- context [forN dim ?F ?s] =>
        destruct (@slots_t R nc (P ^ dim) ne dim (Q ^ dim) (FG t) (fun _ => true) u v (bufs R) F (fst s)
          (fun _ T => n <= length (fst T) /\ n <= length (snd T))) as (T' & v' & E & _ & G) end; auto.
      * cbn [fst snd]. rewrite !alloc_length. auto.
      * intros d T v1 Hdd (HT0 & HT1) L1.
        assert (Hmul : d * nc * Q ^ dim * ne + nc * Q ^ dim * ne <= dim * nc * Q ^ dim * ne).
        { replace (d * nc * Q ^ dim * ne + nc * Q ^ dim * ne) with (S d * (nc * Q ^ dim * ne)) by ring.
          replace (dim * nc * Q ^ dim * ne) with (dim * (nc * Q ^ dim * ne)) by ring. apply Nat.mul_le_mono_r. lia. }
        assert (Hmd : forall d', d' < dim -> Q * P <= length (if d =? d' then t_grad t else t_interp t)) by (intros d' _; rewrite Nat.mul_comm; destruct (d =? d'); auto).
        destruct (@chain_ok R k Jmin dim nc ne Q P (fun d' => if d =? d' then t_grad t else t_interp t) Transpose
           (skipn (d * nc * Q ^ dim * ne) u) Hk Hd Hnc HQ HP HJP
           Hmd ltac:(rewrite skipn_length; lia) true T v1) as (T' & w & E & LT0 & LT1 & (Lw & Gw & Nw)); auto.
        { lia. }
        rewrite E. exists T', w. split; [reflexivity|]. split; [rewrite LT0, LT1; auto|]. split; [congruence|]. split; auto.
        intros a b c Ha Hb Hcc. rewrite Gw by auto. f_equal. apply sumn_ext. intros q Hq. rewrite vf_skipn.
        f_equal.
        -- unfold Kd, FG. apply prodn_ext. intros i Hi'. rewrite (Nat.eqb_sym d). reflexivity.
        -- f_equal. ring.
      * match goal with |- context [forN dim ?F ?s] => replace (forN dim F s) with (Some (T', v')) by (symmetry; exact E) end. cbn [bind snd ofopt]. exists v'. auto.
Qed.
End T.

(** Quadrature weights: the product of the 1D weights *)
Lemma weights_ok : forall dim ne Q (w v : list R), 0 < dim -> 0 < ne -> 0 < Q -> Q <= length w -> Q ^ dim * ne <= length v ->
  exists v', weights dim ne Q w v = Some v' /\ length v' = length v /\
    (forall q e, q < Q ^ dim -> e < ne -> vf v' (q * ne + e) = prodn dim (fun i => vf w (dig Q i q))) /\
    (forall i, Q ^ dim * ne <= i -> vf v' i = vf v i).
Proof.
  intros dim ne Q w v Hd Hne HQ Hw Hv. unfold weights.
  match goal with |- context [forN dim ?F v] => destruct (@forN_inv (list R) (fun n v' => length v' = length v /\
    (0 < n -> forall q e, q < Q ^ dim -> e < ne -> vf v' (q * ne + e) = prodn n (fun i => vf w (dig Q i q))) /\
    (forall i, Q ^ dim * ne <= i -> vf v' i = vf v i)) F dim v) as (v' & E & L & G & N) end.
  - split; auto. split; [lia|auto].
  - intros d v1 Hdd (L1 & G1 & N1). cbv zeta.
    assert (Hpow : Q ^ dim = Q ^ (dim - d - 1) * Q * Q ^ d) by (replace (dim - d - 1) with (dim - S d) by lia; apply pow_dim; auto).
    pose proof (pow_pos d HQ) as Hqd.
    set (h := fun q => (vf w (dig Q d q) * (if d =? 0 then 1 else vf v1 (q * ne)%nat))%R).
    (* flatten the three loops over the points into one *)
    assert (Hflat : exists v2, forN (Q ^ (dim - d - 1) * Q * Q ^ d) (fun q v2 =>
        wj <- get w (dig Q d q) ;; x <- (if d =? 0 then Some 1%R else get v2 (q * ne)) ;;
        forN ne (fun e v2 => set v2 (q * ne + e) (wj * x)%R) v2) v1 = Some v2 /\ length v2 = length v1 /\
        forall i, vf v2 i = if i <? Q ^ dim * ne then h (i / ne) else vf v1 i).
    { rewrite <- Hpow. match goal with |- context [forN (Q ^ dim) ?F v1] => destruct (@forN_inv (list R) (fun n v2 => length v2 = length v1 /\
        forall i, vf v2 i = if i <? n * ne then h (i / ne) else vf v1 i) F (Q ^ dim) v1) as (v2 & E & L & G) end.
      - split; auto.
      - intros q v2 Hq (L2 & G2).
        assert (Hqn : q * ne + ne <= Q ^ dim * ne) by nia.
        rewrite get_vf by (pose proof (@dig_lt Q d q HQ); lia). cbn [bind].
        assert (Hx : (if d =? 0 then Some 1%R else get v2 (q * ne)) = Some (if d =? 0 then 1%R else vf v1 (q * ne))).
        { destruct (d =? 0); auto. rewrite get_vf by lia. rewrite G2. destruct (Nat.ltb_spec (q * ne) (q * ne)); [lia|]. reflexivity. }
        rewrite Hx. cbn [bind]. fold (h q).
        match goal with |- context [forN ne ?F v2] => destruct (@forN_inv (list R) (fun n v3 => length v3 = length v1 /\
          forall i, vf v3 i = if i <? q * ne + n then h (i / ne) else vf v1 i) F ne v2) as (v3 & E & L & G) end.
        + split; auto. rewrite Nat.add_0_r. auto.
        + intros e v3 He (L3 & G3). rewrite set_Some by lia. eexists. split; [reflexivity|]. split; [rewrite upd_length; auto|].
          intros i. rewrite vf_upd by lia. rewrite G3.
          destruct (Nat.eqb_spec i (q * ne + e)) as [Ei|Ei]; destruct (Nat.ltb_spec i (q * ne + e));
            destruct (Nat.ltb_spec i (q * ne + (e + 1))); try lia; auto.
          subst i. rewrite div_enc by auto; reflexivity.
        + exists v3. split; auto. split; auto. intros i. rewrite G. replace ((q + 1) * ne) with (q * ne + ne) by ring. reflexivity.
      - exists v2. auto. }
    destruct Hflat as (v2 & E & L2 & G2). exists v2. split; [|split; [congruence|split]].
    + rewrite <- E. rewrite !forN_mul. apply forN_ext. intros i s Hi. apply forN_ext. intros j s' Hj. apply forN_ext. intros k0 s'' Hk0.
      rewrite dig_at by auto. reflexivity.
    + intros _ q e Hq He. rewrite G2. assert (q * ne + e < Q ^ dim * ne) by nia.
      apply Nat.ltb_lt in H. rewrite H. rewrite div_enc by auto. unfold h. rewrite Nat.add_1_r. cbn [prodn].
      destruct (Nat.eqb_spec d 0) as [->|Hd0].
      * cbn [prodn]. ring.
      * specialize (G1 ltac:(lia) q 0 Hq Hne). rewrite Nat.add_0_r in G1. rewrite G1. ring.
    + intros i Hi. rewrite G2. destruct (Nat.ltb_spec i (Q ^ dim * ne)); [lia|]. apply N1. auto.
  - exists v'. auto.
Qed.
End A.
Arguments t_wf {R}.
