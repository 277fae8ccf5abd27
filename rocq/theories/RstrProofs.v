(** * Proofs about element restrictions *)
From Coq Require Import List ZArith Lia Bool Arith Ring.
From Verif Require Import Prelude Adds RstrModel RstrSpec.
Import ListNotations.
Set Implicit Arguments.

(** ** Four-level index ranges *)
Definition dec_b (nc es bs q : nat) := q / (nc * (es * bs)).
Definition dec_k (nc es bs q : nat) := (q mod (nc * (es * bs))) / (es * bs).
Definition dec_n (es bs q : nat) := (q mod (es * bs)) / bs.
Definition dec_j (bs q : nat) := q mod bs.

Lemma div_enc : forall a x y, y < x -> (a * x + y) / x = a.
Proof. intros a x y H. rewrite Nat.div_add_l by lia. rewrite Nat.div_small; lia. Qed.
Lemma mod_enc : forall a x y, y < x -> (a * x + y) mod x = y.
Proof. intros a x y H. rewrite Nat.add_comm, Nat.mod_add by lia. apply Nat.mod_small; auto. Qed.

Lemma enc_lt : forall a b A B, a < A -> b < B -> a * B + b < A * B.
Proof. intros. nia. Qed.

Section Dec.
Variables (nc es bs : nat) (b k n j : nat).
Hypotheses (Hk : k < nc) (Hn : n < es) (Hj : j < bs).
Let q := b * (nc * (es * bs)) + (k * (es * bs) + (n * bs + j)).

Lemma dec_H1 : n * bs + j < es * bs. Proof. apply enc_lt; auto. Qed.
Lemma dec_H2 : k * (es * bs) + (n * bs + j) < nc * (es * bs).
Proof. apply enc_lt; auto. apply dec_H1. Qed.

Lemma dec_b_enc : dec_b nc es bs q = b.
Proof. unfold dec_b, q. apply div_enc. apply dec_H2. Qed.
Lemma dec_k_enc : dec_k nc es bs q = k.
Proof. unfold dec_k, q. rewrite mod_enc by apply dec_H2. apply div_enc. apply dec_H1. Qed.
Lemma dec_n_enc : dec_n es bs q = n.
Proof.
  unfold dec_n, q.
  replace (b * (nc * (es * bs)) + (k * (es * bs) + (n * bs + j))) with ((b * nc + k) * (es * bs) + (n * bs + j)) by ring.
  rewrite mod_enc by apply dec_H1. apply div_enc; auto.
Qed.
Lemma dec_j_enc : dec_j bs q = j.
Proof.
  unfold dec_j, q.
  replace (b * (nc * (es * bs)) + (k * (es * bs) + (n * bs + j))) with ((b * nc * es + k * es + n) * bs + j) by ring.
  apply mod_enc; auto.
Qed.
End Dec.

(** A four-level loop nest that stores entries in order fills an array. *)
Lemma quad_fill : forall A B nc es bs (val : nat -> nat -> nat -> nat -> option A) (h : nat -> nat -> nat -> nat -> A) v,
  (forall b k n j, b < B -> k < nc -> n < es -> j < bs -> val b k n j = Some (h b k n j)) ->
  B * (nc * (es * bs)) <= length v ->
  forN B (fun b v => forN nc (fun k v => forN es (fun n v => forN bs (fun j v =>
     x <- val b k n j ;; set v (b * (nc * (es * bs)) + (k * (es * bs) + (n * bs + j))) x) v) v) v) v
  = Some (map (fun q => h (dec_b nc es bs q) (dec_k nc es bs q) (dec_n es bs q) (dec_j bs q))
              (seq 0 (B * (nc * (es * bs)))) ++ skipn (B * (nc * (es * bs))) v).
Proof.
  intros A B nc es bs val h v Hval Hlen.
  set (V := fun q => val (dec_b nc es bs q) (dec_k nc es bs q) (dec_n es bs q) (dec_j bs q)).
  rewrite <- (@forN_fill A (B * (nc * (es * bs))) V).
  - rewrite forN_mul. apply forN_ext. intros b s1 Hb.
    rewrite forN_mul. apply forN_ext. intros k s2 Hk.
    rewrite forN_mul. apply forN_ext. intros n s3 Hn.
    apply forN_ext. intros j s4 Hj. unfold V.
    rewrite dec_b_enc, dec_k_enc, dec_n_enc, dec_j_enc; auto.
  - intros q Hq. unfold V.
    assert (nc <> 0 /\ es <> 0 /\ bs <> 0) as (Znc & Zes & Zbs) by (repeat split; intro; subst; lia).
    apply Hval; unfold dec_b, dec_k, dec_n, dec_j.
    + apply Nat.div_lt_upper_bound; [lia|]. lia.
    + apply Nat.div_lt_upper_bound; [lia|]. rewrite (Nat.mul_comm (es * bs) nc).
      apply Nat.mod_upper_bound; lia.
    + apply Nat.div_lt_upper_bound; [lia|]. rewrite (Nat.mul_comm bs es).
      apply Nat.mod_upper_bound; lia.
    + apply Nat.mod_upper_bound; lia.
  - auto.
Qed.

(** Splitting off the first and last iteration, as the tridiagonal kernels do. *)
Lemma forN_first_last : forall S n (f : nat -> S -> option S) s, 2 <= n ->
  forN n f s = (s1 <- f 0 s ;; s2 <- forR 1 (n - 1) f s1 ;; f (n - 1) s2).
Proof.
  intros S n f s Hn.
  replace n with (1 + (n - 2 + 1)) at 1 by lia.
  rewrite forN_app. unfold forN at 1. simpl. destruct (f 0 s) as [s1|]; simpl; auto.
  rewrite forN_app. rewrite forR_forN. replace (n - 1 - 1) with (n - 2) by lia. simpl.
  destruct (forN (n - 2) (fun i => f (Datatypes.S i)) s1) as [s2|]; simpl; auto.
  unfold forN; simpl. replace (Datatypes.S (n - 2 + 0)) with (n - 1) by lia.
  destruct (f (n - 1) s2); auto.
Qed.

(** ** Sets: loops that overwrite entries (used for the permutation of offsets) *)
Definition Sets {A} (L : nat) (f : list A -> option (list A)) (g : nat -> option A) : Prop :=
  forall v, length v = L -> exists v', f v = Some v' /\ length v' = L /\
    forall q, nth_error v' q = match g q with Some x => Some x | None => nth_error v q end.

Lemma Sets_forN : forall A L n (f : nat -> list A -> option (list A)) (g : nat -> nat -> option A) G,
  (forall i, i < n -> Sets L (f i) (g i)) ->
  (forall i q x, i < n -> g i q = Some x -> G q = Some x) ->
  (forall q x, G q = Some x -> exists i, i < n /\ g i q = Some x) ->
  Sets L (forN n f) G.
Proof.
  intros A L n f g G Hf Hc Hex v Hv.
  destruct (@forN_inv _ (fun i w => length w = L /\
      forall q, (exists i', i' < i /\ g i' q <> None /\ nth_error w q = g i' q) \/
                ((forall i', i' < i -> g i' q = None) /\ nth_error w q = nth_error v q)) f n v)
    as (w & E & Hl & Hq).
  - split; auto. intros q. right. split; auto. intros i' Hi'. lia.
  - intros i s Hi (Hl & Hq). destruct (Hf i Hi s Hl) as (s' & E & Hl' & Hs').
    exists s'. split; auto. split; auto. intros q. rewrite Hs'.
    destruct (g i q) as [x|] eqn:Eg.
    + left. exists i. repeat split; [lia|congruence|auto].
    + destruct (Hq q) as [(i' & Hi' & Hn & Hw)|(Hn & Hw)].
      * left. exists i'. repeat split; [lia|auto|auto].
      * right. split; auto. intros i' Hi'. destruct (Nat.eq_dec i' i); [subst; auto|apply Hn; lia].
  - exists w. repeat split; auto. intros q. destruct (G q) as [x|] eqn:EG.
    + destruct (Hex q x EG) as (i & Hi & Egi).
      destruct (Hq q) as [(i' & Hi' & Hn & Hw)|(Hn & Hw)].
      * rewrite Hw. destruct (g i' q) as [y|] eqn:Ey; [|congruence].
        apply Hc in Ey; [congruence|lia].
      * rewrite (Hn i Hi) in Egi. discriminate.
    + destruct (Hq q) as [(i' & Hi' & Hn & Hw)|(Hn & Hw)]; auto.
      destruct (g i' q) as [y|] eqn:Ey; [|congruence].
      apply Hc in Ey; [congruence|lia].
Qed.

Lemma Sets_set : forall A L i (x : A), i < L ->
  Sets L (fun v => set v i x) (fun q => if q =? i then Some x else None).
Proof.
  intros A L i x Hi v Hv. rewrite set_Some by lia. eexists. split; [reflexivity|].
  split; [rewrite upd_length; auto|]. intros q. rewrite nth_error_upd.
  destruct (Nat.eqb_spec q i); simpl; auto. subst q.
  replace (i <? length v) with true; auto. symmetry. apply Nat.ltb_lt. lia.
Qed.

(** Element read for lane [j] of block [b]. *)
Definition elt (ne bs b j : nat) := Nat.min (b * bs + j) (ne - 1).

Lemma permute_pad_ok : forall A (z : A) (src : list A) nb ne bs es,
  0 < ne -> length src = ne * es ->
  exists dst, permute_pad z src nb ne bs es = Some dst /\ length dst = nb * bs * es /\
    forall b j k, b < nb -> j < bs -> k < es ->
      get dst (b * bs * es + k * bs + j) = get src (elt ne bs b j * es + k).
Proof.
  intros A z src nb ne bs es Hne Hlen. unfold permute_pad.
  set (L := nb * bs * es).
  set (val := fun b j k => nth_error src (elt ne bs b j * es + k)).
  assert (Hval : forall b j k, k < es -> exists x, val b j k = Some x).
  { intros b j k Hk. unfold val. destruct (nth_error src (elt ne bs b j * es + k)) eqn:E; eauto.
    apply nth_error_None in E. rewrite Hlen in E. unfold elt in E.
    assert (Nat.min (b * bs + j) (ne - 1) <= ne - 1) by lia. nia. }
  set (G1 := fun b j k (q : nat) => if q =? b * bs * es + k * bs + j then val b j k else None).
  set (dk := fun q => (q mod (es * bs)) / bs).
  set (dj := fun q => q mod bs).
  set (db := fun q => q / (es * bs)).
  assert (Hdec : forall b j k, j < bs -> k < es ->
     db (b * bs * es + k * bs + j) = b /\ dk (b * bs * es + k * bs + j) = k /\ dj (b * bs * es + k * bs + j) = j).
  { intros b j k Hj Hk. assert (k * bs + j < es * bs) by (apply enc_lt; auto).
    unfold db, dk, dj. repeat split.
    - replace (b * bs * es + k * bs + j) with (b * (es * bs) + (k * bs + j)) by ring. apply div_enc; auto.
    - replace (b * bs * es + k * bs + j) with (b * (es * bs) + (k * bs + j)) by ring.
      rewrite mod_enc by auto. apply div_enc; auto.
    - replace (b * bs * es + k * bs + j) with ((b * es + k) * bs + j) by ring. apply mod_enc; auto. }
  assert (Henc : forall q, es * bs <> 0 -> q = db q * bs * es + dk q * bs + dj q).
  { intros q Hnz. unfold db, dk, dj.
    pose proof (Nat.div_mod q (es * bs) Hnz) as E1.
    assert (bs <> 0) as Hbs by (intro; subst; lia).
    pose proof (Nat.div_mod (q mod (es * bs)) bs Hbs) as E2.
    assert (E3 : (q mod (es * bs)) mod bs = q mod bs).
    { rewrite (Nat.mul_comm es bs), Nat.mod_mul_r by lia.
      rewrite (Nat.mul_comm bs), Nat.mod_add by lia. apply Nat.mod_mod; lia. }
    rewrite E3 in E2. nia. }
  set (G2 := fun b j q => if (db q =? b) && (dj q =? j) && (0 <? es) && (0 <? bs) then val b j (dk q) else None).
  set (G3 := fun b q => if (db q =? b) && (0 <? es) && (0 <? bs) then val b (dj q) (dk q) else None).
  set (G4 := fun q => if (db q <? nb) && (0 <? es) && (0 <? bs) then val (db q) (dj q) (dk q) else None).
  assert (S4 : Sets L (forN nb (fun b dst => forN bs (fun j dst => forN es (fun k dst =>
        x <- getZ src (Z.min (Z.of_nat (b * bs + j)) (Z.of_nat ne - 1) * Z.of_nat es + Z.of_nat k) ;;
        set dst (b * bs * es + k * bs + j) x) dst) dst)) G4).
  { apply Sets_forN with (g := G3).
    - intros b Hb. apply Sets_forN with (g := G2 b).
      + intros j Hj. apply Sets_forN with (g := G1 b j).
        * intros k Hk. destruct (Hval b j k Hk) as (x & Ex).
          intros v Hv.
          destruct (@Sets_set A L (b * bs * es + k * bs + j) x) with (v := v) as (v' & E & Hl & Hq); auto.
          { unfold L. assert (k * bs + j < es * bs) by (apply enc_lt; auto). nia. }
          exists v'. split; [|split; auto].
          { unfold getZ, get.
            destruct (Z.ltb_spec (Z.min (Z.of_nat (b * bs + j)) (Z.of_nat ne - 1) * Z.of_nat es + Z.of_nat k) 0); [nia|].
            replace (Z.to_nat (Z.min (Z.of_nat (b * bs + j)) (Z.of_nat ne - 1) * Z.of_nat es + Z.of_nat k))
              with (elt ne bs b j * es + k).
            { unfold val in Ex. rewrite Ex. simpl. exact E. }
            unfold elt.
            replace (Z.min (Z.of_nat (b * bs + j)) (Z.of_nat ne - 1)) with (Z.of_nat (Nat.min (b * bs + j) (ne - 1))) by lia.
            lia. }
          { intros q. rewrite Hq. unfold G1. destruct (q =? b * bs * es + k * bs + j); auto. rewrite Ex. auto. }
        * intros k q x Hk. unfold G1, G2. destruct (Nat.eqb_spec q (b * bs * es + k * bs + j)); [|discriminate].
          subst q. destruct (Hdec b j k Hj Hk) as (-> & -> & ->). rewrite !Nat.eqb_refl.
          replace (0 <? es) with true by (symmetry; apply Nat.ltb_lt; lia).
          replace (0 <? bs) with true by (symmetry; apply Nat.ltb_lt; lia). auto.
        * intros q x. unfold G2.
          destruct (Nat.eqb_spec (db q) b); simpl; [|discriminate].
          destruct (Nat.eqb_spec (dj q) j); simpl; [|discriminate].
          destruct (Nat.ltb_spec 0 es); simpl; [|discriminate].
          destruct (Nat.ltb_spec 0 bs); simpl; [|discriminate].
          intros E. exists (dk q). split.
          { unfold dk. apply Nat.div_lt_upper_bound; [lia|]. rewrite (Nat.mul_comm bs es). apply Nat.mod_upper_bound. nia. }
          unfold G1. rewrite (Henc q) at 1 by nia. subst b j. rewrite Nat.eqb_refl. auto.
      + intros j q x Hj. unfold G2, G3.
        destruct (db q =? b); simpl; [|discriminate].
        destruct (Nat.eqb_spec (dj q) j); simpl; [|discriminate]. subst j. auto.
      + intros q x. unfold G3, G2.
        destruct (db q =? b); simpl; [|discriminate].
        destruct (Nat.ltb_spec 0 es); simpl; [|discriminate].
        destruct (Nat.ltb_spec 0 bs); simpl; [|discriminate].
        intros E. exists (dj q). rewrite Nat.eqb_refl. split; auto.
        unfold dj. apply Nat.mod_upper_bound; lia.
    - intros b q x Hb. unfold G3, G4.
      destruct (Nat.eqb_spec (db q) b); simpl; [|discriminate]. subst b.
      apply Nat.ltb_lt in Hb. rewrite Hb. auto.
    - intros q x. unfold G3, G4.
      destruct (Nat.ltb_spec (db q) nb); simpl; [|discriminate].
      intros E. exists (db q). rewrite Nat.eqb_refl. auto. }
  destruct (S4 (repeat z L)) as (dst & E & Hl & Hq); [apply repeat_length|].
  exists dst. split; [exact E|]. split; [exact Hl|].
  intros b j k Hb Hj Hk. unfold get. rewrite Hq. unfold G4.
  destruct (Hdec b j k Hj Hk) as (-> & -> & ->).
  replace (b <? nb) with true by (symmetry; apply Nat.ltb_lt; lia).
  replace (0 <? es) with true by (symmetry; apply Nat.ltb_lt; lia).
  replace (0 <? bs) with true by (symmetry; apply Nat.ltb_lt; lia).
  simpl. destruct (Hval b j k Hk) as (x & Ex). rewrite Ex. unfold val in Ex. auto.
Qed.

(** ** What creation establishes *)
Definition lay {A} (d : udesc) (r : rstr) (es : nat) (src dst : list A) : Prop :=
  forall b j n, b < r_nb r -> j < r_bs r -> n < es ->
    get dst (b * r_bs r * es + n * r_bs r + j) = get src (elt (u_ne d) (r_bs r) b j * es + n).

Record repr (d : udesc) (r : rstr) : Prop := {
  rp_ne : r_ne r = u_ne d;
  rp_es : r_es r = u_es d;
  rp_nc : r_nc r = u_nc d;
  rp_ls : r_lsize r = u_lsize d;
  rp_bs : 0 < r_bs r;
  rp_nb1 : u_ne d <= r_nb r * r_bs r;
  rp_nb2 : r_nb r * r_bs r < u_ne d + r_bs r;
  rp_esize : r_esize r = r_nb r * r_bs r * u_es d * u_nc d;
  rp_pos : 0 < u_es d /\ 0 < u_nc d;
  rp_cs : (exists s0 s1 s2, u_kind d = UStrided s0 s1 s2) \/
          forall k, k < u_nc d -> Z.of_nat (k * r_cs r) = (Z.of_nat k * u_cs d)%Z;
  rp_kind : match u_kind d with
            | UStrided s0 s1 s2 => r_kind r = KStrided (backend_strides s0 s1 s2) s0 s1 s2
            | UStandard o => exists o', r_kind r = KStandard o' /\ lay d r (u_es d) o o'
            | UOriented o s => exists o' s', r_kind r = KOriented o' s' /\ lay d r (u_es d) o o' /\ lay d r (u_es d) s s'
            | UCurl o c => exists o' c', r_kind r = KCurl o' c' /\ lay d r (u_es d) o o' /\ lay d r (3 * u_es d) c c'
            end
}.

Definition nblocks (d : udesc) (bs : option nat) : nat :=
  match bs with
  | None => u_ne d
  | Some b => u_ne d / b + (if u_ne d mod b =? 0 then 0 else 1)
  end.
Definition bsize (bs : option nat) : nat := match bs with None => 1 | Some b => b end.

Lemma nblocks_bounds : forall d bs, 0 < bsize bs ->
  u_ne d <= nblocks d bs * bsize bs /\ nblocks d bs * bsize bs < u_ne d + bsize bs.
Proof.
  intros d [b|] Hb; simpl in *; [|lia].
  pose proof (Nat.div_mod (u_ne d) b ltac:(lia)) as E.
  pose proof (Nat.mod_upper_bound (u_ne d) b ltac:(lia)) as M.
  destruct (Nat.eqb_spec (u_ne d mod b) 0); nia.
Qed.

Lemma perm_opt_lay : forall A (z : A) d bs (l l' : list A) es r,
  length l = u_ne d * es -> 0 < bsize bs ->
  perm_opt bs (nblocks d bs) (u_ne d) z l es = Some l' ->
  r_nb r = nblocks d bs -> r_bs r = bsize bs ->
  lay d r es l l'.
Proof.
  intros A z d bs l l' es r Hl Hb E Hnb Hbs b j n Hbb Hj Hn.
  rewrite Hnb in Hbb. rewrite Hbs in *.
  destruct (nblocks_bounds d bs Hb) as (B1 & B2).
  assert (Hne : 0 < u_ne d) by nia.
  destruct bs as [bb|]; simpl in *.
  - destruct (@permute_pad_ok A z l (u_ne d / bb + (if u_ne d mod bb =? 0 then 0 else 1)) (u_ne d) bb es Hne Hl)
      as (dst & E' & _ & Hq).
    rewrite E in E'. inversion E'; subst dst. apply Hq; auto.
  - inversion E; subst l'. unfold elt. f_equal. 
    replace (Nat.min (b * 1 + j) (u_ne d - 1)) with b by lia. lia.
Qed.

Lemma create_repr : forall chk d bs r, lengths_ok d -> rstr_create chk d bs = Ok r -> repr d r.
Proof.
  intros chk d bs r Hl E. unfold rstr_create in E.
  assert (E' : 0 < bsize bs /\ check_dims d bs = None /\ exists k, make_kind d bs (nblocks d bs) = Some k /\
    r = mkRstr (u_ne d) (u_es d) (u_nc d) (Z.to_nat (u_cs d)) (u_lsize d)
          (nblocks d bs * bsize bs * u_es d * u_nc d) (nblocks d bs) (bsize bs) k).
  { unfold nblocks, bsize. destruct bs as [[|b]|]; [discriminate| |].
    - split; [lia|]. destruct (check_dims d (Some (S b))); [discriminate|]. split; auto.
      destruct (make_kind d (Some (S b)) _) as [k|]; [|discriminate]. exists k. split; auto.
      destruct (kind_offsets k); [|congruence]. destruct (offsets_check _ _ _ _ _ _ _); congruence.
    - split; [lia|]. destruct (check_dims d None); [discriminate|]. split; auto.
      destruct (make_kind d None _) as [k|]; [|discriminate]. exists k. split; auto.
      destruct (kind_offsets k); [|congruence]. destruct (offsets_check _ _ _ _ _ _ _); congruence. }
  clear E. destruct E' as (Hb & Hc & k & Hk & ->).
  destruct (nblocks_bounds d bs Hb) as (B1 & B2).
  unfold check_dims in Hc.
  destruct (Nat.eqb_spec (u_es d) 0) as [|Hes]; [discriminate|].
  destruct (match bs with Some 0 => true | _ => false end); [discriminate|].
  destruct (Nat.eqb_spec (u_nc d) 0) as [|Hnc]; [discriminate|].
  assert (Hcs : (exists s0 s1 s2, u_kind d = UStrided s0 s1 s2) \/
          forall k, k < u_nc d -> Z.of_nat (k * Z.to_nat (u_cs d)) = (Z.of_nat k * u_cs d)%Z).
  { destruct (u_kind d) as [s0 s1 s2|o|o s|o c]; [left; eauto| | |]; right;
      destruct (Nat.eqb_spec (u_nc d) 1); simpl in Hc;
      try (intros k' Hk'; replace k' with 0 by lia; simpl; lia);
      destruct (Z.ltb_spec 0 (u_cs d)); simpl in Hc; try discriminate; intros; lia. }
  constructor; simpl; auto; try lia.
  unfold make_kind in Hk. unfold lengths_ok in Hl.
  destruct (u_kind d) as [s0 s1 s2|o|o s|o c].
  - congruence.
  - destruct (perm_opt bs (nblocks d bs) (u_ne d) 0%Z o (u_es d)) as [o'|] eqn:Eo; [|discriminate].
    simpl in Hk. inversion Hk; subst k. exists o'. split; auto.
    eapply perm_opt_lay; eauto.
  - destruct Hl as (Hl1 & Hl2).
    destruct (perm_opt bs (nblocks d bs) (u_ne d) 0%Z o (u_es d)) as [o'|] eqn:Eo; [|discriminate].
    destruct (perm_opt bs (nblocks d bs) (u_ne d) false s (u_es d)) as [s'|] eqn:Es; [|discriminate].
    simpl in Hk. inversion Hk; subst k. exists o', s'. split; [auto|].
    split; eapply perm_opt_lay; eauto.
  - destruct Hl as (Hl1 & Hl2).
    destruct (perm_opt bs (nblocks d bs) (u_ne d) 0%Z o (u_es d)) as [o'|] eqn:Eo; [|discriminate].
    destruct (perm_opt bs (nblocks d bs) (u_ne d) 0%Z c (3 * u_es d)) as [c'|] eqn:Es; [|discriminate].
    cbn [bind] in Hk. inversion Hk; subst k. exists o', c'. split; [auto|].
    split; eapply perm_opt_lay; eauto.
Qed.

Section KernelProofs.
Variable R : Rng.
Add Ring Rr : (r_th R).
Implicit Types u v : list R.

Lemma row_eq : forall start b bs es nc k n j,
  (start + b) * bs * es * nc + (k * es + n) * bs + j - start * bs * es * nc
  = b * (nc * (es * bs)) + (k * (es * bs) + (n * bs + j)).
Proof.
  intros.
  replace ((start + b) * bs * es * nc + (k * es + n) * bs + j)
    with (start * bs * es * nc + (b * bs * es * nc + (k * es + n) * bs + j)) by ring.
  rewrite Nat.add_comm, Nat.add_sub. ring.
Qed.
Lemma row_eq2 : forall start b bs es nc k i,
  es * (k * bs + (start + b) * bs * nc) + i - start * bs * es * nc
  = b * (nc * (es * bs)) + (k * (es * bs) + i).
Proof.
  intros.
  replace (es * (k * bs + (start + b) * bs * nc) + i)
    with (start * bs * es * nc + (b * (nc * (es * bs)) + (k * (es * bs) + i))) by ring.
  rewrite Nat.add_comm, Nat.add_sub. reflexivity.
Qed.

Lemma getZ_vf : forall u z, (0 <= z < Z.of_nat (length u))%Z -> getZ u z = Some (vf u (Z.to_nat z)).
Proof.
  intros u z Hz. unfold getZ. destruct (Z.ltb_spec z 0); [lia|]. apply get_Some. lia.
Qed.

Lemma get_vf : forall u i, i < length u -> get u i = Some (vf u i).
Proof. intros u i Hi. apply get_Some. auto. Qed.

Lemma Eval_diag : forall w d u el k n c, n < u_es d ->
  (forall m, m < u_es d -> coef R w d el n m = delta (n =? m) c) ->
  Eval w d u el k n = (c * vf u (Z.to_nat (col d el k n)))%R.
Proof.
  intros w d u el k n c Hn Hc. unfold Eval.
  rewrite sumn_ext with (g := fun m => delta (m =? n) (c * vf u (Z.to_nat (col d el k m)))%R).
  - rewrite sumn_delta. apply Nat.ltb_lt in Hn. rewrite Hn. reflexivity.
  - intros m Hm. rewrite Hc by auto. rewrite delta_mul_r. rewrite Nat.eqb_sym. reflexivity.
Qed.

Lemma sumn_tri : forall N n (a b c : R) (U : nat -> R), n < N ->
  sumn N (fun m => ((if m + 1 =? n then a else if m =? n then b else if m =? n + 1 then c else 0) * U m)%R)
  = (delta (0 <? n) (a * U (n - 1)%nat) + b * U n + delta (n + 1 <? N) (c * U (n + 1)%nat))%R.
Proof.
  intros N n a b c U Hn.
  rewrite sumn_ext with (g := fun m => (delta (m =? n - 1) (delta (0 <? n) (a * U m)) +
      (delta (m =? n) (b * U m) + delta (m =? n + 1) (c * U m)))%R).
  - rewrite !sumn_add, !sumn_delta.
    replace (n <? N) with true by (symmetry; apply Nat.ltb_lt; auto).
    replace (n - 1 <? N) with true by (symmetry; apply Nat.ltb_lt; lia).
    unfold delta. destruct (0 <? n), (n + 1 <? N); ring.
  - intros m Hm. unfold delta.
    destruct (Nat.eqb_spec (m + 1) n); destruct (Nat.eqb_spec m n); destruct (Nat.eqb_spec m (n + 1));
      destruct (Nat.eqb_spec m (n - 1)); destruct (Nat.ltb_spec 0 n); subst; try lia; try ring.
Qed.

Lemma elt_lt : forall ne bs b j, 0 < ne -> elt ne bs b j < ne.
Proof. intros. unfold elt. lia. Qed.

Lemma nth_error_get : forall A (l : list A) i d, i < length l -> get l i = Some (nth i l d).
Proof. intros. apply get_Some. auto. Qed.

Lemma off_get : forall d r o o' b j n k cs u, lay d r (u_es d) o o' -> length o = u_ne d * u_es d -> 0 < u_ne d ->
  b < r_nb r -> j < r_bs r -> n < u_es d -> k < u_nc d ->
  (forall el k m, col d el k m = (nth (el * u_es d + m) o 0 + Z.of_nat k * u_cs d)%Z) ->
  Z.of_nat (k * cs) = (Z.of_nat k * u_cs d)%Z ->
  in_range d -> u_lsize d <= length u ->
  exists z, get o' (b * r_bs r * u_es d + n * r_bs r + j) = Some z /\
    (z + Z.of_nat (k * cs) = col d (elt (u_ne d) (r_bs r) b j) k n)%Z /\
    getZ u (z + Z.of_nat (k * cs)) = Some (vf u (Z.to_nat (col d (elt (u_ne d) (r_bs r) b j) k n))).
Proof.
  intros d r o o' b j n k cs u Hlay Hlo Hne Hb Hj Hn Hk Hcol Hcs Hr Hu.
  set (el := elt (u_ne d) (r_bs r) b j).
  assert (Hel : el < u_ne d) by (apply elt_lt; auto).
  exists (nth (el * u_es d + n) o 0%Z).
  assert (Hz : (nth (el * u_es d + n) o 0 + Z.of_nat (k * cs) = col d el k n)%Z) by (rewrite Hcol, Hcs; lia).
  split; [|split; auto].
  - rewrite Hlay by auto. apply get_Some. fold el. rewrite Hlo. nia.
  - rewrite Hz. apply getZ_vf. pose proof (Hr el k n Hel Hk Hn). lia.
Qed.
End KernelProofs.
