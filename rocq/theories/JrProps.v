(** * C61: JiT source roots and defines of a hierarchy of contexts; C62: the list of registered backends *)
From Coq Require Import List ZArith Lia Bool Arith String.
From Verif Require Import Prelude RstrModel StrModel QfModel JrModel JrProofs.
Import ListNotations.
Set Implicit Arguments.
Local Open Scope string_scope.
Local Open Scope nat_scope.
Local Open Scope list_scope.

(** What a Get through context [c] shows, entry by entry. *)
Definition shows (k : kind) (w : world) (c : nat) (ss : list str) : Prop :=
  exists h w', jit_get k w c = (Ok h, w') /\ hnum h = List.length ss /\ forall i s, nth_error ss i = Some s -> hread w' h i = Ok s.

(** In every history each context has exactly one top-most context. *)
Theorem C61_one_parent dflt w g c : Hist dflt w g -> c < List.length w -> exists t, topr w c t /\ forall t', topr w c t' -> t' = t.
Proof.
  intros H L. destruct (hist_inv H) as (_ & A & _). destruct (A c L) as [t T]. exists t. split; [exact T|].
  intros t' T'. symmetry. exact (topr_fun T T').
Qed.

(** Get shows the strings added to the top-most context, through whichever context of its hierarchy, in order. *)
Theorem C61_one_list dflt w g c t k : Hist dflt w g -> topr w c t -> shows k w c (added k t g).
Proof.
  intros H T. destruct (hist_inv H) as (G & A & V & F). destruct (topr_top T) as [x [E P]]. destruct (V t x k E) as [Hx Rx].
  pose proof (nth_lt _ _ E) as L. eexists. eexists. split; [exact (get_ok k G T E)|]. cbn [hnum]. split; [apply Hx|].
  intros i s Ei. unfold hread, deref. cbn [hctx hk hgen]. rewrite upd_eq by exact L. rewrite alive_jl. destruct (G t x E) as [-> _].
  rewrite jl_set. destruct k; cbn [with_rd jgen jarr]; rewrite Nat.eqb_refl, (@holds_nth _ _ _ _ Hx Ei); reflexivity.
Qed.

(** An addition is accepted exactly while every Get of that list has been restored; otherwise it is refused. *)
Theorem C61_add_exact dflt w g c t k s : Hist dflt w g -> topr w c t ->
  ((exists w', jit_add k w c s = (Ok tt, w')) <-> opened k t g = 0%Z) /\
  ((exists w', jit_add k w c s = (Err ERR_ACCESS, w')) <-> opened k t g <> 0%Z).
Proof.
  intros H T. destruct (hist_inv H) as (G & A & V & F). destruct (topr_top T) as [x [E P]]. destruct (V t x k E) as [Hx Rx].
  destruct (Z.eq_dec (jrd (jl k x)) 0) as [R0|R0].
  - destruct (@add_ok k w c t x _ s G T E Hx R0) as [l [Q _]]. rewrite Q. split; split; intros B; try congruence; eauto.
    destruct B as [w' B]; discriminate.
  - rewrite (@add_refused k w c t x s G T E R0). split; split; intros B; try congruence; eauto; destruct B as [w' B]; try discriminate.
Qed.

(** An accepted addition is seen at the end of the list by every context of the hierarchy and by nobody else, and
    the other list and the hierarchy stay as they were. *)
Theorem C61_add_seen dflt w g c t k s w' : Hist dflt w g -> topr w c t -> jit_add k w c s = (Ok tt, w') ->
  forall d td k', topr w d td -> topr w' d td /\
    shows k' w' d (if same k' k td t then added k' td g ++ [s] else added k' td g)%list.
Proof.
  intros H T Q d td k' Td. assert (H' : Hist dflt w' (g ++ [EAdd k t s])) by (eapply h_add; eauto).
  assert (Td' : topr w' d td).
  { destruct (hist_inv H) as (G & A & V & F). destruct (topr_top T) as [x [E P]]. destruct (V t x k E) as [Hx Rx].
    destruct (Z.eq_dec (jrd (jl k x)) 0) as [R0|R0].
    - destruct (@add_ok k w c t x _ s G T E Hx R0) as [l [Q2 _]]. rewrite Q2 in Q. injection Q as <-.
      apply (@topr_upd w t x (set_jl k x l) E (par_jl k x l)). exact Td.
    - rewrite (@add_refused k w c t x s G T E R0) in Q. discriminate. }
  split; [exact Td'|]. pose proof (@C61_one_list dflt w' _ d td k' H' Td') as S. rewrite added_app in S. simpl in S.
  destruct (same k' k td t); simpl in S; [exact S|rewrite app_nil_r in S; exact S].
Qed.

(** Accepted calls leave every reference count as it was. *)
Theorem C61_references dflt w g c : Hist dflt w g -> c < List.length w -> forall k s w',
  jit_add k w c s = (Ok tt, w') \/ (exists h, jit_get k w c = (Ok h, w')) \/ jit_restore k w c = (Ok tt, w') ->
  map crefs w' = map crefs w.
Proof.
  intros H L k s w' Q. destruct (hist_inv H) as (G & A & V & F). destruct (A c L) as [t T]. destruct (topr_top T) as [x [E P]].
  assert (U : forall l, map crefs (upd_nth w t (set_jl k x l)) = map crefs w).
  { intros l. revert E. generalize t. clear. induction w as [|y w IH]; intros [|t] E; simpl in *; try discriminate.
    - injection E as ->. rewrite refs_jl. reflexivity. - f_equal. apply IH; exact E. }
  destruct Q as [Q|[[h Q]|Q]].
  - destruct (V t x k E) as [Hx Rx]. destruct (Z.eq_dec (jrd (jl k x)) 0) as [R0|R0].
    + destruct (@add_ok k w c t x _ s G T E Hx R0) as [l [Q2 _]]. rewrite Q2 in Q. injection Q as <-. apply U.
    + rewrite (@add_refused k w c t x s G T E R0) in Q. discriminate.
  - rewrite (get_ok k G T E) in Q. injection Q as _ <-. apply U.
  - rewrite (restore_ok k G T E) in Q. injection Q as <-. apply U.
Qed.

(** A client that gives back only what it took, through the hierarchy it took it from, reads from every array it still
    holds what it saw when it got it, whatever else happened meanwhile. *)
Theorem C61_reader_stable dflt w hs h ss i s : Use dflt w hs -> In (h, ss) hs -> nth_error ss i = Some s -> hread w h i = Ok s.
Proof.
  intros U I E. destruct (use_hist U) as [g [H [_ N]]]. destruct (hist_inv H) as (G & _).
  exact (intact_read G (N h ss I) i E).
Qed.

(** A new operator fallback is a context of its own that starts with the default root, followed by the source roots its origin sees. *)
Theorem C61_fallback dflt w g c t y : Hist dflt w g -> topr w c t -> nth_error w c = Some y -> cfb y = None -> cfbok y = true ->
  exists f w' more, get_fallback dflt w c = (Ok (Some f), w') /\ f = List.length w /\ topr w' f f /\
    shows Roots w' f (dflt :: added Roots t g ++ more)%list /\
    (forall d td k, topr w d td -> topr w' d td /\ shows k w' d (added k td g)).
Proof.
  intros H T E Fb B. destruct (hist_inv H) as (G & A & V & F). destruct (topr_top T) as [x [Ex Px]].
  destruct (V t x Roots Ex) as [Hr _]. destruct (V t x Defs Ex) as [Hd _].
  destruct (fallback_ok dflt G T Ex E Fb B Hr Hd) as [l [Hl [Rl Q]]].
  pose proof (h_fbnew H E Fb B T Q) as H'. set (w' := (_ ++ [_])%list) in *. set (n := List.length w) in *.
  assert (Tn : topr w' n n) by (econstructor 1; [apply nth_last2; apply upd_len|reflexivity]).
  exists n, w', (added Defs t g). split; [exact Q|]. split; [reflexivity|]. split; [exact Tn|].
  change (EAdd Roots n dflt :: map (EAdd Roots n) (added Roots t g ++ added Defs t g)) with (map (EAdd Roots n) (dflt :: added Roots t g ++ added Defs t g)%list) in H'.
  split.
  - pose proof (@C61_one_list dflt w' _ n n Roots H' Tn) as S. rewrite added_app, added_copies, same_refl in S.
    destruct (F n Roots (le_n _)) as [F1 _]. rewrite F1 in S. exact S.
  - intros d td k Td. assert (Td' : topr w' d td).
    { apply topr_app. apply (@topr_upd w c y (set_fb y n) E eq_refl). exact Td. }
    split; [exact Td'|]. pose proof (@C61_one_list dflt w' _ d td k H' Td') as S. rewrite added_app, added_copies in S.
    destruct (same k Roots td n) eqn:Z0; [|rewrite app_nil_r in S; exact S].
    apply same_true in Z0. pose proof (proj2 (topr_lt Td)). fold n in H0. lia.
Qed.

(** ** A concrete history *)
Definition D := lit "root".
Definition snd_of {A} (o : out A) : world := snd o.
Definition w1 := Eval vm_compute in snd_of (ceed_new D []).
Definition w2 := Eval vm_compute in snd_of (ceed_new D w1).
Definition w3 := Eval vm_compute in snd_of (set_delegate w2 0 1).
Definition w4 := Eval vm_compute in snd_of (jit_add Roots w3 1 (lit "/a")).
Definition w5 := Eval vm_compute in snd_of (jit_add Defs w4 0 (lit "x=1")).
Definition g5 := [EAdd Roots 0 D; EAdd Roots 1 D; EAdd Roots 0 (lit "/a"); EAdd Defs 0 (lit "x=1")].
Lemma hist5 : Hist D w5 g5.
Proof.
  assert (H1 : Hist D w1 [EAdd Roots 0 D]) by (apply (@h_new D [] [] 0 w1); [constructor|reflexivity]).
  assert (H2 : Hist D w2 [EAdd Roots 0 D; EAdd Roots 1 D]) by (apply (@h_new D w1 [EAdd Roots 0 D] 1 w2); [exact H1|reflexivity]).
  assert (H3 : Hist D w3 [EAdd Roots 0 D; EAdd Roots 1 D]).
  { refine (@h_del D w2 _ 0 1 _ w3 H2 eq_refl eq_refl _ eq_refl). intros T.
    assert (T0 : topr w2 0 0) by (econstructor 1; reflexivity). discriminate (topr_fun T T0). }
  assert (T1 : topr w3 1 0) by (econstructor 2; [reflexivity|reflexivity|econstructor 1; reflexivity]).
  assert (H4 : Hist D w4 [EAdd Roots 0 D; EAdd Roots 1 D; EAdd Roots 0 (lit "/a")]) by (apply (@h_add D w3 _ Roots 1 (lit "/a") 0 w4 H3 T1); reflexivity).
  apply (@h_add D w4 _ Defs 0 (lit "x=1") 0 w5 H4); [econstructor 1; reflexivity|reflexivity].
Qed.
Example C61_witness : Hist D w5 g5 /\ topr w5 1 0 /\ added Roots 0 g5 = [D; lit "/a"] /\ added Defs 0 g5 = [lit "x=1"] /\
  shows Roots w5 1 [D; lit "/a"].
Proof.
  assert (T : topr w5 1 0) by (econstructor 2; [reflexivity|reflexivity|econstructor 1; reflexivity]).
  assert (A : added Roots 0 g5 = [D; lit "/a"]) by (vm_compute; reflexivity).
  split; [exact hist5|]. split; [exact T|]. split; [exact A|]. split; [vm_compute; reflexivity|].
  pose proof (@C61_one_list D w5 g5 1 0 Roots hist5 T) as S. rewrite A in S. exact S.
Qed.
(** a disciplined client that holds an array while an addition to the other list goes through and one to the same list is refused *)
Example C61_reader_witness : exists w h, Use D w [(h, [D])] /\ hread w h 0 = Ok D.
Proof.
  assert (U1 : Use D w1 []) by (apply (@u_new D [] [] 0 w1); [constructor|reflexivity]).
  set (o := jit_get Roots w1 0). destruct (fst o) as [h| |] eqn:Q; try discriminate.
  assert (U2 : Use D (snd o) [(h, [D])]).
  { apply (@u_get D w1 [] Roots 0 h [D] (snd o) U1); [simpl; lia|rewrite <- Q; reflexivity| |]; vm_compute in Q; injection Q as <-; [reflexivity|].
    intros [|[|i]] s E; simpl in E; try discriminate. injection E as <-. reflexivity. }
  set (o3 := jit_add Defs (snd o) 0 (lit "x")). set (o4 := jit_add Roots (snd o3) 0 (lit "y")).
  assert (U3 : Use D (snd o3) [(h, [D])]) by (apply (@u_add D (snd o) _ Defs 0 (lit "x") (fst o3) (snd o3) U2); [vm_compute; lia|reflexivity]).
  assert (U4 : Use D (snd o4) [(h, [D])]) by (apply (@u_add D (snd o3) _ Roots 0 (lit "y") (fst o4) (snd o4) U3); [vm_compute; lia|reflexivity]).
  exists (snd o4), h. split; [exact U4|]. eapply C61_reader_stable; [exact U4|left; reflexivity|reflexivity].
Qed.

(** ** Findings *)
Definition seen (k : kind) (w : world) (c : nat) : list (res str) :=
  match jit_get k w c with (Ok h, w') => map (hread w' h) (seq 0 (hnum h)) | _ => [] end.
Definition wf := Eval vm_compute in snd_of (set_fallback_resource w5 0 true).
Definition wfb := Eval vm_compute in snd_of (get_fallback D wf 0).

(** Finding: CeedGetOperatorFallbackCeed copies the defines with CeedAddJitSourceRoot (ceed.c:685): the fallback context
    gets no define at all, and every define becomes a bogus source directory of it. *)
Theorem C61_fallback_defines_refuted :
  fst (get_fallback D wf 0) = Ok (Some 2) /\ seen Defs wf 0 = [Ok (lit "x=1")] /\ seen Defs wfb 2 = [] /\
  seen Roots wfb 2 = [Ok D; Ok D; Ok (lit "/a"); Ok (lit "x=1")].
Proof. vm_compute. auto. Qed.

(** Finding: the fallback has no parent link to its origin and is filled once: a source root added to the origin later
    does not reach it, although the next CeedGetOperatorFallbackCeed returns the same context. *)
Theorem C61_fallback_stale_refuted :
  let w := snd_of (jit_add Roots wfb 0 (lit "/late")) in
  fst (get_fallback D w 0) = Ok (Some 2) /\ In (Ok (lit "/late")) (seen Roots (snd_of (get_fallback D w 0)) 0) /\
  ~ In (Ok (lit "/late")) (seen Roots (snd_of (get_fallback D w 0)) 2).
Proof. vm_compute. repeat split; auto. intros H; decompose [or] H; try discriminate; auto. Qed.

(** Finding: a refused addition returns without giving back the reference CeedGetParent took (ceed.c:1365, 1396): the count
    stays one too high, so that the context is still not freed after its owner destroyed it. *)
Theorem C61_refused_leaks_refuted :
  let wg := snd_of (jit_get Roots w1 0) in
  let o := jit_add Roots wg 0 (lit "/a") in
  let wr := snd_of (jit_restore Roots (snd o) 0) in
  let we := ceed_destroy wr 0 in
  fst o = Err ERR_ACCESS /\ fst we = Ok tt /\ map calive (snd we) = [true] /\
  map calive (snd (ceed_destroy (snd_of (jit_restore Roots wg 0)) 0)) = [false].
Proof. vm_compute. auto. Qed.

(** Finding: Restore does not check that something is out.  One Restore too many refuses every later addition, and the next Get
    brings the counter back to zero, so that an addition may move the array under the reader. *)
Theorem C61_unmatched_restore_refuted :
  let wr := snd_of (jit_restore Roots w2 0) in
  let og := jit_get Roots wr 0 in
  let wa := jit_add Roots (snd og) 0 (lit "/a") in
  let wb := jit_add Roots (snd wa) 0 (lit "/b") in
  fst (jit_restore Roots w2 0) = Ok tt /\ fst (jit_add Roots wr 0 (lit "/a")) = Err ERR_ACCESS /\
  fst wa = Ok tt /\ fst wb = Ok tt /\
  match fst og with Ok h => hread (snd og) h 0 = Ok D /\ hread (snd wb) h 0 = UB | _ => False end.
Proof. vm_compute. repeat split; auto. Qed.

(** Finding: CeedSetDelegate while an array of the delegate is out: the matching Restore is counted on the new parent, the
    delegate can then never be destroyed without an error, and the parent refuses additions though nobody reads. *)
Theorem C61_delegate_reader_refuted :
  let og := jit_get Roots w2 1 in
  let wd := snd_of (set_delegate (snd og) 0 1) in
  let or := jit_restore Roots wd 1 in
  fst og = Ok (mkH Roots 1 1 1) /\ fst or = Ok tt /\ fst (jit_add Roots (snd or) 0 (lit "/a")) = Err ERR_ACCESS /\
  fst (ceed_destroy (snd (ceed_destroy (snd or) 1)) 1) = Err ERR_ACCESS.
Proof. vm_compute. auto. Qed.

(** Finding: source roots added to a context before it becomes a delegate are not seen any more, neither through it nor through its
    new parent. *)
Theorem C61_delegate_hides_refuted :
  let wa := snd_of (jit_add Roots w2 1 (lit "/a")) in
  let wd := snd_of (set_delegate wa 0 1) in
  seen Roots wa 1 = [Ok D; Ok (lit "/a")] /\ seen Roots wd 1 = [Ok D] /\ seen Roots wd 0 = [Ok D].
Proof. vm_compute. auto. Qed.

(** Finding: CeedDestroy refuses to destroy a context whose list is being read only after it has given up the last
    reference: the Restore that follows frees the context itself and returns success, and the next use is a use after free. *)
Theorem C61_destroy_refused_refuted :
  let wg := snd_of (jit_get Roots w1 0) in
  let od := ceed_destroy wg 0 in
  let or := jit_restore Roots (snd od) 0 in
  fst od = Err ERR_ACCESS /\ map calive (snd od) = [true] /\ fst or = Ok tt /\ map calive (snd or) = [false] /\
  fst (jit_add Roots (snd or) 0 (lit "/a")) = UB.
Proof. vm_compute. auto. Qed.

(** * C62 *)
Definition compiled (b : backend) : bool := (be_prio b <? MAX_PRIO)%Z.
Lemma list_loop_later tbl i n acc : 0 < i ->
  list_loop tbl i n acc = if existsb compiled tbl then UB else Ok (n, acc).
Proof.
  revert i n acc. induction tbl as [|b t IH]; intros i n acc L; simpl; [reflexivity|].
  unfold compiled at 1. destruct (be_prio b <? MAX_PRIO)%Z; simpl.
  - destruct (i =? 0) eqn:Q; [apply Nat.eqb_eq in Q; lia|reflexivity].
  - apply IH. lia.
Qed.
(** With one compiled backend, registered first, the list has that backend. *)
Theorem C62_single b t : compiled b = true -> (forall b', In b' t -> compiled b' = false) ->
  registry_list (b :: t) = Ok [Some (be_prefix b, be_prio b)].
Proof.
  intros C N. unfold registry_list. simpl. unfold compiled in C. rewrite C. rewrite list_loop_later by lia.
  destruct (existsb compiled t) eqn:X; [|reflexivity].
  apply existsb_exists in X. destruct X as [b' [I Cb]]. rewrite (N b' I) in Cb. discriminate.
Qed.
(** Without compiled backends the call reports an error. *)
Theorem C62_none tbl : (forall b, In b tbl -> compiled b = false) -> registry_list tbl = Err ERR_MAJOR.
Proof.
  intros N. destruct tbl as [|b t]; [reflexivity|]. unfold registry_list. simpl.
  pose proof (N b (or_introl eq_refl)) as C. unfold compiled in C. rewrite C. rewrite list_loop_later by lia.
  destruct (existsb compiled t) eqn:X; [|reflexivity].
  apply existsb_exists in X. destruct X as [b' [I Cb]]. rewrite (N b' (or_intror I)) in Cb. discriminate.
Qed.
(** Finding: CeedRegistryGetList writes "*resources[i]" where "(*resources)[i]" is meant (ceed.c:1016-1017): with any compiled
    backend other than the one registered first, it writes through memory behind the caller's variable. *)
Theorem C62_list_refuted tbl : registry_list tbl = UB <-> exists i b, 0 < i /\ nth_error tbl i = Some b /\ compiled b = true.
Proof.
  destruct tbl as [|b t].
  - split; [intros H; discriminate|intros [[|i] [b [L [E _]]]]; discriminate].
  - assert (X : registry_list (b :: t) = UB <-> existsb compiled t = true).
    { unfold registry_list. simpl. fold (compiled b). destruct (compiled b); rewrite list_loop_later by lia;
      destruct (existsb compiled t); simpl; split; intros H; try discriminate; reflexivity. }
    rewrite X, existsb_exists. split.
    + intros [b' [I C]]. apply In_nth_error in I. destruct I as [i E]. exists (S i), b'. split; [lia|auto].
    + intros [[|i] [b' [L [E C]]]]; [lia|]. exists b'. split; [eapply nth_error_In; exact E|exact C].
Qed.
Example C62_refuted_witness : registry_list [mkBE (lit "/cpu/self/ref") 50; mkBE (lit "/cpu/self/opt") 40] = UB.
Proof. reflexivity. Qed.
Example C62_single_witness : registry_list [mkBE (lit "/cpu/self/ref") 50; mkBE (lit "/gpu/cuda") MAX_PRIO] = Ok [Some (lit "/cpu/self/ref", 50%Z)].
Proof. reflexivity. Qed.

(** However often CeedRegisterAll is called, the backends are registered once; later calls report success. *)
Fixpoint calls (n : nat) (called : bool) (tbl : list backend) (l : list (backend * Z)) : list Z * list backend :=
  match n with
  | 0 => ([], tbl)
  | S n' => let '(e, called', tbl') := register_all_once called tbl l in
            let '(es, te) := calls n' called' tbl' l in (e :: es, te)
  end.
Lemma calls_true n tbl l : calls n true tbl l = (repeat 0%Z n, tbl).
Proof. induction n as [|n IH]; simpl; [reflexivity|rewrite IH; reflexivity]. Qed.
Theorem C62_register_once n bs : (List.length bs <= MAX_BACKENDS) ->
  calls (S n) false [] (map (fun b => (b, 0%Z)) bs) =
  (repeat 0%Z (S n), map (fun b => mkBE (firstn RES_LEN (be_prefix b)) (be_prio b)) bs).
Proof.
  intros L. cbn [calls]. unfold register_all_once.
  assert (R : forall l tbl, List.length tbl + List.length l <= MAX_BACKENDS ->
    register_codes tbl (map (fun b => (b, 0%Z)) l) = (0%Z, tbl ++ map (fun b => mkBE (firstn RES_LEN (be_prefix b)) (be_prio b)) l)).
  { induction l as [|b l IH]; intros tbl Lt; [simpl; rewrite app_nil_r; reflexivity|].
    cbn [map register_codes]. cbn [List.length] in Lt. change (0 =? 0)%Z with true. cbv iota.
    unfold ceed_register, register_impl. destruct (List.length tbl <? MAX_BACKENDS) eqn:Q; [|apply Nat.ltb_ge in Q; lia].
    cbn [snd]. rewrite IH by (rewrite app_length; cbn [List.length]; lia). rewrite <- app_assoc. reflexivity. }
  rewrite (R bs []) by exact L. rewrite calls_true. reflexivity.
Qed.

Print Assumptions C61_one_parent.
Print Assumptions C61_one_list.
Print Assumptions C61_add_exact.
Print Assumptions C61_add_seen.
Print Assumptions C61_references.
Print Assumptions C61_reader_stable.
Print Assumptions C61_fallback.
Print Assumptions C61_fallback_defines_refuted.
Print Assumptions C61_fallback_stale_refuted.
Print Assumptions C61_refused_leaks_refuted.
Print Assumptions C61_unmatched_restore_refuted.
Print Assumptions C61_delegate_reader_refuted.
Print Assumptions C61_delegate_hides_refuted.
Print Assumptions C61_destroy_refused_refuted.
Print Assumptions C62_single.
Print Assumptions C62_none.
Print Assumptions C62_list_refuted.
Print Assumptions C62_register_once.
