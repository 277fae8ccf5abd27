(** * Property C42: path normalisation *)
From Coq Require Import List ZArith Lia Bool Arith Ascii String.
From Verif Require Import Prelude RstrModel StrModel QfModel JitModel.
Import ListNotations.
Local Open Scope char_scope.
Local Open Scope nat_scope.

(** An absolute path as the list of its components: "/a/b" is [enc ["a"; "b"]]. *)
Definition enc (l : list str) : str := List.concat (map (fun c => "/" :: c) l).
Arguments enc : simpl never.
Definition noslash (l : list str) : Prop := forall c, In c l -> ~ In "/" c.
Lemma enc_app : forall a b, enc (a ++ b) = enc a ++ enc b.
Proof. intros. unfold enc. now rewrite map_app, concat_app. Qed.
(** every string that starts with a slash is such a path *)
Lemma enc_surj : forall s, exists l, l <> [] /\ noslash l /\ "/" :: s = enc l.
Proof.
  induction s as [|c s (l & A & B & C)].
  { exists [[]]. split; [discriminate|]. split; [|reflexivity]. intros c [<-|[]]. auto. }
  destruct l as [|x l]; [contradiction|]. destruct (Ascii.eqb_spec c "/") as [->|N].
  - exists ([] :: x :: l). split; [discriminate|]. split; [intros y [<-|Hy]; auto|]. rewrite C. reflexivity.
  - exists ((c :: x) :: l). split; [discriminate|]. split.
    + intros y [<-|Hy]; [|apply B; simpl; auto]. intros [G|G]; [congruence|]. eapply (B x); simpl; auto.
    + unfold enc in *. simpl in *. inversion C. reflexivity.
Qed.

(** ** What normalisation does on components *)
Definition final (rest : list str) : bool := match rest with [] => true | [[]] => true | _ => false end.
(** [st] holds the components kept so far, last one first *)
Fixpoint nrm (st rest : list str) : res (list str) :=
  match rest with
  | [] => Ok (rev st)
  | c :: rest' =>
    if seqb c (lit ".") && negb (final rest') then nrm st rest'
    else if seqb c (lit "..") && negb (final rest') then
      match st with
      | [] => UB
      | [_] => Err ERR_MAJOR
      | _ :: st' => nrm st' rest'
      end
    else nrm (c :: st) rest'
  end.
Definition rmap (r : res (list str)) : res str := match r with Ok l => Ok (enc l) | Err c => Err c | UB => UB end.

Lemma norm_skip : forall fuel s from c, nth_error s from = Some c -> c <> "." -> norm_loop fuel s from = norm_loop fuel s (S from).
Proof.
  intros [|fuel] s from c H N; [reflexivity|]. cbn [norm_loop]. assert (E : skipn from s = c :: skipn (S from) s).
  { clear N. revert s H. induction from as [|f IH]; intros [|x s] H; simpl in *; try discriminate; [congruence|]. rewrite (IH _ H). destruct s; [destruct f; discriminate|reflexivity]. }
  rewrite E. cbn [strchr]. destruct (Ascii.eqb_spec c "."); [contradiction|]. destruct (strchr (skipn (S from) s) "."); cbn [option_map]; [|reflexivity].
  replace (from + S n0) with (S from + n0) by lia. reflexivity.
Qed.
Lemma chr_app2 : forall P T i c, chr_at (P ++ T) (List.length P + i) c = chr_at T i c.
Proof. intros. unfold chr_at. rewrite nth_error_app2 by lia. now replace (List.length P + i - List.length P) with i by lia. Qed.
Lemma back_pre : forall B A n, n < List.length A -> back_slash (A ++ B) n = back_slash A n.
Proof. intros B A. induction n as [|n IHn]; intros L; [reflexivity|]. simpl. unfold chr_at. rewrite nth_error_app1 by lia. rewrite IHn by lia. reflexivity. Qed.
Lemma back_enc : forall P c k, ~ In "/" c -> k = List.length P + List.length c -> back_slash (P ++ "/" :: c) k = List.length P.
Proof.
  intros P c k Hc. revert k. induction c as [|x c' IH] using rev_ind; intros k ->.
  - simpl. rewrite Nat.add_0_r. destruct P as [|p P]; [reflexivity|]. cbn [back_slash List.length]. change (S (List.length P)) with (List.length (p :: P)) at 1.
    rewrite <- (Nat.add_0_r (List.length (p :: P))). rewrite chr_app2. reflexivity.
  - rewrite app_length. simpl. replace (List.length P + (List.length c' + 1)) with (S (List.length P + List.length c')) by lia. cbn [back_slash].
    replace (S (List.length P + List.length c')) with (List.length (P ++ "/" :: c') + 0) by (rewrite app_length; simpl; lia).
    replace (P ++ "/" :: c' ++ [x]) with ((P ++ "/" :: c') ++ [x]) by (rewrite <- app_assoc; reflexivity). rewrite chr_app2.
    unfold chr_at. simpl. destruct (Ascii.eqb_spec x "/") as [->|]; [exfalso; apply Hc, in_app_iff; simpl; auto|].
    assert (Hc' : ~ In "/" c') by (intros G; apply Hc, in_app_iff; auto).
    rewrite back_pre by (rewrite app_length; simpl; lia). apply IH; auto.
Qed.

Lemma firstn_len : forall A (a b : list A), firstn (List.length a) (a ++ b) = a.
Proof. intros. rewrite firstn_app, Nat.sub_diag, firstn_all. simpl. apply app_nil_r. Qed.
Lemma skipn_len : forall A (a b : list A), skipn (List.length a) (a ++ b) = b.
Proof. intros. rewrite skipn_app, Nat.sub_diag, skipn_all. reflexivity. Qed.
Lemma enc_final : forall rest, final rest = (List.length (enc rest) <=? 1).
Proof. intros [|[|a c] [|d r]]; unfold enc; simpl; auto. Qed.

Ltac lists := repeat (rewrite <- app_assoc || (progress cbn [app])); reflexivity.
(** The loop at a position inside or at the start of the current component agrees with [nrm]. *)
Lemma norm_main : forall n fuel st cpre ctail rest,
  List.length (ctail ++ enc rest) <= n -> List.length (ctail ++ enc rest) < fuel -> noslash (rev st) -> ~ In "/" (cpre ++ ctail) -> noslash rest ->
  norm_loop fuel ((enc (rev st) ++ "/" :: cpre) ++ ctail ++ enc rest) (List.length (enc (rev st) ++ "/" :: cpre)) =
  rmap (match cpre with [] => nrm st (ctail :: rest) | _ => nrm ((cpre ++ ctail) :: st) rest end).
Proof.
  induction n as [n IHn] using lt_wf_ind. intros fuel st cpre ctail rest Ln Lf Hs Hc Hr.
  assert (Hnd : forall c, ~ In "/" c -> noslash (rev (c :: st))). { intros c H y Hy. simpl in Hy. apply in_app_iff in Hy. destruct Hy as [Hy|[<-|[]]]; auto. }
  set (P := enc (rev st) ++ "/" :: cpre) in *. destruct ctail as [|x ctail].
  - (* end of the component *)
    assert (E : (match cpre with [] => nrm st ([] :: rest) | _ => nrm ((cpre ++ []) :: st) rest end) = nrm (cpre :: st) rest). { destruct cpre; [reflexivity|]. now rewrite app_nil_r. }
    rewrite E. clear E. simpl app in *. assert (Ep : P = enc (rev (cpre :: st))). { unfold P. simpl. rewrite enc_app. unfold enc at 3. simpl. rewrite app_nil_r. reflexivity. }
    destruct rest as [|c rest].
    + simpl. rewrite app_nil_r. destruct fuel as [|fuel]; [simpl in Lf; lia|]. simpl. rewrite skipn_all. simpl. f_equal. rewrite Ep. reflexivity.
    + assert (Ee : enc (c :: rest) = "/" :: c ++ enc rest) by reflexivity. rewrite Ee in *. simpl in Ln, Lf.
      rewrite (norm_skip fuel _ _ "/") by (try discriminate; rewrite nth_error_app2, Nat.sub_diag by lia; reflexivity).
      replace (P ++ "/" :: c ++ enc rest) with ((enc (rev (cpre :: st)) ++ "/" :: []) ++ c ++ enc rest) by (rewrite <- Ep, <- app_assoc; reflexivity).
      replace (S (List.length P)) with (List.length (enc (rev (cpre :: st)) ++ "/" :: [])) by (rewrite <- Ep, app_length; simpl; lia).
      rewrite app_nil_r in Hc. rewrite (IHn (List.length (c ++ enc rest))); auto; [lia| |].
      * simpl app. apply Hr. simpl; auto.
      * intros y Hy. apply Hr. simpl; auto.
  - destruct (Ascii.eqb_spec x ".") as [->|N].
    + (* a dot *)
      destruct fuel as [|fuel]; [simpl in Lf; lia|]. cbn [norm_loop]. rewrite skipn_len. cbn [app strchr]. rewrite Ascii.eqb_refl. rewrite Nat.add_0_r.
      assert (Lp : List.length P = List.length (enc (rev st)) + S (List.length cpre)) by (unfold P; rewrite app_length; reflexivity).
      set (T := ctail ++ enc rest). change (("." :: ctail) ++ enc rest) with ("." :: T) in *.
      replace (List.length (P ++ "." :: T) - List.length P) with (S (List.length T)) by (rewrite app_length; simpl; lia).
      assert (Z0 : (List.length P =? 0) = false) by (apply Nat.eqb_neq; lia). rewrite Z0. cbn [negb andb].
      assert (C1 : forall c, chr_at (P ++ "." :: T) (List.length P + 1) c = chr_at T 0 c). { intros c. rewrite chr_app2. reflexivity. }
      assert (C2 : forall c, chr_at (P ++ "." :: T) (List.length P + 2) c = chr_at T 1 c). { intros c. rewrite chr_app2. reflexivity. }
      rewrite !C1, C2.
      assert (Next : norm_loop fuel (P ++ "." :: T) (S (List.length P)) = rmap (nrm ((cpre ++ "." :: ctail) :: st) rest)).
      { replace (P ++ "." :: T) with ((enc (rev st) ++ "/" :: (cpre ++ ["."])) ++ ctail ++ enc rest) by (unfold P, T; lists).
        replace (S (List.length P)) with (List.length (enc (rev st) ++ "/" :: (cpre ++ ["."]))) by (rewrite Lp, !app_length; simpl; rewrite app_length; simpl; lia).
        simpl in Ln, Lf. rewrite (IHn (List.length (ctail ++ enc rest))); [|fold T; lia|fold T; lia|fold T; lia|exact Hs|rewrite <- app_assoc; exact Hc|exact Hr].
        destruct (cpre ++ ["."]) eqn:E; [destruct cpre; discriminate|]. rewrite <- E, <- app_assoc. reflexivity. }
      destruct cpre as [|y cpre].
      * (* at the start of the component *)
        assert (C0 : chr_at (P ++ "." :: T) (List.length P - 1) "/" = true).
        { replace (List.length P - 1) with (List.length (enc (rev st)) + 0) by (rewrite Lp; simpl; lia). unfold P. rewrite <- app_assoc, chr_app2. reflexivity. }
        rewrite C0. cbn [nrm].
        destruct ctail as [|z ctail].
        -- (* component "." *)
           change (seqb ["."] (lit ".")) with true. change (seqb ["."] (lit "..")) with false. rewrite enc_final. unfold T in *. simpl app in *.
           destruct (Nat.leb_spec (List.length (enc rest)) 1) as [L|L]; cbn [negb andb].
           ++ destruct (Nat.ltb_spec 2 (S (List.length (enc rest)))); [lia|]. destruct (Nat.ltb_spec 3 (S (List.length (enc rest)))); [lia|]. cbn [andb]. exact Next.
           ++ destruct (Nat.ltb_spec 2 (S (List.length (enc rest)))); [|lia]. destruct rest as [|c rest]; [simpl in L; lia|].
              assert (Ee : enc (c :: rest) = "/" :: c ++ enc rest) by reflexivity. rewrite Ee in *. change (chr_at ("/" :: c ++ enc rest) 0 "/") with true. cbn [andb].
              rewrite firstn_len. replace (skipn (List.length P + 2) (P ++ "." :: "/" :: c ++ enc rest)) with (c ++ enc rest) by (rewrite skipn_app, skipn_all2 by lia; replace (List.length P + 2 - List.length P) with 2 by lia; reflexivity).
              unfold P. simpl in Ln, Lf. rewrite (IHn (List.length (c ++ enc rest))); auto; [lia|lia| |]. { simpl. apply Hr. simpl; auto. } intros y Hy. apply Hr. simpl; auto.
        -- assert (Sd : seqb ("." :: z :: ctail) (lit ".") = false) by reflexivity. rewrite Sd. cbn [andb].
           assert (Zs : z <> "/") by (intros ->; apply Hc; simpl; auto). unfold T. cbn [app]. change (chr_at (z :: ctail ++ enc rest) 0 "/") with (Ascii.eqb z "/").
           destruct (Ascii.eqb_spec z "/"); [contradiction|]. rewrite andb_false_r. destruct (Ascii.eqb_spec z ".") as [->|Nz].
           ++ destruct ctail as [|w ctail].
              ** (* component ".." *)
                 change (seqb ["."; "."] (lit "..")) with true. rewrite enc_final. cbn [app]. change (chr_at ("." :: enc rest) 0 ".") with true. change (chr_at ("." :: enc rest) 1 "/") with (chr_at (enc rest) 0 "/").
                 cbn [List.length andb]. destruct (Nat.leb_spec (List.length (enc rest)) 1) as [L|L]; cbn [negb andb].
                 { destruct (Nat.ltb_spec 3 (S (S (List.length (enc rest))))); [lia|]. cbn [andb]. exact Next. }
                 destruct (Nat.ltb_spec 3 (S (S (List.length (enc rest))))); [|lia]. destruct rest as [|c rest]; [simpl in L; lia|].
                 assert (Ee : enc (c :: rest) = "/" :: c ++ enc rest) by reflexivity. rewrite Ee in *. change (chr_at ("/" :: c ++ enc rest) 0 "/") with true. cbn [andb].
                 destruct st as [|t1 st].
                 { change (List.length P) with 1. reflexivity. }
                 assert (Ep : P = enc (rev st) ++ ("/" :: t1) ++ ["/"]). { unfold P. simpl. rewrite enc_app. unfold enc at 2. simpl. rewrite app_nil_r, <- app_assoc. reflexivity. }
                 assert (Lp' : List.length P = List.length (enc (rev st)) + S (List.length t1) + 1). { rewrite Ep, !app_length. simpl. lia. }
                 destruct (Nat.eqb_spec (List.length P) 1); [lia|].
                 assert (Bk : back_slash (P ++ "." :: "." :: "/" :: c ++ enc rest) (List.length P - 2) = List.length (enc (rev st))).
                 { rewrite back_pre by lia. rewrite Ep, app_assoc, back_pre by (rewrite !app_length; simpl; lia). apply back_enc; [|rewrite !app_length; simpl; lia].
                   apply (Hs t1). simpl. apply in_app_iff. simpl. auto. }
                 rewrite Bk. destruct st as [|t2 st]; [reflexivity|].
                 destruct (Nat.eqb_spec (List.length (enc (rev (t2 :: st)))) 0) as [Z|Z]. { exfalso. simpl in Z. rewrite enc_app, app_length in Z. simpl in Z. unfold enc in Z. simpl in Z. lia. }
                 rewrite Ep at 1. rewrite <- app_assoc, firstn_len.
                 replace (skipn (List.length P + 2) (P ++ "." :: "." :: "/" :: c ++ enc rest)) with ("/" :: c ++ enc rest) by (rewrite skipn_app, skipn_all2 by lia; replace (List.length P + 2 - List.length P) with 2 by lia; reflexivity).
                 unfold T in Ln, Lf. rewrite Ee in Ln, Lf. simpl in Ln, Lf.
                 rewrite (norm_skip fuel _ _ "/") by (try discriminate; rewrite nth_error_app2, Nat.sub_diag by lia; reflexivity).
                 replace (enc (rev (t2 :: st)) ++ "/" :: c ++ enc rest) with ((enc (rev (t2 :: st)) ++ "/" :: []) ++ c ++ enc rest) by (rewrite <- app_assoc; reflexivity).
                 replace (S (List.length (enc (rev (t2 :: st))))) with (List.length (enc (rev (t2 :: st)) ++ "/" :: [])) by (rewrite app_length; simpl; lia).
                 rewrite (IHn (List.length (c ++ enc rest))); [reflexivity|lia|lia|lia| | |].
                 { intros y Hy. apply Hs. simpl rev in *. apply in_app_iff. auto. } { simpl. apply Hr. simpl; auto. } intros y Hy. apply Hr. simpl; auto.
              ** assert (Su : seqb ("." :: "." :: w :: ctail) (lit "..") = false) by reflexivity. rewrite Su. cbn [andb app].
                 change (chr_at ("." :: w :: ctail ++ enc rest) 1 "/") with (Ascii.eqb w "/"). destruct (Ascii.eqb_spec w "/") as [->|]; [exfalso; apply Hc; simpl; auto|]. rewrite andb_false_r. exact Next.
           ++ assert (Su : seqb ("." :: z :: ctail) (lit "..") = false). { simpl. destruct (Ascii.eqb_spec z "."); [contradiction|reflexivity]. } rewrite Su. cbn [andb].
              change (chr_at (z :: ctail ++ enc rest) 0 ".") with (Ascii.eqb z "."). destruct (Ascii.eqb_spec z "."); [contradiction|]. rewrite andb_false_r. cbn [andb]. exact Next.
      * (* in the middle of the component: the previous character is not a slash *)
        assert (C0 : chr_at (P ++ "." :: T) (List.length P - 1) "/" = false).
        { destruct (@exists_last _ (y :: cpre)) as (c' & w & E); [discriminate|]. replace (List.length P - 1) with (List.length (enc (rev st) ++ "/" :: c') + 0) by (rewrite Lp, app_length, E, app_length; simpl; lia).
          unfold P. rewrite E. replace ((enc (rev st) ++ "/" :: c' ++ [w]) ++ "." :: T) with ((enc (rev st) ++ "/" :: c') ++ w :: "." :: T) by lists.
          rewrite chr_app2. unfold chr_at. simpl. destruct (Ascii.eqb_spec w "/") as [->|]; auto. exfalso. apply Hc. rewrite E. rewrite <- app_assoc. apply in_app_iff. simpl. auto. }
        rewrite C0, !andb_false_r. cbn [andb]. exact Next.
    + (* an ordinary character *)
      rewrite (norm_skip fuel _ _ x); [|rewrite nth_error_app2, Nat.sub_diag by lia; reflexivity|auto].
      replace (P ++ (x :: ctail) ++ enc rest) with ((enc (rev st) ++ "/" :: (cpre ++ [x])) ++ ctail ++ enc rest) by (unfold P; lists).
      replace (S (List.length P)) with (List.length (enc (rev st) ++ "/" :: (cpre ++ [x]))) by (unfold P; rewrite !app_length; simpl; rewrite app_length; simpl; lia).
      simpl in Ln, Lf. rewrite (IHn (List.length (ctail ++ enc rest))); [|lia|lia|lia|exact Hs|rewrite <- app_assoc; exact Hc|exact Hr].
      destruct (cpre ++ [x]) eqn:E; [destruct cpre; discriminate|]. rewrite <- E, <- app_assoc. simpl app. destruct cpre as [|y cpre]; [|reflexivity].
      simpl app. cbn [nrm]. assert (A1 : seqb (x :: ctail) (lit ".") = false). { simpl. destruct (Ascii.eqb_spec x "."); [contradiction|reflexivity]. }
      assert (A2 : seqb (x :: ctail) (lit "..") = false). { simpl. destruct (Ascii.eqb_spec x "."); [contradiction|reflexivity]. } rewrite A1, A2. reflexivity.
Qed.
Lemma normalize_nrm : forall l, l <> [] -> noslash l -> normalize (enc l) = rmap (nrm [] l).
Proof.
  intros [|c l] Hne H; [contradiction|]. unfold normalize. rewrite (norm_skip _ _ 0 "/") by (try reflexivity; discriminate).
  change (enc (c :: l)) with ((enc (rev []) ++ "/" :: []) ++ c ++ enc l). change 1 with (List.length (enc (rev []) ++ "/" :: [])) at 1.
  rewrite (norm_main (List.length (c ++ enc l))); auto; try lia.
  - intros y [].
  - simpl. apply H. simpl. auto.
  - intros y Hy. apply H. simpl. auto.
Qed.

(** ** The meaning of a path *)
(** The directory entry a path names: "." and empty components stay, ".." goes up one level. *)
Definition enter (st : list str) (c : str) : list str :=
  if seqb c [] || seqb c (lit ".") then st else if seqb c (lit "..") then tl st else c :: st.
Definition resolve (l : list str) : list str := rev (fold_left enter l []).
Definition filled (l : list str) : Prop := forall c, In c l -> c <> [].
(** every ".." that is not the last component has at least two directories above it *)
Definition deep (l : list str) : Prop := forall l1 l2, l = l1 ++ lit ".." :: l2 -> 2 <= List.length (resolve l1).

Lemma nrm_spec : forall l' f st, filled (l' ++ [f]) ->
  ((forall l1 l2, l' = l1 ++ lit ".." :: l2 -> 2 <= List.length (fold_left enter l1 st)) -> nrm st (l' ++ [f]) = Ok (rev (f :: fold_left enter l' st))) /\
  (forall o, nrm st (l' ++ [f]) = Ok o -> forall l1 l2, l' = l1 ++ lit ".." :: l2 -> 2 <= List.length (fold_left enter l1 st)).
Proof.
  induction l' as [|c l IH]; intros f st Hf.
  - simpl app. cbn [nrm final]. rewrite !andb_false_r. simpl. split; auto. intros o _ l1 l2 E. destruct l1; discriminate.
  - simpl app. cbn [nrm]. assert (Fi : final (l ++ [f]) = false).
    { destruct l as [|x l]; simpl. - destruct f; auto. exfalso. apply (Hf []); simpl; auto. - destruct x; auto. exfalso. apply (Hf []); simpl; auto. }
    rewrite Fi, !andb_true_r. assert (Hf' : filled (l ++ [f])) by (intros y Hy; apply Hf; simpl; auto).
    assert (Hc : c <> []) by (apply Hf; simpl; auto). assert (Sc : seqb c [] = false) by (apply seqb_neq; auto).
    cbn [fold_left].
    assert (Pre : forall st', (c <> lit ".." -> enter st c = st') -> (c <> lit "..") ->
       ((forall l1 l2, c :: l = l1 ++ lit ".." :: l2 -> 2 <= List.length (fold_left enter l1 st)) <-> (forall l1 l2, l = l1 ++ lit ".." :: l2 -> 2 <= List.length (fold_left enter l1 st')))).
    { intros st' He Hn. split; intros H l1 l2 E.
      - specialize (H (c :: l1) l2). cbn [app fold_left] in H. rewrite He in H by auto. apply H. rewrite E. reflexivity.
      - destruct l1 as [|x l1]; cbn [app] in E; [injection E as E _; contradiction|]. injection E as <- E. cbn [fold_left]. rewrite He by auto. eauto. }
    destruct (seqb c (lit ".")) eqn:E1.
    + assert (Hn : c <> lit ".."). { apply seqb_eq in E1. subst. discriminate. }
      assert (He : enter st c = st). { unfold enter. rewrite E1, orb_true_r. reflexivity. } rewrite He.
      destruct (IH f st Hf') as [A B]. pose proof (Pre st (fun _ => He) Hn) as Pr. split; [intros H; apply A, Pr, H|]. intros o Ho. apply Pr. eapply B; eauto.
    + destruct (seqb c (lit "..")) eqn:E2.
      * apply seqb_eq in E2. destruct st as [|a [|b st]].
        -- split; [|discriminate]. intros H. specialize (H [] l). rewrite E2 in H. specialize (H eq_refl). simpl in H. lia.
        -- split; [|discriminate]. intros H. specialize (H [] l). rewrite E2 in H. specialize (H eq_refl). simpl in H. lia.
        -- destruct (IH f (b :: st) Hf') as [A B]. assert (He : enter (a :: b :: st) c = b :: st). { unfold enter. rewrite Sc, E1. subst c. reflexivity. } rewrite He.
           split.
           ++ intros H. apply A. intros l1 l2 E. specialize (H (c :: l1) l2). cbn [app fold_left] in H. rewrite He in H. apply H. rewrite E. reflexivity.
           ++ intros o Ho l1 l2 E. destruct l1 as [|x l1]; cbn [app] in E; [simpl; lia|]. injection E as <- E. cbn [fold_left]. rewrite He. eapply B; eauto.
      * assert (Hn : c <> lit "..") by (apply seqb_neq; auto).
        assert (He : enter st c = c :: st). { unfold enter. rewrite Sc, E1, E2. reflexivity. } rewrite He.
        destruct (IH f (c :: st) Hf') as [A B]. pose proof (Pre (c :: st) (fun _ => He) Hn) as Pr. split; [intros H; apply A, Pr, H|]. intros o Ho. apply Pr. eapply B; eauto.
Qed.
Lemma enter_clean : forall l st, (forall c, In c st -> c <> lit "." /\ c <> lit ".." /\ c <> []) -> forall c, In c (fold_left enter l st) -> c <> lit "." /\ c <> lit ".." /\ c <> [].
Proof.
  induction l as [|x l IH]; intros st H c Hc; [auto|]. simpl in Hc. eapply IH; [|exact Hc]. intros y Hy. unfold enter in Hy.
  destruct (seqb x []) eqn:E0; [auto|]. destruct (seqb x (lit ".")) eqn:E1; [auto|]. cbn [orb] in Hy. destruct (seqb x (lit "..")) eqn:E2.
  - destruct st; [destruct Hy|]. apply H. simpl; auto.
  - apply seqb_neq in E0, E1, E2. destruct Hy as [<-|Hy]; auto.
Qed.
Lemma enter_plain : forall l st, (forall c, In c l -> c <> lit "." /\ c <> lit ".." /\ c <> []) -> fold_left enter l st = rev l ++ st.
Proof.
  induction l as [|x l IH]; intros st H; [reflexivity|]. simpl. destruct (H x) as (A & B & C); simpl; auto.
  unfold enter at 2. apply seqb_neq in A, B, C. rewrite A, B, C. cbn [orb]. rewrite IH, <- app_assoc; auto. intros y Hy. apply H. simpl; auto.
Qed.

(** The path of nonempty components [dirs ++ [file]] is accepted exactly if every ".." has two directories above it; the
    result is the directories resolved, followed by the last component. *)
Theorem C42_normalize : forall dirs file, noslash (dirs ++ [file]) -> filled (dirs ++ [file]) ->
  (deep dirs -> normalize (enc (dirs ++ [file])) = Ok (enc (resolve dirs ++ [file]))) /\
  (forall s, normalize (enc (dirs ++ [file])) = Ok s -> deep dirs).
Proof.
  intros dirs file Hn Hf. rewrite normalize_nrm; auto; [|destruct dirs; discriminate]. destruct (nrm_spec dirs file [] Hf) as [A B]. unfold deep, resolve. split.
  - intros H. rewrite A; [reflexivity|]. intros l1 l2 E. specialize (H l1 l2 E). rewrite rev_length in H. exact H.
  - intros s H l1 l2 E. rewrite rev_length. destruct (nrm [] (dirs ++ [file])) as [o| |] eqn:N; try discriminate. eapply B; eauto.
Qed.
(** The result names the same file and has no "." or ".." except possibly as the last component. *)
Theorem C42_meaning : forall dirs file s, noslash (dirs ++ [file]) -> filled (dirs ++ [file]) -> normalize (enc (dirs ++ [file])) = Ok s ->
  exists dirs', s = enc (dirs' ++ [file]) /\ resolve (dirs' ++ [file]) = resolve (dirs ++ [file]) /\ forall c, In c dirs' -> c <> lit "." /\ c <> lit ".." /\ c <> [].
Proof.
  intros dirs file s Hn Hf H. destruct (C42_normalize dirs file Hn Hf) as [A B]. rewrite (A (B _ H)) in H. inversion H; subst s. exists (resolve dirs). split; auto.
  assert (Cl : forall c, In c (resolve dirs) -> c <> lit "." /\ c <> lit ".." /\ c <> []). { intros c Hc. unfold resolve in Hc. apply in_rev in Hc. eapply enter_clean; [|exact Hc]. intros ? []. }
  split; auto. unfold resolve. rewrite !fold_left_app. f_equal. f_equal. change (rev (fold_left enter dirs [])) with (resolve dirs). rewrite enter_plain by auto.
  unfold resolve. rewrite rev_involutive. apply app_nil_r.
Qed.
(** Two accepted paths name the same file (last component other than "." and "..") exactly if their normal forms are equal. *)
Theorem C42_canonical : forall d1 f1 d2 f2 s1 s2, noslash (d1 ++ [f1]) -> filled (d1 ++ [f1]) -> noslash (d2 ++ [f2]) -> filled (d2 ++ [f2]) ->
  f1 <> lit "." -> f1 <> lit ".." -> f2 <> lit "." -> f2 <> lit ".." ->
  normalize (enc (d1 ++ [f1])) = Ok s1 -> normalize (enc (d2 ++ [f2])) = Ok s2 -> (s1 = s2 <-> resolve (d1 ++ [f1]) = resolve (d2 ++ [f2])).
Proof.
  intros d1 f1 d2 f2 s1 s2 N1 F1 N2 F2 A1 A2 B1 B2 H1 H2.
  destruct (C42_normalize d1 f1 N1 F1) as [C1 D1]. rewrite (C1 (D1 _ H1)) in H1. inversion H1; subst s1.
  destruct (C42_normalize d2 f2 N2 F2) as [C2 D2]. rewrite (C2 (D2 _ H2)) in H2. inversion H2; subst s2.
  assert (R : forall d f, f <> [] -> f <> lit "." -> f <> lit ".." -> resolve (d ++ [f]) = resolve d ++ [f]).
  { intros d f X Y Z. unfold resolve. rewrite fold_left_app. simpl. unfold enter at 1. apply seqb_neq in X, Y, Z. rewrite X, Y, Z. reflexivity. }
  rewrite !R; auto; try (solve [apply F2, in_app_iff; simpl; auto]); try (solve [apply F1, in_app_iff; simpl; auto]).
  assert (Inj : forall l l', noslash l -> noslash l' -> enc l = enc l' -> l = l').
  { assert (Cut : forall a b x y, ~ In "/" a -> ~ In "/" b -> (x = [] \/ exists t, x = "/" :: t) -> (y = [] \/ exists t, y = "/" :: t) -> a ++ x = b ++ y -> a = b /\ x = y).
    { induction a as [|p a IH]; intros [|q b] x y Ha Hb Hx Hy E; simpl in E; auto.
      - destruct Hx as [->|(t & ->)]; [discriminate|]. inversion E; subst. exfalso. apply Hb. simpl; auto.
      - destruct Hy as [->|(t & ->)]; [discriminate|]. inversion E; subst. exfalso. apply Ha. simpl; auto.
      - inversion E; subst. destruct (IH b x y) as [-> ->]; auto; intros G; [apply Ha|apply Hb]; simpl; auto. }
    assert (Es : forall l, enc l = [] \/ exists t, enc l = "/" :: t). { intros [|c l]; [left; reflexivity|right; exists (c ++ enc l); reflexivity]. }
    induction l as [|c l IH]; intros [|c' l'] Hl Hl' E; auto; try discriminate. change (enc (c :: l)) with ("/" :: c ++ enc l) in E. change (enc (c' :: l')) with ("/" :: c' ++ enc l') in E.
    inversion E. destruct (Cut c c' (enc l) (enc l')) as [-> E2]; auto; [apply Hl|apply Hl'|]; simpl; auto. f_equal. apply IH; auto; intros y Hy; [apply Hl|apply Hl']; simpl; auto. }
  assert (Ns : forall d f, noslash (d ++ [f]) -> noslash (resolve d ++ [f])).
  { intros d f H y Hy. apply in_app_iff in Hy. destruct Hy as [Hy|Hy]; [|apply H, in_app_iff; auto]. apply H, in_app_iff. left. unfold resolve in Hy. apply in_rev in Hy.
    assert (G : forall l st y, In y (fold_left enter l st) -> In y l \/ In y st). { clear. induction l as [|x l IH]; intros st y H; auto. simpl in H. apply IH in H. destruct H as [H|H]; [simpl; auto|].
      unfold enter in H. destruct (seqb x [] || seqb x (lit ".")); auto. destruct (seqb x (lit "..")); [destruct st; simpl in *; auto|]. destruct H as [<-|H]; simpl; auto. }
    apply G in Hy. destruct Hy as [Hy|[]]. exact Hy. }
  split; intros E; [apply Inj in E; auto|exact (f_equal enc E)].
Qed.
Print Assumptions C42_normalize. Print Assumptions C42_meaning. Print Assumptions C42_canonical.
Example C42_ex : normalize (lit "/usr/local/./lib/../include/k.h") = Ok (lit "/usr/local/include/k.h") /\
  (let d := map lit ["usr"; "local"; "."; "lib"; ".."; "include"]%string in lit "/usr/local/./lib/../include/k.h" = enc (d ++ [lit "k.h"]) /\ noslash (d ++ [lit "k.h"]) /\ filled (d ++ [lit "k.h"]) /\ deep d).
Proof.
  split; [vm_compute; reflexivity|]. split; [reflexivity|]. split; [|split].
  - intros c H K. simpl in H. repeat destruct H as [<-|H]; try contradiction; simpl in K; repeat destruct K as [K|K]; try discriminate; auto.
  - intros c H. simpl in H. repeat destruct H as [<-|H]; try contradiction; discriminate.
  - intros l1 l2 E. simpl in E. destruct l1 as [|a [|b [|c [|d [|e [|f l1]]]]]]; inversion E; subst; try (vm_compute; lia). destruct l1; discriminate.
Qed.
(** Finding: ".." with one directory above it is rejected although the path is meaningful. *)
Theorem C42_top_refuted : exists dirs file, noslash (dirs ++ [file]) /\ filled (dirs ++ [file]) /\ resolve (dirs ++ [file]) = [lit "b"] /\ enc (dirs ++ [file]) = lit "/a/../b" /\ normalize (enc (dirs ++ [file])) = Err ERR_MAJOR.
Proof.
  exists [lit "a"; lit ".."], (lit "b"). split; [|split; [|repeat split; vm_compute; reflexivity]].
  - intros c H K. simpl in H. repeat destruct H as [<-|H]; try contradiction; simpl in K; repeat destruct K as [K|K]; try discriminate; auto.
  - intros c H. simpl in H. repeat destruct H as [<-|H]; try contradiction; discriminate.
Qed.
(** Finding: ".." directly below the root makes the walk back start before the string. *)
Theorem C42_root_refuted : normalize (lit "/../b") = UB.
Proof. vm_compute. reflexivity. Qed.
(** Finding: with an empty component before ".." the result names another file. *)
Theorem C42_double_slash_refuted : exists l l', noslash l /\ noslash l' /\ enc l = lit "/a//../b" /\ normalize (enc l) = Ok (enc l') /\ resolve l <> resolve l'.
Proof.
  exists [lit "a"; []; lit ".."; lit "b"], [lit "a"; lit "b"]. split; [|split].
  - intros c H K. simpl in H. repeat destruct H as [<-|H]; try contradiction; simpl in K; repeat destruct K as [K|K]; try discriminate; auto.
  - intros c H K. simpl in H. repeat destruct H as [<-|H]; try contradiction; simpl in K; repeat destruct K as [K|K]; try discriminate; auto.
  - split; [reflexivity|]. split; [vm_compute; reflexivity|]. vm_compute. discriminate.
Qed.
Print Assumptions C42_top_refuted. Print Assumptions C42_root_refuted. Print Assumptions C42_double_slash_refuted.
