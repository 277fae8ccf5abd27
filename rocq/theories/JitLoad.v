(** * Property C41: expansion of include lines *)
From Coq Require Import List ZArith Lia Bool Arith Ascii String Relations.
From Verif Require Import Prelude RstrModel StrModel QfModel JitModel JitProps.
Import ListNotations.
Local Open Scope char_scope.
Local Open Scope nat_scope.

(** ** Lines *)
(** lines of a text, without the newlines *)
Fixpoint lines_of (s : str) : list str :=
  match s with
  | [] => [[]]
  | c :: t => if Ascii.eqb c NL then [] :: lines_of t
              else match lines_of t with l :: ls => (c :: l) :: ls | [] => [[c]] end
  end.
Definition blank (l : str) : bool := forallb (fun c => Ascii.eqb c " ") l.
Fixpoint strip (l : str) : str := match l with c :: t => if Ascii.eqb c " " then strip t else l | [] => [] end.
(** the lines that are not blank, without their indentation *)
Definition nb (s : str) : list str := map strip (filter (fun l => negb (blank l)) (lines_of s)).

Lemma lines_ne : forall s, lines_of s <> [].
Proof. intros [|c t]; simpl; [discriminate|]. destruct (Ascii.eqb c NL); [discriminate|]. destruct (lines_of t); discriminate. Qed.
Lemma lines_nl : forall a b, lines_of (a ++ NL :: b) = lines_of a ++ lines_of b.
Proof.
  induction a as [|c a IH]; intros b; [reflexivity|]. simpl. rewrite IH. destruct (Ascii.eqb c NL); [reflexivity|].
  destruct (lines_of a) eqn:E; [exfalso; eapply lines_ne; eauto|]. reflexivity.
Qed.
Lemma nb_nl : forall a b, nb (a ++ NL :: b) = nb a ++ nb b.
Proof. intros. unfold nb. now rewrite lines_nl, filter_app, map_app. Qed.
Lemma lines_single : forall l, ~ In NL l -> lines_of l = [l].
Proof.
  induction l as [|c l IH]; intros H; [reflexivity|]. simpl. destruct (Ascii.eqb_spec c NL) as [->|]; [exfalso; apply H; simpl; auto|].
  rewrite IH; [reflexivity|]. intros G. apply H. simpl; auto.
Qed.
Lemma nb_spaces : forall b, blank b = true -> nb b = [].
Proof.
  intros b H. assert (N : ~ In NL b). { intros G. unfold blank in H. rewrite forallb_forall in H. apply H in G. discriminate. }
  unfold nb. rewrite lines_single by auto. simpl. rewrite H. reflexivity.
Qed.
(** the text ends at the start of a line or after spaces at the start of a line *)
Definition indented (s : str) : Prop := exists a b, s = a ++ b /\ blank b = true /\ (a = [] \/ exists a', a = a' ++ [NL]).
Lemma removelast_snoc : forall A (l : list A) x, removelast (l ++ [x]) = l.
Proof. intros. rewrite removelast_app by discriminate. simpl. apply app_nil_r. Qed.
Lemma blank_removelast : forall b, blank b = true -> blank (removelast b) = true.
Proof.
  induction b as [|c b IH]; intros H; [reflexivity|]. simpl in H. apply andb_prop in H as [H1 H2]. simpl. destruct b; [reflexivity|]. simpl in *. rewrite H1. simpl. apply IH. exact H2.
Qed.
Lemma nb_blank_end : forall a b, blank b = true -> (a = [] \/ exists a', a = a' ++ [NL]) -> nb (a ++ b) = nb a.
Proof.
  intros a b H [->|(a' & ->)]; [apply nb_spaces; auto|]. rewrite <- app_assoc. cbn [app]. rewrite !nb_nl. f_equal. rewrite nb_spaces by auto. reflexivity.
Qed.
Lemma nb_cut : forall buf s, indented s -> nb (append_cut buf s) = nb buf ++ nb s.
Proof.
  intros buf s (a & b & -> & Hb & Ha). unfold append_cut. destruct b as [|x b] using rev_ind.
  - rewrite app_nil_r. destruct Ha as [->|(a' & ->)].
    + simpl. rewrite !app_nil_r. reflexivity.
    + change (NL :: a' ++ [NL]) with ((NL :: a') ++ [NL]). rewrite removelast_snoc, nb_nl. f_equal. rewrite nb_nl. simpl. now rewrite app_nil_r.
  - clear IHb. change (NL :: a ++ b ++ [x]) with ((NL :: a) ++ b ++ [x]). rewrite app_assoc, removelast_snoc. cbn [app]. rewrite nb_nl. f_equal.
    pose proof (blank_removelast _ Hb) as Hb'. rewrite removelast_snoc in Hb'. rewrite !nb_blank_end by auto. reflexivity.
Qed.
(** a chunk that ends with a newline *)
Lemma indented_nl : forall s, indented (s ++ [NL]).
Proof. intros s. exists (s ++ [NL]), []. rewrite app_nil_r. repeat split; eauto. Qed.

(** ** Directives *)
Definition is_dir (s : str) : bool := match s with c :: _ => Ascii.eqb c "#" && (is_pragma s || is_include s) | [] => false end.

Lemma nth_firstn : forall A (l : list A) n m, m < n -> nth_error (firstn n l) m = nth_error l m.
Proof. induction l as [|x l IH]; intros [|n] [|m] L; simpl; auto; try lia. apply IH. lia. Qed.
Lemma skipn_add : forall A (l : list A) a b, skipn a (skipn b l) = skipn (b + a) l.
Proof. induction l as [|x l IH]; intros a [|b]; simpl; auto. apply skipn_nil. Qed.
Lemma strchr_lt : forall s c i, strchr s c = Some i -> nth_error s i = Some c /\ forall j, j < i -> nth_error s j <> Some c.
Proof.
  intros s c i H. destruct (strchr_Some s c H) as (A & B & C). split.
  - rewrite A. rewrite nth_error_app2; rewrite firstn_length_le by lia; [|lia]. now rewrite Nat.sub_diag.
  - intros j J E. apply B. rewrite A in E. rewrite nth_error_app1 in E by (rewrite firstn_length_le; lia). eapply nth_error_In; eauto.
Qed.
Lemma spaces_upto_spec : forall h n, spaces_upto h n = true <-> forall i, 1 <= i < n -> nth_error h i = Some " ".
Proof.
  intros h n. unfold spaces_upto. rewrite forallb_forall. split; intros H i Hi.
  - assert (K : chr_at h i " " = true) by (apply H, in_seq; lia). unfold chr_at in K. destruct (nth_error h i); [|discriminate]. apply Ascii.eqb_eq in K. congruence.
  - apply in_seq in Hi. unfold chr_at. rewrite H by lia. reflexivity.
Qed.
Lemma cut_word : forall (h : str) k (w : str), firstn (List.length w) (skipn k h) = w -> forall j c, nth_error w j = Some c -> nth_error h (k + j) = Some c.
Proof.
  intros h k w E j c H. assert (J : j < List.length w) by (apply nth_error_Some; congruence). rewrite <- E in H.
  rewrite nth_firstn in H by auto. clear - H. revert h H. induction k as [|k IH]; intros [|x h] H; simpl in *; auto. destruct j; discriminate.
Qed.
Lemma pragma_not_include : forall h, is_pragma h = true -> is_include h = false.
Proof.
  intros h H. destruct (is_include h) eqn:K; auto. exfalso. unfold is_pragma in H. unfold is_include in K.
  destruct (strchr h "m") as [m|] eqn:Em; [|discriminate]. destruct (strchr h "e") as [e|] eqn:Ee; [|discriminate].
  apply andb_prop in H as [H H3]. apply andb_prop in H as [H1 H2]. apply andb_prop in K as [K K3]. apply andb_prop in K as [K1 K2].
  apply Nat.leb_le in H1, K1. apply seqb_eq in H2, K2. rewrite spaces_upto_spec in H3, K3.
  pose proof (cut_word _ _ (lit "pragma") H2) as W1. pose proof (cut_word _ _ (lit "include") K2) as W2.
  pose proof (W1 0 "p" eq_refl) as P0. pose proof (W1 1 "r" eq_refl) as P1. pose proof (W1 4 "m" eq_refl) as P4. pose proof (W2 0 "i" eq_refl) as I0. pose proof (W2 1 "n" eq_refl) as I1. pose proof (W2 2 "c" eq_refl) as I2. pose proof (W2 6 "e" eq_refl) as I6.
  rewrite Nat.add_0_r in *. destruct (Nat.lt_trichotomy (m - 4) (e - 6)) as [L|[L|L]].
  - specialize (K3 (m - 4)). rewrite P0 in K3. assert (X : Some "p" = Some " ") by (apply K3; lia). discriminate.
  - rewrite L in P0. congruence.
  - destruct (Nat.eq_dec (m - 4) (e - 6 + 1)) as [E|E]; [rewrite E in P0; congruence|]. specialize (H3 (e - 6)). rewrite I0 in H3. assert (X : Some "i" = Some " ") by (apply H3; lia). discriminate.
Qed.
(** exactly the lines "#   include..." are taken for include lines *)
Theorem C41_include_line : forall h, is_include ("#" :: h) = true <-> exists k rest, h = repeat " " k ++ lit "include" ++ rest.
Proof.
  intros h. unfold is_include. split.
  - intros H. destruct (strchr ("#" :: h) "e") as [e|] eqn:E; [|discriminate]. apply andb_prop in H as [H H3]. apply andb_prop in H as [H1 H2]. apply Nat.leb_le in H1. apply seqb_eq in H2. rewrite spaces_upto_spec in H3.
    exists (e - 7), (skipn (S e) ("#" :: h)). replace (e - 6) with (S (e - 7)) in * by lia. cbn [skipn] in H2. simpl skipn.
    rewrite <- (firstn_skipn (e - 7) h) at 1. f_equal.
    + assert (L : List.length h >= e). { pose proof (proj2 (proj2 (strchr_Some _ _ E))). simpl in H. lia. }
      apply nth_ext with (d := "x") (d' := "x"); [rewrite firstn_length_le, repeat_length by lia; auto|]. intros i Hi. rewrite firstn_length_le in Hi by lia.
      assert (A : nth_error (firstn (e - 7) h) i = Some " "). { specialize (H3 (S i)). cbn [nth_error] in H3. rewrite <- H3 by lia. apply nth_firstn. auto. }
      rewrite (nth_error_nth _ _ "x" A). assert (B : nth_error (repeat " " (e - 7)) i = Some " ") by (apply nth_error_repeat; auto). rewrite (nth_error_nth _ _ "x" B). reflexivity.
    + rewrite <- (firstn_skipn 7 (skipn (e - 7) h)). rewrite H2. f_equal. rewrite skipn_add. f_equal. lia.
  - intros (k & rest & ->). assert (N : ~ In "e" ("#" :: repeat " " k ++ lit "includ")).
    { simpl. rewrite in_app_iff. intros [X|[X|X]]; [discriminate|apply repeat_spec in X; discriminate|]. simpl in X. repeat destruct X as [X|X]; try discriminate; auto. }
    replace ("#" :: repeat " " k ++ lit "include" ++ rest) with (("#" :: repeat " " k ++ lit "includ") ++ "e" :: rest) by (cbn [app]; rewrite <- app_assoc; reflexivity).
    rewrite strchr_app by auto. set (e := List.length _). assert (Le : e = 7 + k). { unfold e. simpl. rewrite app_length, repeat_length. simpl. lia. }
    apply andb_true_intro. split; [apply andb_true_intro; split|].
    + apply Nat.leb_le. lia.
    + apply seqb_eq. rewrite Le. replace (7 + k - 6) with (S k) by lia. cbn [app skipn]. rewrite <- app_assoc. rewrite skipn_app. rewrite repeat_length, Nat.sub_diag, skipn_all2 by (rewrite repeat_length; lia). reflexivity.
    + apply spaces_upto_spec. intros i Hi. rewrite Le in Hi. destruct i as [|i]; [lia|]. cbn [app nth_error]. rewrite <- app_assoc, nth_error_app1 by (rewrite repeat_length; lia). apply nth_error_repeat. lia.
Qed.
Print Assumptions C41_include_line.

(** ** A file as plain text and directive lines *)
Fixpoint find_dir (s : str) : option nat :=
  match s with [] => None | _ :: t => if is_dir s then Some 0 else option_map S (find_dir t) end.
(** plain text, then the text from the hash of a directive on, with the index of its newline *)
Record piece := Pc { p_pre : str; p_h : str; p_nl : nat }.
(** [None]: a directive without newline, or two directives on one line *)
Fixpoint parse (fuel : nat) (s : str) : option (list piece * str) :=
  match fuel with
  | 0 => None
  | S f =>
    match find_dir s with
    | None => Some ([], s)
    | Some i =>
      let h := skipn i s in
      match strchr h NL with
      | None => None
      | Some nl =>
        if match find_dir (tl h) with Some j => j <? nl | None => false end then None
        else match parse f (skipn (S nl) h) with
             | Some (ps, t) => Some (Pc (firstn i s) h nl :: ps, t)
             | None => None
             end
      end
    end
  end.
Definition pieces (s : str) : option (list piece * str) := parse (S (List.length s)) s.

Section Load.
Variable fs : files.
Variable roots : list str.

(** what a directive line asks for *)
Inductive kind := KText | KInc (q : str) | KBad.
Definition kind_of (p : str) (pc : piece) : kind :=
  let h := p_h pc in let nl := p_nl pc in
  if is_include h then
    if is_local h nl || is_ceed h nl then
      match include_path fs roots p h nl with
      | Ok ip => match normalize ip with Ok np => KInc np | _ => KBad end
      | _ => KBad
      end
    else KText
  else KText.
(** the directive lines that stay: pragmas other than once, headers that are neither expanded nor standard *)
Definition kept (pc : piece) : list str :=
  let h := p_h pc in let nl := p_nl pc in
  if is_pragma h then (if is_once h nl then [] else [firstn nl h])
  else if is_local h nl || is_ceed h nl || is_std h nl then [] else [firstn nl h].
Definition own1 (pc : piece) : list str := nb (p_pre pc) ++ kept pc.
(** nonblank lines of a file that are to appear in the result *)
Definition own_ps (ps : list piece) (t : str) : list str := flat_map own1 ps ++ nb t.
Definition own (p : str) : list str :=
  match fs p with Some text => match pieces text with Some (ps, t) => own_ps ps t | None => [] end | None => [] end.
(** file [p] has a line that includes file [q] *)
Definition includes (p q : str) : Prop :=
  exists text ps t pc, fs p = Some text /\ pieces text = Some (ps, t) /\ In pc ps /\ kind_of p pc = KInc q.
(** directives stand at the start of their line *)
Definition tidy (p : str) : Prop :=
  forall text ps t, fs p = Some text -> pieces text = Some (ps, t) -> Forall (fun pc => indented (p_pre pc)) ps.

(** *** The scan as a walk over the pieces *)
Definition pstep (rec : str -> lstate -> option (res lstate)) (p : str) (pc : piece) (st : lstate) : option (res lstate) :=
  let h := p_h pc in let nl := p_nl pc in
  if is_pragma h then
    Some (Ok (fst st, append_cut (snd st) (p_pre pc ++ if is_once h nl then [] else firstn (S nl) h)))
  else
    let buf1 := append_cut (snd st) (p_pre pc) in
    if is_local h nl || is_ceed h nl then
      match include_path fs roots p h nl with
      | Ok ip => match normalize ip with
                 | Ok np => if existsb (seqb np) (fst st) then Some (Ok (fst st, buf1))
                            else match rec np (fst st, buf1) with
                                 | Some (Ok (inc2, buf2)) => Some (Ok (inc2 ++ [np], buf2))
                                 | r => r
                                 end
                 | Err c => Some (Err c) | UB => Some UB
                 end
      | Err c => Some (Err c) | UB => Some UB
      end
    else if is_std h nl then Some (Ok (fst st, buf1))
    else Some (Ok (fst st, append_cut buf1 (firstn (S nl) h))).
Fixpoint walk (rec : str -> lstate -> option (res lstate)) (p : str) (ps : list piece) (t : str) (st : lstate) : option (res lstate) :=
  match ps with
  | [] => Some (Ok (fst st, snd st ++ NL :: t))
  | pc :: ps' => match pstep rec p pc st with
                 | Some (Ok st') => walk rec p ps' t st'
                 | r => r
                 end
  end.

Lemma is_dir_hash : forall s, is_dir s = true -> exists t, s = "#" :: t /\ (is_pragma s = true \/ is_include s = true).
Proof. intros [|c t] H; [discriminate|]. simpl is_dir in H. apply andb_prop in H as [H1 H2]. apply Ascii.eqb_eq in H1. subst c. exists t. split; auto. now apply orb_prop. Qed.
Lemma find_dir_lt : forall s i, find_dir s = Some i -> i < List.length s /\ is_dir (skipn i s) = true.
Proof.
  induction s as [|c t IH]; intros i H; [discriminate|]. cbn [find_dir] in H. destruct (is_dir (c :: t)) eqn:E.
  - injection H as <-. split; [simpl; lia|exact E].
  - destruct (find_dir t) as [j|] eqn:F; [|discriminate]. injection H as <-. destruct (IH j eq_refl). split; [simpl; lia|assumption].
Qed.

Section Scan1.
Variable rec : str -> lstate -> option (res lstate).
Variable p text : str.
Notation sc := (scan fs roots rec p text).
Notation dh := (do_hash fs roots rec p text).

Lemma dh_plain : forall h pos off st, is_pragma h = false -> is_include h = false -> dh h pos off st = Some (Ok (off, st)).
Proof. intros h pos off [inc buf] H1 H2. unfold do_hash. rewrite H1, H2. reflexivity. Qed.
Lemma dh_inside : forall h pos off st, is_dir h = true -> pos < off -> dh h pos off st = Some UB.
Proof.
  intros h pos off [inc buf] H L. apply is_dir_hash in H as (t & _ & H). unfold do_hash. apply Nat.ltb_lt in L.
  destruct (is_pragma h) eqn:E.
  - destruct (strchr h NL); [rewrite L|]; reflexivity.
  - destruct H as [H|H]; [discriminate|]. rewrite H. destruct (strchr h NL); [rewrite L|]; reflexivity.
Qed.
Lemma dh_nonl : forall h pos off st, is_dir h = true -> strchr h NL = None -> dh h pos off st = Some UB.
Proof.
  intros h pos off [inc buf] H L. apply is_dir_hash in H as (t & _ & H). unfold do_hash.
  destruct (is_pragma h) eqn:E; [rewrite L; reflexivity|]. destruct H as [H|H]; [discriminate|]. rewrite H, L. reflexivity.
Qed.
Lemma dh_dir : forall A pre h nl st, text = A ++ pre ++ h -> is_dir h = true -> strchr h NL = Some nl ->
  dh h (List.length A + List.length pre) (List.length A) st
  = match pstep rec p (Pc pre h nl) st with
    | Some (Ok st') => Some (Ok (List.length A + List.length pre + nl + 1, st'))
    | Some (Err c) => Some (Err c) | Some UB => Some UB | None => None
    end.
Proof.
  intros A pre h nl [inc buf] Ht H L. apply is_dir_hash in H as (t & _ & H). unfold do_hash, pstep. cbn [p_pre p_h p_nl fst snd].
  assert (F : (List.length A + List.length pre <? List.length A) = false) by (apply Nat.ltb_ge; lia).
  assert (K : forall n, firstn (List.length A + List.length pre + n - List.length A) (skipn (List.length A) text) = pre ++ firstn n h).
  { intros n. rewrite Ht, skipn_app, Nat.sub_diag, skipn_all2 by lia. cbn [app skipn]. replace (List.length A + List.length pre + n - List.length A) with (List.length pre + n) by lia. rewrite firstn_app_2. reflexivity. }
  assert (K0 := K 0). rewrite Nat.add_0_r in K0. cbn [firstn] in K0. rewrite app_nil_r in K0.
  destruct (is_pragma h) eqn:E.
  - rewrite (pragma_not_include _ E), L, F. destruct (is_once h nl).
    + rewrite K0, app_nil_r. reflexivity.
    + replace (List.length A + List.length pre + nl + 1) with (List.length A + List.length pre + S nl) by lia. rewrite K. reflexivity.
  - destruct H as [H|H]; [discriminate|]. rewrite H, L, F, K0. destruct (is_local h nl || is_ceed h nl).
    + destruct (include_path fs roots p h nl) as [ip|c|]; auto. destruct (normalize ip) as [np|c|]; auto. destruct (existsb (seqb np) inc); auto. destruct (rec np _) as [[[inc2 buf2]|c|]|]; auto.
    + destruct (is_std h nl); reflexivity.
Qed.
Lemma scan_skip : forall n s pos off st, (forall j, find_dir s = Some j -> n <= j) -> n <= List.length s ->
  sc s pos off st = sc (skipn n s) (pos + n) off st.
Proof.
  induction n as [|n IH]; intros s pos off st H L; [now rewrite Nat.add_0_r|]. destruct s as [|c t]; [simpl in L; lia|]. simpl in L.
  assert (D : is_dir (c :: t) = false). { destruct (is_dir (c :: t)) eqn:E; auto. exfalso. cbn [find_dir] in H. rewrite E in H. specialize (H 0 eq_refl). lia. }
  assert (H' : forall j, find_dir t = Some j -> n <= j). { intros j E. cbn [find_dir] in H. rewrite D, E in H. specialize (H (S j) eq_refl). lia. }
  cbn [skipn scan]. replace (pos + S n) with (S pos + n) by lia. destruct (Ascii.eqb c "#") eqn:E.
  - unfold is_dir in D. rewrite E in D. cbn [andb] in D. apply orb_false_iff in D as [D1 D2]. rewrite dh_plain by auto. apply IH; auto; lia.
  - apply IH; auto; lia.
Qed.
Lemma scan_inside : forall s pos off st j, find_dir s = Some j -> pos + j < off -> sc s pos off st = Some UB.
Proof.
  intros s pos off st j H L. destruct (find_dir_lt _ _ H) as [Lj D]. rewrite (scan_skip j) by (try lia; intros k E; rewrite E in H; injection H; lia).
  destruct (is_dir_hash _ D) as (t & E & _). pose proof (dh_inside (skipn j s) (pos + j) off st D L) as X. rewrite E in X |- *. cbn [scan]. change (Ascii.eqb "#" "#") with true. cbv iota. rewrite X. reflexivity.
Qed.
(** the scan of a parsable rest of the file is the walk over its pieces; otherwise it does not succeed *)
Lemma scan_walk : forall f s A st, text = A ++ s -> List.length s < f ->
  match parse f s with
  | Some (ps, t) => sc s (List.length A) (List.length A) st = walk rec p ps t st
  | None => forall st', sc s (List.length A) (List.length A) st <> Some (Ok st')
  end.
Proof.
  induction f as [|f IH]; intros s A st Ht L; [lia|]. cbn [parse]. destruct (find_dir s) as [i|] eqn:E.
  - destruct (find_dir_lt _ _ E) as [Li D]. assert (Sk : sc s (List.length A) (List.length A) st = sc (skipn i s) (List.length A + i) (List.length A) st) by (apply scan_skip; [intros k X; rewrite X in E; injection E; lia|lia]).
    rewrite Sk. clear Sk. set (h := skipn i s) in *. destruct (is_dir_hash _ D) as (t & Eh & _).
    assert (Ei : List.length A + i = List.length A + List.length (firstn i s)) by (rewrite firstn_length_le; lia).
    assert (Ht' : text = A ++ firstn i s ++ h) by (unfold h; rewrite firstn_skipn; exact Ht).
    assert (Sc : sc h (List.length A + i) (List.length A) st = match dh h (List.length A + i) (List.length A) st with None => None | Some (Ok (off', st')) => sc t (S (List.length A + i)) off' st' | Some (Err e) => Some (Err e) | Some UB => Some UB end).
    { rewrite Eh. reflexivity. }
    destruct (strchr h NL) as [nl|] eqn:En; [|rewrite Sc, dh_nonl by auto; discriminate].
    rewrite Sc, Ei, (dh_dir A (firstn i s) h nl st Ht' D En). rewrite <- Ei. clear Sc.
    assert (Lh : List.length h = List.length s - i) by (unfold h; apply skipn_length).
    pose proof (proj2 (proj2 (strchr_Some _ _ En))) as Lnl.
    assert (Lt : List.length h = S (List.length t)) by (rewrite Eh; reflexivity). assert (Et : tl h = t) by (rewrite Eh; reflexivity). rewrite Et.
    destruct (match find_dir t with Some j => j <? nl | None => false end) eqn:Ej.
    + intros st'. destruct (pstep rec p (Pc (firstn i s) h nl) st) as [[st1|c|]|]; try discriminate.
      destruct (find_dir t) as [j|] eqn:Ft; [|discriminate]. apply Nat.ltb_lt in Ej. rewrite (scan_inside t _ _ st1 j Ft) by lia. discriminate.
    + assert (Sk : forall st1, sc t (S (List.length A + i)) (List.length A + i + nl + 1) st1 = sc (skipn (S nl) h) (List.length (A ++ firstn i s ++ firstn (S nl) h)) (List.length (A ++ firstn i s ++ firstn (S nl) h)) st1).
      { intros st1. rewrite (scan_skip nl t) by (try lia; intros j X; rewrite X in Ej; apply Nat.ltb_ge in Ej; lia). rewrite !app_length, !firstn_length_le by lia. rewrite Eh. cbn [skipn]. f_equal; lia. }
      assert (Hs : forall st1, _) by (intros st1; exact (IH (skipn (S nl) h) (A ++ firstn i s ++ firstn (S nl) h) st1 ltac:(rewrite <- !app_assoc, firstn_skipn; exact Ht') ltac:(rewrite skipn_length; lia))).
      destruct (parse f (skipn (S nl) h)) as [[ps tt]|].
      * cbn [walk]. destruct (pstep rec p (Pc (firstn i s) h nl) st) as [[st1|c|]|]; auto. rewrite Sk. apply Hs.
      * intros st'. destruct (pstep rec p (Pc (firstn i s) h nl) st) as [[st1|c|]|]; try discriminate. rewrite Sk. apply Hs.
  - rewrite (scan_skip (List.length s)) by (try lia; intros j X; congruence). rewrite skipn_all. cbn [scan walk]. rewrite Ht, skipn_app, Nat.sub_diag, skipn_all2 by lia. reflexivity.
Qed.
Lemma scan_pieces : forall st,
  match pieces text with
  | Some (ps, t) => sc text 0 0 st = walk rec p ps t st
  | None => forall st', sc text 0 0 st <> Some (Ok st')
  end.
Proof. intros st. unfold pieces. apply (scan_walk (S (List.length text)) text [] st); auto. Qed.
End Scan1.

(** *** Expansion with every line tagged by its file *)
Definition tag (p : str) (ls : list str) : list (str * str) := map (fun l => (p, l)) ls.
Definition lines (p : str) (T : list (str * str)) : list str := map snd (filter (fun x => seqb (fst x) p) T).
Inductive exps : str -> list piece -> str -> list str -> list str -> list (str * str) -> Prop :=
| E_tail : forall p t inc, exps p [] t inc inc (tag p (nb t))
| E_text : forall p pc ps t inc inc' T, kind_of p pc = KText ->
    exps p ps t inc inc' T -> exps p (pc :: ps) t inc inc' (tag p (own1 pc) ++ T)
| E_old : forall p pc q ps t inc inc' T, kind_of p pc = KInc q -> In q inc ->
    exps p ps t inc inc' T -> exps p (pc :: ps) t inc inc' (tag p (own1 pc) ++ T)
| E_new : forall p pc q ps t inc inc' text2 ps2 t2 inc2 T2 T, kind_of p pc = KInc q -> ~ In q inc ->
    fs q = Some text2 -> pieces text2 = Some (ps2, t2) ->
    exps q ps2 t2 inc inc2 T2 -> exps p ps t (inc2 ++ [q]) inc' T ->
    exps p (pc :: ps) t inc inc' (tag p (own1 pc) ++ T2 ++ T).

Lemma map_tag : forall p ls, map snd (tag p ls) = ls.
Proof. intros. unfold tag. rewrite map_map. apply map_id. Qed.
Lemma existsb_seqb : forall q l, existsb (seqb q) l = true <-> In q l.
Proof. intros q l. rewrite existsb_exists. split; [intros (x & H & E); apply seqb_eq in E; now subst|intros H; exists q; split; auto; apply seqb_refl]. Qed.
Lemma kind_kept : forall p pc q, kind_of p pc = KInc q -> kept pc = [].
Proof.
  intros p pc q H. unfold kind_of in H. unfold kept. destruct (is_include (p_h pc)) eqn:E; [|discriminate].
  destruct (is_pragma (p_h pc)) eqn:F; [apply pragma_not_include in F; congruence|]. destruct (is_local (p_h pc) (p_nl pc) || is_ceed (p_h pc) (p_nl pc)); [reflexivity|discriminate].
Qed.
(** well-formed piece *)
Definition pc_ok (pc : piece) : Prop := is_dir (p_h pc) = true /\ strchr (p_h pc) NL = Some (p_nl pc).
Lemma parse_ok : forall f s ps t, parse f s = Some (ps, t) -> Forall pc_ok ps.
Proof.
  induction f as [|f IH]; intros s ps t H; [discriminate|]. cbn [parse] in H. destruct (find_dir s) as [i|] eqn:E; [|injection H as <- <-; constructor].
  destruct (strchr (skipn i s) NL) as [nl|] eqn:En; [|discriminate]. destruct (match find_dir (tl (skipn i s)) with Some j => j <? nl | None => false end); [discriminate|].
  destruct (parse f (skipn (S nl) (skipn i s))) as [[ps' t']|] eqn:Ep; [|discriminate]. injection H as <- <-. constructor; [|eapply IH; eauto]. split; [apply find_dir_lt; auto|exact En].
Qed.
Lemma line_cut : forall h nl, strchr h NL = Some nl -> firstn (S nl) h = firstn nl h ++ [NL].
Proof.
  intros h nl H. destruct (strchr_Some _ _ H) as (A & _ & L). rewrite A at 1. rewrite firstn_app, firstn_firstn, firstn_length_le by lia. replace (Nat.min (S nl) nl) with nl by lia. f_equal. replace (S nl - nl) with 1 by lia. reflexivity.
Qed.
Lemma nb_line : forall h nl, is_dir h = true -> strchr h NL = Some nl -> nb (firstn nl h) = [firstn nl h].
Proof.
  intros h nl D H. destruct (strchr_Some _ _ H) as (A & B & L). unfold nb. rewrite lines_single by auto. destruct (is_dir_hash _ D) as (t & E & _). rewrite E in *. destruct nl; [exfalso; simpl in H; discriminate|]. reflexivity.
Qed.
Lemma nl_pos : forall h nl, is_dir h = true -> strchr h NL = Some nl -> exists n t, nl = S n /\ h = "#" :: t.
Proof.
  intros h nl D H. destruct (is_dir_hash _ D) as (t & E & _). destruct nl as [|n]; [|eauto]. rewrite E in H. cbn [strchr] in H. change (Ascii.eqb "#" NL) with false in H. cbv iota in H. destruct (strchr t NL); discriminate.
Qed.
(** appended text of a pragma line that stays *)
Lemma nb_pragma : forall buf pre h nl, indented pre -> is_dir h = true -> strchr h NL = Some nl ->
  nb (append_cut buf (pre ++ firstn (S nl) h)) = nb buf ++ nb pre ++ [firstn nl h].
Proof.
  intros buf pre h nl (a & b & -> & Hb & Ha) D H. rewrite (line_cut _ _ H), app_assoc.
  rewrite nb_cut by apply indented_nl. f_equal. rewrite nb_nl. change (nb []) with (@nil str). rewrite app_nil_r, (nb_blank_end a b) by auto. rewrite <- app_assoc.
  assert (NN : ~ In NL (b ++ firstn nl h)). { rewrite in_app_iff. intros [X|X]; [unfold blank in Hb; rewrite forallb_forall in Hb; apply Hb in X; discriminate|]. destruct (strchr_Some _ _ H) as (_ & B & _). exact (B X). }
  assert (NB : nb (b ++ firstn nl h) = [firstn nl h]).
  { unfold nb. rewrite lines_single by auto. destruct (nl_pos _ _ D H) as (n & t & En & E).
    assert (X : blank (b ++ firstn nl h) = false). { unfold blank. rewrite forallb_app. rewrite E, En. simpl. apply andb_false_r. }
    cbn [filter]. rewrite X. cbn [negb map]. f_equal. clear - Hb E En. induction b as [|c b IH].
    - rewrite E, En. reflexivity.
    - simpl in Hb. apply andb_prop in Hb as [Hc Hb]. simpl. rewrite Hc. auto. }
  destruct Ha as [->|(a' & ->)]; [cbn [app]; rewrite NB; reflexivity|]. rewrite <- app_assoc. cbn [app]. rewrite !nb_nl. change (nb []) with (@nil str). rewrite app_nil_r, NB. reflexivity.
Qed.
Lemma nb_kept : forall buf h nl, is_dir h = true -> strchr h NL = Some nl -> nb (append_cut buf (firstn (S nl) h)) = nb buf ++ [firstn nl h].
Proof.
  intros buf h nl D H. assert (I : indented []) by (exists [], []; repeat split; auto). pose proof (nb_pragma buf [] h nl I D H) as X. exact X.
Qed.

(** *** The loader computes an expansion *)
Definition sound (rec : str -> lstate -> option (res lstate)) : Prop :=
  forall q st st', (forall x, clos_refl_trans_1n _ includes q x -> tidy x) -> rec q st = Some (Ok st') ->
  exists text ps t T, fs q = Some text /\ pieces text = Some (ps, t) /\ exps q ps t (fst st) (fst st') T /\ nb (snd st') = nb (snd st) ++ map snd T.
Lemma walk_exps : forall rec p text0 ps0 t0, sound rec -> (forall x, clos_refl_trans_1n _ includes p x -> tidy x) ->
  fs p = Some text0 -> pieces text0 = Some (ps0, t0) ->
  forall ps t st st', (forall pc, In pc ps -> In pc ps0) -> walk rec p ps t st = Some (Ok st') ->
  exists T, exps p ps t (fst st) (fst st') T /\ nb (snd st') = nb (snd st) ++ map snd T.
Proof.
  intros rec p text0 ps0 t0 SR TD F P. pose proof (TD p (rt1n_refl _ _ _) _ _ _ F P) as Ti. pose proof (parse_ok _ _ _ _ P) as Wf. rewrite Forall_forall in Ti, Wf.
  induction ps as [|pc ps IH]; intros t [inc buf] st' Sub W.
  - cbn [walk] in W. injection W as <-. exists (tag p (nb t)). split; [constructor|]. cbn [fst snd]. rewrite nb_nl, map_tag. reflexivity.
  - cbn [walk] in W. assert (I : In pc ps0) by (apply Sub; simpl; auto). specialize (Ti pc I). destruct (Wf pc I) as [D En].
    assert (Sub' : forall x, In x ps -> In x ps0) by (intros; apply Sub; simpl; auto).
    destruct (pstep rec p pc (inc, buf)) as [[st1|c|]|] eqn:Ps; try discriminate. destruct (IH t st1 st' Sub' W) as (T & X & N).
    unfold pstep in Ps. cbn [fst snd] in Ps. set (ln := firstn (S (p_nl pc)) (p_h pc)) in Ps. destruct (is_pragma (p_h pc)) eqn:Pr.
    + injection Ps as <-. cbn [fst snd] in *. exists (tag p (own1 pc) ++ T). split.
      * apply E_text; auto. unfold kind_of. now rewrite (pragma_not_include _ Pr).
      * rewrite N, map_app, map_tag. unfold own1, kept. rewrite Pr. destruct (is_once (p_h pc) (p_nl pc)).
        -- rewrite app_nil_r, nb_cut by auto. now rewrite app_nil_r, app_assoc.
        -- unfold ln. rewrite nb_pragma by auto. now rewrite <- !app_assoc.
    + assert (Inc : is_include (p_h pc) = true) by (apply is_dir_hash in D as (? & _ & [D|D]); congruence).
      assert (Kc := eq_refl (kind_of p pc)). unfold kind_of at 2 in Kc. rewrite Inc in Kc.
      destruct (is_local (p_h pc) (p_nl pc) || is_ceed (p_h pc) (p_nl pc)) eqn:Lc.
      * destruct (include_path fs roots p (p_h pc) (p_nl pc)) as [ip|c|] eqn:Ip; try discriminate. destruct (normalize ip) as [np|c|] eqn:Np; try discriminate.
        assert (Ow : own1 pc = nb (p_pre pc)) by (unfold own1; erewrite kind_kept by eauto; apply app_nil_r).
        destruct (existsb (seqb np) inc) eqn:Ex.
        -- injection Ps as <-. cbn [fst snd] in *. exists (tag p (own1 pc) ++ T). split; [eapply E_old; eauto; now apply existsb_seqb|].
           rewrite N, nb_cut, map_app, map_tag, Ow by auto. now rewrite app_assoc.
        -- destruct (rec np (inc, append_cut buf (p_pre pc))) as [[[inc2 buf2]|c|]|] eqn:Rc; try discriminate. injection Ps as <-. cbn [fst snd] in *.
           assert (IncPN : includes p np) by (exists text0, ps0, t0, pc; auto).
           destruct (SR np _ _ (fun x R => TD x (Relation_Operators.rt1n_trans _ _ _ _ _ IncPN R)) Rc) as (text2 & ps2 & t2 & T2 & F2 & P2 & X2 & N2). cbn [fst snd] in *.
           exists (tag p (own1 pc) ++ T2 ++ T). split.
           ++ eapply E_new; eauto. intros Q. apply existsb_seqb in Q. congruence.
           ++ rewrite N, N2, nb_cut, !map_app, map_tag, Ow by auto. now rewrite <- !app_assoc.
      * destruct (is_std (p_h pc) (p_nl pc)) eqn:Sd; injection Ps as <-; cbn [fst snd] in *; exists (tag p (own1 pc) ++ T); (split; [apply E_text; auto|]); rewrite N, map_app, map_tag; unfold own1, kept; rewrite Pr, Lc, Sd; cbn [orb].
        -- rewrite app_nil_r, nb_cut by auto. now rewrite app_assoc.
        -- unfold ln. rewrite nb_kept, nb_cut by auto. now rewrite <- !app_assoc.
Qed.
Lemma load_sound : forall fuel, sound (load fs roots fuel).
Proof.
  induction fuel as [|fuel IH]; intros q st st' TD L; [discriminate|]. cbn [load] in L. destruct (fs q) as [[|c text]|] eqn:F; try discriminate.
  pose proof (scan_pieces (load fs roots fuel) q (c :: text) st) as S. destruct (pieces (c :: text)) as [[ps t]|] eqn:P; [|exfalso; eapply S; eauto].
  rewrite S in L. destruct (walk_exps _ _ _ _ _ IH TD F P ps t st st' (fun _ H => H) L) as (T & X & N). exists (c :: text), ps, t, T. auto.
Qed.

(** *** A successful load has met no cycle *)
Lemma exps_loop : forall (L : str -> Prop), (forall x, L x -> exists y, includes x y /\ L y) ->
  forall p ps t inc inc' T, exps p ps t inc inc' T -> (forall x, In x inc -> ~ L x) ->
  (forall x, In x inc' -> ~ L x) /\ (forall pc q, In pc ps -> kind_of p pc = KInc q -> ~ L q).
Proof.
  intros L HL p ps t inc inc' T X. induction X as [p t inc|p pc ps t inc inc' T K X IH|p pc q ps t inc inc' T K I X IH|p pc q ps t inc inc' text2 ps2 t2 inc2 T2 T K I F P X1 IH1 X2 IH2]; intros D.
  - split; auto; intros ? ? [].
  - destruct (IH D) as [A B]. split; auto. intros pc' q [<-|G] E; [congruence|eauto].
  - destruct (IH D) as [A B]. split; auto. intros pc' q' [<-|G] E; [|eauto]. assert (q' = q) by congruence. subst. auto.
  - destruct (IH1 D) as [A B]. assert (Nq : ~ L q).
    { intros G. destruct (HL _ G) as (y & (tx & pp & tt & pc' & F' & P' & I' & K') & Ly). assert (tx = text2) by congruence. subst tx. assert (pp = ps2) by congruence. subst pp. eapply B; eauto. }
    destruct (IH2) as [A2 B2]. { intros x Hx. apply in_app_iff in Hx as [Hx|[<-|[]]]; auto. }
    split; auto. intros pc' q' [<-|G] E; [|eauto]. assert (q' = q) by congruence. subst. auto.
Qed.
Definition reach1 := clos_trans_1n str includes.
Definition acyc (p : str) : Prop := forall x, (x = p \/ reach1 p x) -> ~ reach1 x x.
Lemma reach1_trans : forall x y z, reach1 x y -> reach1 y z -> reach1 x z.
Proof. intros x y z H. induction H as [x y H|x w y H H0 IH]; intros G; [exact (Relation_Operators.t1n_trans _ _ _ _ _ H G)|exact (Relation_Operators.t1n_trans _ _ _ _ _ H (IH G))]. Qed.
Lemma exps_acyc : forall p text ps t inc' T, fs p = Some text -> pieces text = Some (ps, t) -> exps p ps t [] inc' T -> acyc p.
Proof.
  intros p text ps t inc' T F P X x Hx C.
  pose (L := fun y => reach1 y x).
  assert (HL : forall y, L y -> exists z, includes y z /\ L z).
  { intros y Hy. unfold L in *. inversion Hy as [? H1|z ? H1 H2]; subst; [exists x; split; auto|exists z; split; auto]. }
  assert (Lp : L p) by (destruct Hx as [->|Hx]; auto).
  destruct (HL _ Lp) as (y & (tx & pp & tt & pc & F' & P' & I' & K') & Ly). assert (tx = text) by congruence. subst tx. assert (pp = ps) by congruence. subst pp.
  destruct (exps_loop L HL _ _ _ _ _ _ X) as [_ B]; [intros ? []|]. eapply B; eauto.
Qed.

Lemma lines_app : forall p A B, lines p (A ++ B) = lines p A ++ lines p B.
Proof. intros. unfold lines. now rewrite filter_app, map_app. Qed.
Lemma lines_tag_same : forall p l, lines p (tag p l) = l.
Proof. intros p l. unfold lines, tag. induction l as [|x l IH]; [reflexivity|]. cbn [map filter fst]. rewrite seqb_refl. cbn [map snd]. now rewrite IH. Qed.
Lemma lines_tag_other : forall p q l, p <> q -> lines q (tag p l) = [].
Proof. intros p q l H. unfold lines, tag. induction l as [|x l IH]; [reflexivity|]. cbn [map filter fst]. rewrite (proj2 (seqb_neq p q) H). exact IH. Qed.

(** the include line [pc] of file [x], for [q], in the expansion [T]: the lines of [x] before it and all lines of [q]
    precede the lines of [x] after it *)
Definition before (x : str) (ps1 : list piece) (pc : piece) (q : str) (old : list str) (T : list (str * str)) : Prop :=
  exists T1 T2, T = T1 ++ T2 /\ lines x T1 = flat_map own1 ps1 ++ own1 pc /\ (In q old \/ lines q T1 = own q).
Lemma app_eq_nil_l : forall A (a b : list A), a ++ b = [] -> a = [].
Proof. intros A [|x a] b H; [reflexivity|discriminate]. Qed.

Lemma exps_main : forall p ps t inc inc' T, exps p ps t inc inc' T ->
  forall text0 ps0 t0, fs p = Some text0 -> pieces text0 = Some (ps0, t0) -> (forall pc, In pc ps -> In pc ps0) ->
  acyc p -> NoDup inc -> ~ In p inc -> (forall x y, In x inc -> includes x y -> In y inc) ->
  exists new, inc' = inc ++ new /\ NoDup inc' /\ (forall x, In x new -> reach1 p x)
    /\ (forall x y, In x inc' -> includes x y -> In y inc')
    /\ (forall pc q, In pc ps -> kind_of p pc = KInc q -> In q inc')
    /\ lines p T = own_ps ps t
    /\ (forall q, In q new -> lines q T = own q)
    /\ (forall q, q <> p -> ~ In q new -> lines q T = [])
    /\ (forall ps1 pc ps2 q, ps = ps1 ++ pc :: ps2 -> kind_of p pc = KInc q -> before p ps1 pc q inc T)
    /\ (forall x textx ps1 pc ps2 tx q, In x new -> fs x = Some textx -> pieces textx = Some (ps1 ++ pc :: ps2, tx) -> kind_of x pc = KInc q -> before x ps1 pc q inc T).
Proof.
  intros p ps t inc inc' T X.
  induction X as [p t inc|p pc ps t inc inc' T K X IH|p pc q ps t inc inc' T K I X IH|p pc q ps t inc inc' text2 ps2 t2 inc2 T2 T K I F P X1 IH1 X2 IH2]; intros text0 ps0 t0 F0 P0 Sub Ac Nd Np Cl.
  - exists []. rewrite app_nil_r. repeat match goal with |- _ /\ _ => split end; auto.
    + intros ? [].
    + intros ? ? [].
    + unfold own_ps. cbn [flat_map app]. apply lines_tag_same.
    + intros ? [].
    + intros q Hq _. apply lines_tag_other. auto.
    + intros [|? ?] ? ? ? E; discriminate.
    + intros ? ? ? ? ? ? ? [].
  - assert (Sub' : forall x, In x ps -> In x ps0) by (intros; apply Sub; simpl; auto).
    destruct (IH _ _ _ F0 P0 Sub' Ac Nd Np Cl) as (new & E & N' & R & C' & Tg & Lp & Ln & Lo & Op & Ox).
    exists new. repeat match goal with |- _ /\ _ => split end; auto.
    + intros pc' q [<-|G] Kq; [congruence|eauto].
    + rewrite lines_app, lines_tag_same, Lp. unfold own_ps. cbn [flat_map]. now rewrite app_assoc.
    + intros q Hq. assert (q <> p). { intros ->. apply (Ac p); auto. } rewrite lines_app, lines_tag_other by auto. apply Ln; auto.
    + intros q H1 H2. rewrite lines_app, lines_tag_other by auto. apply Lo; auto.
    + intros [|pc1 ps1] pc' ps2 q Eq Kq; cbn [app] in Eq; injection Eq as -> Eq; [congruence|].
      destruct (Op ps1 pc' ps2 q Eq Kq) as (T1 & T3 & -> & L1 & L2). exists (tag p (own1 pc1) ++ T1), T3. split; [now rewrite app_assoc|]. split.
      * rewrite lines_app, lines_tag_same, L1. cbn [flat_map]. now rewrite app_assoc.
      * destruct L2 as [L2|L2]; [auto|]. destruct (list_eq_dec ascii_dec q p) as [->|Ne].
        -- exfalso. apply (Ac p); auto. apply t1n_step. exists text0, ps0, t0, pc'. repeat split; auto. apply Sub'. rewrite Eq. apply in_elt.
        -- right. rewrite lines_app, lines_tag_other, L2 by auto. reflexivity.
    + intros x tx ps1 pc' ps2 t' q Hx Fx Px Kq. destruct (Ox _ _ _ _ _ _ _ Hx Fx Px Kq) as (T1 & T3 & -> & L1 & L2).
      assert (Nx : x <> p) by (intros ->; apply (Ac p); auto).
      assert (Nq : q <> p). { intros ->. apply (Ac p); auto. eapply reach1_trans; [exact (R _ Hx)|]. apply t1n_step. exists tx, (ps1 ++ pc' :: ps2), t', pc'. repeat split; auto. apply in_elt. }
      exists (tag p (own1 pc) ++ T1), T3. split; [now rewrite app_assoc|]. rewrite !lines_app, !lines_tag_other by auto. auto.
  - assert (Sub' : forall x, In x ps -> In x ps0) by (intros; apply Sub; simpl; auto).
    assert (Rq : reach1 p q) by (apply t1n_step; exists text0, ps0, t0, pc; repeat split; auto; apply Sub; simpl; auto).
    destruct (IH _ _ _ F0 P0 Sub' Ac Nd Np Cl) as (new & E & N' & R & C' & Tg & Lp & Ln & Lo & Op & Ox).
    exists new. repeat match goal with |- _ /\ _ => split end; auto.
    + intros pc' q' [<-|G] Kq; [|eauto]. assert (q' = q) by congruence. subst q'. rewrite E. apply in_app_iff. auto.
    + rewrite lines_app, lines_tag_same, Lp. unfold own_ps. cbn [flat_map]. now rewrite app_assoc.
    + intros q' Hq. assert (q' <> p). { intros ->. apply (Ac p); auto. } rewrite lines_app, lines_tag_other by auto. apply Ln; auto.
    + intros q' H1 H2. rewrite lines_app, lines_tag_other by auto. apply Lo; auto.
    + intros [|pc1 ps1] pc' ps2 q' Eq Kq; cbn [app] in Eq; injection Eq as -> Eq.
      * exists (tag p (own1 pc')), T. split; auto. split; [apply lines_tag_same|]. assert (q' = q) by congruence. subst q'. auto.
      * destruct (Op ps1 pc' ps2 q' Eq Kq) as (T1 & T3 & -> & L1 & L2). exists (tag p (own1 pc1) ++ T1), T3. split; [now rewrite app_assoc|]. split.
        -- rewrite lines_app, lines_tag_same, L1. cbn [flat_map]. now rewrite app_assoc.
        -- destruct L2 as [L2|L2]; [auto|]. destruct (list_eq_dec ascii_dec q' p) as [->|Ne].
           ++ exfalso. apply (Ac p); auto. apply t1n_step. exists text0, ps0, t0, pc'. repeat split; auto. apply Sub'. rewrite Eq. apply in_elt.
           ++ right. rewrite lines_app, lines_tag_other, L2 by auto. reflexivity.
    + intros x tx ps1 pc' ps2 t' q' Hx Fx Px Kq. destruct (Ox _ _ _ _ _ _ _ Hx Fx Px Kq) as (T1 & T3 & -> & L1 & L2).
      assert (Nx : x <> p) by (intros ->; apply (Ac p); auto).
      assert (Nq : q' <> p). { intros ->. apply (Ac p); auto. eapply reach1_trans; [exact (R _ Hx)|]. apply t1n_step. exists tx, (ps1 ++ pc' :: ps2), t', pc'. repeat split; auto. apply in_elt. }
      exists (tag p (own1 pc) ++ T1), T3. split; [now rewrite app_assoc|]. rewrite !lines_app, !lines_tag_other by auto. auto.
  - assert (Sub' : forall x, In x ps -> In x ps0) by (intros; apply Sub; simpl; auto).
    assert (Iq : includes p q) by (exists text0, ps0, t0, pc; repeat split; auto; apply Sub; simpl; auto).
    assert (Rq : reach1 p q) by (apply t1n_step; auto).
    assert (Aq : acyc q). { intros x [->|Hx]; apply Ac; right; auto. eapply reach1_trans; eauto. }
    assert (Nqp : q <> p) by (intros ->; apply (Ac p); auto).
    destruct (IH1 _ _ _ F P (fun _ H => H) Aq Nd I Cl) as (new2 & E2 & N2 & R2 & C2 & Tg2 & Lp2 & Ln2 & Lo2 & Op2 & Ox2).
    assert (Nq2 : ~ In q inc2). { rewrite E2, in_app_iff. intros [G|G]; auto. apply (Aq q); auto. }
    assert (Np2 : ~ In p new2). { intros G. apply (Ac p); auto. eapply reach1_trans; eauto. }
    assert (Nd3 : NoDup (inc2 ++ [q])). { rewrite E2 in *. clear - N2 Nq2. apply NoDup_rev in N2. rewrite <- (rev_involutive ((inc ++ new2) ++ [q])). apply NoDup_rev. rewrite rev_app_distr. cbn [rev app]. constructor; auto. rewrite <- in_rev. exact Nq2. }
    assert (Np3 : ~ In p (inc2 ++ [q])). { rewrite E2, !in_app_iff. intros [[G|G]|[G|[]]]; auto. }
    assert (Cl3 : forall x y, In x (inc2 ++ [q]) -> includes x y -> In y (inc2 ++ [q])).
    { intros x y G H. apply in_app_iff. left. apply in_app_iff in G as [G|[<-|[]]]; [eapply C2; eauto|]. destruct H as (tx & pp & tt & pc' & F' & P' & I' & K'). assert (tx = text2) by congruence. subst tx. assert (pp = ps2) by congruence. subst pp. eapply Tg2; eauto. }
    destruct (IH2 _ _ _ F0 P0 Sub' Ac Nd3 Np3 Cl3) as (new & E & N' & R & C' & Tg & Lp & Ln & Lo & Op & Ox).
    assert (Eo : own q = own_ps ps2 t2) by (unfold own; rewrite F, P; reflexivity).
    assert (Nn3 : forall y, In y (inc2 ++ [q]) -> In y new -> False).
    { intros y G1 G2. rewrite E in N'. apply in_split in G1 as (l1 & l2 & E3). rewrite E3 in N'. rewrite <- app_assoc in N'. cbn [app] in N'. apply NoDup_remove_2 in N'. apply N'. rewrite !in_app_iff. auto. }
    assert (Dj : forall y, In y (new2 ++ [q]) -> ~ In y new).
    { intros y G1 G2. apply (Nn3 y); auto. rewrite E2, <- app_assoc. apply in_app_iff. auto. }
    assert (LT2 : forall y, In y (new2 ++ [q]) -> lines y T2 = own y). { intros y G. apply in_app_iff in G as [G|[<-|[]]]; [apply Ln2; auto|congruence]. }
    assert (LT2o : forall y, ~ In y (new2 ++ [q]) -> lines y T2 = []). { intros y G. rewrite in_app_iff in G. apply Lo2; intros Z; apply G; subst; simpl; auto. }
    assert (NP : forall y, In y (new2 ++ [q]) -> y <> p). { intros y G ->. apply in_app_iff in G as [G|[G|[]]]; auto. }
    assert (NPn : forall y, In y new -> y <> p). { intros y G ->. apply (Ac p); auto. }
    assert (Bq : forall y T1 T3, T = T1 ++ T3 -> In y (inc2 ++ [q]) \/ lines y T1 = own y -> y <> p -> (In y (inc2 ++ [q]) -> In y new -> False) -> In y inc \/ lines y (tag p (own1 pc) ++ T2 ++ T1) = own y).
    { intros y T1 T3 ET H Ny Nn. destruct (in_dec (list_eq_dec ascii_dec) y inc) as [Hi|Hi]; [auto|right]. rewrite !lines_app, lines_tag_other by auto. cbn [app].
      destruct (in_dec (list_eq_dec ascii_dec) y (new2 ++ [q])) as [Hy|Hy].
      - rewrite LT2 by auto. assert (Z : lines y T1 = []). { apply (app_eq_nil_l _ _ (lines y T3)). rewrite <- lines_app, <- ET. apply Lo; auto. } rewrite Z. apply app_nil_r.
      - rewrite LT2o by auto. cbn [app]. destruct H as [H|H]; [|exact H]. exfalso. rewrite E2, <- app_assoc, in_app_iff in H. destruct H; auto. }
    exists (new2 ++ [q] ++ new). repeat match goal with |- _ /\ _ => split end; auto.
    + rewrite E, E2. now rewrite <- !app_assoc.
    + intros x G. rewrite !in_app_iff in G. destruct G as [G|[[<-|[]]|G]]; auto. eapply reach1_trans; eauto.
    + intros pc' q' [<-|G] Kq; [|eauto]. assert (q' = q) by congruence. subst q'. rewrite E, !in_app_iff. simpl. auto.
    + rewrite !lines_app, lines_tag_same, Lp, LT2o by (intros G; apply NP in G; auto). unfold own_ps. cbn [flat_map app]. now rewrite app_assoc.
    + intros y G. rewrite app_assoc in G. apply in_app_iff in G as [G|G].
      * rewrite !lines_app, lines_tag_other by (intros Z; symmetry in Z; revert Z; apply NP; auto). rewrite LT2 by auto. rewrite (Lo y (NP _ G) (Dj _ G)). apply app_nil_r.
      * rewrite !lines_app, lines_tag_other by (intros Z; symmetry in Z; revert Z; apply NPn; auto). rewrite LT2o by (intros Z; exact (Dj _ Z G)). cbn [app]. auto.
    + intros y H1 H2. rewrite app_assoc, in_app_iff in H2. rewrite !lines_app, lines_tag_other, LT2o by auto. cbn [app]. apply Lo; auto.
    + intros [|pc1 ps1] pc' ps2' q' Eq Kq; cbn [app] in Eq; injection Eq as -> Eq.
      * assert (q' = q) by congruence. subst q'. exists (tag p (own1 pc') ++ T2), T. split; [now rewrite app_assoc|]. split.
        -- rewrite lines_app, lines_tag_same, LT2o by (intros G; apply NP in G; auto). apply app_nil_r.
        -- right. rewrite lines_app, lines_tag_other by auto. cbn [app]. apply LT2. rewrite in_app_iff. simpl. auto.
      * destruct (Op ps1 pc' ps2' q' Eq Kq) as (T1 & T3 & ET & L1 & L2). exists (tag p (own1 pc1) ++ T2 ++ T1), T3. split; [rewrite ET; now rewrite <- !app_assoc|]. split.
        -- rewrite !lines_app, lines_tag_same, L1, LT2o by (intros G; apply NP in G; auto). cbn [flat_map app]. now rewrite app_assoc.
        -- apply (Bq q' T1 T3 ET L2); [|apply Nn3]. intros ->. apply (Ac p); auto. apply t1n_step. exists text0, ps0, t0, pc'. repeat split; auto. apply Sub'. rewrite Eq. apply in_elt.
    + intros x tx ps1 pc' ps2' t' q' Hx Fx Px Kq. assert (Ixq : includes x q') by (exists tx, (ps1 ++ pc' :: ps2'), t', pc'; repeat split; auto; apply in_elt).
      rewrite app_assoc in Hx. apply in_app_iff in Hx as [Hx|Hx].
      * assert (B2 : before x ps1 pc' q' inc T2).
        { apply in_app_iff in Hx as [Hx|[<-|[]]]; [eapply Ox2; eauto|]. assert (tx = text2) by congruence. subst tx. assert (Ep : ps2 = ps1 ++ pc' :: ps2') by congruence. exact (Op2 _ _ _ _ Ep Kq). }
        assert (Rx : reach1 p x). { apply in_app_iff in Hx as [Hx|[<-|[]]]; auto. eapply reach1_trans; eauto. }
        destruct B2 as (T1 & T3 & -> & L1 & L2). exists (tag p (own1 pc) ++ T1), (T3 ++ T). split; [now rewrite <- !app_assoc|].
        assert (Nx : x <> p) by (apply NP; auto). assert (Nq' : q' <> p). { intros ->. apply (Ac p); auto. eapply reach1_trans; [exact Rx|]. apply t1n_step; auto. }
        rewrite !lines_app, !lines_tag_other by auto. auto.
      * destruct (Ox _ _ _ _ _ _ _ Hx Fx Px Kq) as (T1 & T3 & ET & L1 & L2). exists (tag p (own1 pc) ++ T2 ++ T1), T3. split; [rewrite ET; now rewrite <- !app_assoc|].
        assert (Nx : x <> p) by (apply NPn; auto). assert (Nq' : q' <> p). { intros ->. apply (Ac p); auto. eapply reach1_trans; [exact (R _ Hx)|]. apply t1n_step; auto. }
        split; [|apply (Bq q' T1 T3 ET L2 Nq'); apply Nn3]. rewrite !lines_app, lines_tag_other, L1, LT2o by (auto; intros Z; exact (Dj _ Z Hx)). reflexivity.
Qed.

(** *** The theorems *)
(** After a successful load (into a buffer that may hold text already) the new nonblank lines of the buffer are
    the kept lines of the root file and of exactly the files reachable from it through include lines, every
    file once, in order; and wherever [x] includes [q], all lines of [q] stand before the lines of [x] that
    follow the include line. *)
Theorem C41_expansion : forall fuel root buf inc' buf',
  (forall x, x = root \/ reach1 root x -> tidy x) ->
  load fs roots fuel root ([], buf) = Some (Ok (inc', buf')) ->
  exists T, nb buf' = nb buf ++ map snd T
    /\ NoDup inc' /\ ~ In root inc' /\ (forall q, In q inc' <-> reach1 root q)
    /\ (forall q, q = root \/ In q inc' -> lines q T = own q)
    /\ (forall q, q <> root -> ~ In q inc' -> lines q T = [])
    /\ (forall x text ps1 pc ps2 t q, x = root \/ In x inc' -> fs x = Some text -> pieces text = Some (ps1 ++ pc :: ps2, t) -> kind_of x pc = KInc q ->
        exists T1 T2, T = T1 ++ T2 /\ lines x T1 = flat_map own1 ps1 ++ own1 pc /\ lines q T1 = own q).
Proof.
  intros fuel root buf inc' buf' TD L.
  assert (TD' : forall x, clos_refl_trans_1n _ includes root x -> tidy x).
  { intros x R. apply TD. clear - R. induction R as [x|x y z H R IH]; auto. right. destruct IH as [->|IH]; [apply t1n_step; auto|exact (Relation_Operators.t1n_trans _ _ _ _ _ H IH)]. }
  destruct (load_sound fuel root _ _ TD' L) as (text & ps & t & T & F & P & X & N). cbn [fst snd] in *.
  pose proof (exps_acyc _ _ _ _ _ _ F P X) as Ac.
  destruct (exps_main _ _ _ _ _ _ X _ _ _ F P (fun _ H => H) Ac (NoDup_nil _) (fun H => H) (fun _ _ (H : In _ []) _ => match H with end)) as (new & E & N' & R & C' & Tg & Lp & Ln & Lo & Op & Ox).
  cbn [app] in E. subst new. exists T. split; [exact N|]. split; [exact N'|]. split; [intros G; apply (Ac root); auto|]. split; [|split; [|split]].
  - intros q. split; [apply R|]. intros G. assert (Z : forall a b, reach1 a b -> (a = root \/ In a inc') -> In b inc').
    { intros a b H. induction H as [a b H|a c b H H0 IH]; intros Ha.
      - destruct Ha as [->|Ha]; [|eapply C'; eauto]. destruct H as (tx & pp & tt & pc & F' & P' & I' & K'). assert (tx = text) by congruence. subst tx. assert (pp = ps) by congruence. subst pp. eapply Tg; eauto.
      - apply IH. right. destruct Ha as [->|Ha]; [|eapply C'; eauto]. destruct H as (tx & pp & tt & pc & F' & P' & I' & K'). assert (tx = text) by congruence. subst tx. assert (pp = ps) by congruence. subst pp. eapply Tg; eauto. }
    apply (Z root); auto.
  - intros q [->|G]; [|auto]. unfold own. rewrite F, P. exact Lp.
  - exact Lo.
  - intros x tx ps1 pc ps2 t' q Hx Fx Px Kq. destruct Hx as [->|Hx].
    + assert (Ep : ps = ps1 ++ pc :: ps2) by congruence. destruct (Op _ _ _ _ Ep Kq) as (T1 & T2 & A & B & [[]|D]). eauto.
    + destruct (Ox _ _ _ _ _ _ _ Hx Fx Px Kq) as (T1 & T2 & A & B & [[]|D]). eauto.
Qed.
(** a load that ends successfully has met no include cycle *)
Theorem C41_no_cycle : forall fuel root buf st', (forall x, x = root \/ reach1 root x -> tidy x) ->
  load fs roots fuel root ([], buf) = Some (Ok st') -> forall x, x = root \/ reach1 root x -> ~ reach1 x x.
Proof.
  intros fuel root buf st' TD L.
  assert (TD' : forall x, clos_refl_trans_1n _ includes root x -> tidy x).
  { intros x R. apply TD. clear - R. induction R as [x|x y z H R IH]; auto. right. destruct IH as [->|IH]; [apply t1n_step; auto|exact (Relation_Operators.t1n_trans _ _ _ _ _ H IH)]. }
  destruct (load_sound fuel root _ _ TD' L) as (text & ps & t & T & F & P & X & N). exact (exps_acyc _ _ _ _ _ _ F P X).
Qed.

(** a file that can be read and whose include lines name files *)
Definition good (x : str) : Prop :=
  exists text ps t, fs x = Some text /\ text <> [] /\ pieces text = Some (ps, t) /\ forall pc, In pc ps -> kind_of x pc <> KBad.
Lemma walk_total : forall rec p ps t st, Forall pc_ok ps -> (forall pc, In pc ps -> kind_of p pc <> KBad) ->
  (forall pc q st, In pc ps -> kind_of p pc = KInc q -> exists st', rec q st = Some (Ok st')) ->
  exists st', walk rec p ps t st = Some (Ok st').
Proof.
  intros rec p ps t. induction ps as [|pc ps IH]; intros st Wf Nb Rc; [cbn [walk]; eauto|]. cbn [walk]. inversion Wf as [|? ? [D En] Wf']; subst.
  assert (H : exists st1, pstep rec p pc st = Some (Ok st1)).
  { unfold pstep. destruct (is_pragma (p_h pc)) eqn:Pr; [eauto|].
    assert (Inc : is_include (p_h pc) = true) by (apply is_dir_hash in D as (? & _ & [D|D]); congruence).
    pose proof (Nb pc (or_introl eq_refl)) as K. pose proof (fun q st => Rc pc q st (or_introl eq_refl)) as R. unfold kind_of in K, R. rewrite Inc in K, R.
    destruct (is_local (p_h pc) (p_nl pc) || is_ceed (p_h pc) (p_nl pc)); [|destruct (is_std (p_h pc) (p_nl pc)); eauto].
    destruct (include_path fs roots p (p_h pc) (p_nl pc)) as [ip|c|]; try congruence. destruct (normalize ip) as [np|c|]; try congruence.
    destruct (existsb (seqb np) (fst st)); [eauto|]. destruct (R np (fst st, append_cut (snd st) (p_pre pc)) eq_refl) as ([inc2 buf2] & ->). eauto. }
  destruct H as (st1 & ->). apply IH; auto; [intros; apply Nb; simpl; auto|intros pc' q st2 G; apply Rc; simpl; auto].
Qed.
(** with readable files and no cycle the load succeeds; the rank only shows that there is no cycle and its value bounds the nesting *)
Theorem C41_succeeds : forall (rank : str -> nat) root buf, (forall x, x = root \/ reach1 root x -> good x) ->
  (forall x y, x = root \/ reach1 root x -> includes x y -> rank y < rank x) ->
  forall fuel, rank root < fuel -> exists inc' buf', load fs roots fuel root ([], buf) = Some (Ok (inc', buf')).
Proof.
  intros rank root buf G Rk fuel Lf. assert (Z : forall fuel x st, (x = root \/ reach1 root x) -> rank x < fuel -> exists st', load fs roots fuel x st = Some (Ok st')).
  { clear - G Rk. induction fuel as [|fuel IH]; intros x st Hx L; [lia|]. cbn [load]. destruct (G x Hx) as (text & ps & t & F & Ne & P & Nb). rewrite F. destruct text as [|c text]; [congruence|].
    pose proof (scan_pieces (load fs roots fuel) x (c :: text) st) as S. rewrite P in S. rewrite S. apply walk_total; [eapply parse_ok; exact P|exact Nb|].
    intros pc q st1 I K. assert (Iq : includes x q) by (exists (c :: text), ps, t, pc; auto). apply IH.
    - right. destruct Hx as [->|Hx]; [apply t1n_step; auto|]. eapply reach1_trans; [exact Hx|apply t1n_step; auto].
    - pose proof (Rk x q Hx Iq). lia. }
  destruct (Z fuel root ([], buf) (or_introl eq_refl) Lf) as ([a b] & E). eauto.
Qed.
(** the result does not depend on the depth allowed *)
Theorem C41_depth : forall fuel root st r, load fs roots fuel root st = Some r -> forall fuel', fuel <= fuel' -> load fs roots fuel' root st = Some r.
Proof.
  assert (Sc : forall rec rec' p text, (forall q st r, rec q st = Some r -> rec' q st = Some r) -> forall s pos off st r, scan fs roots rec p text s pos off st = Some r -> scan fs roots rec' p text s pos off st = Some r).
  { intros rec rec' p text H. induction s as [|c s IH]; intros pos off st r; [auto|]. cbn [scan]. destruct (Ascii.eqb c "#"); [|apply IH].
    destruct (do_hash fs roots rec p text (c :: s) pos off st) as [d|] eqn:E; [|discriminate].
    assert (E' : do_hash fs roots rec' p text (c :: s) pos off st = Some d).
    { revert E. unfold do_hash. match goal with |- context [match ?x with Ok _ => _ | Err _ => _ | UB => _ end] => destruct x as [[o [i b]]|?|]; auto end.
      destruct (is_include (c :: s)); auto. destruct (strchr (c :: s) NL); auto. destruct (pos <? o); auto. destruct (is_local (c :: s) n || is_ceed (c :: s) n); auto.
      destruct (include_path fs roots p (c :: s) n); auto. destruct (normalize a); auto. destruct (existsb (seqb a0) i); auto.
      destruct (rec a0 (i, append_cut b (firstn (pos - o) (skipn o text)))) eqn:Er; [|discriminate]. rewrite (H _ _ _ Er). auto. }
    rewrite E'. destruct d as [[o st1]|?|]; auto. }
  induction fuel as [|fuel IH]; intros root st r L [|fuel'] Le; try discriminate; try lia. cbn [load] in *. destruct (fs root) as [[|c text]|]; auto.
  eapply Sc; [|exact L]. intros q st1 r1 H. eapply IH; eauto. lia.
Qed.
End Load.

(** ** Examples and findings *)
Definition fs_of (l : list (str * str)) : files := fun p => match find (fun x => seqb (fst x) p) l with Some x => Some (snd x) | None => None end.
Definition q_ (s : str) : str := QUOTE :: s ++ [QUOTE].
Definition ln (s : string) : str := lit s ++ [NL].
Definition inc_ (s : string) : str := lit "#include " ++ q_ (lit s) ++ [NL].
(** a.h includes b.h and c.h, and b.h includes c.h *)
Definition ex_fs : files := fs_of
  [ (lit "/r/a.h", ln "#pragma once" ++ ln "#include <math.h>" ++ ln "#include <foo.h>" ++ inc_ "b.h" ++ inc_ "sub/../c.h" ++ ln "a1" ++ ln "a2");
    (lit "/r/b.h", ln "#pragma once" ++ ln "b0" ++ inc_ "c.h" ++ ln "#pragma omp" ++ ln "b1");
    (lit "/r/c.h", ln "#pragma once" ++ ln "c1") ].
Example C41_ex : exists b, load ex_fs [] 5 (lit "/r/a.h") ([], []) = Some (Ok ([lit "/r/c.h"; lit "/r/b.h"], b))
  /\ nb b = [lit "#include <foo.h>"; lit "b0"; lit "c1"; lit "#pragma omp"; lit "b1"; lit "a1"; lit "a2"].
Proof. eexists. split; vm_compute; reflexivity. Qed.
Example C41_ex_good : good ex_fs [] (lit "/r/a.h") /\ own ex_fs (lit "/r/b.h") = [lit "b0"; lit "#pragma omp"; lit "b1"] /\ includes ex_fs [] (lit "/r/b.h") (lit "/r/c.h").
Proof.
  split; [|split; [vm_compute; reflexivity|]].
  - eexists. eexists. eexists. split; [vm_compute; reflexivity|]. split; [discriminate|]. split; [vm_compute; reflexivity|]. simpl. intros pc H. repeat destruct H as [<-|H]; try discriminate. contradiction.
  - eexists. eexists. eexists. eexists. split; [vm_compute; reflexivity|]. split; [vm_compute; reflexivity|]. split; [right; left; reflexivity|vm_compute; reflexivity].
Qed.
(** Finding: two headers that include each other are expanded for ever although both say "#pragma once" *)
Definition cyc_fs : files := fs_of [ (lit "/r/a.h", ln "#pragma once" ++ inc_ "b.h" ++ ln "a"); (lit "/r/b.h", ln "#pragma once" ++ inc_ "a.h" ++ ln "b") ].
Theorem C41_cycle_refuted : exists fs root, forall fuel buf, load fs [] fuel root ([], buf) = None.
Proof.
  exists cyc_fs, (lit "/r/a.h"). intros fuel.
  assert (H : forall buf, load cyc_fs [] fuel (lit "/r/a.h") ([], buf) = None /\ load cyc_fs [] fuel (lit "/r/b.h") ([], buf) = None).
  { induction fuel as [|fuel IH]; intros buf; [split; reflexivity|]. split; cbn [load]; set (rc := load cyc_fs [] fuel) in *.
    - assert (IH2 : forall buf, rc (lit "/r/b.h") ([], buf) = None) by apply IH. clearbody rc. clear IH. vm_compute in IH2. vm_compute. rewrite IH2. reflexivity.
    - assert (IH2 : forall buf, rc (lit "/r/a.h") ([], buf) = None) by apply IH. clearbody rc. clear IH. vm_compute in IH2. vm_compute. rewrite IH2. reflexivity. }
  intros buf. apply H.
Qed.
(** Finding: a character that stands right before a directive on its line is lost (here the end of a comment) *)
Theorem C41_cut_refuted : exists fs root b, load fs [] 1 root ([], []) = Some (Ok ([], b)) /\ nb b = [lit "/* doc *"; lit "x"] /\ own fs root = [lit "/* doc */"; lit "x"].
Proof. exists (fs_of [(lit "/r/a.h", ln "/* doc */#include <math.h>" ++ ln "x")]), (lit "/r/a.h"). eexists. split; [|split]; vm_compute; reflexivity. Qed.
(** Finding: a directive on the last line of a file without final newline makes the scan compute with a null pointer *)
Theorem C41_last_line_refuted : exists fs root, forall fuel st, load fs [] (S fuel) root st = Some UB.
Proof. exists (fs_of [(lit "/r/a.h", lit "#pragma once")]), (lit "/r/a.h"). intros fuel [inc buf]. vm_compute. reflexivity. Qed.
(** Finding: an empty header cannot be included *)
Theorem C41_empty_refuted : exists fs root, fs (lit "/r/b.h") = Some [] /\ includes fs [] root (lit "/r/b.h") /\ load fs [] 5 root ([], []) = Some (Err ERR_MAJOR).
Proof.
  exists (fs_of [(lit "/r/a.h", inc_ "b.h"); (lit "/r/b.h", [])]), (lit "/r/a.h"). split; [reflexivity|]. split; [|vm_compute; reflexivity].
  eexists. eexists. eexists. eexists. split; [vm_compute; reflexivity|]. split; [vm_compute; reflexivity|]. split; [left; reflexivity|vm_compute; reflexivity].
Qed.
Print Assumptions C41_expansion.
Print Assumptions C41_no_cycle.
Print Assumptions C41_succeeds.
Print Assumptions C41_depth.
Print Assumptions C41_cycle_refuted.
Print Assumptions C41_cut_refuted.
Print Assumptions C41_last_line_refuted.
Print Assumptions C41_empty_refuted.
