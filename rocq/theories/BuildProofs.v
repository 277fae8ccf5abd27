(** * Proofs about CeedOperatorSetField and CeedOperatorCheckReady *)
From Coq Require Import List ZArith Lia Bool Arith.
From Verif Require Import Prelude RstrModel BasisModel StrModel QfModel BuildModel.
Import ListNotations.
Local Open Scope Z_scope.

(** ** Histories: calls on the operator and on its QFunction *)
Inductive hop := HSet (c : call) | HReady | HIn (n : str) (s : Z) (m : emode) | HOut (n : str) (s : Z) (m : emode).
Definition hstep (st : opst) (h : hop) : res unit * opst :=
  match h with
  | HSet c => set_field st c
  | HReady => check_ready st
  | HIn n s m => let r := q_add_input (b_qf st) n s m in (fst r, with_qf st (snd r))
  | HOut n s m => let r := q_add_output (b_qf st) n s m in (fst r, with_qf st (snd r))
  end.
Definition run (st : opst) (hs : list hop) : opst := fold_left (fun s h => snd (hstep s h)) hs st.
Lemma run_snoc : forall st hs h, run st (hs ++ [h]) = snd (hstep (run st hs) h).
Proof. intros. unfold run. rewrite fold_left_app. reflexivity. Qed.
Lemma run_app : forall st a b, run st (a ++ b) = run (run st a) b.
Proof. intros. unfold run. apply fold_left_app. Qed.

(** The slot for a field: input or output side, index *)
Definition slot (st : opst) (side : bool) (i : nat) : fslot := if side then b_in st i else b_out st i.
Definition sz (st : opst) (side : bool) : Z := if side then b_isz st else b_osz st.

(** ** Restriction, basis and QFunction field fit together *)
Record fits (f : qfield) (r : rarg) (b : barg) : Prop := Fits {
  fit_r : r <> RNull; fit_b : b <> BNull;
  fit_weight : r = RNone <-> qf_mode f = EvWeight;
  fit_none : b = BNone <-> qf_mode f = EvNone;
  fit_comp : forall dr db, r = RArg dr -> b = BArg db -> rd_comp dr = bd_comp db;
  fit_size_none : forall dr, r = RArg dr -> b = BNone -> qf_size f = rd_comp dr;
  fit_size : forall db, b = BArg db ->
    match qf_mode f with
    | EvInterp => qf_size f = bd_comp db * (if bd_h1 db then 1 else bd_dim db)
    | EvGrad => qf_size f = bd_comp db * bd_dim db
    | EvDiv => qf_size f = bd_comp db
    | EvCurl => qf_size f = bd_comp db * (if bd_dim db <? 3 then 1 else bd_dim db)
    | EvNone | EvWeight => True
    end }.
Lemma check_field_ok : forall f r b, r <> RNull -> b <> BNull -> check_field f r b = Ok tt <-> fits f r b.
Proof.
  intros f r b Hr Hb. unfold check_field. split.
  - intros H. destruct (Bool.eqb_spec (is_rnone r) (is_weight_mode (qf_mode f))) as [E1|]; [|discriminate]. cbn [negb] in H.
    destruct (Bool.eqb_spec (is_bnone b) (is_none_mode (qf_mode f))) as [E2|]; [|discriminate]. cbn [negb] in H.
    split; auto.
    + destruct r, (qf_mode f); cbn in E1; try discriminate; split; congruence.
    + destruct b, (qf_mode f); cbn in E2; try discriminate; split; congruence.
    + intros dr db -> ->. cbn in H. destruct (Z.eqb_spec (rd_comp dr) (bd_comp db)); auto. discriminate.
    + intros dr -> ->. cbn in *. destruct (qf_mode f); cbn in E2; try discriminate. destruct (Z.eqb_spec (qf_size f) (rd_comp dr)); auto. discriminate.
    + intros db ->. destruct (qf_mode f); auto; destruct (negb (is_bnone (BArg db)) && _ && _); try discriminate; cbn [b_qcomp] in H;
        match type of H with (if ?x =? ?y then _ else _) = _ => destruct (Z.eqb_spec x y); [lia|discriminate] end.
  - intros [_ _ H1 H2 H3 H4 H5].
    assert (E1 : is_rnone r = is_weight_mode (qf_mode f)).
    { destruct r; [congruence| |]; cbn; destruct (qf_mode f); cbn; try reflexivity; exfalso;
      first [discriminate (proj1 H1 eq_refl)|discriminate (proj2 H1 eq_refl)]. }
    assert (E2 : is_bnone b = is_none_mode (qf_mode f)).
    { destruct b; [congruence| |]; cbn; destruct (qf_mode f); cbn; try reflexivity; exfalso;
      first [discriminate (proj1 H2 eq_refl)|discriminate (proj2 H2 eq_refl)]. }
    rewrite E1, E2, !Bool.eqb_reflx. cbn [negb].
    destruct b as [| |db]; [congruence| |].
    + destruct (qf_mode f); cbn in E2; try discriminate. cbn. destruct r as [| |dr]; cbn in E1; try congruence.
      rewrite (H4 dr) by auto. rewrite Z.eqb_refl. reflexivity.
    + cbn [is_bnone] in E2. rewrite <- E2. cbn [negb andb]. destruct r as [| |dr]; [congruence| |].
      * cbn in E1. destruct (qf_mode f); cbn in E1; try discriminate. reflexivity.
      * rewrite (H3 dr db), Z.eqb_refl by auto. rewrite Bool.andb_false_r. specialize (H5 db eq_refl).
        destruct (qf_mode f); cbn in E1, E2; try discriminate; cbn [b_qcomp]; rewrite H5;
        match goal with |- (if ?x =? ?y then _ else _) = _ => destruct (Z.eqb_spec x y); [reflexivity|lia] end.
Qed.

(** ** When SetField succeeds, and what it does *)
Record accepts (st : opst) (c : call) (side : bool) (i : nat) (f : qfield) : Prop := Acc {
  ac_imm : b_imm st = false;
  ac_v : c_v c <> VNull;
  ac_ne : c_r c = RNone \/ b_hasr st = false \/ r_ne (c_r c) = b_ne st;
  ac_pts : forall p, r_pts (c_r c) = Some p -> b_at st = true /\ c_b c = BNone /\ (b_first st = None \/ b_first st = Some p);
  ac_nq : b_nq st = 0 \/ c_nq c = b_nq st;
  ac_find : find_field (b_qf st) (c_name c) = Some (side, i);
  ac_f : qf_at (b_qf st) side i = Some f;
  ac_fits : fits f (c_r c) (c_b c);
  ac_sz : c_v c = VActive -> sz st side = -1 \/ sz st side = r_lsz (c_r c) }.
Definition after (st : opst) (c : call) (side : bool) (i : nat) : opst :=
  let x := FSet (OF (c_name c) (c_r c) (c_b c) (c_v c)) in
  let z := match c_v c with VActive => r_lsz (c_r c) | _ => sz st side end in
  OP (q_set_imm (b_qf st)) (b_at st) (if side then upd (upd (b_in st) i FBlank) i x else b_in st)
     (if side then b_out st else upd (upd (b_out st) i FBlank) i x) (S (b_nf st))
     (if negb (is_rnone (c_r c)) && negb (b_hasr st) then r_ne (c_r c) else b_ne st) (b_hasr st || negb (is_rnone (c_r c)))
     (if (b_nq st =? 0) && negb (b_at st) then c_nq c else b_nq st)
     (if side then z else b_isz st) (if side then b_osz st else z)
     (match r_pts (c_r c) with Some p => Some p | None => b_first st end) (b_ready st) (b_imm st).

Lemma set_field_accepts : forall st c side i f, accepts st c side i f -> set_field st c = (Ok tt, after st c side i).
Proof.
  intros st c side i f [Hi Hv Hne Hp Hnq Hf Hq Hfit Hs]. unfold set_field. rewrite Hi.
  pose proof (fit_r _ _ _ Hfit) as Hr. pose proof (fit_b _ _ _ Hfit) as Hb.
  pose proof (proj2 (check_field_ok f _ _ Hr Hb) Hfit) as Hck.
  destruct c as [nm r b v]. cbn [c_r c_b c_v c_name] in *.
  assert (N1 : is_rnone r || negb (b_hasr st) || (r_ne r =? b_ne st) = true).
  { destruct Hne as [->|[->| ->]]; cbn; auto; rewrite ?Z.eqb_refl, ?Bool.orb_true_r; auto. }
  set (rd := match r_pts r with Some p => Some p | None => b_first st end).
  assert (N2 : (match r_pts r with
             | None => inr st
             | Some p => if negb (b_at st) then inl (Err ERR_UNSUPPORTED)
                         else if negb (is_bnone b) then inl (Err ERR_UNSUPPORTED)
                         else match b_first st with
                              | None => inr (with_first st (Some p))
                              | Some p0 => if list_eq_dec Z.eq_dec p0 p then inr st else inl (Err ERR_INCOMPATIBLE)
                              end
             end) = inr (with_first st rd) :> (res unit + opst)).
  { unfold rd. destruct (r_pts r) as [p|] eqn:Ep.
    - destruct (Hp p eq_refl) as (-> & -> & [F|F]); cbn; rewrite F; auto. destruct (list_eq_dec Z.eq_dec p p); [|congruence].
      unfold with_first. destruct st; cbn in *; subst; reflexivity.
    - unfold with_first. destruct st; reflexivity. }
  assert (N3 : (b_nq st =? 0) || (c_nq (Call nm r b v) =? b_nq st) = true).
  { destruct Hnq as [->| ->]; rewrite ?Z.eqb_refl, ?Bool.orb_true_r; auto. }
  assert (N4 : find_field (b_qf (with_qf (with_first st rd) (snd (q_get_fields (b_qf (with_first st rd)))))) nm = Some (side, i)). { exact Hf. }
  assert (N5 : qf_at (b_qf (with_qf (with_first st rd) (snd (q_get_fields (b_qf (with_first st rd)))))) side i = Some f). { exact Hq. }
  destruct r as [| |dr]; [congruence| |]; (destruct b as [| |db]; [congruence| |]); (destruct v as [| | |v]; [congruence| | |]);
  cbv beta iota zeta; rewrite N1; cbn [negb]; rewrite N2; cbv beta iota; cbn [b_nq with_first]; rewrite N3; cbn [negb];
  rewrite N4; cbv beta iota; rewrite N5; cbv beta iota; rewrite Hck; cbv beta iota;
  try (cbn [with_slot with_qf with_first b_isz b_osz]; destruct (Hs eq_refl) as [Z|Z]; unfold sz in Z;
    destruct side; rewrite Z; cbn; rewrite ?Z.eqb_refl;
    try match goal with |- context [if ?a =? -1 then ?a else ?a] => replace (if a =? -1 then a else a) with a by (destruct (a =? -1); reflexivity) end; rewrite ?Z.eqb_refl);
  unfold after; subst rd; cbn; rewrite ?Bool.andb_false_r, ?Bool.orb_false_r; try reflexivity; destruct side; try reflexivity.
Qed.

Lemma set_field_ok_inv : forall st c, fst (set_field st c) = Ok tt -> exists side i f, accepts st c side i f.
Proof.
  intros st c H. unfold set_field in H. destruct (b_imm st) eqn:Hi; [discriminate|].
  destruct c as [nm r b v]. cbn [c_r c_b c_v c_name] in *.
  assert (Hr : r <> RNull) by (intros ->; discriminate).
  assert (Hb : b <> BNull) by (intros ->; destruct r; discriminate).
  assert (Hv : v <> VNull) by (intros ->; destruct r; destruct b; discriminate).
  match type of H with fst (match r with RNull => _ | _ => _ end) = _ => idtac end.
  assert (H' : fst (
    if negb (is_rnone r || negb (b_hasr st) || (r_ne r =? b_ne st)) then (Err ERR_DIMENSION, st)
    else
      match (match r_pts r with
             | None => inr st
             | Some p => if negb (b_at st) then inl (Err ERR_UNSUPPORTED)
                         else if negb (is_bnone b) then inl (Err ERR_UNSUPPORTED)
                         else match b_first st with
                              | None => inr (with_first st (Some p))
                              | Some p0 => if list_eq_dec Z.eq_dec p0 p then inr st else inl (Err ERR_INCOMPATIBLE)
                              end
             end) with
      | inl e => (e, st)
      | inr st1 =>
        if negb ((b_nq st1 =? 0) || (c_nq (Call nm r b v) =? b_nq st1)) then (Err ERR_DIMENSION, st1)
        else
          let st2 := with_qf st1 (snd (q_get_fields (b_qf st1))) in
          match find_field (b_qf st2) nm with
          | None => (Err ERR_INCOMPLETE, st2)
          | Some (side, i) =>
            match qf_at (b_qf st2) side i with
            | None => (UB, st2)
            | Some qf =>
              match check_field qf r b with
              | Ok _ =>
                let st3 := with_slot st2 side i FBlank in
                let cur := if side then b_isz st3 else b_osz st3 in
                match (match v with
                       | VActive => let z := if cur =? -1 then r_lsz r else cur in
                                    if r_lsz r =? z then inr (with_size st3 side z) else inl (with_size st3 side z)
                       | _ => inr st3
                       end) with
                | inl st4 => (Err ERR_INCOMPATIBLE, st4)
                | inr st4 => (Ok tt, st4)
                end
              | Err e => (Err e, st2)
              | UB => (UB, st2)
              end
            end
          end
      end) = Ok tt).
  { destruct r as [| |dr]; [congruence| |]; (destruct b as [| |db]; [congruence| |]); (destruct v as [| | |v]; [congruence| | |]); cbv beta iota zeta in H |- *;
    repeat match type of H with
    | fst (if ?x then _ else _) = _ => destruct x; [exact H|]
    | fst (match ?x with inl _ => _ | inr _ => _ end) = _ => destruct x as [?|?]; [exact H|]
    | fst (match ?x with Some _ => _ | None => _ end) = _ => destruct x as [?|]; [|exact H]
    | fst (match ?x with (_, _) => _ end) = _ => destruct x
    | fst (match ?x with Ok _ => _ | Err _ => _ | UB => _ end) = _ => destruct x; [|exact H|exact H]
    end; first [exact H|reflexivity]. }
  clear H. rename H' into H.
  destruct (is_rnone r || negb (b_hasr st) || (r_ne r =? b_ne st)) eqn:E1; [|discriminate]. cbn [negb] in H.
  match type of H with fst (match ?x with inl _ => _ | inr _ => _ end) = _ => destruct x as [e|st1] eqn:E2 end.
  { exfalso. cbn in H. subst e. destruct (r_pts r); [|discriminate]. destruct (negb (b_at st)); [discriminate|]. destruct (negb (is_bnone b)); [discriminate|].
    destruct (b_first st); [|discriminate]. destruct (list_eq_dec Z.eq_dec l0 l); discriminate. }
  assert (Hst1 : st1 = with_first st (match r_pts r with Some p => Some p | None => b_first st end) /\
     (forall p, r_pts r = Some p -> b_at st = true /\ b = BNone /\ (b_first st = None \/ b_first st = Some p))).
  { destruct (r_pts r) as [p|].
    - destruct (b_at st); [|discriminate]. cbn [negb] in E2. destruct b as [| |db]; try discriminate. cbn [is_bnone negb] in E2.
      destruct (b_first st) as [p0|] eqn:F.
      + destruct (list_eq_dec Z.eq_dec p0 p) as [->|]; [|discriminate]. injection E2 as <-. split.
        * destruct st; cbn in *; subst; reflexivity.
        * intros p' [= <-]. auto.
      + injection E2 as <-. split; [reflexivity|intros p' [= <-]; auto].
    - injection E2 as <-. split; [destruct st; reflexivity|discriminate]. }
  destruct Hst1 as (-> & Hp). cbn [b_nq with_first] in H.
  destruct ((b_nq st =? 0) || (c_nq (Call nm r b v) =? b_nq st)) eqn:E3; [|discriminate]. cbn [negb] in H. cbv zeta in H.
  cbn [b_qf with_qf with_first q_get_fields snd] in H.
  change (find_field (q_set_imm (b_qf st)) nm) with (find_field (b_qf st) nm) in H.
  destruct (find_field (b_qf st) nm) as [(side, i)|] eqn:E4; [|discriminate].
  change (qf_at (q_set_imm (b_qf st)) side i) with (qf_at (b_qf st) side i) in H.
  destruct (qf_at (b_qf st) side i) as [f|] eqn:E5; [|discriminate].
  destruct (check_field f r b) as [[]| |] eqn:E6; [|discriminate|discriminate].
  exists side, i, f. split; cbn [c_r c_b c_v c_name]; auto.
  - destruct r as [| |dr]; auto; [congruence|]. cbn [is_rnone orb] in E1. destruct (b_hasr st); auto. cbn [negb orb] in E1. apply Z.eqb_eq in E1. auto.
  - apply Bool.orb_true_iff in E3. destruct E3 as [E|E]; apply Z.eqb_eq in E; auto.
  - apply check_field_ok; auto.
  - intros ->. unfold sz. destruct side; cbn in H;
    match type of H with context [?a =? -1] => destruct (Z.eqb_spec a (-1)) as [Ea|Ea]; auto;
      destruct (Z.eqb_spec (r_lsz r) a); [right; congruence|discriminate] end.
Qed.

(** A rejected call leaves counts and sizes alone; it may blank the field it names. *)
Lemma set_field_err : forall st c e st', set_field st c = (e, st') -> e <> Ok tt ->
  b_at st' = b_at st /\ b_nf st' = b_nf st /\ b_ne st' = b_ne st /\ b_hasr st' = b_hasr st /\ b_nq st' = b_nq st /\
  b_isz st' = b_isz st /\ b_osz st' = b_osz st /\ b_ready st' = b_ready st /\ b_imm st' = b_imm st /\
  (b_first st' = b_first st \/ b_first st = None) /\
  (b_qf st' = b_qf st \/ b_qf st' = q_set_imm (b_qf st)) /\
  (forall side i, slot st' side i = slot st side i \/
     (slot st' side i = FBlank /\ find_field (b_qf st) (c_name c) = Some (side, i) /\ b_qf st' = q_set_imm (b_qf st))).
Proof.
  intros st c e st' H He. unfold set_field in H. destruct (b_imm st) eqn:Hi. { injection H as <- <-. repeat split; auto. }
  destruct c as [nm r b v]. cbn [c_r c_b c_v c_name] in *.
  destruct r as [| |dr]. { injection H as <- <-. repeat split; auto. }
  all: destruct b as [| |db]; [injection H as <- <-; repeat split; auto| |].
  all: destruct v as [| | |v]; [injection H as <- <-; repeat split; auto| | |].
  all: cbv beta iota zeta in H.
  all: match type of H with (if ?x then _ else _) = _ => destruct x; [injection H as <- <-; repeat split; auto; fail|] end.
  all: match type of H with (match ?x with inl _ => _ | inr _ => _ end) = _ => destruct x as [e0|st1] eqn:E2 end; [injection H as <- <-; repeat split; auto; fail|].
  all: assert (S1 : exists x, st1 = with_first st x /\ (x = b_first st \/ b_first st = None)) by
   (match type of E2 with match ?x with _ => _ end = _ => destruct x as [p|] end;
    [destruct (negb (b_at st)); [discriminate|]; match type of E2 with (if ?x then _ else _) = _ => destruct x; [discriminate|] end;
     destruct (b_first st) as [p0|] eqn:F0; [destruct (list_eq_dec Z.eq_dec p0 p); [|discriminate]|]; injection E2 as <-;
     [exists (b_first st); split; [destruct st; reflexivity|auto]|eexists; split; [reflexivity|auto]]
    |injection E2 as <-; exists (b_first st); split; [destruct st; reflexivity|auto]]).
  all: destruct S1 as (x & -> & Hx); clear E2.
  all: match type of H with (if ?x then _ else _) = _ => destruct x; [injection H as <- <-; repeat split; auto; fail|] end.
  all: cbn [b_qf with_qf with_first q_get_fields snd] in H; change (find_field (q_set_imm (b_qf st)) nm) with (find_field (b_qf st) nm) in H.
  all: destruct (find_field (b_qf st) nm) as [(side, i)|]; [|injection H as <- <-; repeat split; auto; fail].
  all: match type of H with match ?x with _ => _ end = _ => destruct x as [f|] end; [|injection H as <- <-; repeat split; auto; fail].
  all: match type of H with match ?x with _ => _ end = _ => destruct x as [?|?|] end; [|injection H as <- <-; repeat split; auto; fail|injection H as <- <-; repeat split; auto; fail].
  all: try (injection H as <- <-; exfalso; congruence).
  all: match type of H with match (if ?x =? ?y then _ else _) with _ => _ end = _ => destruct (Z.eqb_spec x y) as [E|E]; [injection H as <- <-; exfalso; congruence|] end.
  all: destruct side; cbn in E, H;
    match type of E with context [if ?a =? -1 then _ else _] => destruct (Z.eqb_spec a (-1)); [exfalso; congruence|] end;
    injection H as <- <-; cbn; repeat split; auto; intros side' i'; unfold slot; cbn;
    destruct side'; auto; unfold upd; destruct (Nat.eqb_spec i' i) as [->|]; auto.
Qed.
