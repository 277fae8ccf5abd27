(** * QFunction assembly on the optimised CPU backends: proofs *)
From Coq Require Import List ZArith Lia Bool Arith.
From Verif Require Import Prelude RstrModel RstrSpec RstrProofs RstrMain RstrProps TensorModel TensorMain BasisModel BasisProofs BasisProps OpModel OpSpec OpLists OpProofs OpMain AsmModel AsmSpec AsmProofs OptModel OptProofs OptAsmModel.
Import ListNotations.
Set Implicit Arguments.

Lemma opt_asm_core_ok : forall (R : Rng) k Jmin junk chk D bs (o : oper R) (Hwf : op_wf D k Jmin chk bs o) (Hw : weights_passive o) (vm : vmem R)
  (Hvec : forall i, i < length (o_in o) -> f_mode (fld (o_in o) i) <> EvWeight -> is_active (fld (o_in o) i) = false -> has D vm (fld (o_in o) i) None)
  (Hni : 0 < length (comps (o_in o))) (Hno : 0 < length (comps (o_out o))) (Hnid : ident_rstr o = false) (Hun : unshared o) jl s x n1 n2 cl, stat_ok chk D bs o s -> odyn_ok D bs o x -> cache_ok D bs o (od x) vm ->
  (n1 = 0 \/ n1 = length (comps (o_in o))) -> (n2 = 0 \/ n2 = length (comps (o_out o))) -> (cl = true -> n1 <> 0 -> all_zero bs o (d_qin (od x))) ->
  exists x' A, opt_asm_core k junk chk D bs jl o s x n1 n2 vm = Ok (x', (length (comps (o_in o)), length (comps (o_out o))), A) /\ odyn_ok D bs o x' /\ cache_ok D bs o (od x') vm /\
    all_zero bs o (d_qin (od x')) /\ (cl = true -> is_assembled D o vm A).
Proof.
  intros R k Jmin junk chk D bs o Hwf Hw vm Hvec Hni Hno Hnid Hun jl s x n1 n2 cl Hs Hx Hc E1 E2 Hcl. unfold opt_asm_core. rewrite Hnid.
  set (ni := length (comps (o_in o))) in *. set (no := length (comps (o_out o))) in *.
  assert (Hv : forall i, i < (length (o_in o)) -> f_mode ((fld (o_in o)) i) <> EvWeight -> skipped o true i = false -> has D vm ((fld (o_in o)) i) None) by (intros; apply Hvec; auto).
  destruct (od x) as [sts ein eo qi qout] eqn:Ex. pose proof Hx as Hx'. destruct Hx' as [X1 X2 X3 X4 X5 X6]. rewrite Ex in *. cbn [d_states d_ein d_eout d_qin d_qout] in *.
  set (ve := map (fun j => repeat 0%R (esz bs o (rd D (fld (o_out o) j)))) (seq 0 (length (o_out o))) : list (list R)).
  assert (Hd : dyn_ok D bs o (mkDy sts ein ve qi qout)).
  { constructor; cbn [d_states d_ein d_eout d_qin d_qout]; auto. unfold ve. rewrite map_length, seq_length. split; auto.
    intros j Hj. rewrite nth_map_seq by auto. simpl. apply repeat_length. }
  destruct (@setup_inputs_ok R k Jmin chk D bs o Hwf vm None s Hs true) with (d := mkDy sts ein ve qi qout) as (d1 & Es & Hd1 & C1 & Y1 & Y2 & Y3 & Y4); auto.
  assert (E3 : exists d2, opt_setup_inputs o s vm (mkDy sts ein eo qi qout) = Ok d2 /\ d_states d2 = d_states d1 /\ d_ein d2 = d_ein d1 /\ d_eout d2 = eo /\ d_qin d2 = qi /\ d_qout d2 = qout).
  { unfold opt_setup_inputs, setup_inputs in *. cbn [d_states d_ein d_eout d_qin d_qout] in *.
    destruct (rfold _ _ _) as [st| |]; cbn [rbind] in *; try discriminate. inversion Es; subst d1. eexists. split; [reflexivity|]. cbn. auto. }
  destruct E3 as (d2 & E3 & Z1 & Z2 & Z3 & Z4 & Z5). rewrite E3. cbn [rbind]. rewrite Z1, Z2, Z3, Z4, Z5.
  set (qin := if n1 =? 0 then zero_active (o_in o) qi else qi).
  assert (N1 : (if n1 =? 0 then act_size (o_in o) else n1) = ni). { rewrite act_size_comps. fold ni. destruct (Nat.eqb_spec n1 0), E1; lia. }
  assert (N2 : (if n2 =? 0 then act_size (o_out o) else n2) = no). { rewrite act_size_comps. fold no. destruct (Nat.eqb_spec n2 0), E2; lia. }
  rewrite N1, N2. destruct (Nat.eqb_spec ni 0) as [|Hn0]; [lia|]. destruct (Nat.eqb_spec no 0) as [|Hn0']; [lia|].
  assert (Hq : qin_ok bs o qin /\ (cl = true -> all_zero bs o qin)).
  { unfold qin. destruct (Nat.eqb_spec n1 0) as [->|Hn].
    - destruct (zero_active_ok Hw X3) as (A & B). auto.
    - split; auto. }
  destruct Hq as (Hq & Hz).
  pose proof (ow_Q Hwf) as HQ. pose proof (ow_bs Hwf) as HB. pose proof (nb_bounds Hwf) as (B1 & B2). pose proof (ow_ne Hwf) as Hne.
  set (dd := asm_desc o ni no).
  assert (Hcr : exists r, rstr_create chk dd bs = Ok r).
  { unfold rstr_create, RstrModel.check_dims, dd, asm_desc. cbn [u_es u_nc u_ne u_kind u_lsize].
    destruct (Nat.eqb_spec (o_Q o) 0); [lia|]. destruct (Nat.eqb_spec (ni * no) 0); [nia|].
    replace (o_ne o * (o_Q o) * (ni * no)) with (ni * no * o_ne o * (o_Q o)) by ring. rewrite Nat.ltb_irrefl.
    destruct bs as [[|bsz]|]; simpl bsize in HB; [lia| |]; cbn; eauto. }
  destruct Hcr as (r & Hr). rewrite Hr. cbn [be rbind].
  assert (Hir : in_range dd).
  { intros el kk m Hel Hkk Hm. unfold col, dd, asm_desc in *. cbn [u_kind u_ne u_nc u_es u_lsize] in *. unfold backend_strides. cbn [Z.eqb andb].
    assert (kk * (o_Q o) + m < ni * no * (o_Q o)) by nia. assert (el * (ni * no * (o_Q o)) + (kk * (o_Q o) + m) < ni * no * o_ne o * (o_Q o)) by nia. nia. }
  destruct (create_bs Hr) as (Ebs & Enb). rewrite (nb_eq Hwf dd) in Enb by reflexivity.
  assert (Hrep := create_repr (d := dd) (r := r) I Hr).
  set (len := bsize bs * o_Q o * ni * no). set (tot := o_ne o * o_Q o * ni * no).
  set (E := fun e kk n => entry D o vm (cap o e) (kk / no) (kk mod no) n).
  destruct (@rfold_inv0 _ (fun b (st : list (list R) * list R * list R) => let '(q, l, a) := st in
      qin_ok bs o q /\ (0 < b \/ cl = true -> all_zero bs o q) /\ length l = len /\ length a = tot /\
      (cl = true -> forall p, vf a p = sumn b (fun b' => @Lblock R Signed dd (bsize bs) b' E p)))
     (opt_asm_pass k junk D bs o s (d_ein d1) r) (op_blocks bs o) (qin, map jl (seq 0 len), repeat 0%R tot)) as (((q', l'), A) & EA & P1 & P2 & P3 & P4 & P5).
  - split; auto. split; [intros [H|H]; [lia|auto]|]. split; [rewrite map_length, seq_length; auto|]. split; [apply repeat_length|].
    intros _ p. rewrite sumn_0. unfold vf. apply nth_repeat.
  - intros b ((q, l), a) Hb (H1 & H2 & H3 & H4 & H5). unfold opt_asm_pass.
    assert (Hlen : 1 * ni * (no * (o_Q o * bsize bs)) <= length l) by (rewrite H3; unfold len; apply Nat.eq_le_incl; ring).
    assert (Hb1 : b + 1 <= op_blocks bs o) by lia.
    destruct (@asm_elems_ok R k Jmin junk chk D bs o Hwf Hw vm b 1 Hb1 cl (length l) true (fun _ => Hun) Hno Hlen s Hs (d_ein d1)) with (qin := q) (buf := l)
      as (q1 & l1 & pos1 & Ee & Q1 & Q2 & Q3 & Q4); auto.
    { split; [apply (dy_ein Hd1)|]. intros i Hi Hm Ha. apply Y4; auto. }
    { intros Ec. apply H2. auto. }
    cbn [seq rfold] in Ee. rewrite Nat.add_0_r in Ee. destruct (asm_elem k junk D bs true o s (d_ein d1) (b * bsize bs) (q, (l, 0))) as [x1| |] eqn:Ex1; cbn [rbind] in Ee; try discriminate.
    injection Ee as ->. cbn [rbind fst snd].
    assert (Hu : length l1 = r_bs r * u_es dd * u_nc dd). { rewrite Q2, H3, Ebs. unfold len, dd, asm_desc. cbn [u_es u_nc]. ring. }
    assert (Hla : length a = u_lsize dd). { rewrite H4. unfold tot, dd, asm_desc. cbn [u_lsize]. ring. }
    set (Ev := fun e kk n => if cl then E e kk n else vf l1 (kk * (u_es dd * r_bs r) + (n * r_bs r + (e - b * r_bs r)))).
    destruct (@block_t_ok R dd r Signed Hrep I Hir I eq_refl Signed b l1 a Ev Hu Hla) as (a1 & Ea1 & La1 & Ga1).
    { lia. }
    { intros j kk n Hj Hk Hn. unfold Ev. destruct cl; [|f_equal; lia]. unfold dd, asm_desc in Hk, Hn. cbn [u_nc u_es] in Hk, Hn. rewrite Ebs in *.
      change (u_es dd) with (o_Q o). unfold E.
      set (ka := kk / no). set (kb := kk mod no).
      assert (Hkb : kb < no) by (apply Nat.mod_upper_bound; lia).
      assert (Ekk : kk = ka * no + kb) by (rewrite Nat.mul_comm; apply Nat.div_mod; lia).
      assert (Hka : ka < ni) by nia.
      set (p := n * bsize bs + j). assert (Hp : p < o_Q o * bsize bs) by (unfold p; nia).
      transitivity (vf l1 (ka * (no * (o_Q o * bsize bs)) + (kb * (o_Q o * bsize bs) + p))). { f_equal. unfold p. rewrite Ekk. ring. }
      rewrite (Q4 eq_refl ka) by (auto; lia). unfold W. fold ni.
      rewrite (Nat.div_small ka), (Nat.mod_small ka), Nat.add_0_r by auto.
      unfold p. rewrite Nat.div_add_l by lia. rewrite (Nat.div_small j), Nat.add_0_r by auto.
      rewrite (Nat.add_comm (n * _)), Nat.mod_add by lia. rewrite (Nat.mod_small j) by auto. reflexivity. }
    rewrite Ea1. cbn [be rbind]. eexists. split; [reflexivity|]. cbv beta iota. split; auto. split; [intros _ j Hj Hja; apply Q3; auto|].
    split; [congruence|]. split; [congruence|]. intros Ec p. rewrite Ga1, (H5 Ec), Ebs. rewrite Nat.add_1_r, sumn_S. f_equal.
    unfold Ev. rewrite Ec. reflexivity.
  - fold len tot. rewrite EA. cbn [rbind]. eexists. exists A. split; [reflexivity|]. split.
    { constructor; cbn; auto; try apply (dy_st Hd1); try apply (dy_ein Hd1). }
    split. { cbn [od]. intros i v Hi Hm Hf Hv'. destruct (C1 i v Hi Hm Hf Hv') as (A1 & A2). split; auto. }
    split. { cbn [od d_qin]. apply P2. left. nia. }
    intros Ec. split. { rewrite P4. unfold tot, ni, no. ring. }
    intros e a b q He Ha Hb Hqq. rewrite (P5 Ec). fold ni no in Ha, Hb |- *. rewrite Lblock_Lval by (unfold dd, asm_desc; cbn [u_ne]; lia).
    replace (((e * ni + a) * no + b) * o_Q o + q) with (e * (ni * no * o_Q o) + ((a * no + b) * o_Q o + q)) by ring.
    unfold dd, asm_desc. rewrite strided_Lval by (auto; nia). unfold E.
    rewrite Nat.div_add_l by lia. rewrite (Nat.div_small b), Nat.add_0_r by auto. rewrite (Nat.add_comm (a * no)), Nat.mod_add by lia. rewrite (Nat.mod_small b) by auto.
    unfold cap. rewrite Nat.min_l by lia. reflexivity.
Qed.
