(** * Assembly of diagonals and point block diagonals: interface/ceed-preconditioning.c:218-450, 1151-1180, 1440-1560, 2007-2340

    On top of the cached assembly of QFunctions (CacheModel.v) and the basis matrices of FullModel.v.  Simplifications:
    - as in FullModel.v bases are objects with pointers [bi], [bo], and the CeedOperatorAssemblyData is computed every time;
    - the identity matrix built for CEED_EVAL_NONE (313-323) is a function ([basis_entry]);
    - op->input_size and op->output_size, which CeedOperatorSetField and CeedCompositeOperatorAddSub keep, are computed from
      the active fields (None is -1); the sub-operators have their fields before they are added;
    - the checks of CeedOperatorCheckReady are in BuildModel.v; the CPU backends have neither LinearAssembleDiagonal,
      LinearAssembleAddDiagonal nor the point block versions and no fallback operator; at-points operators are left out. *)
From Coq Require Import List ZArith Lia Bool Arith.
From Verif Require Import Prelude RstrModel TensorModel BasisModel BasisProps RstrProofs OpModel AsmModel CacheModel DenseModel FullModel.
Import ListNotations.
Set Implicit Arguments.

Section Diag.
Variable R : Rng.
Local Open Scope nat_scope.
Variable k : kernel R.
Variable junk : nat -> nat -> R.
Variable chk : bool.
Variable D : nat -> udesc.
Variable bs : option nat.

(** ** Offsets of the evaluation modes among the components of the assembled QFunction *)
(** CeedBasisGetNumComponents, CeedBasisGetNumNodes, CeedBasisGetNumQuadraturePoints; the fields of CEED_BASIS_NONE are zero
    (ceed-basis.c:26), and num_qpts = num_nodes for it (309) *)
Definition nc_of (b : option (basis R)) : nat := match b with Some b => b_nc b | None => 0 end.
Definition nodes_of (b : option (basis R)) : nat := match b with Some b => b_nodes b | None => 0 end.
Definition qpts_of (b : option (basis R)) : nat := match b with Some b => b_qpts b | None => 0 end.
(** ceed-preconditioning.c:1480-1491, 1538-1549: (basis, offset) of every evaluation mode, and the number of components *)
Fixpoint offsets (l : list (nat * ofield R)) (off : nat) : list (nat * nat) * nat :=
  match l with
  | [] => ([], off)
  | (id, f) :: l =>
      if is_active f then
        let n := length (field_modes f) in let nc := nc_of (f_basis f) in
        let r := offsets l (off + n * nc) in
        (map (fun d => (id, off + d * nc)) (seq 0 n) ++ fst r, snd r)
      else offsets l off
  end.
Definition named (ptr : nat -> nat) (fs : list (ofield R)) : list (nat * ofield R) := map (fun j => (ptr j, nth j fs (mkOF 0 EvNone None None VNo))) (seq 0 (length fs)).
Definition group_offsets (ptr : nat -> nat) (fs : list (ofield R)) (id : nat) : list nat :=
  map snd (filter (fun x => fst x =? id) (fst (offsets (named ptr fs) 0))).

(** ceed-preconditioning.c:252-278: pairs of an input and an output basis *)
Definition pairs (gi go : list (group R)) : list (group R * group R) :=
  if length gi <=? length go
  then flat_map (fun a => match find (fun b => g_id a =? g_id b) go with Some b => [(a, b)] | None => [] end) gi
  else flat_map (fun b => match find (fun a => g_id a =? g_id b) gi with Some a => [(a, b)] | None => [] end) go.

(** ** Element diagonals *)
Section Elem.
Variables (gi go : group R).                        (* the input and the output basis *)
Variables (offI offO : list nat) (nout : nat).      (* offsets, num_output_components *)
Variables (A : list R) (l1 l2 : nat).               (* assembled QFunction and its E-layout *)
Notation Q := (qpts_of (g_basis gi)).
Notation P := (nodes_of (g_basis gi)).
Notation nc := (nc_of (g_basis gi)).
(** 357-377: one quadrature point, one pair of components: all nodes of block [blk] of the element vector *)
Definition point (e eo ei q co ci blk : nat) (st : list R) : res (list R) :=
  oi <~ og offI ei ;; oo <~ og offO eo ;;
  a <~ og A (q + ((oi + ci) * nout + oo + co) * l1 + e * l2) ;;
  mi <~ og (g_modes gi) ei ;; di <~ og (shifts (g_basis gi) None 0 (g_modes gi)) ei ;;
  mo <~ og (g_modes go) eo ;; do <~ og (shifts (g_basis go) None 0 (g_modes go)) eo ;;
  rfold (seq 0 P) (fun n st =>
    bt <~ basis_entry (g_basis go) Q P mo do q n ;; b <~ basis_entry (g_basis gi) Q P mi di q n ;;
    ofopt (addat st (blk * P + n) (bt * a * b)%R)) st.
(** 325-380: the loops *)
Definition elem_diag (pb : bool) (ne : nat) (st : list R) : res (list R) :=
  rfold (seq 0 ne) (fun e => rfold (seq 0 (length (g_modes go))) (fun eo => rfold (seq 0 (length (g_modes gi))) (fun ei =>
    rfold (seq 0 nc) (fun co => rfold (seq 0 Q) (fun q =>
      if pb then rfold (seq 0 nc) (fun ci => point e eo ei q co ci ((e * nc + co) * nc + ci))
      else point e eo ei q co co (e * nc + co)))))) st.
End Elem.

(** ceed-preconditioning.c:1151-1180 CeedOperatorCreateActivePointBlockRestriction.  Strided restrictions have no offsets:
    the array is read through a null pointer. *)
Definition pb_shift (d : udesc) : nat := if (u_cs d =? 1)%Z then u_nc d else u_nc d * u_nc d.
Definition pb_desc (d : udesc) (off : list Z) : udesc :=
  mkU (u_ne d) (u_es d) (u_nc d * u_nc d) 1%Z (u_lsize d * u_nc d) (UStandard (map (fun o => (o * Z.of_nat (pb_shift d))%Z) off)).
Definition d_offsets (d : udesc) : option (list Z) :=
  match u_kind d with UStrided _ _ _ => None | UStandard o | UOriented o _ | UCurl o _ => Some o end.
Definition pb_rstr (d : udesc) : res rstr := match d_offsets d with Some o => rstr_create chk (pb_desc d o) None | None => UB end.

Variables (bi bo : nat -> nat -> nat).             (* basis pointers of the fields of operator [i] *)
(** ceed-preconditioning.c:218-390 CeedSingleOperatorLinearAssembleAddDiagonal_Mesh; [v]: the array of the vector assembled *)
Definition single_diag (jl : nat -> R) (pb : bool) (i : nat) (st : cstate R * list R) : res (cstate R * list R) :=
  let s := fst st in let o := c_ops s i in
  r <~ build_or_update k junk chk D bs jl s i ;;
  let '(s, v) := r in let A := c_vec s v in
  let d := asm_desc o (act_size (o_in o)) (act_size (o_out o)) in
  y <~ rfold (pairs (groups (bi i) (o_in o)) (groups (bo i) (o_out o))) (fun p y =>
    match g_rstr (fst p), g_rstr (snd p) with
    | Some ri, Some ro =>
        if negb (ri =? ro) then Err ERR_UNSUPPORTED else
        r <~ (if pb then pb_rstr (D ri) else rstr_create chk (D ri) None) ;;
        ed <~ elem_diag (fst p) (snd p) (group_offsets (bi i) (o_in o) (g_id (fst p))) (group_offsets (bo i) (o_out o) (g_id (snd p)))
                (snd (offsets (named (bo i) (o_out o)) 0)) A (u_es d) (u_es d * u_nc d) pb (u_ne (D ri)) (repeat 0%R (r_esize r)) ;;
        rstr_apply (if pb then Signed else Unsigned) r Transpose ed y
    | _, _ => UB
    end) (snd st) ;;
  Ok (s, y).

(** ** Operators *)
(** ceed-operator.c:1440-1469 CeedOperatorGetActiveVectorLengths *)
Definition act_lsize (fs : list (ofield R)) : option nat :=
  match find (fun f => is_active f && match f_rstr f with Some _ => true | None => false end) fs with
  | Some f => match f_rstr f with Some i => Some (u_lsize (D i)) | None => None end
  | None => None
  end.
Definition first_some (a b : option nat) : option nat := match a with Some _ => a | None => b end.
Fixpoint tree_sizes (s : cstate R) (t : ctree) : option nat * option nat :=
  match t with
  | CLeaf i => (act_lsize (o_in (c_ops s i)), act_lsize (o_out (c_ops s i)))
  | CComp l => fold_left (fun acc t => let x := tree_sizes s t in (first_some (fst acc) (fst x), first_some (snd acc) (snd x))) l (None, None)
  end.
Definition square (s : cstate R) (t : ctree) : bool := onat_eqb (fst (tree_sizes s t)) (snd (tree_sizes s t)).
(** ceed-preconditioning.c:2067-2106 CeedOperatorLinearAssembleAddDiagonal, 2293-2332 CeedOperatorLinearAssembleAddPointBlockDiagonal,
    425-440 CeedCompositeOperatorLinearAssembleAddDiagonal *)
Fixpoint add_diag (jl : nat -> R) (pb : bool) (t : ctree) (st : cstate R * list R) : res (cstate R * list R) :=
  if negb (square (fst st) t) then Err ERR_DIMENSION else
  match t with
  | CLeaf i => if o_ne (c_ops (fst st) i) =? 0 then Ok st else single_diag jl pb i st
  | CComp l => (fix subs (l : list ctree) (st : cstate R * list R) : res (cstate R * list R) :=
                  match l with [] => Ok st | t :: l => st' <~ add_diag jl pb t st ;; subs l st' end) l st
  end.
(** ceed-preconditioning.c:2007-2048 CeedOperatorLinearAssembleDiagonal, 2231-2272 CeedOperatorLinearAssemblePointBlockDiagonal *)
Definition assemble_diag (jl : nat -> R) (pb : bool) (t : ctree) (st : cstate R * list R) : res (cstate R * list R) :=
  if negb (square (fst st) t) then Err ERR_DIMENSION else
  match t with
  | CLeaf i => if o_ne (c_ops (fst st) i) =? 0 then Ok st else add_diag jl pb t (fst st, repeat 0%R (length (snd st)))
  | CComp _ => add_diag jl pb t (fst st, repeat 0%R (length (snd st)))
  end.

(** ceed-preconditioning.c:2128-2210 CeedOperatorLinearAssemblePointBlockDiagonalSymbolic for a single operator or the single
    sub-operators of a composite one (a composite sub-operator is an error, 1428).  A composite operator without sub-operators
    reads sub_operators[0]. *)
Definition act_rstrs (ptr : nat -> nat) (o : oper R) : res (list nat) :=
  @rmap (group R) nat (fun g => match g_rstr g with Some i => Ok i | None => UB end) (groups ptr (o_in o)).
Definition pb_check (s : cstate R) (l : list (option nat)) : res nat :=
  match l with
  | [] => UB
  | None :: _ => Err ERR_INCOMPATIBLE
  | Some i0 :: _ =>
      r0 <~ act_rstrs (bi i0) (c_ops s i0) ;; d0 <~ og r0 0 ;;
      _ <~ rfold l (fun x (_ : unit) => match x with
             | None => Err ERR_INCOMPATIBLE
             | Some i => rs <~ act_rstrs (bi i) (c_ops s i) ;;
                         rfold rs (fun d (_ : unit) => if negb (u_cs (D d0) =? u_cs (D d))%Z then Err ERR_DIMENSION
                                             else if negb (u_nc (D d0) =? u_nc (D d)) then Err ERR_INCOMPATIBLE else Ok tt) tt end) tt ;;
      Ok (u_nc (D d0))
  end.
Definition setat (l : list Z) (i x : Z) : res (list Z) := if (i <? 0)%Z then UB else ofopt (set l (Z.to_nat i) x).
Definition pb_rows (s : cstate R) (nc : nat) (i : nat) (st : list Z * list Z) : res (list Z * list Z) :=
  ri <~ act_rstr None (o_in (c_ops s i)) ;;
  let d := D ri in
  match d_offsets d with
  | None => UB
  | Some off =>
      _ <~ pb_rstr d ;;
      rfold (seq 0 (u_ne d * u_es d)) (fun n => rfold (seq 0 nc) (fun co => rfold (seq 0 nc) (fun ci st =>
        o <~ og off n ;;
        let p := (o * Z.of_nat (pb_shift d) + Z.of_nat (co * nc + ci))%Z in
        rows <~ setat (fst st) p (o + Z.of_nat co * u_cs d)%Z ;;
        cols <~ setat (snd st) p (o + Z.of_nat ci * u_cs d)%Z ;;
        Ok (rows, cols)))) st
  end.
Definition pb_symbolic (s : cstate R) (t : ctree) : res (list Z * list Z) :=
  let l := match t with CLeaf i => [Some i] | CComp l => map (fun t => match t with CLeaf i => Some i | CComp _ => None end) l end in
  if negb (square s t) then Err ERR_DIMENSION else
  nc <~ pb_check s l ;;
  match fst (tree_sizes s t) with
  | None => UB
  | Some N => rfold l (fun x st => match x with Some i => pb_rows s nc i st | None => Err ERR_INCOMPATIBLE end) (repeat 0%Z (N * nc), repeat 0%Z (N * nc))
  end.
End Diag.
Arguments nc_of {R}. Arguments nodes_of {R}. Arguments qpts_of {R}. Arguments offsets {R}. Arguments named {R}. Arguments group_offsets {R}. Arguments pairs {R}.
