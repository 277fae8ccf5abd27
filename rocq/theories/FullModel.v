(** * Full assembly of linear operators in coordinate format: interface/ceed-preconditioning.c:456-855, 1116-1140, 1417-1730, 2354-2475

    On top of QFunction assembly and its cache (AsmModel.v, CacheModel.v).  Simplifications:
    - bases are pointers in C; here the functions [bi], [bo] give the pointer of the basis of every input and output field;
    - CeedOperatorAssemblyData is kept from one assembly to the next; it depends on the fields only, which do not change
      after the first use of the operator, so it is computed every time here; likewise the layout of the assembled QFunction
      is computed from the operator (an operator that shares the array of another one has the same QFunction);
    - an array that a nest of loops fills is the concatenation of its parts ([cat]); the loops over nodes and modes in
      CeedOperatorAssemblyDataGetBases are swapped to the order of the array;
    - the checks of CeedOperatorCheckReady are in BuildModel.v; the backends have neither LinearAssemble,
      LinearAssembleSymbolic nor LinearAssembleSingle and no fallback operator. *)
From Coq Require Import List ZArith Lia Bool Arith.
From Verif Require Import Prelude RstrModel TensorModel BasisModel BasisProps RstrProofs OpModel AsmModel CacheModel DenseModel.
Import ListNotations.
Set Implicit Arguments.

Definition emode_eqb (a b : emode) : bool :=
  match a, b with EvNone, EvNone | EvInterp, EvInterp | EvGrad, EvGrad | EvDiv, EvDiv | EvCurl, EvCurl | EvWeight, EvWeight => true | _, _ => false end.

Section Full.
Variable R : Rng.
Local Open Scope nat_scope.
Variable k : kernel R.
Variable junk : nat -> nat -> R.
Variable chk : bool.
Variable D : nat -> udesc.
Variable bs : option nat.

(** ** Active restrictions and bases *)
(** ceed-operator.c:291-341 CeedOperatorGetActiveElemRestrictions, inputs or outputs.  An active field without restriction
    (weights) is left out of the model. *)
Fixpoint act_rstr (acc : option nat) (fs : list (ofield R)) : res nat :=
  match fs with
  | [] => match acc with Some i => Ok i | None => Err ERR_INCOMPLETE end
  | f :: fs =>
      if is_active f then
        match f_rstr f, acc with
        | None, _ => UB
        | Some i, None => act_rstr (Some i) fs
        | Some i, Some j => if i =? j then act_rstr acc fs else Err ERR_MINOR
        end
      else act_rstr acc fs
  end.
(** active_bases_in[b], active_elem_rstrs_in[b], eval_modes_in[b] *)
Record group := mkG { g_id : nat; g_basis : option (basis R); g_rstr : option nat; g_modes : list emode }.
(** ceed-basis.c:841-867; for CEED_BASIS_NONE only CEED_EVAL_NONE occurs *)
Definition qc (b : option (basis R)) (m : emode) : nat := match b with Some b => q_comp b m | None => 1 end.
Definition field_modes (f : ofield R) : list emode := match f_mode f with EvWeight => [] | m => repeat m (qc (f_basis f) m) end.
(** ceed-preconditioning.c:1444-1494, 1500-1552: one active field *)
Fixpoint add_group (id : nat) (f : ofield R) (gs : list group) : list group :=
  match gs with
  | [] => [mkG id (f_basis f) (f_rstr f) (field_modes f)]
  | g :: gs => if g_id g =? id then mkG (g_id g) (g_basis g) (g_rstr g) (g_modes g ++ field_modes f) :: gs else g :: add_group id f gs
  end.
(** ceed-preconditioning.c:1440-1560 CeedOperatorAssemblyDataCreate *)
Definition groups (b : nat -> nat) (fs : list (ofield R)) : list group :=
  fold_left (fun gs jf => if is_active (snd jf) then add_group (b (fst jf)) (snd jf) gs else gs) (combine (seq 0 (length fs)) fs) [].

(** ** Basis matrices *)
(** ceed-preconditioning.c:1651-1665: the matrix [d_in] of its mode for every evaluation mode *)
Fixpoint shifts (b : option (basis R)) (prev : option emode) (d : nat) (ms : list emode) : list nat :=
  match ms with
  | [] => []
  | m :: ms =>
      if 1 <? qc b m then
        let d := match prev with Some p => if emode_eqb m p then d + 1 else 0 | None => 0 end in d :: shifts b (Some m) d ms
      else 0 :: shifts b (Some m) d ms
  end.
(** ceed-preconditioning.c:1116-1140 CeedOperatorGetBasisPointer and 1635-1667: entry (q, n) of the matrix of mode [m] *)
Definition basis_entry (b : option (basis R)) (Q P : nat) (m : emode) (d q n : nat) : res R :=
  match m with
  | EvNone => Ok (if q =? n then 1%R else 0%R)
  | EvWeight => UB
  | _ => match b with
         | Some b => match reported b m with Some B => og B (d * Q * P + (q * P + n)) | None => UB end
         | None => UB
         end
  end.
(** ceed-preconditioning.c:1628-1671 (1675-1718): B_in[(num_eval_modes * q + e) * num_nodes + n] *)
Definition b_mat (b : option (basis R)) (Q P : nat) (ms : list emode) : res (list R) :=
  cat Q (fun q => cat (length ms) (fun e => cat P (fun n =>
    m <~ og ms e ;; d <~ og (shifts b None 0 ms) e ;; x <~ basis_entry b Q P m d q n ;; Ok [x]))).
Definition g_qpts (g : group) : res nat :=
  match g_basis g with Some b => Ok (b_qpts b) | None => match g_rstr g with Some i => Ok (u_es (D i)) | None => UB end end.
Definition g_mat (g : group) : res (list R) :=
  Q <~ g_qpts g ;; match g_rstr g with Some i => b_mat (g_basis g) Q (u_es (D i)) (g_modes g) | None => UB end.

(** ** Element matrices *)
Section Elem.
Variables rin rout : nat.                          (* the active restrictions *)
Variables Q nmI nmO : nat.                         (* points, numbers of evaluation modes *)
Variables (Bin Bout A : list R).                   (* basis matrices, assembled QFunction *)
Variable contract : bool.                          (* the input basis has a CeedTensorContract *)
Variables l1 l2 : nat.                             (* E-layout of the assembled QFunction *)
Notation esI := (u_es (D rin)).
Notation ncI := (u_nc (D rin)).
Notation esO := (u_es (D rout)).
Notation ncO := (u_nc (D rout)).
(** 689-708: B^T D *)
Definition btd (e ci co : nat) : res (list R) :=
  cat esO (fun n => cat Q (fun q => cat nmI (fun ei =>
    s <~ rsum nmO (fun eo => b <~ og Bout ((q * nmO + eo) * esO + n) ;;
                             a <~ og A (q + (((ei * ncI + ci) * nmO + eo) * ncO + co) * l1 + e * l2) ;; Ok (b * a)%R) ;; Ok [s]))).
Definition sign (b : bool) : R := if b then (- (1))%R else 1%R.
(** 722-747: rows *)
Definition turn_out (e : nat) (m : list R) : res (list R) :=
  match u_kind (D rout) with
  | UOriented _ ors => cat esO (fun i => s <~ og ors (e * esO + i) ;; cat esI (fun j => x <~ og m (i * esI + j) ;; Ok [(x * sign s)%R]))
  | UCurl _ co => cat esO (fun i => cat esI (fun j =>
      x1 <~ og m (i * esI + j) ;; c1 <~ og co (e * 3 * esO + (3 * i + 1)) ;;
      t0 <~ (if 0 <? i then x <~ og m ((i - 1) * esI + j) ;; c <~ og co (e * 3 * esO + (3 * i - 1)) ;; Ok (x * zr R c)%R else Ok 0%R) ;;
      t2 <~ (if i <? esO - 1 then x <~ og m ((i + 1) * esI + j) ;; c <~ og co (e * 3 * esO + (3 * i + 3)) ;; Ok (x * zr R c)%R else Ok 0%R) ;;
      Ok [(x1 * zr R c1 + t0 + t2)%R]))
  | _ => Ok m
  end.
(** 748-770: columns *)
Definition turn_in (e : nat) (m : list R) : res (list R) :=
  match u_kind (D rin) with
  | UOriented _ ors => cat esO (fun i => cat esI (fun j => s <~ og ors (e * esI + j) ;; x <~ og m (i * esI + j) ;; Ok [(x * sign s)%R]))
  | UCurl _ co => cat esO (fun i => cat esI (fun j =>
      x1 <~ og m (i * esI + j) ;; c1 <~ og co (e * 3 * esI + (3 * j + 1)) ;;
      t0 <~ (if 0 <? j then x <~ og m (i * esI + j - 1) ;; c <~ og co (e * 3 * esI + (3 * j - 1)) ;; Ok (x * zr R c)%R else Ok 0%R) ;;
      t2 <~ (if j <? esI - 1 then x <~ og m (i * esI + j + 1) ;; c <~ og co (e * 3 * esI + (3 * j + 3)) ;; Ok (x * zr R c)%R else Ok 0%R) ;;
      Ok [(x1 * zr R c1 + t0 + t2)%R]))
  | _ => Ok m
  end.
(** 686-780: one element matrix; [m]: the buffer elem_mat *)
Definition elem_mat (e ci co : nat) (m : list R) : res (list R) :=
  t <~ btd e ci co ;;
  m1 <~ (if contract then ofopt (k 1 (Q * nmI) esI esO t NoTranspose false Bin m) else matmul t Bin esO esI (Q * nmI)) ;;
  m2 <~ turn_out e m1 ;;
  turn_in e m2.
(** 684-780: state elem_mat and the entries stored so far *)
Definition elem_mats : res (list R * list R) :=
  rfold (seq 0 (u_ne (D rin))) (fun e => rfold (seq 0 ncI) (fun ci => rfold (seq 0 ncO) (fun co st =>
    m <~ elem_mat e ci co (fst st) ;; Ok (m, snd st ++ m)))) (repeat 0%R (esO * esI), []).
End Elem.

Variables (bi bo : nat -> nat -> nat).             (* basis pointers of the fields of operator [i] *)
(** ceed-preconditioning.c:569-808 CeedSingleOperatorAssemble: the array of values is filled from [offset] *)
Definition single_assemble (jl : nat -> R) (i : nat) (offset : nat) (st : cstate R * list R) : res (cstate R * list R) :=
  let s := fst st in let o := c_ops s i in
  if o_ne o =? 0 then Ok st else
  r <~ build_or_update k junk chk D bs jl s i ;;
  let '(s, v) := r in let A := c_vec s v in
  let d := asm_desc o (act_size (o_in o)) (act_size (o_out o)) in
  match groups (bi i) (o_in o), groups (bo i) (o_out o) with
  | [gi], [go] =>
      let nmI := length (g_modes gi) in let nmO := length (g_modes go) in
      if (nmI =? 0) || (nmO =? 0) then Err ERR_UNSUPPORTED else
      Bin <~ g_mat gi ;; Bout <~ g_mat go ;;
      rin <~ act_rstr None (o_in o) ;; rout <~ act_rstr None (o_out o) ;;
      Q <~ g_qpts gi ;; Q' <~ g_qpts go ;;
      if negb (rin =? rout) && negb (u_ne (D rin) =? u_ne (D rout)) then Err ERR_UNSUPPORTED else
      if negb (rin =? rout) && negb (Q =? Q') then Err ERR_UNSUPPORTED else
      m <~ elem_mats rin rout Q nmI nmO Bin Bout A (match g_basis gi with Some _ => true | None => false end) (u_es d) (u_es d * u_nc d) ;;
      vals <~ store offset (snd m) (snd st) ;;
      Ok (s, vals)
  | _, _ => Err ERR_UNSUPPORTED
  end.
(** ceed-preconditioning.c:821-855 *)
Definition count_entries (o : oper R) : res nat :=
  rin <~ act_rstr None (o_in o) ;; rout <~ act_rstr None (o_out o) ;;
  if negb (rin =? rout) && negb (u_ne (D rin) =? u_ne (D rout)) then Err ERR_UNSUPPORTED
  else Ok (u_es (D rin) * u_nc (D rin) * u_es (D rout) * u_nc (D rout) * u_ne (D rin)).
(** ceed-preconditioning.c:476-493: L-vector indices of the nodes of the elements.  The indices go through a CeedVector, which
    holds them exactly. *)
Definition elem_dof (i : nat) : res (list Z) :=
  r <~ rstr_create chk (D i) None ;;
  @rstr_apply Zrng Unoriented r NoTranspose (map Z.of_nat (seq 0 (u_lsize (D i)))) (repeat 0%Z (u_ne (D i) * u_es (D i) * u_nc (D i))).
(** ceed-preconditioning.c:456-555 CeedSingleOperatorAssembleSymbolic: the entries (row, column); E-layout of unblocked restrictions *)
Definition symbolic (o : oper R) : res (list (Z * Z)) :=
  rin <~ act_rstr None (o_in o) ;; rout <~ act_rstr None (o_out o) ;;
  din <~ elem_dof rin ;;
  if negb (rin =? rout) && negb (u_ne (D rin) =? u_ne (D rout)) then Err ERR_UNSUPPORTED else
  dout <~ (if rin =? rout then Ok din else elem_dof rout) ;;
  let esI := u_es (D rin) in let ncI := u_nc (D rin) in let esO := u_es (D rout) in let ncO := u_nc (D rout) in
  cat (u_ne (D rin)) (fun e => cat ncI (fun ci => cat ncO (fun co => cat esO (fun i => cat esI (fun j =>
    row <~ og dout (i + co * esO + e * (esO * ncO)) ;; col <~ og din (j + ci * esI + e * (esI * ncI)) ;; Ok [(row, col)]))))).

(** operators: a single one, or a composite one with single (number) or composite (None) sub-operators *)
Inductive target := TSingle (i : nat) | TComp (l : list (option nat)).
(** ceed-preconditioning.c:2400-2427: count, allocate, fill *)
Definition assemble_symbolic (s : cstate R) (t : target) : res (list (Z * Z)) :=
  match t with
  | TSingle i => n <~ count_entries (c_ops s i) ;; e <~ symbolic (c_ops s i) ;; store 0 e (repeat (0, 0)%Z n)
  | TComp l =>
      n <~ rfold l (fun x n => match x with Some i => m <~ count_entries (c_ops s i) ;; Ok (n + m) | None => Err ERR_UNSUPPORTED end) 0 ;;
      r <~ rfold l (fun x (st : nat * list (Z * Z)) => match x with
                    | Some i => e <~ symbolic (c_ops s i) ;; a <~ store (fst st) e (snd st) ;; m <~ count_entries (c_ops s i) ;; Ok (fst st + m, a)
                    | None => Err ERR_UNSUPPORTED end) (0, repeat (0, 0)%Z n) ;;
      Ok (snd r)
  end.
(** ceed-preconditioning.c:2429-2475 CeedOperatorLinearAssemble; [vals]: the array of the vector values *)
Definition assemble_values (jl : nat -> R) (s : cstate R) (t : target) (vals : list R) : res (cstate R * list R) :=
  match t with
  | TSingle i => if o_ne (c_ops s i) =? 0 then Ok (s, vals) else single_assemble jl i 0 (s, repeat 0%R (length vals))
  | TComp l =>
      r <~ rfold l (fun x (st : nat * (cstate R * list R)) => match x with
                    | Some i => sv <~ single_assemble jl i (fst st) (snd st) ;; m <~ count_entries (c_ops s i) ;; Ok (fst st + m, sv)
                    | None => Err ERR_UNSUPPORTED end) (0, (s, repeat 0%R (length vals))) ;;
      Ok (snd r)
  end.
End Full.
