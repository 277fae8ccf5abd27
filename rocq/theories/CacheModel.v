(** * Cached assembled QFunctions: interface/ceed-preconditioning.c:1180-1380, 1933-1995, interface/ceed-operator.c:1484-1538, 2246-2264

    Operators, CeedQFunctionAssemblyData objects and assembled vectors are numbers; operators point to assembly data,
    assembly data to a vector.  Simplifications: reference counts are left out (an object without references is not used
    again, C07), the restriction stored beside the vector is determined by the operator (AsmModel.v [asm_desc]) and left
    out; operators of the reference and the blocked CPU backends have LinearAssembleQFunctionUpdate and no fallback, so the
    fallback branch is left out. *)
From Coq Require Import List ZArith Lia Bool Arith.
From Verif Require Import Prelude RstrModel TensorModel BasisModel RstrProofs OpModel AsmModel.
Import ListNotations.
Set Implicit Arguments.

Section Cache.
Variable R : Rng.
Local Open Scope nat_scope.
Variable k : kernel R.
Variable junk : nat -> nat -> R.
Variable chk : bool.
Variable D : nat -> udesc.
Variable bs : option nat.

(** ceed-impl.h CeedQFunctionAssemblyData_private: is_setup with vec, reuse_data, needs_data_update *)
Record qdata := mkQD { q_vec : option nat; q_reuse : bool; q_need : bool }.
(** ceed-preconditioning.c:1212-1218 CeedQFunctionAssemblyDataCreate (calloc) *)
Definition new_qd : qdata := mkQD None false false.
Record cstate := mkCS {
  c_ops : nat -> oper R;               (* the operators *)
  c_st : nat -> aimpl R;               (* their backend data *)
  c_ptr : nat -> option nat;           (* op->qf_assembled *)
  c_data : nat -> qdata;               (* assembly data objects *)
  c_nd : nat;                          (* number of assembly data objects made so far *)
  c_vec : nat -> list R;               (* assembled vectors *)
  c_nv : nat;                          (* number of assembled vectors made so far *)
  c_vm : vmem R                        (* the other vectors *)
}.
Definition put {A} (f : nat -> A) (i : nat) (x : A) : nat -> A := fun j => if j =? i then x else f j.

(** ceed-preconditioning.c:1190-1200 CeedOperatorGetQFunctionAssemblyData *)
Definition get_data (s : cstate) (i : nat) : cstate * nat :=
  match c_ptr s i with
  | Some p => (s, p)
  | None => (mkCS (c_ops s) (c_st s) (put (c_ptr s) i (Some (c_nd s))) (put (c_data s) (c_nd s) new_qd) (c_nd s + 1) (c_vec s) (c_nv s) (c_vm s), c_nd s)
  end.
Definition set_data (s : cstate) (p : nat) (d : qdata) : cstate :=
  mkCS (c_ops s) (c_st s) (c_ptr s) (put (c_data s) p d) (c_nd s) (c_vec s) (c_nv s) (c_vm s).
(** ceed-operator.c:1484-1499, ceed-preconditioning.c:1245-1249: the single operator *)
Definition set_reuse (s : cstate) (i : nat) (b : bool) : cstate :=
  let sp := get_data s i in set_data (fst sp) (snd sp) (mkQD (q_vec (c_data (fst sp) (snd sp))) b true).
(** ceed-operator.c:1511-1531, ceed-preconditioning.c:1261-1264 *)
Definition set_need (s : cstate) (i : nat) (b : bool) : cstate :=
  let sp := get_data s i in set_data (fst sp) (snd sp) (mkQD (q_vec (c_data (fst sp) (snd sp))) (q_reuse (c_data (fst sp) (snd sp))) b).
(** ceed-operator.c:2249 CeedOperatorAssemblyDataStrip, single operator *)
Definition strip (s : cstate) (i : nat) : cstate :=
  mkCS (c_ops s) (c_st s) (put (c_ptr s) i None) (c_data s) (c_nd s) (c_vec s) (c_nv s) (c_vm s).
(** ceed-preconditioning.c:930-936: the coarse operator [c] of a multigrid level shares the assembly data of the fine one [f] *)
Definition share (s : cstate) (f c : nat) : cstate :=
  let sp := get_data s f in let s := fst sp in
  mkCS (c_ops s) (c_st s) (put (c_ptr s) c (Some (snd sp))) (c_data s) (c_nd s) (c_vec s) (c_nv s) (c_vm s).

(** ceed-preconditioning.c:1276-1279 CeedQFunctionAssemblyDataIsUpdateNeeded *)
Definition update_needed (d : qdata) : bool := negb (q_reuse d) || q_need d.
(** ceed-preconditioning.c:1933-1988 CeedOperatorLinearAssembleQFunctionBuildOrUpdate; returns the vector *)
Definition build_or_update (jl : nat -> R) (s : cstate) (i : nat) : res (cstate * nat) :=
  let '(s, p) := get_data s i in
  let d := c_data s p in
  r <~ match q_vec d with
       | Some v =>
           if update_needed d
           then ra <~ assemble k junk chk D bs jl (c_ops s i) (c_st s i) (c_vm s) ;;
                Ok (mkCS (c_ops s) (put (c_st s) i (fst ra)) (c_ptr s) (c_data s) (c_nd s) (put (c_vec s) v (snd ra)) (c_nv s) (c_vm s), v)
           else Ok (s, v)
       | None =>
           ra <~ assemble k junk chk D bs jl (c_ops s i) (c_st s i) (c_vm s) ;;
           Ok (mkCS (c_ops s) (put (c_st s) i (fst ra)) (c_ptr s) (put (c_data s) p (mkQD (Some (c_nv s)) (q_reuse d) (q_need d))) (c_nd s)
                 (put (c_vec s) (c_nv s) (snd ra)) (c_nv s + 1) (c_vm s), c_nv s)
       end ;;
  let '(s, v) := r in
  Ok (set_data s p (mkQD (q_vec (c_data s p)) (q_reuse (c_data s p)) false), v).

(** application of operator [i], changes of vectors and of contexts (the QFunctions compute something else) *)
Definition cache_apply (s : cstate) (i : nat) (inv outv : option nat) : res cstate :=
  r <~ asm_apply k junk chk D bs (c_ops s i) (c_st s i) (c_vm s) inv outv ;;
  Ok (mkCS (c_ops s) (put (c_st s) i (fst r)) (c_ptr s) (c_data s) (c_nd s) (c_vec s) (c_nv s) (snd r)).
Definition set_vm (s : cstate) (vm : vmem R) : cstate := mkCS (c_ops s) (c_st s) (c_ptr s) (c_data s) (c_nd s) (c_vec s) (c_nv s) vm.
Definition set_pt (o : oper R) (f : list (list R) -> list (list R)) : oper R := mkOp (o_in o) (o_out o) (o_ne o) (o_Q o) (o_ident o) (o_vlen o) f.
Definition set_ctx (s : cstate) (f : nat -> list (list R) -> list (list R)) : cstate :=
  mkCS (fun i => set_pt (c_ops s i) (f i)) (c_st s) (c_ptr s) (c_data s) (c_nd s) (c_vec s) (c_nv s) (c_vm s).
Definition set_vec (s : cstate) (v : nat) (x : list R) : cstate :=
  mkCS (c_ops s) (c_st s) (c_ptr s) (c_data s) (c_nd s) (put (c_vec s) v x) (c_nv s) (c_vm s).
Definition new_cs (ops : nat -> oper R) (vm : vmem R) : cstate :=
  mkCS ops (fun _ => new_aimpl R) (fun _ => None) (fun _ => new_qd) 0 (fun _ => []) 0 vm.

(** composite operators: trees with the numbers of operators at the leaves *)
Inductive ctree := CLeaf (i : nat) | CComp (l : list ctree).
(** ceed-operator.c:1484-1499 *)
Fixpoint set_reuse_tree (b : bool) (t : ctree) (s : cstate) : cstate :=
  match t with CLeaf i => set_reuse s i b | CComp l => fold_left (fun s t => set_reuse_tree b t s) l s end.
(** ceed-operator.c:1511-1531 *)
Fixpoint set_need_tree (b : bool) (t : ctree) (s : cstate) : cstate :=
  match t with CLeaf i => set_need s i b | CComp l => fold_left (fun s t => set_need_tree b t s) l s end.
(** ceed-operator.c:2246-2264: the operator and its sub-operators, not their sub-operators *)
Definition strip_tree (t : ctree) (s : cstate) : cstate :=
  match t with CLeaf i => strip s i | CComp l => fold_left (fun s t => match t with CLeaf i => strip s i | CComp _ => s end) l s end.
End Cache.
Arguments new_cs {R}. Arguments mkCS {R}. Arguments CLeaf : clear implicits.
