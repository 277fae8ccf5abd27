(** * QFunction objects: fields, source strings, lookup by name

    Model of interface/ceed-qfunction.c (creation, fields, source path, gallery),
    interface/ceed-preconditioning.c:37-98 (fallback copy), the parts of
    interface/ceed-jit-tools.c that find source files, and the backend table of
    interface/ceed.c. *)
From Coq Require Import List ZArith Lia Bool Arith Ascii String.
From Verif Require Import Prelude RstrModel BasisModel StrModel.
Import ListNotations.
Set Implicit Arguments.
Local Open Scope char_scope.
Local Open Scope nat_scope.

Definition FIELD_MAX := 16. (* include/ceed-impl.h: CEED_FIELD_MAX *)

(** include/ceed-impl.h: struct CeedQFunctionField_private *)
Record qfield := mkQField { qf_name : str; qf_size : Z; qf_mode : emode }.
(** include/ceed-impl.h: struct CeedQFunction_private; the user function pointer, the context,
    the backend data and the flop estimate are left out.  The two field arrays have
    FIELD_MAX slots (ceed-qfunction.c:667-668); a list stands for the slots in use. *)
Record qfun := mkQFun {
  q_vlen : Z;
  q_in : list qfield; q_out : list qfield;
  q_imm : bool;                  (* is_immutable *)
  q_user : option str;           (* user_source *)
  q_kname : option str;          (* kernel_name *)
  q_path : option str            (* source_path *)
}.
Definition q_with_in q l := mkQFun (q_vlen q) l (q_out q) (q_imm q) (q_user q) (q_kname q) (q_path q).
Definition q_with_out q l := mkQFun (q_vlen q) (q_in q) l (q_imm q) (q_user q) (q_kname q) (q_path q).
Definition q_with_kname q s := mkQFun (q_vlen q) (q_in q) (q_out q) (q_imm q) (q_user q) (Some s) (q_path q).
Definition q_with_path q s := mkQFun (q_vlen q) (q_in q) (q_out q) (q_imm q) (q_user q) (q_kname q) (Some s).

(** ceed-qfunction.c:566-569 CeedQFunctionSetImmutable *)
Definition q_set_imm q := mkQFun (q_vlen q) (q_in q) (q_out q) true (q_user q) (q_kname q) (q_path q).

(** ceed-qfunction.c:627-662 CeedQFunctionCreateInterior, for a backend that implements QFunctionCreate.
    [strrchr(source, ':')] is only tested for NULL. *)
Definition q_create (vlen : Z) (source : str) : res qfun :=
  match source with
  | [] => Ok (mkQFun vlen [] [] false None None None)
  | _ => match strrchr source ":" with
         | None => Err ERR_INCOMPLETE
         | Some _ => Ok (mkQFun vlen [] [] false (Some source) None None)
         end
  end.

(** the loops that compare the new name with every field *)
Definition dup (name : str) (l : list qfield) : bool := existsb (fun f => seqb name (qf_name f)) l.

(** ceed-qfunction.c:779-797 CeedQFunctionAddInput: outcome and QFunction afterwards.
    Writing slot FIELD_MAX is outside the array. *)
Definition q_add_input (q : qfun) (name : str) (size : Z) (m : emode) : res unit * qfun :=
  if q_imm q then (Err ERR_MAJOR, q)
  else if match m with EvWeight => negb (size =? 1)%Z | _ => false end then (Err ERR_DIMENSION, q)
  else if dup name (q_in q) then (Err ERR_MINOR, q)
  else if dup name (q_out q) then (Err ERR_MINOR, q)
  else if List.length (q_in q) <? FIELD_MAX then (Ok tt, q_with_in q (q_in q ++ [mkQField name size m]))
  else (UB, q).
(** ceed-qfunction.c:813-831 CeedQFunctionAddOutput *)
Definition q_add_output (q : qfun) (name : str) (size : Z) (m : emode) : res unit * qfun :=
  if q_imm q then (Err ERR_MAJOR, q)
  else if match m with EvWeight => true | _ => false end then (Err ERR_DIMENSION, q)
  else if dup name (q_in q) then (Err ERR_MINOR, q)
  else if dup name (q_out q) then (Err ERR_MINOR, q)
  else if List.length (q_out q) <? FIELD_MAX then (Ok tt, q_with_out q (q_out q ++ [mkQField name size m]))
  else (UB, q).
(** ceed-qfunction.c:848-856 CeedQFunctionGetFields *)
Definition q_get_fields (q : qfun) : (list qfield * list qfield) * qfun :=
  let q' := q_set_imm q in ((q_in q', q_out q'), q').
(** ceed-qfunction.c:1048-1058 CeedQFunctionApply; [be] is the code returned by the backend kernel.
    [Q % vec_length] with vec_length 0 is undefined. *)
Definition q_apply (q : qfun) (Q : Z) (be : Z) : res unit * qfun :=
  if (q_vlen q =? 0)%Z then (UB, q)
  else if negb (Z.rem Q (q_vlen q) =? 0)%Z then (Err ERR_DIMENSION, q)
  else let q' := q_set_imm q in ((if (be =? 0)%Z then Ok tt else Err be), q').

(** ceed-qfunction.c:209-228 CeedQFunctionGetKernelName; [strrchr] returning NULL makes [NULL + 1]. *)
Definition q_get_kernel_name (q : qfun) : res str * qfun :=
  match q_kname q with
  | Some s => (Ok s, q)
  | None =>
    match q_user q with
    | Some u => match strrchr u ":" with
                | None => (UB, q)
                | Some i => let k := skipn (S i) u in (Ok k, q_with_kname q k)
                end
    | None => (Ok [], q_with_kname q [])
    end
  end.

(** The file system: which paths [fopen(path, "rb")] can open. *)
Definition fsys := str -> bool.
(** ceed-jit-tools.c:28-62 CeedCheckFilePath *)
Definition check_file_path (fs : fsys) (path : str) : bool :=
  match strrchr path ":" with
  | Some i => fs (firstn i path)
  | None => fs path
  end.
(** ceed-jit-tools.c:368-377 CeedPathConcatenate: without a slash in the base the length is
    computed from a NULL pointer. *)
Definition path_concat (base rel : str) : res str :=
  match strrchr base "/" with
  | None => UB
  | Some i => Ok (firstn (S i) base ++ rel)
  end.
(** ceed-jit-tools.c:405-441 CeedGetJitAbsolutePath over the list of JiT roots *)
Fixpoint jit_absolute (fs : fsys) (roots : list str) (rel : str) : res str :=
  match roots with
  | [] => Err ERR_MAJOR
  | r :: rest => match path_concat r rel with
                 | Ok p => if check_file_path fs p then Ok p else jit_absolute fs rest rel
                 | Err c => Err c
                 | UB => UB
                 end
  end.
(** ceed-qfunction.c:239-267 CeedQFunctionGetSourcePath: [None] is the NULL path of a QFunction without source. *)
Definition q_get_source_path (fs : fsys) (roots : list str) (q : qfun) : res (option str) * qfun :=
  match q_path q, q_user q with
  | None, Some u =>
    match strrchr u ":" with
    | None => (UB, q)
    | Some i =>
      let klen := List.length (skipn (S i) u) in
      match (if check_file_path fs u then Ok u else jit_absolute fs roots u) with
      | Ok a => let p := firstn (List.length a - klen - 1) a in (Ok (Some p), q_with_path q p)
      | Err c => (Err c, q)
      | UB => (UB, q)
      end
    end
  | p, _ => (Ok p, q)
  end.

(** ceed-preconditioning.c:49-60: source string of the fallback QFunction; strlen(NULL) is undefined *)
Definition fallback_source (q : qfun) : res str :=
  match q_path q with
  | Some p => match q_kname q with
              | Some k => Ok (p ++ ":" :: k)
              | None => UB
              end
  | None => match q_user q with Some u => Ok u | None => Ok [] end
  end.
Fixpoint add_inputs (q : qfun) (l : list qfield) : res unit * qfun :=
  match l with
  | [] => (Ok tt, q)
  | f :: t => match q_add_input q (qf_name f) (qf_size f) (qf_mode f) with
              | (Ok _, q') => add_inputs q' t
              | r => r
              end
  end.
Fixpoint add_outputs (q : qfun) (l : list qfield) : res unit * qfun :=
  match l with
  | [] => (Ok tt, q)
  | f :: t => match q_add_output q (qf_name f) (qf_size f) (qf_mode f) with
              | (Ok _, q') => add_outputs q' t
              | r => r
              end
  end.
(** ceed-preconditioning.c:37-95 CeedQFunctionCreateFallback: outcome, and the original QFunction (set immutable).
    The context handling is left out. *)
Definition q_fallback (q : qfun) : res qfun * qfun :=
  match fallback_source q with
  | Ok s => match q_create (q_vlen q) s with
            | Ok qb =>
              let '((ins, outs), q') := q_get_fields q in
              match add_inputs qb ins with
              | (Ok _, qb1) => match add_outputs qb1 outs with
                               | (Ok _, qb2) => (Ok qb2, q')
                               | (Err c, _) => (Err c, q')
                               | (UB, _) => (UB, q')
                               end
              | (Err c, _) => (Err c, q')
              | (UB, _) => (UB, q')
              end
            | Err c => (Err c, q)
            | UB => (UB, q)
            end
  | Err c => (Err c, q)
  | UB => (UB, q)
  end.

(** ** Histories of calls on one QFunction *)
Inductive qop :=
| QAddIn (name : str) (size : Z) (m : emode)
| QAddOut (name : str) (size : Z) (m : emode)
| QGetFields
| QApply (Q be : Z)
| QKernelName
| QSourcePath
| QFallback.
(** Outcome of a call: only whether it succeeded, failed with a code, or was undefined. *)
Definition out {A} (r : res A) : res unit := match r with Ok _ => Ok tt | Err c => Err c | UB => UB end.
Definition q_step (fs : fsys) (roots : list str) (q : qfun) (o : qop) : res unit * qfun :=
  match o with
  | QAddIn n s m => q_add_input q n s m
  | QAddOut n s m => q_add_output q n s m
  | QGetFields => (Ok tt, snd (q_get_fields q))
  | QApply Q be => q_apply q Q be
  | QKernelName => let r := q_get_kernel_name q in (out (fst r), snd r)
  | QSourcePath => let r := q_get_source_path fs roots q in (out (fst r), snd r)
  | QFallback => let r := q_fallback q in (out (fst r), snd r)
  end.
(** The outcomes of all calls, in order, and the final QFunction; a call with an error changes the
    state as the call says and the history goes on; undefined behaviour ends it. *)
Fixpoint q_run (fs : fsys) (roots : list str) (q : qfun) (l : list qop) : list (res unit) * qfun :=
  match l with
  | [] => ([], q)
  | o :: t => match q_step fs roots q o with
              | (UB, q') => ([UB], q')
              | (r, q') => let '(rs, qe) := q_run fs roots q' t in (r :: rs, qe)
              end
  end.

(** ** The backend table *)
Definition MAX_BACKENDS := 32.      (* ceed.c:28 *)
Definition RES_LEN := 1023.          (* include/ceed/backend.h:26 CEED_MAX_RESOURCE_LEN, without the NUL *)
Definition MAX_PRIO : Z := 4294967295. (* include/ceed/backend.h:27: UINT_MAX *)
Record backend := mkBE { be_prefix : str; be_prio : Z }.
(** ceed.c:123-139 CeedRegisterImpl; the init function is left out *)
Definition register_impl (tbl : list backend) (b : backend) : res unit * list backend :=
  if List.length tbl <? MAX_BACKENDS then (Ok tt, tbl ++ [mkBE (firstn RES_LEN (be_prefix b)) (be_prio b)])
  else (Err ERR_MAJOR, tbl).
(** ceed.c:466-470 CeedRegister: the code of CeedRegisterImpl is dropped *)
Definition ceed_register (tbl : list backend) (b : backend) : res unit * list backend :=
  (Ok tt, snd (register_impl tbl b)).
Fixpoint register_all (tbl : list backend) (l : list backend) : list (res unit) * list backend :=
  match l with
  | [] => ([], tbl)
  | b :: t => let '(r, tbl') := ceed_register tbl b in
              let '(rs, te) := register_all tbl' t in (r :: rs, te)
  end.

(** ceed.c:1072-1085: stem up to ':' *)
Fixpoint stem_length (s : str) : nat :=
  match s with
  | [] => 0
  | c :: t => if Ascii.eqb c ":" then 0 else S (stem_length t)
  end.
(** ceed.c:1074-1085: best match so far (match_len, match_priority, match_index) *)
Fixpoint find_backend (r : str) (i : nat) (l : list backend) (best : nat * Z * option nat) : nat * Z * option nat :=
  match l with
  | [] => best
  | b :: t =>
    let '(ml, mp, mi) := best in
    let n := common (be_prefix b) r in
    find_backend r (S i) t (if (ml <? n) || ((n =? ml) && (be_prio b <? mp)%Z) then (n, be_prio b, Some i) else best)
  end.
(** ceed.c:1046-1121 CeedInit up to the choice of the backend: the index of the backend that is set up.
    The help text and the Levenshtein suggestion are only printed; the suggestion indexes the table
    with UINT_MAX if the table is empty.  "help" without a following character is read past its end
    (ceed.c:1066,1073). *)
Definition ceed_find (tbl : list backend) (resource : str) : res nat :=
  let pick r :=
    let '(ml, _, mi) := find_backend r 0 tbl (0, MAX_PRIO, None) in
    if (ml <=? 1) || negb (ml =? stem_length r) then match tbl with [] => UB | _ => Err ERR_MAJOR end
    else match mi with Some i => Ok i | None => UB end in
  if common (lit "help") resource =? 4 then
    (if List.length resource =? 4 then UB else pick (skipn 5 resource))
  else pick resource.

(** ** The QFunction gallery *)
Record gentry := mkGE { ge_name : str; ge_init : str -> res unit }.
(** ceed-qfunction.c:696-704 *)
Fixpoint find_name (name : str) (i : nat) (l : list gentry) (best : nat * option nat) : nat * option nat :=
  match l with
  | [] => best
  | g :: t => let n := common (ge_name g) name in
              find_name name (S i) t (if fst best <? n then (n, Some i) else best)
  end.
(** ceed-qfunction.c:675-704 CeedQFunctionCreateInteriorByName: the index of the entry used and the
    outcome of its init function *)
Definition create_by_name (tbl : list gentry) (name : str) : res nat :=
  let '(ml, mi) := find_name name 0 tbl (0, None) in
  if negb (0 <? ml) then Err ERR_UNSUPPORTED
  else match mi with
       | Some i => match get tbl i with
                   | Some g => match ge_init g name with Ok _ => Ok i | Err c => Err c | UB => UB end
                   | None => UB
                   end
       | None => UB
       end.
(** gallery/*/ceed-*.c CeedQFunctionInit_*: every init function of the gallery first compares the names *)
Definition gallery_init (own : str) (requested : str) : res unit :=
  if seqb own requested then Ok tt else Err ERR_UNSUPPORTED.
