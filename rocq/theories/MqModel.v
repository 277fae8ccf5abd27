(** * CeedQFunctionApply on the ref and on the memcheck backend

    interface/ceed-qfunction.c, backends/ref/ceed-ref-qfunction.c and backends/memcheck/ceed-memcheck-qfunction.c
    over the vectors of VecModel (ref) and McModel (memcheck).  The user's function is a program that accesses the
    arrays and the context data it is given.  QFunctionContexts are reduced to what CeedQFunctionApply does with them:
    whole contents of a type [D], set with CEED_COPY_VALUES; that the state and the number of readers are 64 bit
    numbers is left out (the state is reduced to its parity), so are reference counts and contexts of another size. *)
From Coq Require Import List ZArith Lia Bool Arith.
From Verif Require Import Prelude RstrModel BasisModel StrModel QfModel VecModel McModel.
Import ListNotations.
Set Implicit Arguments.
Local Open Scope Z_scope.

Section Mq.
Variable R : Rng.
Variable D : Type.

(** The user's function [f(ctx, Q, in, out)]: it reads and writes entries of the arrays [in[i]], [out[i]] and the
    context data, and returns a code.  Nothing prevents it from writing its inputs or from reading its outputs. *)
Inductive prog :=
| Ret (rc : Z)
| RdIn (i j : nat) (k : R -> prog)
| RdOut (i j : nat) (k : R -> prog)
| WrOut (i j : nat) (a : R) (p : prog)
| WrIn (i j : nat) (a : R) (p : prog)
| RdCtx (k : D -> prog)
| WrCtx (d : D) (p : prog).

(** include/ceed/backend.h CeedCallBackend: positive codes become CEED_ERROR_BACKEND *)
Definition bcode (e : Z) : Z := if 0 <? e then ERR_BACKEND else e.

(** ** Contexts *)
(** A context on the ref backend: parity of the state, readers, data *)
Record rctx := mkRC { rc_busy : bool; rc_readers : Z; rc_data : option D }.
(** A context on the memcheck backend: its own data, the writable and the read-only copy *)
Record kctx := mkKC { kc_busy : bool; kc_readers : Z; kc_data : option D; kc_wr : option D; kc_ro : option D }.
Variable eqd : D -> D -> bool.  (* memcmp *)
Inductive kout (K : Type) := KOk (k : K) | KErr (e : Z) (k : K) | KUB.
Arguments KOk {K}. Arguments KErr {K}. Arguments KUB {K}.

(** ceed-qfunctioncontext.c:686-701 CeedQFunctionContextGetData (writable) and 720-734 GetDataRead,
    backends/ref/ceed-ref-qfunctioncontext.c *)
Definition rc_get (wr : bool) (c : rctx) : kout rctx :=
  if rc_busy c then KErr 1 c
  else if wr && negb (rc_readers c =? 0) then KErr 1 c
  else match rc_data c with
       | None => KErr ERR_BACKEND c
       | Some _ => KOk (if wr then mkRC true (rc_readers c) (rc_data c) else mkRC false (rc_readers c + 1) (rc_data c))
       end.
(** ceed-qfunctioncontext.c:746-753 RestoreData and 765-772 RestoreDataRead; the ref backend has nothing to do *)
Definition rc_restore (wr : bool) (c : rctx) : kout rctx :=
  if wr then if rc_busy c then KOk (mkRC false (rc_readers c) (rc_data c)) else KErr 1 c
  else if 0 <? rc_readers c then KOk (mkRC (rc_busy c) (rc_readers c - 1) (rc_data c)) else KErr 1 c.
(** accesses through the pointer: it points to the data itself *)
Definition rc_read (wr : bool) (c : rctx) : option D := rc_data c.
Definition rc_write (wr : bool) (d : D) (c : rctx) : option rctx :=
  match rc_data c with Some _ => Some (mkRC (rc_busy c) (rc_readers c) (Some d)) | None => None end.
(** ceed-qfunctioncontext.c:623-633 CeedQFunctionContextSetData; no destroy function *)
Definition rc_set (d : D) (c : rctx) : kout rctx := if rc_busy c then KErr 1 c else KOk (mkRC false (rc_readers c) (Some d)).

(** the same with ceed-memcheck-qfunctioncontext.c:145-186 GetData, GetDataRead *)
Definition kc_get (wr : bool) (c : kctx) : kout kctx :=
  if kc_busy c then KErr 1 c
  else if wr && negb (kc_readers c =? 0) then KErr 1 c
  else match kc_data c with
       | None => KErr ERR_BACKEND c
       | Some d => KOk (if wr then mkKC true (kc_readers c) (kc_data c) (Some d) (kc_ro c)
                        else mkKC false (kc_readers c + 1) (kc_data c) (kc_wr c) (match kc_ro c with Some r => Some r | None => Some d end))
       end.
(** ceed-memcheck-qfunctioncontext.c:191-232 RestoreData, RestoreDataRead (by the last reader) *)
Definition kc_restore (wr : bool) (c : kctx) : kout kctx :=
  if wr then
    if kc_busy c then match kc_wr c, kc_data c with Some d, Some _ => KOk (mkKC false (kc_readers c) (Some d) None (kc_ro c)) | _, _ => KUB end
    else KErr 1 c
  else if 0 <? kc_readers c then
    let n := kc_readers c - 1 in
    if n =? 0 then match kc_data c, kc_ro c with
                   | Some d, Some r => if eqd d r then KOk (mkKC (kc_busy c) n (kc_data c) (kc_wr c) None)
                                       else KErr ERR_BACKEND (mkKC (kc_busy c) n (kc_data c) (kc_wr c) (kc_ro c))
                   | _, _ => KUB
                   end
    else KOk (mkKC (kc_busy c) n (kc_data c) (kc_wr c) (kc_ro c))
  else KErr 1 c.
Definition kc_read (wr : bool) (c : kctx) : option D := if wr then kc_wr c else kc_ro c.
Definition kc_write (wr : bool) (d : D) (c : kctx) : option kctx :=
  if wr then match kc_wr c with Some _ => Some (mkKC (kc_busy c) (kc_readers c) (kc_data c) (Some d) (kc_ro c)) | None => None end
  else match kc_ro c with Some _ => Some (mkKC (kc_busy c) (kc_readers c) (kc_data c) (kc_wr c) (Some d)) | None => None end.
Definition kc_set (d : D) (c : kctx) : kout kctx :=
  if kc_busy c then KErr 1 c else KOk (mkKC false (kc_readers c) (Some d) (kc_wr c) (kc_ro c)).

(** ** Both backends: a world of vectors [W] with the calls of the vector API, and contexts [K] *)
Section Machine.
Variables (W K : Type).
(** a vector call or an access through a pointer granted by one: what the caller sees, or [None] (undefined) *)
Variable vstep : cmd R -> W -> option ((obs R + Z) * W).
(** writing through a pointer granted for reading *)
Variable vpoke : nat -> nat -> R -> W -> option W.
Variables (kget krest : bool -> K -> kout K) (kread : bool -> K -> option D) (kwrite : bool -> D -> K -> option K) (kset : D -> K -> kout K).

Record conf := mkCf { cf_w : W; cf_k : nat -> option K; cf_n : nat }.
Inductive qout := QOk (c : conf) | QErr (e : Z) (c : conf) | QUB.
Definition qthen (m : qout) (k : conf -> qout) : qout := match m with QOk c => k c | o => o end.
Definition cw (c : conf) (w : W) : conf := mkCf w (cf_k c) (cf_n c).
Definition ck (c : conf) (n : nat) (k : K) : conf := mkCf (cf_w c) (nupd (cf_k c) n (Some k)) (cf_n c).
Definition vcall (x : cmd R) (c : conf) : qout :=
  match vstep x (cf_w c) with Some (inl _, w) => QOk (cw c w) | Some (inr e, w) => QErr (bcode e) (cw c w) | None => QUB end.
(** [for (i = 0; i < n; i++) CeedCallBackend(CeedVector...(l[i], ...))] *)
Fixpoint vloop (x : nat -> cmd R) (l : list nat) (c : conf) : qout :=
  match l with [] => QOk c | v :: l => qthen (vcall (x v) c) (vloop x l) end.
(** a call on context [n] *)
Definition kcall (f : K -> kout K) (n : nat) (c : conf) : qout :=
  match cf_k c n with
  | None => QUB
  | Some k => match f k with KOk k => QOk (ck c n k) | KErr e k => QErr (bcode e) (ck c n k) | KUB => QUB end
  end.
(** the context of the QFunction, and whether the function may write it *)
Definition kopt (x : option (nat * bool)) (f : bool -> K -> kout K) (c : conf) : qout :=
  match x with None => QOk c | Some (n, wr) => kcall (f wr) n c end.

(** the user's function runs; [U], [V] are the vectors behind the arrays *)
Fixpoint frun (U V : list nat) (x : option (nat * bool)) (p : prog) (c : conf) : option (Z * conf) :=
  match p with
  | Ret rc => Some (rc, c)
  | RdIn i j k => match nth_error U i with
                  | Some v => match vstep (VRead v j) (cf_w c) with Some (inl (OVal a), w) => frun U V x (k a) (cw c w) | _ => None end
                  | None => None
                  end
  | RdOut i j k => match nth_error V i with
                   | Some v => match vstep (VReadW v j) (cf_w c) with Some (inl (OVal a), w) => frun U V x (k a) (cw c w) | _ => None end
                   | None => None
                   end
  | WrOut i j a p => match nth_error V i with
                     | Some v => match vstep (VWrite v j a) (cf_w c) with Some (inl _, w) => frun U V x p (cw c w) | _ => None end
                     | None => None
                     end
  | WrIn i j a p => match nth_error U i with
                    | Some v => match vpoke v j a (cf_w c) with Some w => frun U V x p (cw c w) | None => None end
                    | None => None
                    end
  | RdCtx k => match x with
               | Some (n, wr) => match cf_k c n with
                                 | Some kk => match kread wr kk with Some d => frun U V x (k d) c | None => None end
                                 | None => None
                                 end
               | None => None
               end
  | WrCtx d p => match x with
                 | Some (n, wr) => match cf_k c n with
                                   | Some kk => match kwrite wr d kk with Some kk => frun U V x p (ck c n kk) | None => None end
                                   | None => None
                                   end
                 | None => None
                 end
  end.
Definition fcall (U V : list nat) (x : option (nat * bool)) (p : prog) (c : conf) : qout :=
  match frun U V x p c with None => QUB | Some (rc, c) => if rc =? 0 then QOk c else QErr (bcode rc) c end.

(** ceed-ref-qfunction.c:18-47 CeedQFunctionApply_Ref; [U], [V] as many as the QFunction has inputs and outputs *)
Definition apply_ref (x : option (nat * bool)) (p : prog) (U V : list nat) (c : conf) : qout :=
  qthen (kopt x kget c) (fun c =>
  qthen (vloop (fun v => CGetRead v true) U c) (fun c =>
  qthen (vloop (fun v => CGetWrite v true) V c) (fun c =>
  qthen (fcall U V x p c) (fun c =>
  qthen (vloop CRestoreRead U c) (fun c =>
  qthen (vloop CRestore V c) (fun c =>
  kopt x krest c)))))).

Variable isnan : R -> bool.
(** ceed-memcheck-qfunction.c:77-81: the loop over the first [n] entries of output [v] *)
Fixpoint scan (v : nat) (js : list nat) (c : conf) : qout :=
  match js with
  | [] => QOk c
  | j :: js => match vstep (VReadW v j) (cf_w c) with
               | Some (inl (OVal a), w) => if isnan a then QErr ERR_BACKEND (cw c w) else scan v js (cw c w)
               | _ => QUB
               end
  end.
(** ceed-memcheck-qfunction.c:70-85: outputs with the sizes of their fields *)
Fixpoint outloop (Q : Z) (l : list (nat * Z)) (c : conf) : qout :=
  match l with
  | [] => QOk c
  | (v, size) :: l => qthen (scan v (seq 0 (Z.to_nat (size * Q))) c) (fun c => qthen (vcall (CRestore v) c) (outloop Q l))
  end.
(** ceed-memcheck-qfunction.c:19-91 CeedQFunctionApply_Memcheck; [src] is the outcome of CeedQFunctionGetSourcePath and
    CeedQFunctionGetKernelName (67-68) *)
Definition apply_mc (src : res unit) (sizes : list Z) (Q : Z) (x : option (nat * bool)) (p : prog) (U V : list nat) (c : conf) : qout :=
  qthen (kopt x kget c) (fun c =>
  qthen (vloop (fun v => CGetRead v true) U c) (fun c =>
  qthen (vloop (fun v => CGetWrite v true) V c) (fun c =>
  qthen (fcall U V x p c) (fun c =>
  qthen (vloop CRestoreRead U c) (fun c =>
  match src with
  | UB => QUB
  | Err e => QErr (bcode e) c
  | Ok _ => qthen (outloop Q (combine V sizes) c) (fun c => kopt x krest c)
  end))))).
End Machine.
Arguments QOk {W K}. Arguments QErr {W K}. Arguments QUB {W K}.

Variables (fs : fsys) (roots : list str).
(** ceed-memcheck-qfunction.c:67-68 *)
Definition src_of (q : qfun) : res unit :=
  match fst (q_get_source_path fs roots q) with
  | Ok _ => match fst (q_get_kernel_name (snd (q_get_source_path fs roots q))) with Ok _ => Ok tt | Err e => Err (bcode e) | UB => UB end
  | Err e => Err (bcode e)
  | UB => UB
  end.
(** ceed-qfunction.c:1048-1058 CeedQFunctionApply over the backend's function [be], which finds its vectors in the
    first entries of the arrays [U] and [V]; the changes to the QFunction itself (it becomes immutable, its names are
    computed) are in QfModel *)
Definition qf_apply (W K : Type) (be : list nat -> list nat -> conf W K -> qout W K) (q : qfun) (Q : Z) (U V : list nat) (c : conf W K) : qout W K :=
  if q_vlen q =? 0 then QUB
  else if negb (Z.rem Q (q_vlen q) =? 0) then QErr ERR_DIMENSION c
  else if (Nat.leb (length (q_in q)) (length U) && Nat.leb (length (q_out q)) (length V))%bool
  then be (firstn (length (q_in q)) U) (firstn (length (q_out q)) V) c
  else QUB.

(** ** Whole histories: vector calls, contexts, QFunctions *)
Inductive hcmd :=
| HVec (c : cmd R)
| HApply (q : qfun) (x : option (nat * bool)) (f : prog) (Q : Z) (U V : list nat)
| HCtx                                        (* CeedQFunctionContextCreate *)
| HSet (n : nat) (d : D)                      (* CeedQFunctionContextSetData *)
| HRead (n : nat).                            (* GetDataRead, look at the data, RestoreDataRead *)
Inductive hobs := OV (o : obs R) | OD (d : D) | ON (n : nat) | OUnit.

Section Hist.
Variables (W K : Type) (k0 : K).
Variable vstep : cmd R -> W -> option ((obs R + Z) * W).
Variables (kget krest : bool -> K -> kout K) (kread : bool -> K -> option D) (kset : D -> K -> kout K).
Variable apply : qfun -> option (nat * bool) -> prog -> Z -> list nat -> list nat -> conf W K -> qout W K.
Definition hq (m : qout W K) : option ((hobs + Z) * conf W K) := match m with QOk c => Some (inl OUnit, c) | QErr e c => Some (inr e, c) | QUB => None end.
(** a call on a context by the client: the code is not changed *)
Definition hk (f : K -> kout K) (n : nat) (c : conf W K) : option ((hobs + Z) * conf W K) :=
  match cf_k c n with
  | None => None
  | Some k => match f k with KOk k => Some (inl OUnit, ck c n k) | KErr e k => Some (inr e, ck c n k) | KUB => None end
  end.
Definition hstep (h : hcmd) (c : conf W K) : option ((hobs + Z) * conf W K) :=
  match h with
  | HVec x => match vstep x (cf_w c) with Some (inl o, w) => Some (inl (OV o), cw c w) | Some (inr e, w) => Some (inr e, cw c w) | None => None end
  | HApply q x f Q U V => hq (apply q x f Q U V c)
  | HCtx => Some (inl (ON (cf_n c)), mkCf (cf_w c) (nupd (cf_k c) (cf_n c) (Some k0)) (S (cf_n c)))
  | HSet n d => hk (kset d) n c
  | HRead n => match hk (kget false) n c with
               | Some (inl _, c) => match cf_k c n with
                                    | Some k => match kread false k with
                                                | Some d => match hk (krest false) n c with Some (inl _, c) => Some (inl (OD d), c) | o => o end
                                                | None => None
                                                end
                                    | None => None
                                    end
               | o => o
               end
  end.
Fixpoint hrun (hs : list hcmd) (c : conf W K) : option (list (hobs + Z) * conf W K) :=
  match hs with
  | [] => Some ([], c)
  | h :: hs => match hstep h c with
               | Some (o, c) => match hrun hs c with Some (os, c) => Some (o :: os, c) | None => None end
               | None => None
               end
  end.
Definition hempty (w : W) : conf W K := mkCf w (fun _ => None) 0.
End Hist.

(** ** The two backends *)
Variables (nan : R) (isnan : R -> bool) (eqs : R -> R -> bool).
Variables (fabs : R -> R) (gtb : R -> R -> bool) (sqrt : R -> R) (big : R -> bool) (inv : R -> R).
Definition rv (x : cmd R) (w : world R) : option ((obs R + Z) * world R) :=
  match step fabs gtb sqrt big inv x w with ROk o w => Some (inl o, w) | RErr e w => Some (inr e, w) | RUB => None end.
Definition rpoke (v j : nat) (a : R) (w : world R) : option (world R) :=
  match store (w_rptr w v) (Z.of_nat j) a w with ROk _ w => Some w | _ => None end.
Definition mv (x : cmd R) (w : mworld R) : option ((obs R + Z) * mworld R) :=
  match mbstep nan eqs fabs gtb sqrt big inv x w with MOk o w => Some (inl o, w) | MErr e w => Some (inr e, w) | MUB => None end.
Definition mpoke (v j : nat) (a : R) (w : mworld R) : option (mworld R) :=
  match mstep nan eqs fabs gtb sqrt big inv (MWriteRead R v j a) w with MOk _ w => Some w | _ => None end.
Definition rapply (q : qfun) (x : option (nat * bool)) (f : prog) (Q : Z) (U V : list nat) : conf (world R) rctx -> qout (world R) rctx :=
  qf_apply (apply_ref rv rpoke rc_get rc_restore rc_read rc_write x f) q Q U V.
Definition mapply (q : qfun) (x : option (nat * bool)) (f : prog) (Q : Z) (U V : list nat) : conf (mworld R) kctx -> qout (mworld R) kctx :=
  qf_apply (apply_mc mv mpoke kc_get kc_restore kc_read kc_write isnan (src_of q) (map qf_size (q_out q)) Q x f) q Q U V.
Definition rhrun : list hcmd -> conf (world R) rctx -> option (list (hobs + Z) * conf (world R) rctx) :=
  hrun (mkRC false 0 None) rv rc_get rc_restore rc_read rc_set rapply.
Definition mhrun : list hcmd -> conf (mworld R) kctx -> option (list (hobs + Z) * conf (mworld R) kctx) :=
  hrun (mkKC false 0 None None None) mv kc_get kc_restore kc_read kc_set mapply.
End Mq.
Arguments KOk {K}. Arguments KErr {K}. Arguments KUB {K}. Arguments QOk {W K}. Arguments QErr {W K}. Arguments QUB {W K}.
Arguments Ret {R D}. Arguments RdIn {R D}. Arguments RdOut {R D}. Arguments WrOut {R D}. Arguments WrIn {R D}. Arguments RdCtx {R D}. Arguments WrCtx {R D}.
Arguments HVec {R D}. Arguments HApply {R D}. Arguments HCtx {R D}. Arguments HSet {R D}. Arguments HRead {R D}.
Arguments OV {R D}. Arguments OD {R D}. Arguments ON {R D}. Arguments OUnit {R D}.
