(** * Vectors on the memcheck backend: interface/ceed-vector.c over backends/memcheck/ceed-memcheck-vector.c

    A vector keeps its data in a private buffer; arrays handed in by the client are copied into it, and access is
    granted to fresh copies of it.  The private buffer and the two copies are lists inside the vector (nobody else
    has their address but the client, through the pointer of a granted access); client blocks are named by numbers
    and live in a heap, an array the vector owns or borrows is such a number.  [nan] is the scalar NAN, [eqs]
    compares the bytes of two scalars.  Every access of a dead block, outside a block or through NULL and every
    double free is undefined ([BUB], [MUB]).  Left out: the Valgrind requests, the warnings for entries never
    written (lines 261-266, no effect on the result), out of memory, negative lengths; addresses are never used
    again; pointers point at the start of a block; calloc of no bytes gives a pointer that is not NULL (glibc). *)
From Coq Require Import List ZArith Lia Bool Arith.
From Verif Require Import Prelude RstrModel VecModel VecSpec.
Import ListNotations.
Set Implicit Arguments.
Local Open Scope Z_scope.

Section Mc.
Variable R : Rng.
Variables (nan : R) (eqs : R -> R -> bool).

(** include/ceed-impl.h:136-163 CeedVector_private and backends/memcheck/ceed-memcheck.h CeedVector_Memcheck; the
    last two fields belong to the client: its pointer variables of write and of read access are set *)
Record mvec := mkM {
  m_len : nat; m_state : Z; m_readers : Z; m_refs : Z;
  m_alloc : option (list R); m_owned : option nat; m_borrowed : option nat;
  m_wr : option (list R); m_ro : option (list R); m_wo : bool;
  m_wp : bool; m_rp : bool }.
Definition heap := nat -> option (list R).
Definition mc_state (x : mvec) s := mkM (m_len x) s (m_readers x) (m_refs x) (m_alloc x) (m_owned x) (m_borrowed x) (m_wr x) (m_ro x) (m_wo x) (m_wp x) (m_rp x).
Definition mc_readers (x : mvec) r := mkM (m_len x) (m_state x) r (m_refs x) (m_alloc x) (m_owned x) (m_borrowed x) (m_wr x) (m_ro x) (m_wo x) (m_wp x) (m_rp x).
Definition mc_refs (x : mvec) r := mkM (m_len x) (m_state x) (m_readers x) r (m_alloc x) (m_owned x) (m_borrowed x) (m_wr x) (m_ro x) (m_wo x) (m_wp x) (m_rp x).
Definition mc_alloc (x : mvec) a := mkM (m_len x) (m_state x) (m_readers x) (m_refs x) a (m_owned x) (m_borrowed x) (m_wr x) (m_ro x) (m_wo x) (m_wp x) (m_rp x).
Definition mc_ext (x : mvec) o b := mkM (m_len x) (m_state x) (m_readers x) (m_refs x) (m_alloc x) o b (m_wr x) (m_ro x) (m_wo x) (m_wp x) (m_rp x).
Definition mc_wr (x : mvec) l wo := mkM (m_len x) (m_state x) (m_readers x) (m_refs x) (m_alloc x) (m_owned x) (m_borrowed x) l (m_ro x) wo (m_wp x) (m_rp x).
Definition mc_ro (x : mvec) l := mkM (m_len x) (m_state x) (m_readers x) (m_refs x) (m_alloc x) (m_owned x) (m_borrowed x) (m_wr x) l (m_wo x) (m_wp x) (m_rp x).
Definition mc_wp (x : mvec) b := mkM (m_len x) (m_state x) (m_readers x) (m_refs x) (m_alloc x) (m_owned x) (m_borrowed x) (m_wr x) (m_ro x) (m_wo x) b (m_rp x).
Definition mc_rp (x : mvec) b := mkM (m_len x) (m_state x) (m_readers x) (m_refs x) (m_alloc x) (m_owned x) (m_borrowed x) (m_wr x) (m_ro x) (m_wo x) (m_wp x) b.
Definition bumpm (x : mvec) (k : Z) := mc_state x (add64 (m_state x) k).

(** ** The backend: one vector and the heap *)
Inductive bout := BOk (x : mvec) (h : heap) | BErr (e : Z) (x : mvec) (h : heap) | BUB.
Definition bbind (m : bout) (k : mvec -> heap -> bout) : bout := match m with BOk x h => k x h | o => o end.
(** an array argument: NULL, a client block, the buffer behind the pointer of another access, or a pointer to nothing
    any more *)
Inductive asrc := ANull | ABlock (n : nat) | ABuf (l : list R) | ABad.

Definition cpy (n : nat) (l : list R) : option (list R) := if Nat.leb n (length l) then Some (firstn n l) else None.
(** memcpy of [n] scalars from a buffer to client block [k] *)
Definition cpy_out (h : heap) (k n : nat) (src : option (list R)) : option heap :=
  match src, h k with
  | Some l, Some old => if (Nat.leb n (length l) && Nat.leb n (length old))%bool then Some (nupd h k (Some (firstn n l ++ skipn n old))) else None
  | _, _ => None
  end.

(** ceed-memcheck-vector.c:45-97 CeedVectorSetArray_Memcheck; that a vector owns or borrows the buffer of another
    vector is left out (undefined here) *)
Definition set_array_mc (x : mvec) (h : heap) (host : bool) (mode : cmode) (a : asrc) : bout :=
  if negb host then BErr ERR_BACKEND x h
  else
    match (match mode, m_owned x with
           | CopyValues, _ => Some (x, h)
           | _, None => Some (mc_ext x None (m_borrowed x), h)
           | _, Some k => match h k with
                          | Some l => if Nat.leb (m_len x) (length l) then Some (mc_ext x None (m_borrowed x), nupd h k None) else None
                          | None => None
                          end
           end) with
    | None => BUB
    | Some (x, h) =>
        match (match mode, a with
               | CopyValues, _ => Some x
               | OwnPointer, ANull => Some (mc_ext x None None)
               | OwnPointer, ABlock n => Some (mc_ext x (Some n) None)
               | UsePointer, ANull => Some (mc_ext x None None)
               | UsePointer, ABlock n => Some (mc_ext x None (Some n))
               | _, ABuf _ | _, ABad => None
               end) with
        | None => BUB
        | Some x =>
            match (match a with
                   | ANull => Some (repeat nan (m_len x))
                   | ABlock n => match h n with Some l => cpy (m_len x) l | None => None end
                   | ABuf l => cpy (m_len x) l
                   | ABad => None
                   end) with
            | None => BUB
            | Some l => BOk (mc_alloc x (Some l)) h
            end
        end
    end.
Definition ensure_mc (x : mvec) (h : heap) : bout := match m_alloc x with Some _ => BOk x h | None => set_array_mc x h true CopyValues ANull end.

(** ceed-memcheck-vector.c:102-113 CeedVectorSetValue_Memcheck *)
Definition set_value_mc (x : mvec) (h : heap) (v : R) : bout :=
  bbind (ensure_mc x h) (fun x h => match m_alloc x with Some l => BOk (mc_alloc x (Some (map (fun _ => v) (seq 0 (m_len x)) ++ skipn (m_len x) l))) h | None => BUB end).

(** [for (i = start; i < stop; i += step) l[i] = f(i)]; a loop that does not end within the [fuel] never ends *)
Fixpoint lstrided (fuel : nat) (i stop step : Z) (f : Z -> option R) (l : list R) : option (list R) :=
  if i <? stop then
    match fuel with
    | O => None
    | S fuel => match f i with Some v => match setZ l i v with Some l => lstrided fuel (i + step) stop step f l | None => None end | None => None end
    end
  else Some l.
Definition lsmap (start stop step : Z) (f : Z -> option R) (l : list R) : option (list R) := lstrided (Z.to_nat (stop - start)) start stop step f l.

(** ceed-memcheck-vector.c:118-130 CeedVectorSetValueStrided_Memcheck *)
Definition set_value_strided_mc (x : mvec) (h : heap) (start stop step : Z) (v : R) : bout :=
  bbind (ensure_mc x h) (fun x h =>
    let stop := if stop =? -1 then Z.of_nat (m_len x) else stop in
    match m_alloc x with
    | Some l => match lsmap start stop step (fun _ => Some v) l with Some l => BOk (mc_alloc x (Some l)) h | None => BUB end
    | None => BUB
    end).

(** ceed-memcheck-vector.c:135-152 CeedVectorSyncArray_Memcheck *)
Definition sync_mc (x : mvec) (h : heap) (host : bool) : bout :=
  if negb host then BErr ERR_BACKEND x h
  else
    match (match m_owned x with Some k => cpy_out h k (m_len x) (m_alloc x) | None => Some h end) with
    | None => BUB
    | Some h => match (match m_borrowed x with Some k => cpy_out h k (m_len x) (m_alloc x) | None => Some h end) with
                | None => BUB
                | Some h => BOk x h
                end
    end.
(** ceed-memcheck-vector.c:157-181 CeedVectorTakeArray_Memcheck (the caller reads the borrowed pointer off before) *)
Definition take_mc (x : mvec) (h : heap) (host : bool) : bout :=
  bbind (sync_mc x h host) (fun x h => BOk (mc_alloc (mc_ext x (m_owned x) None) None) h).
(** ceed-memcheck-vector.c:186-201 CeedVectorGetArray_Memcheck *)
Definition get_mc (x : mvec) (h : heap) (host : bool) : bout :=
  if negb host then BErr ERR_BACKEND x h
  else match m_alloc x with
       | Some l => match cpy (m_len x) l with Some l => BOk (mc_wr x (Some l) (m_wo x)) h | None => BUB end
       | None => BUB
       end.
(** ceed-memcheck-vector.c:206-223 CeedVectorGetArrayRead_Memcheck *)
Definition get_read_mc (x : mvec) (h : heap) (host : bool) : bout :=
  if negb host then BErr ERR_BACKEND x h
  else match m_ro x with
       | Some _ => BOk x h
       | None => match m_alloc x with
                 | Some l => match cpy (m_len x) l with Some l => BOk (mc_ro x (Some l)) h | None => BUB end
                 | None => BUB
                 end
       end.
(** ceed-memcheck-vector.c:228-247 CeedVectorGetArrayWrite_Memcheck *)
Definition get_write_mc (x : mvec) (h : heap) (host : bool) : bout :=
  if negb host then BErr ERR_BACKEND x h
  else bbind (ensure_mc x h) (fun x h => bbind (get_mc x h host) (fun x h => BOk (mc_wr x (Some (repeat nan (m_len x))) true) h)).
(** ceed-memcheck-vector.c:252-279 CeedVectorRestoreArray_Memcheck *)
Definition restore_mc (x : mvec) (h : heap) : bout :=
  match m_alloc x, m_wr x with
  | Some la, Some lw =>
      if (Nat.leb (m_len x) (length la) && Nat.leb (m_len x) (length lw))%bool then
        bbind (sync_mc (mc_alloc (mc_wr x (m_wr x) false) (Some (firstn (m_len x) lw ++ skipn (m_len x) la))) h true)
          (fun x h => BOk (mc_wr x None (m_wo x)) h)
      else BUB
  | _, _ => BUB
  end.
(** memcmp of [n] scalars *)
Fixpoint same (n : nat) (a b : list R) : option bool :=
  match n with
  | O => Some true
  | S n => match a, b with x :: a, y :: b => match same n a b with Some c => Some (eqs x y && c) | None => None end | _, _ => None end
  end.
(** ceed-memcheck-vector.c:284-301 CeedVectorRestoreArrayRead_Memcheck *)
Definition restore_read_mc (x : mvec) (h : heap) : bout :=
  match m_alloc x, m_ro x with
  | Some la, Some lr => match same (m_len x) la lr with
                        | Some true => BOk (mc_ro x None) h
                        | Some false => BErr ERR_BACKEND x h
                        | None => BUB
                        end
  | _, _ => BUB
  end.
(** the loops [for (i = 0; i < n; i++) dst[i] = f(...)] of lines 313-315, 329, 344, 359, 377 *)
Definition lmap (n : nat) (f : nat -> option R) (dst : list R) : option (list R) :=
  lsmap 0 (Z.of_nat n) 1 (fun i => f (Z.to_nat i)) dst.
(** ceed-memcheck-vector.c:306-317 CeedVectorReciprocal_Memcheck and 322-331 CeedVectorScale_Memcheck *)
Definition modify_mc (f : R -> R) (x : mvec) (h : heap) : bout :=
  match m_alloc x with
  | Some l => match lmap (m_len x) (fun i => option_map f (nth_error l i)) l with Some l => BOk (mc_alloc x (Some l)) h | None => BUB end
  | None => BUB
  end.
(** ceed-memcheck-vector.c:336-346 CeedVectorAXPY_Memcheck and 351-361 CeedVectorAXPBY_Memcheck, [xx] is the other vector *)
Definition axp_mc (f : R -> R -> R) (y : mvec) (xx : mvec) (h : heap) : bout :=
  match m_alloc y, m_alloc xx with
  | Some ly, Some lx =>
      match lmap (m_len y) (fun i => match nth_error lx i, nth_error ly i with Some a, Some b => Some (f a b) | _, _ => None end) ly with
      | Some l => BOk (mc_alloc y (Some l)) h
      | None => BUB
      end
  | _, _ => BUB
  end.
(** ceed-memcheck-vector.c:366-379 CeedVectorPointwiseMult_Memcheck; every entry is read before it is written, so
    that any of the vectors may be the same *)
Definition mult_mc (w xx yy : mvec) (h : heap) : bout :=
  bbind (ensure_mc w h) (fun w h =>
    match m_alloc w, m_alloc xx, m_alloc yy with
    | Some lw, Some lx, Some ly =>
        match lmap (m_len w) (fun i => match nth_error lx i, nth_error ly i with Some a, Some b => Some (a * b)%R | _, _ => None end) lw with
        | Some l => BOk (mc_alloc w (Some l)) h
        | None => BUB
        end
    | _, _, _ => BUB
    end).
(** ceed-memcheck-vector.c:384-402 CeedVectorDestroy_Memcheck *)
Definition destroy_mc (x : mvec) (h : heap) : bout :=
  match m_owned x with
  | Some k => match h k with Some _ => BOk x (nupd h k None) | None => BUB end
  | None => BOk x h
  end.

(** ** The interface: all vectors *)
Record mworld := mkMW { w_mv : nat -> option mvec; w_mh : heap; w_mnv : nat; w_mnu : nat }.
Inductive mout (A : Type) := MOk (a : A) (w : mworld) | MErr (e : Z) (w : mworld) | MUB.
Arguments MOk {A}. Arguments MErr {A}. Arguments MUB {A}.
Definition empty_mworld : mworld := mkMW (fun _ => None) (fun _ => None) 0 0.
Definition putm (w : mworld) (v : nat) (x : mvec) (h : heap) : mworld := mkMW (nupd (w_mv w) v (Some x)) h (w_mnv w) (w_mnu w).
Definition mlive {A} (w : mworld) (v : nat) (k : mvec -> mout A) : mout A := match w_mv w v with Some x => k x | None => MUB end.
Definition mthen {A B} (m : mout A) (k : A -> mworld -> mout B) : mout B := match m with MOk a w => k a w | MErr e w => MErr e w | MUB => MUB end.
(** call the backend on vector [v]; [k] is what the interface does to it after success *)
Definition lift {A} (w : mworld) (v : nat) (b : bout) (k : mvec -> A * mvec) : mout A :=
  match b with
  | BOk x h => MOk (fst (k x)) (putm w v (snd (k x)) h)
  | BErr e x h => MErr e (putm w v x h)
  | BUB => MUB
  end.
Definition mbusy (x : mvec) : bool := negb (even (m_state x)).
Definition mlocked (x : mvec) : bool := mbusy x || negb (m_readers x =? 0).
Definition has {A} (o : option A) : bool := match o with Some _ => true | None => false end.
(** ceed-vector.c:52-63 CeedVectorHasValidArray, ceed-memcheck-vector.c:21-27 *)
Definition mvalid (x : mvec) : bool := Nat.eqb (m_len x) 0 || has (m_alloc x).
Definition empty (x : mvec) : bool := Nat.eqb (m_len x) 0.
Definition odone (x : mvec) : unit * mvec := (tt, x).

(** ceed-vector.c:161-179 CeedVectorCreate, ceed-memcheck-vector.c:407-434 *)
Definition mi_create (len : nat) (w : mworld) : mout nat :=
  MOk (w_mnv w) (mkMW (nupd (w_mv w) (w_mnv w) (Some (mkM len 0 0 1 None None None None None false false false))) (w_mh w) (S (w_mnv w)) (w_mnu w)).
(** ceed-vector.c:316-328 CeedVectorSetArray *)
Definition mi_set_array (v : nat) (host : bool) (mode : cmode) (a : asrc) (w : mworld) : mout unit :=
  mlive w v (fun x =>
    if mlocked x then MErr ERR_ACCESS w
    else lift w v (if empty x then BOk x (w_mh w) else set_array_mc x (w_mh w) host mode a) (fun x => odone (bumpm x 2))).
(** ceed-vector.c:448-471 CeedVectorTakeArray, ceed-memcheck-vector.c:32-40 *)
Definition mi_take (v : nat) (host : bool) (w : mworld) : mout ptr :=
  mlive w v (fun x =>
    if mlocked x then MErr ERR_ACCESS w
    else if empty x then MOk None w
    else if negb host then MErr ERR_BACKEND w
    else if negb (has (m_borrowed x)) then MErr ERR_BACKEND w
    else if negb (mvalid x) then MErr ERR_BACKEND w
    else lift w v (take_mc x (w_mh w) host) (fun x' => (option_map AU (m_borrowed x), x'))).
(** ceed-vector.c:490-512 CeedVectorGetArray; the pointer is to [m_wr] of [v] *)
Definition mi_get (v : nat) (host : bool) (w : mworld) : mout unit :=
  mlive w v (fun x =>
    if mlocked x then MErr ERR_ACCESS w
    else if empty x then MOk tt (putm w v (bumpm x 1) (w_mh w))
    else if negb (mvalid x) then MErr ERR_BACKEND w
    else lift w v (get_mc x (w_mh w) host) (fun x => odone (bumpm x 1))).
(** ceed-vector.c:528-549 CeedVectorGetArrayRead; the pointer is to [m_ro] of [v] *)
Definition mi_get_read (v : nat) (host : bool) (w : mworld) : mout unit :=
  mlive w v (fun x =>
    if mbusy x then MErr ERR_ACCESS w
    else if negb (mvalid x) then MErr ERR_BACKEND w
    else lift w v (if empty x then BOk x (w_mh w) else get_read_mc x (w_mh w) host) (fun x => odone (mc_readers x (add64 (m_readers x) 1)))).
(** ceed-vector.c:565-581 CeedVectorGetArrayWrite *)
Definition mi_get_write (v : nat) (host : bool) (w : mworld) : mout unit :=
  mlive w v (fun x =>
    if mlocked x then MErr ERR_ACCESS w
    else lift w v (if empty x then BOk x (w_mh w) else get_write_mc x (w_mh w) host) (fun x => odone (bumpm x 1))).
(** ceed-vector.c:593-602 CeedVectorRestoreArray *)
Definition mi_restore (v : nat) (w : mworld) : mout unit :=
  mlive w v (fun x =>
    if mbusy x then lift w v (if empty x then BOk x (w_mh w) else restore_mc x (w_mh w)) (fun x => odone (bumpm x 1))
    else MErr ERR_ACCESS w).
(** ceed-vector.c:614-624 CeedVectorRestoreArrayRead: the reader is gone also if the backend fails *)
Definition mi_restore_read (v : nat) (w : mworld) : mout unit :=
  mlive w v (fun x =>
    if 0 <? m_readers x then
      let x := mc_readers x (add64 (m_readers x) (-1)) in
      lift w v (if negb (empty x) && (m_readers x =? 0) then restore_read_mc x (w_mh w) else BOk x (w_mh w)) odone
    else MErr ERR_ACCESS w).
(** ceed-vector.c:340-358 CeedVectorSetValue *)
Definition mi_set_value (v : nat) (a : R) (w : mworld) : mout unit :=
  mlive w v (fun x => if mlocked x then MErr ERR_ACCESS w else lift w v (set_value_mc x (w_mh w) a) (fun x => odone (bumpm x 2))).
(** ceed-vector.c:375-398 CeedVectorSetValueStrided *)
Definition mi_set_value_strided (v : nat) (start stop step : Z) (a : R) (w : mworld) : mout unit :=
  mlive w v (fun x =>
    if mlocked x then MErr ERR_ACCESS w
    else if negb ((-1 <=? stop) && (stop <=? Z.of_nat (m_len x))) then MErr ERR_ACCESS w
    else lift w v (set_value_strided_mc x (w_mh w) start stop step a) (fun x => odone (bumpm x 2))).
(** ceed-vector.c:413-431 CeedVectorSyncArray *)
Definition mi_sync (v : nat) (host : bool) (w : mworld) : mout unit :=
  mlive w v (fun x =>
    if mbusy x then MErr ERR_ACCESS w
    else if empty x then MOk tt w
    else lift w v (sync_mc x (w_mh w) host) odone).
(** the buffer behind the pointer of an access to [v] *)
Definition abuf (o : option (list R)) : asrc := match o with Some l => ABuf l | None => ANull end.
(** ceed-vector.c:213-248 CeedVectorCopy *)
Definition mi_copy (v u : nat) (w : mworld) : mout unit :=
  mlive w v (fun x => mlive w u (fun y =>
    if negb (Nat.eqb (m_len x) (m_len y)) then MErr ERR_INCOMPATIBLE w
    else mthen (mi_get v true w) (fun _ w => mlive w v (fun x =>
         mthen (mi_set_array u true CopyValues (abuf (m_wr x)) w) (fun _ w => mi_restore v w))))).
(** ceed-vector.c:263-299 CeedVectorCopyStrided *)
Definition mi_copy_strided (v : nat) (start stop step : Z) (u : nat) (w : mworld) : mout unit :=
  mlive w v (fun x => mlive w u (fun y =>
    if (Nat.eqb (m_len x) 0 || Nat.eqb (m_len y) 0)%bool then MOk tt w
    else let len := Z.of_nat (Nat.min (m_len x) (m_len y)) in
    if negb ((-1 <=? stop) && (stop <=? len)) then MErr ERR_ACCESS w
    else if negb ((0 <=? start) && (start <=? len) && ((start <=? stop) || (stop =? -1))) then MErr ERR_ACCESS w
    else mthen (mi_get_read v true w) (fun _ w => mthen (mi_get u true w) (fun _ w =>
         mlive w v (fun x => mlive w u (fun y =>
           let stop := if stop =? -1 then len else stop in
           match m_ro x, m_wr y with
           | Some lr, Some lw =>
               match lsmap start stop step (getZ lr) lw with
               | Some lw => mthen (mi_restore_read v (putm w u (mc_wr y (Some lw) (m_wo y)) (w_mh w))) (fun _ w => mi_restore u w)
               | None => MUB
               end
           | _, _ => MUB
           end)))))).

Variables (fabs : R -> R) (gtb : R -> R -> bool) (sqrt : R -> R) (big : R -> bool) (inv : R -> R).
(** ceed-vector.c:661-676, the loops of CeedVectorNorm *)
Fixpoint lnorm (nt : ntype) (l : list R) (n : nat) (s : R) : option R :=
  match n with
  | O => Some s
  | S n => match l with
           | y :: l => lnorm nt l n match nt with
                                    | Norm1 => (s + fabs y)%R
                                    | Norm2 => (s + fabs y * fabs y)%R
                                    | NormMax => if gtb s (fabs y) then s else fabs y
                                    end
           | [] => None
           end
  end.
(** ceed-vector.c:640-686 CeedVectorNorm *)
Definition mi_norm (v : nat) (nt : ntype) (w : mworld) : mout R :=
  mlive w v (fun x =>
    if negb (mvalid x) then MErr ERR_BACKEND w
    else if empty x then MOk 0%R w
    else mthen (mi_get_read v true w) (fun _ w => mlive w v (fun x =>
         match m_ro x with
         | Some lr => match lnorm nt lr (m_len x) 0%R with
                      | Some s => mthen (mi_restore_read v w) (fun _ w => MOk match nt with Norm2 => sqrt s | _ => s end w)
                      | None => MUB
                      end
         | None => MUB
         end))).
(** ceed-vector.c:698-722 CeedVectorScale: with a backend function neither the access lock nor the state is touched *)
Definition mi_scale (v : nat) (alpha : R) (w : mworld) : mout unit :=
  mlive w v (fun x =>
    if negb (mvalid x) then MErr ERR_BACKEND w
    else if empty x then MOk tt w
    else lift w v (modify_mc (fun a => (a * alpha)%R) x (w_mh w)) odone).
(** ceed-vector.c:735-789 CeedVectorAXPY and 803-857 CeedVectorAXPBY, of one Ceed *)
Definition mi_axp (f : R -> R -> R) (y x : nat) (w : mworld) : mout unit :=
  mlive w y (fun yy => mlive w x (fun xx =>
    if negb (Nat.eqb (m_len xx) (m_len yy)) then MErr ERR_UNSUPPORTED w
    else if Nat.eqb x y then MErr ERR_UNSUPPORTED w
    else if negb (mvalid xx) then MErr ERR_BACKEND w
    else if negb (mvalid yy) then MErr ERR_BACKEND w
    else if empty yy then MOk tt w
    else lift w y (axp_mc f yy xx (w_mh w)) odone)).
(** ceed-vector.c:876-954 CeedVectorPointwiseMult, of one Ceed *)
Definition mi_mult (v x y : nat) (w : mworld) : mout unit :=
  mlive w v (fun vv => mlive w x (fun xx => mlive w y (fun yy =>
    if negb (Nat.leb (m_len vv) (m_len xx) && Nat.leb (m_len vv) (m_len yy)) then MErr ERR_UNSUPPORTED w
    else if negb (mvalid xx) then MErr ERR_BACKEND w
    else if negb (mvalid yy) then MErr ERR_BACKEND w
    else if empty vv then MOk tt w
    else lift w v (mult_mc vv xx yy (w_mh w)) odone))).
(** ceed-vector.c:965-994 CeedVectorReciprocal *)
Definition mi_recip (v : nat) (w : mworld) : mout unit :=
  mlive w v (fun x =>
    if negb (mvalid x) then MErr ERR_BACKEND w
    else if negb (0 <? m_state x) then MErr ERR_INCOMPLETE w
    else if empty x then MOk tt w
    else lift w v (modify_mc (fun a => if big a then inv a else a) x (w_mh w)) odone).
(** ceed-vector.c:137-140 CeedVectorReference *)
Definition mi_reference (v : nat) (w : mworld) : mout unit := mlive w v (fun x => MOk tt (putm w v (mc_refs x (m_refs x + 1)) (w_mh w))).
(** ceed-vector.c:1106-1119 CeedVectorDestroy *)
Definition mi_destroy (v : nat) (w : mworld) : mout unit :=
  mlive w v (fun x =>
    let x := mc_refs x (m_refs x - 1) in
    let w := putm w v x (w_mh w) in
    if 0 <? m_refs x then MOk tt w
    else if mlocked x then MErr ERR_ACCESS w
    else match destroy_mc x (w_mh w) with
         | BOk _ h => MOk tt (mkMW (nupd (w_mv w) v None) h (w_mnv w) (w_mnu w))
         | BErr e _ _ => MErr e w
         | BUB => MUB
         end).

(** ** Histories *)
(** the actions of VecModel, and a client that writes through a pointer granted for reading *)
Inductive mcmd := MBase (c : cmd R) | MWriteRead (v : nat) (i : nat) (x : R).
Definition mdone {A} (m : mout A) : mout (obs R) := mthen m (fun _ w => MOk ODone w).
(** set the client's pointer variable after a call *)
Definition after (v : nat) (f : mvec -> mvec) (m : mout unit) : mout (obs R) :=
  mthen m (fun _ w => mlive w v (fun x => MOk ODone (putm w v (f x) (w_mh w)))).
Definition msrc (s : src) (w : mworld) : asrc :=
  match s with
  | SNull => ANull
  | SUser n => ABlock n
  | SRead u => match w_mv w u with Some z => match m_rp z, m_ro z with true, Some l => ABuf l | _, _ => ABad end | None => ABad end
  | SWrite u => match w_mv w u with Some z => match m_wp z, m_wr z with true, Some l => ABuf l | _, _ => ABad end | None => ABad end
  end.
(** the client accesses entry [i] of the buffer [o], the pointer variable being set ([p]) *)
Definition peek (p : bool) (o : option (list R)) (i : nat) : option R := if p then match o with Some l => nth_error l i | None => None end else None.
Definition poke (p : bool) (o : option (list R)) (i : nat) (a : R) : option (list R) := if p then match o with Some l => set l i a | None => None end else None.
Definition mbstep (c : cmd R) (w : mworld) : mout (obs R) :=
  match c with
  | CCreate len => mthen (mi_create len w) (fun v w => MOk (OId v) w)
  | CSetArray v host mode s => mdone (mi_set_array v host mode (msrc s w) w)
  | CTake v host => mthen (mi_take v host w) (fun p w => MOk (OPtr p) w)
  | CGet v host => after v (fun x => mc_wp x true) (mi_get v host w)
  | CGetRead v host => after v (fun x => mc_rp x true) (mi_get_read v host w)
  | CGetWrite v host => after v (fun x => mc_wp x true) (mi_get_write v host w)
  | CRestore v => after v (fun x => mc_wp x false) (mi_restore v w)
  | CRestoreRead v => after v (fun x => mc_rp x (m_rp x && has (m_ro x))) (mi_restore_read v w)
  | CSetValue v x => mdone (mi_set_value v x w)
  | CSetValueStrided v start stop step x => mdone (mi_set_value_strided v start stop step x w)
  | CSync v host => mdone (mi_sync v host w)
  | CCopy v u => mdone (mi_copy v u w)
  | CCopyStrided v start stop step u => mdone (mi_copy_strided v start stop step u w)
  | CNorm v nt => mthen (mi_norm v nt w) (fun x w => MOk (OVal x) w)
  | CScale v alpha => mdone (mi_scale v alpha w)
  | CAxpy y alpha x => mdone (mi_axp (fun a b => (b + alpha * a)%R) y x w)
  | CAxpby y alpha beta x => mdone (mi_axp (fun a b => (alpha * a + beta * b)%R) y x w)
  | CMult v x y => mdone (mi_mult v x y w)
  | CRecip v => mdone (mi_recip v w)
  | CRef v => mdone (mi_reference v w)
  | CDestroy v => mdone (mi_destroy v w)
  | UAlloc l => MOk ODone (mkMW (w_mv w) (nupd (w_mh w) (w_mnu w) (Some l)) (w_mnv w) (S (w_mnu w)))
  | UFree n => match w_mh w n with Some _ => MOk ODone (mkMW (w_mv w) (nupd (w_mh w) n None) (w_mnv w) (w_mnu w)) | None => MUB end
  | URead n i => match w_mh w n with Some l => match nth_error l i with Some x => MOk (OVal x) w | None => MUB end | None => MUB end
  | UWrite n i a => match w_mh w n with
                    | Some l => match set l i a with Some l => MOk ODone (mkMW (w_mv w) (nupd (w_mh w) n (Some l)) (w_mnv w) (w_mnu w)) | None => MUB end
                    | None => MUB
                    end
  | VRead v i => mlive w v (fun x => match peek (m_rp x) (m_ro x) i with Some a => MOk (OVal a) w | None => MUB end)
  | VReadW v i => mlive w v (fun x => match peek (m_wp x) (m_wr x) i with Some a => MOk (OVal a) w | None => MUB end)
  | VWrite v i a => mlive w v (fun x => match poke (m_wp x) (m_wr x) i a with Some l => MOk ODone (putm w v (mc_wr x (Some l) (m_wo x)) (w_mh w)) | None => MUB end)
  end.
Definition mstep (c : mcmd) (w : mworld) : mout (obs R) :=
  match c with
  | MBase c => mbstep c w
  | MWriteRead v i a => mlive w v (fun x => match poke (m_rp x) (m_ro x) i a with Some l => MOk ODone (putm w v (mc_ro x (Some l)) (w_mh w)) | None => MUB end)
  end.
Fixpoint mrun (cs : list mcmd) (w : mworld) : option (list (obs R + Z) * mworld) :=
  match cs with
  | [] => Some ([], w)
  | c :: cs => match mstep c w with
               | MOk o w => match mrun cs w with Some (os, w) => Some (inl o :: os, w) | None => None end
               | MErr e w => match mrun cs w with Some (os, w) => Some (inr e :: os, w) | None => None end
               | MUB => None
               end
  end.
End Mc.
Arguments lstrided {R}. Arguments lsmap {R}. Arguments lmap {R}. Arguments same {R}. Arguments cpy {R}. Arguments cpy_out {R}. Arguments lnorm {R}.
Arguments ABuf {R}. Arguments BUB {R}. Arguments ANull {R}. Arguments ABlock {R}. Arguments ABad {R}. Arguments MOk {R A}. Arguments MErr {R A}. Arguments MUB {R A}. Arguments empty_mworld {R}.
Arguments set_array_mc {R}. Arguments ensure_mc {R}. Arguments mstep {R}. Arguments mbstep {R}. Arguments mrun {R}. Arguments peek {R}. Arguments poke {R}. Arguments abuf {R}.
