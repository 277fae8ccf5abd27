(** * What a client of CeedQFunctionApply may expect, and the rules the memcheck backend asks of the user's function

    Stated over the abstract vectors of VecSpec with the notes of McSpec, and contexts that are just data with a lock.
    [sapply] is [None] if a rule is broken:
    - the function does not write its inputs, nor a context it was given for reading;
    - it reads entries of its outputs only after it has written them;
    - when it returns 0, the first [size * Q] entries of every output are written, and none is a NaN;
    - the source file named at creation, if any, can be found. *)
From Coq Require Import List ZArith Lia Bool Arith.
From Verif Require Import Prelude RstrModel BasisModel StrModel QfModel VecModel VecSpec McModel McSpec MqModel.
Import ListNotations.
Set Implicit Arguments.
Local Open Scope Z_scope.

Section S.
Variable R : Rng.
Variable D : Type.
Variables (fs : fsys) (roots : list str) (isnan : R -> bool).
Variables (fabs : R -> R) (gtb : R -> R -> bool) (sqrt : R -> R) (big : R -> bool) (inv : R -> R).

(** a context: held for writing, number of readers, data *)
Record sctx := mkSC { sc_held : bool; sc_rd : Z; sc_val : option D }.
Record sconf := mkSF { sf_s : astate R; sf_g : ghost; sf_k : nat -> option sctx; sf_n : nat }.
Definition sk (c : sconf) (n : nat) (k : sctx) := mkSF (sf_s c) (sf_g c) (nupd (sf_k c) n (Some k)) (sf_n c).
Definition sw (c : sconf) (s : astate R) (g : ghost) := mkSF s g (sf_k c) (sf_n c).

(** one vector call that keeps the rules: what the caller sees *)
Definition vec (x : cmd R) (c : sconf) : option ((obs R + Z) * sconf) :=
  match strict x (sf_s c) (sf_g c) with
  | None => None
  | Some g => match astep fabs gtb sqrt big inv x (sf_s c) with
              | AOk o s => Some (inl o, sw c s g)
              | AErr e s => Some (inr e, sw c s g)
              | AIll => None
              end
  end.
(** calls until one fails; the second component is the error *)
Fixpoint until (xs : list (cmd R)) (c : sconf) : option (sconf * option Z) :=
  match xs with
  | [] => Some (c, None)
  | x :: xs => match vec x c with
               | Some (inl _, c) => until xs c
               | Some (inr e, c) => Some (c, Some e)
               | None => None
               end
  end.

(** holding and giving back a context *)
Definition hold (wr : bool) (k : sctx) : sctx + Z :=
  if sc_held k then inr 1
  else if wr && negb (sc_rd k =? 0) then inr 1
  else match sc_val k with
       | None => inr ERR_BACKEND
       | Some _ => inl (if wr then mkSC true (sc_rd k) (sc_val k) else mkSC (sc_held k) (sc_rd k + 1) (sc_val k))
       end.
Definition release (wr : bool) (k : sctx) : sctx := if wr then mkSC false (sc_rd k) (sc_val k) else mkSC (sc_held k) (sc_rd k - 1) (sc_val k).

(** the user's function *)
Fixpoint body (U V : list nat) (x : option (nat * bool)) (p : prog R D) (c : sconf) : option (Z * sconf) :=
  match p with
  | Ret rc => Some (rc, c)
  | RdIn i j k => match nth_error U i with
                  | Some v => match vec (VRead v j) c with Some (inl (OVal a), c) => body U V x (k a) c | _ => None end
                  | None => None
                  end
  | RdOut i j k => match nth_error V i with
                   | Some v => match vec (VReadW v j) c with Some (inl (OVal a), c) => body U V x (k a) c | _ => None end
                   | None => None
                   end
  | WrOut i j a p => match nth_error V i with
                     | Some v => match vec (VWrite v j a) c with Some (inl _, c) => body U V x p c | _ => None end
                     | None => None
                     end
  | WrIn i j a p => None
  | RdCtx k => match x with
               | Some (n, _) => match sf_k c n with Some kk => match sc_val kk with Some d => body U V x (k d) c | None => None end | None => None end
               | None => None
               end
  | WrCtx d p => match x with
                 | Some (n, true) => match sf_k c n with Some kk => body U V x p (sk c n (mkSC (sc_held kk) (sc_rd kk) (Some d))) | None => None end
                 | _ => None
                 end
  end.
(** entry [j] of output [v] is set, and to a number *)
Definition filled (c : sconf) (v j : nat) : bool :=
  g_def (sf_g c) v j &&
  match s_vecs (sf_s c) v with
  | Some y => Nat.ltb j (a_len y) && match conts (sf_s c) y with Some l => negb (isnan (vf l j)) | None => false end
  | None => false
  end.
Definition complete (c : sconf) (Q : Z) (V : list nat) (sizes : list Z) : bool :=
  forallb (fun p => forallb (filled c (fst p)) (seq 0 (Z.to_nat (snd p * Q)))) (combine V sizes).
Definition src_found (q : qfun) : bool :=
  match q_get_source_path fs roots q with
  | (Ok _, q') => match fst (q_get_kernel_name q') with Ok _ => true | _ => false end
  | _ => false
  end.
(** the backend part: the context is taken first, then the inputs, then the outputs; after a failure everything taken
    so far stays taken *)
Definition sbackend (q : qfun) (x : option (nat * bool)) (f : prog R D) (Q : Z) (U V : list nat) (c : sconf) : option (option Z * sconf) :=
  match (match x with
         | None => Some (c, None)
         | Some (n, wr) => match sf_k c n with
                           | None => None
                           | Some k => match hold wr k with inl k => Some (sk c n k, None) | inr e => Some (c, Some e) end
                           end
         end) with
  | None => None
  | Some (c, Some e) => Some (Some e, c)
  | Some (c, None) =>
    match until (map (fun v => CGetRead v true) U ++ map (fun v => CGetWrite v true) V) c with
    | None => None
    | Some (c, Some e) => Some (Some e, c)
    | Some (c, None) =>
      match body U V x f c with
      | None => None
      | Some (rc, c) =>
        if negb (rc =? 0) then Some (Some rc, c)
        else if negb (src_found q) then None
        else if negb (complete c Q V (map qf_size (q_out q))) then None
        else match until (map CRestoreRead U ++ map CRestore V) c with
             | Some (c, None) => match x with
                                 | None => Some (None, c)
                                 | Some (n, wr) => match sf_k c n with Some k => Some (None, sk c n (release wr k)) | None => None end
                                 end
             | _ => None
             end
      end
    end
  end.
(** positive codes become CEED_ERROR_BACKEND on the way out of a backend *)
Definition sapply (q : qfun) (x : option (nat * bool)) (f : prog R D) (Q : Z) (U V : list nat) (c : sconf) : option ((hobs R D + Z) * sconf) :=
  if q_vlen q =? 0 then None
  else if negb (Z.rem Q (q_vlen q) =? 0) then Some (inr ERR_DIMENSION, c)
  else if (Nat.ltb (length U) (length (q_in q)) || Nat.ltb (length V) (length (q_out q)))%bool then None
  else match sbackend q x f Q (firstn (length (q_in q)) U) (firstn (length (q_out q)) V) c with
       | None => None
       | Some (None, c) => Some (inl OUnit, c)
       | Some (Some e, c) => Some (inr (if 0 <? e then ERR_BACKEND else e), c)
       end.
(** the data of a context are not replaced while somebody reads them *)
Definition sstep (h : hcmd R D) (c : sconf) : option ((hobs R D + Z) * sconf) :=
  match h with
  | HVec x => match vec x c with Some (inl o, c) => Some (inl (OV o), c) | Some (inr e, c) => Some (inr e, c) | None => None end
  | HApply q x f Q U V => sapply q x f Q U V c
  | HCtx => Some (inl (ON (sf_n c)), mkSF (sf_s c) (sf_g c) (nupd (sf_k c) (sf_n c) (Some (mkSC false 0 None))) (S (sf_n c)))
  | HSet n d => match sf_k c n with
                | None => None
                | Some k => if sc_held k then Some (inr 1, c)
                            else if negb (sc_rd k =? 0) then None
                            else Some (inl OUnit, sk c n (mkSC false 0 (Some d)))
                end
  | HRead n => match sf_k c n with
               | None => None
               | Some k => if sc_held k then Some (inr 1, c)
                           else match sc_val k with Some d => Some (inl (OD d), c) | None => Some (inr ERR_BACKEND, c) end
               end
  end.
Fixpoint shrun (hs : list (hcmd R D)) (c : sconf) : option (list (hobs R D + Z) * sconf) :=
  match hs with
  | [] => Some ([], c)
  | h :: hs => match sstep h c with
               | Some (o, c) => match shrun hs c with Some (os, c) => Some (o :: os, c) | None => None end
               | None => None
               end
  end.
Definition sempty : sconf := mkSF empty_astate no_ghost (fun _ => None) 0.
End S.
