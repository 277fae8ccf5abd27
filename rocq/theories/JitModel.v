(** * Source loading for just-in-time compilation

    Model of interface/ceed-jit-tools.c: path normalisation and the recursive
    expansion of include lines.  Files contain no NUL character. *)
From Coq Require Import List ZArith Lia Bool Arith Ascii String.
From Verif Require Import Prelude RstrModel StrModel QfModel.
Import ListNotations.
Set Implicit Arguments.
Local Open Scope char_scope.
Local Open Scope nat_scope.

Definition chr_at (s : str) (i : nat) (c : ascii) : bool :=
  match nth_error s i with Some x => Ascii.eqb x c | None => false end.

(** the loop at ceed-jit-tools.c:98: walk back from index [i] to a slash or to the start *)
Fixpoint back_slash (s : str) (i : nat) : nat :=
  match i with
  | 0 => 0
  | S i' => if chr_at s i "/" then i else back_slash s i'
  end.
(** ceed-jit-tools.c:75-107 CeedNormalizePath, the loop over the dots: [from] is search_from as an index.
    [fuel] bounds the iterations (see [normalize]).  For a dot at index 1 the walk back starts at
    index -1, outside the string. *)
Fixpoint norm_loop (fuel : nat) (s : str) (from : nat) : res str :=
  match fuel with
  | 0 => UB
  | S fuel' =>
    match strchr (skipn from s) "." with
    | None => Ok s
    | Some k =>
      let d := from + k in
      let sl := List.length s - d in
      let is_here := negb (d =? 0) && (2 <? sl) && chr_at s (d - 1) "/" && chr_at s (d + 1) "/" in
      if is_here then norm_loop fuel' (firstn d s ++ skipn (d + 2) s) d
      else
        let is_up := negb (d =? 0) && (3 <? sl) && chr_at s (d - 1) "/" && chr_at s (d + 1) "." && chr_at s (d + 2) "/" in
        if is_up then
          if d =? 1 then UB
          else let ls := back_slash s (d - 2) in
               if ls =? 0 then Err ERR_MAJOR
               else norm_loop fuel' (firstn ls s ++ skipn (d + 2) s) ls
        else norm_loop fuel' s (S d)
    end
  end.
(** every iteration shortens what is left of the string after search_from, so length + 1 iterations are enough *)
Definition normalize (s : str) : res str := norm_loop (S (List.length s)) s 0.

(** ** Loading *)
Definition NL : ascii := "010".
Definition QUOTE : ascii := "034".

Definition starts_with (p s : str) : bool := common p s =? List.length p.
(** characters [1 .. n-1] of [h] are spaces *)
Definition spaces_upto (h : str) (n : nat) : bool := forallb (fun i => chr_at h i " ") (seq 1 (n - 1)).
(** ceed-jit-tools.c:167-177: [h] is the text from the hash on; the character just before "pragma" is not looked at *)
Definition is_pragma (h : str) : bool :=
  match strchr h "m" with
  | Some m => (5 <=? m) && seqb (firstn 6 (skipn (m - 4) h)) (lit "pragma") && spaces_upto h (m - 5)
  | None => false
  end.
(** ceed-jit-tools.c:196-206 *)
Definition is_include (h : str) : bool :=
  match strchr h "e" with
  | Some e => (7 <=? e) && seqb (firstn 7 (skipn (e - 6) h)) (lit "include") && spaces_upto h (e - 6)
  | None => false
  end.
(** ceed-jit-tools.c:180-182; [nl] is the index of the next newline *)
Definition is_once (h : str) (nl : nat) : bool :=
  match strchr h "o" with
  | Some o => (o <? nl) && starts_with (lit "once") (skipn o h)
  | None => false
  end.
Definition is_local (h : str) (nl : nat) : bool := match strchr h QUOTE with Some q => q <? nl | None => false end.
Definition chevron (h : str) (nl : nat) (ps : list str) : bool :=
  match strchr h "<" with
  | Some c => (c <? nl) && existsb (fun p => starts_with p (skipn c h)) ps
  | None => false
  end.
(** ceed-jit-tools.c:217-224 *)
Definition is_ceed (h : str) (nl : nat) : bool :=
  chevron h nl [lit "<ceed/jit-source/"; lit "<ceed/types.h>"; lit "<ceed/ceed-f32.h>"; lit "<ceed/ceed-f64.h>"].
Definition is_std (h : str) (nl : nat) : bool := chevron h nl [lit "<std"; lit "<math.h>"; lit "<ceed"].

(** text between index [a] (exclusive) and [b] *)
Definition between (h : str) (a b : nat) : str := firstn (b - a - 1) (skipn (S a) h).

(** The file system: contents of the readable files *)
Definition files := str -> option str.
Definition opens (fs : files) : fsys := fun p => match fs p with Some _ => true | None => false end.

(** ceed-jit-tools.c:226-251: absolute path of the header named on the line *)
Definition include_path (fs : files) (roots : list str) (path h : str) (nl : nat) : res str :=
  if is_local h nl then
    match strrchr path "/", strchr h QUOTE with
    | Some r, Some q => match strchr (skipn (S q) h) QUOTE with
                        | Some k => Ok (firstn (S r) path ++ firstn k (skipn (S q) h))
                        | None => UB
                        end
    | _, _ => UB
    end
  else
    match strchr h "<", strchr h ">" with
    | Some l, Some r => if r <=? l then UB else jit_absolute (opens fs) roots (between h l r)
    | _, _ => UB
    end.

(** Appending to the buffer (ceed-jit-tools.c:188-191, 212-215): a newline and the chunk are written,
    then the terminator replaces the last character written *)
Definition append_cut (buf chunk : str) : str := buf ++ removelast (NL :: chunk).

(** State: paths already included, buffer *)
Definition lstate := (list str * str)%type.

Section Scan.
Variable fs : files.
Variable roots : list str.
Variable rec : str -> lstate -> option (res lstate).
Variable path text : str.

(** ceed-jit-tools.c:161-283, one hash at index [pos]: [h] is the text from there on, [off] is file_offset.
    [None] is a computation that does not end. *)
Definition do_hash (h : str) (pos off : nat) (st : lstate) : option (res (nat * lstate)) :=
  let st1 :=
    if is_pragma h then
      match strchr h NL with
      | None => UB
      | Some nl =>
        if pos <? off then UB
        else let stop := if is_once h nl then pos else pos + nl + 1 in
             Ok (pos + nl + 1, (fst st, append_cut (snd st) (firstn (stop - off) (skipn off text))))
      end
    else Ok (off, st) in
  match st1 with
  | Ok (off1, (inc, buf)) =>
    if is_include h then
      match strchr h NL with
      | None => Some UB
      | Some nl =>
        if pos <? off1 then Some UB
        else
          let buf1 := append_cut buf (firstn (pos - off1) (skipn off1 text)) in
          if is_local h nl || is_ceed h nl then
            match include_path fs roots path h nl with
            | Ok ip =>
              match normalize ip with
              | Ok np =>
                if existsb (seqb np) inc then Some (Ok (pos + nl + 1, (inc, buf1)))
                else match rec np (inc, buf1) with
                     | None => None
                     | Some (Ok (inc2, buf2)) => Some (Ok (pos + nl + 1, (inc2 ++ [np], buf2)))
                     | Some (Err c) => Some (Err c)
                     | Some UB => Some UB
                     end
              | Err c => Some (Err c)
              | UB => Some UB
              end
            | Err c => Some (Err c)
            | UB => Some UB
            end
          else if is_std h nl then Some (Ok (pos + nl + 1, (inc, buf1)))
          else Some (Ok (pos + nl + 1, (inc, append_cut buf1 (firstn (S nl) h))))
      end
    else Some (Ok (off1, (inc, buf)))
  | Err c => Some (Err c)
  | UB => Some UB
  end.
(** the loop over the hashes; [suf] is the text from index [pos] on.  At the end the rest of the
    file is appended (ceed-jit-tools.c:285-292). *)
Fixpoint scan (suf : str) (pos off : nat) (st : lstate) : option (res lstate) :=
  match suf with
  | [] => Some (Ok (fst st, snd st ++ NL :: skipn off text))
  | c :: t =>
    if Ascii.eqb c "#" then
      match do_hash suf pos off st with
      | None => None
      | Some (Ok (off', st')) => scan t (S pos) off' st'
      | Some (Err e) => Some (Err e)
      | Some UB => Some UB
      end
    else scan t (S pos) off st
  end.
End Scan.

(** ceed-jit-tools.c:124-296 CeedLoadSourceToInitializedBuffer with nesting depth at most [fuel]; [None] means the
    depth was not enough.  An empty file cannot be read: fread of a block of size 0 returns 0
    (ceed-jit-tools.c:152). *)
Fixpoint load (fs : files) (roots : list str) (fuel : nat) (path : str) (st : lstate) : option (res lstate) :=
  match fuel with
  | 0 => None
  | S fuel' =>
    match fs path with
    | None => Some (Err ERR_MAJOR)
    | Some [] => Some (Err ERR_MAJOR)
    | Some text => scan fs roots (load fs roots fuel') path text text 0 0 st
    end
  end.
(** ceed-jit-tools.c:339-350 CeedLoadSourceToBuffer *)
Definition load_buffer (fs : files) (roots : list str) (fuel : nat) (path : str) : option (res str) :=
  match load fs roots fuel path ([], []) with
  | Some (Ok (_, buf)) => Some (Ok buf)
  | Some (Err c) => Some (Err c)
  | Some UB => Some UB
  | None => None
  end.
