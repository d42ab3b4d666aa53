(* Model of strtok_r (bss-util/bss_util_c.c:290-332).  wcstok_r (335-381) is the same function over wchar_t.
   Memory is one buffer of characters; a pointer is a position in it and reading or writing outside is UB.
   The delimiters are the characters of their own string before its terminator; that string is taken not to
   overlap the buffer. *)
From Coq Require Import ZArith List Bool.
From Verif Require Import Common.
Import ListNotations.
Local Open Scope Z_scope.

(** bss_util_c.c:303-307: the scan of delim up to its terminator *)
Fixpoint span_delim (c : Z) (delim : list Z) : bool :=
  match delim with [] => false | sc :: t => if c =? sc then true else span_delim c t end.
(** bss_util_c.c:301-307: skip leading delimiters; the first other character and the position behind it *)
Fixpoint tok_skip (fuel : nat) (buf : list Z) (s : nat) (delim : list Z) : res (Z * nat) :=
  match fuel with
  | O => OutOfFuel
  | S f => do c <- get buf s; if span_delim c delim then tok_skip f buf (S s) delim else Ok (c, S s)
  end.
(** bss_util_c.c:320-330: the scan of delim including its terminator *)
Fixpoint scan_delim (c : Z) (delim : list Z) : bool :=
  match delim with [] => c =? 0 | sc :: t => if sc =? c then true else scan_delim c t end.
(** bss_util_c.c:316-331: scan the token; the buffer and the new *lasts *)
Fixpoint tok_scan (fuel : nat) (buf : list Z) (s : nat) (delim : list Z) : res (list Z * option nat) :=
  match fuel with
  | O => OutOfFuel
  | S f =>
      do c <- get buf s;
      if scan_delim c delim then
        if c =? 0 then Ok (buf, None)
        else do buf' <- set buf s 0; Ok (buf', Some (S s))
      else tok_scan f buf (S s) delim
  end.
(** bss_util_c.c:290-332 [strtok_r]: the buffer, *lasts and the token returned; None is the null pointer *)
Definition strtok_r (buf : list Z) (s : option nat) (delim : list Z) (lasts : option nat)
  : res (list Z * option nat * option nat) :=
  match (match s with Some p => Some p | None => lasts end) with
  | None => Ok (buf, lasts, None)
  | Some p =>
      do cs <- tok_skip (S (length buf)) buf p delim;
      let (c, s1) := cs in
      if c =? 0 then Ok (buf, None, None)
      else do bl <- tok_scan (S (length buf)) buf s1 delim;
           Ok (fst bl, snd bl, Some (s1 - 1)%nat)
  end.
