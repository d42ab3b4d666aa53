(* Model of the string hash and equality functions of Hash.h:38-83.
   A string is an array of (signed) char values read up to its terminator; reading beyond the array is undefined. *)
From Coq Require Import List Arith ZArith Bool Lia.
From Verif Require Import Common.
Import ListNotations.
Local Open Scope Z_scope.

(** Hash.h:53, 56: [the character, plus 32 if between 65 and 90]. *)
Definition lower (c : Z) : Z := if (64 <? c) && (c <? 91) then c + 32 else c.

(** Hash.h:45-46, 55-56: [for(++s; *s; ++s) h = (h << 5) - h + f(c), c the current character] in 32-bit unsigned arithmetic, from index i.
    Recursion on the part of the array from i. *)
Fixpoint hash_loop (f : Z -> Z) (s : list Z) (h : Z) : res Z :=
  match s with
  | [] => UB
  | c :: s => if c =? 0 then Ok h else hash_loop f s (wrap 32 (wrap 32 (wrap 32 (Z.shiftl h 5) - h) + f c))
  end.
(** Hash.h:41-48, 50-58: the first character, then the loop if it is not 0. *)
Definition str_hash (f : Z -> Z) (s : list Z) : res Z :=
  match s with
  | [] => UB
  | c :: s => let h := wrap 32 (f c) in if h =? 0 then Ok h else hash_loop f s h
  end.
(** Hash.h:40-48 [KH_STR_HASH<char, false>]. *)
Definition KH_STR_HASH (s : list Z) : res Z := str_hash (fun c => c) s.
(** Hash.h:49-58 [KH_STR_HASH<char, true>]. *)
Definition KH_STR_HASH_INS (s : list Z) : res Z := str_hash lower s.

(** The C library comparison used by Hash.h:80-83 (strcmp, and STRICMP = strcasecmp in the "C" locale with g = lower):
    reads both strings until they differ or end. Not part of /repo; this is its documented behaviour. *)
Fixpoint str_equal (g : Z -> Z) (a b : list Z) : res bool :=
  match a, b with
  | x :: a, y :: b => if g x =? g y then if x =? 0 then Ok true else str_equal g a b else Ok false
  | _, _ => UB
  end.
(** Hash.h:80 [KH_STR_EQUAL<char, false>]. *)
Definition KH_STR_EQUAL (a b : list Z) : res bool := str_equal (fun c => c) a b.
(** Hash.h:82 [KH_STR_EQUAL<char, true>]. *)
Definition KH_STR_EQUAL_INS (a b : list Z) : res bool := str_equal lower a b.
