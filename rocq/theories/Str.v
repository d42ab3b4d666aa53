(* Model of StrT<char> (include/bss-util/Str.h).  A string is the list of its characters as numbers 0..255, without the
   terminating 0; char is signed, so that characters from 128 on compare less than 33 (gcc on x86). *)
From Coq Require Import ZArith List Bool.
From Verif Require Import Common JSON.
Import ListNotations.
Local Open Scope Z_scope.

(** the value of a char *)
Definition schar (c : Z) : Z := if c <? 128 then c else c - 256.
(** Str.h 311: the loop of _rtrim from position i down; position length s holds the terminating 0.  The position it stops at *)
Fixpoint rtrim_index (s : list Z) (i : nat) : nat :=
  match i with
  | O => O
  | S j => if schar (nth i s 0) <? 33 then rtrim_index s j else i
  end.
(** Str.h 310: _ltrim *)
Fixpoint ltrim (s : list Z) : list Z :=
  match s with
  | c :: t => if (0 <? schar c) && (schar c <? 33) then ltrim t else s
  | [] => []
  end.
(** Str.h 180, 311: Trim; _rtrim writes a 0 behind the position its loop stops at.  For the empty string this is a write
    at position 1, behind the terminating 0; it is inside the buffer that the common implementations of std::string keep
    in the object and is taken to have no effect *)
Definition Trim (s : list Z) : list Z := ltrim (c_str (firstn (S (rtrim_index s (length s))) s)).
