(* Model of the conversions between strings of char and char32_t in Str.h. *)
From Coq Require Import List ZArith Bool.
From Verif Require Import Common Utf.
Import ListNotations.
Local Open Scope Z_scope.

(** resize of std::basic_string: new places are zero *)
Definition resize (s : list Z) (n : nat) : list Z := if (n <=? length s)%nat then firstn n s else s ++ repeat 0 (n - length s).
(** Str.h:283-308 _convStr and _convStr2, into an empty string.  [conv] is the converter (lines 38, 96), [slack] is what capacity() is more than
    size() after the first resize, which the library chooses.  None: resize(r - 1) with r = 0 asks for SIZE_MAX chars, so that it throws
    std::length_error.  The converters never return ~0 *)
Definition convStr (conv : list Z -> Z -> option nat -> res (list Z * nat)) (slack : nat) (src : list Z) (len : Z) : res (option (list Z)) :=
  do (_, r) <- conv src len None;
  let size := r in
  do (out, r) <- conv src len (Some (size + slack)%nat);
  let s := firstn size (out ++ repeat 0 size) in
  match r with
  | O => Ok None
  | S r' => Ok (Some (resize s r'))
  end.
(** Str.h:128-131 Str from a text of char32_t, StrT<char32_t> from a text of char: up to the terminator, or with a count *)
Definition str_of_u32 (slack : nat) (text : list Z) : res (option (list Z)) := convStr UTF32toUTF8 slack text (-1).
Definition str_of_u32_count (slack : nat) (text : list Z) (count : nat) : res (option (list Z)) := convStr UTF32toUTF8 slack text (Z.of_nat count).
Definition u32_of_str (slack : nat) (text : list Z) : res (option (list Z)) := convStr UTF8toUTF32 slack text (-1).
Definition u32_of_str_count (slack : nat) (text : list Z) (count : nat) : res (option (list Z)) := convStr UTF8toUTF32 slack text (Z.of_nat count).
(** Str.h:124-125, 163-164 from a string of the other kind; c_str has a terminator *)
Definition str_of_StrT32 (slack : nat) (s : list Z) : res (option (list Z)) := convStr UTF32toUTF8 slack (s ++ [0]) (Z.of_nat (length s) + 1).
Definition StrT32_of_str (slack : nat) (s : list Z) : res (option (list Z)) := convStr UTF8toUTF32 slack (s ++ [0]) (Z.of_nat (length s) + 1).
