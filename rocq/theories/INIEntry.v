(* Model of the values of an INIentry (bss-util/INIentry.cpp:12-60, include/bss-util/INIentry.h).  A text is the
   list of its characters before the terminator.  double is IEEE binary64: a real number in the format, with
   conversions rounded to nearest, ties to even; a number too large for it is kept as a real, which only matters
   where it is converted to int64_t, and that is UB in either case.  The C library functions follow the C
   standard with the saturation of the POSIX and Microsoft libraries.  Texts that contain a point and start like
   an infinity, a NaN or a hexadecimal floating-point number with sign are read as decimal numbers, that is as
   zero. *)
From Coq Require Import Reals ZArith List Bool.
From Flocq Require Import Core.
From Verif Require Import Common JSON.
Import ListNotations.
Local Open Scope Z_scope.

(** Conversion to double *)
Definition rnd64 (x : R) : R := round radix2 (FLT_exp (-1074) 53) ZnearestE x.

(** INIentry.h:57-60 the members but the key *)
Record entry := { svalue : list Z; ivalue : Z; dvalue : R }.

(** strtoull(s, 0, 16) for a text that starts with 0x or 0X (INIentry.cpp:34); saturates *)
Definition strtoull16 (s : list Z) : Z := Z.min (2 ^ 64 - 1) (hex_prefixed s).

(** The digits at the start of a text: their value from [acc], how many, and the rest *)
Fixpoint take_digits (l : list Z) (acc : Z) (n : nat) : Z * nat * list Z :=
  match l with
  | c :: t => if isdigit c then take_digits t (10 * acc + (c - 48)) (S n) else (acc, n, l)
  | [] => (acc, n, l)
  end.
(** An exponent at the start of a text: e or E, a sign or none, and digits *)
Definition exponent (l : list Z) : Z :=
  match l with
  | e :: t =>
      if (e =? 101) || (e =? 69) then
        match t with
        | c :: u => if c =? 45 then - fst (fst (take_digits u 0 0))
                    else if c =? 43 then fst (fst (take_digits u 0 0))
                    else fst (fst (take_digits t 0 0))
        | [] => 0
        end
      else 0
  | [] => 0
  end.
(** The number a text starts with, without sign: digits, a point, digits, an exponent *)
Definition decimal (l : list Z) : R :=
  let '(a, n, r) := take_digits l 0 0 in
  match r with
  | c :: t =>
      if c =? 46 then
        let '(b, k, u) := take_digits t a 0 in
        (IZR b * bpow (Build_radix 10 eq_refl) (exponent u - Z.of_nat k))%R
      else (IZR a * bpow (Build_radix 10 eq_refl) (exponent r))%R
  | [] => IZR a
  end.
(** atof (INIentry.cpp:44) *)
Definition atof (s : list Z) : R :=
  match drop_space s with
  | c :: t => if c =? 45 then rnd64 (- decimal t)
              else if c =? 43 then rnd64 (decimal t)
              else rnd64 (decimal (c :: t))
  | [] => 0%R
  end.
(** (int64_t)d: towards zero; out of range it is UB *)
Definition to_int64 (d : R) : res Z :=
  let z := Ztrunc d in
  if (- 2 ^ 63 <=? z) && (z <? 2 ^ 63) then Ok z else UB.

(** INIentry.cpp:27-47 [Set]; data is not null *)
Definition Set_text (data : list Z) : res entry :=
  match data with
  | 48 :: x :: _ =>
      if (x =? 120) || (x =? 88) then
        let v := strtoull16 data in Ok {| svalue := data; ivalue := sgn 64 v; dvalue := rnd64 (IZR v) |}
      else if negb (existsb (Z.eqb 46) data) then
        let i := strtoll data in Ok {| svalue := data; ivalue := i; dvalue := rnd64 (IZR i) |}
      else do i <- to_int64 (atof data); Ok {| svalue := data; ivalue := i; dvalue := atof data |}
  | _ =>
      if negb (existsb (Z.eqb 46) data) then
        let i := strtoll data in Ok {| svalue := data; ivalue := i; dvalue := rnd64 (IZR i) |}
      else do i <- to_int64 (atof data); Ok {| svalue := data; ivalue := i; dvalue := atof data |}
  end.
(** INIentry.cpp:48-53 [SetInt] *)
Definition SetInt (i : Z) : entry := {| svalue := show_int i; ivalue := i; dvalue := rnd64 (IZR i) |}.

(** std::to_string(double) is printf of %f: six digits behind the point, rounded to nearest *)
Definition six (n : Z) : list Z := map (fun k => 48 + n / 10 ^ k mod 10) [5; 4; 3; 2; 1; 0].
Definition show_float (negative : bool) (d : R) : list Z :=
  let n := ZnearestE (Rabs d * 1000000) in
  (if negative then [45] else []) ++ digits 309 (n / 1000000) [] ++ [46] ++ six (n mod 1000000).
(** INIentry.cpp:54-59 [SetFloat]; the sign bit of d is given apart, since zero has two signs *)
Definition SetFloat (negative : bool) (d : R) : res entry :=
  do i <- to_int64 d;
  Ok {| svalue := show_float negative d; ivalue := i; dvalue := d |}.

(** INIentry.h:34-45 the conversions of the integer: to bool, and to the types of w bits, signed or not *)
Definition as_bool (e : entry) : bool := negb (ivalue e =? 0).
Definition as_signed (w : Z) (e : entry) : Z := sgn w (ivalue e).
Definition as_unsigned (w : Z) (e : entry) : Z := wrap w (ivalue e).
