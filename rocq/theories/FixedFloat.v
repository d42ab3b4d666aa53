(* Model of the conversions between Fixed and float or double (FixedPt.h 10-15, 68-69, 73-74).  A type of floating-point numbers is given by its
   precision and its least exponent, 24 and -149 for float, 53 and -1074 for double; numbers are reals, and each operation is rounded to the
   nearest, ties to even.  Numbers too large for the type are not modelled: what is converted is less than 2^63. *)
From Coq Require Import ZArith Reals Bool.
From Flocq Require Import Core.
From Verif Require Import Common.
Local Open Scope Z_scope.

Section S.
Context (prec emin : Z).
(** a result in the floating-point type *)
Definition rnd (x : R) : R := round radix2 (FLT_exp emin prec) ZnearestE x.
(** FixedPt.h:13, 15 SMIN *)
Definition SMIN (s : Z) : Z := Z.max 0 (s - prec).
(** FixedPt.h:13 FixedPtConvf, with 24 for prec, and FixedPt.h:15 FixedPtConvd, with 53: the integer part and the bits of the fraction are converted
    and added *)
Definition to_float (s i : Z) : R :=
  rnd (rnd (IZR (i / 2 ^ s)) + rnd (rnd (IZR ((i mod 2 ^ s) / 2 ^ SMIN s)) / rnd (IZR (2 ^ (s - SMIN s))))).
(** FixedPt.h:11 FixedPtConv, for a type of w bits: the product is cut off towards zero; undefined if that is not in range *)
Definition from_float (w s : Z) (f : R) : res Z :=
  let z := Ztrunc (rnd (f * rnd (IZR (2 ^ s)))) in
  if (- 2 ^ (w - 1) <=? z) && (z <? 2 ^ (w - 1)) then Ok z else UB.
End S.
