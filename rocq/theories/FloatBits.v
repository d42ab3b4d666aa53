(* Model of the functions of include/bss-util/bss_util.h that work on the bits of floating-point numbers: fsign (394-406),
   fWideCompare (524-532), fCompare (535-559), fSmall (562-577), fCompareSmall (579-591), fFastSqrt (604-614) and
   dFastSqrt (617-633), and of fLength (594-601).
   A float is its bits, as a number below 2^32, a double likewise below 2^64.  The values, in the last three functions, are real
   numbers, rounded after every operation. *)
From Coq Require Import ZArith Bool Reals.
From Verif Require Import Common.
Local Open Scope Z_scope.

Section Bits.
(** the bits of the mantissa and of the exponent: 23 and 8 for float, 52 and 11 for double *)
Context (mw ew : Z).
(** sizeof(T) << 3 *)
Definition width : Z := 1 + ew + mw.
(** the sign bit, and all bits but the sign bit *)
Definition signbit : Z := 2 ^ (width - 1).
Definition below : Z := signbit - 1.
(** the bits of 1.0 *)
Definition one_bits : Z := (2 ^ (ew - 1) - 1) * 2 ^ mw.

(** bss_util.h 394-406 *)
Definition fsign (u : Z) : Z := Z.lor (Z.land u signbit) one_bits.
(** bss_util.h 562-577 *)
Definition fSmall (u e : Z) : bool := Z.land u below <=? e.

(** the result of an operation on a signed type: undefined if it overflows *)
Definition signed (x : Z) : res Z := if (- signbit <=? x) && (x <? signbit) then Ok x else UB.
(** bss_util.h 535-559, up to diff: a and b are the bits *)
Definition fCompare (a b maxDiff : Z) : res bool :=
  let ai := sgn width a in let bi := sgn width b in
  let test := - (Z.lxor a b / signbit) in
  do x <- signed (ai + test);
  do diff <- signed (Z.lxor x (Z.land test below) - bi);
  do v1 <- signed (maxDiff + diff);
  do v2 <- signed (maxDiff - diff);
  Ok (0 <=? Z.lor v1 v2).
(** the same where signed overflow wraps around (gcc -fwrapv, and what the machine does) *)
Definition fCompare_wrap (a b maxDiff : Z) : bool :=
  let ai := sgn width a in let bi := sgn width b in
  let test := - (Z.lxor a b / signbit) in
  let diff := sgn width (Z.lxor (sgn width (ai + test)) (Z.land test below) - bi) in
  0 <=? Z.lor (sgn width (maxDiff + diff)) (sgn width (maxDiff - diff)).
(** the comparison with 0.0 (IEEE 754: true of both zeros) *)
Definition is_zero (u : Z) : bool := Z.land u below =? 0.
(** bss_util.h 579-591 *)
Definition fCompareSmall (a b maxDiff eps : Z) : res bool :=
  if is_zero a then Ok (fSmall b eps) else if is_zero b then Ok (fSmall a eps) else fCompare a b maxDiff.
End Bits.

(** bss_util.h 524-532; left.i and right.i are masked, so that their sign does not matter; the mask 0x7F800000 and the shift by 23 *)
Definition fWideCompare (a b : Z) : bool :=
  let dif := wrap 8 (Z.abs (Z.land 2139095040 a - Z.land 2139095040 b) / 2 ^ 23) in
  if dif >? 1 then false
  else if dif =? 0 then Z.land 8388480 a =? Z.land 8388480 b
  else Z.abs (Z.land 8388480 a - Z.land 8388480 b) - 8388480 =? 0.

(** IEEE 754: the absolute value of a finite number with these bits (without the sign bit), in units of the smallest positive number *)
Definition units (mw m : Z) : Z := if m / 2 ^ mw =? 0 then m mod 2 ^ mw else (2 ^ mw + m mod 2 ^ mw) * 2 ^ (m / 2 ^ mw - 1).
Local Open Scope R_scope.
(** the smallest positive float is 2^-149, the smallest positive double 2^-1074 *)
Definition float_abs (m : Z) : R := IZR (units 23 m) / 2 ^ 149.
Definition double_abs (m : Z) : R := IZR (units 52 m) / 2 ^ 1074.
Section Arithmetic.
(** the rounding of the results of the operations: for a float to the nearest number of 24 bits, for a double of 53; numbers
    are taken to have any exponent (no overflow, no underflow) *)
Context (rnd : R -> R).
(** one step of Newton's iteration (bss_util.h 611-612, 629-631), x is half the number *)
Definition newton (x y : R) : R := rnd (y * rnd (3 / 2 - rnd (rnd (x * y) * y))).
(** bss_util.h 604-614, for a number that is not negative; its bits *)
Definition fFastSqrt (i : Z) : R :=
  let number := float_abs i in let x := rnd (number * (1 / 2)) in
  let y := float_abs (1597463007 - i / 2) in
  rnd (number * newton x (newton x y)).
(** bss_util.h 617-633, for a number that is not negative; the two halves of its bits (the upper one second, as on a
    little-endian machine); the estimate changes the upper one *)
Definition dFastSqrt (i : Z) : R :=
  let number := double_abs i in let x := rnd (number * (1 / 2)) in
  let y := double_abs (wrap 32 (3217938698 - i / 2 ^ 32) / 2 * 2 ^ 32 + i mod 2 ^ 32) in
  rnd (number * newton x (newton x (newton x y))).
(** bss_util.h 594-601 *)
Definition fLength (x y : R) : R :=
  let x := Rabs x in let y := Rabs y in
  let hold := rnd (rnd (7071067811865475 / 10000000000000000) * rnd (x + y)) in
  let mval := if Rlt_dec y x then x else y in
  rnd (rnd (92677669529663688 / 100000000000000000) * (if Rlt_dec mval hold then hold else mval)).
End Arithmetic.
