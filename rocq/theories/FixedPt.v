(* Model of Fixed<D, T> (include/bss-util/FixedPt.h): T is a signed integer type of w bits, a Fixed is its member _bits.
   Simplification: shifting a negative number left is multiplication (C++17 leaves it undefined, every supported compiler
   defines it so); signed overflow and shifts by the width or more are UB.  The float and double members 68-69, 73-74,
   99-106, 121-128 and the free operators 141-173 are not modelled here; the 64-bit division 31,
   Reciprocal 80-83 and the shifts are in FixedDiv.v. *)
From Coq Require Import ZArith Bool.
From Verif Require Import Common BitUtil.
Open Scope Z_scope.

(* bss_util.h 166-175: SafeShift<T, S>(v), left by S if positive, right by -S if negative *)
Definition SafeShift (w S v : Z) : res Z :=
  if 0 <? S then (if S <? w then sarith w (Z.shiftl v S) else UB)
  else if S <? 0 then (if - S <? w then Ok (Z.shiftr v (- S)) else UB)
  else Ok v.
(* FixedPt.h 17-18: fixedpt_add<T, S_X, S_Y>(x, y) *)
Definition fixedpt_add (w S_X S_Y x y : Z) : res Z := do y <- SafeShift w (S_X - S_Y) y; sarith w (x + y).
(* FixedPt.h 19-20: fixedpt_mul(x, y, S_Y) through bssMultiplyExtract (with a double width type, see C06) *)
Definition fixedpt_mul (w x y S_Y : Z) : res Z := mulextract_native_s w x y S_Y.
(* FixedPt.h 24-29: fixedpt_div(x, y, S_Y): U has 2w bits; the quotient is converted back to T *)
Definition fixedpt_div (w x y S_Y : Z) : res Z :=
  if S_Y <? 2 * w then
    do n <- sarith (2 * w) (Z.shiftl x S_Y);
    if y =? 0 then UB else
    do q <- sarith (2 * w) (Z.quot n y);
    Ok (sgn w q)
  else UB.
(* FixedPt.h 66: Fixed(T v) *)
Definition of_int (w D v : Z) : res Z := if D <? w then sarith w (Z.shiftl v D) else UB.
(* FixedPt.h 72: operator T *)
Definition to_int (w D x : Z) : res Z := if D <? w then Ok (Z.shiftr x D) else UB.
(* FixedPt.h 64-65, 77-78: Fixed<D>(Fixed<B>) and operator= from another scale: shifts by B - D *)
Definition convert (w D B y : Z) : res Z := SafeShift w (B - D) y.
(* FixedPt.h 84: unary - *)
Definition neg (w x : Z) : res Z := sarith w (- x).
(* FixedPt.h 89, 111: + of the same scale *)
Definition add_same (w x y : Z) : res Z := sarith w (x + y).
(* FixedPt.h 90, 112: - of the same scale *)
Definition sub_same (w x y : Z) : res Z := sarith w (x - y).
(* FixedPt.h 91-92, 113-114: + with scale B on the right *)
Definition add (w D B x y : Z) : res Z := fixedpt_add w D B x y.
(* FixedPt.h 93-94, 115-116: - with scale B on the right: adds -r.Bits() *)
Definition sub (w D B x y : Z) : res Z := do y <- sarith w (- y); fixedpt_add w D B x y.
(* FixedPt.h 95-96, 117-118: * *)
Definition mul (w D B x y : Z) : res Z := fixedpt_mul w x y B.
(* FixedPt.h 97-98, 119-120: / *)
Definition div (w D B x y : Z) : res Z := fixedpt_div w x y B.
(* FixedPt.h 86, 108: % *)
Definition rem (w x y : Z) : res Z := if y =? 0 then UB else do _ <- sarith w (Z.quot x y); Ok (Z.rem x y).
(* FixedPt.h 130-135: ==, !=, <, <=, >, >= *)
Definition eq (x y : Z) : bool := x =? y.
Definition ne (x y : Z) : bool := negb (x =? y).   (* FixedPt.h 130 *)
Definition lt (x y : Z) : bool := x <? y.          (* FixedPt.h 135 *)
Definition le (x y : Z) : bool := x <=? y.         (* FixedPt.h 133 *)
Definition gt (x y : Z) : bool := y <? x.          (* FixedPt.h 134 *)
Definition ge (x y : Z) : bool := y <=? x.         (* FixedPt.h 132 *)
