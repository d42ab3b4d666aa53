(* Model of the 64-bit division, the reciprocal and the shifts of Fixed<D, T> (include/bss-util/FixedPt.h:22-23, 30-31, 80-83, 87-88, 109-110), for
   a signed T of w bits, with the conventions of FixedPt.v. *)
From Coq Require Import ZArith Bool.
From Verif Require Import Common BitUtil FixedPt.
Open Scope Z_scope.

(** FixedPt.h:22-23 [fixedpt_recip] *)
Definition fixedpt_recip (w x : Z) : res Z := if x =? 0 then UB else sarith w (Z.quot (2 ^ (w - 2)) x).
(** FixedPt.h:30-31 [fixedpt_div] for int64_t (w is 64 there): the shift must not be negative *)
Definition fixedpt_div64 (w x y S_Y : Z) : res Z :=
  do q <- fixedpt_recip w y;
  let sh := w - 2 - S_Y in if sh <? 0 then UB else fixedpt_mul w x q sh.
(** FixedPt.h:80-83 [Reciprocal]: a Fixed with w - D bits behind the point *)
Definition Reciprocal (w x : Z) : res Z := do q <- fixedpt_recip w x; sarith w (Z.shiftl q 2).
(** FixedPt.h:88, 109 [<<] *)
Definition shl (w x r : Z) : res Z := if (0 <=? r) && (r <? w) then sarith w (Z.shiftl x r) else UB.
(** FixedPt.h:87, 110 [>>] *)
Definition shr (w x r : Z) : res Z := if (0 <=? r) && (r <? w) then Ok (Z.shiftr x r) else UB.
