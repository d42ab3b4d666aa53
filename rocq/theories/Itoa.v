(* Model of itoa_r, bss-util/bss_util_c.c lines 213-253. *)
From Coq Require Import List ZArith Bool Arith.
From Verif Require Import Common.
Import ListNotations.
Local Open Scope Z_scope.

(* int arithmetic: a result outside the range of int is undefined behaviour *)
Definition int32 (x : Z) : res Z := if (- 2 ^ 31 <=? x) && (x <? 2 ^ 31) then Ok x else UB.

(* The character of digit t, bss_util_c.c line 234.  t + '7' and t + '0' are computed in int. *)
Definition digit_char (t : Z) : res Z :=
  do c <- int32 (if 9 <? t then t + 55 else t + 48);
  Ok (wrap 8 c).

(* The loop writing digits, bss_util_c.c lines 231-238; [cur] is cur - buf.  val is a non-negative int
   here, radix an unsigned int, so % and / are computed in unsigned int; t is an int. *)
Fixpoint digits_loop (fuel : nat) (buf : list Z) (cur : nat) (size val radix : Z) : res (list Z * nat) :=
  match fuel with
  | O => OutOfFuel
  | S f =>
    if Z.of_nat cur <? size then
      let t := sgn 32 (wrap 32 val mod radix) in
      do c <- digit_char t;
      do buf1 <- set buf cur c;
      let val1 := sgn 32 (wrap 32 val / radix) in
      if val1 <=? 0 then Ok (buf1, S cur) else digits_loop f buf1 (S cur) size val1 radix
    else Ok (buf, cur)
  end.

(* The in-place reversal, bss_util_c.c lines 242-249 *)
Fixpoint reverse_loop (fuel : nat) (buf : list Z) (p cur : Z) : res (list Z) :=
  match fuel with
  | O => OutOfFuel
  | S f =>
    if p <? cur then
      do tmp <- get buf (Z.to_nat p);
      do x <- get buf (Z.to_nat cur);
      do b1 <- set buf (Z.to_nat p) x;
      do b2 <- set b1 (Z.to_nat cur) tmp;
      reverse_loop f b2 (p + 1) (cur - 1)
    else Ok buf
  end.

(* itoa_r, bss_util_c.c lines 213-253.  [buf] is the memory of the buffer, None the null pointer; the
   result is the return code with the memory afterwards.  [fuel] bounds both loops. *)
Definition itoa_r (val : Z) (buf : option (list Z)) (size radix : Z) : res (Z * list Z) :=
  match buf with
  | None => Ok (22, [])
  | Some buf =>
    if (radix <? 2) || (size <=? 1) then Ok (22, buf) else
    do (buf1, cur, val1) <-
      (if val <? 0 then
         do b <- set buf 0 45;
         do v <- int32 (- val);
         Ok (b, 1%nat, v)
       else Ok (buf, 0%nat, val));
    let p := cur in
    let size1 := size - 1 in
    do (buf2, cur2) <- digits_loop (S (length buf)) buf1 cur size1 val1 radix;
    do buf3 <- set buf2 cur2 0;
    do buf4 <- reverse_loop (S (length buf)) buf3 (Z.of_nat p) (Z.of_nat cur2 - 1);
    Ok (0, buf4)
  end.
