(* Model of the branch of sseVec.h without the instructions of the processor (lines 17-262), for integers: a vector is an array of
   signed numbers.  The bytes of an array are those of a register on a machine that stores the lowest byte first. *)
From Coq Require Import ZArith List Bool.
From Verif Require Import Common Sse.
Import ListNotations.
Local Open Scope Z_scope.

(** sseVec.h:18-36 the array as register (its 16 bytes), and the register as array. *)
Definition reg (w : Z) (l : list Z) : Z := pack w (map (wrap w) l).
Definition unreg (w : Z) (a : Z) : list Z := map (sgn w) (lanes w a).

(** The value of an expression of type T (w bits, signed) from exact arithmetic: int8_t and int16_t are computed in int and converted back
    modulo 2^w; overflow of int and int64_t is undefined. *)
Definition compute (w v : Z) : res Z :=
  if w <? 32 then Ok (sgn w v) else if (- 2 ^ (w - 1) <=? v) && (v <? 2 ^ (w - 1)) then Ok v else UB.
(** bss_util.h:991-998 [ArrayMap]. *)
Fixpoint ArrayMap (F : Z -> Z -> res Z) (l r : list Z) : res (list Z) :=
  match l, r with
  | [], [] => Ok []
  | x :: l, y :: r => do z <- F x y; do t <- ArrayMap F l r; Ok (z :: t)
  | _, _ => UB
  end.
(** sseVec.h:56-63 [_sse_array_shift]. *)
Fixpoint array_shift (F : Z -> Z -> res Z) (a : list Z) (s : Z) : res (list Z) :=
  match a with [] => Ok [] | x :: a => do z <- F x s; do t <- array_shift F a s; Ok (z :: t) end.
(** sseVec.h:105-110: + - * and the extrema, with the macros bssmin and bssmax (defines.h:15-16). *)
Definition sse_add (w l r : Z) : res Z := compute w (l + r).
Definition sse_sub (w l r : Z) : res Z := compute w (l - r).
Definition sse_mul (w l r : Z) : res Z := compute w (l * r).
Definition sse_min (l r : Z) : res Z := Ok (if l <? r then l else r).
Definition sse_max (l r : Z) : res Z := Ok (if r <? l then l else r).
(** sseVec.h:115-121 [_sse_array_cmp] with == < >. *)
Definition sse_cmp (w : Z) (F : Z -> Z -> bool) (l r : Z) : res Z := Ok (sgn w (if F l r then 2 ^ w - 1 else 0)).
(** sseVec.h:122-124: shifts; to the left of a negative number or past the range of the unsigned type (C++14), or by a negative number or
    from the width of the promoted type on they are undefined. *)
Definition promoted (w : Z) : Z := if w <? 32 then 32 else w.
Definition sse_sl (w l r : Z) : res Z :=
  if (0 <=? r) && (r <? promoted w) && (0 <=? l) && (l * 2 ^ r <? 2 ^ promoted w) then Ok (sgn w (l * 2 ^ r)) else UB.
Definition sse_sr (w l r : Z) : res Z := if (0 <=? r) && (r <? promoted w) then Ok (sgn w (wrap w l / 2 ^ r)) else UB.
Definition sse_sra (w l r : Z) : res Z := if (0 <=? r) && (r <? promoted w) then Ok (sgn w (l / 2 ^ r)) else UB.
(** sseVec.h:111-114, 193-196: & | ^ and andnot are on the two int64_t of the bytes. *)
Definition on_words (F : Z -> Z -> Z) (w : Z) (l r : list Z) : res (list Z) :=
  do v <- ArrayMap (fun x y => Ok (F x y)) (unreg 64 (reg w l)) (unreg 64 (reg w r)); Ok (unreg w (reg 64 v)).
Definition p_and := on_words Z.land.
Definition p_andnot := on_words (fun l r => Z.land (Z.lnot l) r).
Definition p_or := on_words Z.lor.
Definition p_xor := on_words Z.lxor.
(** sseVec.h:74-83 [_sse_array_shuffle4], 240 with the same array twice. *)
Definition p_shuffle4 (a b : list Z) (i : Z) : res (list Z) :=
  do r0 <- get a (Z.to_nat (Z.land i 3));
  do r1 <- get a (Z.to_nat (Z.land (Z.shiftr i 2) 3));
  do r2 <- get b (Z.to_nat (Z.land (Z.shiftr i 4) 3));
  do r3 <- get b (Z.to_nat (Z.land (Z.shiftr i 6) 3));
  Ok [r0; r1; r2; r3].
(** sseVec.h:64-72, 243 [_sse_array_shuffle2]; here the elements are any bits of 64. *)
Definition p_shuffle2 (a b : list Z) (i : Z) : res (list Z) :=
  do r0 <- get a (if Z.eqb i 0 then 0 else 1)%nat;
  do r1 <- get b (if Z.eqb (Z.shiftr i 2) 0 then 0 else 1)%nat;
  Ok [r0; r1].
(** sseVec.h:85-94 [_sse_array_shuffle8], 241-242: four elements from place o on are chosen among these four. *)
Definition p_shuffle8 (o : nat) (a : list Z) (i : Z) : res (list Z) :=
  do x0 <- get a (Z.to_nat (Z.land i 3) + o)%nat;
  do x1 <- get a (Z.to_nat (Z.land (Z.shiftr i 2) 3) + o)%nat;
  do x2 <- get a (Z.to_nat (Z.land (Z.shiftr i 4) 3) + o)%nat;
  do x3 <- get a (Z.to_nat (Z.land (Z.shiftr i 6) 3) + o)%nat;
  do r <- set a (0 + o)%nat x0;
  do r <- set r (1 + o)%nat x1;
  do r <- set r (2 + o)%nat x2;
  set r (3 + o)%nat x3.
(** sseVec.h:188-192, 210-211, 219-220, 232-233: the operations of the vectors. *)
Definition p_add (w : Z) := ArrayMap (sse_add w).
Definition p_sub (w : Z) := ArrayMap (sse_sub w).
Definition p_mul := ArrayMap (sse_mul 32).
Definition p_min := ArrayMap sse_min.
Definition p_max := ArrayMap sse_max.
(** sseVec.h:203-205, 212-214, 225-227: the comparisons. *)
Definition p_eq (w : Z) := ArrayMap (sse_cmp w Z.eqb).
Definition p_lt (w : Z) := ArrayMap (sse_cmp w Z.ltb).
Definition p_gt (w : Z) := ArrayMap (sse_cmp w Z.gtb).
(** sseVec.h:198, 200, 202, 222, 224, 235, 237: the shifts by a number. *)
Definition p_sl (w : Z) := array_shift (sse_sl w).
Definition p_sr (w : Z) := array_shift (sse_sr w).
Definition p_sra (w : Z) := array_shift (sse_sra w).
