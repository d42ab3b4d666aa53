(* Model of the integer vectors of sseVec.h with the instructions of the processor (BSS_SSE_ENABLED, lines 328-403 and the
   classes sseVecT<char>, <int16_t>, <int32_t>, <int64_t>).
   A register is a number below 2^128; its lanes of w bits are numbers below 2^w, lane 0 in the lowest bits.  The
   instructions themselves are not part of the library; here they are defined after their descriptions in the manual of
   the processor (the first part of this file), and the functions of the library in terms of them. *)
From Coq Require Import ZArith List Bool.
From Verif Require Import Common.
Import ListNotations.
Local Open Scope Z_scope.

(* ------------------------------------------------------------------ registers *)
(** Lane i of w bits. *)
Definition lane (w x : Z) (i : nat) : Z := (x / 2 ^ (w * Z.of_nat i)) mod 2 ^ w.
(** The number of lanes; all lanes. *)
Definition count (w : Z) : nat := Z.to_nat (128 / w).
Definition lanes (w x : Z) : list Z := map (lane w x) (seq 0 (count w)).
(** The register with these lanes. *)
Fixpoint pack (w : Z) (l : list Z) : Z := match l with [] => 0 | x :: r => x + 2 ^ w * pack w r end.
Definition lift1 (w : Z) (f : Z -> Z) (a : Z) : Z := pack w (map f (lanes w a)).
Definition lift2 (w : Z) (f : Z -> Z -> Z) (a b : Z) : Z := pack w (map (fun p => f (fst p) (snd p)) (combine (lanes w a) (lanes w b))).

(* ------------------------------------------------------------------ instructions *)
(** sseVec.h:333-334, 355-356, 364-365, 377-378 _mm_add_epi, _mm_sub_epi. *)
Definition mm_add (w a b : Z) : Z := lift2 w (fun x y => wrap w (x + y)) a b.
Definition mm_sub (w a b : Z) : Z := lift2 w (fun x y => wrap w (x - y)) a b.
(** sseVec.h:348-350, 357-359, 370-372 _mm_cmpeq_epi, _mm_cmplt_epi, _mm_cmpgt_epi: ones or zeros; signed. *)
Definition ones (w : Z) (b : bool) : Z := if b then 2 ^ w - 1 else 0.
Definition mm_cmpeq (w a b : Z) : Z := lift2 w (fun x y => ones w (x =? y)) a b.
Definition mm_cmplt (w a b : Z) : Z := lift2 w (fun x y => ones w (sgn w x <? sgn w y)) a b.
Definition mm_cmpgt (w a b : Z) : Z := lift2 w (fun x y => ones w (sgn w y <? sgn w x)) a b.
(** sseVec.h:338-341 _mm_and_si128, _mm_andnot_si128 (the first operand is complemented), _mm_or_si128, _mm_xor_si128. *)
Definition mm_and (a b : Z) : Z := Z.land a b.
Definition mm_andnot (a b : Z) : Z := Z.ldiff b a.
Definition mm_or (a b : Z) : Z := Z.lor a b.
Definition mm_xor (a b : Z) : Z := Z.lxor a b.
(** sseVec.h:330, 354, 363, 376 _mm_set1_epi; 375-376 by a load of the number twice. *)
Definition mm_set1 (w v : Z) : Z := pack w (repeat (wrap w v) (count w)).
(** sseVec.h:390 _mm_setzero_si128. *)
Definition mm_setzero : Z := 0.
(** sseVec.h:343, 345, 347, 367, 369, 380, 382 _mm_slli_epi, _mm_srli_epi, _mm_srai_epi: the number of bits is taken as unsigned;
    from w on nothing is left (of the sign: only copies of it). *)
Definition mm_slli (w a n : Z) : Z := lift1 w (fun x => if wrap 32 n <? w then wrap w (x * 2 ^ wrap 32 n) else 0) a.
Definition mm_srli (w a n : Z) : Z := lift1 w (fun x => if wrap 32 n <? w then x / 2 ^ wrap 32 n else 0) a.
Definition mm_srai (w a n : Z) : Z := lift1 w (fun x => wrap w (sgn w x / 2 ^ (if wrap 32 n <? w then wrap 32 n else w - 1))) a.
(** sseVec.h:342, 344, 346, 366, 368, 379, 381 _mm_sll_epi, _mm_srl_epi, _mm_sra_epi: the number of bits is the lower half of the second
    register. *)
Definition mm_sll (w a c : Z) : Z := lift1 w (fun x => if lane 64 c 0 <? w then wrap w (x * 2 ^ lane 64 c 0) else 0) a.
Definition mm_srl (w a c : Z) : Z := lift1 w (fun x => if lane 64 c 0 <? w then x / 2 ^ lane 64 c 0 else 0) a.
Definition mm_sra (w a c : Z) : Z := lift1 w (fun x => wrap w (sgn w x / 2 ^ (if lane 64 c 0 <? w then lane 64 c 0 else w - 1))) a.
(** sseVec.h:385 _mm_shuffle_epi32: two bits of the number choose each lane. *)
Definition mm_shuffle_epi32 (a imm : Z) : Z :=
  pack 32 (map (fun k => lane 32 a (Z.to_nat (Z.land (Z.shiftr imm (2 * k)) 3))) [0; 1; 2; 3]).
(** sseVec.h:386-387 _mm_shufflehi_epi16, _mm_shufflelo_epi16: only the upper, only the lower four lanes. *)
Definition mm_shufflelo_epi16 (a imm : Z) : Z :=
  pack 16 (map (fun k => lane 16 a (Z.to_nat (Z.land (Z.shiftr imm (2 * k)) 3))) [0; 1; 2; 3] ++ map (lane 16 a) [4; 5; 6; 7]%nat).
Definition mm_shufflehi_epi16 (a imm : Z) : Z :=
  pack 16 (map (lane 16 a) [0; 1; 2; 3]%nat ++ map (fun k => lane 16 a (4 + Z.to_nat (Z.land (Z.shiftr imm (2 * k)) 3))) [0; 1; 2; 3]).
(** sseVec.h:484-486 _mm_mul_epu32 (lanes 0 and 2, products of 64 bits), _mm_srli_si128 (by bytes), _mm_unpacklo_epi32. *)
Definition mm_mul_epu32 (a b : Z) : Z := pack 64 [lane 32 a 0 * lane 32 b 0; lane 32 a 2 * lane 32 b 2].
Definition mm_srli_si128 (a n : Z) : Z := a / 2 ^ (8 * n).
Definition mm_unpacklo_epi32 (a b : Z) : Z := pack 32 [lane 32 a 0; lane 32 b 0; lane 32 a 1; lane 32 b 1].
(** sseVec.h:351 _mm_cvtsi128_si32; 383 _mm_cvtsi128_si64: the lowest lane, signed. *)
Definition mm_cvtsi128 (w a : Z) : Z := sgn w (lane w a 0).

(* ------------------------------------------------------------------ the library *)
(** sseVec.h:407-413 [bss_mm_min_epi32]; 415-421 [bss_mm_max_epi32]. *)
Definition bss_mm_min_epi32 (a b : Z) : Z :=
  let mask := mm_cmplt 32 a b in
  let a := mm_and a mask in
  let b := mm_andnot mask b in
  mm_or a b.
Definition bss_mm_max_epi32 (a b : Z) : Z :=
  let mask := mm_cmpgt 32 a b in
  let a := mm_and a mask in
  let b := mm_andnot mask b in
  mm_or a b.
(** xmmintrin.h, the macro _MM_SHUFFLE of sseVec.h:486. *)
Definition MM_SHUFFLE (z y x w : Z) : Z := Z.lor (Z.lor (Z.lor (Z.shiftl z 6) (Z.shiftl y 4)) (Z.shiftl x 2)) w.
(** sseVec.h:482-487 [bss_mm_mul_epi32]. *)
Definition bss_mm_mul_epi32 (a b : Z) : Z :=
  let tmp1 := mm_mul_epu32 a b in
  let tmp2 := mm_mul_epu32 (mm_srli_si128 a 4) (mm_srli_si128 b 4) in
  mm_unpacklo_epi32 (mm_shuffle_epi32 tmp1 (MM_SHUFFLE 0 0 2 0)) (mm_shuffle_epi32 tmp2 (MM_SHUFFLE 0 0 2 0)).
(** sseVec.h:491 BSS_SSE_SHUFFLE. *)
Definition BSS_SSE_SHUFFLE (x y z w : Z) : Z := Z.lor (Z.lor (Z.lor (Z.shiftl w 6) (Z.shiftl z 4)) (Z.shiftl y 2)) x.

(** The operators of sseVecT<char> (w = 8), <int16_t> (16), <int32_t> (32) and <int64_t> (64): + - & | ^, sseVec.h:611-620, 663-667,
    672-676, 726-727, 729-731, 736-737, 739-741, 796-800, 805-809. *)
Definition vadd (w a b : Z) : Z := mm_add w a b.
Definition vsub (w a b : Z) : Z := mm_sub w a b.
Definition vand (w a b : Z) : Z := mm_and a b.
Definition vor (w a b : Z) : Z := mm_or a b.
Definition vxor (w a b : Z) : Z := mm_xor a b.
(** sseVec.h:632, 692, 761, 819 [operator~]. *)
Definition vnot (w a : Z) : Z := mm_xor a (mm_set1 w (-1)).
(** sseVec.h:633, 693, 760 [operator!]. *)
Definition vzero (w a : Z) : Z := mm_cmpeq w a mm_setzero.
(** sseVec.h:626-631, 686-691, 749-754: the comparisons. *)
Definition veq (w a b : Z) : Z := mm_cmpeq w a b.
Definition vne (w a b : Z) : Z := vzero w (veq w a b).
Definition vlt (w a b : Z) : Z := mm_cmplt w a b.
Definition vgt (w a b : Z) : Z := mm_cmpgt w a b.
Definition vle (w a b : Z) : Z := vzero w (vgt w a b).
Definition vge (w a b : Z) : Z := vzero w (vlt w a b).
(** sseVec.h:728, 738, 747-748 the operator * and min, max of sseVecT<int32_t>. *)
Definition vmul (a b : Z) : Z := bss_mm_mul_epi32 a b.
Definition vmin (a b : Z) : Z := bss_mm_min_epi32 a b.
Definition vmax (a b : Z) : Z := bss_mm_max_epi32 a b.
(** sseVec.h:668-671, 732-735, 801-804 (and with assignment 677-680, 742-745, 810-813): the shifts by a number and by a vector.
    To the right, sseVecT<int32_t> copies the sign (732-733) but sseVecT<int16_t> (668-669) and sseVecT<int64_t> (801-802) do not. *)
Definition vshl (w a n : Z) : Z := mm_slli w a n.
Definition vshr (w a n : Z) : Z := if w =? 32 then mm_srai w a n else mm_srli w a n.
Definition vshl_v (w a b : Z) : Z := mm_sll w a b.
Definition vshr_v (w a b : Z) : Z := if w =? 32 then mm_sra w a b else mm_srl w a b.
(** sseVec.h:773-774, 777-778 [Shuffle] of sseVecT<int32_t>; 775 [Sum]. *)
Definition vshuffle (x y z w : Z) (a : Z) : Z := mm_shuffle_epi32 a (BSS_SSE_SHUFFLE x y z w).
Definition vsum32 (a : Z) : Z :=
  let x := mm_add 32 a (vshuffle 1 0 3 2 a) in
  mm_cvtsi128 32 (mm_add 32 x (vshuffle 2 3 0 1 x)).
(** sseVec.h:832 [Swap] of sseVecT<int64_t>; 831 [Sum], which stores the register and takes the first number. *)
Definition vswap64 (a : Z) : Z := mm_shuffle_epi32 a (BSS_SSE_SHUFFLE 2 3 0 1).
Definition vsum64 (a : Z) : Z := sgn 64 (lane 64 (mm_add 64 a (vswap64 a)) 0).
(** sseVec.h:604, 658, 721, 792 sseVecT<int32_t>(int), and the other constructors from one number; 725 sseVecT<int>(x, y, z, w) with
    _mm_set_epi32(w, z, y, x). *)
Definition vfill (w v : Z) : Z := mm_set1 w v.
Definition vset32 (x y z t : Z) : Z := pack 32 [wrap 32 x; wrap 32 y; wrap 32 z; wrap 32 t].
