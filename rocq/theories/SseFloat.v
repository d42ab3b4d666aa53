(* Model of the float and double vectors of sseVec.h with the instructions of the processor: minimum, maximum, comparisons, Sum, Swap,
   and rounding to whole numbers.  A register is a number as in Sse.v; a lane of 32 or 64 bits is a float or double by its bits, after
   Flocq (the bits of a NaN that an operation makes are those Flocq chooses).  The rounding mode is to nearest, the default. *)
From Coq Require Import ZArith List Bool Reals.
From Flocq Require Import Core IEEE754.BinarySingleNaN IEEE754.Binary IEEE754.Bits.
From Verif Require Import Common Sse.
Import ListNotations.
Local Open Scope Z_scope.

(* ------------------------------------------------------------------ instructions *)
(** Comparing floats (w = 32) or doubles (w = 64); [None] if one of them is a NaN. *)
Definition order (w x y : Z) : option comparison :=
  if w =? 32 then b32_compare (b32_of_bits x) (b32_of_bits y) else b64_compare (b64_of_bits x) (b64_of_bits y).
Definition is_lt (o : option comparison) : bool := match o with Some Lt => true | _ => false end.
Definition is_gt (o : option comparison) : bool := match o with Some Gt => true | _ => false end.
Definition is_eq (o : option comparison) : bool := match o with Some Eq => true | _ => false end.
(** sseVec.h:284-289, 314-319 _mm_cmplt, _mm_cmpgt, _mm_cmpeq, _mm_cmpneq, _mm_cmple, _mm_cmpge of floats and doubles. *)
Definition mm_cmplt_p (w a b : Z) : Z := lift2 w (fun x y => ones w (is_lt (order w x y))) a b.
Definition mm_cmpgt_p (w a b : Z) : Z := lift2 w (fun x y => ones w (is_gt (order w x y))) a b.
Definition mm_cmpeq_p (w a b : Z) : Z := lift2 w (fun x y => ones w (is_eq (order w x y))) a b.
Definition mm_cmpneq_p (w a b : Z) : Z := lift2 w (fun x y => ones w (negb (is_eq (order w x y)))) a b.
Definition mm_cmple_p (w a b : Z) : Z := lift2 w (fun x y => ones w (is_lt (order w x y) || is_eq (order w x y))) a b.
Definition mm_cmpge_p (w a b : Z) : Z := lift2 w (fun x y => ones w (is_gt (order w x y) || is_eq (order w x y))) a b.
(** sseVec.h:276-277, 306 _mm_add_ps, _mm_sub_ps, _mm_add_pd. *)
Definition mm_add_ps (a b : Z) : Z := lift2 32 (fun x y => bits_of_b32 (b32_plus mode_NE (b32_of_bits x) (b32_of_bits y))) a b.
Definition mm_sub_ps (a b : Z) : Z := lift2 32 (fun x y => bits_of_b32 (b32_minus mode_NE (b32_of_bits x) (b32_of_bits y))) a b.
Definition mm_add_pd (a b : Z) : Z := lift2 64 (fun x y => bits_of_b64 (b64_plus mode_NE (b64_of_bits x) (b64_of_bits y))) a b.
(** sseVec.h:392 _mm_cvttps_epi32: the fraction is dropped; 0x80000000 where the result is no number of 32 bits. *)
Definition cvtt (x : Z) : Z :=
  let f := b32_of_bits x in
  let i := Ztrunc (B2R 24 128 f) in
  if is_finite 24 128 f && (- 2 ^ 31 <=? i) && (i <? 2 ^ 31) then wrap 32 i else 2 ^ 31.
Definition mm_cvttps_epi32 (a : Z) : Z := lift1 32 cvtt a.
(** sseVec.h:396 _mm_cvtepi32_ps: rounded to the nearest float. *)
Definition float_of_int (i : Z) : binary32 := binary_normalize 24 128 eq_refl eq_refl mode_NE i 0 false.
Definition mm_cvtepi32_ps (a : Z) : Z := lift1 32 (fun x => bits_of_b32 (float_of_int (sgn 32 x))) a.
(** sseVec.h:388 _mm_shuffle_pd: one bit of the number chooses each lane. *)
Definition mm_shuffle_pd (a b imm : Z) : Z :=
  pack 64 [lane 64 a (if Z.testbit imm 0 then 1 else 0); lane 64 b (if Z.testbit imm 1 then 1 else 0)]%nat.

(* ------------------------------------------------------------------ the library *)
(** sseVec.h:423-429 [bss_mm_min_ps], 439-445 [bss_mm_min_pd]; 431-437 [bss_mm_max_ps], 447-453 [bss_mm_max_pd]. *)
Definition bss_mm_min (w a b : Z) : Z :=
  let mask := mm_cmplt_p w a b in
  let c := mm_and a mask in
  let d := mm_andnot mask b in
  mm_or c d.
Definition bss_mm_max (w a b : Z) : Z :=
  let mask := mm_cmpgt_p w a b in
  let c := mm_and a mask in
  let d := mm_andnot mask b in
  mm_or c d.
(** sseVec.h:457-460, 470-473: the vector of four 1.0f. *)
Definition one_ps : Z :=
  let v0 := mm_setzero in
  let v1 := mm_cmpeq 32 v0 v0 in
  let ji := mm_srli 32 v1 25 in
  mm_slli 32 ji 23.
(** sseVec.h:455-466 [bss_mm_floor_ps]; 468-479 [bss_mm_ceil_ps]. *)
Definition bss_mm_floor_ps (x : Z) : Z :=
  let i := mm_cvttps_epi32 x in
  let fi := mm_cvtepi32_ps i in
  let igx := mm_cmpgt_p 32 fi x in
  let j := mm_and igx one_ps in
  mm_sub_ps fi j.
Definition bss_mm_ceil_ps (x : Z) : Z :=
  let i := mm_cvttps_epi32 x in
  let fi := mm_cvtepi32_ps i in
  let igx := mm_cmplt_p 32 fi x in
  let j := mm_and igx one_ps in
  mm_add_ps fi j.
(** sseVec.h:533-534 [floor], [ceil]; 535-536, 581-582 [min], [max]; 537-542, 583-588 the comparisons. *)
Definition fvfloor (a : Z) : Z := bss_mm_floor_ps a.
Definition fvceil (a : Z) : Z := bss_mm_ceil_ps a.
Definition fvmin (w a b : Z) : Z := bss_mm_min w a b.
Definition fvmax (w a b : Z) : Z := bss_mm_max w a b.
Definition fveq (w a b : Z) : Z := mm_cmpeq_p w a b.
Definition fvne (w a b : Z) : Z := mm_cmpneq_p w a b.
Definition fvlt (w a b : Z) : Z := mm_cmplt_p w a b.
Definition fvle (w a b : Z) : Z := mm_cmple_p w a b.
Definition fvgt (w a b : Z) : Z := mm_cmpgt_p w a b.
Definition fvge (w a b : Z) : Z := mm_cmpge_p w a b.
(** sseVec.h:548 [Sum] of sseVecT<float>; 589 [Swap], 594 [Sum] of sseVecT<double>. *)
Definition fvsum (a : Z) : binary32 :=
  let x := mm_add_ps a (vshuffle 1 0 3 2 a) in
  b32_of_bits (lane 32 (mm_add_ps x (vshuffle 2 3 0 1 x)) 0).
Definition dvswap (a : Z) : Z := mm_shuffle_pd a a 1.
Definition dvsum (a : Z) : binary64 := b64_of_bits (lane 64 (mm_add_pd a (dvswap a)) 0).
