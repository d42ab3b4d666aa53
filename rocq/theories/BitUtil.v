(* Model of the integer helpers of include/bss-util/bss_util.h, defines.h and
   Alloc.h.  Machine integers are Z with the reduction to w bits explicit. *)
From Coq Require Import List ZArith Bool.
From Verif Require Import Common.
Import ListNotations.
Local Open Scope Z_scope.

(** Representable values of a signed w-bit type (C++ language rule, no source line). *)
Definition in_signed (w x : Z) : bool := (- 2 ^ (w - 1) <=? x) && (x <? 2 ^ (w - 1)).

(** Result of signed arithmetic in a w-bit type: overflow is undefined behaviour
    (C++ language rule, no source line). *)
Definition sarith (w x : Z) : res Z := if in_signed w x then Ok x else UB.

(** bss_util.h:178-185 [bssMod].  [x %= m] is the truncating remainder, undefined for
    m = 0 and for MIN % -1; [(-(T)(x<0)) & m] is a two's-complement and.  T is a signed
    w-bit type with w >= 32 (narrower types are promoted and cannot overflow). *)
Definition bssMod (w x m : Z) : res Z :=
  if m =? 0 then UB else
  if negb (in_signed w (Z.quot x m)) then UB else
  let x' := Z.rem x m in
  sarith w (x' + Z.land (- (if x' <? 0 then 1 else 0)) m).

(** bss_util.h:156-163 [IntDiv] with T = D a signed w-bit type.  The assert(div > 0)
    is not modelled as a check (it disappears in release builds). *)
Definition IntDiv (w i d : Z) : res Z :=
  if d =? 0 then UB else
  if negb (in_signed w (Z.quot i d)) then UB else
  sarith w (Z.quot i d - (if (i <? 0) && negb (Z.rem i d =? 0) then 1 else 0)).

(** [v |= (v >> s)] as used by bss_util.h:770-811. *)
Definition smear (s v : Z) : Z := Z.lor v (Z.shiftr v s).

(** bss_util.h:803-811 [NextPow2(uint8_t)]. *)
Definition NextPow2_8 (v : Z) : Z :=
  let v := wrap 8 (v - 1) in
  let v := smear 1 v in let v := smear 2 v in let v := smear 4 v in
  wrap 8 (v + 1).
(** bss_util.h:793-802 [NextPow2(uint16_t)]. *)
Definition NextPow2_16 (v : Z) : Z :=
  let v := wrap 16 (v - 1) in
  let v := smear 1 v in let v := smear 2 v in let v := smear 4 v in
  let v := smear 8 v in
  wrap 16 (v + 1).
(** bss_util.h:782-792 [NextPow2(uint32_t)]. *)
Definition NextPow2_32 (v : Z) : Z :=
  let v := wrap 32 (v - 1) in
  let v := smear 1 v in let v := smear 2 v in let v := smear 4 v in
  let v := smear 8 v in let v := smear 16 v in
  wrap 32 (v + 1).
(** bss_util.h:770-781 [NextPow2(uint64_t)]. *)
Definition NextPow2_64 (v : Z) : Z :=
  let v := wrap 64 (v - 1) in
  let v := smear 1 v in let v := smear 2 v in let v := smear 4 v in
  let v := smear 8 v in let v := smear 16 v in let v := smear 32 v in
  wrap 64 (v + 1).

(** bss_util.h:722-731 [BitCount] for an unsigned type of w bits: every assignment to
    v truncates to w bits; [(T)~(T)0] is 2^w - 1; division binds tighter than [&]. *)
Definition BitCount (w v : Z) : Z :=
  let all := 2 ^ w - 1 in
  let v := wrap w (v - Z.land (Z.shiftr v 1) (all / 3)) in
  let v := wrap w (Z.land v (all / 15 * 3) + Z.land (Z.shiftr v 2) (all / 15 * 3)) in
  let v := wrap w (Z.land (v + Z.shiftr v 4) (all / 255 * 15)) in
  wrap 8 (Z.shiftr (wrap w (v * (all / 255))) (w - 8)).

(** bss_util.h:344-349, the loop body and loop of [FlipEndian]: k iterations remain,
    the current index is i, nm1 is the decremented n. *)
Fixpoint flip_loop {A} (k i nm1 : nat) (a : list A) : res (list A) :=
  match k with
  | O => Ok a
  | S k' =>
      do tmp <- get a (nm1 - i)%nat;
      do x <- get a i;
      do a1 <- set a (nm1 - i)%nat x;
      do a2 <- set a1 i tmp;
      flip_loop k' (S i) nm1 a2
  end.

(** bss_util.h:339-350 [FlipEndian(uint8_t*, uint8_t)]; n is at most 255, so --n on
    n = 0 gives 255, which is harmless because end is 0. *)
Definition FlipEndian {A} (a : list A) (n : nat) : res (list A) :=
  let e := Nat.div2 n in
  let n := (if (n =? 0)%nat then 255%nat else n - 1)%nat in
  flip_loop e 0 n a.

(** bss_util.h:352-366 [FlipEndian<I>], the compile-time version. *)
Definition FlipEndianT {A} (a : list A) (I : nat) : res (list A) :=
  if (I =? 2)%nat then
    do t <- get a 0;
    do x <- get a 1;
    do a1 <- set a 0 x;
    set a1 1 t
  else if (2 <? I)%nat then FlipEndian a I else Ok a.

(** The int expression [2 << i] of bss_util.h:649: undefined when the value does not fit
    the unsigned counterpart of int, otherwise wrapped to a signed 32-bit value. *)
Definition two_shl (i : Z) : res Z :=
  if 2 * 2 ^ i <? 2 ^ 32 then Ok (sgn 32 (2 * 2 ^ i)) else UB.

(** bss_util.h:642-651, loop of [IntFastSqrt]: the counter is i+1 on entry; T is
    unsigned of w bits; [root |= int] converts the int to T (sign extension). *)
Fixpoint isqrt_loop (w : Z) (k : nat) (n root : Z) : res Z :=
  match k with
  | O => Ok root
  | S i =>
      let i' := Z.of_nat i in
      let t := wrap w ((root + 2 ^ i') * 2 ^ i') in
      if t <=? n then
        do s <- two_shl i';
        isqrt_loop w i (n - t) (Z.lor root (wrap w s))
      else isqrt_loop w i n root
  end.

(** bss_util.h:654-658 [IntFastSqrt<T>(n)]: bits = sizeof(T) << 2 = w/2. *)
Definition IntFastSqrt (w n : Z) : res Z :=
  do r <- isqrt_loop w (Z.to_nat (w / 2)) n 0;
  Ok (Z.shiftr r 1).

(** bss_util.h:908-917 [bssAbs]: x + mask overflows for the minimum value. *)
Definition bssAbs_s (w x : Z) : res Z :=
  let mask := Z.shiftr x (w - 1) in
  do s <- sarith w (x + mask);
  Ok (wrap w (Z.lxor s mask)).

(** bss_util.h:936-947, the four partial products and the double width result
    (high, low) of [_bssmultiplyextract]; all arithmetic is unsigned w-bit. *)
Definition mul_hl (w x y : Z) : Z * Z :=
  let h := w / 2 in
  let halfmask := Z.shiftr (2 ^ w - 1) h in
  let a := Z.shiftr x h in let b := Z.land x halfmask in
  let c := Z.shiftr y h in let d := Z.land y halfmask in
  let ac := wrap w (a * c) in
  let bc := wrap w (b * c) in
  let ad := wrap w (a * d) in
  let bd := wrap w (b * d) in
  let mid34 := wrap w (Z.shiftr bd h + Z.land bc halfmask + Z.land ad halfmask) in
  let high := wrap w (ac + Z.shiftr bc h + Z.shiftr ad h + Z.shiftr mid34 h) in
  let low := Z.lor (wrap w (Z.shiftl mid34 h)) (Z.land bd halfmask) in
  (high, low).

(** bss_util.h:928-962 [_bssmultiplyextract<T>], T unsigned of w bits.  Shifting by the
    full width (shift = 0 on line 960) is undefined behaviour. *)
Definition mulextract_u (w x y shift : Z) : res Z :=
  let '(high, low) := mul_hl w x y in
  if w <=? shift then
    if shift - w <? w then Ok (Z.shiftr high (shift - w)) else UB
  else
    let low := Z.shiftr low shift in
    if w - shift <? w then
      let high := Z.land (wrap w (Z.shiftl high (w - shift))) (wrap w (- (if 0 <? shift then 1 else 0))) in
      Ok (wrap w (Z.lor low high))
    else UB.

(** bss_util.h:928-962 [_bssmultiplyextract<T>], T signed of w bits; 950-954 negate the
    double width product, 958 shifts arithmetically. *)
Definition mulextract_s (w xs ys shift : Z) : res Z :=
  do x <- bssAbs_s w xs;
  do y <- bssAbs_s w ys;
  let '(high, low) := mul_hl w x y in
  let '(high, low) :=
    if xorb (xs <? 0) (ys <? 0) then
      (wrap w (wrap w (Z.lnot high) + (if low =? 0 then 1 else 0)), wrap w (wrap w (Z.lnot low) + 1))
    else (high, low) in
  if w <=? shift then
    if shift - w <? w then Ok (Z.shiftr (sgn w high) (shift - w)) else UB
  else
    let low := Z.shiftr low shift in
    if w - shift <? w then
      let high := Z.land (wrap w (Z.shiftl high (w - shift))) (wrap w (- (if 0 <? shift then 1 else 0))) in
      Ok (sgn w (Z.lor low high))
    else UB.

(** bss_util.h:964-969 [bssMultiplyExtract] with a native double-width type U. *)
Definition mulextract_native_u (w x y shift : Z) : res Z :=
  if shift <? 2 * w then Ok (wrap w (Z.shiftr (x * y) shift)) else UB.
(** bss_util.h:964-969 [bssMultiplyExtract], signed instance. *)
Definition mulextract_native_s (w x y shift : Z) : res Z :=
  if shift <? 2 * w then Ok (sgn w (Z.shiftr (x * y) shift)) else UB.

(** bss_util.h:977-988 [DaysFromCivil].  The year type I is unbounded (simplification);
    month and day are 32-bit unsigned, [/] on I truncates. *)
Definition DaysFromCivil (y m d : Z) : Z :=
  let y := y - (if m <=? 2 then 1 else 0) in
  let era := Z.quot (if 0 <=? y then y else y - 399) 400 in
  let yoe := wrap 32 (y - era * 400) in
  let doy := wrap 32 ((wrap 32 (153 * wrap 32 (m + (if 2 <? m then -3 else 9)) + 2)) / 5 + d - 1) in
  let doe := wrap 32 (yoe * 365 + yoe / 4 - yoe / 100 + doy) in
  era * 146097 + doe - 719468.

(** defines.h:57 [T_FBNEXT] and bss_util.h:369-375 [fbnext] on an unsigned w-bit type. *)
Definition fbnext (w x : Z) : Z :=
  wrap w (x + 1 + Z.shiftr x 1 + Z.shiftr x 3 - Z.shiftr x 7).

(** defines.h:55 [T_NEXTMULTIPLE] on an unsigned w-bit type. *)
Definition nextmultiple (w x t : Z) : Z :=
  Z.land (wrap w (x + t)) (wrap w (Z.lnot t)).

(** Alloc.h:31 [AlignSize] on a w-bit size_t; align = 0 divides by zero. *)
Definition AlignSize (w sz align : Z) : res Z :=
  if align =? 0 then UB
  else Ok (wrap w ((sz / align + (if sz mod align =? 0 then 0 else 1)) * align)).

(** One test [if(v & b) { v >>= S; r |= S; }] of bss_util.h:831-884. *)
Definition log2_step (b S : Z) (vr : Z * Z) : Z * Z :=
  let '(v, r) := vr in
  if Z.land v b =? 0 then (v, r) else (Z.shiftr v S, Z.lor r S).

(** bss_util.h:825-836 [bssLog2(uint8_t)], portable version. *)
Definition bssLog2_8 (v : Z) : Z :=
  snd (log2_step 0x2 1 (log2_step 0xC 2 (log2_step 0xF0 4 (v, 0)))).
(** bss_util.h:837-849 [bssLog2(uint16_t)], portable version. *)
Definition bssLog2_16 (v : Z) : Z :=
  snd (log2_step 0x2 1 (log2_step 0xC 2 (log2_step 0xF0 4 (log2_step 0xFF00 8 (v, 0))))).
(** bss_util.h:851-864 [bssLog2(uint32_t)], portable version. *)
Definition bssLog2_32 (v : Z) : Z :=
  snd (log2_step 0x2 1 (log2_step 0xC 2 (log2_step 0xF0 4 (log2_step 0xFF00 8
      (log2_step 0xFFFF0000 16 (v, 0)))))).
(** bss_util.h:875-884 [bssLog2(uint64_t)], portable version. *)
Definition bssLog2_64 (v : Z) : Z :=
  snd (log2_step 0x2 1 (log2_step 0xC 2 (log2_step 0xF0 4 (log2_step 0xFF00 8
      (log2_step 0xFFFF0000 16 (log2_step 0xFFFFFFFF00000000 32 (v, 0))))))).

(** [__builtin_clz]: leading zeros of an unsigned int (GCC documentation); counts from
    bit k-1 downwards. *)
Fixpoint clz_from (k : nat) (v : Z) : Z :=
  match k with
  | O => 0
  | S k' => if Z.testbit v (Z.of_nat k') then 0 else 1 + clz_from k' v
  end.
(** [__builtin_clz] takes an unsigned int, so a 64-bit argument is truncated; undefined at 0. *)
Definition builtin_clz (v : Z) : res Z :=
  if wrap 32 v =? 0 then UB else Ok (clz_from 32 (wrap 32 v)).

(** bss_util.h:822 [bssLog2(uint32_t)] under GCC. *)
Definition bssLog2_gcc32 (v : Z) : res Z :=
  if v =? 0 then Ok 0 else do c <- builtin_clz v; Ok (32 - 1 - c).
(** bss_util.h:872-873 [bssLog2(uint64_t)] under 64-bit GCC. *)
Definition bssLog2_gcc64 (v : Z) : res Z :=
  if v =? 0 then Ok 0 else do c <- builtin_clz v; Ok (64 - 1 - c).
(** bss_util.h:889-906 [bssLog2_p2], portable version (lines 898-903). *)
Definition bssLog2_p2 (v : Z) : Z :=
  let t m s := if Z.land v m =? 0 then 0 else 2 ^ s in
  Z.lor (Z.lor (Z.lor (Z.lor (t 0xAAAAAAAA 0) (t 0xFFFF0000 4)) (t 0xFF00FF00 3))
               (t 0xF0F0F0F0 2)) (t 0xCCCCCCCC 1).

(** memcmp(search + i, find, flen) == 0 (C library), with bounds-checked reads. *)
Fixpoint memcmp_eq (s : list Z) (i : nat) (f : list Z) (j k : nat) : res bool :=
  match k with
  | O => Ok true
  | S k' =>
      do x <- get s (i + j);
      do y <- get f j;
      if x =? y then memcmp_eq s i f (S j) k' else Ok false
  end.

(** bss_util.h:707-712, loop of [ByteSearch]: k iterations remain from position i. *)
Fixpoint bytesearch_loop (s f : list Z) (flen k i : nat) : res (option nat) :=
  match k with
  | O => Ok None
  | S k' =>
      do e <- memcmp_eq s i f 0 flen;
      if e then Ok (Some i) else bytesearch_loop s f flen k' (S i)
  end.

(** bss_util.h:701-714 [ByteSearch]; the blocks are non-null with the given lengths; the
    result is the offset of the returned address, None for null. *)
Definition ByteSearch (s : list Z) (length : nat) (f : list Z) (flen : nat) : res (option nat) :=
  if (length =? 0)%nat || (flen =? 0)%nat || (length <? flen)%nat then Ok None
  else bytesearch_loop s f flen (S (length - flen)) 0.

(** bss_util.h:328-336 [OutputUnicode]: the bytes appended to the string (each int is
    converted to char).  [>>] binds tighter than [|] and [&] inside the parentheses. *)
Definition OutputUnicode (c : Z) : list Z :=
  if c <? 0x80 then [wrap 8 c]
  else if c <? 0x800 then
    [wrap 8 (Z.lor 0xC0 (Z.shiftr c 6)); wrap 8 (Z.lor 0x80 (Z.land c 0x3F))]
  else if c <? 0x10000 then
    [wrap 8 (Z.lor 0xE0 (Z.shiftr c 12));
     wrap 8 (Z.lor 0x80 (Z.shiftr (Z.land c 0x0FC0) 6));
     wrap 8 (Z.lor 0x80 (Z.land c 0x3F))]
  else if c <? 0x10FFFF then
    [wrap 8 (Z.lor 0xF0 (Z.shiftr c 18));
     wrap 8 (Z.lor 0x80 (Z.shiftr (Z.land c 0x03F000) 12));
     wrap 8 (Z.lor 0x80 (Z.shiftr (Z.land c 0x0FC0) 6));
     wrap 8 (Z.lor 0x80 (Z.land c 0x3F))]
  else [].
