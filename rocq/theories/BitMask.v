(* Model of the bit mask helpers and integer limits of include/bss-util/bss_util.h and defines.h.  T is an unsigned type of w
   bits, w being 8, 16, 32 or 64; int has 32 bits, size_t 64. *)
From Coq Require Import ZArith List Bool.
From Verif Require Import Common.
Local Open Scope Z_scope.

(** a << s for an int a: undefined if a is negative, if s is not in 0..31, or if the value does not fit the unsigned type;
    otherwise the value converted back to int *)
Definition shl_int (a s : Z) : res Z :=
  if (a <? 0) || (s <? 0) || (32 <=? s) || (2 ^ 32 <=? a * 2 ^ s) then UB else Ok (sgn 32 (a * 2 ^ s)).
(** a >> s for an int a *)
Definition shr_int (a s : Z) : res Z := if (s <? 0) || (32 <=? s) then UB else Ok (a / 2 ^ s).
(** a - 1 for an int a: undefined for the least one *)
Definition dec_int (a : Z) : res Z := if a <=? - 2 ^ 31 then UB else Ok (a - 1).

(** defines.h:46, bss_util.h:103-104 [GetBitMask(bit)]: (type)bit is converted to size_t for the % *)
Definition GetBitMask (w bit : Z) : Z := wrap w (2 ^ (wrap w bit mod w)).
(** defines.h:45 SAFESHIFT *)
Definition safeshift (v s : Z) : res Z := if 0 <? s then shl_int v s else shr_int v (- s).
(** defines.h:49, bss_util.h:105-106 [GetBitMask(low, high)]: the arithmetic is done in int, the % in size_t *)
Definition GetBitMaskRange (w low high : Z) : res Z :=
  do t <- shl_int 2 (high - low);
  do m <- dec_int t;
  do a <- safeshift m low;
  do b <- shl_int m (wrap 64 low mod w);
  Ok (wrap w (Z.lor a b)).
(** bss_util.h:107-108 [bssSetBit] *)
Definition bssSetBit (w word bit : Z) (v : bool) : Z :=
  wrap w (Z.lor (Z.land word (Z.lnot bit)) (Z.land (- (if v then 1 else 0)) bit)).
(** bss_util.h:110-111 [bssGetBit]: 1 << k is an int, converted to T if T is wider and unsigned; the array is a function *)
Definition bssGetBit (w : Z) (p : Z -> Z) (index : Z) : res bool :=
  do m <- shl_int 1 (index mod w);
  Ok (negb (Z.land (p (index / w)) (wrap (Z.max w 32) m) =? 0)).
(** bss_util.h:377-384 [tsign] of a signed w-bit n *)
Definition tsign (w n : Z) : Z := Z.lor 1 (Z.shiftr n (w - 1)).
(** bss_util.h:386-391 [tsignzero] *)
Definition tsignzero (n : Z) : Z := (if n >? 0 then 1 else 0) - (if n <? 0 then 1 else 0).
(** bss_util.h:919-924 [bssNegate], negate being 0 or 1 *)
Definition bssNegate (w x : Z) (negate : Z) : Z := sgn w (Z.lxor x (- negate) + negate).

(** defines.h:53 T_CHARGETMSB *)
Definition charmsb (i : Z) : Z :=
  let a := Z.lor i (Z.shiftr i 1) in
  let b := Z.lor a (Z.shiftr a 2) in
  let c := Z.lor b (Z.shiftr b 4) in c - Z.shiftr c 1.
(** bss_util.h:74 BYTES *)
Definition BYTES (n : Z) : Z := Z.shiftl (Z.shiftr (charmsb n) 3) (if n mod 8 >? 0 then 1 else 0) + (if n <? 8 then 1 else 0).
(** bss_util.h:75-84: the width of SIGNED, char being signed; void (no such type) if no type has that many bytes *)
Definition limit_bits (n : Z) : res Z :=
  if (BYTES n =? 1) || (BYTES n =? 2) || (BYTES n =? 4) || (BYTES n =? 8) || (BYTES n =? 16) then Ok (8 * BYTES n) else UB.
(** ((UNSIGNED)a) << s: types narrower than int are promoted; a constant expression may not shift by the width or more *)
Definition shl_const (w a s : Z) : res Z := if Z.max w 32 <=? s then UB else Ok (if w <? 32 then a * 2 ^ s else wrap w (a * 2 ^ s)).
(** bss_util.h:86-91: UNSIGNED_MIN, UNSIGNED_MAX, SIGNED_MIN, SIGNED_MAX *)
Definition BitLimit (n : Z) : res (Z * Z * Z * Z) :=
  do w <- limit_bits n;
  do two <- shl_const w 2 (n - 1);
  let umax := wrap w (two - 1) in
  do one <- shl_const w 1 (n - 1);
  let raw := sgn w one in
  do all <- shl_const w (2 ^ w - 1) (n - 1);
  let smin := sgn w (wrap w all) in
  Ok (0, umax, smin, sgn w (Z.land (Z.lnot raw) umax)).
