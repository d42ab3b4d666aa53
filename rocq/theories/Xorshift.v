(* Model of the xorshift generators (XorshiftEngine.h). 64-bit words are numbers below 2^64. *)
From Coq Require Import List NArith Arith Bool.
From Verif Require Import Common.
Import ListNotations.
Open Scope N_scope.

(** uint64_t arithmetic is modulo 2^64 (XorshiftEngine.h:14-31). *)
Definition w64 (x : N) : N := x mod 2 ^ 64.
(** [x ^= x >> k] and [x ^= x << k] (XorshiftEngine.h:16-18, 27-29). *)
Definition xshr (k x : N) : N := N.lxor x (N.shiftr x k).
Definition xshl (k x : N) : N := N.lxor x (w64 (N.shiftl x k)).
(** XorshiftEngine.h:16-18: the new state of xorshift64star. *)
Definition next64 (x : N) : N := xshr 27 (xshl 25 (xshr 12 x)).
(** XorshiftEngine.h:14-20 [xorshift64star]: the new state and the result. *)
Definition xorshift64star (x : N) : N * N := let x := next64 x in (x, w64 (x * 2685821657736338717)).

(** XorshiftEngine.h:23: the 16 words x[0..15] and the index x[16]. *)
Record state := mk { words : list N; index : N }.
(** XorshiftEngine.h:23-31 [xorshift1024star]; x[16] is used as an index without a check. *)
Definition xorshift1024star (s : state) : res (state * N) :=
  do x0 <- get (words s) (N.to_nat (index s));
  let p := N.land (w64 (index s + 1)) 15 in
  do x1 <- get (words s) (N.to_nat p);
  let x1 := xshl 31 x1 in
  let x1 := xshr 11 x1 in
  let x0 := xshr 30 x0 in
  let y := N.lxor x0 x1 in
  do ws <- set (words s) (N.to_nat p) y;
  Ok (mk ws p, w64 (y * 1181783497276652981)).
(** XorshiftEngine.h:37-38: n results of xorshift64star. *)
Fixpoint outputs (n : nat) (x : N) : list N :=
  match n with
  | O => []
  | S n => let (x, r) := xorshift64star x in r :: outputs n x
  end.
(** XorshiftEngine.h:34-40 [GenXor1024Seed], 94 [seed(s)]. *)
Definition GenXor1024Seed (x : N) : state := let (x, _) := xorshift64star x in mk (outputs 16 x) 0.
(** XorshiftEngine.h:95-100 [seed(s[16])]. *)
Definition seed_words (s : list N) : state := mk s 0.
(** XorshiftEngine.h:101-105 [discard]: k calls; also the state after k calls of operator() (110). *)
Fixpoint steps (k : nat) (s : state) : res state :=
  match k with
  | O => Ok s
  | S k => do (s, _) <- xorshift1024star s; steps k s
  end.
