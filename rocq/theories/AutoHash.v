(* Model of the standard hash and equality of keys (include/bss-util/Hash.h:17-35, 85-138, khash.h:387, 425-436): integers, floating point numbers,
   strings and tuples.  The hashes of strings are those of StrHash.v; wide strings and types of other sizes are not modelled. *)
From Coq Require Import List ZArith Bool.
From Verif Require Import Common StrHash.
Import ListNotations.
Local Open Scope Z_scope.

(** khash.h:387 [kh_int64_hash_func] *)
Definition hash64 (k : Z) : Z := wrap 32 (Z.lxor (Z.lxor (Z.shiftr k 33) k) (wrap 64 (Z.shiftl k 11))).
(** khash.h:425-434 [__ac_Wang_hash], one definition for each line *)
Definition wang1 (k : Z) : Z := wrap 32 (k + Z.lnot (wrap 32 (Z.shiftl k 15))).
Definition wang2 (k : Z) : Z := Z.lxor k (Z.shiftr k 10).
Definition wang3 (k : Z) : Z := wrap 32 (k + wrap 32 (Z.shiftl k 3)).
Definition wang4 (k : Z) : Z := Z.lxor k (Z.shiftr k 6).
Definition wang5 (k : Z) : Z := wrap 32 (k + Z.lnot (wrap 32 (Z.shiftl k 11))).
Definition wang6 (k : Z) : Z := Z.lxor k (Z.shiftr k 16).
(** khash.h:436 [kh_int_hash_func2] *)
Definition hash32 (k : Z) : Z := wang6 (wang5 (wang4 (wang3 (wang2 (wang1 k))))).

(** The keys: an integer of so many bits, a float and a double (their bits), a C string (its address), a std::string, a tuple with one element,
    and a tuple (or pair or array) with a last element: what is before it, as a tuple or as the only element (90-106 treat both the same) *)
Inductive key := KInt (bits v : Z) | KFloat (b : Z) | KDouble (b : Z) | KPtr (p : Z) | KStr (s : list Z) | KOne (a : key) | KPair (a b : key).

(** == of floating point numbers by their bits, w bits in all, of which inf is infinity *)
Definition float_eq (w inf a b : Z) : bool :=
  let m := 2 ^ (w - 1) in
  (a mod m <=? inf) && (b mod m <=? inf) && ((a =? b) || (a mod m =? 0) && (b mod m =? 0)).
Definition inf32 : Z := 255 * 2 ^ 23.
Definition inf64 : Z := 2047 * 2 ^ 52.
Fixpoint list_eq (a b : list Z) : bool := match a, b with [], [] => true | x :: a, y :: b => (x =? y) && list_eq a b | _, _ => false end.

Section Mem.
(** the characters at an address up to the terminator *)
Context (mem : Z -> list Z).
(** Hash.h:20-35 [KH_INT_HASH], 108-122 [KH_AUTO_HASH], 88-96 [KH_MULTI_HASH], which hashes the elements without regard to INS *)
Fixpoint hash (ins : bool) (k : key) : res Z :=
  match k with
  | KInt bits v => Ok (if bits =? 64 then hash64 (wrap 64 v) else if bits =? 32 then hash32 (wrap 32 v) else wrap 32 v)
  | KFloat b => Ok (hash32 b)
  | KDouble b => Ok (hash64 b)
  | KPtr p => (if ins then KH_STR_HASH_INS else KH_STR_HASH) (mem p ++ [0])
  | KStr s => (if ins then KH_STR_HASH_INS else KH_STR_HASH) (s ++ [0])
  | KOne a => hash false a
  | KPair a b => do x <- hash false a; do y <- hash false b; Ok (hash64 (Z.lor x (Z.shiftl y 32)))
  end.
(** == of the type: Hash.h:19, 99-106 [KH_MULTI_EQUAL] *)
Fixpoint native (a b : key) : bool :=
  match a, b with
  | KInt _ x, KInt _ y => x =? y
  | KFloat x, KFloat y => float_eq 32 inf32 x y
  | KDouble x, KDouble y => float_eq 64 inf64 x y
  | KPtr p, KPtr q => p =? q
  | KStr s, KStr t => list_eq s t
  | KOne a, KOne b => native a b
  | KPair a b, KPair c d => native b d && native a c
  | _, _ => false
  end.
(** Hash.h:124-138 [KH_AUTO_EQUAL] *)
Definition equal (ins : bool) (a b : key) : res bool :=
  match a, b with
  | KPtr p, KPtr q => (if ins then KH_STR_EQUAL_INS else KH_STR_EQUAL) (mem p ++ [0]) (mem q ++ [0])
  | KStr s, KStr t => (if ins then KH_STR_EQUAL_INS else KH_STR_EQUAL) (s ++ [0]) (t ++ [0])
  | _, _ => Ok (native a b)
  end.
End Mem.
