(* Model of BitField<T> with its bit references and bit groups, and of the bit iterators
   (include/bss-util/BitField.h).  T is an unsigned type of w bits; a value is an integer in [0, 2^w).
   Intermediate int results are converted back to T where the code stores them (wrap). *)
From Coq Require Import ZArith List Bool.
From Verif Require Import Common.
Import ListNotations.
Local Open Scope Z_scope.

Section Field.
Context (w : Z).
(** ~x on a T, converted back *)
Definition bnot (x : Z) : Z := wrap w (Z.lnot x).

(** defines.h:56 [T_SETBIT](w,b,f,T) with T the signed type: -(T)f is 0 or -1 *)
Definition T_SETBIT (v b : Z) (f : bool) : Z := Z.lor (Z.land v (Z.lnot b)) (Z.land (- (if f then 1 else 0)) b).

(** BitField.h:18-22 [_BIT_REF::operator=(bool)] on the word v *)
Definition ref_assign (v bit : Z) (right : bool) : Z := wrap w (T_SETBIT v bit right).
(** BitField.h:24 [_BIT_REF::operator bool] *)
Definition ref_bool (v bit : Z) : bool := negb (Z.land v bit =? 0).
(** BitField.h:23 [_BIT_REF::operator=(const _BIT_REF&)]: the value of the other reference is read first *)
Definition ref_copy (v bit v2 bit2 : Z) : Z := ref_assign v bit (ref_bool v2 bit2).
(** BitField.h:25 [_BIT_REF::flip] *)
Definition ref_flip (v bit : Z) : Z := Z.lxor v bit.

(** BitField.h:48-52 [_BIT_GROUP::operator=(T)] *)
Definition group_assign (v group right : Z) : Z := Z.lor (Z.land v (bnot group)) (Z.land right group).
(** BitField.h:54 [_BIT_GROUP::operator T]; also GetGroup const (123) and operator() const (128) *)
Definition group_get (v group : Z) : Z := Z.land v group.
(** BitField.h:53 [_BIT_GROUP::operator=(const _BIT_GROUP&)] *)
Definition group_copy (v group v2 group2 : Z) : Z := group_assign v group (Z.land v2 group2).
(** BitField.h:55-57 [operator!], [operator==], [operator!=] of a group *)
Definition group_none (v group : Z) : bool := Z.land v group =? 0.
Definition group_eq (v group right : Z) : bool := right =? Z.land v group.

(** BitField.h:119 [Set(T bits, T mask)] *)
Definition bf_set_masked (v bits mask : Z) : Z := Z.lxor v (Z.lxor bits (Z.land v mask)).
(** BitField.h:122 [Get(T bit)], 127 [operator[] const] *)
Definition bf_get (v bit : Z) : bool := negb (Z.land v bit =? 0).
(** BitField.h:132 [operator+=] *)
Definition bf_add (v bit : Z) : Z := Z.lor v bit.
(** BitField.h:133 [operator-=] *)
Definition bf_sub (v bit : Z) : Z := Z.land v (bnot bit).

Inductive bf_op :=
| FSet (bits : Z)                      (* BitField.h:118 Set(T), 126 operator=(T) *)
| FSetMasked (bits mask : Z) | FAdd (bit : Z) | FSub (bit : Z)
| FRef (bit : Z) (right : bool) | FFlip (bit : Z) | FGroup (group right : Z).
(** one call on a field holding v *)
Definition bf_step (v : Z) (o : bf_op) : Z :=
  match o with
  | FSet bits => bits
  | FSetMasked bits mask => bf_set_masked v bits mask
  | FAdd bit => bf_add v bit
  | FSub bit => bf_sub v bit
  | FRef bit r => ref_assign v bit r
  | FFlip bit => ref_flip v bit
  | FGroup group r => group_assign v group r
  end.

(** BitField.h:104-105: the word pointer of an iterator, as an index, and its bit *)
Record biter := { it_word : Z; it_bit : Z }.
(** BitField.h:85-93 [_incthis] *)
Definition it_inc (i : biter) : biter :=
  let b := wrap w (Z.shiftl (it_bit i) 1) in
  if b =? 0 then {| it_word := it_word i + 1; it_bit := 1 |} else {| it_word := it_word i; it_bit := b |}.
(** BitField.h:94-102 [_decthis]; the shift 1 << (bits - 1) is done in int (32 bits) *)
Definition it_dec (i : biter) : res biter :=
  let b := Z.shiftr (it_bit i) 1 in
  if b =? 0 then
    if 32 <=? w - 1 then UB
    else Ok {| it_word := it_word i - 1; it_bit := wrap w (Z.shiftl 1 (w - 1)) |}
  else Ok {| it_word := it_word i; it_bit := b |}.
(** BitField.h:81 [operator==] *)
Definition it_eq (a b : biter) : bool := (it_word a =? it_word b) && (it_bit a =? it_bit b).
(** BitField.h:76 [operator*] read as bool, over the words of the array *)
Definition it_get (words : list Z) (i : biter) : res bool :=
  if it_word i <? 0 then UB else do v <- get words (Z.to_nat (it_word i)); Ok (ref_bool v (it_bit i)).
(** an iterator made from the reference to bit k of an array of words: _BIT_ITER(const U&) (75) applied to
    GetBit (DynArray.h:295) *)
Definition it_at (k : Z) : biter := {| it_word := k / w; it_bit := Z.shiftl 1 (k mod w) |}.
(** the range based loop: n increments from the beginning, reading before each *)
Fixpoint it_walk (words : list Z) (i : biter) (n : nat) : res (list bool) :=
  match n with
  | O => Ok []
  | S n' => do b <- it_get words i; do r <- it_walk words (it_inc i) n'; Ok (b :: r)
  end.
End Field.
