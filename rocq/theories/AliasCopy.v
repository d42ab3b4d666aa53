(* Model of copying, assigning and moving an AliasTable<UINT, F> (include/bss-util/AliasTable.h:21-23, 108-127).  su and sf are sizeof(UINT)
   and sizeof(F).  Tables are those of AliasTable.v; an element of which not every byte is written is None.  The copy constructor (15-20)
   passes unique_ptrs to memcpy and does not compile; it would copy as the assignment does. *)
From Coq Require Import List Arith QArith.
From Verif Require Import Common AliasTable.
Import ListNotations.
Local Open Scope nat_scope.

(** memcpy of n bytes into a new array of as many elements of size bytes as src has: undefined past the end *)
Definition copy_bytes {A} (size n : nat) (src : list (option A)) : res (list (option A)) :=
  if size * length src <? n then UB else Ok (firstn (n / size) src ++ repeat None (length src - n / size)).
(** AliasTable.h:108-118 copy assignment from another table; _count is the length of both arrays *)
Definition copy_assign (su sf : nat) (s : table) : res table :=
  let count := length (prob s) in
  do a <- copy_bytes su (su * count) (alias s);
  do p <- copy_bytes sf (su * count) (prob s);
  Ok (mkt p a).
(** AliasTable.h:108-118 with copy being *this: 113-114 replace the arrays by new ones, which are copied to themselves *)
Definition self_assign (s : table) : table := mkt (repeat None (length (prob s))) (repeat None (length (alias s))).
(** AliasTable.h:21-23, 119-127: moves: the target and its _count; the source (null arrays) and its _count *)
Definition move (s : table) : (table * nat) * (table * nat) := ((s, length (prob s)), (mkt [] [], length (prob s))).
