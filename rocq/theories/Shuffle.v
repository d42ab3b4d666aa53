(* Models of Shuffle (algo.h) and RandomQueue (RandomQueue.h).
   bssrand(0, i) is computed in floating point; here it is any number below i (the property is about every outcome). *)
From Coq Require Import List Arith.
From Verif Require Import Common.
Import ListNotations.

(** algo.h:134-135: the loop of Shuffle with i turns left; [rand i] is the outcome of bssrand(0, i). *)
Fixpoint shuffle_loop {A} (rand : nat -> nat) (i : nat) (p : list A) : res (list A) :=
  match i with
  | O => Ok p
  | S j => do p <- swap p j (rand i); shuffle_loop rand j p
  end.
(** algo.h:131-136 [Shuffle]. *)
Definition Shuffle {A} (rand : nat -> nat) (p : list A) : res (list A) := shuffle_loop rand (length p) p.

(** RandomQueue.h:14-19: the array of the DynArray base and its length (the elements after it are leftovers). *)
Record rqueue (A : Type) := mk { arr : list A; len : nat }.
Arguments mk {A}. Arguments arr {A}. Arguments len {A}.
(** RandomQueue.h:26. *)
Definition new {A} : rqueue A := mk [] 0.
(** RandomQueue.h:27-28 [Push]: DynArray::Add, which writes after the last element, enlarging the array if it is full
    (modelled in DynArray.v; here the enlarged array has no spare room). *)
Definition Push {A} (q : rqueue A) (x : A) : rqueue A :=
  if len q <? length (arr q) then mk (upd (arr q) (len q) x) (S (len q))
  else mk (firstn (len q) (arr q) ++ [x]) (S (len q)).
(** RandomQueue.h:38 [Remove]; on an empty queue the length wraps around (undefined here). *)
Definition Remove {A} (q : rqueue A) (index : nat) : res (rqueue A) :=
  match len q with
  | O => UB
  | S n => do x <- get (arr q) n; do a <- set (arr q) index x; Ok (mk a n)
  end.
(** RandomQueue.h:30-36 [Pop]; i is the outcome of bssrand(0, _length). *)
Definition Pop {A} (q : rqueue A) (i : nat) : res (rqueue A * A) :=
  do r <- get (arr q) i;
  do q <- Remove q i;
  Ok (q, r).
(** RandomQueue.h:40 [Clear], 39 [Empty], 42 [Length], 43-44 [begin], [end]. *)
Definition Clear {A} (q : rqueue A) : rqueue A := mk (arr q) 0.
Definition Empty {A} (q : rqueue A) : bool := len q =? 0.
Definition elements {A} (q : rqueue A) : list A := firstn (len q) (arr q).
