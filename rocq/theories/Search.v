(* Model of the binary searches, include/bss-util/algo.h:21-102.
   Index types are unbounded (CT_ is assumed wide enough for the array); a result of
   (CT_)-1 is the integer -1. Every read of the array is bounds checked. *)
From Coq Require Import List ZArith Bool.
From Verif Require Import Common.
Import ListNotations.
Local Open Scope Z_scope.

(** algo.h:28-44, the loop of [binsearch_aux_t::BinarySearchNear].
    [p x] stands for [CompEQ(CompF(data, x), CompValue)]; [c] is the remaining count. *)
Fixpoint near_loop {A} (fuel : nat) (p : A -> bool) (arr : list A) (first c : nat) : res nat :=
  match c with
  | O => Ok first
  | S _ =>
      match fuel with
      | O => OutOfFuel
      | S fuel' =>
          let c2 := (c / 2)%nat in
          let m := (first + c2)%nat in
          do x <- get arr m;
          if p x then near_loop fuel' p arr (m + 1) (c - (c2 + 1))
          else near_loop fuel' p arr first c2
      end
  end.

(** algo.h:26-48 and 52-53, [BinarySearchNear]; the comparator takes (data, element). *)
Definition BinarySearchNear {A D} (CompF : D -> A -> Z) (CompEQ : Z -> Z -> bool) (CompValue : Z)
    (arr : list A) (data : D) (first last : nat) : res nat :=
  near_loop (last - first) (fun x => CompEQ (CompF data x) CompValue) arr first (last - first).

(** compare.h:29 and 32, [CompT_EQ] and [CompT_NEQ] on char. *)
Definition CompT_EQ (a b : Z) : bool := a =? b.
Definition CompT_NEQ (a b : Z) : bool := negb (a =? b).

(** algo.h:56-57, [BinarySearchBefore]. *)
Definition BinarySearchBefore {A} (CompF : A -> A -> Z) (arr : list A) (data : A) (first last : nat) : res Z :=
  do r <- BinarySearchNear CompF CompT_NEQ (-1) arr data first last;
  Ok (Z.of_nat r - 1).

(** algo.h:69-70, [BinarySearchAfter]. *)
Definition BinarySearchAfter {A} (CompF : A -> A -> Z) (arr : list A) (data : A) (first last : nat) : res nat :=
  BinarySearchNear CompF CompT_EQ 1 arr data first last.

(** algo.h:88-99, the loop of [BinarySearchExact], f and l signed. *)
Fixpoint exact_loop {A D} (fuel : nat) (CompF : A -> D -> Z) (arr : list A) (data : D) (f l : Z) : res Z :=
  if l <? f then Ok (-1) else
  match fuel with
  | O => OutOfFuel
  | S fuel' =>
      let m := f + Z.shiftr (l - f) 1 in
      do x <- (if m <? 0 then UB else get arr (Z.to_nat m));
      let r := CompF x data in
      if r <? 0 then exact_loop fuel' CompF arr data (m + 1) l
      else if 0 <? r then exact_loop fuel' CompF arr data f (m - 1)
      else Ok m
  end.

(** algo.h:82-102, [BinarySearchExact]. *)
Definition BinarySearchExact {A D} (CompF : A -> D -> Z) (arr : list A) (data : D) (f l : nat) : res Z :=
  exact_loop (l - f) CompF arr data (Z.of_nat f) (Z.of_nat l - 1).
