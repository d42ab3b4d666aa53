(* Independent vocabulary for C21-C24. *)
From Coq Require Import List ZArith Bool Permutation.
From Verif Require Import Common OrderSpec.
Import ListNotations.
Local Open Scope Z_scope.

(* every parent is not below its children *)
Definition heap_ordered {A} (cmp : A -> A -> Z) (l : list A) : Prop :=
  forall i p c, nth_error l i = Some p ->
    (nth_error l (2 * i + 1) = Some c \/ nth_error l (2 * i + 2) = Some c) -> cmp c p <= 0.

(* no element exceeds r *)
Definition is_max {A} (cmp : A -> A -> Z) (l : list A) (r : A) : Prop :=
  In r l /\ forall y, In y l -> cmp y r <= 0.

Definition descending {A} (cmp : A -> A -> Z) (l : list A) : Prop :=
  forall i j x y, (i < j)%nat -> nth_error l i = Some x -> nth_error l j = Some y -> cmp y x <= 0.
