(* Independent vocabulary shared by the ordered containers: three-way comparators that are
   total preorders, sorted sequences, sequences of operations. *)
From Coq Require Import List ZArith Bool Permutation.
From Verif Require Import Common.
Import ListNotations.
Local Open Scope Z_scope.

(* a comparator returning exactly -1, 0 or 1 that is a total preorder *)
Record total_preorder {A} (cmp : A -> A -> Z) : Prop := {
  tp_range : forall x y, cmp x y = -1 \/ cmp x y = 0 \/ cmp x y = 1;
  tp_anti  : forall x y, cmp y x = - cmp x y;
  tp_trans : forall x y z, cmp x y <= 0 -> cmp y z <= 0 -> cmp x z <= 0
}.

(* a total order: equal only to itself *)
Definition total_order {A} (cmp : A -> A -> Z) : Prop :=
  total_preorder cmp /\ forall x y, cmp x y = 0 -> x = y.

(* ascending sequence *)
Definition ascending {A} (cmp : A -> A -> Z) (l : list A) : Prop :=
  forall i j x y, (i < j)%nat -> nth_error l i = Some x -> nth_error l j = Some y -> cmp x y <= 0.

(* the elements with index in [first, last) *)
Definition segment {A} (l : list A) (first last : nat) : list A := firstn (last - first) (skipn first l).

(* number of elements satisfying a test *)
Definition count {A} (p : A -> bool) (l : list A) : nat := length (filter p l).

(* the sequence of states produced by operations, each step related by R *)
Inductive history {S O} (R : O -> S -> S -> Prop) : list O -> S -> S -> Prop :=
| h_nil s : history R [] s s
| h_cons o ops s1 s2 s3 : R o s1 s2 -> history R ops s2 s3 -> history R (o :: ops) s1 s3.

(* running a partial step function *)
Fixpoint run {S O} (step : S -> O -> res S) (s : S) (ops : list O) : res S :=
  match ops with
  | [] => Ok s
  | o :: r => do s' <- step s o; run step s' r
  end.

(* the standard comparator on integers (SGNCOMPARE, compare.h:11) *)
Definition zcmp (x y : Z) : Z := match Z.compare x y with Lt => -1 | Eq => 0 | Gt => 1 end.
