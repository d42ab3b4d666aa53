(* Shared vocabulary of all models: outcomes, bounds-checked arrays, machine
   integers.  Nothing in this file models a particular function of /repo; the
   conventions stand for the C++ language semantics the sources rely on. *)
From Coq Require Import List Arith ZArith Lia Bool Permutation.
From Coq Require Import ZifyBool ZifyNat.
Import ListNotations.
Ltac Zify.zify_post_hook ::= Z.div_mod_to_equations.

(* ------------------------------------------------------------------ *)
(** Outcome of a C++ computation: a value, undefined behaviour (out of
    bounds access, null dereference, division by zero, ...), or exhaustion
    of the fuel of a loop the model could not bound syntactically. *)
Inductive res (A : Type) : Type :=
| Ok (a : A)
| UB
| OutOfFuel.
Arguments Ok {A} a.
Arguments UB {A}.
Arguments OutOfFuel {A}.

Definition bind {A B} (m : res A) (f : A -> res B) : res B :=
  match m with Ok a => f a | UB => UB | OutOfFuel => OutOfFuel end.
Notation "'do' x <- m ; k" := (bind m (fun x => k))
  (at level 200, x pattern, m at level 100, k at level 200, right associativity).

(** Array read [a[i]]: undefined behaviour outside the bounds. *)
Definition get {A} (l : list A) (i : nat) : res A :=
  match nth_error l i with Some a => Ok a | None => UB end.

Fixpoint upd {A} (l : list A) (i : nat) (v : A) : list A :=
  match l, i with
  | [], _ => []
  | _ :: t, 0 => v :: t
  | x :: t, S i' => x :: upd t i' v
  end.

(** Array write [a[i] = v]: undefined behaviour outside the bounds. *)
Definition set {A} (l : list A) (i : nat) (v : A) : res (list A) :=
  if i <? length l then Ok (upd l i v) else UB.

(** [std::swap(a[i], a[j])]. *)
Definition swap {A} (l : list A) (i j : nat) : res (list A) :=
  do x <- get l i;
  do y <- get l j;
  do l1 <- set l i y;
  set l1 j x.

(** Unsigned integer of [w] bits: conversion = reduction modulo 2^w. *)
Definition wrap (w x : Z) : Z := (x mod 2 ^ w)%Z.
(** Two's complement reading of a [w]-bit pattern. *)
Definition sgn (w x : Z) : Z :=
  (if x mod 2 ^ w <? 2 ^ (w - 1) then x mod 2 ^ w else x mod 2 ^ w - 2 ^ w)%Z.

(* ------------------------------------------------------------------ *)
(** Array lemmas *)

Lemma upd_length {A} (l : list A) i v : length (upd l i v) = length l.
Proof. revert i; induction l as [|x t IH]; intros [|i]; cbn; auto. Qed.

Lemma nth_error_upd_eq {A} (l : list A) i v :
  i < length l -> nth_error (upd l i v) i = Some v.
Proof.
  revert i; induction l as [|x t IH]; intros [|i]; cbn; intros H; try lia; auto.
  apply IH; lia.
Qed.

Lemma nth_error_upd_neq {A} (l : list A) i j v :
  i <> j -> nth_error (upd l i v) j = nth_error l j.
Proof.
  revert i j; induction l as [|x t IH]; intros [|i] [|j]; cbn; intros H; auto; try lia.
Qed.

Lemma nth_error_upd {A} (l : list A) i j v :
  nth_error (upd l i v) j =
  if (i =? j) && (i <? length l) then Some v else nth_error l j.
Proof.
  destruct (Nat.eqb_spec i j) as [->|Hne]; cbn [andb].
  - destruct (Nat.ltb_spec j (length l)).
    + now apply nth_error_upd_eq.
    + rewrite (proj2 (nth_error_None l j)) by lia.
      apply nth_error_None. rewrite upd_length. lia.
  - now apply nth_error_upd_neq.
Qed.

Lemma nth_error_ext {A} (l1 l2 : list A) :
  (forall i, nth_error l1 i = nth_error l2 i) -> l1 = l2.
Proof.
  revert l2; induction l1 as [|x t IH]; intros [|y u] H; auto.
  - specialize (H 0); discriminate.
  - specialize (H 0); discriminate.
  - f_equal.
    + specialize (H 0). now inversion H.
    + apply IH. intros i. apply (H (S i)).
Qed.

Lemma nth_error_ext_lt {A} (l1 l2 : list A) :
  length l1 = length l2 ->
  (forall i, i < length l1 -> nth_error l1 i = nth_error l2 i) -> l1 = l2.
Proof.
  intros Hl H. apply nth_error_ext. intros i.
  destruct (Nat.lt_ge_cases i (length l1)) as [Hi|Hi]; auto.
  rewrite (proj2 (nth_error_None l1 i)), (proj2 (nth_error_None l2 i)); auto; lia.
Qed.

Lemma nth_error_lt {A} (l : list A) i x : nth_error l i = Some x -> i < length l.
Proof. intros H. apply nth_error_Some. congruence. Qed.

Lemma nth_error_ex {A} (l : list A) i : i < length l -> exists x, nth_error l i = Some x.
Proof.
  intros H. destruct (nth_error l i) eqn:E; eauto.
  apply nth_error_None in E. lia.
Qed.

Lemma upd_split {A} (l : list A) i v :
  i < length l -> upd l i v = firstn i l ++ v :: skipn (S i) l.
Proof.
  revert i; induction l as [|x t IH]; intros [|i]; cbn; intros H; try lia; auto.
  f_equal. rewrite IH by lia. reflexivity.
Qed.

Lemma upd_same {A} (l : list A) i v : nth_error l i = Some v -> upd l i v = l.
Proof.
  intros H. apply nth_error_ext. intros j. rewrite nth_error_upd.
  destruct (Nat.eqb_spec i j) as [->|]; cbn [andb]; auto.
  destruct (Nat.ltb_spec j (length l)); auto.
Qed.

Lemma upd_upd {A} (l : list A) i v w : upd (upd l i v) i w = upd l i w.
Proof.
  apply nth_error_ext. intros j. rewrite !nth_error_upd, upd_length.
  destruct (Nat.eqb_spec i j) as [->|]; cbn [andb]; auto.
  destruct (Nat.ltb_spec j (length l)); auto.
Qed.

Lemma upd_comm {A} (l : list A) i j v w :
  i <> j -> upd (upd l i v) j w = upd (upd l j w) i v.
Proof.
  intros H. apply nth_error_ext. intros k. rewrite !nth_error_upd, !upd_length.
  destruct (Nat.eqb_spec i k), (Nat.eqb_spec j k); subst; cbn [andb]; try lia; auto.
Qed.

Lemma get_ok {A} (l : list A) i : i < length l -> exists x, get l i = Ok x /\ nth_error l i = Some x.
Proof.
  intros H. unfold get. destruct (nth_error_ex l i H) as [x Hx]. rewrite Hx. eauto.
Qed.

Lemma get_some {A} (l : list A) i x : nth_error l i = Some x -> get l i = Ok x.
Proof. unfold get. now intros ->. Qed.

Lemma get_inv {A} (l : list A) i x : get l i = Ok x -> nth_error l i = Some x.
Proof. unfold get. destruct (nth_error l i); congruence. Qed.

Lemma set_ok {A} (l : list A) i v : i < length l -> set l i v = Ok (upd l i v).
Proof. unfold set. intros H. destruct (Nat.ltb_spec i (length l)); auto; lia. Qed.

Lemma set_inv {A} (l l' : list A) i v :
  set l i v = Ok l' -> i < length l /\ l' = upd l i v.
Proof.
  unfold set. destruct (Nat.ltb_spec i (length l)); intros H1; inversion H1; auto.
Qed.

Lemma upd_perm_swap {A} (l : list A) i j x y :
  nth_error l i = Some x -> nth_error l j = Some y ->
  Permutation (upd (upd l i y) j x) l.
Proof.
  revert i j. induction l as [|a t IH]; intros [|i] [|j]; cbn; intros Hi Hj; try discriminate.
  - inversion Hi; inversion Hj; subst; auto.
  - inversion Hi; subst. clear IH.
    assert (Hjl : j < length t) by (eapply nth_error_lt; eauto).
    rewrite upd_split by lia.
    apply nth_error_split in Hj. destruct Hj as (l1 & l2 & -> & <-).
    rewrite firstn_app, firstn_all, Nat.sub_diag. cbn [firstn]. rewrite app_nil_r.
    replace (skipn (S (length l1)) (l1 ++ y :: l2)) with l2.
    2:{ change (l1 ++ y :: l2) with (l1 ++ [y] ++ l2). rewrite app_assoc.
        replace (S (length l1)) with (length (l1 ++ [y])) by (rewrite app_length; cbn; lia).
        rewrite skipn_app, skipn_all, Nat.sub_diag. reflexivity. }
    etransitivity.
    { apply perm_skip. apply Permutation_sym, Permutation_middle. }
    etransitivity; [apply perm_swap|].
    apply perm_skip, Permutation_middle.
  - inversion Hj; subst. clear IH.
    assert (Hil : i < length t) by (eapply nth_error_lt; eauto).
    rewrite upd_split by lia.
    apply nth_error_split in Hi. destruct Hi as (l1 & l2 & -> & <-).
    rewrite firstn_app, firstn_all, Nat.sub_diag. cbn [firstn]. rewrite app_nil_r.
    replace (skipn (S (length l1)) (l1 ++ x :: l2)) with l2.
    2:{ change (l1 ++ x :: l2) with (l1 ++ [x] ++ l2). rewrite app_assoc.
        replace (S (length l1)) with (length (l1 ++ [x])) by (rewrite app_length; cbn; lia).
        rewrite skipn_app, skipn_all, Nat.sub_diag. reflexivity. }
    etransitivity.
    { apply perm_skip. apply Permutation_sym, Permutation_middle. }
    etransitivity; [apply perm_swap|].
    apply perm_skip, Permutation_middle.
  - apply perm_skip. apply IH; auto.
Qed.

Lemma swap_ok {A} (l : list A) i j x y :
  nth_error l i = Some x -> nth_error l j = Some y ->
  swap l i j = Ok (upd (upd l i y) j x).
Proof.
  intros Hi Hj. unfold swap. rewrite (get_some _ _ _ Hi), (get_some _ _ _ Hj). cbn.
  rewrite set_ok by (eapply nth_error_lt; eauto). cbn.
  rewrite set_ok; auto. rewrite upd_length. eapply nth_error_lt; eauto.
Qed.

Lemma nth_error_app_l {A} (l1 l2 : list A) i :
  i < length l1 -> nth_error (l1 ++ l2) i = nth_error l1 i.
Proof. intros; now apply nth_error_app1. Qed.

Lemma nth_error_firstn {A} (l : list A) n i :
  nth_error (firstn n l) i = if i <? n then nth_error l i else None.
Proof.
  revert n i; induction l as [|x t IH]; intros [|n] [|i]; auto.
  - cbn [firstn nth_error]. destruct (S i <? S n); reflexivity.
  - cbn [firstn nth_error]. rewrite IH. reflexivity.
Qed.

Lemma nth_error_skipn {A} (l : list A) n i :
  nth_error (skipn n l) i = nth_error l (n + i).
Proof.
  revert l; induction n as [|n IH]; intros l; cbn; auto.
  destruct l; cbn; auto. destruct i; auto.
Qed.

Lemma upd_app_l {A} (l1 l2 : list A) i v :
  i < length l1 -> upd (l1 ++ l2) i v = upd l1 i v ++ l2.
Proof.
  revert i; induction l1 as [|x t IH]; intros [|i]; cbn; intros H; try lia; auto.
  f_equal; apply IH; lia.
Qed.

Lemma upd_app_r {A} (l1 l2 : list A) i v :
  length l1 <= i -> upd (l1 ++ l2) i v = l1 ++ upd l2 (i - length l1) v.
Proof.
  revert i; induction l1 as [|x t IH]; intros i; cbn; intros H.
  - now rewrite Nat.sub_0_r.
  - destruct i as [|i]; try lia. cbn. f_equal; apply IH; lia.
Qed.

Lemma firstn_upd_ge {A} (l : list A) n i v : n <= i -> firstn n (upd l i v) = firstn n l.
Proof.
  intros H. apply nth_error_ext. intros j. rewrite !nth_error_firstn.
  destruct (Nat.ltb_spec j n); auto. apply nth_error_upd_neq; lia.
Qed.

Lemma skipn_upd_lt {A} (l : list A) n i v : i < n -> skipn n (upd l i v) = skipn n l.
Proof.
  intros H. apply nth_error_ext. intros j. rewrite !nth_error_skipn.
  apply nth_error_upd_neq; lia.
Qed.

Lemma firstn_snoc {A} (l : list A) n x :
  nth_error l n = Some x -> firstn (S n) l = firstn n l ++ [x].
Proof.
  revert l; induction n as [|n IH]; intros [|y t]; cbn; intros H; try discriminate.
  - now inversion H.
  - f_equal. now apply IH.
Qed.

Lemma skipn_cons {A} (l : list A) n x :
  nth_error l n = Some x -> skipn n l = x :: skipn (S n) l.
Proof.
  revert l; induction n as [|n IH]; intros [|y t]; cbn; intros H; try discriminate.
  - now inversion H.
  - rewrite IH by auto. reflexivity.
Qed.

Lemma bind_ok {A B} (m : res A) (f : A -> res B) b :
  bind m f = Ok b -> exists a, m = Ok a /\ f a = Ok b.
Proof. destruct m; cbn; intros H; try discriminate; eauto. Qed.
