(* Shared vocabulary of the models of concurrent code: lists of threads.  Nothing in this file models a particular
   function of /repo. *)
From Coq Require Import List Arith Bool Lia Permutation.
From Verif Require Import Common.
Import ListNotations.

(** how many threads are in a state satisfying f *)
Definition count {A} (f : A -> bool) (ts : list A) : nat := length (filter f ts).
(** no thread but t satisfies f *)
Lemma count_upd {A} (f : A -> bool) ts t x x' : nth_error ts t = Some x -> count f (upd ts t x') + Nat.b2n (f x) = count f ts + Nat.b2n (f x').
Proof.
  unfold count. revert t. induction ts as [|y ts IH]; intros [|t] H; try discriminate H; cbn [nth_error upd filter] in *.
  - injection H as ->. destruct (f x), (f x'); cbn [length Nat.b2n]; lia.
  - specialize (IH t H). destruct (f y); cbn [length]; lia.
Qed.
Lemma count_in {A} (f : A -> bool) ts t x : nth_error ts t = Some x -> f x = true -> 1 <= count f ts.
Proof.
  unfold count. revert t. induction ts as [|y ts IH]; intros [|t] H F; try discriminate H; cbn [nth_error filter] in *.
  - injection H as ->. rewrite F. cbn [length]. lia.
  - specialize (IH t H F). destruct (f y); cbn [length]; lia.
Qed.
Lemma count_two {A} (f : A -> bool) ts t t' x x' : t <> t' -> nth_error ts t = Some x -> nth_error ts t' = Some x' -> f x = true -> f x' = true -> 2 <= count f ts.
Proof.
  unfold count. revert t t'. induction ts as [|y ts IH]; intros [|t] [|t'] N H H' F F'; try discriminate; try congruence; cbn [nth_error filter] in *.
  - injection H as ->. rewrite F. cbn [length]. pose proof (count_in f ts t' x' H' F') as Q. unfold count in Q. lia.
  - injection H' as ->. rewrite F'. cbn [length]. pose proof (count_in f ts t x H F) as Q. unfold count in Q. lia.
  - assert (N' : t <> t') by congruence. specialize (IH t t' N' H H' F F'). destruct (f y); cbn [length]; lia.
Qed.
Lemma count_zero {A} (f : A -> bool) ts : count f ts = 0 -> forall t x, nth_error ts t = Some x -> f x = false.
Proof. intros Z t x H. destruct (f x) eqn:F; [|reflexivity]. pose proof (count_in f ts t x H F). lia. Qed.
Lemma count_repeat {A} (f : A -> bool) x n : f x = false -> count f (repeat x n) = 0.
Proof. intros F. unfold count. induction n as [|n IH]; [reflexivity|]. cbn [repeat filter]. rewrite F. exact IH. Qed.
Lemma upd_nth {A} (ts : list A) t x' t' y : nth_error (upd ts t x') t' = Some y -> (t' = t /\ y = x') \/ (t' <> t /\ nth_error ts t' = Some y).
Proof.
  destruct (Nat.eq_dec t' t) as [->|N].
  - intros H. left. split; [reflexivity|]. assert (L : t < length ts) by (rewrite <- (upd_length ts t x'); eapply nth_error_lt; exact H). rewrite nth_error_upd_eq in H by exact L. congruence.
  - rewrite nth_error_upd_neq by congruence. auto.
Qed.
(** what the threads hold between them *)
Lemma held_upd {A B} (f : A -> list B) ts t x x' : nth_error ts t = Some x -> exists l, Permutation (flat_map f ts) (f x ++ l) /\ Permutation (flat_map f (upd ts t x')) (f x' ++ l).
Proof.
  revert t. induction ts as [|y ts IH]; intros [|t] H; try discriminate H; cbn [nth_error upd flat_map] in *.
  - injection H as ->. exists (flat_map f ts). split; reflexivity.
  - destruct (IH t H) as (l & P & Q). exists (f y ++ l). split.
    + rewrite P, !app_assoc. apply Permutation_app_tail. apply Permutation_app_comm.
    + rewrite Q, !app_assoc. apply Permutation_app_tail. apply Permutation_app_comm.
Qed.
Lemma held_in {A B} (f : A -> list B) ts t x b : nth_error ts t = Some x -> In b (f x) -> In b (flat_map f ts).
Proof. intros H Hb. apply in_flat_map. exists x. split; [eapply nth_error_In; exact H|exact Hb]. Qed.
Lemma held_two {A B} (f : A -> list B) ts t t' x y b : NoDup (flat_map f ts) -> t <> t' -> nth_error ts t = Some x -> nth_error ts t' = Some y -> In b (f x) -> In b (f y) -> False.
Proof.
  revert t t'. induction ts as [|z ts IH]; intros [|t] [|t'] D N H H' Hx Hy; try discriminate; try congruence; cbn [nth_error flat_map] in *.
  - injection H as ->. clear IH. revert D Hx. induction (f x) as [|c l IHl]; intros D Hx; [destruct Hx|]. cbn [app] in D. inversion D as [|? ? Nc D']; subst. destruct Hx as [->|Hx]; [apply Nc, in_or_app; right; eapply held_in; eassumption|]. apply (IHl D' Hx).
  - injection H' as ->. clear IH. revert D Hy. induction (f y) as [|c l IHl]; intros D Hy; [destruct Hy|]. cbn [app] in D. inversion D as [|? ? Nc D']; subst. destruct Hy as [->|Hy]; [apply Nc, in_or_app; right; eapply held_in; eassumption|]. apply (IHl D' Hy).
  - assert (N' : t <> t') by congruence. apply (IH t t'); try assumption. clear - D. induction (f z) as [|c l IHl]; [exact D|]. apply IHl. cbn [app] in D. inversion D; assumption.
Qed.
