(* Property C18: binary searches. *)
From Coq Require Import List ZArith Bool Lia.
From Coq Require Import ZifyBool ZifyNat.
From Verif Require Import Common OrderSpec OrderProofs Search SearchProofs.
Import ListNotations.
Local Open Scope Z_scope.

Section C18.
Context {A : Type} (cmp : A -> A -> Z).

Lemma seg_asc arr first last i j x y : ascending cmp (segment arr first last) ->
  (last <= length arr)%nat -> (first <= i < j)%nat -> (j < last)%nat ->
  nth_error arr i = Some x -> nth_error arr j = Some y -> cmp x y <= 0.
Proof.
  intros H Hl Hij Hj Hx Hy. apply (H (i - first)%nat (j - first)%nat); [lia| |].
  - rewrite segment_nth by lia. replace (first + (i - first))%nat with i by lia. auto.
  - rewrite segment_nth by lia. replace (first + (j - first))%nat with j by lia. auto.
Qed.

(* lower bound: the number of elements strictly below the key *)
Theorem C18_BinarySearchAfter_lower_bound :
  total_preorder cmp ->
  forall arr key first last,
  (first <= last <= length arr)%nat -> ascending cmp (segment arr first last) ->
  exists r, BinarySearchAfter cmp arr key first last = Ok r /\
    r = (first + count (fun x => Z.ltb (cmp x key) 0) (segment arr first last))%nat.
Proof.
  intros TP arr key first last Hl Hs.
  destruct (near_count cmp CompT_EQ 1 arr key first last) as (r & E & C & _); try lia.
  { intros i j x y Hij Hj Hx Hy. unfold CompT_EQ. pose proof (seg_asc _ _ _ _ _ _ _ Hs (proj2 Hl) Hij Hj Hx Hy) as Hxy.
    intros H1. pose proof (tp_anti _ TP key x). pose proof (tp_anti _ TP key y).
    pose proof (tp_range _ TP key x). pose proof (cmp_lt_trans_r cmp TP x y key Hxy). lia. }
  exists r. split; [exact E|]. rewrite C. f_equal. unfold count. f_equal. apply filter_ext. intros x.
  unfold CompT_EQ. pose proof (tp_anti _ TP key x). pose proof (tp_range _ TP key x). lia.
Qed.

(* upper bound: the number of elements not above the key, minus one *)
Theorem C18_BinarySearchBefore_upper_bound :
  total_preorder cmp ->
  forall arr key first last,
  (first <= last <= length arr)%nat -> ascending cmp (segment arr first last) ->
  exists r, BinarySearchBefore cmp arr key first last = Ok r /\
    r = Z.of_nat (first + count (fun x => Z.leb (cmp x key) 0) (segment arr first last)) - 1.
Proof.
  intros TP arr key first last Hl Hs. unfold BinarySearchBefore.
  destruct (near_count cmp CompT_NEQ (-1) arr key first last) as (r & E & C & _); try lia.
  { intros i j x y Hij Hj Hx Hy. unfold CompT_NEQ. pose proof (seg_asc _ _ _ _ _ _ _ Hs (proj2 Hl) Hij Hj Hx Hy) as Hxy.
    intros H1. pose proof (tp_anti _ TP key x). pose proof (tp_anti _ TP key y).
    pose proof (tp_range _ TP key x). pose proof (tp_range _ TP key y).
    pose proof (cmp_trans cmp TP x y key Hxy). lia. }
  rewrite E. cbn [bind]. eexists. split; [reflexivity|]. rewrite C.
  replace (count (fun x => CompT_NEQ (cmp key x) (-1)) (segment arr first last))
     with (count (fun x => Z.leb (cmp x key) 0) (segment arr first last)); [reflexivity|].
  unfold count. f_equal. apply filter_ext. intros x.
  unfold CompT_NEQ. pose proof (tp_anti _ TP key x). pose proof (tp_range _ TP key x). lia.
Qed.

(* exact search: an index of an equal element inside the range, or -1 when there is none *)
Theorem C18_BinarySearchExact_found_iff :
  total_preorder cmp ->
  forall arr key first last,
  (first <= last <= length arr)%nat -> ascending cmp (segment arr first last) ->
  exists r, BinarySearchExact cmp arr key first last = Ok r /\
   ((exists m x, r = Z.of_nat m /\ (first <= m < last)%nat /\ nth_error arr m = Some x /\ cmp x key = 0) \/
    (r = -1 /\ forall m x, (first <= m < last)%nat -> nth_error arr m = Some x -> cmp x key <> 0)).
Proof.
  intros TP arr key first last Hl Hs. unfold BinarySearchExact.
  destruct (exact_loop_ok cmp arr key (last - first) (Z.of_nat first) (Z.of_nat last - 1))
    as [(m & x & E & R1 & R2 & R3)|[E R]]; try lia.
  { intros i j x y Hi Hij Hj Hx Hy.
    assert (Hxy : cmp x y <= 0) by (eapply (seg_asc arr first last i j); eauto; lia).
    split; intros H.
    - eapply cmp_trans; eauto.
    - eapply cmp_lt_trans_r; eauto. }
  - exists (Z.of_nat m). split; [exact E|]. left. exists m, x. repeat split; auto; lia.
  - exists (-1). split; [exact E|]. right. split; auto. intros m x Hm. apply R. lia.
Qed.
End C18.
Print Assumptions C18_BinarySearchAfter_lower_bound.
Print Assumptions C18_BinarySearchBefore_upper_bound.
Print Assumptions C18_BinarySearchExact_found_iff.

Example C18_example :
  total_preorder zcmp /\
  ascending zcmp (segment [9; 1; 3; 3; 3; 8; 0] 1 6) /\
  BinarySearchAfter zcmp [9; 1; 3; 3; 3; 8; 0] 3 1 6 = Ok 2%nat /\
  BinarySearchBefore zcmp [9; 1; 3; 3; 3; 8; 0] 3 1 6 = Ok 4 /\
  BinarySearchExact zcmp [9; 1; 3; 3; 3; 8; 0] 8 1 6 = Ok 5 /\
  BinarySearchExact zcmp [9; 1; 3; 3; 3; 8; 0] 9 1 6 = Ok (-1).
Proof.
  split; [apply zcmp_preorder|]. split; [|vm_compute; auto].
  change (segment [9; 1; 3; 3; 3; 8; 0] 1 6) with [1; 3; 3; 3; 8].
  repeat (apply asc_cons; [|intros x Hx; cbn in Hx; unfold zcmp; intuition subst; cbn; lia]). apply asc_nil.
Qed.
