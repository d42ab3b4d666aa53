From Coq Require Import List ZArith Bool Permutation Lia.
From Coq Require Import ZifyBool ZifyNat.
From Verif Require Import Common OrderSpec.
Import ListNotations.
Local Open Scope Z_scope.

Lemma zcmp_preorder : total_order zcmp.
Proof.
  assert (E : forall x y, (x < y /\ zcmp x y = -1) \/ (x = y /\ zcmp x y = 0) \/ (y < x /\ zcmp x y = 1)).
  { intros. unfold zcmp. destruct (Z.compare_spec x y); lia. }
  split; [split|].
  - intros x y. destruct (E x y) as [?|[?|?]]; lia.
  - intros x y. destruct (E x y) as [?|[?|?]], (E y x) as [?|[?|?]]; lia.
  - intros x y z. destruct (E x y) as [?|[?|?]], (E y z) as [?|[?|?]], (E x z) as [?|[?|?]]; lia.
  - intros x y. destruct (E x y) as [?|[?|?]]; lia.
Qed.

Section CMP.
Context {A : Type} (cmp : A -> A -> Z) (TP : total_preorder cmp).

Lemma cmp_refl x : cmp x x = 0.
Proof. pose proof (tp_anti _ TP x x). lia. Qed.
Lemma cmp_lt_le x y : cmp x y < 0 -> cmp x y <= 0. Proof. lia. Qed.
Lemma cmp_trans x y z : cmp x y <= 0 -> cmp y z <= 0 -> cmp x z <= 0.
Proof. apply (tp_trans _ TP). Qed.
Lemma cmp_lt_trans_l x y z : cmp x y < 0 -> cmp y z <= 0 -> cmp x z < 0.
Proof.
  intros H1 H2. destruct (Z_lt_dec (cmp x z) 0); auto. exfalso.
  pose proof (tp_anti _ TP x z). pose proof (tp_anti _ TP x y).
  assert (cmp z x <= 0) by lia. assert (cmp y x <= 0) by (eapply cmp_trans; eauto). lia.
Qed.
Lemma cmp_lt_trans_r x y z : cmp x y <= 0 -> cmp y z < 0 -> cmp x z < 0.
Proof.
  intros H1 H2. destruct (Z_lt_dec (cmp x z) 0); auto. exfalso.
  pose proof (tp_anti _ TP x z). pose proof (tp_anti _ TP y z).
  assert (cmp z x <= 0) by lia. assert (cmp z y <= 0) by (eapply cmp_trans; eauto). lia.
Qed.
Lemma cmp_total x y : cmp x y <= 0 \/ cmp y x <= 0.
Proof. pose proof (tp_anti _ TP x y). lia. Qed.

Lemma asc_nil : ascending cmp [].
Proof. intros [|i] j x y ? H; discriminate. Qed.
Lemma asc_cons a l : ascending cmp l -> (forall x, In x l -> cmp a x <= 0) -> ascending cmp (a :: l).
Proof.
  intros H1 H2 i j x y Hij Hi Hj. destruct j as [|j]; [lia|]. cbn in Hj. destruct i as [|i]; cbn in Hi.
  - inversion Hi; subst. apply H2. eapply nth_error_In; eauto.
  - apply (H1 i j); auto. lia.
Qed.
Lemma asc_cons_inv a l : ascending cmp (a :: l) -> ascending cmp l /\ (forall x, In x l -> cmp a x <= 0).
Proof.
  intros H. split.
  - intros i j x y Hij Hi Hj. apply (H (S i) (S j)); auto. lia.
  - intros x Hx. apply In_nth_error in Hx. destruct Hx as [n Hn]. apply (H 0%nat (S n)); auto. lia.
Qed.
Lemma asc_app l1 l2 : ascending cmp (l1 ++ l2) <->
  ascending cmp l1 /\ ascending cmp l2 /\ (forall x y, In x l1 -> In y l2 -> cmp x y <= 0).
Proof.
  induction l1 as [|a l1 IH].
  - cbn. split; [intros H|tauto]. split; [apply asc_nil|]. split; auto. intros ? ? [].
  - cbn [app]. split.
    + intros H. apply asc_cons_inv in H. destruct H as [H1 H2]. apply IH in H1. destruct H1 as (H1 & H3 & H4).
      split; [|split; auto].
      * apply asc_cons; auto. intros x Hx. apply H2. apply in_or_app; auto.
      * intros x y [->|Hx] Hy; auto. apply H2. apply in_or_app; auto.
    + intros (H1 & H2 & H3). apply asc_cons_inv in H1. destruct H1 as [H1 H4]. apply asc_cons.
      * apply IH. split; auto. split; auto. intros; apply H3; auto. now right.
      * intros x Hx. apply in_app_or in Hx. destruct Hx; auto. apply H3; auto. now left.
Qed.
End CMP.

(* counting in a partitioned segment *)
Lemma count_split {A} (p : A -> bool) (l : list A) r :
  (r <= length l)%nat ->
  (forall i x, (i < r)%nat -> nth_error l i = Some x -> p x = true) ->
  (forall i x, (r <= i)%nat -> nth_error l i = Some x -> p x = false) ->
  count p l = r.
Proof.
  revert r. induction l as [|a l IH]; intros r Hr H1 H2; unfold count in *; cbn in *.
  - lia.
  - destruct r as [|r].
    + rewrite (H2 0%nat a) by (auto; lia). apply (IH 0%nat); try lia.
      intros i x Hi Hx. apply (H2 (S i)); auto; lia.
    + rewrite (H1 0%nat a) by (auto; lia). cbn. f_equal. apply IH; try lia.
      * intros i x Hi Hx. apply (H1 (S i)); auto; lia.
      * intros i x Hi Hx. apply (H2 (S i)); auto; lia.
Qed.

Lemma segment_nth {A} (l : list A) first last i :
  (last <= length l)%nat -> (i < last - first)%nat ->
  nth_error (segment l first last) i = nth_error l (first + i).
Proof.
  intros H1 H2. unfold segment. rewrite nth_error_firstn. destruct (Nat.ltb_spec i (last - first)); [|lia].
  apply nth_error_skipn.
Qed.
Lemma segment_length {A} (l : list A) first last :
  (last <= length l)%nat -> length (segment l first last) = (last - first)%nat.
Proof. intros H. unfold segment. rewrite firstn_length, skipn_length. lia. Qed.

(* runs *)
Lemma run_history {S O} (step : S -> O -> res S) (R : O -> S -> S -> Prop) (Inv : S -> Prop) :
  (forall s o s', Inv s -> step s o = Ok s' -> Inv s' /\ R o s s') ->
  forall ops s s', Inv s -> run step s ops = Ok s' -> Inv s' /\ history R ops s s'.
Proof.
  intros H. induction ops as [|o ops IH]; intros s s' Hs E; cbn in E.
  - inversion E; subst. split; auto. constructor.
  - destruct (step s o) as [s1| |] eqn:E1; try discriminate. cbn in E.
    destruct (H _ _ _ Hs E1) as [I1 R1]. destruct (IH _ _ I1 E) as [I2 H2]. split; auto.
    econstructor; eauto.
Qed.

Lemma run_app {S O} (step : S -> O -> res S) a b s :
  run step s (a ++ b) = do s' <- run step s a; run step s' b.
Proof.
  revert s. induction a as [|o a IH]; intros s; cbn; auto.
  destruct (step s o); cbn; auto.
Qed.
