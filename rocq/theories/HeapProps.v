(* Properties C21, C22 and C23: BinaryHeap / PriorityQueue. *)
From Coq Require Import List ZArith Bool Permutation Lia.
From Coq Require Import ZifyBool ZifyNat.
From Verif Require Import Common OrderSpec OrderProofs ArraySort ArraySortProofs Heap HeapSpec HeapProofs HeapOpsProofs.
Import ListNotations.
Local Open Scope Z_scope.

(* meaning of each call for the multiset of stored values *)
Definition heap_effect {A} (cmp : A -> A -> Z) (o : @heap_op A) (l l' : list A) : Prop :=
  match o with
  | HInsert x => Permutation l' (x :: l)
  | HPop => exists r, is_max cmp l r /\ Permutation (r :: l') l
  | HSet i x => match nth_error l i with
                | Some y => Permutation (y :: l') (x :: l)
                | None => l' = l
                end
  | HRemove i => match nth_error l i with
                 | Some y => Permutation (y :: l') l
                 | None => l' = l
                 end
  | HClear => l' = []
  end.

Section C21.
Context {A : Type} (cmp : A -> A -> Z) (dflt : A).

Lemma heap_step_ok (TP : total_preorder cmp) l o : heap_ordered cmp l ->
  (o = HPop -> l <> []) -> (forall i, o = HRemove i -> i = 0%nat) ->
  exists l', heap_step cmp dflt l o = Ok l' /\ heap_ordered cmp l' /\ heap_effect cmp o l l'.
Proof.
  intros Hh Hp Hr. destruct o as [x| |i x|i|]; cbn [heap_step heap_effect].
  - destruct (heap_insert_ok cmp TP dflt l x Hh) as (a & E & H & P). rewrite E. cbn. eauto.
  - destruct (heap_Pop_ok cmp TP dflt l Hh (Hp eq_refl)) as (a & r & E & H & P & Hm). rewrite E. cbn. eauto 6.
  - destruct (nth_error l i) as [y|] eqn:Ey.
    + pose proof (nth_error_lt _ _ _ Ey).
      destruct (heap_Set_ok cmp TP dflt l i x Hh) as (a & E & H1 & P); auto. rewrite E. cbn.
      rewrite (nth_error_nth _ _ dflt Ey) in P. eauto.
    + apply nth_error_None in Ey. unfold heap_Set. destruct (Nat.leb_spec (length l) i); [|lia]. cbn. eauto.
  - rewrite (Hr i eq_refl). destruct l as [|y l0].
    + cbn. eauto.
    + destruct (heap_Remove_order cmp TP dflt (y :: l0) 0) as (a & E & H1 & P); auto; [cbn; lia|].
      rewrite E. cbn. cbn in P. eauto.
  - eexists. split; [reflexivity|]. split; auto. intros [|i] p c Hp1; discriminate.
Qed.

(* every history: heap order, and every call has its multiset effect; Pop takes a maximum *)
Theorem C21_BinaryHeap_histories :
  total_preorder cmp ->
  forall ops l, (forall i, In (HRemove i) ops -> i = 0%nat) ->
  run (heap_step cmp dflt) [] ops = Ok l ->
  heap_ordered cmp l /\ history (heap_effect cmp) ops [] l.
Proof.
  intros TP ops. assert (G : forall ops s l, (forall i, In (HRemove i) ops -> i = 0%nat) -> heap_ordered cmp s ->
    run (heap_step cmp dflt) s ops = Ok l -> heap_ordered cmp l /\ history (heap_effect cmp) ops s l).
  { clear ops. induction ops as [|o ops IH]; intros s l Hr Hs E; cbn in E.
    - inversion E; subst. split; auto. constructor.
    - destruct (heap_step cmp dflt s o) as [s1| |] eqn:E1; try discriminate. cbn in E.
      destruct (heap_step_ok TP s o Hs) as (s1' & E1' & H1 & F1).
      + intros -> ->. discriminate.
      + intros i ->. apply Hr. now left.
      + rewrite E1' in E1. inversion E1; subst s1'.
        destruct (IH s1 l) as [I1 I2]; auto; [intros i Hi; apply Hr; now right|]. split; auto. econstructor; eauto. }
  intros l Hr E. apply (G ops [] l); auto. intros [|i] p c Hp1; discriminate.
Qed.

(* no call on a heap-ordered array reads or writes outside it *)
Theorem C21_BinaryHeap_total :
  total_preorder cmp ->
  forall l o, heap_ordered cmp l -> (o = HPop -> l <> []) -> (forall i, o = HRemove i -> i = 0%nat) ->
  exists l', heap_step cmp dflt l o = Ok l' /\ heap_ordered cmp l' /\ heap_effect cmp o l l'.
Proof. intros TP l o. apply heap_step_ok; auto. Qed.

(* Peek (index 0) is a maximum, and Pop returns it *)
Theorem C21_BinaryHeap_peek_max :
  total_preorder cmp ->
  forall l, heap_ordered cmp l -> l <> [] ->
  (exists r, nth_error l 0 = Some r /\ is_max cmp l r) /\
  (exists l' r, heap_Pop cmp mf_none l tt = Ok (l', tt, r) /\ is_max cmp l r /\ Permutation (r :: l') l).
Proof.
  intros TP l H Hne. split; [now apply (root_is_max cmp TP dflt)|].
  destruct (heap_Pop_ok cmp TP dflt l H Hne) as (a & r & E & _ & P & Hm). exists a, r. auto.
Qed.

(* popping until empty yields all elements in descending order *)
Theorem C21_BinaryHeap_drain :
  total_preorder cmp ->
  forall l, heap_ordered cmp l ->
  exists out, drain cmp (length l) l = Ok out /\ Permutation out l /\ descending cmp out.
Proof. intros TP l H. apply (drain_ok cmp TP dflt); auto. Qed.

(* ================= C22 ================= *)
Theorem C22_HeapSort_sorts :
  total_preorder cmp ->
  forall l, exists l', HeapSort cmp l = Ok l' /\ Permutation l' l /\ ascending cmp l'.
Proof. intros TP l. apply (HeapSort_ok cmp TP dflt). Qed.

Theorem C22_Heapify_heap :
  total_preorder cmp ->
  forall l, exists l', Heapify cmp l = Ok l' /\ Permutation l' l /\ heap_ordered cmp l'.
Proof. intros TP l. apply (Heapify_ok cmp TP dflt). Qed.

(* ================= C23 ================= *)
(* removing any index removes exactly that element *)
Theorem C23_Remove_multiset :
  total_preorder cmp ->
  forall l i y, nth_error l i = Some y ->
  exists l', heap_Remove cmp mf_none l tt i = Ok (l', tt, true) /\ Permutation (y :: l') l.
Proof.
  intros TP l i y Hy. destruct (heap_Remove_mult cmp TP dflt l i) as (a & E & P); [eapply nth_error_lt; eauto|].
  rewrite (nth_error_nth _ _ dflt Hy) in P. eauto.
Qed.

(* partial: the heap order survives when the element moved into the hole (the last one) does not
   exceed the parent of the hole.  Missing: the case where it does, which the code gets wrong. *)
Theorem C23_Remove_order_partial :
  total_preorder cmp ->
  forall l i, heap_ordered cmp l -> (i < length l)%nat ->
  (i = 0%nat \/ i = (length l - 1)%nat \/
    exists p z, nth_error l ((i - 1) / 2) = Some p /\ nth_error l (length l - 1) = Some z /\ cmp z p <= 0) ->
  exists l', heap_Remove cmp mf_none l tt i = Ok (l', tt, true) /\ heap_ordered cmp l'.
Proof.
  intros TP l i H Hi Hc. destruct (heap_Remove_order cmp TP dflt l i Hi H) as (a & E & Ha & _).
  - destruct Hc as [Hc|[Hc|(p & z & Hp & Hz & Hc)]]; auto. right. right.
    rewrite (nth_error_nth _ _ dflt Hz). unfold PARENT. rewrite (nth_error_nth _ _ dflt Hp). exact Hc.
  - eauto.
Qed.
End C21.
Print Assumptions C21_BinaryHeap_histories.
Print Assumptions C21_BinaryHeap_total.
Print Assumptions C21_BinaryHeap_peek_max.
Print Assumptions C21_BinaryHeap_drain.
Print Assumptions C22_HeapSort_sorts.
Print Assumptions C22_Heapify_heap.
Print Assumptions C23_Remove_multiset.
Print Assumptions C23_Remove_order_partial.

Definition heap_orderedb (l : list Z) : bool :=
  forallb (fun i => match nth_error l i, nth_error l ((i - 1) / 2) with
                    | Some c, Some p => (i =? 0)%nat || (c <=? p)
                    | _, _ => true end) (seq 0 (length l)).

(* the full statement is false: removing the 5 of this heap puts 85 under 10 *)
Theorem C23_Remove_order_refuted :
  exists l i l', heap_ordered zcmp l /\ (i < length l)%nat /\
    heap_Remove zcmp mf_none l tt i = Ok (l', tt, true) /\ ~ heap_ordered zcmp l'.
Proof.
  exists [100; 10; 90; 5; 6; 80; 85], 3%nat, [100; 10; 90; 85; 6; 80].
  split; [|split; [cbn; lia|split; [vm_compute; reflexivity|]]].
  - intros i p c Hp Hc. do 7 (destruct i as [|i]; [cbn in Hp, Hc; inversion Hp; subst;
      destruct Hc as [Hc|Hc]; inversion Hc; subst; cbv; congruence|]). destruct i; discriminate.
  - intros H. specialize (H 1%nat 10 85 eq_refl (or_introl eq_refl)). cbv in H. congruence.
Qed.
Print Assumptions C23_Remove_order_refuted.

Example C21_example :
  run (heap_step zcmp 0) [] [HInsert 3; HInsert 9; HInsert 4; HInsert 9; HPop; HSet 2 8; HRemove 0] = Ok [8; 3] /\
  drain zcmp 5 [9; 5; 8; 1; 2] = Ok [9; 8; 5; 2; 1].
Proof. vm_compute. auto. Qed.

Example C22_example : HeapSort zcmp [5; 3; 9; 3; 1; 7; 7; 0] = Ok [0; 1; 3; 3; 5; 7; 7; 9]
  /\ Heapify zcmp [5; 3; 9; 3; 1; 7; 7; 0] = Ok [9; 3; 7; 3; 1; 7; 5; 0].
Proof. vm_compute. auto. Qed.

Example C23_example :
  heap_Remove zcmp mf_none [100; 90; 80; 10; 20; 30; 40] tt 1 = Ok ([100; 40; 80; 10; 20; 30], tt, true).
Proof. vm_compute. auto. Qed.
