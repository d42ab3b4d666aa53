(* Property C46: the thread pool runs every task once, and Wait waits for all of them. *)
From Coq Require Import List Arith ZArith Bool Lia Permutation ZifyBool ZifyNat.
From Verif Require Import Common Threads ThreadPool.
Import ListNotations.
Local Open Scope Z_scope.

(* ---------------------------------------------------- proofs ---------------------------------------------------- *)
Definition topush (th : thread) : list nat := match snd th with APush ids _ => ids | _ => [] end.
Definition inrun (th : thread) : list nat := match fst th with CRun _ i | WRun i => [i] | _ => [] end.
Definition busy (th : thread) : list nat := match fst th with CRun _ i | WRun i | CSub _ i | WSub i => [i] | _ => [] end.
Definition acc (s : pool) (ts : list thread) : Prop :=
  NoDup (counted s ++ flat_map tocount ts) /\
  Permutation (counted s) (queue s ++ flat_map topush ts ++ started s) /\
  Permutation (started s) (finished s ++ flat_map inrun ts) /\
  tasks s = Z.of_nat (length (queue s) + length (flat_map topush ts) + length (flat_map busy ts)).
Lemma hl {A} (f : thread -> list A) ts t x x' : nth_error ts t = Some x -> exists l, Permutation (flat_map f ts) (f x ++ l) /\ Permutation (flat_map f (upd ts t x')) (f x' ++ l).
Proof. apply held_upd. Qed.
Lemma acc_upd s s' ts t x x' : acc s ts -> nth_error ts t = Some x ->
  (forall lc lp lr lb, NoDup (counted s ++ tocount x ++ lc) -> Permutation (counted s) (queue s ++ (topush x ++ lp) ++ started s) -> Permutation (started s) (finished s ++ inrun x ++ lr) -> tasks s = Z.of_nat (length (queue s) + length (topush x ++ lp) + length (busy x ++ lb)) ->
   (forall b, In b lc -> In b (flat_map tocount ts)) ->
   NoDup (counted s' ++ tocount x' ++ lc) /\ Permutation (counted s') (queue s' ++ (topush x' ++ lp) ++ started s') /\ Permutation (started s') (finished s' ++ inrun x' ++ lr) /\ tasks s' = Z.of_nat (length (queue s') + length (topush x' ++ lp) + length (busy x' ++ lb))) -> acc s' (upd ts t x').
Proof.
  intros (A & B & C & D) H G. destruct (hl tocount ts t x x' H) as (lc & P1 & Q1). destruct (hl topush ts t x x' H) as (lp & P2 & Q2). destruct (hl inrun ts t x x' H) as (lr & P3 & Q3). destruct (hl busy ts t x x' H) as (lb & P4 & Q4).
  destruct (G lc lp lr lb) as (A' & B' & C' & D').
  - apply (Permutation_NoDup (l := counted s ++ flat_map tocount ts)); [apply Permutation_app_head, P1|exact A].
  - rewrite B at 1. apply Permutation_app_head, Permutation_app_tail, P2.
  - rewrite C at 1. apply Permutation_app_head, P3.
  - rewrite D, (Permutation_length P2), (Permutation_length P4). reflexivity.
  - intros b Hb. apply (Permutation_in b (Permutation_sym P1)), in_or_app. right. exact Hb.
  - split; [apply (Permutation_NoDup (l := counted s' ++ tocount x' ++ lc)); [apply Permutation_app_head, Permutation_sym, Q1|exact A']|]. split; [rewrite B' at 1; apply Permutation_app_head, Permutation_app_tail, Permutation_sym, Q2|]. split; [rewrite C' at 1; apply Permutation_app_head, Permutation_sym, Q3|]. rewrite D', (Permutation_length Q2), (Permutation_length Q4). reflexivity.
Qed.
Lemma acc_same s ts t x x' : acc s ts -> nth_error ts t = Some x -> tocount x' = tocount x -> topush x' = topush x -> inrun x' = inrun x -> busy x' = busy x -> acc s (upd ts t x').
Proof. intros A H E1 E2 E3 E4. apply (acc_upd s s ts t x x' A H). rewrite E1, E2, E3, E4. auto. Qed.
Lemma nodup_app_disj {A} (l1 l2 : list A) : NoDup l1 -> NoDup l2 -> (forall a, In a l1 -> ~ In a l2) -> NoDup (l1 ++ l2).
Proof. induction l1 as [|a l1 IH]; intros D1 D2 N; [exact D2|]. inversion D1 as [|? ? Na D1']; subst. cbn [app]. constructor; [|apply IH; auto; intros b Hb; apply N; right; exact Hb]. intros K. apply in_app_or in K. destruct K as [K|K]; [exact (Na K)|exact (N a (or_introl eq_refl) K)]. Qed.
Lemma acc_step s ts s' ts' : acc s ts -> step (s, ts) (s', ts') -> acc s' ts'.
Proof.
  intros A H. inversion H as [s0 ts0 t p s1 p' Ht PS|s0 ts0 t p a s1 a' Ht AS|s0 ts0 t p ids Ht CA ND FR|s0 ts0 t Ht CL|q tk r m c st f ts0|q tk r m c st f ts0 k Hk OT]; subst.
  - apply (acc_upd s s' ts t _ _ A Ht). intros lc lp lr lb A1 A2 A3 A4 _. clear A. inversion PS; subst; cbn [counted queue started finished tasks tocount topush inrun busy fst snd app length] in *.
    all: repeat match goal with |- context [if ?b then _ else _] => destruct b eqn:? end; cbn [tocount topush inrun busy fst snd app length] in *.
    all: try solve [split; [exact A1|]; split; [exact A2|]; split; [exact A3|]; first [exact A4 | lia]].
    + split; [exact A1|]. split; [rewrite A2, !app_assoc; apply Permutation_cons_append|]. split; [|lia]. rewrite A3, <- app_assoc. apply Permutation_app_head, Permutation_app_comm.
    + split; [exact A1|]. split; [exact A2|]. split; [rewrite A3, <- app_assoc; reflexivity|lia].
    + split; [exact A1|]. split; [rewrite A2, !app_assoc; apply Permutation_cons_append|]. split; [|lia]. rewrite A3, <- app_assoc. apply Permutation_app_head, Permutation_app_comm.
    + split; [exact A1|]. split; [exact A2|]. split; [rewrite A3, <- app_assoc; reflexivity|lia].
  - apply (acc_upd s s' ts t _ _ A Ht). intros lc lp lr lb A1 A2 A3 A4 _. clear A. change (inrun (p, a)) with (inrun (p, ANone)) in A3. change (busy (p, a)) with (busy (p, ANone)) in A4. change (inrun (p, a')) with (inrun (p, ANone)). change (busy (p, a')) with (busy (p, ANone)). inversion AS; subst; cbn [counted queue started finished tasks tocount topush inrun busy fst snd app length] in *.
    + split; [rewrite <- app_assoc; exact A1|]. split; [rewrite A2; rewrite !app_assoc; rewrite (Permutation_app_comm _ ids), !app_assoc; do 2 apply Permutation_app_tail; apply Permutation_app_comm|]. split; [exact A3|]. rewrite !app_length in *. lia.
    + split; [exact A1|]. split; [rewrite A2, <- (app_assoc q [i]); reflexivity|]. split; [exact A3|]. rewrite !app_length in *. cbn [length] in *. lia.
    + auto.
    + auto.
  - apply (acc_upd s' s' ts t _ _ A Ht). intros lc lp lr lb A1 A2 A3 A4 IN. cbn [tocount topush inrun busy fst snd app] in *. split; [|auto].
    assert (K : NoDup (ids ++ counted s' ++ lc)). { apply nodup_app_disj; [exact ND|exact A1|]. intros b Hb K. apply (FR b Hb). apply in_app_or in K. apply in_or_app. destruct K as [K|K]; [left; exact K|right; apply IN, K]. }
    apply (Permutation_NoDup (l := ids ++ counted s' ++ lc)); [|exact K]. rewrite !app_assoc. apply Permutation_app_tail, Permutation_app_comm.
  - apply (acc_same s' ts t _ _ A Ht); reflexivity.
  - destruct A as (A1 & A2 & A3 & A4). unfold acc. rewrite !flat_map_app. cbn [flat_map app tocount topush inrun busy snd fst counted queue started finished tasks] in *. rewrite !app_nil_r. auto.
  - assert (A' : acc (mkpool q tk r m c st f true) ts) by exact A. apply (acc_same _ ts k _ _ A' Hk); reflexivity.
Qed.
Definition alive (th : thread) : bool := match fst th with WHead | WSem | WPop | WRun _ | WSub _ | WInc => true | _ => false end.
Definition late (th : thread) : bool := match fst th with WInc | WExit => true | _ => false end.
Definition after (th : thread) : bool := match fst th with DNotify | DSpin | DDone => true | _ => false end.
Definition destr (th : thread) : bool := match fst th with CHead true | CPop true | CRun true _ | CSub true _ | CSpin true | DNeg | DStore _ | DNotify | DSpin | DDone => true | _ => false end.
Definition ends (s : pool) (ts : list thread) : Prop :=
  count destr ts = Nat.b2n (closing s) /\
  (count after ts = 0%nat -> runc s = Z.of_nat (count alive ts) /\ count late ts = 0%nat) /\
  (count after ts <> 0%nat -> runc s = - Z.of_nat (count alive ts)) /\
  (forall t r a, nth_error ts t = Some (DStore r, a) -> r = runc s /\ count after ts = 0%nat).
Lemma count_app {A} (f : A -> bool) l1 l2 : count f (l1 ++ l2) = (count f l1 + count f l2)%nat.
Proof. unfold count. rewrite filter_app, app_length. reflexivity. Qed.
Lemma after_destr ts : (count after ts <= count destr ts)%nat.
Proof. unfold count. induction ts as [|th ts IH]; [auto|]. cbn [filter]. assert (after th = true -> destr th = true) by (destruct th as [[] a]; cbn; congruence). destruct (after th), (destr th); cbn [length]; try lia. Qed.
Lemma ends_same s s' ts t x x' : ends s ts -> nth_error ts t = Some x -> closing s' = closing s -> runc s' = runc s -> destr x' = destr x -> after x' = after x -> alive x' = alive x -> late x' = late x -> (forall r, fst x' = DStore r -> r = runc s /\ count after ts = 0%nat) -> ends s' (upd ts t x').
Proof.
  intros (A & B & C & D) H E1 E2 E3 E4 E5 E6 E7. unfold ends. pose proof (count_upd destr ts t x x' H) as F1. pose proof (count_upd after ts t x x' H) as F2. pose proof (count_upd alive ts t x x' H) as F3. pose proof (count_upd late ts t x x' H) as F4.
  rewrite E3 in F1. rewrite E4 in F2. rewrite E5 in F3. rewrite E6 in F4. assert (G1 : count destr (upd ts t x') = count destr ts) by lia. assert (G2 : count after (upd ts t x') = count after ts) by lia. assert (G3 : count alive (upd ts t x') = count alive ts) by lia. assert (G4 : count late (upd ts t x') = count late ts) by lia.
  rewrite G1, G2, G3, G4, E1, E2. split; [exact A|]. split; [exact B|]. split; [exact C|]. intros t' r a Hr. apply upd_nth in Hr. destruct Hr as [(_ & Hr)|(_ & Hr)]; [|apply (D t' r a Hr)]. apply E7. rewrite <- Hr. reflexivity.
Qed.
Lemma ends_step s ts s' ts' : ends s ts -> step (s, ts) (s', ts') -> ends s' ts'.
Proof.
  intros A H. inversion H as [s0 ts0 t p s1 p' Ht PS|s0 ts0 t p a s1 a' Ht AS|s0 ts0 t p ids Ht CA ND FR|s0 ts0 t Ht CL|q tk r m c st f ts0|q tk r m c st f ts0 k Hk OT]; subst.
  - assert (EASY : closing s' = closing s -> runc s' = runc s -> destr (p', ANone) = destr (p, ANone) -> after (p', ANone) = after (p, ANone) -> alive (p', ANone) = alive (p, ANone) -> late (p', ANone) = late (p, ANone) -> (forall r, fst (p', ANone) = DStore r -> r = runc s /\ count after ts = 0%nat) -> ends s' (upd ts t (p', ANone))) by (intros; apply (ends_same s s' ts t _ _ A Ht); assumption).
    inversion PS; subst.
    all: try solve [apply EASY; try reflexivity; intros ? K; try discriminate K; try (destruct (0 <? _); discriminate K)].
    + apply EASY; try reflexivity; try (destruct (0 <? runc s'); reflexivity); intros ? K; destruct (0 <? runc s'); discriminate K.
    + apply EASY; try reflexivity; try (destruct (tasks s' =? 0), d; reflexivity); intros ? K; destruct (tasks s' =? 0), d; discriminate K.
    + apply EASY; try reflexivity. cbn. intros ? K. injection K as <-. split; [reflexivity|]. destruct A as (A1 & _). pose proof (after_destr ts) as Q. pose proof (count_upd destr ts t _ (CIdle, ANone) Ht) as F1. pose proof (count_upd after ts t _ (CIdle, ANone) Ht) as F2. pose proof (after_destr (upd ts t (CIdle, ANone))) as Q2. cbn in F1, F2. destruct (closing s'); cbn in *; lia.
    + destruct A as (A1 & A2 & A3 & A4). destruct (A4 t _ _ Ht) as (-> & Z0). destruct (A2 Z0) as (R & _). cbn [runc closing] in *. pose proof (count_upd destr ts t _ (DNotify, ANone) Ht) as F1. pose proof (count_upd after ts t _ (DNotify, ANone) Ht) as F2. pose proof (count_upd alive ts t _ (DNotify, ANone) Ht) as F3. cbn [destr after alive late fst Nat.b2n] in F1, F2, F3. unfold ends. cbn [runc closing]. split; [transitivity (count destr ts); [lia|exact A1]|]. split; [intros; lia|]. split; [intros _; lia|].
      intros t' r' a Hr. exfalso. apply upd_nth in Hr. destruct Hr as [(_ & Hr)|(N & Hr)]; [discriminate Hr|]. pose proof (count_two destr ts t' t _ _ N Hr Ht eq_refl eq_refl) as Q. destruct cl; cbn in *; lia.
    + apply EASY; try reflexivity; try (destruct (runc s' <? 0); reflexivity); intros ? K; destruct (runc s' <? 0); discriminate K.
    + destruct (0 <? runc s') eqn:E; [apply EASY; try reflexivity; intros ? K; discriminate K|]. destruct A as (A1 & A2 & A3 & A4). pose proof (count_in alive ts t _ Ht eq_refl) as AL. assert (NZ : count after ts <> 0%nat) by (intros Z0; destruct (A2 Z0); lia). pose proof (count_upd destr ts t _ (WInc, ANone) Ht) as F1. pose proof (count_upd after ts t _ (WInc, ANone) Ht) as F2. pose proof (count_upd alive ts t _ (WInc, ANone) Ht) as F3. cbn [destr after alive late fst Nat.b2n] in F1, F2, F3. unfold ends. split; [transitivity (count destr ts); [lia|exact A1]|]. split; [intros; lia|]. split; [intros _; rewrite (A3 NZ); lia|].
      intros t' r' a Hr. exfalso. apply upd_nth in Hr. destruct Hr as [(_ & Hr)|(N & Hr)]; [discriminate Hr|]. destruct (A4 t' _ _ Hr). contradiction.
    + destruct A as (A1 & A2 & A3 & A4). cbn [runc closing] in *. assert (NZ : count after ts <> 0%nat) by (intros Z0; destruct (A2 Z0) as (_ & L0); pose proof (count_in late ts t _ Ht eq_refl); lia). pose proof (count_upd destr ts t _ (WExit, ANone) Ht) as F1. pose proof (count_upd after ts t _ (WExit, ANone) Ht) as F2. pose proof (count_upd alive ts t _ (WExit, ANone) Ht) as F3. cbn [destr after alive late fst Nat.b2n] in F1, F2, F3. unfold ends. cbn [runc closing]. split; [transitivity (count destr ts); [lia|exact A1]|]. split; [intros; lia|]. split; [intros _; rewrite (A3 NZ); lia|].
      intros t' r' a Hr. exfalso. apply upd_nth in Hr. destruct Hr as [(_ & Hr)|(N & Hr)]; [discriminate Hr|]. destruct (A4 t' _ _ Hr). contradiction.
  - assert (Q : closing s' = closing s /\ runc s' = runc s) by (inversion AS; subst; auto). apply (ends_same s s' ts t _ _ A Ht); try apply Q; try reflexivity. cbn. intros r ->. destruct A as (_ & _ & _ & A4). apply (A4 t r a Ht).
  - apply (ends_same s' s' ts t _ _ A Ht); try reflexivity. cbn. intros r ->. discriminate CA.
  - apply (ends_same s' s' ts t _ _ A Ht); try reflexivity. cbn. intros r K. discriminate K.
  - destruct A as (A1 & A2 & A3 & A4). cbn [runc closing] in *. cbn in A1. pose proof (after_destr ts) as Q. unfold ends. rewrite !count_app. cbn [runc closing]. cbn [count filter length destr after alive late fst]. split; [cbn; lia|]. split; [intros _; destruct A2 as (A2 & A2'); [lia|]; cbn; lia|]. split; [cbn; intros; lia|]. intros t' r' a Hr. exfalso. destruct (Nat.lt_ge_cases t' (length ts)) as [L|L].
    + rewrite nth_error_app1 in Hr by exact L. pose proof (count_in destr ts t' _ Hr eq_refl). lia.
    + rewrite nth_error_app2 in Hr by exact L. destruct (t' - length ts)%nat as [|[|]]; discriminate Hr.
  - destruct A as (A1 & A2 & A3 & A4). cbn [runc closing] in *. cbn in A1. pose proof (after_destr ts) as Q. pose proof (count_upd destr ts k _ (CHead true, ANone) Hk) as F1. pose proof (count_upd after ts k _ (CHead true, ANone) Hk) as F2. pose proof (count_upd alive ts k _ (CHead true, ANone) Hk) as F3. pose proof (count_upd late ts k _ (CHead true, ANone) Hk) as F4. cbn [destr after alive late fst Nat.b2n] in F1, F2, F3, F4. unfold ends. cbn [runc closing]. split; [cbn; lia|]. split; [intros _; destruct A2; lia|]. split; [intros; lia|].
    intros t' r' a Hr. exfalso. apply upd_nth in Hr. destruct Hr as [(_ & Hr)|(N & Hr)]; [discriminate Hr|]. pose proof (count_in destr ts t' _ Hr eq_refl). lia.
Qed.
Lemma runs_inv k s ts : runs k (s, ts) -> acc s ts /\ ends s ts.
Proof.
  intros H. remember (s, ts) as x eqn:E. revert s ts E. induction H as [|x y H IH ST]; intros s ts E.
  - injection E as <- <-. assert (F : forall (f : thread -> list nat), f (CIdle, ANone) = [] -> flat_map f (repeat (CIdle, ANone) k) = []). { intros f E. induction k as [|k IHk]; [reflexivity|]. cbn [repeat flat_map]. rewrite E. exact IHk. }
    split; [unfold acc; rewrite !F by reflexivity; cbn; repeat split; constructor|]. unfold ends. rewrite !count_repeat by reflexivity. cbn. split; [reflexivity|]. split; [auto|]. split; [congruence|]. intros t r a Hr. apply nth_error_In, repeat_spec in Hr. discriminate Hr.
  - subst y. destruct x as [s0 ts0]. destruct (IH _ _ eq_refl) as (A & B). split; [apply (acc_step s0 ts0 s ts A ST)|apply (ends_step s0 ts0 s ts B ST)].
Qed.
Lemma nodup_r {A} (l1 l2 : list A) : NoDup (l1 ++ l2) -> NoDup l2.
Proof. induction l1 as [|a l1 IH]; intros H; [exact H|]. cbn in H. inversion H; subst. apply IH. assumption. Qed.
Lemma nodup_l {A} (l1 l2 : list A) : NoDup (l1 ++ l2) -> NoDup l1.
Proof. induction l1 as [|a l1 IH]; intros H; [constructor|]. cbn in H. inversion H as [|? ? N D]; subst. constructor; [intros Q; apply N, in_or_app; left; exact Q|apply IH, D]. Qed.

(* ---------------------------------------------------- theorems ---------------------------------------------------- *)
(* No task instance is started twice, and only instances that were added are started; those not started are still queued or about to be pushed. *)
Theorem C46_once k s ts : runs k (s, ts) -> NoDup (started s) /\ NoDup (finished s) /\ incl (finished s) (started s) /\ incl (started s) (counted s) /\ exists pending, Permutation (counted s) (queue s ++ pending ++ started s).
Proof.
  intros H. destruct (runs_inv k s ts H) as ((A1 & A2 & A3 & _) & _). apply nodup_l in A1.
  assert (D : NoDup (started s)) by (apply (Permutation_NoDup A2) in A1; apply nodup_r, nodup_r in A1; exact A1).
  split; [exact D|]. split; [apply (Permutation_NoDup A3) in D; apply nodup_l in D; exact D|]. split; [intros i Hi; apply (Permutation_in i (Permutation_sym A3)), in_or_app; left; exact Hi|]. split; [intros i Hi; apply (Permutation_in i (Permutation_sym A2)), in_or_app; right; apply in_or_app; right; exact Hi|]. eauto.
Qed.
Print Assumptions C46_once.
(* The counter is never negative, and when it is zero every task that was added is finished. *)
Theorem C46_zero k s ts : runs k (s, ts) -> 0 <= tasks s /\ (tasks s = 0 -> forall i, In i (counted s) -> In i (finished s)).
Proof.
  intros H. destruct (runs_inv k s ts H) as ((_ & A2 & A3 & A4) & _). split; [lia|]. intros Z0 i Hi.
  assert (Q1 : length (queue s) = 0%nat) by lia. assert (Q2 : length (flat_map topush ts) = 0%nat) by lia. assert (Q3 : length (flat_map busy ts) = 0%nat) by lia. apply length_zero_iff_nil in Q1, Q2, Q3.
  assert (Q4 : flat_map inrun ts = []). { clear - Q3. induction ts as [|th ts IH]; [reflexivity|]. cbn [flat_map] in *. apply app_eq_nil in Q3. destruct Q3 as (Q3 & Q3'). rewrite (IH Q3'). destruct th as [[] a]; try reflexivity; discriminate Q3. }
  rewrite Q1, Q2 in A2. rewrite Q4, app_nil_r in A3. apply (Permutation_in i A3), (Permutation_in i A2), Hi.
Qed.
Print Assumptions C46_zero.
(* When Wait returns, every instance of every AddTask that had counted its instances, and so of every AddTask that had returned, is finished. *)
Theorem C46_wait k s ts t s' p : runs k (s, ts) -> nth_error ts t = Some (CSpin false, ANone) -> pstep (count is_worker ts) s (CSpin false) s' p -> p <> CSpin false -> p = CIdle /\ s' = s /\ forall i, In i (counted s) -> In i (finished s).
Proof.
  intros H Ht PS N. inversion PS; subst. destruct (tasks s' =? 0) eqn:E; [|congruence]. split; [reflexivity|]. split; [reflexivity|]. apply (proj2 (C46_zero k s' ts H)). lia.
Qed.
Print Assumptions C46_wait.
(* What AddTask adds is counted when it returns and stays counted. *)
Theorem C46_counted_kept s ts s' ts' : step (s, ts) (s', ts') -> incl (counted s) (counted s') /\ incl (finished s) (finished s').
Proof.
  intros H. inversion H as [s0 ts0 t p s1 p' Ht PS|s0 ts0 t p a s1 a' Ht AS|s0 ts0 t p ids Ht CA ND FR|s0 ts0 t Ht CL|q tk r m c st f ts0|q tk r m c st f ts0 k Hk OT]; subst; try (split; apply incl_refl).
  - inversion PS; subst; cbn; split; try apply incl_refl; apply incl_appl, incl_refl.
  - inversion AS; subst; cbn; split; try apply incl_refl; apply incl_appl, incl_refl.
Qed.
Print Assumptions C46_counted_kept.
(* An AddTask that is pushing or has pushed counted what it adds before. *)
Theorem C46_push_counted k s ts t p ids n i : runs k (s, ts) -> nth_error ts t = Some (p, APush ids n) -> In i ids -> In i (counted s) /\ ~ In i (started s).
Proof.
  intros H Ht Hi. destruct (runs_inv k s ts H) as ((A1 & A2 & _) & _). assert (K : In i (flat_map topush ts)) by (apply (held_in topush ts t _ i Ht Hi)). split; [apply (Permutation_in i (Permutation_sym A2)), in_or_app; right; apply in_or_app; left; exact K|].
  apply nodup_l, (Permutation_NoDup A2), nodup_r in A1. intros S. revert A1 K S. generalize (flat_map topush ts) as l. clear. induction l as [|b l IH]; intros D K S; [destruct K|]. cbn in D. inversion D as [|? ? Nb D']; subst. destruct K as [->|K]; [apply Nb, in_or_app; right; exact S|apply (IH D' K S)].
Qed.
Print Assumptions C46_push_counted.
(* When the destructor returns, every worker has left its loop and no task is unfinished. *)
Theorem C46_destructor k s ts t s' p : runs k (s, ts) -> nth_error ts t = Some (DSpin, ANone) -> pstep (count is_worker ts) s DSpin s' p -> p <> DSpin -> forall j th, nth_error ts j = Some th -> is_worker th = true -> fst th = WExit.
Proof.
  intros H Ht PS N j th Hj W. destruct (runs_inv k s ts H) as (_ & (_ & _ & A3 & _)). inversion PS; subst. destruct (runc s' <? 0) eqn:E; [congruence|]. pose proof (count_in after ts t _ Ht eq_refl) as AF. assert (Z0 : count alive ts = 0%nat) by (specialize (A3 ltac:(lia)); lia). pose proof (count_zero alive ts Z0 j th Hj) as K. destruct th as [[] a]; cbn in *; congruence.
Qed.
Print Assumptions C46_destructor.
(* Without a worker (ThreadPool(0), or after the pool has been moved from) a Wait with an unfinished task never returns:
   line 81 pops only while _run > 0.  The property does not claim that Wait returns. *)
Lemma run_pos k s ts t p s' p' : runs k (s, ts) -> nth_error ts t = Some (p, ANone) -> pstep (count is_worker ts) s p s' p' -> runs k (s', upd ts t (p', ANone)).
Proof. intros R H P. apply (r_step k _ _ R). apply (s_pos s ts t p s' p' H P). Qed.
Lemma run_add k s ts t p a s' a' : runs k (s, ts) -> nth_error ts t = Some (p, a) -> astep s a s' a' -> runs k (s', upd ts t (p, a')).
Proof. intros R H P. apply (r_step k _ _ R). apply (s_adding s ts t p a s' a' H P). Qed.
Lemma run_wait k s ts t : runs k (s, ts) -> nth_error ts t = Some (CIdle, ANone) -> closing s = false -> runs k (s, upd ts t (CHead false, ANone)).
Proof. intros R H C. apply (r_step k _ _ R). apply (s_wait s ts t H C). Qed.
Lemma run_start k s ts t p ids : runs k (s, ts) -> nth_error ts t = Some (p, ANone) -> can_add s p = true -> NoDup ids -> (forall i, In i ids -> ~ In i (counted s ++ flat_map tocount ts)) -> runs k (s, upd ts t (p, ACount ids)).
Proof. intros R H C D F. apply (r_step k _ _ R). apply (s_add s ts t p ids H C D F). Qed.
Ltac posstep R t c := let R' := fresh in pose proof (run_pos _ _ _ t _ _ _ R eq_refl (ltac:(eapply c))) as R'; cbn in R'; clear R; rename R' into R.
Ltac addstep R t c := let R' := fresh in pose proof (run_add _ _ _ t _ _ _ _ R eq_refl (ltac:(eapply c))) as R'; cbn in R'; clear R; rename R' into R.
Theorem C46_wait_without_workers_refuted : exists s, runs 1 (s, [(CSpin false, ANone)]) /\ In 7%nat (counted s) /\ ~ In 7%nat (finished s) /\ forall n s' p, pstep n s (CSpin false) s' p -> s' = s /\ p = CSpin false.
Proof.
  pose proof (r_new 1) as R. cbn in R.
  apply run_start with (t := 0%nat) (p := CIdle) (ids := [7%nat]) in R; [|reflexivity|reflexivity|(constructor; [intros []|constructor])|intros i _ []]. cbn in R. unfold new_pool in R.
  addstep R 0%nat a_count. addstep R 0%nat a_push. addstep R 0%nat a_end. addstep R 0%nat a_notify.
  apply run_wait with (t := 0%nat) in R; [|reflexivity|reflexivity]. cbn in R.
  posstep R 0%nat c_head.
  eexists. split; [exact R|]. split; [left; reflexivity|]. split; [intros []|]. intros n s' p P. inversion P; subst. auto.
Qed.
Print Assumptions C46_wait_without_workers_refuted.
(* one worker and one client, two instances: the worker runs one, the client the other in Wait, which then returns *)
Example C46_example : exists s, runs 1 (s, [(CSpin false, ANone); (WPop, ANone)]) /\ counted s = [7; 8]%nat /\ finished s = [8; 7]%nat /\ pstep 1 s (CSpin false) s CIdle.
Proof.
  pose proof (r_new 1) as R. cbn in R. unfold new_pool in R.
  apply (fun R => r_step 1 _ _ R (s_thread [] 0 0 0 [] [] [] [(CIdle, ANone)])) in R. cbn in R.
  posstep R 1%nat w_head.
  apply run_start with (t := 0%nat) (p := CIdle) (ids := [7; 8]%nat) in R; [|reflexivity|reflexivity|(repeat (constructor; [cbn; intuition discriminate|]); constructor)|intros i _ []]. cbn in R.
  addstep R 0%nat a_count. addstep R 0%nat a_push. addstep R 0%nat a_push. addstep R 0%nat a_end. addstep R 0%nat a_notify.
  posstep R 1%nat w_sem. posstep R 1%nat w_pop.
  apply run_wait with (t := 0%nat) in R; [|reflexivity|reflexivity]. cbn in R.
  posstep R 0%nat c_head. posstep R 0%nat c_pop. posstep R 0%nat c_run. posstep R 0%nat c_sub. posstep R 1%nat w_run. posstep R 0%nat c_head. posstep R 0%nat c_fail. posstep R 1%nat w_sub.
  eexists. split; [exact R|]. split; [reflexivity|]. split; [reflexivity|].
  match goal with |- pstep _ ?s _ _ _ => apply (c_spin 1 s false) end.
Qed.
(* a destructor whose worker has been told to stop and has stopped *)
Example C46_destructor_example : exists s, runs 1 (s, [(DSpin, ANone); (WExit, ANone)]) /\ pstep 1 s DSpin s DDone.
Proof.
  pose proof (r_new 1) as R. cbn in R. unfold new_pool in R.
  apply (fun R => r_step 1 _ _ R (s_thread [] 0 0 0 [] [] [] [(CIdle, ANone)])) in R. cbn in R.
  posstep R 1%nat w_head.
  apply (fun R => r_step 1 _ _ R (s_destroy [] 0 1 0 [] [] [] [(CIdle, ANone); (WSem, ANone)] 0 eq_refl ltac:(intros [|[|[|]]] th E; cbn in E; try discriminate E; injection E as <-; auto))) in R. cbn in R.
  posstep R 0%nat c_head. posstep R 0%nat c_fail. posstep R 0%nat c_spin. posstep R 0%nat d_neg. posstep R 0%nat d_store. posstep R 0%nat d_notify.
  posstep R 1%nat w_sem. posstep R 1%nat w_fail. posstep R 1%nat w_head. posstep R 1%nat w_inc.
  eexists. split; [exact R|].
  match goal with |- pstep _ ?s _ _ _ => apply (d_spin 1 s) end.
Qed.
