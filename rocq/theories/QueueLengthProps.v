(* C192: the length reported by the lock-free queues. *)
From Coq Require Import List ZArith Arith Lia.
From Verif Require Import Common QueueLength.
Import ListNotations.
Local Open Scope Z_scope.

(* --- specification: how many threads are at p --- *)
Definition is_at (p q : at_) : bool := match p, q with Outside, Outside | Pushed, Pushed | Popped, Popped => true | _, _ => false end.
Definition at_count (p : at_) (l : list at_) : Z := Z.of_nat (length (filter (is_at p) l)).
Definition quiet (l : list at_) : Prop := forall t, In t l -> t = Outside.

Definition one (p q : at_) : Z := if is_at p q then 1 else 0.
Lemma at_cons p q l : at_count p (q :: l) = one p q + at_count p l.
Proof. unfold at_count, one. cbn [filter]. destruct (is_at p q); cbn [length]; lia. Qed.
Lemma at_upd p l i q q' : nth_error l i = Some q -> at_count p (upd l i q') = at_count p l - one p q + one p q'.
Proof.
  revert i. induction l as [|a l IH]; intros [|i] E; cbn [nth_error upd] in *; try discriminate.
  - injection E as ->. rewrite !at_cons. lia.
  - rewrite !at_cons, (IH i E). lia.
Qed.
Lemma at_repeat p n : p <> Outside -> at_count p (repeat Outside n) = 0.
Proof. intros H. induction n as [|n IH]; [reflexivity|]. cbn [repeat]. rewrite at_cons, IH. destruct p; [congruence|reflexivity|reflexivity]. Qed.
Lemma at_bounds l : 0 <= at_count Pushed l /\ 0 <= at_count Popped l /\ at_count Pushed l + at_count Popped l <= Z.of_nat (length l).
Proof.
  induction l as [|a l IH]; [unfold at_count; cbn; lia|]. rewrite !at_cons. cbn [length]. destruct a; unfold one; cbn [is_at]; lia.
Qed.
Lemma at_quiet p l : quiet l -> p <> Outside -> at_count p l = 0.
Proof.
  intros Q H. induction l as [|a l IH]; [reflexivity|]. rewrite at_cons, IH by (intros t Ht; apply Q; now right).
  rewrite (Q a (or_introl eq_refl)). destruct p; [congruence|reflexivity|reflexivity].
Qed.
Definition holds {T} (w : Z) (s : lq T) : Prop :=
  len s = (Z.of_nat (length (items s)) + at_count Popped (thr s) - at_count Pushed (thr s)) mod 2 ^ w.
Lemma step_holds {T} w (s : lq T) i a s' : 0 < w -> holds w s -> step w s i a = Some s' -> holds w s' /\ length (thr s') = length (thr s).
Proof.
  intros W H E. unfold step in E. assert (P : 0 < 2 ^ w) by (apply Z.pow_pos_nonneg; lia).
  destruct (nth_error (thr s) i) as [t|] eqn:N; [|discriminate].
  destruct t, a as [x| | |]; try discriminate.
  - injection E as <-. split; [|apply upd_length]. unfold holds in *. cbn [len items thr]. rewrite !(at_upd _ _ _ _ _ N), app_length, H. cbn [length one is_at].
    f_equal. lia.
  - destruct (items s) as [|y l] eqn:It; [discriminate|]. injection E as <-. split; [|apply upd_length]. unfold holds in *. cbn [len items thr].
    rewrite !(at_upd _ _ _ _ _ N), H, It. cbn [length one is_at]. f_equal. lia.
  - injection E as <-. split; [|apply upd_length]. unfold holds in *. cbn [len items thr]. rewrite !(at_upd _ _ _ _ _ N), H. unfold wrap.
    rewrite Zplus_mod_idemp_l. cbn [one is_at]. f_equal. lia.
  - injection E as <-. split; [|apply upd_length]. unfold holds in *. cbn [len items thr]. rewrite !(at_upd _ _ _ _ _ N), H. unfold wrap.
    rewrite Zplus_mod_idemp_l. cbn [one is_at].
    replace (Z.of_nat (length (items s)) + (at_count Popped (thr s) - 1 + 0) - (at_count Pushed (thr s) - 0 + 0))
      with (Z.of_nat (length (items s)) + at_count Popped (thr s) - at_count Pushed (thr s) + (2 ^ w - 1) + (-1) * 2 ^ w) by lia.
    now rewrite Z_mod_plus_full.
Qed.
Lemma run_holds {T} w (s : lq T) l s' : 0 < w -> holds w s -> run w s l = Some s' -> holds w s' /\ length (thr s') = length (thr s).
Proof.
  intros W. revert s. induction l as [|[i a] l IH]; intros s H E; cbn [run] in E; [injection E as <-; auto|].
  destruct (step w s i a) as [s1|] eqn:E1; [|discriminate]. destruct (step_holds _ _ _ _ _ W H E1) as [H1 L1].
  destruct (IH s1 H1 E) as [H2 L2]. split; [exact H2|congruence].
Qed.
Lemma start_holds {T} w n : 0 < w -> holds (T := T) w (start n).
Proof. intros W. unfold holds, start. cbn [len items thr length]. rewrite !at_repeat by discriminate. reflexivity. Qed.

(* Whatever the schedule, the length is the number of queued items, plus the pops and minus the pushes under way. *)
Theorem C192_length_exact : forall (T : Type) w n l (s : lq T), 0 < w -> run w (start n) l = Some s ->
  Length s = (Z.of_nat (length (items s)) + at_count Popped (thr s) - at_count Pushed (thr s)) mod 2 ^ w /\
  (quiet (thr s) -> Z.of_nat (length (items s)) < 2 ^ w -> Length s = Z.of_nat (length (items s))).
Proof.
  intros T w n l s W E. destruct (run_holds w _ l s W (start_holds w n W) E) as [H _]. split; [exact H|].
  intros Q B. unfold Length. rewrite H, !at_quiet by (auto; discriminate). rewrite Z.add_0_r, Z.sub_0_r. apply Z.mod_small. lia.
Qed.
Print Assumptions C192_length_exact.

(* While n threads push and pop, it is off by at most n if the queue holds at least n items. *)
Theorem C192_length_close_partial : forall (T : Type) w n l (s : lq T), 0 < w -> run w (start n) l = Some s ->
  Z.of_nat n <= Z.of_nat (length (items s)) < 2 ^ w - Z.of_nat n -> Z.abs (Length s - Z.of_nat (length (items s))) <= Z.of_nat n.
Proof.
  intros T w n l s W E B. destruct (run_holds w _ l s W (start_holds w n W) E) as [H L]. unfold start in L. cbn [thr] in L. rewrite repeat_length in L.
  pose proof (at_bounds (thr s)) as A. rewrite L in A. unfold Length. rewrite H. rewrite Z.mod_small by lia. lia.
Qed.
Print Assumptions C192_length_close_partial.

(* With few items it can be the largest number there is, although the queue is empty: one thread pushes, another pops the
   item before the first has counted it. *)
Theorem C192_length_close_refuted : forall (T : Type) (x : T) w, 0 < w -> exists s, run w (start 2) [(0%nat, Publish x); (1%nat, Take); (1%nat, Dec)] = Some s /\
  items s = [] /\ Length s = 2 ^ w - 1.
Proof.
  intros T x w W. eexists. split; [reflexivity|]. split; [reflexivity|]. unfold Length. cbn [len]. unfold wrap.
  assert (0 < 2 ^ w) by (apply Z.pow_pos_nonneg; lia). apply Z.mod_small. cbn. lia.
Qed.
Print Assumptions C192_length_close_refuted.

Example C192_example : exists s, run 32 (start 3) [(0%nat, Publish 5); (1%nat, Publish 6); (1%nat, Inc); (0%nat, Inc); (1%nat, Publish 7); (2%nat, Take)] = Some s /\
  items s = [6; 7] /\ Length s = 2 /\ at_count Popped (thr s) = 1 /\ at_count Pushed (thr s) = 1.
Proof. eexists. split; [vm_compute; reflexivity|]. repeat split; vm_compute; reflexivity. Qed.
