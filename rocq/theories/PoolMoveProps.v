(* C199: destroying and moving thread pools; futures. *)
From Coq Require Import List ZArith Arith Lia Bool.
From Verif Require Import Common PoolMove.
Import ListNotations.

(* --- specification --- *)
(** what can become of a pool of n threads with the number k while it works *)
Inductive works (n k : nat) : st -> Prop :=
| w_new : works n k (new n k)
| w_task s t : works n k s -> works n k (AddTask s k t)
| w_step s i s' : works n k s -> wstep s i = Some s' -> works n k s'.
(** steps of workers, each of which is possible *)
Fixpoint steps (s : st) (l : list nat) : option st := match l with [] => Some s | i :: l => match wstep s i with Some s' => steps s' l | None => None end end.

(* --- lemmas --- *)
Definition is_done (w : worker) : bool := match wat w with WDone => true | _ => false end.
Definition is_wait (w : worker) : bool := match wat w with WWait => true | _ => false end.
Definition count (f : worker -> bool) (l : list worker) : nat := length (filter f l).
Definition weight (w : worker) : nat := match wat w with WDone => 0 | WCheck => 1 | WPop => 2 | WWait => 3 | WSub => 3 end.
Fixpoint total (l : list worker) : nat := match l with [] => 0 | w :: l => weight w + total l end.
Definition one (f : worker -> bool) (w : worker) : nat := if f w then 1 else 0.
Lemma count_upd f l i w w' : nth_error l i = Some w -> count f (upd l i w') + one f w = count f l + one f w'.
Proof.
  revert i. unfold count, one. induction l as [|a l IH]; intros [|i] E; cbn [nth_error upd] in *; try discriminate; cbn [filter].
  - injection E as ->. destruct (f w), (f w'); cbn [length]; lia.
  - specialize (IH i E). destruct (f a); cbn [length]; lia.
Qed.
Lemma total_upd l i w w' : nth_error l i = Some w -> total (upd l i w') + weight w = total l + weight w'.
Proof.
  revert i. induction l as [|a l IH]; intros [|i] E; cbn [nth_error upd total] in *; try discriminate.
  - injection E as ->. lia.
  - specialize (IH i E). lia.
Qed.
Lemma forall_upd {B} (Q : B -> Prop) l i v : Forall Q l -> Q v -> Forall Q (upd l i v).
Proof. intros F V. revert i. induction F as [|a l A F IH]; intros [|i]; cbn [upd]; constructor; auto. Qed.
Lemma put_same m k v : put m k v k = v.
Proof. unfold put. now rewrite Nat.eqb_refl. Qed.
Lemma put_other m k v x : x <> k -> put m k v x = m x.
Proof. intros H. unfold put. now rewrite (proj2 (Nat.eqb_neq _ _) H). Qed.
Lemma count_le f l : count f l <= length l.
Proof. unfold count. induction l as [|a l IH]; cbn [filter length]; [lia|]. destruct (f a); cbn [length]; lia. Qed.
Lemma wait_done l : count is_wait l + count is_done l <= length l.
Proof. unfold count. induction l as [|a l IH]; cbn [filter length]; [lia|]. unfold is_wait, is_done in *. destruct (wat a); cbn [length]; lia. Qed.
Lemma none_done l : count is_done l = length l -> forall w, In w l -> wat w = WDone.
Proof.
  unfold count. induction l as [|a l IH]; cbn [filter length]; intros E w [].
  - subst a. pose proof (count_le is_done l) as L. unfold count, is_done in *. destruct (wat w); cbn [length] in *; try lia. reflexivity.
  - apply IH; [|assumption]. pose proof (count_le is_done l) as L. unfold count, is_done in *. destruct (wat a); cbn [length] in *; lia.
Qed.
Definition refs (k : nat) (l : list worker) : Prop := Forall (fun w => ref w = k) l.
Lemma wstep_shape s i s' k : refs k (workers s) -> wstep s i = Some s' ->
  refs k (workers s') /\ length (workers s') = length (workers s) /\ forall x, x <> k -> pools s' x = pools s x.
Proof.
  intros F E. unfold wstep in E. destruct (nth_error (workers s) i) as [w|] eqn:N; [|discriminate].
  assert (Rw : ref w = k) by (eapply Forall_forall in F; [exact F|eapply nth_error_In; exact N]).
  assert (G : forall pc p d, Some (St (put (pools s) (ref w) p) (upd (workers s) i (Wk (ref w) pc)) (d ++ done s)) = Some s' ->
    refs k (workers s') /\ length (workers s') = length (workers s) /\ forall x, x <> k -> pools s' x = pools s x).
  { intros pc p d Q. injection Q as <-. cbn [workers pools]. rewrite Rw. split; [apply forall_upd; [exact F|reflexivity]|]. split; [apply upd_length|]. intros x X. now apply put_other. }
  destruct (wat w); [destruct (_ <? _)%Z|destruct (sem _)|destruct (queue _)| |]; try discriminate; exact (G _ _ _ E).
Qed.

(** what holds while the pool works *)
Lemma works_inv n k s : works n k s -> refs k (workers s) /\ length (workers s) = n /\ run (pools s k) = Z.of_nat n /\ nthreads (pools s k) = n /\ count is_done (workers s) = 0.
Proof.
  induction 1 as [|s t H IH|s i s' H IH E].
  - unfold new. cbn [workers pools]. rewrite put_same. cbn [run nthreads]. rewrite repeat_length. split; [apply Forall_forall; intros w I; apply repeat_spec in I; now subst|].
    do 3 (split; [reflexivity|]). unfold count. induction n as [|n IH]; [reflexivity|exact IH].
  - destruct IH as [A [B [C [D D']]]]. unfold AddTask. cbn [workers pools]. rewrite put_same. cbn [run nthreads]. repeat split; assumption.
  - destruct IH as [A [B [C [D D']]]]. destruct (wstep_shape _ _ _ _ A E) as [A' [B' _]]. split; [exact A'|]. split; [lia|].
    unfold wstep in E. destruct (nth_error (workers s) i) as [w|] eqn:N; [|discriminate].
    assert (Rw : ref w = k) by (eapply Forall_forall in A; [exact A|eapply nth_error_In; exact N]).
    rewrite Rw in E. assert (L : i < length (workers s)) by (apply nth_error_Some; congruence).
    pose proof (fun w' => count_upd is_done _ _ _ w' N) as U. unfold one, is_done in U.
    destruct (wat w) eqn:Wt; [destruct (Z.ltb_spec 0 (run (pools s k)))|destruct (sem _)|destruct (queue _)| |]; try discriminate; injection E as <-; cbn [pools workers];
      rewrite put_same; cbn [run nthreads]; try (exfalso; lia);
      (split; [exact C|split; [exact D|]]); match goal with |- count is_done (upd _ _ ?w') = 0 => specialize (U w'); cbn [wat] in U; unfold is_done in *; lia end.
Qed.
(** what holds once it is being destroyed *)
Definition closing (k : nat) (s : st) : Prop :=
  refs k (workers s) /\ run (pools s k) = (Z.of_nat (count is_done (workers s)) - Z.of_nat (length (workers s)))%Z /\
  count is_wait (workers s) <= sem (pools s k).
Definition measure (k : nat) (s : st) : nat := total (workers s) + 2 * length (queue (pools s k)).
Lemma closing_step k s i s' : closing k s -> wstep s i = Some s' -> closing k s' /\ measure k s' < measure k s.
Proof.
  intros [A [B C]] E. destruct (wstep_shape _ _ _ _ A E) as [A' [B' _]]. unfold closing, measure. unfold wstep in E.
  destruct (nth_error (workers s) i) as [w|] eqn:N; [|discriminate].
  assert (Rw : ref w = k) by (eapply Forall_forall in A; [exact A|eapply nth_error_In; exact N]). rewrite Rw in E.
  pose proof (fun w' => count_upd is_done _ _ _ w' N) as U. pose proof (fun w' => count_upd is_wait _ _ _ w' N) as U'. pose proof (fun w' => total_upd _ _ _ w' N) as T.
  unfold one in U, U'. unfold is_done, is_wait, weight in U, U', T. fold is_done in U. fold is_wait in U'.
  pose proof (wait_done (workers s)) as WD.
  assert (ND : forall w', wat w' <> WDone -> In w' (workers s) -> count is_done (workers s) < length (workers s)).
  { intros w' X I. pose proof (count_le is_done (workers s)). destruct (Nat.eq_dec (count is_done (workers s)) (length (workers s))) as [Q|Q]; [|lia].
    exfalso. apply X. now apply (none_done (workers s)). }
  specialize (ND w). pose proof (nth_error_In _ _ N) as I.
  destruct (wat w) eqn:Wt; [destruct (Z.ltb_spec 0 (run (pools s k)))|destruct (sem _) eqn:Sm|destruct (queue _) eqn:Q| |]; try discriminate; injection E as <-; cbn [pools workers] in *;
    rewrite put_same; cbn [run sem queue length];
    try (exfalso; pose proof (count_le is_done (workers s)); lia);
    match goal with |- context [upd _ _ ?w'] => specialize (U w'); specialize (U' w'); specialize (T w'); cbn [wat] in U, U', T end;
    unfold is_done, is_wait in *; rewrite ?Q; cbn [length]; (split; [split; [exact A'|split; lia]|lia]).
Qed.

(** The destructor of a pool that was not moved ends: once the pool is stopped, its workers can take only so many steps, and when none can
    take another they have all ended, and the destructor returns *)
Theorem C199_destructor n k s : works n k s -> exists most, forall l s', steps (stop s k) l = Some s' ->
  length l <= most /\ ((forall i, wstep s' i = None) -> stopped s' k = true /\ forall w, In w (workers s') -> wat w = WDone).
Proof.
  intros H. destruct (works_inv _ _ _ H) as [A [B [C [D D']]]].
  assert (I : closing k (stop s k)).
  { unfold closing, stop. cbn [workers pools]. rewrite put_same. cbn [run sem]. split; [exact A|]. split; [lia|]. pose proof (count_le is_wait (workers s)). lia. }
  exists (measure k (stop s k)). revert I. generalize (stop s k). clear. intros s I l. revert s I. induction l as [|i l IH]; intros s I s' E; cbn [steps] in E.
  - injection E as <-. split; [cbn [length]; lia|]. intros Q. destruct I as [A [B C]].
    assert (AD : forall w, In w (workers s) -> wat w = WDone).
    { intros w W. destruct (In_nth_error _ _ W) as [i N]. specialize (Q i). unfold wstep in Q. rewrite N in Q.
      destruct (wat w) eqn:Wt; [destruct (_ <? _)%Z; discriminate| |destruct (queue _); discriminate|discriminate|reflexivity].
      assert (Rw : ref w = k) by (eapply Forall_forall in A; [exact A|exact W]). rewrite Rw in Q.
      destruct (sem (pools s k)) eqn:Sm; [|discriminate]. exfalso.
      assert (X : count is_wait (workers s) > 0); [|lia]. clear - W Wt. unfold count. induction (workers s) as [|a m IH]; [destruct W|]. cbn [filter].
      destruct W as [->|W]; [unfold is_wait at 1; rewrite Wt; cbn [length]; lia|]. specialize (IH W). destruct (is_wait a); cbn [length]; lia. }
    split; [|exact AD]. unfold stopped. rewrite B. assert (X : count is_done (workers s) = length (workers s)); [|rewrite X; apply Z.leb_le; lia].
    clear - AD. unfold count. induction (workers s) as [|a m IH]; [reflexivity|]. cbn [filter length]. unfold is_done at 1. rewrite (AD a (or_introl eq_refl)). cbn [length]. f_equal. apply IH.
    intros w W. apply AD. now right.
  - destruct (wstep s i) as [s1|] eqn:S1; [|discriminate]. destruct (closing_step _ _ _ _ I S1) as [I1 M]. destruct (IH _ I1 _ E) as [L R]. cbn [length]. split; [lia|exact R].
Qed.
Print Assumptions C199_destructor.

Lemma schedule_other k l : forall s, refs k (workers s) -> (forall x, x <> k -> pools (schedule s l) x = pools s x).
Proof.
  induction l as [|i l IH]; intros s F x X; cbn [schedule]; [reflexivity|]. destruct (wstep s i) as [s'|] eqn:E; [|now apply IH].
  destruct (wstep_shape _ _ _ _ F E) as [F' [_ O]]. rewrite IH by assumption. now apply O.
Qed.
Lemma schedule_done k l : forall s, refs k (workers s) -> queue (pools s k) = [] -> done (schedule s l) = done s.
Proof.
  induction l as [|i l IH]; intros s F Q; cbn [schedule]; [reflexivity|]. destruct (wstep s i) as [s'|] eqn:E; [|now apply IH].
  destruct (wstep_shape _ _ _ _ F E) as [F' _]. assert (G : queue (pools s' k) = [] /\ done s' = done s).
  { unfold wstep in E. destruct (nth_error (workers s) i) as [w|] eqn:N; [|discriminate].
    assert (Rw : ref w = k) by (eapply Forall_forall in F; [exact F|eapply nth_error_In; exact N]). rewrite Rw in E. rewrite Q in E.
    destruct (wat w); [destruct (_ <? _)%Z|destruct (sem _)| | |]; try discriminate; injection E as <-; cbn [pools done app]; rewrite put_same; cbn [queue]; rewrite ?Q; split; reflexivity. }
  destruct G as [G G']. rewrite IH by assumption. exact G'.
Qed.
(** Refuted for a pool that was moved, with any number of threads but 0: its destructor never returns, and none of the tasks of the pool it is
    moved to is run by a worker *)
Theorem C199_move_refuted n k b s l : works n k s -> 0 < n -> b <> k ->
  stopped (schedule (stop (move s k b) b) l) b = false /\
  forall t, done (schedule (AddTask (move s k b) b t) l) = done s.
Proof.
  intros H P B. destruct (works_inv _ _ _ H) as [A [_ [C [D _]]]]. split.
  - unfold stopped. rewrite (schedule_other k) by assumption. unfold stop, move. cbn [pools]. rewrite put_same, put_other, put_same by exact B. cbn [run]. rewrite C. apply Z.leb_gt. lia.
  - intros t. rewrite (schedule_done k); [reflexivity|exact A|]. unfold AddTask, move. cbn [pools]. rewrite put_other by congruence. rewrite put_same. reflexivity.
Qed.
Print Assumptions C199_move_refuted.
(** A pool without threads can be moved: the target has its tasks and can be destroyed at once *)
Theorem C199_move_partial k b s : works 0 k s -> b <> k ->
  queue (pools (move s k b) b) = queue (pools s k) /\ tasks (pools (move s k b) b) = tasks (pools s k) /\ stopped (stop (move s k b) b) b = true /\ stopped (stop (move s k b) k) k = true.
Proof.
  intros H B. destruct (works_inv _ _ _ H) as [_ [_ [C _]]]. unfold stopped, stop, move. cbn [pools]. rewrite !put_same, !put_other, !put_same by congruence. cbn [queue tasks run]. rewrite C. repeat split.
Qed.
Print Assumptions C199_move_partial.
(** A future gives no result before it is evaluated, and then its value, if the memory of its flag is zero at first; otherwise (refuted) it gives a
    result that was never written *)
Theorem C199_future_partial v : Result (new_future false) = None /\ forall junk, Result (eval v (new_future junk)) = Some (Some v).
Proof. split; reflexivity. Qed.
Print Assumptions C199_future_partial.
Theorem C199_future_refuted : Result (new_future true) = Some None.
Proof. reflexivity. Qed.
Print Assumptions C199_future_refuted.

(** two threads, one task; then the pool is destroyed *)
Example C199_example :
  let s := schedule (AddTask (new 2 0) 0 5) [0; 1; 0; 0; 0] in
  works 2 0 s /\ done s = [5] /\ exists s', steps (stop s 0) [0; 0; 1; 1; 1] = Some s' /\ stopped s' 0 = true /\
  (forall l, stopped (schedule (stop (move s 0 1) 1) l) 1 = false).
Proof.
  assert (H : works 2 0 (schedule (AddTask (new 2 0) 0 5) [0; 1; 0; 0; 0])).
  { cbn [schedule].
    eapply (w_step 2 0) with (i := 0); [eapply (w_step 2 0) with (i := 0); [eapply (w_step 2 0) with (i := 0); [eapply (w_step 2 0) with (i := 1); [eapply (w_step 2 0) with (i := 0); [apply w_task, w_new|reflexivity]|reflexivity]|reflexivity]|reflexivity]|reflexivity]. }
  split; [exact H|]. split; [reflexivity|]. eexists. split; [reflexivity|]. split; [reflexivity|]. intros l. apply (proj1 (C199_move_refuted 2 0 1 _ l H ltac:(lia) ltac:(lia))).
Qed.
