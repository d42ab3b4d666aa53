(* C197: joining a thread with a timeout; semaphores. *)
From Coq Require Import ZArith List Bool Lia.
From Verif Require Import Common ThreadJoin.
Import ListNotations.
Local Open Scope Z_scope.

(* --- specification --- *)
(** the thread ends within ms milliseconds of now *)
Definition ends_in_time (t : thread) (now ms : Z) : Prop := exists f, fin t = Some f /\ f <= now + ms * 1000000.
(** join waits for the end of the thread, but no longer than ms milliseconds *)
Definition joins (t : thread) (now ms : Z) (r : joined) : Prop :=
  (ends_in_time t now ms -> exists f, fin t = Some f /\ r = J (value t) (Z.max now f) false) /\
  (~ ends_in_time t now ms -> r = J failed (now + ms * 1000000) true).
(** how many of the waits passed, and how many notifications there were *)
Fixpoint passed (l : list ev) (r : list bool) : Z :=
  match l, r with EWait :: l, true :: r => 1 + passed l r | _ :: l, _ :: r => passed l r | _, _ => 0 end.
Fixpoint notified (l : list ev) : Z := match l with [] => 0 | ENotify n :: l => Z.of_nat n + notified l | EWait :: l => notified l end.

(* --- proofs --- *)
(** The join is as specified if the milliseconds of the timeout do not carry the clock over to the next second.  What is missing: otherwise *)
Theorem C197_join_partial t now ms : 0 <= now -> 0 <= ms -> now mod nano + ms mod 1000 * 1000000 < nano -> joins t now ms (join true t now ms).
Proof.
  intros N M C. unfold join. cbn [negb]. unfold joins, ends_in_time.
  destruct (Z.eqb_spec ms 0) as [->|Z0].
  - rewrite Z.mul_0_l, Z.add_0_r. unfold tryjoin. destruct (fin t) as [f|].
    + destruct (Z.leb_spec f now); split.
      * intros _. exists f. split; [reflexivity|]. rewrite Z.max_l by lia. reflexivity.
      * intros A. exfalso. apply A. exists f. split; [reflexivity|lia].
      * intros [f' [E L]]. injection E as ->. lia.
      * intros _. reflexivity.
    + split; [intros [f [E _]]; discriminate|reflexivity].
  - unfold timedjoin. pose proof (Z.mod_pos_bound now nano ltac:(reflexivity)). pose proof (Z.mod_pos_bound ms 1000 ltac:(reflexivity)).
    destruct (Z.ltb_spec (now mod nano + ms mod 1000 * 1000000) 0); [lia|]. destruct (Z.leb_spec nano (now mod nano + ms mod 1000 * 1000000)); [lia|]. cbn [orb].
    assert (U : (now / nano + ms / 1000) * nano + (now mod nano + ms mod 1000 * 1000000) = now + ms * 1000000).
    { pose proof (Z.div_mod now nano ltac:(discriminate)). pose proof (Z.div_mod ms 1000 ltac:(discriminate)). unfold nano in *. lia. }
    rewrite U. rewrite (Z.max_r now) by lia. destruct (fin t) as [f|].
    + destruct (Z.leb_spec f (now + ms * 1000000)); split.
      * intros _. exists f. split; reflexivity.
      * intros A. exfalso. apply A. exists f. split; [reflexivity|assumption].
      * intros [f' [E L]]. injection E as ->. lia.
      * intros _. reflexivity.
    + split; [intros [f [E _]]; discriminate|reflexivity].
Qed.
Print Assumptions C197_join_partial.
(** Refuted: otherwise it returns at once and reports a timeout, whatever the thread does; so it does at some time of every second unless the
    timeout is a number of whole seconds, and a thread that has ended long ago is reported as running *)
Theorem C197_join_refuted :
  (forall t now ms, 0 <= now -> 0 < ms -> nano <= now mod nano + ms mod 1000 * 1000000 -> join true t now ms = J failed now true) /\
  (forall t s ms, 0 <= s -> 0 < ms -> ms mod 1000 <> 0 ->
     let now := s * nano + 999999999 in join true t now ms = J failed now true /\ ~ joins t now ms (J failed now true)).
Proof.
  assert (A : forall t now ms, 0 <= now -> 0 < ms -> nano <= now mod nano + ms mod 1000 * 1000000 -> join true t now ms = J failed now true).
  { intros t now ms N M C. unfold join. cbn [negb]. destruct (Z.eqb_spec ms 0); [lia|]. unfold timedjoin.
    rewrite (proj2 (Z.leb_le _ _) C), orb_true_r. reflexivity. }
  split; [exact A|]. intros t s ms S0 M C now. pose proof (Z.mod_pos_bound ms 1000 ltac:(reflexivity)).
  assert (E : now mod nano = 999999999). { unfold now. rewrite Z.add_comm, Z.mod_add by discriminate. reflexivity. }
  assert (P : 0 <= now) by (unfold now, nano; lia).
  split; [apply A; [exact P|lia|rewrite E; unfold nano; lia]|]. intros [H1 H2]. unfold ends_in_time in *. destruct (fin t) as [f|].
  - destruct (Z.le_gt_cases f (now + ms * 1000000)) as [L|L].
    + destruct H1 as [f' [_ H1]]; [exists f; split; [reflexivity|exact L]|]. discriminate.
    + assert (Q : J failed now true = J failed (now + ms * 1000000) true); [apply H2; intros [f' [E' L']]; injection E' as ->; lia|]. injection Q as Q. lia.
  - assert (Q : J failed now true = J failed (now + ms * 1000000) true); [apply H2; intros [f' [E' L']]; discriminate|]. injection Q as Q. lia.
Qed.
Print Assumptions C197_join_refuted.
(** A timeout of 0 or of whole seconds works at any time; a thread that is not joinable gives the failure at once; the destructor waits for the end *)
Theorem C197_join_seconds t now s : 0 <= now -> 0 <= s ->
  joins t now (s * 1000) (join true t now (s * 1000)) /\ (forall ms, join false t now ms = J failed now false) /\
  (forall f, fin t = Some f -> destroy true t now = Some (Z.max now f)) /\ destroy false t now = Some now.
Proof.
  intros N S0. split; [|split; [reflexivity|split; [|reflexivity]]].
  - apply C197_join_partial; [exact N|lia|]. rewrite Z.mod_mul by discriminate. pose proof (Z.mod_pos_bound now nano ltac:(reflexivity)). lia.
  - intros f E. unfold destroy. now rewrite E.
Qed.
Print Assumptions C197_join_seconds.

Lemma notify_ok n : forall v, 0 <= v -> v + Z.of_nat n <= SEM_MAX -> Notify n v = (true, v + Z.of_nat n).
Proof.
  induction n as [|n IH]; intros v V B; cbn [Notify]; [now rewrite Z.add_0_r|]. unfold post. destruct (Z.leb_spec SEM_MAX v); [lia|].
  rewrite IH by lia. f_equal. lia.
Qed.
(** As long as there are fewer than 2^31 notifications, every Notify succeeds, the value is the notifications less the waits that passed, and a
    wait passes exactly when the value is positive: none passes without a notification, none is lost *)
Theorem C197_semaphore l : forall v, 0 <= v -> v + notified l <= SEM_MAX ->
  let (v', r) := sem_run v l in
  v' = v + notified l - passed l r /\ 0 <= v' /\ length r = length l /\
  (forall i n, nth_error l i = Some (ENotify n) -> nth_error r i = Some true) /\
  (forall i, nth_error l i = Some EWait -> nth_error r i = Some (0 <? v + notified (firstn i l) - passed (firstn i l) (firstn i r))).
Proof.
  assert (NN : forall l, 0 <= notified l). { clear. induction l as [|[n|] l IH]; cbn [notified]; lia. }
  induction l as [|e l IH]; intros v V B; cbn [sem_run].
  - cbn [notified passed length]. split; [lia|]. split; [exact V|]. split; [reflexivity|]. split; intros [|i]; discriminate.
  - destruct e as [n|]; cbn [sem_step notified] in *.
    + specialize (NN l). rewrite notify_ok by lia. specialize (IH (v + Z.of_nat n) ltac:(lia) ltac:(lia)). destruct (sem_run (v + Z.of_nat n) l) as [v' r].
      destruct IH as [E [P [L [A W]]]]. split; [cbn [passed]; lia|]. split; [exact P|]. split; [cbn [length]; now rewrite L|]. split.
      * intros [|i] k H; cbn [nth_error] in *; [reflexivity|]. exact (A i k H).
      * intros [|i] H; cbn [nth_error] in *; [discriminate|]. rewrite (W i H). cbn [firstn notified passed]. do 2 f_equal; lia.
    + unfold Wait. destruct (Z.ltb_spec 0 v) as [Q|Q].
      * specialize (IH (v - 1) ltac:(lia) ltac:(lia)). destruct (sem_run (v - 1) l) as [v' r]. destruct IH as [E [P [L [A W]]]].
        split; [cbn [passed]; lia|]. split; [exact P|]. split; [cbn [length]; now rewrite L|]. split.
        -- intros [|i] k H; cbn [nth_error] in *; [discriminate|]. exact (A i k H).
        -- intros [|i] H; cbn [nth_error] in *.
           ++ cbn [firstn notified passed]. destruct (Z.ltb_spec 0 (v + 0 - 0)); [reflexivity|lia].
           ++ rewrite (W i H). cbn [firstn notified passed]. do 2 f_equal; lia.
      * specialize (IH v ltac:(lia) ltac:(lia)). destruct (sem_run v l) as [v' r]. destruct IH as [E [P [L [A W]]]].
        split; [cbn [passed]; lia|]. split; [exact P|]. split; [cbn [length]; now rewrite L|]. split.
        -- intros [|i] k H; cbn [nth_error] in *; [discriminate|]. exact (A i k H).
        -- intros [|i] H; cbn [nth_error] in *.
           ++ cbn [firstn notified passed]. destruct (Z.ltb_spec 0 (v + 0 - 0)); [lia|reflexivity].
           ++ rewrite (W i H). cbn [firstn notified passed]. do 2 f_equal; lia.
Qed.
Print Assumptions C197_semaphore.

(** a thread that ends 100 ms after 7.25 s, joined for 200 ms then; for 50 ms; and one that has ended, joined for 200 ms at 7.9 s *)
Example C197_example :
  let t := Th (Some 7350000000) 0 in
  join true t 7250000000 200 = J 0 7350000000 false /\ join true t 7250000000 50 = J failed 7300000000 true /\
  join true t 7900000000 200 = J failed 7900000000 true /\ sem_run 0 [EWait; ENotify 2; EWait; EWait; EWait] = (0, [false; true; true; true; false]).
Proof. repeat split. Qed.
