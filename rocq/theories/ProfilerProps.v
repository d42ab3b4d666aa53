From Coq Require Import ZArith List Bool QArith Qcanon Lia ZifyBool ZifyNat Permutation.
From Verif Require Import Common Profiler.
Import ListNotations.
Local Open Scope Z_scope.

(** Specification *)
(** sum and mean of a list of numbers; the mean of none is 0 *)
Definition qsum (l : list Qc) : Qc := fold_right Qcplus (Qcz 0) l.
Definition mean (l : list Qc) : Qc := (qsum l / Qcz (Z.of_nat (length l)))%Qc.
(** a run of a program between two times: the zones one after another, each with an id of 16 bits, and those inside between
    its beginning and its end *)
Inductive execution : Z -> list zone -> Z -> Prop :=
| ex_nil : forall lo hi, lo <= hi -> execution lo [] hi
| ex_cons : forall lo id t0 body t1 rest hi,
    lo <= t0 -> 0 < id < 2 ^ 16 -> execution t0 body t1 -> execution t1 rest hi ->
    execution lo (Zone id t0 body t1 :: rest) hi.
Definition duration (z : zone) : Z := match z with Zone _ t0 _ t1 => t1 - t0 end.
Definition durations (l : list zone) : Z := fold_right Z.add 0 (map duration l).
(** what is to be recorded of every zone of a run: the stack of ids from the outermost to its own, the time between its
    beginning and its end, and that time without the zones directly inside *)
Record visit := mkv { stack : list Z; whole : Z; self : Z }.
Fixpoint visits_zone (pre : list Z) (z : zone) : list visit :=
  match z with
  | Zone id t0 body t1 =>
      flat_map (visits_zone (pre ++ [id])) body ++ [mkv (pre ++ [id]) (t1 - t0) (t1 - t0 - durations body)]
  end.
Definition visits (pre : list Z) (l : list zone) : list visit := flat_map (visits_zone pre) l.
Definition stack_eqb (x y : list Z) : bool := if list_eq_dec Z.eq_dec x y then true else false.
Definition visits_of (st : list Z) (l : list zone) : list visit := filter (fun v => stack_eqb (stack v) st) (visits [] l).
(** the hexadecimal digits of an id, the lowest first *)
Fixpoint hexdigits (k : nat) (id : Z) : list nat :=
  match k with
  | O => []
  | S k => if id <=? 0 then [] else Z.to_nat (id mod 16) :: hexdigits k (id / 16)
  end.
Definition digits (id : Z) : list nat := hexdigits 4 id.
(** the node that is reached from a node through the given children *)
Fixpoint follow (a : list pnode) (n : nat) (path : list nat) : option pnode :=
  match nth_error a n, path with
  | None, _ => None
  | Some nd, [] => Some nd
  | Some nd, d :: r => match nth_error (kids nd) d with Some (Some m) => follow a m r | _ => None end
  end.
Definition node_of (s : prof) (st : list Z) : option pnode := follow (arena s) 0 (flat_map digits st).

(** Proofs *)
Lemma Qcz_0 : Qcz 0 = 0%Qc.
Proof. apply Qc_is_canon. reflexivity. Qed.
Lemma Qcz_1 : Qcz 1 = 1%Qc.
Proof. apply Qc_is_canon. reflexivity. Qed.
Lemma Qcz_add : forall a b, Qcz (a + b) = (Qcz a + Qcz b)%Qc.
Proof.
  intros a b. unfold Qcz. apply Qc_is_canon. unfold Qcplus. cbn [this Q2Qc]. rewrite !Qred_correct. rewrite inject_Z_plus. reflexivity.
Qed.
Lemma Qcz_inj : forall a b, Qcz a = Qcz b -> a = b.
Proof.
  intros a b H. unfold Qcz in H. apply (f_equal this) in H. cbn [this Q2Qc] in H.
  assert (inject_Z a == inject_Z b)%Q as E by (rewrite <- (Qred_correct (inject_Z a)), <- (Qred_correct (inject_Z b)), H; reflexivity).
  unfold Qeq, inject_Z in E. cbn in E. lia.
Qed.
Lemma Qcz_neq0 : forall a, a <> 0 -> Qcz a <> 0%Qc.
Proof. intros a H E. rewrite <- Qcz_0 in E. apply Qcz_inj in E. contradiction. Qed.
Lemma qsum_app : forall x y, qsum (x ++ y) = (qsum x + qsum y)%Qc.
Proof.
  induction x as [|a x IH]; intros y; cbn [app].
  - change (qsum []) with (Qcz 0). rewrite Qcz_0. ring.
  - change (qsum (a :: x ++ y)) with (a + qsum (x ++ y))%Qc. change (qsum (a :: x)) with (a + qsum x)%Qc. rewrite IH. ring.
Qed.
Lemma mean_nil : mean [] = Qcz 0.
Proof. apply Qc_is_canon. reflexivity. Qed.

Theorem C127_bssAvg : forall xs x, bssAvg (mean xs) x (Z.of_nat (length xs) + 1) = mean (xs ++ [x]).
Proof.
  intros xs x. unfold bssAvg, mean. rewrite qsum_app, app_length. cbn [qsum fold_right length].
  rewrite Nat2Z.inj_add. change (Z.of_nat 1) with 1. rewrite !Qcz_add, Qcz_1, Qcz_0.
  assert (Qcz (Z.of_nat (length xs)) + 1 <> 0)%Qc as H1.
  { rewrite <- Qcz_1, <- Qcz_add. apply Qcz_neq0. lia. }
  destruct xs as [|y xs].
  - cbn [length qsum fold_right]. change (Z.of_nat 0) with 0. rewrite Qcz_0 in *. 
    replace (0 / 0)%Qc with 0%Qc by (apply Qc_is_canon; reflexivity). field. exact H1.
  - assert (Qcz (Z.of_nat (length (y :: xs))) <> 0%Qc) as H2 by (apply Qcz_neq0; cbn [length]; lia).
    field. split; assumption.
Qed.
Print Assumptions C127_bssAvg.

(** the sum of the squares of the differences from the mean *)
Definition squares (l : list Qc) : Qc := qsum (map (fun x => (x - mean l) * (x - mean l))%Qc l).
Lemma qsum_dev : forall m l, qsum (map (fun x => (x - m) * (x - m))%Qc l) =
  (qsum (map (fun x => x * x)%Qc l) - (1 + 1) * m * qsum l + m * m * Qcz (Z.of_nat (length l)))%Qc.
Proof.
  intros m. induction l as [|a l IH].
  - cbn [map length]. change (qsum []) with (Qcz 0). change (Z.of_nat 0) with 0. rewrite Qcz_0. ring.
  - cbn [map length]. rewrite Nat2Z.inj_succ. unfold Z.succ. rewrite Qcz_add, Qcz_1.
    change (qsum (a :: l)) with (a + qsum l)%Qc.
    change (qsum ((a - m) * (a - m) :: map (fun x => (x - m) * (x - m)) l))%Qc with ((a - m) * (a - m) + qsum (map (fun x => (x - m) * (x - m))%Qc l))%Qc.
    change (qsum (a * a :: map (fun x => x * x) l))%Qc with (a * a + qsum (map (fun x => x * x)%Qc l))%Qc.
    rewrite IH. ring.
Qed.
Lemma mean_mul : forall l, (mean l * Qcz (Z.of_nat (length l)))%Qc = qsum l.
Proof.
  intros l. unfold mean. destruct l as [|a l].
  - apply Qc_is_canon. reflexivity.
  - field. apply Qcz_neq0. cbn [length]. lia.
Qed.
(** the recurrence of Knuth, with the average divided by the number of values *)
Lemma welford : forall xs x, let m := mean xs in let m' := mean (xs ++ [x]) in
  (squares xs + (x - m) * (x - m'))%Qc = squares (xs ++ [x]).
Proof.
  intros xs x m m'. unfold squares. fold m m'. rewrite !qsum_dev, map_app, !qsum_app, app_length, Nat2Z.inj_add, Qcz_add.
  cbn [map length]. change (Z.of_nat 1) with 1. rewrite Qcz_1.
  change (qsum [x * x]%Qc) with (x * x + Qcz 0)%Qc. change (qsum [x]%Qc) with (x + Qcz 0)%Qc. rewrite Qcz_0.
  pose proof (mean_mul xs) as E1. pose proof (mean_mul (xs ++ [x])) as E2. fold m in E1. fold m' in E2.
  rewrite app_length, Nat2Z.inj_add, Qcz_add, qsum_app in E2. cbn [length] in E2. change (Z.of_nat 1) with 1 in E2.
  change (qsum [x]%Qc) with (x + Qcz 0)%Qc in E2. rewrite Qcz_0, Qcz_1 in E2.
  set (N := Qcz (Z.of_nat (length xs))) in *. set (Q := qsum (map (fun x : Qc => (x * x)%Qc) xs)) in *.
  rewrite <- E1 in E2 |- *.
  (* x = m' * (N + 1) - m * N *)
  assert (x = m' * (N + 1) - m * N)%Qc as Ex. { rewrite E2. ring. }
  rewrite Ex. ring.
Qed.
(** bssVariance divides by the value instead of the number of values: it is right only where they happen to be equal *)
Theorem C127_bssVariance_partial : forall xs, let n := Z.of_nat (length xs) + 1 in
  bssVariance (squares xs) (mean xs) (Qcz n) n = (squares (xs ++ [Qcz n]), mean (xs ++ [Qcz n])).
Proof.
  intros xs n. unfold bssVariance.
  assert (mean xs + (Qcz n - mean xs) / Qcz n = mean (xs ++ [Qcz n]))%Qc as E by apply C127_bssAvg.
  rewrite E, <- welford. reflexivity.
Qed.
Print Assumptions C127_bssVariance_partial.
Theorem C127_bssVariance_refuted :
  ~ (forall xs x, bssVariance (squares xs) (mean xs) x (Z.of_nat (length xs) + 1) = (squares (xs ++ [x]), mean (xs ++ [x]))).
Proof.
  intros H. specialize (H [] (Qcz 2)). apply (f_equal snd) in H. cbn [snd bssVariance] in H.
  assert (Qcz 1 = Qcz 2) as E.
  { transitivity (mean [] + (Qcz 2 - mean []) / Qcz 2)%Qc; [apply Qc_is_canon; reflexivity |]. rewrite H. apply Qc_is_canon. reflexivity. }
  apply Qcz_inj in E. lia.
Qed.
Print Assumptions C127_bssVariance_refuted.
Example C127_example : bssAvg (mean [Qcz 1; Qcz 2]) (Qcz 6) 3 = Qcz 3 /\ mean [Qcz 1; Qcz 2; Qcz 6] = Qcz 3 /\
  squares [Qcz 1; Qcz 3] = Qcz 2.
Proof. repeat split; apply Qc_is_canon; vm_compute; reflexivity. Qed.

(** the invariant of the nodes: paths are the digits that lead to each node, L the visits that have ended, act the paths of the
    zones that are open *)
Definition code (st : list Z) : list nat := flat_map digits st.
Definition path_eqb (x y : list nat) : bool := if list_eq_dec Nat.eq_dec x y then true else false.
Lemma path_eqb_spec : forall x y, path_eqb x y = true <-> x = y.
Proof. intros x y. unfold path_eqb. destruct (list_eq_dec Nat.eq_dec x y); split; congruence. Qed.
Lemma path_eqb_refl : forall x, path_eqb x x = true.
Proof. intros x. apply path_eqb_spec. reflexivity. Qed.
Lemma path_eqb_neq : forall x y, x <> y -> path_eqb x y = false.
Proof. intros x y H. destruct (path_eqb x y) eqn:E; [apply path_eqb_spec in E; contradiction | reflexivity]. Qed.
Definition at_path (p : list nat) (L : list visit) : list visit := filter (fun v => path_eqb (code (stack v)) p) L.
Definition openb (p : list nat) (L : list visit) (act : list (list nat)) : bool :=
  existsb (fun v => path_eqb (code (stack v)) p) L || existsb (fun q => path_eqb q p) act.
Definition stat (nd : pnode) (p : list nat) (L : list visit) (act : list (list nat)) : Prop :=
  total nd = (if openb p L act then Some (Z.of_nat (length (at_path p L))) else None) /\
  avg nd = mean (map (fun v => Qcz (whole v)) (at_path p L)) /\ codeavg nd = mean (map (fun v => Qcz (self v)) (at_path p L)).
Record inv (a : list pnode) (paths : list (list nat)) (L : list visit) (act : list (list nat)) : Prop := mki {
  i_len : length paths = length a;
  i_root : nth_error paths 0 = Some [];
  i_root1 : forall n, nth_error paths n = Some [] -> n = 0%nat;
  i_16 : forall n nd, nth_error a n = Some nd -> length (kids nd) = 16%nat;
  i_kid : forall n nd d m, nth_error a n = Some nd -> nth_error (kids nd) d = Some (Some m) ->
     (n < m)%nat /\ exists p, nth_error paths n = Some p /\ nth_error paths m = Some (p ++ [d]);
  i_par : forall m p d, nth_error paths m = Some (p ++ [d]) ->
     exists n nd, nth_error paths n = Some p /\ nth_error a n = Some nd /\ nth_error (kids nd) d = Some (Some m);
  i_log : forall p, openb p L act = true -> In p paths;
  i_stat : forall n nd p, nth_error a n = Some nd -> nth_error paths n = Some p -> stat nd p L act
}.
Lemma i_inj : forall a paths L act, inv a paths L act -> forall p n m, nth_error paths n = Some p -> nth_error paths m = Some p -> n = m.
Proof.
  intros a paths L act I. induction p as [|d p IH] using rev_ind; intros n m Hn Hm.
  - rewrite (i_root1 _ _ _ _ I _ Hn), (i_root1 _ _ _ _ I _ Hm). reflexivity.
  - destruct (i_par _ _ _ _ I _ _ _ Hn) as (n' & nd & P1 & A1 & K1). destruct (i_par _ _ _ _ I _ _ _ Hm) as (m' & nd' & P2 & A2 & K2).
    pose proof (IH _ _ P1 P2) as E. subst m'. assert (nd' = nd) by congruence. subst nd'. congruence.
Qed.
Lemma follow_inv : forall a paths L act, inv a paths L act -> forall q n p, nth_error paths n = Some p ->
  (forall m, nth_error paths m = Some (p ++ q) -> follow a n q = nth_error a m) /\
  (~ In (p ++ q) paths -> follow a n q = None).
Proof.
  intros a paths L act I. induction q as [|d q IH]; intros n p Hn.
  - rewrite app_nil_r. split.
    + intros m Hm. rewrite (i_inj _ _ _ _ I _ _ _ Hm Hn). cbn [follow]. destruct (nth_error a n); reflexivity.
    + intros H. exfalso. apply H. eapply nth_error_In. exact Hn.
  - assert (n < length a)%nat as Ln. { rewrite <- (i_len _ _ _ _ I). apply nth_error_Some. congruence. }
    destruct (nth_error a n) as [nd|] eqn:A; [| apply nth_error_None in A; lia].
    cbn [follow]. rewrite A.
    destruct (nth_error (kids nd) d) as [[k|]|] eqn:K.
    + destruct (i_kid _ _ _ _ I _ _ _ _ A K) as (_ & p' & P1 & P2). assert (p' = p) by congruence. subst p'.
      destruct (IH _ _ P2) as [X Y]. rewrite <- app_assoc in X, Y. split; assumption.
    + assert (~ In (p ++ d :: q) paths) as NI; [| split; [| reflexivity]; intros m Hm; exfalso; apply NI; eapply nth_error_In; exact Hm].
      intros H. apply In_nth_error in H. destruct H as [m Hm].
      assert (forall r m, nth_error paths m = Some (p ++ d :: r) -> False) as Q; [| exact (Q _ _ Hm)].
      clear m Hm q IH. induction r as [|e r IH] using rev_ind; intros m Hm.
      * destruct (i_par _ _ _ _ I _ _ _ Hm) as (n' & nd' & P1 & A1 & K1). rewrite (i_inj _ _ _ _ I _ _ _ P1 Hn) in A1. congruence.
      * rewrite app_comm_cons, app_assoc in Hm. destruct (i_par _ _ _ _ I _ _ _ Hm) as (n' & nd' & P1 & A1 & K1). exact (IH _ P1).
    + assert (~ In (p ++ d :: q) paths) as NI; [| split; [| reflexivity]; intros m Hm; exfalso; apply NI; eapply nth_error_In; exact Hm].
      intros H. apply In_nth_error in H. destruct H as [m Hm].
      assert (forall r m, nth_error paths m = Some (p ++ d :: r) -> False) as Q; [| exact (Q _ _ Hm)].
      clear m Hm q IH. induction r as [|e r IH] using rev_ind; intros m Hm.
      * destruct (i_par _ _ _ _ I _ _ _ Hm) as (n' & nd' & P1 & A1 & K1). rewrite (i_inj _ _ _ _ I _ _ _ P1 Hn) in A1. congruence.
      * rewrite app_comm_cons, app_assoc in Hm. destruct (i_par _ _ _ _ I _ _ _ Hm) as (n' & nd' & P1 & A1 & K1). exact (IH _ P1).
Qed.
Lemma inv_init : inv [fresh_node] [[]] [] [].
Proof.
  constructor.
  - reflexivity.
  - reflexivity.
  - intros [|[|n]] H; cbn in H; [reflexivity | discriminate | discriminate].
  - intros [|[|n]] nd H; cbn in H; inversion H; reflexivity.
  - intros [|[|n]] nd d m H K; cbn in H; inversion H; subst nd. unfold fresh_node in K. cbn [kids] in K.
    assert (d < 16)%nat by (apply nth_error_lt in K; cbn in K; exact K).
    rewrite nth_error_repeat in K by assumption. discriminate.
  - intros [|[|n]] p d H; cbn in H; try discriminate. destruct p; discriminate.
  - intros p H. discriminate.
  - intros [|[|n]] nd p H P; cbn in H; inversion H; subst nd. cbn in P. inversion P; subst p.
    unfold stat. cbn [at_path filter map length openb existsb orb fresh_node total avg codeavg]. rewrite mean_nil. split; [reflexivity | split; reflexivity].
Qed.
Lemma inv_upd : forall a paths L act n nd nd' p L' act', inv a paths L act -> nth_error a n = Some nd -> nth_error paths n = Some p ->
  kids nd' = kids nd -> (forall q, openb q L' act' = true -> In q paths) -> stat nd' p L' act' ->
  (forall q, q <> p -> openb q L' act' = openb q L act /\ at_path q L' = at_path q L) ->
  inv (upd a n nd') paths L' act'.
Proof.
  intros a paths L act n nd nd' p L' act' I A P K O St Fr.
  assert (forall k x, nth_error (upd a n nd') k = Some x -> exists y, nth_error a k = Some y /\ kids x = kids y) as G.
  { intros k x H. destruct (Nat.eq_dec n k) as [E|E].
    - subst k. rewrite nth_error_upd_eq in H by (apply nth_error_lt in A; exact A). exists nd. split; congruence.
    - rewrite nth_error_upd_neq in H by exact E. exists x. split; [exact H | reflexivity]. }
  constructor.
  - rewrite upd_length. apply (i_len _ _ _ _ I).
  - apply (i_root _ _ _ _ I).
  - apply (i_root1 _ _ _ _ I).
  - intros k x H. destruct (G _ _ H) as (y & Y & E). rewrite E. exact (i_16 _ _ _ _ I _ _ Y).
  - intros k x d m H Hk. destruct (G _ _ H) as (y & Y & E). rewrite E in Hk. exact (i_kid _ _ _ _ I _ _ _ _ Y Hk).
  - intros m q d H. destruct (i_par _ _ _ _ I _ _ _ H) as (k & y & P1 & A1 & K1).
    destruct (Nat.eq_dec n k) as [E|E].
    + subst k. exists n, nd'. split; [exact P1 | split]. { apply nth_error_upd_eq. apply nth_error_lt in A. exact A. }
      rewrite K. congruence.
    + exists k, y. split; [exact P1 | split; [| exact K1]]. rewrite nth_error_upd_neq by exact E. exact A1.
  - exact O.
  - intros k x q H Q. destruct (Nat.eq_dec n k) as [E|E].
    + subst k. rewrite nth_error_upd_eq in H by (apply nth_error_lt in A; exact A). assert (x = nd') by congruence. assert (q = p) by congruence. subst. exact St.
    + rewrite nth_error_upd_neq in H by exact E.
      assert (q <> p) as NE. { intros ->. apply E. exact (i_inj _ _ _ _ I _ _ _ P Q). }
      destruct (Fr _ NE) as [F1 F2]. unfold stat. rewrite F1, F2. exact (i_stat _ _ _ _ I _ _ _ H Q).
Qed.
Lemma at_path_nil : forall p L, existsb (fun v => path_eqb (code (stack v)) p) L = false -> at_path p L = [].
Proof.
  intros p. induction L as [|v L IH]; intros H; [reflexivity |].
  cbn [existsb] in H. apply orb_false_iff in H. destruct H as [H1 H2]. unfold at_path. cbn [filter]. rewrite H1. exact (IH H2).
Qed.
Definition add_kid (nd : pnode) (d m : nat) : pnode := mkp (upd (kids nd) d (Some m)) (avg nd) (codeavg nd) (total nd) (inner nd).
Lemma inv_kid : forall a paths L act n nd p d, inv a paths L act -> nth_error a n = Some nd -> nth_error paths n = Some p ->
  nth_error (kids nd) d = Some None ->
  inv (upd a n (add_kid nd d (length a)) ++ [fresh_node]) (paths ++ [p ++ [d]]) L act.
Proof.
  intros a paths L act n nd p d I A P K.
  assert (n < length a)%nat as Ln by (apply nth_error_lt in A; exact A).
  pose proof (i_len _ _ _ _ I) as Len.
  assert (~ In (p ++ [d]) paths) as NI.
  { intros H. apply In_nth_error in H. destruct H as [m Hm]. destruct (i_par _ _ _ _ I _ _ _ Hm) as (n' & nd' & P1 & A1 & K1).
    rewrite (i_inj _ _ _ _ I _ _ _ P1 P) in A1. congruence. }
  assert (forall k q, nth_error (paths ++ [p ++ [d]]) k = Some q -> (nth_error paths k = Some q /\ (k < length a)%nat) \/ (k = length a /\ q = p ++ [d])) as GP.
  { intros k q H. destruct (Nat.lt_ge_cases k (length paths)) as [C|C].
    - rewrite nth_error_app1 in H by exact C. left. split; [exact H | lia].
    - rewrite nth_error_app2 in H by exact C. destruct (k - length paths)%nat as [|j] eqn:E; cbn in H.
      + right. split; [lia | congruence].
      + destruct j; discriminate. }
  assert (forall k x, nth_error (upd a n (add_kid nd d (length a)) ++ [fresh_node]) k = Some x ->
     (k = length a /\ x = fresh_node) \/ (k = n /\ x = add_kid nd d (length a)) \/ (k <> n /\ k < length a /\ nth_error a k = Some x)%nat) as GA.
  { intros k x H. destruct (Nat.lt_ge_cases k (length a)) as [C|C].
    - rewrite nth_error_app1 in H by (rewrite upd_length; exact C). destruct (Nat.eq_dec n k) as [E|E].
      + subst k. rewrite nth_error_upd_eq in H by exact C. right. left. split; congruence.
      + rewrite nth_error_upd_neq in H by exact E. right. right. split; [congruence | split; assumption].
    - rewrite nth_error_app2 in H by (rewrite upd_length; exact C). rewrite upd_length in H. destruct (k - length a)%nat as [|j] eqn:E; cbn in H.
      + left. split; [lia | congruence].
      + destruct j; discriminate. }
  assert (forall k q, nth_error paths k = Some q -> nth_error (paths ++ [p ++ [d]]) k = Some q) as Old.
  { intros k q H. rewrite nth_error_app1 by (apply nth_error_lt in H; exact H). exact H. }
  assert (nth_error (paths ++ [p ++ [d]]) (length a) = Some (p ++ [d])) as New.
  { rewrite nth_error_app2 by lia. replace (length a - length paths)%nat with 0%nat by lia. reflexivity. }
  assert (d < 16)%nat as Ld. { rewrite <- (i_16 _ _ _ _ I _ _ A). apply nth_error_lt in K. exact K. }
  constructor.
  - rewrite !app_length, upd_length. cbn [length]. lia.
  - apply Old. apply (i_root _ _ _ _ I).
  - intros k H. destruct (GP _ _ H) as [[H1 _]|[_ H1]]; [exact (i_root1 _ _ _ _ I _ H1) | destruct p; discriminate].
  - intros k x H. destruct (GA _ _ H) as [[_ ->]|[[_ ->]|[_ [_ H1]]]]; [reflexivity | | exact (i_16 _ _ _ _ I _ _ H1)].
    unfold add_kid. cbn [kids]. rewrite upd_length. exact (i_16 _ _ _ _ I _ _ A).
  - intros k x e m H Hk. destruct (GA _ _ H) as [[-> ->]|[[-> ->]|[_ [_ H1]]]].
    + unfold fresh_node in Hk. cbn [kids] in Hk. assert (e < 16)%nat by (apply nth_error_lt in Hk; rewrite repeat_length in Hk; exact Hk).
      rewrite nth_error_repeat in Hk by assumption. discriminate.
    + unfold add_kid in Hk. cbn [kids] in Hk. destruct (Nat.eq_dec d e) as [E|E].
      * subst e. rewrite nth_error_upd_eq in Hk by (rewrite (i_16 _ _ _ _ I _ _ A); exact Ld). assert (m = length a) by congruence. subst m.
        split; [exact Ln |]. exists p. split; [apply Old; exact P | exact New].
      * rewrite nth_error_upd_neq in Hk by exact E. destruct (i_kid _ _ _ _ I _ _ _ _ A Hk) as (Lt & p' & P1 & P2).
        split; [exact Lt |]. exists p'. split; apply Old; assumption.
    + destruct (i_kid _ _ _ _ I _ _ _ _ H1 Hk) as (Lt & p' & P1 & P2). split; [exact Lt |]. exists p'. split; apply Old; assumption.
  - intros m q e H. destruct (GP _ _ H) as [[H1 L1]|[-> H1]].
    + destruct (i_par _ _ _ _ I _ _ _ H1) as (k & y & P1 & A1 & K1). destruct (Nat.eq_dec n k) as [E|E].
      * subst k. exists n, (add_kid nd d (length a)). split; [apply Old; exact P1 | split].
        -- rewrite nth_error_app1 by (rewrite upd_length; exact Ln). apply nth_error_upd_eq. exact Ln.
        -- unfold add_kid. cbn [kids]. assert (y = nd) by congruence. subst y.
           destruct (Nat.eq_dec d e) as [E|E]; [subst e; congruence |]. rewrite nth_error_upd_neq by exact E. exact K1.
      * exists k, y. split; [apply Old; exact P1 | split; [| exact K1]].
        rewrite nth_error_app1 by (rewrite upd_length; apply nth_error_lt in A1; exact A1). rewrite nth_error_upd_neq by exact E. exact A1.
    + apply app_inj_tail in H1. destruct H1 as [-> ->]. exists n, (add_kid nd d (length a)). split; [apply Old; exact P | split].
      * rewrite nth_error_app1 by (rewrite upd_length; exact Ln). apply nth_error_upd_eq. exact Ln.
      * unfold add_kid. cbn [kids]. apply nth_error_upd_eq. rewrite (i_16 _ _ _ _ I _ _ A). exact Ld.
  - intros q H. apply in_or_app. left. exact (i_log _ _ _ _ I _ H).
  - intros k x q H Q. destruct (GP _ _ Q) as [[Q1 L1]|[-> Q1]].
    + destruct (GA _ _ H) as [[-> ->]|[[-> ->]|[_ [_ H1]]]]; [lia | | exact (i_stat _ _ _ _ I _ _ _ H1 Q1)].
      exact (i_stat _ _ _ _ I _ _ _ A Q1).
    + destruct (GA _ _ H) as [[_ ->]|[[H1 _]|[_ [H1 _]]]]; [| lia | lia]. subst q.
      assert (openb (p ++ [d]) L act = false) as O. { destruct (openb (p ++ [d]) L act) eqn:O; [exfalso; exact (NI (i_log _ _ _ _ I _ O)) | reflexivity]. }
      unfold stat. rewrite O. unfold openb in O. apply orb_false_iff in O. destruct O as [O _]. rewrite (at_path_nil _ _ O). cbn [map].
      rewrite mean_nil. split; [reflexivity | split; reflexivity].
Qed.
Definition inner_of (a : list pnode) (n : nat) : option Z := option_map inner (nth_error a n).
Lemma walk_ok : forall fuel a paths L act n p id, inv a paths L act -> nth_error paths n = Some p -> id < 16 ^ Z.of_nat fuel ->
  exists a' ext m, walk_loop (S fuel) a n id = Ok (a', m) /\ inv a' (paths ++ ext) L act /\
    nth_error (paths ++ ext) m = Some (p ++ hexdigits fuel id) /\
    (forall k, (k < length a)%nat -> inner_of a' k = inner_of a k) /\
    (forall q, In q ext -> exists r, p ++ hexdigits fuel id = q ++ r).
Proof.
  induction fuel as [|fuel IH]; intros a paths L act n p id I P B; cbn [walk_loop hexdigits].
  - change (16 ^ Z.of_nat 0) with 1 in B. destruct (Z.leb_spec id 0); [| lia].
    exists a, [], n. rewrite !app_nil_r. split; [reflexivity | split; [exact I | split; [exact P | split; [reflexivity | intros q []]]]].
  - destruct (Z.leb_spec id 0) as [C|C].
    + exists a, [], n. rewrite !app_nil_r. split; [reflexivity | split; [exact I | split; [exact P | split; [reflexivity | intros q []]]]].
    + assert (n < length a)%nat as Ln. { rewrite <- (i_len _ _ _ _ I). apply nth_error_Some. congruence. }
      destruct (nth_error a n) as [nd|] eqn:A; [| apply nth_error_None in A; lia].
      rewrite (get_some _ _ _ A). cbn [bind]. set (d := Z.to_nat (id mod 16)).
      assert (d < 16)%nat as Ld by (subst d; pose proof (Z.mod_pos_bound id 16); lia).
      assert (Z.shiftr id 4 = id / 16) as Sh by (rewrite Z.shiftr_div_pow2 by lia; reflexivity).
      assert (id / 16 < 16 ^ Z.of_nat fuel) as B'.
      { rewrite Nat2Z.inj_succ, Z.pow_succ_r in B by lia. apply Z.div_lt_upper_bound; lia. }
      rewrite Sh.
      destruct (nth_error (kids nd) d) as [k|] eqn:K; [| apply nth_error_None in K; rewrite (i_16 _ _ _ _ I _ _ A) in K; lia].
      rewrite (get_some _ _ _ K). cbn [bind]. destruct k as [k|].
      * destruct (i_kid _ _ _ _ I _ _ _ _ A K) as (_ & p' & P1 & P2). assert (p' = p) by congruence. subst p'.
        destruct (IH _ _ _ _ _ _ _ I P2 B') as (a' & ext & m & W & I' & Pm & Fr & U).
        exists a', ext, m. rewrite <- app_assoc in Pm, U. split; [exact W | split; [exact I' | split; [exact Pm | split; [exact Fr | exact U]]]].
      * rewrite (set_ok _ _ _ Ln). cbn [bind]. fold (add_kid nd d (length a)).
        pose proof (inv_kid _ _ _ _ _ _ _ _ I A P K) as I1.
        assert (nth_error (paths ++ [p ++ [d]]) (length a) = Some (p ++ [d])) as New.
        { pose proof (i_len _ _ _ _ I). rewrite nth_error_app2 by lia. replace (length a - length paths)%nat with 0%nat by lia. reflexivity. }
        destruct (IH _ _ _ _ _ _ _ I1 New B') as (a' & ext & m & W & I' & Pm & Fr & U).
        exists a', ([p ++ [d]] ++ ext), m. split; [exact W |]. rewrite app_assoc. split; [exact I' | split; [| split]].
        -- rewrite Pm, <- app_assoc. reflexivity.
        -- intros k Hk. rewrite Fr by (rewrite app_length, upd_length; lia). unfold inner_of.
           rewrite nth_error_app1 by (rewrite upd_length; exact Hk). destruct (Nat.eq_dec n k) as [E|E].
           ++ subst k. rewrite nth_error_upd_eq by exact Hk. rewrite A. reflexivity.
           ++ rewrite nth_error_upd_neq by exact E. reflexivity.
        -- intros q [Q|Q]; [subst q; exists (hexdigits fuel (id / 16)); rewrite <- app_assoc; reflexivity |].
           destruct (U _ Q) as [r R]. exists r. rewrite <- R, <- app_assoc. reflexivity.
Qed.
(** every node is on the way to a zone that is open or has been left *)
Definition used (paths : list (list nat)) (L : list visit) (act : list (list nat)) : Prop :=
  forall p, In p paths -> p = [] \/ exists q r, openb q L act = true /\ q = p ++ r.
Lemma inner_upd : forall a n nd k, (n < length a)%nat -> inner_of (upd a n nd) k = if (n =? k)%nat then Some (inner nd) else inner_of a k.
Proof.
  intros a n nd k H. unfold inner_of. destruct (Nat.eqb_spec n k) as [E|E].
  - subst k. rewrite nth_error_upd_eq by exact H. reflexivity.
  - rewrite nth_error_upd_neq by exact E. reflexivity.
Qed.
Lemma start_ok : forall s paths L act p id, inv (arena s) paths L act -> used paths L act -> nth_error paths (cur s) = Some p -> 0 < id < 2 ^ 16 ->
  exists s' ext, StartProfile id s = Ok s' /\ inv (arena s') (paths ++ ext) L ((p ++ digits id) :: act) /\
    nth_error (paths ++ ext) (cur s') = Some (p ++ digits id) /\ inner_of (arena s') (cur s') = Some 0 /\
    (forall k, (k < length (arena s))%nat -> k <> cur s' -> inner_of (arena s') k = inner_of (arena s) k) /\
    used (paths ++ ext) L ((p ++ digits id) :: act).
Proof.
  intros s paths L act p id I Us P B. unfold StartProfile.
  assert (id < 16 ^ Z.of_nat 4) as B' by (change (16 ^ Z.of_nat 4) with (2 ^ 16); lia).
  destruct (walk_ok _ _ _ _ _ _ _ _ I P B') as (a' & ext & m & W & I' & Pm & Fr & U). rewrite W. cbn [bind].
  assert (m < length a')%nat as Lm. { rewrite <- (i_len _ _ _ _ I'). apply nth_error_Some. congruence. }
  destruct (nth_error a' m) as [nd|] eqn:A; [| apply nth_error_None in A; lia].
  rewrite (get_some _ _ _ A). cbn [bind]. rewrite (set_ok _ _ _ Lm). cbn [bind].
  eexists. exists ext. split; [reflexivity |]. cbn [arena cur]. fold (digits id) in Pm.
  split; [| split; [exact Pm | split; [| split]]].
  - eapply inv_upd; [exact I' | exact A | exact Pm | reflexivity | | |].
    + intros q H. unfold openb in H. cbn [existsb] in H. rewrite (orb_comm (path_eqb _ _)), orb_assoc in H. apply orb_true_iff in H.
      destruct H as [H|H]; [exact (i_log _ _ _ _ I' _ H) |]. apply path_eqb_spec in H. subst q. eapply nth_error_In. exact Pm.
    + destruct (i_stat _ _ _ _ I' _ _ _ A Pm) as (T & Av & Cv). unfold stat. cbn [total avg codeavg].
      split; [| split; assumption]. rewrite T. unfold openb at 2. cbn [existsb]. rewrite path_eqb_refl. cbn [orb]. rewrite orb_true_r.
      destruct (openb (p ++ digits id) L act) eqn:O; [reflexivity |]. unfold openb in O. apply orb_false_iff in O. destruct O as [O _].
      rewrite (at_path_nil _ _ O). reflexivity.
    + intros q NE. split; [| reflexivity]. unfold openb. cbn [existsb]. rewrite (path_eqb_neq (p ++ digits id) q) by congruence. reflexivity.
  - rewrite inner_upd by exact Lm. rewrite Nat.eqb_refl. reflexivity.
  - intros k Hk NE. rewrite inner_upd by exact Lm. rewrite (proj2 (Nat.eqb_neq m k)) by congruence. apply Fr. exact Hk.
  - intros q Hq. apply in_app_or in Hq. destruct Hq as [Hq|Hq].
    + destruct (Us _ Hq) as [X|(x & r & X & Y)]; [left; exact X | right; exists x, r; split; [| exact Y]].
      unfold openb in *. cbn [existsb]. rewrite (orb_comm (path_eqb _ _)), orb_assoc, X. reflexivity.
    + right. destruct (U _ Hq) as [r R]. exists (p ++ digits id), r. split; [| exact R].
      unfold openb. cbn [existsb]. rewrite path_eqb_refl. cbn [orb]. apply orb_true_r.
Qed.
Lemma at_path_app : forall p L v, at_path p (L ++ [v]) = at_path p L ++ (if path_eqb (code (stack v)) p then [v] else []).
Proof. intros p L v. unfold at_path. rewrite filter_app. cbn [filter]. reflexivity. Qed.
Lemma end_ok : forall s paths L act q old p i time v, inv (arena s) paths L (q :: act) -> nth_error paths (cur s) = Some q ->
  nth_error paths old = Some p -> p <> q -> inner_of (arena s) (cur s) = Some i -> 0 <= i <= time -> time < 2 ^ 64 ->
  code (stack v) = q -> whole v = time -> self v = time - i ->
  exists s', EndProfile time old s = Ok s' /\ inv (arena s') paths (L ++ [v]) act /\ cur s' = old /\
    (forall j, inner_of (arena s) old = Some j -> inner_of (arena s') old = Some (wrap 64 (j + time))) /\
    (forall k, k <> old -> inner_of (arena s') k = inner_of (arena s) k) /\
    (used paths L (q :: act) -> used paths (L ++ [v]) act).
Proof.
  intros s paths L act q old p i time v I Q P NE Hi Bi Bt Cv Wv Sv. unfold EndProfile.
  set (a := arena s) in *. set (n := cur s) in *.
  assert (n < length a)%nat as Ln. { rewrite <- (i_len _ _ _ _ I). apply nth_error_Some. congruence. }
  assert (old < length a)%nat as Lo. { rewrite <- (i_len _ _ _ _ I). apply nth_error_Some. congruence. }
  assert (n <> old) as Nno by (intros E; rewrite E in Q; congruence).
  destruct (nth_error a n) as [nd|] eqn:A; [| apply nth_error_None in A; lia].
  rewrite (get_some _ _ _ A). cbn [bind]. rewrite (set_ok _ _ _ Ln). cbn [bind].
  destruct (nth_error a old) as [od|] eqn:Ao; [| apply nth_error_None in Ao; lia].
  assert (forall x, nth_error (upd a n x) old = Some od) as Ao' by (intros x; rewrite nth_error_upd_neq by exact Nno; exact Ao).
  rewrite (get_some _ _ _ (Ao' _)). cbn [bind]. rewrite set_ok by (rewrite upd_length; exact Lo). cbn [bind].
  destruct (i_stat _ _ _ _ I _ _ _ A Q) as (T & Av & Cd).
  assert (openb q L (q :: act) = true) as O1. { unfold openb. cbn [existsb]. rewrite path_eqb_refl. cbn [orb]. apply orb_true_r. }
  rewrite O1 in T.
  assert (inner nd = i) as Ei. { unfold inner_of in Hi. rewrite A in Hi. cbn in Hi. congruence. }
  assert (wrap 64 (time - inner nd) = time - i) as Ew. { rewrite Ei. unfold wrap. apply Z.mod_small. lia. }
  rewrite T, Ew.
  assert (openb q (L ++ [v]) act = true) as O2.
  { unfold openb. rewrite existsb_app. cbn [existsb]. rewrite Cv, path_eqb_refl. cbn [orb]. rewrite orb_true_r. reflexivity. }
  assert (forall r, r <> q -> openb r (L ++ [v]) act = openb r L (q :: act) /\ at_path r (L ++ [v]) = at_path r L) as Fr.
  { intros r NEr. split.
    - unfold openb. rewrite existsb_app. cbn [existsb]. rewrite Cv. rewrite (path_eqb_neq q r) by congruence. cbn [orb]. rewrite orb_false_r. reflexivity.
    - rewrite at_path_app, Cv, (path_eqb_neq q r) by congruence. apply app_nil_r. }
  eexists. split; [reflexivity |]. cbn [arena cur]. split; [| split; [reflexivity | split; [| split]]].
  - assert (forall r, openb r (L ++ [v]) act = true -> In r paths) as O.
    { intros r H. destruct (list_eq_dec Nat.eq_dec r q) as [E|E]; [subst r; eapply nth_error_In; exact Q |].
      rewrite (proj1 (Fr _ E)) in H. exact (i_log _ _ _ _ I _ H). }
    eapply inv_upd; [eapply inv_upd; [exact I | exact A | exact Q | reflexivity | exact O | | exact Fr] | apply Ao' | exact P | reflexivity | exact O | |].
    + unfold stat. cbn [total avg codeavg]. rewrite O2, at_path_app, Cv, path_eqb_refl, app_length, !map_app. cbn [length map].
      rewrite Av, Cd, Wv, Sv. split; [f_equal; lia | split].
      * rewrite <- C127_bssAvg, map_length. reflexivity.
      * rewrite <- C127_bssAvg, map_length. reflexivity.
    + destruct (i_stat _ _ _ _ I _ _ _ Ao P) as (T2 & Av2 & Cd2). unfold stat. cbn [total avg codeavg]. destruct (Fr _ NE) as [F1 F2]. rewrite F1, F2.
      split; [exact T2 | split; assumption].
    + intros r _. split; reflexivity.
  - intros j Hj. rewrite inner_upd by (rewrite upd_length; exact Lo). rewrite Nat.eqb_refl. cbn [inner]. unfold inner_of in Hj. rewrite Ao in Hj. cbn in Hj. congruence.
  - intros k Hk. rewrite inner_upd by (rewrite upd_length; exact Lo). rewrite (proj2 (Nat.eqb_neq old k)) by congruence.
    rewrite inner_upd by exact Ln. destruct (Nat.eqb_spec n k) as [E|E]; [| reflexivity].
    subst k. unfold inner_of. rewrite A. reflexivity.
  - intros U r Hr. destruct (U _ Hr) as [X|(x & y & X & Y)]; [left; exact X | right; exists x, y; split; [| exact Y]].
    destruct (list_eq_dec Nat.eq_dec x q) as [E|E]; [rewrite E; exact O2 | rewrite (proj1 (Fr _ E)); exact X].
Qed.
Lemma run_body : forall l s,
  (fix go (l : list zone) (s : prof) : res prof := match l with [] => Ok s | z :: r => do s <- run_zone z s; go r s end) l s = run_zones l s.
Proof. induction l as [|z l IH]; intros s; cbn [run_zones]; [reflexivity |]. destruct (run_zone z s); cbn [bind]; [apply IH | reflexivity | reflexivity]. Qed.
Lemma execution_le : forall lo zs hi, execution lo zs hi -> 0 <= durations zs <= hi - lo.
Proof.
  intros lo zs hi E. induction E as [lo hi H | lo id t0 body t1 rest hi H1 B E1 IH1 E2 IH2].
  - cbn. lia.
  - change (durations (Zone id t0 body t1 :: rest)) with (t1 - t0 + durations rest). lia.
Qed.
Lemma digits_pos : forall id, 0 < id -> exists d r, digits id = d :: r.
Proof. intros id H. unfold digits. cbn [hexdigits]. destruct (Z.leb_spec id 0); [lia |]. eexists. eexists. reflexivity. Qed.
Lemma code_app : forall x y, code (x ++ y) = code x ++ code y.
Proof. intros x y. unfold code. apply flat_map_app. Qed.
Lemma visits_cons : forall pre id t0 body t1 rest, visits pre (Zone id t0 body t1 :: rest) =
  visits (pre ++ [id]) body ++ [mkv (pre ++ [id]) (t1 - t0) (t1 - t0 - durations body)] ++ visits pre rest.
Proof. intros. unfold visits. cbn [flat_map visits_zone]. rewrite <- app_assoc. reflexivity. Qed.
Lemma run_ok : forall lo zs hi, execution lo zs hi -> 0 <= lo -> hi < 2 ^ 64 ->
  forall s paths L act pre i, inv (arena s) paths L act -> used paths L act -> nth_error paths (cur s) = Some (code pre) ->
    inner_of (arena s) (cur s) = Some i ->
    exists s' ext, run_zones zs s = Ok s' /\ inv (arena s') (paths ++ ext) (L ++ visits pre zs) act /\ cur s' = cur s /\
      (exists i', inner_of (arena s') (cur s) = Some i' /\ (0 <= i -> i + durations zs < 2 ^ 64 -> i' = i + durations zs)) /\
      (forall k q, nth_error paths k = Some q -> ~ (exists r, q = code pre ++ r) -> inner_of (arena s') k = inner_of (arena s) k) /\
      used (paths ++ ext) (L ++ visits pre zs) act.
Proof.
  intros lo zs hi E. induction E as [lo hi H | lo id t0 body t1 rest hi H1 B E1 IH1 E2 IH2]; intros Hlo Hhi s paths L act pre i I U P Hi.
  - exists s, []. change (visits pre []) with (@nil visit). rewrite !app_nil_r. cbn [run_zones].
    split; [reflexivity | split; [exact I | split; [reflexivity | split; [exists i; split; [exact Hi | intros; cbn; lia] | split; [reflexivity | exact U]]]]].
  - pose proof (execution_le _ _ _ E1) as D1. pose proof (execution_le _ _ _ E2) as D2.
    cbn [run_zones run_zone].
    destruct (start_ok _ _ _ _ _ _ I U P B) as (s1 & ext1 & R1 & I1 & P1 & In1 & Fr1 & U1). rewrite R1. cbn [bind].
    rewrite run_body.
    assert (code pre ++ digits id = code (pre ++ [id])) as Ec. { rewrite code_app. unfold code at 3. cbn [flat_map]. rewrite app_nil_r. reflexivity. }
    rewrite Ec in I1, P1, U1.
    destruct (digits_pos id ltac:(lia)) as (d & r & Ed).
    assert (forall x, code pre <> code (pre ++ [id]) ++ x) as NE.
    { intros x X. rewrite <- Ec, Ed, <- app_assoc in X. rewrite <- (app_nil_r (code pre)) in X at 1. apply app_inv_head in X. discriminate. }
    destruct (IH1 ltac:(lia) ltac:(lia) _ _ _ _ _ _ I1 U1 P1 In1) as (s2 & ext2 & R2 & I2 & C2 & (i2 & In2 & Ei2) & Fr2 & U2).
    rewrite R2. cbn [bind]. specialize (Ei2 ltac:(lia) ltac:(lia)). rewrite Z.add_0_l in Ei2. subst i2.
    assert (wrap 64 (t1 - t0) = t1 - t0) as Ew by (unfold wrap; apply Z.mod_small; lia). rewrite Ew.
    assert (forall k q e, nth_error paths k = Some q -> nth_error (paths ++ e) k = Some q) as Old.
    { intros k q e X. rewrite nth_error_app1 by (apply nth_error_lt in X; exact X). exact X. }
    assert (nth_error ((paths ++ ext1) ++ ext2) (cur s2) = Some (code (pre ++ [id]))) as P2.
    { rewrite C2. rewrite nth_error_app1 by (apply nth_error_lt in P1; exact P1). exact P1. }
    assert (nth_error ((paths ++ ext1) ++ ext2) (cur s) = Some (code pre)) as P3. { rewrite <- app_assoc. apply Old. exact P. }
    assert (inner_of (arena s2) (cur s2) = Some (durations body)) as In2' by (rewrite C2; exact In2).
    assert (code pre <> code (pre ++ [id])) as NE0. { intros X. apply (NE []). rewrite app_nil_r. exact X. }
    assert (t1 - t0 < 2 ^ 64) as Bt by lia.
    destruct (end_ok _ _ _ _ _ _ _ _ _ (mkv (pre ++ [id]) (t1 - t0) (t1 - t0 - durations body)) I2 P2 P3
                NE0 In2' D1 Bt eq_refl eq_refl eq_refl) as (s3 & R3 & I3 & C3 & In3 & Fr3 & U3).
    rewrite R3. cbn [bind].
    assert (forall k q, nth_error paths k = Some q -> ~ (exists r, q = code (pre ++ [id]) ++ r) -> inner_of (arena s2) k = inner_of (arena s) k) as Keep.
    { intros k q X Y. rewrite (Fr2 k q); [| apply Old; exact X | exact Y].
      apply Fr1; [rewrite <- (i_len _ _ _ _ I); apply nth_error_lt in X; exact X |].
      intros Z0. subst k. apply Y. exists []. rewrite app_nil_r. pose proof (Old _ _ ext1 X). congruence. }
    assert (inner_of (arena s2) (cur s) = Some i) as In2s.
    { rewrite (Keep _ _ P); [exact Hi |]. intros [x X]. exact (NE x X). }
    specialize (In3 _ In2s). rewrite <- C3 in In3, P3.
    destruct (IH2 ltac:(lia) ltac:(lia) _ _ _ _ _ _ I3 (U3 U2) P3 In3) as (s4 & ext4 & R4 & I4 & C4 & (i4 & In4 & Ei4) & Fr4 & U4).
    exists s4, (ext1 ++ ext2 ++ ext4). split; [exact R4 |]. split; [| split; [congruence | split; [| split]]].
    + rewrite visits_cons. rewrite <- !app_assoc in I4. exact I4.
    + exists i4. split; [rewrite C3 in In4; exact In4 |]. intros X Y.
      change (durations (Zone id t0 body t1 :: rest)) with (t1 - t0 + durations rest) in *.
      assert (wrap 64 (i + (t1 - t0)) = i + (t1 - t0)) as Ew2 by (unfold wrap; apply Z.mod_small; lia). rewrite Ew2 in Ei4.
      rewrite Ei4 by lia. lia.
    + intros k q X Y. assert (k <> cur s) as Nk. { intros ->. apply Y. exists []. rewrite app_nil_r. congruence. }
      rewrite (Fr4 k q); [| rewrite <- app_assoc; apply Old; exact X | exact Y].
      rewrite Fr3 by exact Nk. apply (Keep _ _ X). intros [x Hx]. apply Y. exists (digits id ++ x). rewrite app_assoc, Ec. exact Hx.
    + rewrite visits_cons. rewrite <- !app_assoc in U4. exact U4.
Qed.
Lemma run_init : forall zs hi, execution 0 zs hi -> hi < 2 ^ 64 ->
  exists s paths, run_zones zs prof_init = Ok s /\ cur s = 0%nat /\ inv (arena s) paths (visits [] zs) [] /\ used paths (visits [] zs) [].
Proof.
  intros zs hi E B.
  destruct (run_ok _ _ _ E ltac:(lia) B prof_init [[]] [] [] [] 0 inv_init) as (s & ext & R & I & C & _ & _ & U).
  - intros p [H|[]]. left. congruence.
  - reflexivity.
  - reflexivity.
  - exists s, ([[]] ++ ext). split; [exact R | split; [exact C | split; [exact I | exact U]]].
Qed.

(** no id begins, in hexadecimal with the lowest digit first, with the digits of another *)
Definition unambiguous (ids : list Z) : Prop :=
  forall x y, In x ids -> In y ids -> 0 < x < 2 ^ 16 /\ (x <> y -> ~ exists r, digits y = digits x ++ r).
Definition uses (ids : list Z) (zs : list zone) : Prop := forall v, In v (visits [] zs) -> Forall (fun i => In i ids) (stack v).
(** what the node of a stack shows after the run zs *)
Definition shows (s : prof) (st : list Z) (zs : list zone) : Prop :=
  let vs := visits_of st zs in
  (vs <> [] -> exists nd, node_of s st = Some nd /\ total nd = Some (Z.of_nat (length vs)) /\
     avg nd = mean (map (fun v => Qcz (whole v)) vs) /\ codeavg nd = mean (map (fun v => Qcz (self v)) vs)) /\
  (vs = [] -> node_of s st = None \/ exists nd, node_of s st = Some nd /\ total nd = None).

Lemma app_prefix : forall (A : Type) (a b c d : list A), a ++ b = c ++ d -> (exists r, c = a ++ r) \/ (exists r, a = c ++ r).
Proof.
  induction a as [|x a IH]; intros b c d H.
  - left. exists c. reflexivity.
  - destruct c as [|y c]; [right; exists (x :: a); reflexivity |]. cbn [app] in H.
    assert (x = y) by congruence. subst y. assert (a ++ b = c ++ d) as H' by congruence.
    destruct (IH _ _ _ H') as [[r R]|[r R]]; [left | right]; exists r; cbn [app]; congruence.
Qed.
Lemma code_inj : forall ids, unambiguous ids -> forall x y, Forall (fun i => In i ids) x -> Forall (fun i => In i ids) y ->
  code x = code y -> x = y.
Proof.
  intros ids U. induction x as [|a x IH]; intros y Hx Hy E.
  - destruct y as [|b y]; [reflexivity |]. inversion Hy as [|? ? Hb Hy']; subst. destruct (U b b Hb Hb) as [B _].
    destruct (digits_pos b ltac:(lia)) as (d & r & D). unfold code in E. cbn [flat_map] in E. rewrite D in E. discriminate.
  - inversion Hx as [|? ? Ha Hx']; subst. destruct (U a a Ha Ha) as [Ba _]. destruct (digits_pos a ltac:(lia)) as (d & r & D).
    destruct y as [|b y].
    + unfold code in E. cbn [flat_map] in E. rewrite D in E. discriminate.
    + inversion Hy as [|? ? Hb Hy']; subst. unfold code in E. cbn [flat_map] in E.
      assert (a = b) as Eab.
      { destruct (Z.eq_dec a b) as [X|X]; [exact X |]. exfalso. destruct (app_prefix _ _ _ _ _ E) as [P|P].
        - destruct (U a b Ha Hb) as [_ N]. exact (N X P).
        - destruct (U b a Hb Ha) as [_ N]. apply N; [congruence | exact P]. }
      subst b. apply app_inv_head in E. f_equal. apply IH; assumption.
Qed.
Lemma stack_eqb_spec : forall x y, stack_eqb x y = true <-> x = y.
Proof. intros x y. unfold stack_eqb. destruct (list_eq_dec Z.eq_dec x y); split; congruence. Qed.
Lemma filter_ext_in' : forall (A : Type) (f g : A -> bool) l, (forall x, In x l -> f x = g x) -> filter f l = filter g l.
Proof.
  induction l as [|x l IH]; intros H; [reflexivity |]. cbn [filter]. rewrite (H x) by (left; reflexivity).
  rewrite IH by (intros y Hy; apply H; right; exact Hy). reflexivity.
Qed.
Lemma at_path_visits : forall ids zs st, unambiguous ids -> uses ids zs -> Forall (fun i => In i ids) st ->
  at_path (code st) (visits [] zs) = visits_of st zs.
Proof.
  intros ids zs st U Us F. apply filter_ext_in'. intros v Hv.
  destruct (stack_eqb (stack v) st) eqn:E.
  - apply stack_eqb_spec in E. rewrite E. apply path_eqb_refl.
  - apply path_eqb_neq. intros X. apply (code_inj _ U) in X; [| exact (Us _ Hv) | exact F]. apply stack_eqb_spec in X. congruence.
Qed.
Lemma openb_at : forall p L, openb p L [] = match at_path p L with [] => false | _ => true end.
Proof.
  intros p. induction L as [|v L IH]; [reflexivity |]. unfold openb, at_path in *. cbn [existsb filter]. cbn [existsb] in IH. rewrite orb_false_r in *.
  destruct (path_eqb (code (stack v)) p); [reflexivity | exact IH].
Qed.
Lemma shows_ok : forall ids s paths zs st, inv (arena s) paths (visits [] zs) [] -> unambiguous ids -> uses ids zs -> Forall (fun i => In i ids) st ->
  shows s st zs.
Proof.
  intros ids s paths zs st I U Us F. pose proof (at_path_visits _ _ _ U Us F) as E. pose proof (openb_at (code st) (visits [] zs)) as O. rewrite E in O.
  destruct (follow_inv _ _ _ _ I (code st) 0 [] (i_root _ _ _ _ I)) as [F1 F2]. cbn [app] in F1, F2. unfold shows, node_of. fold (code st). cbv zeta.
  split; intros V.
  - assert (openb (code st) (visits [] zs) [] = true) as O1 by (rewrite O; destruct (visits_of st zs); [contradiction | reflexivity]).
    destruct (In_nth_error _ _ (i_log _ _ _ _ I _ O1)) as [m Hm]. rewrite (F1 _ Hm).
    assert (m < length (arena s))%nat as Lm. { rewrite <- (i_len _ _ _ _ I). apply nth_error_lt in Hm. exact Hm. }
    destruct (nth_error (arena s) m) as [nd|] eqn:A; [| apply nth_error_None in A; lia].
    exists nd. split; [reflexivity |]. destruct (i_stat _ _ _ _ I _ _ _ A Hm) as (T & Av & Cv). rewrite O1, E in T. rewrite E in Av, Cv.
    split; [exact T | split; assumption].
  - rewrite V in O. destruct (in_dec (list_eq_dec Nat.eq_dec) (code st) paths) as [H|H].
    + destruct (In_nth_error _ _ H) as [m Hm]. rewrite (F1 _ Hm).
      assert (m < length (arena s))%nat as Lm. { rewrite <- (i_len _ _ _ _ I). apply nth_error_lt in Hm. exact Hm. }
      destruct (nth_error (arena s) m) as [nd|] eqn:A; [| apply nth_error_None in A; lia].
      right. exists nd. split; [reflexivity |]. destruct (i_stat _ _ _ _ I _ _ _ A Hm) as (T & _ & _). rewrite O in T. exact T.
    + left. exact (F2 H).
Qed.
Theorem C128_profile_partial : forall ids zs hi, execution 0 zs hi -> hi < 2 ^ 64 -> unambiguous ids -> uses ids zs ->
  exists s, run_zones zs prof_init = Ok s /\ cur s = 0%nat /\ forall st, Forall (fun i => In i ids) st -> shows s st zs.
Proof.
  intros ids zs hi E B U Us. destruct (run_init _ _ E B) as (s & paths & R & C & I & _).
  exists s. split; [exact R | split; [exact C |]]. intros st F. exact (shows_ok _ _ _ _ _ I U Us F).
Qed.
Print Assumptions C128_profile_partial.
Lemma small_unambiguous : unambiguous [1; 2; 3; 4; 5; 6; 7; 8; 9; 10; 11; 12; 13; 14; 15; 16].
Proof.
  assert (forall x y, In x [1; 2; 3; 4; 5; 6; 7; 8; 9; 10; 11; 12; 13; 14; 15; 16] -> In y [1; 2; 3; 4; 5; 6; 7; 8; 9; 10; 11; 12; 13; 14; 15; 16] ->
     0 < x < 2 ^ 16 /\ (x <> y -> ~ firstn (length (digits x)) (digits y) = digits x)) as H.
  { intros x y Hx Hy. cbn [In] in Hx, Hy. 
    repeat (destruct Hx as [Hx|Hx]; [subst x; split; [lia |];
      repeat (destruct Hy as [Hy|Hy]; [subst y; intros N; first [exfalso; apply N; reflexivity | vm_compute; discriminate] |]); contradiction |]). contradiction. }
  intros x y Hx Hy. destruct (H _ _ Hx Hy) as [B N]. split; [exact B |]. intros X [r R]. apply (N X). rewrite R.
  rewrite firstn_app, Nat.sub_diag, firstn_all, firstn_O, app_nil_r. reflexivity.
Qed.
(** a program whose zones are numbered from 1 to at most 16 *)
Theorem C128_sixteen_zones : forall zs hi, execution 0 zs hi -> hi < 2 ^ 64 -> (forall v, In v (visits [] zs) -> Forall (fun i => 1 <= i <= 16) (stack v)) ->
  exists s, run_zones zs prof_init = Ok s /\ cur s = 0%nat /\ forall st, Forall (fun i => 1 <= i <= 16) st -> shows s st zs.
Proof.
  intros zs hi E B U.
  assert (forall st, Forall (fun i => 1 <= i <= 16) st -> Forall (fun i => In i [1; 2; 3; 4; 5; 6; 7; 8; 9; 10; 11; 12; 13; 14; 15; 16]) st) as H.
  { intros st. apply Forall_impl. intros i Hi. cbn [In]. lia. }
  destruct (C128_profile_partial _ _ _ E B small_unambiguous (fun v Hv => H _ (U v Hv))) as (s & R & C & Sh).
  exists s. split; [exact R | split; [exact C |]]. intros st F. exact (Sh _ (H _ F)).
Qed.
Print Assumptions C128_sixteen_zones.
(** with 17 zones the claim is false: zone 17 shares the node of a zone 1 directly inside a zone 1 *)
Definition clash : list zone := [Zone 1 0 [Zone 1 1 [] 3] 4; Zone 17 4 [] 14].
Theorem C128_profile_refuted :
  ~ (forall zs hi, execution 0 zs hi -> hi < 2 ^ 64 -> exists s, run_zones zs prof_init = Ok s /\ forall st, Forall (fun i => 0 < i < 2 ^ 16) st -> shows s st zs).
Proof.
  intros H. destruct (H clash 14) as (s & R & Sh).
  - unfold clash. repeat (constructor; try lia).
  - lia.
  - destruct (Sh [17]) as [X _]; [repeat constructor |]. destruct X as (nd & N & T & _).
    + vm_compute. discriminate.
    + assert (match run_zones clash prof_init with Ok s => match node_of s [17] with Some nd => total nd | None => None end | _ => None end = Some 2) as E by (vm_compute; reflexivity).
      rewrite R, N, T in E. vm_compute in E. discriminate.
Qed.
Print Assumptions C128_profile_refuted.
Example C128_example : let zs := [Zone 1 0 [Zone 2 1 [] 3; Zone 2 3 [Zone 2 4 [] 5] 9] 12; Zone 2 20 [] 25] in
  execution 0 zs 30 /\ (forall v, In v (visits [] zs) -> Forall (fun i => 1 <= i <= 16) (stack v)) /\
  map whole (visits_of [1; 2] zs) = [2; 6] /\ map self (visits_of [1; 2] zs) = [2; 5] /\ map self (visits_of [1] zs) = [4] /\
  match run_zones zs prof_init with
  | Ok s => match node_of s [1; 2] with
            | Some nd => total nd = Some 2 /\ Qcz 4 = avg nd /\ (if Qc_eq_dec (codeavg nd) (Q2Qc (7 # 2)) then true else false) = true
            | None => False end
  | _ => False end.
Proof.
  cbv zeta. split; [repeat (constructor; try lia) | split].
  - intros v H. vm_compute in H. decompose [or] H; try contradiction; subst v; cbn [stack]; repeat constructor; lia.
  - split; [reflexivity | split; [reflexivity | split; [reflexivity |]]].
    vm_compute. split; [reflexivity | split; [apply Qc_is_canon; reflexivity | reflexivity]].
Qed.
