From Coq Require Import ZArith List Bool QArith Qcanon Lia ZifyBool ZifyNat Permutation Sorted.
From Verif Require Import Common Profiler ProfilerProps ProfilerOutProps.
Import ListNotations.
Local Open Scope Z_scope.

(** Specification *)
(** the visits of a zone, wherever it was entered *)
Definition visits_at (i : Z) (zs : list zone) : list visit := filter (fun v => last (stack v) 0 =? i) (visits [] zs).
Definition flat_of (zs : list zone) (i : Z) : flat := mkf (mean_whole (visits_at i zs)) (Z.of_nat (length (visits_at i zs))).

(** Proofs *)
Lemma qsum_perm : forall x y, Permutation x y -> qsum x = qsum y.
Proof.
  intros x y P. induction P; unfold qsum in *; cbn [fold_right]; [reflexivity | rewrite IHP; reflexivity | ring | congruence].
Qed.
Lemma mean_perm : forall x y, Permutation x y -> mean x = mean y.
Proof. intros x y P. unfold mean. rewrite (qsum_perm _ _ P), (Permutation_length P). reflexivity. Qed.
Lemma flat_add_ok : forall x y, y <> [] ->
  flat_add (mkf (mean_whole x) (Z.of_nat (length x))) (mean_whole y) (Z.of_nat (length y)) = mkf (mean_whole (x ++ y)) (Z.of_nat (length (x ++ y))).
Proof.
  intros x y N. unfold flat_add. cbn [favg ftotal]. rewrite app_length, Nat2Z.inj_add. f_equal.
  unfold mean_whole, mean. rewrite !map_app, !qsum_app, !app_length, !map_length, !Nat2Z.inj_add, !Qcz_add.
  set (a := Qcz (Z.of_nat (length x))). set (b := Qcz (Z.of_nat (length y))). set (p := qsum (map _ x)). set (q := qsum (map _ y)).
  assert (b <> 0)%Qc as Nb. { apply Qcz_neq0. destruct y; [contradiction | cbn [length]; lia]. }
  assert (a + b <> 0)%Qc as Nab. { unfold a, b. rewrite <- Qcz_add. apply Qcz_neq0. destruct y; [contradiction | cbn [length]; lia]. }
  destruct x as [|v x].
  - subst a p. cbn [length map] in *. change (Z.of_nat 0) with 0 in *. change (qsum []) with (Qcz 0). rewrite Qcz_0 in *.
    replace (0 / 0)%Qc with 0%Qc by (apply Qc_is_canon; reflexivity). field. repeat split; first [exact Nb | exact Nab].
  - assert (a <> 0)%Qc as Na. { apply Qcz_neq0. cbn [length]. lia. }
    field. repeat split; assumption.
Qed.
Definition add_stack (zs : list zone) (acc : list flat) (st : list Z) : list flat :=
  match nth_error acc (Z.to_nat (last st 0)) with
  | Some x => upd acc (Z.to_nat (last st 0)) (flat_add x (mean_whole (visits_of st zs)) (Z.of_nat (length (visits_of st zs))))
  | None => acc
  end.
Lemma add_stacks_length : forall zs sts acc, length (fold_left (add_stack zs) sts acc) = length acc.
Proof.
  induction sts as [|st sts IH]; intros acc; [reflexivity |]. cbn [fold_left]. rewrite IH. unfold add_stack.
  destruct (nth_error acc (Z.to_nat (last st 0))); [apply upd_length | reflexivity].
Qed.
Definition floop (F : Z -> option nat -> list flat -> res (list flat)) :=
  fix go (k : nat) (i : Z) (l : list (option nat)) (acc : list flat) : res (list flat) :=
    match k with
    | O => Ok acc
    | S k' => do c <- (match l with c :: _ => Ok c | [] => UB end); do acc <- F i c acc; go k' (i + 1) (tl l) acc
    end.
Lemma floop_ok : forall zs N F (G : Z -> list (list Z)) k j l acc, length l = k -> length acc = N ->
  (forall d c acc, length acc = N -> nth_error l d = Some c -> F (Z.of_nat (j + d)) c acc = Ok (fold_left (add_stack zs) (G (Z.of_nat (j + d))) acc)) ->
  floop F k (Z.of_nat j) l acc = Ok (fold_left (add_stack zs) (flat_map G (map Z.of_nat (seq j k))) acc).
Proof.
  intros zs N F G. induction k as [|k IH]; intros j l acc Ln La H; [reflexivity |].
  destruct l as [|c l]; [discriminate |]. cbn [floop bind seq map flat_map]. fold (floop F).
  pose proof (H 0%nat c acc La eq_refl) as H0. rewrite Nat.add_0_r in H0. rewrite H0. cbn [bind tl].
  replace (Z.of_nat j + 1) with (Z.of_nat (S j)) by lia. rewrite fold_left_app. apply IH.
  - cbn [length] in Ln. lia.
  - rewrite add_stacks_length. exact La.
  - intros d c' acc' La' X. replace (S j + d)%nat with (j + S d)%nat by lia. apply H; [exact La' | exact X].
Qed.
Lemma flat_out_ok : forall zs s paths N, tree zs s paths -> (forall st, visits_of st zs <> [] -> last st 0 < Z.of_nat N) ->
  forall f n st idl acc, small st -> nth_error paths n = Some (map Z.to_nat st) ->
  (length (arena s) < f + n)%nat -> (st = [] -> idl = 0) -> length acc = N ->
  flat_out f (arena s) (Some n) (last st 0) idl acc =
  Ok (fold_left (add_stack zs) ((match st with [] => [] | _ => [st] end) ++ below f zs st) acc).
Proof.
  intros zs s paths N T Hid. induction f as [|f IH]; intros n st idl acc Sm P Lf Hidl La.
  - assert (n < length (arena s))%nat. { rewrite <- (i_len _ _ _ _ (t_inv _ _ _ T)). apply nth_error_lt in P. exact P. } lia.
  - destruct (t_node _ _ _ T _ _ Sm P) as (nd & A & L16 & To & Vs & Av & Cv & Ks & Kn).
    cbn [flat_out]. rewrite (get_some _ _ _ A). cbn [bind].
    set (id' := match total nd with Some _ => 0 | None => last st 0 end). set (idl' := match total nd with Some _ => 0 | None => idl end).
    assert (id' = 0 /\ idl' = 0) as [Ei El].
    { subst id' idl'. rewrite To. destruct st as [|x st]; [rewrite Vs; cbn [negb]; split; [reflexivity | apply Hidl; reflexivity] | rewrite Vs; split; reflexivity]. }
    rewrite Ei, El. rewrite fold_left_app.
    set (own := match st with [] => [] | _ => [st] end).
    match goal with |- bind ?E _ = _ => assert (E = Ok (fold_left (add_stack zs) own acc)) as EO end.
    { rewrite To, Vs. subst own. destruct st as [|x st]; [reflexivity |]. cbn [negb fold_left].
      assert (visits_of (x :: st) zs <> []) as V by (apply visited_spec; rewrite Vs; reflexivity).
      pose proof (Hid _ V) as Bi.
      destruct (visits_of (x :: st) zs) as [|w ws] eqn:W; [contradiction |].
      assert (0 <? Z.of_nat (length (w :: ws)) = true) as Pos by (cbn [length]; lia). rewrite Pos.
      assert (0 <= last (x :: st) 0) as Bl.
      { assert (In (last (x :: st) 0) (x :: st)) as Il. { rewrite (app_removelast_last 0 (l := x :: st)) at 2 by discriminate. apply in_or_app. right. left. reflexivity. }
        unfold small in Sm. rewrite Forall_forall in Sm. apply Sm in Il. lia. }
      assert (Z.to_nat (last (x :: st) 0%Z) < length acc)%nat as Li by lia.
      destruct (nth_error acc (Z.to_nat (last (x :: st) 0))) as [y|] eqn:Y; [| apply nth_error_None in Y; lia].
      rewrite (get_some _ _ _ Y). cbn [bind]. rewrite (set_ok _ _ _ Li). unfold add_stack. rewrite Y, W, Av. reflexivity. }
    rewrite EO. cbn [bind].
    set (F := fun i c acc => flat_out f (arena s) c (Z.lor 0 (wrap 16 (Z.shiftl i (4 * 0)))) (0 + 1) acc).
    set (G := fun i => if visited zs (st ++ [i]) then (st ++ [i]) :: below f zs (st ++ [i]) else []).
    change (floop F 16 (Z.of_nat 0) (kids nd) (fold_left (add_stack zs) own acc) = Ok (fold_left (add_stack zs) (flat_map G (map Z.of_nat (seq 0 16))) (fold_left (add_stack zs) own acc))).
    apply (floop_ok zs N); [exact L16 | rewrite add_stacks_length; exact La |].
    intros d c acc' La' K. cbn [Nat.add]. assert (d < 16)%nat as Ld by (rewrite <- L16; apply nth_error_lt in K; exact K).
    unfold F, G. rewrite lor0 by lia. destruct c as [m|].
    + destruct (Ks _ _ K) as (Lt & V & Sd & Pm). rewrite V.
      replace (Z.of_nat d) with (last (st ++ [Z.of_nat d]) 0) at 1 by apply last_last.
      rewrite (IH m _ _ _ Sd Pm); [| lia | intros X; destruct st; discriminate | exact La'].
      destruct (st ++ [Z.of_nat d]) eqn:X; [destruct st; discriminate |]. reflexivity.
    + rewrite (Kn _ K). destruct f; [| reflexivity]. exfalso.
      assert (n < length (arena s))%nat. { apply nth_error_lt in A. exact A. } lia.
Qed.
(** the entry of a zone after stacks have been added *)
Lemma add_stacks_nth : forall zs i sts acc xs, 0 <= i -> (forall st, In st sts -> visits_of st zs <> [] /\ 0 <= last st 0) ->
  nth_error acc (Z.to_nat i) = Some (mkf (mean_whole xs) (Z.of_nat (length xs))) ->
  let ys := xs ++ flat_map (fun st => visits_of st zs) (filter (fun st => last st 0 =? i) sts) in
  nth_error (fold_left (add_stack zs) sts acc) (Z.to_nat i) = Some (mkf (mean_whole ys) (Z.of_nat (length ys))).
Proof.
  intros zs i. induction sts as [|st sts IH]; intros acc xs Bi H E ys.
  - subst ys. cbn [filter flat_map fold_left]. rewrite app_nil_r. exact E.
  - destruct (H st (or_introl eq_refl)) as [V B]. assert (forall st, In st sts -> visits_of st zs <> [] /\ 0 <= last st 0) as H' by (intros q Hq; apply H; right; exact Hq).
    cbn [fold_left]. subst ys. cbn [filter]. destruct (Z.eqb_spec (last st 0) i) as [Q|Q].
    + cbn [flat_map]. rewrite app_assoc. apply IH; [exact Bi | exact H' |].
      unfold add_stack. rewrite Q, E. rewrite nth_error_upd_eq by (apply nth_error_lt in E; exact E). rewrite flat_add_ok by exact V. reflexivity.
    + apply IH; [exact Bi | exact H' |]. unfold add_stack. destruct (nth_error acc (Z.to_nat (last st 0))); [| exact E].
      rewrite nth_error_upd_neq by lia. exact E.
Qed.
(** the visits sorted by stack are the visits *)
Lemma group_perm : forall (f : list Z -> bool) L sts, NoDup sts -> (forall v, In v L -> In (stack v) sts) ->
  Permutation (flat_map (fun st => filter (fun v => stack_eqb (stack v) st) L) (filter f sts)) (filter (fun v => f (stack v)) L).
Proof.
  intros f. induction L as [|v L IH]; intros sts ND H.
  - cbn [filter]. induction (filter f sts) as [|q l IHl]; [constructor | exact IHl].
  - assert (forall w, In w L -> In (stack w) sts) as H' by (intros w Hw; apply H; right; exact Hw). specialize (IH sts ND H').
    cbn [filter].
    assert (forall l, NoDup l -> (~ In (stack v) l -> flat_map (fun st => if stack_eqb (stack v) st then v :: filter (fun w => stack_eqb (stack w) st) L else filter (fun w => stack_eqb (stack w) st) L) l =
        flat_map (fun st => filter (fun w => stack_eqb (stack w) st) L) l) /\
      (In (stack v) l -> Permutation (flat_map (fun st => if stack_eqb (stack v) st then v :: filter (fun w => stack_eqb (stack w) st) L else filter (fun w => stack_eqb (stack w) st) L) l)
        (v :: flat_map (fun st => filter (fun w => stack_eqb (stack w) st) L) l))) as Q.
    { induction l as [|q l IHl]; intros NDl; [split; [reflexivity | intros []] |]. inversion NDl as [|? ? Nq NDl']; subst. destruct (IHl NDl') as [I1 I2]. split.
      - intros N. cbn [flat_map]. destruct (stack_eqb (stack v) q) eqn:E; [apply stack_eqb_spec in E; exfalso; apply N; left; congruence |].
        rewrite I1 by (intros X; apply N; right; exact X). reflexivity.
      - intros X. cbn [flat_map]. destruct (stack_eqb (stack v) q) eqn:E.
        + apply stack_eqb_spec in E. rewrite I1 by (rewrite E; exact Nq). apply Permutation_refl.
        + destruct X as [X|X]; [subst q; rewrite (proj2 (stack_eqb_spec _ _) eq_refl) in E; discriminate |].
          eapply Permutation_trans; [apply Permutation_app_head; exact (I2 X) |]. apply Permutation_sym. apply Permutation_middle. }
    destruct (Q (filter f sts) (NoDup_filter f ND)) as [Q1 Q2]. destruct (f (stack v)) eqn:Fv.
    + eapply Permutation_trans; [apply Q2 | constructor; exact IH]. apply filter_In. split; [apply H; left; reflexivity | exact Fv].
    + rewrite Q1; [exact IH |]. intros X. apply filter_In in X. destruct X as [_ X]. congruence.
Qed.
Lemma stack_lt_irrefl : forall x, ~ stack_lt x x.
Proof. induction x as [|a x IH]; intros H; inversion H; subst; [lia | contradiction]. Qed.
Lemma all_stacks_nodup : forall zs s, NoDup (all_stacks zs s).
Proof.
  intros zs s. unfold all_stacks. pose proof (below_sorted (S (S (length (arena s)))) zs []) as Q.
  induction Q as [|q l Sl IH F]; [constructor |]. constructor; [| exact IH]. intros X. rewrite Forall_forall in F. exact (stack_lt_irrefl _ (F _ X)).
Qed.
Lemma flat_entry : forall zs s paths N i, tree zs s paths -> (forall st, visits_of st zs <> [] -> last st 0 < Z.of_nat (S N)) -> 0 <= i < Z.of_nat (S N) ->
  nth_error (fold_left (add_stack zs) (all_stacks zs s) (repeat (mkf (Qcz 0) 0) (S N))) (Z.to_nat i) = Some (flat_of zs i).
Proof.
  intros zs s paths N i T Hid Bi.
  assert (forall st, In st (all_stacks zs s) -> visits_of st zs <> [] /\ 0 <= last st 0) as H.
  { intros st X. apply (all_stacks_in _ _ _ T) in X. split; [exact X |]. pose proof (t_small _ _ _ T _ X) as Sm.
    destruct st as [|a st]; [cbn; lia |]. unfold small in Sm. rewrite Forall_forall in Sm.
    assert (In (last (a :: st) 0) (a :: st)) as Il. { rewrite (app_removelast_last 0 (l := a :: st)) at 2 by discriminate. apply in_or_app. right. left. reflexivity. }
    apply Sm in Il. lia. }
  pose proof (add_stacks_nth zs i (all_stacks zs s) (repeat (mkf (Qcz 0) 0) (S N)) [] ltac:(lia) H) as Q.
  cbv zeta in Q. rewrite Q.
  - cbn [app]. f_equal. unfold flat_of.
    assert (Permutation (flat_map (fun st => visits_of st zs) (filter (fun st => last st 0 =? i) (all_stacks zs s))) (visits_at i zs)) as P.
    { apply group_perm; [apply all_stacks_nodup |]. intros v Hv. apply (all_stacks_in _ _ _ T). apply visits_of_in. exists v. split; [exact Hv | reflexivity]. }
    unfold mean_whole. rewrite (mean_perm _ _ (Permutation_map _ P)), (Permutation_length P). reflexivity.
  - rewrite nth_error_repeat by lia. unfold mean_whole. cbn [map]. rewrite mean_nil. reflexivity.
Qed.
Lemma insert_perm : forall x l, Permutation (insert_flat x l) (x :: l).
Proof.
  induction l as [|y l IH]; [apply Permutation_refl |]. cbn [insert_flat]. destruct (Qclt_le_dec (favg x) (favg y)); [| apply Permutation_refl].
  eapply Permutation_trans; [constructor; exact IH | constructor].
Qed.
Lemma sort_perm : forall l, Permutation (sort_flat l) l.
Proof.
  induction l as [|x l IH]; [constructor |]. unfold sort_flat in *. cbn [fold_right]. eapply Permutation_trans; [apply insert_perm |]. constructor. exact IH.
Qed.
Definition not_less (x y : flat) : Prop := (favg y <= favg x)%Qc.
Lemma insert_sorted : forall x l, StronglySorted not_less l -> StronglySorted not_less (insert_flat x l).
Proof.
  induction l as [|y l IH]; intros H; cbn [insert_flat]; [repeat constructor |]. inversion H as [|? ? Sl Fl]; subst.
  destruct (Qclt_le_dec (favg x) (favg y)) as [Q|Q].
  - constructor; [apply IH; exact Sl |]. apply Forall_forall. intros z Hz. apply (Permutation_in _ (insert_perm x l)) in Hz. destruct Hz as [<-|Hz].
    + apply Qclt_le_weak. exact Q.
    + rewrite Forall_forall in Fl. exact (Fl _ Hz).
  - constructor; [exact H |]. constructor; [exact Q |]. eapply Forall_impl; [| exact Fl]. intros z Hz. unfold not_less in *. eapply Qcle_trans; [exact Hz | exact Q].
Qed.
Lemma sort_sorted : forall l, StronglySorted not_less (sort_flat l).
Proof. induction l as [|x l IH]; [constructor |]. unfold sort_flat in *. cbn [fold_right]. apply insert_sorted. exact IH. Qed.
Lemma sort_id : forall l, StronglySorted not_less l -> sort_flat l = l.
Proof.
  induction l as [|x l IH]; intros H; [reflexivity |]. inversion H as [|? ? Sl Fl]; subst. unfold sort_flat in *. cbn [fold_right]. rewrite (IH Sl).
  destruct l as [|y l]; [reflexivity |]. cbn [insert_flat]. destruct (Qclt_le_dec (favg x) (favg y)) as [Q|Q]; [| reflexivity].
  exfalso. inversion Fl as [|? ? Fy _]; subst. unfold not_less in Fy. exact (Qcle_not_lt _ _ Fy Q).
Qed.
Lemma flat_output : forall N zs s paths, tree zs s paths -> (forall v, In v (visits [] zs) -> last (stack v) 0 <= Z.of_nat N) ->
  FlatOutput N s = Ok (combine (map Z.of_nat (seq 1 N)) (sort_flat (map (fun k => flat_of zs (Z.of_nat k)) (seq 1 N)))).
Proof.
  intros N zs s paths T H.
  assert (forall st, visits_of st zs <> [] -> last st 0 < Z.of_nat (S N)) as Hid.
  { intros st V. apply visits_of_in in V. destruct V as (v & V1 & V2). specialize (H _ V1). rewrite V2 in H. lia. }
  unfold FlatOutput.
  pose proof (flat_out_ok _ _ _ (S N) T Hid (S (S (length (arena s)))) 0%nat [] 0 (repeat (mkf (Qcz 0) 0) (S N)) (Forall_nil _) (i_root _ _ _ _ (t_inv _ _ _ T)) ltac:(lia) ltac:(reflexivity)
    (repeat_length _ _)) as Q.
  cbn [last app] in Q. fold (all_stacks zs s) in Q. rewrite Q. cbn [bind]. f_equal. f_equal. f_equal.
  set (acc := fold_left (add_stack zs) (all_stacks zs s) (repeat (mkf (Qcz 0) 0) (S N))).
  assert (length acc = S N) as La by (unfold acc; rewrite add_stacks_length; apply repeat_length).
  apply nth_error_ext. intros k. destruct acc as [|a0 acc'] eqn:Ea; [discriminate |]. cbn [tl]. cbn [length] in La.
  destruct (Nat.lt_ge_cases k N) as [C|C].
  - pose proof (flat_entry zs s paths N (Z.of_nat (S k)) T Hid ltac:(lia)) as X. fold acc in X. rewrite Nat2Z.id, Ea in X. cbn [nth_error] in X. rewrite X.
    symmetry. rewrite nth_error_map. rewrite (nth_error_nth' (seq 1 N) 0%nat) by (rewrite seq_length; exact C). rewrite seq_nth by exact C. reflexivity.
  - rewrite (proj2 (nth_error_None acc' k)) by lia. symmetry. apply nth_error_None. rewrite map_length, seq_length. exact C.
Qed.
(** the flat report has the right numbers, from the slowest to the fastest zone *)
Theorem C130_flat_partial : forall N zs hi, execution 0 zs hi -> hi < 2 ^ 64 -> onedigit zs -> (forall v, In v (visits [] zs) -> last (stack v) 0 <= Z.of_nat N) ->
  exists s out, run_zones zs prof_init = Ok s /\ FlatOutput N s = Ok out /\ map fst out = map Z.of_nat (seq 1 N) /\
    Permutation (map snd out) (map (fun k => flat_of zs (Z.of_nat k)) (seq 1 N)) /\
    StronglySorted (fun x y => favg y <= favg x)%Qc (map snd out) /\
    (StronglySorted (fun x y => favg y <= favg x)%Qc (map (fun k => flat_of zs (Z.of_nat k)) (seq 1 N)) ->
       forall i f, In (i, f) out -> f = flat_of zs i).
Proof.
  intros N zs hi E B D H. destruct (tree_ok _ _ E B D) as (s & paths & R & T). eexists. eexists. split; [exact R | split; [exact (flat_output _ _ _ _ T H) |]].
  set (st := map (fun k => flat_of zs (Z.of_nat k)) (seq 1 N)).
  assert (length (sort_flat st) = N) as Ls by (rewrite (Permutation_length (sort_perm st)); unfold st; rewrite map_length, seq_length; reflexivity).
  assert (forall (A C : Type) (x : list A) (y : list C), length x = length y -> map fst (combine x y) = x /\ map snd (combine x y) = y) as Cb.
  { clear. induction x as [|a x IH]; intros [|c y] L; try discriminate; [split; reflexivity |]. cbn [combine map fst snd length] in *. destruct (IH y ltac:(lia)) as [I1 I2]. rewrite I1, I2. split; reflexivity. }
  destruct (Cb _ _ (map Z.of_nat (seq 1 N)) (sort_flat st)) as [C1 C2]; [rewrite map_length, seq_length, Ls; reflexivity |].
  rewrite C1, C2. split; [reflexivity | split; [apply sort_perm | split; [apply sort_sorted |]]].
  intros So i f I. rewrite (sort_id _ So) in I. unfold st in I. clear - I. 
  assert (forall l i f, In (i, f) (combine (map Z.of_nat l) (map (fun k => flat_of zs (Z.of_nat k)) l)) -> f = flat_of zs i) as Q; [| exact (Q _ _ _ I)].
  clear. induction l as [|k l IH]; intros i f I; [destruct I |]. cbn [map combine] in I. destruct I as [I|I]; [congruence | exact (IH _ _ I)].
Qed.
Print Assumptions C130_flat_partial.
(** but beside the wrong names: zone 1 took 1, zone 2 took 5, and the line of zone 1 says 5 *)
Theorem C130_flat_refuted :
  ~ (forall N zs hi, execution 0 zs hi -> hi < 2 ^ 64 -> onedigit zs -> (forall v, In v (visits [] zs) -> last (stack v) 0 <= Z.of_nat N) ->
  exists s out, run_zones zs prof_init = Ok s /\ FlatOutput N s = Ok out /\ forall i f, In (i, f) out -> f = flat_of zs i).
Proof.
  intros H. destruct (H 2%nat [Zone 1 0 [] 1; Zone 2 1 [] 6] 6) as (s & out & R & O & I).
  - repeat (constructor; try lia).
  - lia.
  - intros v [V|[V|[]]]; subst v; repeat constructor; cbn; lia.
  - intros v [V|[V|[]]]; subst v; cbn; lia.
  - assert (match run_zones [Zone 1 0 [] 1; Zone 2 1 [] 6] prof_init with Ok s => match FlatOutput 2 s with Ok ((i, f) :: _) => i = 1 /\ Qcz 5 = favg f | _ => False end | _ => False end) as Q.
    { vm_compute. split; [reflexivity | apply Qc_is_canon; reflexivity]. }
    rewrite R, O in Q. destruct out as [|[i f] out]; [contradiction |]. destruct Q as [-> Q]. specialize (I 1 f (or_introl eq_refl)). subst f.
    assert (favg (flat_of [Zone 1 0 [] 1; Zone 2 1 [] 6] 1) = Qcz 1) as X by (apply Qc_is_canon; vm_compute; reflexivity).
    rewrite X in Q. apply Qcz_inj in Q. lia.
Qed.
Print Assumptions C130_flat_refuted.
Example C130_example : let zs := [Zone 1 0 [Zone 2 1 [] 3; Zone 2 3 [] 9] 12; Zone 2 20 [] 24] in
  execution 0 zs 30 /\ onedigit zs /\ (forall v, In v (visits [] zs) -> last (stack v) 0 <= 2) /\ map whole (visits_at 2 zs) = [2; 6; 4] /\
  match run_zones zs prof_init with
  | Ok s => match FlatOutput 2 s with Ok out => map (fun x => (fst x, ftotal (snd x))) out = [(1, 1); (2, 3)] /\ map (fun x => this (favg (snd x))) out = [12; 4]%Q | _ => False end
  | _ => False end.
Proof.
  cbv zeta. split; [repeat (constructor; try lia) | split].
  - intros v H. vm_compute in H. decompose [or] H; try contradiction; subst v; cbn [stack]; repeat constructor; lia.
  - split; [| split; [reflexivity | vm_compute; split; reflexivity]].
    intros v H. vm_compute in H. decompose [or] H; try contradiction; subst v; cbn; lia.
Qed.

(** the nodes of the heat map for the zones directly inside a stack: one for each zone visited there, with its mean time and the
    nodes of the zones inside, followed by one (id 0) for the time outside of them *)
Inductive heats (zs : list zone) : list Z -> list heat -> Prop :=
| heats_ : forall pre (sub : Z -> list heat), (forall i, visits_of (pre ++ [i]) zs <> [] -> heats zs (pre ++ [i]) (sub i)) ->
    heats zs pre (flat_map (fun i =>
      match visits_of (pre ++ [i]) zs with
      | [] => []
      | vs => [Heat i (mean_whole vs) (match sub i with [] => [] | l => l ++ [Heat 0 (mean_self vs) []] end)]
      end) [1; 2; 3; 4; 5; 6; 7; 8; 9; 10; 11; 12; 13; 14; 15]).

Fixpoint heat_spec (f : nat) (zs : list zone) (st : list Z) : list heat :=
  match f with
  | O => []
  | S f => flat_map (fun i => match visits_of (st ++ [i]) zs with
      | [] => []
      | vs => [Heat i (mean_whole vs) (match heat_spec f zs (st ++ [i]) with [] => [] | l => l ++ [Heat 0 (mean_self vs) []] end)]
      end) [1; 2; 3; 4; 5; 6; 7; 8; 9; 10; 11; 12; 13; 14; 15]
  end.
Definition heat_own (zs : list zone) (f : nat) (st : list Z) : list heat :=
  [Heat (last st 0) (mean_whole (visits_of st zs)) (match heat_spec f zs st with [] => [] | l => l ++ [Heat 0 (mean_self (visits_of st zs)) []] end)].
Lemma heat_out_ok : forall zs s paths, tree zs s paths -> forall f n st idl, small st -> nth_error paths n = Some (map Z.to_nat st) ->
  (length (arena s) < f + n)%nat -> (st = [] -> idl = 0) ->
  heat_out f (arena s) (Some n) (last st 0) idl =
  Ok (match st with [] => heat_spec f zs st | _ => heat_own zs f st end).
Proof.
  intros zs s paths T. induction f as [|f IH]; intros n st idl Sm P Lf Hidl.
  - assert (n < length (arena s))%nat. { rewrite <- (i_len _ _ _ _ (t_inv _ _ _ T)). apply nth_error_lt in P. exact P. } lia.
  - destruct (t_node _ _ _ T _ _ Sm P) as (nd & A & L16 & To & Vs & Av & Cv & Ks & Kn).
    cbn [heat_out]. rewrite (get_some _ _ _ A). cbn [bind].
    set (G := fun i => if visited zs (st ++ [i]) then heat_own zs f (st ++ [i]) else []).
    assert (forall idl', kloop (fun i c => heat_out f (arena s) c (Z.lor 0 (wrap 16 (Z.shiftl i (4 * 0)))) idl') 16 (Z.of_nat 0) (kids nd) = Ok (heat_spec (S f) zs st)) as EE.
    { intros idl'. rewrite (kloop_ok _ _ G); [| exact L16 |].
      - f_equal. cbn [seq map flat_map]. change (Z.of_nat 0) with 0.
        assert (G 0 = []) as G0.
        { unfold G. destruct (visited zs (st ++ [0])) eqn:V0; [| reflexivity]. exfalso. apply visited_spec in V0. pose proof (t_small _ _ _ T _ V0) as Q.
          apply Forall_app in Q. destruct Q as [_ Q]. inversion Q; lia. }
        rewrite G0. cbn [app].
        assert (forall i, G i = match visits_of (st ++ [i]) zs with [] => [] | vs => [Heat i (mean_whole vs) (match heat_spec f zs (st ++ [i]) with [] => [] | l => l ++ [Heat 0 (mean_self vs) []] end)] end) as Gi.
        { intros i. unfold G, visited, heat_own. rewrite last_last. destruct (visits_of (st ++ [i]) zs); reflexivity. }
        rewrite !Gi. reflexivity.
      - intros d c K. cbn [Nat.add]. assert (d < 16)%nat as Ld by (rewrite <- L16; apply nth_error_lt in K; exact K).
        unfold G. rewrite lor0 by lia. destruct c as [m|].
        + destruct (Ks _ _ K) as (Lt & V & Sd & Pm). rewrite V.
          replace (Z.of_nat d) with (last (st ++ [Z.of_nat d]) 0) at 1 by apply last_last.
          rewrite (IH m _ _ Sd Pm); [| lia | intros X; destruct st; discriminate].
          destruct (st ++ [Z.of_nat d]) eqn:X; [destruct st; discriminate |]. reflexivity.
        + rewrite (Kn _ K). destruct f; [| reflexivity]. exfalso.
          assert (n < length (arena s))%nat. { apply nth_error_lt in A. exact A. } lia. }
    rewrite To, Vs. destruct st as [|x st].
    + cbn [negb last]. rewrite (Hidl eq_refl). exact (EE (0 + 1)).
    + cbn [negb]. pose proof (EE 0) as E0.
      match goal with |- bind ?E _ = _ => change E with (kloop (fun i c => heat_out f (arena s) c (Z.lor 0 (wrap 16 (Z.shiftl i (4 * 0)))) 0) 16 (Z.of_nat 0) (kids nd)) end.
      rewrite E0. cbn [bind]. unfold heat_own. rewrite Av, Cv. destruct (heat_spec (S f) zs (x :: st)); reflexivity.
Qed.
Lemma heats_spec : forall zs s paths, tree zs s paths -> forall f n st, small st -> nth_error paths n = Some (map Z.to_nat st) ->
  (length (arena s) < f + n)%nat -> heats zs st (heat_spec f zs st).
Proof.
  intros zs s paths T. induction f as [|f IH]; intros n st Sm P Lf.
  - assert (n < length (arena s))%nat. { rewrite <- (i_len _ _ _ _ (t_inv _ _ _ T)). apply nth_error_lt in P. exact P. } lia.
  - cbn [heat_spec]. apply (heats_ zs st (fun i => heat_spec f zs (st ++ [i]))). intros i V.
    destruct (t_node _ _ _ T _ _ Sm P) as (nd & A & L16 & To & Vs & Av & Cv & Ks & Kn).
    pose proof (t_small _ _ _ T _ V) as Sd. pose proof Sd as Q. apply Forall_app in Q. destruct Q as [_ Q]. inversion Q as [|? ? Bi _]; subst.
    destruct (nth_error (kids nd) (Z.to_nat i)) as [[m|]|] eqn:K.
    + destruct (Ks _ _ K) as (Lt & _ & _ & Pm). rewrite Z2Nat.id in Pm by lia. apply (IH m); [exact Sd | exact Pm | lia].
    + pose proof (Kn _ K) as X. rewrite Z2Nat.id in X by lia. apply visited_spec in V. congruence.
    + apply nth_error_None in K. lia.
Qed.
(** the heat map of a program whose ids have one digit *)
Theorem C131_heat_partial : forall zs hi, execution 0 zs hi -> hi < 2 ^ 64 -> onedigit zs ->
  exists s l, run_zones zs prof_init = Ok s /\ HeatOutput s = Ok l /\ heats zs [] l.
Proof.
  intros zs hi E B D. destruct (tree_ok _ _ E B D) as (s & paths & R & T). exists s, (heat_spec (S (S (length (arena s)))) zs []). split; [exact R | split].
  - exact (heat_out_ok _ _ _ T (S (S (length (arena s)))) 0%nat [] 0 (Forall_nil _) (i_root _ _ _ _ (t_inv _ _ _ T)) ltac:(lia) ltac:(reflexivity)).
  - apply (heats_spec _ _ _ T _ 0%nat); [constructor | apply (i_root _ _ _ _ (t_inv _ _ _ T)) | lia].
Qed.
Print Assumptions C131_heat_partial.
(** the ids in a heat map *)
Fixpoint heat_ids (h : heat) : list Z := match h with Heat i _ l => i :: flat_map heat_ids l end.
(** an id of two digits inside another zone comes out as another id: zone 18 inside zone 17 as zone 3 *)
Theorem C131_heat_refuted :
  exists zs, execution 0 zs 9 /\ visits_of [17; 18] zs <> [] /\
    (forall v, In v (visits [] zs) -> Forall (fun i => i = 17 \/ i = 18) (stack v)) /\
    match run_zones zs prof_init with
    | Ok s => match HeatOutput s with Ok l => In 3 (flat_map heat_ids l) /\ ~ In 18 (flat_map heat_ids l) | _ => False end
    | _ => False end.
Proof.
  exists [Zone 17 0 [Zone 18 1 [] 4] 6]. split; [repeat (constructor; try lia) | split; [vm_compute; discriminate | split]].
  - intros v H. vm_compute in H. decompose [or] H; try contradiction; subst v; cbn [stack]; repeat constructor; lia.
  - vm_compute. split; [tauto |]. intros H. decompose [or] H; try contradiction; discriminate.
Qed.
Print Assumptions C131_heat_refuted.
Example C131_example : let zs := [Zone 1 0 [Zone 2 1 [] 3; Zone 2 3 [] 9] 12; Zone 2 20 [] 24] in
  execution 0 zs 30 /\ onedigit zs /\
  match run_zones zs prof_init with
  | Ok s => match HeatOutput s with Ok l => flat_map heat_ids l = [1; 2; 0; 2] | _ => False end /\
            match TreeOutput s with Ok l => map (fun t => (tlevel t, tid t, ttotal t)) l = [(0, 1, 1); (1, 2, 2); (0, 2, 1)] | _ => False end
  | _ => False end.
Proof.
  cbv zeta. split; [repeat (constructor; try lia) | split].
  - intros v H. vm_compute in H. decompose [or] H; try contradiction; subst v; cbn [stack]; repeat constructor; lia.
  - vm_compute. split; reflexivity.
Qed.
