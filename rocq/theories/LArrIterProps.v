(* C207: the iterators and the move assignment of LinkedArray *)
From Coq Require Import List Arith Bool Lia.
From Verif Require Import Common Growth Dll LinkedArray LinkedArrayProps LArrIter.
Import ListNotations.

(** an array whose indices and items from front to back are l: [shows] (LinkedArrayProps.v) *)
Lemma at_index {T} (s : larr T) p a v q : shows s (p ++ (a, v) :: q) ->
  deref s (Some a) = Ok v /\ inc s (Some a) = Ok (nth_error (map fst q) 0) /\ dec s (Some a) = Ok (nth_error (map fst (rev p)) 0).
Proof.
  intros (_ & _ & _ & _ & H). assert (N : nth_error (p ++ (a, v) :: q) (length p) = Some (a, v)) by (rewrite nth_error_app2, Nat.sub_diag; [reflexivity|lia]).
  destruct (H _ _ _ N) as (G & NX & PV). cbn [deref inc dec]. split; [exact G|]. rewrite NX, PV. clear. split.
  - f_equal. rewrite map_app. rewrite nth_error_app2 by (rewrite map_length; lia). rewrite map_length. replace (S (length p) - length p) with 1 by lia. reflexivity.
  - f_equal. destruct p as [|y p _] using rev_ind; [reflexivity|]. rewrite app_length, rev_app_distr. cbn [length]. replace (length p + 1) with (S (length p)) by lia.
    rewrite <- app_assoc, map_app. rewrite nth_error_app2 by (rewrite map_length; lia). rewrite map_length, Nat.sub_diag. reflexivity.
Qed.

(** From any index the iterator visits that item and all after it, in order, and ends; with -- it and all before it, backwards *)
Theorem C207_walk {T} (s : larr T) l fuel : shows s l -> length l < fuel ->
  walk fuel false s (begin s) = Ok (map snd l) /\ walk fuel true s (Back s) = Ok (rev (map snd l)) /\
  forall p a v q, l = p ++ (a, v) :: q -> walk fuel false s (Some a) = Ok (v :: map snd q) /\ walk fuel true s (Some a) = Ok (v :: rev (map snd p)).
Proof.
  intros H F.
  assert (FW : forall q p fuel, l = p ++ q -> length q < fuel -> walk fuel false s (nth_error (map fst q) 0) = Ok (map snd q)).
  { induction q as [|[a v] q IH]; intros p [|fu] E L; cbn [length] in L; try lia; [reflexivity|]. cbn [map nth_error walk at_end fst snd].
    rewrite E in H. destruct (at_index _ _ _ _ _ H) as (D & N & _). rewrite D. cbn [bind]. rewrite N. cbn [bind]. rewrite (IH (p ++ [(a, v)])); [reflexivity|now rewrite <- app_assoc|lia]. }
  assert (BW : forall p q fuel, l = p ++ q -> length p < fuel -> walk fuel true s (nth_error (map fst (rev p)) 0) = Ok (rev (map snd p))).
  { induction p as [|[a v] p IH] using rev_ind; intros q [|fu] E L; rewrite ?app_length in L; cbn [length] in L; try lia; [reflexivity|]. rewrite rev_app_distr, !map_app, rev_app_distr. cbn [rev app map nth_error walk at_end fst snd].
    rewrite E, <- app_assoc in H. cbn [app] in H. destruct (at_index _ _ _ _ _ H) as (D & _ & N). rewrite D. cbn [bind]. rewrite N. cbn [bind]. rewrite (IH ((a, v) :: q)); [reflexivity|now rewrite E, <- app_assoc|lia]. }
  pose proof H as (_ & _ & R & L & _).
  split; [|split].
  - unfold begin. change (start s) with (Front s). rewrite R. now apply (FW l []).
  - rewrite L. replace (match length (map fst l) with 0 => None | S j => nth_error (map fst l) j end) with (nth_error (map fst (rev l)) 0).
    + apply (BW l []); [now rewrite app_nil_r|exact F].
    + clear. destruct l as [|y l _] using rev_ind; [reflexivity|]. rewrite map_app, rev_app_distr, app_length. cbn [map length]. replace (length (map fst l) + 1) with (S (length (map fst l))) by lia. rewrite nth_error_app2, Nat.sub_diag by lia. reflexivity.
  - intros p a v q E. assert (LL : length l = length p + S (length q)) by (rewrite E, app_length; reflexivity). split; [apply (FW ((a, v) :: q) p fuel E); cbn [length]; lia|].
    pose proof (BW (p ++ [(a, v)]) q fuel) as B. rewrite rev_app_distr, !map_app, rev_app_distr in B. cbn [rev app map nth_error fst snd] in B. apply B; [now rewrite E, <- app_assoc|rewrite app_length; cbn [length]; lia].
Qed.
Print Assumptions C207_walk.

(** A loop that removes the items of which a test holds by (i++).Remove() looks at every item once, in order, and leaves exactly the others: their
    indices, items, order and number; the array stays usable *)
Theorem C207_prune {T} fresh (P : T -> bool) (s : larr T) l fuel : reachable fresh s -> shows s l -> length l < fuel ->
  exists s', prune fuel P s (begin s) = Ok (s', map snd l) /\ reachable fresh s' /\ shows s' (filter (fun y => negb (P (snd y))) l).
Proof.
  intros RE SH F.
  assert (K : forall q p s fuel, reachable fresh s -> shows s (p ++ q) -> length q < fuel ->
    exists s', prune fuel P s (nth_error (map fst q) 0) = Ok (s', map snd q) /\ reachable fresh s' /\ shows s' (p ++ filter (fun y => negb (P (snd y))) q)).
  { clear. induction q as [|[a v] q IH]; intros p s [|fu] RE H L; cbn [length] in L; try lia; [exists s; split; [reflexivity|split; [exact RE|exact H]]|].
    cbn [map nth_error prune at_end fst snd filter]. destruct (at_index _ _ _ _ _ H) as (D & N & _). rewrite D. cbn [bind]. rewrite N. cbn [bind].
    destruct (P v) eqn:E; cbn [negb].
    - destruct (reachable_inv fresh s RE) as (l0 & I0). pose proof (shows_fun _ _ _ (inv_shows _ _ I0) H) as Q. subst l0.
      destruct (remove_ok fresh s p a v q I0) as (s1 & R & I1). unfold iter_Remove. rewrite R. cbn [bind].
      assert (RE1 : reachable fresh s1).
      { eapply (r_step fresh s (ORemove a) s1 (RVal v) _ RE H); [cbn [valid]; rewrite map_app; apply in_app_iff; right; now left|discriminate|]. cbn [l_step]. rewrite R. reflexivity. }
      destruct (IH p s1 fu RE1 (inv_shows _ _ I1) ltac:(lia)) as (s2 & R2 & RE2 & H2). rewrite R2. cbn [bind]. eauto.
    - cbn [bind]. change (p ++ (a, v) :: q) with (p ++ [(a, v)] ++ q) in H. rewrite app_assoc in H. destruct (IH _ s fu RE H ltac:(lia)) as (s2 & R2 & RE2 & H2). rewrite R2. cbn [bind]. rewrite <- app_assoc in H2. eauto. }
  unfold begin. change (start s) with (Front s). pose proof SH as (_ & _ & R & _). rewrite R. exact (K l [] s fuel RE SH F).
Qed.
Print Assumptions C207_prune.

(** Refuted: the iterator cannot go back from the end, as that of a standard container can *)
Theorem C207_end_refuted {T} (s : larr T) : dec s iend = UB.
Proof. reflexivity. Qed.
Print Assumptions C207_end_refuted.

(** The move assignment gives the array what the other one held, under the same indices *)
Theorem C207_move {T} fresh (s mov : larr T) l : reachable fresh mov -> shows mov l -> reachable fresh (fst (MoveAssign s mov)) /\ shows (fst (MoveAssign s mov)) l.
Proof. intros R H. destruct mov. exact (conj R H). Qed.
Print Assumptions C207_move.
(** What is left should be an empty array, or at least one that can be added to.  Refuted: it has its old length, none of its items, and adding to it is undefined *)
Theorem C207_moved_refuted : ~ forall T fresh (s mov : larr T) v, reachable fresh s -> reachable fresh mov ->
  len (snd (MoveAssign s mov)) = 0 \/ exists s' i, Add fresh (snd (MoveAssign s mov)) v = Ok (s', i).
Proof.
  intros H. destruct (C29_LinkedArray_new ex_fresh 2) as (s & E & R & SH). vm_compute in E. injection E as <-.
  pose proof (r_step ex_fresh _ (OAdd 10) _ _ [] R SH I ltac:(discriminate) eq_refl) as R2. vm_compute in R2.
  destruct (H nat ex_fresh _ _ 5 R R2) as [L|(s' & i & A)]; [discriminate L|discriminate A].
Qed.
Print Assumptions C207_moved_refuted.
(** any index of it is outside; but after Clear it is an empty array *)
Theorem C207_moved_partial {T} fresh (s mov : larr T) : (forall i, deref (snd (MoveAssign s mov)) i = UB) /\
  exists s', Clear (snd (MoveAssign s mov)) = Ok s' /\ reachable fresh s' /\ shows s' [].
Proof.
  split; [intros [[|i]|]; reflexivity|]. destruct (C29_LinkedArray_new fresh 0) as (s0 & E & R & SH). vm_compute in E. injection E as <-. eexists. split; [vm_compute; reflexivity|]. split; assumption.
Qed.
Print Assumptions C207_moved_partial.

(** three items, the second of them inserted after the first; the even ones are removed *)
Example C207_example : exists s : larr nat, reachable ex_fresh s /\ shows s [(0, 4); (2, 8); (1, 5)] /\ walk 4 false s (begin s) = Ok [4; 8; 5] /\ walk 4 true s (Back s) = Ok [5; 8; 4] /\
  exists s', prune 4 Nat.even s (begin s) = Ok (s', [4; 8; 5]) /\ walk 4 false s' (begin s') = Ok [5] /\ len s' = 1.
Proof.
  assert (ST : forall s l o s' r, reachable ex_fresh s -> shows s l -> valid o l -> (forall x, o <> OAssign x) -> l_step ex_fresh s o = Ok (s', r) -> reachable ex_fresh s' /\ exists l', shows s' l' /\ effect o l l' r).
  { intros s l o s' r R H V NA E. assert (A : forall x, o = OAssign x -> reachable ex_fresh x) by (intros x Q; destruct (NA x Q)). split; [exact (r_step ex_fresh s o s' r l R H V A E)|].
    destruct (proj2 (C29_LinkedArray_list ex_fresh s R) l o H V A) as (s2 & r2 & l2 & E2 & H2 & F2). rewrite E in E2. injection E2 as <- <-. eauto. }
  destruct (C29_LinkedArray_new ex_fresh 4) as (s & E & R & SH). vm_compute in E. injection E as <-.
  match type of R with reachable _ ?s => destruct (l_step ex_fresh s (OAdd 4)) as [[s1 r1]| |] eqn:E1 end; [|discriminate E1|discriminate E1].
  destruct (ST _ _ (OAdd 4) _ _ R SH I ltac:(discriminate) E1) as (R1 & l1 & H1 & F1). clear R SH. vm_compute in E1. injection E1 as <- <-. destruct F1 as (h & Q & _ & ->). injection Q as <-. cbn [app] in H1.
  match type of R1 with reachable _ ?s => destruct (l_step ex_fresh s (OAdd 5)) as [[s2 r2]| |] eqn:E2 end; [|discriminate E2|discriminate E2].
  destruct (ST _ _ (OAdd 5) _ _ R1 H1 I ltac:(discriminate) E2) as (R2 & l2 & H2 & F2). clear R1 H1. vm_compute in E2. injection E2 as <- <-. destruct F2 as (h & Q & _ & ->). injection Q as <-. cbn [app] in H2.
  match type of R2 with reachable _ ?s => destruct (l_step ex_fresh s (OInsertAfter 8 (Some 0))) as [[s3 r3]| |] eqn:E3 end; [|discriminate E3|discriminate E3].
  destruct (ST _ _ (OInsertAfter 8 (Some 0)) _ _ R2 H2 ltac:(cbn; auto) ltac:(discriminate) E3) as (R3 & l3 & H3 & F3). clear R2 H2. vm_compute in E3. injection E3 as <- <-.
  destruct F3 as (h & a & x & b & Q & _ & L & ->). injection Q as <-.
  destruct a as [|y [|y2 [|y3 a]]]; [|discriminate L|discriminate L|discriminate L]. injection L as <- <-. cbn [app] in H3.
  eexists. split; [exact R3|]. split; [exact H3|]. destruct (C207_walk _ _ 4 H3 ltac:(cbn; lia)) as (W & B & _). split; [exact W|]. split; [exact B|].
  destruct (C207_prune ex_fresh Nat.even _ _ 4 R3 H3 ltac:(cbn; lia)) as (s' & E & _ & H'). exists s'. split; [exact E|]. split; [exact (proj1 (C207_walk s' _ 4 H' ltac:(cbn; lia)))|]. destruct H' as (L & _). exact L.
Qed.
