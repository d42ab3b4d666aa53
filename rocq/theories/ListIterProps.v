(* C205: the iterators of LinkedList *)
From Coq Require Import List Arith Bool Lia.
From Verif Require Import Common Dll LLBase LLBaseProps LinkedList LinkedListProps ListIter.
Import ListNotations.

(** a list whose nodes and items from front to back are l: [holds] (LinkedListProps.v) *)
Lemma at_node {T} ul (s : ll T) p a v q : holds ul s (p ++ (a, v) :: q) ->
  deref s (Some a) = Ok v /\ inc s (Some a) = Ok (nth_error (map fst q) 0) /\ dec s (Some a) = Ok (nth_error (map fst (rev p)) 0).
Proof.
  intros ((z & D & _) & _ & _ & I & _). split; [unfold deref; rewrite (I a v); [reflexivity|apply in_app_iff; right; now left]|].
  rewrite list_at_dll in D. destruct D as (_ & _ & D). rewrite map_app in D. cbn [map fst] in D. apply dll_app in D as [_ [D _]].
  unfold inc, dec, rd_next, rd_prev, rd. rewrite D. cbn [bind fst snd]. split; [destruct q; reflexivity|].
  destruct p as [|y p _] using rev_ind; auto. rewrite map_app, rev_app_distr. cbn [map]. rewrite last_or_snoc. reflexivity.
Qed.

(** From any node the iterator visits that node and all after it, in order, and ends; from the last one with -- all of them backwards *)
Theorem C205_walk {T} ul (s : ll T) l fuel : holds ul s l -> length l < fuel ->
  walk fuel false s (begin s) = Ok (map snd l) /\ (ul = true -> walk fuel true s (Back s) = Ok (rev (map snd l))) /\
  forall p a v q, l = p ++ (a, v) :: q -> walk fuel false s (Some a) = Ok (v :: map snd q) /\ walk fuel true s (Some a) = Ok (v :: rev (map snd p)).
Proof.
  intros H F.
  assert (FW : forall q p fuel, l = p ++ q -> length q < fuel -> walk fuel false s (nth_error (map fst q) 0) = Ok (map snd q)).
  { induction q as [|[a v] q IH]; intros p [|fu] E L; cbn [length] in L; try lia; [reflexivity|]. cbn [map nth_error walk at_end isnull fst snd].
    rewrite E in H. destruct (at_node _ _ _ _ _ _ H) as (D & N & _). rewrite D. cbn [bind]. rewrite N. cbn [bind]. rewrite (IH (p ++ [(a, v)])); [reflexivity|now rewrite <- app_assoc|lia]. }
  assert (BW : forall p q fuel, l = p ++ q -> length p < fuel -> walk fuel true s (nth_error (map fst (rev p)) 0) = Ok (rev (map snd p))).
  { induction p as [|[a v] p IH] using rev_ind; intros q [|fu] E L; rewrite ?app_length in L; cbn [length] in L; try lia; [reflexivity|]. rewrite rev_app_distr, !map_app, rev_app_distr. cbn [rev app map nth_error walk at_end isnull fst snd].
    rewrite E, <- app_assoc in H. cbn [app] in H. destruct (at_node _ _ _ _ _ _ H) as (D & _ & N). rewrite D. cbn [bind]. rewrite N. cbn [bind]. rewrite (IH ((a, v) :: q)); [reflexivity|now rewrite E, <- app_assoc|lia]. }
  pose proof H as ((z & D & Z) & _). rewrite list_at_dll in D. destruct D as (R & L & _).
  split; [|split].
  - unfold begin. assert (RE : root s = nth_error (map fst l) 0) by (rewrite R; destruct l; reflexivity). rewrite RE. now apply (FW l []).
  - intros U. unfold Back. rewrite (Z U), L. replace (last_or None (map fst l)) with (nth_error (map fst (rev l)) 0).
    + apply (BW l []); [now rewrite app_nil_r|exact F].
    + clear. destruct l as [|y l _] using rev_ind; [reflexivity|]. rewrite map_app, rev_app_distr. cbn [map]. now rewrite last_or_snoc.
  - intros p a v q E. assert (LL : length l = length p + S (length q)) by (rewrite E, app_length; reflexivity). split; [apply (FW ((a, v) :: q) p fuel E); cbn [length]; lia|].
    pose proof (BW (p ++ [(a, v)]) q fuel) as B. rewrite rev_app_distr, !map_app, rev_app_distr in B. cbn [rev app map nth_error fst snd] in B. apply B; [now rewrite E, <- app_assoc|rewrite app_length; cbn [length]; lia].
Qed.
Print Assumptions C205_walk.

(** A loop that removes the items of which a test holds by Remove(iter++) looks at every item once, in order, and leaves exactly the others: their
    nodes, items, order and number *)
Theorem C205_prune {T} ul (P : T -> bool) (s : ll T) l fuel : holds ul s l -> length l < fuel ->
  exists s', prune fuel ul P s (begin s) = Ok (s', map snd l) /\ holds ul s' (filter (fun y => negb (P (snd y))) l).
Proof.
  intros H F. assert (K : forall q p s fuel, holds ul s (p ++ q) -> length q < fuel ->
    exists s', prune fuel ul P s (nth_error (map fst q) 0) = Ok (s', map snd q) /\ holds ul s' (p ++ filter (fun y => negb (P (snd y))) q)).
  { clear. induction q as [|[a v] q IH]; intros p s [|fu] H L; cbn [length] in L; try lia; [exists s; split; [reflexivity|exact H]|].
    cbn [map nth_error prune at_end isnull fst snd filter]. destruct (at_node _ _ _ _ _ _ H) as (D & N & _). rewrite D. cbn [bind]. rewrite N. cbn [bind].
    destruct (P v) eqn:E; cbn [negb].
    - unfold Remove_iter. destruct (Remove_ok ul s p a v q H) as (s1 & R & H1 & _). rewrite R. cbn [bind]. destruct (IH p s1 fu H1 ltac:(lia)) as (s2 & R2 & H2). rewrite R2. cbn [bind]. eauto.
    - cbn [bind]. change (p ++ (a, v) :: q) with (p ++ [(a, v)] ++ q) in H. rewrite app_assoc in H. destruct (IH _ s fu H ltac:(lia)) as (s2 & R2 & H2). rewrite R2. cbn [bind]. rewrite <- app_assoc in H2. eauto. }
  unfold begin. pose proof H as ((z & D & _) & _). rewrite list_at_dll in D. destruct D as (R & _). assert (RE : root s = nth_error (map fst l) 0) by (rewrite R; destruct l; reflexivity). rewrite RE. exact (K l [] s fuel H F).
Qed.
Print Assumptions C205_prune.

(** Refuted: the iterator cannot go back from the end, as that of a standard container can *)
Theorem C205_end_refuted {T} (s : ll T) : dec s iend = UB.
Proof. reflexivity. Qed.
Print Assumptions C205_end_refuted.
(** Refuted: Remove takes the iterator by reference but leaves it at the deleted node: it can neither be read nor moved after *)
Theorem C205_removed_refuted {T} ul (s : ll T) p a v q : holds ul s (p ++ (a, v) :: q) ->
  exists s', Remove_iter ul s (Some a) = Ok s' /\ holds ul s' (p ++ q) /\ inc s' (Some a) = UB /\ dec s' (Some a) = UB.
Proof.
  intros H. unfold Remove_iter. destruct (Remove_ok ul s p a v q H) as (s1 & R & H1 & _). exists s1. split; [exact R|]. split; [exact H1|].
  assert (NI : ~ In a (map fst (p ++ q))).
  { destruct H as ((z & D & _) & _). pose proof (list_at_nodup _ _ _ _ D) as ND. rewrite !map_app in *. cbn [map fst] in ND. now apply NoDup_remove_2 in ND. }
  assert (E : hp s1 a = None). { destruct H1 as (_ & _ & A & _). destruct (hp s1 a) eqn:E; [|reflexivity]. exfalso. apply NI. apply A. congruence. }
  unfold inc, dec, rd_next, rd_prev, rd. rewrite E. auto.
Qed.
Print Assumptions C205_removed_refuted.

(** a list of five items; the even ones are removed *)
Example C205_example : exists s : ll nat, holds true s [(0, 4); (1, 5); (2, 6); (3, 8); (4, 7)] /\ walk 6 false s (begin s) = Ok [4; 5; 6; 8; 7] /\ walk 6 true s (Back s) = Ok [7; 8; 6; 5; 4] /\
  exists s', prune 6 true Nat.even s (begin s) = Ok (s', [4; 5; 6; 8; 7]) /\ walk 6 false s' (begin s') = Ok [5; 7] /\ len s' = 2.
Proof.
  destruct (run_ok (T := nat) true 9 [OAdd 4; OAdd 5; OAdd 6; OAdd 8; OAdd 7] new_list [] [(0, 4); (1, 5); (2, 6); (3, 8); (4, 7)] 5 (holds_new _) eq_refl ltac:(cbn; lia)) as (s & _ & H). exists s. split; [exact H|].
  destruct (C205_walk true s _ 6 H ltac:(cbn; lia)) as (W & B & _). split; [exact W|]. split; [exact (B eq_refl)|].
  destruct (C205_prune true Nat.even s _ 6 H ltac:(cbn; lia)) as (s' & E & H'). exists s'. split; [exact E|]. split; [exact (proj1 (C205_walk true s' _ 6 H' ltac:(cbn; lia)))|]. destruct H' as (_ & L & _). exact L.
Qed.
