(* C209: the nodes of a graph by index *)
From Coq Require Import List Arith Bool Lia Permutation.
From Coq Require Import ZifyBool ZifyNat.
From Verif Require Import Common Growth Dll LinkedArray LinkedArrayProps GraphNode.
Import ListNotations.

(** the graph has the nodes l, with their indices, in order: [shows] (LinkedArrayProps.v).  GetNode is right if it gives the node of every index there is one of, and null for
    every other index *)
Definition right {V} (s : larr V) (l : list (nat * V)) : Prop := forall i, (In i (map fst l) -> GetNode s i = Some i) /\ (~ In i (map fst l) -> GetNode s i = None).

Lemma adds {V} (fresh : lnode V) : forall vs s l k, inv s l -> reachable fresh s -> chain (nx (nodes s)) (seq k (length vs)) None -> freelist s = hd_or (seq k (length vs)) None ->
  exists s', add_all fresh s vs = Ok s' /\ reachable fresh s' /\ inv s' (l ++ combine (seq k (length vs)) vs).
Proof.
  induction vs as [|v vs IH]; intros s l k I R C F.
  - exists s. cbn [length seq combine]. rewrite app_nil_r. split; [reflexivity|]. split; [exact R|exact I].
  - cbn [length seq] in *. cbn [add_all combine].
    assert (IX : match end_ s with None => @nil (nat * V) = [] | Some i => last_or None (map fst l) = Some i end).
    { destruct I as (_ & _ & E & _). rewrite E. destruct (last_or None (map fst l)); reflexivity. }
    destruct (insert_after_strong fresh s l v l [] (end_ s) I ltac:(now rewrite app_nil_r) IX) as (s1 & c & A & NI & I1 & f & C1 & F1 & TK).
    assert (Q : k :: seq (S k) (length vs) = c :: f) by (apply TK; [exact C|exact F|discriminate]). injection Q as <- <-.
    assert (R1 : reachable fresh s1).
    { refine (r_step fresh s (OAdd v) s1 (RIndex (Some k)) l R (inv_shows _ _ I) Logic.I _ _); [discriminate|]. cbn [l_step]. unfold Add. rewrite A. reflexivity. }
    unfold AddNode, Add. rewrite A. cbn [bind]. destruct (IH s1 _ (S k) I1 R1 C1 F1) as (s2 & E2 & R2 & I2). exists s2. split; [exact E2|]. split; [exact R2|]. rewrite <- app_assoc in I2. exact I2.
Qed.
Lemma combine_fst {V} : forall (vs : list V) k, map fst (combine (seq k (length vs)) vs) = seq k (length vs).
Proof. induction vs as [|v vs IH]; intros k; [reflexivity|]. cbn [length seq combine map fst]. now rewrite IH. Qed.

(** The nodes a graph is built from get the indices 0, 1, 2, ... in order, and GetNode is right *)
Theorem C209_built {V} (fresh : lnode V) vs : exists s, build fresh vs = Ok s /\ reachable fresh s /\ shows s (combine (seq 0 (length vs)) vs) /\ right s (combine (seq 0 (length vs)) vs).
Proof.
  destruct (inv_new fresh (length vs)) as (s & E & I). assert (R : reachable fresh s) by (econstructor; exact E).
  assert (K : chain (nx (nodes s)) (seq 0 (length vs)) None /\ freelist s = hd_or (seq 0 (length vs)) None).
  { pose proof E as E0. unfold new_larr in E0. destruct (setup_ok (repeat fresh (length vs)) None 0 (length vs) []) as (nd & E1 & _ & C & _); [exact Logic.I|reflexivity|rewrite repeat_length; lia|intros x []|].
    rewrite E1 in E0. cbn [bind] in E0. rewrite app_nil_r in *. injection E0 as <-. split; [exact C|reflexivity]. }
  destruct K as (C & F). destruct (adds fresh vs s [] 0 I R C F) as (s' & E' & R' & I'). cbn [app] in I'. exists s'. unfold build. rewrite E. cbn [bind]. split; [exact E'|]. split; [exact R'|]. split; [exact (inv_shows _ _ I')|].
  destruct I' as (L & _). intros i. rewrite combine_fst, in_seq. unfold GetNode. rewrite L, combine_length, seq_length, Nat.min_id. split; intros H; destruct (Nat.ltb_spec i (length vs)); try reflexivity; lia.
Qed.
Print Assumptions C209_built.

(** In general GetNode is right exactly if the indices in use are those below the number of nodes *)
Theorem C209_right_partial {V} (fresh : lnode V) s l : reachable fresh s -> shows s l -> (right s l <-> forall i, In i (map fst l) -> i < length l).
Proof.
  intros R (L & ND & _). split.
  - intros H i I. destruct (H i) as (G & _). specialize (G I). unfold GetNode in G. rewrite L in G. destruct (Nat.ltb_spec i (length l)); [assumption|discriminate].
  - intros H i. unfold GetNode. rewrite L. split.
    + intros I. specialize (H i I). destruct (Nat.ltb_spec i (length l)); [reflexivity|lia].
    + intros N. destruct (Nat.ltb_spec i (length l)) as [Q|Q]; [|reflexivity]. exfalso. apply N.
      assert (INC : incl (seq 0 (length l)) (map fst l)).
      { apply NoDup_length_incl; [exact ND|rewrite map_length, seq_length; lia|]. intros x Hx. apply in_seq. specialize (H x Hx). lia. }
      apply INC. apply in_seq. lia.
Qed.
Print Assumptions C209_right_partial.
(** Its result is always within the memory of the graph *)
Theorem C209_bounds {V} (fresh : lnode V) s i p : reachable fresh s -> GetNode s i = Some p -> p = i /\ p < length (nodes s).
Proof.
  intros R G. unfold GetNode in G. destruct (Nat.ltb_spec i (len s)) as [H|H]; [|discriminate]. injection G as <-. split; [reflexivity|].
  destruct (reachable_inv fresh s R) as (l & L & _ & _ & f & C). destruct C as (_ & _ & _ & _ & P). apply Permutation_length in P. cbn [app] in P. rewrite app_length, map_length, seq_length in P. lia.
Qed.
Print Assumptions C209_bounds.
(** Refuted: with the first of two nodes removed, there is none for the index of the other, and one for the index of the node that was removed *)
Theorem C209_removed_refuted {V} (fresh : lnode V) a b : exists s s', build fresh [a; b] = Ok s /\ shows s [(0, a); (1, b)] /\ RemoveNode s 0 = Ok s' /\
  reachable fresh s' /\ shows s' [(1, b)] /\ NumNodes s' = 1 /\ GetNode s' 1 = None /\ GetNode s' 0 = Some 0.
Proof.
  destruct (C209_built fresh [a; b]) as (s & E & R & SH & _). cbn [length seq combine] in SH. exists s.
  destruct (reachable_inv fresh s R) as (l & I). pose proof (shows_fun _ _ _ (inv_shows _ _ I) SH) as ->.
  destruct (remove_ok fresh s [] 0 a [(1, b)] I) as (s' & RM & I'). cbn [app] in I'. exists s'. split; [exact E|]. split; [exact SH|]. unfold RemoveNode. rewrite RM. cbn [bind]. split; [reflexivity|].
  assert (R' : reachable fresh s') by (refine (r_step fresh s (ORemove 0) s' (RVal a) _ R SH _ _ _); [cbn; auto|discriminate|cbn [l_step]; rewrite RM; reflexivity]).
  split; [exact R'|]. split; [exact (inv_shows _ _ I')|]. destruct I' as (L & _). unfold NumNodes, GetNode. rewrite L. repeat split.
Qed.
Print Assumptions C209_removed_refuted.

(** three nodes: GetNode is right; with the last one removed still, with the first one not any more *)
Example C209_example : exists s, build ex_fresh [7; 8; 9] = Ok s /\ shows s [(0, 7); (1, 8); (2, 9)] /\ right s [(0, 7); (1, 8); (2, 9)] /\
  (exists s', RemoveNode s 2 = Ok s' /\ right s' [(0, 7); (1, 8)]) /\ (exists s', RemoveNode s 0 = Ok s' /\ GetNode s' 2 = None).
Proof.
  destruct (C209_built ex_fresh [7; 8; 9]) as (s & E & R & SH & RT). cbn [length seq combine] in *. exists s. split; [exact E|]. split; [exact SH|]. split; [exact RT|].
  vm_compute in E. injection E as <-. split; eexists; (split; [vm_compute; reflexivity|]); [|reflexivity].
  intros [|[|i]]; split; intros H; cbn in *; intuition (try reflexivity; try discriminate).
Qed.
