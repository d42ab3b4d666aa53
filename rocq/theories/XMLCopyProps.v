(* C196: copying, assigning and moving XML nodes. *)
From Coq Require Import List ZArith Arith Lia Bool.
From Verif Require Import Common XMLCopy.
Import ListNotations.

(* --- specification: trees --- *)
Inductive tree := Tree (name value : list Z) (attrs : list (list Z * list Z)) (nodes : list tree).
(** the node that holds a tree *)
Fixpoint node (t : tree) : xml := match t with Tree n v a l => Xml n v (map Some a) (map (fun t => Some (node t)) l) end.
Definition subtrees (t : tree) : list tree := match t with Tree _ _ _ l => l end.
Definition attributes (t : tree) : list (list Z * list Z) := match t with Tree _ _ a _ => a end.
Definition bare (t : tree) : Prop := attributes t = [] /\ subtrees t = [].

Section TreeInd.
  Context (P : tree -> Prop) (H : forall n v a l, Forall P l -> P (Tree n v a l)).
  Fixpoint tree_ind' (t : tree) : P t :=
    match t with Tree n v a l => H n v a l ((fix go l : Forall P l := match l with [] => Forall_nil _ | t :: l => Forall_cons t (tree_ind' t) (go l) end) l) end.
End TreeInd.

(* --- lemmas --- *)
Lemma node_attrs t : attrs_of (node t) = map Some (attributes t).
Proof. now destruct t. Qed.
Lemma node_nodes t : nodes_of (node t) = map (fun t => Some (node t)) (subtrees t).
Proof. now destruct t. Qed.
Lemma copy_bare t : bare t -> copy_ctor (node t) = node t.
Proof. destruct t as [n v a l]. intros [A B]. cbn in A, B. now subst. Qed.
Lemma add_copies_bare l : Forall bare l -> forall n v a old,
  add_copies (Xml n v a old) (map (fun t => Some (node t)) l) = Ok (Xml n v a (old ++ map (fun t => Some (node t)) l)).
Proof.
  induction 1 as [|t l B _ IH]; intros n v a old; cbn [add_copies map]; [now rewrite app_nil_r|].
  unfold add_copy. cbn [name_of value_of attrs_of nodes_of]. rewrite IH, copy_bare by exact B. now rewrite <- app_assoc.
Qed.
Lemma add_copies_ok l : forall x, exists y, add_copies x (map (fun t => Some (node t)) l) = Ok y /\ exists m, length m = length l /\ nodes_of y = nodes_of x ++ m /\ attrs_of y = attrs_of x.
Proof.
  induction l as [|t l IH]; intros x; cbn [add_copies map].
  - exists x. split; [reflexivity|]. exists []. now rewrite app_nil_r.
  - destruct (IH (add_copy x (node t))) as [y [E [m [L [N A]]]]]. exists y. split; [exact E|]. exists (Some (copy_ctor (node t)) :: m). cbn [length]. split; [now rewrite L|].
    split; [|exact A]. rewrite N. cbn [add_copy nodes_of]. now rewrite <- app_assoc.
Qed.
Definition go := fix go (l : list (option xml)) := match l with [] => Ok tt | None :: _ => UB | Some c :: l => do _ <- destroy c; go l end.
Lemma destroy_eq n v a l : destroy (Xml n v a l) = if forallb (fun v => match v with Some _ => true | None => false end) a then go l else UB.
Proof. reflexivity. Qed.

(** Every tree can be destroyed *)
Lemma destroy_node t : destroy (node t) = Ok tt.
Proof.
  induction t as [n v a l IH] using tree_ind'. cbn [node]. rewrite destroy_eq.
  assert (A : forallb (fun v => match v with Some _ => true | None => false end) (map (@Some (list Z * list Z)) a) = true) by (induction a; [reflexivity|assumption]).
  rewrite A. clear A. induction IH as [|t l E _ IH]; [reflexivity|]. cbn [map go]. rewrite E. exact IH.
Qed.
Lemma go_none n : 0 < n -> go (repeat None n) = UB.
Proof. destruct n; [lia|reflexivity]. Qed.

(** A copy of a node without attributes and children is the node, and an assignment of a node without attributes, whose children are such
    nodes, to a node without children gives that node.  What is missing: everything else *)
Theorem C196_copy_partial :
  (forall t, bare t -> copy_ctor (node t) = node t) /\
  (forall x t, subtrees x = [] -> attributes t = [] -> Forall bare (subtrees t) -> copy_assign (node x) (node t) = Ok (node t)).
Proof.
  split; [exact copy_bare|]. intros x [n v a l] X A B. cbn [attributes subtrees] in A, B. subst a. unfold copy_assign. rewrite node_nodes, X. cbn [node name_of value_of attrs_of nodes_of map].
  rewrite add_copies_bare by exact B. reflexivity.
Qed.
Print Assumptions C196_copy_partial.
(** Refuted: a copy of any other node, by the constructor or by AddNode, holds attributes and children that do not exist: destroying it is
    undefined behaviour.  So it is after an assignment of a node with attributes, or with such a child *)
Theorem C196_copy_refuted :
  (forall t, ~ bare t -> destroy (copy_ctor (node t)) = UB) /\
  (forall x t, attributes t <> [] -> exists y, copy_assign (node x) (node t) = Ok y /\ destroy y = UB) /\
  (forall x c, ~ bare c -> exists y, add_copy (node x) (node c) = y /\ destroy y = UB) /\
  (forall x n v l c l', ~ bare c -> Forall bare l -> exists y, copy_assign (node x) (node (Tree n v [] (l ++ c :: l'))) = Ok y /\ destroy y = UB).
Proof.
  assert (A : forall t, ~ bare t -> destroy (copy_ctor (node t)) = UB).
  { intros [n v a l] B. unfold copy_ctor. cbn [node name_of value_of attrs_of nodes_of]. rewrite destroy_eq. unfold copy_array. rewrite !map_length.
    destruct a as [|p a]; [|reflexivity]. cbn [length repeat forallb]. apply go_none. destruct l; [exfalso; apply B; split; reflexivity|cbn [length]; lia]. }
  assert (G : forall l c m, Forall (fun t => destroy t = Ok tt) l -> destroy c = UB -> go (map Some l ++ Some c :: m) = UB).
  { intros l c m F E. induction F as [|t l Et _ IH]; cbn [map app go]; [now rewrite E|]. rewrite Et. exact IH. }
  split; [exact A|]. split; [|split].
  - intros x [n v a l] N. cbn [attributes] in N. destruct a as [|p a]; [congruence|]. unfold copy_assign.
    rewrite (node_nodes (Tree n v (p :: a) l)). destruct (add_copies_ok (subtrees (Tree n v (p :: a) l)) (Xml (name_of (node (Tree n v (p :: a) l))) (value_of (node (Tree n v (p :: a) l))) (copy_array (attrs_of (node (Tree n v (p :: a) l)))) (nodes_of (node x)))) as [y [E [m [L [M At]]]]].
    exists y. split; [exact E|]. destruct y as [n' v' a' l']. cbn [attrs_of] in At. rewrite destroy_eq, At. reflexivity.
  - intros x c B. eexists. split; [reflexivity|]. destruct x as [n v a l]. unfold add_copy. cbn [node name_of value_of attrs_of nodes_of]. rewrite destroy_eq.
    assert (F : forallb (fun v => match v with Some _ => true | None => false end) (map (@Some (list Z * list Z)) a) = true) by (induction a; [reflexivity|assumption]).
    rewrite F. rewrite <- (map_map node Some). apply G; [|now apply A]. apply Forall_forall. intros y Y. apply in_map_iff in Y. destruct Y as [u [<- _]]. apply destroy_node.
  - intros x n v l c l' B F. unfold copy_assign. rewrite (node_nodes (Tree n v [] _)). cbn [subtrees]. rewrite map_app. cbn [map node name_of value_of attrs_of].
    assert (S1 : forall l0, Forall bare l0 -> forall x0 r, add_copies x0 (map (fun t => Some (node t)) l0 ++ r) =
      add_copies (Xml (name_of x0) (value_of x0) (attrs_of x0) (nodes_of x0 ++ map (fun t => Some (node t)) l0)) r).
    { induction 1 as [|t l0 Bt _ IH]; intros [n0 v0 a0 o0] r; cbn [map app add_copies name_of value_of attrs_of nodes_of]; [now rewrite app_nil_r|].
      rewrite IH. unfold add_copy. cbn [name_of value_of attrs_of nodes_of]. rewrite copy_bare by exact Bt. now rewrite <- app_assoc. }
    rewrite S1 by exact F. cbn [add_copies name_of value_of attrs_of nodes_of].
    match goal with |- context [add_copies ?x0 _] => destruct (add_copies_ok l' x0) as [y [E [m [L [M At]]]]] end.
    exists y. split; [exact E|]. destruct y as [n' v' a' o']. cbn [attrs_of nodes_of add_copy copy_array length repeat map] in At, M. rewrite destroy_eq, At, M. cbn [forallb].
    rewrite node_nodes, <- (map_map node Some), <- (map_map node Some), <- map_app, <- app_assoc. cbn [app]. apply G; [|now apply A].
    apply Forall_app. split; apply Forall_forall; intros y Y; apply in_map_iff in Y; destruct Y as [u [<- _]]; apply destroy_node.
Qed.
Print Assumptions C196_copy_refuted.
(** Refuted: an assignment keeps the children that were there before; a node with children assigned to itself adds copies without end *)
Theorem C196_assign_refuted :
  (forall x t, exists y m, copy_assign (node x) (node t) = Ok y /\ nodes_of y = nodes_of (node x) ++ m /\ length m = length (subtrees t)) /\
  (forall t, (forall fuel, self_assign fuel (node t) = OutOfFuel) <-> subtrees t <> []).
Proof.
  split.
  - intros x t. unfold copy_assign. rewrite (node_nodes t). match goal with |- context [add_copies ?x0 _] => destruct (add_copies_ok (subtrees t) x0) as [y [E [m [L [M At]]]]] end.
    exists y, m. split; [exact E|]. split; [exact M|exact L].
  - assert (G : forall fuel i x, i < length (nodes_of x) -> Forall (fun c => c <> None) (nodes_of x) -> self_loop fuel i x = OutOfFuel).
    { induction fuel as [|fuel IH]; intros i x L F; cbn [self_loop]; rewrite (proj2 (Nat.leb_gt _ _) L); [reflexivity|].
      destruct (nth_error (nodes_of x) i) as [[c|]|] eqn:E.
      - apply IH; cbn [add_copy nodes_of]; [rewrite app_length; cbn [length]; lia|]. apply Forall_app. split; [exact F|]. constructor; [discriminate|constructor].
      - apply nth_error_In in E. rewrite Forall_forall in F. now specialize (F _ E).
      - apply nth_error_None in E. lia. }
    intros t. split.
    + intros H E. specialize (H 0). unfold self_assign in H. cbn [self_loop nodes_of] in H. rewrite node_nodes, E in H. discriminate.
    + intros H fuel. unfold self_assign. apply G; cbn [nodes_of]; rewrite node_nodes.
      * rewrite map_length. destruct (subtrees t); [congruence|cbn [length]; lia].
      * apply Forall_forall. intros c C. apply in_map_iff in C. destruct C as [u [<- _]]. discriminate.
Qed.
Print Assumptions C196_assign_refuted.
(** Moves give the target the tree, destroy what it had, and leave the source without attributes and children; any tree can be destroyed *)
Theorem C196_move :
  (forall t, move_ctor (node t) = (node t, ([], []))) /\ (forall x t, move_assign (node x) (node t) = Ok (node t, ([], []))) /\ (forall t, destroy (node t) = Ok tt).
Proof. split; [reflexivity|]. split; [|exact destroy_node]. intros x t. unfold move_assign. now rewrite destroy_node. Qed.
Print Assumptions C196_move.

Definition leaf (k : Z) : tree := Tree [k] [] [] [].
Example C196_example :
  copy_assign (node (leaf 1)) (node (Tree [2%Z] [] [] [leaf 3; leaf 4])) = Ok (node (Tree [2%Z] [] [] [leaf 3; leaf 4])) /\
  copy_assign (node (Tree [1%Z] [] [] [leaf 5])) (node (Tree [2%Z] [] [] [leaf 3])) = Ok (node (Tree [2%Z] [] [] [leaf 5; leaf 3])) /\
  destroy (copy_ctor (node (Tree [1%Z] [] [([1%Z], [2%Z])] []))) = UB.
Proof. repeat split. Qed.
