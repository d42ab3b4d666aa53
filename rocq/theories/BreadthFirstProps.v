(** * C71: BreadthFirstTree visits the nodes level by level *)
From Coq Require Import Arith List Bool Lia.
From Verif Require Import Common BreadthFirst.
Import ListNotations.

(* ------------------------------------------------------------------ *)
(** * Specification *)

Fixpoint size {A} (t : tree A) : nat :=
  match t with Nil => 0 | Node l _ r => S (size l + size r) end.

Fixpoint height {A} (t : tree A) : nat :=
  match t with Nil => 0 | Node l _ r => S (Nat.max (height l) (height r)) end.

(** The nodes at depth [k], from left to right. *)
Fixpoint level {A} (k : nat) (t : tree A) : list A :=
  match t, k with
  | Nil, _ => []
  | Node _ x _, O => [x]
  | Node l _ r, S k => level k l ++ level k r
  end.

(** Level after level. *)
Definition level_order {A} (t : tree A) : list A :=
  flat_map (fun k => level k t) (seq 0 (height t)).

(** The calls made when visiting [l] in order and stopping when the callback
    returns true. *)
Fixpoint visits {A} (quit : list A -> bool) (done l : list A) : list A :=
  match l with
  | [] => done
  | x :: l => if quit (done ++ [x]) then done ++ [x] else visits quit (done ++ [x]) l
  end.

(** Some node has exactly one child. *)
Fixpoint has_single {A} (t : tree A) : Prop :=
  match t with
  | Nil => False
  | Node Nil _ Nil => False
  | Node Nil _ (Node _ _ _) => True
  | Node (Node _ _ _) _ Nil => True
  | Node l _ r => has_single l \/ has_single r
  end.

(* ------------------------------------------------------------------ *)
(** * Counting *)

Section Proofs.
Context {A : Type}.
Implicit Types t l r : tree A.

Fixpoint leaves t : nat :=
  match t with
  | Nil => 0
  | Node Nil _ Nil => 1
  | Node l _ r => leaves l + leaves r
  end.

Lemma leaves_node l x r : leaves (Node l x r) =
  if (nonnull l + nonnull r =? 0) then 1 else leaves l + leaves r.
Proof. destruct l, r; reflexivity. Qed.

Lemma leaves_pos t : t <> Nil -> 1 <= leaves t.
Proof.
  induction t as [|l IHl x r IHr]; [congruence|]. intros _. rewrite leaves_node.
  destruct l, r; cbn [nonnull Nat.add Nat.eqb]; try lia.
  - specialize (IHr ltac:(congruence)). lia.
  - specialize (IHl ltac:(congruence)). lia.
  - specialize (IHl ltac:(congruence)). lia.
Qed.

Lemma leaves_size t : t <> Nil -> 2 * leaves t <= size t + 1.
Proof.
  induction t as [|l IHl x r IHr]; [congruence|]. intros _. rewrite leaves_node.
  destruct l as [|l1 y l2], r as [|r1 z r2]; cbn [nonnull Nat.add Nat.eqb].
  - cbn. lia.
  - specialize (IHr ltac:(congruence)). cbn [size leaves] in *. lia.
  - specialize (IHl ltac:(congruence)). cbn [size leaves] in *. lia.
  - specialize (IHl ltac:(congruence)). specialize (IHr ltac:(congruence)).
    cbn [size] in *. lia.
Qed.

Lemma leaves_single t : has_single t -> 2 * leaves t <= size t.
Proof.
  induction t as [|l IHl x r IHr]; intros H; [destruct H|]. rewrite leaves_node.
  pose proof (leaves_size l). pose proof (leaves_size r).
  destruct l as [|l1 y l2], r as [|r1 z r2]; cbn [nonnull Nat.add Nat.eqb].
  - destruct H.
  - specialize (H1 ltac:(congruence)). cbn [size leaves] in *. lia.
  - specialize (H0 ltac:(congruence)). cbn [size leaves] in *. lia.
  - specialize (H0 ltac:(congruence)). specialize (H1 ltac:(congruence)).
    destruct H as [H|H].
    + specialize (IHl H). cbn [size] in *. lia.
    + specialize (IHr H). cbn [size] in *. lia.
Qed.

(** An even number of nodes forces a node with a single child. *)
Lemma even_single t : t <> Nil -> Nat.even (size t) = true -> has_single t.
Proof.
  assert (G : forall t, t <> Nil -> ~ has_single t -> Nat.even (size t) = false).
  { clear. induction t as [|l IHl x r IHr]; [congruence|]. intros _ H.
    destruct l as [|l1 y l2], r as [|r1 z r2]; cbn [has_single] in H; try tauto.
    specialize (IHl ltac:(congruence) ltac:(tauto)).
    specialize (IHr ltac:(congruence) ltac:(tauto)).
    set (a := Node l1 y l2) in *. set (b := Node r1 z r2) in *.
    change (size (Node a x b)) with (S (size a + size b)).
    rewrite Nat.even_succ, <- Nat.negb_even, Nat.even_add, IHl, IHr. reflexivity. }
  intros N E.
  assert (D : has_single t \/ ~ has_single t).
  { clear. induction t as [|l IHl x r IHr]; [right; auto|].
    destruct l, r; cbn [has_single] in *; tauto. }
  destruct D; auto. rewrite G in E; auto. discriminate.
Qed.

(* ------------------------------------------------------------------ *)
(** * The queue as a list *)

Definition kids t : list (tree A) :=
  match t with
  | Nil => []
  | Node l _ r => (match l with Nil => [] | _ => [l] end) ++ (match r with Nil => [] | _ => [r] end)
  end.

Definition roots (q : list (tree A)) : list A :=
  flat_map (fun t => match t with Nil => [] | Node _ x _ => [x] end) q.

Definition qsize (q : list (tree A)) : nat := list_sum (map size q).

Fixpoint qbfs (fuel : nat) (q : list (tree A)) : list A :=
  match fuel, q with
  | S fuel, Node l x r :: q => x :: qbfs fuel (q ++ kids (Node l x r))
  | _, _ => []
  end.

Lemma qsize_app q1 q2 : qsize (q1 ++ q2) = qsize q1 + qsize q2.
Proof. unfold qsize. rewrite map_app, list_sum_app. auto. Qed.

Lemma qsize_kids l x r : qsize (kids (Node l x r)) = size l + size r.
Proof. destruct l, r; unfold qsize; cbn; lia. Qed.

Lemma qsize_cons t q : qsize (t :: q) = size t + qsize q.
Proof. reflexivity. Qed.

Definition qleaves (q : list (tree A)) : nat := list_sum (map leaves q).

Lemma qleaves_cons t q : qleaves (t :: q) = leaves t + qleaves q.
Proof. reflexivity. Qed.

Lemma qleaves_app q1 q2 : qleaves (q1 ++ q2) = qleaves q1 + qleaves q2.
Proof. unfold qleaves. rewrite map_app, list_sum_app. auto. Qed.

Lemma qleaves_kids l x r : qleaves (kids (Node l x r)) <= leaves (Node l x r).
Proof.
  rewrite leaves_node. unfold qleaves.
  destruct l, r; cbn [kids app map nonnull Nat.add Nat.eqb list_sum fold_right]; lia.
Qed.

Definition live (q : list (tree A)) : Prop := Forall (fun t => t <> Nil) q.

Lemma live_kids t : live (kids t).
Proof. destruct t as [|[] x []]; cbn; repeat constructor; discriminate. Qed.

Lemma qbfs_levels : forall q1 q2 fuel, live q1 -> live q2 ->
  qsize q1 + qsize q2 <= fuel ->
  qbfs fuel (q1 ++ q2) = roots q1 ++ qbfs (fuel - length q1) (q2 ++ flat_map kids q1).
Proof.
  induction q1 as [|t q1 IH]; intros q2 fuel L1 L2 F.
  - cbn. rewrite app_nil_r, Nat.sub_0_r. auto.
  - inversion L1; subst. destruct t as [|l x r]; [congruence|].
    rewrite qsize_cons in F. cbn [size] in F.
    destruct fuel as [|fuel]; [lia|].
    cbn [app qbfs roots flat_map length Nat.sub].
    fold (roots q1). f_equal. rewrite <- app_assoc. rewrite IH; auto.
    + rewrite <- app_assoc. reflexivity.
    + apply Forall_app. split; [auto|apply live_kids].
    + rewrite qsize_app, qsize_kids. lia.
Qed.

Definition qheight (q : list (tree A)) : nat := list_max (map height q).
Definition qlevel (k : nat) (q : list (tree A)) : list A := flat_map (level k) q.

Lemma qheight_kids q : qheight (flat_map kids q) = qheight q - 1.
Proof.
  unfold qheight. induction q as [|t q IH]; [reflexivity|].
  cbn [flat_map map]. rewrite map_app, list_max_app, IH.
  change (list_max (height t :: map height q)) with (Nat.max (height t) (list_max (map height q))).
  generalize (list_max (map height q)). intros m.
  destruct t as [|l x r]; [cbn [kids map height list_max fold_right]; lia|].
  cbn [height]. destruct l as [|l1 y l2], r as [|r1 z r2]; cbn [kids app map list_max fold_right];
    generalize (height (Node l1 y l2)) || idtac; cbn [height]; intros; lia.
Qed.

Lemma qlevel_0 q : qlevel 0 q = roots q.
Proof. unfold qlevel, roots. apply flat_map_ext. intros []; reflexivity. Qed.

Lemma qlevel_S k q : qlevel (S k) q = qlevel k (flat_map kids q).
Proof.
  induction q as [|t q IH]; [reflexivity|]. unfold qlevel in *. cbn [flat_map].
  rewrite flat_map_app, <- IH. f_equal.
  destruct t as [|l x r]; [destruct k; reflexivity|].
  assert (Z : level k (@Nil A) = []) by (destruct k; reflexivity).
  cbn [level]. destruct l, r; cbn [kids app flat_map]; rewrite ?Z, ?app_nil_r; reflexivity.
Qed.

Lemma qsize_flat_kids q : live q -> qsize (flat_map kids q) + length q = qsize q.
Proof.
  induction 1 as [|t q T L IH]; [reflexivity|]. cbn [flat_map length].
  rewrite qsize_app. destruct t as [|l x r]; [congruence|]. rewrite qsize_kids.
  rewrite qsize_cons. cbn [size]. lia.
Qed.

Lemma live_flat_kids q : live (flat_map kids q).
Proof. induction q; cbn; [constructor|]. apply Forall_app. split; [apply live_kids|auto]. Qed.

Lemma qbfs_order : forall h q fuel, live q -> qheight q <= h -> qsize q <= fuel ->
  qbfs fuel q = flat_map (fun k => qlevel k q) (seq 0 h).
Proof.
  induction h as [|h IH]; intros q fuel L H F.
  - destruct q as [|t q]; [destruct fuel; reflexivity|]. inversion L; subst.
    destruct t; [congruence|]. exfalso. unfold qheight in H. cbn [map] in H. revert H.
    change (list_max (?a :: ?b)) with (Nat.max a (list_max b)). cbn [height].
    generalize (list_max (map height q)). intros. lia.
  - pose proof (qbfs_levels q [] fuel L (Forall_nil _)) as E.
    rewrite app_nil_r in E. rewrite E by (change (qsize []) with 0; lia). cbn [app].
    pose proof (qsize_flat_kids q L). rewrite IH.
    + cbn [seq]. change (flat_map ?f (0 :: ?s)) with (f 0 ++ flat_map f s). cbv beta.
      rewrite <- qlevel_0. f_equal. rewrite <- seq_shift.
      rewrite !flat_map_concat_map, map_map. f_equal.
      apply map_ext. intros k. rewrite <- flat_map_concat_map. symmetry. apply qlevel_S.
    + apply live_flat_kids.
    + rewrite qheight_kids. lia.
    + lia.
Qed.

(* ------------------------------------------------------------------ *)
(** * The ring buffer *)

Context (quit : list A -> bool).

(** The slots from [i] on hold the list [q]. *)
Definition holds (queue : list (option (tree A))) (i l n : nat) (q : list (tree A)) : Prop :=
  length queue = n /\ i < n /\ length q < n /\ l = (i + length q) mod n /\
  forall j t, nth_error q j = Some t -> nth_error queue ((i + j) mod n) = Some (Some t).

Lemma mod_slot_neq i a b n : i < n -> a < b -> b < n + a ->
  (i + a) mod n <> (i + b) mod n.
Proof.
  intros H1 H2 H3 E. assert (Hn : n <> 0) by lia.
  pose proof (Nat.div_mod (i + a) n Hn) as Da. pose proof (Nat.div_mod (i + b) n Hn) as Db.
  rewrite E in Da.
  assert (D : b - a = n * ((i + b) / n - (i + a) / n)).
  { rewrite Nat.mul_sub_distr_l. lia. }
  destruct ((i + b) / n - (i + a) / n) as [|k]; [lia|].
  rewrite Nat.mul_succ_r in D. lia.
Qed.

Lemma mod_add_l i a b n : n <> 0 -> ((i + a) mod n + b) mod n = (i + (a + b)) mod n.
Proof. intros H. rewrite Nat.add_mod_idemp_l by auto. f_equal. lia. Qed.

Lemma loop_ok : forall fuel queue i (l n : nat) q acc,
  holds queue i l n q -> live q -> qleaves q < n -> qsize q < fuel ->
  bft_loop quit fuel queue i l n acc = Ok (visits quit acc (qbfs fuel q)).
Proof.
  induction fuel as [|fuel IH]; intros queue i l n q acc H L B F; [lia|].
  cbn [bft_loop]. destruct H as (HL & Hi & Hq & Hl & HN).
  destruct q as [|t q].
  - cbn [length] in Hl. rewrite Nat.add_0_r, Nat.mod_small in Hl by auto. subst l.
    rewrite Nat.eqb_refl. reflexivity.
  - inversion L as [|? ? LT LQ]; subst t. cbn [length] in *.
    assert (Hn : n <> 0) by lia.
    assert (N0 : i <> l).
    { rewrite Hl. intros E. apply (mod_slot_neq i 0 (S (length q)) n); try lia.
      rewrite Nat.add_0_r, Nat.mod_small; auto. }
    destruct (Nat.eqb_spec i l) as [|_]; [congruence|].
    assert (G : nth_error queue i = Some (Some x)).
    { specialize (HN 0 x eq_refl). rewrite Nat.add_0_r, Nat.mod_small in HN; auto. }
    rewrite (get_some _ _ _ G). cbn [bind].
    destruct x as [|lc x rc]; [congruence|]. cbn [qbfs visits].
    destruct (quit (acc ++ [x])); [reflexivity|].
    assert (Ll : l < length queue) by (rewrite Hl, HL; apply Nat.mod_upper_bound; auto).
    rewrite set_ok by auto. cbn [bind].
    rewrite (get_some _ i (Some (Node lc x rc))) by (rewrite nth_error_upd_neq by auto; auto).
    cbn [bind].
    set (l1 := (l + nonnull lc) mod n).
    assert (Ll1 : l1 < length (upd queue l (Some lc)))
      by (rewrite upd_length, HL; apply Nat.mod_upper_bound; auto).
    rewrite set_ok by auto. cbn [bind].
    (* the children *)
    assert (KL : length (kids (Node lc x rc)) = nonnull lc + nonnull rc)
      by (destruct lc, rc; reflexivity).
    assert (LB : length q + (nonnull lc + nonnull rc) < n).
    { assert (LQ' : length q <= qleaves q).
      { clear - LQ. induction LQ as [|t q T L IH]; [cbn; auto|]. rewrite qleaves_cons.
        pose proof (leaves_pos t T). cbn [length]. lia. }
      rewrite qleaves_cons in B.
      rewrite leaves_node in B. pose proof (leaves_pos lc) as P1. pose proof (leaves_pos rc) as P2.
      destruct lc, rc; cbn [nonnull Nat.add Nat.eqb] in *; try lia;
        try specialize (P1 ltac:(congruence)); try specialize (P2 ltac:(congruence)); lia. }
    apply IH.
    + split; [rewrite !upd_length; auto|]. split; [apply Nat.mod_upper_bound; auto|].
      split; [rewrite app_length, KL; auto|]. split.
      { subst l1. rewrite app_length, KL, Hl, !mod_add_l by auto. reflexivity || (f_equal; lia). }
      intros j t HJ. rewrite mod_add_l by auto.
      assert (JB : j < length q + (nonnull lc + nonnull rc)).
      { rewrite <- KL, <- app_length. apply nth_error_Some. congruence. }
      assert (El1 : l1 = (i + (S (length q) + nonnull lc)) mod n)
        by (subst l1; rewrite Hl, mod_add_l by auto; reflexivity).
      destruct (Nat.lt_ge_cases j (length q)) as [J|J].
      * rewrite nth_error_app1 in HJ by auto.
        rewrite !nth_error_upd_neq.
        -- apply (HN (S j)). exact HJ.
        -- rewrite Hl. intros E. symmetry in E. revert E. apply mod_slot_neq; lia.
        -- rewrite El1. intros E. symmetry in E. revert E.
           apply mod_slot_neq; destruct lc, rc; cbn [nonnull] in *; lia.
      * rewrite nth_error_app2 in HJ by auto.
        destruct lc as [|l1' y1 l2'], rc as [|r1' y2 r2'];
          cbn [kids app nonnull] in *; try lia.
        -- (* right only *)
           assert (j = length q) by lia. subst j. rewrite Nat.sub_diag in HJ. cbn in HJ.
           inversion HJ; subst t. replace (i + (1 + length q)) with (i + (S (length q) + 0)) by lia.
           rewrite <- El1. apply nth_error_upd_eq; auto.
        -- (* left only *)
           assert (j = length q) by lia. subst j. rewrite Nat.sub_diag in HJ. cbn in HJ.
           inversion HJ; subst t. rewrite nth_error_upd_neq.
           ++ replace (i + (1 + length q)) with (i + S (length q)) by lia. rewrite <- Hl.
              apply nth_error_upd_eq; auto.
           ++ rewrite El1. intros E. symmetry in E. revert E. apply mod_slot_neq; lia.
        -- (* both *)
           assert (j = length q \/ j = S (length q)) as [-> | ->] by lia.
           ++ rewrite Nat.sub_diag in HJ. cbn in HJ. inversion HJ; subst t.
              rewrite nth_error_upd_neq.
              ** replace (i + (1 + length q)) with (i + S (length q)) by lia. rewrite <- Hl.
                 apply nth_error_upd_eq; auto.
              ** rewrite El1. intros E. symmetry in E. revert E. apply mod_slot_neq; lia.
           ++ replace (S (length q) - length q) with 1 in HJ by lia. cbn in HJ.
              inversion HJ; subst t.
              replace (i + (1 + S (length q))) with (i + (S (length q) + 1)) by lia.
              rewrite <- El1. apply nth_error_upd_eq; auto.
    + apply Forall_app. split; [auto|apply live_kids].
    + rewrite qleaves_app. rewrite qleaves_cons in B. pose proof (qleaves_kids lc x rc). lia.
    + rewrite qsize_app, qsize_kids. rewrite qsize_cons in F. cbn [size] in F. lia.
Qed.

Lemma BreadthFirstTree_ok t n0 fuel : t <> Nil -> 2 * leaves t <= n0 -> 2 <= n0 ->
  size t < fuel ->
  BreadthFirstTree quit fuel t n0 = Ok (visits quit [] (level_order t)).
Proof.
  intros T L N F. unfold BreadthFirstTree.
  destruct (Nat.eqb_spec n0 0) as [|_]; [lia|]. destruct (Nat.eqb_spec n0 1) as [|_]; [lia|].
  set (n := n0 / 2 + 1).
  assert (Hn : leaves t < n).
  { subst n. assert (leaves t <= n0 / 2); [|lia].
    apply Nat.div_le_lower_bound; lia. }
  pose proof (leaves_pos t T) as LP.
  rewrite set_ok by (rewrite repeat_length; lia). cbn [bind].
  rewrite (loop_ok _ _ _ _ _ [t]).
  - f_equal. f_equal. rewrite (qbfs_order (height t)).
    + unfold level_order. apply flat_map_ext. intros k. unfold qlevel. cbn. apply app_nil_r.
    + constructor; [auto|constructor].
    + unfold qheight. cbn. lia.
    + rewrite qsize_cons. change (qsize []) with 0. lia.
  - split; [rewrite upd_length, repeat_length; auto|]. split; [lia|]. split; [cbn [length]; lia|].
    split; [cbn [length]; rewrite Nat.mod_small; lia|].
    intros j x HJ. destruct j as [|[|j]]; inversion HJ; subst.
    rewrite Nat.mod_small by lia. apply nth_error_upd_eq. rewrite repeat_length. lia.
  - constructor; [auto|constructor].
  - rewrite qleaves_cons. change (qleaves []) with 0. lia.
  - rewrite qsize_cons. change (qsize []) with 0. lia.
Qed.

End Proofs.

(* ------------------------------------------------------------------ *)
(** * C71 *)

(** For every tree in which some node has exactly one child, the callback is
    called on the nodes level by level, each level from left to right, until
    it returns true; no slot of the queue is misused. *)
Theorem C71_BreadthFirst_partial {A} (quit : list A -> bool) (t : tree A) fuel :
  has_single t -> size t < fuel ->
  BreadthFirstTree quit fuel t (size t) = Ok (visits quit [] (level_order t)).
Proof.
  intros H F. apply BreadthFirstTree_ok; auto.
  - intros ->. destruct H.
  - apply leaves_single; auto.
  - destruct t as [|[|l1 y l2] x [|r1 z r2]]; cbn in *; try tauto; lia.
Qed.
Print Assumptions C71_BreadthFirst_partial.

(** In particular for every tree with an even number of nodes. *)
Theorem C71_BreadthFirst_even_partial {A} (quit : list A -> bool) (t : tree A) fuel :
  Nat.even (size t) = true -> size t < fuel ->
  BreadthFirstTree quit fuel t (size t) = Ok (visits quit [] (level_order t)).
Proof.
  intros E F. destruct t as [|l x r] eqn:T; [reflexivity|]. rewrite <- T in *.
  apply C71_BreadthFirst_partial; auto. apply even_single; auto. congruence.
Qed.
Print Assumptions C71_BreadthFirst_even_partial.

(** And for every non-empty tree when the count given is larger than the number
    of nodes. *)
Theorem C71_BreadthFirst_overcount_partial {A} (quit : list A -> bool) (t : tree A) n fuel :
  t <> Nil -> size t < n -> size t < fuel ->
  BreadthFirstTree quit fuel t n = Ok (visits quit [] (level_order t)).
Proof.
  intros T N F. pose proof (leaves_size t T). pose proof (leaves_pos t T).
  apply BreadthFirstTree_ok; auto; lia.
Qed.
Print Assumptions C71_BreadthFirst_overcount_partial.

(** A tree with three levels and a single child. *)
Example C71_example :
  let leaf x := Node Nil x Nil in
  let t := Node (Node (leaf 4) 2 (leaf 5)) 1 (Node Nil 3 (leaf 6)) in
  has_single t /\ size t = 6 /\
  BreadthFirstTree (fun _ => false) 10 t 6 = Ok [1; 2; 3; 4; 5; 6] /\
  BreadthFirstTree (fun tr => length tr =? 4) 10 t 6 = Ok [1; 2; 3; 4] /\
  BreadthFirstTree (fun _ => false) 10 (Node (leaf 2) 1 (leaf 3)) 4 = Ok [1; 2; 3].
Proof. cbn. repeat split; auto. Qed.

(** The claim is false without the condition: of the perfect trees with three
    and with seven nodes only one and three nodes are visited, because a full
    queue cannot be told from an empty one. *)
Theorem C71_perfect_tree_refuted :
  let leaf x := Node Nil x Nil in
  let t3 := Node (leaf 2) 1 (leaf 3) in
  let t7 := Node (Node (leaf 4) 2 (leaf 5)) 1 (Node (leaf 6) 3 (leaf 7)) in
  BreadthFirstTree (fun _ => false) 100 t3 (size t3) = Ok [1] /\
  level_order t3 = [1; 2; 3] /\
  BreadthFirstTree (fun _ => false) 100 t7 (size t7) = Ok [1; 2; 3].
Proof. cbn. repeat split. Qed.
Print Assumptions C71_perfect_tree_refuted.
