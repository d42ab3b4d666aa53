(* Property C33: AATree is a multiset and keeps the AA level invariants.  The full statement is false of the code: the first
   Remove may read the uninitialised _deleted (C33_Remove_refuted), so the theorem asks, before a Remove that has no stored
   element at or below its argument, for an earlier one that had. *)
From Coq Require Import List ZArith Bool Lia Permutation Sorted.
From Coq Require Import ZifyBool ZifyNat.
From Verif Require Import Common OrderSpec OrderProofs AATree.
Import ListNotations.
Local Open Scope Z_scope.

Section Spec.
Context {T : Type} (cmp : T -> T -> Z).

(* some element of the multiset compares equal to x *)
Definition present (x : T) (l : list T) : Prop := exists y, In y l /\ cmp x y = 0.
(* what the tree shows: its elements, in order, and what Get finds *)
Definition shows (s : aatree T) (l : list T) : Prop :=
  elements s = l /\ ascending cmp l /\
  (forall x y, Get cmp x (root s) = Some y -> In y l /\ cmp x y = 0) /\
  (forall x, Get cmp x (root s) = None -> ~ present x l).
Definition effect (o : a_op T) (l l' : list T) (r : bool) : Prop :=
  match o with
  | OInsert x => Permutation l' (x :: l)
  | ORemove x => (~ present x l -> l' = l /\ r = false) /\
                 (present x l -> exists y, cmp x y = 0 /\ Permutation l (y :: l') /\ r = true)
  end.
(* a Remove that finds a stored element at or below its argument, or a tree without elements *)
Definition settles (o : a_op T) (l : list T) : Prop :=
  match o with OInsert _ => False | ORemove x => exists y, In y l /\ cmp y x <= 0 end.
(* the executions: [armed] records that a Remove of that kind has happened *)
Definition valid (o : a_op T) (l : list T) (armed : Prop) : Prop :=
  match o with OInsert _ => True | ORemove _ => armed \/ settles o l \/ l = [] end.
Inductive reachable : aatree T -> Prop -> Prop :=
| r_new : reachable new_aatree False
| r_step s armed o s' r : reachable s armed -> valid o (elements s) armed -> a_step cmp s o = Ok (s', r) ->
    reachable s' (armed \/ settles o (elements s)).

(* the AA level invariants: a node without a left child is of level 1; a left child is one level below; a right child is at
   the same level or one below; a right grandchild is below *)
Fixpoint aa (t : tree T) : Prop :=
  match t with
  | Leaf => True
  | Node lv l _ _ r => level l = lv - 1 /\ (level r = lv - 1 \/ level r = lv) /\ level (right r) < lv /\ aa l /\ aa r
  end.
(* number of nodes on the longest path *)
Fixpoint height (t : tree T) : Z := match t with Leaf => 0 | Node _ l _ _ r => 1 + Z.max (height l) (height r) end.
End Spec.

Section Proofs.
Context {T : Type} (cmp : T -> T -> Z) (TP : total_preorder cmp).
Notation tree := (tree T).

Lemma aa_level (t : tree) : aa t -> 0 <= level t /\ (t <> Leaf -> 1 <= level t).
Proof.
  induction t as [|lv l IHl id d r IHr]; cbn [aa level]; [split; [lia|congruence]|].
  intros (E & _ & _ & A & _). destruct (IHl A) as [P _]. split; intros; lia.
Qed.
Lemma level_right (t : tree) : aa t -> level (right t) = level t - 1 \/ level (right t) = level t.
Proof. destruct t as [|lv l id d r]; cbn [aa level right]; [right; reflexivity|tauto]. Qed.

Lemma level_right_le (t : tree) : aa t -> level (right t) <= level t.
Proof. intros A. destruct (level_right t A); lia. Qed.

Ltac apps := repeat (progress (rewrite <- ?app_assoc; cbn [app])); reflexivity.
Ltac ifs := repeat (match goal with
  | |- context [?a =? ?b] => destruct (Z.eqb_spec a b)
  | |- context [?a <? ?b] => destruct (Z.ltb_spec a b)
  end; try (exfalso; lia); cbn [bind skew split on_right level right]).

Ltac hyps := repeat match goal with H : _ /\ _ |- _ => destruct H end.
Ltac know := repeat match goal with
  | H : aa ?t |- _ => lazymatch goal with
                      | K : level (right t) <= _ |- _ => fail
                      | _ => pose proof (level_right_le t H); pose proof (proj1 (aa_level t H))
                      end
  end.
Ltac fin := hyps; know; eexists; split; [reflexivity|]; cbn [aa level right]; repeat split; auto; try lia; try congruence.
(* --- insertion --- *)
Definition top_flat (t : tree) : Prop := level (right t) < level t.   (* no right child at the same level *)
Lemma insert_aa new x (t : tree) : aa t -> exists t', insert cmp new x t = Ok t' /\ aa t' /\
  t' <> Leaf /\
  (level t' = level t \/ (level t' = level t + 1 /\ top_flat t')) /\
  (t <> Leaf -> top_flat t -> level t' = level t).
Proof.
  induction t as [|lv l IHl id d r IHr]; cbn [aa insert].
  - intros _. eexists. split; [reflexivity|]. unfold top_flat. cbn [aa level right].
    repeat split; try lia; congruence.
  - intros (EL & ER & ERR & AL & AR). pose proof (aa_level _ AL) as [PL _].
    assert (P1 : 1 <= lv) by lia.
    destruct (Z.ltb_spec (cmp x d) 0) as [C|C].
    + destruct (IHl AL) as (l' & E' & A' & N' & V' & F'). rewrite E'. cbn [bind].
      destruct l' as [|llv ll lid ld lr]; [congruence|]. cbn [skew].
      cbn [aa] in A'. destruct A' as (a1 & a2 & a3 & a4 & a5). unfold top_flat in *. cbn [level right] in *.
      ifs.
      all: destruct V' as [V'|[V' V2]]; try (exfalso; lia).
      all: destruct r as [|rlv rl rid rd rr]; cbn [level right aa] in *; ifs; fin.
    + destruct (IHr AR) as (r' & E' & A' & N' & V' & F'). rewrite E'. cbn [bind].
      assert (SK : skew (Node lv l id d r') = Ok (Node lv l id d r')).
      { cbn [skew]. destruct l; cbn [level] in *; ifs; reflexivity. }
      rewrite SK. cbn [bind split]. unfold top_flat in *. cbn [level right] in *.
      destruct r' as [|rlv rl rid rd rr]; [congruence|].
      cbn [aa] in A'. destruct A' as (a1 & a2 & a3 & a4 & a5). cbn [level right] in *.
      assert (RN : r <> Leaf -> level (right r) < level r -> rlv = level r) by auto.
      assert (level r = 0 -> r = Leaf).
      { intros Z0. destruct r; [reflexivity|]. pose proof (aa_level _ AR) as [_ Q]. specialize (Q ltac:(congruence)). lia. }
      destruct V' as [V'|[V' V2]]; know.
      * ifs; fin.
      * destruct (Z.eq_dec (level r) 0) as [Z0|Z0]; [rewrite (H Z0) in *; cbn [level right] in *; ifs; fin|].
        assert (r <> Leaf) by (intros ->; cbn in Z0; lia).
        ifs; fin.
Qed.

(* --- rebalancing after a removal --- *)
Lemma leaf_level (t : tree) : aa t -> level t = 0 -> t = Leaf.
Proof. intros A E. destruct t; [reflexivity|]. destruct (aa_level _ A) as [_ Q]. specialize (Q ltac:(congruence)). lia. Qed.
Ltac open t := destruct t; cbn [level right aa] in *; hyps; try (exfalso; lia).
Ltac exec := cbn [bind skew split on_right level right]; ifs.


Lemma skew_aa (t : tree) : aa t -> skew t = Ok t.
Proof.
  destruct t as [|lv l id d r]; [reflexivity|]. cbn [aa skew]. intros (E & _ & _ & A & _). pose proof (aa_level _ A) as [P _].
  destruct l; cbn [level] in *; ifs; reflexivity.
Qed.
Lemma split_aa (t : tree) : aa t -> t <> Leaf -> split t = Ok t.
Proof.
  destruct t as [|lv l id d r]; [congruence|]. cbn [aa split]. intros (E & _ & F & _) _. ifs; reflexivity.
Qed.
Lemma rebalance_aa lv (l : tree) id d r : aa l -> aa r -> 2 <= lv ->
  (level l = lv - 2 /\ (level r = lv - 1 \/ (level r = lv /\ level (right r) < lv))) \/ (level l = lv - 1 /\ level r = lv - 2) ->
  exists t', rebalance lv l id d r = Ok t' /\ aa t' /\ t' <> Leaf /\
    (level t' = lv - 1 \/ (level t' = lv /\ (level r < lv -> top_flat t'))).
Proof.
  intros AL AR P H. unfold rebalance, top_flat. cbv zeta. remember (lv - 1) as m eqn:Em.
  assert (lv = m + 1) by lia. subst lv. clear Em.
  destruct H as [[EL ER]|[EL ER]].
  - destruct r as [|rlv rl rid rd rr]; [cbn [level] in ER; lia|].
    assert (SK : forall r', skew (Node m l id d r') = Ok (Node m l id d r')).
    { intros r'. cbn [skew]. destruct l; cbn [level] in *; ifs; reflexivity. }
    destruct ER as [ER|[ER ERR]]; cbn [level right aa] in *.
    + assert (rlv = m) by lia. clear ER. subst rlv.
      destruct (Z.ltb_spec m m); [lia|]. rewrite SK. cbn [bind on_right].
      rewrite (skew_aa (Node m rl rid rd rr)) by exact AR. cbn [bind on_right].
      destruct AR as (a1 & a2 & a3 & a4 & a5). rewrite (skew_aa rr a5). cbn [bind split right level].
      destruct (Z.eqb_spec (level rr) m) as [E|E].
      * cbn [bind on_right]. rewrite split_aa; [|exact a5|intros ->; cbn in E; lia].
        know. fin.
      * cbn [bind on_right]. rewrite split_aa; [|cbn [aa]; auto|congruence].
        know. fin.
    + assert (rlv = m + 1) by lia. clear ER. subst rlv.
      destruct (Z.ltb_spec m (m + 1)); [|lia]. rewrite SK. cbn [bind on_right].
      destruct AR as (a1 & a2 & a3 & a4 & a5). assert (LRR : level rr = m) by lia. try clear a2.
      destruct rl as [|rllv rll rlid rld rlr]; [cbn in a1; lia|]. cbn [level right aa] in *.
      assert (rllv = m) by lia. clear a1. subst rllv. destruct a4 as (b1 & b2 & b3 & b4 & b5).
      cbn [skew]. rewrite Z.eqb_refl. cbn [bind on_right skew].
      destruct rlr as [|v ca ci cd cb]; cbn [level right aa] in *.
      * (* rlr is the sentinel *)
        destruct (Z.eqb_spec m 0); [lia|]. cbn [bind split level right on_right]. rewrite Z.eqb_refl. cbn [bind on_right split].
        destruct (Z.eqb_spec (level (right rr)) m).
        -- destruct rr as [|rrv rrl rri rrd rrr]; [cbn in *; lia|]. cbn [level right aa] in *. know. fin.
        -- know. fin.
      * destruct b5 as (c1 & c2 & c3 & c4 & c5).
        destruct (Z.eqb_spec m v) as [->|Ne].
        -- cbn [bind split level right on_right]. rewrite Z.eqb_refl. cbn [bind on_right split level right].
           rewrite LRR, Z.eqb_refl. cbn [bind on_right]. know. fin.
        -- assert (v = m - 1) by lia. clear b2. subst v.
           cbn [bind split level right on_right]. rewrite Z.eqb_refl. cbn [bind on_right split].
           destruct (Z.eqb_spec (level (right rr)) m).
           ++ destruct rr as [|rrv rrl rri rrd rrr]; [cbn in *; lia|]. cbn [level right aa] in *. know. fin.
           ++ know. fin.
  - assert (level r = m - 1) by lia. try clear ER.
    replace (match r with Leaf => r | Node rlv rl rid rd rr => if m <? rlv then Node m rl rid rd rr else r end) with r
      by (destruct r; [reflexivity|cbn [level] in *; ifs; reflexivity]).
    destruct l as [|llv ll lid ld lr]; [cbn in EL; lia|]. cbn [level right aa] in *.
    assert (llv = m) by lia. clear EL. subst llv. destruct AL as (a1 & a2 & a3 & a4 & a5).
    cbn [skew]. rewrite Z.eqb_refl. cbn [bind on_right skew].
    destruct lr as [|v ca ci cd cb]; cbn [level right aa] in *.
    + destruct (Z.eqb_spec m 0); [lia|]. cbn [bind on_right]. rewrite (skew_aa r AR). cbn [bind split level right].
      destruct (Z.eqb_spec (level r) m); [lia|]. cbn [bind on_right split level right].
      destruct (Z.eqb_spec (level (right r)) m); [know; lia|]. know. fin.
    + destruct a5 as (c1 & c2 & c3 & c4 & c5).
      destruct (Z.eqb_spec m v) as [->|Ne].
      * assert (level cb = v - 1) by lia. clear a2 c2.
        cbn [bind on_right]. rewrite skew_aa; [|know; cbn [aa]; repeat split; auto; lia].
        cbn [bind split level right]. rewrite Z.eqb_refl. cbn [bind on_right].
        rewrite split_aa; [|know; cbn [aa]; repeat split; auto; lia|congruence].
        know. fin.
      * assert (v = m - 1) by lia. clear a2. subst v.
        cbn [bind on_right]. rewrite (skew_aa r AR). cbn [bind split level right].
        destruct (Z.eqb_spec (level r) m); [lia|]. cbn [bind on_right split level right].
        destruct (Z.eqb_spec (level (right r)) m); [know; lia|]. know. fin.
Qed.

(* --- the sequence of nodes --- *)
Lemma skew_nodes (t t' : tree) : skew t = Ok t' -> nodes t' = nodes t.
Proof.
  destruct t as [|lv l id d r]; cbn [skew]; [intros E; injection E as <-; reflexivity|].
  destruct l as [|llv ll lid ld lr].
  - destruct (lv =? 0); [discriminate|]. intros E; injection E as <-. reflexivity.
  - destruct (lv =? llv); intros E; injection E as <-; [|reflexivity]. cbn [nodes]. apps.
Qed.
Lemma split_nodes (t t' : tree) : split t = Ok t' -> nodes t' = nodes t.
Proof.
  destruct t as [|lv l id d r]; cbn [split]; [discriminate|].
  destruct (level (right r) =? lv); [|intros E; injection E as <-; reflexivity].
  destruct r as [|rlv rl rid rd rr]; [discriminate|]. intros E; injection E as <-. cbn [nodes]. apps.
Qed.
Lemma on_right_nodes f (t t' : tree) : (forall a b, f a = Ok b -> nodes b = nodes a) -> on_right f t = Ok t' -> nodes t' = nodes t.
Proof.
  intros Hf. destruct t as [|lv l id d r]; cbn [on_right].
  - intros E. apply bind_ok in E. destruct E as (a & Ea & E). injection E as <-. apply (Hf _ _ Ea).
  - intros E. apply bind_ok in E. destruct E as (a & Ea & E). injection E as <-. cbn [nodes]. rewrite (Hf _ _ Ea). reflexivity.
Qed.
Lemma rebalance_nodes lv (l : tree) id d r t' : rebalance lv l id d r = Ok t' -> nodes t' = nodes l ++ (id, d) :: nodes r.
Proof.
  unfold rebalance. cbv zeta. intros E.
  apply bind_ok in E. destruct E as (t1 & E1 & E). apply bind_ok in E. destruct E as (t2 & E2 & E).
  apply bind_ok in E. destruct E as (t3 & E3 & E). apply bind_ok in E. destruct E as (t4 & E4 & E5).
  apply skew_nodes in E1. apply (on_right_nodes _ _ _ skew_nodes) in E2.
  apply (on_right_nodes _ _ _ (fun a b => on_right_nodes _ a b skew_nodes)) in E3.
  apply split_nodes in E4. apply (on_right_nodes _ _ _ split_nodes) in E5.
  rewrite E5, E4, E3, E2, E1. cbn [nodes]. f_equal. f_equal.
  destruct r as [|rlv rl rid rd rr]; [reflexivity|]. destruct (lv - 1 <? rlv); reflexivity.
Qed.

Definition low (x : T) (e : nat * T) : Prop := 0 <= cmp x (snd e).
Definition high (x : T) (e : nat * T) : Prop := cmp x (snd e) < 0.
Lemma split_eq x (A B : list (nat * T)) e P Q : A ++ e :: B = P ++ Q -> Forall (low x) P -> Forall (high x) Q ->
  (low x e -> exists P', P = A ++ e :: P' /\ B = P' ++ Q) /\ (high x e -> exists Q', Q = Q' ++ e :: B /\ A = P ++ Q').
Proof.
  revert P. induction A as [|a A IH]; intros [|p P] E FP FQ; cbn [app] in *.
  - subst Q. split; [intros L; inversion FQ; subst; unfold low, high in *; lia|]. intros _. exists []. split; reflexivity.
  - injection E as -> ->. split; [intros _; exists P; split; reflexivity|]. intros L; inversion FP; subst; unfold low, high in *; lia.
  - subst Q. split.
    + intros L. exfalso. rewrite Forall_forall in FQ. specialize (FQ e). cbn [In] in FQ. rewrite in_app_iff in FQ. cbn [In] in FQ.
      unfold low, high in *. intuition lia.
    + intros _. exists (a :: A). split; reflexivity.
  - injection E as -> E. inversion FP as [|? ? FP1 FP2]; subst. destruct (IH P E FP2 FQ) as [I1 I2]. split.
    + intros L. destruct (I1 L) as (P' & -> & ->). exists P'. split; reflexivity.
    + intros L. destruct (I2 L) as (Q' & -> & ->). exists Q'. split; reflexivity.
Qed.
Lemma asc_split x (l : list (nat * T)) : ascending cmp (map snd l) ->
  exists P Q, l = P ++ Q /\ Forall (low x) P /\ Forall (high x) Q.
Proof.
  induction l as [|e l IH]; intros A; [exists [], []; repeat split; constructor|].
  cbn [map] in A. apply asc_cons_inv in A. destruct A as [A H]. destruct (IH A) as (P & Q & -> & FP & FQ).
  destruct (Z.ltb_spec (cmp x (snd e)) 0) as [C|C].
  - exists [], (e :: P ++ Q). repeat split; [constructor|]. constructor; [exact C|].
    rewrite Forall_forall. intros y Hy. unfold high. apply (cmp_lt_trans_l cmp TP _ (snd e)); [exact C|].
    apply H. apply in_map. exact Hy.
  - exists (e :: P), Q. split; [reflexivity|]. split; [|exact FQ]. constructor; [exact C|exact FP].
Qed.

Lemma insert_nodes new x (t : tree) P Q t' : nodes t = P ++ Q -> Forall (low x) P -> Forall (high x) Q ->
  insert cmp new x t = Ok t' -> nodes t' = P ++ (new, x) :: Q.
Proof.
  revert P Q t'. induction t as [|lv l IHl id d r IHr]; cbn [nodes insert]; intros P Q t' E FP FQ H.
  - symmetry in E. apply app_eq_nil in E. destruct E as [-> ->]. injection H as <-. reflexivity.
  - apply bind_ok in H. destruct H as (t1 & H1 & H). apply bind_ok in H. destruct H as (t2 & H2 & H3).
    apply split_nodes in H3. apply skew_nodes in H2. rewrite H3, H2.
    destruct (split_eq x _ _ _ _ _ E FP FQ) as [IL IH].
    destruct (Z.ltb_spec (cmp x d) 0) as [C|C]; apply bind_ok in H1; destruct H1 as (c & Hc & H1); injection H1 as <-; cbn [nodes].
    + destruct (IH C) as (Q' & -> & El). apply Forall_app in FQ. rewrite (IHl P Q' c El FP (proj1 FQ) Hc). apps.
    + destruct (IL C) as (P' & -> & Er). apply Forall_app in FP. destruct FP as [_ FP]. inversion FP; subst.
      rewrite (IHr P' Q c Er ltac:(assumption) FQ Hc). apps.
Qed.

(* --- removal --- *)
Lemma nodup_app_l {A} (a b : list A) : NoDup (a ++ b) -> NoDup a.
Proof. induction a as [|x a IH]; cbn [app]; intros N; [constructor|]. inversion N; subst. constructor; [rewrite in_app_iff in *; tauto|auto]. Qed.
Lemma nodup_app_r {A} (a b : list A) : NoDup (a ++ b) -> NoDup b.
Proof. induction a as [|x a IH]; cbn [app]; intros N; [exact N|]. inversion N; auto. Qed.
Definition lastd (P : list (nat * T)) (del : dptr) : dptr := fold_left (fun _ e => DNode (fst e)) P del.

Lemma fixup lv (l : tree) id d r l1 r1 : aa (Node lv l id d r) -> aa l1 -> aa r1 ->
  (r1 = r /\ (level l1 = level l \/ level l1 = level l - 1)) \/
  (l1 = l /\ (level r1 = level r \/ level r1 = level r - 1) /\ (r <> Leaf -> level r1 = level r -> top_flat r -> top_flat r1)) ->
  (r = Leaf -> r1 = Leaf) ->
  exists t', (forall (b : bool) (del : dptr) (la : option nat) (w : option (nat * T)),
    (if (level l1 <? lv - 1) || (level r1 <? lv - 1) then do t1 <- rebalance lv l1 id d r1; Ok (t1, b, del, la, w)
     else Ok (Node lv l1 id d r1, b, del, la, w)) = Ok (t', b, del, la, w)) /\
    aa t' /\ (level t' = lv \/ level t' = lv - 1) /\ (level t' = lv -> top_flat (Node lv l id d r) -> top_flat t') /\
    nodes t' = nodes l1 ++ (id, d) :: nodes r1.
Proof.
  intros A A1 A2 H HL. cbn [aa] in A. destruct A as (a1 & a2 & a3 & a4 & a5).
  pose proof (aa_level _ a4) as [Pl _]. pose proof (aa_level _ a5) as [Pr _].
  pose proof (aa_level _ A1) as [Pl1 _]. pose proof (aa_level _ A2) as [Pr1 _].
  pose proof (level_right_le _ A2) as Q2. pose proof (level_right_le _ a5) as Q5.
  destruct (Z.ltb_spec (level l1) (lv - 1)) as [C1|C1]; [|destruct (Z.ltb_spec (level r1) (lv - 1)) as [C2|C2]]; cbn [orb].
  - destruct (rebalance_aa lv l1 id d r1 A1 A2) as (t' & E & R1 & R2 & R3); [lia| |].
    { left. destruct H as [[-> H]|[-> H]]; [|lia]. lia. }
    exists t'. rewrite E. split; [reflexivity|]. split; [exact R1|]. split; [lia|]. split; [|apply rebalance_nodes in E; exact E].
    unfold top_flat in *. cbn [level right]. destruct H as [[-> H]|[-> H]]; lia.
  - destruct (rebalance_aa lv l1 id d r1 A1 A2) as (t' & E & R1 & R2 & R3); [lia| |].
    { right. destruct H as [[-> H]|[-> H]]; lia. }
    exists t'. rewrite E. split; [reflexivity|]. split; [exact R1|]. split; [lia|]. split; [|apply rebalance_nodes in E; exact E].
    unfold top_flat in *. cbn [level right]. lia.
  - exists (Node lv l1 id d r1). split; [reflexivity|]. unfold top_flat in *. cbn [aa level right nodes].
    destruct H as [[-> H]|[-> [H F]]].
    + repeat split; auto; lia.
    + assert (level (right r1) < lv).
      { destruct H as [H|H]; [|lia]. destruct (Z.eq_dec (level r) lv) as [E|E]; [|lia].
        assert (r <> Leaf) by (intros ->; cbn in E; lia). specialize (F H0 H). lia. }
      repeat split; auto; lia.
Qed.

Lemma remove_spec t0 x (t : tree) : forall del last P Q, aa t -> t <> Leaf -> nodes t = P ++ Q ->
  Forall (low x) P -> Forall (high x) Q -> NoDup (map fst (nodes t)) ->
  match test cmp t0 x (lastd P del) with
  | Ok false => exists j, remove cmp t0 x t del last = Ok (t, false, lastd P del, Some j, None) /\ In j (map fst (nodes t))
  | Ok true => exists i t' d, lastd P del = DNode i /\ remove cmp t0 x t del last = Ok (t', true, DSentinel, None, Some (i, d)) /\
      aa t' /\ (level t' = level t \/ level t' = level t - 1) /\ (level t' = level t -> top_flat t -> top_flat t') /\
      ((exists P0, P = P0 ++ [(i, d)] /\ nodes t' = P0 ++ Q) \/ (exists j Q0, Q = (j, d) :: Q0 /\ nodes t' = P ++ Q0))
  | _ => True
  end.
Proof.
  induction t as [|lv l IHl id d r IHr]; intros del last P Q A N E FP FQ ND; [congruence|].
  pose proof A as A0. cbn [aa] in A0. destruct A0 as (a1 & a2 & a3 & a4 & a5).
  pose proof (aa_level _ a4) as [Pl Pl2]. pose proof (aa_level _ a5) as [Pr Pr2].
  cbn [nodes] in E, ND. destruct (split_eq x _ _ _ _ _ E FP FQ) as [IL IH].
  cbn [remove]. destruct (Z.ltb_spec (cmp x d) 0) as [C|C].
  - destruct (IH C) as (Q' & EQ & El). clear IL IH.
    destruct l as [|llv ll lid ld lr] eqn:EL0.
    + (* the bottom of the path, to the left *)
      cbn [nodes app] in El. symmetry in El. apply app_eq_nil in El. destruct El as [-> ->]. cbn [app] in EQ. subst Q.
      cbn [lastd fold_left remove bind last_is]. rewrite Nat.eqb_refl.
      destruct (test cmp t0 x del) as [[|]| |] eqn:ET; cbn [bind]; auto.
      * destruct del as [| |i]; try discriminate. exists i, r, d.
        split; [reflexivity|]. split; [reflexivity|]. split; [exact a5|]. cbn [level] in a1. unfold top_flat. cbn [level right].
        split; [lia|]. split; [lia|]. right. exists id, (nodes r). split; reflexivity.
      * exists id. destruct (fixup lv Leaf id d r Leaf r A a4 a5) as (t' & Ef & _); [left; split; [reflexivity|left; reflexivity]|auto|].
        cbn [level] in *. destruct (Z.ltb_spec 0 (lv - 1)); [lia|]. destruct (Z.ltb_spec (level r) (lv - 1)); [lia|]. cbn [orb].
        split; [reflexivity|]. cbn [nodes map app]. left. reflexivity.
    + rewrite <- EL0 in *. assert (NL : l <> Leaf) by (subst l; discriminate). clear EL0.
      assert (NDl : NoDup (map fst (nodes l))) by (rewrite map_app in ND; apply nodup_app_l in ND; exact ND).
      subst Q. apply Forall_app in FQ. destruct FQ as [FQ1 FQ2].
      specialize (IHl del (Some id) P Q' a4 NL El FP FQ1 NDl).
      destruct (test cmp t0 x (lastd P del)) as [[|]| |] eqn:ET; auto.
      * destruct IHl as (i & l' & d' & L1 & L2 & L3 & L4 & L5 & L6).
        destruct (fixup lv l id d r l' r A L3 a5) as (t' & Ef & F1 & F2 & F3 & F4); [left; auto|auto|].
        exists i, t', d'. rewrite L2. cbn [bind last_is]. rewrite Ef.
        split; [exact L1|]. split; [reflexivity|]. split; [exact F1|]. split; [exact F2|]. split; [exact F3|].
        destruct L6 as [(P0 & -> & N6)|(j & Q0 & -> & N6)].
        -- left. exists P0. split; [reflexivity|]. rewrite F4, N6. apps.
        -- right. exists j, (Q0 ++ (id, d) :: nodes r). split; [reflexivity|]. rewrite F4, N6. apps.
      * destruct IHl as (j & L1 & L2). exists j. rewrite L1. cbn [bind last_is].
        assert (j <> id).
        { intros ->. rewrite map_app in ND. cbn [map fst] in ND. apply NoDup_remove_2 in ND. apply ND. apply in_or_app. left. exact L2. }
        destruct (Nat.eqb_spec j id); [contradiction|]. cbn [bind].
        destruct (Z.ltb_spec (level l) (lv - 1)); [lia|]. destruct (Z.ltb_spec (level r) (lv - 1)); [lia|]. cbn [orb].
        split; [reflexivity|]. cbn [nodes]. rewrite map_app. apply in_or_app. left. exact L2.
  - destruct (IL C) as (P' & EP & Er). clear IL IH. subst P.
    assert (LD : lastd (nodes l ++ (id, d) :: P') del = lastd P' (DNode id)) by (unfold lastd; rewrite fold_left_app; reflexivity).
    rewrite LD.
    destruct r as [|rlv rl rid rd rr] eqn:ER0.
    + cbn [nodes] in Er. symmetry in Er. apply app_eq_nil in Er. destruct Er as [-> ->]. cbn [app] in *.
      cbn [level] in a2. assert (l = Leaf) by (apply leaf_level; [exact a4|]; lia). subst l. cbn [nodes app] in *.
      cbn [lastd fold_left remove bind last_is]. rewrite Nat.eqb_refl.
      destruct (test cmp t0 x (DNode id)) as [[|]| |] eqn:ET; cbn [bind]; auto.
      * exists id, Leaf, d. split; [reflexivity|]. split; [reflexivity|]. split; [exact I|]. unfold top_flat. cbn [level right] in *.
        split; [lia|]. split; [lia|]. left. exists []. split; reflexivity.
      * exists id. cbn [level] in *. destruct (Z.ltb_spec 0 (lv - 1)); [lia|]. cbn [orb]. split; [reflexivity|]. left. reflexivity.
    + rewrite <- ER0 in *. assert (NR : r <> Leaf) by (subst r; discriminate). clear ER0.
      assert (NDr : NoDup (map fst (nodes r))).
      { rewrite map_app in ND. apply nodup_app_r in ND. cbn [map] in ND. inversion ND; auto. }
      apply Forall_app in FP. destruct FP as [FP1 FP2]. inversion FP2 as [|? ? FP3 FP4]; subst.
      specialize (IHr (DNode id) (Some id) P' Q a5 NR Er FP4 FQ NDr).
      destruct (test cmp t0 x (lastd P' (DNode id))) as [[|]| |] eqn:ET; auto.
      * destruct IHr as (i & r' & d' & L1 & L2 & L3 & L4 & L5 & L6).
        destruct (fixup lv l id d r l r' A a4 L3) as (t' & Ef & F1 & F2 & F3 & F4); [right; auto|congruence|].
        exists i, t', d'. rewrite L2. cbn [bind last_is]. rewrite Ef.
        split; [exact L1|]. split; [reflexivity|]. split; [exact F1|]. split; [exact F2|]. split; [exact F3|].
        destruct L6 as [(P0 & -> & N6)|(j & Q0 & -> & N6)].
        -- left. exists (nodes l ++ (id, d) :: P0). split; [apps|]. rewrite F4, N6. apps.
        -- right. exists j, Q0. split; [reflexivity|]. rewrite F4, N6. apps.
      * destruct IHr as (j & L1 & L2). exists j. rewrite L1. cbn [bind last_is].
        assert (j <> id).
        { intros ->. rewrite map_app in ND. cbn [map fst] in ND. apply NoDup_remove_2 in ND. apply ND. apply in_or_app. right. exact L2. }
        destruct (Nat.eqb_spec j id); [contradiction|]. cbn [bind].
        destruct (Z.ltb_spec (level l) (lv - 1)); [lia|]. destruct (Z.ltb_spec (level r) (lv - 1)); [lia|]. cbn [orb].
        split; [reflexivity|]. cbn [nodes]. rewrite map_app. apply in_or_app. right. right. exact L2.
Qed.

(* --- the tree as a whole --- *)
Lemma list_eq_dec_nil {A} (l : list A) : l = [] \/ exists l0 a, l = l0 ++ [a].
Proof. induction l as [|x l _] using rev_ind; [left; reflexivity|right; eauto]. Qed.
Lemma lookup_in (t : tree) i d : lookup i t = Some d -> In (i, d) (nodes t).
Proof.
  induction t as [|lv l IHl id e r IHr]; cbn [lookup nodes]; [discriminate|].
  destruct (Nat.eqb_spec i id) as [->|Ne].
  - intros E. injection E as ->. apply in_or_app. right. left. reflexivity.
  - destruct (lookup i l) eqn:El.
    + intros E. injection E as ->. apply in_or_app. left. auto.
    + intros E. apply in_or_app. right. right. auto.
Qed.
Lemma lookup_some (t : tree) i : In i (map fst (nodes t)) -> exists d, lookup i t = Some d.
Proof.
  induction t as [|lv l IHl id e r IHr]; cbn [lookup nodes]; [intros []|].
  rewrite map_app, in_app_iff. cbn [map fst In].
  destruct (Nat.eqb_spec i id) as [->|Ne]; [eauto|].
  destruct (lookup i l) eqn:El; [eauto|].
  intros [H|[H|H]]; [destruct (IHl H); congruence|congruence|auto].
Qed.
Lemma nodup_fst (l : list (nat * T)) i a b : NoDup (map fst l) -> In (i, a) l -> In (i, b) l -> a = b.
Proof.
  induction l as [|[j c] l IH]; cbn [map fst In]; [intros _ []|]. intros N [H1|H1] [H2|H2]; inversion N; subst.
  - congruence.
  - injection H1 as -> ->. exfalso. apply H3. apply (in_map fst) in H2. exact H2.
  - injection H2 as -> ->. exfalso. apply H3. apply (in_map fst) in H1. exact H1.
  - auto.
Qed.
Lemma put_nodes i v (t : tree) : nodes (put i v t) = map (fun e => if Nat.eqb i (fst e) then (fst e, v) else e) (nodes t).
Proof.
  induction t as [|lv l IHl id e r IHr]; cbn [put nodes]; [reflexivity|].
  rewrite map_app. cbn [map fst]. rewrite IHl, IHr. destruct (Nat.eqb i id); reflexivity.
Qed.
Lemma put_shape i v (t : tree) : level (put i v t) = level t /\ level (right (put i v t)) = level (right t) /\ (aa t -> aa (put i v t)).
Proof.
  induction t as [|lv l (L1 & L2 & L3) id e r (R1 & R2 & R3)]; cbn [put level right aa]; [repeat split|].
  rewrite L1, R1, R2. repeat split; tauto.
Qed.
Lemma map_put_out i v (l : list (nat * T)) : ~ In i (map fst l) -> map (fun e => if Nat.eqb i (fst e) then (fst e, v) else e) l = l.
Proof.
  intros N. induction l as [|e l IH]; [reflexivity|]. cbn [map] in *. cbn [In] in N.
  destruct (Nat.eqb_spec i (fst e)); [exfalso; apply N; left; auto|]. rewrite IH by tauto. reflexivity.
Qed.

Lemma get_sound x (t : tree) y : Get cmp x t = Some y -> In y (map snd (nodes t)) /\ cmp x y = 0.
Proof.
  induction t as [|lv l IHl id d r IHr]; cbn [Get nodes]; [discriminate|].
  rewrite map_app, in_app_iff. cbn [map snd In].
  destruct (Z.eqb_spec (cmp x d) (-1)); [intros E; destruct (IHl E); auto|].
  destruct (Z.eqb_spec (cmp x d) 1); [intros E; destruct (IHr E); auto|].
  intros E. injection E as ->. destruct (tp_range cmp TP x y) as [?|[?|?]]; auto; lia.
Qed.
Lemma get_complete x (t : tree) : ascending cmp (map snd (nodes t)) -> Get cmp x t = None -> ~ present cmp x (map snd (nodes t)).
Proof.
  induction t as [|lv l IHl id d r IHr]; cbn [Get nodes]; [intros _ _ (y & [] & _)|].
  rewrite map_app. cbn [map snd]. intros A. apply asc_app in A. destruct A as (A1 & A2 & A3).
  apply asc_cons_inv in A2. destruct A2 as [A2 A4].
  destruct (Z.eqb_spec (cmp x d) (-1)) as [C|C]; [|destruct (Z.eqb_spec (cmp x d) 1) as [C1|C1]; [|discriminate]]; intros E (y & Hy & Ey);
    apply in_app_iff in Hy; cbn [In] in Hy.
  - apply (IHl A1 E). exists y. split; [|exact Ey]. destruct Hy as [Hy|[->|Hy]]; [exact Hy|lia|].
    exfalso. specialize (A4 y Hy). pose proof (cmp_lt_trans_l cmp TP x d y ltac:(lia) A4). lia.
  - apply (IHr A2 E). exists y. split; [|exact Ey]. destruct Hy as [Hy|[->|Hy]]; [|lia|exact Hy].
    exfalso. specialize (A3 y d Hy (or_introl eq_refl)). pose proof (tp_anti cmp TP x d). pose proof (tp_anti cmp TP x y).
    pose proof (cmp_lt_trans_r cmp TP y d x A3 ltac:(lia)). lia.
Qed.

Definition inv (s : aatree T) : Prop :=
  aa (root s) /\ ascending cmp (elements s) /\ NoDup (map fst (nodes (root s))) /\
  (forall i, In i (map fst (nodes (root s))) -> (i < next s)%nat) /\
  (forall i, deleted s = DNode i -> In i (map fst (nodes (root s)))).
Lemma inv_shows s : inv s -> shows cmp s (elements s).
Proof.
  intros (A & S1 & _). split; [reflexivity|]. split; [exact S1|]. split; [intros x y; apply get_sound|]. intros x. apply get_complete. exact S1.
Qed.
Lemma inv_new : inv new_aatree.
Proof. split; [exact I|]. split; [apply asc_nil|]. split; [constructor|]. split; [intros i []|discriminate]. Qed.

Lemma insert_ok s x : inv s -> exists s', Insert cmp s x = Ok s' /\ inv s' /\ Permutation (elements s') (x :: elements s) /\ deleted s' = deleted s.
Proof.
  intros (A & S1 & ND & B & DD). unfold Insert.
  destruct (insert_aa (next s) x (root s) A) as (t' & E & A' & _). rewrite E. cbn [bind].
  destruct (asc_split x _ S1) as (P & Q & EP & FP & FQ).
  pose proof (insert_nodes _ _ _ _ _ _ EP FP FQ E) as EN.
  eexists. split; [reflexivity|]. unfold inv, elements in *. cbn [root deleted next]. rewrite EN, EP in *.
  rewrite !map_app in *. cbn [map fst snd]. split; [|split; [|reflexivity]].
  - split; [exact A'|]. split; [|split; [|split]].
    + apply asc_app in S1. destruct S1 as (S1 & S2 & S3). apply asc_app. split; [exact S1|]. split.
      * apply asc_cons; [exact S2|]. intros y Hy. apply in_map_iff in Hy. destruct Hy as (e & <- & He).
        rewrite Forall_forall in FQ. specialize (FQ e He). unfold high in FQ. lia.
      * intros a b Ha [<-|Hb]; [|auto]. apply in_map_iff in Ha. destruct Ha as (e & <- & He).
        rewrite Forall_forall in FP. specialize (FP e He). unfold low in FP. rewrite (tp_anti cmp TP). lia.
    + apply NoDup_Add with (a := next s) (l := map fst P ++ map fst Q); [apply Add_app|].
      split; [exact ND|]. intros H. specialize (B _ H). lia.
    + intros i Hi. rewrite in_app_iff in *. cbn [In] in Hi. destruct Hi as [Hi|[<-|Hi]]; [|lia|]; specialize (B i); rewrite in_app_iff in B.
      * assert (i < next s)%nat by auto. lia.
      * assert (i < next s)%nat by auto. lia.
    + intros i Hi. specialize (DD i Hi). rewrite in_app_iff in *. cbn [In]. tauto.
  - symmetry. apply Permutation_middle.
Qed.

Lemma lastd_snoc P i d del : lastd (P ++ [(i, d)]) del = DNode i.
Proof. unfold lastd. rewrite fold_left_app. reflexivity. Qed.

Lemma remove_ok s x : inv s -> deleted s <> DGarbage \/ settles cmp (ORemove x) (elements s) \/ elements s = [] ->
  exists s' r, Remove cmp s x = Ok (s', r) /\ inv s' /\ effect cmp (ORemove x) (elements s) (elements s') r /\
    (deleted s <> DGarbage \/ settles cmp (ORemove x) (elements s) -> deleted s' <> DGarbage).
Proof.
  intros I V. pose proof I as (A & S1 & ND & B & DD). unfold Remove.
  destruct (root s) as [|lv l id d r] eqn:ER.
  { cbn [remove bind]. eexists _, _. split; [reflexivity|]. unfold inv, elements in *. cbn [root deleted next nodes map]. rewrite ER in *.
    cbn [nodes map] in *. split; [auto|]. split.
    - cbn [effect]. split; [auto|]. intros (y & [] & _).
    - intros [H|(y & [] & _)]. exact H. }
  rewrite <- ER in *. assert (NL : root s <> Leaf) by (rewrite ER; discriminate). clear ER.
  destruct (asc_split x _ S1) as (P & Q & EP & FP & FQ).
  assert (HS : settles cmp (ORemove x) (elements s) -> P <> []).
  { intros (y & Hy & Ey) ->. cbn [app] in EP. unfold elements in Hy. rewrite EP in Hy. apply in_map_iff in Hy. destruct Hy as (e & <- & He).
    rewrite Forall_forall in FQ. specialize (FQ e He). unfold high in FQ. rewrite (tp_anti cmp TP) in Ey. lia. }
  assert (NE : elements s <> []).
  { unfold elements. destruct (root s); [congruence|]. cbn [nodes]. rewrite map_app. intros E. apply app_eq_nil in E. destruct E; discriminate. }
  (* the value of the test *)
  assert (TT : exists b, test cmp (root s) x (lastd P (deleted s)) = Ok b /\ lastd P (deleted s) <> DGarbage /\
    (b = true -> exists P0 i d0, P = P0 ++ [(i, d0)] /\ cmp x d0 = 0) /\ (b = false -> ~ present cmp x (elements s)) /\
    (forall i, lastd P (deleted s) = DNode i -> In i (map fst (nodes (root s))))).
  { destruct (list_eq_dec_nil P) as [->|(P0 & [i d0] & ->)].
    - cbn [lastd fold_left]. cbn [app] in EP.
      assert (NP : ~ present cmp x (elements s)).
      { intros (y & Hy & Ey). unfold elements in Hy. rewrite EP in Hy. apply in_map_iff in Hy. destruct Hy as (e & <- & He).
        rewrite Forall_forall in FQ. specialize (FQ e He). unfold high in FQ. lia. }
      destruct (deleted s) as [| |i] eqn:ED.
      + exfalso. destruct V as [V|[V|V]]; [congruence|apply (HS V); reflexivity|contradiction].
      + exists false. split; [reflexivity|]. split; [discriminate|]. split; [discriminate|]. split; [auto|discriminate].
      + destruct (lookup_some (root s) i) as (d0 & El); [apply DD; reflexivity|]. cbn [test]. rewrite El.
        pose proof (lookup_in _ _ _ El) as Hin. rewrite EP in Hin. rewrite Forall_forall in FQ. specialize (FQ _ Hin). unfold high in FQ. cbn [snd] in FQ.
        exists false. destruct (Z.eqb_spec (cmp x d0) 0); [lia|]. split; [reflexivity|]. split; [discriminate|]. split; [discriminate|]. split; [auto|exact DD].
    - rewrite lastd_snoc. cbn [test].
      assert (Hin : In (i, d0) (nodes (root s))) by (rewrite EP; apply in_or_app; left; apply in_or_app; right; left; reflexivity).
      destruct (lookup_some (root s) i) as (d1 & El); [apply (in_map fst) in Hin; exact Hin|]. rewrite El.
      pose proof (nodup_fst _ _ _ _ ND (lookup_in _ _ _ El) Hin). subst d1.
      exists (cmp x d0 =? 0). split; [reflexivity|]. split; [discriminate|]. split; [|split].
      + intros E. exists P0, i, d0. split; [reflexivity|lia].
      + intros E (y & Hy & Ey). unfold elements in *. rewrite EP in Hy, S1. rewrite !map_app in Hy, S1. cbn [map snd] in Hy, S1.
        apply Forall_app in FP. destruct FP as [_ FP]. inversion FP as [|? ? FP1 _]; subst. unfold low in FP1. cbn [snd] in FP1.
        rewrite !in_app_iff in Hy. cbn [In] in Hy. pose proof (tp_anti cmp TP x y).
        destruct Hy as [[Hy|[<-|[]]]|Hy].
        * apply asc_app in S1. destruct S1 as [S1 _]. apply asc_app in S1. destruct S1 as (_ & _ & S1). specialize (S1 y d0 Hy (or_introl eq_refl)).
          pose proof (cmp_trans cmp TP x y d0 ltac:(lia) S1). lia.
        * lia.
        * apply in_map_iff in Hy. destruct Hy as (e & <- & He). rewrite Forall_forall in FQ. specialize (FQ e He). unfold high in FQ. lia.
      + intros j E. injection E as <-. apply (in_map fst) in Hin. exact Hin. }
  destruct TT as (b & ET & NG & TT1 & TT2 & TT3).
  pose proof (remove_spec (root s) x (root s) (deleted s) None P Q A NL EP FP FQ ND) as RS. rewrite ET in RS.
  destruct b.
  - destruct RS as (i & t' & d1 & L1 & -> & A' & _ & _ & HN). cbn [bind]. destruct (TT1 eq_refl) as (P0 & i0 & d0 & -> & E0). clear TT1.
    rewrite lastd_snoc in L1. injection L1 as ->.
    eexists _, _. split; [reflexivity|]. destruct (put_shape i d1 t') as (_ & _ & PA).
    (* the nodes afterwards *)
    assert (EN : map snd (nodes (put i d1 t')) = map snd P0 ++ map snd Q /\
                 NoDup (map fst (nodes (put i d1 t'))) /\ (forall j, In j (map fst (nodes (put i d1 t'))) -> In j (map fst (nodes (root s))))).
    { rewrite put_nodes. rewrite EP in ND |- *. rewrite !map_app in ND |- *. cbn [map fst] in ND |- *.
      destruct HN as [(P1 & EP1 & ->)|(j & Q0 & -> & ->)].
      - apply app_inj_tail in EP1. destruct EP1 as [<- _]. rewrite <- app_assoc in ND. cbn [app] in ND.
        rewrite map_put_out by (rewrite map_app; apply NoDup_remove_2 in ND; exact ND).
        rewrite !map_app. split; [reflexivity|]. split; [apply NoDup_remove_1 in ND; exact ND|]. intros j. rewrite !in_app_iff. tauto.
      - cbn [map fst snd] in *. rewrite <- !app_assoc in *. cbn [app] in *. rewrite map_app. cbn [map fst]. rewrite Nat.eqb_refl.
        assert (ND' := ND). apply NoDup_remove_2 in ND'. rewrite in_app_iff in ND'. cbn [In] in ND'.
        rewrite (map_put_out i d1 P0) by tauto. rewrite (map_put_out i d1 Q0) by tauto.
        rewrite !map_app. cbn [map fst snd]. split; [reflexivity|].
        split; [|intros k; rewrite !in_app_iff; cbn [In]; tauto].
        change (map fst P0 ++ i :: j :: map fst Q0) with (map fst P0 ++ [i] ++ j :: map fst Q0) in ND. rewrite app_assoc in ND.
        apply NoDup_remove_1 in ND. rewrite <- app_assoc in ND. exact ND. }
    destruct EN as (EN1 & EN2 & EN3). unfold inv, elements in *. cbn [root deleted next]. rewrite EN1.
    rewrite EP in S1 |- *. rewrite !map_app in S1 |- *. cbn [map snd] in S1 |- *.
    split; [|split].
    + split; [apply PA; exact A'|]. split; [|split; [exact EN2|split; [intros j Hj; apply B; auto|discriminate]]].
      rewrite <- app_assoc in S1. apply asc_app in S1. destruct S1 as (S1 & S2 & S3). apply asc_app in S2. destruct S2 as (_ & S2 & _).
      apply asc_app. split; [exact S1|]. split; [exact S2|]. intros a c Ha Hc. apply S3; [exact Ha|]. apply in_or_app. right. exact Hc.
    + cbn [effect]. split.
      * intros NP. exfalso. apply NP. exists d0. split; [|exact E0]. apply in_or_app. left. apply in_or_app. right. left. reflexivity.
      * intros _. exists d0. split; [exact E0|]. split; [|reflexivity]. rewrite <- app_assoc. symmetry. apply Permutation_middle.
    + discriminate.
  - destruct RS as (j & -> & _). cbn [bind]. eexists _, _. split; [reflexivity|]. unfold inv, elements. cbn [root deleted next].
    split; [split; [exact A|split; [exact S1|split; [exact ND|split; [exact B|exact TT3]]]]|].
    split; [|intros _; exact NG]. cbn [effect]. split; [auto|]. intros Pr. exfalso. exact (TT2 eq_refl Pr).
Qed.

Lemma reachable_inv s armed : reachable cmp s armed -> inv s /\ (armed -> deleted s <> DGarbage).
Proof.
  induction 1 as [|s armed o s' r _ [IH IA] V E]; [split; [apply inv_new|intros []]|].
  destruct o as [x|x]; cbn [a_step] in E.
  - destruct (insert_ok s x IH) as (s1 & E1 & I1 & _ & D1). rewrite E1 in E. cbn [bind] in E. injection E as <- _.
    split; [exact I1|]. rewrite D1. cbn [settles]. tauto.
  - destruct (remove_ok s x IH) as (s1 & r1 & E1 & I1 & _ & D1); [cbn [valid] in V; tauto|]. rewrite E1 in E. injection E as <- _.
    split; [exact I1|]. intros H. apply D1. tauto.
Qed.

(* --- height --- *)
Lemma aa_height (t : tree) : aa t -> height t <= 2 * level t /\ (level (right t) < level t -> height t <= 2 * level t - 1) /\
  2 ^ level t <= Z.of_nat (length (nodes t)) + 1.
Proof.
  induction t as [|lv l IHl id d r IHr]; cbn [aa height level right nodes]; [intros _; repeat split; cbn; lia|].
  intros (a1 & a2 & a3 & a4 & a5). destruct (IHl a4) as (l1 & l2 & l3). destruct (IHr a5) as (r1 & r2 & r3).
  pose proof (aa_level _ a4) as [Pl _]. pose proof (aa_level _ a5) as [Pr _].
  split; [lia|]. split; [lia|]. rewrite app_length. cbn [length].
  assert (2 ^ (lv - 1) <= 2 ^ level r) by (apply Z.pow_le_mono_r; lia).
  replace lv with (Z.succ (lv - 1)) at 1 by lia. rewrite Z.pow_succ_r by lia. rewrite a1 in l3. lia.
Qed.
End Proofs.

(* Main theorem: from every reachable state, each call (restricted as above) is defined and does what the multiset says;
   Get finds an element equal to its argument exactly when there is one. *)
Theorem C33_AATree_multiset_partial : forall (T : Type) (cmp : T -> T -> Z), total_preorder cmp ->
  forall s armed, reachable cmp s armed ->
  shows cmp s (elements s) /\
  forall o, valid cmp o (elements s) armed ->
    exists s' r, a_step cmp s o = Ok (s', r) /\ shows cmp s' (elements s') /\ effect cmp o (elements s) (elements s') r.
Proof.
  intros T cmp TP s armed R. destruct (reachable_inv cmp TP s armed R) as [I IA]. split; [apply inv_shows; auto|].
  intros [x|x] V; cbn [a_step].
  - destruct (insert_ok cmp TP s x I) as (s' & E & I' & Pm & _). rewrite E. cbn [bind]. eexists _, _. split; [reflexivity|].
    split; [apply inv_shows; auto|exact Pm].
  - destruct (remove_ok cmp TP s x I) as (s' & r & E & I' & Ef & _); [cbn [valid] in V; tauto|].
    exists s', r. split; [exact E|]. split; [apply inv_shows; auto|exact Ef].
Qed.
Print Assumptions C33_AATree_multiset_partial.

(* The level invariants hold in every reachable state, so the longest path has at most 2*log2(n+1) nodes. *)
Theorem C33_AATree_levels : forall (T : Type) (cmp : T -> T -> Z), total_preorder cmp ->
  forall s armed, reachable cmp s armed ->
  aa (root s) /\ height (root s) <= 2 * Z.log2 (Z.of_nat (length (elements s)) + 1).
Proof.
  intros T cmp TP s armed R. destruct (reachable_inv cmp TP s armed R) as [(A & _) _]. split; [exact A|].
  destruct (aa_height (root s) A) as (H1 & _ & H2). unfold elements. rewrite map_length.
  assert (level (root s) <= Z.log2 (Z.of_nat (length (nodes (root s))) + 1)).
  { destruct (aa_level (root s) A) as [P _]. apply Z.log2_le_pow2; lia. }
  lia.
Qed.
Print Assumptions C33_AATree_levels.

(* The defect: on a tree on which no Remove has met an element at or below its argument, Remove of a value smaller than
   every element reads the uninitialised _deleted (AATree.h:142; the constructors, 25-37, do not set it). *)
Theorem C33_Remove_refuted : forall x y : Z, x < y ->
  exists s, Insert zcmp new_aatree y = Ok s /\ Remove zcmp s x = UB.
Proof.
  intros x y L. eexists. split; [reflexivity|]. unfold Remove. cbn [root remove]. unfold zcmp.
  destruct (Z.compare_spec x y); try lia. reflexivity.
Qed.
Print Assumptions C33_Remove_refuted.

(* ten elements with duplicates, removals of present and absent values *)
Fixpoint run_ops (s : aatree Z) (l : list (a_op Z)) : res (aatree Z * list bool) :=
  match l with
  | [] => Ok (s, [])
  | o :: l => do (s1, b) <- a_step zcmp s o; do (s2, bs) <- run_ops s1 l; Ok (s2, b :: bs)
  end.
Example C33_example : exists s, run_ops new_aatree (map OInsert [5; 2; 8; 1; 9; 3; 8; 4; 7; 6] ++ map ORemove [8; 10; 5; 0; 1]) =
    Ok (s, [true; true; true; true; true; true; true; true; true; true; true; false; true; false; true]) /\
  elements s = [2; 3; 4; 6; 7; 8; 9].
Proof. eexists. split; vm_compute; reflexivity. Qed.
Example C33_reachable : exists s armed, reachable zcmp s armed /\ elements s = [2; 8; 8] /\ armed /\ valid zcmp (ORemove 0) (elements s) armed.
Proof.
  pose proof (r_step zcmp _ _ (OInsert 2) _ _ (r_new zcmp) I eq_refl) as R1.
  pose proof (r_step zcmp _ _ (OInsert 8) _ _ R1 I eq_refl) as R2.
  pose proof (r_step zcmp _ _ (OInsert 5) _ _ R2 I eq_refl) as R3.
  pose proof (r_step zcmp _ _ (OInsert 8) _ _ R3 I eq_refl) as R4.
  assert (H : settles zcmp (ORemove 5) [2; 5; 8; 8]) by (exists 2; split; [left; reflexivity|vm_compute; discriminate]).
  pose proof (r_step zcmp _ _ (ORemove 5) _ _ R4 (or_intror (or_introl H)) eq_refl) as R5.
  do 2 eexists. split; [exact R5|]. split; [vm_compute; reflexivity|]. split; [right; exact H|left; right; exact H].
Qed.
