(* Properties C31 (AVLTree is a finite map) and C32 (it stays height balanced). *)
From Coq Require Import List ZArith Bool Lia Permutation Sorted.
From Coq Require Import ZifyBool ZifyNat.
From Verif Require Import Common OrderSpec OrderProofs AVLTree.
Import ListNotations.
Local Open Scope Z_scope.

Section Spec.
Context {K D : Type} (cmp : K -> K -> Z) (dflt : D).

(* the entries of the map in enumeration order; keys are strictly descending for the comparator *)
Definition descending (l : list (K * D)) : Prop := StronglySorted (fun x y => cmp (fst x) (fst y) > 0) l.
Definition present (k : K) (l : list (K * D)) : Prop := exists k' d, In (k', d) l /\ cmp k' k = 0.
(* what the tree shows: Traverse enumerates the entries, Get finds the entry of each key, Near an entry that no other
   entry separates from the key *)
Definition shows (t : tree K D) (l : list (K * D)) : Prop :=
  Traverse t = l /\ descending l /\
  (forall k k' d, In (k', d) l -> cmp k' k = 0 -> Get cmp t k = Some d) /\
  (forall k, ~ present k l -> Get cmp t k = None) /\
  (forall k, match Near cmp t k with
             | None => l = []
             | Some (k', d) => In (k', d) l /\ (present k l -> cmp k' k = 0) /\
                 forall e, In e l -> ~ (cmp k' (fst e) < 0 /\ cmp (fst e) k < 0) /\ ~ (cmp k (fst e) < 0 /\ cmp (fst e) k' < 0)
             end).
(* the effect of each call on the map, and what it returns *)
Definition effect (o : t_op K D) (l l' : list (K * D)) (r : bool) : Prop :=
  match o with
  | OInsert k d => (present k l -> l' = l /\ r = false) /\ (~ present k l -> Permutation l' ((k, d) :: l) /\ r = true)
  | ORemove k => (~ present k l -> l' = l /\ r = false) /\
                 (present k l -> exists k' d, cmp k' k = 0 /\ Permutation l ((k', d) :: l') /\ r = true)
  | OReplaceKey a b =>
      (* moves the data of a to the key b ... *)
      (forall k' d l0, cmp k' a = 0 -> Permutation l ((k', d) :: l0) ->
        (~ present b l0 -> Permutation l' ((b, d) :: l0) /\ r = true) /\
        (* ... unless there is a b already: then the entry of a is deleted *)
        (present b l0 -> Permutation l' l0 /\ r = false)) /\
      (* if there is no a, it is an insertion of b with default data *)
      (~ present a l -> (present b l -> l' = l /\ r = false) /\ (~ present b l -> Permutation l' ((b, dflt) :: l) /\ r = true))
  | OClear => l' = []
  end.
Inductive reachable : tree K D -> Prop :=
| r_new : reachable Leaf
| r_step t o t' r : reachable t -> t_step cmp dflt t o = Ok (t', r) -> reachable t'.

(* C32 vocabulary *)
Fixpoint height (t : tree K D) : Z := match t with Leaf => 0 | Node l _ _ _ r => 1 + Z.max (height l) (height r) end.
Fixpoint balanced (t : tree K D) : Prop :=
  match t with
  | Leaf => True
  | Node l _ _ b r => b = height r - height l /\ -1 <= b <= 1 /\ balanced l /\ balanced r
  end.
End Spec.

Section Proofs.
Context {K D : Type} (cmp : K -> K -> Z) (TP : total_preorder cmp).
Notation tree := (tree K D).

Lemma height_nonneg (t : tree) : 0 <= height t.
Proof. induction t; cbn [height]; lia. Qed.

(* --- rotations --- *)
Ltac apps := repeat (progress (rewrite <- ?app_assoc; cbn [app])); reflexivity.
Lemma rebalance_ok (l r : tree) k d b : balanced l -> balanced r -> b = height r - height l -> -2 <= b <= 2 ->
  exists t' c, rebalance (Node l k d b r) = Ok (t', c) /\ balanced t' /\ (c = 0 \/ c = 1) /\
    height t' = height (Node l k d b r) - c /\ (-1 <= b <= 1 -> c = 0) /\ traverse t' = traverse (Node l k d b r).
Proof.
  intros BL BR E R. unfold rebalance.
  destruct (Z.ltb_spec b (-1)) as [H1|H1]; [|destruct (Z.ltb_spec 1 b) as [H2|H2]].
  - destruct l as [|ll lk ld lb lr]; [cbn [height] in E; pose proof (height_nonneg r); lia|].
    cbn [balanced] in BL. destruct BL as (EL & RL & BLL & BLR). cbn [balance bind height] in *.
    destruct (Z.eqb_spec lb 1) as [H3|H3].
    + destruct lr as [|lrl lrk lrd lrb lrr]; [cbn [height] in *; pose proof (height_nonneg ll); lia|].
      cbn [balanced height] in *. destruct BLR as (ELR & RLR & BLRL & BLRR). cbn [leftRotate bind rightRotate].
      eexists _, _. split; [reflexivity|]. cbn [balanced height traverse].
      repeat split; auto; try lia; apps.
    + cbn [rightRotate bind]. eexists _, _. split; [reflexivity|]. cbn [balanced height traverse].
      destruct (Z.eqb_spec lb 0); repeat split; auto; try lia; apps.
  - destruct r as [|rl rk rd rb rr]; [cbn [height] in E; pose proof (height_nonneg l); lia|].
    cbn [balanced] in BR. destruct BR as (ER & RR & BRL & BRR). cbn [balance bind height] in *.
    destruct (Z.eqb_spec rb (-1)) as [H3|H3].
    + destruct rl as [|rll rlk rld rlb rlr]; [cbn [height] in *; pose proof (height_nonneg rr); lia|].
      cbn [balanced height] in *. destruct BRL as (ERL & RRL & BRLL & BRLR). cbn [leftRotate bind rightRotate].
      eexists _, _. split; [reflexivity|]. cbn [balanced height traverse].
      repeat split; auto; try lia; apps.
    + cbn [leftRotate bind]. eexists _, _. split; [reflexivity|]. cbn [balanced height traverse].
      destruct (Z.eqb_spec rb 0); repeat split; auto; try lia; apps.
  - exists (Node l k d b r), 0. split; [reflexivity|]. cbn [balanced height]. repeat split; auto; lia.
Qed.

(* --- descending lists --- *)
Notation gt_ := (fun x y : K * D => cmp (fst x) (fst y) > 0).
Lemma desc_app (a b : list (K * D)) : descending cmp (a ++ b) <-> descending cmp a /\ descending cmp b /\ (forall x y, In x a -> In y b -> cmp (fst x) (fst y) > 0).
Proof.
  unfold descending. induction a as [|x a IH]; cbn [app].
  - split; [intros H; repeat split; auto; [constructor|intros x y []]|tauto].
  - split.
    + intros H. inversion H as [|? ? H1 H2]; subst. apply IH in H1. destruct H1 as (A & B & C). rewrite Forall_app in H2. destruct H2 as (F1 & F2).
      split; [constructor; auto|]. split; [auto|]. intros u v [<-|Hu] Hv; [|auto]. rewrite Forall_forall in F2. apply F2, Hv.
    + intros (A & B & C). inversion A as [|? ? A1 A2]; subst. constructor.
      * apply IH. repeat split; auto. intros u v Hu Hv. apply C; auto. now right.
      * apply Forall_app. split; auto. apply Forall_forall. intros v Hv. apply C; auto. now left.
Qed.
Lemma desc_cons (x : K * D) a : descending cmp (x :: a) <-> descending cmp a /\ (forall y, In y a -> cmp (fst x) (fst y) > 0).
Proof.
  change (x :: a) with ([x] ++ a). rewrite desc_app. split.
  - intros (_ & A & B). split; auto. intros y Hy. apply B; auto. now left.
  - intros (A & B). split; [repeat constructor|]. split; auto. intros u y [<-|[]]. auto.
Qed.
Lemma desc_mid (a : list (K * D)) k d b : descending cmp (a ++ (k, d) :: b) <->
  descending cmp a /\ descending cmp b /\ (forall x, In x a -> cmp (fst x) k > 0) /\ (forall y, In y b -> cmp k (fst y) > 0) /\
  (forall x y, In x a -> In y b -> cmp (fst x) (fst y) > 0).
Proof.
  rewrite desc_app, desc_cons. split.
  - intros (A & (B & B') & C). repeat split; auto.
    + intros x Hx. apply (C x (k, d) Hx). now left.
    + intros x y Hx Hy. apply C; auto. now right.
  - intros (A & B & C & E & F). repeat split; auto. intros x y Hx [<-|Hy]; [apply C|apply F]; auto.
Qed.
Lemma cmp_flip x y : cmp x y = - cmp y x. Proof. apply (tp_anti cmp TP). Qed.
Lemma gt_lt x y : cmp x y > 0 <-> cmp y x < 0. Proof. rewrite (cmp_flip x y). lia. Qed.
Lemma lt_le_trans x y z : cmp x y < 0 -> cmp y z <= 0 -> cmp x z < 0. Proof. apply cmp_lt_trans_l, TP. Qed.
Lemma le_lt_trans x y z : cmp x y <= 0 -> cmp y z < 0 -> cmp x z < 0. Proof. apply cmp_lt_trans_r, TP. Qed.
Lemma eq_sym x y : cmp x y = 0 -> cmp y x = 0. Proof. rewrite (cmp_flip y x). lia. Qed.

(* two entries of a descending list with equivalent keys are the same *)
Lemma desc_unique (l : list (K * D)) k1 d1 k2 d2 : descending cmp l -> In (k1, d1) l -> In (k2, d2) l -> cmp k1 k2 = 0 -> (k1, d1) = (k2, d2).
Proof.
  intros DS I1 I2 E. apply in_split in I1. destruct I1 as (a & b & ->). apply desc_mid in DS. destruct DS as (_ & _ & A & B & _).
  apply in_app_iff in I2. destruct I2 as [I|[I|I]]; auto.
  - specialize (A _ I). cbn in A. rewrite (cmp_flip k2 k1) in A. lia.
  - specialize (B _ I). cbn in B. lia.
Qed.
(* descending lists with the same entries are equal *)
Lemma desc_perm_eq (l1 l2 : list (K * D)) : descending cmp l1 -> descending cmp l2 -> Permutation l1 l2 -> l1 = l2.
Proof.
  revert l2. induction l1 as [|x l1 IH]; intros l2 D1 D2 P.
  - apply Permutation_nil in P. auto.
  - destruct l2 as [|y l2]; [apply Permutation_sym, Permutation_nil_cons in P; contradiction|].
    assert (x = y).
    { apply desc_cons in D1, D2. destruct D1 as (_ & D1), D2 as (_ & D2).
      assert (I1 : In x (y :: l2)) by (eapply Permutation_in; [exact P|now left]).
      assert (I2 : In y (x :: l1)) by (eapply Permutation_in; [apply Permutation_sym, P|now left]).
      destruct I1 as [|I1]; auto. destruct I2 as [|I2]; auto. specialize (D1 _ I2). specialize (D2 _ I1). rewrite (cmp_flip (fst y)) in D2. lia. }
    subst y. f_equal. apply desc_cons in D1, D2. apply IH; [apply D1|apply D2|]. eapply Permutation_cons_inv, P.
Qed.

(* --- lookups --- *)
Lemma find_ok (t : tree) k : descending cmp (traverse t) ->
  (forall k' d, In (k', d) (traverse t) -> cmp k' k = 0 -> find cmp k t = Some (k', d)) /\
  (~ present cmp k (traverse t) -> find cmp k t = None).
Proof.
  induction t as [|l IHl tk td b r IHr]; cbn [traverse find]; intros DS.
  - split; [intros k' d []|auto].
  - pose proof DS as DS0. apply desc_mid in DS. destruct DS as (DL & DR & A & B & C). destruct (IHl DL) as (L1 & L2). destruct (IHr DR) as (R1 & R2).
    destruct (tp_range cmp TP tk k) as [E|[E|E]].
    + replace (cmp tk k =? -1) with true by lia. split.
      * intros k' d I Ek. apply in_app_iff in I. destruct I as [I|[I|I]]; [auto|inversion I; subst; lia|].
        specialize (B _ I). cbn in B. apply gt_lt in B. pose proof (lt_le_trans _ _ _ B (ltac:(lia) : cmp tk k <= 0)). lia.
      * intros NP. apply L2. intros (k' & d & I & Ek). apply NP. exists k', d. rewrite in_app_iff. auto.
    + replace (cmp tk k =? -1) with false by lia. replace (cmp tk k =? 1) with false by lia. split.
      * intros k' d I Ek. f_equal. symmetry. eapply desc_unique; [exact DS0|exact I|rewrite in_app_iff; cbn; auto|].
        apply Z.le_antisymm; [eapply (cmp_trans cmp TP _ k); [lia|rewrite cmp_flip; lia]|]. pose proof (cmp_trans cmp TP tk k k' ltac:(lia) ltac:(rewrite cmp_flip; lia)). rewrite (cmp_flip k' tk). lia.
      * intros NP. exfalso. apply NP. exists tk, td. rewrite in_app_iff. cbn. auto.
    + replace (cmp tk k =? -1) with false by lia. replace (cmp tk k =? 1) with true by lia. split.
      * intros k' d I Ek. apply in_app_iff in I. destruct I as [I|[I|I]]; [|inversion I; subst; lia|auto].
        specialize (A _ I). cbn in A. apply gt_lt in A. pose proof (lt_le_trans _ _ _ A (ltac:(lia) : cmp k' k <= 0)). lia.
      * intros NP. apply R2. intros (k' & d & I & Ek). apply NP. exists k', d. rewrite in_app_iff. cbn. auto.
Qed.

Definition near_spec (k : K) (l : list (K * D)) (e : K * D) : Prop :=
  In e l /\ (present cmp k l -> cmp (fst e) k = 0) /\
  forall x, In x l -> ~ (cmp (fst e) (fst x) < 0 /\ cmp (fst x) k < 0) /\ ~ (cmp k (fst x) < 0 /\ cmp (fst x) (fst e) < 0).
Lemma near_ok (t : tree) k prev : descending cmp (traverse t) ->
  match near cmp k t prev with
  | None => t = Leaf /\ prev = None
  | Some e => (t = Leaf /\ prev = Some e) \/ near_spec k (traverse t) e
  end.
Proof.
  revert prev. induction t as [|l IHl tk td b r IHr]; cbn [traverse near]; intros prev DS.
  - destruct prev; auto.
  - apply desc_mid in DS. destruct DS as (DL & DR & A & B & C).
    destruct (tp_range cmp TP tk k) as [E|[E|E]].
    + replace (cmp tk k =? -1) with true by lia. specialize (IHl (Some (tk, td)) DL). destruct (near cmp k l (Some (tk, td))) as [e|]; [|destruct IHl; discriminate].
      right. destruct IHl as [(-> & Q)|(I1 & I2 & I3)].
      * inversion Q; subst e. cbn [traverse app] in *. split; [now left|]. split.
        -- intros (k' & d & [I|I] & Ek); [inversion I; subst; auto|]. specialize (B _ I). cbn in B. apply gt_lt in B. pose proof (lt_le_trans _ _ _ B (ltac:(lia) : cmp tk k <= 0)). lia.
        -- intros x [<-|I]; cbn [fst].
           ++ pose proof (cmp_refl cmp TP tk). split; lia.
           ++ specialize (B _ I). cbn in B. apply gt_lt in B. split; [rewrite (cmp_flip tk); lia|]. pose proof (lt_le_trans _ _ _ B (ltac:(lia) : cmp tk k <= 0)). rewrite (cmp_flip k). lia.
      * pose proof (A _ I1) as Ae. apply gt_lt in Ae. split; [rewrite in_app_iff; auto|]. split.
        -- intros (k' & d & I & Ek). apply I2. apply in_app_iff in I. destruct I as [I|[I|I]]; [exists k', d; auto|inversion I; subst; lia|].
           specialize (B _ I). cbn in B. apply gt_lt in B. pose proof (lt_le_trans _ _ _ B (ltac:(lia) : cmp tk k <= 0)). lia.
        -- intros x I. apply in_app_iff in I. destruct I as [I|[<-|I]]; [auto| |]; cbn [fst].
           ++ split; [rewrite (cmp_flip (fst e)); lia|]. rewrite (cmp_flip k). lia.
           ++ specialize (B _ I). cbn in B. apply gt_lt in B. pose proof (lt_le_trans _ _ _ B (ltac:(lia) : cmp tk k <= 0)).
              pose proof (lt_le_trans _ _ _ B (ltac:(lia) : cmp tk (fst e) <= 0)). split; [rewrite (cmp_flip (fst e)); lia|rewrite (cmp_flip k); lia].
    + replace (cmp tk k =? -1) with false by lia. replace (cmp tk k =? 1) with false by lia. right. split; [rewrite in_app_iff; cbn; auto|]. split; [auto|].
      cbn [fst]. intros x _. split; intros (H1 & H2).
      * pose proof (lt_le_trans _ _ _ H1 (ltac:(lia) : cmp (fst x) k <= 0)). lia.
      * pose proof (lt_le_trans _ _ _ H1 (ltac:(lia) : cmp (fst x) tk <= 0)). rewrite cmp_flip in H. lia.
    + replace (cmp tk k =? -1) with false by lia. replace (cmp tk k =? 1) with true by lia. assert (E' : cmp k tk < 0) by (apply gt_lt; lia).
      specialize (IHr (Some (tk, td)) DR). destruct (near cmp k r (Some (tk, td))) as [e|]; [|destruct IHr; discriminate].
      right. destruct IHr as [(-> & Q)|(I1 & I2 & I3)].
      * inversion Q; subst e. cbn [traverse] in *. split; [rewrite in_app_iff; cbn; auto|]. cbn [fst]. split.
        -- intros (k' & d & I & Ek). apply in_app_iff in I. destruct I as [I|[I|[]]]; [|inversion I; subst; auto]. specialize (A _ I). cbn in A. apply gt_lt in A.
           pose proof (lt_le_trans _ _ _ A (ltac:(lia) : cmp k' k <= 0)). lia.
        -- intros x I. apply in_app_iff in I. destruct I as [I|[<-|[]]]; cbn [fst].
           ++ specialize (A _ I). apply gt_lt in A. pose proof (lt_le_trans _ _ _ E' (ltac:(lia) : cmp tk (fst x) <= 0)). split; [rewrite (cmp_flip _ k); lia|]. rewrite (cmp_flip _ tk). lia.
           ++ pose proof (cmp_refl cmp TP tk). split; lia.
      * pose proof (B _ I1) as Be. apply gt_lt in Be. split; [rewrite in_app_iff; cbn; auto|]. split.
        -- intros (k' & d & I & Ek). apply I2. apply in_app_iff in I. destruct I as [I|[I|I]]; [|inversion I; subst; lia|exists k', d; auto].
           specialize (A _ I). cbn in A. apply gt_lt in A. pose proof (lt_le_trans _ _ _ A (ltac:(lia) : cmp k' k <= 0)). lia.
        -- intros x I. apply in_app_iff in I. destruct I as [I|[<-|I]]; [| |auto]; cbn [fst].
           ++ specialize (A _ I). apply gt_lt in A. pose proof (lt_le_trans _ _ _ E' (ltac:(lia) : cmp tk (fst x) <= 0)). pose proof (lt_le_trans _ _ _ Be (ltac:(lia) : cmp tk (fst x) <= 0)).
              split; [rewrite (cmp_flip _ k); lia|rewrite (cmp_flip (fst x)); lia].
           ++ split; [lia|]. rewrite (cmp_flip tk). lia.
Qed.

Lemma insert_ok (t : tree) k d : balanced t -> descending cmp (traverse t) ->
  exists t' c n, insert cmp k d t = Ok (t', c, n) /\ balanced t' /\ (c = 0 \/ c = 1) /\ height t' = height t + c /\
    ((n = false /\ present cmp k (traverse t) /\ t' = t /\ c = 0) \/
     (n = true /\ ~ present cmp k (traverse t) /\ exists a b, traverse t = a ++ b /\ traverse t' = a ++ (k, d) :: b /\
       (forall x, In x a -> cmp (fst x) k > 0) /\ (forall y, In y b -> cmp k (fst y) > 0))).
Proof.
  induction t as [|l IHl tk td b r IHr]; cbn [traverse insert]; intros BAL DS.
  - eexists _, _, _. split; [reflexivity|]. cbn [balanced height]. split; [lia|]. split; [auto|]. split; [lia|]. right. split; [auto|]. split.
    + intros (k' & d' & [] & _).
    + exists [], []. cbn. intuition.
  - cbn [balanced] in BAL. destruct BAL as (EB & RB & BL & BR). pose proof DS as DS0. apply desc_mid in DS. destruct DS as (DL & DR & A & B & C).
    destruct (tp_range cmp TP tk k) as [E|[E|E]].
    + rewrite E. cbn [Z.eqb Z.ltb Z.compare]. destruct (IHl BL DL) as (l1 & c & n & -> & B1 & RC & H1 & CASE). cbn [bind].
      assert (FIN : (n = false /\ present cmp k (traverse l ++ (tk, td) :: traverse r) /\ l1 = l /\ c = 0) \/
        (n = true /\ ~ present cmp k (traverse l ++ (tk, td) :: traverse r) /\ exists a b0, traverse l ++ (tk, td) :: traverse r = a ++ b0 /\
          traverse l1 ++ (tk, td) :: traverse r = a ++ (k, d) :: b0 /\ (forall x, In x a -> cmp (fst x) k > 0) /\ (forall y, In y b0 -> cmp k (fst y) > 0))).
      { assert (LT : forall x, In x ((tk, td) :: traverse r) -> cmp (fst x) k < 0).
        { intros x [<-|I]; cbn [fst]; [lia|]. specialize (B _ I). apply gt_lt in B. cbn in B. eapply lt_le_trans; [exact B|]. cbn. lia. }
        destruct CASE as [(-> & (k' & d' & I & Ek) & -> & ->)|(-> & NP & a & b0 & T1 & T2 & A1 & A2)]; [left|right].
        - split; [auto|]. split; [|auto]. exists k', d'. rewrite in_app_iff. auto.
        - split; [auto|]. split.
          + intros (k' & d' & I & Ek). apply in_app_iff in I. destruct I as [I|I]; [apply NP; exists k', d'; auto|]. specialize (LT _ I). cbn in LT. lia.
          + exists a, (b0 ++ (tk, td) :: traverse r). rewrite T1, T2, <- !app_assoc. cbn [app]. repeat split; auto.
            intros y I. apply in_app_iff in I. destruct I as [I|I]; [auto|]. apply gt_lt. auto. }
      destruct RC as [-> | ->].
      * replace (-1 * 0) with 0 by lia. cbn [Z.eqb negb andb]. eexists _, _, _. split; [reflexivity|]. cbn [balanced height]. rewrite Z.add_0_r.
        split; [repeat split; auto; lia|]. split; [auto|]. split; [lia|]. cbn [traverse]. destruct FIN as [(-> & P & -> & _)|(-> & NP & X)]; [left|right]; auto.
      * replace (-1 * 1) with (-1) by lia. cbn [Z.eqb negb andb]. destruct (Z.eqb_spec (b + -1) 0) as [Z0|Z0]; cbn [negb].
        -- eexists _, _, _. split; [reflexivity|]. cbn [balanced height]. split; [repeat split; auto; lia|]. split; [auto|]. split; [lia|]. cbn [traverse].
           destruct FIN as [(_ & _ & _ & Q)|(-> & NP & X)]; [discriminate|]. right; auto.
        -- destruct (rebalance_ok l1 r tk td (b + -1) B1 BR) as (t' & c' & RE & RBAL & RC & RH & RZ & RT); [lia|lia|]. rewrite RE. cbn [bind].
           eexists _, _, _. split; [reflexivity|]. split; [auto|]. split; [lia|]. cbn [height] in RH |- *. split; [lia|]. rewrite RT. cbn [traverse].
           destruct FIN as [(_ & _ & _ & Q)|(-> & NP & X)]; [discriminate|]. right; auto.
    + rewrite E. cbn [Z.eqb]. eexists _, _, _. split; [reflexivity|]. cbn [balanced]. split; [repeat split; auto; lia|]. split; [auto|]. split; [lia|].
      left. split; [auto|]. split; [|auto]. exists tk, td. rewrite in_app_iff. cbn. auto.
    + rewrite E. cbn [Z.eqb Z.ltb Z.compare]. destruct (IHr BR DR) as (r1 & c & n & -> & B1 & RC & H1 & CASE). cbn [bind].
      assert (E' : cmp k tk < 0) by (apply gt_lt; lia).
      assert (FIN : (n = false /\ present cmp k (traverse l ++ (tk, td) :: traverse r) /\ r1 = r /\ c = 0) \/
        (n = true /\ ~ present cmp k (traverse l ++ (tk, td) :: traverse r) /\ exists a b0, traverse l ++ (tk, td) :: traverse r = a ++ b0 /\
          traverse l ++ (tk, td) :: traverse r1 = a ++ (k, d) :: b0 /\ (forall x, In x a -> cmp (fst x) k > 0) /\ (forall y, In y b0 -> cmp k (fst y) > 0))).
      { assert (GT : forall x, In x (traverse l ++ [(tk, td)]) -> cmp (fst x) k > 0).
        { intros x I. apply in_app_iff in I. apply gt_lt. destruct I as [I|[<-|[]]]; cbn [fst]; [|lia]. specialize (A _ I). apply gt_lt in A. eapply lt_le_trans; [exact E'|lia]. }
        destruct CASE as [(-> & (k' & d' & I & Ek) & -> & ->)|(-> & NP & a & b0 & T1 & T2 & A1 & A2)]; [left|right].
        - split; [auto|]. split; [|auto]. exists k', d'. rewrite in_app_iff. cbn. auto.
        - split; [auto|]. split.
          + intros (k' & d' & I & Ek). change ((tk, td) :: traverse r) with ([(tk, td)] ++ traverse r) in I. rewrite app_assoc in I. apply in_app_iff in I.
            destruct I as [I|I]; [|apply NP; exists k', d'; auto]. specialize (GT _ I). cbn in GT. lia.
          + exists (traverse l ++ (tk, td) :: a), b0. rewrite T1, T2, <- !app_assoc. cbn [app]. repeat split; auto.
            intros y I. apply in_app_iff in I. destruct I as [I|[<-|I]]; [apply GT; rewrite in_app_iff; auto|apply GT; rewrite in_app_iff; cbn; auto|auto]. }
      destruct RC as [-> | ->].
      * replace (1 * 0) with 0 by lia. cbn [Z.eqb negb andb]. eexists _, _, _. split; [reflexivity|]. cbn [balanced height]. rewrite Z.add_0_r.
        split; [repeat split; auto; lia|]. split; [auto|]. split; [lia|]. cbn [traverse]. destruct FIN as [(-> & P & -> & _)|(-> & NP & X)]; [left|right]; auto.
      * replace (1 * 1) with 1 by lia. cbn [Z.eqb negb andb]. destruct (Z.eqb_spec (b + 1) 0) as [Z0|Z0]; cbn [negb].
        -- eexists _, _, _. split; [reflexivity|]. cbn [balanced height]. split; [repeat split; auto; lia|]. split; [auto|]. split; [lia|]. cbn [traverse].
           destruct FIN as [(_ & _ & _ & Q)|(-> & NP & X)]; [discriminate|]. right; auto.
        -- destruct (rebalance_ok l r1 tk td (b + 1) BL B1) as (t' & c' & RE & RBAL & RC & RH & RZ & RT); [lia|lia|]. rewrite RE. cbn [bind].
           eexists _, _, _. split; [reflexivity|]. split; [auto|]. split; [lia|]. cbn [height] in RH |- *. split; [lia|]. rewrite RT. cbn [traverse].
           destruct FIN as [(_ & _ & _ & Q)|(-> & NP & X)]; [discriminate|]. right; auto.
Qed.

Lemma leftmost_ok (t : tree) : t <> Leaf -> exists k d rest, leftmost t = Ok (k, d) /\ traverse t = (k, d) :: rest.
Proof.
  induction t as [|l IHl tk td b r IHr]; intros NE; [congruence|]. cbn [leftmost traverse]. destruct l as [|ll lk ld lb lr].
  - eexists _, _, _. split; reflexivity.
  - destruct IHl as (k & d & rest & E & T); [discriminate|]. eexists k, d, _. rewrite E, T. cbn [app]. split; reflexivity.
Qed.

(* the tail of _remove: balance -= result, rebalance *)
Lemma fin_ok (l r : tree) k d b result (retval : option (K * D)) (l0 r0 : tree) : 
  balanced l -> balanced r -> b = height r0 - height l0 -> -1 <= b <= 1 ->
  ((result = 0 /\ height l = height l0 /\ height r = height r0) \/
   (result = -1 /\ height l = height l0 - 1 /\ height r = height r0) \/ (result = 1 /\ height l = height l0 /\ height r = height r0 - 1)) ->
  exists t' c, (let b1 := b - result in
      let root := Node l k d b1 r in
      if result =? 0 then Ok (root, 0, retval)
      else if b1 =? 0 then Ok (root, 1, retval)
      else do (t1, rb) <- rebalance root; Ok (t1, rb, retval)) = Ok (t', c, retval) /\
    balanced t' /\ (c = 0 \/ c = 1) /\ height t' = 1 + Z.max (height l0) (height r0) - c /\ traverse t' = traverse l ++ (k, d) :: traverse r /\
    (result = 0 -> t' = Node l k d b r /\ c = 0).
Proof.
  intros BL BR EB RB CASES. cbv zeta. destruct (Z.eqb_spec result 0) as [R0|R0].
  - subst result. rewrite Z.sub_0_r. eexists _, _. split; [reflexivity|]. cbn [balanced height traverse]. repeat split; auto; lia.
  - destruct (Z.eqb_spec (b - result) 0) as [B0|B0].
    + eexists _, _. split; [reflexivity|]. cbn [balanced height traverse]. repeat split; auto; try lia; intros; contradiction.
    + destruct (rebalance_ok l r k d (b - result) BL BR) as (t' & c & E & RBAL & RC & RH & RZ & RT); [lia|lia|]. rewrite E. cbn [bind].
      eexists _, _. split; [reflexivity|]. cbn [height] in RH. cbn [traverse] in RT. split; [auto|]. split; [auto|]. split; [|split; [auto|intros; contradiction]].
      destruct (Z_le_gt_dec (-1) (b - result)) as [G|G]; [destruct (Z_le_gt_dec (b - result) 1) as [G'|G']|]; [|lia|lia].
      pose proof (RZ ltac:(lia)). lia.
Qed.

Lemma remove_ok (t : tree) : forall k, balanced t -> descending cmp (traverse t) ->
  exists t' c o, remove cmp k t = Ok (t', c, o) /\ balanced t' /\ (c = 0 \/ c = 1) /\ height t' = height t - c /\
    ((o = None /\ ~ present cmp k (traverse t) /\ t' = t /\ c = 0) \/
     (exists rk k' d a b, o = Some (rk, d) /\ cmp k' k = 0 /\ traverse t = a ++ (k', d) :: b /\ traverse t' = a ++ b)).
Proof.
  induction t as [|l IHl tk td b r IHr]; intros k; cbn [traverse remove]; intros BAL DS.
  - eexists _, _, _. split; [reflexivity|]. cbn [balanced height]. split; [auto|]. split; [auto|]. split; [lia|]. left. repeat split; auto. intros (k' & d' & [] & _).
  - cbn [balanced] in BAL. destruct BAL as (EB & RB & BL & BR). pose proof DS as DS0. apply desc_mid in DS. destruct DS as (DL & DR & A & B & C).
    cbv zeta beta. destruct (tp_range cmp TP tk k) as [E|[E|E]].
    + replace (cmp tk k <? 0) with true by lia. destruct (IHl k BL DL) as (l1 & c & o & -> & B1 & RC & H1 & CASE). cbn [bind].
      destruct (fin_ok l1 r tk td b (cmp tk k * c) o l r B1 BR EB RB) as (t' & c' & FE & BT & RC' & HT & TT & ZT); [lia|]. cbv zeta in FE. rewrite FE. clear FE.
      eexists _, _, _. split; [reflexivity|]. split; [auto|]. split; [auto|]. split; [cbn [height]; lia|].
      destruct CASE as [(-> & NP & -> & ->)|(rk & k' & d & a & b0 & -> & Ek & T1 & T2)]; [left|right].
      * destruct ZT as (-> & ->); [lia|]. repeat split; auto. intros (k' & d' & I & Ek). apply in_app_iff in I. destruct I as [I|[I|I]].
        -- apply NP. exists k', d'. auto.
        -- inversion I; subst. lia.
        -- specialize (B _ I). cbn in B. apply gt_lt in B. pose proof (lt_le_trans _ _ _ B (ltac:(lia) : cmp tk k <= 0)). lia.
      * exists rk, k', d, a, (b0 ++ (tk, td) :: traverse r). rewrite TT, T1, T2, <- !app_assoc. auto.
    + replace (cmp tk k <? 0) with false by lia. replace (0 <? cmp tk k) with false by lia.
      destruct l as [|ll lk ld lb lr]; [destruct r as [|rl rk rd rb rr]|destruct r as [|rl rk rd rb rr]].
      * eexists _, _, _. split; [reflexivity|]. cbn [balanced height traverse app]. split; [auto|]. split; [auto|]. split; [lia|]. right.
        exists tk, tk, td, [], []. auto.
      * eexists _, _, _. split; [reflexivity|]. cbn [height] in *. pose proof (height_nonneg rl). pose proof (height_nonneg rr). split; [auto|]. split; [auto|]. split; [lia|]. right.
        exists tk, tk, td, [], (traverse (Node rl rk rd rb rr)). auto.
      * eexists _, _, _. split; [reflexivity|]. cbn [height] in *. pose proof (height_nonneg ll). pose proof (height_nonneg lr). split; [auto|]. split; [auto|]. split; [lia|]. right.
        exists tk, tk, td, (traverse (Node ll lk ld lb lr)), []. rewrite app_nil_r. auto.
      * set (l := Node ll lk ld lb lr) in *. set (r := Node rl rk rd rb rr) in *.
        destruct (leftmost_ok r) as (sk & sd & rest & LM & TR); [discriminate|]. rewrite LM. cbn [bind].
        destruct (IHr sk BR DR) as (r1 & c & o & -> & B1 & RC & H1 & CASE). cbn [bind].
        destruct CASE as [(-> & NP & _)|(rk' & k' & d' & a & b0 & -> & Ek & T1 & T2)].
        -- exfalso. apply NP. exists sk, sd. rewrite TR. split; [now left|apply (cmp_refl cmp TP)].
        -- assert (a = [] /\ k' = sk /\ d' = sd /\ b0 = rest) as (-> & -> & -> & ->).
           { assert (Q : (k', d') = (sk, sd)).
             { eapply desc_unique; [exact DR| | |exact Ek]; [rewrite T1, in_app_iff; cbn; auto|rewrite TR; now left]. }
             inversion Q; subst. destruct a as [|x a].
             - rewrite TR in T1. cbn in T1. inversion T1. auto.
             - exfalso. rewrite T1 in DR. rewrite TR in T1. cbn in T1. inversion T1; subst x. apply desc_mid in DR. destruct DR as (_ & _ & G & _).
               specialize (G (sk, sd) ltac:(now left)). cbn in G. lia. }
           cbn [app] in T2. 
           destruct (fin_ok l r1 sk sd b c (Some (rk', td)) l r BL B1 EB RB) as (t' & c' & FE & BT & RC' & HT & TT & ZT); [lia|]. cbv zeta in FE. rewrite FE. clear FE.
           eexists _, _, _. split; [reflexivity|]. split; [auto|]. split; [auto|]. split; [cbn [height]; lia|]. right.
           exists rk', tk, td, (traverse l), (traverse r). rewrite TT, T2, TR. auto.
    + replace (cmp tk k <? 0) with false by lia. replace (0 <? cmp tk k) with true by lia. assert (E' : cmp k tk < 0) by (apply gt_lt; lia).
      destruct (IHr k BR DR) as (r1 & c & o & -> & B1 & RC & H1 & CASE). cbn [bind].
      destruct (fin_ok l r1 tk td b (cmp tk k * c) o l r BL B1 EB RB) as (t' & c' & FE & BT & RC' & HT & TT & ZT); [lia|]. cbv zeta in FE. rewrite FE. clear FE.
      eexists _, _, _. split; [reflexivity|]. split; [auto|]. split; [auto|]. split; [cbn [height]; lia|].
      destruct CASE as [(-> & NP & -> & ->)|(rk & k' & d & a & b0 & -> & Ek & T1 & T2)]; [left|right].
      * destruct ZT as (-> & ->); [lia|]. repeat split; auto. intros (k' & d' & I & Ek). apply in_app_iff in I. destruct I as [I|[I|I]].
        -- specialize (A _ I). cbn in A. apply gt_lt in A. pose proof (lt_le_trans _ _ _ A (ltac:(lia) : cmp k' k <= 0)). lia.
        -- inversion I; subst. lia.
        -- apply NP. exists k', d'. auto.
      * exists rk, k', d, (traverse l ++ (tk, td) :: a), b0. rewrite TT, T1, T2, <- !app_assoc. auto.
Qed.

Definition inv (t : tree) : Prop := balanced t /\ descending cmp (traverse t).
Lemma inv_shows t : inv t -> shows cmp t (traverse t).
Proof.
  intros (_ & DS). split; [reflexivity|]. split; [auto|]. split; [|split].
  - intros k k' d I E. unfold Get. now rewrite (proj1 (find_ok t k DS) _ _ I E).
  - intros k NP. unfold Get. now rewrite (proj2 (find_ok t k DS) NP).
  - intros k. unfold Near. pose proof (near_ok t k None DS) as N. destruct (near cmp k t None) as [(k' & d)|].
    + destruct N as [(_ & N)|N]; [discriminate|exact N].
    + destruct N as (-> & _). reflexivity.
Qed.
Lemma present_perm k l1 l2 : Permutation l1 l2 -> present (D:=D) cmp k l1 -> present cmp k l2.
Proof. intros P (k' & d & I & E). exists k', d. split; auto. eapply Permutation_in; eauto. Qed.
Lemma desc_remove a x b : descending (D:=D) cmp (a ++ x :: b) -> descending cmp (a ++ b).
Proof.
  destruct x as (k, d). intros H. apply desc_mid in H. destruct H as (A & B & _ & _ & C). apply desc_app. auto.
Qed.
Lemma step_ok dflt t o : inv t -> exists t' r, t_step cmp dflt t o = Ok (t', r) /\ inv t' /\ effect cmp dflt o (traverse t) (traverse t') r.
Proof.
  intros (B & DS). destruct o as [k d|k|ka kb|]; cbn [t_step effect].
  - unfold Insert. destruct (insert_ok t k d B DS) as (t' & c & n & E & B' & _ & _ & CASE). rewrite E. cbn [bind]. eexists _, _. split; [reflexivity|].
    destruct CASE as [(-> & P & -> & _)|(-> & NP & a & b & T1 & T2 & A1 & A2)].
    + split; [split; auto|]. split; [auto|contradiction].
    + split; [split; [auto|]|].
      * rewrite T2. rewrite T1 in DS. apply desc_app in DS. destruct DS as (DA & DB & DAB). apply desc_mid. auto.
      * split; [contradiction|]. intros _. split; auto. rewrite T1, T2. symmetry. apply Permutation_middle.
  - unfold Remove. destruct (remove_ok t k B DS) as (t' & c & o & E & B' & _ & _ & CASE). rewrite E. cbn [bind]. eexists _, _. split; [reflexivity|].
    destruct CASE as [(-> & NP & -> & _)|(rk & k' & d & a & b & -> & Ek & T1 & T2)].
    + split; [split; auto|]. split; [auto|contradiction].
    + split; [split; [auto|rewrite T2; rewrite T1 in DS; eapply desc_remove, DS]|]. split.
      * intros NP. exfalso. apply NP. exists k', d. rewrite T1, in_app_iff. cbn. auto.
      * intros _. exists k', d. split; auto. split; auto. rewrite T1, T2. symmetry. apply Permutation_middle.
  - unfold ReplaceKey. destruct (remove_ok t ka B DS) as (t1 & c & o & E & B1 & _ & _ & CASE). rewrite E. cbn [bind].
    assert (DS1 : descending cmp (traverse t1)).
    { destruct CASE as [(-> & NP & -> & _)|(rk & k' & d & a & b & -> & Ek & T1 & T2)]; [auto|]. rewrite T2. rewrite T1 in DS. eapply desc_remove, DS. }
    set (d0 := match o with Some (_, d) => d | None => dflt end).
    destruct (insert_ok t1 kb d0 B1 DS1) as (t' & c' & n & E' & B' & _ & _ & CASE'). rewrite E'. cbn [bind]. eexists _, _. split; [reflexivity|].
    assert (INV : inv t').
    { split; auto. destruct CASE' as [(-> & P & -> & _)|(-> & NP & a & b & T1 & T2 & A1 & A2)]; auto. rewrite T2. rewrite T1 in DS1. apply desc_app in DS1. destruct DS1 as (DA & DB & DAB). apply desc_mid. auto. }
    split; [exact INV|]. split.
    + intros k' d l0 Ek P. assert (Permutation l0 (traverse t1) /\ d = d0) as (P0 & ->).
      { destruct CASE as [(-> & NP & -> & _)|(rk & k1 & d1 & a & b & -> & Ek1 & T1 & T2)].
        - exfalso. apply NP. exists k', d. split; auto. eapply Permutation_in; [symmetry; exact P|now left].
        - assert (Q : (k', d) = (k1, d1)).
          { eapply desc_unique; [exact DS| | |].
            - eapply Permutation_in; [symmetry; exact P|now left].
            - rewrite T1, in_app_iff. cbn. auto.
            - apply Z.le_antisymm; [eapply (cmp_trans cmp TP _ ka); [lia|rewrite cmp_flip; lia]|]. pose proof (cmp_trans cmp TP k1 ka k' ltac:(lia) ltac:(rewrite cmp_flip; lia)). rewrite (cmp_flip k' k1). lia. }
          inversion Q; subst. split; [|reflexivity]. eapply Permutation_cons_inv with (a := (k1, d1)). rewrite <- P, T1, T2. symmetry. apply Permutation_middle. }
      destruct CASE' as [(-> & PB & -> & _)|(-> & NPB & a & b & T1 & T2 & A1 & A2)]; split.
      * intros NP. exfalso. apply NP. eapply present_perm; [symmetry; exact P0|exact PB].
      * intros _. split; auto. now symmetry.
      * intros _. split; auto. rewrite P0, T1, T2. symmetry. apply Permutation_middle.
      * intros PB. exfalso. apply NPB. eapply present_perm; [exact P0|exact PB].
    + intros NA. destruct CASE as [(-> & _ & -> & _)|(rk & k1 & d1 & a & b & -> & Ek1 & T1 & T2)].
      2:{ exfalso. apply NA. exists k1, d1. rewrite T1, in_app_iff. cbn. auto. }
      cbn in d0. destruct CASE' as [(-> & PB & -> & _)|(-> & NPB & a & b & T1 & T2 & A1 & A2)]; split; try contradiction; auto.
      intros _. split; auto. rewrite T1, T2. symmetry. apply Permutation_middle.
  - eexists _, _. split; [reflexivity|]. split; [split; [exact I|constructor]|reflexivity].
Qed.
Lemma reachable_inv dflt t : reachable cmp dflt t -> inv t.
Proof.
  induction 1 as [|t o t' r R IH E]; [split; [exact I|constructor]|]. destruct (step_ok dflt t o IH) as (t2 & r2 & E2 & I2 & _). rewrite E in E2. inversion E2; subst. auto.
Qed.
End Proofs.

(* C31: from any reachable tree every call succeeds and changes the map as described *)
Theorem C31_AVLTree_map {K D} (cmp : K -> K -> Z) (dflt : D) (TP : total_preorder cmp) t : reachable cmp dflt t ->
  (exists l, shows cmp t l) /\
  forall l o, shows cmp t l -> exists t' r l', t_step cmp dflt t o = Ok (t', r) /\ shows cmp t' l' /\ effect cmp dflt o l l' r.
Proof.
  intros R. pose proof (reachable_inv cmp TP dflt t R) as I. split; [exists (traverse t); apply inv_shows; auto|].
  intros l o (<- & _). destruct (step_ok cmp TP dflt t o I) as (t' & r & E & I' & EF). exists t', r, (traverse t').
  split; [exact E|]. split; [apply inv_shows; auto|exact EF].
Qed.
Print Assumptions C31_AVLTree_map.

(* ReplaceKey is not a renaming in the corner cases: onto an existing key it deletes the old entry, and for an absent old key it
   creates a new one *)
Theorem C31_ReplaceKey_refuted :
  ~ (forall (t : tree Z Z) a b, reachable zcmp 0 t -> forall t', ReplaceKey zcmp 0 t a b = Ok (t', false) -> Traverse t' = Traverse t) /\
  ~ (forall (t : tree Z Z) a b, reachable zcmp 0 t -> Get zcmp t a = None -> exists t', ReplaceKey zcmp 0 t a b = Ok (t', false)).
Proof.
  split.
  - intros H. set (t := Node (Node Leaf 2 20 0 Leaf) 1 10 (-1) (@Leaf Z Z)). specialize (H t 1 2).
    assert (R : reachable zcmp 0 t).
    { eapply r_step with (o := OInsert 2 20); [eapply r_step with (o := OInsert 1 10); [constructor|vm_compute; reflexivity]|vm_compute; reflexivity]. }
    specialize (H R _ ltac:(vm_compute; reflexivity)). discriminate.
  - intros H. destruct (H Leaf 1 2 ltac:(constructor) eq_refl) as (t' & E). vm_compute in E. discriminate.
Qed.
Print Assumptions C31_ReplaceKey_refuted.

(* C32 *)
Theorem C32_AVLTree_balanced {K D} (cmp : K -> K -> Z) (dflt : D) (TP : total_preorder cmp) t : reachable cmp dflt t -> balanced t.
Proof. intros R. apply (reachable_inv cmp TP dflt t R). Qed.
Print Assumptions C32_AVLTree_balanced.

Lemma balanced_size {K D} (t : tree K D) : balanced t -> 21 ^ height t <= 13 ^ height t * (Z.of_nat (length (traverse t)) + 1).
Proof.
  enough (H : forall h (t : tree K D), (Z.to_nat (height t) <= h)%nat -> balanced t -> 21 ^ height t <= 13 ^ height t * (Z.of_nat (length (traverse t)) + 1)) by (intros; eapply H; [reflexivity|auto]).
  induction h as [|h IH]; intros u Hh B.
  - destruct u as [|l k d b r]; [cbn; lia|]. cbn [height] in Hh. pose proof (height_nonneg l). pose proof (height_nonneg r). lia.
  - destruct u as [|l k d b r]; [cbn; lia|]. cbn [balanced height traverse] in *. destruct B as (EB & RB & BL & BR). rewrite app_length. cbn [length].
    pose proof (height_nonneg l) as HL. pose proof (height_nonneg r) as HR.
    assert (IL := IH l ltac:(lia) BL). assert (IR := IH r ltac:(lia) BR).
    set (nl := Z.of_nat (length (traverse l)) + 1) in *. set (nr := Z.of_nat (length (traverse r)) + 1) in *.
    replace (Z.of_nat (length (traverse l) + S (length (traverse r))) + 1) with (nl + nr) by (unfold nl, nr; lia).
    assert (M : forall x y nx ny, 0 <= x -> 0 <= y -> x <= y <= x + 1 -> 0 <= nx -> 0 <= ny -> 21 ^ x <= 13 ^ x * nx -> 21 ^ y <= 13 ^ y * ny -> 21 ^ (1 + y) <= 13 ^ (1 + y) * (nx + ny)).
    { clear. intros x y nx ny X Y XY NX NY HX HY. rewrite !Z.pow_add_r by lia. change (21 ^ 1) with 21. change (13 ^ 1) with 13.
      assert (E : y = x \/ y = 1 + x) by lia. destruct E as [-> | ->].
      - pose proof (Z.pow_nonneg 21 x ltac:(lia)). lia.
      - rewrite !Z.pow_add_r in * by lia. change (21 ^ 1) with 21 in *. change (13 ^ 1) with 13 in *.
        set (p := 21 ^ x) in *. set (q := 13 ^ x) in *. assert (0 <= p) by (apply Z.pow_nonneg; lia).
        replace (13 * (13 * q) * (nx + ny)) with (169 * (q * nx) + 13 * (13 * q * ny)) by ring. lia. }
    assert (NL : 0 <= nl) by (unfold nl; lia). assert (NR : 0 <= nr) by (unfold nr; lia). clearbody nl nr.
    destruct (Z_le_gt_dec (height l) (height r)) as [G|G].
    + rewrite Z.max_r by lia. apply (M (height l) (height r)); auto; lia.
    + rewrite Z.max_l by lia. rewrite Z.add_comm with (n := nl). apply (M (height r) (height l)); auto; lia.
Qed.
(* 20 * height <= 29 * log2 (n + 1), that is height <= 1.45 * log2 (n + 1) *)
Theorem C32_AVLTree_height {K D} (cmp : K -> K -> Z) (dflt : D) (TP : total_preorder cmp) t : reachable cmp dflt t ->
  2 ^ (20 * height t) <= (Z.of_nat (length (Traverse t)) + 1) ^ 29.
Proof.
  intros R. pose proof (balanced_size t (C32_AVLTree_balanced cmp dflt TP t R)) as H. unfold Traverse. pose proof (height_nonneg t) as HN.
  set (n := Z.of_nat (length (traverse t)) + 1) in *. set (h := height t) in *. assert (0 < n) by (unfold n; lia). clearbody n h.
  assert (P29 : (21 ^ h) ^ 29 <= (13 ^ h * n) ^ 29) by (apply Z.pow_le_mono_l; split; [apply Z.pow_nonneg; lia|exact H]).
  rewrite Z.pow_mul_l in P29. rewrite <- !Z.pow_mul_r in P29 by lia. rewrite !(Z.mul_comm h 29) in P29. rewrite !Z.pow_mul_r in P29 by lia.
  rewrite Z.pow_mul_r by lia.
  assert (Q : (2 ^ 20 * 13 ^ 29) ^ h <= (21 ^ 29) ^ h) by (apply Z.pow_le_mono_l; vm_compute; split; congruence).
  rewrite Z.pow_mul_l in Q. assert (0 < (13 ^ 29) ^ h) by (apply Z.pow_pos_nonneg; [vm_compute; reflexivity|lia]).
  set (X := (2 ^ 20) ^ h) in *. set (Y := (13 ^ 29) ^ h) in *. set (W := (21 ^ 29) ^ h) in *. set (V := n ^ 29) in *. clearbody X Y W V.
  apply Z.mul_le_mono_pos_r with (p := Y); [lia|]. lia.
Qed.
Print Assumptions C32_AVLTree_height.

Lemma reachable_run {K D} (cmp : K -> K -> Z) (dflt : D) ops t t' : reachable cmp dflt t ->
  run (fun t o => do (t', _) <- t_step cmp dflt t o; Ok t') t ops = Ok t' -> reachable cmp dflt t'.
Proof.
  revert t. induction ops as [|o ops IH]; intros t R E; cbn [run] in E; [inversion E; subst; auto|].
  apply bind_ok in E. destruct E as (t1 & E1 & E). apply bind_ok in E1. destruct E1 as ((t2 & r) & E1 & E2). inversion E2; subst. eapply IH; [|exact E]. econstructor; eauto.
Qed.
Example C31_example : total_preorder zcmp /\ exists t, reachable zcmp 0 t /\
  Traverse t = [(7, 70); (6, 60); (5, 50); (4, 40); (2, 20); (1, 10)] /\ height t = 3 /\ Near zcmp t 9 = Some (7, 70).
Proof.
  split; [apply zcmp_preorder|]. eexists. split; [|split; [|split]].
  - eapply reachable_run with (ops := map (fun k => OInsert k (10 * k)) [1; 2; 3; 4; 5; 6; 7] ++ [ORemove 3]); [constructor|vm_compute; reflexivity].
  - reflexivity.
  - reflexivity.
  - reflexivity.
Qed.
