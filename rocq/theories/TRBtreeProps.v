(* Property C34: the threaded red-black tree. *)
From Coq Require Import List ZArith Bool Lia Permutation Arith Sorted.
From Coq Require Import ZifyBool ZifyNat.
From Verif Require Import Common OrderSpec OrderProofs Dll LLBase LLBaseProps TRBtree.
Import ListNotations.

Section Spec.
Context {T : Type} (cmp : T -> T -> Z).
(* red-black: a red node has no red child, and every path down to a leaf passes n black nodes *)
Fixpoint red_black (t : tree) (n : nat) : Prop :=
  match t with
  | Leaf => n = 0
  | Node true l _ r => is_red l = false /\ is_red r = false /\ red_black l n /\ red_black r n
  | Node false l _ r => exists m, n = S m /\ red_black l m /\ red_black r m
  end.
Definition present (x : T) (l : list (nat * T)) : Prop := exists id v, In (id, v) l /\ cmp x v = 0%Z.
(* what the tree shows: the nodes and values met by following next from first (prev being the inverse, last the end) are
   l, in comparator order; Get finds a node holding an equal value, or null if there is none *)
Definition shows (s : trb T) (l : list (nat * T)) : Prop :=
  list_at (hp s) (first s) (last s) (map fst l) /\
  (forall id v, In (id, v) l -> val s id = v) /\
  ascending cmp (map snd l) /\
  (forall x, match Get cmp s x with
             | Some id => exists v, In (id, v) l /\ cmp x v = 0%Z
             | None => ~ present x l
             end).
Definition valid (o : t_op T) (l : list (nat * T)) : Prop :=
  match o with OInsert _ => True | ORemove _ => True | ORemoveNode id => In id (map fst l) end.
(* every other node keeps its address and its value *)
Definition effect (o : t_op T) (l l' : list (nat * T)) (r : nat + bool) : Prop :=
  match o with
  | OInsert x => exists n a b, r = inl n /\ l = a ++ b /\ l' = a ++ (n, x) :: b
  | ORemove x => (~ present x l -> l' = l /\ r = inr false) /\
                 (present x l -> exists a id v b, l = a ++ (id, v) :: b /\ l' = a ++ b /\ cmp x v = 0%Z /\ r = inr true)
  | ORemoveNode id => exists a v b, l = a ++ (id, v) :: b /\ l' = a ++ b
  end.
Inductive reachable : trb T -> Prop :=
| r_new v : reachable (new_trb v)
| r_step s o s' r : reachable s -> (forall l, shows s l -> valid o l) -> t_step cmp s o = Ok (s', r) -> reachable s'.
End Spec.

(* --- colors --- *)
Fixpoint ctx (p : path) (c : bool) (n : nat) : Prop :=
  match p with
  | [] => c = false
  | FL fc _ o :: p | FR fc o _ :: p =>
    red_black o n /\ (if fc then c = false /\ is_red o = false /\ ctx p true n else ctx p false (S n))
  end.
Lemma ctx_black p n : ctx p true n -> ctx p false n.
Proof. destruct p as [|[[] ? ?|[] ? ?] p]; cbn [ctx]; intros H; intuition congruence. Qed.
Lemma ctx_any p c n : ctx p c n -> ctx p false n.
Proof. destruct c; auto using ctx_black. Qed.
Lemma plug_rb t p n : red_black t n -> ctx p (is_red t) n -> (exists m, red_black (plug t p) m) /\ is_red (plug t p) = false.
Proof.
  revert t n. induction p as [|f p IH]; intros t n R C; cbn [plug fold_left].
  - split; [eauto|exact C].
  - destruct f as [fc id o|fc o id]; cbn [ctx up] in *; destruct C as [Ro C]; destruct fc.
    + destruct C as (C1 & C2 & C3). apply (IH _ n); cbn [red_black is_red]; auto.
    + apply (IH _ (S n)); cbn [red_black is_red]; eauto.
    + destruct C as (C1 & C2 & C3). apply (IH _ n); cbn [red_black is_red]; auto.
    + apply (IH _ (S n)); cbn [red_black is_red]; eauto.
Qed.
Lemma paint_rb t n : red_black t n -> exists m, red_black (paint false t) m.
Proof.
  destruct t as [|[] l id r]; cbn [paint red_black]; intros R; [eauto| |eauto].
  destruct R as (_ & _ & R1 & R2). exists (S n). eauto.
Qed.
Lemma paint_black t : is_red t = false -> paint false t = t.
Proof. destruct t as [|[] l id r]; cbn; congruence. Qed.
Lemma paint_red t n : is_red t = true -> red_black t n -> red_black (paint false t) (S n).
Proof. destruct t as [|[] l id r]; cbn [paint red_black is_red]; try discriminate. intros _ (_ & _ & R1 & R2). eauto. Qed.
Lemma is_red_paint t : is_red (paint false t) = false.
Proof. destruct t; reflexivity. Qed.

Ltac rb := repeat match goal with
  | H : _ /\ _ |- _ => destruct H
  | H : exists _, _ |- _ => destruct H
  | H : S _ = S _ |- _ => injection H as H; subst
  end.
Ltac rbs := cbn [red_black is_red plug up paint f_paint f_red fold_left] in *.

Lemma fixInsert_ok : forall k t p n, length p < k -> is_red t = true -> red_black t n -> ctx p false n ->
  exists t', fixInsert t p = Ok t' /\ (exists m, red_black t' m) /\ is_red t' = false.
Proof.
  unfold fixInsert. induction k as [|k IH]; intros t p n L Rd R C; [lia|].
  destruct p as [|f p1]; cbn [fixInsert_loop].
  - cbn [bind]. eexists. split; [reflexivity|]. split; [eapply paint_rb; eauto|apply is_red_paint].
  - destruct (f_red f) eqn:Ef.
    + destruct p1 as [|g p2]; [destruct f as [[] ? ?|[] ? ?]; cbn in *; intuition congruence|].
      destruct t as [|[] tl tid tr]; try discriminate. rbs. rb.
      destruct g as [gc gid y|gc y gid]; cbn [ctx] in C.
      * assert (gc = false) by (destruct f as [[] ? ?|[] ? ?]; cbn in *; destruct gc; intuition congruence). subst gc.
        destruct (is_red y) eqn:Ey.
        -- destruct f as [[] fid fo|[] fo fid]; cbn in Ef; try discriminate; cbn [ctx] in C; rb; cbn [f_paint up] in *;
             (eapply (IH _ _ (S n)); [cbn [length] in *; lia|reflexivity| |eassumption]);
             cbn [red_black]; rewrite is_red_paint; repeat split; auto; try (apply paint_red; auto; fail);
             exists n; cbn [red_black]; repeat split; auto.
        -- destruct f as [[] fid fo|[] fo fid]; cbn in Ef; try discriminate; cbn [ctx] in C; rb; cbn [f_paint up leftRotate rightRotate bind paint] in *.
           ++ edestruct (plug_rb (Node false (Node true tl tid tr) fid (Node true fo gid y)) p2 (S n)) as [HR HB]; [|cbn [is_red]; eassumption|].
              { cbn [red_black is_red]. exists n. repeat split; auto. }
              eexists. split; [reflexivity|]. rewrite (paint_black _ HB). auto.
           ++ edestruct (plug_rb (Node false (Node true fo fid tl) tid (Node true tr gid y)) p2 (S n)) as [HR HB]; [|cbn [is_red]; eassumption|].
              { cbn [red_black is_red]. exists n. repeat split; auto. }
              eexists. split; [reflexivity|]. rewrite (paint_black _ HB). auto.
      * assert (gc = false) by (destruct f as [[] ? ?|[] ? ?]; cbn in *; destruct gc; intuition congruence). subst gc.
        destruct (is_red y) eqn:Ey.
        -- destruct f as [[] fid fo|[] fo fid]; cbn in Ef; try discriminate; cbn [ctx] in C; rb; cbn [f_paint up] in *;
             (eapply (IH _ _ (S n)); [cbn [length] in *; lia|reflexivity| |eassumption]);
             cbn [red_black]; rewrite is_red_paint; repeat split; auto; try (apply paint_red; auto; fail);
             exists n; cbn [red_black]; repeat split; auto.
        -- destruct f as [[] fid fo|[] fo fid]; cbn in Ef; try discriminate; cbn [ctx] in C; rb; cbn [f_paint up leftRotate rightRotate bind paint] in *.
           ++ edestruct (plug_rb (Node false (Node true y gid tl) tid (Node true tr fid fo)) p2 (S n)) as [HR HB]; [|cbn [is_red]; eassumption|].
              { cbn [red_black is_red]. exists n. repeat split; auto. }
              eexists. split; [reflexivity|]. rewrite (paint_black _ HB). auto.
           ++ edestruct (plug_rb (Node false (Node true y gid fo) fid (Node true tl tid tr)) p2 (S n)) as [HR HB]; [|cbn [is_red]; eassumption|].
              { cbn [red_black is_red]. exists n. repeat split; auto. }
              eexists. split; [reflexivity|]. rewrite (paint_black _ HB). auto.
    + destruct (plug_rb t (f :: p1) n R) as [HR HB].
      { rewrite Rd. destruct f as [[] fid fo|[] fo fid]; cbn in Ef; try discriminate; cbn [ctx] in *; exact C. }
      eexists. cbn [bind]. split; [reflexivity|]. rewrite (paint_black _ HB). auto.
Qed.

Lemma fix_left_ok t n pc pid w : is_red t = false -> red_black t n -> is_red w = false -> red_black w (S n) ->
  match fix_left t pc pid w with
  | Ok (inl t1) => is_red t1 = pc /\ red_black (paint false t1) (S n)
  | Ok (inr t1) => is_red t1 = pc /\ red_black t1 (if pc then S n else S (S n))
  | _ => False
  end.
Proof.
  intros Bt R Bw Rw. destruct w as [|[] wl wid wr]; try discriminate; cbn [red_black] in Rw.
  destruct Rw as (m & E & R1 & R2). injection E as <-. cbn [fix_left].
  destruct (is_red wr) eqn:Er; cbn [negb andb].
  - rewrite andb_false_r. cbn [bind]. cbn [leftRotate bind]. split; [reflexivity|].
    destruct pc; cbn [red_black is_red]; rewrite ?is_red_paint; repeat split; auto using paint_red; try (exists n; auto; fail).
    exists (S n). repeat split; auto using paint_red; exists n; auto.
  - destruct (is_red wl) eqn:El; cbn [negb andb bind].
    + destruct wl as [|[] a x b]; try discriminate. cbn [paint rightRotate bind leftRotate]. cbn [red_black] in R1. rb.
      split; [reflexivity|]. destruct pc; cbn [red_black is_red paint]; repeat split; auto; try (exists n; auto; fail).
      exists (S n). repeat split; exists n; auto.
    + split; [reflexivity|]. cbn [paint red_black]. exists n. repeat split; auto.
Qed.
Lemma fix_right_ok t n pc pid w : is_red t = false -> red_black t n -> is_red w = false -> red_black w (S n) ->
  match fix_right t pc pid w with
  | Ok (inl t1) => is_red t1 = pc /\ red_black (paint false t1) (S n)
  | Ok (inr t1) => is_red t1 = pc /\ red_black t1 (if pc then S n else S (S n))
  | _ => False
  end.
Proof.
  intros Bt R Bw Rw. destruct w as [|[] wl wid wr]; try discriminate; cbn [red_black] in Rw.
  destruct Rw as (m & E & R1 & R2). injection E as <-. cbn [fix_right].
  destruct (is_red wl) eqn:Er; cbn [negb andb].
  - rewrite andb_false_r. cbn [bind]. cbn [rightRotate bind]. split; [reflexivity|].
    destruct pc; cbn [red_black is_red]; rewrite ?is_red_paint; repeat split; auto using paint_red; try (exists n; auto; fail).
    exists (S n). repeat split; auto using paint_red; exists n; auto.
  - destruct (is_red wr) eqn:El; cbn [negb andb bind].
    + destruct wr as [|[] a x b]; try discriminate. cbn [paint rightRotate bind leftRotate]. cbn [red_black] in R2. rb.
      split; [reflexivity|]. destruct pc; cbn [red_black is_red paint]; repeat split; auto; try (exists n; auto; fail).
      exists (S n). repeat split; exists n; auto.
    + split; [reflexivity|]. cbn [paint red_black]. exists n. repeat split; auto.
Qed.

Lemma fixDelete_red fuel t p n : 0 < fuel -> red_black (paint false t) (S n) -> is_red t = true -> ctx p false (S n) ->
  exists t', fixDelete fuel t p = Ok t' /\ (exists m, red_black t' m) /\ is_red t' = false.
Proof.
  intros F R Rd C. destruct fuel as [|fuel]; [lia|].
  destruct (plug_rb (paint false t) p (S n) R) as [H1 H2]; [rewrite is_red_paint; exact C|].
  exists (plug (paint false t) p). split; [|auto]. cbn [fixDelete]. destruct p; [reflexivity|]. rewrite Rd. reflexivity.
Qed.
Lemma fixDelete_ok : forall fuel t p n, length p + 2 <= fuel -> red_black t n -> ctx p false (S n) ->
  exists t', fixDelete fuel t p = Ok t' /\ (exists m, red_black t' m) /\ is_red t' = false.
Proof.
  induction fuel as [|fuel IH]; intros t p n F R C; [lia|].
  destruct (is_red t) eqn:Rd.
  { eapply fixDelete_red; eauto; [lia|]. apply paint_red; auto. }
  destruct p as [|f p1].
  { cbn [fixDelete]. eexists. split; [reflexivity|]. rewrite (paint_black _ Rd). eauto. }
  cbn [fixDelete]. rewrite Rd.
  (* both kinds of frame: what happens once the sibling is black *)
  assert (STEP : forall pc p2 (r : res (tree + tree)), length p2 <= S (length p1) -> (pc = false -> length p2 <= length p1) ->
     (if pc then ctx p2 true (S n) else ctx p2 false (S (S n))) ->
     match r with
     | Ok (inl t1) => is_red t1 = pc /\ red_black (paint false t1) (S n)
     | Ok (inr t1) => is_red t1 = pc /\ red_black t1 (if pc then S n else S (S n))
     | _ => False
     end ->
     exists t', (do n0 <- r; match n0 with inl t1 => fixDelete fuel t1 p2 | inr t1 => Ok (paint false (plug t1 p2)) end) = Ok t' /\
       (exists m, red_black t' m) /\ is_red t' = false).
  { intros pc p2 r L1 L2 C2 H. destruct r as [[t1|t1]| |]; cbn [bind]; try contradiction; destruct H as [H1 H2].
    - destruct pc.
      + cbn [length] in F. eapply fixDelete_red; [lia|exact H2|exact H1|]. apply ctx_black. exact C2.
      + cbn [length] in F. specialize (L2 eq_refl). eapply IH; [lia| |exact C2]. rewrite paint_black in H2 by exact H1. exact H2.
    - edestruct (plug_rb t1 p2) as [P1 P2]; [exact H2|rewrite H1; destruct pc; exact C2|].
      eexists. split; [reflexivity|]. rewrite (paint_black _ P2). auto. }
  destruct f as [pc pid w|pc w pid]; cbn [ctx] in C; destruct C as [Rw C].
  - destruct w as [|[] wl wid wr]; [cbn in Rw; lia| |]; cbn [bind].
    + destruct pc; [cbn in C; intuition congruence|]. cbn [red_black] in Rw. rb.
      apply (STEP true); [cbn [length]; lia|discriminate|cbn [ctx]; auto|]. apply fix_left_ok; auto.
    + apply (STEP pc); [lia|lia|destruct pc; [apply C|exact C]|]. apply fix_left_ok; auto.
  - destruct w as [|[] wl wid wr]; [cbn in Rw; lia| |]; cbn [bind].
    + destruct pc; [cbn in C; intuition congruence|]. cbn [red_black] in Rw. rb.
      apply (STEP true); [cbn [length]; lia|discriminate|cbn [ctx]; auto|]. apply fix_right_ok; auto.
    + apply (STEP pc); [lia|lia|destruct pc; [apply C|exact C]|]. apply fix_right_ok; auto.
Qed.

(* --- the in-order sequence --- *)
Fixpoint ids (t : tree) : list nat := match t with Leaf => [] | Node _ l id r => ids l ++ id :: ids r end.
Fixpoint before (p : path) : list nat :=
  match p with [] => [] | FL _ _ _ :: p => before p | FR _ l id :: p => before p ++ ids l ++ [id] end.
Fixpoint after (p : path) : list nat :=
  match p with [] => [] | FL _ id r :: p => id :: ids r ++ after p | FR _ _ _ :: p => after p end.
Ltac apps := repeat (progress (rewrite <- ?app_assoc; cbn [app])); reflexivity.
Lemma plug_ids t p : ids (plug t p) = before p ++ ids t ++ after p.
Proof.
  revert t. induction p as [|[c id r|c l id] p IH]; intros t; cbn [plug fold_left before after].
  - cbn [app]. rewrite app_nil_r. reflexivity.
  - fold (plug (up t (FL c id r)) p). rewrite IH. cbn [up ids]. apps.
  - fold (plug (up t (FR c l id)) p). rewrite IH. cbn [up ids]. apps.
Qed.
Lemma paint_ids c t : ids (paint c t) = ids t.
Proof. destruct t; reflexivity. Qed.
Lemma leftRotate_ids t t' : leftRotate t = Ok t' -> ids t' = ids t.
Proof. destruct t as [|c a x [|c2 b y d]]; cbn [leftRotate]; try discriminate. intros E; injection E as <-. cbn [ids]. apps. Qed.
Lemma rightRotate_ids t t' : rightRotate t = Ok t' -> ids t' = ids t.
Proof. destruct t as [|c [|c2 a x b] y d]; cbn [rightRotate]; try discriminate. intros E; injection E as <-. cbn [ids]. apps. Qed.
Ltac binds := repeat match goal with H : bind _ _ = Ok _ |- _ => apply bind_ok in H; destruct H as (? & ? & H) end.
Lemma fixInsert_ids : forall k t p t', length p < k -> fixInsert_loop t p = Ok t' -> ids t' = before p ++ ids t ++ after p.
Proof.
  induction k as [|k IH]; intros t p t' L E; [lia|].
  destruct p as [|f p1]; cbn [fixInsert_loop] in E; [injection E as <-; cbn; rewrite app_nil_r; reflexivity|].
  destruct (f_red f).
  2: { injection E as <-. apply (plug_ids t (f :: p1)). }
  destruct p1 as [|[gc gid y|gc y gid] p2]; [discriminate| |]; destruct (is_red y).
  - apply IH in E; [|cbn [length] in *; lia]. rewrite E. destruct f as [fc fid fo|fc fo fid]; cbn [f_paint up ids before after]; rewrite paint_ids; apps.
  - destruct f as [fc fid fo|fc fo fid]; binds; injection E as <-; rewrite plug_ids; apply rightRotate_ids in H0; rewrite H0; cbn [ids]; rewrite paint_ids.
    + injection H as <-. cbn [up ids before after]. apps.
    + apply leftRotate_ids in H. rewrite H. cbn [up ids before after]. apps.
  - apply IH in E; [|cbn [length] in *; lia]. rewrite E. destruct f as [fc fid fo|fc fo fid]; cbn [f_paint up ids before after]; rewrite paint_ids; apps.
  - destruct f as [fc fid fo|fc fo fid]; binds; injection E as <-; rewrite plug_ids; apply leftRotate_ids in H0; rewrite H0; cbn [ids]; rewrite paint_ids.
    + apply rightRotate_ids in H. rewrite H. cbn [up ids before after]. apps.
    + injection H as <-. cbn [up ids before after]. apps.
Qed.
Lemma fix_left_ids t pc pid w r : fix_left t pc pid w = Ok r ->
  ids (match r with inl a => a | inr a => a end) = ids t ++ pid :: ids w.
Proof.
  destruct w as [|wc wl wid wr]; cbn [fix_left]; [discriminate|].
  destruct (negb (is_red wl) && negb (is_red wr)); [intros E; injection E as <-; reflexivity|].
  intros E. apply bind_ok in E. destruct E as (w1 & E1 & E).
  assert (W : ids w1 = ids (Node wc wl wid wr)).
  { destruct (negb (is_red wr)); [|injection E1 as <-; reflexivity]. apply rightRotate_ids in E1. rewrite E1. cbn [ids]. rewrite paint_ids. reflexivity. }
  destruct w1 as [|wc1 wl1 wid1 wr1]; [discriminate|]. apply bind_ok in E. destruct E as (t1 & E2 & E). injection E as <-.
  apply leftRotate_ids in E2. rewrite E2. rewrite <- W. cbn [ids]. rewrite paint_ids. reflexivity.
Qed.
Lemma fix_right_ids t pc pid w r : fix_right t pc pid w = Ok r ->
  ids (match r with inl a => a | inr a => a end) = ids w ++ pid :: ids t.
Proof.
  destruct w as [|wc wl wid wr]; cbn [fix_right]; [discriminate|].
  destruct (negb (is_red wr) && negb (is_red wl)); [intros E; injection E as <-; reflexivity|].
  intros E. apply bind_ok in E. destruct E as (w1 & E1 & E).
  assert (W : ids w1 = ids (Node wc wl wid wr)).
  { destruct (negb (is_red wl)); [|injection E1 as <-; reflexivity]. apply leftRotate_ids in E1. rewrite E1. cbn [ids]. rewrite paint_ids. reflexivity. }
  destruct w1 as [|wc1 wl1 wid1 wr1]; [discriminate|]. apply bind_ok in E. destruct E as (t1 & E2 & E). injection E as <-.
  apply rightRotate_ids in E2. rewrite E2. rewrite <- W. cbn [ids]. rewrite paint_ids. reflexivity.
Qed.
Lemma fixDelete_ids : forall fuel t p t', fixDelete fuel t p = Ok t' -> ids t' = before p ++ ids t ++ after p.
Proof.
  induction fuel as [|fuel IH]; intros t p t' E; [discriminate|]. cbn [fixDelete] in E.
  destruct p as [|f p1]; [injection E as <-; rewrite paint_ids; cbn; rewrite app_nil_r; reflexivity|].
  destruct (is_red t); [injection E as <-; pose proof (plug_ids (paint false t) (f :: p1)) as Q; rewrite paint_ids in Q; exact Q|].
  destruct f as [pc pid w|pc w pid]; apply bind_ok in E; destruct E as ([[pc2 w2] p2] & E1 & E); apply bind_ok in E; destruct E as (n & E2 & E).
  - apply fix_left_ids in E2.
    assert (X : ids t' = before p2 ++ ids t ++ pid :: ids w2 ++ after p2).
    { destruct n as [t1|t1]; [apply IH in E; rewrite E|injection E as <-; rewrite paint_ids, plug_ids]; rewrite E2; apps. }
    rewrite X. destruct w as [|[] wl wid wr]; [discriminate| |]; injection E1 as <- <- <-; cbn [before after ids]; apps.
  - apply fix_right_ids in E2.
    assert (X : ids t' = before p2 ++ ids w2 ++ pid :: ids t ++ after p2).
    { destruct n as [t1|t1]; [apply IH in E; rewrite E|injection E as <-; rewrite paint_ids, plug_ids]; rewrite E2; apps. }
    rewrite X. destruct w as [|[] wl wid wr]; [discriminate| |]; injection E1 as <- <- <-; cbn [before after ids]; apps.
Qed.

(* --- positions --- *)
Definition rbroot (t : tree) : Prop := (exists m, red_black t m) /\ is_red t = false.
Lemma unplug p : forall t, rbroot (plug t p) -> exists n, red_black t n /\ ctx p (is_red t) n.
Proof.
  induction p as [|f p IH]; intros t [[m R] B]; cbn [plug fold_left] in *.
  - exists m. auto.
  - destruct (IH (up t f)) as (n & R1 & C); [split; [exists m; exact R|exact B]|].
    destruct f as [[] id o|[] o id]; cbn [up red_black is_red ctx] in *; rb; subst; eexists; repeat split; eauto.
Qed.
Lemma locate_spec id t : forall p c l r q, locate id t p = Some (c, l, r, q) -> plug (Node c l id r) q = plug t p.
Proof.
  induction t as [|tc tl IHl i tr IHr]; intros p c l r q; cbn [locate]; [discriminate|].
  destruct (Nat.eqb_spec i id) as [->|Ne]; [intros E; injection E as <- <- <- <-; reflexivity|].
  destruct (locate id tl (FL tc i tr :: p)) as [[[[c1 l1] r1] q1]|] eqn:El.
  - intros E; injection E as <- <- <- <-. apply IHl in El. rewrite El. reflexivity.
  - intros E. apply IHr in E. rewrite E. reflexivity.
Qed.
Lemma locate_some id t : forall p, In id (ids t) -> locate id t p <> None.
Proof.
  induction t as [|tc tl IHl i tr IHr]; intros p; cbn [locate ids]; [intros []|].
  rewrite in_app_iff. cbn [In]. destruct (Nat.eqb_spec i id) as [->|Ne]; [discriminate|].
  intros [H|[H|H]]; [|congruence|]; destruct (locate id tl (FL tc i tr :: p)) eqn:El; try discriminate; [|auto].
  exfalso. exact (IHl _ H El).
Qed.
Lemma nodup_split {A} (a1 b1 a2 b2 : list A) x : NoDup (a1 ++ x :: b1) -> a1 ++ x :: b1 = a2 ++ x :: b2 -> a1 = a2 /\ b1 = b2.
Proof.
  revert a2. induction a1 as [|y a1 IH]; intros [|z a2] ND E; cbn [app] in *.
  - injection E as ->. auto.
  - injection E as <- ->. inversion ND; subst. exfalso. apply H1. apply in_or_app. right. left. reflexivity.
  - injection E as -> <-. inversion ND; subst. exfalso. apply H1. apply in_or_app. right. left. reflexivity.
  - injection E as -> E. inversion ND; subst. destruct (IH a2 H2 E) as [-> ->]. auto.
Qed.
Lemma located t A id B : NoDup (ids t) -> ids t = A ++ id :: B ->
  exists c l r p, locate id t [] = Some (c, l, r, p) /\ plug (Node c l id r) p = t /\ A = before p ++ ids l /\ B = ids r ++ after p.
Proof.
  intros ND E. destruct (locate id t []) as [[[[c l] r] p]|] eqn:El.
  - exists c, l, r, p. split; [reflexivity|]. apply locate_spec in El. cbn [plug fold_left] in El. split; [exact El|].
    rewrite E in ND. apply (nodup_split _ _ _ _ id ND).
    assert (X : ids t = before p ++ ids (Node c l id r) ++ after p) by (rewrite <- plug_ids; f_equal; symmetry; exact El).
    rewrite <- E, X. cbn [ids]. apps.
  - exfalso. apply (locate_some id t [] ltac:(rewrite E; apply in_or_app; right; left; reflexivity) El).
Qed.
Lemma findMin_spec t : forall q, t <> Leaf -> exists c id z q', findMin t q = Some (c, id, z, q') /\ plug (Node c Leaf id z) q' = plug t q.
Proof.
  induction t as [|c l IHl id r _]; intros q N; [congruence|]. cbn [findMin].
  destruct l as [|lc ll lid lr]; [eexists _, _, _, _; split; reflexivity|].
  destruct (IHl (FL c id r :: q) ltac:(congruence)) as (c' & id' & z & q' & E & P). eexists _, _, _, _. split; [exact E|]. rewrite P. reflexivity.
Qed.
Lemma plug_app t p q : plug t (p ++ q) = plug (plug t p) q.
Proof. unfold plug. apply fold_left_app. Qed.
Lemma ctx_rename p q c cc l i j n : ctx (p ++ FR cc l i :: q) c n -> ctx (p ++ FR cc l j :: q) c n.
Proof.
  revert c n. induction p as [|[[] ? ?|[] ? ?] p IH]; intros c n; cbn [app ctx]; auto; intuition auto.
Qed.

Lemma findMin_before t : forall q0 q' c i z, findMin t q0 = Some (c, i, z, q') -> before q0 = [] -> before q' = [].
Proof.
  induction t as [|c l IHl i r _]; intros q0 q' c' i' z' E B; [discriminate|]. cbn [findMin] in E.
  destruct l; [injection E as <- <- <- <-; exact B|]. eapply IHl; [exact E|exact B].
Qed.
Lemma tree_remove_ok t A id B : rbroot t -> NoDup (ids t) -> ids t = A ++ id :: B ->
  exists t', tree_remove t id = Ok t' /\ rbroot t' /\ ids t' = A ++ B.
Proof.
  intros R ND E. destruct (located t A id B ND E) as (c & l & r & p & El & Ep & -> & ->). unfold tree_remove. rewrite El.
  assert (ONE : forall z, (l = Leaf /\ z = r) \/ (r = Leaf /\ z = l) ->
    exists t', (if negb c then fixDelete (2 + length p) z p else Ok (plug z p)) = Ok t' /\ rbroot t' /\ ids t' = (before p ++ ids l) ++ ids r ++ after p).
  { intros z Hz. rewrite <- Ep in R. destruct (unplug _ _ R) as (n & Rn & C).
    assert (I : before p ++ ids z ++ after p = (before p ++ ids l) ++ ids r ++ after p).
    { destruct Hz as [[-> ->]|[-> ->]]; cbn [ids app]; rewrite ?app_nil_r; apps. }
    rewrite <- I. destruct c; cbn [negb red_black is_red] in *.
    - destruct Rn as (B1 & B2 & R1 & R2).
      destruct (plug_rb z p n) as [H1 H2]; [destruct Hz as [[-> ->]|[-> ->]]; auto|apply ctx_black in C; destruct Hz as [[-> ->]|[-> ->]]; [rewrite B2|rewrite B1]; exact C|].
      eexists. split; [reflexivity|]. split; [split; assumption|apply plug_ids].
    - destruct Rn as (m & -> & R1 & R2).
      destruct (fixDelete_ok (2 + length p) z p m) as (t' & Ef & H1 & H2); [lia|destruct Hz as [[-> ->]|[-> ->]]; auto|exact C|].
      exists t'. split; [exact Ef|]. split; [split; assumption|]. apply fixDelete_ids in Ef. exact Ef. }
  destruct l as [|lc ll lid lr]; [apply ONE; left; auto|].
  destruct r as [|rc rl rid rr]; [apply ONE; right; auto|]. clear ONE.
  set (l := Node lc ll lid lr) in *. set (r := Node rc rl rid rr) in *.
  destruct (findMin_spec r [] ltac:(subst r; congruence)) as (yc & yid & z & q & Ey & Pq). change (plug r []) with r in Pq. rewrite Ey. cbv zeta.
  assert (P2 : plug (Node yc Leaf yid z) (q ++ FR c l id :: p) = t).
  { rewrite plug_app, Pq. exact Ep. }
  rewrite <- P2 in R. destruct (unplug _ _ R) as (n & Rn & C). apply (ctx_rename _ _ _ _ _ _ yid) in C.
  assert (I : before (q ++ FR c l yid :: p) ++ ids z ++ after (q ++ FR c l yid :: p) = (before p ++ ids l) ++ ids r ++ after p).
  { rewrite <- plug_ids, plug_app. change (plug (plug z q) (FR c l yid :: p)) with (plug (Node c l yid (plug z q)) p). rewrite plug_ids. cbn [ids].
    rewrite <- Pq, !plug_ids. cbn [ids app].
    assert (Bq : before q = []).
    { eapply findMin_before; [exact Ey|reflexivity]. }
    rewrite Bq. apps. }
  rewrite <- I. destruct yc; cbn [negb red_black is_red] in *.
  - destruct Rn as (B1 & B2 & R1 & R2). destruct (plug_rb z (q ++ FR c l yid :: p) n) as [H1 H2]; [auto|rewrite B2; apply ctx_black; exact C|].
    eexists. split; [reflexivity|]. split; [split; assumption|apply plug_ids].
  - destruct Rn as (m & -> & R1 & R2).
    destruct (fixDelete_ok (2 + length (q ++ FR c l yid :: p)) z (q ++ FR c l yid :: p) m) as (t' & Ef & H1 & H2); [lia|auto|exact C|].
    exists t'. split; [exact Ef|]. split; [split; assumption|]. apply fixDelete_ids in Ef. exact Ef.
Qed.
Lemma tree_replace_ok t A id B y : rbroot t -> NoDup (ids t) -> ids t = A ++ id :: B ->
  exists t', tree_replace t id y = Ok t' /\ rbroot t' /\ ids t' = A ++ y :: B.
Proof.
  intros R ND E. destruct (located t A id B ND E) as (c & l & r & p & El & Ep & -> & ->). unfold tree_replace. rewrite El.
  rewrite <- Ep in R. destruct (unplug _ _ R) as (n & Rn & C).
  destruct (plug_rb (Node c l y r) p n) as [H1 H2]; [exact Rn|exact C|].
  eexists. split; [reflexivity|]. split; [split; assumption|]. rewrite plug_ids. cbn [ids]. apps.
Qed.

Section Main.
Context {T : Type} (cmp : T -> T -> Z) (TP : total_preorder cmp).
Definition strict (val : nat -> T) (l : list nat) : Prop := StronglySorted (fun i j => (cmp (val i) (val j) < 0)%Z) l.
Lemma ss_app {A} (R : A -> A -> Prop) a b : StronglySorted R (a ++ b) <->
  StronglySorted R a /\ StronglySorted R b /\ (forall x y, In x a -> In y b -> R x y).
Proof.
  induction a as [|x a IH]; cbn [app].
  - split; [intros H; repeat split; [constructor|exact H|intros ? ? []]|tauto].
  - split.
    + intros H. inversion H as [|? ? H1 H2]; subst. apply IH in H1. destruct H1 as (H1 & H3 & H4). rewrite Forall_app in H2. destruct H2 as [H2 H5].
      split; [constructor; assumption|]. split; [exact H3|]. intros u w [<-|Hu] Hw; [rewrite Forall_forall in H5; auto|auto].
    + intros (H1 & H2 & H3). inversion H1 as [|? ? H4 H5]; subst. constructor.
      * apply IH. split; [exact H4|]. split; [exact H2|]. intros u w Hu Hw. apply H3; [right; exact Hu|exact Hw].
      * rewrite Forall_app. split; [exact H5|]. rewrite Forall_forall. intros w Hw. apply H3; [left; reflexivity|exact Hw].
Qed.
Lemma ss_cons {A} (R : A -> A -> Prop) x b : StronglySorted R (x :: b) <-> StronglySorted R b /\ (forall y, In y b -> R x y).
Proof.
  split.
  - intros H. inversion H as [|? ? H1 H2]; subst. rewrite Forall_forall in H2. auto.
  - intros [H1 H2]. constructor; [exact H1|]. rewrite Forall_forall. exact H2.
Qed.
Lemma ss_ext {A} (R R' : A -> A -> Prop) l : (forall x y, In x l -> In y l -> R x y -> R' x y) -> StronglySorted R l -> StronglySorted R' l.
Proof.
  induction l as [|x l IH]; intros H S; [constructor|]. apply ss_cons in S. destruct S as [S1 S2]. apply ss_cons. split.
  - apply IH; [|exact S1]. intros a b Ha Hb. apply H; right; assumption.
  - intros y Hy. apply H; [left; reflexivity|right; exact Hy|auto].
Qed.
Lemma strict_nodup val l : strict val l -> NoDup l.
Proof.
  induction l as [|x l IH]; intros S; [constructor|]. apply ss_cons in S. destruct S as [S1 S2]. constructor; [|auto].
  intros H. specialize (S2 x H). cbn in S2. rewrite (cmp_refl cmp TP) in S2. lia.
Qed.

Lemma descend_spec val x t : forall p, strict val (ids t) ->
  match descend cmp val x t p with
  | inl q => exists A B, ids t = A ++ B /\ before q = before p ++ A /\ after q = B ++ after p /\
      (forall i, In i A -> (cmp x (val i) > 0)%Z) /\ (forall i, In i B -> (cmp x (val i) < 0)%Z) /\ plug Leaf q = plug t p
  | inr id => In id (ids t) /\ cmp x (val id) = 0%Z
  end.
Proof.
  induction t as [|c l IHl id r IHr]; intros p S; cbn [descend].
  - exists [], []. cbn. rewrite app_nil_r. repeat split; try reflexivity; intros ? [].
  - cbn [ids] in *. apply ss_app in S. destruct S as (S1 & S2 & S3). apply ss_cons in S2. destruct S2 as [S2 S4].
    destruct (Z.eqb_spec (cmp x (val id)) (-1)) as [C|C]; [|destruct (Z.eqb_spec (cmp x (val id)) 1) as [C1|C1]].
    + specialize (IHl (FL c id r :: p) S1). destruct (descend cmp val x l (FL c id r :: p)) as [q|i].
      * destruct IHl as (A & B & E & E1 & E2 & H1 & H2 & P). exists A, (B ++ id :: ids r). rewrite E. split; [apps|]. split; [exact E1|].
        split; [rewrite E2; cbn [after]; apps|]. split; [exact H1|]. split; [|exact P].
        intros i Hi. apply in_app_iff in Hi. destruct Hi as [Hi|[<-|Hi]]; [auto|lia|].
        specialize (S4 i Hi). cbn in S4. apply (cmp_lt_trans_l cmp TP x (val id)); lia.
      * destruct IHl as [H1 H2]. split; [apply in_or_app; left; exact H1|exact H2].
    + specialize (IHr (FR c l id :: p) S2). destruct (descend cmp val x r (FR c l id :: p)) as [q|i].
      * destruct IHr as (A & B & E & E1 & E2 & H1 & H2 & P). exists (ids l ++ id :: A), B. rewrite E. split; [apps|].
        split; [rewrite E1; cbn [before]; apps|]. split; [exact E2|]. split; [|split; [exact H2|exact P]].
        intros i Hi. apply in_app_iff in Hi. destruct Hi as [Hi|[<-|Hi]]; [|lia|auto].
        specialize (S3 i id Hi (or_introl eq_refl)). cbn in S3. pose proof (tp_anti cmp TP x (val id)). pose proof (tp_anti cmp TP x (val i)).
        pose proof (cmp_lt_trans_l cmp TP (val i) (val id) x ltac:(lia) ltac:(lia)). lia.
      * destruct IHr as [H1 H2]. split; [apply in_or_app; right; right; exact H1|exact H2].
    + split; [apply in_or_app; right; left; reflexivity|]. destruct (tp_range cmp TP x (val id)) as [?|[?|?]]; lia.
Qed.
Lemma get_descend val x t p : get cmp val x t = match descend cmp val x t p with inl _ => None | inr id => Some id end.
Proof.
  revert p. induction t as [|c l IHl id r IHr]; intros p; cbn [get descend]; [reflexivity|].
  destruct (cmp x (val id) =? -1)%Z; [apply IHl|]. destruct (cmp x (val id) =? 1)%Z; [apply IHr|]. reflexivity.
Qed.
Lemma treeNextSub_after p : treeNextSub p = hd_or (after p) None.
Proof. induction p as [|[c id r|c l id] p IH]; cbn [treeNextSub after hd_or]; auto. Qed.

(* --- the thread: each tree node is followed by its duplicates --- *)
Definition flat (gs : list (nat * list nat)) : list nat := flat_map (fun g => fst g :: snd g) gs.
Definition group_ok (val : nat -> T) (dup : nat -> bool) (g : nat * list nat) : Prop :=
  dup (fst g) = false /\ forall i, In i (snd g) -> dup i = true /\ cmp (val (fst g)) (val i) = 0%Z.
Definition inv (s : trb T) (gs : list (nat * list nat)) : Prop :=
  rbroot (root s) /\ ids (root s) = map fst gs /\ list_at (hp s) (first s) (last s) (flat gs) /\
  (forall i, In i (flat gs) -> i < nxt s) /\ strict (val s) (map fst gs) /\ (forall g, In g gs -> group_ok (val s) (dup s) g).
Definition contents (s : trb T) (l : list nat) : list (nat * T) := map (fun i => (i, val s i)) l.

Lemma flat_app a b : flat (a ++ b) = flat a ++ flat b.
Proof. apply flat_map_app. Qed.
Lemma in_flat i gs : In i (flat gs) <-> exists g, In g gs /\ (i = fst g \/ In i (snd g)).
Proof.
  unfold flat. rewrite in_flat_map. split; intros (g & H1 & H2); exists g; split; auto; cbn [In] in *; intuition.
Qed.
Lemma cmp_eq_l a b c : cmp a b = 0%Z -> cmp a c = cmp b c.
Proof.
  intros E. pose proof (tp_anti cmp TP a b). pose proof (tp_anti cmp TP a c). pose proof (tp_anti cmp TP b c).
  destruct (tp_range cmp TP a c) as [?|[?|?]], (tp_range cmp TP b c) as [?|[?|?]]; try lia; exfalso.
  all: try (pose proof (cmp_trans cmp TP a b c ltac:(lia) ltac:(lia)); lia).
  all: try (pose proof (cmp_trans cmp TP b a c ltac:(lia) ltac:(lia)); lia).
  all: try (pose proof (cmp_trans cmp TP c a b ltac:(lia) ltac:(lia)); lia).
  all: try (pose proof (cmp_trans cmp TP c b a ltac:(lia) ltac:(lia)); lia).
Qed.
Lemma cmp_eq_r a b c : cmp a b = 0%Z -> cmp c a = cmp c b.
Proof. intros E. rewrite (tp_anti cmp TP a c), (tp_anti cmp TP b c). rewrite (cmp_eq_l a b c E). reflexivity. Qed.

Lemma flat_ascending val dup gs : strict val (map fst gs) -> (forall g, In g gs -> group_ok val dup g) -> ascending cmp (map val (flat gs)).
Proof.
  induction gs as [|g gs IH]; intros S G; [apply asc_nil|]. cbn [map] in S. apply ss_cons in S. destruct S as [S1 S2].
  unfold flat. cbn [flat_map]. fold (flat gs). destruct (G g (or_introl eq_refl)) as [_ G1].
  rewrite map_app. apply asc_app. split; [|split].
  - assert (EQ : forall i j, In i (fst g :: snd g) -> In j (fst g :: snd g) -> cmp (val i) (val j) = 0%Z).
    { intros i j [<-|Hi] [<-|Hj].
      - apply (cmp_refl cmp TP).
      - apply G1. exact Hj.
      - rewrite <- (cmp_eq_l _ _ _ (proj2 (G1 i Hi))). apply (cmp_refl cmp TP).
      - rewrite <- (cmp_eq_l _ _ _ (proj2 (G1 i Hi))). apply G1. exact Hj. }
    revert EQ. generalize (fst g :: snd g). intros l. clear - TP. induction l as [|a l IH]; intros EQ; [apply asc_nil|].
    cbn [map]. apply asc_cons; [apply IH; intros; apply EQ; right; assumption|].
    intros y Hy. apply in_map_iff in Hy. destruct Hy as (i & <- & Hi). rewrite (EQ a i); [lia|left; reflexivity|right; exact Hi].
  - apply IH; [exact S1|]. intros h Hh. apply G. right. exact Hh.
  - intros a b Ha Hb. apply in_map_iff in Ha, Hb. destruct Ha as (i & <- & Hi), Hb as (j & <- & Hj).
    apply in_flat in Hj. destruct Hj as (h & Hh & Hj). specialize (S2 (fst h) (in_map fst _ _ Hh)). cbn in S2.
    assert (E1 : cmp (val i) (val (fst h)) = cmp (val (fst g)) (val (fst h))).
    { destruct Hi as [<-|Hi]; [reflexivity|]. symmetry. apply cmp_eq_l. apply G1. exact Hi. }
    assert (E2 : cmp (val i) (val j) = cmp (val i) (val (fst h))).
    { destruct Hj as [->|Hj]; [reflexivity|]. symmetry. apply cmp_eq_r. apply (G h (or_intror Hh)). exact Hj. }
    lia.
Qed.

Lemma in_contents s l id v : In (id, v) (contents s l) <-> In id l /\ v = val s id.
Proof. unfold contents. rewrite in_map_iff. split; [intros (i & E & Hi); injection E as -> <-; auto|intros [H ->]; eauto]. Qed.
Lemma inv_shows s gs : inv s gs -> shows cmp s (contents s (flat gs)).
Proof.
  intros (R & Ei & L & _ & S & G). split; [|split; [|split]].
  - unfold contents. rewrite map_map. cbn [fst]. rewrite map_id. exact L.
  - intros id v H. apply in_contents in H. symmetry. apply H.
  - unfold contents. rewrite map_map. cbn [snd]. eapply flat_ascending; eauto.
  - intros x. unfold Get. rewrite (get_descend _ _ _ []). pose proof (descend_spec (val s) x (root s) [] ltac:(rewrite Ei; exact S)) as D.
    destruct (descend cmp (val s) x (root s) []) as [q|id].
    + destruct D as (A & B & E & _ & _ & H1 & H2 & _). intros (id & v & H & Ev). apply in_contents in H. destruct H as [H ->].
      apply in_flat in H. destruct H as (g & Hg & H).
      assert (E0 : cmp x (val s (fst g)) = 0%Z).
      { destruct H as [->|H]; [exact Ev|]. rewrite (cmp_eq_r _ _ x (proj2 (proj2 (G g Hg) id H))). exact Ev. }
      assert (Hi : In (fst g) (A ++ B)) by (rewrite <- E, Ei; apply in_map; exact Hg).
      apply in_app_iff in Hi. destruct Hi as [Hi|Hi]; [specialize (H1 _ Hi)|specialize (H2 _ Hi)]; lia.
    + destruct D as [D1 D2]. exists (val s id). split; [|exact D2]. apply in_contents. split; [|reflexivity].
      rewrite Ei in D1. apply in_map_iff in D1. destruct D1 as (g & <- & Hg). apply in_flat. exists g. auto.
Qed.
Lemma shows_fun s l l' : shows cmp s l -> shows cmp s l' -> l = l'.
Proof.
  intros (L1 & V1 & _) (L2 & V2 & _). destruct (list_at_fun _ _ _ _ _ _ L1 L2) as [E _].
  assert (X : forall m, (forall id v, In (id, v) m -> val s id = v) -> m = contents s (map fst m)).
  { intros m H. unfold contents. rewrite map_map. rewrite <- (map_id m) at 1. apply map_ext_in. intros [i v] Hi. cbn [fst]. rewrite (H i v Hi). reflexivity. }
  rewrite (X l V1), (X l' V2), E. reflexivity.
Qed.
Lemma inv_new v : inv (new_trb v) [].
Proof.
  split; [split; [exists 0; reflexivity|reflexivity]|]. split; [reflexivity|]. split.
  - split; [reflexivity|]. split; [reflexivity|]. intros k x E. destruct k; discriminate.
  - split; [intros i []|]. split; [constructor|intros g []].
Qed.

(* --- Insert --- *)
Lemma fset_eq {A} (f : nat -> A) i v : fset f i v i = v.
Proof. unfold fset. rewrite Nat.eqb_refl. reflexivity. Qed.
Lemma fset_neq {A} (f : nat -> A) i v j : j <> i -> fset f i v j = f j.
Proof. intros N. unfold fset. destruct (Nat.eqb_spec j i); congruence. Qed.

Lemma insert_node s gs G1 G2 t f l h x : inv s gs -> gs = G1 ++ G2 -> let n := nxt s in
  rbroot t -> ids t = map fst G1 ++ n :: map fst G2 -> list_at h f l (flat G1 ++ n :: flat G2) ->
  (forall i, In i (map fst G1) -> (cmp x (val s i) > 0)%Z) -> (forall i, In i (map fst G2) -> (cmp x (val s i) < 0)%Z) ->
  inv {| root := t; first := f; last := l; hp := h; val := fset (val s) n x; dup := fset (dup s) n false; nxt := S n |} (G1 ++ (n, []) :: G2).
Proof.
  intros (R & Ei & L & B & S & G) -> n Rt It Lt H1 H2. unfold inv. cbn [root first last hp val dup nxt].
  assert (NE : forall i, In i (flat (G1 ++ G2)) -> i <> n) by (intros i Hi; specialize (B i Hi); subst n; lia).
  assert (NF : forall g, In g (G1 ++ G2) -> fst g <> n) by (intros g Hg; apply NE; apply in_flat; eauto).
  split; [exact Rt|]. split; [rewrite It, map_app; reflexivity|]. split; [rewrite flat_app; exact Lt|]. split; [|split].
  - intros i Hi. rewrite flat_app, in_app_iff in Hi. cbn [flat flat_map fst snd app In] in Hi. fold (flat G2) in Hi.
    specialize (B i). rewrite flat_app, in_app_iff in B. destruct Hi as [Hi|[<-|Hi]]; [specialize (B (or_introl Hi)); lia|subst n; lia|specialize (B (or_intror Hi)); lia].
  - rewrite map_app in *. cbn [map fst]. unfold strict in *. apply ss_app in S. destruct S as (S1 & S2 & S3).
    assert (N1 : forall i, In i (map fst G1) -> i <> n) by (intros i Hi; apply in_map_iff in Hi; destruct Hi as (g & <- & Hg); apply NF, in_or_app; auto).
    assert (N2 : forall i, In i (map fst G2) -> i <> n) by (intros i Hi; apply in_map_iff in Hi; destruct Hi as (g & <- & Hg); apply NF, in_or_app; auto).
    apply ss_app. split; [|split].
    + eapply ss_ext; [|exact S1]. intros a b Ha Hb. cbn. rewrite !fset_neq by auto. auto.
    + apply ss_cons. split.
      * eapply ss_ext; [|exact S2]. intros a b Ha Hb. cbn. rewrite !fset_neq by auto. auto.
      * intros b Hb. cbn. rewrite fset_eq, fset_neq by auto. auto.
    + intros a b Ha [<-|Hb]; cbn; rewrite (fset_neq (val s) n x a) by auto.
      * rewrite fset_eq. specialize (H1 a Ha). rewrite (tp_anti cmp TP). lia.
      * rewrite fset_neq by auto. apply S3; assumption.
  - intros g Hg. apply in_app_iff in Hg. cbn [In] in Hg.
    assert (OLD : In g (G1 ++ G2) -> group_ok (fset (val s) n x) (fset (dup s) n false) g).
    { intros Hg0. destruct (G g Hg0) as [Q1 Q2]. split; [rewrite fset_neq by auto; exact Q1|].
      intros i Hi. assert (i <> n) by (apply NE; apply in_flat; eauto). rewrite !fset_neq by auto. apply Q2. exact Hi. }
    destruct Hg as [Hg|[<-|Hg]]; [apply OLD, in_or_app; auto| |apply OLD, in_or_app; auto].
    split; [cbn [fst]; apply fset_eq|intros i []].
Qed.

Lemma rd_list h f l a x b : list_at h f l (a ++ x :: b) -> rd h (Some x) = Ok (hd_or b None, last_or None a).
Proof.
  rewrite list_at_dll. intros (_ & _ & D). apply dll_app in D. destruct D as (_ & D & _). cbn [rd]. rewrite D. reflexivity.
Qed.

Lemma Insert_ok s gs x : inv s gs -> exists s' gs' n, Insert cmp s x = Ok (s', n) /\ inv s' gs' /\
  exists a b, contents s (flat gs) = a ++ b /\ contents s' (flat gs') = a ++ (n, x) :: b.
Proof.
  intros I. pose proof I as (R & Ei & L & B & S & G). unfold Insert. set (n := nxt s).
  assert (NI : ~ In n (flat gs)) by (intros H; specialize (B n H); subst n; lia).
  set (h := fset (hp s) n (Some (None, None))). set (v := fset (val s) n x).
  assert (Lh : list_at h (first s) (last s) (flat gs)).
  { eapply list_at_ext; [|exact L]. intros i Hi. subst h. apply fset_neq. intros ->. auto. }
  assert (Hn : h n <> None) by (subst h; rewrite fset_eq; discriminate).
  assert (CV : forall i, In i (flat gs) -> v i = val s i) by (intros i Hi; subst v; apply fset_neq; intros ->; auto).
  assert (CI : forall i, In i (ids (root s)) -> In i (flat gs)).
  { intros i Hi. rewrite Ei in Hi. apply in_map_iff in Hi. destruct Hi as (g & <- & Hg). apply in_flat. eauto. }
  assert (Sv : strict v (ids (root s))).
  { rewrite Ei. eapply ss_ext; [|exact S]. intros a b Ha Hb. cbn. rewrite <- Ei in Ha, Hb. rewrite !CV by auto. auto. }
  assert (CE : forall a, (forall i, In i a -> In i (flat gs)) -> map (fun i => (i, v i)) a = map (fun i => (i, val s i)) a).
  { intros a Ha. apply map_ext_in. intros i Hi. rewrite CV by auto. reflexivity. }
  pose proof (descend_spec v x (root s) [] Sv) as D.
  destruct (descend cmp v x (root s) []) as [q|cur].
  2:{ (* duplicate *)
    destruct D as [D1 D2]. pose proof D1 as D3. rewrite Ei in D3. apply in_map_iff in D3. destruct D3 as ([c ds] & Ec & Hg). cbn [fst] in Ec. subst c.
    apply in_split in Hg. destruct Hg as (G1 & G2 & ->).
    assert (EF : flat (G1 ++ (cur, ds) :: G2) = flat G1 ++ cur :: (ds ++ flat G2)) by (rewrite flat_app; cbn [flat flat_map fst snd app]; reflexivity).
    rewrite EF in *.
    destruct (C30_LLInsertAfter h (first s) (last s) (flat G1) cur (ds ++ flat G2) n Lh NI Hn) as (h' & l' & E & L' & _). rewrite E. cbn [bind].
    eexists _, (G1 ++ (cur, n :: ds) :: G2), _. split; [reflexivity|].
    assert (EF' : flat (G1 ++ (cur, n :: ds) :: G2) = flat G1 ++ cur :: n :: ds ++ flat G2) by (rewrite flat_app; cbn [flat flat_map fst snd app]; reflexivity).
    split.
    - unfold inv. cbn [root first last hp val dup nxt]. rewrite EF'. split; [exact R|]. split; [rewrite Ei, !map_app; reflexivity|]. split; [exact L'|].
      split; [|split].
      + intros i Hi. specialize (B i). rewrite in_app_iff in *. cbn [In] in *.
        destruct Hi as [Hi|[Hi|[<-|Hi]]]; [| |lia|]; enough (i < n) by lia; apply B; auto.
      + replace (map fst (G1 ++ (cur, n :: ds) :: G2)) with (ids (root s)) by (rewrite Ei, !map_app; reflexivity). exact Sv.
      + assert (OLD : forall g, In g (G1 ++ (cur, ds) :: G2) -> group_ok v (fset (dup s) n true) g).
        { intros g Hg. destruct (G g Hg) as [Q1 Q2].
          assert (X : forall i, i = fst g \/ In i (snd g) -> In i (flat G1 ++ cur :: ds ++ flat G2)) by (intros i Hi; rewrite <- EF; apply in_flat; eauto).
          assert (Y : forall i, i = fst g \/ In i (snd g) -> i <> n) by (intros i Hi ->; apply NI, X; exact Hi).
          split; [rewrite fset_neq by auto; exact Q1|]. intros i Hi. rewrite fset_neq by auto. rewrite !CV by auto. apply Q2. exact Hi. }
        intros g Hg. apply in_app_iff in Hg. cbn [In] in Hg. destruct Hg as [Hg|[<-|Hg]].
        * apply OLD, in_or_app. auto.
        * destruct (OLD (cur, ds)) as [Q1 Q2]; [apply in_or_app; right; left; reflexivity|]. split; [exact Q1|]. cbn [fst snd] in *.
          intros i [<-|Hi]; [|apply Q2; exact Hi]. rewrite fset_eq. split; [reflexivity|]. subst v. rewrite fset_eq. fold n.
          rewrite (tp_anti cmp TP). lia.
        * apply OLD, in_or_app. right. right. exact Hg.
    - exists (contents s (flat G1 ++ [cur])), (contents s (ds ++ flat G2)). unfold contents. cbn [val]. rewrite EF'. split.
      + rewrite <- map_app. f_equal. apps.
      + change (flat G1 ++ cur :: n :: ds ++ flat G2) with (flat G1 ++ [cur] ++ n :: ds ++ flat G2). rewrite app_assoc, map_app. cbn [map].
        rewrite !CE; [|intros i Hi; apply in_or_app; right; right; exact Hi|
          intros i Hi; apply in_app_iff in Hi; apply in_or_app; destruct Hi as [Hi|[<-|[]]]; [left; exact Hi|right; left; reflexivity]].
        f_equal. f_equal. subst v. rewrite fset_eq. reflexivity. }
  destruct D as (A & Bq & E & E1 & E2 & H1 & H2 & P). change (plug (root s) []) with (root s) in P. cbn [before after app] in E1, E2. rewrite app_nil_r in E2.
  pose proof E as E'. rewrite Ei in E'. apply map_eq_app in E'. destruct E' as (G1 & G2 & Eg & EA & EB).
  assert (HA : forall i, In i (map fst G1) -> (cmp x (val s i) > 0)%Z).
  { intros i Hi. rewrite EA in Hi. rewrite <- CV; [auto|]. apply CI. rewrite E. apply in_or_app. auto. }
  assert (HB : forall i, In i (map fst G2) -> (cmp x (val s i) < 0)%Z).
  { intros i Hi. rewrite EB in Hi. rewrite <- CV; [auto|]. apply CI. rewrite E. apply in_or_app. auto. }
  assert (FIN : forall t f l hh, rbroot t -> ids t = A ++ n :: Bq -> list_at hh f l (flat G1 ++ n :: flat G2) ->
    exists s' gs' n', Ok ({| root := t; first := f; last := l; hp := hh; val := v; dup := fset (dup s) n false; nxt := Datatypes.S n |}, n) = Ok (s', n') /\ inv s' gs' /\
    exists a b, contents s (flat gs) = a ++ b /\ contents s' (flat gs') = a ++ (n', x) :: b).
  { intros t f l hh Rt It Lt. eexists _, (G1 ++ (n, []) :: G2), _. split; [reflexivity|]. split.
    - eapply insert_node; eauto. rewrite EA, EB. exact It.
    - exists (contents s (flat G1)), (contents s (flat G2)). unfold contents. cbn [val]. rewrite Eg, !flat_app. cbn [flat flat_map fst snd app]. fold (flat G2).
      rewrite map_app. split; [reflexivity|]. rewrite map_app. cbn [map].
      rewrite !CE; [|intros i Hi; rewrite Eg, flat_app; apply in_or_app; auto|intros i Hi; rewrite Eg, flat_app; apply in_or_app; auto].
      f_equal. f_equal. subst v. rewrite fset_eq. reflexivity. }
  assert (FX : q <> [] -> exists t, fixInsert (Node true Leaf n Leaf) q = Ok t /\ rbroot t /\ ids t = A ++ n :: Bq).
  { intros _. rewrite <- P in R. destruct (unplug _ _ R) as (m & Rm & Cm). cbn [red_black is_red] in *. subst m.
    destruct (fixInsert_ok (Datatypes.S (length q)) (Node true Leaf n Leaf) q 0) as (t & Et & Rt); [lia|reflexivity|cbn; auto|exact Cm|].
    exists t. split; [exact Et|]. split; [exact Rt|]. unfold fixInsert in Et. apply bind_ok in Et. destruct Et as (t1 & Et & E3). injection E3 as <-.
    rewrite paint_ids. apply (fixInsert_ids (Datatypes.S (length q))) in Et; [|lia]. rewrite Et, E1, E2. reflexivity. }
  destruct q as [|[fc par fo|fc fo par] q1].
  - (* empty tree *)
    cbn [plug fold_left] in P. rewrite <- P in E. cbn [ids] in E. symmetry in E. apply app_eq_nil in E. destruct E as [-> ->].
    apply map_eq_nil in EA, EB. subst G1 G2. apply FIN.
    + split; [exists 1; cbn; eauto|reflexivity].
    + reflexivity.
    + cbn [flat flat_map app]. rewrite list_at_dll. split; [reflexivity|]. split; [reflexivity|]. cbn [dll hd_or]. split; [|exact Logic.I].
      subst h. rewrite fset_eq. reflexivity.
  - (* before the parent *)
    destruct (FX ltac:(discriminate)) as (t & Et & Rt & It).
    cbn [after] in E2. destruct G2 as [|[g ds] G2]; [rewrite <- E2 in EB; discriminate|]. cbn [map fst] in EB. rewrite <- E2 in EB. injection EB as -> EB.
    assert (EF : flat gs = flat G1 ++ par :: (ds ++ flat G2)) by (rewrite Eg, flat_app; reflexivity).
    rewrite EF in Lh, NI.
    destruct (C30_LLInsert h (first s) (last s) (flat G1) par (ds ++ flat G2) n Lh NI Hn) as (h' & f' & Eh & L' & _).
    rewrite Eh. cbn [bind]. rewrite Et. cbn [bind]. apply FIN; [exact Rt|exact It|exact L'].
  - (* after the parent and its duplicates *)
    destruct (FX ltac:(discriminate)) as (t & Et & Rt & It). rewrite Et.
    cbn [before] in E1. cbn [after] in E2.
    destruct G1 as [|[g ds] G1 _] using rev_ind; [exfalso; cbn [map] in EA; rewrite <- E1 in EA; symmetry in EA; apply app_eq_nil in EA; destruct EA as [_ EA]; apply app_eq_nil in EA; destruct EA; discriminate|].
    rewrite map_app in EA. cbn [map fst] in EA. rewrite <- E1, app_assoc in EA. apply app_inj_tail in EA. destruct EA as [EA ->].
    assert (EF : flat gs = flat G1 ++ par :: (ds ++ flat G2)).
    { rewrite Eg, !flat_app. cbn [flat flat_map fst snd app]. rewrite ?app_nil_r. fold (flat G1) (flat G2). apps. }
    assert (EF1 : flat (G1 ++ [(par, ds)]) = flat G1 ++ par :: ds) by (rewrite flat_app; cbn [flat flat_map fst snd]; rewrite app_nil_r; reflexivity).
    assert (GP : group_ok (val s) (dup s) (par, ds)) by (apply G; rewrite Eg; apply in_or_app; left; apply in_or_app; right; left; reflexivity).
    assert (RD : rd_next h (Some par) = Ok (hd_or (ds ++ flat G2) None)).
    { unfold rd_next. rewrite EF in Lh. rewrite (rd_list _ _ _ _ _ _ Lh). reflexivity. }
    rewrite RD. cbn [bind]. destruct ds as [|d0 ds].
    + assert (ND : is_dup s (hd_or ([] ++ flat G2) None) = false).
      { cbn [app]. destruct G2 as [|[g2 d2] G2]; [reflexivity|]. cbn [flat flat_map fst snd app hd_or is_dup].
        apply (G (g2, d2)). rewrite Eg. apply in_or_app. right. left. reflexivity. }
      rewrite ND. rewrite EF in Lh, NI. cbn [app] in Lh, NI.
      destruct (C30_LLInsertAfter h (first s) (last s) (flat G1) par (flat G2) n Lh NI Hn) as (h' & l' & Eh & L' & _).
      rewrite Eh. cbn [bind]. apply FIN; [exact Rt|exact It|]. rewrite EF1. rewrite <- app_assoc. exact L'.
    + assert (ND : is_dup s (hd_or ((d0 :: ds) ++ flat G2) None) = true) by (cbn [app hd_or is_dup]; apply GP; left; reflexivity).
      rewrite ND. rewrite treeNextSub_after, E2. rewrite <- EB. destruct G2 as [|[g2 d2] G2]; cbn [map fst hd_or].
      * rewrite Eg in Lh, NI. rewrite app_nil_r in Lh, NI.
        destruct (C30_LLAddAfter h (first s) (last s) (flat (G1 ++ [(par, d0 :: ds)])) n Lh NI Hn) as (h' & f' & _ & L' & _ & _ & X).
        destruct X as [Eh Ef]; [rewrite EF1; destruct (flat G1); discriminate|]. rewrite Eh. cbn [bind]. apply FIN; [exact Rt|exact It|]. rewrite <- Ef. exact L'.
      * rewrite Eg, flat_app in Lh, NI. cbn [flat flat_map fst snd] in Lh, NI. fold (flat G2) in Lh, NI. fold (flat (G1 ++ [(par, d0 :: ds)])) in Lh, NI. cbn [app] in Lh, NI.
        destruct (C30_LLInsert h (first s) (last s) _ g2 _ n Lh NI Hn) as (h' & f' & Eh & L' & _).
        rewrite Eh. cbn [bind]. apply FIN; [exact Rt|exact It|exact L'].
Qed.

(* --- removal --- *)
Lemma RemoveNode_ok s gs id : inv s gs -> In id (flat gs) -> exists s' gs' A B, RemoveNode s id = Ok s' /\ inv s' gs' /\
  flat gs = A ++ id :: B /\ flat gs' = A ++ B /\ val s' = val s.
Proof.
  intros I Hid. pose proof I as (R & Ei & L & B & S & G).
  pose proof (list_at_nodup _ _ _ _ L) as ND. pose proof Hid as Hf.
  apply in_flat in Hid. destruct Hid as ([c ds] & Hg & Hid). cbn [fst snd] in Hid.
  pose proof Hg as Hg0. apply in_split in Hg. destruct Hg as (G1 & G2 & Eg).
  assert (EF : flat gs = flat G1 ++ c :: (ds ++ flat G2)) by (rewrite Eg, flat_app; reflexivity).
  destruct (G _ Hg0) as [Gc Gd]. cbn [fst snd] in *.
  (* the list and the links *)
  assert (LL : forall a b, flat gs = a ++ id :: b -> exists h' f' l', LLRemove3 (hp s) (Some id) (first s) (last s) = Ok (h', (f', l')) /\
     list_at (fset h' id None) f' l' (a ++ b) /\ (forall i, In i (a ++ b) -> i <> id) /\ rd_next (hp s) (Some id) = Ok (hd_or b None)).
  { intros a b E. rewrite E in L, ND. destruct (C30_LLRemove _ _ _ _ _ _ L) as (h' & f' & l' & Eh & L' & _).
    apply NoDup_remove_2 in ND. exists h', f', l'. split; [exact Eh|]. split; [|split].
    - eapply list_at_ext; [|exact L']. intros i Hi. apply fset_neq. intros ->. auto.
    - intros i Hi ->. auto.
    - unfold rd_next. rewrite (rd_list _ _ _ _ _ _ L). reflexivity. }
  assert (NDr : NoDup (ids (root s))) by (eapply strict_nodup; rewrite Ei; exact S).
  unfold RemoveNode. destruct (in_dec Nat.eq_dec id ds) as [Hd|Hd].
  - (* a duplicate *)
    apply in_split in Hd. destruct Hd as (d1 & d2 & ->).
    assert (E : flat gs = (flat G1 ++ c :: d1) ++ id :: (d2 ++ flat G2)) by (rewrite EF; apps).
    destruct (LL _ _ E) as (h' & f' & l' & Eh & L' & Nid & Er). rewrite Er. cbn [bind].
    rewrite (proj1 (Gd id ltac:(apply in_or_app; right; left; reflexivity))). cbn [bind]. rewrite Eh. cbn [bind].
    eexists _, (G1 ++ (c, d1 ++ d2) :: G2), _, _. split; [reflexivity|].
    assert (EF' : flat (G1 ++ (c, d1 ++ d2) :: G2) = (flat G1 ++ c :: d1) ++ d2 ++ flat G2) by (rewrite flat_app; cbn [flat flat_map fst snd app]; fold (flat G2); apps).
    split; [|split; [exact E|split; [exact EF'|reflexivity]]].
    unfold inv. cbn [root first last hp val dup nxt]. rewrite EF'. split; [exact R|]. split; [rewrite Ei, Eg, !map_app; reflexivity|]. split; [exact L'|].
    split; [intros i Hi; apply B; rewrite E; apply in_app_iff in Hi; apply in_or_app; destruct Hi; [left; assumption|right; right; assumption]|].
    split; [replace (map fst (G1 ++ (c, d1 ++ d2) :: G2)) with (map fst gs) by (rewrite Eg, !map_app; reflexivity); exact S|].
    intros g Hg. apply in_app_iff in Hg. cbn [In] in Hg. destruct Hg as [Hg|[<-|Hg]].
    + apply G. rewrite Eg. apply in_or_app. auto.
    + split; [exact Gc|]. cbn [fst snd]. intros i Hi. apply Gd. apply in_app_iff in Hi. apply in_or_app. destruct Hi; [left; assumption|right; right; assumption].
    + apply G. rewrite Eg. apply in_or_app. right. right. exact Hg.
  - destruct Hid as [->|Hid]; [|contradiction]. destruct (LL _ _ EF) as (h' & f' & l' & Eh & L' & Nid & Er). rewrite Er. cbn [bind]. rewrite Gc.
    assert (EI : ids (root s) = map fst G1 ++ c :: map fst G2) by (rewrite Ei, Eg, map_app; reflexivity).
    destruct ds as [|y ds].
    + (* no duplicates *)
      assert (NDP : is_dup s (hd_or ([] ++ flat G2) None) = false).
      { cbn [app]. destruct G2 as [|[g2 d2] G2]; [reflexivity|]. cbn [flat flat_map fst snd app hd_or is_dup].
        apply (G (g2, d2)). rewrite Eg. apply in_or_app. right. right. left. reflexivity. }
      rewrite NDP. destruct (tree_remove_ok _ _ _ _ R NDr EI) as (t' & Et & Rt & It). rewrite Et. cbn [bind]. rewrite Eh. cbn [bind].
      eexists _, (G1 ++ G2), _, _. split; [reflexivity|]. cbn [app] in *. split; [|split; [exact EF|split; [apply flat_app|reflexivity]]].
      unfold inv. cbn [root first last hp val dup nxt]. rewrite flat_app. split; [exact Rt|]. split; [rewrite It, map_app; reflexivity|]. split; [exact L'|].
      split; [intros i Hi; apply B; rewrite EF; apply in_app_iff in Hi; apply in_or_app; destruct Hi; [left; assumption|right; right; assumption]|].
      rewrite Eg, map_app in S. cbn [map fst] in S. apply ss_app in S. destruct S as (S1 & S2 & S3). apply ss_cons in S2. destruct S2 as [S2 S4].
      split; [rewrite map_app; apply ss_app; split; [exact S1|split; [exact S2|]]; intros a b Ha Hb; apply S3; [exact Ha|right; exact Hb]|].
      intros g Hg. apply G. rewrite Eg. apply in_app_iff in Hg. apply in_or_app. destruct Hg; [left; assumption|right; right; assumption].
    + (* the first duplicate takes its place *)
      cbn [app hd_or is_dup]. destruct (Gd y (or_introl eq_refl)) as [Gy1 Gy2]. rewrite Gy1.
      destruct (tree_replace_ok _ _ _ _ y R NDr EI) as (t' & Et & Rt & It). rewrite Et. cbn [bind]. rewrite Eh. cbn [bind].
      eexists _, (G1 ++ (y, ds) :: G2), _, _. split; [reflexivity|].
      assert (EF' : flat (G1 ++ (y, ds) :: G2) = flat G1 ++ (y :: ds) ++ flat G2) by (rewrite flat_app; reflexivity).
      split; [|split; [exact EF|split; [exact EF'|reflexivity]]].
      unfold inv. cbn [root first last hp val dup nxt]. rewrite EF'. split; [exact Rt|]. split; [rewrite It, map_app; reflexivity|]. split; [exact L'|].
      split; [intros i Hi; apply B; rewrite EF; apply in_app_iff in Hi; apply in_or_app; destruct Hi; [left; assumption|right; right; assumption]|].
      rewrite Eg, map_app in S. cbn [map fst] in S. apply ss_app in S. destruct S as (S1 & S2 & S3). apply ss_cons in S2. destruct S2 as [S2 S4].
      split.
      * rewrite map_app. cbn [map fst]. apply ss_app. split; [exact S1|]. split.
        -- apply ss_cons. split; [exact S2|]. intros b Hb. cbn. rewrite <- (cmp_eq_l _ _ _ Gy2). apply S4. exact Hb.
        -- intros a b Ha [<-|Hb]; cbn; [rewrite <- (cmp_eq_r _ _ _ Gy2); apply S3; [exact Ha|left; reflexivity]|apply S3; [exact Ha|right; exact Hb]].
      * rewrite EF in ND.
        assert (NDy : ~ In y (flat G1) /\ ~ In y ds /\ ~ In y (flat G2)).
        { change (flat G1 ++ c :: (y :: ds) ++ flat G2) with (flat G1 ++ [c] ++ y :: (ds ++ flat G2)) in ND. rewrite app_assoc in ND. apply NoDup_remove_2 in ND.
          rewrite !in_app_iff in ND. tauto. }
        destruct NDy as (N1 & N2 & N3).
        assert (OLD : forall g, In g (G1 ++ G2) -> group_ok (val s) (fset (dup s) y false) g).
        { intros g Hg. assert (Hg' : In g gs) by (rewrite Eg; apply in_app_iff in Hg; apply in_or_app; destruct Hg; [left; assumption|right; right; assumption]).
          destruct (G g Hg') as [Q1 Q2].
          assert (NY : forall i, i = fst g \/ In i (snd g) -> i <> y).
          { intros i Hi ->. apply in_app_iff in Hg. destruct Hg as [Hg|Hg]; [apply N1|apply N3]; apply in_flat; eauto. }
          split; [rewrite fset_neq by auto; exact Q1|]. intros i Hi. rewrite fset_neq by auto. auto. }
        intros g Hg. apply in_app_iff in Hg. cbn [In] in Hg. destruct Hg as [Hg|[<-|Hg]]; [apply OLD, in_or_app; auto| |apply OLD, in_or_app; auto].
        split; [cbn [fst]; apply fset_eq|]. cbn [fst snd]. intros i Hi. rewrite fset_neq by (intros ->; auto).
        destruct (Gd i (or_intror Hi)) as [Q1 Q2]. split; [exact Q1|]. rewrite <- (cmp_eq_l _ _ _ Gy2). exact Q2.
Qed.

Lemma contents_app s a b : contents s (a ++ b) = contents s a ++ contents s b.
Proof. apply map_app. Qed.
Lemma step_ok s gs o : inv s gs -> valid o (contents s (flat gs)) -> exists s' r gs', t_step cmp s o = Ok (s', r) /\ inv s' gs' /\
  effect cmp o (contents s (flat gs)) (contents s' (flat gs')) r.
Proof.
  intros I V. destruct o as [x|x|id]; cbn [t_step valid] in *.
  - destruct (Insert_ok s gs x I) as (s' & gs' & n & E & I' & a & b & E1 & E2). rewrite E. cbn [bind].
    eexists _, _, gs'. split; [reflexivity|]. split; [exact I'|]. exists n, a, b. auto.
  - unfold Remove. pose proof (inv_shows s gs I) as (_ & _ & _ & HG). specialize (HG x). destruct (Get cmp s x) as [id|].
    + destruct HG as (v & Hv & Ev). pose proof Hv as Hv0. apply in_contents in Hv. destruct Hv as [Hv ->].
      destruct (RemoveNode_ok s gs id I Hv) as (s' & gs' & A & B & E & I' & E1 & E2 & E3). rewrite E. cbn [bind].
      eexists _, _, gs'. split; [reflexivity|]. split; [exact I'|]. cbn [effect]. split.
      * intros NP. exfalso. apply NP. exists id, (val s id). auto.
      * intros _. exists (contents s A), id, (val s id), (contents s B). rewrite E1, E2.
        split; [apply contents_app|]. split; [unfold contents; rewrite E3, map_app; reflexivity|]. auto.
    + eexists _, _, gs. split; [reflexivity|]. split; [exact I|]. cbn [effect]. split; [auto|]. intros Pr. contradiction.
  - assert (Hv : In id (flat gs)) by (unfold contents in V; rewrite map_map in V; cbn [fst] in V; rewrite map_id in V; exact V).
    destruct (RemoveNode_ok s gs id I Hv) as (s' & gs' & A & B & E & I' & E1 & E2 & E3). rewrite E. cbn [bind].
    eexists _, _, gs'. split; [reflexivity|]. split; [exact I'|]. exists (contents s A), (val s id), (contents s B). rewrite E1, E2.
    split; [apply contents_app|]. unfold contents. rewrite E3, map_app. reflexivity.
Qed.
Lemma reachable_inv s : reachable cmp s -> exists gs, inv s gs.
Proof.
  induction 1 as [v|s o s' r _ [gs I] V E]; [exists []; apply inv_new|].
  destruct (step_ok s gs o I (V _ (inv_shows s gs I))) as (s1 & r1 & gs' & E1 & I' & _). rewrite E1 in E. injection E as <- _. eauto.
Qed.
Lemma GetNear_before s gs x : inv s gs -> exists p, GetNear cmp s x true = Ok p /\
  match p with
  | None => flat gs = []
  | Some id => In id (flat gs) /\
      ((cmp (val s id) x <= 0)%Z /\ (forall i, In i (flat gs) -> (cmp (val s i) x <= 0)%Z -> (cmp (val s i) (val s id) <= 0)%Z) \/
       (forall i, In i (flat gs) -> (cmp (val s id) (val s i) <= 0)%Z /\ (cmp x (val s i) < 0)%Z))
  end.
Proof.
  intros I. pose proof I as (R & Ei & L & B & S & G). unfold GetNear.
  pose proof (flat_ascending _ _ _ S G) as ASC.
  assert (REP : forall i, In i (flat gs) -> exists g, In g (ids (root s)) /\ cmp (val s g) (val s i) = 0%Z /\ In g (flat gs)).
  { intros i Hi. apply in_flat in Hi. destruct Hi as (g & Hg & Hi). exists (fst g). split; [rewrite Ei; apply in_map; exact Hg|].
    split; [|apply in_flat; eauto]. destruct Hi as [->|Hi]; [apply (cmp_refl cmp TP)|apply (G g Hg); exact Hi]. }
  pose proof (descend_spec (val s) x (root s) [] ltac:(rewrite Ei; exact S)) as D.
  destruct (descend cmp (val s) x (root s) []) as [q|id].
  2:{ destruct D as [D1 D2]. exists (Some id). split; [reflexivity|]. rewrite Ei in D1. apply in_map_iff in D1. destruct D1 as (g & <- & Hg).
      split; [apply in_flat; eauto|]. left. rewrite (tp_anti cmp TP). split; [lia|]. intros i Hi Ci. rewrite (cmp_eq_r _ x); [exact Ci|].
      rewrite (tp_anti cmp TP). lia. }
  destruct D as (A & Bq & E & E1 & E2 & H1 & H2 & P). cbn [before after app] in E1, E2. rewrite app_nil_r in E2.
  assert (ORD : forall i, In i (flat gs) -> exists g, In g (A ++ Bq) /\ cmp (val s g) (val s i) = 0%Z /\ cmp x (val s g) = cmp x (val s i)).
  { intros i Hi. destruct (REP i Hi) as (g & Hg & Eg & _). exists g. rewrite <- E. split; [exact Hg|]. split; [exact Eg|]. apply cmp_eq_r. exact Eg. }
  assert (SI : strict (val s) (A ++ Bq)) by (rewrite <- E, Ei; exact S). apply ss_app in SI. destruct SI as (SA & SB & SAB).
  destruct q as [|[fc par fo|fc fo par] q1].
  - exists None. split; [reflexivity|]. cbn [before after] in E1, E2. rewrite <- E1, <- E2 in E. cbn [app] in E.
    rewrite Ei in E. apply map_eq_nil in E. subst gs. reflexivity.
  - cbn [f_id after] in *. assert (Hp : In par (flat gs)).
    { assert (X : In par (ids (root s))) by (rewrite E, <- E2; apply in_or_app; right; left; reflexivity).
      rewrite Ei in X. apply in_map_iff in X. destruct X as (g & <- & Hg). apply in_flat. eauto. }
    pose proof Hp as Hp0. apply in_split in Hp. destruct Hp as (a & b & Ef). rewrite Ef in L. rewrite (rd_list _ _ _ _ _ _ L). cbn [bind andb].
    pose proof (H2 par ltac:(rewrite <- E2; left; reflexivity)) as Hpar.
    assert (LOW : forall i, In i a -> (cmp x (val s i) > 0)%Z).
    { intros i Hi. assert (Hif : In i (flat gs)) by (rewrite Ef; apply in_or_app; auto). destruct (ORD i Hif) as (g & Hg & Eg & Cg).
      apply in_app_iff in Hg. destruct Hg as [Hg|Hg]; [specialize (H1 g Hg); lia|].
      (* i is at or above par in value and strictly before it in the thread: it would be par's own group *)
      exfalso. assert (Cip : (cmp (val s i) (val s par) <= 0)%Z).
      { rewrite Ef, map_app in ASC. cbn [map] in ASC. apply asc_app in ASC. destruct ASC as (_ & _ & X). apply X; [apply in_map; exact Hi|left; reflexivity]. }
      assert (Cpg : (cmp (val s par) (val s g) <= 0)%Z).
      { rewrite <- E2 in Hg, SB. apply ss_cons in SB. destruct Hg as [<-|Hg]; [rewrite (cmp_refl cmp TP); lia|]. apply SB in Hg. cbn in Hg. lia. }
      assert (Epi : cmp (val s par) (val s i) = 0%Z).
      { rewrite <- (cmp_eq_r _ _ (val s par) Eg). pose proof (tp_anti cmp TP (val s i) (val s par)).
        rewrite (cmp_eq_r _ _ (val s par) Eg). rewrite (cmp_eq_r _ _ (val s par) Eg) in Cpg. lia. }
      (* then i is par or one of its duplicates, which come after par *)
      clear Cip Cpg Hg.
      assert (Hpi : In par (map fst gs)) by (rewrite <- Ei, E, <- E2; apply in_or_app; right; left; reflexivity).
      apply in_map_iff in Hpi. destruct Hpi as ([p0 ds] & Ep0 & Hgs). cbn [fst] in Ep0. subst p0. apply in_split in Hgs. destruct Hgs as (K1 & K2 & EK).
      assert (EK2 : flat gs = flat K1 ++ par :: (ds ++ flat K2)) by (rewrite EK, flat_app; reflexivity).
      pose proof (list_at_nodup _ _ _ _ L) as NDL. rewrite Ef in EK2. destruct (nodup_split _ _ _ _ _ NDL EK2) as [Ea _]. rewrite Ea in Hi.
      apply in_flat in Hi. destruct Hi as (k & Hk & Hik).
      rewrite EK, map_app in S. cbn [map fst] in S. apply ss_app in S. destruct S as (_ & _ & S3).
      specialize (S3 (fst k) par (in_map fst _ _ Hk) (or_introl eq_refl)). cbn in S3.
      assert (Eki : cmp (val s (fst k)) (val s i) = 0%Z).
      { destruct Hik as [->|Hik]; [apply (cmp_refl cmp TP)|]. apply (G k); [rewrite EK; apply in_or_app; auto|exact Hik]. }
      rewrite (cmp_eq_l _ _ _ Eki) in S3. rewrite (tp_anti cmp TP) in S3. lia. }
    destruct a as [|z a0 _] using rev_ind; cbn [isnull negb].
    + cbn [last_or fold_left isnull negb]. exists (Some par). split; [reflexivity|]. split; [exact Hp0|]. right. cbn [app] in Ef.
      intros i Hi. rewrite Ef in Hi. destruct (Hi) as [<-|Hib]; [rewrite (cmp_refl cmp TP); split; [lia|exact Hpar]|].
      assert (X : (cmp (val s par) (val s i) <= 0)%Z).
      { rewrite Ef in ASC. cbn [map] in ASC. apply asc_cons_inv in ASC. apply ASC. apply in_map. exact Hib. }
      split; [exact X|]. apply (cmp_lt_trans_l cmp TP x (val s par)); [exact Hpar|exact X].
    + rewrite last_or_snoc. cbn [isnull negb]. exists (Some z). split; [reflexivity|].
      assert (Hz : In z (flat gs)) by (rewrite Ef; apply in_or_app; left; apply in_or_app; right; left; reflexivity).
      split; [exact Hz|]. left. pose proof (LOW z ltac:(apply in_or_app; right; left; reflexivity)) as Lz. pose proof (tp_anti cmp TP x (val s z)).
      split; [lia|]. intros i Hi Ci. rewrite Ef in Hi. rewrite Ef, !map_app in ASC. cbn [map] in ASC. apply asc_app in ASC. destruct ASC as (X1 & X2 & X3).
      apply in_app_iff in Hi. destruct Hi as [Hi|Hi].
      * apply in_app_iff in Hi. destruct Hi as [Hi|[<-|[]]]; [|rewrite (cmp_refl cmp TP); lia].
        apply asc_app in X1. apply X1; [apply in_map; exact Hi|left; reflexivity].
      * exfalso. apply asc_cons_inv in X2. destruct X2 as [_ X2]. pose proof (tp_anti cmp TP x (val s i)).
        destruct Hi as [<-|Hi]; [lia|]. specialize (X2 _ (in_map (val s) _ _ Hi)).
        pose proof (cmp_lt_trans_l cmp TP x (val s par) (val s i) Hpar X2). lia.
  - cbn [f_id before] in *. assert (HpA : In par A) by (rewrite <- E1; apply in_or_app; right; apply in_or_app; right; left; reflexivity).
    assert (Hp : In par (flat gs)).
    { assert (X : In par (ids (root s))) by (rewrite E; apply in_or_app; auto). rewrite Ei in X. apply in_map_iff in X. destruct X as (g & <- & Hg). apply in_flat. eauto. }
    pose proof Hp as Hp0. apply in_split in Hp. destruct Hp as (a & b & Ef). rewrite Ef in L. rewrite (rd_list _ _ _ _ _ _ L). cbn [bind andb].
    exists (Some par). split; [reflexivity|]. split; [exact Hp0|]. left. pose proof (H1 par HpA). rewrite (tp_anti cmp TP). split; [lia|].
    intros i Hi Ci. destruct (ORD i Hi) as (g & Hg & Eg & Cg). rewrite <- (cmp_eq_l _ _ _ Eg). pose proof (tp_anti cmp TP x (val s i)).
    apply in_app_iff in Hg. destruct Hg as [Hg|Hg]; [|specialize (H2 g Hg); lia].
    rewrite <- E1, app_assoc in Hg, SA. apply ss_app in SA. destruct SA as (_ & _ & SA). apply in_app_iff in Hg.
    destruct Hg as [Hg|[<-|[]]]; [|rewrite (cmp_refl cmp TP); lia]. specialize (SA g par Hg (or_introl eq_refl)). cbn in SA. lia.
Qed.
End Main.

(* Main theorem: in every reachable state the thread lists the elements in order and Get is exact, and every call is
   defined and has the effect described above. *)
Theorem C34_TRBtree_sorted_sequence : forall (T : Type) (cmp : T -> T -> Z), total_preorder cmp ->
  forall s, reachable cmp s ->
  (exists l, shows cmp s l) /\
  forall l o, shows cmp s l -> valid o l ->
    exists s' r l', t_step cmp s o = Ok (s', r) /\ shows cmp s' l' /\ effect cmp o l l' r.
Proof.
  intros T cmp TP s Rs. destruct (reachable_inv cmp TP s Rs) as [gs I]. pose proof (inv_shows cmp TP s gs I) as Sh. split; [eauto|].
  intros l o Sl V. rewrite (shows_fun cmp s l _ Sl Sh) in *. destruct (step_ok cmp TP s gs o I V) as (s' & r & gs' & E & I' & Ef).
  exists s', r, (contents s' (flat gs')). split; [exact E|]. split; [apply inv_shows; auto|exact Ef].
Qed.
Print Assumptions C34_TRBtree_sorted_sequence.

(* Every reachable tree is red-black, with a black root. *)
Theorem C34_TRBtree_red_black : forall (T : Type) (cmp : T -> T -> Z), total_preorder cmp ->
  forall s, reachable cmp s -> is_red (root s) = false /\ exists n, red_black (root s) n.
Proof. intros T cmp TP s Rs. destruct (reachable_inv cmp TP s Rs) as [gs [[R B] _]]. auto. Qed.
Print Assumptions C34_TRBtree_red_black.

(* GetNear(x, true): an element at or below x that no other exceeds, or the least element if all are above x. *)
Theorem C34_GetNear_before : forall (T : Type) (cmp : T -> T -> Z), total_preorder cmp ->
  forall s l x, reachable cmp s -> shows cmp s l ->
  exists p, GetNear cmp s x true = Ok p /\
  match p with
  | None => l = []
  | Some id => exists v, In (id, v) l /\
      (((cmp v x <= 0)%Z /\ forall e, In e l -> (cmp (snd e) x <= 0)%Z -> (cmp (snd e) v <= 0)%Z) \/
       (forall e, In e l -> (cmp v (snd e) <= 0)%Z /\ (cmp x (snd e) < 0)%Z))
  end.
Proof.
  intros T cmp TP s l x Rs Sl. destruct (reachable_inv cmp TP s Rs) as [gs I]. rewrite (shows_fun cmp s l _ Sl (inv_shows cmp TP s gs I)).
  destruct (GetNear_before cmp TP s gs x I) as (p & E & H). exists p. split; [exact E|]. destruct p as [id|].
  - destruct H as [H1 H2]. exists (val s id). split; [apply in_contents; auto|]. destruct H2 as [[H2 H3]|H2]; [left; split; [exact H2|]|right].
    + intros [i v] He. apply in_contents in He. destruct He as [He ->]. cbn [snd]. apply H3. exact He.
    + intros [i v] He. apply in_contents in He. destruct He as [He ->]. cbn [snd]. apply H2. exact He.
  - rewrite H. reflexivity.
Qed.
Print Assumptions C34_GetNear_before.

Definition zop (l : list (t_op Z)) : res (trb Z) :=
  fold_left (fun r o => do s <- r; do (s1, _) <- t_step zcmp s o; Ok s1) l (Ok (new_trb (fun _ => 0%Z))).
(* GetNear(x, false) should be the next element at or above x; with duplicates it can be an element below x although
   there is one above (TRBtree.h:532: parent->next is a duplicate of parent) *)
Theorem C34_GetNear_after_refuted : exists s id,
  zop [OInsert 3%Z; OInsert 1%Z; OInsert 1%Z] = Ok s /\ GetNear zcmp s 2%Z false = Ok (Some id) /\ val s id = 1%Z /\
  (exists k, Get zcmp s 3%Z = Some k).
Proof. eexists _, _. split; [vm_compute; reflexivity|]. split; [vm_compute; reflexivity|]. split; [vm_compute; reflexivity|]. eexists. vm_compute. reflexivity. Qed.
Print Assumptions C34_GetNear_after_refuted.

(* duplicates, removal of a tree node that has duplicates, rebalancing removals *)
Fixpoint walk (fuel : nat) (s : trb Z) (p : ptr) : list Z :=
  match fuel, p with
  | S f, Some i => val s i :: walk f s (match hp s i with Some (n, _) => n | None => None end)
  | _, _ => []
  end.
Example C34_example : exists s,
  zop (map OInsert [5; 2; 8; 1; 9; 3; 8; 4; 7; 6; 8]%Z ++ map ORemove [8; 10; 5; 1]%Z ++ [ORemoveNode 10]) = Ok s /\
  walk 20 s (first s) = [2; 3; 4; 6; 7; 8; 9]%Z /\ Get zcmp s 8%Z = Some 6.
Proof. eexists. split; [vm_compute; reflexivity|]. split; vm_compute; reflexivity. Qed.
Example C34_reachable : exists s, reachable zcmp s /\ walk 9 s (first s) = [1; 3]%Z.
Proof.
  pose proof (r_new zcmp (fun _ => 0%Z)) as R0.
  pose proof (r_step zcmp _ (OInsert 3%Z) _ _ R0 (fun _ _ => Logic.I) eq_refl) as R1.
  pose proof (r_step zcmp _ (OInsert 1%Z) _ _ R1 (fun _ _ => Logic.I) eq_refl) as R2.
  pose proof (r_step zcmp _ (OInsert 1%Z) _ _ R2 (fun _ _ => Logic.I) eq_refl) as R3.
  pose proof (r_step zcmp _ (ORemove 1%Z) _ _ R3 (fun _ _ => Logic.I) eq_refl) as R4.
  eexists. split; [exact R4|]. vm_compute. reflexivity.
Qed.
