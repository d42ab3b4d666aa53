(* Properties of BreadthFirstGraph (include/bss-util/Graph.h 399-441): C148. *)
From Coq Require Import List Arith ZArith Lia Bool.
From Coq Require Import ZifyBool ZifyNat.
From Verif Require Import Common DisjointSet Flow BFSGraph.
Import ListNotations.
Local Open Scope nat_scope.

(* ------------------------------------------------------------------ *)
(** Specification: walks along the edges *)
Definition edge_to (g : net) (u v : nat) : Prop := exists e x, nth_error (edges g) e = Some x /\ ffrom x = u /\ fto x = v.
Inductive walk (g : net) (r : nat) : nat -> nat -> Prop :=
| w_here : walk g r r 0
| w_step u v n : walk g r u n -> edge_to g u v -> walk g r v (S n).
(** a graph: indices of vertices are below the capacity *)
Record bgraph (g : net) (root : nat) : Prop := {
  bg_nodup : NoDup (order g);
  bg_index : forall i, In i (order g) -> i < ncap g;
  bg_root : In root (order g);
  bg_edges : forall e x, nth_error (edges g) e = Some x -> In (ffrom x) (order g) /\ In (fto x) (order g) }.
(** no vertex but the root is entered by two edges *)
Definition forest (g : net) (root : nat) : Prop :=
  forall e1 e2 x1 x2, nth_error (edges g) e1 = Some x1 -> nth_error (edges g) e2 = Some x2 -> fto x1 = fto x2 -> fto x1 <> root -> e1 = e2.

Lemma outs_edge g i e : In e (outs g i) <-> exists x, nth_error (edges g) e = Some x /\ ffrom x = i.
Proof.
  unfold outs. rewrite filter_In, <- in_rev, in_seq. split.
  - intros [? H]. destruct (nth_error (edges g) e) as [x|]; [|discriminate]. exists x. split; auto. now apply Nat.eqb_eq.
  - intros (x & E & <-). rewrite E. split; [|apply Nat.eqb_refl]. apply nth_error_lt in E. lia.
Qed.
(** the targets of the edges in l *)
Definition tgt (g : net) (e : nat) : nat := match nth_error (edges g) e with Some x => fto x | None => 0 end.
Lemma tgt_edge g u e : In e (outs g u) -> edge_to g u (tgt g e).
Proof. rewrite outs_edge. intros (x & E & F). exists e, x. unfold tgt. rewrite E. auto. Qed.
Lemma edge_tgt g u v : edge_to g u v -> exists e, In e (outs g u) /\ tgt g e = v.
Proof. intros (e & x & E & F & T). exists e. split; [apply outs_edge; eauto|]. unfold tgt. now rewrite E. Qed.

Section Proofs.
Context (act : list nat -> nat -> bool) (qcap : nat) (g : net) (root : nat) (G : bgraph g root).

Lemma root_lt : root < ncap g. Proof. eapply bg_index; eauto. apply (bg_root _ _ G). Qed.

(** the set holds the root and the vertices of M *)
Definition shape (s : dset) (M : list nat) : Prop :=
  length (arr s) = ncap g /\ (exists w, nth_error (arr s) root = Some w /\ (w <= -1)%Z) /\
  forall x, x < ncap g -> x <> root -> nth_error (arr s) x = Some (if in_dec Nat.eq_dec x M then Z.of_nat root else (-1)%Z).
Definition marked (M : list nat) (x : nat) : bool := (x =? root) || (if in_dec Nat.eq_dec x M then true else false).

Lemma shape_new : shape (new_dset (ncap g)) [].
Proof.
  pose proof root_lt. split; [apply repeat_length|]. assert (R : forall x, x < ncap g -> nth_error (repeat (-1)%Z (ncap g)) x = Some (-1)%Z).
  { intros x Hx. now apply nth_error_repeat. }
  split; [exists (-1)%Z; split; auto; lia|]. intros x Hx _. cbn. auto.
Qed.
Lemma find_shape s M x : shape s M -> x < ncap g -> exists f, Find s x = Ok (s, f) /\ (f =? root) = marked M x.
Proof.
  intros (L & (w & Ew & Hw) & H) Hx. pose proof root_lt. unfold Find, marked. destruct (Nat.eqb_spec x root) as [->|Hne].
  - exists root. rewrite Nat.eqb_refl. cbn [climb]. rewrite (get_some _ _ _ Ew). cbn [bind]. destruct (Z.leb_spec 0 w); [lia|]. cbn [bind]. rewrite Nat.eqb_refl. auto.
  - specialize (H x Hx Hne). cbn [climb]. rewrite (get_some _ _ _ H). cbn [bind]. destruct (in_dec Nat.eq_dec x M).
    + exists root. destruct (Z.leb_spec 0 (Z.of_nat root)); [|lia]. rewrite Nat2Z.id. destruct (length (arr s)) eqn:EL; [lia|]. cbn [climb].
      rewrite (get_some _ _ _ Ew). cbn [bind]. destruct (Z.leb_spec 0 w); [lia|]. cbn [bind]. rewrite (proj2 (Nat.eqb_neq x root)) by auto.
      cbn [bind compress]. rewrite Z.eqb_refl. cbn [bind]. rewrite Nat.eqb_refl. destruct s. auto.
    + exists x. cbn. destruct (Nat.eqb_spec x x); [|lia]. split; auto. now apply Nat.eqb_neq.
Qed.
Lemma union_shape s M x : shape s M -> x < ncap g -> x <> root -> exists s' b, Union s root x = Ok (s', b) /\ shape s' (x :: M).
Proof.
  intros (L & (w & Ew & Hw) & H) Hx Hne. pose proof root_lt. unfold Union, invalidIndex.
  destruct (Nat.leb_spec (length (arr s)) root); [lia|]. rewrite (get_some _ _ _ Ew). cbn [bind]. destruct (Z.leb_spec 0 w); [lia|].
  destruct (Nat.leb_spec (length (arr s)) x); [lia|]. pose proof (H x Hx Hne) as Ex. rewrite (get_some _ _ _ Ex). cbn [bind].
  destruct (in_dec Nat.eq_dec x M) as [Ix|Ix].
  - destruct (Z.leb_spec 0 (Z.of_nat root)); [|lia]. eexists _, _. split; [reflexivity|]. split; auto. split; eauto.
    intros y Hy Hyr. rewrite (H y Hy Hyr). destruct (in_dec Nat.eq_dec y M), (in_dec Nat.eq_dec y (x :: M)) as [J|J]; cbn in J; auto; try tauto.
    destruct J as [->|J]; tauto.
  - destruct (Z.leb_spec 0 (-1)); [lia|]. cbn [bind]. destruct (Z.gtb_spec w (-1)); [lia|]. rewrite set_ok by lia. cbn [bind].
    rewrite set_ok by (rewrite upd_length; lia). cbn [bind]. eexists _, _. split; [reflexivity|]. unfold shape. cbn [arr]. split; [now rewrite !upd_length|]. split.
    + exists (w + -1)%Z. split; [|lia]. rewrite nth_error_upd_neq by auto. now apply nth_error_upd_eq; lia.
    + intros y Hy Hyr. rewrite nth_error_upd, upd_length. destruct (Nat.eqb_spec x y) as [<-|Hxy]; cbn [andb].
      * destruct (Nat.ltb_spec x (length (arr s))); [|lia]. destruct (in_dec Nat.eq_dec x (x :: M)) as [J|J]; auto. cbn in J. tauto.
      * rewrite nth_error_upd_neq by auto. rewrite (H y Hy Hyr). destruct (in_dec Nat.eq_dec y M), (in_dec Nat.eq_dec y (x :: M)) as [J|J]; cbn in J; auto; try tauto.
Qed.

(** what a scan adds to the queue *)
Definition news (M : list nat) (l : list nat) : list nat := filter (fun v => negb (marked M v)) (map (tgt g) l).
Lemma news_cons M e l : news M (e :: l) = if marked M (tgt g e) then news M l else tgt g e :: news M l.
Proof. unfold news. cbn [map filter]. destruct (marked M (tgt g e)); auto. Qed.
Lemma tgt_lt u e : In e (outs g u) -> exists x, nth_error (edges g) e = Some x /\ tgt g e = fto x /\ fto x < ncap g.
Proof.
  rewrite outs_edge. intros (x & E & _). exists x. split; auto. unfold tgt. rewrite E. split; auto. eapply bg_index; eauto. eapply bg_edges; eauto.
Qed.
Lemma enqueue_cases q x : enqueue qcap q x = if length (q ++ [x]) <=? qcap then Ok (q ++ [x]) else UB.
Proof. unfold enqueue. rewrite app_length. cbn [length]. destruct (Nat.ltb_spec (length q) qcap), (Nat.leb_spec (length q + 1) qcap); auto; lia. Qed.
Lemma first_scan_ok l : incl l (outs g root) -> forall q, length q <= qcap ->
  first_scan qcap g root l q = if length (q ++ news [] l) <=? qcap then Ok (q ++ news [] l) else UB.
Proof.
  induction l as [|e l IH]; intros Hl q Hq; cbn [first_scan].
  - cbn. rewrite app_nil_r. destruct (Nat.leb_spec (length q) qcap); auto; lia.
  - destruct (tgt_lt root e) as (x & Ex & Et & Lx); [apply Hl; left; auto|]. rewrite (get_some _ _ _ Ex). cbn [bind].
    rewrite news_cons, Et. replace (marked [] (fto x)) with (fto x =? root) by (unfold marked; cbn; now rewrite orb_false_r).
    destruct (fto x =? root); cbn [bind].
    + apply IH; auto. intros a Ha; apply Hl; right; auto.
    + rewrite enqueue_cases. destruct (Nat.leb_spec (length (q ++ [fto x])) qcap) as [C|C]; cbn [bind].
      * rewrite IH by (auto; intros a Ha; apply Hl; right; auto). rewrite <- app_assoc. reflexivity.
      * destruct (Nat.leb_spec (length (q ++ fto x :: news [] l)) qcap) as [C2|]; auto.
        rewrite app_length in C, C2. cbn [length] in C, C2. lia.
Qed.
Lemma scan_ok u l s M : incl l (outs g u) -> shape s M -> forall q, length q <= qcap ->
  scan qcap g root l s q = if length (q ++ news M l) <=? qcap then Ok (s, q ++ news M l) else UB.
Proof.
  intros Hl Hs. induction l as [|e l IH]; intros q Hq; cbn [scan].
  - cbn. rewrite app_nil_r. destruct (Nat.leb_spec (length q) qcap); auto; lia.
  - destruct (tgt_lt u e) as (x & Ex & Et & Lx); [apply Hl; left; auto|]. rewrite (get_some _ _ _ Ex). cbn [bind].
    destruct (find_shape s M (fto x) Hs Lx) as (f & -> & Ef). cbn [bind]. rewrite Ef, news_cons, Et.
    assert (Hl' : incl l (outs g u)) by (intros a Ha; apply Hl; right; auto).
    destruct (marked M (fto x)); cbn [negb bind].
    + now apply IH.
    + rewrite enqueue_cases. destruct (Nat.leb_spec (length (q ++ [fto x])) qcap) as [C|C]; cbn [bind].
      * rewrite IH by auto. rewrite <- app_assoc. reflexivity.
      * destruct (Nat.leb_spec (length (q ++ fto x :: news M l)) qcap) as [C2|]; auto.
        rewrite app_length in C, C2. cbn [length] in C, C2. lia.
Qed.

(** the queue with the root in front and with the number of edges to each vertex; p of them are done *)
Definition linv (Q : list (nat * nat)) (p : nat) : Prop :=
  nth_error Q 0 = Some (root, 0) /\ 0 < p <= length Q /\
  (forall k v l, nth_error Q k = Some (v, l) -> walk g root v l /\ v < ncap g /\ (0 < k -> v <> root)) /\
  (forall k k' v l v' l', k <= k' -> nth_error Q k = Some (v, l) -> nth_error Q k' = Some (v', l') -> l <= l') /\
  (forall k v l v' l', nth_error Q k = Some (v, l) -> nth_error Q (p - 1) = Some (v', l') -> l <= S l') /\
  (forall k v l u, k < p -> nth_error Q k = Some (v, l) -> edge_to g v u -> exists k' l', nth_error Q k' = Some (u, l') /\ l' <= S l).
Lemma walk_lt v n : walk g root v n -> v < ncap g.
Proof.
  intros H. destruct H as [|u v m _ (e & x & E & _ & <-)]; [apply root_lt|]. eapply bg_index; eauto. eapply bg_edges; eauto.
Qed.
Lemma walk_in v n : walk g root v n -> In v (order g).
Proof. intros H. destruct H as [|u v m _ (e & x & E & _ & <-)]; [apply (bg_root _ _ G)|]. eapply bg_edges; eauto. Qed.
Lemma news_in M l v : In v (news M l) -> marked M v = false /\ exists e, In e l /\ tgt g e = v.
Proof.
  unfold news. rewrite filter_In, in_map_iff, negb_true_iff. intros ((e & E & I) & Hm). eauto.
Qed.
Lemma linv_step Q p v l : linv Q p -> nth_error Q p = Some (v, l) ->
  linv (Q ++ map (fun u => (u, S l)) (news (map fst (firstn p (skipn 1 Q))) (outs g v))) (S p).
Proof.
  intros HI Ep. pose proof HI as (H0 & Hp & HW & HS & HB & HC). set (M := map fst (firstn p (skipn 1 Q))). set (N := map (fun u => (u, S l)) (news M (outs g v))).
  pose proof (nth_error_lt _ _ _ Ep) as Lp.
  assert (HN : forall k u m, nth_error (Q ++ N) k = Some (u, m) -> nth_error Q k = Some (u, m) \/ (length Q <= k /\ m = S l /\ In u (news M (outs g v)))).
  { intros k u m E. destruct (Nat.lt_ge_cases k (length Q)) as [C|C]; [rewrite nth_error_app1 in E by auto; auto|].
    rewrite nth_error_app2 in E by auto. right. apply nth_error_In in E. unfold N in E. apply in_map_iff in E as (u' & E & I). injection E as <- <-. auto. }
  destruct (HW _ _ _ Ep) as (Wv & Lv & _).
  assert (HL : forall k u m, nth_error Q k = Some (u, m) -> m <= S l).
  { intros k u m E. destruct (nth_error_ex Q (p - 1)) as [[v0 l0] E0]; [lia|]. specialize (HB _ _ _ _ _ E E0).
    assert (l0 <= l) by (eapply (HS (p - 1) p); eauto; lia). lia. }
  split; [rewrite nth_error_app1; auto; lia|]. split; [rewrite app_length; lia|]. split; [|split; [|split]].
  - intros k u m E. apply HN in E as [E|(C & -> & I)]; [eauto|]. apply news_in in I as (Hm & e & Ie & <-). pose proof (tgt_edge _ _ _ Ie) as Ed.
    assert (W : walk g root (tgt g e) (S l)) by (econstructor; eauto). split; auto. split; [eapply walk_lt; eauto|].
    intros _ Er. unfold marked in Hm. rewrite Er, Nat.eqb_refl in Hm. discriminate.
  - intros k k' u m u' m' Hk E E'. apply HN in E as [E|(C & -> & I)]; apply HN in E' as [E'|(C' & -> & I')]; [eapply (HS k k'); eauto|eauto| |auto].
    apply nth_error_lt in E'. lia.
  - intros k u m v' l' E E'. rewrite nth_error_app1 in E' by lia. replace (S p - 1) with p in E' by lia. assert (l' = l) by congruence. subst.
    apply HN in E as [E|(_ & -> & _)]; eauto.
  - intros k u m t Hk E Ed. rewrite nth_error_app1 in E by lia. destruct (Nat.eq_dec k p) as [->|Hkp].
    + assert (u = v /\ m = l) as [-> ->] by (split; congruence). apply edge_tgt in Ed as (e & Ie & Et).
      destruct (marked M t) eqn:Em.
      * assert (exists k l0, k < S p /\ nth_error Q k = Some (t, l0)) as (k & l0 & Hk' & Ek).
        { clear - Em H0 Lp. unfold marked in Em. destruct (Nat.eqb_spec t root) as [Er|]; [exists 0, 0; rewrite Er; split; auto; lia|].
          destruct (in_dec Nat.eq_dec t M) as [I|]; [|discriminate]. unfold M in I. apply in_map_iff in I as ([v' m] & <- & I). apply In_nth_error in I as [k E].
          rewrite nth_error_firstn in E. destruct (Nat.ltb_spec k p); [|discriminate]. rewrite nth_error_skipn in E. exists (1 + k), m. split; auto. lia. }
        exists k, l0. rewrite nth_error_app1 by (eapply nth_error_lt; eauto). split; auto. eapply Nat.le_trans; [eapply (HS k p); eauto; lia|lia].
      * assert (I : In (t, S l) N).
        { unfold N. apply in_map_iff. exists t. split; auto. unfold news. apply filter_In. rewrite Em. split; auto. apply in_map_iff. eauto. }
        apply In_nth_error in I as [j Ej]. exists (length Q + j), (S l). rewrite nth_error_app2 by lia. replace (length Q + j - length Q) with j by lia. auto.
    + destruct (HC k u m t) as (k' & l' & E' & Hl'); auto; [lia|]. exists k', l'. rewrite nth_error_app1 by (eapply nth_error_lt; eauto). auto.
Qed.

(** when entry p is taken, all vertices nearer to the root have been taken *)
Lemma linv_nearer Q p v l : linv Q p -> nth_error Q p = Some (v, l) -> forall n u, n < l -> walk g root u n -> exists k m, k < p /\ nth_error Q k = Some (u, m) /\ m <= n.
Proof.
  intros (H0 & Hp & HW & HS & HB & HC) Ep. induction n as [|n IH]; intros u Hn Hu; inversion Hu as [|u0 ? ? Hu0 Ed]; subst.
  - exists 0, 0. split; auto. lia.
  - destruct (IH u0) as (k & m & Hk & Ek & Hm); auto; [lia|]. destruct (HC k u0 m u Hk Ek Ed) as (k' & l' & E' & Hl').
    exists k', l'. split; [|split; auto; lia]. destruct (Nat.lt_ge_cases k' p); auto. assert (l <= l') by (eapply (HS p k'); eauto). lia.
Qed.
Lemma linv_all Q p : linv Q p -> p = length Q -> forall n u, walk g root u n -> In u (map fst Q).
Proof.
  intros (H0 & Hp & HW & HS & HB & HC) -> n u Hu. assert (exists k l, nth_error Q k = Some (u, l)) as (k & l & E).
  { induction Hu as [|u v n Hu (k & l & E) Ed]; [eauto|]. destruct (HC k u l v) as (k' & l' & E' & _); eauto. eapply nth_error_lt; eauto. }
  apply in_map_iff. exists (u, l). split; auto. eapply nth_error_In; eauto.
Qed.

(** no duplicates when no vertex has two edges into it: E holds the edges scanned *)
Definition finv (Q : list (nat * nat)) (p : nat) : Prop :=
  forest g root -> NoDup (map fst Q) /\ forall k v l, 0 < k -> nth_error Q k = Some (v, l) -> exists j u m e, j < p /\ nth_error Q j = Some (u, m) /\ In e (outs g u) /\ tgt g e = v.
Lemma NoDup_app_intro {A} (l1 l2 : list A) : NoDup l1 -> NoDup l2 -> (forall x, In x l1 -> ~ In x l2) -> NoDup (l1 ++ l2).
Proof.
  induction l1 as [|a l1 IH]; intros D1 D2 H; auto. inversion D1; subst. cbn. constructor.
  - rewrite in_app_iff. intros [?|?]; [auto|eapply H; [left|]; eauto].
  - apply IH; auto. intros x Hx. apply H. right; auto.
Qed.
Lemma NoDup_app_l {A} (l1 l2 : list A) : NoDup (l1 ++ l2) -> NoDup l1.
Proof.
  induction l1 as [|a l1 IH]; cbn; intros D; [constructor|]. inversion D as [|? ? NI D']; subst. constructor; auto. intros I. apply NI. rewrite in_app_iff. auto.
Qed.
Lemma outs_nodup' i : NoDup (outs g i).
Proof. unfold outs. apply NoDup_filter, NoDup_rev, seq_NoDup. Qed.
Lemma finv_step Q p v l : linv Q p -> finv Q p -> nth_error Q p = Some (v, l) ->
  finv (Q ++ map (fun u => (u, S l)) (news (map fst (firstn p (skipn 1 Q))) (outs g v))) (S p).
Proof.
  intros HI HF Ep F. destruct (HF F) as [ND HP]. pose proof HI as (H0 & Hp & HW & _). set (M := map fst (firstn p (skipn 1 Q))) in *.
  assert (UN : forall e e', In e (outs g v) -> In e' (outs g v) -> tgt g e = tgt g e' -> tgt g e <> root -> e = e').
  { intros e e' I I' T R. apply outs_edge in I as (x & Ex & _). apply outs_edge in I' as (x' & Ex' & _). unfold tgt in *. rewrite Ex, Ex' in *. eapply F; eauto. }
  assert (NDn : NoDup (news M (outs g v))).
  { assert (Hin : forall e, In e (outs g v) -> In e (outs g v)) by auto. revert Hin. generalize (outs_nodup' v). generalize (outs g v) at 1 2 4 as L.
    induction L as [|e L IH]; intros D Hin; cbn; [constructor|]. inversion D as [|? ? NI D']; subst. specialize (IH D' (fun a Ha => Hin a (or_intror Ha))).
    destruct (negb (marked M (tgt g e))) eqn:Em; auto. constructor; auto. intros I. apply news_in in I as (Hm & e' & I' & T).
    assert (tgt g e' <> root). { intros E. unfold marked in Hm. rewrite <- T, E, Nat.eqb_refl in Hm. discriminate. }
    assert (e' = e) by (apply UN; auto; [apply Hin; right; auto|apply Hin; left; auto]). subst. auto. }
  split.
  - rewrite map_app, map_map. cbn. rewrite map_id. apply NoDup_app_intro; auto. intros u Iu In'. apply news_in in In' as (Hm & e & Ie & Te).
    apply in_map_iff in Iu as ([u' m] & Eu & Iu). cbn in Eu. subst u'. apply In_nth_error in Iu as [k Ek].
    destruct (Nat.eq_dec k 0) as [->|Hk0].
    + rewrite H0 in Ek. injection Ek as <- <-. unfold marked in Hm. rewrite Nat.eqb_refl in Hm. discriminate.
    + destruct (HP k u m) as (j & w & m' & e' & Hj & Ej & Ie' & Te'); auto; [lia|].
      assert (u <> root). { intros Er. unfold marked in Hm. rewrite Er, Nat.eqb_refl in Hm. discriminate. }
      pose proof Ie as Ie1. pose proof Ie' as Ie2. apply outs_edge in Ie as (x & Ex & Fx). apply outs_edge in Ie' as (x' & Ex' & Fx').
      assert (e = e'). { unfold tgt in *. rewrite Ex in Te. rewrite Ex' in Te'. eapply F; eauto; congruence. }
      subst e'. assert (x = x') by congruence. subst x'. assert (v = w) by congruence. subst w.
      assert (j = p); [|lia]. apply (proj1 (NoDup_nth_error (map fst Q)) ND); [rewrite map_length; eapply nth_error_lt; eauto|].
      rewrite !nth_error_map, Ej, Ep. cbn. congruence.
  - intros k u m Hk E. destruct (Nat.lt_ge_cases k (length Q)) as [C|C].
    + rewrite nth_error_app1 in E by auto. destruct (HP k u m Hk E) as (j & w & m' & e & Hj & Ej & Ie & Te).
      exists j, w, m', e. rewrite nth_error_app1 by (eapply nth_error_lt; eauto). repeat split; auto.
    + rewrite nth_error_app2 in E by auto. apply nth_error_In in E. apply in_map_iff in E as (u' & E & I). injection E as <- <-.
      apply news_in in I as (_ & e & Ie & Te). exists p, v, l, e. rewrite nth_error_app1 by (eapply nth_error_lt; eauto). repeat split; auto.
Qed.

(** the calls: a prefix of the queue, cut behind the first call that returns true *)
Definition result (calls : list nat) : Prop :=
  (forall v, In v calls -> exists n, walk g root v n) /\
  (forall a v b, calls = a ++ v :: b -> (b <> [] -> act a v = false) /\
     forall u n, walk g root u n -> (forall m, walk g root v m -> n < m) -> In u a) /\
  ((forall a v b, calls = a ++ v :: b -> act a v = false) -> forall u n, walk g root u n -> In u calls) /\
  (forest g root -> NoDup calls).

Lemma prefix_calls Q p : linv Q p -> finv Q p -> (forall a v b, map fst (firstn p Q) = a ++ v :: b -> act a v = false) ->
  (forall a v b, map fst (firstn p Q) = a ++ v :: b -> forall u n, walk g root u n -> (forall m, walk g root v m -> n < m) -> In u a) -> p = length Q -> result (map fst (firstn p Q)).
Proof.
  intros HI HF HA HO Hp. split; [|split; [|split]].
  - intros v I. apply in_map_iff in I as ([v' l] & <- & I). apply In_nth_error in I as [k E]. rewrite nth_error_firstn in E.
    destruct (k <? p); [|discriminate]. destruct HI as (_ & _ & HW & _). exists l. apply (HW _ _ _ E).
  - intros a v b E. split; [intros _; eauto|eauto].
  - intros _ u n Hu. rewrite Hp, firstn_all. eapply linv_all; eauto.
  - intros F. rewrite Hp, firstn_all. apply HF; auto.
Qed.

Lemma app_snoc_split {A} (l : list A) x a v b : l ++ [x] = a ++ v :: b -> (b = [] /\ a = l /\ v = x) \/ exists b', b = b' ++ [x] /\ l = a ++ v :: b'.
Proof.
  intros H. destruct b as [|y b] using rev_ind.
  - left. apply app_inj_tail in H as [-> ->]. auto.
  - right. exists b. rewrite app_comm_cons, app_assoc in H. apply app_inj_tail in H as [-> ->]. auto.
Qed.

Lemma loop_ok fuel : forall Q p s, linv Q p -> finv Q p -> shape s (map fst (firstn (p - 1) (skipn 1 Q))) ->
  length Q <= S qcap -> S qcap < fuel + p ->
  (forall a v b, map fst (firstn p Q) = a ++ v :: b -> act a v = false) ->
  (forall a v b, map fst (firstn p Q) = a ++ v :: b -> forall u n, walk g root u n -> (forall m, walk g root v m -> n < m) -> In u a) ->
  match bfs_loop act qcap fuel g root (p - 1) s (map fst (skipn 1 Q)) (map fst (firstn p Q)) with
  | Ok calls => result calls
  | UB => ~ (forest g root /\ length (order g) <= S qcap)
  | OutOfFuel => False
  end.
Proof.
  induction fuel as [|fuel IH]; intros Q p s HI HF Hs HQ Hfuel HA HO.
  - pose proof HI as (_ & Hp & _). lia.
  - pose proof HI as (H0 & Hp & HW & HS & HB & HC). cbn [bfs_loop]. rewrite map_length, skipn_length.
    destruct (Nat.eqb_spec (p - 1) (length Q - 1)) as [E|E]; [apply prefix_calls; auto; lia|].
    destruct (nth_error_ex Q p) as [[v l] Ep]; [lia|].
    assert (Eg : get (map fst (skipn 1 Q)) (p - 1) = Ok v).
    { apply get_some. rewrite nth_error_map, nth_error_skipn. replace (1 + (p - 1)) with p by lia. now rewrite Ep. }
    rewrite Eg. cbn [bind]. assert (EF : map fst (firstn (S p) Q) = map fst (firstn p Q) ++ [v]).
    { rewrite (firstn_snoc _ _ _ Ep), map_app. auto. }
    assert (HO' : forall a u b, map fst (firstn (S p) Q) = a ++ u :: b -> forall t n, walk g root t n -> (forall m, walk g root u m -> n < m) -> In t a).
    { intros a u b E'. rewrite EF in E'. apply app_snoc_split in E' as [(-> & -> & ->)|(b' & -> & E')]; [|eauto].
      intros t n Ht Hn. destruct (HW _ _ _ Ep) as (Wv & _). destruct (linv_nearer Q p v l HI Ep n t) as (k & m & Hk & Ek & _); auto.
      apply in_map_iff. exists (t, m). split; auto. apply nth_error_In with k. rewrite nth_error_firstn. destruct (Nat.ltb_spec k p); auto; lia. }
    destruct (act (map fst (firstn p Q)) v) eqn:EA.
    + rewrite <- EF. split; [|split; [|split]].
      * intros u I. apply in_map_iff in I as ([u' m] & <- & I). apply In_nth_error in I as [k E']. rewrite nth_error_firstn in E'.
        destruct (k <? S p); [|discriminate]. exists m. apply (HW _ _ _ E').
      * intros a u b E'. split; [|eauto]. intros Hb. rewrite EF in E'. apply app_snoc_split in E' as [(-> & _)|(b' & -> & E')]; [congruence|eauto].
      * intros H. specialize (H (map fst (firstn p Q)) v [] EF). congruence.
      * intros F. destruct (HF F) as [ND _]. rewrite <- firstn_map. apply (NoDup_app_l _ (skipn (S p) (map fst Q))). now rewrite firstn_skipn.
    + destruct (HW _ _ _ Ep) as (Wv & Lv & Rv). specialize (Rv ltac:(lia)).
      destruct (union_shape s _ v Hs Lv Rv) as (s' & b & -> & Hs'). cbn [bind].
      assert (Hs2 : shape s' (map fst (firstn p (skipn 1 Q)))).
      { assert (EM : map fst (firstn p (skipn 1 Q)) = map fst (firstn (p - 1) (skipn 1 Q)) ++ [v]).
        { replace p with (S (p - 1)) at 1 by lia. rewrite (firstn_snoc _ (p - 1) (v, l)), map_app; auto. rewrite nth_error_skipn. replace (1 + (p - 1)) with p by lia. auto. }
        destruct Hs' as (A & B & C). split; auto. split; auto. intros x Hx Hxr. rewrite (C x Hx Hxr), EM.
        destruct (in_dec Nat.eq_dec x (v :: map fst (firstn (p - 1) (skipn 1 Q)))) as [J|J], (in_dec Nat.eq_dec x (map fst (firstn (p - 1) (skipn 1 Q)) ++ [v])) as [K|K]; auto;
          rewrite in_app_iff in K; cbn in J, K; tauto. }
      rewrite (scan_ok v _ s' _ (incl_refl _) Hs2) by (rewrite map_length, skipn_length; lia).
      set (new := news (map fst (firstn p (skipn 1 Q))) (outs g v)).
      pose proof (linv_step Q p v l HI Ep) as HI2. pose proof (finv_step Q p v l HI HF Ep) as HF2. fold new in HI2, HF2.
      set (Q2 := Q ++ map (fun u => (u, S l)) new) in *.
      assert (ES : map fst (skipn 1 Q) ++ new = map fst (skipn 1 Q2)).
      { unfold Q2. rewrite skipn_app. replace (1 - length Q) with 0 by lia. cbn [skipn]. rewrite map_app, map_map. cbn. now rewrite map_id. }
      rewrite ES. destruct (Nat.leb_spec (length (map fst (skipn 1 Q2))) qcap) as [C|C]; cbn [bind].
      * rewrite map_length, skipn_length in C.
        assert (EP : firstn (S p) Q2 = firstn (S p) Q). { unfold Q2. rewrite firstn_app. replace (S p - length Q) with 0 by lia. cbn. now rewrite app_nil_r. }
        specialize (IH Q2 (S p) s' HI2 HF2). replace (S p - 1) with p in IH by lia.
        assert (EK : firstn p (skipn 1 Q2) = firstn p (skipn 1 Q)).
        { unfold Q2. rewrite skipn_app, firstn_app, skipn_length. replace (p - (length Q - 1)) with 0 by lia. cbn. now rewrite app_nil_r. }
        rewrite EK, EP, EF in IH. replace (p - 1 + 1) with p by lia. apply IH; auto; try lia.
        -- intros a u b' E'. apply app_snoc_split in E' as [(-> & -> & ->)|(b2 & -> & E')]; eauto.
        -- rewrite <- EF. exact HO'.
      * intros [F Hcap]. destruct (HF2 F) as [ND _]. rewrite map_length, skipn_length in C.
        assert (length (map fst Q2) <= length (order g)).
        { apply NoDup_incl_length; auto. intros u I. apply in_map_iff in I as ([u' m] & <- & I). apply In_nth_error in I as [k Ek].
          destruct HI2 as (_ & _ & HW2 & _). destruct (HW2 _ _ _ Ek) as (W & _). cbn. eapply walk_in; eauto. }
        rewrite map_length in *. lia.
Qed.

Lemma bfs_ok : match BreadthFirstGraph act qcap g root with
  | Ok calls => result calls
  | UB => ~ (forest g root /\ length (order g) <= S qcap)
  | OutOfFuel => False
  end.
Proof.
  unfold BreadthFirstGraph. destruct (act [] root) eqn:EA.
  - split; [|split; [|split]].
    + intros v [<-|[]]. exists 0. constructor.
    + intros a v b E. destruct a as [|x a]; [|destruct a; discriminate]. injection E as <- <-. split; [congruence|]. intros u n Hu Hn. specialize (Hn 0 (w_here _ _)). lia.
    + intros H. specialize (H [] root [] eq_refl). congruence.
    + intros _. constructor; [easy|constructor].
  - rewrite (first_scan_ok (outs g root) (incl_refl _) []) by (cbn; lia). cbn [app].
    pose proof root_lt as RL.

    set (new := news [] (outs g root)). set (Q := (root, 0) :: map (fun u => (u, 1)) new).
    assert (HN : forall k u m, nth_error Q (S k) = Some (u, m) -> m = 1 /\ In u new).
    { intros k u m E. cbn in E. apply nth_error_In, in_map_iff in E as (u' & E & I). injection E as <- <-. auto. }
    assert (W1 : forall u, In u new -> walk g root u 1 /\ u <> root).
    { intros u I. apply news_in in I as (Hm & e & Ie & <-). split; [econstructor; [constructor|now apply tgt_edge]|].
      intros E. unfold marked in Hm. rewrite E, Nat.eqb_refl in Hm. discriminate. }
    assert (HI : linv Q 1).
    { split; auto. split; [cbn; lia|]. split; [|split; [|split]].
      - intros [|k] v l E; [injection E as <- <-; split; [constructor|split; auto; lia]|]. apply HN in E as [-> I]. destruct (W1 v I). split; auto. split; auto. eapply walk_lt; eauto.
      - intros k k' v l v' l' Hk E E'. destruct k as [|k]; [injection E as <- <-; lia|]. destruct k' as [|k']; [lia|]. apply HN in E as [-> _]. apply HN in E' as [-> _]. lia.
      - intros k v l v' l' E E'. injection E' as <- <-. destruct k as [|k]; [injection E as <- <-; lia|]. apply HN in E as [-> _]. lia.
      - intros k v l u Hk E Ed. assert (k = 0) by lia. subst. injection E as <- <-. destruct (Nat.eq_dec u root) as [->|Hu]; [exists 0, 0; auto|].
        apply edge_tgt in Ed as (e & Ie & Te). assert (I : In (u, 1) (map (fun u => (u, 1)) new)).
        { apply in_map_iff. exists u. split; auto. unfold new, news. apply filter_In. split; [apply in_map_iff; eauto|]. unfold marked. rewrite (proj2 (Nat.eqb_neq u root)) by auto. auto. }
        apply In_nth_error in I as [j Ej]. exists (S j), 1. cbn. auto. }
    assert (HF : finv Q 1).
    { intros F. assert (UN : forall e e', In e (outs g root) -> In e' (outs g root) -> tgt g e = tgt g e' -> tgt g e <> root -> e = e').
      { intros e e' I I' T R. apply outs_edge in I as (x & Ex & _). apply outs_edge in I' as (x' & Ex' & _). unfold tgt in *. rewrite Ex, Ex' in *. eapply F; eauto. }
      split.
      - unfold Q. cbn [map fst]. rewrite map_map. cbn. rewrite map_id. constructor; [intros I; apply W1 in I as [_ ?]; auto|].
        assert (Hin : forall e, In e (outs g root) -> In e (outs g root)) by auto. unfold new. revert Hin. generalize (outs_nodup' root). generalize (outs g root) at 1 2 4 as L.
        induction L as [|e L IH]; intros D Hin; cbn; [constructor|]. inversion D as [|? ? NI D']; subst. specialize (IH D' (fun a Ha => Hin a (or_intror Ha))).
        destruct (negb (marked [] (tgt g e))) eqn:Em; auto. constructor; auto. intros I. apply news_in in I as (Hm & e' & I' & T).
        assert (tgt g e' <> root). { intros E. unfold marked in Hm. rewrite <- T, E, Nat.eqb_refl in Hm. discriminate. }
        assert (e' = e) by (apply UN; auto; [apply Hin; right; auto|apply Hin; left; auto]). subst. auto.
      - intros [|k] v l Hk E; [lia|]. apply HN in E as [-> I]. apply news_in in I as (_ & e & Ie & Te). exists 0, root, 0, e. repeat split; auto. }
    assert (EQ : map fst (skipn 1 Q) = new) by (cbn; rewrite map_map; cbn; apply map_id).
    destruct (Nat.leb_spec (length new) qcap) as [C|C]; cbn [bind].
    + pose proof (loop_ok (S qcap) Q 1 (new_dset (ncap g)) HI HF) as L. rewrite EQ in L. replace (1 - 1) with 0 in L by lia. apply L.
      * apply shape_new.
      * cbn. rewrite map_length. lia.
      * lia.
      * intros a v b E. cbn in E. destruct a as [|x a]; [|destruct a; discriminate]. injection E as <- <-. auto.
      * intros a v b E. cbn in E. destruct a as [|x a]; [|destruct a; discriminate]. injection E as <- <-. intros u n Hu Hn. specialize (Hn 0 (w_here _ _)). lia.
    + intros [F Hcap]. destruct (HF F) as [ND _]. assert (length (map fst Q) <= length (order g)).
      { apply NoDup_incl_length; auto. intros u I. apply in_map_iff in I as ([u' m] & <- & I). apply In_nth_error in I as [k Ek].
        destruct HI as (_ & _ & HW2 & _). destruct (HW2 _ _ _ Ek) as (W & _). cbn. eapply walk_in; eauto. }
      unfold Q in *. cbn in H. rewrite !map_length in *. lia.
Qed.
End Proofs.

(** C148: BreadthFirstGraph always ends, by returning or by writing beyond the queue.  When it returns: FACTION was called
    with vertices that can be reached from the root only; every call but the last returned false; when a vertex is
    visited, all vertices nearer to the root were visited before; and unless FACTION returned true all vertices that can be
    reached were visited.  Missing, because false (C148_bfs_refuted): that no vertex is visited twice and that a queue as
    long as the number of vertices is enough. *)
Theorem C148_bfs_partial : forall act qcap g root, bgraph g root ->
  BreadthFirstGraph act qcap g root = UB \/
  exists calls, BreadthFirstGraph act qcap g root = Ok calls /\
    (forall v, In v calls -> exists n, walk g root v n) /\
    (forall a v b, calls = a ++ v :: b -> b <> [] -> act a v = false) /\
    (forall a v b, calls = a ++ v :: b -> forall u n, walk g root u n -> (forall m, walk g root v m -> n < m) -> In u a) /\
    ((forall a v b, calls = a ++ v :: b -> act a v = false) -> forall u n, walk g root u n -> In u calls).
Proof.
  intros act qcap g root G. pose proof (bfs_ok act qcap g root G) as H. destruct (BreadthFirstGraph act qcap g root) as [calls| |]; [|auto|easy].
  right. exists calls. destruct H as (A & B & C & _). split; auto. split; auto. split; [intros a v b E; apply (B a v b E)|]. split; [intros a v b E; apply (B a v b E)|auto].
Qed.
Print Assumptions C148_bfs_partial.

(** C148 in full where no vertex but the root is entered by two edges: a queue as long as the number of vertices is
    enough and no vertex is visited twice. *)
Theorem C148_bfs_forest_partial : forall act g root, bgraph g root -> forest g root ->
  exists calls, BreadthFirstGraph act (length (order g)) g root = Ok calls /\ NoDup calls /\
    (forall v, In v calls -> exists n, walk g root v n) /\
    (forall a v b, calls = a ++ v :: b -> b <> [] -> act a v = false) /\
    (forall a v b, calls = a ++ v :: b -> forall u n, walk g root u n -> (forall m, walk g root v m -> n < m) -> In u a) /\
    ((forall a v b, calls = a ++ v :: b -> act a v = false) -> forall u n, walk g root u n -> In u calls).
Proof.
  intros act g root G F. pose proof (bfs_ok act (length (order g)) g root G) as H. destruct (BreadthFirstGraph act (length (order g)) g root) as [calls| |]; [| |easy].
  - exists calls. destruct H as (A & B & C & D). split; auto. split; auto. split; auto. split; [intros a v b E; apply (B a v b E)|]. split; [intros a v b E; apply (B a v b E)|auto].
  - exfalso. apply H. split; auto.
Qed.
Print Assumptions C148_bfs_forest_partial.

(** two ways from 0 to 3; three ways from 0 to 4 *)
Definition g_diamond : net := mknet [0; 1; 2; 3] 4 [mkf 0 1 0; mkf 0 2 0; mkf 1 3 0; mkf 2 3 0].
Definition g_fan : net := mknet [0; 1; 2; 3; 4] 5 [mkf 0 1 0; mkf 0 2 0; mkf 0 3 0; mkf 1 4 0; mkf 2 4 0; mkf 3 4 0].
Ltac bg_tac := constructor; [repeat constructor; cbn; intuition discriminate|cbn; intuition (subst; lia)|cbn; auto|
  let e := fresh in let E := fresh in intros e ? E; repeat (destruct e as [|e]; [injection E as <-; cbn; auto 10|]); destruct e; discriminate E].
Theorem C148_bfs_refuted :
  (bgraph g_diamond 0 /\ BreadthFirstGraph (fun _ _ => false) 4 g_diamond 0 = Ok [0; 2; 1; 3; 3]) /\
  (bgraph g_fan 0 /\ BreadthFirstGraph (fun _ _ => false) 5 g_fan 0 = UB).
Proof. split; (split; [bg_tac|vm_compute; reflexivity]). Qed.
Print Assumptions C148_bfs_refuted.

(** a tree, with an edge back to the root *)
Definition g_tree : net := mknet [0; 1; 2; 3; 4] 5 [mkf 0 1 0; mkf 0 2 0; mkf 1 3 0; mkf 1 4 0; mkf 4 0 0].
Example C148_example : bgraph g_tree 0 /\ forest g_tree 0 /\ BreadthFirstGraph (fun _ _ => false) 5 g_tree 0 = Ok [0; 2; 1; 4; 3] /\
  BreadthFirstGraph (fun _ x => x =? 1) 5 g_tree 0 = Ok [0; 2; 1].
Proof.
  split; [bg_tac|]. split; [|split; vm_compute; reflexivity]. intros e1 e2 x1 x2 E1 E2 T R.
  do 5 (destruct e1 as [|e1]; [injection E1 as <-; cbn in T, R; do 5 (destruct e2 as [|e2]; [injection E2 as <-; cbn in T; try lia; try congruence|]); destruct e2; discriminate E2|]).
  destruct e1; discriminate E1.
Qed.
