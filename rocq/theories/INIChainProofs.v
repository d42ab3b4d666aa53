(* The chain of nodes with instances is a sequence of groups, one for each name. *)
From Coq Require Import List Arith Bool ZArith Lia.
From Verif Require Import Common Dll LLBase LLBaseProps INIChain.
Import ListNotations.

Lemma same_spec a b : reflect (fold_case a = fold_case b) (same a b).
Proof. unfold same. destruct (list_eq_dec Z.eq_dec (fold_case a) (fold_case b)); constructor; auto. Qed.
Lemma same_refl a : same a a = true.
Proof. destruct (same_spec a a); auto. Qed.
Lemma same_sym a b : same a b = same b a.
Proof. destruct (same_spec a b), (same_spec b a); congruence. Qed.
Lemma same_trans a b c : same a b = true -> same a c = same b c.
Proof. destruct (same_spec a b), (same_spec a c), (same_spec b c); congruence. Qed.

Lemma NoDup_app_snoc {A} (l : list A) x : NoDup l -> ~ In x l -> NoDup (l ++ [x]).
Proof.
  induction l as [|y l IH]; cbn; intros ND NI; [constructor; auto; constructor|]. inversion ND; subst. constructor.
  - rewrite in_app_iff. cbn. intuition.
  - apply IH; auto.
Qed.

Section P.
Context {V : Type}.
Implicit Types (c : chain V).
Definition groups := list (list Z * list (nat * V)).
Definition grp (gs : groups) (n : list Z) : list (nat * V) := flat_map snd (filter (fun g => same (fst g) n) gs).
Definition ids (gs : groups) : list nat := map fst (flat_map snd gs).
Definition chain_ok c (gs : groups) : Prop :=
  list_at (hp c) (root c) (last c) (ids gs) /\
  (forall g, In g gs -> snd g <> []) /\
  NoDup (map (fun g => fold_case (fst g)) gs) /\
  (forall n, hfind (hash c) n = hd_error (map fst (grp gs n))) /\
  NoDup (map (fun g => fold_case (fst g)) (hash c)) /\
  (forall nm a v rest, In (nm, (a, v) :: rest) gs -> inst c a = map fst rest) /\
  (forall a v, In (a, v) (flat_map snd gs) -> val c a = Some v) /\
  (forall a, In a (ids gs) -> a < fresh c) /\
  (forall x, hp c x <> None <-> In x (ids gs)).

Lemma put_same {A} (f : nat -> A) a v : put f a v a = v.
Proof. unfold put. now rewrite Nat.eqb_refl. Qed.
Lemma put_other {A} (f : nat -> A) a v x : x <> a -> put f a v x = f x.
Proof. intros H. unfold put. apply Nat.eqb_neq in H. now rewrite H. Qed.

Lemma grp_app g1 g2 n : grp (g1 ++ g2) n = grp g1 n ++ grp g2 n.
Proof. unfold grp. now rewrite filter_app, flat_map_app. Qed.
Lemma grp_cons nm x g n : grp ((nm, x) :: g) n = (if same nm n then x else []) ++ grp g n.
Proof. unfold grp. cbn. destruct (same nm n); reflexivity. Qed.
Lemma grp_none (gs : groups) n : (forall g, In g gs -> same (fst g) n = false) -> grp gs n = [].
Proof.
  induction gs as [|[nm x] gs IH]; intros H; auto. pose proof (H (nm, x) (or_introl eq_refl)) as H1. cbn in H1. rewrite grp_cons, H1. cbn. apply IH. intros g Hg. apply H. now right.
Qed.
Lemma ids_app g1 g2 : ids (g1 ++ g2) = ids g1 ++ ids g2.
Proof. unfold ids. now rewrite flat_map_app, map_app. Qed.
Lemma ids_cons nm x g : ids ((nm, x) :: g) = map fst x ++ ids g.
Proof. unfold ids. cbn. now rewrite map_app. Qed.
Lemma grp_split (gs : groups) n : NoDup (map (fun g => fold_case (fst g)) gs) -> grp gs n <> [] ->
  exists g1 nm x g2, gs = g1 ++ (nm, x) :: g2 /\ same nm n = true /\ grp gs n = x /\
    (forall g, In g (g1 ++ g2) -> same (fst g) n = false).
Proof.
  induction gs as [|[nm x] gs IH]; intros ND H; [contradiction H; reflexivity|]. inversion ND as [|? ? NI ND']; subst. rewrite grp_cons in *.
  destruct (same nm n) eqn:E.
  - assert (O : forall g, In g gs -> same (fst g) n = false).
    { intros g Hg. destruct (same_spec (fst g) n) as [Eg|]; auto. exfalso. apply NI. destruct (same_spec nm n) as [En|]; [|discriminate].
      cbn. rewrite En, <- Eg. apply (in_map (fun g => fold_case (fst g))), Hg. }
    exists [], nm, x, gs. rewrite (grp_none gs n O), app_nil_r. auto.
  - cbn [app] in *. destruct (IH ND' H) as (g1 & nm' & x' & g2 & -> & A & B & C). exists ((nm, x) :: g1), nm', x', g2.
    split; auto. split; auto. split; auto. intros g [<-|Hg]; auto.
Qed.
Lemma grp_upd (g1 g2 : groups) nm x y n n' : same nm n = true -> (forall g, In g (g1 ++ g2) -> same (fst g) n = false) ->
  grp (g1 ++ (nm, y) :: g2) n' = if same n n' then y else grp (g1 ++ (nm, x) :: g2) n'.
Proof.
  intros E O. rewrite !grp_app, !grp_cons. rewrite (same_trans nm n n' E). destruct (same n n') eqn:E'; auto.
  assert (O' : forall g, In g (g1 ++ g2) -> same (fst g) n' = false).
  { intros g Hg. rewrite same_sym, <- (same_trans n n' (fst g) E'), same_sym. auto. }
  rewrite (grp_none g1), (grp_none g2), app_nil_r; auto; intros g Hg; apply O', in_or_app; auto.
Qed.
Lemma grp_del (g1 g2 : groups) nm x n n' : same nm n = true -> (forall g, In g (g1 ++ g2) -> same (fst g) n = false) ->
  grp (g1 ++ g2) n' = if same n n' then [] else grp (g1 ++ (nm, x) :: g2) n'.
Proof.
  intros E O. rewrite !grp_app, !grp_cons. rewrite (same_trans nm n n' E). destruct (same n n') eqn:E'; auto.
  assert (O' : forall g, In g (g1 ++ g2) -> same (fst g) n' = false).
  { intros g Hg. rewrite same_sym, <- (same_trans n n' (fst g) E'), same_sym. auto. }
  rewrite (grp_none g1), (grp_none g2); auto; intros g Hg; apply O', in_or_app; auto.
Qed.
Lemma grp_nonempty (gs : groups) n : (forall g, In g gs -> snd g <> []) -> grp gs n = [] -> forall g, In g gs -> same (fst g) n = false.
Proof.
  intros H. induction gs as [|[nm x] gs IH]; intros E g Hg; [destruct Hg|]. rewrite grp_cons in E. destruct (same nm n) eqn:S.
  - apply app_eq_nil in E as [E _]. exfalso. apply (H (nm, x)); [now left|exact E].
  - destruct Hg as [<-|Hg]; auto. apply IH; auto. intros g' Hg'. apply H. now right.
Qed.
Lemma list_heap h r l is : list_at h r l is -> forall x, In x is -> h x <> None.
Proof. intros (_ & _ & D) x Hx. apply In_nth_error in Hx as [k Hk]. rewrite (D k x Hk). discriminate. Qed.
Lemma hfind_none_in h n : hfind h n = None -> ~ In (fold_case n) (map (fun g : list Z * nat => fold_case (fst g)) h).
Proof.
  induction h as [|[k a] h IH]; cbn [hfind map fst In]; auto. destruct (same_spec k n); [discriminate|]. intros E [H|H]; [congruence|]. now apply IH.
Qed.
Lemma hremove_find h n n' : NoDup (map (fun g : list Z * nat => fold_case (fst g)) h) -> hfind (hremove h n) n' = if same n n' then None else hfind h n'.
Proof.
  induction h as [|[k a] h IH]; cbn [hfind hremove map fst]; intros ND; [destruct (same n n'); auto|]. inversion ND as [|? ? NI ND']; subst.
  destruct (same k n) eqn:E.
  - rewrite <- (same_trans k n n' E). destruct (same k n') eqn:E'; auto.
    destruct (hfind h n') eqn:F; auto. exfalso. apply NI. clear -F E'. destruct (same_spec k n') as [->|]; [|discriminate].
    induction h as [|[k2 b] h IH]; cbn [hfind map fst In] in *; [discriminate|]. destruct (same_spec k2 n') as [->|]; auto.
  - cbn [hfind]. rewrite (IH ND'). destruct (same k n') eqn:E'; auto.
    destruct (same n n') eqn:E2; auto. rewrite (same_trans k n' n E'), same_sym, E2 in E. discriminate.
Qed.
Lemma hremove_nodup h n : NoDup (map (fun g : list Z * nat => fold_case (fst g)) h) -> NoDup (map (fun g : list Z * nat => fold_case (fst g)) (hremove h n)).
Proof.
  induction h as [|[k a] h IH]; cbn [hremove map fst]; intros ND; auto. inversion ND as [|? ? NI ND']; subst. destruct (same k n); auto. cbn [map fst]. constructor; auto.
  intros H. apply NI. clear -H. induction h as [|[k2 b] h IH]; cbn [hremove map fst In] in *; auto. destruct (same k2 n); cbn [map fst In] in *; tauto.
Qed.

Lemma empty_ok : chain_ok empty [].
Proof.
  repeat split; cbn; auto; try tauto; try constructor; try (intros k x E; destruct k; discriminate); try congruence.
Qed.
Lemma fresh_put c gs : chain_ok c gs -> list_at (put (hp c) (fresh c) (Some (None, None))) (root c) (last c) (ids gs) /\
  ~ In (fresh c) (ids gs) /\ put (hp c) (fresh c) (Some (None, None)) (fresh c) <> None.
Proof.
  intros (D & _ & _ & _ & _ & _ & _ & F & _). assert (N : ~ In (fresh c) (ids gs)) by (intros H; apply F in H; lia).
  split; [|split; [auto|rewrite put_same; discriminate]]. eapply list_at_ext; [|exact D]. intros x Hx. apply put_other. congruence.
Qed.
(* the nodes of a heap after a splice *)
Lemma heap_after h h' is is' p : only_changes (p :: is) h h' -> (forall x, h x <> None <-> In x is) -> (forall x, In x is' -> h' x <> None) ->
  (forall x, In x (p :: is) -> In x is') -> forall x, h' x <> None <-> In x is'.
Proof.
  intros O A B S x. split; [|apply B]. intros H. destruct (in_dec Nat.eq_dec x (p :: is)) as [Hx|Hx]; auto.
  rewrite (O x Hx) in H. apply A in H. exfalso. apply Hx. now right.
Qed.
Lemma put_changes (h h' : heap) p v is : only_changes (p :: is) (put h p v) h' -> only_changes (p :: is) h h'.
Proof. intros O x Hx. rewrite (O x Hx). apply put_other. intros ->. apply Hx. now left. Qed.

(* the value of the new node is that made for the number of its namesakes *)
Lemma add_ok c gs name make : chain_ok c gs ->
  exists c' gs', add c name make = Ok (c', fresh c) /\ chain_ok c' gs' /\
    forall n, grp gs' n = if same name n then grp gs n ++ [(fresh c, make (length (grp gs n)))] else grp gs n.
Proof.
  intros H. destruct (fresh_put c gs H) as (D & NI & A). pose proof H as (D0 & NE & ND & HF & HN & I & VV & F & HH).
  unfold add. rewrite HF. destruct (grp gs name) as [|[r rv] rest] eqn:G.
  - cbn [map hd_error]. set (gs' := gs ++ [(name, [(fresh c, make 0)])]).
    pose proof (grp_nonempty gs name NE G) as O.
    assert (Gr : forall n, grp gs' n = if same name n then grp gs n ++ [(fresh c, make (length (grp gs n)))] else grp gs n).
    { intros n. unfold gs'. rewrite grp_app, grp_cons. change (grp [] n) with (@nil (nat * V)). destruct (same name n) eqn:E; cbn [app]; [|now rewrite app_nil_r].
      rewrite (grp_none gs n); auto. intros g Hg. rewrite same_sym, <- (same_trans name n (fst g) E), same_sym. auto. }
    assert (Hgs : ids gs' = ids gs ++ [fresh c]) by (unfold gs'; rewrite ids_app; reflexivity).
    assert (OK : forall h l r0, list_at h r0 l (ids gs ++ [fresh c]) -> only_changes (fresh c :: ids gs) (put (hp c) (fresh c) (Some (None, None))) h ->
      chain_ok (Chain h (put (val c) (fresh c) (Some (make 0))) (put (inst c) (fresh c) []) ((name, fresh c) :: hash c) r0 l (S (fresh c))) gs').
    { intros h l r0 Dh Oh. unfold chain_ok. cbn [hp val inst hash root last INIChain.fresh].
      split; [now rewrite Hgs|]. split; [|split; [|split; [|split; [|split; [|split; [|split]]]]]].
      - intros g Hg. apply in_app_iff in Hg as [Hg|[<-|[]]]; auto. discriminate.
      - unfold gs'. rewrite map_app. cbn [map fst]. apply NoDup_app_snoc. 
        + exact ND.
        + intros K. apply in_map_iff in K as (g & K1 & K2). specialize (O g K2). destruct (same_spec (fst g) name); congruence.
      - intros n. cbn [hfind]. rewrite Gr, HF. destruct (same name n) eqn:E; auto. rewrite (grp_none gs n); auto.
        intros g Hg. rewrite same_sym, <- (same_trans name n (fst g) E), same_sym. auto.
      - cbn [map fst]. constructor; auto. apply hfind_none_in. rewrite HF, G. reflexivity.
      - intros nm a v rest K. apply in_app_iff in K as [K|[K|[]]].
        + rewrite put_other; [eapply I, K|]. intros ->. apply NI. unfold ids. apply in_map_iff. exists (fresh c, v). split; auto.
          apply in_flat_map. exists (nm, (fresh c, v) :: rest). split; auto. now left.
        + inversion K; subst. rewrite put_same. reflexivity.
      - intros a v K. unfold gs' in K. rewrite flat_map_app in K. apply in_app_iff in K as [K|K].
        + rewrite put_other; auto. intros ->. apply NI. unfold ids. apply in_map_iff. exists (fresh c, v). auto.
        + cbn in K. destruct K as [K|[]]. inversion K; subst. apply put_same.
      - intros a K. rewrite Hgs, in_app_iff in K. destruct K as [K|[<-|[]]]; [apply F in K; lia|lia].
      - apply (heap_after (hp c) h (ids gs) (ids gs') (fresh c)); auto.
        + eapply put_changes, Oh.
        + rewrite Hgs. eapply list_heap, Dh.
        + intros x Hx. rewrite Hgs, in_app_iff. cbn in *. destruct Hx; auto. }
    destruct gs as [|g gs0] eqn:Eg.
    + destruct D0 as (R & _). cbn in R. rewrite R. cbn [isnull]. exists (Chain (put (hp c) (fresh c) (Some (None, None))) (put (val c) (fresh c) (Some (make 0))) (put (inst c) (fresh c) []) ((name, fresh c) :: hash c) (Some (fresh c)) (Some (fresh c)) (S (fresh c))), gs'.
      split; auto. split; auto. apply OK; [|intros x Hx; reflexivity]. cbn. rewrite list_at_dll. cbn. rewrite put_same. auto.
    + rewrite <- Eg in *. assert (NN : ids gs <> []).
      { subst gs. destruct g as [nm [|[a v] x]]; [exfalso; apply (NE (nm, [])); [now left|reflexivity]|]. cbn. discriminate. }
      destruct (C30_LLAddAfter _ _ _ _ _ D NI A) as (h' & r' & _ & D' & O' & _ & E2). destruct (E2 NN) as [E3 ->].
      assert (R0 : isnull (root c) = false). { destruct D0 as (R & _). rewrite R. destruct (ids gs); [contradiction|reflexivity]. }
      rewrite R0, E3. cbn [bind]. eexists _, gs'. split; [reflexivity|]. split; auto.
  - cbn [map hd_error fst].
    destruct (grp_split gs name ND ltac:(congruence)) as (g1 & nm & x & g2 & Egs & En & Ex & O).
    rewrite G in Ex. subst x.
    set (new := (fresh c, make (S (length rest) ))) in *. 
    assert (Ir : inst c r = map fst rest) by (apply (I nm r rv rest); rewrite Egs; apply in_or_app; right; now left).
    assert (Et : exists pre t, ids gs = pre ++ t :: ids g2 /\ pre ++ [t] = ids g1 ++ map fst ((r, rv) :: rest) /\
                  match inst c r with [] => r | x :: y => List.last y x end = t).
    { rewrite Ir. exists (ids g1 ++ removelast (map fst ((r, rv) :: rest))), (List.last (map fst ((r, rv) :: rest)) 0).
      assert (Q : map fst ((r, rv) :: rest) = removelast (map fst ((r, rv) :: rest)) ++ [List.last (map fst ((r, rv) :: rest)) 0]) by (apply app_removelast_last; discriminate).
      split; [|split].
      - rewrite Egs, ids_app, ids_cons, Q at 1. rewrite <- !app_assoc. reflexivity.
      - rewrite <- app_assoc. now rewrite <- Q.
      - cbn [map fst]. destruct (map fst rest) as [|a t]; cbn; auto. clear. revert a. induction t as [|b t IH]; intros a; cbn; auto. destruct t; auto. }
    destruct Et as (pre & t & Eids & Epre & Et). rewrite Et. rewrite Eids in D, NI.
    destruct (C30_LLInsertAfter _ _ _ _ _ _ _ D NI A) as (h' & l' & E & D' & O' & _). rewrite E. cbn [bind].
    set (gs' := g1 ++ (nm, ((r, rv) :: rest) ++ [new]) :: g2).
    assert (Hgs : ids gs' = pre ++ t :: fresh c :: ids g2).
    { unfold gs'. rewrite ids_app, ids_cons, map_app. change (map fst [new]) with [fresh c]. 
      transitivity ((pre ++ [t]) ++ fresh c :: ids g2); [|now rewrite <- app_assoc]. rewrite Epre, <- !app_assoc. reflexivity. }
    exists (Chain h' (put (val c) (fresh c) (Some (make (length (inst c r ++ [fresh c]))))) (put (put (inst c) (fresh c) []) r (inst c r ++ [fresh c])) (hash c) (root c) l' (S (fresh c))), gs'. split; auto.
    assert (EL : length (inst c r ++ [fresh c]) = S (length rest)) by (rewrite Ir, app_length, map_length; cbn; lia). rewrite EL.
    assert (Gr : forall n, grp gs' n = if same name n then grp gs n ++ [(fresh c, make (length (grp gs n)))] else grp gs n).
    { intros n. unfold gs'. rewrite (grp_upd g1 g2 nm ((r, rv) :: rest) _ name n En O), <- Egs. destruct (same name n) eqn:E'; auto.
      assert (Gn : grp gs n = (r, rv) :: rest).
      { rewrite <- G. unfold grp. f_equal. apply filter_ext. intros g. rewrite same_sym, <- (same_trans name n (fst g) E'). apply same_sym. }
      rewrite Gn. reflexivity. }
    split; auto. unfold chain_ok. cbn [hp val inst hash root last INIChain.fresh].
    assert (Rf : r <> fresh c).
    { intros K. apply NI. rewrite <- Eids, Egs, ids_app, ids_cons, K. apply in_or_app. right. now left. }
    assert (NDi : NoDup (ids gs')) by (rewrite Hgs; eapply list_at_nodup, D').
    split; [now rewrite Hgs|]. split; [|split; [|split; [|split; [|split; [|split; [|split]]]]]].
    + intros g Hg. apply in_app_iff in Hg as [Hg|[<-|Hg]]; [|discriminate|]; apply NE; rewrite Egs; apply in_or_app; cbn; auto.
    + unfold gs'. rewrite map_app in *. rewrite Egs, map_app in ND. exact ND.
    + intros n. rewrite HF, Gr. destruct (same name n) eqn:E'; auto. destruct (grp gs n) eqn:Gn; auto. exfalso.
      rewrite Egs, grp_app, grp_cons, (same_trans nm name n En), E' in Gn. apply app_eq_nil in Gn as [_ Gn]. discriminate.
    + exact HN.
    + intros nm' a v rest' K. assert (C : (nm', (a, v) :: rest') = (nm, (r, rv) :: rest ++ [new]) \/ In (nm', (a, v) :: rest') (g1 ++ g2)).
      { apply in_app_iff in K as [K|[K|K]]; [right; apply in_or_app; auto|left; now rewrite <- K|right; apply in_or_app; auto]. }
      destruct C as [C|C].
      * inversion C; subst. rewrite put_same, Ir, map_app. reflexivity.
      * assert (Ha : In (nm', (a, v) :: rest') gs) by (rewrite Egs; apply in_app_iff in C; apply in_or_app; cbn; tauto).
        rewrite !put_other; [eapply I, Ha| |].
        -- intros ->. apply NI. rewrite <- Eids. unfold ids. apply in_map_iff. exists (fresh c, v). split; auto. apply in_flat_map. eexists. split; [exact Ha|]. now left.
        -- intros ->. (* r occurs twice *) unfold gs' in NDi. rewrite ids_app, ids_cons in NDi. cbn [app map fst] in NDi.
           apply NoDup_remove_2 in NDi. apply NDi. apply in_or_app. apply in_app_iff in C as [C|C]; [left|right; apply in_or_app; right];
           unfold ids; apply in_map_iff; exists (r, v); (split; [reflexivity|]); apply in_flat_map; eexists; (split; [exact C|]); now left.
    + intros a v K. unfold gs' in K. rewrite flat_map_app in K. cbn [flat_map snd] in K.
      assert (C : (a, v) = new \/ In (a, v) (flat_map snd gs)).
      { rewrite Egs, flat_map_app. cbn [flat_map snd]. rewrite !in_app_iff in *. cbn [In] in K. destruct K as [K|[[K|[K|[]]]|K]]; auto. }
      destruct C as [C|C]; [inversion C; subst; apply put_same|]. rewrite put_other; auto. intros ->. apply NI. rewrite <- Eids. unfold ids. apply in_map_iff. exists (fresh c, v). auto.
    + intros a K. rewrite Hgs in K. assert (C : a = fresh c \/ In a (ids gs)) by (rewrite Eids; rewrite in_app_iff in *; cbn in *; intuition auto).
      destruct C as [->|C]; [lia|]. apply F in C. lia.
    + apply (heap_after (hp c) h' (ids gs) (ids gs') (fresh c)); auto.
      * rewrite Eids. eapply put_changes, O'.
      * rewrite Hgs. eapply list_heap, D'.
      * intros y Hy. rewrite Hgs. rewrite Eids in Hy. cbn in Hy. rewrite in_app_iff in *. cbn in *. intuition auto.
Qed.

Definition on_snd (f : V -> V) (p : nat * V) : nat * V := (fst p, f (snd p)).
Lemma map_fst_on f l : map fst (map (on_snd f) l) = map fst l.
Proof. rewrite map_map. apply map_ext. reflexivity. Qed.
Lemma map_snd_on f l : map snd (map (on_snd f) l) = map f (map snd l).
Proof. rewrite !map_map. apply map_ext. reflexivity. Qed.
Lemma each_ok f : forall (l : list (nat * V)) v, (forall a x, In (a, x) l -> v a = Some x) -> NoDup (map fst l) ->
  exists v', each v (map fst l) f = Ok v' /\ (forall a x, In (a, x) l -> v' a = Some (f x)) /\ (forall a, ~ In a (map fst l) -> v' a = v a).
Proof.
  induction l as [|[a x] l IH]; intros v H ND; cbn [map fst each].
  - exists v. split; [auto|]. split; [intros a x []|auto].
  - inversion ND as [|? ? NI ND']; subst. rewrite (H a x) by now left.
    destruct (IH (put v a (Some (f x)))) as (v' & E & A & B); auto.
    { intros b y K. rewrite put_other; [apply H; now right|]. intros ->. apply NI. apply (in_map fst) in K. exact K. }
    exists v'. split; auto. split.
    + intros b y [K|K]; auto. inversion K; subst. rewrite B by auto. apply put_same.
    + intros b K. cbn in K. rewrite B by tauto. apply put_other. intros ->. tauto.
Qed.
Lemma heap_removed (h h' : heap) is is' n : only_changes is' h h' -> (forall x, h x <> None <-> In x is) -> (forall x, In x is' -> h' x <> None) ->
  (forall x, In x is <-> x = n \/ In x is') -> ~ In n is' -> forall x, put h' n None x <> None <-> In x is'.
Proof.
  intros O A B S NI x. destruct (Nat.eq_dec x n) as [->|Nx]; [rewrite put_same; tauto|]. rewrite put_other by auto. split; [|apply B].
  intros H. destruct (in_dec Nat.eq_dec x is') as [Hx|Hx]; auto. rewrite (O x Hx) in H. apply A, S in H. tauto.
Qed.

Lemma dangler c (g1 g2 : groups) nm r rv ra n nv rb rv' v f : chain_ok c (g1 ++ (nm, (r, rv) :: ra ++ (n, nv) :: rb) :: g2) ->
  v r = Some rv' -> (forall a, a <> r -> v a = val c a) ->
  exists h ro la v', LLRemove3 (hp c) (Some n) (root c) (last c) = Ok (h, (ro, la)) /\ each v (map fst rb) f = Ok v' /\
    chain_ok (Chain (put h n None) (put v' n None) (put (put (inst c) r (map fst (ra ++ rb))) n []) (hash c) ro la (fresh c))
      (g1 ++ (nm, (r, rv') :: ra ++ map (on_snd f) rb) :: g2).
Proof.
  intros (D & NE & ND & HF & HN & I & VV & F & HH) Hr Ho.
  set (gs := g1 ++ (nm, (r, rv) :: ra ++ (n, nv) :: rb) :: g2) in *.
  set (pre := ids g1 ++ r :: map fst ra). set (post := map fst rb ++ ids g2).
  assert (Eids : ids gs = pre ++ n :: post).
  { unfold gs, pre, post. rewrite ids_app, ids_cons. cbn [map fst app]. rewrite map_app. cbn [map fst]. rewrite <- ?app_assoc. cbn [app]. rewrite <- ?app_assoc. reflexivity. }
  set (gs' := g1 ++ (nm, (r, rv') :: ra ++ map (on_snd f) rb) :: g2).
  assert (Eids' : ids gs' = pre ++ post).
  { unfold gs', pre, post. rewrite ids_app, ids_cons. cbn [map fst app]. rewrite map_app, map_fst_on, <- ?app_assoc. cbn [app]. rewrite <- ?app_assoc. reflexivity. }
  rewrite Eids in D. pose proof (list_at_nodup _ _ _ _ D) as NDi. pose proof (NoDup_remove_2 _ _ _ NDi) as NIn. pose proof (NoDup_remove_1 _ _ _ NDi) as NDi'.
  destruct (C30_LLRemove _ _ _ _ _ _ D) as (h & ro & la & E & D' & O & _).
  assert (NDrb : NoDup (map fst rb)). { unfold post in NDi'. rewrite app_assoc in NDi'. clear -NDi'. induction (pre ++ map fst rb) as [|] eqn:Q; [apply app_eq_nil in Q as [_ ->]; constructor|].
    clear IHl. rewrite <- Q in NDi'. clear Q a l. rewrite <- app_assoc in NDi'. induction pre as [|y p IH]; cbn in NDi'.
    - induction (map fst rb) as [|z q IH2]; [constructor|]. cbn in NDi'. inversion NDi'; subst. constructor; [|auto]. intros K. apply H1. apply in_or_app. auto.
    - inversion NDi'; subst. auto. }
  assert (Nr : forall x, In x (map fst rb) -> x <> r).
  { intros x Hx ->. unfold pre in NDi'. rewrite <- app_assoc in NDi'. cbn [app] in NDi'. apply NoDup_remove_2 in NDi'. apply NDi'. unfold post. rewrite !in_app_iff. auto. }
  assert (Vrb : forall a x, In (a, x) rb -> v a = Some x).
  { intros a x K. rewrite Ho by (apply Nr; apply (in_map fst) in K; exact K). apply VV. unfold gs. rewrite flat_map_app. cbn [flat_map snd]. rewrite !in_app_iff. right. left. right. rewrite in_app_iff. right. now right. }
  destruct (each_ok f rb v Vrb NDrb) as (v' & Ev & V1 & V2). exists h, ro, la, v'. split; auto. split; auto.
  assert (Rn : r <> n) by (intros ->; apply NIn; unfold pre; rewrite !in_app_iff; cbn; auto).
  unfold chain_ok. cbn [hp val inst hash root last INIChain.fresh].
  split; [|split; [|split; [|split; [|split; [|split; [|split; [|split]]]]]]].
  - rewrite Eids'. eapply list_at_ext; [|exact D']. intros x Hx. apply put_other. intros ->. contradiction.
  - intros g Hg. apply in_app_iff in Hg as [Hg|[<-|Hg]]; [|discriminate|]; apply NE; apply in_or_app; cbn; auto.
  - unfold gs, gs' in *. rewrite map_app in *. exact ND.
  - intros n0. rewrite HF. unfold gs, gs'. rewrite !grp_app, !grp_cons. destruct (grp g1 n0); [|reflexivity]. cbn [app]. destruct (same nm n0); reflexivity.
  - exact HN.
  - intros nm' a x rest' K.
    assert (C : (nm', (a, x) :: rest') = (nm, (r, rv') :: ra ++ map (on_snd f) rb) \/ In (nm', (a, x) :: rest') (g1 ++ g2)).
    { apply in_app_iff in K as [K|[K|K]]; [right; apply in_or_app; auto|left; now rewrite <- K|right; apply in_or_app; auto]. }
    assert (Na : a <> n).
    { intros ->. apply NIn. rewrite <- Eids'. unfold ids. apply in_map_iff. exists (n, x). split; auto. apply in_flat_map. eexists. split; [exact K|]. now left. }
    rewrite put_other by auto. destruct C as [C|C].
    + inversion C; subst. rewrite put_same, !map_app, map_fst_on. reflexivity.
    + rewrite put_other; [eapply I; unfold gs; apply in_app_iff in C; apply in_or_app; cbn; destruct C; eauto|].
      intros ->. unfold pre in NDi'. rewrite <- app_assoc in NDi'. cbn [app] in NDi'. apply NoDup_remove_2 in NDi'. apply NDi'.
      apply in_app_iff in C. unfold post. rewrite !in_app_iff. destruct C as [C|C]; [left|right; right; right];
      unfold ids; apply in_map_iff; exists (r, x); (split; [reflexivity|]); apply in_flat_map; eexists; (split; [exact C|]); now left.
  - intros a x K.
    assert (Na : a <> n). { intros ->. apply NIn. rewrite <- Eids'. unfold ids. apply in_map_iff. exists (n, x). auto. }
    rewrite put_other by auto. unfold gs' in K. rewrite flat_map_app in K. cbn [flat_map snd] in K. rewrite !in_app_iff in K. cbn [In] in K. rewrite in_app_iff in K.
    assert (Hin : forall y, In (a, y) (flat_map snd g1 ++ flat_map snd g2 ++ ra) -> v' a = Some y).
    { intros y Ky. assert (Ng : In (a, y) (flat_map snd gs)).
      { unfold gs. rewrite flat_map_app. cbn [flat_map snd]. rewrite !in_app_iff in *. cbn [In]. rewrite in_app_iff. tauto. }
      assert (Nar : a <> r).
      { intros ->. unfold pre in NDi'. rewrite <- app_assoc in NDi'. cbn [app] in NDi'. apply NoDup_remove_2 in NDi'. apply NDi'.
        unfold post, ids. rewrite !in_app_iff in *. destruct Ky as [Ky|[Ky|Ky]]; apply (in_map fst) in Ky; cbn [fst] in Ky; tauto. }
      rewrite V2.
      - rewrite Ho by auto. auto.
      - intros Hrb. unfold pre, post in NDi'. rewrite !in_app_iff in Ky. apply (in_split a (map fst rb)) in Hrb as (q1 & q2 & Q). rewrite Q in NDi'.
        replace ((ids g1 ++ r :: map fst ra) ++ (q1 ++ a :: q2) ++ ids g2) with (((ids g1 ++ r :: map fst ra) ++ q1) ++ a :: q2 ++ ids g2) in NDi' by (rewrite <- !app_assoc; cbn; reflexivity).
        apply NoDup_remove_2 in NDi'. apply NDi'. unfold ids. rewrite !in_app_iff. cbn [In]. destruct Ky as [Ky|[Ky|Ky]]; apply (in_map fst) in Ky; cbn [fst] in Ky; tauto. }
    destruct K as [K|[[K|[K|K]]|K]].
    + apply Hin. rewrite !in_app_iff. auto.
    + inversion K; subst. rewrite V2; [exact Hr|]. intros Q. now apply Nr in Q.
    + apply Hin. rewrite !in_app_iff. auto.
    + apply in_map_iff in K as ([b y] & Q & K). inversion Q; subst. cbn [fst snd]. now apply V1.
    + apply Hin. rewrite !in_app_iff. auto.
  - intros a K. apply F. rewrite Eids. rewrite Eids' in K. rewrite in_app_iff in *. cbn. tauto.
  - rewrite Eids'. apply (heap_removed (hp c) h (ids gs) (pre ++ post) n); auto.
    + eapply list_heap, D'.
    + intros x. rewrite Eids, !in_app_iff. cbn. intuition auto.
Qed.

(* what the others become when the value at a place is removed *)
Definition drop (zero down : V -> V) (i : nat) (l : list V) : list V :=
  match i with
  | O => match tl l with [] => [] | x :: r => zero x :: map down r end
  | S _ => firstn i l ++ map down (skipn (S i) l)
  end.
Lemma remove_fails c gs name i zero down : chain_ok c gs -> length (grp gs name) <= i -> remove c name i zero down = Ok None.
Proof.
  intros (_ & _ & ND & HF & _ & I & _) L. unfold remove. rewrite HF. destruct (grp gs name) as [|[r rv] rest] eqn:G; [reflexivity|]. cbn [map hd_error fst].
  destruct (grp_split gs name ND ltac:(congruence)) as (g1 & nm & x & g2 & -> & _ & Ex & _). rewrite G in Ex. subst x.
  rewrite (I nm r rv rest) by (apply in_or_app; right; now left). rewrite map_length. cbn in L. destruct (Nat.ltb_spec (length rest) i); [reflexivity|lia].
Qed.
Lemma remove_ok c gs name i zero down : chain_ok c gs -> i < length (grp gs name) ->
  exists c' gs', remove c name i zero down = Ok (Some c') /\ chain_ok c' gs' /\
    forall n, map snd (grp gs' n) = if same name n then drop zero down i (map snd (grp gs n)) else map snd (grp gs n).
Proof.
  intros H L. pose proof H as (D & NE & ND & HF & HN & I & VV & F & HH). unfold remove. rewrite HF.
  destruct (grp gs name) as [|[r rv] rest] eqn:G; [cbn in L; lia|]. cbn [map hd_error fst].
  destruct (grp_split gs name ND ltac:(congruence)) as (g1 & nm & x & g2 & Egs & En & Ex & O). rewrite G in Ex. subst x.
  rewrite (I nm r rv rest) by (rewrite Egs; apply in_or_app; right; now left). rewrite map_length. cbn in L.
  destruct (Nat.ltb_spec (length rest) i) as [|_]; [lia|].
  assert (Gn : forall n, same name n = true -> grp gs n = (r, rv) :: rest).
  { intros n E'. rewrite <- G. unfold grp. f_equal. apply filter_ext. intros g. rewrite same_sym, <- (same_trans name n (fst g) E'). apply same_sym. }
  destruct (i =? 0) eqn:Ei.
  - apply Nat.eqb_eq in Ei. subst i. destruct rest as [|[b bv] rest].
    + (* the only one *)
      cbn [length Nat.eqb negb andb bind].
      assert (Eids : ids gs = ids g1 ++ r :: ids g2) by (rewrite Egs, ids_app, ids_cons; reflexivity).
      rewrite Eids in D. pose proof (NoDup_remove_2 _ _ _ (list_at_nodup _ _ _ _ D)) as NIn.
      destruct (C30_LLRemove _ _ _ _ _ _ D) as (h & ro & la & E & D' & Oc & _). rewrite E. cbn [bind Nat.eqb].
      eexists _, (g1 ++ g2). split; [reflexivity|].
      assert (Gr : forall n, grp (g1 ++ g2) n = if same name n then [] else grp gs n).
      { intros n. rewrite Egs. apply (grp_del g1 g2 nm [(r, rv)] name n En O). }
      split; [|intros n; rewrite Gr; destruct (same name n) eqn:E'; auto; rewrite (Gn n E'); reflexivity].
      unfold chain_ok. cbn [hp val inst hash root last INIChain.fresh]. rewrite ids_app.
      split; [|split; [|split; [|split; [|split; [|split; [|split; [|split]]]]]]].
      * eapply list_at_ext; [|exact D']. intros x Hx. apply put_other. intros ->. contradiction.
      * intros g Hg. apply NE. rewrite Egs. apply in_app_iff in Hg. apply in_or_app. cbn. tauto.
      * rewrite Egs, map_app in ND. cbn [map] in ND. rewrite map_app. eapply NoDup_remove_1, ND.
      * intros n. rewrite hremove_find by auto. rewrite HF, Gr. destruct (same name n); auto.
      * now apply hremove_nodup.
      * intros nm' a v rest' K. rewrite put_other; [eapply I; rewrite Egs; apply in_app_iff in K; apply in_or_app; cbn; destruct K; eauto|].
        intros ->. apply NIn. rewrite <- ids_app. unfold ids. apply in_map_iff. exists (r, v). split; auto. apply in_flat_map. eexists. split; [exact K|]. now left.
      * intros a v K. rewrite put_other.
        { apply VV. rewrite Egs. rewrite flat_map_app in *. cbn [flat_map]. rewrite !in_app_iff in *. tauto. }
        intros ->. apply NIn. rewrite <- ids_app. unfold ids. apply in_map_iff. exists (r, v). auto.
      * intros a K. apply F. rewrite Eids. rewrite in_app_iff in *. cbn. tauto.
      * apply (heap_removed (hp c) h (ids gs) (ids g1 ++ ids g2) r); auto.
        -- eapply list_heap, D'.
        -- intros x. rewrite Eids, !in_app_iff. cbn. intuition auto.
    + (* the first of several: the second moves here *)
      cbn [length Nat.eqb negb andb].
      assert (Nx : rd_next (hp c) (Some r) = Ok (Some b)).
      { rewrite list_at_dll in D. destruct D as (_ & _ & D). rewrite Egs, ids_app, ids_cons in D. cbn [map fst app] in D. apply dll_app in D as [_ [D _]].
        unfold rd_next, rd. rewrite D. reflexivity. }
      rewrite Nx. cbn [bind]. rewrite (VV b bv) by (rewrite Egs, flat_map_app; apply in_or_app; right; cbn; auto). cbn [bind].
      rewrite Egs in H. destruct (dangler c g1 g2 nm r rv [] b bv rest (zero bv) (put (val c) r (Some (zero bv))) down H) as (h & ro & la & v' & E1 & E2 & K).
      { apply put_same. } { intros a Ha. now apply put_other. }
      rewrite E1. cbn [bind Nat.eqb Nat.sub map fst]. unfold cut. cbn [firstn skipn app]. rewrite E2. cbn [bind]. eexists _, _. split; [reflexivity|]. split; [exact K|].
      intros n. rewrite (grp_upd g1 g2 nm ((r, rv) :: (b, bv) :: rest) _ name n En O), <- Egs. destruct (same name n) eqn:E'; auto.
      rewrite (Gn n E'). cbn [map snd drop tl app]. now rewrite map_snd_on.
  - apply Nat.eqb_neq in Ei. destruct i as [|j]; [lia|]. clear Ei. cbn [Nat.eqb andb bind Nat.sub]. rewrite Nat.sub_0_r.
    assert (Lj : j < length rest) by lia. destruct (nth_split rest (r, rv) Lj) as (ra & rb & Er & La).
    set (nn := nth j rest (r, rv)) in *. destruct nn as [n nv] eqn:En'. subst nn.
    assert (Enth : nth j (map fst rest) 0 = n).
    { rewrite Er, map_app, app_nth2; rewrite map_length, La; [|lia]. rewrite Nat.sub_diag. reflexivity. }
    rewrite Enth. rewrite Egs, Er in H.
    destruct (dangler c g1 g2 nm r rv ra n nv rb rv (val c) down H) as (h & ro & la & v' & E1 & E2 & K).
    { apply VV. rewrite Egs, flat_map_app. apply in_or_app. right. cbn. auto. } { auto. }
    rewrite E1. cbn [bind Nat.eqb]. rewrite ?Nat.sub_0_r.
    assert (Ec : cut (map fst rest) j = map fst (ra ++ rb)).
    { unfold cut. rewrite Er, !map_app. cbn [map fst]. rewrite firstn_app, firstn_all2, map_length, La, Nat.sub_diag; [|rewrite map_length; lia]. cbn [firstn]. rewrite app_nil_r. f_equal.
      rewrite skipn_app, skipn_all2, map_length, La; [|rewrite map_length; lia]. replace (S j - j) with 1 by lia. reflexivity. }
    rewrite Ec. replace (skipn j (map fst (ra ++ rb))) with (map fst rb).
    2: { rewrite map_app, skipn_app, skipn_all2, map_length, La, Nat.sub_diag; [reflexivity|rewrite map_length; lia]. }
    rewrite E2. cbn [bind]. eexists _, _. split; [reflexivity|]. split; [exact K|].
    intros m. rewrite (grp_upd g1 g2 nm ((r, rv) :: rest) _ name m En O), <- Egs. destruct (same name m) eqn:E'; auto.
    rewrite (Gn m E'), Er. unfold drop. cbn [map snd app]. rewrite !map_app, map_snd_on. cbn [map snd].
    set (L1 := map snd ra ++ nv :: map snd rb). change (skipn (S (S j)) (rv :: L1)) with (skipn (S j) L1). change (firstn (S j) (rv :: L1)) with (rv :: firstn j L1).
    unfold L1. cbn [app]. f_equal.
    rewrite firstn_app, firstn_all2, map_length, La, Nat.sub_diag; [|rewrite map_length; lia]. cbn [firstn]. rewrite app_nil_r. f_equal.
    rewrite skipn_app, skipn_all2, map_length, La; [|rewrite map_length; lia]. replace (S j - j) with 1 by lia. cbn [skipn app]. reflexivity.
Qed.

(* looking up *)
Lemma node_ok c gs name i : chain_ok c gs -> node c name i = nth_error (map fst (grp gs name)) i.
Proof.
  intros (_ & _ & ND & HF & _ & I & _). unfold node. rewrite HF. destruct (grp gs name) as [|[r rv] rest] eqn:G; [now destruct i|]. cbn [map hd_error fst].
  destruct (grp_split gs name ND ltac:(congruence)) as (g1 & nm & x & g2 & -> & _ & Ex & _). rewrite G in Ex. subst x.
  rewrite (I nm r rv rest) by (apply in_or_app; right; now left). destruct i; cbn; [reflexivity|now rewrite Nat.sub_0_r].
Qed.
Lemma grp_in (gs : groups) name x : In x (grp gs name) -> In x (flat_map snd gs).
Proof. unfold grp. rewrite !in_flat_map. intros (g & A & B). apply filter_In in A as [A _]. eauto. Qed.
Lemma at_value c gs name i : chain_ok c gs -> value c name i = nth_error (map snd (grp gs name)) i.
Proof.
  intros H. unfold value. rewrite (node_ok c gs) by auto. destruct H as (_ & _ & _ & _ & _ & _ & VV & _).
  rewrite !nth_error_map. destruct (nth_error (grp gs name) i) as [[a v]|] eqn:E; cbn; auto. apply VV. eapply grp_in, nth_error_In, E.
Qed.
Lemma count_ok c gs name : chain_ok c gs -> count c name = length (grp gs name).
Proof.
  intros (_ & _ & ND & HF & _ & I & _). unfold count. rewrite HF. destruct (grp gs name) as [|[r rv] rest] eqn:G; [reflexivity|]. cbn [map hd_error fst].
  destruct (grp_split gs name ND ltac:(congruence)) as (g1 & nm & x & g2 & -> & _ & Ex & _). rewrite G in Ex. subst x.
  rewrite (I nm r rv rest) by (apply in_or_app; right; now left). rewrite map_length. cbn. lia.
Qed.

(* writing a value in place *)
Definition upd_at (i : nat) (x : V) (l : list (nat * V)) : list (nat * V) :=
  firstn i l ++ match nth_error l i with Some (a, _) => [(a, x)] | None => [] end ++ skipn (S i) l.
Lemma set_value_ok c gs name i a x : chain_ok c gs -> node c name i = Some a ->
  exists gs', chain_ok (set_value c a x) gs' /\ forall n, grp gs' n = if same name n then upd_at i x (grp gs n) else grp gs n.
Proof.
  intros H E. pose proof H as (D & NE & ND & HF & HN & I & VV & F & HH). rewrite (node_ok c gs) in E by auto.
  destruct (grp gs name) as [|[r rv] rest] eqn:G; [destruct i; discriminate|].
  destruct (grp_split gs name ND ltac:(congruence)) as (g1 & nm & w & g2 & Egs & En & Ex & O). rewrite G in Ex. subst w.
  rewrite nth_error_map in E. destruct (nth_error ((r, rv) :: rest) i) as [[a' v]|] eqn:En'; [|discriminate]. cbn in E. inversion E; subst a'.
  destruct (nth_error_split _ _ En') as (ra & rb & Er & La).
  assert (Eu : upd_at i x ((r, rv) :: rest) = ra ++ (a, x) :: rb).
  { unfold upd_at. rewrite En', Er, firstn_app, firstn_all2, La, Nat.sub_diag, skipn_app, skipn_all2, La by lia. cbn [firstn]. replace (S i - i) with 1 by lia. cbn. now rewrite app_nil_r. }
  set (gs' := g1 ++ (nm, ra ++ (a, x) :: rb) :: g2).
  assert (Eids : ids gs' = ids gs).
  { rewrite Egs, Er. unfold gs'. rewrite !ids_app, !ids_cons, !map_app. reflexivity. }
  assert (Gr : forall n, grp gs' n = if same name n then upd_at i x (grp gs n) else grp gs n).
  { intros n. unfold gs'. rewrite (grp_upd g1 g2 nm ((r, rv) :: rest) _ name n En O), <- Egs. destruct (same name n) eqn:E'; auto.
    assert (Gn : grp gs n = (r, rv) :: rest).
    { rewrite <- G. unfold grp. f_equal. apply filter_ext. intros g. rewrite same_sym, <- (same_trans name n (fst g) E'). apply same_sym. }
    now rewrite Gn, Eu. }
  exists gs'. split; auto.
  pose proof (list_at_nodup _ _ _ _ D) as NDi. rewrite Egs, Er, ids_app, ids_cons, map_app in NDi. cbn [map fst] in NDi.
  rewrite <- app_assoc in NDi. cbn [app] in NDi. rewrite app_assoc in NDi. apply NoDup_remove_2 in NDi.
  unfold chain_ok, set_value. cbn [hp val inst hash root last INIChain.fresh]. rewrite Eids.
  split; [exact D|]. split; [|split; [|split; [|split; [|split; [|split; [|split]]]]]]; auto.
  - intros g Hg. apply in_app_iff in Hg as [Hg|[<-|Hg]]; [|destruct ra; discriminate|]; apply NE; rewrite Egs; apply in_or_app; cbn; auto.
  - unfold gs'. rewrite Egs, map_app in ND. rewrite map_app. exact ND.
  - intros n. rewrite HF, Gr. destruct (same name n) eqn:E'; auto.
    assert (Gn : grp gs n = (r, rv) :: rest).
    { rewrite <- G. unfold grp. f_equal. apply filter_ext. intros g. rewrite same_sym, <- (same_trans name n (fst g) E'). apply same_sym. }
    rewrite Gn, Eu, Er. destruct ra as [|[? ?] ?]; reflexivity.
  - intros nm' b y rest' K. apply in_app_iff in K as [K|[K|K]].
    + eapply I. rewrite Egs. apply in_or_app. eauto.
    + inversion K as [[K1 K2]]. subst nm'. destruct ra as [|[r' rv'] ra'].
      * cbn in K2. inversion K2; subst. cbn in Er. inversion Er; subst. rewrite (I nm b v rest') by (apply in_or_app; right; now left). reflexivity.
      * cbn in K2. inversion K2; subst. cbn in Er. inversion Er; subst. rewrite (I nm b y (ra' ++ (a, v) :: rb)) by (apply in_or_app; right; now left). rewrite !map_app. reflexivity.
    + eapply I. rewrite Egs. apply in_or_app. right. right. eauto.
  - intros b y K. unfold gs' in K. rewrite flat_map_app in K. cbn [flat_map snd] in K. rewrite <- app_assoc in K. cbn [app] in K.
    assert (C : (b, y) = (a, x) \/ In (b, y) (flat_map snd g1 ++ ra ++ rb ++ flat_map snd g2)).
    { rewrite !in_app_iff in *. cbn [In] in K. rewrite in_app_iff in K. intuition auto. }
    destruct C as [C|C]; [inversion C; subst; apply put_same|]. rewrite put_other.
    + apply VV. rewrite Egs, Er, flat_map_app. cbn [flat_map snd]. rewrite !in_app_iff in *. cbn [In]. tauto.
    + intros ->. apply NDi. unfold ids. rewrite !in_app_iff in *. destruct C as [C|[C|[C|C]]]; apply (in_map fst) in C; cbn [fst] in C; tauto.
Qed.
End P.
