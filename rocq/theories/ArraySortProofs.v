From Coq Require Import List ZArith Bool Permutation Lia.
From Coq Require Import ZifyBool ZifyNat.
From Verif Require Import Common OrderSpec OrderProofs Search SearchProofs SearchProps ArraySort.
Import ListNotations.
Local Open Scope Z_scope.

Section AS.
Context {A : Type} (cmp : A -> A -> Z) (TP : total_preorder cmp).

Lemma nth_error_app_mid (p q : list A) x : nth_error (p ++ x :: q) (length p) = Some x.
Proof. rewrite nth_error_app2 by lia. now rewrite Nat.sub_diag. Qed.

Lemma split_at (l : list A) i x : nth_error l i = Some x ->
  exists p q, l = p ++ x :: q /\ length p = i.
Proof. intros H. apply nth_error_split in H. destruct H as (p & q & -> & E). eauto. Qed.

(* the insertion point separates *)
Lemma insert_loc_ok l item : ascending cmp l ->
  exists p q, l = p ++ q /\ as_insert_loc cmp l item = Ok (length p) /\
    (forall y, In y p -> cmp y item <= 0) /\ (forall y, In y q -> cmp item y <= 0).
Proof.
  intros Hs. destruct l as [|a l0].
  { exists [], []. repeat split; auto; intros ? []. }
  set (l := a :: l0) in *. assert (Hl : l = a :: l0) by reflexivity.
  unfold as_insert_loc. change (match l with [] => Ok 0%nat | _ :: _ => do a0 <- get l 0; if cmp item a0 <? 0 then Ok 0%nat else do b <- get l (length l - 1); if 0 <=? cmp item b then Ok (length l) else BinarySearchAfter cmp l item 0 (length l) end) with (do a0 <- get l 0; if cmp item a0 <? 0 then Ok 0%nat else do b <- get l (length l - 1); if 0 <=? cmp item b then Ok (length l) else BinarySearchAfter cmp l item 0 (length l)). rewrite (get_some l 0 a) by (rewrite Hl; reflexivity). cbn [bind].
  destruct (Z.ltb_spec (cmp item a) 0) as [H|H].
  { exists [], l. repeat split; auto; try (intros ? []; fail).
    intros y Hy. rewrite Hl in Hy, Hs. apply asc_cons_inv in Hs. destruct Hs as [_ Hs]. destruct Hy as [->|Hy]; [lia|].
    eapply cmp_trans; eauto. lia. }
  assert (Hlen : (0 < length l)%nat) by (rewrite Hl; cbn; lia).
  destruct (nth_error_ex l (length l - 1)) as [b Hb]; [lia|].
  rewrite (get_some _ _ _ Hb). cbn [bind].
  destruct (Z.leb_spec 0 (cmp item b)) as [H1|H1].
  { exists l, []. rewrite app_nil_r. repeat split; auto; try (intros ? []; fail).
    intros y Hy. pose proof (tp_anti _ TP b item). assert (cmp b item <= 0) by (pose proof (tp_anti _ TP item b); lia).
    apply In_nth_error in Hy. destruct Hy as [n Hn].
    assert (n < length l)%nat by (apply nth_error_Some; congruence).
    destruct (Nat.eq_dec n (length l - 1)) as [->|]; [congruence|].
    eapply cmp_trans; eauto. apply (Hs n (length l - 1)%nat); auto. lia. }
  destruct (near_count cmp CompT_EQ 1 l item 0 (length l)) as (r & E & _ & R1 & R2 & R3); try lia.
  { intros i j x y Hij Hj Hx Hy. unfold CompT_EQ. assert (cmp x y <= 0) as Hxy by (apply (Hs i j); auto; lia).
    intros Hc. pose proof (tp_anti _ TP item x). pose proof (tp_anti _ TP item y).
    pose proof (tp_range _ TP item x). pose proof (cmp_lt_trans_r cmp TP x y item Hxy). lia. }
  exists (firstn r l), (skipn r l). rewrite firstn_skipn.
  assert (Hfl : length (firstn r l) = r) by (rewrite firstn_length; lia). rewrite Hfl.
  split; [auto|]. split; [exact E|]. split.
  - intros y Hy. apply In_nth_error in Hy. destruct Hy as [n Hn].
    assert (n < r)%nat by (rewrite <- Hfl; apply nth_error_Some; congruence).
    rewrite nth_error_firstn in Hn. destruct (Nat.ltb_spec n r); [|lia].
    specialize (R2 n y ltac:(lia) Hn). unfold CompT_EQ in R2. pose proof (tp_anti _ TP item y). lia.
  - intros y Hy. apply In_nth_error in Hy. destruct Hy as [n Hn]. rewrite nth_error_skipn in Hn.
    assert (r + n < length l)%nat by (apply nth_error_Some; congruence).
    specialize (R3 (r + n)%nat y ltac:(lia) Hn). unfold CompT_EQ in R3. pose proof (tp_range _ TP item y). lia.
Qed.

Lemma asc_insert p q x : ascending cmp (p ++ q) ->
  (forall y, In y p -> cmp y x <= 0) -> (forall y, In y q -> cmp x y <= 0) ->
  ascending cmp (p ++ x :: q).
Proof.
  intros H H1 H2. apply asc_app in H; auto. destruct H as (Ha & Hb & Hc).
  apply asc_app; auto. split; auto. split.
  - apply asc_cons; auto.
  - intros a b Hx [<-|Hy]; auto.
Qed.

Lemma insert_at_ok (p q : list A) x : insert_at (p ++ q) (length p) x = Ok (p ++ x :: q).
Proof.
  unfold insert_at. rewrite app_length. destruct (Nat.leb_spec (length p) (length p + length q)); [|lia].
  rewrite firstn_app, skipn_app, Nat.sub_diag, firstn_all, skipn_all. cbn. now rewrite app_nil_r.
Qed.

Lemma as_Insert_ok l x : ascending cmp l ->
  exists p q, l = p ++ q /\ as_Insert cmp l x = Ok (p ++ x :: q, length p) /\ ascending cmp (p ++ x :: q).
Proof.
  intros Hs. destruct (insert_loc_ok l x Hs) as (p & q & -> & E & H1 & H2).
  exists p, q. split; auto. unfold as_Insert. rewrite E. cbn [bind]. rewrite insert_at_ok. split; auto.
  now apply asc_insert.
Qed.

Lemma remove_at_ok (p q : list A) x : remove_at (p ++ x :: q) (length p) = Ok (p ++ q).
Proof.
  unfold remove_at. rewrite app_length. cbn [length]. destruct (Nat.ltb_spec (length p) (length p + S (length q))); [|lia].
  rewrite firstn_app, Nat.sub_diag, firstn_all. cbn [firstn]. rewrite app_nil_r.
  replace (S (length p)) with (length (p ++ [x])) by (rewrite app_length; cbn; lia).
  change (x :: q) with ([x] ++ q). rewrite app_assoc, skipn_app, skipn_all, Nat.sub_diag. reflexivity.
Qed.

Lemma asc_remove p q x : ascending cmp (p ++ x :: q) -> ascending cmp (p ++ q).
Proof.
  intros H. apply asc_app in H; auto. destruct H as (H1 & H2 & H3). apply asc_cons_inv in H2. destruct H2.
  apply asc_app; auto. split; auto. split; auto. intros; apply H3; auto. now right.
Qed.

Lemma as_Remove_ok l i : ascending cmp l ->
  ((length l <= i)%nat /\ as_Remove l i = Ok (l, false)) \/
  exists p x q, l = p ++ x :: q /\ length p = i /\ as_Remove l i = Ok (p ++ q, true) /\ ascending cmp (p ++ q).
Proof.
  intros Hs. unfold as_Remove. destruct (Nat.leb_spec (length l) i) as [H|H]; [left; auto|right].
  destruct (nth_error_ex l i H) as [x Hx]. apply split_at in Hx. destruct Hx as (p & q & -> & Hp).
  exists p, x, q. split; auto. split; auto. rewrite <- Hp. rewrite remove_at_ok. cbn [bind]. split; auto.
  eapply asc_remove; eauto.
Qed.

Lemma upd_mid (p q : list A) x y : upd (p ++ x :: q) (length p) y = p ++ y :: q.
Proof.
  induction p as [|a p IH]; cbn; auto. now rewrite IH.
Qed.

Lemma set_mid (p q : list A) x y : Common.set (p ++ x :: q) (length p) y = Ok (p ++ y :: q).
Proof. rewrite set_ok by (rewrite app_length; cbn; lia). now rewrite upd_mid. Qed.

Lemma get_mid (p q : list A) x : get (p ++ x :: q) (length p) = Ok x.
Proof. apply get_some. apply nth_error_app_mid. Qed.

Lemma get_mid2 (p q : list A) x y : get (p ++ x :: y :: q) (length (p ++ [x])) = Ok y.
Proof. replace (p ++ x :: y :: q) with ((p ++ [x]) ++ y :: q) by (rewrite <- app_assoc; reflexivity). apply get_mid. Qed.

Lemma bubble_left_ok : forall n p q x, length p = n -> ascending cmp (p ++ q) ->
  exists p' q', p ++ q = p' ++ q' /\ bubble_left cmp (p ++ x :: q) n = Ok (p' ++ x :: q', length p') /\
    (forall y, In y p' -> cmp y x <= 0).
Proof.
  induction n as [|n IH]; intros p q x Hn Hs.
  - destruct p; [|discriminate]. exists [], q. repeat split; auto. intros ? [].
  - destruct (exists_last (l := p)) as (p0 & y & ->); [intros ->; discriminate|].
    rewrite app_length in Hn. cbn in Hn. assert (Hp0 : n = length p0) by lia. clear Hn. subst n.
    rewrite <- !app_assoc. cbn [app]. cbn [bubble_left].
    rewrite get_mid. cbn [bind].
    replace (S (length p0)) with (length (p0 ++ [y])) by (rewrite app_length; cbn; lia).
    replace (p0 ++ y :: x :: q) with ((p0 ++ [y]) ++ x :: q) by (rewrite <- app_assoc; reflexivity).
    rewrite get_mid. cbn [bind].
    destruct (Z.ltb_spec 0 (cmp y x)) as [H|H].
    + rewrite set_mid. cbn [bind].
      replace ((p0 ++ [y]) ++ y :: q) with (p0 ++ y :: y :: q) by (rewrite <- app_assoc; reflexivity).
      rewrite set_mid. cbn [bind].
      destruct (IH p0 (y :: q) x eq_refl) as (p' & q' & E1 & E2 & E3).
      { rewrite <- app_assoc in Hs. exact Hs. }
      exists p', q'. split; [exact E1|split; auto].
    + exists (p0 ++ [y]), q. split; [now rewrite <- app_assoc|]. split; auto.
      intros z Hz. apply asc_app in Hs; auto. destruct Hs as (H1 & _).
      apply in_app_or in Hz. destruct Hz as [Hz|[->|[]]]; auto.
      apply asc_app in H1; auto. destruct H1 as (_ & _ & H1). eapply cmp_trans; eauto. apply H1; auto. now left.
Qed.

Lemma bubble_right_ok : forall fuel p q x, (length q <= fuel)%nat -> ascending cmp (p ++ q) ->
  (forall y, In y p -> cmp y x <= 0) ->
  exists p' q', p ++ q = p' ++ q' /\ bubble_right cmp fuel (p ++ x :: q) (length p) = Ok (p' ++ x :: q', length p') /\
    (forall y, In y p' -> cmp y x <= 0) /\ (forall y, In y q' -> cmp x y <= 0).
Proof.
  induction fuel as [|fuel IH]; intros p q x Hf Hs Hp.
  - destruct q; [|cbn in Hf; lia]. exists p, []. split; auto. cbn [bubble_right].
    rewrite app_length. cbn [length]. destruct (Nat.ltb_spec (length p) (length p + 1 - 1)); [lia|].
    repeat split; auto. intros ? [].
  - cbn [bubble_right]. rewrite app_length. cbn [length].
    destruct q as [|y q].
    { cbn [length]. destruct (Nat.ltb_spec (length p) (length p + 1 - 1)); [lia|]. exists p, []. repeat split; auto. intros ? []. }
    cbn [length]. destruct (Nat.ltb_spec (length p) (length p + S (S (length q)) - 1)); [|lia].
    replace (length p + 1)%nat with (length (p ++ [x])) by (rewrite app_length; cbn; lia).
    rewrite get_mid2. cbn [bind]. rewrite get_mid. cbn [bind].
    destruct (Z.ltb_spec (cmp y x) 0) as [H0|H0].
    + rewrite set_mid. cbn [bind].
      replace (p ++ y :: y :: q) with ((p ++ [y]) ++ y :: q) by (rewrite <- app_assoc; reflexivity).
      replace (length (p ++ [x])) with (length (p ++ [y])) by (rewrite !app_length; reflexivity).
      rewrite set_mid. cbn [bind].
      destruct (IH (p ++ [y]) q x) as (p' & q' & E1 & E2 & E3 & E4).
      * cbn in Hf. lia.
      * rewrite <- app_assoc. exact Hs.
      * intros z Hz. apply in_app_or in Hz. destruct Hz as [Hz|[->|[]]]; auto. lia.
      * exists p', q'. rewrite <- app_assoc in E1. auto.
    + exists p, (y :: q). repeat split; auto. intros z Hz.
      pose proof (tp_anti _ TP y x). assert (cmp x y <= 0) by lia. destruct Hz as [->|Hz]; auto.
      apply asc_app in Hs; auto. destruct Hs as (_ & H5 & _). apply asc_cons_inv in H5. destruct H5 as [_ H5].
      eapply cmp_trans; eauto.
Qed.

Lemma as_Replace_ok p o q x : ascending cmp (p ++ o :: q) ->
  exists p' q', p ++ q = p' ++ q' /\ as_ReplaceData cmp (p ++ o :: q) (length p) x = Ok (p' ++ x :: q', length p') /\
    ascending cmp (p' ++ x :: q').
Proof.
  intros Hs. apply asc_remove in Hs. unfold as_ReplaceData. rewrite set_mid. cbn [bind].
  destruct (bubble_left_ok (length p) p q x eq_refl Hs) as (p1 & q1 & E1 & E2 & E3).
  rewrite E2. cbn [bind fst snd].
  destruct (bubble_right_ok (length (p ++ o :: q)) p1 q1 x) as (p2 & q2 & F1 & F2 & F3 & F4).
  - assert (length (p ++ q) = length (p1 ++ q1)) by now rewrite E1. rewrite !app_length in *. cbn. lia.
  - now rewrite <- E1.
  - exact E3.
  - exists p2, q2. split; [congruence|]. split; auto. apply asc_insert; auto. rewrite <- F1, <- E1. auto.
Qed.

Lemma asc_firstn l n : ascending cmp l -> ascending cmp (firstn n l).
Proof. intros H. rewrite <- (firstn_skipn n l) in H. apply asc_app in H; tauto. Qed.
End AS.
