From Coq Require Import List ZArith Bool Lia.
From Coq Require Import ZifyBool ZifyNat.
From Verif Require Import Common OrderSpec OrderProofs Search.
Import ListNotations.
Local Open Scope Z_scope.

Lemma near_loop_eq {A} fuel (p : A -> bool) arr first c : c <> 0%nat ->
  near_loop (S fuel) p arr first c =
  (do x <- get arr (first + c / 2)%nat;
   if p x then near_loop fuel p arr (first + c / 2 + 1) (c - (c / 2 + 1))
   else near_loop fuel p arr first (c / 2)).
Proof. intros H. destruct c; [congruence|reflexivity]. Qed.

Lemma near_loop_ok {A} (p : A -> bool) arr : forall fuel first c,
  (c <= fuel)%nat -> (first + c <= length arr)%nat ->
  (forall i j x y, (first <= i < j)%nat -> (j < first + c)%nat ->
     nth_error arr i = Some x -> nth_error arr j = Some y -> p y = true -> p x = true) ->
  exists r, near_loop fuel p arr first c = Ok r /\ (first <= r <= first + c)%nat /\
    (forall i x, (first <= i < r)%nat -> nth_error arr i = Some x -> p x = true) /\
    (forall i x, (r <= i < first + c)%nat -> nth_error arr i = Some x -> p x = false).
Proof.
  induction fuel as [|fuel IH]; intros first c Hf Hl Hm.
  - destruct c; [|lia]. exists first. split; [reflexivity|]. split; [lia|]. split; intros; lia.
  - destruct (Nat.eq_dec c 0) as [->|Hc].
    { exists first. split; [reflexivity|]. split; [lia|]. split; intros; lia. }
    rewrite near_loop_eq by auto.
    destruct (nth_error_ex arr (first + c / 2)) as [x Hx]; [lia|].
    rewrite (get_some _ _ _ Hx). cbn [bind].
    destruct (p x) eqn:Px.
    + destruct (IH (first + c / 2 + 1)%nat (c - (c / 2 + 1))%nat) as (r & E & R1 & R2 & R3); [lia|lia| |].
      { intros i j u v Hij Hj. apply Hm; lia. }
      exists r. split; [exact E|]. split; [lia|]. split.
      * intros i u Hi Hu. destruct (Nat.lt_ge_cases i (first + c / 2)).
        -- eapply (Hm i (first + c / 2)%nat u x); eauto; lia.
        -- destruct (Nat.eq_dec i (first + c / 2)) as [->|]; [congruence|]. apply (R2 i u); auto. lia.
      * intros i u Hi Hu. apply (R3 i u); auto. lia.
    + destruct (IH first (c / 2)%nat) as (r & E & R1 & R2 & R3); [lia|lia| |].
      { intros i j u v Hij Hj. apply Hm; lia. }
      exists r. split; [exact E|]. split; [lia|]. split.
      * intros i u Hi Hu. apply (R2 i u); auto.
      * intros i u Hi Hu. destruct (Nat.lt_ge_cases i (first + c / 2)).
        -- apply (R3 i u); auto. lia.
        -- destruct (p u) eqn:Pu; auto. exfalso.
           destruct (Nat.eq_dec i (first + c / 2)) as [->|]; [congruence|].
           assert (p x = true); [|congruence]. eapply (Hm (first + c / 2)%nat i x u); eauto; lia.
Qed.

(* result is the number of elements of the segment that satisfy the test *)
Lemma near_count {A D} (CompF : D -> A -> Z) CompEQ v arr data first last :
  (first <= last)%nat -> (last <= length arr)%nat ->
  (forall i j x y, (first <= i < j)%nat -> (j < last)%nat ->
     nth_error arr i = Some x -> nth_error arr j = Some y ->
     CompEQ (CompF data y) v = true -> CompEQ (CompF data x) v = true) ->
  exists r, BinarySearchNear CompF CompEQ v arr data first last = Ok r /\
    (r = first + count (fun x => CompEQ (CompF data x) v) (segment arr first last))%nat /\
    (first <= r <= last)%nat /\
    (forall i x, (first <= i < r)%nat -> nth_error arr i = Some x -> CompEQ (CompF data x) v = true) /\
    (forall i x, (r <= i < last)%nat -> nth_error arr i = Some x -> CompEQ (CompF data x) v = false).
Proof.
  intros H1 H2 H3. unfold BinarySearchNear.
  destruct (near_loop_ok (fun x => CompEQ (CompF data x) v) arr (last - first) first (last - first))
    as (r & E & R1 & R2 & R3); [lia|lia| |].
  { intros i j x y Hij Hj. apply H3; lia. }
  exists r. split; [exact E|]. replace (first + (last - first))%nat with last in * by lia.
  split; [|split; [lia|split; auto]].
  rewrite (count_split _ _ (r - first)%nat); [lia|rewrite segment_length; lia| |].
  - intros i x Hi Hx. rewrite segment_nth in Hx by lia. apply (R2 (first + i)%nat x); auto. lia.
  - intros i x Hi Hx.
    assert (i < last - first)%nat by (rewrite <- (segment_length arr first last) by auto; apply nth_error_Some; congruence).
    rewrite segment_nth in Hx by lia. apply (R3 (first + i)%nat x); auto. lia.
Qed.

Lemma exact_loop_ok {A D} (CompF : A -> D -> Z) arr data : forall fuel f l,
  0 <= f -> l < Z.of_nat (length arr) -> l - f < Z.of_nat fuel ->
  (forall i j x y, f <= Z.of_nat i -> (i < j)%nat -> Z.of_nat j <= l ->
     nth_error arr i = Some x -> nth_error arr j = Some y ->
     (CompF y data <= 0 -> CompF x data <= 0) /\ (CompF y data < 0 -> CompF x data < 0)) ->
  (exists m x, exact_loop fuel CompF arr data f l = Ok (Z.of_nat m) /\ f <= Z.of_nat m <= l /\
      nth_error arr m = Some x /\ CompF x data = 0) \/
  (exact_loop fuel CompF arr data f l = Ok (-1) /\
      forall i x, f <= Z.of_nat i <= l -> nth_error arr i = Some x -> CompF x data <> 0).
Proof.
  induction fuel as [|fuel IH]; intros f l Hf Hl Hfu Hm; cbn [exact_loop].
  - destruct (Z.ltb_spec l f); [|lia]. right. split; auto. intros; lia.
  - destruct (Z.ltb_spec l f). { right. split; auto. intros; lia. }
    rewrite Z.shiftr_div_pow2 by lia. change (2 ^ 1) with 2.
    set (m := f + (l - f) / 2). assert (Hmm : f <= m <= l) by (unfold m; lia). clearbody m.
    destruct (Z.ltb_spec m 0); [lia|].
    destruct (nth_error_ex arr (Z.to_nat m)) as [x Hx]; [lia|].
    rewrite (get_some _ _ _ Hx). cbn [bind].
    destruct (Z.ltb_spec (CompF x data) 0).
    + destruct (IH (m + 1) l) as [(k & y & E & R1 & R2 & R3)|[E R]]; try lia.
      { intros i j u v Hi Hij Hj. apply Hm; lia. }
      * left. exists k, y. repeat split; auto; lia.
      * right. split; auto. intros i u Hi Hu.
        destruct (Z_lt_dec m (Z.of_nat i)); [apply (R i u); auto; lia|].
        destruct (Z.eq_dec (Z.of_nat i) m) as [Em|].
        -- assert (i = Z.to_nat m) by lia. subst i. assert (u = x) by congruence. subst. lia.
        -- destruct (Hm i (Z.to_nat m) u x) as [_ Hlt]; auto; try lia.
    + destruct (Z.ltb_spec 0 (CompF x data)).
      * destruct (IH f (m - 1)) as [(k & y & E & R1 & R2 & R3)|[E R]]; try lia.
        { intros i j u v Hi Hij Hj. apply Hm; lia. }
        -- left. exists k, y. repeat split; auto; lia.
        -- right. split; auto. intros i u Hi Hu.
           destruct (Z_lt_dec (Z.of_nat i) m); [apply (R i u); auto; lia|].
           destruct (Z.eq_dec (Z.of_nat i) m) as [Em|].
           ++ assert (i = Z.to_nat m) by lia. subst i. assert (u = x) by congruence. subst. lia.
           ++ destruct (Hm (Z.to_nat m) i x u) as [Hle _]; auto; try lia.
      * left. exists (Z.to_nat m), x. rewrite Z2Nat.id by lia. repeat split; auto; lia.
Qed.
