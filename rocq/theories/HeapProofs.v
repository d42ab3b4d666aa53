From Coq Require Import List ZArith Bool Permutation Lia.
From Coq Require Import ZifyBool ZifyNat.
From Verif Require Import Common OrderSpec OrderProofs ArraySort ArraySortProofs Heap.
Import ListNotations.
Local Open Scope Z_scope.

Lemma nth_upd {A} (l : list A) i j x d : (i < length l)%nat ->
  nth j (upd l i x) d = if Nat.eqb j i then x else nth j l d.
Proof.
  intros Hi. destruct (Nat.eqb_spec j i) as [->|Hn].
  - apply nth_error_nth. rewrite nth_error_upd_eq; auto.
  - destruct (Nat.lt_ge_cases j (length l)) as [Hj|Hj].
    + destruct (nth_error_ex l j Hj) as [y Hy]. rewrite (nth_error_nth l j d Hy). apply nth_error_nth.
      rewrite nth_error_upd_neq; auto.
    + rewrite !nth_overflow; auto. now rewrite upd_length.
Qed.

Lemma get_nth {A} (l : list A) i d : (i < length l)%nat -> get l i = Ok (nth i l d).
Proof. intros H. apply get_some. now apply nth_error_nth'. Qed.

Lemma perm_swap_nth {A} (l : list A) i j d : (i < length l)%nat -> (j < length l)%nat ->
  Permutation (upd (upd l i (nth j l d)) j (nth i l d)) l.
Proof. intros Hi Hj. apply upd_perm_swap; now apply nth_error_nth'. Qed.

Section H.
Context {T M : Type} (cmp : T -> T -> Z) (TP : total_preorder cmp) (mf : M -> T -> nat -> res M) (d : T).
Notation at_ a i := (nth i a d).

Definition hfrom (lo n : nat) (a : list T) : Prop :=
  forall i, (0 < i < n)%nat -> (lo <= PARENT i)%nat -> cmp (at_ a i) (at_ a (PARENT i)) <= 0.

Section MF.
Context (n : nat) (P : list T -> nat -> M -> Prop) (Q : list T -> M -> Prop).
Hypothesis Hmove : forall V k i m, (k < n)%nat -> (i < n)%nat -> k <> i -> (n <= length V)%nat -> P V k m ->
  exists m', mf m (at_ V i) k = Ok m' /\ P (upd (upd V k (at_ V i)) i (at_ V k)) i m'.
Hypothesis Hfin : forall V k m, (k < n)%nat -> (n <= length V)%nat -> P V k m ->
  exists m', mf m (at_ V k) k = Ok m' /\ Q V m'.

Lemma put_fin a m k val : (k < n)%nat -> (n <= length a)%nat -> P (upd a k val) k m ->
  exists m', put mf a m k val = Ok (upd a k val, m') /\ Q (upd a k val) m'.
Proof.
  intros Hk Hn HP. assert (Hn' : (n <= length (upd a k val))%nat) by (rewrite upd_length; auto).
  destruct (Hfin _ _ _ Hk Hn' HP) as (m' & E & HQ).
  exists m'. split; auto. unfold put. rewrite set_ok by lia. cbn [bind].
  rewrite nth_upd in E by lia. rewrite Nat.eqb_refl in E. rewrite E. reflexivity.
Qed.

Lemma put_move a m k i val : (k < n)%nat -> (i < n)%nat -> k <> i -> (n <= length a)%nat -> P (upd a k val) k m ->
  exists m', put mf a m k (at_ a i) = Ok (upd a k (at_ a i), m') /\ P (upd (upd a k (at_ a i)) i val) i m'.
Proof.
  intros Hk Hi Hne Hn HP. assert (Hn' : (n <= length (upd a k val))%nat) by (rewrite upd_length; auto).
  destruct (Hmove _ _ i _ Hk Hi Hne Hn' HP) as (m' & E & HQ).
  exists m'. rewrite !nth_upd in * by lia. rewrite Nat.eqb_refl in HQ. destruct (Nat.eqb_spec i k); [congruence|].
  rewrite upd_upd in HQ. split; auto. unfold put. rewrite set_ok by lia. cbn [bind]. rewrite E. reflexivity.
Qed.

Lemma perm_move a k i val : (k < length a)%nat -> (i < length a)%nat -> k <> i ->
  Permutation (upd (upd a k (at_ a i)) i val) (upd a k val).
Proof.
  intros Hk Hi Hne. pose proof (perm_swap_nth (upd a k val) k i d) as H. rewrite !upd_length in H.
  specialize (H Hk Hi). rewrite !nth_upd in H by lia. rewrite Nat.eqb_refl, upd_upd in H.
  destruct (Nat.eqb_spec i k); [congruence|exact H].
Qed.

Lemma down_ok lo val : forall fuel a k m,
  (k < n)%nat -> (n <= length a)%nat -> (n - k <= fuel)%nat ->
  (forall i, (0 < i < n)%nat -> (lo <= PARENT i)%nat -> PARENT i <> k ->
     cmp (at_ (upd a k val) i) (at_ (upd a k val) (PARENT i)) <= 0) ->
  ((0 < k)%nat -> (lo <= PARENT k)%nat -> forall c, (0 < c < n)%nat -> PARENT c = k ->
     cmp (at_ (upd a k val) c) (at_ (upd a k val) (PARENT k)) <= 0) ->
  P (upd a k val) k m ->
  exists a2 m2, PercolateDown cmp mf fuel a m n k val = Ok (a2, m2) /\ length a2 = length a /\
    Permutation a2 (upd a k val) /\ (forall j, (n <= j)%nat -> at_ a2 j = at_ a j) /\
    hfrom lo n a2 /\ Q a2 m2.
Proof.
  induction fuel as [|fuel IH]; intros a k m Hk Hn Hf Hheap Hgrand HP; [lia|].
  cbn [PercolateDown]. unfold RIGHT in *.
  assert (Hkids : forall c, (0 < c)%nat -> PARENT c = k -> (c = 2 * k + 1 \/ c = 2 * k + 2)%nat)
    by (unfold PARENT; intros; lia).
  destruct (put_fin a m k val Hk Hn HP) as (mf1 & Epf & HQf).
  (* stopping at k is fine once val dominates both children *)
  assert (Hstop : (forall c, (c = 2 * k + 1 \/ c = 2 * k + 2)%nat -> (c < n)%nat -> cmp (at_ a c) val <= 0) ->
    exists a2 m2, put mf a m k val = Ok (a2, m2) /\ length a2 = length a /\
    Permutation a2 (upd a k val) /\ (forall j, (n <= j)%nat -> at_ a2 j = at_ a j) /\ hfrom lo n a2 /\ Q a2 m2).
  { intros Hc. exists (upd a k val), mf1. split; auto. rewrite upd_length. split; auto. split; auto. split.
    { intros j Hj. rewrite nth_upd by lia. destruct (Nat.eqb_spec j k); [lia|auto]. }
    split; auto. intros i Hi Hlo. destruct (Nat.eq_dec (PARENT i) k) as [E|E]; [|apply Hheap; auto].
    rewrite E. rewrite !nth_upd by lia. rewrite Nat.eqb_refl.
    destruct (Nat.eqb_spec i k); [unfold PARENT in E; lia|]. apply Hc; [|lia]. apply Hkids; auto. lia. }
  (* moving the child ci up *)
  assert (Hstep : forall ci sib, (ci < n)%nat -> (0 < ci)%nat -> PARENT ci = k ->
     (forall c, (0 < c < n)%nat -> PARENT c = k -> c = ci \/ c = sib) ->
     ((sib < n)%nat -> cmp (at_ a sib) (at_ a ci) <= 0) -> cmp val (at_ a ci) <= 0 ->
     (forall i, (0 < i < n)%nat -> (lo <= PARENT i)%nat -> PARENT i <> ci ->
        cmp (at_ (upd (upd a k (at_ a ci)) ci val) i) (at_ (upd (upd a k (at_ a ci)) ci val) (PARENT i)) <= 0) /\
     ((0 < ci)%nat -> (lo <= PARENT ci)%nat -> forall c, (0 < c < n)%nat -> PARENT c = ci ->
        cmp (at_ (upd (upd a k (at_ a ci)) ci val) c) (at_ (upd (upd a k (at_ a ci)) ci val) (PARENT ci)) <= 0)).
  { intros ci sib H1 H2 H3 H4 H5 H6.
    assert (Hne : ci <> k) by (unfold PARENT in H3; lia).
    assert (Enth : forall j, at_ (upd (upd a k (at_ a ci)) ci val) j =
       if Nat.eqb j ci then val else if Nat.eqb j k then at_ a ci else at_ a j).
    { intros j. rewrite nth_upd by (rewrite upd_length; lia). destruct (Nat.eqb_spec j ci); auto. now rewrite nth_upd by lia. }
    assert (Enth0 : forall j, at_ (upd a k val) j = if Nat.eqb j k then val else at_ a j) by (intros; now rewrite nth_upd by lia).
    split.
    - intros i Hi Hlo Hp. rewrite !Enth. specialize (Hheap i Hi Hlo). rewrite !Enth0 in Hheap.
      destruct (Nat.eqb_spec i ci) as [->|Hic].
      + rewrite H3. destruct (Nat.eqb_spec k ci); [congruence|]. rewrite Nat.eqb_refl. exact H6.
      + destruct (Nat.eqb_spec (PARENT i) ci); [congruence|].
        destruct (Nat.eqb_spec i k) as [Eik|Hik].
        * subst i. destruct (Nat.eqb_spec (PARENT k) k); [unfold PARENT in *; lia|].
          assert (Hg := Hgrand ltac:(lia) Hlo ci ltac:(lia) H3). rewrite !Enth0 in Hg.
          destruct (Nat.eqb_spec ci k); [congruence|]. destruct (Nat.eqb_spec (PARENT k) k); [congruence|]. exact Hg.
        * destruct (Nat.eqb_spec (PARENT i) k) as [Epk|Epk].
          -- destruct (H4 i Hi Epk) as [->| ->]; [congruence|]. apply H5. lia.
          -- apply Hheap. auto.
    - intros _ Hlo c Hc Epc. rewrite H3, !Enth. destruct (Nat.eqb_spec c ci) as [->|Hcc]; [unfold PARENT in *; lia|].
      destruct (Nat.eqb_spec k ci); [congruence|]. rewrite Nat.eqb_refl.
      destruct (Nat.eqb_spec c k) as [->|Hck]; [unfold PARENT in *; lia|].
      assert (Hlo2 : (lo <= PARENT c)%nat) by (unfold PARENT in *; lia).
      specialize (Hheap c Hc Hlo2 ltac:(congruence)). rewrite !Enth0, Epc in Hheap.
      destruct (Nat.eqb_spec c k); [congruence|]. destruct (Nat.eqb_spec ci k); [congruence|]. exact Hheap. }
  destruct (Nat.ltb_spec (2 * k + 2) n) as [Hr|Hr].
  - rewrite (get_nth a (2 * k + 2 - 1) d) by lia. cbn [bind]. rewrite (get_nth a (2 * k + 2) d) by lia. cbn [bind].
    replace (2 * k + 2 - 1)%nat with (2 * k + 1)%nat by lia.
    set (ci := if 0 <? cmp (at_ a (2 * k + 1)) (at_ a (2 * k + 2)) then (2 * k + 1)%nat else (2 * k + 2)%nat).
    set (sib := if 0 <? cmp (at_ a (2 * k + 1)) (at_ a (2 * k + 2)) then (2 * k + 2)%nat else (2 * k + 1)%nat).
    assert (Hcs : (ci = 2 * k + 1 /\ sib = 2 * k + 2 \/ ci = 2 * k + 2 /\ sib = 2 * k + 1)%nat /\ cmp (at_ a sib) (at_ a ci) <= 0).
    { unfold ci, sib. destruct (Z.ltb_spec 0 (cmp (at_ a (2 * k + 1)) (at_ a (2 * k + 2)))); split; auto.
      pose proof (tp_anti _ TP (at_ a (2 * k + 1)) (at_ a (2 * k + 2))). lia. }
    clearbody ci sib. destruct Hcs as [Hcs Hmax].
    rewrite (get_nth a ci d) by lia. cbn [bind].
    destruct (Z.ltb_spec 0 (cmp val (at_ a ci))) as [Hv|Hv].
    + apply Hstop. intros c Hc Hcn. pose proof (tp_anti _ TP val (at_ a ci)).
      assert (c = ci \/ c = sib) as [->| ->] by lia; [lia|]. eapply cmp_trans; eauto. lia.
    + destruct (put_move a m k ci val Hk ltac:(lia) ltac:(lia) Hn HP) as (m' & Em & HP'). rewrite Em. cbn [bind fst snd].
      destruct (Hstep ci sib) as [G1 G2]; try lia; auto; try (unfold PARENT; lia).
      destruct (IH (upd a k (at_ a ci)) ci m') as (a2 & m2 & E & L & PE & Hout & Hh & HQ); auto;
        try (rewrite ?upd_length; lia).
      exists a2, m2. split; auto. rewrite upd_length in L. split; auto. split; [|split; [|split; auto]].
      * rewrite PE. apply perm_move; lia.
      * intros j Hj. rewrite Hout by auto. rewrite nth_upd by lia. destruct (Nat.eqb_spec j k); [lia|auto].
  - replace (2 * k + 2 - 1)%nat with (2 * k + 1)%nat by lia.
    destruct (Nat.ltb_spec (2 * k + 1) n) as [Hl|Hl].
    + rewrite (get_nth a (2 * k + 1) d) by lia. cbn [bind].
      destruct (Z.leb_spec (cmp val (at_ a (2 * k + 1))) 0) as [Hv|Hv].
      * destruct (put_move a m k (2 * k + 1)%nat val Hk ltac:(lia) ltac:(lia) Hn HP) as (m' & Em & HP'). rewrite Em. cbn [bind fst snd].
        destruct (Hstep (2 * k + 1)%nat (2 * k + 2)%nat) as [G1 G2]; try lia; auto; try (unfold PARENT; lia).
        destruct (put_fin (upd a k (at_ a (2 * k + 1))) m' (2 * k + 1) val ltac:(lia) ltac:(rewrite upd_length; lia) HP')
          as (m2 & E2 & HQ2). rewrite E2.
        eexists _, _. split; [reflexivity|]. rewrite !upd_length. split; auto. split; [apply perm_move; lia|]. split.
        { intros j Hj. rewrite !nth_upd by (rewrite ?upd_length; lia). destruct (Nat.eqb_spec j (2 * k + 1)); [lia|].
          destruct (Nat.eqb_spec j k); [lia|auto]. }
        split; auto. intros i Hi Hlo. apply G1; auto. unfold PARENT. lia.
      * apply Hstop. intros c [-> | ->] Hcn; [|lia]. pose proof (tp_anti _ TP val (at_ a (2 * k + 1))). lia.
    + apply Hstop. intros c [-> | ->] Hcn; lia.
Qed.

Lemma up_eq fuel a m k val : (0 < k)%nat ->
  PercolateUp cmp mf (S fuel) a m k val =
  (do ap <- get a (PARENT k);
   if cmp val ap <? 0 then put mf a m k val
   else do r <- put mf a m k ap; PercolateUp cmp mf fuel (fst r) (snd r) (PARENT k) val).
Proof. intros H. cbn [PercolateUp]. destruct (Nat.ltb_spec 0 k); [reflexivity|lia]. Qed.

Lemma up_ok val : forall fuel a k m,
  (k < n)%nat -> n = length a -> (k <= fuel)%nat ->
  (forall i, (0 < i < n)%nat -> i <> k -> cmp (at_ (upd a k val) i) (at_ (upd a k val) (PARENT i)) <= 0) ->
  ((0 < k)%nat -> forall c, (0 < c < n)%nat -> PARENT c = k ->
     cmp (at_ (upd a k val) c) (at_ (upd a k val) (PARENT k)) <= 0) ->
  P (upd a k val) k m ->
  exists a2 m2, PercolateUp cmp mf fuel a m k val = Ok (a2, m2) /\ length a2 = length a /\
    Permutation a2 (upd a k val) /\ hfrom 0 n a2 /\ Q a2 m2.
Proof.
  induction fuel as [|fuel IH]; intros a k m Hk Hn Hf Hheap Hgrand HP;
    destruct (put_fin a m k val Hk ltac:(lia) HP) as (mf1 & Epf & HQf).
  { assert (k = 0%nat) by lia. subst k. cbn [PercolateUp]. exists (upd a 0 val), mf1. split; auto.
    rewrite upd_length. split; auto. split; auto. split; auto. intros i Hi _. apply Hheap; lia. }
  destruct (Nat.eq_dec k 0) as [->|Hk0].
  { cbn [PercolateUp]. change (0 <? 0)%nat with false. cbn iota. exists (upd a 0 val), mf1. split; auto.
    rewrite upd_length. split; auto. split; auto. split; auto. intros i Hi _. apply Hheap; lia. }
  rewrite up_eq by lia. assert (Hp : (PARENT k < k)%nat) by (unfold PARENT; lia).
  rewrite (get_nth a (PARENT k) d) by lia. cbn [bind].
  assert (Enth0 : forall j, at_ (upd a k val) j = if Nat.eqb j k then val else at_ a j) by (intros; now rewrite nth_upd by lia).
  destruct (Z.ltb_spec (cmp val (at_ a (PARENT k))) 0) as [Hv|Hv].
  - exists (upd a k val), mf1. split; auto. rewrite upd_length. split; auto. split; auto. split; auto.
    intros i Hi _. destruct (Nat.eq_dec i k) as [->|Hik]; [|now apply Hheap].
    rewrite !Enth0, Nat.eqb_refl. destruct (Nat.eqb_spec (PARENT k) k); lia.
  - destruct (put_move a m k (PARENT k) val Hk ltac:(lia) ltac:(lia) ltac:(lia) HP) as (m' & Em & HP'). rewrite Em. cbn [bind fst snd].
    assert (Enth : forall j, at_ (upd (upd a k (at_ a (PARENT k))) (PARENT k) val) j =
       if Nat.eqb j (PARENT k) then val else if Nat.eqb j k then at_ a (PARENT k) else at_ a j).
    { intros j. rewrite nth_upd by (rewrite upd_length; lia). destruct (Nat.eqb_spec j (PARENT k)); auto. now rewrite nth_upd by lia. }
    destruct (IH (upd a k (at_ a (PARENT k))) (PARENT k) m') as (a2 & m2 & E & L & PE & Hh & HQ); auto;
      try (rewrite ?upd_length; lia).
    + intros i Hi Hip. rewrite !Enth. specialize (Hheap i Hi). rewrite !Enth0 in Hheap.
      destruct (Nat.eqb_spec i (PARENT k)); [congruence|].
      destruct (Nat.eqb_spec i k) as [Eik|Hik].
      * subst i. rewrite Nat.eqb_refl. pose proof (tp_anti _ TP val (at_ a (PARENT k))). lia.
      * specialize (Hheap Hik). destruct (Nat.eqb_spec (PARENT i) k) as [Epk|Epk].
        -- destruct (Nat.eqb_spec (PARENT i) (PARENT k)); [congruence|].
           specialize (Hgrand ltac:(lia) i Hi Epk). rewrite !Enth0 in Hgrand.
           destruct (Nat.eqb_spec i k); [congruence|]. destruct (Nat.eqb_spec (PARENT k) k); [lia|]. exact Hgrand.
        -- destruct (Nat.eqb_spec (PARENT i) (PARENT k)) as [Ep|Ep]; [|exact Hheap].
           rewrite Ep in Hheap. eapply cmp_trans; eauto. pose proof (tp_anti _ TP val (at_ a (PARENT k))). lia.
    + intros Hpk c Hc Epc. rewrite !Enth.
      assert (Hpp : (PARENT (PARENT k) < PARENT k)%nat) by (unfold PARENT in *; lia).
      destruct (Nat.eqb_spec (PARENT (PARENT k)) (PARENT k)); [lia|].
      destruct (Nat.eqb_spec (PARENT (PARENT k)) k); [lia|].
      destruct (Nat.eqb_spec c (PARENT k)) as [->|]; [unfold PARENT in *; lia|].
      assert (Hpg : cmp (at_ a (PARENT k)) (at_ a (PARENT (PARENT k))) <= 0).
      { specialize (Hheap (PARENT k) ltac:(lia) ltac:(lia)). rewrite !Enth0 in Hheap.
        destruct (Nat.eqb_spec (PARENT k) k); [lia|]. destruct (Nat.eqb_spec (PARENT (PARENT k)) k); [lia|]. exact Hheap. }
      destruct (Nat.eqb_spec c k); auto.
      specialize (Hheap c Hc ltac:(auto)). rewrite !Enth0 in Hheap. rewrite Epc in Hheap.
      destruct (Nat.eqb_spec c k); [congruence|]. destruct (Nat.eqb_spec (PARENT k) k); [lia|].
      eapply cmp_trans; eauto.
    + exists a2, m2. split; auto. rewrite upd_length in L. split; auto. split; auto. rewrite PE. apply perm_move; lia.
Qed.

(* without any order assumption: only the contents and the hook *)
Lemma up_perm val : forall fuel a k m,
  (k < n)%nat -> n = length a -> (k <= fuel)%nat -> P (upd a k val) k m ->
  exists a2 m2, PercolateUp cmp mf fuel a m k val = Ok (a2, m2) /\ length a2 = length a /\
    Permutation a2 (upd a k val) /\ Q a2 m2.
Proof.
  induction fuel as [|fuel IH]; intros a k m Hk Hn Hf HP;
    destruct (put_fin a m k val Hk ltac:(lia) HP) as (mf1 & Epf & HQf).
  { assert (k = 0%nat) by lia. subst k. cbn [PercolateUp]. exists (upd a 0 val), mf1. rewrite upd_length. auto. }
  destruct (Nat.eq_dec k 0) as [->|Hk0].
  { cbn [PercolateUp]. change (0 <? 0)%nat with false. cbn iota. exists (upd a 0 val), mf1. rewrite upd_length. auto. }
  rewrite up_eq by lia. assert (Hp : (PARENT k < k)%nat) by (unfold PARENT; lia).
  rewrite (get_nth a (PARENT k) d) by lia. cbn [bind].
  destruct (cmp val (at_ a (PARENT k)) <? 0).
  - exists (upd a k val), mf1. rewrite upd_length. auto.
  - destruct (put_move a m k (PARENT k) val Hk ltac:(lia) ltac:(lia) ltac:(lia) HP) as (m' & Em & HP'). rewrite Em. cbn [bind fst snd].
    destruct (IH (upd a k (at_ a (PARENT k))) (PARENT k) m') as (a2 & m2 & E & L & PE & HQ); auto;
      try (rewrite ?upd_length; lia).
    exists a2, m2. split; auto. rewrite upd_length in L. split; auto. split; auto. rewrite PE. apply perm_move; lia.
Qed.
End MF.
End H.
