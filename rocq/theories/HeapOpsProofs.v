From Coq Require Import List ZArith Bool Permutation Lia.
From Coq Require Import ZifyBool ZifyNat.
From Verif Require Import Common OrderSpec OrderProofs ArraySort ArraySortProofs Heap HeapSpec HeapProofs.
Import ListNotations.
Local Open Scope Z_scope.

Section H.
Context {T : Type} (cmp : T -> T -> Z) (TP : total_preorder cmp) (d : T).
Notation at_ a i := (nth i a d).
Notation mf := (@mf_none T).
Notation hfrom := (hfrom cmp d).

Lemma heap_iff l : heap_ordered cmp l <-> hfrom 0 (length l) l.
Proof.
  split.
  - intros H i Hi _. apply (H (PARENT i)); [apply nth_error_nth'; unfold PARENT; lia|].
    assert (i = 2 * PARENT i + 1 \/ i = 2 * PARENT i + 2)%nat as [E|E] by (unfold PARENT; lia).
    + left. rewrite <- E. apply nth_error_nth'. lia.
    + right. rewrite <- E. apply nth_error_nth'. lia.
  - intros H i p c Hp Hc.
    assert (G : forall j, nth_error l j = Some c -> (0 < j)%nat -> PARENT j = i -> cmp c p <= 0).
    { intros j Hj H0 Hpj. assert (j < length l)%nat by (eapply nth_error_lt; eauto).
      specialize (H j ltac:(lia) ltac:(lia)). rewrite Hpj in H.
      rewrite (nth_error_nth _ _ d Hj), (nth_error_nth _ _ d Hp) in H. exact H. }
    destruct Hc as [Hc|Hc]; eapply G; eauto; unfold PARENT; lia.
Qed.

Lemma root_max l : hfrom 0 (length l) l -> forall i, (i < length l)%nat -> cmp (at_ l i) (at_ l 0) <= 0.
Proof.
  intros H i. induction i as [i IH] using lt_wf_ind. intros Hi.
  destruct (Nat.eq_dec i 0) as [->|Hn]; [rewrite cmp_refl by auto; lia|].
  eapply cmp_trans; eauto; [apply H; lia|]. apply IH; unfold PARENT; lia.
Qed.

Lemma root_is_max l : heap_ordered cmp l -> l <> [] -> exists r, nth_error l 0 = Some r /\ is_max cmp l r.
Proof.
  intros H Hne. apply heap_iff in H. destruct l as [|r l]; [congruence|]. exists r. split; auto. split; [now left|].
  intros y Hy. apply In_nth_error in Hy. destruct Hy as [n Hn].
  pose proof (root_max _ H n ltac:(eapply nth_error_lt; eauto)) as R.
  rewrite (nth_error_nth _ _ d Hn) in R. exact R.
Qed.

Definition tP : list T -> nat -> unit -> Prop := fun _ _ _ => True.
Definition tQ : list T -> unit -> Prop := fun _ _ => True.
Lemma tmove n : forall V k i m, (k < n)%nat -> (i < n)%nat -> k <> i -> (n <= length V)%nat -> tP V k m ->
  exists m', mf m (at_ V i) k = Ok m' /\ tP (upd (upd V k (at_ V i)) i (at_ V k)) i m'.
Proof. intros. exists m. split; [reflexivity|exact I]. Qed.
Lemma tfin n : forall V k m, (k < n)%nat -> (n <= length V)%nat -> tP V k m -> exists m', mf m (at_ V k) k = Ok m' /\ tQ V m'.
Proof. intros. exists m. split; [reflexivity|exact I]. Qed.

Definition down_u n lo val fuel a k :=
  fun H1 H2 H3 H4 H5 => down_ok cmp TP mf d n tP tQ (tmove n) (tfin n) lo val fuel a k tt H1 H2 H3 H4 H5 I.
Definition up_u n val fuel a k :=
  fun H1 H2 H3 H4 H5 => up_ok cmp TP mf d n tP tQ (tmove n) (tfin n) val fuel a k tt H1 H2 H3 H4 H5 I.

Lemma upd_last (l : list T) x y : upd (l ++ [x]) (length l) y = l ++ [y].
Proof. apply upd_mid. Qed.

Lemma heap_insert_ok l x : heap_ordered cmp l ->
  exists a, heap_insert cmp mf d l tt x = Ok (a, tt) /\ heap_ordered cmp a /\ Permutation a (x :: l).
Proof.
  intros Hh. apply heap_iff in Hh. unfold heap_insert.
  assert (L : length (l ++ [d]) = S (length l)) by (rewrite app_length; cbn; lia).
  destruct (up_u (S (length l)) x (length l) (l ++ [d]) (length l)) as (a2 & [] & E & L2 & PE & Hh2 & _); try lia.
  - intros i Hi Hik. rewrite upd_last. rewrite !app_nth1 by (unfold PARENT; lia). apply Hh; lia.
  - intros H0 c Hc Hpc. unfold PARENT in Hpc. lia.
  - exists a2. split; auto. split.
    + apply heap_iff. rewrite L2, L. exact Hh2.
    + rewrite PE, upd_last. rewrite Permutation_app_comm. reflexivity.
Qed.

Lemma firstn_last (a : list T) n : length a = S n -> a = firstn n a ++ [at_ a n].
Proof.
  intros H. rewrite <- (firstn_skipn n a) at 1. f_equal.
  rewrite skipn_cons with (x := at_ a n).
  - f_equal. apply skipn_all2. lia.
  - apply nth_error_nth'. lia.
Qed.

Lemma perm_upd (l : list T) k x : (k < length l)%nat -> Permutation (at_ l k :: upd l k x) (x :: l).
Proof.
  intros Hk. rewrite upd_split by auto.
  assert (E : l = firstn k l ++ at_ l k :: skipn (S k) l).
  { rewrite <- (firstn_skipn k l) at 1. f_equal. apply skipn_cons. now apply nth_error_nth'. }
  rewrite E at 4. rewrite <- !Permutation_middle. apply perm_swap.
Qed.

(* removal of any index: what is removed *)
Lemma heap_Remove_gen l k lo : (k < length l)%nat ->
  (forall i, (0 < i < length l - 1)%nat -> (lo <= PARENT i)%nat -> PARENT i <> k ->
     cmp (at_ (upd l k (at_ l (length l - 1))) i) (at_ (upd l k (at_ l (length l - 1))) (PARENT i)) <= 0) ->
  ((0 < k)%nat -> (lo <= PARENT k)%nat -> forall c, (0 < c < length l - 1)%nat -> PARENT c = k ->
     cmp (at_ (upd l k (at_ l (length l - 1))) c) (at_ (upd l k (at_ l (length l - 1))) (PARENT k)) <= 0) ->
  exists a, heap_Remove cmp mf l tt k = Ok (a, tt, true) /\ length a = (length l - 1)%nat /\
    Permutation (at_ l k :: a) l /\ hfrom lo (length a) a.
Proof.
  intros Hk H1 H2. unfold heap_Remove. destruct (Nat.leb_spec (length l) k); [lia|].
  set (n := (length l - 1)%nat) in *. assert (Hn : length l = S n) by lia. clearbody n. rewrite Hn.
  assert (RM : forall a2 : list T, length a2 = S n -> remove_at a2 (length a2 - 1) = Ok (firstn n a2)).
  { intros a2 L2. unfold remove_at. rewrite L2. replace (S n - 1)%nat with n by lia.
    destruct (Nat.ltb_spec n (S n)); [|lia]. rewrite skipn_all2 by lia. now rewrite app_nil_r. }
  destruct (Nat.ltb_spec 1 (S n)) as [Hn1|Hn1].
  - rewrite (get_nth l n d) by lia. cbn [bind].
    replace (S n - 1)%nat with n by lia.
    destruct (Nat.eq_dec k n) as [->|Hkn].
    + (* removing the last element *)
      assert (E : PercolateDown cmp mf (S n) l tt n n (at_ l n) = Ok (l, tt)).
      { cbn [PercolateDown]. unfold RIGHT. destruct (Nat.ltb_spec (2 * n + 2) n); [lia|].
        destruct (Nat.ltb_spec (2 * n + 2 - 1) n); [lia|]. unfold put. rewrite set_ok by lia. cbn [bind mf_none].
        rewrite upd_same by (apply nth_error_nth'; lia). reflexivity. }
      rewrite E. cbn [bind fst snd]. rewrite RM by auto. cbn [bind]. eexists. split; [reflexivity|].
      assert (Lf : length (firstn n l) = n) by (rewrite firstn_length; lia). rewrite Lf.
      split; auto. split.
      * rewrite (firstn_last l n) at 3 by auto. rewrite Permutation_app_comm. reflexivity.
      * intros i Hi Hlo. specialize (H1 i ltac:(lia) Hlo ltac:(unfold PARENT; lia)).
        rewrite upd_same in H1 by (apply nth_error_nth'; lia).
        rewrite (firstn_last l n) in H1 by auto. rewrite !app_nth1 in H1 by (rewrite Lf; unfold PARENT; lia). exact H1.
    + destruct (down_u n lo (at_ l n) (S n) l k) as (a2 & [] & E & L2 & PE & Hout & Hh & _); try lia; auto.
      rewrite E. cbn [bind fst snd]. rewrite RM by lia. cbn [bind]. eexists. split; [reflexivity|].
      assert (Lf : length (firstn n a2) = n) by (rewrite firstn_length; lia). rewrite Lf.
      split; auto. split.
      * apply (Permutation_cons_inv (a := at_ l n)). rewrite perm_swap.
        transitivity (at_ l k :: upd l k (at_ l n)); [|apply perm_upd; lia].
        apply perm_skip. rewrite <- PE. rewrite (firstn_last a2 n) at 2 by lia. rewrite Hout by lia.
        rewrite Permutation_app_comm. reflexivity.
      * intros i Hi Hlo. specialize (Hh i Hi Hlo).
        rewrite (firstn_last a2 n) in Hh by lia. rewrite !app_nth1 in Hh by (rewrite Lf; unfold PARENT; lia). exact Hh.
  - assert (n = 0%nat) by lia. subst n. assert (k = 0%nat) by lia. subst k. cbn [bind fst snd].
    rewrite RM by auto. cbn [bind firstn]. eexists. split; [reflexivity|]. split; auto.
    destruct l as [|x [|y l]]; cbn in Hn; try lia. cbn. split; auto. intros i Hi. cbn in Hi. lia.
Qed.

Lemma heap_Remove_mult l k : (k < length l)%nat ->
  exists a, heap_Remove cmp mf l tt k = Ok (a, tt, true) /\ Permutation (at_ l k :: a) l.
Proof.
  intros Hk. destruct (heap_Remove_gen l k (length l) Hk) as (a & E & _ & P & _).
  - intros i Hi Hlo. unfold PARENT in Hlo. lia.
  - intros H0 Hlo. unfold PARENT in Hlo. lia.
  - exists a. auto.
Qed.

Lemma heap_Remove_order l k : (k < length l)%nat -> heap_ordered cmp l ->
  (k = 0%nat \/ k = (length l - 1)%nat \/ cmp (at_ l (length l - 1)) (at_ l (PARENT k)) <= 0) ->
  exists a, heap_Remove cmp mf l tt k = Ok (a, tt, true) /\ heap_ordered cmp a /\ Permutation (at_ l k :: a) l.
Proof.
  intros Hk Hh Hc. apply heap_iff in Hh.
  assert (Enth0 : forall j, at_ (upd l k (at_ l (length l - 1))) j = if Nat.eqb j k then at_ l (length l - 1) else at_ l j)
    by (intros; now rewrite nth_upd by lia).
  destruct (heap_Remove_gen l k 0 Hk) as (a & E & _ & P & H).
  - intros i Hi _ Hp. rewrite !Enth0. destruct (Nat.eqb_spec (PARENT i) k); [congruence|].
    destruct (Nat.eqb_spec i k) as [Eik|]; [|apply Hh; lia]. subst i.
    destruct Hc as [Hc|[Hc|Hc]]; [lia|lia|exact Hc].
  - intros Hk0 _ c Hci Hpc. rewrite !Enth0.
    destruct (Nat.eqb_spec c k); [unfold PARENT in *; lia|]. destruct (Nat.eqb_spec (PARENT k) k); [unfold PARENT in *; lia|].
    pose proof (Hh c ltac:(lia) ltac:(lia)) as A1. rewrite Hpc in A1. pose proof (Hh k ltac:(lia) ltac:(lia)) as A2.
    eapply cmp_trans; eauto.
  - exists a. split; auto. split; auto. now apply heap_iff.
Qed.

Lemma heap_Pop_ok l : heap_ordered cmp l -> l <> [] ->
  exists a r, heap_Pop cmp mf l tt = Ok (a, tt, r) /\ heap_ordered cmp a /\ Permutation (r :: a) l /\ is_max cmp l r.
Proof.
  intros Hh Hne. assert (Hl : (0 < length l)%nat) by (destruct l; [congruence|cbn; lia]).
  destruct (heap_Remove_order l 0 Hl Hh (or_introl eq_refl)) as (a & E & H & P).
  unfold heap_Pop. rewrite (get_nth l 0 d) by auto. cbn [bind]. rewrite E. cbn [bind fst snd].
  exists a, (at_ l 0). split; auto. split; auto. split; auto.
  destruct (root_is_max l Hh Hne) as (r & Hr & Hm). rewrite (nth_error_nth _ _ d Hr). exact Hm.
Qed.

Lemma heap_Set_ok l k x : heap_ordered cmp l -> (k < length l)%nat ->
  exists a, heap_Set cmp mf l tt k x = Ok (a, tt, true) /\ heap_ordered cmp a /\ Permutation (at_ l k :: a) (x :: l).
Proof.
  intros Hh Hk. apply heap_iff in Hh. unfold heap_Set. destruct (Nat.leb_spec (length l) k); [lia|].
  rewrite (get_nth l k d) by auto. cbn [bind].
  assert (Enth0 : forall j, at_ (upd l k x) j = if Nat.eqb j k then x else at_ l j) by (intros; now rewrite nth_upd by lia).
  destruct (Z.leb_spec (cmp (at_ l k) x) 0) as [Hc|Hc].
  - destruct (up_u (length l) x k l k) as (a2 & [] & E & L2 & PE & H2 & _); try lia.
    + intros i Hi Hik. rewrite !Enth0. destruct (Nat.eqb_spec i k); [congruence|].
      pose proof (Hh i Hi ltac:(lia)) as A. destruct (Nat.eqb_spec (PARENT i) k) as [Ep|]; auto.
      rewrite Ep in A. eapply cmp_trans; eauto.
    + intros Hk0 c Hci Hpc. rewrite !Enth0.
      destruct (Nat.eqb_spec c k); [unfold PARENT in *; lia|]. destruct (Nat.eqb_spec (PARENT k) k); [unfold PARENT in *; lia|].
      pose proof (Hh c ltac:(lia) ltac:(lia)) as A1. rewrite Hpc in A1. pose proof (Hh k ltac:(lia) ltac:(lia)) as A2.
      eapply cmp_trans; eauto.
    + rewrite E. cbn [bind fst snd]. exists a2. split; auto. split; [apply heap_iff; now rewrite L2|].
      rewrite PE. apply perm_upd; auto.
  - destruct (down_u (length l) 0 x (length l) l k) as (a2 & [] & E & L2 & PE & _ & H2 & _); try lia.
    + intros i Hi _ Hp. rewrite !Enth0. destruct (Nat.eqb_spec (PARENT i) k); [congruence|].
      destruct (Nat.eqb_spec i k) as [Eik|]; [|apply Hh; lia]. subst i.
      apply (cmp_trans cmp TP _ (at_ l k)); [|apply Hh; lia]. pose proof (tp_anti _ TP (at_ l k) x). lia.
    + intros Hk0 _ c Hci Hpc. rewrite !Enth0.
      destruct (Nat.eqb_spec c k); [unfold PARENT in *; lia|]. destruct (Nat.eqb_spec (PARENT k) k); [unfold PARENT in *; lia|].
      pose proof (Hh c ltac:(lia) ltac:(lia)) as A1. rewrite Hpc in A1. pose proof (Hh k ltac:(lia) ltac:(lia)) as A2.
      eapply cmp_trans; eauto.
    + rewrite E. cbn [bind fst snd]. exists a2. split; auto. split; [apply heap_iff; now rewrite L2|].
      rewrite PE. apply perm_upd; auto.
Qed.

(* ---- Heapify and HeapSort ---- *)
Lemma heapify_loop_ok : forall i a, (i <= length a / 2)%nat -> hfrom i (length a) a ->
  exists a2, heapify_loop cmp a (length a) i = Ok a2 /\ Permutation a2 a /\ hfrom 0 (length a2) a2.
Proof.
  induction i as [|j IH]; intros a Hi Hh.
  - exists a. repeat split; auto.
  - cbn [heapify_loop]. assert (Hj : (j < length a)%nat) by lia. rewrite (get_nth a j d) by auto. cbn [bind].
    assert (Es : upd a j (at_ a j) = a) by (apply upd_same; now apply nth_error_nth').
    destruct (down_u (length a) j (at_ a j) (length a) a j) as (a2 & [] & E & L2 & PE & _ & H2 & _); try lia.
    + intros i Hi' Hlo Hp. rewrite Es. apply Hh; lia.
    + intros Hk0 Hlo. unfold PARENT in Hlo. lia.
    + rewrite E. cbn [bind fst]. rewrite <- L2. destruct (IH a2) as (a3 & E3 & P3 & H3); try (rewrite L2; auto; lia).
      exists a3. split; auto. split; auto. rewrite P3, PE, Es. reflexivity.
Qed.

Lemma Heapify_ok a : exists a2, Heapify cmp a = Ok a2 /\ Permutation a2 a /\ heap_ordered cmp a2.
Proof.
  unfold Heapify. destruct (heapify_loop_ok (length a / 2) a) as (a2 & E & P & H).
  - lia.
  - intros i Hi Hlo. unfold PARENT in Hlo. lia.
  - exists a2. split; auto. split; auto. now apply heap_iff.
Qed.

Lemma heapsort_loop_ok : forall n a, (n <= length a)%nat -> hfrom 0 n a ->
  (forall i j, (i < j)%nat -> (n <= j < length a)%nat -> cmp (at_ a i) (at_ a j) <= 0) ->
  exists a2, heapsort_loop cmp a n = Ok a2 /\ Permutation a2 a /\ ascending cmp a2.
Proof.
  assert (Hend : forall n a, (n <= 1)%nat -> (forall i j, (i < j)%nat -> (n <= j < length a)%nat -> cmp (at_ a i) (at_ a j) <= 0) -> ascending cmp a).
  { intros n a Hn H i j x y Hij Hx Hy. pose proof (nth_error_lt _ _ _ Hy).
    specialize (H i j Hij ltac:(lia)). rewrite (nth_error_nth _ _ d Hx), (nth_error_nth _ _ d Hy) in H. exact H. }
  induction n as [|n IH]; intros a Hn Hh Hs.
  - exists a. split; auto. split; auto. apply (Hend 0%nat); auto.
  - cbn [heapsort_loop]. destruct (Nat.ltb_spec 1 (S n)) as [H1|H1].
    2:{ exists a. split; auto. split; auto. apply (Hend (S n)); auto. }
    rewrite (get_nth a n d) by lia. cbn [bind]. rewrite (get_nth a 0 d) by lia. cbn [bind].
    rewrite set_ok by lia. cbn [bind].
    set (a1 := upd a n (at_ a 0)). assert (L1 : length a1 = length a) by apply upd_length.
    assert (E1 : forall j, at_ a1 j = if Nat.eqb j n then at_ a 0 else at_ a j) by (intros; unfold a1; now rewrite nth_upd by lia).
    assert (E2 : forall j, at_ (upd a1 0 (at_ a n)) j = if Nat.eqb j 0 then at_ a n else at_ a1 j) by (intros; now rewrite nth_upd by lia).
    assert (Hrm : forall i, (i < S n)%nat -> cmp (at_ a i) (at_ a 0) <= 0).
    { intros i. induction i as [i IHi] using lt_wf_ind. intros Hi.
      destruct (Nat.eq_dec i 0) as [->|Hne]; [rewrite cmp_refl by auto; lia|].
      eapply cmp_trans; eauto; [apply Hh; lia|]. apply IHi; unfold PARENT; lia. }
    destruct (down_u n 0 (at_ a n) n a1 0) as (a2 & [] & E & L2 & PE & Hout & H2 & _); try lia.
    + intros i Hi _ Hp. rewrite !E2, !E1. destruct (Nat.eqb_spec i 0); [lia|].
      destruct (Nat.eqb_spec (PARENT i) 0); [congruence|]. destruct (Nat.eqb_spec i n); [lia|].
      destruct (Nat.eqb_spec (PARENT i) n); [unfold PARENT in *; lia|]. apply Hh; lia.
    + rewrite E. cbn [bind fst].
      assert (Pa : Permutation a2 a).
      { rewrite PE. unfold a1. rewrite upd_comm by lia. rewrite upd_comm by lia. apply perm_swap_nth; lia. }
      destruct (IH a2) as (a3 & E3 & P3 & H3); try lia; auto.
      * (* every value in the prefix of a2 was in the prefix of a *)
        intros i j Hij Hj.
        assert (Hout' : forall j, (n <= j)%nat -> at_ a2 j = at_ a1 j) by auto.
        destruct (Nat.lt_ge_cases i n) as [Hin|Hin].
        -- assert (Hin2 : exists i', (i' < S n)%nat /\ at_ a2 i = at_ a i').
           { (* firstn n a2 is a permutation of the values of a at 1..n *)
             assert (Pf : Permutation (firstn n a2) (firstn n (upd a1 0 (at_ a n)))).
             { assert (Es : skipn n a2 = skipn n (upd a1 0 (at_ a n))).
               { apply nth_error_ext. intros q. rewrite !nth_error_skipn.
                 destruct (Nat.lt_ge_cases (n + q) (length a)) as [Hq|Hq].
                 - rewrite !(nth_error_nth' _ d) by (rewrite ?upd_length; lia). f_equal. rewrite Hout by lia.
                   rewrite E2. destruct (Nat.eqb_spec (n + q) 0); [lia|auto].
                 - rewrite !(proj2 (nth_error_None _ _)); auto; rewrite ?upd_length; lia. }
               rewrite <- (firstn_skipn n a2), <- (firstn_skipn n (upd a1 0 (at_ a n))), Es in PE.
               now apply Permutation_app_inv_r in PE. }
             assert (Hin3 : In (at_ a2 i) (firstn n a2)).
             { assert (nth_error (firstn n a2) i = Some (at_ a2 i)).
               { rewrite nth_error_firstn. destruct (Nat.ltb_spec i n); [|lia]. apply nth_error_nth'. lia. }
               eapply nth_error_In; eauto. }
             apply (Permutation_in _ Pf) in Hin3. apply In_nth_error in Hin3. destruct Hin3 as [q Hq].
             pose proof (nth_error_lt _ _ _ Hq) as Hql. rewrite firstn_length, upd_length in Hql.
             rewrite nth_error_firstn in Hq. destruct (Nat.ltb_spec q n); [|lia].
             apply (nth_error_nth _ _ d) in Hq. rewrite E2, E1 in Hq.
             destruct (Nat.eqb_spec q 0); [exists n; split; [lia|congruence]|].
             destruct (Nat.eqb_spec q n); [lia|]. exists q. split; [lia|congruence]. }
           destruct Hin2 as (i' & Hi' & ->). rewrite Hout' by lia. rewrite E1.
           destruct (Nat.eqb_spec j n); [apply Hrm; lia|].
           apply (Hs i' j); lia.
        -- rewrite !Hout' by lia. rewrite !E1. destruct (Nat.eqb_spec j n); [lia|].
           destruct (Nat.eqb_spec i n); apply Hs; lia.
      * exists a3. split; auto. split; auto. rewrite P3. exact Pa.
Qed.

Lemma HeapSort_ok a : exists a2, HeapSort cmp a = Ok a2 /\ Permutation a2 a /\ ascending cmp a2.
Proof.
  unfold HeapSort. destruct (Heapify_ok a) as (a1 & E & P & H). rewrite E. cbn [bind].
  rewrite <- (Permutation_length P). apply heap_iff in H.
  destruct (heapsort_loop_ok (length a1) a1) as (a2 & E2 & P2 & H2); auto; [intros; lia|].
  exists a2. split; auto. split; auto. now rewrite P2.
Qed.

Lemma drain_ok : forall n l, (length l <= n)%nat -> heap_ordered cmp l ->
  exists out, drain cmp n l = Ok out /\ Permutation out l /\ descending cmp out.
Proof.
  induction n as [|n IH]; intros l Hl Hh.
  - destruct l; [|cbn in Hl; lia]. exists []. repeat split; auto. intros [|i] j x y _ Hx; discriminate.
  - destruct l as [|x l0]; [exists []; repeat split; auto; intros [|i] j x y _ Hx; discriminate|].
    cbn [drain]. set (l := x :: l0) in *.
    destruct (heap_Pop_ok l Hh) as (a & r & E & Ha & P & Hm); [unfold l; congruence|].
    rewrite E. cbn [bind fst snd]. destruct (IH a) as (out & Eo & Po & Do); auto.
    { apply Permutation_length in P. cbn in P, Hl. lia. }
    rewrite Eo. cbn [bind]. exists (r :: out). split; auto. split; [rewrite Po; exact P|].
    intros i j u v Hij Hu Hv. destruct j as [|j]; [lia|]. cbn in Hv. destruct i as [|i]; cbn in Hu.
    + inversion Hu; subst u. apply Hm. apply (Permutation_in _ P). right. apply (Permutation_in _ Po). eapply nth_error_In; eauto.
    + apply (Do i j); auto. lia.
Qed.
End H.
