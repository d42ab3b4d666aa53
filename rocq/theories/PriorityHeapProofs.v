From Coq Require Import List ZArith Bool Permutation Lia.
From Coq Require Import ZifyBool ZifyNat.
From Verif Require Import Common OrderSpec OrderProofs ArraySort ArraySortProofs Growth Heap HeapSpec HeapProofs HeapOpsProofs PriorityHeap.
Import ListNotations.
Local Open Scope Z_scope.

Lemma comp_second_preorder {D} (cmp : D -> D -> Z) : total_preorder cmp -> total_preorder (comp_second cmp).
Proof.
  intros [R A T]. split; unfold comp_second; intros; auto. eapply T; eauto.
Qed.

Section K.
Context {D : Type} (cmp : D -> D -> Z) (TPc : total_preorder cmp) (d : nat * D).
Notation pr := (nat * D)%type.
Notation at_ a i := (nth i a d).
Notation key V j := (fst (nth j V d)).
Notation CS := (comp_second cmp).
Notation TP := (comp_second_preorder cmp TPc).

(* slots of the heap: each key's slot holds the element's index *)
Definition slots (n : nat) (V : list pr) (sub : list Z) : Prop :=
  forall j, (j < n)%nat -> nth_error sub (key V j) = Some (Z.of_nat j).

Definition KP (n : nat) (sub0 : list Z) (V : list pr) (k : nat) (sub : list Z) : Prop :=
  (forall j, (j < n)%nat -> j <> k -> nth_error sub (key V j) = Some (Z.of_nat j)) /\
  (forall j, (j < n)%nat -> j <> k -> key V j <> key V k) /\
  (key V k < length sub)%nat /\ length sub = length sub0 /\
  (forall x, (forall j, (j < n)%nat -> key V j <> x) -> nth_error sub x = nth_error sub0 x).
Definition KQ (n : nat) (sub0 : list Z) (V : list pr) (sub : list Z) : Prop :=
  slots n V sub /\ length sub = length sub0 /\
  (forall x, (forall j, (j < n)%nat -> key V j <> x) -> nth_error sub x = nth_error sub0 x).

Lemma kmove n sub0 : forall V k i m, (k < n)%nat -> (i < n)%nat -> k <> i -> (n <= length V)%nat -> KP n sub0 V k m ->
  exists m', mf_sub m (at_ V i) k = Ok m' /\ KP n sub0 (upd (upd V k (at_ V i)) i (at_ V k)) i m'.
Proof.
  intros V k i m Hk Hi Hne Hn (H1 & H2 & H3 & H4 & H5).
  assert (Hki : nth_error m (key V i) = Some (Z.of_nat i)) by (apply H1; auto).
  pose proof (nth_error_lt _ _ _ Hki) as Hlt.
  exists (upd m (key V i) (Z.of_nat k)). unfold mf_sub. rewrite set_ok by lia. split; auto.
  set (V' := upd (upd V k (at_ V i)) i (at_ V k)).
  assert (E : forall j, at_ V' j = if Nat.eqb j i then at_ V k else if Nat.eqb j k then at_ V i else at_ V j).
  { intros j. unfold V'. rewrite nth_upd by (rewrite upd_length; lia). destruct (Nat.eqb_spec j i); auto. rewrite nth_upd by lia. auto. }
  clearbody V'. unfold KP. rewrite upd_length.
  repeat split; try rewrite !E.
  - intros j Hj Hji. rewrite E. destruct (Nat.eqb_spec j i); [congruence|].
    destruct (Nat.eqb_spec j k).
    + subst j. now apply nth_error_upd_eq.
    + rewrite nth_error_upd_neq; [now apply H1|]. intros C.
      specialize (H1 j Hj n1). rewrite <- C, Hki in H1. inversion H1. lia.
  - intros j Hj Hji. rewrite !E, Nat.eqb_refl. destruct (Nat.eqb_spec j i); [congruence|].
    destruct (Nat.eqb_spec j k); auto.
  - rewrite Nat.eqb_refl. auto.
  - auto.
  - intros x Hx. rewrite nth_error_upd_neq.
    + apply H5. intros j Hj. destruct (Nat.eqb_spec j i).
      { subst j. specialize (Hx k Hk). rewrite E in Hx. destruct (Nat.eqb_spec k i); [congruence|]. rewrite Nat.eqb_refl in Hx. auto. }
      destruct (Nat.eqb_spec j k).
      { subst j. specialize (Hx i Hi). rewrite E, Nat.eqb_refl in Hx. auto. }
      specialize (Hx j Hj). rewrite E in Hx. destruct (Nat.eqb_spec j i); [congruence|].
      destruct (Nat.eqb_spec j k); [congruence|]. auto.
    + specialize (Hx k Hk). rewrite E in Hx. destruct (Nat.eqb_spec k i); [congruence|]. rewrite Nat.eqb_refl in Hx. auto.
Qed.

Lemma kfin n sub0 : forall V k m, (k < n)%nat -> (n <= length V)%nat -> KP n sub0 V k m ->
  exists m', mf_sub m (at_ V k) k = Ok m' /\ KQ n sub0 V m'.
Proof.
  intros V k m Hk Hn (H1 & H2 & H3 & H4 & H5). exists (upd m (key V k) (Z.of_nat k)).
  unfold mf_sub. rewrite set_ok by auto. split; auto. split; [|split].
  - intros j Hj. destruct (Nat.eq_dec j k) as [->|Hjk]; [now apply nth_error_upd_eq|].
    rewrite nth_error_upd_neq; auto. apply not_eq_sym. auto.
  - now rewrite upd_length.
  - intros x Hx. rewrite nth_error_upd_neq; auto.
Qed.

Lemma slots_inj n V sub i j : slots n V sub -> (i < n)%nat -> (j < n)%nat -> key V i = key V j -> i = j.
Proof. intros H Hi Hj E. pose proof (H i Hi) as A. rewrite E, (H j Hj) in A. inversion A. lia. Qed.

(* ---- the heap operations keep the slots ---- *)
Lemma kinsert l sub k v : slots (length l) l sub -> (k < length sub)%nat -> (forall j, (j < length l)%nat -> key l j <> k) ->
  exists a sub', heap_insert CS mf_sub d l sub (k, v) = Ok (a, sub') /\ Permutation a ((k, v) :: l) /\
    KQ (length a) sub a sub' /\ (heap_ordered CS l -> heap_ordered CS a).
Proof.
  intros Hs Hk Hf. unfold heap_insert. set (n := S (length l)).
  assert (L : length (l ++ [d]) = n) by (rewrite app_length; cbn; lia).
  assert (HP : KP n sub (upd (l ++ [d]) (length l) (k, v)) (length l) sub).
  { rewrite upd_last. assert (E : at_ (l ++ [(k, v)]) (length l) = (k, v)).
    { rewrite app_nth2 by lia. now rewrite Nat.sub_diag. }
    repeat split; rewrite ?E; auto.
    - intros j Hj Hne. rewrite app_nth1 by lia. apply Hs. lia.
    - intros j Hj Hne. rewrite app_nth1 by lia. apply Hf. lia. }
  destruct (up_perm CS mf_sub d n (KP n sub) (KQ n sub) (kmove n sub) (kfin n sub) (k, v) (length l) (l ++ [d]) (length l) sub)
    as (a & m & E & L2 & PE & HQ); try lia; auto.
  exists a, m. split; auto. rewrite upd_last in PE.
  split; [rewrite PE, Permutation_app_comm; reflexivity|]. rewrite L2, L. split; auto.
  intros Hh. apply (heap_iff CS d) in Hh.
  destruct (up_ok CS TP mf_sub d n (KP n sub) (KQ n sub) (kmove n sub) (kfin n sub) (k, v) (length l) (l ++ [d]) (length l) sub)
    as (a' & m' & E' & L2' & PE' & Hh' & _); try lia; auto.
  - intros i Hi Hik. rewrite upd_last. rewrite !app_nth1 by (unfold PARENT; lia). apply Hh; lia.
  - intros H0 c Hc Hpc. unfold PARENT in Hpc. lia.
  - rewrite E in E'. inversion E'; subst a' m'. apply (heap_iff CS d). rewrite L2, L. auto.
Qed.

Lemma kset l sub i v : slots (length l) l sub -> (i < length l)%nat ->
  exists a sub', heap_Set CS mf_sub l sub i (key l i, v) = Ok (a, sub', true) /\
    Permutation (at_ l i :: a) ((key l i, v) :: l) /\ KQ (length a) sub a sub' /\ length a = length l /\
    (forall x, (forall j, (j < length a)%nat -> key a j <> x) <-> (forall j, (j < length l)%nat -> key l j <> x)) /\
    (heap_ordered CS l -> heap_ordered CS a).
Proof.
  intros Hs Hi. unfold heap_Set. destruct (Nat.leb_spec (length l) i); [lia|].
  rewrite (get_nth l i d) by auto. cbn [bind]. set (n := length l) in *. set (x := (key l i, v)).
  assert (E0 : forall j, at_ (upd l i x) j = if Nat.eqb j i then x else at_ l j) by (intros; now rewrite nth_upd by lia).
  assert (Ek : forall j, key (upd l i x) j = key l j).
  { intros j. rewrite E0. destruct (Nat.eqb_spec j i); subst; auto. }
  assert (HP : KP n sub (upd l i x) i sub).
  { repeat split; auto.
    - intros j Hj Hne. rewrite Ek. now apply Hs.
    - intros j Hj Hne C. rewrite !Ek in C. apply Hne. eapply slots_inj; eauto.
    - rewrite Ek. pose proof (Hs i Hi) as A. eapply nth_error_lt; eauto. }
  assert (Keys : forall a, Permutation a (upd l i x) -> length a = n -> forall y,
    (forall j, (j < length a)%nat -> key a j <> y) <-> (forall j, (j < n)%nat -> key l j <> y)).
  { intros a PE L y.
    assert (PM : Permutation (map fst a) (map fst l)).
    { rewrite PE. erewrite (nth_ext (map fst (upd l i x)) (map fst l) (fst d) (fst d)); [reflexivity| |].
      - now rewrite !map_length, upd_length.
      - intros q _. rewrite !map_nth. apply Ek. }
    assert (G : forall V : list pr, (forall j, (j < length V)%nat -> key V j <> y) <-> ~ In y (map fst V)).
    { intros V. split.
      - intros HV Hin. apply (In_nth _ _ (fst d)) in Hin. destruct Hin as (q & Hq & Eq). rewrite map_nth in Eq.
        rewrite map_length in Hq. exact (HV q Hq Eq).
      - intros HV j Hj C. apply HV. rewrite <- C. apply in_map. now apply nth_In. }
    unfold n. rewrite !G, PM. reflexivity. }
  assert (Hup : heap_ordered CS l -> CS (at_ l i) x <= 0 ->
     (forall j, (0 < j < n)%nat -> j <> i -> CS (at_ (upd l i x) j) (at_ (upd l i x) (PARENT j)) <= 0) /\
     ((0 < i)%nat -> forall c, (0 < c < n)%nat -> PARENT c = i -> CS (at_ (upd l i x) c) (at_ (upd l i x) (PARENT i)) <= 0)).
  { intros Hh Hc. apply (heap_iff CS d) in Hh. split.
    - intros j Hj Hji. rewrite !E0. destruct (Nat.eqb_spec j i); [congruence|].
      pose proof (Hh j Hj ltac:(lia)) as A. destruct (Nat.eqb_spec (PARENT j) i) as [Ep|]; auto.
      rewrite Ep in A. eapply (cmp_trans CS TP); eauto.
    - intros Hk0 c Hci Hpc. rewrite !E0.
      destruct (Nat.eqb_spec c i); [unfold PARENT in *; lia|]. destruct (Nat.eqb_spec (PARENT i) i); [unfold PARENT in *; lia|].
      pose proof (Hh c Hci ltac:(lia)) as A1. rewrite Hpc in A1. pose proof (Hh i ltac:(lia) ltac:(lia)) as A2.
      eapply (cmp_trans CS TP); eauto. }
  destruct (Z.leb_spec (CS (at_ l i) x) 0) as [Hc|Hc].
  - destruct (up_perm CS mf_sub d n (KP n sub) (KQ n sub) (kmove n sub) (kfin n sub) x i l i sub)
      as (a & m & E & L2 & PE & HQ); try lia; auto.
    rewrite E. cbn [bind fst snd]. exists a, m. split; auto. split; [rewrite PE; apply perm_upd; auto|].
    rewrite L2. fold n. split; auto. split; auto. split; [pose proof (Keys a PE L2) as KK; rewrite L2 in KK; exact KK|].
    intros Hh. destruct (Hup Hh Hc) as [U1 U2].
    destruct (up_ok CS TP mf_sub d n (KP n sub) (KQ n sub) (kmove n sub) (kfin n sub) x i l i sub)
      as (a' & m' & E' & L2' & PE' & Hh' & _); try lia; auto.
    rewrite E in E'. inversion E'; subst a' m'. apply (heap_iff CS d). rewrite L2. auto.
  - destruct (down_ok CS TP mf_sub d n (KP n sub) (KQ n sub) (kmove n sub) (kfin n sub) n x n l i sub)
      as (a & m & E & L2 & PE & _ & _ & HQ); try lia; auto.
    { intros j Hj Hlo. unfold PARENT in Hlo. lia. }
    { intros Hj Hlo. unfold PARENT in Hlo. lia. }
    rewrite E. cbn [bind fst snd]. exists a, m. split; auto. split; [rewrite PE; apply perm_upd; auto|].
    rewrite L2. fold n. split; auto. split; auto. split; [pose proof (Keys a PE L2) as KK; rewrite L2 in KK; exact KK|].
    intros Hh. apply (heap_iff CS d) in Hh.
    destruct (down_ok CS TP mf_sub d n (KP n sub) (KQ n sub) (kmove n sub) (kfin n sub) 0 x n l i sub)
      as (a' & m' & E' & L2' & PE' & _ & Hh' & _); try lia; auto.
    + intros j Hj _ Hp. rewrite !E0. destruct (Nat.eqb_spec (PARENT j) i); [congruence|].
      destruct (Nat.eqb_spec j i) as [Eik|]; [|apply Hh; unfold n in *; lia]. subst j.
      apply (cmp_trans CS TP _ (at_ l i)); [|apply Hh; unfold n in *; lia]. pose proof (tp_anti _ TP (at_ l i) x). lia.
    + intros Hk0 _ c Hci Hpc. rewrite !E0.
      destruct (Nat.eqb_spec c i); [unfold PARENT in *; lia|]. destruct (Nat.eqb_spec (PARENT i) i); [unfold PARENT in *; lia|].
      pose proof (Hh c Hci ltac:(lia)) as A1. rewrite Hpc in A1. pose proof (Hh i ltac:(unfold n in *; lia) ltac:(lia)) as A2.
      eapply (cmp_trans CS TP); eauto.
    + rewrite E in E'. inversion E'; subst a' m'. apply (heap_iff CS d). rewrite L2. auto.
Qed.

Lemma kremove l sub i : slots (length l) l sub -> (i < length l)%nat ->
  exists a sub', heap_Remove CS mf_sub l sub i = Ok (a, sub', true) /\
    Permutation (at_ l i :: a) l /\ slots (length a) a sub' /\ length sub' = length sub /\
    (forall x, (forall j, (j < length l)%nat -> key l j <> x) -> nth_error sub' x = nth_error sub x) /\
    (heap_ordered CS l -> i = 0%nat -> heap_ordered CS a).
Proof.
  intros Hs Hi. unfold heap_Remove. destruct (Nat.leb_spec (length l) i); [lia|].
  set (n := (length l - 1)%nat) in *. assert (Hn : length l = S n) by lia. clearbody n. rewrite Hn in *.
  assert (RM : forall a2 : list pr, length a2 = S n -> remove_at a2 (length a2 - 1) = Ok (firstn n a2)).
  { intros a2 L2. unfold remove_at. rewrite L2. replace (S n - 1)%nat with n by lia.
    destruct (Nat.ltb_spec n (S n)); [|lia]. rewrite skipn_all2 by lia. now rewrite app_nil_r. }
  assert (Lf : length (firstn n l) = n) by (rewrite firstn_length; lia).
  assert (Ef : forall (a2 : list pr) j, (j < n)%nat -> length a2 = S n -> at_ (firstn n a2) j = at_ a2 j).
  { intros a2 j Hj L2. rewrite (firstn_last d a2 n) at 2 by auto. rewrite app_nth1; auto. rewrite firstn_length. lia. }
  destruct (Nat.ltb_spec 1 (S n)) as [Hn1|Hn1].
  2:{ assert (n = 0%nat) by lia. subst n. assert (i = 0%nat) by lia. subst i. cbn [bind fst snd].
    rewrite RM by auto. cbn [bind firstn]. exists [], sub. split; auto.
    destruct l as [|x [|y l]]; cbn in Hn; try lia. cbn. split; auto. split; [intros j Hj; cbn in Hj; lia|].
    split; auto. split; auto. intros _ _ q p c Hp. destruct q; discriminate. }
  rewrite (get_nth l n d) by lia. cbn [bind]. replace (S n - 1)%nat with n by lia.
  destruct (Nat.eq_dec i n) as [->|Hin].
  - assert (E : PercolateDown CS mf_sub (S n) l sub n n (at_ l n) = Ok (l, sub)).
    { cbn [PercolateDown]. unfold RIGHT. destruct (Nat.ltb_spec (2 * n + 2) n); [lia|].
      destruct (Nat.ltb_spec (2 * n + 2 - 1) n); [lia|]. unfold put. rewrite set_ok by lia. cbn [bind].
      rewrite upd_same by (apply nth_error_nth'; lia). unfold mf_sub.
      pose proof (Hs n ltac:(lia)) as A. rewrite set_ok by (eapply nth_error_lt; eauto). cbn [bind].
      rewrite upd_same; auto. }
    rewrite E. cbn [bind fst snd]. rewrite RM by auto. cbn [bind]. exists (firstn n l), sub. split; auto.
    split; [rewrite (firstn_last d l n) at 3 by auto; rewrite Permutation_app_comm; reflexivity|].
    rewrite Lf. split; [intros j Hj; rewrite Ef by auto; apply Hs; lia|]. split; auto. split; auto. intros; lia.
  - set (x := at_ l n).
    assert (E0 : forall j, at_ (upd l i x) j = if Nat.eqb j i then x else at_ l j) by (intros; now rewrite nth_upd by lia).
    assert (HP : KP n sub (upd l i x) i sub).
    { repeat split; auto.
      - intros j Hj Hne. rewrite E0. destruct (Nat.eqb_spec j i); [congruence|]. apply Hs. lia.
      - intros j Hj Hne C. rewrite !E0, Nat.eqb_refl in C. destruct (Nat.eqb_spec j i); [congruence|].
        assert (j = n); [|lia]. eapply slots_inj; eauto; lia.
      - rewrite E0, Nat.eqb_refl. unfold x. pose proof (Hs n ltac:(lia)) as A. eapply nth_error_lt; eauto. }
    destruct (down_ok CS TP mf_sub d n (KP n sub) (KQ n sub) (kmove n sub) (kfin n sub) n x (S n) l i sub)
      as (a & m & E & L2 & PE & Hout & _ & (HQ1 & HQ2 & HQ3)); try lia; auto.
    { intros j Hj Hlo. unfold PARENT in Hlo. lia. }
    { intros Hj Hlo. unfold PARENT in Hlo. lia. }
    rewrite E. cbn [bind fst snd]. rewrite RM by lia. cbn [bind]. exists (firstn n a), m. split; auto.
    assert (Lfa : length (firstn n a) = n) by (rewrite firstn_length; lia). rewrite Lfa.
    split.
    { apply (Permutation_cons_inv (a := x)). rewrite perm_swap.
      transitivity (at_ l i :: upd l i x); [|apply perm_upd; lia].
      apply perm_skip. rewrite <- PE. rewrite (firstn_last d a n) at 2 by lia. rewrite Hout by lia.
      rewrite Permutation_app_comm. reflexivity. }
    split; [intros j Hj; rewrite Ef by (auto; lia); now apply HQ1|]. split; auto. split.
    + intros y Hy. apply HQ3. intros j Hj.
      assert (Hin2 : In (at_ a j) l).
      { assert (In (at_ a j) (upd l i x)) as H1 by (apply (Permutation_in _ PE); apply nth_In; lia).
        apply (In_nth _ _ d) in H1. destruct H1 as (q & Hq & Eq). rewrite upd_length in Hq. rewrite E0 in Eq.
        destruct (Nat.eqb_spec q i); rewrite <- Eq; [unfold x|]; apply nth_In; lia. }
      apply (In_nth _ _ d) in Hin2. destruct Hin2 as (q & Hq & Eq). rewrite <- Eq. apply Hy. lia.
    + intros Hh ->. apply (heap_iff CS d) in Hh. rewrite Hn in Hh.
      destruct (down_ok CS TP mf_sub d n (KP n sub) (KQ n sub) (kmove n sub) (kfin n sub) 0 x (S n) l 0 sub)
        as (a' & m' & E' & L2' & PE' & _ & Hh' & _); try lia; auto.
      * intros j Hj _ Hp. rewrite !E0. destruct (Nat.eqb_spec (PARENT j) 0); [congruence|].
        destruct (Nat.eqb_spec j 0) as [Eik|]; [lia|]. apply Hh; lia.
      * rewrite E in E'. inversion E'; subst a' m'. apply (heap_iff CS d). rewrite Lfa.
        intros j Hj Hlo. rewrite !Ef by (try lia; unfold PARENT; lia). apply Hh'; auto.
Qed.

(* ---- the free list ---- *)
Inductive chain (sub : list Z) : Z -> list nat -> Prop :=
| ch_nil : chain sub (-1) []
| ch_cons f nx r : nth_error sub f = Some nx -> chain sub nx r -> chain sub (Z.of_nat f) (f :: r).

Lemma chain_frame sub sub' z fs : chain sub z fs -> (forall f, In f fs -> nth_error sub' f = nth_error sub f) -> chain sub' z fs.
Proof.
  induction 1; intros F; [constructor|]. econstructor.
  - rewrite F; [eauto|now left].
  - apply IHchain. intros; apply F; now right.
Qed.

Lemma initFree_ok : forall t sub free i fs, (i + t = length sub)%nat -> chain sub free fs ->
  (forall f, In f fs -> (f < i)%nat) -> NoDup fs ->
  exists sub' free' fs', initFreeList t sub free i = Ok (sub', free') /\ length sub' = length sub /\
    (forall j, (j < i)%nat -> nth_error sub' j = nth_error sub j) /\
    chain sub' free' fs' /\ NoDup fs' /\ (forall f, In f fs' -> In f fs \/ (i <= f)%nat) /\ (t <> 0%nat -> fs' <> []).
Proof.
  induction t as [|t IH]; intros sub free i fs Hl Hc Hf Hnd.
  - exists sub, free, fs. cbn. repeat split; auto.
  - cbn [initFreeList]. rewrite set_ok by lia. cbn [bind].
    destruct (IH (upd sub i free) (Z.of_nat i) (S i) (i :: fs)) as (sub' & free' & fs' & E & L & F & C & N & S1 & S2).
    + rewrite upd_length. lia.
    + econstructor; [apply nth_error_upd_eq; lia|]. eapply chain_frame; eauto.
      intros f Hin. specialize (Hf f Hin). apply nth_error_upd_neq. lia.
    + intros f [->|Hin]; [lia|]. specialize (Hf f Hin). lia.
    + constructor; auto. intros Hin. specialize (Hf i Hin). lia.
    + exists sub', free', fs'. split; auto. rewrite upd_length in L. split; auto. split.
      { intros j Hj. rewrite F by lia. apply nth_error_upd_neq. lia. }
      split; auto. split; auto. split.
      { intros f Hin. destruct (S1 f Hin) as [[->|H]|H]; [right; lia|now left|right; lia]. }
      intros _. destruct t; [|apply S2; lia]. cbn in E. inversion E; subst. inversion C; subst; [lia|]. congruence.
Qed.

Definition good (s : ph (D := D)) (fs : list nat) : Prop :=
  slots (length (ph_heap s)) (ph_heap s) (ph_sub s) /\ chain (ph_sub s) (ph_free s) fs /\ NoDup fs /\
  (forall f, In f fs -> forall j, (j < length (ph_heap s))%nat -> key (ph_heap s) j <> f).

Lemma chain_lt sub z fs : chain sub z fs -> forall f, In f fs -> (f < length sub)%nat.
Proof. induction 1; intros g [].
  - subst. eapply nth_error_lt; eauto.
  - auto.
Qed.

Lemma good_init : good ph_init [].
Proof. split; [intros j Hj; cbn in Hj; lia|]. split; [constructor|]. split; [constructor|]. intros f []. Qed.

Lemma getNext_ok s fs : good s fs ->
  exists sub' free' k fs', getNext (ph_sub s) (ph_free s) = Ok (sub', free', k) /\
    slots (length (ph_heap s)) (ph_heap s) sub' /\ (k < length sub')%nat /\ chain sub' free' fs' /\ NoDup (k :: fs') /\
    (forall f, In f (k :: fs') -> forall j, (j < length (ph_heap s))%nat -> key (ph_heap s) j <> f).
Proof.
  intros (Hs & Hc & Hnd & Hf). unfold getNext.
  assert (Fin : forall sub free fs', slots (length (ph_heap s)) (ph_heap s) sub -> chain sub free fs' -> fs' <> [] -> NoDup fs' ->
    (forall f, In f fs' -> forall j, (j < length (ph_heap s))%nat -> key (ph_heap s) j <> f) ->
    exists sub' free' k fs', (let r := snd (sub, free) in if r <? 0 then UB else do nx <- get (fst (sub, free)) (Z.to_nat r); Ok (fst (sub, free), nx, Z.to_nat r)) = Ok (sub', free', k) /\
    slots (length (ph_heap s)) (ph_heap s) sub' /\ (k < length sub')%nat /\ chain sub' free' fs' /\ NoDup (k :: fs') /\
    (forall f, In f (k :: fs') -> forall j, (j < length (ph_heap s))%nat -> key (ph_heap s) j <> f)).
  { intros sub free fs' H1 H2 H3 H4 H5. inversion H2; subst; [congruence|]. cbn [fst snd].
    destruct (Z.ltb_spec (Z.of_nat f) 0); [lia|]. rewrite Nat2Z.id, (get_some _ _ _ H). cbn [bind].
    exists sub, nx, f, r. split; auto. split; auto. split; [eapply nth_error_lt; eauto|]. auto. }
  destruct (Z.eqb_spec (ph_free s) (-1)) as [E|E].
  - rewrite E in *. assert (fs = []) by (inversion Hc; subst; [auto|lia]). subst fs.
    pose proof (fbnext_nat_gt (length (ph_sub s))) as G.
    set (t := (fbnext_nat (length (ph_sub s)) - length (ph_sub s))%nat) in *. assert (t <> 0%nat) by lia.
    destruct (initFree_ok t (ph_sub s ++ repeat 0 t) (-1) (length (ph_sub s)) []) as (sub' & free' & fs' & Ei & L & F & C & N & S1 & S2).
    + rewrite app_length, repeat_length. lia.
    + constructor.
    + intros f [].
    + constructor.
    + rewrite Ei. cbn [bind]. apply Fin with (fs' := fs'); auto.
      * intros j Hj. specialize (Hs j Hj). rewrite F by (eapply nth_error_lt; eauto).
        rewrite nth_error_app1 by (eapply nth_error_lt; eauto). auto.
      * intros f Hin j Hj C2. specialize (Hs j Hj). rewrite C2 in Hs. apply nth_error_lt in Hs.
        destruct (S1 f Hin) as [[]|]; lia.
  - cbn [bind]. apply Fin with (fs' := fs); auto. inversion Hc; subst; congruence.
Qed.

Lemma perm_keys (a b : list pr) y : Permutation a b -> (forall j, (j < length b)%nat -> key b j <> y) -> forall j, (j < length a)%nat -> key a j <> y.
Proof.
  intros P H j Hj. assert (I : In (at_ a j) b) by (apply (Permutation_in _ P); now apply nth_In).
  apply (In_nth _ _ d) in I. destruct I as (q & Hq & Eq). rewrite <- Eq. auto.
Qed.

Lemma push_ok s fs v : good s fs ->
  exists s' k fs', ph_Push cmp d s v = Ok (s', k) /\ good s' fs' /\ (forall j, (j < length (ph_heap s))%nat -> key (ph_heap s) j <> k) /\
    Permutation (ph_heap s') ((k, v) :: ph_heap s) /\ (heap_ordered CS (ph_heap s) -> heap_ordered CS (ph_heap s')).
Proof.
  intros G. unfold ph_Push. destruct (getNext_ok s fs G) as (sub & free & k & fs' & E & Hs & Hk & Hc & Hnd & Hf).
  rewrite E. cbn [bind fst snd].
  destruct (kinsert (ph_heap s) sub k v Hs Hk) as (a & sub' & E2 & P & (Q1 & Q2 & Q3) & Ho).
  { apply Hf. now left. }
  rewrite E2. cbn [bind fst snd]. exists (mkph a sub' free), k, fs'. split; auto. cbn [ph_heap ph_sub ph_free].
  assert (Fr : forall f, In f fs' -> forall j, (j < length a)%nat -> key a j <> f).
  { intros f Hin. apply (perm_keys a ((k, v) :: ph_heap s) f P). intros [|j] Hj; cbn.
    - inversion Hnd; subst. intros ->. contradiction.
    - apply Hf; [now right|]. cbn in Hj. lia. }
  split; [|split; [apply Hf; now left|auto]].
  split; auto. split; [|inversion Hnd; auto]. cbn. eapply chain_frame; eauto.
Qed.

Lemma sub_index_ok s fs j : good s fs -> (j < length (ph_heap s))%nat -> sub_index (ph_sub s) (key (ph_heap s) j) = Ok j.
Proof.
  intros (Hs & _) Hj. unfold sub_index. rewrite (get_some _ _ _ (Hs j Hj)). cbn [bind].
  destruct (Z.ltb_spec (Z.of_nat j) 0); [lia|]. now rewrite Nat2Z.id.
Qed.

Lemma remove_gen s fs j : good s fs -> (j < length (ph_heap s))%nat ->
  exists a sub', heap_Remove CS mf_sub (ph_heap s) (ph_sub s) j = Ok (a, sub', true) /\ good (mkph a sub' (ph_free s)) fs /\
    Permutation (at_ (ph_heap s) j :: a) (ph_heap s) /\ (heap_ordered CS (ph_heap s) -> j = 0%nat -> heap_ordered CS a).
Proof.
  intros (Hs & Hc & Hnd & Hf) Hj.
  destruct (kremove (ph_heap s) (ph_sub s) j Hs Hj) as (a & sub' & E & P & Q1 & Q2 & Q3 & Ho).
  exists a, sub'. split; auto. split; [|auto]. split; auto. cbn. split; [eapply chain_frame; eauto|]. split; auto.
  intros f Hin q Hq. apply (perm_keys (at_ (ph_heap s) j :: a) (ph_heap s) f P (Hf f Hin) (S q)). cbn. lia.
Qed.
End K.
