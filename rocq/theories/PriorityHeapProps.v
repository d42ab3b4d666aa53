(* Property C24: PriorityHeap keys. *)
From Coq Require Import List ZArith Bool Permutation Lia Arith.
From Coq Require Import ZifyBool ZifyNat.
From Verif Require Import Common OrderSpec OrderProofs ArraySort ArraySortProofs Heap HeapSpec HeapProofs HeapOpsProofs PriorityHeap PriorityHeapProofs.
Import ListNotations.
Local Open Scope Z_scope.

Section C24.
Context {D : Type} (cmp : D -> D -> Z) (dflt : nat * D).

Definition assign (m : nat -> option D) (k : nat) (x : option D) : nat -> option D :=
  fun j => if Nat.eq_dec j k then x else m j.

(* A run of public calls on live keys, and the association of keys with values that a client
   keeping notes would expect at that point.  Pop's victim is the entry on top of the heap. *)
Inductive tracks : ph -> (nat -> option D) -> Prop :=
| t_init : tracks ph_init (fun _ => None)
| t_push s m v s' k : tracks s m -> ph_Push cmp dflt s v = Ok (s', k) -> tracks s' (assign m k (Some v))
| t_pop s m s' v k w : tracks s m -> ph_Pop cmp s = Ok (s', v) -> nth_error (ph_heap s) 0 = Some (k, w) -> tracks s' (assign m k None)
| t_remove s m k s' b : tracks s m -> m k <> None -> ph_Remove cmp s k = Ok (s', b) -> tracks s' (assign m k None)
| t_set s m k v s' b : tracks s m -> m k <> None -> ph_Set cmp s k v = Ok (s', b) -> tracks s' (assign m k (Some v))
| t_clear s m : tracks s m -> tracks (ph_Clear s) (fun _ => None).

Definition agrees (s : ph) (m : nat -> option D) : Prop := forall k v, m k = Some v <-> In (k, v) (ph_heap s).

Notation key V j := (fst (nth j V dflt)).

Section P.
Context (TP : total_preorder cmp).

Lemma in_heap_index s (k : nat) (v : D) : In (k, v) (ph_heap s) ->
  exists j, (j < length (ph_heap s))%nat /\ nth j (ph_heap s) dflt = (k, v).
Proof. intros H. apply (In_nth _ _ dflt) in H. destruct H as (q & ? & ?). eauto. Qed.

Lemma keys_unique s fs k v w : good dflt s fs -> In (k, v) (ph_heap s) -> In (k, w) (ph_heap s) -> v = w.
Proof.
  intros (Hs & _) Hv Hw. destruct (in_heap_index s k v Hv) as (i & Hi & Ei). destruct (in_heap_index s k w Hw) as (j & Hj & Ej).
  assert (i = j); [|congruence].
  eapply (slots_inj dflt _ (ph_heap s) (ph_sub s)); eauto. now rewrite Ei, Ej.
Qed.

Lemma not_live s (k : nat) : (forall j, (j < length (ph_heap s))%nat -> key (ph_heap s) j <> k) <-> forall v, ~ In (k, v) (ph_heap s).
Proof.
  split.
  - intros H v Hin. destruct (in_heap_index s k v Hin) as (j & Hj & Ej). apply (H j Hj). now rewrite Ej.
  - intros H j Hj C. apply (H (snd (nth j (ph_heap s) dflt))). rewrite <- C. rewrite <- surjective_pairing. now apply nth_In.
Qed.

(* effect of dropping the entry (k, w) *)
Lemma drop_agrees s fs m k w a : good dflt s fs -> agrees s m -> Permutation ((k, w) :: a) (ph_heap s) ->
  forall k' v', assign m k None k' = Some v' <-> In (k', v') a.
Proof.
  intros G A P k' v'. unfold assign. assert (Hin : In (k, w) (ph_heap s)) by (apply (Permutation_in _ P); now left).
  assert (ND : NoDup (map fst (ph_heap s))).
  { apply (NoDup_nth _ (fst dflt)). rewrite map_length. intros i j Hi Hj E. rewrite !map_nth in E.
    eapply (slots_inj dflt); eauto. destruct G as (Hs & _). eauto. }
  rewrite <- P in ND. cbn in ND. inversion ND; subst.
  destruct (Nat.eq_dec k' k) as [->|Hk].
  - split; [discriminate|]. intros Ha. exfalso. apply H1. change k with (fst (k, v')). now apply in_map.
  - rewrite (A k' v'). split; intros Ha.
    + apply (Permutation_in _ (Permutation_sym P)) in Ha. destruct Ha as [Ha|]; auto. inversion Ha; congruence.
    + apply (Permutation_in _ P). now right.
Qed.

Lemma pop_eq s fs : good dflt s fs -> ph_heap s <> [] ->
  exists s' v k, ph_Pop cmp s = Ok (s', v) /\ nth_error (ph_heap s) 0 = Some (k, v) /\ good dflt s' fs /\
    Permutation ((k, v) :: ph_heap s') (ph_heap s) /\
    (heap_ordered (comp_second cmp) (ph_heap s) -> heap_ordered (comp_second cmp) (ph_heap s')).
Proof.
  intros G Hne. destruct (ph_heap s) as [|[k v] l] eqn:E; [congruence|].
  destruct (remove_gen cmp TP dflt s fs 0 G) as (a & sub' & E2 & G2 & P & Ho); [rewrite E; cbn; lia|].
  unfold ph_Pop, heap_Pop. rewrite E in *. cbn [get nth_error bind]. rewrite E2. cbn [bind fst snd].
  exists (mkph a sub' (ph_free s)), v, k. cbn [ph_heap]. split; auto.
Qed.

Lemma live_index s fs m k v : good dflt s fs -> agrees s m -> m k = Some v ->
  exists j, (j < length (ph_heap s))%nat /\ nth j (ph_heap s) dflt = (k, v) /\ sub_index (ph_sub s) k = Ok j.
Proof.
  intros G A Hk. apply A in Hk. destruct (in_heap_index s k v Hk) as (j & Hj & Ej). exists j. split; auto. split; auto.
  pose proof (sub_index_ok dflt s fs j G Hj) as E. rewrite Ej in E. exact E.
Qed.

Lemma remove_eq s fs m k v : good dflt s fs -> agrees s m -> m k = Some v ->
  exists s', ph_Remove cmp s k = Ok (s', true) /\ good dflt s' fs /\ Permutation ((k, v) :: ph_heap s') (ph_heap s).
Proof.
  intros G A Hk. destruct (live_index s fs m k v G A Hk) as (j & Hj & Ej & Ei).
  destruct (remove_gen cmp TP dflt s fs j G Hj) as (a & sub' & E2 & G2 & P & _).
  unfold ph_Remove. rewrite Ei. cbn [bind]. rewrite E2. cbn [bind fst snd]. rewrite Ej in P. eauto.
Qed.

Lemma set_eq s fs m k v w : good dflt s fs -> agrees s m -> m k = Some w ->
  exists s', ph_Set cmp s k v = Ok (s', true) /\ good dflt s' fs /\ Permutation ((k, w) :: ph_heap s') ((k, v) :: ph_heap s) /\
    (heap_ordered (comp_second cmp) (ph_heap s) -> heap_ordered (comp_second cmp) (ph_heap s')).
Proof.
  intros G A Hk. destruct (live_index s fs m k w G A Hk) as (j & Hj & Ej & Ei).
  destruct G as (Hs & Hc & Hnd & Hf).
  destruct (kset cmp TP dflt (ph_heap s) (ph_sub s) j v Hs Hj) as (a & sub' & E2 & P & (Q1 & Q2 & Q3) & L & K & Ho).
  rewrite Ej in *. cbn [fst] in *.
  unfold ph_Set. rewrite Ei. cbn [bind]. rewrite E2. cbn [bind fst snd].
  exists (mkph a sub' (ph_free s)). split; auto. split; [|auto]. split; auto. cbn.
  assert (Fr : forall f, In f fs -> forall j, (j < length a)%nat -> key a j <> f) by (intros f Hin; apply K; auto).
  split; [eapply chain_frame; eauto|]. auto.
Qed.

Lemma tracks_good s m : tracks s m -> (exists fs, good dflt s fs) /\ agrees s m.
Proof.
  induction 1 as [|s m v s' k Ht ((fs & G) & A) E|s m s' v k w Ht ((fs & G) & A) E Hk|s m k s' b Ht ((fs & G) & A) Hk E|s m k v s' b Ht ((fs & G) & A) Hk E|s m Ht ((fs & G) & A)].
  - split; [exists []; apply good_init|]. intros k v. cbn. split; [discriminate|tauto].
  - destruct (push_ok cmp TP dflt s fs v G) as (s1 & k1 & fs1 & E1 & G1 & F1 & P & _).
    rewrite E1 in E. inversion E; subst s1 k1. split; eauto.
    intros k' v'. unfold assign. destruct (Nat.eq_dec k' k) as [->|Hn].
    + split.
      * intros H. inversion H; subst. apply (Permutation_in _ (Permutation_sym P)). now left.
      * intros H. apply (Permutation_in _ P) in H. destruct H as [H|H]; [congruence|].
        exfalso. apply (proj1 (not_live s k) F1 _ H).
    + rewrite (A k' v'). split; intros H.
      * apply (Permutation_in _ (Permutation_sym P)). now right.
      * apply (Permutation_in _ P) in H. destruct H as [H|H]; auto. inversion H; congruence.
  - destruct (pop_eq s fs G) as (s1 & v1 & k1 & E1 & Hk1 & G1 & P & _).
    { destruct (ph_heap s); discriminate. }
    rewrite E1 in E. inversion E; subst s1 v1. rewrite Hk1 in Hk. inversion Hk; subst k1 w. split; eauto.
    intros k' v'. exact (drop_agrees s fs m _ _ _ G A P k' v').
  - destruct (m k) as [v|] eqn:Ek; [|congruence]. destruct (remove_eq s fs m k v G A Ek) as (s1 & E1 & G1 & P).
    rewrite E1 in E. inversion E; subst s1. split; eauto. intros k' v'. exact (drop_agrees s fs m _ _ _ G A P k' v').
  - destruct (m k) as [w|] eqn:Ek; [|congruence]. destruct (set_eq s fs m k v w G A Ek) as (s1 & E1 & G1 & P & _).
    rewrite E1 in E. inversion E; subst s1. split; eauto.
    intros k' v'. unfold assign. destruct (Nat.eq_dec k' k) as [->|Hn].
    + assert (I : In (k, v) (ph_heap s')).
      { assert (I : In (k, v) ((k, w) :: ph_heap s')) by (apply (Permutation_in _ (Permutation_sym P)); now left).
        destruct I as [I|]; auto. inversion I; subst w.
        apply Permutation_cons_inv in P. apply (Permutation_in _ (Permutation_sym P)). now apply A. }
      split; intros H.
      * inversion H; now subst.
      * f_equal. symmetry. eapply keys_unique; eauto.
    + rewrite (A k' v'). split; intros H.
      * assert (I : In (k', v') ((k, w) :: ph_heap s')) by (apply (Permutation_in _ (Permutation_sym P)); now right).
        destruct I as [I|]; auto. inversion I; congruence.
      * assert (I : In (k', v') ((k, v) :: ph_heap s)) by (apply (Permutation_in _ P); now right).
        destruct I as [I|]; auto. inversion I; congruence.
  - split.
    + exists fs. destruct G as (Hs & Hc & Hnd & Hf). split; [intros j Hj; cbn in Hj; lia|]. split; auto. split; auto.
      intros f Hin j Hj. cbn in Hj. lia.
    + intros k v. cbn. split; [discriminate|tauto].
Qed.
End P.

(* Get of a live key returns the value last associated with it; the stored entries are exactly the
   live associations *)
Theorem C24_PriorityHeap_Get :
  total_preorder cmp ->
  forall s m, tracks s m ->
  (forall k v, m k = Some v -> ph_Get s k = Ok v) /\
  (forall k v, In (k, v) (ph_heap s) <-> m k = Some v) /\ NoDup (map fst (ph_heap s)).
Proof.
  intros TP s m Ht. destruct (tracks_good TP s m Ht) as [(fs & G) A]. split; [|split].
  - intros k v Hk. destruct (live_index s fs m k v G A Hk) as (j & Hj & Ej & Ei).
    unfold ph_Get. rewrite Ei. cbn [bind]. rewrite (get_nth _ j dflt) by auto. cbn [bind]. now rewrite Ej.
  - intros k v. symmetry. apply A.
  - apply (NoDup_nth _ (fst dflt)). rewrite map_length. intros i j Hi Hj E. rewrite !map_nth in E.
    destruct G as (Hs & _). eapply (slots_inj dflt); eauto.
Qed.

(* every call on live keys succeeds: Push hands out a key that is not live, Pop delivers the value of
   the live key it retires, Remove and Set report success *)
Theorem C24_PriorityHeap_total :
  total_preorder cmp ->
  forall s m, tracks s m ->
  (forall v, exists s' k, ph_Push cmp dflt s v = Ok (s', k) /\ m k = None) /\
  (ph_heap s <> [] -> exists s' v k, ph_Pop cmp s = Ok (s', v) /\ nth_error (ph_heap s) 0 = Some (k, v) /\ m k = Some v) /\
  (forall k, m k <> None -> exists s', ph_Remove cmp s k = Ok (s', true)) /\
  (forall k v, m k <> None -> exists s', ph_Set cmp s k v = Ok (s', true)).
Proof.
  intros TP s m Ht. destruct (tracks_good TP s m Ht) as [(fs & G) A]. repeat split.
  - intros v. destruct (push_ok cmp TP dflt s fs v G) as (s1 & k1 & fs1 & E1 & _ & F1 & _). exists s1, k1. split; auto.
    destruct (m k1) as [w|] eqn:Ek; auto. apply A in Ek. exfalso. apply (proj1 (not_live s k1) F1 _ Ek).
  - intros Hne. destruct (pop_eq TP s fs G Hne) as (s1 & v1 & k1 & E1 & Hk1 & _). exists s1, v1, k1. split; auto. split; auto.
    apply A. eapply nth_error_In; eauto.
  - intros k Hk. destruct (m k) as [v|] eqn:Ek; [|congruence]. destruct (remove_eq TP s fs m k v G A Ek) as (s1 & E1 & _). eauto.
  - intros k v Hk. destruct (m k) as [w|] eqn:Ek; [|congruence]. destruct (set_eq TP s fs m k v w G A Ek) as (s1 & E1 & _). eauto.
Qed.

(* Push, Set and Pop keep the heap order (Remove of an arbitrary key does not, see C23), and in a
   heap-ordered state Pop delivers a maximum *)
Theorem C24_PriorityHeap_order :
  total_preorder cmp ->
  forall s m, tracks s m -> heap_ordered (comp_second cmp) (ph_heap s) ->
  (forall v s' k, ph_Push cmp dflt s v = Ok (s', k) -> heap_ordered (comp_second cmp) (ph_heap s')) /\
  (forall k v s' b, m k <> None -> ph_Set cmp s k v = Ok (s', b) -> heap_ordered (comp_second cmp) (ph_heap s')) /\
  (forall s' v, ph_Pop cmp s = Ok (s', v) -> heap_ordered (comp_second cmp) (ph_heap s') /\
     forall k w, m k = Some w -> cmp w v <= 0).
Proof.
  intros TP s m Ht Hh. destruct (tracks_good TP s m Ht) as [(fs & G) A]. repeat split.
  - intros v s' k E. destruct (push_ok cmp TP dflt s fs v G) as (s1 & k1 & fs1 & E1 & _ & _ & _ & Ho). rewrite E1 in E. inversion E; subst. auto.
  - intros k v s' b Hk E. destruct (m k) as [w|] eqn:Ek; [|congruence]. destruct (set_eq TP s fs m k v w G A Ek) as (s1 & E1 & _ & _ & Ho).
    rewrite E1 in E. inversion E; subst. auto.
  - assert (Hne : ph_heap s <> []) by (intros C; unfold ph_Pop, heap_Pop in H; rewrite C in H; discriminate).
    destruct (pop_eq TP s fs G Hne) as (s1 & v1 & k1 & E1 & _ & _ & _ & Ho). rewrite E1 in H. inversion H; subst. auto.
  - intros k w Hk. assert (Hne : ph_heap s <> []) by (intros C; unfold ph_Pop, heap_Pop in H; rewrite C in H; discriminate).
    destruct (pop_eq TP s fs G Hne) as (s1 & v1 & k1 & E1 & H0 & _). rewrite E1 in H. inversion H; subst.
    destruct (root_is_max (comp_second cmp) (comp_second_preorder cmp TP) dflt (ph_heap s) Hh Hne) as (r & Hr & _ & Hm).
    rewrite H0 in Hr. inversion Hr; subst r. apply A in Hk. exact (Hm _ Hk).
Qed.
End C24.
Print Assumptions C24_PriorityHeap_Get.
Print Assumptions C24_PriorityHeap_total.
Print Assumptions C24_PriorityHeap_order.

(* Outside the claim: a stale key (already popped) reaches another element. *)
Theorem C24_stale_key_aliases :
  exists ops (s : ph (D := Z)), run (ph_step zcmp (0%nat, 0)) ph_init ops = Ok s /\
    exists k, ~ In k (map fst (ph_heap s)) /\ exists s', ph_Remove zcmp s k = Ok (s', true).
Proof.
  exists [PPush 5; PPush 9; PPop].
  eexists. split; [vm_compute; reflexivity|]. exists 1%nat. split; [cbn; lia|]. eexists. vm_compute. reflexivity.
Qed.
Print Assumptions C24_stale_key_aliases.

Example C24_example :
  run (ph_step zcmp (0%nat, 0)) ph_init [PPush 5; PPush 9; PPush 7; PPush 1; PSet 2 10; PRemove 1]
    = Ok (mkph [(2%nat, 10); (0%nat, 5); (3%nat, 7)] [1; 1; 0; 2] (-1)).
Proof. vm_compute. reflexivity. Qed.
