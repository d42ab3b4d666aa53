(* Properties C19 (ArraySort) and C20 (Map). *)
From Coq Require Import List ZArith Bool Permutation Lia.
From Coq Require Import ZifyBool ZifyNat.
From Verif Require Import Common OrderSpec OrderProofs Search SearchProofs SearchProps ArraySort ArraySortProofs.
Import ListNotations.
Local Open Scope Z_scope.

(* ---- specification: what each call means for the multiset of stored values ---- *)
Definition as_effect {A} (o : @as_op A) (l l' : list A) : Prop :=
  match o with
  | AInsert x => Permutation l' (x :: l)
  | ARemove i => match nth_error l i with
                 | Some y => Permutation (y :: l') l
                 | None => l' = l
                 end
  | AReplace i x => exists y, nth_error l i = Some y /\ Permutation (y :: l') (x :: l)
  | AClear => l' = []
  | ADiscard n => l' = firstn (length l - n) l
  end.
(* the only precondition: ReplaceData needs an existing index *)
Definition as_valid {A} (o : @as_op A) (l : list A) : Prop :=
  match o with AReplace i _ => (i < length l)%nat | _ => True end.

Section C19.
Context {A : Type} (cmp : A -> A -> Z).

Lemma as_step_ok (TP : total_preorder cmp) l o : ascending cmp l -> as_valid o l ->
  exists l', as_step cmp l o = Ok l' /\ ascending cmp l' /\ as_effect o l l'.
Proof.
  intros Hs Hv. destruct o as [x|i|i x| |n]; cbn [as_step as_effect as_valid] in *.
  - destruct (as_Insert_ok cmp TP l x Hs) as (p & q & -> & E & Ha). rewrite E. cbn [bind fst].
    eexists. split; [reflexivity|]. split; auto. symmetry. apply Permutation_middle.
  - destruct (as_Remove_ok cmp l i Hs) as [[H E]|(p & x & q & -> & Hp & E & Ha)]; rewrite E; cbn [bind fst].
    + eexists. split; [reflexivity|]. split; auto. destruct (nth_error l i) eqn:En; auto.
      assert (i < length l)%nat by (apply nth_error_Some; congruence). lia.
    + eexists. split; [reflexivity|]. split; auto. rewrite <- Hp. rewrite nth_error_app_mid. apply Permutation_middle.
  - destruct (nth_error_ex l i Hv) as [y Hy]. destruct (split_at l i y Hy) as (p & q & -> & <-).
    destruct (as_Replace_ok cmp TP p y q x Hs) as (p' & q' & E1 & E2 & E3). rewrite E2. cbn [bind fst].
    eexists. split; [reflexivity|]. split; auto. exists y. split; [apply nth_error_app_mid|].
    transitivity (y :: x :: p' ++ q'). { apply perm_skip. symmetry. apply Permutation_middle. }
    rewrite <- E1. rewrite perm_swap. apply perm_skip. apply Permutation_middle.
  - eexists. split; [reflexivity|]. split; auto. apply asc_nil.
  - eexists. split; [reflexivity|]. unfold as_Discard. destruct (Nat.ltb_spec (length l) n).
    + replace (length l - n)%nat with 0%nat by lia. split; auto. apply asc_nil.
    + split; auto. now apply asc_firstn.
Qed.

(* every reachable ArraySort is sorted, and the calls had exactly their multiset effects *)
Theorem C19_ArraySort_sorted_multiset :
  total_preorder cmp ->
  forall ops l, run (as_step cmp) [] ops = Ok l ->
  ascending cmp l /\ history as_effect ops [] l.
Proof.
  intros TP ops l E.
  apply (run_history (as_step cmp) as_effect (ascending cmp)) with (s := []); auto; [|apply asc_nil].
  intros s o s' Hs Es. destruct o as [x|i|i x| |n]; try
    (match type of Es with as_step _ _ ?o = _ => destruct (as_step_ok TP s o Hs I) as (l' & E1 & E2 & E3) end;
     rewrite E1 in Es; inversion Es; subst; auto; fail).
  destruct (Nat.lt_ge_cases i (length s)) as [Hi|Hi].
  - destruct (as_step_ok TP s (AReplace i x) Hs Hi) as (l' & E1 & E2 & E3).
    rewrite E1 in Es; inversion Es; subst; auto.
  - cbn [as_step] in Es. unfold as_ReplaceData, Common.set in Es.
    destruct (Nat.ltb_spec i (length s)); [lia|discriminate].
Qed.

(* no reachable call with a valid argument touches memory outside the array *)
Theorem C19_ArraySort_total :
  total_preorder cmp ->
  forall l o, ascending cmp l -> as_valid o l ->
  exists l', as_step cmp l o = Ok l' /\ ascending cmp l' /\ as_effect o l l'.
Proof. intros TP l o. apply as_step_ok; auto. Qed.

(* Insert and ReplaceData report where the item now is *)
Theorem C19_ArraySort_reported_index :
  total_preorder cmp ->
  forall l x, ascending cmp l ->
  (exists l' loc, as_Insert cmp l x = Ok (l', loc) /\ nth_error l' loc = Some x) /\
  (forall i, (i < length l)%nat ->
     exists l' loc, as_ReplaceData cmp l i x = Ok (l', loc) /\ nth_error l' loc = Some x).
Proof.
  intros TP l x Hs. split.
  - destruct (as_Insert_ok cmp TP l x Hs) as (p & q & -> & E & _). eexists _, _. split; [exact E|]. apply nth_error_app_mid.
  - intros i Hi. destruct (nth_error_ex l i Hi) as [y Hy]. destruct (split_at l i y Hy) as (p & q & -> & <-).
    destruct (as_Replace_ok cmp TP p y q x Hs) as (p' & q' & _ & E2 & _). eexists _, _. split; [exact E2|]. apply nth_error_app_mid.
Qed.

Theorem C19_ArraySort_Find_iff :
  total_preorder cmp ->
  forall l x, ascending cmp l ->
  exists r, as_Find cmp l x = Ok r /\
   ((exists m y, r = Z.of_nat m /\ nth_error l m = Some y /\ cmp y x = 0) \/
    (r = -1 /\ forall y, In y l -> cmp y x <> 0)).
Proof.
  intros TP l x Hs. unfold as_Find.
  destruct (C18_BinarySearchExact_found_iff cmp TP l x 0 (length l)) as (r & E & R); [lia| |].
  { unfold segment. rewrite Nat.sub_0_r. cbn [skipn]. now rewrite firstn_all. }
  exists r. split; auto. destruct R as [(m & y & R1 & R2 & R3 & R4)|[R1 R2]].
  - left. exists m, y. auto.
  - right. split; auto. intros y Hy. apply In_nth_error in Hy. destruct Hy as [n Hn].
    apply (R2 n y); auto. split; [lia|]. apply nth_error_Some. congruence.
Qed.
End C19.
Print Assumptions C19_ArraySort_sorted_multiset.
Print Assumptions C19_ArraySort_total.
Print Assumptions C19_ArraySort_reported_index.
Print Assumptions C19_ArraySort_Find_iff.

Example C19_example :
  run (as_step zcmp) [] [AInsert 5; AInsert 2; AInsert 5; AInsert 9; AInsert 1; AReplace 4 3; ARemove 0; AInsert 4]
    = Ok [2; 3; 4; 5; 5] /\
  as_Find zcmp [2; 3; 4; 5; 5] 5 = Ok 3 /\ as_Find zcmp [2; 3; 4; 5; 5] 6 = Ok (-1) /\
  as_valid (AReplace 4 3) [1; 2; 5; 5; 9].
Proof. repeat split; vm_compute; reflexivity. Qed.

(* ================= C20 ================= *)
Definition map_effect {K D} (cmp : K -> K -> Z) (o : @map_op K D) (l l' : list (K * D)) : Prop :=
  match o with
  | MInsert k d => Permutation l' ((k, d) :: l)
  | MRemove k => (exists k' d', cmp k k' = 0 /\ Permutation ((k', d') :: l') l) \/
                 ((forall p, In p l -> cmp k (fst p) <> 0) /\ l' = l)
  | MRemoveIndex i => match nth_error l i with Some y => Permutation (y :: l') l | None => l' = l end
  | MSet k d => (exists a k' d' b, l = a ++ (k', d') :: b /\ cmp k k' = 0 /\ l' = a ++ (k', d) :: b) \/
                ((forall p, In p l -> cmp k (fst p) <> 0) /\ l' = l)
  | MReplaceKey i k => match nth_error l i with
                       | Some y => Permutation (y :: l') ((k, snd y) :: l)
                       | None => l' = l
                       end
  | MReplace i k d => exists y, nth_error l i = Some y /\ Permutation (y :: l') ((k, d) :: l)
  | MClear => l' = []
  end.
Definition map_valid {K D} (o : @map_op K D) (l : list (K * D)) : Prop :=
  match o with MReplace i _ _ => (i < length l)%nat | _ => True end.

(* no two entries have equal keys *)
Definition distinct_keys {K D} (cmp : K -> K -> Z) (l : list (K * D)) : Prop :=
  forall i j p q, i <> j -> nth_error l i = Some p -> nth_error l j = Some q -> cmp (fst p) (fst q) <> 0.
(* key is bound to d *)
Definition binds {K D} (cmp : K -> K -> Z) (l : list (K * D)) (key : K) (d : D) : Prop :=
  exists k, In (k, d) l /\ cmp k key = 0.

Section C20.
Context {K D : Type} (cmp : K -> K -> Z).
Notation pcmp := (@pair_cmp K D cmp).

Lemma pair_tp : total_preorder cmp -> total_preorder pcmp.
Proof.
  intros [R1 R2 R3]. split; unfold pair_cmp; intros; eauto.
Qed.

Lemma GetNear_ok (TP : total_preorder cmp) l key : ascending pcmp l ->
  exists r, map_GetNear cmp l key true = Ok r /\
   ((r = -1 /\ forall p, In p l -> cmp key (fst p) <> 0) \/
    (exists a k d b, l = a ++ (k, d) :: b /\ r = Z.of_nat (length a) /\ cmp k key <= 0 /\
       (forall p, In p b -> cmp key (fst p) < 0) /\
       (cmp key k <> 0 -> forall p, In p l -> cmp key (fst p) <> 0))).
Proof.
  intros Hs. unfold map_GetNear.
  destruct (near_count (mapComp cmp) CompT_NEQ (-1) l key 0 (length l)) as (r & E & _ & R1 & R2 & R3); try lia.
  { intros i j x y Hij Hj Hx Hy. unfold CompT_NEQ, mapComp.
    assert (cmp (fst x) (fst y) <= 0) as Hxy by (apply (Hs i j x y); auto; lia).
    pose proof (tp_anti _ TP key (fst x)). pose proof (tp_anti _ TP key (fst y)).
    pose proof (tp_range _ TP key (fst x)). pose proof (tp_range _ TP key (fst y)).
    pose proof (cmp_trans cmp TP (fst x) (fst y) key Hxy). lia. }
  rewrite E. cbn [bind].
  assert (Hgt : forall p, In p (skipn r l) -> cmp key (fst p) < 0).
  { intros p Hp. apply In_nth_error in Hp. destruct Hp as [n Hn]. rewrite nth_error_skipn in Hn.
    assert (r + n < length l)%nat by (apply nth_error_Some; congruence).
    specialize (R3 (r + n)%nat p ltac:(lia) Hn). unfold CompT_NEQ, mapComp in R3.
    pose proof (tp_range _ TP key (fst p)). lia. }
  destruct (Z.ltb_spec (Z.of_nat r - 1) (Z.of_nat (length l))); [|lia].
  eexists. split; [reflexivity|]. destruct r as [|r].
  - left. split; [reflexivity|]. intros p Hp. cbn [skipn] in Hgt. specialize (Hgt p Hp). lia.
  - right. destruct (nth_error_ex l r) as [[k d] Hk]; [lia|].
    destruct (split_at l r _ Hk) as (a & b & -> & Ha). exists a, k, d, b.
    replace (skipn (S r) (a ++ (k, d) :: b)) with b in Hgt.
    2:{ replace (S r) with (length (a ++ [(k, d)])) by (rewrite app_length; cbn; lia).
        change ((k, d) :: b) with ([(k, d)] ++ b). rewrite app_assoc, skipn_app, skipn_all, Nat.sub_diag. reflexivity. }
    split; auto. split; [lia|]. specialize (R2 r (k, d) ltac:(lia) Hk). unfold CompT_NEQ, mapComp in R2. cbn [fst] in R2.
    pose proof (tp_anti _ TP key k). pose proof (tp_range _ TP key k). assert (Hle : cmp k key <= 0) by lia. split; [exact Hle|].
    split; [exact Hgt|]. intros Hne p Hp.
    apply in_app_or in Hp. destruct Hp as [Hp|[<-|Hp]]; auto; [|specialize (Hgt p Hp); lia].
    apply asc_app in Hs. destruct Hs as (_ & _ & Hs). specialize (Hs p (k, d) Hp (or_introl eq_refl)).
    unfold pair_cmp in Hs. cbn [fst] in Hs.
    pose proof (cmp_lt_trans_r cmp TP (fst p) k key Hs). pose proof (tp_anti _ TP key (fst p)). lia.
Qed.

Lemma Get_ok (TP : total_preorder cmp) l key : ascending pcmp l ->
  exists r, map_Get cmp l key = Ok r /\
   ((r = -1 /\ forall p, In p l -> cmp key (fst p) <> 0) \/
    (exists a k d b, l = a ++ (k, d) :: b /\ r = Z.of_nat (length a) /\ cmp key k = 0)).
Proof.
  intros Hs. unfold map_Get. destruct (GetNear_ok TP l key Hs) as (r & E & [[-> H]|(a & k & d & b & -> & -> & H1 & H2 & H3)]); rewrite E; cbn [bind].
  - exists (-1). split; auto.
  - destruct (Z.eqb_spec (Z.of_nat (length a)) (-1)); [lia|]. destruct (Z.ltb_spec (Z.of_nat (length a)) 0); [lia|].
    rewrite Nat2Z.id, get_mid. cbn [bind fst].
    destruct (Z.eqb_spec (cmp key k) 0).
    + eexists. split; [reflexivity|]. right. exists a, k, d, b. auto.
    + exists (-1). split; auto.
Qed.

Lemma asc_set a k d d' b : ascending pcmp (a ++ (k, d) :: b) -> ascending pcmp (a ++ (k, d') :: b).
Proof.
  intros H i j x y Hij Hx Hy.
  assert (G : forall n z, nth_error (a ++ (k, d') :: b) n = Some z ->
     exists z', nth_error (a ++ (k, d) :: b) n = Some z' /\ fst z' = fst z).
  { intros n z Hz. destruct (Nat.lt_ge_cases n (length a)).
    - rewrite nth_error_app1 in * by auto. eauto.
    - rewrite nth_error_app2 in * by auto. destruct (n - length a)%nat; cbn in *; eauto.
      inversion Hz; subst. eexists. split; eauto. }
  destruct (G i x Hx) as (x' & Hx' & Ex). destruct (G j y Hy) as (y' & Hy' & Ey).
  unfold pair_cmp. rewrite <- Ex, <- Ey. apply (H i j x' y'); auto.
Qed.

Lemma map_step_ok (TP : total_preorder cmp) l o : ascending pcmp l -> map_valid o l ->
  exists l', map_step cmp l o = Ok l' /\ ascending pcmp l' /\ map_effect cmp o l l'.
Proof.
  intros Hs Hv. pose proof (pair_tp TP) as TPp. destruct o as [k d|k|i|k d|i k|i k d|]; cbn [map_step map_effect map_valid] in *.
  - destruct (as_Insert_ok pcmp TPp l (k, d) Hs) as (p & q & -> & E & Ha). rewrite E. cbn [bind fst].
    eexists. split; [reflexivity|]. split; auto. symmetry. apply Permutation_middle.
  - unfold map_Remove. destruct (Get_ok TP l k Hs) as (r & E & [[-> H]|(a & k' & d & b & -> & -> & H)]); rewrite E; cbn [bind].
    + eexists. split; [reflexivity|]. split; auto.
    + destruct (Z.ltb_spec (Z.of_nat (length a)) 0); [lia|]. rewrite Nat2Z.id.
      unfold as_Remove. rewrite app_length. cbn [length].
      destruct (Nat.leb_spec (length a + S (length b)) (length a)); [lia|]. rewrite remove_at_ok. cbn [bind fst].
      eexists. split; [reflexivity|]. split; [eapply asc_remove; eauto|]. left. exists k', d. split; auto. apply Permutation_middle.
  - destruct (as_Remove_ok pcmp l i Hs) as [[H E]|(p & x & q & -> & Hp & E & Ha)]; rewrite E; cbn [bind fst].
    + eexists. split; [reflexivity|]. split; auto. destruct (nth_error l i) eqn:En; auto.
      assert (i < length l)%nat by (apply nth_error_Some; congruence). lia.
    + eexists. split; [reflexivity|]. split; auto. rewrite <- Hp. rewrite nth_error_app_mid. apply Permutation_middle.
  - unfold map_Set. destruct (GetNear_ok TP l k Hs) as (r & E & [[-> H]|(a & k' & d' & b & -> & -> & H1 & H2 & H3)]); rewrite E; cbn [bind].
    + eexists. split; [reflexivity|]. split; auto.
    + destruct (Z.eqb_spec (Z.of_nat (length a)) (-1)); [lia|]. destruct (Z.ltb_spec (Z.of_nat (length a)) 0); [lia|].
      rewrite Nat2Z.id, get_mid. cbn [bind fst].
      destruct (Z.eqb_spec (cmp k k') 0).
      * rewrite set_mid. cbn [bind fst]. eexists. split; [reflexivity|]. split; [eapply asc_set; eauto|].
        left. exists a, k', d', b. auto.
      * cbn [fst]. eexists. split; [reflexivity|]. split; auto.
  - unfold map_ReplaceKey. destruct (Nat.leb_spec (length l) i) as [H|H].
    + eexists. split; [reflexivity|]. split; auto. destruct (nth_error l i) eqn:En; auto.
      assert (i < length l)%nat by (apply nth_error_Some; congruence). lia.
    + destruct (nth_error_ex l i H) as [y Hy]. rewrite (get_some _ _ _ Hy). cbn [bind].
      destruct (split_at l i y Hy) as (p & q & -> & <-).
      destruct (as_Replace_ok pcmp TPp p y q (k, snd y) Hs) as (p' & q' & E1 & E2 & E3). rewrite E2. cbn [bind fst].
      eexists. split; [reflexivity|]. split; auto. rewrite nth_error_app_mid.
      transitivity (y :: (k, snd y) :: p' ++ q'). { apply perm_skip. symmetry. apply Permutation_middle. }
      rewrite <- E1. rewrite perm_swap. apply perm_skip. apply Permutation_middle.
  - destruct (nth_error_ex l i Hv) as [y Hy]. destruct (split_at l i y Hy) as (p & q & -> & <-).
    destruct (as_Replace_ok pcmp TPp p y q (k, d) Hs) as (p' & q' & E1 & E2 & E3). rewrite E2. cbn [bind fst].
    eexists. split; [reflexivity|]. split; auto. exists y. split; [apply nth_error_app_mid|].
    transitivity (y :: (k, d) :: p' ++ q'). { apply perm_skip. symmetry. apply Permutation_middle. }
    rewrite <- E1. rewrite perm_swap. apply perm_skip. apply Permutation_middle.
  - eexists. split; [reflexivity|]. split; auto. apply asc_nil.
Qed.

Theorem C20_Map_sorted_pairs :
  total_preorder cmp ->
  forall ops l, run (map_step cmp) [] ops = Ok l ->
  ascending pcmp l /\ history (map_effect cmp) ops [] l.
Proof.
  intros TP ops l E.
  apply (run_history (map_step cmp) (map_effect cmp) (ascending pcmp)) with (s := []); auto; [|apply asc_nil].
  intros s o s' Hs Es. destruct o as [k d|k|i|k d|i k|i k d|]; try
    (match type of Es with map_step _ _ ?o = _ => destruct (map_step_ok TP s o Hs I) as (l' & E1 & E2 & E3) end;
     rewrite E1 in Es; inversion Es; subst; auto; fail).
  destruct (Nat.lt_ge_cases i (length s)) as [Hi|Hi].
  - destruct (map_step_ok TP s (MReplace i k d) Hs Hi) as (l' & E1 & E2 & E3).
    rewrite E1 in Es; inversion Es; subst; auto.
  - cbn [map_step] in Es. unfold as_ReplaceData, Common.set in Es.
    destruct (Nat.ltb_spec i (length s)); [lia|discriminate].
Qed.

Theorem C20_Map_total :
  total_preorder cmp ->
  forall l o, ascending pcmp l -> map_valid o l ->
  exists l', map_step cmp l o = Ok l' /\ ascending pcmp l' /\ map_effect cmp o l l'.
Proof. intros TP l o. apply map_step_ok; auto. Qed.

Theorem C20_Map_Get_iff :
  total_preorder cmp ->
  forall l key, ascending pcmp l ->
  exists r, map_Get cmp l key = Ok r /\
   ((exists i k d, r = Z.of_nat i /\ nth_error l i = Some (k, d) /\ cmp key k = 0) \/
    (r = -1 /\ forall k d, In (k, d) l -> cmp key k <> 0)).
Proof.
  intros TP l key Hs. destruct (Get_ok TP l key Hs) as (r & E & [[-> H]|(a & k & d & b & -> & -> & H)]).
  - exists (-1). split; auto. right. split; auto. intros k d Hin. exact (H (k, d) Hin).
  - eexists. split; [exact E|]. left. exists (length a), k, d. split; auto. split; auto. apply nth_error_app_mid.
Qed.

(* finite map: with distinct keys each key has at most one datum, and inserting a fresh key,
   setting and removing update that map *)
Lemma distinct_in (l : list (K * D)) : total_preorder cmp -> distinct_keys cmp l -> forall p q, In p l -> In q l -> cmp (fst p) (fst q) = 0 -> p = q.
Proof.
  intros TP H p q Hp Hq E. apply In_nth_error in Hp. apply In_nth_error in Hq. destruct Hp as [i Hi], Hq as [j Hj].
  destruct (Nat.eq_dec i j) as [->|Hn]; [congruence|]. exfalso. exact (H i j p q Hn Hi Hj E).
Qed.

Lemma distinct_perm (l l' : list (K * D)) : Permutation l l' -> distinct_keys cmp l -> distinct_keys cmp l'.
Proof.
  intros P H i j p q Hij Hi Hj.
  destruct (proj1 (Permutation_nth_error l l') P) as (HL & f & Inj & Hf).
  rewrite Hf in Hi, Hj. apply (H (f i) (f j) p q); auto.
Qed.

Lemma distinct_cons (p : K * D) l : total_preorder cmp -> (distinct_keys cmp (p :: l) <->
  distinct_keys cmp l /\ forall q, In q l -> cmp (fst p) (fst q) <> 0).
Proof.
  intros TP. split.
  - intros H. split.
    + intros i j x y Hij Hi Hj. apply (H (S i) (S j) x y); auto.
    + intros q Hq. apply In_nth_error in Hq. destruct Hq as [n Hn]. apply (H 0%nat (S n) p q); auto.
  - intros [H1 H2] i j x y Hij Hi Hj. destruct i as [|i], j as [|j]; cbn in Hi, Hj; [congruence| | |].
    + inversion Hi; subst. apply H2. eapply nth_error_In; eauto.
    + inversion Hj; subst. apply nth_error_In in Hi. specialize (H2 x Hi). pose proof (tp_anti _ TP (fst x) (fst y)). lia.
    + apply (H1 i j); auto.
Qed.

Lemma eq_trans_key (TP : total_preorder cmp) a b c : cmp a b = 0 -> cmp b c = 0 -> cmp a c = 0.
Proof.
  intros H1 H2. pose proof (tp_anti _ TP a b). pose proof (tp_anti _ TP b c). pose proof (tp_anti _ TP a c).
  pose proof (cmp_trans cmp TP a b c). pose proof (cmp_trans cmp TP c b a). lia.
Qed.

Theorem C20_Map_finite_map :
  total_preorder cmp ->
  forall l, ascending pcmp l -> distinct_keys cmp l ->
  (forall key d d', binds cmp l key d -> binds cmp l key d' -> d = d') /\
  (forall key, exists r, map_Get cmp l key = Ok r /\
     (r = -1 -> forall d, ~ binds cmp l key d) /\
     (forall i, r = Z.of_nat i -> exists k d, nth_error l i = Some (k, d) /\ binds cmp l key d)) /\
  (forall k d, (forall d', ~ binds cmp l k d') ->
     exists l', map_step cmp l (MInsert k d) = Ok l' /\ distinct_keys cmp l' /\
       forall key x, binds cmp l' key x <-> (cmp k key = 0 /\ x = d) \/ (cmp k key <> 0 /\ binds cmp l key x)) /\
  (forall k, exists l', map_step cmp l (MRemove k) = Ok l' /\ distinct_keys cmp l' /\
       forall key x, binds cmp l' key x <-> cmp k key <> 0 /\ binds cmp l key x) /\
  (forall k d d0, binds cmp l k d0 -> exists l', map_step cmp l (MSet k d) = Ok l' /\ distinct_keys cmp l' /\
       forall key x, binds cmp l' key x <-> (cmp k key = 0 /\ x = d) \/ (cmp k key <> 0 /\ binds cmp l key x)).
Proof.
  intros TP l Hs Hd. repeat split.
  - intros key d d' (k & H1 & H2) (k' & H3 & H4).
    assert (E : (k, d) = (k', d')).
    { apply (distinct_in l TP Hd); auto. cbn. eapply eq_trans_key; eauto. pose proof (tp_anti _ TP k' key). lia. }
    congruence.
  - intros key. destruct (C20_Map_Get_iff TP l key Hs) as (r & E & R). exists r. split; auto. split.
    + intros -> d (k & Hk & Hc). destruct R as [(i & k' & d' & Hi & _)|[_ R]]; [lia|].
      apply (R k d Hk). pose proof (tp_anti _ TP k key). lia.
    + intros i ->. destruct R as [(i' & k' & d' & Hi & Hn & Hc)|[R _]]; [|lia].
      assert (i' = i) by lia. subst. exists k', d'. split; auto. exists k'. split; [eapply nth_error_In; eauto|].
      pose proof (tp_anti _ TP key k'). lia.
  - intros k d Hf. destruct (map_step_ok TP l (MInsert k d) Hs I) as (l' & E & _ & P). cbn in P.
    assert (Hfresh : forall q, In q l -> cmp k (fst q) <> 0).
    { intros [k' d'] Hq Hc. cbn in Hc. apply (Hf d'). exists k'. split; auto. pose proof (tp_anti _ TP k k'). lia. }
    exists l'. split; auto. split.
    + apply (distinct_perm ((k, d) :: l)); [now symmetry|]. apply distinct_cons; auto.
    + intros key x. split.
      * intros (k' & Hin & Hc). apply (Permutation_in _ P) in Hin. destruct Hin as [Heq|Hin].
        -- inversion Heq; subst. left. auto.
        -- right. split; [|exists k'; auto]. intros Hk. apply (Hfresh (k', x) Hin). cbn.
           eapply eq_trans_key; eauto. pose proof (tp_anti _ TP k' key). lia.
      * intros [[Hc ->]|[Hc (k' & Hin & Hc')]].
        -- exists k. split; auto. apply (Permutation_in _ (Permutation_sym P)). now left.
        -- exists k'. split; auto. apply (Permutation_in _ (Permutation_sym P)). now right.
  - intros k. destruct (map_step_ok TP l (MRemove k) Hs I) as (l' & E & _ & P). cbn in P.
    exists l'. split; auto. destruct P as [(k' & d' & Hc & P)|[Hn ->]].
    + pose proof (distinct_perm _ _ (Permutation_sym P) Hd) as Hd'. apply distinct_cons in Hd'; auto. destruct Hd' as [Hd1 Hd2].
      split; auto. intros key x. split.
      * intros (k2 & Hin & Hc2). split; [|exists k2; split; auto; apply (Permutation_in _ P); now right].
        intros Hk. apply (Hd2 (k2, x) Hin). cbn. pose proof (tp_anti _ TP k k'). pose proof (tp_anti _ TP k2 key).
        eapply eq_trans_key; [exact TP| |eapply eq_trans_key; [exact TP|exact Hk|]]; lia.
      * intros [Hne (k2 & Hin & Hc2)]. exists k2. split; auto.
        apply (Permutation_in _ (Permutation_sym P)) in Hin. destruct Hin as [Heq|Hin]; auto.
        inversion Heq; subst. exfalso. apply Hne. eapply eq_trans_key; eauto.
    + split; auto. intros key x. split; [|tauto]. intros (k2 & Hin & Hc2). split; [|exists k2; auto].
      intros Hk. apply (Hn (k2, x) Hin). cbn. pose proof (tp_anti _ TP k2 key). eapply eq_trans_key; eauto. lia.
  - intros k d d0 (k0 & Hin0 & Hc0). destruct (map_step_ok TP l (MSet k d) Hs I) as (l' & E & _ & P). cbn in P.
    exists l'. split; auto. destruct P as [(a & k' & d' & b & -> & Hc & ->)|[Hn _]].
    2:{ exfalso. apply (Hn (k0, d0) Hin0). cbn. pose proof (tp_anti _ TP k0 k). lia. }
    pose proof (distinct_perm _ _ (Permutation_sym (Permutation_middle a b (k', d'))) Hd) as Hd'.
    apply distinct_cons in Hd'; auto. destruct Hd' as [Hd1 Hd2].
    split.
    + apply (distinct_perm ((k', d) :: a ++ b)); [apply Permutation_middle|]. apply distinct_cons; auto.
    + intros key x. pose proof (tp_anti _ TP k k'). split.
      * intros (k2 & Hin & Hc2). apply (Permutation_in _ (Permutation_sym (Permutation_middle a b (k', d)))) in Hin.
        destruct Hin as [Heq|Hin].
        -- inversion Heq; subst. left. split; auto. eapply eq_trans_key; eauto.
        -- right. split; [|exists k2; split; auto; apply (Permutation_in _ (Permutation_middle a b (k', d'))); now right].
           intros Hk. apply (Hd2 (k2, x) Hin). cbn. pose proof (tp_anti _ TP k2 key).
           eapply eq_trans_key; [exact TP| |eapply eq_trans_key; [exact TP|exact Hk|]]; lia.
      * intros [[Hk ->]|[Hk (k2 & Hin & Hc2)]].
        -- exists k'. split; [apply in_or_app; right; now left|]. eapply eq_trans_key; [exact TP| |exact Hk]. lia.
        -- apply (Permutation_in _ (Permutation_sym (Permutation_middle a b (k', d')))) in Hin. exists k2. split; auto.
           apply (Permutation_in _ (Permutation_middle a b (k', d))). destruct Hin as [Heq|Hin]; [|now right].
           inversion Heq; subst. exfalso. apply Hk. eapply eq_trans_key; eauto.
Qed.
End C20.
Print Assumptions C20_Map_sorted_pairs.
Print Assumptions C20_Map_total.
Print Assumptions C20_Map_Get_iff.
Print Assumptions C20_Map_finite_map.

Example C20_example :
  run (map_step zcmp) [] [MInsert 5 50; MInsert 2 20; MInsert 9 90; MSet 2 21; MRemove 5; MRemove 6; MReplaceKey 0 10]
    = Ok [(9, 90); (10, 21)] /\
  map_Get zcmp [(9, 90); (10, 21)] 10 = Ok 1 /\ map_Get zcmp [(9, 90); (10, 21)] 8 = Ok (-1) /\
  distinct_keys zcmp [(9, 90); (10, 21)].
Proof.
  repeat split; try (vm_compute; reflexivity).
  intros [|[|i]] [|[|j]] p q Hij Hi Hj; cbn in Hi, Hj; try congruence; try (destruct i; discriminate); try (destruct j; discriminate);
  inversion Hi; inversion Hj; subst; cbv; congruence.
Qed.
