(* Property C51: ref_ptr keeps an object alive exactly while it is referenced. *)
From Coq Require Import List Arith ZArith Bool Lia.
From Coq Require Import ZifyBool ZifyNat.
From Verif Require Import Common RefPtr.
Import ListNotations.

(* --- specification --- *)
Definition alive (s : state) (o : nat) : Prop := exists x, nth_error (heap s) o = Some x /\ exists_ x = true.
Definition points (s : state) (v o : nat) : Prop := nth_error (vars s) v = Some (Some (Some o)).
Definition constructed (s : state) (v : nat) : Prop := exists p, nth_error (vars s) v = Some (Some p).
(* there are exactly k ref_ptrs denoting o *)
Definition references (s : state) (o k : nat) : Prop := exists l, NoDup l /\ length l = k /\ forall v, In v l <-> points s v o.
(* the only ref_ptr denoting o is v *)
Definition sole (s : state) (v o : nat) : Prop := points s v o /\ references s o 1.
(* what a program may do: use constructed variables and pointers to objects that exist *)
Definition valid (s : state) (o : op) : Prop :=
  match o with
  | NewObj | Construct None => True
  | Construct (Some p) => alive s p
  | Copy w | Move w | Destroy w => constructed s w
  | Assign v p => constructed s v /\ match p with Some p => alive s p | None => True end
  | AssignCopy v w | AssignMove v w => constructed s v /\ constructed s w
  end.
(* the calls that the code gets wrong: assigning to the only ref_ptr of an object that same object *)
Definition reassigns_last (s : state) (o : op) : Prop :=
  match o with
  | Assign v (Some p) => sole s v p
  | AssignCopy v w => exists p, points s w p /\ sole s v p
  | _ => False
  end.
Definition start : state := mk [] [].
Inductive reachable : state -> Prop :=
| r_start : reachable start
| r_step s o s' : reachable s -> valid s o -> ~ reassigns_last s o -> step s o = Ok s' -> reachable s'.

(* --- counting --- *)
Definition is (o : nat) (x : var) : bool := match x with Some (Some p) => p =? o | _ => false end.
Definition one (b : bool) : nat := if b then 1 else 0.
Fixpoint cnt (o : nat) (l : list var) : nat := match l with [] => 0 | x :: l => one (is o x) + cnt o l end.
Lemma cnt_app o l l' : cnt o (l ++ l') = cnt o l + cnt o l'.
Proof. induction l as [|x l IH]; cbn; lia. Qed.
Lemma cnt_upd o l v x y : nth_error l v = Some x -> cnt o (upd l v y) + one (is o x) = cnt o l + one (is o y).
Proof. revert v. induction l as [|z l IH]; intros [|v] E; cbn in *; try discriminate; [injection E as ->; lia|]. specialize (IH _ E). lia. Qed.
Lemma cnt_get o l v x : nth_error l v = Some x -> one (is o x) <= cnt o l.
Proof. revert v. induction l as [|z l IH]; intros [|v] E; cbn in *; try discriminate; [injection E as ->; lia|]. specialize (IH _ E). lia. Qed.
Lemma is_spec o x : is o x = true <-> x = Some (Some o).
Proof. destruct x as [[p|]|]; cbn; split; try discriminate; [intros H; apply Nat.eqb_eq in H; congruence|intros [= ->]; apply Nat.eqb_refl]. Qed.
Lemma cnt_list o l : forall k, exists vs, NoDup vs /\ length vs = cnt o l /\ forall v, In v vs <-> k <= v /\ nth_error l (v - k) = Some (Some (Some o)).
Proof.
  induction l as [|x l IH]; intros k.
  - exists []. split; [constructor|]. split; [reflexivity|]. intros v. split; [intros []|]. intros [_ E]. destruct (v - k); discriminate.
  - destruct (IH (S k)) as (vs & N & L & H). destruct (is o x) eqn:Ex.
    + exists (k :: vs). split; [constructor; [rewrite H; lia|exact N]|]. split; [cbn; rewrite Ex; cbn; lia|]. intros v. cbn [In]. rewrite H. apply is_spec in Ex. split.
      * intros [<-|[A B]]; [split; [lia|]; rewrite Nat.sub_diag; cbn; f_equal; exact Ex|]. split; [lia|]. replace (v - k) with (S (v - S k)) by lia. exact B.
      * intros [A B]. destruct (Nat.eq_dec k v); [auto|]. right. split; [lia|]. replace (v - k) with (S (v - S k)) in B by lia. exact B.
    + exists vs. split; [exact N|]. split; [cbn; rewrite Ex; cbn; lia|]. intros v. rewrite H. split.
      * intros [A B]. split; [lia|]. replace (v - k) with (S (v - S k)) by lia. exact B.
      * intros [A B]. destruct (Nat.eq_dec k v) as [<-|]; [rewrite Nat.sub_diag in B; cbn in B; injection B as ->; cbn in Ex; rewrite Nat.eqb_refl in Ex; discriminate|].
        split; [lia|]. replace (v - k) with (S (v - S k)) in B by lia. exact B.
Qed.
Lemma references_cnt s o k : references s o k <-> cnt o (vars s) = k.
Proof.
  destruct (cnt_list o (vars s) 0) as (vs & N & L & H). split.
  - intros (l & N' & L' & H'). rewrite <- L, <- L'. apply Nat.le_antisymm; apply NoDup_incl_length; auto; intros v Hv.
    + apply H'. apply H in Hv. destruct Hv as [_ Hv]. rewrite Nat.sub_0_r in Hv. exact Hv.
    + apply H. apply H' in Hv. split; [lia|]. rewrite Nat.sub_0_r. exact Hv.
  - intros <-. exists vs. split; [exact N|]. split; [exact L|]. intros v. rewrite H, Nat.sub_0_r. unfold points. split; [tauto|]. intros. split; [lia|assumption].
Qed.

(* --- invariant: the heap agrees with a count for every object --- *)
Definition agrees (h : list obj) (c : nat -> nat) : Prop :=
  forall o, match nth_error h o with
            | Some x => if exists_ x then refs x = Z.of_nat (c o) else c o = 0
            | None => c o = 0
            end.
Definition lives (h : list obj) (o : nat) : Prop := exists x, nth_error h o = Some x /\ exists_ x = true.
Definition inv (s : state) : Prop := agrees (heap s) (fun o => cnt o (vars s)).
Lemma agrees_ext h c c' : agrees h c -> (forall o, c o = c' o) -> agrees h c'.
Proof. intros A E o. specialize (A o). rewrite <- E. exact A. Qed.
Lemma agrees_lives h c o : agrees h c -> 0 < c o -> lives h o.
Proof. intros A H. specialize (A o). unfold lives. destruct (nth_error h o) as [x|]; [|lia]. destruct (exists_ x) eqn:E; [eauto|lia]. Qed.
(* how a step may change which objects exist *)
Definition grab_ok h c p : agrees h c -> match p with Some o => lives h o | None => True end ->
  exists h', GrabIf h p = Ok h' /\ agrees h' (fun o => c o + one (is o (Some p))) /\ length h' = length h /\ (forall o, lives h' o <-> lives h o).
Proof.
  intros A L. destruct p as [q|]; cbn [GrabIf].
  - destruct L as (x & E & X). unfold Grab. rewrite (get_some _ _ _ E). cbn [bind]. rewrite X. pose proof (nth_error_lt _ _ _ E) as Hq. rewrite set_ok by exact Hq.
    eexists. split; [reflexivity|]. split; [|split; [apply upd_length|]].
    + intros o. rewrite nth_error_upd. cbn [is]. destruct (Nat.eqb_spec q o) as [<-|N]; cbn [andb one].
      * destruct (Nat.ltb_spec q (length h)); [|lia]. cbn. specialize (A q). rewrite E, X in A. lia.
      * rewrite Nat.add_0_r. apply A.
    + intros o. unfold lives. rewrite nth_error_upd. destruct (Nat.eqb_spec q o) as [<-|N]; cbn [andb]; [|tauto].
      destruct (Nat.ltb_spec q (length h)); [|lia]. split; [intros _; eauto|intros _; eexists; split; [reflexivity|reflexivity]].
  - exists h. split; [reflexivity|]. split; [eapply agrees_ext; [exact A|]; intros; cbn; lia|]. split; [reflexivity|tauto].
Qed.
Definition drop_ok h c p : agrees h c -> match p with Some o => 0 < c o | None => True end ->
  exists h', DropIf h p = Ok h' /\ agrees h' (fun o => c o - one (is o (Some p))) /\ length h' = length h /\
    (forall o, lives h' o <-> lives h o /\ ~ (p = Some o /\ c o = 1)).
Proof.
  intros A L. destruct p as [q|]; cbn [DropIf].
  - destruct (agrees_lives h c q A L) as (x & E & X). unfold Drop. rewrite (get_some _ _ _ E). cbn [bind]. rewrite X. pose proof (nth_error_lt _ _ _ E) as Hq. rewrite !set_ok by exact Hq.
    pose proof (A q) as Aq. rewrite E, X in Aq. destruct (Z.gtb_spec (refs x - 1) 0) as [G|G]; eexists; (split; [reflexivity|]); (split; [|split; [apply upd_length|]]).
    + intros o. rewrite nth_error_upd. cbn [is]. destruct (Nat.eqb_spec q o) as [<-|N]; cbn [andb one]; [|rewrite Nat.sub_0_r; apply A].
      destruct (Nat.ltb_spec q (length h)); [|lia]. cbn. lia.
    + intros o. unfold lives. rewrite nth_error_upd. destruct (Nat.eqb_spec q o) as [<-|N]; cbn [andb].
      * destruct (Nat.ltb_spec q (length h)); [|lia]. split; [intros _; split; [eauto|lia]|intros _; eexists; split; reflexivity].
      * split; [intros H; split; [exact H|intros [X1 _]; congruence]|tauto].
    + intros o. rewrite nth_error_upd. cbn [is]. destruct (Nat.eqb_spec q o) as [<-|N]; cbn [andb one]; [|rewrite Nat.sub_0_r; apply A].
      destruct (Nat.ltb_spec q (length h)); [|lia]. cbn. lia.
    + intros o. unfold lives. rewrite nth_error_upd. destruct (Nat.eqb_spec q o) as [<-|N]; cbn [andb].
      * destruct (Nat.ltb_spec q (length h)); [|lia]. split; [intros (y & Ey & Xy); injection Ey as <-; discriminate|intros [_ X1]; exfalso; apply X1; split; [reflexivity|lia]].
      * split; [intros H; split; [exact H|intros [X1 _]; congruence]|tauto].
  - exists h. split; [reflexivity|]. split; [eapply agrees_ext; [exact A|]; intros; cbn; lia|]. split; [reflexivity|]. intros o. split; [intros H; split; [exact H|intros [H1 _]; discriminate]|tauto].
Qed.
Lemma ptr_ok s v p : nth_error (vars s) v = Some (Some p) -> ptr s v = Ok p.
Proof. intros E. unfold ptr. rewrite (get_some _ _ _ E). reflexivity. Qed.
(* the objects destroyed by a step are those that lose their last reference *)
Definition destroys (s s' : state) : Prop :=
  forall o, alive s o -> (~ alive s' o <-> 0 < cnt o (vars s) /\ cnt o (vars s') = 0).
Lemma not_lives_dec h o : lives h o \/ ~ lives h o.
Proof. unfold lives. destruct (nth_error h o) as [x|]; [destruct (exists_ x) eqn:E; [left; eauto|]|]; right; intros (y & Ey & X); congruence. Qed.
Lemma assign_ok s v x p : inv s -> nth_error (vars s) v = Some (Some x) -> match p with Some o => alive s o | None => True end ->
  ~ (exists o, x = Some o /\ p = Some o /\ cnt o (vars s) = 1) ->
  exists s', assign s v p = Ok s' /\ inv s' /\ destroys s s' /\ vars s' = upd (vars s) v (Some p) /\ length (heap s') = length (heap s).
Proof.
  intros I E L Ns. unfold assign. rewrite (ptr_ok _ _ _ E). cbn [bind].
  assert (Hx : match x with Some o => 0 < cnt o (vars s) | None => True end).
  { destruct x as [o|]; [|exact Logic.I]. pose proof (cnt_get o _ _ _ E) as G. cbn in G. rewrite Nat.eqb_refl in G. cbn in G. lia. }
  destruct (drop_ok _ _ x I Hx) as (h1 & E1 & A1 & Len1 & L1). rewrite E1. cbn [bind]. rewrite set_ok by (eapply nth_error_lt; exact E). cbn [bind].
  assert (Hp : match p with Some o => lives h1 o | None => True end).
  { destruct p as [o|]; [|exact Logic.I]. apply L1. split; [exact L|]. intros [-> H]. apply Ns. exists o. auto. }
  destruct (grab_ok _ _ p A1 Hp) as (h2 & E2 & A2 & Len2 & L2). rewrite E2. cbn [bind]. eexists. split; [reflexivity|].
  assert (C : forall o, cnt o (vars s) - one (is o (Some x)) + one (is o (Some p)) = cnt o (upd (vars s) v (Some p))).
  { intros o. pose proof (cnt_upd o _ _ _ (Some p) E). pose proof (cnt_get o _ _ _ E). lia. }
  split; [eapply agrees_ext; [exact A2|exact C]|]. split; [|split; [reflexivity|cbn [heap]; lia]].
  intros o Ao. cbn [vars]. change (~ lives h2 o <-> 0 < cnt o (vars s) /\ cnt o (upd (vars s) v (Some p)) = 0). rewrite L2, L1. rewrite <- C.
  assert (Ie : forall q, is o (Some q) = true <-> q = Some o) by (intros q; rewrite is_spec; split; congruence).
  split.
  - intros H. destruct (is o (Some x)) eqn:Ex.
    + assert (x = Some o) by (apply Ie; exact Ex). subst x. destruct (Nat.eq_dec (cnt o (vars s)) 1) as [E0|N0]; [|exfalso; apply H; split; [exact Ao|tauto]].
      rewrite E0. cbn [one]. destruct (is o (Some p)) eqn:Ep; [|cbn; lia]. exfalso. apply Ns. exists o. split; [reflexivity|]. split; [apply Ie; exact Ep|exact E0].
    + exfalso. apply H. split; [exact Ao|]. intros [-> _]. cbn in Ex. rewrite Nat.eqb_refl in Ex. discriminate.
  - intros [H1 H2] [_ H3]. apply H3. destruct (is o (Some x)) eqn:Ex; cbn [one] in H2; [|lia]. split; [apply Ie; exact Ex|lia].
Qed.
Definition destroys_same s s' : (forall o, alive s o -> alive s' o) -> (forall o, cnt o (vars s) <= cnt o (vars s')) -> destroys s s'.
Proof. intros A C o Ao. split; [intros H; exfalso; auto|]. intros [H1 H2]. specialize (C o). lia. Qed.
Lemma inv_alive s o : inv s -> 0 < cnt o (vars s) -> alive s o.
Proof. intros I H. apply (agrees_lives _ _ o I). exact H. Qed.
Lemma ptr_alive s v p : inv s -> nth_error (vars s) v = Some (Some p) -> match p with Some o => alive s o | None => True end.
Proof. intros I E. destruct p as [o|]; [|exact Logic.I]. apply inv_alive; [exact I|]. pose proof (cnt_get o _ _ _ E) as G. cbn in G. rewrite Nat.eqb_refl in G. cbn in G. lia. Qed.
Lemma step_ok s o : inv s -> valid s o -> ~ reassigns_last s o -> exists s', step s o = Ok s' /\ inv s' /\ destroys s s'.
Proof.
  intros I V R. destruct o as [|p|w|w|v|v p|v w|v w]; cbn [step valid reassigns_last] in *.
  - eexists. split; [reflexivity|]. split.
    + intros o. cbn [heap vars]. specialize (I o). cbn beta in *. destruct (nth_error (heap s) o) as [x|] eqn:E.
      * rewrite nth_error_app1 by (eapply nth_error_lt; exact E). rewrite E. exact I.
      * apply nth_error_None in E. rewrite nth_error_app2 by exact E. destruct (o - length (heap s)) as [|k]; cbn; [lia|]. destruct k; exact I.
    + apply destroys_same; [|reflexivity]. intros o (x & E & X). exists x. split; [|exact X]. cbn [heap]. rewrite nth_error_app1 by (eapply nth_error_lt; exact E). exact E.
  - destruct (grab_ok _ _ p I) as (h & E & A & Len & L); [destruct p; exact V|]. rewrite E. cbn [bind]. eexists. split; [reflexivity|]. split.
    + eapply agrees_ext; [exact A|]. intros o. cbn [vars]. rewrite cnt_app. cbn [cnt]. lia.
    + apply destroys_same; [intros o Ao; apply L; exact Ao|]. intros o. cbn [vars]. rewrite cnt_app. lia.
  - destruct V as [p E0]. rewrite (ptr_ok _ _ _ E0). cbn [bind]. destruct (grab_ok _ _ p I (ptr_alive s w p I E0)) as (h & E & A & Len & L). rewrite E. cbn [bind]. eexists. split; [reflexivity|]. split.
    + eapply agrees_ext; [exact A|]. intros o. cbn [vars]. rewrite cnt_app. cbn [cnt]. lia.
    + apply destroys_same; [intros o Ao; apply L; exact Ao|]. intros o. cbn [vars]. rewrite cnt_app. lia.
  - destruct V as [p E0]. rewrite (ptr_ok _ _ _ E0). cbn [bind]. rewrite set_ok by (eapply nth_error_lt; exact E0). cbn [bind]. eexists. split; [reflexivity|].
    assert (C : forall o, cnt o (vars s) = cnt o (upd (vars s) w (Some None) ++ [Some p])).
    { intros o. rewrite cnt_app. cbn [cnt]. pose proof (cnt_upd o _ _ _ (Some None) E0) as U. change (one (is o (Some None))) with 0 in U. lia. }
    split; [eapply agrees_ext; [exact I|exact C]|]. apply destroys_same; [intros o Ao; exact Ao|]. intros o. cbn [vars]. rewrite <- C. lia.
  - destruct V as [p E0]. rewrite (ptr_ok _ _ _ E0). cbn [bind].
    assert (Hx : match p with Some o => 0 < cnt o (vars s) | None => True end).
    { destruct p as [o|]; [|exact Logic.I]. pose proof (cnt_get o _ _ _ E0) as G. cbn in G. rewrite Nat.eqb_refl in G. cbn in G. lia. }
    destruct (drop_ok _ _ p I Hx) as (h & E & A & Len & L). rewrite E. cbn [bind]. rewrite set_ok by (eapply nth_error_lt; exact E0). cbn [bind]. eexists. split; [reflexivity|].
    assert (C : forall o, cnt o (vars s) - one (is o (Some p)) = cnt o (upd (vars s) v None)).
    { intros o. pose proof (cnt_upd o _ _ _ None E0) as U. change (one (is o None)) with 0 in U. lia. }
    split; [eapply agrees_ext; [exact A|exact C]|]. intros o Ao. change (~ lives h o <-> 0 < cnt o (vars s) /\ cnt o (upd (vars s) v None) = 0). rewrite L, <- C. split.
    + intros H. destruct (is o (Some p)) eqn:Ex.
      * apply is_spec in Ex. injection Ex as ->. destruct (Nat.eq_dec (cnt o (vars s)) 1) as [E1|E1]; [rewrite E1; cbn; lia|]. exfalso. apply H. split; [exact Ao|tauto].
      * exfalso. apply H. split; [exact Ao|]. intros [-> _]. cbn in Ex. rewrite Nat.eqb_refl in Ex. discriminate.
    + intros [H1 H2] [_ H3]. apply H3. destruct (is o (Some p)) eqn:Ex; cbn [one] in H2; [|lia]. apply is_spec in Ex. injection Ex as ->. split; [reflexivity|lia].
  - destruct V as [[x E] L]. destruct (assign_ok s v x p I E L) as (s' & E' & I' & D & _); [|eauto]. intros (o & -> & -> & H). apply R. split; [exact E|]. apply references_cnt. exact H.
  - destruct V as [[x E] [p Ep]]. rewrite (ptr_ok _ _ _ Ep). cbn [bind]. destruct (assign_ok s v x p I E (ptr_alive s w p I Ep)) as (s' & E' & I' & D & _); [|eauto].
    intros (o & -> & -> & H). apply R. exists o. split; [exact Ep|]. split; [exact E|]. apply references_cnt. exact H.
  - destruct V as [[x E] [p Ep]]. rewrite (ptr_ok _ _ _ E), (ptr_ok _ _ _ Ep). cbn [bind].
    assert (Hx : match x with Some o => 0 < cnt o (vars s) | None => True end).
    { destruct x as [o|]; [|exact Logic.I]. pose proof (cnt_get o _ _ _ E) as G. cbn in G. rewrite Nat.eqb_refl in G. cbn in G. lia. }
    destruct (drop_ok _ _ x I Hx) as (h & Eh & A & Len & L). rewrite Eh. cbn [bind]. rewrite set_ok by (eapply nth_error_lt; exact E). cbn [bind].
    rewrite set_ok by (rewrite upd_length; eapply nth_error_lt; exact Ep). cbn [bind]. eexists. split; [reflexivity|].
    assert (C : forall o, cnt o (vars s) - one (is o (Some x)) = cnt o (upd (upd (vars s) v (Some p)) w (Some None))).
    { intros o. pose proof (cnt_upd o _ _ _ (Some p) E) as U. pose proof (cnt_get o _ _ _ E).
      assert (Ew : nth_error (upd (vars s) v (Some p)) w = Some (Some p)).
      { rewrite nth_error_upd. destruct (Nat.eqb_spec v w) as [<-|]; cbn [andb]; [|exact Ep]. destruct (Nat.ltb_spec v (length (vars s))); [reflexivity|exact Ep]. }
      pose proof (cnt_upd o _ _ _ (Some None) Ew) as U2. change (one (is o (Some None))) with 0 in U2. lia. }
    split; [eapply agrees_ext; [exact A|exact C]|]. intros o Ao. change (~ lives h o <-> 0 < cnt o (vars s) /\ cnt o (upd (upd (vars s) v (Some p)) w (Some None)) = 0). rewrite L, <- C. split.
    + intros H. destruct (is o (Some x)) eqn:Ex.
      * apply is_spec in Ex. injection Ex as ->. destruct (Nat.eq_dec (cnt o (vars s)) 1) as [E1|E1]; [rewrite E1; cbn; lia|]. exfalso. apply H. split; [exact Ao|tauto].
      * exfalso. apply H. split; [exact Ao|]. intros [-> _]. cbn in Ex. rewrite Nat.eqb_refl in Ex. discriminate.
    + intros [H1 H2] [_ H3]. apply H3. destruct (is o (Some x)) eqn:Ex; cbn [one] in H2; [|lia]. apply is_spec in Ex. injection Ex as ->. split; [reflexivity|lia].
Qed.
Lemma reachable_inv s : reachable s -> inv s.
Proof.
  induction 1 as [|s o s' _ I V R E]; [intros o; cbn; destruct o; reflexivity|]. destruct (step_ok s o I V R) as (s1 & E1 & I1 & _). rewrite E in E1. injection E1 as <-. exact I1.
Qed.

(* C51, for every sequence of operations that never assigns to the only ref_ptr of an object that same object (missing:
   that case, which is refuted below): the count of every object that exists is the number of ref_ptrs denoting it, an
   object that does not exist is denoted by none, no operation touches a destroyed object, and an operation destroys
   exactly the objects that lose their last reference. *)
Theorem C51_ref_ptr_partial : forall s, reachable s ->
  (forall o x, nth_error (heap s) o = Some x -> exists_ x = true -> exists k, references s o k /\ refs x = Z.of_nat k) /\
  (forall v o, points s v o -> alive s o) /\
  (forall o, valid s o -> ~ reassigns_last s o -> exists s', step s o = Ok s' /\ reachable s' /\
     forall x, alive s x -> (~ alive s' x <-> ~ references s x 0 /\ references s' x 0)).
Proof.
  intros s Hs. pose proof (reachable_inv s Hs) as I. split; [|split].
  - intros o x E X. exists (cnt o (vars s)). split; [apply references_cnt; reflexivity|]. specialize (I o). cbn beta in I. rewrite E, X in I. exact I.
  - intros v o E. apply inv_alive; [exact I|]. pose proof (cnt_get o _ _ _ E) as G. cbn in G. rewrite Nat.eqb_refl in G. cbn in G. lia.
  - intros o V R. destruct (step_ok s o I V R) as (s' & E & I' & D). exists s'. split; [exact E|]. split; [econstructor; eauto|].
    intros x Ax. rewrite !references_cnt. rewrite (D x Ax). lia.
Qed.
Print Assumptions C51_ref_ptr_partial.
(* p = p, for the only ref_ptr of an object, destroys the object and then touches it. *)
Theorem C51_self_assignment_refuted : exists s, reachable s /\ valid s (AssignCopy 0 0) /\ step s (AssignCopy 0 0) = UB.
Proof.
  pose proof (r_step start NewObj _ r_start Logic.I (fun H => H) eq_refl) as H1.
  pose proof (r_step _ (Construct (Some 0)) (mk [Some (Some 0)] [mkobj 1 true]) H1 (ex_intro _ _ (conj eq_refl eq_refl)) (fun H => H) eq_refl) as H2.
  eexists. split; [exact H2|]. split; [|vm_compute; reflexivity]. split; exists (Some 0); reflexivity.
Qed.
Print Assumptions C51_self_assignment_refuted.

Fixpoint run (s : state) (l : list op) : res state := match l with [] => Ok s | o :: l => do s <- step s o; run s l end.
Example C51_example :
  run start [NewObj; NewObj; Construct (Some 0); Copy 0; Construct (Some 1); AssignMove 1 2; Assign 0 None; Destroy 1; Destroy 2] =
    Ok (mk [Some None; None; None] [mkobj 0 false; mkobj 0 false]) /\
  run start [NewObj; Construct (Some 0); Copy 0; AssignCopy 0 0; AssignMove 1 1] = Ok (mk [Some (Some 0); Some None] [mkobj 1 true]).
Proof. split; vm_compute; reflexivity. Qed.
(* a reachable state with an object of two references, and a valid step from it *)
Example C51_example_reachable : reachable (mk [Some (Some 0); Some (Some 0)] [mkobj 2 true]) /\
  valid (mk [Some (Some 0); Some (Some 0)] [mkobj 2 true]) (AssignCopy 0 1) /\ ~ reassigns_last (mk [Some (Some 0); Some (Some 0)] [mkobj 2 true]) (AssignCopy 0 1).
Proof.
  pose proof (r_step start NewObj _ r_start Logic.I (fun H => H) eq_refl) as H1.
  pose proof (r_step _ (Construct (Some 0)) (mk [Some (Some 0)] [mkobj 1 true]) H1 (ex_intro _ _ (conj eq_refl eq_refl)) (fun H => H) eq_refl) as H2.
  pose proof (r_step _ (Copy 0) (mk [Some (Some 0); Some (Some 0)] [mkobj 2 true]) H2 (ex_intro _ (Some 0) eq_refl) (fun H => H) eq_refl) as H3.
  split; [exact H3|]. split; [split; exists (Some 0); reflexivity|]. intros (p & P & _ & R). apply references_cnt in R. unfold points in P. cbn in P. injection P as <-. discriminate.
Qed.
