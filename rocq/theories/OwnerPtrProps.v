(* Property C52: OwnerPtr deletes an owned object exactly once. *)
From Coq Require Import List Arith Bool Lia.
From Coq Require Import ZifyBool ZifyNat.
From Verif Require Import Common OwnerPtr.
Import ListNotations.

(* --- specification --- *)
Definition live (s : state) (v : nat) : Prop := exists x, nth_error (vars s) v = Some (Some x).
Definition owns (s : state) (v o : nat) : Prop := nth_error (vars s) v = Some (Some (mkp (Some o) true)).
(* the variable an operation destroys or assigns to, and the raw pointer it hands to an owner *)
Definition target (o : op) : option nat :=
  match o with Destroy v | AssignRaw v _ | AssignRef v _ | AssignCopy v _ | AssignMove v _ => Some v | _ => None end.
Definition hands (o : op) : option nat := match o with Raw p | AssignRaw _ p => p | _ => None end.
(* programs use variables that exist, and hand each raw pointer to one owner only; H are the pointers handed so far *)
Definition valid (s : state) (H : list nat) (o : op) : Prop :=
  match o with
  | Raw (Some p) => ~ In p H
  | AssignRaw v p => live s v /\ match p with Some p => ~ In p H | None => True end
  | Copy w | Move w | Destroy w | AssignRef w _ => live s w
  | AssignCopy v w | AssignMove v w => live s v /\ live s w
  | _ => True
  end.
(* the call that the code gets wrong: move-assigning from another OwnerPtr that does not own its object *)
Definition moves_non_owner (s : state) (o : op) : Prop :=
  match o with AssignMove v w => v <> w /\ exists o, nth_error (vars s) w = Some (Some (mkp (Some o) false)) | _ => False end.
Definition add_hand (o : op) (H : list nat) : list nat := match hands o with Some p => p :: H | None => H end.
Definition start : state := mk [] [].
Inductive reachable : state -> list nat -> Prop :=
| r_start : reachable start []
| r_step s H o s' : reachable s H -> valid s H o -> ~ moves_non_owner s o -> step s o = Ok s' -> reachable s' (add_hand o H).

(* --- counting owners --- *)
Definition one (b : bool) : nat := if b then 1 else 0.
Definition is (o : nat) (x : option optr) : bool := match x with Some (mkp (Some p) true) => p =? o | _ => false end.
Fixpoint cnt (o : nat) (l : list (option optr)) : nat := match l with [] => 0 | x :: l => one (is o x) + cnt o l end.
Lemma cnt_app o l l' : cnt o (l ++ l') = cnt o l + cnt o l'.
Proof. induction l as [|x l IH]; cbn; lia. Qed.
Lemma cnt_upd o l v x y : nth_error l v = Some x -> cnt o (upd l v y) + one (is o x) = cnt o l + one (is o y).
Proof. revert v. induction l as [|z l IH]; intros [|v] E; cbn in *; try discriminate; [injection E as ->; lia|]. specialize (IH _ E). lia. Qed.
Lemma cnt_get o l v x : nth_error l v = Some x -> one (is o x) <= cnt o l.
Proof. revert v. induction l as [|z l IH]; intros [|v] E; cbn in *; try discriminate; [injection E as ->; lia|]. specialize (IH _ E). lia. Qed.
Lemma is_spec o x : is o x = true <-> x = Some (mkp (Some o) true).
Proof. destruct x as [[[p|] [|]]|]; cbn; split; try discriminate; [intros H; apply Nat.eqb_eq in H; congruence|intros [= ->]; apply Nat.eqb_refl]. Qed.
Lemma cnt_two o : forall l v w, v <> w -> nth_error l v = Some (Some (mkp (Some o) true)) -> nth_error l w = Some (Some (mkp (Some o) true)) -> 2 <= cnt o l.
Proof.
  induction l as [|z l IH]; intros [|v] [|w] Hne Ev Ew; cbn [nth_error cnt] in *; try discriminate; try lia.
  - injection Ev as ->. pose proof (cnt_get o _ _ _ Ew) as G. cbn in *. rewrite Nat.eqb_refl in *. cbn in *. lia.
  - injection Ew as ->. pose proof (cnt_get o _ _ _ Ev) as G. cbn in *. rewrite Nat.eqb_refl in *. cbn in *. lia.
  - specialize (IH v w ltac:(lia) Ev Ew). lia.
Qed.
Lemma cnt_pos o l : 0 < cnt o l -> exists v, nth_error l v = Some (Some (mkp (Some o) true)).
Proof.
  induction l as [|z l IH]; cbn; [lia|]. destruct (is o z) eqn:E.
  - intros _. apply is_spec in E. subst. exists 0. reflexivity.
  - intros H. destruct IH as [v Hv]; [cbn in H; lia|]. exists (S v). exact Hv.
Qed.
Definition dels (d : list nat) (o : nat) : nat := count_occ Nat.eq_dec d o.
Lemma dels_app d d' o : dels (d ++ d') o = dels d o + dels d' o.
Proof. unfold dels. apply count_occ_app. Qed.
Lemma dels_disown d x o : dels (disown d x) o = dels d o + one (is o (Some x)).
Proof.
  unfold disown. destruct x as [[p|] [|]]; cbn [owner_ p_ is one]; try lia. rewrite dels_app. unfold dels at 2. cbn [count_occ].
  destruct (Nat.eq_dec p o) as [->|N]; [rewrite Nat.eqb_refl; reflexivity|]. destruct (Nat.eqb_spec p o); [contradiction|reflexivity].
Qed.
Lemma dels_disown_list d x : disown d x = d \/ exists o, disown d x = d ++ [o] /\ x = mkp (Some o) true.
Proof. unfold disown. destruct x as [[p|] [|]]; cbn; eauto. Qed.

(* owners plus deletions: one for a handed pointer, none for any other *)
Definition occurs (H : list nat) (o : nat) : nat := if in_dec Nat.eq_dec o H then 1 else 0.
Definition inv (s : state) (H : list nat) : Prop := forall o, cnt o (vars s) + dels (deleted s) o = occurs H o.
Lemma occurs_cons p H o : ~ In p H -> occurs (p :: H) o = occurs H o + one (p =? o).
Proof.
  intros N. unfold occurs. destruct (Nat.eqb_spec p o) as [<-|Hn]; cbn [one].
  - destruct (in_dec Nat.eq_dec p (p :: H)) as [|X]; [|exfalso; apply X; left; reflexivity]. destruct (in_dec Nat.eq_dec p H); [contradiction|reflexivity].
  - destruct (in_dec Nat.eq_dec o (p :: H)) as [[X|X]|X]; destruct (in_dec Nat.eq_dec o H) as [Y|Y]; try lia; try contradiction. exfalso. apply X. right. exact Y.
Qed.
Lemma load_ok s v x : nth_error (vars s) v = Some (Some x) -> load s v = Ok x.
Proof. intros E. unfold load. rewrite (get_some _ _ _ E). reflexivity. Qed.
Definition deletion (s s' : state) (o : op) : Prop :=
  deleted s' = deleted s \/ exists v x, target o = Some v /\ owns s v x /\ deleted s' = deleted s ++ [x].
Lemma disown_deletion s v x : nth_error (vars s) v = Some (Some x) -> disown (deleted s) x = deleted s \/ exists o, owns s v o /\ disown (deleted s) x = deleted s ++ [o].
Proof. intros E. destruct (dels_disown_list (deleted s) x) as [->|(o & -> & ->)]; [auto|]. right. exists o. auto. Qed.
Lemma is_non o q : one (is o (Some (mkp q false))) = 0.
Proof. destruct q; reflexivity. Qed.
Lemma is_raw o p : one (is o (Some (mkp (Some p) true))) = one (p =? o).
Proof. reflexivity. Qed.
Lemma step_ok s H o : inv s H -> valid s H o -> ~ moves_non_owner s o -> exists s', step s o = Ok s' /\ inv s' (add_hand o H) /\ deletion s s' o.
Proof.
  intros I V M. unfold deletion. destruct o as [p|q| |w|w|v|v p|v q|v w|v w]; cbn [step valid target] in *; unfold add_hand; cbn [hands].
  - eexists. split; [reflexivity|]. split; [|auto]. intros o. specialize (I o). cbn [vars deleted]. rewrite cnt_app. cbn [cnt]. destruct p as [p|]; [|cbn; lia].
    rewrite occurs_cons by exact V. rewrite is_raw. lia.
  - eexists. split; [reflexivity|]. split; [|auto]. intros o. specialize (I o). cbn [vars deleted]. rewrite cnt_app. cbn [cnt is one]. lia.
  - eexists. split; [reflexivity|]. split; [|auto]. intros o. specialize (I o). cbn [vars deleted]. rewrite cnt_app. cbn [cnt is one]. lia.
  - destruct V as [x E]. rewrite (load_ok _ _ _ E). cbn [bind]. eexists. split; [reflexivity|]. split; [|auto]. intros o. specialize (I o). cbn [vars deleted]. rewrite cnt_app. cbn [cnt]. rewrite is_non. lia.
  - destruct V as [x E]. rewrite (load_ok _ _ _ E). cbn [bind]. rewrite set_ok by (eapply nth_error_lt; exact E). cbn [bind]. eexists. split; [reflexivity|]. split; [|auto].
    intros o. specialize (I o). cbn [vars deleted]. rewrite cnt_app. cbn [cnt]. pose proof (cnt_upd o _ _ _ (Some (mkp (p_ x) false)) E) as U. rewrite is_non in U. lia.
  - destruct V as [x E]. rewrite (load_ok _ _ _ E). cbn [bind]. rewrite set_ok by (eapply nth_error_lt; exact E). cbn [bind]. eexists. split; [reflexivity|]. split.
    + intros o. specialize (I o). cbn [vars deleted]. rewrite dels_disown. pose proof (cnt_upd o _ _ _ None E) as U. change (one (is o None)) with 0 in U. lia.
    + cbn [deleted]. destruct (disown_deletion s v x E) as [D|(o & Ow & D)]; [auto|]. right. eauto.
  - destruct V as [[x E] Vp]. rewrite (load_ok _ _ _ E). cbn [bind]. rewrite set_ok by (eapply nth_error_lt; exact E). cbn [bind]. eexists. split; [reflexivity|]. split.
    + intros o. specialize (I o). cbn [vars deleted]. rewrite dels_disown. pose proof (cnt_upd o _ _ _ (Some (mkp p true)) E) as U. destruct p as [p|].
      * rewrite occurs_cons by exact Vp. rewrite is_raw in U. lia.
      * change (one (is o (Some (mkp None true)))) with 0 in U. lia.
    + cbn [deleted]. destruct (disown_deletion s v x E) as [D|(o & Ow & D)]; [auto|]. right. eauto.
  - destruct V as [x E]. rewrite (load_ok _ _ _ E). cbn [bind]. rewrite set_ok by (eapply nth_error_lt; exact E). cbn [bind]. eexists. split; [reflexivity|]. split.
    + intros o. specialize (I o). cbn [vars deleted]. rewrite dels_disown. pose proof (cnt_upd o _ _ _ (Some (mkp (Some q) false)) E) as U. rewrite is_non in U. lia.
    + cbn [deleted]. destruct (disown_deletion s v x E) as [D|(o & Ow & D)]; [auto|]. right. eauto.
  - destruct V as [[x E] [y Ey]]. rewrite (load_ok _ _ _ E), (load_ok _ _ _ Ey). cbn [bind]. rewrite set_ok by (eapply nth_error_lt; exact E). cbn [bind]. eexists. split; [reflexivity|]. split.
    + intros o. specialize (I o). cbn [vars deleted]. rewrite dels_disown. pose proof (cnt_upd o _ _ _ (Some (mkp (p_ y) false)) E) as U. rewrite is_non in U. lia.
    + cbn [deleted]. destruct (disown_deletion s v x E) as [D|(o & Ow & D)]; [auto|]. right. eauto.
  - destruct V as [[x E] [y Ey]]. rewrite (load_ok _ _ _ E), (load_ok _ _ _ Ey). cbn [bind]. rewrite set_ok by (eapply nth_error_lt; exact E). cbn [bind].
    rewrite set_ok by (rewrite upd_length; eapply nth_error_lt; exact Ey). cbn [bind]. eexists. split; [reflexivity|]. split.
    + intros o. specialize (I o). cbn [vars deleted]. rewrite dels_disown. pose proof (cnt_upd o _ _ _ (Some (mkp (p_ y) true)) E) as U.
      destruct (Nat.eq_dec v w) as [<-|N].
      * assert (Ew : nth_error (upd (vars s) v (Some (mkp (p_ y) true))) v = Some (Some (mkp (p_ y) true))) by (apply nth_error_upd_eq; eapply nth_error_lt; exact E).
        pose proof (cnt_upd o _ _ _ (Some (mkp (p_ y) false)) Ew) as U2. rewrite is_non in U2. lia.
      * assert (Ew : nth_error (upd (vars s) v (Some (mkp (p_ y) true))) w = Some (Some y)) by (rewrite nth_error_upd_neq by exact N; exact Ey).
        pose proof (cnt_upd o _ _ _ (Some (mkp (p_ y) false)) Ew) as U2. rewrite is_non in U2.
        assert (Yo : one (is o (Some (mkp (p_ y) true))) = one (is o (Some y))).
        { destruct y as [[q|] [|]]; cbn [p_]; try reflexivity. exfalso. apply M. split; [exact N|]. exists q. exact Ey. }
        lia.
    + cbn [deleted]. destruct (disown_deletion s v x E) as [D|(o & Ow & D)]; [auto|]. right. eauto.
Qed.
Lemma reachable_inv s H : reachable s H -> inv s H.
Proof.
  induction 1 as [|s H o s' _ I V M E]; [intros o; reflexivity|]. destruct (step_ok s H o I V M) as (s1 & E1 & I1 & _). rewrite E in E1. injection E1 as <-. exact I1.
Qed.

(* C52, for every sequence of operations that never move-assigns from an OwnerPtr that is not an owner (missing: that
   case, which is refuted below): a pointer handed to an owner has exactly one owner until it is deleted, and is deleted
   once; no other pointer is ever owned or deleted; and a deletion is done only when the owner is destroyed or assigned. *)
Theorem C52_OwnerPtr_partial : forall s H, reachable s H ->
  (forall o, In o H -> (~ In o (deleted s) /\ (exists v, owns s v o) /\ forall v w, owns s v o -> owns s w o -> v = w) \/
                       (count_occ Nat.eq_dec (deleted s) o = 1 /\ forall v, ~ owns s v o)) /\
  (forall o, ~ In o H -> ~ In o (deleted s) /\ forall v, ~ owns s v o) /\
  (forall o, valid s H o -> ~ moves_non_owner s o -> exists s', step s o = Ok s' /\ reachable s' (add_hand o H) /\
     (deleted s' = deleted s \/ exists v x, target o = Some v /\ owns s v x /\ deleted s' = deleted s ++ [x])).
Proof.
  intros s H Hs. pose proof (reachable_inv s H Hs) as I.
  assert (NO : forall o, cnt o (vars s) = 0 -> forall v, ~ owns s v o).
  { intros o C v Ov. pose proof (cnt_get o _ _ _ Ov) as G. cbn in G. rewrite Nat.eqb_refl in G. cbn in G. lia. }
  assert (ND : forall o, dels (deleted s) o = 0 -> ~ In o (deleted s)) by (intros o D X; apply (count_occ_In Nat.eq_dec) in X; unfold dels in D; lia).
  split; [|split].
  - intros o Ho. specialize (I o). unfold occurs in I. destruct (in_dec Nat.eq_dec o H); [|contradiction].
    destruct (cnt o (vars s)) as [|k] eqn:C.
    + right. split; [exact I|]. apply NO. exact C.
    + left. split; [apply ND; lia|]. split; [apply cnt_pos; lia|]. intros v w Ov Ow. destruct (Nat.eq_dec v w); [assumption|]. pose proof (cnt_two o _ v w ltac:(assumption) Ov Ow). lia.
  - intros o Ho. specialize (I o). unfold occurs in I. destruct (in_dec Nat.eq_dec o H); [contradiction|]. split; [apply ND; lia|apply NO; lia].
  - intros o V M. destruct (step_ok s H o I V M) as (s' & E & _ & D). exists s'. split; [exact E|]. split; [econstructor; eauto|exact D].
Qed.
Print Assumptions C52_OwnerPtr_partial.
Fixpoint run (s : state) (l : list op) : res state := match l with [] => Ok s | o :: l => do s <- step s o; run s l end.
(* Move assignment makes the target an owner even if the source is not: a copy that is moved deletes a second time. *)
Theorem C52_move_assign_refuted : exists s, reachable s [7] /\ valid s [7] (AssignMove 2 1) /\
  exists s', run s [AssignMove 2 1; Destroy 0; Destroy 2] = Ok s' /\ deleted s' = [7; 7].
Proof.
  pose proof (r_step start [] (Raw (Some 7)) _ r_start (fun x => x) (fun x => x) eq_refl) as H1.
  pose proof (r_step _ _ (Copy 0) (mk [Some (mkp (Some 7) true); Some (mkp (Some 7) false)] []) H1 (ex_intro _ _ eq_refl) (fun x => x) eq_refl) as H2.
  pose proof (r_step _ _ Null (mk [Some (mkp (Some 7) true); Some (mkp (Some 7) false); Some (mkp None false)] []) H2 Logic.I (fun x => x) eq_refl) as H3.
  eexists. split; [exact H3|]. split; [split; eexists; reflexivity|]. eexists. split; vm_compute; reflexivity.
Qed.
Print Assumptions C52_move_assign_refuted.

Example C52_example :
  exists s, reachable s [5; 3] /\ deleted s = [3] /\ owns s 1 5 /\ run s [Destroy 0; Destroy 1] = Ok (mk [None; None] [3; 5]).
Proof.
  pose proof (r_step start [] (Raw (Some 3)) _ r_start (fun x => x) (fun x => x) eq_refl) as H1.
  pose proof (r_step _ _ (Move 0) (mk [Some (mkp (Some 3) false); Some (mkp (Some 3) true)] []) H1 (ex_intro _ _ eq_refl) (fun x => x) eq_refl) as H2.
  assert (V : valid (mk [Some (mkp (Some 3) false); Some (mkp (Some 3) true)] []) [3] (AssignRaw 1 (Some 5))) by (split; [eexists; reflexivity|intros [E|[]]; discriminate]).
  pose proof (r_step _ _ (AssignRaw 1 (Some 5)) (mk [Some (mkp (Some 3) false); Some (mkp (Some 5) true)] [3]) H2 V (fun x => x) eq_refl) as H3.
  eexists. split; [exact H3|]. repeat split.
Qed.
