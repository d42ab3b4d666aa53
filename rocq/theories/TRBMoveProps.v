(* C191: the checker of the threaded red-black tree, and what moving a tree does to both trees. *)
From Coq Require Import List ZArith Bool Arith Lia.
From Verif Require Import Common Dll LLBase LLBaseProps OrderSpec OrderProofs TRBtree TRBtreeProps TRBMove.
Import ListNotations.

(* --- specification --- *)
Fixpoint nodes (t : tree) : list nat := match t with Leaf => [] | Node _ l id r => nodes l ++ id :: nodes r end.
(* next and prev are inverse at node i *)
Definition mutual (h : heap) (i : nat) : Prop := exists n p, h i = Some (n, p) /\
  (forall j, n = Some j -> exists k, h j = Some (k, Some i)) /\ (forall j, p = Some j -> exists k, h j = Some (Some i, k)).

Section Spec.
Context {T : Type} (cmp : T -> T -> Z).
(* an object in good order: its sentinel is built once and came from its policy, as did all its nodes *)
Definition sound (m : mem) (o : obj T) : Prop :=
  reachable cmp (tr o) /\ (exists q, pol o = Some q /\ cells m (nilp o) = Some (q, Built 1) /\
    forall l, shows cmp (tr o) l -> forall i v, In (i, v) l -> own o i = q).
End Spec.

(* --- DEBUGVERIFY --- *)
Lemma verify_range h t z : verify (Ok false) h t = Ok z -> (0 < z)%Z \/ z = (-1)%Z.
Proof.
  revert z. induction t as [|c l IHl id r IHr]; intros z; cbn [verify bind].
  { intros E. injection E as <-. lia. }
  destruct (if c then _ else _) as [bad| |]; cbn [bind]; try discriminate. destruct bad. { intros E. injection E as <-. lia. }
  destruct (rd h (Some id)) as [nd| |]; cbn [bind]; try discriminate.
  destruct (match fst nd with None => _ | Some n => _ end) as [b1| |]; cbn [bind]; try discriminate. destruct b1. { intros E. injection E as <-. lia. }
  destruct (match snd nd with None => _ | Some n => _ end) as [b2| |]; cbn [bind]; try discriminate. destruct b2. { intros E. injection E as <-. lia. }
  destruct (verify (Ok false) h l) as [a| |]; cbn [bind]; try discriminate.
  destruct (verify (Ok false) h r) as [b| |]; cbn [bind]; try discriminate.
  destruct (Z.ltb_spec a 0); cbn [orb]. { intros E. injection E as <-. lia. }
  destruct (Z.ltb_spec b 0); cbn [orb]. { intros E. injection E as <-. lia. }
  destruct (Z.eqb_spec b a); cbn [negb]. 2:{ intros E. injection E as <-. lia. }
  intros E. injection E as <-. destruct (IHl a eq_refl); [|lia]. destruct c; lia.
Qed.
Lemma color_is_red t : color (Ok false) t = Ok (is_red t).
Proof. destruct t; reflexivity. Qed.
Lemma peq_spec a b : peq a b = true <-> a = b.
Proof.
  destruct a as [a|], b as [b|]; cbn [peq]; split; intros H; try discriminate; try reflexivity.
  - apply Nat.eqb_eq in H. now subst.
  - injection H as ->. apply Nat.eqb_refl.
Qed.
Lemma verify_good h t n : red_black t n -> (forall i, In i (nodes t) -> mutual h i) -> verify (Ok false) h t = Ok (Z.of_nat n + 1)%Z.
Proof.
  revert n. induction t as [|c l IHl id r IHr]; intros n R M; cbn [verify].
  { cbn [red_black] in R. subst. reflexivity. }
  assert (Ml : forall i, In i (nodes l) -> mutual h i) by (intros i Hi; apply M; cbn [nodes]; apply in_app_iff; auto).
  assert (Mr : forall i, In i (nodes r) -> mutual h i) by (intros i Hi; apply M; cbn [nodes]; apply in_app_iff; right; now right).
  destruct (M id) as (nx & pv & E & M1 & M2). { cbn [nodes]. apply in_app_iff. right. now left. }
  rewrite !color_is_red. cbn [bind].
  assert (B : (if c then if is_red l then Ok true else Ok (is_red r) else Ok false) = Ok false).
  { destruct c; [|reflexivity]. cbn [red_black] in R. destruct R as (-> & -> & _). reflexivity. }
  rewrite B. cbn [bind]. cbn [rd]. rewrite E. cbn [bind fst snd].
  assert (B1 : match nx with None => Ok false | Some n0 => do p <- rd_prev h (Some n0); Ok (negb (peq p (Some id))) end = Ok false).
  { destruct nx as [j|]; [|reflexivity]. destruct (M1 j eq_refl) as [k Ek]. unfold rd_prev. cbn [rd]. rewrite Ek. cbn [bind snd].
    rewrite (proj2 (peq_spec _ _) eq_refl). reflexivity. }
  assert (B2 : match pv with None => Ok false | Some n0 => do p <- rd_next h (Some n0); Ok (negb (peq p (Some id))) end = Ok false).
  { destruct pv as [j|]; [|reflexivity]. destruct (M2 j eq_refl) as [k Ek]. unfold rd_next. cbn [rd]. rewrite Ek. cbn [bind fst].
    rewrite (proj2 (peq_spec _ _) eq_refl). reflexivity. }
  rewrite B1. cbn [bind]. rewrite B2. cbn [bind]. destruct c; cbn [red_black] in R.
  - destruct R as (_ & _ & Rl & Rr). rewrite (IHl _ Rl Ml), (IHr _ Rr Mr). cbn [bind].
    destruct (Z.ltb_spec (Z.of_nat n + 1) 0); [lia|]. rewrite Z.eqb_refl. cbn [orb negb]. f_equal. lia.
  - destruct R as (k & -> & Rl & Rr). rewrite (IHl _ Rl Ml), (IHr _ Rr Mr). cbn [bind].
    destruct (Z.ltb_spec (Z.of_nat k + 1) 0); [lia|]. rewrite Z.eqb_refl. cbn [orb negb]. f_equal. lia.
Qed.
Lemma verify_pos h t z : verify (Ok false) h t = Ok z -> (0 < z)%Z ->
  exists n, z = (Z.of_nat n + 1)%Z /\ red_black t n /\ forall i, In i (nodes t) -> mutual h i.
Proof.
  revert z. induction t as [|c l IHl id r IHr]; intros z; cbn [verify bind].
  { intros E _. injection E as <-. exists 0. cbn [red_black nodes In]. repeat split; auto. intros i []. }
  rewrite !color_is_red. cbn [bind].
  destruct (if c then _ else _) as [bad| |] eqn:B; cbn [bind]; try discriminate. destruct bad. { intros E. injection E as <-. lia. }
  cbn [rd]. destruct (h id) as [[nx pv]|] eqn:Eh; cbn [bind fst snd]; try discriminate.
  destruct (match nx with None => _ | Some n => _ end) as [b1| |] eqn:B1; cbn [bind]; try discriminate. destruct b1. { intros E. injection E as <-. lia. }
  destruct (match pv with None => _ | Some n => _ end) as [b2| |] eqn:B2; cbn [bind]; try discriminate. destruct b2. { intros E. injection E as <-. lia. }
  destruct (verify (Ok false) h l) as [a| |] eqn:Ea; cbn [bind]; try discriminate.
  destruct (verify (Ok false) h r) as [b| |]; cbn [bind]; try discriminate.
  destruct (Z.ltb_spec a 0); cbn [orb]. { intros E. injection E as <-. lia. }
  destruct (Z.ltb_spec b 0); cbn [orb]. { intros E. injection E as <-. lia. }
  destruct (Z.eqb_spec b a); cbn [negb]. 2:{ intros E. injection E as <-. lia. }
  intros E P. injection E as <-. subst b. apply verify_range in Ea. specialize (IHl a eq_refl). specialize (IHr a eq_refl).
  assert (Pa : (0 < a)%Z) by lia.
  destruct (IHl Pa) as (n & En & Rl & Ml). destruct (IHr Pa) as (n' & En' & Rr & Mr). assert (n' = n) by lia. subst n'.
  assert (M : mutual h id).
  { exists nx, pv. split; [exact Eh|]. split; intros j ->.
    - revert B1. unfold rd_prev. cbn [rd]. destruct (h j) as [[k p]|]; cbn [bind snd]; try discriminate. intros B1. injection B1 as B1.
      apply negb_false_iff, peq_spec in B1. subst. eauto.
    - revert B2. unfold rd_next. cbn [rd]. destruct (h j) as [[k p]|]; cbn [bind fst]; try discriminate. intros B2. injection B2 as B2.
      apply negb_false_iff, peq_spec in B2. subst. eauto. }
  assert (Mall : forall i, In i (nodes (Node c l id r)) -> mutual h i).
  { cbn [nodes]. intros i Hi. apply in_app_iff in Hi. destruct Hi as [Hi|[<-|Hi]]; auto. }
  destruct c.
  - exists n. split; [lia|]. split; [|exact Mall]. cbn [red_black]. destruct (is_red l); [discriminate|]. injection B as ->. auto.
  - exists (S n). split; [lia|]. split; [|exact Mall]. cbn [red_black]. eauto.
Qed.
Lemma nodes_ids t : nodes t = ids t.
Proof. induction t as [|c l IHl id r IHr]; cbn [nodes ids]; [reflexivity|]. now rewrite IHl, IHr. Qed.
Lemma list_mutual h f la l i : list_at h f la l -> In i l -> mutual h i.
Proof.
  intros (_ & _ & H) Hi. apply In_nth_error in Hi. destruct Hi as [k Hk]. unfold mutual.
  exists (nth_error l (S k)), (match k with 0 => None | S j => nth_error l j end). split; [apply H, Hk|]. split; intros j Hj.
  - rewrite (H (S k) j Hj). eexists. now rewrite Hk.
  - destruct k as [|k]; [discriminate|]. rewrite (H k j Hj). eexists. now rewrite Hk.
Qed.

(* --- Clear --- *)
Lemma clear_walk_spec fuel q ow h l c : NoDup l -> c = nth_error l 0 ->
  (forall k x, nth_error l k = Some x -> exists p, h x = Some (nth_error l (S k), p)) ->
  (forall i, In i l -> ow i = q) -> length l <= fuel -> clear_walk fuel (Some q) ow h c = Ok l.
Proof.
  revert h l c. induction fuel as [|f IH]; intros h l c N C H O L.
  - destruct l; cbn [length] in L; [|lia]. subst c. reflexivity.
  - destruct l as [|i l]; subst c; cbn [nth_error clear_walk]; [reflexivity|].
    rewrite (O i (or_introl eq_refl)), Nat.eqb_refl. destruct (H 0 i eq_refl) as [p Ep]. unfold rd_next. cbn [rd]. rewrite Ep. cbn [bind fst].
    inversion N as [|? ? Ni N']; subst. rewrite (IH (fset h i None) l); [reflexivity|exact N'|reflexivity| | |cbn [length] in L; lia].
    + intros k x Hk. destruct (H (S k) x Hk) as [p' Ep']. exists p'. unfold fset. destruct (Nat.eqb_spec x i) as [->|_]; [|exact Ep'].
      exfalso. apply Ni. eapply nth_error_In, Hk.
    + intros j Hj. apply O. now right.
Qed.
Lemma clear_wrong fuel p q ow h l c x : c = Some x -> p = Some q -> ow x <> q -> clear_walk fuel p ow h c <> Ok l.
Proof. intros -> -> W. destruct fuel; cbn [clear_walk]; [discriminate|]. destruct (Nat.eqb_spec (ow x) q); [easy|discriminate]. Qed.

Section Life.
Context {T : Type} (cmp : T -> T -> Z) (TP : total_preorder cmp).
Lemma reach_shows s : reachable cmp s -> exists l, shows cmp s l /\ length l <= nxt s.
Proof.
  intros R. destruct (reachable_inv cmp TP s R) as [gs I]. exists (contents s (flat gs)). split; [apply (inv_shows cmp TP s gs I)|].
  destruct I as (_ & _ & L & B & _). unfold contents. rewrite map_length. rewrite <- (seq_length (nxt s) 0).
  apply NoDup_incl_length; [eapply list_at_nodup, L|]. intros i Hi. apply in_seq. specialize (B i Hi). lia.
Qed.
Lemma reach_mutual s : reachable cmp s -> forall i, In i (nodes (root s)) -> mutual (hp s) i.
Proof.
  intros R i Hi. destruct (reachable_inv cmp TP s R) as [gs (_ & Ei & L & _)]. rewrite nodes_ids, Ei in Hi. apply (list_mutual _ _ _ _ _ L).
  apply in_map_iff in Hi. destruct Hi as (g & <- & Hg). apply in_flat. eauto.
Qed.
Lemma sound_clear m o : sound cmp m o -> exists l, shows cmp (tr o) l /\
  Clear o = Ok ({| tr := emptied (tr o); nilp := nilp o; pol := pol o; own := own o |}, map fst l).
Proof.
  intros (R & q & P & _ & O). destruct (reach_shows _ R) as (l & Sl & Ln). exists l. split; [exact Sl|]. unfold Clear. rewrite P.
  rewrite (clear_walk_spec _ q _ _ (map fst l)); [reflexivity| | | | |rewrite map_length; exact Ln].
  - destruct Sl as (L & _). eapply list_at_nodup, L.
  - destruct Sl as (L & _). apply L.
  - intros k x Hk. destruct Sl as ((_ & _ & H) & _). eexists. apply H, Hk.
  - intros i Hi. apply in_map_iff in Hi. destruct Hi as ([i' v] & <- & Hi). eapply O; eauto.
Qed.
Lemma new_shows v : shows cmp (new_trb v) [].
Proof.
  destruct (reach_shows (new_trb v) (r_new cmp v)) as (l & Sl & Ln). cbn [new_trb nxt] in Ln. destruct l; [exact Sl|cbn [length] in Ln; lia].
Qed.
Lemma shows_empty v l : shows cmp (new_trb v) l -> l = [].
Proof. intros H. apply (shows_fun cmp _ _ _ H (new_shows v)). Qed.
Lemma sound_verify m o : reachable cmp (tr o) -> (exists q k, cells m (nilp o) = Some (q, Built k)) ->
  exists n, DEBUGVERIFY m o = Ok (Z.of_nat n + 1)%Z.
Proof.
  intros R (q & k & C). unfold DEBUGVERIFY. rewrite C. destruct (C34_TRBtree_red_black T cmp TP _ R) as (_ & n & B).
  exists n. apply verify_good; [exact B|]. apply reach_mutual, R.
Qed.
End Life.

(* DEBUGVERIFY returns one more than the number of black nodes on every path when the tree is a red-black tree whose
   nodes are linked both ways in the thread, and -1 or nothing else otherwise. *)
Theorem C191_verify : forall h t,
  (forall n, red_black t n -> (forall i, In i (nodes t) -> mutual h i) -> verify (Ok false) h t = Ok (Z.of_nat n + 1)%Z) /\
  (forall z, verify (Ok false) h t = Ok z ->
     (exists n, z = (Z.of_nat n + 1)%Z /\ red_black t n /\ forall i, In i (nodes t) -> mutual h i) \/
     (z = (-1)%Z /\ ~ ((exists n, red_black t n) /\ forall i, In i (nodes t) -> mutual h i))).
Proof.
  intros h t. split; [apply verify_good|]. intros z E. destruct (verify_range h t z E) as [P|N]; [left; eapply verify_pos; eauto|right].
  split; [exact N|]. intros [[n R] M]. rewrite (verify_good h t n R M) in E. injection E as E. lia.
Qed.
Print Assumptions C191_verify.

(* From its construction on, a tree object passes DEBUGVERIFY; Insert and Remove keep it in good order; the destructor gives
   back each of its nodes once, in order, and its sentinel, to the policy they came from, losing no value. *)
Theorem C191_lifetime : forall (T : Type) (cmp : T -> T -> Z), total_preorder cmp -> forall m,
  (forall q v, exists m' o, new_obj m (Some q) v = Ok (m', o) /\ sound cmp m' o /\ shows cmp (tr o) [] /\ pol o = Some q /\ lost m' = lost m /\
     forall a, a <> nilp o -> cells m' a = cells m a) /\
  (forall o, sound cmp m o ->
    (exists z, DEBUGVERIFY m o = Ok z /\ (0 < z)%Z) /\
    (forall l op, shows cmp (tr o) l -> valid op l -> exists o' r s', o_step cmp o op = Ok (o', r) /\ sound cmp m o' /\
       t_step cmp (tr o) op = Ok (s', r) /\ tr o' = s' /\ nilp o' = nilp o /\ pol o' = pol o) /\
    (forall l, shows cmp (tr o) l -> exists m', destroy m o = Ok (m', map fst l) /\ lost m' = lost m /\
       cells m' (nilp o) = None /\ forall a, a <> nilp o -> cells m' a = cells m a)).
Proof.
  intros T cmp TP m. split.
  { intros q v. unfold new_obj, alloc. cbn [bind]. unfold construct. cbn [cells]. unfold fset at 1. rewrite Nat.eqb_refl. cbn [bind fresh lost].
    eexists _, _. split; [reflexivity|]. cbn [tr nilp pol lost cells]. split; [|split; [apply new_shows, TP|split; [reflexivity|split; [reflexivity|]]]].
    - split; [apply r_new|]. exists q. cbn [tr nilp pol cells own]. split; [reflexivity|]. split; [unfold fset; now rewrite Nat.eqb_refl|].
      intros l Sl i u Hi. apply (shows_empty cmp TP) in Sl. subst l. destruct Hi.
    - intros a Ha. unfold fset. destruct (Nat.eqb_spec a (fresh m)); [easy|reflexivity]. }
  intros o So. pose proof So as (R & q & P & C & O). split; [|split].
  - destruct (sound_verify cmp TP m o R) as [n E]; [eauto|]. exists (Z.of_nat n + 1)%Z. split; [exact E|lia].
  - intros l op Sl V. destruct (proj2 (C34_TRBtree_sorted_sequence T cmp TP (tr o) R) l op Sl V) as (s' & r & l' & E & Sl' & Ef).
    assert (R' : reachable cmp s').
    { eapply r_step; [exact R| |exact E]. intros l2 Sl2. rewrite (shows_fun cmp _ _ _ Sl2 Sl). exact V. }
    unfold o_step. rewrite P, E. cbn [bind].
    destruct (match op with OInsert _ => None | ORemove x => Get cmp (tr o) x | ORemoveNode id => Some id end) as [id|] eqn:G.
    + assert (Hid : exists v, In (id, v) l).
      { destruct op as [x|x|i]; [discriminate| |].
        - destruct Sl as (_ & _ & _ & Hg). specialize (Hg x). rewrite G in Hg. destruct Hg as (v & Hv & _). eauto.
        - injection G as ->. cbn [valid] in V. apply in_map_iff in V. destruct V as ([i v] & Hf & Hv). cbn [fst] in Hf. subst. eauto. }
      destruct Hid as [v Hv]. rewrite (O l Sl id v Hv), Nat.eqb_refl. eexists _, r, s'. split; [reflexivity|]. cbn [tr nilp pol own].
      split; [|repeat split; reflexivity]. split; [exact R'|]. exists q. cbn [tr nilp pol own]. split; [first [exact P|reflexivity]|]. split; [exact C|].
      intros l2 Sl2 i u Hi. rewrite (shows_fun cmp _ _ _ Sl2 Sl') in Hi. apply (O l Sl i u).
      destruct op as [x|x|i0]; cbn [effect] in Ef; [discriminate| |].
      * destruct Ef as [_ Ef]. destruct Sl as (S1 & S2 & S3 & Hg). pose proof (Hg x) as Hgx. rewrite G in Hgx.
        destruct Hgx as (w & Hw & Cw). destruct Ef as (a & id' & v' & b & -> & -> & _). { exists id, w. auto. }
        apply in_app_iff in Hi. apply in_app_iff. destruct Hi; [now left|right; now right].
      * destruct Ef as (a & v' & b & -> & ->). apply in_app_iff in Hi. apply in_app_iff. destruct Hi; [now left|right; now right].
    + eexists _, r, s'. split; [reflexivity|]. cbn [tr nilp pol own]. split; [|repeat split; reflexivity]. split; [exact R'|].
      exists q. cbn [tr nilp pol own]. split; [first [exact P|reflexivity]|]. split; [exact C|].
      intros l2 Sl2 i u Hi. rewrite (shows_fun cmp _ _ _ Sl2 Sl') in Hi.
      destruct op as [x|x|i0]; cbn [effect] in Ef; [| |discriminate].
      * destruct Ef as (n & a & b & -> & -> & ->). unfold fset. destruct (Nat.eqb_spec i n) as [_|Ne]; [reflexivity|]. apply (O _ Sl i u).
        apply in_app_iff in Hi. apply in_app_iff. destruct Hi as [Hi|[Hi|Hi]]; [now left| |now right]. congruence.
      * destruct Ef as [Ef _]. destruct Sl as (S1 & S2 & S3 & Hg). pose proof (Hg x) as Hgx. rewrite G in Hgx.
        destruct (Ef Hgx) as [-> ->]. apply (O l (conj S1 (conj S2 (conj S3 Hg))) i u Hi).
  - intros l Sl. destruct (sound_clear cmp TP m o So) as (l' & Sl' & E). rewrite (shows_fun cmp _ _ _ Sl Sl'). unfold destroy. rewrite E. cbn [bind nilp pol].
    unfold destruct_node. rewrite C. cbn [bind]. unfold dealloc. rewrite P. cbn [cells]. unfold fset at 1. rewrite Nat.eqb_refl, Nat.eqb_refl.
    cbn [bind]. eexists. split; [reflexivity|]. cbn [lost cells fresh]. split; [lia|]. unfold fset. split; [now rewrite Nat.eqb_refl|].
    intros a Ha. destruct (Nat.eqb_spec a (nilp o)); [easy|reflexivity].
Qed.
Print Assumptions C191_lifetime.

(* Move assignment between two trees with the same policy (always so without one): the target gives back its old nodes and
   has the nodes of the source, which is left empty; both are in good order. *)
Theorem C191_move_assign_partial : forall (T : Type) (cmp : T -> T -> Z), total_preorder cmp ->
  forall m d s ld ls, sound cmp m d -> sound cmp m s -> pol d = pol s -> shows cmp (tr d) ld -> shows cmp (tr s) ls ->
  exists d' s', move_assign d s = Ok (d', s', map fst ld) /\
    tr d' = tr s /\ shows cmp (tr s') [] /\ sound cmp m d' /\ sound cmp m s' /\ nilp d' = nilp s /\ nilp s' = nilp d.
Proof.
  intros T cmp TP m d s ld ls Sd Ss Ep Hd Hs. destruct (sound_clear cmp TP m d Sd) as (l & Hl & E). rewrite (shows_fun cmp _ _ _ Hd Hl).
  unfold move_assign. rewrite E. cbn [bind pol nilp own]. eexists _, _. split; [reflexivity|]. cbn [tr nilp].
  destruct Sd as (Rd & q & P & C & O), Ss as (Rs & q' & P' & C' & O'). assert (q' = q) by congruence. subst q'.
  split; [reflexivity|]. split; [apply new_shows, TP|]. split; [|split; [|auto]].
  - split; [exact Rs|]. exists q. cbn [tr nilp pol own]. auto.
  - split; [apply r_new|]. exists q. cbn [tr nilp pol own]. split; [exact P'|]. split; [exact C|].
    intros l2 Sl i u Hi. apply (shows_empty cmp TP) in Sl. subst. destruct Hi.
Qed.
Print Assumptions C191_move_assign_partial.

(* With different policies the nodes change hands but the policies do not: neither tree can be destroyed. *)
Theorem C191_move_assign_refuted : forall (T : Type) (cmp : T -> T -> Z), total_preorder cmp ->
  forall m d s, sound cmp m d -> sound cmp m s -> pol d <> pol s ->
  exists d' s' l, move_assign d s = Ok (d', s', l) /\
    (forall r, destroy m d' <> Ok r) /\ (forall r, destroy m s' <> Ok r).
Proof.
  intros T cmp TP m d s Sd Ss Np. destruct (sound_clear cmp TP m d Sd) as (l & Hl & E).
  unfold move_assign. rewrite E. cbn [bind pol nilp own]. eexists _, _, _. split; [reflexivity|].
  destruct Sd as (Rd & q & P & C & O), Ss as (Rs & q' & P' & C' & O'). assert (Nq : q <> q') by congruence.
  split; intros r; unfold destroy, Clear; cbn [tr nilp pol own].
  - destruct (clear_walk _ _ _ _ _); cbn [bind nilp pol]; try discriminate. unfold destruct_node. rewrite C'. cbn [bind].
    unfold dealloc. rewrite P. cbn [cells]. unfold fset at 1. rewrite Nat.eqb_refl. destruct (Nat.eqb_spec q q'); [easy|discriminate].
  - destruct (clear_walk _ _ _ _ _); cbn [bind nilp pol]; try discriminate. unfold destruct_node. rewrite C. cbn [bind].
    unfold dealloc. rewrite P'. cbn [cells]. unfold fset at 1. rewrite Nat.eqb_refl. destruct (Nat.eqb_spec q' q); [congruence|discriminate].
Qed.
Print Assumptions C191_move_assign_refuted.

(* Move construction: the new tree has the nodes of the source and passes DEBUGVERIFY; the source shows no element. *)
Theorem C191_move_construct_partial : forall (T : Type) (cmp : T -> T -> Z) (stateless : bool), total_preorder cmp ->
  forall m s, sound cmp m s -> cells m (fresh m) = None ->
  exists m' d s', move_ctor stateless m s = Ok (m', (d, s')) /\ tr d = tr s /\ pol d = pol s /\ nilp d = nilp s /\
    shows cmp (tr s') [] /\ (exists z, DEBUGVERIFY m' d = Ok z /\ (0 < z)%Z).
Proof.
  intros T cmp st TP m s Ss F. pose proof Ss as (R & q & P & C & O).
  assert (Ne : nilp s <> fresh m) by congruence.
  unfold move_ctor, alloc. rewrite P. cbn [bind]. unfold construct. cbn [cells]. unfold fset at 1.
  destruct (Nat.eqb_spec (nilp s) (fresh m)); [easy|]. rewrite C. cbn [bind fresh lost].
  eexists _, _, _. split; [reflexivity|]. cbn [tr pol nilp]. split; [reflexivity|]. split; [reflexivity|]. split; [reflexivity|].
  split; [apply new_shows, TP|].
  match goal with |- context [DEBUGVERIFY ?M ?D] => destruct (sound_verify cmp TP M D R) as [k Ek] end.
  { exists q, 2. cbn [cells nilp]. unfold fset. now rewrite Nat.eqb_refl. }
  rewrite Ek. eexists. split; [reflexivity|]. lia.
Qed.
Print Assumptions C191_move_construct_partial.

(* But the sentinel is constructed in the wrong place: whatever the source held, checking or destroying it afterwards is
   undefined behaviour, a value of the sentinel of the new tree is never destroyed, and with a policy allocator no
   operation on the source is possible, as its policy is gone. *)
Theorem C191_move_construct_refuted : forall (T : Type) (cmp : T -> T -> Z) (stateless : bool), total_preorder cmp ->
  forall m s, sound cmp m s -> cells m (fresh m) = None ->
  exists m' d s', move_ctor stateless m s = Ok (m', (d, s')) /\
    DEBUGVERIFY m' s' = UB /\ destroy m' s' = UB /\
    (exists m2 l, destroy m' d = Ok (m2, l) /\ lost m2 = S (lost m)) /\
    (stateless = false -> forall op, o_step cmp s' op = UB).
Proof.
  intros T cmp st TP m s Ss F. pose proof Ss as (R & q & P & C & O).
  assert (Ne : nilp s <> fresh m) by congruence.
  unfold move_ctor, alloc. rewrite P. cbn [bind]. unfold construct. cbn [cells]. unfold fset at 1.
  destruct (Nat.eqb_spec (nilp s) (fresh m)); [easy|]. rewrite C. cbn [bind fresh lost].
  eexists _, _, _. split; [reflexivity|].
  match goal with |- DEBUGVERIFY ?M ?D = _ /\ _ => assert (Cn : cells M (fresh m) = Some (q, Raw)) end.
  { cbn [cells]. unfold fset. destruct (Nat.eqb_spec (fresh m) (nilp s)); [congruence|]. now rewrite Nat.eqb_refl. }
  split; [|split; [|split]].
  - unfold DEBUGVERIFY. cbn [nilp tr emptied new_trb root hp]. rewrite Cn. reflexivity.
  - unfold destroy, Clear. cbn [tr nilp pol own emptied new_trb nxt hp first clear_walk bind]. unfold destruct_node. rewrite Cn. reflexivity.
  - destruct (sound_clear cmp TP m s Ss) as (l & Hl & E). unfold Clear in E. rewrite P in E.
    unfold destroy, Clear. cbn [tr nilp pol own].
    destruct (clear_walk _ _ _ _ _) as [l'| |]; cbn [bind] in E |- *; try discriminate.
    unfold destruct_node. cbn [nilp cells]. unfold fset at 1. rewrite Nat.eqb_refl. cbn [bind pol]. unfold dealloc. cbn [cells]. unfold fset at 1.
    rewrite Nat.eqb_refl, Nat.eqb_refl. cbn [bind]. eexists _, _. split; [reflexivity|]. cbn [lost]. lia.
  - intros -> op. reflexivity.
Qed.
Print Assumptions C191_move_construct_refuted.

(* two trees of policy 7: five values in one, one in the other *)
Definition m0 : mem := {| cells := fun _ => None; fresh := 3; lost := 0 |}.
Definition ins (o : obj Z) (xs : list Z) : res (obj Z) := fold_left (fun r x => do o <- r; do (o1, _) <- o_step zcmp o (OInsert x); Ok o1) xs (Ok o).
Example C191_example : exists m1 m2 a b a1 b1 b2 a2 l m3 m4,
  new_obj m0 (Some 7) (fun _ => 0%Z) = Ok (m1, a) /\ new_obj m1 (Some 7) (fun _ => 0%Z) = Ok (m2, b) /\
  ins a [4; 2; 9; 2; 5]%Z = Ok a1 /\ ins b [1]%Z = Ok b1 /\ DEBUGVERIFY m2 a1 = Ok 3%Z /\ DEBUGVERIFY m2 b1 = Ok 2%Z /\
  move_assign b1 a1 = Ok (b2, a2, l) /\ l = [0] /\ DEBUGVERIFY m2 b2 = Ok 3%Z /\ DEBUGVERIFY m2 a2 = Ok 1%Z /\
  destroy m2 b2 = Ok (m3, [1; 3; 0; 4; 2]) /\ destroy m3 a2 = Ok (m4, []) /\ lost m4 = 0 /\ cells m4 3 = None /\ cells m4 4 = None.
Proof.
  do 11 eexists. repeat (split; [vm_compute; reflexivity|]). vm_compute. reflexivity.
Qed.
(* the hypotheses of the theorems hold of them *)
Example C191_sound : exists m1 m2 a b, new_obj m0 (Some 7) (fun _ => 0%Z) = Ok (m1, a) /\ new_obj m1 (Some 8) (fun _ => 0%Z) = Ok (m2, b) /\
  sound zcmp m2 a /\ sound zcmp m2 b /\ pol a <> pol b /\ cells m2 (fresh m2) = None.
Proof.
  destruct (proj1 (C191_lifetime Z zcmp (proj1 zcmp_preorder) m0) 7 (fun _ => 0%Z)) as (m1 & a & E1 & S1 & _).
  destruct (proj1 (C191_lifetime Z zcmp (proj1 zcmp_preorder) m1) 8 (fun _ => 0%Z)) as (m2 & b & E2 & S2 & _).
  exists m1, m2, a, b. split; [exact E1|]. split; [exact E2|]. vm_compute in E1. injection E1 as <- <-.
  vm_compute in E2. injection E2 as <- <-. split; [|split; [exact S2|split; [discriminate|reflexivity]]].
  destruct S1 as (R & q & P & C & O). split; [exact R|]. exists q. split; [exact P|]. split; [exact C|exact O].
Qed.
