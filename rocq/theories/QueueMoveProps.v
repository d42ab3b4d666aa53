(* C203: queues that are moved and destroyed *)
From Coq Require Import List ZArith Arith Bool Lia ZifyBool ZifyNat.
From Verif Require Import Common QueueMove.
Import ListNotations.

(** What a user expects.  A queue is not there, there and emptied by a move (Gone), or holds its items; using a queue that is Gone for anything but
    destroying it or assigning to it is not defined (None).  With every operation goes the number of nodes nobody can reach any more:
    assigning to a queue loses one for each of its items and one more. *)
Inductive content (T : Type) := Gone | Items (l : list T).
Arguments Gone {T}. Arguments Items {T} l.
Definition nodes {T} (c : option (content T)) : nat := match c with Some (Items l) => S (length l) | _ => 0 end.
Definition expected {T} (s : list (option (content T))) (o : op T) : option (list (option (content T)) * out T * nat) :=
  match o with
  | Create i => match nth_error s i with Some None => Some (upd s i (Some (Items [])), ONone, 0) | _ => None end
  | Push i x => match nth_error s i with Some (Some (Items l)) => Some (upd s i (Some (Items (l ++ [x]))), ONone, 0) | _ => None end
  | Pop i => match nth_error s i with
             | Some (Some (Items [])) => Some (s, OPop None, 0)
             | Some (Some (Items (x :: l))) => Some (upd s i (Some (Items l)), OPop (Some x), 0)
             | _ => None
             end
  | Peek i => match nth_error s i with Some (Some (Items l)) => Some (s, OPeek (match l with [] => false | _ => true end), 0) | _ => None end
  | Length i => match nth_error s i with Some (Some (Items l)) => Some (s, OLen (Z.of_nat (length l)), 0) | _ => None end
  | MoveNew i j => match nth_error s i, nth_error s j with
                   | Some None, Some (Some c) => Some (upd (upd s i (Some c)) j (Some Gone), ONone, 0)
                   | _, _ => None
                   end
  | MoveAssign i j => match nth_error s i, nth_error s j with
                      | Some (Some c), Some (Some d) => Some (upd (upd s i (Some d)) j (Some Gone), ONone, nodes (Some c))
                      | _, _ => None
                      end
  | Destroy i => match nth_error s i with Some (Some c) => Some (upd s i None, ONone, 0) | _ => None end
  end.
Fixpoint expect {T} (s : list (option (content T))) (l : list (op T)) : option (list (option (content T)) * list (out T) * nat) :=
  match l with
  | [] => Some (s, [], 0)
  | o :: l => match expected s o with
              | None => None
              | Some (s1, a, k) => match expect s1 l with None => None | Some (s2, b, m) => Some (s2, a :: b, k + m) end
              end
  end.
(** the nodes of all queues: one for each item, and one more for each queue *)
Definition held {T} (s : list (option (content T))) : nat := list_sum (map nodes s).

Section Proof.
  Context {T : Type}.
  Local Notation heap_t := (list (option (node T))).
  Local Notation spec_t := (list (option (content T))).

  Fixpoint chain (h : heap_t) (d : nat) (t : list nat) (xs : list T) : Prop :=
    match t, xs with
    | [], [] => exists it, nth_error h d = Some (Some (Node None it))
    | n :: t, x :: xs => (exists it, nth_error h d = Some (Some (Node (Some n) it))) /\ (exists nx, nth_error h n = Some (Some (Node nx (Some x)))) /\ chain h n t xs
    | _, _ => False
    end.
  Definition rep (h : heap_t) (q : option queue) (c : option (content T)) (ns : list nat) : Prop :=
    match q, c with
    | None, None => ns = []
    | Some q, Some Gone => div q = None /\ lastn q = None /\ ns = []
    | Some q, Some (Items xs) => len q = Z.of_nat (length xs) /\ exists d t, ns = d :: t /\ NoDup ns /\ div q = Some d /\ lastn q = Some (last t d) /\ chain h d t xs
    | _, _ => False
    end.
  Definition inv (s : st T) (sp : spec_t) (lost : nat) : Prop :=
    length (objs s) = length sp /\ live s = held sp + lost /\
    exists own : nat -> list nat, (forall i j a, In a (own i) -> In a (own j) -> i = j) /\
      forall i q c, nth_error (objs s) i = Some q -> nth_error sp i = Some c -> rep (heap s) q c (own i).

  Lemma chain_frame h h' : forall t d xs, (forall a, In a (d :: t) -> nth_error h' a = nth_error h a) -> chain h d t xs -> chain h' d t xs.
  Proof.
    induction t as [|n t IH]; intros d [|x xs] F C; cbn [chain] in *; try contradiction.
    - destruct C as [it E]. exists it. rewrite F; [exact E|now left].
    - destruct C as [[it E] [[nx E2] C]]. split; [exists it; rewrite F; [exact E|now left]|]. split; [exists nx; rewrite F; [exact E2|right; now left]|].
      apply IH; [|exact C]. intros a I. apply F. now right.
  Qed.
  Lemma rep_frame h h' q c ns : (forall a, In a ns -> nth_error h' a = nth_error h a) -> rep h q c ns -> rep h' q c ns.
  Proof.
    intros F. unfold rep. destruct q as [q|], c as [[|xs]|]; auto. intros [L [d [t [-> [N [D [E C]]]]]]]. split; [exact L|]. exists d, t. repeat split; auto. eapply chain_frame; eauto.
  Qed.
  Lemma chain_live h : forall t d xs, chain h d t xs -> forall a, In a (d :: t) -> exists n, nth_error h a = Some (Some n).
  Proof.
    induction t as [|n t IH]; intros d [|x xs] C a I; cbn [chain] in *; try contradiction.
    - destruct C as [it E]. destruct I as [<-|[]]. eauto.
    - destruct C as [[it E] [_ C]]. destruct I as [<-|I]; [eauto|]. exact (IH _ _ C _ I).
  Qed.
  Lemma rep_live h q c ns : rep h q c ns -> forall a, In a ns -> exists n, nth_error h a = Some (Some n).
  Proof.
    unfold rep. destruct q as [q|], c as [[|xs]|]; try contradiction; [intros [_ [_ ->]] ? []| |intros -> ? []]. intros [L [d [t [-> [N [D [E C]]]]]]]. eapply chain_live; eauto.
  Qed.
  Lemma rep_nodes h q c ns : rep h q c ns -> length ns = nodes c.
  Proof.
    unfold rep. destruct q as [q|], c as [[|xs]|]; try contradiction; [intros [_ [_ ->]]; reflexivity| |intros ->; reflexivity].
    intros [L [d [t [-> [N [D [E C]]]]]]]. cbn [length nodes]. f_equal. clear - C. revert d xs C. induction t as [|n t IH]; intros d [|x xs] C; cbn [chain] in C; try contradiction; [reflexivity|]. cbn. f_equal. eapply IH. apply C.
  Qed.
  Lemma held_upd (sp : spec_t) i c c' : nth_error sp i = Some c -> held (upd sp i c') + nodes c = held sp + nodes c'.
  Proof.
    unfold held. revert i. induction sp as [|x l IH]; intros [|i] E; try discriminate; cbn in *; [injection E as ->; lia|]. specialize (IH i E). unfold list_sum in IH. lia.
  Qed.
  Local Notation lv h := (length (filter (fun c : option (node T) => match c with Some _ => true | None => false end) h)).
  Lemma live_app h n : lv (h ++ [Some n]) = S (lv h).
  Proof. rewrite filter_app, app_length. cbn. lia. Qed.
  Lemma live_upd h a n m : nth_error h a = Some (Some n) -> lv (upd h a (Some m)) = lv h.
  Proof. revert a. induction h as [|x l IH]; intros [|a] E; try discriminate; cbn in *; [injection E as ->; reflexivity|]. specialize (IH a E). destruct x; cbn; congruence. Qed.
  Lemma live_free h a n : nth_error h a = Some (Some n) -> S (lv (upd h a None)) = lv h.
  Proof. revert a. induction h as [|x l IH]; intros [|a] E; try discriminate; cbn in *; [injection E as ->; reflexivity|]. specialize (IH a E). destruct x; cbn; congruence. Qed.

  Lemma chain_last h : forall t d xs, chain h d t xs -> exists it, nth_error h (last t d) = Some (Some (Node None it)).
  Proof.
    induction t as [|n t IH]; intros d [|x xs] C; cbn [chain] in C; try contradiction; [exact C|]. destruct C as [_ [_ C]]. specialize (IH _ _ C).
    replace (last (n :: t) d) with (last t n); [exact IH|]. clear. revert n. induction t as [|m t IH]; intros n; [reflexivity|]. cbn [last] in *. destruct t; auto.
  Qed.
  Lemma last_cons (t : list nat) n d : last (n :: t) d = last t n.
  Proof. revert n. induction t as [|m t IH]; intros n; [reflexivity|]. cbn [last] in *. destruct t; auto. Qed.
  Lemma chain_push h x a b it : forall t d xs, chain h d t xs -> NoDup (d :: t) -> a = last t d -> nth_error h a = Some (Some (Node None it)) ->
    b = length h -> chain (upd (h ++ [Some (Node None (Some x))]) a (Some (Node (Some b) it))) d (t ++ [b]) (xs ++ [x]).
  Proof.
    intros t d xs C N A E B. assert (AL : a < length h) by (eapply nth_error_lt; eauto).
    assert (NB : nth_error (upd (h ++ [Some (Node None (Some x))]) a (Some (Node (Some b) it))) b = Some (Some (Node None (Some x)))).
    { rewrite nth_error_upd_neq by lia. rewrite nth_error_app2 by lia. now rewrite B, Nat.sub_diag. }
    assert (NA : nth_error (upd (h ++ [Some (Node None (Some x))]) a (Some (Node (Some b) it))) a = Some (Some (Node (Some b) it))).
    { apply nth_error_upd_eq. rewrite app_length. lia. }
    assert (NO : forall k n, k <> a -> nth_error h k = Some n -> nth_error (upd (h ++ [Some (Node None (Some x))]) a (Some (Node (Some b) it))) k = Some n).
    { intros k n K H. rewrite nth_error_upd_neq by auto. rewrite nth_error_app1 by (eapply nth_error_lt; eauto). exact H. }
    set (h' := upd _ _ _) in *. clearbody h'.
    revert d xs C N A. induction t as [|n t IH]; intros d [|y xs] C N A; cbn [chain] in C; try contradiction.
    - cbn [last] in A. subst d. cbn [app chain]. split; [exists it; exact NA|]. split; [exists None; exact NB|]. exists (Some x). exact NB.
    - destruct C as [[it' D] [[nx M] C]]. rewrite last_cons in A. cbn [app chain]. apply NoDup_cons_iff in N as [ND N].
      split; [exists it'; apply NO; [|exact D]; intros ->; congruence|]. split; [|apply IH; auto].
      destruct (Nat.eq_dec n a) as [->|K]; [exists (Some b); rewrite NA; congruence|exists nx; now apply NO].
  Qed.
  Lemma destroy_ok : forall t h d xs fuel, chain h d t xs -> NoDup (d :: t) -> length t < fuel ->
    exists h', destroy_loop fuel h (Some d) = Ok h' /\ lv h' + S (length t) = lv h /\ forall a, ~ In a (d :: t) -> nth_error h' a = nth_error h a.
  Proof.
    induction t as [|n t IH]; intros h d [|x xs] [|fuel] C N F; cbn [chain] in C; try contradiction; try lia; cbn [length] in F.
    - destruct C as [it E]. cbn [destroy_loop deref]. rewrite E. cbn [bind next]. assert (K : forall h : heap_t, destroy_loop fuel h None = Ok h) by (intros; now destruct fuel). rewrite K.
      eexists. split; [reflexivity|]. split; [rewrite <- (live_free h d _ E); cbn [length]; lia|]. intros a A. apply nth_error_upd_neq. intros ->. apply A. now left.
    - destruct C as [[it E] [_ C]]. cbn [destroy_loop deref]. rewrite E. cbn [bind next]. pose proof N as N0. apply NoDup_cons_iff in N as [ND N].
      destruct (IH (upd h d None) n xs fuel) as [h' [R [L O]]]; [|exact N|lia|].
      { eapply chain_frame; [|exact C]. intros a A. apply nth_error_upd_neq. intros ->. contradiction. }
      exists h'. split; [exact R|]. split; [rewrite <- (live_free h d _ E); cbn [length]; lia|]. intros a A. rewrite O by (intros I; apply A; now right). apply nth_error_upd_neq. intros ->. apply A. now left.
  Qed.

  Lemma start_inv n : inv (start n) (repeat None n) 0.
  Proof.
    split; [cbn; now rewrite !repeat_length|]. split; [cbn; unfold held; induction n; cbn in *; auto|].
    exists (fun _ => []). split; [intros ? ? ? []|]. intros i q c A B. cbn [objs start] in A. apply nth_error_In, repeat_spec in A. apply nth_error_In, repeat_spec in B. subst. reflexivity.
  Qed.

  Lemma slot (s : st T) sp lost i c : inv s sp lost -> nth_error sp i = Some c -> exists q, nth_error (objs s) i = Some q.
  Proof. intros [L _] E. apply nth_error_ex. rewrite L. eapply nth_error_lt; eauto. Qed.

  (** one place changes, the heap elsewhere does not *)
  Lemma inv_one s sp i q c h q' c' own ns' lost' :
    length (objs s) = length sp -> (forall k j a, In a (own k) -> In a (own j) -> k = j) ->
    (forall k q c, nth_error (objs s) k = Some q -> nth_error sp k = Some c -> rep (heap s) q c (own k)) ->
    nth_error (objs s) i = Some q -> nth_error sp i = Some c ->
    (forall a, In a ns' -> In a (own i) \/ a = length (heap s)) ->
    (forall a, ~ In a (own i) -> a < length (heap s) -> nth_error h a = nth_error (heap s) a) ->
    rep h q' c' ns' -> lv h = held (upd sp i c') + lost' ->
    inv (St h (upd (objs s) i q')) (upd sp i c') lost'.
  Proof.
    intros L D R Q C N F R' V. split; [cbn; now rewrite !upd_length|]. split; [exact V|].
    assert (LT : forall k, k < length sp -> forall a, In a (own k) -> a < length (heap s)).
    { intros k K a A. destruct (nth_error_ex sp k K) as [c1 C1]. rewrite <- L in K. destruct (nth_error_ex _ _ K) as [q1 Q1]. destruct (rep_live _ _ _ _ (R _ _ _ Q1 C1) _ A) as [n E]. eapply nth_error_lt; eauto. }
    exists (fun k => if k =? i then ns' else if k <? length sp then own k else []). split.
    - intros k j a A B. destruct (Nat.eqb_spec k i) as [->|K], (Nat.eqb_spec j i) as [->|J]; auto.
      + destruct (Nat.ltb_spec j (length sp)); [|contradiction]. specialize (LT j H a B). destruct (N a A) as [O|O]; [now apply (D i j a)|lia].
      + destruct (Nat.ltb_spec k (length sp)); [|contradiction]. specialize (LT k H a A). destruct (N a B) as [O|O]; [now apply (D k i a)|lia].
      + destruct (Nat.ltb_spec j (length sp)); [|contradiction]. destruct (Nat.ltb_spec k (length sp)); [|contradiction]. now apply (D k j a).
    - intros k q1 c1 Q1 C1. cbn [heap objs] in *. destruct (Nat.eqb_spec k i) as [->|K].
      + rewrite nth_error_upd_eq in Q1 by (eapply nth_error_lt; eauto). rewrite nth_error_upd_eq in C1 by (eapply nth_error_lt; eauto). congruence.
      + rewrite nth_error_upd_neq in Q1 by auto. rewrite nth_error_upd_neq in C1 by auto. pose proof (nth_error_lt _ _ _ C1). destruct (Nat.ltb_spec k (length sp)); [|lia].
        apply (rep_frame (heap s)); [|now apply R]. intros a A. apply F; [|now apply (LT k)]. intros B. apply K. now apply (D k i a).
  Qed.

  Lemma step_ok s sp lost o sp' a k : inv s sp lost -> expected sp o = Some (sp', a, k) -> exists s', step s o = Ok (s', a) /\ inv s' sp' (lost + k).
  Proof.
    intros I E. pose proof I as [L [V [own [D R]]]]. unfold live in V.
    destruct o as [i|i x|i|i|i|i j|i j|i]; cbn [expected step] in *.
    - destruct (nth_error sp i) as [[c|]|] eqn:C; try discriminate. injection E as <- <- <-. destruct (slot _ _ _ _ _ I C) as [q Q]. pose proof (R _ _ _ Q C) as RR.
      destruct q as [q|]; [destruct RR|]. unfold create. rewrite Q. eexists. split; [reflexivity|].
      eapply inv_one with (ns' := [length (heap s)]); eauto.
      + intros b [<-|[]]. now right.
      + intros b _ B. now apply nth_error_app1.
      + split; [reflexivity|]. exists (length (heap s)), []. repeat split; [repeat constructor; auto|]. exists None. rewrite nth_error_app2, Nat.sub_diag by lia. reflexivity.
      + rewrite live_app. pose proof (held_upd sp i _ (Some (Items [])) C). cbn [nodes length] in *. lia.
    - destruct (nth_error sp i) as [[[|xs]|]|] eqn:C; try discriminate. injection E as <- <- <-. destruct (slot _ _ _ _ _ I C) as [q Q]. pose proof (R _ _ _ Q C) as RR.
      destruct q as [q|]; [|destruct RR]. destruct RR as [RL [d [t [O [N [DD [LL CH]]]]]]]. destruct (chain_last _ _ _ _ CH) as [it LI]. pose proof (nth_error_lt _ _ _ LI) as LA.
      unfold push, obj. rewrite Q. cbn [bind]. rewrite LL. cbn [deref]. rewrite nth_error_app1 by exact LA. rewrite LI. cbn [bind item]. eexists. split; [reflexivity|].
      eapply inv_one with (ns' := own i ++ [length (heap s)]); eauto.
      + intros b B. apply in_app_iff in B as [B|[<-|[]]]; auto.
      + intros b B BL. rewrite nth_error_upd_neq; [now apply nth_error_app1|]. intros <-. apply B. rewrite O. clear. revert d. induction t as [|n t IH]; intros d; [now left|]. rewrite last_cons. right. apply IH.
      + rewrite O in *. split; [cbn [len]; rewrite app_length; cbn [length]; lia|]. exists d, (t ++ [length (heap s)]). split; [reflexivity|]. split.
        { change ((d :: t) ++ [length (heap s)]) with ((d :: t) ++ [length (heap s)]). apply NoDup_rev in N. rewrite <- (rev_involutive ((d :: t) ++ _)). apply NoDup_rev. rewrite rev_app_distr. cbn [rev app] in *. constructor; [|exact N].
          change (~ In (length (heap s)) (rev (d :: t))). rewrite <- in_rev. intros B. destruct (chain_live _ _ _ _ CH _ B) as [n BE]. apply nth_error_lt in BE. lia. }
        split; [exact DD|]. split; [cbn [lastn]; now rewrite last_last|]. eapply chain_push; eauto.
      + erewrite live_upd by (rewrite nth_error_app1 by exact LA; exact LI). rewrite live_app. pose proof (held_upd sp i _ (Some (Items (xs ++ [x]))) C). cbn [nodes] in *. rewrite app_length in H. cbn [length] in H. lia.
    - destruct (nth_error sp i) as [[[|[|x xs]]|]|] eqn:C; try discriminate; injection E as <- <- <-; destruct (slot _ _ _ _ _ I C) as [q Q]; pose proof (R _ _ _ Q C) as RR;
        (destruct q as [q|]; [|destruct RR]); destruct RR as [RL [d [t [O [N [DD [LL CH]]]]]]]; unfold pop, obj; rewrite Q; cbn [bind]; rewrite DD; cbn [deref].
      + destruct t; [|destruct CH]. destruct CH as [it CH]. rewrite CH. cbn [bind next]. exists s. split; [reflexivity|]. now rewrite Nat.add_0_r.
      + destruct t as [|n t]; [destruct CH|]. destruct CH as [[it DE] [[nx NE] CH]]. rewrite DE. cbn [bind next]. rewrite NE. cbn [bind item]. eexists. split; [reflexivity|]. rewrite O in *. pose proof N as N0. apply NoDup_cons_iff in N as [ND N].
        eapply inv_one with (ns' := n :: t); eauto.
        * intros b B. left. rewrite O. now right.
        * intros b B BL. apply nth_error_upd_neq. intros <-. apply B. rewrite O. now left.
        * split; [cbn [len length] in *; lia|]. exists n, t. repeat split; auto; [cbn [lastn]; now rewrite LL, last_cons|].
          eapply chain_frame; [|exact CH]. intros b B. apply nth_error_upd_neq. intros <-. contradiction.
        * pose proof (live_free _ _ _ DE). pose proof (held_upd sp i _ (Some (Items xs)) C). cbn [nodes length] in *. lia.
    - destruct (nth_error sp i) as [[[|xs]|]|] eqn:C; try discriminate. injection E as <- <- <-. destruct (slot _ _ _ _ _ I C) as [q Q]. pose proof (R _ _ _ Q C) as RR.
      destruct q as [q|]; [|destruct RR]. destruct RR as [RL [d [t [O [N [DD [LL CH]]]]]]]. unfold peek, obj. rewrite Q. cbn [bind]. rewrite DD. cbn [deref]. rewrite Nat.add_0_r. exists s.
      destruct t as [|n t], xs as [|x xs]; try destruct CH; [rewrite H|destruct H as [it DE]; rewrite DE]; cbn [bind next]; auto.
    - destruct (nth_error sp i) as [[[|xs]|]|] eqn:C; try discriminate. injection E as <- <- <-. destruct (slot _ _ _ _ _ I C) as [q Q]. pose proof (R _ _ _ Q C) as RR.
      destruct q as [q|]; [|destruct RR]. destruct RR as [RL _]. unfold qlength, obj. rewrite Q. cbn [bind]. rewrite RL, Nat.add_0_r. eauto.
    - destruct (nth_error sp i) as [[c|]|] eqn:C; try discriminate. destruct (nth_error sp j) as [[c2|]|] eqn:C2; try discriminate. injection E as <- <- <-.
      destruct (slot _ _ _ _ _ I C) as [q Q]. pose proof (R _ _ _ Q C) as RR. destruct q as [q|]; [destruct RR|].
      destruct (slot _ _ _ _ _ I C2) as [q2 Q2]. pose proof (R _ _ _ Q2 C2) as RR2. destruct q2 as [q2|]; [|destruct RR2].
      assert (IJ : i <> j) by congruence. unfold move_new, obj. rewrite Q, Q2. cbn [bind]. eexists. split; [reflexivity|].
      split; [cbn; now rewrite !upd_length|]. split.
      { unfold live; cbn [heap]. pose proof (held_upd sp i _ (Some c2) C). assert (C3 : nth_error (upd sp i (Some c2)) j = Some (Some c2)) by (now rewrite nth_error_upd_neq). pose proof (held_upd _ j _ (Some Gone) C3). cbn [nodes] in *. lia. }
      exists (fun k => if k =? i then own j else if k =? j then [] else own k). split.
      + intros k m b A B. destruct (Nat.eqb_spec k i) as [->|K], (Nat.eqb_spec m i) as [->|M]; auto.
        * destruct (Nat.eqb_spec m j) as [->|M2]; [contradiction|]. exfalso. apply M2. symmetry. now apply (D j m b).
        * destruct (Nat.eqb_spec k j) as [->|K2]; [contradiction|]. exfalso. apply K2. now apply (D k j b).
        * destruct (Nat.eqb_spec m j) as [->|M2]; [contradiction|]. destruct (Nat.eqb_spec k j) as [->|K2]; [contradiction|]. now apply (D k m b).
      + intros k q1 c1 Q1 C1. cbn [heap objs] in *. destruct (Nat.eqb_spec k i) as [->|K].
        * rewrite nth_error_upd_neq, nth_error_upd_eq in Q1 by (eauto using nth_error_lt). rewrite nth_error_upd_neq, nth_error_upd_eq in C1 by (eauto using nth_error_lt). injection Q1 as <-. injection C1 as <-. exact RR2.
        * destruct (Nat.eqb_spec k j) as [->|K2].
          -- rewrite nth_error_upd_eq in Q1 by (rewrite upd_length; eapply nth_error_lt; eauto). rewrite nth_error_upd_eq in C1 by (rewrite upd_length; eapply nth_error_lt; eauto). injection Q1 as <-. injection C1 as <-. cbn. auto.
          -- rewrite !nth_error_upd_neq in Q1 by auto. rewrite !nth_error_upd_neq in C1 by auto. auto.
    - destruct (nth_error sp i) as [[c|]|] eqn:C; try discriminate. destruct (nth_error sp j) as [[c2|]|] eqn:C2; try discriminate. injection E as <- <- <-.
      destruct (slot _ _ _ _ _ I C) as [q Q]. pose proof (R _ _ _ Q C) as RR. destruct q as [q|]; [|destruct RR].
      destruct (slot _ _ _ _ _ I C2) as [q2 Q2]. pose proof (R _ _ _ Q2 C2) as RR2. destruct q2 as [q2|]; [|destruct RR2].
      pose proof (nth_error_lt _ _ _ Q) as LQ. pose proof (nth_error_lt _ _ _ Q2) as LQ2.
      destruct (Nat.eq_dec i j) as [<-|IJ].
      + unfold move_assign, obj. rewrite Q. cbn [bind objs]. rewrite nth_error_upd_eq by exact LQ. cbn [bind objs]. rewrite nth_error_upd_eq by (rewrite upd_length; exact LQ). cbn [bind objs].
        eexists. split; [reflexivity|]. split; [cbn; now rewrite !upd_length|]. split.
        { unfold live; cbn [heap]. pose proof (held_upd sp i _ (Some c2) C). assert (C3 : nth_error (upd sp i (Some c2)) i = Some (Some c2)) by (apply nth_error_upd_eq; lia). pose proof (held_upd _ i _ (Some Gone) C3). cbn [nodes] in *. lia. }
        exists (fun k => if k =? i then [] else own k). split.
        * intros k m b A B. destruct (Nat.eqb_spec k i), (Nat.eqb_spec m i); try contradiction. now apply (D k m b).
        * intros k q1 c1 Q1 C1. cbn [heap objs] in *. destruct (Nat.eqb_spec k i) as [->|K].
          -- rewrite nth_error_upd_eq in Q1 by (rewrite !upd_length; exact LQ). rewrite nth_error_upd_eq in C1 by (rewrite upd_length; lia). injection Q1 as <-. injection C1 as <-. cbn. auto.
          -- rewrite !nth_error_upd_neq in Q1 by auto. rewrite !nth_error_upd_neq in C1 by auto. auto.
      + unfold move_assign, obj. rewrite Q, Q2. cbn [bind objs]. rewrite nth_error_upd_neq, Q2 by exact IJ. cbn [bind objs]. rewrite nth_error_upd_neq, nth_error_upd_eq by auto. cbn [bind]. rewrite nth_error_upd_eq by (rewrite upd_length; exact LQ2). cbn [bind div lastn len].
        eexists. split; [reflexivity|]. split; [cbn; now rewrite !upd_length|]. split.
        { unfold live; cbn [heap]. pose proof (held_upd sp i _ (Some c2) C). assert (C3 : nth_error (upd sp i (Some c2)) j = Some (Some c2)) by (now rewrite nth_error_upd_neq). pose proof (held_upd _ j _ (Some Gone) C3). cbn [nodes] in *. lia. }
        exists (fun k => if k =? i then own j else if k =? j then [] else own k). split.
        * intros k m b A B. destruct (Nat.eqb_spec k i) as [->|K], (Nat.eqb_spec m i) as [->|M]; auto.
          -- destruct (Nat.eqb_spec m j) as [->|M2]; [contradiction|]. exfalso. apply M2. symmetry. now apply (D j m b).
          -- destruct (Nat.eqb_spec k j) as [->|K2]; [contradiction|]. exfalso. apply K2. now apply (D k j b).
          -- destruct (Nat.eqb_spec m j) as [->|M2]; [contradiction|]. destruct (Nat.eqb_spec k j) as [->|K2]; [contradiction|]. now apply (D k m b).
        * intros k q1 c1 Q1 C1. cbn [heap objs] in *. destruct (Nat.eqb_spec k i) as [->|K].
          -- rewrite nth_error_upd_eq in Q1 by (rewrite !upd_length; exact LQ). rewrite nth_error_upd_neq, nth_error_upd_eq in C1 by (auto; lia). injection Q1 as <-. injection C1 as <-. destruct q2; exact RR2.
          -- destruct (Nat.eqb_spec k j) as [->|K2].
             ++ rewrite nth_error_upd_neq, nth_error_upd_eq in Q1 by (auto; rewrite upd_length; exact LQ2). rewrite nth_error_upd_eq in C1 by (rewrite upd_length; lia). injection Q1 as <-. injection C1 as <-. cbn. auto.
             ++ rewrite !nth_error_upd_neq in Q1 by auto. rewrite !nth_error_upd_neq in C1 by auto. auto.
    - destruct (nth_error sp i) as [[c|]|] eqn:C; try discriminate. injection E as <- <- <-. destruct (slot _ _ _ _ _ I C) as [q Q]. pose proof (R _ _ _ Q C) as RR.
      destruct q as [q|]; [|destruct RR]. unfold destroy, obj. rewrite Q. cbn [bind]. destruct c as [|xs].
      + destruct RR as [DD [_ O]]. rewrite DD. cbn [destroy_loop bind]. eexists. split; [reflexivity|].
        eapply inv_one with (ns' := []); eauto; [intros ? []|reflexivity|]. pose proof (held_upd sp i _ None C). cbn [nodes] in *. lia.
      + pose proof (rep_nodes _ _ _ _ RR) as LN. destruct RR as [RL [d [t [O [N [DD [LL CH]]]]]]]. rewrite DD, O in *.
        assert (B : length (d :: t) <= length (heap s)).
        { rewrite <- (seq_length (length (heap s)) 0). apply NoDup_incl_length; [exact N|]. intros b B. apply in_seq. destruct (chain_live _ _ _ _ CH _ B) as [n BE]. apply nth_error_lt in BE. lia. }
        destruct (destroy_ok t (heap s) d xs (S (length (heap s))) CH N) as [h' [HR [HL HO]]]; [cbn [length] in B; lia|]. rewrite HR. cbn [bind]. eexists. split; [reflexivity|].
        eapply inv_one with (ns' := []); eauto; [intros ? []|intros b A _; apply HO; now rewrite <- O|reflexivity|]. pose proof (held_upd sp i _ None C). cbn [nodes length] in *. lia.
  Qed.

  Lemma run_ok : forall l s sp lost sp' a k, inv s sp lost -> expect sp l = Some (sp', a, k) -> exists s', run s l = Ok (s', a) /\ inv s' sp' (lost + k).
  Proof.
    induction l as [|o l IH]; intros s sp lost sp' a k I E; cbn [expect run] in *; [injection E as <- <- <-; rewrite Nat.add_0_r; eauto|].
    destruct (expected sp o) as [[[sp1 a1] k1]|] eqn:E1; [|discriminate]. destruct (expect sp1 l) as [[[sp2 b] m]|] eqn:E2; [|discriminate]. injection E as <- <- <-.
    destruct (step_ok _ _ _ _ _ _ _ I E1) as [s1 [S1 I1]]. destruct (IH _ _ _ _ _ _ I1 E2) as [s2 [S2 I2]]. rewrite S1. cbn [bind]. rewrite S2. cbn [bind]. eexists. split; [reflexivity|]. now rewrite Nat.add_assoc.
  Qed.
End Proof.

(** Whatever a program does with any number of queues, as long as it does not use those a move has emptied: it sees what it expects, nothing undefined
    happens, no node is used after it was given back or given back twice, and the nodes allocated are those of the queues and those that were lost *)
Theorem C203_contents {T} n (l : list (op T)) sp a lost : expect (repeat None n) l = Some (sp, a, lost) ->
  exists s, run (start n) l = Ok (s, a) /\ live s = held sp + lost.
Proof. intros E. destruct (run_ok l (start n) _ 0 _ _ _ (start_inv n) E) as [s [R [_ [V _]]]]. eauto. Qed.
Print Assumptions C203_contents.

(** In particular no node is left when every queue is gone, if no queue that was not emptied by a move was assigned to.
    What is missing: assigning to such a queue *)
Theorem C203_no_leak_partial {T} n (l : list (op T)) sp a : expect (repeat None n) l = Some (sp, a, 0) -> (forall c, In c sp -> c = None) ->
  exists s, run (start n) l = Ok (s, a) /\ live s = 0.
Proof.
  intros E H. destruct (C203_contents _ _ _ _ _ E) as [s [R V]]. exists s. split; [exact R|]. rewrite V, Nat.add_0_r. clear - H. unfold held. induction sp as [|c sp IH]; [reflexivity|]. cbn. rewrite (H c) by now left. apply IH. intros d D. apply H. now right.
Qed.
Print Assumptions C203_no_leak_partial.
(** Refuted: assigning to a queue with items, and then destroying both, leaves its nodes for ever, for any items *)
Theorem C203_assign_refuted {T} (xs : list T) : exists s a,
  run (start 2) ([Create 0; Create 1] ++ map (Push 0) xs ++ [MoveAssign 0 1; Destroy 0; Destroy 1]) = Ok (s, a) /\ objs s = [None; None] /\ live s = S (length xs).
Proof.
  assert (K : forall ys zs : list T, exists b, expect [Some (Items ys); Some (Items [])] (map (Push 0) zs ++ [MoveAssign 0 1; Destroy 0; Destroy 1]) = Some ([None; None], b, S (length (ys ++ zs)))).
  { intros ys zs. revert ys. induction zs as [|z zs IH]; intros ys; cbn [map app expect expected nth_error upd]; [rewrite app_nil_r; cbn; rewrite Nat.add_0_r; eauto|].
    destruct (IH (ys ++ [z])) as [b ->]. rewrite <- app_assoc. cbn [app]. eauto. }
  destruct (K [] xs) as [b E]. cbn [app] in E.
  assert (E2 : expect (repeat None 2) ([Create 0; Create 1] ++ map (Push 0) xs ++ [MoveAssign 0 1; Destroy 0; Destroy 1]) = Some ([None; None], ONone :: ONone :: b, S (length xs))).
  { cbn [repeat app expect expected nth_error upd]. rewrite E. reflexivity. }
  destruct (run_ok _ (start 2) _ 0 _ _ _ (start_inv 2) E2) as [s [R [L [V [own [_ RP]]]]]]. exists s, (ONone :: ONone :: b). split; [exact R|]. split; [|exact V].
  destruct (objs s) as [|q0 [|q1 [|]]]; try discriminate L. pose proof (RP 0 q0 None eq_refl eq_refl) as R0. pose proof (RP 1 q1 None eq_refl eq_refl) as R1. destruct q0, q1; try contradiction. reflexivity.
Qed.
Print Assumptions C203_assign_refuted.
(** Refuted: a queue that was moved from cannot be used: Push, Pop and Peek are undefined, though Length still gives the number of the items that are elsewhere now *)
Theorem C203_moved_refuted {T} (s s' : st T) i j a q x : i <> j -> obj s j = Ok q -> (step s (MoveNew i j) = Ok (s', a) \/ step s (MoveAssign i j) = Ok (s', a)) ->
  step s' (Push j x) = UB /\ step s' (Pop j) = UB /\ step s' (Peek j) = UB /\ step s' (Length j) = Ok (s', OLen (len q)).
Proof.
  intros IJ O H.
  assert (K : obj s' j = Ok (Q None None (len q))).
  { cbn [step] in H. unfold obj in O. destruct (nth_error (objs s) j) as [[m|]|] eqn:J; try discriminate. injection O as ->. pose proof (nth_error_lt _ _ _ J) as LJ.
    destruct H as [H|H].
    - unfold move_new, obj in H. rewrite J in H. destruct (nth_error (objs s) i) as [[|]|]; try discriminate. cbn [bind] in H. injection H as <- <-. unfold obj. cbn [objs]. rewrite nth_error_upd_eq; [reflexivity|now rewrite upd_length].
    - unfold move_assign, obj in H. rewrite J in H. destruct (nth_error (objs s) i) as [[m|]|] eqn:E; try discriminate. pose proof (nth_error_lt _ _ _ E) as LI. cbn [bind objs] in H. rewrite nth_error_upd_neq, J in H by exact IJ. cbn [bind objs] in H.
      rewrite nth_error_upd_neq, nth_error_upd_eq in H by auto. cbn [bind] in H. rewrite nth_error_upd_eq in H by (rewrite upd_length; exact LJ). cbn [bind] in H. injection H as <- <-. unfold obj. cbn [objs]. rewrite nth_error_upd_neq, nth_error_upd_eq by (auto; now rewrite upd_length). reflexivity. }
  cbn [step]. unfold push, pop, peek, qlength. rewrite K. cbn. auto.
Qed.
Print Assumptions C203_moved_refuted.
(** Refuted: a queue assigned to itself loses all its items *)
Theorem C203_self_refuted {T} (s : st T) i q : obj s i = Ok q -> exists s', step s (MoveAssign i i) = Ok (s', ONone) /\ heap s' = heap s /\ obj s' i = Ok (Q None None (len q)).
Proof.
  intros O. unfold obj in O. destruct (nth_error (objs s) i) as [[m|]|] eqn:J; try discriminate. injection O as ->. pose proof (nth_error_lt _ _ _ J) as LJ. cbn [step]. unfold move_assign, obj. rewrite J. cbn [bind objs].
  rewrite nth_error_upd_eq by exact LJ. cbn [bind objs]. rewrite nth_error_upd_eq by (rewrite upd_length; exact LJ). cbn [bind]. eexists. split; [reflexivity|]. split; [reflexivity|]. cbn [objs]. rewrite nth_error_upd_eq by (rewrite !upd_length; exact LJ). reflexivity.
Qed.
Print Assumptions C203_self_refuted.

(** two queues, one moved into a third and on into the emptied one *)
Definition example_ops : list (op Z) :=
  [Create 0; Push 0 5%Z; Push 0 6%Z; Create 1; Push 1 7%Z; MoveNew 2 0; Pop 2; Length 2; MoveAssign 0 2; Push 0 8%Z; Pop 0; Pop 0; Pop 0; Peek 1; Destroy 1; Destroy 2; Destroy 0].
Example C203_example :
  expect (repeat None 3) example_ops = Some ([None; None; None],
    [ONone; ONone; ONone; ONone; ONone; ONone; OPop (Some 5%Z); OLen 1; ONone; ONone; OPop (Some 6%Z); OPop (Some 8%Z); OPop None; OPeek true; ONone; ONone; ONone], 0) /\
  (exists s a, run (start 3) example_ops = Ok (s, a) /\ live s = 0).
Proof. split; [reflexivity|]. eexists _, _. split; vm_compute; reflexivity. Qed.
