(* C208: iterators, serialisation and moves of circular arrays *)
From Coq Require Import List ZArith Bool Lia.
From Verif Require Import Common Growth DynArray ArrayCircular ArrayCircularProps CircIter.
Import ListNotations.
Local Open Scope Z_scope.

(** an array of capacity c with the items l, the newest first: [holds] (ArrayCircularProps.v) *)
(** The iterators visit every item once, the newest first; backwards from the end the oldest first *)
Theorem C208_walk {T} (s : circ T) c l fuel : holds s c l -> (length l < fuel)%nat -> walk fuel s begin = Ok l /\ walk_back fuel s (iend s) = Ok (rev l).
Proof.
  intros (_ & L & A & _) F. split.
  - assert (K : forall q p fuel, l = p ++ q -> (length q < fuel)%nat -> walk fuel s (Z.of_nat (length p)) = Ok q).
    { induction q as [|x q IH]; intros p [|fu] E B; cbn [length] in B; try lia; cbn [walk]; unfold iend; rewrite L, E, app_length; cbn [length].
      - rewrite Nat.add_0_r, Z.eqb_refl. reflexivity.
      - destruct (Z.eqb_spec (Z.of_nat (length p)) (Z.of_nat (length p + S (length q)))) as [Q|_]; [lia|]. unfold deref. rewrite (A (length p) x) by (rewrite E, nth_error_app2, Nat.sub_diag by lia; reflexivity). cbn [bind].
        specialize (IH (p ++ [x]) fu). rewrite app_length in IH. cbn [length] in IH. unfold inc. replace (Z.of_nat (length p) + 1) with (Z.of_nat (length p + 1)) by lia. rewrite IH; [reflexivity|rewrite <- app_assoc; exact E|lia]. }
    exact (K l [] fuel eq_refl F).
  - unfold iend. rewrite L. assert (K : forall p q fuel, l = p ++ q -> (length p < fuel)%nat -> walk_back fuel s (Z.of_nat (length p)) = Ok (rev p)).
    { induction p as [|x p IH] using rev_ind; intros q [|fu] E B; rewrite ?app_length in B; cbn [length] in B; try lia; cbn [walk_back]; unfold begin.
      - reflexivity.
      - rewrite app_length. cbn [length]. destruct (Z.eqb_spec (Z.of_nat (length p + 1)) 0) as [Q|_]; [lia|]. unfold dec. replace (Z.of_nat (length p + 1) - 1) with (Z.of_nat (length p)) by lia. unfold deref.
        rewrite (A (length p) x) by (rewrite E, <- app_assoc, nth_error_app2, Nat.sub_diag by lia; reflexivity). cbn [bind]. rewrite (IH (x :: q)); [|rewrite E, <- app_assoc; reflexivity|lia]. cbn [bind]. now rewrite rev_app_distr. }
    apply (K l []); [now rewrite app_nil_r|exact F].
Qed.
Print Assumptions C208_walk.

Lemma firstn_mid {A} c (k l : list A) : firstn c (k ++ firstn c l) = firstn c (k ++ l).
Proof. rewrite !firstn_app, firstn_firstn. f_equal. f_equal. lia. Qed.
(** Reading l into an array that holds some items pushes them one after the other: the last of l is the newest, and the newest c remain *)
Theorem C208_read {T} m (s : circ T) c l0 l : reachable m s -> holds s c l0 -> (0 < c)%nat ->
  exists s', read m s l = Ok s' /\ reachable m s' /\ holds s' c (firstn c (rev l ++ l0)).
Proof.
  intros R H C.
  assert (B : (length l0 <= c)%nat).
  { destruct (proj1 (C27_ArrayCircular_deque m s R)) as (c' & l' & H' & B). destruct (holds_fun _ _ _ _ _ H H') as (-> & ->). exact B. }
  revert s l0 R H B. induction l as [|x l IH]; intros s l0 R H B.
  - exists s. split; [reflexivity|]. split; [exact R|]. cbn [rev app]. rewrite firstn_all2 by exact B. exact H.
  - destruct (proj2 (C27_ArrayCircular_deque m s R) c l0 (CPush x) H C) as (r & s1 & c1 & l1 & E & H1 & F); [intros y [Q|Q]; discriminate|]. destruct F as (-> & -> & ->).
    assert (R1 : reachable m s1) by (eapply (r_step m s (CPush x) s1 None c l0 R H C); [intros y [Q|Q]; discriminate|exact E]).
    cbn [circ_step] in E. destruct (circ_push m s x) as [s2| |] eqn:P; try discriminate. cbn [bind] in E. injection E as ->.
    destruct (IH s1 _ R1 H1) as (s' & E' & R' & H'); [rewrite firstn_length; lia|]. exists s'. cbn [read]. rewrite P. cbn [bind]. split; [exact E'|]. split; [exact R'|].
    cbn [rev]. rewrite <- app_assoc. cbn [app]. rewrite firstn_mid in H'. exact H'.
Qed.
Print Assumptions C208_read.

(** An array written and read into a new one of its capacity should be the same.  Refuted: the order of its items is turned around *)
Theorem C208_roundtrip_refuted : ~ forall T m (s : circ T) c l fuel w s', reachable m s -> holds s c l -> (0 < c)%nat -> (length l < fuel)%nat ->
  walk fuel s begin = Ok w -> read m (new_circ c) w = Ok s' -> holds s' c l.
Proof.
  intros H. assert (R0 : reachable SIMPLE (new_circ (T := Z) 2)) by constructor. pose proof (inv_holds SIMPLE _ _ (inv_new SIMPLE (T := Z) 2)) as H0. cbn [slots new_circ] in H0. rewrite repeat_length in H0.
  destruct (C208_read SIMPLE _ 2 [] [1; 2] R0 H0 ltac:(lia)) as (s & E & R & HS). cbn [rev app firstn] in HS.
  destruct (C208_walk s 2 _ 3 HS ltac:(cbn; lia)) as (W & _).
  destruct (C208_read SIMPLE _ 2 [] [2; 1] R0 H0 ltac:(lia)) as (s2 & E2 & R2 & HS2). cbn [rev app firstn] in HS2.
  pose proof (H Z SIMPLE s 2%nat [2; 1] 3%nat _ s2 R HS ltac:(lia) ltac:(cbn; lia) W E2) as K. destruct (holds_fun _ _ _ _ _ HS2 K) as (_ & Q). discriminate Q.
Qed.
Print Assumptions C208_roundtrip_refuted.
(** It always has the same items in the opposite order; written and read a second time it is the same again *)
Theorem C208_roundtrip_partial {T} m (s : circ T) c l fuel : reachable m s -> holds s c l -> (0 < c)%nat -> (length l < fuel)%nat ->
  exists s1 s2 w, walk fuel s begin = Ok l /\ read m (new_circ c) l = Ok s1 /\ holds s1 c (rev l) /\ walk fuel s1 begin = Ok w /\ read m (new_circ c) w = Ok s2 /\ holds s2 c l.
Proof.
  intros R H C F. assert (B : (length l <= c)%nat).
  { destruct (proj1 (C27_ArrayCircular_deque m s R)) as (c' & l' & H' & B). destruct (holds_fun _ _ _ _ _ H H') as (-> & ->). exact B. }
  assert (R0 : reachable m (new_circ (T := T) c)) by constructor. pose proof (inv_holds m _ _ (inv_new m (T := T) c)) as H0. cbn [slots new_circ] in H0. rewrite repeat_length in H0.
  destruct (C208_read m _ c [] l R0 H0 C) as (s1 & E1 & R1 & H1). rewrite app_nil_r, firstn_all2 in H1 by (rewrite rev_length; exact B).
  destruct (C208_read m _ c [] (rev l) R0 H0 C) as (s2 & E2 & R2 & H2). rewrite app_nil_r, rev_involutive, firstn_all2 in H2 by exact B.
  exists s1, s2, (rev l). split; [exact (proj1 (C208_walk s c l fuel H F))|]. split; [exact E1|]. split; [exact H1|]. split; [|split; [exact E2|exact H2]].
  apply (C208_walk s1 c (rev l) fuel H1). rewrite rev_length. exact F.
Qed.
Print Assumptions C208_roundtrip_partial.
(** Refuted: an array of the default capacity cannot be read into *)
Theorem C208_default_refuted {T} m (x : T) l : read m (new_circ 0) (x :: l) = UB.
Proof. reflexivity. Qed.
Print Assumptions C208_default_refuted.

(** The move constructor gives the new array the items and the capacity; the other is empty, and can be given a capacity again *)
Theorem C208_move {T} m (mov : circ T) c l n : reachable m mov -> holds mov c l ->
  reachable m (fst (move_new mov)) /\ holds (fst (move_new mov)) c l /\ reachable m (snd (move_new mov)) /\ holds (snd (move_new mov)) 0 [] /\
  exists s, circ_setCapacity m (snd (move_new mov)) n = Ok s /\ holds s n [].
Proof.
  intros R H. destruct mov as [sl cu cl]. cbn [move_new fst snd slots cur clen]. split; [exact R|]. split; [exact H|].
  assert (R0 : reachable m (new_circ (T := T) 0)) by constructor. pose proof (inv_holds m _ _ (inv_new m (T := T) 0)) as H0. cbn [slots new_circ repeat length] in *. split; [exact R0|]. split; [exact H0|].
  destruct (setcap_ok m _ _ n (inv_new m (T := T) 0)) as (s & E & L & I). exists s. split; [exact E|]. apply (inv_holds m) in I. rewrite L in I. destruct (n <? _)%nat in I; exact I.
Qed.
Print Assumptions C208_move.
(** Refuted: without that, pushing to it is undefined (the remainder of a division by zero) *)
Theorem C208_moved_refuted {T} m (mov : circ T) x : circ_push m (snd (move_new mov)) x = UB.
Proof. reflexivity. Qed.
Print Assumptions C208_moved_refuted.

(** five items pushed to an array of three: the iterators see the newest three *)
Example C208_example : exists s s2, read SAFE (new_circ 3) [1; 2; 3; 4; 5] = Ok s /\ reachable SAFE s /\ holds s 3 [5; 4; 3] /\ walk 4 s begin = Ok [5; 4; 3] /\ walk_back 4 s (iend s) = Ok [3; 4; 5] /\
  read SAFE (new_circ 3) [5; 4; 3] = Ok s2 /\ walk 4 s2 begin = Ok [3; 4; 5].
Proof.
  assert (R0 : reachable SAFE (new_circ (T := Z) 3)) by constructor. pose proof (inv_holds SAFE _ _ (inv_new SAFE (T := Z) 3)) as H0. cbn [slots new_circ] in H0. rewrite repeat_length in H0.
  destruct (C208_read SAFE _ 3 [] [1; 2; 3; 4; 5] R0 H0 ltac:(lia)) as (s & E & R & HS). cbn [rev app firstn] in HS.
  destruct (C208_read SAFE _ 3 [] [5; 4; 3] R0 H0 ltac:(lia)) as (s2 & E2 & R2 & HS2). cbn [rev app firstn] in HS2.
  exists s, s2. split; [exact E|]. split; [exact R|]. split; [exact HS|]. destruct (C208_walk s 3 _ 4 HS ltac:(cbn; lia)) as (W & B). split; [exact W|]. split; [exact B|]. split; [exact E2|]. exact (proj1 (C208_walk s2 3 _ 4 HS2 ltac:(cbn; lia))).
Qed.
