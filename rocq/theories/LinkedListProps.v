(* Properties C115 to C117: LinkedList. *)
From Coq Require Import List Arith Bool Lia.
From Verif Require Import Common Dll LLBase LLBaseProps LinkedList.
Import ListNotations.

(* ---------------- what a list is ---------------- *)
(* the nodes and items from front to back: root is the first node, last (if kept) the last, each node points at its
   neighbours and has its item, the length is right, and no other node is allocated *)
Definition holds {T} (useLast : bool) (s : ll T) (l : list (nat * T)) : Prop :=
  (exists z, list_at (hp s) (root s) z (map fst l) /\ (useLast = true -> last s = z)) /\
  len s = length l /\
  (forall x, hp s x <> None <-> In x (map fst l)) /\
  (forall a v, In (a, v) l -> items s a = Some v) /\
  (forall a, In a (map fst l) -> a < fresh s).

(* the calls of a user, who knows nodes by their addresses *)
Inductive op T := OAdd (x : T) | OInsert (x : T) (target : option nat) | OFront (x : T) | ORemove (a : nat) | OClear.
Arguments OAdd {T}. Arguments OInsert {T}. Arguments OFront {T}. Arguments ORemove {T}. Arguments OClear {T}.
Definition step {T} (fuel : nat) (useLast : bool) (s : ll T) (o : op T) : res (ll T) :=
  match o with
  | OAdd x => do (s, _) <- Add useLast s x; Ok s
  | OInsert x t => do (s, _) <- Insert useLast s x t; Ok s
  | OFront x => do (s, _) <- Insert_front useLast s x; Ok s
  | ORemove a => Remove useLast s (Some a)
  | OClear => Clear fuel s
  end.
Fixpoint run {T} (fuel : nat) (useLast : bool) (s : ll T) (ops : list (op T)) : res (ll T) :=
  match ops with [] => Ok s | o :: ops => do s <- step fuel useLast s o; run fuel useLast s ops end.

(* what they mean: a sequence of nodes with items; n is the number of nodes made so far, and the name of the next one.
   None: the call names a node that is not in the list *)
Fixpoint before {T} (t : nat) (y : nat * T) (l : list (nat * T)) : option (list (nat * T)) :=
  match l with
  | [] => None
  | z :: l => if fst z =? t then Some (y :: z :: l) else match before t y l with Some l => Some (z :: l) | None => None end
  end.
Fixpoint without {T} (t : nat) (l : list (nat * T)) : option (list (nat * T)) :=
  match l with
  | [] => None
  | z :: l => if fst z =? t then Some l else match without t l with Some l => Some (z :: l) | None => None end
  end.
Definition meaning {T} (atend : bool) (l : list (nat * T)) (n : nat) (o : op T) : option (list (nat * T) * nat) :=
  let add x := if atend then l ++ [(n, x)] else (n, x) :: l in
  match o with
  | OAdd x | OInsert x None => Some (add x, S n)
  | OInsert x (Some t) => match before t (n, x) l with Some l => Some (l, S n) | None => None end
  | OFront x => Some ((n, x) :: l, S n)
  | ORemove a => match without a l with Some l => Some (l, n) | None => None end
  | OClear => Some ([], n)
  end.
Fixpoint meanings {T} (atend : bool) (l : list (nat * T)) (n : nat) (ops : list (op T)) : option (list (nat * T) * nat) :=
  match ops with
  | [] => Some (l, n)
  | o :: ops => match meaning atend l n o with Some (l, n) => meanings atend l n ops | None => None end
  end.

(* ---------------- proofs ---------------- *)
Section P.
Context {T : Type}.
Implicit Types (s : ll T).

Lemma put_same {A} (f : nat -> option A) a v : put f a v a = v.
Proof. unfold put. now rewrite Nat.eqb_refl. Qed.
Lemma put_other {A} (f : nat -> option A) a v x : x <> a -> put f a v x = f x.
Proof. intros H. unfold put. apply Nat.eqb_neq in H. now rewrite H. Qed.

Lemma holds_new ul : holds ul (@new_list T) [].
Proof.
  split; [|split; [|split; [|split]]]; cbn; auto; try tauto.
  exists None. split; auto. split; auto. split; auto. intros k x E. destruct k; discriminate.
Qed.

(* inserting a fresh node between p and q, in the heap and in the list *)
Lemma holds_insert ul s p q a x h' r' l' :
  holds ul s (p ++ q) -> a = fresh s -> list_at h' r' l' (map fst (p ++ (a, x) :: q)) ->
  only_changes (a :: map fst (p ++ q)) (put (hp s) a (Some (None, None))) h' ->
  forall z, (ul = true -> z = l') ->
  holds ul (LL h' (put (items s) a (Some x)) r' z (S (len s)) (S (fresh s))) (p ++ (a, x) :: q).
Proof.
  intros (_ & L & A & I & F) -> D O z Hz. split; [|split; [|split; [|split]]]; cbn [hp root last len items fresh].
  - eauto.
  - rewrite L, !app_length. cbn. lia.
  - intros y. rewrite map_app. cbn [map fst]. split.
    + intros H. destruct (in_dec Nat.eq_dec y (fresh s :: map fst (p ++ q))) as [Hy|Hy].
      * rewrite in_app_iff. cbn in *. rewrite map_app, in_app_iff in Hy. tauto.
      * rewrite (O y Hy) in H. rewrite put_other in H by (intros ->; apply Hy; now left). apply A in H. exfalso. apply Hy. now right.
    + intros H. rewrite list_at_dll in D. destruct D as (_ & _ & D). rewrite dll_nth in D. rewrite map_app in D. cbn [map fst] in D.
      apply In_nth_error in H as [k Hk]. rewrite (D k y Hk). discriminate.
  - intros y v Hy. assert (C : (y, v) = (fresh s, x) \/ In (y, v) (p ++ q)) by (rewrite in_app_iff in *; cbn in Hy; intuition congruence).
    destruct C as [C|C]; [inversion C; subst; apply put_same|]. rewrite put_other; [now apply I|].
    apply (in_map fst) in C. apply F in C. cbn in C. lia.
  - intros y Hy. rewrite map_app, in_app_iff in Hy. cbn in Hy.
    assert (C : y = fresh s \/ In y (map fst (p ++ q))) by (rewrite map_app, in_app_iff; intuition congruence).
    destruct C as [->|C]; [lia|]. apply F in C. lia.
Qed.
(* the new node is allocated and in no list *)
Lemma fresh_list ul s l : holds ul s l -> exists z, list_at (put (hp s) (fresh s) (Some (None, None))) (root s) z (map fst l) /\ (ul = true -> last s = z) /\
  ~ In (fresh s) (map fst l) /\ put (hp s) (fresh s) (Some (None, None)) (fresh s) <> None.
Proof.
  intros ((z & D & Z) & _ & _ & _ & F). exists z.
  assert (N : ~ In (fresh s) (map fst l)) by (intros H; apply F in H; lia).
  split; [|split; [auto|split; [auto|rewrite put_same; discriminate]]].
  eapply list_at_ext; [|exact D]. intros x Hx. apply put_other. intros ->. contradiction.
Qed.

Lemma Add_ok ul s l x : holds ul s l ->
  exists s', Add ul s x = Ok (s', Some (fresh s)) /\ holds ul s' (if ul then l ++ [(fresh s, x)] else (fresh s, x) :: l) /\ fresh s' = S (fresh s).
Proof.
  intros H. destruct (fresh_list ul s l H) as (z & D & Z & N & A).
  unfold Add, allocate, add_. cbn [hp root last len items fresh]. destruct ul.
  - specialize (Z eq_refl). destruct (C30_LLAddAfter _ _ _ _ _ D N A) as (h' & r' & E & D' & O & _ & E2).
    destruct l as [|y l].
    + cbn [map] in *. pose proof D as (R & _). cbn in R. rewrite R. cbn [isnull].
      unfold wr_next, wr_prev, rd, wr. rewrite put_same. cbn [bind fst snd]. rewrite Nat.eqb_refl. cbn [bind fst snd].
      eexists. split; [reflexivity|]. split; auto. cbn [hp items root last len fresh].
      apply (holds_insert true s [] [] (fresh s) x _ _ (Some (fresh s)) H eq_refl); auto.
      * cbn. rewrite list_at_dll. cbn. rewrite Nat.eqb_refl. auto.
      * intros y Hy. cbn in Hy. assert (E0 : y <> fresh s) by (intros ->; apply Hy; now left). apply Nat.eqb_neq in E0. now rewrite E0.
    + assert (NE : map fst (y :: l) <> []) by discriminate. destruct (E2 NE) as [E3 ->].
      pose proof D as (R & _). cbn in R. assert (R0 : isnull (root s) = false) by (now rewrite R). rewrite R0, Z, E3. cbn [bind]. eexists. split; [reflexivity|]. split; auto. cbn [hp items root last len fresh].
      assert (H' : holds true s ((y :: l) ++ [])) by now rewrite app_nil_r.
      apply (holds_insert true s (y :: l) [] (fresh s) x _ _ (Some (fresh s)) H' eq_refl); auto.
      * rewrite map_app. exact D'.
      * rewrite app_nil_r. exact O.
  - destruct (C30_LLAdd _ _ _ _ _ D N A) as (h' & l' & _ & D' & O & _ & E & _). rewrite E. cbn [bind].
    eexists. split; [reflexivity|]. split; auto. cbn [hp items root last len fresh].
    apply (holds_insert false s [] l (fresh s) x _ _ l' H eq_refl); auto. intros; discriminate.
Qed.
Lemma before_split t (y : nat * T) l l' : before t y l = Some l' -> exists p z q, l = p ++ z :: q /\ fst z = t /\ l' = p ++ y :: z :: q.
Proof.
  revert l'. induction l as [|w l IH]; intros l' H; cbn in H; [discriminate|]. destruct (Nat.eqb_spec (fst w) t).
  - inversion H; subst. exists [], w, l. auto.
  - destruct (before t y l) as [l0|]; [|discriminate]. inversion H; subst. destruct (IH _ eq_refl) as (p & z & q & -> & E & ->).
    exists (w :: p), z, q. auto.
Qed.
Lemma without_split t (l l' : list (nat * T)) : without t l = Some l' -> exists p v q, l = p ++ (t, v) :: q /\ l' = p ++ q.
Proof.
  revert l'. induction l as [|w l IH]; intros l' H; cbn in H; [discriminate|]. destruct (Nat.eqb_spec (fst w) t).
  - inversion H; subst. exists [], (snd w), l'. destruct w. auto.
  - destruct (without t l) as [l0|]; [|discriminate]. inversion H; subst. destruct (IH _ eq_refl) as (p & v & q & -> & ->).
    exists (w :: p), v, q. auto.
Qed.
Lemma Insert_ok ul s p z q x : holds ul s (p ++ z :: q) ->
  exists s', Insert ul s x (Some (fst z)) = Ok (s', Some (fresh s)) /\ holds ul s' (p ++ (fresh s, x) :: z :: q) /\ fresh s' = S (fresh s).
Proof.
  intros H. destruct (fresh_list ul s _ H) as (w & D & W & N & A). rewrite map_app in D, N. cbn [map] in D, N.
  destruct (C30_LLInsert _ _ _ _ _ _ _ D N A) as (h' & r' & E & D' & O & _).
  unfold Insert. cbn [isnull]. unfold LLInsert in E.
  assert (NZ : fst z <> fresh s) by (intros Ez; apply N; rewrite in_app_iff; cbn; auto).
  assert (P : rd_prev (put (hp s) (fresh s) (Some (None, None))) (Some (fst z)) = rd_prev (hp s) (Some (fst z))).
  { unfold rd_prev, rd. now rewrite put_other. }
  rewrite P in E. destruct (rd_prev (hp s) (Some (fst z))) as [tp| |]; try discriminate. cbn [bind] in *.
  unfold allocate. cbn [hp items root last len fresh].
  destruct (wr_prev (put (hp s) (fresh s) (Some (None, None))) (Some (fresh s)) tp) as [h1| |]; try discriminate. cbn [bind] in *.
  destruct (wr_next h1 (Some (fresh s)) (Some (fst z))) as [h2| |]; try discriminate. cbn [bind] in *.
  destruct (rd_prev h2 (Some (fst z))) as [tp2| |]; try discriminate. cbn [bind] in *.
  match goal with |- context [bind ?m _] => destruct m as [[h3 r3]| |]; try discriminate end. cbn [bind] in *.
  destruct (wr_prev h3 (Some (fst z)) (Some (fresh s))) as [h4| |]; try discriminate. cbn [bind] in *. inversion E; subst h4 r3.
  eexists. split; [reflexivity|]. split; auto. cbn [hp items root last len fresh].
  apply (holds_insert ul s p (z :: q) (fresh s) x _ _ w H eq_refl); auto.
  - rewrite map_app. exact D'.
  - rewrite map_app. exact O.
Qed.
Lemma Remove_ok ul s p a v q : holds ul s (p ++ (a, v) :: q) ->
  exists s', Remove ul s (Some a) = Ok s' /\ holds ul s' (p ++ q) /\ fresh s' = fresh s.
Proof.
  intros ((z & D & Z) & L & A & I & F). rewrite map_app in D. cbn [map fst] in D.
  pose proof (list_at_nodup _ _ _ _ D) as ND. apply NoDup_remove in ND as [ND NI].
  destruct (C30_LLRemove _ _ _ _ _ _ D) as (h' & r' & l' & E3 & D' & O & _ & E2 & _ & _ & _).
  assert (Ha : h' a <> None).
  { rewrite (O a NI). apply A. rewrite map_app, in_app_iff. cbn. auto. }
  set (sm := LL h' (items s) r' (if ul then l' else last s) (len s) (fresh s)).
  assert (Er : remove_ ul s (Some a) = Ok sm).
  { unfold remove_, sm. destruct ul; [rewrite Z, E3 by auto|rewrite E2]; reflexivity. }
  unfold Remove. rewrite Er. cbn [bind]. unfold deleteNode, sm. cbn [hp items root last len fresh].
  destruct (h' a) eqn:Eh; [|congruence]. cbn [bind hp items root last len fresh].
  eexists. split; [reflexivity|]. split; auto. split; [|split; [|split; [|split]]]; cbn [hp items root last len fresh].
  - exists l'. split; [|intros ->; auto]. rewrite map_app. eapply list_at_ext; [|exact D']. intros x Hx. apply put_other. intros ->. contradiction.
  - rewrite L, !app_length. cbn. lia.
  - intros x. rewrite map_app. destruct (Nat.eq_dec x a) as [->|Nx].
    + rewrite put_same. split; [congruence|]. intros Hx. contradiction.
    + rewrite put_other by auto. split.
      * intros Hx. destruct (in_dec Nat.eq_dec x (map fst p ++ map fst q)); auto. rewrite O in Hx by auto. apply A in Hx.
        rewrite map_app, in_app_iff in Hx. cbn in Hx. rewrite in_app_iff. intuition congruence.
      * intros Hx. rewrite list_at_dll in D'. destruct D' as (_ & _ & D'). rewrite dll_nth in D'.
        apply In_nth_error in Hx as [k Hk]. rewrite (D' k x Hk). discriminate.
  - intros x w Hx. rewrite put_other. { apply I. rewrite in_app_iff in *. cbn. tauto. }
    intros ->. apply NI. rewrite <- map_app. now apply (in_map fst) in Hx.
  - intros x Hx. apply F. rewrite map_app, in_app_iff in *. cbn. tauto.
Qed.
(* Clear frees every node *)
Lemma delete_all_ok s : forall ids fuel, length ids < fuel -> forall (t : ll T) p, dll (hp t) p ids None -> NoDup ids -> fresh t = fresh s ->
  exists t', delete_all fuel t (hd_or ids None) = Ok t' /\ fresh t' = fresh s /\ forall x, hp t' x = if in_dec Nat.eq_dec x ids then None else hp t x.
Proof.
  induction ids as [|a ids IH]; intros [|fuel] L t p D ND Ft; cbn in L; try lia; cbn [delete_all hd_or isnull].
  - exists t. split; auto.
  - destruct D as [D1 D2]. unfold rd_next, rd. rewrite D1. cbn [bind fst]. unfold deleteNode. rewrite D1. cbn [bind].
    inversion ND as [|? ? NI ND']; subst.
    set (t1 := LL (put (hp t) a None) (put (items t) a None) (root t) (last t) (len t) (fresh t)).
    destruct (IH fuel ltac:(lia) t1 (Some a)) as (t' & E & F' & X); auto.
    { unfold t1. cbn. eapply dll_ext; [|exact D2]. intros x Hx. apply put_other. intros ->. contradiction. }
    exists t'. split; [exact E|]. split; auto. intros x. rewrite X. unfold t1. cbn [hp].
    destruct (in_dec Nat.eq_dec x ids), (in_dec Nat.eq_dec x (a :: ids)); auto.
    + exfalso. apply n. now right.
    + destruct i as [<-|Hi]; [apply put_same|contradiction].
    + apply put_other. intros ->. apply n0. now left.
Qed.
Lemma Clear_ok ul s l fuel : holds ul s l -> length l < fuel -> exists s', Clear fuel s = Ok s' /\ holds ul s' [] /\ fresh s' = fresh s.
Proof.
  intros ((z & D & Z) & L & A & I & F) Hf. pose proof (list_at_nodup _ _ _ _ D) as ND. rewrite list_at_dll in D. destruct D as (R & La & D).
  destruct (delete_all_ok s (map fst l) fuel ltac:(now rewrite map_length) s None D ND eq_refl) as (t & E & Ft & X).
  unfold Clear. rewrite R, E. cbn [bind]. eexists. split; [reflexivity|]. split; auto.
  split; [|split; [|split; [|split]]]; cbn [hp items root last len fresh]; auto; try (intros a v []); try (intros a []).
  - exists None. split; auto. rewrite list_at_dll. cbn. auto.
  - intros x. rewrite X. destruct (in_dec Nat.eq_dec x (map fst l)); [cbn; tauto|]. split; [|intros []]. intros Hx. apply A in Hx. contradiction.
Qed.

Lemma step_ok fuel ul s l o l' n' : holds ul s l -> meaning ul l (fresh s) o = Some (l', n') -> length l < fuel ->
  exists s', step fuel ul s o = Ok s' /\ holds ul s' l' /\ fresh s' = n'.
Proof.
  intros H M Hf. destruct o as [x|x [t|]|x|a|]; cbn [meaning step] in *.
  - inversion M; subst. destruct (Add_ok ul s l x H) as (s' & E & H' & F). rewrite E. cbn. eauto.
  - destruct (before t (fresh s, x) l) eqn:B; [|discriminate]. inversion M; subst. apply before_split in B as (p & z & q & -> & <- & ->).
    destruct (Insert_ok ul s p z q x H) as (s' & E & H' & F). rewrite E. cbn. eauto.
  - inversion M; subst. unfold Insert. cbn [isnull]. destruct (Add_ok ul s l x H) as (s' & E & H' & F). rewrite E. cbn. eauto.
  - inversion M; subst. unfold Insert_front. destruct H as ((z & D & Z) & H). pose proof D as D0. destruct D as (R & _).
    assert (H0 : holds ul s l) by (split; eauto).
    destruct l as [|z0 l]; cbn in R; rewrite R.
    + unfold Insert. cbn [isnull]. destruct (Add_ok ul s [] x H0) as (s' & E & H' & F). rewrite E. cbn. exists s'. split; auto. split; auto. destruct ul; auto.
    + destruct (Insert_ok ul s [] z0 l x H0) as (s' & E & H' & F). rewrite E. cbn. eauto.
  - destruct (without a l) eqn:W; [|discriminate]. inversion M; subst. apply without_split in W as (p & v & q & -> & ->).
    eapply Remove_ok; eauto.
  - inversion M; subst. eapply Clear_ok; eauto.
Qed.
Lemma meaning_length b (l : list (nat * T)) n o l' n' : meaning b l n o = Some (l', n') -> length l' <= S (length l).
Proof.
  destruct o as [x|x [t|]|x|a|]; cbn.
  - intros E. inversion E. destruct b; cbn; rewrite ?app_length; cbn; lia.
  - destruct (before t (n, x) l) eqn:B; [|discriminate]. apply before_split in B as (p & z & q & -> & _ & ->). intros E; inversion E; subst. rewrite !app_length. cbn. lia.
  - intros E. inversion E. destruct b; cbn; rewrite ?app_length; cbn; lia.
  - intros E. inversion E. cbn. lia.
  - destruct (without a l) eqn:W; [|discriminate]. apply without_split in W as (p & v & q & -> & ->). intros E; inversion E; subst. rewrite !app_length. cbn. lia.
  - intros E. inversion E. cbn. lia.
Qed.
Lemma run_ok ul fuel ops : forall s l l' n', holds ul s l -> meanings ul l (fresh s) ops = Some (l', n') -> length l + length ops < fuel ->
  exists s', run fuel ul s ops = Ok s' /\ holds ul s' l'.
Proof.
  induction ops as [|o ops IH]; intros s l l' n' H M F; cbn in *.
  - inversion M; subst. eauto.
  - destruct (meaning ul l (fresh s) o) as [[l1 n1]|] eqn:E; [|discriminate].
    destruct (step_ok fuel ul s l o l1 n1 H E ltac:(lia)) as (s1 & E1 & H1 & F1). rewrite E1. cbn [bind]. subst n1.
    apply meaning_length in E. eapply IH; eauto. lia.
Qed.
(* += from another list *)
Lemma append_ok ul (r : ll T) : forall q p0 fuel s l, dll (hp r) p0 (map fst q) None -> (forall a v, In (a, v) q -> items r a = Some v) ->
  holds ul s l -> length q < fuel ->
  exists s' l', append fuel ul s r (hd_or (map fst q) None) = Ok s' /\ map snd l' = (if ul then map snd q else rev (map snd q)) /\
    holds ul s' (if ul then l ++ l' else l' ++ l).
Proof.
  induction q as [|[a v] q IH]; intros p0 [|fuel] s l D I H L; cbn in L; try lia; cbn [append hd_or map fst].
  - exists s, []. destruct ul; rewrite ?app_nil_r; auto.
  - rewrite (I a v) by now left. destruct D as [D1 D2]. destruct (Add_ok ul s l v H) as (s1 & E & H1 & _). rewrite E. cbn [bind].
    unfold rd_next, rd. cbn [fst] in D1. rewrite D1. cbn [bind fst].
    destruct (IH (Some a) fuel s1 _ D2 (fun b w K => I b w (or_intror K)) H1 ltac:(lia)) as (s' & l' & E' & M & H').
    exists s'. destruct ul.
    + exists ((fresh s, v) :: l'). split; auto. split; [cbn; now rewrite M|]. now rewrite <- app_assoc in H'.
    + exists (l' ++ [(fresh s, v)]). split; auto. split; [rewrite map_app, M; reflexivity|]. now rewrite <- app_assoc.
Qed.
Lemma assign_ok ul ulr (r : ll T) lr s l fuel : holds ul s l -> holds ulr r lr -> length l < fuel -> length lr < fuel ->
  exists s' l', assign fuel ul s r = Ok s' /\ map snd l' = (if ul then map snd lr else rev (map snd lr)) /\ holds ul s' l'.
Proof.
  intros H ((z & D & _) & _ & _ & I & _) L1 L2. destruct (Clear_ok ul s l fuel H L1) as (s1 & E & H1 & _). unfold assign. rewrite E. cbn [bind].
  rewrite list_at_dll in D. destruct D as (R & _ & D). rewrite R.
  destruct (append_ok ul r lr None fuel s1 [] D I H1 L2) as (s' & l' & E' & M & H'). exists s', l'. split; auto. split; auto.
  destruct ul; rewrite ?app_nil_r in H'; auto.
Qed.
Lemma append_self_loops : forall fuel s l a, holds true s l -> In a (map fst l) -> append_self fuel true s (Some a) = OutOfFuel.
Proof.
  induction fuel as [|fuel IH]; intros s l a H Ha; auto. cbn [append_self].
  pose proof H as (_ & _ & _ & I & _). apply in_map_iff in Ha as ([a' v] & Ea & Ha). cbn in Ea. subst a'. rewrite (I a v Ha).
  destruct (Add_ok true s l v H) as (s1 & E & H1 & _). rewrite E. cbn [bind].
  pose proof H1 as ((z & (_ & _ & D) & _) & _). apply (in_map fst) in Ha. cbn [fst] in Ha. apply In_nth_error in Ha as [k Hk].
  pose proof (nth_error_Some (map fst l) k) as B. rewrite Hk in B. assert (Lk : k < length (map fst l)) by (apply B; discriminate).
  assert (Hk' : nth_error (map fst (l ++ [(fresh s, v)])) k = Some a) by (rewrite map_app, nth_error_app1; auto).
  unfold rd_next, rd. rewrite (D k a Hk'). cbn [bind fst].
  destruct (nth_error (map fst (l ++ [(fresh s, v)])) (S k)) as [b|] eqn:Eb.
  - apply (IH _ _ _ H1). eapply nth_error_In, Eb.
  - exfalso. apply nth_error_None in Eb. rewrite map_app, app_length in Eb. cbn in Eb. lia.
Qed.

(* ---------------- Item ---------------- *)
Context (eqb : T -> T -> bool).
Definition is_item (x : T) (y : nat * T) : bool := eqb (snd y) x.
(* the first node of a sequence that holds x *)
Definition first (x : T) (l : list (nat * T)) : option nat := option_map fst (List.find (is_item x) l).

Lemma peq_false a b : a <> b -> peq a b = false.
Proof.
  destruct a as [a|], b as [b|]; cbn; intros H; auto; [|congruence]. apply Nat.eqb_neq. congruence.
Qed.
Lemma peq_same a : peq (Some a) (Some a) = true.
Proof. cbn. apply Nat.eqb_refl. Qed.
Lemma find_forward s x from flip : forall q p0 nx fuel, dll (hp s) p0 (map fst q) nx -> q <> [] -> (forall a v, In (a, v) q -> items s a = Some v) ->
  (forall a, In a (tl (map fst q)) -> Some a <> from) ->
  find eqb (length q + fuel) s x from (hd_or (map fst q) None) false flip =
  match first x q with
  | Some a => Ok (Some a)
  | None => let n := if isnull nx then flip else nx in if peq n from then Ok None else find eqb fuel s x from n false flip
  end.
Proof.
  induction q as [|[a v] q IH]; intros p0 nx fuel D N I F; [congruence|]. cbn [length plus find hd_or map fst].
  rewrite (I a v) by now left. unfold first. cbn [List.find]. unfold is_item at 1. cbn [snd].
  destruct (eqb v x); [reflexivity|]. destruct D as [D1 D2]. cbn [fst] in D1. unfold rd_next, rd. rewrite D1. cbn [bind fst].
  destruct q as [|[b w] q].
  - cbn [map hd_or List.find option_map length plus]. reflexivity.
  - cbn [map hd_or fst isnull]. rewrite peq_false by (apply F; now left).
    refine (IH (Some a) nx fuel D2 _ _ _); [discriminate| |].
    + intros c u K. apply I. now right.
    + intros c K. apply F. cbn in *. auto.
Qed.
Lemma find_backward s x from flip : forall q p0 nx fuel, dll (hp s) p0 (map fst (rev q)) nx -> q <> [] -> (forall a v, In (a, v) q -> items s a = Some v) ->
  (forall a, In a (tl (map fst q)) -> Some a <> from) ->
  find eqb (length q + fuel) s x from (hd_or (map fst q) None) true flip =
  match first x q with
  | Some a => Ok (Some a)
  | None => let n := if isnull p0 then flip else p0 in if peq n from then Ok None else find eqb fuel s x from n true flip
  end.
Proof.
  induction q as [|[a v] q IH]; intros p0 nx fuel D N I F; [congruence|]. cbn [length plus find hd_or map fst].
  rewrite (I a v) by now left. unfold first. cbn [List.find]. unfold is_item at 1. cbn [snd].
  destruct (eqb v x); [reflexivity|]. cbn [rev] in D. rewrite map_app in D. apply dll_app in D as [D2 D1]. cbn [map fst hd_or] in D1, D2.
  destruct D1 as [D1 _]. unfold rd_prev, rd. rewrite D1. cbn [bind snd].
  destruct q as [|[b w] q].
  - cbn [rev map last_or List.find option_map length plus]. reflexivity.
  - cbn [rev map fst]. rewrite map_app. cbn [map fst]. rewrite last_or_snoc. cbn [isnull]. rewrite peq_false by (apply F; now left).
    refine (IH p0 (Some a) fuel D2 _ _ _); [discriminate| |].
    + intros c u K. apply I. now right.
    + intros c K. apply F. cbn in *. auto.
Qed.
Lemma first_app x a b : first x (a ++ b) = match first x a with Some n => Some n | None => first x b end.
Proof. unfold first. induction a as [|[n v] a IH]; cbn; auto. destruct (is_item x (n, v)); auto. Qed.
Lemma Item_forward ul s p y q x fuel : holds ul s (p ++ y :: q) -> length (p ++ y :: q) <= fuel ->
  Item eqb fuel s x (Some (fst y)) false = Ok (first x ((y :: q) ++ p)).
Proof.
  intros ((z & D & _) & _ & _ & I & _) L. pose proof (list_at_nodup _ _ _ _ D) as ND. rewrite list_at_dll in D. destruct D as (R & _ & D).
  rewrite map_app in *. cbn [map] in *. pose proof (NoDup_remove_2 _ _ _ ND) as NI. apply dll_app in D as [D1 D2].
  rewrite app_length in L. cbn [length] in L.
  replace fuel with (length (y :: q) + (length p + (fuel - length p - length (y :: q)))) by (cbn [length]; lia).
  unfold Item. cbn [isnull]. change (Some (fst y)) with (hd_or (map fst (y :: q)) None) at 2.
  rewrite (find_forward s x (Some (fst y)) (root s) (y :: q) _ None _ D2); [|discriminate| |].
  - rewrite first_app. destruct (first x (y :: q)); auto. cbn [isnull]. rewrite R. destruct p as [|w p].
    + cbn [app map hd_or]. rewrite peq_same. reflexivity.
    + change (hd_or (map fst (w :: p) ++ fst y :: map fst q) None) with (hd_or (map fst (w :: p)) None).
      rewrite peq_false by (cbn; intros E; inversion E as [E']; apply NI; rewrite in_app_iff; cbn; auto).
      rewrite (find_forward s x (Some (fst y)) _ (w :: p) _ _ _ D1); [|discriminate| |].
      * destruct (first x (w :: p)); auto. cbn [hd_or isnull]. now rewrite peq_same.
      * intros a v K. apply I. rewrite in_app_iff. auto.
      * intros a K E. inversion E; subst a. apply NI. rewrite in_app_iff. left. destruct (map fst (w :: p)); cbn in *; auto.
  - intros a v K. apply I. rewrite in_app_iff. auto.
  - cbn [map tl]. intros a K E. inversion E; subst a. apply NI. rewrite in_app_iff. auto.
Qed.
Lemma Item_backward s p y q x fuel : holds true s (p ++ y :: q) -> length (p ++ y :: q) <= fuel ->
  Item eqb fuel s x (Some (fst y)) true = Ok (first x ((y :: rev p) ++ rev q)).
Proof.
  intros ((z & D & Z) & _ & _ & I & _) L. specialize (Z eq_refl). pose proof (list_at_nodup _ _ _ _ D) as ND. rewrite list_at_dll in D. destruct D as (_ & R & D).
  assert (NI : ~ In (fst y) (map fst p ++ map fst q)) by (rewrite map_app in ND; exact (NoDup_remove_2 _ _ _ ND)).
  replace (p ++ y :: q) with (rev (y :: rev p) ++ q) in D by (cbn [rev]; rewrite rev_involutive, <- app_assoc; reflexivity).
  rewrite map_app in D. apply dll_app in D as [D1 D2].
  rewrite app_length in L. cbn [length] in L.
  replace fuel with (length (y :: rev p) + (length (rev q) + (fuel - length p - length (y :: q)))) by (cbn [length]; rewrite !rev_length; lia).
  unfold Item. cbn [isnull]. change (Some (fst y)) with (hd_or (map fst (y :: rev p)) None) at 2.
  rewrite (find_backward s x (Some (fst y)) (last s) (y :: rev p) None _ _ D1); [|discriminate| |].
  - rewrite first_app. destruct (first x (y :: rev p)); auto. cbn [isnull]. rewrite Z, R. destruct q as [|w q _] using rev_ind.
    + rewrite map_app. cbn [map]. rewrite last_or_snoc, peq_same. reflexivity.
    + replace (map fst (p ++ y :: q ++ [w])) with (map fst (p ++ y :: q) ++ [fst w]) by (now rewrite !map_app; cbn [map]; rewrite map_app, <- app_assoc).
      rewrite last_or_snoc. rewrite map_app in NI. cbn [map] in NI.
      rewrite peq_false by (intros E; inversion E as [E']; apply NI; rewrite !in_app_iff; cbn; auto).
      rewrite rev_app_distr. cbn [rev app]. change (Some (fst w)) with (hd_or (map fst (w :: rev q)) None).
      rewrite (find_backward s x (Some (fst y)) _ (w :: rev q) (last_or None (map fst (rev (y :: rev p)))) None); [|change (rev (w :: rev q)) with (rev (rev q) ++ [w]); rewrite (rev_involutive q); exact D2|discriminate| |].
      * destruct (first x (w :: rev q)); auto. cbn [rev]. rewrite map_app. cbn [map]. rewrite last_or_snoc. cbn [isnull]. now rewrite peq_same.
      * intros a v K. apply I. rewrite in_app_iff. right. right. rewrite in_app_iff. cbn. destruct K as [K|K]; auto. apply in_rev in K. auto.
      * cbn [map tl]. intros a K E. inversion E; subst a. apply NI. rewrite in_app_iff. right. rewrite map_rev, <- in_rev in K. rewrite in_app_iff. auto.
  - intros a v K. apply I. rewrite in_app_iff. destruct K as [K|K]; [right; now left|]. apply in_rev in K. auto.
  - cbn [map tl]. intros a K E. inversion E; subst a. apply NI. rewrite in_app_iff. left. now rewrite map_rev, <- in_rev in K.
Qed.
Lemma first_some x l a : first x l = Some a -> exists v, In (a, v) l /\ eqb v x = true.
Proof.
  unfold first. destruct (List.find (is_item x) l) as [[b v]|] eqn:E; [|discriminate]. cbn. intros K. inversion K; subst b.
  apply find_some in E as [E1 E2]. eauto.
Qed.
Lemma first_none x l : first x l = None -> forall a v, In (a, v) l -> eqb v x = false.
Proof.
  unfold first. destruct (List.find (is_item x) l) as [[b v]|] eqn:E; [discriminate|]. intros _ a w K. exact (find_none _ _ E _ K).
Qed.
End P.

(* C115: with the pointer to the last node, every list of calls that names only nodes of the list ends well, and leaves the
   nodes and items the calls mean: Add at the end, Insert before its target, the other nodes at their addresses, and no
   node left over or freed twice *)
Theorem C115_LinkedList_partial {T} (ops : list (op T)) l n fuel :
  meanings true [] 0 ops = Some (l, n) -> length ops < fuel ->
  exists s, run fuel true new_list ops = Ok s /\ holds true s l.
Proof. intros M L. eapply run_ok; eauto using holds_new. Qed.
Print Assumptions C115_LinkedList_partial.
(* without it Add puts the item at the front instead *)
Theorem C115_LinkedList_small_partial {T} (ops : list (op T)) l n fuel :
  meanings false [] 0 ops = Some (l, n) -> length ops < fuel ->
  exists s, run fuel false new_list ops = Ok s /\ holds false s l.
Proof. intros M L. eapply run_ok; eauto using holds_new. Qed.
Print Assumptions C115_LinkedList_small_partial.
(* what Remove gives back is the neighbour *)
Theorem C115_LinkedList_remove_partial {T} ul (s : ll T) p a v q : holds ul s (p ++ (a, v) :: q) ->
  (exists s', Remove_next ul s (Some a) false = Ok (s', nth_error (map fst q) 0) /\ holds ul s' (p ++ q)) /\
  (exists s', Remove_next ul s (Some a) true = Ok (s', nth_error (map fst (rev p)) 0) /\ holds ul s' (p ++ q)).
Proof.
  intros H. destruct (Remove_ok ul s p a v q H) as (s' & E & H' & _). destruct H as ((z & D & _) & _). rewrite list_at_dll in D. destruct D as (_ & _ & D).
  rewrite map_app in D. cbn [map fst] in D. apply dll_app in D as [_ [D _]].
  unfold Remove_next, rd_next, rd_prev, rd. cbn [isnull]. rewrite D, E. cbn [bind fst snd]. split; exists s'; (split; [|exact H']).
  - destruct q; reflexivity.
  - destruct p as [|y p _] using rev_ind; auto. rewrite map_app, rev_app_distr. cbn [map]. rewrite last_or_snoc. reflexivity.
Qed.
Print Assumptions C115_LinkedList_remove_partial.
(* so that Add appends is false of the small list *)
Theorem C115_LinkedList_refuted : exists (s : ll nat) l x, holds false s l /\
  forall fuel s' l', step fuel false s (OAdd x) = Ok s' -> holds false s' l' -> map snd l' <> map snd l ++ [x].
Proof.
  destruct (run_ok (T := nat) false 5 [OAdd 1] new_list [] [(0, 1)] 1 (holds_new _) eq_refl ltac:(cbn; lia)) as (s & E & H).
  exists s, [(0, 1)], 2. split; auto. intros fuel s' l' E' H'. cbn in E. inversion E; subst s. clear E.
  destruct (Add_ok false _ _ 2 H) as (s2 & E2 & H2 & _). cbn [step] in E'. rewrite E2 in E'. cbn [bind] in E'. inversion E'; subst s2. clear E' E2.
  destruct H2 as ((z & D & _) & _ & _ & I & _), H' as ((z' & D' & _) & _ & _ & I' & _).
  destruct (list_at_fun _ _ _ _ _ _ D D') as [Ed _]. cbn [map fst fresh] in Ed.
  destruct l' as [|[a u] [|[b w] [|? ?]]]; cbn in Ed; try discriminate. inversion Ed; subst a b.
  pose proof (I _ _ (or_introl eq_refl)) as I1. pose proof (I' _ _ (or_introl eq_refl)) as I2. cbn [fresh] in I1. rewrite I1 in I2. inversion I2; subst u.
  cbn. discriminate.
Qed.
Print Assumptions C115_LinkedList_refuted.
Example C115_example : exists s, run 10 true new_list [OAdd 10; OAdd 20; OInsert 15 (Some 1); OFront 5; ORemove 0] = Ok s /\
  holds true s [(3, 5); (2, 15); (1, 20)] /\ root s = Some 3 /\ last s = Some 1 /\ len s = 3.
Proof.
  destruct (C115_LinkedList_partial [OAdd 10; OAdd 20; OInsert 15 (Some 1); OFront 5; ORemove 0] [(3, 5); (2, 15); (1, 20)] 4 10 eq_refl) as (s & E & H).
  { cbn. lia. }
  exists s. split; [exact E|]. split; [exact H|]. destruct H as ((z & (R & L & _) & Z) & N & _). rewrite (Z eq_refl). auto.
Qed.

(* C116: assigning and adding another list, with the pointer to the last node *)
Theorem C116_LinkedList_copy_partial {T} ul (s r : ll T) l lr fuel : holds true s l -> holds ul r lr -> length l < fuel -> length lr < fuel ->
  (exists s' l', assign fuel true s r = Ok s' /\ holds true s' l' /\ map snd l' = map snd lr) /\
  (exists s' l', append fuel true s r (root r) = Ok s' /\ holds true s' (l ++ l') /\ map snd l' = map snd lr).
Proof.
  intros H Hr L1 L2. split.
  - destruct (assign_ok true ul r lr s l fuel H Hr L1 L2) as (s' & l' & A & B & C). eauto 6.
  - destruct Hr as ((z & D & _) & _ & _ & I & _). rewrite list_at_dll in D. destruct D as (R & _ & D). rewrite R.
    destruct (append_ok true r lr None fuel s l D I H L2) as (s' & l' & A & B & C). eauto 6.
Qed.
Print Assumptions C116_LinkedList_copy_partial.
(* without it the copy is the reverse *)
Theorem C116_LinkedList_reversed_partial {T} ul (s r : ll T) l lr fuel : holds false s l -> holds ul r lr -> length l < fuel -> length lr < fuel ->
  exists s' l', assign fuel false s r = Ok s' /\ holds false s' l' /\ map snd l' = rev (map snd lr).
Proof. intros H Hr L1 L2. destruct (assign_ok false ul r lr s l fuel H Hr L1 L2) as (s' & l' & A & B & C). eauto 6. Qed.
Print Assumptions C116_LinkedList_reversed_partial.
Theorem C116_LinkedList_copy_refuted : exists (s r : ll nat) l lr, holds false s l /\ holds false r lr /\
  exists s' l', assign 5 false s r = Ok s' /\ holds false s' l' /\ map snd l' <> map snd lr.
Proof.
  destruct (run_ok (T := nat) false 5 [OAdd 1; OAdd 2] new_list [] [(1, 2); (0, 1)] 2 (holds_new _) eq_refl ltac:(cbn; lia)) as (r & E & H).
  exists new_list, r, [], [(1, 2); (0, 1)]. split; [apply holds_new|]. split; [exact H|].
  destruct (C116_LinkedList_reversed_partial false new_list r [] [(1, 2); (0, 1)] 5 (holds_new _) H ltac:(cbn; lia) ltac:(cbn; lia)) as (s' & l' & A & B & C).
  clear E. exists s', l'. split; [exact A|]. split; [exact B|]. rewrite C. discriminate.
Qed.
Print Assumptions C116_LinkedList_copy_refuted.
(* and adding a list with that pointer to itself never ends *)
Theorem C116_LinkedList_self_refuted {T} (s : ll T) l : holds true s l -> l <> [] -> forall fuel, append_self fuel true s (root s) = OutOfFuel.
Proof.
  intros H N fuel. pose proof H as ((z & (R & _) & _) & _). destruct l as [|[a v] l]; [congruence|]. cbn in R. rewrite R.
  eapply append_self_loops; eauto. now left.
Qed.
Print Assumptions C116_LinkedList_self_refuted.
Example C116_example : exists s r : ll nat, holds true s [(0, 7)] /\ holds true r [(0, 1); (1, 2); (2, 3)].
Proof.
  destruct (run_ok (T := nat) true 5 [OAdd 7] new_list [] [(0, 7)] 1 (holds_new _) eq_refl ltac:(cbn; lia)) as (s & _ & H).
  destruct (run_ok (T := nat) true 5 [OAdd 1; OAdd 2; OAdd 3] new_list [] [(0, 1); (1, 2); (2, 3)] 3 (holds_new _) eq_refl ltac:(cbn; lia)) as (r & _ & H').
  eauto.
Qed.

(* C117: Item searches all round from a node, in either direction, and finds the first node that holds the item *)
Theorem C117_Item {T} (eqb : T -> T -> bool) ul (s : ll T) p y q x fuel : holds ul s (p ++ y :: q) -> length (p ++ y :: q) <= fuel ->
  Item eqb fuel s x (Some (fst y)) false = Ok (first eqb x ((y :: q) ++ p)) /\
  (ul = true -> Item eqb fuel s x (Some (fst y)) true = Ok (first eqb x ((y :: rev p) ++ rev q))) /\
  Item eqb fuel s x None false = Ok (first eqb x (p ++ y :: q)).
Proof.
  intros H L. split; [|split].
  - eapply Item_forward; eauto.
  - intros ->. eapply Item_backward; eauto.
  - pose proof H as ((z & (R & _) & _) & _). destruct (p ++ y :: q) as [|w t] eqn:E; [destruct p; discriminate|].
    pose proof (Item_forward eqb ul s [] w t x fuel H L) as F. rewrite app_nil_r in F. unfold Item in *. cbn [isnull] in *. cbn in R. rewrite R. rewrite R in F. exact F.
Qed.
Print Assumptions C117_Item.
(* so it gives a node that holds the item, or null when there is none *)
Theorem C117_Item_finds {T} (eqb : T -> T -> bool) ul (s : ll T) l from x fuel : holds ul s l -> length l <= fuel -> In from (map fst l) ->
  exists r, Item eqb fuel s x (Some from) false = Ok r /\
    match r with Some a => exists v, In (a, v) l /\ eqb v x = true | None => forall a v, In (a, v) l -> eqb v x = false end.
Proof.
  intros H L K. apply in_map_iff in K as (y & <- & K). apply in_split in K as (p & q & ->).
  eexists. split; [eapply Item_forward; eauto|]. destruct (first eqb x ((y :: q) ++ p)) as [a|] eqn:E.
  - apply first_some in E as (v & A & B). exists v. split; auto. apply in_app_or in A. apply in_or_app. tauto.
  - intros a v A. apply (first_none eqb x _ E a v). apply in_app_or in A. apply in_or_app. tauto.
Qed.
Print Assumptions C117_Item_finds.
Example C117_example : exists s : ll nat, holds true s ([(0, 7); (1, 8)] ++ (2, 9) :: [(3, 7); (4, 8)]) /\
  Item Nat.eqb 5 s 8 (Some 2) false = Ok (Some 4) /\ Item Nat.eqb 5 s 8 (Some 2) true = Ok (Some 1) /\ Item Nat.eqb 5 s 5 (Some 2) true = Ok None.
Proof.
  destruct (run_ok (T := nat) true 9 [OAdd 7; OAdd 8; OAdd 9; OAdd 7; OAdd 8] new_list [] _ 5 (holds_new _) eq_refl ltac:(cbn; lia)) as (s & _ & H).
  exists s. split; [exact H|].
  destruct (C117_Item Nat.eqb true s [(0, 7); (1, 8)] (2, 9) [(3, 7); (4, 8)] 8 5 H ltac:(cbn; lia)) as (A & B & _). cbn [fst] in A, B. rewrite A, B by auto.
  destruct (C117_Item Nat.eqb true s [(0, 7); (1, 8)] (2, 9) [(3, 7); (4, 8)] 5 5 H ltac:(cbn; lia)) as (_ & C & _). cbn [fst] in C. rewrite C by auto.
  cbn. auto.
Qed.
