(** * C106, C107: child nodes and attributes of an XMLNode *)
From Coq Require Import ZArith List Bool Lia Arith.
From Verif Require XML.
From Verif Require Import Common XMLTree.
Import ListNotations.

(** calls: AddNode, RemoveNode of the last node, AddAttribute *)
Inductive call := CAdd (n : list Z) | CPop | CAttr (v : list Z * list Z).
Definition as_op (s : xnode) (c : call) : op :=
  match c with CAdd n => OpAdd n | CPop => OpRemove (length (arr s) - 1) | CAttr v => OpAttr v end.
Fixpoint calls (s : xnode) (l : list call) : res xnode := match l with [] => Ok s | c :: l => do s <- step s (as_op s c); calls s l end.
(** the names of the nodes that there should be, in order *)
Fixpoint names (l : list call) (acc : list (list Z)) : list (list Z) :=
  match l with [] => acc | CAdd n :: l => names l (acc ++ [n]) | CPop :: l => names l (removelast acc) | CAttr _ :: l => names l acc end.
(** the attribute that was set last under a name *)
Fixpoint last_attr (l : list call) (n : list Z) (cur : option (list Z * list Z)) : option (list Z * list Z) :=
  match l with [] => cur | CAttr v :: l => last_attr l n (if str_dec (fst v) n then Some v else cur) | _ :: l => last_attr l n cur end.
Fixpoint all_attrs (l : list call) : list (list Z * list Z) := match l with [] => [] | CAttr v :: l => v :: all_attrs l | _ :: l => all_attrs l end.
(** following the next pointers *)
Fixpoint walk (next : nat -> option nat) (fuel : nat) (o : option nat) : list nat :=
  match fuel, o with S f, Some p => p :: walk next f (next p) | _, _ => [] end.
Definition named (s : xnode) (n : list Z) (p : nat) : bool := if str_dec (nname s p) n then true else false.

(* ------------------------------------------------------------------ the invariant *)
Section Inv.
Context (nm : nat -> list Z).
Definition is (n : list Z) (p : nat) : bool := if str_dec (nm p) n then true else false.
Definition firstof (n : list Z) (l : list nat) : option nat := hd_error (filter (is n) l).
Definition lastof (n : list Z) (l : list nat) : option nat := hd_error (rev (filter (is n) l)).
Lemma is_true n p : is n p = true <-> nm p = n.
Proof. unfold is. destruct (str_dec (nm p) n); split; congruence. Qed.
Lemma is_self p : is (nm p) p = true.
Proof. now apply is_true. Qed.
Lemma firstof_app n a b : firstof n (a ++ b) = match firstof n a with Some x => Some x | None => firstof n b end.
Proof. unfold firstof. rewrite filter_app. destruct (filter (is n) a); reflexivity. Qed.
Lemma lastof_app n a b : lastof n (a ++ b) = match lastof n b with Some x => Some x | None => lastof n a end.
Proof. unfold lastof. rewrite filter_app, rev_app_distr. destruct (rev (filter (is n) b)); reflexivity. Qed.
Lemma firstof_none n l : firstof n l = None <-> (forall p, In p l -> nm p <> n).
Proof.
  unfold firstof. split.
  - intros H p I E. assert (X : In p (filter (is n) l)) by (apply filter_In; split; [auto|apply is_true; auto]). destruct (filter (is n) l); [destruct X|discriminate].
  - intros H. destruct (filter (is n) l) as [|x t] eqn:E; [reflexivity|]. exfalso. assert (X : In x (filter (is n) l)) by (rewrite E; left; auto). apply filter_In in X as [X Y]. apply is_true in Y. eapply H; eauto.
Qed.
Lemma lastof_none n l : lastof n l = None <-> (forall p, In p l -> nm p <> n).
Proof.
  rewrite <- firstof_none. unfold lastof, firstof. destruct (filter (is n) l) as [|x t]; cbn; [tauto|]. split; [|discriminate]. destruct (rev t); discriminate.
Qed.
Lemma lastof_split n l t : lastof n l = Some t -> exists a b, l = a ++ t :: b /\ nm t = n /\ lastof n b = None.
Proof.
  induction l as [|x l IH] using rev_ind; [discriminate|]. rewrite lastof_app.
  destruct (lastof n [x]) eqn:E.
  - intros [= <-]. unfold lastof in E. cbn in E. destruct (is n x) eqn:X; [|discriminate]. inversion E; subst. apply is_true in X. exists l, []. auto.
  - intros H. destruct (IH H) as (a & b & -> & N & L). exists a, (b ++ [x]). rewrite <- app_assoc. split; [reflexivity|]. split; [auto|]. now rewrite lastof_app, E.
Qed.
End Inv.
Lemma filter_is_ext nm nm' n l : (forall p, In p l -> nm p = nm' p) -> filter (is nm n) l = filter (is nm' n) l.
Proof. induction l as [|x l IH]; intros H; cbn; [auto|]. assert (E : is nm n x = is nm' n x) by (unfold is; rewrite (H x) by (left; auto); reflexivity). rewrite E, IH by (intros; apply H; right; auto). reflexivity. Qed.
Lemma firstof_ext nm nm' n l : (forall p, In p l -> nm p = nm' p) -> firstof nm n l = firstof nm' n l.
Proof. intros H. unfold firstof. now rewrite (filter_is_ext nm nm'). Qed.
Lemma lastof_ext nm nm' n l : (forall p, In p l -> nm p = nm' p) -> lastof nm n l = lastof nm' n l.
Proof. intros H. unfold lastof. now rewrite (filter_is_ext nm nm'). Qed.

Record inv (s : xnode) : Prop := {
  i_nodup : NoDup (arr s);
  i_fresh : forall p, In p (arr s) -> p < fresh s;
  i_links : forall a p b, arr s = a ++ p :: b -> nnext s p = lastof (nname s) (nname s p) a /\ nprev s p = firstof (nname s) (nname s p) b;
  i_hash : forall n, match nhash s n with
    | Some i => exists a p b, arr s = a ++ p :: b /\ length a = i /\ nname s p = n /\ firstof (nname s) n b = None
    | None => firstof (nname s) n (arr s) = None end;
  i_attr : forall n, match ahash s n with
    | Some i => exists v, nth_error (attrs s) i = Some v /\ fst v = n
    | None => ~ In n (map fst (attrs s)) end;
  i_attrs : NoDup (map fst (attrs s)) }.

Lemma inv_empty : inv empty.
Proof.
  constructor; cbn; auto; try constructor; try tauto.
  - destruct a; discriminate.
  - destruct a; discriminate.
Qed.

Lemma put_same {B} (m : nat -> B) k v : put m k v k = v.
Proof. unfold put. destruct (Nat.eq_dec k k); congruence. Qed.
Lemma put_other {B} (m : nat -> B) k v x : x <> k -> put m k v x = m x.
Proof. unfold put. destruct (Nat.eq_dec x k); congruence. Qed.
Lemma puts_same m k v : puts m k v k = v.
Proof. unfold puts. destruct (str_dec k k); congruence. Qed.
Lemma puts_other m k v x : x <> k -> puts m k v x = m x.
Proof. unfold puts. destruct (str_dec x k); congruence. Qed.

(** splits of a list with one more element *)
Lemma snoc_split (l a b : list nat) x p : l ++ [x] = a ++ p :: b -> (b = [] /\ p = x /\ a = l) \/ exists b', b = b' ++ [x] /\ l = a ++ p :: b'.
Proof.
  destruct b as [|y b _] using rev_ind; intros H.
  - apply app_inj_tail in H as [-> ->]. auto.
  - right. exists b. change (a ++ p :: b ++ [y]) with (a ++ (p :: b) ++ [y]) in H. rewrite app_assoc in H. apply app_inj_tail in H as [-> ->]. auto.
Qed.
Lemma split_unique (l a a' b b' : list nat) p : NoDup l -> l = a ++ p :: b -> l = a' ++ p :: b' -> a = a' /\ b = b'.
Proof.
  intros N -> E. revert a' E. induction a as [|x a IH]; intros a' E; destruct a' as [|x' a']; cbn in *; inversion E; subst.
  - auto.
  - exfalso. inversion N as [|? ? NI _]; subst. apply NI. apply in_or_app. right; left; auto.
  - exfalso. inversion N as [|? ? NI _]; subst. apply NI. apply in_or_app. right; left; auto.
  - inversion N as [|? ? NI N']; subst. destruct (IH N' a' H1) as [-> ->]. auto.
Qed.

Lemma add_ok s n : inv s -> exists s', AddNode s n = Ok s' /\ inv s' /\ arr s' = arr s ++ [fresh s] /\
  (forall p, nname s' p = put (nname s) (fresh s) n p) /\ attrs s' = attrs s /\ ahash s' = ahash s.
Proof.
  intros I. destruct I as [ND FR LK HA AT AN].
  assert (NF : ~ In (fresh s) (arr s)) by (intros X; apply FR in X; lia).
  set (id := fresh s) in *. set (nm' := put (nname s) id n).
  assert (EXT : forall p, In p (arr s) -> nname s p = nm' p) by (intros p P; unfold nm'; rewrite put_other; auto; intros ->; auto).
  assert (ND' : NoDup (arr s ++ [id])).
  { apply NoDup_Add with (a := id) (l := arr s). { rewrite <- (app_nil_r (arr s)) at 1. apply Add_app. } auto. }
  assert (FR' : forall p, In p (arr s ++ [id]) -> p < S id). { intros p P. apply in_app_or in P as [P|[<-|[]]]; [apply FR in P|]; lia. }
  assert (HA' : forall m, match puts (nhash s) n (Some (length (arr s))) m with
    | Some i => exists a p b, arr s ++ [id] = a ++ p :: b /\ length a = i /\ nm' p = m /\ firstof nm' m b = None
    | None => firstof nm' m (arr s ++ [id]) = None end).
  { intros m. unfold puts. destruct (str_dec m n) as [->|MN].
    - exists (arr s), id, []. repeat split; auto. unfold nm'. apply put_same.
    - specialize (HA m). assert (ID : firstof nm' m [id] = None). { apply firstof_none. intros p [<-|[]]. unfold nm'. rewrite put_same. auto. }
      destruct (nhash s m) as [i|].
      + destruct HA as (a & p & b & E & L & N & F). exists a, p, (b ++ [id]). rewrite E, <- app_assoc. repeat split; auto.
        * rewrite <- EXT; auto. rewrite E. apply in_or_app. right; left; auto.
        * rewrite firstof_app, ID. rewrite (firstof_ext nm' (nname s)). { now rewrite F. } intros q Q. symmetry. apply EXT. rewrite E. apply in_or_app. right; right; auto.
      + rewrite firstof_app, ID. rewrite (firstof_ext nm' (nname s)). { now rewrite HA. } intros q Q. symmetry. auto. }
  unfold AddNode. fold id. pose proof (HA n) as Hn. destruct (nhash s n) as [i|] eqn:E.
  - destruct Hn as (a & t & b & EA & LA & NT & FB).
    assert (NTH : nth_error (arr s) i = Some t). { rewrite EA, <- LA. rewrite nth_error_app2, Nat.sub_diag by lia. reflexivity. }
    rewrite NTH. destruct (LK a t b EA) as [_ PV]. rewrite NT, FB in PV. rewrite PV.
    assert (TN : t <> id). { intros ->. apply NF. rewrite EA. apply in_or_app. right; left; auto. }
    eexists. split; [reflexivity|]. split; [|cbn; auto]. constructor; cbn; auto. fold nm'.
    intros a' p b' S. destruct (snoc_split _ _ _ _ _ S) as [(-> & -> & ->)|(b0 & -> & S0)].
    + rewrite put_same. unfold nm'. rewrite put_same. fold nm'. split.
      * rewrite (lastof_ext nm' (nname s)) by (intros; symmetry; auto). rewrite EA. rewrite lastof_app.
        change (t :: b) with ([t] ++ b). rewrite lastof_app.
        replace (lastof (nname s) n b) with (@None nat). 2: { symmetry. apply lastof_none. apply firstof_none. auto. }
        unfold lastof at 1. cbn. replace (is (nname s) n t) with true; [reflexivity|]. symmetry. apply is_true. auto.
      * rewrite put_other by auto. rewrite put_same. reflexivity.
    + assert (PIN : In p (arr s)) by (rewrite S0; apply in_or_app; right; left; auto).
      assert (PID : p <> id) by (intros ->; auto).
      destruct (LK _ _ _ S0) as [NX PX]. rewrite <- (EXT p PIN).
      assert (E1 : lastof nm' (nname s p) a' = lastof (nname s) (nname s p) a'). { apply lastof_ext. intros q Q. symmetry. apply EXT. rewrite S0. apply in_or_app; auto. }
      assert (E2 : firstof nm' (nname s p) b0 = firstof (nname s) (nname s p) b0). { apply firstof_ext. intros q Q. symmetry. apply EXT. rewrite S0. apply in_or_app. right; right; auto. }
      split; [rewrite put_other by auto; rewrite E1; auto|]. rewrite firstof_app, E2.
      destruct (Nat.eq_dec p t) as [->|PT].
      * rewrite put_same. destruct (split_unique _ _ _ _ _ _ ND EA S0) as [-> ->]. rewrite NT, FB.
        unfold firstof. cbn. replace (is nm' n id) with true; [reflexivity|]. symmetry. apply is_true. unfold nm'. apply put_same.
      * rewrite !put_other by auto. rewrite PX. destruct (firstof (nname s) (nname s p) b0) eqn:FO; [reflexivity|].
        destruct (str_dec (nname s p) n) as [PN|PN].
        -- exfalso. rewrite firstof_none in FO. rewrite firstof_none in FB.
           assert (TIN : In t (a' ++ p :: b0)) by (rewrite <- S0, EA; apply in_or_app; right; left; auto).
           apply in_app_or in TIN as [T1|[T1|T1]]; [|congruence|apply (FO t T1); congruence].
           (* t before p: then p after t *)
           assert (PIN2 : In p (a ++ t :: b)) by (rewrite <- EA; auto).
           apply in_app_or in PIN2 as [P1|[P1|P1]]; [|congruence|apply (FB p P1); congruence].
           apply in_split in T1 as (u & w & ->). apply in_split in P1 as (u' & w' & ->).
           rewrite <- app_assoc in S0. cbn in S0. destruct (split_unique _ _ _ _ _ _ ND EA S0) as [<- _].
           rewrite <- app_assoc in EA. cbn in EA. rewrite <- app_assoc in S0. cbn in S0.
           pose proof ND as ND2. rewrite EA in ND2. apply NoDup_remove_2 in ND2. apply ND2.
           assert (X : arr s = u' ++ p :: w' ++ t :: w ++ p :: b0) by (rewrite S0; reflexivity).
           assert (Y : w' ++ t :: b = w' ++ t :: w ++ p :: b0). { rewrite EA in X. apply app_inv_head in X. congruence. }
           rewrite Y. apply in_or_app. right. apply in_or_app. right. right. apply in_or_app. right. left; auto.
        -- unfold firstof. cbn. replace (is nm' (nname s p) id) with false; [reflexivity|]. symmetry. destruct (is nm' (nname s p) id) eqn:X; auto. apply is_true in X. unfold nm' in X. rewrite put_same in X. congruence.
  - eexists. split; [reflexivity|]. split; [|cbn; auto]. constructor; cbn; auto. fold nm'.
    intros a' p b' S. destruct (snoc_split _ _ _ _ _ S) as [(-> & -> & ->)|(b0 & -> & S0)].
    + rewrite !put_same. unfold nm'. rewrite put_same. fold nm'. split; [|reflexivity].
      rewrite (lastof_ext nm' (nname s)) by (intros; symmetry; auto). symmetry. apply lastof_none. apply firstof_none. auto.
    + assert (PIN : In p (arr s)) by (rewrite S0; apply in_or_app; right; left; auto).
      assert (PID : p <> id) by (intros ->; auto).
      destruct (LK _ _ _ S0) as [NX PX]. rewrite <- (EXT p PIN).
      rewrite !put_other by auto.
      assert (E1 : lastof nm' (nname s p) a' = lastof (nname s) (nname s p) a'). { apply lastof_ext. intros q Q. symmetry. apply EXT. rewrite S0. apply in_or_app; auto. }
      assert (E2 : firstof nm' (nname s p) b0 = firstof (nname s) (nname s p) b0). { apply firstof_ext. intros q Q. symmetry. apply EXT. rewrite S0. apply in_or_app. right; right; auto. }
      split; [congruence|]. rewrite firstof_app, E2, PX. destruct (firstof (nname s) (nname s p) b0); [reflexivity|].
      unfold firstof. cbn. replace (is nm' (nname s p) id) with false; [reflexivity|]. symmetry. destruct (is nm' (nname s p) id) eqn:X; auto.
      apply is_true in X. unfold nm' in X. rewrite put_same in X. rewrite firstof_none in Hn. exfalso. apply (Hn p PIN). auto.
Qed.

Lemma relink_none l : forall i t n h prev, ~ In t l -> relink l i t n h prev = (h, prev).
Proof.
  induction l as [|x l IH]; intros i t n h prev N; cbn; [auto|]. destruct (Nat.eq_dec x t); [exfalso; apply N; left; auto|]. apply IH. intros X. apply N; right; auto.
Qed.
Lemma relink_one a : forall t b i n h prev, NoDup (a ++ t :: b) -> h n <> None -> relink (a ++ t :: b) i t n h prev = (puts h n (Some (i + length a)), put prev t None).
Proof.
  induction a as [|x a IH]; intros t b i n h prev N H; cbn.
  - destruct (Nat.eq_dec t t); [|congruence]. destruct (h n); [|congruence]. rewrite Nat.add_0_r. apply relink_none. inversion N; auto.
  - inversion N as [|? ? NI N']; subst. destruct (Nat.eq_dec x t) as [->|]; [exfalso; apply NI; apply in_or_app; right; left; auto|].
    rewrite IH by auto. now rewrite Nat.add_succ_r.
Qed.
Lemma remove_last_at (a : list nat) p : remove_at (a ++ [p]) (length a) = a.
Proof. unfold remove_at. rewrite skipn_all2 by (rewrite app_length; cbn; lia). rewrite firstn_app, Nat.sub_diag, firstn_all. cbn. now rewrite !app_nil_r. Qed.

Lemma snoc_cases (l : list nat) : l = [] \/ exists a p, l = a ++ [p].
Proof. destruct l as [|p a _] using rev_ind; eauto. Qed.
Lemma pop_ok s : inv s -> let s' := snd (RemoveNode s (length (arr s) - 1)) in
  inv s' /\ arr s' = removelast (arr s) /\ nname s' = nname s /\ attrs s' = attrs s /\ ahash s' = ahash s.
Proof.
  intros I. pose proof I as [ND FR LK HA AT AN]. unfold RemoveNode.
  destruct (snoc_cases (arr s)) as [EA|(l & p & EA)]. { rewrite EA. cbn. rewrite EA. auto. }
  assert (NTH : nth_error (arr s) (length (arr s) - 1) = Some p).
  { rewrite EA, app_length. cbn. replace (length l + 1 - 1) with (length l) by lia. rewrite nth_error_app2, Nat.sub_diag by lia. reflexivity. }
  rewrite NTH. set (n := nname s p). destruct (LK l p [] EA) as [NX _]. fold n in NX.
  assert (ND' : NoDup l /\ ~ In p l). { rewrite EA in ND. split; [|apply NoDup_remove_2 in ND; now rewrite app_nil_r in ND]. apply NoDup_remove_1 in ND. now rewrite app_nil_r in ND. }
  destruct ND' as [ND' NP].
  assert (RM : remove_at (arr s) (length (arr s) - 1) = l). { rewrite EA, app_length. cbn. replace (length l + 1 - 1) with (length l) by lia. apply remove_last_at. }
  assert (RL : removelast (arr s) = l) by (rewrite EA; apply removelast_last).
  assert (FR' : forall q, In q l -> q < fresh s) by (intros q Q; apply FR; rewrite EA; apply in_or_app; auto).
  (* entries of other names *)
  assert (OTHER : forall m, m <> n -> match nhash s m with
    | Some i => exists a q b, l = a ++ q :: b /\ length a = i /\ nname s q = m /\ firstof (nname s) m b = None
    | None => firstof (nname s) m l = None end).
  { intros m MN. specialize (HA m). destruct (nhash s m) as [i|].
    - destruct HA as (a & q & b & E & L & N & F). rewrite EA in E. destruct (snoc_split _ _ _ _ _ E) as [(-> & -> & ->)|(b' & -> & E')]; [exfalso; apply MN; auto|].
      exists a, q, b'. rewrite firstof_app in F. repeat split; auto. destruct (firstof (nname s) m b'); [discriminate|auto].
    - rewrite EA, firstof_app in HA. destruct (firstof (nname s) m l); [discriminate|auto]. }
  destruct (nnext s p) as [t|] eqn:EN.
  - symmetry in NX. destruct (lastof_split _ _ _ _ NX) as (a & b & EL & NT & LB).
    assert (HN : nhash s n <> None). { intros H. specialize (HA n). rewrite H in HA. rewrite firstof_none in HA. apply (HA p); auto. rewrite EA. apply in_or_app. right; left; auto. }
    assert (RK : relink (arr s) 0 t n (nhash s) (nprev s) = (puts (nhash s) n (Some (length a)), put (nprev s) t None)).
    { rewrite EA, EL, <- app_assoc. cbn [app]. apply relink_one; auto. rewrite EA, EL, <- app_assoc in ND. exact ND. }
    rewrite RK. cbn [snd]. rewrite RM. split; [|cbn; rewrite RL; auto]. constructor; cbn; auto.
    + intros a' q b' S. assert (QA : arr s = a' ++ q :: (b' ++ [p])) by (rewrite EA, S, <- app_assoc; reflexivity).
      destruct (LK _ _ _ QA) as [QN QP]. split; [auto|].
      destruct (Nat.eq_dec q t) as [->|QT].
      * rewrite put_same. destruct (split_unique _ _ _ _ _ _ ND' EL S) as [<- <-]. rewrite NT. symmetry. apply firstof_none. apply lastof_none. auto.
      * rewrite put_other by auto. rewrite QP, firstof_app. destruct (firstof (nname s) (nname s q) b') eqn:FO; [reflexivity|].
        apply firstof_none. intros x [<-|[]] E. fold n in E.
        (* q has the name of p, so q is t or before t *)
        rewrite firstof_none in FO. rewrite lastof_none in LB.
        assert (QI : In q l) by (rewrite S; apply in_or_app; right; left; auto). rewrite EL in QI. apply in_app_or in QI as [Q1|[Q1|Q1]]; [|congruence|apply (LB q Q1); auto].
        apply in_split in Q1 as (u & w & ->). rewrite <- app_assoc in EL. cbn in EL. destruct (split_unique _ _ _ _ _ _ ND' EL S) as [_ <-].
        apply (FO t); [apply in_or_app; right; left; auto|congruence].
    + intros m. unfold puts. destruct (str_dec m n) as [->|MN]; [|apply OTHER; auto].
      exists a, t, b. repeat split; auto. apply firstof_none. apply lastof_none. auto.
  - cbn [snd]. rewrite RM. split; [|cbn; rewrite RL; auto]. symmetry in NX. rewrite lastof_none in NX. constructor; cbn; auto.
    + intros a' q b' S. assert (QA : arr s = a' ++ q :: (b' ++ [p])) by (rewrite EA, S, <- app_assoc; reflexivity).
      destruct (LK _ _ _ QA) as [QN QP]. split; [auto|]. rewrite QP, firstof_app. destruct (firstof (nname s) (nname s q) b') eqn:FO; [reflexivity|].
      apply firstof_none. intros x [<-|[]] E. apply (NX q); [rewrite S; apply in_or_app; right; left; auto|]. unfold n. auto.
    + intros m. unfold puts. destruct (str_dec m n) as [->|MN]; [|apply OTHER; auto]. apply firstof_none. auto.
Qed.

Lemma attr_ok s v : inv s -> exists s', AddAttribute s v = Ok s' /\ inv s' /\ arr s' = arr s /\ nname s' = nname s /\ attrs s' = XML.add_attr (attrs s) v /\
  (forall n, GetAttribute s' n = if str_dec (fst v) n then Some v else GetAttribute s n).
Proof.
  intros [ND FR LK HA AT AN]. unfold AddAttribute. pose proof (AT (fst v)) as Hv. destruct (ahash s (fst v)) as [i|] eqn:E.
  - destruct Hv as (w & NTH & FW).
    assert (LT : i < length (attrs s)) by (apply nth_error_Some; congruence). rewrite (proj2 (Nat.ltb_lt _ _) LT).
    destruct (nth_error_split _ _ NTH) as (l1 & l2 & EQ & L1).
    assert (NEW : firstn i (attrs s) ++ v :: skipn (S i) (attrs s) = l1 ++ v :: l2).
    { rewrite EQ, <- L1. rewrite firstn_app, Nat.sub_diag, firstn_all. cbn [firstn]. rewrite app_nil_r. f_equal. f_equal.
      replace (S (length l1)) with (length (l1 ++ [w])) by (rewrite app_length; cbn; lia). replace (l1 ++ w :: l2) with ((l1 ++ [w]) ++ l2) by (rewrite <- app_assoc; reflexivity).
      rewrite skipn_app, Nat.sub_diag, skipn_all. reflexivity. }
    assert (MF : map fst (l1 ++ v :: l2) = map fst (attrs s)) by (rewrite EQ, !map_app; cbn; rewrite FW; reflexivity).
    rewrite NEW. eexists. split; [reflexivity|]. split; [|cbn [arr nname attrs]; repeat split; auto].
    + constructor; cbn [arr fresh nnext nname nprev nhash attrs ahash]; auto; [|rewrite MF; auto].
      intros n. specialize (AT n). destruct (ahash s n) as [j|] eqn:EJ; [|rewrite MF; auto].
      destruct AT as (x & NX & FX). destruct (Nat.eq_dec j i) as [->|NE].
      * exists v. split; [rewrite <- L1, nth_error_app2, Nat.sub_diag by lia; reflexivity|]. rewrite NTH in NX. inversion NX; subst. auto.
      * exists x. split; auto. rewrite EQ in NX. destruct (Nat.lt_ge_cases j (length l1)).
        -- rewrite nth_error_app1 in * by lia. auto.
        -- rewrite nth_error_app2 in * by lia. destruct (j - length l1) eqn:D; [lia|]. exact NX.
    + rewrite EQ. clear - EQ AN FW. rewrite EQ in AN. clear EQ. induction l1 as [|y l1 IH]; cbn.
      * destruct (list_eq_dec Z.eq_dec (fst w) (fst v)); [reflexivity|congruence].
      * cbn in AN. inversion AN as [|? ? NI AN']; subst. destruct (list_eq_dec Z.eq_dec (fst y) (fst v)) as [EY|].
        -- exfalso. apply NI. rewrite EY, <- FW. apply in_map. apply in_or_app. right; left; auto.
        -- f_equal. auto.
    + intros n. unfold GetAttribute. cbn [attrs ahash]. destruct (str_dec (fst v) n) as [<-|NV].
      * rewrite E. rewrite <- L1, nth_error_app2, Nat.sub_diag by lia. reflexivity.
      * specialize (AT n). destruct (ahash s n) as [j|]; auto. destruct AT as (x & NX & FX). rewrite NX.
        assert (j <> i) by (intros ->; congruence). rewrite EQ in NX. destruct (Nat.lt_ge_cases j (length l1)).
        -- rewrite nth_error_app1 in * by lia. auto.
        -- rewrite nth_error_app2 in * by lia. destruct (j - length l1) eqn:D; [lia|]. exact NX.
  - eexists. split; [reflexivity|]. split; [|cbn [arr nname attrs]; repeat split; auto].
    + constructor; cbn [arr fresh nnext nname nprev nhash attrs ahash]; auto.
      * intros n. unfold puts. destruct (str_dec n (fst v)) as [->|NE].
        -- exists v. split; auto. rewrite nth_error_app2, Nat.sub_diag by lia. reflexivity.
        -- specialize (AT n). destruct (ahash s n) as [j|].
           ++ destruct AT as (x & NX & FX). exists x. split; auto. rewrite nth_error_app1; auto. apply nth_error_Some. congruence.
           ++ rewrite map_app. intros X. apply in_app_or in X as [X|[X|[]]]; auto.
      * rewrite map_app. cbn. apply NoDup_Add with (a := fst v) (l := map fst (attrs s)); [|auto]. rewrite <- (app_nil_r (map fst (attrs s))) at 1. apply Add_app.
    + clear - Hv. induction (attrs s) as [|y l IH]; cbn; [auto|]. cbn in Hv. destruct (list_eq_dec Z.eq_dec (fst y) (fst v)) as [EY|]; [exfalso; auto|]. f_equal. auto.
    + intros n. unfold GetAttribute. cbn [attrs ahash]. unfold puts. destruct (str_dec n (fst v)) as [->|NE].
      * destruct (str_dec (fst v) (fst v)); [|congruence]. rewrite nth_error_app2, Nat.sub_diag by lia. reflexivity.
      * destruct (str_dec (fst v) n); [congruence|]. specialize (AT n). destruct (ahash s n) as [j|]; auto. destruct AT as (x & NX & FX). rewrite NX. rewrite nth_error_app1; auto. apply nth_error_Some. congruence.
Qed.

Lemma walk_lastof s : inv s -> forall f a b n, arr s = a ++ b -> length a <= f -> walk (nnext s) f (lastof (nname s) n a) = rev (filter (is (nname s) n) a).
Proof.
  intros I. induction f as [|f IH]; intros a b n E L.
  - destruct a; [reflexivity|cbn in L; lia].
  - destruct (lastof (nname s) n a) as [t|] eqn:LO; cbn [walk].
    + destruct (lastof_split _ _ _ _ LO) as (x & y & -> & NT & LY).
      assert (E' : arr s = x ++ t :: (y ++ b)) by (rewrite E, <- app_assoc; reflexivity).
      destruct (i_links s I _ _ _ E') as [-> _]. rewrite NT. rewrite (IH x (t :: y ++ b)); [|auto|rewrite app_length in L; cbn in L; lia].
      rewrite filter_app. cbn [filter]. replace (is (nname s) n t) with true by (symmetry; apply is_true; auto).
      assert (Y : filter (is (nname s) n) y = []). { unfold lastof in LY. destruct (filter (is (nname s) n) y) as [|z w]; auto. cbn in LY. destruct (rev w); discriminate. }
      rewrite Y. rewrite rev_app_distr. reflexivity.
    + unfold lastof in LO. destruct (rev (filter (is (nname s) n) a)); [reflexivity|discriminate].
Qed.
Lemma find_lastof s n : inv s -> GetNodeName s n = lastof (nname s) n (arr s).
Proof.
  intros I. unfold GetNodeName, GetNode. pose proof (i_hash s I n) as H. destruct (nhash s n) as [i|].
  - destruct H as (a & p & b & E & L & N & F). rewrite E, <- L. rewrite nth_error_app2, Nat.sub_diag by lia. cbn. rewrite lastof_app.
    change (p :: b) with ([p] ++ b). rewrite lastof_app. replace (lastof (nname s) n b) with (@None nat) by (symmetry; apply lastof_none, firstof_none; auto).
    unfold lastof at 1. cbn. replace (is (nname s) n p) with true by (symmetry; apply is_true; auto). reflexivity.
  - symmetry. apply lastof_none, firstof_none. auto.
Qed.

Lemma calls_ok : forall l s ns, inv s -> map (nname s) (arr s) = ns -> exists s', calls s l = Ok s' /\ inv s' /\ map (nname s') (arr s') = names l ns /\
  (forall n, GetAttribute s' n = last_attr l n (GetAttribute s n)) /\ attrs s' = fold_left XML.add_attr (all_attrs l) (attrs s).
Proof.
  induction l as [|c l IH]; intros s ns I M; cbn [calls].
  - exists s. auto.
  - destruct c as [n| |v]; cbn [as_op step].
    + destruct (add_ok s n I) as (s1 & -> & I1 & A1 & N1 & AT1 & AH1). cbn [bind].
      destruct (IH s1 (ns ++ [n]) I1) as (s2 & E & I2 & M2 & G2 & F2).
      { rewrite A1, map_app. cbn. rewrite N1, put_same. f_equal. rewrite <- M. apply map_ext_in. intros p P. rewrite N1. apply put_other. apply (i_fresh s I) in P. lia. }
      exists s2. split; auto. split; auto. split; auto. cbn [last_attr all_attrs]. rewrite <- AT1. split; auto. intros m. rewrite G2. unfold GetAttribute. now rewrite AT1, AH1.
    + destruct (pop_ok s I) as (I1 & A1 & N1 & AT1 & AH1). cbn [bind]. set (s1 := snd (RemoveNode s (length (arr s) - 1))) in *.
      destruct (IH s1 (removelast ns) I1) as (s2 & E & I2 & M2 & G2 & F2).
      { rewrite A1, N1, <- M. clear. induction (arr s) as [|x l IH]; [auto|]. destruct l; [auto|]. cbn [map removelast] in *. f_equal. exact IH. }
      exists s2. split; auto. split; auto. split; auto. cbn [last_attr all_attrs]. rewrite <- AT1. split; auto. intros m. rewrite G2. unfold GetAttribute. now rewrite AT1, AH1.
    + destruct (attr_ok s v I) as (s1 & -> & I1 & A1 & N1 & AT1 & G1). cbn [bind].
      destruct (IH s1 ns I1) as (s2 & E & I2 & M2 & G2 & F2). { now rewrite A1, N1. }
      exists s2. split; auto. split; auto. split; auto. cbn [last_attr all_attrs fold_left]. rewrite <- AT1. split; auto. intros m. rewrite G2, G1. auto.
Qed.

(** For every sequence of AddNode, AddAttribute and RemoveNode of the last node: no undefined behaviour; the nodes are
    those added and not removed, in order and all different; looking up a name and following next gives the nodes with
    that name, from the newest to the oldest; a name that no node has is not found.  Missing: RemoveNode of other nodes,
    see the next theorem. *)
Theorem C106_XML_nodes_partial : forall l, exists s, calls empty l = Ok s /\
  map (nname s) (arr s) = names l [] /\ NoDup (arr s) /\
  forall n, walk (nnext s) (length (arr s)) (GetNodeName s n) = rev (filter (named s n) (arr s)) /\ (GetNodeName s n = None <-> ~ In n (names l [])).
Proof.
  intros l. destruct (calls_ok l empty [] inv_empty eq_refl) as (s & E & I & M & _). exists s. repeat split; auto; try apply I.
  - rewrite find_lastof by auto. rewrite (walk_lastof s I _ (arr s) []); [reflexivity|now rewrite app_nil_r|auto].
  - rewrite find_lastof by auto. rewrite lastof_none. rewrite <- M. intros H X. apply in_map_iff in X as (p & P & X). apply (H p); auto.
  - rewrite find_lastof by auto. rewrite lastof_none. rewrite <- M. intros H p P X. apply H. apply in_map_iff. eauto.
Qed.
Print Assumptions C106_XML_nodes_partial.

Definition c106_calls : list call := [CAdd [97%Z]; CAdd [98%Z]; CAdd [97%Z]; CAdd [98%Z]; CPop].
Example C106_example : names c106_calls [] = [[97%Z]; [98%Z]; [97%Z]] /\
  match calls empty c106_calls with
  | Ok s => walk (nnext s) (length (arr s)) (GetNodeName s [97%Z]) = [2; 0] /\ walk (nnext s) (length (arr s)) (GetNodeName s [98%Z]) = [1]
  | _ => False end.
Proof. vm_compute. auto. Qed.

(** Removing a node that is not the last one leaves the positions in the hash behind: a node that exists is not found by
    its name any more, and adding a node with that name accesses the array out of bounds *)
Theorem C106_XML_RemoveNode_refuted : exists l s n, run empty l = Ok s /\ (exists p, In p (arr s) /\ nname s p = n) /\ GetNodeName s n = None /\ AddNode s n = UB.
Proof.
  exists [OpAdd [97%Z]; OpAdd [98%Z]; OpRemove 0]. eexists. exists [98%Z]. split; [reflexivity|].
  split; [exists 1; split; [left; reflexivity|reflexivity]|]. split; reflexivity.
Qed.
Print Assumptions C106_XML_RemoveNode_refuted.

(** Attributes: after any such sequence there is at most one attribute of each name and it is the one added last; the
    array is the one that the reader's model in XML.v has.  Missing: RemoveAttribute, see the next theorem. *)
Theorem C107_XML_attributes_partial : forall l, exists s, calls empty l = Ok s /\
  NoDup (map fst (attrs s)) /\ (forall n, GetAttribute s n = last_attr l n None) /\ attrs s = fold_left XML.add_attr (all_attrs l) [].
Proof.
  intros l. destruct (calls_ok l empty [] inv_empty eq_refl) as (s & E & I & _ & G & F). exists s. repeat split; auto. apply I.
Qed.
Print Assumptions C107_XML_attributes_partial.
Example C107_example : exists s, calls empty [CAttr ([97], [1]); CAttr ([98], [2]); CAdd [97]; CAttr ([97], [3])]%Z = Ok s /\
  attrs s = [([97], [3]); ([98], [2])]%Z /\ GetAttribute s [97%Z] = Some ([97], [3])%Z.
Proof. eexists. split; [reflexivity|]. split; reflexivity. Qed.

(** RemoveAttribute reports success but the attribute is still there, and a child node is gone instead *)
Theorem C107_XML_RemoveAttribute_refuted : exists l s n s', run empty l = Ok s /\ GetAttribute s n <> None /\ length (arr s) = 1 /\
  RemoveAttributeName s n = (true, s') /\ GetAttribute s' n <> None /\ length (arr s') = 0.
Proof.
  exists [OpAdd [97%Z]; OpAttr ([98], [1])%Z]. eexists. exists [98%Z]. eexists. split; [reflexivity|]. split; [discriminate|]. split; [reflexivity|].
  split; [reflexivity|]. split; [discriminate|reflexivity].
Qed.
Print Assumptions C107_XML_RemoveAttribute_refuted.
