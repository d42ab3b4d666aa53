(* C200: moving, assigning and destroying the allocators that hold chunks of memory. *)
From Coq Require Import List Arith Lia Bool.
From Verif Require Import Common AllocMove.
Import ListNotations.

(* --- specification --- *)
(** an object holds the chunk x *)
Definition held (s : st) (x : nat) : Prop := exists k l, nth_error (objs s) k = Some (Some l) /\ In x l.
(** the object k exists, with the chunks l *)
Definition is (s : st) (k : nat) (l : list nat) : Prop := nth_error (objs s) k = Some (Some l).
(** calls on objects that exist; an object that was moved from is not used except as a target or to be destroyed (a Block or Ring may be cleared);
    a Lockless or Greedy is assigned to only if it holds nothing, and not to itself *)
Definition allowed (kd : kind) (s : st) (o : op) : Prop :=
  match o with
  | ONew => True
  | OAlloc k _ => exists c l, is s k (c :: l)
  | OClear k => match kd with Lockless => False | Greedy => exists c l, is s k (c :: l) | _ => exists l, is s k l end
  | OMove k | ODestroy k => exists l, is s k l
  | OAssign a b => (exists l, is s a l) /\ match kd with Block | Ring => exists l, is s b l | _ => is s b [] /\ a <> b end
  end.
Inductive reach (kd : kind) : st -> Prop :=
| r_start : reach kd start
| r_step s o s' : reach kd s -> allowed kd s o -> step kd s o = Ok s' -> reach kd s'.
(** every chunk is held by one object, once; and the chunks that objects hold are those that the system has given out *)
Definition own (o : option (list nat)) : list nat := match o with Some l => l | None => [] end.
Definition all (l : list (option (list nat))) : list nat := concat (map own l).
Definition tidy (s : st) : Prop := NoDup (all (objs s)) /\ forall x, heap s x = true <-> held s x.

(* --- lemmas --- *)
Notation cnt := (count_occ Nat.eq_dec).
Definition bit (b : bool) : nat := if b then 1 else 0.
Definition inv (s : st) : Prop := (forall x, cnt (all (objs s)) x = bit (heap s x)) /\ forall x, heap s x = true -> x < next s.
Lemma cnt_upd l k o o' x : nth_error l k = Some o -> cnt (all (upd l k o')) x + cnt (own o) x = cnt (all l) x + cnt (own o') x.
Proof.
  revert k. unfold all. induction l as [|a l IH]; intros [|k] E; cbn [nth_error upd] in *; try discriminate; cbn [map concat]; rewrite !count_occ_app.
  - injection E as ->. lia.
  - specialize (IH k E). lia.
Qed.
Lemma cnt_in l k o x : nth_error l k = Some o -> cnt (own o) x <= cnt (all l) x.
Proof. intros E. pose proof (cnt_upd l k o None x E) as H. cbn [own count_occ] in H. lia. Qed.
Lemma all_app l o x : cnt (all (l ++ [o])) x = cnt (all l) x + cnt (own o) x.
Proof. unfold all. rewrite map_app, concat_app, count_occ_app. cbn [map concat]. now rewrite app_nil_r. Qed.
Lemma free_ok l : forall h, (forall x, cnt l x <= bit (h x)) -> exists h', free_all h l = Ok h' /\ forall x, bit (h' x) + cnt l x = bit (h x).
Proof.
  induction l as [|c l IH]; intros h H; cbn [free_all]; [exists h; split; [reflexivity|]; intros x; cbn [count_occ]; lia|].
  assert (C : h c = true). { specialize (H c). rewrite count_occ_cons_eq in H by reflexivity. destruct (h c); [reflexivity|cbn [bit] in H; lia]. }
  rewrite C. destruct (IH (fun x => if x =? c then false else h x)) as [h' [E F]].
  - intros x. specialize (H x). cbn beta. destruct (Nat.eqb_spec x c) as [->|N]; [rewrite count_occ_cons_eq, C in H by reflexivity; cbn [bit] in *; lia|rewrite count_occ_cons_neq in H by congruence; exact H].
  - exists h'. split; [exact E|]. intros x. specialize (F x). cbn beta in F. specialize (H x). destruct (Nat.eqb_spec x c) as [->|N]; [rewrite count_occ_cons_eq, C by reflexivity; cbn [bit] in *; lia|rewrite count_occ_cons_neq by congruence; exact F].
Qed.
Lemma free_less h' h (l : list nat) x : bit (h' x) + cnt l x = bit (h x) -> h' x = true -> h x = true.
Proof. intros E H. rewrite H in E. destruct (h x); [reflexivity|cbn [bit] in E; lia]. Qed.
Lemma chunks_is s k l : is s k l -> chunks s k = Ok l.
Proof. unfold is, chunks. now intros ->. Qed.
Lemma cnt_fresh c x l : cnt (c :: l) x = bit (x =? c) + cnt l x.
Proof. destruct (Nat.eqb_spec x c) as [->|N]; [now rewrite count_occ_cons_eq|now rewrite count_occ_cons_neq by congruence]. Qed.
Lemma is_upd_other s k j o l : is s k l -> k <> j -> nth_error (upd (objs s) j o) k = Some (Some l).
Proof.
  unfold is. generalize (objs s). intros m. revert k j. induction m as [|a m IH]; intros [|k] [|j] E N; cbn [upd nth_error] in *; try congruence; try discriminate. apply IH; [exact E|congruence].
Qed.
Lemma nth_upd_same {A} (m : list A) j o v : nth_error m j = Some v -> nth_error (upd m j o) j = Some o.
Proof. revert j. induction m as [|a m IH]; intros [|j] E; cbn [upd nth_error] in *; try discriminate; [reflexivity|now apply IH]. Qed.
Lemma inv_fresh s x : inv s -> heap s (next s) = false /\ (heap s x = true -> x < S (next s)).
Proof. intros [_ B]. split; [destruct (heap s (next s)) eqn:E; [specialize (B _ E); lia|reflexivity]|]. intros H. specialize (B _ H). lia. Qed.

Lemma step_ok kd s o : inv s -> allowed kd s o -> exists s', step kd s o = Ok s' /\ inv s'.
Proof.
  intros I A. pose proof (inv_fresh s) as NF.
  assert (CLEAR : forall l k, is s k l -> exists s', (do h <- free_all (heap s) l; let (c, s) := malloc (St h (next s) (objs s)) in Ok (set_obj s k (Some [c]))) = Ok s' /\ inv s').
  { intros l k K. destruct I as [C B]. destruct (free_ok l (heap s)) as [h [-> F]]; [intros x; rewrite <- C; exact (cnt_in _ _ _ x K)|]. cbn [bind malloc]. eexists. split; [reflexivity|].
    unfold set_obj. cbn [next heap objs]. split; cbn [objs heap next].
    - intros x. pose proof (cnt_upd (objs s) k (Some l) (Some [next s]) x K) as U. cbn [own] in U. rewrite cnt_fresh in U. cbn [count_occ] in U. rewrite C in U. specialize (F x).
      destruct (Nat.eqb_spec x (next s)) as [->|N]; cbn [bit] in *; [|lia]. destruct (NF 0 (conj C B)) as [N0 _]. rewrite N0 in *. cbn [bit] in *. lia.
    - intros x. destruct (Nat.eqb_spec x (next s)) as [->|N]; [lia|]. intros H. specialize (B x (free_less _ _ _ _ (F x) H)). lia. }
  destruct o as [|k g|k|a|a b|k]; cbn [step allowed] in *.
  - eexists. split; [reflexivity|]. unfold new. cbn [malloc]. destruct I as [C B]. destruct (NF 0 (conj C B)) as [N0 _]. split; cbn [objs heap next].
    + intros x. rewrite all_app. cbn [own]. rewrite cnt_fresh, C. cbn [count_occ]. destruct (Nat.eqb_spec x (next s)) as [->|N]; cbn [bit]; [rewrite N0; reflexivity|lia].
    + intros x. destruct (Nat.eqb_spec x (next s)) as [->|N]; [lia|]. intros H. specialize (B x H). lia.
  - destruct A as [c [l K]]. unfold alloc. rewrite (chunks_is _ _ _ K). cbn [bind]. destruct g; [|exists s; split; [reflexivity|exact I]].
    cbn [malloc]. eexists. split; [reflexivity|]. destruct I as [C B]. destruct (NF 0 (conj C B)) as [N0 _]. unfold set_obj. split; cbn [objs heap next].
    + intros x. pose proof (cnt_upd (objs s) k (Some (c :: l)) (Some (next s :: c :: l)) x K) as U. cbn [own] in U. rewrite (cnt_fresh (next s)), C in U.
      destruct (Nat.eqb_spec x (next s)) as [EQ|N]; cbn [bit] in *; [rewrite EQ in *; rewrite N0 in *; cbn [bit] in *; lia|lia].
    + intros x. destruct (Nat.eqb_spec x (next s)) as [->|N]; [lia|]. intros H. specialize (B x H). lia.
  - unfold clear. destruct kd; [|destruct A| |].
    + destruct A as [l K]. rewrite (chunks_is _ _ _ K). cbn [bind]. exact (CLEAR l k K).
    + destruct A as [c [l K]]. rewrite (chunks_is _ _ _ K). cbn [bind]. destruct l as [|c' l]; [exists s; split; [reflexivity|exact I]|exact (CLEAR _ k K)].
    + destruct A as [l K]. rewrite (chunks_is _ _ _ K). cbn [bind]. exact (CLEAR l k K).
  - destruct A as [l K]. unfold move. rewrite (chunks_is _ _ _ K). cbn [bind]. eexists. split; [reflexivity|]. destruct I as [C B]. split; cbn [objs heap next]; [|exact B].
    intros x. rewrite all_app. pose proof (cnt_upd (objs s) a (Some l) (Some []) x K) as U. cbn [own count_occ] in *. rewrite C in U. lia.
  - destruct A as [[m M] A]. destruct I as [C B].
    assert (REST : forall h, (forall x, bit (h x) + cnt (match nth_error (objs s) b with Some o => own o | None => [] end) x = bit (heap s x)) -> a <> b -> (exists l, is s b l) ->
      inv (set_obj (set_obj (St h (next s) (objs s)) b (Some m)) a (Some []))).
    { intros h F N [l L]. unfold is in L. rewrite L in F. cbn [own] in F. unfold set_obj. split; cbn [objs heap next].
      - intros x. pose proof (cnt_upd (objs s) b (Some l) (Some m) x L) as U. pose proof (cnt_upd (upd (objs s) b (Some m)) a (Some m) (Some []) x (is_upd_other _ _ _ _ _ M N)) as U'.
        cbn [own count_occ] in *. specialize (F x). rewrite C in U. lia.
      - intros x H. exact (B x (free_less _ _ _ _ (F x) H)). }
    assert (GL : is s b [] /\ a <> b -> inv (set_obj (set_obj s b (Some m)) a (Some []))).
    { intros [L N]. destruct s as [h nx ob]. apply (REST h); [|exact N|exists []; exact L]. unfold is in L. cbn [objs heap] in *. rewrite L. cbn [own count_occ]. intros x. lia. }
    destruct kd.
    + destruct A as [l L]. unfold assign. destruct (Nat.eqb_spec a b) as [->|N].
      * rewrite (chunks_is _ _ _ L). cbn [bind]. exists s. split; [reflexivity|split; assumption].
      * rewrite (chunks_is _ _ _ L). cbn [bind]. destruct (free_ok l (heap s)) as [h [-> F]]; [intros x; rewrite <- C; exact (cnt_in _ _ _ x L)|]. cbn [bind].
        rewrite (chunks_is _ _ _ M). cbn [bind]. eexists. split; [reflexivity|]. apply REST; [|exact N|exists l; exact L]. unfold is in L. rewrite L. exact F.
    + unfold assign. rewrite (chunks_is _ _ _ (proj1 A)), (chunks_is _ _ _ M). cbn [bind]. eexists. split; [reflexivity|]. exact (GL A).
    + unfold assign. rewrite (chunks_is _ _ _ (proj1 A)), (chunks_is _ _ _ M). cbn [bind]. eexists. split; [reflexivity|]. exact (GL A).
    + destruct A as [l L]. unfold assign. rewrite (chunks_is _ _ _ L). cbn [bind]. destruct (free_ok l (heap s)) as [h [-> F]]; [intros x; rewrite <- C; exact (cnt_in _ _ _ x L)|]. cbn [bind].
      destruct (Nat.eq_dec a b) as [->|N].
      * unfold chunks, set_obj. cbn [objs heap next]. rewrite (nth_upd_same _ _ _ _ L). cbn [bind]. eexists. split; [reflexivity|]. split; cbn [objs heap next].
        -- intros x. pose proof (cnt_upd (objs s) b (Some l) (Some []) x L) as U. pose proof (nth_upd_same (objs s) b (Some (@nil nat)) _ L) as L1.
           pose proof (cnt_upd _ b _ (Some []) x L1) as U1. pose proof (nth_upd_same _ b (Some (@nil nat)) _ L1) as L2. pose proof (cnt_upd _ b _ (Some []) x L2) as U2.
           cbn [own count_occ] in *. specialize (F x). rewrite C in U. lia.
        -- intros x H. exact (B x (free_less _ _ _ _ (F x) H)).
      * unfold chunks, set_obj. cbn [objs heap next]. rewrite (is_upd_other _ _ _ _ _ M N). cbn [bind]. eexists. split; [reflexivity|]. split; cbn [objs heap next].
        -- intros x. pose proof (cnt_upd (objs s) b (Some l) (Some []) x L) as U. pose proof (nth_upd_same (objs s) b (Some (@nil nat)) _ L) as L1.
           pose proof (cnt_upd _ b _ (Some m) x L1) as U1.
           assert (M2 : nth_error (upd (upd (objs s) b (Some [])) b (Some m)) a = Some (Some m)).
           { apply (is_upd_other (St h (next s) (upd (objs s) b (Some [])))); [|exact N]. unfold is. cbn [objs]. now apply is_upd_other. }
           pose proof (cnt_upd _ a _ (Some []) x M2) as U2. cbn [own count_occ] in *. specialize (F x). rewrite C in U. lia.
        -- intros x H. exact (B x (free_less _ _ _ _ (F x) H)).
  - destruct A as [l K]. unfold destroy. rewrite (chunks_is _ _ _ K). cbn [bind]. destruct I as [C B]. destruct (free_ok l (heap s)) as [h [-> F]]; [intros x; rewrite <- C; exact (cnt_in _ _ _ x K)|]. cbn [bind].
    eexists. split; [reflexivity|]. split; cbn [objs heap next].
    + intros x. pose proof (cnt_upd (objs s) k (Some l) None x K) as U. cbn [own count_occ] in U. specialize (F x). rewrite C in U. lia.
    + intros x H. exact (B x (free_less _ _ _ _ (F x) H)).
Qed.
Lemma reach_inv kd s : reach kd s -> inv s.
Proof.
  induction 1 as [|s o s' R I A E]; [split; [reflexivity|discriminate]|]. destruct (step_ok kd s o I A) as [s1 [E1 I1]]. rewrite E in E1. injection E1 as ->. exact I1.
Qed.
Lemma held_cnt s x : held s x <-> cnt (all (objs s)) x > 0.
Proof.
  unfold held, all. rewrite <- count_occ_In, in_concat. split.
  - intros [k [l [E I]]]. exists l. split; [|exact I]. apply in_map_iff. exists (Some l). split; [reflexivity|]. eapply nth_error_In. exact E.
  - intros [l [H I]]. apply in_map_iff in H. destruct H as [[m|] [E J]]; cbn [own] in E; subst; [|destruct I]. destruct (In_nth_error _ _ J) as [k K]. exists k, l. split; assumption.
Qed.
Lemma inv_tidy s : inv s -> tidy s.
Proof.
  intros [C B]. split.
  - apply (NoDup_count_occ Nat.eq_dec). intros x. rewrite C. destruct (heap s x); cbn [bit]; lia.
  - intros x. rewrite held_cnt, C. destruct (heap s x); cbn [bit]; split; intros; [lia|reflexivity|discriminate|lia].
Qed.

(** Every sequence of allowed calls is defined, no chunk is given back twice, every chunk is held by one object, and when no object is left
    nothing is.  What is missing: the calls that are not allowed *)
Theorem C200_ownership_partial kd s : reach kd s ->
  tidy s /\ (forall o, allowed kd s o -> exists s', step kd s o = Ok s' /\ reach kd s') /\
  ((forall k l, ~ is s k l) -> forall x, heap s x = false).
Proof.
  intros R. pose proof (reach_inv _ _ R) as I. pose proof (inv_tidy _ I) as T. split; [exact T|]. split.
  - intros o A. destruct (step_ok kd s o I A) as [s' [E _]]. exists s'. split; [exact E|]. now apply (r_step kd s o).
  - intros N x. destruct (heap s x) eqn:H; [|reflexivity]. apply (proj2 T) in H. destruct H as [k [l [E _]]]. exfalso. exact (N k l E).
Qed.
Print Assumptions C200_ownership_partial.

(** a chunk that is given out and that no object holds *)
Definition lost (s : st) (x : nat) : Prop := heap s x = true /\ ~ held s x /\ x < next s.
Lemma free_keeps l x : forall h h', free_all h l = Ok h' -> ~ In x l -> h' x = h x.
Proof.
  induction l as [|c l IH]; intros h h' E N; cbn [free_all] in E; [now injection E as <-|]. destruct (h c); [|discriminate]. rewrite (IH _ _ E) by (intros Q; apply N; now right).
  destruct (Nat.eqb_spec x c) as [->|_]; [exfalso; apply N; now left|reflexivity].
Qed.
Lemma in_upd {A} (l : list A) k o y : In y (upd l k o) -> In y l \/ y = o.
Proof. revert k. induction l as [|a l IH]; intros [|k]; cbn [upd]; [tauto|tauto|intros [->|I]; [now right|left; now right]|intros [->|I]; [left; now left|]]. destruct (IH k I); [left; now right|now right]. Qed.
Definition free_of (x : nat) (l : list (option (list nat))) : Prop := forall m, In (Some m) l -> ~ In x m.
Lemma lost_of s x : lost s x <-> heap s x = true /\ free_of x (objs s) /\ x < next s.
Proof.
  unfold lost, held, free_of. split; intros [H [N L]]; (split; [exact H|split; [|exact L]]).
  - intros m M I. apply N. destruct (In_nth_error _ _ M) as [k K]. exists k, m. split; assumption.
  - intros [k [l [E I]]]. apply nth_error_In in E. exact (N l E I).
Qed.
Lemma free_of_upd x l k o : free_of x l -> (forall m, o = Some m -> ~ In x m) -> free_of x (upd l k o).
Proof. intros F O m M. destruct (in_upd _ _ _ _ M) as [I|E]; [exact (F m I)|exact (O m (eq_sym E))]. Qed.
Lemma chunks_in s k l : chunks s k = Ok l -> In (Some l) (objs s).
Proof. unfold chunks. destruct (nth_error (objs s) k) as [[m|]|] eqn:E; try discriminate. intros Q. injection Q as ->. eapply nth_error_In. exact E. Qed.
Lemma lost_stays kd s o s' x : lost s x -> step kd s o = Ok s' -> lost s' x.
Proof.
  rewrite !lost_of. intros [H [F L]] E.
  assert (NX : (x =? next s) = false) by (apply Nat.eqb_neq; lia).
  assert (NIL : forall m, Some (@nil nat) = Some m -> ~ In x m) by (intros m Q; injection Q as <-; intros []).
  assert (ONE : forall m, Some [next s] = Some m -> ~ In x m) by (intros m Q; injection Q as <-; intros [Q|[]]; lia).
  destruct o as [|k g|k|a|a b|k]; cbn [step] in E.
  - injection E as <-. unfold new. cbn [malloc heap objs next]. rewrite NX. split; [exact H|]. split; [|lia]. intros m M. apply in_app_or in M. destruct M as [M|[M|[]]]; [exact (F m M)|exact (ONE m M)].
  - unfold alloc in E. destruct (chunks s k) as [l| |] eqn:C; try discriminate. cbn [bind] in E. apply chunks_in in C. destruct l as [|c l]; [discriminate|]. destruct g; injection E as <-; [|auto].
    cbn [malloc set_obj heap objs next]. rewrite NX. split; [exact H|]. split; [|lia]. apply free_of_upd; [exact F|]. intros m Q. injection Q as <-. intros [Q|I]; [lia|exact (F _ C I)].
  - unfold clear in E. destruct (chunks s k) as [l| |] eqn:C; try discriminate. cbn [bind] in E. apply chunks_in in C.
    assert (G : (do h <- free_all (heap s) l; let (c, s) := malloc (St h (next s) (objs s)) in Ok (set_obj s k (Some [c]))) = Ok s' -> heap s' x = true /\ free_of x (objs s') /\ x < next s').
    { intros Q. destruct (free_all (heap s) l) as [h| |] eqn:FR; try discriminate. cbn [bind malloc] in Q. injection Q as <-. cbn [set_obj heap objs next]. rewrite NX.
      rewrite (free_keeps _ _ _ _ FR (F _ C)). split; [exact H|]. split; [|lia]. apply free_of_upd; [exact F|exact ONE]. }
    destruct kd; [exact (G E)|discriminate| |exact (G E)]. destruct l as [|c [|c' l]]; [discriminate|injection E as <-; auto|exact (G E)].
  - unfold move in E. destruct (chunks s a) as [l| |] eqn:C; try discriminate. cbn [bind] in E. apply chunks_in in C. injection E as <-. cbn [heap objs next]. split; [exact H|]. split; [|exact L].
    intros m M. apply in_app_or in M. destruct M as [M|[M|[]]]; [revert m M; apply free_of_upd; [exact F|exact NIL]|injection M as <-; exact (F l C)].
  - assert (G : forall h ob m, h x = true -> free_of x ob -> ~ In x m -> Ok (set_obj (set_obj (St h (next s) ob) b (Some m)) a (Some [])) = Ok s' -> heap s' x = true /\ free_of x (objs s') /\ x < next s').
    { intros h ob m Hh Fo Nm Q. injection Q as <-. cbn [set_obj heap objs next]. split; [exact Hh|]. split; [|exact L]. apply free_of_upd; [apply free_of_upd; [exact Fo|]|exact NIL]. intros m' Q. injection Q as <-. exact Nm. }
    unfold assign in E. destruct kd.
    + destruct (a =? b); [destruct (chunks s a) as [l| |] eqn:C; try discriminate; injection E as <-; auto|].
      destruct (chunks s b) as [l| |] eqn:C; try discriminate. cbn [bind] in E. destruct (free_all (heap s) l) as [h| |] eqn:FR; try discriminate. cbn [bind] in E.
      destruct (chunks s a) as [m| |] eqn:C'; try discriminate. cbn [bind] in E. apply chunks_in in C. apply chunks_in in C'.
      refine (G h _ m _ F (F m C') E). rewrite (free_keeps _ _ _ _ FR (F _ C)). exact H.
    + destruct (chunks s b) as [l| |] eqn:C; try discriminate. destruct (chunks s a) as [m| |] eqn:C'; try discriminate. cbn [bind] in E. apply chunks_in in C'.
      destruct s as [h nx ob]. exact (G h ob m H F (F m C') E).
    + destruct (chunks s b) as [l| |] eqn:C; try discriminate. destruct (chunks s a) as [m| |] eqn:C'; try discriminate. cbn [bind] in E. apply chunks_in in C'.
      destruct s as [h nx ob]. exact (G h ob m H F (F m C') E).
    + destruct (chunks s b) as [l| |] eqn:C; try discriminate. cbn [bind] in E. destruct (free_all (heap s) l) as [h| |] eqn:FR; try discriminate. cbn [bind] in E. apply chunks_in in C.
      destruct (chunks _ a) as [m| |] eqn:C' in E; try discriminate. cbn [bind] in E. apply chunks_in in C'. cbn [set_obj objs] in C'.
      assert (Fo : free_of x (upd (objs s) b (Some []))) by (apply free_of_upd; [exact F|exact NIL]).
      refine (G h _ m _ Fo (Fo m C') E). rewrite (free_keeps _ _ _ _ FR (F _ C)). exact H.
  - unfold destroy in E. destruct (chunks s k) as [l| |] eqn:C; try discriminate. cbn [bind] in E. apply chunks_in in C. destruct (free_all (heap s) l) as [h| |] eqn:FR; try discriminate. injection E as <-.
    cbn [heap objs next]. rewrite (free_keeps _ _ _ _ FR (F _ C)). split; [exact H|]. split; [|exact L]. apply free_of_upd; [exact F|discriminate].
Qed.
(** Refuted: a GreedyAlloc or LocklessBlockPolicy that holds memory and is assigned another loses its chunks; they are never given back, whatever is
    done after; so it does with its own chunks when it is assigned itself *)
Theorem C200_assign_refuted kd s a b m l x : kd = Greedy \/ kd = Lockless -> reach kd s -> is s a m -> is s b l -> In x l ->
  exists s', step kd s (OAssign a b) = Ok s' /\ lost s' x /\ forall ops s'', run kd s' ops = Ok s'' -> lost s'' x.
Proof.
  intros K R A B X. pose proof (reach_inv _ _ R) as [C Bd].
  assert (Hx : heap s x = true). { pose proof (cnt_in _ _ _ x B) as Q. cbn [own] in Q. apply (count_occ_In Nat.eq_dec) in X. rewrite C in Q. destruct (heap s x); [reflexivity|cbn [bit] in Q; lia]. }
  assert (E : step kd s (OAssign a b) = Ok (set_obj (set_obj s b (Some m)) a (Some []))).
  { cbn [step]. destruct K as [-> | ->]; unfold assign; rewrite (chunks_is _ _ _ B), (chunks_is _ _ _ A); reflexivity. }
  eexists. split; [exact E|].
  assert (Ls : lost (set_obj (set_obj s b (Some m)) a (Some [])) x).
  { split; [exact Hx|]. split; [|exact (Bd x Hx)]. rewrite held_cnt. cbn [set_obj objs]. pose proof (cnt_upd (objs s) b (Some l) (Some m) x B) as U. apply (count_occ_In Nat.eq_dec) in X.
    pose proof (C x) as Cx. rewrite Hx in Cx. cbn [bit own] in *.
    destruct (Nat.eq_dec a b) as [->|N].
    - unfold is in A, B. rewrite A in B. injection B as ->. pose proof (nth_upd_same (objs s) b (Some l) _ A) as L1. pose proof (cnt_upd _ b _ (Some []) x L1) as U1. cbn [own count_occ] in *. lia.
    - pose proof (cnt_upd (upd (objs s) b (Some m)) a (Some m) (Some []) x (is_upd_other _ _ _ _ _ A N)) as U1. cbn [own count_occ] in *.
      pose proof (cnt_in _ _ _ x A) as Q. cbn [own] in Q. lia. }
  split; [exact Ls|]. clear E. revert Ls. generalize (set_obj (set_obj s b (Some m)) a (Some [])). clear. intros s Ls ops. revert s Ls.
  induction ops as [|o ops IH]; intros s Ls s'' E; cbn [run] in E; [now injection E as <-|]. destruct (step kd s o) as [s1| |] eqn:S1; try discriminate. exact (IH s1 (lost_stays _ _ _ _ _ Ls S1) s'' E).
Qed.
Print Assumptions C200_assign_refuted.
(** Refuted: an allocation from an allocator that was moved from, and clearing such a GreedyAlloc, are undefined *)
Theorem C200_moved_refuted kd s a l : is s a l -> exists s', step kd s (OMove a) = Ok s' /\ is s' a [] /\ (forall g, step kd s' (OAlloc a g) = UB) /\ (kd = Greedy -> step kd s' (OClear a) = UB).
Proof.
  intros A. cbn [step]. unfold move. rewrite (chunks_is _ _ _ A). cbn [bind]. eexists. split; [reflexivity|].
  assert (Q : is (St (heap s) (next s) (upd (objs s) a (Some []) ++ [Some l])) a []).
  { unfold is. cbn [objs]. pose proof (nth_upd_same (objs s) a (Some (@nil nat)) _ A) as N. rewrite nth_error_app1; [exact N|]. apply nth_error_Some. congruence. }
  split; [exact Q|]. split; [intros g; unfold alloc|intros ->; unfold clear]; rewrite (chunks_is _ _ _ Q); reflexivity.
Qed.
Print Assumptions C200_moved_refuted.

(** A move, and an assignment to another object, give the target the chunks of the source and leave the source without any; no other object changes.  A BlockAlloc assigned
    to itself keeps its chunks *)
Theorem C200_transfer kd s : reach kd s ->
  (forall a m, is s a m -> exists s', step kd s (OMove a) = Ok s' /\ is s' (length (objs s)) m /\ is s' a [] /\ forall k l, k <> a -> is s k l -> is s' k l) /\
  (forall a b m l, a <> b -> is s a m -> is s b l -> exists s', step kd s (OAssign a b) = Ok s' /\ is s' b m /\ is s' a [] /\ forall k x, k <> a -> k <> b -> is s k x -> is s' k x) /\
  (forall a m, kd = Block -> is s a m -> step kd s (OAssign a a) = Ok s).
Proof.
  intros R. pose proof (reach_inv _ _ R) as [C B]. split; [|split].
  - intros a m A. cbn [step]. unfold move. rewrite (chunks_is _ _ _ A). cbn [bind]. eexists. split; [reflexivity|]. unfold is. cbn [objs].
    pose proof (nth_upd_same (objs s) a (Some (@nil nat)) _ A) as N. split; [|split].
    + rewrite nth_error_app2 by (rewrite upd_length; lia). rewrite upd_length, Nat.sub_diag. reflexivity.
    + rewrite nth_error_app1; [exact N|]. apply nth_error_Some. congruence.
    + intros k l K L. pose proof (is_upd_other s k a (Some []) l L K) as Q. rewrite nth_error_app1; [exact Q|]. apply nth_error_Some. congruence.
  - intros a b m l N A L.
    assert (G : forall h ob, (forall k x, k <> b -> is s k x -> nth_error ob k = Some (Some x)) -> (exists v, nth_error ob b = Some v) ->
      let s' := set_obj (set_obj (St h (next s) ob) b (Some m)) a (Some []) in is s' b m /\ is s' a [] /\ forall k x, k <> a -> k <> b -> is s k x -> is s' k x).
    { intros h ob O [v V]. unfold set_obj, is. cbn [objs]. pose proof (nth_upd_same ob b (Some m) _ V) as Vb.
      assert (Va : nth_error (upd ob b (Some m)) a = Some (Some m)) by (apply (is_upd_other (St h (next s) ob)); [exact (O a m N A)|exact N]).
      split; [|split].
      - apply (is_upd_other (St h (next s) (upd ob b (Some m)))); [exact Vb|congruence].
      - exact (nth_upd_same _ a _ _ Va).
      - intros k x Ka Kb X. apply (is_upd_other (St h (next s) (upd ob b (Some m)))); [|exact Ka]. unfold is. cbn [objs]. apply (is_upd_other (St h (next s) ob)); [exact (O k x Kb X)|exact Kb]. }
    destruct (free_ok l (heap s)) as [h [FR _]]; [intros x; rewrite <- C; exact (cnt_in _ _ _ x L)|].
    cbn [step]. unfold assign. destruct kd.
    + rewrite (proj2 (Nat.eqb_neq a b) N), (chunks_is _ _ _ L). cbn [bind]. rewrite FR. cbn [bind]. rewrite (chunks_is _ _ _ A). cbn [bind]. eexists. split; [reflexivity|].
      apply (G h (objs s)); [intros k x _ X; exact X|exists (Some l); exact L].
    + rewrite (chunks_is _ _ _ L), (chunks_is _ _ _ A). cbn [bind]. eexists. split; [reflexivity|]. destruct s as [h0 nx ob]. apply (G h0 ob); [intros k x _ X; exact X|exists (Some l); exact L].
    + rewrite (chunks_is _ _ _ L), (chunks_is _ _ _ A). cbn [bind]. eexists. split; [reflexivity|]. destruct s as [h0 nx ob]. apply (G h0 ob); [intros k x _ X; exact X|exists (Some l); exact L].
    + rewrite (chunks_is _ _ _ L). cbn [bind]. rewrite FR. cbn [bind].
      assert (A' : is (set_obj (St h (next s) (objs s)) b (Some [])) a m) by (apply (is_upd_other (St h (next s) (objs s))); [exact A|exact N]).
      rewrite (chunks_is _ _ _ A'). cbn [bind]. eexists. split; [reflexivity|]. apply (G h (upd (objs s) b (Some []))).
      * intros k x K X. apply (is_upd_other s); [exact X|exact K].
      * exists (Some []). exact (nth_upd_same _ b _ _ L).
  - intros a m -> A. cbn [step]. unfold assign. rewrite Nat.eqb_refl, (chunks_is _ _ _ A). reflexivity.
Qed.
Print Assumptions C200_transfer.
(** Refuted for a RingAllocVoid assigned to itself: its chunks are given back, with whatever was allocated in them *)
Theorem C200_self_refuted s a m x : reach Ring s -> is s a m -> In x m -> exists s', step Ring s (OAssign a a) = Ok s' /\ is s' a [] /\ heap s' x = false.
Proof.
  intros R A X. pose proof (reach_inv _ _ R) as [C B]. destruct (free_ok m (heap s)) as [h [FR F]]; [intros y; rewrite <- C; exact (cnt_in _ _ _ y A)|].
  cbn [step]. unfold assign. rewrite (chunks_is _ _ _ A). cbn [bind]. rewrite FR. cbn [bind]. pose proof (nth_upd_same (objs s) a (Some (@nil nat)) _ A) as N1.
  assert (A' : is (set_obj (St h (next s) (objs s)) a (Some [])) a []) by exact N1.
  rewrite (chunks_is _ _ _ A'). cbn [bind]. eexists. split; [reflexivity|]. pose proof (nth_upd_same _ a (Some (@nil nat)) _ N1) as N2. split; [exact (nth_upd_same _ a (Some []) _ N2)|].
  cbn [set_obj heap]. specialize (F x). apply (count_occ_In Nat.eq_dec) in X. destruct (h x); [|reflexivity]. destruct (heap s x); cbn [bit] in F; lia.
Qed.
Print Assumptions C200_self_refuted.

(** two allocators, of which one gets a second chunk, moved, assigned and destroyed *)
Example C200_example :
  exists s s', run Block start [ONew; ONew; OAlloc 0 true; OMove 0; OAssign 2 1] = Ok s /\ is s 1 [2; 0] /\ is s 2 [] /\ is s 0 [] /\
    run Block s [ODestroy 0; ODestroy 1; ODestroy 2] = Ok s' /\ (forall x, heap s' x = false) /\
  exists t t', run Greedy start [ONew; ONew; OAssign 0 1] = Ok t /\ run Greedy t [ODestroy 0; ODestroy 1] = Ok t' /\ heap t' 1 = true.
Proof.
  eexists. eexists. split; [vm_compute; reflexivity|]. do 3 (split; [reflexivity|]). split; [vm_compute; reflexivity|].
  split; [intros x; cbn [heap]; do 3 (destruct x as [|x]; [reflexivity|]); reflexivity|]. eexists. eexists. split; [vm_compute; reflexivity|]. split; [vm_compute; reflexivity|reflexivity].
Qed.
