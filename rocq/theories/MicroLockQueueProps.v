(* Property C42: the multi-producer multi-consumer queue is first in, first out. *)
From Coq Require Import List Arith Bool Lia Permutation.
From Verif Require Import Common Threads LocklessQueue LocklessQueueProps MicroLockQueue.
Import ListNotations.
Notation exec := MicroLockQueue.exec.
Notation qdiv := MicroLockQueue.qdiv.
Notation qlast := MicroLockQueue.qlast.
Notation hp := MicroLockQueue.hp.
Notation pushed := MicroLockQueue.pushed.
Notation popped := MicroLockQueue.popped.
Notation put := MicroLockQueue.put.
Notation deref := MicroLockQueue.deref.
Notation step := MicroLockQueue.step.
Notation runs := MicroLockQueue.runs.
Notation PAlloc := MicroLockQueue.PAlloc.
Notation linked := LocklessQueueProps.linked.
Notation items := LocklessQueueProps.items.
Notation last_in := LocklessQueueProps.last_in.
Notation nodup_notin_app := LocklessQueueProps.nodup_notin_app.

(* ---------------------------------------------------- specification ---------------------------------------------------- *)
(* a run together with the arguments of the Push calls begun so far and the results of the successful Pop calls that have returned *)
Inductive history {V} (n : nat) : mq V * list (MicroLockQueue.pc V) -> list V -> list V -> Prop :=
| h_new a f : NoDup (a :: f) -> history n (new_mq a f, repeat Idle n) [] []
| h_push s ts t v pu po : history n (s, ts) pu po -> nth_error ts t = Some Idle -> history n (s, upd ts t (PAlloc v)) (v :: pu) po
| h_pop s ts t pu po : history n (s, ts) pu po -> nth_error ts t = Some Idle -> history n (s, upd ts t OChk) pu po
| h_exec s ts t p bs s' p' r pu po : history n (s, ts) pu po -> nth_error ts t = Some p -> fresh_blocks s bs -> exec s p bs = Ok (s', p', r) -> history n (s', upd ts t p') pu (match r with Some (RTrue v) => v :: po | _ => po end).
(* the queue holds no value: every Push that has taken effect has been popped *)
Definition is_empty {V} (s : mq V) : Prop := popped s = pushed s.
(* steps from one state to another, all the states on the way satisfying P *)
Inductive path {V} (P : mq V -> Prop) : mq V * list (MicroLockQueue.pc V) -> mq V * list (MicroLockQueue.pc V) -> Prop :=
| p_refl x : P (fst x) -> path P x x
| p_step x y z : path P x y -> step y (Ok z) -> P (fst z) -> path P x z.
(* only thread c pops *)
Inductive runs_one {V} (n c : nat) : mq V * list (MicroLockQueue.pc V) -> Prop :=
| o_new a f : NoDup (a :: f) -> runs_one n c (new_mq a f, repeat Idle n)
| o_push s ts t v : runs_one n c (s, ts) -> nth_error ts t = Some Idle -> runs_one n c (s, upd ts t (PAlloc v))
| o_pop s ts : runs_one n c (s, ts) -> nth_error ts c = Some Idle -> runs_one n c (s, upd ts c OChk)
| o_exec s ts t p bs s' p' r : runs_one n c (s, ts) -> nth_error ts t = Some p -> fresh_blocks s bs -> exec s p bs = Ok (s', p', r) -> runs_one n c (s', upd ts t p').

(* ---------------------------------------------------- proofs ---------------------------------------------------- *)
Section Proofs.
Context {V : Type}.
Notation heap := (MicroLockQueue.heap (V:=V)).
Notation pc := (MicroLockQueue.pc V).
Definition priv (p : pc) : list nat := match p with PLock a _ | PLink a _ => [a] | OUnl r _ | OFree r _ => [r] | _ => [] end.
Definition cown (p : pc) : bool := match p with ORead | OMove _ _ | OSet _ _ _ | OUnl _ _ | OFail => true | _ => false end.
Definition pown (p : pc) : bool := match p with PLink _ _ | PSet _ | PUnl => true | _ => false end.
Definition pc_ok (h : heap) (d : nat) (Q : list nat) (rest : list V) (p : pc) : Prop :=
  match p with
  | PLock a v | PLink a v => h a = Some (mkn None (Some v))
  | PSet a => a = last Q d
  | OChk2 x => h x <> None
  | OMove r n => r = d /\ hd_error Q = Some n
  | OSet r n v => r = d /\ hd_error Q = Some n /\ hd_error rest = Some v
  | _ => True
  end.
Definition fixed (p : pc) : Prop := match p with OSet _ _ _ | PSet _ => False | _ => True end.
Definition INV (d l : nat) (cf pf : bool) (h : heap) (fr : list nat) (pu po : list V) (ts : list pc) (Q : list nat) (rest : list V) : Prop :=
  NoDup ((d :: Q) ++ fr ++ flat_map priv ts) /\
  (forall a, In a ((d :: Q) ++ fr ++ flat_map priv ts) -> h a <> None) /\
  linked h (d :: Q) /\ (exists n, h (last Q d) = Some n /\ nxt n = None) /\
  (length Q = length rest /\ items h (tl Q) (tl rest) /\ (forall n v, hd_error Q = Some n -> hd_error rest = Some v -> (exists m, h n = Some m /\ itm m = Some v) \/ exists t r, nth_error ts t = Some (OSet r n v))) /\
  pu = po ++ rest /\
  (last Q d = l \/ exists t, nth_error ts t = Some (PSet (last Q d))) /\
  count cown ts = Nat.b2n cf /\ count pown ts = Nat.b2n pf /\
  (forall t p, nth_error ts t = Some p -> pc_ok h d Q rest p).
Definition inv (s : mq V) (ts : list pc) : Prop := exists Q rest, INV (qdiv s) (qlast s) (cflag s) (pflag s) (hp s) (free s) (pushed s) (popped s) ts Q rest.
Lemma nd_upd (l1 l2 : list nat) (ts : list pc) t p p' : nth_error ts t = Some p -> priv p' = priv p -> Permutation (l1 ++ l2 ++ flat_map priv ts) (l1 ++ l2 ++ flat_map priv (upd ts t p')).
Proof. intros H E. apply Permutation_app_head, Permutation_app_head. destruct (held_upd priv ts t p p' H) as (l & -> & ->). rewrite E. reflexivity. Qed.
Lemma quiet d l cf pf cf' pf' h fr pu po ts Q rest t p p' : INV d l cf pf h fr pu po ts Q rest -> nth_error ts t = Some p -> fixed p -> priv p' = priv p -> pc_ok h d Q rest p' ->
  Nat.b2n (cown p') + Nat.b2n cf = Nat.b2n (cown p) + Nat.b2n cf' -> Nat.b2n (pown p') + Nat.b2n pf = Nat.b2n (pown p) + Nat.b2n pf' -> INV d l cf' pf' h fr pu po (upd ts t p') Q rest.
Proof.
  intros (I1 & I2 & I3 & I4 & (I5 & I6 & I7) & I8 & I9 & I10 & I11 & I12) H FX EP OK EC EPR. pose proof (nd_upd (d :: Q) fr ts t p p' H EP) as PM.
  assert (W : forall q, ~ fixed q -> (exists t', nth_error ts t' = Some q) -> exists t', nth_error (upd ts t p') t' = Some q). { intros q NF (t' & Hq). exists t'. rewrite nth_error_upd_neq; [exact Hq|]. intros <-. rewrite H in Hq. injection Hq as ->. exact (NF FX). }
  split; [apply (Permutation_NoDup PM I1)|]. split; [intros a Ha; apply I2, (Permutation_in _ (Permutation_sym PM) Ha)|]. split; [exact I3|]. split; [exact I4|]. split; [split; [exact I5|]; split; [exact I6|]|split; [exact I8|split; [|split; [|split]]]].
  - intros n v Hn Hv. destruct (I7 n v Hn Hv) as [K|(t' & r & K)]; [left; exact K|right]. destruct (W (OSet r n v) (fun x => x) (ex_intro _ t' K)) as (t2 & K2). eauto.
  - destruct I9 as [K|K]; [left; exact K|right]. apply W; [intros []|exact K].
  - pose proof (count_upd cown ts t p p' H). lia.
  - pose proof (count_upd pown ts t p p' H). lia.
  - intros t' q Hq. apply upd_nth in Hq. destruct Hq as [(_ & ->)|(_ & Hq)]; [exact OK|apply (I12 t' q Hq)].
Qed.
Lemma sole {f : pc -> bool} {ts t p b} : count f ts = Nat.b2n b -> nth_error ts t = Some p -> f p = true -> b = true /\ forall t' q, nth_error ts t' = Some q -> f q = true -> t' = t.
Proof.
  intros C H F. pose proof (count_in f ts t p H F) as K. destruct b; cbn in C; [|lia]. split; [reflexivity|]. intros t' q Hq Fq. destruct (Nat.eq_dec t' t) as [|N]; [assumption|]. pose proof (count_two f ts t' t q p N Hq H Fq F). lia.
Qed.
Lemma put_eq (h : heap) a n : put h a n a = Some n.
Proof. unfold MicroLockQueue.put. rewrite Nat.eqb_refl. reflexivity. Qed.
Lemma put_neq (h : heap) a n b : b <> a -> put h a n b = h b.
Proof. intros N. unfold MicroLockQueue.put. destruct (Nat.eqb_spec b a); congruence. Qed.
Lemma put_dom (h : heap) a n b : h b <> None -> put h a n b <> None.
Proof. intros H. destruct (Nat.eq_dec b a) as [->|N]; [rewrite put_eq; discriminate|rewrite put_neq by exact N; exact H]. Qed.
Lemma outside (h : heap) L a n : ~ In a L -> linked h L -> linked (put h a n) L.
Proof. intros N H. apply (LocklessQueueProps.outside_linked h L a (Some n) N H). Qed.
Lemma outside_it (h : heap) L vs a n : ~ In a L -> items h L vs -> items (put h a n) L vs.
Proof. intros N H. apply (LocklessQueueProps.outside_items h L vs a (Some n) N H). Qed.
Lemma chunk_out (h : heap) bs a : ~ In a bs -> chunk h bs a = h a.
Proof. induction bs as [|b bs IH]; intros N; [reflexivity|]. cbn [chunk]. rewrite put_neq by (intros ->; apply N; left; reflexivity). apply IH. intros Q. apply N. right. exact Q. Qed.
Lemma chunk_in (h : heap) bs a : In a bs -> chunk h bs a <> None.
Proof. induction bs as [|b bs IH]; intros N; [destruct N|]. cbn [chunk]. destruct (Nat.eq_dec a b) as [->|Nb]; [rewrite put_eq; discriminate|]. rewrite put_neq by exact Nb. apply IH. destruct N as [->|N]; [congruence|exact N]. Qed.
(* the heap changes only outside the list and the private nodes *)
Lemma ext_ok (h h' : heap) d Q rest p : (forall a, h a <> None -> h' a <> None) -> (forall a, In a (priv p) -> h' a = h a) -> pc_ok h d Q rest p -> pc_ok h' d Q rest p.
Proof. intros E1 E2 H. destruct p; cbn in *; auto; rewrite E2 by (left; reflexivity); exact H. Qed.
Lemma linked_ext' (h h' : heap) L : (forall a, In a L -> h' a = h a) -> linked h L -> linked h' L.
Proof. induction L as [|a L IH]; intros E H; [exact I|]. destruct L as [|b L]; cbn in *; rewrite E by (left; reflexivity); [exact H|]. destruct H as (H1 & H2). split; [exact H1|]. apply IH; [|exact H2]. intros x Hx. apply E. right. exact Hx. Qed.
Lemma items_ext' (h h' : heap) L vs : (forall a, In a L -> h' a = h a) -> items h L vs -> items h' L vs.
Proof. intros E. apply LocklessQueueProps.items_ext. intros a n Ha Hn. exists n. rewrite E by exact Ha. auto. Qed.
Lemma last_in' (Q : list nat) d : In (last Q d) (d :: Q).
Proof. apply (last_in [] Q d). Qed.
Lemma tl_in (Q : list nat) a : In a (tl Q) -> In a Q.
Proof. destruct Q; [intros []|intros H; right; exact H]. Qed.
Lemma hd_in (Q : list nat) a : hd_error Q = Some a -> In a Q.
Proof. destruct Q; intros H; [discriminate H|injection H as ->; left; reflexivity]. Qed.
Lemma list_ext (h h' : heap) d Q rest (ts ts' : list pc) : (forall a, In a (d :: Q) -> h' a = h a) -> (forall n v, (exists t r, nth_error ts t = Some (OSet r n v)) -> exists t r, nth_error ts' t = Some (OSet r n v)) ->
  linked h (d :: Q) /\ (exists n, h (last Q d) = Some n /\ nxt n = None) /\ (length Q = length rest /\ items h (tl Q) (tl rest) /\ (forall n v, hd_error Q = Some n -> hd_error rest = Some v -> (exists m, h n = Some m /\ itm m = Some v) \/ exists t r, nth_error ts t = Some (OSet r n v))) ->
  linked h' (d :: Q) /\ (exists n, h' (last Q d) = Some n /\ nxt n = None) /\ (length Q = length rest /\ items h' (tl Q) (tl rest) /\ (forall n v, hd_error Q = Some n -> hd_error rest = Some v -> (exists m, h' n = Some m /\ itm m = Some v) \/ exists t r, nth_error ts' t = Some (OSet r n v))).
Proof.
  intros E W (A & B & C & D & F). split; [apply (linked_ext' h); assumption|]. split; [rewrite E by apply last_in'; exact B|]. split; [exact C|]. split; [apply (items_ext' h); [|exact D]; intros a Ha; apply E; right; apply tl_in, Ha|].
  intros n v Hn Hv. rewrite E by (right; apply hd_in, Hn). destruct (F n v Hn Hv) as [K|K]; [left; exact K|right; apply W, K].
Qed.
Lemma witness (ts : list pc) t p p' q : nth_error ts t = Some p -> fixed p -> ~ fixed q -> (exists t', nth_error ts t' = Some q) -> exists t', nth_error (upd ts t p') t' = Some q.
Proof. intros H FX NF (t' & Hq). exists t'. rewrite nth_error_upd_neq; [exact Hq|]. intros <-. rewrite H in Hq. injection Hq as ->. exact (NF FX). Qed.
Lemma witness_set (ts : list pc) t p p' n v : nth_error ts t = Some p -> fixed p -> (exists t' r, nth_error ts t' = Some (OSet r n v)) -> exists t' r, nth_error (upd ts t p') t' = Some (OSet r n v).
Proof. intros H FX (t' & r & K). destruct (witness ts t p p' (OSet r n v) H FX (fun x => x) (ex_intro _ t' K)) as (t2 & K2). eauto. Qed.
Lemma nodup_l {A} (l1 l2 : list A) : NoDup (l1 ++ l2) -> NoDup l1.
Proof. induction l1 as [|a l1 IH]; intros H; [constructor|]. cbn in H. inversion H as [|? ? N D]; subst. constructor; [intros Q; apply N, in_or_app; left; exact Q|apply IH, D]. Qed.
Lemma nodup_r {A} (l1 l2 : list A) : NoDup (l1 ++ l2) -> NoDup l2.
Proof. induction l1 as [|a l1 IH]; intros H; [exact H|]. cbn in H. inversion H; subst. apply IH. assumption. Qed.
Lemma nodup_not {A} (l1 l2 : list A) a : NoDup (l1 ++ l2) -> In a l1 -> In a l2 -> False.
Proof. induction l1 as [|b l1 IH]; intros H H1 H2; [destruct H1|]. cbn in H. inversion H as [|? ? N D]; subst. destruct H1 as [->|H1]; [apply N, in_or_app; right; exact H2|apply (IH D H1 H2)]. Qed.
(* taking a node from the free list *)
Lemma alloc_ok d l cf pf h fr pu po ts Q rest t v a f : INV d l cf pf h fr pu po ts Q rest -> nth_error ts t = Some (PAlloc v) -> fr = a :: f ->
  INV d l cf pf (put h a (mkn None (Some v))) f pu po (upd ts t (PLock a v)) Q rest.
Proof.
  intros (I1 & I2 & I3 & I4 & I5 & I8 & I9 & I10 & I11 & I12) H ->. destruct (held_upd priv ts t _ (PLock a v) H) as (m & P1 & P2). cbn [priv app] in P1, P2.
  assert (PM : Permutation ((d :: Q) ++ (a :: f) ++ flat_map priv ts) ((d :: Q) ++ f ++ flat_map priv (upd ts t (PLock a v)))). { apply Permutation_app_head. cbn [app]. rewrite P1, P2. apply Permutation_middle. }
  assert (NL : ~ In a (d :: Q)). { intros Ha. apply (nodup_not _ _ a I1 Ha). left. reflexivity. }
  destruct (list_ext h (put h a (mkn None (Some v))) d Q rest ts (upd ts t (PLock a v))) as (J3 & J4 & J5); [intros b Hb; apply put_neq; intros ->; exact (NL Hb)|intros n w; apply (witness_set ts t _ _ n w H Logic.I)|auto|].
  split; [apply (Permutation_NoDup PM I1)|]. split; [intros b Hb; apply put_dom, I2, (Permutation_in _ (Permutation_sym PM) Hb)|]. split; [exact J3|]. split; [exact J4|]. split; [exact J5|]. split; [exact I8|]. split; [destruct I9 as [K|K]; [left; exact K|right; refine (witness ts t _ _ (PSet (last Q d)) H Logic.I (fun x => x) K)]|].
  split; [pose proof (count_upd cown ts t _ (PLock a v) H) as C; cbn in C; lia|]. split; [pose proof (count_upd pown ts t _ (PLock a v) H) as C; cbn in C; lia|].
  intros t' q Hq. apply upd_nth in Hq. destruct Hq as [(_ & ->)|(N & Hq)]; [cbn; apply put_eq|]. apply (ext_ok h); [intros b; apply put_dom| |apply (I12 t' q Hq)]. intros b Hb. apply put_neq. intros ->. apply nodup_r in I1. apply (nodup_not [a] (f ++ flat_map priv ts) a); [exact I1|left; reflexivity|]. apply in_or_app. right. apply (held_in priv ts t' q a Hq Hb).
Qed.
(* a new chunk *)
Lemma chunk_ok d l cf pf h pu po ts Q rest bs : INV d l cf pf h [] pu po ts Q rest -> NoDup bs -> (forall b, In b bs -> h b = None) -> INV d l cf pf (chunk h bs) bs pu po ts Q rest.
Proof.
  intros (I1 & I2 & I3 & I4 & I5 & I8 & I9 & I10 & I11 & I12) D FB. cbn [app] in I1, I2.
  assert (NB : forall a, In a (d :: Q ++ flat_map priv ts) -> ~ In a bs). { intros a Ha Hb. apply (I2 a Ha). apply FB, Hb. }
  assert (EX : forall a, In a (d :: Q ++ flat_map priv ts) -> chunk h bs a = h a) by (intros a Ha; apply chunk_out, NB, Ha).
  destruct (list_ext h (chunk h bs) d Q rest ts ts) as (J3 & J4 & J5); [intros b Hb; apply EX; destruct Hb as [->|Hb]; [left; reflexivity|right; apply in_or_app; left; exact Hb]|auto|auto|].
  split.
  { cbn [app]. assert (PM : Permutation (bs ++ (d :: Q ++ flat_map priv ts)) (d :: Q ++ bs ++ flat_map priv ts)). { rewrite <- Permutation_middle. constructor. rewrite !app_assoc. apply Permutation_app_tail, Permutation_app_comm. }
    apply (Permutation_NoDup PM). clear - I1 D NB. induction bs as [|b bs IH]; [exact I1|]. cbn [app]. inversion D as [|? ? Nb D']; subst. constructor; [|apply IH; [exact D'|intros a Ha Q'; apply (NB a Ha); right; exact Q']]. intros K. apply in_app_or in K. destruct K as [K|K]; [exact (Nb K)|]. apply (NB b K). left. reflexivity. }
  split.
  { intros a Ha. destruct (in_dec Nat.eq_dec a bs) as [K|K]; [apply chunk_in, K|]. rewrite chunk_out by exact K. apply I2. cbn [app] in Ha. destruct Ha as [->|Ha]; [left; reflexivity|]. right. apply in_app_or in Ha. apply in_or_app. destruct Ha as [Ha|Ha]; [left; exact Ha|]. apply in_app_or in Ha. destruct Ha as [Ha|Ha]; [destruct (K Ha)|right; exact Ha]. }
  split; [exact J3|]. split; [exact J4|]. split; [exact J5|]. split; [exact I8|]. split; [exact I9|]. split; [exact I10|]. split; [exact I11|]. intros t q Hq. apply (ext_ok h); [| |apply (I12 t q Hq)].
  - intros a Ha. destruct (in_dec Nat.eq_dec a bs) as [K|K]; [apply chunk_in, K|]. rewrite chunk_out by exact K. exact Ha.
  - intros a Ha. apply EX. right. apply in_or_app. right. apply (held_in priv ts t q a Hq Ha).
Qed.
Lemma link_ok d l cf pf h fr pu po ts Q rest t a v : INV d l cf pf h fr pu po ts Q rest -> nth_error ts t = Some (PLink a v) ->
  exists n, h l = Some n /\ INV d l cf pf (put h l (mkn (Some a) (itm n))) fr (pu ++ [v]) po (upd ts t (PSet a)) (Q ++ [a]) (rest ++ [v]).
Proof.
  intros (I1 & I2 & I3 & I4 & (I5 & I6 & I7) & I8 & I9 & I10 & I11 & I12) H. destruct (sole I11 H eq_refl) as (-> & SO).
  assert (EL : last Q d = l). { destruct I9 as [K|(t' & K)]; [exact K|]. pose proof (SO t' _ K eq_refl) as ->. rewrite H in K. discriminate K. }
  destruct I4 as (n & En & Nn). rewrite EL in En. exists n. split; [exact En|]. pose proof (I12 t _ H) as Ha. cbn in Ha.
  destruct (held_upd priv ts t _ (PSet a) H) as (m & P1 & P2). cbn [priv app] in P1, P2.
  assert (PM : Permutation ((d :: Q) ++ fr ++ flat_map priv ts) ((d :: Q ++ [a]) ++ fr ++ flat_map priv (upd ts t (PSet a)))). { rewrite P1, P2. change (d :: Q ++ [a]) with ((d :: Q) ++ [a]). rewrite <- app_assoc. apply Permutation_app_head. cbn [app]. symmetry. apply Permutation_middle. }
  assert (NL : ~ In a (d :: Q)). { intros K. apply (nodup_not _ _ a I1 K). apply in_or_app. right. apply (held_in priv ts t _ a H). left. reflexivity. }
  assert (HL : In l (d :: Q)) by (rewrite <- EL; apply last_in'). assert (Nal : a <> l) by (intros ->; exact (NL HL)).
  assert (DQ : NoDup (d :: Q)) by (apply (nodup_l _ _ I1)).
  set (h' := put h l (mkn (Some a) (itm n))).
  assert (IT : forall L vs, items h L vs -> items h' L vs). { intros L vs. apply LocklessQueueProps.items_ext. intros b m' Hb Hm. unfold h'. destruct (Nat.eq_dec b l) as [->|N]; [rewrite put_eq; eexists; split; [reflexivity|]; cbn; congruence|rewrite put_neq by exact N; eauto]. }
  assert (Ea : h' a = Some (mkn None (Some v))) by (unfold h'; rewrite put_neq by exact Nal; exact Ha).
  assert (LK : linked h' (d :: Q)). { apply (LocklessQueueProps.linked_ext h); [|exact DQ|exact I3]. intros b m' Hb Hm. unfold h'. destruct (Nat.eq_dec b l) as [->|N]; [rewrite put_eq; eexists; split; [reflexivity|]|rewrite put_neq by exact N; eauto]. intros K. destruct K. change (d :: Q) with ([] ++ d :: Q). rewrite (LocklessQueueProps.last_app_cons [] Q d 0). congruence. }
  split; [apply (Permutation_NoDup PM I1)|]. split; [intros b Hb; apply put_dom, I2, (Permutation_in _ (Permutation_sym PM) Hb)|]. split; [|split; [|split; [split; [|split]|split; [|split; [|split; [|split]]]]]].
  - change (d :: Q ++ [a]) with ([] ++ (d :: Q) ++ [a]). destruct (LocklessQueueProps.snoc_split [] Q d) as (L & EQ). cbn [app] in EQ |- *. rewrite app_comm_cons, EQ in *. apply (LocklessQueueProps.linked_snoc _ _ _ _ (mkn None (Some v)) LK); [|exact Ea]. rewrite EL. unfold h'. rewrite put_eq. eexists. split; reflexivity.
  - rewrite last_last. exists (mkn None (Some v)). split; [exact Ea|reflexivity].
  - rewrite !app_length, I5. reflexivity.
  - destruct Q as [|x Q], rest as [|y rest]; try discriminate I5; [exact Logic.I|]. cbn [tl app] in *. apply LocklessQueueProps.items_snoc; [apply IT, I6|]. eexists. split; [exact Ea|reflexivity].
  - intros n' w Hn Hw. destruct Q as [|x Q], rest as [|y rest]; try discriminate I5.
    + cbn in Hn, Hw. injection Hn as <-. injection Hw as <-. left. eexists. split; [exact Ea|reflexivity].
    + destruct (I7 n' w Hn Hw) as [(m' & K1 & K2)|K]; [left|right; apply (witness_set ts t _ _ n' w H Logic.I K)]. unfold h'. destruct (Nat.eq_dec n' l) as [->|N]; [rewrite put_eq; eexists; split; [reflexivity|]; cbn; congruence|rewrite put_neq by exact N; eauto].
  - rewrite I8, app_assoc. reflexivity.
  - right. exists t. rewrite last_last. apply nth_error_upd_eq. apply (nth_error_lt _ _ _ H).
  - pose proof (count_upd cown ts t _ (PSet a) H) as C. cbn in C. lia.
  - pose proof (count_upd pown ts t _ (PSet a) H) as C. cbn in *. lia.
  - intros t' q Hq. apply upd_nth in Hq. destruct Hq as [(_ & ->)|(N & Hq)]; [cbn; rewrite last_last; reflexivity|]. pose proof (I12 t' q Hq) as K. assert (K' : pc_ok h' d Q rest q).
    { apply (ext_ok h); [intros b; apply put_dom| |exact K]. intros b Hb. apply put_neq. intros ->. apply (nodup_not _ _ l I1 HL). apply in_or_app. right. apply (held_in priv ts t' q l Hq Hb). }
    destruct q as [|w|b w|b w|b| | |x| | |r b|r b w|r w|r w|]; cbn in K' |- *; try exact K'.
    + destruct N. apply (SO t' _ Hq eq_refl).
    + destruct K' as (-> & K'). split; [reflexivity|]. destruct Q; [discriminate K'|exact K'].
    + destruct K' as (-> & K1 & K2). split; [reflexivity|]. destruct Q; [discriminate K1|]. destruct rest; [discriminate K2|]. auto.
Qed.
Lemma set_ok d l cf pf h fr pu po ts Q rest t a : INV d l cf pf h fr pu po ts Q rest -> nth_error ts t = Some (PSet a) -> INV d a cf pf h fr pu po (upd ts t PUnl) Q rest.
Proof.
  intros (I1 & I2 & I3 & I4 & (I5 & I6 & I7) & I8 & I9 & I10 & I11 & I12) H. destruct (sole I11 H eq_refl) as (-> & SO). pose proof (I12 t _ H) as Ha. cbn in Ha. pose proof (nd_upd (d :: Q) fr ts t _ PUnl H eq_refl) as PM.
  split; [apply (Permutation_NoDup PM I1)|]. split; [intros b Hb; apply I2, (Permutation_in _ (Permutation_sym PM) Hb)|]. split; [exact I3|]. split; [exact I4|]. split; [split; [exact I5|]; split; [exact I6|]|].
  - intros n w Hn Hw. destruct (I7 n w Hn Hw) as [K|(t' & r & K)]; [left; exact K|right]. exists t', r. rewrite nth_error_upd_neq; [exact K|]. intros <-. congruence.
  - split; [exact I8|]. split; [left; congruence|]. split; [pose proof (count_upd cown ts t _ PUnl H) as C; cbn in C; lia|]. split; [pose proof (count_upd pown ts t _ PUnl H) as C; cbn in *; lia|]. intros t' q Hq. apply upd_nth in Hq. destruct Hq as [(_ & ->)|(_ & Hq)]; [exact Logic.I|apply (I12 t' q Hq)].
Qed.
Lemma move_ok d l cf pf h fr pu po ts Q rest t r b : INV d l cf pf h fr pu po ts Q rest -> nth_error ts t = Some (OMove r b) ->
  exists n v, h b = Some n /\ itm n = Some v /\ INV d l cf pf (put h b (mkn (nxt n) None)) fr pu po (upd ts t (OSet r b v)) Q rest.
Proof.
  intros (I1 & I2 & I3 & I4 & (I5 & I6 & I7) & I8 & I9 & I10 & I11 & I12) H. destruct (sole I10 H eq_refl) as (-> & SO). pose proof (I12 t _ H) as (-> & HQ). destruct Q as [|x Q]; [discriminate HQ|]. cbn in HQ. injection HQ as ->. destruct rest as [|v rest]; [discriminate I5|].
  destruct (I7 b v eq_refl eq_refl) as [(n & En & Ev)|(t' & r & K)]; [|pose proof (SO t' _ K eq_refl) as ->; congruence]. exists n, v. split; [exact En|]. split; [exact Ev|]. cbn [tl] in I6.
  pose proof (nd_upd (d :: b :: Q) fr ts t _ (OSet d b v) H eq_refl) as PM. assert (DQ : NoDup (d :: b :: Q)) by (apply (nodup_l _ _ I1)). set (h' := put h b (mkn (nxt n) None)). assert (HB : In b (d :: b :: Q)) by (right; left; reflexivity).
  assert (NX : forall c m, h c = Some m -> exists m', h' c = Some m' /\ nxt m' = nxt m). { intros c m Hm. unfold h'. destruct (Nat.eq_dec c b) as [->|N]; [rewrite put_eq; eexists; split; [reflexivity|]; cbn; congruence|rewrite put_neq by exact N; eauto]. }
  split; [apply (Permutation_NoDup PM I1)|]. split; [intros c Hc; apply put_dom, I2, (Permutation_in _ (Permutation_sym PM) Hc)|]. split; [|split; [|split; [split; [exact I5|split]|split; [exact I8|split; [|split; [|split]]]]]].
  - apply (LocklessQueueProps.linked_ext h); [|exact DQ|exact I3]. intros c m _ Hm. destruct (NX c m Hm) as (m' & A & B). exists m'. auto.
  - destruct I4 as (m & A & B). destruct (NX _ m A) as (m' & A' & B'). exists m'. split; [exact A'|congruence].
  - cbn [tl]. apply outside_it; [|exact I6]. inversion DQ as [|? ? _ D2]; subst. inversion D2; subst. assumption.
  - intros n' w Hn Hw. cbn in Hn, Hw. injection Hn as <-. injection Hw as <-. right. exists t, d. apply nth_error_upd_eq. apply (nth_error_lt _ _ _ H).
  - destruct I9 as [K|(t' & K)]; [left; exact K|right]. exists t'. rewrite nth_error_upd_neq; [exact K|]. intros <-. congruence.
  - pose proof (count_upd cown ts t _ (OSet d b v) H) as C. cbn in *. lia.
  - pose proof (count_upd pown ts t _ (OSet d b v) H) as C. cbn in *. lia.
  - intros t' q Hq. apply upd_nth in Hq. destruct Hq as [(_ & ->)|(N & Hq)]; [cbn; auto|]. apply (ext_ok h); [intros c; apply put_dom| |apply (I12 t' q Hq)]. intros c Hc. apply put_neq. intros ->. apply (nodup_not _ _ b I1 HB). apply in_or_app. right. apply (held_in priv ts t' q b Hq Hc).
Qed.
Lemma take_ok d l cf pf h fr pu po ts Q rest t r b v : INV d l cf pf h fr pu po ts Q rest -> nth_error ts t = Some (OSet r b v) ->
  exists Q' rest', INV b l cf pf h fr pu (po ++ [v]) (upd ts t (OUnl r v)) Q' rest'.
Proof.
  intros (I1 & I2 & I3 & I4 & (I5 & I6 & I7) & I8 & I9 & I10 & I11 & I12) H. destruct (sole I10 H eq_refl) as (-> & SO). pose proof (I12 t _ H) as (-> & HQ & HR). destruct Q as [|x Q]; [discriminate HQ|]. cbn in HQ. injection HQ as ->. destruct rest as [|w rest]; [discriminate I5|]. cbn in HR. injection HR as ->. cbn [tl] in I6.
  exists Q, rest. destruct (held_upd priv ts t _ (OUnl d v) H) as (m & P1 & P2). cbn [priv app] in P1, P2.
  assert (PM : Permutation ((d :: b :: Q) ++ fr ++ flat_map priv ts) ((b :: Q) ++ fr ++ flat_map priv (upd ts t (OUnl d v)))). { rewrite P1, P2. cbn [app]. rewrite perm_swap. constructor. rewrite !app_assoc. apply Permutation_middle. }
  assert (LA : last (b :: Q) d = last Q b). { rewrite <- (LocklessQueueProps.last_app_cons [] Q b d). reflexivity. }
  split; [apply (Permutation_NoDup PM I1)|]. split; [intros c Hc; apply I2, (Permutation_in _ (Permutation_sym PM) Hc)|]. split; [apply (LocklessQueueProps.linked_tail _ d), I3|]. split; [rewrite <- LA; exact I4|]. split; [split; [injection I5 as I5; exact I5|]; split|split; [|split; [|split; [|split]]]].
  - destruct Q as [|y Q], rest as [|z rest]; try exact I6; try destruct I6. assumption.
  - intros n w Hn Hw. left. destruct Q as [|y Q], rest as [|z rest]; try discriminate. cbn in Hn, Hw. injection Hn as ->. injection Hw as ->. destruct I6 as (K & _). exact K.
  - rewrite I8, <- app_assoc. reflexivity.
  - rewrite <- LA. destruct I9 as [K|(t' & K)]; [left; exact K|right]. exists t'. rewrite nth_error_upd_neq; [exact K|]. intros <-. congruence.
  - pose proof (count_upd cown ts t _ (OUnl d v) H) as C. cbn in *. lia.
  - pose proof (count_upd pown ts t _ (OUnl d v) H) as C. cbn in *. lia.
  - intros t' q Hq. apply upd_nth in Hq. destruct Hq as [(_ & ->)|(N & Hq)]; [exact Logic.I|]. pose proof (I12 t' q Hq) as K. destruct q as [|u|c u|c u|c| | |x| | |r c|r c u|r u|r u|]; cbn in K |- *; try exact K.
    + rewrite K, <- LA. reflexivity.
    + destruct N. apply (SO t' _ Hq eq_refl).
    + destruct N. apply (SO t' _ Hq eq_refl).
Qed.
Lemma free_ok d l cf pf h fr pu po ts Q rest t r v : INV d l cf pf h fr pu po ts Q rest -> nth_error ts t = Some (OFree r v) ->
  h r <> None /\ INV d l cf pf (put h r (mkn (hd_error fr) None)) (r :: fr) pu po (upd ts t Idle) Q rest.
Proof.
  intros (I1 & I2 & I3 & I4 & I5 & I8 & I9 & I10 & I11 & I12) H. destruct (held_upd priv ts t _ Idle H) as (m & P1 & P2). cbn [priv app] in P1, P2.
  assert (HR : In r (flat_map priv ts)) by (apply (held_in priv ts t _ r H); left; reflexivity).
  assert (PM : Permutation ((d :: Q) ++ fr ++ flat_map priv ts) ((d :: Q) ++ (r :: fr) ++ flat_map priv (upd ts t Idle))). { apply Permutation_app_head. cbn [app]. rewrite P1, P2. symmetry. apply Permutation_middle. }
  assert (NL : ~ In r (d :: Q)). { intros Ha. apply (nodup_not _ _ r I1 Ha). apply in_or_app. right. exact HR. }
  destruct (list_ext h (put h r (mkn (hd_error fr) None)) d Q rest ts (upd ts t Idle)) as (J3 & J4 & J5); [intros b Hb; apply put_neq; intros ->; exact (NL Hb)|intros n w; apply (witness_set ts t _ _ n w H Logic.I)|auto|].
  split; [apply I2; apply in_or_app; right; apply in_or_app; right; exact HR|].
  split; [apply (Permutation_NoDup PM I1)|]. split; [intros b Hb; apply put_dom, I2, (Permutation_in _ (Permutation_sym PM) Hb)|]. split; [exact J3|]. split; [exact J4|]. split; [exact J5|]. split; [exact I8|]. split; [destruct I9 as [K|K]; [left; exact K|right; refine (witness ts t _ _ (PSet (last Q d)) H Logic.I (fun x => x) K)]|].
  split; [pose proof (count_upd cown ts t _ Idle H) as C; cbn in C; lia|]. split; [pose proof (count_upd pown ts t _ Idle H) as C; cbn in C; lia|].
  intros t' q Hq. apply upd_nth in Hq. destruct Hq as [(_ & ->)|(N & Hq)]; [exact Logic.I|]. apply (ext_ok h); [intros b; apply put_dom| |apply (I12 t' q Hq)]. intros b Hb. apply put_neq. intros ->. apply nodup_r, nodup_r in I1. apply (held_two priv ts t t' _ q r I1 (not_eq_sym N) H Hq); [left; reflexivity|exact Hb].
Qed.
Lemma exec_ok s ts t p bs : inv s ts -> nth_error ts t = Some p -> fresh_blocks s bs -> exists s' p' r, exec s p bs = Ok (s', p', r) /\ inv s' (upd ts t p').
Proof.
  intros (Q & rest & IV) H (NE & NB & FB). pose proof IV as (I1 & I2 & I3 & I4 & (I5 & I6 & I7) & I8 & I9 & I10 & I11 & I12). pose proof (I12 t p H) as PO. destruct p as [|w|b w|b w|b| | |x| | |r b|r b w|r w|r w|]; cbn [MicroLockQueue.exec].
  - do 3 eexists. split; [reflexivity|]. exists Q, rest. apply (quiet _ _ _ _ _ _ _ _ _ _ _ _ _ _ _ _ IV H); try exact Logic.I; try reflexivity; auto.
  - destruct (free s) as [|a f] eqn:EF.
    + destruct bs as [|a f]; [congruence|]. do 3 eexists. split; [reflexivity|]. exists Q, rest. eapply alloc_ok; [|exact H|reflexivity]. apply chunk_ok; [exact IV|exact NB|exact FB].
    + do 3 eexists. split; [reflexivity|]. exists Q, rest. eapply alloc_ok; [exact IV|exact H|reflexivity].
  - destruct (pflag s) eqn:EF; do 3 eexists; (split; [reflexivity|]); exists Q, rest.
    + rewrite <- EF in IV. apply (quiet _ _ _ _ _ _ _ _ _ _ _ _ _ _ _ _ IV H); try exact Logic.I; try reflexivity; auto.
    + apply (quiet _ _ _ _ _ _ _ _ _ _ _ _ _ _ _ _ IV H); try exact Logic.I; try reflexivity; auto.
  - destruct (link_ok _ _ _ _ _ _ _ _ _ _ _ _ _ _ IV H) as (n & En & K). unfold MicroLockQueue.deref. rewrite En. cbn [bind]. do 3 eexists. split; [reflexivity|]. do 2 eexists. exact K.
  - do 3 eexists. split; [reflexivity|]. exists Q, rest. apply (set_ok _ _ _ _ _ _ _ _ _ _ _ _ _ IV H).
  - do 3 eexists. split; [reflexivity|]. exists Q, rest. destruct (sole I11 H eq_refl) as (E & _). cbn. rewrite E in IV. apply (quiet _ _ _ _ _ _ _ _ _ _ _ _ _ _ _ _ IV H); try exact Logic.I; try reflexivity; auto.
  - do 3 eexists. split; [reflexivity|]. exists Q, rest. apply (quiet _ _ _ _ _ _ _ _ _ _ _ _ _ _ _ _ IV H); try exact Logic.I; try reflexivity; auto. cbn. apply I2. left. reflexivity.
  - cbn in PO. unfold MicroLockQueue.deref. destruct (hp s x) as [n|]; [|congruence]. cbn [bind]. destruct (nxt n); do 3 eexists; (split; [reflexivity|]); exists Q, rest; apply (quiet _ _ _ _ _ _ _ _ _ _ _ _ _ _ _ _ IV H); try exact Logic.I; try reflexivity; auto.
  - destruct (cflag s) eqn:EF; do 3 eexists; (split; [reflexivity|]); exists Q, rest.
    + rewrite <- EF in IV. apply (quiet _ _ _ _ _ _ _ _ _ _ _ _ _ _ _ _ IV H); try exact Logic.I; try reflexivity; auto.
    + apply (quiet _ _ _ _ _ _ _ _ _ _ _ _ _ _ _ _ IV H); try exact Logic.I; try reflexivity; auto.
  - unfold MicroLockQueue.deref. destruct Q as [|y Q].
    + destruct I4 as (n & En & Nn). cbn in En. rewrite En. cbn [bind]. rewrite Nn. do 3 eexists. split; [reflexivity|]. exists [], rest. apply (quiet _ _ _ _ _ _ _ _ _ _ _ _ _ _ _ _ IV H); try exact Logic.I; try reflexivity; auto.
    + destruct I3 as ((n & En & Nn) & _). rewrite En. cbn [bind]. rewrite Nn. do 3 eexists. split; [reflexivity|]. exists (y :: Q), rest. apply (quiet _ _ _ _ _ _ _ _ _ _ _ _ _ _ _ _ IV H); try exact Logic.I; try reflexivity; auto. cbn. auto.
  - destruct (move_ok _ _ _ _ _ _ _ _ _ _ _ _ _ _ IV H) as (n & v & En & Ev & K). unfold MicroLockQueue.deref. rewrite En. cbn [bind]. rewrite Ev. do 3 eexists. split; [reflexivity|]. do 2 eexists. exact K.
  - destruct (take_ok _ _ _ _ _ _ _ _ _ _ _ _ _ _ _ IV H) as (Q' & rest' & K). do 3 eexists. split; [reflexivity|]. do 2 eexists. exact K.
  - do 3 eexists. split; [reflexivity|]. exists Q, rest. destruct (sole I10 H eq_refl) as (E & _). cbn. rewrite E in IV. apply (quiet _ _ _ _ _ _ _ _ _ _ _ _ _ _ _ _ IV H); try exact Logic.I; try reflexivity; auto.
  - destruct (free_ok _ _ _ _ _ _ _ _ _ _ _ _ _ _ IV H) as (En & K). unfold MicroLockQueue.deref. destruct (hp s r) as [n|]; [|congruence]. cbn [bind]. do 3 eexists. split; [reflexivity|]. exists Q, rest. exact K.
  - do 3 eexists. split; [reflexivity|]. exists Q, rest. destruct (sole I10 H eq_refl) as (E & _). cbn. rewrite E in IV. apply (quiet _ _ _ _ _ _ _ _ _ _ _ _ _ _ _ _ IV H); try exact Logic.I; try reflexivity; auto.
Qed.
Lemma call_ok s ts t p : inv s ts -> nth_error ts t = Some Idle -> match p with PAlloc _ | OChk => True | _ => False end -> inv s (upd ts t p).
Proof. intros (Q & rest & IV) H D. exists Q, rest. apply (quiet _ _ _ _ _ _ _ _ _ _ _ _ _ _ _ p IV H); destruct p; try destruct D; cbn; auto. Qed.
Lemma step_ok s ts r : inv s ts -> step (s, ts) r -> exists s' ts', r = Ok (s', ts') /\ inv s' ts'.
Proof.
  intros IV H. inversion H as [? ? t v Ht|? ? t Ht|? ? t p bs Ht FB]; subst.
  - exists s, (upd ts t (PAlloc v)). split; [reflexivity|]. apply call_ok; auto.
  - exists s, (upd ts t OChk). split; [reflexivity|]. apply call_ok; auto.
  - destruct (exec_ok s ts t p bs IV Ht FB) as (s' & p' & r & E & K). rewrite E. cbn [bind]. eauto.
Qed.
Lemma new_inv n a f : NoDup (a :: f) -> inv (new_mq (V:=V) a f) (repeat Idle n).
Proof.
  intros D. exists [], []. assert (EP : flat_map priv (repeat (@Idle V) n) = []) by (induction n; [reflexivity|assumption]). unfold new_mq. split; [cbn [MicroLockQueue.qdiv free]; rewrite EP, app_nil_r; exact D|]. split.
  { cbn [MicroLockQueue.qdiv free MicroLockQueue.hp]. rewrite EP, app_nil_r. intros b Hb. apply put_dom, chunk_in, Hb. }
  split; [cbn -[MicroLockQueue.put]; rewrite put_eq; eauto|]. split; [cbn -[MicroLockQueue.put]; rewrite put_eq; eauto|]. split; [split; [reflexivity|]; split; [exact Logic.I|]; intros ? ? E; discriminate E|]. split; [reflexivity|]. split; [left; reflexivity|]. split; [apply count_repeat; reflexivity|]. split; [apply count_repeat; reflexivity|].
  intros t p Hp. apply nth_error_In, repeat_spec in Hp. subst p. exact Logic.I.
Qed.
Lemma runs_inv n s ts : runs n (s, ts) -> inv s ts.
Proof.
  intros H. remember (s, ts) as x eqn:E. revert s ts E. induction H as [a f D|x y H IH ST]; intros s ts E.
  - injection E as <- <-. apply new_inv, D.
  - subst y. destruct x as [s0 ts0]. destruct (step_ok s0 ts0 _ (IH _ _ eq_refl) ST) as (s' & ts' & E & K). injection E as -> ->. exact K.
Qed.
End Proofs.
Lemma history_runs {V} n (s : mq V) ts pu po : history n (s, ts) pu po -> runs n (s, ts).
Proof.
  intros H. remember (s, ts) as x eqn:E. revert s ts E. induction H as [a f D|s0 ts0 t v pu po H IH Ht|s0 ts0 t pu po H IH Ht|s0 ts0 t p bs s1 p' r pu po H IH Ht FB EX]; intros s ts E; injection E as <- <-.
  - constructor. exact D.
  - eapply r_step; [exact (IH _ _ eq_refl)|]. apply s_push, Ht.
  - eapply r_step; [exact (IH _ _ eq_refl)|]. apply s_pop, Ht.
  - eapply r_step; [exact (IH _ _ eq_refl)|]. pose proof (s_exec s0 ts0 t p bs Ht FB) as K. rewrite EX in K. exact K.
Qed.
Lemma one_runs {V} n c (s : mq V) ts : runs_one n c (s, ts) -> runs n (s, ts).
Proof.
  intros H. remember (s, ts) as x eqn:E. revert s ts E. induction H as [a f D|s0 ts0 t v H IH Ht|s0 ts0 H IH Ht|s0 ts0 t p bs s1 p' r H IH Ht FB EX]; intros s ts E; injection E as <- <-.
  - constructor. exact D.
  - eapply r_step; [exact (IH _ _ eq_refl)|]. apply s_push, Ht.
  - eapply r_step; [exact (IH _ _ eq_refl)|]. apply s_pop, Ht.
  - eapply r_step; [exact (IH _ _ eq_refl)|]. pose proof (s_exec s0 ts0 t p bs Ht FB) as K. rewrite EX in K. exact K.
Qed.
(* values of the Push calls that have not taken effect, and of the Pop calls that have and did not return *)
Definition topush {V} (p : MicroLockQueue.pc V) : list V := match p with PAlloc v | PLock _ v | PLink _ v => [v] | _ => [] end.
Definition toret {V} (p : MicroLockQueue.pc V) : list V := match p with OUnl _ v | OFree _ v => [v] | _ => [] end.
Lemma flat_repeat {V} (f : MicroLockQueue.pc V -> list V) n : f Idle = [] -> flat_map f (repeat Idle n) = [].
Proof. intros E. induction n; [reflexivity|]. cbn [repeat flat_map]. rewrite E. assumption. Qed.
Lemma upd_flat {V} (f : MicroLockQueue.pc V -> list V) ts t p p' l : nth_error ts t = Some p -> Permutation l (flat_map f ts) -> f p' = f p -> Permutation l (flat_map f (upd ts t p')).
Proof. intros H P E. destruct (held_upd f ts t p p' H) as (m & P1 & P2). rewrite P, P1, P2, E. reflexivity. Qed.
Lemma history_acc {V} n (s : mq V) ts pu po : history n (s, ts) pu po -> Permutation pu (pushed s ++ flat_map topush ts) /\ Permutation (popped s) (po ++ flat_map toret ts).
Proof.
  intros H. remember (s, ts) as x eqn:E. revert s ts E. induction H as [a f D|s0 ts0 t v pu po H IH Ht|s0 ts0 t pu po H IH Ht|s0 ts0 t p bs s1 p' r pu po H IH Ht FB EX]; intros s ts E; injection E as <- <-.
  - cbn [new_mq MicroLockQueue.pushed MicroLockQueue.popped app]. rewrite !flat_repeat by reflexivity. split; constructor.
  - destruct (IH _ _ eq_refl) as (A & B). clear IH. destruct (held_upd topush ts0 t _ (PAlloc v) Ht) as (m & P1 & P2). destruct (held_upd toret ts0 t _ (PAlloc v) Ht) as (m' & P3 & P4). cbn [topush toret app] in *. split.
    + rewrite P2, <- Permutation_middle, A, P1. reflexivity.
    + rewrite P4, <- P3. exact B.
  - destruct (IH _ _ eq_refl) as (A & B). clear IH. destruct (held_upd topush ts0 t _ OChk Ht) as (m & P1 & P2). destruct (held_upd toret ts0 t _ OChk Ht) as (m' & P3 & P4). cbn [topush toret app] in *. split; [rewrite P2, <- P1; exact A|rewrite P4, <- P3; exact B].
  - destruct (IH _ _ eq_refl) as (A & B). clear IH. destruct (held_upd topush ts0 t _ p' Ht) as (m & P1 & P2). destruct (held_upd toret ts0 t _ p' Ht) as (m' & P3 & P4). rewrite P1 in A. rewrite P3 in B. rewrite P2, P4. clear P1 P2 P3 P4 H Ht.
    destruct p as [|w|b w|b w|b| | |x| | |q b|q b w|q w|q w|]; cbn [MicroLockQueue.exec] in EX; unfold MicroLockQueue.deref in EX.
    all: repeat match type of EX with
      | (match ?e with _ => _ end) = _ => destruct e eqn:?; try discriminate EX
      | bind (match ?e with _ => _ end) _ = _ => destruct e eqn:?; cbn [bind] in EX; try discriminate EX
      end.
    all: injection EX as <- <- <-; cbn [MicroLockQueue.pushed MicroLockQueue.popped topush toret app] in *; try (split; assumption).
    + split; [|exact B]. rewrite <- app_assoc. exact A.
    + split; [exact A|]. rewrite B. rewrite <- app_assoc. apply Permutation_app_head, Permutation_app_comm.
    + split; [exact A|]. rewrite B. symmetry. apply Permutation_middle.
Qed.

(* ---------------------------------------------------- theorems ---------------------------------------------------- *)
(* For any number of threads and any interleaving, the values popped so far are the first values pushed, in the order of the pushes. *)
Theorem C42_fifo {V} n (s : mq V) ts : runs n (s, ts) -> exists rest, pushed s = popped s ++ rest.
Proof. intros H. destruct (runs_inv n s ts H) as (Q & rest & _ & _ & _ & _ & _ & K & _). eauto. Qed.
Print Assumptions C42_fifo.
(* The values the Pops have returned are the popped ones apart from those of the Pops still running; with the values still
   queued and those of the Pushes still running they are exactly the pushed ones: none is returned twice, invented or lost. *)
Theorem C42_once {V} n (s : mq V) ts pu po : history n (s, ts) pu po -> exists rest running pending, Permutation pu (po ++ running ++ rest ++ pending) /\ Permutation (popped s) (po ++ running) /\ pushed s = popped s ++ rest /\ length running + length pending <= n.
Proof.
  intros H. destruct (history_acc n s ts pu po H) as (A & B). pose proof (history_runs n s ts pu po H) as R. destruct (C42_fifo n s ts R) as (rest & E). exists rest, (flat_map toret ts), (flat_map topush ts). split; [rewrite A, E, B, <- !app_assoc; reflexivity|]. split; [exact B|]. split; [exact E|].
  assert (L : length ts = n). { clear - R. remember (s, ts) as x eqn:E. revert s ts E. induction R as [a f D|x y H IH ST]; intros s ts E; [injection E as <- <-; apply repeat_length|]. subst y. destruct x as [s0 ts0]. specialize (IH s0 ts0 eq_refl). inversion ST as [? ? t v Ht|? ? t Ht|? ? t p bs Ht FB]; subst; [rewrite upd_length; reflexivity|rewrite upd_length; reflexivity|].
    destruct (exec s0 p bs) as [((s1, p1), r)| |] eqn:EX; cbn [bind] in *; try discriminate. match goal with K : Ok _ = Ok _ |- _ => injection K as <- <- end. apply upd_length. }
  rewrite <- L. clear. induction ts as [|p ts IH]; [cbn; lia|]. cbn [flat_map length]. rewrite !app_length. assert (length (toret p) + length (topush p) <= 1) by (destruct p; cbn; lia). lia.
Qed.
Print Assumptions C42_once.
(* A Pop takes effect by removing the oldest value, which is the value it returns. *)
Theorem C42_pop {V} n (s : mq V) ts t r b v bs s' p' q : runs n (s, ts) -> nth_error ts t = Some (OSet r b v) -> exec s (OSet r b v) bs = Ok (s', p', q) ->
  nth_error (pushed s) (length (popped s)) = Some v /\ popped s' = popped s ++ [v] /\ pushed s' = pushed s /\ exists r', p' = OUnl r' v.
Proof.
  intros H Ht E. destruct (runs_inv n s ts H) as (Q & rest & _ & _ & _ & _ & _ & K & _ & _ & _ & OK). pose proof (OK t _ Ht) as (_ & _ & HR). cbn in E. injection E as <- <- <-. cbn. split; [|eauto]. rewrite K, nth_error_app2, Nat.sub_diag by lia. destruct rest; [discriminate HR|exact HR].
Qed.
Print Assumptions C42_pop.
(* No thread dereferences null or memory that is not a node, and no call moves out an item twice. *)
Theorem C42_safe {V} n (s : mq V) ts r : runs n (s, ts) -> step (s, ts) r -> exists x, r = Ok x.
Proof. intros H ST. destruct (step_ok s ts r (runs_inv n s ts H) ST) as (s' & ts' & -> & _). eauto. Qed.
Print Assumptions C42_safe.
Lemma null_empty {V} (s : mq V) ts m : inv s ts -> hp s (qdiv s) = Some m -> nxt m = None -> is_empty s.
Proof.
  intros (Q & rest & _ & _ & I3 & _ & (I5 & _) & K & _) E N. unfold is_empty. destruct Q as [|y Q].
  - destruct rest; [|discriminate I5]. rewrite K, app_nil_r. reflexivity.
  - destruct I3 as ((k & Ek & Nk) & _). congruence.
Qed.
(* A Pop that fails after taking the lock found the queue empty while it held it. *)
Theorem C42_fail_locked {V} n (s : mq V) ts t bs s' q : runs n (s, ts) -> nth_error ts t = Some ORead -> exec s ORead bs = Ok (s', OFail, q) -> is_empty s.
Proof.
  intros H Ht E. cbn [MicroLockQueue.exec] in E. unfold MicroLockQueue.deref in E. destruct (hp s (qdiv s)) as [m|] eqn:Em; [|discriminate E]. cbn [bind] in E. destruct (nxt m) eqn:Nm; [discriminate E|]. apply (null_empty s ts m (runs_inv n s ts H) Em Nm).
Qed.
Print Assumptions C42_fail_locked.
(* The full claim also wants this of the test before the lock.  It holds when that test looks at the current first node... *)
Theorem C42_fail_partial {V} n (s : mq V) ts t bs s' p' : runs n (s, ts) -> nth_error ts t = Some (OChk2 (qdiv s)) -> exec s (OChk2 (qdiv s)) bs = Ok (s', p', Some RFalse) -> is_empty s.
Proof.
  intros H Ht E. cbn [MicroLockQueue.exec] in E. unfold MicroLockQueue.deref in E. destruct (hp s (qdiv s)) as [m|] eqn:Em; [|discriminate E]. cbn [bind] in E. destruct (nxt m) eqn:Nm; [discriminate E|]. apply (null_empty s ts m (runs_inv n s ts H) Em Nm).
Qed.
Print Assumptions C42_fail_partial.
(* ... and so it does whenever only one thread pops, with any number of threads that push. *)
Definition popping {V} (p : MicroLockQueue.pc V) : bool := match p with OChk | OChk2 _ | OLock | ORead | OMove _ _ | OSet _ _ _ | OUnl _ _ | OFree _ _ | OFail => true | _ => false end.
Lemma one_inv {V} n c (s : mq V) ts : runs_one n c (s, ts) -> (forall t p, nth_error ts t = Some p -> popping p = true -> t = c) /\ (forall t d, nth_error ts t = Some (OChk2 d) -> d = qdiv s).
Proof.
  intros H. remember (s, ts) as x eqn:E. revert s ts E. induction H as [a f D|s0 ts0 t v H IH Ht|s0 ts0 H IH Ht|s0 ts0 t p bs s1 p' r H IH Ht FB EX]; intros s ts E; injection E as <- <-.
  - split; intros t p Hp; apply nth_error_In, repeat_spec in Hp; [subst p; discriminate|discriminate Hp].
  - destruct (IH _ _ eq_refl) as (A & B). split; intros t' q Hq; apply upd_nth in Hq; destruct Hq as [(-> & Hq)|(N & Hq)]; try (subst q; discriminate); try discriminate Hq; [apply (A t' q Hq)|apply (B t' q Hq)].
  - destruct (IH _ _ eq_refl) as (A & B). split; intros t' q Hq; apply upd_nth in Hq; destruct Hq as [(-> & Hq)|(N & Hq)]; try discriminate Hq; [intros _; reflexivity|apply (A t' q Hq)|apply (B t' q Hq)].
  - destruct (IH _ _ eq_refl) as (A & B).
    assert (C : (popping p' = true -> popping p = true) /\ (forall d, p' = OChk2 d -> d = qdiv s1) /\ (popping p = false -> qdiv s1 = qdiv s0)).
    { destruct p as [|w|b w|b w|b| | |x| | |q b|q b w|q w|q w|]; cbn [MicroLockQueue.exec popping] in EX |- *; unfold MicroLockQueue.deref in EX.
      all: repeat match type of EX with
        | (match ?e with _ => _ end) = _ => destruct e eqn:?; try discriminate EX
        | bind (match ?e with _ => _ end) _ = _ => destruct e eqn:?; cbn [bind] in EX; try discriminate EX
        end.
      all: injection EX as <- <- <-; cbn; split; [auto; discriminate|]; split; [|auto; discriminate]; intros d' ED; try discriminate ED; injection ED as <-; reflexivity. }
    destruct C as (C1 & C2 & C3). split; intros t' q Hq; apply upd_nth in Hq; destruct Hq as [(-> & Hq)|(N & Hq)].
    + subst q. intros K. apply (A t p Ht), C1, K.
    + apply (A t' q Hq).
    + apply C2. symmetry. exact Hq.
    + rewrite (B t' q Hq). symmetry. apply C3. destruct (popping p) eqn:Ep; [|reflexivity]. destruct N. rewrite (A t p Ht Ep). apply (A t' _ Hq eq_refl).
Qed.
Theorem C42_fail_one_consumer_partial {V} n c (s : mq V) ts t p bs s' p' : runs_one n c (s, ts) -> nth_error ts t = Some p -> exec s p bs = Ok (s', p', Some RFalse) -> (exists d, p = OChk2 d /\ is_empty s) \/ p = OFail.
Proof.
  intros H Ht E. pose proof (one_runs n c s ts H) as R. destruct (one_inv n c s ts H) as (_ & B).
  destruct p as [|w|b w|b w|b| | |x| | |q b|q b w|q w|q w|]; try (right; reflexivity).
  8: { left. exists x. split; [reflexivity|]. pose proof (B t x Ht) as ->. apply (C42_fail_partial n s ts t bs s' p' R Ht E). }
  all: exfalso; cbn [MicroLockQueue.exec] in E; unfold MicroLockQueue.deref in E.
  all: repeat match type of E with
        | (match ?e with _ => _ end) = _ => destruct e eqn:?; try discriminate E
        | bind (match ?e with _ => _ end) _ = _ => destruct e eqn:?; cbn [bind] in E; try discriminate E
        end.
  all: discriminate E.
Qed.
Print Assumptions C42_fail_one_consumer_partial.

(* a computable scheduler *)
Inductive move := Push (v : nat) | Pop | Go.
Definition sched (x : res (mq nat * list (MicroLockQueue.pc nat))) (m : nat * move) : res (mq nat * list (MicroLockQueue.pc nat)) :=
  do (s, ts) <- x;
  match nth_error ts (fst m), snd m with
  | Some Idle, Push v => Ok (s, upd ts (fst m) (PAlloc v))
  | Some Idle, Pop => Ok (s, upd ts (fst m) OChk)
  | Some p, Go => match hp s 50 with Some _ => OutOfFuel | None => do (s', p', _) <- exec s p [50]; Ok (s', upd ts (fst m) p') end
  | _, _ => OutOfFuel
  end.
Lemma sched_step x m y : sched (Ok x) m = Ok y -> step x (Ok y).
Proof.
  destruct x as [s ts], m as [t m]. unfold sched. cbn [bind fst snd]. destruct (nth_error ts t) as [p|] eqn:Ht; [|discriminate].
  assert (G : match hp s 50 with Some _ => OutOfFuel | None => do (s', p', _) <- exec s p [50]; Ok (s', upd ts t p') end = Ok y -> step (s, ts) (Ok y)). { destruct (hp s 50) eqn:E50; [discriminate|]. intros E. rewrite <- E. apply s_exec; [exact Ht|]. split; [discriminate|]. split; [constructor; [intros []|constructor]|]. intros b [<-|[]]. exact E50. }
  destruct m as [v| |].
  - destruct p; try discriminate. intros E. injection E as <-. apply s_push, Ht.
  - destruct p; try discriminate. intros E. injection E as <-. apply s_pop, Ht.
  - intros E. apply G. destruct p; exact E.
Qed.
Lemma sched_stuck (ms : list (nat * move)) x : match x with Ok _ => False | _ => True end -> match fold_left sched ms x with Ok _ => False | _ => True end.
Proof. revert x. induction ms as [|m ms IH]; intros x H; [exact H|]. apply IH. destruct x; [destruct H|exact H|exact H]. Qed.
Lemma sched_runs n ms : forall x y, runs n x -> fold_left sched ms (Ok x) = Ok y -> runs n y.
Proof.
  induction ms as [|m ms IH]; intros x y R E; [injection E as <-; exact R|]. cbn [fold_left] in E. destruct (sched (Ok x) m) as [z| |] eqn:Ez; [|pose proof (sched_stuck ms UB Logic.I) as K; rewrite E in K; destruct K|pose proof (sched_stuck ms OutOfFuel Logic.I) as K; rewrite E in K; destruct K].
  apply (IH z y); [|exact E]. apply (r_step n x z R). apply (sched_step x m z Ez).
Qed.
Fixpoint sched_all (f : mq nat -> bool) (ms : list (nat * move)) (x : mq nat * list (MicroLockQueue.pc nat)) : res (mq nat * list (MicroLockQueue.pc nat)) :=
  match ms with [] => Ok x | m :: ms => do y <- sched (Ok x) m; if f (fst y) then sched_all f ms y else OutOfFuel end.
Lemma sched_path (P : mq nat -> Prop) f ms : (forall s, f s = true -> P s) -> forall x0 x y, path P x0 x -> sched_all f ms x = Ok y -> path P x0 y.
Proof.
  intros FP. induction ms as [|m ms IH]; intros x0 x y R E; [injection E as <-; exact R|]. cbn [sched_all] in E. destruct (sched (Ok x) m) as [z| |] eqn:Ez; [|discriminate E|discriminate E]. cbn [bind] in E. destruct (f (fst z)) eqn:Fz; [|discriminate E]. apply (IH x0 z y); [|exact E]. apply (p_step P x0 x z R); [apply (sched_step x m z Ez)|apply FP, Fz].
Qed.
Definition first_chunk : mq nat * list (MicroLockQueue.pc nat) := (new_mq 1 [2; 3; 4; 5; 6; 7; 8], [Idle; Idle]).
Lemma first_runs : runs 2 first_chunk.
Proof. apply (r_new 2 1 [2; 3; 4; 5; 6; 7; 8]). repeat (constructor; [cbn; intuition discriminate|]). constructor. Qed.
Definition one_push (t v : nat) : list (nat * move) := (t, Push v) :: repeat (t, Go) 5.
Definition seven_pushes : list (nat * move) := concat (map (one_push 1) [10; 20; 30; 40; 50; 60; 70]).
(* two threads push at the same time, thread 1 overtaking thread 0, and then pop at the same time, thread 0 waiting for the lock *)
Definition example_moves : list (nat * move) :=
  [(0, Push 8); (0, Go); (1, Push 7); (1, Go); (1, Go); (0, Go); (1, Go); (0, Go); (1, Go); (1, Go); (0, Go); (0, Go); (0, Go); (0, Go); (1, Push 9); (1, Go); (1, Go); (1, Go); (1, Go); (1, Go);
   (0, Pop); (1, Pop); (0, Go); (1, Go); (0, Go); (1, Go); (1, Go); (0, Go); (1, Go); (1, Go); (1, Go); (1, Go); (0, Go); (1, Go); (0, Go); (0, Go); (0, Go)].
Example C42_example : exists s ts, runs 2 (s, ts) /\ pushed s = [7; 8; 9] /\ popped s = [7; 8] /\ ts = [OUnl 3 8; Idle].
Proof.
  destruct (fold_left sched example_moves (Ok first_chunk)) as [[s ts]| |] eqn:E0.
  2, 3: vm_compute in E0; discriminate E0.
  exists s, ts. split; [apply (sched_runs 2 example_moves first_chunk); [exact first_runs|exact E0]|]. vm_compute in E0. injection E0 as <- <-. cbn. auto.
Qed.
(* The claim about failing Pops is false of the code when two threads pop: thread 0 begins a Pop while seven values are queued
   and all eight blocks are in use, reads _div, thread 1 pops one value and frees the node, and thread 0 then reads the free
   list link of the freed block, which is null, and returns false, although there were always values in the queue. *)
Definition nonempty_b (s : mq nat) : bool := length (popped s) <? length (pushed s).
Definition spurious_moves : list (nat * move) := [(0, Pop); (0, Go); (1, Pop)] ++ repeat (1, Go) 8.
Theorem C42_spurious_failure_refuted : exists x1 s2 ts2 d s3 p3,
  runs 2 x1 /\ nth_error (snd x1) 0 = Some Idle /\ path (fun s => ~ is_empty s) x1 (s2, ts2) /\ nth_error ts2 0 = Some (OChk2 d) /\ exec s2 (OChk2 d) [50] = Ok (s3, p3, Some RFalse) /\ pushed s3 = [10; 20; 30; 40; 50; 60; 70] /\ popped s3 = [10].
Proof.
  destruct (fold_left sched seven_pushes (Ok first_chunk)) as [x1| |] eqn:E1.
  2, 3: vm_compute in E1; discriminate E1.
  destruct (sched_all nonempty_b spurious_moves x1) as [[s2 ts2]| |] eqn:E2.
  2, 3: vm_compute in E1; injection E1 as <-; vm_compute in E2; discriminate E2.
  exists x1, s2, ts2, 1, s2, Idle.
  assert (NP : forall s, nonempty_b s = true -> ~ is_empty s). { intros s K E. unfold nonempty_b in K. rewrite E, Nat.ltb_irrefl in K. discriminate K. }
  split; [apply (sched_runs 2 seven_pushes first_chunk); [exact first_runs|exact E1]|].
  assert (F : nonempty_b (fst x1) = true /\ nth_error (snd x1) 0 = Some Idle). { vm_compute in E1. injection E1 as <-. vm_compute. auto. }
  split; [apply F|]. split; [apply (sched_path _ nonempty_b spurious_moves NP x1 x1); [constructor; apply NP, F|exact E2]|].
  vm_compute in E1. injection E1 as <-. vm_compute in E2. injection E2 as <- <-. vm_compute. auto 6.
Qed.
Print Assumptions C42_spurious_failure_refuted.
(* one consumer, thread 0, pops from an empty queue while thread 1 pushes *)
Example C42_one_consumer_example : exists s ts s' p', runs_one 2 0 (s, ts) /\ nth_error ts 0 = Some (OChk2 1) /\ nth_error ts 1 = Some (PLock 2 5) /\ exec s (OChk2 1) [50] = Ok (s', p', Some RFalse).
Proof.
  set (s0 := new_mq (V:=nat) 1 [2; 3; 4; 5; 6; 7; 8]).
  assert (R0 : runs_one 2 0 (s0, [Idle; Idle])). { apply (o_new 2 0 1 [2; 3; 4; 5; 6; 7; 8]). repeat (constructor; [cbn; intuition discriminate|]). constructor. }
  assert (F : forall s : mq nat, hp s 50 = None -> fresh_blocks s [50]). { intros s E. split; [discriminate|]. split; [constructor; [intros []|constructor]|]. intros b [<-|[]]. exact E. }
  pose proof (o_push 2 0 _ _ 1 5 R0 eq_refl) as R1. cbn [upd] in R1.
  pose proof (o_pop 2 0 _ _ R1 eq_refl) as R2. cbn [upd] in R2.
  pose proof (o_exec 2 0 _ _ 1 _ [50] _ _ _ R2 eq_refl (F s0 eq_refl) eq_refl) as R3.
  pose proof (o_exec 2 0 _ _ 0 _ [50] _ _ _ R3 eq_refl ltac:(apply F; reflexivity) eq_refl) as R4. cbn [upd] in R4.
  do 4 eexists. split; [exact R4|]. split; [reflexivity|]. split; reflexivity.
Qed.
