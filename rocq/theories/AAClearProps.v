(* C210: clearing, destroying and traversing an AA tree *)
From Coq Require Import List ZArith Bool Arith Lia.
From Verif Require Import Common AAClear.
Import ListNotations.

(** trees of addresses and items; the addresses and the items from left to right *)
Inductive shape (T : Type) := Lf | Nd (l : shape T) (a : nat) (d : T) (r : shape T).
Arguments Lf {T}.
Arguments Nd {T} l a d r.
Fixpoint addrs {T} (t : shape T) : list nat := match t with Lf => [] | Nd l a _ r => addrs l ++ a :: addrs r end.
(** the nodes from the address n on are the tree t, with the sentinel where it ends *)
Fixpoint at_node {T} (h : heap T) (sen n : nat) (t : shape T) : Prop :=
  match t with
  | Lf => n = sen
  | Nd l a d r => n = a /\ a <> sen /\ exists nl nr, h a = Some (AN nl nr (Some d)) /\ at_node h sen nl l /\ at_node h sen nr r
  end.
(** the tree s consists of the nodes of t and of its sentinel, which points to itself; no two nodes share an address *)
Definition is_tree {T} (s : aa T) (t : shape T) : Prop :=
  at_node (hp s) (sentinel s) (root s) t /\ NoDup (addrs t) /\ hp s (sentinel s) = Some (AN (sentinel s) (sentinel s) None).

Lemma at_node_ext {T} (h h' : heap T) sen : forall t n, (forall x, In x (addrs t) -> h' x = h x) -> at_node h sen n t -> at_node h' sen n t.
Proof.
  induction t as [|l IL a d r IR]; intros n E A; [exact A|]. destruct A as (-> & N & nl & nr & H & AL & AR). cbn [addrs] in E. split; [reflexivity|]. split; [exact N|]. exists nl, nr.
  split; [rewrite E; [exact H|apply in_app_iff; right; now left]|]. split; [apply IL; [intros x X; apply E; apply in_app_iff; now left|exact AL]|apply IR; [intros x X; apply E; apply in_app_iff; right; now right|exact AR]].
Qed.
Lemma not_sentinel {T} (h : heap T) sen : forall t n, at_node h sen n t -> ~ In sen (addrs t).
Proof.
  induction t as [|l IL a d r IR]; intros n A; [intros []|]. destruct A as (-> & N & nl & nr & H & AL & AR). cbn [addrs]. rewrite in_app_iff. intros [I|[I|I]]; [exact (IL _ AL I)|congruence|exact (IR _ AR I)].
Qed.
Lemma clear_ok {T} sen : forall (t : shape T) h n fuel, at_node h sen n t -> NoDup (addrs t) -> length (addrs t) < fuel ->
  exists h', clear fuel sen h n = Ok h' /\ (forall x, In x (addrs t) -> h' x = None) /\ (forall x, ~ In x (addrs t) -> h' x = h x).
Proof.
  induction t as [|l IL a d r IR]; intros h n [|fuel] A ND F; try (cbn [addrs length] in F; rewrite ?app_length in F; cbn [length] in F; lia).
  - cbn [at_node] in A. subst n. cbn [clear]. rewrite Nat.eqb_refl. exists h. split; [reflexivity|]. split; [intros x []|reflexivity].
  - destruct A as (-> & N & nl & nr & H & AL & AR). cbn [addrs] in *. rewrite app_length in F. cbn [length] in F. cbn [clear]. destruct (Nat.eqb_spec a sen) as [Q|_]; [contradiction|]. rewrite H. cbn [left].
    pose proof (NoDup_remove_2 _ _ _ ND) as NA. pose proof (NoDup_remove_1 _ _ _ ND) as ND2. rewrite in_app_iff in NA.
    assert (NL : NoDup (addrs l)) by (clear - ND2; induction (addrs l) as [|y q IH]; [constructor|]; inversion ND2; subst; constructor; [intros I; apply H1; apply in_app_iff; now left|now apply IH]).
    assert (NR : NoDup (addrs r)) by (clear - ND2; induction (addrs l) as [|y q IH]; [exact ND2|]; inversion ND2; subst; now apply IH).
    assert (DJ : forall x, In x (addrs l) -> In x (addrs r) -> False).
    { clear - ND2. induction (addrs l) as [|y q IH]; intros x I J; [destruct I|]. inversion ND2; subst. destruct I as [->|I]; [apply H1; apply in_app_iff; now right|exact (IH H2 x I J)]. }
    destruct (IL h nl fuel AL NL ltac:(lia)) as (h1 & E1 & G1 & K1). rewrite E1. cbn [bind]. rewrite (K1 a) by tauto. rewrite H. cbn [right].
    assert (AR1 : at_node h1 sen nr r) by (apply (at_node_ext h); [intros x X; apply K1; intros I; exact (DJ x I X)|exact AR]).
    destruct (IR h1 nr fuel AR1 NR ltac:(lia)) as (h2 & E2 & G2 & K2). rewrite E2. cbn [bind]. unfold release. rewrite (K2 a) by tauto. rewrite (K1 a) by tauto. rewrite H. eexists. split; [reflexivity|]. split.
    + intros x I. cbn beta. destruct (Nat.eqb_spec x a) as [_|Q]; [reflexivity|]. apply in_app_iff in I. destruct I as [I|[I|I]]; [|congruence|now apply G2]. rewrite K2 by (intros J; exact (DJ x I J)). now apply G1.
    + intros x I. cbn beta. rewrite in_app_iff in I. cbn [In] in I. destruct (Nat.eqb_spec x a) as [Q|Q]; [subst; tauto|]. rewrite K2 by tauto. apply K1. tauto.
Qed.

(** Clear releases every node of the tree once and nothing else *)
Theorem C210_clear_partial {T} (s : aa T) t fuel : is_tree s t -> length (addrs t) < fuel ->
  exists s', Clear fuel s = Ok s' /\ (forall x, In x (addrs t) -> hp s' x = None) /\ (forall x, ~ In x (addrs t) -> hp s' x = hp s x) /\ (t = Lf -> IsEmpty s' = true /\ is_tree s' t).
Proof.
  intros (A & ND & SE) F. destruct (clear_ok _ _ _ _ _ A ND F) as (h & E & G & K). unfold Clear. rewrite E. cbn [bind]. eexists. split; [reflexivity|]. cbn [hp sentinel root]. split; [exact G|]. split; [exact K|].
  intros ->. cbn [at_node] in A. unfold IsEmpty, is_tree. cbn [hp sentinel root]. rewrite A. split; [apply Nat.eqb_refl|]. split; [reflexivity|]. split; [exact ND|]. rewrite K by (intros []). exact SE.
Qed.
Print Assumptions C210_clear_partial.
(** The destructor releases every node of the tree and the sentinel, once, and nothing else *)
Theorem C210_destroy {T} (s : aa T) t fuel : is_tree s t -> length (addrs t) < fuel ->
  exists h, destroy fuel s = Ok h /\ forall x, h x = (if in_dec Nat.eq_dec x (sentinel s :: addrs t) then None else hp s x).
Proof.
  intros I F. destruct (C210_clear_partial s t fuel I F) as (s' & E & G & K & _). destruct I as (A & ND & SE). pose proof (not_sentinel _ _ _ _ A) as NS. unfold destroy. rewrite E. cbn [bind].
  assert (Q : sentinel s' = sentinel s) by (unfold Clear in E; destruct (clear _ _ _ _); try discriminate; cbn [bind] in E; injection E as <-; reflexivity). rewrite Q. unfold release. rewrite (K _ NS), SE. eexists. split; [reflexivity|].
  intros x. cbn beta. destruct (Nat.eqb_spec x (sentinel s)) as [->|N]; destruct (in_dec _ _ _) as [J|J]; try reflexivity.
  - exfalso. apply J. now left.
  - destruct J as [J|J]; [congruence|now apply G].
  - apply K. intros I. apply J. now right.
Qed.
Print Assumptions C210_destroy.
(** Refuted: after Clear a tree that had nodes is not empty, its root was released, and looking for anything, clearing it again and destroying it are undefined *)
Theorem C210_clear_refuted {T} (cmp : T -> T -> Z) (s : aa T) t fuel : is_tree s t -> t <> Lf -> length (addrs t) < fuel ->
  exists s', Clear fuel s = Ok s' /\ IsEmpty s' = false /\ GetRoot s' = Some (root s) /\ hp s' (root s) = None /\
    forall f x, Get cmp (S f) s' x = UB /\ Clear (S f) s' = UB /\ destroy (S f) s' = UB.
Proof.
  intros I NE F. destruct (C210_clear_partial s t fuel I F) as (s' & E & G & _ & _). exists s'. split; [exact E|]. destruct I as (A & _ & _). destruct t as [|l a d r]; [congruence|]. destruct A as (RA & N & _).
  assert (Q : sentinel s' = sentinel s /\ root s' = root s) by (unfold Clear in E; destruct (clear _ _ _ _); try discriminate; cbn [bind] in E; injection E as <-; split; reflexivity). destruct Q as [Q1 Q2].
  assert (RN : hp s' (root s) = None) by (rewrite RA; apply G; cbn [addrs]; apply in_app_iff; right; now left). assert (B : (root s =? sentinel s) = false) by (apply Nat.eqb_neq; congruence).
  unfold IsEmpty, GetRoot, Get, destroy, Clear. rewrite Q1, Q2. split; [exact B|]. split; [now rewrite B|]. split; [exact RN|]. intros f x. cbn [get_loop clear]. rewrite Q1, B, RN. cbn [bind]. auto.
Qed.
Print Assumptions C210_clear_refuted.
Lemma endless {T} (h : heap T) sen : h sen = Some (AN sen sen None) -> forall fuel, traverse fuel h sen = OutOfFuel.
Proof. intros H. induction fuel as [|fuel IH]; [reflexivity|]. cbn [traverse]. rewrite H. cbn [left]. rewrite IH. reflexivity. Qed.
(** Refuted: Traverse never ends, whatever the tree *)
Theorem C210_traverse_refuted {T} (s : aa T) t : is_tree s t -> forall fuel, Traverse fuel s = OutOfFuel.
Proof.
  intros (A & _ & SE) fuel. unfold Traverse. revert A. generalize (root s). revert fuel. induction t as [|l IL a d r IR]; intros fuel n A.
  - cbn [at_node] in A. subst n. now apply endless.
  - destruct A as (-> & _ & nl & nr & H & AL & _). destruct fuel as [|fuel]; [reflexivity|]. cbn [traverse]. rewrite H. cbn [left]. rewrite (IL fuel nl AL). reflexivity.
Qed.
Print Assumptions C210_traverse_refuted.

(** the tree holds the item d at the address a *)
Fixpoint holds {T} (t : shape T) (a : nat) (d : T) : Prop := match t with Lf => False | Nd l b e r => holds l a d \/ (a = b /\ d = e) \/ holds r a d end.
(** the items to the left of an item are smaller, those to the right are not *)
Fixpoint ordered {T} (cmp : T -> T -> Z) (t : shape T) : Prop :=
  match t with Lf => True | Nd l _ d r => (forall b e, holds l b e -> cmp e d = -1)%Z /\ (forall b e, holds r b e -> cmp e d <> -1)%Z /\ ordered cmp l /\ ordered cmp r end.
(** Get gives a node of the tree whose item is equal to the one looked for, and null only if there is none *)
Theorem C210_get {T} (cmp : T -> T -> Z) (s : aa T) t x fuel : (forall a b, cmp a b = -1 \/ cmp a b = 0 \/ cmp a b = 1)%Z -> (forall a b c, cmp a b = 0%Z -> cmp a c = cmp b c) ->
  is_tree s t -> ordered cmp t -> length (addrs t) < fuel ->
  (exists a d, Get cmp fuel s x = Ok (Some a) /\ holds t a d /\ cmp x d = 0%Z) \/ (Get cmp fuel s x = Ok None /\ forall a d, holds t a d -> cmp x d <> 0%Z).
Proof.
  intros C3 CC (A & _ & _). unfold Get. revert A. generalize (root s). revert fuel. induction t as [|l IL a d r IR]; intros [|fuel] n A O F; try (cbn [addrs length] in F; rewrite ?app_length in F; cbn [length] in F; lia).
  - cbn [at_node] in A. subst n. right. cbn [get_loop]. rewrite Nat.eqb_refl. split; [reflexivity|intros a d []].
  - destruct A as (-> & N & nl & nr & H & AL & AR). destruct O as (OL & OR & SL & SR). cbn [addrs] in F. rewrite app_length in F. cbn [length] in F. cbn [get_loop]. destruct (Nat.eqb_spec a (sentinel s)) as [Q|_]; [contradiction|]. rewrite H.
    destruct (C3 x d) as [E|[E|E]]; rewrite E; cbn [Z.eqb Pos.eqb].
    + destruct (IL fuel nl AL SL ltac:(lia)) as [(b & e & G & K & Q)|(G & K)]; [left; exists b, e; cbn [holds]; auto|]. right. split; [exact G|]. intros b e [B|[[_ ->]|B]] Q; [exact (K b e B Q)|congruence|]. apply (OR b e B). rewrite <- (CC x e d Q). exact E.
    + left. exists a, d. cbn [holds]. split; [reflexivity|]. split; [right; left; split; reflexivity|exact E].
    + destruct (IR fuel nr AR SR ltac:(lia)) as [(b & e & G & K & Q)|(G & K)]; [left; exists b, e; cbn [holds]; auto|]. right. split; [exact G|]. intros b e [B|[[_ ->]|B]] Q; [|congruence|exact (K b e B Q)]. pose proof (OL b e B) as W. rewrite <- (CC x e d Q) in W. congruence.
Qed.
Print Assumptions C210_get.

(** three nodes at the addresses 1, 2 and 3, with the sentinel at 0 *)
Definition ex_tree : aa Z := AA (fun x => match x with 0 => Some (AN 0 0 None) | 1 => Some (AN 0 0 (Some 10%Z)) | 2 => Some (AN 1 3 (Some 20%Z)) | 3 => Some (AN 0 0 (Some 30%Z)) | _ => None end) 0 2.
Definition ex_cmp (a b : Z) : Z := match Z.compare a b with Lt => -1 | Gt => 1 | Eq => 0 end%Z.
Example C210_example : is_tree ex_tree (Nd (Nd Lf 1 10%Z Lf) 2 20%Z (Nd Lf 3 30%Z Lf)) /\ ordered ex_cmp (Nd (Nd Lf 1 10%Z Lf) 2 20%Z (Nd Lf 3 30%Z Lf)) /\ Get ex_cmp 4 ex_tree 30%Z = Ok (Some 3) /\ Get ex_cmp 4 ex_tree 25%Z = Ok None /\
  (exists s', Clear 4 ex_tree = Ok s' /\ hp s' 0 <> None /\ hp s' 1 = None /\ hp s' 2 = None /\ hp s' 3 = None /\ IsEmpty s' = false /\ destroy 4 s' = UB) /\ Traverse 50 ex_tree = OutOfFuel.
Proof.
  split.
  - split; [|split; [|reflexivity]].
    + cbn [at_node]. split; [reflexivity|]. split; [discriminate|]. exists 1, 3. split; [reflexivity|]. split; (split; [reflexivity|]; split; [discriminate|]; exists 0, 0; repeat split).
    + cbn [addrs app]. repeat constructor; cbn; intuition discriminate.
  - split.
    { cbn [ordered holds]. repeat split; try (intros b e []; try contradiction; intuition subst; try reflexivity; discriminate); auto; intros b e; cbn [holds]; intuition subst; try reflexivity; discriminate. }
    split; [reflexivity|]. split; [reflexivity|]. split; [|reflexivity]. eexists. split; [reflexivity|]. repeat split; discriminate.
Qed.
