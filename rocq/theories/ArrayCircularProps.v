(* Property C27: ArrayCircular is a bounded deque and Queue is an unbounded FIFO. *)
From Coq Require Import List ZArith Bool Lia.
From Coq Require Import ZifyBool ZifyNat.
From Verif Require Import Common Growth DynArray ArrayCircular.
Import ListNotations.
Local Open Scope Z_scope.

(* ---- specification, in terms of what the API shows ---- *)
Section Spec.
Context {T : Type} (m : mode).

(* the array of capacity c holds l, newest first *)
Definition holds (s : circ T) (c : nat) (l : list T) : Prop :=
  capacity s = Z.of_nat c /\ clen s = Z.of_nat (length l) /\
  (forall k v, nth_error l k = Some v -> At s (Z.of_nat k) = Ok v) /\
  (forall v, hd_error l = Some v -> Front s = Ok v) /\
  (forall l' v, l = l' ++ [v] -> Back s = Ok v) /\
  (* when full, negative indices count from the oldest *)
  (length l = c -> forall k v, nth_error (rev l) k = Some v -> At s (- 1 - Z.of_nat k) = Ok v).

Definition valid (o : circ_op T) (c : nat) (l : list T) : Prop :=
  match o with
  | CPush _ => (0 < c)%nat
  | CPop | CPopBack => l <> []
  | CAssign _ => m <> MOVE
  | _ => True
  end.
(* what an operation returns and leaves *)
Definition effect (o : circ_op T) (c : nat) (l : list T) (r : option T) (c' : nat) (l' : list T) : Prop :=
  match o with
  | CPush v => r = None /\ c' = c /\ l' = firstn c (v :: l)
  | CPop => exists v, r = Some v /\ c' = c /\ l = v :: l'
  | CPopBack => exists v, r = Some v /\ c' = c /\ l = l' ++ [v]
  | CClear => r = None /\ c' = c /\ l' = []
  | CSetCapacity n => r = None /\ c' = n /\ l' = if (n <? c)%nat then [] else l
  | CAssign o | CMoveAssign o => r = None /\ holds o c' l'
  end.
(* objects obtained by valid calls *)
Inductive reachable : circ T -> Prop :=
| r_new c : reachable (new_circ c)
| r_step s o s' r c l : reachable s -> holds s c l -> valid o c l ->
    (forall x, o = CAssign x \/ o = CMoveAssign x -> reachable x) ->
    circ_step m s o = Ok (r, s') -> reachable s'.

(* queues: oldest first *)
Definition queue_holds (s : circ T) (q : list T) : Prop :=
  clen s = Z.of_nat (length q) /\ (forall v q', q = v :: q' -> q_peek s = Ok v).
Definition q_valid (o : q_op T) (q : list T) : Prop :=
  match o with QPop => q <> [] | QDiscard => q <> [] /\ m = SIMPLE | _ => True end.
Definition q_effect (o : q_op T) (q : list T) (r : option T) (q' : list T) : Prop :=
  match o with
  | QPush v => r = None /\ q' = q ++ [v]
  | QPop => exists v, r = Some v /\ q = v :: q'
  | QDiscard => exists v, r = None /\ q = v :: q'
  | QClear => r = None /\ q' = []
  end.
Inductive q_run : circ T -> list T -> list (q_op T) -> list (option T) -> circ T -> list T -> Prop :=
| q_nil s q : q_run s q [] [] s q
| q_cons s q o r s1 q1 ops outs s2 q2 : q_valid o q -> q_step m s o = Ok (r, s1) -> q_effect o q r q1 ->
    q_run s1 q1 ops outs s2 q2 -> q_run s q (o :: ops) (r :: outs) s2 q2.
End Spec.

(* ---- proofs ---- *)
Section Proofs.
Context {T : Type} (m : mode).
Notation cell := (cell T).
Notation simple := (is_simple m = true).

(* index of the k-th newest slot, and also the age of slot k *)
Definition posn (c cu k : Z) : Z := if k <=? cu then cu - k else cu - k + c.
Definition okcell (x : cell) (l : list T) (a : Z) : Prop :=
  match nth_error l (Z.to_nat a) with Some v => x = Val v | None => is_simple m = false -> x = Raw end.
Definition inv (s : circ T) (l : list T) : Prop :=
  clen s = Z.of_nat (length l) /\ clen s <= capacity s /\ -1 <= cur s < Z.max 1 (capacity s) /\ (cur s = -1 -> l = []) /\
  (capacity s = 0 -> cur s = -1) /\
  forall p, (p < length (slots s))%nat -> exists x, nth_error (slots s) p = Some x /\ okcell x l (posn (capacity s) (cur s) (Z.of_nat p)).

Lemma mod_case x n : 0 < n -> - n <= x < n -> x mod n = if x <? 0 then x + n else x.
Proof.
  intros Hn Hx. destruct (Z.ltb_spec x 0).
  - rewrite <- (Z.mod_small (x + n) n) by lia. rewrite <- (Z_mod_plus_full x 1 n). f_equal. lia.
  - apply Z.mod_small. lia.
Qed.
Lemma rem_case x n : 0 < n -> 0 <= x <= n -> Z.rem x n = if x =? n then 0 else x.
Proof.
  intros Hn Hx. destruct (Z.eqb_spec x n) as [->|].
  - apply Z.rem_same. lia.
  - apply Z.rem_small. lia.
Qed.
Lemma idx_ok z : 0 <= z -> idx z = Ok (Z.to_nat z).
Proof. intros H. unfold idx. replace (z <? 0) with false by lia. reflexivity. Qed.
Lemma bmod_ok x n : 0 < n -> bmod x n = Ok (x mod n).
Proof. intros H. unfold bmod. replace (n <=? 0) with false by lia. reflexivity. Qed.

Lemma okcell_live x l a v : okcell x l a -> nth_error l (Z.to_nat a) = Some v -> x = Val v.
Proof. unfold okcell. intros H E. now rewrite E in H. Qed.
Lemma okcell_dead x l a : okcell x l a -> Z.of_nat (length l) <= a -> is_simple m = false -> x = Raw.
Proof. unfold okcell. intros H L. destruct (nth_error l (Z.to_nat a)) eqn:E; auto. apply nth_error_lt in E. lia. Qed.
Lemma dead_ok l a : Z.of_nat (length l) <= a -> okcell Raw l a.
Proof. intros L. unfold okcell. destruct (nth_error l (Z.to_nat a)) eqn:E; auto. apply nth_error_lt in E. lia. Qed.

Lemma posn_posn c cu k : 0 <= cu < c -> 0 <= k < c -> posn c cu (posn c cu k) = k.
Proof. intros H1 H2. unfold posn. destruct (Z.leb_spec k cu); match goal with |- context [if ?b then _ else _] => destruct b eqn:? end; lia. Qed.
Lemma inv_cell s l k v : inv s l -> nth_error l k = Some v ->
  0 <= posn (capacity s) (cur s) (Z.of_nat k) < capacity s /\
  nth_error (slots s) (Z.to_nat (posn (capacity s) (cur s) (Z.of_nat k))) = Some (Val v).
Proof.
  intros (I1 & I2 & I3 & I4 & I5 & I6) E. pose proof (nth_error_lt _ _ _ E) as L.
  assert (cur s <> -1) by (intro H; rewrite (I4 H) in L; cbn in L; lia).
  set (p := posn _ _ _) in *. assert (P : 0 <= p < capacity s) by (subst p; unfold posn in *; destruct (Z.leb_spec (Z.of_nat k) (cur s)); lia).
  split; [exact P|]. destruct (I6 (Z.to_nat p)) as (x & X1 & X2); [unfold capacity in *; lia|]. rewrite X1.
  f_equal. apply (okcell_live _ _ _ v X2). rewrite <- E. f_equal. rewrite Z2Nat.id by lia. subst p. rewrite posn_posn by lia. lia.
Qed.

Lemma modIndex_ok s l k v : inv s l -> nth_error l k = Some v -> modIndex s (Z.of_nat k) = Ok (posn (capacity s) (cur s) (Z.of_nat k)).
Proof.
  intros I E. destruct (inv_cell s l k v I E) as (P & _). destruct I as (I1 & I2 & I3 & _). pose proof (nth_error_lt _ _ _ E).
  unfold modIndex. rewrite bmod_ok by lia. rewrite mod_case by lia. f_equal. unfold posn.
  destruct (Z.leb_spec (Z.of_nat k) (cur s)); destruct (Z.ltb_spec (cur s - Z.of_nat k) 0); lia.
Qed.
Lemma At_ok s l k v : inv s l -> nth_error l k = Some v -> At s (Z.of_nat k) = Ok v.
Proof.
  intros I E. unfold At. rewrite (modIndex_ok s l k v I E). cbn [bind].
  destruct (inv_cell s l k v I E) as (P & C). rewrite idx_ok by lia. cbn [bind]. now rewrite (get_some _ _ _ C).
Qed.
Lemma nth_error_snoc {A} (l : list A) v : nth_error (l ++ [v]) (length l) = Some v.
Proof. rewrite nth_error_app2 by lia. now rewrite Nat.sub_diag. Qed.
Lemma nth_error_rev {A} (l : list A) k v : nth_error (rev l) k = Some v -> nth_error l (length l - 1 - k) = Some v.
Proof.
  revert k. induction l as [|a l IH]; intros k E; [now destruct k|]. cbn [rev] in E.
  pose proof (nth_error_lt _ _ _ E) as L. rewrite app_length, rev_length in L. cbn [length] in *.
  destruct (Nat.lt_ge_cases k (length l)).
  - rewrite nth_error_app1 in E by (rewrite rev_length; lia). apply IH in E.
    replace (S (length l) - 1 - k)%nat with (S (length l - 1 - k)) by lia. exact E.
  - rewrite nth_error_app2 in E by (rewrite rev_length; lia). rewrite rev_length in E.
    replace (k - length l)%nat with O in E by lia. cbn in E. replace (S (length l) - 1 - k)%nat with O by lia. exact E.
Qed.

Lemma inv_holds s l : inv s l -> holds s (length (slots s)) l.
Proof.
  intros I. pose proof I as (I1 & I2 & I3 & I4 & I5 & I6). repeat split.
  - exact I1.
  - intros k v E. now apply (At_ok s l).
  - intros v E. destruct l as [|a l]; [discriminate|]. injection E as ->. unfold Front.
    destruct (inv_cell s _ 0 v I eq_refl) as (P & C). cbn [length] in I1. replace (0 <? clen s) with true by lia. cbn [negb].
    assert (0 <= cur s) by (destruct (Z.eq_dec (cur s) (-1)) as [H|]; [discriminate (I4 H)|lia]).
    unfold posn in C. cbn [Z.of_nat] in C. replace (0 <=? cur s) with true in C by lia. rewrite Z.sub_0_r in C.
    rewrite idx_ok by lia. cbn [bind]. now rewrite (get_some _ _ _ C).
  - intros l' v ->. unfold Back. rewrite app_length in I1. cbn [length] in I1. replace (0 <? clen s) with true by lia. cbn [negb].
    replace (clen s - 1) with (Z.of_nat (length l')) by lia. apply (At_ok s _ _ v I). apply nth_error_snoc.
  - intros F k v E. pose proof (nth_error_lt _ _ _ E) as L. rewrite rev_length in L. apply nth_error_rev in E.
    pose proof (At_ok s l _ v I E) as H. unfold At, modIndex in *. revert H.
    assert (0 < capacity s) by (unfold capacity; lia). rewrite !bmod_ok by lia. cbn [bind].
    replace ((cur s - (-1 - Z.of_nat k)) mod capacity s) with ((cur s - Z.of_nat (length l - 1 - k)) mod capacity s); [auto|].
    rewrite <- (Z_mod_plus_full (cur s - Z.of_nat (length l - 1 - k)) 1 (capacity s)). f_equal. unfold capacity. lia.
Qed.

Lemma holds_fun (s : circ T) c c' l l' : holds s c l -> holds s c' l' -> c = c' /\ l = l'.
Proof.
  intros (A1 & A2 & A3 & _) (B1 & B2 & B3 & _). split; [lia|].
  apply nth_error_ext_lt; [lia|]. intros k Hk.
  destruct (nth_error_ex l k) as (v & E); [lia|]. destruct (nth_error_ex l' k) as (v' & E'); [lia|].
  rewrite E, E'. pose proof (A3 _ _ E). pose proof (B3 _ _ E'). congruence.
Qed.

Lemma inv_new c : inv (new_circ c) [].
Proof.
  unfold inv, capacity, new_circ. cbn [clen cur slots length]. rewrite repeat_length.
  repeat split; auto; try lia. intros p Hp. exists Raw. split; [now apply nth_error_repeat|]. apply dead_ok. cbn. unfold posn. destruct (_ <=? _) eqn:?; lia.
Qed.

Lemma push_ok s l v : inv s l -> 0 < capacity s -> exists s', circ_push m s v = Ok s' /\
  length (slots s') = length (slots s) /\ inv s' (firstn (length (slots s)) (v :: l)).
Proof.
  intros (I1 & I2 & I3 & I4 & I5 & I6) HC. unfold circ_push. replace (capacity s =? 0) with false by lia. rewrite rem_case by lia.
  set (c := if cur s + 1 =? capacity s then 0 else cur s + 1).
  assert (C : 0 <= c < capacity s) by (subst c; destruct (Z.eqb_spec (cur s + 1) (capacity s)); lia).
  rewrite idx_ok by lia. cbn [bind]. assert (CL : (Z.to_nat c < length (slots s))%nat) by (unfold capacity in *; lia).
  destruct (I6 (Z.to_nat c) CL) as (x & X1 & X2).
  assert (G : forall n, n = Z.of_nat (length (firstn (length (slots s)) (v :: l))) ->
    inv {| slots := upd (slots s) (Z.to_nat c) (Val v); cur := c; clen := n |} (firstn (length (slots s)) (v :: l))).
  { intros n ->. unfold inv, capacity. cbn [slots cur clen]. rewrite upd_length. fold (capacity s).
    rewrite firstn_length. cbn [length]. unfold capacity in *. repeat split; try lia.
    intros p Hp. rewrite nth_error_upd. destruct (Nat.eqb_spec p (Z.to_nat c)) as [->|NE].
    - replace (Z.to_nat c <? length (slots s))%nat with true by lia. exists (Val v).
      split; [now try rewrite Nat.eqb_refl|]. unfold okcell. replace (posn _ _ _) with 0 by (unfold posn; destruct (_ <=? _) eqn:?; lia).
      destruct (length (slots s)); [lia|]. reflexivity.
    - destruct (I6 p Hp) as (y & Y1 & Y2). exists y. split; [try (replace (Z.to_nat c =? p)%nat with false by lia); exact Y1|].
      set (a := posn (Z.of_nat (length (slots s))) (cur s) (Z.of_nat p)) in *.
      assert (A : posn (Z.of_nat (length (slots s))) c (Z.of_nat p) = a + 1 /\ 0 <= a < Z.of_nat (length (slots s)) - 1).
      { subst a. unfold posn, capacity in *. subst c.
        destruct (Z.eqb_spec (cur s + 1) (Z.of_nat (length (slots s)))); destruct (Z.leb_spec (Z.of_nat p) (cur s));
        match goal with |- context [if ?b then _ else _] => destruct b eqn:? end; lia. }
      destruct A as (A1 & A2). rewrite A1. unfold okcell in *. rewrite nth_error_firstn.
      replace (Z.to_nat (a + 1) <? length (slots s))%nat with true by lia. replace (Z.to_nat (a + 1)) with (S (Z.to_nat a)) by lia. exact Y2. }
  destruct (Z.ltb_spec (clen s) (capacity s)).
  - unfold construct. rewrite (get_some _ _ _ X1). cbn [bind].
    assert (R : is_simple m || is_raw x = true).
    { destruct (is_simple m) eqn:S; [reflexivity|]. rewrite (okcell_dead _ _ _ X2); auto.
      unfold posn. subst c. destruct (Z.eqb_spec (cur s + 1) (capacity s)); match goal with |- context [if ?b then _ else _] => destruct b eqn:? end; lia. }
    rewrite R, set_ok by auto. cbn [bind]. eexists. split; [reflexivity|]. cbn [slots]. rewrite upd_length. split; [reflexivity|].
    apply G. rewrite firstn_length. cbn [length]. unfold capacity in *. lia.
  - unfold assign. rewrite (get_some _ _ _ X1). cbn [bind].
    assert (R : is_raw x = false).
    { destruct (nth_error_ex l (Z.to_nat (posn (capacity s) (cur s) (Z.of_nat (Z.to_nat c))))) as (w & W).
      - unfold posn. subst c. destruct (Z.eqb_spec (cur s + 1) (capacity s)); match goal with |- context [if ?b then _ else _] => destruct b eqn:? end; lia.
      - now rewrite (okcell_live _ _ _ _ X2 W). }
    rewrite R, set_ok by auto. cbn [bind]. eexists. split; [reflexivity|]. cbn [slots]. rewrite upd_length. split; [reflexivity|].
    apply G. rewrite firstn_length. cbn [length]. unfold capacity in *. lia.
Qed.

Lemma take_ok (a : list cell) i v : nth_error a i = Some (Val v) ->
  (do (r, a1) <- move_out a i; do a2 <- destroy a1 i; Ok (r, a2)) = Ok (v, upd a i Raw).
Proof.
  intros E. pose proof (nth_error_lt _ _ _ E) as L. unfold move_out. rewrite (get_some _ _ _ E). cbn [bind]. rewrite set_ok by auto. cbn [bind].
  unfold destroy. rewrite (get_some _ i Husk) by now apply nth_error_upd_eq. cbn [bind is_raw]. rewrite set_ok by now rewrite upd_length. cbn [bind].
  now rewrite upd_upd.
Qed.

Lemma pop_ok s l v : inv s (v :: l) -> exists s', circ_pop s = Ok (v, s') /\ length (slots s') = length (slots s) /\ inv s' l.
Proof.
  intros I. destruct (inv_cell s _ 0 v I eq_refl) as (P & C). pose proof I as (I1 & I2 & I3 & I4 & I5 & I6).
  cbn [length] in I1. assert (CU : 0 <= cur s) by (destruct (Z.eq_dec (cur s) (-1)) as [H|]; [discriminate (I4 H)|lia]).
  unfold posn in C. cbn [Z.of_nat] in C. replace (0 <=? cur s) with true in C by lia. rewrite Z.sub_0_r in C.
  unfold circ_pop. replace (0 <? clen s) with true by lia. cbn [negb]. rewrite idx_ok by lia. cbn [bind].
  pose proof (take_ok _ _ _ C) as TK. destruct (move_out (slots s) (Z.to_nat (cur s))) as [[r a1]| |]; cbn [bind] in *; try discriminate.
  destruct (destroy a1 (Z.to_nat (cur s))) as [a2| |]; cbn [bind] in *; try discriminate. injection TK as -> ->.
  rewrite bmod_ok by lia. cbn [bind]. rewrite mod_case by lia. eexists. split; [reflexivity|]. cbn [slots]. rewrite upd_length. split; [reflexivity|].
  set (c := if cur s - 1 <? 0 then cur s - 1 + capacity s else cur s - 1).
  assert (HC : 0 <= c < capacity s) by (subst c; destruct (Z.ltb_spec (cur s - 1) 0); lia).
  unfold inv, capacity. cbn [slots cur clen]. rewrite upd_length. fold (capacity s). unfold capacity in *. repeat split; try lia.
  intros p Hp. rewrite nth_error_upd. destruct (Nat.eqb_spec p (Z.to_nat (cur s))) as [->|NE].
  - replace (Z.to_nat (cur s) <? length (slots s))%nat with true by lia. exists Raw. split; [now try rewrite Nat.eqb_refl|].
    apply dead_ok. unfold posn. subst c. destruct (Z.ltb_spec (cur s - 1) 0); match goal with |- context [if ?b then _ else _] => destruct b eqn:? end; lia.
  - destruct (I6 p Hp) as (y & Y1 & Y2). exists y. split; [try (replace (Z.to_nat (cur s) =? p)%nat with false by lia); exact Y1|].
    set (a := posn (Z.of_nat (length (slots s))) c (Z.of_nat p)) in *.
    assert (A : posn (Z.of_nat (length (slots s))) (cur s) (Z.of_nat p) = a + 1 /\ 0 <= a).
    { subst a. unfold posn, capacity in *. subst c.
      destruct (Z.ltb_spec (cur s - 1) 0); repeat match goal with |- context [if ?b then _ else _] => destruct b eqn:? end; lia. }
    destruct A as (A1 & A2). rewrite A1 in Y2. unfold okcell in *. replace (Z.to_nat (a + 1)) with (S (Z.to_nat a)) in Y2 by lia. exact Y2.
Qed.

Lemma popback_ok s l v : inv s (l ++ [v]) -> exists s', circ_popback s = Ok (v, s') /\ length (slots s') = length (slots s) /\ inv s' l.
Proof.
  intros I. pose proof (nth_error_snoc l v) as E. destruct (inv_cell s _ _ v I E) as (P & C). pose proof I as (I1 & I2 & I3 & I4 & I5 & I6).
  rewrite app_length in I1. cbn [length] in I1. assert (CU : 0 <= cur s) by (destruct (Z.eq_dec (cur s) (-1)) as [H|]; [now destruct l; discriminate (I4 H)|lia]).
  unfold circ_popback. replace (0 <? clen s) with true by lia. cbn [negb]. replace (clen s - 1) with (Z.of_nat (length l)) by lia.
  rewrite (modIndex_ok s _ _ v I E). cbn [bind]. set (q := posn _ _ (Z.of_nat (length l))) in *. rewrite idx_ok by lia. cbn [bind].
  pose proof (take_ok _ _ _ C) as TK. destruct (move_out (slots s) (Z.to_nat q)) as [[r a1]| |]; cbn [bind] in *; try discriminate.
  destruct (destroy a1 (Z.to_nat q)) as [a2| |]; cbn [bind] in *; try discriminate. injection TK as -> ->.
  eexists. split; [reflexivity|]. cbn [slots]. rewrite upd_length. split; [reflexivity|].
  unfold inv, capacity. cbn [slots cur clen]. rewrite upd_length. fold (capacity s). unfold capacity in *. repeat split; try lia.
  intros p Hp. rewrite nth_error_upd. 
  assert (Q : posn (Z.of_nat (length (slots s))) (cur s) (Z.of_nat (Z.to_nat q)) = Z.of_nat (length l)).
  { subst q. unfold posn in *. destruct (Z.leb_spec (Z.of_nat (length l)) (cur s)); match goal with |- context [if ?b then _ else _] => destruct b eqn:? end; lia. }
  destruct (Nat.eqb_spec p (Z.to_nat q)) as [->|NE].
  - replace (Z.to_nat q <? length (slots s))%nat with true by lia. exists Raw. split; [now try rewrite Nat.eqb_refl|].
    apply dead_ok. rewrite Q. lia.
  - destruct (I6 p Hp) as (y & Y1 & Y2). exists y. split; [try (replace (Z.to_nat q =? p)%nat with false by lia); exact Y1|].
    set (a := posn _ (cur s) (Z.of_nat p)) in *.
    assert (A : 0 <= a /\ a <> Z.of_nat (length l)).
    { subst a q. unfold posn in *. repeat match goal with |- context [if ?b then _ else _] => destruct b eqn:? end; try lia;
      destruct (Z.leb_spec (Z.of_nat (length l)) (cur s)); lia. }
    unfold okcell in *. destruct (Z.lt_ge_cases a (Z.of_nat (length l))).
    + rewrite nth_error_app1 in Y2 by lia. exact Y2.
    + assert (N1 : nth_error (l ++ [v]) (Z.to_nat a) = None) by (apply nth_error_None; rewrite app_length; cbn; lia).
      assert (N2 : nth_error l (Z.to_nat a) = None) by (apply nth_error_None; lia). rewrite N1 in Y2. rewrite N2. exact Y2.
Qed.

(* ranges *)
Definition inr (p from n : nat) : bool := ((from <=? p) && (p <? from + n))%nat.
Lemma destroy_range_pt : forall n (a : list cell) from, (forall p, inr p from n = true -> exists x, nth_error a p = Some x /\ is_raw x = false) ->
  exists a', destroy_range a from n = Ok a' /\ length a' = length a /\ forall p, nth_error a' p = if inr p from n then Some Raw else nth_error a p.
Proof.
  induction n as [|n IH]; intros a from H.
  - exists a. repeat split; auto. intros p. unfold inr. replace ((from <=? p) && _)%nat with false by lia. reflexivity.
  - cbn [destroy_range]. destruct (H from) as (x & X1 & X2); [unfold inr; lia|]. pose proof (nth_error_lt _ _ _ X1) as L.
    unfold destroy. rewrite (get_some _ _ _ X1). cbn [bind]. rewrite X2, set_ok by auto. cbn [bind].
    destruct (IH (upd a from Raw) (S from)) as (a' & E & E1 & E2).
    { intros p Hp. destruct (H p) as (y & Y1 & Y2); [unfold inr in *; lia|]. exists y. split; auto.
      rewrite nth_error_upd_neq; auto. unfold inr in Hp. lia. }
    exists a'. split; auto. rewrite upd_length in E1. split; auto. intros p. rewrite E2, nth_error_upd.
    unfold inr. destruct (Nat.eqb_spec p from) as [->|NE].
    + replace ((S from <=? from) && _)%nat with false by lia. replace ((from <=? from) && (from <? from + S n))%nat with true by lia.
      replace (from <? length a)%nat with true by lia. now try rewrite Nat.eqb_refl.
    + replace ((from <=? p) && (p <? from + S n))%nat with ((S from <=? p) && (p <? S from + n))%nat by lia.
      try (replace (from =? p)%nat with false by lia). reflexivity.
Qed.
Lemma end_range_pt (a : list cell) from n : 0 <= from -> 0 <= n ->
  (is_simple m = false -> forall p, inr p (Z.to_nat from) (Z.to_nat n) = true -> exists x, nth_error a p = Some x /\ is_raw x = false) ->
  exists a', end_range m a from n = Ok a' /\ length a' = length a /\
    (is_simple m = false -> forall p, nth_error a' p = if inr p (Z.to_nat from) (Z.to_nat n) then Some Raw else nth_error a p).
Proof.
  intros Hf Hn H. unfold end_range. destruct (is_simple m) eqn:S.
  - exists a. repeat split; auto. discriminate.
  - rewrite idx_ok by lia. cbn [bind]. destruct (destroy_range_pt (Z.to_nat n) a (Z.to_nat from) (H eq_refl)) as (a' & E & E1 & E2). eauto.
Qed.

Lemma live_notraw s l p : inv s l -> (p < length (slots s))%nat -> posn (capacity s) (cur s) (Z.of_nat p) < Z.of_nat (length l) ->
  exists x v, nth_error (slots s) p = Some x /\ x = Val v /\ nth_error l (Z.to_nat (posn (capacity s) (cur s) (Z.of_nat p))) = Some v /\
   0 <= posn (capacity s) (cur s) (Z.of_nat p).
Proof.
  intros (I1 & I2 & I3 & I4 & I5 & I6) Hp H. destruct (I6 p Hp) as (x & X1 & X2).
  assert (0 <= posn (capacity s) (cur s) (Z.of_nat p)) by (unfold posn, capacity in *; destruct (_ <=? _) eqn:?; lia).
  destruct (nth_error_ex l (Z.to_nat (posn (capacity s) (cur s) (Z.of_nat p)))) as (v & V); [lia|].
  exists x, v. split; auto. split; [now apply (okcell_live _ _ _ _ X2)|]. auto.
Qed.
Ltac range_live I := let HH := fresh in let Hp := fresh in intros _ ? Hp; unfold inr in Hp;
  match goal with |- exists x, nth_error (slots ?s) ?p = _ /\ _ =>
    destruct (live_notraw s _ p I) as (? & ? & ? & -> & _); [unfold capacity in *; lia|unfold posn, capacity in *; destruct (_ <=? _) eqn:?; lia|eauto] end.

Lemma clear_ok s l : inv s l -> exists s', circ_clear m s = Ok s' /\ length (slots s') = length (slots s) /\ inv s' [] /\
  cur s' = -1 /\ clen s' = 0 /\ (is_simple m = false -> forall p, (p < length (slots s))%nat -> nth_error (slots s') p = Some Raw).
Proof.
  intros I. pose proof I as (I1 & I2 & I3 & I4 & I5 & I6). unfold circ_clear.
  assert (G : exists a, (if clen s =? capacity s then end_range m (slots s) 0 (clen s)
     else if -1 <=? cur s - clen s then end_range m (slots s) (cur s - clen s + 1) (clen s)
     else do i <- modIndex s (clen s - 1); do a1 <- end_range m (slots s) i (capacity s - i); end_range m a1 0 (cur s + 1)) = Ok a /\
     length a = length (slots s) /\ (is_simple m = false -> forall p, (p < length (slots s))%nat -> nth_error a p = Some Raw)).
  { destruct (Z.eqb_spec (clen s) (capacity s)) as [F|F]; [|destruct (Z.leb_spec (-1) (cur s - clen s)) as [K|K]].
    - destruct (end_range_pt (slots s) 0 (clen s)) as (a & E & E1 & E2); [lia|lia|range_live I|].
      exists a. repeat split; auto. intros S p Hp. rewrite E2 by auto. unfold inr, capacity in *.
      replace ((Z.to_nat 0 <=? p) && _)%nat with true by lia. reflexivity.
    - destruct (end_range_pt (slots s) (cur s - clen s + 1) (clen s)) as (a & E & E1 & E2); [lia|lia|range_live I|].
      exists a. repeat split; auto. intros S p Hp. rewrite E2 by auto. unfold inr.
      destruct ((Z.to_nat (cur s - clen s + 1) <=? p) && _)%nat eqn:B; [reflexivity|].
      destruct (I6 p Hp) as (x & X1 & X2). rewrite X1. f_equal. apply (okcell_dead _ _ _ X2); auto.
      unfold posn, capacity in *. destruct (_ <=? _) eqn:?; lia.
    - assert (M : modIndex s (clen s - 1) = Ok (cur s - clen s + 1 + capacity s)).
      { unfold modIndex. rewrite bmod_ok by lia. rewrite mod_case by lia. replace (cur s - (clen s - 1) <? 0) with true by lia. f_equal. lia. }
      rewrite M. cbn [bind].
      destruct (end_range_pt (slots s) (cur s - clen s + 1 + capacity s) (capacity s - (cur s - clen s + 1 + capacity s))) as (a & E & E1 & E2); [lia|lia|range_live I|].
      rewrite E. cbn [bind].
      destruct (end_range_pt a 0 (cur s + 1)) as (a' & F1 & F2 & F3); [lia|lia| |].
      { intros S p Hp. rewrite E2 by auto. unfold inr in *. replace ((Z.to_nat (cur s - clen s + 1 + capacity s) <=? p) && _)%nat with false by lia.
        destruct (live_notraw s _ p I) as (? & ? & ? & -> & _); [unfold capacity in *; lia|unfold posn, capacity in *; destruct (_ <=? _) eqn:?; lia|eauto]. }
      exists a'. repeat split; auto; [congruence|]. intros S p Hp. rewrite F3, E2 by auto. unfold inr.
      destruct ((Z.to_nat 0 <=? p) && _)%nat eqn:B1; [reflexivity|].
      destruct ((Z.to_nat (cur s - clen s + 1 + capacity s) <=? p) && _)%nat eqn:B2; [reflexivity|].
      destruct (I6 p Hp) as (x & X1 & X2). rewrite X1. f_equal. apply (okcell_dead _ _ _ X2); auto.
      unfold posn, capacity in *. destruct (_ <=? _) eqn:?; lia. }
  destruct G as (a & -> & G1 & G2). cbn [bind]. eexists. split; [reflexivity|]. cbn [slots cur clen]. split; [exact G1|]. split; [|auto].
  unfold inv, capacity. cbn [slots cur clen length]. rewrite G1. repeat split; auto; try lia.
  intros p Hp. destruct (nth_error_ex a p) as (x & X); [lia|]. exists x. split; auto.
  unfold okcell. replace (nth_error [] _) with (@None T) by now destruct (Z.to_nat _). intros S. rewrite (G2 S p) in X by auto. congruence.
Qed.

Lemma release_raw (a : list cell) : (is_simple m = false -> forall p, (p < length a)%nat -> nth_error a p = Some Raw) -> release m a = Ok tt.
Proof.
  intros H. unfold release. destruct (is_simple m) eqn:S; [reflexivity|]. cbn [orb].
  replace (forallb is_raw a) with true; [reflexivity|]. symmetry. apply forallb_forall. intros x Hx. apply In_nth_error in Hx as (p & E).
  rewrite H in E by (auto; eapply nth_error_lt; eauto). injection E as <-. reflexivity.
Qed.

(* relocation *)
Definition isval (x : cell) : Prop := exists v, x = Val v.
Lemma move_slots_pt : forall n (dest : list cell) d src s,
  (forall j, (j < n)%nat -> exists x, nth_error src (s + j) = Some x /\ isval x) ->
  (forall j, (j < n)%nat -> nth_error dest (d + j) = Some Raw) ->
  exists dest' src', move_slots m dest d src s n = Ok (dest', src') /\ length dest' = length dest /\ length src' = length src /\
    (forall p, nth_error dest' p = if inr p d n then nth_error src (p - d + s) else nth_error dest p) /\
    (forall p, inr p s n = false -> nth_error src' p = nth_error src p) /\
    (forall p, inr p s n = true -> nth_error src' p = Some (match m with SIMPLE | CONSTRUCT => Raw | _ => Husk end)).
Proof.
  induction n as [|n IH]; intros dest d src s H1 H2.
  - exists dest, src. repeat split; auto.
    + intros p. unfold inr. replace ((d <=? p) && _)%nat with false by lia. reflexivity.
    + intros p Hp. unfold inr in Hp. lia.
  - destruct (H1 O) as (x & X1 & (v & ->)); [lia|]. rewrite Nat.add_0_r in X1. pose proof (H2 O ltac:(lia)) as D1. rewrite Nat.add_0_r in D1.
    pose proof (nth_error_lt _ _ _ X1) as LS. pose proof (nth_error_lt _ _ _ D1) as LD.
    set (hole := match m with SIMPLE | CONSTRUCT => @Raw T | _ => Husk end).
    assert (E : move_slots m dest d src s (S n) = move_slots m (upd dest d (Val v)) (S d) (upd src s hole) (S s) n).
    { cbn [move_slots]. subst hole. unfold move_out, construct. destruct m; rewrite (get_some _ _ _ X1); cbn [bind]; rewrite ?(get_some _ _ _ D1);
      rewrite !set_ok by auto; cbn [bind is_simple is_raw orb]; rewrite ?(get_some _ _ _ D1); cbn [bind is_raw]; rewrite ?set_ok by auto; reflexivity. }
    rewrite E. destruct (IH (upd dest d (Val v)) (S d) (upd src s hole) (S s)) as (dest' & src' & R & R1 & R2 & R3 & R4 & R5).
    { intros j Hj. rewrite nth_error_upd_neq by lia. destruct (H1 (S j)) as (y & Y1 & Y2); [lia|]. exists y. split; auto. rewrite <- Y1. f_equal. lia. }
    { intros j Hj. rewrite nth_error_upd_neq by lia. rewrite <- (H2 (S j)) by lia. f_equal. lia. }
    exists dest', src'. rewrite upd_length in R1, R2. repeat split; auto.
    + intros p. rewrite R3. unfold inr. destruct (Nat.eq_dec p d) as [->|NE].
      * replace ((S d <=? d) && _)%nat with false by lia. replace ((d <=? d) && (d <? d + S n))%nat with true by lia.
        rewrite nth_error_upd_eq by auto. rewrite Nat.sub_diag. cbn [Nat.add]. now rewrite X1.
      * replace ((d <=? p) && (p <? d + S n))%nat with ((S d <=? p) && (p <? S d + n))%nat by lia.
        destruct ((S d <=? p) && (p <? S d + n))%nat eqn:B; rewrite nth_error_upd_neq by lia; [|reflexivity]. f_equal. lia.
    + intros p Hp. unfold inr in *. rewrite R4 by (unfold inr; lia). rewrite nth_error_upd_neq by lia. reflexivity.
    + intros p Hp. unfold inr in *. destruct (Nat.eq_dec p s) as [->|NE].
      * rewrite R4 by (unfold inr; lia). now rewrite nth_error_upd_eq.
      * apply R5. unfold inr. lia.
Qed.
Lemma copyMove_pt (dest : list cell) d src s n : 0 <= d -> 0 <= s -> 0 <= n ->
  (forall p, inr p (Z.to_nat s) (Z.to_nat n) = true -> exists x, nth_error src p = Some x /\ isval x) ->
  (forall p, inr p (Z.to_nat d) (Z.to_nat n) = true -> nth_error dest p = Some Raw) ->
  exists dest' src', copyMove m dest d src s n = Ok (dest', src') /\ length dest' = length dest /\ length src' = length src /\
    (forall p, nth_error dest' p = if inr p (Z.to_nat d) (Z.to_nat n) then nth_error src (p - Z.to_nat d + Z.to_nat s) else nth_error dest p) /\
    (forall p, nth_error src' p = if inr p (Z.to_nat s) (Z.to_nat n) then Some Raw else nth_error src p).
Proof.
  intros Hd Hs Hn H1 H2. unfold copyMove. destruct (Z.eqb_spec n 0) as [->|N0].
  - exists dest, src. repeat split; auto; intros p; unfold inr; replace ((_ <=? p) && _)%nat with false by lia; reflexivity.
  - rewrite !idx_ok by lia. cbn [bind].
    destruct (move_slots_pt (Z.to_nat n) dest (Z.to_nat d) src (Z.to_nat s)) as (d' & s' & E & E1 & E2 & E3 & E4 & E5).
    { intros j Hj. apply H1. unfold inr. lia. }
    { intros j Hj. apply H2. unfold inr. lia. }
    rewrite E. cbn [bind].
    assert (DR : forall mm : mode, mm = m -> (mm = SAFE \/ mm = MOVE) -> exists dd ss, (do src2 <- destroy_range s' (Z.to_nat s) (Z.to_nat n); Ok (d', src2)) = Ok (dd, ss) /\ length dd = length dest /\ length ss = length src /\
       (forall p, nth_error dd p = if inr p (Z.to_nat d) (Z.to_nat n) then nth_error src (p - Z.to_nat d + Z.to_nat s) else nth_error dest p) /\
       (forall p, nth_error ss p = if inr p (Z.to_nat s) (Z.to_nat n) then Some Raw else nth_error src p)).
    { intros mm -> MM. destruct (destroy_range_pt (Z.to_nat n) s' (Z.to_nat s)) as (s2 & F & F1 & F2).
      - intros p Hp. exists Husk. rewrite E5 by auto. split; [|reflexivity]. destruct MM as [-> | ->]; reflexivity.
      - rewrite F. cbn [bind]. exists d', s2. repeat split; auto; [congruence|]. intros p. rewrite F2. destruct (inr p _ _) eqn:B; auto. }
    assert (CP : forall mm : mode, mm = m -> (mm = SIMPLE \/ mm = CONSTRUCT) -> exists dd ss, Ok (d', s') = Ok (dd, ss) /\ length dd = length dest /\ length ss = length src /\
       (forall p, nth_error dd p = if inr p (Z.to_nat d) (Z.to_nat n) then nth_error src (p - Z.to_nat d + Z.to_nat s) else nth_error dest p) /\
       (forall p, nth_error ss p = if inr p (Z.to_nat s) (Z.to_nat n) then Some Raw else nth_error src p)).
    { intros mm -> MM. exists d', s'. repeat split; auto. intros p. destruct (inr p _ _) eqn:B; auto. rewrite E5 by auto. destruct MM as [-> | ->]; reflexivity. }
    destruct m; [apply (CP SIMPLE)|apply (CP CONSTRUCT)|apply (DR SAFE)|apply (DR MOVE)]; auto.
Qed.
Lemma nth_error_repeat' {A} (x : A) n p : nth_error (repeat x n) p = if (p <? n)%nat then Some x else None.
Proof.
  destruct (Nat.ltb_spec p n); [now apply nth_error_repeat|]. apply nth_error_None. rewrite repeat_length. lia.
Qed.

Lemma live_val s l p : inv s l -> (p < length (slots s))%nat -> posn (capacity s) (cur s) (Z.of_nat p) < Z.of_nat (length l) ->
  exists x, nth_error (slots s) p = Some x /\ isval x.
Proof. intros I H1 H2. destruct (live_notraw s l p I H1 H2) as (x & v & E & -> & _). exists (Val v). split; auto. now exists v. Qed.

Lemma setcap_ok s l n : inv s l -> exists s', circ_setCapacity m s n = Ok s' /\ length (slots s') = n /\
  inv s' (if (n <? length (slots s))%nat then [] else l).
Proof.
  intros I. pose proof I as (I1 & I2 & I3 & I4 & I5 & I6). unfold circ_setCapacity.
  destruct (Z.ltb_spec (Z.of_nat n) (capacity s)) as [K|K].
  - replace (n <? length (slots s))%nat with true by (unfold capacity in *; lia).
    destruct (clear_ok s l I) as (s1 & E & E1 & E2 & E3 & E4 & E5). rewrite E. cbn [bind]. unfold setCapacityDiscard.
    rewrite release_raw by (rewrite E1; exact E5). cbn [bind]. eexists. split; [reflexivity|]. cbn [slots]. rewrite repeat_length. split; [reflexivity|].
    rewrite E3, E4. exact (inv_new n).
  - replace (n <? length (slots s))%nat with false by (unfold capacity in *; lia).
    destruct (Z.ltb_spec (capacity s) (Z.of_nat n)) as [K2|K2]; [|exists s; repeat split; auto; unfold capacity in *; lia].
    assert (G : exists n1 old, (if -1 <=? cur s - clen s
       then copyMove m (repeat Raw n) (cur s - clen s + 1) (slots s) (cur s - clen s + 1) (clen s)
       else
         do i <- modIndex s (clen s - 1);
         do p <- bmod (cur s - clen s + 1) (Z.of_nat n);
         do (n1, a1) <- copyMove m (repeat Raw n) p (slots s) i (capacity s - i);
         copyMove m n1 0 a1 0 (cur s + 1)) = Ok (n1, old) /\ length n1 = n /\ length old = length (slots s) /\
        (is_simple m = false -> forall p, (p < length (slots s))%nat -> nth_error old p = Some Raw) /\
        (forall p, (p < n)%nat -> exists x, nth_error n1 p = Some x /\ okcell x l (posn (Z.of_nat n) (cur s) (Z.of_nat p)))).
    { destruct (Z.leb_spec (-1) (cur s - clen s)) as [C|C].
      - destruct (copyMove_pt (repeat Raw n) (cur s - clen s + 1) (slots s) (cur s - clen s + 1) (clen s)) as (d & o & E & E1 & E2 & E3 & E4); try lia.
        { intros p Hp. unfold inr in Hp. apply (live_val s l p I); unfold posn, capacity in *; [lia|destruct (_ <=? _) eqn:?; lia]. }
        { intros p Hp. unfold inr, capacity in *. apply nth_error_repeat. lia. }
        exists d, o. rewrite repeat_length in E1. repeat split; auto.
        + intros S p Hp. rewrite E4. destruct (inr p _ _) eqn:B; [reflexivity|]. unfold inr in B.
          destruct (I6 p Hp) as (x & X1 & X2). rewrite X1. f_equal. apply (okcell_dead _ _ _ X2); auto.
          unfold posn, capacity in *. destruct (_ <=? _) eqn:?; lia.
        + intros p Hp. rewrite E3. destruct (inr p _ _) eqn:B; unfold inr in B.
          * destruct (I6 p) as (x & X1 & X2); [unfold capacity in *; lia|]. exists x. split; [rewrite <- X1; f_equal; lia|].
            replace (posn (Z.of_nat n) (cur s) (Z.of_nat p)) with (posn (capacity s) (cur s) (Z.of_nat p)); auto.
            unfold posn. replace (Z.of_nat p <=? cur s) with true by lia. reflexivity.
          * exists Raw. split; [now apply nth_error_repeat|]. apply dead_ok. unfold posn, capacity in *. destruct (_ <=? _) eqn:?; lia.
      - assert (M : modIndex s (clen s - 1) = Ok (cur s - clen s + 1 + capacity s)).
        { unfold modIndex. rewrite bmod_ok by lia. rewrite mod_case by lia. replace (cur s - (clen s - 1) <? 0) with true by lia. f_equal. lia. }
        rewrite M. cbn [bind]. clear M. rewrite bmod_ok, mod_case by lia. replace (cur s - clen s + 1 <? 0) with true by lia. cbn [bind].
        set (i := cur s - clen s + 1 + capacity s) in *. set (q := cur s - clen s + 1 + Z.of_nat n) in *.
        destruct (copyMove_pt (repeat Raw n) q (slots s) i (capacity s - i)) as (d & o & E & E1 & E2 & E3 & E4); try (subst i q; lia).
        { intros p Hp. unfold inr in Hp. apply (live_val s l p I); subst i q; unfold posn, capacity in *; [lia|destruct (_ <=? _) eqn:?; lia]. }
        { intros p Hp. unfold inr, capacity in *. apply nth_error_repeat. subst i q; lia. }
        rewrite E. cbn [bind]. rewrite repeat_length in E1.
        destruct (copyMove_pt d 0 o 0 (cur s + 1)) as (d2 & o2 & F & F1 & F2 & F3 & F4); try lia.
        { intros p Hp. rewrite E4. unfold inr in *. replace ((Z.to_nat i <=? p) && _)%nat with false by (subst i; unfold capacity in *; lia).
          apply (live_val s l p I); unfold posn, capacity in *; [lia|destruct (_ <=? _) eqn:?; lia]. }
        { intros p Hp. rewrite E3. unfold inr in *. replace ((Z.to_nat q <=? p) && _)%nat with false by (subst q; unfold capacity in *; lia).
          apply nth_error_repeat. unfold capacity in *. lia. }
        exists d2, o2. repeat split; auto; try congruence.
        + intros S p Hp. rewrite F4, E4. destruct (inr p _ _) eqn:B; [reflexivity|]. destruct (inr p (Z.to_nat i) _) eqn:B2; [reflexivity|]. unfold inr in *.
          destruct (I6 p Hp) as (x & X1 & X2). rewrite X1. f_equal. apply (okcell_dead _ _ _ X2); auto.
          subst i. unfold posn, capacity in *. destruct (_ <=? _) eqn:?; lia.
        + intros p Hp. rewrite F3. destruct (inr p _ _) eqn:B; unfold inr in B.
          * rewrite E4. unfold inr. replace ((Z.to_nat i <=? _) && _)%nat with false by (subst i; unfold capacity in *; lia).
            destruct (I6 p) as (x & X1 & X2); [unfold capacity in *; lia|]. exists x. split; [rewrite <- X1; f_equal; lia|].
            replace (posn (Z.of_nat n) (cur s) (Z.of_nat p)) with (posn (capacity s) (cur s) (Z.of_nat p)); auto.
            unfold posn. replace (Z.of_nat p <=? cur s) with true by lia. reflexivity.
          * rewrite E3. destruct (inr p (Z.to_nat q) _) eqn:B2; unfold inr in B2.
            -- destruct (I6 (p - Z.to_nat q + Z.to_nat i)%nat) as (x & X1 & X2); [subst i q; unfold capacity in *; lia|]. exists x. split; auto.
               replace (posn (Z.of_nat n) (cur s) (Z.of_nat p)) with (posn (capacity s) (cur s) (Z.of_nat (p - Z.to_nat q + Z.to_nat i))); auto.
               subst i q. unfold posn, capacity in *. destruct (_ <=? _) eqn:?; destruct (Z.of_nat p <=? cur s) eqn:?; lia.
            -- exists Raw. split; [now apply nth_error_repeat|]. apply dead_ok. subst i q. unfold posn, capacity in *. destruct (_ <=? _) eqn:?; lia. }
    destruct G as (n1 & old & -> & G1 & G2 & G3 & G4). cbn [bind]. rewrite release_raw by (rewrite G2; exact G3). cbn [bind].
    eexists. split; [reflexivity|]. cbn [slots]. split; [exact G1|]. unfold inv, capacity. cbn [slots cur clen]. rewrite G1.
    unfold capacity in *. repeat split; auto; try lia.
Qed.

(* copying *)
Lemma copy_construct_pt : forall (src : list cell) a at_, m <> SIMPLE -> Forall isval src ->
  (forall p, inr p at_ (length src) = true -> nth_error a p = Some Raw) ->
  exists a', copy_construct m a at_ src = Ok a' /\ length a' = length a /\
    forall p, nth_error a' p = if inr p at_ (length src) then nth_error src (p - at_) else nth_error a p.
Proof.
  induction src as [|c src IH]; intros a at_ NS V H.
  - exists a. repeat split; auto. intros p. unfold inr. cbn [length]. replace ((at_ <=? p) && _)%nat with false by lia. reflexivity.
  - inversion V as [|? ? (v & ->) V']; subst. cbn [copy_construct length] in *.
    pose proof (H at_) as D. assert (D1 : nth_error a at_ = Some Raw) by (apply D; unfold inr; lia). pose proof (nth_error_lt _ _ _ D1).
    unfold construct. rewrite (get_some _ _ _ D1). cbn [bind is_raw]. rewrite orb_true_r, set_ok by auto. cbn [bind].
    destruct (IH (upd a at_ (Val v)) (S at_) NS V') as (a' & E & E1 & E2).
    { intros p Hp. rewrite nth_error_upd_neq by (unfold inr in Hp; lia). apply H. unfold inr in *. lia. }
    exists a'. rewrite upd_length in E1. repeat split; auto. intros p. rewrite E2. unfold inr. destruct (Nat.eq_dec p at_) as [->|NE].
    + replace ((S at_ <=? at_) && _)%nat with false by lia. replace ((at_ <=? at_) && (at_ <? at_ + S (length src)))%nat with true by lia.
      rewrite nth_error_upd_eq by auto. now rewrite Nat.sub_diag.
    + replace ((at_ <=? p) && (p <? at_ + S (length src)))%nat with ((S at_ <=? p) && (p <? S at_ + length src))%nat by lia.
      destruct ((S at_ <=? p) && (p <? S at_ + length src))%nat eqn:B; [|now rewrite nth_error_upd_neq by lia].
      replace (p - at_)%nat with (S (p - S at_)) by lia. reflexivity.
Qed.
Lemma copy_range_pt (a : list cell) at_ right n : m <> MOVE -> 0 <= at_ -> 0 <= n ->
  length a = length right -> at_ + n <= Z.of_nat (length right) ->
  (forall p, inr p (Z.to_nat at_) (Z.to_nat n) = true -> nth_error a p = Some Raw) ->
  (forall p, inr p (Z.to_nat at_) (Z.to_nat n) = true -> exists x, nth_error right p = Some x /\ isval x) ->
  exists a', copy_range m a at_ right n = Ok a' /\ length a' = length a /\
    forall p, nth_error a' p = if inr p (Z.to_nat at_) (Z.to_nat n) then nth_error right p else nth_error a p.
Proof.
  intros MV H1 H2 H3 H4 H5 H6. unfold copy_range. destruct (Z.eqb_spec n 0) as [->|N0].
  { exists a. repeat split; auto. intros p. unfold inr. replace ((_ <=? p) && _)%nat with false by lia. reflexivity. }
  rewrite idx_ok by lia. cbn [bind]. replace (_ <=? length right)%nat with true by lia.
  set (src := firstn _ _). assert (LS : length src = Z.to_nat n) by (subst src; rewrite firstn_length, skipn_length; lia).
  assert (SRC : forall p, inr p (Z.to_nat at_) (Z.to_nat n) = true -> nth_error src (p - Z.to_nat at_) = nth_error right p).
  { intros p Hp. unfold inr in Hp. subst src. rewrite nth_error_firstn. replace (_ <? Z.to_nat n)%nat with true by lia. rewrite nth_error_skipn. f_equal. lia. }
  assert (V : Forall isval src).
  { apply Forall_forall. intros x Hx. apply In_nth_error in Hx as (j & Ej). pose proof (nth_error_lt _ _ _ Ej).
    specialize (SRC (j + Z.to_nat at_)%nat). destruct (H6 (j + Z.to_nat at_)%nat) as (y & Y1 & Y2); [unfold inr; lia|].
    rewrite Nat.add_sub in SRC. rewrite SRC in Ej by (unfold inr; lia). congruence. }
  clearbody src. unfold base_copy. destruct src as [|c src0] eqn:ES; [cbn in LS; lia|]. rewrite <- ES in *. clear c src0 ES.
  destruct (is_simple m) eqn:S.
  - destruct m; try discriminate. replace (_ <=? length a)%nat with true by lia. eexists. split; [reflexivity|].
    split. { rewrite !app_length, firstn_length, skipn_length. lia. }
    intros p. unfold inr. destruct (Nat.lt_ge_cases p (Z.to_nat at_)).
    + replace ((Z.to_nat at_ <=? p) && _)%nat with false by lia. rewrite nth_error_app1 by (rewrite firstn_length; lia). rewrite nth_error_firstn.
      replace (p <? Z.to_nat at_)%nat with true by lia. reflexivity.
    + rewrite nth_error_app2 by (rewrite firstn_length; lia). rewrite firstn_length. replace (Nat.min _ _) with (Z.to_nat at_) by lia.
      destruct (Nat.lt_ge_cases p (Z.to_nat at_ + Z.to_nat n)).
      * replace ((Z.to_nat at_ <=? p) && _)%nat with true by lia. rewrite nth_error_app1 by lia. apply SRC. unfold inr. lia.
      * replace ((Z.to_nat at_ <=? p) && _)%nat with false by lia. rewrite nth_error_app2 by lia. rewrite nth_error_skipn. f_equal. lia.
  - destruct (copy_construct_pt src a (Z.to_nat at_)) as (a' & E & E1 & E2); auto.
    { intros ->. discriminate. }
    { rewrite LS. exact H5. }
    assert (E' : match m with SIMPLE => if (Z.to_nat at_ + length src <=? length a)%nat then Ok (firstn (Z.to_nat at_) a ++ src ++ skipn (Z.to_nat at_ + length src) a) else UB
                 | MOVE => UB | _ => copy_construct m a (Z.to_nat at_) src end = Ok a').
    { revert S MV E. destruct m; intros; try discriminate; try congruence. }
    exists a'. split; [revert E'; destruct m; auto|]. split; auto. intros p. rewrite E2, LS. destruct (inr p _ _) eqn:B; auto.
Qed.

Lemma assign_ok s l r lr : inv s l -> inv r lr -> m <> MOVE -> exists s', circ_assign m s r = Ok s' /\ length (slots s') = length (slots r) /\ inv s' lr.
Proof.
  intros I R MV. destruct (clear_ok s l I) as (s1 & E & E1 & E2 & E3 & E4 & E5). unfold circ_assign. rewrite E. cbn [bind].
  unfold setCapacityDiscard. rewrite release_raw by (rewrite E1; exact E5). cbn [bind]. clear E E1 E2 E3 E4 E5 s1 I s l.
  pose proof R as (I1 & I2 & I3 & I4 & I5 & I6). set (c := length (slots r)) in *.
  assert (CC : capacity r = Z.of_nat c) by reflexivity.
  set (s2 := {| slots := repeat Raw c; cur := cur r; clen := clen r |}).
  assert (CS : capacity s2 = Z.of_nat c) by (unfold capacity; cbn [slots s2]; now rewrite repeat_length).
  cbv zeta. rewrite CS. change (clen s2) with (clen r). change (cur s2) with (cur r).
  assert (RAW : forall p, (p < c)%nat -> nth_error (repeat (@Raw T) c) p = Some Raw) by (intros; now apply nth_error_repeat).
  assert (OK : forall a, length a = c -> (forall p, (p < c)%nat -> nth_error a p = nth_error (slots r) p \/
     (nth_error a p = Some Raw /\ Z.of_nat (length lr) <= posn (Z.of_nat c) (cur r) (Z.of_nat p))) ->
     inv {| slots := a; cur := cur r; clen := clen r |} lr).
  { intros a LA H. unfold inv, capacity. cbn [slots cur clen]. rewrite LA. rewrite CC in *. repeat split; auto; try lia.
    intros p Hp. destruct (H p Hp) as [-> | (-> & D)]; [apply I6; exact Hp|]. exists Raw. split; auto. now apply dead_ok. }
  rewrite CC in *.
  destruct (Z.eqb_spec (clen r) (Z.of_nat c)) as [F|F]; [|destruct (Z.leb_spec (-1) (cur r - clen r)) as [K|K]].
  - destruct (copy_range_pt (repeat Raw c) 0 (slots r) (clen r)) as (a & A & A1 & A2); auto; try lia; try (fold c; lia).
    { rewrite repeat_length. reflexivity. }
    { intros p Hp. unfold inr in Hp. apply RAW. lia. }
    { intros p Hp. unfold inr in Hp. apply (live_val r lr p R); [fold c; lia|]. rewrite CC. unfold posn. destruct (_ <=? _) eqn:?; lia. }
    rewrite A. cbn [bind]. eexists. split; [reflexivity|]. cbn [slots]. rewrite repeat_length in A1. split; [exact A1|]. apply OK; auto.
    intros p Hp. left. rewrite A2. unfold inr. replace ((Z.to_nat 0 <=? p) && _)%nat with true by lia. reflexivity.
  - destruct (copy_range_pt (repeat Raw c) (cur r - clen r + 1) (slots r) (clen r)) as (a & A & A1 & A2); auto; try lia; try (fold c; lia).
    { rewrite repeat_length. reflexivity. }
    { intros p Hp. unfold inr in Hp. apply RAW. lia. }
    { intros p Hp. unfold inr in Hp. apply (live_val r lr p R); [fold c; lia|]. rewrite CC. unfold posn. destruct (_ <=? _) eqn:?; lia. }
    rewrite A. cbn [bind]. eexists. split; [reflexivity|]. cbn [slots]. rewrite repeat_length in A1. split; [exact A1|]. apply OK; auto.
    intros p Hp. rewrite A2. destruct (inr p _ _) eqn:B; [now left|]. right. split; [now apply RAW|]. unfold inr in B. unfold posn. destruct (_ <=? _) eqn:?; lia.
  - assert (M : modIndex s2 (clen r - 1) = Ok (cur r - clen r + 1 + Z.of_nat c)).
    { unfold modIndex. rewrite CS. change (cur s2) with (cur r). rewrite bmod_ok by lia. rewrite mod_case by lia. replace (cur r - (clen r - 1) <? 0) with true by lia. f_equal. lia. }
    rewrite M. cbn [bind]. clear M. set (i := cur r - clen r + 1 + Z.of_nat c) in *.
    destruct (copy_range_pt (repeat Raw c) i (slots r) (Z.of_nat c - i)) as (a & A & A1 & A2); auto; try (subst i; lia); try (fold c; subst i; lia).
    { rewrite repeat_length. reflexivity. }
    { intros p Hp. unfold inr in Hp. apply RAW. subst i. lia. }
    { intros p Hp. unfold inr in Hp. apply (live_val r lr p R); [fold c; subst i; lia|]. rewrite CC. subst i. unfold posn. destruct (_ <=? _) eqn:?; lia. }
    rewrite A. cbn [bind]. rewrite repeat_length in A1.
    destruct (copy_range_pt a 0 (slots r) (cur r + 1)) as (b & B & B1 & B2); auto; try lia; try (fold c; lia).
    { intros p Hp. rewrite A2. unfold inr in *. replace ((Z.to_nat i <=? p) && _)%nat with false by (subst i; lia). apply RAW. lia. }
    { intros p Hp. unfold inr in Hp. apply (live_val r lr p R); [fold c; lia|]. rewrite CC. unfold posn. destruct (_ <=? _) eqn:?; lia. }
    rewrite B. cbn [bind]. eexists. split; [reflexivity|]. cbn [slots]. split; [congruence|]. apply OK; [congruence|].
    intros p Hp. rewrite B2. destruct (inr p _ _) eqn:D; [now left|]. rewrite A2. destruct (inr p (Z.to_nat i) _) eqn:D2; [now left|].
    right. split; [now apply RAW|]. unfold inr in *. subst i. unfold posn. destruct (_ <=? _) eqn:?; lia.
Qed.
Lemma moveassign_ok s l r lr : inv s l -> inv r lr -> exists s', circ_moveassign m s r = Ok s' /\ length (slots s') = length (slots r) /\ inv s' lr.
Proof.
  intros I R. destruct (clear_ok s l I) as (s1 & E & E1 & E2 & E3 & E4 & E5). unfold circ_moveassign. rewrite E. cbn [bind].
  rewrite release_raw by (rewrite E1; exact E5). cbn [bind]. eexists. split; [reflexivity|]. split; [reflexivity|]. destruct r. exact R.
Qed.

Lemma step_ok s l o : inv s l -> valid m o (length (slots s)) l ->
  (forall x, o = CAssign x \/ o = CMoveAssign x -> exists lx, inv x lx) ->
  exists r s' l', circ_step m s o = Ok (r, s') /\ inv s' l' /\ effect o (length (slots s)) l r (length (slots s')) l'.
Proof.
  intros I V X. destruct o as [v| | | |n|x|x]; cbn [valid circ_step effect] in *.
  - destruct (push_ok s l v I) as (s' & E & E1 & E2); [unfold capacity; lia|]. rewrite E. cbn [bind]. exists None, s', (firstn (length (slots s)) (v :: l)). rewrite E1. auto.
  - destruct l as [|v l]; [congruence|]. destruct (pop_ok s l v I) as (s' & E & E1 & E2). rewrite E. cbn [bind]. eauto 10.
  - destruct (exists_last V) as (l' & v & ->). destruct (popback_ok s l' v I) as (s' & E & E1 & E2). rewrite E. cbn [bind]. eauto 10.
  - destruct (clear_ok s l I) as (s' & E & E1 & E2 & _). rewrite E. cbn [bind]. eauto 10.
  - destruct (setcap_ok s l n I) as (s' & E & E1 & E2). rewrite E. cbn [bind]. eauto 10.
  - destruct (X x) as (lx & IX); auto. destruct (assign_ok s l x lx I IX V) as (s' & E & E1 & E2). rewrite E. cbn [bind].
    exists None, s', lx. split; auto. split; auto. split; auto. rewrite E1. now apply inv_holds.
  - destruct (X x) as (lx & IX); auto. destruct (moveassign_ok s l x lx I IX) as (s' & E & E1 & E2). rewrite E. cbn [bind].
    exists None, s', lx. split; auto. split; auto. split; auto. rewrite E1. now apply inv_holds.
Qed.

Lemma reachable_inv s : reachable m s -> exists l, inv s l.
Proof.
  induction 1 as [c|s o s' r c l R IH H V X IX E]; [exists []; apply inv_new|].
  destruct IH as (l0 & I). destruct (holds_fun _ _ _ _ _ H (inv_holds s l0 I)) as (-> & ->).
  destruct (step_ok s l0 o I V IX) as (r' & s2 & l' & E' & I' & _). exists l'. congruence.
Qed.

(* queues *)
Lemma q_push_ok s l v : inv s l -> exists s', q_push m s v = Ok s' /\ inv s' (v :: l).
Proof.
  intros I. unfold q_push. pose proof I as (I1 & I2 & _).
  assert (G : exists s1, (if capacity s <=? clen s then circ_setCapacity m s (fbnext_nat (Z.to_nat (clen s))) else Ok s) = Ok s1 /\ inv s1 l /\ clen s1 < capacity s1).
  { destruct (Z.leb_spec (capacity s) (clen s)); [|eauto].
    pose proof (fbnext_nat_gt (Z.to_nat (clen s))). destruct (setcap_ok s l (fbnext_nat (Z.to_nat (clen s))) I) as (s1 & E & E1 & E2).
    replace (_ <? length (slots s))%nat with false in E2 by (unfold capacity in *; lia). exists s1. split; auto. split; auto.
    destruct E2 as (J1 & _). unfold capacity. lia. }
  destruct G as (s1 & -> & J & L). cbn [bind]. destruct (push_ok s1 l v J) as (s' & E & E1 & E2); [destruct J; lia|].
  exists s'. split; auto. rewrite firstn_all2 in E2; auto. destruct J as (J1 & _). unfold capacity in L. cbn [length]. lia.
Qed.
Lemma q_discard_ok s l v : inv s (l ++ [v]) -> m = SIMPLE -> exists s', q_discard s = Ok s' /\ inv s' l.
Proof.
  intros (I1 & I2 & I3 & I4 & I5 & I6) S. unfold q_discard. eexists. split; [reflexivity|]. rewrite app_length in I1. cbn [length] in I1.
  unfold inv, capacity. cbn [slots cur clen]. fold (capacity s). repeat split; try lia.
  - intros H. apply I4 in H. now destruct l.
  - intros p Hp. destruct (I6 p Hp) as (x & X1 & X2). exists x. split; auto. unfold okcell in *.
    destruct (nth_error l _) eqn:E.
    + rewrite nth_error_app1 in X2 by (eapply nth_error_lt; eauto). now rewrite E in X2.
    + rewrite S. discriminate.
Qed.
Definition q_inv (s : circ T) (q : list T) : Prop := inv s (rev q).
Lemma q_step_ok s q o : q_inv s q -> q_valid m o q -> exists r s' q', q_step m s o = Ok (r, s') /\ q_inv s' q' /\ q_effect o q r q'.
Proof.
  unfold q_inv. intros I V. destruct o as [v| | |]; cbn [q_valid q_step q_effect] in *.
  - destruct (q_push_ok s _ v I) as (s' & E & E1). rewrite E. cbn [bind]. exists None, s', (q ++ [v]). rewrite rev_unit. auto.
  - destruct q as [|v q]; [congruence|]. cbn [rev] in I. destruct (popback_ok s _ v I) as (s' & E & E1 & E2). unfold q_pop. rewrite E. cbn [bind]. eauto 9.
  - destruct V as (V & S). destruct q as [|v q]; [congruence|]. cbn [rev] in I. destruct (q_discard_ok s _ v I S) as (s' & E & E2). rewrite E. cbn [bind]. exists None, s', q. eauto.
  - destruct (clear_ok s _ I) as (s' & E & E1 & E2 & _). rewrite E. cbn [bind]. exists None, s', []. auto.
Qed.
Lemma q_inv_holds s q : q_inv s q -> queue_holds s q.
Proof.
  intros I. pose proof (inv_holds s _ I) as (H1 & H2 & _ & _ & H5 & _). split; [now rewrite H2, rev_length|].
  intros v q' ->. apply (H5 (rev q') v). reflexivity.
Qed.
End Proofs.

(* ---- C27 ---- *)
(** Every array obtained by valid calls shows its contents l (index 0 newest, Front newest, Back oldest, negative indices
    from the oldest when full); every valid call on it succeeds, returns the right element, and leaves an array
    showing the contents the specification gives: the newest at most c elements after Push, and so on. *)
Theorem C27_ArrayCircular_deque {T} (m : mode) (s : circ T) : reachable m s ->
  (exists c l, holds s c l /\ (length l <= c)%nat) /\
  (forall c l o, holds s c l -> valid m o c l -> (forall x, o = CAssign x \/ o = CMoveAssign x -> reachable m x) ->
     exists r s' c' l', circ_step m s o = Ok (r, s') /\ holds s' c' l' /\ effect o c l r c' l').
Proof.
  intros R. destruct (reachable_inv m s R) as (l & I). split.
  - exists (length (slots s)), l. split; [now apply (inv_holds m)|]. destruct I as (I1 & I2 & _). unfold capacity in I2. lia.
  - intros c l0 o H V X. destruct (holds_fun _ _ _ _ _ H (inv_holds m s l I)) as (-> & ->).
    destruct (step_ok m s l o I V) as (r & s' & l' & E & I' & F).
    { intros x Hx. apply reachable_inv. auto. }
    exists r, s', (length (slots s')), l'. split; auto. split; auto. now apply (inv_holds m).
Qed.
Print Assumptions C27_ArrayCircular_deque.

(** Destroying an array destroys every element exactly once and leaks none (other modes than plain data). *)
Theorem C27_ArrayCircular_destructor {T} (m : mode) (s : circ T) : reachable m s -> circ_destroy m s = Ok tt.
Proof.
  intros R. destruct (reachable_inv m s R) as (l & I). destruct (clear_ok m s l I) as (s1 & E & E1 & E2 & E3 & E4 & E5).
  unfold circ_destroy. rewrite E. cbn [bind]. apply release_raw. rewrite E1. exact E5.
Qed.
Print Assumptions C27_ArrayCircular_destructor.

(** A queue made with any initial capacity: any sequence of valid calls can be carried through, with the outcomes of a
    FIFO list. *)
Theorem C27_Queue_total {T} (m : mode) (init : nat) (ops : list (q_op T)) o outs s q :
  q_run m (new_circ init) [] ops outs s q ->
  queue_holds s q /\ (q_valid m o q -> exists r s' q', q_step m s o = Ok (r, s') /\ q_effect o q r q').
Proof.
  intros H. assert (G : forall s0 q0, q_inv m s0 q0 -> q_run m s0 q0 ops outs s q -> q_inv m s q).
  { clear. intros s0 q0 I H. induction H as [|s q o r s1 q1 ops outs s2 q2 V E F H IH]; auto. apply IH.
    destruct (q_step_ok m s q o I V) as (r' & s' & q' & E' & I' & F'). rewrite E in E'. injection E' as -> ->.
    replace q1 with q'; auto. destruct o; cbn [q_effect] in F, F'.
    - destruct F, F'. congruence.
    - destruct F as (? & ? & ?), F' as (? & ? & ?). congruence.
    - destruct F as (? & ? & ?), F' as (? & ? & ?). congruence.
    - destruct F, F'. congruence. }
  specialize (G (new_circ init) [] (inv_new m init) H). split; [now apply (q_inv_holds m)|].
  intros V. destruct (q_step_ok m s q o G V) as (r & s' & q' & E & _ & F). eauto.
Qed.
Print Assumptions C27_Queue_total.

(** First in, first out: what was popped followed by what is still queued is exactly what was pushed, in order. *)
Definition pushed {T} (ops : list (q_op T)) : list T := flat_map (fun o => match o with QPush v => [v] | _ => [] end) ops.
Definition popped {T} (outs : list (option T)) : list T := flat_map (fun r => match r with Some v => [v] | None => [] end) outs.
Theorem C27_Queue_fifo {T} (m : mode) (init : nat) (ops : list (q_op T)) outs s q :
  Forall (fun o => match o with QPush _ | QPop => True | _ => False end) ops ->
  q_run m (new_circ init) [] ops outs s q -> popped outs ++ q = pushed ops.
Proof.
  intros F H. change (pushed ops) with ([] ++ pushed ops).
  assert (G : forall s0 q0, q_run m s0 q0 ops outs s q -> popped outs ++ q = q0 ++ pushed ops); [|exact (G _ _ H)].
  clear H. intros s0 q0 H. induction H as [|s q o r s1 q1 ops outs s2 q2 V E X H IH]; [cbn; now rewrite app_nil_r|].
  inversion F as [|? ? F1 F2]; subst. specialize (IH F2). unfold popped, pushed in *. cbn [flat_map]. destruct o; cbn [q_effect] in X; try contradiction.
  - destruct X as (-> & ->). cbn [app]. rewrite IH, <- app_assoc. reflexivity.
  - destruct X as (v & -> & ->). cbn [app]. now rewrite IH.
Qed.
Print Assumptions C27_Queue_fifo.

(* A capacity-3 array wrapped around by five pushes and one PopBack, then grown; and a queue that grows twice. *)
Fixpoint crun {T} (m : mode) (s : circ T) (ops : list (circ_op T)) : res (circ T) :=
  match ops with [] => Ok s | o :: t => do (_, s1) <- circ_step m s o; crun m s1 t end.
Fixpoint qrun {T} (m : mode) (s : circ T) (ops : list (q_op T)) : res (list (option T) * circ T) :=
  match ops with [] => Ok ([], s) | o :: t => do (r, s1) <- q_step m s o; do (rs, s2) <- qrun m s1 t; Ok (r :: rs, s2) end.
Example C27_example :
  (exists s, crun SAFE (new_circ 3) [CPush 1; CPush 2; CPush 3; CPush 4; CPush 5; CPopBack] = Ok s /\
     At s 0 = Ok 5 /\ At s 1 = Ok 4 /\ clen s = 2 /\ Back s = Ok 4 /\
     exists s', circ_setCapacity SAFE s 7 = Ok s' /\ At s' 0 = Ok 5 /\ At s' 1 = Ok 4 /\ capacity s' = 7) /\
  (exists s, qrun MOVE (new_circ 0) [QPush 1; QPush 2; QPop; QPush 3; QPush 4; QPop; QPush 5; QPush 6; QPop] =
     Ok ([None; None; Some 1; None; None; Some 2; None; None; Some 3], s)) /\
  reachable SAFE (new_circ (T := Z) 3) /\ holds (new_circ (T := Z) 3) 3 [] /\ valid SAFE (CPush 1) 3 [].
Proof.
  split; [|split; [|split; [|split]]].
  - eexists. split; [vm_compute; reflexivity|]. repeat (split; [vm_compute; reflexivity|]).
    eexists. split; [vm_compute; reflexivity|]. repeat split.
  - eexists. vm_compute. reflexivity.
  - constructor.
  - apply (inv_holds SAFE), inv_new.
  - cbn. lia.
Qed.
