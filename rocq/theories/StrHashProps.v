(* Property C37: the string hashes agree with the string equalities. *)
From Coq Require Import List Arith ZArith Bool Lia.
From Coq Require Import ZifyBool ZifyNat.
From Verif Require Import Common StrHash HashProps.
Import ListNotations.
Local Open Scope Z_scope.

(* a string in memory: characters s (signed, none of them 0), a terminator, anything after it *)
Definition chars (s : list Z) : Prop := Forall (fun c => -128 <= c < 128 /\ c <> 0) s.
(* ASCII case folding, said through the alphabet *)
Definition upper_case : list Z := map (fun i => 65 + Z.of_nat i) (seq 0 26).
Inductive same_letter : Z -> Z -> Prop :=
| sl_same c : same_letter c c
| sl_up c : In c upper_case -> same_letter c (c + 32)
| sl_down c : In c upper_case -> same_letter (c + 32) c.
(* the value of the hash: a polynomial in 31 *)
Definition poly (l : list Z) : Z := fold_left (fun h c => (31 * h + c) mod 2 ^ 32) l 0.

Lemma hash_loop_ok f rest : forall s h, Forall (fun c => c <> 0) s -> 0 <= h < 2 ^ 32 ->
  hash_loop f (s ++ 0 :: rest) h = Ok (fold_left (fun h c => (31 * h + c) mod 2 ^ 32) (map f s) h).
Proof.
  induction s as [|c s IH]; intros h Hs Hh; cbn [app hash_loop map fold_left].
  - reflexivity.
  - inversion Hs; subst. destruct (Z.eqb_spec c 0); [contradiction|].
    assert (E : wrap 32 (wrap 32 (wrap 32 (Z.shiftl h 5) - h) + f c) = (31 * h + f c) mod 2 ^ 32).
    { unfold wrap. rewrite Z.shiftl_mul_pow2 by lia. rewrite Z.add_mod_idemp_l by lia.
      replace ((h * 2 ^ 5) mod 2 ^ 32 - h + f c) with ((h * 2 ^ 5) mod 2 ^ 32 + (f c - h)) by ring. rewrite Z.add_mod_idemp_l by lia. f_equal. lia. }
    rewrite E. apply IH; [assumption|]. apply Z.mod_pos_bound. lia.
Qed.
Lemma str_hash_ok f s rest : Forall (fun c => c <> 0) s -> Forall (fun c => wrap 32 (f c) <> 0) s -> f 0 = 0 -> str_hash f (s ++ 0 :: rest) = Ok (poly (map f s)).
Proof.
  intros Hs Hf H0. destruct s as [|c s]; cbn [app str_hash].
  - rewrite H0. reflexivity.
  - inversion Hf; subst. destruct (Z.eqb_spec (wrap 32 (f c)) 0); [contradiction|]. inversion Hs; subst. rewrite hash_loop_ok; [|assumption|apply Z.mod_pos_bound; lia].
    unfold poly. cbn [map fold_left]. reflexivity.
Qed.
Lemma lower_range c : -128 <= c < 128 -> c <> 0 -> wrap 32 (lower c) <> 0.
Proof. intros H H0. unfold lower, wrap. destruct ((64 <? c) && (c <? 91)) eqn:E; lia. Qed.
Lemma chars_ne s : chars s -> Forall (fun c => c <> 0) s.
Proof. apply Forall_impl. tauto. Qed.
Lemma str_equal_ok g ra rb : (forall c, g c = g 0 -> c = 0) -> forall a b, Forall (fun c => c <> 0) a -> Forall (fun c => c <> 0) b ->
  str_equal g (a ++ 0 :: ra) (b ++ 0 :: rb) = Ok true <-> map g a = map g b.
Proof.
  intros G. induction a as [|x a IH]; intros [|y b] Ha Hb; cbn [app str_equal map].
  - rewrite Z.eqb_refl. cbn [Z.eqb]. tauto.
  - inversion Hb; subst. destruct (Z.eqb_spec (g 0) (g y)) as [E|E]; [|split; discriminate]. symmetry in E. apply G in E. contradiction.
  - inversion Ha; subst. destruct (Z.eqb_spec (g x) (g 0)) as [E|E]; [|split; discriminate]. apply G in E. contradiction.
  - inversion Ha; inversion Hb; subst. destruct (Z.eqb_spec (g x) (g y)) as [E|E].
    + destruct (Z.eqb_spec x 0); [contradiction|]. rewrite IH by assumption. rewrite E. split; [intros ->; reflexivity|]. intros X. injection X as X. exact X.
    + split; [discriminate|]. intros X. injection X as X _. contradiction.
Qed.
Lemma lower_zero c : lower c = lower 0 -> c = 0.
Proof. unfold lower. cbn. destruct ((64 <? c) && (c <? 91)) eqn:E; lia. Qed.
Lemma in_upper c : In c upper_case <-> 65 <= c <= 90.
Proof.
  unfold upper_case. rewrite in_map_iff. split.
  - intros (i & <- & Hi). apply in_seq in Hi. lia.
  - intros H. exists (Z.to_nat (c - 65)). split; [lia|]. apply in_seq. lia.
Qed.
Lemma lower_same x y : lower x = lower y <-> same_letter x y.
Proof.
  split.
  - unfold lower. intros E. destruct ((64 <? x) && (x <? 91)) eqn:Ex, ((64 <? y) && (y <? 91)) eqn:Ey.
    + replace y with x by lia. constructor.
    + replace y with (x + 32) by lia. apply sl_up, in_upper. lia.
    + replace x with (y + 32) by lia. apply sl_down, in_upper. lia.
    + rewrite E. constructor.
  - intros [c|c H|c H]; [reflexivity|apply in_upper in H; unfold lower..].
    + destruct ((64 <? c) && (c <? 91)) eqn:Ex, ((64 <? c + 32) && (c + 32 <? 91)) eqn:Ey; lia.
    + destruct ((64 <? c) && (c <? 91)) eqn:Ex, ((64 <? c + 32) && (c + 32 <? 91)) eqn:Ey; lia.
Qed.

(* The case-sensitive hash reads exactly the characters up to the terminator and is a function of them. *)
Theorem C37_hash_value : forall s rest, chars s -> KH_STR_HASH (s ++ 0 :: rest) = Ok (poly s).
Proof.
  intros s rest H. unfold KH_STR_HASH. rewrite str_hash_ok; [rewrite map_id; reflexivity|apply chars_ne; exact H| |reflexivity].
  eapply Forall_impl; [|exact H]. intros c [Hc H0]. cbn beta. unfold wrap. lia.
Qed.
Print Assumptions C37_hash_value.

(* The case-insensitive equality accepts exactly the pairs that agree up to ASCII case, and these have equal hashes. *)
Theorem C37_insensitive : forall a b ra rb, chars a -> chars b ->
  (KH_STR_EQUAL_INS (a ++ 0 :: ra) (b ++ 0 :: rb) = Ok true <-> Forall2 same_letter a b) /\
  (KH_STR_EQUAL_INS (a ++ 0 :: ra) (b ++ 0 :: rb) = Ok true ->
   exists h, KH_STR_HASH_INS (a ++ 0 :: ra) = Ok h /\ KH_STR_HASH_INS (b ++ 0 :: rb) = Ok h).
Proof.
  intros a b ra rb Ha Hb. unfold KH_STR_EQUAL_INS, KH_STR_HASH_INS. rewrite (str_equal_ok lower ra rb lower_zero a b) by (apply chars_ne; assumption).
  split.
  - clear. split.
    + revert b. induction a as [|x a IH]; intros [|y b] E; try discriminate; constructor; injection E as E1 E2; [apply lower_same; exact E1|apply IH; exact E2].
    + induction 1 as [|x y a b H _ IH]; cbn [map]; [reflexivity|]. f_equal; [apply lower_same; exact H|exact IH].
  - intros E. exists (poly (map lower a)). 
    assert (X : forall s, chars s -> Forall (fun c => wrap 32 (lower c) <> 0) s).
    { intros s H. eapply Forall_impl; [|exact H]. intros c [Hc H0]. apply lower_range; assumption. }
    rewrite !str_hash_ok; auto using chars_ne. rewrite E. auto.
Qed.
Print Assumptions C37_insensitive.

(* The same for the case-sensitive pair. *)
Theorem C37_sensitive : forall a b ra rb, chars a -> chars b ->
  (KH_STR_EQUAL (a ++ 0 :: ra) (b ++ 0 :: rb) = Ok true <-> a = b).
Proof.
  intros a b ra rb Ha Hb. unfold KH_STR_EQUAL. rewrite (str_equal_ok (fun c => c) ra rb) by (auto; apply chars_ne; assumption). rewrite !map_id. tauto.
Qed.
Print Assumptions C37_sensitive.

(* So both pairs satisfy the hypothesis of the map theorem C35 (keys: strings without their terminator). *)
Definition hash_of (f : Z -> Z) (s : list Z) : nat := Z.to_nat (poly (map f s)).
Definition equal_of (f : Z -> Z) (a b : list Z) : bool := if list_eq_dec Z.eq_dec (map f a) (map f b) then true else false.
Theorem C37_consistent : forall f, consistent (hash_of f) (equal_of f).
Proof.
  intros f. unfold equal_of. constructor; intros *;
    repeat match goal with |- context [list_eq_dec ?d ?x ?y] => destruct (list_eq_dec d x y) end; try congruence.
  intros _. unfold hash_of. congruence.
Qed.
Print Assumptions C37_consistent.

(* "Hash-7" and "hASH-7" *)
Example C37_example :
  KH_STR_EQUAL_INS [72; 97; 115; 104; 45; 55; 0; 9] [104; 65; 83; 72; 45; 55; 0] = Ok true /\
  KH_STR_HASH_INS [72; 97; 115; 104; 45; 55; 0; 9] = KH_STR_HASH_INS [104; 65; 83; 72; 45; 55; 0] /\
  KH_STR_HASH [72; 97; 115; 104; 45; 55; 0; 9] <> KH_STR_HASH [104; 65; 83; 72; 45; 55; 0] /\
  KH_STR_HASH [-61; -68; 0] = Ok ((31 * (2 ^ 32 - 61) - 68) mod 2 ^ 32).
Proof. split; [reflexivity|]. split; [vm_compute; reflexivity|]. split; [vm_compute; discriminate|vm_compute; reflexivity]. Qed.
