(* Property C54: the xorshift generators never get stuck at zero and lose no state. *)
From Coq Require Import List NArith ZArith Arith Bool Lia Znumtheory Zpow_facts.
From Verif Require Import Common Xorshift.
Import ListNotations.
Open Scope N_scope.

(* --- specification --- *)
Definition word (x : N) : Prop := x < 2 ^ 64.
(* a state of xorshift1024star: 16 words and an index into them *)
Definition good (s : state) : Prop := length (words s) = 16%nat /\ (forall x, In x (words s) -> word x) /\ index s < 16.
Definition nonzero (s : state) : Prop := exists x, In x (words s) /\ x <> 0.

(* --- bits --- *)
Lemma word_bits x : word x <-> forall i, 64 <= i -> N.testbit x i = false.
Proof.
  unfold word. split.
  - intros H i Hi. destruct (N.eq_dec x 0) as [->|N0]; [apply N.bits_0|]. apply N.bits_above_log2. apply N.log2_lt_pow2 in H; lia.
  - intros H. destruct (N.eq_dec x 0) as [->|N0]; [reflexivity|]. apply N.log2_lt_pow2; [lia|]. destruct (N.lt_ge_cases (N.log2 x) 64) as [L|L]; [exact L|].
    exfalso. specialize (H _ L). rewrite N.bit_log2 in H by exact N0. discriminate.
Qed.
Lemma w64_bits x i : N.testbit (w64 x) i = if i <? 64 then N.testbit x i else false.
Proof. unfold w64. destruct (N.ltb_spec i 64) as [H|H]; [apply N.mod_pow2_bits_low; exact H|apply N.mod_pow2_bits_high; exact H]. Qed.
Lemma w64_word x : word (w64 x).
Proof. unfold word, w64. apply N.mod_lt. discriminate. Qed.
Lemma lxor_word x y : word x -> word y -> word (N.lxor x y).
Proof. rewrite !word_bits. intros H1 H2 i Hi. rewrite N.lxor_spec, H1, H2 by exact Hi. reflexivity. Qed.
Lemma shr_word k x : word x -> word (N.shiftr x k).
Proof. rewrite !word_bits. intros H i Hi. rewrite N.shiftr_spec by lia. apply H. lia. Qed.
Lemma xshr_word k x : word x -> word (xshr k x).
Proof. intros H. apply lxor_word; [exact H|apply shr_word; exact H]. Qed.
Lemma xshl_word k x : word x -> word (xshl k x).
Proof. intros H. apply lxor_word; [exact H|apply w64_word]. Qed.
(* applying the same shift twice is one shift of twice the distance, and a shift by 64 or more does nothing *)
Lemma xshr_twice k x : xshr k (xshr k x) = xshr (k + k) x.
Proof.
  unfold xshr. rewrite N.shiftr_lxor, N.shiftr_shiftr. rewrite N.lxor_assoc. f_equal. rewrite <- N.lxor_assoc, N.lxor_nilpotent. apply N.lxor_0_l.
Qed.
Lemma xshr_big k x : word x -> 64 <= k -> xshr k x = x.
Proof.
  intros H Hk. unfold xshr. replace (N.shiftr x k) with 0; [apply N.lxor_0_r|]. apply N.bits_inj. intros i. rewrite N.bits_0, N.shiftr_spec by lia.
  symmetry. apply word_bits; [exact H|lia].
Qed.
Definition shl (k x : N) : N := w64 (N.shiftl x k).
Lemma shl_bits k x i : N.testbit (shl k x) i = if (k <=? i) && (i <? 64) then N.testbit x (i - k) else false.
Proof.
  unfold shl. rewrite w64_bits. destruct (N.ltb_spec i 64); [|rewrite andb_false_r; reflexivity]. rewrite andb_true_r.
  destruct (N.leb_spec k i); [apply N.shiftl_spec_high; lia|apply N.shiftl_spec_low; lia].
Qed.
Lemma shl_lxor k x y : shl k (N.lxor x y) = N.lxor (shl k x) (shl k y).
Proof. apply N.bits_inj. intros i. rewrite N.lxor_spec, !shl_bits. destruct (_ && _); [apply N.lxor_spec|reflexivity]. Qed.
Lemma shl_shl k x : shl k (shl k x) = shl (k + k) x.
Proof.
  apply N.bits_inj. intros i. rewrite !shl_bits. destruct (N.leb_spec k i); destruct (N.ltb_spec i 64); cbn [andb]; rewrite ?andb_false_r; try reflexivity.
  - destruct (N.ltb_spec (i - k) 64); [|lia]. rewrite !andb_true_r. destruct (N.leb_spec k (i - k)); destruct (N.leb_spec (k + k) i); try lia; try reflexivity; f_equal; lia.
  - destruct (N.leb_spec (k + k) i); [lia|reflexivity].
Qed.
Lemma xshl_twice k x : xshl k (xshl k x) = xshl (k + k) x.
Proof.
  change (N.lxor (N.lxor x (shl k x)) (shl k (N.lxor x (shl k x))) = N.lxor x (shl (k + k) x)). rewrite shl_lxor, shl_shl.
  rewrite N.lxor_assoc. f_equal. rewrite <- N.lxor_assoc, N.lxor_nilpotent. apply N.lxor_0_l.
Qed.
Lemma xshl_big k x : 64 <= k -> xshl k x = x.
Proof.
  intros Hk. change (N.lxor x (shl k x) = x). replace (shl k x) with 0; [apply N.lxor_0_r|]. apply N.bits_inj. intros i. rewrite N.bits_0, shl_bits.
  destruct (N.leb_spec k i); destruct (N.ltb_spec i 64); try lia; reflexivity.
Qed.
Definition inverse (f g : N -> N) : Prop := (forall x, word x -> word (f x)) /\ (forall x, word x -> word (g x)) /\ (forall x, word x -> g (f x) = x) /\ (forall x, word x -> f (g x) = x).
Lemma inverse_comp f g f' g' : inverse f g -> inverse f' g' -> inverse (fun x => f' (f x)) (fun x => g (g' x)).
Proof.
  intros (A & B & C & D) (A' & B' & C' & D'). split; [auto|]. split; [auto|]. split; intros x H.
  - rewrite C' by auto. auto.
  - rewrite D by auto. auto.
Qed.
Lemma xshr_comm j k x : xshr j (xshr k x) = xshr k (xshr j x).
Proof.
  unfold xshr. rewrite !N.shiftr_lxor, !N.shiftr_shiftr, (N.add_comm k j). rewrite !N.lxor_assoc. f_equal. rewrite <- !N.lxor_assoc. f_equal. apply N.lxor_comm.
Qed.
Lemma xshl_comm j k x : xshl j (xshl k x) = xshl k (xshl j x).
Proof.
  change (N.lxor (N.lxor x (shl k x)) (shl j (N.lxor x (shl k x))) = N.lxor (N.lxor x (shl j x)) (shl k (N.lxor x (shl j x)))). rewrite !shl_lxor.
  replace (shl j (shl k x)) with (shl k (shl j x)).
  { rewrite !N.lxor_assoc. f_equal. rewrite <- !N.lxor_assoc. f_equal. apply N.lxor_comm. }
  apply N.bits_inj. intros i. rewrite !shl_bits. destruct (N.leb_spec k i); destruct (N.leb_spec j i); destruct (N.ltb_spec i 64); cbn [andb]; try reflexivity; rewrite ?andb_false_r.
  - destruct (N.ltb_spec (i - k) 64); [|lia]. destruct (N.ltb_spec (i - j) 64); [|lia]. rewrite !andb_true_r. destruct (N.leb_spec j (i - k)); destruct (N.leb_spec k (i - j)); try lia; try reflexivity; f_equal; lia.
  - destruct (N.leb_spec j (i - k)); [lia|reflexivity].
  - destruct (N.leb_spec k (i - j)); [lia|reflexivity].
Qed.
(* k = 11: 11+11+22+44+... ; five doublings reach 64 for every k >= 2 *)
Definition unshr (k x : N) : N := xshr k (xshr (k + k) (xshr (k + k + (k + k)) (xshr (k + k + (k + k) + (k + k + (k + k))) x))).
Definition unshl (k x : N) : N := xshl k (xshl (k + k) (xshl (k + k + (k + k)) x)).
Lemma shr_inverse k : 4 <= k -> inverse (xshr k) (unshr k).
Proof.
  intros Hk. assert (E : forall x, word x -> xshr k (unshr k x) = x).
  { intros x H. unfold unshr. rewrite !xshr_twice. apply xshr_big; [exact H|lia]. }
  split; [intros; apply xshr_word; assumption|]. split; [intros; repeat apply xshr_word; assumption|]. split; [|exact E].
  intros x H. rewrite <- (E x H) at 2. unfold unshr. rewrite !(xshr_comm _ k). reflexivity.
Qed.
Lemma shl_inverse k : 8 <= k -> inverse (xshl k) (unshl k).
Proof.
  intros Hk. assert (E : forall x, word x -> xshl k (unshl k x) = x).
  { intros x H. unfold unshl. rewrite !xshl_twice. apply xshl_big. lia. }
  split; [intros; apply xshl_word; assumption|]. split; [intros; repeat apply xshl_word; assumption|]. split; [|exact E].
  intros x H. rewrite <- (E x H) at 2. unfold unshl. rewrite !(xshl_comm _ k). reflexivity.
Qed.
Definition prev64 (x : N) : N := unshr 12 (unshl 25 (unshr 27 x)).
Lemma next64_inverse : inverse next64 prev64.
Proof.
  exact (inverse_comp _ _ _ _ (inverse_comp _ _ _ _ (shr_inverse 12 ltac:(lia)) (shl_inverse 25 ltac:(lia))) (shr_inverse 27 ltac:(lia))).
Qed.
Lemma next64_0 : next64 0 = 0. Proof. reflexivity. Qed.
Lemma inverse_nonzero f g x : inverse f g -> f 0 = 0 -> word x -> x <> 0 -> f x <> 0.
Proof. intros (A & B & C & D) Z H Nz E. apply Nz. rewrite <- (C x H), E. pose proof (C 0 ltac:(reflexivity)) as C0. rewrite Z in C0. exact C0. Qed.

(* C54, 64 bits: the state transition is a bijection of the 64-bit words that maps nonzero words to nonzero words. *)
Theorem C54_xorshift64 : (forall x, word x -> word (fst (xorshift64star x))) /\
  (forall y, word y -> exists x, word x /\ fst (xorshift64star x) = y /\ forall x', word x' -> fst (xorshift64star x') = y -> x' = x) /\
  (forall x, word x -> x <> 0 -> fst (xorshift64star x) <> 0).
Proof.
  unfold xorshift64star. cbn [fst]. pose proof next64_inverse as (A & B & C & D). split; [exact A|]. split.
  - intros y H. exists (prev64 y). split; [auto|]. split; [auto|]. intros x' H' E. rewrite <- (C x' H'), E. reflexivity.
  - intros x H N. apply (inverse_nonzero _ _ x next64_inverse); auto.
Qed.
Print Assumptions C54_xorshift64.

(* --- 1024 bits --- *)
Lemma odd_mul x m : N.odd m = true -> word x -> x <> 0 -> w64 (x * m) <> 0.
Proof.
  intros Hm H N E. unfold w64 in E. apply N.mod_divide in E; [|discriminate]. destruct E as [q E].
  assert (G : (Z.of_N (2 ^ 64) | Z.of_N x)%Z).
  { apply (Z.gauss _ (Z.of_N m)); [exists (Z.of_N q); rewrite <- !N2Z.inj_mul; f_equal; lia|].
    rewrite N2Z.inj_pow. apply Zgcd_1_rel_prime. apply rel_prime_sym, rel_prime_Zpower_r; [lia|]. apply Zgcd_1_rel_prime.
    assert (O : Z.odd (Z.of_N m) = true) by (rewrite <- Hm; destruct m as [|p]; [discriminate|destruct p; reflexivity]).
    apply Zodd_bool_iff in O. apply Zodd_ex in O. destruct O as [k ->]. rewrite Z.gcd_comm, Z.add_comm, Z.mul_comm, Z.gcd_add_mult_diag_r. reflexivity. }
  apply Z.divide_pos_le in G; [unfold word in H; lia|lia].
Qed.
Lemma outputs_ok n : forall x, word x -> x <> 0 -> length (outputs n x) = n /\ forall y, In y (outputs n x) -> word y /\ y <> 0.
Proof.
  induction n as [|n IH]; intros x H N; cbn [outputs xorshift64star]; [split; [reflexivity|intros y []]|].
  pose proof next64_inverse as NI. pose proof (proj1 NI x H) as H'. pose proof (inverse_nonzero _ _ x NI eq_refl H N) as N'.
  destruct (IH _ H' N') as [L F]. split; [cbn [length]; rewrite L; reflexivity|]. intros y [<-|Hy]; [|auto]. split; [apply w64_word|]. apply odd_mul; auto.
Qed.
Definition x1part (x : N) : N := xshr 11 (xshl 31 x).
Definition x1back (x : N) : N := unshl 31 (unshr 11 x).
Lemma x1_inverse : inverse x1part x1back.
Proof. exact (inverse_comp _ _ _ _ (shl_inverse 31 ltac:(lia)) (shr_inverse 11 ltac:(lia))). Qed.
Definition nexti (i : N) : N := if i =? 15 then 0 else i + 1.
Lemma next_index i : i < 16 -> N.land (w64 (i + 1)) 15 = nexti i.
Proof.
  intros H. change 15 with (N.ones 4). rewrite N.land_ones. unfold w64. rewrite N.mod_small with (b := 2 ^ 64) by (change (2 ^ 64) with 18446744073709551616; lia). change (2 ^ 4) with 16.
  unfold nexti. change (N.ones 4) with 15. destruct (N.eqb_spec i 15) as [->|Hn]; [reflexivity|]. apply N.mod_small. lia.
Qed.
Lemma nexti_lt i : i < 16 -> nexti i < 16 /\ nexti i <> i.
Proof. unfold nexti. destruct (N.eqb_spec i 15); lia. Qed.
Lemma nexti_inj i j : i < 16 -> j < 16 -> nexti i = nexti j -> i = j.
Proof. unfold nexti. destruct (N.eqb_spec i 15); destruct (N.eqb_spec j 15); lia. Qed.
(* the step, written out *)
Lemma step_form s : good s -> exists x0 x1, nth_error (words s) (N.to_nat (index s)) = Some x0 /\ nth_error (words s) (N.to_nat (nexti (index s))) = Some x1 /\ word x0 /\ word x1 /\
  exists r, xorshift1024star s = Ok (mk (upd (words s) (N.to_nat (nexti (index s))) (N.lxor (xshr 30 x0) (x1part x1))) (nexti (index s)), r).
Proof.
  intros (L & W & I). destruct (nexti_lt _ I) as [I' Ne]. destruct (nth_error_ex (words s) (N.to_nat (index s)) ltac:(lia)) as [x0 E0].
  destruct (nth_error_ex (words s) (N.to_nat (nexti (index s))) ltac:(lia)) as [x1 E1].
  exists x0, x1. split; [exact E0|]. split; [exact E1|]. split; [apply W; eapply nth_error_In; exact E0|]. split; [apply W; eapply nth_error_In; exact E1|].
  unfold xorshift1024star. rewrite (get_some _ _ _ E0). cbn [bind]. rewrite next_index by exact I. rewrite (get_some _ _ _ E1). cbn [bind].
  rewrite set_ok by lia. cbn [bind]. eexists. reflexivity.
Qed.
Lemma upd_in {A} (l : list A) i v x : In x (upd l i v) -> x = v \/ In x l.
Proof.
  intros H. apply In_nth_error in H. destruct H as [j E]. rewrite nth_error_upd in E. destruct (Nat.eqb i j && Nat.ltb i (length l))%bool; [injection E as <-; auto|]. right. eapply nth_error_In; exact E.
Qed.
Lemma step_good s : good s -> exists s' r, xorshift1024star s = Ok (s', r) /\ good s' /\ (nonzero s -> nonzero s').
Proof.
  intros G. pose proof G as (L & W & I). destruct (nexti_lt _ I) as [I' Ne]. destruct (step_form s G) as (x0 & x1 & E0 & E1 & W0 & W1 & r & E). rewrite E. do 2 eexists. split; [reflexivity|].
  set (y := N.lxor (xshr 30 x0) (x1part x1)). assert (Wy : word y) by (apply lxor_word; [apply xshr_word; exact W0|apply (proj1 x1_inverse); exact W1]). split.
  - split; cbn [words index]; [rewrite upd_length; exact L|]. split; [|exact I']. intros x Hx. apply upd_in in Hx. destruct Hx as [->|Hx]; auto.
  - intros (z & Hz & Nz). cbn [words]. unfold nonzero. cbn [words]. apply In_nth_error in Hz. destruct Hz as [j Ej].
    destruct (Nat.eq_dec (N.to_nat (nexti (index s))) j) as [<-|Nj]; [|exists z; split; [|exact Nz]; eapply nth_error_In with (n := j); rewrite nth_error_upd_neq by exact Nj; exact Ej].
    rewrite E1 in Ej. injection Ej as ->. destruct (N.eq_dec x0 0) as [->|N0].
    + exists y. split; [eapply nth_error_In with (n := N.to_nat (nexti (index s))); apply nth_error_upd_eq; lia|]. unfold y. change (xshr 30 0) with 0. rewrite N.lxor_0_l. apply (inverse_nonzero _ _ z x1_inverse); auto.
    + exists x0. split; [|exact N0]. eapply nth_error_In with (n := N.to_nat (index s)). rewrite nth_error_upd_neq by lia. exact E0.
Qed.

(* C54, 1024 bits: seeding from a nonzero word gives a nonzero state with index 0; in every good state the step is defined
   and leads to a good state (16 words, index below 16), nonzero if the state was; so this holds after any number of steps. *)
Theorem C54_xorshift1024 :
  (forall x, word x -> x <> 0 -> good (GenXor1024Seed x) /\ nonzero (GenXor1024Seed x)) /\
  (forall s k, good s -> exists s', steps k s = Ok s' /\ good s' /\ (nonzero s -> nonzero s')).
Proof.
  split.
  - intros x H N. unfold GenXor1024Seed, xorshift64star. pose proof next64_inverse as NI. pose proof (proj1 NI x H) as H'. pose proof (inverse_nonzero _ _ x NI eq_refl H N) as N'.
    destruct (outputs_ok 16 _ H' N') as [L F]. split.
    + split; [exact L|]. split; [intros y Hy; apply F, Hy|reflexivity].
    + cbn [outputs] in *. unfold xorshift64star in *. eexists. split; [left; reflexivity|]. apply F. left. reflexivity.
  - intros s k. revert s. induction k as [|k IH]; intros s G; cbn [steps]; [exists s; auto|]. destruct (step_good s G) as (s1 & r & E & G1 & N1). rewrite E. cbn [bind].
    destruct (IH s1 G1) as (s' & E' & G' & N'). exists s'. auto.
Qed.
Print Assumptions C54_xorshift1024.
(* ... and the step loses no state: it is a bijection of the good states. *)
Theorem C54_xorshift1024_bijective : forall t, good t -> exists s, good s /\ (exists r, xorshift1024star s = Ok (t, r)) /\
  forall s' r', good s' -> xorshift1024star s' = Ok (t, r') -> s' = s.
Proof.
  intros [tw ti] G. pose proof G as (L & W & I). cbn [words index] in *. set (i := if ti =? 0 then 15 else ti - 1).
  assert (Hi : i < 16 /\ nexti i = ti) by (unfold i, nexti; destruct (N.eqb_spec ti 0); [subst; split; reflexivity|destruct (N.eqb_spec (ti - 1) 15); lia]). destruct Hi as [Hi Ei].
  destruct (nexti_lt i Hi) as [_ Ne]. rewrite Ei in Ne.
  destruct (nth_error_ex tw (N.to_nat i) ltac:(lia)) as [x0 E0]. destruct (nth_error_ex tw (N.to_nat ti) ltac:(lia)) as [y Ey].
  assert (W0 : word x0) by (apply W; eapply nth_error_In; exact E0). assert (Wy : word y) by (apply W; eapply nth_error_In; exact Ey).
  set (x1 := x1back (N.lxor y (xshr 30 x0))). pose proof x1_inverse as (A & B & C & D).
  assert (W1 : word x1) by (apply B, lxor_word; [exact Wy|apply xshr_word; exact W0]).
  assert (Back : N.lxor (xshr 30 x0) (x1part x1) = y).
  { unfold x1. rewrite D by (apply lxor_word; [exact Wy|apply xshr_word; exact W0]). rewrite (N.lxor_comm y), <- N.lxor_assoc, N.lxor_nilpotent. apply N.lxor_0_l. }
  set (s := mk (upd tw (N.to_nat ti) x1) i).
  assert (Gs : good s). { split; cbn [words index s]; [rewrite upd_length; exact L|]. split; [|exact Hi]. intros x Hx. apply upd_in in Hx. destruct Hx as [->|Hx]; auto. }
  exists s. split; [exact Gs|]. split.
  - destruct (step_form s Gs) as (z0 & z1 & F0 & F1 & _ & _ & r & E). exists r. rewrite E. cbn [words index s] in *. rewrite Ei in *.
    rewrite nth_error_upd_neq in F0 by lia. rewrite E0 in F0. injection F0 as <-. rewrite nth_error_upd_eq in F1 by lia. injection F1 as <-. rewrite Back, upd_upd. rewrite (upd_same tw _ _ Ey). reflexivity.
  - intros [sw si] r' G' E. destruct (step_form _ G') as (z0 & z1 & F0 & F1 & V0 & V1 & r & E'). rewrite E' in E. injection E as Ew Ej _. cbn [words index] in *.
    assert (Hj : si = i). { apply nexti_inj; [apply G'|exact Hi|]. rewrite Ej, Ei. reflexivity. } subst si. rewrite Ej in *. unfold s. f_equal.
    assert (z0 = x0). { rewrite <- Ew in E0. rewrite nth_error_upd_neq in E0 by lia. congruence. } subst z0.
    pose proof G' as (L' & _ & _). cbn [words] in L'.
    assert (z1 = x1). { rewrite <- Ew in Ey. rewrite nth_error_upd_eq in Ey by lia. injection Ey as <-. unfold x1. rewrite (N.lxor_comm (xshr 30 x0)), N.lxor_assoc, N.lxor_nilpotent, N.lxor_0_r. rewrite C by exact V1. reflexivity. } subst z1.
    rewrite <- Ew, upd_upd. symmetry. apply upd_same. exact F1.
Qed.
Print Assumptions C54_xorshift1024_bijective.
(* Seeding from 0 (which seed() can draw from random_device), or never seeding XorshiftRand's static state, leaves the
   generator in the state of zeros, where every result is 0. *)
Theorem C54_zero_seed_refuted : GenXor1024Seed 0 = mk (repeat 0 16) 0 /\
  forall i, i < 16 -> xorshift1024star (mk (repeat 0 16) i) = Ok (mk (repeat 0 16) (nexti i), 0).
Proof.
  split; [vm_compute; reflexivity|]. intros i H.
  assert (C : i = 0 \/ i = 1 \/ i = 2 \/ i = 3 \/ i = 4 \/ i = 5 \/ i = 6 \/ i = 7 \/ i = 8 \/ i = 9 \/ i = 10 \/ i = 11 \/ i = 12 \/ i = 13 \/ i = 14 \/ i = 15) by lia.
  repeat (destruct C as [->|C]; [vm_compute; reflexivity|]). subst i. vm_compute. reflexivity.
Qed.
Print Assumptions C54_zero_seed_refuted.

Example C54_example : word 88172645463325252 /\ xorshift64star 1 = (33554433, 5180492295206395165) /\ good (GenXor1024Seed 1) /\ nonzero (GenXor1024Seed 1) /\
  exists s, steps 20 (GenXor1024Seed 1) = Ok s /\ index s = 4.
Proof.
  split; [reflexivity|]. split; [vm_compute; reflexivity|]. destruct C54_xorshift1024 as [H _]. destruct (H 1 eq_refl ltac:(discriminate)) as [G N]. split; [exact G|]. split; [exact N|].
  eexists. split; [vm_compute; reflexivity|reflexivity].
Qed.
