(* Properties C164 and C165: bit fields and bit iterators. *)
From Coq Require Import ZArith List Bool Lia.
From Verif Require Import Common BitField.
Import ListNotations.
Local Open Scope Z_scope.

(* ---- what the operations do to flag number k ---- *)
Definition flag (v k : Z) : bool := Z.testbit v k.
Definition fits (w v : Z) : Prop := 0 <= v < 2 ^ w.

Definition flag_after (o : bf_op) (k : Z) (old : bool) : bool :=
  match o with
  | FSet bits => flag bits k
  | FSetMasked bits mask => if flag mask k then flag bits k else old
  | FAdd bit => if flag bit k then true else old
  | FSub bit => if flag bit k then false else old
  | FRef bit r => if flag bit k then r else old
  | FFlip bit => if flag bit k then negb old else old
  | FGroup group r => if flag group k then flag r k else old
  end.
Definition args_fit (w : Z) (o : bf_op) : Prop :=
  match o with
  | FSet b | FAdd b | FSub b | FRef b _ | FFlip b => fits w b
  | FSetMasked b mask => fits w b /\ fits w mask
  | FGroup g r => fits w g /\ fits w r
  end.

Lemma fits_bits w v : 0 <= w -> fits w v <-> (forall k, k < 0 \/ w <= k -> flag v k = false) /\ 0 <= v.
Proof.
  intros W. unfold fits, flag. split.
  - intros H. split; [|lia]. intros k [K|K]; [now apply Z.testbit_neg_r|].
    destruct (Z.eq_dec v 0) as [->|N]; [apply Z.testbit_0_l|]. apply Z.bits_above_log2; [lia|].
    apply Z.lt_le_trans with w; auto. apply Z.log2_lt_pow2; lia.
  - intros [H P]. split; auto. destruct (Z.eq_dec v 0) as [->|N]; [apply Z.pow_pos_nonneg; lia|].
    destruct (Z_lt_le_dec v (2 ^ w)) as [L|L]; auto. exfalso. assert (Q : w <= Z.log2 v) by (apply Z.log2_le_pow2; lia).
    specialize (H (Z.log2 v) (or_intror Q)). rewrite Z.bit_log2 in H by lia. discriminate.
Qed.

Lemma wrap_flag w v k : 0 <= w -> flag (wrap w v) k = if (0 <=? k) && (k <? w) then flag v k else false.
Proof.
  intros W. unfold flag, wrap. destruct (Z.leb_spec 0 k); cbn [andb]; [|now apply Z.testbit_neg_r].
  destruct (Z.ltb_spec k w); [apply Z.mod_pow2_bits_low; lia|apply Z.mod_pow2_bits_high; lia].
Qed.
Lemma wrap_fits w v : 0 <= w -> fits w (wrap w v).
Proof. intros W. unfold fits, wrap. apply Z.mod_pos_bound. apply Z.pow_pos_nonneg; lia. Qed.
Lemma bnot_flag w v k : 0 <= k < w -> flag (bnot w v) k = negb (flag v k).
Proof.
  intros K. unfold bnot. rewrite wrap_flag by lia. replace ((0 <=? k) && (k <? w)) with true by (destruct (Z.leb_spec 0 k), (Z.ltb_spec k w); auto; lia).
  apply Z.lnot_spec. lia.
Qed.

(* every operation changes exactly the flags it names, and the field stays within its type; for the masked
   assignment the bits must lie within the mask *)
Theorem C164_flags_partial :
  forall (w v : Z) (o : bf_op), 0 < w -> fits w v -> args_fit w o ->
  (forall bits mask, o = FSetMasked bits mask -> forall k, flag bits k = true -> flag mask k = true) ->
  fits w (bf_step w v o) /\ forall k, 0 <= k < w -> flag (bf_step w v o) k = flag_after o k (flag v k).
Proof.
  intros w v o W V A M.
  assert (F : forall k, 0 <= k < w -> flag (bf_step w v o) k = flag_after o k (flag v k)).
  { intros k K. destruct o as [b|b mask|b|b|b r|b|g r]; cbn [bf_step flag_after]; auto.
    - specialize (M b mask eq_refl k). unfold bf_set_masked, flag in *. rewrite !Z.lxor_spec, Z.land_spec.
      destruct (Z.testbit mask k), (Z.testbit b k), (Z.testbit v k); cbn; auto; discriminate M; auto.
    - unfold bf_add, flag. rewrite Z.lor_spec. destruct (Z.testbit v k), (Z.testbit b k); auto.
    - unfold bf_sub. unfold flag at 1. rewrite Z.land_spec. change (Z.testbit (bnot w b) k) with (flag (bnot w b) k). rewrite bnot_flag by lia.
      unfold flag. destruct (Z.testbit v k), (Z.testbit b k); auto.
    - unfold ref_assign, T_SETBIT. rewrite wrap_flag by lia. replace ((0 <=? k) && (k <? w)) with true by (destruct (Z.leb_spec 0 k), (Z.ltb_spec k w); auto; lia).
      unfold flag. rewrite Z.lor_spec, !Z.land_spec, Z.lnot_spec by lia.
      destruct r; [change (-1) with (-(1)); rewrite Z.bits_opp by lia; cbn; rewrite Z.testbit_0_l|cbn; rewrite Z.testbit_0_l]; destruct (Z.testbit v k), (Z.testbit b k); auto.
    - unfold ref_flip, flag. rewrite Z.lxor_spec. destruct (Z.testbit v k), (Z.testbit b k); auto.
    - unfold group_assign. unfold flag at 1. rewrite Z.lor_spec, !Z.land_spec. change (Z.testbit (bnot w g) k) with (flag (bnot w g) k). rewrite bnot_flag by lia.
      unfold flag. destruct (Z.testbit v k), (Z.testbit g k), (Z.testbit r k); auto. }
  split; auto.
  destruct o as [b|b mask|b|b|b r|b|g r]; cbn [bf_step args_fit] in *; auto; try (apply wrap_fits; lia).
  all: repeat match goal with H : _ /\ _ |- _ => destruct H end; apply fits_bits; [lia|].
  all: repeat match goal with H : fits _ _ |- _ => apply fits_bits in H; [destruct H|lia] end.
  all: split; [intros k K; unfold bf_set_masked, bf_add, bf_sub, ref_flip, group_assign, flag in *; rewrite ?Z.lxor_spec, ?Z.lor_spec, ?Z.land_spec, ?Z.lxor_spec, ?Z.land_spec|].
  all: try (repeat match goal with H : forall k, _ \/ _ -> Z.testbit ?x k = false |- context [Z.testbit ?x ?j] => rewrite (H j K) end; cbn; rewrite ?andb_false_r; reflexivity).
  - apply Z.lxor_nonneg. split; intros _; auto. apply Z.lxor_nonneg. split; intros _; auto. apply Z.land_nonneg. auto.
  - apply Z.lor_nonneg. auto.
  - apply Z.land_nonneg. auto.
  - apply Z.lxor_nonneg. tauto.
  - apply Z.lor_nonneg. split; apply Z.land_nonneg; auto.
Qed.
Print Assumptions C164_flags_partial.

(* without the proviso the masked assignment changes flags outside the mask *)
Theorem C164_flags_refuted :
  exists w v bits mask k, fits w v /\ fits w bits /\ fits w mask /\ 0 <= k < w /\
    flag mask k = false /\ flag (bf_step w v (FSetMasked bits mask)) k <> flag v k.
Proof. exists 8, 0, 3, 1, 1. unfold fits. repeat split; try lia; try reflexivity. discriminate. Qed.
Print Assumptions C164_flags_refuted.

(* reading: a set of flags reads as true when one of them is set, a group as the flags of the group *)
Theorem C164_read :
  forall (w v b r v2 b2 : Z), 0 < w -> fits w v -> fits w b -> fits w r ->
  (bf_get v b = true <-> exists k, 0 <= k < w /\ flag b k = true /\ flag v k = true) /\
  (ref_bool v b = bf_get v b) /\ (group_none v b = negb (bf_get v b)) /\
  (forall k, flag (group_get v b) k = flag v k && flag b k) /\
  (group_eq v b r = true <-> forall k, flag r k = flag v k && flag b k) /\
  (group_get (group_assign w v b r) b = r <-> forall k, flag r k = true -> flag b k = true) /\
  ref_copy w v b v2 b2 = ref_assign w v b (bf_get v2 b2) /\
  group_copy w v b v2 b2 = group_assign w v b (group_get v2 b2).
Proof.
  intros w v b r v2 b2 W V B R.
  assert (N : forall k, flag (Z.land v b) k = flag v k && flag b k) by (intros; apply Z.land_spec).
  split; [|split; [reflexivity|split; [|split; [exact N|split; [|split; [|split; reflexivity]]]]]].
  - unfold bf_get. split.
    + intros H. destruct (Z.eqb_spec (Z.land v b) 0) as [E|E]; [discriminate|]. exists (Z.log2 (Z.land v b)).
      assert (P : 0 <= Z.land v b) by (apply Z.land_nonneg; unfold fits in *; lia).
      assert (T : flag (Z.land v b) (Z.log2 (Z.land v b)) = true) by (apply Z.bit_log2; lia). rewrite N in T. apply andb_true_iff in T. destruct T as [T1 T2].
      split; auto. split; [apply Z.log2_nonneg|]. destruct (Z_lt_le_dec (Z.log2 (Z.land v b)) w) as [L|L]; auto. apply fits_bits in B; [|lia].
      destruct B as [B _]. rewrite B in T2 by auto. discriminate.
    + intros (k & K & T1 & T2). destruct (Z.eqb_spec (Z.land v b) 0) as [E|E]; auto. specialize (N k). rewrite E, T1, T2 in N. unfold flag in N. rewrite Z.testbit_0_l in N. discriminate.
  - unfold group_none, bf_get. now rewrite negb_involutive.
  - unfold group_eq. rewrite Z.eqb_eq. split; [intros ->; auto|]. intros H. apply Z.bits_inj. intros k. change (flag r k = flag (Z.land v b) k). now rewrite N, H.
  - unfold group_get, group_assign. pose proof (proj1 (fits_bits w b ltac:(lia)) B) as [Bb _]. pose proof (proj1 (fits_bits w r ltac:(lia)) R) as [Rb _]. split.
    + intros E k T. rewrite <- E in T. unfold flag in T. rewrite Z.land_spec in T. apply andb_true_iff in T. apply T.
    + intros H. apply Z.bits_inj. intros k. rewrite Z.land_spec, Z.lor_spec, !Z.land_spec. change (Z.testbit (bnot w b) k) with (flag (bnot w b) k).
      destruct (Z_lt_le_dec k 0) as [K|K]; [rewrite !(Z.testbit_neg_r _ k) by lia; rewrite !andb_false_r; reflexivity|].
      destruct (Z_lt_le_dec k w) as [K2|K2].
      * rewrite bnot_flag by lia. specialize (H k). unfold flag in *. destruct (Z.testbit v k), (Z.testbit b k), (Z.testbit r k); cbn; auto; specialize (H eq_refl); discriminate.
      * specialize (Bb k (or_intror K2)). specialize (Rb k (or_intror K2)). unfold flag in *. rewrite Bb, Rb, !andb_false_r. reflexivity.
Qed.
Print Assumptions C164_read.

Example C164_example : bf_step 8 0xA5 (FGroup 0x3C 0xFF) = 0xBD /\ bf_step 8 0xA5 (FSetMasked 0x18 0x3C) = 0x99 /\ fits 8 0xA5 /\
  bf_step 8 0xA5 (FRef 0x81 false) = 0x24 /\ bf_get 0x24 0x81 = false /\ bf_get 0x24 0x84 = true.
Proof. unfold fits. repeat split; try lia; reflexivity. Qed.

(* ---- C165: iterators ---- *)
Lemma shl1 k : 0 <= k -> Z.shiftl 1 k = 2 ^ k.
Proof. intros K. rewrite Z.shiftl_mul_pow2 by auto. lia. Qed.

(* ++ moves to the next position, over the end of a word *)
Lemma inc_at w k : 0 < w -> it_inc w (it_at w k) = it_at w (k + 1).
Proof.
  intros W. unfold it_inc, it_at. cbn [it_bit it_word]. pose proof (Z.mod_pos_bound k w W) as B.
  rewrite Z.shiftl_shiftl, shl1 by lia. unfold wrap. pose proof (Z.div_mod k w ltac:(lia)) as D.
  destruct (Z.eq_dec (k mod w + 1) w) as [E|E].
  - rewrite E, Z.mod_same by (apply Z.pow_nonzero; lia). cbn [Z.eqb].
    assert (k + 1 = (k / w + 1) * w) by nia. rewrite H, Z.div_mul, Z.mod_mul by lia. reflexivity.
  - rewrite Z.mod_small by (split; [apply Z.pow_nonneg; lia|apply Z.pow_lt_mono_r; lia]).
    assert (P : 0 < 2 ^ (k mod w + 1)) by (apply Z.pow_pos_nonneg; lia).
    destruct (Z.eqb_spec (2 ^ (k mod w + 1)) 0); [lia|].
    assert (Q : (k + 1) / w = k / w) by (symmetry; apply Z.div_unique with (k mod w + 1); lia).
    assert (M : (k + 1) mod w = k mod w + 1) by (symmetry; apply Z.mod_unique with (k / w); lia).
    rewrite Q, M, shl1 by lia. reflexivity.
Qed.

Lemma at_eq w j k : 0 < w -> it_eq (it_at w j) (it_at w k) = true <-> j = k.
Proof.
  intros W. unfold it_eq, it_at. cbn [it_bit it_word]. pose proof (Z.mod_pos_bound j w W). pose proof (Z.mod_pos_bound k w W).
  rewrite !shl1, andb_true_iff, !Z.eqb_eq by lia. split; [|intros ->; auto]. intros [A B]. apply Z.pow_inj_r in B; [|lia..].
  rewrite (Z.div_mod j w), (Z.div_mod k w), A, B by lia. reflexivity.
Qed.

(* -- moves to the position before, for types of at most 32 bits; iterators are equal exactly at the same
   position; a loop from the beginning visits the bits in order *)
Theorem C165_iterator_partial :
  forall w k, 0 < w <= 32 ->
  it_inc w (it_at w k) = it_at w (k + 1) /\
  it_dec w (it_at w k) = Ok (it_at w (k - 1)) /\
  (forall j, it_eq (it_at w j) (it_at w k) = true <-> j = k).
Proof.
  intros w k W. split; [apply inc_at; lia|]. split; [|intros j; apply at_eq; lia].
  unfold it_dec, it_at. cbn [it_bit it_word]. pose proof (Z.mod_pos_bound k w ltac:(lia)) as B. pose proof (Z.div_mod k w ltac:(lia)) as D.
  rewrite shl1 by lia. destruct (Z.eq_dec (k mod w) 0) as [E|E].
  - rewrite E. change (Z.shiftr (2 ^ 0) 1) with 0. cbn [Z.eqb]. destruct (Z.leb_spec 32 (w - 1)); [lia|].
    assert (Q : (k - 1) / w = k / w - 1) by (symmetry; apply Z.div_unique with (w - 1); lia).
    assert (M : (k - 1) mod w = w - 1) by (symmetry; apply Z.mod_unique with (k / w - 1); lia).
    rewrite Q, M. unfold wrap. rewrite shl1 by lia. rewrite Z.mod_small by (split; [apply Z.pow_nonneg; lia|apply Z.pow_lt_mono_r; lia]). reflexivity.
  - assert (H2 : Z.shiftr (2 ^ (k mod w)) 1 = 2 ^ (k mod w - 1)).
    { rewrite Z.shiftr_div_pow2 by lia. replace (2 ^ (k mod w)) with (2 ^ (k mod w - 1 + 1)) by (f_equal; lia). rewrite Z.pow_add_r by lia. apply Z.div_mul. lia. }
    rewrite H2.
    assert (P : 0 < 2 ^ (k mod w - 1)) by (apply Z.pow_pos_nonneg; lia). destruct (Z.eqb_spec (2 ^ (k mod w - 1)) 0); [lia|].
    assert (Q : (k - 1) / w = k / w) by (symmetry; apply Z.div_unique with (k mod w - 1); lia).
    assert (M : (k - 1) mod w = k mod w - 1) by (symmetry; apply Z.mod_unique with (k / w); lia).
    rewrite Q, M, shl1 by lia. reflexivity.
Qed.
Print Assumptions C165_iterator_partial.

(* for a 64 bit type, -- at the first bit of a word shifts an int by 63 *)
Theorem C165_iterator_refuted : exists k, it_dec 64 (it_at 64 k) <> Ok (it_at 64 (k - 1)).
Proof. exists 64. vm_compute. discriminate. Qed.
Print Assumptions C165_iterator_refuted.

Lemma ref_bool_pow v k : 0 <= k -> ref_bool v (2 ^ k) = flag v k.
Proof.
  intros K. unfold ref_bool, flag. destruct (Z.eqb_spec (Z.land v (2 ^ k)) 0) as [E|E]; cbn [negb].
  - assert (X : Z.testbit (Z.land v (2 ^ k)) k = false) by (rewrite E; apply Z.testbit_0_l).
    rewrite Z.land_spec, Z.pow2_bits_true, andb_true_r in X by auto. auto.
  - destruct (Z.testbit v k) eqn:T; auto. exfalso. apply E. apply Z.bits_inj. intros j. rewrite Z.land_spec, Z.testbit_0_l.
    destruct (Z.eq_dec j k) as [->|N]; [now rewrite T|]. rewrite Z.pow2_bits_false by auto. apply andb_false_r.
Qed.

(* bit k of an array of words *)
Definition nth_bit (w : Z) (words : list Z) (k : Z) : bool := flag (nth (Z.to_nat (k / w)) words 0) (k mod w).

Theorem C165_walk :
  forall w words n k, 0 < w -> 0 <= k -> k + Z.of_nat n <= w * Z.of_nat (length words) ->
  it_walk w words (it_at w k) n = Ok (map (fun i => nth_bit w words (k + Z.of_nat i)) (seq 0 n)).
Proof.
  intros w words n. induction n as [|n IH]; intros k W K L; [reflexivity|]. cbn [it_walk].
  assert (B : 0 <= k / w < Z.of_nat (length words)) by (split; [apply Z.div_pos; lia|apply Z.div_lt_upper_bound; lia]).
  unfold it_get at 1. unfold it_at at 1 2 3. cbn [it_word it_bit]. destruct (Z.ltb_spec (k / w) 0); [lia|].
  unfold get. rewrite (nth_error_nth' words 0) by lia. cbn [bind]. pose proof (Z.mod_pos_bound k w W).
  rewrite shl1, ref_bool_pow, inc_at, IH by lia. cbn [bind seq map]. do 2 f_equal.
  - unfold nth_bit. now rewrite Z.add_0_r.
  - rewrite <- seq_shift, map_map. apply map_ext. intros i. f_equal. lia.
Qed.
Print Assumptions C165_walk.

Example C165_example : it_walk 8 [0x81; 0x03] (it_at 8 7) 4 = Ok [true; true; true; false] /\
  it_dec 32 (it_at 32 64) = Ok (it_at 32 63) /\ 7 + Z.of_nat 4 <= 8 * Z.of_nat (length [0x81; 0x03]).
Proof. repeat split; vm_compute; congruence. Qed.
