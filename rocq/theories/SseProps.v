(* C177-C179: the integer vectors. *)
From Coq Require Import ZArith List Bool Lia ZifyBool ZifyNat.
From Verif Require Import Common Sse.
Import ListNotations.
Local Open Scope Z_scope.

(** The widths of the elements of sseVeci8, sseVeci16, sseVeci and sseVeci64. *)
Definition width (w : Z) : Prop := w = 8 \/ w = 16 \/ w = 32 \/ w = 64.
(** Element i as signed number. *)
Definition elem (w x : Z) (i : nat) : Z := sgn w (lane w x i).

Lemma width_pos w : width w -> 0 < w.
Proof. unfold width. lia. Qed.
Lemma lane_range w x i : 0 <= w -> 0 <= lane w x i < 2 ^ w.
Proof. intros W. apply Z.mod_pos_bound, Z.pow_pos_nonneg; lia. Qed.

Lemma lane_pack w : 0 < w -> forall l i, Forall (fun x => 0 <= x < 2 ^ w) l -> lane w (pack w l) i = nth i l 0.
Proof.
  intros W l. assert (P : 0 < 2 ^ w) by (apply Z.pow_pos_nonneg; lia). induction l as [|x l IH]; intros i F.
  - unfold lane. cbn [pack]. rewrite Z.div_0_l by (apply Z.pow_nonzero; lia). rewrite Z.mod_0_l by lia. destruct i; reflexivity.
  - inversion F as [|? ? X F']; subst. cbn [pack]. destruct i as [|i].
    + unfold lane. rewrite Z.mul_0_r, Z.pow_0_r, Z.div_1_r. cbn [nth]. rewrite Z.mul_comm, Z.mod_add by lia. apply Z.mod_small. exact X.
    + cbn [nth]. rewrite <- (IH i F'). unfold lane. f_equal. replace (w * Z.of_nat (S i)) with (w + w * Z.of_nat i) by lia.
      rewrite Z.pow_add_r by lia. rewrite <- Z.div_div by (try apply Z.pow_pos_nonneg; try apply Z.pow_nonzero; lia). f_equal.
      rewrite (Z.mul_comm (2 ^ w) (pack w l)), Z.div_add by lia. rewrite (Z.div_small x) by lia. reflexivity.
Qed.
Lemma lanes_nth w x i : (i < count w)%nat -> nth i (lanes w x) 0 = lane w x i.
Proof.
  intros L. unfold lanes. rewrite (nth_indep _ 0 (lane w x 0)) by (rewrite map_length, seq_length; exact L). rewrite map_nth. rewrite seq_nth by exact L. reflexivity.
Qed.
Lemma lanes_length w x : length (lanes w x) = count w.
Proof. unfold lanes. rewrite map_length, seq_length. reflexivity. Qed.
Lemma lane_lift1 w f a i : 0 < w -> (i < count w)%nat -> (forall x, 0 <= x < 2 ^ w -> 0 <= f x < 2 ^ w) -> lane w (lift1 w f a) i = f (lane w a i).
Proof.
  intros W I R. unfold lift1. rewrite lane_pack; [|exact W|].
  - rewrite (nth_indep _ 0 (f 0)) by (rewrite map_length, lanes_length; exact I). rewrite map_nth, lanes_nth by exact I. reflexivity.
  - apply Forall_forall. intros y Hy. apply in_map_iff in Hy. destruct Hy as [x [<- Hx]]. apply R. unfold lanes in Hx. apply in_map_iff in Hx. destruct Hx as [k [<- _]]. apply lane_range. lia.
Qed.
Lemma lane_lift2 w f a b i : 0 < w -> (i < count w)%nat -> (forall x y, 0 <= f x y < 2 ^ w) -> lane w (lift2 w f a b) i = f (lane w a i) (lane w b i).
Proof.
  intros W I R. unfold lift2. rewrite lane_pack; [|exact W|].
  - rewrite (nth_indep _ 0 (f (fst (0, 0)) (snd (0, 0)))) by (rewrite map_length, combine_length, !lanes_length; lia).
    rewrite (map_nth (fun p => f (fst p) (snd p))). rewrite combine_nth by (rewrite !lanes_length; reflexivity). cbn [fst snd]. rewrite !lanes_nth by exact I. reflexivity.
  - apply Forall_forall. intros y Hy. apply in_map_iff in Hy. destruct Hy as [x [<- _]]. apply R.
Qed.
Lemma lane_set1 w v i : 0 < w -> (i < count w)%nat -> lane w (mm_set1 w v) i = wrap w v.
Proof.
  intros W I. unfold mm_set1. rewrite lane_pack; [|exact W|].
  - apply nth_repeat_lt || (rewrite nth_repeat; reflexivity) || idtac. revert I. generalize (count w) as n. revert i. induction i as [|i IH]; intros [|n] L; try lia; cbn; [reflexivity|apply IH; lia].
  - apply Forall_forall. intros y Hy. apply repeat_spec in Hy. subst y. apply Z.mod_pos_bound, Z.pow_pos_nonneg; lia.
Qed.

Lemma lane_bit w x i k : 0 < w -> 0 <= k -> Z.testbit (lane w x i) k = (k <? w) && Z.testbit x (k + w * Z.of_nat i).
Proof.
  intros W K. unfold lane. destruct (Z.ltb_spec k w).
  - rewrite Z.mod_pow2_bits_low by lia. rewrite Z.div_pow2_bits by lia. reflexivity.
  - apply Z.mod_pow2_bits_high. lia.
Qed.
Lemma lane_op (op : Z -> Z -> Z) (f : bool -> bool -> bool) w a b i : f false false = false -> (forall x y k, Z.testbit (op x y) k = f (Z.testbit x k) (Z.testbit y k)) -> 0 < w ->
  lane w (op a b) i = op (lane w a i) (lane w b i).
Proof.
  intros F0 S W. apply Z.bits_inj'. intros k K. rewrite S, !lane_bit, S by lia. destruct (k <? w); [reflexivity|]. symmetry. exact F0.
Qed.
Lemma lane_and w a b i : 0 < w -> lane w (mm_and a b) i = Z.land (lane w a i) (lane w b i).
Proof. intros W. apply (lane_op Z.land andb); auto. intros. apply Z.land_spec. Qed.
Lemma lane_or w a b i : 0 < w -> lane w (mm_or a b) i = Z.lor (lane w a i) (lane w b i).
Proof. intros W. apply (lane_op Z.lor orb); auto. intros. apply Z.lor_spec. Qed.
Lemma lane_xor w a b i : 0 < w -> lane w (mm_xor a b) i = Z.lxor (lane w a i) (lane w b i).
Proof. intros W. apply (lane_op Z.lxor xorb); auto. intros. apply Z.lxor_spec. Qed.
Lemma lane_andnot w a b i : 0 < w -> lane w (mm_andnot a b) i = Z.ldiff (lane w b i) (lane w a i).
Proof. intros W. apply (lane_op (fun a b => Z.ldiff b a) (fun x y => y && negb x)); auto. intros. apply Z.ldiff_spec. Qed.

Lemma ones_range w c : 0 <= w -> 0 <= ones w c < 2 ^ w.
Proof. intros W. pose proof (Z.pow_pos_nonneg 2 w ltac:(lia) W). unfold ones. destruct c; lia. Qed.
Lemma xor_ones w x : 0 <= w -> 0 <= x < 2 ^ w -> Z.lxor x (2 ^ w - 1) = 2 ^ w - 1 - x.
Proof.
  intros W X. replace (2 ^ w - 1) with (Z.ones w) by (rewrite Z.ones_equiv; lia).
  assert (H : forall k, Z.testbit x k = true -> 0 <= k < w).
  { intros k T. destruct (Z_lt_le_dec k 0); [rewrite Z.testbit_neg_r in T by lia; discriminate|]. split; [lia|]. destruct (Z_lt_le_dec k w); [lia|].
    rewrite <- (Z.mod_small x (2 ^ w)) in T by lia. rewrite Z.mod_pow2_bits_high in T by lia. discriminate. }
  rewrite Z.sub_nocarry_ldiff.
  - apply Z.bits_inj'. intros k K. rewrite Z.lxor_spec, Z.ldiff_spec. specialize (H k). destruct (Z.testbit x k).
    + rewrite Z.ones_spec_low by (apply H; reflexivity). reflexivity.
    + destruct (Z.testbit (Z.ones w) k); reflexivity.
  - apply Z.bits_inj'. intros k K. rewrite Z.ldiff_spec, Z.bits_0. specialize (H k). destruct (Z.testbit x k); [|reflexivity]. rewrite Z.ones_spec_low by (apply H; reflexivity). reflexivity.
Qed.
Lemma lane_zero w i : 0 < w -> lane w 0 i = 0.
Proof. intros W. unfold lane. rewrite Z.div_0_l by (apply Z.pow_nonzero; lia). apply Z.mod_0_l. apply Z.pow_nonzero; lia. Qed.
Lemma sgn_inj w x y : 0 < w -> 0 <= x < 2 ^ w -> 0 <= y < 2 ^ w -> sgn w x = sgn w y -> x = y.
Proof.
  intros W X Y E. unfold sgn in E. rewrite !Z.mod_small in E by assumption.
  repeat match type of E with context [if ?c then _ else _] => destruct c end; lia.
Qed.

(** Every operator works on each element on its own: sums and differences modulo 2^w, the bits, the complement. *)
Theorem C177_elements : forall w a b i, width w -> (i < count w)%nat ->
  lane w (vadd w a b) i = (lane w a i + lane w b i) mod 2 ^ w /\
  lane w (vsub w a b) i = (lane w a i - lane w b i) mod 2 ^ w /\
  (forall k, 0 <= k < w ->
     Z.testbit (lane w (vand w a b) i) k = Z.testbit (lane w a i) k && Z.testbit (lane w b i) k /\
     Z.testbit (lane w (vor w a b) i) k = Z.testbit (lane w a i) k || Z.testbit (lane w b i) k /\
     Z.testbit (lane w (vxor w a b) i) k = xorb (Z.testbit (lane w a i) k) (Z.testbit (lane w b i) k)) /\
  lane w (vnot w a) i = 2 ^ w - 1 - lane w a i.
Proof.
  intros w a b i W I. apply width_pos in W. assert (R : forall x, 0 <= wrap w x < 2 ^ w) by (intros x; apply Z.mod_pos_bound, Z.pow_pos_nonneg; lia).
  split; [apply (lane_lift2 w (fun x y => wrap w (x + y))); auto|]. split; [apply (lane_lift2 w (fun x y => wrap w (x - y))); auto|]. split.
  - intros k K. unfold vand, vor, vxor. rewrite lane_and, lane_or, lane_xor by exact W. split; [apply Z.land_spec|]. split; [apply Z.lor_spec|apply Z.lxor_spec].
  - unfold vnot. rewrite lane_xor, lane_set1 by auto. assert (E : wrap w (-1) = 2 ^ w - 1).
    { unfold wrap. pose proof (Z.pow_pos_nonneg 2 w ltac:(lia) ltac:(lia)). symmetry. apply (Z.mod_unique_pos _ _ (-1)); lia. }
    rewrite E. apply xor_ones; [lia|apply lane_range; lia].
Qed.
Print Assumptions C177_elements.

(** A comparison gives an element of ones where it holds and of zeros where it does not. *)
Theorem C177_compare : forall w a b i, width w -> w <> 64 -> (i < count w)%nat ->
  let x := elem w a i in let y := elem w b i in let yes := 2 ^ w - 1 in
  lane w (veq w a b) i = (if x =? y then yes else 0) /\ lane w (vne w a b) i = (if x =? y then 0 else yes) /\
  lane w (vlt w a b) i = (if x <? y then yes else 0) /\ lane w (vle w a b) i = (if x <=? y then yes else 0) /\
  lane w (vgt w a b) i = (if y <? x then yes else 0) /\ lane w (vge w a b) i = (if y <=? x then yes else 0).
Proof.
  intros w a b i W _ I x y yes. apply width_pos in W. pose proof (Z.pow_pos_nonneg 2 w ltac:(lia) ltac:(lia)) as P.
  assert (P1 : 2 <= 2 ^ w) by (replace w with (1 + (w - 1)) by lia; rewrite Z.pow_add_r by lia; pose proof (Z.pow_pos_nonneg 2 (w - 1)); lia).
  assert (EQ : lane w (veq w a b) i = ones w (x =? y)).
  { unfold veq, mm_cmpeq. rewrite lane_lift2; [|exact W|exact I|intros; apply ones_range; lia]. f_equal. unfold x, y, elem.
    destruct (Z.eqb_spec (lane w a i) (lane w b i)) as [->|N]; [rewrite Z.eqb_refl; reflexivity|]. symmetry. apply Z.eqb_neq. intros E. apply N. apply (sgn_inj w); auto; apply lane_range; lia. }
  assert (LT : lane w (vlt w a b) i = ones w (x <? y)) by (unfold vlt, mm_cmplt; rewrite lane_lift2; [reflexivity|exact W|exact I|intros; apply ones_range; lia]).
  assert (GT : lane w (vgt w a b) i = ones w (y <? x)) by (unfold vgt, mm_cmpgt; rewrite lane_lift2; [reflexivity|exact W|exact I|intros; apply ones_range; lia]).
  assert (NOT : forall r c, lane w r i = ones w c -> lane w (vzero w r) i = ones w (negb c)).
  { intros r c E. unfold vzero, mm_cmpeq. rewrite lane_lift2; [|exact W|exact I|intros; apply ones_range; lia]. unfold mm_setzero. rewrite E, lane_zero by exact W. f_equal. unfold ones. destruct c; lia. }
  unfold vne, vle, vge. rewrite (NOT _ _ EQ), (NOT _ _ LT), (NOT _ _ GT), EQ, LT, GT. rewrite (Z.leb_antisym y x), (Z.leb_antisym x y). unfold ones, yes.
  destruct (x =? y), (x <? y), (y <? x); repeat split; reflexivity.
Qed.
Print Assumptions C177_compare.

Lemma ones_all w : 0 <= w -> ones w true = Z.ones w.
Proof. intros. rewrite Z.ones_equiv. unfold ones. lia. Qed.
Lemma lane_land_ones w x i c : 0 < w -> Z.land (lane w x i) (ones w c) = if c then lane w x i else 0.
Proof.
  intros W. destruct c; [|unfold ones; apply Z.land_0_r]. rewrite ones_all, Z.land_ones by lia. apply Z.mod_small, lane_range. lia.
Qed.
Lemma lane_ldiff_ones w x i c : 0 < w -> Z.ldiff (lane w x i) (ones w c) = if c then 0 else lane w x i.
Proof.
  intros W. destruct c; [|unfold ones; apply Z.ldiff_0_r]. rewrite ones_all by lia. apply Z.bits_inj'. intros k K.
  rewrite Z.ldiff_spec, Z.bits_0, lane_bit by lia. destruct (Z.ltb_spec k w).
  - rewrite Z.ones_spec_low by lia. apply andb_false_r.
  - reflexivity.
Qed.
Lemma lane_half x i : lane 32 x (2 * i) = lane 64 x i mod 2 ^ 32.
Proof.
  unfold lane. replace (32 * Z.of_nat (2 * i)) with (64 * Z.of_nat i) by lia. generalize (x / 2 ^ (64 * Z.of_nat i)) as y. intros y.
  apply Z.bits_inj'. intros k K. destruct (Z_lt_le_dec k 32).
  - rewrite !Z.mod_pow2_bits_low by lia. reflexivity.
  - rewrite !Z.mod_pow2_bits_high by lia. reflexivity.
Qed.
Lemma lane_next w x i : 0 < w -> lane w (x / 2 ^ w) i = lane w x (S i).
Proof.
  intros W. unfold lane. f_equal. rewrite Z.div_div by (try apply Z.pow_nonzero; try apply Z.pow_pos_nonneg; lia).
  rewrite <- Z.pow_add_r by lia. f_equal. f_equal. lia.
Qed.
Lemma select_shuffle x y z t a : 0 <= x < 4 -> 0 <= y < 4 -> 0 <= z < 4 -> 0 <= t < 4 ->
  mm_shuffle_epi32 a (BSS_SSE_SHUFFLE x y z t) = pack 32 [lane 32 a (Z.to_nat x); lane 32 a (Z.to_nat y); lane 32 a (Z.to_nat z); lane 32 a (Z.to_nat t)].
Proof.
  intros X Y Z T. assert (Cx : x = 0 \/ x = 1 \/ x = 2 \/ x = 3) by lia. assert (Cy : y = 0 \/ y = 1 \/ y = 2 \/ y = 3) by lia.
  assert (Cz : z = 0 \/ z = 1 \/ z = 2 \/ z = 3) by lia. assert (Ct : t = 0 \/ t = 1 \/ t = 2 \/ t = 3) by lia. clear X Y Z T.
  unfold mm_shuffle_epi32. cbn [map]. destruct Cx as [->|[->|[->| ->]]], Cy as [->|[->|[->| ->]]], Cz as [->|[->|[->| ->]]], Ct as [->|[->|[->| ->]]]; reflexivity.
Qed.
Lemma lane_four a b c d i : 0 <= a < 2 ^ 32 -> 0 <= b < 2 ^ 32 -> 0 <= c < 2 ^ 32 -> 0 <= d < 2 ^ 32 -> lane 32 (pack 32 [a; b; c; d]) i = nth i [a; b; c; d] 0.
Proof. intros. apply lane_pack; [lia|]. repeat constructor; lia. Qed.
Lemma lane_two a b i : 0 <= a < 2 ^ 64 -> 0 <= b < 2 ^ 64 -> lane 64 (pack 64 [a; b]) i = nth i [a; b] 0.
Proof. intros. apply lane_pack; [lia|]. repeat constructor; lia. Qed.
Lemma lane_upper x i : lane 32 x (S (2 * i)) = lane 64 x i / 2 ^ 32.
Proof.
  unfold lane. replace (32 * Z.of_nat (S (2 * i))) with (64 * Z.of_nat i + 32) by lia. rewrite Z.pow_add_r by lia.
  rewrite <- Z.div_div by (try apply Z.pow_nonzero; try apply Z.pow_pos_nonneg; lia). generalize (x / 2 ^ (64 * Z.of_nat i)) as y. intros y.
  apply Z.bits_inj'. intros k K. rewrite Z.div_pow2_bits by lia. destruct (Z_lt_le_dec k 32).
  - rewrite !Z.mod_pow2_bits_low by lia. rewrite Z.div_pow2_bits by lia. reflexivity.
  - rewrite !Z.mod_pow2_bits_high by lia. reflexivity.
Qed.
Lemma whole64 x i : lane 64 x i = lane 32 x (2 * i) + 2 ^ 32 * lane 32 x (S (2 * i)).
Proof. rewrite lane_half, lane_upper. pose proof (Z.div_mod (lane 64 x i) (2 ^ 32) ltac:(lia)). lia. Qed.

Lemma lt4 i : (i < count 32)%nat -> (i = 0 \/ i = 1 \/ i = 2 \/ i = 3)%nat.
Proof. change (count 32) with 4%nat. lia. Qed.

(** Multiplying, the smaller and the larger number, for the four numbers of 32 bits. *)
Theorem C178_multiply_min_max : forall a b i, (i < 4)%nat ->
  lane 32 (vmul a b) i = (elem 32 a i * elem 32 b i) mod 2 ^ 32 /\
  elem 32 (vmin a b) i = Z.min (elem 32 a i) (elem 32 b i) /\ elem 32 (vmax a b) i = Z.max (elem 32 a i) (elem 32 b i).
Proof.
  intros a b i I. assert (R : forall x i, 0 <= lane 32 x i < 2 ^ 32) by (intros; apply lane_range; lia). split; [|split].
  - assert (E : lane 32 (vmul a b) i = (lane 32 a i * lane 32 b i) mod 2 ^ 32).
    { unfold vmul, bss_mm_mul_epi32. change (MM_SHUFFLE 0 0 2 0) with (BSS_SSE_SHUFFLE 0 2 0 0). rewrite !select_shuffle by lia.
      change (Z.to_nat 0) with 0%nat. change (Z.to_nat 2) with 2%nat. unfold mm_unpacklo_epi32. rewrite (lane_four _ _ _ _ i) by apply R. rewrite !lane_four by apply R.
      assert (M : forall u v k, 0 <= lane 32 u k * lane 32 v k < 2 ^ 64).
      { intros u v k. pose proof (R u k). pose proof (R v k). split; [apply Z.mul_nonneg_nonneg; lia|]. change (2 ^ 64) with (2 ^ 32 * 2 ^ 32). apply Z.mul_lt_mono_nonneg; lia. }
      cbn [nth]. assert (P : forall u v, lane 32 (mm_mul_epu32 u v) 0 = (lane 32 u 0 * lane 32 v 0) mod 2 ^ 32 /\ lane 32 (mm_mul_epu32 u v) 2 = (lane 32 u 2 * lane 32 v 2) mod 2 ^ 32).
      { intros u v. split; [change 0%nat with (2 * 0)%nat at 1|change 2%nat with (2 * 1)%nat at 1]; rewrite lane_half; unfold mm_mul_epu32; rewrite lane_two by apply M; reflexivity. }
      destruct (P a b) as [P0 P2]. destruct (P (mm_srli_si128 a 4) (mm_srli_si128 b 4)) as [P1 P3].
      unfold mm_srli_si128 in P1, P3. change (8 * 4) with 32 in P1, P3. rewrite !(lane_next 32) in P1, P3 by lia. unfold mm_srli_si128. change (8 * 4) with 32.
      destruct (lt4 i I) as [->|[->|[->| ->]]]; cbn [nth]; assumption. }
    rewrite E. unfold elem. rewrite <- (Z.mul_mod_idemp_l (sgn 32 _)), <- (Z.mul_mod_idemp_r _ (sgn 32 _)) by lia.
    assert (G : forall x, 0 <= x < 2 ^ 32 -> sgn 32 x mod 2 ^ 32 = x).
    { intros x X. unfold sgn. rewrite (Z.mod_small x) by exact X. destruct (x <? 2 ^ (32 - 1)); [apply Z.mod_small; exact X|]. symmetry. apply (Z.mod_unique_pos _ _ (-1)); lia. }
    rewrite !G by apply R. reflexivity.
  - unfold elem, vmin, bss_mm_min_epi32. rewrite lane_or, lane_and, lane_andnot by lia. unfold mm_cmplt. rewrite !lane_lift2 by (first [lia|exact I|intros; apply ones_range; lia]).
    rewrite lane_land_ones, lane_ldiff_ones by lia. destruct (Z.ltb_spec (sgn 32 (lane 32 a i)) (sgn 32 (lane 32 b i))); [rewrite Z.lor_0_r|rewrite Z.lor_0_l]; lia.
  - unfold elem, vmax, bss_mm_max_epi32. rewrite lane_or, lane_and, lane_andnot by lia. unfold mm_cmpgt. rewrite !lane_lift2 by (first [lia|exact I|intros; apply ones_range; lia]).
    rewrite lane_land_ones, lane_ldiff_ones by lia. destruct (Z.ltb_spec (sgn 32 (lane 32 b i)) (sgn 32 (lane 32 a i))); [rewrite Z.lor_0_r|rewrite Z.lor_0_l]; lia.
Qed.
Print Assumptions C178_multiply_min_max.

Lemma sgn_wrap w x : sgn w (wrap w x) = sgn w x.
Proof. unfold sgn, wrap. rewrite Zmod_mod. reflexivity. Qed.
Lemma sgn_cong w x y : x mod 2 ^ w = y mod 2 ^ w -> sgn w x = sgn w y.
Proof. intros E. unfold sgn. rewrite E. reflexivity. Qed.

(** Choosing elements; the sum of all elements, modulo 2^32 or 2^64. *)
Theorem C178_shuffle_sum : forall a,
  (forall x y z t i, 0 <= x < 4 -> 0 <= y < 4 -> 0 <= z < 4 -> 0 <= t < 4 -> (i < 4)%nat ->
     lane 32 (vshuffle x y z t a) i = lane 32 a (Z.to_nat (nth i [x; y; z; t] 0))) /\
  vsum32 a = sgn 32 (elem 32 a 0 + elem 32 a 1 + elem 32 a 2 + elem 32 a 3) /\
  lane 64 (vswap64 a) 0 = lane 64 a 1 /\ lane 64 (vswap64 a) 1 = lane 64 a 0 /\
  vsum64 a = sgn 64 (elem 64 a 0 + elem 64 a 1).
Proof.
  intros a. assert (R : forall x i, 0 <= lane 32 x i < 2 ^ 32) by (intros; apply lane_range; lia).
  assert (SH : forall a x y z t i, 0 <= x < 4 -> 0 <= y < 4 -> 0 <= z < 4 -> 0 <= t < 4 -> (i < 4)%nat ->
     lane 32 (vshuffle x y z t a) i = lane 32 a (Z.to_nat (nth i [x; y; z; t] 0))).
  { clear a. intros a x y z t i X Y Z T I. unfold vshuffle. rewrite select_shuffle by assumption. rewrite lane_four by apply R. destruct (lt4 i I) as [->|[->|[->| ->]]]; reflexivity. }
  assert (RW : forall w x, 0 < w -> 0 <= wrap w x < 2 ^ w) by (intros; apply Z.mod_pos_bound, Z.pow_pos_nonneg; lia).
  assert (AD : forall w u v k, 0 < w -> (k < count w)%nat -> lane w (mm_add w u v) k = wrap w (lane w u k + lane w v k)).
  { intros w u v k W K. unfold mm_add. rewrite lane_lift2; auto. }
  assert (C : forall w x, 0 < w -> sgn w x mod 2 ^ w = x mod 2 ^ w).
  { intros w x W. pose proof (Z.pow_pos_nonneg 2 w ltac:(lia) ltac:(lia)). unfold sgn. destruct (x mod 2 ^ w <? 2 ^ (w - 1)); [apply Z.mod_mod; lia|].
    replace (x mod 2 ^ w - 2 ^ w) with (x mod 2 ^ w + (-1) * 2 ^ w) by lia. rewrite Z.mod_add by lia. apply Z.mod_mod. lia. }
  assert (SW : lane 64 (vswap64 a) 0 = lane 64 a 1 /\ lane 64 (vswap64 a) 1 = lane 64 a 0).
  { unfold vswap64. fold (vshuffle 2 3 0 1 a). rewrite !whole64. cbn [Nat.mul Nat.add]. rewrite !SH by (first [lia|cbv; lia]). split; reflexivity. }
  split; [exact (SH a)|]. split; [|split; [apply SW|split; [apply SW|]]].
  - unfold vsum32, mm_cvtsi128. rewrite AD by (first [lia|cbv; lia]). rewrite SH by lia. cbn [nth]. change (Z.to_nat 2) with 2%nat. rewrite !AD by (first [lia|cbv; lia]). rewrite !SH by lia. cbn [nth].
    change (Z.to_nat 1) with 1%nat. change (Z.to_nat 3) with 3%nat. apply sgn_cong. unfold wrap. rewrite Z.mod_mod by lia. rewrite <- Z.add_mod by lia. unfold elem.
    assert (K : forall x, 0 <= x < 2 ^ 32 -> exists k, sgn 32 x = x + k * 2 ^ 32).
    { intros x X. unfold sgn. rewrite (Z.mod_small x) by exact X. destruct (x <? 2 ^ (32 - 1)); [exists 0|exists (-1)]; lia. }
    destruct (K _ (R a 0%nat)) as [k0 ->], (K _ (R a 1%nat)) as [k1 ->], (K _ (R a 2%nat)) as [k2 ->], (K _ (R a 3%nat)) as [k3 ->].
    match goal with |- ?l mod _ = ?r mod _ => replace r with (l + (k0 + k1 + k2 + k3) * 2 ^ 32) by lia end. rewrite Z.mod_add by lia. reflexivity.
  - unfold vsum64. rewrite AD by (first [lia|cbv; lia]). destruct SW as [-> _]. apply sgn_cong. unfold wrap. rewrite Z.mod_mod by lia. unfold elem. rewrite (Z.add_mod (sgn _ _)) by lia. rewrite !C by lia. apply Z.add_mod. lia.
Qed.
Print Assumptions C178_shuffle_sum.

(** The full claim on the shifts: to the left by n multiplies each element by 2^n modulo 2^w; to the right divides each signed element by
    2^n and rounds down; by a vector, each element by the element beside it. *)
Definition shift_spec : Prop := forall w a n i, (w = 16 \/ w = 32 \/ w = 64) -> 0 <= n < w -> (i < count w)%nat ->
  lane w (vshl w a n) i = (lane w a i * 2 ^ n) mod 2 ^ w /\ elem w (vshr w a n) i = elem w a i / 2 ^ n.
Definition shift_vector_spec : Prop := forall w a b i, (w = 16 \/ w = 32 \/ w = 64) -> (i < count w)%nat -> 0 <= elem w b i < w ->
  lane w (vshl_v w a b) i = (lane w a i * 2 ^ elem w b i) mod 2 ^ w /\ elem w (vshr_v w a b) i = elem w a i / 2 ^ elem w b i.

(** To the right, -2 becomes 32767 and 2^63-1 instead of -1; and the vector (1,1,1,1) as number of bits empties the vector. *)
Theorem C179_shifts_refuted : ~ shift_spec /\ ~ shift_vector_spec /\
  elem 16 (vshr 16 (vfill 16 (-2)) 1) 0 = 32767 /\ elem 64 (vshr 64 (vfill 64 (-2)) 1) 0 = 2 ^ 63 - 1 /\ vshl_v 32 (vset32 1 2 3 4) (vfill 32 1) = 0.
Proof.
  assert (A : elem 16 (vshr 16 (vfill 16 (-2)) 1) 0 = 32767) by (vm_compute; reflexivity).
  assert (B : vshl_v 32 (vset32 1 2 3 4) (vfill 32 1) = 0) by (vm_compute; reflexivity).
  split; [|split; [|split; [exact A|split; [vm_compute; reflexivity|exact B]]]].
  - intros S. destruct (S 16 (vfill 16 (-2)) 1 0%nat ltac:(lia) ltac:(lia) ltac:(cbv; lia)) as [_ E]. rewrite A in E. vm_compute in E. discriminate.
  - intros S. destruct (S 32 (vset32 1 2 3 4) (vfill 32 1) 0%nat ltac:(lia) ltac:(cbv; lia) ltac:(vm_compute; split; [discriminate|reflexivity])) as [E _].
    rewrite B in E. vm_compute in E. discriminate.
Qed.
Print Assumptions C179_shifts_refuted.

(** What holds: all shifts to the left by a number; to the right by a number for 32 bits, and for the other widths of the unsigned
    numbers; and by a vector as by the number that is the whole lower half of the vector. *)
Theorem C179_shifts_partial : forall w a i, (w = 16 \/ w = 32 \/ w = 64) -> (i < count w)%nat ->
  (forall n, 0 <= n < w -> lane w (vshl w a n) i = (lane w a i * 2 ^ n) mod 2 ^ w) /\
  (forall n, 0 <= n < w -> w = 32 -> elem w (vshr w a n) i = elem w a i / 2 ^ n) /\
  (forall n, 0 <= n < w -> w <> 32 -> lane w (vshr w a n) i = lane w a i / 2 ^ n) /\
  (forall n, w <= n < 2 ^ 32 -> lane w (vshl w a n) i = 0 /\ (w = 32 -> elem w (vshr w a n) i = if elem w a i <? 0 then -1 else 0) /\ (w <> 32 -> lane w (vshr w a n) i = 0)) /\
  (forall b, 0 <= lane 64 b 0 < 2 ^ 32 -> vshl_v w a b = vshl w a (lane 64 b 0) /\ vshr_v w a b = vshr w a (lane 64 b 0)).
Proof.
  intros w a i W I. assert (W0 : 0 < w) by lia. assert (RW : forall x, 0 <= wrap w x < 2 ^ w) by (intros; apply Z.mod_pos_bound, Z.pow_pos_nonneg; lia).
  pose proof (lane_range w a i ltac:(lia)) as R. pose proof (Z.pow_pos_nonneg 2 w ltac:(lia) ltac:(lia)) as P2.
  assert (H2 : 2 ^ w = 2 * 2 ^ (w - 1)) by (replace w with (1 + (w - 1)) at 1 by lia; rewrite Z.pow_add_r by lia; reflexivity).
  assert (SR : forall x, - 2 ^ (w - 1) <= sgn w x < 2 ^ (w - 1)).
  { intros x. unfold sgn. pose proof (Z.mod_pos_bound x (2 ^ w) P2). destruct (Z.ltb_spec (x mod 2 ^ w) (2 ^ (w - 1))); lia. }
  assert (SS : forall x, - 2 ^ (w - 1) <= x < 2 ^ (w - 1) -> sgn w (wrap w x) = x).
  { intros x X. unfold sgn, wrap. rewrite Zmod_mod. destruct (Z_lt_le_dec x 0).
    - rewrite <- (Z.mod_add x 1) by lia. rewrite (Z.mod_small (x + 1 * 2 ^ w)) by lia. destruct (Z.ltb_spec (x + 1 * 2 ^ w) (2 ^ (w - 1))); lia.
    - rewrite Z.mod_small by lia. destruct (Z.ltb_spec x (2 ^ (w - 1))); lia. }
  assert (DV : forall x n, 0 <= n -> - 2 ^ (w - 1) <= x < 2 ^ (w - 1) -> - 2 ^ (w - 1) <= x / 2 ^ n < 2 ^ (w - 1)).
  { intros x n N X. pose proof (Z.pow_pos_nonneg 2 n ltac:(lia) N). split; [apply Z.div_le_lower_bound; [lia|]; nia|]. apply Z.div_lt_upper_bound; [lia|]. nia. }
  assert (SM : forall n, 0 <= n < 2 ^ 32 -> wrap 32 n = n) by (intros; apply Z.mod_small; lia).
  assert (SL : forall n, 0 <= n < 2 ^ 32 -> lane w (vshl w a n) i = if n <? w then wrap w (lane w a i * 2 ^ n) else 0).
  { intros n N. unfold vshl, mm_slli. rewrite lane_lift1; [rewrite SM by exact N; reflexivity|exact W0|exact I|]. intros x X. destruct (_ <? w); [apply RW|lia]. }
  assert (SRL : forall n, 0 <= n < 2 ^ 32 -> w <> 32 -> lane w (vshr w a n) i = if n <? w then lane w a i / 2 ^ n else 0).
  { intros n N NE. unfold vshr, mm_srli. destruct (Z.eqb_spec w 32); [contradiction|]. rewrite lane_lift1; [rewrite SM by exact N; reflexivity|exact W0|exact I|].
    intros x X. rewrite SM by exact N. pose proof (Z.pow_pos_nonneg 2 n ltac:(lia) ltac:(lia)). destruct (n <? w); [|lia]. split; [apply Z.div_pos; lia|]. apply Z.div_lt_upper_bound; [lia|]. nia. }
  assert (SRA : forall n, 0 <= n < 2 ^ 32 -> w = 32 -> elem w (vshr w a n) i = elem w a i / 2 ^ (if n <? w then n else w - 1)).
  { intros n N E. unfold vshr, mm_srai, elem. destruct (Z.eqb_spec w 32); [|contradiction]. rewrite lane_lift1; [rewrite SM by exact N|exact W0|exact I|intros; apply RW].
    apply SS. apply DV; [destruct (n <? w); lia|apply SR]. }
  assert (WW : w < 2 ^ 32) by (destruct W as [->|[->| ->]]; lia). assert (LT : forall n, 0 <= n < w -> 0 <= n < 2 ^ 32) by (intros n [N1 N2]; split; [exact N1|exact (Z.lt_trans _ _ _ N2 WW)]). assert (GE : forall n, w <= n < 2 ^ 32 -> 0 <= n < 2 ^ 32) by (intros n [N1 N2]; split; [exact (Z.le_trans _ _ _ (Z.lt_le_incl _ _ W0) N1)|exact N2]).
  clear W DV SS SM RW.
  split; [|split; [|split; [|split]]].
  - intros n N. rewrite (SL n (LT n N)). destruct (Z.ltb_spec n w); [reflexivity|lia].
  - intros n N E. rewrite (SRA n (LT n N) E). destruct (Z.ltb_spec n w); [reflexivity|lia].
  - intros n N E. rewrite (SRL n (LT n N) E). destruct (Z.ltb_spec n w); [reflexivity|lia].
  - intros n N. rewrite (SL n (GE n N)). destruct (Z.ltb_spec n w); [lia|]. split; [reflexivity|]. split.
    + intros E. rewrite (SRA n (GE n N) E). destruct (Z.ltb_spec n w); [lia|]. pose proof (SR (lane w a i)). unfold elem in *. destruct (Z.ltb_spec (sgn w (lane w a i)) 0).
      * symmetry. apply (Z.div_unique_pos _ _ _ (sgn w (lane w a i) + 2 ^ (w - 1))); lia.
      * apply Z.div_small. lia.
    + intros E. rewrite (SRL n (GE n N) E). destruct (Z.ltb_spec n w); [lia|reflexivity].
  - intros b B. unfold vshl_v, vshl, vshr_v, vshr, mm_sll, mm_slli, mm_sra, mm_srai, mm_srl, mm_srli. assert (SM : wrap 32 (lane 64 b 0) = lane 64 b 0) by (apply Z.mod_small; exact B). rewrite !SM. split; reflexivity.
Qed.
Print Assumptions C179_shifts_partial.

(** Four numbers, one of them the smallest of the type. *)
Example C177_example :
  let a := vset32 7 (-3) (-2147483648) 1 in let b := vset32 7 5 1 (-1) in
  width 32 /\ (3 < count 32)%nat /\ map (elem 32 (vadd 32 a b)) [0; 1; 2; 3]%nat = [14; 2; -2147483647; 0] /\
  map (elem 32 (vlt 32 a b)) [0; 1; 2; 3]%nat = [0; -1; -1; 0] /\ map (elem 32 (vle 32 a b)) [0; 1; 2; 3]%nat = [-1; -1; -1; 0] /\
  map (elem 8 (vgt 8 (vfill 8 (-1)) (vfill 8 127))) [0; 15]%nat = [0; 0].
Proof. unfold width. split; [lia|]. split; [cbv; lia|]. vm_compute. repeat split; reflexivity. Qed.
Example C178_example :
  let a := vset32 7 (-3) 65536 1 in let b := vset32 7 5 65537 (-1) in
  map (elem 32 (vmul a b)) [0; 1; 2; 3]%nat = [49; -15; 65536; -1] /\ map (elem 32 (vmin a b)) [0; 1; 2; 3]%nat = [7; -3; 65536; -1] /\
  map (elem 32 (vmax a b)) [0; 1; 2; 3]%nat = [7; 5; 65537; 1] /\ map (elem 32 (vshuffle 3 0 0 1 a)) [0; 1; 2; 3]%nat = [1; 7; 7; -3] /\ vsum32 a = 65541 /\
  vsum64 (vfill 64 (-5)) = -10.
Proof. vm_compute. repeat split; reflexivity. Qed.
Example C179_example : let a := vset32 7 (-3) 65536 1 in
  map (elem 32 (vshr 32 a 1)) [0; 1; 2; 3]%nat = [3; -2; 32768; 0] /\ map (elem 32 (vshl 32 a 31)) [0; 1; 2; 3]%nat = [-2147483648; -2147483648; 0; -2147483648] /\
  map (elem 32 (vshl_v 32 a (vset32 2 0 0 0))) [0; 1; 2; 3]%nat = [28; -12; 262144; 4].
Proof. vm_compute. repeat split; reflexivity. Qed.
