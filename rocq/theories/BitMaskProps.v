(* C193: bit masks, single bits, signs and the limits of integers of any number of bits. *)
From Coq Require Import ZArith List Bool Lia ZifyBool.
From Verif Require Import Common BitMask.
Import ListNotations.
Local Open Scope Z_scope.

(* --- specification --- *)
Definition width (w : Z) : Prop := w = 8 \/ w = 16 \/ w = 32 \/ w = 64.
(* the mask m of w bits has exactly the bits low..high, positions below 0 counting from the left end *)
Definition covers (w m low high : Z) : Prop := 0 <= m < 2 ^ w /\
  forall i, 0 <= i < w -> (Z.testbit m i = true <-> exists j, low <= j <= high /\ (j = i \/ j = i - w)).

Lemma tb_wrap w x i : 0 <= i < w -> Z.testbit (wrap w x) i = Z.testbit x i.
Proof. intros H. unfold wrap. apply Z.mod_pow2_bits_low. lia. Qed.
Lemma wrap_range w x : 0 <= w -> 0 <= wrap w x < 2 ^ w.
Proof. intros H. apply Z.mod_pos_bound. lia. Qed.
Lemma tb_sgn w x i : 0 < w -> 0 <= i < w -> Z.testbit (sgn w x) i = Z.testbit x i.
Proof.
  intros W H. unfold sgn. rewrite <- (Z.mod_pow2_bits_low (if x mod 2 ^ w <? 2 ^ (w - 1) then _ else _) w i) by lia.
  rewrite <- (Z.mod_pow2_bits_low x w i) by lia. f_equal.
  destruct (x mod 2 ^ w <? 2 ^ (w - 1)).
  - apply Z.mod_mod. lia.
  - rewrite <- (Z.mod_mod x (2 ^ w)) at 2 by lia. rewrite <- (Z_mod_plus_full (x mod 2 ^ w - 2 ^ w) 1 (2 ^ w)). f_equal. lia.
Qed.
Lemma tb_ones n i : 0 <= n -> 0 <= i -> Z.testbit (2 ^ n - 1) i = (i <? n).
Proof. intros Hn Hi. replace (2 ^ n - 1) with (Z.ones n) by (rewrite Z.ones_equiv; lia). apply Z.testbit_ones_nonneg; lia. Qed.
Lemma tb_mul_pow2 a s i : 0 <= s -> 0 <= i -> Z.testbit (a * 2 ^ s) i = (s <=? i) && Z.testbit a (i - s).
Proof.
  intros Hs Hi. rewrite <- Z.shiftl_mul_pow2 by lia. destruct (Z.leb_spec s i).
  - rewrite Z.shiftl_spec by lia. reflexivity.
  - rewrite Z.shiftl_spec_low by lia. reflexivity.
Qed.
Lemma low_mod w low : width w -> - w <= low < w -> wrap 64 low mod w = if low <? 0 then if low =? - w then 0 else low + w else low.
Proof.
  intros W H. unfold wrap. assert (E : (low mod 2 ^ 64) mod w = low mod w).
  { symmetry. apply Znumtheory.Zmod_div_mod; [destruct W as [->|[->|[->| ->]]]; lia|lia|].
    destruct W as [->|[->|[->| ->]]]; [exists (2^61)|exists (2^60)|exists (2^59)|exists (2^58)]; reflexivity. }
  rewrite E. assert (0 < w) by (destruct W as [->|[->|[->| ->]]]; lia).
  destruct (Z.ltb_spec low 0).
  - destruct (Z.eqb_spec low (- w)) as [->|N]. { rewrite Z.mod_opp_l_z; [reflexivity|lia|apply Z.mod_same; lia]. }
    rewrite <- (Z_mod_plus_full low 1 w), Z.mul_1_l. apply Z.mod_small. lia.
  - apply Z.mod_small. lia.
Qed.

(* shifts in int: defined exactly when the bits fit *)
Lemma shl_ones n s : 0 < n -> 0 <= s -> n + s <= 32 -> n <= 31 ->
  exists v, shl_int (2 ^ n - 1) s = Ok v /\ forall i, 0 <= i < 32 -> Z.testbit v i = (s <=? i) && (i - s <? n).
Proof.
  intros Hn Hs Hb Hn'. assert (0 < 2 ^ n) by (apply Z.pow_pos_nonneg; lia). assert (0 < 2 ^ s) by (apply Z.pow_pos_nonneg; lia).
  unfold shl_int. replace (2 ^ n - 1 <? 0) with false by lia. replace (s <? 0) with false by lia. replace (32 <=? s) with false by lia.
  assert (B : (2 ^ n - 1) * 2 ^ s < 2 ^ 32).
  { assert (2 ^ n * 2 ^ s <= 2 ^ 32). { rewrite <- Z.pow_add_r by lia. apply Z.pow_le_mono_r; lia. } nia. }
  destruct (Z.leb_spec (2 ^ 32) ((2 ^ n - 1) * 2 ^ s)); [lia|]. cbn [orb]. eexists. split; [reflexivity|]. intros i Hi.
  rewrite tb_sgn by lia. rewrite tb_mul_pow2 by lia. destruct (Z.leb_spec s i); [|reflexivity]. cbn [andb]. apply tb_ones; lia.
Qed.
Lemma two_shl d : 0 <= d <= 29 -> (do t <- shl_int 2 d; dec_int t) = Ok (2 ^ (d + 1) - 1).
Proof.
  intros H. unfold shl_int. replace (2 <? 0) with false by reflexivity. replace (d <? 0) with false by lia. replace (32 <=? d) with false by lia.
  assert (E : 2 * 2 ^ d = 2 ^ (d + 1)) by (rewrite Z.pow_add_r by lia; lia). rewrite E.
  assert (B : 2 ^ (d + 1) <= 2 ^ 30) by (apply Z.pow_le_mono_r; lia). assert (0 < 2 ^ (d + 1)) by (apply Z.pow_pos_nonneg; lia).
  destruct (Z.leb_spec (2 ^ 32) (2 ^ (d + 1))); [lia|]. cbn [orb bind]. unfold sgn. rewrite Z.mod_small by lia.
  change (32 - 1) with 31. destruct (Z.ltb_spec (2 ^ (d + 1)) (2 ^ 31)); [|lia]. unfold dec_int.
  destruct (Z.leb_spec (2 ^ (d + 1)) (- 2 ^ 31)); [lia|reflexivity].
Qed.
Lemma sgn_tb_high v i : - 2 ^ 31 <= v < 2 ^ 31 -> 31 <= i -> Z.testbit v i = Z.testbit v 31.
Proof.
  intros H Hi. destruct (Z.le_gt_cases 0 v) as [P|N].
  - destruct (Z.eq_dec v 0) as [->|]. { now rewrite !Z.testbit_0_l. }
    assert (Z.log2 v < 31) by (apply Z.log2_lt_pow2; lia). rewrite !Z.bits_above_log2 by lia. reflexivity.
  - rewrite <- (Z.lnot_involutive v). rewrite (Z.lnot_spec _ i), (Z.lnot_spec _ 31) by lia. f_equal.
    assert (0 <= Z.lnot v < 2 ^ 31) by (unfold Z.lnot; lia). set (u := Z.lnot v) in *.
    destruct (Z.eq_dec u 0) as [->|]; [now rewrite !Z.testbit_0_l|].
    assert (Z.log2 u < 31) by (apply Z.log2_lt_pow2; lia). rewrite !Z.bits_above_log2 by lia. reflexivity.
Qed.
Lemma shl_int_range a s v : shl_int a s = Ok v -> - 2 ^ 31 <= v < 2 ^ 31.
Proof.
  unfold shl_int. destruct (_ || _ || _ || _); [discriminate|]. intros E. injection E as <-. unfold sgn. change (32 - 1) with 31.
  pose proof (Z.mod_pos_bound (a * 2 ^ s) (2 ^ 32) ltac:(lia)). destruct (Z.ltb_spec ((a * 2 ^ s) mod 2 ^ 32) (2 ^ 31)); lia.
Qed.

(* The mask of one bit has exactly that bit, counted from the left end if negative; any multiple of the width can be added. *)
Theorem C193_mask_bit : forall w bit, width w -> covers w (GetBitMask w bit) (bit mod w) (bit mod w).
Proof.
  intros w bit W. assert (E : wrap w bit mod w = bit mod w).
  { unfold wrap. symmetry. apply Znumtheory.Zmod_div_mod; [destruct W as [->|[->|[->| ->]]]; lia|destruct W as [->|[->|[->| ->]]]; lia|].
    destruct W as [->|[->|[->| ->]]]; [exists (2^5)|exists (2^12)|exists (2^27)|exists (2^58)]; reflexivity. }
  assert (0 < w) by (destruct W as [->|[->|[->| ->]]]; lia). pose proof (Z.mod_pos_bound bit w ltac:(lia)) as B.
  unfold GetBitMask. rewrite E. split; [apply wrap_range; lia|]. intros i Hi. rewrite tb_wrap by lia. rewrite Z.pow2_bits_eqb by lia.
  rewrite Z.eqb_eq. split; [intros <-; exists (bit mod w); lia|intros (j & Hj & [->|Hj']); lia].
Qed.
Print Assumptions C193_mask_bit.

(* The mask of the bits low..high, where positions below 0 count from the left end: right if there are at most 30 of them, low is
   above -32, and the bits fit the 32 bits of int from low (or low + w) on; with a 64-bit type, if all are in 0..30. *)
Theorem C193_mask_range_partial : forall w low high, width w -> - w <= low <= high -> high < w -> high - low <= 29 ->
  - 32 < low -> high - low + 1 + low mod w <= 32 -> (w = 64 -> 0 <= low /\ high <= 30) ->
  exists m, GetBitMaskRange w low high = Ok m /\ covers w m low high.
Proof.
  intros w low high W HL HH D L32 F1 F2. assert (0 < w) by (destruct W as [->|[->|[->| ->]]]; lia).
  unfold GetBitMaskRange. pose proof (two_shl (high - low) ltac:(lia)) as T. destruct (shl_int 2 (high - low)) as [t| |]; cbn [bind] in T |- *; try discriminate.
  rewrite T. cbn [bind]. rewrite low_mod by (auto; lia).
  set (n := high - low + 1) in *. set (k := if low <? 0 then if low =? - w then 0 else low + w else low) in *.
  assert (Ek : k = low mod w).
  { unfold k. destruct (Z.ltb_spec low 0); [|symmetry; apply Z.mod_small; lia].
    destruct (Z.eqb_spec low (- w)) as [->|]; [rewrite Z.mod_opp_l_z; [reflexivity|lia|apply Z.mod_same; lia]|].
    rewrite <- (Z_mod_plus_full low 1 w), Z.mul_1_l. symmetry. apply Z.mod_small. lia. }
  assert (Fk : n + k <= 32) by (rewrite Ek; exact F1).
  assert (Kr : 0 <= k < w) by (unfold k; destruct (Z.ltb_spec low 0); [destruct (Z.eqb_spec low (- w))|]; lia).
  destruct (shl_ones n k) as (b & Eb & Tb); [unfold n; lia|lia|lia|unfold n; lia|].
  assert (Sa : exists a, safeshift (2 ^ n - 1) low = Ok a /\ - 2 ^ 31 <= a < 2 ^ 31 /\
                forall i, 0 <= i < 32 -> Z.testbit a i = (low <=? i) && (i <=? high)).
  { unfold safeshift. destruct (Z.ltb_spec 0 low).
    - destruct (shl_ones n low) as (a & Ea & Ta); [unfold n; lia|lia| |unfold n; lia|].
      { unfold k in Fk. destruct (Z.ltb_spec low 0); lia. }
      exists a. split; [exact Ea|]. split; [eapply shl_int_range, Ea|]. intros i Hi. rewrite Ta by lia. unfold n. lia.
    - unfold shr_int. replace (- low <? 0) with false by lia. replace (32 <=? - low) with false by lia. cbn [orb].
      eexists. split; [reflexivity|]. assert (P : 0 < 2 ^ n <= 2 ^ 30). { split; [apply Z.pow_pos_nonneg; unfold n; lia|apply Z.pow_le_mono_r; unfold n; lia]. }
      assert (Q : 0 < 2 ^ (- low)) by (apply Z.pow_pos_nonneg; lia). split.
      + assert (0 <= (2 ^ n - 1) / 2 ^ (- low)) by (apply Z.div_pos; lia). assert ((2 ^ n - 1) / 2 ^ (- low) <= 2 ^ n - 1) by (apply Z.div_le_upper_bound; nia). lia.
      + intros i Hi. rewrite <- Z.shiftr_div_pow2 by lia. rewrite Z.shiftr_spec by lia. rewrite tb_ones by (unfold n; lia). unfold n. lia. }
  destruct Sa as (a & Ea & Ra & Ta). rewrite Ea. cbn [bind]. rewrite Eb. cbn [bind]. eexists. split; [reflexivity|].
  split; [apply wrap_range; lia|]. intros i Hi. rewrite tb_wrap by lia. rewrite Z.lor_spec, orb_true_iff.
  destruct (Z.lt_ge_cases i 32) as [I|I].
  - rewrite (Ta i ltac:(lia)), (Tb i ltac:(lia)). split.
    + intros [H1|H1].
      * exists i. lia.
      * unfold n, k in H1. destruct (Z.ltb_spec low 0).
        -- destruct (Z.eqb_spec low (- w)); exists (i - w); lia.
        -- exists i. lia.
    + intros (j & Hj & [->| ->]); [left; lia|right]. unfold n, k. destruct (Z.ltb_spec low 0); [destruct (Z.eqb_spec low (- w))|]; lia.
  - (* only with 64 bits: nothing is set there *)
    assert (w = 64) as -> by (destruct W as [->|[->|[->| ->]]]; lia). destruct (F2 eq_refl) as [F3 F4].
    rewrite (sgn_tb_high a i), (sgn_tb_high b i) by (eauto using shl_int_range; lia).
    rewrite (Ta 31 ltac:(lia)), (Tb 31 ltac:(lia)). unfold k, n. replace (low <? 0) with false by lia. split; [lia|].
    intros (j & Hj & Hj'). lia.
Qed.
Print Assumptions C193_mask_range_partial.

(* Beyond that: the whole mask of 32 bits and every 64-bit mask starting at bit 32 or above is undefined behaviour, and
   every 64-bit mask ending at bit 31 also has the 32 bits above. *)
Theorem C193_mask_range_refuted :
  GetBitMaskRange 32 0 31 = UB /\
  (forall low high, 32 <= low <= high -> high < 64 -> GetBitMaskRange 64 low high = UB) /\
  (forall low, 2 <= low <= 31 -> exists m, GetBitMaskRange 64 low 31 = Ok m /\
     (forall i, 32 <= i < 64 -> Z.testbit m i = true) /\ ~ covers 64 m low 31).
Proof.
  split; [reflexivity|]. split.
  - intros low high HL HH. unfold GetBitMaskRange. destruct (shl_int 2 (high - low)) as [t| |] eqn:Et; cbn [bind]; try reflexivity.
    + destruct (dec_int t) as [m| |] eqn:Em; cbn [bind]; try reflexivity.
      * unfold safeshift. replace (0 <? low) with true by lia. unfold shl_int at 1. replace (32 <=? low) with true by lia. rewrite orb_true_r. reflexivity.
      * revert Em. unfold dec_int. destruct (t <=? _); discriminate.
    + revert Et. unfold shl_int. destruct (_ || _ || _ || _); discriminate.
  - intros low HL. assert (C : forallb (fun l => match GetBitMaskRange 64 l 31 with
        | Ok m => forallb (fun i => Z.testbit m i) (map (fun k => 32 + Z.of_nat k) (seq 0 32)) | _ => false end)
        (map (fun k => 2 + Z.of_nat k) (seq 0 30)) = true) by (vm_compute; reflexivity).
    rewrite forallb_forall in C. specialize (C low). destruct (GetBitMaskRange 64 low 31) as [m| |].
    + exists m. split; [reflexivity|]. assert (H : forall i, 32 <= i < 64 -> Z.testbit m i = true).
      { intros i Hi. assert (In low (map (fun k => 2 + Z.of_nat k) (seq 0 30))) as I.
        { apply in_map_iff. exists (Z.to_nat (low - 2)). rewrite in_seq. lia. }
        specialize (C I). rewrite forallb_forall in C. apply C. apply in_map_iff. exists (Z.to_nat (i - 32)). rewrite in_seq. lia. }
      split; [exact H|]. intros [_ K]. destruct (proj1 (K 40 ltac:(lia)) (H 40 ltac:(lia))) as (j & Hj & Hj2). lia.
    + exfalso. assert (In low (map (fun k => 2 + Z.of_nat k) (seq 0 30))) as I; [|specialize (C I); discriminate].
      apply in_map_iff. exists (Z.to_nat (low - 2)). rewrite in_seq. lia.
    + exfalso. assert (In low (map (fun k => 2 + Z.of_nat k) (seq 0 30))) as I; [|specialize (C I); discriminate].
      apply in_map_iff. exists (Z.to_nat (low - 2)). rewrite in_seq. lia.
Qed.
Print Assumptions C193_mask_range_refuted.

(* bssSetBit makes the bits of the mask v and leaves the others. *)
Theorem C193_set_bit : forall w word bit v, width w -> 0 <= bssSetBit w word bit v < 2 ^ w /\
  forall i, 0 <= i < w -> Z.testbit (bssSetBit w word bit v) i = if Z.testbit bit i then v else Z.testbit word i.
Proof.
  intros w word bit v W. assert (0 < w) by (destruct W as [->|[->|[->| ->]]]; lia). unfold bssSetBit. split; [apply wrap_range; lia|].
  intros i Hi. rewrite tb_wrap by lia. rewrite Z.lor_spec, !Z.land_spec, Z.lnot_spec by lia.
  assert (E : Z.testbit (- (if v then 1 else 0)) i = v). { destruct v; [apply (Z.bits_m1 i); lia|apply Z.testbit_0_l]. }
  rewrite E. destruct (Z.testbit bit i), (Z.testbit word i), v; reflexivity.
Qed.
Print Assumptions C193_set_bit.

(* bssGetBit reads bit index of an array of elements of at most 32 bits; of 64 bits, if the bit is among the low 31. *)
Theorem C193_get_bit_partial : forall w p index, width w -> 0 <= index -> (w = 64 -> index mod w <= 30) ->
  (forall k, 0 <= p k < 2 ^ w) -> bssGetBit w p index = Ok (Z.testbit (p (index / w)) (index mod w)).
Proof.
  intros w p index W Hi F R. assert (0 < w) by (destruct W as [->|[->|[->| ->]]]; lia). pose proof (Z.mod_pos_bound index w ltac:(lia)) as B.
  set (k := index mod w) in *. assert (K : k < 32) by (destruct W as [->|[->|[->| ->]]]; lia).
  destruct (shl_ones 1 k) as (m & Em & Tm); [lia|lia|lia|lia|]. change (2 ^ 1 - 1) with 1 in Em. unfold bssGetBit. fold k. rewrite Em. cbn [bind]. f_equal.
  set (x := p (index / w)) in *. specialize (R (index / w)). fold x in R. clearbody x.
  assert (T : Z.land x (wrap (Z.max w 32) m) = if Z.testbit x k then 2 ^ k else 0).
  { apply Z.bits_inj'. intros i Hi'. rewrite Z.land_spec.
    assert (Tx : w <= i -> Z.testbit x i = false).
    { intros Hw. destruct (Z.eq_dec x 0) as [->|]; [apply Z.testbit_0_l|]. apply Z.bits_above_log2; [lia|]. assert (Z.log2 x < w) by (apply Z.log2_lt_pow2; lia). lia. }
    assert (Q : Z.testbit (if Z.testbit x k then 2 ^ k else 0) i = (i =? k) && Z.testbit x k).
    { destruct (Z.testbit x k); [rewrite Z.pow2_bits_eqb by lia; rewrite andb_true_r; lia|rewrite Z.testbit_0_l, andb_false_r; reflexivity]. }
    rewrite Q. destruct (Z.le_gt_cases w i) as [Hw|Hw].
    { rewrite Tx by lia. replace (i =? k) with false by lia. reflexivity. }
    rewrite tb_wrap by lia. destruct (Z.lt_ge_cases i 32) as [I|I].
    - rewrite Tm by lia. destruct (Z.eqb_spec i k) as [->|N].
      + replace ((k <=? k) && (k - k <? 1)) with true by lia. apply andb_true_r.
      + replace ((k <=? i) && (i - k <? 1)) with false by lia. apply andb_false_r.
    - assert (w = 64) by (destruct W as [->|[->|[->| ->]]]; lia). specialize (F ltac:(assumption)).
      rewrite (sgn_tb_high m i) by (eauto using shl_int_range; lia). rewrite Tm by lia.
      replace ((k <=? 31) && (31 - k <? 1)) with false by lia. replace (i =? k) with false by lia. apply andb_false_r. }
  rewrite T. destruct (Z.testbit x k); [|reflexivity]. assert (0 < 2 ^ k) by (apply Z.pow_pos_nonneg; lia). destruct (Z.eqb_spec (2 ^ k) 0); [lia|reflexivity].
Qed.
Print Assumptions C193_get_bit_partial.

(* With 64-bit elements, bit 31 also reads as set if any higher bit is, and reading a bit from 32 on is undefined behaviour. *)
Theorem C193_get_bit_refuted :
  (forall i, 32 <= i < 64 -> bssGetBit 64 (fun _ => 2 ^ i) 31 = Ok true) /\
  (forall p index, 32 <= index mod 64 -> bssGetBit 64 p index = UB).
Proof.
  split.
  - intros i Hi. assert (C : forallb (fun k => match bssGetBit 64 (fun _ => 2 ^ (32 + Z.of_nat k)) 31 with Ok b => b | _ => false end) (seq 0 32) = true)
      by (vm_compute; reflexivity).
    rewrite forallb_forall in C. specialize (C (Z.to_nat (i - 32)) ltac:(apply in_seq; lia)).
    replace (32 + Z.of_nat (Z.to_nat (i - 32))) with i in C by lia. destruct (bssGetBit _ _ _) as [[]| |]; try discriminate. reflexivity.
  - intros p index H. unfold bssGetBit, shl_int. replace (32 <=? index mod 64) with true by lia. rewrite orb_true_r. reflexivity.
Qed.
Print Assumptions C193_get_bit_refuted.

(* tsign is 1 or -1, tsignzero also 0 for 0; bssNegate negates, as a signed number, exactly if asked. *)
Theorem C193_signs : forall w, width w ->
  (forall n, - 2 ^ (w - 1) <= n < 2 ^ (w - 1) -> tsign w n = if n <? 0 then -1 else 1) /\
  (forall n, tsignzero n = Z.sgn n) /\
  (forall x, 0 <= x <= 2 ^ (w - 1) -> bssNegate w x 1 = - x) /\ (forall x, 0 <= x < 2 ^ (w - 1) -> bssNegate w x 0 = x).
Proof.
  intros w W. assert (P : 2 ^ w = 2 * 2 ^ (w - 1) /\ 0 < 2 ^ (w - 1)).
  { destruct W as [->|[->|[->| ->]]]; split; reflexivity. }
  destruct P as [P P0]. split; [|split; [|split]].
  - intros n Hn. unfold tsign. assert (W0 : 0 <= w - 1) by (destruct W as [->|[->|[->| ->]]]; lia). rewrite Z.shiftr_div_pow2 by exact W0.
    destruct (Z.ltb_spec n 0) as [N|N].
    + replace (n / 2 ^ (w - 1)) with (-1); [reflexivity|]. apply (Z.div_unique n (2 ^ (w - 1)) (-1) (n + 2 ^ (w - 1))); [left|]; lia.
    + rewrite Z.div_small by lia. reflexivity.
  - intros n. unfold tsignzero. destruct n; reflexivity.
  - intros x Hx. unfold bssNegate. change (- (1)) with (-1). rewrite Z.lxor_m1_r. unfold Z.lnot. replace (Z.pred (- x) + 1) with (- x) by lia. unfold sgn.
    destruct (Z.eq_dec x 0) as [->|N]. { change (-0) with 0. rewrite Z.mod_0_l by lia. replace (0 <? 2 ^ (w - 1)) with true by lia. reflexivity. }
    rewrite (Z.mod_opp_l_nz x (2 ^ w)) by (try rewrite Z.mod_small; lia). rewrite Z.mod_small by lia.
    destruct (Z.ltb_spec (2 ^ w - x) (2 ^ (w - 1))); lia.
  - intros x Hx. unfold bssNegate. change (- 0) with 0. rewrite Z.lxor_0_r, Z.add_0_r. unfold sgn. rewrite Z.mod_small by lia.
    replace (x <? 2 ^ (w - 1)) with true by lia. reflexivity.
Qed.
Print Assumptions C193_signs.

(* BitLimit<n> gives the range of n-bit integers for every n from 1 to 128, except the multiples of 8 that are no power of two
   (24, 40, 48, 56, 72, ...): there BitLimit<24> says 16 bits and the others do not compile. *)
Definition limits (n : Z) : Z * Z * Z * Z := (0, 2 ^ n - 1, - 2 ^ (n - 1), 2 ^ (n - 1) - 1).
Definition eq4 (a b : Z * Z * Z * Z) : bool :=
  let '(x, y, z, t) := a in let '(x', y', z', t') := b in (x =? x') && (y =? y') && (z =? z') && (t =? t').
Definition pow2 (n : Z) : Prop := exists k, 0 <= k /\ n = 2 ^ k.
Lemma eq4_spec a b : eq4 a b = true -> a = b.
Proof. destruct a as [[[x y] z] t], b as [[[x' y'] z'] t']. cbn [eq4]. intros H. repeat (apply andb_true_iff in H; destruct H as [H ?]). repeat f_equal; lia. Qed.
Lemma sweep (P : Z -> bool) n lo k : forallb (fun i => P (lo + Z.of_nat i)) (seq 0 k) = true -> lo <= n < lo + Z.of_nat k -> P n = true.
Proof.
  intros H Hn. rewrite forallb_forall in H. specialize (H (Z.to_nat (n - lo)) ltac:(apply in_seq; lia)).
  replace (lo + Z.of_nat (Z.to_nat (n - lo))) with n in H by lia. exact H.
Qed.
Theorem C193_limits_partial : forall n, 1 <= n <= 128 -> (n mod 8 = 0 -> pow2 n) -> BitLimit n = Ok (limits n).
Proof.
  intros n Hn HP. assert (C : ((negb (n mod 8 =? 0)) || (n =? 8) || (n =? 16) || (n =? 32) || (n =? 64) || (n =? 128)) = true).
  { destruct (Z.eqb_spec (n mod 8) 0) as [E|E]; [|reflexivity]. cbn [negb orb]. destruct (HP E) as (k & Hk & ->).
    assert (k <= 7). { destruct (Z.le_gt_cases k 7); [assumption|]. assert (2 ^ 8 <= 2 ^ k) by (apply Z.pow_le_mono_r; lia). lia. }
    assert (k = 0 \/ k = 1 \/ k = 2 \/ k = 3 \/ k = 4 \/ k = 5 \/ k = 6 \/ k = 7) as D by lia.
    repeat (destruct D as [->|D]; [first [reflexivity|discriminate]|]). subst. reflexivity. }
  pose proof (sweep (fun n => negb ((negb (n mod 8 =? 0)) || (n =? 8) || (n =? 16) || (n =? 32) || (n =? 64) || (n =? 128))
     || match BitLimit n with Ok x => eq4 x (limits n) | _ => false end) n 1 128 ltac:(vm_compute; reflexivity) ltac:(lia)) as S0.
  cbv beta in S0. rewrite C in S0. cbn [negb orb] in S0. destruct (BitLimit n) as [x| |]; try discriminate. f_equal. apply eq4_spec, S0.
Qed.
Print Assumptions C193_limits_partial.
Theorem C193_limits_refuted : BitLimit 24 = Ok (0, 65535, 0, -1) /\
  forall n, 24 < n <= 128 -> n mod 8 = 0 -> ~ pow2 n -> BitLimit n = UB.
Proof.
  split; [vm_compute; reflexivity|]. intros n Hn E NP.
  pose proof (sweep (fun n => negb (n mod 8 =? 0) || (n =? 32) || (n =? 64) || (n =? 128)
     || match BitLimit n with UB => true | _ => false end) n 25 104 ltac:(vm_compute; reflexivity) ltac:(lia)) as S0.
  cbv beta in S0. rewrite E in S0. cbn [negb orb Z.eqb] in S0.
  assert (n <> 32) by (intros ->; apply NP; exists 5; split; [lia|reflexivity]).
  assert (n <> 64) by (intros ->; apply NP; exists 6; split; [lia|reflexivity]).
  assert (n <> 128) by (intros ->; apply NP; exists 7; split; [lia|reflexivity]).
  replace (n =? 32) with false in S0 by lia. replace (n =? 64) with false in S0 by lia. replace (n =? 128) with false in S0 by lia.
  cbn [orb] in S0. destruct (BitLimit n); try discriminate. reflexivity.
Qed.
Print Assumptions C193_limits_refuted.

(* bits 2..5 of a byte; the two top and two low bits of 16; bit 19 of an array of bytes; limits of 3 and 19 bits *)
Example C193_example : GetBitMaskRange 8 2 5 = Ok 60 /\ GetBitMaskRange 16 (-2) 1 = Ok 49155 /\ GetBitMask 32 (-1) = 2 ^ 31 /\
  bssSetBit 8 240 60 false = 192 /\ bssGetBit 8 (fun k => if k =? 2 then 8 else 0) 19 = Ok true /\ BitLimit 3 = Ok (0, 7, -4, 3) /\
  BitLimit 19 = Ok (0, 524287, -262144, 262143).
Proof. repeat split; vm_compute; reflexivity. Qed.
