(* The parallel bit count of BitUtil.v counts bits, for every byte-multiple width. *)
From Coq Require Import List ZArith Bool Lia.
From Coq Require Import ZifyBool ZifyNat.
From Verif Require Import Common BitUtil BitUtilSpec BitUtilProofs.
Import ListNotations.
Local Open Scope Z_scope.
Ltac Zify.zify_post_hook ::= Z.div_mod_to_equations.

Fixpoint R (k : nat) : Z := match k with O => 0 | S k' => 1 + 256 * R k' end.

Lemma R_pow k : 255 * R k = 256 ^ Z.of_nat k - 1.
Proof.
  induction k as [|k IH]; [reflexivity|].
  rewrite Nat2Z.inj_succ, Z.pow_succ_r by lia. cbn [R]. lia.
Qed.
Lemma R_snoc k : R (S k) = R k + 256 ^ Z.of_nat k.
Proof.
  pose proof (R_pow k). pose proof (R_pow (S k)) as H1.
  rewrite Nat2Z.inj_succ, Z.pow_succ_r in H1 by lia. lia.
Qed.
Lemma R_nonneg k : 0 <= R k.
Proof. induction k; cbn [R]; lia. Qed.

Lemma div_of_split x y : 0 <= x < 256 -> (x + 256 * y) / 256 = y.
Proof. intros H. symmetry. apply Z.div_unique_pos with (r := x); lia. Qed.
Lemma mod_of_split x y : 0 <= x < 256 -> (x + 256 * y) mod 256 = x.
Proof. intros H. symmetry. apply Z.mod_unique_pos with (q := y); lia. Qed.

Lemma lane_land x y m M :
  0 <= x < 256 -> 0 <= m < 256 ->
  Z.land (x + 256 * y) (m + 256 * M) = Z.land x m + 256 * Z.land y M.
Proof.
  intros Hx Hm.
  rewrite (Z.div_mod (Z.land (x + 256 * y) (m + 256 * M)) 256) by lia.
  assert (E1 : Z.land (x + 256 * y) (m + 256 * M) / 256 = Z.land y M).
  { change 256 with (2 ^ 8). rewrite <- !Z.shiftr_div_pow2 by lia. rewrite Z.shiftr_land.
    rewrite !Z.shiftr_div_pow2 by lia. change (2 ^ 8) with 256.
    now rewrite !div_of_split by lia. }
  assert (E2 : Z.land (x + 256 * y) (m + 256 * M) mod 256 = Z.land x m).
  { change (Z.land (x + 256 * y) (m + 256 * M) mod 256)
      with (Z.land (x + 256 * y) (m + 256 * M) mod 2 ^ 8).
    rewrite <- Z.land_ones by lia.
    replace (Z.land (Z.land (x + 256 * y) (m + 256 * M)) (Z.ones 8))
      with (Z.land (Z.land (x + 256 * y) (Z.ones 8)) (Z.land (m + 256 * M) (Z.ones 8))).
    - rewrite !Z.land_ones by lia. change (2 ^ 8) with 256. now rewrite !mod_of_split by lia.
    - apply Z.bits_inj'. intros i _. rewrite !Z.land_spec.
      destruct (Z.testbit (x + 256 * y) i), (Z.testbit (m + 256 * M) i), (Z.testbit (Z.ones 8) i); reflexivity. }
  rewrite E1, E2. lia.
Qed.

Definition f1 (k : nat) (v : Z) := v - Z.land (Z.shiftr v 1) (85 * R k).
Definition f2 (k : nat) (v : Z) := Z.land v (51 * R k) + Z.land (Z.shiftr v 2) (51 * R k).
Definition f3 (k : nat) (v : Z) := Z.land (v + Z.shiftr v 4) (15 * R k).

Lemma shiftr_split s a b : 0 < s < 8 -> 0 <= a < 256 ->
  exists h, 0 <= h < 2 ^ s /\
    Z.shiftr (a + 256 * b) s = (Z.shiftr a s + h * 2 ^ (8 - s)) + 256 * Z.shiftr b s /\ h = b mod 2 ^ s.
Proof.
  intros Hs Ha. exists (b mod 2 ^ s).
  assert (Hp : 256 = 2 ^ s * 2 ^ (8 - s)).
  { rewrite <- Z.pow_add_r by lia. replace (s + (8 - s)) with 8 by lia. reflexivity. }
  assert (0 < 2 ^ s) by (apply Z.pow_pos_nonneg; lia).
  assert (0 < 2 ^ (8 - s)) by (apply Z.pow_pos_nonneg; lia).
  split; [apply Z.mod_pos_bound; lia|]. split; auto.
  rewrite !Z.shiftr_div_pow2 by lia.
  pose proof (Z.div_mod b (2 ^ s)) as Hb. specialize (Hb ltac:(lia)).
  replace (a + 256 * b) with (a + (2 ^ (8 - s) * b) * 2 ^ s) by (rewrite Hp; ring).
  rewrite Z.div_add by lia. rewrite Hb at 1. rewrite Hp at 1. ring.
Qed.

Lemma shift_lane s a b m M : 0 < s < 8 -> 0 <= a < 256 -> 0 <= m < 2 ^ (8 - s) ->
  Z.land (Z.shiftr (a + 256 * b) s) (m + 256 * M) =
  Z.land (Z.shiftr a s) m + 256 * Z.land (Z.shiftr b s) M.
Proof.
  intros Hs Ha Hm. destruct (shiftr_split s a b Hs Ha) as (h & Hh & -> & _).
  assert (Hp : 256 = 2 ^ s * 2 ^ (8 - s)).
  { rewrite <- Z.pow_add_r by lia. replace (s + (8 - s)) with 8 by lia. reflexivity. }
  assert (0 < 2 ^ s) by (apply Z.pow_pos_nonneg; lia).
  assert (0 < 2 ^ (8 - s)) by (apply Z.pow_pos_nonneg; lia).
  assert (Has : 0 <= Z.shiftr a s < 2 ^ (8 - s)).
  { rewrite Z.shiftr_div_pow2 by lia. split; [apply Z.div_pos; lia|].
    apply Z.div_lt_upper_bound; [lia|]. rewrite <- Hp. lia. }
  rewrite lane_land; [|nia|].
  2:{ assert (2 ^ (8 - s) <= 2 ^ 8) by (apply Z.pow_le_mono_r; lia). lia. }
  f_equal.
  apply Z.bits_inj'. intros i Hi. rewrite !Z.land_spec.
  destruct (Z.lt_ge_cases i (8 - s)) as [Hl|Hg].
  - f_equal. rewrite <- (Z.mod_pow2_bits_low (Z.shiftr a s + h * 2 ^ (8 - s)) (8 - s)) by lia.
    rewrite Z.mod_add by lia. rewrite Z.mod_small by lia. reflexivity.
  - replace (Z.testbit m i) with false; [now rewrite !andb_false_r|].
    symmetry. destruct (Z.eqb_spec m 0) as [->|]; [apply Z.bits_0|].
    apply Z.bits_above_log2; [lia|].
    assert (Z.log2 m < 8 - s) by (apply Z.log2_lt_pow2; lia). lia.
Qed.

Lemma f1_lane k a b : 0 <= a < 256 -> f1 (S k) (a + 256 * b) = f1 1 a + 256 * f1 k b.
Proof.
  intros Ha. unfold f1. cbn [R].
  replace (85 * (1 + 256 * R k)) with (85 + 256 * (85 * R k)) by ring.
  rewrite (shift_lane 1 a b 85) by (try (cbn; lia); lia).
  change (85 * (1 + 256 * 0)) with 85. ring.
Qed.
Lemma f2_lane k a b : 0 <= a < 256 -> f2 (S k) (a + 256 * b) = f2 1 a + 256 * f2 k b.
Proof.
  intros Ha. unfold f2. cbn [R].
  replace (51 * (1 + 256 * R k)) with (51 + 256 * (51 * R k)) by ring.
  rewrite (shift_lane 2 a b 51) by (try (cbn; lia); lia).
  rewrite (lane_land a b 51) by lia.
  change (51 * (1 + 256 * 0)) with 51. ring.
Qed.
Lemma f3_lane k a b : 0 <= a <= 0x44 -> 0 <= b -> b mod 16 <= 4 ->
  f3 (S k) (a + 256 * b) = f3 1 a + 256 * f3 k b.
Proof.
  intros Ha Hb Hb4. unfold f3. cbn [R].
  replace (15 * (1 + 256 * R k)) with (15 + 256 * (15 * R k)) by ring.
  destruct (shiftr_split 4 a b) as (h & Hh & Es & Eh); [lia|lia|].
  change (2 ^ 4) with 16 in *. change (2 ^ (8 - 4)) with 16 in *.
  rewrite Es.
  assert (Has : 0 <= Z.shiftr a 4 <= 4).
  { rewrite Z.shiftr_div_pow2 by lia. change (2 ^ 4) with 16. lia. }
  replace (a + 256 * b + (Z.shiftr a 4 + h * 16 + 256 * Z.shiftr b 4))
    with ((a + Z.shiftr a 4 + h * 16) + 256 * (b + Z.shiftr b 4)) by ring.
  rewrite lane_land by lia.
  change (15 * (1 + 256 * 0)) with 15. f_equal.
  change 15 with (Z.ones 4). rewrite !Z.land_ones by lia. change (2 ^ 4) with 16.
  apply Z.mod_add. lia.
Qed.

Lemma byte_facts a : 0 <= a < 256 ->
  0 <= f1 1 a < 256 /\ 0 <= f2 1 (f1 1 a) <= 0x44 /\ f2 1 (f1 1 a) mod 16 <= 4 /\
  f3 1 (f2 1 (f1 1 a)) = popcount 8 a /\ 0 <= popcount 8 a <= 8.
Proof.
  intros Ha.
  assert (A : forallb (fun n => let a := Z.of_nat n in
     (0 <=? f1 1 a) && (f1 1 a <? 256) && (0 <=? f2 1 (f1 1 a)) && (f2 1 (f1 1 a) <=? 0x44)
     && (f2 1 (f1 1 a) mod 16 <=? 4) && (f3 1 (f2 1 (f1 1 a)) =? popcount 8 a)
     && (0 <=? popcount 8 a) && (popcount 8 a <=? 8)) (seq 0 256) = true)
    by (vm_compute; reflexivity).
  rewrite forallb_forall in A. specialize (A (Z.to_nat a)).
  rewrite in_seq in A. rewrite Z2Nat.id in A by lia.
  assert (HA := A ltac:(lia)). cbv zeta in HA.
  rewrite !andb_true_iff in HA.
  destruct HA as (((((((H1 & H2) & H3) & H4) & H5) & H6) & H7) & H8).
  apply Z.leb_le in H1, H3, H4, H5, H7, H8. apply Z.ltb_lt in H2. apply Z.eqb_eq in H6.
  repeat split; auto.
Qed.

(* bytes of the sideways sum *)
Fixpoint lanes (k : nat) (v : Z) : Z :=
  match k with O => 0 | S k' => popcount 8 (v mod 256) + 256 * lanes k' (v / 256) end.
Fixpoint total (k : nat) (v : Z) : Z :=
  match k with O => 0 | S k' => popcount 8 (v mod 256) + total k' (v / 256) end.

Lemma split256 v : v = v mod 256 + 256 * (v / 256).
Proof. lia. Qed.

Lemma f_lanes k : forall v, 0 <= v < 256 ^ Z.of_nat k ->
  0 <= f1 k v < 256 ^ Z.of_nat k /\
  0 <= f2 k (f1 k v) < 256 ^ Z.of_nat k /\ f2 k (f1 k v) mod 16 <= 4 /\
  f3 k (f2 k (f1 k v)) = lanes k v.
Proof.
  induction k as [|k IH]; intros v Hv.
  - cbn in Hv. assert (v = 0) by lia. subst. vm_compute. repeat split; congruence.
  - rewrite Nat2Z.inj_succ, Z.pow_succ_r in * by lia.
    rewrite (split256 v). set (a := v mod 256). set (b := v / 256).
    assert (Ha : 0 <= a < 256) by (unfold a; lia).
    assert (Hb : 0 <= b < 256 ^ Z.of_nat k).
    { unfold b. split; [lia|]. apply Z.div_lt_upper_bound; lia. }
    destruct (byte_facts a Ha) as (B1 & B2 & B3 & B4 & B5).
    destruct (IH b Hb) as (I1 & I2 & I3 & I4).
    rewrite f1_lane by auto. rewrite f2_lane by auto. rewrite f3_lane by lia.
    split; [lia|]. split; [lia|]. split.
    + rewrite Z.add_mod by lia.
      replace ((256 * f2 k (f1 k b)) mod 16) with 0 by
        (replace (256 * f2 k (f1 k b)) with ((16 * f2 k (f1 k b)) * 16) by ring; symmetry; apply Z.mod_mul; lia).
      rewrite Z.add_0_r, Z.mod_mod by lia. auto.
    + cbn [lanes]. rewrite mod_of_split, div_of_split by auto. rewrite B4, I4. reflexivity.
Qed.

Lemma total_bound k v : 0 <= total k v <= 8 * Z.of_nat k.
Proof.
  revert v; induction k as [|k IH]; intros v; cbn [total]; [lia|].
  destruct (byte_facts (v mod 256) ltac:(lia)) as (_ & _ & _ & _ & B5).
  specialize (IH (v / 256)). lia.
Qed.

Fixpoint prefix (k : nat) (v : Z) : Z :=
  match k with O => 0 | S k' => popcount 8 (v mod 256) * R (S k') + 256 * prefix k' (v / 256) end.

Lemma prefix_cong k : forall v, exists q, lanes k v * R k = prefix k v + q * 256 ^ Z.of_nat k.
Proof.
  induction k as [|k IH]; intros v.
  - exists 0. reflexivity.
  - destruct (IH (v / 256)) as [q Hq].
    set (p := popcount 8 (v mod 256)) in *. cbn [lanes prefix]. fold p.
    exists (q + lanes k (v / 256)).
    rewrite Nat2Z.inj_succ, Z.pow_succ_r by lia.
    replace ((p + 256 * lanes k (v / 256)) * R (S k))
      with (p * R (S k) + 256 * (lanes k (v / 256) * R k) + 256 * lanes k (v / 256) * 256 ^ Z.of_nat k)
      by (rewrite R_snoc; ring).
    rewrite Hq. ring.
Qed.

Lemma prefix_top k : forall v, exists L,
  prefix (S k) v = total (S k) v * 256 ^ Z.of_nat k + L /\ 0 <= L <= total (S k) v * R k.
Proof.
  induction k as [|k IH]; intros v.
  - exists 0. cbn [prefix total R]. change (256 ^ Z.of_nat 0) with 1. lia.
  - destruct (IH (v / 256)) as (L & HL & HLb).
    set (p := popcount 8 (v mod 256)) in *.
    assert (Hp : 0 <= p <= 8) by (apply (byte_facts (v mod 256)); lia).
    exists (p * R (S k) + 256 * L).
    change (prefix (S (S k)) v) with (p * R (S (S k)) + 256 * prefix (S k) (v / 256)).
    change (total (S (S k)) v) with (p + total (S k) (v / 256)).
    rewrite HL, (R_snoc (S k)), Nat2Z.inj_succ, Z.pow_succ_r by lia. split; [ring|].
    pose proof (R_nonneg (S k)). pose proof (total_bound (S k) (v / 256)).
    split; [nia|].
    assert (256 * L <= total (S k) (v / 256) * R (S k)); [|lia].
    cbn [R]. nia.
Qed.

Lemma popcount_split w b : forall v, 0 <= v ->
  popcount (b + w) v = popcount b v + popcount w (Z.shiftr v (Z.of_nat b)).
Proof.
  intros v Hv. unfold popcount. rewrite seq_app, filter_app, app_length, Nat2Z.inj_add.
  f_equal. f_equal. cbn [Nat.add].
  assert (G : forall w s, length (filter (fun i => Z.testbit v (Z.of_nat i)) (seq (s + b) w)) =
     length (filter (fun i => Z.testbit (Z.shiftr v (Z.of_nat b)) (Z.of_nat i)) (seq s w))).
  { clear w. induction w as [|w IH]; intros s; [reflexivity|].
    cbn [seq filter]. rewrite Z.shiftr_spec by lia. rewrite <- Nat2Z.inj_add.
    specialize (IH (S s)). cbn [Nat.add] in IH.
    destruct (Z.testbit v (Z.of_nat (s + b))); cbn [length]; auto. }
  apply (G w 0%nat).
Qed.

Lemma popcount_mod w v : 0 <= v -> popcount w v = popcount w (v mod 2 ^ Z.of_nat w).
Proof.
  intros Hv. unfold popcount. f_equal. f_equal.
  apply filter_ext_in. intros i Hi. apply in_seq in Hi.
  rewrite Z.mod_pow2_bits_low by lia. reflexivity.
Qed.

Lemma total_popcount k : forall v, 0 <= v -> total k v = popcount (8 * k) v.
Proof.
  induction k as [|k IH]; intros v Hv; [reflexivity|].
  cbn [total]. replace (8 * S k)%nat with (8 + 8 * k)%nat by lia.
  rewrite popcount_split by auto. rewrite (popcount_mod 8 v) by auto.
  change (2 ^ Z.of_nat 8) with 256. f_equal.
  rewrite Z.shiftr_div_pow2 by lia. change (2 ^ Z.of_nat 8) with 256. apply IH. lia.
Qed.

Lemma pow256 k : 2 ^ (8 * Z.of_nat k) = 256 ^ Z.of_nat k.
Proof. rewrite Z.pow_mul_r by lia. reflexivity. Qed.

Lemma BitCount_ok k v : (1 <= k <= 31)%nat -> 0 <= v < 2 ^ (8 * Z.of_nat k) ->
  BitCount (8 * Z.of_nat k) v = popcount (8 * k) v.
Proof.
  intros Hk Hv. destruct k as [|k]; [lia|]. set (K := S k) in *.
  rewrite pow256 in Hv.
  assert (Hall : 2 ^ (8 * Z.of_nat K) - 1 = 255 * R K) by (rewrite pow256, R_pow; reflexivity).
  destruct (f_lanes K v Hv) as (L1 & L2 & L3 & L4).
  pose proof (R_nonneg K) as HR.
  unfold BitCount. rewrite Hall. cbv zeta.
  assert (D3 : 255 * R K / 3 = 85 * R K) by (replace (255 * R K) with (85 * R K * 3) by ring; apply Z.div_mul; lia).
  assert (D15 : 255 * R K / 15 * 3 = 51 * R K).
  { replace (255 * R K) with (17 * R K * 15) by ring. rewrite Z.div_mul by lia. ring. }
  assert (D255 : 255 * R K / 255 = R K) by (rewrite Z.mul_comm; apply Z.div_mul; lia).
  rewrite D3, D15, D255. replace (R K * 15) with (15 * R K) by ring.
  change (v - Z.land (Z.shiftr v 1) (85 * R K)) with (f1 K v).
  rewrite (wrap_small _ (f1 K v)) by (rewrite pow256; auto).
  change (Z.land (f1 K v) (51 * R K) + Z.land (Z.shiftr (f1 K v) 2) (51 * R K)) with (f2 K (f1 K v)).
  rewrite (wrap_small _ (f2 K (f1 K v))) by (rewrite pow256; auto).
  change (Z.land (f2 K (f1 K v) + Z.shiftr (f2 K (f1 K v)) 4) (15 * R K)) with (f3 K (f2 K (f1 K v))).
  rewrite L4.
  pose proof (total_bound K v) as HT.
  destruct (prefix_cong K v) as [q Hq].
  destruct (prefix_top k v) as (L & HL & HLb). fold K in HL, HLb.
  pose proof (R_pow k) as HRk.
  assert (HpK : 256 ^ Z.of_nat K = 256 * 256 ^ Z.of_nat k).
  { unfold K. rewrite Nat2Z.inj_succ, Z.pow_succ_r by lia. reflexivity. }
  assert (Hpk : 0 < 256 ^ Z.of_nat k) by (apply Z.pow_pos_nonneg; lia).
  assert (HTb : 0 <= total K v <= 248) by lia.
  assert (HLt : L < 256 ^ Z.of_nat k) by nia.
  assert (Hlan : 0 <= lanes K v < 256 ^ Z.of_nat K).
  { clear - HR. generalize v. generalize K. clear.
    intros K; induction K as [|k IH]; intros v; [cbn; lia|].
    rewrite Nat2Z.inj_succ, Z.pow_succ_r by lia. cbn [lanes].
    destruct (byte_facts (v mod 256) ltac:(lia)) as (_ & _ & _ & _ & B5).
    specialize (IH (v / 256)). lia. }
  rewrite (wrap_small _ (lanes K v)) by (rewrite pow256; auto).
  assert (Hw : wrap (8 * Z.of_nat K) (lanes K v * R K) = prefix K v).
  { unfold wrap. rewrite pow256, Hq. rewrite Z.mod_add by lia. apply Z.mod_small. nia. }
  rewrite Hw, HL.
  rewrite Z.shiftr_div_pow2 by lia.
  replace (8 * Z.of_nat K - 8) with (8 * Z.of_nat k) by lia. rewrite pow256.
  rewrite Z.add_comm, Z.div_add by lia. rewrite Z.div_small by lia.
  rewrite Z.add_0_l. rewrite wrap_small by (change (2 ^ 8) with 256; lia).
  rewrite total_popcount by apply Hv. reflexivity.
Qed.
