(* Lemmas about BitUtil.v *)
From Coq Require Import List ZArith Bool Lia.
From Coq Require Import ZifyBool ZifyNat.
From Verif Require Import Common BitUtil BitUtilSpec.
Import ListNotations.
Local Open Scope Z_scope.
Ltac Zify.zify_post_hook ::= Z.div_mod_to_equations.

(* ---------- generic ---------- *)
Lemma wrap_small w x : 0 <= x < 2 ^ w -> wrap w x = x.
Proof. intros H. unfold wrap. now apply Z.mod_small. Qed.

Lemma wrap_range w x : 0 <= w -> 0 <= wrap w x < 2 ^ w.
Proof. intros H. unfold wrap. apply Z.mod_pos_bound. apply Z.pow_pos_nonneg; lia. Qed.

Lemma land_ones' x n : 0 <= n -> Z.land x (2 ^ n - 1) = x mod 2 ^ n.
Proof. intros H. rewrite <- Z.land_ones by lia. now rewrite Z.ones_equiv, Z.sub_1_r. Qed.

Lemma in_signed_spec w x : in_signed w x = true <-> - 2 ^ (w - 1) <= x < 2 ^ (w - 1).
Proof. unfold in_signed. lia. Qed.

Lemma sarith_ok w x : - 2 ^ (w - 1) <= x < 2 ^ (w - 1) -> sarith w x = Ok x.
Proof. intros H. unfold sarith. rewrite (proj2 (in_signed_spec w x)); auto. Qed.

(* ---------- bssMod / IntDiv ---------- *)
Lemma bssMod_ok w x m :
  0 < w -> - 2 ^ (w - 1) <= x < 2 ^ (w - 1) -> 0 < m < 2 ^ (w - 1) ->
  bssMod w x m = Ok (x mod m).
Proof.
  intros Hw Hx Hm. unfold bssMod.
  destruct (Z.eqb_spec m 0); [lia|].
  assert (Hq : in_signed w (Z.quot x m) = true).
  { apply in_signed_spec.
    assert (Z.abs (Z.quot x m) <= Z.abs x).
    { rewrite <- Z.quot_abs by lia. rewrite Z.quot_div_nonneg by lia.
      apply Z.div_le_upper_bound; try lia. nia. }
    destruct (Z.lt_ge_cases x 0).
    - assert (Z.quot x m <= 0).
      { rewrite <- (Z.opp_involutive x). rewrite Z.quot_opp_l by lia.
        assert (0 <= Z.quot (-x) m) by (apply Z.quot_pos; lia). lia. }
      lia.
    - lia. }
  rewrite Hq. cbn [negb].
  destruct (Z.ltb_spec (Z.rem x m) 0) as [Hr|Hr].
  - change (- (1)) with (-1). rewrite Z.land_m1_l.
    assert (Hb : Z.abs (Z.rem x m) < Z.abs m) by (apply Z.rem_bound_abs; lia).
    rewrite sarith_ok by lia. f_equal.
    apply Z.mod_unique_pos with (q := Z.quot x m - 1); [lia|].
    pose proof (Z.quot_rem' x m). lia.
  - cbn [Z.opp]. rewrite Z.land_0_l, Z.add_0_r.
    assert (Hb : Z.abs (Z.rem x m) < Z.abs m) by (apply Z.rem_bound_abs; lia).
    rewrite sarith_ok by lia. f_equal.
    apply Z.mod_unique_pos with (q := Z.quot x m); [lia|].
    pose proof (Z.quot_rem' x m). lia.
Qed.

Lemma IntDiv_ok w x m :
  0 < w -> - 2 ^ (w - 1) <= x < 2 ^ (w - 1) -> 0 < m < 2 ^ (w - 1) ->
  IntDiv w x m = Ok (x / m).
Proof.
  intros Hw Hx Hm. unfold IntDiv.
  destruct (Z.eqb_spec m 0); [lia|].
  assert (Hdiv : x / m = Z.quot x m - (if (x <? 0) && negb (Z.rem x m =? 0) then 1 else 0)).
  { pose proof (Z.quot_rem' x m) as Hqr.
    assert (Hb : Z.abs (Z.rem x m) < Z.abs m) by (apply Z.rem_bound_abs; lia).
    destruct (Z.ltb_spec x 0) as [Hx0|Hx0]; cbn [andb].
    - assert (Z.rem x m <= 0).
      { rewrite <- (Z.opp_involutive x). rewrite Z.rem_opp_l by lia.
        pose proof (Z.rem_nonneg (-x) m). lia. }
      destruct (Z.eqb_spec (Z.rem x m) 0); cbn [negb].
      + symmetry. apply Z.div_unique_pos with (r := 0); lia.
      + symmetry. apply Z.div_unique_pos with (r := Z.rem x m + m); lia.
    - pose proof (Z.rem_nonneg x m).
      symmetry. apply Z.div_unique_pos with (r := Z.rem x m); lia. }
  assert (Hdr : - 2 ^ (w - 1) <= x / m < 2 ^ (w - 1)).
  { split.
    - apply Z.div_le_lower_bound; [lia|]. nia.
    - apply Z.div_lt_upper_bound; [lia|]. nia. }
  rewrite <- Hdiv.
  assert (Hq : in_signed w (Z.quot x m) = true).
  { apply in_signed_spec.
    destruct (Z.lt_ge_cases x 0) as [Hx0|Hx0].
    - assert (0 <= Z.quot (-x) m) by (apply Z.quot_pos; lia).
      rewrite Z.quot_opp_l in H by lia.
      destruct ((x <? 0) && negb (Z.rem x m =? 0)); lia.
    - rewrite Z.quot_div_nonneg by lia. lia. }
  rewrite Hq. cbn [negb]. apply sarith_ok; auto.
Qed.

(* ---------- NextPow2 ---------- *)
Definition smeared (n v v' : Z) : Prop :=
  forall i, 0 <= i ->
    (Z.testbit v' i = true <-> exists d, 0 <= d < n /\ Z.testbit v (i + d) = true).

Lemma smeared_init v : smeared 1 v v.
Proof.
  intros i Hi. split.
  - intros H. exists 0. rewrite Z.add_0_r. split; auto; lia.
  - intros (d & Hd & H). replace d with 0 in H by lia. now rewrite Z.add_0_r in H.
Qed.

Lemma smeared_step n s v v' :
  0 < s <= n -> smeared n v v' -> smeared (n + s) v (smear s v').
Proof.
  intros Hs H i Hi. unfold smear. rewrite Z.lor_spec, Z.shiftr_spec by lia.
  rewrite orb_true_iff, (H i Hi), (H (i + s)) by lia. split.
  - intros [(d & Hd & E)|(d & Hd & E)].
    + exists d. split; auto; lia.
    + exists (s + d). split; [lia|]. now rewrite Z.add_assoc.
  - intros (d & Hd & E). destruct (Z.lt_ge_cases d n).
    + left. exists d. split; auto; lia.
    + right. exists (d - s). split; [lia|]. replace (i + s + (d - s)) with (i + d) by lia. auto.
Qed.

Lemma smeared_full n v v' :
  0 < v -> 0 <= v' -> Z.log2 v < n -> smeared n v v' -> v' = 2 ^ (Z.log2 v + 1) - 1.
Proof.
  intros Hv Hv' Hn H. pose proof (Z.log2_nonneg v) as Hlog. apply Z.bits_inj'. intros i Hi.
  replace (2 ^ (Z.log2 v + 1) - 1) with (Z.ones (Z.log2 v + 1)) by (rewrite Z.ones_equiv; lia).
  destruct (Z.lt_ge_cases i (Z.log2 v + 1)) as [Hlt|Hge].
  - rewrite Z.ones_spec_low by lia. apply H; auto.
    exists (Z.log2 v - i). split; [lia|].
    replace (i + (Z.log2 v - i)) with (Z.log2 v) by lia. apply Z.bit_log2; lia.
  - rewrite Z.ones_spec_high by lia.
    destruct (Z.testbit v' i) eqn:E; auto. exfalso.
    apply H in E; auto. destruct E as (d & Hd & E).
    rewrite Z.bits_above_log2 in E; try discriminate; lia.
Qed.

Lemma smear_nonneg s v : 0 <= v -> 0 <= smear s v.
Proof.
  intros H. unfold smear. apply Z.lor_nonneg. split; auto. now apply Z.shiftr_nonneg.
Qed.

Lemma smear_zero s : smear s 0 = 0.
Proof. unfold smear. now rewrite Z.shiftr_0_l. Qed.

(* value of the generic function given the smearing chain gives a full smear *)
Lemma np2_generic w v v' :
  0 < w -> 0 <= v < 2 ^ w ->
  (wrap w (v - 1) = 0 -> v' = 0) ->
  0 <= v' ->
  smeared w (wrap w (v - 1)) v' ->
  wrap w (v' + 1) =
    if (1 <=? v) && (v <=? 2 ^ (w - 1)) then 2 ^ (Z.log2_up v) else 0.
Proof.
  intros Hw Hv H0 Hv' Hs.
  assert (Hpw : 2 ^ w = 2 * 2 ^ (w - 1)) by (rewrite <- Z.pow_succ_r by lia; f_equal; lia).
  assert (Hp1 : 0 < 2 ^ (w - 1)) by (apply Z.pow_pos_nonneg; lia).
  destruct (Z.eqb_spec v 0) as [->|Hne].
  - replace (1 <=? 0) with false by reflexivity. cbn [andb].
    assert (Hwr : wrap w (0 - 1) = 2 ^ w - 1).
    { unfold wrap. symmetry. apply Z.mod_unique_pos with (q := -1); lia. }
    rewrite Hwr in Hs.
    assert (Hlog : Z.log2 (2 ^ w - 1) = w - 1).
    { apply Z.log2_unique; [lia|]. replace (Z.succ (w - 1)) with w by lia. lia. }
    rewrite (smeared_full w (2 ^ w - 1) v') by (rewrite ?Hlog; lia || auto).
    rewrite Hlog. replace (w - 1 + 1) with w by lia. unfold wrap.
    replace (2 ^ w - 1 + 1) with (1 * 2 ^ w) by lia. apply Z.mod_mul. lia.
  - rewrite (wrap_small w (v - 1)) in * by lia.
    destruct (Z.eqb_spec v 1) as [->|Hne1].
    + rewrite H0 by reflexivity. replace (1 <=? 1) with true by reflexivity.
      replace (1 <=? 2 ^ (w - 1)) with true by lia. cbn [andb].
      rewrite Z.log2_up_1. apply wrap_small. cbn. lia.
    + rewrite (smeared_full w (v - 1) v') by
        (auto; try lia; apply Z.log2_lt_pow2; lia).
      replace (2 ^ (Z.log2 (v - 1) + 1) - 1 + 1) with (2 ^ (Z.log2 (v - 1) + 1)) by lia.
      replace (1 <=? v) with true by lia. cbn [andb].
      assert (Hup : Z.log2_up v = Z.log2 (v - 1) + 1).
      { rewrite Z.log2_up_eqn by lia. rewrite Z.sub_1_r. lia. }
      destruct (Z.leb_spec v (2 ^ (w - 1))).
      * rewrite Hup. apply wrap_small. split; [apply Z.pow_nonneg; lia|].
        apply Z.pow_lt_mono_r; try lia.
        assert (Z.log2 (v - 1) < w - 1) by (apply Z.log2_lt_pow2; lia). lia.
      * assert (Z.log2 (v - 1) = w - 1).
        { apply Z.log2_unique; [lia|]. replace (Z.succ (w - 1)) with w by lia. lia. }
        rewrite H1. replace (w - 1 + 1) with w by lia. unfold wrap.
        rewrite <- (Z.mul_1_l (2 ^ w)) at 1. apply Z.mod_mul. lia.
Qed.

Ltac np2 w :=
  intros Hv; apply (np2_generic w); try lia;
  [ intros ->; rewrite !smear_zero; reflexivity
  | repeat apply smear_nonneg; apply wrap_range; lia
  | ].

Lemma NextPow2_8_val v : 0 <= v < 2 ^ 8 ->
  NextPow2_8 v = if (1 <=? v) && (v <=? 2 ^ (8 - 1)) then 2 ^ (Z.log2_up v) else 0.
Proof.
  unfold NextPow2_8. np2 8.
  apply (smeared_step 4 4); [lia|]. apply (smeared_step 2 2); [lia|].
  apply (smeared_step 1 1); [lia|]. apply smeared_init.
Qed.
Lemma NextPow2_16_val v : 0 <= v < 2 ^ 16 ->
  NextPow2_16 v = if (1 <=? v) && (v <=? 2 ^ (16 - 1)) then 2 ^ (Z.log2_up v) else 0.
Proof.
  unfold NextPow2_16. np2 16.
  apply (smeared_step 8 8); [lia|].
  apply (smeared_step 4 4); [lia|]. apply (smeared_step 2 2); [lia|].
  apply (smeared_step 1 1); [lia|]. apply smeared_init.
Qed.
Lemma NextPow2_32_val v : 0 <= v < 2 ^ 32 ->
  NextPow2_32 v = if (1 <=? v) && (v <=? 2 ^ (32 - 1)) then 2 ^ (Z.log2_up v) else 0.
Proof.
  unfold NextPow2_32. np2 32.
  apply (smeared_step 16 16); [lia|]. apply (smeared_step 8 8); [lia|].
  apply (smeared_step 4 4); [lia|]. apply (smeared_step 2 2); [lia|].
  apply (smeared_step 1 1); [lia|]. apply smeared_init.
Qed.
Lemma NextPow2_64_val v : 0 <= v < 2 ^ 64 ->
  NextPow2_64 v = if (1 <=? v) && (v <=? 2 ^ (64 - 1)) then 2 ^ (Z.log2_up v) else 0.
Proof.
  unfold NextPow2_64. np2 64.
  apply (smeared_step 32 32); [lia|].
  apply (smeared_step 16 16); [lia|]. apply (smeared_step 8 8); [lia|].
  apply (smeared_step 4 4); [lia|]. apply (smeared_step 2 2); [lia|].
  apply (smeared_step 1 1); [lia|]. apply smeared_init.
Qed.

Lemma log2_up_least v : 1 <= v ->
  v <= 2 ^ Z.log2_up v /\ forall k, 0 <= k -> v <= 2 ^ k -> 2 ^ Z.log2_up v <= 2 ^ k.
Proof.
  intros Hv. split.
  - destruct (Z.eqb_spec v 1) as [->|]; [rewrite Z.log2_up_1; cbn; lia|].
    apply Z.log2_up_spec; lia.
  - intros k Hk Hle. apply Z.pow_le_mono_r; [lia|].
    rewrite <- (Z.log2_up_pow2 k) by lia. now apply Z.log2_up_le_mono.
Qed.

(* ---------- isqrt ---------- *)
Lemma isqrt_loop_ok w k n root0 r :
  Z.of_nat k <= 30 -> 2 * Z.of_nat k <= w ->
  (* root0 = 2 r, r a multiple of 2^k, n = n0 - r^2, n0 < (r + 2^k)^2, (r+2^k)^2 <= 2^w *)
  root0 = 2 * r -> 0 <= r -> (exists q, r = q * 2 ^ Z.of_nat k) ->
  0 <= n -> n + r * r < (r + 2 ^ Z.of_nat k) * (r + 2 ^ Z.of_nat k) ->
  (r + 2 ^ Z.of_nat k) * (r + 2 ^ Z.of_nat k) <= 2 ^ w -> 2 * (r + 2 ^ Z.of_nat k) <= 2 ^ w ->
  exists r', isqrt_loop w k n root0 = Ok (2 * r') /\ 0 <= r' /\
    r' * r' <= n + r * r < (r' + 1) * (r' + 1).
Proof.
  revert n root0 r. induction k as [|k IH]; intros n root0 r Hk Hw Hroot Hr Hq Hn Hlt Hup Hup2.
  - cbn [isqrt_loop]. exists r. subst. change (2 ^ Z.of_nat 0) with 1 in *.
    repeat split; auto; lia.
  - cbn [isqrt_loop].
    assert (Hp : 2 ^ Z.of_nat (S k) = 2 * 2 ^ Z.of_nat k).
    { rewrite Nat2Z.inj_succ. apply Z.pow_succ_r. lia. }
    rewrite Hp in *. set (p := 2 ^ Z.of_nat k) in *.
    assert (Hp0 : 0 < p) by (apply Z.pow_pos_nonneg; lia).
    destruct Hq as [q Hq].
    assert (Ht : (root0 + p) * p = (r + p) * (r + p) - r * r) by (subst; ring).
    assert (Hrr : 0 <= r * r) by (apply Z.square_nonneg).
    assert (Hm0 : (r + p) * (r + p) < (r + 2 * p) * (r + 2 * p)).
    { apply Z.mul_lt_mono_nonneg; lia. }
    assert (Hm2 : r * r <= (r + p) * (r + p)).
    { apply Z.mul_le_mono_nonneg; lia. }
    rewrite wrap_small by (rewrite Ht; lia).
    rewrite Ht.
    destruct (Z.leb_spec ((r + p) * (r + p) - r * r) n) as [Hle|Hgt].
    + unfold two_shl. fold p.
      assert (Hp30 : 2 * p <= 2 ^ 30).
      { rewrite <- Hp. apply Z.pow_le_mono_r; lia. }
      destruct (Z.ltb_spec (2 * p) (2 ^ 32)) as [Hin|Hin];
        [|exfalso; change (2 ^ 32) with (4 * 2 ^ 30) in Hin; lia].
      cbn [bind].
      assert (Hsg : sgn 32 (2 * p) = 2 * p).
      { unfold sgn. rewrite Z.mod_small by (change (2 ^ 32) with (4 * 2 ^ 30); lia).
        change (2 ^ (32 - 1)) with (2 * 2 ^ 30).
        destruct (Z.ltb_spec (2 * p) (2 * 2 ^ 30)); lia. }
      rewrite Hsg.
      assert (Hlor : Z.lor root0 (wrap w (2 * p)) = 2 * (r + p)).
      { rewrite wrap_small by lia.
        replace root0 with (2 * q * (2 * p)) by (subst; ring).
        replace (2 * (r + p)) with (2 * q * (2 * p) + 2 * p) by (subst; ring).
        symmetry. rewrite <- Z.lxor_lor.
        - apply Z.add_nocarry_lxor.
          rewrite <- Hp, <- Z.shiftl_mul_pow2 by lia.
          apply Z.bits_inj'. intros i Hi. rewrite Z.land_spec, Z.bits_0.
          rewrite Z.pow2_bits_eqb by lia.
          destruct (Z.eqb_spec (Z.of_nat (S k)) i); [|apply andb_false_r].
          rewrite Z.shiftl_spec by lia. replace (i - Z.of_nat (S k)) with 0 by lia.
          rewrite Z.bit0_odd. rewrite Z.odd_mul. reflexivity.
        - rewrite <- Hp, <- Z.shiftl_mul_pow2 by lia.
          apply Z.bits_inj'. intros i Hi. rewrite Z.land_spec, Z.bits_0.
          rewrite Z.pow2_bits_eqb by lia.
          destruct (Z.eqb_spec (Z.of_nat (S k)) i); [|apply andb_false_r].
          rewrite Z.shiftl_spec by lia. replace (i - Z.of_nat (S k)) with 0 by lia.
          rewrite Z.bit0_odd. rewrite Z.odd_mul. reflexivity. }
      rewrite Hlor.
      clear Hlor Hsg Hin Hp30.
      assert (E2p : r + p + p = r + 2 * p) by ring.
      destruct (IH (n - ((r + p) * (r + p) - r * r)) (2 * (r + p)) (r + p)) as (r' & E & Hr' & Hb);
        rewrite ?E2p; try lia.
      { exists (2 * q + 1). rewrite Hq. ring. }
      exists r'. rewrite E. repeat split; auto; lia.
    + assert (Hm1 : (r + p) * (r + p) <= (r + 2 * p) * (r + 2 * p)).
      { apply Z.mul_le_mono_nonneg; lia. }
      destruct (IH n root0 r) as (r' & E & Hr' & Hb); auto; try lia.
      { exists (q * 2). rewrite Hq. ring. }
      exists r'. rewrite E. repeat split; auto; lia.
Qed.

Lemma IntFastSqrt_ok w n :
  (w = 8 \/ w = 16 \/ w = 32) -> 0 <= n < 2 ^ w ->
  exists r, IntFastSqrt w n = Ok r /\ 0 <= r /\ r * r <= n < (r + 1) * (r + 1).
Proof.
  intros Hw Hn. unfold IntFastSqrt.
  assert (Hh : exists k : nat, Z.to_nat (w / 2) = k /\ w = 2 * Z.of_nat k /\ (k <= 16)%nat /\ (4 <= k)%nat).
  { destruct Hw as [->|[->| ->]]; [exists 4%nat|exists 8%nat|exists 16%nat]; repeat split; lia. }
  destruct Hh as (k & -> & Hk & Hk16 & Hk4).
  assert (Hpk : 2 ^ w = 2 ^ Z.of_nat k * 2 ^ Z.of_nat k).
  { rewrite <- Z.pow_add_r by lia. f_equal. lia. }
  assert (2 <= 2 ^ Z.of_nat k).
  { change 2 with (2 ^ 1) at 1. apply Z.pow_le_mono_r; lia. }
  destruct (isqrt_loop_ok w k n 0 0) as (r & E & Hr & Hb); try lia; try nia.
  { exists 0. lia. }
  rewrite E. cbn [bind]. exists r. split.
  - f_equal. rewrite Z.shiftr_div_pow2 by lia. change (2 ^ 1) with 2.
    rewrite Z.mul_comm. apply Z.div_mul. lia.
  - split; auto. lia.
Qed.

Lemma isqrt_loop_skip w i n root :
  n < wrap w ((root + 2 ^ Z.of_nat i) * 2 ^ Z.of_nat i) ->
  isqrt_loop w (S i) n root = isqrt_loop w i n root.
Proof.
  intros H. cbn [isqrt_loop].
  destruct (Z.leb_spec (wrap w ((root + 2 ^ Z.of_nat i) * 2 ^ Z.of_nat i)) n); [lia|reflexivity].
Qed.

Lemma IntFastSqrt64_ok n :
  0 <= n < 2 ^ 60 ->
  exists r, IntFastSqrt 64 n = Ok r /\ 0 <= r /\ r * r <= n < (r + 1) * (r + 1).
Proof.
  intros Hn. unfold IntFastSqrt.
  change (Z.to_nat (64 / 2)) with 32%nat.
  assert (Hp30 : 2 ^ Z.of_nat 30 = 1073741824) by reflexivity.
  change (2 ^ 60) with 1152921504606846976 in Hn.
  destruct (isqrt_loop_ok 64 30 n 0 0) as (r & E & Hr & Hb); rewrite ?Hp30.
  { vm_compute; discriminate. }
  { vm_compute; discriminate. }
  { reflexivity. }
  { lia. }
  { exists 0. lia. }
  { lia. }
  { lia. }
  { vm_compute; discriminate. }
  { vm_compute; discriminate. }
  assert (E2 : isqrt_loop 64 32 n 0 = isqrt_loop 64 30 n 0).
  { rewrite (isqrt_loop_skip 64 31), (isqrt_loop_skip 64 30).
    - reflexivity.
    - change (wrap 64 ((0 + 2 ^ Z.of_nat 30) * 2 ^ Z.of_nat 30)) with 1152921504606846976. lia.
    - change (wrap 64 ((0 + 2 ^ Z.of_nat 31) * 2 ^ Z.of_nat 31)) with 4611686018427387904. lia. }
  rewrite E2, E. cbn [bind]. exists r. split.
  - f_equal. rewrite Z.shiftr_div_pow2 by lia. change (2 ^ 1) with 2.
    rewrite Z.mul_comm. apply Z.div_mul. lia.
  - split; auto. lia.
Qed.

(* ---------- DaysFromCivil ---------- *)
Lemma DaysFromCivil_val y m d :
  1 <= m <= 12 -> 1 <= d <= 31 ->
  DaysFromCivil y m d =
    let y' := y - (if m <=? 2 then 1 else 0) in
    365 * y' + y' / 4 - y' / 100 + y' / 400
      + (153 * (m + (if 2 <? m then -3 else 9)) + 2) / 5 + d - 1 - 719468.
Proof.
  intros Hm Hd. unfold DaysFromCivil. cbv zeta.
  set (y' := y - (if m <=? 2 then 1 else 0)).
  assert (Hera : Z.quot (if 0 <=? y' then y' else y' - 399) 400 = y' / 400).
  { destruct (Z.leb_spec 0 y').
    - now rewrite Z.quot_div_nonneg by lia.
    - rewrite <- (Z.opp_involutive (y' - 399)). rewrite Z.quot_opp_l by lia.
      rewrite Z.quot_div_nonneg by lia. lia. }
  rewrite Hera.
  assert (Hyoe : 0 <= y' - y' / 400 * 400 < 400) by lia.
  set (yoe := y' - y' / 400 * 400) in *.
  rewrite (wrap_small 32 yoe) by lia.
  set (mm := m + (if 2 <? m then -3 else 9)).
  assert (Hmm : 0 <= mm < 12) by (unfold mm; destruct (Z.ltb_spec 2 m); lia).
  rewrite (wrap_small 32 mm) by lia.
  rewrite (wrap_small 32 (153 * mm + 2)) by lia.
  rewrite (wrap_small 32 ((153 * mm + 2) / 5 + d - 1)) by lia.
  rewrite wrap_small by lia.
  assert (y' = y' / 400 * 400 + yoe) by (unfold yoe; lia).
  lia.
Qed.

(* ---------- fbnext, nextmultiple, AlignSize ---------- *)
Lemma fbnext_val w x :
  0 <= x -> x + 1 + x / 2 + x / 8 - x / 128 < 2 ^ w ->
  fbnext w x = x + 1 + x / 2 + x / 8 - x / 128.
Proof.
  intros Hx Hb. unfold fbnext. rewrite !Z.shiftr_div_pow2 by lia.
  change (2 ^ 1) with 2. change (2 ^ 3) with 8. change (2 ^ 7) with 128.
  apply wrap_small. lia.
Qed.

Lemma nextmultiple_val w x k :
  0 <= k <= w -> 0 <= x -> x + (2 ^ k - 1) < 2 ^ w ->
  nextmultiple w x (2 ^ k - 1) = (x + (2 ^ k - 1)) / 2 ^ k * 2 ^ k.
Proof.
  intros Hk Hx Hb. unfold nextmultiple.
  assert (Hpk : 0 < 2 ^ k) by (apply Z.pow_pos_nonneg; lia).
  rewrite (wrap_small w (x + _)) by lia.
  set (y := x + (2 ^ k - 1)) in *. assert (Hy : 0 <= y < 2 ^ w) by lia.
  assert (Hland : Z.land y (wrap w (Z.lnot (2 ^ k - 1))) = Z.ldiff y (Z.ones k)).
  { apply Z.bits_inj'. intros i Hi. rewrite Z.land_spec, Z.ldiff_spec.
    unfold wrap. destruct (Z.lt_ge_cases i w) as [Hlt|Hge].
    - rewrite Z.mod_pow2_bits_low by lia. rewrite Z.lnot_spec by lia.
      rewrite Z.ones_equiv, <- Z.sub_1_r. reflexivity.
    - replace (Z.testbit y i) with false; [reflexivity|].
      symmetry. destruct (Z.eqb_spec y 0) as [E|]; [rewrite E; apply Z.bits_0|].
      apply Z.bits_above_log2; [lia|].
      assert (Z.log2 y < w) by (apply Z.log2_lt_pow2; lia). lia. }
  rewrite Hland. rewrite Z.ldiff_ones_r by lia.
  rewrite Z.shiftl_mul_pow2, Z.shiftr_div_pow2 by lia. reflexivity.
Qed.

Lemma ceil_mult_least x a : 0 < a -> 0 <= x ->
  let r := (x + (a - 1)) / a * a in
  x <= r /\ (a | r) /\ forall q, x <= q * a -> r <= q * a.
Proof.
  intros Ha Hx r. repeat split.
  - subst r. pose proof (Z.div_mod (x + (a - 1)) a). pose proof (Z.mod_pos_bound (x + (a - 1)) a). lia.
  - subst r. exists ((x + (a - 1)) / a). reflexivity.
  - intros q Hq. subst r. apply Z.mul_le_mono_nonneg_r; [lia|].
    assert ((x + (a - 1)) / a < q + 1); [|lia].
    apply Z.div_lt_upper_bound; lia.
Qed.

Lemma AlignSize_val w sz a :
  0 < a -> 0 <= sz -> (sz + (a - 1)) / a * a < 2 ^ w ->
  AlignSize w sz a = Ok ((sz + (a - 1)) / a * a).
Proof.
  intros Ha Hs Hb. unfold AlignSize. destruct (Z.eqb_spec a 0); [lia|].
  assert (E : sz / a + (if sz mod a =? 0 then 0 else 1) = (sz + (a - 1)) / a).
  { pose proof (Z.div_mod sz a ltac:(lia)). pose proof (Z.mod_pos_bound sz a ltac:(lia)).
    destruct (Z.eqb_spec (sz mod a) 0).
    - apply Z.div_unique_pos with (r := a - 1 - 0) ; [lia|]. lia.
    - apply Z.div_unique_pos with (r := sz mod a - 1) ; [lia|]. lia. }
  rewrite E. f_equal. apply wrap_small. split; [|auto].
  apply Z.mul_nonneg_nonneg; [|lia]. apply Z.div_pos; lia.
Qed.

(* ---------- log2 ---------- *)
(* high-part test: v land (2^(2S) - 2^S) <> 0 iff v >= 2^S for v < 2^(2S) *)
Lemma land_high v s b : 0 < s -> b = 2 ^ (2 * s) - 2 ^ s -> 0 <= v < 2 ^ (2 * s) ->
  (Z.land v b =? 0) = (v <? 2 ^ s).
Proof.
  intros Hs -> Hv.
  assert (E : 2 ^ (2 * s) - 2 ^ s = Z.shiftl (Z.ones s) s).
  { rewrite Z.shiftl_mul_pow2, Z.ones_equiv by lia. rewrite <- Z.sub_1_r.
    replace (2 * s) with (s + s) by lia. rewrite Z.pow_add_r by lia. ring. }
  rewrite E.
  assert (E2 : Z.land v (Z.shiftl (Z.ones s) s) = Z.shiftl (Z.shiftr v s) s).
  { apply Z.bits_inj'. intros i Hi. rewrite Z.land_spec.
    destruct (Z.lt_ge_cases i s) as [Hl|Hg].
    - rewrite !Z.shiftl_spec_low by lia. apply andb_false_r.
    - rewrite !Z.shiftl_spec by lia. rewrite Z.shiftr_spec by lia.
      replace (i - s + s) with i by lia.
      destruct (Z.lt_ge_cases i (2 * s)) as [Hl2|Hg2].
      + rewrite Z.ones_spec_low by lia. apply andb_true_r.
      + rewrite Z.ones_spec_high by lia. rewrite andb_false_r.
        destruct (Z.eqb_spec v 0) as [E0|]; [rewrite E0; symmetry; apply Z.bits_0|].
        symmetry. apply Z.bits_above_log2; [lia|].
        assert (Z.log2 v < 2 * s) by (apply Z.log2_lt_pow2; lia). lia. }
  rewrite E2, Z.shiftl_mul_pow2, Z.shiftr_div_pow2 by lia.
  assert (0 < 2 ^ s) by (apply Z.pow_pos_nonneg; lia).
  destruct (Z.ltb_spec v (2 ^ s)).
  - rewrite Z.div_small by lia. reflexivity.
  - apply Z.eqb_neq. assert (1 <= v / 2 ^ s) by (apply Z.div_le_lower_bound; lia). nia.
Qed.

(* invariant: log2 v0 = r + log2 v, v < 2^(2s), r a multiple of 2s *)
Definition log2_inv (w s v0 : Z) (vr : Z * Z) : Prop :=
  let '(v, r) := vr in
  0 < v < 2 ^ (2 * s) /\ 0 <= r < w /\ (exists q, r = q * (2 * s)) /\ Z.log2 v0 = r + Z.log2 v.

Lemma log2_step_inv w k v0 b vr :
  0 <= k ->
  let s := 2 ^ k in
  b = 2 ^ (2 * s) - 2 ^ s ->
  log2_inv w s v0 vr ->
  let '(v, r) := log2_step b s vr in
  0 < v < 2 ^ s /\ 0 <= r < w + s /\ (exists q, r = q * s) /\ Z.log2 v0 = r + Z.log2 v.
Proof.
  intros Hk s Hb. destruct vr as [v r]. intros (Hv & Hr & (q & Hq) & Hl). unfold log2_step.
  assert (Hs : 0 < s) by (apply Z.pow_pos_nonneg; lia).
  rewrite (land_high v s b) by (auto; lia).
  destruct (Z.ltb_spec v (2 ^ s)).
  - repeat split; auto; try lia. exists (q * 2). lia.
  - assert (Hdb : 2 ^ (2 * s) = 2 ^ s * 2 ^ s) by (rewrite <- Z.pow_add_r by lia; f_equal; lia).
    assert (0 < 2 ^ s) by (apply Z.pow_pos_nonneg; lia).
    assert (Hlor : Z.lor r s = r + s).
    { symmetry. rewrite <- Z.lxor_lor.
      - apply Z.add_nocarry_lxor.
        replace r with (Z.shiftl q (k + 1)).
        2:{ rewrite Z.shiftl_mul_pow2 by lia. rewrite Z.pow_add_r by lia. change (2 ^ 1) with 2.
            rewrite Hq. unfold s. ring. }
        apply Z.bits_inj'. intros i Hi. rewrite Z.land_spec, Z.bits_0. unfold s.
        rewrite Z.pow2_bits_eqb by lia. destruct (Z.eqb_spec k i); [|apply andb_false_r].
        rewrite Z.shiftl_spec_low by lia. reflexivity.
      - replace r with (Z.shiftl q (k + 1)).
        2:{ rewrite Z.shiftl_mul_pow2 by lia. rewrite Z.pow_add_r by lia. change (2 ^ 1) with 2.
            rewrite Hq. unfold s. ring. }
        apply Z.bits_inj'. intros i Hi. rewrite Z.land_spec, Z.bits_0. unfold s.
        rewrite Z.pow2_bits_eqb by lia. destruct (Z.eqb_spec k i); [|apply andb_false_r].
        rewrite Z.shiftl_spec_low by lia. reflexivity. }
    rewrite Hlor, Z.shiftr_div_pow2 by lia.
    repeat split; try lia.
    + apply Z.div_lt_upper_bound; lia.
    + exists (2 * q + 1). lia.
    + rewrite Hl. rewrite <- Z.shiftr_div_pow2 by lia. rewrite Z.log2_shiftr by lia.
      assert (s <= Z.log2 v).
      { rewrite <- (Z.log2_pow2 s) by lia. now apply Z.log2_le_mono. }
      lia.
Qed.

Lemma log2_final v0 (vr : Z * Z) :
  (let '(v, r) := vr in
   0 < v < 2 ^ 1 /\ 0 <= r < 64 /\ (exists q, r = q * 1) /\ Z.log2 v0 = r + Z.log2 v) ->
  snd vr = Z.log2 v0.
Proof.
  destruct vr as [v r]. intros (Hv & _ & _ & Hl). cbn.
  assert (v = 1) by lia. subst v. change (Z.log2 1) with 0 in Hl. lia.
Qed.

Lemma log2_weaken w s s' v0 vr :
  s = 2 * s' ->
  (let '(v, r) := vr in
   0 < v < 2 ^ s /\ 0 <= r < w /\ (exists q, r = q * s) /\ Z.log2 v0 = r + Z.log2 v) ->
  log2_inv w s' v0 vr.
Proof. intros ->. destruct vr. auto. Qed.

Lemma chain1 w v0 vr : w + 1 <= 64 -> log2_inv w 1 v0 vr -> snd (log2_step 0x2 1 vr) = Z.log2 v0.
Proof.
  intros Hw H. apply log2_final.
  pose proof (log2_step_inv w 0 v0 0x2 vr ltac:(lia) eq_refl H) as H1.
  change (2 ^ 0) with 1 in H1. destruct (log2_step 2 1 vr). intuition lia.
Qed.
Lemma chain2 w v0 vr : w + 3 <= 64 -> log2_inv w 2 v0 vr ->
  snd (log2_step 0x2 1 (log2_step 0xC 2 vr)) = Z.log2 v0.
Proof.
  intros Hw H. apply (chain1 (w + 2)); [lia|]. apply (log2_weaken _ 2); [lia|].
  apply (log2_step_inv w 1 v0 0xC vr); auto; lia.
Qed.
Lemma chain4 w v0 vr : w + 7 <= 64 -> log2_inv w 4 v0 vr ->
  snd (log2_step 0x2 1 (log2_step 0xC 2 (log2_step 0xF0 4 vr))) = Z.log2 v0.
Proof.
  intros Hw H. apply (chain2 (w + 4)); [lia|]. apply (log2_weaken _ 4); [lia|].
  apply (log2_step_inv w 2 v0 0xF0 vr); auto; lia.
Qed.
Lemma chain8 w v0 vr : w + 15 <= 64 -> log2_inv w 8 v0 vr ->
  snd (log2_step 0x2 1 (log2_step 0xC 2 (log2_step 0xF0 4 (log2_step 0xFF00 8 vr)))) = Z.log2 v0.
Proof.
  intros Hw H. apply (chain4 (w + 8)); [lia|]. apply (log2_weaken _ 8); [lia|].
  apply (log2_step_inv w 3 v0 0xFF00 vr); auto; lia.
Qed.
Lemma chain16 w v0 vr : w + 31 <= 64 -> log2_inv w 16 v0 vr ->
  snd (log2_step 0x2 1 (log2_step 0xC 2 (log2_step 0xF0 4 (log2_step 0xFF00 8
      (log2_step 0xFFFF0000 16 vr))))) = Z.log2 v0.
Proof.
  intros Hw H. apply (chain8 (w + 16)); [lia|]. apply (log2_weaken _ 16); [lia|].
  apply (log2_step_inv w 4 v0 0xFFFF0000 vr); auto; lia.
Qed.
Lemma chain32 w v0 vr : w + 63 <= 64 -> log2_inv w 32 v0 vr ->
  snd (log2_step 0x2 1 (log2_step 0xC 2 (log2_step 0xF0 4 (log2_step 0xFF00 8
      (log2_step 0xFFFF0000 16 (log2_step 0xFFFFFFFF00000000 32 vr)))))) = Z.log2 v0.
Proof.
  intros Hw H. apply (chain16 (w + 32)); [lia|]. apply (log2_weaken _ 32); [lia|].
  apply (log2_step_inv w 5 v0 0xFFFFFFFF00000000 vr); auto; lia.
Qed.

Ltac log2_start := unfold log2_inv; repeat split; try lia; exists 0; lia.

Lemma bssLog2_8_ok v : 0 <= v < 2 ^ 8 -> bssLog2_8 v = Z.log2 v.
Proof.
  intros H. destruct (Z.eqb_spec v 0) as [->|]; [reflexivity|].
  apply (chain4 1); [lia|]. log2_start.
Qed.
Lemma bssLog2_16_ok v : 0 <= v < 2 ^ 16 -> bssLog2_16 v = Z.log2 v.
Proof.
  intros H. destruct (Z.eqb_spec v 0) as [->|]; [reflexivity|].
  apply (chain8 1); [lia|]. log2_start.
Qed.
Lemma bssLog2_32_ok v : 0 <= v < 2 ^ 32 -> bssLog2_32 v = Z.log2 v.
Proof.
  intros H. destruct (Z.eqb_spec v 0) as [->|]; [reflexivity|].
  apply (chain16 1); [lia|]. log2_start.
Qed.
Lemma bssLog2_64_ok v : 0 <= v < 2 ^ 64 -> bssLog2_64 v = Z.log2 v.
Proof.
  intros H. destruct (Z.eqb_spec v 0) as [->|]; [reflexivity|].
  apply (chain32 1); [lia|]. log2_start.
Qed.

Lemma clz_from_ok k v : 0 < v < 2 ^ Z.of_nat k -> clz_from k v = Z.of_nat k - 1 - Z.log2 v.
Proof.
  induction k as [|k IH]; intros Hv.
  - change (2 ^ Z.of_nat 0) with 1 in Hv. lia.
  - cbn [clz_from]. destruct (Z.testbit v (Z.of_nat k)) eqn:E.
    + assert (Z.log2 v = Z.of_nat k); [|lia].
      assert (Z.log2 v < Z.of_nat (S k)) by (apply Z.log2_lt_pow2; lia).
      destruct (Z.lt_ge_cases (Z.log2 v) (Z.of_nat k)); [|lia].
      rewrite Z.bits_above_log2 in E; try discriminate; lia.
    + assert (v < 2 ^ Z.of_nat k).
      { destruct (Z.lt_ge_cases v (2 ^ Z.of_nat k)); auto.
        assert (Hl : Z.log2 v = Z.of_nat k).
        { apply Z.log2_unique; [lia|]. rewrite <- Nat2Z.inj_succ. lia. }
        rewrite <- Hl, Z.bit_log2 in E; [discriminate|lia]. }
      rewrite IH by lia. lia.
Qed.

Lemma bssLog2_gcc32_ok v : 0 <= v < 2 ^ 32 -> bssLog2_gcc32 v = Ok (Z.log2 v).
Proof.
  intros H. unfold bssLog2_gcc32, builtin_clz. rewrite wrap_small by lia.
  destruct (Z.eqb_spec v 0) as [->|]; [reflexivity|].
  cbn [bind]. f_equal. rewrite clz_from_ok; [|change (2 ^ Z.of_nat 32) with (2^32); lia].
  change (Z.of_nat 32) with 32. lia.
Qed.

Lemma bssLog2_gcc64_wrong v : 0 < v < 2 ^ 32 -> bssLog2_gcc64 v = Ok (Z.log2 v + 32).
Proof.
  intros H. unfold bssLog2_gcc64, builtin_clz. rewrite wrap_small by lia.
  destruct (Z.eqb_spec v 0) as [->|]; [lia|].
  cbn [bind]. f_equal. rewrite clz_from_ok; [|change (2 ^ Z.of_nat 32) with (2^32); lia].
  change (Z.of_nat 32) with 32. lia.
Qed.

Lemma bssLog2_p2_ok k : 0 <= k < 32 -> bssLog2_p2 (2 ^ k) = k.
Proof.
  intros H.
  assert (A : forallb (fun k => bssLog2_p2 (2 ^ Z.of_nat k) =? Z.of_nat k) (seq 0 32) = true)
    by (vm_compute; reflexivity).
  rewrite forallb_forall in A. specialize (A (Z.to_nat k)).
  rewrite in_seq in A. rewrite Z2Nat.id in A by lia. lia.
Qed.

(* ---------- FlipEndian ---------- *)
Lemma flip_loop_ok {A} (a : list A) k : forall i b,
  length b = length a ->
  (i + k = Nat.div2 (length a))%nat ->
  (forall j, (j < length a)%nat ->
     nth_error b j = if ((j <? i) || (length a - 1 - i <? j))%nat
                     then nth_error a (length a - 1 - j) else nth_error a j) ->
  exists c, flip_loop k i (length a - 1) b = Ok c /\ length c = length a /\
    forall j, (j < length a)%nat -> nth_error c j = nth_error a (length a - 1 - j).
Proof.
  induction k as [|k IH]; intros i b Hlen Hik Hb.
  - exists b. split; [reflexivity|]. split; auto. intros j Hj. rewrite Hb by auto.
    destruct (Nat.ltb_spec j i); auto. destruct (Nat.ltb_spec (length a - 1 - i) j); auto.
    cbn [orb].
    pose proof (Nat.div2_odd (length a)). destruct (Nat.odd (length a)); cbn [Nat.b2n] in *.
    + assert (Hj2 : (length a - 1 - j = j)%nat) by lia. now rewrite Hj2.
    + lia.
  - cbn [flip_loop].
    assert (Hd : (2 * Nat.div2 (length a) <= length a)%nat).
    { pose proof (Nat.div2_odd (length a)). lia. }
    destruct (nth_error_ex b (length a - 1 - i)) as [y Hy]; [lia|].
    destruct (nth_error_ex b i) as [x Hx]; [lia|].
    rewrite (get_some _ _ _ Hy), (get_some _ _ _ Hx). cbn [bind].
    rewrite set_ok by lia. cbn [bind]. rewrite set_ok by (rewrite upd_length; lia). cbn [bind].
    apply IH; [rewrite !upd_length; auto|lia|].
    intros j Hj. rewrite nth_error_upd, !upd_length, nth_error_upd.
    rewrite (Hb (length a - 1 - i)%nat) in Hy by lia. rewrite (Hb i) in Hx by lia.
    destruct (Nat.ltb_spec (length a - 1 - i) i); [lia|].
    destruct (Nat.ltb_spec (length a - 1 - i) (length a - 1 - i)); [lia|].
    destruct (Nat.ltb_spec i i); [lia|].
    destruct (Nat.ltb_spec (length a - 1 - i) i); [lia|]. cbn [orb] in *.
    destruct (Nat.eqb_spec i j) as [->|Hij].
    + destruct (Nat.ltb_spec j (length b)); [|lia]. cbn [andb].
      destruct (Nat.ltb_spec j (S j)); [|lia]. cbn [orb]. now rewrite Hy.
    + cbn [andb]. destruct (Nat.eqb_spec (length a - 1 - i) j) as [<-|Hij2].
      * destruct (Nat.ltb_spec (length a - 1 - i) (length b)); [|lia]. cbn [andb].
        destruct (Nat.ltb_spec (length a - 1 - i) (S i)); cbn [orb]; [lia|].
        destruct (Nat.ltb_spec (length a - 1 - S i) (length a - 1 - i)); [|lia].
        replace (length a - 1 - (length a - 1 - i))%nat with i by lia. now rewrite Hx.
      * cbn [andb]. rewrite Hb by auto.
        destruct (Nat.ltb_spec j i), (Nat.ltb_spec j (S i)); cbn [orb]; try lia; auto.
        destruct (Nat.ltb_spec (length a - 1 - i) j), (Nat.ltb_spec (length a - 1 - S i) j);
          try lia; auto.
Qed.

Lemma nth_error_rev {A} (a : list A) j :
  (j < length a)%nat -> nth_error (rev a) j = nth_error a (length a - 1 - j).
Proof.
  intros Hj. destruct (nth_error_ex a (length a - 1 - j)) as [x Hx]; [lia|].
  rewrite Hx. rewrite (nth_error_nth' (rev a) x) by (rewrite rev_length; lia).
  f_equal. rewrite rev_nth by lia.
  replace (length a - S j)%nat with (length a - 1 - j)%nat by lia.
  now apply nth_error_nth.
Qed.

Lemma FlipEndian_ok {A} (a : list A) :
  FlipEndian a (length a) = Ok (rev a).
Proof.
  unfold FlipEndian. destruct (Nat.eqb_spec (length a) 0) as [E|E].
  - destruct a; [reflexivity|discriminate].
  - destruct (flip_loop_ok a (Nat.div2 (length a)) 0 a eq_refl) as (c & Ec & Hlc & Hc).
    + lia.
    + intros j Hj. destruct (Nat.ltb_spec j 0); [lia|].
      destruct (Nat.ltb_spec (length a - 1 - 0) j); [lia|]. reflexivity.
    + rewrite Ec. f_equal. apply nth_error_ext_lt; [now rewrite rev_length|].
      intros i Hi. rewrite Hc by lia. symmetry. apply nth_error_rev. lia.
Qed.

Lemma FlipEndianT_ok {A} (a : list A) : FlipEndianT a (length a) = Ok (rev a).
Proof.
  unfold FlipEndianT. destruct (Nat.eqb_spec (length a) 2) as [E|E].
  - destruct a as [|x [|y [|]]]; try discriminate. reflexivity.
  - destruct (Nat.ltb_spec 2 (length a)).
    + apply FlipEndian_ok.
    + destruct a as [|x [|y [|]]]; cbn in *; try lia; reflexivity.
Qed.

(* a block embedded in larger memory: nothing else is touched *)
Lemma flip_loop_frame {A} (rest : list A) k : forall i nm1 b c,
  flip_loop k i nm1 b = Ok c -> flip_loop k i nm1 (b ++ rest) = Ok (c ++ rest).
Proof.
  induction k as [|k IH]; intros i nm1 b c; cbn [flip_loop]; intros H.
  - now inversion H.
  - apply bind_ok in H. destruct H as (t & Ht & H). apply get_inv in Ht.
    apply bind_ok in H. destruct H as (x & Hx & H). apply get_inv in Hx.
    apply bind_ok in H. destruct H as (b1 & Hb1 & H). apply set_inv in Hb1. destruct Hb1 as [Hl1 ->].
    apply bind_ok in H. destruct H as (b2 & Hb2 & H). apply set_inv in Hb2. destruct Hb2 as [Hl2 ->].
    rewrite upd_length in Hl2.
    rewrite (get_some (b ++ rest) (nm1 - i) t) by (rewrite nth_error_app1 by lia; auto).
    rewrite (get_some (b ++ rest) i x) by (rewrite nth_error_app1 by lia; auto).
    cbn [bind]. rewrite set_ok by (rewrite app_length; lia). cbn [bind].
    rewrite set_ok by (rewrite upd_length, app_length; lia). cbn [bind].
    rewrite upd_app_l by lia. rewrite upd_app_l by (rewrite upd_length; lia).
    now apply IH.
Qed.

Lemma FlipEndian_frame {A} (a rest : list A) :
  FlipEndian (a ++ rest) (length a) = Ok (rev a ++ rest).
Proof.
  pose proof (FlipEndian_ok a) as H. unfold FlipEndian in *.
  now apply flip_loop_frame.
Qed.

(* ---------- ByteSearch ---------- *)
Lemma memcmp_eq_ok s i f k : forall j,
  (j + k = length f)%nat -> (i + length f <= length s)%nat ->
  exists b, memcmp_eq s i f j k = Ok b /\
    (b = true <-> forall t, (j <= t < length f)%nat -> nth_error s (i + t) = nth_error f t).
Proof.
  induction k as [|k IH]; intros j Hj Hi; cbn [memcmp_eq].
  - exists true. split; auto. split; auto. intros _ t Ht. lia.
  - destruct (nth_error_ex s (i + j)) as [x Hx]; [lia|].
    destruct (nth_error_ex f j) as [y Hy]; [lia|].
    rewrite (get_some _ _ _ Hx), (get_some _ _ _ Hy). cbn [bind].
    destruct (Z.eqb_spec x y) as [->|Hne].
    + destruct (IH (S j)) as (b & Eb & Hb); [lia|lia|]. exists b. split; auto.
      rewrite Hb. split; intros H t Ht.
      * destruct (Nat.eqb_spec t j) as [->|]; [congruence|]. apply H; lia.
      * apply H; lia.
    + exists false. split; auto. split; [discriminate|].
      intros H. specialize (H j). rewrite Hx, Hy in H. exfalso. apply Hne.
      assert (Some x = Some y) by (apply H; lia). congruence.
Qed.

Lemma bytesearch_loop_ok s f k : forall i,
  (length f <= length s)%nat -> (i + k = S (length s - length f))%nat ->
  exists r, bytesearch_loop s f (length f) k i = Ok r /\
    match r with
    | Some p => (i <= p)%nat /\ (p + length f <= length s)%nat /\ matches_at s f p /\
                forall q, (i <= q < p)%nat -> ~ matches_at s f q
    | None => forall q, (i <= q)%nat -> (q + length f <= length s)%nat -> ~ matches_at s f q
    end.
Proof.
  induction k as [|k IH]; intros i Hl Hik; cbn [bytesearch_loop].
  - exists None. split; auto. intros q H1 H2. lia.
  - destruct (memcmp_eq_ok s i f (length f) 0) as (b & Eb & Hb); [lia|lia|].
    rewrite Eb. cbn [bind]. destruct b.
    + exists (Some i). split; auto. repeat split; try lia.
      intros j Hj. apply Hb; auto; lia.
    + destruct (IH (S i)) as (r & Er & Hr); [lia|lia|]. exists r. split; auto.
      assert (Hno : ~ matches_at s f i).
      { intros Hm. assert (false = true); [|discriminate]. apply Hb. intros t Ht. apply Hm. lia. }
      destruct r as [p|].
      * destruct Hr as (H1 & H2 & H3 & H4). repeat split; auto; try lia.
        intros q Hq. destruct (Nat.eqb_spec q i) as [->|]; auto. apply H4; lia.
      * intros q H1 H2. destruct (Nat.eqb_spec q i) as [->|]; auto. apply Hr; lia.
Qed.
