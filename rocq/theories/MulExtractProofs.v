(* Double width multiplication of BitUtil.v *)
From Coq Require Import List ZArith Bool Lia.
From Coq Require Import ZifyBool ZifyNat.
From Verif Require Import Common BitUtil BitUtilProofs.
Import ListNotations.
Local Open Scope Z_scope.
Ltac Zify.zify_post_hook ::= idtac.

Section W.
  Variable h : Z.
  Hypothesis Hh : 2 <= h.
  Let w := 2 * h.
  Let B := 2 ^ h.

  Local Lemma HB : 4 <= B.
  Proof. unfold B. change 4 with (2 ^ 2). apply Z.pow_le_mono_r; lia. Qed.
  Local Lemma HBB : 2 ^ w = B * B.
  Proof. unfold w, B. rewrite <- Z.pow_add_r by lia. f_equal. lia. Qed.
  Local Lemma Hw2 : w / 2 = h.
  Proof. unfold w. rewrite Z.mul_comm. apply Z.div_mul. lia. Qed.

  Local Lemma mulb C u v : 0 <= u < C -> 0 <= v < C -> 0 <= u * v < C * C.
  Proof. intros; nia. Qed.
  Local Lemma comb_b m b : 0 <= m < B -> 0 <= b < B -> 0 <= m * B + b < B * B.
  Proof. intros; nia. Qed.
  Local Lemma B3 : 3 * B <= B * B.
  Proof. pose proof HB. nia. Qed.

  Lemma mul_hl_ok x y :
    0 <= x < 2 ^ w -> 0 <= y < 2 ^ w ->
    mul_hl w x y = (x * y / 2 ^ w, x * y mod 2 ^ w).
  Proof.
    intros Hx Hy. pose proof HB as HB4. rewrite HBB in *.
    unfold mul_hl. rewrite Hw2.
    assert (Hmask : Z.shiftr (2 ^ w - 1) h = B - 1).
    { rewrite Z.shiftr_div_pow2 by lia. rewrite HBB. fold B.
      symmetry. apply Z.div_unique_pos with (r := B - 1); lia. }
    rewrite Hmask.
    assert (Hland : forall z, Z.land z (B - 1) = z mod B).
    { intros z. unfold B. apply land_ones'. lia. }
    rewrite !Hland. rewrite !Z.shiftr_div_pow2, !Z.shiftl_mul_pow2 by lia. fold B.
    set (a := x / B). set (b := x mod B). set (c := y / B). set (d := y mod B).
    assert (Ha : 0 <= a < B).
    { unfold a. split; [apply Z.div_pos; lia|]. apply Z.div_lt_upper_bound; lia. }
    assert (Hc : 0 <= c < B).
    { unfold c. split; [apply Z.div_pos; lia|]. apply Z.div_lt_upper_bound; lia. }
    assert (Hb : 0 <= b < B) by (apply Z.mod_pos_bound; lia).
    assert (Hd : 0 <= d < B) by (apply Z.mod_pos_bound; lia).
    assert (Ex : x = B * a + b) by (apply Z.div_mod; lia).
    assert (Ey : y = B * c + d) by (apply Z.div_mod; lia).
    pose proof (mulb B a c Ha Hc) as Hac. pose proof (mulb B b c Hb Hc) as Hbc.
    pose proof (mulb B a d Ha Hd) as Had. pose proof (mulb B b d Hb Hd) as Hbd.
    pose proof (mulb (B * B) x y Hx Hy) as Hxy. pose proof B3 as HB3.
    rewrite (wrap_small w (a * c)), (wrap_small w (b * c)), (wrap_small w (a * d)), (wrap_small w (b * d))
      by (rewrite HBB; lia).
    set (bd1 := b * d / B). set (bd0 := b * d mod B).
    set (bc1 := b * c / B). set (bc0 := b * c mod B).
    set (ad1 := a * d / B). set (ad0 := a * d mod B).
    assert (Ebd : b * d = B * bd1 + bd0) by (apply Z.div_mod; lia).
    assert (Ebc : b * c = B * bc1 + bc0) by (apply Z.div_mod; lia).
    assert (Ead : a * d = B * ad1 + ad0) by (apply Z.div_mod; lia).
    assert (Hbd0 : 0 <= bd0 < B) by (apply Z.mod_pos_bound; lia).
    assert (Hbc0 : 0 <= bc0 < B) by (apply Z.mod_pos_bound; lia).
    assert (Had0 : 0 <= ad0 < B) by (apply Z.mod_pos_bound; lia).
    assert (Hbd1 : 0 <= bd1 < B).
    { unfold bd1. split; [apply Z.div_pos; lia|]. apply Z.div_lt_upper_bound; lia. }
    assert (Hbc1 : 0 <= bc1).
    { unfold bc1. apply Z.div_pos; lia. }
    assert (Had1 : 0 <= ad1).
    { unfold ad1. apply Z.div_pos; lia. }
    clearbody bd1 bd0 bc1 bc0 ad1 ad0 a b c d.
    rewrite (wrap_small w (bd1 + bc0 + ad0)) by (rewrite HBB; lia).
    set (mid := bd1 + bc0 + ad0).
    set (m1 := mid / B). set (m0 := mid mod B).
    assert (Em : mid = B * m1 + m0) by (apply Z.div_mod; lia).
    assert (Hm0 : 0 <= m0 < B) by (apply Z.mod_pos_bound; lia).
    assert (Hm1 : 0 <= m1) by (unfold m1; apply Z.div_pos; lia).
    clearbody m1 m0.
    assert (Exy : x * y = (B * B) * (a * c + bc1 + ad1 + m1) + (m0 * B + bd0)).
    { rewrite Ex, Ey.
      replace ((B * a + b) * (B * c + d)) with (B * B * (a * c) + B * (a * d) + B * (b * c) + b * d) by ring.
      rewrite Ebd, Ebc, Ead.
      replace (B * B * (a * c) + B * (B * ad1 + ad0) + B * (B * bc1 + bc0) + (B * bd1 + bd0))
        with (B * B * (a * c + bc1 + ad1) + B * mid + bd0) by (unfold mid; ring).
      rewrite Em. ring. }
    assert (Hlow : 0 <= m0 * B + bd0 < B * B) by (apply comb_b; auto).
    assert (Hhigh : x * y / (B * B) = a * c + bc1 + ad1 + m1).
    { symmetry. apply Z.div_unique_pos with (r := m0 * B + bd0); auto. }
    assert (Hlo : x * y mod (B * B) = m0 * B + bd0).
    { symmetry. apply Z.mod_unique_pos with (q := a * c + bc1 + ad1 + m1); auto. }
    rewrite Hhigh, Hlo. f_equal.
    - apply wrap_small. rewrite HBB. rewrite <- Hhigh. assert (0 < B * B) by (clear - HB4 HB3; lia).
      split; [apply Z.div_pos; [apply Hxy|assumption]|].
      apply Z.div_lt_upper_bound; [assumption|apply Hxy].
    - assert (Ew : wrap w (mid * B) = m0 * B).
      { unfold wrap. rewrite HBB. symmetry. apply Z.mod_unique_pos with (q := m1).
        { pose proof (comb_b m0 0 Hm0 ltac:(lia)). lia. }
        rewrite Em. ring. }
      rewrite Ew. symmetry. rewrite <- Z.lxor_lor.
      + apply Z.add_nocarry_lxor. unfold B. rewrite <- Z.shiftl_mul_pow2 by lia.
        apply Z.bits_inj'. intros i Hi. rewrite Z.land_spec, Z.bits_0.
        destruct (Z.lt_ge_cases i h).
        * rewrite Z.shiftl_spec_low by lia. reflexivity.
        * replace (Z.testbit bd0 i) with false; [apply andb_false_r|].
          symmetry. destruct (Z.eqb_spec bd0 0) as [->|]; [apply Z.bits_0|].
          apply Z.bits_above_log2; [lia|].
          assert (Z.log2 bd0 < h) by (apply Z.log2_lt_pow2; fold B; lia). lia.
      + unfold B. rewrite <- Z.shiftl_mul_pow2 by lia.
        apply Z.bits_inj'. intros i Hi. rewrite Z.land_spec, Z.bits_0.
        destruct (Z.lt_ge_cases i h).
        * rewrite Z.shiftl_spec_low by lia. reflexivity.
        * replace (Z.testbit bd0 i) with false; [apply andb_false_r|].
          symmetry. destruct (Z.eqb_spec bd0 0) as [->|]; [apply Z.bits_0|].
          apply Z.bits_above_log2; [lia|].
          assert (Z.log2 bd0 < h) by (apply Z.log2_lt_pow2; fold B; lia). lia.
  Qed.

  Lemma testbit_above x n i : 0 <= x < 2 ^ n -> 0 <= n <= i -> Z.testbit x i = false.
  Proof.
    intros Hx Hi. destruct (Z.eqb_spec x 0) as [->|]; [apply Z.bits_0|].
    apply Z.bits_above_log2; [lia|].
    assert (Z.log2 x < n) by (apply Z.log2_lt_pow2; lia). lia.
  Qed.

  (* combining the halves of P (any integer) after a shift by 0 < s < w *)
  Lemma combine P s :
    0 < s < w ->
    Z.lor (Z.shiftr (P mod 2 ^ w) s)
          (Z.land (wrap w (Z.shiftl ((P / 2 ^ w) mod 2 ^ w) (w - s))) (wrap w (- (1)))) =
    wrap w (Z.shiftr P s).
  Proof.
    intros Hs. assert (Hw0 : 0 < w) by (unfold w; lia).
    apply Z.bits_inj'. intros i Hi. unfold wrap.
    rewrite Z.lor_spec, Z.land_spec.
    rewrite Z.shiftr_spec by lia.
    destruct (Z.lt_ge_cases i w) as [Hl|Hg].
    - rewrite !(Z.mod_pow2_bits_low _ w i) by lia.
      change (- (1)) with (-1). rewrite Z.bits_m1 by lia. rewrite andb_true_r.
      rewrite Z.shiftr_spec by lia.
      destruct (Z.lt_ge_cases (i + s) w).
      + rewrite Z.mod_pow2_bits_low by lia.
        rewrite Z.shiftl_spec_low by lia. apply orb_false_r.
      + rewrite Z.mod_pow2_bits_high by lia. cbn [orb].
        rewrite Z.shiftl_spec by lia.
        rewrite Z.mod_pow2_bits_low by lia.
        rewrite <- Z.shiftr_div_pow2 by lia. rewrite Z.shiftr_spec by lia.
        f_equal. lia.
    - rewrite !(Z.mod_pow2_bits_high _ w i) by lia. rewrite Z.mod_pow2_bits_high by lia. reflexivity.
  Qed.

  Lemma mulextract_u_ok x y s :
    0 <= x < 2 ^ w -> 0 <= y < 2 ^ w -> 0 < s < 2 * w ->
    mulextract_u w x y s = Ok (wrap w (x * y / 2 ^ s)).
  Proof.
    intros Hx Hy Hs. unfold mulextract_u. rewrite mul_hl_ok by auto.
    assert (Hw0 : 0 < w) by (unfold w; lia).
    assert (Hp0 : 0 < 2 ^ w) by (apply Z.pow_pos_nonneg; lia).
    assert (HP : 0 <= x * y / 2 ^ w < 2 ^ w).
    { pose proof (mulb _ x y Hx Hy). split; [apply Z.div_pos; lia|]. apply Z.div_lt_upper_bound; lia. }
    pose proof (mulb _ x y Hx Hy) as Hxy.
    destruct (Z.leb_spec w s).
    - destruct (Z.ltb_spec (s - w) w); [|lia]. f_equal.
      rewrite Z.shiftr_div_pow2 by lia. rewrite Z.div_div by (try lia; apply Z.pow_pos_nonneg; lia).
      rewrite <- Z.pow_add_r by lia. replace (w + (s - w)) with s by lia.
      symmetry. apply wrap_small.
      assert (0 < 2 ^ s) by (apply Z.pow_pos_nonneg; lia).
      split; [apply Z.div_pos; lia|]. apply Z.div_lt_upper_bound; [lia|].
      assert (2 ^ w <= 2 ^ s) by (apply Z.pow_le_mono_r; lia).
      eapply Z.lt_le_trans; [apply Hxy|]. apply Z.mul_le_mono_nonneg_r; lia.
    - destruct (Z.ltb_spec (w - s) w); [|lia]. f_equal.
      destruct (Z.ltb_spec 0 s); [|lia].
      rewrite <- (Z.mod_small (x * y / 2 ^ w) (2 ^ w)) by auto.
      rewrite combine by lia. rewrite Z.shiftr_div_pow2 by lia.
      unfold wrap. apply Z.mod_mod. lia.
  Qed.

  Lemma bssAbs_ok x : - 2 ^ (w - 1) < x < 2 ^ (w - 1) -> bssAbs_s w x = Ok (Z.abs x).
  Proof.
    intros Hx. unfold bssAbs_s. assert (Hw0 : 1 < w) by (unfold w; lia).
    assert (Hpw : 2 ^ w = 2 * 2 ^ (w - 1)) by (rewrite <- Z.pow_succ_r by lia; f_equal; lia).
    destruct (Z.lt_ge_cases x 0).
    - assert (E : Z.shiftr x (w - 1) = -1).
      { rewrite Z.shiftr_div_pow2 by lia.
        symmetry. apply Z.div_unique_pos with (r := x + 2 ^ (w - 1)); lia. }
      rewrite E. rewrite sarith_ok by lia. cbn [bind]. f_equal.
      rewrite Z.lxor_m1_r. unfold Z.lnot. rewrite wrap_small by lia. lia.
    - assert (E : Z.shiftr x (w - 1) = 0).
      { rewrite Z.shiftr_div_pow2 by lia. apply Z.div_small. lia. }
      rewrite E. rewrite Z.add_0_r. rewrite sarith_ok by lia. cbn [bind]. f_equal.
      rewrite Z.lxor_0_r. rewrite wrap_small by lia. lia.
  Qed.

  Lemma lnot_wrap x : 0 <= x < 2 ^ w -> wrap w (Z.lnot x) = 2 ^ w - 1 - x.
  Proof.
    intros Hx. unfold wrap, Z.lnot. symmetry.
    apply Z.mod_unique_pos with (q := -1); lia.
  Qed.

  (* the negated pair *)
  Lemma neg_pair P :
    0 <= P < 2 ^ w * 2 ^ w ->
    (wrap w (wrap w (Z.lnot (P / 2 ^ w)) + (if P mod 2 ^ w =? 0 then 1 else 0)),
     wrap w (wrap w (Z.lnot (P mod 2 ^ w)) + 1)) =
    ((- P / 2 ^ w) mod 2 ^ w, (- P) mod 2 ^ w).
  Proof.
    intros HP. assert (Hw0 : 0 < w) by (unfold w; lia).
    assert (Hp0 : 0 < 2 ^ w) by (apply Z.pow_pos_nonneg; lia).
    assert (HH : 0 <= P / 2 ^ w < 2 ^ w).
    { split; [apply Z.div_pos; lia|]. apply Z.div_lt_upper_bound; lia. }
    assert (HL : 0 <= P mod 2 ^ w < 2 ^ w) by (apply Z.mod_pos_bound; lia).
    assert (EP : P = 2 ^ w * (P / 2 ^ w) + P mod 2 ^ w) by (apply Z.div_mod; lia).
    rewrite (lnot_wrap (P / 2 ^ w)) by auto. rewrite (lnot_wrap (P mod 2 ^ w)) by auto.
    set (H := P / 2 ^ w) in *. set (L := P mod 2 ^ w) in *.
    destruct (Z.eqb_spec L 0) as [E|E].
    - assert (E1 : - P / 2 ^ w = - H).
      { symmetry. apply Z.div_unique_pos with (r := 0); lia. }
      assert (E2 : (- P) mod 2 ^ w = 0).
      { symmetry. apply Z.mod_unique_pos with (q := - H); lia. }
      rewrite E1, E2. unfold wrap. f_equal.
      + replace (2 ^ w - 1 - H + 1) with (- H + 1 * 2 ^ w) by lia. now rewrite Z.mod_add by lia.
      + rewrite E. replace (2 ^ w - 1 - 0 + 1) with (1 * 2 ^ w) by lia. apply Z.mod_mul. lia.
    - assert (E1 : - P / 2 ^ w = - H - 1).
      { symmetry. apply Z.div_unique_pos with (r := 2 ^ w - L); lia. }
      assert (E2 : (- P) mod 2 ^ w = 2 ^ w - L).
      { symmetry. apply Z.mod_unique_pos with (q := - H - 1); lia. }
      rewrite E1, E2. unfold wrap. f_equal.
      + replace (2 ^ w - 1 - H + 0) with ((- H - 1) + 1 * 2 ^ w) by lia. now rewrite Z.mod_add by lia.
      + replace (2 ^ w - 1 - L + 1) with (2 ^ w - L) by lia. apply Z.mod_small. lia.
  Qed.

  Lemma sgn_small x : - 2 ^ (w - 1) <= x < 2 ^ (w - 1) -> sgn w (x mod 2 ^ w) = x.
  Proof.
    intros Hx. unfold sgn. assert (Hw0 : 1 < w) by (unfold w; lia).
    assert (Hpw : 2 ^ w = 2 * 2 ^ (w - 1)) by (rewrite <- Z.pow_succ_r by lia; f_equal; lia).
    rewrite Z.mod_mod by lia.
    destruct (Z.lt_ge_cases x 0).
    - assert (E : x mod 2 ^ w = x + 2 ^ w).
      { symmetry. apply Z.mod_unique_pos with (q := -1); lia. }
      rewrite E. destruct (Z.ltb_spec (x + 2 ^ w) (2 ^ (w - 1))); lia.
    - rewrite Z.mod_small by lia. destruct (Z.ltb_spec x (2 ^ (w - 1))); lia.
  Qed.

  Lemma sgn_mod x : sgn w (x mod 2 ^ w) = sgn w x.
  Proof.
    unfold sgn. assert (Hw0 : 1 < w) by (unfold w; lia).
    assert (0 < 2 ^ w) by (apply Z.pow_pos_nonneg; lia).
    rewrite Z.mod_mod by lia. reflexivity.
  Qed.

  Lemma mulextract_s_ok x y s :
    - 2 ^ (w - 1) < x < 2 ^ (w - 1) -> - 2 ^ (w - 1) < y < 2 ^ (w - 1) -> 0 < s < 2 * w ->
    mulextract_s w x y s = Ok (sgn w (x * y / 2 ^ s)).
  Proof.
    intros Hx Hy Hs. unfold mulextract_s. rewrite !bssAbs_ok by auto. cbn [bind].
    assert (Hw0 : 1 < w) by (unfold w; lia).
    assert (Hpw : 2 ^ w = 2 * 2 ^ (w - 1)) by (rewrite <- Z.pow_succ_r by lia; f_equal; lia).
    assert (Hp0 : 0 < 2 ^ w) by (apply Z.pow_pos_nonneg; lia).
    rewrite mul_hl_ok by lia.
    set (P := Z.abs x * Z.abs y).
    assert (HP : 0 <= P < 2 ^ (w - 1) * 2 ^ (w - 1)) by (unfold P; apply mulb; lia).
    assert (HP2 : 0 <= P < 2 ^ w * 2 ^ w).
    { exact (mulb (2 ^ w) (Z.abs x) (Z.abs y) ltac:(lia) ltac:(lia)). }
    assert (Hxy : - (2 ^ (w - 1) * 2 ^ (w - 1)) < x * y < 2 ^ (w - 1) * 2 ^ (w - 1)).
    { assert (Z.abs (x * y) = P) by apply Z.abs_mul. lia. }
    assert (HQ : 0 < 2 ^ (w - 1)) by lia.
    set (Q := 2 ^ (w - 1)) in *.
    assert (Hpair :
      (if xorb (x <? 0) (y <? 0)
       then (wrap w (wrap w (Z.lnot (P / 2 ^ w)) + (if P mod 2 ^ w =? 0 then 1 else 0)),
             wrap w (wrap w (Z.lnot (P mod 2 ^ w)) + 1))
       else (P / 2 ^ w, P mod 2 ^ w)) =
      ((x * y / 2 ^ w) mod 2 ^ w, (x * y) mod 2 ^ w)).
    { destruct (Z.ltb_spec x 0), (Z.ltb_spec y 0); cbn [xorb].
      - replace (x * y) with P by (unfold P; rewrite !Z.abs_neq by lia; ring).
        f_equal. symmetry. apply Z.mod_small. split; [apply Z.div_pos; lia|].
        apply Z.div_lt_upper_bound; lia.
      - rewrite neg_pair by auto. replace (x * y) with (- P); auto.
        unfold P. rewrite Z.abs_neq, Z.abs_eq by lia. ring.
      - rewrite neg_pair by auto. replace (x * y) with (- P); auto.
        unfold P. rewrite Z.abs_eq, Z.abs_neq by lia. ring.
      - replace (x * y) with P by (unfold P; rewrite !Z.abs_eq by lia; ring).
        f_equal. symmetry. apply Z.mod_small. split; [apply Z.div_pos; lia|].
        apply Z.div_lt_upper_bound; lia. }
    rewrite Hpair.
    destruct (Z.leb_spec w s).
    - destruct (Z.ltb_spec (s - w) w); [|lia]. f_equal.
      assert (Hr : - 2 ^ (w - 1) <= x * y / 2 ^ w < 2 ^ (w - 1)).
      { fold Q. split; [apply Z.div_le_lower_bound|apply Z.div_lt_upper_bound]; rewrite ?Hpw; lia. }
      rewrite sgn_small by auto.
      rewrite Z.shiftr_div_pow2 by lia. rewrite Z.div_div by (try lia; apply Z.pow_pos_nonneg; lia).
      rewrite <- Z.pow_add_r by lia. replace (w + (s - w)) with s by lia.
      rewrite <- sgn_mod. symmetry. apply sgn_small.
      assert (2 ^ w <= 2 ^ s) by (apply Z.pow_le_mono_r; lia).
      fold Q. split; [apply Z.div_le_lower_bound|apply Z.div_lt_upper_bound]; try lia.
      + assert (2 ^ s * - Q <= 2 ^ w * - Q) by (apply Z.mul_le_mono_nonpos_r; lia). rewrite Hpw in *. lia.
      + assert (2 ^ w * Q <= 2 ^ s * Q) by (apply Z.mul_le_mono_nonneg_r; lia). rewrite Hpw in *. lia.
    - destruct (Z.ltb_spec (w - s) w); [|lia]. f_equal.
      destruct (Z.ltb_spec 0 s); [|lia].
      rewrite combine by lia. rewrite Z.shiftr_div_pow2 by lia.
      unfold wrap. apply sgn_mod.
  Qed.
End W.
