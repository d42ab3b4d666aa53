(* DaysFromCivil order facts and OutputUnicode *)
From Coq Require Import List ZArith Bool Lia.
From Coq Require Import ZifyBool.
From Verif Require Import Common BitUtil BitUtilSpec BitUtilProofs UtfSpec.
Import ListNotations.
Local Open Scope Z_scope.
Ltac Zify.zify_post_hook ::= Z.div_mod_to_equations.

Lemma lor_disjoint k n b : 0 <= n -> 0 <= b < 2 ^ n -> Z.lor (k * 2 ^ n) b = k * 2 ^ n + b.
Proof.
  intros Hn Hb.
  assert (Hand : Z.land (k * 2 ^ n) b = 0).
  { rewrite <- Z.shiftl_mul_pow2 by lia. apply Z.bits_inj'. intros i Hi.
    rewrite Z.land_spec, Z.bits_0. destruct (Z.lt_ge_cases i n).
    - rewrite Z.shiftl_spec_low by lia. reflexivity.
    - replace (Z.testbit b i) with false; [apply andb_false_r|].
      symmetry. destruct (Z.eqb_spec b 0) as [->|]; [apply Z.bits_0|].
      apply Z.bits_above_log2; [lia|].
      assert (Z.log2 b < n) by (apply Z.log2_lt_pow2; lia). lia. }
  rewrite <- Z.lxor_lor by auto. symmetry. now apply Z.add_nocarry_lxor.
Qed.

Lemma land_mask6 c : Z.land c 0x3F = c mod 64.
Proof. change 0x3F with (Z.ones 6). now rewrite Z.land_ones by lia. Qed.
Lemma land_fc0 c : Z.shiftr (Z.land c 0x0FC0) 6 = (c / 64) mod 64.
Proof.
  rewrite Z.shiftr_land. change (Z.shiftr 0xFC0 6) with 0x3F. rewrite land_mask6.
  now rewrite Z.shiftr_div_pow2 by lia.
Qed.
Lemma land_3f000 c : Z.shiftr (Z.land c 0x03F000) 12 = (c / 4096) mod 64.
Proof.
  rewrite Z.shiftr_land. change (Z.shiftr 0x3F000 12) with 0x3F. rewrite land_mask6.
  now rewrite Z.shiftr_div_pow2 by lia.
Qed.
Lemma lor80 b : 0 <= b < 64 -> Z.lor 0x80 b = 0x80 + b.
Proof. intros. apply (lor_disjoint 2 6); lia. Qed.

Lemma OutputUnicode_ok c : 0 <= c < 0x10FFFF -> OutputUnicode c = utf8 c.
Proof.
  intros Hc. unfold OutputUnicode, utf8.
  destruct (Z.ltb_spec c 0x80).
  { rewrite wrap_small by lia. reflexivity. }
  destruct (Z.ltb_spec c 0x800).
  { rewrite land_mask6, Z.shiftr_div_pow2 by lia. change (2 ^ 6) with 64.
    change 0xC0 with (6 * 2 ^ 5) at 1. rewrite lor_disjoint by lia.
    rewrite lor80 by lia. rewrite !wrap_small by lia. reflexivity. }
  destruct (Z.ltb_spec c 0x10000).
  { rewrite land_mask6, land_fc0, Z.shiftr_div_pow2 by lia. change (2 ^ 12) with 4096.
    change 0xE0 with (14 * 2 ^ 4) at 1. rewrite lor_disjoint by lia.
    rewrite !lor80 by lia. rewrite !wrap_small by lia. reflexivity. }
  destruct (Z.ltb_spec c 0x10FFFF); [|lia].
  rewrite land_mask6, land_fc0, land_3f000, Z.shiftr_div_pow2 by lia. change (2 ^ 18) with 262144.
  change 0xF0 with (30 * 2 ^ 3) at 1. rewrite lor_disjoint by lia.
  rewrite !lor80 by lia. rewrite !wrap_small by lia. reflexivity.
Qed.

(* ---------- calendar ---------- *)
Definition valid_date (y m d : Z) : Prop := valid (y, m, d).
Definition days (dt : Z * Z * Z) : Z := let '(y, m, d) := dt in DaysFromCivil y m d.

Definition g (y : Z) : Z := 365 * y + y / 4 - y / 100 + y / 400.
Definition mo (m : Z) : Z := (153 * m + 2) / 5.

Lemma month_len_range y m : 28 <= month_len y m <= 31.
Proof.
  unfold month_len. destruct (m =? 2), (leap y); try lia;
  destruct ((m =? 4) || (m =? 6) || (m =? 9) || (m =? 11)); lia.
Qed.

Lemma days_val y m d : valid_date y m d ->
  DaysFromCivil y m d =
    if m <=? 2 then g (y - 1) + mo (m + 9) + d - 1 - 719468
    else g y + mo (m - 3) + d - 1 - 719468.
Proof.
  intros [Hm Hd]. pose proof (month_len_range y m).
  rewrite DaysFromCivil_val by lia. cbv zeta. unfold g, mo.
  destruct (Z.leb_spec m 2), (Z.ltb_spec 2 m); try lia.
Qed.

Lemma g_succ y : g (y + 1) = g y + 365 + (if leap (y + 1) then 1 else 0).
Proof.
  unfold g, leap.
  destruct (Z.eqb_spec ((y + 1) mod 4) 0), (Z.eqb_spec ((y + 1) mod 100) 0), (Z.eqb_spec ((y + 1) mod 400) 0);
    cbn [andb orb negb]; lia.
Qed.

Lemma month_len_leap_indep y y' m : m <> 2 -> month_len y m = month_len y' m.
Proof. intros H. unfold month_len. destruct (Z.eqb_spec m 2); [lia|reflexivity]. Qed.

Lemma mo_table m : 0 <= m < 12 ->
  mo m = nth (Z.to_nat m) [0;31;61;92;122;153;184;214;245;275;306;337] 0.
Proof.
  intros H.
  assert (E : m = 0 \/ m = 1 \/ m = 2 \/ m = 3 \/ m = 4 \/ m = 5 \/ m = 6 \/ m = 7 \/ m = 8 \/ m = 9 \/ m = 10 \/ m = 11) by lia.
  repeat (destruct E as [->|E]; [reflexivity|]). subst. reflexivity.
Qed.

Ltac months m :=
  let E := fresh "E" in
  assert (E : m = 1 \/ m = 2 \/ m = 3 \/ m = 4 \/ m = 5 \/ m = 6 \/ m = 7 \/ m = 8 \/ m = 9 \/ m = 10 \/ m = 11 \/ m = 12) by lia;
  repeat (destruct E as [E|E]; [subst m|]); [..|subst m].

Lemma days_next dt : valid dt -> days (next_day dt) = days dt + 1 /\ valid (next_day dt).
Proof.
  destruct dt as [[y m] d]. unfold valid, days, next_day. intros H.
  pose proof (month_len_range y m) as Hml. destruct H as [Hm Hd].
  destruct (Z.ltb_spec d (month_len y m)) as [Hlt|Hge].
  - assert (Hv : valid_date y m (d + 1)) by (split; lia).
    split; auto. rewrite !days_val by (auto; split; lia). destruct (m <=? 2); lia.
  - assert (Ed : d = month_len y m) by lia. subst d.
    destruct (Z.ltb_spec m 12) as [Hm12|Hm12].
    + pose proof (month_len_range y (m + 1)).
      assert (Hv : valid_date y (m + 1) 1) by (split; lia).
      split; auto. rewrite !days_val by (auto; split; lia). clear Hv Hd Hge H.
      pose proof (g_succ (y - 1)) as Hg. replace (y - 1 + 1) with y in Hg by lia.
      months m; try lia; unfold month_len in *; cbn -[leap g] in *; try lia.
      destruct (leap y); lia.
    + assert (m = 12) by lia. subst m.
      assert (Hv : valid_date (y + 1) 1 1) by (split; [lia|unfold month_len; cbn; lia]).
      split; auto. rewrite !days_val by (auto; split; lia). cbn -[g]. replace (y + 1 - 1) with y by lia. lia.
Qed.

Lemma g_mono y1 y2 : y1 <= y2 -> g y1 <= g y2.
Proof. unfold g. lia. Qed.

(* zero-based day within the March-based year *)
Lemma days_lt a b : valid a -> valid b -> date_lt a b -> days a < days b.
Proof.
  destruct a as [[y1 m1] d1], b as [[y2 m2] d2]. unfold valid, days, date_lt.
  intros H1 H2 Hlt. rewrite !days_val by auto.
  destruct H1 as [Hm1 Hd1], H2 as [Hm2 Hd2].
  pose proof (g_succ (y1 - 1)) as Hg1. replace (y1 - 1 + 1) with y1 in Hg1 by lia.
  pose proof (g_succ y1) as Hg2.
  assert (Hx : y1 = y2 /\ m1 = m2 /\ d1 < d2 \/ y1 = y2 /\ m1 < m2 \/ y1 < y2) by lia.
  destruct Hx as [(-> & -> & Hd)|[(-> & Hm)|Hy]].
  - destruct (m2 <=? 2); lia.
  - assert (Hmo : forall m m', 0 <= m < m' -> m' < 12 -> mo m < mo m') by (intros; unfold mo; lia).
    assert (H29 : leap y2 = false -> d1 <= 28 \/ m1 <> 2).
    { intros Hl. destruct (Z.eq_dec m1 2) as [->|]; [left|right; auto].
      unfold month_len in Hd1. rewrite Hl in Hd1. cbn in Hd1. lia. }
    pose proof (month_len_range y2 m1).
    assert (Hstep : d1 - 1 < mo (m1 + 1 - 3) - mo (m1 - 3) \/ m1 <= 2 \/ m1 = 12).
    { months m1; try lia; left; unfold month_len in Hd1; cbn in Hd1; unfold mo; lia. }
    destruct (Z.leb_spec m1 2), (Z.leb_spec m2 2); try lia.
    + assert (m1 = 1) by lia. assert (m2 = 2) by lia. subst. unfold mo. lia.
    + (* m1 <= 2 < m2 *)
      assert (mo (m1 + 9) + d1 - 1 < 365 + (if leap y2 then 1 else 0)).
      { assert (Hc : m1 = 1 \/ m1 = 2) by lia. destruct Hc as [-> | ->].
        - change (mo (1 + 9)) with 306. destruct (leap y2); lia.
        - change (mo (2 + 9)) with 337. unfold month_len in Hd1. cbn -[leap] in Hd1. destruct (leap y2); lia. }
      assert (0 <= mo (m2 - 3)) by (unfold mo; lia). lia.
    + assert (mo (m1 + 1 - 3) <= mo (m2 - 3)) by (unfold mo; lia). lia.
  - (* y1 < y2 *)
    assert (Hup : (if m1 <=? 2 then g (y1 - 1) + mo (m1 + 9) + d1 - 1 - 719468
                   else g y1 + mo (m1 - 3) + d1 - 1 - 719468) < g y1 + 306 - 719468).
    { pose proof (month_len_range y1 m1).
      destruct (Z.leb_spec m1 2).
      - assert (mo (m1 + 9) + d1 - 1 < 365 + (if leap y1 then 1 else 0)).
        { assert (Hc : m1 = 1 \/ m1 = 2) by lia. destruct Hc as [-> | ->].
          - change (mo (1 + 9)) with 306. destruct (leap y1); lia.
          - change (mo (2 + 9)) with 337. unfold month_len in Hd1. cbn -[leap] in Hd1. destruct (leap y1); lia. }
        lia.
      - months m1; try lia; unfold month_len in Hd1; cbn in Hd1; unfold mo; lia. }
    eapply Z.lt_le_trans; [exact Hup|].
    destruct (Z.leb_spec m2 2).
    + pose proof (g_mono y1 (y2 - 1) ltac:(lia)).
      assert (306 <= mo (m2 + 9)) by (unfold mo; lia). lia.
    + pose proof (g_mono (y1 + 1) y2 ltac:(lia)).
      assert (0 <= mo (m2 - 3)) by (unfold mo; lia).
      destruct (leap (y1 + 1)); lia.
Qed.

Lemma days_prev dt : valid dt -> exists dt', valid dt' /\ next_day dt' = dt.
Proof.
  destruct dt as [[y m] d]. unfold valid. intros [Hm Hd].
  destruct (Z.ltb_spec 1 d).
  - exists (y, m, d - 1). split; [split; lia|]. unfold next_day.
    destruct (Z.ltb_spec (d - 1) (month_len y m)); [|lia]. f_equal. lia.
  - assert (d = 1) by lia. subst d. destruct (Z.ltb_spec 1 m).
    + pose proof (month_len_range y (m - 1)).
      exists (y, m - 1, month_len y (m - 1)). split; [split; lia|]. unfold next_day.
      destruct (Z.ltb_spec (month_len y (m - 1)) (month_len y (m - 1))); [lia|].
      destruct (Z.ltb_spec (m - 1) 12); [|lia]. do 2 f_equal. lia.
    + assert (m = 1) by lia. subst m.
      exists (y - 1, 12, 31). split; [split; [lia|unfold month_len; cbn; lia]|].
      unfold next_day, month_len. cbn. do 2 f_equal. lia.
Qed.

Lemma days_surj n : exists dt, valid dt /\ days dt = n.
Proof.
  assert (Hpos : forall k : nat, exists dt, valid dt /\ days dt = Z.of_nat k).
  { induction k as [|k (dt & Hv & Hd)].
    - exists (1970, 1, 1). split; [vm_compute; repeat split; congruence|]. reflexivity.
    - destruct (days_next dt Hv) as [Hn Hv']. exists (next_day dt). split; auto. lia. }
  assert (Hneg : forall k : nat, exists dt, valid dt /\ days dt = - Z.of_nat k).
  { induction k as [|k (dt & Hv & Hd)].
    - exists (1970, 1, 1). split; [vm_compute; repeat split; congruence|]. reflexivity.
    - destruct (days_prev dt Hv) as (dt' & Hv' & Hn). exists dt'. split; auto.
      destruct (days_next dt' Hv') as [Hn' _]. rewrite Hn in Hn'. lia. }
  destruct (Z.le_ge_cases 0 n).
  - destruct (Hpos (Z.to_nat n)) as (dt & Hv & Hd). exists dt. split; auto. lia.
  - destruct (Hneg (Z.to_nat (- n))) as (dt & Hv & Hd). exists dt. split; auto. lia.
Qed.
