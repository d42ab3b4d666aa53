(* Properties of the approximations of square roots and lengths (include/bss-util/bss_util.h 594-633): C157, C158. *)
From Coq Require Import ZArith Bool Reals Lia Lra Psatz.
From Flocq Require Import Core Relative IEEE754.Binary IEEE754.Bits.
From Verif Require Import Common FloatBits FloatBitsProps.
Local Open Scope R_scope.

(** rounding with a relative error of at most u *)
Definition rounds (u : R) (rnd : R -> R) : Prop := forall v, Rabs (rnd v - v) <= u * Rabs v.
Lemma rounds_delta u rnd v : 0 <= u -> rounds u rnd -> exists d, rnd v = v * (1 + d) /\ - u <= d <= u.
Proof.
  intros Hu H. specialize (H v). destruct (Req_dec v 0) as [->|Hv].
  - exists 0. rewrite Rabs_R0, Rmult_0_r, Rminus_0_r in H. assert (rnd 0 = 0) as -> by (pose proof (Rabs_pos (rnd 0)); destruct (Req_dec (rnd 0) 0); auto; pose proof (Rabs_no_R0 (rnd 0)); lra). lra.
  - exists ((rnd v - v) / v). split; [field; auto|]. assert (A : Rabs ((rnd v - v) / v) <= u).
    { unfold Rdiv. rewrite Rabs_mult, Rabs_inv. pose proof (Rabs_pos_lt v Hv). apply Rmult_le_reg_r with (Rabs v); auto. rewrite Rmult_assoc, Rinv_l by lra. lra. }
    unfold Rabs in A. destruct (Rcase_abs ((rnd v - v) / v)); lra.
Qed.

(** what Newton's iteration does to z = y * sqrt n *)
Section Newton.
Context (u : R) (rnd : R -> R) (Hu : 0 <= u <= 1 / 1000000) (Hr : rounds u rnd).
Lemma newton_step n y e : 0 < n -> 0 <= e <= 4 / 100 -> 1 - e <= y * sqrt n <= 1 + e ->
  let z' := newton rnd (rnd (n * (1 / 2))) y * sqrt n in
  1 - (3 / 2 * (e * e) + 1 / 2 * (e * (e * e)) + 5 * u) <= z' <= 1 + 5 * u.
Proof.
  intros Hn He Hz z'. subst z'. unfold newton. pose proof (sqrt_sqrt n ltac:(lra)) as S.
  destruct (rounds_delta u rnd (n * (1 / 2)) ltac:(lra) Hr) as (d0 & -> & B0).
  destruct (rounds_delta u rnd (n * (1 / 2) * (1 + d0) * y) ltac:(lra) Hr) as (d1 & -> & B1).
  destruct (rounds_delta u rnd (n * (1 / 2) * (1 + d0) * y * (1 + d1) * y) ltac:(lra) Hr) as (d2 & -> & B2).
  destruct (rounds_delta u rnd (3 / 2 - n * (1 / 2) * (1 + d0) * y * (1 + d1) * y * (1 + d2)) ltac:(lra) Hr) as (d3 & -> & B3).
  destruct (rounds_delta u rnd (y * ((3 / 2 - n * (1 / 2) * (1 + d0) * y * (1 + d1) * y * (1 + d2)) * (1 + d3))) ltac:(lra) Hr) as (d4 & -> & B4).
  set (z := y * sqrt n) in *.
  replace (y * ((3 / 2 - n * (1 / 2) * (1 + d0) * y * (1 + d1) * y * (1 + d2)) * (1 + d3)) * (1 + d4) * sqrt n) with (z * (3 / 2 - z * z / 2 * ((1 + d0) * (1 + d1) * (1 + d2))) * ((1 + d3) * (1 + d4))).
  2:{ unfold z. clearbody z. clear - S. set (s := sqrt n) in *. clearbody s. subst n. field. }
  assert (Uu : 0 <= u * u <= 1 / 1000000 * u) by (split; nra).
  assert (A : exists a, (1 + d0) * (1 + d1) * (1 + d2) = 1 + a /\ - (32 / 10 * u) <= a <= 32 / 10 * u).
  { exists ((1 + d0) * (1 + d1) * (1 + d2) - 1). split; [ring|]. assert (- (u * u) <= d0 * d1 <= u * u) by (split; nra).
    assert (M : - (21 / 10 * u) <= (1 + d0) * (1 + d1) - 1 <= 21 / 10 * u) by (split; lra). set (m := (1 + d0) * (1 + d1) - 1) in *. replace ((1 + d0) * (1 + d1)) with (1 + m) by (unfold m; ring). clearbody m. assert (- (21 / 10 * (u * u)) <= m * d2 <= 21 / 10 * (u * u)) by (split; nra). split; lra. }
  destruct A as (a & -> & Ba).
  assert (A : exists b, (1 + d3) * (1 + d4) = 1 + b /\ - (21 / 10 * u) <= b <= 21 / 10 * u).
  { exists ((1 + d3) * (1 + d4) - 1). split; [ring|]. assert (- (u * u) <= d3 * d4 <= u * u) by (split; nra). split; lra. }
  destruct A as (b & -> & Bb). clearbody z. clear - Hu Uu He Hz Ba Bb.
  set (g := z - 1). assert (Hg : - e <= g <= e) by (unfold g; lra). replace z with (1 + g) by (unfold g; ring). clearbody g. clear Hz z.
  assert (N : (1 + g) * (3 / 2 - (1 + g) * (1 + g) / 2) = 1 - (3 / 2 * (g * g) + 1 / 2 * (g * (g * g)))) by field.
  assert (G2 : 0 <= g * g <= e * e) by (split; nra). assert (G3 : - (e * (e * e)) <= g * (g * g) <= e * (e * e)) by (split; nra).
  set (c := (1 + g) * ((1 + g) * (1 + g)) / 2). assert (C : 0 <= c <= 57 / 100) by (unfold c; split; nra).
  replace ((1 + g) * (3 / 2 - (1 + g) * (1 + g) / 2 * (1 + a)) * (1 + b)) with (((1 + g) * (3 / 2 - (1 + g) * (1 + g) / 2) - c * a) * (1 + b)) by (unfold c; field).
  rewrite N. set (w := 3 / 2 * (g * g) + 1 / 2 * (g * (g * g))). assert (W : 0 <= w <= 3 / 2 * (e * e) + 1 / 2 * (e * (e * e))) by (unfold w; split; nra).
  assert (W1 : w <= 1 / 100) by nra. assert (Ca : - (19 / 10 * u) <= c * a <= 19 / 10 * u) by (split; nra). clearbody c w. set (k := c * a) in *. clearbody k. clear G2 G3 N. assert (- (211 / 100 * u) <= (1 - w - k) * b <= 211 / 100 * u) by (split; nra). split; lra.
Qed.
End Newton.

(* ------------------------------------------------------------------ *)
(* the first estimate: f is the mantissa of the number, r the lowest bit of its exponent *)
Lemma cubic_max K c s : 0 < c -> 0 <= s -> 0 <= K -> s * s * (K - c * s) <= 4 * (K * (K * K)) / (27 * (c * c)).
Proof.
  intros Hc Hs HK. assert (Hc2 : 0 < c * c) by nra. apply Rmult_le_reg_r with (27 * (c * c)); [lra|]. replace (4 * (K * (K * K)) / (27 * (c * c)) * (27 * (c * c))) with (4 * (K * (K * K))) by (field; lra).
  assert (E : 4 * (K * (K * K)) - s * s * (K - c * s) * (27 * (c * c)) = (3 * (c * s) - 2 * K) * (3 * (c * s) - 2 * K) * (3 * (c * s) + K)) by ring.
  assert (0 <= c * s) by nra. assert (0 <= (3 * (c * s) - 2 * K) * (3 * (c * s) - 2 * K) * (3 * (c * s) + K)) by (apply Rmult_le_pos; [apply Rle_0_sqr|lra]). rewrite <- E in *. lra.
Qed.
Definition lo : R := 965 / 1000 * (965 / 1000).
Definition hi : R := 1035 / 1000 * (1035 / 1000).
Section Estimate.
Context (t f x : R) (Ht : 4324 / 10000 <= t <= 4328 / 10000) (Hf : 0 <= f <= 1) (Hx : - (2 / 1000000) <= x <= 2 / 1000000).
(** the exponent is even and nothing is borrowed from it *)
Lemma est_even : let m := t - f / 2 + x in 0 <= m -> lo <= (1 + f) * ((1 + m) * (1 + m)) / 2 <= hi.
Proof.
  intros m Hm. set (s := 1 + m). set (K := 3 + 2 * t + 2 * x). replace (1 + f) with (K - 2 * s) by (unfold K, s, m; field).
  assert (BK : 3864796 / 1000000 <= K <= 3865604 / 1000000) by (unfold K; lra). assert (Bs : 1 <= s <= 1432803 / 1000000) by (unfold s, m in *; lra). clearbody s K. clear - BK Bs. unfold lo, hi. split.
  - assert (0 <= (s - 1) * (K * (s + 1) - 2 * (s * s + s + 1))) by (apply Rmult_le_pos; nra). nra.
  - pose proof (cubic_max K 2 s ltac:(lra) ltac:(lra) ltac:(lra)) as C. assert (K * (K * K) <= 3865604 / 1000000 * (3865604 / 1000000 * (3865604 / 1000000))) by (repeat (apply Rmult_le_compat; try nra)). nra.
Qed.
(** something is borrowed *)
Lemma est_even_borrow : let m := t - f / 2 + x in m <= 0 -> lo <= (1 + f) * ((1 + m / 2) * (1 + m / 2)) / 2 <= hi.
Proof.
  intros m Hm. set (s := 1 + m / 2). set (K := 5 + 2 * t + 2 * x). replace (1 + f) with (K - 4 * s) by (unfold K, s, m; field).
  assert (BK : 5864796 / 1000000 <= K <= 5865604 / 1000000) by (unfold K; lra). assert (Bs : 966199 / 1000000 <= s <= 1) by (unfold s, m in *; lra). clearbody s K. clear - BK Bs. unfold lo, hi. split.
  - set (d := 1 - s). assert (Bd : 0 <= d <= 33801 / 1000000) by (unfold d; lra). replace s with (1 - d) by (unfold d; ring). clearbody d. clear Bs s. set (c := K - 4). replace K with (c + 4) by (unfold c; ring).
    assert (Bc : 1864796 / 1000000 <= c <= 1865604 / 1000000) by (unfold c; lra). clearbody c. clear BK K.
    replace ((c + 4 - 4 * (1 - d)) * ((1 - d) * (1 - d)) / 2) with ((c + d * (4 - 2 * c - d * (8 - c) + 4 * (d * d))) / 2) by field.
    assert (0 <= 4 - 2 * c - d * (8 - c) + 4 * (d * d)) by nra. assert (0 <= d * (4 - 2 * c - d * (8 - c) + 4 * (d * d))) by (apply Rmult_le_pos; lra). lra.
  - assert (0 <= s * s <= 1) by (split; nra). assert (0 <= K - 4 * s <= 2000808 / 1000000) by lra. nra.
Qed.
Lemma est_odd : let m := t - 1 / 2 - f / 2 + x in lo <= (1 + f) * ((1 + m / 2) * (1 + m / 2)) <= hi.
Proof.
  intros m. set (s := 1 + m / 2). set (K := 4 + 2 * t + 2 * x). replace (1 + f) with (K - 4 * s) by (unfold K, s, m; field).
  assert (BK : 4864796 / 1000000 <= K <= 4865604 / 1000000) by (unfold K; lra). assert (Bs : 716199 / 1000000 <= s <= 966401 / 1000000) by (unfold s, m; lra). clearbody s K. clear - BK Bs. unfold lo, hi. split.
  - set (p := 966401 / 1000000) in *. assert (D : 0 <= 4 * (s * s + s * p + p * p) - K * (s + p)) by (unfold p in *; nra). assert (0 <= (p - s) * (4 * (s * s + s * p + p * p) - K * (s + p))) by (apply Rmult_le_pos; lra).
    assert (Ep : (p - s) * (4 * (s * s + s * p + p * p) - K * (s + p)) = (K - 4 * s) * (s * s) - (K - 4 * p) * (p * p)) by ring. assert (lo <= (K - 4 * p) * (p * p)) by (unfold lo, p; lra). unfold lo in *. lra.
  - pose proof (cubic_max K 4 s ltac:(lra) ltac:(lra) ltac:(lra)) as C. assert (K * (K * K) <= 4865604 / 1000000 * (4865604 / 1000000 * (4865604 / 1000000))) by (repeat (apply Rmult_le_compat; try nra)). nra.
Qed.
End Estimate.

(* ------------------------------------------------------------------ *)
(* the estimate from the bits *)
Lemma units_split mw E F : (0 <= mw -> 1 <= E -> 0 <= F < 2 ^ mw -> units mw (E * 2 ^ mw + F) = (2 ^ mw + F) * 2 ^ (E - 1))%Z.
Proof.
  intros H0 HE HF. unfold units. assert (0 < 2 ^ mw)%Z by (apply Z.pow_pos_nonneg; lia). rewrite <- (Z.div_unique (E * 2 ^ mw + F) (2 ^ mw) E F), <- (Z.mod_unique (E * 2 ^ mw + F) (2 ^ mw) E F) by lia.
  destruct (Z.eqb_spec E 0); [lia|reflexivity].
Qed.
Lemma pow_IZR2 (k : nat) : (2 ^ k)%R = IZR (2 ^ Z.of_nat k).
Proof. rewrite <- pow_IZR. reflexivity. Qed.
Lemma pow2_gt k : (0 <= k)%Z -> 0 < IZR (2 ^ k).
Proof. intros H. apply IZR_lt. apply Z.pow_pos_nonneg; lia. Qed.
Section FromBits.
Context (mw Q : Z) (B : nat) (Hmw : (1 <= mw)%Z) (HB : (3 * Z.of_nat B = 3 * mw + 2 * Q - 2)%Z) (t : R) (Ht : 4324 / 10000 <= t <= 4328 / 10000).
Lemma from_bits q r F M : (- 2 ^ mw <= M < 2 ^ mw)%Z ->
  (0 <= q)%Z -> (0 <= r <= 1)%Z -> (1 <= 2 * q + r)%Z -> (2 <= Q - q)%Z -> (0 <= F < 2 ^ mw)%Z ->
  - (2 / 1000000) <= IZR M / IZR (2 ^ mw) - (t - IZR F / IZR (2 ^ mw) / 2 - IZR r / 2) <= 2 / 1000000 ->
  let n := IZR (units mw ((2 * q + r) * 2 ^ mw + F)) / 2 ^ B in let y := IZR (units mw ((Q - q) * 2 ^ mw + M)) / 2 ^ B in
  0 < n /\ 0 < y /\ lo <= y * y * n <= hi.
Proof.
  intros HM Hq Hr He HQ HF Hx. cbv zeta. rewrite units_split by lia.
  set (P := IZR (2 ^ mw)) in *. assert (HP : 0 < P) by (apply pow2_gt; lia).
  set (bw := if (M <? 0)%Z then 1%Z else 0%Z). set (M' := (M + bw * 2 ^ mw)%Z).
  assert (HM' : (0 <= M' < 2 ^ mw)%Z) by (unfold M', bw; destruct (Z.ltb_spec M 0); lia). assert (Hbw : (0 <= bw <= 1)%Z) by (unfold bw; destruct (M <? 0)%Z; lia).
  replace ((Q - q) * 2 ^ mw + M)%Z with ((Q - q - bw) * 2 ^ mw + M')%Z by (unfold M'; ring). rewrite units_split by lia.
  rewrite !mult_IZR, !plus_IZR. fold P. set (f := IZR F / P) in *. set (m := IZR M / P) in *. set (m' := IZR M' / P).
  assert (Ef : P + IZR F = P * (1 + f)) by (unfold f; field; lra). assert (Em : P + IZR M' = P * (1 + m')) by (unfold m'; field; lra). rewrite Ef, Em.
  assert (Emm : m' = m + IZR bw) by (unfold m', m, M'; rewrite plus_IZR, mult_IZR; fold P; field; lra).
  assert (Hf : 0 <= f <= 1). { assert (0 <= IZR F <= P) by (split; [apply (IZR_le 0); lia|apply IZR_le; lia]). unfold f. split; [apply Rmult_le_pos; [lra|left; now apply Rinv_0_lt_compat]|]. apply Rmult_le_reg_r with P; auto. unfold Rdiv. rewrite Rmult_assoc, Rinv_l; lra. }
  assert (Hm' : 0 <= m'). { assert (0 <= IZR M') by (apply (IZR_le 0); lia). apply Rmult_le_pos; [lra|left; now apply Rinv_0_lt_compat]. }
  rewrite (pow_IZR2 B). set (A1 := IZR (2 ^ (2 * q + r - 1))). set (A2 := IZR (2 ^ (Q - q - bw - 1))). set (A3 := IZR (2 ^ Z.of_nat B)).
  assert (G1 : 0 < A1) by (apply pow2_gt; lia). assert (G2 : 0 < A2) by (apply pow2_gt; lia). assert (G3 : 0 < A3) by (apply pow2_gt; lia).
  assert (EA : A3 * A3 * A3 = A1 * A2 * A2 * (P * P * P) * IZR (2 ^ (1 - r + 2 * bw))).
  { unfold A1, A2, A3, P. rewrite <- !mult_IZR. f_equal. rewrite <- !Z.pow_add_r by lia. f_equal. lia. }
  set (A4 := IZR (2 ^ (1 - r + 2 * bw))) in *. assert (G4 : 0 < A4) by (apply pow2_gt; lia).
  split; [|split].
  - apply Rmult_lt_0_compat; [|now apply Rinv_0_lt_compat]. apply Rmult_lt_0_compat; auto. apply Rmult_lt_0_compat; lra.
  - apply Rmult_lt_0_compat; [|now apply Rinv_0_lt_compat]. apply Rmult_lt_0_compat; auto. apply Rmult_lt_0_compat; lra.
  - replace (P * (1 + m') * A2 / A3 * (P * (1 + m') * A2 / A3) * (P * (1 + f) * A1 / A3)) with ((1 + f) * ((1 + m') * (1 + m')) / A4).
    2:{ replace (P * (1 + m') * A2 / A3 * (P * (1 + m') * A2 / A3) * (P * (1 + f) * A1 / A3)) with ((1 + f) * ((1 + m') * (1 + m')) * (A1 * A2 * A2 * (P * P * P)) / (A3 * A3 * A3)) by (field; lra). rewrite EA. field. repeat split; lra. }
    set (x := m - (t - f / 2 - IZR r / 2)) in *. assert (r = 0 \/ r = 1)%Z as [-> | ->] by lia.
    + unfold bw in *. destruct (Z.ltb_spec M 0).
      * assert (m = t - f / 2 + x) as E by (unfold x; lra). replace ((1 + f) * ((1 + m') * (1 + m')) / A4) with ((1 + f) * ((1 + m / 2) * (1 + m / 2)) / 2) by (rewrite Emm; unfold A4; cbn; field).
        rewrite E. apply est_even_borrow; auto. rewrite <- E. unfold m. assert (IZR M <= 0) by (apply (IZR_le _ 0); lia). apply Rmult_le_reg_r with P; auto. unfold Rdiv. rewrite Rmult_assoc, Rinv_l; lra.
      * assert (m = t - f / 2 + x) as E by (unfold x; lra). replace ((1 + f) * ((1 + m') * (1 + m')) / A4) with ((1 + f) * ((1 + m) * (1 + m)) / 2) by (rewrite Emm; unfold A4; cbn; field).
        rewrite E. apply est_even; auto. rewrite <- E. rewrite Emm in Hm'. lra.
    + assert (m = t - 1 / 2 - f / 2 + x) as E by (unfold x; lra). unfold bw in *. destruct (Z.ltb_spec M 0).
      * replace ((1 + f) * ((1 + m') * (1 + m')) / A4) with ((1 + f) * ((1 + m / 2) * (1 + m / 2))) by (rewrite Emm; unfold A4; cbn; field). rewrite E. now apply est_odd.
      * exfalso. rewrite Emm in Hm'. lra.
Qed.
End FromBits.
Lemma estimate_root n y : 0 < n -> 0 < y -> lo <= y * y * n <= hi -> 1 - 35 / 1000 <= y * sqrt n <= 1 + 35 / 1000.
Proof.
  intros Hn Hy H. pose proof (sqrt_sqrt n ltac:(lra)) as S. pose proof (sqrt_lt_R0 n Hn) as P. set (z := y * sqrt n). assert (Hz : 0 < z) by (apply Rmult_lt_0_compat; auto).
  assert (E : z * z = y * y * n) by (unfold z; rewrite <- S at 3; ring). rewrite <- E in H. unfold lo, hi in H. clearbody z. split; nra.
Qed.

Lemma float_estimate i : (2 ^ 23 <= i < 255 * 2 ^ 23)%Z -> 0 < float_abs i /\ 1 - 35 / 1000 <= float_abs (1597463007 - i / 2) * sqrt (float_abs i) <= 1 + 35 / 1000.
Proof.
  intros Hi. set (E := (i / 2 ^ 23)%Z). set (F := (i mod 2 ^ 23)%Z). pose proof (Z.div_mod i (2 ^ 23) ltac:(lia)) as D. pose proof (Z.mod_pos_bound i (2 ^ 23) ltac:(lia)) as BF. fold E in D. fold F in D, BF.
  set (q := (E / 2)%Z). set (r := (E mod 2)%Z). pose proof (Z.div_mod E 2 ltac:(lia)) as D2. pose proof (Z.mod_pos_bound E 2 ltac:(lia)) as Br. fold q in D2. fold r in D2, Br. clearbody F r q. clearbody E. change (2 ^ 23)%Z with 8388608%Z in *.
  pose proof (Z.div_mod (r * 8388608 + F) 2 ltac:(lia)) as D3. pose proof (Z.mod_pos_bound (r * 8388608 + F) 2 ltac:(lia)) as B3. set (h := ((r * 8388608 + F) / 2)%Z) in *. set (p := ((r * 8388608 + F) mod 2)%Z) in *.
  assert (Eh : (i / 2 = q * 8388608 + h)%Z) by (symmetry; apply Z.div_unique with p; lia). clearbody h p.
  assert (E1 : i = ((2 * q + r) * 2 ^ 23 + F)%Z) by (change (2 ^ 23)%Z with 8388608%Z; lia). assert (E2 : (1597463007 - i / 2 = (190 - q) * 2 ^ 23 + (3627487 - h))%Z) by (change (2 ^ 23)%Z with 8388608%Z; lia).
  assert (Hr : (r = 0 \/ r = 1)%Z) by lia.
  destruct (from_bits 23 190 149 ltac:(lia) ltac:(lia) (3627487 / 8388608) ltac:(lra) q r F (3627487 - h)%Z) as (A1 & A2 & A3); try lia.
  { change (2 ^ 23)%Z with 8388608%Z. assert (2 * IZR h = 8388608 * IZR r + IZR F - IZR p) as Hh by (rewrite <- !mult_IZR, <- plus_IZR, <- minus_IZR; f_equal; lia). assert (0 <= IZR p <= 1) by (split; [apply (IZR_le 0)|apply (IZR_le _ 1)]; lia). rewrite minus_IZR. split; lra. }
  rewrite <- E1 in A1, A3. rewrite <- E2 in A2, A3. split; [exact A1|]. apply estimate_root; auto.
Qed.
Lemma double_estimate i : (2 ^ 52 <= i < 2047 * 2 ^ 52)%Z ->
  0 < double_abs i /\ 1 - 35 / 1000 <= double_abs (wrap 32 (3217938698 - i / 2 ^ 32) / 2 * 2 ^ 32 + i mod 2 ^ 32) * sqrt (double_abs i) <= 1 + 35 / 1000.
Proof.
  intros Hi. set (l := (i mod 2 ^ 32)%Z). set (g := (i / 2 ^ 32)%Z). pose proof (Z.div_mod i (2 ^ 32) ltac:(lia)) as D0. pose proof (Z.mod_pos_bound i (2 ^ 32) ltac:(lia)) as Bl. fold l in D0, Bl. fold g in D0. clearbody l g.
  change (2 ^ 32)%Z with 4294967296%Z in *. change (2 ^ 52)%Z with 4503599627370496%Z in *.
  set (E := (g / 1048576)%Z). set (F := (g mod 1048576)%Z). pose proof (Z.div_mod g 1048576 ltac:(lia)) as D. pose proof (Z.mod_pos_bound g 1048576 ltac:(lia)) as BF. fold E in D. fold F in D, BF.
  set (q := (E / 2)%Z). set (r := (E mod 2)%Z). pose proof (Z.div_mod E 2 ltac:(lia)) as D2. pose proof (Z.mod_pos_bound E 2 ltac:(lia)) as Br. fold q in D2. fold r in D2, Br. clearbody F r q. clearbody E.
  pose proof (Z.div_mod (r * 1048576 + F + 1) 2 ltac:(lia)) as D3. pose proof (Z.mod_pos_bound (r * 1048576 + F + 1) 2 ltac:(lia)) as B3. set (h := ((r * 1048576 + F + 1) / 2)%Z) in *. set (p := ((r * 1048576 + F + 1) mod 2)%Z) in *.
  assert (Eh : ((3217938698 - g) / 2 = 1608969349 - q * 1048576 - h)%Z) by (symmetry; apply Z.div_unique with (1 - p)%Z; lia). clearbody h p.
  unfold wrap. rewrite Z.mod_small by (change (2 ^ 32)%Z with 4294967296%Z; lia). rewrite Eh.
  set (M := ((453765 - h) * 4294967296 + l)%Z). set (F' := (F * 4294967296 + l)%Z).
  assert (E1 : i = ((2 * q + r) * 2 ^ 52 + F')%Z) by (unfold F'; change (2 ^ 52)%Z with 4503599627370496%Z; lia). assert (E2 : ((1608969349 - q * 1048576 - h) * 4294967296 + l = (1534 - q) * 2 ^ 52 + M)%Z) by (unfold M; change (2 ^ 52)%Z with 4503599627370496%Z; lia).
  assert (Hr : (r = 0 \/ r = 1)%Z) by lia.
  destruct (from_bits 52 1534 1074 ltac:(lia) ltac:(lia) (453765 / 1048576) ltac:(lra) q r F' M) as (A1 & A2 & A3); try (unfold M, F'; lia).
  { change (2 ^ 52)%Z with 4503599627370496%Z. assert (2 * IZR h = 1048576 * IZR r + IZR F + 1 - IZR p) as Hh by (rewrite <- !mult_IZR, <- !plus_IZR, <- minus_IZR; f_equal; lia). assert (0 <= IZR p <= 1) by (split; [apply (IZR_le 0)|apply (IZR_le _ 1)]; lia). assert (0 <= IZR l <= 4294967296) by (split; [apply (IZR_le 0)|apply IZR_le]; lia).
    unfold M, F'. rewrite !plus_IZR, !mult_IZR, minus_IZR. split; lra. }
  rewrite <- E1 in A1, A3. rewrite <- E2 in A2, A3. split; [exact A1|]. apply estimate_root; auto.
Qed.

(* ------------------------------------------------------------------ *)
(* C157: normal positive numbers *)
Lemma last_mul u rnd n y e : 0 <= u <= 1 / 1000000 -> rounds u rnd -> 0 < n -> 0 <= e <= 1 / 100 -> 1 - e <= y * sqrt n <= 1 + e -> Rabs (rnd (n * y) - sqrt n) <= (e + 2 * u) * sqrt n.
Proof.
  intros Hu Hr Hn He Hz. destruct (rounds_delta u rnd (n * y) ltac:(lra) Hr) as (d & -> & Bd). pose proof (sqrt_sqrt n ltac:(lra)) as S. pose proof (sqrt_lt_R0 n Hn) as P.
  replace (n * y * (1 + d) - sqrt n) with (sqrt n * (y * sqrt n * (1 + d) - 1)) by (set (s := sqrt n) in *; clearbody s; subst n; ring). rewrite Rabs_mult, (Rabs_pos_eq (sqrt n)), Rmult_comm by lra. apply Rmult_le_compat_r; [lra|].
  set (z := y * sqrt n) in *. clearbody z. apply Rabs_le. split; nra.
Qed.
Lemma float_bound rnd i : rounds (1 / 2 ^ 24) rnd -> (2 ^ 23 <= i < 255 * 2 ^ 23)%Z ->
  Rabs (fFastSqrt rnd i - sqrt (float_abs i)) <= 6 / 1000000 * sqrt (float_abs i).
Proof.
  intros Hr Hi. destruct (float_estimate i Hi) as [Hn H0]. unfold fFastSqrt. set (n := float_abs i) in *. set (y := float_abs (1597463007 - i / 2)) in *. clearbody n y.
  set (u := 1 / 2 ^ 24) in *. assert (Hu : 0 <= u <= 6 / 100000000) by (unfold u; split; [apply Rmult_le_pos; [lra|left; apply Rinv_0_lt_compat; apply pow_lt; lra]|cbn; lra]).
  pose proof (newton_step u rnd ltac:(lra) Hr n y (35 / 1000) Hn ltac:(lra) H0) as H1. cbv zeta in H1. set (y1 := newton rnd (rnd (n * (1 / 2))) y) in *.
  pose proof (newton_step u rnd ltac:(lra) Hr n y1 (186 / 100000) Hn ltac:(lra) ltac:(split; lra)) as H2. cbv zeta in H2. set (y2 := newton rnd (rnd (n * (1 / 2))) y1) in *.
  pose proof (last_mul u rnd n y2 (55 / 10000000) ltac:(lra) Hr Hn ltac:(lra) ltac:(split; lra)) as H3. pose proof (sqrt_lt_R0 n Hn). eapply Rle_trans; [exact H3|]. apply Rmult_le_compat_r; lra.
Qed.
Lemma double_bound rnd i : rounds (1 / 2 ^ 53) rnd -> (2 ^ 52 <= i < 2047 * 2 ^ 52)%Z ->
  Rabs (dFastSqrt rnd i - sqrt (double_abs i)) <= 5 / 100000000000 * sqrt (double_abs i).
Proof.
  intros Hr Hi. destruct (double_estimate i Hi) as [Hn H0]. unfold dFastSqrt. set (n := double_abs i) in *. set (y := double_abs (wrap 32 (3217938698 - i / 2 ^ 32) / 2 * 2 ^ 32 + i mod 2 ^ 32)) in *. clearbody n y.
  set (u := 1 / 2 ^ 53) in *. assert (Hu : 0 <= u <= 12 / 100000000000000000) by (unfold u; split; [apply Rmult_le_pos; [lra|left; apply Rinv_0_lt_compat; apply pow_lt; lra]|cbn; lra]).
  pose proof (newton_step u rnd ltac:(lra) Hr n y (35 / 1000) Hn ltac:(lra) H0) as H1. cbv zeta in H1. set (y1 := newton rnd (rnd (n * (1 / 2))) y) in *.
  pose proof (newton_step u rnd ltac:(lra) Hr n y1 (186 / 100000) Hn ltac:(lra) ltac:(split; lra)) as H2. cbv zeta in H2. set (y2 := newton rnd (rnd (n * (1 / 2))) y1) in *.
  pose proof (newton_step u rnd ltac:(lra) Hr n y2 (52 / 10000000) Hn ltac:(lra) ltac:(split; lra)) as H3. cbv zeta in H3. set (y3 := newton rnd (rnd (n * (1 / 2))) y2) in *.
  pose proof (last_mul u rnd n y3 (45 / 1000000000000) ltac:(lra) Hr Hn ltac:(lra) ltac:(split; lra)) as H4. pose proof (sqrt_lt_R0 n Hn). eapply Rle_trans; [exact H4|]. apply Rmult_le_compat_r; lra.
Qed.
(** a float that is at least 2^-126, the smallest normal number; a double, at least 2^-1022 *)
Lemma normal_float i : F32 i -> is_finite 24 128 (b32_of_bits i) = true -> bpow radix2 (-126) <= B2R 24 128 (b32_of_bits i) -> (2 ^ 23 <= i < 255 * 2 ^ 23)%Z /\ float_abs i = B2R 24 128 (b32_of_bits i).
Proof.
  intros Hi Hf Hb. destruct (proj1 C154_values i Hi) as (_ & F & _ & V). apply F in Hf. rewrite (V Hf) in *. destruct Hf as [_ Hf]. pose proof (float_split 23 8 ltac:(lia) ltac:(lia) i Hi) as [M E].
  replace (-126)%Z with (23 + -149)%Z in Hb by reflexivity. rewrite bpow_plus in Hb. apply Rmult_le_reg_r in Hb; [|apply bpow_gt_0]. change (bpow radix2 23) with (IZR (2 ^ 23)) in Hb. apply le_IZR in Hb. unfold val in *.
  pose proof (units_le 23 ltac:(lia) 0 (mag 23 8 i) ltac:(lia) ltac:(lia)) as U0. rewrite (units_0 23) in U0 by lia. destruct (neg 23 8 i); [lia|]. rewrite Z.add_0_r in E. rewrite <- E in *.
  change (2 ^ 23)%Z with (units 23 (2 ^ 23)) in Hb. apply units_le in Hb; try lia. split; [change (inf_bits 23 8) with (255 * 2 ^ 23)%Z in Hf; lia|]. unfold float_abs, Rdiv. f_equal. cbn. lra.
Qed.
Lemma normal_double i : F64 i -> is_finite 53 1024 (b64_of_bits i) = true -> bpow radix2 (-1022) <= B2R 53 1024 (b64_of_bits i) -> (2 ^ 52 <= i < 2047 * 2 ^ 52)%Z /\ double_abs i = B2R 53 1024 (b64_of_bits i).
Proof.
  intros Hi Hf Hb. destruct (proj2 C154_values i Hi) as (_ & F & _ & V). apply F in Hf. rewrite (V Hf) in *. destruct Hf as [_ Hf]. pose proof (float_split 52 11 ltac:(lia) ltac:(lia) i Hi) as [M E].
  replace (-1022)%Z with (52 + -1074)%Z in Hb by reflexivity. rewrite bpow_plus in Hb. apply Rmult_le_reg_r in Hb; [|apply bpow_gt_0]. change (bpow radix2 52) with (IZR (2 ^ 52)) in Hb. apply le_IZR in Hb. unfold val in *.
  pose proof (units_le 52 ltac:(lia) 0 (mag 52 11 i) ltac:(lia) ltac:(lia)) as U0. rewrite (units_0 52) in U0 by lia. destruct (neg 52 11 i); [lia|]. rewrite Z.add_0_r in E. rewrite <- E in *.
  change (2 ^ 52)%Z with (units 52 (2 ^ 52)) in Hb. apply units_le in Hb; try lia. split; [change (inf_bits 52 11) with (2047 * 2 ^ 52)%Z in Hf; lia|]. unfold double_abs, Rdiv. f_equal. rewrite pow_IZR2. reflexivity.
Qed.
Theorem C157_float rnd i : rounds (1 / 2 ^ 24) rnd -> F32 i -> let n := B2R 24 128 (b32_of_bits i) in
  is_finite 24 128 (b32_of_bits i) = true -> bpow radix2 (-126) <= n -> Rabs (fFastSqrt rnd i - sqrt n) <= 6 / 1000000 * sqrt n.
Proof. intros Hr Hi n Hf Hb. destruct (normal_float i Hi Hf Hb) as [B E]. unfold n. rewrite <- E. now apply float_bound. Qed.
Print Assumptions C157_float.
Theorem C157_double rnd i : rounds (1 / 2 ^ 53) rnd -> F64 i -> let n := B2R 53 1024 (b64_of_bits i) in
  is_finite 53 1024 (b64_of_bits i) = true -> bpow radix2 (-1022) <= n -> Rabs (dFastSqrt rnd i - sqrt n) <= 5 / 100000000000 * sqrt n.
Proof. intros Hr Hi n Hf Hb. destruct (normal_double i Hi Hf Hb) as [B E]. unfold n. rewrite <- E. now apply double_bound. Qed.
Print Assumptions C157_double.
(** below that it is wrong: of the smallest positive float, 2^-149, less than a hundredth of the root, however exact the arithmetic *)
Theorem C157_subnormal_refuted : B2R 24 128 (b32_of_bits 1) = bpow radix2 (-149) /\ fFastSqrt (fun x => x) 1 < 1 / 100 * sqrt (bpow radix2 (-149)).
Proof.
  split. { assert (H : F32 1) by (compute; intuition discriminate). rewrite (proj2 (proj2 (proj2 (proj1 C154_values 1%Z H)))) by (compute; intuition discriminate). change (val 23 8 1) with 1%Z. lra. }
  assert (E : float_abs 1 = bpow radix2 (-149)) by (unfold float_abs; change (units 23 1) with 1%Z; cbn; lra). unfold fFastSqrt. rewrite E. change (1 / 2)%Z with 0%Z. rewrite Z.sub_0_r.
  assert (Ey : float_abs 1597463007 = 12016095 * 2 ^ 40) by (unfold float_abs; change (units 23 1597463007) with (12016095 * 2 ^ 189)%Z; rewrite mult_IZR, !pow_IZR2; replace (2 ^ 189)%Z with (2 ^ Z.of_nat 40 * 2 ^ Z.of_nat 149)%Z by reflexivity; rewrite mult_IZR; field; apply not_0_IZR; discriminate).
  rewrite Ey. set (n := bpow radix2 (-149)). assert (En : n = 1 / 2 ^ 149) by (unfold n; cbn; lra). assert (Hn : 0 < n) by (apply bpow_gt_0). set (y := 12016095 * 2 ^ 40). assert (Hy : 0 < y) by (unfold y; cbn; lra).
  assert (Hny : n * (y * y) <= 1 / 1000000) by (rewrite En; unfold y; cbn; lra). clearbody n y.
  unfold newton. set (y1 := y * (3 / 2 - n * (1 / 2) * y * y)). assert (B1 : 0 < y1 <= 3 / 2 * y) by (unfold y1; split; nra). clearbody y1.
  set (y2 := y1 * (3 / 2 - n * (1 / 2) * y1 * y1)). assert (B2 : n * (y1 * y1) <= 9 / 4 * (1 / 1000000)) by nra. assert (B3 : y2 <= 9 / 4 * y) by (unfold y2; nra). assert (B4 : 0 < y2) by (unfold y2; nra). clearbody y2.
  pose proof (sqrt_lt_R0 n Hn) as P. pose proof (sqrt_sqrt n ltac:(lra)) as S. set (s := sqrt n) in *. clearbody s. subst n.
  assert (Bs : s * y < 11 / 10000) by (destruct (Rlt_le_dec (s * y) (11 / 10000)); auto; nra). assert (s * y2 < 1 / 100) by nra. nra.
Qed.
Print Assumptions C157_subnormal_refuted.
(** rounding to the nearest number of 24 bits has the relative error; 2.0 is a normal float *)
Example C157_example : rounds (1 / 2 ^ 24) (round radix2 (FLX_exp 24) ZnearestE) /\ is_finite 24 128 (b32_of_bits 1073741824) = true /\ bpow radix2 (-126) <= B2R 24 128 (b32_of_bits 1073741824).
Proof.
  split; [|split].
  - intros v. pose proof (relative_error_N_FLX radix2 24 ltac:(reflexivity) (fun z => negb (Z.even z)) v) as H. eapply Rle_trans; [exact H|]. apply Rmult_le_compat_r; [apply Rabs_pos|]. cbn. lra.
  - vm_compute. reflexivity.
  - assert (H : F32 1073741824) by (compute; intuition discriminate). rewrite (proj2 (proj2 (proj2 (proj1 C154_values 1073741824%Z H)))) by (compute; intuition discriminate). change (val 23 8 1073741824) with (2 ^ 150)%Z. rewrite IZR_bpow by lia. apply bpow_le. lia.
Qed.

(* ------------------------------------------------------------------ *)
(* C158: the length of a vector *)
Theorem C158_length rnd x y : rounds (1 / 2 ^ 24) rnd -> 855 / 1000 * sqrt (x * x + y * y) <= fLength rnd x y <= 927 / 1000 * sqrt (x * x + y * y).
Proof.
  intros Hr. unfold fLength. replace (x * x + y * y) with (Rabs x * Rabs x + Rabs y * Rabs y) by (rewrite <- !Rabs_mult, !Rabs_pos_eq by nra; reflexivity).
  pose proof (Rabs_pos x) as Px. pose proof (Rabs_pos y) as Py. set (a := Rabs x) in *. set (b := Rabs y) in *. clearbody a b. clear x y.
  set (u := 1 / 2 ^ 24) in *. assert (Hu : 0 <= u <= 6 / 100000000) by (unfold u; split; [apply Rmult_le_pos; [lra|left; apply Rinv_0_lt_compat; apply pow_lt; lra]|cbn; lra]). clearbody u.
  set (c := 7071067811865475 / 10000000000000000). set (k := 92677669529663688 / 100000000000000000).
  destruct (rounds_delta u rnd c ltac:(lra) Hr) as (d0 & -> & B0). destruct (rounds_delta u rnd (a + b) ltac:(lra) Hr) as (d1 & -> & B1). destruct (rounds_delta u rnd (c * (1 + d0) * ((a + b) * (1 + d1))) ltac:(lra) Hr) as (d2 & -> & B2).
  destruct (rounds_delta u rnd k ltac:(lra) Hr) as (d3 & -> & B3).
  assert (A : exists c', c * (1 + d0) * ((a + b) * (1 + d1)) * (1 + d2) = c' * (a + b) /\ 70710 / 100000 <= c' <= 70711 / 100000).
  { exists (c * ((1 + d0) * (1 + d1) * (1 + d2))). split; [ring|]. assert (M : 1 - 3 / 1000000 <= (1 + d0) * (1 + d1) <= 1 + 3 / 1000000) by (split; nra). set (m := (1 + d0) * (1 + d1)) in *. clearbody m. assert (1 - 4 / 1000000 <= m * (1 + d2) <= 1 + 4 / 1000000) by (split; nra). unfold c. split; nra. }
  destruct A as (c' & -> & Bc). set (mv := if Rlt_dec b a then a else b). set (v := if Rlt_dec mv (c' * (a + b)) then c' * (a + b) else mv).
  destruct (rounds_delta u rnd (k * (1 + d3) * v) ltac:(lra) Hr) as (d4 & -> & B4).
  assert (A : exists k', k * (1 + d3) * v * (1 + d4) = k' * v /\ 92676 / 100000 <= k' <= 92679 / 100000).
  { exists (k * ((1 + d3) * (1 + d4))). split; [ring|]. assert (1 - 3 / 1000000 <= (1 + d3) * (1 + d4) <= 1 + 3 / 1000000) by (split; nra). unfold k. split; nra. }
  destruct A as (k' & -> & Bk). clear - Px Py Bc Bk.
  set (L := sqrt (a * a + b * b)). assert (HL : L * L = a * a + b * b) by (apply sqrt_sqrt; nra). assert (L0 : 0 <= L) by apply sqrt_pos. clearbody L.
  assert (V : 923 / 1000 * L <= v <= 10001 / 10000 * L).
  { assert (Ha : a <= L) by nra. assert (Hb : b <= L) by nra. assert (Hs : c' * (a + b) <= 10001 / 10000 * L). { assert ((a + b) * (a + b) <= 2 * (L * L)) by (rewrite HL; pose proof (Rle_0_sqr (a - b)); unfold Rsqr in *; lra). pose proof (Rle_0_sqr L) as L2. unfold Rsqr in L2.
      assert (a + b <= 141422 / 100000 * L) by (apply Rsqr_incr_0_var; [unfold Rsqr; lra|lra]).
      assert (c' * (a + b) <= 70711 / 100000 * (a + b)) by (apply Rmult_le_compat_r; lra). lra. }
    assert (Hmv : (mv = a /\ b <= a) \/ (mv = b /\ a <= b)) by (unfold mv; destruct (Rlt_dec b a); [left|right]; lra).
    assert (Hv : mv <= v /\ c' * (a + b) <= v /\ (v = mv \/ v = c' * (a + b))) by (unfold v; destruct (Rlt_dec mv (c' * (a + b))); lra). clearbody v mv.
    split; [|destruct Hv as (_ & _ & [-> | ->]); [destruct Hmv as [[-> _]|[-> _]]; lra|exact Hs]].
    destruct (Rle_lt_dec (923 / 1000 * L) mv) as [|Hm]; [lra|]. enough (923 / 1000 * L <= 70710 / 100000 * (a + b)) by nra.
    assert (Q : mv * mv < 923 / 1000 * (923 / 1000) * (L * L)) by (destruct Hmv as [[-> _]|[-> _]]; nra). rewrite HL in Q.
    assert (W : 923 / 1000 * (923 / 1000) * (a * a + b * b) <= 70710 / 100000 * (70710 / 100000) * ((a + b) * (a + b))).
    { destruct Hmv as [[-> Hab]|[-> Hab]]; [assert (415 / 1000 * a <= b) by nra|assert (415 / 1000 * b <= a) by nra]; nra. }
    rewrite <- HL in W. apply Rsqr_incr_0_var; [unfold Rsqr; nra|lra]. }
  split; nra.
Qed.
Print Assumptions C158_length.
(** along the axes the result is 0.927 of the length, without rounding *)
Example C158_example : rounds (1 / 2 ^ 24) (fun v => v) /\ 926 / 1000 < fLength (fun v => v) (-1) 0 < 927 / 1000.
Proof.
  split; [intros v; rewrite Rminus_diag_eq, Rabs_R0 by reflexivity; apply Rmult_le_pos; [cbn; lra|apply Rabs_pos]|].
  unfold fLength. rewrite (Rabs_left (-1)), Rabs_R0 by lra. destruct (Rlt_dec 0 (- -1)); [|lra]. destruct (Rlt_dec _ _); lra.
Qed.
