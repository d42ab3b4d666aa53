(* C190: Fixed numbers to and from float and double. *)
From Coq Require Import ZArith Reals Bool Lia Lra.
From Flocq Require Import Core.
From Verif Require Import Common FixedFloat.
Local Open Scope Z_scope.

Section P.
Context (prec emin : Z) (Hp : 1 < prec) (He : emin <= - prec).
Notation fexp := (FLT_exp emin prec).
Notation rnd := (rnd prec emin).
(** the numbers of the type, and the number nearest to [x], ties to even *)
Notation float := (generic_format radix2 fexp).
Local Instance prec_pos : Prec_gt_0 prec. Proof. unfold Prec_gt_0. lia. Qed.

Lemma pow_bpow : forall e, 0 <= e -> IZR (2 ^ e) = bpow radix2 e.
Proof. intros e H. rewrite <- (IZR_Zpower radix2) by exact H. reflexivity. Qed.

Lemma float_scaled : forall m e, Z.abs m <= 2 ^ prec -> emin <= e -> float (IZR m * bpow radix2 e)%R.
Proof.
  intros m e M E. destruct (Z.eq_dec (Z.abs m) (2 ^ prec)) as [Q|Q].
  - assert (B : float (bpow radix2 (prec + e))).
    { apply generic_format_bpow. unfold FLT_exp. lia. }
    destruct (Z.abs_eq_or_opp m) as [A|A].
    + replace (IZR m) with (bpow radix2 prec) by (rewrite <- pow_bpow by lia; f_equal; lia). rewrite <- bpow_plus. exact B.
    + replace (IZR m) with (- bpow radix2 prec)%R by (rewrite <- pow_bpow by lia; rewrite <- opp_IZR; f_equal; lia).
      rewrite Ropp_mult_distr_l_reverse, <- bpow_plus. apply generic_format_opp. exact B.
  - apply generic_format_FLT. exists (Float radix2 m e); [reflexivity| |exact E]. cbn [Fnum]. change (Zpower radix2 prec) with (2 ^ prec). lia.
Qed.
Lemma float_Z : forall m, Z.abs m <= 2 ^ prec -> float (IZR m).
Proof. intros m M. rewrite <- (Rmult_1_r (IZR m)). change 1%R with (bpow radix2 0). apply float_scaled; lia. Qed.
Lemma rnd_float : forall x, float x -> rnd x = x.
Proof. intros x F. unfold FixedFloat.rnd. apply round_generic; [apply valid_rnd_N|exact F]. Qed.
Lemma float_pow : forall e, 0 <= e -> float (IZR (2 ^ e)).
Proof. intros e H. rewrite pow_bpow by exact H. apply generic_format_bpow. unfold FLT_exp. lia. Qed.
Lemma bneg : forall s, 0 <= s -> (bpow radix2 (- s) = / IZR (2 ^ s))%R.
Proof. intros s H. rewrite bpow_opp, <- pow_bpow by exact H. reflexivity. Qed.
Lemma pow_pos' : forall s, 0 <= s -> (0 < IZR (2 ^ s))%R.
Proof. intros s H. rewrite pow_bpow by exact H. apply bpow_gt_0. Qed.

Lemma split_value : forall s i, 0 <= s -> (IZR (i / 2 ^ s) + IZR (i mod 2 ^ s) / IZR (2 ^ s) = IZR i / IZR (2 ^ s))%R.
Proof.
  intros s i H. pose proof (pow_pos' s H) as P. assert (N : 2 ^ s <> 0) by (apply Z.pow_nonzero; lia).
  pose proof (Z.div_mod i (2 ^ s) N) as D. apply (f_equal IZR) in D. rewrite plus_IZR, mult_IZR in D. rewrite D. field. lra.
Qed.

Lemma to_float_round : forall s i, 0 <= s <= prec -> Z.abs (i / 2 ^ s) <= 2 ^ prec -> to_float prec emin s i = rnd (IZR i / IZR (2 ^ s)).
Proof.
  intros s i S0 Q. unfold to_float, SMIN. rewrite Z.max_l by lia. rewrite Z.sub_0_r, Z.pow_0_r, Z.div_1_r.
  assert (P : 0 < 2 ^ s) by (apply Z.pow_pos_nonneg; lia). pose proof (Z.mod_pos_bound i (2 ^ s) P) as M.
  assert (2 ^ s <= 2 ^ prec) by (apply Z.pow_le_mono_r; lia).
  rewrite (rnd_float (IZR (i / 2 ^ s))) by (apply float_Z; lia).
  rewrite (rnd_float (IZR (i mod 2 ^ s))) by (apply float_Z; lia).
  rewrite (rnd_float (IZR (2 ^ s))) by (apply float_pow; lia).
  rewrite (rnd_float (IZR (i mod 2 ^ s) / IZR (2 ^ s))%R).
  - rewrite split_value by lia. reflexivity.
  - unfold Rdiv. rewrite <- bneg by lia. apply float_scaled; lia.
Qed.

(** A number of [w] bits is converted to the nearest number of the type, if the type has room for its integer part and for its fraction. *)
Lemma nearest_ok : forall w s i, 0 <= s <= prec -> s < w -> w - 1 - s <= prec -> - 2 ^ (w - 1) <= i < 2 ^ (w - 1) ->
  to_float prec emin s i = rnd (IZR i / IZR (2 ^ s)).
Proof.
  intros w s i S0 SW W I. apply to_float_round; [lia|].
  assert (P : 0 < 2 ^ s) by (apply Z.pow_pos_nonneg; lia). assert (L : 2 ^ (w - 1 - s) <= 2 ^ prec) by (apply Z.pow_le_mono_r; lia).
  assert (E : 2 ^ (w - 1) = 2 ^ (w - 1 - s) * 2 ^ s) by (rewrite <- Z.pow_add_r by lia; f_equal; lia).
  assert (- 2 ^ (w - 1 - s) <= i / 2 ^ s) by (apply Z.div_le_lower_bound; lia).
  assert (i / 2 ^ s < 2 ^ (w - 1 - s)) by (apply Z.div_lt_upper_bound; lia). lia.
Qed.

Lemma small_div : forall s i b, 0 <= s -> 0 < b -> Z.abs i <= b -> Z.abs (i / 2 ^ s) <= b.
Proof.
  intros s i b S0 B I. assert (P : 0 < 2 ^ s) by (apply Z.pow_pos_nonneg; lia).
  assert (- b <= i / 2 ^ s) by (apply Z.div_le_lower_bound; nia). assert (i / 2 ^ s <= b) by (apply Z.div_le_upper_bound; nia). lia.
Qed.

(** Up to the precision of the type the conversion is exact, and leads back. *)
Lemma exact_ok : forall s i, 0 <= s <= prec -> Z.abs i <= 2 ^ prec -> to_float prec emin s i = (IZR i / IZR (2 ^ s))%R.
Proof.
  intros s i S0 I. assert (P : 0 < 2 ^ prec) by (apply Z.pow_pos_nonneg; lia). rewrite to_float_round by (try apply small_div; lia).
  apply rnd_float. unfold Rdiv. rewrite <- bneg by lia. apply float_scaled; lia.
Qed.

Lemma product_exact : forall s f, 0 <= s -> float f -> rnd (f * rnd (IZR (2 ^ s))) = (f * IZR (2 ^ s))%R.
Proof.
  intros s f S0 F. rewrite (rnd_float (IZR (2 ^ s))) by (apply float_pow; lia). apply rnd_float.
  apply FLT_format_generic in F; [|exact prec_pos]. destruct F as [[m e] E M L]. cbn [Fnum Fexp] in *. subst f. rewrite pow_bpow by exact S0.
  unfold F2R. cbn [Fnum Fexp]. rewrite Rmult_assoc, <- bpow_plus. apply float_scaled; [|lia].
  change (Zpower radix2 prec) with (2 ^ prec) in M. lia.
Qed.

Lemma trunc_near : forall x, (Rabs (IZR (Ztrunc x)) <= Rabs x)%R /\ (Rabs (x - IZR (Ztrunc x)) < 1)%R.
Proof.
  intros x. destruct (Rle_or_lt 0 x) as [H|H].
  - rewrite Ztrunc_floor by exact H. pose proof (Zfloor_lb x) as A. pose proof (Zfloor_ub x) as B.
    assert (0 <= IZR (Zfloor x))%R by (apply IZR_le; apply Zfloor_lub; exact H).
    rewrite !Rabs_pos_eq by lra. lra.
  - rewrite Ztrunc_ceil by lra. pose proof (Zceil_ub x) as A. pose proof (Zceil_lb x) as B.
    assert (IZR (Zceil x) <= 0)%R by (apply IZR_le; apply Zceil_glb; lra).
    rewrite (Rabs_left1 (IZR _)), (Rabs_left x), (Rabs_left1 (x - _)%R) by lra. lra.
Qed.

(** From a number of the type: the result is the nearest one towards zero. *)
Lemma from_ok : forall w s f, 0 <= s -> float f ->
  (forall z, from_float prec emin w s f = Ok z ->
     - 2 ^ (w - 1) <= z < 2 ^ (w - 1) /\ (Rabs (IZR z / IZR (2 ^ s)) <= Rabs f)%R /\ (Rabs (f - IZR z / IZR (2 ^ s)) < / IZR (2 ^ s))%R) /\
  ((- IZR (2 ^ (w - 1)) <= f * IZR (2 ^ s) < IZR (2 ^ (w - 1)))%R -> exists z, from_float prec emin w s f = Ok z).
Proof.
  intros w s f S0 F. unfold from_float. rewrite product_exact by assumption. pose proof (pow_pos' s S0) as P. split.
  - intros z E. destruct (andb _ _) eqn:C; [|discriminate]. injection E as <-. apply andb_true_iff in C. split; [lia|].
    destruct (trunc_near (f * IZR (2 ^ s))) as [A B]. set (z := Ztrunc (f * IZR (2 ^ s))) in *. clearbody z.
    assert (I : (0 < / IZR (2 ^ s))%R) by (apply Rinv_0_lt_compat; exact P). split.
    + unfold Rdiv. rewrite Rabs_mult, (Rabs_pos_eq (/ _)) by lra. rewrite Rabs_mult, (Rabs_pos_eq (IZR (2 ^ s))) in A by lra.
      apply (Rmult_le_compat_r (/ IZR (2 ^ s))) in A; [|lra]. rewrite Rmult_assoc, Rinv_r, Rmult_1_r in A by lra. exact A.
    + replace (f - IZR z / IZR (2 ^ s))%R with ((f * IZR (2 ^ s) - IZR z) * / IZR (2 ^ s))%R by (field; lra).
      rewrite Rabs_mult, (Rabs_pos_eq (/ _)) by lra. rewrite <- (Rmult_1_l (/ IZR (2 ^ s))) at 2. apply Rmult_lt_compat_r; assumption.
  - intros [A B]. set (x := (f * IZR (2 ^ s))%R) in *. exists (Ztrunc x).
    assert (- 2 ^ (w - 1) <= Ztrunc x < 2 ^ (w - 1)) as R.
    { destruct (Rle_or_lt 0 x) as [H|H].
      - rewrite Ztrunc_floor by exact H. assert (0 <= Zfloor x) by (apply Zfloor_lub; exact H).
        assert (Zfloor x < 2 ^ (w - 1)). { apply lt_IZR. pose proof (Zfloor_lb x). lra. }
        assert (0 < 2 ^ (w - 1)) by (apply lt_IZR; lra). lia.
      - rewrite Ztrunc_ceil by lra. rewrite <- opp_IZR in A. assert (- 2 ^ (w - 1) <= Zceil x). { apply le_IZR. pose proof (Zceil_ub x). lra. }
        assert (Zceil x <= 0) by (apply Zceil_glb; lra). assert (0 < 2 ^ (w - 1)) by (apply lt_IZR; rewrite opp_IZR in A; lra). lia. }
    replace (andb _ _) with true by (symmetry; apply andb_true_iff; lia). reflexivity.
Qed.

Lemma back_ok : forall w s i, 0 <= s <= prec -> Z.abs i <= 2 ^ prec -> - 2 ^ (w - 1) <= i < 2 ^ (w - 1) ->
  from_float prec emin w s (to_float prec emin s i) = Ok i.
Proof.
  intros w s i S0 A I. rewrite exact_ok by assumption. unfold from_float. pose proof (pow_pos' s ltac:(lia)) as P. rewrite product_exact; [|lia|].
  - replace (IZR i / IZR (2 ^ s) * IZR (2 ^ s))%R with (IZR i) by (field; lra). rewrite Ztrunc_IZR.
    replace (andb _ _) with true by (symmetry; apply andb_true_iff; lia). reflexivity.
  - unfold Rdiv. rewrite <- bneg by lia. apply float_scaled; lia.
Qed.

(** Bits of the fraction beyond the precision are dropped even when the type has room for them: the smallest positive number becomes 0. *)
Lemma dropped : forall s, prec < s -> emin <= - s -> to_float prec emin s 1 = 0%R /\ rnd (IZR 1 / IZR (2 ^ s)) = (/ IZR (2 ^ s))%R /\ (0 < / IZR (2 ^ s))%R.
Proof.
  intros s L E. assert (P : 1 < 2 ^ s) by (apply Z.pow_gt_1; lia). pose proof (pow_pos' s ltac:(lia)) as PR.
  split; [|split; [|apply Rinv_0_lt_compat; exact PR]].
  - unfold to_float, SMIN. rewrite Z.max_r by lia. rewrite (Z.div_small 1 (2 ^ s)), (Z.mod_small 1 (2 ^ s)) by lia.
    rewrite (Z.div_small 1) by (split; [lia|apply Z.pow_gt_1; lia]). unfold FixedFloat.rnd.
    rewrite !round_0 by (apply valid_rnd_N). unfold Rdiv. rewrite Rmult_0_l, round_0 by (apply valid_rnd_N). rewrite Rplus_0_l. apply round_0. apply valid_rnd_N.
  - unfold Rdiv. rewrite Rmult_1_l. apply rnd_float. rewrite <- bneg by lia. rewrite <- (Rmult_1_l (bpow _ _)). apply float_scaled; [|lia].
    assert (0 < 2 ^ prec) by (apply Z.pow_pos_nonneg; lia). lia.
Qed.

(** Rounding a number between 2^prec and twice that. *)
Lemma round_above : forall x m, (IZR (2 ^ prec) <= x < IZR (2 ^ (prec + 1)))%R -> ZnearestE (x / 2) = m -> rnd x = (IZR m * 2)%R.
Proof.
  intros x m [A B] E. unfold FixedFloat.rnd, round.
  assert (C : cexp radix2 fexp x = 1).
  { unfold cexp. rewrite (mag_unique radix2 x (prec + 1)). { unfold FLT_exp. lia. }
    rewrite Rabs_pos_eq by (pose proof (pow_pos' prec ltac:(lia)); lra).
    replace (prec + 1 - 1) with prec by lia. rewrite <- !pow_bpow by lia. lra. }
  unfold scaled_mantissa. rewrite C. unfold F2R. cbn [Fnum Fexp]. change (bpow radix2 1) with 2%R. change (bpow radix2 (- (1))) with (/ 2)%R.
  change (x * / 2)%R with (x / 2)%R. rewrite E. reflexivity.
Qed.

Lemma twice : forall s, 1 <= s ->
  let i := (2 ^ prec + 1) * 2 ^ s + (2 ^ s - 1) in
  to_float prec emin s i = IZR (2 ^ prec) /\ rnd (IZR i / IZR (2 ^ s)) = (IZR (2 ^ prec) + 2)%R \/ prec < s.
Proof.
  intros s S1 i. destruct (Z_le_gt_dec s prec) as [SP|SP]; [left|right; lia].
  assert (P : 2 <= 2 ^ s) by (change 2 with (2 ^ 1) at 1; apply Z.pow_le_mono_r; lia).
  assert (Q : i / 2 ^ s = 2 ^ prec + 1) by (unfold i; rewrite Z.add_comm, Z.div_add, Z.div_small by lia; lia).
  assert (M : i mod 2 ^ s = 2 ^ s - 1) by (unfold i; rewrite Z.add_comm, Z.mod_add, Z.mod_small by lia; lia).
  assert (H2 : 2 ^ prec = 2 * 2 ^ (prec - 1)) by (rewrite <- Z.pow_succ_r by lia; f_equal; lia).
  assert (H4 : 2 ^ (prec - 1) = 2 * 2 ^ (prec - 2)) by (rewrite <- Z.pow_succ_r by lia; f_equal; lia).
  assert (H3 : 2 ^ (prec + 1) = 2 * 2 ^ prec) by (rewrite <- Z.pow_succ_r by lia; f_equal; lia).
  assert (H1 : 1 <= 2 ^ (prec - 2)) by (apply (Z.pow_le_mono_r 2 0); lia).
  pose proof (pow_pos' s ltac:(lia)) as PR. pose proof (IZR_le _ _ P) as PL.
  assert (K : (IZR (2 ^ s - 1) / IZR (2 ^ s) = 1 - / IZR (2 ^ s))%R) by (rewrite minus_IZR; field; lra).
  assert (I0 : (0 < / IZR (2 ^ s) <= / 2)%R) by (split; [apply Rinv_0_lt_compat; exact PR|apply Rinv_le_contravar; lra]).
  assert (R2 : (IZR (2 ^ prec) = 2 * IZR (2 ^ (prec - 1)))%R) by (rewrite H2, mult_IZR; reflexivity).
  assert (R3 : (IZR (2 ^ (prec + 1)) = 2 * IZR (2 ^ prec))%R) by (rewrite H3, mult_IZR; reflexivity).
  assert (R1 : (2 <= IZR (2 ^ (prec - 1)))%R) by (apply (IZR_le 2); lia).
  assert (V : (IZR i / IZR (2 ^ s) = IZR (2 ^ prec) + 1 + (1 - / IZR (2 ^ s)))%R) by (rewrite <- split_value, Q, M, K, plus_IZR by lia; reflexivity).
  split.
  - unfold to_float, SMIN. rewrite Z.max_l by lia. rewrite Z.sub_0_r, Z.pow_0_r, Z.div_1_r, Q, M.
    assert (LL : 2 ^ s <= 2 ^ prec) by (apply Z.pow_le_mono_r; lia).
    rewrite (rnd_float (IZR (2 ^ s - 1))) by (apply float_Z; lia).
    rewrite (rnd_float (IZR (2 ^ s))) by (apply float_pow; lia).
    rewrite (rnd_float (IZR (2 ^ s - 1) / IZR (2 ^ s))%R) by (unfold Rdiv; rewrite <- bneg by lia; apply float_scaled; lia).
    rewrite K.
    assert (E1 : rnd (IZR (2 ^ prec + 1)) = IZR (2 ^ prec)).
    { rewrite (round_above _ (2 ^ (prec - 1))); [rewrite R2; ring|rewrite plus_IZR; lra|].
      replace (IZR (2 ^ prec + 1) / 2)%R with (IZR (2 ^ (prec - 1)) + / 2)%R by (rewrite plus_IZR, R2; lra).
      unfold Znearest. rewrite (Zfloor_imp (2 ^ (prec - 1))) by (rewrite plus_IZR; lra).
      rewrite Rcompare_Eq by lra. rewrite H4, Z.even_mul. reflexivity. }
    rewrite E1. rewrite (round_above _ (2 ^ (prec - 1))); [rewrite R2; ring|lra|]. apply Znearest_imp. apply Rabs_lt. lra.
  - rewrite V. rewrite (round_above _ (2 ^ (prec - 1) + 1)); [rewrite plus_IZR, R2; ring|lra|]. apply Znearest_imp. rewrite plus_IZR. apply Rabs_lt. lra.
Qed.
End P.

(** The specification: the number nearest to x in a floating-point type of the given precision and least exponent, ties to even, which is what
    IEEE 754 asks of a single operation. *)
Definition nearest (prec emin : Z) (x : R) : R := round radix2 (FLT_exp emin prec) ZnearestE x.
Definition value (s i : Z) : R := (IZR i / IZR (2 ^ s))%R.

(** To float or double: the nearest number, if the integer part and the fraction each fit the precision: for 32 bits always with double, and with float if the
    fraction has 7 to 24 bits; for 64 bits with double if the fraction has 10 to 53. *)
Theorem C190_to_float_partial : forall prec emin w s i, 1 < prec -> emin <= - prec ->
  0 <= s <= prec -> s < w -> w - 1 - s <= prec -> - 2 ^ (w - 1) <= i < 2 ^ (w - 1) ->
  to_float prec emin s i = nearest prec emin (value s i).
Proof. intros prec emin w s i P E S0 SW W I. apply (nearest_ok prec emin P E w); assumption. Qed.
Print Assumptions C190_to_float_partial.

(** There and back: the same number, if it has at most as many bits as the precision. *)
Theorem C190_round_trip_partial : forall prec emin w s i, 1 < prec -> emin <= - prec ->
  0 <= s <= prec -> Z.abs i <= 2 ^ prec -> - 2 ^ (w - 1) <= i < 2 ^ (w - 1) ->
  to_float prec emin s i = value s i /\ from_float prec emin w s (to_float prec emin s i) = Ok i.
Proof. intros prec emin w s i P E S0 A I. split; [apply exact_ok; assumption|apply back_ok; assumption]. Qed.
Print Assumptions C190_round_trip_partial.

(** From float or double: the next number towards zero, whenever there is one. *)
Theorem C190_from_float : forall prec emin w s f, 1 < prec -> emin <= - prec -> 0 <= s -> generic_format radix2 (FLT_exp emin prec) f ->
  (forall z, from_float prec emin w s f = Ok z ->
     - 2 ^ (w - 1) <= z < 2 ^ (w - 1) /\ (Rabs (value s z) <= Rabs f)%R /\ (Rabs (f - value s z) < / IZR (2 ^ s))%R) /\
  ((- IZR (2 ^ (w - 1)) <= f * IZR (2 ^ s) < IZR (2 ^ (w - 1)))%R -> exists z, from_float prec emin w s f = Ok z).
Proof. intros prec emin w s f P E S0 F. apply from_ok; assumption. Qed.
Print Assumptions C190_from_float.

(** Otherwise the result is not the nearest.  With more bits in the fraction than the precision, the smallest number becomes 0, which has no need to be rounded
    at all; with too few, the integer part is rounded before the fraction is added. *)
Theorem C190_to_float_refuted : forall prec emin s, 1 < prec -> emin <= - prec ->
  (prec < s -> emin <= - s -> to_float prec emin s 1 = 0%R /\ nearest prec emin (value s 1) = value s 1 /\ (0 < value s 1)%R) /\
  (1 <= s <= prec -> let i := (2 ^ prec + 1) * 2 ^ s + (2 ^ s - 1) in
     to_float prec emin s i = IZR (2 ^ prec) /\ nearest prec emin (value s i) = (IZR (2 ^ prec) + 2)%R).
Proof.
  intros prec emin s P E. split.
  - intros L M. destruct (dropped prec emin P s L M) as [A [B C]]. split; [exact A|].
    assert (V : value s 1 = (/ IZR (2 ^ s))%R) by (unfold value, Rdiv; apply Rmult_1_l). unfold value in V. unfold value at 1 2 3. rewrite V in *. auto.
  - intros L i. destruct (twice prec emin P E s (proj1 L)) as [A|A]; [exact A|lia].
Qed.
Print Assumptions C190_to_float_refuted.

(** Fixed<12> in 32 bits, to float; Fixed<30> and Fixed<4> to float fail, the latter with a number of 29 bits. *)
Example C190_example :
  to_float 24 (-149) 12 6144 = (3 / 2)%R /\ to_float 24 (-149) 30 1 = 0%R /\
  (2 ^ 24 + 1) * 2 ^ 4 + (2 ^ 4 - 1) < 2 ^ 31 /\ from_float 24 (-149) 32 12 (3 / 2) = Ok 6144.
Proof.
  assert (A : to_float 24 (-149) 12 6144 = (3 / 2)%R /\ from_float 24 (-149) 32 12 (to_float 24 (-149) 12 6144) = Ok 6144).
  { destruct (C190_round_trip_partial 24 (-149) 32 12 6144) as [U V]; try (cbn; lia). split; [|exact V].
    rewrite U. unfold value. change (2 ^ 12) with 4096. lra. }
  destruct A as [A B]. rewrite A in *. split; [reflexivity|]. split; [|split; [reflexivity|exact B]].
  apply (C190_to_float_refuted 24 (-149) 30); lia.
Qed.
