(* C204: the 64-bit division, the reciprocal and the shifts of fixed point numbers *)
From Coq Require Import ZArith Bool Lia Reals Lra.
From Verif Require Import Common BitUtil FixedPt FixedDiv.
Open Scope Z_scope.

(** the number that bits b with D of them behind the point stand for, and the range of the bits *)
Definition number (D b : Z) : R := (IZR b / IZR (2 ^ D))%R.
Definition inrange (w b : Z) : Prop := - 2 ^ (w - 1) <= b < 2 ^ (w - 1).

Lemma sarith_ok w x : inrange w x -> sarith w x = Ok x.
Proof. intros H. unfold sarith, in_signed. unfold inrange in H. destruct ((- 2 ^ (w - 1) <=? x) && (x <? 2 ^ (w - 1))) eqn:E; [reflexivity|]. lia. Qed.
Lemma sarith_ub w x : ~ inrange w x -> sarith w x = UB.
Proof. intros H. unfold sarith, in_signed. unfold inrange in H. destruct ((- 2 ^ (w - 1) <=? x) && (x <? 2 ^ (w - 1))) eqn:E; [lia|reflexivity]. Qed.
Lemma sgn_id w x : 0 < w -> inrange w x -> sgn w x = x.
Proof.
  intros W [A B]. unfold sgn. assert (P : 2 ^ w = 2 * 2 ^ (w - 1)) by (rewrite <- Z.pow_succ_r by lia; f_equal; lia). rewrite P. set (p := 2 ^ (w - 1)) in *.
  destruct (Z.le_gt_cases 0 x).
  - rewrite Z.mod_small by lia. destruct (Z.ltb_spec x p); lia.
  - replace (x mod (2 * p)) with (x + 2 * p); [destruct (Z.ltb_spec (x + 2 * p) p); lia|]. apply (Z.mod_unique_pos _ _ (-1)); lia.
Qed.
Lemma pow_pos' a : 0 <= a -> 0 < 2 ^ a.
Proof. intros. apply Z.pow_pos_nonneg; lia. Qed.
Lemma quot_facts n y : y <> 0 -> 0 < n -> Z.abs (n - Z.quot n y * y) < Z.abs y /\ Z.abs (Z.quot n y * y) <= n /\ Z.abs (Z.quot n y) <= n.
Proof.
  intros Y N. pose proof (Z.quot_rem' n y) as E. pose proof (Z.rem_bound_abs n y Y) as B. pose proof (Z.rem_nonneg n y Y ltac:(lia)) as P.
  assert (LE : Z.rem n y <= n) by (destruct (Z.lt_trichotomy y 0) as [H|[H|H]]; [rewrite <- Z.rem_opp_r by lia|lia|]; apply Z.rem_le; lia).
  split; [lia|]. split; [nia|]. assert (Z.abs (Z.quot n y) * 1 <= Z.abs (Z.quot n y) * Z.abs y) by (apply Z.mul_le_mono_nonneg_l; lia). rewrite <- Z.abs_mul in H. nia.
Qed.
Lemma recip_ok w y : 2 <= w -> y <> 0 -> fixedpt_recip w y = Ok (Z.quot (2 ^ (w - 2)) y).
Proof.
  intros W Y. unfold fixedpt_recip. destruct (Z.eqb_spec y 0); [contradiction|]. apply sarith_ok. destruct (quot_facts (2 ^ (w - 2)) y Y (pow_pos' (w - 2) ltac:(lia))) as [_ [_ B]].
  assert (2 ^ (w - 1) = 2 * 2 ^ (w - 2)) by (rewrite <- Z.pow_succ_r by lia; f_equal; lia). pose proof (pow_pos' (w - 2) ltac:(lia)). unfold inrange. lia.
Qed.

Local Open Scope R_scope.
Lemma frac_bound a b c : (Z.abs a < Z.abs b)%Z -> Rabs (IZR c * (IZR a / IZR b)) <= Rabs (IZR c).
Proof.
  intros H. rewrite Rabs_mult. rewrite <- (Rmult_1_r (Rabs (IZR c))) at 2. apply Rmult_le_compat_l; [apply Rabs_pos|].
  assert (NB : IZR b <> 0) by (apply not_0_IZR; lia). unfold Rdiv. rewrite Rabs_mult, Rabs_inv, <- !abs_IZR. apply (Rmult_le_reg_r (IZR (Z.abs b))); [apply IZR_lt; lia|].
  rewrite Rmult_assoc, Rinv_l by (apply not_0_IZR; lia). rewrite Rmult_1_r, Rmult_1_l. apply IZR_le. lia.
Qed.

(** The quotient of x, with D bits behind the point, by y, with B, is right up to one unit of the last place and one more for every 2^(w-2-B) in the bits of x, if it can be
    represented with room for the error: up to two units if x is that small.  What is missing: larger x *)
Theorem C204_div_partial w D B x y : (2 <= w)%Z -> (0 <= D < w)%Z -> (0 <= B <= w - 2)%Z -> y <> 0%Z ->
  let units := number D x / number B y * IZR (2 ^ D) in let error := 1 + Rabs (IZR x) / IZR (2 ^ (w - 2 - B)) in
  Rabs units + error < IZR (2 ^ (w - 1)) ->
  exists r, fixedpt_div64 w x y B = Ok r /\ Rabs (IZR r - units) <= error /\ ((Z.abs x <= 2 ^ (w - 2 - B))%Z -> Rabs (IZR r - units) <= 2).
Proof.
  intros W HD HB Y units error R. set (q := Z.quot (2 ^ (w - 2)) y). set (P := (2 ^ (w - 2 - B))%Z) in *.
  assert (PP : (0 < P)%Z) by (apply pow_pos'; lia). assert (PB : (0 < 2 ^ B)%Z) by (apply pow_pos'; lia). assert (PD : (0 < 2 ^ D)%Z) by (apply pow_pos'; lia).
  assert (PW : (2 ^ (w - 2) = P * 2 ^ B)%Z) by (unfold P; rewrite <- Z.pow_add_r by lia; f_equal; lia).
  assert (RP : 0 < IZR P) by (apply IZR_lt; exact PP). assert (RB : 0 < IZR (2 ^ B)) by (apply IZR_lt; exact PB). assert (RD : 0 < IZR (2 ^ D)) by (apply IZR_lt; exact PD). assert (RY : IZR y <> 0) by (now apply not_0_IZR).
  destruct (quot_facts (2 ^ (w - 2)) y Y (pow_pos' (w - 2) ltac:(lia))) as [F _]. fold q in F.
  assert (U : units = IZR x * IZR (2 ^ B) / IZR y) by (unfold units, number; field; lra).
  set (z := (x * q / P)%Z).
  assert (ZB : IZR z <= IZR x * IZR q / IZR P < IZR z + 1).
  { pose proof (Z.mul_div_le (x * q) P PP) as Z1. pose proof (Z.mul_succ_div_gt (x * q) P PP) as Z2. fold z in Z1, Z2. unfold Z.succ in Z2. apply IZR_le in Z1. apply IZR_lt in Z2. rewrite !mult_IZR in Z1, Z2. rewrite plus_IZR in Z2.
    split; [apply (Rmult_le_reg_r (IZR P)); [exact RP|]; unfold Rdiv; rewrite (Rmult_assoc (IZR x * IZR q)), Rinv_l by lra; lra|apply (Rmult_lt_reg_r (IZR P)); [exact RP|]; unfold Rdiv; rewrite (Rmult_assoc (IZR x * IZR q)), Rinv_l by lra; lra]. }
  assert (E : IZR x * IZR q / IZR P - units = - (IZR x * (IZR (2 ^ (w - 2) - q * y) / IZR y)) / IZR P).
  { rewrite U, minus_IZR, PW, !mult_IZR. field. lra. }
  pose proof (frac_bound _ _ x F) as FB. set (t := IZR x * (IZR (2 ^ (w - 2) - q * y) / IZR y)) in *.
  assert (EB : Rabs (IZR x * IZR q / IZR P - units) <= Rabs (IZR x) / IZR P).
  { rewrite E. unfold Rdiv. rewrite Rabs_mult, Rabs_Ropp, (Rabs_right (/ IZR P)) by (left; now apply Rinv_0_lt_compat). apply Rmult_le_compat_r; [left; now apply Rinv_0_lt_compat|exact FB]. }
  assert (ER : Rabs (IZR z - units) <= error).
  { unfold error. replace (IZR z - units) with ((IZR z - IZR x * IZR q / IZR P) + (IZR x * IZR q / IZR P - units)) by ring. eapply Rle_trans; [apply Rabs_triang|]. apply Rplus_le_compat; [|exact EB]. apply Rabs_le. lra. }
  assert (RZ : inrange w z).
  { assert (AZ : Rabs (IZR z) < IZR (2 ^ (w - 1))). { replace (IZR z) with (units + (IZR z - units)) by ring. eapply Rle_lt_trans; [apply Rabs_triang|]. lra. }
    rewrite <- abs_IZR in AZ. apply lt_IZR in AZ. unfold inrange. lia. }
  exists z. split; [|split; [exact ER|]].
  - unfold fixedpt_div64. rewrite recip_ok by assumption. cbn [bind]. destruct (Z.ltb_spec (w - 2 - B) 0); [lia|]. unfold fixedpt_mul, mulextract_native_s. destruct (Z.ltb_spec (w - 2 - B) (2 * w)); [|lia].
    rewrite Z.shiftr_div_pow2 by lia. fold P. fold q. fold z. rewrite sgn_id by (auto; lia). reflexivity.
  - intros XS. eapply Rle_trans; [exact ER|]. unfold error. assert (Rabs (IZR x) / IZR P <= 1); [|lra]. rewrite <- abs_IZR. apply (Rmult_le_reg_r (IZR P)); [exact RP|]. unfold Rdiv. rewrite Rmult_assoc, Rinv_l by lra. rewrite Rmult_1_r, Rmult_1_l. now apply IZR_le.
Qed.
Print Assumptions C204_div_partial.
(** Refuted: that only two bits of precision are lost: a number of more than 2^(w-2) bits, divided by itself, gives 0 *)
Theorem C204_div_refuted w B y : (2 <= w)%Z -> (0 <= B <= w - 2)%Z -> (2 ^ (w - 2) < y < 2 ^ (w - 1))%Z -> fixedpt_div64 w y y B = Ok 0%Z.
Proof.
  intros W HB Y. pose proof (pow_pos' (w - 2) ltac:(lia)). unfold fixedpt_div64. rewrite recip_ok by lia. cbn [bind]. rewrite Z.quot_small by lia. destruct (Z.ltb_spec (w - 2 - B) 0); [lia|].
  unfold fixedpt_mul, mulextract_native_s. destruct (Z.ltb_spec (w - 2 - B) (2 * w)); [|lia]. rewrite Z.mul_0_r, Z.shiftr_0_l. rewrite sgn_id; [reflexivity|lia|]. pose proof (pow_pos' (w - 1) ltac:(lia)). unfold inrange. lia.
Qed.
Print Assumptions C204_div_refuted.
(** Refuted: with all but one of the bits behind the point the division is undefined *)
Theorem C204_div_scale_refuted w x y : (2 <= w)%Z -> fixedpt_div64 w x y (w - 1) = UB.
Proof. intros W. unfold fixedpt_div64. destruct (Z.eq_dec y 0) as [->|Y]; [reflexivity|]. rewrite recip_ok by assumption. cbn [bind]. destruct (Z.ltb_spec (w - 2 - (w - 1)) 0); [reflexivity|lia]. Qed.
Print Assumptions C204_div_scale_refuted.

(** The reciprocal of x, with D bits behind the point, is right up to four units of the last of its w - D bits behind the point, and never further from 0 than the exact one.
    What is missing: the bits 1 and 2 *)
Theorem C204_reciprocal_partial w D x : (2 <= w)%Z -> (0 <= D < w)%Z -> (x <= -2 \/ 3 <= x)%Z ->
  exists r, Reciprocal w x = Ok r /\ Rabs (IZR r - / number D x * IZR (2 ^ (w - D))) < 4 /\ Rabs (number (w - D) r) <= Rabs (/ number D x).
Proof.
  intros W HD X. assert (Y : x <> 0%Z) by lia. pose proof (pow_pos' (w - 2) ltac:(lia)) as P2. destruct (quot_facts (2 ^ (w - 2)) x Y P2) as [F [G _]]. set (q := Z.quot (2 ^ (w - 2)) x) in *.
  assert (W1 : (2 ^ (w - 1) = 2 * 2 ^ (w - 2))%Z) by (rewrite <- Z.pow_succ_r by lia; f_equal; lia).
  assert (W0 : (2 ^ D * 2 ^ (w - D) = 4 * 2 ^ (w - 2))%Z) by (change 4%Z with (2 ^ 2)%Z; rewrite <- !Z.pow_add_r by lia; f_equal; lia).
  assert (QS : (Z.abs (4 * q) * Z.abs x <= 4 * 2 ^ (w - 2))%Z) by (rewrite <- Z.abs_mul; replace (4 * q * x)%Z with (4 * (q * x))%Z by ring; rewrite Z.abs_mul; change (Z.abs 4) with 4%Z; lia).
  assert (QR : inrange w (4 * q)).
  { unfold inrange. rewrite W1. destruct X as [X|X].
    - assert (q <= 0)%Z. { unfold q. rewrite <- (Z.opp_involutive x). rewrite Z.quot_opp_r by lia. pose proof (Z.quot_pos (2 ^ (w - 2)) (- x) ltac:(lia) ltac:(lia)). lia. }
      assert (Z.abs (4 * q) * 2 <= Z.abs (4 * q) * Z.abs x)%Z by (apply Z.mul_le_mono_nonneg_l; lia). lia.
    - assert (0 <= q)%Z by (unfold q; apply Z.quot_pos; lia). assert (Z.abs (4 * q) * 3 <= Z.abs (4 * q) * Z.abs x)%Z by (apply Z.mul_le_mono_nonneg_l; lia). lia. }
  assert (PD : 0 < IZR (2 ^ D)) by (apply IZR_lt, pow_pos'; lia). assert (PE : 0 < IZR (2 ^ (w - D))) by (apply IZR_lt, pow_pos'; lia). assert (RX : IZR x <> 0) by (now apply not_0_IZR).
  assert (PX : 0 < Rabs (IZR x)) by (now apply Rabs_pos_lt).
  assert (U : / number D x * IZR (2 ^ (w - D)) = IZR (4 * 2 ^ (w - 2)) / IZR x). { rewrite <- W0, mult_IZR. unfold number. field. lra. }
  exists (4 * q)%Z. split; [|split].
  - unfold Reciprocal. rewrite recip_ok by assumption. cbn [bind]. fold q. rewrite Z.shiftl_mul_pow2 by lia. rewrite Z.mul_comm. now apply sarith_ok.
  - rewrite U. replace (IZR (4 * q) - IZR (4 * 2 ^ (w - 2)) / IZR x) with (- (4 * (IZR (2 ^ (w - 2) - q * x) / IZR x))) by (rewrite minus_IZR, !mult_IZR; field; exact RX).
    rewrite Rabs_Ropp, Rabs_mult, (Rabs_right 4) by lra. assert (Rabs (IZR (2 ^ (w - 2) - q * x) / IZR x) < 1); [|lra]. unfold Rdiv. rewrite Rabs_mult, Rabs_inv. apply (Rmult_lt_reg_r (Rabs (IZR x))); [exact PX|]. rewrite Rmult_assoc, Rinv_l by lra.
    rewrite Rmult_1_r, Rmult_1_l, <- !abs_IZR. now apply IZR_lt.
  - assert (NX : number D x <> 0) by (unfold number; apply Rmult_integral_contrapositive_currified; [exact RX|apply Rinv_neq_0_compat; lra]). assert (V : / number D x = IZR (4 * 2 ^ (w - 2)) / IZR x / IZR (2 ^ (w - D))) by (rewrite <- U; field; repeat split; first [exact NX|lra]).
    rewrite V. unfold number, Rdiv. rewrite !Rabs_mult. apply Rmult_le_compat_r; [apply Rabs_pos|]. rewrite Rabs_inv. apply (Rmult_le_reg_r (Rabs (IZR x))); [exact PX|]. rewrite Rmult_assoc, Rinv_l by lra. rewrite Rmult_1_r, <- !abs_IZR, <- mult_IZR. apply IZR_le. rewrite (Z.abs_eq (4 * 2 ^ (w - 2))) by lia. exact QS.
Qed.
Print Assumptions C204_reciprocal_partial.
(** Refuted: the reciprocals of the two smallest positive numbers are undefined even where they can be represented, and so is that of 0 *)
Theorem C204_reciprocal_refuted w x : (3 <= w)%Z -> (0 <= x <= 2)%Z -> Reciprocal w x = UB.
Proof.
  intros W X. destruct (Z.eq_dec x 0) as [->|Y]; [reflexivity|]. unfold Reciprocal. rewrite recip_ok by lia. cbn [bind]. apply sarith_ub. rewrite Z.shiftl_mul_pow2 by lia. change (2 ^ 2)%Z with 4%Z. pose proof (pow_pos' (w - 3) ltac:(lia)).
  assert (W1 : (2 ^ (w - 1) = 4 * 2 ^ (w - 3))%Z) by (change 4%Z with (2 ^ 2)%Z; rewrite <- Z.pow_add_r by lia; f_equal; lia). assert (W2 : (2 ^ (w - 2) = 2 ^ (w - 3) * 2)%Z) by (rewrite Z.mul_comm, <- Z.pow_succ_r by lia; f_equal; lia).
  unfold inrange. rewrite W1, W2. assert (x = 1 \/ x = 2)%Z as [->| ->] by lia; [rewrite Z.quot_1_r|rewrite Z.quot_mul by lia]; lia.
Qed.
Print Assumptions C204_reciprocal_refuted.

(** A shift to the left multiplies by a power of two, exactly if the result can be represented and undefined otherwise; one to the right divides, down to the unit below *)
Theorem C204_shift w D x r : (0 <= D < w)%Z -> (0 <= r < w)%Z -> inrange w x ->
  (inrange w (x * 2 ^ r) -> exists z, shl w x r = Ok z /\ number D z = number D x * IZR (2 ^ r)) /\ (~ inrange w (x * 2 ^ r) -> shl w x r = UB) /\
  exists z, shr w x r = Ok z /\ inrange w z /\ IZR z <= number D x / IZR (2 ^ r) * IZR (2 ^ D) < IZR z + 1.
Proof.
  intros HD HR HX. assert (C : ((0 <=? r) && (r <? w))%Z = true) by lia. assert (PR : (0 < 2 ^ r)%Z) by (apply pow_pos'; lia). assert (PD : 0 < IZR (2 ^ D)) by (apply IZR_lt, pow_pos'; lia). assert (PE : 0 < IZR (2 ^ r)) by (now apply IZR_lt).
  unfold shl, shr. rewrite C. rewrite Z.shiftl_mul_pow2, Z.shiftr_div_pow2 by lia. split; [|split].
  - intros H. exists (x * 2 ^ r)%Z. split; [now apply sarith_ok|]. unfold number. rewrite mult_IZR. field. lra.
  - intros H. now apply sarith_ub.
  - exists (x / 2 ^ r)%Z. split; [reflexivity|]. pose proof (Z.mul_div_le x (2 ^ r) PR) as Z1. pose proof (Z.mul_succ_div_gt x (2 ^ r) PR) as Z2. set (z := (x / 2 ^ r)%Z) in *. split.
    + unfold inrange in *. pose proof (pow_pos' (w - 1) ltac:(lia)) as PW. split; [apply Z.div_le_lower_bound; [lia|nia]|apply Z.div_lt_upper_bound; [lia|nia]].
    + replace (number D x / IZR (2 ^ r) * IZR (2 ^ D)) with (IZR x / IZR (2 ^ r)) by (unfold number; field; lra). unfold Z.succ in Z2. apply IZR_le in Z1. apply IZR_lt in Z2. rewrite mult_IZR in Z1, Z2. rewrite plus_IZR in Z2.
      split; [apply (Rmult_le_reg_r (IZR (2 ^ r))); [exact PE|]; unfold Rdiv; rewrite Rmult_assoc, Rinv_l by lra; lra|apply (Rmult_lt_reg_r (IZR (2 ^ r))); [exact PE|]; unfold Rdiv; rewrite Rmult_assoc, Rinv_l by lra; lra].
Qed.
Print Assumptions C204_shift.

(** with 32 of 64 bits behind the point: 1/8 divided by 1/2; 7 divided by 3, nine units off; 2^31 - 1 divided by itself; with 16 of 32: the reciprocal of 3 and 1.5 shifted *)
Example C204_example :
  fixedpt_div64 64 (2 ^ 29) (2 ^ 31) 32 = Ok (2 ^ 30)%Z /\ fixedpt_div64 64 (7 * 2 ^ 32) (3 * 2 ^ 32) 32 = Ok 10021590348%Z /\ Z.quot (7 * 2 ^ 32) 3 = 10021590357%Z /\
  fixedpt_div64 64 (2147483647 * 2 ^ 32) (2147483647 * 2 ^ 32) 32 = Ok 0%Z /\ Reciprocal 32 (3 * 2 ^ 16) = Ok 21844%Z /\ shl 32 98304 2 = Ok 393216%Z /\ shr 32 98304 1 = Ok 49152%Z.
Proof. vm_compute. repeat split; reflexivity. Qed.
