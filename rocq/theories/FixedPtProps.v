(* Property C59: fixed point arithmetic is correctly scaled. *)
From Coq Require Import ZArith Lia Bool QArith Qround.
From Coq Require Import ZifyBool.
From Verif Require Import Common BitUtil FixedPt.
Local Open Scope Z_scope.

(* --- specification --- *)
(* the number represented by the bits b at scale D *)
Definition value (D b : Z) : Q := b # Z.to_pos (2 ^ D).
(* b is a value of the signed type of w bits *)
Definition inrange (w b : Z) : Prop := - 2 ^ (w - 1) <= b < 2 ^ (w - 1).
Definition scaled (D : Z) (q : Q) : Q := (q * inject_Z (2 ^ D))%Q.
Definition trunc (q : Q) : Z := if Qlt_le_dec q 0 then Qceiling q else Qfloor q.   (* towards zero *)

(* --- proofs --- *)
Lemma pow_pos D : 0 <= D -> Z.pos (Z.to_pos (2 ^ D)) = 2 ^ D.
Proof. intros H. apply Z2Pos.id. apply Z.pow_pos_nonneg; lia. Qed.
Lemma in_signed_spec w x : in_signed w x = true <-> inrange w x.
Proof. unfold in_signed, inrange. rewrite andb_true_iff, Z.leb_le, Z.ltb_lt. reflexivity. Qed.
Lemma sarith_ok w x : inrange w x -> sarith w x = Ok x.
Proof. intros H. apply in_signed_spec in H. unfold sarith. rewrite H. reflexivity. Qed.
Lemma sgn_id w x : 0 < w -> inrange w x -> sgn w x = x.
Proof.
  intros Hw [H1 H2]. assert (E : 2 ^ w = 2 * 2 ^ (w - 1)) by (rewrite <- Z.pow_succ_r by lia; f_equal; lia). unfold sgn. assert (0 < 2 ^ (w - 1)) by (apply Z.pow_pos_nonneg; lia).
  destruct (Z_lt_le_dec x 0) as [N|N].
  - assert (Em : x mod 2 ^ w = x + 2 ^ w) by (symmetry; apply (Z.mod_unique_pos x (2 ^ w) (-1)); lia). rewrite Em. destruct (Z.ltb_spec (x + 2 ^ w) (2 ^ (w - 1))); lia.
  - rewrite Z.mod_small by lia. destruct (Z.ltb_spec x (2 ^ (w - 1))); lia.
Qed.
Lemma floor_sum D B x y : 0 <= D -> 0 <= B -> Qfloor (scaled D (value D x + value B y)) = x + y * 2 ^ D / 2 ^ B.
Proof.
  intros HD HB. unfold scaled, value, Qplus, Qmult, inject_Z, Qfloor. cbn [Qnum Qden]. rewrite !Pos2Z.inj_mul, !pow_pos by assumption. assert (0 < 2 ^ D) by (apply Z.pow_pos_nonneg; lia). assert (0 < 2 ^ B) by (apply Z.pow_pos_nonneg; lia).
  rewrite Z.mul_1_r, (Z.mul_comm (2 ^ D) (2 ^ B)), Z.div_mul_cancel_r by lia. rewrite Z.add_comm, Z.div_add by lia. lia.
Qed.
Lemma floor_prod D B x y : 0 <= D -> 0 <= B -> Qfloor (scaled D (value D x * value B y)) = x * y / 2 ^ B.
Proof.
  intros HD HB. unfold scaled, value, Qmult, inject_Z, Qfloor. cbn [Qnum Qden]. rewrite !Pos2Z.inj_mul, !pow_pos by assumption. assert (0 < 2 ^ D) by (apply Z.pow_pos_nonneg; lia). assert (0 < 2 ^ B) by (apply Z.pow_pos_nonneg; lia).
  rewrite Z.mul_1_r, (Z.mul_comm (2 ^ D) (2 ^ B)), Z.div_mul_cancel_r by lia. reflexivity.
Qed.
Lemma trunc_quot q : trunc q = Z.quot (Qnum q) (Z.pos (Qden q)).
Proof.
  unfold trunc. destruct q as [n d]. destruct (Qlt_le_dec (n # d) 0) as [L|L]; cbn [Qnum Qden].
  - unfold Qlt in L. cbn in L. unfold Qceiling, Qfloor, Qopp. cbn [Qnum Qden]. rewrite <- (Z.opp_involutive n) at 2. rewrite Z.quot_opp_l by lia. rewrite Z.quot_div_nonneg by lia. reflexivity.
  - unfold Qle in L. cbn in L. unfold Qfloor. rewrite Z.quot_div_nonneg by lia. reflexivity.
Qed.
Lemma trunc_quotient D B x y : 0 <= D -> 0 <= B -> y <> 0 -> trunc (scaled D (value D x / value B y)) = Z.quot (x * 2 ^ B) y.
Proof.
  intros HD HB Hy. assert (0 < 2 ^ D) by (apply Z.pow_pos_nonneg; lia). assert (0 < 2 ^ B) by (apply Z.pow_pos_nonneg; lia).
  rewrite trunc_quot. unfold scaled, value, Qdiv, Qinv, Qmult, inject_Z. cbn [Qnum Qden]. destruct y as [|y|y]; [congruence|..]; cbn [Qnum Qden]; rewrite !Pos2Z.inj_mul, !pow_pos by assumption; rewrite Z.mul_1_r.
  - rewrite (Z.mul_comm (2 ^ D)), Z.quot_mul_cancel_r by lia. reflexivity.
  - rewrite (Z.mul_comm (2 ^ D)), Z.quot_mul_cancel_r by lia. rewrite <- (Z.quot_opp_opp _ (Z.neg y)) by lia. cbn [Z.opp]. f_equal. rewrite <- Z.mul_opp_r. f_equal. rewrite <- (pow_pos B HB). reflexivity.
Qed.
Lemma shift_ok w D B y : 0 <= D -> 0 <= B -> D < w -> B < w -> inrange w (y * 2 ^ D / 2 ^ B) -> SafeShift w (D - B) y = Ok (y * 2 ^ D / 2 ^ B).
Proof.
  intros HD HB HDw HBw R. assert (PB : 0 < 2 ^ B) by (apply Z.pow_pos_nonneg; lia). assert (PD : 0 < 2 ^ D) by (apply Z.pow_pos_nonneg; lia). unfold SafeShift. destruct (Z.ltb_spec 0 (D - B)) as [L|L]; [|destruct (Z.ltb_spec (D - B) 0) as [L'|L']].
  - destruct (Z.ltb_spec (D - B) w); [|lia]. rewrite Z.shiftl_mul_pow2 by lia. assert (E : y * 2 ^ D / 2 ^ B = y * 2 ^ (D - B)).
    { replace (2 ^ D) with (2 ^ (D - B) * 2 ^ B) by (rewrite <- Z.pow_add_r by lia; f_equal; lia). rewrite Z.mul_assoc, Z.div_mul by lia. reflexivity. }
    rewrite E in *. apply sarith_ok. exact R.
  - destruct (Z.ltb_spec (- (D - B)) w); [|lia]. rewrite Z.shiftr_div_pow2 by lia. f_equal.
    replace (2 ^ B) with (2 ^ (- (D - B)) * 2 ^ D) by (rewrite <- Z.pow_add_r by lia; f_equal; lia). rewrite Z.div_mul_cancel_r by lia. reflexivity.
  - replace B with D by lia. rewrite Z.div_mul by lia. reflexivity.
Qed.
Lemma value_inj D x y : 0 <= D -> (value D x == value D y)%Q <-> x = y.
Proof. intros H. unfold value, Qeq. cbn [Qnum Qden]. split; [|intros ->; reflexivity]. intros E. eapply Z.mul_reg_r; [|exact E]. discriminate. Qed.
Lemma floor_value D b : 0 <= D -> Qfloor (scaled D (value D b)) = b.
Proof. intros H. unfold scaled, value, Qmult, inject_Z, Qfloor. cbn [Qnum Qden]. rewrite Pos2Z.inj_mul, pow_pos, Z.mul_1_r by exact H. apply Z.div_mul. assert (0 < 2 ^ D) by (apply Z.pow_pos_nonneg; lia). lia. Qed.
Lemma scaled_comp D a b : (a == b)%Q -> (scaled D a == scaled D b)%Q.
Proof. intros E. unfold scaled. rewrite E. reflexivity. Qed.

(* C59, + and - between scales: the result is the floor, at the left scale, of the exact result - hence exact whenever
   the exact result is representable at the left scale *)
Theorem C59_add_sub : forall w D B x y, 0 <= D < w -> 0 <= B < w -> inrange w x -> inrange w y ->
  (inrange w (Qfloor (scaled D (value B y))) -> inrange w (Qfloor (scaled D (value D x + value B y))) ->
     exists r, add w D B x y = Ok r /\ r = Qfloor (scaled D (value D x + value B y)) /\
       forall e, (value D e == value D x + value B y)%Q -> (value D r == value D x + value B y)%Q) /\
  (inrange w (- y) -> inrange w (Qfloor (scaled D (- value B y))) -> inrange w (Qfloor (scaled D (value D x - value B y))) ->
     exists r, sub w D B x y = Ok r /\ r = Qfloor (scaled D (value D x - value B y)) /\
       forall e, (value D e == value D x - value B y)%Q -> (value D r == value D x - value B y)%Q).
Proof.
  intros w D B x y HD HB Hx Hy.
  assert (E0 : forall y, Qfloor (scaled D (value B y)) = y * 2 ^ D / 2 ^ B).
  { intros z. rewrite <- (Z.add_0_l (z * 2 ^ D / 2 ^ B)), <- (floor_sum D B 0 z) by lia. apply Qfloor_comp, scaled_comp. unfold value at 2, Qeq, Qplus. cbn [Qnum Qden]. unfold value. cbn [Qnum Qden]. rewrite !Pos2Z.inj_mul. lia. }
  assert (Eo : (- value B y == value B (- y))%Q) by reflexivity.
  assert (Es : (value D x - value B y == value D x + value B (- y))%Q) by reflexivity.
  assert (Ex : forall q r, r = Qfloor (scaled D q) -> forall e, (value D e == q)%Q -> (value D r == q)%Q).
  { intros q r -> e He. rewrite <- He at 2. apply value_inj; [lia|]. rewrite <- (Qfloor_comp _ _ (scaled_comp D _ _ He)). apply floor_value. lia. }
  split.
  - intros R1 R2. rewrite E0 in R1. eexists. split; [|split; [reflexivity|apply Ex; reflexivity]]. unfold add, fixedpt_add. rewrite shift_ok by (auto; lia). cbn [bind]. rewrite floor_sum in * by lia. apply sarith_ok. exact R2.
  - intros Rn R1 R2. rewrite (Qfloor_comp _ _ (scaled_comp D _ _ Eo)), E0 in R1. rewrite (Qfloor_comp _ _ (scaled_comp D _ _ Es)) in R2. eexists. split; [|split; [reflexivity|apply Ex; reflexivity]].
    rewrite (Qfloor_comp _ _ (scaled_comp D _ _ Es)). unfold sub, fixedpt_add. rewrite (sarith_ok w (- y)) by exact Rn. cbn [bind]. rewrite shift_ok by (auto; lia). cbn [bind]. rewrite floor_sum in * by lia. apply sarith_ok. exact R2.
Qed.
Print Assumptions C59_add_sub.
(* C59, same scale: +, - and unary - are exact; comparisons compare the numbers *)
Theorem C59_same_scale : forall w D x y, 0 <= D < w -> inrange w x -> inrange w y ->
  (inrange w (x + y) -> exists r, add_same w x y = Ok r /\ (value D r == value D x + value D y)%Q) /\
  (inrange w (x - y) -> exists r, sub_same w x y = Ok r /\ (value D r == value D x - value D y)%Q) /\
  (inrange w (- x) -> exists r, neg w x = Ok r /\ (value D r == - value D x)%Q) /\
  (eq x y = true <-> (value D x == value D y)%Q) /\ (ne x y = true <-> ~ (value D x == value D y)%Q) /\
  (lt x y = true <-> (value D x < value D y)%Q) /\ (le x y = true <-> (value D x <= value D y)%Q) /\
  (gt x y = true <-> (value D y < value D x)%Q) /\ (ge x y = true <-> (value D y <= value D x)%Q).
Proof.
  intros w D x y HD Hx Hy.
  assert (Hlt : forall x y, (value D x < value D y)%Q <-> x < y) by (intros a b; unfold value, Qlt; cbn [Qnum Qden]; rewrite <- Z.mul_lt_mono_pos_r by lia; reflexivity).
  assert (Hle : forall x y, (value D x <= value D y)%Q <-> x <= y) by (intros a b; unfold value, Qle; cbn [Qnum Qden]; rewrite <- Z.mul_le_mono_pos_r by lia; reflexivity).
  split; [intros R; exists (x + y); split; [apply sarith_ok; exact R|unfold value, Qplus, Qeq; cbn [Qnum Qden]; rewrite !Pos2Z.inj_mul; lia]|].
  split; [intros R; exists (x - y); split; [apply sarith_ok; exact R|unfold value, Qminus, Qopp, Qplus, Qeq; cbn [Qnum Qden]; rewrite !Pos2Z.inj_mul; lia]|].
  split; [intros R; exists (- x); split; [apply sarith_ok; exact R|reflexivity]|].
  rewrite !value_inj by lia. rewrite !Hlt, !Hle. unfold eq, ne, lt, le, gt, ge. rewrite negb_true_iff. repeat split; lia.
Qed.
Print Assumptions C59_same_scale.
(* C59, multiplication: the floor of the exact product at the left scale *)
Theorem C59_mul : forall w D B x y, 0 <= D < w -> 0 <= B < w -> inrange w x -> inrange w y ->
  inrange w (Qfloor (scaled D (value D x * value B y))) -> mul w D B x y = Ok (Qfloor (scaled D (value D x * value B y))).
Proof.
  intros w D B x y HD HB Hx Hy R. rewrite floor_prod in * by lia. unfold mul, fixedpt_mul, mulextract_native_s. destruct (Z.ltb_spec B (2 * w)); [|lia]. rewrite Z.shiftr_div_pow2 by lia. rewrite sgn_id by (auto; lia). reflexivity.
Qed.
Print Assumptions C59_mul.
(* C59, division: the exact quotient at the left scale, truncated towards zero *)
Theorem C59_div : forall w D B x y, 0 <= D < w -> 0 <= B < w -> inrange w x -> inrange w y -> y <> 0 ->
  inrange w (trunc (scaled D (value D x / value B y))) -> div w D B x y = Ok (trunc (scaled D (value D x / value B y))).
Proof.
  intros w D B x y HD HB Hx Hy Ny R. rewrite trunc_quotient in * by (auto; lia). unfold div, fixedpt_div. destruct (Z.ltb_spec B (2 * w)); [|lia]. rewrite Z.shiftl_mul_pow2 by lia.
  assert (P1 : 2 ^ (2 * w - 1) = 2 ^ (w - 1) * 2 ^ w) by (rewrite <- Z.pow_add_r by lia; f_equal; lia). assert (P2 : 0 < 2 ^ B <= 2 ^ w) by (split; [apply Z.pow_pos_nonneg; lia|apply Z.pow_le_mono_r; lia]). assert (P3 : 0 < 2 ^ (w - 1)) by (apply Z.pow_pos_nonneg; lia).
  assert (R1 : inrange (2 * w) (x * 2 ^ B)).
  { destruct Hx as [H1 H2]. unfold inrange. rewrite P1. set (a := 2 ^ (w - 1)) in *. set (b := 2 ^ B) in *. set (c := 2 ^ w) in *. split.
    - apply Z.le_trans with (- (a * b)); [apply Z.opp_le_mono; rewrite !Z.opp_involutive; apply Z.mul_le_mono_nonneg_l; lia|]. rewrite <- Z.mul_opp_l. apply Z.mul_le_mono_nonneg_r; lia.
    - apply Z.lt_le_trans with (a * b); [apply Z.mul_lt_mono_pos_r; lia|apply Z.mul_le_mono_nonneg_l; lia]. }
  rewrite sarith_ok by exact R1. cbn [bind]. destruct (Z.eqb_spec y 0); [congruence|].
  rewrite (sarith_ok (2 * w)); [cbn [bind]; rewrite sgn_id by (auto; lia); reflexivity|]. destruct R as [R2 R3]. assert (2 ^ (w - 1) <= 2 ^ (2 * w - 1)) by (apply Z.pow_le_mono_r; lia). unfold inrange. lia.
Qed.
Print Assumptions C59_div.
(* integers convert exactly, and back by floor *)
Theorem C59_int : forall w D, 0 <= D < w ->
  (forall v, inrange w v -> inrange w (v * 2 ^ D) -> exists r, of_int w D v = Ok r /\ (value D r == inject_Z v)%Q) /\
  (forall x, to_int w D x = Ok (Qfloor (value D x))).
Proof.
  intros w D HD. unfold of_int, to_int. destruct (Z.ltb_spec D w); [|lia]. split.
  - intros v _ R. rewrite Z.shiftl_mul_pow2 by lia. exists (v * 2 ^ D). split; [apply sarith_ok; exact R|]. unfold value, inject_Z, Qeq. cbn [Qnum Qden]. rewrite pow_pos by lia. lia.
  - intros x. rewrite Z.shiftr_div_pow2 by lia. unfold value, Qfloor. rewrite pow_pos by lia. reflexivity.
Qed.
Print Assumptions C59_int.

(* C59 fails in full: with a finer scale on the right, x + y is not exact (1 + 1/16 gives 1 for a scale of 0 bits) *)
Theorem C59_add_exact_refuted : exists r, add 32 0 4 1 1 = Ok r /\ ~ (value 0 r == value 0 1 + value 4 1)%Q.
Proof. exists 1. split; [reflexivity|discriminate]. Qed.
Print Assumptions C59_add_exact_refuted.
(* and converting between scales shifts in the wrong direction: 1.0 at 8 bits becomes 256.0 at 4 bits *)
Theorem C59_convert_refuted : (value 8 256 == 1)%Q /\ exists r, convert 32 4 8 256 = Ok r /\ (value 4 r == 256)%Q.
Proof. split; [reflexivity|]. exists 4096. split; reflexivity. Qed.
Print Assumptions C59_convert_refuted.

(* 2.5 / -1.5, 2.5 * -1.75 and 2.5 - 0.75 at mixed scales *)
Example C59_example : div 32 12 8 10240 (-384) = Ok (-6826) /\ mul 32 12 8 10240 (-448) = Ok (-17920) /\ sub 32 12 8 10240 192 = Ok 7168 /\
  (value 12 (-17920) == value 12 10240 * value 8 (-448))%Q /\ inrange 32 (-6826) /\ trunc (scaled 12 (value 12 10240 / value 8 (-384))) = -6826.
Proof. unfold inrange. vm_compute. intuition discriminate. Qed.
