(* C180-C181: the float and double vectors. *)
From Coq Require Import ZArith List Bool Reals Lia Lra ZifyBool ZifyNat.
From Flocq Require Import Core IEEE754.BinarySingleNaN IEEE754.Binary IEEE754.Bits.
From Verif Require Import Common Sse SseProps SseFloat.
Import ListNotations.
Local Open Scope Z_scope.

(** The number that a float is, and whether it is a number. *)
Definition value (x : Z) : R := B2R 24 128 (b32_of_bits x).
Definition number (x : Z) : Prop := is_finite 24 128 (b32_of_bits x) = true.

Notation fexp32 := (SpecFloat.fexp 24 128).
Lemma fexp32_eq : fexp32 = FLT_exp (-149) 24.
Proof. reflexivity. Qed.
Lemma bits_back f : b32_of_bits (bits_of_b32 f) = f.
Proof. apply (binary_float_of_bits_of_binary_float 23 8). Qed.
Lemma bits_back64 f : b64_of_bits (bits_of_b64 f) = f.
Proof. apply (binary_float_of_bits_of_binary_float 52 11). Qed.
Lemma bits_range f : 0 <= bits_of_b32 f < 2 ^ 32.
Proof. apply (bits_of_binary_float_range 23 8); lia. Qed.
Lemma bits_range64 f : 0 <= bits_of_b64 f < 2 ^ 64.
Proof. apply (bits_of_binary_float_range 52 11); lia. Qed.

Lemma int_format i : Z.abs i <= 2 ^ 24 -> generic_format radix2 fexp32 (IZR i).
Proof.
  intros B. rewrite fexp32_eq. destruct (Z.eq_dec (Z.abs i) (2 ^ 24)) as [E|N].
  - assert (G : generic_format radix2 (FLT_exp (-149) 24) (IZR (2 ^ 24))).
    { change (IZR (2 ^ 24)) with (bpow radix2 24). apply generic_format_bpow. unfold FLT_exp. lia. }
    destruct (Z_lt_le_dec i 0); [|replace i with (2 ^ 24) by lia; exact G]. replace i with (- 2 ^ 24) by lia. rewrite opp_IZR. apply generic_format_opp. exact G.
  - apply generic_format_FLT. exists (Float radix2 i 0); cbn [Fnum Fexp]; [unfold F2R; cbn; ring|change (Zpower radix2 24) with (2 ^ 24); lia|lia].
Qed.
Lemma big_integer x : generic_format radix2 fexp32 x -> (bpow radix2 24 <= Rabs x)%R -> exists k, x = IZR k.
Proof.
  intros F B. rewrite F. unfold F2R. cbn [Fnum Fexp]. set (m := Ztrunc _). assert (E : 0 <= cexp radix2 fexp32 x).
  { unfold cexp. rewrite fexp32_eq. unfold FLT_exp. assert (25 <= mag radix2 x) by (apply mag_ge_bpow; exact B). lia. }
  exists (m * 2 ^ cexp radix2 fexp32 x). rewrite mult_IZR. f_equal. rewrite <- (IZR_Zpower radix2) by exact E. reflexivity.
Qed.
Lemma round_id x : generic_format radix2 fexp32 x -> round radix2 fexp32 (round_mode mode_NE) x = x.
Proof. intros G. apply round_generic; [apply valid_rnd_N|exact G]. Qed.

Lemma lane_cmp w p a b i : 0 < w -> (i < count w)%nat -> lane w (lift2 w (fun x y => ones w (p x y)) a b) i = ones w (p (lane w a i) (lane w b i)).
Proof. intros W I. apply (lane_lift2 w (fun x y => ones w (p x y))); auto. intros. apply ones_range. lia. Qed.

Lemma one_lane i : (i < 4)%nat -> lane 32 one_ps i = 1065353216.
Proof. intros I. destruct (lt4 i I) as [->|[->|[->| ->]]]; vm_compute; reflexivity. Qed.
Lemma one_value : value 1065353216 = 1%R /\ number 1065353216.
Proof.
  split; [|vm_compute; reflexivity]. unfold value. replace (b32_of_bits 1065353216) with (B754_finite 24 128 false 8388608 (-23) eq_refl).
  - unfold B2R, F2R. cbn [Fnum Fexp cond_Zopp bpow]. change (Z.pow_pos radix2 23) with 8388608. change (Z.pos 8388608) with 8388608. lra.
  - apply B2FF_inj. vm_compute. reflexivity.
Qed.
Lemma zero_value : value 0 = 0%R /\ number 0.
Proof. split; vm_compute; reflexivity. Qed.
Lemma land_ones_c c x : 0 <= x < 2 ^ 32 -> Z.land (ones 32 c) x = if c then x else 0.
Proof. intros X. rewrite Z.land_comm. destruct c; [|unfold ones; apply Z.land_0_r]. rewrite ones_all, Z.land_ones by lia. apply Z.mod_small. exact X. Qed.

Lemma of_int i : Z.abs i <= 2 ^ 31 -> generic_format radix2 fexp32 (IZR i) -> B2R 24 128 (float_of_int i) = IZR i /\ is_finite 24 128 (float_of_int i) = true.
Proof.
  intros B G. pose proof (binary_normalize_correct 24 128 eq_refl eq_refl mode_NE i 0 false) as H. fold (float_of_int i) in H.
  assert (E : F2R (Float radix2 i 0) = IZR i) by (unfold F2R; cbn; ring). rewrite E in H. rewrite round_id in H by exact G.
  rewrite Rlt_bool_true in H; [tauto|]. rewrite <- abs_IZR. apply Rle_lt_trans with (bpow radix2 31); [change (bpow radix2 31) with (IZR (2 ^ 31)); apply IZR_le; exact B|apply bpow_lt; lia].
Qed.

Section Lane.
(** One lane of floor and ceil. *)
Context (u : Z) (U : number u) (R : (- 2147483648 <= value u < 2147483648)%R).
Definition q : Z := Ztrunc (value u).
Lemma q_near : (value u - 1 < IZR q < value u + 1)%R /\ (value u < 0 -> value u <= IZR q)%R /\ (0 <= value u -> IZR q <= value u)%R.
Proof.
  unfold q, Ztrunc. destruct (Rlt_bool_spec (value u) 0).
  - pose proof (Zceil_ub (value u)). pose proof (Zceil_lb (value u)). lra.
  - pose proof (Zfloor_ub (value u)). pose proof (Zfloor_lb (value u)). lra.
Qed.
Lemma q_range : - 2 ^ 31 <= q < 2 ^ 31.
Proof.
  destruct q_near as [N [A B]]. split.
  - apply le_IZR. change (IZR (- 2 ^ 31)) with (-2147483648)%R. destruct (Rlt_le_dec (value u) 0); [specialize (A r); lra|].
    unfold q, Ztrunc. destruct (Rlt_bool_spec (value u) 0); [lra|]. assert (0 <= Zfloor (value u)) by (apply Zfloor_lub; exact H). apply IZR_le in H0. lra.
  - apply lt_IZR. change (IZR (2 ^ 31)) with (2147483648)%R. destruct (Rlt_le_dec (value u) 0); [|specialize (B r); lra].
    unfold q, Ztrunc. destruct (Rlt_bool_spec (value u) 0); [|lra]. assert (Zceil (value u) <= 0) by (apply Zceil_glb; lra). apply IZR_le in H0. lra.
Qed.
Lemma u_format : generic_format radix2 fexp32 (value u).
Proof. apply generic_format_B2R. Qed.
Lemma small_or_int : Z.abs q <= 2 ^ 24 - 1 \/ value u = IZR q.
Proof.
  destruct (Rlt_le_dec (Rabs (value u)) (bpow radix2 24)) as [L|L].
  - left. destruct q_near as [N [A B]]. assert (Rabs (IZR q) < bpow radix2 24)%R.
    { destruct (Rlt_le_dec (value u) 0) as [S|S].
      - specialize (A S). rewrite (Rabs_left (value u)) in L by lra. assert (q <= 0).
        { unfold q, Ztrunc. rewrite Rlt_bool_true by exact S. apply Zceil_glb. lra. } apply IZR_le in H. rewrite Rabs_left1 by lra. lra.
      - specialize (B S). rewrite (Rabs_pos_eq (value u)) in L by lra. assert (0 <= q).
        { unfold q, Ztrunc. rewrite Rlt_bool_false by exact S. apply Zfloor_lub. lra. } apply IZR_le in H. rewrite Rabs_pos_eq by lra. lra. }
    rewrite <- abs_IZR in H. change (bpow radix2 24) with (IZR (2 ^ 24)) in H. apply lt_IZR in H. lia.
  - right. destruct (big_integer _ u_format L) as [k E]. unfold q. rewrite E, Ztrunc_IZR. reflexivity.
Qed.
Lemma q_format : generic_format radix2 fexp32 (IZR q).
Proof. destruct small_or_int as [S| <-]; [apply int_format; lia|exact u_format]. Qed.
Lemma cvtt_q : sgn 32 (cvtt u) = q.
Proof.
  unfold cvtt. fold (value u). fold q. unfold number in U. rewrite U. pose proof q_range. replace ((- 2 ^ 31 <=? q) && (q <? 2 ^ 31)) with true by lia. cbn [andb].
  replace ((- 2 ^ 31 <=? q)) with true by lia. replace (q <? 2 ^ 31) with true by lia. cbn [andb]. unfold sgn, wrap. rewrite Zmod_mod.
  destruct (Z_lt_le_dec q 0).
  - rewrite <- (Z.mod_add q 1) by lia. rewrite (Z.mod_small (q + 1 * 2 ^ 32)) by lia. destruct (Z.ltb_spec (q + 1 * 2 ^ 32) (2 ^ (32 - 1))); lia.
  - rewrite Z.mod_small by lia. destruct (Z.ltb_spec q (2 ^ (32 - 1))); lia.
Qed.
Lemma fi_value : value (bits_of_b32 (float_of_int (sgn 32 (cvtt u)))) = IZR q /\ number (bits_of_b32 (float_of_int (sgn 32 (cvtt u)))).
Proof. unfold value, number. rewrite bits_back, cvtt_q. apply of_int; [pose proof q_range; lia|exact q_format]. Qed.
End Lane.

Lemma order_values x y : number x -> number y -> order 32 x y = Some (Rcompare (value x) (value y)).
Proof. intros X Y. unfold order. change (32 =? 32) with true. cbv iota. apply Bcompare_correct; assumption. Qed.
Lemma sub_value x y r : number x -> number y -> (value x - value y = r)%R -> generic_format radix2 fexp32 r -> (Rabs r <= bpow radix2 31)%R ->
  let f := bits_of_b32 (b32_minus mode_NE (b32_of_bits x) (b32_of_bits y)) in value f = r /\ number f.
Proof.
  intros X Y E G B f. unfold f, value, number. rewrite bits_back. unfold b32_minus.
  match goal with |- context [Bminus 24 128 ?a ?b ?n ?m ?x ?y] => pose proof (Bminus_correct 24 128 a b n m x y X Y) as H end.
  fold (value x) in H. fold (value y) in H. rewrite E in H. rewrite round_id in H by exact G. rewrite Rlt_bool_true in H; [tauto|]. apply Rle_lt_trans with (1 := B). apply bpow_lt. lia.
Qed.
Lemma add_value x y r : number x -> number y -> (value x + value y = r)%R -> generic_format radix2 fexp32 r -> (Rabs r <= bpow radix2 31)%R ->
  let f := bits_of_b32 (b32_plus mode_NE (b32_of_bits x) (b32_of_bits y)) in value f = r /\ number f.
Proof.
  intros X Y E G B f. unfold f, value, number. rewrite bits_back. unfold b32_plus.
  match goal with |- context [Bplus 24 128 ?a ?b ?n ?m ?x ?y] => pose proof (Bplus_correct 24 128 a b n m x y X Y) as H end.
  fold (value x) in H. fold (value y) in H. rewrite E in H. rewrite round_id in H by exact G. rewrite Rlt_bool_true in H; [tauto|]. apply Rle_lt_trans with (1 := B). apply bpow_lt. lia.
Qed.

(** The full claim: every finite float becomes the next whole number below, above. *)
Definition rounding_spec : Prop := forall x i, (i < 4)%nat -> number (lane 32 x i) ->
  value (lane 32 (fvfloor x) i) = IZR (Zfloor (value (lane 32 x i))) /\ value (lane 32 (fvceil x) i) = IZR (Zceil (value (lane 32 x i))).

(** It holds for the numbers that fit into an int. *)
Theorem C180_rounding_partial : forall x i, (i < 4)%nat -> let u := lane 32 x i in number u -> (- 2147483648 <= value u < 2147483648)%R ->
  value (lane 32 (fvfloor x) i) = IZR (Zfloor (value u)) /\ number (lane 32 (fvfloor x) i) /\
  value (lane 32 (fvceil x) i) = IZR (Zceil (value u)) /\ number (lane 32 (fvceil x) i).
Proof.
  intros x i I u U R. pose proof (q_range u R) as QR. destruct (q_near u) as [N [A B]]. destruct (fi_value u U R) as [FV FN]. set (fi := bits_of_b32 (float_of_int (sgn 32 (cvtt u)))) in *.
  assert (CR : forall v, 0 <= cvtt v < 2 ^ 32).
  { intros v. unfold cvtt. destruct (_ && _); [apply Z.mod_pos_bound; lia|lia]. }
  assert (L : lane 32 (mm_cvtepi32_ps (mm_cvttps_epi32 x)) i = fi).
  { unfold mm_cvtepi32_ps. rewrite lane_lift1; [|lia|exact I|intros; apply bits_range]. unfold mm_cvttps_epi32. rewrite lane_lift1; [reflexivity|lia|exact I|intros; apply CR]. }
  destruct one_value as [V1 N1]. destruct zero_value as [V0 N0].
  assert (AB : forall k : Z, Z.abs k <= 2 ^ 31 -> (Rabs (IZR k) <= bpow radix2 31)%R).
  { intros k K. rewrite <- abs_IZR. change (bpow radix2 31) with (IZR (2 ^ 31)). apply IZR_le. exact K. }
  assert (F : value (lane 32 (fvfloor x) i) = IZR (Zfloor (value u)) /\ number (lane 32 (fvfloor x) i)).
  { unfold fvfloor, bss_mm_floor_ps, mm_sub_ps. rewrite lane_lift2; [|lia|exact I|intros; apply bits_range]. rewrite lane_and by lia. unfold mm_cmpgt_p. rewrite lane_cmp by (try exact I; lia).
    rewrite L, one_lane by exact I. fold u. rewrite order_values by assumption. rewrite land_ones_c by lia. rewrite FV. destruct (Rcompare_spec (IZR (q u)) (value u)); cbn [is_gt].
    - assert (E : Zfloor (value u) = q u) by (apply Zfloor_imp; rewrite plus_IZR; lra). rewrite E. apply sub_value; [assumption..|rewrite FV, V0; ring|apply q_format|apply AB; lia].
    - assert (E : Zfloor (value u) = q u) by (apply Zfloor_imp; rewrite plus_IZR; lra). rewrite E. apply sub_value; [assumption..|rewrite FV, V0; ring|apply q_format|apply AB; lia].
    - assert (E : Zfloor (value u) = q u - 1) by (apply Zfloor_imp; rewrite plus_IZR, minus_IZR; lra). rewrite E. destruct (small_or_int u) as [S|S]; [|lra].
      apply sub_value; [assumption..|rewrite FV, V1, minus_IZR; ring|apply int_format; lia|apply AB; lia]. }
  assert (C : value (lane 32 (fvceil x) i) = IZR (Zceil (value u)) /\ number (lane 32 (fvceil x) i)).
  { unfold fvceil, bss_mm_ceil_ps, mm_add_ps. rewrite lane_lift2; [|lia|exact I|intros; apply bits_range]. rewrite lane_and by lia. unfold mm_cmplt_p. rewrite lane_cmp by (try exact I; lia).
    rewrite L, one_lane by exact I. fold u. rewrite order_values by assumption. rewrite land_ones_c by lia. rewrite FV. destruct (Rcompare_spec (IZR (q u)) (value u)); cbn [is_lt].
    - assert (E : Zceil (value u) = q u + 1) by (apply Zceil_imp; replace (q u + 1 - 1) with (q u) by lia; rewrite plus_IZR; lra). rewrite E. destruct (small_or_int u) as [S|S]; [|lra].
      apply add_value; [assumption..|rewrite FV, V1, plus_IZR; ring|apply int_format; lia|apply AB; lia].
    - assert (E : Zceil (value u) = q u) by (apply Zceil_imp; rewrite minus_IZR; lra). rewrite E. apply add_value; [assumption..|rewrite FV, V0; ring|apply q_format|apply AB; lia].
    - assert (E : Zceil (value u) = q u) by (apply Zceil_imp; rewrite minus_IZR; lra). rewrite E. apply add_value; [assumption..|rewrite FV, V0; ring|apply q_format|apply AB; lia]. }
  tauto.
Qed.
Print Assumptions C180_rounding_partial.

Lemma floor_lane x i : (i < 4)%nat -> lane 32 (fvfloor x) i =
  (let fi := bits_of_b32 (float_of_int (sgn 32 (cvtt (lane 32 x i)))) in
   bits_of_b32 (b32_minus mode_NE (b32_of_bits fi) (b32_of_bits (Z.land (ones 32 (is_gt (order 32 fi (lane 32 x i)))) 1065353216)))).
Proof.
  intros I. assert (CR : forall v, 0 <= cvtt v < 2 ^ 32).
  { intros v. unfold cvtt. destruct (_ && _); [apply Z.mod_pos_bound; lia|lia]. }
  unfold fvfloor, bss_mm_floor_ps, mm_sub_ps. rewrite lane_lift2; [|lia|exact I|intros; apply bits_range]. rewrite lane_and by lia. unfold mm_cmpgt_p. rewrite lane_cmp by (try exact I; lia).
  assert (L : lane 32 (mm_cvtepi32_ps (mm_cvttps_epi32 x)) i = bits_of_b32 (float_of_int (sgn 32 (cvtt (lane 32 x i))))).
  { unfold mm_cvtepi32_ps. rewrite lane_lift1; [|lia|exact I|intros; apply bits_range]. unfold mm_cvttps_epi32. rewrite lane_lift1; [reflexivity|lia|exact I|intros; apply CR]. }
  rewrite L, one_lane by exact I. reflexivity.
Qed.
Lemma big_value : value 1325400064 = IZR (2 ^ 31) /\ number 1325400064.
Proof.
  split; [|vm_compute; reflexivity]. unfold value. replace (b32_of_bits 1325400064) with (B754_finite 24 128 false 8388608 8 eq_refl).
  - unfold B2R, F2R. cbn [Fnum Fexp cond_Zopp bpow]. rewrite <- mult_IZR. reflexivity.
  - apply B2FF_inj. vm_compute. reflexivity.
Qed.
Lemma least_value : value 3472883712 = IZR (- 2 ^ 31).
Proof.
  unfold value. replace (b32_of_bits 3472883712) with (B754_finite 24 128 true 8388608 8 eq_refl).
  - unfold B2R, F2R. cbn [Fnum Fexp cond_Zopp bpow]. rewrite <- mult_IZR. reflexivity.
  - apply B2FF_inj. vm_compute. reflexivity.
Qed.
Lemma cvtt_big : cvtt 1325400064 = 2 ^ 31.
Proof. unfold cvtt. fold (value 1325400064). destruct big_value as [-> _]. rewrite Ztrunc_IZR. change (2 ^ 31 <? 2 ^ 31) with false. rewrite andb_false_r. reflexivity. Qed.
Lemma cvtt_nan : cvtt 2143289344 = 2 ^ 31.
Proof. unfold cvtt. replace (is_finite 24 128 (b32_of_bits 2143289344)) with false by (vm_compute; reflexivity). reflexivity. Qed.

(** From 2^31 on, 2147483648.0f for one, the result is -2147483648.0f; the same for a NaN. *)
Theorem C180_rounding_refuted : ~ rounding_spec /\
  (value (lane 32 (mm_set1 32 1325400064) 0) = 2147483648 /\ value (lane 32 (fvfloor (mm_set1 32 1325400064)) 0) = -2147483648)%R /\
  (is_nan 24 128 (b32_of_bits (lane 32 (mm_set1 32 2143289344) 0)) = true /\ value (lane 32 (fvfloor (mm_set1 32 2143289344)) 0) = -2147483648)%R.
Proof.
  assert (L : lane 32 (mm_set1 32 1325400064) 0 = 1325400064) by (vm_compute; reflexivity).
  assert (L2 : lane 32 (mm_set1 32 2143289344) 0 = 2143289344) by (vm_compute; reflexivity).
  assert (F : value (lane 32 (fvfloor (mm_set1 32 1325400064)) 0) = IZR (- 2 ^ 31)).
  { rewrite floor_lane by lia. rewrite L, cvtt_big. rewrite <- least_value. apply (f_equal value). vm_compute. reflexivity. }
  assert (F2 : value (lane 32 (fvfloor (mm_set1 32 2143289344)) 0) = IZR (- 2 ^ 31)).
  { rewrite floor_lane by lia. rewrite L2, cvtt_nan. rewrite <- least_value. apply (f_equal value). vm_compute. reflexivity. }
  destruct big_value as [BV BN]. split; [|split; split].
  - intros S. destruct (S (mm_set1 32 1325400064) 0%nat ltac:(lia) ltac:(rewrite L; exact BN)) as [E _]. rewrite F, L, BV, Zfloor_IZR in E. apply eq_IZR in E. lia.
  - rewrite L. exact BV.
  - exact F.
  - rewrite L2. vm_compute. reflexivity.
  - exact F2.
Qed.
Print Assumptions C180_rounding_refuted.

(** The number in a lane of 32 or 64 bits, whether it is one, and whether it is a NaN. *)
Definition val (w x : Z) : R := if w =? 32 then B2R 24 128 (b32_of_bits x) else B2R 53 1024 (b64_of_bits x).
Definition num (w x : Z) : Prop := (if w =? 32 then is_finite 24 128 (b32_of_bits x) else is_finite 53 1024 (b64_of_bits x)) = true.
Definition nan (w x : Z) : Prop := (if w =? 32 then is_nan 24 128 (b32_of_bits x) else is_nan 53 1024 (b64_of_bits x)) = true.

Lemma order_num w x y : num w x -> num w y -> order w x y = Some (Rcompare (val w x) (val w y)).
Proof. unfold num, val, order. destruct (w =? 32); intros X Y; apply Bcompare_correct; assumption. Qed.
Lemma order_nan w x y : nan w x \/ nan w y -> order w x y = None.
Proof.
  unfold nan, order, b32_compare, b64_compare, Bcompare. destruct (w =? 32).
  - destruct (b32_of_bits x), (b32_of_bits y); cbn; intros [H|H]; try discriminate; try reflexivity; destruct s; try reflexivity; destruct s0; reflexivity.
  - destruct (b64_of_bits x), (b64_of_bits y); cbn; intros [H|H]; try discriminate; try reflexivity; destruct s; try reflexivity; destruct s0; reflexivity.
Qed.

(** Minimum and maximum give the bits of one of the two; of numbers, of the smaller and larger one; with a NaN, of the second. *)
Theorem C181_min_max : forall w a b i, w = 32 \/ w = 64 -> (i < count w)%nat ->
  let x := lane w a i in let y := lane w b i in let lo := lane w (fvmin w a b) i in let hi := lane w (fvmax w a b) i in
  (lo = x \/ lo = y) /\ (hi = x \/ hi = y) /\
  (num w x -> num w y -> val w lo = Rmin (val w x) (val w y) /\ val w hi = Rmax (val w x) (val w y)) /\
  (nan w x \/ nan w y -> lo = y /\ hi = y).
Proof.
  intros w a b i W I x y lo hi. assert (W0 : 0 < w) by lia.
  assert (LO : lo = if is_lt (order w x y) then x else y).
  { unfold lo, fvmin, bss_mm_min. rewrite lane_or, lane_and, lane_andnot by exact W0. unfold mm_cmplt_p. rewrite lane_cmp by assumption. fold x y.
    unfold x at 1, y at 2. rewrite lane_land_ones, lane_ldiff_ones by exact W0. fold x y. destruct (is_lt _); [apply Z.lor_0_r|apply Z.lor_0_l]. }
  assert (HI : hi = if is_gt (order w x y) then x else y).
  { unfold hi, fvmax, bss_mm_max. rewrite lane_or, lane_and, lane_andnot by exact W0. unfold mm_cmpgt_p. rewrite lane_cmp by assumption. fold x y.
    unfold x at 1, y at 2. rewrite lane_land_ones, lane_ldiff_ones by exact W0. fold x y. destruct (is_gt _); [apply Z.lor_0_r|apply Z.lor_0_l]. }
  rewrite LO, HI. split; [destruct (is_lt _); auto|]. split; [destruct (is_gt _); auto|]. split.
  - intros X Y. rewrite order_num by assumption. destruct (Rcompare_spec (val w x) (val w y)); cbn [is_lt is_gt]; split; unfold Rmin, Rmax; destruct (Rle_dec _ _); lra.
  - intros NN. rewrite order_nan by exact NN. split; reflexivity.
Qed.
Print Assumptions C181_min_max.

(** Comparisons give ones where they hold and zeros where not; with a NaN only != holds. *)
Theorem C181_compare : forall w a b i, w = 32 \/ w = 64 -> (i < count w)%nat ->
  let x := lane w a i in let y := lane w b i in let yes := 2 ^ w - 1 in
  let says r (p : Prop) := (p -> lane w r i = yes) /\ (~ p -> lane w r i = 0) in
  (num w x -> num w y ->
     says (fveq w a b) (val w x = val w y) /\ says (fvne w a b) (val w x <> val w y) /\ says (fvlt w a b) (val w x < val w y)%R /\
     says (fvle w a b) (val w x <= val w y)%R /\ says (fvgt w a b) (val w x > val w y)%R /\ says (fvge w a b) (val w x >= val w y)%R) /\
  (nan w x \/ nan w y ->
     lane w (fvne w a b) i = yes /\ Forall (fun r => lane w r i = 0) [fveq w a b; fvlt w a b; fvle w a b; fvgt w a b; fvge w a b]).
Proof.
  intros w a b i W I x y yes says. assert (W0 : 0 < w) by lia. unfold says, fveq, fvne, fvlt, fvle, fvgt, fvge, mm_cmpeq_p, mm_cmpneq_p, mm_cmplt_p, mm_cmple_p, mm_cmpgt_p, mm_cmpge_p.
  split.
  - intros X Y. rewrite (lane_cmp w (fun x y => is_eq (order w x y))), (lane_cmp w (fun x y => negb (is_eq (order w x y)))), (lane_cmp w (fun x y => is_lt (order w x y))),
      (lane_cmp w (fun x y => is_lt (order w x y) || is_eq (order w x y))), (lane_cmp w (fun x y => is_gt (order w x y))), (lane_cmp w (fun x y => is_gt (order w x y) || is_eq (order w x y))) by assumption.
    fold x y. rewrite order_num by assumption. destruct (Rcompare_spec (val w x) (val w y)); cbn [is_eq is_lt is_gt negb orb]; unfold ones, yes; repeat split; intros; try reflexivity; exfalso; lra.
  - intros NN. rewrite (lane_cmp w (fun x y => negb (is_eq (order w x y)))) by assumption. fold x y. rewrite order_nan by exact NN. split; [reflexivity|].
    repeat constructor; rewrite lane_cmp by assumption; fold x y; rewrite order_nan by exact NN; reflexivity.
Qed.
Print Assumptions C181_compare.

Lemma add_ps_lane a b i : (i < 4)%nat -> lane 32 (mm_add_ps a b) i = bits_of_b32 (b32_plus mode_NE (b32_of_bits (lane 32 a i)) (b32_of_bits (lane 32 b i))).
Proof. intros I. unfold mm_add_ps. rewrite lane_lift2; [reflexivity|lia|exact I|intros; apply bits_range]. Qed.
Definition round32 (x : R) : R := round radix2 (FLT_exp (-149) 24) ZnearestE x.
Definition round64 (x : R) : R := round radix2 (FLT_exp (-1074) 53) ZnearestE x.
Lemma plus32 f g : is_finite 24 128 f = true -> is_finite 24 128 g = true -> (Rabs (round32 (B2R 24 128 f + B2R 24 128 g)) < bpow radix2 128)%R ->
  B2R 24 128 (b32_plus mode_NE f g) = round32 (B2R 24 128 f + B2R 24 128 g) /\ is_finite 24 128 (b32_plus mode_NE f g) = true.
Proof.
  intros F G B. unfold b32_plus. match goal with |- context [Bplus 24 128 ?a ?b ?n ?m ?x ?y] => pose proof (Bplus_correct 24 128 a b n m x y F G) as H end.
  rewrite Rlt_bool_true in H by exact B. split; apply H.
Qed.
Lemma plus64 f g : is_finite 53 1024 f = true -> is_finite 53 1024 g = true -> (Rabs (round64 (B2R 53 1024 f + B2R 53 1024 g)) < bpow radix2 1024)%R ->
  B2R 53 1024 (b64_plus mode_NE f g) = round64 (B2R 53 1024 f + B2R 53 1024 g) /\ is_finite 53 1024 (b64_plus mode_NE f g) = true.
Proof.
  intros F G B. unfold b64_plus. match goal with |- context [Bplus 53 1024 ?a ?b ?n ?m ?x ?y] => pose proof (Bplus_correct 53 1024 a b n m x y F G) as H end.
  rewrite Rlt_bool_true in H by exact B. split; apply H.
Qed.

(** The sum of four floats is that of the sums of the first and the last two, each rounded; of two doubles it is rounded once; Swap
    exchanges the two doubles. *)
Theorem C181_sum : forall a,
  (let v i := val 32 (lane 32 a i) in
   (forall i, (i < 4)%nat -> num 32 (lane 32 a i)) ->
   (Rabs (round32 (v 0%nat + v 1%nat)) < bpow radix2 128)%R -> (Rabs (round32 (v 2%nat + v 3%nat)) < bpow radix2 128)%R ->
   (Rabs (round32 (round32 (v 0%nat + v 1%nat) + round32 (v 2%nat + v 3%nat))) < bpow radix2 128)%R ->
   is_finite 24 128 (fvsum a) = true /\ B2R 24 128 (fvsum a) = round32 (round32 (v 0%nat + v 1%nat) + round32 (v 2%nat + v 3%nat))) /\
  (let v i := val 64 (lane 64 a i) in
   (forall i, (i < 2)%nat -> num 64 (lane 64 a i)) -> (Rabs (round64 (v 0%nat + v 1%nat)) < bpow radix2 1024)%R ->
   is_finite 53 1024 (dvsum a) = true /\ B2R 53 1024 (dvsum a) = round64 (v 0%nat + v 1%nat)) /\
  lane 64 (dvswap a) 0 = lane 64 a 1 /\ lane 64 (dvswap a) 1 = lane 64 a 0.
Proof.
  intros a. destruct (C178_shuffle_sum a) as [SH _]. split; [|assert (SW : lane 64 (dvswap a) 0 = lane 64 a 1 /\ lane 64 (dvswap a) 1 = lane 64 a 0); [|split; [|exact SW]]].
  - intros v N B1 B2 B3. unfold fvsum. set (x := mm_add_ps a (vshuffle 1 0 3 2 a)). destruct (C178_shuffle_sum x) as [SX _].
    rewrite add_ps_lane by lia. rewrite bits_back. rewrite SX by lia. cbn [nth]. change (Z.to_nat 2) with 2%nat.
    unfold x. rewrite !add_ps_lane by lia. rewrite !bits_back. rewrite !SH by lia. cbn [nth]. change (Z.to_nat 1) with 1%nat. change (Z.to_nat 3) with 3%nat.
    destruct (plus32 (b32_of_bits (lane 32 a 0)) (b32_of_bits (lane 32 a 1))) as [E1 F1]; [exact (N 0%nat ltac:(lia))|exact (N 1%nat ltac:(lia))|exact B1|].
    destruct (plus32 (b32_of_bits (lane 32 a 2)) (b32_of_bits (lane 32 a 3))) as [E2 F2]; [exact (N 2%nat ltac:(lia))|exact (N 3%nat ltac:(lia))|exact B2|].
    destruct (plus32 _ _ F1 F2) as [E3 F3]; [rewrite E1, E2; exact B3|]. split; [exact F3|]. rewrite E3, E1, E2. reflexivity.
  - unfold dvswap, mm_shuffle_pd. change (Z.testbit 1 0) with true. change (Z.testbit 1 1) with false. cbv iota. rewrite !lane_two by (apply lane_range; lia). split; reflexivity.
  - intros v N B. unfold dvsum, mm_add_pd. rewrite lane_lift2; [|lia|change (count 64) with 2%nat; lia|intros; apply bits_range64]. rewrite bits_back64. destruct SW as [-> _].
    destruct (plus64 (b64_of_bits (lane 64 a 0)) (b64_of_bits (lane 64 a 1))) as [E F]; [exact (N 0%nat ltac:(lia))|exact (N 1%nat ltac:(lia))|exact B|]. split; [exact F|exact E].
Qed.
Print Assumptions C181_sum.

(** -2.5f, for which the fraction that is dropped must be made good. *)
Example C180_example : let u := 3223322624 in lane 32 (mm_set1 32 u) 3 = u /\ number u /\ (value u = - (5 / 2))%R /\ (-2147483648 <= value u < 2147483648)%R /\
  Zfloor (value u) = -3 /\ Zceil (value u) = -2.
Proof.
  intros u. assert (E : (value u = - (5 / 2))%R).
  { unfold value, u. replace (b32_of_bits 3223322624) with (B754_finite 24 128 true 10485760 (-22) eq_refl).
    - unfold B2R, F2R. change (cond_Zopp true 10485760) with (-10485760). cbn [Fnum Fexp bpow]. change (Z.pow_pos radix2 22) with 4194304. lra.
    - apply B2FF_inj. vm_compute. reflexivity. }
  split; [vm_compute; reflexivity|]. split; [vm_compute; reflexivity|]. split; [exact E|]. rewrite E. split; [lra|]. split; [apply Zfloor_imp; cbn; lra|apply Zceil_imp; cbn; lra].
Qed.
(** -2.5f and 1.0f; a NaN and 1.0f: computed on the bits. *)
Example C181_example : let a := pack 32 [3223322624; 2143289344; 1065353216; 0] in let b := mm_set1 32 1065353216 in
  map (lane 32 (fvmin 32 a b)) [0; 1; 2; 3]%nat = [3223322624; 1065353216; 1065353216; 0] /\
  map (lane 32 (fvmax 32 a b)) [0; 1; 2; 3]%nat = [1065353216; 1065353216; 1065353216; 1065353216] /\
  map (lane 32 (fvle 32 a b)) [0; 1; 2; 3]%nat = [4294967295; 0; 4294967295; 4294967295] /\ nan 32 2143289344 /\ num 32 3223322624 /\
  bits_of_b32 (fvsum (pack 32 [3223322624; 1065353216; 1065353216; 0])) = 3204448256.
Proof. vm_compute. repeat split; reflexivity. Qed.
