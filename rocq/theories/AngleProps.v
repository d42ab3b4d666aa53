(* C98: angles and circle sectors. *)
From Coq Require Import Reals List Arith ZArith Lia Lra Psatz Bool.
From Verif Require Import Collision SphereProps.
Local Open Scope R_scope.

(** [a] and [b] are the same direction. *)
Definition same_direction (a b : R) : Prop := exists k, a = b + 2 * PI * IZR k.

Lemma bssFMod_spec : forall x m, 0 < m -> 0 <= bssFMod x m < m /\ exists k, x = bssFMod x m + m * IZR k.
Proof.
  intros x m M. unfold bssFMod. pose proof (base_Int_part (x / m)) as [A B].
  assert (E : x / m * m = x) by (field; lra). split.
  - split; nra.
  - exists (Int_part (x / m)). ring.
Qed.

Lemma fmod_pos : forall x m, 0 <= x -> fmod x m = bssFMod x m.
Proof. intros x m P. unfold fmod. replace (rle 0 x) with true; [reflexivity|]. symmetry. apply rle_true. exact P. Qed.

Lemma two_pi : 0 < 2 * PI.
Proof. pose proof PI_RGT_0. lra. Qed.

(** A distance of at most half a turn is the least. *)
Lemma least : forall d k, Rabs d <= PI -> Rabs d <= Rabs (d + 2 * PI * IZR k).
Proof.
  intros d k B. pose proof PI_RGT_0 as P. destruct (Z.eq_dec k 0) as [->|N].
  - rewrite Rmult_0_r, Rplus_0_r. lra.
  - assert (1 <= Rabs (IZR k)).
    { rewrite <- abs_IZR. apply IZR_le. lia. }
    assert (2 * PI <= Rabs (2 * PI * IZR k)) by (rewrite Rabs_mult, (Rabs_right (2 * PI)) by lra; nra).
    pose proof (Rabs_triang (d + 2 * PI * IZR k) (- d)) as T. rewrite Rabs_Ropp in T.
    replace (d + 2 * PI * IZR k + - d) with (2 * PI * IZR k) in T by ring. lra.
Qed.

Lemma AngleDist_spec : forall a b, 0 <= AngleDist a b <= PI /\ exists k, AngleDist a b = Rabs (a - b + 2 * PI * IZR k).
Proof.
  intros a b. pose proof two_pi as P. unfold AngleDist. rewrite fmod_pos by apply Rabs_pos.
  destruct (bssFMod_spec (Rabs (a - b)) (2 * PI) P) as [B [k E]]. set (r := bssFMod (Rabs (a - b)) (2 * PI)) in *.
  split; [unfold Rabs; destruct (Rcase_abs (r - PI)); lra|].
  (* the distance is r or 2 PI - r *)
  assert (D : exists j, PI - Rabs (r - PI) = Rabs (Rabs (a - b) + 2 * PI * IZR j)).
  { unfold Rabs at 1. destruct (Rcase_abs (r - PI)) as [L|L].
    - exists (- k)%Z. rewrite E, opp_IZR. replace (r + 2 * PI * IZR k + 2 * PI * - IZR k) with r by ring. rewrite Rabs_right by lra. ring.
    - exists (- k - 1)%Z. rewrite E, minus_IZR, opp_IZR.
      replace (r + 2 * PI * IZR k + 2 * PI * (- IZR k - 1)) with (- (2 * PI - r)) by ring. rewrite Rabs_Ropp, Rabs_right by lra. ring. }
  destruct D as [j ->]. unfold Rabs at 2. destruct (Rcase_abs (a - b)) as [L|L].
  - exists (- j)%Z. rewrite opp_IZR. rewrite <- Rabs_Ropp. f_equal. ring.
  - exists j. reflexivity.
Qed.

Theorem C98_AngleDist : forall a b,
  0 <= AngleDist a b <= PI /\
  (* it is attained, and nothing is closer *)
  (exists a', same_direction a' a /\ AngleDist a b = Rabs (a' - b)) /\
  (forall a' b', same_direction a' a -> same_direction b' b -> AngleDist a b <= Rabs (a' - b')) /\
  AngleDist b a = AngleDist a b.
Proof.
  intros a b. destruct (AngleDist_spec a b) as [B [k E]]. split; [exact B|].
  assert (LE : forall a b a' b', same_direction a' a -> same_direction b' b -> AngleDist a b <= Rabs (a' - b')).
  { clear a b B k E. intros a b a' b' [i ->] [j ->]. destruct (AngleDist_spec a b) as [B [k E]]. rewrite E.
    replace (a + 2 * PI * IZR i - (b + 2 * PI * IZR j)) with (a - b + 2 * PI * IZR k + 2 * PI * IZR (i - j - k)) by (rewrite !minus_IZR; ring).
    apply least. rewrite <- E. apply B. }
  assert (ATT : forall a b, exists a', same_direction a' a /\ AngleDist a b = Rabs (a' - b)).
  { clear a b B k E. intros a b. destruct (AngleDist_spec a b) as [B [k E]]. exists (a + 2 * PI * IZR k). split; [exists k; reflexivity|].
    rewrite E. f_equal. ring. }
  split; [apply ATT|]. split; [apply LE|].
  assert (R : forall x, same_direction x x) by (intros; exists 0%Z; ring).
  apply Rle_antisym.
  - destruct (ATT a b) as [a' [S ->]]. rewrite Rabs_minus_sym. apply LE; [apply R|exact S].
  - destruct (ATT b a) as [b' [S ->]]. rewrite Rabs_minus_sym. apply LE; [apply R|exact S].
Qed.
Print Assumptions C98_AngleDist.

(** The signed distance leads from [a] to [b]. *)
Theorem C98_AngleDistSigned : forall a b,
  - PI <= AngleDistSigned a b < PI /\ same_direction (a + AngleDistSigned a b) b /\
  Rabs (AngleDistSigned a b) = AngleDist a b.
Proof.
  intros a b. pose proof two_pi as P. unfold AngleDistSigned.
  destruct (bssFMod_spec (b - a) (2 * PI) P) as [B [k E]]. set (r := bssFMod (b - a) (2 * PI)) in *.
  rewrite fmod_pos by lra. destruct (bssFMod_spec (r + PI) (2 * PI) P) as [B' [k' E']]. set (r' := bssFMod (r + PI) (2 * PI)) in *.
  assert (S : same_direction (a + (r' - PI)) b).
  { exists (- k - k')%Z. rewrite minus_IZR, opp_IZR. lra. }
  split; [lra|]. split; [exact S|]. destruct (AngleDist_spec a b) as [BD [j EJ]]. apply Rle_antisym.
  - rewrite EJ. destruct S as [i S]. rewrite <- (Rabs_Ropp (a - b + _)).
    replace (- (a - b + 2 * PI * IZR j)) with (r' - PI + 2 * PI * IZR (- i - j)) by (rewrite minus_IZR, opp_IZR; lra).
    apply least. unfold Rabs. destruct (Rcase_abs (r' - PI)); lra.
  - destruct (C98_AngleDist a b) as [_ [_ [LE _]]]. 
    replace (Rabs (r' - PI)) with (Rabs (a - (a + (r' - PI)))) by (rewrite <- Rabs_Ropp; f_equal; ring).
    apply LE; [exists 0%Z; ring|exact S].
Qed.
Print Assumptions C98_AngleDistSigned.

(** The remainder is between zero and the modulus whatever the sign of the argument. *)
Theorem C98_bssFMod : forall x m, 0 < m -> 0 <= bssFMod x m < m /\ exists k, x = bssFMod x m + m * IZR k.
Proof. exact bssFMod_spec. Qed.
Print Assumptions C98_bssFMod.

Example C98_example : AngleDist (PI / 4) (7 * PI / 4) = PI / 2 /\ AngleDistSigned (7 * PI / 4) (PI / 4) = PI / 2.
Proof.
  pose proof PI_RGT_0 as P.
  assert (I : forall x k, IZR k <= x < IZR k + 1 -> Int_part x = k).
  { intros x k B. unfold Int_part. rewrite <- (tech_up x (k + 1)); [lia| |]; rewrite plus_IZR; lra. }
  split.
  - unfold AngleDist. rewrite fmod_pos by apply Rabs_pos. replace (PI / 4 - 7 * PI / 4) with (- (3 / 2 * PI)) by field.
    rewrite Rabs_Ropp, (Rabs_right (3 / 2 * PI)) by lra. unfold bssFMod.
    rewrite (I _ 0%Z) by (replace (3 / 2 * PI / (2 * PI)) with (3 / 4) by (field; lra); lra).
    replace (3 / 2 * PI - 0 * (2 * PI) - PI) with (PI / 2) by field. rewrite Rabs_right by lra. field.
  - unfold AngleDistSigned.
    assert (E : bssFMod (PI / 4 - 7 * PI / 4) (2 * PI) = PI / 2).
    { unfold bssFMod. rewrite (I _ (-1)%Z); [field|].
      replace ((PI / 4 - 7 * PI / 4) / (2 * PI)) with (- (3 / 4)) by (field; lra). lra. }
    rewrite E. rewrite fmod_pos by lra. unfold bssFMod. rewrite (I _ 0%Z); [field|].
    replace ((PI / 2 + PI) / (2 * PI)) with (3 / 4) by (field; lra). lra.
Qed.

(* ------------------------------------------------------------------ sectors *)

Lemma atan2_polar : forall x y r, 0 < r -> x * x + y * y = r * r -> r * cos (atan2 y x) = x /\ r * sin (atan2 y x) = y.
Proof.
  intros x y r R0 E. unfold atan2.
  assert (K : x <> 0 -> exists c, 0 < c /\ cos (atan (y / x)) = c /\ sin (atan (y / x)) = c * (y / x) /\ (c * r) * (c * r) = x * x).
  { intros N. exists (cos (atan (y / x))). pose proof (atan_bound (y / x)) as B.
    assert (C : 0 < cos (atan (y / x))) by (apply cos_gt_0; lra).
    assert (T : sin (atan (y / x)) = cos (atan (y / x)) * (y / x)).
    { pose proof (tan_atan (y / x)) as T. unfold tan in T. rewrite <- T at 3. field. lra. }
    split; [exact C|]. split; [reflexivity|]. split; [exact T|].
    pose proof (sin2_cos2 (atan (y / x))) as SC. unfold Rsqr in SC. rewrite T in SC. set (c := cos (atan (y / x))) in *.
    replace (c * r * (c * r)) with (c * c * (r * r)) by ring. rewrite <- E.
    replace (x * x) with (x * x * 1) at 2 by ring. rewrite <- SC. field. exact N. }
  destruct (rlt 0 x) eqn:L; [apply rlt_true in L|apply rlt_false in L].
  - destruct (K ltac:(lra)) as [c [C [EC [ES Q]]]]. rewrite EC, ES.
    assert (F : c * r = x) by (apply Rsqr_inj; [nra|lra|exact Q]).
    split; [rewrite Rmult_comm; exact F|]. replace (r * (c * (y / x))) with ((c * r) * (y / x)) by ring. rewrite F. field. lra.
  - destruct (rlt x 0) eqn:L'; [apply rlt_true in L'|apply rlt_false in L'].
    + destruct (K ltac:(lra)) as [c [C [EC [ES Q]]]].
      assert (F : c * r = - x) by (apply Rsqr_inj; [nra|lra|unfold Rsqr; lra]).
      assert (G : r * - c = x /\ r * - (c * (y / x)) = y).
      { split; [lra|]. replace (r * - (c * (y / x))) with (- (c * r) * (y / x)) by ring. rewrite F. field. lra. }
      destruct (rle 0 y).
      * rewrite neg_cos, neg_sin, EC, ES. exact G.
      * replace (atan (y / x) - PI) with (- (PI - atan (y / x))) by ring. rewrite cos_neg, sin_neg.
        rewrite sin_PI_x. replace (cos (PI - atan (y / x))) with (- cos (atan (y / x))).
        2: { rewrite <- (cos_neg (PI - atan (y / x))). replace (- (PI - atan (y / x))) with (atan (y / x) - PI) by ring.
             rewrite cos_minus, cos_PI, sin_PI. ring. }
        rewrite EC, ES. exact G.
    + assert (x = 0) by lra. subst x.
      assert (NY : y <> 0) by (intros ->; nra).
      destruct (rlt 0 y) eqn:M; [apply rlt_true in M|apply rlt_false in M].
      * rewrite cos_PI2, sin_PI2. assert (r = y) by (apply Rsqr_inj; [lra|lra|unfold Rsqr; lra]). split; lra.
      * destruct (rlt y 0) eqn:M'; [apply rlt_true in M'|apply rlt_false in M'; lra].
        rewrite cos_neg, sin_neg, cos_PI2, sin_PI2. assert (r = - y) by (apply Rsqr_inj; [lra|lra|unfold Rsqr; lra]). split; lra.
Qed.

Lemma same_angle : forall a b, cos a = cos b -> sin a = sin b -> same_direction a b.
Proof.
  intros a b C S. pose proof PI_RGT_0 as P. destruct (bssFMod_spec (a - b) (2 * PI) two_pi) as [B [k E]].
  set (r := bssFMod (a - b) (2 * PI)) in *.
  assert (CR : cos r = 1).
  { assert (X : cos (a - b) = 1).
    { rewrite cos_minus, C, S. pose proof (sin2_cos2 b) as Q. unfold Rsqr in Q. lra. }
    assert (Y : sin (a - b) = 0) by (rewrite sin_minus, C, S; ring).
    rewrite E in X. destruct (Z_le_dec 0 k) as [L|L].
    - rewrite <- (Z2Nat.id k L), <- INR_IZR_INZ in X. replace (r + 2 * PI * INR (Z.to_nat k)) with (r + 2 * INR (Z.to_nat k) * PI) in X by ring.
      rewrite cos_period in X. exact X.
    - assert (W : a - b + 2 * INR (Z.to_nat (- k)) * PI = r).
      { rewrite INR_IZR_INZ, Z2Nat.id by lia. rewrite opp_IZR. lra. }
      rewrite <- W. rewrite cos_period. rewrite E. exact X. }
  assert (R : r = 0).
  { destruct (Req_dec r 0) as [Z|N]; [exact Z|]. exfalso.
    assert (Q : 0 < sin (r / 2)) by (apply sin_gt_0; lra).
    assert (H : cos r = 1 - 2 * sin (r / 2) * sin (r / 2)).
    { rewrite <- cos_2a_sin. f_equal. field. }
    nra. }
  exists k. lra.
Qed.

(** The point at distance [d] and angle [a] (measured towards negative y) from the centre is in the sector when the
    distance is between the radii and the angle, up to whole turns, between [min] and [min + range]. *)
Theorem C98_CircleSectorContainsPoint : forall x y inner outer min range d a,
  0 <= inner -> 0 <= outer -> 0 <= range -> 0 < d ->
  (CircleSectorContainsPoint x y inner outer min range (x + d * cos a) (y - d * sin a) = true <->
   inner <= d <= outer /\ exists a', same_direction a' a /\ min <= a' <= min + range).
Proof.
  intros x y inner outer min range d a I0 O0 R0 D0. pose proof PI_RGT_0 as P.
  unfold CircleSectorContainsPoint, RadiusSectorContainsPoint. rewrite andb_true_iff.
  replace (x + d * cos a - x) with (d * cos a) by ring. replace (y - d * sin a - y) with (- (d * sin a)) by ring.
  assert (N : (d * cos a) * (d * cos a) + (d * sin a) * (d * sin a) = d * d).
  { pose proof (sin2_cos2 a) as Q. unfold Rsqr in Q.
    replace (d * cos a * (d * cos a) + d * sin a * (d * sin a)) with (d * d * (sin a * sin a + cos a * cos a)) by ring. rewrite Q. ring. }
  assert (A : RadiusSectorContainsPointRadius (d * cos a) (- (d * sin a)) inner outer = true <-> inner <= d <= outer).
  { unfold RadiusSectorContainsPointRadius. replace (- (d * sin a) * - (d * sin a)) with (d * sin a * (d * sin a)) by ring.
    rewrite N, andb_true_iff, !rle_true. split; intros [U V]; split; nra. }
  rewrite A. clear A.
  assert (B : RadiusSectorContainsPointAngle (d * cos a) (- (d * sin a)) min range = true <-> exists a', same_direction a' a /\ min <= a' <= min + range).
  2: { rewrite B. tauto. }
  unfold RadiusSectorContainsPointAngle. destruct (rle (2 * PI) range) eqn:L.
  - apply rle_true in L. split; [intros _|reflexivity].
    destruct (bssFMod_spec (a - min) (2 * PI) two_pi) as [B [k E]]. exists (a + 2 * PI * IZR (- k)). split; [exists (- k)%Z; reflexivity|].
    rewrite opp_IZR. lra.
  - apply rle_false in L. rewrite Ropp_involutive, rle_true. set (h := range * / 2).
    destruct (atan2_polar (d * cos a) (d * sin a) d D0 N) as [C S]. set (t := atan2 (d * sin a) (d * cos a)) in *.
    assert (T : same_direction t a) by (apply same_angle; apply (Rmult_eq_reg_l d); lra).
    destruct T as [j T].
    destruct (C98_AngleDist t (min + h)) as [_ [[a' [[i A1] A2]] [LE _]]]. split.
    + intros Q. rewrite A2 in Q. exists a'. split.
      * exists (i + j)%Z. rewrite plus_IZR. lra.
      * unfold h in *. unfold Rabs in Q. destruct (Rcase_abs (a' - (min + range * / 2))); lra.
    + intros [b [[k K] B]]. apply Rle_trans with (Rabs (b - (min + h))).
      * apply LE; [exists (k - j)%Z; rewrite minus_IZR; lra|exists 0%Z; ring].
      * unfold h, Rabs. destruct (Rcase_abs (b - (min + range * / 2))); lra.
Qed.
Print Assumptions C98_CircleSectorContainsPoint.

Example C98_sector_example : CircleSectorContainsPoint 1 1 1 3 (7 * PI / 4) (PI / 2) (1 + 2 * cos 0) (1 - 2 * sin 0) = true.
Proof.
  pose proof PI_RGT_0. apply C98_CircleSectorContainsPoint; try lra. split; [lra|].
  exists (2 * PI). split; [exists 1%Z; ring|]. lra.
Qed.
