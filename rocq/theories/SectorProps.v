(* C159: circles and circle sectors. *)
From Coq Require Import Reals List Arith ZArith Lia Lra Psatz Bool.
From Verif Require Import Collision SphereProps CircleProps LineProps AngleProps Sector.
Import ListNotations.
Local Open Scope R_scope.

(** The region: the points at a distance between the radii, at an angle (measured towards negative y) from the first one
    over the range. *)
Definition in_sector (s : sector) (p : point) : Prop :=
  exists d a, s_inner s <= d <= s_outer s /\ s_min s <= a <= s_min s + s_range s /\
    p = (s_x s + d * cos a, s_y s - d * sin a).

Definition proper (s : sector) : Prop := 0 <= s_inner s < s_outer s /\ 0 <= s_range s.

(* ------------------------------------------------------------------ polar coordinates *)

Lemma cos_turns a k : cos (a + 2 * PI * IZR k) = cos a /\ sin (a + 2 * PI * IZR k) = sin a.
Proof.
  assert (N : forall b n, cos (b + 2 * PI * INR n) = cos b /\ sin (b + 2 * PI * INR n) = sin b).
  { intros b n. replace (b + 2 * PI * INR n) with (b + 2 * INR n * PI) by ring. split; [apply cos_period|apply sin_period]. }
  destruct (Z_le_dec 0 k) as [L|L].
  - rewrite <- (Z2Nat.id k L), <- INR_IZR_INZ. apply N.
  - destruct (N (a + 2 * PI * IZR k) (Z.to_nat (- k))) as [C S].
    assert (W : a + 2 * PI * IZR k + 2 * PI * INR (Z.to_nat (- k)) = a).
    { rewrite INR_IZR_INZ, Z2Nat.id, opp_IZR by lia. ring. }
    rewrite W in C, S. split; symmetry; assumption.
Qed.

Lemma sq_cs a : cos a * cos a + sin a * sin a = 1.
Proof. pose proof (sin2_cos2 a) as Q. unfold Rsqr in Q. lra. Qed.

(** Every point has a distance and an angle in any full turn. *)
Lemma polar m u v : exists d a, 0 <= d /\ m <= a < m + 2 * PI /\ u = d * cos a /\ v = - (d * sin a) /\ d * d = u * u + v * v.
Proof.
  assert (TURN : forall d t, exists a, m <= a < m + 2 * PI /\ d * cos t = d * cos a /\ d * sin t = d * sin a).
  { intros d t. destruct (bssFMod_spec (t - m) (2 * PI) two_pi) as [B [k E]]. exists (m + bssFMod (t - m) (2 * PI)).
    split; [lra|]. set (r := bssFMod (t - m) (2 * PI)) in *. replace t with (m + r + 2 * PI * IZR k) by lra.
    destruct (cos_turns (m + r) k) as [-> ->]. split; reflexivity. }
  destruct (Req_dec (u * u + v * v) 0) as [Z|N].
  - assert (u = 0 /\ v = 0) as [-> ->] by (split; nra). exists 0, m. pose proof two_pi. repeat split; try lra.
  - assert (P : 0 < u * u + v * v) by (pose proof (Rle_0_sqr u); pose proof (Rle_0_sqr v); unfold Rsqr in *; lra).
    set (d := sqrt (u * u + v * v)). assert (D : 0 < d) by (apply sqrt_lt_R0; lra).
    assert (DD : d * d = u * u + v * v) by (apply sqrt_sqrt; lra).
    destruct (atan2_polar u (- v) d D ltac:(lra)) as [C S].
    destruct (TURN d (atan2 (- v) u)) as [a [A [CA SA]]]. exists d, a. repeat split; try lra.
Qed.

(** The points between the first and the last direction. *)
Definition wedge (m r u v : R) : Prop := exists d a, 0 <= d /\ m <= a <= m + r /\ u = d * cos a /\ v = - (d * sin a).

Lemma wedge_full m r u v : 2 * PI <= r -> wedge m r u v.
Proof. intros F. destruct (polar m u v) as [d [a [D [A [U [V _]]]]]]. exists d, a. repeat split; try lra. Qed.

Lemma wedge_zero m r : 0 <= r -> wedge m r 0 0.
Proof. intros Q. exists 0, m. repeat split; lra. Qed.

Lemma polar_norm d a : d * cos a * (d * cos a) + - (d * sin a) * - (d * sin a) = d * d.
Proof. pose proof (sq_cs a) as Q. replace (d * d) with (d * d * (cos a * cos a + sin a * sin a)) by (rewrite Q; ring). ring. Qed.

Lemma polar_unique d a d' a' : 0 < d -> 0 <= d' -> d * cos a = d' * cos a' -> d * sin a = d' * sin a' -> d = d' /\ same_direction a a'.
Proof.
  intros D D' C S. pose proof (polar_norm d a) as N. pose proof (polar_norm d' a') as N'. rewrite <- C, <- S, N in N'.
  assert (E : d = d') by (apply Rsqr_inj; [lra|lra|exact N']). split; [exact E|]. subst d'. apply same_angle; apply (Rmult_eq_reg_l d); lra.
Qed.

(** The angle test decides the wedge, away from the apex. *)
Lemma angle_test u v m r : 0 <= r -> (u <> 0 \/ v <> 0) -> (RadiusSectorContainsPointAngle u v m r = true <-> wedge m r u v).
Proof.
  intros Q N. destruct (polar m u v) as [d [a [D [A [U [V DD]]]]]].
  assert (P : 0 < u * u + v * v) by (apply sq_pos; exact N).
  assert (D1 : 0 < d) by nra.
  pose proof (C98_CircleSectorContainsPoint 0 0 0 d m r d a ltac:(lra) ltac:(lra) Q D1) as T.
  unfold CircleSectorContainsPoint, RadiusSectorContainsPoint in T. rewrite !Rplus_0_l, !Rminus_0_r, Rminus_0_l in T.
  rewrite <- U, <- V in T.
  assert (RT : RadiusSectorContainsPointRadius u v 0 d = true).
  { unfold RadiusSectorContainsPointRadius. rewrite andb_true_iff, !rle_true. lra. }
  rewrite RT in T. cbn [andb] in T. rewrite T. split.
  - intros [_ [a' [[k K] B]]]. exists d, a'. destruct (cos_turns a k) as [C S]. rewrite <- K in C, S. rewrite C, S. repeat split; lra.
  - intros [d' [a' [D' [B [U' V']]]]]. split; [lra|]. exists a'. split; [|exact B].
    assert (SD : same_direction a a') by (apply (polar_unique d a d' a'); lra). destruct SD as [k K]. exists (- k)%Z. rewrite opp_IZR. lra.
Qed.

Lemma in_sector_local s p : proper s ->
  (in_sector s p <->
   s_inner s * s_inner s <= (fst p - s_x s) * (fst p - s_x s) + (snd p - s_y s) * (snd p - s_y s) <= s_outer s * s_outer s /\
   wedge (s_min s) (s_range s) (fst p - s_x s) (snd p - s_y s)).
Proof.
  intros [IO R0]. split.
  - intros [d [a [D [A ->]]]]. cbn [fst snd]. replace (s_x s + d * cos a - s_x s) with (d * cos a) by ring.
    replace (s_y s - d * sin a - s_y s) with (- (d * sin a)) by ring. rewrite polar_norm. split; [split; nra|].
    exists d, a. repeat split; lra.
  - destruct p as [px py]. cbn [fst snd]. intros [B [d [a [D [A [U V]]]]]]. rewrite U, V, polar_norm in B.
    exists d, a. split; [split; nra|]. split; [exact A|]. f_equal; lra.
Qed.

(** The law of cosines. *)
Lemma law d a e b :
  (d * cos a - e * cos b) * (d * cos a - e * cos b) + (- (d * sin a) - - (e * sin b)) * (- (d * sin a) - - (e * sin b)) =
  d * d + e * e - 2 * d * e * cos (a - b).
Proof.
  rewrite cos_minus. pose proof (sq_cs a) as A. pose proof (sq_cs b) as B.
  replace (d * d) with (d * d * (cos a * cos a + sin a * sin a)) by (rewrite A; ring).
  replace (e * e) with (e * e * (cos b * cos b + sin b * sin b)) by (rewrite B; ring). ring.
Qed.

(** Over less than a turn, the cosine is the largest at one of the ends of an interval that does not contain zero. *)
Lemma cos_ends x y z : - (2 * PI) <= x -> z <= 0 -> x <= y <= z -> cos y <= cos x \/ cos y <= cos z.
Proof.
  intros A B C. destruct (Rle_dec y (- PI)) as [L|L].
  - left. rewrite <- (cos_neg x), <- (cos_neg y). apply cos_incr_1; lra.
  - right. rewrite <- (cos_neg y), <- (cos_neg z). apply cos_decr_1; lra.
Qed.

(* ------------------------------------------------------------------ the edges *)

(** The edge in the direction [a], seen from (X, Y). *)
Lemma edge_circle s X Y r a : proper s -> 0 <= r ->
  (intersectAngleCircle s X Y r a = true -> exists d, s_inner s <= d <= s_outer s /\
     (d * cos a - X) * (d * cos a - X) + (- (d * sin a) - Y) * (- (d * sin a) - Y) <= r * r) /\
  (forall d, s_inner s <= d <= s_outer s ->
     (d * cos a - X) * (d * cos a - X) + (- (d * sin a) - Y) * (- (d * sin a) - Y) < r * r -> intersectAngleCircle s X Y r a = true).
Proof.
  intros [IO R0] RP. unfold intersectAngleCircle. set (c := cos a). set (sn := sin a). set (i := s_inner s) in *. set (o := s_outer s) in *.
  assert (D : c * i - X <> c * o - X \/ - (sn * i) - Y <> - (sn * o) - Y).
  { pose proof (sq_cs a) as Q. fold c sn in Q. destruct (Req_dec c 0) as [Z|N].
    - right. assert (sn <> 0) by nra. intros E. apply H. assert (F : sn * (o - i) = 0) by lra. apply Rmult_integral in F. lra.
    - left. intros E. apply N. assert (F : c * (o - i) = 0) by lra. apply Rmult_integral in F. lra. }
  assert (AT : forall t, line_at (c * i - X) (- (sn * i) - Y) (c * o - X) (- (sn * o) - Y) t =
                         ((i + t * (o - i)) * c - X, - ((i + t * (o - i)) * sn) - Y)) by (intros; unfold line_at; f_equal; ring).
  split.
  - destruct (LineSegmentRadiusCollide (c * i - X) (- (sn * i) - Y) (c * o - X) (- (sn * o) - Y) r) eqn:L.
    + intros _. apply C89_LineSegmentRadiusCollide_partial in L; [|exact D]. destruct L as [p [[t [T ->]] C]]. rewrite AT in C.
      exists (i + t * (o - i)). split; [split; nra|]. unfold on_circle in C. cbn [fst snd] in C. rewrite !Rminus_0_r in C. lra.
    + intros Q. apply rlt_true in Q. exists i. split; [lra|]. rewrite !(Rmult_comm i). lra.
  - intros d B Q. destruct (LineSegmentRadiusCollide (c * i - X) (- (sn * i) - Y) (c * o - X) (- (sn * o) - Y) r) eqn:L; [reflexivity|].
    apply rlt_true. apply Rnot_le_lt. intros F.
    pose proof (parametric (c * i - X) (- (sn * i) - Y) (c * o - X) (- (sn * o) - Y) r D) as PA. unfold LineSegmentRadiusCollide in L.
    set (t := (d - i) / (o - i)).
    assert (T : 0 <= t <= 1).
    { unfold t. split; [apply Rmult_le_pos; [lra|left; apply Rinv_0_lt_compat; lra]|].
      apply (Rmult_le_reg_r (o - i)); [lra|]. unfold Rdiv. rewrite Rmult_assoc, Rinv_l by lra. lra. }
    assert (TD : i + t * (o - i) = d) by (unfold t; field; lra).
    assert (PT : forall w, (c * i - X + w * (c * o - X - (c * i - X))) * (c * i - X + w * (c * o - X - (c * i - X))) +
       (- (sn * i) - Y + w * (- (sn * o) - Y - (- (sn * i) - Y))) * (- (sn * i) - Y + w * (- (sn * o) - Y - (- (sn * i) - Y))) =
       ((i + w * (o - i)) * c - X) * ((i + w * (o - i)) * c - X) + (- ((i + w * (o - i)) * sn) - Y) * (- ((i + w * (o - i)) * sn) - Y)) by (intros; ring).
    destruct (LineRadiusParametricIntersect (c * i - X) (- (sn * i) - Y) (c * o - X) (- (sn * o) - Y) r) as [[t0 t1]|].
    + destruct PA as [L01 [k [K PA]]]. pose proof (PA t) as At. rewrite PT, TD in At. pose proof (PA 0) as A0. rewrite PT in A0.
      replace (i + 0 * (o - i)) with i in A0 by ring. rewrite !(Rmult_comm i) in A0.
      assert (N : k * ((t - t0) * (t - t1)) < 0) by lra.
      assert (N' : (t - t0) * (t - t1) < 0) by nra.
      assert (M : 0 <= k * ((0 - t0) * (0 - t1))) by lra.
      assert (M' : 0 <= (0 - t0) * (0 - t1)) by nra.
      assert (t0 < t < t1) by (split; nra).
      assert (0 <= t0) by nra.
      rewrite (proj2 (rle_true 0 t0)), (proj2 (rle_true t0 1)) in L by lra. discriminate.
    + specialize (PA t). rewrite PT, TD in PA. lra.
Qed.

Lemma rsq_le x y : 0 <= y -> x * x <= y * y -> x <= y.
Proof. intros. nra. Qed.

(* ------------------------------------------------------------------ C159 *)

Definition sqdist2 (p q : point) : R := (fst p - fst q) * (fst p - fst q) + (snd p - snd q) * (snd p - snd q).

(** A circle reported has a point of the region at most its radius away; a circle with such a point closer than its
    radius is reported. *)
Theorem C159_circle : forall s X Y r, proper s -> 0 <= r ->
  (sectorCircleCollide s X Y r = true -> exists p, in_sector s p /\ sqdist2 p (X, Y) <= r * r) /\
  ((exists p, in_sector s p /\ sqdist2 p (X, Y) < r * r) -> sectorCircleCollide s X Y r = true).
Proof.
  intros s X0 Y0 r PS RP. pose proof PS as [IO R0]. pose proof PI_RGT_0 as PI0. unfold sectorCircleCollide.
  set (i := s_inner s) in *. set (o := s_outer s) in *. set (m := s_min s) in *. set (rg := s_range s) in *.
  (* everything relative to the apex *)
  assert (REL : forall d a, sqdist2 (s_x s + d * cos a, s_y s - d * sin a) (X0, Y0) =
     (d * cos a - (X0 - s_x s)) * (d * cos a - (X0 - s_x s)) + (- (d * sin a) - (Y0 - s_y s)) * (- (d * sin a) - (Y0 - s_y s)))
    by (intros; unfold sqdist2; cbn [fst snd]; ring).
  assert (EX : forall d a, i <= d <= o -> m <= a <= m + rg ->
     (d * cos a - (X0 - s_x s)) * (d * cos a - (X0 - s_x s)) + (- (d * sin a) - (Y0 - s_y s)) * (- (d * sin a) - (Y0 - s_y s)) <= r * r ->
     exists p, in_sector s p /\ sqdist2 p (X0, Y0) <= r * r).
  { intros d a D A Q. exists (s_x s + d * cos a, s_y s - d * sin a). split; [exists d, a; auto|]. rewrite REL. exact Q. }
  set (X := X0 - s_x s) in *. set (Y := Y0 - s_y s) in *. clearbody X Y.
  destruct (polar m X Y) as [D [b [D0 [B [UX [VY DD]]]]]]. rewrite <- DD.
  assert (LAW : forall d a, (d * cos a - X) * (d * cos a - X) + (- (d * sin a) - Y) * (- (d * sin a) - Y) = d * d + D * D - 2 * d * D * cos (a - b)).
  { intros d a. rewrite UX, VY. apply law. }
  (* the circles *)
  assert (NEAR : forall d a, 0 <= d -> d * d + D * D - 2 * d * D * cos (a - b) >= (d - D) * (d - D)).
  { intros d a Q. pose proof (COS_bound (a - b)) as CB. assert (0 <= d * D) by nra. nra. }
  (* a point on the ray through the centre *)
  assert (RAY : forall a, m <= a <= m + rg -> (D = 0 \/ cos (a - b) = 1) -> D <= r + o -> i - r <= D ->
            exists p, in_sector s p /\ sqdist2 p (X0, Y0) <= r * r).
  { intros a A C H1 H2.
    assert (K : forall d, i <= d <= o -> (d - D) * (d - D) <= r * r -> exists p, in_sector s p /\ sqdist2 p (X0, Y0) <= r * r).
    { intros d Q1 Q2. apply (EX d a Q1 A). rewrite LAW. destruct C as [->|C]; [lra|rewrite C; lra]. }
    destruct (Rle_dec D i) as [L|L]; [apply (K i); [lra|nra]|]. destruct (Rle_dec o D) as [L'|L']; [apply (K o); [lra|nra]|].
    apply (K D); [lra|]. nra. }
  destruct (rlt ((r + o) * (r + o)) (D * D)) eqn:E1; [apply rlt_true in E1|apply rlt_false in E1].
  { split; [discriminate|]. intros [p [[d [a [Q [A ->]]]] F]]. rewrite REL, LAW in F. fold i o in Q. specialize (NEAR d a ltac:(lra)). exfalso. assert (r + o < D) by nra. nra. }
  assert (T1 : D <= r + o) by (apply rsq_le; lra).
  destruct (rlt 0 i && (rlt 0 (i - r) && rlt (D * D) ((i - r) * (i - r)))) eqn:E2.
  { rewrite !andb_true_iff, !rlt_true in E2. split; [discriminate|]. intros [p [[d [a [Q [A ->]]]] F]]. rewrite REL, LAW in F. fold i o in Q.
    specialize (NEAR d a ltac:(lra)). exfalso. assert (D < i - r) by nra. nra. }
  assert (T2 : i - r <= D).
  { apply Rnot_lt_le. intros F. assert (0 < i) by lra. assert (0 < i - r) by lra. assert (D * D < (i - r) * (i - r)) by nra.
    rewrite !(proj2 (rlt_true _ _)) in E2 by assumption. discriminate. }
  clear E1 E2. destruct (rle (2 * PI) rg) eqn:E3; [apply rle_true in E3|apply rle_false in E3].
  { split; [intros _|reflexivity]. apply (RAY b); try lra. right. rewrite Rminus_diag_eq by reflexivity. apply cos_0. }
  destruct (RadiusSectorContainsPointAngle X Y m rg) eqn:E4.
  { split; [intros _|reflexivity]. destruct (Req_dec D 0) as [Z|N]; [apply (RAY m); lra|].
    apply angle_test in E4; [|lra|destruct (Req_dec X 0); [right|left]; nra]. destruct E4 as [d [a [Q [A [U V]]]]].
    apply (RAY a A); try lra. right. assert (SD : same_direction b a) by (apply (polar_unique D b d a); lra).
    destruct SD as [k K]. replace (a - b) with (0 + 2 * PI * IZR (- k)) by (rewrite opp_IZR; lra). rewrite (proj1 (cos_turns 0 (- k))). apply cos_0. }
  (* the edges are the nearest *)
  destruct (edge_circle s X Y r m PS RP) as [S1 C1]. destruct (edge_circle s X Y r (m + rg) PS RP) as [S2 C2]. fold i o in S1, S2, C1, C2.
  destruct (intersectAngleCircle s X Y r m) eqn:E5.
  { split; [intros _|reflexivity]. destruct (S1 eq_refl) as [d [Q F]]. apply (EX d m Q); [lra|exact F]. }
  destruct (intersectAngleCircle s X Y r (m + rg)) eqn:E6.
  { split; [intros _|reflexivity]. destruct (S2 eq_refl) as [d [Q F]]. apply (EX d (m + rg) Q); [lra|exact F]. }
  split; [discriminate|]. intros [p [[d [a [Q [A ->]]]] F]]. rewrite REL, LAW in F. fold i o in Q. fold m rg in A. exfalso.
  assert (W : ~ (cos (a - b) <= cos (m - b) \/ cos (a - b) <= cos (m + rg - b))).
  { intros [W|W]; [specialize (C1 d Q)|specialize (C2 d Q)]; rewrite LAW in *;
      assert (0 <= d * D) by nra; [specialize (C1 ltac:(nra))|specialize (C2 ltac:(nra))]; discriminate. }
  apply W. destruct (Req_dec D 0) as [Z|N].
  - exfalso. specialize (C1 d Q). rewrite LAW, Z in C1. rewrite Z in F. specialize (C1 ltac:(lra)). discriminate.
  - assert (OUT : m + rg < b).
    { apply Rnot_le_lt. intros L. assert (WE : wedge m rg X Y) by (exists D, b; repeat split; lra).
      apply angle_test in WE; [congruence|lra|destruct (Req_dec X 0); [right|left]; nra]. }
    apply cos_ends; lra.
Qed.
Print Assumptions C159_circle.

(** The constructor keeps the region, whatever multiple of a turn is in the first angle. *)
Theorem C159_constructor : forall x y inner outer min range p,
  0 <= s_min (makeSector x y inner outer min range) < 2 * PI /\
  (in_sector (makeSector x y inner outer min range) p <-> in_sector (mkSector x y inner outer min range) p).
Proof.
  intros x y inner outer min range p. destruct (bssFMod_spec min (2 * PI) two_pi) as [B [k E]].
  split; [exact B|]. unfold in_sector, makeSector. cbn [s_x s_y s_inner s_outer s_min s_range]. set (m := bssFMod min (2 * PI)) in *. split.
  - intros [d [a [D [A ->]]]]. exists d, (a + 2 * PI * IZR k). split; [exact D|]. split; [lra|].
    destruct (cos_turns a k) as [-> ->]. reflexivity.
  - intros [d [a [D [A ->]]]]. exists d, (a + 2 * PI * IZR (- k)). split; [exact D|]. split; [rewrite opp_IZR; lra|].
    destruct (cos_turns a (- k)) as [-> ->]. reflexivity.
Qed.
Print Assumptions C159_constructor.

(** A quarter of a ring, from the positive x axis towards negative y: the first circle reaches an edge from outside the
    range of angles; the second is in the hole. *)
Example C159_example :
  sectorCircleCollide (mkSector 0 0 1 3 0 (PI / 2)) 2 1 2 = true /\ sectorCircleCollide (mkSector 0 0 1 3 0 (PI / 2)) 0 0 (/ 2) = false.
Proof.
  pose proof PI_RGT_0 as P. split.
  - apply C159_circle; [split; cbn; lra|lra|]. exists (2, 0). split.
    + exists 2, 0. cbn. rewrite cos_0, sin_0. repeat split; try lra. f_equal; lra.
    + unfold sqdist2. cbn. lra.
  - apply not_true_is_false. intros T. apply C159_circle in T; [|split; cbn; lra|lra]. destruct T as [p [[d [a [D [A ->]]]] F]].
    unfold sqdist2 in F. cbn in D, F. rewrite !Rplus_0_l, !Rminus_0_r, Rminus_0_l in F. pose proof (polar_norm d a) as N. nra.
Qed.
