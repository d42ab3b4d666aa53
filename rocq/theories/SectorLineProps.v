(* C160: segments, polygons and circle sectors. *)
From Coq Require Import Reals List Arith ZArith Lia Lra Psatz Bool.
From Verif Require Import Collision SphereProps CircleProps LineProps AngleProps Sector SectorProps.
Import ListNotations.
Local Open Scope R_scope.

(** On which side of the direction [k] the point is: positive towards larger angles. *)
Definition side_of (k u v : R) : R := - (cos k * v) - sin k * u.

Lemma side_polar k d a : side_of k (d * cos a) (- (d * sin a)) = d * sin (a - k).
Proof. unfold side_of. rewrite sin_minus. ring. Qed.

Lemma wedge_low m r u v : 0 < r <= PI -> (wedge m r u v <-> 0 <= side_of m u v /\ side_of (m + r) u v <= 0).
Proof.
  intros B. pose proof PI_RGT_0 as P. destruct (polar m u v) as [d [a [D [A [U [V DD]]]]]]. split.
  - intros [d' [a' [D' [A' [-> ->]]]]]. rewrite !side_polar. split.
    + apply Rmult_le_pos; [exact D'|]. apply sin_ge_0; lra.
    + assert (0 <= sin (m + r - a')) by (apply sin_ge_0; lra). replace (a' - (m + r)) with (- (m + r - a')) by ring. rewrite sin_neg. nra.
  - rewrite U, V, !side_polar. intros [S1 S2]. destruct (Req_dec d 0) as [->|N].
    + rewrite !Rmult_0_l, Ropp_0. apply wedge_zero. lra.
    + exists d, a. repeat split; try lra. apply Rnot_lt_le. intros F.
      assert (L : a - m <= PI).
      { apply Rnot_lt_le. intros G. assert (sin (a - m) < 0) by (apply sin_lt_0; lra). nra. }
      assert (0 < sin (a - (m + r))) by (apply sin_gt_0; lra). nra.
Qed.

Lemma wedge_high m r u v : PI < r < 2 * PI -> (wedge m r u v <-> 0 <= side_of m u v \/ side_of (m + r) u v <= 0).
Proof.
  intros B. pose proof PI_RGT_0 as P. destruct (polar m u v) as [d [a [D [A [U [V DD]]]]]]. split.
  - intros [d' [a' [D' [A' [-> ->]]]]]. rewrite !side_polar. destruct (Rle_dec (a' - m) PI) as [L|L].
    + left. apply Rmult_le_pos; [exact D'|]. apply sin_ge_0; lra.
    + right. assert (0 <= sin (m + r - a')) by (apply sin_ge_0; lra). replace (a' - (m + r)) with (- (m + r - a')) by ring. rewrite sin_neg. nra.
  - rewrite U, V, !side_polar. intros S12. destruct (Req_dec d 0) as [->|N].
    + rewrite !Rmult_0_l, Ropp_0. apply wedge_zero. lra.
    + exists d, a. repeat split; try lra. apply Rnot_lt_le. intros F. destruct S12 as [Q|Q].
      * assert (sin (a - m) < 0) by (apply sin_lt_0; lra). nra.
      * assert (0 < sin (a - (m + r))) by (apply sin_gt_0; lra). nra.
Qed.

Lemma on_direction k u v : side_of k u v = 0 -> let s := u * cos k - v * sin k in u = s * cos k /\ v = - (s * sin k) /\ s * s = u * u + v * v.
Proof.
  intros Z. cbn zeta. unfold side_of in Z. pose proof (sq_cs k) as Q.
  assert (E1 : (u * cos k - v * sin k) * cos k = u).
  { replace ((u * cos k - v * sin k) * cos k) with (u * (cos k * cos k) - (cos k * v) * sin k) by ring. replace (cos k * v) with (- (sin k * u)) by lra.
    replace (cos k * cos k) with (1 - sin k * sin k) by lra. ring. }
  assert (E2 : - ((u * cos k - v * sin k) * sin k) = v).
  { replace (- ((u * cos k - v * sin k) * sin k)) with (v * (sin k * sin k) - (sin k * u) * cos k) by ring. replace (sin k * u) with (- (cos k * v)) by lra.
    replace (sin k * sin k) with (1 - cos k * cos k) by lra. ring. }
  split; [lra|]. split; [lra|]. set (s := u * cos k - v * sin k) in *. rewrite <- E1, <- E2. pose proof (polar_norm s k). lra.
Qed.

Lemma sum_zero u v : u * u + v * v = 0 -> u = 0 /\ v = 0.
Proof. intros Q. split; nra. Qed.

(* ------------------------------------------------------------------ intermediate values *)

Lemma continuity_min f g : continuity f -> continuity g -> continuity (fun t => Rmin (f t) (g t)).
Proof.
  intros F G. assert (E : forall t, Rmin (f t) (g t) = ((f t + g t) - Rabs (f t - g t)) * / 2).
  { intros t. unfold Rmin, Rabs. destruct (Rle_dec (f t) (g t)), (Rcase_abs (f t - g t)); lra. }
  intros x. apply (continuity_pt_locally_ext (fun t => ((f t + g t) - Rabs (f t - g t)) * / 2) _ 1); [lra|intros; symmetry; apply E|].
  apply (continuity_mult (fun t => (f t + g t) - Rabs (f t - g t)) (fun _ => / 2)); [|apply continuity_const; intros ? ?; reflexivity].
  apply (continuity_minus (fun t => f t + g t) (fun t => Rabs (f t - g t))); [apply (continuity_plus f g); assumption|].
  apply (continuity_comp (fun t => f t - g t) Rabs); [apply (continuity_minus f g); assumption|apply Rcontinuity_abs].
Qed.

Lemma continuity_max f g : continuity f -> continuity g -> continuity (fun t => Rmax (f t) (g t)).
Proof.
  intros F G. assert (E : forall t, Rmax (f t) (g t) = ((f t + g t) + Rabs (f t - g t)) * / 2).
  { intros t. unfold Rmax, Rabs. destruct (Rle_dec (f t) (g t)), (Rcase_abs (f t - g t)); lra. }
  intros x. apply (continuity_pt_locally_ext (fun t => ((f t + g t) + Rabs (f t - g t)) * / 2) _ 1); [lra|intros; symmetry; apply E|].
  apply (continuity_mult (fun t => (f t + g t) + Rabs (f t - g t)) (fun _ => / 2)); [|apply continuity_const; intros ? ?; reflexivity].
  apply (continuity_plus (fun t => f t + g t) (fun t => Rabs (f t - g t))); [apply (continuity_plus f g); assumption|].
  apply (continuity_comp (fun t => f t - g t) Rabs); [apply (continuity_minus f g); assumption|apply Rcontinuity_abs].
Qed.

Lemma min_nonneg x y : 0 <= Rmin x y <-> 0 <= x /\ 0 <= y.
Proof. unfold Rmin. destruct (Rle_dec x y); lra. Qed.
Lemma max_nonneg x y : 0 <= Rmax x y <-> 0 <= x \/ 0 <= y.
Proof. unfold Rmax. destruct (Rle_dec x y); split; intros; lra. Qed.
Lemma min_zero x y : Rmin x y = 0 -> (x = 0 /\ 0 <= y) \/ (y = 0 /\ 0 <= x).
Proof. unfold Rmin. destruct (Rle_dec x y); lra. Qed.
Lemma max_zero x y : Rmax x y = 0 -> (x = 0 /\ y <= 0) \/ (y = 0 /\ x <= 0).
Proof. unfold Rmax. destruct (Rle_dec x y); lra. Qed.

Lemma first_zero F t : continuity F -> 0 <= t -> F 0 < 0 -> 0 <= F t -> exists z, 0 <= z <= t /\ F z = 0.
Proof. intros C T A B. destruct (IVT_cor F 0 t C T ltac:(nra)) as [z [Z E]]. exists z. auto. Qed.

(* ------------------------------------------------------------------ what _intersectLine finds *)

Section Line.
Context (s : sector) (PS : proper s) (R0 : 0 < s_range s).
Context (X1 Y1 X2 Y2 : R) (NE : X1 <> X2 \/ Y1 <> Y2).
Local Notation i := (s_inner s).
Local Notation o := (s_outer s).
Local Notation m := (s_min s).
Local Notation r := (s_range s).

Let U t := X1 + t * (X2 - X1).
Let V t := Y1 + t * (Y2 - Y1).
(** The region, relative to the apex. *)
Definition region u v := i * i <= u * u + v * v <= o * o /\ wedge m r u v.

Lemma intersectLine_true : intersectLine s X1 Y1 X2 Y2 = true <->
  checkAngles (LineSegmentRadiusIntersect X1 Y1 X2 Y2 o) m r = true \/
  (0 < i /\ checkAngles (LineSegmentRadiusIntersect X1 Y1 X2 Y2 i) m r = true) \/
  lineRayIntersect X1 Y1 X2 Y2 i o m = true \/ lineRayIntersect X1 Y1 X2 Y2 i o (m + r) = true.
Proof.
  clear PS R0 NE. unfold intersectLine. rewrite <- rlt_true. destruct (checkAngles (LineSegmentRadiusIntersect X1 Y1 X2 Y2 o) m r); [tauto|].
  destruct (rlt 0 i), (checkAngles (LineSegmentRadiusIntersect X1 Y1 X2 Y2 i) m r); cbn [andb]; try tauto;
    destruct (lineRayIntersect X1 Y1 X2 Y2 i o m); try tauto; destruct (lineRayIntersect X1 Y1 X2 Y2 i o (m + r)); try tauto;
    intuition discriminate.
Qed.

Lemma arc rad : 0 < rad -> (checkAngles (LineSegmentRadiusIntersect X1 Y1 X2 Y2 rad) m r = true <->
  exists t, 0 <= t <= 1 /\ U t * U t + V t * V t = rad * rad /\ wedge m r (U t) (V t)).
Proof.
  intros RP. unfold checkAngles. rewrite existsb_exists.
  assert (NZ : forall t, U t * U t + V t * V t = rad * rad -> U t <> 0 \/ V t <> 0).
  { intros t E. destruct (Req_dec (U t) 0) as [Z|Z]; [right; rewrite Z in E; nra|left; exact Z]. }
  split.
  - intros [p [I A]]. apply (C89_intersections X1 Y1 X2 Y2 rad p NE) in I. destruct I as [[t [T ->]] C]. exists t. split; [exact T|].
    unfold on_circle, line_at in C. cbn [fst snd] in C. rewrite !Rminus_0_r in C. fold (U t) (V t) in C. split; [exact C|].
    unfold line_at in A. cbn [fst snd] in A. fold (U t) (V t) in A. apply angle_test in A; [exact A|lra|apply NZ; exact C].
  - intros [t [T [C W]]]. exists (line_at X1 Y1 X2 Y2 t). split.
    + apply (C89_intersections X1 Y1 X2 Y2 rad _ NE). split; [exists t; auto|]. unfold on_circle, line_at. cbn [fst snd]. rewrite !Rminus_0_r. exact C.
    + unfold line_at. cbn [fst snd]. fold (U t) (V t). apply angle_test; [lra|apply NZ; exact C|exact W].
Qed.

Lemma side_line k t : side_of k (U t) (V t) = side_of k X1 Y1 + t * (side_of k X2 Y2 - side_of k X1 Y1).
Proof. unfold side_of, U, V. ring. Qed.

Lemma edge_sound k : lineRayIntersect X1 Y1 X2 Y2 i o k = true -> exists t d, 0 <= t <= 1 /\ i <= d <= o /\ U t = d * cos k /\ V t = - (d * sin k).
Proof.
  intros L. unfold lineRayIntersect in L. destruct PS as [IO _].
  destruct (C91_LineSegmentLineSegmentCollide_partial (cos k * i) (- sin k * i) (cos k * o) (- sin k * o) X1 Y1 X2 Y2) as [C N].
  destruct (Req_dec ((cos k * o - cos k * i) * (Y2 - Y1)) ((X2 - X1) * (- sin k * o - - sin k * i))) as [E|E].
  - rewrite N in L; [discriminate|]. unfold crossing. tauto.
  - apply (C E) in L. destruct L as [p [[w [W ->]] [t [T P]]]]. unfold line_at in P. injection P as P1 P2.
    exists t, (i + w * (o - i)). split; [exact T|]. split; [split; nra|]. unfold U, V. rewrite <- P1, <- P2. split; ring.
Qed.

Lemma edge_complete k t d : 0 <= t <= 1 -> i <= d <= o -> U t = d * cos k -> V t = - (d * sin k) ->
  (side_of k X1 Y1 <> 0 \/ side_of k X2 Y2 <> 0) -> lineRayIntersect X1 Y1 X2 Y2 i o k = true.
Proof.
  intros T D EU EV N. unfold lineRayIntersect. destruct PS as [IO _].
  assert (Z : side_of k X1 Y1 + t * (side_of k X2 Y2 - side_of k X1 Y1) = 0).
  { rewrite <- side_line, EU, EV, side_polar. rewrite Rminus_diag_eq by reflexivity. rewrite sin_0. ring. }
  apply C91_LineSegmentLineSegmentCollide_partial.
  - unfold crossing. intros E.
    assert (F : (o - i) * (side_of k X2 Y2 - side_of k X1 Y1) = 0) by (unfold side_of; lra).
    apply Rmult_integral in F. destruct F as [F|F]; [lra|]. rewrite F in Z. lra.
  - exists (line_at X1 Y1 X2 Y2 t). split.
    + exists ((d - i) / (o - i)). split.
      * split; [apply Rmult_le_pos; [lra|left; apply Rinv_0_lt_compat; lra]|].
        apply (Rmult_le_reg_r (o - i)); [lra|]. unfold Rdiv. rewrite Rmult_assoc, Rinv_l by lra. lra.
      * unfold line_at. fold (U t) (V t). rewrite EU, EV. f_equal; field; lra.
    + exists t. auto.
Qed.

Lemma line_sound : intersectLine s X1 Y1 X2 Y2 = true -> exists t, 0 <= t <= 1 /\ region (U t) (V t).
Proof.
  destruct PS as [IO _]. rewrite intersectLine_true. intros [A|[[I A]|[A|A]]].
  - apply arc in A; [|lra]. destruct A as [t [T [C W]]]. exists t. split; [exact T|]. split; [rewrite C; nra|exact W].
  - apply arc in A; [|lra]. destruct A as [t [T [C W]]]. exists t. split; [exact T|]. split; [rewrite C; nra|exact W].
  - apply edge_sound in A. destruct A as [t [d [T [D [EU EV]]]]]. exists t. split; [exact T|]. unfold region. rewrite EU, EV, polar_norm.
    split; [nra|]. exists d, m. repeat split; lra.
  - apply edge_sound in A. destruct A as [t [d [T [D [EU EV]]]]]. exists t. split; [exact T|]. unfold region. rewrite EU, EV, polar_norm.
    split; [nra|]. exists d, (m + r). repeat split; lra.
Qed.

Lemma cont_U : continuity U.
Proof. unfold U. reg. Qed.
Lemma cont_V : continuity V.
Proof. unfold V. reg. Qed.
Lemma cont_norm : continuity (fun t => U t * U t + V t * V t).
Proof. unfold U, V. reg. Qed.
Lemma cont_side k : continuity (fun t => side_of k (U t) (V t)).
Proof. unfold side_of, U, V. reg. Qed.

Lemma on_outer z : 0 <= z <= 1 -> U z * U z + V z * V z = o * o -> wedge m r (U z) (V z) -> intersectLine s X1 Y1 X2 Y2 = true.
Proof. intros T C W. destruct PS as [IO _]. apply intersectLine_true. left. apply arc; [lra|]. exists z. auto. Qed.
Lemma on_inner z : 0 < i -> 0 <= z <= 1 -> U z * U z + V z * V z = i * i -> wedge m r (U z) (V z) -> intersectLine s X1 Y1 X2 Y2 = true.
Proof. intros I T C W. apply intersectLine_true. right; left. split; [exact I|]. apply arc; [exact I|]. exists z. auto. Qed.
Lemma on_edge k z d : k = m \/ k = m + r -> 0 <= z <= 1 -> i <= d <= o -> U z = d * cos k -> V z = - (d * sin k) ->
  (side_of k X1 Y1 <> 0 \/ side_of k X2 Y2 <> 0) -> intersectLine s X1 Y1 X2 Y2 = true.
Proof.
  intros K T D EU EV N. apply intersectLine_true. right; right. destruct K as [-> | ->]; [left|right]; apply (edge_complete _ z d); assumption.
Qed.

(** The segment is along the direction [k]. *)
Lemma along k t : k = m \/ k = m + r -> side_of k X1 Y1 = 0 -> side_of k X2 Y2 = 0 -> 0 <= t <= 1 ->
  ~ region (U 0) (V 0) -> region (U t) (V t) -> r < 2 * PI -> intersectLine s X1 Y1 X2 Y2 = true.
Proof.
  intros K Z1 Z2 T N0 [Bt Wt] RL. destruct PS as [IO _]. pose proof PI_RGT_0 as P.
  assert (ON : forall w, side_of k (U w) (V w) = 0) by (intros; rewrite side_line, Z1, Z2; ring).
  set (q w := U w * cos k - V w * sin k).
  assert (Q : forall w, U w = q w * cos k /\ V w = - (q w * sin k) /\ q w * q w = U w * U w + V w * V w) by (intros; apply on_direction; apply ON).
  assert (CQ : continuity q) by (unfold q, U, V; reg).
  assert (OTHER : exists k', (k' = m \/ k' = m + r) /\ forall d, side_of k' (d * cos k) (- (d * sin k)) = d * sin r \/ side_of k' (d * cos k) (- (d * sin k)) = - (d * sin r)).
  { destruct K as [-> | ->].
    - exists (m + r). split; [right; reflexivity|]. intros d. right. rewrite side_polar. replace (m - (m + r)) with (- r) by ring. rewrite sin_neg. ring.
    - exists m. split; [left; reflexivity|]. intros d. left. rewrite side_polar. f_equal. f_equal. ring. }
  destruct OTHER as [k' [K' OT]].
  assert (WP : forall w, 0 <= q w -> wedge m r (U w) (V w)).
  { intros w Q0. destruct (Q w) as [-> [-> _]]. exists (q w), k. repeat split; try lra. }
  destruct (Rlt_dec r PI) as [RP|RP].
  - (* only the positive half *)
    assert (SP : 0 < sin r) by (apply sin_gt_0; lra).
    assert (WN : forall w, wedge m r (U w) (V w) -> 0 <= q w).
    { intros w W. apply wedge_low in W; [|lra]. destruct (Q w) as [EU [EV _]]. rewrite EU, EV in W. destruct K as [-> | ->]; rewrite !side_polar in W.
      - destruct W as [_ W]. replace (m - (m + r)) with (- r) in W by ring. rewrite sin_neg in W. nra.
      - destruct W as [W _]. replace (m + r - m) with r in W by ring. nra. }
    pose proof (WN t Wt) as Qt. destruct (Q t) as [_ [_ QQt]]. rewrite <- QQt in Bt. assert (It : i <= q t <= o) by (split; nra).
    destruct (Rlt_dec o (q 0)) as [L|L].
    + destruct (first_zero (fun w => o - q w) t) as [z [Tz Ez]]; [|lra|lra|lra|].
      { apply (continuity_minus (fun _ => o) q); [apply continuity_const; intros ? ?; reflexivity|exact CQ]. }
      apply (on_outer z); [lra| |apply WP; lra]. destruct (Q z) as [_ [_ <-]]. replace (q z) with o by lra. ring.
    + assert (L' : q 0 < i).
      { apply Rnot_le_lt. intros G. apply N0. destruct (Q 0) as [_ [_ QQ]]. split; [rewrite <- QQ; nra|apply WP; lra]. }
      destruct (first_zero (fun w => q w - i) t) as [z [Tz Ez]]; [|lra|lra|lra|].
      { apply (continuity_minus q (fun _ => i)); [exact CQ|apply continuity_const; intros ? ?; reflexivity]. }
      assert (E : q z = i) by lra. destruct (Rle_lt_or_eq_dec 0 i ltac:(lra)) as [I|I].
      * apply (on_inner z I); [lra| |apply WP; lra]. destruct (Q z) as [_ [_ <-]]. rewrite E. ring.
      * destruct (Q z) as [EU [EV _]]. apply (on_edge k' z 0 K'); [lra|lra|rewrite EU, E, <- I; ring|rewrite EV, E, <- I; ring|].
        left. destruct (Q 0) as [EU0 [EV0 _]]. replace X1 with (U 0) by (unfold U; ring). replace Y1 with (V 0) by (unfold V; ring).
        rewrite EU0, EV0. destruct (OT (q 0)) as [-> | ->]; nra.
  - (* the whole line *)
    assert (WA : forall w, wedge m r (U w) (V w)).
    { intros w. destruct (Rle_dec 0 (q w)) as [L|L]; [apply WP; exact L|]. destruct (Q w) as [EU [EV _]].
      destruct (Req_dec r PI) as [E|E].
      - apply wedge_low; [lra|]. rewrite EU, EV. assert (S0 : sin r = 0) by (rewrite E; apply sin_PI).
        destruct K as [-> | ->]; rewrite !side_polar.
        + replace (m - (m + r)) with (- r) by ring. rewrite sin_neg, S0, Rminus_diag_eq, sin_0 by reflexivity. lra.
        + replace (m + r - m) with r by ring. rewrite S0, Rminus_diag_eq, sin_0 by reflexivity. lra.
      - apply wedge_high; [lra|]. destruct K as [-> | ->]; [left|right]; rewrite ON; lra. }
    destruct (Rlt_dec (o * o) (U 0 * U 0 + V 0 * V 0)) as [L|L].
    + destruct (first_zero (fun w => o * o - (U w * U w + V w * V w)) t) as [z [Tz Ez]]; [|lra|lra|lra|].
      { apply (continuity_minus (fun _ => o * o) (fun w => U w * U w + V w * V w)); [apply continuity_const; intros ? ?; reflexivity|exact cont_norm]. }
      apply (on_outer z); [lra|lra|apply WA].
    + assert (L' : U 0 * U 0 + V 0 * V 0 < i * i).
      { apply Rnot_le_lt. intros G. apply N0. split; [lra|apply WA]. }
      assert (I : 0 < i) by nra.
      destruct (first_zero (fun w => (U w * U w + V w * V w) - i * i) t) as [z [Tz Ez]]; [|lra|lra|lra|].
      { apply (continuity_minus (fun w => U w * U w + V w * V w) (fun _ => i * i)); [exact cont_norm|apply continuity_const; intros ? ?; reflexivity]. }
      apply (on_inner z I); [lra|lra|apply WA].
Qed.

Lemma line_complete t : 0 <= t <= 1 -> ~ region (U 0) (V 0) -> region (U t) (V t) -> intersectLine s X1 Y1 X2 Y2 = true.
Proof.
  intros T N0 RT. pose proof PI_RGT_0 as P. pose proof PS as [IO _].
  set (n w := U w * U w + V w * V w).
  assert (CF : continuity (fun w => o * o - n w)).
  { apply (continuity_minus (fun _ => o * o) n); [apply continuity_const; intros ? ?; reflexivity|exact cont_norm]. }
  assert (CG : continuity (fun w => n w - i * i)).
  { apply (continuity_minus n (fun _ => i * i)); [exact cont_norm|apply continuity_const; intros ? ?; reflexivity]. }
  destruct (Rle_dec (2 * PI) r) as [FULL|PART].
  { destruct RT as [Bt _]. fold (n t) in Bt. destruct (Rlt_dec (o * o) (n 0)) as [L|L].
    - destruct (first_zero _ t CF) as [z [Tz Ez]]; try lra. unfold n in Ez. apply (on_outer z); [lra|lra|apply wedge_full; exact FULL].
    - assert (L' : n 0 < i * i).
      { apply Rnot_le_lt. intros G. apply N0. split; [fold (n 0); lra|apply wedge_full; exact FULL]. }
      assert (I : 0 < i).
      { assert (0 <= n 0) by (unfold n; pose proof (Rle_0_sqr (U 0)); pose proof (Rle_0_sqr (V 0)); unfold Rsqr in *; lra). nra. }
      destruct (first_zero _ t CG) as [z [Tz Ez]]; try lra. unfold n in Ez. apply (on_inner z I); [lra|lra|apply wedge_full; exact FULL]. }
  assert (NOT : forall k, (side_of k X1 Y1 = 0 /\ side_of k X2 Y2 = 0) \/ (side_of k X1 Y1 <> 0 \/ side_of k X2 Y2 <> 0)).
  { intros k. destruct (Req_dec (side_of k X1 Y1) 0), (Req_dec (side_of k X2 Y2) 0); tauto. }
  destruct (NOT m) as [[A1 A2]|NM]; [apply (along m t); auto; lra|].
  destruct (NOT (m + r)) as [[A1 A2]|NR]; [apply (along (m + r) t); auto; lra|]. clear NOT.
  set (f w := o * o - n w) in *. set (g w := n w - i * i) in *.
  set (a w := side_of m (U w) (V w)). set (b w := - side_of (m + r) (U w) (V w)).
  assert (CA : continuity a) by (exact (cont_side m)).
  assert (CB : continuity b) by (exact (continuity_opp _ (cont_side (m + r)))).
  assert (KEY : exists z, 0 <= z <= 1 /\ region (U z) (V z) /\
         (f z = 0 \/ g z = 0 \/ (a z = 0 /\ (r <= PI -> 0 <= b z) /\ (PI < r -> b z <= 0)) \/
          (b z = 0 /\ (r <= PI -> 0 <= a z) /\ (PI < r -> a z <= 0)))).
  { destruct (Rle_dec r PI) as [LO|HI].
    - assert (CH : forall w, region (U w) (V w) <-> 0 <= Rmin (Rmin (f w) (g w)) (Rmin (a w) (b w))).
      { intros w. unfold region. rewrite wedge_low by lra. fold (n w) (a w). rewrite !min_nonneg. unfold f, g, b. lra. }
      destruct (first_zero (fun w => Rmin (Rmin (f w) (g w)) (Rmin (a w) (b w))) t) as [z [Tz Ez]].
      + apply continuity_min; apply continuity_min; assumption.
      + lra.
      + apply Rnot_le_lt. rewrite <- CH. exact N0.
      + apply CH. exact RT.
      + exists z. split; [lra|]. split; [apply CH; lra|]. clear - Ez LO. apply min_zero in Ez. destruct Ez as [[Ez _]|[Ez _]]; apply min_zero in Ez; [tauto|].
        destruct Ez as [[E Q]|[E Q]]; right; right; [left|right]; (split; [exact E|]); split; intros; lra.
    - assert (CH : forall w, region (U w) (V w) <-> 0 <= Rmin (Rmin (f w) (g w)) (Rmax (a w) (b w))).
      { intros w. unfold region. rewrite wedge_high by lra. fold (n w) (a w). rewrite !min_nonneg, max_nonneg. unfold f, g, b. split; [intros [? [?|?]]; lra|intros [? [?|?]]; split; lra]. }
      destruct (first_zero (fun w => Rmin (Rmin (f w) (g w)) (Rmax (a w) (b w))) t) as [z [Tz Ez]].
      + apply continuity_min; [apply continuity_min; assumption|apply continuity_max; assumption].
      + lra.
      + apply Rnot_le_lt. rewrite <- CH. exact N0.
      + apply CH. exact RT.
      + exists z. split; [lra|]. split; [apply CH; lra|]. clear - Ez HI. apply min_zero in Ez. destruct Ez as [[Ez _]|[Ez _]]; [apply min_zero in Ez; tauto|].
        apply max_zero in Ez. destruct Ez as [[E Q]|[E Q]]; right; right; [left|right]; (split; [exact E|]); split; intros; lra. }
  destruct KEY as [z [Tz [[Bz Wz] Q]]].
  assert (EDGE : forall k d, k = m \/ k = m + r -> 0 <= d -> U z = d * cos k -> V z = - (d * sin k) -> intersectLine s X1 Y1 X2 Y2 = true).
  { intros k d K D EU EV. apply (on_edge k z d K Tz); [|exact EU|exact EV|destruct K as [-> | ->]; assumption].
    rewrite EU, EV, polar_norm in Bz. clear - IO D Bz. split; nra. }
  assert (SIN : (r < PI -> 0 < sin r) /\ (r = PI -> sin r = 0 /\ forall x, cos (x + r) = - cos x /\ sin (x + r) = - sin x) /\ (PI < r -> sin r < 0)).
  { split; [intros; apply sin_gt_0; lra|]. split; [|intros; apply sin_lt_0; lra].
    intros ->. split; [apply sin_PI|]. intros x. split; [apply neg_cos|apply neg_sin]. }
  destruct SIN as [SL [SE SH]]. destruct Q as [Q|[Q|[[Q [Q1 Q2]]|[Q [Q1 Q2]]]]].
  - apply (on_outer z Tz); [unfold f, n in Q; lra|exact Wz].
  - destruct (Rle_lt_or_eq_dec 0 i ltac:(lra)) as [I|I].
    + apply (on_inner z I Tz); [unfold g, n in Q; lra|exact Wz].
    + assert (UZ : U z = 0 /\ V z = 0) by (unfold g, n in Q; rewrite <- I in Q; apply sum_zero; lra). destruct UZ as [UZ VZ].
      apply (EDGE m 0); [left; reflexivity|lra|rewrite UZ; ring|rewrite VZ; ring].
  - destruct (on_direction m _ _ Q) as [EU [EV _]]. set (d := U z * cos m - V z * sin m) in *.
    assert (BZ : b z = d * sin r).
    { unfold b. rewrite EU, EV, side_polar. replace (m - (m + r)) with (- r) by ring. rewrite sin_neg. ring. }
    rewrite BZ in Q1, Q2. destruct (Rle_dec 0 d) as [L|L]; [apply (EDGE m d); auto|].
    destruct (Rtotal_order r PI) as [O|[O|O]]; [specialize (SL O); specialize (Q1 ltac:(lra)); clear - SL Q1 L; exfalso; nra| |specialize (SH O); specialize (Q2 O); clear - SH Q2 L; exfalso; nra].
    destruct (SE O) as [_ N]. destruct (N m) as [N1 N2].
    apply (EDGE (m + r) (- d)); [right; reflexivity|lra|rewrite N1, EU; ring|rewrite N2, EV; ring].
  - destruct (on_direction (m + r) (U z) (V z) ltac:(unfold b in Q; lra)) as [EU [EV _]]. set (d := U z * cos (m + r) - V z * sin (m + r)) in *.
    assert (AZ : a z = d * sin r).
    { unfold a. rewrite EU, EV, side_polar. f_equal. f_equal. ring. }
    rewrite AZ in Q1, Q2. destruct (Rle_dec 0 d) as [L|L]; [apply (EDGE (m + r) d); auto|].
    destruct (Rtotal_order r PI) as [O|[O|O]]; [specialize (SL O); specialize (Q1 ltac:(lra)); clear - SL Q1 L; exfalso; nra| |specialize (SH O); specialize (Q2 O); clear - SH Q2 L; exfalso; nra].
    destruct (SE O) as [_ N]. destruct (N m) as [N1 N2].
    apply (EDGE m (- d)); [left; reflexivity|lra|rewrite EU, N1; ring|rewrite EV, N2; ring].
Qed.
End Line.

(* ------------------------------------------------------------------ C160 *)

(** The point test can only be wrong at the apex of a sector without a hole. *)
Lemma contains_true s X Y : proper s -> sectorContainsPoint s X Y = true -> in_sector s (X, Y).
Proof.
  intros PS T. rewrite in_sector_local by exact PS. cbn [fst snd]. destruct PS as [IO R0]. unfold sectorContainsPoint, RadiusSectorContainsPoint in T.
  apply andb_true_iff in T. destruct T as [A B]. unfold RadiusSectorContainsPointRadius in A. rewrite andb_true_iff, !rle_true in A.
  set (u := X - s_x s) in *. set (v := Y - s_y s) in *. split; [lra|].
  destruct (Req_dec u 0) as [U|U]; [destruct (Req_dec v 0) as [V|V]|]; [rewrite U, V; apply wedge_zero; exact R0| |]; (apply angle_test; [exact R0|tauto|exact B]).
Qed.

Lemma contains_complete s X Y : proper s -> (X <> s_x s \/ Y <> s_y s) -> in_sector s (X, Y) -> sectorContainsPoint s X Y = true.
Proof.
  intros PS N T. rewrite in_sector_local in T by exact PS. cbn [fst snd] in T. destruct PS as [IO R0]. destruct T as [A B].
  unfold sectorContainsPoint, RadiusSectorContainsPoint. apply andb_true_iff. split.
  - unfold RadiusSectorContainsPointRadius. rewrite andb_true_iff, !rle_true. lra.
  - apply angle_test; [exact R0|destruct N; [left|right]; lra|exact B].
Qed.

Theorem C160_contains_partial : forall s X Y, proper s -> (X <> s_x s \/ Y <> s_y s) -> (sectorContainsPoint s X Y = true <-> in_sector s (X, Y)).
Proof. intros s X Y PS N. split; [apply contains_true; exact PS|apply contains_complete; assumption]. Qed.
Print Assumptions C160_contains_partial.

(** Half a disc, to the left of its apex. *)
Definition half_disc : sector := mkSector 0 0 0 2 (PI / 2) PI.
Lemma half_proper : proper half_disc.
Proof. pose proof PI_RGT_0. split; cbn; lra. Qed.
Lemma half_apex : in_sector half_disc (0, 0).
Proof. pose proof PI_RGT_0. exists 0, (PI / 2). cbn. repeat split; try lra. f_equal; lra. Qed.
Lemma half_missed : sectorContainsPoint half_disc 0 0 = false.
Proof.
  pose proof PI_RGT_0 as P. unfold sectorContainsPoint, RadiusSectorContainsPoint. apply andb_false_iff. right. cbn.
  unfold RadiusSectorContainsPointAngle. destruct (rle (2 * PI) PI) eqn:L; [apply rle_true in L; lra|]. clear L.
  apply rle_false. unfold atan2. replace (- (0 - 0)) with 0 by ring. replace (0 - 0) with 0 by ring.
  rewrite (proj2 (rlt_false 0 0)) by lra. unfold AngleDist.
  replace (0 - (PI / 2 + PI * / 2)) with (- PI) by field. rewrite Rabs_Ropp, (Rabs_right PI) by lra.
  rewrite fmod_pos by lra. assert (E : bssFMod PI (2 * PI) = PI).
  { unfold bssFMod. replace (PI / (2 * PI)) with (/ 2) by (field; lra).
    assert (Z : Int_part (/ 2) = 0%Z) by (unfold Int_part; rewrite <- (tech_up (/ 2) 1); [reflexivity|lra|lra]). rewrite Z. ring. }
  rewrite E. replace (PI - PI) with 0 by ring. rewrite Rabs_R0. lra.
Qed.

(** The apex of a sector without a hole belongs to it, but is only found when the angle zero is in the range. *)
Theorem C160_contains_refuted : ~ (forall s X Y, proper s -> (sectorContainsPoint s X Y = true <-> in_sector s (X, Y))).
Proof. intros A. pose proof (proj2 (A _ _ _ half_proper) half_apex) as E. rewrite half_missed in E. discriminate. Qed.
Print Assumptions C160_contains_refuted.

(** A segment that does not start at the apex is reported exactly when it has a point in the region. *)
Lemma line_region s X1 Y1 X2 Y2 : proper s ->
  meet (on_segment X1 Y1 X2 Y2) (in_sector s) <->
  exists t, 0 <= t <= 1 /\ region s (X1 - s_x s + t * (X2 - s_x s - (X1 - s_x s))) (Y1 - s_y s + t * (Y2 - s_y s - (Y1 - s_y s))).
Proof.
  intros PS. unfold meet, on_segment, line_at. split.
  - intros [p [[t [T ->]] I]]. exists t. split; [exact T|]. apply in_sector_local in I; [|exact PS]. cbn [fst snd] in I. unfold region.
    replace (X1 - s_x s + t * (X2 - s_x s - (X1 - s_x s))) with (X1 + t * (X2 - X1) - s_x s) by ring.
    replace (Y1 - s_y s + t * (Y2 - s_y s - (Y1 - s_y s))) with (Y1 + t * (Y2 - Y1) - s_y s) by ring. exact I.
  - intros [t [T I]]. eexists. split; [exists t; split; [exact T|reflexivity]|]. apply in_sector_local; [exact PS|]. cbn [fst snd]. unfold region in I.
    replace (X1 - s_x s + t * (X2 - s_x s - (X1 - s_x s))) with (X1 + t * (X2 - X1) - s_x s) in I by ring.
    replace (Y1 - s_y s + t * (Y2 - s_y s - (Y1 - s_y s))) with (Y1 + t * (Y2 - Y1) - s_y s) in I by ring. exact I.
Qed.

Lemma edge_found s a b : proper s -> 0 < s_range s -> (fst a <> fst b \/ snd a <> snd b) ->
  (intersectEdge s a b = true -> meet (on_segment (fst a) (snd a) (fst b) (snd b)) (in_sector s)) /\
  (meet (on_segment (fst a) (snd a) (fst b) (snd b)) (in_sector s) -> ~ in_sector s a -> intersectEdge s a b = true).
Proof.
  intros PS R0 N. assert (N' : fst a - s_x s <> fst b - s_x s \/ snd a - s_y s <> snd b - s_y s) by (destruct N; [left|right]; lra).
  unfold intersectEdge. rewrite line_region by exact PS. split.
  - intros L. apply (line_sound s PS R0 _ _ _ _ N') in L. exact L.
  - intros [t [T I]] O. apply (line_complete s PS R0 _ _ _ _ N' t T); [|exact I]. intros I0. apply O. apply in_sector_local; [exact PS|].
    unfold region in I0. rewrite !Rmult_0_l, !Rplus_0_r in I0. exact I0.
Qed.

Theorem C160_segment_partial : forall s X1 Y1 X2 Y2, proper s -> 0 < s_range s -> (X1 <> X2 \/ Y1 <> Y2) -> (X1 <> s_x s \/ Y1 <> s_y s) ->
  (IntersectLine s X1 Y1 X2 Y2 = true <-> meet (on_segment X1 Y1 X2 Y2) (in_sector s)).
Proof.
  intros s X1 Y1 X2 Y2 PS R0 N A. unfold IntersectLine. destruct (edge_found s (X1, Y1) (X2, Y2) PS R0 N) as [S C]. unfold intersectEdge in S, C. cbn [fst snd] in S, C.
  fold (sectorContainsPoint s X1 Y1). destruct (sectorContainsPoint s X1 Y1) eqn:E.
  - split; [intros _|reflexivity]. exists (X1, Y1). split; [|apply contains_true; assumption]. exists 0. split; [lra|]. unfold line_at. f_equal; ring.
  - split; [exact S|]. intros M. apply C; [exact M|]. intros I. apply contains_complete in I; [congruence|exact PS|exact A].
Qed.
Print Assumptions C160_segment_partial.

(** From the apex along the edge of half a disc nothing is found. *)
Theorem C160_segment_refuted :
  ~ (forall s X1 Y1 X2 Y2, proper s -> 0 < s_range s -> (X1 <> X2 \/ Y1 <> Y2) ->
       (IntersectLine s X1 Y1 X2 Y2 = true <-> meet (on_segment X1 Y1 X2 Y2) (in_sector s))).
Proof.
  intros A. pose proof PI_RGT_0 as P.
  specialize (A half_disc 0 0 0 (-1) half_proper ltac:(cbn; lra) ltac:(right; lra)).
  assert (M : meet (on_segment 0 0 0 (-1)) (in_sector half_disc)).
  { exists (0, 0). split; [exists 0; split; [lra|unfold line_at; f_equal; ring]|exact half_apex]. }
  apply A in M. unfold IntersectLine in M. fold (sectorContainsPoint half_disc 0 0) in M. rewrite half_missed in M.
  apply intersectLine_true in M. cbn [s_x s_y s_inner s_outer s_min s_range half_disc] in M. rewrite !Rminus_0_r in M.
  destruct M as [M|[[M _]|[M|M]]].
  - apply (arc half_disc ltac:(cbn; lra) 0 0 0 (-1) ltac:(right; lra) 2 ltac:(lra)) in M. destruct M as [t [T [Q _]]]. nra.
  - lra.
  - unfold lineRayIntersect in M. rewrite (proj2 (C91_LineSegmentLineSegmentCollide_partial _ _ _ _ _ _ _ _)) in M; [discriminate|].
    unfold crossing. rewrite cos_PI2. lra.
  - unfold lineRayIntersect in M. rewrite (proj2 (C91_LineSegmentLineSegmentCollide_partial _ _ _ _ _ _ _ _)) in M; [discriminate|].
    unfold crossing. rewrite neg_cos, cos_PI2. lra.
Qed.
Print Assumptions C160_segment_refuted.

(** The outline of a polygon: the segments between consecutive vertices and the one that closes it. *)
Fixpoint on_path (prev : point) (l : list point) (p : point) : Prop :=
  match l with [] => False | v :: r => on_segment (fst prev) (snd prev) (fst v) (snd v) p \/ on_path v r p end.
Definition on_outline (verts : list point) (p : point) : Prop :=
  match verts with [] => False | v :: r => p = v \/ on_path v (r ++ [v]) p end.
(** No two consecutive vertices are the same. *)
Fixpoint apart (prev : point) (l : list point) : Prop :=
  match l with [] => True | v :: r => (fst prev <> fst v \/ snd prev <> snd v) /\ apart v r end.

Lemma start_on a b : on_segment (fst a) (snd a) (fst b) (snd b) a.
Proof. exists 0. split; [lra|]. unfold line_at. destruct a. cbn [fst snd]. f_equal; ring. Qed.
Lemma end_on a b : on_segment (fst a) (snd a) (fst b) (snd b) b.
Proof. exists 1. split; [lra|]. unfold line_at. destruct b. cbn [fst snd]. f_equal; ring. Qed.

Lemma edges_sound s : proper s -> 0 < s_range s -> forall l prev, apart prev l -> intersectEdges s prev l = true -> meet (on_path prev l) (in_sector s).
Proof.
  intros PS R0. induction l as [|v l IH]; intros prev AP T; [discriminate|]. cbn [intersectEdges] in T. destruct AP as [N AP].
  destruct (intersectEdge s prev v) eqn:E.
  - apply (edge_found s prev v PS R0 N) in E. destruct E as [p [A B]]. exists p. split; [left; exact A|exact B].
  - destruct (IH v AP T) as [p [A B]]. exists p. split; [right; exact A|exact B].
Qed.
Lemma edges_complete s : proper s -> 0 < s_range s -> forall l prev, apart prev l -> ~ in_sector s prev -> meet (on_path prev l) (in_sector s) -> intersectEdges s prev l = true.
Proof.
  intros PS R0. induction l as [|v l IH]; intros prev AP O [p [A B]]; [destruct A|]. cbn [intersectEdges]. destruct AP as [N AP].
  destruct (edge_found s prev v PS R0 N) as [_ C]. destruct (intersectEdge s prev v) eqn:E; [reflexivity|].
  assert (OV : ~ in_sector s v).
  { intros I. enough (false = true) by discriminate. apply C; [|exact O]. exists v. split; [apply end_on|exact I]. }
  destruct A as [A|A]; [enough (false = true) by discriminate; apply C; [exists p; auto|exact O]|]. apply (IH v AP OV). exists p. auto.
Qed.

Lemma last_v l : forall v prev : point, last (v :: l) prev = last l v.
Proof. induction l as [|x l IH]; intros v prev; [reflexivity|]. change (last (v :: x :: l) prev) with (last (x :: l) prev). rewrite !IH. reflexivity. Qed.
Lemma edges_app s l : forall prev a, intersectEdges s prev (l ++ [a]) = (if intersectEdges s prev l then true else intersectEdge s (last l prev) a).
Proof.
  induction l as [|v l IH]; intros prev a; cbn [intersectEdges app].
  - cbn [last]. destruct (intersectEdge s prev a); reflexivity.
  - rewrite IH. destruct (intersectEdge s prev v); [reflexivity|]. rewrite (last_v l v prev). reflexivity.
Qed.

(** A polygon whose first vertex is not the apex is reported exactly when its outline has a point in the region; of a
    polygon with two vertices the outline is the segment. *)
Theorem C160_polygon_partial : forall s verts, proper s -> 0 < s_range s ->
  match verts with [] => True | v :: r => apart v (r ++ [v]) \/ r = [] end ->
  match verts with [] => True | v :: r => fst v <> s_x s \/ snd v <> s_y s end ->
  (IntersectPolygon s verts = true <-> meet (on_outline verts) (in_sector s)).
Proof.
  intros s verts PS R0. destruct verts as [|v rest]; intros AP NA; [split; [discriminate|intros [p [[] _]]]|]. cbn [IntersectPolygon on_outline].
  destruct (sectorContainsPoint s (fst v) (snd v)) eqn:E.
  { split; [intros _|reflexivity]. exists v. split; [left; reflexivity|]. apply contains_true in E; [|exact PS]. destruct v; exact E. }
  assert (O : ~ in_sector s v).
  { intros I. destruct v as [vx vy]. rewrite contains_complete in E; [discriminate|exact PS|exact NA|exact I]. }
  destruct rest as [|w rest].
  { split; [discriminate|]. intros [p [[->|[A|[]]] I]]; [contradiction|]. exfalso. apply O. destruct A as [t [_ ->]]. unfold line_at in I.
    rewrite !Rminus_diag_eq, !Rmult_0_r, !Rplus_0_r in I by reflexivity. destruct v; exact I. }
  destruct AP as [AP|AP]; [|discriminate].
  assert (G : intersectEdges s v ((w :: rest) ++ [v]) = true <-> meet (fun p => p = v \/ on_path v ((w :: rest) ++ [v]) p) (in_sector s)).
  { split.
    - intros T. destruct (edges_sound s PS R0 _ _ AP T) as [p [A B]]. exists p. auto.
    - intros [p [[->|A] B]]; [contradiction|]. apply edges_complete; [exact PS|exact R0|exact AP|exact O|]. exists p. auto. }
  rewrite <- G, edges_app. destruct rest as [|x rest].
  - cbn [intersectEdges last]. destruct (intersectEdge s v w) eqn:F; [tauto|]. split; [discriminate|].
    (* the way back finds what the way there did not *)
    intros T. cbn [apart app] in AP. destruct AP as [N1 [N2 _]]. apply (edge_found s w v PS R0 N2) in T. destruct T as [p [[t [T ->]] I]].
    destruct (edge_found s v w PS R0 N1) as [_ C]. rewrite C in F; [discriminate| |exact O].
    eexists. split; [|exact I]. exists (1 - t). split; [lra|]. unfold line_at. f_equal; ring.
  - reflexivity.
Qed.
Print Assumptions C160_polygon_partial.

(** A polygon around the whole sector is not reported: only its outline counts. *)
Theorem C160_polygon_around : 
  IntersectPolygon (mkSector 0 0 1 2 0 PI) [(-9, -9); (9, -9); (9, 9); (-9, 9)] = false.
Proof.
  pose proof PI_RGT_0 as P. apply not_true_is_false. intros T. apply C160_polygon_partial in T.
  - destruct T as [p [A I]]. apply in_sector_local in I; [|split; cbn; lra]. cbn [s_x s_y s_inner s_outer] in I. destruct I as [B _].
    rewrite !Rminus_0_r in B. cbn [on_outline on_path app fst snd] in A.
    destruct A as [-> | [A|[A|[A|[A|[]]]]]]; [cbn [fst snd] in B; lra| | | |];
      (destruct A as [t [T ->]]; unfold line_at in B; cbn [fst snd] in B; nra).
  - split; cbn; lra.
  - cbn. lra.
  - left. cbn. repeat split; lra.
  - left. cbn. lra.
Qed.
Print Assumptions C160_polygon_around.

(** The segment crosses the quarter ring between its two ends, which are both outside. *)
Example C160_example : IntersectLine (mkSector 0 0 1 3 0 (PI / 2)) 2 5 2 (-5) = true.
Proof.
  pose proof PI_RGT_0 as P. apply C160_segment_partial; [split; cbn; lra|cbn; lra|right; lra|left; cbn; lra|]. exists (2, 0). split.
  - exists (/ 2). split; [lra|]. unfold line_at. f_equal; field.
  - exists 2, 0. cbn. rewrite cos_0, sin_0. repeat split; try lra. f_equal; lra.
Qed.
