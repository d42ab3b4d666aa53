(* C88, C89: where circles, lines, rays and segments meet a circle. *)
From Coq Require Import Reals List Arith Lia Lra Psatz Bool.
From Verif Require Import Matrix Collision SphereProps.
Import ListNotations.
Local Open Scope R_scope.

(** The circle with centre (x, y) and radius r, and the disc it bounds. *)
Definition on_circle (x y r : R) (p : point) : Prop :=
  (fst p - x) * (fst p - x) + (snd p - y) * (snd p - y) = r * r.
Definition in_disc (x y r : R) (p : point) : Prop :=
  (fst p - x) * (fst p - x) + (snd p - y) * (snd p - y) <= r * r.

(** The point at parameter [t] of the line through two points: 0 at the first, 1 at the second. *)
Definition line_at (X1 Y1 X2 Y2 t : R) : point := (X1 + t * (X2 - X1), Y1 + t * (Y2 - Y1)).
Definition on_line X1 Y1 X2 Y2 (p : point) : Prop := exists t, p = line_at X1 Y1 X2 Y2 t.
Definition on_ray X1 Y1 X2 Y2 (p : point) : Prop := exists t, 0 <= t /\ p = line_at X1 Y1 X2 Y2 t.
Definition on_segment X1 Y1 X2 Y2 (p : point) : Prop := exists t, 0 <= t <= 1 /\ p = line_at X1 Y1 X2 Y2 t.

Lemma sq_pos : forall x y, x <> 0 \/ y <> 0 -> 0 < x * x + y * y.
Proof.
  intros x y D. pose proof (Rle_0_sqr x) as U. pose proof (Rle_0_sqr y) as V. unfold Rsqr in *.
  destruct D as [D|D]; [pose proof (Rsqr_pos_lt x D) as W|pose proof (Rsqr_pos_lt y D) as W]; unfold Rsqr in W; lra.
Qed.
Lemma sq_eq : forall x y, x * x = y * y -> x = y \/ x = - y.
Proof. intros x y E. assert (F : (x - y) * (x + y) = 0) by lra. apply Rmult_integral in F. lra. Qed.

Lemma circle_points : forall r X Y s u v, 0 <= r -> 0 <= s -> (X <> 0 \/ Y <> 0) ->
  (In (u, v) (CircleRadiusIntersect r X Y s) <-> u * u + v * v = r * r /\ (u - X) * (u - X) + (v - Y) * (v - Y) = s * s).
Proof.
  intros r X Y s u v R0 S0 D. pose proof (sq_pos X Y D) as P. unfold CircleRadiusIntersect.
  set (dsq := X * X + Y * Y) in *.
  assert (M : Rabs (r - s) * Rabs (r - s) = (r - s) * (r - s)).
  { rewrite <- Rabs_mult. apply Rabs_right. apply Rle_ge. apply Rle_0_sqr. }
  rewrite M. clear M.
  (* common points satisfy the two bounds *)
  assert (K : u * u + v * v = r * r -> (u - X) * (u - X) + (v - Y) * (v - Y) = s * s ->
     2 * (u * X + v * Y) = r * r - s * s + dsq /\
     (v * X - u * Y) * (v * X - u * Y) = r * r * dsq - (u * X + v * Y) * (u * X + v * Y)).
  { intros A B. split.
    - unfold dsq. lra.
    - rewrite <- A. unfold dsq. ring. }
  assert (F : 4 * (r * r) * dsq - (r * r - s * s + dsq) * (r * r - s * s + dsq) =
     ((r + s) * (r + s) - dsq) * (dsq - (r - s) * (r - s))) by ring.
  assert (K2 : u * u + v * v = r * r -> (u - X) * (u - X) + (v - Y) * (v - Y) = s * s ->
     0 <= ((r + s) * (r + s) - dsq) * (dsq - (r - s) * (r - s))).
  { intros A B. destruct (K A B) as [E1 E2]. rewrite <- F, <- E1.
    pose proof (Rle_0_sqr (v * X - u * Y)) as Q. unfold Rsqr in Q. rewrite E2 in Q. lra. }
  assert (G : (r - s) * (r - s) <= (r + s) * (r + s)) by nra.
  destruct (rlt ((r + s) * (r + s)) dsq) eqn:L1.
  { apply rlt_true in L1. split; [intros []|]. intros [A B]. specialize (K2 A B). nra. }
  apply rlt_false in L1.
  destruct (rlt dsq ((r - s) * (r - s))) eqn:L2.
  { apply rlt_true in L2. split; [intros []|]. intros [A B]. specialize (K2 A B). nra. }
  apply rlt_false in L2.
  set (d := sqrt dsq). assert (DD : d * d = dsq) by (apply sqrt_sqrt; lra).
  assert (D0 : 0 < d) by (apply sqrt_lt_R0; lra).
  set (a := (r * r - s * s + dsq) * (1 / d / 2)).
  assert (AD : 2 * (a * d) = r * r - s * s + dsq) by (unfold a; field; lra).
  assert (H0 : 0 <= r * r - a * a).
  { assert (0 <= 4 * dsq * (r * r - a * a)).
    { replace (4 * dsq * (r * r - a * a)) with (4 * (r * r) * dsq - (2 * (a * d)) * (2 * (a * d))) by (rewrite <- DD; ring).
      rewrite AD, F. nra. }
    nra. }
  set (h := sqrt (r * r - a * a)). assert (HH : h * h = r * r - a * a) by (apply sqrt_sqrt; lra).
  assert (XYd : X * X + Y * Y = d * d) by (rewrite DD; reflexivity).
  cbn [In]. split.
  - assert (Go : forall e, e = h \/ e = - h -> forall u v, u = X * a * (1 / d) + e * Y * (1 / d) -> v = Y * a * (1 / d) - e * X * (1 / d) ->
      u * u + v * v = r * r /\ (u - X) * (u - X) + (v - Y) * (v - Y) = s * s).
    { clear u v K K2. intros e E u v U V. assert (EE : e * e = r * r - a * a) by (destruct E; subst e; nra).
      assert (U' : u * d = X * a + e * Y) by (subst u; field; lra).
      assert (V' : v * d = Y * a - e * X) by (subst v; field; lra).
      assert (Q1 : (u * u + v * v) * (d * d) = (r * r) * (d * d)).
      { replace ((u * u + v * v) * (d * d)) with ((u * d) * (u * d) + (v * d) * (v * d)) by ring. rewrite U', V'.
        replace ((X * a + e * Y) * (X * a + e * Y) + (Y * a - e * X) * (Y * a - e * X)) with ((X * X + Y * Y) * (a * a + e * e)) by ring.
        rewrite XYd, EE. ring. }
      assert (Q2 : (u * X + v * Y) * d = a * d * d).
      { replace ((u * X + v * Y) * d) with ((u * d) * X + (v * d) * Y) by ring. rewrite U', V'.
        replace ((X * a + e * Y) * X + (Y * a - e * X) * Y) with ((X * X + Y * Y) * a) by ring. rewrite XYd. ring. }
      assert (N1 : d * d <> 0) by nra. assert (N2 : d <> 0) by lra.
      apply Rmult_eq_reg_r in Q1; [|exact N1]. apply Rmult_eq_reg_r in Q2; [|exact N2].
      split; [exact Q1|]. unfold dsq in AD. nra. }
    intros [E|[E|[]]]; injection E as E1 E2.
    + apply (Go h); [left; reflexivity|symmetry; exact E1|symmetry; exact E2].
    + apply (Go (- h)); [right; reflexivity|rewrite <- E1; ring|rewrite <- E2; ring].
  - intros [A B]. destruct (K A B) as [E1 E2].
    assert (E3 : (v * X - u * Y) * (v * X - u * Y) = (h * d) * (h * d)).
    { rewrite E2. replace (u * X + v * Y) with (a * d) by lra. replace (h * d * (h * d)) with (h * h * (d * d)) by ring.
      rewrite HH, DD. replace (a * d * (a * d)) with (a * a * (d * d)) by ring. rewrite DD. ring. }
    assert (Pu : u * (d * d) = (u * X + v * Y) * X - (v * X - u * Y) * Y) by (rewrite <- XYd; ring).
    assert (Pv : v * (d * d) = (u * X + v * Y) * Y + (v * X - u * Y) * X) by (rewrite <- XYd; ring).
    replace (u * X + v * Y) with (a * d) in Pu, Pv by lra.
    assert (N1 : d * d <> 0) by nra.
    apply sq_eq in E3. destruct E3 as [E3|E3]; rewrite E3 in Pu, Pv.
    + right. left. f_equal; apply (Rmult_eq_reg_r (d * d)); try exact N1; [rewrite Pu|rewrite Pv]; field; lra.
    + left. f_equal; apply (Rmult_eq_reg_r (d * d)); try exact N1; [rewrite Pu|rewrite Pv]; field; lra.
Qed.

(** Circle about the origin with a circle about (X, Y): the points reported are all the common points. *)
Theorem C88_CircleRadiusIntersect : forall r X Y s p, 0 <= r -> 0 <= s -> (X <> 0 \/ Y <> 0) ->
  (In p (CircleRadiusIntersect r X Y s) <-> on_circle 0 0 r p /\ on_circle X Y s p).
Proof.
  intros r X Y s [u v] R0 S0 D. rewrite circle_points by assumption. unfold on_circle. cbn [fst snd].
  replace ((u - 0) * (u - 0) + (v - 0) * (v - 0)) with (u * u + v * v) by ring. tauto.
Qed.
Print Assumptions C88_CircleRadiusIntersect.

(** Two circles anywhere: the points reported are relative to the first centre. *)
Theorem C88_CircleCircleIntersect_partial : forall X1 Y1 r X2 Y2 s u v, 0 <= r -> 0 <= s -> (X1 <> X2 \/ Y1 <> Y2) ->
  (In (u, v) (CircleCircleIntersect X1 Y1 r X2 Y2 s) <->
   on_circle X1 Y1 r (X1 + u, Y1 + v) /\ on_circle X2 Y2 s (X1 + u, Y1 + v)).
Proof.
  intros X1 Y1 r X2 Y2 s u v R0 S0 D. unfold CircleCircleIntersect.
  rewrite circle_points by (assumption || (destruct D; [left|right]; lra)). unfold on_circle. cbn [fst snd].
  replace (X1 + u - X1) with u by ring. replace (Y1 + v - Y1) with v by ring.
  replace (X1 + u - X2) with (u - (X2 - X1)) by ring. replace (Y1 + v - Y2) with (v - (Y2 - Y1)) by ring. tauto.
Qed.
Print Assumptions C88_CircleCircleIntersect_partial.

Theorem C88_CircleCircleIntersect_refuted :
  ~ (forall X1 Y1 r X2 Y2 s p, 0 <= r -> 0 <= s -> (X1 <> X2 \/ Y1 <> Y2) ->
     (In p (CircleCircleIntersect X1 Y1 r X2 Y2 s) <-> on_circle X1 Y1 r p /\ on_circle X2 Y2 s p)).
Proof.
  intros A. specialize (A 10 0 1 12 0 1 (11, 0) ltac:(lra) ltac:(lra) ltac:(left; lra)).
  destruct A as [_ A]. pose proof (C88_CircleCircleIntersect_partial 10 0 1 12 0 1 11 0 ltac:(lra) ltac:(lra) ltac:(left; lra)) as B.
  destruct B as [B _]. unfold on_circle in *. cbn [fst snd] in *. destruct B as [B _]; [apply A; lra|]. lra.
Qed.
Print Assumptions C88_CircleCircleIntersect_refuted.

Example C88_example : exists p, In p (CircleRadiusIntersect 5 6 0 5) /\ p = (3, -4).
Proof.
  exists (3, -4). split; [|reflexivity]. apply C88_CircleRadiusIntersect; try lra. unfold on_circle. cbn [fst snd]. lra.
Qed.

(* ------------------------------------------------------------------ C89 *)

(** The quadratic solved by LineRadiusParametricIntersect. *)
Lemma parametric : forall X1 Y1 X2 Y2 r, (X1 <> X2 \/ Y1 <> Y2) ->
  match LineRadiusParametricIntersect X1 Y1 X2 Y2 r with
  | None => forall t, r * r < (X1 + t * (X2 - X1)) * (X1 + t * (X2 - X1)) + (Y1 + t * (Y2 - Y1)) * (Y1 + t * (Y2 - Y1))
  | Some (t0, t1) => t0 <= t1 /\ exists k, 0 < k /\ forall t,
      (X1 + t * (X2 - X1)) * (X1 + t * (X2 - X1)) + (Y1 + t * (Y2 - Y1)) * (Y1 + t * (Y2 - Y1)) - r * r = k * (t - t0) * (t - t1)
  end.
Proof.
  intros X1 Y1 X2 Y2 r D. unfold LineRadiusParametricIntersect.
  set (Dx := X2 - X1). set (Dy := Y2 - Y1).
  assert (P : 0 < Dx * Dx + Dy * Dy) by (apply sq_pos; unfold Dx, Dy; destruct D; [left|right]; lra).
  set (k := Dx * Dx + Dy * Dy) in *. set (b := 2 * (X1 * Dx + Y1 * Dy)). set (c := X1 * X1 + Y1 * Y1 - r * r).
  assert (F : forall t, (X1 + t * Dx) * (X1 + t * Dx) + (Y1 + t * Dy) * (Y1 + t * Dy) - r * r = k * t * t + b * t + c)
    by (intros; unfold k, b, c; ring).
  destruct (rlt (b * b - 4 * k * c) 0) eqn:E.
  - apply rlt_true in E. intros t. pose proof (F t) as Ft. pose proof (Rle_0_sqr (2 * k * t + b)) as Q. unfold Rsqr in Q.
    assert (0 < 4 * k * (k * t * t + b * t + c)) by nra.
    assert (0 < k * t * t + b * t + c) by nra. lra.
  - apply rlt_false in E. set (d := sqrt (b * b - 4 * k * c)).
    assert (DD : d * d = b * b - 4 * k * c) by (apply sqrt_sqrt; lra).
    assert (D0 : 0 <= d) by apply sqrt_pos.
    split.
    + apply Rmult_le_compat_r; [left; apply Rinv_0_lt_compat; lra|lra].
    + exists k. split; [assumption|]. intros t. rewrite F.
      replace (k * (t - (- b - d) / (2 * k)) * (t - (- b + d) / (2 * k))) with
        (k * t * t + b * t + (b * b - d * d) / (4 * k)) by (field; lra).
      rewrite DD. field. lra.
Qed.

Lemma at_circle : forall X1 Y1 X2 Y2 r t,
  on_circle 0 0 r (line_at X1 Y1 X2 Y2 t) <->
  (X1 + t * (X2 - X1)) * (X1 + t * (X2 - X1)) + (Y1 + t * (Y2 - Y1)) * (Y1 + t * (Y2 - Y1)) - r * r = 0.
Proof. intros. unfold on_circle, line_at. cbn [fst snd]. rewrite !Rminus_0_r. split; lra. Qed.
Lemma at_disc : forall X1 Y1 X2 Y2 r t,
  in_disc 0 0 r (line_at X1 Y1 X2 Y2 t) <->
  (X1 + t * (X2 - X1)) * (X1 + t * (X2 - X1)) + (Y1 + t * (Y2 - Y1)) * (Y1 + t * (Y2 - Y1)) - r * r <= 0.
Proof. intros. unfold in_disc, line_at. cbn [fst snd]. rewrite !Rminus_0_r. split; lra. Qed.

Lemma intersections_ok : forall keep X1 Y1 X2 Y2 r p, (X1 <> X2 \/ Y1 <> Y2) ->
  (In p (intersections keep X1 Y1 X2 Y2 r) <->
   exists t, keep t = true /\ p = line_at X1 Y1 X2 Y2 t /\ on_circle 0 0 r p).
Proof.
  intros keep X1 Y1 X2 Y2 r p D. unfold intersections. pose proof (parametric X1 Y1 X2 Y2 r D) as Q.
  destruct (LineRadiusParametricIntersect X1 Y1 X2 Y2 r) as [[t0 t1]|].
  - destruct Q as [L [k [K F]]]. rewrite in_map_iff. split.
    + intros [t [E I]]. apply filter_In in I. destruct I as [I Kt]. exists t. split; [assumption|].
      assert (P : p = line_at X1 Y1 X2 Y2 t) by (rewrite <- E; unfold line_at; f_equal; ring).
      split; [assumption|]. rewrite P, at_circle, F. destruct I as [<-|[<-|[]]]; ring.
    + intros [t [Kt [P C]]]. exists t. split; [rewrite P; unfold line_at; f_equal; ring|].
      apply filter_In. split; [|assumption]. rewrite P, at_circle, F in C.
      apply Rmult_integral in C. destruct C as [C|C]; [apply Rmult_integral in C; destruct C as [C|C]; [lra|]|];
        [left|right; left]; lra.
  - split; [intros []|]. intros [t [_ [P C]]]. rewrite P, at_circle in C. specialize (Q t). lra.
Qed.

Theorem C89_intersections : forall X1 Y1 X2 Y2 r p, (X1 <> X2 \/ Y1 <> Y2) ->
  (In p (LineRadiusIntersect X1 Y1 X2 Y2 r) <-> on_line X1 Y1 X2 Y2 p /\ on_circle 0 0 r p) /\
  (In p (RayRadiusIntersect X1 Y1 X2 Y2 r) <-> on_ray X1 Y1 X2 Y2 p /\ on_circle 0 0 r p) /\
  (In p (LineSegmentRadiusIntersect X1 Y1 X2 Y2 r) <-> on_segment X1 Y1 X2 Y2 p /\ on_circle 0 0 r p).
Proof.
  intros X1 Y1 X2 Y2 r p D. unfold LineRadiusIntersect, RayRadiusIntersect, LineSegmentRadiusIntersect.
  rewrite !intersections_ok by assumption. unfold on_line, on_ray, on_segment. split; [|split].
  - split; [intros [t [_ [P C]]]; eauto|]. intros [[t P] C]. exists t. auto.
  - split.
    + intros [t [K [P C]]]. apply rle_true in K. eauto.
    + intros [[t [K P]] C]. exists t. rewrite rle_true. auto.
  - split.
    + intros [t [K [P C]]]. apply andb_true_iff in K. rewrite !rle_true in K. eauto.
    + intros [[t [K P]] C]. exists t. rewrite andb_true_iff, !rle_true. auto.
Qed.
Print Assumptions C89_intersections.

Example C89_intersections_example : In (3, 4) (LineSegmentRadiusIntersect 3 0 3 10 5).
Proof.
  apply C89_intersections; [right; lra|]. split.
  - exists (4 / 10). split; [lra|]. unfold line_at. f_equal; lra.
  - unfold on_circle. cbn [fst snd]. lra.
Qed.

(** Whether there is a common point with the disc, for lines and rays; with the circle itself, for segments. *)
Theorem C89_collide : forall X1 Y1 X2 Y2 r, (X1 <> X2 \/ Y1 <> Y2) ->
  (LineRadiusCollide X1 Y1 X2 Y2 r = true <-> exists p, on_line X1 Y1 X2 Y2 p /\ in_disc 0 0 r p) /\
  (RayRadiusCollide X1 Y1 X2 Y2 r = true <-> exists p, on_ray X1 Y1 X2 Y2 p /\ in_disc 0 0 r p).
Proof.
  intros X1 Y1 X2 Y2 r D. pose proof (parametric X1 Y1 X2 Y2 r D) as Q. unfold LineRadiusCollide, RayRadiusCollide.
  destruct (LineRadiusParametricIntersect X1 Y1 X2 Y2 r) as [[t0 t1]|].
  - destruct Q as [L [k [K F]]]. split.
    + split; [intros _|reflexivity]. exists (line_at X1 Y1 X2 Y2 t0). split; [exists t0; reflexivity|].
      rewrite at_disc, F. replace (k * (t0 - t0) * (t0 - t1)) with 0 by ring. lra.
    + rewrite orb_true_iff, !rle_true. split.
      * intros O. exists (line_at X1 Y1 X2 Y2 t1). split; [exists t1; split; [lra|reflexivity]|].
        rewrite at_disc, F. replace (k * (t1 - t0) * (t1 - t1)) with 0 by ring. lra.
      * intros [p [[t [T P]] C]]. subst p. rewrite at_disc, F in C. right.
        apply Rnot_lt_le. intros N. assert (0 < (t - t0) * (t - t1)) by (apply Rmult_lt_0_compat; lra). nra.
  - split; (split; [discriminate|]).
    + intros [p [[t P] C]]. subst p. rewrite at_disc in C. specialize (Q t). lra.
    + intros [p [[t [_ P]] C]]. subst p. rewrite at_disc in C. specialize (Q t). lra.
Qed.
Print Assumptions C89_collide.

Theorem C89_LineSegmentRadiusCollide_partial : forall X1 Y1 X2 Y2 r, (X1 <> X2 \/ Y1 <> Y2) ->
  (LineSegmentRadiusCollide X1 Y1 X2 Y2 r = true <-> exists p, on_segment X1 Y1 X2 Y2 p /\ on_circle 0 0 r p).
Proof.
  intros X1 Y1 X2 Y2 r D. pose proof (parametric X1 Y1 X2 Y2 r D) as Q. unfold LineSegmentRadiusCollide.
  destruct (LineRadiusParametricIntersect X1 Y1 X2 Y2 r) as [[t0 t1]|].
  - destruct Q as [L [k [K F]]]. rewrite orb_true_iff, !andb_true_iff, !rle_true. split.
    + intros [O|O]; [exists (line_at X1 Y1 X2 Y2 t0)|exists (line_at X1 Y1 X2 Y2 t1)];
        (split; [eexists; split; [exact O|reflexivity]|]); rewrite at_circle, F; ring.
    + intros [p [[t [T P]] C]]. subst p. rewrite at_circle, F in C.
      apply Rmult_integral in C. destruct C as [C|C]; [apply Rmult_integral in C; destruct C as [C|C]; [lra|]|];
        [left|right]; lra.
  - split; [discriminate|]. intros [p [[t [_ P]] C]]. subst p. rewrite at_circle in C. specialize (Q t). lra.
Qed.
Print Assumptions C89_LineSegmentRadiusCollide_partial.

(** A segment inside the disc is not reported. *)
Theorem C89_LineSegmentRadiusCollide_refuted :
  ~ (forall X1 Y1 X2 Y2 r, (X1 <> X2 \/ Y1 <> Y2) ->
     (LineSegmentRadiusCollide X1 Y1 X2 Y2 r = true <-> exists p, on_segment X1 Y1 X2 Y2 p /\ in_disc 0 0 r p)).
Proof.
  intros A. specialize (A 0 0 1 0 2 ltac:(left; lra)). destruct A as [_ A].
  assert (E : LineSegmentRadiusCollide 0 0 1 0 2 = true).
  { apply A. exists (0, 0). split; [exists 0; split; [lra|unfold line_at; f_equal; lra]|]. unfold in_disc. cbn [fst snd]. lra. }
  apply C89_LineSegmentRadiusCollide_partial in E; [|left; lra].
  destruct E as [p [[t [T P]] C]]. subst p. unfold on_circle, line_at in C. cbn [fst snd] in C. nra.
Qed.
Print Assumptions C89_LineSegmentRadiusCollide_refuted.

Example C89_example : RayRadiusCollide (-5) 1 (-4) 1 2 = true /\ LineSegmentRadiusCollide (-5) 1 (-4) 1 2 = false.
Proof.
  split.
  - apply C89_collide; [left; lra|]. exists (0, 1). split.
    + exists 5. split; [lra|]. unfold line_at. f_equal; lra.
    + unfold in_disc. cbn [fst snd]. lra.
  - apply not_true_iff_false. rewrite C89_LineSegmentRadiusCollide_partial by (left; lra).
    intros [p [[t [T P]] C]]. subst p. unfold on_circle, line_at in C. cbn [fst snd] in C. nra.
Qed.
