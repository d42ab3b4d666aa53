(* Properties C72-C78: the curve functions of algo.h over the real numbers. *)
From Coq Require Import Reals Lra Lia List.
From Verif Require Import Curves.
Import ListNotations.
Local Open Scope R_scope.

(* ---------------- specification ---------------- *)

(* the Bezier curves with the given control points, in Bernstein form *)
Definition bezier2 (P0 P1 P2 : point) (s : R) : point :=
  fun i => (1 - s) ^ 2 * P0 i + 2 * s * (1 - s) * P1 i + s ^ 2 * P2 i.
Definition bezier3 (P0 P1 P2 P3 : point) (s : R) : point :=
  fun i => (1 - s) ^ 3 * P0 i + 3 * s * (1 - s) ^ 2 * P1 i + 3 * s ^ 2 * (1 - s) * P2 i + s ^ 3 * P3 i.

(* two points agree in every coordinate *)
Definition same (a b : point) : Prop := forall i, a i = b i.

(* distance in the plane *)
Definition dist2 (a b : point) : R :=
  sqrt ((a 0%nat - b 0%nat) ^ 2 + (a 1%nat - b 1%nat) ^ 2).

(* ---------------- C72: splitting ---------------- *)

Theorem C72_SplitCubic t P0 P1 P2 P3 N1 N2 N3 R1 R2 :
  SplitCubic t P0 P1 P2 P3 = (N1, N2, N3, R1, R2) ->
  forall s,
    same (bezier3 P0 N1 N2 N3 s) (bezier3 P0 P1 P2 P3 (t * s)) /\
    same (bezier3 N3 R1 R2 P3 s) (bezier3 P0 P1 P2 P3 (t + s * (1 - t))).
Proof.
  intros E s. injection E as <- <- <- <- <-. unfold same, bezier3, lerp. split; intros i; ring.
Qed.
Print Assumptions C72_SplitCubic.

Theorem C72_SplitQuadratic t P0 P1 P2 N1 N2 R1 :
  SplitQuadratic t P0 P1 P2 = (N1, N2, R1) ->
  forall s,
    same (bezier2 P0 N1 N2 s) (bezier2 P0 P1 P2 (t * s)) /\
    same (bezier2 N2 R1 P2 s) (bezier2 P0 P1 P2 (t + s * (1 - t))).
Proof.
  intros E s. injection E as <- <- <-. unfold same, bezier2, lerp. split; intros i; ring.
Qed.
Print Assumptions C72_SplitQuadratic.

(* splitting the cubic 0, 0, 0, 8 at 1/2 gives 0, 0, 0, 1 and 1, 2, 4, 8 *)
Example C72_example :
  exists N1 N2 N3 R1 R2,
    SplitCubic (1 / 2) (fun _ => 0) (fun _ => 0) (fun _ => 0) (fun _ => 8) = (N1, N2, N3, R1, R2) /\
    N1 0%nat = 0 /\ N2 0%nat = 0 /\ N3 0%nat = 1 /\ R1 0%nat = 2 /\ R2 0%nat = 4.
Proof.
  do 5 eexists. split; [reflexivity|]. unfold lerp. lra.
Qed.

(* ---------------- C76: the spline formulas ---------------- *)

Theorem C76_BezierCurve t P0 P1 P2 P3 i :
  BezierCurve t (P0 i) (P1 i) (P2 i) (P3 i) = bezier3 P0 P1 P2 P3 t i /\
  QuadraticBezierCurve t (P0 i) (P1 i) (P2 i) = bezier2 P0 P1 P2 t i.
Proof.
  unfold BezierCurve, StaticGenericSpline, bezier_matrix, QuadraticBezierCurve, bezier2, bezier3. cbn. split; ring.
Qed.
Print Assumptions C76_BezierCurve.

(* a convex combination of the listed numbers *)
Definition combination (ws ps : list R) : R := fold_right Rplus 0 (map (fun wp => fst wp * snd wp) (combine ws ps)).
Definition weights (ws : list R) : Prop := Forall (fun w => 0 <= w) ws /\ fold_right Rplus 0 ws = 1.

(* every point of the B-splines is a convex combination of the control points, with weights that depend on t only *)
Theorem C76_BSpline_hull t :
  0 <= t <= 1 ->
  (exists ws, weights ws /\ forall p1 p2 p3, UniformQuadraticBSpline t p1 p2 p3 = combination ws [p1; p2; p3]) /\
  (exists ws, weights ws /\ forall p1 p2 p3 p4, UniformCubicBSpline t p1 p2 p3 p4 = combination ws [p1; p2; p3; p4]).
Proof.
  intros [T0 T1].
  assert (0 <= t * t) by (apply Rmult_le_pos; lra).
  assert (0 <= t * t * t) by (apply Rmult_le_pos; lra).
  assert (0 <= (1 - t) * (1 - t)) by (apply Rmult_le_pos; lra).
  assert (0 <= (1 - t) * (1 - t) * (1 - t)) by (apply Rmult_le_pos; lra).
  assert (0 <= t * (1 - t)) by (apply Rmult_le_pos; lra).
  assert (0 <= t * t * (1 - t)) by (apply Rmult_le_pos; lra).
  assert (0 <= t * ((1 - t) * (1 - t))) by (apply Rmult_le_pos; lra).
  split.
  - exists [(1 - 2 * t + t * t) / 2; (1 + 2 * t - 2 * (t * t)) / 2; t * t / 2].
    split; [split|].
    + repeat (apply Forall_cons; [lra|]); apply Forall_nil.
    + cbn. lra.
    + intros. unfold UniformQuadraticBSpline, combination. cbn. field.
  - exists [(1 - 3 * t + 3 * (t * t) - t * t * t) / 6; (4 - 6 * (t * t) + 3 * (t * t * t)) / 6;
            (1 + 3 * t + 3 * (t * t) - 3 * (t * t * t)) / 6; t * t * t / 6].
    split; [split|].
    + repeat (apply Forall_cons; [lra|]); apply Forall_nil.
    + cbn. lra.
    + intros. unfold UniformCubicBSpline, combination. cbn. field.
Qed.
Print Assumptions C76_BSpline_hull.

(* f' is the k-th derivative of f *)
Fixpoint derivative (k : nat) (f f' : R -> R) : Prop :=
  match k with
  | O => forall x, f' x = f x
  | S k => exists g, (forall x, derivable_pt_lim f x (g x)) /\ derivative k g f'
  end.

(* two consecutive segments join: the value (j = 0) and the derivatives up to the k-th at the end of one segment are those
   at the start of the next *)
Definition joins (k : nat) (f g : R -> R) : Prop :=
  forall j, (j <= k)%nat -> exists f' g', derivative j f f' /\ derivative j g g' /\ f' 1 = g' 0.

Lemma derivable_cubic (c0 c1 c2 c3 : R) (f : R -> R) x :
  (forall t, f t = c0 + c1 * t + c2 * t ^ 2 + c3 * t ^ 3) ->
  derivable_pt_lim f x (c1 + 2 * c2 * x + 3 * c3 * x ^ 2).
Proof.
  intros E.
  assert (D : derivable_pt_lim (fun t => c0 + c1 * t + c2 * t ^ 2 + c3 * t ^ 3) x
                (0 + c1 * 1 + c2 * (INR 2 * x ^ 1) + c3 * (INR 3 * x ^ 2))).
  { apply derivable_pt_lim_plus; [apply derivable_pt_lim_plus; [apply derivable_pt_lim_plus|]|].
    - apply derivable_pt_lim_const.
    - apply (derivable_pt_lim_scal id). apply derivable_pt_lim_id.
    - apply (derivable_pt_lim_scal (fun t => t ^ 2)). apply (derivable_pt_lim_pow x 2).
    - apply (derivable_pt_lim_scal (fun t => t ^ 3)). apply (derivable_pt_lim_pow x 3). }
  replace (c1 + 2 * c2 * x + 3 * c3 * x ^ 2)
    with (0 + c1 * 1 + c2 * (INR 2 * x ^ 1) + c3 * (INR 3 * x ^ 2)) by (cbn; ring).
  intros eps He. destruct (D eps He) as [d Hd]. exists d. intros h H0 H1. rewrite !E. apply Hd; auto.
Qed.

Lemma derivatives_cubic (c0 c1 c2 c3 : R) (f : R -> R) :
  (forall t, f t = c0 + c1 * t + c2 * t ^ 2 + c3 * t ^ 3) ->
  derivative 0 f (fun x => c0 + c1 * x + c2 * x ^ 2 + c3 * x ^ 3) /\
  derivative 1 f (fun x => c1 + 2 * c2 * x + 3 * c3 * x ^ 2) /\
  derivative 2 f (fun x => 2 * c2 + 6 * c3 * x).
Proof.
  intros E. pose proof (fun x => derivable_cubic c0 c1 c2 c3 f x E) as D1.
  split; [|split].
  - intros x. symmetry. apply E.
  - exists (fun x => c1 + 2 * c2 * x + 3 * c3 * x ^ 2). split; [exact D1|]. intros x. reflexivity.
  - exists (fun x => c1 + 2 * c2 * x + 3 * c3 * x ^ 2). split; [exact D1|].
    exists (fun x => 2 * c2 + 6 * c3 * x). split; [|intros x; reflexivity]. intros x.
    replace (2 * c2 + 6 * c3 * x) with (2 * c2 + 2 * (3 * c3) * x + 3 * 0 * x ^ 2) by ring.
    apply (derivable_cubic c1 (2 * c2) (3 * c3) 0). intros t. ring.
Qed.

Lemma joins_cubic k a0 a1 a2 a3 b0 b1 b2 b3 (f g : R -> R) :
  (forall t, f t = a0 + a1 * t + a2 * t ^ 2 + a3 * t ^ 3) ->
  (forall t, g t = b0 + b1 * t + b2 * t ^ 2 + b3 * t ^ 3) ->
  (k <= 2)%nat ->
  a0 + a1 + a2 + a3 = b0 ->
  ((1 <= k)%nat -> a1 + 2 * a2 + 3 * a3 = b1) ->
  ((2 <= k)%nat -> a2 + 3 * a3 = b2) ->
  joins k f g.
Proof.
  intros F G K E0 E1 E2 j J.
  destruct (derivatives_cubic _ _ _ _ _ F) as (F0 & F1 & F2).
  destruct (derivatives_cubic _ _ _ _ _ G) as (G0 & G1 & G2).
  destruct j as [|[|[|j]]]; [| | |lia].
  - do 2 eexists. split; [exact F0|]. split; [exact G0|]. cbv beta. lra.
  - do 2 eexists. split; [exact F1|]. split; [exact G1|]. cbv beta. specialize (E1 ltac:(lia)). lra.
  - do 2 eexists. split; [exact F2|]. split; [exact G2|]. cbv beta. specialize (E2 ltac:(lia)). lra.
Qed.

(* the uniform cubic B-spline is twice continuously differentiable across segments, the quadratic one once; the
   interpolating spline once, and it goes through its two middle points *)
Theorem C76_segments_join p1 p2 p3 p4 p5 :
  joins 1 (fun t => UniformQuadraticBSpline t p1 p2 p3) (fun t => UniformQuadraticBSpline t p2 p3 p4) /\
  joins 2 (fun t => UniformCubicBSpline t p1 p2 p3 p4) (fun t => UniformCubicBSpline t p2 p3 p4 p5) /\
  joins 1 (fun t => CubicBSpline t p1 p2 p3 p4) (fun t => CubicBSpline t p2 p3 p4 p5) /\
  CubicBSpline 0 p1 p2 p3 p4 = p2 /\ CubicBSpline 1 p1 p2 p3 p4 = p3.
Proof.
  split; [|split; [|split; [|split]]].
  - eapply (joins_cubic 1 ((p1 + p2) / 2) (p2 - p1) ((p1 - 2 * p2 + p3) / 2) 0
                        ((p2 + p3) / 2) (p3 - p2) ((p2 - 2 * p3 + p4) / 2) 0);
      [intros; unfold UniformQuadraticBSpline; field ..|lia| |intros _|lia]; lra.
  - eapply (joins_cubic 2 ((p1 + 4 * p2 + p3) / 6) ((p3 - p1) / 2) ((p1 - 2 * p2 + p3) / 2) ((p4 - 3 * p3 + 3 * p2 - p1) / 6)
                        ((p2 + 4 * p3 + p4) / 6) ((p4 - p2) / 2) ((p2 - 2 * p3 + p4) / 2) ((p5 - 3 * p4 + 3 * p3 - p2) / 6));
      [intros; unfold UniformCubicBSpline; field ..|lia| |intros _|intros _]; lra.
  - eapply (joins_cubic 1 p2 ((p3 - p1) / 2) ((2 * p1 - 5 * p2 + 4 * p3 - p4) / 2) ((p4 - 3 * p3 + 3 * p2 - p1) / 2)
                        p3 ((p4 - p2) / 2) ((2 * p2 - 5 * p3 + 4 * p4 - p5) / 2) ((p5 - 3 * p4 + 3 * p3 - p2) / 2));
      [intros; unfold CubicBSpline; field ..|lia| |intros _|lia]; lra.
  - unfold CubicBSpline. lra.
  - unfold CubicBSpline. lra.
Qed.
Print Assumptions C76_segments_join.

Example C76_example :
  BezierCurve (1 / 2) 0 0 0 8 = 1 /\ UniformCubicBSpline 0 6 0 0 0 = 1 /\ CubicBSpline (1 / 2) 0 16 16 0 = 18.
Proof.
  unfold BezierCurve, StaticGenericSpline, bezier_matrix, UniformCubicBSpline, CubicBSpline. cbn. lra.
Qed.

(* ---------------- C78: the canonical quadratic ---------------- *)

(* f is a quadratic curve *)
Definition quadratic (f : R -> R) : Prop := exists a b c, forall t, f t = a * t ^ 2 + b * t + c.

(* the curve is a quadratic through (x1, x1), (x2, (x1 + x3) / 2) and (x3, x3): the curve through (x1, 0), (x2, 1/2) and
   (x3, 1) scaled to the interval from x1 to x3 *)
Theorem C78_QuadraticCanonicalFit_partial x1 x2 x3 :
  x1 <> x2 -> x2 <> x3 -> x1 <> x3 ->
  quadratic (fun t => QuadraticCanonicalFit t x1 x2 x3) /\
  QuadraticCanonicalFit x1 x1 x2 x3 = x1 + (x3 - x1) * 0 /\
  QuadraticCanonicalFit x2 x1 x2 x3 = x1 + (x3 - x1) * (1 / 2) /\
  QuadraticCanonicalFit x3 x1 x2 x3 = x1 + (x3 - x1) * 1.
Proof.
  intros H1 H2 H3.
  assert (D1 : x3 - x1 <> 0) by lra. assert (D2 : x2 - x1 <> 0) by lra. assert (D3 : x3 - x2 <> 0) by lra.
  assert (Q : (x2 - x1) / (x3 - x1) - (x2 - x1) / (x3 - x1) * ((x2 - x1) / (x3 - x1)) =
              (x2 - x1) * (x3 - x2) / ((x3 - x1) * (x3 - x1))) by (field; auto).
  split; [|split; [|split]].
  - unfold QuadraticCanonicalFit. set (x := (x2 - x1) / (x3 - x1)). set (A := (x - 1 / 2) / (x - x * x)).
    set (B := 1 / 2 / x - A * x). set (w := x3 - x1).
    exists (A / w), (B - 2 * A * x1 / w), (A * x1 * x1 / w - B * x1 + x1). intros t.
    field. exact D1.
  - unfold QuadraticCanonicalFit. rewrite Q.
    set (A := (_ - 1 / 2) / _). set (B := 1 / 2 / _ - _). field. exact D1.
  - unfold QuadraticCanonicalFit. rewrite Q. field. repeat split; auto.
  - unfold QuadraticCanonicalFit. rewrite Q. field. repeat split; auto.
Qed.
Print Assumptions C78_QuadraticCanonicalFit_partial.

(* the comment above the function promises (x1, 0), (x2, 1/2), (x3, 1) *)
Theorem C78_documented_points_refuted :
  exists x1 x2 x3, x1 < x2 < x3 /\ QuadraticCanonicalFit x1 x1 x2 x3 <> 0 /\
    QuadraticCanonicalFit x2 x1 x2 x3 <> 1 / 2 /\ QuadraticCanonicalFit x3 x1 x2 x3 <> 1.
Proof.
  exists 2, 3, 5.
  destruct (C78_QuadraticCanonicalFit_partial 2 3 5) as (_ & E1 & E2 & E3); [lra ..|].
  rewrite E1, E2, E3. lra.
Qed.
Print Assumptions C78_documented_points_refuted.
