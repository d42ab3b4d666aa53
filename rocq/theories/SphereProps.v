(* C87, C88: spheres and circles. *)
From Coq Require Import Reals List Arith Lia Lra Psatz Bool.
From Verif Require Import Matrix Collision DeterminantProps MatrixProps VectorProps.
Import ListNotations.
Local Open Scope R_scope.

(** The Euclidean distance in [n] dimensions. *)
Definition dist (n : nat) (p q : vec) : R := sqrt (sum n (fun i => (p i - q i) * (p i - q i))).

Lemma rlt_true : forall x y, rlt x y = true <-> x < y.
Proof. intros x y. unfold rlt. destruct (Rlt_dec x y); split; intros; auto; discriminate. Qed.
Lemma rle_true : forall x y, rle x y = true <-> x <= y.
Proof. intros x y. unfold rle. destruct (Rle_dec x y); split; intros; auto; discriminate. Qed.
Lemma rlt_false : forall x y, rlt x y = false <-> y <= x.
Proof. intros x y. unfold rlt. destruct (Rlt_dec x y); split; intros; auto; try discriminate; lra. Qed.
Lemma rle_false : forall x y, rle x y = false <-> y < x.
Proof. intros x y. unfold rle. destruct (Rle_dec x y); split; intros; auto; try discriminate; lra. Qed.

Lemma dist_dot : forall n p q, dist n p q = sqrt (dot n (minus p q) (minus p q)).
Proof. reflexivity. Qed.
Lemma dist_nonneg : forall n p q, 0 <= dist n p q.
Proof. intros. apply sqrt_pos. Qed.
Lemma dist_sq : forall n p q, dist n p q * dist n p q = dot n (minus p q) (minus p q).
Proof. intros. rewrite dist_dot. apply sqrt_sqrt. apply dot_self. Qed.

Lemma dot_lin : forall n a b x y,
  dot n (fun i => a * x i + b * y i) (fun i => a * x i + b * y i) =
  a * a * dot n x x + 2 * a * b * dot n x y + b * b * dot n y y.
Proof.
  intros n a b x y. unfold dot. induction n as [|n IH]; cbn [sum]; [ring|]. rewrite IH. ring.
Qed.

(** Cauchy-Schwarz. *)
Lemma cauchy : forall n x y, dot n x y * dot n x y <= dot n x x * dot n y y.
Proof.
  intros n x y. pose proof (dot_self n x) as X. pose proof (dot_self n y) as Y.
  assert (P : forall a b, 0 <= a * a * dot n x x + 2 * a * b * dot n x y + b * b * dot n y y).
  { intros a b. rewrite <- dot_lin. apply dot_self. }
  set (A := dot n x x) in *. set (B := dot n y y) in *. set (C := dot n x y) in *.
  destruct (Req_dec A 0) as [E|E].
  - pose proof (P (- (B + 1)) C) as Q. rewrite E in *.
    replace ((- (B + 1)) * (- (B + 1)) * 0 + 2 * (- (B + 1)) * C * C + C * C * B) with (- (C * C) * (B + 2)) in Q by ring.
    nra.
  - pose proof (P C (- A)) as Q. nra.
Qed.

Lemma triangle : forall n p q r, dist n p r <= dist n p q + dist n q r.
Proof.
  intros n p q r. apply Rsqr_incr_0_var; [|pose proof (dist_nonneg n p q); pose proof (dist_nonneg n q r); lra].
  unfold Rsqr. rewrite dist_sq.
  pose proof (dist_sq n p q) as A. pose proof (dist_sq n q r) as B.
  pose proof (dist_nonneg n p q) as A0. pose proof (dist_nonneg n q r) as B0.
  replace (dot n (minus p r) (minus p r)) with
    (dot n (minus p q) (minus p q) + 2 * dot n (minus p q) (minus q r) + dot n (minus q r) (minus q r)).
  2: { transitivity (dot n (fun i => 1 * minus p q i + 1 * minus q r i) (fun i => 1 * minus p q i + 1 * minus q r i)).
       - rewrite dot_lin. ring.
       - unfold dot. apply sum_ext. intros k _. unfold minus. ring. }
  pose proof (cauchy n (minus p q) (minus q r)) as C. rewrite <- A, <- B in C |- *.
  set (a := dist n p q) in *. set (b := dist n q r) in *. set (c := dot n (minus p q) (minus q r)) in *.
  assert (c <= a * b).
  { apply Rnot_lt_le. intros L. pose proof (Rmult_le_pos a b A0 B0). nra. }
  nra.
Qed.

Lemma dist_sym : forall n p q, dist n p q = dist n q p.
Proof. intros. unfold dist. f_equal. apply sum_ext. intros. ring. Qed.

(** The point dividing the way from [c] to [p] (0 at [c], 1 at [p]). *)
Definition along (t : R) (c p : vec) : vec := fun i => c i + t * (p i - c i).
Lemma along_from : forall n t c p, 0 <= t -> dist n (along t c p) c = t * dist n p c.
Proof.
  intros n t c p T. unfold dist.
  replace (sum n (fun i => (along t c p i - c i) * (along t c p i - c i))) with
    (sum n (fun i => (p i - c i) * (p i - c i)) * (t * t)).
  - rewrite sqrt_mult; [|apply sum_nonneg; intros; apply Rle_0_sqr|apply Rle_0_sqr]. rewrite sqrt_square by assumption. ring.
  - rewrite <- sum_scale. apply sum_ext. intros. unfold along. ring.
Qed.
Lemma along_to : forall n t c p, t <= 1 -> dist n (along t c p) p = (1 - t) * dist n p c.
Proof.
  intros n t c p T. unfold dist.
  replace (sum n (fun i => (along t c p i - p i) * (along t c p i - p i))) with
    (sum n (fun i => (p i - c i) * (p i - c i)) * ((1 - t) * (1 - t))).
  - rewrite sqrt_mult; [|apply sum_nonneg; intros; apply Rle_0_sqr|apply Rle_0_sqr]. rewrite sqrt_square by lra. ring.
  - rewrite <- sum_scale. apply sum_ext. intros. unfold along. ring.
Qed.
Lemma along_beyond : forall n t c p, 1 <= t -> dist n (along t c p) p = (t - 1) * dist n p c.
Proof.
  intros n t c p T. unfold dist.
  replace (sum n (fun i => (along t c p i - p i) * (along t c p i - p i))) with
    (sum n (fun i => (p i - c i) * (p i - c i)) * ((t - 1) * (t - 1))).
  - rewrite sqrt_mult; [|apply sum_nonneg; intros; apply Rle_0_sqr|apply Rle_0_sqr]. rewrite sqrt_square by lra. ring.
  - rewrite <- sum_scale. apply sum_ext. intros. unfold along. ring.
Qed.

Lemma below_square : forall n p q r, 0 <= r -> (dot n (minus p q) (minus p q) < r * r <-> dist n p q < r).
Proof.
  intros n p q r P. rewrite <- dist_sq. pose proof (dist_nonneg n p q). split; intros L; nra.
Qed.

(** A point at any distance from a given one. *)
Definition step_away (r : R) (c : vec) : vec := fun i => match i with O => c O + r | _ => c i end.
Lemma step_away_dist : forall n r c, (0 < n)%nat -> 0 <= r -> dist n (step_away r c) c = r.
Proof.
  intros n r c N P. unfold dist. destruct n as [|n]; [lia|].
  replace (sum (S n) (fun i => (step_away r c i - c i) * (step_away r c i - c i))) with (r * r).
  - apply sqrt_square. assumption.
  - clear N. induction n as [|n IH]; [cbn; ring|].
    change (r * r = sum (S n) (fun i => (step_away r c i - c i) * (step_away r c i - c i)) + (step_away r c (S n) - c (S n)) * (step_away r c (S n) - c (S n))).
    rewrite <- IH. cbn. ring.
Qed.

Lemma contains_sphere_iff : forall n c R0 d r, (0 < n)%nat -> 0 <= r ->
  (r < R0 /\ dist n c d < R0 - r <-> (forall p, dist n p d <= r -> dist n p c < R0)).
Proof.
  intros n c R0 d r N P. split.
  - intros [L D] p I. pose proof (triangle n p d c). rewrite (dist_sym n d c) in *. lra.
  - intros A. destruct (Req_dec (dist n c d) 0) as [E|E].
    + pose proof (A (step_away r d)) as Q. rewrite step_away_dist in Q by assumption.
      specialize (Q ltac:(lra)). pose proof (triangle n (step_away r d) c d) as T.
      rewrite step_away_dist in T by assumption. lra.
    + pose proof (dist_nonneg n c d) as D0.
      pose proof (A (along (1 + r / dist n c d) c d)) as Q.
      assert (K : 0 <= r / dist n c d) by (apply Rmult_le_pos; [lra|left; apply Rinv_0_lt_compat; lra]).
      rewrite along_beyond in Q by lra. rewrite along_from in Q by lra. rewrite (dist_sym n d c) in Q.
      replace ((1 + r / dist n c d - 1) * dist n c d) with r in Q by (field; lra).
      replace ((1 + r / dist n c d) * dist n c d) with (dist n c d + r) in Q by (field; lra).
      specialize (Q ltac:(lra)). lra.
Qed.

Lemma collide_iff : forall n c r d s, 0 < r -> 0 < s ->
  (dist n c d < r + s <-> exists p, dist n p c < r /\ dist n p d < s).
Proof.
  intros n c r d s R0 S0. split.
  - intros L. exists (along (r / (r + s)) c d).
    assert (K : 0 < r / (r + s)) by (apply Rdiv_lt_0_compat; lra).
    assert (K' : 0 < s / (r + s)) by (apply Rdiv_lt_0_compat; lra).
    assert (E : r / (r + s) + s / (r + s) = 1) by (field; lra).
    rewrite along_from by lra. rewrite along_to by lra. rewrite (dist_sym n d c).
    replace (1 - r / (r + s)) with (s / (r + s)) by lra.
    assert (X : r / (r + s) * (r + s) = r) by (field; lra).
    assert (Y : s / (r + s) * (r + s) = s) by (field; lra).
    split; nra.
  - intros [p [A B]]. pose proof (triangle n c p d). rewrite (dist_sym n c p) in *. lra.
Qed.

Theorem C87_spheres : forall n, (0 < n)%nat ->
  (* a point is in a sphere when it is nearer than the radius *)
  (forall p c r, 0 <= r -> (SphereContainsPoint n p c r = true <-> dist n p c < r)) /\
  (* a sphere contains another when it contains each of its points *)
  (forall c R0 d r, 0 <= r ->
     (SphereContainsSphere n c R0 d r = true <-> (forall p, dist n p d <= r -> dist n p c < R0))) /\
  (* two spheres collide when some point is in both *)
  (forall c r d s, 0 < r -> 0 < s ->
     (SphereSphereCollide n c r d s = true <-> exists p, dist n p c < r /\ dist n p d < s)).
Proof.
  intros n N. split; [|split].
  - intros p c r P. unfold SphereContainsPoint. rewrite rlt_true, distance_sum by assumption. apply below_square. assumption.
  - intros c R0 d r P. rewrite <- contains_sphere_iff by assumption. unfold SphereContainsSphere.
    destruct (rle R0 r) eqn:E.
    + apply rle_true in E. split; [discriminate|lra].
    + apply rle_false in E. rewrite rlt_true, distance_sum by assumption. rewrite below_square by lra. tauto.
  - intros c r d s P Q. rewrite <- collide_iff by assumption. unfold SphereSphereCollide.
    rewrite rlt_true, distance_sum by assumption. apply below_square. lra.
Qed.
Print Assumptions C87_spheres.

(** The plane: the point with coordinates x, y. *)
Definition pt (x y : R) : vec := fun i => match i with O => x | _ => y end.
Lemma dist2 : forall x y X Y, dist 2 (pt x y) (pt X Y) = sqrt ((x - X) * (x - X) + (y - Y) * (y - Y)).
Proof. intros. unfold dist. f_equal. cbn. ring. Qed.
Lemma dot2 : forall x y X Y, dot 2 (minus (pt x y) (pt X Y)) (minus (pt x y) (pt X Y)) = (X - x) * (X - x) + (Y - y) * (Y - y).
Proof. intros. cbn. unfold minus, pt. ring. Qed.
Lemma any_pt : forall n p q, (n <= 2)%nat -> dist n p q = dist n (pt (p 0%nat) (p 1%nat)) q.
Proof.
  intros n p q L. unfold dist. f_equal. apply sum_ext. intros k K.
  destruct k as [|[|k]]; [reflexivity|reflexivity|lia].
Qed.

Theorem C87_circles :
  (forall x y r X Y, 0 <= r -> (CircleContainsPoint x y r X Y = true <-> dist 2 (pt X Y) (pt x y) < r)) /\
  (forall x y r X Y s, 0 <= s ->
     (CircleContainsCircle x y r X Y s = true <->
      (forall px py, dist 2 (pt px py) (pt X Y) <= s -> dist 2 (pt px py) (pt x y) < r))) /\
  (forall x y r X Y s, 0 < r -> 0 < s ->
     (CircleCircleCollide x y r X Y s = true <->
      exists px py, dist 2 (pt px py) (pt x y) < r /\ dist 2 (pt px py) (pt X Y) < s)).
Proof.
  split; [|split].
  - intros x y r X Y P. unfold CircleContainsPoint, RadiusContainsPoint. rewrite rlt_true.
    rewrite <- below_square by assumption. rewrite dot2. split; intros; nra.
  - intros x y r X Y s P. transitivity (forall p, dist 2 p (pt X Y) <= s -> dist 2 p (pt x y) < r).
    + rewrite <- contains_sphere_iff by (lia || assumption). unfold CircleContainsCircle, RadiusContainsPoint.
      destruct (rle r s) eqn:E.
      * apply rle_true in E. split; [discriminate|lra].
      * apply rle_false in E. rewrite rlt_true. rewrite <- below_square by lra. rewrite dot2. tauto.
    + split; [intros A px py; apply A|]. intros A p. rewrite (any_pt 2 p (pt X Y)), (any_pt 2 p (pt x y)) by lia. apply A.
  - intros x y r X Y s P Q. transitivity (exists p, dist 2 p (pt x y) < r /\ dist 2 p (pt X Y) < s).
    + rewrite <- collide_iff by assumption. unfold CircleCircleCollide, RadiusContainsPoint.
      rewrite rlt_true. rewrite <- below_square by lra. rewrite dot2. tauto.
    + split.
      * intros [p A]. exists (p 0%nat), (p 1%nat). rewrite <- !any_pt by lia. exact A.
      * intros [px [py A]]. exists (pt px py). exact A.
Qed.
Print Assumptions C87_circles.

Example C87_example :
  CircleCircleCollide 0 0 2 3 0 (3/2) = true /\ CircleCircleCollide 0 0 1 3 4 4 = false /\
  CircleContainsCircle 0 0 5 1 1 2 = true /\ SphereContainsPoint 3 (fun _ => 1) (fun _ => 0) 2 = true.
Proof.
  unfold CircleCircleCollide, CircleContainsCircle, RadiusContainsPoint, SphereContainsPoint.
  rewrite !rlt_true, rlt_false. replace (rle 5 2) with false by (symmetry; apply rle_false; lra).
  rewrite rlt_true, distance_sum by lia. repeat split; try lra. cbn. unfold minus. lra.
Qed.

(** The nearest point of the circle to a point other than the centre. *)
Theorem C87_CircleNearestPoint : forall x y r X Y ox oy,
  0 <= r -> (X <> x \/ Y <> y) -> CircleNearestPoint x y r X Y = (ox, oy) ->
  dist 2 (pt ox oy) (pt x y) = r /\
  (forall qx qy, dist 2 (pt qx qy) (pt x y) = r -> dist 2 (pt X Y) (pt ox oy) <= dist 2 (pt X Y) (pt qx qy)).
Proof.
  intros x y r X Y ox oy P D E. unfold CircleNearestPoint, RadiusNearestPoint in E. injection E as <- <-.
  set (s := sqrt ((X - x) * (X - x) + (Y - y) * (Y - y))).
  assert (S0 : 0 < s).
  { apply sqrt_lt_R0. pose proof (Rle_0_sqr (X - x)) as U. pose proof (Rle_0_sqr (Y - y)) as V. unfold Rsqr in *.
    destruct D as [D|D]; [pose proof (Rsqr_pos_lt (X - x) ltac:(lra)) as W|pose proof (Rsqr_pos_lt (Y - y) ltac:(lra)) as W];
      unfold Rsqr in W; lra. }
  assert (Q : forall u v, dist 2 (pt u v) (pt ((X - x) * (r / s) + x) ((Y - y) * (r / s) + y)) =
     dist 2 (pt u v) (along (r / s) (pt x y) (pt X Y))).
  { intros. unfold dist. f_equal. cbn. unfold along, pt. ring. }
  assert (T0 : 0 <= r / s) by (apply Rmult_le_pos; [lra|left; apply Rinv_0_lt_compat; lra]).
  assert (DS : dist 2 (pt X Y) (pt x y) = s) by apply dist2.
  split.
  - rewrite dist_sym, Q, dist_sym, along_from, DS by assumption. field. lra.
  - intros qx qy C. rewrite Q, dist_sym. pose proof (triangle 2 (pt X Y) (pt qx qy) (pt x y)) as T1.
    pose proof (triangle 2 (pt qx qy) (pt X Y) (pt x y)) as T2. rewrite (dist_sym 2 (pt qx qy) (pt X Y)) in T2.
    assert (F : r / s * s = r) by (field; lra).
    destruct (Rle_dec (r / s) 1) as [L|L].
    + rewrite along_to, DS in * by assumption. nra.
    + rewrite along_beyond, DS in * by lra. nra.
Qed.
Print Assumptions C87_CircleNearestPoint.

Example C87_NearestPoint_example : CircleNearestPoint 1 1 10 4 5 = (7, 9).
Proof.
  unfold CircleNearestPoint, RadiusNearestPoint.
  replace ((4 - 1) * (4 - 1) + (5 - 1) * (5 - 1)) with (5 * 5) by ring. rewrite sqrt_square by lra. f_equal; lra.
Qed.

(** The overload of Circle::CircleCollide that takes a vector mixes up the coordinates. *)
Theorem C87_CircleCollide_vector_refuted :
  ~ (forall x y r X Y s, 0 < r -> 0 < s ->
     (Circle_CircleCollide_V x y r (X, Y) s = true <->
      exists px py, dist 2 (pt px py) (pt x y) < r /\ dist 2 (pt px py) (pt X Y) < s)).
Proof.
  intros A. specialize (A 0 0 1 0 10 1 ltac:(lra) ltac:(lra)).
  destruct A as [A _]. destruct A as [px [py [A B]]].
  { unfold Circle_CircleCollide_V, RadiusContainsPoint. apply rlt_true. cbn [fst snd]. lra. }
  pose proof (triangle 2 (pt 0 0) (pt px py) (pt 0 10)) as T. rewrite (dist_sym 2 (pt 0 0) (pt px py)) in T.
  rewrite (dist2 0 0 0 10) in T. replace ((0 - 0) * (0 - 0) + (0 - 10) * (0 - 10)) with (10 * 10) in T by ring.
  rewrite sqrt_square in T by lra. lra.
Qed.
Print Assumptions C87_CircleCollide_vector_refuted.
