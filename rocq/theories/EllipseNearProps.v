(* C206: the nearest point of an ellipse *)
From Coq Require Import Reals List Bool Lra Psatz.
From Coquelicot Require Import Coquelicot.
From Verif Require Import Common Collision SphereProps AngleProps EllipseNear.
Local Open Scope R_scope.

(** the points of the ellipse at (X, Y) with the half axes A and B, those of its border, and the square of a distance *)
Definition inside (X Y A B : R) (p : point) : Prop := (fst p - X) * (fst p - X) / (A * A) + (snd p - Y) * (snd p - Y) / (B * B) <= 1.
Definition border (X Y A B : R) (p : point) : Prop := (fst p - X) * (fst p - X) / (A * A) + (snd p - Y) * (snd p - Y) / (B * B) = 1.
Definition dist2 (p q : point) : R := (fst p - fst q) * (fst p - fst q) + (snd p - snd q) * (snd p - snd q).
(** p is a point of the ellipse, and none is nearer to c *)
Definition nearest (A B : R) (c p : point) : Prop := inside 0 0 A B p /\ forall q, inside 0 0 A B q -> dist2 p c <= dist2 q c.

(** Whatever Newton's method does: a point of the ellipse is its own nearest point, and for any other the result is on the border *)
Theorem C206_border A B cx cy p : 0 < A -> 0 < B -> EllipseNearestPoint A B cx cy = Ok p ->
  (inside 0 0 A B (cx, cy) -> p = (cx, cy)) /\ (~ inside 0 0 A B (cx, cy) -> border 0 0 A B p).
Proof.
  intros PA PB E. unfold EllipseNearestPoint in E. unfold inside, border. cbn [fst snd]. rewrite !Rminus_0_r.
  destruct (rle _ 1) eqn:R.
  - injection E as <-. apply rle_true in R. split; [auto|]. intros N. contradiction.
  - destruct (newton 4 A B cx cy _) as [t| |]; try discriminate. cbn [bind] in E. injection E as <-. split.
    + intros I. apply rle_true in I. congruence.
    + intros _. cbn [fst snd]. pose proof (sin2_cos2 t) as SC. unfold Rsqr in SC. replace (A * cos t * (A * cos t) / (A * A)) with (cos t * cos t) by (field; lra). replace (B * sin t * (B * sin t) / (B * B)) with (sin t * sin t) by (field; lra). lra.
Qed.
Print Assumptions C206_border.
(** so if the collision of an ellipse and a circle is reported, they have a point in common *)
Theorem C206_sound X Y A B x y r : 0 < A -> 0 < B -> EllipseCircleCollide X Y A B x y r = Ok true -> exists q, inside X Y A B q /\ dist2 q (x, y) < r * r.
Proof.
  intros PA PB E. unfold EllipseCircleCollide in E. destruct (EllipseNearestPoint A B (x - X) (y - Y)) as [p| |] eqn:N; try discriminate. cbn [bind] in E. injection E as E. apply rlt_true in E.
  exists (fst p + X, snd p + Y). destruct (C206_border _ _ _ _ _ PA PB N) as [I O]. split.
  - unfold inside. cbn [fst snd]. replace (fst p + X - X) with (fst p) by ring. replace (snd p + Y - Y) with (snd p) by ring.
    assert (D : inside 0 0 A B (x - X, y - Y) \/ ~ inside 0 0 A B (x - X, y - Y)) by (unfold inside; destruct (Rle_dec ((fst (x - X, y - Y) - 0) * (fst (x - X, y - Y) - 0) / (A * A) + (snd (x - X, y - Y) - 0) * (snd (x - X, y - Y) - 0) / (B * B)) 1); auto).
    destruct D as [D|D]; [rewrite (I D); unfold inside in D; cbn [fst snd] in *; rewrite !Rminus_0_r in D; exact D|]. specialize (O D). unfold border in O. rewrite !Rminus_0_r in O. lra.
  - unfold dist2. cbn [fst snd]. eapply Rle_lt_trans; [|exact E]. right. ring.
Qed.
Print Assumptions C206_sound.

Lemma newton_fix A B cx cy t n : ellipse_f A B cx cy t = 0 -> ellipse_f' A B cx cy t <> 0 -> newton n A B cx cy t = Ok t.
Proof.
  intros F N. induction n as [|n IH]; [reflexivity|]. cbn [newton]. destruct (Req_EM_T _ 0) as [Q|_]; [contradiction|]. rewrite F. replace (t - 0 / ellipse_f' A B cx cy t) with t by (field; exact N). exact IH.
Qed.
Lemma guess A B cx cy : 0 < A -> 0 < B -> ~ inside 0 0 A B (cx, cy) ->
  exists d, 0 < d /\ d * d = B * cx * (B * cx) + A * cy * (A * cy) /\ d * cos (atan2 (A * cy) (B * cx)) = B * cx /\ d * sin (atan2 (A * cy) (B * cx)) = A * cy.
Proof.
  intros PA PB N. set (w := B * cx * (B * cx) + A * cy * (A * cy)).
  assert (W : 0 < w).
  { unfold w. destruct (Req_EM_T cx 0) as [->|X]; [destruct (Req_EM_T cy 0) as [->|Y]|].
    - exfalso. apply N. unfold inside. cbn [fst snd]. unfold Rdiv. rewrite !Rminus_0_r. rewrite !Rmult_0_l. lra.
    - assert (0 < (A * cy) * (A * cy)) by (apply Rsqr_pos_lt; apply Rmult_integral_contrapositive_currified; lra). lra.
    - assert (0 < (B * cx) * (B * cx)) by (apply Rsqr_pos_lt; apply Rmult_integral_contrapositive_currified; lra). pose proof (Rle_0_sqr (A * cy)) as S2. unfold Rsqr in S2. lra. }
  exists (sqrt w). assert (D : 0 < sqrt w) by (now apply sqrt_lt_R0). assert (SQ : sqrt w * sqrt w = w) by (apply sqrt_sqrt; lra). split; [exact D|]. split; [exact SQ|].
  apply atan2_polar; [exact D|]. rewrite SQ. reflexivity.
Qed.
Lemma outside_guess A B cx cy t : 0 < A -> 0 < B -> ~ inside 0 0 A B (cx, cy) -> t = atan2 (A * cy) (B * cx) ->
  ellipse_f A B cx cy t = 0 -> ellipse_f' A B cx cy t <> 0 -> EllipseNearestPoint A B cx cy = Ok (A * cos t, B * sin t).
Proof.
  intros PA PB N T F F'. unfold EllipseNearestPoint. destruct (rle _ 1) eqn:R.
  - exfalso. apply N. apply rle_true in R. unfold inside. cbn [fst snd]. rewrite !Rminus_0_r. exact R.
  - rewrite <- T, newton_fix by assumption. reflexivity.
Qed.
Lemma inside_nearest A B c : inside 0 0 A B c -> nearest A B c c.
Proof. intros I. split; [exact I|]. intros q _. unfold dist2. replace (fst c - fst c) with 0 by ring. replace (snd c - snd c) with 0 by ring. pose proof (Rle_0_sqr (fst q - fst c)) as S1. pose proof (Rle_0_sqr (snd q - snd c)) as S2. unfold Rsqr in *. lra. Qed.
Lemma inside_self A B cx cy : inside 0 0 A B (cx, cy) -> EllipseNearestPoint A B cx cy = Ok (cx, cy).
Proof. intros I. unfold EllipseNearestPoint. unfold inside in I. cbn [fst snd] in I. rewrite !Rminus_0_r in I. apply rle_true in I. now rewrite I. Qed.
Lemma inside_dec A B c : inside 0 0 A B c \/ ~ inside 0 0 A B c.
Proof. unfold inside. destruct (Rle_dec ((fst c - 0) * (fst c - 0) / (A * A) + (snd c - 0) * (snd c - 0) / (B * B)) 1); auto. Qed.

(** the point of the border at the angle t, and how far c - p is from being perpendicular to the border there, at the nearest point 0 *)
Definition at_angle (A B t : R) : point := (A * cos t, B * sin t).
Definition slope (A B : R) (c : point) (t : R) : R := (fst c - fst (at_angle A B t)) * - (A * sin t) + (snd c - snd (at_angle A B t)) * (B * cos t).
(** t' is what a round of Newton's method for a zero of g makes of t *)
Definition newton_step (g : R -> R) (t t' : R) : Prop := exists g', is_derive g t g' /\ g' <> 0 /\ t' = t - g t / g'.
Lemma newton_S n A B cx cy t r : newton (S n) A B cx cy t = Ok r -> exists u, newton_step (slope A B (cx, cy)) t u /\ newton n A B cx cy u = Ok r.
Proof.
  cbn [newton]. destruct (Req_EM_T _ 0) as [Q|Q]; [discriminate|]. intros E. eexists. split; [|exact E]. exists (ellipse_f' A B cx cy t). split; [|split; [exact Q|]].
  - unfold slope, at_angle, ellipse_f'. cbn [fst snd]. auto_derive; [trivial|]. ring.
  - f_equal. f_equal. unfold slope, at_angle, ellipse_f. cbn [fst snd]. ring.
Qed.
(** In general the result is that of four rounds of Newton's method for the slope, begun in the direction of the point given *)
Theorem C206_newton A B cx cy p : 0 < A -> 0 < B -> ~ inside 0 0 A B (cx, cy) -> EllipseNearestPoint A B cx cy = Ok p ->
  exists t0 t1 t2 t3 t4, (exists k, 0 < k /\ at_angle A B t0 = (k * cx, k * cy)) /\
    newton_step (slope A B (cx, cy)) t0 t1 /\ newton_step (slope A B (cx, cy)) t1 t2 /\ newton_step (slope A B (cx, cy)) t2 t3 /\ newton_step (slope A B (cx, cy)) t3 t4 /\ p = at_angle A B t4.
Proof.
  intros PA PB N E. unfold EllipseNearestPoint in E. destruct (rle _ 1) eqn:R.
  - exfalso. apply N. apply rle_true in R. unfold inside. cbn [fst snd]. rewrite !Rminus_0_r. exact R.
  - destruct (newton 4 A B cx cy _) as [t| |] eqn:W; try discriminate. cbn [bind] in E. injection E as <-.
    apply newton_S in W. destruct W as (t1 & H1 & W). apply newton_S in W. destruct W as (t2 & H2 & W). apply newton_S in W. destruct W as (t3 & H3 & W). apply newton_S in W. destruct W as (t4 & H4 & W). cbn [newton] in W. injection W as <-.
    exists (atan2 (A * cy) (B * cx)), t1, t2, t3, t4. split; [|repeat split; assumption].
    destruct (guess A B cx cy PA PB N) as (d & D & DD & C & SN). set (t := atan2 _ _) in *. clearbody t. exists (A * B / d). split; [apply Rdiv_lt_0_compat; [nra|exact D]|]. unfold at_angle. f_equal.
    + apply (Rmult_eq_reg_l d); [|lra]. replace (d * (A * B / d * cx)) with (A * (B * cx)) by (field; lra). rewrite <- C. ring.
    + apply (Rmult_eq_reg_l d); [|lra]. replace (d * (A * B / d * cy)) with (B * (A * cy)) by (field; lra). rewrite <- SN. ring.
Qed.
Print Assumptions C206_newton.

(** If the ellipse is a circle, the result is its nearest point.  What is missing: that of another ellipse, beside its axes *)
Theorem C206_circle_partial A cx cy : 0 < A -> exists p, EllipseNearestPoint A A cx cy = Ok p /\ nearest A A (cx, cy) p.
Proof.
  intros PA. destruct (inside_dec A A (cx, cy)) as [I|N]; [exists (cx, cy); split; [now apply inside_self|now apply inside_nearest]|].
  destruct (guess A A cx cy PA PA N) as (d & D & DD & C & SN). set (t := atan2 (A * cy) (A * cx)) in *.
  set (e := d / A). assert (PE : 0 < e) by (apply Rdiv_lt_0_compat; assumption). assert (dE : d = A * e) by (unfold e; field; lra). rewrite dE in *.
  assert (C' : cx = e * cos t) by (apply (Rmult_eq_reg_l A); lra). assert (S' : cy = e * sin t) by (apply (Rmult_eq_reg_l A); lra).
  pose proof (sin2_cos2 t) as SC. unfold Rsqr in SC.
  assert (OUT : A < e).
  { destruct (Rlt_le_dec A e) as [H|H]; [exact H|]. exfalso. apply N. unfold inside. cbn [fst snd]. rewrite !Rminus_0_r.
    replace (cx * cx / (A * A) + cy * cy / (A * A)) with (e * e / (A * A)) by (rewrite C', S'; replace (e * e / (A * A)) with (e * e * (sin t * sin t + cos t * cos t) / (A * A)) by (rewrite SC; field; lra); field; lra).
    apply (Rmult_le_reg_r (A * A)); [nra|]. unfold Rdiv. rewrite Rmult_assoc, Rinv_l by nra. nra. }
  exists (A * cos t, A * sin t). split.
  - apply outside_guess; auto.
    + unfold ellipse_f. rewrite C', S'. ring.
    + unfold ellipse_f'. rewrite C', S'. replace ((A * A - A * A) * (cos t * cos t - sin t * sin t) - e * cos t * A * cos t - e * sin t * A * sin t) with (- (e * A * (sin t * sin t + cos t * cos t))) by ring. rewrite SC. nra.
  - split.
    + unfold inside. cbn [fst snd]. rewrite !Rminus_0_r. right. replace (A * cos t * (A * cos t) / (A * A) + A * sin t * (A * sin t) / (A * A)) with (sin t * sin t + cos t * cos t) by (field; lra). exact SC.
    + intros [u v] Q. unfold inside in Q. cbn [fst snd] in Q. rewrite !Rminus_0_r in Q. unfold dist2. cbn [fst snd].
      assert (UV : u * u + v * v <= A * A). { apply (Rmult_le_compat_r (A * A)) in Q; [|nra]. replace ((u * u / (A * A) + v * v / (A * A)) * (A * A)) with (u * u + v * v) in Q by (field; lra). lra. }
      rewrite C', S'. set (c := cos t) in *. set (s := sin t) in *.
      assert (P1 : u * c + v * s <= A). { assert (H : (u * c + v * s) * (u * c + v * s) <= A * A) by (assert (0 <= (u * s - v * c) * (u * s - v * c)) by apply Rle_0_sqr; nra). nra. }
      replace ((A * c - e * c) * (A * c - e * c) + (A * s - e * s) * (A * s - e * s)) with ((A - e) * (A - e) * (s * s + c * c)) by ring. rewrite SC.
      replace ((u - e * c) * (u - e * c) + (v - e * s) * (v - e * s)) with (u * u + v * v - 2 * e * (u * c + v * s) + e * e * (s * s + c * c)) by ring. rewrite SC.
      assert (U1 : (u * c + v * s) * (u * c + v * s) <= u * u + v * v) by (assert (0 <= (u * s - v * c) * (u * s - v * c)) by apply Rle_0_sqr; nra).
      set (m := u * c + v * s) in *. assert ((A - e) * (A - e) <= (m - e) * (m - e)) by nra. nra.
Qed.
Print Assumptions C206_circle_partial.
(** and the collision of the two circles is reported exactly if they have a point in common *)
Theorem C206_circle_collide_partial X Y A x y r : 0 < A -> exists b, EllipseCircleCollide X Y A A x y r = Ok b /\ (b = true <-> exists q, inside X Y A A q /\ dist2 q (x, y) < r * r).
Proof.
  intros PA. destruct (C206_circle_partial A (x - X) (y - Y) PA) as (p & E & I & M). unfold EllipseCircleCollide. rewrite E. cbn [bind]. eexists. split; [reflexivity|]. split.
  - intros H. apply (C206_sound X Y A A x y r PA PA). unfold EllipseCircleCollide. rewrite E. cbn [bind]. now rewrite H.
  - intros (q & Q & D). apply rlt_true. eapply Rle_lt_trans; [|exact D]. specialize (M (fst q - X, snd q - Y)).
    assert (QI : inside 0 0 A A (fst q - X, snd q - Y)) by (unfold inside in *; cbn [fst snd] in *; rewrite !Rminus_0_r; exact Q). specialize (M QI). unfold dist2 in *. cbn [fst snd] in *. eapply Rle_trans; [exact M|]. right. ring.
Qed.
Print Assumptions C206_circle_collide_partial.

Lemma axis_bound A u w : 0 < A -> 0 <= w -> u * u / (A * A) + w <= 1 -> - A <= u <= A.
Proof. intros PA W H. assert (U : u * u <= A * A). { assert (u * u / (A * A) <= 1) as Q by lra. apply (Rmult_le_compat_r (A * A)) in Q; [|nra]. unfold Rdiv in Q. rewrite Rmult_assoc, Rinv_l in Q by nra. lra. } split; nra. Qed.
(** For a point on an axis of any ellipse, too, the result is the nearest point.  What is missing: as above *)
Theorem C206_axis_partial A B cx cy : 0 < A -> 0 < B -> cx = 0 \/ cy = 0 -> exists p, EllipseNearestPoint A B cx cy = Ok p /\ nearest A B (cx, cy) p.
Proof.
  intros PA PB AX. destruct (inside_dec A B (cx, cy)) as [I|N]; [exists (cx, cy); split; [now apply inside_self|now apply inside_nearest]|].
  destruct (guess A B cx cy PA PB N) as (d & D & DD & C & SN). set (t := atan2 (A * cy) (B * cx)) in *. pose proof (sin2_cos2 t) as SC. unfold Rsqr in SC.
  assert (BO : inside 0 0 A B (A * cos t, B * sin t)).
  { unfold inside. cbn [fst snd]. rewrite !Rminus_0_r. right. replace (A * cos t * (A * cos t) / (A * A) + B * sin t * (B * sin t) / (B * B)) with (sin t * sin t + cos t * cos t) by (field; lra). exact SC. }
  destruct AX as [-> | ->].
  - assert (C0 : cos t = 0) by (apply (Rmult_eq_reg_l d); lra). rewrite C0 in SC.
    assert (S1 : sin t = 1 \/ sin t = -1) by (destruct (Rmult_integral (sin t - 1) (sin t + 1)); [lra|left; lra|right; lra]).
    assert (OUT : B < cy * sin t).
    { destruct (Rlt_le_dec B (cy * sin t)) as [H|H]; [exact H|]. exfalso. apply N. unfold inside. cbn [fst snd]. rewrite !Rminus_0_r. replace (0 * 0 / (A * A) + cy * cy / (B * B)) with (cy * cy / (B * B)) by (field; lra).
      apply (Rmult_le_reg_r (B * B)); [nra|]. unfold Rdiv. rewrite Rmult_assoc, Rinv_l by nra. assert (0 < cy * sin t) by (assert (0 < A * (cy * sin t)) by (replace (A * (cy * sin t)) with (A * cy * sin t) by ring; rewrite <- SN; nra); nra). nra. }
    exists (A * cos t, B * sin t). split.
    + apply outside_guess; auto; unfold ellipse_f, ellipse_f'; rewrite C0; [ring|]. nra.
    + split; [exact BO|]. intros [u v] Q. unfold inside in Q. cbn [fst snd] in Q. rewrite !Rminus_0_r in Q. unfold dist2. cbn [fst snd]. rewrite C0.
      assert (V : - B <= v <= B) by (apply (axis_bound B v (u * u / (A * A))); [exact PB| |lra]; apply Rmult_le_pos; [apply Rle_0_sqr|left; apply Rinv_0_lt_compat; nra]).
      assert ((B * sin t - cy) * (B * sin t - cy) <= (v - cy) * (v - cy)) by (destruct S1 as [S1|S1]; rewrite S1 in *; nra). pose proof (Rle_0_sqr u) as U. unfold Rsqr in U. nra.
  - assert (C0 : sin t = 0) by (apply (Rmult_eq_reg_l d); lra). rewrite C0 in SC.
    assert (S1 : cos t = 1 \/ cos t = -1) by (destruct (Rmult_integral (cos t - 1) (cos t + 1)); [lra|left; lra|right; lra]).
    assert (OUT : A < cx * cos t).
    { destruct (Rlt_le_dec A (cx * cos t)) as [H|H]; [exact H|]. exfalso. apply N. unfold inside. cbn [fst snd]. rewrite !Rminus_0_r. replace (cx * cx / (A * A) + 0 * 0 / (B * B)) with (cx * cx / (A * A)) by (field; lra).
      apply (Rmult_le_reg_r (A * A)); [nra|]. unfold Rdiv. rewrite Rmult_assoc, Rinv_l by nra. assert (0 < cx * cos t) by (assert (0 < B * (cx * cos t)) by (replace (B * (cx * cos t)) with (B * cx * cos t) by ring; rewrite <- C; nra); nra). nra. }
    exists (A * cos t, B * sin t). split.
    + apply outside_guess; auto; unfold ellipse_f, ellipse_f'; rewrite C0; [ring|]. nra.
    + split; [exact BO|]. intros [u v] Q. unfold inside in Q. cbn [fst snd] in Q. rewrite !Rminus_0_r in Q. unfold dist2. cbn [fst snd]. rewrite C0.
      assert (V : - A <= u <= A) by (apply (axis_bound A u (v * v / (B * B))); [exact PA| |exact Q]; apply Rmult_le_pos; [apply Rle_0_sqr|left; apply Rinv_0_lt_compat; nra]).
      assert ((A * cos t - cx) * (A * cos t - cx) <= (u - cx) * (u - cx)) by (destruct S1 as [S1|S1]; rewrite S1 in *; nra). pose proof (Rle_0_sqr v) as U. unfold Rsqr in U. nra.
Qed.
Print Assumptions C206_axis_partial.

(** and if the centre of the circle is on an axis, the collision is reported exactly if they have a point in common *)
Theorem C206_axis_collide_partial X Y A B x y r : 0 < A -> 0 < B -> x = X \/ y = Y ->
  exists b, EllipseCircleCollide X Y A B x y r = Ok b /\ (b = true <-> exists q, inside X Y A B q /\ dist2 q (x, y) < r * r).
Proof.
  intros PA PB AX. destruct (C206_axis_partial A B (x - X) (y - Y) PA PB) as (p & E & I & M); [destruct AX as [-> | ->]; [left|right]; ring|].
  unfold EllipseCircleCollide. rewrite E. cbn [bind]. eexists. split; [reflexivity|]. split.
  - intros H. apply (C206_sound X Y A B x y r PA PB). unfold EllipseCircleCollide. rewrite E. cbn [bind]. now rewrite H.
  - intros (q & Q & D). apply rlt_true. eapply Rle_lt_trans; [|exact D]. specialize (M (fst q - X, snd q - Y)).
    assert (QI : inside 0 0 A B (fst q - X, snd q - Y)) by (unfold inside in *; cbn [fst snd] in *; rewrite !Rminus_0_r; exact Q). specialize (M QI). unfold dist2 in *. cbn [fst snd] in *. eapply Rle_trans; [exact M|]. right. ring.
Qed.
Print Assumptions C206_axis_collide_partial.

(** The member of an ellipse should give a point of that ellipse.  It does not: the result is relative to the centre *)
Theorem C206_member_refuted : ~ forall x y a b X Y p, 0 < a -> 0 < b -> NearestPoint x y a b X Y = Ok p -> inside x y a b p.
Proof.
  intros H. specialize (H 10 0 1 1 10 0 (10 - 10, 0 - 0)). assert (I : inside 10 0 1 1 (10 - 10, 0 - 0)).
  { apply H; [lra|lra|]. unfold NearestPoint. apply inside_self. unfold inside. cbn [fst snd]. lra. }
  unfold inside in I. cbn [fst snd] in I. lra.
Qed.
Print Assumptions C206_member_refuted.
(** moved by the centre it is one, and on the border if the point given is outside *)
Theorem C206_member_partial x y a b X Y p : 0 < a -> 0 < b -> NearestPoint x y a b X Y = Ok p ->
  (inside x y a b (X, Y) -> (fst p + x, snd p + y) = (X, Y)) /\ (~ inside x y a b (X, Y) -> border x y a b (fst p + x, snd p + y)).
Proof.
  intros PA PB E. destruct (C206_border _ _ _ _ _ PA PB E) as [I O]. unfold inside, border in *. cbn [fst snd] in *. rewrite !Rminus_0_r in I, O.
  replace (fst p + x - x) with (fst p) by ring. replace (snd p + y - y) with (snd p) by ring. split.
  - intros Q. rewrite (I Q). cbn [fst snd]. f_equal; ring.
  - intros Q. rewrite <- (O Q). f_equal; f_equal; ring.
Qed.
Print Assumptions C206_member_partial.

(** An ellipse of the half axes 2 and 1 and a point outside, on the long axis: the nearest point is the end of the axis, and a circle of radius 2 around the point collides *)
Example C206_example : ~ inside 0 0 2 1 (3, 0) /\ (exists p, EllipseNearestPoint 2 1 3 0 = Ok p /\ dist2 p (3, 0) = 1) /\ EllipseCircleCollide 5 5 2 1 8 5 2 = Ok true.
Proof.
  assert (N : ~ inside 0 0 2 1 (3, 0)) by (unfold inside; cbn [fst snd]; lra). split; [exact N|].
  assert (K : exists p, EllipseNearestPoint 2 1 3 0 = Ok p /\ dist2 p (3, 0) = 1).
  { destruct (C206_axis_partial 2 1 3 0) as (p & E & I & M); try lra; try (right; reflexivity). exists p. split; [exact E|].
    specialize (M (2, 0)). assert (Q : inside 0 0 2 1 (2, 0)) by (unfold inside; cbn [fst snd]; lra). specialize (M Q).
    destruct p as [u v]. unfold inside in I. unfold dist2 in *. cbn [fst snd] in *. rewrite !Rminus_0_r in I. assert (V : -2 <= u <= 2) by (apply (axis_bound 2 u (v * v / (1 * 1))); [lra| |exact I]; unfold Rdiv; rewrite Rmult_1_l, Rinv_1; nra). nra. }
  split; [exact K|]. destruct K as (p & E & D). unfold EllipseCircleCollide. replace (8 - 5) with 3 by ring. replace (5 - 5) with 0 by ring. rewrite E. cbn [bind]. f_equal. apply rlt_true. unfold dist2 in D. cbn [fst snd] in D. lra.
Qed.
