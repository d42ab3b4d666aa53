(* C187: the methods of a circle with a centre. *)
From Coq Require Import Reals List Bool Lia Lra Psatz.
From Verif Require Import Collision SphereProps CircleProps LineProps RectProps CircleClass.
Import ListNotations.
Local Open Scope R_scope.

(** The specification: [on_circle], [in_disc], [on_line], [on_ray], [on_segment] are sets of points of the plane.  The open disc is without its edge. *)
Definition in_open_disc (x y r : R) (p : point) : Prop := (fst p - x) * (fst p - x) + (snd p - y) * (snd p - y) < r * r.
Definition sub (p : point) (x y : R) : point := (fst p - x, snd p - y).
Definition add (p : point) (x y : R) : point := (fst p + x, snd p + y).

Lemma add_sub : forall p x y, sub (add p x y) x y = p.
Proof. intros [u v] x y. unfold sub, add. cbn [fst snd]. f_equal; ring. Qed.
Lemma sub_add : forall p x y, add (sub p x y) x y = p.
Proof. intros [u v] x y. unfold sub, add. cbn [fst snd]. f_equal; ring. Qed.
Lemma circle_shift : forall x y r p, on_circle x y r p <-> on_circle 0 0 r (sub p x y).
Proof. intros x y r [u v]. unfold on_circle, sub. cbn [fst snd]. rewrite !Rminus_0_r. tauto. Qed.
Lemma disc_shift : forall x y r p, in_disc x y r p <-> in_disc 0 0 r (sub p x y).
Proof. intros x y r [u v]. unfold in_disc, sub. cbn [fst snd]. rewrite !Rminus_0_r. tauto. Qed.
Lemma at_shift : forall X1 Y1 X2 Y2 x y t, line_at (X1 - x) (Y1 - y) (X2 - x) (Y2 - y) t = sub (line_at X1 Y1 X2 Y2 t) x y.
Proof. intros. unfold line_at, sub. cbn [fst snd]. f_equal; ring. Qed.
Lemma sub_inj : forall p q x y, sub p x y = sub q x y -> p = q.
Proof. intros p q x y E. rewrite <- (sub_add p x y), <- (sub_add q x y), E. reflexivity. Qed.
Lemma line_shift : forall X1 Y1 X2 Y2 x y p, on_line X1 Y1 X2 Y2 p <-> on_line (X1 - x) (Y1 - y) (X2 - x) (Y2 - y) (sub p x y).
Proof.
  intros. unfold on_line. split; intros [t E]; exists t; rewrite at_shift in *; [subst; reflexivity|eapply sub_inj; eassumption].
Qed.
Lemma ray_shift : forall X1 Y1 X2 Y2 x y p, on_ray X1 Y1 X2 Y2 p <-> on_ray (X1 - x) (Y1 - y) (X2 - x) (Y2 - y) (sub p x y).
Proof.
  intros. unfold on_ray. split; intros [t [T E]]; exists t; rewrite at_shift in *; (split; [exact T|]); [subst; reflexivity|eapply sub_inj; eassumption].
Qed.
Lemma segment_shift : forall X1 Y1 X2 Y2 x y p, on_segment X1 Y1 X2 Y2 p <-> on_segment (X1 - x) (Y1 - y) (X2 - x) (Y2 - y) (sub p x y).
Proof.
  intros. unfold on_segment. split; intros [t [T E]]; exists t; rewrite at_shift in *; (split; [exact T|]); [subst; reflexivity|eapply sub_inj; eassumption].
Qed.
Lemma ex_shift : forall x y (P Q : point -> Prop), (forall p, P p <-> Q (sub p x y)) -> (exists p, Q p) <-> (exists p, P p).
Proof.
  intros x y P Q E. split; intros [p H].
  - exists (add p x y). apply E. rewrite add_sub. exact H.
  - exists (sub p x y). apply E. exact H.
Qed.
Lemma some_ex : forall l : list point, some l = true <-> exists p, In p l.
Proof.
  intros [|p l]; cbn; split; try discriminate; try tauto.
  - intros [p []].
  - intros _. exists p. auto.
Qed.
Lemma ssum : forall a b : R, 0 <= a * a + b * b.
Proof. intros a b. pose proof (Rle_0_sqr a). pose proof (Rle_0_sqr b). unfold Rsqr in *. lra. Qed.
Lemma two : forall x y X Y, dist 2 (pt X Y) (pt x y) = sqrt ((X - x) * (X - x) + (Y - y) * (Y - y)).
Proof. intros. apply dist2. Qed.

(** The questions with a yes or no answer.  For a segment the answer is whether it meets the circle itself, not whether it meets the disc: a
    segment inside of the disc does not collide (C89). *)
Theorem C187_tests_partial : forall c, 0 < cr c ->
  (forall X Y, ContainsPoint c X Y = true <-> in_open_disc (cx c) (cy c) (cr c) (X, Y)) /\
  (forall X Y s, 0 <= s -> (ContainsCircle c X Y s = true <-> forall p, in_disc X Y s p -> in_open_disc (cx c) (cy c) (cr c) p)) /\
  (forall X Y s, 0 < s -> (CircleCollide c X Y s = true <-> exists p, in_open_disc (cx c) (cy c) (cr c) p /\ in_open_disc X Y s p)) /\
  (forall l t r b, l <= r -> t <= b -> (RectCollide c l t r b = true <-> meet (in_rect l t r b) (in_disc (cx c) (cy c) (cr c)))) /\
  (forall X1 Y1 X2 Y2, X1 <> X2 \/ Y1 <> Y2 ->
     (LineCollide c X1 Y1 X2 Y2 = true <-> exists p, on_line X1 Y1 X2 Y2 p /\ in_disc (cx c) (cy c) (cr c) p) /\
     (RayCollide c X1 Y1 X2 Y2 = true <-> exists p, on_ray X1 Y1 X2 Y2 p /\ in_disc (cx c) (cy c) (cr c) p) /\
     (LineSegmentCollide c X1 Y1 X2 Y2 = true <-> exists p, on_segment X1 Y1 X2 Y2 p /\ on_circle (cx c) (cy c) (cr c) p) /\
     (fst (LineIntersect c X1 Y1 X2 Y2) = true <-> exists p, on_line X1 Y1 X2 Y2 p /\ on_circle (cx c) (cy c) (cr c) p) /\
     (fst (RayIntersect c X1 Y1 X2 Y2) = true <-> exists p, on_ray X1 Y1 X2 Y2 p /\ on_circle (cx c) (cy c) (cr c) p) /\
     (fst (LineSegmentIntersect c X1 Y1 X2 Y2) = true <-> exists p, on_segment X1 Y1 X2 Y2 p /\ on_circle (cx c) (cy c) (cr c) p)).
Proof.
  intros [x y r] H. cbn [cx cy cr] in *. destruct C87_circles as [A [B C]].
  assert (O : forall u v s X Y, 0 <= s -> (dist 2 (pt u v) (pt X Y) < s <-> in_open_disc X Y s (u, v))).
  { intros u v s X Y S0. rewrite <- below_square by assumption. rewrite dot2. unfold in_open_disc. cbn [fst snd]. split; intros; nra. }
  assert (K : forall u v s X Y, 0 <= s -> (dist 2 (pt u v) (pt X Y) <= s <-> in_disc X Y s (u, v))).
  { intros u v s X Y S0. rewrite two. unfold in_disc. cbn [fst snd]. set (d := (u - X) * (u - X) + (v - Y) * (v - Y)).
    assert (D0 : 0 <= d) by apply ssum. pose proof (sqrt_pos d) as P. pose proof (sqrt_sqrt d D0) as E.
    split; intros L; [rewrite <- E; nra|]. apply Rnot_lt_le. intros N. nra. }
  split; [|split; [|split; [|split]]].
  - intros X Y. rewrite <- O by lra. apply (A x y r X Y). lra.
  - intros X Y s S0. transitivity (CircleContainsCircle x y r X Y s = true); [reflexivity|]. rewrite B by assumption. split.
    + intros D [u v] I. apply O; [lra|]. apply D. apply K; assumption.
    + intros D u v I. apply O; [lra|]. apply D. apply K; assumption.
  - intros X Y s S0. transitivity (CircleCircleCollide x y r X Y s = true); [reflexivity|]. rewrite C by assumption. split.
    + intros [u [v [D E]]]. exists (u, v). split; apply O; lra || assumption.
    + intros [[u v] [D E]]. exists u, v. split; apply O; lra || assumption.
  - intros l t r' b L T. apply C92_RectCircleCollide; lra.
  - intros X1 Y1 X2 Y2 D.
    assert (D' : X1 - x <> X2 - x \/ Y1 - y <> Y2 - y) by (destruct D; [left|right]; lra).
    destruct (C89_collide _ _ _ _ r D') as [U V].
    pose proof (C89_LineSegmentRadiusCollide_partial _ _ _ _ r D') as W.
    pose proof (fun p => C89_intersections _ _ _ _ r p D') as Z.
    unfold LineCollide, RayCollide, LineSegmentCollide, LineIntersect, RayIntersect, LineSegmentIntersect. cbn [fst cx cy cr].
    rewrite !some_ex.
    split; [|split; [|split; [|split; [|split]]]].
    + rewrite U. apply (ex_shift x y). intros p. rewrite (line_shift _ _ _ _ x y), (disc_shift x y). tauto.
    + rewrite V. apply (ex_shift x y). intros p. rewrite (ray_shift _ _ _ _ x y), (disc_shift x y). tauto.
    + rewrite W. apply (ex_shift x y). intros p. rewrite (segment_shift _ _ _ _ x y), (circle_shift x y). tauto.
    + apply (ex_shift x y). intros p. destruct (Z (sub p x y)) as [Z1 [Z2 Z3]]. rewrite Z1, (line_shift _ _ _ _ x y), (circle_shift x y). tauto.
    + apply (ex_shift x y). intros p. destruct (Z (sub p x y)) as [Z1 [Z2 Z3]]. rewrite Z2, (ray_shift _ _ _ _ x y), (circle_shift x y). tauto.
    + apply (ex_shift x y). intros p. destruct (Z (sub p x y)) as [Z1 [Z2 Z3]]. rewrite Z3, (segment_shift _ _ _ _ x y), (circle_shift x y). tauto.
Qed.
Print Assumptions C187_tests_partial.

(** The points that are given back are relative to the centre of the circle: a caller who adds the centre gets the right points. *)
Theorem C187_points_partial : forall c, 0 < cr c ->
  let real p := add p (cx c) (cy c) in
  (forall X Y, X <> cx c \/ Y <> cy c -> nearest (on_circle (cx c) (cy c) (cr c)) (X, Y) (real (NearestPoint c X Y))) /\
  (forall X Y s q, 0 <= s -> X <> cx c \/ Y <> cy c ->
     (In q (map real (CircleIntersect c X Y s)) <-> on_circle (cx c) (cy c) (cr c) q /\ on_circle X Y s q)) /\
  (forall X1 Y1 X2 Y2 q, X1 <> X2 \/ Y1 <> Y2 ->
     (In q (map real (snd (LineIntersect c X1 Y1 X2 Y2))) <-> on_line X1 Y1 X2 Y2 q /\ on_circle (cx c) (cy c) (cr c) q) /\
     (In q (map real (snd (RayIntersect c X1 Y1 X2 Y2))) <-> on_ray X1 Y1 X2 Y2 q /\ on_circle (cx c) (cy c) (cr c) q) /\
     (In q (map real (snd (LineSegmentIntersect c X1 Y1 X2 Y2))) <-> on_segment X1 Y1 X2 Y2 q /\ on_circle (cx c) (cy c) (cr c) q)).
Proof.
  intros [x y r] H real. cbn [cx cy cr] in *.
  assert (I : forall q l, In q (map real l) <-> In (sub q x y) l).
  { intros q l. rewrite in_map_iff. unfold real. cbn [cx cy]. split.
    - intros [p [<- P]]. rewrite add_sub. exact P.
    - intros P. exists (sub q x y). rewrite sub_add. auto. }
  split; [|split].
  - intros X Y D. destruct (CircleNearestPoint x y r X Y) as [ox oy] eqn:E.
    pose proof (C87_CircleNearestPoint x y r X Y ox oy ltac:(lra) D E) as [M N].
    assert (F : real (NearestPoint (Circle x y r) X Y) = (ox, oy)).
    { rewrite <- E. unfold real, add, NearestPoint, CircleNearestPoint. cbn [cx cy cr]. destruct (RadiusNearestPoint r (X - x) (Y - y)); reflexivity. }
    rewrite F.
    assert (G : forall u v, on_circle x y r (u, v) <-> dist 2 (pt u v) (pt x y) = r).
    { intros u v. rewrite two. unfold on_circle. cbn [fst snd]. set (d := (u - x) * (u - x) + (v - y) * (v - y)).
      assert (D0 : 0 <= d) by apply ssum. split; intros L; [rewrite L; apply sqrt_square; lra|]. rewrite <- L, sqrt_sqrt; auto. }
    split; [apply G; exact M|]. intros [u v] Q. apply G in Q. specialize (N u v Q). rewrite !two in N. unfold sqdist. cbn [fst snd].
    apply sqrt_le_0 in N; [exact N| |]; apply ssum.
  - intros X Y s q S0 D. rewrite I. unfold CircleIntersect. cbn [cx cy cr].
    rewrite C88_CircleRadiusIntersect by (lra || (destruct D; [left|right]; lra)). rewrite (circle_shift x y).
    assert (Z : on_circle (X - x) (Y - y) s (sub q x y) <-> on_circle X Y s q).
    { unfold on_circle, sub. cbn [fst snd]. replace (fst q - x - (X - x)) with (fst q - X) by ring. replace (snd q - y - (Y - y)) with (snd q - Y) by ring. tauto. }
    rewrite Z. tauto.
  - intros X1 Y1 X2 Y2 q D.
    assert (D' : X1 - x <> X2 - x \/ Y1 - y <> Y2 - y) by (destruct D; [left|right]; lra).
    destruct (C89_intersections _ _ _ _ r (sub q x y) D') as [Z1 [Z2 Z3]].
    rewrite !I. unfold LineIntersect, RayIntersect, LineSegmentIntersect. cbn [snd cx cy cr]. rewrite Z1, Z2, Z3.
    rewrite (line_shift X1 Y1 X2 Y2 x y q), (ray_shift X1 Y1 X2 Y2 x y q), (segment_shift X1 Y1 X2 Y2 x y q), (circle_shift x y r q). tauto.
Qed.
Print Assumptions C187_points_partial.

(** As given back they are wrong for every circle whose centre is not the origin: there is a point whose nearest point, a circle which is touched,
    and a line, ray and segment whose reported points are not on the circle. *)
Theorem C187_points_refuted : forall c, 0 < cr c -> cx c <> 0 \/ cy c <> 0 ->
  let C := on_circle (cx c) (cy c) (cr c) in
  (exists X Y, (X <> cx c \/ Y <> cy c) /\ ~ C (NearestPoint c X Y)) /\
  (exists X Y s p, 0 < s /\ (X <> cx c \/ Y <> cy c) /\ In p (CircleIntersect c X Y s) /\ ~ C p) /\
  (exists X1 Y1 X2 Y2, X1 <> X2 /\
     (exists p, In p (snd (LineIntersect c X1 Y1 X2 Y2)) /\ ~ C p) /\
     (exists p, In p (snd (RayIntersect c X1 Y1 X2 Y2)) /\ ~ C p) /\
     (exists p, In p (snd (LineSegmentIntersect c X1 Y1 X2 Y2)) /\ ~ C p)).
Proof.
  intros [x y r] H N C. cbn [cx cy cr] in *.
  assert (W : exists e, (e = 1 \/ e = -1) /\ ~ C (e * r, 0)).
  { destruct (Req_dec ((r - x) * (r - x) + (0 - y) * (0 - y)) (r * r)) as [E|E].
    - exists (-1). split; [auto|]. unfold C, on_circle. cbn [fst snd]. intros F.
      assert (x * x + y * y = 0) by lra. assert (x * r = 0) by lra.
      pose proof (Rle_0_sqr x). pose proof (Rle_0_sqr y). unfold Rsqr in *.
      destruct N as [N|N]; apply N; [apply Rsqr_0_uniq|apply Rsqr_0_uniq]; unfold Rsqr; lra.
    - exists 1. split; [auto|]. unfold C, on_circle. cbn [fst snd]. rewrite Rmult_1_l. exact E. }
  destruct W as [e [V W]].
  assert (EE : e * e = 1) by (destruct V; subst; lra).
  destruct (C187_points_partial (Circle x y r) H) as [A [B D]]. cbn [cx cy cr] in *.
  assert (I : forall p l, In (add p x y) (map (fun p => add p x y) l) -> In p l).
  { intros p l J. apply in_map_iff in J. destruct J as [q [F J]]. rewrite <- (add_sub p x y), <- F, add_sub. exact J. }
  assert (OC : on_circle x y r (add (e * r, 0) x y)).
  { unfold on_circle, add. cbn [fst snd]. replace ((e * r + x - x) * (e * r + x - x)) with (e * e * (r * r)) by ring. rewrite EE. ring. }
  split; [|split].
  - exists (x + e), y. split; [left; destruct V; subst; lra|].
    replace (NearestPoint (Circle x y r) (x + e) y) with (e * r, 0); [exact W|].
    unfold NearestPoint, RadiusNearestPoint. cbn [cx cy cr]. replace (x + e - x) with e by ring. replace (y - y) with 0 by ring.
    rewrite EE, Rmult_0_l, Rplus_0_r, sqrt_1. f_equal; field.
  - exists (x + 2 * e * r), y, r, (e * r, 0). split; [lra|]. assert (DD : x + 2 * e * r <> x \/ y <> y) by (left; destruct V; subst; lra).
    split; [exact DD|]. split; [|exact W]. apply I. apply B; [lra|exact DD|]. split; [exact OC|].
    unfold on_circle, add. cbn [fst snd]. replace ((e * r + x - (x + 2 * e * r)) * (e * r + x - (x + 2 * e * r))) with (e * e * (r * r)) by ring. rewrite EE. ring.
  - exists (x - 2 * r), y, (x + 2 * r), y. assert (DD : x - 2 * r <> x + 2 * r) by lra. split; [exact DD|].
    destruct (D (x - 2 * r) y (x + 2 * r) y (add (e * r, 0) x y) (or_introl DD)) as [D1 [D2 D3]].
    assert (P : add (e * r, 0) x y = line_at (x - 2 * r) y (x + 2 * r) y ((2 + e) / 4)).
    { unfold add, line_at. cbn [fst snd]. f_equal; [field|ring]. }
    assert (T : 0 <= (2 + e) / 4 <= 1) by (destruct V; subst; lra).
    split; [|split]; exists (e * r, 0); (split; [|exact W]); apply I; [apply D1|apply D2|apply D3]; (split; [|exact OC]); eexists; eauto.
    split; [|exact P]. apply T.
Qed.
Print Assumptions C187_points_refuted.

(** The diameter is the largest distance between two points of the disc. *)
Theorem C187_Diameter : forall c, 0 < cr c ->
  (forall p q, in_disc (cx c) (cy c) (cr c) p -> in_disc (cx c) (cy c) (cr c) q -> sqrt (sqdist p q) <= Diameter c) /\
  exists p q, in_disc (cx c) (cy c) (cr c) p /\ in_disc (cx c) (cy c) (cr c) q /\ sqrt (sqdist p q) = Diameter c.
Proof.
  intros [x y r] H. unfold in_disc, Diameter, sqdist. cbn [cx cy cr] in *. split.
  - intros [a b] [u v]. cbn [fst snd]. intros P Q. apply Rsqr_incr_0_var; [|lra]. unfold Rsqr. rewrite sqrt_sqrt by apply ssum.
    pose proof (ssum (a - x + (u - x)) (b - y + (v - y))). lra.
  - exists (x - r, y), (x + r, y). cbn [fst snd]. split; [lra|]. split; [lra|].
    match goal with |- sqrt ?t = _ => replace t with ((r * 2) * (r * 2)) by ring end. apply sqrt_square. lra.
Qed.
Print Assumptions C187_Diameter.

Example C187_example : ContainsPoint (Circle 3 4 2) 4 4 = true /\ Diameter (Circle 3 4 2) = 4 /\ NearestPoint (Circle 3 4 2) 4 4 = (2, 0) /\
  (exists c, 0 < cr c /\ (cx c <> 0 \/ cy c <> 0)).
Proof.
  split; [|split; [|split]].
  - apply (C187_tests_partial (Circle 3 4 2)); cbn [cr]; [lra|]. unfold in_open_disc. cbn. lra.
  - unfold Diameter. cbn. lra.
  - unfold NearestPoint, RadiusNearestPoint. cbn [cx cy cr]. replace ((4 - 3) * (4 - 3) + (4 - 4) * (4 - 4)) with 1 by ring. rewrite sqrt_1. f_equal; field.
  - exists (Circle 3 4 2). cbn. lra.
Qed.
