(* C92, C93: rectangles. *)
From Coq Require Import Reals List Arith Lia Lra Psatz Bool.
From Verif Require Import Matrix Collision SphereProps CircleProps LineProps.
Import ListNotations.
Local Open Scope R_scope.

(** The closed rectangle, as a set of points. *)
Definition in_rect (l t r b : R) (p : point) : Prop := l <= fst p <= r /\ t <= snd p <= b.
Definition points (r : rect) : point -> Prop := in_rect (left r) (top r) (right r) (bottom r).
Definition proper (r : rect) : Prop := left r <= right r /\ top r <= bottom r.
Definition within (a b : point -> Prop) : Prop := forall p, a p -> b p.

Theorem C92_RectRect : forall L T R B l t r b, L <= R -> T <= B -> l <= r -> t <= b ->
  (RectRectCollide L T R B l t r b = true <-> meet (in_rect L T R B) (in_rect l t r b)) /\
  (RectContainsRect L T R B l t r b = true <-> within (in_rect l t r b) (in_rect L T R B)).
Proof.
  intros L T R B l t r b H1 H2 H3 H4. unfold RectRectCollide, RectContainsRect, in_rect. rewrite !andb_true_iff, !rle_true. split.
  - split.
    + intros [[[A1 A2] A3] A4]. exists (Rmax L l, Rmax T t). cbn [fst snd].
      unfold Rmax. destruct (Rle_dec L l), (Rle_dec T t); lra.
    + intros [[x y] [[A1 A2] [A3 A4]]]. cbn [fst snd] in *. lra.
  - split.
    + intros [[[A1 A2] A3] A4] [x y]. cbn [fst snd]. lra.
    + intros A. pose proof (A (l, t)) as P. pose proof (A (r, b)) as Q. cbn [fst snd] in *. lra.
Qed.
Print Assumptions C92_RectRect.

(** Points: the left and top edges belong to the rectangle, the right and bottom edges do not, so that a rectangle
    cut in two has each of its points in exactly one of the parts. *)
Theorem C92_RectContainsPoint : forall l t r b x y,
  (RectContainsPoint l t r b x y = true -> in_rect l t r b (x, y)) /\
  (l < x < r /\ t < y < b -> RectContainsPoint l t r b x y = true) /\
  (forall m, l <= m <= r ->
     RectContainsPoint l t r b x y = xorb (RectContainsPoint l t m b x y) (RectContainsPoint m t r b x y)) /\
  (forall m, t <= m <= b ->
     RectContainsPoint l t r b x y = xorb (RectContainsPoint l t r m x y) (RectContainsPoint l m r b x y)).
Proof.
  intros l t r b x y. unfold RectContainsPoint, in_rect. cbn [fst snd].
  split; [rewrite !andb_true_iff, !rle_true, !rlt_true; lra|].
  split; [rewrite !andb_true_iff, !rle_true, !rlt_true; lra|].
  assert (K : forall a b : R, (rle a b = true /\ a <= b) \/ (rle a b = false /\ b < a)).
  { intros. unfold rle. destruct (Rle_dec a b0); [left|right]; split; auto; lra. }
  assert (J : forall a b : R, (rlt a b = true /\ a < b) \/ (rlt a b = false /\ b <= a)).
  { intros. unfold rlt. destruct (Rlt_dec a b0); [left|right]; split; auto; lra. }
  split; intros m M.
  - destruct (K l x) as [[-> ?]|[-> ?]], (K t y) as [[-> ?]|[-> ?]], (J x r) as [[-> ?]|[-> ?]], (J y b) as [[-> ?]|[-> ?]],
      (K m x) as [[-> ?]|[-> ?]], (J x m) as [[-> ?]|[-> ?]]; try reflexivity; exfalso; lra.
  - destruct (K l x) as [[-> ?]|[-> ?]], (K t y) as [[-> ?]|[-> ?]], (J x r) as [[-> ?]|[-> ?]], (J y b) as [[-> ?]|[-> ?]],
      (K m y) as [[-> ?]|[-> ?]], (J y m) as [[-> ?]|[-> ?]]; try reflexivity; exfalso; lra.
Qed.
Print Assumptions C92_RectContainsPoint.

(** How far [X] is outside the interval. *)
Lemma excess : forall l r X, l <= r ->
  let e := Rmax 0 (Rabs (X - (r + l) / 2) - (r - l) / 2) in
  exists q, l <= q <= r /\ (q - X) * (q - X) = e * e /\ forall q', l <= q' <= r -> e * e <= (q' - X) * (q' - X).
Proof.
  intros l r X L e. unfold e, Rmax, Rabs.
  destruct (Rcase_abs (X - (r + l) / 2)) as [C|C]; destruct (Rle_dec 0 _) as [D|D].
  - exists l. split; [lra|]. split; [replace (- (X - (r + l) / 2) - (r - l) / 2) with (l - X) by lra; reflexivity|].
    intros q' Q. replace (- (X - (r + l) / 2) - (r - l) / 2) with (l - X) by lra. assert (0 <= l - X) by lra. nra.
  - exists X. split; [lra|]. split; [ring|]. intros q' Q. rewrite Rmult_0_l. apply Rle_0_sqr.
  - exists r. split; [lra|]. split; [replace (X - (r + l) / 2 - (r - l) / 2) with (X - r) by lra; ring|].
    intros q' Q. replace (X - (r + l) / 2 - (r - l) / 2) with (X - r) by lra. assert (0 <= X - r) by lra.
    replace ((q' - X) * (q' - X)) with ((X - q') * (X - q')) by ring. nra.
  - exists X. split; [lra|]. split; [ring|]. intros q' Q. rewrite Rmult_0_l. apply Rle_0_sqr.
Qed.

Theorem C92_RectCircleCollide : forall l t r b X Y R, l <= r -> t <= b -> 0 <= R ->
  (RectCircleCollide l t r b X Y R = true <-> meet (in_rect l t r b) (in_disc X Y R)).
Proof.
  intros l t r b X Y R H1 H2 H3.
  destruct (excess l r X H1) as [qx [Qx [Ex Mx]]]. destruct (excess t b Y H2) as [qy [Qy [Ey My]]].
  unfold RectCircleCollide.
  set (cx := Rabs (X - (r + l) / 2)) in *. set (cy := Rabs (Y - (b + t) / 2)) in *.
  set (w := (r - l) / 2) in *. set (h := (b - t) / 2) in *.
  set (ex := Rmax 0 (cx - w)) in *. set (ey := Rmax 0 (cy - h)) in *.
  transitivity (ex * ex + ey * ey <= R * R).
  - assert (Ax : 0 <= ex /\ cx - w <= ex) by (split; [apply Rmax_l|apply Rmax_r]).
    assert (Ay : 0 <= ey /\ cy - h <= ey) by (split; [apply Rmax_l|apply Rmax_r]).
    assert (Bx : cx <= w -> ex = 0) by (intros; unfold ex; apply Rmax_left; lra).
    assert (By : cy <= h -> ey = 0) by (intros; unfold ey; apply Rmax_left; lra).
    assert (Cx : w < cx -> ex = cx - w) by (intros; unfold ex; apply Rmax_right; lra).
    assert (Cy : h < cy -> ey = cy - h) by (intros; unfold ey; apply Rmax_right; lra).
    clearbody ex ey.
    destruct (rlt (w + R) cx || rlt (h + R) cy) eqn:O1.
    + split; [discriminate|]. intros L. apply orb_true_iff in O1. rewrite !rlt_true in O1. destruct O1 as [O|O]; nra.
    + apply orb_false_iff in O1. rewrite !rlt_false in O1. destruct O1 as [O1 O2].
      destruct (rle cx w || rle cy h) eqn:O3.
      * split; [intros _|reflexivity]. apply orb_true_iff in O3. rewrite !rle_true in O3. destruct O3 as [O|O].
        -- rewrite (Bx O). destruct (Rle_dec cy h) as [D|D]; [rewrite (By D); nra|]. rewrite (Cy ltac:(lra)). nra.
        -- rewrite (By O). destruct (Rle_dec cx w) as [D|D]; [rewrite (Bx D); nra|]. rewrite (Cx ltac:(lra)). nra.
      * apply orb_false_iff in O3. rewrite !rle_false in O3. destruct O3 as [O3 O4].
        rewrite rle_true, (Cx O3), (Cy O4). tauto.
  - unfold in_rect, in_disc. split.
    + intros L. exists (qx, qy). cbn [fst snd]. rewrite Ex, Ey. tauto.
    + intros [[x y] [[A B] C]]. cbn [fst snd] in *. specialize (Mx x A). specialize (My y B). lra.
Qed.
Print Assumptions C92_RectCircleCollide.

Example C92_example :
  RectRectCollide 0 0 2 2 2 1 4 4 = true /\ RectContainsRect 0 0 4 4 1 1 4 3 = true /\
  RectCircleCollide 0 0 2 2 5 6 5 = true /\ RectCircleCollide 0 0 2 2 5 6 4 = false.
Proof.
  split; [|split; [|split]].
  - destruct (C92_RectRect 0 0 2 2 2 1 4 4) as [K _]; try lra. apply K. exists (2, 2). unfold in_rect. cbn [fst snd]. lra.
  - destruct (C92_RectRect 0 0 4 4 1 1 4 3) as [_ K]; try lra. apply K. intros [x y]. unfold in_rect. cbn [fst snd]. lra.
  - apply C92_RectCircleCollide; try lra. exists (2, 2). unfold in_rect, in_disc. cbn [fst snd]. lra.
  - apply not_true_iff_false. rewrite C92_RectCircleCollide by lra. intros [[x y] [A B]]. unfold in_rect, in_disc in *.
    cbn [fst snd] in *. nra.
Qed.

(** The ellipse with half axes A, B. *)
Definition in_ellipse (X Y A B : R) (p : point) : Prop :=
  (fst p - X) / A * ((fst p - X) / A) + (snd p - Y) / B * ((snd p - Y) / B) <= 1.

Theorem C92_Ellipse : forall X Y A B, 0 < A -> 0 < B ->
  (forall x y, EllipseContainsPoint X Y A B x y = true <-> in_ellipse X Y A B (x, y)) /\
  (forall l t r b, l <= r -> t <= b ->
     (EllipseRectCollide X Y A B l t r b = true <-> meet (in_rect l t r b) (in_ellipse X Y A B))).
Proof.
  intros X Y A B PA PB. split.
  - intros x y. unfold EllipseContainsPoint, in_ellipse. cbn [fst snd]. rewrite rle_true.
    replace ((X - x) * (X - x) / (A * A) + (Y - y) * (Y - y) / (B * B)) with
      ((x - X) / A * ((x - X) / A) + (y - Y) / B * ((y - Y) / B)) by (field; lra). tauto.
  - intros l t r b H1 H2. unfold EllipseRectCollide.
    assert (S : 0 < A / B) by (apply Rdiv_lt_0_compat; assumption). set (s := A / B) in *.
    rewrite C92_RectCircleCollide; [|lra|apply Rmult_le_compat_r; lra|lra].
    assert (K : forall x y, in_disc X (Y * s) A (x, y * s) <-> in_ellipse X Y A B (x, y)).
    { intros x y. unfold in_disc, in_ellipse. cbn [fst snd].
      replace ((x - X) * (x - X) + (y * s - Y * s) * (y * s - Y * s)) with
        (((x - X) / A * ((x - X) / A) + (y - Y) / B * ((y - Y) / B)) * (A * A)) by (unfold s; field; lra).
      assert (0 < A * A) by nra. split; intros; nra. }
    split.
    + intros [[x y] [I D]]. exists (x, y / s). replace y with (y / s * s) in D by (field; lra). split; [|apply K; exact D].
      unfold in_rect in *. cbn [fst snd] in *. destruct I as [I1 I2]. split; [exact I1|].
      assert (E : y / s * s = y) by (field; lra). split; apply (Rmult_le_reg_r s); lra.
    + intros [[x y] [I D]]. exists (x, y * s). split; [|apply K; exact D].
      unfold in_rect in *. cbn [fst snd] in *. destruct I as [I1 I2]. split; [exact I1|]. split; apply Rmult_le_compat_r; lra.
Qed.
Print Assumptions C92_Ellipse.

Example C92_Ellipse_example : EllipseRectCollide 0 0 2 1 (3/2) 0 5 5 = true.
Proof.
  apply C92_Ellipse; try lra. exists (3/2, 0). unfold in_rect, in_ellipse. cbn [fst snd]. split; [lra|]. 
  replace ((3 / 2 - 0) / 2 * ((3 / 2 - 0) / 2) + (0 - 0) / 1 * ((0 - 0) / 1)) with (9 / 16) by field. lra.
Qed.

(* ------------------------------------------------------------------ operations on rectangles *)

Lemma bssmin_ok : forall a b, bssmin a b = Rmin a b.
Proof. intros. unfold bssmin, rlt, Rmin. destruct (Rlt_dec a b), (Rle_dec a b); auto; lra. Qed.
Lemma bssmax_ok : forall a b, bssmax a b = Rmax a b.
Proof. intros. unfold bssmax, rlt, Rmax. destruct (Rlt_dec b a), (Rle_dec a b); auto; lra. Qed.

(** [s] is the smallest rectangle with [P] in it. *)
Definition smallest (P : point -> Prop) (s : rect) : Prop :=
  proper s /\ within P (points s) /\ forall s', proper s' -> within P (points s') -> within (points s) (points s').

Ltac minmax := unfold Rmin, Rmax in *; repeat match goal with |- context [Rle_dec ?a ?b] => destruct (Rle_dec a b) | H : context [Rle_dec ?a ?b] |- _ => destruct (Rle_dec a b) end.

Lemma ExpandTo_ok : forall r p, proper r -> smallest (fun q => points r q \/ q = p) (ExpandTo r p).
Proof.
  intros [l t r b] [x y] [H1 H2]. cbn in H1, H2. unfold smallest, ExpandTo, points, proper, in_rect. cbn [left top right bottom fst snd].
  rewrite !bssmin_ok, !bssmax_ok. split; [|split].
  - minmax; lra.
  - intros [u v] [A|E]; [cbn [fst snd] in *|injection E as -> ->; cbn [fst snd]]; minmax; lra.
  - intros s' P W. pose proof (W (x, y) (or_intror eq_refl)) as A. cbn [fst snd] in A.
    pose proof (W (l, t)) as B. pose proof (W (r, b)) as C. cbn [fst snd] in B, C.
    specialize (B ltac:(left; lra)). specialize (C ltac:(left; lra)).
    intros [u v]. cbn [fst snd left top right bottom]. intros D. minmax; lra.
Qed.

Lemma RectExpandTo_eq : forall r p, proper r -> RectExpandTo r p = ExpandTo r p.
Proof.
  intros [l t r b] [x y] [H1 H2]. cbn in H1, H2. unfold RectExpandTo, ExpandTo, bssmin, bssmax, rlt. cbn [left top right bottom fst snd].
  repeat match goal with |- context [Rlt_dec ?a ?b] => destruct (Rlt_dec a b) end; cbn [left top right bottom];
  repeat match goal with |- context [Rlt_dec ?a ?b] => destruct (Rlt_dec a b) end; cbn [left top right bottom] in *; f_equal; lra.
Qed.

Lemma aabb_from : forall verts r P, smallest P r -> smallest (fun q => P q \/ In q verts) (fold_left RectExpandTo verts r).
Proof.
  induction verts as [|v verts IH]; intros r P S; cbn [fold_left].
  - destruct S as [A [B C]]. split; [exact A|]. split.
    + intros p [Q|[]]. apply B. exact Q.
    + intros s' A' B'. apply C; [exact A'|]. intros p Q. apply B'. left. exact Q.
  - assert (K : smallest (fun q => P q \/ q = v) (RectExpandTo r v)).
    { rewrite RectExpandTo_eq by apply S. destruct S as [A [B C]]. destruct (ExpandTo_ok r v A) as [A1 [B1 C1]].
      split; [exact A1|]. split.
      - intros p [Q|Q]; apply B1; [left; apply B; exact Q|right; exact Q].
      - intros s' A' B'. apply C1; [exact A'|]. intros p [Q|Q].
        + apply (C s'); auto. intros p' Q'. apply B'. auto.
        + apply B'. auto. }
    specialize (IH _ _ K). destruct IH as [A [B C]]. split; [exact A|]. split.
    + intros p [Q|[Q|Q]]; apply B; auto.
    + intros s' A' B'. apply C; [exact A'|]. intros p [[Q|Q]|Q]; apply B'; cbn [In]; auto.
Qed.

Theorem C93_rect_operations :
  (* a point is added *)
  (forall r p, proper r -> smallest (fun q => points r q \/ q = p) (ExpandTo r p)) /\
  (* the bounding box of a polygon *)
  (forall v verts, smallest (fun q => In q (v :: verts)) (PolygonAABB v verts)) /\
  (* union *)
  (forall r s, proper r -> proper s -> smallest (fun q => points r q \/ points s q) (Union r s)) /\
  (* intersection *)
  (forall r s, proper r -> proper s ->
     (meet (points r) (points s) -> forall q, points (Intersection r s) q <-> points r q /\ points s q) /\
     (~ meet (points r) (points s) -> left (Intersection r s) = right (Intersection r s) /\ top (Intersection r s) = bottom (Intersection r s))).
Proof.
  split; [exact ExpandTo_ok|]. split; [|split].
  - intros v verts. unfold PolygonAABB.
    assert (S : smallest (fun q => q = v) (mkRect (fst v) (snd v) (fst v) (snd v))).
    { unfold smallest, proper, points, in_rect. cbn [left top right bottom]. split; [lra|]. split.
      - intros p ->. lra.
      - intros s' A B [x y]. cbn [fst snd]. specialize (B v eq_refl). intros C. lra. }
    destruct (aabb_from verts _ _ S) as [A [B C]]. split; [exact A|]. split.
    + intros p [Q|Q]; apply B; auto.
    + intros s' A' B'. apply C; [exact A'|]. intros p [Q|Q]; apply B'; cbn [In]; auto.
  - intros [l t r b] [l' t' r' b'] [H1 H2] [H3 H4]. cbn in H1, H2, H3, H4.
    unfold smallest, Union, points, proper, in_rect. cbn [left top right bottom]. rewrite !bssmin_ok, !bssmax_ok. split; [|split].
    + minmax; lra.
    + intros [u v] D. cbn [fst snd] in *. minmax; lra.
    + intros s' P W. pose proof (W (l, t)) as A. pose proof (W (r, b)) as B. pose proof (W (l', t')) as C. pose proof (W (r', b')) as D.
      cbn [fst snd] in *. specialize (A ltac:(left; lra)). specialize (B ltac:(left; lra)).
      specialize (C ltac:(right; lra)). specialize (D ltac:(right; lra)).
      intros [u v] E. cbn [fst snd left top right bottom] in *. minmax; lra.
  - intros [l t r b] [l' t' r' b'] [H1 H2] [H3 H4]. cbn in H1, H2, H3, H4. unfold Intersection, points. cbn [left top right bottom].
    destruct (C92_RectRect l t r b l' t' r' b' H1 H2 H3 H4) as [K _].
    destruct (RectRectCollide l t r b l' t' r' b') eqn:E; cbn [negb left top right bottom].
    + split; [|intros N; exfalso; apply N, K; reflexivity].
      intros _ [u v]. unfold in_rect. cbn [fst snd]. rewrite !bssmin_ok, !bssmax_ok. split.
      * intros D. minmax; lra.
      * intros D. minmax; lra.
    + split; [|auto]. intros M. apply K in M. discriminate.
Qed.
Print Assumptions C93_rect_operations.

Ltac decided := repeat (match goal with
  | |- context [rlt ?a ?b] => first [replace (rlt a b) with true by (symmetry; apply rlt_true; lra)
                                    |replace (rlt a b) with false by (symmetry; apply rlt_false; lra)]
  | |- context [rle ?a ?b] => first [replace (rle a b) with true by (symmetry; apply rle_true; lra)
                                    |replace (rle a b) with false by (symmetry; apply rle_false; lra)]
  end; cbn [left top right bottom negb andb fst snd]).

Example C93_example :
  PolygonAABB (1, 1) [(3, 0); (2, 5)] = mkRect 1 0 3 5 /\
  Intersection (mkRect 0 0 4 4) (mkRect 2 (-1) 6 3) = mkRect 2 0 4 3.
Proof.
  unfold PolygonAABB, RectExpandTo, Intersection, RectRectCollide, bssmin, bssmax.
  cbn [fold_left left top right bottom fst snd]. split; decided; reflexivity.
Qed.

(** The bounding circle has every point of the rectangle in it and is the smallest such. *)
Theorem C93_BoundingCircle : forall r x y R, proper r -> BoundingCircle r = ((x, y), R) ->
  0 <= R /\ within (points r) (in_disc x y R) /\
  forall x' y' R', 0 <= R' -> within (points r) (in_disc x' y' R') -> R <= R'.
Proof.
  intros [l t r b] x y R [H1 H2] E. cbn in H1, H2. unfold BoundingCircle in E. cbn [left top right bottom] in E. injection E as <- <- <-.
  set (k := ((l + r) / 2 - l) * ((l + r) / 2 - l) + ((t + b) / 2 - t) * ((t + b) / 2 - t)).
  assert (K : 0 <= k) by (unfold k; pose proof (Rle_0_sqr ((l + r) / 2 - l)); pose proof (Rle_0_sqr ((t + b) / 2 - t)); unfold Rsqr in *; lra).
  assert (S : sqrt k * sqrt k = k) by (apply sqrt_sqrt; exact K).
  split; [apply sqrt_pos|]. unfold within, points, in_rect, in_disc. cbn [left top right bottom]. split.
  - intros [u v]. cbn [fst snd]. rewrite S. unfold k. intros [A B]. nra.
  - intros x' y' R' P W. apply Rsqr_incr_0_var; [|exact P]. unfold Rsqr. rewrite S. unfold k.
    pose proof (W (l, t)) as A. pose proof (W (r, b)) as B. cbn [fst snd] in *. specialize (A ltac:(lra)). specialize (B ltac:(lra)).
    pose proof (Rle_0_sqr (l + r - 2 * x')) as C1. pose proof (Rle_0_sqr (t + b - 2 * y')) as C2. unfold Rsqr in *. lra.
Qed.
Print Assumptions C93_BoundingCircle.

Example C93_BoundingCircle_example : BoundingCircle (mkRect 0 0 6 8) = ((3, 4), 5).
Proof.
  unfold BoundingCircle. cbn [left top right bottom].
  replace (((0 + 6) / 2 - 0) * ((0 + 6) / 2 - 0) + ((0 + 8) / 2 - 0) * ((0 + 8) / 2 - 0)) with (5 * 5) by field.
  rewrite sqrt_square by lra. repeat f_equal; lra.
Qed.

(* ------------------------------------------------------------------ C94 *)

(** Sloped segments: a collision reported is one; one in which a point of the segment strictly between the left and
    right sides lies in the rectangle is reported. *)
Theorem C94_RectLineCollide_partial : forall l t r b X1 Y1 X2 Y2, l <= r -> t <= b -> X1 <> X2 -> Y1 <> Y2 ->
  (RectLineCollide l t r b X1 Y1 X2 Y2 = true -> meet (on_segment X1 Y1 X2 Y2) (in_rect l t r b)) /\
  (meet (on_segment X1 Y1 X2 Y2) (fun p => in_rect l t r b p /\ l < fst p < r) -> RectLineCollide l t r b X1 Y1 X2 Y2 = true).
Proof.
  intros l t r b X1 Y1 X2 Y2 H1 H2 NX NY. unfold RectLineCollide, reqb. destruct (Req_EM_T (X2 - X1) 0) as [E|E]; [lra|].
  set (m := (Y2 - Y1) / (X2 - X1)). set (c := Y1 - m * X1).
  assert (M : m <> 0) by (unfold m; apply Rmult_integral_contrapositive; split; [lra|apply Rinv_neq_0_compat; lra]).
  assert (F1 : Y1 = m * X1 + c) by (unfold c; ring).
  assert (F2 : Y2 = m * X2 + c) by (unfold c, m; field; lra).
  (* the height determines the point *)
  assert (G : forall y, (Y1 <= y <= Y2 \/ Y2 <= y <= Y1) -> on_segment X1 Y1 X2 Y2 ((y - c) / m, y)).
  { intros y B. exists ((y - Y1) / (Y2 - Y1)). split.
    - destruct B as [B|B].
      + assert (P : 0 < Y2 - Y1) by lra. split; apply (Rmult_le_reg_r (Y2 - Y1)); try exact P;
          replace ((y - Y1) / (Y2 - Y1) * (Y2 - Y1)) with (y - Y1) by (field; lra); lra.
      + assert (P : 0 < Y1 - Y2) by lra. split; apply (Rmult_le_reg_r (Y1 - Y2)); try exact P;
          replace ((y - Y1) / (Y2 - Y1) * (Y1 - Y2)) with (Y1 - y) by (field; lra); lra.
    - unfold line_at. f_equal; [|field; lra].
      apply (Rmult_eq_reg_r m); [|exact M]. replace ((y - c) / m * m) with (y - c) by (field; exact M).
      replace ((X1 + (y - Y1) / (Y2 - Y1) * (X2 - X1)) * m) with (m * X1 + (y - Y1) / (Y2 - Y1) * (m * (X2 - X1))) by ring.
      replace (m * (X2 - X1)) with (Y2 - Y1) by (rewrite F1 at 1; rewrite F2 at 1; ring).
      replace ((y - Y1) / (Y2 - Y1) * (Y2 - Y1)) with (y - Y1) by (field; lra). lra. }
  assert (SEG : forall p, on_segment X1 Y1 X2 Y2 p -> snd p = m * fst p + c /\ (Y1 <= snd p <= Y2 \/ Y2 <= snd p <= Y1)).
  { intros p [a [A ->]]. unfold line_at. cbn [fst snd]. split.
    - replace (Y2 - Y1) with (m * (X2 - X1)) by (rewrite F1 at 1; rewrite F2 at 1; ring). rewrite F1 at 1. ring.
    - destruct (Rle_dec Y1 Y2); [left|right]; nra. }
  clear NX. clearbody c m.
  set (q := if rlt 0 m then _ else _). set (q' := if rlt Y1 Y2 then _ else _).
  destruct q as [ti bi] eqn:Q. destruct q' as [tp bp] eqn:Q'.
  assert (QP : tp <= bp /\ forall y, tp <= y <= bp <-> (Y1 <= y <= Y2 \/ Y2 <= y <= Y1)).
  { unfold q' in Q'. destruct (rlt Y1 Y2) eqn:L; injection Q' as <- <-; [apply rlt_true in L|apply rlt_false in L]; split; intros; lra. }
  assert (QI : forall x, (l <= x <= r -> ti <= m * x + c <= bi) /\ (l < x < r -> ti < m * x + c < bi)).
  { unfold q in Q. intros x. destruct (rlt 0 m) eqn:L; injection Q as <- <-; [apply rlt_true in L|apply rlt_false in L]; split; intros; nra. }
  assert (QJ : forall y, ti <= y <= bi -> l <= (y - c) / m <= r).
  { unfold q in Q. intros y B. assert (K : (y - c) / m * m = y - c) by (field; exact M).
    destruct (rlt 0 m) eqn:L; injection Q as <- <-; [apply rlt_true in L|apply rlt_false in L]; split; nra. }
  clearbody q q'. clear q q' Q Q'. destruct QP as [QP1 QP2].
  replace (if rlt tp ti then ti else tp) with (Rmax ti tp).
  2: { unfold rlt, Rmax. destruct (Rlt_dec tp ti), (Rle_dec ti tp); auto; lra. }
  replace (if rlt bi bp then bi else bp) with (Rmin bi bp).
  2: { unfold rlt, Rmin. destruct (Rlt_dec bi bp), (Rle_dec bi bp); auto; lra. }
  rewrite andb_true_iff, negb_true_iff, orb_false_iff, rlt_true, !rlt_false. split.
  - intros [A [B C]]. set (u := Rmax ti tp) in *. set (v := Rmin bi bp) in *.
    assert (U : ti <= u /\ tp <= u) by (split; [apply Rmax_l|apply Rmax_r]).
    assert (V : v <= bi /\ v <= bp) by (split; [apply Rmin_l|apply Rmin_r]).
    (* a height in both ranges and in the rectangle *)
    set (y := Rmax u t). assert (Y : u <= y /\ t <= y /\ y <= v /\ y <= b) by (unfold y, Rmax; destruct (Rle_dec u t); lra).
    exists ((y - c) / m, y). split; [apply G, QP2; lra|]. unfold in_rect. cbn [fst snd]. split; [apply QJ; lra|lra].
  - intros [p [A [[B1 B2] C]]]. destruct (SEG p A) as [D1 D2]. apply QP2 in D2. destruct (QI (fst p)) as [_ I2]. specialize (I2 C).
    rewrite <- D1 in I2. assert (NB : tp < bp).
    { destruct (Rle_lt_or_eq_dec tp bp QP1) as [L|L]; [exact L|]. exfalso. apply NY.
      assert (tp <= Y1 <= bp) by (apply QP2; lra). assert (tp <= Y2 <= bp) by (apply QP2; lra). lra. }
    unfold Rmax, Rmin. destruct (Rle_dec ti tp), (Rle_dec bi bp); lra.
Qed.
Print Assumptions C94_RectLineCollide_partial.

(** A horizontal segment through the rectangle is missed; a vertical one below it is reported. *)
Theorem C94_RectLineCollide_refuted :
  ~ (forall l t r b X1 Y1 X2 Y2, l < r -> t < b -> (X1 <> X2 \/ Y1 <> Y2) ->
      meet (on_segment X1 Y1 X2 Y2) (in_rect l t r b) -> RectLineCollide l t r b X1 Y1 X2 Y2 = true) /\
  ~ (forall l t r b X1 Y1 X2 Y2, l < r -> t < b -> (X1 <> X2 \/ Y1 <> Y2) ->
      RectLineCollide l t r b X1 Y1 X2 Y2 = true -> meet (on_segment X1 Y1 X2 Y2) (in_rect l t r b)).
Proof.
  split; intros A.
  - specialize (A 0 0 2 2 (-1) 1 3 1 ltac:(lra) ltac:(lra) ltac:(left; lra)).
    assert (E : RectLineCollide 0 0 2 2 (-1) 1 3 1 = true).
    { apply A. exists (1, 1). split; [exists (/2); split; [lra|unfold line_at; f_equal; lra]|unfold in_rect; cbn [fst snd]; lra]. }
    unfold RectLineCollide, reqb in E. destruct (Req_EM_T (3 - -1) 0); [lra|].
    replace (rlt 0 ((1 - 1) / (3 - -1))) with false in E by (symmetry; apply rlt_false; lra).
    replace (rlt 1 1) with false in E by (symmetry; apply rlt_false; lra).
    apply andb_true_iff in E. destruct E as [E _]. apply rlt_true in E. revert E. unfold rlt.
    repeat match goal with |- context [Rlt_dec ?a ?b] => destruct (Rlt_dec a b) end; lra.
  - specialize (A 0 0 2 2 1 5 1 6 ltac:(lra) ltac:(lra) ltac:(right; lra)).
    destruct A as [p [[t [T ->]] I]].
    + unfold RectLineCollide, reqb. destruct (Req_EM_T (1 - 1) 0); [|lra].
      apply negb_true_iff. rewrite !orb_false_iff, !andb_false_iff, !rlt_false. lra.
    + unfold in_rect, line_at in I. cbn [fst snd] in I. lra.
Qed.
Print Assumptions C94_RectLineCollide_refuted.

Example C94_example : RectLineCollide 0 0 2 2 (-1) (-1) 3 4 = true.
Proof.
  apply C94_RectLineCollide_partial; try lra. exists (1, 3/2). split; [exists (/2); split; [lra|unfold line_at; f_equal; lra]|].
  unfold in_rect. cbn [fst snd]. lra.
Qed.
