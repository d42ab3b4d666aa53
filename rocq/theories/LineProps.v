(* C90, C91: nearest points of lines, and two lines. *)
From Coq Require Import Reals List Arith Lia Lra Psatz Bool.
From Verif Require Import Matrix Collision SphereProps CircleProps.
Import ListNotations.
Local Open Scope R_scope.

Definition sqdist (p q : point) : R := (fst p - fst q) * (fst p - fst q) + (snd p - snd q) * (snd p - snd q).

(** [q] is the point of the set nearest to [p]. *)
Definition nearest (set : point -> Prop) (p q : point) : Prop := set q /\ forall q', set q' -> sqdist p q <= sqdist p q'.
(** [d] is the squared distance of [p] from the set. *)
Definition sqdist_to (set : point -> Prop) (p : point) (d : R) : Prop := exists q, nearest set p q /\ d = sqdist p q.

Lemma projected : forall X1 Y1 X2 Y2 pX pY t, (X1 <> X2 \/ Y1 <> Y2) ->
  let k := (X2 - X1) * (X2 - X1) + (Y2 - Y1) * (Y2 - Y1) in
  let u := LinePointParametricProject X1 Y1 X2 Y2 pX pY in
  0 < k /\
  sqdist (pX, pY) (line_at X1 Y1 X2 Y2 t) = LinePointDistanceSqr X1 Y1 X2 Y2 pX pY + k * ((t - u) * (t - u)).
Proof.
  intros X1 Y1 X2 Y2 pX pY t D k u.
  assert (P : 0 < k) by (apply sq_pos; destruct D; [left|right]; lra).
  split; [assumption|]. unfold sqdist, line_at, LinePointDistanceSqr, u, LinePointParametricProject. cbn [fst snd].
  fold k. unfold k. field. fold k. lra.
Qed.

Lemma nearest_at : forall (good : R -> Prop) X1 Y1 X2 Y2 pX pY t, (X1 <> X2 \/ Y1 <> Y2) ->
  let u := LinePointParametricProject X1 Y1 X2 Y2 pX pY in
  good t -> (forall t', good t' -> (t - u) * (t - u) <= (t' - u) * (t' - u)) ->
  nearest (fun q => exists t, good t /\ q = line_at X1 Y1 X2 Y2 t) (pX, pY) (line_at X1 Y1 X2 Y2 t).
Proof.
  intros good X1 Y1 X2 Y2 pX pY t D u G M. split; [exists t; auto|].
  intros q [t' [G' ->]]. destruct (projected X1 Y1 X2 Y2 pX pY t D) as [P E]. rewrite E.
  destruct (projected X1 Y1 X2 Y2 pX pY t' D) as [_ E']. rewrite E'. fold u.
  apply Rplus_le_compat_l. apply Rmult_le_compat_l; [lra|]. apply M. assumption.
Qed.

Lemma line_at_0 : forall X1 Y1 X2 Y2, line_at X1 Y1 X2 Y2 0 = (X1, Y1).
Proof. intros. unfold line_at. f_equal; ring. Qed.
Lemma line_at_1 : forall X1 Y1 X2 Y2, line_at X1 Y1 X2 Y2 1 = (X2, Y2).
Proof. intros. unfold line_at. f_equal; ring. Qed.

Theorem C90_nearest : forall X1 Y1 X2 Y2 pX pY, (X1 <> X2 \/ Y1 <> Y2) ->
  nearest (on_line X1 Y1 X2 Y2) (pX, pY) (LineNearestPoint X1 Y1 X2 Y2 pX pY) /\
  nearest (on_ray X1 Y1 X2 Y2) (pX, pY) (RayNearestPoint X1 Y1 X2 Y2 pX pY) /\
  nearest (on_segment X1 Y1 X2 Y2) (pX, pY) (LineSegmentNearestPoint X1 Y1 X2 Y2 pX pY).
Proof.
  intros X1 Y1 X2 Y2 pX pY D. unfold LineNearestPoint, RayNearestPoint, LineSegmentNearestPoint.
  set (u := LinePointParametricProject X1 Y1 X2 Y2 pX pY). fold (line_at X1 Y1 X2 Y2 u).
  assert (Q : forall t, (u - u) * (u - u) <= (t - u) * (t - u)) by (intros t; rewrite Rminus_diag_eq by reflexivity; rewrite Rmult_0_l; apply Rle_0_sqr).
  split; [|split].
  - pose proof (nearest_at (fun _ => True) X1 Y1 X2 Y2 pX pY u D Logic.I ltac:(intros; apply Q)) as [[t [_ A]] B].
    split; [exists t; exact A|]. intros q' [t' E]. apply B. exists t'. auto.
  - destruct (rle u 0) eqn:E.
    + apply rle_true in E. rewrite <- (line_at_0 X1 Y1 X2 Y2). apply (nearest_at (fun t => 0 <= t)); [exact D|lra|].
      fold u. intros t' T. nra.
    + apply rle_false in E. apply (nearest_at (fun t => 0 <= t)); [exact D|fold u; lra|]. fold u. intros. apply Q.
  - destruct (rle u 0) eqn:E.
    + apply rle_true in E. rewrite <- (line_at_0 X1 Y1 X2 Y2). apply (nearest_at (fun t => 0 <= t <= 1)); [exact D|lra|].
      fold u. intros t' T. nra.
    + apply rle_false in E. destruct (rle 1 u) eqn:E'.
      * apply rle_true in E'. rewrite <- (line_at_1 X1 Y1 X2 Y2). apply (nearest_at (fun t => 0 <= t <= 1)); [exact D|lra|].
        fold u. intros t' T. nra.
      * apply rle_false in E'. apply (nearest_at (fun t => 0 <= t <= 1)); [exact D|fold u; lra|]. fold u. intros. apply Q.
Qed.
Print Assumptions C90_nearest.

Lemma nearest_dist : forall set p q d, nearest set p q -> d = sqdist p q -> sqdist_to set p d.
Proof. intros set p q d A B. exists q. auto. Qed.

Theorem C90_distance : forall X1 Y1 X2 Y2 pX pY, (X1 <> X2 \/ Y1 <> Y2) ->
  sqdist_to (on_line X1 Y1 X2 Y2) (pX, pY) (LinePointDistanceSqr X1 Y1 X2 Y2 pX pY) /\
  sqdist_to (on_segment X1 Y1 X2 Y2) (pX, pY) (LineSegmentPointDistanceSqr X1 Y1 X2 Y2 pX pY).
Proof.
  intros X1 Y1 X2 Y2 pX pY D. destruct (C90_nearest X1 Y1 X2 Y2 pX pY D) as [A [_ B]]. split.
  - apply (nearest_dist _ _ _ _ A). unfold LineNearestPoint.
    set (u := LinePointParametricProject X1 Y1 X2 Y2 pX pY). fold (line_at X1 Y1 X2 Y2 u).
    destruct (projected X1 Y1 X2 Y2 pX pY u D) as [P E]. rewrite E. fold u. ring.
  - apply (nearest_dist _ _ _ _ B). clear A B. unfold LineSegmentNearestPoint.
    set (u := LinePointParametricProject X1 Y1 X2 Y2 pX pY). fold (line_at X1 Y1 X2 Y2 u).
    destruct (projected X1 Y1 X2 Y2 pX pY u D) as [P E]. fold u in E.
    destruct (projected X1 Y1 X2 Y2 pX pY 0 D) as [_ E0]. fold u in E0. rewrite line_at_0 in E0.
    destruct (projected X1 Y1 X2 Y2 pX pY 1 D) as [_ E1]. fold u in E1. rewrite line_at_1 in E1.
    unfold LineSegmentPointDistanceSqr.
    assert (U : - (X1 - pX) * (X2 - X1) + - (Y1 - pY) * (Y2 - Y1) = u * ((X2 - X1) * (X2 - X1) + (Y2 - Y1) * (Y2 - Y1)))
      by (unfold u, LinePointParametricProject; field; lra).
    rewrite U. set (k := (X2 - X1) * (X2 - X1) + (Y2 - Y1) * (Y2 - Y1)) in *.
    assert (V0 : (X1 - pX) * (X1 - pX) + (Y1 - pY) * (Y1 - pY) = sqdist (pX, pY) (X1, Y1)) by (unfold sqdist; cbn [fst snd]; ring).
    assert (V1 : (X2 - pX) * (X2 - pX) + (Y2 - pY) * (Y2 - pY) = sqdist (pX, pY) (X2, Y2)) by (unfold sqdist; cbn [fst snd]; ring).
    assert (IN : ((X2 - X1) * (Y1 - pY) - (Y2 - Y1) * (X1 - pX)) * ((X2 - X1) * (Y1 - pY) - (Y2 - Y1) * (X1 - pX)) / k =
       LinePointDistanceSqr X1 Y1 X2 Y2 pX pY) by (unfold LinePointDistanceSqr; fold k; field; lra).
    rewrite V0, V1.
    destruct (rlt (u * k) 0) eqn:L0; cbn [orb].
    + apply rlt_true in L0. assert (u < 0) by nra. replace (rle u 0) with true by (symmetry; apply rle_true; lra).
      replace (rlt (sqdist (pX, pY) (X1, Y1)) (sqdist (pX, pY) (X2, Y2))) with true; [reflexivity|].
      symmetry. apply rlt_true. rewrite E0, E1. nra.
    + apply rlt_false in L0. assert (0 <= u) by (apply Rnot_lt_le; intros N; nra).
      destruct (rlt k (u * k)) eqn:L1.
      * apply rlt_true in L1. assert (1 < u) by nra. replace (rle u 0) with false by (symmetry; apply rle_false; lra).
        replace (rle 1 u) with true by (symmetry; apply rle_true; lra).
        replace (rlt (sqdist (pX, pY) (X1, Y1)) (sqdist (pX, pY) (X2, Y2))) with false; [reflexivity|].
        symmetry. apply rlt_false. rewrite E0, E1. nra.
      * apply rlt_false in L1. assert (u <= 1) by (apply Rnot_lt_le; intros N; nra). rewrite IN.
        destruct (rle u 0) eqn:C0; [|destruct (rle 1 u) eqn:C1].
        -- apply rle_true in C0. assert (Z : u = 0) by lra. rewrite E0, Z. ring.
        -- apply rle_true in C1. assert (Z : u = 1) by lra. rewrite E1, Z. ring.
        -- rewrite E. ring.
Qed.
Print Assumptions C90_distance.

Example C90_example :
  LineSegmentNearestPoint 0 0 4 0 6 3 = (4, 0) /\ LineSegmentPointDistanceSqr 0 0 4 0 6 3 = 13 /\
  LinePointDistanceSqr 0 0 4 0 6 3 = 9.
Proof.
  split; [|split].
  - unfold LineSegmentNearestPoint, LinePointParametricProject.
    replace (rle _ 0) with false by (symmetry; apply rle_false; lra).
    replace (rle 1 _) with true by (symmetry; apply rle_true; lra). reflexivity.
  - unfold LineSegmentPointDistanceSqr. replace (rlt _ 0) with false by (symmetry; apply rlt_false; lra).
    replace (rlt ((4 - 0) * (4 - 0) + (0 - 0) * (0 - 0)) _) with true by (symmetry; apply rlt_true; lra).
    cbn [orb]. replace (rlt _ _) with false by (symmetry; apply rlt_false; lra). lra.
  - unfold LinePointDistanceSqr. lra.
Qed.

(** The two functions said to return the distance itself: one is off by a factor, one returns the square. *)
Theorem C90_LinePointDistance_partial : forall X1 Y1 X2 Y2 pX pY, (X1 <> X2 \/ Y1 <> Y2) ->
  LinePointDistance X1 Y1 X2 Y2 pX pY =
    LinePointDistanceSqr X1 Y1 X2 Y2 pX pY * sqrt (sqdist (X1, Y1) (X2, Y2)) /\
  LineSegmentPointDistance X1 Y1 X2 Y2 pX pY = LineSegmentPointDistanceSqr X1 Y1 X2 Y2 pX pY.
Proof.
  intros X1 Y1 X2 Y2 pX pY D. split; [|reflexivity]. unfold LinePointDistance, LinePointDistanceSqr, sqdist. cbn [fst snd].
  assert (P : 0 < (X2 - X1) * (X2 - X1) + (Y2 - Y1) * (Y2 - Y1)) by (apply sq_pos; destruct D; [left|right]; lra).
  replace ((X1 - X2) * (X1 - X2) + (Y1 - Y2) * (Y1 - Y2)) with ((X2 - X1) * (X2 - X1) + (Y2 - Y1) * (Y2 - Y1)) by ring.
  set (k := (X2 - X1) * (X2 - X1) + (Y2 - Y1) * (Y2 - Y1)) in *.
  assert (S : sqrt k * sqrt k = k) by (apply sqrt_sqrt; lra). assert (0 < sqrt k) by (apply sqrt_lt_R0; assumption).
  set (n := ((X2 - X1) * (Y1 - pY) - (X1 - pX) * (Y2 - Y1)) * ((X2 - X1) * (Y1 - pY) - (X1 - pX) * (Y2 - Y1))).
  rewrite <- S at 2. field. lra.
Qed.
Print Assumptions C90_LinePointDistance_partial.

Theorem C90_LinePointDistance_refuted :
  ~ (forall X1 Y1 X2 Y2 pX pY, (X1 <> X2 \/ Y1 <> Y2) ->
     exists d, sqdist_to (on_line X1 Y1 X2 Y2) (pX, pY) d /\ LinePointDistance X1 Y1 X2 Y2 pX pY = sqrt d) /\
  ~ (forall X1 Y1 X2 Y2 pX pY, (X1 <> X2 \/ Y1 <> Y2) ->
     exists d, sqdist_to (on_segment X1 Y1 X2 Y2) (pX, pY) d /\ LineSegmentPointDistance X1 Y1 X2 Y2 pX pY = sqrt d).
Proof.
  split; intros A.
  - specialize (A 0 0 2 0 0 1 ltac:(left; lra)). destruct A as [d [[q [[[t Q] M] E]] F]].
    unfold LinePointDistance in F. replace ((2 - 0) * (2 - 0) + (0 - 0) * (0 - 0)) with (2 * 2) in F by ring.
    rewrite sqrt_square in F by lra.
    specialize (M (0, 0) (ex_intro _ 0 (eq_sym (line_at_0 _ _ _ _)))). rewrite <- E in M.
    unfold sqdist in M. cbn [fst snd] in M.
    assert (sqrt d <= 1) by (rewrite <- sqrt_1; apply sqrt_le_1_alt; lra). lra.
  - specialize (A 0 0 2 0 0 2 ltac:(left; lra)). destruct A as [d [[q [[[t Q] M] E]] F]].
    unfold LineSegmentPointDistance, LineSegmentPointDistanceSqr in F.
    replace (rlt _ 0) with false in F by (symmetry; apply rlt_false; lra).
    replace (rlt ((2 - 0) * (2 - 0) + (0 - 0) * (0 - 0)) _) with false in F by (symmetry; apply rlt_false; lra). cbn [orb] in F.
    specialize (M (0, 0) (ex_intro _ 0 (conj (conj (Rle_refl 0) Rle_0_1) (eq_sym (line_at_0 _ _ _ _))))). rewrite <- E in M.
    unfold sqdist in M. cbn [fst snd] in M.
    assert (sqrt d <= 2) by (rewrite <- (sqrt_square 2) by lra; apply sqrt_le_1_alt; lra). lra.
Qed.
Print Assumptions C90_LinePointDistance_refuted.

(* ------------------------------------------------------------------ C91 *)

Definition meet (a b : point -> Prop) : Prop := exists p, a p /\ b p.
(** The direction of the two lines differs. *)
Definition crossing (x1 y1 x2 y2 X1 Y1 X2 Y2 : R) : Prop := (x2 - x1) * (Y2 - Y1) <> (X2 - X1) * (y2 - y1).

Lemma in01_some : forall a b, b <> 0 -> (in01 (quotient a b) = true <-> exists t, 0 <= t <= 1 /\ t * b = a).
Proof.
  intros a b N. unfold quotient. destruct (Req_EM_T b 0); [contradiction|]. cbn [in01].
  rewrite andb_true_iff, !rle_true. split.
  - intros T. exists (a / b). split; [assumption|]. field. assumption.
  - intros [t [T E]]. replace (a / b) with t; [assumption|]. rewrite <- E. field. assumption.
Qed.
Lemma in01_none : forall a b, b = 0 -> in01 (quotient a b) = false.
Proof. intros a b E. unfold quotient. destruct (Req_EM_T b 0); [reflexivity|contradiction]. Qed.

Lemma segments_meet : forall x1 y1 x2 y2 X1 Y1 X2 Y2, crossing x1 y1 x2 y2 X1 Y1 X2 Y2 ->
  (meet (on_segment x1 y1 x2 y2) (on_segment X1 Y1 X2 Y2) <->
   (exists s, 0 <= s <= 1 /\ s * ((X2 - X1) * (y2 - y1) - (Y2 - Y1) * (x2 - x1)) = (x2 - x1) * (Y1 - y1) + (y2 - y1) * (x1 - X1)) /\
   (exists t, 0 <= t <= 1 /\ t * ((Y2 - Y1) * (x2 - x1) - (X2 - X1) * (y2 - y1)) = (X2 - X1) * (y1 - Y1) + (Y2 - Y1) * (X1 - x1))).
Proof.
  intros x1 y1 x2 y2 X1 Y1 X2 Y2 C. split.
  - intros [p [[t [T P]] [s [S P']]]]. rewrite P in P'. unfold line_at in P'. injection P' as E1 E2.
    split.
    + exists s. split; [assumption|].
      replace (s * ((X2 - X1) * (y2 - y1) - (Y2 - Y1) * (x2 - x1))) with
        ((X1 + s * (X2 - X1) - X1) * (y2 - y1) - (Y1 + s * (Y2 - Y1) - Y1) * (x2 - x1)) by ring.
      rewrite <- E1, <- E2. ring.
    + exists t. split; [assumption|].
      replace (t * ((Y2 - Y1) * (x2 - x1) - (X2 - X1) * (y2 - y1))) with
        ((x1 + t * (x2 - x1) - x1) * (Y2 - Y1) - (y1 + t * (y2 - y1) - y1) * (X2 - X1)) by ring.
      rewrite E1, E2. ring.
  - intros [[s [S ES]] [t [T ET]]]. exists (line_at x1 y1 x2 y2 t). split; [exists t; auto|].
    exists s. split; [assumption|]. unfold line_at. unfold crossing in C.
    set (k := (X2 - X1) * (y2 - y1) - (Y2 - Y1) * (x2 - x1)) in *.
    assert (K : k <> 0) by (unfold k; lra).
    assert (ET' : t * k = - ((X2 - X1) * (y1 - Y1) + (Y2 - Y1) * (X1 - x1))) by (rewrite <- ET; unfold k; ring).
    f_equal; apply (Rmult_eq_reg_r k); try exact K.
    + replace ((x1 + t * (x2 - x1)) * k) with (x1 * k + t * k * (x2 - x1)) by ring.
      replace ((X1 + s * (X2 - X1)) * k) with (X1 * k + s * k * (X2 - X1)) by ring. rewrite ES, ET'. unfold k. ring.
    + replace ((y1 + t * (y2 - y1)) * k) with (y1 * k + t * k * (y2 - y1)) by ring.
      replace ((Y1 + s * (Y2 - Y1)) * k) with (Y1 * k + s * k * (Y2 - Y1)) by ring. rewrite ES, ET'. unfold k. ring.
Qed.

(** Segments that are not parallel collide when they have a point in common; parallel ones never do. *)
Theorem C91_LineSegmentLineSegmentCollide_partial : forall x1 y1 x2 y2 X1 Y1 X2 Y2,
  (crossing x1 y1 x2 y2 X1 Y1 X2 Y2 ->
   (LineSegmentLineSegmentCollide x1 y1 x2 y2 X1 Y1 X2 Y2 = true <->
    meet (on_segment x1 y1 x2 y2) (on_segment X1 Y1 X2 Y2))) /\
  (~ crossing x1 y1 x2 y2 X1 Y1 X2 Y2 -> LineSegmentLineSegmentCollide x1 y1 x2 y2 X1 Y1 X2 Y2 = false).
Proof.
  intros x1 y1 x2 y2 X1 Y1 X2 Y2. unfold LineSegmentLineSegmentCollide. split.
  - intros C. rewrite segments_meet by assumption. unfold crossing in C. rewrite andb_true_iff, !in01_some by lra. tauto.
  - intros C. unfold crossing in C.
    assert (E : (x2 - x1) * (Y2 - Y1) = (X2 - X1) * (y2 - y1)).
    { destruct (Req_dec ((x2 - x1) * (Y2 - Y1)) ((X2 - X1) * (y2 - y1))); tauto. }
    rewrite in01_none by lra. reflexivity.
Qed.
Print Assumptions C91_LineSegmentLineSegmentCollide_partial.

Theorem C91_LineSegmentLineSegmentCollide_refuted :
  ~ (forall x1 y1 x2 y2 X1 Y1 X2 Y2,
      (LineSegmentLineSegmentCollide x1 y1 x2 y2 X1 Y1 X2 Y2 = true <->
       meet (on_segment x1 y1 x2 y2) (on_segment X1 Y1 X2 Y2))).
Proof.
  intros A. specialize (A 0 0 2 0 1 0 3 0). destruct A as [_ A].
  assert (E : LineSegmentLineSegmentCollide 0 0 2 0 1 0 3 0 = true).
  { apply A. exists (2, 0). split; [exists 1|exists (/2)]; (split; [lra|unfold line_at; f_equal; lra]). }
  destruct (C91_LineSegmentLineSegmentCollide_partial 0 0 2 0 1 0 3 0) as [_ F].
  rewrite F in E; [discriminate|]. unfold crossing. lra.
Qed.
Print Assumptions C91_LineSegmentLineSegmentCollide_refuted.

(** The second segment vertical, or horizontal. *)
Theorem C91_axis_segments :
  (forall x1 y1 x2 y2 X Y1 Y2, x1 <> x2 -> Y1 <> Y2 ->
    (LineSegmentLineVertCollide x1 y1 x2 y2 X Y1 Y2 = true <->
     meet (on_segment x1 y1 x2 y2) (on_segment X Y1 X Y2))) /\
  (forall x1 y1 x2 y2 X1 X2 Y, y1 <> y2 -> X1 <> X2 ->
    (LineSegmentLineHorzCollide x1 y1 x2 y2 X1 X2 Y = true <->
     meet (on_segment x1 y1 x2 y2) (on_segment X1 Y X2 Y))).
Proof.
  split.
  - intros x1 y1 x2 y2 X Y1 Y2 N M. assert (K : (Y2 - Y1) * (x2 - x1) <> 0) by (apply Rmult_integral_contrapositive; lra).
    rewrite segments_meet by (unfold crossing; lra). unfold LineSegmentLineVertCollide.
    rewrite andb_true_iff, !in01_some by lra.
    replace ((X - X) * (y2 - y1) - (Y2 - Y1) * (x2 - x1)) with (- (Y2 - Y1) * (x2 - x1)) by ring.
    replace ((Y2 - Y1) * (x2 - x1) - (X - X) * (y2 - y1)) with ((Y2 - Y1) * (x2 - x1)) by ring.
    replace ((X - X) * (y1 - Y1) + (Y2 - Y1) * (X - x1)) with ((Y2 - Y1) * (X - x1)) by ring. tauto.
  - intros x1 y1 x2 y2 X1 X2 Y N M. assert (K : (X2 - X1) * (y2 - y1) <> 0) by (apply Rmult_integral_contrapositive; lra).
    rewrite segments_meet by (unfold crossing; lra). unfold LineSegmentLineHorzCollide.
    rewrite andb_true_iff, !in01_some by lra.
    replace ((X2 - X1) * (y2 - y1) - (Y - Y) * (x2 - x1)) with ((X2 - X1) * (y2 - y1)) by ring.
    replace ((Y - Y) * (x2 - x1) - (X2 - X1) * (y2 - y1)) with (- (X2 - X1) * (y2 - y1)) by ring.
    replace ((X2 - X1) * (y1 - Y) + (Y - Y) * (X1 - x1)) with ((X2 - X1) * (y1 - Y)) by ring. tauto.
Qed.
Print Assumptions C91_axis_segments.

Example C91_example :
  LineSegmentLineSegmentCollide 0 0 2 2 0 2 2 0 = true /\ LineSegmentLineVertCollide 0 0 2 2 1 (-1) 3 = true /\
  LineSegmentLineHorzCollide 0 0 2 2 (-1) 3 1 = true.
Proof.
  split; [|split].
  - apply C91_LineSegmentLineSegmentCollide_partial; [unfold crossing; lra|].
    exists (1, 1). split; exists (/2); (split; [lra|unfold line_at; f_equal; lra]).
  - apply C91_axis_segments; try lra.
    exists (1, 1). split; exists (/2); (split; [lra|unfold line_at; f_equal; lra]).
  - apply C91_axis_segments; try lra.
    exists (1, 1). split; exists (/2); (split; [lra|unfold line_at; f_equal; lra]).
Qed.

(** [p] reflected in [c]. *)
Definition mirror (c p : point) : point := (2 * fst c - fst p, 2 * snd c - snd p).

Lemma lines_unique : forall x1 y1 x2 y2 X1 Y1 X2 Y2 p q, crossing x1 y1 x2 y2 X1 Y1 X2 Y2 ->
  on_line x1 y1 x2 y2 p -> on_line X1 Y1 X2 Y2 p -> on_line x1 y1 x2 y2 q -> on_line X1 Y1 X2 Y2 q -> p = q.
Proof.
  intros x1 y1 x2 y2 X1 Y1 X2 Y2 p q C [t P] [s P'] [t' Q] [s' Q']. rewrite P in P'. rewrite Q in Q'.
  unfold line_at in P', Q'. injection P' as E1 E2. injection Q' as F1 F2. unfold crossing in C.
  assert (Z : (t - t') * ((x2 - x1) * (Y2 - Y1) - (X2 - X1) * (y2 - y1)) = 0).
  { assert (G1 : (t - t') * (x2 - x1) = (s - s') * (X2 - X1)) by lra.
    assert (G2 : (t - t') * (y2 - y1) = (s - s') * (Y2 - Y1)) by lra.
    replace ((t - t') * ((x2 - x1) * (Y2 - Y1) - (X2 - X1) * (y2 - y1))) with
      ((t - t') * (x2 - x1) * (Y2 - Y1) - (X2 - X1) * ((t - t') * (y2 - y1))) by ring. rewrite G1, G2. ring. }
  apply Rmult_integral in Z. destruct Z as [Z|Z]; [|lra]. replace t' with t in Q by lra. congruence.
Qed.

(** LineLineIntersect: the point stored is the common point of the two lines reflected in the first end point of the
    first line; lines whose cross product is in [-1, 0] are all rejected. *)
Theorem C91_LineLineIntersect_partial : forall x1 y1 x2 y2 X1 Y1 X2 Y2,
  match LineLineIntersect x1 y1 x2 y2 X1 Y1 X2 Y2 with
  | Some p => forall q, on_line x1 y1 x2 y2 q /\ on_line X1 Y1 X2 Y2 q <-> q = mirror (x1, y1) p
  | None => -1 <= (x2 - x1) * (Y2 - Y1) - (X2 - X1) * (y2 - y1) <= 0
  end.
Proof.
  intros x1 y1 x2 y2 X1 Y1 X2 Y2. unfold LineLineIntersect, Cross2. set (k := (x2 - x1) * (Y2 - Y1) - (X2 - X1) * (y2 - y1)).
  destruct (rle k 0 && rle (-1) k) eqn:E.
  - apply andb_true_iff in E. rewrite !rle_true in E. lra.
  - assert (K : k <> 0).
    { intros Z. rewrite Z in E. replace (rle 0 0) with true in E by (symmetry; apply rle_true; lra).
      replace (rle (-1) 0) with true in E by (symmetry; apply rle_true; lra). discriminate. }
    set (m := mirror _ _).
    assert (A : on_line x1 y1 x2 y2 m).
    { exists (- (((X2 - X1) * (Y1 - y1) - (X1 - x1) * (Y2 - Y1)) / k)). unfold m, mirror, line_at. cbn [fst snd]. f_equal; ring. }
    assert (B : on_line X1 Y1 X2 Y2 m).
    { exists (- (((x2 - x1) * (Y1 - y1) - (X1 - x1) * (y2 - y1)) / k)). unfold m, mirror, line_at. cbn [fst snd].
      f_equal; apply (Rmult_eq_reg_r k); try exact K;
      [transitivity (x1 * k - (x2 - x1) * ((X2 - X1) * (Y1 - y1) - (X1 - x1) * (Y2 - Y1)));
         [field; exact K|transitivity (X1 * k - ((x2 - x1) * (Y1 - y1) - (X1 - x1) * (y2 - y1)) * (X2 - X1)); [unfold k; ring|field; exact K]]
      |transitivity (y1 * k - (y2 - y1) * ((X2 - X1) * (Y1 - y1) - (X1 - x1) * (Y2 - Y1)));
         [field; exact K|transitivity (Y1 * k - ((x2 - x1) * (Y1 - y1) - (X1 - x1) * (y2 - y1)) * (Y2 - Y1)); [unfold k; ring|field; exact K]]]. }
    intros q. split; [|intros ->; auto]. intros [Q1 Q2].
    apply (lines_unique x1 y1 x2 y2 X1 Y1 X2 Y2); auto. unfold crossing. unfold k in K. lra.
Qed.
Print Assumptions C91_LineLineIntersect_partial.

Theorem C91_LineLineIntersect_refuted :
  ~ (forall x1 y1 x2 y2 X1 Y1 X2 Y2 p, LineLineIntersect x1 y1 x2 y2 X1 Y1 X2 Y2 = Some p ->
      on_line X1 Y1 X2 Y2 p) /\
  ~ (forall x1 y1 x2 y2 X1 Y1 X2 Y2, crossing x1 y1 x2 y2 X1 Y1 X2 Y2 -> LineLineIntersect x1 y1 x2 y2 X1 Y1 X2 Y2 <> None).
Proof.
  split; intros A.
  - pose proof (C91_LineLineIntersect_partial 0 0 2 2 1 0 1 4) as P. specialize (A 0 0 2 2 1 0 1 4).
    destruct (LineLineIntersect 0 0 2 2 1 0 1 4) as [p|]; [|lra]. specialize (A p eq_refl).
    specialize (P (1, 1)). destruct P as [P _].
    assert (M : (1, 1) = mirror (0, 0) p).
    { apply P. split; [exists (/2)|exists (/4)]; unfold line_at; f_equal; lra. }
    destruct A as [t A]. subst p. unfold mirror, line_at in M. cbn [fst snd] in M. injection M as M _. lra.
  - apply (A 0 0 1 0 0 0 0 (-1)); [unfold crossing; lra|]. unfold LineLineIntersect, Cross2.
    replace (rle _ 0) with true by (symmetry; apply rle_true; lra).
    replace (rle (-1) _) with true by (symmetry; apply rle_true; lra). reflexivity.
Qed.
Print Assumptions C91_LineLineIntersect_refuted.

(** LineSegmentLineSegmentIntersect: the segments it tests are both reflected in their first end points, and the point
    stored is the common point of those, reflected in the first end point of the first segment. *)
Theorem C91_LineSegmentLineSegmentIntersect_partial : forall x1 y1 x2 y2 X1 Y1 X2 Y2,
  (0 < (x2 - x1) * (Y2 - Y1) - (X2 - X1) * (y2 - y1) \/ (x2 - x1) * (Y2 - Y1) - (X2 - X1) * (y2 - y1) < -1) ->
  forall p,
  (LineSegmentLineSegmentIntersect x1 y1 x2 y2 X1 Y1 X2 Y2 = Some p <->
   on_segment x1 y1 (2 * x1 - x2) (2 * y1 - y2) (mirror (x1, y1) p) /\
   on_segment X1 Y1 (2 * X1 - X2) (2 * Y1 - Y2) (mirror (x1, y1) p)).
Proof.
  intros x1 y1 x2 y2 X1 Y1 X2 Y2 D p. unfold LineSegmentLineSegmentIntersect, Cross2.
  set (k := (x2 - x1) * (Y2 - Y1) - (X2 - X1) * (y2 - y1)) in *.
  replace (rle k 0 && rle (-1) k) with false.
  2: { symmetry. apply andb_false_iff. rewrite !rle_false. tauto. }
  assert (K : k <> 0) by lra.
  set (t := ((X2 - X1) * (Y1 - y1) - (X1 - x1) * (Y2 - Y1)) / k).
  set (u := ((x2 - x1) * (Y1 - y1) - (X1 - x1) * (y2 - y1)) / k).
  (* the parameters of a common point are t and u *)
  assert (S : forall a b, line_at x1 y1 (2 * x1 - x2) (2 * y1 - y2) a = line_at X1 Y1 (2 * X1 - X2) (2 * Y1 - Y2) b <-> a = t /\ b = u).
  { intros a b. unfold line_at. split.
    - intros E. injection E as E1 E2.
      assert (F1 : a * (x2 - x1) = x1 - X1 + b * (X2 - X1)) by lra.
      assert (F2 : a * (y2 - y1) = y1 - Y1 + b * (Y2 - Y1)) by lra. split.
      + apply (Rmult_eq_reg_r k); [|exact K]. unfold t. transitivity ((X2 - X1) * (Y1 - y1) - (X1 - x1) * (Y2 - Y1)); [|field; exact K].
        replace (a * k) with (a * (x2 - x1) * (Y2 - Y1) - (X2 - X1) * (a * (y2 - y1))) by (unfold k; ring). rewrite F1, F2. ring.
      + apply (Rmult_eq_reg_r k); [|exact K]. unfold u. transitivity ((x2 - x1) * (Y1 - y1) - (X1 - x1) * (y2 - y1)); [|field; exact K].
        replace (b * k) with ((x2 - x1) * (b * (Y2 - Y1)) - (b * (X2 - X1)) * (y2 - y1)) by (unfold k; ring).
        replace (b * (X2 - X1)) with (a * (x2 - x1) - x1 + X1) by lra. replace (b * (Y2 - Y1)) with (a * (y2 - y1) - y1 + Y1) by lra. ring.
    - intros [-> ->]. f_equal; apply (Rmult_eq_reg_r k); try exact K.
      + transitivity (x1 * k - (x2 - x1) * ((X2 - X1) * (Y1 - y1) - (X1 - x1) * (Y2 - Y1))); [unfold t; field; exact K|].
        transitivity (X1 * k - ((x2 - x1) * (Y1 - y1) - (X1 - x1) * (y2 - y1)) * (X2 - X1)); [unfold k; ring|unfold u; field; exact K].
      + transitivity (y1 * k - (y2 - y1) * ((X2 - X1) * (Y1 - y1) - (X1 - x1) * (Y2 - Y1))); [unfold t; field; exact K|].
        transitivity (Y1 * k - ((x2 - x1) * (Y1 - y1) - (X1 - x1) * (y2 - y1)) * (Y2 - Y1)); [unfold k; ring|unfold u; field; exact K]. }
  assert (M : mirror (x1, y1) (x1 + (x2 - x1) * t, y1 + (y2 - y1) * t) = line_at x1 y1 (2 * x1 - x2) (2 * y1 - y2) t).
  { unfold mirror, line_at. cbn [fst snd]. f_equal; ring. }
  assert (MM : forall a b, mirror (x1, y1) a = mirror (x1, y1) b -> a = b).
  { intros [a a'] [b b'] E. unfold mirror in E. cbn [fst snd] in E. injection E as E1 E2. f_equal; lra. }
  destruct (rle 0 u && rle u 1 && rle 0 t && rle t 1) eqn:T.
  - rewrite !andb_true_iff, !rle_true in T. split.
    + intros E. injection E as <-. rewrite M. split; [exists t; split; [lra|reflexivity]|].
      exists u. split; [lra|]. apply S. auto.
    + intros [[a [A P]] [b [B Q]]]. f_equal. apply MM. rewrite M, P. rewrite P in Q. apply S in Q. destruct Q as [-> _]. reflexivity.
  - split; [discriminate|]. intros [[a [A P]] [b [B Q]]]. rewrite P in Q. apply S in Q. destruct Q as [Q1 Q2]. subst a b.
    rewrite !andb_false_iff, !rle_false in T. lra.
Qed.
Print Assumptions C91_LineSegmentLineSegmentIntersect_partial.

Theorem C91_LineSegmentLineSegmentIntersect_refuted :
  ~ (forall x1 y1 x2 y2 X1 Y1 X2 Y2, crossing x1 y1 x2 y2 X1 Y1 X2 Y2 ->
      meet (on_segment x1 y1 x2 y2) (on_segment X1 Y1 X2 Y2) -> LineSegmentLineSegmentIntersect x1 y1 x2 y2 X1 Y1 X2 Y2 <> None) /\
  ~ (forall x1 y1 x2 y2 X1 Y1 X2 Y2 p, LineSegmentLineSegmentIntersect x1 y1 x2 y2 X1 Y1 X2 Y2 = Some p ->
      on_segment X1 Y1 X2 Y2 p).
Proof.
  split; intros A.
  - apply (A 0 0 2 2 1 (-1) 1 3); [unfold crossing; lra| |].
    + exists (1, 1). split; exists (/2); (split; [lra|unfold line_at; f_equal; lra]).
    + pose proof (C91_LineSegmentLineSegmentIntersect_partial 0 0 2 2 1 (-1) 1 3 ltac:(left; lra)) as P.
      destruct (LineSegmentLineSegmentIntersect 0 0 2 2 1 (-1) 1 3) as [p|]; [|reflexivity].
      specialize (P p). destruct P as [P _]. specialize (P eq_refl). destruct P as [[t [T P]] [u [U Q]]].
      rewrite P in Q. unfold line_at in Q. injection Q as Q1 Q2. lra.
  - pose proof (C91_LineSegmentLineSegmentIntersect_partial 0 0 2 2 (-1) 1 (-1) 5 ltac:(left; lra) (1, 1)) as P.
    specialize (A 0 0 2 2 (-1) 1 (-1) 5 (1, 1)).
    destruct A as [t [T A]].
    + apply P. unfold mirror. cbn [fst snd]. split; exists (/2); (split; [lra|unfold line_at; f_equal; lra]).
    + unfold line_at in A. injection A as A1 A2. lra.
Qed.
Print Assumptions C91_LineSegmentLineSegmentIntersect_refuted.
