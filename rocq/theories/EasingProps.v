(* C188: easing of animations. *)
From Coq Require Import Reals List Bool Lia Lra Psatz.
From Coquelicot Require Import Coquelicot.
From Verif Require Import Curves SolverProps Easing.
Import ListNotations.
Local Open Scope R_scope.

Definition unit (x : R) : Prop := 0 <= x <= 1.
(** [x] lies between [a] and [b]. *)
Definition between (a b x : R) : Prop := (a <= x <= b) \/ (b <= x <= a).

Lemma bezier_mono : forall p1 p2 x y, unit p1 -> unit p2 -> 0 <= x -> x <= y -> y <= 1 -> TimeBezier x p1 p2 <= TimeBezier y p1 p2.
Proof.
  intros p1 p2 x y [A A'] [B B'] X L Y. unfold TimeBezier.
  (* the difference is linear in p1 and p2: check it at the corners *)
  set (h := y - x). assert (H : 0 <= h) by (unfold h; lra). replace y with (x + h) in * by (unfold h; ring). clearbody h. clear L y.
  set (f1 := (3 * (1 - (x + h)) * (1 - (x + h)) * (x + h)) - (3 * (1 - x) * (1 - x) * x)).
  set (f2 := (3 * (1 - (x + h)) * (x + h) * (x + h)) - (3 * (1 - x) * x * x)).
  set (f3 := ((x + h) * (x + h) * (x + h)) - x * x * x).
  enough (0 <= f1 * p1 + f2 * p2 + f3) by (unfold f1, f2, f3 in *; lra).
  set (z := 1 - x - h). assert (Z : 0 <= z) by (unfold z; lra).
  assert (P : 0 <= f3) by (unfold f3; assert (0 <= x * x) by nra; assert (0 <= h * h) by nra; assert (0 <= x * h) by nra; nra).
  assert (P2 : 0 <= f2 + f3).
  { replace (f2 + f3) with (h * (3 * x * x + 3 * x * h + h * h + 3 * z * (2 * x + h) - 3 * x * x)) by (unfold f2, f3, z; ring).
    assert (0 <= x * h) by nra. assert (0 <= z * x) by nra. assert (0 <= z * h) by nra. assert (0 <= h * h) by nra. nra. }
  assert (P1 : 0 <= f1 + f3).
  { set (u := 2 * x - 1). set (v := 2 * (x + h) - 1). replace (f1 + f3) with (h * (u * u + u * v + v * v)) by (unfold f1, f3, u, v; field).
    apply Rmult_le_pos; [lra|]. pose proof (Rle_0_sqr (u + v)). pose proof (Rle_0_sqr u). pose proof (Rle_0_sqr v). unfold Rsqr in *. lra. }
  assert (P12 : 0 <= f1 + f2 + f3).
  { replace (f1 + f2 + f3) with (h * (3 * z * z + 3 * z * h + h * h)) by (unfold f1, f2, f3, z; ring).
    assert (0 <= z * h) by nra. assert (0 <= z * z) by nra. assert (0 <= h * h) by nra. nra. }
  clearbody f1 f2 f3.
  replace (f1 * p1 + f2 * p2 + f3) with
    ((1 - p1) * (1 - p2) * f3 + p1 * (1 - p2) * (f1 + f3) + (1 - p1) * p2 * (f2 + f3) + p1 * p2 * (f1 + f2 + f3)) by ring.
  repeat apply Rplus_le_le_0_compat; repeat apply Rmult_le_pos; lra.
Qed.
Lemma bezier_ends : forall p1 p2, TimeBezier 0 p1 p2 = 0 /\ TimeBezier 1 p1 p2 = 1.
Proof. intros. unfold TimeBezier. split; ring. Qed.
Lemma bezier_unit : forall p1 p2 s, unit p1 -> unit p2 -> unit s -> unit (TimeBezier s p1 p2).
Proof.
  intros p1 p2 s A B [C D]. destruct (bezier_ends p1 p2) as [E F]. split.
  - rewrite <- E. apply bezier_mono; auto; lra.
  - rewrite <- F. apply bezier_mono; auto; lra.
Qed.

(** The easing curve runs from 0 to 1 without turning back, if the control points lie in the unit square. *)
Theorem C188_curve : forall p1 p2, unit p1 -> unit p2 ->
  TimeBezier 0 p1 p2 = 0 /\ TimeBezier 1 p1 p2 = 1 /\
  (forall x y, 0 <= x -> x <= y -> y <= 1 -> TimeBezier x p1 p2 <= TimeBezier y p1 p2) /\
  (forall t, unit t -> exists s, unit s /\ TimeBezier s p1 p2 = t).
Proof.
  intros p1 p2 A B. destruct (bezier_ends p1 p2) as [E F]. split; [exact E|]. split; [exact F|]. split; [intros; apply bezier_mono; auto|].
  intros t [T T'].
  assert (K : continuity (fun s => TimeBezier s p1 p2 - t)) by (unfold TimeBezier; reg).
  destruct (IVT_cor (fun s => TimeBezier s p1 p2 - t) 0 1 K ltac:(lra)) as [s [Z W]].
  - rewrite E, F. nra.
  - exists s. split; [exact Z|]. lra.
Qed.
Print Assumptions C188_curve.

Lemma search_unit : forall eps e t, unit t -> unit (search eps e t).
Proof. intros eps e t H. unfold search. apply C77_stays_in_range. exact H. Qed.
Lemma at_once : forall F dF eps n x min max, 0 <= eps -> F x = 0 -> NewtonRaphsonBisection F dF eps n x min max = x.
Proof.
  intros F dF eps [|n] x min max E H; cbn [NewtonRaphsonBisection]; [reflexivity|]. unfold fSmall. rewrite H, Rabs_R0.
  destruct (Rle_dec 0 eps); [reflexivity|contradiction].
Qed.
Lemma search_ends : forall eps e, 0 <= eps -> search eps e 0 = 0 /\ search eps e 1 = 1.
Proof.
  intros eps e H. unfold search. destruct (bezier_ends (t1 e) (t2 e)) as [A B].
  split; apply at_once; auto; [rewrite A|rewrite B]; ring.
Qed.

(** Progress starts at 0, ends at 1 and stays in between, for every control point of time.  The value of a frame is reached exactly at its end, the
    one before it at its start, and the values in between lie between the two. *)
Theorem C188_progress : forall eps e, 0 <= eps -> unit (s1 e) -> unit (s2 e) ->
  GetProgress eps e 0 = 0 /\ GetProgress eps e 1 = 1 /\
  (forall t, unit t -> unit (GetProgress eps e t)) /\
  (forall v cur val init, nth_error v cur = Some (Frame val e) ->
     exists prev, (cur = 0%nat /\ prev = init \/ exists f, nth_error v (cur - 1) = Some f /\ (0 < cur)%nat /\ prev = value f) /\
       LinearInterpolate eps v cur 0 init = Some prev /\ LinearInterpolate eps v cur 1 init = Some val /\
       (forall t, unit t -> exists x, LinearInterpolate eps v cur t init = Some x /\ between prev val x) /\
       ((0 < cur)%nat -> forall t, unit t -> exists x, LinearInterpolateRel eps v cur t init = Some (init + x) /\ between prev val x)).
Proof.
  intros eps e E A B.
  assert (G0 : GetProgress eps e 0 = 0) by (unfold GetProgress; destruct (search_ends eps e E) as [-> _]; apply bezier_ends).
  assert (G1 : GetProgress eps e 1 = 1) by (unfold GetProgress; destruct (search_ends eps e E) as [_ ->]; apply bezier_ends).
  assert (GU : forall t, unit t -> unit (GetProgress eps e t)) by (intros t T; apply bezier_unit; auto; apply search_unit; auto).
  split; [exact G0|]. split; [exact G1|]. split; [exact GU|].
  intros v cur val init N.
  assert (P : exists prev, (cur = 0%nat /\ prev = init \/ exists f, nth_error v (cur - 1) = Some f /\ (0 < cur)%nat /\ prev = value f) /\
     match cur with O => Some init | S k => option_map value (nth_error v k) end = Some prev).
  { destruct cur as [|k]; [exists init; auto|]. destruct (nth_error v k) as [f|] eqn:F.
    - exists (value f). split; [right|reflexivity]. exists f. replace (S k - 1)%nat with k by lia. split; [exact F|]. split; [lia|reflexivity].
    - apply nth_error_None in F. assert (nth_error v (S k) <> None) as Q by congruence. apply nth_error_Some in Q. lia. }
  destruct P as [prev [P Q]]. exists prev. split; [exact P|].
  assert (L : forall t, LinearInterpolate eps v cur t init = Some (lerp prev val (GetProgress eps e t))).
  { intros t. unfold LinearInterpolate. rewrite N, Q. reflexivity. }
  assert (W : forall t, unit t -> between prev val (lerp prev val (GetProgress eps e t))).
  { intros t T. destruct (GU t T) as [U V]. unfold between, lerp. set (g := GetProgress eps e t) in *. clearbody g.
    destruct (Rle_dec prev val) as [D|D]; [left|right]; split; nra. }
  split; [rewrite L, G0; unfold lerp; f_equal; ring|]. split; [rewrite L, G1; unfold lerp; f_equal; ring|]. split.
  - intros t T. eexists. split; [apply L|]. apply W. exact T.
  - intros C t T. exists (lerp prev val (GetProgress eps e t)). split; [|apply W; exact T].
    unfold LinearInterpolateRel. destruct cur; [lia|]. rewrite L. reflexivity.
Qed.
Print Assumptions C188_progress.

(** With the control points of time at one and two thirds, time runs evenly: progress is the curve of the values at the time itself, and with the
    same control points for the values it is the time.  For the default points, (0, 0) and (1, 1), progress is the time only as far as the search
    gets; how far that is, is not shown. *)
Theorem C188_linear_partial : forall eps a b t, 0 <= eps ->
  GetProgress eps (Easing (1 / 3) a (2 / 3) b) t = TimeBezier t a b /\ GetProgress eps (Easing (1 / 3) (1 / 3) (2 / 3) (2 / 3)) t = t /\
  (Rabs (TimeBezier (search eps default_easing t) 0 1 - t) <= eps -> Rabs (GetProgress eps default_easing t - t) <= eps).
Proof.
  intros eps a b t E.
  assert (Z : forall x, TimeBezier x (1 / 3) (2 / 3) = x) by (intros x; unfold TimeBezier; field).
  assert (G : forall a b, GetProgress eps (Easing (1 / 3) a (2 / 3) b) t = TimeBezier t a b).
  { intros a' b'. unfold GetProgress, search. cbn [t1 t2 s1 s2]. rewrite at_once; auto. rewrite Z. ring. }
  split; [apply G|]. split; [rewrite G; apply Z|]. auto.
Qed.
Print Assumptions C188_linear_partial.

(** The derivative of the quadratic curve is the derivative. *)
Theorem C188_quadratic : forall p0 p1 p2,
  QuadBezier 0 p0 p1 p2 = p0 /\ QuadBezier 1 p0 p1 p2 = p2 /\
  (forall s, derivable_pt_lim (fun s => QuadBezier s p0 p1 p2) s (QuadBezierD s p0 p1 p2)) /\
  (forall p3, CubicBezier 0 p0 p1 p2 p3 = p0 /\ CubicBezier 1 p0 p1 p2 p3 = p3).
Proof.
  intros p0 p1 p2. split; [unfold QuadBezier; ring|]. split; [unfold QuadBezier; ring|]. split; [|intros; unfold CubicBezier; split; ring].
  intros s. apply is_derive_Reals. unfold QuadBezier, QuadBezierD. cbv zeta. auto_derive; [exact I|]. ring.
Qed.
Print Assumptions C188_quadratic.

(** The one of the easing curve is not, inside of the interval, unless the second control point is 0. *)
Theorem C188_TimeBezierD_refuted : forall p1 p2 s, 0 < s < 1 -> p2 <> 0 ->
  ~ derivable_pt_lim (fun s => TimeBezier s p1 p2) s (TimeBezierD s p1 p2).
Proof.
  intros p1 p2 s H N D.
  assert (D' : derivable_pt_lim (fun s => TimeBezier s p1 p2) s (3 * (1 - s) * (1 - s) * p1 + 6 * (1 - s) * s * (p2 - p1) + 3 * s * s * (1 - p2))).
  { apply is_derive_Reals. unfold TimeBezier. cbv zeta. auto_derive; [exact I|]. ring. }
  pose proof (uniqueness_limite _ _ _ _ D D') as E. unfold TimeBezierD in E. assert ((1 - s) * s * s * p2 = 0) by lra.
  repeat (apply Rmult_integral in H0; destruct H0 as [H0|H0]); lra.
Qed.
Print Assumptions C188_TimeBezierD_refuted.

(** Nor is the one of the cubic curve, after the start, unless the last two points are the same. *)
Theorem C188_cubic_refuted : forall p0 p1 p2 p3 s, s <> 0 -> p2 <> p3 ->
  ~ derivable_pt_lim (fun s => CubicBezier s p0 p1 p2 p3) s (CubicBezierD s p0 p1 p2 p3).
Proof.
  intros p0 p1 p2 p3 s H N D.
  assert (D' : derivable_pt_lim (fun s => CubicBezier s p0 p1 p2 p3) s (3 * (1 - s) * (1 - s) * (p1 - p0) + 6 * (1 - s) * s * (p2 - p1) + 3 * s * s * (p3 - p2))).
  { apply is_derive_Reals. unfold CubicBezier. cbv zeta. auto_derive; [exact I|]. ring. }
  pose proof (uniqueness_limite _ _ _ _ D D') as E. unfold CubicBezierD in E. assert (Z : s * s * s * (p3 - p2) = 0) by lra.
  repeat (apply Rmult_integral in Z; destruct Z as [Z|Z]); lra.
Qed.
Print Assumptions C188_cubic_refuted.

(** The length of the derivative is taken from its last coordinate alone: it is the square root of that. *)
Definition norm (ds : list R) : R := sqrt (fold_right (fun d a => d * d + a) 0 ds).
Theorem C188_Length_refuted : (forall ds d, Length (ds ++ [d]) = sqrt d) /\ (forall d, 1 < d -> Length [d] <> norm [d]).
Proof.
  split.
  - intros ds d. unfold Length, length_loop. rewrite fold_left_app. cbn [fold_left]. destruct (fold_left _ ds (0, 0)) as [r a]. reflexivity.
  - intros d H. unfold Length, length_loop, norm. cbn [fold_left fold_right]. rewrite Rplus_0_r. intros E. apply sqrt_inj in E; nra.
Qed.
Print Assumptions C188_Length_refuted.

Example C188_example : unit (s1 default_easing) /\ unit (s2 default_easing) /\ TimeBezier (1 / 2) 0 1 = 1 / 2 /\
  LinearInterpolate (1 / 8388608) [Frame 10 default_easing; Frame 20 default_easing] 1 1 5 = Some 20 /\
  Length [3; 4] = 2 /\ norm [3; 4] = 5.
Proof.
  assert (U : forall x, 0 <= x <= 1 -> unit x) by auto.
  split; [apply U; cbn; lra|]. split; [apply U; cbn; lra|]. split; [unfold TimeBezier; lra|]. split; [|split].
  - destruct (C188_progress (1 / 8388608) default_easing ltac:(lra)) as [_ [_ [_ P]]]; [apply U; cbn; lra|apply U; cbn; lra|].
    destruct (P [Frame 10 default_easing; Frame 20 default_easing] 1%nat 20 5 eq_refl) as [prev [_ [_ [Q _]]]]. exact Q.
  - change (Length ([3] ++ [4]) = 2). rewrite (proj1 C188_Length_refuted [3] 4). replace 4 with (2 * 2) by ring. apply sqrt_square. lra.
  - unfold norm; cbn [fold_right]; replace (3 * 3 + (4 * 4 + 0)) with (5 * 5) by ring. apply sqrt_square. lra.
Qed.
