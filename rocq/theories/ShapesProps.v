(* C202: centring a polygon; areas of triangles, points on lines, spheres. *)
From Coq Require Import Reals List Arith Lra Lia Psatz Bool.
From Coquelicot Require Import Coquelicot.
From Verif Require Import Collision PolygonProps Shapes.
Import ListNotations.
Local Open Scope R_scope.

(* --- specification: PolygonProps has centre_of_mass and shift --- *)
(** distance of points in any number of dimensions *)
Definition dist_sq (p q : list R) : R := fold_right Rplus 0 (map (fun '(a, b) => (a - b) * (a - b)) (combine p q)).

(* --- moving a polygon --- *)
Lemma rlt_shift a b d : rlt (a + d) (b + d) = rlt a b.
Proof. unfold rlt. destruct (Rlt_dec (a + d) (b + d)), (Rlt_dec a b); try reflexivity; lra. Qed.
Lemma crosses_shift dx dy p i j : crosses (shift dx dy p) (shift dx dy i) (shift dx dy j) = crosses p i j.
Proof.
  unfold crosses, shift. cbn [fst snd]. rewrite !rlt_shift. f_equal.
  replace ((fst j + dx - (fst i + dx)) * (snd p + dy - (snd i + dy)) / (snd j + dy - (snd i + dy)) + (fst i + dx)) with ((fst j - fst i) * (snd p - snd i) / (snd j - snd i) + fst i + dx).
  - apply rlt_shift.
  - replace (snd j + dy - (snd i + dy)) with (snd j - snd i) by ring. unfold Rdiv. ring.
Qed.
Lemma edges_shift dx dy p : forall l c prev,
  edges (fun c i j => if crosses (shift dx dy p) i j then negb c else c) c (shift dx dy prev) (map (shift dx dy) l) = edges (fun c i j => if crosses p i j then negb c else c) c prev l.
Proof. induction l as [|v l IH]; intros c prev; cbn [map edges]; [reflexivity|]. rewrite crosses_shift. apply IH. Qed.
Lemma last_shift dx dy : forall l o d d', last (map (shift dx dy) (o :: l)) d = shift dx dy (last (o :: l) d').
Proof. induction l as [|a l IH]; intros o d d'; [reflexivity|]. change (last (o :: a :: l) d') with (last (a :: l) d'). rewrite <- (IH a d d'). reflexivity. Qed.
Lemma contains_shift dx dy p o l : PolygonContainsPoint (shift dx dy p) (map (shift dx dy) (o :: l)) = PolygonContainsPoint p (o :: l).
Proof. unfold PolygonContainsPoint, over_edges. rewrite (last_shift dx dy l o (0, 0) (0, 0)). apply edges_shift. Qed.
Lemma fold_ext {A B} (f g : A -> B -> A) l : (forall a b, In b l -> f a b = g a b) -> forall a, fold_left f l a = fold_left g l a.
Proof. induction l as [|x l IH]; intros E a; cbn [fold_left]; [reflexivity|]. rewrite (E a x) by now left. apply IH. intros. apply E. now right. Qed.
Lemma turn_shift dx dy j i k : turn_at (shift dx dy j) (shift dx dy i) (shift dx dy k) = turn_at j i k.
Proof. unfold turn_at, shift. cbn [fst snd]. ring. Qed.
Lemma nth_shift dx dy l n : (n < length l)%nat -> nth n (map (shift dx dy) l) (0, 0) = shift dx dy (nth n l (0, 0)).
Proof. intros L. rewrite (nth_indep _ (0, 0) (shift dx dy (0, 0))) by now rewrite map_length. apply map_nth. Qed.
Lemma convex_shift dx dy l : PolygonIsConvex (map (shift dx dy) l) = PolygonIsConvex l.
Proof.
  unfold PolygonIsConvex. cbv zeta. rewrite map_length.
  assert (E : forall a, fold_left (fun (flag : bool * bool) i => (fst flag || rlt (turn_at (nth (if Nat.eqb i 0 then (length l - 1)%nat else (i - 1)%nat) (map (shift dx dy) l) (0, 0)) (nth i (map (shift dx dy) l) (0, 0)) (nth ((i + 1) mod length l) (map (shift dx dy) l) (0, 0))) 0,
                snd flag || rlt 0 (turn_at (nth (if Nat.eqb i 0 then (length l - 1)%nat else (i - 1)%nat) (map (shift dx dy) l) (0, 0)) (nth i (map (shift dx dy) l) (0, 0)) (nth ((i + 1) mod length l) (map (shift dx dy) l) (0, 0))))) (seq 0 (length l)) a =
              fold_left (fun (flag : bool * bool) i => (fst flag || rlt (turn_at (nth (if Nat.eqb i 0 then (length l - 1)%nat else (i - 1)%nat) l (0, 0)) (nth i l (0, 0)) (nth ((i + 1) mod length l) l (0, 0))) 0,
                snd flag || rlt 0 (turn_at (nth (if Nat.eqb i 0 then (length l - 1)%nat else (i - 1)%nat) l (0, 0)) (nth i l (0, 0)) (nth ((i + 1) mod length l) l (0, 0))))) (seq 0 (length l)) a).
  { apply fold_ext. intros a i I. apply in_seq in I. assert (P : (0 < length l)%nat) by lia. pose proof (Nat.mod_upper_bound (i + 1) (length l)) as M.
    rewrite !nth_shift, turn_shift; [reflexivity|lia|lia|]. destruct (Nat.eqb_spec i 0); lia. }
  rewrite E. reflexivity.
Qed.
Definition moment (f : point -> R) (L : list (point * point * point)) : R := sum_of (map (fun '(a, b, c) => (f a + f b + f c) / 3 * (area2 a b c / 2)) L).
Lemma moment_shift (f : point -> R) d dx dy (F : forall p, f (shift dx dy p) = f p + d) L :
  moment f (map (fun '(a, b, c) => (shift dx dy a, shift dx dy b, shift dx dy c)) L) = moment f L + d * sum_of (map (fun '(a, b, c) => area2 a b c / 2) L).
Proof.
  unfold moment, sum_of. induction L as [|[[a b] c] L IH]; cbn [map fold_right]; [ring|]. rewrite IH, !F.
  replace (area2 (shift dx dy a) (shift dx dy b) (shift dx dy c)) with (area2 a b c) by (unfold area2, shift; cbn [fst snd]; ring). field.
Qed.

(** If the memory of the centroid happened to be zero and the polygon has an area, centring moves it as a whole: the centre of mass comes to the origin, and area,
    convexity and the points inside move with it.  What is missing: any other memory *)
Theorem C202_center_partial o l : PolygonArea (o :: l) <> 0 ->
  exists dx dy, CenterPolygon (0, 0) (o :: l) = map (shift dx dy) (o :: l) /\ centre_of_mass o l (- dx, - dy) /\
    PolygonCentroid (0, 0) (CenterPolygon (0, 0) (o :: l)) = (0, 0) /\
    PolygonArea (CenterPolygon (0, 0) (o :: l)) = PolygonArea (o :: l) /\ PolygonIsConvex (CenterPolygon (0, 0) (o :: l)) = PolygonIsConvex (o :: l) /\
    forall p, PolygonContainsPoint (shift dx dy p) (CenterPolygon (0, 0) (o :: l)) = PolygonContainsPoint p (o :: l).
Proof.
  intros N. destruct (C96_PolygonCentroid_partial o l N) as [C _]. set (c := PolygonCentroid (0, 0) (o :: l)) in *.
  assert (M : CenterPolygon (0, 0) (o :: l) = map (shift (- fst c) (- snd c)) (o :: l)). { unfold CenterPolygon. fold c. apply map_ext. intros v. unfold shift. f_equal; lra. }
  exists (- fst c), (- snd c). split; [exact M|]. split; [rewrite !Ropp_involutive; destruct c; exact C|]. rewrite M.
  assert (A : PolygonArea (map (shift (- fst c) (- snd c)) (o :: l)) = PolygonArea (o :: l)) by apply C96_PolygonArea.
  split; [|split; [exact A|split; [apply convex_shift|intros p; apply contains_shift]]].
  destruct (C96_PolygonCentroid_partial (shift (- fst c) (- snd c) o) (map (shift (- fst c) (- snd c)) l)) as [[X Y] _]; [cbn [map] in A; rewrite A; exact N|].
  cbn [map] in *. rewrite <- fan_area, A in X, Y. destruct C as [CX CY]. rewrite <- fan_area in CX, CY.
  pose proof (eq_trans X (f_equal (moment fst) (fan_shift _ _ o l))) as X1. pose proof (eq_trans Y (f_equal (moment snd) (fan_shift _ _ o l))) as Y1. clear X Y.
  assert (CX1 : fst c * PolygonArea (o :: l) = moment fst (fan o l)) by exact CX. assert (CY1 : snd c * PolygonArea (o :: l) = moment snd (fan o l)) by exact CY.
  rewrite (moment_shift fst (- fst c) _ _ (fun p => eq_refl)), <- fan_area, <- CX1 in X1. rewrite (moment_shift snd (- snd c) _ _ (fun p => eq_refl)), <- fan_area, <- CY1 in Y1.
  match goal with |- ?t = _ => change (fst t * PolygonArea (o :: l) = fst c * PolygonArea (o :: l) + - fst c * PolygonArea (o :: l)) in X1; change (snd t * PolygonArea (o :: l) = snd c * PolygonArea (o :: l) + - snd c * PolygonArea (o :: l)) in Y1; clearbody c; destruct t as [u v] end.
  cbn [fst snd] in *. f_equal; apply (Rmult_eq_reg_r (PolygonArea (o :: l))); try exact N; lra.
Qed.
Print Assumptions C202_center_partial.
(** Refuted: with anything else in that memory the centre of mass of the result is not at the origin *)
Theorem C202_center_refuted c0 o l : PolygonArea (o :: l) <> 0 -> c0 <> (0, 0) -> PolygonCentroid (0, 0) (CenterPolygon c0 (o :: l)) <> (0, 0).
Proof.
  intros N Z0 E. destruct (C96_PolygonCentroid_partial o l N) as [C U]. set (c := PolygonCentroid c0 (o :: l)) in *.
  assert (M : CenterPolygon c0 (o :: l) = map (shift (- fst c) (- snd c)) (o :: l)). { unfold CenterPolygon. fold c. apply map_ext. intros v. unfold shift. f_equal; lra. }
  rewrite M in E. assert (A : PolygonArea (map (shift (- fst c) (- snd c)) (o :: l)) = PolygonArea (o :: l)) by apply C96_PolygonArea.
  apply Z0, U. unfold centre_of_mass. fold c.
  destruct (C96_PolygonCentroid_partial (shift (- fst c) (- snd c) o) (map (shift (- fst c) (- snd c)) l)) as [[X Y] _]; [cbn [map] in A; rewrite A; exact N|].
  cbn [map] in *. rewrite <- fan_area, A, E in X, Y. cbn [fst snd] in X, Y.
  pose proof (eq_trans X (f_equal (moment fst) (fan_shift _ _ o l))) as X1. pose proof (eq_trans Y (f_equal (moment snd) (fan_shift _ _ o l))) as Y1. clear X Y.
  rewrite (moment_shift fst (- fst c) _ _ (fun p => eq_refl)), <- fan_area in X1. rewrite (moment_shift snd (- snd c) _ _ (fun p => eq_refl)), <- fan_area in Y1.
  rewrite <- fan_area. split; [change (fst c * PolygonArea (o :: l) = moment fst (fan o l))|change (snd c * PolygonArea (o :: l) = moment snd (fan o l))]; lra.
Qed.
Print Assumptions C202_center_refuted.

(** The area of a triangle is that of the polygon of its corners: positive if they turn to the left, and half of base times height in size;
    whichever corner comes first, and wherever it lies *)
Theorem C202_triangle_partial a b c :
  TriangleArea a b c = PolygonArea [a; b; c] /\ TriangleArea b c a = TriangleArea a b c /\
  (forall dx dy, TriangleArea (shift dx dy a) (shift dx dy b) (shift dx dy c) = TriangleArea a b c) /\
  (forall base height, TriangleArea (0, 0) (base, 0) (fst c, height) = base * height / 2) /\
  4 * (TriangleArea a b c * TriangleArea a b c) = ((fst b - fst a)² + (snd b - snd a)²) * ((fst c - fst a)² + (snd c - snd a)²) - ((fst b - fst a) * (fst c - fst a) + (snd b - snd a) * (snd c - snd a))².
Proof.
  split; [|split; [|split; [|split]]].
  - unfold TriangleArea, Cross, PolygonArea, over_edges. cbn [last edges fst snd]. lra.
  - unfold TriangleArea, Cross. cbn [fst snd]. lra.
  - intros dx dy. unfold TriangleArea, Cross, shift. cbn [fst snd]. lra.
  - intros base height. unfold TriangleArea, Cross. cbn [fst snd]. lra.
  - unfold TriangleArea, Cross, Rsqr. cbn [fst snd]. field.
Qed.
Print Assumptions C202_triangle_partial.
(** Refuted: the area of the same triangle with its corners the other way round is negative *)
Theorem C202_triangle_refuted a b c : TriangleArea a c b = - TriangleArea a b c.
Proof. unfold TriangleArea, Cross. cbn [fst snd]. lra. Qed.
Print Assumptions C202_triangle_refuted.

Lemma parametric_cons x y p q s : ParametricPoint (x :: p) (y :: q) s = (x + (y - x) * s) :: ParametricPoint p q s.
Proof. reflexivity. Qed.
Lemma dist_cons x y p q : dist_sq (x :: p) (y :: q) = (x - y) * (x - y) + dist_sq p q.
Proof. reflexivity. Qed.
Lemma dist_pos : forall p q, 0 <= dist_sq p q.
Proof. induction p as [|x p IH]; intros [|y q]; try (unfold dist_sq; cbn; lra). rewrite dist_cons. specialize (IH q). pose proof (Rle_0_sqr (x - y)) as S1. unfold Rsqr in S1. lra. Qed.
Lemma length_dist p q : Length p q = sqrt (dist_sq p q).
Proof. unfold Length, dist_sq. do 2 f_equal. apply map_ext. intros [a b]. ring. Qed.
(** In any number of dimensions: the point at s of a line is at the distance |s| times the length from the first end, |1 - s| times the length from the other; 0 and 1 are the ends *)
Theorem C202_line p1 p2 s : length p1 = length p2 ->
  ParametricPoint p1 p2 0 = p1 /\ ParametricPoint p1 p2 1 = p2 /\
  Length p1 (ParametricPoint p1 p2 s) = Rabs s * Length p1 p2 /\ Length p2 (ParametricPoint p1 p2 s) = Rabs (1 - s) * Length p1 p2 /\ Length p1 p2 = Length p2 p1.
Proof.
  intros L. rewrite !length_dist.
  assert (H : ParametricPoint p1 p2 0 = p1 /\ ParametricPoint p1 p2 1 = p2 /\ dist_sq p1 (ParametricPoint p1 p2 s) = Rsqr s * dist_sq p1 p2 /\ dist_sq p2 (ParametricPoint p1 p2 s) = Rsqr (1 - s) * dist_sq p1 p2 /\ dist_sq p1 p2 = dist_sq p2 p1).
  { revert p2 L. induction p1 as [|x p IH]; intros [|y q] L; try discriminate; [unfold dist_sq, ParametricPoint; cbn; repeat split; lra|]. injection L as L. destruct (IH q L) as [A [B [C [D E]]]].
    rewrite !parametric_cons, !dist_cons, A, B, C, D, E. unfold Rsqr. repeat split; try ring; f_equal; ring. }
  destruct H as [A [B [C [D E]]]]. rewrite A, B, C, D, <- E. repeat split; (rewrite sqrt_mult by (try apply Rle_0_sqr; apply dist_pos)); now rewrite sqrt_Rsqr_abs.
Qed.
Print Assumptions C202_line.

(** The volume of a sphere is the integral of its circular sections, and its surface the rate at which the volume grows with the radius *)
Theorem C202_sphere r : is_RInt (fun x => PI * (r * r - x * x)) (- r) r (Volume r) /\ is_derive Volume r (SurfaceArea r).
Proof.
  split.
  - replace (Volume r) with (minus ((fun x => PI * (r * r * x - x * x * x / 3)) r) ((fun x => PI * (r * r * x - x * x * x / 3)) (- r))) by (unfold minus, plus, opp, Volume; cbn; field).
    apply (is_RInt_derive (fun x => PI * (r * r * x - x * x * x / 3))).
    + intros x _. auto_derive; [trivial|field].
    + intros x _. apply (ex_derive_continuous (V := R_NormedModule)). auto_derive. trivial.
  - unfold Volume, SurfaceArea. auto_derive; [trivial|field].
Qed.
Print Assumptions C202_sphere.

(** a square away from the origin; a triangle *)
Example C202_example :
  PolygonArea [(1, 1); (3, 1); (3, 5); (1, 5)] <> 0 /\ CenterPolygon (0, 0) [(1, 1); (3, 1); (3, 5); (1, 5)] = [(-1, -2); (1, -2); (1, 2); (-1, 2)] /\
  TriangleArea (0, 0) (4, 0) (0, 3) = 6 /\ TriangleArea (0, 0) (0, 3) (4, 0) = -6 /\ ParametricPoint [0; 0; 0] [2; 4; 6] (1 / 2) = [1; 2; 3].
Proof.
  split; [unfold PolygonArea, over_edges; cbn [last edges fst snd]; lra|]. split.
  - unfold CenterPolygon, PolygonCentroid, PolygonArea, over_edges. cbn [last edges fst snd map]. repeat (f_equal; try lra).
  - unfold TriangleArea, Cross, ParametricPoint. cbn [fst snd map combine]. repeat split; try lra. repeat (f_equal; try lra).
Qed.
