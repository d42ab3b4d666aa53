(* C95, C96, C97: triangles and polygons. *)
From Coq Require Import Reals List Arith Lia Lra Psatz Bool.
From Verif Require Import Matrix Collision SphereProps CircleProps LineProps RectProps.
Import ListNotations.
Local Open Scope R_scope.

(** The point is strictly inside the triangle: a mixture of its corners in which all three take part. *)
Definition inside3 (p a b c : point) : Prop :=
  exists u v w, 0 < u /\ 0 < v /\ 0 < w /\ u + v + w = 1 /\
    fst p = u * fst a + v * fst b + w * fst c /\ snd p = u * snd a + v * snd b + w * snd c.
(** Twice the signed area. *)
Definition area2 (a b c : point) : R := (fst b - fst a) * (snd c - snd a) - (fst c - fst a) * (snd b - snd a).
Definition seg (a b : point) : point -> Prop := on_segment (fst a) (snd a) (fst b) (snd b).
Definition on_border (p a b c : point) : Prop := seg a b p \/ seg b c p \/ seg c a p.

Lemma bary : forall p a b c, area2 p b c + area2 p c a + area2 p a b = area2 a b c.
Proof. intros [? ?] [? ?] [? ?] [? ?]. unfold area2. cbn [fst snd]. ring. Qed.
Lemma bary_y : forall p a b c,
  area2 p b c * (snd a - snd p) + area2 p c a * (snd b - snd p) + area2 p a b * (snd c - snd p) = 0.
Proof. intros [? ?] [? ?] [? ?] [? ?]. unfold area2. cbn [fst snd]. ring. Qed.
Lemma bary_x : forall p a b c,
  area2 p b c * (fst a - fst p) + area2 p c a * (fst b - fst p) + area2 p a b * (fst c - fst p) = 0.
Proof. intros [? ?] [? ?] [? ?] [? ?]. unfold area2. cbn [fst snd]. ring. Qed.

(** The weights are ratios of areas. *)
Lemma weights : forall p a b c u v w, u + v + w = 1 ->
  fst p = u * fst a + v * fst b + w * fst c -> snd p = u * snd a + v * snd b + w * snd c ->
  area2 p b c = u * area2 a b c /\ area2 p c a = v * area2 a b c /\ area2 p a b = w * area2 a b c.
Proof.
  intros [px py] [ax ay] [bx by'] [cx cy] u v w S X Y. unfold area2. cbn [fst snd] in *.
  replace u with (1 - v - w) in * by lra. rewrite X, Y. repeat split; ring.
Qed.

Lemma inside3_iff : forall p a b c, area2 a b c <> 0 ->
  (inside3 p a b c <-> 0 < area2 p b c * area2 a b c /\ 0 < area2 p c a * area2 a b c /\ 0 < area2 p a b * area2 a b c).
Proof.
  intros p a b c N. assert (Q : 0 < area2 a b c * area2 a b c) by (apply Rsqr_pos_lt; exact N). split.
  - intros [u [v [w [U [V [W [S [X Y]]]]]]]]. destruct (weights p a b c u v w S X Y) as [E1 [E2 E3]]. rewrite E1, E2, E3.
    repeat split; rewrite Rmult_assoc; apply Rmult_lt_0_compat; assumption.
  - intros [A [B C]]. exists (area2 p b c / area2 a b c), (area2 p c a / area2 a b c), (area2 p a b / area2 a b c).
    assert (P : forall x, 0 < x * area2 a b c -> 0 < x / area2 a b c).
    { intros x L. replace (x / area2 a b c) with ((x * area2 a b c) / (area2 a b c * area2 a b c)) by (field; exact N).
      apply Rdiv_lt_0_compat; assumption. }
    split; [auto|]. split; [auto|]. split; [auto|].
    pose proof (bary p a b c) as B0. pose proof (bary_x p a b c) as BX. pose proof (bary_y p a b c) as BY.
    split; [rewrite <- !Rdiv_plus_distr, B0; field; exact N|]. split; apply (Rmult_eq_reg_r (area2 a b c)); try exact N.
    + transitivity (area2 p b c * fst a + area2 p c a * fst b + area2 p a b * fst c); [rewrite <- B0; lra|field; exact N].
    + transitivity (area2 p b c * snd a + area2 p c a * snd b + area2 p a b * snd c); [rewrite <- B0; lra|field; exact N].
Qed.

Lemma seg_mix : forall a b p u v, 0 <= u -> 0 <= v -> u + v = 1 -> fst p = u * fst a + v * fst b -> snd p = u * snd a + v * snd b -> seg a b p.
Proof.
  intros a b [px py] u v U V S X Y. exists v. split; [lra|]. unfold line_at. cbn [fst snd] in *. replace u with (1 - v) in * by lra.
  f_equal; [rewrite X|rewrite Y]; ring.
Qed.

(** One weight zero and the others not of opposite signs: on an edge. *)
Lemma edge_point : forall p a b c, area2 a b c <> 0 -> area2 p b c = 0 ->
  0 <= area2 p c a * area2 a b c -> 0 <= area2 p a b * area2 a b c -> seg b c p.
Proof.
  intros p a b c N Z A B. assert (Q : 0 < area2 a b c * area2 a b c) by (apply Rsqr_pos_lt; exact N).
  assert (P : forall x, 0 <= x * area2 a b c -> 0 <= x / area2 a b c).
  { intros x L. replace (x / area2 a b c) with ((x * area2 a b c) * / (area2 a b c * area2 a b c)) by (field; exact N).
    apply Rmult_le_pos; [assumption|]. left. apply Rinv_0_lt_compat. assumption. }
  pose proof (bary p a b c) as B0. pose proof (bary_x p a b c) as BX. pose proof (bary_y p a b c) as BY. rewrite Z in *.
  apply (seg_mix b c p (area2 p c a / area2 a b c) (area2 p a b / area2 a b c)); auto.
  - rewrite <- Rdiv_plus_distr. replace (area2 p c a + area2 p a b) with (area2 a b c) by lra. field. exact N.
  - apply (Rmult_eq_reg_r (area2 a b c)); try exact N.
    transitivity (area2 p c a * fst b + area2 p a b * fst c); [rewrite <- B0; lra|field; exact N].
  - apply (Rmult_eq_reg_r (area2 a b c)); try exact N.
    transitivity (area2 p c a * snd b + area2 p a b * snd c); [rewrite <- B0; lra|field; exact N].
Qed.

(* ------------------------------------------------------------------ TriangleContainsPoint *)

Theorem C95_TriangleContainsPoint : forall a b c x y,
  (area2 a b c <> 0 -> (TriangleContainsPoint a b c x y = true <-> inside3 (x, y) a b c)) /\
  (area2 a b c = 0 -> TriangleContainsPoint a b c x y = false).
Proof.
  intros [ax ay] [bx by'] [cx cy] x y. unfold TriangleContainsPoint, quotient. cbn [fst snd].
  set (k := ((cx - ax) * (cx - ax) + (cy - ay) * (cy - ay)) * ((bx - ax) * (bx - ax) + (by' - ay) * (by' - ay)) -
            ((cx - ax) * (bx - ax) + (cy - ay) * (by' - ay)) * ((cx - ax) * (bx - ax) + (cy - ay) * (by' - ay))).
  assert (K : k = area2 (ax, ay) (bx, by') (cx, cy) * area2 (ax, ay) (bx, by') (cx, cy)) by (unfold k, area2; cbn [fst snd]; ring).
  split.
  - intros N. destruct (Req_EM_T k 0) as [Z|Z]; [exfalso; rewrite K in Z; apply Rmult_integral in Z; tauto|].
    rewrite inside3_iff by exact N. rewrite !andb_true_iff, !rlt_true.
    set (D := area2 (ax, ay) (bx, by') (cx, cy)) in *.
    set (s1 := area2 (x, y) (bx, by') (cx, cy)). set (s2 := area2 (x, y) (cx, cy) (ax, ay)). set (s3 := area2 (x, y) (ax, ay) (bx, by')).
    assert (B0 : s1 + s2 + s3 = D) by (apply bary).
    match goal with |- (0 < ?u /\ 0 < ?v) /\ _ < 1 <-> _ => assert (U : u = s3 * D / k); [|assert (V : v = s2 * D / k); [|rewrite U, V]] end.
    { apply (Rmult_eq_reg_r k); [|exact Z]. rewrite Rmult_assoc. replace (1 / k * k) with 1 by (field; exact Z).
      replace (s3 * D / k * k) with (s3 * D) by (field; exact Z). unfold s3, D, area2. cbn [fst snd]. ring. }
    { apply (Rmult_eq_reg_r k); [|exact Z]. rewrite Rmult_assoc. replace (1 / k * k) with 1 by (field; exact Z).
      replace (s2 * D / k * k) with (s2 * D) by (field; exact Z). unfold s2, D, area2. cbn [fst snd]. ring. }
    assert (KP : 0 < k) by (rewrite K; apply Rsqr_pos_lt; exact N).
    assert (P : forall a b, a / k < b <-> a < b * k).
    { intros a b. split; intros L.
      - apply (Rmult_lt_compat_r k) in L; [|exact KP]. replace (a / k * k) with a in L by (field; exact Z). exact L.
      - apply (Rmult_lt_reg_r k); [exact KP|]. replace (a / k * k) with a by (field; exact Z). exact L. }
    assert (P' : forall a, 0 < a / k <-> 0 < a).
    { intros a. split; intros L.
      - apply (Rmult_lt_compat_r k) in L; [|exact KP]. replace (a / k * k) with a in L by (field; exact Z). lra.
      - apply Rdiv_lt_0_compat; assumption. }
    rewrite !P'. rewrite <- Rdiv_plus_distr, P. rewrite Rmult_1_l, K.
    replace (s1 * D) with (D * D - (s3 * D + s2 * D)) by (rewrite <- B0 at 1; ring). split; intros; lra.
  - intros Z. destruct (Req_EM_T k 0) as [E|E]; [reflexivity|]. exfalso. apply E. rewrite K, Z. ring.
Qed.
Print Assumptions C95_TriangleContainsPoint.

Example C95_Triangle_example : TriangleContainsPoint (0, 0) (4, 0) (0, 4) 1 1 = true.
Proof.
  apply C95_TriangleContainsPoint; [unfold area2; cbn [fst snd]; lra|]. exists (/2), (/4), (/4). cbn [fst snd]. lra.
Qed.

(* ------------------------------------------------------------------ sums over the edges *)

(** The edges of an open chain of points. *)
Fixpoint pathb (g : point -> point -> bool) (l : list point) : bool :=
  match l with a :: ((b :: _) as r) => xorb (g b a) (pathb g r) | _ => false end.
Fixpoint pathr (g : point -> point -> R) (l : list point) : R :=
  match l with a :: ((b :: _) as r) => g b a + pathr g r | _ => 0 end.

Lemma edges_b : forall g l acc prev, edges (fun c i j => if g i j : bool then negb c else c) acc prev l = xorb acc (pathb g (prev :: l)).
Proof.
  induction l as [|v l IH]; intros acc prev; cbn [edges].
  - cbn. destruct acc; reflexivity.
  - rewrite IH. change (pathb g (prev :: v :: l)) with (xorb (g v prev) (pathb g (v :: l))).
    destruct (g v prev), acc, (pathb g (v :: l)); reflexivity.
Qed.
Lemma edges_r : forall g l acc prev, edges (fun c i j => c + g i j) acc prev l = acc + pathr g (prev :: l).
Proof.
  induction l as [|v l IH]; intros acc prev; cbn [edges].
  - cbn. ring.
  - rewrite IH. change (pathr g (prev :: v :: l)) with (g v prev + pathr g (v :: l)). ring.
Qed.

Lemma pathb_snoc : forall g l a b, pathb g (l ++ [a; b]) = xorb (pathb g (l ++ [a])) (g b a).
Proof.
  induction l as [|x l IH]; intros a b.
  - cbn. destruct (g b a); reflexivity.
  - destruct l as [|y l].
    + cbn. destruct (g b a), (g a x); reflexivity.
    + change (xorb (g y x) (pathb g ((y :: l) ++ [a; b])) = xorb (xorb (g y x) (pathb g ((y :: l) ++ [a]))) (g b a)).
      rewrite IH, xorb_assoc. reflexivity.
Qed.
Lemma pathr_snoc : forall g l a b, pathr g (l ++ [a; b]) = pathr g (l ++ [a]) + g b a.
Proof.
  induction l as [|x l IH]; intros a b.
  - cbn. ring.
  - destruct l as [|y l].
    + cbn. ring.
    + change (g y x + pathr g ((y :: l) ++ [a; b]) = g y x + pathr g ((y :: l) ++ [a]) + g b a).
      rewrite IH. ring.
Qed.

Lemma last_snoc : forall (l : list point) a d, last (l ++ [a]) d = a.
Proof. induction l as [|x l IH]; intros; [reflexivity|]. cbn. destruct (l ++ [a]) eqn:E; [destruct l; discriminate|]. rewrite <- E. apply IH. Qed.
Lemma last_cons : forall (l : list point) a d, last (a :: l) d = last l a.
Proof. induction l as [|x l IH]; intros; [reflexivity|]. change (last (a :: x :: l) d) with (last (x :: l) d). rewrite !IH. reflexivity. Qed.

(** The closed polygon. *)
Definition cycleb g (l : list point) : bool := match l with [] => false | v :: r => pathb g (l ++ [v]) end.
Definition cycler g (l : list point) : R := match l with [] => 0 | v :: r => pathr g (l ++ [v]) end.

Lemma over_b : forall g l, over_edges (fun c i j => if g i j : bool then negb c else c) false l = cycleb g l.
Proof.
  intros g [|v r]; unfold over_edges; [reflexivity|]. rewrite edges_b. unfold cycleb.
  change (pathb g (last (v :: r) (0, 0) :: v :: r)) with (xorb (g v (last (v :: r) (0, 0))) (pathb g (v :: r))).
  destruct (exists_last (l := v :: r) ltac:(discriminate)) as [q [z E]]. rewrite E, last_snoc.
  rewrite <- app_assoc. cbn [app]. rewrite pathb_snoc. rewrite xorb_false_l, xorb_comm. reflexivity.
Qed.
Lemma over_r : forall g l, over_edges (fun c i j => c + g i j) 0 l = cycler g l.
Proof.
  intros g [|v r]; unfold over_edges; [reflexivity|]. rewrite edges_r. unfold cycler.
  change (pathr g (last (v :: r) (0, 0) :: v :: r)) with (g v (last (v :: r) (0, 0)) + pathr g (v :: r)).
  destruct (exists_last (l := v :: r) ltac:(discriminate)) as [q [z E]]. rewrite E, last_snoc.
  rewrite <- app_assoc. cbn [app]. rewrite pathr_snoc. ring.
Qed.

Lemma pathb_app : forall g l a r, pathb g (l ++ a :: r) = xorb (pathb g (l ++ [a])) (pathb g (a :: r)).
Proof.
  intros g l a r. revert l a. induction r as [|b r IH]; intros l a.
  - cbn. rewrite xorb_false_r. reflexivity.
  - replace (l ++ a :: b :: r) with ((l ++ [a]) ++ b :: r) by (rewrite <- app_assoc; reflexivity). rewrite IH, <- app_assoc. cbn [app].
    rewrite pathb_snoc. change (pathb g (a :: b :: r)) with (xorb (g b a) (pathb g (b :: r))). rewrite xorb_assoc. reflexivity.
Qed.
Lemma pathr_app : forall g l a r, pathr g (l ++ a :: r) = pathr g (l ++ [a]) + pathr g (a :: r).
Proof.
  intros g l a r. revert l a. induction r as [|b r IH]; intros l a.
  - cbn. ring.
  - replace (l ++ a :: b :: r) with ((l ++ [a]) ++ b :: r) by (rewrite <- app_assoc; reflexivity). rewrite IH, <- app_assoc. cbn [app].
    rewrite pathr_snoc. change (pathr g (a :: b :: r)) with (g b a + pathr g (b :: r)). ring.
Qed.

Lemma cycleb_rot : forall g v l, cycleb g (l ++ [v]) = cycleb g (v :: l).
Proof.
  intros g v [|a l]; [reflexivity|]. unfold cycleb. cbn [app].
  replace (a :: (l ++ [v]) ++ [a]) with ((a :: l) ++ [v; a]) by (cbn [app]; rewrite <- app_assoc; reflexivity).
  rewrite pathb_snoc. cbn [app]. change (pathb g (v :: a :: l ++ [v])) with (xorb (g a v) (pathb g (a :: l ++ [v]))).
  apply xorb_comm.
Qed.
Lemma cycler_rot : forall g v l, cycler g (l ++ [v]) = cycler g (v :: l).
Proof.
  intros g v [|a l]; [reflexivity|]. unfold cycler. cbn [app].
  replace (a :: (l ++ [v]) ++ [a]) with ((a :: l) ++ [v; a]) by (cbn [app]; rewrite <- app_assoc; reflexivity).
  rewrite pathr_snoc. cbn [app]. change (pathr g (v :: a :: l ++ [v])) with (g a v + pathr g (a :: l ++ [v])). ring.
Qed.

Lemma pathb_rev : forall g, (forall i j, g i j = g j i) -> forall l, pathb g (rev l) = pathb g l.
Proof.
  intros g S. induction l as [|a l IH]; [reflexivity|]. cbn [rev]. destruct l as [|b l]; [reflexivity|].
  cbn [rev]. rewrite <- app_assoc. cbn [app]. rewrite pathb_snoc. change (rev l ++ [b]) with (rev (b :: l)). rewrite IH, S, xorb_comm. reflexivity.
Qed.
Lemma pathr_rev : forall g, (forall i j, g i j = - g j i) -> forall l, pathr g (rev l) = - pathr g l.
Proof.
  intros g S. induction l as [|a l IH]; [cbn; ring|]. cbn [rev]. destruct l as [|b l]; [cbn; ring|].
  cbn [rev]. rewrite <- app_assoc. cbn [app]. rewrite pathr_snoc. change (rev l ++ [b]) with (rev (b :: l)). rewrite IH, S.
  change (pathr g (a :: b :: l)) with (g b a + pathr g (b :: l)). ring.
Qed.
Lemma cycleb_rev : forall g, (forall i j, g i j = g j i) -> forall l, cycleb g (rev l) = cycleb g l.
Proof.
  intros g S [|a l]; [reflexivity|]. cbn [rev]. rewrite cycleb_rot. unfold cycleb.
  replace ((a :: rev l) ++ [a]) with (rev ((a :: l) ++ [a])) by (rewrite rev_app_distr; reflexivity).
  apply pathb_rev. exact S.
Qed.
Lemma cycler_rev : forall g, (forall i j, g i j = - g j i) -> forall l, cycler g (rev l) = - cycler g l.
Proof.
  intros g S [|a l]; [cbn; ring|]. cbn [rev]. rewrite cycler_rot. unfold cycler.
  replace ((a :: rev l) ++ [a]) with (rev ((a :: l) ++ [a])) by (rewrite rev_app_distr; reflexivity).
  apply pathr_rev. exact S.
Qed.

(** Cutting along the line from [a] to [b]. *)
Lemma cycleb_cut : forall g, (forall i j, g i j = g j i) -> forall a l1 b l2,
  cycleb g (a :: l1 ++ b :: l2) = xorb (cycleb g (a :: l1 ++ [b])) (cycleb g (b :: l2 ++ [a])).
Proof.
  intros g S a l1 b l2. unfold cycleb. cbn [app]. rewrite <- !app_assoc. cbn [app].
  change (a :: l1 ++ b :: l2 ++ [a]) with ((a :: l1) ++ b :: l2 ++ [a]). rewrite pathb_app.
  change (a :: l1 ++ [b; a]) with ((a :: l1) ++ [b; a]). rewrite pathb_snoc.
  change (b :: l2 ++ [a; b]) with ((b :: l2) ++ [a; b]). rewrite pathb_snoc. rewrite (S b a).
  cbn [app]. destruct (g a b), (pathb g (a :: l1 ++ [b])), (pathb g (b :: l2 ++ [a])); reflexivity.
Qed.
Lemma cycler_cut : forall g, (forall i j, g i j = - g j i) -> forall a l1 b l2,
  cycler g (a :: l1 ++ b :: l2) = cycler g (a :: l1 ++ [b]) + cycler g (b :: l2 ++ [a]).
Proof.
  intros g S a l1 b l2. unfold cycler. cbn [app]. rewrite <- !app_assoc. cbn [app].
  change (a :: l1 ++ b :: l2 ++ [a]) with ((a :: l1) ++ b :: l2 ++ [a]). rewrite pathr_app.
  change (a :: l1 ++ [b; a]) with ((a :: l1) ++ [b; a]). rewrite pathr_snoc.
  change (b :: l2 ++ [a; b]) with ((b :: l2) ++ [a; b]). rewrite pathr_snoc. rewrite (S b a).
  cbn [app]. ring.
Qed.

(** The triangles between the first vertex and each edge. *)
Fixpoint fan (o : point) (l : list point) : list (point * point * point) :=
  match l with a :: ((b :: _) as r) => (o, a, b) :: fan o r | _ => [] end.

Lemma fan_b : forall g, (forall i j, g i j = g j i) -> (forall i, g i i = false) -> forall o l,
  cycleb g (o :: l) = fold_right xorb false (map (fun '(a, b, c) => cycleb g [a; b; c]) (fan o l)).
Proof.
  intros g S Z o l. induction l as [|a l IH]; [cbn; rewrite Z; reflexivity|].
  destruct l as [|b l].
  - cbn. rewrite (S a o). destruct (g o a); reflexivity.
  - change (fan o (a :: b :: l)) with ((o, a, b) :: fan o (b :: l)). cbn [map fold_right]. rewrite <- IH. change (o :: a :: b :: l) with (o :: [a] ++ b :: l).
    rewrite (cycleb_cut g S). cbn [app]. f_equal.
    change (b :: l ++ [o]) with ((b :: l) ++ [o]). apply cycleb_rot.
Qed.
Lemma fan_r : forall g, (forall i j, g i j = - g j i) -> forall o l,
  cycler g (o :: l) = fold_right Rplus 0 (map (fun '(a, b, c) => cycler g [a; b; c]) (fan o l)).
Proof.
  intros g S o l. assert (Z : forall i, g i i = 0) by (intros i; pose proof (S i i); lra).
  induction l as [|a l IH]; [cbn; rewrite Z; ring|].
  destruct l as [|b l].
  - cbn. rewrite (S a o). ring.
  - change (fan o (a :: b :: l)) with ((o, a, b) :: fan o (b :: l)). cbn [map fold_right]. rewrite <- IH. change (o :: a :: b :: l) with (o :: [a] ++ b :: l).
    rewrite (cycler_cut g S). cbn [app]. f_equal.
    change (b :: l ++ [o]) with ((b :: l) ++ [o]). apply cycler_rot.
Qed.

(* ------------------------------------------------------------------ PolygonContainsPoint *)

Lemma crosses_char : forall p i j,
  crosses p i j = true <->
  (snd i <= snd p < snd j /\ 0 < area2 p i j) \/ (snd j <= snd p < snd i /\ 0 < area2 p j i).
Proof.
  intros p i j. unfold crosses. rewrite andb_true_iff, rlt_true.
  assert (A : xorb (rlt (snd p) (snd i)) (rlt (snd p) (snd j)) = true <-> (snd i <= snd p < snd j \/ snd j <= snd p < snd i)).
  { destruct (rlt (snd p) (snd i)) eqn:E1, (rlt (snd p) (snd j)) eqn:E2; cbn;
      [apply rlt_true in E1, E2|apply rlt_true in E1; apply rlt_false in E2|apply rlt_false in E1; apply rlt_true in E2|apply rlt_false in E1, E2];
      split; intros; try discriminate; try reflexivity; lra. }
  rewrite A. clear A. set (q := (fst j - fst i) * (snd p - snd i) / (snd j - snd i) + fst i).
  assert (E : snd j <> snd i -> (q - fst p) * (snd j - snd i) = area2 p i j) by (intros; unfold q, area2; field; lra).
  assert (F : area2 p j i = - area2 p i j) by (unfold area2; ring). rewrite F. clear F.
  clearbody q. split.
  - intros [[O|O] L]; [left|right]; (split; [exact O|]); rewrite <- E by lra; nra.
  - intros [[O L]|[O L]]; (split; [tauto|]); rewrite <- E in L by lra; nra.
Qed.
Lemma crosses_sym : forall p i j, crosses p i j = crosses p j i.
Proof. intros p i j. apply eq_true_iff_eq. rewrite !crosses_char. tauto. Qed.
Lemma crosses_refl : forall p i, crosses p i i = false.
Proof. intros p i. apply not_true_iff_false. rewrite crosses_char. lra. Qed.

Lemma crosses_same : forall p i j, (snd p < snd i <-> snd p < snd j) -> crosses p i j = false.
Proof. intros p i j E. apply not_true_iff_false. rewrite crosses_char. lra. Qed.
Lemma crosses_up : forall p i j, snd i <= snd p < snd j -> crosses p i j = rlt 0 (area2 p i j).
Proof. intros p i j O. apply eq_true_iff_eq. rewrite crosses_char, rlt_true. split; intros; lra. Qed.
Lemma crosses_down : forall p i j, snd j <= snd p < snd i -> crosses p i j = rlt 0 (area2 p j i).
Proof. intros p i j O. apply eq_true_iff_eq. rewrite crosses_char, rlt_true. split; intros; lra. Qed.

Lemma border_perm : forall p a b c, on_border p a b c -> on_border p b c a.
Proof. intros p a b c [H|[H|H]]; unfold on_border; tauto. Qed.
Lemma inside3_perm : forall p a b c, inside3 p a b c -> inside3 p b c a.
Proof. intros p a b c [u [v [w [U [V [W [S [X Y]]]]]]]]. exists v, w, u. repeat split; lra. Qed.

Lemma flat : forall p a b c, area2 a b c = 0 -> inside3 p a b c -> on_border p a b c.
Proof.
  intros [px py] [ax ay] [bx by'] [cx cy] Z [u [v [w [U [V [W [S [X Y]]]]]]]]. unfold area2 in Z. cbn [fst snd] in *.
  destruct (Req_dec ((bx - ax) * (bx - ax) + (by' - ay) * (by' - ay)) 0) as [E|E].
  - (* a = b *)
    assert (bx = ax /\ by' = ay) as [-> ->].
    { pose proof (Rle_0_sqr (bx - ax)) as P. pose proof (Rle_0_sqr (by' - ay)) as Q. unfold Rsqr in *.
      assert (E1 : (bx - ax) * (bx - ax) = 0) by lra. assert (E2 : (by' - ay) * (by' - ay) = 0) by lra.
      apply Rmult_integral in E1, E2. lra. }
    right. left. apply (seg_mix _ _ _ (u + v) w); cbn [fst snd]; lra.
  - set (k := (bx - ax) * (bx - ax) + (by' - ay) * (by' - ay)) in *.
    set (la := ((cx - ax) * (bx - ax) + (cy - ay) * (by' - ay)) / k).
    assert (CX : cx = ax + la * (bx - ax)).
    { apply (Rmult_eq_reg_r k); [|exact E]. unfold la. transitivity (ax * k + ((cx - ax) * (bx - ax) + (cy - ay) * (by' - ay)) * (bx - ax)); [|field; exact E].
      assert (Q : (cy - ay) * (bx - ax) = (cx - ax) * (by' - ay)) by lra.
      replace (((cx - ax) * (bx - ax) + (cy - ay) * (by' - ay)) * (bx - ax)) with ((cx - ax) * (bx - ax) * (bx - ax) + ((cy - ay) * (bx - ax)) * (by' - ay)) by ring.
      rewrite Q. unfold k. ring. }
    assert (CY : cy = ay + la * (by' - ay)).
    { apply (Rmult_eq_reg_r k); [|exact E]. unfold la. transitivity (ay * k + ((cx - ax) * (bx - ax) + (cy - ay) * (by' - ay)) * (by' - ay)); [|field; exact E].
      assert (Q : (cx - ax) * (by' - ay) = (cy - ay) * (bx - ax)) by lra.
      replace (((cx - ax) * (bx - ax) + (cy - ay) * (by' - ay)) * (by' - ay)) with ((cx - ax) * (by' - ay) * (bx - ax) + (cy - ay) * (by' - ay) * (by' - ay)) by ring.
      rewrite Q. unfold k. ring. }
    clearbody la. set (mu := v + w * la).
    assert (PX : px = ax + mu * (bx - ax)) by (rewrite X, CX; replace u with (1 - v - w) by lra; unfold mu; ring).
    assert (PY : py = ay + mu * (by' - ay)) by (rewrite Y, CY; replace u with (1 - v - w) by lra; unfold mu; ring).
    assert (M1 : mu < 0 -> la <= mu) by (unfold mu; intros; nra).
    assert (M2 : 1 < mu -> mu <= la) by (unfold mu; intros; nra).
    clearbody mu.
    assert (AC : la <> 0 -> 0 <= mu / la <= 1 -> seg (cx, cy) (ax, ay) (px, py)).
    { intros N I. apply (seg_mix _ _ _ (mu / la) (1 - mu / la)); cbn [fst snd]; try lra; [rewrite PX, CX|rewrite PY, CY]; field; exact N. }
    destruct (Rlt_dec mu 0) as [L|L].
    + right. right. specialize (M1 L). apply AC; [lra|]. split; apply (Rmult_le_reg_r (- la)); try lra;
        replace (mu / la * - la) with (- mu) by (field; lra); lra.
    + destruct (Rlt_dec 1 mu) as [L'|L'].
      * right. right. specialize (M2 L'). apply AC; [lra|]. split; apply (Rmult_le_reg_r la); try lra;
          replace (mu / la * la) with mu by (field; lra); lra.
      * left. apply (seg_mix _ _ _ (1 - mu) mu); cbn [fst snd]; lra.
Qed.

Lemma pp : forall x y, 0 <= x -> 0 <= y -> 0 <= x * y.
Proof. intros. apply Rmult_le_pos; assumption. Qed.
Lemma nn : forall x y, x <= 0 -> y <= 0 -> 0 <= x * y.
Proof. intros. replace (x * y) with (- x * - y) by ring. apply Rmult_le_pos; lra. Qed.
Lemma nn' : forall x y, x < 0 -> y < 0 -> 0 < x * y.
Proof. intros. replace (x * y) with (- x * - y) by ring. apply Rmult_lt_0_compat; lra. Qed.
Lemma pn : forall x y, 0 <= x -> y <= 0 -> x * y <= 0.
Proof. intros x y P Q. pose proof (Rmult_le_pos x (- y) P ltac:(lra)). lra. Qed.
Lemma pn' : forall x y, 0 < x -> y < 0 -> x * y < 0.
Proof. intros x y P Q. pose proof (Rmult_lt_0_compat x (- y) P ltac:(lra)). lra. Qed.
Lemma pos_of : forall x y, 0 < x * y -> 0 < y -> 0 < x.
Proof. intros x y P Q. apply Rnot_le_lt. intros L. pose proof (pn y x ltac:(lra) L). lra. Qed.
Lemma neg_of : forall x y, 0 < x * y -> y <= 0 -> x < 0.
Proof. intros x y P Q. apply Rnot_le_lt. intros L. pose proof (pn x y L Q). lra. Qed.

Ltac signs := repeat match goal with
  | |- context [rlt 0 ?x] => let E := fresh "E" in destruct (rlt 0 x) eqn:E; [apply rlt_true in E|apply rlt_false in E]
  end; cbn [xorb].

(** The corner [c] alone above, or alone below. *)
Lemma odd_corner : forall p a b c,
  (snd a <= snd p /\ snd b <= snd p /\ snd p < snd c) \/ (snd p < snd a /\ snd p < snd b /\ snd c <= snd p) ->
  ~ on_border p a b c ->
  (cycleb (crosses p) [a; b; c] = true <-> inside3 p a b c).
Proof.
  intros p a b c O NB.
  pose proof (bary p a b c) as B0. pose proof (bary_y p a b c) as BY.
  destruct (Req_dec (area2 a b c) 0) as [Z|N].
  - (* flat *)
    split; [|intros I; exfalso; apply NB; apply flat; assumption].
    cbn [cycleb app pathb]. rewrite xorb_false_r. rewrite (crosses_same p b a) by lra. rewrite xorb_false_l.
    set (s1 := area2 p b c) in *. set (s2 := area2 p c a) in *. set (s3 := area2 p a b) in *. rewrite Z in B0.
    replace s3 with (- s1 - s2) in BY by lra.
    assert (R : s1 * (snd a - snd c) + s2 * (snd b - snd c) = 0) by lra.
    assert (F1 : area2 p c b = - s1) by (unfold s1, area2; ring). assert (F2 : area2 p a c = - s2) by (unfold s2, area2; ring).
    intros X. exfalso. revert X. destruct O as [O|O].
    + rewrite (crosses_down p c b) by lra. rewrite (crosses_up p a c) by lra. fold s1. rewrite F2. signs; try discriminate; intros _; nra.
    + rewrite (crosses_up p c b) by lra. rewrite (crosses_down p a c) by lra. rewrite F1. fold s2. signs; try discriminate; intros _; nra.
  - rewrite inside3_iff by exact N. cbn [cycleb app pathb]. rewrite xorb_false_r. rewrite (crosses_same p b a) by lra. rewrite xorb_false_l.
    assert (NB1 : ~ (area2 p b c = 0 /\ 0 <= area2 p c a * area2 a b c /\ 0 <= area2 p a b * area2 a b c)).
    { intros [Z [Q1 Q2]]. apply NB. right. left. apply (edge_point p a b c); assumption. }
    assert (CY : area2 b c a = area2 a b c /\ area2 c a b = area2 a b c) by (unfold area2; split; ring). destruct CY as [CY1 CY2].
    assert (NB2 : ~ (area2 p c a = 0 /\ 0 <= area2 p b c * area2 a b c /\ 0 <= area2 p a b * area2 a b c)).
    { intros [Z [Q1 Q2]]. apply NB. right. right. apply (edge_point p b c a); rewrite ?CY1; assumption. }
    assert (NB3 : ~ (area2 p a b = 0 /\ 0 <= area2 p b c * area2 a b c /\ 0 <= area2 p c a * area2 a b c)).
    { intros [Z [Q1 Q2]]. apply NB. left. apply (edge_point p c a b); rewrite ?CY2; assumption. }
    assert (F1 : area2 p c b = - area2 p b c) by (unfold area2; ring). assert (F2 : area2 p a c = - area2 p c a) by (unfold area2; ring).
    set (s1 := area2 p b c) in *. set (s2 := area2 p c a) in *. set (s3 := area2 p a b) in *. set (D := area2 a b c) in *.
    assert (U : xorb (rlt 0 (- s1)) (rlt 0 s2) = true <-> (0 < s1 /\ 0 < s2) \/ (s1 < 0 /\ s2 <= 0) \/ (s1 = 0 /\ 0 < s2)).
    { signs; split; intros; try discriminate; try reflexivity; lra. }
    assert (U' : (xorb (rlt 0 s1) (rlt 0 (- s2)) = true <-> (0 < s1 /\ 0 <= s2) \/ (s1 <= 0 /\ s2 < 0))).
    { signs; split; intros; try discriminate; try reflexivity; lra. }
    (* the height of p determines the sign of the third weight *)
    assert (ZERO : s1 = 0 -> s2 = 0 -> False).
    { intros Z1 Z2. assert (D = s3) by lra. apply NB1. split; [exact Z1|]. rewrite Z2. split; [lra|]. replace D with s3. apply Rle_0_sqr. }
    assert (HT : s1 * (snd a - snd p) + s2 * (snd b - snd p) = s3 * (snd p - snd c)) by lra.
    assert (POS : 0 <= s1 -> 0 <= s2 -> 0 <= s3).
    { intros P Q. apply Rnot_lt_le. intros L. destruct O as [O|O].
      - pose proof (pn s1 (snd a - snd p) P ltac:(lra)). pose proof (pn s2 (snd b - snd p) Q ltac:(lra)).
        pose proof (nn' s3 (snd p - snd c) L ltac:(lra)). lra.
      - pose proof (pp s1 (snd a - snd p) P ltac:(lra)) as K1. pose proof (pp s2 (snd b - snd p) Q ltac:(lra)) as K2.
        pose proof (pn (snd p - snd c) s3 ltac:(lra) ltac:(lra)) as K3.
        assert (E1 : s1 * (snd a - snd p) = 0) by lra. assert (E2 : s2 * (snd b - snd p) = 0) by lra.
        apply Rmult_integral in E1, E2. apply ZERO; lra. }
    assert (NEG : s1 <= 0 -> s2 <= 0 -> s3 <= 0).
    { intros P Q. apply Rnot_lt_le. intros L. destruct O as [O|O].
      - pose proof (nn s1 (snd a - snd p) P ltac:(lra)). pose proof (nn s2 (snd b - snd p) Q ltac:(lra)).
        pose proof (pn' s3 (snd p - snd c) L ltac:(lra)). lra.
      - pose proof (pn (snd a - snd p) s1 ltac:(lra) P) as K1. pose proof (pn (snd b - snd p) s2 ltac:(lra) Q) as K2.
        pose proof (pp (snd p - snd c) s3 ltac:(lra) ltac:(lra)) as K3.
        assert (E1 : s1 * (snd a - snd p) = 0) by lra. assert (E2 : s2 * (snd b - snd p) = 0) by lra.
        apply Rmult_integral in E1, E2. apply ZERO; lra. }
    assert (MAIN : (0 <= s1 /\ 0 <= s2 /\ (0 < s1 \/ 0 < s2)) \/ (s1 <= 0 /\ s2 <= 0 /\ (s1 < 0 \/ s2 < 0)) <-> 0 < s1 * D /\ 0 < s2 * D /\ 0 < s3 * D).
    { split.
      - intros [[P [Q R]]|[P [Q R]]].
        + specialize (POS P Q). assert (DP : 0 <= D) by lra.
          pose proof (pp s1 D P DP). pose proof (pp s2 D Q DP). pose proof (pp s3 D POS DP).
          assert (0 < s1) by (apply Rnot_le_lt; intros L; apply NB1; split; [lra|auto]).
          assert (0 < s2) by (apply Rnot_le_lt; intros L; apply NB2; split; [lra|auto]).
          assert (0 < s3) by (apply Rnot_le_lt; intros L; apply NB3; split; [lra|auto]).
          repeat split; apply Rmult_lt_0_compat; lra.
        + specialize (NEG P Q). assert (DP : D <= 0) by lra.
          pose proof (nn s1 D P DP). pose proof (nn s2 D Q DP). pose proof (nn s3 D NEG DP).
          assert (s1 < 0) by (apply Rnot_le_lt; intros L; apply NB1; split; [lra|auto]).
          assert (s2 < 0) by (apply Rnot_le_lt; intros L; apply NB2; split; [lra|auto]).
          assert (s3 < 0) by (apply Rnot_le_lt; intros L; apply NB3; split; [lra|auto]).
          repeat split; apply nn'; lra.
      - intros [P [Q R]]. destruct (Rlt_dec 0 D) as [L|L].
        + left. pose proof (pos_of _ _ P L). pose proof (pos_of _ _ Q L). lra.
        + right. pose proof (neg_of _ _ P ltac:(lra)). pose proof (neg_of _ _ Q ltac:(lra)). lra. }
    rewrite <- MAIN. destruct O as [O|O].
    + rewrite (crosses_down p c b) by lra. rewrite (crosses_up p a c) by lra. fold s1. rewrite F2. rewrite U'.
      split; [intros; lra|]. intros [[P [Q R]]|[P [Q R]]].
      * destruct (Rle_lt_or_eq_dec 0 s1 P) as [L|L]; [lra|].
        exfalso. apply NB1. assert (0 <= s3) by auto. split; [lra|]. split; apply pp; lra.
      * destruct (Rle_lt_or_eq_dec s2 0 Q) as [L|L]; [lra|]. exfalso. apply NB2. assert (s3 <= 0) by auto. split; [lra|].
        split; apply nn; lra.
    + rewrite (crosses_up p c b) by lra. rewrite (crosses_down p a c) by lra. rewrite F1. fold s2. rewrite U.
      split; [intros; lra|]. intros [[P [Q R]]|[P [Q R]]].
      * destruct (Rle_lt_or_eq_dec 0 s2 Q) as [L|L]; [destruct (Rle_lt_or_eq_dec 0 s1 P); lra|].
        exfalso. apply NB2. assert (0 <= s3) by auto. split; [lra|]. split; apply pp; lra.
      * destruct (Rle_lt_or_eq_dec s1 0 P) as [L|L]; [lra|]. exfalso. apply NB1. assert (s3 <= 0) by auto. split; [lra|].
        split; apply nn; lra.
Qed.

(** A triangle: the points strictly inside are contained, those strictly outside are not. *)
Lemma triangle_ok : forall p a b c, ~ on_border p a b c -> (PolygonContainsPoint p [a; b; c] = true <-> inside3 p a b c).
Proof.
  intros p a b c NB. unfold PolygonContainsPoint. rewrite over_b.
  assert (ROT : forall x y z, cycleb (crosses p) [x; y; z] = cycleb (crosses p) [y; z; x]).
  { intros x y z. symmetry. apply (cycleb_rot (crosses p) x [y; z]). }
  assert (T1 : forall x y z, ~ on_border p x y z -> (cycleb (crosses p) [y; z; x] = true <-> inside3 p y z x) ->
     (cycleb (crosses p) [x; y; z] = true <-> inside3 p x y z)).
  { intros x y z B E. rewrite ROT, E. split; intros I; [apply inside3_perm, inside3_perm; exact I|apply inside3_perm; exact I]. }
  assert (FLAT : (snd p < snd a <-> snd p < snd b) -> (snd p < snd b <-> snd p < snd c) ->
     (cycleb (crosses p) [a; b; c] = true <-> inside3 p a b c)).
  { intros E1 E2. cbn [cycleb app pathb]. rewrite (crosses_same p b a), (crosses_same p c b), (crosses_same p a c) by lra.
    split; [discriminate|]. intros I. exfalso. destruct (Req_dec (area2 a b c) 0) as [Z|N]; [apply NB; apply flat; assumption|].
    destruct I as [u [v [w [U [V [W [S [X Y]]]]]]]].
    assert (YY : u * (snd a - snd p) + v * (snd b - snd p) + w * (snd c - snd p) = 0).
    { replace (u * (snd a - snd p) + v * (snd b - snd p) + w * (snd c - snd p)) with (u * snd a + v * snd b + w * snd c - (u + v + w) * snd p) by ring.
      rewrite <- Y, S. ring. }
    destruct (Rlt_dec (snd p) (snd a)) as [L|L].
    - assert (snd p < snd b) by tauto. assert (snd p < snd c) by tauto.
      pose proof (Rmult_lt_0_compat u (snd a - snd p) U ltac:(lra)). pose proof (Rmult_lt_0_compat v (snd b - snd p) V ltac:(lra)).
      pose proof (Rmult_lt_0_compat w (snd c - snd p) W ltac:(lra)). lra.
    - assert (LB : snd b <= snd p) by lra. assert (LC : snd c <= snd p) by lra.
      assert (LA : snd a <= snd p) by lra.
      pose proof (pn u (snd a - snd p) ltac:(lra) ltac:(lra)). pose proof (pn v (snd b - snd p) ltac:(lra) ltac:(lra)).
      pose proof (pn w (snd c - snd p) ltac:(lra) ltac:(lra)).
      assert (KA : u * (snd a - snd p) = 0) by lra. assert (KB : v * (snd b - snd p) = 0) by lra.
      assert (KC : w * (snd c - snd p) = 0) by lra. apply Rmult_integral in KA, KB, KC.
      replace (snd p) with (snd a) in KB, KC by lra.
      assert (KB' : snd b = snd a) by lra. assert (KC' : snd c = snd a) by lra.
      apply N. unfold area2. rewrite KB', KC'. ring. }
  assert (B1 : ~ on_border p b c a) by (intros Q; apply NB, border_perm, border_perm; exact Q).
  assert (B2 : ~ on_border p c a b) by (intros Q; apply NB, border_perm; exact Q).
  destruct (Rlt_dec (snd p) (snd a)) as [LA|LA], (Rlt_dec (snd p) (snd b)) as [LB|LB], (Rlt_dec (snd p) (snd c)) as [LC|LC];
    try (apply FLAT; lra).
  - apply odd_corner; [right; lra|exact NB].
  - apply T1; [exact NB|]. apply T1; [exact B1|]. apply odd_corner; [right; lra|exact B2].
  - apply T1; [exact NB|]. apply odd_corner; [left; lra|exact B1].
  - apply T1; [exact NB|]. apply odd_corner; [right; lra|exact B1].
  - apply T1; [exact NB|]. apply T1; [exact B1|]. apply odd_corner; [left; lra|exact B2].
  - apply odd_corner; [left; lra|exact NB].
Qed.

(** An odd number of the elements have the property. *)
Fixpoint odd_many {A} (P : A -> Prop) (l : list A) : Prop :=
  match l with [] => False | x :: r => (P x /\ ~ odd_many P r) \/ (~ P x /\ odd_many P r) end.

Lemma PolygonContainsPoint_cycle : forall p l, PolygonContainsPoint p l = cycleb (crosses p) l.
Proof. intros. unfold PolygonContainsPoint. apply over_b. Qed.

Lemma odd_xor : forall A (f : A -> bool) (P : A -> Prop) l, (forall x, In x l -> (f x = true <-> P x)) ->
  (fold_right xorb false (map f l) = true <-> odd_many P l).
Proof.
  induction l as [|x l IH]; intros H; cbn [map fold_right odd_many].
  - split; [discriminate|intros []].
  - rewrite <- IH by (intros; apply H; right; assumption). specialize (H x (or_introl eq_refl)).
    destruct (f x), (fold_right xorb false (map f l)); cbn; split; intros; try discriminate; try reflexivity; intuition congruence.
Qed.

(** The polygon is cut into triangles from its first vertex, overlapping ones counted as often as they occur: a point
    on none of their borders is contained when it is in an odd number of them. *)
Theorem C95_PolygonContainsPoint : forall p o l,
  (forall a b c, In (a, b, c) (fan o l) -> ~ on_border p a b c) ->
  (PolygonContainsPoint p (o :: l) = true <-> odd_many (fun '(a, b, c) => inside3 p a b c) (fan o l)).
Proof.
  intros p o l H. rewrite PolygonContainsPoint_cycle, fan_b by (apply crosses_sym || apply crosses_refl).
  apply odd_xor. intros [[a b] c] I. rewrite <- PolygonContainsPoint_cycle. apply triangle_ok. apply H. exact I.
Qed.
Print Assumptions C95_PolygonContainsPoint.

(** Any points, on borders or not: where the list starts and which way round it goes do not matter, and a polygon cut
    along the line between two of its vertices has each of its points in exactly one of the two parts. *)
Theorem C95_cut : forall p,
  (forall v l, PolygonContainsPoint p (l ++ [v]) = PolygonContainsPoint p (v :: l)) /\
  (forall l, PolygonContainsPoint p (rev l) = PolygonContainsPoint p l) /\
  (forall a l1 b l2, PolygonContainsPoint p (a :: l1 ++ b :: l2) =
     xorb (PolygonContainsPoint p (a :: l1 ++ [b])) (PolygonContainsPoint p (b :: l2 ++ [a]))).
Proof.
  intros p. split; [|split].
  - intros v l. rewrite !PolygonContainsPoint_cycle. apply cycleb_rot.
  - intros l. rewrite !PolygonContainsPoint_cycle. apply cycleb_rev. apply crosses_sym.
  - intros a l1 b l2. rewrite !PolygonContainsPoint_cycle. apply cycleb_cut. apply crosses_sym.
Qed.
Print Assumptions C95_cut.

Lemma seg_rise : forall a b p, seg a b p -> exists t, 0 <= t <= 1 /\ fst p = fst a + t * (fst b - fst a) /\ snd p = snd a + t * (snd b - snd a).
Proof. intros a b p [t [T ->]]. exists t. cbn [fst snd line_at]. auto. Qed.

(** An L-shape and the notch in it. *)
Definition ell : list point := [(0, 0); (4, 0); (4, 1); (1, 1); (1, 4); (0, 4)].
Example C95_example : PolygonContainsPoint (3, / 2) ell = true /\ PolygonContainsPoint (2, 2) ell = false.
Proof.
  rewrite !PolygonContainsPoint_cycle. unfold ell, cycleb, crosses. cbn [app pathb fst snd].
  split; decided; reflexivity.
Qed.
Example C95_border_example : forall a b c, In (a, b, c) (fan (0, 0) (tl ell)) -> ~ on_border (3, / 2) a b c.
Proof.
  intros a b c I. cbn [fan tl ell In] in I.
  repeat match goal with H : _ \/ _ |- _ => destruct H as [H|H] end; try contradiction; injection I as <- <- <-;
  intros [B|[B|B]]; apply seg_rise in B; cbn [fst snd] in B; destruct B as [t [T [X Y]]]; lra.
Qed.

(* ------------------------------------------------------------------ area and centroid *)

Definition shoelace (i j : point) : R := fst j * snd i - fst i * snd j.
Lemma shoelace_anti : forall i j, shoelace i j = - shoelace j i.
Proof. intros. unfold shoelace. ring. Qed.
Lemma PolygonArea_cycle : forall l, PolygonArea l = cycler shoelace l / 2.
Proof. intros. unfold PolygonArea. f_equal. apply (over_r shoelace). Qed.
Lemma shoelace_triangle : forall a b c, cycler shoelace [a; b; c] = area2 a b c.
Proof. intros. unfold cycler, shoelace, area2. cbn [app pathr]. ring. Qed.
Definition sum_of (l : list R) : R := fold_right Rplus 0 l.
Definition shift (dx dy : R) (p : point) : point := (fst p + dx, snd p + dy).

Lemma fan_shift : forall dx dy o l, fan (shift dx dy o) (map (shift dx dy) l) =
  map (fun '(a, b, c) => (shift dx dy a, shift dx dy b, shift dx dy c)) (fan o l).
Proof.
  induction l as [|a l IH]; [reflexivity|]. destruct l as [|b l]; [reflexivity|].
  change (map (shift dx dy) (a :: b :: l)) with (shift dx dy a :: shift dx dy b :: map (shift dx dy) l).
  change (fan o (a :: b :: l)) with ((o, a, b) :: fan o (b :: l)).
  change (fan (shift dx dy o) (shift dx dy a :: shift dx dy b :: map (shift dx dy) l)) with
    ((shift dx dy o, shift dx dy a, shift dx dy b) :: fan (shift dx dy o) (map (shift dx dy) (b :: l))).
  cbn [map]. f_equal. exact IH.
Qed.

Lemma fan_area : forall o l, PolygonArea (o :: l) = sum_of (map (fun '(a, b, c) => area2 a b c / 2) (fan o l)).
Proof.
  intros o l. rewrite PolygonArea_cycle, (fan_r shoelace shoelace_anti). unfold sum_of.
  induction (fan o l) as [|[[a b] c] r IH]; cbn [map fold_right]; [lra|].
  rewrite <- IH, shoelace_triangle. lra.
Qed.

(** The area is the sum of the signed areas of the triangles from the first vertex; it does not depend on where the list starts
    nor where the polygon is, changes sign with the direction, and adds up when the polygon is cut. *)
Theorem C96_PolygonArea :
  (forall o l, PolygonArea (o :: l) = sum_of (map (fun '(a, b, c) => area2 a b c / 2) (fan o l))) /\
  (forall v l, PolygonArea (l ++ [v]) = PolygonArea (v :: l)) /\
  (forall l, PolygonArea (rev l) = - PolygonArea l) /\
  (forall dx dy l, PolygonArea (map (shift dx dy) l) = PolygonArea l) /\
  (forall a l1 b l2, PolygonArea (a :: l1 ++ b :: l2) = PolygonArea (a :: l1 ++ [b]) + PolygonArea (b :: l2 ++ [a])).
Proof.
  split; [exact fan_area|]. split; [|split; [|split]].
  - intros v l. rewrite !PolygonArea_cycle. f_equal. apply cycler_rot.
  - intros l. rewrite !PolygonArea_cycle, cycler_rev by apply shoelace_anti. lra.
  - intros dx dy [|o l]; [reflexivity|]. cbn [map]. rewrite !fan_area, fan_shift, map_map. f_equal.
    apply map_ext. intros [[a b] c]. unfold area2, shift. cbn [fst snd]. lra.
  - intros a l1 b l2. rewrite !PolygonArea_cycle, (cycler_cut shoelace shoelace_anti). lra.
Qed.
Print Assumptions C96_PolygonArea.

Example C96_example : PolygonArea ell = 7.
Proof. unfold ell, PolygonArea, over_edges. cbn [last edges fst snd]. lra. Qed.

(** What the centroid adds up. *)
Definition mx (i j : point) : R := (fst j + fst i) * shoelace i j.
Definition my (i j : point) : R := (snd j + snd i) * shoelace i j.
Lemma edges_pair : forall l (c : point) prev,
  edges (fun (c : point) i j => let w := fst j * snd i - fst i * snd j in
      (fst c + (fst j + fst i) * w, snd c + (snd j + snd i) * w)) c prev l =
  (edges (fun c i j => c + mx i j) (fst c) prev l, edges (fun c i j => c + my i j) (snd c) prev l).
Proof. induction l as [|v l IH]; intros [cx cy] prev; cbn [edges]; [reflexivity|]. rewrite IH. reflexivity. Qed.

Lemma PolygonCentroid_cycle : forall c0 l, PolygonCentroid c0 l =
  ((fst c0 + cycler mx l) / (cycler shoelace l / 2 * 6), (snd c0 + cycler my l) / (cycler shoelace l / 2 * 6)).
Proof.
  intros [cx cy] l. unfold PolygonCentroid. cbv zeta. unfold over_edges at 1 2. rewrite (edges_pair l (cx, cy)).
  cbn [fst snd]. rewrite !edges_r, !PolygonArea_cycle.
  assert (K : forall g, pathr g (last l (0, 0) :: l) = cycler g l).
  { intros g. rewrite <- over_r. unfold over_edges. rewrite edges_r. ring. }
  rewrite !K. reflexivity.
Qed.

Lemma mx_triangle : forall a b c, cycler mx [a; b; c] = (fst a + fst b + fst c) * area2 a b c.
Proof. intros. unfold cycler, mx, shoelace, area2. cbn [app pathr]. ring. Qed.
Lemma my_triangle : forall a b c, cycler my [a; b; c] = (snd a + snd b + snd c) * area2 a b c.
Proof. intros. unfold cycler, my, shoelace, area2. cbn [app pathr]. ring. Qed.
Lemma mx_anti : forall i j, mx i j = - mx j i.
Proof. intros. unfold mx, shoelace. ring. Qed.
Lemma my_anti : forall i j, my i j = - my j i.
Proof. intros. unfold my, shoelace. ring. Qed.

(** [c] is the centre of mass: the mean of the centres of the triangles, weighted by their areas. *)
Definition centre_of_mass (o : point) (l : list point) (c : point) : Prop :=
  fst c * sum_of (map (fun '(a, b, c) => area2 a b c / 2) (fan o l)) =
    sum_of (map (fun '(a, b, c) => (fst a + fst b + fst c) / 3 * (area2 a b c / 2)) (fan o l)) /\
  snd c * sum_of (map (fun '(a, b, c) => area2 a b c / 2) (fan o l)) =
    sum_of (map (fun '(a, b, c) => (snd a + snd b + snd c) / 3 * (area2 a b c / 2)) (fan o l)).

(** Right if the memory of the result happened to be zero. *)
Theorem C96_PolygonCentroid_partial : forall o l, PolygonArea (o :: l) <> 0 ->
  centre_of_mass o l (PolygonCentroid (0, 0) (o :: l)) /\
  forall c0, centre_of_mass o l (PolygonCentroid c0 (o :: l)) -> c0 = (0, 0).
Proof.
  intros o l N. unfold centre_of_mass. rewrite <- fan_area.
  assert (X : sum_of (map (fun '(a, b, c) => (fst a + fst b + fst c) / 3 * (area2 a b c / 2)) (fan o l)) = cycler mx (o :: l) / 6).
  { rewrite (fan_r mx mx_anti). unfold sum_of. induction (fan o l) as [|[[a b] c] r IH]; cbn [map fold_right]; [lra|].
    rewrite IH, mx_triangle. lra. }
  assert (Y : sum_of (map (fun '(a, b, c) => (snd a + snd b + snd c) / 3 * (area2 a b c / 2)) (fan o l)) = cycler my (o :: l) / 6).
  { clear X. rewrite (fan_r my my_anti). unfold sum_of. induction (fan o l) as [|[[a b] c] r IH]; cbn [map fold_right]; [lra|].
    rewrite IH, my_triangle. lra. }
  rewrite X, Y. split.
  - rewrite PolygonCentroid_cycle. rewrite PolygonArea_cycle in *. cbn [fst snd]. split; field; lra.
  - intros [cx cy]. rewrite PolygonCentroid_cycle. rewrite PolygonArea_cycle in *. cbn [fst snd].
    set (A := cycler shoelace (o :: l)) in *. intros [E1 E2].
    replace ((cx + cycler mx (o :: l)) / (A / 2 * 6) * (A / 2)) with ((cx + cycler mx (o :: l)) / 6) in E1 by (field; lra).
    replace ((cy + cycler my (o :: l)) / (A / 2 * 6) * (A / 2)) with ((cy + cycler my (o :: l)) / 6) in E2 by (field; lra).
    f_equal; lra.
Qed.
Print Assumptions C96_PolygonCentroid_partial.

Theorem C96_PolygonCentroid_refuted :
  ~ (forall c0 o l, PolygonArea (o :: l) <> 0 -> centre_of_mass o l (PolygonCentroid c0 (o :: l))).
Proof.
  intros A. assert (N : PolygonArea [(0, 0); (1, 0); (0, 1)] <> 0) by (unfold PolygonArea, over_edges; cbn [last edges fst snd]; lra).
  specialize (A (1, 0) _ _ N). destruct (C96_PolygonCentroid_partial _ _ N) as [_ B]. specialize (B _ A). injection B as B. lra.
Qed.
Print Assumptions C96_PolygonCentroid_refuted.

Example C96_Centroid_example : PolygonCentroid (0, 0) [(0, 0); (2, 0); (2, 4); (0, 4)] = (1, 2).
Proof. unfold PolygonCentroid, PolygonArea, over_edges. cbn [last edges fst snd]. f_equal; lra. Qed.

(* ------------------------------------------------------------------ C97 *)

Definition vertex (l : list point) (i : nat) : point := nth (i mod length l) l (0, 0).
(** Every vertex is on one side of the line through each edge. *)
Definition convex (l : list point) : Prop :=
  (forall i k, 0 <= area2 (vertex l i) (vertex l (i + 1)) (vertex l k)) \/
  (forall i k, area2 (vertex l i) (vertex l (i + 1)) (vertex l k) <= 0).
(** All turns are in one direction. *)
Definition same_turns (l : list point) : Prop :=
  (forall i, 0 <= area2 (vertex l i) (vertex l (i + 1)) (vertex l (i + 2))) \/
  (forall i, area2 (vertex l i) (vertex l (i + 1)) (vertex l (i + 2)) <= 0).

Lemma flags : forall (z : nat -> R) is f,
  fold_left (fun (flag : bool * bool) i => (fst flag || rlt (z i) 0, snd flag || rlt 0 (z i))) is f =
  (fst f || existsb (fun i => rlt (z i) 0) is, snd f || existsb (fun i => rlt 0 (z i)) is).
Proof.
  induction is as [|i is IH]; intros [f g]; cbn [fold_left existsb fst snd].
  - rewrite !orb_false_r. reflexivity.
  - rewrite IH. cbn [fst snd]. rewrite !orb_assoc. reflexivity.
Qed.

Lemma PolygonIsConvex_turns : forall l, l <> [] -> (PolygonIsConvex l = true <-> same_turns l).
Proof.
  intros l NE. set (n := length l). assert (N0 : n <> 0%nat) by (unfold n; destruct l; [contradiction|discriminate]).
  set (z := fun i => turn_at (nth (if Nat.eqb i 0 then n - 1 else i - 1)%nat l (0, 0)) (nth i l (0, 0)) (nth ((i + 1) mod n) l (0, 0))).
  assert (Z : forall i, (i < n)%nat -> z i = area2 (vertex l (i + n - 1)) (vertex l (i + n - 1 + 1)) (vertex l (i + n - 1 + 2))).
  { intros i L. unfold z, vertex. fold n.
    replace ((i + n - 1) mod n)%nat with (if Nat.eqb i 0 then n - 1 else i - 1)%nat.
    2: { destruct (Nat.eqb_spec i 0) as [->|NI]; [cbn [Nat.add]; rewrite Nat.mod_small by lia; reflexivity|].
         replace (i + n - 1)%nat with (i - 1 + 1 * n)%nat by lia. rewrite Nat.mod_add by exact N0. rewrite Nat.mod_small by lia. reflexivity. }
    replace ((i + n - 1 + 1) mod n)%nat with i.
    2: { replace (i + n - 1 + 1)%nat with (i + 1 * n)%nat by lia. rewrite Nat.mod_add by exact N0. rewrite Nat.mod_small by lia. reflexivity. }
    replace ((i + n - 1 + 2) mod n)%nat with ((i + 1) mod n)%nat.
    2: { replace (i + n - 1 + 2)%nat with (i + 1 + 1 * n)%nat by lia. rewrite Nat.mod_add by exact N0. reflexivity. }
    unfold turn_at, area2. ring. }
  assert (V : forall i, vertex l (i mod n) = vertex l i) by (intros; unfold vertex; fold n; rewrite Nat.mod_mod by exact N0; reflexivity).
  assert (VA : forall i k, vertex l (i mod n + k) = vertex l (i + k)).
  { intros. unfold vertex. fold n. rewrite Nat.add_mod_idemp_l by exact N0. reflexivity. }
  (* every turn is one of these *)
  assert (ALL : forall P : R -> Prop, (forall i, P (area2 (vertex l i) (vertex l (i + 1)) (vertex l (i + 2)))) <-> (forall i, (i < n)%nat -> P (z i))).
  { intros P. split.
    - intros H i L. rewrite Z by exact L. apply H.
    - intros H i. pose proof (H ((i + 1) mod n)%nat (Nat.mod_upper_bound _ _ N0)) as Q.
      rewrite Z in Q by (apply Nat.mod_upper_bound; exact N0).
      assert (E : forall k, vertex l ((i + 1) mod n + n - 1 + k) = vertex l (i + k)).
      { intros k. replace ((i + 1) mod n + n - 1 + k)%nat with ((i + 1) mod n + (n - 1 + k))%nat by lia. rewrite VA.
        unfold vertex. fold n. replace (i + 1 + (n - 1 + k))%nat with (i + k + 1 * n)%nat by lia. rewrite Nat.mod_add by exact N0. reflexivity. }
      rewrite !E in Q. pose proof (E 0%nat) as E0. rewrite !Nat.add_0_r in E0. rewrite E0 in Q. exact Q. }
  unfold same_turns. rewrite (ALL (fun x => 0 <= x)), (ALL (fun x => x <= 0)).
  unfold PolygonIsConvex. fold n. change (fun (flag : bool * bool) i => _) with (fun (flag : bool * bool) i => (fst flag || rlt (z i) 0, snd flag || rlt 0 (z i))).
  rewrite flags. cbn [fst snd orb]. rewrite negb_true_iff, andb_false_iff.
  assert (F : forall g, existsb g (seq 0 n) = false <-> (forall i, (i < n)%nat -> g i = false)).
  { intros g. rewrite <- not_true_iff_false, existsb_exists. split.
    - intros H i L. destruct (g i) eqn:E; [|reflexivity]. exfalso. apply H. exists i. split; [apply in_seq; lia|exact E].
    - intros H [i [I E]]. apply in_seq in I. rewrite H in E by lia. discriminate. }
  rewrite !F. split; (intros [H|H]; [left|right]); intros i L; specialize (H i L); (apply rlt_false in H || apply rlt_false); exact H.
Qed.

(** Every convex polygon is recognised, and what is recognised turns in one direction only. *)
Theorem C97_PolygonIsConvex_partial : forall l, l <> [] ->
  (convex l -> PolygonIsConvex l = true) /\ (PolygonIsConvex l = true <-> same_turns l).
Proof.
  intros l NE. split; [|apply PolygonIsConvex_turns; exact NE]. rewrite PolygonIsConvex_turns by exact NE.
  intros [H|H]; [left|right]; intros i; apply H.
Qed.
Print Assumptions C97_PolygonIsConvex_partial.

(** A five-pointed star, which crosses itself. *)
Definition star : list point := [(0, 3); (2, -2); (-3, 1); (3, 1); (-2, -2)].
Theorem C97_PolygonIsConvex_refuted : ~ (forall l, (length l > 2)%nat -> (PolygonIsConvex l = true <-> convex l)).
Proof.
  intros A. specialize (A star ltac:(cbn; lia)). destruct A as [A _].
  assert (E : PolygonIsConvex star = true).
  { unfold PolygonIsConvex, star, turn_at. cbn [length seq fold_left Nat.eqb Nat.sub Nat.add Nat.modulo Nat.divmod fst snd nth]. decided. reflexivity. }
  specialize (A E). destruct A as [A|A].
  - pose proof (A 0%nat 2%nat) as P. unfold vertex, star, area2 in P. cbn in P. lra.
  - pose proof (A 0%nat 3%nat) as P. unfold vertex, star, area2 in P. cbn in P. lra.
Qed.
Print Assumptions C97_PolygonIsConvex_refuted.

Example C97_example : PolygonIsConvex [(0, 0); (2, 0); (2, 2); (0, 2)] = true /\ PolygonIsConvex ell = false.
Proof.
  unfold PolygonIsConvex, ell, turn_at. cbn [length seq fold_left Nat.eqb Nat.sub Nat.add Nat.modulo Nat.divmod fst snd nth].
  split; decided; reflexivity.
Qed.

(** A point strictly on the same side of every edge. *)
Definition deep_inside (p : point) (l : list point) : Prop :=
  (forall i, 0 < area2 (vertex l i) (vertex l (i + 1)) p) \/ (forall i, area2 (vertex l i) (vertex l (i + 1)) p < 0).

(** The function answers no for every point strictly inside. *)
Theorem C97_ConvexPolygonContainsPoint_refuted : forall p l, (length l > 1)%nat -> deep_inside p l ->
  ConvexPolygonContainsPoint p l = false.
Proof.
  intros p l N D. unfold ConvexPolygonContainsPoint. set (n := length l) in *.
  assert (S : forall a b, side p a b = area2 a b p) by (intros; unfold side, area2; ring).
  apply not_true_iff_false. rewrite forallb_forall. intros H. specialize (H 1%nat ltac:(apply in_seq; lia)). cbn [Nat.sub] in H.
  apply negb_true_iff in H. rewrite orb_false_iff, !andb_false_iff, !rlt_false, !S in H.
  assert (V : forall i, (i < n)%nat -> vertex l i = nth i l (0, 0)) by (intros; unfold vertex; fold n; rewrite Nat.mod_small by lia; reflexivity).
  assert (V0 : vertex l (n - 1 + 1) = nth 0 l (0, 0)).
  { unfold vertex. fold n. replace (n - 1 + 1)%nat with n by lia. rewrite Nat.mod_same by lia. reflexivity. }
  assert (F : area2 (nth 0 l (0, 0)) (nth (n - 1) l (0, 0)) p = - area2 (nth (n - 1) l (0, 0)) (nth 0 l (0, 0)) p) by (unfold area2; ring).
  rewrite F in H.
  destruct D as [D|D]; pose proof (D 0%nat) as D0; pose proof (D (n - 1)%nat) as D1;
    rewrite V0, (V (n - 1)%nat) in D1 by lia; cbn [Nat.add] in D0; rewrite !V in D0 by lia; lra.
Qed.
Print Assumptions C97_ConvexPolygonContainsPoint_refuted.

Example C97_Contains_example : deep_inside (1, 1) [(0, 0); (2, 0); (2, 2); (0, 2)] /\
  ConvexPolygonContainsPoint (1, 1) [(0, 0); (2, 0); (2, 2); (0, 2)] = false.
Proof.
  assert (D : deep_inside (1, 1) [(0, 0); (2, 0); (2, 2); (0, 2)]).
  { left. intros i. unfold vertex. cbn [length].
    rewrite <- (Nat.add_mod_idemp_l i 1 4) by lia. pose proof (Nat.mod_upper_bound i 4 ltac:(lia)) as B.
    destruct (i mod 4)%nat as [|[|[|[|k]]]]; [| | | |lia]; cbn; unfold area2; cbn [fst snd]; lra. }
  split; [exact D|]. apply C97_ConvexPolygonContainsPoint_refuted; [cbn; lia|exact D].
Qed.
