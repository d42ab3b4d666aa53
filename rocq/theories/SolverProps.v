(* Properties C74, C75, C77: the equation solvers of algo.h over the real numbers. *)
From Coq Require Import Reals Lra Lia List.
From Verif Require Import Curves CurvesProps.
Import ListNotations.
Local Open Scope R_scope.

(* ---------------- C74: quadratics and inflection points ---------------- *)

(* With an exact square root the two results are exactly the roots. *)
Theorem C74_SolveQuadratic fs a b c :
  (forall x, 0 <= x -> fs x = Some (sqrt x)) -> a <> 0 -> 0 <= b * b - 4 * a * c ->
  exists r0 r1, SolveQuadratic fs a b c = (Some r0, Some r1) /\
    forall x, a * x ^ 2 + b * x + c = 0 <-> x = r0 \/ x = r1.
Proof.
  intros H A D. unfold SolveQuadratic. rewrite H by auto.
  destruct (Req_EM_T a 0) as [|_]; [congruence|]. do 2 eexists. split; [reflexivity|].
  set (d := sqrt (b * b - 4 * a * c)).
  assert (DD : d * d = b * b - 4 * a * c) by (apply sqrt_sqrt; auto).
  intros x.
  assert (E : a * x ^ 2 + b * x + c = a * ((x - (- b - d) / (2 * a)) * (x - (- b + d) / (2 * a)))).
  { replace c with ((b * b - d * d) / (4 * a)) by (rewrite DD; field; auto). field. auto. }
  rewrite E. split.
  - intros Z. apply Rmult_integral in Z. destruct Z as [|Z]; [contradiction|].
    apply Rmult_integral in Z. lra.
  - intros [-> | ->]; ring.
Qed.
Print Assumptions C74_SolveQuadratic.

(* With an inexact one the residual is the error of the square root, scaled. *)
Theorem C74_residual fs a b c d :
  fs (b * b - 4 * a * c) = Some d -> a <> 0 ->
  exists r0 r1, SolveQuadratic fs a b c = (Some r0, Some r1) /\
    a * r0 ^ 2 + b * r0 + c = (d * d - (b * b - 4 * a * c)) / (4 * a) /\
    a * r1 ^ 2 + b * r1 + c = (d * d - (b * b - 4 * a * c)) / (4 * a).
Proof.
  intros H A. unfold SolveQuadratic. rewrite H. destruct (Req_EM_T a 0) as [|_]; [congruence|].
  do 2 eexists. split; [reflexivity|]. split; field; auto.
Qed.
Print Assumptions C74_residual.

(* the cross product of the first and second derivative of a plane curve; an inflection is where it vanishes *)
Definition bends (curve d1 d2 : R -> point) : Prop :=
  (forall i x, derivable_pt_lim (fun s => curve s i) x (d1 x i)) /\
  (forall i x, derivable_pt_lim (fun s => d1 s i) x (d2 x i)).
Definition straight (d1 d2 : R -> point) (s : R) : Prop :=
  d1 s 0%nat * d2 s 1%nat - d1 s 1%nat * d2 s 0%nat = 0.

Theorem C74_CubicInflectionPoints fs P0 P1 P2 P3 d1 d2 r0 r1 :
  (forall x, 0 <= x -> fs x = Some (sqrt x)) ->
  bends (bezier3 P0 P1 P2 P3) d1 d2 ->
  CubicInflectionPoints fs P0 P1 P2 P3 = (Some r0, Some r1) ->
  (exists s, straight d1 d2 s) ->
  forall s, straight d1 d2 s <-> s = r0 \/ s = r1.
Proof.
  intros H [B1 B2] E [s0 X] s.
  set (a := fun i => P1 i - P0 i). set (b := fun i => P2 i - P1 i - a i).
  set (c := fun i => P3 i - P2 i - a i - 2 * b i).
  assert (D1 : forall x i, d1 x i = 3 * (a i + 2 * b i * x + c i * x ^ 2)).
  { intros x i. eapply uniqueness_limite; [apply B1|].
    replace (3 * (a i + 2 * b i * x + c i * x ^ 2)) with (3 * a i + 2 * (3 * b i) * x + 3 * c i * x ^ 2) by ring.
    apply (derivable_cubic (P0 i)). intros t. unfold bezier3, c, b, a. ring. }
  assert (D2 : forall x i, d2 x i = 6 * (b i + c i * x)).
  { intros x i. eapply uniqueness_limite; [apply B2|].
    replace (6 * (b i + c i * x)) with (6 * b i + 2 * (3 * c i) * x + 3 * 0 * x ^ 2) by ring.
    apply (derivable_cubic (3 * a i)). intros t. rewrite D1. ring. }
  set (A := b 0%nat * c 1%nat - b 1%nat * c 0%nat) in *.
  set (B := a 0%nat * c 1%nat - a 1%nat * c 0%nat) in *.
  set (C := a 0%nat * b 1%nat - a 1%nat * b 0%nat) in *.
  assert (Q : forall x, straight d1 d2 x <-> A * x ^ 2 + B * x + C = 0).
  { intros x. unfold straight. rewrite !D1, !D2.
    replace (3 * (a 0%nat + 2 * b 0%nat * x + c 0%nat * x ^ 2) * (6 * (b 1%nat + c 1%nat * x)) -
             3 * (a 1%nat + 2 * b 1%nat * x + c 1%nat * x ^ 2) * (6 * (b 0%nat + c 0%nat * x)))
      with (18 * (A * x ^ 2 + B * x + C)) by (unfold A, B, C; ring).
    split; intros Z; [lra|rewrite Z; ring]. }
  change (SolveQuadratic fs A B C = (Some r0, Some r1)) in E.
  assert (A0 : A <> 0).
  { intros Z. unfold SolveQuadratic in E. destruct (fs _); [|discriminate].
    destruct (Req_EM_T A 0); [discriminate|contradiction]. }
  assert (DP : 0 <= B * B - 4 * A * C).
  { apply Q in X. replace C with (- (A * s0 ^ 2 + B * s0)) by lra.
    replace (B * B - 4 * A * - (A * s0 ^ 2 + B * s0)) with ((2 * A * s0 + B) * (2 * A * s0 + B)) by ring.
    apply Rle_0_sqr. }
  destruct (C74_SolveQuadratic fs A B C H A0 DP) as (x0 & x1 & E' & R).
  rewrite E' in E. injection E as <- <-. rewrite Q. apply R.
Qed.
Print Assumptions C74_CubicInflectionPoints.

(* x^2 - 5 x + 6 *)
Example C74_example : SolveQuadratic (fun x => Some (sqrt x)) 1 (-5) 6 = (Some 2, Some 3).
Proof.
  unfold SolveQuadratic. replace (-5 * -5 - 4 * 1 * 6) with (1 * 1) by ring. rewrite sqrt_square by lra.
  destruct (Req_EM_T 1 0); [lra|]. f_equal; f_equal; lra.
Qed.

(* ---------------- C75: cubics ---------------- *)

(* x is a root of the cubic *)
Definition root (at_ bt ct dt x : R) : Prop := at_ * x ^ 3 + bt * x ^ 2 + ct * x + dt = 0.

Lemma cbrt_cube x : cbrt x ^ 3 = x.
Proof.
  assert (P : forall y, 0 < y -> Rpower y (/ 3) ^ 3 = y).
  { intros y Y. rewrite <- Rpower_pow by apply exp_pos. rewrite Rpower_mult.
    replace (/ 3 * INR 3) with 1 by (cbn; field). apply Rpower_1. auto. }
  unfold cbrt. destruct (Rlt_dec 0 x); auto. destruct (Rlt_dec x 0).
  - replace ((- Rpower (- x) (/ 3)) ^ 3) with (- Rpower (- x) (/ 3) ^ 3) by ring. rewrite P by lra. ring.
  - assert (x = 0) by lra. subst. ring.
Qed.

Lemma cube_inj x y : x ^ 3 = y ^ 3 -> x = y.
Proof.
  intros H. assert (Z : (x - y) * (x * x + x * y + y * y) = 0) by (ring_simplify; lra).
  apply Rmult_integral in Z. destruct Z as [|Z]; [lra|].
  assert (E : (x + y / 2) * (x + y / 2) + 3 / 4 * (y * y) = 0) by lra.
  pose proof (Rle_0_sqr (x + y / 2)) as S1. pose proof (Rle_0_sqr y) as S2. unfold Rsqr in *.
  assert (Y : y * y = 0) by lra. apply Rmult_integral in Y.
  assert (y = 0) by tauto. subst y. assert (X : (x + 0 / 2) * (x + 0 / 2) = 0) by lra.
  apply Rmult_integral in X. lra.
Qed.

(* the substitution x = y - a/3 *)
Lemma root_depressed at_ bt ct dt y : at_ <> 0 ->
  let a := bt / at_ in let b := ct / at_ in let c := dt / at_ in
  root at_ bt ct dt (- a / 3 + y) <->
  y ^ 3 + (b - a * a / 3) * y + (a * (2 * a * a - 9 * b) / 27 + c) = 0.
Proof.
  intros A a b c. unfold root.
  assert (E : at_ * (- a / 3 + y) ^ 3 + bt * (- a / 3 + y) ^ 2 + ct * (- a / 3 + y) + dt =
    at_ * (y ^ 3 + (b - a * a / 3) * y + (a * (2 * a * a - 9 * b) / 27 + c))).
  { unfold a, b, c. field. auto. }
  rewrite E. split; intros Z.
  - apply Rmult_integral in Z. tauto.
  - rewrite Z. ring.
Qed.

(* the depressed cubic with a non-negative discriminant: Cardano's root *)
Section Cardano.
Context (p q : R) (D : 0 <= q * q + 4 * (p * p * p) / 27).
Let z := sqrt (q * q + 4 * (p * p * p) / 27).
Let u := cbrt ((- q + z) / 2).
Let v := cbrt ((- q - z) / 2).

Lemma uv_product : u * v = - p / 3.
Proof.
  apply cube_inj. replace ((u * v) ^ 3) with (u ^ 3 * v ^ 3) by ring. unfold u, v. rewrite !cbrt_cube.
  assert (Z : z * z = q * q + 4 * (p * p * p) / 27) by (apply sqrt_sqrt; auto).
  replace ((- q + z) / 2 * ((- q - z) / 2)) with ((q * q - z * z) / 4) by field. rewrite Z. field.
Qed.

Lemma cardano_root : (u + v) ^ 3 + p * (u + v) + q = 0.
Proof.
  assert (U : u ^ 3 = (- q + z) / 2) by apply cbrt_cube.
  assert (V : v ^ 3 = (- q - z) / 2) by apply cbrt_cube.
  pose proof uv_product as W.
  replace ((u + v) ^ 3) with (u ^ 3 + v ^ 3 + 3 * (u * v) * (u + v)) by ring. rewrite U, V, W. field.
Qed.

Lemma cardano_unique y : 0 < q * q + 4 * (p * p * p) / 27 -> y ^ 3 + p * y + q = 0 -> y = u + v.
Proof.
  intros DP H. pose proof cardano_root as R. pose proof uv_product as W. set (r := u + v) in *.
  assert (Z : (y - r) * (y * y + r * y + r * r + p) = 0) by (ring_simplify; lra).
  apply Rmult_integral in Z. destruct Z as [|Z]; [lra|]. exfalso.
  assert (P : p = - 3 * (u * v)) by lra.
  assert (E : (y + r / 2) * (y + r / 2) + 3 / 4 * ((u - v) * (u - v)) = 0).
  { rewrite <- Z, P. unfold r. field. }
  pose proof (Rle_0_sqr (y + r / 2)) as S1. pose proof (Rle_0_sqr (u - v)) as S2. unfold Rsqr in *.
  assert (UV : (u - v) * (u - v) = 0) by lra. apply Rmult_integral in UV.
  assert (UE : u = v) by lra.
  assert (U : u ^ 3 = (- q + z) / 2) by apply cbrt_cube.
  assert (V : v ^ 3 = (- q - z) / 2) by apply cbrt_cube.
  rewrite UE in U. assert (z = 0) by lra. assert (0 < z) by (apply sqrt_lt_R0; auto). lra.
Qed.
End Cardano.

Lemma cos_3a x : cos (3 * x) = 4 * cos x ^ 3 - 3 * cos x.
Proof.
  replace (3 * x) with (2 * x + x) by ring. rewrite cos_plus, cos_2a, sin_2a.
  pose proof (sin2_cos2 x) as H. unfold Rsqr in H.
  replace (sin x * sin x) with (1 - cos x * cos x) by lra.
  replace (2 * sin x * cos x * sin x) with (2 * cos x * (sin x * sin x)) by ring.
  replace (sin x * sin x) with (1 - cos x * cos x) by lra. ring.
Qed.

(* the depressed cubic with a negative discriminant: the trigonometric roots, exact *)
Section Trig.
Context (p q : R) (D : q * q + 4 * (p * p * p) / 27 < 0).
Let u := sqrt (- p / 3).
Let v := acos (- sqrt (-27 / (p * p * p)) * q / 2) / 3.
Let m := cos v.
Let n := sin v * sqrt 3.

Lemma p_neg : p < 0.
Proof.
  destruct (Rlt_dec p 0) as [|N]; auto. exfalso.
  assert (0 <= p * p * p) by (apply Rmult_le_pos; [apply Rmult_le_pos|]; lra).
  pose proof (Rle_0_sqr q). unfold Rsqr in *. lra.
Qed.

Lemma u_sq : u * u = - p / 3.
Proof. pose proof p_neg. apply sqrt_sqrt. lra. Qed.

Lemma u_pos : 0 < u.
Proof. pose proof p_neg. apply sqrt_lt_R0. lra. Qed.

Lemma inv_u3 : sqrt (-27 / (p * p * p)) * (u * u * u) = 1.
Proof.
  pose proof p_neg as P. pose proof u_pos as U. pose proof u_sq as US.
  assert (P3 : p * p * p < 0).
  { assert (0 < (- p) * (- p) * (- p)) by (apply Rmult_lt_0_compat; [apply Rmult_lt_0_compat|]; lra). lra. }
  replace (-27 / (p * p * p)) with (/ (u * u * u) * / (u * u * u)).
  - rewrite sqrt_square.
    + field. lra.
    + left. apply Rinv_0_lt_compat. apply Rmult_lt_0_compat; [apply Rmult_lt_0_compat|]; auto.
  - rewrite <- Rinv_mult. replace (u * u * u * (u * u * u)) with ((u * u) * (u * u) * (u * u)) by ring.
    rewrite US. field. lra.
Qed.

Lemma cos_3v : 2 * (u * u * u) * cos (3 * v) = - q.
Proof.
  pose proof p_neg as P. pose proof inv_u3 as I3. pose proof u_pos as U. pose proof u_sq as US.
  set (w := sqrt (-27 / (p * p * p))) in *.
  assert (W0 : 0 <= w) by apply sqrt_pos.
  assert (WW : w * w * (u * u * u * (u * u * u)) = 1).
  { replace (w * w * (u * u * u * (u * u * u))) with ((w * (u * u * u)) * (w * (u * u * u))) by ring. rewrite I3. ring. }
  assert (U6 : u * u * u * (u * u * u) = - (p * p * p) / 27).
  { replace (u * u * u * (u * u * u)) with ((u * u) * (u * u) * (u * u)) by ring. rewrite US. field. }
  assert (Y : -1 <= - w * q / 2 <= 1).
  { assert (YY : (w * q / 2) * (w * q / 2) <= 1).
    { replace ((w * q / 2) * (w * q / 2)) with (w * w * (q * q / 4)) by field. rewrite <- WW.
      apply Rmult_le_compat_l; [apply Rmult_le_pos; auto|]. rewrite U6. lra. }
    set (y := w * q / 2) in *. replace (- w * q / 2) with (- y) by (unfold y; field). clearbody y.
    split.
    - destruct (Rle_lt_dec (-1) (- y)); auto. exfalso.
      assert (0 < (y - 1) * (y + 1)) by (apply Rmult_lt_0_compat; lra). lra.
    - destruct (Rle_lt_dec (- y) 1); auto. exfalso.
      assert (0 < (- y - 1) * (- y + 1)) by (apply Rmult_lt_0_compat; lra). lra. }
  unfold v. fold w. replace (3 * (acos (- w * q / 2) / 3)) with (acos (- w * q / 2)) by field.
  rewrite cos_acos by exact Y.
  replace (2 * (u * u * u) * (- w * q / 2)) with (- (w * (u * u * u)) * q) by field. rewrite I3. ring.
Qed.

Lemma m_n : 3 * (m * m) + n * n = 3.
Proof.
  unfold m, n. pose proof (sin2_cos2 v) as H. unfold Rsqr in H.
  replace (sin v * sqrt 3 * (sin v * sqrt 3)) with (sin v * sin v * (sqrt 3 * sqrt 3)) by ring.
  rewrite sqrt_sqrt by lra. lra.
Qed.

(* the three numbers are exactly the roots *)
Lemma trig_roots y :
  y ^ 3 + p * y + q = 0 <-> y = u * (m + m) \/ y = - u * (n + m) \/ y = u * (n - m).
Proof.
  pose proof cos_3v as C. rewrite cos_3a in C. fold m in C. pose proof u_sq as US. pose proof m_n as MN.
  assert (E : y ^ 3 + p * y + q = (y - u * (m + m)) * ((y + u * (n + m)) * (y - u * (n - m)))).
  { assert (P : p = - 3 * (u * u)) by lra. assert (Q : q = - (2 * (u * u * u) * (4 * m ^ 3 - 3 * m))) by lra.
    assert (N : n * n = 3 - 3 * (m * m)) by lra.
    replace ((y - u * (m + m)) * ((y + u * (n + m)) * (y - u * (n - m))))
      with ((y - 2 * u * m) * (y * y + 2 * u * m * y + u * u * (m * m - n * n))) by ring.
    rewrite N, P, Q. ring. }
  rewrite E. split.
  - intros Z. apply Rmult_integral in Z. destruct Z as [Z|Z]; [left; lra|].
    apply Rmult_integral in Z. destruct Z; [right; left; lra|right; right; lra].
  - intros [-> |[-> | ->]]; ring.
Qed.

Lemma m_bounds : -1 <= m <= 1 /\ -1 <= sin v <= 1.
Proof. split; [apply COS_bound|apply SIN_bound]. Qed.
End Trig.

(* the constant of line 520 is the square root of three to nine digits *)
Lemma sqrt3_close : Rabs (1732050808 / 10 ^ 9 - sqrt 3) <= 1 / 10 ^ 9.
Proof.
  assert (S3 : sqrt 3 * sqrt 3 = 3) by (apply sqrt_sqrt; lra). pose proof (sqrt_pos 3) as P.
  set (s := sqrt 3) in *. clearbody s. cbn [pow]. set (k := 1732050808 / _).
  assert (K : k = 1.732050808) by (unfold k; lra). rewrite K. clear K k.
  apply Rabs_le. split.
  - destruct (Rle_lt_dec s 1.732050809) as [|L]; [lra|]. exfalso.
    assert (0 < (s - 1.732050809) * (s + 1.732050809)) by (apply Rmult_lt_0_compat; lra). lra.
  - destruct (Rle_lt_dec 1.732050807 s) as [|L]; [lra|]. exfalso.
    assert (0 < (1.732050807 - s) * (1.732050807 + s)) by (apply Rmult_lt_0_compat; lra). lra.
Qed.

(* the discriminant the code computes *)
Definition discriminant (at_ bt ct dt : R) : R :=
  let a := bt / at_ in let b := ct / at_ in let c := dt / at_ in
  let p := b - a * a / 3 in let q := a * (2 * a * a - 9 * b) / 27 + c in q * q + 4 * (p * p * p) / 27.

(* the first result is always a root *)
Theorem C75_first_root at_ bt ct dt :
  at_ <> 0 -> exists r rest, solveCubic at_ bt ct dt = r :: rest /\ root at_ bt ct dt r.
Proof.
  intros A. unfold solveCubic.
  set (a := bt / at_). set (b := ct / at_). set (c := dt / at_).
  set (p := b - a * a / 3). set (q := a * (2 * a * a - 9 * b) / 27 + c). cbv zeta.
  destruct (Rge_dec (q * q + 4 * (p * p * p) / 27) 0) as [D|D].
  - do 2 eexists. split; [reflexivity|]. rewrite Rplus_assoc.
    apply root_depressed; auto. fold a b c p q. apply cardano_root. lra.
  - do 2 eexists. split; [reflexivity|]. apply root_depressed; auto. fold a b c p q.
    apply trig_roots; [lra|]. left. reflexivity.
Qed.
Print Assumptions C75_first_root.

(* one result is returned, and it is the only root, when the discriminant is positive *)
Theorem C75_single_root_partial at_ bt ct dt :
  at_ <> 0 -> 0 < discriminant at_ bt ct dt ->
  exists r, solveCubic at_ bt ct dt = [r] /\ forall x, root at_ bt ct dt x <-> x = r.
Proof.
  intros A D. destruct (C75_first_root at_ bt ct dt A) as (r & rest & E & HR).
  unfold discriminant in D. unfold solveCubic in E.
  set (a := bt / at_) in *. set (b := ct / at_) in *. set (c := dt / at_) in *.
  set (p := b - a * a / 3) in *. set (q := a * (2 * a * a - 9 * b) / 27 + c) in *. cbv zeta in *.
  destruct (Rge_dec (q * q + 4 * (p * p * p) / 27) 0) as [D'|D']; [|lra].
  injection E as E1 E2. subst rest. exists r. split.
  - unfold solveCubic. fold a b c p q.
    destruct (Rge_dec (q * q + 4 * (p * p * p) / 27) 0); [|lra]. f_equal. exact E1.
  - intros x. split; [|intros ->; auto]. intros X.
    replace x with (- a / 3 + (x + a / 3)) in X by field. apply root_depressed in X; auto. fold a b c p q in X.
    apply cardano_unique in X; [|lra|exact D]. rewrite <- E1. lra.
Qed.
Print Assumptions C75_single_root_partial.

(* three results are returned when the discriminant is negative; they are the three roots, the first exactly, the others up
   to 10^-9 times half the distance the roots can have from their mean *)
Theorem C75_three_roots_partial at_ bt ct dt :
  at_ <> 0 -> discriminant at_ bt ct dt < 0 ->
  exists r0 r1 r2 x1 x2 u, solveCubic at_ bt ct dt = [r0; r1; r2] /\
    (forall x, root at_ bt ct dt x <-> x = r0 \/ x = x1 \/ x = x2) /\
    r0 + x1 + x2 = - bt / at_ /\
    u ^ 2 = (bt / at_ / 3) ^ 2 - ct / at_ / 3 /\ 0 < u /\
    Rabs (r1 - x1) <= u / 10 ^ 9 /\ Rabs (r2 - x2) <= u / 10 ^ 9.
Proof.
  intros A D. unfold solveCubic, discriminant in *.
  set (a := bt / at_) in *. set (b := ct / at_) in *. set (c := dt / at_) in *.
  set (p := b - a * a / 3) in *. set (q := a * (2 * a * a - 9 * b) / 27 + c) in *. cbv zeta in *.
  destruct (Rge_dec (q * q + 4 * (p * p * p) / 27) 0) as [D'|_]; [lra|].
  set (u := sqrt (- p / 3)). set (v := acos (- sqrt (-27 / (p * p * p)) * q / 2) / 3).
  set (k := 1732050808 / 10 ^ 9).
  pose proof (u_pos p q D) as UP. pose proof (u_sq p q D) as US. fold u in UP, US.
  assert (CL : forall s, -1 <= s <= 1 -> Rabs (u * (s * (k - sqrt 3))) <= u / 10 ^ 9).
  { intros s Hs. rewrite Rabs_mult, (Rabs_right u) by lra. unfold Rdiv. apply Rmult_le_compat_l; [lra|].
    rewrite Rabs_mult. rewrite <- (Rmult_1_l (/ 10 ^ 9)).
    apply Rmult_le_compat; try apply Rabs_pos; [apply Rabs_le; lra|].
    pose proof sqrt3_close as S3. fold k in S3. unfold Rdiv in S3. rewrite Rmult_1_l in S3. exact S3. }
  exists (- a / 3 + u * (cos v + cos v)), (- a / 3 - u * (sin v * k + cos v)), (- a / 3 + u * (sin v * k - cos v)),
    (- a / 3 + - u * (sin v * sqrt 3 + cos v)), (- a / 3 + u * (sin v * sqrt 3 - cos v)), u.
  split; [reflexivity|]. split; [|split; [|split; [|split; [|split]]]].
  - intros x. pose proof (trig_roots p q D (x + a / 3)) as T. fold u v in T.
    pose proof (root_depressed at_ bt ct dt (x + a / 3) A) as RD. cbv zeta in RD. fold a b c p q in RD.
    replace (- a / 3 + (x + a / 3)) with x in RD by field. rewrite RD, T. split; intros [H|[H|H]]; [left|right; left|right; right|left|right; left|right; right]; lra.
  - replace (- bt / at_) with (- a) by (unfold a; field; auto). field.
  - replace (u ^ 2) with (u * u) by ring. rewrite US. unfold p. field.
  - auto.
  - replace (- a / 3 - u * (sin v * k + cos v) - (- a / 3 + - u * (sin v * sqrt 3 + cos v)))
      with (u * (- sin v * (k - sqrt 3))) by ring.
    apply CL. pose proof (SIN_bound v). lra.
  - replace (- a / 3 + u * (sin v * k - cos v) - (- a / 3 + u * (sin v * sqrt 3 - cos v)))
      with (u * (sin v * (k - sqrt 3))) by ring.
    apply CL. apply SIN_bound.
Qed.
Print Assumptions C75_three_roots_partial.

(* (x - 1)^2 (x + 2) = x^3 - 3 x + 2 has the roots 1 and -2, one result is returned *)
Theorem C75_double_root_refuted :
  root 1 0 (-3) 2 1 /\ root 1 0 (-3) 2 (-2) /\ exists r, solveCubic 1 0 (-3) 2 = [r].
Proof.
  unfold root. split; [lra|]. split; [lra|]. unfold solveCubic. cbv zeta.
  destruct (Rge_dec _ 0) as [|N]; [eauto|]. exfalso. apply N. lra.
Qed.
Print Assumptions C75_double_root_refuted.

(* x^3 - x has three roots, x^3 + x one *)
Example C75_example :
  discriminant 1 0 (-1) 0 < 0 /\ 0 < discriminant 1 0 1 0 /\
  (forall x, root 1 0 (-1) 0 x <-> x = 0 \/ x = 1 \/ x = -1) /\ root 2 0 0 (-16) 2.
Proof.
  unfold discriminant, root. split; [lra|]. split; [lra|]. split; [|lra].
  intros x. replace (1 * x ^ 3 + 0 * x ^ 2 + -1 * x + 0) with (x * ((x - 1) * (x + 1))) by ring. split.
  - intros H. apply Rmult_integral in H. destruct H as [|H]; [auto|]. apply Rmult_integral in H. lra.
  - intros [-> |[-> | ->]]; ring.
Qed.

(* ---------------- C77: root finding ---------------- *)

(* what NewtonRaphson reports is a root up to epsilon *)
Theorem C77_NewtonRaphson F dF epsilon n x r :
  NewtonRaphson F dF epsilon n x = Some r -> Rabs (F r) <= epsilon.
Proof.
  revert x. induction n as [|n IH]; cbn; intros x; [discriminate|].
  unfold fSmall. destruct (Rle_dec (Rabs (F x)) epsilon).
  - intros H. injection H as <-. auto.
  - destruct (Req_EM_T (dF x) 0); [discriminate|]. apply IH.
Qed.
Print Assumptions C77_NewtonRaphson.

(* it finds the root of every linear function in the second round *)
Theorem C77_NewtonRaphson_linear a b epsilon n x :
  a <> 0 -> 0 <= epsilon -> (2 <= n)%nat ->
  exists r, NewtonRaphson (fun x => a * x + b) (fun _ => a) epsilon n x = Some r.
Proof.
  intros A E N. destruct n as [|[|n]]; try lia. cbn. unfold fSmall.
  destruct (Rle_dec _ epsilon); [eauto|]. destruct (Req_EM_T a 0); [contradiction|].
  destruct (Rle_dec _ epsilon) as [|X]; [eauto|]. exfalso. apply X.
  replace (a * (x - (a * x + b) / a) + b) with 0 by (field; auto). rewrite Rabs_R0. auto.
Qed.
Print Assumptions C77_NewtonRaphson_linear.

(* NewtonRaphsonBisection never leaves the interval, whatever the function and its supposed derivative *)
Theorem C77_stays_in_range F dF epsilon n x min max :
  min <= x <= max ->
  min <= NewtonRaphsonBisection F dF epsilon n x min max <= max.
Proof.
  revert x min max. induction n as [|n IH]; cbn; intros x min max H; [auto|].
  destruct (fSmall (F x) epsilon); [auto|].
  destruct (Rgt_dec (F x) 0).
  - assert (B : min <= 1 / 2 * (min + x) <= x) by lra.
    enough (min <= NewtonRaphsonBisection F dF epsilon n
        (if Req_EM_T (dF x) 0 then 1 / 2 * (min + x)
         else if Rle_dec (x - F x / dF x) min then 1 / 2 * (min + x)
         else if Rge_dec (x - F x / dF x) x then 1 / 2 * (min + x) else x - F x / dF x) min x <= x) by lra.
    apply IH. destruct (Req_EM_T _ 0); auto. destruct (Rle_dec _ min); auto. destruct (Rge_dec _ x); auto. lra.
  - assert (B : x <= 1 / 2 * (x + max) <= max) by lra.
    enough (x <= NewtonRaphsonBisection F dF epsilon n
        (if Req_EM_T (dF x) 0 then 1 / 2 * (x + max)
         else if Rle_dec (x - F x / dF x) x then 1 / 2 * (x + max)
         else if Rge_dec (x - F x / dF x) max then 1 / 2 * (x + max) else x - F x / dF x) x max <= max) by lra.
    apply IH. destruct (Req_EM_T _ 0); auto. destruct (Rle_dec _ x); auto. destruct (Rge_dec _ max); auto. lra.
Qed.
Print Assumptions C77_stays_in_range.

(* and it finds the root of a linear function inside the interval in the second round *)
Theorem C77_bisection_linear a r n x min max :
  0 < a -> min <= x <= max -> min < r < max -> (2 <= n)%nat ->
  NewtonRaphsonBisection (fun x => a * (x - r)) (fun _ => a) 0 n x min max = r.
Proof.
  intros A X M N. destruct n as [|[|n]]; try lia.
  assert (Z : forall y, fSmall (a * (y - r)) 0 = true <-> y = r).
  { intros y. unfold fSmall. destruct (Rle_dec (Rabs (a * (y - r))) 0) as [H|H].
    - split; auto. intros _. pose proof (Rabs_pos (a * (y - r))).
      assert (E : Rabs (a * (y - r)) = 0) by lra. destruct (Req_EM_T (a * (y - r)) 0) as [E'|E'].
      + apply Rmult_integral in E'. lra.
      + apply Rabs_no_R0 in E'. contradiction.
    - split; [discriminate|]. intros ->. exfalso. apply H. rewrite Rminus_diag_eq by auto.
      rewrite Rmult_0_r, Rabs_R0. lra. }
  cbn [NewtonRaphsonBisection]. destruct (fSmall (a * (x - r)) 0) eqn:E; [apply Z; auto|].
  assert (XR : x <> r) by (intros Q; apply Z in Q; congruence).
  destruct (Req_EM_T a 0); [lra|].
  replace (x - a * (x - r) / a) with r by (field; lra).
  assert (S : fSmall (a * (r - r)) 0 = true) by (apply Z; auto).
  destruct (Rgt_dec (a * (x - r)) 0) as [P|P].
  - assert (r < x).
    { destruct (Rlt_dec r x); auto. exfalso. assert (0 <= a * (r - x)) by (apply Rmult_le_pos; lra). lra. }
    destruct (Rle_dec r min); [lra|]. destruct (Rge_dec r x); [lra|]. rewrite S. reflexivity.
  - assert (x < r).
    { destruct (Rlt_dec x r); auto. exfalso. assert (0 < a * (x - r)) by (apply Rmult_lt_0_compat; lra). lra. }
    destruct (Rle_dec r x); [lra|]. destruct (Rge_dec r max); [lra|]. rewrite S. reflexivity.
Qed.
Print Assumptions C77_bisection_linear.

(* without a usable derivative the method is plain bisection: after n rounds the result is within (max - min) / 2^n of a
   root, for every function that is negative to the left of its root r and positive to the right *)
Theorem C77_bisection_converges F epsilon n min max r :
  (forall y, y < r -> F y < 0) -> (forall y, r < y -> 0 < F y) -> F r = 0 -> min <= r <= max ->
  let x := NewtonRaphsonBisection F (fun _ => 0) epsilon n ((min + max) / 2) min max in
  Rabs (F x) <= epsilon \/ Rabs (x - r) <= (max - min) / 2 / 2 ^ n.
Proof.
  intros L R Z. cbv zeta.
  assert (G : forall n min max x, x = (min + max) / 2 -> min <= r <= max ->
    Rabs (F (NewtonRaphsonBisection F (fun _ => 0) epsilon n x min max)) <= epsilon \/
    Rabs (NewtonRaphsonBisection F (fun _ => 0) epsilon n x min max - r) <= (max - min) / 2 / 2 ^ n).
  { clear n min max. induction n as [|n IH]; cbn [NewtonRaphsonBisection]; intros min max x E M.
    - right. cbn [pow]. apply Rabs_le. lra.
    - unfold fSmall. destruct (Rle_dec (Rabs (F x)) epsilon); [left; auto|].
      destruct (Req_EM_T 0 0) as [_|]; [|congruence].
      assert (P : 0 < 2 ^ n) by (apply pow_lt; lra).
      destruct (Rgt_dec (F x) 0).
      + assert (r <= x). { destruct (Rle_lt_dec r x); auto. specialize (L x). lra. }
        destruct (IH min x (1 / 2 * (min + x))) as [|Q]; [lra|lra|left; auto|right].
        replace ((max - min) / 2 / 2 ^ S n) with ((x - min) / 2 / 2 ^ n); auto. subst x. cbn [pow]. field. lra.
      + assert (x <= r). { destruct (Rle_lt_dec x r); auto. specialize (R x). lra. }
        destruct (IH x max (1 / 2 * (x + max))) as [|Q]; [lra|lra|left; auto|right].
        replace ((max - min) / 2 / 2 ^ S n) with ((max - x) / 2 / 2 ^ n); auto. subst x. cbn [pow]. field. lra. }
  intros M. apply G; auto.
Qed.
Print Assumptions C77_bisection_converges.

Example C77_example :
  NewtonRaphson (fun x => 2 * x - 6) (fun _ => 2) 0 2 10 = Some 3 /\
  NewtonRaphsonBisection (fun x => 2 * (x - 3)) (fun _ => 2) 0 2 10 0 10 = 3.
Proof.
  split; [|apply C77_bisection_linear; lra || lia].
  cbn. unfold fSmall. destruct (Rle_dec _ 0) as [H|H].
  - exfalso. rewrite Rabs_right in H; lra.
  - destruct (Req_EM_T 2 0); [lra|].
    replace (10 - (2 * 10 - 6) / 2) with 3 by lra. replace (2 * 3 - 6) with 0 by lra. rewrite Rabs_R0.
    destruct (Rle_dec 0 0); auto. lra.
Qed.
