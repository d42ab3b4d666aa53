(* C83 to C86: vectors, their order, quaternions and GenericBSpline of bss-util/vector.h over the real numbers. *)
From Coq Require Import Reals List Arith ZArith Lia Lra Bool.
From Verif Require Import Matrix DeterminantProps MatrixProps.
Import ListNotations.
Local Open Scope R_scope.

(* ------------------------------------------------------------------ lengths, areas, cross products *)

Definition dot (n : nat) (v w : vec) : R := sum n (fun i => v i * w i).
Definition minus (v w : vec) : vec := fun i => v i - w i.

Lemma NVectorDot_sum : forall N l r, NVectorDot N l r = dot N l r.
Proof.
  unfold NVectorDot, dot. induction N as [|N IH]; intros l r; cbn [for_ sum]; [reflexivity|]. rewrite IH. reflexivity.
Qed.
Lemma float4_sum : forall l r, NVectorDot_float4 l r = dot 4 l r.
Proof. intros l r. unfold NVectorDot_float4, Sum, dot. cbv [vadd vmul Shuffle nth sum]. ring. Qed.
Lemma distance_sum : forall N l r, (0 < N)%nat -> NVectorDistanceSq N l r = dot N (minus l r) (minus l r).
Proof.
  intros N l r H. unfold NVectorDistanceSq, dot, minus. cbv zeta.
  rewrite (dot_sum N (fun i => (r i - l i) * (r i - l i)) H). apply sum_ext. intros; ring.
Qed.

Lemma sum_nonneg : forall n f, (forall i, (i < n)%nat -> 0 <= f i) -> 0 <= sum n f.
Proof.
  induction n as [|n IH]; intros f H; cbn [sum]; [lra|].
  specialize (IH f ltac:(intros; apply H; lia)). specialize (H n ltac:(lia)). lra.
Qed.
Lemma dot_self : forall n v, 0 <= dot n v v.
Proof. intros. apply sum_nonneg. intros. apply Rle_0_sqr. Qed.
Lemma dot_self_pos : forall n v i, (i < n)%nat -> v i <> 0 -> 0 < dot n v v.
Proof.
  unfold dot. induction n as [|n IH]; intros v i H V; [lia|]. cbn [sum].
  destruct (Nat.eq_dec i n) as [->|N].
  - pose proof (dot_self n v) as D. unfold dot in D. pose proof (Rsqr_pos_lt _ V) as Q. unfold Rsqr in Q. lra.
  - specialize (IH v i ltac:(lia) V). pose proof (Rle_0_sqr (v n)) as Q. unfold Rsqr in Q. lra.
Qed.

Theorem C83_Dot_Distance :
  forall N l r, (0 < N)%nat ->
    NVectorDot N l r = dot N l r /\ NVectorDot_float4 l r = dot 4 l r /\
    NVectorDistanceSq N l r = dot N (minus l r) (minus l r) /\
    0 <= NVectorDistance N l r /\
    NVectorDistance N l r * NVectorDistance N l r = dot N (minus l r) (minus l r).
Proof.
  intros N l r H. split; [apply NVectorDot_sum|]. split; [apply float4_sum|]. split; [apply distance_sum; exact H|].
  unfold NVectorDistance. rewrite distance_sum by exact H. split; [apply sqrt_pos|]. apply sqrt_sqrt, dot_self.
Qed.
Print Assumptions C83_Dot_Distance.

(** A vector that is not zero is scaled by a positive number to length 1. *)
Theorem C83_Normalize :
  forall N v i, (i < N)%nat -> v i <> 0 ->
    (exists k, 0 < k /\ (forall j, NVectorNormalize N v j = k * v j)) /\
    dot N (NVectorNormalize N v) (NVectorNormalize N v) = 1 /\
    (N = 4%nat -> agree 4 (NVectorNormalize_float4 v) (NVectorNormalize N v)).
Proof.
  intros N v i H V. pose proof (dot_self_pos N v i H V) as P. unfold NVectorNormalize. rewrite NVectorDot_sum.
  assert (S0 : 0 < sqrt (dot N v v)) by (apply sqrt_lt_R0; exact P).
  assert (SS : sqrt (dot N v v) * sqrt (dot N v v) = dot N v v) by (apply sqrt_sqrt; lra).
  set (s := sqrt (dot N v v)) in *. split; [|split].
  - exists (1 / s). split; [unfold Rdiv; rewrite Rmult_1_l; apply Rinv_0_lt_compat; exact S0|]. intros j. ring.
  - unfold dot at 1. rewrite (sum_ext N _ (fun k => v k * v k * (1 / s * (1 / s)))) by (intros; ring).
    rewrite sum_scale. change (sum N (fun k => v k * v k)) with (dot N v v). rewrite <- SS. field. lra.
  - intros ->. intros j hj. unfold NVectorNormalize_float4, vdiv. rewrite float4_sum. fold s.
    revert j hj. apply below4; cbn [lanes nth]; unfold Rdiv; ring.
Qed.
Print Assumptions C83_Normalize.

(** Half the area of the parallelogram spanned by two sides (Gram's determinant), in any number of dimensions. *)
Lemma dot_minus : forall n x y z,
  dot n (minus y z) (minus y z) =
  dot n (minus x y) (minus x y) + dot n (minus x z) (minus x z) - 2 * dot n (minus x y) (minus x z).
Proof.
  unfold dot, minus. induction n as [|n IH]; intros x y z; cbn [sum]; [ring|]. rewrite (IH x y z). ring.
Qed.

Theorem C83_NTriangleArea :
  forall N x1 x2 x3, (0 < N)%nat ->
    let u := minus x1 x2 in let v := minus x1 x3 in
    NTriangleArea N x1 x2 x3 = sqrt (dot N u u * dot N v v - dot N u v * dot N u v) / 2.
Proof.
  intros N x1 x2 x3 H u v. unfold NTriangleArea, NVectorDistance. rewrite !distance_sum by exact H. fold u v.
  pose proof (dot_minus N x1 x2 x3) as E. fold u v in E.
  set (a := sqrt (dot N u u)). set (b := sqrt (dot N v v)).
  set (c := sqrt (dot N (minus x2 x3) (minus x2 x3))).
  assert (A : a * a = dot N u u) by apply sqrt_sqrt, dot_self.
  assert (B : b * b = dot N v v) by apply sqrt_sqrt, dot_self.
  assert (C : c * c = dot N (minus x2 x3) (minus x2 x3)) by apply sqrt_sqrt, dot_self.
  rewrite E in C. cbv zeta.
  replace ((a + b + c) / 2 * ((a + b + c) / 2 - a) * ((a + b + c) / 2 - b) * ((a + b + c) / 2 - c))
    with ((dot N u u * dot N v v - dot N u v * dot N u v) / (2 * 2)).
  2:{ replace ((a + b + c) / 2 * ((a + b + c) / 2 - a) * ((a + b + c) / 2 - b) * ((a + b + c) / 2 - c))
        with ((4 * (a * a) * (b * b) - (a * a + b * b - c * c) * (a * a + b * b - c * c)) / 16) by field.
      rewrite A, B, C. field. }
  set (g := dot N u u * dot N v v - dot N u v * dot N u v).
  destruct (Rle_lt_dec 0 g) as [G|G].
  - rewrite sqrt_div by lra. rewrite sqrt_square by lra. reflexivity.
  - rewrite (sqrt_neg_0 g) by lra. rewrite sqrt_neg_0; [field|]. lra.
Qed.
Print Assumptions C83_NTriangleArea.

Theorem C83_Cross :
  forall v w,
    let c := Cross3 v w in
    dot 3 v c = 0 /\ dot 3 w c = 0 /\
    dot 3 c c = dot 3 v v * dot 3 w w - dot 3 v w * dot 3 v w /\
    det 3 (fun i => match i with 0%nat => v | 1%nat => w | _ => c end) = dot 3 c c /\
    (forall i, (i < 3)%nat -> Cross3 w v i = - c i) /\
    Cross2 (v 0%nat) (v 1%nat) (w 0%nat) (w 1%nat) = det 2 (fun i => match i with O => v | _ => w end).
Proof.
  intros v w c. rewrite <- det3_spec, <- det2_spec. subst c. unfold dot.
  cbv [sum Cross3 lanes nth Determinant3 D3 Determinant2 D2 Cross2].
  repeat split; try ring. apply below3; ring.
Qed.
Print Assumptions C83_Cross.

Example C83_example :
  NTriangleArea 2 (lanes [0; 0]) (lanes [3; 0]) (lanes [0; 4]) = 6 /\
  dot 2 (NVectorNormalize 2 (lanes [3; 4])) (NVectorNormalize 2 (lanes [3; 4])) = 1.
Proof.
  split.
  - rewrite C83_NTriangleArea by lia. unfold dot, minus. cbn [sum lanes nth].
    replace (_ - _) with (12 * 12) by ring. rewrite sqrt_square by lra. field.
  - apply (C83_Normalize 2 (lanes [3; 4]) 0%nat); [lia|cbn; lra].
Qed.

(* ------------------------------------------------------------------ the order of vectors *)

(** The order of words in a dictionary: the first place where the vectors differ decides. *)
Definition before (n : nat) (l r : vec) : Prop :=
  exists i, (i < n)%nat /\ (forall j, (j < i)%nat -> l j = r j) /\ l i < r i.

Lemma sgn_cases : forall x y,
  (x < y /\ SGNCOMPARE x y = (-1)%Z) \/ (x = y /\ SGNCOMPARE x y = 0%Z) \/ (x > y /\ SGNCOMPARE x y = 1%Z).
Proof.
  intros x y. unfold SGNCOMPARE. destruct (Rgt_dec x y), (Rlt_dec x y); try lra.
  - right; right; split; [assumption|reflexivity].
  - left; split; [assumption|reflexivity].
  - right; left; split; [lra|reflexivity].
Qed.

Lemma vcompare_ok : forall n l r,
  (vcompare n l r = (-1)%Z /\ before n l r) \/ (vcompare n l r = 1%Z /\ before n r l) \/
  (vcompare n l r = 0%Z /\ forall j, (j < n)%nat -> l j = r j).
Proof.
  unfold vcompare. induction n as [|n IH]; intros l r; cbn [for_].
  - right; right. split; [reflexivity|lia].
  - destruct (IH l r) as [[E B]|[[E B]|[E B]]]; rewrite E; cbn [Z.eqb].
    + left. split; [reflexivity|]. destruct B as (i & I & B). exists i. split; [lia|exact B].
    + right; left. split; [reflexivity|]. destruct B as (i & I & B). exists i. split; [lia|exact B].
    + destruct (sgn_cases (l n) (r n)) as [[H S0]|[[H S0]|[H S0]]]; rewrite S0.
      * left. split; [reflexivity|]. exists n. auto.
      * right; right. split; [reflexivity|]. intros j hj. destruct (Nat.eq_dec j n) as [->|]; [exact H|apply B; lia].
      * right; left. split; [reflexivity|]. exists n. split; [lia|]. split; [|exact H]. intros; symmetry; auto.
Qed.

Lemma before_asym : forall n l r, before n l r -> before n r l -> False.
Proof.
  intros n l r (i & I & A & B) (j & J & C & D).
  destruct (Nat.lt_trichotomy i j) as [H|[->|H]].
  - specialize (C i H). lra.
  - lra.
  - specialize (A j H). lra.
Qed.
Lemma before_differs : forall n l r, before n l r -> ~ (forall j, (j < n)%nat -> l j = r j).
Proof. intros n l r (i & I & A & B) E. rewrite (E i I) in B. lra. Qed.

Theorem C84_order :
  forall n l r,
    (vlt n l r = true <-> before n l r) /\ (vgt n l r = true <-> before n r l) /\
    (vle n l r = true <-> before n l r \/ forall j, (j < n)%nat -> l j = r j) /\
    (vge n l r = true <-> before n r l \/ forall j, (j < n)%nat -> l j = r j) /\
    (veq n l r = true <-> forall j, (j < n)%nat -> l j = r j).
Proof.
  intros n l r.
  assert (Q : veq n l r = true <-> forall j, (j < n)%nat -> l j = r j).
  { unfold veq. induction n as [|n IH]; cbn [for_]; [split; [lia|reflexivity]|].
    rewrite andb_true_iff, IH. destruct (Req_EM_T (l n) (r n)) as [E|E].
    - split; [|intros H; split; [intros; apply H; lia|reflexivity]].
      intros [H _] j hj. destruct (Nat.eq_dec j n) as [->|]; [exact E|apply H; lia].
    - split; [intros [_ H]; discriminate|intros H; exfalso; apply E, H; lia]. }
  unfold vle, vge, vlt, vgt.
  destruct (vcompare_ok n l r) as [[E B]|[[E B]|[E B]]]; rewrite E; cbn [Z.ltb Z.compare negb];
    repeat split; try exact B; try (intros; discriminate); try (apply Q); auto; intros H; exfalso.
  - exact (before_asym _ _ _ B H).
  - destruct H as [H|H]; [exact (before_asym _ _ _ B H)|exact (before_differs _ _ _ B H)].
  - exact (before_asym _ _ _ B H).
  - destruct H as [H|H]; [exact (before_asym _ _ _ B H)|].
    apply (before_differs _ _ _ B). intros; symmetry; auto.
  - exact (before_differs _ _ _ H B).
  - apply (before_differs _ _ _ H). intros; symmetry; auto.
Qed.
Print Assumptions C84_order.

Theorem C84_total_order :
  forall n a b c,
    (vlt n a b = true -> vlt n b c = true -> vlt n a c = true) /\ vlt n a a = false /\
    (vlt n a b = true \/ veq n a b = true \/ vlt n b a = true) /\ vgt n a b = vlt n b a.
Proof.
  intros n a b c. split; [|split; [|split]].
  - intros H K. apply (C84_order n a b) in H. apply (C84_order n b c) in K. apply (C84_order n a c).
    destruct H as (i & I & A & B), K as (j & J & C & D).
    destruct (Nat.lt_trichotomy i j) as [H|[->|H]].
    + exists i. split; [exact I|]. split; [|rewrite <- (C i H); exact B].
      intros k hk. rewrite (A k hk). apply C. lia.
    + exists j. split; [exact I|]. split; [|lra]. intros k hk. rewrite (A k hk). apply C. lia.
    + exists j. split; [exact J|]. split; [|rewrite (A j H); exact D].
      intros k hk. rewrite (A k) by lia. apply C. lia.
  - destruct (vlt n a a) eqn:E; [|reflexivity]. apply (C84_order n a a) in E.
    exfalso. exact (before_asym _ _ _ E E).
  - destruct (vcompare_ok n a b) as [[_ B]|[[_ B]|[_ B]]].
    + left. apply (C84_order n a b). exact B.
    + right; right. apply (C84_order n b a). exact B.
    + right; left. apply (C84_order n a b). exact B.
  - apply eq_true_iff_eq. destruct (C84_order n a b) as (_ & G & _), (C84_order n b a) as (L & _).
    rewrite G, L. reflexivity.
Qed.
Print Assumptions C84_total_order.

Example C84_example : vlt 3 (lanes [1; 5; 9]) (lanes [1; 6; 2]) = true.
Proof. apply (C84_order 3). exists 1%nat. split; [lia|]. split; [intros [|j] H; [reflexivity|lia]|cbn; lra]. Qed.

(* ------------------------------------------------------------------ quaternions *)

(** Hamilton's product of quaternions stored as (x, y, z, w), the conjugate, and turning a vector by a quaternion. *)
Definition qmul (p q : vec) : vec :=
  let x := p 0%nat in let y := p 1%nat in let z := p 2%nat in let w := p 3%nat in
  let X := q 0%nat in let Y := q 1%nat in let Z := q 2%nat in let W := q 3%nat in
  lanes [w * X + x * W + y * Z - z * Y;
         w * Y - x * Z + y * W + z * X;
         w * Z + x * Y - y * X + z * W;
         w * W - x * X - y * Y - z * Z].
Definition conjugate (q : vec) : vec := lanes [- q 0%nat; - q 1%nat; - q 2%nat; q 3%nat].
Definition rotated (q v : vec) : vec := qmul (qmul q (lanes [v 0%nat; v 1%nat; v 2%nat; 0])) (conjugate q).
Definition unit_quaternion (q : vec) : Prop := dot 4 q q = 1.

(** The claim: the matrix of a unit quaternion turns column vectors as the quaternion does. *)
Definition rotation_matrix (f : vec -> mat) : Prop :=
  forall q v, unit_quaternion q -> agree 3 (column 4 (f q) (lanes [v 0%nat; v 1%nat; v 2%nat; 1])) (rotated q v).

(** What the function returns instead: entries off the diagonal are half of those of the rotation matrix, entries on
    the diagonal are (1 - e) / 2 for the entry e of the rotation matrix; the fourth row and column are right. *)
Theorem C85_FromQuaternion_partial :
  forall q v, unit_quaternion q ->
    let m := FromQuaternion_float4 q in
    let fixed := fun i j => if Nat.eqb i j then 1 - 2 * m i j else 2 * m i j in
    agree 3 (column 3 fixed v) (rotated q v) /\
    (forall i, (i < 4)%nat -> m i 3%nat = one i 3%nat /\ m 3%nat i = one 3%nat i).
Proof.
  intros q v U m fixed. subst m fixed. split.
  - unfold unit_quaternion, dot in U. cbn [sum] in U. intros i; revert i.
    assert (W : q 3%nat * q 3%nat = 1 - q 0%nat * q 0%nat - q 1%nat * q 1%nat - q 2%nat * q 2%nat) by lra.
    apply below3; cbv [column sum rotated qmul conjugate lanes nth FromQuaternion_float4 set1 vadd vmul Nat.eqb];
      ring [W].
  - apply below4; split; cbv [FromQuaternion_float4 lanes nth set1 vadd vmul one Nat.eqb]; ring.
Qed.
Print Assumptions C85_FromQuaternion_partial.

(** The quaternion that turns nothing is not turned into the identity. *)
Theorem C85_rotation_refuted : ~ rotation_matrix FromQuaternion_float4.
Proof.
  intros H. specialize (H (lanes [0; 0; 0; 1]) (lanes [1; 0; 0])).
  assert (U : unit_quaternion (lanes [0; 0; 0; 1])).
  { unfold unit_quaternion, dot. cbn [sum lanes nth]. ring. }
  specialize (H U 0%nat ltac:(lia)).
  cbv [column sum rotated qmul conjugate lanes nth FromQuaternion_float4 set1 vadd vmul] in H. lra.
Qed.
Print Assumptions C85_rotation_refuted.

Example C85_example : unit_quaternion (lanes [0; 0; 3 / 5; 4 / 5]).
Proof. unfold unit_quaternion, dot. cbn [sum lanes nth]. field. Qed.

(* ------------------------------------------------------------------ GenericBSpline *)

(** The claim: the powers of t, times the matrix, times the control points. *)
Definition spline (t : R) (p : vec) (m : mat) : R :=
  sum 4 (fun k => p k * sum 4 (fun i => t ^ (3 - i) * m i k)).

(** What the function returns: three times the first term. *)
Theorem C86_GenericBSpline_partial :
  forall t p m, GenericBSpline t p m = 3 * (p 0%nat * sum 4 (fun i => t ^ (3 - i) * m i 0%nat)).
Proof.
  intros t p m. cbv [GenericBSpline MatrixMultiply1x4 vadd vmul set1 lanes nth sum Nat.sub pow]. ring.
Qed.
Print Assumptions C86_GenericBSpline_partial.

Theorem C86_spline_refuted : ~ (forall t p m, GenericBSpline t p m = spline t p m).
Proof.
  intros H. specialize (H 1 (lanes [1; 0; 0; 0]) (rows [[1]; []; []; []])).
  rewrite C86_GenericBSpline_partial in H. unfold spline in H. cbv [sum lanes rows nth Nat.sub pow] in H. lra.
Qed.
Print Assumptions C86_spline_refuted.
