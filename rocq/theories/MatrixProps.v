(* C81, C82: matrix products with overlapping arguments, rotations and affine transforms of bss-util/vector.h. *)
From Coq Require Import Reals List Arith Lia Lra.
From Verif Require Import Matrix DeterminantProps.
Import ListNotations.
Local Open Scope R_scope.

(* ------------------------------------------------------------------ products *)

(** The T[M][N] at address [p] of a memory, and the cells it occupies. *)
Definition matrix_at (mem : memory) (N p : nat) : mat := fun i j => mem (p + i * N + j)%nat.
Definition occupies (M N p q : nat) : Prop := (p <= q < p + M * N)%nat.

(** After the call the [M] by [P] matrix at [out] is the product of the matrices that were at [l] and [r] before the
    call, and no other cell has changed. *)
Definition multiplies (M N P l r out : nat) (mem mem' : memory) : Prop :=
  (forall i j, (i < M)%nat -> (j < P)%nat ->
     matrix_at mem' P out i j = sum N (fun k => matrix_at mem N l i k * matrix_at mem P r k j)) /\
  (forall q, ~ occupies M P out q -> mem' q = mem q).

Lemma store_same : forall m p v, store m p v p = v.
Proof. intros. unfold store. rewrite Nat.eqb_refl. reflexivity. Qed.
Lemma store_other : forall m p v q, q <> p -> store m p v q = m q.
Proof. intros m p v q H. unfold store. destruct (Nat.eqb_spec q p); [contradiction|reflexivity]. Qed.

(** Storing a row. *)
Lemma row_stored : forall P b (v : nat -> R) s q,
  for_ P (fun j s => store s (b + j)%nat (v j)) s q =
  if andb (Nat.leb b q) (Nat.ltb q (b + P)) then v (q - b)%nat else s q.
Proof.
  induction P as [|P IH]; intros b v s q; cbn [for_].
  - destruct (Nat.leb_spec b q), (Nat.ltb_spec q (b + 0)); cbn [andb]; try reflexivity; lia.
  - unfold store at 1. destruct (Nat.eqb_spec q (b + P)) as [->|N].
    + destruct (Nat.leb_spec b (b + P)), (Nat.ltb_spec (b + P) (b + S P)); cbn [andb]; try lia.
      f_equal. lia.
    + rewrite IH. destruct (Nat.leb_spec b q), (Nat.ltb_spec q (b + P)), (Nat.ltb_spec q (b + S P));
        cbn [andb]; try reflexivity; lia.
Qed.

Lemma row_cell : forall P i j, (j < P)%nat -> forall i', i = i' \/ (i * P + j < i' * P)%nat \/ (i' * P + P <= i * P + j)%nat.
Proof. intros P i j H i'. destruct (Nat.lt_trichotomy i i') as [L|[L|L]]; [right; left|auto|right; right]; nia. Qed.

(** Storing the rows one after the other when the values do not depend on what has been stored. *)
Lemma rows_stored : forall M P b (v : mat) s,
  (forall i j, (i < M)%nat -> (j < P)%nat ->
     for_ M (fun i => for_ P (fun j s => store s (b + i * P + j)%nat (v i j))) s (b + i * P + j)%nat = v i j) /\
  (forall q, ~ occupies M P b q ->
     for_ M (fun i => for_ P (fun j s => store s (b + i * P + j)%nat (v i j))) s q = s q).
Proof.
  induction M as [|M IH]; intros P b v s; cbn [for_].
  - split; [lia|reflexivity].
  - destruct (IH P b v s) as [A B]. split.
    + intros i j hi hj. rewrite row_stored.
      destruct (row_cell P i j hj M) as [->|[L|L]].
      * destruct (Nat.leb_spec (b + M * P) (b + M * P + j)), (Nat.ltb_spec (b + M * P + j) (b + M * P + P)); cbn [andb];
          try lia. f_equal. lia.
      * destruct (Nat.leb_spec (b + M * P) (b + i * P + j)); cbn [andb]; [lia|]. apply A; [|exact hj].
        destruct (Nat.lt_trichotomy i M) as [K|[K|K]]; [exact K|nia|nia].
      * exfalso. assert (i <= M)%nat by lia. nia.
    + intros q H. unfold occupies in *. rewrite row_stored.
      destruct (Nat.leb_spec (b + M * P) q), (Nat.ltb_spec q (b + M * P + P)); cbn [andb].
      * exfalso. apply H. cbn [Nat.mul]. lia.
      * apply B. cbn [Nat.mul] in H. lia.
      * apply B. cbn [Nat.mul] in H. lia.
      * apply B. cbn [Nat.mul] in H. lia.
Qed.

Lemma dot_sum : forall n f, (0 < n)%nat -> for_ (n - 1) (fun k acc => acc + f (S k)) (f O) = sum n f.
Proof.
  intros n f H. destruct n as [|n]; [lia|]. replace (S n - 1)%nat with n by lia. clear H.
  induction n as [|n IH]; [cbn [for_ sum]; ring|]. cbn [for_]. rewrite IH. reflexivity.
Qed.

Theorem C81_MatrixMultiply :
  forall M N P l r out mem, (0 < N)%nat ->
    multiplies M N P l r out mem (MatrixMultiply M N P l r out mem).
Proof.
  intros M N P l r out mem HN. unfold MatrixMultiply, multiplies.
  cbv zeta. match goal with |- context [for_ M (fun i => for_ P (fun j s => store s _ (@?u i j)))] => set (v := u) end.
  destruct (rows_stored M P out v mem) as [A B]. split; [|exact B].
  intros i j hi hj. unfold matrix_at at 1. rewrite A by assumption. unfold v.
  rewrite <- (dot_sum N (fun k => matrix_at mem N l i k * matrix_at mem P r k j) HN).
  unfold matrix_at. rewrite !Nat.mul_0_l, !Nat.add_0_r. reflexivity.
Qed.
Print Assumptions C81_MatrixMultiply.

(** The rows written so far do not touch the row of [l] about to be read. *)
Theorem C81_MatrixMultiply_sse :
  forall M l r out mem,
    (l = out \/ (forall q, occupies M 4 l q -> ~ occupies M 4 out q)) ->
    multiplies M 4 4 l r out mem (MatrixMultiply_sse M l r out mem).
Proof.
  intros M l r out mem H. unfold MatrixMultiply_sse, multiplies.
  cbv zeta. match goal with |- context [for_ M ?u mem] => set (f := u) end.
  assert (I : forall n, (n <= M)%nat ->
    (forall i j, (i < n)%nat -> (j < 4)%nat ->
       matrix_at (for_ n f mem) 4 out i j =
       sum 4 (fun k => matrix_at mem 4 l i k * matrix_at mem 4 r k j)) /\
    (forall q, ~ occupies n 4 out q -> for_ n f mem q = mem q)).
  { induction n as [|n IH]; intros hn; [split; [lia|reflexivity]|].
    destruct (IH ltac:(lia)) as [A B]. cbn [for_]. set (s := for_ n f mem) in *.
    assert (L : forall k, (k < 4)%nat -> s (l + n * 4 + k)%nat = mem (l + n * 4 + k)%nat).
    { intros k hk. apply B. destruct H as [->|H]; unfold occupies in *; [lia|].
      intros Q. apply (H (l + n * 4 + k)%nat); lia. }
    split.
    - intros i j hi hj. unfold matrix_at at 1. unfold f, store4. rewrite row_stored.
      destruct (row_cell 4 i j hj n) as [->|[K|K]].
      + destruct (Nat.leb_spec (out + n * 4) (out + n * 4 + j)), (Nat.ltb_spec (out + n * 4 + j) (out + n * 4 + 4));
          cbn [andb]; try lia.
        replace (out + n * 4 + j - (out + n * 4))%nat with j by lia.
        unfold vadd, vmul, set1, load4, matrix_at. cbn [sum].
        rewrite !L by lia. rewrite <- (Nat.add_0_r (l + n * 4)) at 1. rewrite L by lia.
        replace (r + 0 * 4 + j)%nat with (r + j)%nat by lia. replace (1 * 4)%nat with 4%nat by lia.
        replace (2 * 4)%nat with 8%nat by lia. replace (3 * 4)%nat with 12%nat by lia. ring.
      + destruct (Nat.leb_spec (out + n * 4) (out + i * 4 + j)); cbn [andb]; [lia|].
        apply A; [lia|exact hj].
      + lia.
    - intros q Q. unfold f, store4. rewrite row_stored. unfold occupies in *.
      destruct (Nat.leb_spec (out + n * 4) q), (Nat.ltb_spec q (out + n * 4 + 4)); cbn [andb]; try lia;
        apply B; lia. }
  apply (I M). lia.
Qed.
Print Assumptions C81_MatrixMultiply_sse.

(** Squaring a matrix in place: all three arguments are the same cells. *)
Example C81_example :
  let mem := fun q => nth q [1; 2; 3; 4; 0; 1; 0; 0; 0; 0; 1; 0; 5; 0; 0; 1] 0 in
  MatrixMultiply_sse 4 0 0 0 mem 0%nat = 21 /\ MatrixMultiply_sse 4 0 0 0 mem 3%nat = 8 /\
  MatrixMultiply 4 4 4 0 0 0 mem 0%nat = 21 /\ MatrixMultiply 2 3 2 1 7 0 mem 0%nat = 0.
Proof.
  intros mem. destruct (C81_MatrixMultiply_sse 4 0 0 0 mem (or_introl eq_refl)) as [A _].
  destruct (C81_MatrixMultiply 4 4 4 0 0 0 mem ltac:(lia)) as [B _].
  destruct (C81_MatrixMultiply 2 3 2 1 7 0 mem ltac:(lia)) as [C _].
  specialize (A 0%nat) as A0. specialize (A0 0%nat ltac:(lia) ltac:(lia)) as A00.
  specialize (A0 3%nat ltac:(lia) ltac:(lia)). specialize (B 0%nat 0%nat ltac:(lia) ltac:(lia)).
  specialize (C 0%nat 0%nat ltac:(lia) ltac:(lia)).
  unfold matrix_at in A00, A0, B, C. cbn [Nat.add Nat.mul] in A00, A0, B, C. rewrite A00, A0, B, C.
  unfold mem. cbn [sum nth Nat.add Nat.mul]. repeat split; ring.
Qed.

(* ------------------------------------------------------------------ rotations and affine transforms *)

(** Column vector and row vector conventions. *)
Definition column (n : nat) (a : mat) (v : vec) : vec := fun i => sum n (fun k => a i k * v k).
Definition row (n : nat) (v : vec) (a : mat) : vec := fun j => sum n (fun k => v k * a k j).
Definition agree (n : nat) (v w : vec) : Prop := forall i, (i < n)%nat -> v i = w i.

(** Turning the plane by the angle [r] counter-clockwise. *)
Definition turn (r x y : R) : R * R := (x * cos r - y * sin r, x * sin r + y * cos r).

Ltac expand :=
  cbv [Rotation2 RotationX RotationY RotationZ Translation3 AffineTransform3 AffineTransform4 Translation4
       AffineRotationX AffineRotationY AffineRotationZ Diagonal3 M2x2 M3x3 M4x4 rows nth lanes column row times sum flip one
       Nat.eqb RotatePoint turn fst snd Determinant2 Determinant3 Determinant4 D2 D3].

Lemma sc : forall r, sin r * sin r + cos r * cos r = 1.
Proof. intros r. exact (sin2_cos2 r). Qed.
Lemma by_sc : forall r x y, x = y + 0 * (sin r * sin r + cos r * cos r - 1) -> x = y.
Proof. intros. lra. Qed.

(** A rotation of the plane: [Rotation2] turns column vectors, its transposed version row vectors. *)
Theorem C82_Rotation :
  forall r x y,
    agree 2 (column 2 (Rotation2 false r) (lanes [x; y])) (lanes [fst (turn r x y); snd (turn r x y)]) /\
    agree 2 (row 2 (lanes [x; y]) (Rotation2 true r)) (lanes [fst (turn r x y); snd (turn r x y)]) /\
    (forall s, same 2 (times 2 (Rotation2 false r) (Rotation2 false s)) (Rotation2 false (r + s))) /\
    RotatePoint x y r 0 0 = turn r x y.
Proof.
  intros r x y. repeat split.
  - intros i; revert i; apply below2; expand; ring.
  - intros i; revert i; apply below2; expand; ring.
  - intros s. each below2; expand; rewrite ?sin_plus, ?cos_plus; ring.
  - expand. f_equal; ring.
Qed.
Print Assumptions C82_Rotation.

(** The three axis rotations turn the plane of the other two axes and leave the axis alone, in both conventions and
    in both sizes; they are orthogonal with determinant 1 (no reflection). *)
Definition turns3 (axis : nat) (r : R) (v w : vec) : Prop :=
  let p := S axis mod 3 in let q := S (S axis) mod 3 in
  w axis = v axis /\ (w p, w q) = turn r (v p) (v q).

Theorem C82_axis_rotations :
  forall r v,
    (turns3 0 r v (column 3 (RotationX false r) v) /\ turns3 0 r v (row 3 v (RotationX true r))) /\
    (turns3 1 r v (column 3 (RotationY false r) v) /\ turns3 1 r v (row 3 v (RotationY true r))) /\
    (turns3 2 r v (column 3 (RotationZ false r) v) /\ turns3 2 r v (row 3 v (RotationZ true r))) /\
    (turns3 0 r v (column 4 (AffineRotationX false r) v) /\ turns3 0 r v (row 4 v (AffineRotationX true r))) /\
    (turns3 1 r v (column 4 (AffineRotationY false r) v) /\ turns3 1 r v (row 4 v (AffineRotationY true r))) /\
    (turns3 2 r v (column 4 (AffineRotationZ false r) v) /\ turns3 2 r v (row 4 v (AffineRotationZ true r))) /\
    column 4 (AffineRotationX false r) v 3%nat = v 3%nat /\ column 4 (AffineRotationY false r) v 3%nat = v 3%nat /\
    column 4 (AffineRotationZ false r) v 3%nat = v 3%nat /\ row 4 v (AffineRotationX true r) 3%nat = v 3%nat /\
    row 4 v (AffineRotationY true r) 3%nat = v 3%nat /\ row 4 v (AffineRotationZ true r) 3%nat = v 3%nat.
Proof.
  intros r v. unfold turns3. cbv zeta. cbn [Nat.modulo Nat.divmod Nat.sub fst snd].
  unfold turn. repeat match goal with |- _ /\ _ => split end;
    try match goal with |- (_, _) = (_, _) => apply f_equal2 end; expand; ring.
Qed.
Print Assumptions C82_axis_rotations.

Definition orthogonal (n : nat) (m : mat) : Prop := inverse_of n m (flip m).

Theorem C82_orthogonal :
  forall t r,
    (orthogonal 2 (Rotation2 t r) /\ Determinant2 (Rotation2 t r) = 1) /\
    (orthogonal 3 (RotationX t r) /\ Determinant3 (RotationX t r) = 1) /\
    (orthogonal 3 (RotationY t r) /\ Determinant3 (RotationY t r) = 1) /\
    (orthogonal 3 (RotationZ t r) /\ Determinant3 (RotationZ t r) = 1) /\
    (orthogonal 4 (AffineRotationX t r) /\ Determinant4 (AffineRotationX t r) = 1) /\
    (orthogonal 4 (AffineRotationY t r) /\ Determinant4 (AffineRotationY t r) = 1) /\
    (orthogonal 4 (AffineRotationZ t r) /\ Determinant4 (AffineRotationZ t r) = 1).
Proof.
  intros t r. pose proof (sc r) as E. unfold orthogonal, inverse_of.
  destruct t; repeat split; first [each below2 | each below3 | each below4 | idtac]; expand; nra.
Qed.
Print Assumptions C82_orthogonal.

(** Lengths are kept by every orthogonal matrix, hence by these. *)
Lemma sum_plus : forall n f g, sum n (fun k => f k + g k) = sum n f + sum n g.
Proof. induction n as [|n IH]; intros; cbn [sum]; [ring|rewrite IH; ring]. Qed.
Lemma sum_swap : forall n m f, sum n (fun i => sum m (fun j => f i j)) = sum m (fun j => sum n (fun i => f i j)).
Proof.
  induction n as [|n IH]; intros m f; cbn [sum].
  - induction m as [|m IHm]; cbn [sum]; [reflexivity|rewrite <- IHm; ring].
  - rewrite IH, <- sum_plus. reflexivity.
Qed.
Lemma sum_one : forall n i f, (i < n)%nat -> sum n (fun k => one i k * f k) = f i.
Proof.
  assert (Z : forall n i f, (n <= i)%nat -> sum n (fun k => one i k * f k) = 0).
  { induction n as [|n IH]; intros i f H; cbn [sum]; [reflexivity|]. rewrite IH by lia. unfold one.
    destruct (Nat.eqb_spec i n); [lia|ring]. }
  induction n as [|n IH]; intros i f H; [lia|]. cbn [sum]. unfold one at 2.
  destruct (Nat.eqb_spec i n) as [->|N]; [rewrite Z by lia; ring|]. rewrite IH by lia. ring.
Qed.

Lemma sum_prod : forall n f g, sum n f * sum n g = sum n (fun a => sum n (fun b => f a * g b)).
Proof.
  intros n f g. rewrite <- sum_scale. apply sum_ext. intros a ha. rewrite Rmult_comm, <- sum_scale. apply sum_ext.
  intros b hb. ring.
Qed.

Theorem C82_lengths :
  forall n m v w, orthogonal n m ->
    sum n (fun i => column n m v i * column n m w i) = sum n (fun i => v i * w i).
Proof.
  intros n m v w [_ O]. unfold column.
  rewrite (sum_ext n _ (fun i => sum n (fun a => sum n (fun b => (m i a * m i b) * (v a * w b))))).
  2:{ intros i hi. rewrite sum_prod. apply sum_ext. intros a ha. apply sum_ext. intros b hb. ring. }
  rewrite sum_swap. rewrite (sum_ext n _ (fun a => v a * w a)); [reflexivity|].
  intros a ha. rewrite sum_swap.
  rewrite (sum_ext n _ (fun b => one a b * (v a * w b))).
  2:{ intros b hb. rewrite sum_scale. f_equal. exact (O a b ha hb). }
  rewrite (sum_one n a (fun b => v a * w b) ha). reflexivity.
Qed.
Print Assumptions C82_lengths.

(** The affine transform: turn about the centre, then move.  The row form is the product documented at line 936. *)
Theorem C82_AffineTransform :
  forall x y r cx cy px py,
    (let p := turn r (px - cx) (py - cy) in
     agree 3 (column 3 (AffineTransform3 false x y r cx cy) (lanes [px; py; 1]))
             (lanes [fst p + cx + x; snd p + cy + y; 1]) /\
     agree 3 (row 3 (lanes [px; py; 1]) (AffineTransform3 true x y r cx cy))
             (lanes [fst p + cx + x; snd p + cy + y; 1])) /\
    RotatePoint px py r cx cy = (let p := turn r (px - cx) (py - cy) in (fst p + cx, snd p + cy)) /\
    same 3 (AffineTransform3 true x y r cx cy)
      (times 3 (times 3 (times 3 (Inverse3 (Translation3 true cx cy)) (RotationZ true r)) (Translation3 true cx cy))
         (Translation3 true x y)).
Proof.
  intros x y r cx cy px py. repeat split.
  - intros i; revert i; apply below3; expand; ring.
  - intros i; revert i; apply below3; expand; ring.
  - expand. f_equal; ring.
  - each below3; cbv [Inverse3 Inverse3_with]; expand; field.
Qed.
Print Assumptions C82_AffineTransform.

Theorem C82_AffineTransform4 :
  forall x y z r cx cy px py pz,
    (let p := turn r (px - cx) (py - cy) in
     agree 4 (column 4 (AffineTransform4 false x y z r cx cy) (lanes [px; py; pz; 1]))
             (lanes [fst p + cx + x; snd p + cy + y; pz + z; 1]) /\
     agree 4 (row 4 (lanes [px; py; pz; 1]) (AffineTransform4 true x y z r cx cy))
             (lanes [fst p + cx + x; snd p + cy + y; pz + z; 1])) /\
    agree 4 (column 4 (Translation4 false x y z) (lanes [px; py; pz; 1])) (lanes [px + x; py + y; pz + z; 1]) /\
    agree 4 (row 4 (lanes [px; py; pz; 1]) (Translation4 true x y z)) (lanes [px + x; py + y; pz + z; 1]).
Proof. intros. repeat split; intros i; revert i; apply below4; expand; ring. Qed.
Print Assumptions C82_AffineTransform4.

(** A quarter turn about (1, 0) followed by a move by (5, 0) takes (2, 0) to (6, 1). *)
Example C82_example :
  agree 3 (column 3 (AffineTransform3 false 5 0 (PI / 2) 1 0) (lanes [2; 0; 1])) (lanes [6; 1; 1]) /\
  orthogonal 2 (Rotation2 false 1).
Proof.
  split; [|apply C82_orthogonal].
  intros i; revert i; apply below3; expand; rewrite ?cos_PI2, ?sin_PI2; ring.
Qed.
