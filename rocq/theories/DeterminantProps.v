(* C79, C80: determinants and inverses of bss-util/vector.h over the real numbers. *)
From Coq Require Import Reals List Arith Lia Lra.
From Verif Require Import Matrix.
Import ListNotations.
Local Open Scope R_scope.

(* ------------------------------------------------------------------ specification *)

(** The sum of [f 0], ..., [f (n-1)]. *)
Fixpoint sum (n : nat) (f : nat -> R) : R := match n with O => 0 | S m => sum m f + f m end.

(** The determinant by Leibniz' formula: over all orders of the columns, the product of the entries chosen, with a
    minus sign when the number of pairs in the wrong order is odd. *)
Fixpoint insertions (x : nat) (l : list nat) : list (list nat) :=
  match l with
  | [] => [[x]]
  | y :: r => (x :: y :: r) :: map (cons y) (insertions x r)
  end.
Fixpoint orders (l : list nat) : list (list nat) :=
  match l with [] => [[]] | x :: r => flat_map (insertions x) (orders r) end.
Fixpoint inversions (l : list nat) : nat :=
  match l with [] => O | x :: r => (length (filter (fun y => Nat.ltb y x) r) + inversions r)%nat end.
Fixpoint chosen (m : mat) (i : nat) (p : list nat) : R :=
  match p with [] => 1 | j :: r => m i j * chosen m (S i) r end.
Definition det (n : nat) (m : mat) : R :=
  fold_right Rplus 0
    (map (fun p => (if Nat.even (inversions p) then 1 else -1) * chosen m O p) (orders (seq 0 n))).

(** Matrices that agree on the first [n] rows and columns; product; identity; transpose. *)
Definition same (n : nat) (a b : mat) : Prop := forall i j, (i < n)%nat -> (j < n)%nat -> a i j = b i j.
Definition times (n : nat) (a b : mat) : mat := fun i j => sum n (fun k => a i k * b k j).
Definition one : mat := fun i j => if Nat.eqb i j then 1 else 0.
Definition flip (a : mat) : mat := fun i j => a j i.
Definition inverse_of (n : nat) (a b : mat) : Prop := same n (times n a b) one /\ same n (times n b a) one.

(* ------------------------------------------------------------------ determinants *)

Ltac entries :=
  cbv [Determinant2 Determinant3 Determinant4 Determinant3_float Determinant4_float D2 D3 D3_float
       det orders insertions inversions chosen flat_map map seq app filter length fold_right Nat.ltb Nat.leb
       Nat.even Nat.add lanes rows vadd vsub vmul vdiv Shuffle ShuffleP shuffle_ps imm ror movehl movelh sub_ss add_ss mul_ss
       div_ss set_ss Nat.modulo Nat.div Nat.divmod Nat.pow Nat.mul Nat.sub fst snd nth flip times sum].

Lemma det2_spec : forall m, Determinant2 m = det 2 m.
Proof. intros m. entries. ring. Qed.
Lemma det3_spec : forall m, Determinant3 m = det 3 m.
Proof. intros m. entries. ring. Qed.
Lemma det4_spec : forall m, Determinant4 m = det 4 m.
Proof. intros m. entries. ring. Qed.
Lemma det3_float_spec : forall m, Determinant3_float m = det 3 m.
Proof. intros m. entries. ring. Qed.
Lemma det4_float_spec : forall m, Determinant4_float m = det 4 m.
Proof. intros m. entries. ring. Qed.

Theorem C79_Determinant :
  forall m, Determinant2 m = det 2 m /\ Determinant3 m = det 3 m /\ Determinant4 m = det 4 m /\
            Determinant3_float m = det 3 m /\ Determinant4_float m = det 4 m.
Proof.
  intros m. repeat split;
    [apply det2_spec|apply det3_spec|apply det4_spec|apply det3_float_spec|apply det4_float_spec].
Qed.
Print Assumptions C79_Determinant.

Theorem C79_product :
  forall a b,
    Determinant2 (times 2 a b) = Determinant2 a * Determinant2 b /\
    Determinant3 (times 3 a b) = Determinant3 a * Determinant3 b /\
    Determinant4 (times 4 a b) = Determinant4 a * Determinant4 b.
Proof. intros a b. split; [|split]; entries; ring. Qed.
Print Assumptions C79_product.

(** The matrix of the example has determinant -6 by every function. *)
Definition sample4 : mat := rows [[1; 2; 0; 0]; [3; 4; 0; 0]; [0; 0; 1; 0]; [5; 0; 0; 3]].
Example C79_example : Determinant4 sample4 = -6 /\ Determinant4_float sample4 = -6.
Proof. rewrite det4_float_spec, <- det4_spec. unfold sample4. entries. split; ring. Qed.

(* ------------------------------------------------------------------ transposes *)

Lemma below2 : forall (P : nat -> Prop), P 0%nat -> P 1%nat -> forall i, (i < 2)%nat -> P i.
Proof. intros P A B i H. destruct i as [|[|i]]; [assumption..|lia]. Qed.
Lemma below3 : forall (P : nat -> Prop), P 0%nat -> P 1%nat -> P 2%nat -> forall i, (i < 3)%nat -> P i.
Proof. intros P A B C i H. destruct i as [|[|[|i]]]; [assumption..|lia]. Qed.
Lemma below4 :
  forall (P : nat -> Prop), P 0%nat -> P 1%nat -> P 2%nat -> P 3%nat -> forall i, (i < 4)%nat -> P i.
Proof. intros P A B C D i H. destruct i as [|[|[|[|i]]]]; [assumption..|lia]. Qed.

Ltac each b :=
  let i := fresh "i" in let j := fresh "j" in let hi := fresh "hi" in let hj := fresh "hj" in
  intros i j hi hj; revert i hi; apply b; revert j hj; apply b.

Lemma transpose2_spec : forall m, same 2 (Transpose2 m) (flip m).
Proof. intros m. each below2; reflexivity. Qed.
Lemma transpose3_spec : forall m, same 3 (Transpose3 m) (flip m).
Proof. intros m. each below3; reflexivity. Qed.
Lemma transpose4_spec : forall m, same 4 (Transpose4 m) (flip m).
Proof. intros m. each below4; reflexivity. Qed.

Theorem C79_Transpose :
  forall m,
    same 2 (Transpose2 m) (flip m) /\ same 3 (Transpose3 m) (flip m) /\ same 4 (Transpose4 m) (flip m) /\
    Determinant2 (Transpose2 m) = Determinant2 m /\ Determinant3 (Transpose3 m) = Determinant3 m /\
    Determinant4 (Transpose4 m) = Determinant4 m.
Proof.
  intros m. split; [apply transpose2_spec|]. split; [apply transpose3_spec|]. split; [apply transpose4_spec|].
  unfold Transpose2, Transpose3, Transpose4, M2x2, M3x3, M4x4. repeat split; entries; ring.
Qed.
Print Assumptions C79_Transpose.

(* ------------------------------------------------------------------ inverses *)

(** The matrix without row [r] and column [c], and the adjugate. *)
Definition minor (m : mat) (r c : nat) : mat :=
  fun i j => m (if Nat.ltb i r then i else S i) (if Nat.ltb j c then j else S j).
Definition adj (n : nat) (m : mat) : mat :=
  fun i j => (if Nat.even (i + j) then 1 else -1) * det n (minor m j i).

Ltac adjugate :=
  cbv [adj minor times sum one Nat.eqb Nat.ltb Nat.leb Nat.even Nat.add
       det orders insertions inversions chosen flat_map map seq app filter length fold_right].

Lemma adj2 : forall m, same 2 (times 2 m (adj 1 m)) (fun i j => one i j * det 2 m) /\
                       same 2 (times 2 (adj 1 m) m) (fun i j => one i j * det 2 m).
Proof. intros m. split; each below2; adjugate; ring. Qed.
Lemma adj3 : forall m, same 3 (times 3 m (adj 2 m)) (fun i j => one i j * det 3 m) /\
                       same 3 (times 3 (adj 2 m) m) (fun i j => one i j * det 3 m).
Proof. intros m. split; each below3; adjugate; ring. Qed.
Lemma adj4 : forall m, same 4 (times 4 m (adj 3 m)) (fun i j => one i j * det 4 m) /\
                       same 4 (times 4 (adj 3 m) m) (fun i j => one i j * det 4 m).
Proof. intros m. split; each below4; adjugate; ring. Qed.

Lemma sum_ext : forall n f g, (forall k, (k < n)%nat -> f k = g k) -> sum n f = sum n g.
Proof.
  induction n as [|n IH]; intros f g H; cbn [sum]; [reflexivity|].
  rewrite (IH f g) by (intros; apply H; lia). rewrite H by lia. reflexivity.
Qed.
Lemma sum_scale : forall n f c, sum n (fun k => f k * c) = sum n f * c.
Proof. induction n as [|n IH]; intros; cbn [sum]; [ring|]. rewrite IH. ring. Qed.

(** Dividing the adjugate by the determinant gives the inverse. *)
Lemma divided : forall n a b c d, d <> 0 -> same n b (fun i j => c i j * (1 / d)) ->
  same n (times n a c) (fun i j => one i j * d) -> same n (times n c a) (fun i j => one i j * d) ->
  inverse_of n a b.
Proof.
  intros n a b c d H B L R. split; intros i j hi hj; unfold times.
  - rewrite (sum_ext n _ (fun k => (a i k * c k j) * (1 / d))).
    + rewrite sum_scale. change (sum n (fun k => a i k * c k j)) with (times n a c i j).
      rewrite L by assumption. field. exact H.
    + intros k hk. rewrite (B k j hk hj). ring.
  - rewrite (sum_ext n _ (fun k => (c i k * a k j) * (1 / d))).
    + rewrite sum_scale. change (sum n (fun k => c i k * a k j)) with (times n c a i j).
      rewrite R by assumption. field. exact H.
    + intros k hk. rewrite (B i k hi hk). ring.
Qed.

Lemma invert2_adj : forall m, same 2 (Inverse2 m) (fun i j => adj 1 m i j * (1 / Determinant2 m)).
Proof.
  intros m. unfold Inverse2. generalize (1 / Determinant2 m). intros v.
  each below2; adjugate; cbv [M2x2 rows nth]; ring.
Qed.
Lemma invert3_adj : forall f m, same 3 (Inverse3_with f m) (fun i j => adj 2 m i j * (1 / f m)).
Proof.
  intros f m. unfold Inverse3_with. generalize (1 / f m). intros v.
  each below3; adjugate; cbv [M3x3 rows nth]; ring.
Qed.
Ltac ratio := apply f_equal2; [ring|apply (f_equal (fun x => 1 / x)); ring].
Lemma invert4_adj : forall m, same 4 (MatrixInvert4x4 m) (fun i j => adj 3 m i j * (1 / Determinant4 m)).
Proof. intros m. each below4; adjugate; cbv [MatrixInvert4x4]; entries; ratio. Qed.

(** The sign of the lanes 1 and 2 moves from the reciprocal to the numerator. *)
Lemma neg_ratio : forall a b x y, - a = b -> x = y -> a * - (1 / x) = b * (1 / y).
Proof. intros a b x y <- ->. ring. Qed.
Ltac ratio' := first [apply neg_ratio; ring | ratio].
Lemma invert4_float_adj :
  forall m, same 4 (MatrixInvert4x4_float m) (fun i j => adj 3 m i j * (1 / Determinant4 m)).
Proof. intros m. each below4; adjugate; cbv [MatrixInvert4x4_float]; entries; ratio'. Qed.

Theorem C80_Inverse :
  forall m,
    (det 2 m <> 0 -> inverse_of 2 m (Inverse2 m)) /\
    (det 3 m <> 0 -> inverse_of 3 m (Inverse3 m) /\ inverse_of 3 m (Inverse3_float m)) /\
    (det 4 m <> 0 -> inverse_of 4 m (MatrixInvert4x4 m) /\ inverse_of 4 m (MatrixInvert4x4_float m)).
Proof.
  intros m. split; [|split]; intros H.
  - destruct (adj2 m) as [L R]. apply (divided 2 m _ (adj 1 m) (det 2 m) H); auto.
    rewrite <- det2_spec. apply invert2_adj.
  - destruct (adj3 m) as [L R]. split; apply (divided 3 m _ (adj 2 m) (det 3 m) H); auto.
    + rewrite <- det3_spec. apply invert3_adj.
    + rewrite <- det3_float_spec. apply invert3_adj.
  - destruct (adj4 m) as [L R]. split; apply (divided 4 m _ (adj 3 m) (det 4 m) H); auto.
    + rewrite <- det4_spec. apply invert4_adj.
    + rewrite <- det4_spec. apply invert4_float_adj.
Qed.
Print Assumptions C80_Inverse.

(** The determinant is zero exactly when there is no inverse, and there is only one inverse. *)
Lemma no_inverse : forall m,
  (det 2 m = 0 -> ~ exists b, inverse_of 2 m b) /\ (det 3 m = 0 -> ~ exists b, inverse_of 3 m b) /\
  (det 4 m = 0 -> ~ exists b, inverse_of 4 m b).
Proof.
  intros m. split; [|split]; intros H [b [B _]].
  - assert (Determinant2 (times 2 m b) = 1).
    { unfold Determinant2, D2. rewrite !B by lia. cbv [one Nat.eqb]. ring. }
    destruct (C79_product m b) as [E _]. rewrite E, (det2_spec m), H in H0. lra.
  - assert (Determinant3 (times 3 m b) = 1).
    { unfold Determinant3, D3. rewrite !B by lia. cbv [one Nat.eqb]. ring. }
    destruct (C79_product m b) as [_ [E _]]. rewrite E, (det3_spec m), H in H0. lra.
  - assert (Determinant4 (times 4 m b) = 1).
    { unfold Determinant4, D3. rewrite !B by lia. cbv [one Nat.eqb]. ring. }
    destruct (C79_product m b) as [_ [_ E]]. rewrite E, (det4_spec m), H in H0. lra.
Qed.

Theorem C80_singular :
  forall m,
    (Determinant2 m = 0 <-> ~ exists b, inverse_of 2 m b) /\
    (Determinant3 m = 0 <-> ~ exists b, inverse_of 3 m b) /\
    (Determinant4 m = 0 <-> ~ exists b, inverse_of 4 m b).
Proof.
  intros m. rewrite det2_spec, det3_spec, det4_spec.
  destruct (no_inverse m) as (N2 & N3 & N4). destruct (C80_Inverse m) as (I2 & I3 & I4).
  split; [|split]; (split; [assumption|intros X]).
  - destruct (Req_dec (det 2 m) 0) as [E|E]; [exact E|exfalso; eauto].
  - destruct (Req_dec (det 3 m) 0) as [E|E]; [exact E|destruct (I3 E); exfalso; eauto].
  - destruct (Req_dec (det 4 m) 0) as [E|E]; [exact E|destruct (I4 E); exfalso; eauto].
Qed.
Print Assumptions C80_singular.

Example C80_example :
  det 4 sample4 <> 0 /\ MatrixInvert4x4 sample4 3%nat 0%nat = 10 / 3 /\
  MatrixInvert4x4_float sample4 3%nat 0%nat = 10 / 3 /\ Determinant2 (rows [[1; 2]; [2; 4]]) = 0.
Proof.
  repeat split.
  - rewrite <- det4_spec. unfold sample4. entries. lra.
  - cbv [MatrixInvert4x4 sample4]; entries. field_simplify; lra.
  - cbv [MatrixInvert4x4_float sample4]; entries. field_simplify; lra.
  - entries. ring.
Qed.
