(* Model of bss-util/vector.h over the real numbers: rounding, infinities and NaN of the floating-point types and
   the wrap-around of the integer types are not modelled.  A T[M][N] is the function from row and column numbers to
   entries, a T[N] the function from positions to entries; a 128-bit register holding four floats is the function from
   its lanes 0 to 3 (lane 0 is the lowest) to their values.  Entries outside the declared bounds are never read by
   these functions.  FastSqrt (bss_util.h:604-664) is the exact square root here. *)
From Coq Require Import Reals List Arith.
Import ListNotations.
Local Open Scope R_scope.

Definition vec := nat -> R.
Definition mat := nat -> nat -> R.

(** A braced list of entries, as in [float a[4] = {...}]; used for the argument lists of vector.h:144-185. *)
Definition lanes (l : list R) : vec := fun k => nth k l 0.
Definition rows (l : list (list R)) : mat := fun i j => nth j (nth i l []) 0.

(** The loop [for(int i = 0; i < n; ++i) s = f(i, s)], used for the loops of vector.h. *)
Fixpoint for_ {A} (n : nat) (f : nat -> A -> A) (s : A) : A :=
  match n with O => s | S m => f m (for_ m f s) end.

(* ------------------------------------------------------------------ SSE registers *)

(** sseVec.h:510 the constructor from one float. *)
Definition set1 (v : R) : vec := fun _ => v.

(** sseVec.h:515-522 the lanewise operators [+ - * /]. *)
Definition vadd (x y : vec) : vec := fun k => x k + y k.
Definition vsub (x y : vec) : vec := fun k => x k - y k.
Definition vmul (x y : vec) : vec := fun k => x k * y k.
Definition vdiv (x y : vec) : vec := fun k => x k / y k.

(** The two bits of an 8-bit immediate that choose lane [k] (used by _mm_shuffle_ps and _mm_shuffle_epi32). *)
Definition imm (p k : nat) : nat := Nat.modulo (Nat.div p (Nat.pow 4 k)) 4.

(** _mm_shuffle_ps (sseVec.h:389 BSS_SSE_SHUFFLE_PS): the low two lanes are chosen from [x], the high two from [y]. *)
Definition shuffle_ps (x y : vec) (p : nat) : vec :=
  fun k => if Nat.ltb k 2 then x (imm p k) else y (imm p k).

(** sseVec.h:544-546 [Shuffle<x,y,z,w>] and [Shuffle<Positions>]: lane k is the lane given by the k-th argument;
    the argument is not changed, the result is returned. *)
Definition Shuffle (a b c d : nat) (x : vec) : vec := fun k => x (nth k [a; b; c; d] O).
Definition ShuffleP (p : nat) (x : vec) : vec := fun k => x (imm p k).

(** _mm_movelh_ps and _mm_movehl_ps. *)
Definition movelh (x y : vec) : vec := lanes [x 0%nat; x 1%nat; y 0%nat; y 1%nat].
Definition movehl (x y : vec) : vec := lanes [y 2%nat; y 3%nat; x 2%nat; x 3%nat].

(** The _ss instructions: the operation on lane 0, the other lanes from the first operand. *)
Definition sub_ss (x y : vec) : vec := fun k => match k with O => x O - y O | _ => x k end.
Definition add_ss (x y : vec) : vec := fun k => match k with O => x O + y O | _ => x k end.
Definition mul_ss (x y : vec) : vec := fun k => match k with O => x O * y O | _ => x k end.
Definition div_ss (x y : vec) : vec := fun k => match k with O => x O / y O | _ => x k end.

(** _mm_set_ss: the value in lane 0, zero elsewhere. *)
Definition set_ss (v : R) : vec := fun k => match k with O => v | _ => 0 end.

(** sseVec.h:548 [Sum]. *)
Definition Sum (v : vec) : R :=
  let x := vadd v (Shuffle 1 0 3 2 v) in
  vadd x (Shuffle 2 3 0 1 x) O.

(* ------------------------------------------------------------------ n-dimensional vectors *)

(** vector.h:17-24 [NVectorDot]. *)
Definition NVectorDot (N : nat) (l r : vec) : R := for_ N (fun i ret => ret + l i * r i) 0.

(** vector.h:26-30 [NVectorDot<float,4>]. *)
Definition NVectorDot_float4 (l r : vec) : R := Sum (vmul l r).

(** vector.h:39-50 [NVectorDistanceSq], N at least 1. *)
Definition NVectorDistanceSq (N : nat) (l r : vec) : R :=
  for_ (N - 1) (fun i ret => let tp := r (S i) - l (S i) in ret + tp * tp) (let tp := r O - l O in tp * tp).

(** vector.h:51-52 [NVectorDistance]. *)
Definition NVectorDistance (N : nat) (l r : vec) : R := sqrt (NVectorDistanceSq N l r).

(** vector.h:54-61 [NVectorNormalize]. *)
Definition NVectorNormalize (N : nat) (v : vec) : vec :=
  let invlength := 1 / sqrt (NVectorDot N v v) in
  fun i => v i * invlength.

(** vector.h:63-68 [NVectorNormalize<float,4>]. *)
Definition NVectorNormalize_float4 (v : vec) : vec :=
  let l := sqrt (NVectorDot_float4 v v) in vdiv v (lanes [l; l; l; l]).

(** vector.h:84-92 [NTriangleArea]. *)
Definition NTriangleArea (N : nat) (x1 x2 x3 : vec) : R :=
  let a := NVectorDistance N x1 x2 in
  let b := NVectorDistance N x1 x3 in
  let c := NVectorDistance N x2 x3 in
  let s := (a + b + c) / 2 in
  sqrt (s * (s - a) * (s - b) * (s - c)).

(** vector.h:645-652 [Vector<T,2>::CrossProduct], [Cross]: [this] is [(x, y)]. *)
Definition Cross2 (x y X Y : R) : R := x * Y - X * y.

(** vector.h:691 [Vector<T,3>::Cross]. *)
Definition Cross3 (v w : vec) : vec :=
  let x := v 0%nat in let y := v 1%nat in let z := v 2%nat in
  let X := w 0%nat in let Y := w 1%nat in let Z := w 2%nat in
  lanes [y * Z - z * Y; z * X - x * Z; x * Y - X * y].

(** vector.h:651 [Vector<T,2>::RotatePoint]. *)
Definition RotatePoint (x y r cx cy : R) : R * R :=
  let tx := x - cx in
  let ty := y - cy in
  let rcos := cos r in
  let rsin := sin r in
  ((tx * rcos - ty * rsin) + cx, (ty * rcos + tx * rsin) + cy).

(** compare.h:11 SGNCOMPARE. *)
Definition SGNCOMPARE (l r : R) : Z :=
  ((if Rgt_dec l r then 1 else 0) - (if Rlt_dec l r then 1 else 0))%Z.

(** vector.h:1100-1101 the loop shared by [operator >] and [operator <] of two vectors: [i < N && !c]. *)
Definition vcompare (N : nat) (l r : vec) : Z :=
  for_ N (fun i c => if Z.eqb c 0 then SGNCOMPARE (l i) (r i) else c) 0%Z.

(** vector.h:1100-1103 the four order operators. *)
Definition vgt (N : nat) (l r : vec) : bool := Z.ltb 0 (vcompare N l r).
Definition vlt (N : nat) (l r : vec) : bool := Z.ltb (vcompare N l r) 0.
Definition vge (N : nat) (l r : vec) : bool := negb (vlt N l r).
Definition vle (N : nat) (l r : vec) : bool := negb (vgt N l r).

(** vector.h:1097 [operator ==] of two vectors. *)
Definition veq (N : nat) (l r : vec) : bool :=
  for_ N (fun i ret => andb ret (if Req_EM_T (l i) (r i) then true else false)) true.

(* ------------------------------------------------------------------ building matrices *)

(** vector.h:144-185 [SetSubMatrix<T,2,2,Tp>::M2x2], [M3x3], [M4x4]; the transposed versions pass the arguments on
    in the other order. *)
Definition M2x2 (Tp : bool) (m11 m12 m21 m22 : R) : mat :=
  if Tp then rows [[m11; m21]; [m12; m22]] else rows [[m11; m12]; [m21; m22]].
Definition M3x3 (Tp : bool) (m11 m12 m13 m21 m22 m23 m31 m32 m33 : R) : mat :=
  if Tp then rows [[m11; m21; m31]; [m12; m22; m32]; [m13; m23; m33]]
  else rows [[m11; m12; m13]; [m21; m22; m23]; [m31; m32; m33]].
Definition M4x4 (Tp : bool) (m11 m12 m13 m14 m21 m22 m23 m24 m31 m32 m33 m34 m41 m42 m43 m44 : R) : mat :=
  if Tp then rows [[m11; m21; m31; m41]; [m12; m22; m32; m42]; [m13; m23; m33; m43]; [m14; m24; m34; m44]]
  else rows [[m11; m12; m13; m14]; [m21; m22; m23; m24]; [m31; m32; m33; m34]; [m41; m42; m43; m44]].

(** vector.h:867, 889 [Matrix<T,2,2>::Transpose]. *)
Definition Transpose2 (v : mat) : mat := M2x2 true (v 0 0)%nat (v 0 1)%nat (v 1 0)%nat (v 1 1)%nat.
(** vector.h:914, 974 [Matrix<T,3,3>::Transpose]. *)
Definition Transpose3 (v : mat) : mat :=
  M3x3 true (v 0 0)%nat (v 0 1)%nat (v 0 2)%nat (v 1 0)%nat (v 1 1)%nat (v 1 2)%nat
            (v 2 0)%nat (v 2 1)%nat (v 2 2)%nat.
(** vector.h:999, 1049 [Matrix<T,4,4>::Transpose]. *)
Definition Transpose4 (v : mat) : mat :=
  M4x4 true (v 0 0)%nat (v 0 1)%nat (v 0 2)%nat (v 0 3)%nat (v 1 0)%nat (v 1 1)%nat (v 1 2)%nat (v 1 3)%nat
            (v 2 0)%nat (v 2 1)%nat (v 2 2)%nat (v 2 3)%nat (v 3 0)%nat (v 3 1)%nat (v 3 2)%nat (v 3 3)%nat.

(** vector.h:877-879 [Matrix<T,2,2>::__Rotation]. *)
Definition Rotation2 (Tp : bool) (r : R) : mat := let c := cos r in let s := sin r in M2x2 Tp c (- s) s c.

(** vector.h:952-954 [Matrix<T,3,3>::__RotationX], [__RotationY], [__RotationZ]; AffineRotation (931) is RotationZ. *)
Definition RotationX (Tp : bool) (r : R) : mat :=
  let c := cos r in let s := sin r in M3x3 Tp 1 0 0 0 c (- s) 0 s c.
Definition RotationY (Tp : bool) (r : R) : mat :=
  let c := cos r in let s := sin r in M3x3 Tp c 0 s 0 1 0 (- s) 0 c.
Definition RotationZ (Tp : bool) (r : R) : mat :=
  let c := cos r in let s := sin r in M3x3 Tp c (- s) 0 s c 0 0 0 1.

(** vector.h:948-949 [Matrix<T,3,3>::Translation], [Translation_T]. *)
Definition Translation3 (Tp : bool) (x y : R) : mat := M3x3 Tp 1 0 x 0 1 y 0 0 1.

(** vector.h:937-943 [Matrix<T,3,3>::__AffineTransform]. *)
Definition AffineTransform3 (Tp : bool) (x y r cx cy : R) : mat :=
  let c := cos r in let s := sin r in
  M3x3 Tp c (- s) (x - c * cx + cx + cy * s) s c (y - c * cy + cy - cx * s) 0 0 1.

(** vector.h:970, 977 [Matrix<T,3,3>::Diagonal], [Identity]. *)
Definition Diagonal3 (x y z : R) : mat := M3x3 false x 0 0 0 y 0 0 0 z.

(** vector.h:1013-1018 [Matrix<T,4,4>::__AffineTransform]. *)
Definition AffineTransform4 (Tp : bool) (x y z rz cx cy : R) : mat :=
  let c := cos rz in let s := sin rz in
  M4x4 Tp c (- s) 0 (x - c * cx + cx + cy * s) s c 0 (y - c * cy + cy - cx * s) 0 0 1 z 0 0 0 1.

(** vector.h:1023-1026 [__Translation], [__AffineRotationX], [__AffineRotationY], [__AffineRotationZ]. *)
Definition Translation4 (Tp : bool) (x y z : R) : mat := M4x4 Tp 1 0 0 x 0 1 0 y 0 0 1 z 0 0 0 1.
Definition AffineRotationX (Tp : bool) (r : R) : mat :=
  let c := cos r in let s := sin r in M4x4 Tp 1 0 0 0 0 c (- s) 0 0 s c 0 0 0 0 1.
Definition AffineRotationY (Tp : bool) (r : R) : mat :=
  let c := cos r in let s := sin r in M4x4 Tp c 0 s 0 0 1 0 0 (- s) 0 c 0 0 0 0 1.
Definition AffineRotationZ (Tp : bool) (r : R) : mat :=
  let c := cos r in let s := sin r in M4x4 Tp c (- s) 0 0 s c 0 0 0 0 1 0 0 0 0 1.

(* ------------------------------------------------------------------ determinants *)

(** vector.h:438-443 [__MatrixDeterminant<T,2>::D], [MD]. *)
Definition D2 (a b c d : R) : R := (a * d) - (b * c).
Definition Determinant2 (x : mat) : R := D2 (x 0 0)%nat (x 0 1)%nat (x 1 0)%nat (x 1 1)%nat.

(** vector.h:445-450 [__MatrixDeterminant<T,3>::D], [MD]. *)
Definition D3 (a b c d e f g h i : R) : R :=
  a * (e * i - f * h) - b * (i * d - f * g) + c * (d * h - e * g).
Definition Determinant3 (x : mat) : R :=
  D3 (x 0 0)%nat (x 0 1)%nat (x 0 2)%nat (x 1 0)%nat (x 1 1)%nat (x 1 2)%nat (x 2 0)%nat (x 2 1)%nat (x 2 2)%nat.

(** vector.h:452-466 [__MatrixDeterminant<float,3>::D], [MD]. *)
Definition D3_float (a b c d e f g h i : R) : R :=
  let u := lanes [a; b; c; 0] in
  let v := lanes [e; i; d; f] in
  let w := lanes [i; d; h; g] in
  let r := vmul u (vsub (vmul v w) (vmul (Shuffle 3 3 0 0 v) (Shuffle 2 3 3 0 w))) in
  vadd (vsub r (Shuffle 1 1 1 1 r)) (Shuffle 2 2 2 2 r) O.
Definition Determinant3_float (x : mat) : R :=
  D3_float (x 0 0)%nat (x 0 1)%nat (x 0 2)%nat (x 1 0)%nat (x 1 1)%nat (x 1 2)%nat
           (x 2 0)%nat (x 2 1)%nat (x 2 2)%nat.

(** vector.h:468-486 [__MatrixDeterminant<T,4>::MD]. *)
Definition Determinant4 (x : mat) : R :=
  (x 0 0)%nat * D3 (x 1 1)%nat (x 1 2)%nat (x 1 3)%nat
                   (x 2 1)%nat (x 2 2)%nat (x 2 3)%nat
                   (x 3 1)%nat (x 3 2)%nat (x 3 3)%nat -
  (x 0 1)%nat * D3 (x 1 0)%nat (x 1 2)%nat (x 1 3)%nat
                   (x 2 0)%nat (x 2 2)%nat (x 2 3)%nat
                   (x 3 0)%nat (x 3 2)%nat (x 3 3)%nat +
  (x 0 2)%nat * D3 (x 1 0)%nat (x 1 1)%nat (x 1 3)%nat
                   (x 2 0)%nat (x 2 1)%nat (x 2 3)%nat
                   (x 3 0)%nat (x 3 1)%nat (x 3 3)%nat -
  (x 0 3)%nat * D3 (x 1 0)%nat (x 1 1)%nat (x 1 2)%nat
                   (x 2 0)%nat (x 2 1)%nat (x 2 2)%nat
                   (x 3 0)%nat (x 3 1)%nat (x 3 2)%nat.

(** vector.h:491-492 [_mm_ror_ps<I>]. *)
Definition ror (I : nat) (v : vec) : vec :=
  match Nat.modulo I 4 with
  | O => v
  | _ => shuffle_ps v v ((I + 3) mod 4 * 64 + (I + 2) mod 4 * 16 + (I + 1) mod 4 * 4 + (I + 0) mod 4)
  end.

(** vector.h:493-529 [__MatrixDeterminant<float,4>::MD]. *)
Definition Determinant4_float (x : mat) : R :=
  let L1 := x 0%nat in
  let L2 := x 1%nat in
  let L3 := x 2%nat in
  let L4 := x 3%nat in
  let t1 := L4 in
  let t2 := ror 1 L3 in
  let Vc := vmul t2 (ror 0 t1) in
  let Va := vmul t2 (ror 2 t1) in
  let Vb := vmul t2 (ror 3 t1) in
  let r1 := vsub (ror 1 Va) (ror 2 Vc) in
  let r2 := vsub (ror 2 Vb) (ror 0 Vb) in
  let r3 := vsub (ror 0 Va) (ror 1 Vc) in
  let Va := ror 1 L2 in
  let sum := vmul Va r1 in
  let Vb := ror 1 Va in
  let sum := vadd sum (vmul Vb r2) in
  let Vc := ror 1 Vb in
  let sum := vadd sum (vmul Vc r3) in
  let Det := vmul sum L1 in
  let Det := vadd Det (movehl Det Det) in
  let Det := sub_ss Det (shuffle_ps Det Det 1) in
  Det O.

(* ------------------------------------------------------------------ inverses *)

(** vector.h:871 [Matrix<T,2,2>::Inverse]. *)
Definition Inverse2 (x : mat) : mat :=
  let a := x 0%nat 0%nat in let b := x 0%nat 1%nat in
  let c := x 1%nat 0%nat in let d := x 1%nat 1%nat in
  let invd := 1 / Determinant2 x in
  M2x2 false (d * invd) (- b * invd) (- c * invd) (a * invd).

(** vector.h:918-925 [Matrix<T,3,3>::Inverse]; [det] is the determinant function (433-466) used. *)
Definition Inverse3_with (det : mat -> R) (x : mat) : mat :=
  let a := x 0%nat 0%nat in let b := x 0%nat 1%nat in let c := x 0%nat 2%nat in
  let d := x 1%nat 0%nat in let e := x 1%nat 1%nat in let f := x 1%nat 2%nat in
  let g := x 2%nat 0%nat in let h := x 2%nat 1%nat in let i := x 2%nat 2%nat in
  let invd := 1 / det x in
  M3x3 false
    (invd * (e * i - f * h)) (invd * (c * h - b * i)) (invd * (b * f - c * e))
    (invd * (f * g - d * i)) (invd * (a * i - c * g)) (invd * (c * d - a * f))
    (invd * (d * h - e * g)) (invd * (b * g - a * h)) (invd * (a * e - b * d)).
Definition Inverse3 := Inverse3_with Determinant3.
Definition Inverse3_float := Inverse3_with Determinant3_float.

(** vector.h:187-267 [MatrixInvert4x4<T>].  [m] is read once, into [src], before anything is stored. *)
Definition MatrixInvert4x4 (m : mat) : mat :=
  let src := fun k => m (Nat.modulo k 4) (Nat.div k 4) in
  let tmp := lanes
    [src 10%nat * src 15%nat; src 11%nat * src 14%nat; src 9%nat * src 15%nat; src 11%nat * src 13%nat;
     src 9%nat * src 14%nat; src 10%nat * src 13%nat; src 8%nat * src 15%nat; src 11%nat * src 12%nat;
     src 8%nat * src 14%nat; src 10%nat * src 12%nat; src 8%nat * src 13%nat; src 9%nat * src 12%nat] in
  let d0 := tmp 0%nat * src 5%nat + tmp 3%nat * src 6%nat + tmp 4%nat * src 7%nat in
  let d0 := d0 - (tmp 1%nat * src 5%nat + tmp 2%nat * src 6%nat + tmp 5%nat * src 7%nat) in
  let d1 := tmp 1%nat * src 4%nat + tmp 6%nat * src 6%nat + tmp 9%nat * src 7%nat in
  let d1 := d1 - (tmp 0%nat * src 4%nat + tmp 7%nat * src 6%nat + tmp 8%nat * src 7%nat) in
  let d2 := tmp 2%nat * src 4%nat + tmp 7%nat * src 5%nat + tmp 10%nat * src 7%nat in
  let d2 := d2 - (tmp 3%nat * src 4%nat + tmp 6%nat * src 5%nat + tmp 11%nat * src 7%nat) in
  let d3 := tmp 5%nat * src 4%nat + tmp 8%nat * src 5%nat + tmp 11%nat * src 6%nat in
  let d3 := d3 - (tmp 4%nat * src 4%nat + tmp 9%nat * src 5%nat + tmp 10%nat * src 6%nat) in
  let d4 := tmp 1%nat * src 1%nat + tmp 2%nat * src 2%nat + tmp 5%nat * src 3%nat in
  let d4 := d4 - (tmp 0%nat * src 1%nat + tmp 3%nat * src 2%nat + tmp 4%nat * src 3%nat) in
  let d5 := tmp 0%nat * src 0%nat + tmp 7%nat * src 2%nat + tmp 8%nat * src 3%nat in
  let d5 := d5 - (tmp 1%nat * src 0%nat + tmp 6%nat * src 2%nat + tmp 9%nat * src 3%nat) in
  let d6 := tmp 3%nat * src 0%nat + tmp 6%nat * src 1%nat + tmp 11%nat * src 3%nat in
  let d6 := d6 - (tmp 2%nat * src 0%nat + tmp 7%nat * src 1%nat + tmp 10%nat * src 3%nat) in
  let d7 := tmp 4%nat * src 0%nat + tmp 9%nat * src 1%nat + tmp 10%nat * src 2%nat in
  let d7 := d7 - (tmp 5%nat * src 0%nat + tmp 8%nat * src 1%nat + tmp 11%nat * src 2%nat) in
  let tmp := lanes
    [src 2%nat * src 7%nat; src 3%nat * src 6%nat; src 1%nat * src 7%nat; src 3%nat * src 5%nat;
     src 1%nat * src 6%nat; src 2%nat * src 5%nat; src 0%nat * src 7%nat; src 3%nat * src 4%nat;
     src 0%nat * src 6%nat; src 2%nat * src 4%nat; src 0%nat * src 5%nat; src 1%nat * src 4%nat] in
  let d8 := tmp 0%nat * src 13%nat + tmp 3%nat * src 14%nat + tmp 4%nat * src 15%nat in
  let d8 := d8 - (tmp 1%nat * src 13%nat + tmp 2%nat * src 14%nat + tmp 5%nat * src 15%nat) in
  let d9 := tmp 1%nat * src 12%nat + tmp 6%nat * src 14%nat + tmp 9%nat * src 15%nat in
  let d9 := d9 - (tmp 0%nat * src 12%nat + tmp 7%nat * src 14%nat + tmp 8%nat * src 15%nat) in
  let d10 := tmp 2%nat * src 12%nat + tmp 7%nat * src 13%nat + tmp 10%nat * src 15%nat in
  let d10 := d10 - (tmp 3%nat * src 12%nat + tmp 6%nat * src 13%nat + tmp 11%nat * src 15%nat) in
  let d11 := tmp 5%nat * src 12%nat + tmp 8%nat * src 13%nat + tmp 11%nat * src 14%nat in
  let d11 := d11 - (tmp 4%nat * src 12%nat + tmp 9%nat * src 13%nat + tmp 10%nat * src 14%nat) in
  let d12 := tmp 2%nat * src 10%nat + tmp 5%nat * src 11%nat + tmp 1%nat * src 9%nat in
  let d12 := d12 - (tmp 4%nat * src 11%nat + tmp 0%nat * src 9%nat + tmp 3%nat * src 10%nat) in
  let d13 := tmp 8%nat * src 11%nat + tmp 0%nat * src 8%nat + tmp 7%nat * src 10%nat in
  let d13 := d13 - (tmp 6%nat * src 10%nat + tmp 9%nat * src 11%nat + tmp 1%nat * src 8%nat) in
  let d14 := tmp 6%nat * src 9%nat + tmp 11%nat * src 11%nat + tmp 3%nat * src 8%nat in
  let d14 := d14 - (tmp 10%nat * src 11%nat + tmp 2%nat * src 8%nat + tmp 7%nat * src 9%nat) in
  let d15 := tmp 10%nat * src 10%nat + tmp 4%nat * src 8%nat + tmp 9%nat * src 9%nat in
  let d15 := d15 - (tmp 8%nat * src 9%nat + tmp 11%nat * src 10%nat + tmp 5%nat * src 8%nat) in
  let det := src 0%nat * d0 + src 1%nat * d1 + src 2%nat * d2 + src 3%nat * d3 in
  let det := 1 / det in
  rows [[d0 * det; d1 * det; d2 * det; d3 * det];
        [d4 * det; d5 * det; d6 * det; d7 * det];
        [d8 * det; d9 * det; d10 * det; d11 * det];
        [d12 * det; d13 * det; d14 * det; d15 * det]].

(** vector.h:271-374 [MatrixInvert4x4<float>].  The exclusive or with _Sign_PNNP (281, 356) flips the sign bit of
    lanes 1 and 2.  All loads of [src] come before the stores to [dest]. *)
Definition MatrixInvert4x4_float (m : mat) : mat :=
  let L1 := m 0%nat in
  let L2 := m 1%nat in
  let L3 := m 2%nat in
  let L4 := m 3%nat in
  let A := movelh L1 L2 in
  let B := movehl L2 L1 in
  let C := movelh L3 L4 in
  let D := movehl L4 L3 in
  let AB := vmul (shuffle_ps A A 0x0F) B in
  let AB := vsub AB (vmul (shuffle_ps A A 0xA5) (shuffle_ps B B 0x4E)) in
  let DC := vmul (shuffle_ps D D 0x0F) C in
  let DC := vsub DC (vmul (shuffle_ps D D 0xA5) (shuffle_ps C C 0x4E)) in
  let dA := vmul (shuffle_ps A A 0x5F) A in
  let dA := sub_ss dA (movehl dA dA) in
  let dB := vmul (shuffle_ps B B 0x5F) B in
  let dB := sub_ss dB (movehl dB dB) in
  let dC := vmul (shuffle_ps C C 0x5F) C in
  let dC := sub_ss dC (movehl dC dC) in
  let dD := vmul (shuffle_ps D D 0x5F) D in
  let dD := sub_ss dD (movehl dD dD) in
  let d := vmul (shuffle_ps DC DC 0xD8) AB in
  let iD := vmul (shuffle_ps C C 0xA0) (movelh AB AB) in
  let iD := vadd iD (vmul (shuffle_ps C C 0xF5) (movehl AB AB)) in
  let iA := vmul (shuffle_ps B B 0xA0) (movelh DC DC) in
  let iA := vadd iA (vmul (shuffle_ps B B 0xF5) (movehl DC DC)) in
  let d := vadd d (movehl d d) in
  let d := add_ss d (shuffle_ps d d 1) in
  let d1 := mul_ss dA dD in
  let d2 := mul_ss dB dC in
  let iD := vsub (vmul D (shuffle_ps dA dA 0)) iD in
  let iA := vsub (vmul A (shuffle_ps dD dD 0)) iA in
  let det := sub_ss (add_ss d1 d2) d in
  let rd := div_ss (set_ss 1) det in
  let iB := vmul D (shuffle_ps AB AB 0x33) in
  let iB := vsub iB (vmul (shuffle_ps D D 0xB1) (shuffle_ps AB AB 0x66)) in
  let iC := vmul A (shuffle_ps DC DC 0x33) in
  let iC := vsub iC (vmul (shuffle_ps A A 0xB1) (shuffle_ps DC DC 0x66)) in
  let rd := shuffle_ps rd rd 0 in
  let rd := lanes [rd 0%nat; - rd 1%nat; - rd 2%nat; rd 3%nat] in
  let iB := vsub (vmul C (shuffle_ps dB dB 0)) iB in
  let iC := vsub (vmul B (shuffle_ps dC dC 0)) iC in
  let iA := vmul iA rd in
  let iB := vmul iB rd in
  let iC := vmul iC rd in
  let iD := vmul iD rd in
  fun i => match i with
           | 0%nat => shuffle_ps iA iB 0x77
           | 1%nat => shuffle_ps iA iB 0x22
           | 2%nat => shuffle_ps iC iD 0x77
           | _ => shuffle_ps iC iD 0x22
           end.

(* ------------------------------------------------------------------ products *)

(** The memory the arguments of vector.h:384-431 [MatrixMultiply] live in: one cell per entry.  A T[M][N] at address
    [p] has entry [i][j] in cell [p + i * N + j].  The three arguments may name overlapping cells. *)
Definition memory := nat -> R.
Definition store (mem : memory) (p : nat) (v : R) : memory := fun q => if Nat.eqb q p then v else mem q.

(** vector.h:415-430 [MatrixMultiply], the general branch. *)
Definition MatrixMultiply (M N P l r out : nat) (mem : memory) : memory :=
  let m := fun i j =>
    for_ (N - 1) (fun k acc => acc + mem (l + i * N + S k)%nat * mem (r + S k * P + j)%nat)
      (mem (l + i * N)%nat * mem (r + j)%nat) in
  for_ M (fun i => for_ P (fun j s => store s (out + i * P + j)%nat (m i j))) mem.

(** sseVec.h:525 [Set]: stores the four lanes at [p]. *)
Definition store4 (mem : memory) (p : nat) (v : vec) : memory :=
  for_ 4 (fun j s => store s (p + j)%nat (v j)) mem.

(** sseVec.h:512 the constructor from four floats in memory. *)
Definition load4 (mem : memory) (p : nat) : vec := fun j => mem (p + j)%nat.

(** vector.h:387-413 [MatrixMultiply], the branch for N = P = 4 and float or int32_t; the unrolled cases M = 1 and
    M = 4 do the same as the loop. *)
Definition MatrixMultiply_sse (M l r out : nat) (mem : memory) : memory :=
  let a := load4 mem r in
  let b := load4 mem (r + 4) in
  let c := load4 mem (r + 8) in
  let d := load4 mem (r + 12) in
  for_ M (fun i s =>
    store4 s (out + i * 4)
      (vadd (vadd (vadd (vmul a (set1 (s (l + i * 4)%nat))) (vmul b (set1 (s (l + i * 4 + 1)%nat))))
                  (vmul c (set1 (s (l + i * 4 + 2)%nat)))) (vmul d (set1 (s (l + i * 4 + 3)%nat))))) mem.

(** vector.h:377-382 [MatrixMultiply1x4]. *)
Definition MatrixMultiply1x4 (l : vec) (r : mat) : vec :=
  vadd (vadd (vadd (vmul (r 0%nat) (set1 (l 0%nat))) (vmul (r 1%nat) (set1 (l 1%nat))))
             (vmul (r 2%nat) (set1 (l 2%nat)))) (vmul (r 3%nat) (set1 (l 3%nat))).

(** vector.h:1197-1208 [GenericBSpline].  The results of the two calls of [Shuffle] are dropped: [Shuffle] (sseVec.h:546)
    takes its argument by const reference and returns the permuted register. *)
Definition GenericBSpline (t : R) (p : vec) (m : mat) : R :=
  let a := lanes [t * t * t; t * t; t; 1] in
  let r := MatrixMultiply1x4 a m in
  let r := vmul r p in
  let r2 := r in
  let _ := ShuffleP 0xB1 r2 in
  let r := vadd r r2 in
  let _ := ShuffleP 0x1B r2 in
  vadd r r2 O.

(** vector.h:550-581 [FromQuaternion<float,4>]. *)
Definition FromQuaternion_float4 (q : vec) : mat :=
  let x := set1 (q 0%nat) in
  let y := set1 (q 1%nat) in
  let z := set1 (q 2%nat) in
  let yxw := lanes [q 1%nat; q 0%nat; q 3%nat; 0] in
  let zwx := lanes [q 2%nat; q 3%nat; q 0%nat; 0] in
  let wzy := lanes [q 3%nat; q 2%nat; q 1%nat; 0] in
  let n010 := lanes [1; -1; 1; 0] in
  let n100 := lanes [-1; 1; 1; 0] in
  let n001 := lanes [1; 1; -1; 0] in
  let out0 := vadd (vmul y yxw) (vmul (vmul z zwx) n010) in
  let out1 := vadd (vmul x yxw) (vmul (vmul z wzy) n001) in
  let out2 := vadd (vmul x zwx) (vmul (vmul y wzy) n100) in
  let out1 := lanes [out1 0%nat; out1 1%nat; - out1 2%nat; out1 3%nat] in
  fun i => match i with 0%nat => out0 | 1%nat => out1 | 2%nat => out2 | _ => lanes [0; 0; 0; 1] end.
