(* Model of the curve functions of bss-util/algo.h over the real numbers: rounding, infinities and NaN of the
   floating-point types are not modelled, except that a value that is not a finite number is None where the code goes on to
   compare it.  A point T[I] is the function from coordinate numbers to coordinates; every loop of these functions
   computes coordinate i from coordinates i only. *)
From Coq Require Import Reals List.
Import ListNotations.
Local Open Scope R_scope.

Definition point := nat -> R.

(** bss_util.h:1002-1004 [lerp]. *)
Definition lerp (a b t : R) : R := (1 - t) * a + t * b.

(** algo.h:326-330 [QuadraticBezierCurve], one coordinate. *)
Definition QuadraticBezierCurve (t p0 p1 p2 : R) : R :=
  let inv := 1 - t in inv * inv * p0 + 2 * inv * t * p1 + t * t * p2.

(** algo.h:271-280 [StaticGenericSpline]: [m] lists the four rows of the matrix, [p] the four points. *)
Definition StaticGenericSpline (m : nat -> nat -> R) (t : R) (p : nat -> R) : R :=
  let t2 := t * t in
  let t3 := t2 * t in
  p 0%nat * (m 0%nat 0%nat * t3 + m 1%nat 0%nat * t2 + m 2%nat 0%nat * t + m 3%nat 0%nat) +
  p 1%nat * (m 0%nat 1%nat * t3 + m 1%nat 1%nat * t2 + m 2%nat 1%nat * t + m 3%nat 1%nat) +
  p 2%nat * (m 0%nat 2%nat * t3 + m 1%nat 2%nat * t2 + m 2%nat 2%nat * t + m 3%nat 2%nat) +
  p 3%nat * (m 0%nat 3%nat * t3 + m 1%nat 3%nat * t2 + m 2%nat 3%nat * t + m 3%nat 3%nat).

(** algo.h:290 the matrix of [BezierCurve], row after row. *)
Definition bezier_matrix (i j : nat) : R :=
  nth (4 * i + j) [-1; 3; -3; 1; 3; -6; 3; 0; -3; 3; 0; 0; 1; 0; 0; 0] 0.

(** algo.h:287-293 [BezierCurve], one coordinate. *)
Definition BezierCurve (t p1 p2 p3 p4 : R) : R :=
  StaticGenericSpline bezier_matrix t (fun i => nth i [p1; p2; p3; p4] 0).

(** algo.h:237-242 [UniformQuadraticBSpline]. *)
Definition UniformQuadraticBSpline (t p1 p2 p3 : R) : R :=
  let t2 := t * t in
  (p1 * (1 - 2 * t + t2) + p2 * (1 + 2 * t - 2 * t2) + p3 * t2) / 2.

(** algo.h:249-255 [UniformCubicBSpline]. *)
Definition UniformCubicBSpline (t p1 p2 p3 p4 : R) : R :=
  let t2 := t * t in
  let t3 := t2 * t in
  (p1 * (1 - 3 * t + 3 * t2 - t3) + p2 * (4 - 6 * t2 + 3 * t3) +
   p3 * (1 + 3 * t + 3 * t2 - 3 * t3) + p4 * t3) / 6.

(** algo.h:262-268 [CubicBSpline]. *)
Definition CubicBSpline (t p1 p2 p3 p4 : R) : R :=
  let t2 := t * t in
  let t3 := t2 * t in
  (p1 * (- t3 + 2 * t2 - t) + p2 * (3 * t3 - 5 * t2 + 2) + p3 * (-3 * t3 + 4 * t2 + t) + p4 * (t3 - t2)) / 2.

(** algo.h:346-363 [QuadraticCanonicalFit]. *)
Definition QuadraticCanonicalFit (t x1 x2 x3 : R) : R :=
  let t := (t - x1) / (x3 - x1) in
  let x := (x2 - x1) / (x3 - x1) in
  let H := 1 / 2 in
  let A := (x - H) / (x - x * x) in
  let B := H / x - A * x in
  (A * t * t + B * t) * (x3 - x1) + x1.

(** algo.h:367-381 [SplitCubic]: N1, N2, N3, R1, R2. *)
Definition SplitCubic (t : R) (P0 P1 P2 P3 : point) : point * point * point * point * point :=
  let N1 i := lerp (P0 i) (P1 i) t in
  let F i := lerp (P1 i) (P2 i) t in
  let R2 i := lerp (P2 i) (P3 i) t in
  let N2 i := lerp (N1 i) (F i) t in
  let R1 i := lerp (F i) (R2 i) t in
  let N3 i := lerp (N2 i) (R1 i) t in
  (N1, N2, N3, R1, R2).

(** algo.h:384-393 [SplitQuadratic]: N1, N2, R1. *)
Definition SplitQuadratic (t : R) (P0 P1 P2 : point) : point * point * point :=
  let N1 i := lerp (P0 i) (P1 i) t in
  let R1 i := lerp (P1 i) (P2 i) t in
  let N2 i := lerp (N1 i) (R1 i) t in
  (N1, N2, R1).

Section Sqrt.

(** bss_util.h:604-664 [FastSqrt]: an approximation of the square root that is not modelled further; each theorem says
    what it needs of it.  None: the result is not a finite number. *)
Context (FastSqrt : R -> option R).

(** algo.h:396-402 [SolveQuadratic]: r[0] and r[1].  A division by zero gives an infinity or NaN: None. *)
Definition SolveQuadratic (a b c : R) : option R * option R :=
  match FastSqrt (b * b - 4 * a * c) with
  | Some d =>
      if Req_EM_T a 0 then (None, None)
      else (Some ((- b - d) / (2 * a)), Some ((- b + d) / (2 * a)))
  | None => (None, None)
  end.

(** algo.h:405-420 [CubicInflectionPoints]. *)
Definition CubicInflectionPoints (P0 P1 P2 P3 : point) : option R * option R :=
  let a i := P1 i - P0 i in
  let b i := P2 i - P1 i - a i in
  let c i := P3 i - P2 i - a i - 2 * b i in
  SolveQuadratic (b 0%nat * c 1%nat - b 1%nat * c 0%nat) (a 0%nat * c 1%nat - a 1%nat * c 0%nat)
    (a 0%nat * b 1%nat - a 1%nat * b 0%nat).

(** algo.h:423-442 [ApproxCubicError] with I = 2. *)
Definition ApproxCubicError (P0 P1 P2 P3 : point) : option R :=
  let M i := 3 * P1 i - 3 * P2 i - P0 i + P3 i in
  match FastSqrt (0 + M 0%nat * M 0%nat + M 1%nat * M 1%nat) with
  | Some s => Some (336008945728118 / 10 ^ 15 * s)
  | None => None
  end.

(** algo.h:456, 470 the comparison with maxerror; it fails when the error is not a finite number (NaN). *)
Definition above (e : option R) (maxerror : R) : bool :=
  match e with
  | Some e => if Rgt_dec e maxerror then true else false
  | None => false
  end.

(** algo.h:464-466, 478-480: the control point of the quadratic. *)
Definition control (P0 P1 P2 P3 : point) : point := fun i => (3 * (P2 i + P1 i) - P3 i - P0 i) / 4.

(** algo.h:444-482 [ApproxCubicR]; t0, t1, t2 are t[0..2]; the result lists the arguments of the calls of fn in order;
    None: the recursion is deeper than [fuel]. *)
Fixpoint ApproxCubicR (fuel : nat) (t0 t1 t2 : R) (P0 P1 P2 P3 : point) (maxerror : R)
  : option (list (point * point * point)) :=
  match fuel with
  | O => None
  | S fuel =>
      let '(N1, N2, N3, R1, R2) := SplitCubic t1 P0 P1 P2 P3 in                                 (* 453 *)
      let first :=
        if above (ApproxCubicError P0 N1 N2 N3) maxerror then                                     (* 456 *)
          ApproxCubicR fuel t0 ((t1 + t0) / 2) t1 P0 N1 N2 N3 maxerror                            (* 458-459 *)
        else Some [(P0, control P0 N1 N2 N3, N3)] in                                              (* 463-466 *)
      let second :=
        if above (ApproxCubicError N3 R1 R2 P3) maxerror then                                     (* 470 *)
          ApproxCubicR fuel t1 ((t2 + t1) / 2) t2 N3 R1 R2 P3 maxerror                            (* 472-473 *)
        else Some [(N3, control N3 R1 R2 P3, P3)] in                                              (* 477-480 *)
      match first, second with
      | Some l, Some r => Some (l ++ r)
      | _, _ => None
      end
  end.

(** algo.h:489 the test whether a candidate lies in [0, 1]; false for infinities and NaN. *)
Definition in_unit (r : option R) : option R :=
  match r with
  | Some x => if Rle_dec 0 x then if Rle_dec x 1 then Some x else None else None
  | None => None
  end.

(** algo.h:484-491 [ApproxCubic]. *)
Definition ApproxCubic (fuel : nat) (P0 P1 P2 P3 : point) (maxerror : R) : option (list (point * point * point)) :=
  let '(r0, r1) := CubicInflectionPoints P0 P1 P2 P3 in
  let t := match in_unit r0 with
           | Some x => x
           | None => match in_unit r1 with Some x => x | None => 1 / 2 end
           end in
  ApproxCubicR fuel 0 t 1 P0 P1 P2 P3 maxerror.

End Sqrt.

(** The C library's [cbrt], the real cube root. *)
Definition cbrt (x : R) : R :=
  if Rlt_dec 0 x then Rpower x (/ 3) else if Rlt_dec x 0 then - Rpower (- x) (/ 3) else 0.

(** algo.h:494-524 [solveCubic], with FastSqrt taken to be the exact square root; the result lists r[0..n-1] for the
    return value n. *)
Definition solveCubic (at_ bt ct dt : R) : list R :=
  let a := bt / at_ in
  let b := ct / at_ in
  let c := dt / at_ in
  let p := b - a * a / 3 in
  let q := a * (2 * a * a - 9 * b) / 27 + c in
  let p3 := p * p * p in
  let d := q * q + 4 * p3 / 27 in
  let offset := - a / 3 in
  if Rge_dec d 0 then
    let z := sqrt d in
    let u := (- q + z) / 2 in
    let v := (- q - z) / 2 in
    let u := cbrt u in
    let v := cbrt v in
    [offset + u + v]
  else
    let u := sqrt (- p / 3) in
    let v := acos (- sqrt (-27 / p3) * q / 2) / 3 in
    let m := cos v in
    let n := sin v * (1732050808 / 10 ^ 9) in
    [offset + u * (m + m); offset - u * (n + m); offset + u * (n - m)].

(** bss_util.h:562-577 [fSmall]: the order of the bit patterns of non-negative floats is the order of the numbers, so for
    a non-negative epsilon this compares the absolute value. *)
Definition fSmall (f eps : R) : bool := if Rle_dec (Rabs f) eps then true else false.

(** algo.h:527-543 [NewtonRaphson]: the result, or None where the code returns false.  When dF(x) is zero the quotient is
    an infinity and every later iterate an infinity or NaN: the model then fails, assuming F of those is not small. *)
Fixpoint NewtonRaphson (F dF : R -> R) (epsilon : R) (n : nat) (x : R) : option R :=
  match n with
  | O => None
  | S n =>
      let f := F x in
      if fSmall f epsilon then Some x
      else if Req_EM_T (dF x) 0 then None
      else NewtonRaphson F dF epsilon n (x - f / dF x)
  end.

(** algo.h:546-571 [NewtonRaphsonBisection].  When dF(x) is zero the quotient is an infinity (f is not zero), so the
    candidate is out of range. *)
Fixpoint NewtonRaphsonBisection (F dF : R -> R) (epsilon : R) (n : nat) (x min max : R) : R :=
  match n with
  | O => x
  | S n =>
      let f := F x in
      if fSmall f epsilon then x
      else
        let '(min, max) := if Rgt_dec f 0 then (min, x) else (x, max) in
        let mid := (1 / 2) * (min + max) in
        let x :=
          if Req_EM_T (dF x) 0 then mid
          else
            let y := x - f / dF x in
            if Rle_dec y min then mid else if Rge_dec y max then mid else y in
        NewtonRaphsonBisection F dF epsilon n x min max
  end.
