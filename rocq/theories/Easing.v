(* Model of the easing of animations and the curves between key frames (Animation.h 543-723), over real numbers. *)
From Coq Require Import Reals List Bool.
From Verif Require Import Curves.
Import ListNotations.
Local Open Scope R_scope.

(** Animation.h:547 TimeBezier *)
Definition TimeBezier (s p1 p2 : R) : R :=
  let inv := 1 - s in
  3 * inv * inv * s * p1 + 3 * inv * s * s * p2 + s * s * s.
(** Animation.h:548 TimeBezierD *)
Definition TimeBezierD (s p1 p2 : R) : R :=
  let inv := 1 - s in
  3 * inv * inv * p1 + 6 * inv * s * (p2 - p1) + inv * s * s * p2 + 3 * s * s * (1 - p2).
(** Animation.h:543-546 and 559-563: the control points of the easing; the first constructor gives (0, 0) and (1, 1) *)
Record easing := Easing { t1 : R; s1 : R; t2 : R; s2 : R }.
Definition default_easing : easing := Easing 0 0 1 1.
(** Animation.h:555: the place on the curve that the search stops at; 50 is the default of maxiterations (algo.h:547), and eps is FLT_EPS *)
Definition search (eps : R) (e : easing) (t : R) : R :=
  NewtonRaphsonBisection (fun s => TimeBezier s (t1 e) (t2 e) - t) (fun s => TimeBezierD s (t1 e) (t2 e)) eps 50 t 0 1.
(** Animation.h:550-557 GetProgress, for the easing of the frame *)
Definition GetProgress (eps : R) (e : easing) (t : R) : R := TimeBezier (search eps e t) (s1 e) (s2 e).
(** bss_util.h:1002-1006 lerp; the conversions to T are the identity here *)
Definition lerp (a b t : R) : R := (1 - t) * a + t * b.
(** Animation.h:19-25 a frame *)
Record frame := Frame { value : R; data : easing }.
(** Animation.h:572-576 LinearInterpolate; the conversion of s to float is left out.  None where a frame that does not exist is read *)
Definition LinearInterpolate (eps : R) (v : list frame) (cur : nat) (t init : R) : option R :=
  match nth_error v cur, match cur with O => Some init | S k => option_map value (nth_error v k) end with
  | Some f, Some p => Some (lerp p (value f) (GetProgress eps (data f) t))
  | _, _ => None
  end.
(** Animation.h:577-582 LinearInterpolateRel; None also where the assertion fails *)
Definition LinearInterpolateRel (eps : R) (v : list frame) (cur : nat) (t init : R) : option R :=
  match cur with
  | O => None
  | S _ => match LinearInterpolate eps v cur t init with Some x => Some (init + x) | None => None end
  end.
(** Animation.h:604-607 Bezier and BezierD of AniQuadData *)
Definition QuadBezier (s p0 p1 p2 : R) : R := let inv := 1 - s in inv * inv * p0 + 2 * inv * s * p1 + s * s * p2.
Definition QuadBezierD (s p0 p1 p2 : R) : R := let inv := 1 - s in 2 * inv * (p1 - p0) + 2 * s * (p2 - p1).
(** Animation.h:665-667 Bezier and BezierD of AniCubicData *)
Definition CubicBezier (s p0 p1 p2 p3 : R) : R :=
  let inv := 1 - s in inv * inv * inv * p0 + 3 * inv * inv * s * p1 + 3 * inv * s * s * p2 + s * s * s * p3.
Definition CubicBezierD (s p0 p1 p2 p3 : R) : R :=
  let inv := 1 - s in 3 * inv * inv * (p1 - p0) + 6 * inv * s * (p2 - p1) + 3 * inv * s * s * (p3 - p2).
(** Animation.h:610-622 Length of AniQuadData and 670-682 of AniCubicData, given the derivative of each coordinate, of which there is at least one:
    the loop leaves the last one in r and the sum of the squares in a, and r is what is used.  FastSqrt is the square root here *)
Definition length_loop (ds : list R) : R * R := fold_left (fun '(_, a) r => (r, a + r * r)) ds (0, 0).
Definition Length (ds : list R) : R := let '(r, a) := length_loop ds in sqrt r.
