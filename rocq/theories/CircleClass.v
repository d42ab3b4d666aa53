(* Model of the methods of Circle, which is NSphere<T, 2> (Geometry.h 46-99), over real numbers.  They call the functions of Collision.h with
   coordinates relative to the centre. *)
From Coq Require Import Reals List Bool.
From Verif Require Import Collision.
Import ListNotations.
Local Open Scope R_scope.

(** Geometry.h:86-98 x, y and r *)
Record circle := Circle { cx : R; cy : R; cr : R }.
(** Geometry.h:58 Diameter *)
Definition Diameter (c : circle) : R := cr c * 2.
(** Geometry.h:60-61 ContainsPoint *)
Definition ContainsPoint (c : circle) (X Y : R) : bool := RadiusContainsPoint (cr c) (X - cx c) (Y - cy c).
(** Geometry.h:62-64 ContainsCircle *)
Definition ContainsCircle (c : circle) (X Y R : R) : bool := if rle (cr c) R then false else RadiusContainsPoint (cr c - R) (X - cx c) (Y - cy c).
(** Geometry.h:65-66 NearestPoint: the point that is written to outX and outY *)
Definition NearestPoint (c : circle) (X Y : R) : point := RadiusNearestPoint (cr c) (X - cx c) (Y - cy c).
(** Geometry.h:67 CircleIntersect: the points that are written to out *)
Definition CircleIntersect (c : circle) (X Y R : R) : list point := CircleRadiusIntersect (cr c) (X - cx c) (Y - cy c) R.
(** Geometry.h:68 CircleCollide *)
Definition CircleCollide (c : circle) (X Y R : R) : bool := RadiusContainsPoint (cr c + R) (X - cx c) (Y - cy c).
(** Geometry.h:70-72 LineCollide, RayCollide, LineSegmentCollide *)
Definition LineCollide (c : circle) (X1 Y1 X2 Y2 : R) : bool := LineRadiusCollide (X1 - cx c) (Y1 - cy c) (X2 - cx c) (Y2 - cy c) (cr c).
Definition RayCollide (c : circle) (X1 Y1 X2 Y2 : R) : bool := RayRadiusCollide (X1 - cx c) (Y1 - cy c) (X2 - cx c) (Y2 - cy c) (cr c).
Definition LineSegmentCollide (c : circle) (X1 Y1 X2 Y2 : R) : bool := LineSegmentRadiusCollide (X1 - cx c) (Y1 - cy c) (X2 - cx c) (Y2 - cy c) (cr c).
(** Geometry.h:73-75 LineIntersect, RayIntersect, LineSegmentIntersect: the points that are written to out; the number of them becomes a bool *)
Definition some (l : list point) : bool := negb (Nat.eqb (length l) 0).
Definition LineIntersect (c : circle) (X1 Y1 X2 Y2 : R) : bool * list point :=
  let l := LineRadiusIntersect (X1 - cx c) (Y1 - cy c) (X2 - cx c) (Y2 - cy c) (cr c) in (some l, l).
Definition RayIntersect (c : circle) (X1 Y1 X2 Y2 : R) : bool * list point :=
  let l := RayRadiusIntersect (X1 - cx c) (Y1 - cy c) (X2 - cx c) (Y2 - cy c) (cr c) in (some l, l).
Definition LineSegmentIntersect (c : circle) (X1 Y1 X2 Y2 : R) : bool * list point :=
  let l := LineSegmentRadiusIntersect (X1 - cx c) (Y1 - cy c) (X2 - cx c) (Y2 - cy c) (cr c) in (some l, l).
(** Geometry.h:76 RectCollide *)
Definition RectCollide (c : circle) (left top right bottom : R) : bool := RectCircleCollide left top right bottom (cx c) (cy c) (cr c).
