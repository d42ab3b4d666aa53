(* Model of CircleSector of bss-util/Geometry.h over the real numbers, as in Collision.v: rounding is not modelled,
   cos, sin and PI are exact, and a quotient with divisor zero is only given where Collision.v says what it is.  The
   segments given to the functions here have two different ends. *)
From Coq Require Import Reals List Bool.
From Verif Require Import Collision.
Import ListNotations.
Local Open Scope R_scope.

(** Geometry.h:457-474 the members of [CircleSector]. *)
Record sector := mkSector { s_x : R; s_y : R; s_inner : R; s_outer : R; s_min : R; s_range : R }.

(** Geometry.h:445, 446 the constructors. *)
Definition makeSector (X Y Inner Outer Min Range : R) : sector :=
  mkSector X Y Inner Outer (bssFMod Min (2 * PI)) Range.

(** Geometry.h:448-450 [Area], [ArcLengthOuter], [ArcLengthInner]. *)
Definition sectorArea (s : sector) : R := (s_outer s * s_outer s - s_inner s * s_inner s) * s_range s * (/ 2).
Definition ArcLengthOuter (s : sector) : R := s_range s * s_outer s.
Definition ArcLengthInner (s : sector) : R := s_range s * s_inner s.

(** Geometry.h:451 [ContainsPoint]. *)
Definition sectorContainsPoint (s : sector) (X Y : R) : bool :=
  RadiusSectorContainsPoint (X - s_x s) (Y - s_y s) (s_inner s) (s_outer s) (s_min s) (s_range s).

(** Geometry.h:609-612 [_lineRayIntersect]. *)
Definition lineRayIntersect (X1 Y1 X2 Y2 inner outer angle : R) : bool :=
  LineSegmentLineSegmentCollide (cos angle * inner) (- sin angle * inner) (cos angle * outer) (- sin angle * outer) X1 Y1 X2 Y2.

(** Geometry.h:613-616 [_rayRayIntersect]. *)
Definition rayRayIntersect (X Y Inner Outer Angle inner outer angle : R) : bool :=
  lineRayIntersect (X + cos Angle * Inner) (Y - sin Angle * Inner) (X + cos Angle * Outer) (Y - sin Angle * Outer)
    inner outer angle.

(** Geometry.h:662-668 [_checkAngles]; the points are those written to the array. *)
Definition checkAngles (pts : list point) (min range : R) : bool :=
  existsb (fun p => RadiusSectorContainsPointAngle (fst p) (snd p) min range) pts.

(** Geometry.h:654-660 [_checkBothAngles]. *)
Definition checkBothAngles (X Y : R) (pts : list point) (min range Min Range : R) : bool :=
  existsb (fun p => RadiusSectorContainsPointAngle (fst p) (snd p) min range &&
                    RadiusSectorContainsPointAngle (fst p - X) (snd p - Y) Min Range) pts.

(** Geometry.h:617-623 [_intersectRayCircle]. *)
Definition intersectRayCircle (X Y R inner outer angle Min Range : R) : bool :=
  let c := cos angle in
  let s := sin angle in
  checkAngles (LineSegmentRadiusIntersect (c * inner - X) (- (s * inner) - Y) (c * outer - X) (- (s * outer) - Y) R) Min Range.

(** Geometry.h:625-634 [_intersectAngleCircle]. *)
Definition intersectAngleCircle (s : sector) (X Y R angle : R) : bool :=
  let c := cos angle in
  let sn := sin angle in
  let x1 := c * s_inner s - X in
  let y1 := - (sn * s_inner s) - Y in
  if LineSegmentRadiusCollide x1 y1 (c * s_outer s - X) (- (sn * s_outer s) - Y) R then true
  else rlt (x1 * x1 + y1 * y1) (R * R).

(** Geometry.h:636-653 [_intersectLine]. *)
Definition intersectLine (s : sector) (X1 Y1 X2 Y2 : R) : bool :=
  if checkAngles (LineSegmentRadiusIntersect X1 Y1 X2 Y2 (s_outer s)) (s_min s) (s_range s) then true
  else if rlt 0 (s_inner s) && checkAngles (LineSegmentRadiusIntersect X1 Y1 X2 Y2 (s_inner s)) (s_min s) (s_range s) then true
  else if lineRayIntersect X1 Y1 X2 Y2 (s_inner s) (s_outer s) (s_min s) then true
  else if lineRayIntersect X1 Y1 X2 Y2 (s_inner s) (s_outer s) (s_min s + s_range s) then true
  else false.

(** Geometry.h:497-506 [IntersectLine]. *)
Definition IntersectLine (s : sector) (X1 Y1 X2 Y2 : R) : bool :=
  let X1 := X1 - s_x s in
  let Y1 := Y1 - s_y s in
  let X2 := X2 - s_x s in
  let Y2 := Y2 - s_y s in
  if RadiusSectorContainsPoint X1 Y1 (s_inner s) (s_outer s) (s_min s) (s_range s) then true
  else intersectLine s X1 Y1 X2 Y2.

(** Geometry.h:484, 488, 491 the edge from [a] to [b] in [IntersectPolygon]. *)
Definition intersectEdge (s : sector) (a b : point) : bool :=
  intersectLine s (fst a - s_x s) (snd a - s_y s) (fst b - s_x s) (snd b - s_y s).

(** Geometry.h:486-490 the loop over the vertices after [prev]: the result, and the last vertex for the edge that closes
    the polygon. *)
Fixpoint intersectEdges (s : sector) (prev : point) (l : list point) : bool :=
  match l with [] => false | v :: r => if intersectEdge s prev v then true else intersectEdges s v r end.

(** Geometry.h:476-495 [IntersectPolygon]. *)
Definition IntersectPolygon (s : sector) (vertices : list point) : bool :=
  match vertices with
  | [] => false
  | v0 :: rest =>
      if sectorContainsPoint s (fst v0) (snd v0) then true
      else match rest with
           | [] => false
           | [v1] => intersectEdge s v0 v1
           | _ => if intersectEdges s v0 rest then true else intersectEdge s (last rest v0) v0
           end
  end.

(** Geometry.h:508-537 [CircleCollide]. *)
Definition sectorCircleCollide (s : sector) (X Y R : R) : bool :=
  let X := X - s_x s in
  let Y := Y - s_y s in
  let D2 := X * X + Y * Y in
  let tr := R + s_outer s in
  if rlt (tr * tr) D2 then false
  else
    let ti := s_inner s - R in
    if rlt 0 (s_inner s) && (rlt 0 ti && rlt D2 (ti * ti)) then false
    else if rle (2 * PI) (s_range s) then true
    else if RadiusSectorContainsPointAngle X Y (s_min s) (s_range s) then true
    else if intersectAngleCircle s X Y R (s_min s) then true
    else if intersectAngleCircle s X Y R (s_min s + s_range s) then true
    else false.

(** Geometry.h:539-606 [CircleSectorCollide]: [eps] is the default argument of fSmall (bss_util.h:562-578). *)
Definition sectorSectorCollide (eps : R) (s : sector) (X Y Inner Outer Min Range : R) : bool :=
  let X := X - s_x s in
  let Y := Y - s_y s in
  let inner := s_inner s in
  let outer := s_outer s in
  let min := s_min s in
  let range := s_range s in
  let D2 := X * X + Y * Y in
  let tr := Outer + outer in
  if rlt (tr * tr) D2 then false
  else if RadiusSectorContainsPoint (X + cos Min * Inner) (Y - sin Min * Inner) inner outer min range then true
  else if RadiusSectorContainsPoint (- X + cos min * inner) (- Y - sin min * inner) Inner Outer Min Range then true
  else if rle (Rabs X) eps && rle (Rabs Y) eps then
    rle inner Outer && rle Inner outer && rle min (Min + Range) && rle Min (min + range)
  else if checkBothAngles X Y (CircleRadiusIntersect outer X Y Outer) min range Min Range then true
  else if rlt 0 inner && checkBothAngles X Y (CircleRadiusIntersect inner X Y Outer) min range Min Range then true
  else if rlt 0 Inner && checkBothAngles X Y (CircleRadiusIntersect Inner X Y outer) min range Min Range then true
  else if rlt 0 inner && rlt 0 Inner && checkBothAngles X Y (CircleRadiusIntersect inner X Y Inner) min range Min Range then true
  else if rlt Range (2 * PI) || rlt range (2 * PI) then
    if rayRayIntersect X Y Inner Outer Min inner outer min then true
    else if rayRayIntersect X Y Inner Outer (Min + Range) inner outer min then true
    else if rayRayIntersect X Y Inner Outer Min inner outer (min + range) then true
    else if rayRayIntersect X Y Inner Outer (Min + Range) inner outer (min + range) then true
    else if intersectRayCircle X Y Outer inner outer min Min Range then true
    else if intersectRayCircle X Y Outer inner outer (min + range) Min Range then true
    else if intersectRayCircle (- X) (- Y) outer Inner Outer Min min range then true
    else if intersectRayCircle (- X) (- Y) outer Inner Outer (Min + Range) min range then true
    else if rlt 0 Inner && intersectRayCircle X Y Inner inner outer min Min Range then true
    else if rlt 0 Inner && intersectRayCircle X Y Inner inner outer (min + range) Min Range then true
    else if rlt 0 inner && intersectRayCircle (- X) (- Y) inner Inner Outer Min min range then true
    else if rlt 0 inner && intersectRayCircle (- X) (- Y) inner Inner Outer (Min + Range) min range then true
    else false
  else false.
