(* Model of bss-util/Collision.h and of the parts of bss-util/Geometry.h that call it, over the real numbers: rounding
   and overflow are not modelled and FastSqrt (bss_util.h:604-664) is exact.  A quotient with divisor zero is None where the code goes on to
   compare it: it is then an infinity or a NaN, and every comparison below it takes part in is false or is made
   false by the comparison next to it.  Points given by two coordinates are given by two coordinates here too;
   arrays of points are lists. *)
From Coq Require Import Reals List Arith Bool.
From Verif Require Import Matrix.
Import ListNotations.
Local Open Scope R_scope.

(** The comparison operators. *)
Definition rlt (x y : R) : bool := if Rlt_dec x y then true else false.
Definition rle (x y : R) : bool := if Rle_dec x y then true else false.
Definition reqb (x y : R) : bool := if Req_EM_T x y then true else false.

(** A quotient that is compared afterwards. *)
Definition quotient (a b : R) : option R := if Req_EM_T b 0 then None else Some (a / b).
(** [q >= 0 && q <= 1] *)
Definition in01 (q : option R) : bool := match q with Some t => rle 0 t && rle t 1 | None => false end.

Definition point := (R * R)%type.

(* ------------------------------------------------------------------ spheres and circles *)

(** Collision.h:12-16 [SphereContainsPoint]. *)
Definition SphereContainsPoint (N : nat) (p center : vec) (radius : R) : bool :=
  rlt (NVectorDistanceSq N p center) (radius * radius).

(** Collision.h:18-25 [SphereContainsSphere]. *)
Definition SphereContainsSphere (N : nat) (containerCenter : vec) (containerRadius : R) (center : vec) (radius : R)
  : bool :=
  if rle containerRadius radius then false
  else let r := containerRadius - radius in rlt (NVectorDistanceSq N containerCenter center) (r * r).

(** Collision.h:27-32 [SphereSphereCollide]. *)
Definition SphereSphereCollide (N : nat) (c1 : vec) (r1 : R) (c2 : vec) (r2 : R) : bool :=
  let r := r1 + r2 in rlt (NVectorDistanceSq N c1 c2) (r * r).

(** Collision.h:69-73 [RadiusContainsPoint]. *)
Definition RadiusContainsPoint (r X Y : R) : bool := rlt (X * X + Y * Y) (r * r).

(** Collision.h:74-78 [CircleContainsPoint]. *)
Definition CircleContainsPoint (x y r pX pY : R) : bool := RadiusContainsPoint r (pX - x) (pY - y).

(** Collision.h:81-87 [CircleContainsCircle]. *)
Definition CircleContainsCircle (X1 Y1 R1 X2 Y2 R2 : R) : bool :=
  if rle R1 R2 then false else RadiusContainsPoint (R1 - R2) (X2 - X1) (Y2 - Y1).

(** Collision.h:89-93 [CircleCircleCollide]. *)
Definition CircleCircleCollide (X1 Y1 R1 X2 Y2 R2 : R) : bool :=
  RadiusContainsPoint (R1 + R2) (X2 - X1) (Y2 - Y1).

(** Collision.h:95-101, 103-104 [RadiusNearestPoint], [CircleNearestPoint]. *)
Definition RadiusNearestPoint (r X Y : R) : point :=
  let s := r / sqrt (X * X + Y * Y) in (X * s, Y * s).
Definition CircleNearestPoint (x y r X Y : R) : point :=
  let '(outX, outY) := RadiusNearestPoint r (X - x) (Y - y) in (outX + x, outY + y).

(** Geometry.h:69 [NSphere<T,2>::CircleCollide(const Vector&, T)] of the circle (x, y, r). *)
Definition Circle_CircleCollide_V (x y r : R) (C : point) (R : R) : bool :=
  RadiusContainsPoint (r + R) (fst C - x) (fst C - y).

(** Collision.h:37-60 [CircleRadiusIntersect]: the points written to [out], one per index below the result. *)
Definition CircleRadiusIntersect (r X Y R : R) : list point :=
  let dsq := (X * X) + (Y * Y) in
  let maxr := r + R in
  let minr := Rabs (r - R) in
  if rlt (maxr * maxr) dsq then []
  else if rlt dsq (minr * minr) then []
  else
    let id := 1 / sqrt dsq in
    let a := (r * r - (R * R) + dsq) * (id / 2) in
    let h := sqrt (r * r - (a * a)) in
    let x2 := X * a * id in
    let y2 := Y * a * id in
    [(x2 + h * Y * id, y2 - h * X * id); (x2 - h * Y * id, y2 + h * X * id)].

(** Collision.h:64-68 [CircleCircleIntersect]. *)
Definition CircleCircleIntersect (X1 Y1 R1 X2 Y2 R2 : R) : list point :=
  CircleRadiusIntersect R1 (X2 - X1) (Y2 - Y1) R2.

(* ------------------------------------------------------------------ lines and circles *)

(** Collision.h:109-127 [LineRadiusParametricIntersect]: [out1], [out2] when the result is 2, None when it is 0. *)
Definition LineRadiusParametricIntersect (X1 Y1 X2 Y2 r : R) : option (R * R) :=
  let Dx := X2 - X1 in
  let Dy := Y2 - Y1 in
  let Dr2 := Dx * Dx + Dy * Dy in
  let b := 2 * (X1 * Dx + Y1 * Dy) in
  let c := (X1 * X1 + Y1 * Y1) - r * r in
  let d := b * b - 4 * Dr2 * c in
  if rlt d 0 then None
  else let d := sqrt d in Some ((- b - d) / (2 * Dr2), (- b + d) / (2 * Dr2)).

(** The loop shared by Collision.h:129-144 [LineRadiusIntersect], 146-166 [LineSegmentRadiusIntersect] and 168-188
    [RayRadiusIntersect]; [keep] is the test of the loop. *)
Definition intersections (keep : R -> bool) (X1 Y1 X2 Y2 r : R) : list point :=
  let Dx := X2 - X1 in
  let Dy := Y2 - Y1 in
  match LineRadiusParametricIntersect X1 Y1 X2 Y2 r with
  | None => []
  | Some (t0, t1) => map (fun t => (X1 + Dx * t, Y1 + Dy * t)) (filter keep [t0; t1])
  end.
Definition LineRadiusIntersect := intersections (fun _ => true).
Definition LineSegmentRadiusIntersect := intersections (fun t => rle 0 t && rle t 1).
Definition RayRadiusIntersect := intersections (fun t => rle 0 t).

(** Collision.h:190-196 [LineRadiusCollide]. *)
Definition LineRadiusCollide (X1 Y1 X2 Y2 r : R) : bool :=
  match LineRadiusParametricIntersect X1 Y1 X2 Y2 r with None => false | Some _ => true end.

(** Collision.h:198-206 [RayRadiusCollide]. *)
Definition RayRadiusCollide (X1 Y1 X2 Y2 r : R) : bool :=
  match LineRadiusParametricIntersect X1 Y1 X2 Y2 r with
  | None => false
  | Some (t0, t1) => rle 0 t0 || rle 0 t1
  end.

(** Collision.h:208-216 [LineSegmentRadiusCollide]. *)
Definition LineSegmentRadiusCollide (X1 Y1 X2 Y2 r : R) : bool :=
  match LineRadiusParametricIntersect X1 Y1 X2 Y2 r with
  | None => false
  | Some (t0, t1) => (rle 0 t0 && rle t0 1) || (rle 0 t1 && rle t1 1)
  end.

(** Collision.h:218-224 [LinePointParametricProject]. *)
Definition LinePointParametricProject (X1 Y1 X2 Y2 pX pY : R) : R :=
  let tx := X2 - X1 in
  let ty := Y2 - Y1 in
  ((pX - X1) * tx + (pY - Y1) * ty) / ((tx * tx) + (ty * ty)).

(** Collision.h:225-233 [LineNearestPoint]. *)
Definition LineNearestPoint (X1 Y1 X2 Y2 pX pY : R) : point :=
  let tx := X2 - X1 in
  let ty := Y2 - Y1 in
  let u := LinePointParametricProject X1 Y1 X2 Y2 pX pY in
  (X1 + u * tx, Y1 + u * ty).

(** Collision.h:234-250 [RayNearestPoint]. *)
Definition RayNearestPoint (X1 Y1 X2 Y2 pX pY : R) : point :=
  let tx := X2 - X1 in
  let ty := Y2 - Y1 in
  let u := LinePointParametricProject X1 Y1 X2 Y2 pX pY in
  if rle u 0 then (X1, Y1) else (X1 + u * tx, Y1 + u * ty).

(** Collision.h:251-272 [LineSegmentNearestPoint]. *)
Definition LineSegmentNearestPoint (X1 Y1 X2 Y2 pX pY : R) : point :=
  let tx := X2 - X1 in
  let ty := Y2 - Y1 in
  let u := LinePointParametricProject X1 Y1 X2 Y2 pX pY in
  if rle u 0 then (X1, Y1) else if rle 1 u then (X2, Y2) else (X1 + u * tx, Y1 + u * ty).

(** Collision.h:273-280 [LinePointDistanceSqr]. *)
Definition LinePointDistanceSqr (X1 Y1 X2 Y2 pX pY : R) : R :=
  let tx := X2 - X1 in
  let ty := Y2 - Y1 in
  let det := (tx * (Y1 - pY)) - ((X1 - pX) * ty) in
  (det * det) / ((tx * tx) + (ty * ty)).

(** Collision.h:281-288 [LinePointDistance]. *)
Definition LinePointDistance (X1 Y1 X2 Y2 pX pY : R) : R :=
  let tx := X2 - X1 in
  let ty := Y2 - Y1 in
  let det := (tx * (Y1 - pY)) - ((X1 - pX) * ty) in
  (det * det) / sqrt ((tx * tx) + (ty * ty)).

(** Collision.h:289-308 [LineSegmentPointDistanceSqr]. *)
Definition LineSegmentPointDistanceSqr (X1 Y1 X2 Y2 pX pY : R) : R :=
  let vx := X1 - pX in
  let vy := Y1 - pY in
  let ux := X2 - X1 in
  let uy := Y2 - Y1 in
  let length := ux * ux + uy * uy in
  let det := (- vx * ux) + (- vy * uy) in
  if rlt det 0 || rlt length det then
    let ux := X2 - pX in
    let uy := Y2 - pY in
    let vx := vx * vx + vy * vy in
    let ux := ux * ux + uy * uy in
    if rlt vx ux then vx else ux
  else
    let det := ux * vy - uy * vx in
    (det * det) / length.

(** Collision.h:309-313 [LineSegmentPointDistance]. *)
Definition LineSegmentPointDistance := LineSegmentPointDistanceSqr.

(* ------------------------------------------------------------------ two lines *)

(** Collision.h:314-333 [LineSegmentLineSegmentIntersect]: the point stored in [retpoint] when the result is true. *)
Definition LineSegmentLineSegmentIntersect (x1 y1 x2 y2 X1 Y1 X2 Y2 : R) : option point :=
  let px := x1 in let py := y1 in
  let rx := x2 - x1 in let ry := y2 - y1 in
  let qx := X1 in let qy := Y1 in
  let sx := X2 - X1 in let sy := Y2 - Y1 in
  let rCrossS := Cross2 rx ry sx sy in
  if rle rCrossS 0 && rle (-1) rCrossS then None
  else
    let qx := qx - px in let qy := qy - py in
    let t := Cross2 sx sy qx qy / rCrossS in
    let u := Cross2 rx ry qx qy / rCrossS in
    if rle 0 u && rle u 1 && rle 0 t && rle t 1 then Some (px + rx * t, py + ry * t) else None.

(** Collision.h:334-349 [LineLineIntersect]. *)
Definition LineLineIntersect (x1 y1 x2 y2 X1 Y1 X2 Y2 : R) : option point :=
  let px := x1 in let py := y1 in
  let rx := x2 - x1 in let ry := y2 - y1 in
  let qx := X1 in let qy := Y1 in
  let sx := X2 - X1 in let sy := Y2 - Y1 in
  let rCrossS := Cross2 rx ry sx sy in
  if rle rCrossS 0 && rle (-1) rCrossS then None
  else
    let qx := qx - px in let qy := qy - py in
    let t := Cross2 sx sy qx qy / rCrossS in
    Some (px + rx * t, py + ry * t).

(** Collision.h:350-361 [LineSegmentLineSegmentCollide]. *)
Definition LineSegmentLineSegmentCollide (x1 y1 x2 y2 X1 Y1 X2 Y2 : R) : bool :=
  let da := X2 - X1 in
  let db := Y2 - Y1 in
  let dx := x2 - x1 in
  let dy := y2 - y1 in
  let s := quotient (dx * (Y1 - y1) + dy * (x1 - X1)) (da * dy - db * dx) in
  let t := quotient (da * (y1 - Y1) + db * (X1 - x1)) (db * dx - da * dy) in
  in01 s && in01 t.

(** Collision.h:362-371 [LineSegmentLineVertCollide]. *)
Definition LineSegmentLineVertCollide (x1 y1 x2 y2 X Y1 Y2 : R) : bool :=
  let db := Y2 - Y1 in
  let dx := x2 - x1 in
  let dy := y2 - y1 in
  let s := quotient (dx * (Y1 - y1) + dy * (x1 - X)) (- db * dx) in
  let t := quotient (db * (X - x1)) (db * dx) in
  in01 s && in01 t.

(** Collision.h:372-381 [LineSegmentLineHorzCollide]. *)
Definition LineSegmentLineHorzCollide (x1 y1 x2 y2 X1 X2 Y : R) : bool :=
  let da := X2 - X1 in
  let dx := x2 - x1 in
  let dy := y2 - y1 in
  let s := quotient (dx * (Y - y1) + dy * (x1 - X1)) (da * dy) in
  let t := quotient (da * (y1 - Y)) (- da * dy) in
  in01 s && in01 t.

(* ------------------------------------------------------------------ rectangles and ellipses *)

(** Collision.h:384-399 [RectCircleCollide]. *)
Definition RectCircleCollide (left top right bottom X Y R : R) : bool :=
  let rwh := (right - left) / 2 in
  let rhh := (bottom - top) / 2 in
  let cx := Rabs (X - ((right + left) / 2)) in
  let cy := Rabs (Y - ((bottom + top) / 2)) in
  if rlt (rwh + R) cx || rlt (rhh + R) cy then false
  else if rle cx rwh || rle cy rhh then true
  else
    let cx := cx - rwh in
    let cy := cy - rhh in
    let rwh := (cx * cx) + (cy * cy) in
    rle rwh (R * R).

(** Collision.h:401-440 [RectLineCollide]. *)
Definition RectLineCollide (left top right bottom X1 Y1 X2 Y2 : R) : bool :=
  let m := X2 - X1 in
  if reqb m 0 then
    negb (rlt X1 left || rlt right X2 || (rlt Y1 top && rlt Y2 top) || (rlt bottom Y1 && rlt Y2 bottom))
  else
    let m := (Y2 - Y1) / m in
    let c := Y1 - (m * X1) in
    let '(ti, bi) := if rlt 0 m then (m * left + c, m * right + c) else (m * right + c, m * left + c) in
    let '(tp, bp) := if rlt Y1 Y2 then (Y1, Y2) else (Y2, Y1) in
    let ti := if rlt tp ti then ti else tp in
    let bi := if rlt bi bp then bi else bp in
    rlt ti bi && negb (rlt bi top || rlt bottom ti).

(** Collision.h:442-446 [RectContainsPoint]. *)
Definition RectContainsPoint (left top right bottom X Y : R) : bool :=
  rle left X && rle top Y && rlt X right && rlt Y bottom.

(** Collision.h:448-452 [RectContainsRect]. *)
Definition RectContainsRect (Left Top Right Bottom left top right bottom : R) : bool :=
  rle Left left && rle Top top && rle right Right && rle bottom Bottom.

(** Collision.h:454-458 [RectRectCollide]. *)
Definition RectRectCollide (Left Top Right Bottom left top right bottom : R) : bool :=
  rle left Right && rle top Bottom && rle Left right && rle Top bottom.

(** Geometry.h:256-369 [Rect]: left, top, right, bottom. *)
Record rect := mkRect { left : R; top : R; right : R; bottom : R }.

(** bssmin and bssmax (defines.h:15-16). *)
Definition bssmin (a b : R) : R := if rlt a b then a else b.
Definition bssmax (a b : R) : R := if rlt b a then a else b.

(** Geometry.h:273 [BoundingCircle]: centre and radius. *)
Definition BoundingCircle (r : rect) : point * R :=
  let cx := (left r + right r) / 2 in
  let cy := (top r + bottom r) / 2 in
  ((cx, cy), sqrt ((cx - left r) * (cx - left r) + (cy - top r) * (cy - top r))).

(** Geometry.h:282 [Canonical]. *)
Definition Canonical (r : rect) : rect :=
  mkRect (bssmin (left r) (right r)) (bssmin (top r) (bottom r)) (bssmax (left r) (right r)) (bssmax (top r) (bottom r)).

(** Geometry.h:284 [ExpandTo]. *)
Definition ExpandTo (r : rect) (p : point) : rect :=
  mkRect (bssmin (left r) (fst p)) (bssmin (top r) (snd p)) (bssmax (right r) (fst p)) (bssmax (bottom r) (snd p)).

(** Geometry.h:286 [Union]. *)
Definition Union (r s : rect) : rect :=
  mkRect (bssmin (left r) (left s)) (bssmin (top r) (top s)) (bssmax (right r) (right s)) (bssmax (bottom r) (bottom s)).

(** Geometry.h:288 [Intersection]. *)
Definition Intersection (r s : rect) : rect :=
  if negb (RectRectCollide (left r) (top r) (right r) (bottom r) (left s) (top s) (right s) (bottom s))
  then mkRect (left r) (top r) (left r) (top r)
  else mkRect (bssmax (left r) (left s)) (bssmax (top r) (top s)) (bssmin (right r) (right s))
         (bssmin (bottom r) (bottom s)).

(** Geometry.h:371-378 [RectExpandTo]. *)
Definition RectExpandTo (r : rect) (p : point) : rect :=
  let r := if rlt (fst p) (left r) then mkRect (fst p) (top r) (right r) (bottom r)
           else if rlt (right r) (fst p) then mkRect (left r) (top r) (fst p) (bottom r) else r in
  if rlt (snd p) (top r) then mkRect (left r) (snd p) (right r) (bottom r)
  else if rlt (bottom r) (snd p) then mkRect (left r) (top r) (right r) (snd p) else r.

(** Geometry.h:671-679 [PolygonAABB]; at least one vertex. *)
Definition PolygonAABB (v : point) (verts : list point) : rect :=
  fold_left RectExpandTo verts (mkRect (fst v) (snd v) (fst v) (snd v)).

(** Collision.h:490-496 [EllipseContainsPoint]. *)
Definition EllipseContainsPoint (X Y A B x y : R) : bool :=
  let tx := X - x in
  let ty := Y - y in
  rle (((tx * tx) / (A * A)) + ((ty * ty) / (B * B))) 1.

(** Collision.h:539-544 [EllipseRectCollide]. *)
Definition EllipseRectCollide (X Y A B left top right bottom : R) : bool :=
  let s := A / B in
  RectCircleCollide left (top * s) right (bottom * s) X (Y * s) A.

(* ------------------------------------------------------------------ triangles and polygons *)

(** Collision.h:462-486 [TriangleContainsPoint], [v.DotProduct(w)] (which Vector does not have) read as [v.Dot(w)]. *)
Definition TriangleContainsPoint (p0 p1 p2 : point) (X Y : R) : bool :=
  let dp := fun a b : point => fst a * fst b + snd a * snd b in
  let v0 := (fst p2 - fst p0, snd p2 - snd p0) in
  let v1 := (fst p1 - fst p0, snd p1 - snd p0) in
  let v2 := (X - fst p0, Y - snd p0) in
  let dot00 := dp v0 v0 in
  let dot01 := dp v0 v1 in
  let dot02 := dp v0 v2 in
  let dot11 := dp v1 v1 in
  let dot12 := dp v1 v2 in
  match quotient 1 (dot00 * dot11 - dot01 * dot01) with
  | None => false
  | Some inv =>
      let u := (dot11 * dot02 - dot01 * dot12) * inv in
      let v := (dot00 * dot12 - dot01 * dot02) * inv in
      rlt 0 u && rlt 0 v && rlt (u + v) 1
  end.

(** Collision.h:586-587 the test of [PolygonContainsPoint] for the edge between vertices [i] and [j]. *)
Definition crosses (p i j : point) : bool :=
  xorb (rlt (snd p) (snd i)) (rlt (snd p) (snd j)) &&
  rlt (fst p) ((fst j - fst i) * (snd p - snd i) / (snd j - snd i) + fst i).

(** The loop [for(i = 0, j = num - 1; i < num; j = i++)] over the edges of Collision.h:584, 634, 645: [prev] is
    vertex [j]. *)
Fixpoint edges {A} (f : A -> point -> point -> A) (acc : A) (prev : point) (l : list point) : A :=
  match l with [] => acc | v :: r => edges f (f acc v prev) v r end.
Definition over_edges {A} (f : A -> point -> point -> A) (acc : A) (verts : list point) : A :=
  edges f acc (last verts (0, 0)) verts.

(** Collision.h:579-591 [PolygonContainsPoint]. *)
Definition PolygonContainsPoint (p : point) (verts : list point) : bool :=
  over_edges (fun c i j => if crosses p i j then negb c else c) false verts.

(** Collision.h:628-638 [PolygonArea]. *)
Definition PolygonArea (verts : list point) : R :=
  over_edges (fun area i j => area + ((fst j * snd i) - (fst i * snd j))) 0 verts / 2.

(** Collision.h:640-652 [PolygonCentroid].  [Vector<T,2> c;] leaves its coordinates as they were in memory: [c0]. *)
Definition PolygonCentroid (c0 : point) (verts : list point) : point :=
  let c := over_edges (fun (c : point) i j =>
    let w := (fst j * snd i) - (fst i * snd j) in
    (fst c + (fst j + fst i) * w, snd c + (snd j + snd i) * w)) c0 verts in
  let d := PolygonArea verts * 6 in
  (fst c / d, snd c / d).

(** Collision.h:605 the turn at vertex [i] of [PolygonIsConvex]. *)
Definition turn_at (j i k : point) : R :=
  ((fst i - fst j) * (snd k - snd i)) - ((snd i - snd j) * (fst k - fst i)).

(** Collision.h:594-609 [PolygonIsConvex]: [flag] is the pair of its two bits; [k] is vertex [i + 1] modulo [n]. *)
Definition PolygonIsConvex (p : list point) : bool :=
  let n := length p in
  let at_ := fun i => nth i p (0, 0) in
  let flag := fold_left (fun (flag : bool * bool) i =>
    let j := if Nat.eqb i 0 then (n - 1)%nat else (i - 1)%nat in
    let k := ((i + 1) mod n)%nat in
    let z := turn_at (at_ j) (at_ i) (at_ k) in
    (fst flag || rlt z 0, snd flag || rlt 0 z)) (seq 0 n) (false, false) in
  negb (fst flag && snd flag).

(** Collision.h:616-621 the side of the line from [a] to [b] the point is on. *)
Definition side (p a b : point) : R :=
  ((snd p - snd a) * (fst b - fst a)) - ((fst p - fst a) * (snd b - snd a)).

(** Collision.h:611-626 [ConvexPolygonContainsPoint]; [last] is not assigned in the loop. *)
Definition ConvexPolygonContainsPoint (p : point) (verts : list point) : bool :=
  let n := length verts in
  let at_ := fun i => nth i verts (0, 0) in
  let last := side p (at_ 0%nat) (at_ (n - 1)%nat) in
  forallb (fun i =>
    let cur := side p (at_ (i - 1)%nat) (at_ i) in
    negb ((rlt cur 0 && rlt 0 last) || (rlt 0 cur && rlt last 0))) (seq 1 (n - 1)).

(* ------------------------------------------------------------------ angles and sectors *)

(** bss_util.h:187-193 [bssFMod]. *)
Definition bssFMod (x m : R) : R := x - IZR (Int_part (x / m)) * m.

(** [fmod] of the C library: the remainder with the sign of [x]; [m] is positive. *)
Definition fmod (x m : R) : R := if rle 0 x then bssFMod x m else - bssFMod (- x) m.

(** bss_util.h:408-414 [AngleDist]; the constants PI and PI_DOUBLE are exact. *)
Definition AngleDist (a b : R) : R := PI - Rabs (fmod (Rabs (a - b)) (2 * PI) - PI).

(** bss_util.h:416-422 [AngleDistSigned]. *)
Definition AngleDistSigned (a b : R) : R := fmod (bssFMod (b - a) (2 * PI) + PI) (2 * PI) - PI.

(** [atan2] of the C library (without signed zeros). *)
Definition atan2 (y x : R) : R :=
  if rlt 0 x then atan (y / x)
  else if rlt x 0 then (if rle 0 y then atan (y / x) + PI else atan (y / x) - PI)
  else if rlt 0 y then PI / 2 else if rlt y 0 then - (PI / 2) else 0.

(** Collision.h:548-553 [RadiusSectorContainsPointRadius]. *)
Definition RadiusSectorContainsPointRadius (X Y inner outer : R) : bool :=
  let dist := X * X + Y * Y in
  rle dist (outer * outer) && rle (inner * inner) dist.

(** Collision.h:555-564 [RadiusSectorContainsPointAngle]. *)
Definition RadiusSectorContainsPointAngle (X Y min range : R) : bool :=
  if rle (2 * PI) range then true
  else
    let range := range * / 2 in
    let angle := atan2 (- Y) X in
    rle (AngleDist angle (min + range)) range.

(** Collision.h:565-569 [RadiusSectorContainsPoint]. *)
Definition RadiusSectorContainsPoint (X Y inner outer min range : R) : bool :=
  RadiusSectorContainsPointRadius X Y inner outer && RadiusSectorContainsPointAngle X Y min range.

(** Collision.h:570-574 [CircleSectorContainsPoint]. *)
Definition CircleSectorContainsPoint (x y inner outer min range X Y : R) : bool :=
  RadiusSectorContainsPoint (X - x) (Y - y) inner outer min range.
