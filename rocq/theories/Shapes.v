(* Model of members of Polygon, Triangle, LineN and Sphere (include/bss-util/Geometry.h:103-143, 148-252, 381-396, 684-750), over exact reals; the
   square root and PI are exact. *)
From Coq Require Import Reals List.
From Verif Require Import Collision.
Import ListNotations.
Local Open Scope R_scope.

(** Geometry.h:706-711 [CenterPolygon]; c0 is what was in the memory of the result of PolygonCentroid (Collision.v) *)
Definition CenterPolygon (c0 : point) (verts : list point) : list point :=
  let c := PolygonCentroid c0 verts in map (fun v => (fst v - fst c, snd v - snd c)) verts.

(** vector.h:645, 652 [Cross]: CrossProduct(r.x, r.y, x, y) *)
Definition Cross (v r : point) : R := fst v * snd r - fst r * snd v.
(** Geometry.h:388 [Triangle::Area] *)
Definition TriangleArea (v0 v1 v2 : point) : R := Cross (fst v1 - fst v0, snd v1 - snd v0) (fst v2 - fst v0, snd v2 - snd v0) / 2.

(** Geometry.h:157, 187, 225 [Length]: the coordinates as a list (N is its length) *)
Definition Length (p1 p2 : list R) : R := sqrt (fold_right Rplus 0 (map (fun '(a, b) => (b - a) * (b - a)) (combine p1 p2))).
(** Geometry.h:158, 188, 226 [ParametricPoint] *)
Definition ParametricPoint (p1 p2 : list R) (s : R) : list R := map (fun '(a, b) => a + (b - a) * s) (combine p1 p2).

(** Geometry.h:112 [Sphere::Volume] *)
Definition Volume (r : R) : R := (4 * r * r * r * PI) / 3.
(** Geometry.h:113 [Sphere::SurfaceArea] *)
Definition SurfaceArea (r : R) : R := r * r * 4 * PI.
