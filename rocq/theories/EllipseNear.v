(* Model of EllipseNearestPoint and EllipseCircleCollide (include/bss-util/Collision.h:498-537) and of the members of Ellipse that call them
   (include/bss-util/Geometry.h:411, 413, 416-417), over exact reals.  A division by zero gives an infinity or a NaN, which is not modelled: UB. *)
From Coq Require Import Reals List Bool.
From Verif Require Import Common Collision.
Local Open Scope R_scope.

(** Collision.h:521: f(t) *)
Definition ellipse_f (A B cx cy t : R) : R := (A * A - B * B) * cos t * sin t - cx * A * sin t + cy * B * cos t.
(** Collision.h:522: f'(t) *)
Definition ellipse_f' (A B cx cy t : R) : R := (A * A - B * B) * (cos t * cos t - sin t * sin t) - cx * A * cos t - cy * B * sin t.
(** Collision.h:517-524: n rounds of Newton's method *)
Fixpoint newton (n : nat) (A B cx cy t : R) : res R :=
  match n with
  | O => Ok t
  | S n => if Req_EM_T (ellipse_f' A B cx cy t) 0 then UB else newton n A B cx cy (t - ellipse_f A B cx cy t / ellipse_f' A B cx cy t)
  end.
(** Collision.h:498-528 [EllipseNearestPoint], of an ellipse at the origin *)
Definition EllipseNearestPoint (A B cx cy : R) : res point :=
  if rle ((cx * cx) / (A * A) + (cy * cy) / (B * B)) 1 then Ok (cx, cy)
  else do t <- newton 4 A B cx cy (atan2 (A * cy) (B * cx)); Ok (A * cos t, B * sin t).
(** Collision.h:530-537 [EllipseCircleCollide]: the ellipse at (X, Y) and the circle at (x, y) *)
Definition EllipseCircleCollide (X Y A B x y r : R) : res bool :=
  let dx := x - X in let dy := y - Y in
  do p <- EllipseNearestPoint A B dx dy;
  Ok (rlt ((fst p - dx) * (fst p - dx) + (snd p - dy) * (snd p - dy)) (r * r)).
(** Geometry.h:413 [Ellipse::NearestPoint], of the ellipse at (x, y) *)
Definition NearestPoint (x y a b X Y : R) : res point := EllipseNearestPoint a b (X - x) (Y - y).
