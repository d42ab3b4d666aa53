(* Model of StochasticSubdivider (algo.h 216-237).  Numbers are exact: rounding of floats is not modelled.  The state of the random engine and of
   the three functions that are given is one world, which they all may change. *)
From Coq Require Import ZArith QArith List Bool Arith.
From Verif Require Import Common.
Import ListNotations.

(** bss_util.h:1002-1006 lerp with coordinates that have fractions *)
Definition lerpQ (a b t : Q) : Q := ((1 - t) * a + t * b)%Q.
(** The conversion of a number with a fraction to an integer: towards zero *)
Definition truncQ (q : Q) : Z := Z.quot (Qnum q) (Zpos (Qden q)).
(** bss_util.h:1002-1006 lerp with integers: each summand is converted *)
Definition lerpZ (a b : Z) (t : Q) : Z := (truncQ ((1 - t) * inject_Z a) + truncQ (t * inject_Z b))%Z.

Section S.
Context {T W : Type} (lerp : T -> T -> Q -> T).
(** algo.h:218 the four numbers of a rect: left, top, right, bottom *)
Definition rect : Type := T * T * T * T.
(** algo.h:126 bssRandReal(0, 1.0) *)
Context (rand : W -> Q * W).
(** algo.h:216-218 the functions given: how likely a branch ends here, what is called with a rect at an end, where to divide *)
Context (f1 : nat -> rect -> W -> Q * W) (f2 : rect -> W -> W) (f3 : nat -> rect -> W -> Q * W).
(** algo.h:218-237 StochasticSubdivider; out are the rects f2 was called with so far.  The order of the calls in line 220 is not specified in C++; here the
    random number is drawn first *)
Fixpoint subdivide (fuel : nat) (r : rect) (depth : nat) (w : W) (out : list rect) : res (W * list rect) :=
  match fuel with
  | O => OutOfFuel
  | S fuel =>
    let (x, w) := rand w in
    let (p, w) := f1 depth r w in
    if negb (Qle_bool p x) then Ok (f2 r w, out ++ [r])
    else
      let '(a0, a1, a2, a3) := r in
      let (t, w) := f3 depth r w in
      let axis := (depth mod 2)%nat in
      let div := if Nat.eqb axis 0 then lerp a0 a2 t else lerp a1 a3 t in
      let r1 := if Nat.eqb axis 0 then (div, a1, a2, a3) else (a0, div, a2, a3) in
      let r2 := if Nat.eqb axis 0 then (a0, a1, div, a3) else (a0, a1, a2, div) in
      do (w, out) <- subdivide fuel r1 (S depth) w out;
      subdivide fuel r2 (S depth) w out
  end.
End S.
