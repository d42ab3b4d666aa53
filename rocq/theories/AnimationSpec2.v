(* What smooth tracks show, what the events of an interval track say, and how long an animation is.  Nothing here uses
   the states of the model. *)
From Coq Require Import ZArith List Bool Reals.
From Verif Require Import Common Animation AnimationSpec.
Import ListNotations.
Local Open Scope Z_scope.

(* the moments that are shown *)
Fixpoint moments (acts : list action) : list Z :=
  match acts with [] => [] | Show t :: acts => t :: moments acts | Rewind :: acts => moments acts end.

Section Spec.
Context {V : Type}.
(* the value at the moment t of a curve through the frames: mix a b n d is the way from a to b, of which n of d parts
   are done.  Before the first frame the way starts at init at the moment 0 *)
Inductive curve (mix : V -> V -> Z -> Z -> V) (init : V) (fs : list (frame V)) (t : Z) : V -> Prop :=
| curve_before f r : fs = f :: r -> t < ftime f -> curve mix init fs t (mix init (fvalue f) t (ftime f))
| curve_between p f g r : fs = p ++ f :: g :: r -> ftime f <= t < ftime g ->
    curve mix init fs t (mix (fvalue f) (fvalue g) (t - ftime f) (ftime g - ftime f))
| curve_after p f g : fs = p ++ [f; g] -> ftime g <= t -> curve mix init fs t (mix (fvalue f) (fvalue g) 1 1).

(* the value of the last frame up to the moment t, or init *)
Definition latest (init : V) (fs : list (frame V)) (t : Z) : V :=
  last (map fvalue (filter (fun f => ftime f <=? t) fs)) init.

(* the handles that were begun and are not finished; None when a handle is begun twice, or finished without having been
   begun, or when there is another event *)
Fixpoint remove_one (h : nat) (l : list nat) : list nat :=
  match l with [] => [] | x :: l => if Nat.eqb h x then l else x :: remove_one h l end.
Fixpoint active (open : list nat) (e : list (event V)) : option (list nat) :=
  match e with
  | [] => Some open
  | Begin _ h :: e => if existsb (Nat.eqb h) open then None else active (h :: open) e
  | Finish h :: e => if existsb (Nat.eqb h) open then active (remove_one h open) e else None
  | _ => None
  end.
(* the begun intervals, in order *)
Fixpoint begun (e : list (event V)) : list (V * nat) :=
  match e with [] => [] | Begin v h :: e => (v, h) :: begun e | _ :: e => begun e end.
Definition is_finish (x : event V) : bool := match x with Finish _ => true | _ => false end.

(* the end of an animation: the last moment at which a frame of a plain track is due, or an interval ends; 0 without frames *)
Definition ends (d : anidata V) : list Z :=
  map (fun f => match akind d with KPlain => ftime f | KInterval => ftime f + fdata f end) (frames d).
Definition latest_end (l : list (anidata V)) (e : Z) : Prop :=
  (forall d x, In d l -> In x (ends d) -> x <= e) /\ (e = 0 \/ exists d, In d l /\ In e (ends d)).
End Spec.

(* the straight way between two reals *)
Definition line (a b : R) (n d : Z) : R := ((1 - IZR n / IZR d) * a + IZR n / IZR d * b)%R.
