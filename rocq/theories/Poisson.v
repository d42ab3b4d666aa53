(* Model of PoissonDiskSample (RandomQueue.h:60-138): points in a rectangle at a minimum distance from each other.
   The coordinates are real numbers (the rounding of T is not modelled).  A cell of the grid that was never written is
   filled with ones, which is no finite number: here [None].  The random numbers are any sequence [rng] of numbers from 0
   up to but not including 1; the k-th call of the generator gives [rng k].  The stack space of VARARRAY (a
   variable length array) is not limited here. *)
From Coq Require Import Reals List Arith ZArith Bool.
From Flocq Require Import Core.Raux.
From Verif Require Import Common Collision Shuffle.
Import ListNotations.
Local Open Scope R_scope.

(** RandomQueue.h:70: the parameters of a call.  [stride] is the number of 8-byte words in one cell of the grid, an array
    of two T (RandomQueue.h:72): 1 for float and 2 for double. *)
Record setup := mkSetup {
  x0 : R; y0 : R; x1 : R; y1 : R;      (* rect *)
  mindist : R;
  perIteration : nat;                  (* pointsPerIteration *)
  stride : Z }.

(** RandomQueue.h:79, 84-85: the grid, the queue, the points given to f so far, and how many random numbers were taken. *)
Record state := mkState { grid : list (option (R * R)); todo : rqueue (R * R); out : list (R * R); used : nat }.

Section Sampler.
Context (c : setup) (rng : nat -> R).

(** RandomQueue.h:74; 77; 78; 92. *)
Definition cell : R := mindist c / sqrt 2.
Definition gw : Z := (Zceil ((x1 c - x0 c) / cell) + 4)%Z.
Definition gh : Z := (Zceil ((y1 c - y0 c) / cell) + 4)%Z.
Definition mindistsq : R := mindist c * mindist c.

(** RandomQueue.h:62-65 [_PDS_imageToGrid]: the conversion to size_t drops the fraction of a number that is not
    negative. *)
Definition imageToGrid (pt : R * R) : Z :=
  (Zfloor ((fst pt - x0 c) / cell) + gw * Zfloor ((snd pt - y0 c) / cell) + 2 + gw + gw)%Z.

(** Subscripts into the grid; beside it the code would read or write foreign memory. *)
Definition cell_at (g : list (option (R * R))) (k : Z) : res (option (R * R)) := if (k <? 0)%Z then UB else get g (Z.to_nat k).
Definition cell_set (g : list (option (R * R))) (k : Z) (pt : R * R) : res (list (option (R * R))) :=
  if (k <? 0)%Z then UB else set g (Z.to_nat k) (Some pt).

(** RandomQueue.h:80: ig[k] is the k-th 8-byte word of the grid; true if it is not all ones, that is if the cell that it
    belongs to was written (no coordinate of a point is a word of ones). *)
Definition marked (g : list (option (R * R))) (k : Z) : res bool :=
  do x <- cell_at g (k / stride c)%Z; Ok (match x with Some _ => true | None => false end).

(** RandomQueue.h:112 the macro POISSONSAMPLE_CHECK, with DistSqr of bss_util.h:668-673; true if it continues with the next
    attempt.  The distance to a cell of ones is not a number, and is not below anything. *)
Definition check (g : list (option (R * R))) (pt : R * R) (k : Z) : res bool :=
  do b <- marked g k;
  if b then
    do x <- cell_at g k;
    Ok (match x with
        | Some q => rlt ((fst pt - fst q) * (fst pt - fst q) + (snd pt - snd q) * (snd pt - snd q)) mindistsq
        | None => false
        end)
  else Ok false.

(** RandomQueue.h:117, 121, 125: one of three cells side by side was written. *)
Definition blocked (g : list (option (R * R))) (k : Z) : res bool :=
  do a <- marked g (k - 1)%Z; do b <- marked g k; do e <- marked g (k + 1)%Z; Ok (a || b || e).

(** The tests one after the other; the first that holds ends the attempt. *)
Fixpoint any (l : list (res bool)) : res bool :=
  match l with [] => Ok false | t :: r => do b <- t; if b then Ok true else any r end.

(** RandomQueue.h:110-131: true if there is a point too near. *)
Definition crowded (g : list (option (R * R))) (pt : R * R) : res bool :=
  let e1 := (imageToGrid pt - gw - gw)%Z in
  if (e1 <=? 0)%Z then UB                                   (* the assertion of line 111 *)
  else
    let e2 := (e1 + gw)%Z in
    let e3 := (e2 + gw)%Z in
    let e4 := (e3 + gw)%Z in
    let e5 := (e4 + gw)%Z in
    any [check g pt (e1 - 1)%Z; check g pt e1; check g pt (e1 + 1)%Z;
         blocked g e2; check g pt (e2 - 2)%Z; check g pt (e2 + 2)%Z;
         blocked g e3; check g pt (e3 - 2)%Z; check g pt (e3 + 2)%Z;
         blocked g e4; check g pt (e4 - 2)%Z; check g pt (e4 + 2)%Z;
         check g pt (e5 - 1)%Z; check g pt e5; check g pt (e5 + 1)%Z].

(** RandomQueue.h:88-90, 132-134: the point is queued, given to f and noted in the grid. *)
Definition accept (s : state) (pt : R * R) : res state :=
  do g <- cell_set (grid s) (imageToGrid pt) pt;
  Ok (mkState g (Push (todo s) pt) (out s ++ [pt]) (used s)).

(** RandomQueue.h:107 the point is inside of the rectangle. *)
Definition inside (pt : R * R) : bool :=
  rlt (x0 c) (fst pt) && rlt (fst pt) (x1 c) && rlt (y0 c) (snd pt) && rlt (snd pt) (y1 c).

(** algo.h:122-126 [bssrand] and [bssRandReal]. *)
Definition randReal (lo hi u : R) : R := lo + u * (hi - lo).

(** RandomQueue.h:102-135: one attempt at a point around [p]. *)
Definition attempt (s : state) (p : R * R) : res state :=
  let radius := mindist c * randReal 1 2 (rng (used s)) in
  let angle := randReal 0 (2 * PI) (rng (S (used s))) in
  let pt := (fst p + radius * cos angle, snd p + radius * sin angle) in
  let s := mkState (grid s) (todo s) (out s) (S (S (used s))) in
  if inside pt then do b <- crowded (grid s) pt; if b then Ok s else accept s pt else Ok s.

(** RandomQueue.h:100-136: n attempts. *)
Fixpoint attempts (n : nat) (s : state) (p : R * R) : res state :=
  match n with O => Ok s | S n => do s <- attempt s p; attempts n s p end.

(** RandomQueue.h:30-36 the subscript that [Pop] chooses: bssrand<CT>(0, _length), algo.h:122-125. *)
Definition chosen (u : R) (n : nat) : nat := Z.to_nat (Zfloor (u * INR n)).

(** RandomQueue.h:96-137: the loop, until the queue is empty; [fuel] limits the number of turns. *)
Fixpoint sample (fuel : nat) (s : state) : res state :=
  if Empty (todo s) then Ok s
  else match fuel with
       | O => OutOfFuel
       | S fuel =>
           do (q, p) <- Pop (todo s) (chosen (rng (used s)) (len (todo s)));
           do s <- attempts (perIteration c) (mkState (grid s) q (out s) (S (used s))) p;
           sample fuel s
       end.

(** RandomQueue.h:70-138 [PoissonDiskSample]: the points given to f, in this order.  The two numbers of line 85 are taken
    from left to right (a braced list). *)
Definition PoissonDiskSample (fuel : nat) : res (list (R * R)) :=
  let pt := (randReal (x0 c) (x1 c) (rng 0%nat), randReal (y0 c) (y1 c) (rng 1%nat)) in
  do s <- accept (mkState (repeat None (Z.to_nat (gw * gh))) new [] 2) pt;
  do s <- sample fuel s;
  Ok (out s).
End Sampler.
