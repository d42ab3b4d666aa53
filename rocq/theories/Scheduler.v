(* Model of Scheduler<F> (include/bss-util/Scheduler.h).
   Simplifications: times are integers in place of double (only addition and comparison are used); calling an event is
   an arbitrary function of the event and of the rest of the program's state W, which may not itself use the scheduler
   (an event that calls Add on its own scheduler is not modelled). *)
From Coq Require Import List ZArith Bool.
From Verif Require Import Common OrderSpec Heap.
Import ListNotations.
Local Open Scope Z_scope.

Section Scheduler.
Context {F W : Type} (call : F -> W -> Z * W).
Definition event : Type := Z * F.
(* Scheduler.h 13: CompTFirst with CompTInv on the times (compare.h 19, 34) *)
Definition CompTime (l r : event) : Z := zcmp (fst r) (fst l).
(* Scheduler.h 13: the timer's _time (HighPrecisionTimer.h) and the heap array *)
Record sched := mks { time : Z; heap : list event }.
(* Scheduler.h 21 with HighPrecisionTimer.cpp 16-19: the empty scheduler at time 0 *)
Definition empty : sched := mks 0 [].
(* Scheduler.h 29-30: Add; dflt is the value of a default constructed pair in the slot added by _insert *)
Definition Add (dflt : event) (s : sched) (t : Z) (f : F) : res sched :=
  do h <- heap_step CompTime dflt (heap s) (HInsert (t + time s, f));
  Ok (mks (time s) h).
(* Scheduler.h 36-44: the loop of Update; Peek (BinaryHeap.h 54) reads _array[0] without a check.
   fuel bounds the number of turns. *)
Fixpoint update_loop (fuel : nat) (dflt : event) (now : Z) (h : list event) (w : W) : res (list event * W) :=
  do p <- get h 0;
  if fst p <=? now then
    match fuel with
    | O => OutOfFuel
    | S fuel =>
        let (r, w) := call (snd p) w in
        do h <- (if r =? 0 then heap_step CompTime dflt h (HRemove 0)
                 else do q <- get h 0; heap_step CompTime dflt h (HSet 0 (r + now, snd q)));
        update_loop fuel dflt now h w
    end
  else Ok (h, w).
(* Scheduler.h 32-45: Update, when d time units have passed since the last one (HighPrecisionTimer.cpp 21-37: d >= 0) *)
Definition Update (fuel : nat) (dflt : event) (s : sched) (d : Z) (w : W) : res (sched * W) :=
  let now := time s + d in
  do (h, w) <- update_loop fuel dflt now (heap s) w;
  Ok (mks now h, w).
(* Scheduler.h 27 *)
Definition Length (s : sched) : nat := length (heap s).
End Scheduler.
