(* Model of the optional length of LocklessQueue and MicroLockQueue (include/bss-util/LocklessQueue.h:20-40): an atomic counter
   of w bits kept beside the queue.  The queue itself is a list changed at the one step that publishes a push or a pop
   (the refinement of the pointers to that list is LocklessQueue.v and MicroLockQueue.v); here a thread is between that step
   and its update of the counter, or not.  Any number of threads may push and pop; LocklessQueue allows one of each. *)
From Coq Require Import List ZArith Arith.
From Verif Require Import Common.
Import ListNotations.

(** where a thread is: outside, after publishing a push (LocklessQueue.h:110, 211), after publishing a pop (83, 181) *)
Inductive at_ := Outside | Pushed | Popped.
Record lq (T : Type) := { items : list T; len : Z; thr : list at_ }.
Arguments items {T}. Arguments len {T}. Arguments thr {T}.
(** one atomic step of thread i *)
Inductive act (T : Type) := Publish (x : T) | Inc | Take | Dec.
Arguments Publish {T}. Arguments Inc {T}. Arguments Take {T}. Arguments Dec {T}.

Section Q.
Context {T : Type} (w : Z).
(** LocklessQueue.h:25, 54-64, 144-150: an empty queue, used by n threads *)
Definition start (n : nat) : lq T := {| items := []; len := 0; thr := repeat Outside n |}.
(** LocklessQueue.h:105-111 and 204-213, 76-88 and 169-190: publish then _incLength (31), take then _decLength (32: fetch_add of
    (CT)-1); an impossible step is None.  A Pop of an empty queue changes nothing and is no step. *)
Definition step (s : lq T) (i : nat) (a : act T) : option (lq T) :=
  match nth_error (thr s) i, a with
  | Some Outside, Publish x => Some {| items := items s ++ [x]; len := len s; thr := upd (thr s) i Pushed |}
  | Some Pushed, Inc => Some {| items := items s; len := wrap w (len s + 1); thr := upd (thr s) i Outside |}
  | Some Outside, Take =>
    match items s with
    | [] => None
    | _ :: l => Some {| items := l; len := len s; thr := upd (thr s) i Popped |}
    end
  | Some Popped, Dec => Some {| items := items s; len := wrap w (len s + (2 ^ w - 1)); thr := upd (thr s) i Outside |}
  | _, _ => None
  end.
(** LocklessQueue.h:26 *)
Definition Length (s : lq T) : Z := len s.
Fixpoint run (s : lq T) (l : list (nat * act T)) : option (lq T) :=
  match l with [] => Some s | (i, a) :: l => match step s i a with Some s' => run s' l | None => None end end.
End Q.
