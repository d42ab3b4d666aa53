(* Model of moving and destroying a ThreadPool (include/bss-util/ThreadPool.h:26-31, 41-47, 71-91, 101-114) and of Future
   (131-150).  Pools are numbered; every worker refers to the pool it was started by (75-77: std::ref( *this )).  Sequential consistency. *)
From Coq Require Import List ZArith Arith Bool.
From Verif Require Import Common.
Import ListNotations.

(** ThreadPool.h:123-128: _tasklist (tasks by name), _tasks, the length of _threads, _run, the value of _lock *)
Record pool := P { queue : list nat; tasks : Z; nthreads : nat; run : Z; sem : nat }.
(** ThreadPool.h:101-114: where a worker is: at the check of _run (103), waiting (105), at Pop (107), after a task (109-110), ended (114) *)
Inductive wpc := WCheck | WWait | WPop | WSub | WDone.
Record worker := Wk { ref : nat; wat : wpc }.
(** the pools by number, the workers, the tasks that were run and by which worker *)
Record st := St { pools : nat -> pool; workers : list worker; done : list nat }.
Definition put (m : nat -> pool) (k : nat) (v : pool) : nat -> pool := fun x => if x =? k then v else m x.

(** ThreadPool.h:101-114: one step of a worker; None: it waits or has ended *)
Definition wstep (s : st) (i : nat) : option st :=
  match nth_error (workers s) i with
  | None => None
  | Some w =>
    let p := pools s (ref w) in
    let go pc p d := Some (St (put (pools s) (ref w) p) (upd (workers s) i (Wk (ref w) pc)) (d ++ done s)) in
    match wat w with
    | WCheck => if (0 <? run p)%Z then go WWait p [] else go WDone (P (queue p) (tasks p) (nthreads p) (run p + 1) (sem p)) []
    | WWait => match sem p with O => None | S k => go WPop (P (queue p) (tasks p) (nthreads p) (run p) k) [] end
    | WPop => match queue p with
              | [] => go WCheck p []
              | t :: q => go WSub (P q (tasks p) (nthreads p) (run p) (sem p)) [t]
              end
    | WSub => go WPop (P (queue p) (tasks p - 1) (nthreads p) (run p) (sem p)) []
    | WDone => None
    end
  end.
(** ThreadPool.h:48-60 AddTask of one instance to pool k *)
Definition AddTask (s : st) (k t : nat) : st :=
  let p := pools s k in St (put (pools s) k (P (queue p ++ [t]) (tasks p + 1) (nthreads p) (run p) (sem p + 1))) (workers s) (done s).
(** ThreadPool.h:26-31 the move constructor: pool b from pool a: the semaphore is a new one; the queue and the threads are moved *)
Definition move (s : st) (a b : nat) : st :=
  let p := pools s a in
  St (put (put (pools s) b (P (queue p) (tasks p) (nthreads p) (run p) 0)) a (P [] (tasks p) 0 0 (sem p))) (workers s) (done s).
(** ThreadPool.h:32-35, 71-79 the constructor with n threads, for pool k *)
Definition new (n : nat) (k : nat) : st := St (put (fun _ => P [] 0 0 0 0) k (P [] 0 n (Z.of_nat n) 0)) (repeat (Wk k WCheck) n) [].
(** ThreadPool.h:44-45: the destructor of pool k once Wait has returned: _run is negated, every thread is notified *)
Definition stop (s : st) (k : nat) : st :=
  let p := pools s k in St (put (pools s) k (P (queue p) (tasks p) (nthreads p) (- run p) (sem p + nthreads p))) (workers s) (done s).
(** ThreadPool.h:46: whether the destructor returns *)
Definition stopped (s : st) (k : nat) : bool := (0 <=? run (pools s k))%Z.
(** the workers run in any order; those that wait or have ended do nothing *)
Fixpoint schedule (s : st) (l : list nat) : st := match l with [] => s | i :: l => schedule (match wstep s i with Some s' => s' | None => s end) l end.

(** ThreadPool.h:131-150: a Future: _finished (139, never initialised: any value at first) and result *)
Record future := F { finished : bool; result : option Z }.
(** ThreadPool.h:134 the constructor, finding the value junk in the memory of _finished *)
Definition new_future (junk : bool) : future := F junk None.
(** ThreadPool.h:141-146 [_eval] *)
Definition eval (v : Z) (f : future) : future := F true (Some v).
(** ThreadPool.h:136 [Result]: None: the null pointer; Some: a pointer to the result, which may not have been written *)
Definition Result (f : future) : option (option Z) := if finished f then Some (result f) else None.
