(* Model of Thread and Semaphore (include/bss-util/Thread.h, the POSIX branch).  Times are nanoseconds since the start of the clock; a call
   takes no time except where it waits. *)
From Coq Require Import ZArith List Bool.
From Verif Require Import Common.
Import ListNotations.
Local Open Scope Z_scope.

(** what a thread will do: when it ends (None: never) and the value it gives to join *)
Record thread := Th { fin : option Z; value : Z }.
(** the result of a join: the returned value, the time of the return, and whether the thread can still be joined; None: no return *)
Record joined := J { ret : Z; at_ : Z; joinable : bool }.
(** (size_t)~0 *)
Definition failed : Z := 2 ^ 64 - 1.
Definition nano : Z := 1000000000.

(** pthread_tryjoin_np: whether the thread has ended *)
Definition tryjoin (t : thread) (now : Z) : bool := match fin t with Some f => f <=? now | None => false end.
(** pthread_timedjoin_np: Some (ended, time of return); the nanoseconds must be below 1000000000 (EINVAL otherwise) *)
Definition timedjoin (t : thread) (now sec nsec : Z) : bool * Z :=
  if (nsec <? 0) || (nano <=? nsec) then (false, now)
  else
    let until := Z.max now (sec * nano + nsec) in
    match fin t with
    | Some f => if f <=? until then (true, Z.max now f) else (false, until)
    | None => (false, until)
    end.
(** Thread.h:72-104 [join(mstimeout)] for a thread that is joinable or not; clock_gettime succeeds and gives now *)
Definition join (can : bool) (t : thread) (now ms : Z) : joined :=
  if negb can then J failed now can
  else if ms =? 0 then (if tryjoin t now then J (value t) now false else J failed now true)
  else
    let sec := now / nano + ms / 1000 in
    let nsec := now mod nano + ms mod 1000 * 1000000 in
    let '(ok, time) := timedjoin t now sec nsec in
    if ok then J (value t) time false else J failed time true.
(** Thread.h:66-70 the destructor: the time at which it returns; None: it does not return *)
Definition destroy (can : bool) (t : thread) (now : Z) : option Z :=
  if can then match fin t with Some f => Some (Z.max now f) | None => None end else Some now.

(** sem_post: fails at the largest value *)
Definition SEM_MAX : Z := 2 ^ 31 - 1.
Definition post (v : Z) : option Z := if SEM_MAX <=? v then None else Some (v + 1).
(** Thread.h:47-53 [Notify]: count is a number of loop rounds *)
Fixpoint Notify (count : nat) (v : Z) : bool * Z :=
  match count with O => (true, v) | S n => match post v with None => (false, v) | Some v => Notify n v end end.
(** Thread.h:54 [Wait]: None: it blocks *)
Definition Wait (v : Z) : option Z := if 0 <? v then Some (v - 1) else None.
(** what happens to a semaphore: a Notify, or a waiting thread that tries again *)
Inductive ev := ENotify (count : nat) | EWait.
(** the value, and the results: of each Notify, and of each Wait whether it passed *)
Definition sem_step (v : Z) (e : ev) : Z * bool :=
  match e with ENotify n => let (b, v) := Notify n v in (v, b) | EWait => match Wait v with Some v => (v, true) | None => (v, false) end end.
Fixpoint sem_run (v : Z) (l : list ev) : Z * list bool :=
  match l with [] => (v, []) | e :: l => let (v, b) := sem_step v e in let (v', r) := sem_run v l in (v', b :: r) end.
