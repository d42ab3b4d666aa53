(* Model of include/bss-util/ThreadPool.h *)
From Coq Require Import List Arith ZArith Bool.
From Verif Require Import Common Threads.
Import ListNotations.
Local Open Scope Z_scope.

(** ThreadPool.h 123-128: _tasklist, _tasks, _run, _lock.  A task instance (one Push of AddTask) is represented by a name of
    its own; the function and the argument (TASK, line 20) are not looked at.  The counters are unbounded numbers.  Not part of
    the object: the instances counted by line 53, those whose function has been called, those whose function has returned, and
    whether the destructor has been called.  The allocator _falloc and AddFunc (61-68) are not modelled *)
Record pool := mkpool { queue : list nat; tasks : Z; runc : Z; sem : nat; counted : list nat; started : list nat; finished : list nat; closing : bool }.
(** where a thread is; d tells whether Wait was called by the destructor *)
Inductive pos :=
| CIdle                         (** outside of Wait and of the destructor *)
| CHead (d : bool)              (** 81: _run *)
| CPop (d : bool)               (** 81: Pop *)
| CRun (d : bool) (i : nat)     (** 83 *)
| CSub (d : bool) (i : nat)     (** 84 *)
| CSpin (d : bool)              (** 87 *)
| DNeg                          (** 43: load *)
| DStore (r : Z)                (** 43: store *)
| DNotify                       (** 44 *)
| DSpin                         (** 45 *)
| DDone
| WHead                         (** 100 *)
| WSem                          (** 102 *)
| WPop                          (** 104 *)
| WRun (i : nat)                (** 106 *)
| WSub (i : nat)                (** 107 *)
| WInc                          (** 111 *)
| WExit.
(** where a thread is in AddTask (47-59); the list is what is left to push *)
Inductive adding :=
| ANone
| ACount (ids : list nat)           (** 53 *)
| APush (ids : list nat) (n : nat)  (** 55-56 *)
| ANotify (n : nat).                (** 58 *)
Notation thread := (pos * adding)%type.
Definition is_worker (th : thread) : bool := match fst th with WHead | WSem | WPop | WRun _ | WSub _ | WInc | WExit => true | _ => false end.
(** the steps of Wait (78-88), the destructor (40-46) and _worker (98-112); n is the number of workers (_threads.Length()).
    Pop takes the oldest entry or fails; it is allowed to fail at any time, which covers the failures of property C42 *)
Inductive pstep (n : nat) : pool -> pos -> pool -> pos -> Prop :=
| c_head s d : pstep n s (CHead d) s (if 0 <? runc s then CPop d else CSpin d)
| c_pop q t r m c st f cl d i : pstep n (mkpool (i :: q) t r m c st f cl) (CPop d) (mkpool q t r m c (st ++ [i]) f cl) (CRun d i)
| c_fail s d : pstep n s (CPop d) s (CSpin d)
| c_run q t r m c st f cl d i : pstep n (mkpool q t r m c st f cl) (CRun d i) (mkpool q t r m c st (f ++ [i]) cl) (CSub d i)
| c_sub q t r m c st f cl d i : pstep n (mkpool q t r m c st f cl) (CSub d i) (mkpool q (t - 1) r m c st f cl) (CHead d)
| c_spin s d : pstep n s (CSpin d) s (if tasks s =? 0 then if d then DNeg else CIdle else CSpin d)
| d_neg s : pstep n s DNeg s (DStore (runc s))
| d_store q t r m c st f cl r' : pstep n (mkpool q t r m c st f cl) (DStore r') (mkpool q t (- r') m c st f cl) DNotify
| d_notify q t r m c st f cl : pstep n (mkpool q t r m c st f cl) DNotify (mkpool q t r (m + n) c st f cl) DSpin
| d_spin s : pstep n s DSpin s (if runc s <? 0 then DSpin else DDone)
| w_head s : pstep n s WHead s (if 0 <? runc s then WSem else WInc)
| w_sem q t r m c st f cl : pstep n (mkpool q t r (S m) c st f cl) WSem (mkpool q t r m c st f cl) WPop
| w_intr s : pstep n s WSem s WPop (** sem_wait can be interrupted by a signal, and line 102 ignores the result *)
| w_pop q t r m c st f cl i : pstep n (mkpool (i :: q) t r m c st f cl) WPop (mkpool q t r m c (st ++ [i]) f cl) (WRun i)
| w_fail s : pstep n s WPop s WHead
| w_run q t r m c st f cl i : pstep n (mkpool q t r m c st f cl) (WRun i) (mkpool q t r m c st (f ++ [i]) cl) (WSub i)
| w_sub q t r m c st f cl i : pstep n (mkpool q t r m c st f cl) (WSub i) (mkpool q (t - 1) r m c st f cl) WPop
| w_inc q t r m c st f cl : pstep n (mkpool q t r m c st f cl) WInc (mkpool q t (r + 1) m c st f cl) WExit.
(** the steps of AddTask (47-59) *)
Inductive astep : pool -> adding -> pool -> adding -> Prop :=
| a_count q t r m c st f cl ids : astep (mkpool q t r m c st f cl) (ACount ids) (mkpool q (t + Z.of_nat (length ids)) r m (c ++ ids) st f cl) (APush ids (length ids))
| a_push q t r m c st f cl i ids n : astep (mkpool q t r m c st f cl) (APush (i :: ids) n) (mkpool (q ++ [i]) t r m c st f cl) (APush ids n)
| a_end s n : astep s (APush [] n) s (ANotify n)
| a_notify q t r m c st f cl n : astep (mkpool q t r m c st f cl) (ANotify n) (mkpool q t r (m + n) c st f cl) ANone.
Definition tocount (th : thread) : list nat := match snd th with ACount ids => ids | _ => [] end.
(** AddTask can be called outside and by a task that is running *)
Definition can_add (s : pool) (p : pos) : bool := match p with CIdle => negb (closing s) | CRun _ _ | WRun _ => true | _ => false end.
Inductive step : pool * list thread -> pool * list thread -> Prop :=
| s_pos s ts t p s' p' : nth_error ts t = Some (p, ANone) -> pstep (count is_worker ts) s p s' p' -> step (s, ts) (s', upd ts t (p', ANone))
| s_adding s ts t p a s' a' : nth_error ts t = Some (p, a) -> astep s a s' a' -> step (s, ts) (s', upd ts t (p, a'))
(** AddTask with the names of its instances; with instances = 0 there is one for each worker (49-50) *)
| s_add s ts t p ids : nth_error ts t = Some (p, ANone) -> can_add s p = true -> NoDup ids -> (forall i, In i ids -> ~ In i (counted s ++ flat_map tocount ts)) -> step (s, ts) (s, upd ts t (p, ACount ids))
| s_wait s ts t : nth_error ts t = Some (CIdle, ANone) -> closing s = false -> step (s, ts) (s, upd ts t (CHead false, ANone))
(** AddThreads (70-77), the increment and the start of the thread taken as one step *)
| s_thread q t r m c st f ts : step (mkpool q t r m c st f false, ts) (mkpool q t (r + 1) m c st f false, ts ++ [(WHead, ANone)])
(** the destructor: no other thread is using the pool, and none will, apart from the workers *)
| s_destroy q t r m c st f ts k : nth_error ts k = Some (CIdle, ANone) -> (forall j th, nth_error ts j = Some th -> is_worker th = true \/ th = (CIdle, ANone)) -> step (mkpool q t r m c st f false, ts) (mkpool q t r m c st f true, upd ts k (CHead true, ANone)).
(** ThreadPool.h 32-39: the constructor without threads, which AddThreads then adds; k threads use the pool *)
Definition new_pool : pool := mkpool [] 0 0 0 [] [] [] false.
Inductive runs (k : nat) : pool * list thread -> Prop :=
| r_new : runs k (new_pool, repeat (CIdle, ANone) k)
| r_step x y : runs k x -> step x y -> runs k y.
