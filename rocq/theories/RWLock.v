(* Model of RWLock (include/bss-util/RWLock.h): any number of threads, each performing calls of the lock.
   Every atomic access to the word l is one step; the steps of the threads interleave arbitrarily (sequential consistency:
   the memory orders given in the code are not modelled).  A thread that spins takes steps that leave it where it is.
   size_t has 64 bits.  asserts and BSS_DEBUG are off. *)
From Coq Require Import ZArith List Bool.
From Verif Require Import Common.
Import ListNotations.
Open Scope Z_scope.

(** RWLock.h 136-139: WBIT, WFLAG, WMASK, ONE_READER *)
Definition WBIT : Z := 63.
Definition WFLAG : Z := 2 ^ 63.
Definition WMASK : Z := 2 ^ 63 - 1.
Definition M64 : Z := 2 ^ 64.
(** lockless.h: asmbts sets bit WBIT and tells whether it was set *)
Definition bts (l : Z) : Z * bool := (Z.lor l WFLAG, Z.testbit l WBIT).
Definition flagged (l : Z) : bool := negb (Z.land l WFLAG =? 0).
Definition readers (l : Z) : Z := Z.land l WMASK.
Definition incr (l : Z) : Z := (l + 1) mod M64.
Definition decr (l : Z) : Z := (l - 1) mod M64.

(** where a thread is: outside any call without a lock (Idle), with a read lock (HoldR), with a write lock (HoldW from
    Lock, AttemptLock or AttemptStrictLock, HoldWU from Upgrade or AttemptUpgrade), or before the next atomic step of a
    call *)
Inductive pc :=
| Idle | HoldR | HoldW | HoldWU
| AtLock            (** 37: bts in the loop of Lock *)
| AtAttemptLock     (** 44: bts of AttemptLock *)
| Flush             (** 38, 48: waiting for readers, in Lock and AttemptLock *)
| AtStrict          (** 56: compare_exchange of AttemptStrictLock *)
| AtUnlock          (** 66: fetch_and *)
| AtRLock           (** 73: fetch_add of RLock *)
| RLockSub          (** 75: fetch_sub of RLock *)
| RLockWait         (** 76: waiting for the writer *)
| AtAttemptRLock    (** 83: fetch_add of AttemptRLock *)
| AttemptRSub       (** 85: fetch_sub of AttemptRLock *)
| AtRUnlock         (** 96: fetch_sub *)
| AtUpgrade         (** 104: first bts of Upgrade, with the read lock held since before the call *)
| UpUnlock1         (** 106: fetch_sub after the first bts failed *)
| UpWait            (** 107: waiting for the writer *)
| UpAdd             (** 108: fetch_add *)
| UpRetry           (** 104: bts again *)
| UpUnlock2         (** 106: fetch_sub after a further bts failed *)
| AtAttemptUpgrade  (** 117: bts of AttemptUpgrade *)
| UpFlush           (** 110, 121: waiting for the other readers, in Upgrade and AttemptUpgrade *)
| AtDowngrade.      (** 130: fetch_and *)

(** the calls, and when a thread may make them: it releases only what it holds *)
Inductive call := CLock | CAttemptLock | CAttemptStrictLock | CUnlock | CRLock | CAttemptRLock | CRUnlock | CUpgrade | CAttemptUpgrade | CDowngrade.
Definition begin (p : pc) (c : call) : option pc :=
  match p, c with
  | Idle, CLock => Some AtLock | Idle, CAttemptLock => Some AtAttemptLock | Idle, CAttemptStrictLock => Some AtStrict
  | Idle, CRLock => Some AtRLock | Idle, CAttemptRLock => Some AtAttemptRLock
  | HoldW, CUnlock => Some AtUnlock
  | HoldR, CRUnlock => Some AtRUnlock | HoldR, CUpgrade => Some AtUpgrade | HoldR, CAttemptUpgrade => Some AtAttemptUpgrade
  | HoldWU, CDowngrade => Some AtDowngrade
  | _, _ => None
  end.
(** RWLock.h 33-131: the next atomic step of the call a thread is in *)
Definition exec (l : Z) (p : pc) : option (Z * pc) :=
  match p with
  | AtLock => let '(l', b) := bts l in Some (l', if b then AtLock else Flush)
  | AtAttemptLock => let '(l', b) := bts l in Some (l', if b then Idle else Flush)
  | Flush => Some (l, if 0 <? readers l then Flush else HoldW)
  | AtStrict => if l =? 0 then Some (WFLAG, HoldW) else Some (l, Idle)
  | AtUnlock => Some (Z.land l WMASK, Idle)
  | AtRLock => Some (incr l, if flagged l then RLockSub else HoldR)
  | RLockSub => Some (decr l, if flagged l then RLockWait else AtRLock)
  | RLockWait => Some (l, if flagged l then RLockWait else AtRLock)
  | AtAttemptRLock => Some (incr l, if flagged l then AttemptRSub else HoldR)
  | AttemptRSub => Some (decr l, Idle)
  | AtRUnlock => Some (decr l, Idle)
  | AtUpgrade => let '(l', b) := bts l in Some (l', if b then UpUnlock1 else UpFlush)
  | UpUnlock1 | UpUnlock2 => Some (decr l, UpWait)
  | UpWait => Some (l, if flagged l then UpWait else UpAdd)
  | UpAdd => Some (incr l, UpRetry)
  | UpRetry => let '(l', b) := bts l in Some (l', if b then UpUnlock2 else UpFlush)
  | AtAttemptUpgrade => let '(l', b) := bts l in Some (l', if b then HoldR else UpFlush)
  | UpFlush => Some (l, if 1 <? readers l then UpFlush else HoldWU)
  | AtDowngrade => Some (Z.land l WMASK, HoldR)
  | Idle | HoldR | HoldW | HoldWU => None
  end.
(** one step of the system: thread t begins call c, or takes the next step of its call *)
Inductive step : Z * list pc -> Z * list pc -> Prop :=
| s_begin l ps t p c p' : nth_error ps t = Some p -> begin p c = Some p' -> step (l, ps) (l, upd ps t p')
| s_exec l ps t p l' p' : nth_error ps t = Some p -> exec l p = Some (l', p') -> step (l, ps) (l', upd ps t p').
(** RWLock.h 21-29: the constructor; n threads *)
Definition start (n : nat) : Z * list pc := (0, repeat Idle n).
Inductive runs (n : nat) : Z * list pc -> Prop :=
| r_start : runs n (start n)
| r_step s s' : runs n s -> step s s' -> runs n s'.
(** RWLock.h 133, 141: ReaderCount and IsFree *)
Definition ReaderCount (l : Z) : Z := readers l.
Definition IsFree (l : Z) : bool := l =? 0.
