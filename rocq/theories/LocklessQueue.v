(* Model of LocklessQueue (include/bss-util/LocklessQueue.h): the queue between one producer and one consumer thread. *)
From Coq Require Import List Arith Bool.
From Verif Require Import Common.
Import ListNotations.

Section LocklessQueue.
Context {V : Type}.
(** LocklessQueue.h 11-18: LQ_QNode; an item is None before construction and after it has been moved from *)
Record node := mkn { nxt : option nat; itm : option V }.
(** the allocated nodes *)
Definition heap := nat -> option node.
Definition put (h : heap) (a : nat) (n : option node) : heap := fun b => if b =? a then n else h b.
(** access to a node that is not allocated is undefined behaviour *)
Definition deref (h : heap) (a : nat) : res node := match h a with Some n => Ok n | None => UB end.
Definition follow (p : option nat) : res nat := match p with Some a => Ok a | None => UB end.
(** LocklessQueue.h 123-125: _first, _div, _last.  Not part of the object: the arguments of the Pushes begun, the results of
    the Pops that returned true, and the number of Pushes that have returned.  The optional length counter is not modelled
    (LENGTH is void by default) *)
Record lq := mklq { qfirst : nat; qdiv : nat; qlast : nat; hp : heap; pushed : list V; popped : list V; ndone : nat }.
(** what the producer does next (_produce, 105-121) *)
Inductive ppc :=
| PIdle
| PLoad (v : V)                (** 107 *)
| PAlloc (last : nat) (v : V)  (** 108: the allocator is used by this thread only *)
| PCtor (last : nat) (v : V)   (** 109 *)
| PPub (last : nat)            (** 110 *)
| PGc                          (** 114 *)
| PNext                        (** 116-117 *)
| PFree (tmp : nat).           (** 118-119 *)
(** what the consumer does next (Pop, 76-89) *)
Inductive cpc :=
| CIdle
| CLoad                        (** 78 *)
| CCmp (div : nat)             (** 80 *)
| CTake (div : nat)            (** 82: div->next *)
| CMove (div n : nat)          (** 82: the move of its item *)
| CStore (div : nat) (v : V).  (** 83 *)
(** one step of the producer: one access to shared memory each; a is the address returned by the allocator *)
Definition pstep (s : lq) (p : ppc) (a : nat) : res (lq * ppc) :=
  match p with
  | PIdle => Ok (s, PIdle)
  | PLoad v => Ok (s, PAlloc (qlast s) v)
  | PAlloc l v => do n <- deref (hp s) l; Ok (mklq (qfirst s) (qdiv s) (qlast s) (put (put (hp s) a (Some (mkn None None))) l (Some (mkn (Some a) (itm n)))) (pushed s) (popped s) (ndone s), PCtor l v)
  | PCtor l v => do n <- deref (hp s) l; do b <- follow (nxt n); do _ <- deref (hp s) b; Ok (mklq (qfirst s) (qdiv s) (qlast s) (put (hp s) b (Some (mkn None (Some v)))) (pushed s) (popped s) (ndone s), PPub l)
  | PPub l => do n <- deref (hp s) l; do b <- follow (nxt n); Ok (mklq (qfirst s) (qdiv s) b (hp s) (pushed s) (popped s) (ndone s), PGc)
  | PGc => if qfirst s =? qdiv s then Ok (mklq (qfirst s) (qdiv s) (qlast s) (hp s) (pushed s) (popped s) (ndone s + 1), PIdle) else Ok (s, PNext)
  | PNext => do n <- deref (hp s) (qfirst s); do b <- follow (nxt n); Ok (mklq b (qdiv s) (qlast s) (hp s) (pushed s) (popped s) (ndone s), PFree (qfirst s))
  | PFree t => do _ <- deref (hp s) t; Ok (mklq (qfirst s) (qdiv s) (qlast s) (put (hp s) t None) (pushed s) (popped s) (ndone s), PGc)
  end.
(** one step of the consumer; Some true or Some false is the result of Pop when it returns *)
Definition cstep (s : lq) (c : cpc) : res (lq * cpc * option bool) :=
  match c with
  | CIdle => Ok (s, CIdle, None)
  | CLoad => Ok (s, CCmp (qdiv s), None)
  | CCmp d => if d =? qlast s then Ok (s, CIdle, Some false) else Ok (s, CTake d, None)
  | CTake d => do n <- deref (hp s) d; do b <- follow (nxt n); Ok (s, CMove d b, None)
  | CMove d b => do n <- deref (hp s) b; match itm n with None => UB | Some v => Ok (mklq (qfirst s) (qdiv s) (qlast s) (put (hp s) b (Some (mkn (nxt n) None))) (pushed s) (popped s) (ndone s), CStore d v, None) end
  | CStore d v => do n <- deref (hp s) d; do b <- follow (nxt n); Ok (mklq (qfirst s) b (qlast s) (hp s) (pushed s) (popped s ++ [v]) (ndone s), CIdle, Some true)
  end.
(** one step of the two threads: a call of Push or Pop begins, or one of the threads takes its next step; the allocator
    returns the address of a node that is not allocated *)
Inductive step : lq * ppc * cpc -> res (lq * ppc * cpc) -> Prop :=
| s_push s c v : step (s, PIdle, c) (Ok (mklq (qfirst s) (qdiv s) (qlast s) (hp s) (pushed s ++ [v]) (popped s) (ndone s), PLoad v, c))
| s_pop s p : step (s, p, CIdle) (Ok (s, p, CLoad))
| s_prod s p c a : hp s a = None -> step (s, p, c) (do (s', p') <- pstep s p a; Ok (s', p', c))
| s_cons s p c : step (s, p, c) (do (s', c', _) <- cstep s c; Ok (s', p, c')).
(** LocklessQueue.h 59-64: the constructor *)
Definition new_lq (a : nat) : lq := mklq a a a (put (fun _ => None) a (Some (mkn None None))) [] [] 0.
Inductive runs : lq * ppc * cpc -> Prop :=
| r_new a : runs (new_lq a, PIdle, CIdle)
| r_step x y : runs x -> step x (Ok y) -> runs y.
End LocklessQueue.
Arguments node : clear implicits.
Arguments heap : clear implicits.
Arguments lq : clear implicits.
Arguments ppc : clear implicits.
Arguments cpc : clear implicits.
