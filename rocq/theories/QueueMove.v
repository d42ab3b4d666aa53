(* Model of the life of MicroLockQueue objects used by one thread at a time (include/bss-util/LocklessQueue.h:12-18, 22-34, 128-220): construction,
   Push, Pop, Peek, Length, moving and destruction, over an explicit heap of nodes.  The allocator never fails, gives out an address only
   once and has no state that is moved (its moves are in AllocMove.v); the two flags are free whenever an operation starts; the length is an
   unbounded integer (its type is in QueueLength.v). *)
From Coq Require Import List ZArith Arith Bool.
From Verif Require Import Common.
Import ListNotations.

(** LocklessQueue.h:12-18 [LQ_QNode]; item is None if default constructed *)
Record node (T : Type) := Node { next : option nat; item : option T }.
Arguments Node {T} next item. Arguments next {T} n. Arguments item {T} n.
(** LocklessQueue.h:33, 216-217: _div, _last (None: the null pointer) and _length *)
Record queue := Q { div : option nat; lastn : option nat; len : Z }.
(** the nodes by address (None: deallocated), and the queue objects by number (None: there is none) *)
Record st (T : Type) := St { heap : list (option (node T)); objs : list (option queue) }.
Arguments St {T} heap objs. Arguments heap {T} s. Arguments objs {T} s.

(** p->... : the node at a pointer; undefined for null and for deallocated nodes *)
Definition deref {T} (h : list (option (node T))) (p : option nat) : res (nat * node T) :=
  match p with
  | None => UB
  | Some a => match nth_error h a with Some (Some n) => Ok (a, n) | _ => UB end
  end.

(** what a program does with its queues, by their numbers *)
Inductive op (T : Type) :=
| Create (i : nat) | Push (i : nat) (x : T) | Pop (i : nat) | Peek (i : nat) | Length (i : nat) | MoveNew (i j : nat) | MoveAssign (i j : nat) | Destroy (i : nat).
Arguments Create {T} i. Arguments Push {T} i x. Arguments Pop {T} i. Arguments Peek {T} i. Arguments Length {T} i. Arguments MoveNew {T} i j.
Arguments MoveAssign {T} i j. Arguments Destroy {T} i.
(** what it sees: nothing, the result of Pop, of Peek, of Length *)
Inductive out (T : Type) := ONone | OPop (r : option T) | OPeek (b : bool) | OLen (n : Z).
Arguments ONone {T}. Arguments OPop {T} r. Arguments OPeek {T} b. Arguments OLen {T} n.

(** the queue object i; using an object that does not exist is undefined *)
Definition obj {T} (s : st T) (i : nat) : res queue := match nth_error (objs s) i with Some (Some q) => Ok q | _ => UB end.

(** LocklessQueue.h:151-157 (24-25 for the length): the constructor *)
Definition create {T} (s : st T) (i : nat) : res (st T * out T) :=
  match nth_error (objs s) i with
  | Some None => Ok (St (heap s ++ [Some (Node None None)]) (upd (objs s) i (Some (Q (Some (length (heap s))) (Some (length (heap s))) 0))), ONone)
  | _ => UB
  end.
(** LocklessQueue.h:167-168, 203-214 [_produce] *)
Definition push {T} (s : st T) (i : nat) (x : T) : res (st T * out T) :=
  do q <- obj s i;
  let nval := length (heap s) in
  let h := heap s ++ [Some (Node None (Some x))] in
  do (a, l) <- deref h (lastn q);
  Ok (St (upd h a (Some (Node (Some nval) (item l)))) (upd (objs s) i (Some (Q (div q) (Some nval) (len q + 1)))), ONone).
(** LocklessQueue.h:169-190 [Pop]; the item that is moved out is left as it was *)
Definition pop {T} (s : st T) (i : nat) : res (st T * out T) :=
  do q <- obj s i;
  do (ref, d) <- deref (heap s) (div q);
  match next d with
  | None => Ok (s, OPop None)
  | Some n =>
    do (_, m) <- deref (heap s) (Some n);
    Ok (St (upd (heap s) ref None) (upd (objs s) i (Some (Q (Some n) (lastn q) (len q - 1)))), OPop (item m))
  end.
(** LocklessQueue.h:191 [Peek] *)
Definition peek {T} (s : st T) (i : nat) : res (st T * out T) :=
  do q <- obj s i;
  do (_, d) <- deref (heap s) (div q);
  Ok (s, OPeek (match next d with None => false | Some _ => true end)).
(** LocklessQueue.h:26 [Length] *)
Definition qlength {T} (s : st T) (i : nat) : res (st T * out T) := do q <- obj s i; Ok (s, OLen (len q)).
(** LocklessQueue.h:137-142 (24 for the length): the move constructor: the new object i from j *)
Definition move_new {T} (s : st T) (i j : nat) : res (st T * out T) :=
  match nth_error (objs s) i with
  | Some None => do m <- obj s j; Ok (St (heap s) (upd (upd (objs s) i (Some m)) j (Some (Q None None (len m)))), ONone)
  | _ => UB
  end.
(** LocklessQueue.h:192-201 (28 for the length): the move assignment: i = std::move(j), assignment by assignment *)
Definition move_assign {T} (s : st T) (i j : nat) : res (st T * out T) :=
  do q <- obj s i; do m <- obj s j;
  let o1 := upd (objs s) i (Some (Q (div m) (lastn m) (len q))) in
  let s2 := St (heap s) o1 in
  do m2 <- obj s2 j;
  let s3 := St (heap s) (upd (objs s2) j (Some (Q None None (len m2)))) in
  do q3 <- obj s3 i; do m3 <- obj s3 j;
  Ok (St (heap s) (upd (objs s3) i (Some (Q (div q3) (lastn q3) (len m3)))), ONone).
(** LocklessQueue.h:158-166: the loop of the destructor; fuel: the number of nodes ever allocated and one more *)
Fixpoint destroy_loop {T} (fuel : nat) (h : list (option (node T))) (p : option nat) : res (list (option (node T))) :=
  match fuel, p with
  | _, None => Ok h
  | O, _ => OutOfFuel
  | S fuel, Some _ => do (a, n) <- deref h p; destroy_loop fuel (upd h a None) (next n)
  end.
(** LocklessQueue.h:158-166 the destructor *)
Definition destroy {T} (s : st T) (i : nat) : res (st T * out T) :=
  do q <- obj s i; do h <- destroy_loop (S (length (heap s))) (heap s) (div q); Ok (St h (upd (objs s) i None), ONone).

(** LocklessQueue.h:137-201 one operation *)
Definition step {T} (s : st T) (o : op T) : res (st T * out T) :=
  match o with
  | Create i => create s i | Push i x => push s i x | Pop i => pop s i | Peek i => peek s i | Length i => qlength s i
  | MoveNew i j => move_new s i j | MoveAssign i j => move_assign s i j | Destroy i => destroy s i
  end.
(** a program: the state after it and what it saw *)
Fixpoint run {T} (s : st T) (l : list (op T)) : res (st T * list (out T)) :=
  match l with [] => Ok (s, []) | o :: l => do (s1, a) <- step s o; do (s2, b) <- run s1 l; Ok (s2, a :: b) end.
(** n places for queue objects, none of them there yet, and no nodes *)
Definition start {T} (n : nat) : st T := St [] (repeat None n).
(** the number of nodes that are allocated *)
Definition live {T} (s : st T) : nat := length (filter (fun c => match c with Some _ => true | None => false end) (heap s)).
