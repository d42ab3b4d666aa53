(* Model of MicroLockQueue (include/bss-util/LocklessQueue.h): the queue between any number of producers and consumers. *)
From Coq Require Import List Arith Bool.
From Verif Require Import Common.
From Verif Require LocklessQueue.
Import ListNotations.

Section MicroLockQueue.
Context {V : Type}.
Notation node := (LocklessQueue.node V).
Notation mkn := LocklessQueue.mkn.
Notation nxt := LocklessQueue.nxt.
Notation itm := LocklessQueue.itm.
(** the memory of all blocks of the allocator, allocated or not: a block that has been given back keeps its memory, and its
    first word, where the node had its next pointer (LocklessQueue.h 16), is the link of the free list (BlockAllocMT.h 153) *)
Definition heap := nat -> option node.
Definition put (h : heap) (a : nat) (n : node) : heap := fun b => if b =? a then Some n else h b.
Definition deref (h : heap) (a : nat) : res node := match h a with Some n => Ok n | None => UB end.
(** LocklessQueue.h 216-219: _div, _last, _cflag, _pflag; free is the free list of the LocklessBlockPolicy, whose allocate
    and deallocate are taken as one step each (property C43).  Not part of the object: the values of the Pushes in the order
    in which they were linked, and the values of the Pops in the order in which they took effect.  The optional length
    counter is not modelled *)
Record mq := mkmq { qdiv : nat; qlast : nat; cflag : bool; pflag : bool; hp : heap; free : list nat; pushed : list V; popped : list V }.
Inductive pc :=
| Idle
| PAlloc (v : V)                (** 206-207: the node is not shared yet *)
| PLock (a : nat) (v : V)       (** 209 *)
| PLink (a : nat) (v : V)       (** 210 *)
| PSet (a : nat)                (** 211 *)
| PUnl                          (** 212 *)
| OChk                          (** 171: _div *)
| OChk2 (d : nat)               (** 171: its next *)
| OLock                         (** 173 *)
| ORead                         (** 174-177: _div is only changed by the owner of _cflag *)
| OMove (ref n : nat)           (** 179 *)
| OSet (ref n : nat) (v : V)    (** 180 *)
| OUnl (ref : nat) (v : V)      (** 181 *)
| OFree (ref : nat) (v : V)     (** 182-183 *)
| OFail.                        (** 188 *)
(** BlockAllocMT.h 130-141: a new chunk in the order of its free list *)
Fixpoint chunk (h : heap) (bs : list nat) : heap := match bs with [] => h | b :: bs => put (chunk h bs) b (mkn (hd_error bs) None) end.
(** what a call returns: Push, Pop with false, Pop with true *)
Inductive ret := RPush | RFalse | RTrue (v : V).
(** the next step of a thread; bs are the blocks of the chunk the allocator gets, if it needs one *)
Definition exec (s : mq) (p : pc) (bs : list nat) : res (mq * pc * option ret) :=
  match p with
  | Idle => Ok (s, Idle, None)
  | PAlloc v =>
    let '(f, h) := match free s with [] => (bs, chunk (hp s) bs) | f => (f, hp s) end in
    match f with
    | [] => UB
    | a :: f => Ok (mkmq (qdiv s) (qlast s) (cflag s) (pflag s) (put h a (mkn None (Some v))) f (pushed s) (popped s), PLock a v, None)
    end
  | PLock a v => if pflag s then Ok (s, PLock a v, None) else Ok (mkmq (qdiv s) (qlast s) (cflag s) true (hp s) (free s) (pushed s) (popped s), PLink a v, None)
  | PLink a v => do n <- deref (hp s) (qlast s); Ok (mkmq (qdiv s) (qlast s) (cflag s) (pflag s) (put (hp s) (qlast s) (mkn (Some a) (itm n))) (free s) (pushed s ++ [v]) (popped s), PSet a, None)
  | PSet a => Ok (mkmq (qdiv s) a (cflag s) (pflag s) (hp s) (free s) (pushed s) (popped s), PUnl, None)
  | PUnl => Ok (mkmq (qdiv s) (qlast s) (cflag s) false (hp s) (free s) (pushed s) (popped s), Idle, Some RPush)
  | OChk => Ok (s, OChk2 (qdiv s), None)
  | OChk2 d => do n <- deref (hp s) d; match nxt n with None => Ok (s, Idle, Some RFalse) | Some _ => Ok (s, OLock, None) end
  | OLock => if cflag s then Ok (s, OLock, None) else Ok (mkmq (qdiv s) (qlast s) true (pflag s) (hp s) (free s) (pushed s) (popped s), ORead, None)
  | ORead => do n <- deref (hp s) (qdiv s); match nxt n with None => Ok (s, OFail, None) | Some b => Ok (s, OMove (qdiv s) b, None) end
  | OMove r b => do n <- deref (hp s) b; match itm n with None => UB | Some v => Ok (mkmq (qdiv s) (qlast s) (cflag s) (pflag s) (put (hp s) b (mkn (nxt n) None)) (free s) (pushed s) (popped s), OSet r b v, None) end
  | OSet r b v => Ok (mkmq b (qlast s) (cflag s) (pflag s) (hp s) (free s) (pushed s) (popped s ++ [v]), OUnl r v, None)
  | OUnl r v => Ok (mkmq (qdiv s) (qlast s) false (pflag s) (hp s) (free s) (pushed s) (popped s), OFree r v, None)
  | OFree r v => do _ <- deref (hp s) r; Ok (mkmq (qdiv s) (qlast s) (cflag s) (pflag s) (put (hp s) r (mkn (hd_error (free s)) None)) (r :: free s) (pushed s) (popped s), Idle, Some (RTrue v))
  | OFail => Ok (mkmq (qdiv s) (qlast s) false (pflag s) (hp s) (free s) (pushed s) (popped s), Idle, Some RFalse)
  end.
(** memory for a new chunk: distinct blocks that were not part of a chunk before *)
Definition fresh_blocks (s : mq) (bs : list nat) : Prop := bs <> [] /\ NoDup bs /\ forall b, In b bs -> hp s b = None.
Inductive step : mq * list pc -> res (mq * list pc) -> Prop :=
| s_push s ts t v : nth_error ts t = Some Idle -> step (s, ts) (Ok (s, upd ts t (PAlloc v)))
| s_pop s ts t : nth_error ts t = Some Idle -> step (s, ts) (Ok (s, upd ts t OChk))
| s_exec s ts t p bs : nth_error ts t = Some p -> fresh_blocks s bs -> step (s, ts) (do (s', p', _) <- exec s p bs; Ok (s', upd ts t p')).
(** LocklessQueue.h 151-157: the constructor; a :: f is the free list of the allocator made with it *)
Definition new_mq (a : nat) (f : list nat) : mq := mkmq a a false false (put (chunk (fun _ => None) (a :: f)) a (mkn None None)) f [] [].
Inductive runs (n : nat) : mq * list pc -> Prop :=
| r_new a f : NoDup (a :: f) -> runs n (new_mq a f, repeat Idle n)
| r_step x y : runs n x -> step x (Ok y) -> runs n y.
End MicroLockQueue.
Arguments mq : clear implicits.
Arguments pc : clear implicits.
Arguments ret : clear implicits.
