(* Model of who owns the memory of BlockAlloc, LocklessBlockPolicy, GreedyAlloc and RingAllocVoid when they are moved, assigned, cleared and
   destroyed (BlockAlloc.h, BlockAllocMT.h, GreedyAlloc.h, RingAlloc.h in include/bss-util).  The chunks (buckets) an allocator holds are a
   list; whether an allocation needs a new chunk is an input (GreedyAlloc.v, BlockAlloc.v and RingAlloc.v have the sizes).  One thread; the
   system does not run out of memory. *)
From Coq Require Import List Arith Bool.
From Verif Require Import Common.
Import ListNotations.

Inductive kind := Block | Lockless | Greedy | Ring.
(** the chunks the system has given out and not got back; the next chunk; the objects, None: destroyed *)
Record st := St { heap : nat -> bool; next : nat; objs : list (option (list nat)) }.
(** malloc *)
Definition malloc (s : st) : nat * st := (next s, St (fun x => if x =? next s then true else heap s x) (S (next s)) (objs s)).
(** free of every chunk of a list: undefined for one that is not given out *)
Fixpoint free_all (h : nat -> bool) (l : list nat) : res (nat -> bool) :=
  match l with [] => Ok h | c :: l => if h c then free_all (fun x => if x =? c then false else h x) l else UB end.
Definition set_obj (s : st) (k : nat) (o : option (list nat)) : st := St (heap s) (next s) (upd (objs s) k o).
Definition chunks (s : st) (k : nat) : res (list nat) := match nth_error (objs s) k with Some (Some l) => Ok l | _ => UB end.

(** BlockAlloc.h:26-31, BlockAllocMT.h:24-33, GreedyAlloc.h:32-36, RingAlloc.h:38-43: the constructors allocate a chunk *)
Definition new (s : st) : st := let (c, s) := malloc s in St (heap s) (next s) (objs s ++ [Some [c]]).
(** BlockAlloc.h:54-56, BlockAllocMT.h:52-58, GreedyAlloc.h:66-77, RingAlloc.h:54-80: an allocation: it reads the size of the root (Ring: the
    current bucket), or, from a free list, takes a block of it; grow: it needs a new chunk.  (A Ring may also give back buckets here.) *)
Definition alloc (s : st) (k : nat) (grow : bool) : res st :=
  do l <- chunks s k;
  match l with
  | [] => UB
  | _ => if grow then let (c, s) := malloc s in Ok (set_obj s k (Some (c :: l))) else Ok s
  end.
(** BlockAlloc.h:32-41, BlockAllocMT.h:34-43, GreedyAlloc.h:37-47, RingAlloc.h:44, 135-152: the destructors *)
Definition destroy (s : st) (k : nat) : res st :=
  do l <- chunks s k; do h <- free_all (heap s) l; Ok (St h (next s) (upd (objs s) k None)).
(** BlockAlloc.h:79-93, GreedyAlloc.h:100-123 (one chunk is kept; the root is read), RingAlloc.h:112-118; a LocklessBlockPolicy has no Clear *)
Definition clear (kd : kind) (s : st) (k : nat) : res st :=
  do l <- chunks s k;
  let all := do h <- free_all (heap s) l; let (c, s) := malloc (St h (next s) (objs s)) in Ok (set_obj s k (Some [c])) in
  match kd, l with
  | Lockless, _ => UB
  | Greedy, [] => UB
  | Greedy, [_] => Ok s
  | _, _ => all
  end.
(** BlockAlloc.h:21-25, BlockAllocMT.h:17-23, GreedyAlloc.h:25-31, RingAlloc.h:32-37: the move constructors make a new object from a *)
Definition move (s : st) (a : nat) : res st := do l <- chunks s a; Ok (St (heap s) (next s) (upd (objs s) a (Some []) ++ [Some l])).
(** BlockAlloc.h:95-103, BlockAllocMT.h:93-101, GreedyAlloc.h:125-134, RingAlloc.h:120-130: b = std::move(a) *)
Definition assign (kd : kind) (s : st) (a b : nat) : res st :=
  match kd with
  | Block =>
    if a =? b then do _ <- chunks s a; Ok s
    else do l <- chunks s b; do h <- free_all (heap s) l; do m <- chunks s a; Ok (set_obj (set_obj (St h (next s) (objs s)) b (Some m)) a (Some []))
  | Ring =>
    do l <- chunks s b; do h <- free_all (heap s) l;
    let s := set_obj (St h (next s) (objs s)) b (Some []) in
    do m <- chunks s a; Ok (set_obj (set_obj s b (Some m)) a (Some []))
  | Lockless | Greedy => do _ <- chunks s b; do m <- chunks s a; Ok (set_obj (set_obj s b (Some m)) a (Some []))
  end.

Inductive op := ONew | OAlloc (k : nat) (grow : bool) | OClear (k : nat) | OMove (a : nat) | OAssign (a b : nat) | ODestroy (k : nat).
Definition step (kd : kind) (s : st) (o : op) : res st :=
  match o with
  | ONew => Ok (new s)
  | OAlloc k g => alloc s k g
  | OClear k => clear kd s k
  | OMove a => move s a
  | OAssign a b => assign kd s a b
  | ODestroy k => destroy s k
  end.
Definition start : st := St (fun _ => false) 0 [].
Fixpoint run (kd : kind) (s : st) (l : list op) : res st := match l with [] => Ok s | o :: l => do s <- step kd s o; run kd s l end.
