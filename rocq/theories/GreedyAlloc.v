(* Models of GreedyBlockPolicy (include/bss-util/GreedyBlockAlloc.h) and GreedyAlloc (include/bss-util/GreedyAlloc.h).
   Addresses and sizes are unbounded naturals (no wrap-around of size_t).  Chunks are pairs of address and size, newest
   first; the first is *_root.  asserts, BSS_DEBUG and BSS_DISABLE_CUSTOM_ALLOCATORS are off. *)
From Coq Require Import ZArith List Arith Bool.
From Verif Require Import Common Growth BlockAlloc.
From Verif Require RWLock.
Import ListNotations.

(* ------------------------------------------- GreedyBlockPolicy, one thread ------------------------------------------- *)
(** GreedyBlockAlloc.h 128-129 *)
Record gb := mkgb { gchunks : list (nat * nat); gpos : nat }.
Section GreedyBlock.
(** sizeof(T) and alignof(T) *)
Context (tsz tal : nat).
(** GreedyBlockAlloc.h 17-24: sizeof(Node), for alignments that are powers of two *)
Definition node_size : res nat := align_up NODE tal.
(** GreedyBlockAlloc.h 105-116: _allocChunk; the address comes from the system allocator, which does not fail *)
Definition gb_allocChunk (sys : nat -> nat) (s : gb) (nsize : nat) : res gb :=
  do n <- align_up nsize tsz;
  do n <- align_up n tal;
  do h <- node_size;
  Ok (mkgb ((sys (h + n), n) :: gchunks s) (gpos s)).
(** GreedyBlockAlloc.h 31-34: the constructor *)
Definition gb_new (sys : nat -> nat) (init : nat) : res gb := gb_allocChunk sys (mkgb [] 0) init.
(** GreedyBlockAlloc.h 46-64: allocate k elements *)
Definition gb_allocate (sys : nat -> nat) (s : gb) (k : nat) : res (gb * nat) :=
  do n <- align_up (k * tsz) tal;
  do h <- node_size;
  match gchunks s with
  | [] => UB
  | (c, size) :: _ =>
      if size <? gpos s + n then
        do s' <- gb_allocChunk sys s (fbnext_nat (gpos s + n));
        match gchunks s' with (c', _) :: _ => Ok (mkgb (gchunks s') n, c' + h + 0) | [] => UB end
      else Ok (mkgb (gchunks s) (gpos s + n), c + h + gpos s)
  end.
(** GreedyBlockAlloc.h 84-103: Clear *)
Definition gb_Clear (sys : nat -> nat) (s : gb) : res gb :=
  match gchunks s with
  | [] => UB
  | [c] => Ok (mkgb [c] 0)
  | cs => gb_allocChunk sys (mkgb [] 0) (fold_left (fun n c => n + snd c) cs 0)
  end.
End GreedyBlock.

(* ----------------------------------------------- GreedyAlloc, many threads ----------------------------------------------- *)
(** where a thread is in Alloc or Clear, besides where it is in a call of the lock *)
Inductive apc :=
| Out                    (** in neither *)
| Enter (n : nat)        (** 64-65: acquiring the read lock for n bytes, then fetch_add *)
| Got (n r : nat)        (** 67-69: has added, reads _root and compares *)
| Upg (n r : nat)        (** 71-73: in AttemptUpgrade, then compares again *)
| Grow (n r : nat)       (** 75: about to call _allocChunk *)
| Reset (n : nat)        (** 76: about to store 0 to _curpos *)
| Down (n : nat)         (** 78-80: in Downgrade, then RUnlock *)
| Again (n : nat)        (** 80, 62: in RUnlock, then the loop starts again *)
| Ret (p n : nat)        (** 86-88: in RUnlock, then returns p *)
| ClrLock                (** 102-104: acquiring the write lock, then stores 0 to _curpos *)
| ClrFree                (** 106-121: about to release the chunks, if there is more than one *)
| ClrEnd.                (** 107, 122: in Unlock *)
Record thread := mkt { lp : RWLock.pc; ap : apc }.
(** GreedyAlloc.h 160-165; regs is not part of the object: the regions (address and size) chosen by Alloc since the last
    Clear *)
Record ga := mkga { word : Z; curpos : nat; chunks : list (nat * nat); thr : list thread; regs : list (nat * nat) }.
Section Greedy.
(** _align and _alignsize (GreedyAlloc.h 164-165) *)
Context (al asz : nat).
(** the memory returned by ALIGNEDALLOC: aligned, and not overlapping a chunk in use *)
Definition fresh_mem (cs : list (nat * nat)) (a n : nat) : Prop :=
  a mod al = 0 /\ forall c k, In (c, k) cs -> a + (asz + n) <= c \/ c + (asz + k) <= a.
Definition root_size (s : ga) (k : nat) : Prop := exists c rest, chunks s = (c, k) :: rest.
(** one step of thread t: x is what it was, x' what it becomes, in s' except for thr *)
Inductive act (s : ga) : thread -> thread -> ga -> Prop :=
(** 53-55: a call of Alloc *)
| a_alloc sz n : align_up sz al = Ok n -> act s (mkt RWLock.Idle Out) (mkt RWLock.AtRLock (Enter n)) s
(** 100: a call of Clear *)
| a_clear : act s (mkt RWLock.Idle Out) (mkt RWLock.AtLock ClrLock) s
(** inside a call of the lock *)
| a_lock l p a l' p' : l = word s -> RWLock.exec l p = Some (l', p') -> act s (mkt p a) (mkt p' a) (mkga l' (curpos s) (chunks s) (thr s) (regs s))
(** 65: fetch_add *)
| a_add n : act s (mkt RWLock.HoldR (Enter n)) (mkt RWLock.HoldR (Got n (curpos s))) (mkga (word s) (curpos s + n) (chunks s) (thr s) (regs s))
(** 67-71: the chunk has no room *)
| a_full n r k : root_size s k -> k <= r + n -> act s (mkt RWLock.HoldR (Got n r)) (mkt RWLock.AtAttemptUpgrade (Upg n r)) s
(** 67-69, 86-87: it has; the region is chosen *)
| a_take n r c k rest : chunks s = (c, k) :: rest -> r + n < k ->
    act s (mkt RWLock.HoldR (Got n r)) (mkt RWLock.AtRUnlock (Ret (c + asz + r) n)) (mkga (word s) (curpos s) (chunks s) (thr s) ((c + asz + r, n) :: regs s))
(** 71: AttemptUpgrade failed *)
| a_fail n r : act s (mkt RWLock.HoldR (Upg n r)) (mkt RWLock.AtRUnlock (Again n)) s
(** 73: the second comparison *)
| a_still n r k : root_size s k -> k <= r + n -> act s (mkt RWLock.HoldWU (Upg n r)) (mkt RWLock.HoldWU (Grow n r)) s
| a_other n r k : root_size s k -> r + n < k -> act s (mkt RWLock.HoldWU (Upg n r)) (mkt RWLock.AtDowngrade (Down n)) s
(** 75: _allocChunk (137-145), as one step: nobody else reads or writes the list of chunks meanwhile *)
| a_grow n r a : fresh_mem (chunks s) a (fbnext_nat (r + n)) ->
    act s (mkt RWLock.HoldWU (Grow n r)) (mkt RWLock.HoldWU (Reset n)) (mkga (word s) (curpos s) ((a, fbnext_nat (r + n)) :: chunks s) (thr s) (regs s))
(** 76 *)
| a_reset n : act s (mkt RWLock.HoldWU (Reset n)) (mkt RWLock.AtDowngrade (Down n)) (mkga (word s) 0 (chunks s) (thr s) (regs s))
(** 80 *)
| a_down n : act s (mkt RWLock.HoldR (Down n)) (mkt RWLock.AtRUnlock (Again n)) s
| a_again n : act s (mkt RWLock.Idle (Again n)) (mkt RWLock.AtRLock (Enter n)) s
(** 88 *)
| a_ret p n : act s (mkt RWLock.Idle (Ret p n)) (mkt RWLock.Idle Out) s
(** 103-104 *)
| a_clear0 : act s (mkt RWLock.HoldW ClrLock) (mkt RWLock.HoldW ClrFree) (mkga (word s) 0 (chunks s) (thr s) [])
(** 106-107 *)
| a_clear1 c : chunks s = [c] -> act s (mkt RWLock.HoldW ClrFree) (mkt RWLock.AtUnlock ClrEnd) s
(** 109-122, as one step *)
| a_clear2 c1 c2 cs a n : chunks s = c1 :: c2 :: cs -> n = fold_left (fun n c => n + snd c) (chunks s) 0 -> fresh_mem [] a n ->
    act s (mkt RWLock.HoldW ClrFree) (mkt RWLock.AtUnlock ClrEnd) (mkga (word s) (curpos s) [(a, n)] (thr s) (regs s))
| a_end : act s (mkt RWLock.Idle ClrEnd) (mkt RWLock.Idle Out) s.
Definition set_thr (s : ga) (ts : list thread) : ga := mkga (word s) (curpos s) (chunks s) ts (regs s).
Inductive step : ga -> ga -> Prop :=
| s_act s t x x' s' : nth_error (thr s) t = Some x -> act s x x' s' -> step s (set_thr s' (upd (thr s) t x')).
(** GreedyAlloc.h 32-36: the constructor; N threads share the allocator *)
Inductive runs (N : nat) : ga -> Prop :=
| r_new init a : fresh_mem [] a init -> runs N (mkga 0 0 [(a, init)] (repeat (mkt RWLock.Idle Out) N) [])
| r_step s s' : runs N s -> step s s' -> runs N s'.
End Greedy.
