(* Model of CacheAlloc and CachePolicy (include/bss-util/CacheAlloc.h 12-156): an allocator shared by any number of threads
   that keeps the memory given back in one lock-free list per size.  BSS_DEBUG is off; of the asserts only those that a list is there (46, 100) are modelled.
   The lock is taken at its word (C40: whoever has it for writing is alone); a thread inside Upgrade is taken to hold
   nothing until it has the write lock, which allows more than the code does.  GreedyAlloc::Alloc is one step that returns
   memory nobody uses (C45), malloc likewise.  Memory accesses are sequentially consistent; the tags are unbounded. *)
From Coq Require Import List Arith Bool Lia.
From Verif Require Import Common.
Import ListNotations.

(** sizeof(void* ) *)
Definition PTR : nat := 8.
Section Cache.
(** _maxsize (CacheAlloc.h 130) *)
Context (maxsize : nat).

(** a bss_PTag: the pointer (None is null) and the tag *)
Definition ptag : Type := option nat * nat.
(** CacheAlloc.h 132: _cache, from sizes to lists.  mem is the first word of each block read as a pointer.  Not part of the
    object: regs, the regions obtained (address and size), and live, the blocks handed out and not given back, with the
    size asked for. *)
Record sh := mksh { cache : nat -> option ptag; mem : nat -> option nat; regs : list (nat * nat); live : list (nat * nat) }.
Definition set_cache (s : sh) (sz : nat) (v : ptag) : sh :=
  mksh (fun n => if n =? sz then Some v else cache s n) (mem s) (regs s) (live s).
(** reading and writing the first word of a block: undefined outside the regions *)
Definition known (s : sh) (p : nat) : bool := existsb (fun r => fst r =? p) (regs s).
Definition rd (s : sh) (p : nat) : res (option nat) := if known s p then Ok (mem s p) else UB.
Definition wr (s : sh) (p : nat) (v : option nat) : res sh :=
  if known s p then Ok (mksh (cache s) (fun q => if q =? p then v else mem s q) (regs s) (live s)) else UB.
Definition hand_out (s : sh) (p sz : nat) : sh := mksh (cache s) (mem s) (regs s) ((p, sz) :: live s).
(** the comparison of a compare-and-swap of pointer and tag *)
Definition pt_eqb (x y : ptag) : bool :=
  match fst x, fst y with Some a, Some b => a =? b | None, None => true | _, _ => false end && (snd x =? snd y).

(** where a thread is *)
Inductive pc :=
| Idle
| AEnter (sz : nat)                                 (** 38: RLock *)
| ALook (sz : nat)                                  (** 39-40: looks for the list *)
| AUp (sz : nat)                                    (** 42: Upgrade *)
| AIns (sz : nat)                                   (** 43-44: Insert, Downgrade *)
| ALoad (sz : nat)                                  (** 46-50: reads the head of the list *)
| AHave (sz : nat) (ret : ptag)                     (** 55, 66: empty, or reads the block *)
| ACas (sz q tag : nat) (next : option nat)         (** 67-69 *)
| AOut                                              (** 73, 102: RUnlock *)
| DEnter (p sz : nat)                               (** 95: RLock *)
| DLook (p sz : nat)                                (** 99-101 *)
| FLoad (p sz : nat)                                (** 120 *)
| FWrite (p sz : nat) (prev : ptag)                 (** 124-125 *)
| FCas (p sz : nat) (prev : ptag).                  (** 126 *)
(** holds the lock for reading; for writing *)
Definition readsl (p : pc) : bool :=
  match p with ALook _ | ALoad _ | AHave _ _ | ACas _ _ _ _ | AOut | DLook _ _ | FLoad _ _ | FWrite _ _ _ | FCas _ _ _ => true | _ => false end.
Definition writesl (p : pc) : bool := match p with AIns _ => true | _ => false end.

(** the next step of a thread inside Alloc (27-83) or Dealloc (84-104), one access to shared memory each; a is the address
    GreedyAlloc::Alloc returns (57-61), if it is called *)
Definition exec (s : sh) (p : pc) (a : nat) : res (sh * pc) :=
  match p with
  | Idle => Ok (s, Idle)
  | AEnter sz => Ok (s, ALook sz)
  | ALook sz => Ok (s, match cache s sz with Some _ => ALoad sz | None => AUp sz end)
  | AUp sz => Ok (s, AIns sz)
  (* Hash.h 439-448: a list that is there already is replaced *)
  | AIns sz => Ok (set_cache s sz (None, 0), ALoad sz)
  | ALoad sz => match cache s sz with Some v => Ok (s, AHave sz v) | None => UB end
  | AHave sz (None, _) => Ok (mksh (cache s) (mem s) ((a, Nat.max sz PTR) :: regs s) ((a, sz) :: live s), AOut)
  | AHave sz (Some q, tag) => do v <- rd s q; Ok (s, ACas sz q tag v)
  | ACas sz q tag v =>
      match cache s sz with
      | None => UB
      | Some c => if pt_eqb c (Some q, tag) then Ok (hand_out (set_cache s sz (v, tag + 1)) q sz, AOut) else Ok (s, AHave sz c)
      end
  | AOut => Ok (s, Idle)
  | DEnter p sz => Ok (s, DLook p sz)
  | DLook p sz => match cache s sz with Some _ => Ok (s, FLoad p sz) | None => UB end
  | FLoad p sz => match cache s sz with Some v => Ok (s, FWrite p sz v) | None => UB end
  | FWrite p sz prev => do s' <- wr s p (fst prev); Ok (s', FCas p sz prev)
  | FCas p sz prev =>
      match cache s sz with
      | None => UB
      | Some c => if pt_eqb c prev then Ok (set_cache s sz (Some p, snd prev + 1), AOut) else Ok (s, FWrite p sz c)
      end
  end.
(** what the lock makes a thread wait for *)
Definition guard (ts : list pc) (t : nat) (p : pc) : Prop :=
  match p with
  | AEnter _ | DEnter _ _ => forall t' q, t' <> t -> nth_error ts t' = Some q -> writesl q = false
  | AUp _ => forall t' q, t' <> t -> nth_error ts t' = Some q -> readsl q = false /\ writesl q = false
  | _ => True
  end.
(** memory that overlaps nothing in use: no region, and no block of malloc *)
Definition apart (x y : nat * nat) : Prop := fst x + snd x <= fst y \/ fst y + snd y <= fst x.
Definition fresh (s : sh) (r : nat * nat) : Prop :=
  (forall x, In x (regs s) -> apart r x) /\ (forall x, In x (live s) -> maxsize < snd x -> apart r x).

(** one step of the system *)
Inductive step : sh * list pc -> res (sh * list pc) -> Prop :=
(** 27, 36: Alloc of a size that is kept in lists *)
| s_alloc s ts t sz : nth_error ts t = Some Idle -> sz <= maxsize -> step (s, ts) (Ok (s, upd ts t (AEnter sz)))
(** 30-34: a large one, from malloc *)
| s_malloc s ts t sz a : nth_error ts t = Some Idle -> maxsize < sz -> fresh s (a, sz) -> step (s, ts) (Ok (hand_out s a sz, ts))
(** 84, 93: Dealloc of a block with its size *)
| s_dealloc s ts t p sz l1 l2 : nth_error ts t = Some Idle -> live s = l1 ++ (p, sz) :: l2 -> sz <= maxsize ->
    step (s, ts) (Ok (mksh (cache s) (mem s) (regs s) (l1 ++ l2), upd ts t (DEnter p sz)))
(** 91-92: of a large one *)
| s_free s ts t p sz l1 l2 : nth_error ts t = Some Idle -> live s = l1 ++ (p, sz) :: l2 -> maxsize < sz ->
    step (s, ts) (Ok (mksh (cache s) (mem s) (regs s) (l1 ++ l2), ts))
(** 142-154: CachePolicy::allocate of fewer elements than there are gives the old block back with the new size, for which
    there is a list, because it has just been used (144, 148-151); a large block then stays allocated *)
| s_shrink s ts t p sz sz' l1 l2 : nth_error ts t = Some Idle -> live s = l1 ++ (p, sz) :: l2 -> sz' < sz -> sz' <= maxsize -> cache s sz' <> None ->
    step (s, ts) (Ok (mksh (cache s) (mem s) (if maxsize <? sz then (p, sz) :: regs s else regs s) (l1 ++ l2), upd ts t (DEnter p sz')))
(** the user writes to a block *)
| s_scribble s ts p sz v : In (p, sz) (live s) -> step (s, ts) (Ok (mksh (cache s) (fun q => if q =? p then v else mem s q) (regs s) (live s), ts))
(** a thread takes its next step *)
| s_exec s ts t p a : nth_error ts t = Some p -> guard ts t p -> (forall sz tag, p = AHave sz (None, tag) -> fresh s (a, Nat.max sz PTR)) ->
    step (s, ts) (do (s', p') <- exec s p a; Ok (s', upd ts t p')).
(** CacheAlloc.h 19: the constructor; N threads share the allocator *)
Inductive runs (N : nat) : sh * list pc -> Prop :=
| r_new m : runs N (mksh (fun _ => None) m [] [], repeat Idle N)
| r_step x y : runs N x -> step x (Ok y) -> runs N y.
End Cache.
