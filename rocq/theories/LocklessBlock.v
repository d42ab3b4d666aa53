(* Model of LocklessBlockPolicy (include/bss-util/BlockAllocMT.h): the lock-free allocator of fixed-size blocks. *)
From Coq Require Import List Arith Bool.
From Verif Require Import Common Growth.
Import ListNotations.

(** sizeof(BlockAlloc::Node) (BlockAlloc.h 15-19) *)
Definition HDR : nat := 16.
Section LocklessBlock.
(** sizeof(T), at least the size of a pointer (BlockAllocMT.h 30) *)
Context (tsz : nat).
(** BlockAllocMT.h 158-160: _freelist with its tag, _flag, _root (the chunks, newest first: address and number of blocks);
    mem is the first word of each block read as a pointer (None is null); live, not part of the object, is the list of
    blocks handed out and not yet given back.  The tag is an unbounded number *)
Record sh := mksh { fl : option nat * nat; flag : bool; chunks : list (nat * nat); mem : nat -> option nat; live : list nat }.
(** the addresses visited by the loop of _initChunk (BlockAllocMT.h 133-139) *)
Definition blocks_of (c : nat * nat) : list nat := map (fun i => fst c + HDR + i * tsz) (seq 0 (snd c)).
Definition blocks (s : sh) : list nat := flat_map blocks_of (chunks s).
(** reading and writing the first word of a block; outside the blocks it is undefined behaviour *)
Definition rd (s : sh) (p : nat) : res (option nat) := if in_dec Nat.eq_dec p (blocks s) then Ok (mem s p) else UB.
Definition wrm (m : nat -> option nat) (p : nat) (v : option nat) : nat -> option nat := fun q => if q =? p then v else m q.
Definition wr (s : sh) (p : nat) (v : option nat) : res sh := if in_dec Nat.eq_dec p (blocks s) then Ok (mksh (fl s) (flag s) (chunks s) (wrm (mem s) p v) (live s)) else UB.
(** BlockAllocMT.h 130-139: the loop of _initChunk *)
Fixpoint init_links (m : nat -> option nat) (hold : option nat) (bs : list nat) : (nat -> option nat) * option nat :=
  match bs with [] => (m, hold) | b :: bs => init_links (wrm m b hold) (Some b) bs end.
(** who called _setFreeList: deallocate (87) or _initChunk (141) called by allocate (61) *)
Inductive caller := Freeing | Growing.
(** what a thread does next.  g is not part of the code: it lists the blocks from p to target, for the proofs *)
Inductive pc :=
| Idle
| ALoad                                        (** 52, 64: asmcasr used as a load *)
| AHave (ret : option nat * nat)               (** 56, 68: ret is tested, then the block is read *)
| ACas (p tag : nat) (next : option nat)       (** 71 *)
| ATas                                         (** 58 *)
| ALocked                                      (** 60 *)
| AGrow                                        (** 61 *)
| AClear                                       (** 62 *)
| FLoad (c : caller) (p : option nat) (target : nat) (g : list nat)                                (** 148 *)
| FWrite (c : caller) (p : option nat) (target : nat) (g : list nat) (prev : option nat * nat)     (** 152-153 *)
| FCas (c : caller) (p : option nat) (target : nat) (g : list nat) (prev : option nat * nat).      (** 155 *)
Definition pt_eqb (x y : option nat * nat) : bool :=
  match fst x, fst y with Some a, Some b => a =? b | None, None => true | _, _ => false end && (snd x =? snd y).
Definition set_fl (s : sh) (f : option nat * nat) : sh := mksh f (flag s) (chunks s) (mem s) (live s).
Definition set_flag (s : sh) (b : bool) : sh := mksh (fl s) b (chunks s) (mem s) (live s).
(** the next step of a thread that is inside a call: one access to shared memory each, except that _allocChunk and the loop
    of _initChunk (120-139), which touch only _root, guarded by _flag, and memory nobody else knows, are one step.
    a is the address returned by malloc, if it is called *)
Definition exec (s : sh) (p : pc) (a : nat) : res (sh * pc) :=
  match p with
  | Idle => Ok (s, Idle)
  | ALoad => Ok (s, AHave (fl s))
  | AHave (None, _) => Ok (s, ATas)
  | AHave (Some q, tag) => do v <- rd s q; Ok (s, ACas q tag v)
  | ACas q tag v => if pt_eqb (fl s) (Some q, tag) then Ok (mksh (v, tag + 1) (flag s) (chunks s) (mem s) (q :: live s), Idle) else Ok (s, AHave (fl s))
  | ATas => if flag s then Ok (s, ALoad) else Ok (set_flag s true, ALocked)
  | ALocked => Ok (s, match fst (fl s) with None => AGrow | Some _ => AClear end)
  | AGrow =>
    match chunks s with
    | [] => UB
    | (_, k) :: _ =>
      let c := (a, fbnext_nat k) in let (m, hold) := init_links (mem s) None (blocks_of c) in
      Ok (mksh (fl s) (flag s) (c :: chunks s) m (live s), FLoad Growing hold (a + HDR) (rev (blocks_of c)))
    end
  | AClear => Ok (set_flag s false, ALoad)
  | FLoad c q t g => Ok (s, FWrite c q t g (fl s))
  | FWrite c q t g prev => do s' <- wr s t (fst prev); Ok (s', FCas c q t g prev)
  | FCas c q t g prev => if pt_eqb (fl s) prev then Ok (set_fl s (q, snd prev + 1), match c with Freeing => Idle | Growing => AClear end) else Ok (s, FWrite c q t g (fl s))
  end.
(** BlockAllocMT.h 24-33: the constructor, before the object is shared; with no block, the last write of _initChunk
    (141, 153) is past the end of the chunk *)
Definition new_lb (init a : nat) : res sh :=
  let c := (a, init) in let (m, hold) := init_links (fun _ => None) None (blocks_of c) in
  do s <- wr (mksh (None, 0) false [c] m []) (a + HDR) None; Ok (set_fl s (hold, 1)).
(** malloc: the memory does not overlap a chunk in use *)
Definition fresh_chunk (s : sh) (a k : nat) : Prop := forall c j, In (c, j) (chunks s) -> a + HDR + k * tsz <= c \/ c + HDR + j * tsz <= a.
(** one step of the system of threads: thread t calls allocate; or deallocate of a live block; or takes the next step of
    its call; or somebody writes to the memory of a live block *)
Inductive step : sh * list pc -> res (sh * list pc) -> Prop :=
| s_allocate s ts t : nth_error ts t = Some Idle -> step (s, ts) (Ok (s, upd ts t ALoad))
| s_deallocate s ts t p l1 l2 : nth_error ts t = Some Idle -> live s = l1 ++ p :: l2 ->
    step (s, ts) (Ok (mksh (fl s) (flag s) (chunks s) (mem s) (l1 ++ l2), upd ts t (FLoad Freeing (Some p) p [p])))
| s_exec s ts t p a : nth_error ts t = Some p -> (p = AGrow -> forall c k rest, chunks s = (c, k) :: rest -> fresh_chunk s a (fbnext_nat k)) ->
    step (s, ts) (do (s', p') <- exec s p a; Ok (s', upd ts t p'))
| s_scribble s ts p v : In p (live s) -> step (s, ts) (do s' <- wr s p v; Ok (s', ts)).
Inductive runs (n : nat) : sh * list pc -> Prop :=
| r_new init a s : new_lb init a = Ok s -> runs n (s, repeat Idle n)
| r_step x y : runs n x -> step x (Ok y) -> runs n y.
End LocklessBlock.
