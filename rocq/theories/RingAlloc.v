(* Model of RingAllocVoid (include/bss-util/RingAlloc.h): the ring allocator, shared by any number of threads.
   Every atomic access is one step and the steps of the threads interleave arbitrarily (sequential consistency: the
   memory orders given in the code are not modelled).  Numbers are unbounded.  Moving, Clear and the destructor, which
   may not run while other threads use the object, are not modelled.  BSS_DEBUG is off. *)
From Coq Require Import List Arith Bool.
From Verif Require Import Common Growth.
Import ListNotations.

(** RWLock.h: the word of a lock is its writer flag and its number of readers (see RWLock.v, property C40, for the word
    as one number) *)
Record lock := mklock { wr : bool; rd : nat }.
Definition free_lock : lock := mklock false 0.
Definition add_reader (l : lock) : lock := mklock (wr l) (rd l + 1).
Definition sub_reader (l : lock) : lock := mklock (wr l) (rd l - 1).
Definition set_writer (l : lock) (b : bool) : lock := mklock b (rd l).

(** RingAlloc.h 16-23: Bucket.  The field list is not modelled: it only serves to find the buckets when the object is
    destroyed; next is given by the order of the list gc below *)
Record bucket := mkbucket { sz : nat; reserved : nat; blk : lock }.
(** what Alloc returned: the bucket, and position and size in it of the piece including its Node (26-30, 88-95) *)
Definition piece := (nat * nat * nat)%type.

(** RingAlloc.h 233-241: bk maps the address of a bucket to the bucket (None is memory not in use), gc is the chain of
    buckets starting at _gc.p, tag is _gc.tag, lk is _lock.  live, not part of the object, is the list of pieces handed
    out and not yet given back *)
Record sh := mksh { bk : nat -> option bucket; gc : list nat; tag : nat; cur : nat; lk : lock; lastsize : nat; live : list piece }.

(** who called _checkRecycle: Alloc (72) for a piece of n bytes, or Dealloc (109) *)
Inductive caller := KAlloc (n : nat) | KDealloc.
(** what a thread does next *)
Inductive pc :=
| Idle
| ARLock (n : nat)                   (** 54: fetch_add in _lock.RLock *)
| ARSub (n : nat)                    (** 54: fetch_sub in _lock.RLock *)
| ALoad (n : nat)                    (** 55 *)
| ABLock (n b : nat)                 (** 57: fetch_add in AttemptRLock *)
| ABSub (n b : nat)                  (** 57: fetch_sub in AttemptRLock *)
| AAgain (n : nat)                   (** 59, 79: _lock.RUnlock, then the loop starts again *)
| AAdd (n b : nat)                   (** 63 *)
| ASub (n b r : nat)                 (** 68 *)
| ABUn (n b r : nat)                 (** 69 *)
| AUp (n : nat)                      (** 74: bts in AttemptUpgrade *)
| AFlush (n : nat)                   (** 74: waiting for the other readers in AttemptUpgrade *)
| AGen (n : nat)                     (** 76 *)
| ADown (n : nat)                    (** 77 *)
| AUn (n b r : nat)                  (** 83 *)
| ARet (n b r : nat)                 (** 93-95 *)
| DRLock (p : piece)                 (** 107: fetch_add *)
| DRSub (p : piece)                  (** 107: fetch_sub *)
| DBUn (p : piece)                   (** 108 *)
| CStrict (b : nat) (k : caller)     (** 206 *)
| CCur (b : nat) (k : caller)        (** 208 *)
| CUp (b : nat) (k : caller)         (** 210: bts *)
| CFlush (b : nat) (k : caller)      (** 210: waiting for the other readers *)
| CCur2 (b : nat) (k : caller)       (** 212 *)
| CReset (b : nat) (k : caller)      (** 214 *)
| CUnlock (b : nat) (k : caller)     (** 215 *)
| CDown (k : caller)                 (** 216 *)
| CDown2 (b : nat) (k : caller)      (** 219 *)
| RLoad (b : nat) (k : caller)       (** 230 *)
| RCas (b : nat) (k : caller) (t : nat) (** 231-235 *)
| DUn.                               (** 110 *)
(** where _checkRecycle returns to *)
Definition return_to (k : caller) : pc := match k with KAlloc n => AUp n | KDealloc => DUn end.

Definition set_bk (s : sh) (b : nat) (v : option bucket) : sh :=
  mksh (fun x => if x =? b then v else bk s x) (gc s) (tag s) (cur s) (lk s) (lastsize s) (live s).
Definition set_lk (s : sh) (l : lock) : sh := mksh (bk s) (gc s) (tag s) (cur s) l (lastsize s) (live s).
Definition set_live (s : sh) (l : list piece) : sh := mksh (bk s) (gc s) (tag s) (cur s) (lk s) (lastsize s) l.
(** an access to a bucket: undefined behaviour if its memory is not in use *)
Definition with_bucket (s : sh) (b : nat) (f : bucket -> res (sh * pc)) : res (sh * pc) :=
  match bk s b with Some x => f x | None => UB end.
Definition set_blk (x : bucket) (l : lock) : bucket := mkbucket (sz x) (reserved x) l.
Definition set_reserved (x : bucket) (r : nat) : bucket := mkbucket (sz x) r (blk x).

(** RingAlloc.h 160-182: the loop of _genBucket takes buckets from _gc, freeing those that are too small, until one is
    large enough.  The result is what is left of the chain, and the bucket found *)
Fixpoint take_bucket (m : nat -> option bucket) (num : nat) (l : list nat) (t : nat)
  : res ((nat -> option bucket) * list nat * nat * option nat) :=
  match l with
  | [] => Ok (m, [], t, None)
  | b :: l =>
    match m b with
    | None => UB
    | Some x => if sz x <? num then take_bucket (fun q => if q =? b then None else m q) num l (t + 1) else Ok (m, l, t + 1, Some b)
    end
  end.
(** RingAlloc.h 155-204: _genBucket, and the assignment of its result to _cur.  a is the address returned by calloc, if
    it is called.  It is one step: the thread holds the writer flag of _lock and no other thread is between RLock and
    RUnlock of _lock, which is where _gc, _cur, _lastsize and the buckets are accessed (part of the theorem) *)
Definition gen_bucket (s : sh) (num a : nat) : res sh :=
  let last := Nat.max (lastsize s) num in
  do (m, l, t, hold) <- take_bucket (bk s) num (gc s) (tag s);
  match hold with
  | None =>
    let last := fbnext_nat last in
    Ok (mksh (fun q => if q =? a then Some (mkbucket last 0 free_lock) else m q) l t a (lk s) last (live s))
  | Some b =>
    match m b with
    | None => UB
    | Some x => Ok (mksh (fun q => if q =? b then Some (mkbucket (sz x) 0 (set_writer (blk x) false)) else m q) l t b (lk s) last (live s))
    end
  end.

(** the next step of a thread that is inside a call *)
Definition exec (s : sh) (p : pc) (a : nat) : res (sh * pc) :=
  match p with
  | Idle => Ok (s, Idle)
  | ARLock n => Ok (set_lk s (add_reader (lk s)), if wr (lk s) then ARSub n else ALoad n)
  | ARSub n => Ok (set_lk s (sub_reader (lk s)), ARLock n)
  | ALoad n => Ok (s, ABLock n (cur s))
  | ABLock n b => with_bucket s b (fun x => Ok (set_bk s b (Some (set_blk x (add_reader (blk x)))), if wr (blk x) then ABSub n b else AAdd n b))
  | ABSub n b => with_bucket s b (fun x => Ok (set_bk s b (Some (set_blk x (sub_reader (blk x)))), AAgain n))
  | AAgain n => Ok (set_lk s (sub_reader (lk s)), ARLock n)
  | AAdd n b => with_bucket s b (fun x => Ok (set_bk s b (Some (set_reserved x (reserved x + n))), if sz x <? reserved x + n then ASub n b (reserved x) else AUn n b (reserved x)))
  | ASub n b r => with_bucket s b (fun x => Ok (set_bk s b (Some (set_reserved x (reserved x - n))), ABUn n b r))
  | ABUn n b r => with_bucket s b (fun x => Ok (set_bk s b (Some (set_blk x (sub_reader (blk x)))), if r =? 0 then CStrict b (KAlloc n) else AUp n))
  | AUp n => if wr (lk s) then Ok (s, AAgain n) else Ok (set_lk s (set_writer (lk s) true), AFlush n)
  | AFlush n => Ok (s, if 1 <? rd (lk s) then AFlush n else AGen n)
  | AGen n => do s' <- gen_bucket s n a; Ok (s', ADown n)
  | ADown n => Ok (set_lk s (set_writer (lk s) false), AAgain n)
  | AUn n b r => Ok (set_lk s (sub_reader (lk s)), ARet n b r)
  | ARet n b r => with_bucket s b (fun x => if r + n <=? sz x then Ok (set_live s ((b, r, n) :: live s), Idle) else UB)
  | DRLock p => Ok (set_lk s (add_reader (lk s)), if wr (lk s) then DRSub p else DBUn p)
  | DRSub p => Ok (set_lk s (sub_reader (lk s)), DRLock p)
  | DBUn (b, _, _) => with_bucket s b (fun x => Ok (set_bk s b (Some (set_blk x (sub_reader (blk x)))), CStrict b KDealloc))
  | CStrict b k => with_bucket s b (fun x => if negb (wr (blk x)) && (rd (blk x) =? 0) then Ok (set_bk s b (Some (set_blk x (mklock true 0))), CCur b k) else Ok (s, return_to k))
  | CCur b k => Ok (s, if b =? cur s then CUp b k else RLoad b k)
  | CUp b k => if wr (lk s) then Ok (s, RLoad b k) else Ok (set_lk s (set_writer (lk s) true), CFlush b k)
  | CFlush b k => Ok (s, if 1 <? rd (lk s) then CFlush b k else CCur2 b k)
  | CCur2 b k => Ok (s, if b =? cur s then CReset b k else CDown2 b k)
  | CReset b k => with_bucket s b (fun x => Ok (set_bk s b (Some (set_reserved x 0)), CUnlock b k))
  | CUnlock b k => with_bucket s b (fun x => Ok (set_bk s b (Some (set_blk x (set_writer (blk x) false))), CDown k))
  | CDown k => Ok (set_lk s (set_writer (lk s) false), return_to k)
  | CDown2 b k => Ok (set_lk s (set_writer (lk s) false), RLoad b k)
  | RLoad b k => Ok (s, RCas b k (tag s))
  | RCas b k t => with_bucket s b (fun _ => if tag s =? t then Ok (mksh (bk s) (b :: gc s) (t + 1) (cur s) (lk s) (lastsize s) (live s), return_to k) else Ok (s, RCas b k (tag s)))
  | DUn => Ok (set_lk s (sub_reader (lk s)), Idle)
  end.

(** RingAlloc.h 38-43: the constructor *)
Definition new_ring (size a : nat) : sh :=
  let last := fbnext_nat size in
  mksh (fun q => if q =? a then Some (mkbucket last 0 free_lock) else None) [] 0 a free_lock last [].

(** sizeof(Node) (26-30) *)
Definition NODE : nat := 16.
(** one step of the system of threads: thread t calls Alloc (46-48); or Dealloc of a live piece (100-103: the bucket is
    read from the Node of the piece); or takes the next step of its call, where calloc returns memory not in use *)
Inductive act := Alloc (t num : nat) | Dealloc (t i : nat) | Exec (t a : nat).
Definition step (x : sh * list pc) (c : act) : res (sh * list pc) :=
  let (s, ts) := x in
  match c with
  | Alloc t num => match nth_error ts t with Some Idle => Ok (s, upd ts t (ARLock (num + NODE))) | _ => Ok (s, ts) end
  | Dealloc t i =>
    match nth_error ts t, nth_error (live s) i with
    | Some Idle, Some p => Ok (set_live s (firstn i (live s) ++ skipn (S i) (live s)), upd ts t (DRLock p))
    | _, _ => Ok (s, ts)
    end
  | Exec t a =>
    match nth_error ts t with
    | Some p => do (s', p') <- exec s p a; Ok (s', upd ts t p')
    | None => Ok (s, ts)
    end
  end.
