(* Model of PriorityHeap, include/bss-util/PriorityQueue.h:48-128, over the heap of Heap.v.
   _subarray is a list of integers, (CT_)-1 is the integer -1.  Index arithmetic does not wrap. *)
From Coq Require Import List ZArith Bool.
From Verif Require Import Common ArraySort Heap Growth.
Import ListNotations.
Local Open Scope Z_scope.

Section PH.
Context {D : Type} (CFunc : D -> D -> Z).
Local Notation pair := (nat * D)%type.

(** compare.h:38-39 [CompTSecond]. *)
Definition comp_second (a b : pair) : Z := CFunc (snd a) (snd b).

(** PriorityQueue.h:51-54 [MFUNC_PRIORITY::MFunc]: p->_subarray[item.first] = i. *)
Definition mf_sub (sub : list Z) (item : pair) (i : nat) : res (list Z) := set sub (fst item) (Z.of_nat i).

Record ph := mkph { ph_heap : list pair; ph_sub : list Z; ph_free : Z }.

(** PriorityQueue.h:72 the default constructor: empty heap, empty _subarray, _freelist -1. *)
Definition ph_init : ph := mkph [] [] (-1).

(** PriorityQueue.h:117-124 [_initFreeList]; [todo] slots remain, i is the next one. *)
Fixpoint initFreeList (todo : nat) (sub : list Z) (free : Z) (i : nat) : res (list Z * Z) :=
  match todo with
  | O => Ok (sub, free)
  | S t => do sub' <- set sub i free; initFreeList t sub' (Z.of_nat i) (S i)
  end.

(** PriorityQueue.h:103-116 [_getNext]; new _subarray slots start as 0 (really uninitialised, all
    are overwritten by _initFreeList). *)
Definition getNext (sub : list Z) (free : Z) : res (list Z * Z * nat) :=
  do q <- (if free =? -1 then
             let size := length sub in
             let cap := fbnext_nat size in
             initFreeList (cap - size) (sub ++ repeat 0 (cap - size)) free size
           else Ok (sub, free));
  let r := snd q in
  if r <? 0 then UB else
  do nx <- get (fst q) (Z.to_nat r);
  Ok (fst q, nx, Z.to_nat r).

(** [_subarray[key]] used as an index, PriorityQueue.h:79-82. *)
Definition sub_index (sub : list Z) (key : nat) : res nat :=
  do z <- get sub key;
  if z <? 0 then Ok (length sub) else Ok (Z.to_nat z).

(** PriorityQueue.h:74-75 [Push]; returns the key. *)
Definition ph_Push (dflt : pair) (s : ph) (v : D) : res (ph * nat) :=
  do q <- getNext (ph_sub s) (ph_free s);
  let k := snd q in
  do r <- heap_insert comp_second mf_sub dflt (ph_heap s) (fst (fst q)) (k, v);
  Ok (mkph (fst r) (snd r) (snd (fst q)), k).

(** PriorityQueue.h:79 [Get]: an index outside the heap is undefined. *)
Definition ph_Get (s : ph) (key : nat) : res D :=
  do i <- sub_index (ph_sub s) key;
  do p <- get (ph_heap s) i;
  Ok (snd p).

(** PriorityQueue.h:78 [Pop]. *)
Definition ph_Pop (s : ph) : res (ph * D) :=
  do r <- heap_Pop comp_second mf_sub (ph_heap s) (ph_sub s);
  Ok (mkph (fst (fst r)) (snd (fst r)) (ph_free s), snd (snd r)).

(** PriorityQueue.h:80 [Remove]. *)
Definition ph_Remove (s : ph) (key : nat) : res (ph * bool) :=
  do i <- sub_index (ph_sub s) key;
  do r <- heap_Remove comp_second mf_sub (ph_heap s) (ph_sub s) i;
  Ok (mkph (fst (fst r)) (snd (fst r)) (ph_free s), snd r).

(** PriorityQueue.h:81-82 [Set]. *)
Definition ph_Set (s : ph) (key : nat) (v : D) : res (ph * bool) :=
  do i <- sub_index (ph_sub s) key;
  do r <- heap_Set comp_second mf_sub (ph_heap s) (ph_sub s) i (key, v);
  Ok (mkph (fst (fst r)) (snd (fst r)) (ph_free s), snd r).

(** PriorityQueue.h:83, BinaryHeap.h:64 [Clear]: only the length is reset. *)
Definition ph_Clear (s : ph) : ph := mkph [] (ph_sub s) (ph_free s).

Inductive ph_op := PPush (v : D) | PPop | PRemove (k : nat) | PSet (k : nat) (v : D) | PClear.
(** One public call, PriorityQueue.h:74-82, results dropped. *)
Definition ph_step (dflt : pair) (s : ph) (o : ph_op) : res ph :=
  match o with
  | PPush v => do r <- ph_Push dflt s v; Ok (fst r)
  | PPop => do r <- ph_Pop s; Ok (fst r)
  | PRemove k => do r <- ph_Remove s k; Ok (fst r)
  | PSet k v => do r <- ph_Set s k v; Ok (fst r)
  | PClear => Ok (ph_Clear s)
  end.
End PH.
