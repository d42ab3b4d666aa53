(* Model of BinaryHeap (include/bss-util/BinaryHeap.h:19-199) and PriorityHeap
   (include/bss-util/PriorityQueue.h:48-128).
   The heap array is the list of its elements (DynArray, C25). Assertions are not executed
   (release build); values passed by reference are assumed not to alias the array.  The MFunc
   hook is the state-passing parameter [mf]; for BinaryHeap and PriorityQueue it does nothing.
   Reads and writes are bounds checked. *)
From Coq Require Import List ZArith Bool.
From Verif Require Import Common ArraySort.
Import ListNotations.
Local Open Scope Z_scope.

Section Percolate.
Context {T M : Type} (CFunc : T -> T -> Z) (mf : M -> T -> nat -> res M).

(** BinaryHeap.h:34-36. *)
Definition PARENT (i : nat) : nat := ((i - 1) / 2)%nat.
Definition RIGHT (i : nat) : nat := (2 * i + 2)%nat.

(** [_array[k] = x; MFunc(_array[k], k, p)] as in BinaryHeap.h:96-97, 100-101, 119-120, 127-128, 132-133. *)
Definition put (arr : list T) (m : M) (k : nat) (x : T) : res (list T * M) :=
  do arr' <- set arr k x;
  do m' <- mf m x k;
  Ok (arr', m').

(** BinaryHeap.h:83-102 [PercolateUp]; fuel k suffices. *)
Fixpoint PercolateUp (fuel : nat) (arr : list T) (m : M) (k : nat) (val : T) : res (list T * M) :=
  if (0 <? k)%nat then
    let parent := PARENT k in
    do ap <- get arr parent;
    if CFunc val ap <? 0 then put arr m k val
    else
      match fuel with
      | O => OutOfFuel
      | S fuel' => do r <- put arr m k ap; PercolateUp fuel' (fst r) (snd r) parent val
      end
  else put arr m k val.

(** BinaryHeap.h:105-134 [PercolateDown]; [length] is the number of heap elements considered. *)
Fixpoint PercolateDown (fuel : nat) (arr : list T) (m : M) (length k : nat) (val : T) : res (list T * M) :=
  let i := RIGHT k in
  if (i <? length)%nat then
    do l <- get arr (i - 1)%nat;
    do r <- get arr i;
    let i := if 0 <? CFunc l r then (i - 1)%nat else i in
    do ai <- get arr i;
    if 0 <? CFunc val ai then put arr m k val
    else
      match fuel with
      | O => OutOfFuel
      | S fuel' => do q <- put arr m k ai; PercolateDown fuel' (fst q) (snd q) length i val
      end
  else
    let i := (i - 1)%nat in
    if (i <? length)%nat then
      do ai <- get arr i;
      if CFunc val ai <=? 0 then
        do q <- put arr m k ai;
        put (fst q) (snd q) i val
      else put arr m k val
    else put arr m k val.

(** BinaryHeap.h:177-183 [_insert]; [dflt] is the value of [T()]. *)
Definition heap_insert (dflt : T) (arr : list T) (m : M) (val : T) : res (list T * M) :=
  PercolateUp (length arr) (arr ++ [dflt]) m (length arr) val.

(** BinaryHeap.h:72-79 [Remove]. *)
Definition heap_Remove (arr : list T) (m : M) (index : nat) : res (list T * M * bool) :=
  if (length arr <=? index)%nat then Ok (arr, m, false)
  else
    do r <- (if (1 <? length arr)%nat then
               do v <- get arr (length arr - 1)%nat;
               PercolateDown (length arr) arr m (length arr - 1) index v
             else Ok (arr, m));
    do arr' <- remove_at (fst r) (length (fst r) - 1)%nat;
    Ok (arr', snd r, true).

(** BinaryHeap.h:57-61 [Pop]. *)
Definition heap_Pop (arr : list T) (m : M) : res (list T * M * T) :=
  do r <- get arr 0;
  do q <- heap_Remove arr m 0;
  Ok (fst (fst q), snd (fst q), r).

(** BinaryHeap.h:187-198 [_set]. *)
Definition heap_Set (arr : list T) (m : M) (index : nat) (val : T) : res (list T * M * bool) :=
  if (length arr <=? index)%nat then Ok (arr, m, false)
  else
    do old <- get arr index;
    do r <- (if CFunc old val <=? 0 then PercolateUp index arr m index val
             else PercolateDown (length arr) arr m (length arr) index val);
    Ok (fst r, snd r, true).
End Percolate.

Section BinaryHeap.
Context {T : Type} (CFunc : T -> T -> Z).

(** BinaryHeap.h:14-16 [MFUNC_DEFAULT::MFunc]. *)
Definition mf_none (m : unit) (x : T) (i : nat) : res unit := Ok m.

(** BinaryHeap.h:146-155 [Heapify], i counting down from length/2. *)
Fixpoint heapify_loop (src : list T) (length i : nat) : res (list T) :=
  match i with
  | O => Ok src
  | S j =>
      do store <- get src j;
      do r <- PercolateDown CFunc mf_none length src tt length j store;
      heapify_loop (fst r) length j
  end.
Definition Heapify (src : list T) : res (list T) := heapify_loop src (length src) (length src / 2).

(** BinaryHeap.h:163-168, the loop of [HeapSort] with [length] the current value. *)
Fixpoint heapsort_loop (src : list T) (length : nat) : res (list T) :=
  match length with
  | O => Ok src
  | S len =>
      if (1 <? length)%nat then
        do store <- get src len;
        do s0 <- get src 0;
        do src1 <- set src len s0;
        do r <- PercolateDown CFunc mf_none len src1 tt len 0 store;
        heapsort_loop (fst r) len
      else Ok src
  end.
(** BinaryHeap.h:158-169 [HeapSort]. *)
Definition HeapSort (src : list T) : res (list T) :=
  do a <- Heapify src;
  heapsort_loop a (length src).

Inductive heap_op := HInsert (x : T) | HPop | HSet (i : nat) (x : T) | HRemove (i : nat) | HClear.

(** One public call of BinaryHeap/PriorityQueue (BinaryHeap.h:57-79, PriorityQueue.h:28-37). *)
Definition heap_step (dflt : T) (arr : list T) (o : heap_op) : res (list T) :=
  match o with
  | HInsert x => do r <- heap_insert CFunc mf_none dflt arr tt x; Ok (fst r)
  | HPop => do r <- heap_Pop CFunc mf_none arr tt; Ok (fst (fst r))
  | HSet i x => do r <- heap_Set CFunc mf_none arr tt i x; Ok (fst (fst r))
  | HRemove i => do r <- heap_Remove CFunc mf_none arr tt i; Ok (fst (fst r))
  | HClear => Ok []
  end.

(* not in the repository: the caller's loop [while(!h.Empty()) out.push(h.Pop())] over
   BinaryHeap.h:57-62, used to state the drain order *)
Fixpoint drain (fuel : nat) (arr : list T) : res (list T) :=
  match arr with
  | [] => Ok []
  | _ :: _ =>
      match fuel with
      | O => OutOfFuel
      | S f => do r <- heap_Pop CFunc mf_none arr tt;
               do rest <- drain f (fst (fst r));
               Ok (snd r :: rest)
      end
  end.
End BinaryHeap.
