(* Model of Array<T> (include/bss-util/Array.h:266-402), the array whose length is its capacity, over the
   ArrayBase model of DynArray.v (Array.h:101-263).  Simplifications: an item passed to Add or Insert is taken
   by value; sizes do not overflow CType;
   allocation succeeds; BSS_DEBUGFILL and Serialize are not modelled.  The constructor from a Slice
   (Array.h:290) uses slice.begin without calling it, so it cannot be instantiated, and is left out. *)
From Coq Require Import List Arith Bool.
From Verif Require Import Common Growth DynArray.
Import ListNotations.

Section FixedArray.
Context {T : Type} (dflt : T) (m : mode).

(** Array.h:261-262: _array and _capacity; every slot is an element. *)
Definition arr := list (cell T).

(** Array.h:289 [Array(CT capacity)] with 111: fresh storage, then _setLength(_array, 0, _capacity) *)
Definition arr_new (n : nat) : res arr := base_setLength dflt m (repeat Raw n) 0 n.
(** Array.h:277 copy constructor *)
Definition arr_copy (other : arr) : res arr := base_copy m (repeat Raw (length other)) 0 other.
(** Array.h:279-286 constructor from an initializer list; c counts up to the capacity, so the final
    _setCapacity(c, _capacity) is for the same size. *)
Definition arr_list (l : list T) : res arr :=
  do c1 <- copy_construct m (repeat Raw (length l)) 0 (map Val l);
  setCapacity m c1 (length l) (length l).
(** Array.h:291 destructor with 120-123 *)
Definition arr_destroy (s : arr) : res unit := do c <- base_setLength dflt m s (length s) 0; release m c.

(** Array.h:395-401 [_insert] *)
Definition arr_insert (s : arr) (v : T) (index : nat) : res arr :=
  do c1 <- setCapacity m s (length s + 1) (length s);
  base_insert m c1 (length s) index v.
(** Array.h:292-293 [Add]; returns _capacity - 1 of the grown array *)
Definition arr_add (s : arr) (v : T) : res (arr * nat) :=
  do s1 <- arr_insert s v (length s); Ok (s1, length s1 - 1).
(** Array.h:294-298 [Remove] *)
Definition arr_remove (s : arr) (index : nat) : res arr :=
  do c1 <- base_remove m s (length s) index;
  setCapacity m c1 (length s - 1) (length s).
(** Array.h:299 [RemoveLast]; on an empty array the index wraps, which _remove rejects *)
Definition arr_removeLast (s : arr) : res arr := if length s =? 0 then UB else arr_remove s (length s - 1).
(** Array.h:302-308 [Set]; the source does not belong to this array *)
Definition arr_set (s : arr) (src : list (cell T)) : res arr :=
  do c1 <- base_setLength dflt m s (length s) 0;
  do c2 <- setCapacityDiscard m c1 (length src);
  base_copy m c2 0 src.
(** Array.h:312-319 [SetCapacity]; Clear (310) is SetCapacity(0) *)
Definition arr_setCapacity (s : arr) (n : nat) : res arr :=
  if n =? length s then Ok s else
  do c1 <- (if n <? length s then base_setLength dflt m s (length s) n else Ok s);
  do c2 <- setCapacity m c1 n (length s);
  if length s <? n then base_setLength dflt m c2 (length s) n else Ok c2.
(** Array.h:320-326 [SetCapacityDiscard] *)
Definition arr_setCapacityDiscard (s : arr) (n : nat) : res arr :=
  if n =? length s then Ok s else
  do c1 <- base_setLength dflt m s (length s) 0;
  do c2 <- setCapacityDiscard m c1 n;
  base_setLength dflt m c2 0 n.
(** Array.h:343-349 [operator=(const Array&)] from another array *)
Definition arr_assign (s other : arr) : res arr :=
  do c1 <- base_setLength dflt m s (length s) 0;
  do c2 <- setCapacityDiscard m c1 (length other);
  base_copy m c2 0 other.
(** Array.h:350-355 [operator=(Array&&)] from another array with 124-133; the argument is left empty *)
Definition arr_moveAssign (s other : arr) : res (arr * arr) :=
  do c1 <- base_setLength dflt m s (length s) 0;
  do _ <- release m c1;
  Ok (other, []).
(** Array.h:361-367 [operator+=] with another array *)
Definition arr_append (s other : arr) : res arr :=
  do c1 <- setCapacity m s (length s + length other) (length s);
  base_copy m c1 (length s) other.
(** Array.h:368 [operator+]: a copy of this array, then += *)
Definition arr_plus (s other : arr) : res arr := do r <- arr_copy s; arr_append r other.

(** Array.h:328-333: element access *)
Definition arr_at (s : arr) (i : nat) : res (cell T) := get s i.
Definition arr_put (s : arr) (i : nat) (v : T) : res arr :=    (* writing through operator T* of 332 *)
  if is_simple m then set s i (Val v) else assign s i v.

(** The array itself as argument.
    Array.h:343-349: copy._capacity still is the old capacity, copy._array is the new storage, and the
    assertion dest != src of _copy (212) is violated unless there is nothing to copy. *)
Definition arr_assignSelf (s : arr) : res arr :=
  do c1 <- base_setLength dflt m s (length s) 0;
  do c2 <- setCapacityDiscard m c1 (length s);
  if length s =? 0 then Ok c2 else UB.
(** Array.h:350-355 with 124-133: mov._array and mov._capacity are read after the storage was freed, then
    set to zero, which empties this very array *)
Definition arr_moveAssignSelf (s : arr) : res arr :=
  do c1 <- base_setLength dflt m s (length s) 0;
  do _ <- release m c1;
  Ok [].
(** the loop of _copy (217-218) where source and destination share the storage *)
Fixpoint copy_within (c : arr) (at_ i n : nat) : res arr :=
  match n with
  | O => Ok c
  | S n' =>
    do x <- get c i;
    match x with
    | Val v => do c1 <- construct m c at_ v; copy_within c1 (S at_) (S i) n'
    | _ => UB
    end
  end.
(** Array.h:361-367 [a += a]: after _setCapacity add._array and add._capacity are those of the grown
    array, so twice as many elements are copied as there is room for *)
Definition arr_appendSelf (s : arr) : res arr :=
  do c1 <- setCapacity m s (length s + length s) (length s);
  let n := length c1 in
  if n =? 0 then Ok c1 else
  match m with
  | SIMPLE => if length s + n <=? length c1 then memmove c1 (length s) 0 n else UB
  | CONSTRUCT | SAFE => copy_within c1 (length s) 0 n
  | MOVE => UB
  end.

Inductive arr_op :=
| AAdd (v : T) | AInsert (v : T) (i : nat) | ARemove (i : nat) | ARemoveLast | ASetCapacity (n : nat)
| ASetCapacityDiscard (n : nat) | AClear | APut (i : nat) (v : T)
| ASet (src : list T) | AAssign (other : arr) | AMoveAssign (other : arr) | AAppend (other : arr).
Definition arr_step (s : arr) (o : arr_op) : res arr :=
  match o with
  | AAdd v => do r <- arr_add s v; Ok (fst r)
  | AInsert v i => arr_insert s v i
  | ARemove i => arr_remove s i
  | ARemoveLast => arr_removeLast s
  | ASetCapacity n => arr_setCapacity s n
  | ASetCapacityDiscard n => arr_setCapacityDiscard s n
  | AClear => arr_setCapacity s 0
  | APut i v => arr_put s i v
  | ASet src => arr_set s (map Val src)
  | AAssign other => arr_assign s other
  | AMoveAssign other => do r <- arr_moveAssign s other; Ok (fst r)
  | AAppend other => arr_append s other
  end.
End FixedArray.
Arguments arr : clear implicits.
Arguments arr_op : clear implicits.
