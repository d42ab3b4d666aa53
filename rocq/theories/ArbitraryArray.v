(* Model of ArbitraryArray (include/bss-util/DynArray.h:339-449): an array of elements whose size is chosen at run time.  A byte is
   Some b, or None while it has not been written.  CT does not overflow; the allocator does not fail. *)
From Coq Require Import List Arith ZArith Bool.
From Verif Require Import Common.
Import ListNotations.

(** DynArray.h:446-447, Array.h:257-258: the bytes (their number is _capacity; none: the null pointer), _length, _element *)
Record arb := Arb { bytes : list (option Z); len : nat; el : nat }.
Definition cap (s : arb) : nat := length (bytes s).

(** memcpy of src to offset o: undefined past the end *)
Definition copy_to (d : list (option Z)) (o : nat) (src : list (option Z)) : res (list (option Z)) :=
  if o + length src <=? length d then Ok (firstn o d ++ src ++ skipn (o + length src) d) else UB.
(** memcpy from offset o, n bytes: undefined past the end *)
Definition copy_from (d : list (option Z)) (o n : nat) : res (list (option Z)) :=
  if o + n <=? length d then Ok (firstn n (skipn o d)) else UB.
(** defines.h:57 T_FBNEXT *)
Definition fbnext (x : nat) : nat := x + 1 + x / 2 + x / 8 - x / 128.
(** Array.h:135-140, 180-189 [_setCapacity]: realloc keeps the bytes that fit *)
Definition set_capacity (d : list (option Z)) (c : nat) : list (option Z) := firstn c d ++ repeat None (c - length d).
(** Array.h:141-146 [_setCapacityDiscard] *)
Definition set_capacity_discard (c : nat) : list (option Z) := repeat None c.

(** DynArray.h:353 the constructor *)
Definition new (size element : nat) : arb := Arb (set_capacity_discard (size * element)) 0 element.
(** DynArray.h:354-360 [Add]: item is the object representation of the T *)
Definition Add (s : arb) (item : list (option Z)) : res arb :=
  let d := if cap s <=? len s * el s then set_capacity (bytes s) (fbnext (len s) * el s) else bytes s in
  do d' <- copy_to d (len s * el s) (firstn (el s) item);
  Ok (Arb d' (len s + 1) (el s)).
(** DynArray.h:361-367 [Remove]: the size of the memmove must not be negative (it is unsigned); --_length must not wrap *)
Definition Remove (s : arb) (index : nat) : res arb :=
  let i := index * el s in
  if (cap s <? i + el s) || (len s =? 0) then UB
  else
    do t <- copy_from (bytes s) (i + el s) (cap s - i - el s);
    do d <- copy_to (bytes s) i t;
    Ok (Arb d (len s - 1) (el s)).
(** DynArray.h:368 [RemoveLast] *)
Definition RemoveLast (s : arb) : res arb := if len s =? 0 then UB else Ok (Arb (bytes s) (len s - 1) (el s)).
(** DynArray.h:369-382 [SetElement(newarray, element, num)] for an array other than its own; the array has the bytes src *)
Definition SetData (s : arb) (src : list (option Z)) (element num : nat) : res arb :=
  let d := if cap s <? num * element then set_capacity_discard (num * element) else bytes s in
  match d with
  | [] => Ok (Arb d num element)
  | _ => do t <- copy_from src 0 (element * num); do d' <- copy_to d 0 t; Ok (Arb d' num element)
  end.
(** DynArray.h:400-401: the loop that copies m bytes of each element, from i on *)
Fixpoint restride (n : nat) (src : list (option Z)) (olde newe m i : nat) (d : list (option Z)) : res (list (option Z)) :=
  match n with
  | 0 => Ok d
  | S n => do t <- copy_from src (i * olde) m; do d' <- copy_to d (i * newe) t; restride n src olde newe m (S i) d'
  end.
(** DynArray.h:389-408 [SetElement(element)] *)
Definition SetElement (s : arb) (element : nat) : res arb :=
  if element =? el s then Ok s
  else
    do d <- restride (len s) (bytes s) (el s) element (min element (el s)) 0 (repeat (Some 0%Z) (element * len s));
    Ok (Arb d (len s) element).
(** DynArray.h:411 [Clear] *)
Definition Clear (s : arb) : arb := Arb (bytes s) 0 (el s).
(** DynArray.h:412 [SetLength] *)
Definition SetLength (s : arb) (n : nat) : arb :=
  Arb (if cap s <? n * el s then set_capacity (bytes s) (n * el s) else bytes s) n (el s).
(** DynArray.h:425-426, 423-424 [Get]: the bytes of the element, read as a T of _element bytes *)
Definition Get (s : arb) (i : nat) : res (list (option Z)) := if i <? len s then copy_from (bytes s) (i * el s) (el s) else UB.
(** DynArray.h:351 the copy constructor *)
Definition copy_ctor (s : arb) : res arb :=
  do t <- copy_from (bytes s) 0 (len s * el s);
  do d <- copy_to (set_capacity_discard (cap s)) 0 t;
  Ok (Arb d (len s) (el s)).
(** DynArray.h:430-437 copy assignment from another array *)
Definition copy_assign (dst s : arb) : res arb :=
  do t <- copy_from (bytes s) 0 (cap s);
  do d <- copy_to (set_capacity_discard (cap s)) 0 t;
  Ok (Arb d (len s) (el s)).
(** DynArray.h:430-437 with copy being *this: the memory is given back before it is copied (from itself to itself) *)
Definition self_assign (s : arb) : arb := Arb (set_capacity_discard (cap s)) (len s) (el s).
(** DynArray.h:352, 438-444, Array.h:109-113, 123-132: moves: the target and the source *)
Definition move (s : arb) : arb * arb := (s, Arb [] (len s) (el s)).

(** calls *)
Inductive op :=
| OpAdd (item : list (option Z)) | OpRemove (i : nat) | OpRemoveLast | OpData (src : list (option Z)) (element num : nat)
| OpElement (element : nat) | OpClear | OpLength (n : nat) | OpCopy | OpAssign (dst : arb).
Definition step (s : arb) (o : op) : res arb :=
  match o with
  | OpAdd item => Add s item
  | OpRemove i => Remove s i
  | OpRemoveLast => RemoveLast s
  | OpData src e n => SetData s src e n
  | OpElement e => SetElement s e
  | OpClear => Ok (Clear s)
  | OpLength n => Ok (SetLength s n)
  | OpCopy => copy_ctor s
  | OpAssign dst => copy_assign dst s
  end.
Fixpoint run (s : arb) (l : list op) : res arb :=
  match l with [] => Ok s | o :: l => do s' <- step s o; run s' l end.
