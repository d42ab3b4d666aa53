(* Model of CompactArray<T, I> (include/bss-util/CompactArray.h).  The top bit of _length (COMPACTFLAG, lines 19-20)
   says which member of the union (159-168) is in use; it is modelled by the constructor of [store], so lengths stay
   below the flag.  Elements are plain data; None is an uninitialised element.  Allocation succeeds. *)
From Coq Require Import List Arith Bool.
From Verif Require Import Common Growth.
Import ListNotations.

Section Compact.
Context {T : Type} (I : nat).
Notation cell := (option T).

(** CompactArray.h:159-168: _internal[I], or _array with its _capacity slots *)
Inductive store := Inline (a : list cell) | Heap (a : list cell).
(** ... and _length without the flag (170) *)
Record compact := { st : store; len : nat }.
(** CompactArray.h:40 *)
Definition new_compact : compact := {| st := Inline (repeat None I); len := 0 |}.

(** CompactArray.h:116-119 [begin] *)
Definition begin (s : compact) : list cell := match st s with Inline a | Heap a => a end.
Definition with_cells (s : compact) (a : list cell) (n : nat) : compact :=
  {| st := match st s with Inline _ => Inline a | Heap _ => Heap a end; len := n |}.
(** CompactArray.h:111 [Capacity] *)
Definition capacity (s : compact) : nat := match st s with Inline _ => I | Heap a => length a end.

(** memcpy/memmove of n slots of [src] into [dst] at [at_] *)
Definition blit (dst : list cell) (at_ : nat) (src : list cell) : res (list cell) :=
  if at_ + length src <=? length dst then Ok (firstn at_ dst ++ src ++ skipn (at_ + length src) dst) else UB.
Definition slice (a : list cell) (from n : nat) : res (list cell) :=
  if from + n <=? length a then Ok (firstn n (skipn from a)) else UB.

(** CompactArray.h:86-109 [SetCapacity]; allocate with the old pointer reallocates, keeping the common prefix *)
Definition setCapacity (s : compact) (cap : nat) : res compact :=
  if I <? cap then
    let cap := fbnext_nat cap in
    match st s with
    | Inline a =>
      do old <- slice a 0 (len s);
      do h <- blit (repeat None cap) 0 old;
      Ok {| st := Heap h; len := len s |}
    | Heap a => Ok {| st := Heap (firstn cap a ++ repeat None (cap - length a)); len := len s |}
    end
  else Ok s.

(** CompactArray.h:56-61 [Add] *)
Definition Add (s : compact) (item : T) : res compact :=
  do s1 <- setCapacity s (len s + 1);
  do a <- set (begin s1) (len s1) (Some item);
  Ok (with_cells s1 a (len s1 + 1)).
(** CompactArray.h:62 [Remove] with RemoveRangeSimple, Array.h:86-91 *)
Definition Remove (s : compact) (index : nat) : res compact :=
  if negb (index <? len s) then UB else
  do m <- slice (begin s) (index + 1) (len s - index - 1);
  do a <- blit (begin s) index m;
  Ok (with_cells s a (len s - 1)).
(** CompactArray.h:64-68 [Insert] with InsertRangeSimple, Array.h:78-84 *)
Definition Insert (s : compact) (item : T) (index : nat) : res compact :=
  do s1 <- setCapacity s (len s + 1);
  if negb (index <=? len s1) then UB else
  do m <- slice (begin s1) index (len s1 - index);
  do a <- blit (begin s1) (index + 1) m;
  do a1 <- blit a index [Some item];
  Ok (with_cells s1 a1 (len s1 + 1)).
(** CompactArray.h:77-85 [SetLength] (without BSS_DEBUG) *)
Definition SetLength (s : compact) (n : nat) : res compact :=
  do s1 <- setCapacity s n;
  Ok {| st := st s1; len := n |}.
(** CompactArray.h:70-74 [Set] *)
Definition Set_ (s : compact) (p : list T) : res compact :=
  do s1 <- SetLength s (length p);
  do a <- blit (begin s1) 0 (map Some p);
  Ok (with_cells s1 a (len s1)).
(** CompactArray.h:76 [Clear] *)
Definition Clear (s : compact) : res compact := Ok {| st := st s; len := 0 |}.
(** CompactArray.h:123-128 [operator=](const CompactArray&); the copy constructor (23-27) is this on a new array *)
Definition Assign (s other : compact) : res compact :=
  do s1 <- SetLength s (len other);
  do m <- slice (begin other) 0 (len other);
  do a <- blit (begin s1) 0 m;
  Ok (with_cells s1 a (len s1)).
(** CompactArray.h:129-137 [operator=](CompactArray&&) *)
Definition MoveAssign (s other : compact) : res compact := Ok other.
(** element access through begin(), CompactArray.h:121-122, and assignment through it *)
Definition At (s : compact) (i : nat) : res cell := if i <? len s then get (begin s) i else UB.
Definition Put (s : compact) (i : nat) (v : T) : res compact :=
  if negb (i <? len s) then UB else
  do a <- set (begin s) i (Some v); Ok (with_cells s a (len s)).

(** CompactArray.h:48-49: the loop writes to _array, whichever member of the union is in use *)
Fixpoint init_loop (s : compact) (j : nat) (l : list T) : res compact :=
  match l with
  | [] => Ok s
  | v :: t =>
    match st s with
    | Inline _ => UB
    | Heap a => do a1 <- set a j (Some v); init_loop {| st := Heap a1; len := len s |} (S j) t
    end
  end.
(** CompactArray.h:41-50: construction from an initializer list *)
Definition from_list (l : list T) : res compact :=
  do s <- SetLength new_compact (length l); init_loop s 0 l.

Inductive c_op := OAdd (v : T) | OInsert (v : T) (i : nat) | ORemove (i : nat) | OSetLength (n : nat) | OClear | OSet (p : list T)
  | OPut (i : nat) (v : T) | OAssign (o : compact) | OMoveAssign (o : compact).
Definition c_step (s : compact) (o : c_op) : res compact :=
  match o with
  | OAdd v => Add s v
  | OInsert v i => Insert s v i
  | ORemove i => Remove s i
  | OSetLength n => SetLength s n
  | OClear => Clear s
  | OSet p => Set_ s p
  | OPut i v => Put s i v
  | OAssign o => Assign s o
  | OMoveAssign o => MoveAssign s o
  end.
End Compact.
Arguments compact T : clear implicits.
Arguments c_op T : clear implicits.
