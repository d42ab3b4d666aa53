(* Model of DynArray<T> (include/bss-util/DynArray.h:13-164) over ArrayBase (include/bss-util/Array.h:99-263).
   Storage is modelled cell by cell with object lifetimes.  Simplifications: an item passed to Add or Insert
   is taken by value (a reference into the array itself dangles when the array grows, see DESIGN.md); sizes do
   not overflow CType; allocation succeeds; BSS_DEBUGFILL (Array.h:93-97) and Serialize are not modelled. *)
From Coq Require Import List Arith Bool.
From Verif Require Import Common Growth.
Import ListNotations.

(** Array.h:99 [ARRAY_TYPE] *)
Inductive mode := SIMPLE | CONSTRUCT | SAFE | MOVE.
Definition is_simple (m : mode) : bool := match m with SIMPLE => true | _ => false end.

Section DynArray.
Context {T : Type} (dflt : T) (m : mode).

(** One T-sized slot of storage: raw memory, an object, or an object that was moved from. *)
Inductive cell := Raw | Val (v : T) | Husk.
Definition is_raw (c : cell) : bool := match c with Raw => true | _ => false end.

(** Placement new: over a living object it would leak, which counts as an error unless elements are
    plain data (ARRAY_SIMPLE). *)
Definition construct (cells : list cell) (i : nat) (v : T) : res (list cell) :=
  do c <- get cells i;
  if is_simple m || is_raw c then set cells i (Val v) else UB.
(** Destructor call: only on an object. *)
Definition destroy (cells : list cell) (i : nat) : res (list cell) :=
  do c <- get cells i;
  if is_raw c then UB else set cells i Raw.
(** Assignment to an existing object. *)
Definition assign (cells : list cell) (i : nat) (v : T) : res (list cell) :=
  do c <- get cells i;
  if is_raw c then UB else set cells i (Val v).
(** Moving out of an object leaves a husk. *)
Definition move_out (cells : list cell) (i : nat) : res (T * list cell) :=
  do c <- get cells i;
  match c with
  | Val v => do cells' <- set cells i Husk; Ok (v, cells')
  | _ => UB
  end.

(** for(i = from; i < from + n; ++i) dest[i].~T(); *)
Fixpoint destroy_range (cells : list cell) (from n : nat) : res (list cell) :=
  match n with
  | O => Ok cells
  | S n' => do c1 <- destroy cells from; destroy_range c1 (S from) n'
  end.
(** for(i = from; i < from + n; ++i) new(dest + i) T(); *)
Fixpoint construct_range (cells : list cell) (from n : nat) : res (list cell) :=
  match n with
  | O => Ok cells
  | S n' => do c1 <- construct cells from dflt; construct_range c1 (S from) n'
  end.
(** Array.h:149-163 [_setLength] *)
Definition base_setLength (cells : list cell) (old n : nat) : res (list cell) :=
  if is_simple m then Ok cells
  else
    do c1 <- destroy_range cells n (old - n);
    construct_range c1 old (n - old).

(** memmove of n slots: the bytes are copied. *)
Definition memmove (cells : list cell) (dst src n : nat) : res (list cell) :=
  if (dst + n <=? length cells) && (src + n <=? length cells)
  then Ok (firstn dst cells ++ firstn n (skipn src cells) ++ skipn (dst + n) cells) else UB.

(** Releasing storage that still holds objects would leak them. *)
Definition release (cells : list cell) : res unit :=
  if is_simple m || forallb is_raw cells then Ok tt else UB.

(** Array.h:200-205, the loop of [_copyMove]: new(dest + i) T(std::move(src[i])). *)
Fixpoint move_construct (dest src : list cell) (i n : nat) : res (list cell * list cell) :=
  match n with
  | O => Ok (dest, src)
  | S n' =>
    do (v, src1) <- move_out src i;
    do dest1 <- construct dest i v;
    move_construct dest1 src1 (S i) n'
  end.

(** Array.h:165-178 [_setCapacity(capacity, length)]; for ARRAY_SIMPLE and ARRAY_CONSTRUCT it is
    Array.h:136-141 with the reallocating _getAlloc of 180-189. *)
Definition setCapacity (cells : list cell) (capacity len : nat) : res (list cell) :=
  match m with
  | SIMPLE | CONSTRUCT =>
    do _ <- release (skipn capacity cells);
    Ok (firstn capacity cells ++ repeat Raw (capacity - length cells))
  | SAFE | MOVE =>
    let n := repeat Raw capacity in
    if capacity =? 0 then do _ <- release cells; Ok n
    else
      let k := Nat.min len capacity in
      do (n1, old1) <- move_construct n cells 0 k;
      do old2 <- destroy_range old1 0 k;
      do _ <- release old2;
      Ok n1
  end.
(** Array.h:142-147 [_setCapacityDiscard] *)
Definition setCapacityDiscard (cells : list cell) (capacity : nat) : res (list cell) :=
  do _ <- release cells; Ok (repeat Raw capacity).

(** Array.h:207-222 [_copy] into dest + at; [src] holds the n slots copied from another array. *)
Fixpoint copy_construct (cells : list cell) (at_ : nat) (src : list cell) : res (list cell) :=
  match src with
  | [] => Ok cells
  | c :: t => match c with
              | Val v => do c1 <- construct cells at_ v; copy_construct c1 (S at_) t
              | _ => UB
              end
  end.
Definition base_copy (cells : list cell) (at_ : nat) (src : list cell) : res (list cell) :=
  match src with
  | [] => Ok cells
  | _ =>
    match m with
    | SIMPLE => if at_ + length src <=? length cells
                then Ok (firstn at_ cells ++ src ++ skipn (at_ + length src) cells) else UB
    | CONSTRUCT | SAFE => copy_construct cells at_ src
    | MOVE => UB
    end
  end.

(** std::move_backward(dest + index, dest + k, dest + k + 1): from the top down *)
Fixpoint move_backward (cells : list cell) (index k : nat) : res (list cell) :=
  match k with
  | O => Ok cells
  | S k' =>
    if index <? k then
      do (v, c1) <- move_out cells k';
      do c2 <- assign c1 k v;
      move_backward c2 index k'
    else Ok cells
  end.
(** std::move(dest + from, dest + from + n, dest + from - 1): from the bottom up *)
Fixpoint move_forward (cells : list cell) (from n : nat) : res (list cell) :=
  match n with
  | O => Ok cells
  | S n' =>
    do (v, c1) <- move_out cells from;
    do c2 <- assign c1 (from - 1) v;
    move_forward c2 (S from) n'
  end.

(** Array.h:223-244 [_insert].  In the memmove form the object is relocated: the slot it left is raw
    again (for plain data the stale bytes remain until overwritten). *)
Definition base_insert (cells : list cell) (len index : nat) (item : T) : res (list cell) :=
  if negb (index <=? len) then UB else
  match m with
  | SIMPLE | CONSTRUCT =>
    do top <- get cells len;
    if negb (is_simple m || is_raw top) then UB else
    do c1 <- memmove cells (index + 1) index (len - index);
    do c2 <- (if is_simple m then Ok c1 else set c1 index Raw);
    construct c2 index item
  | SAFE | MOVE =>
    if index <? len then
      do (v, c1) <- move_out cells (len - 1);
      do c2 <- construct c1 len v;
      do c3 <- move_backward c2 index (len - 1);
      assign c3 index item
    else construct cells index item
  end.

(** Array.h:245-259 [_remove] *)
Definition base_remove (cells : list cell) (len index : nat) : res (list cell) :=
  if negb (index <? len) then UB else
  match m with
  | SAFE | MOVE =>
    do c1 <- move_forward cells (index + 1) (len - (index + 1));
    destroy c1 (len - 1)
  | CONSTRUCT =>
    do c1 <- destroy cells index;
    do c2 <- memmove c1 index (index + 1) (len - index - 1);
    set c2 (len - 1) Raw
  | SIMPLE => memmove cells index (index + 1) (len - index - 1)
  end.

(** DynArray.h:18-19,163: the storage (_capacity slots at _array) and _length. *)
Record dyn := { cells : list cell; len : nat }.
(** DynArray.h:32-33 constructors *)
Definition da_new (capacity : nat) : dyn := {| cells := repeat Raw capacity; len := 0 |}.

(** DynArray.h:156-161 [_checkSize]; the assert at the end is guaranteed by T_FBNEXT growing. *)
Definition checkSize (s : dyn) : res dyn :=
  if length (cells s) <=? len s then
    do c <- setCapacity (cells s) (fbnext_nat (length (cells s))) (len s);
    Ok {| cells := c; len := len s |}
  else Ok s.
(** DynArray.h:41-44 [Add], [AddConstruct]; returns the index *)
Definition Add (s : dyn) (v : T) : res (dyn * nat) :=
  do s1 <- checkSize s;
  do c <- construct (cells s1) (len s1) v;
  Ok ({| cells := c; len := len s1 + 1 |}, len s1).
(** DynArray.h:45-49 [Remove] *)
Definition Remove (s : dyn) (index : nat) : res dyn :=
  do c <- base_remove (cells s) (len s) index;
  Ok {| cells := c; len := len s - 1 |}.
(** DynArray.h:50 [RemoveLast]; on an empty array the index wraps, which Remove rejects *)
Definition RemoveLast (s : dyn) : res dyn := if len s =? 0 then UB else Remove s (len s - 1).
(** DynArray.h:51-52,150-155 [Insert], [_insert] *)
Definition Insert (s : dyn) (v : T) (index : nat) : res dyn :=
  do s1 <- checkSize s;
  do c <- base_insert (cells s1) (len s1) index v;
  Ok {| cells := c; len := len s1 + 1 |}.
(** DynArray.h:54-61 [Set]; the source does not belong to this array. *)
Definition Set_ (s : dyn) (src : list cell) : res dyn :=
  do c1 <- base_setLength (cells s) (len s) 0;
  do c2 <- (if length c1 <? length src then setCapacityDiscard c1 (length src) else Ok c1);
  do c3 <- base_copy c2 0 src;
  Ok {| cells := c3; len := length src |}.
(** DynArray.h:64-70 [SetLength]; Clear (63) is SetLength(0). *)
Definition SetLength (s : dyn) (n : nat) : res dyn :=
  do c1 <- (if n <? len s then base_setLength (cells s) (len s) n else Ok (cells s));
  do c2 <- (if length c1 <? n then setCapacity c1 n (len s) else Ok c1);
  do c3 <- (if len s <? n then base_setLength c2 (len s) n else Ok c2);
  Ok {| cells := c3; len := n |}.
(** DynArray.h:71 [SetCapacity] *)
Definition SetCapacity (s : dyn) (n : nat) : res dyn :=
  if length (cells s) <? n then
    do c <- setCapacity (cells s) n (len s); Ok {| cells := c; len := len s |}
  else Ok s.
(** DynArray.h:99-107 [operator=(const DynArray&)] from another array *)
Definition Assign (s other : dyn) : res dyn :=
  do c1 <- base_setLength (cells s) (len s) 0;
  do c2 <- (if length c1 <? len other then setCapacityDiscard c1 (length (cells other)) else Ok c1);
  do c3 <- base_copy c2 0 (firstn (len other) (cells other));
  Ok {| cells := c3; len := len other |}.
(** DynArray.h:108 [operator=(DynArray&&)] over Array.h:124-133; the argument is left empty. *)
Definition MoveAssign (s other : dyn) : res (dyn * dyn) :=
  do c1 <- base_setLength (cells s) (len s) 0;
  do _ <- release c1;
  Ok (other, da_new 0).
(** DynArray.h:110-116 [operator+=] *)
Definition Append (s other : dyn) : res dyn :=
  do c1 <- setCapacity (cells s) (len s + len other) (len s);
  do c2 <- base_copy c1 (len s) (firstn (len other) (cells other));
  Ok {| cells := c2; len := len s + len other |}.
(** The same with the array itself as argument: add._array is then the new storage. *)
Definition AppendSelf (s : dyn) : res dyn :=
  do c1 <- setCapacity (cells s) (len s + len s) (len s);
  do c2 <- base_copy c1 (len s) (firstn (len s) c1);
  Ok {| cells := c2; len := len s + len s |}.
(** DynArray.h:117-124 [operator+] *)
Definition Plus (s other : dyn) : res dyn :=
  let r := repeat Raw (len s + len other) in
  do c1 <- base_copy r 0 (firstn (len s) (cells s));
  do c2 <- base_copy c1 (len s) (firstn (len other) (cells other));
  Ok {| cells := c2; len := len s + len other |}.
(** DynArray.h:27 copy constructor *)
Definition Copy (other : dyn) : res dyn :=
  do c <- base_copy (repeat Raw (length (cells other))) 0 (firstn (len other) (cells other));
  Ok {| cells := c; len := len other |}.
(** DynArray.h:40 destructor with Array.h:120-123 *)
Definition Destroy (s : dyn) : res unit :=
  do c <- base_setLength (cells s) (len s) 0; release c.

(** Element access DynArray.h:84-88: a raw slot of plain data is an indeterminate value *)
Definition At (s : dyn) (i : nat) : res cell := if i <? len s then get (cells s) i else UB.
(** Writing through the reference DynArray.h:84-87 *)
Definition Put (s : dyn) (i : nat) (v : T) : res dyn :=
  if i <? len s then
    do c <- (if is_simple m then set (cells s) i (Val v) else assign (cells s) i v);
    Ok {| cells := c; len := len s |}
  else UB.

(** The public mutators as one step *)
Inductive da_op :=
| OAdd (v : T) | OInsert (v : T) (i : nat) | ORemove (i : nat) | ORemoveLast | OSetLength (n : nat)
| OSetCapacity (n : nat) | OClear | OPut (i : nat) (v : T)
| OSet (src : list T) | OAssign (other : dyn) | OMoveAssign (other : dyn) | OAppend (other : dyn)
| OAppendSelf.
Definition da_step (s : dyn) (o : da_op) : res dyn :=
  match o with
  | OAdd v => do r <- Add s v; Ok (fst r)
  | OInsert v i => Insert s v i
  | ORemove i => Remove s i
  | ORemoveLast => RemoveLast s
  | OSetLength n => SetLength s n
  | OSetCapacity n => SetCapacity s n
  | OClear => SetLength s 0
  | OPut i v => Put s i v
  | OSet src => Set_ s (map Val src)
  | OAssign other => Assign s other
  | OMoveAssign other => do r <- MoveAssign s other; Ok (fst r)
  | OAppend other => Append s other
  | OAppendSelf => AppendSelf s
  end.
End DynArray.
Arguments cell : clear implicits.
Arguments dyn : clear implicits.
Arguments da_op : clear implicits.
