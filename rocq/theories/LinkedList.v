(* Model of LinkedList (include/bss-util/LinkedList.h) with and without the pointer to the last node (useLast).  The heap
   of nodes is that of LLBase.v; the items are kept beside it.  A node that is not allocated is None, so using it is UB.
   allocate gives the address fresh; addresses are not used again.  _length is always kept (useSize only hides it). *)
From Coq Require Import List Arith Bool.
From Verif Require Import Common Dll LLBase.
Import ListNotations.

Section LL.
Context {T : Type} (eqb : T -> T -> bool).
(** LinkedList.h 84-85, 109 (_root, _last), 50 (_length); the nodes and their items *)
Record ll := LL { hp : heap; items : nat -> option T; root : ptr; last : ptr; len : nat; fresh : nat }.
(** LinkedList.h 78, 103, 54, 127: a new list *)
Definition new_list : ll := LL (fun _ => None) (fun _ => None) None None 0 0.

(** a write of item *)
Definition put {A} (f : nat -> option A) (a : nat) (v : option A) : nat -> option A := fun x => if x =? a then v else f x.
(** LinkedList.h 140-141, 232-233: Alloc::allocate(1) and the item; the links are not initialised (they are written before they
    are read) *)
Definition allocate (s : ll) (x : T) : ll * nat :=
  (LL (put (hp s) (fresh s) (Some (None, None))) (put (items s) (fresh s) (Some x)) (root s) (last s) (len s) (S (fresh s)), fresh s).
(** LinkedList.h 239: _deleteNode *)
Definition deleteNode (s : ll) (n : ptr) : res ll :=
  match n with
  | Some a => match hp s a with
              | Some _ => Ok (LL (put (hp s) a None) (put (items s) a None) (root s) (last s) (len s) (fresh s))
              | None => UB
              end
  | None => UB
  end.

(** LinkedList.h 80, 106: _add, with and without _last *)
Definition add_ (useLast : bool) (s : ll) (node : ptr) : res ll :=
  if useLast then
    if isnull (root s) then
      do h <- wr_next (hp s) node None;
      do h <- wr_prev h node None;
      Ok (LL h (items s) node node (len s) (fresh s))
    else do (h, l) <- LLAddAfter2 (hp s) node (last s); Ok (LL h (items s) (root s) l (len s) (fresh s))
  else do (h, r) <- LLAdd (hp s) node (root s); Ok (LL h (items s) r (last s) (len s) (fresh s)).
(** LinkedList.h 81, 105: _remove *)
Definition remove_ (useLast : bool) (s : ll) (node : ptr) : res ll :=
  if useLast then do (h, (r, l)) <- LLRemove3 (hp s) node (root s) (last s); Ok (LL h (items s) r l (len s) (fresh s))
  else do (h, r) <- LLRemove2 (hp s) node (root s); Ok (LL h (items s) r (last s) (len s) (fresh s)).

(** LinkedList.h 138-145: Add *)
Definition Add (useLast : bool) (s : ll) (x : T) : res (ll * ptr) :=
  let (s, a) := allocate s x in
  do s <- add_ useLast s (Some a);
  Ok (LL (hp s) (items s) (root s) (last s) (S (len s)) (fresh s), Some a).
(** LinkedList.h 149-161, 230-237: Insert before a node *)
Definition Insert (useLast : bool) (s : ll) (x : T) (target : ptr) : res (ll * ptr) :=
  if isnull target then Add useLast s x
  else
    do tp <- rd_prev (hp s) target;
    let (s, a) := allocate s x in
    do h <- wr_prev (hp s) (Some a) tp;
    do h <- wr_next h (Some a) target;
    do tp <- rd_prev h target;
    do (h, r) <- (if negb (isnull tp) then do h <- wr_next h tp (Some a); Ok (h, root s) else Ok (h, Some a));
    do h <- wr_prev h target (Some a);
    Ok (LL h (items s) r (last s) (S (len s)) (fresh s), Some a).
(** LinkedList.h 147: Insert in front *)
Definition Insert_front (useLast : bool) (s : ll) (x : T) : res (ll * ptr) := Insert useLast s x (root s).
(** LinkedList.h 163-169: Remove *)
Definition Remove (useLast : bool) (s : ll) (node : ptr) : res ll :=
  do s <- remove_ useLast s node;
  do s <- deleteNode s node;
  Ok (LL (hp s) (items s) (root s) (last s) (len s - 1) (fresh s)).
(** LinkedList.h 170-178: Remove giving the neighbour *)
Definition Remove_next (useLast : bool) (s : ll) (node : ptr) (backwards : bool) : res (ll * ptr) :=
  if isnull node then Ok (s, None)
  else
    do r <- (if backwards then rd_prev (hp s) node else rd_next (hp s) node);
    do s <- Remove useLast s node;
    Ok (s, r).
(** LinkedList.h 181-189: the loop of Clear *)
Fixpoint delete_all (fuel : nat) (s : ll) (hold : ptr) : res ll :=
  match fuel with
  | O => OutOfFuel
  | S fuel =>
    if isnull hold then Ok s
    else
      do n <- rd_next (hp s) hold;
      do s <- deleteNode s hold;
      delete_all fuel s n
  end.
(** LinkedList.h 179-192: Clear; bssFill sets the members to zero (that it also clears an allocator with state is not
    modelled) *)
Definition Clear (fuel : nat) (s : ll) : res ll :=
  do s <- delete_all fuel s (root s);
  Ok (LL (hp s) (items s) None None 0 (fresh s)).
(** LinkedList.h 215-221: operator += from another list r; cur is the node of r *)
Fixpoint append (fuel : nat) (useLast : bool) (s r : ll) (cur : ptr) : res ll :=
  match fuel with
  | O => OutOfFuel
  | S fuel =>
    match cur with
    | None => Ok s
    | Some a =>
      match items r a with
      | None => UB
      | Some x =>
        do (s, _) <- Add useLast s x;
        do n <- rd_next (hp r) cur;
        append fuel useLast s r n
      end
    end
  end.
(** LinkedList.h 215-221: operator += from the list itself *)
Fixpoint append_self (fuel : nat) (useLast : bool) (s : ll) (cur : ptr) : res ll :=
  match fuel with
  | O => OutOfFuel
  | S fuel =>
    match cur with
    | None => Ok s
    | Some a =>
      match items s a with
      | None => UB
      | Some x =>
        do (s, _) <- Add useLast s x;
        do n <- rd_next (hp s) cur;
        append_self fuel useLast s n
      end
    end
  end.
(** LinkedList.h 201: operator = from another list *)
Definition assign (fuel : nat) (useLast : bool) (s r : ll) : res ll := do s <- Clear fuel s; append fuel useLast s r (root r).

(** LinkedList.h 63-75 (useLast), 90-101: Item; flip is rootflip or _root *)
Fixpoint find (fuel : nat) (s : ll) (x : T) (from cur : ptr) (backwards : bool) (flip : ptr) : res ptr :=
  match fuel with
  | O => OutOfFuel
  | S fuel =>
    match cur with
    | None => UB
    | Some a =>
      match items s a with
      | None => UB
      | Some y =>
        if eqb y x then Ok cur
        else
          do n <- (if backwards then rd_prev (hp s) cur else rd_next (hp s) cur);
          let n := if isnull n then flip else n in
          if peq n from then Ok None else find fuel s x from n backwards flip
      end
    end
  end.
(** LinkedList.h 63-69 (useLast), 90-94: Item before its loop: where it starts, and where it goes on at an end *)
Definition Item (fuel : nat) (s : ll) (x : T) (from : ptr) (backwards : bool) : res ptr :=
  let from := if isnull from then root s else from in
  find fuel s x from from backwards (if backwards then last s else root s).
End LL.
Arguments ll : clear implicits.
