(* Model of LinkedArray (include/bss-util/LinkedArray.h).  Indices of type CT_ are [option nat], None is (CT_)-1; they are
   unbounded, so the capacity never reaches the sentinel.  Elements are plain values passed by value: `const T&` arguments
   that alias an element of the array dangle when the array grows, as in DynArray.  Allocation succeeds. *)
From Coq Require Import List Arith Bool.
From Verif Require Import Common Growth Dll.
Import ListNotations.

Section LinkedArray.
Context {T : Type}.

(** LinkedArray.h:12-18 [LINKEDNODE] *)
Record lnode := { val : T; next : ptr; prev : ptr }.
(** LinkedArray.h:185-191: _ref (its Capacity() is the length of nodes), _length, _start, _end, _freelist *)
Record larr := { nodes : list lnode; len : nat; start : ptr; end_ : ptr; freelist : ptr }.

(** fresh memory holds arbitrary nodes *)
Context (fresh : lnode).

(** _ref[p]; (CT_)-1 is outside every array *)
Definition rd (nd : list lnode) (p : ptr) : res lnode := match p with Some a => get nd a | None => UB end.
Definition wr (nd : list lnode) (p : ptr) (n : lnode) : res (list lnode) := match p with Some a => set nd a n | None => UB end.
(** _ref[p].next = v and _ref[p].prev = v *)
Definition wr_next (nd : list lnode) (p v : ptr) : res (list lnode) :=
  do n <- rd nd p; wr nd p {| val := val n; next := v; prev := prev n |}.
Definition wr_prev (nd : list lnode) (p v : ptr) : res (list lnode) :=
  do n <- rd nd p; wr nd p {| val := val n; next := next n; prev := v |}.

(** LinkedArray.h:164-168 [_addFreeList] *)
Definition addFreeList (nd : list lnode) (free : ptr) (index : nat) : res (list lnode * ptr) :=
  do nd <- wr_next nd (Some index) free; Ok (nd, Some index).
(** LinkedArray.h:169-174 [_setupChunk], with k = _ref.Capacity() - start iterations, i running down *)
Fixpoint setupChunk (nd : list lnode) (free : ptr) (start k : nat) : res (list lnode * ptr) :=
  match k with
  | 0 => Ok (nd, free)
  | S j => do (nd, free) <- addFreeList nd free (start + j); setupChunk nd free start j
  end.
(** LinkedArray.h:30 and 35: constructors; the default constructor is capacity 1 *)
Definition new_larr (size : nat) : res larr :=
  do (nd, free) <- setupChunk (repeat fresh size) None 0 size;
  Ok {| nodes := nd; len := 0; start := None; end_ := None; freelist := free |}.
(** LinkedArray.h:59-67 [SetCapacity], with Array::SetCapacity keeping the old nodes *)
Definition SetCapacity (s : larr) (size : nat) : res larr :=
  if size <? length (nodes s) then Ok s else
  let hold := length (nodes s) in
  let nd := nodes s ++ repeat fresh (size - hold) in
  do (nd, free) <- setupChunk nd (freelist s) hold (size - hold);
  Ok {| nodes := nd; len := len s; start := start s; end_ := end_ s; freelist := free |}.
(** LinkedArray.h:175-183 [_insertPrep] *)
Definition insertPrep (s : larr) : res (larr * ptr) :=
  do s <- match freelist s with None => SetCapacity s (fbnext_nat (length (nodes s))) | Some _ => Ok s end;
  let cur := freelist s in
  do n <- rd (nodes s) cur;
  Ok ({| nodes := nodes s; len := len s; start := start s; end_ := end_ s; freelist := next n |}, cur).
(** LinkedArray.h:129-145 [_insertAfter] *)
Definition InsertAfter (s : larr) (item : T) (index : ptr) : res (larr * ptr) :=
  do (s, cur) <- insertPrep s;
  let pprev := match index with None => end_ s | Some _ => index end in
  do nd <- wr (nodes s) cur {| val := item; next := None; prev := pprev |};
  do (nd, st) <- match pprev with
    | None => Ok (nd, cur)
    | Some _ => do q <- rd nd pprev; do nd <- wr_next nd cur (next q); do nd <- wr_next nd pprev cur; Ok (nd, start s)
    end;
  do pcur <- rd nd cur;
  do (nd, en) <- match next pcur with
    | None => Ok (nd, cur)
    | Some _ => do nd <- wr_prev nd (next pcur) cur; Ok (nd, end_ s)
    end;
  Ok ({| nodes := nd; len := len s + 1; start := st; end_ := en; freelist := freelist s |}, cur).
(** LinkedArray.h:146-163 [_insertBefore] *)
Definition InsertBefore (s : larr) (item : T) (index : ptr) : res (larr * ptr) :=
  do (s, cur) <- insertPrep s;
  do nd <- wr (nodes s) cur {| val := item; next := index; prev := match index with None => end_ s | Some _ => None end |};
  do (nd, en) <- match index with
    | None => Ok (nd, cur)
    | Some _ => do q <- rd nd index; do nd <- wr_prev nd cur (prev q); do nd <- wr_prev nd index cur; Ok (nd, end_ s)
    end;
  do pcur <- rd nd cur;
  do (nd, st) <- match prev pcur with
    | None => Ok (nd, cur)
    | Some _ => do nd <- wr_next nd (prev pcur) cur; Ok (nd, start s)
    end;
  Ok ({| nodes := nd; len := len s + 1; start := st; end_ := en; freelist := freelist s |}, cur).
(** LinkedArray.h:37-38 [Add] *)
Definition Add (s : larr) (item : T) : res (larr * ptr) := InsertAfter s item (end_ s).
(** LinkedArray.h:43-56 [Remove] *)
Definition Remove (s : larr) (index : nat) : res (larr * T) :=
  if negb (index <? length (nodes s)) then UB else
  do pcur <- rd (nodes s) (Some index);
  do (nd, en) <- match next pcur with
    | None => Ok (nodes s, prev pcur)
    | Some _ => do nd <- wr_prev (nodes s) (next pcur) (prev pcur); Ok (nd, end_ s)
    end;
  do pcur <- rd nd (Some index);
  do (nd, st) <- match prev pcur with
    | None => Ok (nd, next pcur)
    | Some _ => do nd <- wr_next nd (prev pcur) (next pcur); Ok (nd, start s)
    end;
  do (nd, free) <- addFreeList nd (freelist s) index;
  do pcur <- rd nd (Some index);
  Ok ({| nodes := nd; len := len s - 1; start := st; end_ := en; freelist := free |}, val pcur).
(** LinkedArray.h:68-73 [Clear] *)
Definition Clear (s : larr) : res larr :=
  do (nd, free) <- setupChunk (nodes s) None 0 (length (nodes s));
  Ok {| nodes := nd; len := 0; start := None; end_ := None; freelist := free |}.
(** LinkedArray.h:74-77 [Next], [Prev], [Front], [Back] *)
Definition Next (s : larr) (ref : nat) : res ptr := do n <- rd (nodes s) (Some ref); Ok (next n).
Definition Prev (s : larr) (ref : nat) : res ptr := do n <- rd (nodes s) (Some ref); Ok (prev n).
Definition Front (s : larr) : ptr := start s.
Definition Back (s : larr) : ptr := end_ s.
(** LinkedArray.h:82-86 [GetItem], and assignment through the reference it returns *)
Definition GetItem (s : larr) (index : nat) : res T := do n <- rd (nodes s) (Some index); Ok (val n).
Definition Put (s : larr) (index : nat) (v : T) : res larr :=
  do n <- rd (nodes s) (Some index);
  do nd <- wr (nodes s) (Some index) {| val := v; next := next n; prev := prev n |};
  Ok {| nodes := nd; len := len s; start := start s; end_ := end_ s; freelist := freelist s |}.
(** LinkedArray.h:80 [operator=](const LinkedArray&), all members copied; the copy constructor (31) is the same *)
Definition Assign (s other : larr) : res larr := Ok other.

Inductive l_op := OAdd (v : T) | OInsertAfter (v : T) (i : ptr) | OInsertBefore (v : T) (i : ptr) | ORemove (i : nat)
  | OPut (i : nat) (v : T) | OClear | OSetCapacity (n : nat) | OAssign (o : larr).
Inductive l_out := RNone | RIndex (p : ptr) | RVal (v : T).
Definition l_step (s : larr) (o : l_op) : res (larr * l_out) :=
  match o with
  | OAdd v => do (s, p) <- Add s v; Ok (s, RIndex p)
  | OInsertAfter v i => do (s, p) <- InsertAfter s v i; Ok (s, RIndex p)
  | OInsertBefore v i => do (s, p) <- InsertBefore s v i; Ok (s, RIndex p)
  | ORemove i => do (s, v) <- Remove s i; Ok (s, RVal v)
  | OPut i v => do s <- Put s i v; Ok (s, RNone)
  | OClear => do s <- Clear s; Ok (s, RNone)
  | OSetCapacity n => do s <- SetCapacity s n; Ok (s, RNone)
  | OAssign o => do s <- Assign s o; Ok (s, RNone)
  end.
End LinkedArray.
Arguments lnode T : clear implicits.
Arguments larr T : clear implicits.
Arguments l_op T : clear implicits.
Arguments l_out T : clear implicits.
