(* Model of the iterators of LinkedList (include/bss-util/LinkedList.h:18-41, 162, 194-198) over the lists of LinkedList.v, and of the loops a user
   writes with them.  An iterator is its member cur. *)
From Coq Require Import List Arith Bool.
From Verif Require Import Common Dll LLBase LinkedList.
Import ListNotations.

Section Iter.
  Context {T : Type}.
  (** LinkedList.h:194-195, 197 [begin], [Front] *)
  Definition begin (s : ll T) : ptr := root s.
  (** LinkedList.h:27, 196, 198 [end] *)
  Definition iend : ptr := None.
  (** LinkedList.h:62 [Back] (with useLast) *)
  Definition Back (s : ll T) : ptr := last s.
  (** LinkedList.h:29-30 [operator*] and [operator->]: the item of the node; undefined for the end and for a node that was deleted *)
  Definition deref (s : ll T) (it : ptr) : res T := match it with None => UB | Some a => match items s a with None => UB | Some x => Ok x end end.
  (** LinkedList.h:31 [++] *)
  Definition inc (s : ll T) (it : ptr) : res ptr := rd_next (hp s) it.
  (** LinkedList.h:33 [--] *)
  Definition dec (s : ll T) (it : ptr) : res ptr := rd_prev (hp s) it.
  (** LinkedList.h:35-38 [==] with the end *)
  Definition at_end (it : ptr) : bool := isnull it.
  (** LinkedList.h:162 [Remove] of an iterator *)
  Definition Remove_iter (useLast : bool) (s : ll T) (it : ptr) : res (ll T) := Remove useLast s it.

  (** a loop from an iterator to the end that looks at every item, by [++] (LinkedList.h:31) or, if back, by [--] (LinkedList.h:33) *)
  Fixpoint walk (fuel : nat) (back : bool) (s : ll T) (it : ptr) : res (list T) :=
    match fuel with
    | O => OutOfFuel
    | S fuel =>
      if at_end it then Ok []
      else do x <- deref s it; do n <- (if back then dec s it else inc s it); do l <- walk fuel back s n; Ok (x :: l)
    end.
  (** LinkedList.h:41: a loop that removes the items a test holds of, by Remove(iter++) (32 makes a copy, then increments); with what it looked at *)
  Fixpoint prune (fuel : nat) (useLast : bool) (P : T -> bool) (s : ll T) (it : ptr) : res (ll T * list T) :=
    match fuel with
    | O => OutOfFuel
    | S fuel =>
      if at_end it then Ok (s, [])
      else
        do x <- deref s it;
        do n <- inc s it;
        do s <- (if P x then Remove_iter useLast s it else Ok s);
        do (s, l) <- prune fuel useLast P s n;
        Ok (s, x :: l)
    end.
End Iter.
