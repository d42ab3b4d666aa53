(* Model of the iterators of LinkedArray (include/bss-util/LinkedArray.h:88-125) over the arrays of LinkedArray.v, of the loops a user writes with them,
   and of the move assignment (LinkedArray.h:81).  An iterator is its member cur; the array it refers to is a parameter. *)
From Coq Require Import List Arith Bool.
From Verif Require Import Common Growth Dll LinkedArray.
Import ListNotations.

Section Iter.
  Context {T : Type}.
  (** LinkedArray.h:122, 124 [begin] *)
  Definition begin (s : larr T) : ptr := start s.
  (** LinkedArray.h:101, 123, 125 [end] *)
  Definition iend : ptr := None.
  (** LinkedArray.h:104-105 [operator*] and [operator->]; (CT_)-1 is outside every array *)
  Definition deref (s : larr T) (it : ptr) : res T := match it with None => UB | Some i => GetItem s i end.
  (** LinkedArray.h:106 [++] *)
  Definition inc (s : larr T) (it : ptr) : res ptr := match it with None => UB | Some i => Next s i end.
  (** LinkedArray.h:108 [--] *)
  Definition dec (s : larr T) (it : ptr) : res ptr := match it with None => UB | Some i => Prev s i end.
  (** LinkedArray.h:110-113 [==] with the end, [!] and not [IsValid] *)
  Definition at_end (it : ptr) : bool := match it with None => true | Some _ => false end.
  (** LinkedArray.h:114 [Remove] *)
  Definition iter_Remove (s : larr T) (it : ptr) : res (larr T) := match it with None => UB | Some i => do (s, _) <- Remove s i; Ok s end.

  (** a loop from an iterator to the end that looks at every item, by [++] (LinkedArray.h:106) or, if back, by [--] (LinkedArray.h:108) *)
  Fixpoint walk (fuel : nat) (back : bool) (s : larr T) (it : ptr) : res (list T) :=
    match fuel with
    | O => OutOfFuel
    | S fuel =>
      if at_end it then Ok []
      else do x <- deref s it; do n <- (if back then dec s it else inc s it); do l <- walk fuel back s n; Ok (x :: l)
    end.
  (** LinkedArray.h:114: a loop that removes the items a test holds of, by (i++).Remove() (107 makes a copy, then increments); with what it looked at *)
  Fixpoint prune (fuel : nat) (P : T -> bool) (s : larr T) (it : ptr) : res (larr T * list T) :=
    match fuel with
    | O => OutOfFuel
    | S fuel =>
      if at_end it then Ok (s, [])
      else
        do x <- deref s it;
        do n <- inc s it;
        do s <- (if P x then iter_Remove s it else Ok s);
        do (s, l) <- prune fuel P s n;
        Ok (s, x :: l)
    end.
  (** LinkedArray.h:81 [operator=](LinkedArray&&) of two different arrays, with what is left of mov: Array.h:124-132 takes its nodes, the other members stay *)
  Definition MoveAssign (s mov : larr T) : larr T * larr T :=
    ({| nodes := nodes mov; len := len mov; start := start mov; end_ := end_ mov; freelist := freelist mov |},
     {| nodes := []; len := len mov; start := start mov; end_ := end_ mov; freelist := freelist mov |}).
End Iter.
