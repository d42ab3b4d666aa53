(* Model of Clear, the destructor, IsEmpty, GetRoot, Get and Traverse of AATree (include/bss-util/AATree.h:38-42, 46-85) over a heap of nodes with addresses (the other operations
   are in AATree.v, where the nodes are an inductive tree).  A read or a release of a node that was released is UB. *)
From Coq Require Import List ZArith Bool Arith.
From Verif Require Import Common.
Import ListNotations.

Section AAClear.
  Context {T : Type} (cmp : T -> T -> Z).
  (** AATree.h:11-18 [AANODE]; the level is not read here *)
  Record anode := AN { left : nat; right : nat; data : option T }.
  (** what is allocated *)
  Definition heap := nat -> option anode.
  (** AATree.h:168-169: _sentinel and _root, with the heap *)
  Record aa := AA { hp : heap; sentinel : nat; root : nat }.
  (** Alloc::deallocate, and n->~AANODE before it (AATree.h:76-77) *)
  Definition release (h : heap) (n : nat) : res heap := match h n with None => UB | Some _ => Ok (fun x => if x =? n then None else h x) end.

  (** AATree.h:71-78 [_clear] *)
  Fixpoint clear (fuel : nat) (sen : nat) (h : heap) (n : nat) : res heap :=
    match fuel with
    | O => OutOfFuel
    | S fuel =>
      if n =? sen then Ok h else
      match h n with
      | None => UB
      | Some a =>
        do h <- clear fuel sen h (left a);
        match h n with
        | None => UB
        | Some a => do h <- clear fuel sen h (right a); release h n
        end
      end
    end.
  (** AATree.h:62 [Clear] *)
  Definition Clear (fuel : nat) (s : aa) : res aa := do h <- clear fuel (sentinel s) (hp s) (root s); Ok (AA h (sentinel s) (root s)).
  (** AATree.h:38-42: the destructor, to the heap that is left *)
  Definition destroy (fuel : nat) (s : aa) : res heap := do s <- Clear fuel s; release (hp s) (sentinel s).
  (** AATree.h:64 [GetRoot] *)
  Definition GetRoot (s : aa) : option nat := if root s =? sentinel s then None else Some (root s).
  (** AATree.h:65 [IsEmpty] *)
  Definition IsEmpty (s : aa) : bool := root s =? sentinel s.
  (** AATree.h:46-61 [Get]: the address of the node *)
  Fixpoint get_loop (fuel : nat) (s : aa) (x : T) (cur : nat) : res (option nat) :=
    match fuel with
    | O => OutOfFuel
    | S fuel =>
      if cur =? sentinel s then Ok None else
      match hp s cur with
      | Some (AN l r (Some d)) => if (cmp x d =? -1)%Z then get_loop fuel s x l else if (cmp x d =? 1)%Z then get_loop fuel s x r else Ok (Some cur)
      | _ => UB
      end
    end.
  Definition Get (fuel : nat) (s : aa) (x : T) : res (option nat) := get_loop fuel s x (root s).
  (** AATree.h:79-85 [_traverse]: the data in the order of the calls; it has no test for the sentinel, whose data was never set.  The inner calls are read as calls with the same FACTION, which the code leaves out *)
  Fixpoint traverse (fuel : nat) (h : heap) (n : nat) : res (list T) :=
    match fuel with
    | O => OutOfFuel
    | S fuel =>
      match h n with
      | None => UB
      | Some a =>
        do l <- traverse fuel h (left a);
        match data a with
        | None => UB
        | Some d => do r <- traverse fuel h (right a); Ok (l ++ d :: r)
        end
      end
    end.
  (** AATree.h:67-68 [Traverse] *)
  Definition Traverse (fuel : nat) (s : aa) : res (list T) := traverse fuel (hp s) (root s).
End AAClear.
Arguments anode T : clear implicits.
Arguments heap T : clear implicits.
Arguments aa T : clear implicits.
