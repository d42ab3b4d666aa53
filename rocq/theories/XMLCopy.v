(* Model of copying, assigning and moving XMLNode and XMLFile (bss-util/XML.cpp:12-13, 58-96, 97, include/bss-util/XML.h:108-128).  An
   element of an array is Some x, or None where the memory holds no object.  A child is a unique_ptr: its node.  The hashes of names are
   copied and moved with the arrays and are not in this model (XMLTree.v has them); values are strings. *)
From Coq Require Import List ZArith Bool.
From Verif Require Import Common.
Import ListNotations.

(** XML.h:108-113: the name, the value, the attributes (name and value) and the children *)
Inductive xml := Xml (name value : list Z) (attrs : list (option (list Z * list Z))) (nodes : list (option xml)).
Definition name_of (x : xml) := match x with Xml n _ _ _ => n end.
Definition value_of (x : xml) := match x with Xml _ v _ _ => v end.
Definition attrs_of (x : xml) := match x with Xml _ _ a _ => a end.
Definition nodes_of (x : xml) := match x with Xml _ _ _ l => l end.

(** Array.h:206-222 [_copy] for ARRAY_MOVE: nothing is copied (a debug build stops at the assertion if there is something to copy);
    DynArray.h:27, 100-107: the length is that of the source all the same *)
Definition copy_array {A} (l : list (option A)) : list (option A) := repeat None (length l).
(** XML.cpp:58-63 the copy constructor, 12 *)
Definition copy_ctor (x : xml) : xml := Xml (name_of x) (value_of x) (copy_array (attrs_of x)) (copy_array (nodes_of x)).
(** XML.cpp:97, 145-160: AddNode(node) adds a copy behind the others *)
Definition add_copy (x c : xml) : xml := Xml (name_of x) (value_of x) (attrs_of x) (nodes_of x ++ [Some (copy_ctor c)]).
(** XML.cpp:82-83: the loop over the children of another node, from the first of l on; reading a child that does not exist is undefined *)
Fixpoint add_copies (x : xml) (l : list (option xml)) : res xml :=
  match l with [] => Ok x | None :: _ => UB | Some c :: l => add_copies (add_copy x c) l end.
(** XML.cpp:76-85 copy assignment from another node *)
Definition copy_assign (x c : xml) : res xml := add_copies (Xml (name_of c) (value_of c) (copy_array (attrs_of c)) (nodes_of x)) (nodes_of c).
(** XML.cpp:82-83 for the node itself: its length is read each time *)
Fixpoint self_loop (fuel i : nat) (x : xml) : res xml :=
  if length (nodes_of x) <=? i then Ok x
  else match fuel with
       | 0 => OutOfFuel
       | S fuel => match nth_error (nodes_of x) i with Some (Some c) => self_loop fuel (S i) (add_copy x c) | _ => UB end
       end.
(** XML.cpp:76-85 with copy being *this *)
Definition self_assign (fuel : nat) (x : xml) : res xml := self_loop fuel 0 (Xml (name_of x) (value_of x) (copy_array (attrs_of x)) (nodes_of x)).
(** XML.cpp:64-71, 13 the move constructor: the new node and the children and attributes of the source *)
Definition move_ctor (x : xml) : xml * (list (option xml) * list (option (list Z * list Z))) := (x, ([], [])).

(** ~XMLNode, DynArray.h:40: every attribute and child is destroyed; undefined if there is none *)
Fixpoint destroy (x : xml) : res unit :=
  match x with
  | Xml _ _ a l =>
    if forallb (fun v => match v with Some _ => true | None => false end) a
    then (fix go (l : list (option xml)) := match l with [] => Ok tt | None :: _ => UB | Some c :: l => do _ <- destroy c; go l end) l
    else UB
  end.
(** XML.cpp:86-95 move assignment: the old children and attributes are destroyed (DynArray.h:108), then as the constructor *)
Definition move_assign (x m : xml) : res (xml * (list (option xml) * list (option (list Z * list Z)))) := do _ <- destroy x; Ok (move_ctor m).
