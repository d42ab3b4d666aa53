(* Model of the nodes of a Graph by index (include/bss-util/Graph.h:79-82, 85, 94-95, 112-118) over the LinkedArray that holds them (LinkedArray.v).  Edges do not
   change the indices and are left out (they are in Graph.v): a node is its data, and RemoveNode is given nodes without edges. *)
From Coq Require Import List Arith Bool.
From Verif Require Import Common Growth Dll LinkedArray.
Import ListNotations.

Section GraphNode.
  Context {V : Type} (fresh : lnode V).
  (** Graph.h:94-95 [AddNode]: the index *)
  Definition AddNode (s : larr V) (v : V) : res (larr V * ptr) := Add fresh s v.
  (** Graph.h:112-118 [RemoveNode] of a node without edges *)
  Definition RemoveNode (s : larr V) (i : nat) : res (larr V) := do (s, _) <- Remove s i; Ok s.
  (** Graph.h:82 [NumNodes] *)
  Definition NumNodes (s : larr V) : nat := len s.
  (** Graph.h:85 [GetNode]: the pointer to the node of an index, as that index, or null *)
  Definition GetNode (s : larr V) (i : nat) : option nat := if i <? len s then Some i else None.
  (** the loop of Graph.h:79 over the rest of the list of nodes *)
  Fixpoint add_all (s : larr V) (vs : list V) : res (larr V) :=
    match vs with
    | [] => Ok s
    | v :: vs => do (s, _) <- AddNode s v; add_all s vs
    end.
  (** Graph.h:79-80: the constructor from a list of nodes *)
  Definition build (vs : list V) : res (larr V) := do s <- new_larr fresh (length vs); add_all s vs.
End GraphNode.
