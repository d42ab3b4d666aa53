(* Model of Graph<E, V, CT> (include/bss-util/Graph.h).
   Indices CT are unbounded, (CT)-1 is None.  The nodes live in a LinkedArray (C29).  Edges live in memory handed out by
   the allocator: each allocated edge has an address (a number), its fields to, from and data, and two pairs of links, the
   base LLBase (next, prev) and alt.  Which address an allocation returns is an argument of AddEdge: any address that is
   not allocated. *)
From Coq Require Import List Arith Bool.
From Verif Require Import Common Dll.
From Verif Require LLBase LinkedArray.
Import ListNotations.

Section Graph.
Context {E V : Type}.
(** Graph.h 26: Edge, without its links *)
Record edge := mke { eto : nat; efrom : nat; edata : E }.
(** Graph.h 30: Node *)
Record gnode := mkg { gto : ptr; gfrom : ptr; gdata : V }.
(** Graph.h 186-187: _nodes and _nedges, with the edges in memory: nxt and alt are their links *)
Record graph := mkgraph { gn : LinkedArray.larr gnode; nxt : LLBase.heap; alt : LLBase.heap; einfo : nat -> option edge; nedges : nat }.
(** fresh memory holds arbitrary nodes *)
Context (fresh : LinkedArray.lnode gnode).

(** Graph.h 72-79: a graph without nodes, with room for cap of them *)
Definition new_graph (cap : nat) : res graph :=
  do a <- LinkedArray.new_larr fresh cap; Ok (mkgraph a (fun _ => None) (fun _ => None) (fun _ => None) 0).
(** Graph.h 82-83: NumNodes, NumEdges *)
Definition NumNodes (g : graph) : nat := LinkedArray.len (gn g).
Definition NumEdges (g : graph) : nat := nedges g.
(** Graph.h 94-95: AddNode; without data (or with a null pointer) v is the zero value *)
Definition AddNode (g : graph) (v : V) : res (graph * ptr) :=
  do (a, i) <- LinkedArray.Add fresh (gn g) (mkg None None v);
  Ok (mkgraph a (nxt g) (alt g) (einfo g) (nedges g), i).
(** an address with new contents, or none *)
Definition put {A} (h : nat -> option A) (p : nat) (x : option A) : nat -> option A := fun q => if q =? p then x else h q.
(** Graph.h 96-111: AddEdge, when the allocator returns p; the links of new memory are arbitrary (null here), and the data
    of an edge added without any (96) too (d) *)
Definition AddEdge (g : graph) (p from to : nat) (d : E) : res graph :=
  match einfo g p with
  | Some _ => UB
  | None =>
      do nd <- LinkedArray.GetItem (gn g) from;
      do (h1, r) <- LLBase.LLAdd (put (nxt g) p (Some (None, None))) (Some p) (gto nd);
      do a <- LinkedArray.Put (gn g) from (mkg r (gfrom nd) (gdata nd));
      do nd <- LinkedArray.GetItem a to;
      do (h2, r) <- LLBase.AltLLAdd (put (alt g) p (Some (None, None))) (Some p) (gfrom nd);
      do a <- LinkedArray.Put a to (mkg (gto nd) r (gdata nd));
      Ok (mkgraph a h1 h2 (put (einfo g) p (Some (mke to from d))) (nedges g + 1))
  end.
(** Graph.h 119-125: RemoveEdge *)
Definition RemoveEdge (g : graph) (p : nat) : res graph :=
  match einfo g p with
  | None => UB
  | Some e =>
      do nd <- LinkedArray.GetItem (gn g) (efrom e);
      do (h1, r) <- LLBase.LLRemove2 (nxt g) (Some p) (gto nd);
      do a <- LinkedArray.Put (gn g) (efrom e) (mkg r (gfrom nd) (gdata nd));
      do nd <- LinkedArray.GetItem a (eto e);
      do (h2, r) <- LLBase.LLRemove2 (alt g) (Some p) (gfrom nd);
      do a <- LinkedArray.Put a (eto e) (mkg (gto nd) r (gdata nd));
      Ok (mkgraph a (put h1 p None) (put h2 p None) (put (einfo g) p None) (nedges g - 1))
  end.
(** Graph.h 115: while(n.to) RemoveEdge(n.to); fuel bounds the turns *)
Fixpoint drain_to (fuel : nat) (g : graph) (i : nat) : res graph :=
  do nd <- LinkedArray.GetItem (gn g) i;
  match gto nd with
  | None => Ok g
  | Some p => match fuel with O => OutOfFuel | S fuel => do g <- RemoveEdge g p; drain_to fuel g i end
  end.
(** Graph.h 116: while(n.from) RemoveEdge(n.from) *)
Fixpoint drain_from (fuel : nat) (g : graph) (i : nat) : res graph :=
  do nd <- LinkedArray.GetItem (gn g) i;
  match gfrom nd with
  | None => Ok g
  | Some p => match fuel with O => OutOfFuel | S fuel => do g <- RemoveEdge g p; drain_from fuel g i end
  end.
(** Graph.h 112-118: RemoveNode *)
Definition RemoveNode (g : graph) (i : nat) : res graph :=
  do g <- drain_to (nedges g) g i;
  do g <- drain_from (nedges g) g i;
  do (a, _) <- LinkedArray.Remove (gn g) i;
  Ok (mkgraph a (nxt g) (alt g) (einfo g) (nedges g)).
(** Graph.h 81: the destructor, over the nodes from i on *)
Fixpoint destroy_loop (fuel : nat) (g : graph) (i : ptr) : res graph :=
  match i with
  | None => Ok g
  | Some i => match fuel with
              | O => OutOfFuel
              | S fuel => do g <- drain_to (nedges g) g i; do n <- LinkedArray.Next (gn g) i; destroy_loop fuel g n
              end
  end.
Definition Destroy (g : graph) : res graph := destroy_loop (NumNodes g) g (LinkedArray.Front (gn g)).

(** Graph.h 138-139: numbering the nodes from i on, starting with k *)
Fixpoint hash_loop (fuel : nat) (g : graph) (i : ptr) (k : nat) (hash : list nat) : res (list nat) :=
  match i with
  | None => Ok hash
  | Some i => match fuel with
              | O => OutOfFuel
              | S fuel => do hash <- set hash i k; do n <- LinkedArray.Next (gn g) i; hash_loop fuel g n (k + 1) hash
              end
  end.
(** Graph.h 145-146: the edges of node i, from cur on *)
Fixpoint row_loop (fuel : nat) (g : graph) (len : nat) (hash : list nat) (i : nat) (cur : ptr) (m : list E) : res (list E) :=
  match cur with
  | None => Ok m
  | Some p => match fuel with
              | O => OutOfFuel
              | S fuel =>
                  match einfo g p with
                  | None => UB
                  | Some e =>
                      do hi <- get hash i;
                      do ht <- get hash (eto e);
                      do m <- set m (hi * len + ht) (edata e);
                      do n <- LLBase.rd_next (nxt g) (Some p);
                      row_loop fuel g len hash i n m
                  end
              end
  end.
(** Graph.h 141-147: all nodes from i on; vs is None if V is void (Graph.h 51) *)
Fixpoint matrix_loop (fuel : nat) (g : graph) (len : nat) (hash : list nat) (i : ptr) (m : list E) (vs : option (list V)) : res (list E * option (list V)) :=
  match i with
  | None => Ok (m, vs)
  | Some i => match fuel with
              | O => OutOfFuel
              | S fuel =>
                  do nd <- LinkedArray.GetItem (gn g) i;
                  do vs <- match vs with None => Ok None | Some vs => do vs <- set vs i (gdata nd); Ok (Some vs) end;
                  do m <- row_loop (nedges g) g len hash i (gto nd) m;
                  do n <- LinkedArray.Next (gn g) i;
                  matrix_loop fuel g len hash n m vs
              end
  end.
(** Graph.h 128-150: ToMatrix into the caller's arrays m and vs, m not null.  The entries of hash are arbitrary at first
    (0 here). *)
Definition ToMatrix (g : graph) (m : list E) (vs : option (list V)) : res (nat * list E * option (list V)) :=
  let len := NumNodes g in
  do hash <- hash_loop len g (LinkedArray.Front (gn g)) 0 (repeat 0 (length (LinkedArray.nodes (gn g))));
  do (m, vs) <- matrix_loop len g len hash (LinkedArray.Front (gn g)) m vs;
  Ok (len, m, vs).

(** Graph.h 173-174 (and 77, 79): the nodes *)
Fixpoint add_nodes (g : graph) (vs : list V) (k : list nat) : res (graph * list nat) :=
  match vs with
  | [] => Ok (g, k)
  | v :: vs => do (g, i) <- AddNode g v; match i with Some i => add_nodes g vs (k ++ [i]) | None => UB end
  end.
(** Graph.h 178-180: the edges of the entries of one row with columns js; ps are the addresses the allocator will return *)
Fixpoint add_row (isedge : E -> bool) (M : list E) (n : nat) (k : list nat) (i : nat) (js : list nat) (g : graph) (ps : list nat) : res (graph * list nat) :=
  match js with
  | [] => Ok (g, ps)
  | j :: js =>
      do d <- get M (i * n + j);
      if isedge d then
        match ps with
        | [] => OutOfFuel
        | p :: ps => do ki <- get k i; do kj <- get k j; do g <- AddEdge g p ki kj d; add_row isedge M n k i js g ps
        end
      else add_row isedge M n k i js g ps
  end.
(** Graph.h 176-181: all rows *)
Fixpoint add_rows (isedge : E -> bool) (M : list E) (n : nat) (k : list nat) (is : list nat) (g : graph) (ps : list nat) : res (graph * list nat) :=
  match is with
  | [] => Ok (g, ps)
  | i :: is => do (g, ps) <- add_row isedge M n k i (seq 0 n) g ps; add_rows isedge M n k is g ps
  end.
(** Graph.h 169-183: _construct (also FromMatrix, 127); vs has n elements *)
Definition construct (isedge : E -> bool) (g : graph) (n : nat) (M : list E) (vs : list V) (ps : list nat) : res (graph * list nat) :=
  do (g, k) <- add_nodes g vs [];
  add_rows isedge M n k (seq 0 n) g ps.
End Graph.
Arguments edge E : clear implicits.
Arguments gnode V : clear implicits.
Arguments graph E V : clear implicits.
