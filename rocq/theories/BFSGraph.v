(* Model of BreadthFirstGraph (include/bss-util/Graph.h 399-441), over the graphs of Flow.v and the disjoint sets of
   DisjointSet.v.  The types CT and SST are unbounded. *)
From Coq Require Import List Arith ZArith Bool.
From Verif Require Import Common DisjointSet Flow.
Import ListNotations.

Local Open Scope nat_scope.

Section BFS.
(** FACTION: a function of the vertices it was called with before and the vertex of this call *)
Context (act : list nat -> nat -> bool).
(** the number of elements of the array queue points to *)
Context (qcap : nat).

(** Graph.h 426, 438: queue[l++] = x; q holds the l elements written so far *)
Definition enqueue (q : list nat) (x : nat) : res (list nat) := if length q <? qcap then Ok (q ++ [x]) else UB.
(** Graph.h 423-427: everything next to the root *)
Fixpoint first_scan (g : net) (root : nat) (l : list nat) (q : list nat) : res (list nat) :=
  match l with
  | [] => Ok q
  | e :: r =>
      do x <- get (edges g) e;
      do q <- (if fto x =? root then Ok q else enqueue q (fto x));
      first_scan g root r q
  end.
(** Graph.h 435-439: the children that are not in the set *)
Fixpoint scan (g : net) (root : nat) (l : list nat) (s : dset) (q : list nat) : res (dset * list nat) :=
  match l with
  | [] => Ok (s, q)
  | e :: r =>
      do x <- get (edges g) e;
      do (s, f) <- Find s (fto x);
      do q <- (if f =? root then Ok q else enqueue q (fto x));
      scan g root r s q
  end.
(** Graph.h 429-440: the loop over the queue; calls are the vertices FACTION was called with *)
Fixpoint bfs_loop (fuel : nat) (g : net) (root : nat) (i : nat) (s : dset) (q calls : list nat) : res (list nat) :=
  match fuel with
  | 0 => OutOfFuel
  | S fuel =>
      if i =? length q then Ok calls else
      do x <- get q i;
      if act calls x then Ok (calls ++ [x]) else
      do (s, _) <- Union s root x;
      do (s, q) <- scan g root (outs g x) s q;
      bfs_loop fuel g root (i + 1) s q (calls ++ [x])
  end.
(** Graph.h 408-441: BreadthFirstGraph; the result is the sequence of calls of FACTION.  The fuel is one more than the
    number of elements of the queue (401-405: NumNodes() of them). *)
Definition BreadthFirstGraph (g : net) (root : nat) : res (list nat) :=
  if act [] root then Ok [root] else
  do q <- first_scan g root (outs g root) [];
  bfs_loop (S qcap) g root 0 (new_dset (ncap g)) q [root].
End BFS.
