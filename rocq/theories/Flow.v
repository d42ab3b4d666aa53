(* Model of the flow algorithms of include/bss-util/Graph.h: MaxFlow_PushRelabel (200-323), Circulation_MaxFlow (335-368)
   and LowerBound_Circulation (380-397).
   The graph is taken as its nodes, in the order of the linked array, and its edges, numbered in the order in which they
   were added (AddEdge, C57, puts an edge at the head of the list of its two nodes, and RemoveEdge takes one out, so the
   list of a node always holds its edges from the newest to the oldest).  int is unbounded (the sum of the capacities is
   taken to stay below INT_MAX / 2); CT has w bits, w at most 16, so that it converts to int; (CT)-1 is None. *)
From Coq Require Import List Arith ZArith Bool.
From Verif Require Import Common.
Import ListNotations.
Open Scope Z_scope.

(** Graph.h 26 and 191-195: an edge with its capacity; its flow is kept apart, in an array by edge *)
Record fedge := mkf { ffrom : nat; fto : nat; fcap : Z }.
(** Graph.h 186: the nodes Front(), Next() ...; Capacity(); the edges in the order they were added *)
Record net := mknet { order : list nat; ncap : nat; edges : list fedge }.
(** nodes[i].to and the next links behind it: the edges that leave node i (96-111) *)
Definition outs (g : net) (i : nat) : list nat :=
  filter (fun e => match nth_error (edges g) e with Some x => Nat.eqb (ffrom x) i | None => false end) (rev (seq 0 (length (edges g)))).
(** nodes[i].from and the alt.next links behind it: the edges that enter node i (96-111) *)
Definition ins (g : net) (i : nat) : list nat :=
  filter (fun e => match nth_error (edges g) e with Some x => Nat.eqb (fto x) i | None => false end) (rev (seq 0 (length (edges g)))).
(** the link of e in a list: what follows e in it *)
Fixpoint after (e : nat) (l : list nat) : option nat :=
  match l with [] => None | x :: r => if Nat.eqb x e then hd_error r else after e r end.

Section PushRelabel.
(** the width of CT *)
Context (w : Z).

(** Graph.h 206-209, 220-222, 246: the local variables; vl is v with its fields first and second *)
Record st := mks { flow : list Z; excess : list Z; height : list Z; seen : list (option nat); vl : list (nat * option nat); root : option nat; last : option nat }.
(** limits.h: INT_MAX *)
Definition INT_MAX : Z := 2147483647.

(** Graph.h 220-234: the list of all vertices except s and t.  k counts them, plast is None for &root and Some j for
    &v[j].second; root has no value (None) before the first vertex is linked. *)
Fixpoint build (g : net) (s t : nat) (ns : list nat) (k : nat) (plast : option nat) (sn : list (option nat)) (v : list (nat * option nat)) (rt : option (option nat))
  : res (list (option nat) * list (nat * option nat) * option (option nat)) :=
  match ns with
  | [] => Ok (sn, v, rt)
  | i :: r =>
      do sn <- set sn k (hd_error (outs g i));
      if negb (Nat.eqb i s) && negb (Nat.eqb i t) then
        do (v, rt) <- match plast with
                      | None => Ok (v, Some (Some k))
                      | Some j => do p <- get v j; do v <- set v j (fst p, Some k); Ok (v, rt)
                      end;
        do p <- get v k;
        do v <- set v k (i, snd p);
        build g s t r (k + 1) (Some k) sn v rt
      else build g s t r k plast sn v rt
  end.

(** Graph.h 238-243: push as much flow as possible from s *)
Fixpoint init_push (g : net) (l : list nat) (f ex : list Z) : res (list Z * list Z) :=
  match l with
  | [] => Ok (f, ex)
  | e :: r =>
      do x <- get (edges g) e;
      do f <- set f e (fcap x);
      do ex <- set ex (fto x) (fcap x);
      init_push g r f ex
  end.

(** Graph.h 261-268: the heights of the targets of the edges with capacity left; heights wrap *)
Fixpoint relabel_to (g : net) (k : nat) (l : list nat) (f h : list Z) (send : Z) : res (list Z * Z) :=
  match l with
  | [] => Ok (h, send)
  | e :: r =>
      do x <- get (edges g) e;
      do fl <- get f e;
      if fcap x - fl >? 0 then
        do ht <- get h (fto x);
        let send := if ht <? send then ht else send in
        do h <- set h k (wrap w (send + 1));
        relabel_to g k r f h send
      else relabel_to g k r f h send
  end.
(** Graph.h 272-281: the heights of the sources of the edges with some flow *)
Fixpoint relabel_from (g : net) (k : nat) (l : list nat) (f h : list Z) (send : Z) : res (list Z * Z) :=
  match l with
  | [] => Ok (h, send)
  | e :: r =>
      do x <- get (edges g) e;
      do fl <- get f e;
      if fl >? 0 then
        do ht <- get h (ffrom x);
        let send := if ht <? send then ht else send in
        do h <- set h k (wrap w (send + 1));
        relabel_from g k r f h send
      else relabel_from g k r f h send
  end.
(** Graph.h 257-288: relabel *)
Definition relabel (g : net) (k : nat) (x : st) : res st :=
  do (h, send) <- relabel_to g k (outs g k) (flow x) (height x) INT_MAX;
  if send =? INT_MAX then
    do (h, _) <- relabel_from g k (ins g k) (flow x) h send;
    do sn <- set (seen x) k (hd_error (ins g k));
    Ok (mks (flow x) (excess x) h sn (vl x) (root x) (last x))
  else
    do sn <- set (seen x) k (hd_error (outs g k));
    Ok (mks (flow x) (excess x) h sn (vl x) (root x) (last x)).

(** Graph.h 289-304: push along seen[k] = e if possible, and step to the next edge *)
Definition push (g : net) (k e : nat) (x : st) : res st :=
  do ed <- get (edges g) e;
  do fl <- get (flow x) e;
  let fwd := Nat.eqb (ffrom ed) k in
  let send := if fwd then fcap ed - fl else fl in
  let target := if fwd then fto ed else ffrom ed in
  do hk <- get (height x) k;
  do ht <- get (height x) target;
  let adv := if fwd then after e (outs g (ffrom ed)) else after e (ins g (fto ed)) in
  if (hk >? ht) && (send >? 0) then
    do ek <- get (excess x) k;
    let send := if ek <? send then ek else send in
    do f <- set (flow x) e (fl + (if fwd then send else - send));
    do et <- get (excess x) target;
    do ex <- set (excess x) target (et + send);
    do ek <- get ex k;
    do ex <- set ex k (ek - send);
    do sn <- set (seen x) k adv;
    Ok (mks f ex (height x) sn (vl x) (root x) (last x))
  else
    do sn <- set (seen x) k adv;
    Ok (mks (flow x) (excess x) (height x) sn (vl x) (root x) (last x)).

(** Graph.h 307-321: behind the inner loop: a vertex whose height changed goes to the front and the traversal restarts,
    otherwise the next vertex is taken *)
Definition leave (c : nat) (lh : Z) (x : st) : res (st * option nat) :=
  do p <- get (vl x) c;
  do hk <- get (height x) (fst p);
  if negb (lh =? hk) then
    do x <- match last x with
            | Some la =>
                do q <- get (vl x) la;
                do v <- set (vl x) la (fst q, snd p);
                do p <- get v c;
                do v <- set v c (fst p, root x);
                Ok (mks (flow x) (excess x) (height x) (seen x) v (Some c) (last x))
            | None => Ok x
            end;
    Ok (x, root x)
  else Ok (mks (flow x) (excess x) (height x) (seen x) (vl x) (root x) (Some c), snd p).

(** where the two nested loops (250 and 255) stand: at the head of the outer loop with c, or at the head of the inner one
    with c and lh *)
Inductive mode := Outer (c : option nat) | Inner (c : nat) (lh : Z).
(** Graph.h 250-322: one step; None when the outer loop ends *)
Definition step (g : net) (x : st) (m : mode) : res (st * option mode) :=
  match m with
  | Outer None => Ok (x, None)
  | Outer (Some c) => do p <- get (vl x) c; do lh <- get (height x) (fst p); Ok (x, Some (Inner c lh))
  | Inner c lh =>
      do p <- get (vl x) c;
      let k := fst p in
      do ek <- get (excess x) k;
      if ek >? 0 then
        do sk <- get (seen x) k;
        do x <- match sk with None => relabel g k x | Some e => push g k e x end;
        Ok (x, Some (Inner c lh))
      else do (x, c) <- leave c lh x; Ok (x, Some (Outer c))
  end.
(** Graph.h 250-322: the loops *)
Fixpoint run (fuel : nat) (g : net) (x : st) (m : mode) : res st :=
  match fuel with
  | O => OutOfFuel
  | S fuel => do (x, m) <- step g x m; match m with None => Ok x | Some m => run fuel g x m end
  end.

(** Graph.h 200-249: up to the loops.  excess[s] is INT_MAX / 2.  f is the flow the edges carry beforehand.  root has no
    value when there is no vertex besides s and t (undefined behaviour, 250). *)
Definition setup (g : net) (s t : nat) (f : list Z) : res st :=
  do h <- set (repeat 0 (ncap g)) s (wrap w (Z.of_nat (length (order g))));
  do ex <- set (repeat 0 (ncap g)) s (INT_MAX / 2);
  do (sn, v, rt) <- build g s t (order g) 0 None (repeat None (ncap g)) (repeat (0%nat, None) (length (order g) - 2)) None;
  do (f, ex) <- init_push g (outs g s) f ex;
  match rt with
  | None => UB
  | Some r => Ok (mks f ex h sn v r None)
  end.
(** Graph.h 200-323: MaxFlow_PushRelabel; the flow of the edges afterwards *)
Definition MaxFlow (fuel : nat) (g : net) (s t : nat) (f : list Z) : res (list Z) :=
  do x <- setup g s t f; do x <- run fuel g x (Outer (root x)); Ok (flow x).
End PushRelabel.

(** Graph.h 345-363: the loop of Circulation_MaxFlow over the nodes of the graph; the demands by node index, ed collects
    the edges added *)
Fixpoint circ_loop (ns : list nat) (ss t : nat) (dem : list Z) (ed : list fedge) (total : Z) : res (list fedge * Z) :=
  match ns with
  | [] => Ok (ed, total)
  | i :: r =>
      if negb (Nat.eqb i ss) && negb (Nat.eqb i t) then
        do d <- get dem i;
        circ_loop r ss t dem (if d <? 0 then ed ++ [mkf ss i (- d)] else if d >? 0 then ed ++ [mkf i t d] else ed) (total + d)
      else circ_loop r ss t dem ed total
  end.
(** Graph.h 335-368: Circulation_MaxFlow.  The indices AddNode hands out for ss and st are arguments: unused ones, they
    are appended to the nodes; the demand of the two new nodes is zero (AddNode fills a node with zeros, and the loop
    skips them anyway).  The flow of the new edges is zero. *)
Definition Circulation_MaxFlow (g : net) (dem : list Z) (ss t : nat) : res (net * Z) :=
  let ns := order g ++ [ss; t] in
  do (ed, total) <- circ_loop ns ss t dem (edges g) 0;
  Ok (mknet ns (Nat.max (ncap g) (S (Nat.max ss t))) ed, total).

(** Graph.h 389-394: one edge of LowerBound_Circulation: caps and lower bounds by edge, demands by node *)
Definition lower_edge (g : net) (i e : nat) (x : list Z * list Z * list Z) : res (list Z * list Z * list Z) :=
  let '(cp, lo, dem) := x in
  do ed <- get (edges g) e;
  do l <- get lo e;
  do c <- get cp e;
  do cp <- set cp e (c - l);
  do d <- get dem i;
  do dem <- set dem i (d + l);
  do d <- get dem (fto ed);
  do dem <- set dem (fto ed) (d - l);
  do lo <- set lo e 0;
  Ok (cp, lo, dem).
(** Graph.h 387-395: the edges that leave node i *)
Fixpoint lower_edges (g : net) (i : nat) (l : list nat) (x : list Z * list Z * list Z) : res (list Z * list Z * list Z) :=
  match l with [] => Ok x | e :: r => do x <- lower_edge g i e x; lower_edges g i r x end.
(** Graph.h 385-396: all nodes *)
Fixpoint lower_nodes (g : net) (ns : list nat) (x : list Z * list Z * list Z) : res (list Z * list Z * list Z) :=
  match ns with [] => Ok x | i :: r => do x <- lower_edges g i (outs g i) x; lower_nodes g r x end.
(** Graph.h 380-397: LowerBound_Circulation: the capacities, lower bounds and demands afterwards.  The capacities are kept
    apart from the edges here (fcap is not used). *)
Definition LowerBound_Circulation (g : net) (cp lo dem : list Z) : res (list Z * list Z * list Z) := lower_nodes g (order g) (cp, lo, dem).
