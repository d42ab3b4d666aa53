(* Model of the profiler: include/bss-util/Profiler.h and bss-util/profiler.cpp, with the running averages of
   include/bss-util/bss_util.h.  The nodes of the trie are the entries of an arena, a pointer to a node is its index;
   nodes are never freed.  double is replaced by exact rationals (Qc).  The counters are not reduced modulo 2^64 except
   where it matters for a subtraction. *)
From Coq Require Import ZArith List Bool QArith Qcanon.
From Verif Require Import Common.
Import ListNotations.
Local Open Scope Z_scope.

(** Profiler.h 83-84: the conversion of an integer to double in the calls of bssAvg; exact rationals stand for doubles *)
Definition Qcz (z : Z) : Qc := Q2Qc (inject_Z z).
(** bss_util.h 681-687: bssAvg *)
Definition bssAvg (curavg nvalue : Qc) (nextnum : Z) : Qc := (curavg + (nvalue - curavg) / Qcz nextnum)%Qc.
(** bss_util.h 690-698: bssVariance: the new variance and average *)
Definition bssVariance (curvariance avg nvalue : Qc) (nextnum : Z) : Qc * Qc :=
  let delta := (nvalue - avg)%Qc in
  let avg := (avg + delta / nvalue)%Qc in
  ((curvariance + delta * (nvalue - avg))%Qc, avg).

(** Profiler.h 38-46: PROF_TRIENODE; the total None stands for (uint64_t)-1 *)
Record pnode := mkp { kids : list (option nat); avg : Qc; codeavg : Qc; total : option Z; inner : Z }.
(** profiler.cpp 231-238: a node as _allocNode makes it *)
Definition fresh_node : pnode := mkp (repeat None 16) (Qcz 0) (Qcz 0) None 0.
(** Profiler.h 111-112: the nodes, _trie is node 0, and _cur *)
Record prof := mkprof { arena : list pnode; cur : nat }.
(** profiler.cpp 55: the constructor *)
Definition prof_init : prof := mkprof [fresh_node] 0.

(** Profiler.h 65-71: the loop of StartProfile.  r is the place that holds the pointer to node n; the place is overwritten
    only when it is null, and the first place, _cur, never is *)
Fixpoint walk_loop (fuel : nat) (a : list pnode) (n : nat) (id : Z) : res (list pnode * nat) :=
  match fuel with
  | O => OutOfFuel
  | S f =>
      if id <=? 0 then Ok (a, n)
      else
        do nd <- get a n;
        let d := Z.to_nat (id mod 16) in
        do k <- get (kids nd) d;
        match k with
        | Some m => walk_loop f a m (Z.shiftr id 4)
        | None =>
            let m := length a in
            do a <- set a n (mkp (upd (kids nd) d (Some m)) (avg nd) (codeavg nd) (total nd) (inner nd));
            walk_loop f (a ++ [fresh_node]) m (Z.shiftr id 4)
        end
  end.
(** Profiler.h 61-78: StartProfile without the reading of the clock; an id has 16 bits *)
Definition StartProfile (id : Z) (s : prof) : res prof :=
  do (a, n) <- walk_loop 5 (arena s) (cur s) id;
  do nd <- get a n;
  do a <- set a n (mkp (kids nd) (avg nd) (codeavg nd) (match total nd with None => Some 0 | t => t end) 0);
  Ok (mkprof a n).
(** Profiler.h 79-87: EndProfile; time is the time since the call of StartProfile.  ++total of a total that is still -1
    gives 0 *)
Definition EndProfile (time : Z) (old : nat) (s : prof) : res prof :=
  do nd <- get (arena s) (cur s);
  let t := match total nd with Some t => t + 1 | None => 0 end in
  do a <- set (arena s) (cur s)
            (mkp (kids nd) (bssAvg (avg nd) (Qcz time) t) (bssAvg (codeavg nd) (Qcz (wrap 64 (time - inner nd))) t) (Some t) (inner nd));
  do od <- get a old;
  do a <- set a old (mkp (kids od) (avg od) (codeavg od) (total od) (wrap 64 (inner od + time)));
  Ok (mkprof a old).

(** Profiler.h 19-22: a zone: a block with a PROFILE_BLOCK of that id at its beginning, entered and left at the given times of the clock,
    with the zones inside *)
Inductive zone := Zone (id : Z) (enter : Z) (body : list zone) (leave : Z).
(** Profiler.h 132-138, HighPrecisionTimer.h 77-87 (posix): a ProfilerBlock keeps the current node and the time, its
    destructor passes them to EndProfile *)
Fixpoint run_zone (z : zone) (s : prof) : res prof :=
  match z with
  | Zone id t0 body t1 =>
      let cache := cur s in
      do s <- StartProfile id s;
      do s <- (fix go (l : list zone) (s : prof) : res prof :=
                 match l with
                 | [] => Ok s
                 | z :: r => do s <- run_zone z s; go r s
                 end) body s;
      EndProfile (wrap 64 (t1 - t0)) cache s
  end.
(** Profiler.h 132-138: zones one after the other *)
Fixpoint run_zones (l : list zone) (s : prof) : res prof :=
  match l with
  | [] => Ok s
  | z :: r => do s <- run_zone z s; run_zones r s
  end.

(** a line of the tree output: indentation (number of levels), id, average and total *)
Record tline := mkt { tlevel : Z; tid : Z; tavg : Qc; ttotal : Z }.
(** profiler.cpp 109-123: _treeOut; level is a size_t, so that the first level is 2^64 - 1; id and i << (4 * idlevel) are
    converted to 16 bits when they are passed on *)
Fixpoint tree_out (fuel : nat) (a : list pnode) (node : option nat) (id level idlevel : Z) : res (list tline) :=
  match fuel with
  | O => OutOfFuel
  | S f =>
      match node with
      | None => Ok []
      | Some n =>
          do nd <- get a n;
          let head := match total nd with Some t => [mkt level id (avg nd) t] | None => [] end in
          let id := match total nd with Some _ => 0 | None => id end in
          let idlevel := match total nd with Some _ => 0 | None => idlevel end in
          do rest <- (fix go (k : nat) (i : Z) (l : list (option nat)) : res (list tline) :=
             match k with
             | O => Ok []
             | S k' =>
                 do c <- (match l with c :: _ => Ok c | [] => UB end);
                 do x <- tree_out f a c (Z.lor id (wrap 16 (Z.shiftl i (4 * idlevel)))) (wrap 64 (level + if id =? 0 then 1 else 0)) (idlevel + 1);
                 do y <- go k' (i + 1) (tl l);
                 Ok (x ++ y)
             end) 16%nat 0 (kids nd);
          Ok (head ++ rest)
      end
  end.
(** profiler.cpp 81: the tree output *)
Definition TreeOutput (s : prof) : res (list tline) := tree_out (S (S (length (arena s)))) (arena s) (Some 0%nat) 0 (2 ^ 64 - 1) 0.

(** profiler.cpp 39-44: PROF_FLATOUT without the variance *)
Record flat := mkf { favg : Qc; ftotal : Z }.
(** profiler.cpp 200-203: the weighted mean of two averages *)
Definition flat_add (x : flat) (a : Qc) (t : Z) : flat :=
  mkf (favg x * (Qcz (ftotal x) / Qcz (ftotal x + t)) + a * (Qcz t / Qcz (ftotal x + t)))%Qc (ftotal x + t).
(** profiler.cpp 193-211: _flatOut *)
Fixpoint flat_out (fuel : nat) (a : list pnode) (node : option nat) (id idlevel : Z) (acc : list flat) : res (list flat) :=
  match fuel with
  | O => OutOfFuel
  | S f =>
      match node with
      | None => Ok acc
      | Some n =>
          do nd <- get a n;
          do acc <- (match total nd with
                     | Some t => if 0 <? t then do x <- get acc (Z.to_nat id); set acc (Z.to_nat id) (flat_add x (avg nd) t) else Ok acc
                     | None => Ok acc
                     end);
          let id := match total nd with Some _ => 0 | None => id end in
          let idlevel := match total nd with Some _ => 0 | None => idlevel end in
          (fix go (k : nat) (i : Z) (l : list (option nat)) (acc : list flat) : res (list flat) :=
             match k with
             | O => Ok acc
             | S k' =>
                 do c <- (match l with c :: _ => Ok c | [] => UB end);
                 do acc <- flat_out f a c (Z.lor id (wrap 16 (Z.shiftl i (4 * idlevel)))) (idlevel + 1) acc;
                 go k' (i + 1) (tl l) acc
             end) 16%nat 0 (kids nd) acc
      end
  end.
(** std::sort with the comparison of profiler.cpp 90: by decreasing average; the order of equal averages is not specified by
    the standard, here they stay in order *)
Fixpoint insert_flat (x : flat) (l : list flat) : list flat :=
  match l with
  | [] => [x]
  | y :: t => if Qclt_le_dec (favg x) (favg y) then y :: insert_flat x t else x :: l
  end.
(** profiler.cpp 90: the call of std::sort, as an insertion sort *)
Definition sort_flat (l : list flat) : list flat := fold_right insert_flat [] l.
(** profiler.cpp 84-99: the flat output: for the ids 1, 2, ... the average and total printed beside the name of that id;
    ids is the number of registered names, the capacity of _data is one more *)
Definition FlatOutput (ids : nat) (s : prof) : res (list (Z * flat)) :=
  do acc <- flat_out (S (S (length (arena s)))) (arena s) (Some 0%nat) 0 0 (repeat (mkf (Qcz 0) 0) (S ids));
  let sorted := sort_flat (tl acc) in
  Ok (combine (map Z.of_nat (seq 1 ids)) sorted).

(** profiler.cpp 13-38: PROF_HEATNODE.  The children are kept in the order of their insertion here; the sorting by average is
    not modelled *)
Inductive heat := Heat (id : Z) (avg : Qc) (children : list heat).
(** profiler.cpp 124-148: _heatOut: the children it adds to the heat node *)
Fixpoint heat_out (fuel : nat) (a : list pnode) (node : option nat) (id idlevel : Z) : res (list heat) :=
  match fuel with
  | O => OutOfFuel
  | S f =>
      match node with
      | None => Ok []
      | Some n =>
          do nd <- get a n;
          match total nd with
          | Some _ =>
              do ch <- (fix go (k : nat) (i : Z) (l : list (option nat)) : res (list heat) :=
                 match k with
                 | O => Ok []
                 | S k' =>
                     do c <- (match l with c :: _ => Ok c | [] => UB end);
                     do x <- heat_out f a c (Z.lor 0 (wrap 16 (Z.shiftl i (4 * 0)))) 0;
                     do y <- go k' (i + 1) (tl l);
                     Ok (x ++ y)
                 end) 16%nat 0 (kids nd);
              Ok [Heat id (avg nd) (match ch with [] => [] | _ => ch ++ [Heat 0 (codeavg nd) []] end)]
          | None =>
              (fix go (k : nat) (i : Z) (l : list (option nat)) : res (list heat) :=
                 match k with
                 | O => Ok []
                 | S k' =>
                     do c <- (match l with c :: _ => Ok c | [] => UB end);
                     do x <- heat_out f a c (Z.lor id (wrap 16 (Z.shiftl i (4 * idlevel)))) (idlevel + 1);
                     do y <- go k' (i + 1) (tl l);
                     Ok (x ++ y)
                 end) 16%nat 0 (kids nd)
          end
      end
  end.
(** profiler.cpp 103-104: the heat map *)
Definition HeatOutput (s : prof) : res (list heat) := heat_out (S (S (length (arena s)))) (arena s) (Some 0%nat) 0 0.
