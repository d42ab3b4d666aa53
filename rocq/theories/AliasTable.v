(* Model of AliasTable<UINT, F> (include/bss-util/AliasTable.h) with F = exact rationals.
   Simplification: rational arithmetic instead of floating point; the arrays new F[_count], new UINT[_count] are lists of
   options, None being an element not written yet.  The copy constructor 15-20 and operator= 108-118 (which copy
   sizeof(UINT)*count bytes of an F array) and the move operations are not modelled. *)
From Coq Require Import List Arith QArith.
From Verif Require Import Common.
Import ListNotations.

(* AliasTable.h 129-132: _prob, _alias (_count is their length) *)
Record table := mkt { prob : list (option Q); alias : list (option nat) }.
(* AliasTable.h 33: average = 1.0 / _count *)
Definition average (n : nat) : Q := 1 / inject_Z (Z.of_nat n).
(* AliasTable.h 49/51/66/68: stack[n_stack++] = i for an array of n elements; the head of the list is the top *)
Definition push (n : nat) (s : list nat) (i : nat) : res (list nat) := if length s <? n then Ok (i :: s) else UB.
(* AliasTable.h 46-52: sorting the indices i, i+1, ... (pc: the remaining probabilities) into the two stacks *)
Fixpoint fill (n : nat) (pc : list Q) (i : nat) (small large : list nat) : res (list nat * list nat) :=
  match pc with
  | [] => Ok (small, large)
  | p :: pc => if Qle_bool (average n) p then do large <- push n large i; fill n pc (S i) small large
               else do small <- push n small i; fill n pc (S i) small large
  end.
(* AliasTable.h 56-69: the main loop.  fuel bounds the iterations. *)
Fixpoint pair_up (fuel : nat) (n : nat) (pc : list Q) (t : table) (small large : list nat) : res (table * list nat * list nat) :=
  match small, large with
  | l :: small, g :: large =>
      match fuel with
      | O => OutOfFuel
      | S fuel =>
          do pl <- get pc l;
          do pr <- set (prob t) l (Some (pl * inject_Z (Z.of_nat n)));
          do al <- set (alias t) l (Some g);
          do pg <- get pc g;
          let pg' := pg + pl - average n in
          do pc <- set pc g pg';
          if Qle_bool (average n) pg' then do large <- push n large g; pair_up fuel n pc (mkt pr al) small large
          else do small <- push n small g; pair_up fuel n pc (mkt pr al) small large
      end
  | _, _ => Ok (t, small, large)
  end.
(* AliasTable.h 72-75: while(n != 0) _prob[stack[--n]] = 1.0 *)
Fixpoint ones (pr : list (option Q)) (s : list nat) : res (list (option Q)) :=
  match s with
  | [] => Ok pr
  | i :: s => do pr <- set pr i (Some 1%Q); ones pr s
  end.
(* AliasTable.h 26-85: AliasTable(problist, count); a count of 0 gives the empty table (28-29) *)
Definition construct (p : list Q) : res table :=
  let n := length p in
  if n =? 0 then Ok (mkt [] []) else
  do (small, large) <- fill n p 0 [] [];
  do (t, small, large) <- pair_up n n p (mkt (repeat None n) (repeat None n)) small large;
  do pr <- ones (prob t) large;
  do pr <- ones pr small;
  Ok (mkt pr (alias t)).
(* AliasTable.h 93-99: Get for the outcomes c of the integer draw and u of the real draw; reading an unwritten element
   and failing the assertion r < _count are UB *)
Definition Get (t : table) (c : nat) (u : Q) : res nat :=
  do q <- get (prob t) c;
  match q with
  | None => UB
  | Some q => do r <- (if Qle_bool u q then Ok c else do a <- get (alias t) c; match a with Some a => Ok a | None => UB end);
              if r <? length (prob t) then Ok r else UB
  end.
