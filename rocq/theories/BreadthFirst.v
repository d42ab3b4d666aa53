(** * Breadth-first traversal of a binary tree

    Model of [BreadthFirstTree] (algo.h 295-323). *)
From Coq Require Import Arith List Bool.
From Verif Require Import Common.
Import ListNotations.

Section BreadthFirst.
Context {A : Type}.

(** The tree as reached through the template arguments LCHILD and RCHILD
    (algo.h 296); [Nil] is the null pointer. *)
Inductive tree : Type :=
| Nil
| Node (l : tree) (x : A) (r : tree).

(** FACTION (algo.h 296), a callback that may keep state: its result may
    depend on all nodes it has been called with, the last one included. *)
Context (quit : list A -> bool).

Definition nonnull (t : tree) : nat := match t with Nil => 0 | _ => 1 end.

(** The loop: algo.h 313-322.  A slot is [None] while it holds no defined
    value; a null or undefined pointer handed to FACTION, LCHILD or RCHILD is
    undefined behaviour.  [acc] lists the calls of FACTION so far. *)
Fixpoint bft_loop (fuel : nat) (queue : list (option tree)) (i l n : nat) (acc : list A)
  : res (list A) :=
  match fuel with
  | O => OutOfFuel
  | S fuel =>
      if i =? l then Ok acc                                  (* 313 *)
      else
        do q <- get queue i;
        match q with
        | Some (Node lc x _) =>
            let acc := acc ++ [x] in
            if quit acc then Ok acc                          (* 315-316 *)
            else
              do queue <- set queue l (Some lc);             (* 318 *)
              let l := (l + nonnull lc) mod n in             (* 319 *)
              do q <- get queue i;
              match q with
              | Some (Node _ _ rc) =>
                  do queue <- set queue l (Some rc);         (* 320 *)
                  let l := (l + nonnull rc) mod n in         (* 321 *)
                  bft_loop fuel queue ((i + 1) mod n) l n acc
              | _ => UB
              end
        | _ => UB
        end
  end.

(** [BreadthFirstTree(root, n)]: algo.h 297-323. *)
Definition BreadthFirstTree (fuel : nat) (root : tree) (n : nat) : res (list A) :=
  if n =? 0 then Ok []                                       (* 299-300 *)
  else if n =? 1 then                                        (* 302-306 *)
    match root with Node _ x _ => Ok [x] | Nil => UB end
  else
    let n := n / 2 + 1 in                                    (* 308 *)
    do queue <- set (repeat None n) 0 (Some root);           (* 309-310 *)
    bft_loop fuel queue 0 1 n [].                            (* 311 *)

End BreadthFirst.
Arguments tree : clear implicits.
