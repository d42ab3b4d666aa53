(* Model of the iterators of ArrayCircular (include/bss-util/ArrayCircular.h:133-158), of its serialisation as pairs (160-178, Serializer.h:289-301) and of
   the move constructor (26-30), over the arrays of ArrayCircular.v.  An iterator is its member cur; the array it refers to is a parameter.  What is
   written is the list of the pairs in order; the engine gives the same list back, pair by pair. *)
From Coq Require Import List ZArith Bool.
From Verif Require Import Common Growth DynArray ArrayCircular.
Import ListNotations.
Local Open Scope Z_scope.

Section Iter.
  Context {T : Type} (m : mode).
  (** ArrayCircular.h:155, 157 [begin] *)
  Definition begin : Z := 0.
  (** ArrayCircular.h:156, 158 [end] *)
  Definition iend (s : circ T) : Z := clen s.
  (** ArrayCircular.h:143 [operator*] *)
  Definition deref (s : circ T) (it : Z) : res T := At s it.
  (** ArrayCircular.h:144-145 [++] *)
  Definition inc (it : Z) : Z := it + 1.
  (** ArrayCircular.h:146-147 [--] *)
  Definition dec (it : Z) : Z := it - 1.

  (** the loop for(auto it = begin; it != end; ++it) of a user and of Serializer.h:294-296 (148-149 compare cur): the items in the order they are looked at *)
  Fixpoint walk (fuel : nat) (s : circ T) (it : Z) : res (list T) :=
    match fuel with
    | O => OutOfFuel
    | S fuel => if it =? iend s then Ok [] else do x <- deref s it; do l <- walk fuel s (inc it); Ok (x :: l)
    end.
  (** the loop while(it != begin) that looks at *--it (ArrayCircular.h:146, 149) *)
  Fixpoint walk_back (fuel : nat) (s : circ T) (it : Z) : res (list T) :=
    match fuel with
    | O => OutOfFuel
    | S fuel => if it =? begin then Ok [] else let it := dec it in do x <- deref s it; do l <- walk_back fuel s it; Ok (x :: l)
    end.
  (** ArrayCircular.h:172-178 [_serializeInsert] for every pair, in the order of Serializer.h:299-300 *)
  Fixpoint read (s : circ T) (l : list T) : res (circ T) :=
    match l with
    | [] => Ok s
    | x :: l => do s <- circ_push m s x; read s l
    end.
  (** ArrayCircular.h:26-30: the move constructor, with what is left of mov (Array.h:110-114) *)
  Definition move_new (mov : circ T) : circ T * circ T :=
    ({| slots := slots mov; cur := cur mov; clen := clen mov |}, {| slots := []; cur := -1; clen := 0 |}).
End Iter.
