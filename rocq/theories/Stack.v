(* Model of Stack (include/bss-util/Stack.h:10-57) over the model of DynArray (DynArray.v, with its
   simplifications).  The copy and move constructors (lines 14-15) hand the Stack itself to the constructors
   of DynArray, which do not take it: they do not compile and are not modelled. *)
From Coq Require Import List Arith Bool.
From Verif Require Import Common DynArray.
Import ListNotations.

Section Stack.
Context {T : Type} (dflt : T) (m : mode).

(** Stack.h:18 *)
Definition st_new (init : nat) : dyn T := da_new init.
(** Stack.h:21-22 [Push] *)
Definition Push (s : dyn T) (v : T) : res (dyn T) := do r <- Add m s v; Ok (fst r).
(** DynArray.h:77-80 [Back] is the last element, which must exist *)
Definition back (s : dyn T) : res nat := if len s =? 0 then UB else Ok (len s - 1).
(** T r(std::move(Back())): plain data is copied and must have been set, an object is moved from *)
Definition take (s : dyn T) (i : nat) : res (T * dyn T) :=
  if is_simple m then do c <- get (cells s) i; match c with Val v => Ok (v, s) | _ => UB end
  else do vc <- move_out (cells s) i; Ok (fst vc, {| cells := snd vc; len := len s |}).
(** Stack.h:24 [Pop] *)
Definition Pop (s : dyn T) : res (T * dyn T) :=
  do i <- back s;
  do vs <- take s i;
  do s' <- RemoveLast m (snd vs);
  Ok (fst vs, s').
(** Stack.h:26-27 [Peek] *)
Definition Peek (s : dyn T) : res (cell T) := do i <- back s; At s i.
(** Stack.h:29 [Discard] *)
Definition Discard (s : dyn T) : res (dyn T) := RemoveLast m s.
(** Stack.h:30, 35 [Clear], [SetLength] *)
Definition st_SetLength (s : dyn T) (n : nat) : res (dyn T) := SetLength dflt m s n.
Definition st_Clear (s : dyn T) : res (dyn T) := SetLength dflt m s 0.
(** Stack.h:41-42 [operator[]] *)
Definition st_at (s : dyn T) (i : nat) : res (cell T) := At s i.
(** Stack.h:19: the destructor of _array *)
Definition st_destroy (s : dyn T) : res unit := Destroy dflt m s.
End Stack.
