(* Model of Delegate, StoreFunction, StoreDelegate and the deferred calls (include/bss-util/Delegate.h).  A pointer is a number, 0 the null
   pointer; the functions that are called are parameters: from the world (anything they read or change), the object and the arguments to
   the world and a result. *)
From Coq Require Import List Arith.
From Verif Require Import Common.
Import ListNotations.

Section Delegate.
Context {W A R : Type}.
(** a function without an object, Delegate.h:17, and one with *)
Definition free_fn := A -> W -> W * R.
Definition obj_fn := nat -> A -> W -> W * R.
(** Delegate.h:41-53: the stubs: Stub and StubConst of member functions, StubLambda (the std::function at an address), StubStateless, StubC and
    StubConstC; StubEmbed is not used *)
Inductive stub := SMember (f : obj_fn) | SLambda (f : obj_fn) | SStateless (f : free_fn) | SC (f : obj_fn).
(** Delegate.h:56-57: _src and _stub *)
Record delegate := D { src : nat; fn : option stub }.
(** Delegate.h:20-23, 25: copy, assignment (the same), from a std::function at an address, empty *)
Definition copy (d : delegate) : delegate := D (src d) (fn d).
Definition of_function (p : nat) (f : obj_fn) : delegate := D p (Some (SLambda f)).
Definition empty : delegate := D 0 None.
(** Delegate.h:30-39: From and FromC *)
Definition From (p : nat) (f : obj_fn) : delegate := D p (Some (SMember f)).
Definition FromC (f : free_fn) : delegate := D 0 (Some (SStateless f)).
Definition FromCObj (p : nat) (f : obj_fn) : delegate := D p (Some (SC f)).
(** Delegate.h:24, 41-52 the call: a null stub, a member function of a null object and a std::function at null are undefined *)
Definition call (d : delegate) (a : A) (w : W) : res (W * R) :=
  match fn d with
  | None => UB
  | Some (SMember f) | Some (SLambda f) => if src d =? 0 then UB else Ok (f (src d) a w)
  | Some (SStateless f) => Ok (f a w)
  | Some (SC f) => Ok (f (src d) a w)
  end.
(** Delegate.h:26 *)
Definition IsEmpty (d : delegate) : bool := (src d =? 0) || match fn d with None => true | Some _ => false end.

(** Delegate.h:60-71, 73-84: the stored arguments and what is called *)
Record stored := St { args : A; target : A -> W -> res (W * R) }.
Definition StoreFunction (f : free_fn) (a : A) : stored := St a (fun a w => Ok (f a w)).
Definition StoreDelegate (d : delegate) (a : A) : stored := St a (call d).
(** Delegate.h:64-65, 70: Call and operator() *)
Definition Call (s : stored) (w : W) : res (W * R) := target s (args s) w.
(** Delegate.h:86-98, 100-103: the deferred calls of a block, the first declared first: the destructors run in the reverse order; returning
    the object by value makes no copy *)
Fixpoint leave (l : list stored) (w : W) : res W :=
  match l with [] => Ok w | s :: l => do w <- leave l w; do (w, _) <- Call s w; Ok w end.
(** Delegate.h:86-98: an object that is copied (the copy constructor is the implicit one): both are destroyed, the copy first *)
Definition leave_copied (s : stored) (w : W) : res W := leave [s; s] w.
End Delegate.
Arguments stub : clear implicits.
Arguments delegate : clear implicits.
Arguments stored : clear implicits.
