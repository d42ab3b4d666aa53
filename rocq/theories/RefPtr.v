(* Model of bss::RefCounter and bss::ref_ptr (RefCounter.h).
   An object is its reference count and whether it still exists; touching an object that does not exist is undefined.
   Objects have no ref_ptr members, so destroying one triggers no further Drop. *)
From Coq Require Import List Arith ZArith Bool.
From Verif Require Import Common.
Import ListNotations.

(** RefCounter.h:11-42 [RefCounter]: _refs, and whether the object exists. *)
Record obj := mkobj { refs : Z; exists_ : bool }.
(** A ref_ptr variable (RefCounter.h:45-87): None if it is not constructed (or destroyed), else its _p. *)
Definition var := option (option nat).
(** All the ref_ptr variables and RefCounter objects of the program (RefCounter.h:11-87). *)
Record state := mk { vars : list var; heap : list obj }.

(** RefCounter.h:16 [Grab]. *)
Definition Grab (h : list obj) (o : nat) : res (list obj) :=
  do x <- get h o;
  if exists_ x then set h o (mkobj (refs x + 1) true) else UB.
(** RefCounter.h:19-28 [Drop]; the object is deleted when the count reaches zero. The assert is not modelled. *)
Definition Drop (h : list obj) (o : nat) : res (list obj) :=
  do x <- get h o;
  if exists_ x then
    if (refs x - 1 >? 0)%Z then set h o (mkobj (refs x - 1) true) else set h o (mkobj (refs x - 1) false)
  else UB.
(** RefCounter.h:49, 51, 79-80: [if(_p != 0) _p->Grab()]. *)
Definition GrabIf (h : list obj) (p : option nat) : res (list obj) := match p with Some o => Grab h o | None => Ok h end.
(** RefCounter.h:52, 66-67, 75-76: [if(_p != 0) _p->Drop()]. *)
Definition DropIf (h : list obj) (p : option nat) : res (list obj) := match p with Some o => Drop h o | None => Ok h end.
(** The _p of a constructed variable; using any other variable is undefined (RefCounter.h:86). *)
Definition ptr (s : state) (v : nat) : res (option nat) :=
  do x <- get (vars s) v; match x with Some p => Ok p | None => UB end.

Inductive op :=
| NewObj                    (* new T: the count starts at 0 *)
| Construct (p : option nat)  (* ref_ptr v(p), p a raw pointer *)
| Copy (w : nat)            (* ref_ptr v(w) *)
| Move (w : nat)            (* ref_ptr v(std::move(w)) *)
| Destroy (v : nat)         (* ~ref_ptr *)
| Assign (v : nat) (p : option nat)
| AssignCopy (v w : nat)
| AssignMove (v w : nat).
(** RefCounter.h:73-83 [operator=] of a raw pointer. *)
Definition assign (s : state) (v : nat) (p : option nat) : res state :=
  do x <- ptr s v;
  do h <- DropIf (heap s) x;
  do vs <- set (vars s) v (Some p);
  do h <- GrabIf h p;
  Ok (mk vs h).
(** RefCounter.h:32 (new objects), 51 [ref_ptr] of a raw pointer, 49 [ref_ptr(const ref_ptr&)], 50 [ref_ptr(ref_ptr&&)], 52 [~ref_ptr],
    73-83 [operator=] of a raw pointer, 63 [operator=(const ref_ptr&)], 64-72 [operator=(ref_ptr&&)]. *)
Definition step (s : state) (o : op) : res state :=
  match o with
  | NewObj => Ok (mk (vars s) (heap s ++ [mkobj 0 true]))
  | Construct p => do h <- GrabIf (heap s) p; Ok (mk (vars s ++ [Some p]) h)
  | Copy w => do p <- ptr s w; do h <- GrabIf (heap s) p; Ok (mk (vars s ++ [Some p]) h)
  | Move w => do p <- ptr s w; do vs <- set (vars s) w (Some None); Ok (mk (vs ++ [Some p]) (heap s))
  | Destroy v => do p <- ptr s v; do h <- DropIf (heap s) p; do vs <- set (vars s) v None; Ok (mk vs h)
  | Assign v p => assign s v p
  | AssignCopy v w => do p <- ptr s w; assign s v p
  | AssignMove v w =>
      do x <- ptr s v;
      do h <- DropIf (heap s) x;
      do p <- ptr s w;
      do vs <- set (vars s) v (Some p);
      do vs <- set vs w (Some None);
      Ok (mk vs h)
  end.
