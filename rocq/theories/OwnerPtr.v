(* Model of bss::OwnerPtr (SmartPtr.h:13-76).
   Objects are numbers; [deleted] is the list of the calls of the deleter on a pointer that is not null (deleting null does
   nothing). Nothing else is known about the objects. *)
From Coq Require Import List Arith Bool.
From Verif Require Import Common.
Import ListNotations.

(** SmartPtr.h:74-75: _p and _owner. *)
Record optr := mkp { p_ : option nat; owner_ : bool }.
(** All the OwnerPtr variables of the program, None once destroyed (SmartPtr.h:18-76), and the deletions so far. *)
Record state := mk { vars : list (option optr); deleted : list nat }.

(** SmartPtr.h:72 [_disown]. *)
Definition disown (d : list nat) (x : optr) : list nat :=
  if owner_ x then match p_ x with Some o => d ++ [o] | None => d end else d.
(** A constructed variable (SmartPtr.h:74-75); using any other is undefined. *)
Definition load (s : state) (v : nat) : res optr :=
  do x <- get (vars s) v; match x with Some x => Ok x | None => UB end.

Inductive op :=
| Raw (p : option nat)       (* OwnerPtr v(OwnerPtrRef(p)) *)
| Ref (o : nat)              (* OwnerPtr v(reference) *)
| Null                       (* OwnerPtr v *)
| Copy (w : nat)             (* OwnerPtr v(w) *)
| Move (w : nat)             (* OwnerPtr v(std::move(w)) *)
| Destroy (v : nat)          (* ~OwnerPtr *)
| AssignRaw (v : nat) (p : option nat)
| AssignRef (v o : nat)
| AssignCopy (v w : nat)
| AssignMove (v w : nat).
(** SmartPtr.h:25, 26, 27, 21-23, 24, 28 (construction and destruction), 41-47 [operator=] of a raw pointer, 55-61 of a
    reference, 48-54 of an OwnerPtr, 62-69 of an OwnerPtr rvalue. *)
Definition step (s : state) (o : op) : res state :=
  match o with
  | Raw p => Ok (mk (vars s ++ [Some (mkp p (match p with Some _ => true | None => false end))]) (deleted s))
  | Ref o => Ok (mk (vars s ++ [Some (mkp (Some o) false)]) (deleted s))
  | Null => Ok (mk (vars s ++ [Some (mkp None false)]) (deleted s))
  | Copy w => do x <- load s w; Ok (mk (vars s ++ [Some (mkp (p_ x) false)]) (deleted s))
  | Move w => do x <- load s w; do vs <- set (vars s) w (Some (mkp (p_ x) false)); Ok (mk (vs ++ [Some x]) (deleted s))
  | Destroy v => do x <- load s v; do vs <- set (vars s) v None; Ok (mk vs (disown (deleted s) x))
  | AssignRaw v p => do x <- load s v; do vs <- set (vars s) v (Some (mkp p true)); Ok (mk vs (disown (deleted s) x))
  | AssignRef v o => do x <- load s v; do vs <- set (vars s) v (Some (mkp (Some o) false)); Ok (mk vs (disown (deleted s) x))
  | AssignCopy v w =>
      do x <- load s v; do y <- load s w;
      do vs <- set (vars s) v (Some (mkp (p_ y) false)); Ok (mk vs (disown (deleted s) x))
  | AssignMove v w =>
      do x <- load s v; do y <- load s w;
      do vs <- set (vars s) v (Some (mkp (p_ y) true));
      do vs <- set vs w (Some (mkp (p_ y) false));    (* right._owner = false; right._p is unchanged *)
      Ok (mk vs (disown (deleted s) x))
  end.
