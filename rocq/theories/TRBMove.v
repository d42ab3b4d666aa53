(* Model of the life of a TRBtree object (include/bss-util/TRBtree.h:401-446, 481-494), of its allocator (Alloc.h:113-142) and
   of DEBUGVERIFY (TRBtree.h:168-187, 536).  The contents of the tree are those of TRBtree.v; here each object also has its
   sentinel NIL, a node obtained from the allocator whose own value is constructed, and the allocation policy. *)
From Coq Require Import List ZArith Bool Arith.
From Verif Require Import Common Dll LLBase TRBtree.
Import ListNotations.

(** the memory of a sentinel: just allocated, or holding k values that were constructed and not destroyed (k is 1 after
    TRB_Node(0), TRBtree.h:386; constructing over a live value adds one).  Its left and right are not kept: no function
    modelled reads them. *)
Inductive cell := Raw | Built (k : nat).
(** the sentinels in memory, with the policy each came from; values lost because their memory was given back or reused
    without a destructor call *)
Record mem := { cells : nat -> option (nat * cell); fresh : nat; lost : nat }.

(** Alloc.h:125: _policy->allocate(1); a null policy is undefined behaviour *)
Definition alloc (m : mem) (p : option nat) : res (mem * nat) :=
  match p with
  | None => UB
  | Some q => Ok ({| cells := fset (cells m) (fresh m) (Some (q, Raw)); fresh := S (fresh m); lost := lost m |}, fresh m)
  end.
(** new (a) TRB_Node<T>(0), TRBtree.h:386 *)
Definition construct (m : mem) (a : nat) : res mem :=
  match cells m a with
  | None => UB
  | Some (q, c) => Ok {| cells := fset (cells m) a (Some (q, Built (match c with Raw => 1 | Built k => S k end)));
                         fresh := fresh m; lost := lost m |}
  end.
(** a->~TRB_Node(): the value in the node must have been constructed *)
Definition destruct_node (m : mem) (a : nat) : res mem :=
  match cells m a with
  | Some (q, Built (S k)) => Ok {| cells := fset (cells m) a (Some (q, Built k)); fresh := fresh m; lost := lost m |}
  | _ => UB
  end.
(** Alloc.h:126: _policy->deallocate(a, 1), with a null policy or memory of another policy undefined behaviour *)
Definition dealloc (m : mem) (p : option nat) (a : nat) : res mem :=
  match p, cells m a with
  | Some q, Some (q', c) =>
    if Nat.eqb q q' then Ok {| cells := fset (cells m) a None; fresh := fresh m;
                               lost := lost m + match c with Raw => 0 | Built k => k end |}
    else UB
  | _, _ => UB
  end.

(** TRBtree.h:168-187 DEBUGVERIFY; [nc] is the read of NIL->color (true: not 0).  left->parent and right->parent are not
    compared: in TRBtree.v a node's parent is its position in the tree. *)
Definition color (nc : res bool) (t : tree) : res bool := match t with Leaf => nc | Node c _ _ _ => Ok c end.
Fixpoint verify (nc : res bool) (h : heap) (t : tree) : res Z :=
  match t with
  | Leaf => do c <- nc; Ok (if c : bool then (-1)%Z else 1%Z)
  | Node c l id r =>
    do bad <- (if c then do cl <- color nc l; if cl : bool then Ok true else color nc r else Ok false);
    if bad : bool then Ok (-1)%Z else
    do nd <- rd h (Some id);
    do b1 <- match fst nd with None => Ok false | Some n => do p <- rd_prev h (Some n); Ok (negb (peq p (Some id))) end;
    if b1 : bool then Ok (-1)%Z else
    do b2 <- match snd nd with None => Ok false | Some n => do p <- rd_next h (Some n); Ok (negb (peq p (Some id))) end;
    if b2 : bool then Ok (-1)%Z else
    do a <- verify nc h l;
    do b <- verify nc h r;
    if ((a <? 0) || (b <? 0) || negb (b =? a))%Z then Ok (-1)%Z else Ok (a + (if c then 0 else 1))%Z
  end.

Section Obj.
Context {T : Type} (cmp : T -> T -> Z).
(** whether the allocator has no state (StandardAllocator, Alloc.h:35-91) or holds a policy pointer (PolymorphicAllocator,
    Alloc.h:113-142); a stateless one is the policy 0 here *)
Context (stateless : bool).

(** TRBtree.h:537-541 and the inherited allocator; [own i] is the policy that gave node i *)
Record obj := { tr : trb T; nilp : nat; pol : option nat; own : nat -> nat }.
(** _first = 0, _last = 0, _root = NIL; node addresses are counted per object, so they can restart *)
Definition emptied (s : trb T) : trb T := new_trb (val s).

(** TRBtree.h:411-427 constructors *)
Definition new_obj (m : mem) (p : option nat) (v : nat -> T) : res (mem * obj) :=
  do (m1, a) <- alloc m p;
  do m2 <- construct m1 a;
  Ok (m2, {| tr := new_trb v; nilp := a; pol := p; own := fun _ => 0 |}).

(** TRBtree.h:452-474 Insert and Remove: the node comes from the policy and goes back to it *)
Definition o_step (o : obj) (op : t_op T) : res (obj * (nat + bool)) :=
  match pol o with
  | None => UB
  | Some q =>
    match match op with OInsert _ => None | ORemove x => Get cmp (tr o) x | ORemoveNode id => Some id end with
    | Some id =>
      if Nat.eqb (own o id) q then
        do (s, r) <- t_step cmp (tr o) op; Ok ({| tr := s; nilp := nilp o; pol := pol o; own := own o |}, r)
      else UB
    | None =>
      do (s, r) <- t_step cmp (tr o) op;
      Ok ({| tr := s; nilp := nilp o; pol := pol o; own := match r with inl n => fset (own o) n q | inr _ => own o end |}, r)
    end
  end.

(** TRBtree.h:433-437, the loop of Clear: the nodes given back, in order; the link of a node is read after its destructor *)
Fixpoint clear_walk (fuel : nat) (p : option nat) (ow : nat -> nat) (h : heap) (c : ptr) : res (list nat) :=
  match c with
  | None => Ok []
  | Some i =>
    match fuel, p with
    | 0, _ => OutOfFuel
    | _, None => UB
    | S f, Some q =>
      if Nat.eqb (ow i) q then
        do n <- rd_next h c; do l <- clear_walk f p ow (fset h i None) n; Ok (i :: l)
      else UB
    end
  end.
(** TRBtree.h:431-442 Clear *)
Definition Clear (o : obj) : res (obj * list nat) :=
  do l <- clear_walk (nxt (tr o)) (pol o) (own o) (hp (tr o)) (first (tr o));
  Ok ({| tr := emptied (tr o); nilp := nilp o; pol := pol o; own := own o |}, l).
(** TRBtree.h:429 destructor *)
Definition destroy (m : mem) (o : obj) : res (mem * list nat) :=
  do (o1, l) <- Clear o;
  do m1 <- destruct_node m (nilp o1);
  do m2 <- dealloc m1 (pol o1) (nilp o1);
  Ok (m2, l).

(** TRBtree.h:401-410 move constructor: destination and source; Alloc.h:121 takes the policy pointer from the source.
    The new sentinel belongs to the source, but the node is constructed at NIL, the one taken from the source. *)
Definition move_ctor (m : mem) (s : obj) : res (mem * (obj * obj)) :=
  do (m1, a) <- alloc m (pol s);
  do m2 <- construct m1 (nilp s);
  Ok (m2, ({| tr := tr s; nilp := nilp s; pol := pol s; own := own s |},
           {| tr := emptied (tr s); nilp := a; pol := if stateless then pol s else None; own := own s |})).
(** TRBtree.h:481-494 move assignment of two different objects: destination, source, nodes of the destination given back;
    the allocators stay where they are *)
Definition move_assign (d s : obj) : res (obj * obj * list nat) :=
  do (d1, l) <- Clear d;
  Ok ({| tr := tr s; nilp := nilp s; pol := pol d1; own := own s |},
      {| tr := emptied (tr s); nilp := nilp d1; pol := pol s; own := own d1 |}, l).

(** TRBtree.h:536 DEBUGVERIFY: color of a sentinel whose constructor never ran is indeterminate *)
Definition DEBUGVERIFY (m : mem) (o : obj) : res Z :=
  verify (match cells m (nilp o) with Some (_, Built _) => Ok false | _ => UB end) (hp (tr o)) (root (tr o)).
End Obj.
Arguments obj T : clear implicits.
