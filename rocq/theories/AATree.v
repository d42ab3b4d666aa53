(* Model of AATree<T, CFunc> (include/bss-util/AATree.h).  Every node but the sentinel has one parent, so the pointer
   structure is an inductive tree whose leaves are the sentinel; nodes carry an identity (their address), because
   _remove keeps pointers to nodes of the tree in _deleted and _last.  Elements are plain data; allocation succeeds. *)
From Coq Require Import List ZArith Bool Arith.
From Verif Require Import Common.
Import ListNotations.
Local Open Scope Z_scope.

Section AA.
Context {T : Type} (cmp : T -> T -> Z).

(** AATree.h:11-18 [AANODE]: level, left, address, data, right; [Leaf] is the sentinel, whose level is 0 (27, 34) *)
Inductive tree := Leaf | Node (lv : Z) (l : tree) (id : nat) (d : T) (r : tree).
Definition level (t : tree) : Z := match t with Leaf => 0 | Node lv _ _ _ _ => lv end.
Definition right (t : tree) : tree := match t with Leaf => Leaf | Node _ _ _ _ r => r end.

(** AATree.h:86-95 [_skew]; on the sentinel the assignments restore what was there.  A node of level 0 would be
    rotated with the sentinel, which would corrupt it: UB *)
Definition skew (t : tree) : res tree :=
  match t with
  | Leaf => Ok Leaf
  | Node lv l id d r =>
    match l with
    | Leaf => if lv =? 0 then UB else Ok t
    | Node llv ll lid ld lr => if lv =? llv then Ok (Node llv ll lid ld (Node lv lr id d r)) else Ok t
    end
  end.
(** AATree.h:96-106 [_split]; on the sentinel it would raise the sentinel's level: UB *)
Definition split (t : tree) : res tree :=
  match t with
  | Leaf => UB
  | Node lv l id d r =>
    if level (right r) =? lv then
      match r with
      | Leaf => UB
      | Node rlv rl rid rd rr => Ok (Node (rlv + 1) (Node lv l id d rl) rid rd rr)
      end
    else Ok t
  end.
(** _skew(n->right), _split(n->right), _skew(n->right->right): the sentinel's children are the sentinel *)
Definition on_right (f : tree -> res tree) (t : tree) : res tree :=
  match t with
  | Leaf => do t1 <- f Leaf; Ok t1
  | Node lv l id d r => do r1 <- f r; Ok (Node lv l id d r1)
  end.

(** AATree.h:107-125 [_insert]; the new node is at address [new] *)
Fixpoint insert (new : nat) (x : T) (t : tree) : res tree :=
  match t with
  | Leaf => Ok (Node 1 Leaf new x Leaf)
  | Node lv l id d r =>
    do t1 <- (if cmp x d <? 0 then do l1 <- insert new x l; Ok (Node lv l1 id d r)
              else do r1 <- insert new x r; Ok (Node lv l id d r1));
    do t2 <- skew t1;
    split t2
  end.

(** AATree.h:46-61 [Get], the data of the node found *)
Fixpoint Get (x : T) (t : tree) : option T :=
  match t with
  | Leaf => None
  | Node _ l _ d r => if cmp x d =? -1 then Get x l else if cmp x d =? 1 then Get x r else Some d
  end.

(** AATree.h:153-160: the rebalancing of _remove *)
Definition rebalance (lv : Z) (l : tree) (id : nat) (d : T) (r : tree) : res tree :=
  let lv := lv - 1 in
  let r := match r with Node rlv rl rid rd rr => if lv <? rlv then Node lv rl rid rd rr else r | Leaf => r end in
  do t <- skew (Node lv l id d r);
  do t <- on_right skew t;
  do t <- on_right (on_right skew) t;
  do t <- split t;
  on_right split t.

(** _deleted (166): not initialised by the constructors; the sentinel; or a node *)
Inductive dptr := DGarbage | DSentinel | DNode (id : nat).
(** p->data, read in the tree as it was when Remove was called (nothing is written before the last such read) *)
Fixpoint lookup (i : nat) (t : tree) : option T :=
  match t with
  | Leaf => None
  | Node _ l id d r => if Nat.eqb i id then Some d else match lookup i l with Some v => Some v | None => lookup i r end
  end.
(** AATree.h:142: _deleted != _sentinel && !CFunc(data, _deleted->data) *)
Definition test (t0 : tree) (x : T) (del : dptr) : res bool :=
  match del with
  | DSentinel => Ok false
  | DGarbage => UB
  | DNode i => match lookup i t0 with Some d => Ok (cmp x d =? 0) | None => UB end
  end.
Definition last_is (last : option nat) (id : nat) : bool := match last with Some i => Nat.eqb i id | None => false end.

(** AATree.h:126-164 [_remove]; returns the subtree, the result, _deleted, _last (None: the sentinel), and the assignment
    _deleted->data = n->data, which is carried out when the outermost call returns: nothing reads that node before. *)
Fixpoint remove (t0 : tree) (x : T) (t : tree) (del : dptr) (last : option nat) : res (tree * bool * dptr * option nat * option (nat * T)) :=
  match t with
  | Leaf => Ok (Leaf, false, del, last, None)
  | Node lv l id d r =>
    do (l1, r1, b, del, last, w) <-
      (if cmp x d <? 0 then do (l1, b, del, last, w) <- remove t0 x l del (Some id); Ok (l1, r, b, del, last, w)
       else do (r1, b, del, last, w) <- remove t0 x r (DNode id) (Some id); Ok (l, r1, b, del, last, w));
    do hit <- (if last_is last id then test t0 x del else Ok false);
    if (hit : bool) then
      match del with
      | DNode i => Ok (r1, true, DSentinel, None, Some (i, d))
      | _ => UB
      end
    else if (level l1 <? lv - 1) || (level r1 <? lv - 1) then
      do t1 <- rebalance lv l1 id d r1; Ok (t1, b, del, last, w)
    else Ok (Node lv l1 id d r1, b, del, last, w)
  end.
(** _deleted->data = v *)
Fixpoint put (i : nat) (v : T) (t : tree) : tree :=
  match t with
  | Leaf => Leaf
  | Node lv l id d r => Node lv (put i v l) id (if Nat.eqb i id then v else d) (put i v r)
  end.

(** AATree.h:166-169: _root, _deleted; _last is only read after being set by the same call; next: the next fresh address *)
Record aatree := { root : tree; deleted : dptr; next : nat }.
(** AATree.h:25-37: constructors *)
Definition new_aatree : aatree := {| root := Leaf; deleted := DGarbage; next := 0 |}.
(** AATree.h:43 [Insert] *)
Definition Insert (s : aatree) (x : T) : res aatree :=
  do t <- insert (next s) x (root s); Ok {| root := t; deleted := deleted s; next := S (next s) |}.
(** AATree.h:44 [Remove] *)
Definition Remove (s : aatree) (x : T) : res (aatree * bool) :=
  do (t, b, del, _, w) <- remove (root s) x (root s) (deleted s) None;
  let t := match w with Some (i, v) => put i v t | None => t end in
  Ok ({| root := t; deleted := del; next := next s |}, b).
(** in-order traversal of the tree, the order [_traverse] (79-85) intends; that function never stops at the sentinel *)
Fixpoint nodes (t : tree) : list (nat * T) :=
  match t with Leaf => [] | Node _ l id d r => nodes l ++ (id, d) :: nodes r end.
Definition elements (s : aatree) : list T := map snd (nodes (root s)).

Inductive a_op := OInsert (x : T) | ORemove (x : T).
Definition a_step (s : aatree) (o : a_op) : res (aatree * bool) :=
  match o with
  | OInsert x => do s1 <- Insert s x; Ok (s1, true)
  | ORemove x => Remove s x
  end.
End AA.
Arguments tree T : clear implicits.
Arguments aatree T : clear implicits.
Arguments a_op T : clear implicits.
