(* Model of AVLTree<Key, Data, CFunc> (include/bss-util/AVLTree.h).  Every node has exactly one parent, so the pointer
   structure is an inductive tree and writing through Node** is returning the new subtree; the identity of a node is its
   key and data.  Allocation succeeds; _balance is unbounded (it stays within -2..2).  A null dereference is UB. *)
From Coq Require Import List ZArith Bool.
From Verif Require Import Common.
Import ListNotations.
Local Open Scope Z_scope.

Section AVL.
Context {K D : Type} (cmp : K -> K -> Z).

(** AVLTree.h:11-26 [AVLNode]: left, key, data, balance, right *)
Inductive tree := Leaf | Node (l : tree) (k : K) (d : D) (bal : Z) (r : tree).

(** AVLTree.h:189-200 [_leftRotate] *)
Definition leftRotate (t : tree) : res tree :=
  match t with
  | Node l k d b (Node rl rk rd rb rr) =>
    let b1 := b - (1 + Z.max rb 0) in
    let rb1 := rb - (1 - Z.min b1 0) in
    Ok (Node (Node l k d b1 rl) rk rd rb1 rr)
  | _ => UB
  end.
(** AVLTree.h:202-213 [_rightRotate] *)
Definition rightRotate (t : tree) : res tree :=
  match t with
  | Node (Node ll lk ld lb lr) k d b r =>
    let b1 := b + (1 - Z.min lb 0) in
    let lb1 := lb + (1 + Z.max b1 0) in
    Ok (Node ll lk ld lb1 (Node lr k d b1 r))
  | _ => UB
  end.
Definition balance (t : tree) : res Z := match t with Node _ _ _ b _ => Ok b | Leaf => UB end.

(** AVLTree.h:282-319 [_rebalance] *)
Definition rebalance (t : tree) : res (tree * Z) :=
  match t with
  | Leaf => UB
  | Node l k d b r =>
    if b <? -1 then
      do lb <- balance l;
      if lb =? 1 then
        do l1 <- leftRotate l;
        do t1 <- rightRotate (Node l1 k d b r);
        Ok (t1, 1)
      else
        do t1 <- rightRotate t;
        Ok (t1, if lb =? 0 then 0 else 1)
    else if 1 <? b then
      do rb <- balance r;
      if rb =? -1 then
        do r1 <- rightRotate r;
        do t1 <- leftRotate (Node l k d b r1);
        Ok (t1, 1)
      else
        do t1 <- leftRotate t;
        Ok (t1, if rb =? 0 then 0 else 1)
    else Ok (t, 0)
  end.

(** AVLTree.h:214-245 [_insert]; returns the subtree, change and whether a node was created (a non-null return).  The
    new node's data is d: _setRaw (47, 108, 115) assigns it right after the call. *)
Fixpoint insert (k : K) (d : D) (t : tree) : res (tree * Z * bool) :=
  match t with
  | Leaf => Ok (Node Leaf k d 0 Leaf, 1, true)
  | Node l tk td b r =>
    let result := cmp tk k in
    if result =? 0 then Ok (t, 0, false) else
    do (l1, r1, change, created) <-
      (if result <? 0 then do (l1, c, n) <- insert k d l; Ok (l1, r, c, n)
       else do (r1, c, n) <- insert k d r; Ok (l, r1, c, n));
    let result := result * change in
    let b1 := b + result in
    let root := Node l1 tk td b1 r1 in
    if negb (result =? 0) && negb (b1 =? 0) then
      do (t1, rb) <- rebalance root; Ok (t1, 1 - rb, created)
    else Ok (root, 0, created)
  end.

(** AVLTree.h:247-262 [_find] *)
Fixpoint find (k : K) (t : tree) : option (K * D) :=
  match t with
  | Leaf => None
  | Node l tk td _ r =>
    if cmp tk k =? -1 then find k l else if cmp tk k =? 1 then find k r else Some (tk, td)
  end.
(** AVLTree.h:264-281 [_near] *)
Fixpoint near (k : K) (t : tree) (prev : option (K * D)) : option (K * D) :=
  match t with
  | Leaf => prev
  | Node l tk td _ r =>
    if cmp tk k =? -1 then near k l (Some (tk, td)) else if cmp tk k =? 1 then near k r (Some (tk, td)) else Some (tk, td)
  end.

(** AVLTree.h:360-362: the leftmost node of the right subtree *)
Fixpoint leftmost (t : tree) : res (K * D) :=
  match t with
  | Leaf => UB
  | Node Leaf k d _ _ => Ok (k, d)
  | Node l _ _ _ _ => leftmost l
  end.
(** AVLTree.h:321-375 [_remove]; returns the subtree, change, and the key and data of the returned node *)
Fixpoint remove (k : K) (t : tree) : res (tree * Z * option (K * D)) :=
  match t with
  | Leaf => Ok (Leaf, 0, None)
  | Node l tk td b r =>
    let result := cmp tk k in
    let fin l1 tk1 td1 r1 result retval :=
      let b1 := b - result in
      let root := Node l1 tk1 td1 b1 r1 in
      if result =? 0 then Ok (root, 0, retval)
      else if b1 =? 0 then Ok (root, 1, retval)
      else do (t1, rb) <- rebalance root; Ok (t1, rb, retval) in
    if result <? 0 then
      do (l1, change, retval) <- remove k l; fin l1 tk td r (result * change) retval
    else if 0 <? result then
      do (r1, change, retval) <- remove k r; fin l tk td r1 (result * change) retval
    else match l, r with
      | Leaf, Leaf => Ok (Leaf, 1, Some (tk, td))
      | Leaf, _ => Ok (r, 1, Some (tk, td))
      | _, Leaf => Ok (l, 1, Some (tk, td))
      | _, _ =>
        do (sk, sd) <- leftmost r;
        do (r1, result, retval) <- remove sk r;
        match retval with
        | Some (rk, rd) => fin l sk rd r1 result (Some (rk, td)) (* _swapData, 50-59 *)
        | None => fin l sk td r1 result None
        end
      end
  end.

(** AVLTree.h:167-176 [_traverse] *)
Fixpoint traverse (t : tree) : list (K * D) :=
  match t with Leaf => [] | Node l k d _ r => traverse l ++ (k, d) :: traverse r end.

(** AVLTree.h:104-117 [Insert]; true: a node was returned *)
Definition Insert (t : tree) (k : K) (d : D) : res (tree * bool) := do (t1, _, n) <- insert k d t; Ok (t1, n).
(** AVLTree.h:124-133 [Get], [GetRef]; None: INVALID or null *)
Definition Get (t : tree) (k : K) : option D := match find k t with Some (_, d) => Some d | None => None end.
(** AVLTree.h:123 [Near] *)
Definition Near (t : tree) (k : K) : option (K * D) := near k t None.
(** AVLTree.h:134-147 [Remove] *)
Definition Remove (t : tree) (k : K) : res (tree * bool) :=
  do (t1, _, o) <- remove k t; Ok (t1, match o with Some _ => true | None => false end).
(** AVLTree.h:148-162 [ReplaceKey]; dflt is Data(), the data of a node created by _insert *)
Definition ReplaceKey (dflt : D) (t : tree) (oldkey newkey : K) : res (tree * bool) :=
  do (t1, _, old) <- remove oldkey t;
  do (t2, _, n) <- insert newkey (match old with Some (_, d) => d | None => dflt end) t1;
  Ok (t2, n).
(** AVLTree.h:100 [Clear] *)
Definition Clear (t : tree) : tree := Leaf.
(** AVLTree.h:103 [Traverse]: the entries in the order the function is called on them *)
Definition Traverse (t : tree) : list (K * D) := traverse t.

Inductive t_op := OInsert (k : K) (d : D) | ORemove (k : K) | OReplaceKey (a b : K) | OClear.
Definition t_step (dflt : D) (t : tree) (o : t_op) : res (tree * bool) :=
  match o with
  | OInsert k d => Insert t k d
  | ORemove k => Remove t k
  | OReplaceKey a b => ReplaceKey dflt t a b
  | OClear => Ok (Clear t, true)
  end.
End AVL.
Arguments tree K D : clear implicits.
Arguments t_op K D : clear implicits.
