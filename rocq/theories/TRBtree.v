(* Model of the threaded red-black tree (include/bss-util/TRBtree.h): TRB_NodeBase and TRBtree.
   Nodes have an address (a number); the tree through left/right/color is an inductive tree of addresses whose leaves are
   NIL.  A position in the tree with its parent pointers is a zipper: the subtree at the node and the list of frames from
   its parent up to the root, so "node->parent" is the first frame and "node == node->parent->left" is the kind of that
   frame.  This represents pNIL->parent as well, which _fixDelete uses when the node it starts from is pNIL.  The thread
   (next/prev, first, last) is the pointer-level heap of LLBase.v. *)
From Coq Require Import List ZArith Bool Arith.
From Verif Require Import Common Dll LLBase.
Import ListNotations.

(** TRBtree.h:52-62: left, right, color (true: 1, red; false: 0, black); duplicates (color -1) are not in the tree *)
Inductive tree := Leaf | Node (red : bool) (l : tree) (id : nat) (r : tree).
(** parent links: the color and address of the parent and its other child; [FL]: we are its left child *)
Inductive frame := FL (red : bool) (id : nat) (r : tree) | FR (red : bool) (l : tree) (id : nat).
Definition path := list frame.
Definition up (t : tree) (f : frame) : tree := match f with FL c id r => Node c t id r | FR c l id => Node c l id t end.
Definition plug (t : tree) (p : path) : tree := fold_left up p t.
Definition is_red (t : tree) : bool := match t with Leaf => false | Node c _ _ _ => c end.
(** t->color = c; pNIL->color = 0 changes nothing, pNIL->color = 1 would be a corruption and does not occur *)
Definition paint (c : bool) (t : tree) : tree := match t with Leaf => Leaf | Node _ l id r => Node c l id r end.
Definition f_red (f : frame) : bool := match f with FL c _ _ => c | FR c _ _ => c end.
Definition f_paint (c : bool) (f : frame) : frame := match f with FL _ id r => FL c id r | FR _ l id => FR c l id end.
Definition f_id (f : frame) : nat := match f with FL _ id _ => id | FR _ _ id => id end.

(** TRBtree.h:190-205 [_leftRotate]; rotating pNIL up would write through it: UB *)
Definition leftRotate (t : tree) : res tree :=
  match t with Node c a x (Node c2 b y d) => Ok (Node c2 (Node c a x b) y d) | _ => UB end.
(** TRBtree.h:206-221 [_rightRotate] *)
Definition rightRotate (t : tree) : res tree :=
  match t with Node c (Node c2 a x b) y d => Ok (Node c2 a x (Node c b y d)) | _ => UB end.

(** TRBtree.h:222-277 [_fixInsert], loop; after a rotation the parent of node is black, so the loop test ends it *)
Fixpoint fixInsert_loop (t : tree) (p : path) : res tree :=
  match p with
  | [] => Ok t
  | f :: p1 =>
    if f_red f then
      match p1 with
      | [] => UB                                       (* node->parent->parent is null *)
      | FL _ gid y :: p2 =>
        if is_red y then fixInsert_loop (Node true (up t (f_paint false f)) gid (paint false y)) p2
        else
          do n <- (match f with FR _ _ _ => leftRotate (up t f) | FL _ _ _ => Ok (up t f) end);
          do g <- rightRotate (Node true (paint false n) gid y);
          Ok (plug g p2)
      | FR _ y gid :: p2 =>
        if is_red y then fixInsert_loop (Node true (paint false y) gid (up t (f_paint false f))) p2
        else
          do n <- (match f with FL _ _ _ => rightRotate (up t f) | FR _ _ _ => Ok (up t f) end);
          do g <- leftRotate (Node true y gid (paint false n));
          Ok (plug g p2)
      end
    else Ok (plug t p)
  end.
(** TRBtree.h:276: root->color = 0 *)
Definition fixInsert (t : tree) (p : path) : res tree := do r <- fixInsert_loop t p; Ok (paint false r).

(** TRBtree.h:293-314 and 327-348, the case of a sibling w that is black by now; [inl]: go on with node = node->parent;
    [inr]: the tree rooted where the parent was (node = root follows) *)
Definition fix_left (t : tree) (pc : bool) (pid : nat) (w : tree) : res (tree + tree) :=
  match w with
  | Leaf => UB                                         (* assert(w != pNIL) *)
  | Node wc wl wid wr =>
    if negb (is_red wl) && negb (is_red wr) then Ok (inl (Node pc t pid (Node true wl wid wr)))
    else
      do w <- (if negb (is_red wr) then rightRotate (Node true (paint false wl) wid wr) else Ok w);
      match w with
      | Leaf => UB
      | Node _ wl wid wr => do t1 <- leftRotate (Node false t pid (Node pc wl wid (paint false wr))); Ok (inr t1)
      end
  end.
Definition fix_right (t : tree) (pc : bool) (pid : nat) (w : tree) : res (tree + tree) :=
  match w with
  | Leaf => UB
  | Node wc wl wid wr =>
    if negb (is_red wr) && negb (is_red wl) then Ok (inl (Node pc (Node true wl wid wr) pid t))
    else
      do w <- (if negb (is_red wl) then leftRotate (Node true wl wid (paint false wr)) else Ok w);
      match w with
      | Leaf => UB
      | Node _ wl wid wr => do t1 <- rightRotate (Node false (Node pc (paint false wl) wid wr) pid t); Ok (inr t1)
      end
  end.
(** TRBtree.h:278-352 [_fixDelete] *)
Fixpoint fixDelete (fuel : nat) (t : tree) (p : path) : res tree :=
  match fuel with
  | O => OutOfFuel
  | S fuel =>
    match p with
    | [] => Ok (paint false t)
    | f :: p1 =>
      if is_red t then Ok (plug (paint false t) p)
      else
        match f with
        | FL pc pid w =>
          do (pc, w, p1) <-
            (match w with
             | Leaf => UB
             | Node true wl wid wr => Ok (true, wl, FL false wid wr :: p1)   (* 286-292: w black, parent red, _leftRotate *)
             | Node false _ _ _ => Ok (pc, w, p1)
             end);
          do n <- fix_left t pc pid w;
          match n with inl t1 => fixDelete fuel t1 p1 | inr t1 => Ok (paint false (plug t1 p1)) end
        | FR pc w pid =>
          do (pc, w, p1) <-
            (match w with
             | Leaf => UB
             | Node true wl wid wr => Ok (true, wr, FR false wl wid :: p1)
             | Node false _ _ _ => Ok (pc, w, p1)
             end);
          do n <- fix_right t pc pid w;
          match n with inl t1 => fixDelete fuel t1 p1 | inr t1 => Ok (paint false (plug t1 p1)) end
        end
    end
  end.

(** TRBtree.h:368-372 [_findMin]: color, address, right child and frames of the leftmost node *)
Fixpoint findMin (t : tree) (q : path) : option (bool * nat * tree * path) :=
  match t with
  | Leaf => None
  | Node c l id r => match l with Leaf => Some (c, id, r, q) | _ => findMin l (FL c id r :: q) end
  end.
(** TRBtree.h:373-378 [_treeNextSub], from the frames above node *)
Fixpoint treeNextSub (p : path) : ptr :=
  match p with [] => None | FL _ id _ :: _ => Some id | FR _ _ _ :: p => treeNextSub p end.
(** the position of a node given by its address *)
Fixpoint locate (id : nat) (t : tree) (p : path) : option (bool * tree * tree * path) :=
  match t with
  | Leaf => None
  | Node c l i r =>
    if Nat.eqb i id then Some (c, l, r, p)
    else match locate id l (FL c i r :: p) with Some x => Some x | None => locate id r (FR c l i :: p) end
  end.

Section TRB.
Context {T : Type} (cmp : T -> T -> Z).

(** TRBtree.h:537-540 fields; the nodes: links (LLBase), value, color == -1; nxt is the next fresh address *)
Record trb := { root : tree; first : ptr; last : ptr; hp : heap; val : nat -> T; dup : nat -> bool; nxt : nat }.
(** TRBtree.h:420-427 constructor *)
Definition new_trb (v : nat -> T) : trb := {| root := Leaf; first := None; last := None; hp := fun _ => None; val := v; dup := fun _ => false; nxt := 0 |}.
Definition fset {A} (f : nat -> A) (i : nat) (v : A) : nat -> A := fun j => if Nat.eqb j i then v else f j.

(** TRBtree.h:120-135, the search of InsertNode: the frames above the free place, or the equal node *)
Fixpoint descend (val : nat -> T) (x : T) (t : tree) (p : path) : path + nat :=
  match t with
  | Leaf => inl p
  | Node c l id r =>
    if (cmp x (val id) =? -1)%Z then descend val x l (FL c id r :: p)
    else if (cmp x (val id) =? 1)%Z then descend val x r (FR c l id :: p)
    else inr id
  end.
Definition is_dup (s : trb) (p : ptr) : bool := match p with Some i => dup s i | None => false end.

(** TRBtree.h:450-456 [Insert] and 107-165 [InsertNode]; returns the address of the new node *)
Definition Insert (s : trb) (x : T) : res (trb * nat) :=
  let n := nxt s in
  let h := fset (hp s) n (Some (None, None)) in
  let v := fset (val s) n x in
  let mk t f l h d := Ok ({| root := t; first := f; last := l; hp := h; val := v; dup := d; nxt := S n |}, n) in
  match descend v x (root s) [] with
  | inr cur =>
    do (h, l) <- LLInsertAfter h (Some n) (Some cur) (last s);
    mk (root s) (first s) l h (fset (dup s) n true)
  | inl [] => mk (Node false Leaf n Leaf) (Some n) (Some n) h (fset (dup s) n false)
  | inl ((FL _ par _ :: _) as p) =>
    do (h, f) <- LLInsert h (Some n) (Some par) (first s);
    do t <- fixInsert (Node true Leaf n Leaf) p;
    mk t f (last s) h (fset (dup s) n false)
  | inl ((FR _ _ par :: p1) as p) =>
    do pn <- rd_next h (Some par);
    do (h, f, l) <-
      (if is_dup s pn then
         match treeNextSub p1 with
         | None => do (h, l) <- LLAddAfter2 h (Some n) (last s); Ok (h, first s, l)
         | Some nx => do (h, f) <- LLInsert h (Some n) (Some nx) (first s); Ok (h, f, last s)
         end
       else do (h, l) <- LLInsertAfter h (Some n) (Some par) (last s); Ok (h, first s, l));
    do t <- fixInsert (Node true Leaf n Leaf) p;
    mk t f l h (fset (dup s) n false)
  end.

(** TRBtree.h:77-104: unlinking a node that is in the tree and has no duplicates *)
Definition tree_remove (t : tree) (id : nat) : res tree :=
  match locate id t [] with
  | None => UB                                         (* not a node of this tree *)
  | Some (c, l, r, p) =>
    match l, r with
    | Node _ _ _ _, Node _ _ _ _ =>
      match findMin r [] with
      | None => UB
      | Some (yc, yid, z, q) =>
        (* y takes the place and the color of node (_replaceNode, 353-367) *)
        let p := q ++ FR c l yid :: p in
        if negb yc then fixDelete (2 + length p) z p else Ok (plug z p)
      end
    | _, _ =>
      let z := match l with Leaf => r | _ => l end in
      if negb c then fixDelete (2 + length p) z p else Ok (plug z p)
    end
  end.
(** TRBtree.h:353-367 [_replaceNode] by a duplicate *)
Definition tree_replace (t : tree) (id y : nat) : res tree :=
  match locate id t [] with
  | None => UB
  | Some (c, l, r, p) => Ok (plug (Node c l y r) p)
  end.
(** TRBtree.h:69-104 [RemoveNode] and 460-469 [Remove](node): the node is freed *)
Definition RemoveNode (s : trb) (id : nat) : res trb :=
  do nx <- rd_next (hp s) (Some id);
  do (t, d) <-
    (if dup s id then Ok (root s, dup s)
     else if is_dup s nx then
       match nx with
       | Some y => do t <- tree_replace (root s) id y; Ok (t, fset (dup s) y false)
       | None => UB
       end
     else do t <- tree_remove (root s) id; Ok (t, dup s));
  do (h, (f, l)) <- LLRemove3 (hp s) (Some id) (first s) (last s);
  Ok {| root := t; first := f; last := l; hp := fset h id None; val := val s; dup := d; nxt := nxt s |}.

(** TRBtree.h:496-511 [GetNode], 444 [Get] *)
Fixpoint get (val : nat -> T) (x : T) (t : tree) : ptr :=
  match t with
  | Leaf => None
  | Node _ l id r =>
    if (cmp x (val id) =? -1)%Z then get val x l else if (cmp x (val id) =? 1)%Z then get val x r else Some id
  end.
Definition Get (s : trb) (x : T) : ptr := get (val s) x (root s).
(** TRBtree.h:458 [Remove](value) *)
Definition Remove (s : trb) (x : T) : res (trb * bool) :=
  match Get s x with
  | None => Ok (s, false)
  | Some id => do s1 <- RemoveNode s id; Ok (s1, true)
  end.
(** TRBtree.h:512-533 [GetNodeNear]; None: pNIL, returned for the empty tree *)
Definition GetNear (s : trb) (x : T) (before : bool) : res ptr :=
  match descend (val s) x (root s) [] with
  | inr id => Ok (Some id)
  | inl [] => Ok None
  | inl (f :: _) =>
    let par := f_id f in
    do (n, p) <- rd (hp s) (Some par);
    let neg := match f with FL _ _ _ => true | FR _ _ _ => false end in
    if before then Ok (if neg && negb (isnull p) then p else Some par)
    else Ok (if negb neg && negb (isnull n) then n else Some par)
  end.

Inductive t_op := OInsert (x : T) | ORemove (x : T) | ORemoveNode (id : nat).
(** result: the new node for Insert, whether something was removed otherwise *)
Definition t_step (s : trb) (o : t_op) : res (trb * (nat + bool)) :=
  match o with
  | OInsert x => do (s1, n) <- Insert s x; Ok (s1, inl n)
  | ORemove x => do (s1, b) <- Remove s x; Ok (s1, inr b)
  | ORemoveNode id => do s1 <- RemoveNode s id; Ok (s1, inr true)
  end.
End TRB.
Arguments trb T : clear implicits.
Arguments t_op T : clear implicits.
