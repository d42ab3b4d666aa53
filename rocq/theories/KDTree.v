(** Kd-tree of rectangles: include/bss-util/KDTree.h 14-355.

    Coordinates are rational numbers.  The dividing line of a node is computed
    through an arbitrary function [rnd], so that any floating-point rounding
    of it is covered; the running totals are kept exactly.  NaN and infinite
    coordinates are not modelled, nor are [InsertRoot], [Solve], [Clear] and
    the move operations. *)
From Coq Require Import List ZArith QArith Lia Bool.
From Verif Require Import Common.
Import ListNotations.
Open Scope Z_scope.

(** An array of four. *)
Record four (A : Type) := Four { f0 : A; f1 : A; f2 : A; f3 : A }.
Arguments Four {A}. Arguments f0 {A}. Arguments f1 {A}. Arguments f2 {A}. Arguments f3 {A}.

(** [a[axis]]: the low side on an axis (false is 0, true is 1). *)
Definition low {A} (a : four A) (axis : bool) : A := if axis then f1 a else f0 a.
(** [a[axis + 2]]: the high side on an axis. *)
Definition high {A} (a : four A) (axis : bool) : A := if axis then f3 a else f2 a.
(** [a[axis] = v]. *)
Definition set_low {A} (a : four A) (axis : bool) (v : A) : four A :=
  if axis then Four (f0 a) v (f2 a) (f3 a) else Four v (f1 a) (f2 a) (f3 a).
(** [a[axis + 2] = v]. *)
Definition set_high {A} (a : four A) (axis : bool) (v : A) : four A :=
  if axis then Four (f0 a) (f1 a) (f2 a) v else Four (f0 a) (f1 a) v (f3 a).

(** An item: its address and the rectangle that [FRECT] gives for it
    (left, top, right, bottom), which must not change while it is stored. *)
Record item := Item { id : nat; rect : four Q }.

(** Which child to follow from the root: false is left, true is right.  It
    stands for the address of a node: nodes never move inside the tree. *)
Notation path := (list bool).

(** [KDNode] (KDTree.h 14-29): items, num, div, total[0], total[1], balance,
    axis, left, right.  The intrusive list of items is a list (its links are
    the subject of the LLBase properties); the parent pointer is implied. *)
Inductive tree :=
| Leaf
| Node (items : list item) (num : Z) (div : Q) (t0 t1 : Q) (bal : Z) (axis : bool)
       (l r : tree).

(** [a < b] on coordinates. *)
Definition ltb (a b : Q) : bool := negb (Qle_bool b a).

(** The rebalance test of KDTree.h 83 and 117 for [num > 0]. *)
Definition unbalanced (thr bal num : Z) : bool := Z.abs (bal * 100) / num >? thr.

(** Assignment to the 16-bit [balance]: KDTree.h 68, 73, 108, 115. *)
Definition short (z : Z) : Z := sgn 16 z.

Section Rounding.
Variable rnd : Q -> Q.

(** [r[0] + r[2]] and [r[1] + r[3]]: KDTree.h 63-64, 90-91, 113-114. *)
Definition sum0 (i : item) : Q := (f0 (rect i) + f2 (rect i))%Q.
Definition sum1 (i : item) : Q := (f1 (rect i) + f3 (rect i))%Q.

(** The descent of [Insert]: KDTree.h 52-96.  Gives the tree, the node the
    item went into, and [rb]: the first node on the way that is out of
    balance. *)
Fixpoint ins (thr : Z) (t : tree) (axis : bool) (at_ : path) (i : item)
  : tree * path * option path :=
  match t with
  | Leaf =>
      (Node [i] 1 (rnd ((if axis then sum1 i else sum0 i) / 2)) (sum0 i) (sum1 i) 0 axis
            Leaf Leaf, at_, None)
  | Node its num div t0 t1 bal ax l r =>
      let num := num + 1 in
      let t0 := (t0 + sum0 i)%Q in
      let t1 := (t1 + sum1 i)%Q in
      if ltb (high (rect i) axis) div then
        let bal := short (bal - 1) in
        let '(l, p, rb) := ins thr l (negb axis) (at_ ++ [false]) i in
        (Node its num div t0 t1 bal ax l r, p,
         if unbalanced thr bal num then Some at_ else rb)
      else if ltb div (low (rect i) axis) then
        let bal := short (bal + 1) in
        let '(r, p, rb) := ins thr r (negb axis) (at_ ++ [true]) i in
        (Node its num div t0 t1 bal ax l r, p,
         if unbalanced thr bal num then Some at_ else rb)
      else (Node (i :: its) num div t0 t1 bal ax l r, at_, None)
  end.

(** [_removeItem]: KDTree.h 344-351; undefined when the item is not in the
    list of this node. *)
Definition unlink (its : list item) (i : item) : res (list item) :=
  if existsb (fun x => Nat.eqb (id x) (id i)) its
  then Ok (filter (fun x => negb (Nat.eqb (id x) (id i))) its)
  else UB.

(** [Remove] from the node at [p] upwards: KDTree.h 101-120.  [prev] is never
    advanced (line 105), so [node->left == prev] holds only in the parent of
    the node the item was in.  Gives [rb], the topmost node out of balance. *)
Fixpoint rem (thr : Z) (t : tree) (p : path) (at_ : path) (i : item)
  : res (tree * option path) :=
  match t with
  | Leaf => UB
  | Node its num div t0 t1 bal ax l r =>
      let num := num - 1 in
      let t0 := (t0 - sum0 i)%Q in
      let t1 := (t1 - sum1 i)%Q in
      let chk bal rb :=
        if (num >? 0) && unbalanced thr bal num then Some at_ else rb in
      match p with
      | [] =>
          do its <- unlink its i;
          let bal := short (short (bal + 1) - 1) in
          Ok (Node its num div t0 t1 bal ax l r, chk bal None)
      | b :: p =>
          let bal := short (bal + match p, b with [], false => 1 | _, _ => -1 end) in
          if b then
            do (r, rb) <- rem thr r p (at_ ++ [true]) i;
            Ok (Node its num div t0 t1 bal ax l r, chk bal rb)
          else
            do (l, rb) <- rem thr l p (at_ ++ [false]) i;
            Ok (Node its num div t0 t1 bal ax l r, chk bal rb)
      end
  end.

(** The check for a violation: KDTree.h 242-246.  The bound [None] is
    plus or minus FLT_MAX, which no coordinate exceeds.  The first three tests
    only assign [i]; the [else continue] belongs to the fourth alone, so an
    item is moved only when the fourth test holds, and then [i = 3]. *)
Definition violation (r : four (option Q)) (i : item) : option (four (option path) -> option path) :=
  match f3 r with
  | Some b => if ltb b (f3 (rect i)) then Some f3 else None
  | None => None
  end.

(** Fields of a node that may be null. *)
Definition tnum (t : tree) : Z :=
  match t with Leaf => 0 | Node _ n _ _ _ _ _ _ _ => n end.
Definition tot0 (t : tree) : Q :=
  match t with Leaf => 0%Q | Node _ _ _ x _ _ _ _ _ => x end.
Definition tot1 (t : tree) : Q :=
  match t with Leaf => 0%Q | Node _ _ _ _ x _ _ _ _ => x end.

(** [_checkDestroy]: KDTree.h 262-270. *)
Definition check_destroy (t : tree) : tree := if tnum t =? 0 then Leaf else t.

(** Items sent to the node at [at_], in the order they were sent, and the
    others. *)
Definition path_eqb (p q : path) : bool := if list_eq_dec bool_dec p q then true else false.
Definition mine (at_ : path) (ups : list (path * item)) : list item :=
  map snd (filter (fun x => path_eqb (fst x) at_) ups).
Definition others (at_ : path) (ups : list (path * item)) : list (path * item) :=
  filter (fun x => negb (path_eqb (fst x) at_)) ups.

(** [_insertItem] puts an item in front: KDTree.h 332-343. *)
Definition push_all (new its : list item) : list item :=
  fold_left (fun a i => i :: a) new its.

(** The sums subtracted and added for moved items: KDTree.h 248-254. *)
Definition sums0 (l : list item) : Q := fold_right (fun i a => (sum0 i + a)%Q) 0%Q l.
Definition sums1 (l : list item) : Q := fold_right (fun i a => (sum1 i + a)%Q) 0%Q l.

(** The loop over the node's own items: KDTree.h 231-257.  Gives the items
    kept and those moved, each with the node it goes to; [p[i]] is null when
    there is no such node. *)
Fixpoint sift (r : four (option Q)) (p : four (option path)) (its : list item)
  : res (list item * list (path * item)) :=
  match its with
  | [] => Ok ([], [])
  | i :: its =>
      match violation r i with
      | None => do (k, m) <- sift r p its; Ok (i :: k, m)
      | Some sel =>
          match sel p with
          | None => UB
          | Some q => do (k, m) <- sift r p its; Ok (k, (q, i) :: m)
          end
      end
  end.

(** [_rebalance]: KDTree.h 199-261.  The moves to ancestors are returned (the
    second component: those to nodes above this one; the third: every move
    made, in order, for the [FNODE] field of the items) instead of being
    written into the ancestors directly; an ancestor does not look at its own
    item list before its children are finished.  For a node with [num = 0]
    the division is by zero; its subtree holds no item and the caller
    destroys it. *)
Fixpoint rebalance (t : tree) (at_ : path) (r : four (option Q)) (p : four (option path))
  : res (tree * list (path * item) * list (path * item)) :=
  match t with
  | Leaf => Ok (Leaf, [], [])
  | Node its num _ t0 t1 _ ax l rt =>
      let div := rnd ((if ax then t1 else t0) / inject_Z (num * 2))%Q in
      do (ll, lg) <- rebalance l (at_ ++ [false]) (set_high r ax (Some div))
                               (set_high p ax (Some at_));
      let '(l', lu) := ll in
      let lm := mine at_ lu in
      let num := num - tnum l + Z.of_nat (length lm) + tnum l' in
      do (rr, rg) <- rebalance rt (at_ ++ [true]) (set_low r ax (Some div))
                               (set_low p ax (Some at_));
      let '(r', ru) := rr in
      let rm := mine at_ ru in
      let num := num - tnum rt + Z.of_nat (length rm) + tnum r' in
      do (keep, out) <- sift r p (push_all rm (push_all lm its));
      let moved := map snd out in
      Ok (Node keep (num - Z.of_nat (length moved)) div
               (t0 - tot0 l + tot0 l' + sums0 lm - tot0 rt + tot0 r' + sums0 rm - sums0 moved)%Q
               (t1 - tot1 l + tot1 l' + sums1 lm - tot1 rt + tot1 r' + sums1 rm - sums1 moved)%Q
               0 ax (check_destroy l') (check_destroy r'),
          others at_ lu ++ others at_ ru ++ out,
          lg ++ rg ++ out)
  end.

(** [Rebalance(node)]: KDTree.h 132-138, at the node with the given path. *)
Fixpoint rebalance_at (t : tree) (p : path) (at_ : path) {struct p}
  : res (tree * list (path * item)) :=
  match p with
  | [] =>
      do (tu, log) <- rebalance t at_ (Four None None None None) (Four None None None None);
      Ok (fst tu, log)
  | b :: p =>
      match t with
      | Leaf => UB
      | Node its num div t0 t1 bal ax l r =>
          if b then
            do (r, log) <- rebalance_at r p (at_ ++ [true]);
            Ok (Node its num div t0 t1 bal ax l r, log)
          else
            do (l, log) <- rebalance_at l p (at_ ++ [false]);
            Ok (Node its num div t0 t1 bal ax l r, log)
      end
  end.

(** The tree and the [FNODE] field of every item (KDTree.h 342, 346). *)
Record state := State { root : tree; fnode : nat -> option path }.

(** [FNODE(i) = q]. *)
Definition set_node (f : nat -> option path) (k : nat) (q : option path) : nat -> option path :=
  fun x => if Nat.eqb x k then q else f x.
Definition apply_log (log : list (path * item)) (f : nat -> option path) : nat -> option path :=
  fold_left (fun f x => set_node f (id (snd x)) (Some (fst x))) log f.

(** The call of [Rebalance] at the end of [Insert] and [Remove]
    (KDTree.h 98-99 and 122); also says whether there was one. *)
Definition finish (t : tree) (f : nat -> option path) (rb : option path) : res (state * bool) :=
  match rb with
  | None => Ok (State t f, false)
  | Some p => do (t, log) <- rebalance_at t p []; Ok (State t (apply_log log f), true)
  end.

(** The two calls of the histories. *)
Inductive op := Insert (i : item) | Remove (i : item).

(** [Insert] (KDTree.h 52-100) and [Remove] (KDTree.h 101-123). *)
Definition step (thr : Z) (s : state) (o : op) : res (state * bool) :=
  match o with
  | Insert i =>
      let '(t, p, rb) := ins thr (root s) false [] i in
      finish t (set_node (fnode s) (id i) (Some p)) rb
  | Remove i =>
      match fnode s (id i) with
      | None => UB
      | Some p =>
          do (t, rb) <- rem thr (root s) p [] i;
          finish t (set_node (fnode s) (id i) None) rb
      end
  end.

(** An empty tree: KDTree.h 42. *)
Definition init : state := State Leaf (fun _ => None).

(** The overlap test: KDTree.h 314. *)
Definition hits (q : four Q) (i : item) : bool :=
  let r := rect i in
  Qle_bool (f0 r) (f2 q) && Qle_bool (f1 r) (f3 q) &&
  Qle_bool (f0 q) (f2 r) && Qle_bool (f1 q) (f3 r).

(** [_traverseAction]: KDTree.h 305-323 (and [_traverse], 286-304); the items
    given to the action, in order. *)
Fixpoint traverse (axis : bool) (t : tree) (q : four Q) : list item :=
  match t with
  | Leaf => []
  | Node its _ div _ _ _ _ l r =>
      filter (hits q) its ++
      (if Qle_bool (low q axis) div then traverse (negb axis) l q else []) ++
      (if Qle_bool div (high q axis) then traverse (negb axis) r q else [])
  end.

(** [TraverseAction(rect, f)]: KDTree.h 49-50. *)
Definition query (s : state) (q : four Q) : list item := traverse false (root s) q.
End Rounding.
