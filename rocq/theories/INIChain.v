(* Model of the linked list of nodes with instances that INIsection (for entries) and INIstorage (for sections) keep: the
   list, the hash from names to the first node of that name, and in that node the array of the other nodes of that name.
   The code is written out twice in the source; both places are cited. *)
From Coq Require Import List Arith Bool ZArith.
From Verif Require Import Common Dll LLBase.
Import ListNotations.

(** a char of a name in lower case: the hash HashIns of both (INIstorage.h 76, INIsection.h 82) ignores the case *)
Definition lower (c : Z) : Z := if (65 <=? c)%Z && (c <=? 90)%Z then (c + 32)%Z else c.
Definition fold_case (s : list Z) : list Z := map lower s.
Definition same (a b : list Z) : bool := if list_eq_dec Z.eq_dec (fold_case a) (fold_case b) then true else false.

Section C.
Context {V : Type}.
(** INIsection.h 22-27 (_INInode: links, instances, val), 79-82 (_root, _last, _entries); INIstorage.h 76, 81-82.  The hash is
    the list of its pairs (C33, C37); its keys are the names by content (in the source they point into the node).  The static
    allocator gives addresses that were not used before *)
Record chain := Chain { hp : heap; val : nat -> option V; inst : nat -> list nat; hash : list (list Z * nat); root : ptr; last : ptr; fresh : nat }.
(** INIsection.cpp 26-28; INIstorage.cpp 62: an empty one *)
Definition empty : chain := Chain (fun _ => None) (fun _ => None) (fun _ => []) [] None None 0.
(** a write of one cell *)
Definition put {A} (f : nat -> A) (a : nat) (v : A) : nat -> A := fun x => if x =? a then v else f x.
(** HashIns::Iterator and Value *)
Fixpoint hfind (h : list (list Z * nat)) (n : list Z) : option nat :=
  match h with [] => None | (k, a) :: h => if same k n then Some a else hfind h n end.
(** HashIns::RemoveIter *)
Fixpoint hremove (h : list (list Z * nat)) (n : list Z) : list (list Z * nat) :=
  match h with [] => [] | (k, a) :: h => if same k n then h else (k, a) :: hremove h n end.

(** INIsection.cpp 76-97 (_addEntry), INIstorage.cpp 136-162 (_addSection); make gives the value for the index (line 158; an
    entry has none).  Gives the node *)
Definition add (c : chain) (name : list Z) (make : nat -> V) : res (chain * nat) :=
  let p := fresh c in
  let h := put (hp c) p (Some (None, None)) in
  match hfind (hash c) name with
  | None =>
    let v := put (val c) p (Some (make 0)) in
    let i := put (inst c) p [] in
    if isnull (root c) then Ok (Chain h v i ((name, p) :: hash c) (Some p) (Some p) (S p), p)
    else
      do (h, l) <- LLAddAfter2 h (Some p) (last c);
      Ok (Chain h v i ((name, p) :: hash c) (root c) l (S p), p)
  | Some r =>
    let t := match inst c r with [] => r | x :: y => List.last y x end in
    do (h, l) <- LLInsertAfter h (Some p) (Some t) (last c);
    let i := put (put (inst c) p []) r (inst c r ++ [p]) in
    Ok (Chain h (put (val c) p (Some (make (length (inst c r ++ [p]))))) i (hash c) (root c) l (S p), p)
  end.
(** INIsection.cpp 125-131 (GetEntryNode), INIstorage.cpp 84-90 (GetSectionNode) *)
Definition node (c : chain) (name : list Z) (instance : nat) : option nat :=
  match hfind (hash c) name with
  | None => None
  | Some n => if instance =? 0 then Some n else nth_error (inst c n) (instance - 1)
  end.
(** INIsection.cpp 133-137 (GetEntryPtr), INIstorage.cpp 91-95 (GetSection): the value at the node *)
Definition value (c : chain) (name : list Z) (instance : nat) : option V := match node c name instance with Some a => val c a | None => None end.
(** INIsection.cpp 139-145 (GetNumEntries), INIstorage.cpp 96-101 (GetNumSections) *)
Definition count (c : chain) (name : list Z) : nat := match hfind (hash c) name with None => 0 | Some n => length (inst c n) + 1 end.
(** INIstorage.cpp 194: the loop that moves the indices down; f is the change of one value *)
Fixpoint each (v : nat -> option V) (l : list nat) (f : V -> V) : res (nat -> option V) :=
  match l with
  | [] => Ok v
  | a :: l => match v a with Some x => each (put v a (Some (f x))) l f | None => UB end
  end.
(** Array::Remove of the cell at an index (Array.h 294-298) *)
Definition cut {A} (l : list A) (i : nat) : list A := firstn i l ++ skipn (S i) l.
(** INIstorage.cpp 173-198 (RemoveSection), 244-248 and 252-269 (EditEntry): None is the failure of line 175 and 246.  zero sets
    the index of a section to 0 (184), down lowers it by one (194); for entries both do nothing *)
Definition remove (c : chain) (name : list Z) (instance : nat) (zero down : V -> V) : res (option chain) :=
  match hfind (hash c) name with
  | None => Ok None
  | Some r =>
    if length (inst c r) <? instance then Ok None
    else
      let n := if instance =? 0 then r else nth (instance - 1) (inst c r) 0 in
      do (v, n, i) <-
        (if (instance =? 0) && negb (length (inst c r) =? 0) then
           do nx <- rd_next (hp c) (Some n);
           match nx with
           | None => UB
           | Some b => match val c b with Some x => Ok (put (val c) n (Some (zero x)), b, 1) | None => UB end
           end
         else Ok (val c, n, instance));
      do (h, (ro, la)) <- LLRemove3 (hp c) (Some n) (root c) (last c);
      if i =? 0 then Ok (Some (Chain (put h n None) (put v n None) (put (inst c) n []) (hremove (hash c) name) ro la (fresh c)))
      else
        let l := cut (inst c r) (i - 1) in
        do v <- each v (skipn (i - 1) l) down;
        Ok (Some (Chain (put h n None) (put v n None) (put (put (inst c) r l) n []) (hash c) ro la (fresh c)))
  end.
(** a write of the value of a node: INIstorage.cpp 276 (Set), and the entries of a section that are changed in place *)
Definition set_value (c : chain) (a : nat) (x : V) : chain := Chain (hp c) (put (val c) a (Some x)) (inst c) (hash c) (root c) (last c) (fresh c).
End C.
Arguments chain : clear implicits.
