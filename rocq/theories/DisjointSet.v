(* Model of bss::DisjointSet (DisjointSet.h:13-197).
   The array holds -(number of elements) at a set name and the parent elsewhere. The element type Ty is unbounded here
   (the signed type of the index type: the number of elements must fit it). *)
From Coq Require Import List Arith ZArith Bool Lia.
From Verif Require Import Common.
Import ListNotations.

(** DisjointSet.h:13, 196: the array and the number of sets. *)
Record dset := mk { arr : list Z; numsets : Z }.

(** DisjointSet.h:109-113 [Reset], 30 [DisjointSet(num)]: every element is a set of its own. *)
Definition new_dset (n : nat) : dset := mk (repeat (-1)%Z n) (Z.of_nat n).
Definition Reset (s : dset) : dset := new_dset (length (arr s)).

(** DisjointSet.h:194 [_invalidIndex]: out of range, or not a set name. *)
Definition invalidIndex (s : dset) (x : nat) : res bool :=
  if length (arr s) <=? x then Ok true else do w <- get (arr s) x; Ok (0 <=? w)%Z.
(** DisjointSet.h:40-61 [Union]. *)
Definition Union (s : dset) (set1 set2 : nat) : res (dset * bool) :=
  do i1 <- invalidIndex s set1;
  if i1 : bool then Ok (s, false) else
  do i2 <- invalidIndex s set2;
  if i2 : bool then Ok (s, false) else
  do w1 <- get (arr s) set1;
  do w2 <- get (arr s) set2;
  if (w1 >? w2)%Z then
    do x <- get (arr s) set2;
    do a <- set (arr s) set2 (x + w1)%Z;
    do a <- set a set1 (Z.of_nat set2);
    Ok (mk a (numsets s - 1), true)
  else
    do x <- get (arr s) set1;
    do a <- set (arr s) set1 (x + w2)%Z;
    do a <- set a set2 (Z.of_nat set1);
    Ok (mk a (numsets s - 1), true).

(** DisjointSet.h:68-70: [while(_array[r] >= 0) r = _array[r]]. *)
Fixpoint climb (fuel : nat) (a : list Z) (r : nat) : res nat :=
  match fuel with
  | 0 => OutOfFuel
  | S fuel => do p <- get a r; if (0 <=? p)%Z then climb fuel a (Z.to_nat p) else Ok r
  end.
(** DisjointSet.h:77-82: the path compression loop, with x and t. *)
Fixpoint compress (fuel : nat) (a : list Z) (r x : nat) (t : Z) : res (list Z) :=
  match fuel with
  | 0 => OutOfFuel
  | S fuel =>
      if (t =? Z.of_nat r)%Z then Ok a else
      do a <- set a x (Z.of_nat r);
      if (t <? 0)%Z then UB else
      do t' <- get a (Z.to_nat t);
      compress fuel a r (Z.to_nat t) t'
  end.
(** DisjointSet.h:64-86 [Find]. The fuel is the number of elements plus one. *)
Definition Find (s : dset) (x : nat) : res (dset * nat) :=
  do r <- climb (S (length (arr s))) (arr s) x;
  if x =? r then Ok (s, r) else
  do t <- get (arr s) x;
  do a <- compress (S (length (arr s))) (arr s) r x t;
  Ok (mk a (numsets s), r).
(** DisjointSet.h:89 [NumSets], 91 [IsSetName]. *)
Definition NumSets (s : dset) : Z := numsets s.
Definition IsSetName (s : dset) (x : nat) : res bool :=
  if x <? length (arr s) then do w <- get (arr s) x; Ok (w <? 0)%Z else Ok false.
(** DisjointSet.h:93-98 [NumElements]; -1 for an index out of range. *)
Definition NumElements (s : dset) (x : nat) : res (dset * Z) :=
  if length (arr s) <=? x then Ok (s, (-1)%Z) else
  do (s, r) <- Find s x; do w <- get (arr s) r; Ok (s, (- w)%Z).
(** DisjointSet.h:137-141: the loop over the elements, from i; todo elements left. The elements written to the target
    array are returned. *)
Fixpoint collect (todo i : nat) (s : dset) (r : nat) : res (dset * list nat) :=
  match todo with
  | 0 => Ok (s, [])
  | S todo =>
      do (s, q) <- Find s i;
      do (s, l) <- collect todo (S i) s r;
      Ok (s, if q =? r then i :: l else l)
  end.
(** DisjointSet.h:130-143 [GetElements(set, target)] with a target array of NumElements(set) elements: writing more is
    undefined. 116-127 [GetElements(set)] allocates such an array. *)
Definition GetElements (s : dset) (x : nat) : res (dset * list nat) :=
  do (s, n) <- NumElements s x;
  do (s, r) <- Find s x;
  do (s, l) <- collect (length (arr s)) 0 s r;
  if (Z.of_nat (length l) <=? n)%Z then Ok (s, l) else UB.
(** DisjointSet.h:100-107 [AddSets]: _numsets is not changed. *)
Definition AddSets (s : dset) (n : nat) : dset := mk (arr s ++ repeat (-1)%Z n) (numsets s).

(** DisjointSet.h:162-172: the loop of MinSpanningTree over the edges. *)
Fixpoint mst_loop (s : dset) (edges : list (nat * nat)) : res (list (nat * nat)) :=
  match edges with
  | [] => Ok []
  | e :: edges =>
      do (s, a) <- Find s (fst e);
      do (s, b) <- Find s (snd e);
      if a =? b then mst_loop s edges else
      do (s, inv) <- Union s a b;
      do out <- mst_loop s edges;
      Ok (e :: out)
  end.
(** DisjointSet.h:155-177 [MinSpanningTree]; the output array has numverts - 1 elements: writing more is undefined. *)
Definition MinSpanningTree (numverts : nat) (edges : list (nat * nat)) : res (list (nat * nat)) :=
  do out <- mst_loop (new_dset numverts) edges;
  if length out <=? numverts - 1 then Ok out else UB.
