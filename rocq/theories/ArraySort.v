(* Model of ArraySort (include/bss-util/ArraySort.h:13-144) and Map (include/bss-util/Map.h:13-95).
   The backing DynArray is represented by the list of its elements: that DynArray's Insert,
   Remove and SetLength have exactly these list effects is property C25. Serialization and the
   copy/move constructors are not modelled. (CT)-1 is the integer -1. *)
From Coq Require Import List ZArith Bool.
From Verif Require Import Common Search.
Import ListNotations.
Local Open Scope Z_scope.

(** DynArray.h:150-155 [_insert] on contents: index must not exceed the length. *)
Definition insert_at {A} (l : list A) (i : nat) (x : A) : res (list A) :=
  if (i <=? length l)%nat then Ok (firstn i l ++ x :: skipn i l) else UB.
(** DynArray.h:45-49 [Remove] on contents: index must be below the length. *)
Definition remove_at {A} (l : list A) (i : nat) : res (list A) :=
  if (i <? length l)%nat then Ok (firstn i l ++ skipn (S i) l) else UB.

Section ArraySort.
Context {A : Type} (CFunc : A -> A -> Z).

(** ArraySort.h:122-141 [_insert]: where a new item goes. *)
Definition as_insert_loc (arr : list A) (item : A) : res nat :=
  match arr with
  | [] => Ok 0%nat
  | _ :: _ =>
      do a0 <- get arr 0;
      if CFunc item a0 <? 0 then Ok 0%nat
      else
        do b <- get arr (length arr - 1);
        if 0 <=? CFunc item b then Ok (length arr)
        else BinarySearchAfter CFunc arr item 0 (length arr)
  end.

(** ArraySort.h:30-36 [Insert]; returns the new contents and the location. *)
Definition as_Insert (arr : list A) (item : A) : res (list A * nat) :=
  do loc <- as_insert_loc arr item;
  do arr' <- insert_at arr loc item;
  Ok (arr', loc).

(** ArraySort.h:57-62, first loop of [ReplaceData]. *)
Fixpoint bubble_left (arr : list A) (index : nat) : res (list A * nat) :=
  match index with
  | O => Ok (arr, O)
  | S k =>
      do a <- get arr k;
      do b <- get arr (S k);
      if 0 <? CFunc a b then
        do arr1 <- set arr (S k) a;
        do arr2 <- set arr1 k b;
        bubble_left arr2 k
      else Ok (arr, S k)
  end.

(** ArraySort.h:63-68, second loop of [ReplaceData] (Length() >= 1 whenever it is reached). *)
Fixpoint bubble_right (fuel : nat) (arr : list A) (index : nat) : res (list A * nat) :=
  if (index <? length arr - 1)%nat then
    do a <- get arr (index + 1)%nat;
    do b <- get arr index;
    if CFunc a b <? 0 then
      match fuel with
      | O => OutOfFuel
      | S fuel' =>
          do arr1 <- set arr index a;
          do arr2 <- set arr1 (index + 1)%nat b;
          bubble_right fuel' arr2 (index + 1)
      end
    else Ok (arr, index)
  else Ok (arr, index).

(** ArraySort.h:53-70 [ReplaceData]. *)
Definition as_ReplaceData (arr : list A) (index : nat) (item : A) : res (list A * nat) :=
  do arr1 <- set arr index item;
  do r <- bubble_left arr1 index;
  bubble_right (length arr) (fst r) (snd r).

(** ArraySort.h:72-77 [Remove]. *)
Definition as_Remove (arr : list A) (index : nat) : res (list A * bool) :=
  if (length arr <=? index)%nat then Ok (arr, false)
  else do arr' <- remove_at arr index; Ok (arr', true).

(** ArraySort.h:38 [Discard]. *)
Definition as_Discard (arr : list A) (num : nat) : list A :=
  if (length arr <? num)%nat then [] else firstn (length arr - num) arr.

(** ArraySort.h:79-82 [Find]. *)
Definition as_Find (arr : list A) (item : A) : res Z :=
  BinarySearchExact CFunc arr item 0 (length arr).

(** ArraySort.h:85-89 [FindNear]; -1 as an unsigned CT is not below the length and stays -1. *)
Definition as_FindNear (arr : list A) (item : A) (before : bool) : res Z :=
  do r <- (if before then BinarySearchBefore CFunc arr item 0 (length arr)
           else do n <- BinarySearchAfter CFunc arr item 0 (length arr); Ok (Z.of_nat n));
  Ok (if r <? Z.of_nat (length arr) then r else -1).

Inductive as_op := AInsert (x : A) | ARemove (i : nat) | AReplace (i : nat) (x : A) | AClear | ADiscard (n : nat).

(** One public call (ArraySort.h:30-77), the returned value being dropped. *)
Definition as_step (arr : list A) (o : as_op) : res (list A) :=
  match o with
  | AInsert x => do r <- as_Insert arr x; Ok (fst r)
  | ARemove i => do r <- as_Remove arr i; Ok (fst r)
  | AReplace i x => do r <- as_ReplaceData arr i x; Ok (fst r)
  | AClear => Ok []
  | ADiscard n => Ok (as_Discard arr n)
  end.
End ArraySort.

Section Map.
Context {K D : Type} (CFunc : K -> K -> Z).

(** compare.h:44-45 [CompTuple] on the first component. *)
Definition pair_cmp (a b : K * D) : Z := CFunc (fst a) (fst b).
(** Map.h:68 [mapComp]. *)
Definition mapComp (a : K) (b : K * D) : Z := CFunc a (fst b).

(** Map.h:69-73 [GetNear]. *)
Definition map_GetNear (arr : list (K * D)) (key : K) (before : bool) : res Z :=
  do r <- (if before then do n <- BinarySearchNear mapComp CompT_NEQ (-1) arr key 0 (length arr); Ok (Z.of_nat n - 1)
           else do n <- BinarySearchNear mapComp CompT_EQ 1 arr key 0 (length arr); Ok (Z.of_nat n));
  Ok (if r <? Z.of_nat (length arr) then r else -1).

(** Map.h:37-41 [Get]. *)
Definition map_Get (arr : list (K * D)) (key : K) : res Z :=
  do r <- map_GetNear arr key true;
  if r =? -1 then Ok (-1)
  else if r <? 0 then UB
  else do p <- get arr (Z.to_nat r);
       if CFunc key (fst p) =? 0 then Ok r else Ok (-1).

(** Map.h:45 [Remove]: the index -1 is not below the length, so nothing is removed. *)
Definition map_Remove (arr : list (K * D)) (key : K) : res (list (K * D) * Z) :=
  do r <- map_Get arr key;
  if r <? 0 then Ok (arr, r)
  else do q <- as_Remove arr (Z.to_nat r); Ok (fst q, r).

(** Map.h:57-67 [Set]. *)
Definition map_Set (arr : list (K * D)) (key : K) (data : D) : res (list (K * D) * Z) :=
  do r <- map_GetNear arr key true;
  if r =? -1 then Ok (arr, r)
  else if r <? 0 then UB
  else do p <- get arr (Z.to_nat r);
       if CFunc key (fst p) =? 0 then do arr' <- set arr (Z.to_nat r) (fst p, data); Ok (arr', r)
       else Ok (arr, r).

(** Map.h:49-54 [ReplaceKey]. *)
Definition map_ReplaceKey (arr : list (K * D)) (index : nat) (key : K) : res (list (K * D) * Z) :=
  if (length arr <=? index)%nat then Ok (arr, -1)
  else do p <- get arr index;
       do r <- as_ReplaceData pair_cmp arr index (key, snd p);
       Ok (fst r, Z.of_nat (snd r)).

Inductive map_op := MInsert (k : K) (d : D) | MRemove (k : K) | MRemoveIndex (i : nat) | MSet (k : K) (d : D)
  | MReplaceKey (i : nat) (k : K) | MReplace (i : nat) (k : K) (d : D) | MClear.

(** One public call (Map.h:33-67), the returned value being dropped. *)
Definition map_step (arr : list (K * D)) (o : map_op) : res (list (K * D)) :=
  match o with
  | MInsert k d => do r <- as_Insert pair_cmp arr (k, d); Ok (fst r)
  | MRemove k => do r <- map_Remove arr k; Ok (fst r)
  | MRemoveIndex i => do r <- as_Remove arr i; Ok (fst r)
  | MSet k d => do r <- map_Set arr k d; Ok (fst r)
  | MReplaceKey i k => do r <- map_ReplaceKey arr i k; Ok (fst r)
  | MReplace i k d => do r <- as_ReplaceData pair_cmp arr i (k, d); Ok (fst r)
  | MClear => Ok []
  end.
End Map.
