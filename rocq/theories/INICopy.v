(* Model of copying and moving the chains of nodes of INIsection and INIstorage (INIChain.v), and of the path of an INIstorage. *)
From Coq Require Import List Arith Bool ZArith.
From Verif Require Import Common Dll LLBase INIChain.
Import ListNotations.

Section C.
Context {V : Type}.
(** GetKey of an entry, GetName of a section: INIentry.h 22, INIsection.h 63 *)
Context (name : V -> list Z).
(** What the memory of a new array holds before anything is written there: SetCapacity (Array.h 312-319) writes nothing for pointers *)
Context (junk : nat -> nat).
(** Hash.h 438-447 (_insert): a key that is there gets the new value *)
Fixpoint hput (h : list (list Z * nat)) (n : list Z) (a : nat) : list (list Z * nat) :=
  match h with [] => [(n, a)] | (k, b) :: h => if same k n then (k, a) :: h else (k, b) :: hput h n a end.
(** The same where the key is not there yet; the order of the pairs is not observable *)
Definition hinsert (h : list (list Z * nat)) (n : list Z) (a : nat) : list (list Z * nat) :=
  match hfind h n with None => (n, a) :: h | Some _ => hput h n a end.
(** INIsection.cpp 51-73, INIstorage.cpp 358-384: the loop of _copy; t is the node of the source, last and c are the variables of the function.
    Gives the source, which is written at last->instances, and the copy.  Copying the value (INIsection.cpp 55, INIstorage.cpp 362) is
    taken to give an equal value; for a section this is again a copy of its chain of entries *)
Fixpoint copy_loop (fuel : nat) (src dst : chain V) (t : ptr) (lastn : option nat) (c : nat) : res (chain V * chain V) :=
  match t with
  | None => Ok (src, dst)
  | Some a =>
    match fuel with
    | O => OutOfFuel
    | S fuel =>
      match val src a with
      | None => UB
      | Some x =>
        let p := fresh dst in
        let h := put (hp dst) p (Some (None, None)) in
        let v := put (val dst) p (Some x) in
        do (h, ro, la) <-
          (if isnull (root dst) then Ok (h, Some p, Some p) else do (h, l) <- LLAddAfter2 h (Some p) (last dst); Ok (h, root dst, l));
        do nx <- rd_next (hp src) t;
        if negb (length (inst src a) =? 0) then
          let k := length (inst src a) in
          copy_loop fuel src (Chain h v (put (inst dst) p (map junk (seq 0 k))) (hinsert (hash dst) (name x) p) ro la (S p)) nx (Some a) (k - 1)
        else if 0 <? c then
          match lastn with
          | None => UB
          | Some r =>
            do l <- set (inst src r) (length (inst src r) - c - 1) p;
            copy_loop fuel (Chain (hp src) (val src) (put (inst src) r l) (hash src) (root src) (last src) (fresh src))
              (Chain h v (put (inst dst) p []) (hash dst) ro la (S p)) nx lastn (c - 1)
          end
        else copy_loop fuel src (Chain h v (put (inst dst) p []) (hinsert (hash dst) (name x) p) ro la (S p)) nx lastn 0
      end
    end
  end.
(** INIsection.cpp 12-15, INIstorage.cpp 49-53 (the copy constructors); 99-109, 387-399 (operator=, after the old nodes are gone): _copy into
    an empty chain.  The allocator is shared, so the addresses are new *)
Definition copy (src : chain V) : res (chain V * chain V) :=
  copy_loop (fresh src) src (Chain (fun _ => None) (fun _ => None) (fun _ => []) [] None None (fresh src)) (root src) None 0.
(** INIstorage.cpp 339-350 (_destroy): every node of the list is given back *)
Fixpoint destroy (fuel : nat) (c : chain V) : res (chain V) :=
  match root c with
  | None => Ok (Chain (hp c) (val c) (inst c) (hash c) None None (fresh c))
  | Some a =>
    match fuel with
    | O => OutOfFuel
    | S fuel =>
      do t <- rd_next (hp c) (Some a);
      destroy fuel (Chain (put (hp c) a None) (put (val c) a None) (inst c) (hash c) t (last c) (fresh c))
    end
  end.
(** INIstorage.cpp 400-416 (operator= that moves): the list is taken over, then _destroy is called, then the hash is taken over.  The old nodes
    of the target are not part of the result *)
Definition move_assign (src : chain V) : res (chain V) :=
  do d <- destroy (fresh src) (Chain (hp src) (val src) (inst src) [] (root src) (last src) (fresh src));
  Ok (Chain (hp d) (val d) (inst d) (hash src) (root d) (last d) (fresh d)).
(** INIstorage.h 38-39, INIsection.h 29-34 (the iterators): the values in the order of the list *)
Fixpoint walk (fuel : nat) (c : chain V) (t : ptr) : res (list V) :=
  match t with
  | None => Ok []
  | Some a =>
    match fuel with
    | O => OutOfFuel
    | S fuel => match val c a with None => UB | Some x => do nx <- rd_next (hp c) t; do l <- walk fuel c nx; Ok (x :: l) end
    end
  end.
End C.

(** strrchr: the place of the last char *)
Fixpoint strrchr (l : list Z) (c : Z) : option nat :=
  match l with
  | [] => None
  | x :: l => match strrchr l c with Some i => Some (S i) | None => if (x =? c)%Z then Some 0 else None end
  end.
(** strlen *)
Fixpoint strlen (l : list Z) : nat := match l with [] => 0 | c :: l => if (c =? 0)%Z then 0 else S (strlen l) end.
(** INIstorage.cpp 326-338 (_setFilePath): gives _path and _filename; file is without the terminator *)
Definition setFilePath (file : list Z) : list Z * list Z :=
  let hold := match strrchr file 47 with None => 0 | Some i => S i end in
  let hold := match strrchr (skipn hold file) 92 with None => hold | Some i => hold + S i end in
  let buffer := firstn hold file ++ [0%Z] in
  (firstn (strlen buffer) buffer, skipn hold file).
