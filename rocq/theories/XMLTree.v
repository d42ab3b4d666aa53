(* Model of the child nodes and attributes of an XMLNode: AddNode, RemoveNode, GetNode, AddAttribute, RemoveAttribute,
   GetAttribute (XML.cpp 97-175, include/bss-util/XML.h 51-59, 108-111).  Child nodes are numbered in the order in which they
   are allocated; a number stands for the pointer.  The hashes are maps from names to positions (Hash.v is the model of
   the hash itself); names do not contain zero characters.  Attributes are names with values of any type. *)
From Coq Require Import ZArith List Bool.
From Verif Require Import Common.
Import ListNotations.

Definition str_dec := list_eq_dec Z.eq_dec.

(** XML.h 108-111: the array of nodes, the hash of the nodes; the names of nodes and LLBase.h 16-17: next and prev; the
    attributes and their hash; the next number *)
Record xnode := XN {
  arr : list nat; nhash : list Z -> option nat;
  nname : nat -> list Z; nnext : nat -> option nat; nprev : nat -> option nat;
  attrs : list (list Z * list Z); ahash : list Z -> option nat;
  fresh : nat }.
(** XML.h 48: a new XMLNode *)
Definition empty : xnode := XN [] (fun _ => None) (fun _ => []) (fun _ => None) (fun _ => None) [] (fun _ => None) 0.

(** one entry of a map changed *)
Definition put {B} (m : nat -> B) (k : nat) (v : B) : nat -> B := fun x => if Nat.eq_dec x k then v else m x.
(** Hash.h: Insert, SetValue and RemoveIter, Remove *)
Definition puts (m : list Z -> option nat) (k : list Z) (v : option nat) : list Z -> option nat := fun x => if str_dec x k then v else m x.

(** XML.h 51-52: GetNode(index); None is the null pointer *)
Definition GetNode (s : xnode) (i : nat) : option nat := nth_error (arr s) i.
(** XML.h 53-54, Hash.h 228-238: GetNode(name): the hash returns ~0 when there is no entry *)
Definition GetNodeName (s : xnode) (n : list Z) : option nat := match nhash s n with Some i => GetNode s i | None => None end.
(** a pointer to a node that exists *)
Definition alive (s : xnode) (p : nat) : bool := existsb (Nat.eqb p) (arr s).

(** XML.cpp 98, 145-159, LLBase.h 33-39: AddNode(name) *)
Definition AddNode (s : xnode) (n : list Z) : res xnode :=
  let id := fresh s in
  let len := length (arr s) in
  match nhash s n with
  | None =>
    Ok (XN (arr s ++ [id]) (puts (nhash s) n (Some len)) (put (nname s) id n) (put (nnext s) id None) (put (nprev s) id None) (attrs s) (ahash s) (S id))
  | Some i =>
    match nth_error (arr s) i with
    | None => UB
    | Some t =>
      let next := put (nnext s) id (Some t) in
      let prev := put (put (nprev s) id (nprev s t)) t (Some id) in
      match nprev s t with
      | None => Ok (XN (arr s ++ [id]) (puts (nhash s) n (Some len)) (put (nname s) id n) next prev (attrs s) (ahash s) (S id))
      | Some q =>
        if alive s q
        then Ok (XN (arr s ++ [id]) (puts (nhash s) n (Some len)) (put (nname s) id n) (put next q (Some id)) prev (attrs s) (ahash s) (S id))
        else UB
      end
    end
  end.

(** DynArray.h: Remove(index) *)
Definition remove_at {A} (l : list A) (i : nat) : list A := firstn i l ++ skipn (S i) l.
(** XML.cpp 108-117: the loop over the nodes, from position i on, for the node t after the one to be removed *)
Fixpoint relink (l : list nat) (i t : nat) (n : list Z) (h : list Z -> option nat) (prev : nat -> option nat) : (list Z -> option nat) * (nat -> option nat) :=
  match l with
  | [] => (h, prev)
  | p :: l => if Nat.eq_dec p t then relink l (S i) t n (match h n with Some _ => puts h n (Some i) | None => h end) (put prev p None) else relink l (S i) t n h prev
  end.
(** XML.cpp 101-123: RemoveNode(index) *)
Definition RemoveNode (s : xnode) (i : nat) : bool * xnode :=
  match nth_error (arr s) i with
  | None => (false, s)
  | Some p =>
    let n := nname s p in
    let (h, prev) := match nnext s p with Some t => relink (arr s) 0 t n (nhash s) (nprev s) | None => (puts (nhash s) n None, nprev s) end in
    (true, XN (remove_at (arr s) i) h (nname s) (nnext s) prev (attrs s) (ahash s) (fresh s))
  end.
(** XML.cpp 124: RemoveNode(name) *)
Definition RemoveNodeName (s : xnode) (n : list Z) : bool * xnode := match nhash s n with Some i => RemoveNode s i | None => (false, s) end.

(** XML.cpp 99, 161-175: AddAttribute *)
Definition AddAttribute (s : xnode) (v : list Z * list Z) : res xnode :=
  match ahash s (fst v) with
  | None => Ok (XN (arr s) (nhash s) (nname s) (nnext s) (nprev s) (attrs s ++ [v]) (puts (ahash s) (fst v) (Some (length (attrs s)))) (fresh s))
  | Some i =>
    if (i <? length (attrs s))%nat
    then Ok (XN (arr s) (nhash s) (nname s) (nnext s) (nprev s) (firstn i (attrs s) ++ v :: skipn (S i) (attrs s)) (ahash s) (fresh s))
    else UB
  end.
(** XML.h 58-59: GetAttribute(name) *)
Definition GetAttribute (s : xnode) (n : list Z) : option (list Z * list Z) := match ahash s n with Some i => nth_error (attrs s) i | None => None end.
(** XML.cpp 125-132: RemoveAttribute(index) *)
Definition RemoveAttribute (s : xnode) (i : nat) : bool * xnode :=
  match nth_error (arr s) i with
  | None => (false, s)
  | Some p => (true, XN (remove_at (arr s) i) (nhash s) (nname s) (nnext s) (nprev s) (attrs s) (puts (ahash s) (nname s p) None) (fresh s))
  end.
(** XML.cpp 133: RemoveAttribute(name) *)
Definition RemoveAttributeName (s : xnode) (n : list Z) : bool * xnode := match ahash s n with Some i => RemoveAttribute s i | None => (false, s) end.

(** calls *)
Inductive op := OpAdd (n : list Z) | OpRemove (i : nat) | OpRemoveName (n : list Z) | OpAttr (v : list Z * list Z) | OpRemoveAttr (i : nat) | OpRemoveAttrName (n : list Z).
Definition step (s : xnode) (o : op) : res xnode :=
  match o with
  | OpAdd n => AddNode s n
  | OpRemove i => Ok (snd (RemoveNode s i))
  | OpRemoveName n => Ok (snd (RemoveNodeName s n))
  | OpAttr v => AddAttribute s v
  | OpRemoveAttr i => Ok (snd (RemoveAttribute s i))
  | OpRemoveAttrName n => Ok (snd (RemoveAttributeName s n))
  end.
Fixpoint run (s : xnode) (l : list op) : res xnode := match l with [] => Ok s | o :: l => do s <- step s o; run s l end.
