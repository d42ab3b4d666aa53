(** * What it means for an XML tree to be one that the XML file format of XML.cpp can carry *)
From Coq Require Import ZArith List Bool.
From Verif Require Import XML.
Import ListNotations.
Local Open Scope Z_scope.

(** not empty, the first character is not white space or a control character, the last one is a visible ASCII character *)
Definition edges (s : list Z) : Prop := s <> [] /\ 33 <= hd 0 s /\ 33 <= last s 0 < 128.
(** a name of a node: no zero characters, white space, or greater-than signs; does not start with slash, question mark or exclamation
    mark; does not end with a slash *)
Definition good_name (n : list Z) : Prop :=
  edges n /\ Forall (fun c => 0 < c < 256 /\ c <> 32 /\ ~ 9 <= c <= 13 /\ c <> 62) n /\ hd 0 n <> 47 /\ hd 0 n <> 63 /\ hd 0 n <> 33 /\ last n 0 <> 47.
(** an attribute: no zero characters or greater-than signs; no equals sign in the name; no quotation mark in the value *)
Definition good_attr (a : list Z * list Z) : Prop :=
  edges (fst a) /\ Forall (fun c => 0 < c < 256 /\ c <> 61 /\ c <> 62) (fst a) /\ Forall (fun c => 0 < c < 256 /\ c <> 34 /\ c <> 62) (snd a).
(** the value of a node: empty, or there is a visible character in it *)
Definition good_value (v : list Z) : Prop :=
  Forall (fun c => 0 < c < 256) v /\ (v = [] \/ Exists (fun c => 33 <= c < 128) v \/ 128 <= hd 0 v).
Definition good_attrs (l : list (list Z * list Z)) : Prop := Forall good_attr l /\ NoDup (map fst l).
(** all nodes of the tree *)
Inductive good_node : node -> Prop :=
| good_Node name attrs value nodes :
  good_name name -> good_attrs attrs -> good_value value -> Forall good_node nodes -> good_node (Node name attrs value nodes).

Definition blank (s : list Z) : Prop := Forall (fun c => c = 9 \/ c = 10) s.
(** the same tree, except for line ends and tabs after the value of nodes that have child nodes *)
Inductive same_tree : node -> node -> Prop :=
| same_Node name attrs value nodes nodes' sp :
  Forall2 same_tree nodes nodes' -> blank sp -> (nodes = [] -> sp = []) -> same_tree (Node name attrs value nodes) (Node name attrs (value ++ sp) nodes').
