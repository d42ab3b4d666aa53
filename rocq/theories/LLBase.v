(* Model of the intrusive list functions (include/bss-util/LLBase.h).  Pointers are [option nat], None is null; the heap
   maps the address of every allocated node to its two link fields.  Each C++ statement is one read or write, in the
   order of the source, so aliasing between the arguments behaves as it does there.  root and last are reference
   parameters: their new values are returned. *)
From Coq Require Import List Arith Bool.
From Verif Require Import Common Dll.
Import ListNotations.

(** LLBase.h:14-18 [LLBase]: (next, prev) of each node *)
Definition heap := nat -> option (ptr * ptr).
(** p->next and p->prev; null or unallocated p is undefined behaviour *)
Definition rd (h : heap) (p : ptr) : res (ptr * ptr) :=
  match p with Some a => match h a with Some n => Ok n | None => UB end | None => UB end.
Definition rd_next (h : heap) (p : ptr) : res ptr := do n <- rd h p; Ok (fst n).
Definition rd_prev (h : heap) (p : ptr) : res ptr := do n <- rd h p; Ok (snd n).
Definition wr (h : heap) (p : ptr) (n : ptr * ptr) : res heap :=
  match p with Some a => Ok (fun x => if x =? a then Some n else h x) | None => UB end.
(** p->next = v and p->prev = v *)
Definition wr_next (h : heap) (p v : ptr) : res heap := do n <- rd h p; wr h p (v, snd n).
Definition wr_prev (h : heap) (p v : ptr) : res heap := do n <- rd h p; wr h p (fst n, v).
(** pointer comparison *)
Definition peq (p q : ptr) : bool :=
  match p, q with Some a, Some b => a =? b | None, None => true | _, _ => false end.
Definition isnull (p : ptr) : bool := match p with None => true | _ => false end.

(** LLBase.h:22-29 [LLInsert](node, target, root) *)
Definition LLInsert (h : heap) (node target root : ptr) : res (heap * ptr) :=
  do tp <- rd_prev h target;
  do h <- wr_prev h node tp;
  do h <- wr_next h node target;
  do tp <- rd_prev h target;
  do (h, root) <- (if negb (isnull tp) then do h <- wr_next h tp node; Ok (h, root) else Ok (h, node));
  do h <- wr_prev h target node;
  Ok (h, root).
(** LLBase.h:33-39 [LLInsert](node, target) *)
Definition LLInsert2 (h : heap) (node target : ptr) : res heap :=
  do tp <- rd_prev h target;
  do h <- wr_prev h node tp;
  do h <- wr_next h node target;
  do tp <- rd_prev h target;
  do h <- (if negb (isnull tp) then wr_next h tp node else Ok h);
  wr_prev h target node.
(** LLBase.h:43-49 [LLAdd](node, root) *)
Definition LLAdd (h : heap) (node root : ptr) : res (heap * ptr) :=
  do h <- wr_prev h node None;
  do h <- wr_next h node root;
  do h <- (if negb (isnull root) then wr_prev h root node else Ok h);
  Ok (h, node).
(** LLBase.h:52-59 [LLAdd](node, root, last) *)
Definition LLAdd3 (h : heap) (node root last : ptr) : res (heap * (ptr * ptr)) :=
  do h <- wr_prev h node None;
  do h <- wr_next h node root;
  do (h, last) <- (if negb (isnull root) then do h <- wr_prev h root node; Ok (h, last) else Ok (h, node));
  Ok (h, (node, last)).
(** LLBase.h:63-70 [LLInsertAfter](node, target, last) *)
Definition LLInsertAfter (h : heap) (node target last : ptr) : res (heap * ptr) :=
  do tn <- rd_next h target;
  do h <- wr_next h node tn;
  do h <- wr_prev h node target;
  do tn <- rd_next h target;
  do (h, last) <- (if negb (isnull tn) then do h <- wr_prev h tn node; Ok (h, last) else Ok (h, node));
  do h <- wr_next h target node;
  Ok (h, last).
(** LLBase.h:74-80 [LLInsertAfter](node, target) *)
Definition LLInsertAfter2 (h : heap) (node target : ptr) : res heap :=
  do tn <- rd_next h target;
  do h <- wr_next h node tn;
  do h <- wr_prev h node target;
  do tn <- rd_next h target;
  do h <- (if negb (isnull tn) then wr_prev h tn node else Ok h);
  wr_next h target node.
(** LLBase.h:84-90 [LLAddAfter](node, last), returning the new last *)
Definition LLAddAfter2 (h : heap) (node last : ptr) : res (heap * ptr) :=
  do h <- wr_next h node None;
  do h <- wr_prev h node last;
  do h <- wr_next h last node;
  Ok (h, node).
(** LLBase.h:93-100 [LLAddAfter](node, root, last) *)
Definition LLAddAfter (h : heap) (node root last : ptr) : res (heap * (ptr * ptr)) :=
  do h <- wr_next h node None;
  do h <- wr_prev h node last;
  do (h, root) <- (if negb (isnull last) then do h <- wr_next h last node; Ok (h, root) else Ok (h, node));
  Ok (h, (root, node)).
(** LLBase.h:104-110 [LLRemove](node, root, last) *)
Definition LLRemove3 (h : heap) (node root last : ptr) : res (heap * (ptr * ptr)) :=
  do (nn, np) <- rd h node;
  do (h, root) <- (if negb (isnull np) then do h <- wr_next h np nn; Ok (h, root)
                   else if peq root node then Ok (h, nn) else Ok (h, root));
  do (nn, np) <- rd h node;
  do (h, last) <- (if negb (isnull nn) then do h <- wr_prev h nn np; Ok (h, last)
                   else if peq last node then Ok (h, np) else Ok (h, last));
  Ok (h, (root, last)).
(** LLBase.h:114-119 [LLRemove](node, root); AltLLRemove (139-144) is the same statements through GETNODES *)
Definition LLRemove2 (h : heap) (node root : ptr) : res (heap * ptr) :=
  do (nn, np) <- rd h node;
  do (h, root) <- (if negb (isnull np) then do h <- wr_next h np nn; Ok (h, root)
                   else if peq root node then Ok (h, nn) else Ok (h, root));
  do (nn, np) <- rd h node;
  do h <- (if negb (isnull nn) then wr_prev h nn np else Ok h);
  Ok (h, root).
(** LLBase.h:123-127 [LLRemove](node) *)
Definition LLRemove1 (h : heap) (node : ptr) : res heap :=
  do (nn, np) <- rd h node;
  do h <- (if negb (isnull np) then wr_next h np nn else Ok h);
  do (nn, np) <- rd h node;
  (if negb (isnull nn) then wr_prev h nn np else Ok h).
(** LLBase.h:131-137 [AltLLAdd], the same as LLAdd through the GETNODES accessor *)
Definition AltLLAdd (h : heap) (node root : ptr) : res (heap * ptr) := LLAdd h node root.
