(* Model of several BitStream objects over one stream: the constructors, the destructor, Flush and the
   assignments of include/bss-util/BitStream.h:17-20, 79-82, over the model of Write in BitStream.v.  STREAM is
   derived from std::ostream.  Reading offsets are carried along but nothing is read. *)
From Coq Require Import List ZArith Bool.
From Verif Require Import Common BitStream.
Import ListNotations.
Local Open Scope Z_scope.

(** BitStream.h:94-97 the members; [b_base] is whether _base points to the stream *)
Record bstream := { b_base : bool; b_buf : Z; b_roff : Z; b_woff : Z }.

(** BitStream.h:19 *)
Definition bs_new : bstream := {| b_base := true; b_buf := 0; b_roff := 0; b_woff := 0 |}.
(** BitStream.h:17 copy constructor *)
Definition bs_copy (c : bstream) : bstream := {| b_base := b_base c; b_buf := b_buf c; b_roff := b_roff c; b_woff := b_woff c |}.
(** BitStream.h:18 move constructor: the new object and what is left of the old one *)
Definition bs_move (mov : bstream) : bstream * bstream :=
  ({| b_base := b_base mov; b_buf := b_buf mov; b_roff := b_roff mov; b_woff := b_woff mov |},
   {| b_base := false; b_buf := b_buf mov; b_roff := b_roff mov; b_woff := b_woff mov |}).
(** BitStream.h:81 copy assignment *)
Definition bs_assign (this c : bstream) : bstream :=
  {| b_base := b_base c; b_buf := b_buf this; b_roff := b_roff this; b_woff := b_woff this |}.
(** BitStream.h:82 move assignment: the target and the source *)
Definition bs_move_assign (this mov : bstream) : bstream * bstream :=
  ({| b_base := b_base mov; b_buf := b_buf this; b_roff := b_roff this; b_woff := b_woff this |},
   {| b_base := false; b_buf := b_buf mov; b_roff := b_roff mov; b_woff := b_woff mov |}).
(** BitStream.h:21-47 [Write]: a null _base is UB as soon as a byte is put; here at once *)
Definition bs_write (out : list Z) (b : bstream) (d : list Z) (n : nat) : res (list Z * bstream) :=
  if b_base b then
    do w <- Write {| wbase := out; wbuf := b_buf b; woff := b_woff b |} d n;
    Ok (wbase w, {| b_base := true; b_buf := wbuf w; b_roff := b_roff b; b_woff := woff w |})
  else UB.
(** BitStream.h:79, 89-90 [Flush] *)
Definition bs_flush (out : list Z) (b : bstream) : list Z := if b_woff b =? 0 then out else out ++ [b_buf b].
(** BitStream.h:20 the destructor *)
Definition bs_destroy (out : list Z) (b : bstream) : list Z := if b_base b then bs_flush out b else out.
