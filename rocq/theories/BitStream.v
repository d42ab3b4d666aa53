(* Model of include/bss-util/BitStream.h: bit-granular writing to and reading from a byte stream.
   The underlying STREAM is a list of bytes with a read position; stream error flags are not modelled
   (reading at the end keeps answering end-of-file, BitStream.h never writes and reads alternately here). *)
From Coq Require Import List ZArith Bool Arith.
From Verif Require Import Common.
Import ListNotations.
Local Open Scope Z_scope.

(* The writing half of a BitStream: _base, _buf, _woffset; BitStream.h lines 94-97.
   A fresh object has both counters zero, line 19. *)
Record writer := { wbase : list Z; wbuf : Z; woff : Z }.
Definition writer0 := {| wbase := []; wbuf := 0; woff := 0 |}.

(* The loop of Write over whole bytes, BitStream.h lines 27-32; [q] iterations are left, that is
   i = 8*q + (bits mod 8).  d[k] << _woffset is an int; storing to the uint8_t _buf keeps 8 bits. *)
Fixpoint write_loop (q : nat) (d : list Z) (k : nat) (s : writer) : res writer :=
  match q with
  | O => Ok s
  | S q' =>
    do x <- get d k;
    let buf := wrap 8 (Z.lor (wbuf s) (Z.shiftl x (woff s))) in
    write_loop q' d (S k)
      {| wbase := wbase s ++ [buf]; wbuf := wrap 8 (Z.shiftr x (8 - woff s)); woff := woff s |}
  end.

(* BitStream::Write(const void*, int), BitStream.h lines 21-47; [bits] is taken non-negative. *)
Definition Write (s : writer) (d : list Z) (bits : nat) : res writer :=
  do s1 <- write_loop (bits / 8) d 0 s;
  let i := Z.of_nat (bits mod 8) in
  if i =? 0 then Ok s1 else
  do x <- get d (bits / 8);
  let buf := wrap 8 (Z.lor (wbuf s1) (Z.shiftl x (woff s1))) in
  let '(base, buf) :=
    if 8 <=? woff s1 + i then (wbase s1 ++ [buf], wrap 8 (Z.shiftr x (8 - woff s1))) else (wbase s1, buf) in
  let off := Z.land (woff s1 + i) 7 in
  Ok {| wbase := base; wbuf := Z.land buf (Z.shiftl 1 off - 1); woff := off |}.

(* BitStream::Flush, BitStream.h line 79 with _flush line 90: the partial byte is written; _buf and
   _woffset are not reset. *)
Definition Flush (s : writer) : writer :=
  if woff s =? 0 then s else {| wbase := wbase s ++ [wbuf s]; wbuf := wbuf s; woff := woff s |}.

(* The reading half: the stream, its position, and _roffset; BitStream.h lines 94-96. *)
Record reader := { rbase : list Z; rpos : nat; roff : Z }.
Definition reader0 (l : list Z) := {| rbase := l; rpos := 0; roff := 0 |}.

(* std::istream::peek: the next byte, or EOF = -1 *)
Definition peek (s : reader) : Z :=
  match nth_error (rbase s) (rpos s) with Some b => b | None => -1 end.
(* std::istream::get(char&): advances unless at the end; the byte goes to the unused variable b *)
Definition skip (s : reader) : reader :=
  {| rbase := rbase s; rpos := if (rpos s <? length (rbase s))%nat then S (rpos s) else rpos s; roff := roff s |}.

(* The loop of Read over whole bytes, BitStream.h lines 57-62 *)
Fixpoint read_loop (q : nat) (d : list Z) (k : nat) (s : reader) : res (list Z * reader) :=
  match q with
  | O => Ok (d, s)
  | S q' =>
    do d1 <- set d k (wrap 8 (Z.shiftr (peek s) (roff s)));
    let s1 := skip s in
    do x <- get d1 k;
    do d2 <- set d1 k (wrap 8 (Z.lor x (Z.shiftl (peek s1) (8 - roff s))));
    read_loop q' d2 (S k) s1
  end.

(* BitStream::Read(void*, int), BitStream.h lines 50-78; [d] is the destination memory. *)
Definition Read (s : reader) (d : list Z) (bits : nat) : res (list Z * reader) :=
  do (d1, s1) <- read_loop (bits / 8) d 0 s;
  let k := (bits / 8)%nat in
  let i := Z.of_nat (bits mod 8) in
  if i =? 0 then Ok (d1, s1) else
  do x <- get d1 k;
  do d2 <- set d1 k (wrap 8 (Z.lor x (Z.shiftr (peek s1) (roff s1))));
  do (d3, s2) <-
    (if 8 <=? roff s1 + i then
       let s2 := skip s1 in
       if 8 <? roff s1 + i then
         do x <- get d2 k;
         do d3 <- set d2 k (wrap 8 (Z.lor x (Z.shiftl (peek s2) (8 - roff s1))));
         Ok (d3, s2)
       else Ok (d2, s2)
     else Ok (d2, s1));
  do x <- get d3 k;
  do d4 <- set d3 k (Z.land x (Z.shiftl 1 i - 1));
  Ok (d4, {| rbase := rbase s2; rpos := rpos s2; roff := Z.land (roff s1 + i) 7 |}).

(* A client performing a list of Writes on a fresh BitStream, then Flush *)
Fixpoint write_all (s : writer) (l : list (list Z * nat)) : res writer :=
  match l with
  | [] => Ok (Flush s)
  | (d, n) :: t => do s1 <- Write s d n; write_all s1 t
  end.

(* A client performing Reads into the given destinations *)
Fixpoint read_all (s : reader) (l : list (list Z * nat)) : res (list (list Z)) :=
  match l with
  | [] => Ok []
  | (d, n) :: t => do (d1, s1) <- Read s d n; do r <- read_all s1 t; Ok (d1 :: r)
  end.
