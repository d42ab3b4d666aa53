(* Model of bssSerialize and bssDeserialize (include/bss-util/BitStream.h:100-140).  A std::ostream collects
   bytes, a std::istream has bytes left to read.  [big] says whether BSS_ENDIAN_BIG is defined, that is whether
   memory holds numbers with the most significant byte first.  The casts in lines 105 and 124 give char* where
   FlipEndian takes uint8_t*, which a compiler rejects; the model takes the cast that was meant.  size_t has
   eight bytes.  Memory of the right size is always available. *)
From Coq Require Import ZArith List Bool.
From Verif Require Import Common BitUtil.
Import ListNotations.
Local Open Scope Z_scope.

(** The n bytes of a number, least significant first, and the number of some bytes. *)
Fixpoint to_le (n : nat) (v : Z) : list Z := match n with O => [] | S k => v mod 256 :: to_le k (v / 256) end.
Fixpoint of_le (l : list Z) : Z := match l with [] => 0 | b :: t => b + 256 * of_le t end.
(** An object of a basic type in memory: n bytes. *)
Definition store (big : bool) (n : nat) (v : Z) : list Z := if big then rev (to_le n v) else to_le n v.
Definition load (big : bool) (mem : list Z) : Z := of_le (if big then rev mem else mem).

(** BitStream.h:100-108 [bssSerialize<T>]: the bytes appended; n = sizeof(T) *)
Definition ser_fixed (big : bool) (n : nat) (v : Z) : res (list Z) :=
  if big then FlipEndian (store big n v) n else Ok (store big n v).
(** strlen: the characters before the first NUL; memory without NUL is UB *)
Fixpoint c_text (mem : list Z) : res (list Z) :=
  match mem with [] => UB | c :: t => if c =? 0 then Ok [] else do r <- c_text t; Ok (c :: r) end.
(** BitStream.h:109-115 [bssSerialize<const char*>] *)
Definition ser_text (big : bool) (mem : list Z) : res (list Z) :=
  do d <- c_text mem;
  do len <- ser_fixed big 8 (Z.of_nat (length d));
  Ok (len ++ d).

(** std::istream::read of n bytes over the old contents of the memory: the memory, what is left, and whether
    there were enough (otherwise failbit is set) *)
Definition is_read (mem : list Z) (s : list Z) : list Z * list Z * bool :=
  let n := length mem in
  (firstn n s ++ skipn (length s) mem, skipn n s, (n <=? length s)%nat).
(** BitStream.h:117-124 [bssDeserialize<T>]: the object before has the value [old] *)
Definition des_fixed (big : bool) (n : nat) (old : Z) (s : list Z) : res (Z * list Z * bool) :=
  let '(mem, s', good) := is_read (store big n old) s in
  do mem' <- (if big then FlipEndian mem n else Ok mem);
  Ok (load big mem', s', good).
(** BitStream.h:125-132 [bssDeserialize<std::string>]: len is not initialised, so it must be read completely;
    resize to more than the longest string throws, which is UB here *)
Definition des_text (big : bool) (s : list Z) : res (list Z * list Z * bool) :=
  if (length s <? 8)%nat then UB else
  do r <- des_fixed big 8 0 s;
  let '(len, s1, _) := r in
  if 2 ^ 63 <=? len then UB else
  Ok (is_read (repeat 0 (Z.to_nat len)) s1).
