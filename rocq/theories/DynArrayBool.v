(* Model of DynArray<bool> (include/bss-util/DynArray.h:166-337) with the bit references of
   include/bss-util/BitField.h:13-42.  STORE is uint8_t, so DIV_AMT = 8 and MOD_AMT = 7 (lines 178-179).
   Sizes do not overflow CType; the iterators and Serialize are not modelled. *)
From Coq Require Import List ZArith Bool Arith.
From Verif Require Import Common Growth BitUtil.
Import ListNotations.
Local Open Scope Z_scope.

(** _array (its _capacity bytes) and _length, DynArray.h:176-177,336 *)
Record barr := { bytes_ : list Z; blen : nat }.
Definition barr0 : barr := {| bytes_ := []; blen := 0 |}.   (** DynArray.h:186 *)

Section Bool.
(** Freshly allocated storage is uninitialised: [fresh n] are n arbitrary bytes. *)
Context (fresh : nat -> list Z).

(** Array.h:136-141 [_setCapacity]: realloc keeps the old bytes *)
Definition bsetCapacity (bs : list Z) (cap : nat) : list Z := firstn cap bs ++ fresh (cap - length bs).

(** DynArray.h:329-334 [_checkSize] *)
Definition bcheckSize (s : barr) : barr :=
  if (length (bytes_ s) * 8 <=? blen s)%nat
  then {| bytes_ := bsetCapacity (bytes_ s) (fbnext_nat (length (bytes_ s))); blen := blen s |} else s.

(** BitField.h:18-22 through GetBit (DynArray.h:295): T_SETBIT, defines.h:56, stored to a uint8_t *)
Definition setbit (bs : list Z) (i : nat) (v : bool) : res (list Z) :=
  do b <- get bs (i / 8);
  let mask := Z.shiftl 1 (Z.of_nat (i mod 8)) in
  set bs (i / 8) (wrap 8 (Z.lor (Z.land b (Z.lnot mask)) (Z.land (if v then -1 else 0) mask))).

(** DynArray.h:245 [operator[]] *)
Definition bAt (s : barr) (i : nat) : res bool :=
  if (i <? blen s)%nat then
    do b <- get (bytes_ s) (i / 8);
    Ok (negb (Z.land b (Z.shiftl 1 (Z.of_nat (i mod 8))) =? 0))
  else UB.
(** DynArray.h:246: assignment through the reference *)
Definition bPut (s : barr) (i : nat) (v : bool) : res barr :=
  if (i <? blen s)%nat then
    do bs <- setbit (bytes_ s) i v; Ok {| bytes_ := bs; blen := blen s |}
  else UB.

(** DynArray.h:193 [Add] *)
Definition bAdd (s : barr) (v : bool) : res barr :=
  let s1 := bcheckSize s in
  do bs <- setbit (bytes_ s1) (blen s1) v;
  Ok {| bytes_ := bs; blen := blen s1 + 1 |}.
(** DynArray.h:194 [AddConstruct]: writes the byte (not the bit) with index _length *)
Definition bAddConstruct (s : barr) : res barr :=
  let s1 := bcheckSize s in
  do bs <- set (bytes_ s1) (blen s1) 0;
  Ok {| bytes_ := bs; blen := blen s1 + 1 |}.

(** DynArray.h:296 [_maxChunks](n) / DIV_AMT *)
Definition chunks (n : nat) : nat := (n + 7) / 8.

(** DynArray.h:305-309, the loop of [_shiftDelete], [n] iterations from [i] *)
Fixpoint delete_loop (bs : list Z) (i n : nat) : res (list Z) :=
  match n with
  | O => Ok bs
  | S n' =>
    do a <- get bs (i - 1);
    do b <- get bs i;
    do bs1 <- set bs (i - 1) (wrap 8 (Z.lor (Z.land a (Z.shiftr 255 1)) (Z.shiftl (Z.land b 1) 7)));
    do bs2 <- set bs1 i (Z.shiftr b 1);
    delete_loop bs2 (S i) n'
  end.
(** DynArray.h:297-310 [_shiftDelete] *)
Definition shiftDelete (s : barr) (index : nat) : res (list Z) :=
  let ind := (index / 8)%nat in
  let off := (index mod 8)%nat in
  let mask := wrap 8 (Z.shiftl 255 (Z.of_nat off)) in
  do b <- get (bytes_ s) ind;
  do bs <- set (bytes_ s) ind (wrap 8 (Z.lor (Z.land (Z.shiftr b 1) mask) (Z.land b (Z.lnot mask))));
  delete_loop bs (ind + 1) (chunks (blen s) - (ind + 1)).
(** DynArray.h:195-200 [Remove] *)
Definition bRemove (s : barr) (index : nat) : res barr :=
  if negb (index <? blen s)%nat then UB else
  do bs <- shiftDelete s index;
  Ok {| bytes_ := bs; blen := blen s - 1 |}.
(** DynArray.h:201 [RemoveLast] *)
Definition bRemoveLast (s : barr) : res barr :=
  if (blen s =? 0)%nat then UB else Ok {| bytes_ := bytes_ s; blen := blen s - 1 |}.

(** DynArray.h:322-326, the loop of [_shiftInsert] *)
Fixpoint insert_loop (bs : list Z) (store : Z) (i n : nat) : res (list Z) :=
  match n with
  | O => Ok bs
  | S n' =>
    do b <- get bs i;
    let b1 := wrap 8 (Z.lor (Z.shiftr store 7) (Z.land (Z.shiftl b 1) 254)) in
    do bs1 <- set bs i b1;
    insert_loop bs1 b1 (S i) n'
  end.
(** DynArray.h:311-327 [_shiftInsert] *)
Definition shiftInsert (s : barr) (index : nat) : res barr :=
  let s1 := bcheckSize s in
  let ind := (index / 8)%nat in
  let off := (index mod 8)%nat in
  let mask := wrap 8 (Z.shiftl 255 (Z.of_nat off)) in
  do store <- get (bytes_ s1) ind;
  do bs <- set (bytes_ s1) ind (wrap 8 (Z.lor (Z.shiftl (Z.land store mask) 1) (Z.land store (Z.lnot mask))));
  do bs2 <- insert_loop bs store (ind + 1) (chunks (blen s1 + 1) - (ind + 1));
  Ok {| bytes_ := bs2; blen := blen s1 |}.
(** DynArray.h:202-207 [Insert]; indices beyond the length are the caller's error *)
Definition bInsert (s : barr) (v : bool) (index : nat) : res barr :=
  if negb (index <=? blen s)%nat then UB else
  do s1 <- shiftInsert s index;
  do bs <- setbit (bytes_ s1) index v;
  Ok {| bytes_ := bs; blen := blen s1 + 1 |}.

(** DynArray.h:213: for(i = _length; i < length; ++i) GetBit(i) = false *)
Fixpoint clear_bits (bs : list Z) (i n : nat) : res (list Z) :=
  match n with
  | O => Ok bs
  | S n' => do bs1 <- setbit bs i false; clear_bits bs1 (S i) n'
  end.
(** DynArray.h:210-215 [SetLength]; Clear (209) is SetLength(0) *)
Definition bSetLength (s : barr) (n : nat) : res barr :=
  let bs := if (length (bytes_ s) * 8 <? n)%nat then bsetCapacity (bytes_ s) (chunks n) else bytes_ s in
  do bs1 <- clear_bits bs (blen s) (n - blen s);
  Ok {| bytes_ := bs1; blen := n |}.

(** DynArray.h:234-235: the whole bytes between the ends *)
Fixpoint count_loop (bs : list Z) (i n : nat) (c : Z) : res Z :=
  match n with
  | O => Ok c
  | S n' => do b <- get bs i; count_loop bs (S i) n' (c + BitCount 8 b)
  end.
(** DynArray.h:218-238 [CountBits] *)
Definition CountBits (s : barr) (bitindex length : nat) : res Z :=
  if (length =? 0)%nat then Ok 0 else
  let length := (length + bitindex)%nat in
  if negb (length <=? blen s)%nat then UB else
  let start := (bitindex / 8)%nat in
  let end_ := chunks length in
  let smask := wrap 8 (Z.lnot (Z.shiftl 1 (Z.of_nat (bitindex - start * 8)) - 1)) in
  let emask := Z.shiftr 255 (Z.of_nat (end_ * 8 - length)) in
  let end_ := (end_ - 1)%nat in
  if (start =? end_)%nat then
    do b <- get (bytes_ s) start;
    Ok (BitCount 8 (Z.land (Z.land b smask) emask))
  else
    do b <- get (bytes_ s) start;
    do e <- get (bytes_ s) end_;
    count_loop (bytes_ s) (start + 1) (end_ - (start + 1)) (BitCount 8 (Z.land b smask) + BitCount 8 (Z.land e emask)).

(** The public mutators as one step *)
Inductive b_op := BAdd (v : bool) | BInsert (v : bool) (i : nat) | BRemove (i : nat) | BRemoveLast | BPut (i : nat) (v : bool) | BSetLength (n : nat).
Definition b_step (s : barr) (o : b_op) : res barr :=
  match o with
  | BAdd v => bAdd s v
  | BInsert v i => bInsert s v i
  | BRemove i => bRemove s i
  | BRemoveLast => bRemoveLast s
  | BPut i v => bPut s i v
  | BSetLength n => bSetLength s n
  end.
End Bool.
