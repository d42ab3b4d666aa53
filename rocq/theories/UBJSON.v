(** UBJSON writer and parser: [UBJSONTuple].
    include/bss-util/UBJSON.h 18-230 and bss-util/UBJSON.cpp 74-208.

    Bytes are integers in [0, 256).  The target is little endian
    (BSS_ENDIAN_LITTLE), which is what makes the stored form big endian.
    Not modelled: the engine classes around the tuple (UBJSONEngine, the
    [add]/[insert]/[bulkadd] callbacks of [Parse], which are null for a plain
    [UBJSONTuple::Parse]), memory exhaustion, and exceptions thrown by the
    stream itself. *)
From Coq Require Import List ZArith Lia Bool.
From Verif Require Import Common.
Import ListNotations.
Open Scope Z_scope.

(* ------------------------------------------------------------------ *)
(** * Type markers: UBJSON.h 20-43 *)
Definition T_NONE := 0.        (* UBJSON.h 22 *)
Definition T_NULL := 90.       (* 'Z', UBJSON.h 23 *)
Definition T_NO_OP := 78.      (* 'N', UBJSON.h 24 *)
Definition T_TRUE := 84.       (* 'T', UBJSON.h 25 *)
Definition T_FALSE := 70.      (* 'F', UBJSON.h 26 *)
Definition T_INT8 := 105.      (* 'i', UBJSON.h 27 *)
Definition T_UINT8 := 85.      (* 'U', UBJSON.h 28 *)
Definition T_INT16 := 73.      (* 'I', UBJSON.h 29 *)
Definition T_INT32 := 108.     (* 'l', UBJSON.h 30 *)
Definition T_INT64 := 76.      (* 'L', UBJSON.h 31 *)
Definition T_FLOAT := 100.     (* 'd', UBJSON.h 32 *)
Definition T_DOUBLE := 68.     (* 'D', UBJSON.h 33 *)
Definition T_BIGNUM := 72.     (* 'H', UBJSON.h 34 *)
Definition T_CHAR := 67.       (* 'C', UBJSON.h 35 *)
Definition T_STRING := 83.     (* 'S', UBJSON.h 36 *)
Definition T_OBJECT := 123.    (* '{', UBJSON.h 37 *)
Definition T_ARRAY := 91.      (* '[', UBJSON.h 38 *)
Definition T_OBJECT_END := 125. (* '}', UBJSON.h 39 *)
Definition T_ARRAY_END := 93.  (* ']', UBJSON.h 40 *)
Definition T_TYPE := 36.       (* '$', UBJSON.h 41 *)
Definition T_COUNT := 35.      (* '#', UBJSON.h 42 *)

(** A [UBJSONTuple] that carries one of the value types: UBJSON.h 236-250
    (the [Type] field and the union).  Floats and doubles are their 32- and
    64-bit patterns; a string is its [Length] bytes; an object is its list of
    (key bytes, value) pairs in order.  The remaining markers (NONE and the
    structural ones) are not values: [Write] throws on them
    (UBJSON.cpp 149-150), so they have no constructor here. *)
Inductive val :=
| VNull | VNoOp | VTrue | VFalse
| VChar (z : Z) | VInt8 (z : Z) | VUInt8 (z : Z)
| VInt16 (z : Z) | VInt32 (z : Z) | VInt64 (z : Z)
| VFloat (bits : Z) | VDouble (bits : Z)
| VBignum (s : list Z) | VString (s : list Z)
| VArray (l : list val)
| VObject (l : list (list Z * val)).

(** The [Type] field: UBJSON.h 236. *)
Definition type_of (v : val) : Z :=
  match v with
  | VNull => T_NULL | VNoOp => T_NO_OP | VTrue => T_TRUE | VFalse => T_FALSE
  | VChar _ => T_CHAR | VInt8 _ => T_INT8 | VUInt8 _ => T_UINT8
  | VInt16 _ => T_INT16 | VInt32 _ => T_INT32 | VInt64 _ => T_INT64
  | VFloat _ => T_FLOAT | VDouble _ => T_DOUBLE
  | VBignum _ => T_BIGNUM | VString _ => T_STRING
  | VArray _ => T_ARRAY | VObject _ => T_OBJECT
  end.

(* ------------------------------------------------------------------ *)
(** * Bytes *)

(** The [n] bytes of an integer in memory on a little-endian machine. *)
Fixpoint le (n : nat) (z : Z) : list Z :=
  match n with
  | O => []
  | S n => z mod 256 :: le n (z / 256)
  end.

(** Reading them back as an unsigned number. *)
Fixpoint of_le (l : list Z) : Z :=
  match l with
  | [] => 0
  | b :: t => b + 256 * of_le t
  end.

(** [WriteInteger<T>]: UBJSON.h 190-197, with [FlipEndian] (bss_util.h
    338-366) exchanging byte [i] and byte [n-1-i], that is, reversing. *)
Definition write_integer (n : nat) (z : Z) : list Z := rev (le n z).

(** [CheckIntType<T, int64_t>]: UBJSON.h 199-204; [lo], [hi] are the limits
    of [T]. *)
Definition check_int (lo hi z : Z) : bool := (lo <=? z) && (z <=? hi).

(** [GetIntType<int64_t>] followed by the tuple constructor: UBJSON.h 206-215
    and 49-75.  The last test always succeeds for an [int64_t]. *)
Definition int_tuple (z : Z) : val :=
  if check_int 0 255 z then VUInt8 z
  else if check_int (-128) 127 z then VInt8 z
  else if check_int (-32768) 32767 z then VInt16 z
  else if check_int (-2147483648) 2147483647 z then VInt32 z
  else VInt64 z.

(** [Write] of an integer tuple: UBJSON.cpp 194-199; the other values do not
    reach this function. *)
Definition write_scalar (v : val) : list Z :=
  match v with
  | VChar z | VInt8 z | VUInt8 z => write_integer 1 z
  | VInt16 z => write_integer 2 z
  | VInt32 z => write_integer 4 z
  | VInt64 z => write_integer 8 z
  | _ => []
  end.

(** [WriteLength]: UBJSON.h 217-221. *)
Definition write_length (n : Z) : list Z :=
  type_of (int_tuple n) :: write_scalar (int_tuple n).

(** The choice of element type in [Write]: UBJSON.cpp 162-168 and 179-185.
    [ts] are the types of the elements. *)
Definition common_type (ts : list Z) : Z :=
  match ts with
  | [] => T_NONE
  | t :: _ => if forallb (fun x => x =? t) ts then t else T_NONE
  end.

(** [WriteTypeCount] with a non-negative count: UBJSON.cpp 123-138. *)
Definition write_type_count (ty : Z) (count : Z) : list Z :=
  (if ty =? T_NONE then [] else [T_TYPE; ty]) ++ T_COUNT :: write_length count.

(** [UBJSONTuple::Write] without the leading marker: UBJSON.cpp 147-207.
    The marker of a child is put when the type passed to it is NONE
    (UBJSON.cpp 142-143). *)
Fixpoint payload (v : val) : list Z :=
  match v with
  | VNull | VNoOp | VTrue | VFalse => []
  | VChar z | VInt8 z | VUInt8 z => write_integer 1 z
  | VInt16 z => write_integer 2 z
  | VInt32 z => write_integer 4 z
  | VInt64 z => write_integer 8 z
  | VFloat b => write_integer 4 b
  | VDouble b => write_integer 8 b
  | VBignum s | VString s => write_length (Z.of_nat (length s)) ++ s
  | VArray l =>
      match l with
      | [] => [T_ARRAY_END]
      | _ =>
        let ty := common_type (map type_of l) in
        write_type_count ty (Z.of_nat (length l)) ++
        flat_map (fun i => (if ty =? T_NONE then [type_of i] else []) ++ payload i) l
      end
  | VObject l =>
      match l with
      | [] => [T_OBJECT_END]
      | _ =>
        let ty := common_type (map (fun i => type_of (snd i)) l) in
        write_type_count ty (Z.of_nat (length l)) ++
        flat_map (fun i => write_length (Z.of_nat (length (fst i))) ++ fst i ++
                           (if ty =? T_NONE then [type_of (snd i)] else []) ++
                           payload (snd i)) l
      end
  end.

(** [UBJSONTuple::Write(s, type)]: UBJSON.cpp 140-208. *)
Definition write (v : val) (ty : Z) : list Z :=
  (if ty =? T_NONE then [type_of v] else []) ++ payload v.

(* ------------------------------------------------------------------ *)
(** * Input stream *)

(** A [std::istream]: the unread bytes and failbit/badbit.  eofbit needs no
    field: it is only set when no byte is left, and every later read then
    fails just as it would without it. *)
Record istream := St { bytes : list Z; failed : bool }.

(** Outcome of a parsing function: a value and the stream, an exception, a
    use of a value that the failed read left uninitialised, or lack of fuel. *)
Inductive presult (A : Type) :=
| POk (a : A) (s : istream)
| PThrow
| PUninit
| PFuel.
Arguments POk {A}. Arguments PThrow {A}. Arguments PUninit {A}. Arguments PFuel {A}.

(** Sequencing; not code. *)
Definition pbind {A B} (m : presult A) (k : A -> istream -> presult B) : presult B :=
  match m with
  | POk a s => k a s
  | PThrow => PThrow
  | PUninit => PUninit
  | PFuel => PFuel
  end.

(** [s.peek()]; used at UBJSON.cpp 107, 113 and UBJSON.h 104, 125, 138, 147, 165. *)
Definition peek (s : istream) : Z :=
  if failed s then -1 else match bytes s with [] => -1 | b :: _ => b end.

(** [s.get()]; used at UBJSON.cpp 84, 109-110, 115 and UBJSON.h 103, 139, 166. *)
Definition sget (s : istream) : Z * istream :=
  if failed s then (-1, s)
  else match bytes s with
       | [] => (-1, St [] true)
       | b :: t => (b, St t false)
       end.

(** [s.read(p, n)]: the bytes read, or nothing when the stream ran out (the
    destination then keeps what it held before). *)
Definition sread (n : nat) (s : istream) : option (list Z) * istream :=
  if failed s then (None, s)
  else if (n <=? length (bytes s))%nat
       then (Some (firstn n (bytes s)), St (skipn n (bytes s)) false)
       else (None, St [] true).

(** [ParseInteger<T>], as the unsigned pattern: UBJSON.h 85-94. *)
Definition parse_bits (n : nat) (s : istream) : presult Z :=
  match sread n s with
  | (Some l, s) => POk (of_le (rev l)) s
  | (None, _) => PUninit
  end.

(** [ParseInteger<T>] for a signed [T] of [n] bytes: UBJSON.h 85-94. *)
Definition parse_int (n : nat) (s : istream) : presult Z :=
  pbind (parse_bits n s) (fun x s => POk (sgn (8 * Z.of_nat n) x) s).

(** [ParseLength]: UBJSON.cpp 79-102.  Recursion over no-ops; a failed
    stream ends the loop with [ret = -1], which throws. *)
Fixpoint parse_length_f (fuel : nat) (s : istream) : presult Z :=
  match fuel with
  | O => PFuel
  | S fuel =>
    if failed s then PThrow else
    let '(c, s) := sget s in
    let fin m := pbind m (fun r s => if r <? 0 then PThrow else POk r s) in
    if (c =? T_CHAR) || (c =? T_INT8) then fin (parse_int 1 s)
    else if c =? T_UINT8 then fin (parse_bits 1 s)
    else if c =? T_INT16 then fin (parse_int 2 s)
    else if c =? T_INT32 then fin (parse_int 4 s)
    else if c =? T_INT64 then fin (parse_int 8 s)
    else if c =? T_NO_OP then parse_length_f fuel s
    else PThrow
  end.
(** The loop of UBJSON.cpp 82-97 eats a byte each time round. *)
Definition parse_length (s : istream) : presult Z :=
  parse_length_f (S (length (bytes s))) s.

(** [ParseTypeCount]: UBJSON.cpp 104-121; gives the element type and the
    count. *)
Definition parse_type_count (s : istream) : presult (Z * Z) :=
  let '(ty, s) :=
    if negb (failed s) && (peek s =? T_TYPE)
    then let '(_, s) := sget s in sget s else (T_NONE, s) in
  if negb (failed s) && (peek s =? T_COUNT)
  then let '(_, s) := sget s in pbind (parse_length s) (fun n s => POk (ty, n) s)
  else if negb (ty =? T_NONE) then PThrow
  else POk (ty, -1) s.

(** The marker loop of [Parse]: UBJSON.h 102-104. *)
Fixpoint parse_marker_f (fuel : nat) (s : istream) : presult Z :=
  match fuel with
  | O => PFuel
  | S fuel =>
    let '(c, s) := sget s in
    if (c =? T_NO_OP) && negb (failed s) && negb (peek s =? -1)
    then parse_marker_f fuel s
    else POk c s
  end.
(** The loop of UBJSON.h 102-104 eats a byte each time round. *)
Definition parse_marker (s : istream) : presult Z :=
  parse_marker_f (S (length (bytes s))) s.

(** The body of a string: UBJSON.h 179-185. *)
Definition parse_string (s : istream) : presult (list Z) :=
  pbind (parse_length s) (fun n s =>
  if n >? 0 then
    match sread (Z.to_nat n) s with
    | (Some l, s) => POk l s
    | (None, _) => PUninit
    end
  else POk [] s).

(** The loop condition of UBJSON.h 125 and 147; [fin] is the end marker. *)
Definition more (count fin : Z) (s : istream) : bool :=
  negb (failed s) && negb (peek s =? -1) && ((count >? 0) || (count <? 0)) &&
  ((count >? 0) || negb (peek s =? fin)).

(** Eating the end marker: UBJSON.h 138-139 and 165-166. *)
Definition eat_end (count fin : Z) (s : istream) : istream :=
  if (count <? 0) && negb (failed s) && (peek s =? fin) then snd (sget s) else s.

(** [UBJSONTuple::Parse(s, ty)]: UBJSON.h 96-188 with null callbacks
    (UBJSON.cpp 74-77).  [parse_array] and [parse_object] are the loops at
    UBJSON.h 125-139 and 147-166.  [fuel] bounds the number of nested calls
    and loop rounds. *)
Fixpoint parse (fuel : nat) (ty : Z) (s : istream) {struct fuel} : presult val :=
  match fuel with
  | O => PFuel
  | S fuel =>
    pbind (if ty =? T_NONE then parse_marker s else POk ty s) (fun ty s =>
    if ty =? T_NO_OP then POk VNoOp s
    else if ty =? T_NULL then POk VNull s
    else if ty =? T_TRUE then POk VTrue s
    else if ty =? T_FALSE then POk VFalse s
    else if ty =? T_ARRAY then
      pbind (parse_type_count s) (fun tc s =>
      pbind (parse_array fuel (fst tc) (snd tc) s) (fun l s => POk (VArray l) s))
    else if ty =? T_OBJECT then
      pbind (parse_type_count s) (fun tc s =>
      pbind (parse_object fuel (fst tc) (snd tc) s) (fun l s => POk (VObject l) s))
    else if ty =? T_CHAR then pbind (parse_int 1 s) (fun z s => POk (VChar z) s)
    else if ty =? T_INT8 then pbind (parse_int 1 s) (fun z s => POk (VInt8 z) s)
    else if ty =? T_UINT8 then pbind (parse_bits 1 s) (fun z s => POk (VUInt8 z) s)
    else if ty =? T_INT16 then pbind (parse_int 2 s) (fun z s => POk (VInt16 z) s)
    else if ty =? T_INT32 then pbind (parse_int 4 s) (fun z s => POk (VInt32 z) s)
    else if ty =? T_INT64 then pbind (parse_int 8 s) (fun z s => POk (VInt64 z) s)
    else if ty =? T_FLOAT then pbind (parse_bits 4 s) (fun z s => POk (VFloat z) s)
    else if ty =? T_DOUBLE then pbind (parse_bits 8 s) (fun z s => POk (VDouble z) s)
    else if ty =? T_BIGNUM then pbind (parse_string s) (fun b s => POk (VBignum b) s)
    else if ty =? T_STRING then pbind (parse_string s) (fun b s => POk (VString b) s)
    else PThrow)
  end
with parse_array (fuel : nat) (ty count : Z) (s : istream) {struct fuel}
  : presult (list val) :=
  match fuel with
  | O => PFuel
  | S fuel =>
    if more count T_ARRAY_END s then
      pbind (parse fuel ty s) (fun v s =>
      pbind (parse_array fuel ty (count - 1) s) (fun l s => POk (v :: l) s))
    else POk [] (eat_end count T_ARRAY_END s)
  end
with parse_object (fuel : nat) (ty count : Z) (s : istream) {struct fuel}
  : presult (list (list Z * val)) :=
  match fuel with
  | O => PFuel
  | S fuel =>
    if more count T_OBJECT_END s then
      pbind (parse_length s) (fun n s =>
      match sread (Z.to_nat n) s with
      | (None, _) => PUninit
      | (Some key, s) =>
        pbind (parse fuel ty s) (fun v s =>
        pbind (parse_object fuel ty (count - 1) s) (fun l s => POk ((key, v) :: l) s))
      end)
    else POk [] (eat_end count T_OBJECT_END s)
  end.
