(* Model of ArrayCircular<T> (include/bss-util/ArrayCircular.h) and Queue<T> (include/bss-util/Queue.h) over
   ArrayBase (include/bss-util/Array.h:99-263), with the object lifetimes of DynArray.v.  Simplifications:
   sizes do not overflow CType, allocation succeeds, items are passed by value, assignment is between
   distinct objects; iterators (they only call operator[]) and Serialize are not modelled. *)
From Coq Require Import List ZArith Bool.
From Verif Require Import Common Growth DynArray.
Import ListNotations.
Local Open Scope Z_scope.

Section Circular.
Context {T : Type} (m : mode).
Notation cell := (cell T).

(** _array (its _capacity slots), _cur, _length: ArrayCircular.h:19-20,202-203 *)
Record circ := { slots : list cell; cur : Z; clen : Z }.
Definition capacity (s : circ) : Z := Z.of_nat (length (slots s)).
(** ArrayCircular.h:33 *)
Definition new_circ (size : nat) : circ := {| slots := repeat (Raw (T := T)) size; cur := -1; clen := 0 |}.

(** bss_util.h:178-185 [bssMod]: the mathematical modulus for a positive divisor (property C01) *)
Definition bmod (x n : Z) : res Z := if n <=? 0 then UB else Ok (x mod n).
(** a pointer offset used to access the array *)
Definition idx (z : Z) : res nat := if z <? 0 then UB else Ok (Z.to_nat z).

(** ArrayCircular.h:200 [_modIndex] *)
Definition modIndex (s : circ) (index : Z) : res Z := bmod (cur s - index) (capacity s).

(** ArrayCircular.h:187-199 [_push]; % is the truncating remainder *)
Definition circ_push (s : circ) (item : T) : res circ :=
  if capacity s =? 0 then UB else
  let c := Z.rem (cur s + 1) (capacity s) in
  do i <- idx c;
  if clen s <? capacity s then
    do a <- construct m (slots s) i item;
    Ok {| slots := a; cur := c; clen := clen s + 1 |}
  else
    do a <- assign (slots s) i item;
    Ok {| slots := a; cur := c; clen := clen s |}.

(** ArrayCircular.h:37-45 [Pop] *)
Definition circ_pop (s : circ) : res (T * circ) :=
  if negb (0 <? clen s) then UB else
  do i <- idx (cur s);
  do (r, a) <- move_out (slots s) i;
  do a1 <- destroy a i;
  do c <- bmod (cur s - 1) (capacity s);
  Ok (r, {| slots := a1; cur := c; clen := clen s - 1 |}).

(** ArrayCircular.h:46-53 [PopBack] *)
Definition circ_popback (s : circ) : res (T * circ) :=
  if negb (0 <? clen s) then UB else
  do l <- modIndex s (clen s - 1);
  do i <- idx l;
  do (r, a) <- move_out (slots s) i;
  do a1 <- destroy a i;
  Ok (r, {| slots := a1; cur := cur s; clen := clen s - 1 |}).

(** ArrayCircular.h:99-100 [operator[]] read; Front (54-55) is _array[_cur] and Back (56-57) is [_length - 1] *)
Definition At (s : circ) (index : Z) : res T :=
  do l <- modIndex s index;
  do i <- idx l;
  do c <- get (slots s) i;
  match c with Val v => Ok v | _ => UB end.
Definition Front (s : circ) : res T :=
  if negb (0 <? clen s) then UB else
  do i <- idx (cur s);
  do c <- get (slots s) i;
  match c with Val v => Ok v | _ => UB end.
Definition Back (s : circ) : res T :=
  if negb (0 <? clen s) then UB else At s (clen s - 1).

(** Array.h:149-163 [_setLength](array + from, old, 0) *)
Definition end_range (a : list cell) (from old : Z) : res (list cell) :=
  if is_simple m then Ok a else
  do i <- idx from; destroy_range a i (Z.to_nat old).

(** ArrayCircular.h:60-75 [Clear] *)
Definition circ_clear (s : circ) : res circ :=
  do a <-
    (if clen s =? capacity s then end_range (slots s) 0 (clen s)
     else if -1 <=? cur s - clen s then end_range (slots s) (cur s - clen s + 1) (clen s)
     else
       do i <- modIndex s (clen s - 1);
       do a1 <- end_range (slots s) i (capacity s - i);
       end_range a1 0 (cur s + 1));
  Ok {| slots := a; cur := -1; clen := 0 |}.

(** Array.h:192-206 [_copyMove](dest + d, src + s, n): memcpy relocates the objects, ARRAY_SAFE and ARRAY_MOVE
    move-construct and then destroy the sources *)
Fixpoint move_slots (dest : list cell) (d : nat) (src : list cell) (s n : nat) : res (list cell * list cell) :=
  match n with
  | O => Ok (dest, src)
  | S n' =>
    match m with
    | SIMPLE | CONSTRUCT =>
      do c <- get src s;
      do dest1 <- set dest d c;
      do src1 <- set src s (Raw (T := T));
      move_slots dest1 (S d) src1 (S s) n'
    | SAFE | MOVE =>
      do (v, src1) <- move_out src s;
      do dest1 <- construct m dest d v;
      move_slots dest1 (S d) src1 (S s) n'
    end
  end.
Definition copyMove (dest : list cell) (d : Z) (src : list cell) (s n : Z) : res (list cell * list cell) :=
  if n =? 0 then Ok (dest, src) else
  do di <- idx d;
  do si <- idx s;
  do (dest1, src1) <- move_slots dest di src si (Z.to_nat n);
  match m with
  | SIMPLE | CONSTRUCT => Ok (dest1, src1)
  | SAFE | MOVE => do src2 <- destroy_range src1 si (Z.to_nat n); Ok (dest1, src2)
  end.

(** ArrayCircular.h:76-98 [SetCapacity] *)
Definition circ_setCapacity (s : circ) (nsize : nat) : res circ :=
  if Z.of_nat nsize <? capacity s then
    do s1 <- circ_clear s;
    do a <- setCapacityDiscard m (slots s1) nsize;
    Ok {| slots := a; cur := cur s1; clen := clen s1 |}
  else if capacity s <? Z.of_nat nsize then
    let n := repeat (Raw (T := T)) nsize in
    do (n1, old) <-
      (if -1 <=? cur s - clen s
       then copyMove n (cur s - clen s + 1) (slots s) (cur s - clen s + 1) (clen s)
       else
         do i <- modIndex s (clen s - 1);
         do p <- bmod (cur s - clen s + 1) (Z.of_nat nsize);
         do (n1, a1) <- copyMove n p (slots s) i (capacity s - i);
         copyMove n1 0 a1 0 (cur s + 1));
    do _ <- release m old;
    Ok {| slots := n1; cur := cur s; clen := clen s |}
  else Ok s.

(** Array.h:207-222 [_copy](_array + at, right._array + at, n) *)
Definition copy_range (a : list cell) (at_ : Z) (right : list cell) (n : Z) : res (list cell) :=
  if n =? 0 then Ok a else
  do i <- idx at_;
  if (i + Z.to_nat n <=? length right)%nat then base_copy m a i (firstn (Z.to_nat n) (skipn i right)) else UB.

(** ArrayCircular.h:101-120 [operator=](const ArrayCircular&); the copy constructor (25) is this on an empty array *)
Definition circ_assign (s right : circ) : res circ :=
  do s1 <- circ_clear s;
  do a <- setCapacityDiscard m (slots s1) (length (slots right));
  let s2 := {| slots := a; cur := cur right; clen := clen right |} in
  do a2 <-
    (if clen s2 =? capacity s2 then copy_range a 0 (slots right) (clen s2)
     else if -1 <=? cur s2 - clen s2 then copy_range a (cur s2 - clen s2 + 1) (slots right) (clen s2)
     else
       do i <- modIndex s2 (clen s2 - 1);
       do a1 <- copy_range a i (slots right) (capacity s2 - i);
       copy_range a1 0 (slots right) (cur s2 + 1));
  Ok {| slots := a2; cur := cur s2; clen := clen s2 |}.
(** ArrayCircular.h:121-131 [operator=](ArrayCircular&&); right is left empty with no storage *)
Definition circ_moveassign (s right : circ) : res circ :=
  do s1 <- circ_clear s;
  do _ <- release m (slots s1);
  Ok {| slots := slots right; cur := cur right; clen := clen right |}.
(** ArrayCircular.h:34 destructor, then Array.h:119-122 *)
Definition circ_destroy (s : circ) : res unit :=
  do s1 <- circ_clear s; release m (slots s1).

(** The public operations, with the element returned by Pop and PopBack *)
Inductive circ_op := CPush (v : T) | CPop | CPopBack | CClear | CSetCapacity (n : nat) | CAssign (r : circ) | CMoveAssign (r : circ).
Definition circ_step (s : circ) (o : circ_op) : res (option T * circ) :=
  match o with
  | CPush v => do s1 <- circ_push s v; Ok (None, s1)
  | CPop => do (v, s1) <- circ_pop s; Ok (Some v, s1)
  | CPopBack => do (v, s1) <- circ_popback s; Ok (Some v, s1)
  | CClear => do s1 <- circ_clear s; Ok (None, s1)
  | CSetCapacity n => do s1 <- circ_setCapacity s n; Ok (None, s1)
  | CAssign r => do s1 <- circ_assign s r; Ok (None, s1)
  | CMoveAssign r => do s1 <- circ_moveassign s r; Ok (None, s1)
  end.

(** Queue.h:50-56 [_push] *)
Definition q_push (s : circ) (v : T) : res circ :=
  do s1 <- (if capacity s <=? clen s then circ_setCapacity s (fbnext_nat (Z.to_nat (clen s))) else Ok s);
  circ_push s1 v.
(** Queue.h:29 [Pop] *)
Definition q_pop (s : circ) : res (T * circ) := circ_popback s.
(** Queue.h:31-32 [Peek] *)
Definition q_peek (s : circ) : res T := Back s.
(** Queue.h:33 [Discard]: the element is not destroyed *)
Definition q_discard (s : circ) : res circ := Ok {| slots := slots s; cur := cur s; clen := clen s - 1 |}.
Inductive q_op := QPush (v : T) | QPop | QDiscard | QClear.
Definition q_step (s : circ) (o : q_op) : res (option T * circ) :=
  match o with
  | QPush v => do s1 <- q_push s v; Ok (None, s1)
  | QPop => do (v, s1) <- q_pop s; Ok (Some v, s1)
  | QDiscard => do s1 <- q_discard s; Ok (None, s1)
  | QClear => do s1 <- circ_clear s; Ok (None, s1)
  end.
End Circular.
Arguments circ T : clear implicits.
Arguments circ_op T : clear implicits.
Arguments q_op T : clear implicits.
