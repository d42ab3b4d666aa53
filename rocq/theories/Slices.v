(* Model of Slice, of the range helpers and of ArrayMultiRef (include/bss-util/Array.h:16-91,404-446).
   A buffer is a list of values and a pointer into it an offset. *)
From Coq Require Import List ZArith Bool.
From Verif Require Import Common BitUtil.
Import ListNotations.
Local Open Scope Z_scope.

(** Array.h:73-74: start and length; CType is signed with w bits, as bssMod requires (bss_util.h:181) *)
Record slice := { sl_start : Z; sl_len : Z }.

(** Array.h:49-57 [operator()(begin, end)] of a slice that is not const.  The assertions of 51-52 are
    preconditions; the one of 55 compares a number with a pointer and is left out. *)
Definition slice_sub (w : Z) (s : slice) (b e : Z) : res slice :=
  if negb ((Z.abs b <? sl_len s) && (e <=? sl_len s)) then UB else
  do b1 <- bssMod w b (sl_len s);
  do e1 <- (if e <=? 0 then sarith w (sl_len s - e) else Ok e);
  do l <- sarith w (e1 - b1);
  Ok {| sl_start := sl_start s + b1; sl_len := l |}.
(** Array.h:48 [operator()(begin)] *)
Definition slice_from (w : Z) (s : slice) (b : Z) : res slice := slice_sub w s b (sl_len s).
(** Array.h:47 [operator()(begin, end) const]: it calls itself *)
Fixpoint slice_sub_const (fuel : nat) (s : slice) (b e : Z) : res slice :=
  match fuel with O => OutOfFuel | S f => slice_sub_const f s b (sl_len s) end.
(** Array.h:46 [operator()(begin) const] *)
Definition slice_from_const (fuel : nat) (s : slice) (b : Z) : res slice := slice_sub_const fuel s b (sl_len s).
(** Array.h:31-37 [operator++] *)
Definition slice_inc (s : slice) : res slice :=
  if 0 <? sl_len s then Ok {| sl_start := sl_start s + 1; sl_len := sl_len s - 1 |} else UB.
(** Array.h:38-45 [operator++(int)]: the slice as it was, and the slice now *)
Definition slice_post_inc (s : slice) : res (slice * slice) := do s1 <- slice_inc s; Ok (s, s1).
(** Array.h:70-71 [operator[]] on a buffer *)
Definition slice_at {A} (buf : list A) (s : slice) (i : Z) : res A :=
  if (0 <=? i) && (i <? sl_len s) && (0 <=? sl_start s + i) then get buf (Z.to_nat (sl_start s + i)) else UB.
(** Array.h:62,64 [Front]; 63,65 [Back] *)
Definition slice_front {A} (buf : list A) (s : slice) : res A := slice_at buf s 0.
Definition slice_back {A} (buf : list A) (s : slice) : res A := slice_at buf s (sl_len s - 1).

(** memmove and memcpy of n values within a buffer, and from elsewhere *)
Definition move_values {A} (l : list A) (dst src n : nat) : res (list A) :=
  if ((dst + n <=? length l) && (src + n <=? length l))%nat
  then Ok (firstn dst l ++ firstn n (skipn src l) ++ skipn (dst + n) l) else UB.
Definition copy_values {A} (l : list A) (dst : nat) (v : list A) : res (list A) :=
  if (dst + length v <=? length l)%nat then Ok (firstn dst l ++ v ++ skipn (dst + length v) l) else UB.
(** Array.h:78-84 [InsertRangeSimple] *)
Definition InsertRangeSimple {A} (dest : list A) (len index : nat) (src : list A) : res (list A) :=
  if (index <=? len)%nat then
    do d1 <- move_values dest (index + length src) index (len - index);
    copy_values d1 index src
  else UB.
(** Array.h:86-91 [RemoveRangeSimple]; length - index - range wraps when the range is too long *)
Definition RemoveRangeSimple {A} (dest : list A) (len index range : nat) : res (list A) :=
  if ((index <? len) && (index + range <=? len))%nat
  then move_values dest index (index + range) (len - index - range) else UB.

(** Array.h:407-423 [ArrayMultiRef::_getIndice] from the second axis on: sizes and indices in the order
    of the parameters; ptrdiff_t has 64 bits *)
Fixpoint getIndice (i : Z) (sizes args : list Z) : res Z :=
  match sizes, args with
  | [], [] => Ok i
  | n :: sizes', a :: args' =>
      do p <- sarith 64 (n * i);
      do i1 <- sarith 64 (a + p);
      getIndice i1 sizes' args'
  | _, _ => UB
  end.
(** Array.h:427 [GetIndice]; the size of the first axis is not used (410-413) *)
Definition GetIndice (sizes args : list Z) : res Z :=
  match sizes, args with
  | _ :: sizes', a :: args' => getIndice a sizes' args'
  | _, _ => UB
  end.
