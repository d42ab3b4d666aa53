(* Model of bss::Hash (Hash.h:158-640), the khash table: power-of-two buckets, one flag byte per bucket, triangular
   probing, in-place rehash with kick-out.
   Simplifications: the parallel arrays keys and vals are one array of slots; a slot is None when nothing is constructed
   there or the objects were moved from, and reading such a slot is undefined behaviour. Allocation never fails. Indices
   are below 2^32 wherever they are computed, so the 32-bit additions of the probing do not wrap; kroundup32 is modelled
   with wrapping. For Data = void read V as unit. *)
From Coq Require Import List Arith ZArith Bool Lia.
From Verif Require Import Common BitUtil.
Import ListNotations.

(** khash.h:167-173: the flag byte; 2 = empty, 1 = deleted, 0 = live. *)
Inductive flag := FEmpty | FDel | FLive.
(** khash.h:167 [__ac_isempty]. *)
Definition is_empty (f : flag) : bool := match f with FEmpty => true | _ => false end.
(** khash.h:168 [__ac_isdel]. *)
Definition is_del (f : flag) : bool := match f with FDel => true | _ => false end.
(** khash.h:169 [__ac_iseither] is zero. *)
Definition is_live (f : flag) : bool := match f with FLive => true | _ => false end.

(** khash.h:194, Hash.h:458, 523: [(khint_t)(n * __ac_HASH_UPPER + 0.5)]; 6935543426150564 / 2^53 is the double nearest to
    0.77. n is a power of two, so the product is exact; the rounding of the sum cannot cross an integer (the sum is at
    least 1/100 - 2^-22 away from every integer) and is left out. *)
Definition upper (n : nat) : nat := Z.to_nat ((Z.of_nat n * 6935543426150564 + 2 ^ 52) / 2 ^ 53).
(** Hash.h:456-457: [kroundup32(new_n_buckets)] (khash.h:178, the same expression as NextPow2(uint32_t)), then at least
    32 if the result is below 4. *)
Definition round_buckets (c : Z) : nat := let n := NextPow2_32 c in if (n <? 4)%Z then 32 else Z.to_nat n.

Section Model.
Context {K V : Type} (hash : K -> nat) (eqb : K -> K -> bool).

(** Hash.h:636-639: the members; [slots] stands for keys and vals. *)
Record table := mk { nb : nat; size : nat; occ : nat; ub : nat; flags : list flag; slots : list (option (K * V)) }.
(** Hash.h:183-187: the empty table. *)
Definition empty : table := mk 0 0 0 0 [] [].

(** Reading keys[i], vals[i]: undefined if nothing is constructed there. *)
Definition rd (sl : list (option (K * V))) (i : nat) : res (K * V) :=
  do s <- get sl i; match s with Some e => Ok e | None => UB end.

(** Hash.h:588-600 [_get], the probing loop. *)
Fixpoint get_loop (fuel : nat) (h : table) (key : K) (last i step : nat) : res nat :=
  match fuel with
  | 0 => OutOfFuel
  | S fuel =>
      let next := let i' := Nat.land (i + S step) (nb h - 1) in if i' =? last then Ok (nb h) else get_loop fuel h key last i' (S step) in
      do f <- get (flags h) i;
      match f with
      | FEmpty => Ok (nb h)
      | FDel => next
      | FLive => do e <- rd (slots h) i; if eqb (fst e) key then Ok i else next
      end
  end.
(** Hash.h:584-600 [_get], Iterator (225). *)
Definition Iterator (h : table) (key : K) : res nat :=
  if nb h =? 0 then Ok 0 else
  let i := Nat.land (hash key) (nb h - 1) in get_loop (S (nb h)) h key i i 0.
(** Hash.h:289 [ExistsIter], 400 [_exists]. *)
Definition ExistsIter (h : table) (i : nat) : res bool :=
  if i <? nb h then do f <- get (flags h) i; Ok (is_live f) else Ok false.
(** Hash.h:290 [Exists]. *)
Definition Exists (h : table) (key : K) : res bool := do i <- Iterator h key; ExistsIter h i.
(** Hash.h:228-247 [GetValue], [Get]; None stands for the "not found" value. *)
Definition GetValue (h : table) (i : nat) : res (option V) :=
  do b <- ExistsIter h i; if b then do e <- rd (slots h) i; Ok (Some (snd e)) else Ok None.
Definition Get (h : table) (key : K) : res (option V) := do i <- Iterator h key; GetValue h i.
(** Hash.h:285 [Length]. *)
Definition Length (h : table) : nat := size h.

(** Hash.h:495 [while(!__ac_isempty(new_flags, i)) i = (i + (++step)) & new_mask]. *)
Fixpoint find_empty (fuel : nat) (fl : list flag) (mask i step : nat) : res nat :=
  match fuel with
  | 0 => OutOfFuel
  | S fuel => do f <- get fl i; if is_empty f then Ok i else find_empty fuel fl mask (Nat.land (i + S step) mask) (S step)
  end.
(** Hash.h:490-511: the kick-out loop, with the entry e in hand. n is the old number of buckets, new_n the new one. *)
Fixpoint kick (fuel n new_n : nat) (fl nfl : list flag) (sl : list (option (K * V))) (e : K * V)
  : res (list flag * list flag * list (option (K * V))) :=
  match fuel with
  | 0 => OutOfFuel
  | S fuel =>
      do i <- find_empty (S new_n) nfl (new_n - 1) (Nat.land (hash (fst e)) (new_n - 1)) 0;
      do nfl1 <- set nfl i FLive;
      do old <- (if i <? n then do f <- get fl i; Ok (is_live f) else Ok false);
      if old then
        do e1 <- rd sl i;
        do sl1 <- set sl i (Some e);
        do fl1 <- set fl i FDel;
        kick fuel n new_n fl1 nfl1 sl1 e1
      else
        do sl1 <- set sl i (Some e);
        Ok (fl, nfl1, sl1)
  end.
(** Hash.h:480-513: the loop over the old buckets, from j; todo counts the buckets left. *)
Fixpoint rehash (todo j n new_n : nat) (fl nfl : list flag) (sl : list (option (K * V)))
  : res (list flag * list flag * list (option (K * V))) :=
  match todo with
  | 0 => Ok (fl, nfl, sl)
  | S todo =>
      do f <- get fl j;
      if is_live f then
        do e <- rd sl j;
        do sl1 <- set sl j None;
        do fl1 <- set fl j FDel;
        do (fl2, nfl2, sl2) <- kick (S n) n new_n fl1 nfl sl1 e;
        rehash todo (S j) n new_n fl2 nfl2 sl2
      else rehash todo (S j) n new_n fl nfl sl
  end.
(** Hash.h:451-526 [_resize]; the reallocation (612-634) keeps the slots and adds unconstructed ones. *)
Definition resize (h : table) (c : Z) : res table :=
  let new_n := round_buckets c in
  if upper new_n <=? size h then Ok h else
  let sl := if nb h <? new_n then slots h ++ repeat None (new_n - nb h) else slots h in
  do (_, nfl, sl1) <- rehash (nb h) 0 (nb h) new_n (flags h) (repeat FEmpty new_n) sl;
  Ok (mk new_n (size h) (size h) (upper new_n) nfl (firstn new_n sl1)).

(** Hash.h:552-568: the probing of [_put]. *)
Fixpoint put_loop (fuel : nat) (h : table) (key : K) (last site i step : nat) : res nat :=
  match fuel with
  | 0 => OutOfFuel
  | S fuel =>
      let next (site : nat) :=
        let i' := Nat.land (i + S step) (nb h - 1) in
        if i' =? last then Ok (if site =? nb h then i' else site) else put_loop fuel h key last site i' (S step) in
      do f <- get (flags h) i;
      match f with
      | FEmpty => Ok (if site =? nb h then i else site)
      | FDel => next i
      | FLive => do e <- rd (slots h) i; if eqb (fst e) key then Ok i else next site
      end
  end.
(** Hash.h:532-546: the resizing at the start of [_put]. *)
Definition make_room (h : table) : res table :=
  if ub h <=? occ h then
    if 2 * size h <? nb h then resize h (Z.of_nat (nb h) - 1) else resize h (Z.of_nat (nb h) + 1)
  else Ok h.
(** Hash.h:547-569: the bucket for the key. *)
Definition find_slot (h : table) (key : K) : res nat :=
  let i := Nat.land (hash key) (nb h - 1) in
  do f <- get (flags h) i;
  if is_empty f then Ok i else put_loop (S (nb h)) h key i (nb h) i 0.
(** Hash.h:529-583 [_put] and 439-448 [_insert], Insert (194-205): the key and the value of the bucket are written
    together here; an existing key is kept and its value assigned. *)
Definition Insert (h : table) (key : K) (v : V) : res (table * nat) :=
  do h <- make_room h;
  do x <- find_slot h key;
  do f <- get (flags h) x;
  match f with
  | FEmpty => do fl <- set (flags h) x FLive; do sl <- set (slots h) x (Some (key, v));
              Ok (mk (nb h) (S (size h)) (S (occ h)) (ub h) fl sl, x)
  | FDel => do fl <- set (flags h) x FLive; do sl <- set (slots h) x (Some (key, v));
            Ok (mk (nb h) (S (size h)) (occ h) (ub h) fl sl, x)
  | FLive => do e <- rd (slots h) x; do sl <- set (slots h) x (Some (fst e, v));
             Ok (mk (nb h) (size h) (occ h) (ub h) (flags h) sl, x)
  end.
(** Hash.h:450 [_setvalue], Set and SetValue (259-266). *)
Definition SetValue (h : table) (i : nat) (v : V) : res (table * bool) :=
  do b <- ExistsIter h i;
  if b then do e <- rd (slots h) i; do sl <- set (slots h) i (Some (fst e, v));
            Ok (mk (nb h) (size h) (occ h) (ub h) (flags h) sl, true)
  else Ok (h, false).
Definition Set_ (h : table) (key : K) (v : V) : res (table * bool) := do i <- Iterator h key; SetValue h i v.
(** Hash.h:601-611 [_delete]: destroys the slot and marks it deleted. *)
Definition delete (h : table) (x : nat) : res table :=
  if x =? nb h then Ok h else
  do f <- get (flags h) x;
  if is_live f then
    do _ <- rd (slots h) x;
    do sl <- set (slots h) x None; do fl <- set (flags h) x FDel;
    Ok (mk (nb h) (size h - 1) (occ h) (ub h) fl sl)
  else Ok h.
(** Hash.h:268-276 [Remove], 277-283 [RemoveIter]. *)
Definition Remove (h : table) (key : K) : res (table * bool) :=
  do i <- Iterator h key; if nb h =? i then Ok (h, false) else do h <- delete h i; Ok (h, true).
Definition RemoveIter (h : table) (i : nat) : res (table * bool) :=
  do b <- ExistsIter h i; if b then do h <- delete h i; Ok (h, true) else Ok (h, false).
(** Hash.h:207-224 [Clear]: every live slot is destroyed, all flags become empty. *)
Definition Clear (h : table) : table :=
  mk (nb h) 0 0 (ub h) (repeat FEmpty (nb h)) (repeat None (nb h)).
(** Hash.h:267 [SetCapacity]. *)
Definition SetCapacity (h : table) (c : Z) : res table :=
  if (Z.of_nat (nb h) <? c)%Z then resize h c else Ok h.
(** Hash.h:183-187: the constructor with a number of buckets. *)
Definition new_table (c : Z) : res table := if (0 <? c)%Z then resize empty c else Ok empty.

(** Hash.h:412-437 [_docopy]: the loop copying the live slots, from bucket i. *)
Fixpoint copy_slots (todo i : nat) (cfl : list flag) (csl sl : list (option (K * V))) : res (list (option (K * V))) :=
  match todo with
  | 0 => Ok sl
  | S todo =>
      do f <- get cfl i;
      if is_live f then do e <- rd csl i; do sl1 <- set sl i (Some e); copy_slots todo (S i) cfl csl sl1
      else copy_slots todo (S i) cfl csl sl
  end.
(** Hash.h:306-317 [operator=(const Hash&)] for a different source table, and the copy constructor (167-171), which is
    the same from an empty table. *)
Definition assign (h c : table) : res table :=
  let h := Clear h in
  if nb c =? 0 then Ok empty else
  do h <- resize h (Z.of_nat (nb c));
  if negb (nb h <=? length (flags c)) then UB else
  do sl <- copy_slots (nb h) 0 (flags c) (slots c) (slots h);
  Ok (mk (nb h) (size c) (occ c) (ub c) (firstn (nb h) (flags c)) sl).

(** Hash.h:366 [_next]: skips to the next live bucket; todo = n_buckets - cur. *)
Fixpoint skip (todo cur : nat) (fl : list flag) : res nat :=
  match todo with
  | 0 => Ok cur
  | S todo => do f <- get fl cur; if is_live f then Ok cur else skip todo (S cur) fl
  end.
(** Hash.h:340-348, 369-372: a range loop from begin() to end(). *)
Fixpoint iterate_from (fuel cur : nat) (h : table) : res (list (K * V)) :=
  match fuel with
  | 0 => OutOfFuel
  | S fuel =>
      do c <- skip (nb h - cur) cur (flags h);
      if c =? nb h then Ok [] else
      do e <- rd (slots h) c; do r <- iterate_from fuel (S c) h; Ok (e :: r)
  end.
Definition iterate (h : table) : res (list (K * V)) := iterate_from (S (nb h)) 0 h.

Inductive h_op := OInsert (k : K) (v : V) | OSet (k : K) (v : V) | ORemove (k : K) | ORemoveIter (i : nat) | OClear | OSetCapacity (c : Z).
(** One call; the result is the iterator for Insert (0 for void calls) and the flag returned by the others. *)
Definition h_step (h : table) (o : h_op) : res (table * (nat + bool)) :=
  match o with
  | OInsert k v => do (h, i) <- Insert h k v; Ok (h, inl i)
  | OSet k v => do (h, b) <- Set_ h k v; Ok (h, inr b)
  | ORemove k => do (h, b) <- Remove h k; Ok (h, inr b)
  | ORemoveIter i => do (h, b) <- RemoveIter h i; Ok (h, inr b)
  | OClear => Ok (Clear h, inl 0)
  | OSetCapacity c => do h <- SetCapacity h c; Ok (h, inl 0)
  end.
End Model.
Arguments table K V : clear implicits.
Arguments h_op K V : clear implicits.

(** Hash.h:595, 560: the bucket indices visited by the probing, [i = (i + (++step)) & mask], m of them. *)
Fixpoint probes (m n i step : nat) : list nat :=
  match m with 0 => [] | S m => i :: probes m n (Nat.land (i + S step) (n - 1)) (S step) end.
