(* Model of the stream buffers of include/bss-util/stream.h: StreamBufArray (a reader of memory), StreamBufDynArray (a reader
   and writer over a DynArray) and StreamSplitter (a buffer sent to any number of streams).  A char is the number of its byte,
   0 to 255; end of file is -1.  The non-virtual functions of std::streambuf that a user calls (sgetc, sbumpc, sungetc,
   sputbackc, sputc, sgetn, sputn, pubseekoff) are modelled as the standard describes them; move construction and the choice
   which_ of seekoff, which the code ignores, are left out, pbump is modelled without the limits of its int argument. *)
From Coq Require Import List ZArith Lia Bool.
From Verif Require Import Common Growth.
Import ListNotations.
Local Open Scope Z_scope.

(** the value of a byte as a signed char, stream.h 96 *)
Definition schar8 (c : Z) : Z := sgn 8 c.
(** the directions of std::ios_base::seekdir, stream.h 114-124 *)
Inductive seekdir := Cur | End_ | Beg.

(* ------------------------------------------------------------------ StreamBufArray *)
(** stream.h 130-132: _begin and _end are 0 and the length of the data, _cur is acur *)
Record sba := mka { adata : list Z; acur : nat }.
(** stream.h 77: the constructor; the data is given by its bytes *)
Definition sba_new (src : list Z) : sba := mka src 0.
(** stream.h 92 and std::streambuf::sbumpc, whose get area is always empty *)
Definition a_uflow (s : sba) : res (Z * sba) :=
  if (acur s =? length (adata s))%nat then Ok (-1, s)
  else do c <- get (adata s) (acur s); Ok (c, mka (adata s) (S (acur s))).
(** stream.h 93 and sgetc *)
Definition a_underflow (s : sba) : res Z :=
  if (acur s =? length (adata s))%nat then Ok (-1) else get (adata s) (acur s).
(** stream.h 94-99: ch, an int_type, is compared with a signed char; sungetc passes -1, sputbackc a byte *)
Definition a_pbackfail (ch : Z) (s : sba) : res (Z * sba) :=
  if (acur s =? 0)%nat then Ok (-1, s)
  else
    do p <- (if ch =? -1 then Ok false else do c <- get (adata s) (acur s - 1); Ok (negb (ch =? schar8 c)));
    if p then Ok (-1, s)
    else do c <- get (adata s) (acur s - 1); Ok (c, mka (adata s) (acur s - 1)).
(** stream.h 100 *)
Definition a_showmanyc (s : sba) : Z := Z.of_nat (length (adata s)) - Z.of_nat (acur s).
(** stream.h 101-110: the bytes copied and the count returned *)
Definition a_xsgetn (n : nat) (s : sba) : res (list Z * nat * sba) :=
  if (length (adata s) <? acur s)%nat then UB
  else
    let r := Nat.min (length (adata s) - acur s) n in
    Ok (firstn r (skipn (acur s) (adata s)), r, mka (adata s) (acur s + r)).
(** stream.h 112-128: forming a pointer outside the array is undefined *)
Definition a_seekoff (off : Z) (way : seekdir) (s : sba) : res (Z * sba) :=
  let p := match way with
           | Cur => Z.of_nat (acur s) + off
           | End_ => Z.of_nat (length (adata s)) + off
           | Beg => off
           end in
  if (0 <=? p) && (p <=? Z.of_nat (length (adata s))) then Ok (p, mka (adata s) (Z.to_nat p)) else UB.

(** the calls of a user, and what each returns *)
Inductive rop := Peek | Get | Unget | Putback (c : Z) | Avail | Read (n : nat) | Seek (off : Z) (way : seekdir).
(** the value returned by a call of rop (stream.h 92-128): a number, or bytes with a count *)
Inductive rres := Num (z : Z) | Bytes (l : list Z) (n : nat).
(** one call, stream.h 92-128 *)
Definition a_step (s : sba) (o : rop) : res (rres * sba) :=
  match o with
  | Peek => do c <- a_underflow s; Ok (Num c, s)
  | Get => do (c, s) <- a_uflow s; Ok (Num c, s)
  | Unget => do (c, s) <- a_pbackfail (-1) s; Ok (Num c, s)
  | Putback c => do (c, s) <- a_pbackfail c s; Ok (Num c, s)
  | Avail => Ok (Num (a_showmanyc s), s)
  | Read n => do (x, s) <- a_xsgetn n s; Ok (Bytes (fst x) (snd x), s)
  | Seek off way => do (p, s) <- a_seekoff off way s; Ok (Num p, s)
  end.
(** calls one after the other, stream.h 92-128 *)
Fixpoint a_run (l : list rop) (s : sba) : res (list rres) :=
  match l with
  | [] => Ok []
  | o :: t => do (r, s) <- a_step s o; do rs <- a_run t s; Ok (r :: rs)
  end.

(* ------------------------------------------------------------------ StreamBufDynArray *)
Section Dyn.
(** sizeof(T), stream.h 184, 190 *)
Context (k : nat).
(** stream.h 137-227: the storage of the array (one entry for each byte of its capacity, None if it was never written), the
    length of the array, and the positions eback, gptr, egptr, pptr, epptr in the storage *)
Record sbd := mkd { mem : list (option Z); dlen : nat; eb : nat; gp : nat; eg : nat; pp : nat; ep : nat }.
(** stream.h 145-149: the constructor on an array of dlen elements *)
Definition sbd_new (m : list (option Z)) (len begin_ : nat) : sbd :=
  mkd m len (begin_ * k) (begin_ * k) (len * k) (len * k) (length m).
(** stream.h 182-186: _fixlength; a pptr before eback is not possible *)
Definition d_fixlength (s : sbd) : sbd :=
  let n := ((pp s - eb s) / k)%nat in mkd (mem s) n (eb s) (gp s) (n * k) (pp s) (ep s).
(** DynArray.h 71, Array.h 165-178: SetCapacity in elements: only grows; the new bytes are not initialised *)
Definition d_setcapacity (m : list (option Z)) (cap : nat) : list (option Z) :=
  if (length m <? cap * k)%nat then m ++ repeat None (cap * k - length m) else m.
(** stream.h 187-193: _expand(sz); goff is a number of bytes but is added to a pointer to T *)
Definition d_expand (sz : nat) (s : sbd) : sbd :=
  let goff := (gp s - eb s)%nat in
  let m := d_setcapacity (mem s) (Nat.max (fbnext_nat (dlen s)) (sz / k + dlen s + 1)) in
  mkd m (dlen s) 0 (goff * k) (dlen s * k) (dlen s * k) (length m).
(** MEMCPY of bytes to the storage, stream.h 216 *)
Fixpoint d_copy (m : list (option Z)) (p : nat) (l : list Z) : res (list (option Z)) :=
  match l with
  | [] => Ok m
  | c :: t => do m <- set m p (Some c); d_copy m (S p) t
  end.
(** stream.h 194-207: overflow *)
Definition d_overflow (c : Z) (s : sbd) : res sbd :=
  let s := if (pp s =? ep s)%nat then d_expand 0 s else s in
  do m <- set (mem s) (pp s) (Some c);
  Ok (d_fixlength (mkd m (dlen s) (eb s) (gp s) (eg s) (S (pp s)) (ep s))).
(** std::streambuf::sputc: the put area is used directly while there is room in it *)
Definition d_sputc (c : Z) (s : sbd) : res sbd :=
  if (pp s <? ep s)%nat then do m <- set (mem s) (pp s) (Some c); Ok (mkd m (dlen s) (eb s) (gp s) (eg s) (S (pp s)) (ep s))
  else d_overflow c s.
(** stream.h 208-224: xsputn; the recursion is at most three calls deep.  The number is what it returns *)
Fixpoint d_xsputn (fuel : nat) (l : list Z) (s : sbd) : res (nat * sbd) :=
  match fuel with
  | O => OutOfFuel
  | S f =>
      let s := if (pp s =? ep s)%nat then d_expand (length l) s else s in
      let r := Nat.min (ep s - pp s) (length l) in
      do m <- d_copy (mem s) (pp s) (firstn r l);
      let s := d_fixlength (mkd m (dlen s) (eb s) (gp s) (eg s) (pp s + r) (ep s)) in
      if (length l - r =? 0)%nat then Ok (r, s) else d_xsputn f (skipn r l) s
  end.
(** reading a byte of the storage; a byte that was never written has no value *)
Definition d_load (s : sbd) (p : nat) : res Z := do c <- get (mem s) p; match c with Some c => Ok c | None => UB end.
(** stream.h 170 and sgetc *)
Definition d_sgetc (s : sbd) : res Z := if (gp s =? eg s)%nat then Ok (-1) else d_load s (gp s).
(** stream.h 170 and sbumpc, whose uflow calls underflow *)
Definition d_sbumpc (s : sbd) : res (Z * sbd) :=
  if (gp s =? eg s)%nat then Ok (-1, s)
  else do c <- d_load s (gp s); Ok (c, mkd (mem s) (dlen s) (eb s) (S (gp s)) (eg s) (pp s) (ep s)).
(** the default pbackfail of std::streambuf and sungetc *)
Definition d_sungetc (s : sbd) : res (Z * sbd) :=
  if (eb s <? gp s)%nat then do c <- d_load s (gp s - 1); Ok (c, mkd (mem s) (dlen s) (eb s) (gp s - 1) (eg s) (pp s) (ep s))
  else Ok (-1, s).
(** MEMCPY from the storage, stream.h 177 *)
Fixpoint d_loads (s : sbd) (p n : nat) : res (list Z) :=
  match n with O => Ok [] | S n' => do c <- d_load s p; do t <- d_loads s (S p) n'; Ok (c :: t) end.
(** stream.h 171-180: xsgetn *)
Definition d_xsgetn (n : nat) (s : sbd) : res (list Z * nat * sbd) :=
  if (eg s <? gp s)%nat then UB
  else
    let r := Nat.min (eg s - gp s) n in
    do l <- d_loads s (gp s) r; Ok (l, r, mkd (mem s) (dlen s) (eb s) (gp s + r) (eg s) (pp s) (ep s)).
(** stream.h 153-169: seekoff: of the get area only; a pointer outside the storage is undefined *)
Definition d_seekoff (off : Z) (way : seekdir) (s : sbd) : res (Z * sbd) :=
  let p := match way with Cur => Z.of_nat (gp s) + off | End_ => Z.of_nat (eg s) + off | Beg => Z.of_nat (eb s) + off end in
  if (0 <=? p) && (p <=? Z.of_nat (length (mem s)))
  then Ok (p - Z.of_nat (eb s), mkd (mem s) (dlen s) (eb s) (Z.to_nat p) (eg s) (pp s) (ep s)) else UB.
(** the calls of a user, stream.h 152-224 *)
Inductive dop := DPeek | DGet | DUnget | DRead (n : nat) | DSeek (off : Z) (way : seekdir) | DWrite (l : list Z) | DPut (c : Z).
(** one call, stream.h 152-224; DPut answers with the character *)
Definition d_step (s : sbd) (o : dop) : res (rres * sbd) :=
  match o with
  | DPeek => do c <- d_sgetc s; Ok (Num c, s)
  | DGet => do (c, s) <- d_sbumpc s; Ok (Num c, s)
  | DUnget => do (c, s) <- d_sungetc s; Ok (Num c, s)
  | DRead n => do (x, s) <- d_xsgetn n s; Ok (Bytes (fst x) (snd x), s)
  | DSeek off way => do (p, s) <- d_seekoff off way s; Ok (Num p, s)
  | DWrite l => do (n, s) <- d_xsputn 4 l s; Ok (Num (Z.of_nat n), s)
  | DPut c => do s <- d_sputc c s; Ok (Num c, s)
  end.
(** calls one after the other, stream.h 152-224 *)
Fixpoint d_run (l : list dop) (s : sbd) : res (list rres * sbd) :=
  match l with
  | [] => Ok ([], s)
  | o :: t => do (r, s) <- d_step s o; do (rs, s) <- d_run t s; Ok (r :: rs, s)
  end.
End Dyn.

(* ------------------------------------------------------------------ StreamSplitter *)
(** stream.h 25-61: the text in the buffer (pbase to pptr) and the targets, by their numbers *)
Record splitter := mks { sbuf : list Z; stargets : list nat }.
(** the target streams by their numbers, with the text each has received (ostream::write) *)
Definition sinks := list (list Z).
(** stream.h 52-53: the loop over the targets *)
Fixpoint s_send (t : list nat) (text : list Z) (w : sinks) : res sinks :=
  match t with
  | [] => Ok w
  | i :: r => do old <- get w i; do w <- set w i (old ++ text); s_send r text w
  end.
(** stream.h 48-57: sync *)
Definition s_sync (s : splitter) (w : sinks) : res (splitter * sinks) :=
  do w <- s_send (stargets s) (sbuf s) w; Ok (mks [] (stargets s), w).
(** what a user does: write text to the stream, flush it, AddTarget (34), ClearTargets (35) *)
Inductive sop := SWrite (t : list Z) | SFlush | SAdd (i : nat) | SClear.
(** one call: basic_stringbuf keeps the text; stream.h 34, 35, 48-57 *)
Definition s_step (x : splitter * sinks) (o : sop) : res (splitter * sinks) :=
  let (s, w) := x in
  match o with
  | SWrite t => Ok (mks (sbuf s ++ t) (stargets s), w)
  | SFlush => s_sync s w
  | SAdd i => do (s, w) <- s_sync s w; Ok (mks (sbuf s) (stargets s ++ [i]), w)
  | SClear => do (s, w) <- s_sync s w; Ok (mks (sbuf s) [], w)
  end.
(** calls one after the other, stream.h 25-61 *)
Fixpoint s_run (l : list sop) (x : splitter * sinks) : res (splitter * sinks) :=
  match l with [] => Ok x | o :: t => do x <- s_step x o; s_run t x end.
