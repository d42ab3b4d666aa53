(* Model of StreamBufFunction (stream.h 228-317): a stream buffer whose derived class fills the area to read from and empties the area to write to. *)
From Coq Require Import List ZArith Bool.
From Verif Require Import Common.
Import ListNotations.
Local Open Scope Z_scope.

Section S.
Context {W : Type}.

(** The side for writing.  The area between pbase() and epptr() has room for [room] chars more after the [pending] ones; [world] is what the derived
    class keeps.  stream.h:241-244: at first there is no room and nothing is pending *)
Record put := Put { world : W; pending : list Z; room : nat }.
Definition put_init (w : W) : put := Put w [] 0.
(** stream.h:309 _onwrite, of the derived class: it takes the pending chars and gives the room of a new area *)
Context (onwrite : W -> list Z -> W * nat).
Definition call_onwrite (s : put) : put := let (w, n) := onwrite (world s) (pending s) in Put w [] n.
(** stream.h:278-292 overflow, for a char; None is eof *)
Definition overflow (s : put) (ch : Z) : put * option Z :=
  let s := if Nat.eqb (room s) 0 then call_onwrite s else s in
  if (0 <? room s)%nat then (Put (world s) (pending s ++ [ch]) (room s - 1), Some ch) else (s, None).
(** stream.h:293-308 xsputn: the buffer afterwards and the number that is returned.  Each call that is made by itself takes fuel *)
Fixpoint xsputn (fuel : nat) (s : put) (text : list Z) : res (put * nat) :=
  match fuel with
  | O => OutOfFuel
  | S fuel =>
    let s := if Nat.eqb (room s) 0 then call_onwrite s else s in
    let r := if (length text <? room s)%nat then length text else room s in
    let s := Put (world s) (pending s ++ firstn r text) (room s - r) in
    let text := skipn r text in
    if negb (Nat.eqb (length text) 0) then xsputn fuel s text else Ok (s, r)
  end.

(** The side for reading: [area] is what lies between gptr() and egptr().  stream.h:237-240: it is empty at first *)
Record get := Get { gworld : W; area : list Z }.
Definition get_init (w : W) : get := Get w [].
(** stream.h:310 _onread, of the derived class: it gives the next chars, none at the end *)
Context (onread : W -> W * list Z).
Definition call_onread (g : get) : get := let (w, l) := onread (gworld g) in Get w l.
(** stream.h:260-265 underflow; None is eof *)
Definition underflow (g : get) : get * option Z :=
  let g := match area g with [] => call_onread g | _ => g end in
  (g, match area g with [] => None | c :: _ => Some c end).
(** uflow of std::streambuf: underflow, then the char is taken *)
Definition uflow (g : get) : get * option Z :=
  let (g, c) := underflow g in
  match c with Some _ => (Get (gworld g) (tl (area g)), c) | None => (g, None) end.
(** stream.h:266-277 xsgetn: the chars read; their number is returned *)
Definition xsgetn (g : get) (n : nat) : get * list Z :=
  let g := match area g with [] => call_onread g | _ => g end in
  let r := if (n <? length (area g))%nat then n else length (area g) in
  (Get (gworld g) (skipn r (area g)), firstn r (area g)).
End S.
Arguments put : clear implicits.
Arguments get : clear implicits.
