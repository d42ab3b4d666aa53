(* What playing an animation means, without the states of the model: a clock turns the calls into a list of actions, and
   each track reacts to the actions. *)
From Coq Require Import ZArith List Bool Sorted.
From Verif Require Import Common Animation.
Import ListNotations.
Local Open Scope Z_scope.

(* what happens to every track: the moment t is shown, or the track goes back to its beginning *)
Inductive action := Show (t : Z) | Rewind.

(* the time shown by GetTime, and the actions of a call.  An animation that is over and does not loop stays as it is; one
   that loops shows its end, goes back, and shows a moment from the loop point on *)
Definition clock (len loop now : Z) (o : op) : Z * list action :=
  match o with
  | Interpolate d =>
    if (len <=? now) && (loop <? 0) then (now, [])
    else if (len <=? now + d) && (0 <=? loop)
         then let t := loop + (now + d - len) mod (len - loop) in (t, [Show (now + d); Rewind; Show t])
         else (now + d, [Show (now + d)])
  | SetTime t => (t, if t <? now then [Rewind] else [])
  | Reset => (0, [Rewind])
  end.
Fixpoint clocks (len loop now : Z) (ops : list op) : Z * list action :=
  match ops with
  | [] => (now, [])
  | o :: ops => let (t, a) := clock len loop now o in let (t', a') := clocks len loop t ops in (t', a ++ a')
  end.
(* time does not run backwards, and an animation that loops goes back to a point before its end *)
Definition forward (ops : list op) : Prop := forall d, In (Interpolate d) ops -> 0 <= d.
Definition loops_inside (len loop : Z) : Prop := 0 <= loop -> loop < len.

Section Spec.
Context {V : Type}.
(* the events of the track at position i *)
Definition events_of (i : nat) (ev : list (nat * event V)) : list (event V) := map snd (filter (fun e => Nat.eqb (fst e) i) ev).
(* the frames are in the order of their times *)
Definition in_order (fs : list (frame V)) : Prop := StronglySorted Z.le (map ftime fs).

(* the frames that are due when the moment t is shown, after those up to the moment seen (None: after a rewind) *)
Definition due (seen : option Z) (t : Z) (f : frame V) : bool :=
  (ftime f <=? t) && match seen with Some u => u <? ftime f | None => true end.
(* the frames played by a list of actions *)
Fixpoint play (fs : list (frame V)) (seen : option Z) (acts : list action) : list (frame V) :=
  match acts with
  | [] => []
  | Show t :: acts => filter (due seen t) fs ++ play fs (Some t) acts
  | Rewind :: acts => play fs None acts
  end.
End Spec.
