(* Model of AniState, AniStateDiscrete, AniStateSmooth, AniStateInterval and of the lengths kept by AniData and Animation
   (include/bss-util/Animation.h).  Times are integers: every finite double is a multiple of 2^-1074, so a double is an
   integer in that unit; rounding of sums is not modelled, nor are infinities and NaN.  The member functions of the
   animated object are calls with an argument, recorded in a list of events; the function FN of an interval returns a
   handle, a new number at each call.  The animation is not changed while a state plays it. *)
From Coq Require Import ZArith List Bool.
From Verif Require Import Common ArraySort Heap.
Import ListNotations.
Local Open Scope Z_scope.

Section Ani.
Context {V : Type}.

(** Animation.h 13-33: AniFrame; data is the length of an interval (372-376), otherwise not used *)
Record frame := Frame { ftime : Z; fvalue : V; fdata : Z }.

(** the calls of member functions of the animated object: FN of a discrete (172) or smooth (206, 213) state, FN and REMOVE
    of an interval (245, 241, 250) *)
Inductive event := Call (v : V) | SetTo (v : V) | Begin (v : V) (h : nat) | Finish (h : nat).

(** Animation.h 171-172: the loop of AniStateDiscrete::Interpolate over the frames from _cur on; also 198-199 and 237-238,
    where the frames passed are counted or added to the queue.  The new _cur and the frames passed *)
Fixpoint advance (l : list frame) (cur : nat) (t : Z) : nat * list frame :=
  match l with
  | f :: l => if ftime f <=? t then let (c, p) := advance l (S cur) t in (c, f :: p) else (cur, [])
  | [] => (cur, [])
  end.

(** Animation.h 315: the type INTERPOLATE: the frames, _cur, the progress t as numerator and denominator, init *)
Definition interp := list frame -> nat -> Z -> Z -> V -> res V.

(** Animation.h 156-177, 179-220, 222-254: a state of an animation: AniStateDiscrete, AniStateSmooth, AniStateInterval *)
Inductive track :=
| Discrete (fs : list frame) (cur : nat)
| Smooth (fs : list frame) (f : interp) (init : V) (cur : nat)
| Interval (fs : list frame) (cur : nat) (queue : list (Z * nat)).

(** compare.h 16, 34: CompT on the first components of pairs *)
Definition cmp_first (a b : Z * nat) : Z := if fst a <? fst b then -1 else if fst b <? fst a then 1 else 0.

(** Animation.h 245, 237-238: _addToQueue for the frames passed; h is the next handle *)
Fixpoint add_all (p : list frame) (q : list (Z * nat)) (h : nat) : res (list (Z * nat) * nat * list event) :=
  match p with
  | [] => Ok (q, h, [])
  | f :: p =>
    do r <- heap_insert cmp_first mf_none (0, O) q tt (fdata f, h);
    do (q, h', ev) <- add_all p (fst r) (S h);
    Ok (q, h', Begin (fvalue f) h :: ev)
  end.
(** Animation.h 240-241 with (Some t), and 247-251 _clearQueue with None *)
Fixpoint pop_all (fuel : nat) (q : list (Z * nat)) (t : option Z) : res (list (Z * nat) * list event) :=
  match fuel with
  | O => OutOfFuel
  | S fuel =>
    match q with
    | [] => Ok (q, [])
    | top :: _ =>
      if match t with Some t => fst top <=? t | None => true end then
        do (q, _, r) <- heap_Pop cmp_first mf_none q tt;
        do (q, ev) <- pop_all fuel q t;
        Ok (q, Finish (snd r) :: ev)
      else Ok (q, [])
    end
  end.

(** Animation.h 165-173, 191-215, 231-242: Interpolate of a state at time t; h is the next handle *)
Definition track_interpolate (t : Z) (tr : track) (h : nat) : res (track * nat * list event) :=
  match tr with
  | Discrete fs cur => let (cur, p) := advance (skipn cur fs) cur t in Ok (Discrete fs cur, h, map (fun f => Call (fvalue f)) p)
  | Smooth fs f init cur =>
    let (cur, _) := advance (skipn cur fs) cur t in
    if (length fs <=? cur)%nat then
      if (1 <? length fs)%nat then do v <- f fs (length fs - 1)%nat 1 1 init; Ok (Smooth fs f init cur, h, [SetTo v])
      else Ok (Smooth fs f init cur, h, [])
    else
      do hold <- (if (cur =? 0)%nat then Ok 0 else do g <- get fs (cur - 1); Ok (ftime g));
      do g <- get fs cur;
      do v <- f fs cur (t - hold) (ftime g - hold) init;
      Ok (Smooth fs f init cur, h, [SetTo v])
  | Interval fs cur q =>
    let (cur, p) := advance (skipn cur fs) cur t in
    do (q, h, ev) <- add_all p q h;
    do (q, ev') <- pop_all (S (length q)) q (Some t);
    Ok (Interval fs cur q, h, ev ++ ev')
  end.
(** Animation.h 164, 188, 230: Reset of a state *)
Definition track_reset (tr : track) : res (track * list event) :=
  match tr with
  | Discrete fs _ => Ok (Discrete fs 0, [])
  | Smooth fs f init _ => Ok (Smooth fs f init 0, [])
  | Interval fs _ q => do (q, ev) <- pop_all (S (length q)) q None; Ok (Interval fs 0 q, ev)
  end.

(** Animation.h 150, 77: _states and _time of an AniState; the next handle *)
Record state := St { tracks : list track; time : Z; next : nat }.

(** Animation.h 121: _interpolate of all states; i is the position of the state, which is recorded with the event *)
Fixpoint interpolate_all (i : nat) (l : list track) (t : Z) (h : nat) : res (list track * nat * list (nat * event)) :=
  match l with
  | [] => Ok ([], h, [])
  | tr :: l =>
    do (tr, h, ev) <- track_interpolate t tr h;
    do (l, h, ev') <- interpolate_all (S i) l t h;
    Ok (tr :: l, h, map (pair i) ev ++ ev')
  end.
(** Animation.h 122: _reset of all states *)
Fixpoint reset_all (i : nat) (l : list track) : res (list track * list (nat * event)) :=
  match l with
  | [] => Ok ([], [])
  | tr :: l =>
    do (tr, ev) <- track_reset tr;
    do (l, ev') <- reset_all (S i) l;
    Ok (tr :: l, map (pair i) ev ++ ev')
  end.

(** Animation.h 93-111: Interpolate, for an animation with this length and loop: the result, the state, the events.  fmod
    by zero would be NaN, which is not modelled (UB) *)
Fixpoint interpolate (fuel : nat) (length loop : Z) (s : state) (delta : Z) : res (bool * state * list (nat * event)) :=
  match fuel with
  | O => OutOfFuel
  | S fuel =>
    if (length <=? time s) && (loop <? 0) then Ok (false, s, [])
    else
      let t := time s + delta in
      do (l, h, ev) <- interpolate_all 0 (tracks s) t (next s);
      if (length <=? t) && (0 <=? loop) then
        do (l, ev') <- reset_all 0 l;
        if length - loop =? 0 then UB
        else
          do (r, s, ev'') <- interpolate fuel length loop (St l (Z.rem (t - length) (length - loop)) h) loop;
          Ok (r, s, ev ++ ev' ++ ev'')
      else Ok (t <? length, St l t h, ev)
  end.
(** Animation.h 88-92, 61: Reset; also what the destructor does (87) *)
Definition reset (s : state) : res (state * list (nat * event)) := do (l, ev) <- reset_all 0 (tracks s); Ok (St l 0 (next s), ev).
(** Animation.h 63-68: SetTime *)
Definition set_time (s : state) (t : Z) : res (state * list (nat * event)) :=
  do (s, ev) <- (if t <? time s then reset s else Ok (s, []));
  Ok (St (tracks s) t (next s), ev).

(** the calls a user makes *)
Inductive op := Interpolate (delta : Z) | SetTime (t : Z) | Reset.
Definition step (length loop : Z) (s : state) (o : op) : res (state * list (nat * event)) :=
  match o with
  | Interpolate d => do (_, s, ev) <- interpolate 2 length loop s d; Ok (s, ev)
  | SetTime t => set_time s t
  | Reset => reset s
  end.
Fixpoint run (length loop : Z) (s : state) (ops : list op) : res (state * list (nat * event)) :=
  match ops with
  | [] => Ok (s, [])
  | o :: ops =>
    do (s, ev) <- step length loop s o;
    do (s, ev') <- run length loop s ops;
    Ok (s, ev ++ ev')
  end.
(** Animation.h 86, 162, 186, 228: a new state *)
Definition fresh_track (tr : track) : Prop :=
  match tr with
  | Discrete _ cur => cur = O
  | Smooth _ _ _ cur => cur = O
  | Interval _ cur q => cur = O /\ q = []
  end.

(* ------------------------------------------------------------------ interpolation functions *)
(** Animation.h 339: NoInterpolate *)
Definition NoInterpolate : interp := fun fs cur n d init =>
  if n =? d then do f <- get fs cur; Ok (fvalue f)
  else match cur with O => Ok init | S c => do f <- get fs c; Ok (fvalue f) end.
(** Animation.h 341, bss_util.h 1001-1006: LerpInterpolate; the linear combination of two values is a parameter *)
Definition LerpInterpolate (lerp : V -> V -> Z -> Z -> V) : interp := fun fs cur n d init =>
  do a <- match cur with O => Ok init | S c => do f <- get fs c; Ok (fvalue f) end;
  do f <- get fs cur;
  Ok (lerp a (fvalue f) n d).

(* ------------------------------------------------------------------ the length of an animation *)
(** Animation.h 256-305, 347-419: an AniData (_end is 0 and not used) or an AniDataInterval with _frames and _end *)
Inductive kind := KPlain | KInterval.
Record anidata := AD { akind : kind; frames : list frame; aend : Z }.
(** Animation.h 297, compare.h 11: CompAniFrame *)
Definition CompAniFrame (a b : frame) : Z := if ftime b <? ftime a then 1 else if ftime a <? ftime b then -1 else 0.
(** Animation.h 268, 359: End *)
Definition End (d : anidata) : Z :=
  match akind d with
  | KPlain => match frames d with [] => 0 | _ => last (map ftime (frames d)) 0 end
  | KInterval => aend d
  end.
(** Animation.h 411-416: _checkIndex *)
Definition check_frame (e : Z) (f : frame) : Z := if e <? ftime f + fdata f then ftime f + fdata f else e.
(** Animation.h 270, 361-366: Add *)
Definition ad_add (d : anidata) (f : frame) : res anidata :=
  do (l, loc) <- as_Insert CompAniFrame (frames d) f;
  match akind d with
  | KPlain => Ok (AD KPlain l (aend d))
  | KInterval => do g <- get l loc; Ok (AD KInterval l (check_frame (aend d) g))
  end.
(** Animation.h 284, 382-388, 405-410: Remove; false: nothing was removed *)
Definition ad_remove (d : anidata) (i : nat) : res (bool * anidata) :=
  do (l, ok) <- as_Remove (frames d) i;
  if negb ok then Ok (false, AD (akind d) l (aend d))
  else Ok (true, AD (akind d) l (match akind d with KPlain => aend d | KInterval => fold_left check_frame l 0 end)).

(** Animation.h 453-455: _length, _calc (_loop plays no role), and the tuple of AniData *)
Record animation := An { datas : list anidata; len : Z; calc : Z }.
(** Animation.h 424, 465: a new animation with empty AniData *)
Definition new_animation (ks : list kind) : animation := An (map (fun k => AD k [] 0) ks) (-1) 0.
(** Animation.h 539: _calclength: std::max of the initializer list *)
Definition calclength (l : list anidata) : Z := match map End l with [] => 0 | e :: r => fold_left Z.max r e end.
(** Animation.h 430: GetLength *)
Definition GetLength (a : animation) : Z := if len a <? 0 then calc a else len a.
(** Animation.h 469-473: SetLength *)
Definition SetLength (a : animation) (l : Z) : animation := An (datas a) l (calclength (datas a)).
(** Animation.h 478-493, 540: Add on the AniData at position i; UB: there is no such position (the code does not compile) *)
Definition Add (a : animation) (i : nat) (f : frame) : res animation :=
  do d <- get (datas a) i;
  do d <- ad_add d f;
  Ok (An (upd (datas a) i d) (len a) (Z.max (calc a) (End d))).
(** Animation.h 494-502: Remove *)
Definition Remove (a : animation) (i j : nat) : res animation :=
  do d <- get (datas a) i;
  do (ok, d) <- ad_remove d j;
  if negb ok then Ok (An (upd (datas a) i d) (len a) (calc a))
  else let l := upd (datas a) i d in Ok (An l (len a) (calclength l)).
(** the calls a user makes on an animation *)
Inductive aop := AAdd (i : nat) (f : frame) | ARemove (i j : nat) | ASetLength (l : Z).
Definition astep (a : animation) (o : aop) : res animation :=
  match o with AAdd i f => Add a i f | ARemove i j => Remove a i j | ASetLength l => Ok (SetLength a l) end.
Fixpoint arun (a : animation) (ops : list aop) : res animation :=
  match ops with [] => Ok a | o :: ops => do a <- astep a o; arun a ops end.
End Ani.
Arguments frame : clear implicits.
Arguments event : clear implicits.
Arguments track : clear implicits.
Arguments state : clear implicits.
Arguments anidata : clear implicits.
Arguments animation : clear implicits.
Arguments interp : clear implicits.
Arguments aop : clear implicits.
