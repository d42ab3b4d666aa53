(* Model of the logger: include/bss-util/Logger.h and bss-util/Logger.cpp, over the StreamSplitter of Stream.v and the format
   function of StrUtil.v.  A C string is the list of its bytes with its terminating 0, a text is the list of its bytes.  The
   outside streams are numbered; each has text it received and a streambuf, which is its own or the buffer of this logger.
   There is one logger, whose moves are modelled by log_moved and log_assign; opening and closing files is not modelled, a
   file is an outside stream.  PrintLogV formats with vsnprintf, its text is an argument here. *)
From Coq Require Import List ZArith Lia Bool.
From Verif Require Import Common StrUtil Stream.
Import ListNotations.
Local Open Scope Z_scope.

(** ostream << of an unsigned number (Logger.cpp 132, 134, 189): n digits at most *)
Fixpoint dec_digits (n : nat) (z : Z) (acc : list Z) : list Z :=
  match n with
  | O => acc
  | S n => let acc := (48 + z mod 10) :: acc in if z / 10 =? 0 then acc else dec_digits n (z / 10) acc
  end.
(** a size_t or a non-negative int (Logger.cpp 132, 134, 189) *)
Definition show_num (z : Z) : list Z := dec_digits 20 z [].
(** std::setw(n) with the fill character 0, Logger.cpp 130-134 *)
Definition padded (n : nat) (t : list Z) : list Z := repeat 48 (n - length t) ++ t.
(** the fields of struct tm in UTC, Logger.cpp 117-122 *)
Record tm := mktm { tm_year : Z; tm_mon : Z; tm_mday : Z; tm_hour : Z; tm_min : Z; tm_sec : Z }.
(** bss_util.cpp 157-180: GetTimeZoneMinutes on posix: gmtime_r leaves tm_gmtoff 0 *)
Definition GetTimeZoneMinutes : Z := 0.
(** Logger.cpp 115-141: _writeDateTime, the text written; gmtime_r succeeds; / and % of C round towards zero *)
Definition writeDateTime (timez : Z) (t : tm) (timeonly : bool) : list Z :=
  let m := tm_hour t * 60 + tm_min t + 1440 + timez in
  let h := Z.rem (Z.quot m 60) 24 in
  let m := Z.rem m 60 in
  (if timeonly then []
   else padded 4 (show_num (tm_year t + 1900)) ++ [45] ++ padded 2 (show_num (tm_mon t + 1)) ++ [45] ++ padded 2 (show_num (tm_mday t)) ++ [32])
  ++ padded 1 (show_num h) ++ [58] ++ padded 2 (show_num m) ++ [58] ++ padded 2 (show_num (tm_sec t)).

(** strrchr, Logger.cpp 154-155: the position of the last c before the end of the string *)
Fixpoint strrchr_loop (fuel : nat) (buf : list Z) (p : nat) (c : Z) (r : option nat) : res (option nat) :=
  match fuel with
  | O => OutOfFuel
  | S f => do x <- get buf p; if x =? 0 then Ok r else strrchr_loop f buf (S p) c (if x =? c then Some p else r)
  end.
(** Logger.cpp 154-155: strrchr, with enough fuel to pass every character of the buffer *)
Definition strrchr (buf : list Z) (c : Z) : res (option nat) := strrchr_loop (S (length buf)) buf 0 c None.
(** Logger.cpp 152-158: _trimPath, the position it returns; a null pointer is less than any other *)
Definition trimPath (path : list Z) : res nat :=
  do r <- strrchr path 47;
  do r2 <- strrchr path 92;
  Ok match r, r2 with
     | None, None => 0%nat
     | Some a, None => S a
     | None, Some b => S b
     | Some a, Some b => S (Nat.max a b)
     end.
(** the text of a C string, as ostream << prints it (Logger.cpp 187, 188, 190) *)
Fixpoint c_text (buf : list Z) : list Z :=
  match buf with [] => [] | c :: t => if c =? 0 then [] else c :: c_text t end.
(** Logger.cpp 183-194: _header; a null source must not be printed: its text is the mark -1, which is no character *)
Definition header (source : option (list Z)) (file : list Z) (line : Z) (level : list Z) (tz : Z) (now : tm) (n : nat) : list Z :=
  match n with
  | 0%nat => match source with Some s => c_text s | None => [-1] end
  | 1%nat => file
  | 2%nat => show_num line
  | 3%nat => level
  | 4%nat => writeDateTime tz now true
  | 5%nat => writeDateTime tz now false
  | _ => []
  end.
(** Logger.cpp 196-201: _logHeader, the text written; printing the mark of a null source is undefined *)
Definition logHeader (format : list Z) (nullformat : option (list Z)) (source : option (list Z)) (file : list Z) (line : Z) (level : list Z) (tz : Z) (now : tm) : res (list Z) :=
  do p <- trimPath file;
  let f := match source, nullformat with None, Some nf => nf | _, _ => format end in
  do t <- format_F (header source (c_text (skipn p file)) line level tz now) f;
  if existsb (Z.eqb (-1)) t then UB else Ok t.

(** Logger.h 106-115: _levels (None is a pointer that was never set), _maxlevel, _split (its buffer and targets; None after a
    move), _format, _nullformat, _tz and _backup, a stream with whether its former buffer was the one of this logger *)
Record logger := mkl { levels : list (option (list Z)); maxlevel : Z; split_ : option splitter;
                       lformat : list Z; lnull : option (list Z); ltz : Z; backup : list (nat * bool) }.
(** the outside: the text each stream has received in its own buffer; for each stream whether its rdbuf is the buffer of the
    logger (Logger.cpp 56); whether that buffer still exists (Logger.cpp 51) *)
Record outside := mko { sinks_ : sinks; captured : list bool; alive : bool }.

(** Array.h 312-319 with CType uint8_t: SetCapacity *)
Definition set_capacity (l : list (option (list Z))) (n : nat) : list (option (list Z)) :=
  if (n <? length l)%nat then firstn n l else l ++ repeat None (n - length l).
(** Logger.cpp 104-109: SetLevel; level + 1 is converted to uint8_t *)
Definition SetLevel (l : list (option (list Z))) (level : Z) (str : list Z) : res (list (option (list Z))) :=
  let l := if Z.of_nat (length l) >=? level then set_capacity l (Z.to_nat (wrap 8 (level + 1))) else l in
  set l (Z.to_nat level) (Some str).
(** a text for each default level, Logger.cpp 161-166: FATAL, ERROR, WARNING, NOTICE, INFO, DEBUG, each with ": " *)
Definition default_levels : list (list Z) :=
  [[70; 65; 84; 65; 76; 58; 32]; [69; 82; 82; 79; 82; 58; 32]; [87; 65; 82; 78; 73; 78; 71; 58; 32]; [78; 79; 84; 73; 67; 69; 58; 32];
   [73; 78; 70; 79; 58; 32]; [68; 69; 66; 85; 71; 58; 32]].
(** Logger.cpp 159-167: _levelDefaults, from level i on *)
Fixpoint levelDefaults (l : list (option (list Z))) (i : Z) (texts : list (list Z)) : res (list (option (list Z))) :=
  match texts with
  | [] => Ok l
  | t :: r => do l <- SetLevel l i t; levelDefaults l (i + 1) r
  end.
(** Logger.cpp 13: "{4} [{0}] ({1}:{2}) {3}" *)
Definition DEFAULTFORMAT : list Z := [123; 52; 125; 32; 91; 123; 48; 125; 93; 32; 40; 123; 49; 125; 58; 123; 50; 125; 41; 32; 123; 51; 125; 0].
(** Logger.cpp 14: "{4} ({1}:{2}) {3}" *)
Definition DEFAULTNULLFORMAT : list Z := [123; 52; 125; 32; 40; 123; 49; 125; 58; 123; 50; 125; 41; 32; 123; 51; 125; 0].
(** Logger.cpp 21-27: the constructor without a stream; _levels(6) is not initialised *)
Definition new_logger : res logger :=
  do l <- levelDefaults (repeat None 6) 0 default_levels;
  Ok (mkl l 127 (Some (mks [] [])) DEFAULTFORMAT (Some DEFAULTNULLFORMAT) GetTimeZoneMinutes []).

(** ostream::write on stream i: to its own buffer, or to the buffer of the logger; undefined if that is gone *)
Definition write_stream (i : nat) (text : list Z) (x : splitter * outside) : res (splitter * outside) :=
  let (s, o) := x in
  do c <- get (captured o) i;
  if c : bool then if alive o then Ok (mks (sbuf s ++ text) (stargets s), o) else UB
  else do old <- get (sinks_ o) i; do w <- set (sinks_ o) i (old ++ text); Ok (s, mko w (captured o) (alive o)).
(** stream.h 48-57: sync of the buffer of the logger; flush of a stream with that buffer is sync again *)
Fixpoint log_sync (fuel : nat) (x : splitter * outside) : res (splitter * outside) :=
  match fuel with
  | O => OutOfFuel
  | S f =>
      let (s, o) := x in
      let text := sbuf s in
      do (s, o) <- (fix go (l : list nat) (x : splitter * outside) : res (splitter * outside) :=
        match l with
        | [] => Ok x
        | i :: r =>
            do (s, o) <- write_stream i text x;
            do c <- get (captured o) i;
            do x <- (if c : bool then log_sync f (s, o) else Ok (s, o));
            go r x
        end) (stargets s) (s, o);
      Ok (mks [] (stargets s), o)
  end.

(** what a user does: log (level, source, file, line, the text of the arguments, the clock), write to or flush an outside
    stream, Assimilate, AddTarget, ClearTargets, SetLevel, SetMaxLevel, SetFormat, SetNullFormat *)
Inductive lop :=
| Log (source : option (list Z)) (file : list Z) (line : Z) (level : Z) (text : list Z) (now : tm)
| Write (i : nat) (text : list Z) | FlushStream (i : nat)
| Assimilate (i : nat) | AddTarget (i : nat) | ClearTargets
| SetLev (level : Z) (str : list Z) | SetMax (level : Z) | SetFormat (f : list Z) | SetNull (f : option (list Z)).
(** the splitter of a logger, which must be there for its stream to be written to *)
Definition the_split (g : logger) : res splitter := match split_ g with Some s => Ok s | None => UB end.
(** the logger with another splitter, Logger.h 108 *)
Definition with_split (g : logger) (s : splitter) : logger :=
  mkl (levels g) (maxlevel g) (Some s) (lformat g) (lnull g) (ltz g) (backup g).
(** depth of recursion of sync that the model follows *)
Definition depth : nat := 3.
(** one call: Logger.h 72-91 (Log, LogFormat, LogHeader), Logger.cpp 53-113, 168-182 *)
Definition log_step (x : logger * outside) (op : lop) : res (logger * outside) :=
  let (g, o) := x in
  match op with
  | Log source file line level text now =>
      if level >=? maxlevel g then Ok (g, o)
      else
        do lv <- (if level <? 0 then Ok (Some []) else get (levels g) (Z.to_nat level));
        do lv <- match lv with Some t => Ok t | None => UB end;
        do h <- logHeader (lformat g) (lnull g) source file line lv (ltz g) now;
        do s <- the_split g;
        do (s, o) <- log_sync depth (mks (sbuf s ++ h ++ text ++ [10]) (stargets s), o);
        Ok (with_split g s, o)
  | Write i text =>
      match split_ g with
      | Some s => do (s, o) <- write_stream i text (s, o); Ok (with_split g s, o)
      | None => do (s, o) <- write_stream i text (mks [] [], o); Ok (g, o)
      end
  | FlushStream i =>
      do c <- get (captured o) i;
      if c : bool then if alive o then do s <- the_split g; do (s, o) <- log_sync depth (s, o); Ok (with_split g s, o) else UB
      else Ok (g, o)
  | Assimilate i =>
      do c <- get (captured o) i;
      let b := backup g ++ [(i, c)] in
      let g' := mkl (levels g) (maxlevel g) (split_ g) (lformat g) (lnull g) (ltz g) b in
      match split_ g with
      | Some _ => do cs <- set (captured o) i true; Ok (g', mko (sinks_ o) cs (alive o))
      | None => Ok (g', o)
      end
  | AddTarget i =>
      match split_ g with
      | Some s => do (s, o) <- log_sync depth (s, o); Ok (with_split g (mks (sbuf s) (stargets s ++ [i])), o)
      | None => Ok (g, o)
      end
  | ClearTargets =>
      match split_ g with
      | Some s => do (s, o) <- log_sync depth (s, o); Ok (with_split g (mks (sbuf s) []), o)
      | None => Ok (g, o)
      end
  | SetLev level str => do l <- SetLevel (levels g) level str; Ok (mkl l (maxlevel g) (split_ g) (lformat g) (lnull g) (ltz g) (backup g), o)
  | SetMax level => Ok (mkl (levels g) (sgn 8 level) (split_ g) (lformat g) (lnull g) (ltz g) (backup g), o)
  | SetFormat f => Ok (mkl (levels g) (maxlevel g) (split_ g) f (lnull g) (ltz g) (backup g), o)
  | SetNull f => Ok (mkl (levels g) (maxlevel g) (split_ g) (lformat g) f (ltz g) (backup g), o)
  end.
(** calls one after the other *)
Fixpoint log_run (l : list lop) (x : logger * outside) : res (logger * outside) :=
  match l with [] => Ok x | op :: t => do x <- log_step x op; log_run t x end.
(** Logger.cpp 49-50: the buffers of the assimilated streams are set back, from the first to the last *)
Fixpoint restore (l : list (nat * bool)) (cs : list bool) : res (list bool) :=
  match l with [] => Ok cs | (i, c) :: t => do cs <- set cs i c; restore t cs end.
(** Logger.cpp 46-52: the destructor: what is left is the outside *)
Definition destroy (x : logger * outside) : res outside :=
  do (g, o) <- log_step x ClearTargets;
  do cs <- restore (backup g) (captured o);
  Ok (mko (sinks_ o) cs (match split_ g with Some _ => false | None => alive o end)).
(** Logger.cpp 16-20: the move constructor: the new logger and the moved one (vectors and arrays are emptied by a move) *)
Definition log_moved (g : logger) : logger * logger :=
  (mkl (levels g) (maxlevel g) (split_ g) (lformat g) (lnull g) GetTimeZoneMinutes (backup g),
   mkl [] (maxlevel g) None (lformat g) (lnull g) (ltz g) []).
(** Logger.cpp 142-151: move assignment: the logger assigned to and the moved one *)
Definition log_assign (g right : logger) : logger * logger :=
  (mkl (levels g) (maxlevel g) (split_ right) (lformat g) (lnull g) GetTimeZoneMinutes (backup right),
   mkl (levels right) (maxlevel right) None (lformat right) (lnull right) (ltz right) []).
