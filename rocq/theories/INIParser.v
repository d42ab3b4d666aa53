(* Model of the INI line parser (bss-util/INIParser.c 26-179). *)
From Coq Require Import List Arith ZArith Bool.
From Verif Require Import Common.
Import ListNotations.
Local Open Scope Z_scope.

(** A char is a signed char: a number in [-128, 127].  A char array is the list of its cells.  A char pointer is the array and
    an index.  A loop that runs off the array is undefined behaviour *)
Definition semi : Z := 59. (** ';' *)
Definition equ : Z := 61.  (** '=' *)
Definition lbr : Z := 91.  (** '[' *)
Definition rbr : Z := 93.  (** ']' *)
Definition nl : Z := 10.   (** the new line *)
(** strlen of the string that begins at the first cell *)
Fixpoint strlen (l : list Z) : res nat := match l with [] => UB | c :: l => if c =? 0 then Ok 0%nat else do n <- strlen l; Ok (S n) end.
(** INIParser.c 54-58: _trimlstr; the number of chars skipped *)
Fixpoint trimlstr (l : list Z) : res nat := match l with [] => UB | c :: l => if (0 <? c) && (c <? 33) then do n <- trimlstr l; Ok (S n) else Ok 0%nat end.
(** INIParser.c 63: the loop of _trimrstr *)
Fixpoint trimr_loop (l : list Z) (inter : nat) : res nat :=
  match inter with
  | O => Ok O
  | S k => do c <- get l inter; if c <? 33 then trimr_loop l k else Ok inter
  end.
(** INIParser.c 59-66: _trimrstr of a string that begins at the first cell of its array *)
Definition trimrstr (l : list Z) : res (list Z) := do n <- strlen l; do i <- trimr_loop l n; set l (S i) 0.
(** INIParser.c 69-86: _nextkeychar; None for -1, else whether it is a section and where; i is the index of the first char *)
Fixpoint nextkeychar (l : list Z) (i : nat) : res (option (bool * nat)) :=
  match l with
  | [] => UB
  | c :: l => if c =? 0 then Ok None else if c =? semi then Ok None else if c =? equ then Ok (Some (false, i)) else if c =? lbr then Ok (Some (true, i)) else nextkeychar l (S i)
  end.
(** INIParser.c 88-99: _validatesection *)
Fixpoint validatesection (l : list Z) (i : nat) (valid : bool) : res (option nat) :=
  match l with
  | [] => UB
  | c :: l => if c =? 0 then Ok (if valid then Some i else None) else if c =? semi then Ok None else if c =? rbr then Ok (if valid then Some i else None) else validatesection l (S i) (valid || (33 <=? c))
  end.
(** INIParser.c 102-107: _validatekey of the chars before index n *)
Definition validatekey (l : list Z) (n : nat) : bool := existsb (fun c => 33 <=? c) (firstn n l).
(** INIParser.c 110-115: _validatevalue *)
Fixpoint validatevalue (l : list Z) (i : nat) : res nat :=
  match l with
  | [] => UB
  | c :: l => if c =? 0 then Ok i else if c =? semi then Ok i else validatevalue l (S i)
  end.
(** realloc: the cells beyond the old ones, which are unspecified and which _savestr overwrites, are taken to be zero; failure is not modelled *)
Definition resize (l : list Z) (n : nat) : list Z := firstn n (l ++ repeat 0 n).
(** memcpy of src to the begin of an array *)
Definition memcpy (l src : list Z) : res (list Z) := if (length src <=? length l)%nat then Ok (src ++ skipn (length src) l) else UB.
(** INIParser.c 117-135: _savestr; str is the array from the string on *)
Definition savestr (orig str : list Z) : res (list Z) :=
  do olength <- strlen orig;
  do k <- trimlstr str;
  let str := skipn k str in
  do nlength <- strlen str;
  let orig := if (olength <? nlength)%nat then resize orig (nlength + 1) else orig in
  do orig <- memcpy orig (firstn nlength str);
  do orig <- set orig nlength 0;
  trimrstr orig.
(** INIparse.h 18-28: INIParser; the stream is what is left to read and its end-of-file indicator *)
Record parser := mkp { file : list Z; eof : bool; curvalue : list Z; curkey : list Z; cursection : list Z; newsection : bool; buf : list Z }.
(** INIParser.c 26-40: bssInitINI; buf is not initialised *)
Definition bssInitINI (stream b : list Z) : parser := mkp stream false [0] [0] [0] false b.
(** fgets: at most n chars up to and including a new line; what was read, what is left, and whether the end was reached *)
Fixpoint getline (n : nat) (l : list Z) : list Z * list Z * bool :=
  match n with
  | O => ([], l, false)
  | S n => match l with
           | [] => ([], [], true)
           | c :: l => if c =? nl then ([c], l, false) else let '(a, b, e) := getline n l in (c :: a, b, e)
           end
  end.
(** INIParser.c 158: fgets(parse->buf, MAXLINELENGTH, parse->file), where buf has MAXLINELENGTH cells (INIparse.h 27); at the
    end of the file it leaves buf as it is, and line 158 does not look at the result *)
Definition fgets (p : parser) : res parser :=
  let '(a, b, e) := getline (length (buf p) - 1) (file p) in
  match a with
  | [] => Ok (mkp b (eof p || e) (curvalue p) (curkey p) (cursection p) (newsection p) (buf p))
  | _ => do bf <- memcpy (buf p) (a ++ [0]); Ok (mkp b (eof p || e) (curvalue p) (curkey p) (cursection p) (newsection p) bf)
  end.
(** INIParser.c 137-141: _newsection; 142-147: _newkeyvaluepair with tc the index of the '=' *)
Definition new_section (p : parser) (tc : nat) : res parser :=
  do s <- savestr (cursection p) (skipn tc (buf p));
  Ok (mkp (file p) (eof p) (curvalue p) (curkey p) s true (buf p)).
Definition new_pair (p : parser) (tc : nat) : res parser :=
  do b <- set (buf p) tc 0;
  do k <- savestr (curkey p) b;
  do v <- savestr (curvalue p) (skipn (S tc) b);
  Ok (mkp (file p) (eof p) v k (cursection p) (newsection p) b).
Definition with_buf (p : parser) (b : list Z) : parser := mkp (file p) (eof p) (curvalue p) (curkey p) (cursection p) (newsection p) b.
(** INIParser.c 156-177: the loop of bssParseLine *)
Fixpoint parse_loop (fuel : nat) (p : parser) : res (parser * Z) :=
  match fuel with
  | O => OutOfFuel
  | S fuel =>
    if eof p then Ok (p, 0) else
    do p <- fgets p;
    do k <- nextkeychar (buf p) 0;
    match k with
    | None => parse_loop fuel p
    | Some (false, tc) =>
      if validatekey (buf p) tc then
        do sec <- validatevalue (skipn (S tc) (buf p)) (S tc);
        do b <- set (buf p) sec 0;
        do p <- new_pair (with_buf p b) tc;
        Ok (p, 1)
      else parse_loop fuel p
    | Some (true, tc) =>
      do sec <- validatesection (skipn tc (buf p)) tc false;
      match sec with
      | Some sec =>
        if (sec =? S tc)%nat then parse_loop fuel p else
        do b <- set (buf p) sec 0;
        do p <- new_section (with_buf p b) (S tc);
        Ok (p, -1)
      | None => parse_loop fuel p
      end
    end
  end.
(** INIParser.c 149-179: bssParseLine *)
Definition bssParseLine (p : parser) : res (parser * Z) :=
  parse_loop (length (file p) + 2) (mkp (file p) (eof p) (curvalue p) (curkey p) (cursection p) false (buf p)).
