(* Model of the string helpers of include/bss-util/bss_util.h (strreplace, strccount, strltrim, strrtrim, strtrim, ToArgV,
   ProcessCmdArgs, SafeFormat) and of include/bss-util/Str.h (ReplaceChar, StripChar, Explode, ParseTokens and the
   constructor that takes one field).  A character is a number 0..255.  A C string is a buffer of characters that has a 0
   in it, together with a position; reading or writing behind the end of the buffer is undefined behaviour. *)
From Coq Require Import ZArith List Bool.
From Verif Require Import Common Str.
Import ListNotations.
Local Open Scope Z_scope.

(** the characters from position p to the next 0 (all of them if there is none): what a reader of the C string at p sees *)
Fixpoint until0 (l : list Z) : list Z :=
  match l with
  | c :: t => if c =? 0 then [] else c :: until0 t
  | [] => []
  end.
Definition cstr (buf : list Z) (p : nat) : list Z := until0 (skipn p buf).

(** strlen of the C library from position p on *)
Fixpoint strlen_from (fuel : nat) (buf : list Z) (p : nat) : res nat :=
  match fuel with
  | O => OutOfFuel
  | S f => do c <- get buf p; if c =? 0 then Ok p else strlen_from f buf (S p)
  end.
(** the position of the terminating 0 of the string at p; the fuel is the size of the buffer *)
Definition strend (buf : list Z) (p : nat) : res nat := strlen_from (S (length buf)) buf p.

(** bss_util.h 121-123: the loop of strreplace from position p on *)
Fixpoint strreplace_loop (fuel : nat) (buf : list Z) (p : nat) (find repl : Z) : res (list Z) :=
  match fuel with
  | O => OutOfFuel
  | S f =>
      do c <- get buf p;
      if c =? 0 then Ok buf
      else if c =? find then do b <- set buf p repl; strreplace_loop f b (S p) find repl
      else strreplace_loop f buf (S p) find repl
  end.
(** bss_util.h 114-126: strreplace of a string that is not null *)
Definition strreplace (buf : list Z) (find repl : Z) : res (list Z) := strreplace_loop (S (length buf)) buf 0 find repl.

(** bss_util.h 139: the loop of strccount without a length *)
Fixpoint strccount_loop (fuel : nat) (buf : list Z) (p : nat) (c : Z) (ret : nat) : res nat :=
  match fuel with
  | O => OutOfFuel
  | S f => do x <- get buf p; if x =? 0 then Ok ret else strccount_loop f buf (S p) c (if x =? c then S ret else ret)
  end.
(** bss_util.h 134-141: strccount(string, c) *)
Definition strccount (buf : list Z) (c : Z) : res nat := strccount_loop (S (length buf)) buf 0 c 0.
(** bss_util.h 149-150: the loop of strccount with a length; n iterations are left, i have been made.  The condition tests
    the first character each time, not the current one *)
Fixpoint strccount_n_loop (n : nat) (buf : list Z) (i : nat) (c : Z) (ret : nat) : res nat :=
  match n with
  | O => Ok ret
  | S n' =>
      do x <- get buf 0;
      if x =? 0 then Ok ret
      else do y <- get buf i; strccount_n_loop n' buf (S i) c (if y =? c then S ret else ret)
  end.
(** bss_util.h 144-152: strccount(string, c, length) *)
Definition strccount_n (buf : list Z) (c : Z) (n : nat) : res nat := strccount_n_loop n buf 0 c 0.

(** bss_util.h 197-203: strltrim(buf + p); the position returned *)
Fixpoint strltrim_loop (fuel : nat) (buf : list Z) (p : nat) : res nat :=
  match fuel with
  | O => OutOfFuel
  | S f => do c <- get buf p; if (0 <? schar c) && (schar c <? 33) then strltrim_loop f buf (S p) else Ok p
  end.
(** bss_util.h 197-203: strltrim, with enough fuel to pass every character of the buffer *)
Definition strltrim (buf : list Z) (p : nat) : res nat := strltrim_loop (S (length buf)) buf p.
(** bss_util.h 212: the loop of strrtrim: from position q down to the beginning p *)
Fixpoint strrtrim_loop (fuel : nat) (buf : list Z) (p q : nat) : res nat :=
  match fuel with
  | O => OutOfFuel
  | S f => if (p <? q)%nat then do c <- get buf q; if schar c <? 33 then strrtrim_loop f buf p (pred q) else Ok q else Ok q
  end.
(** bss_util.h 206-215: strrtrim(buf + p); the pointer it returns is its argument *)
Definition strrtrim (buf : list Z) (p : nat) : res (list Z) :=
  do e <- strend buf p;
  do q <- strrtrim_loop (S (length buf)) buf p e;
  set buf (S q) 0.
(** bss_util.h 218-222: strtrim *)
Definition strtrim (buf : list Z) (p : nat) : res (list Z * nat) :=
  do q <- strltrim buf p;
  do b <- strrtrim buf q;
  Ok (b, q).

(** isspace of the C library in the "C" locale *)
Definition isspace (c : Z) : bool := (c =? 32) || (9 <=? c) && (c <=? 13).
(** bss_util.h 236: the loop to the end of a quoted argument, p is the position before the increment *)
Fixpoint skip_quoted (fuel : nat) (buf : list Z) (p : nat) : res nat :=
  match fuel with
  | O => OutOfFuel
  | S f =>
      do c <- get buf (S p);
      if c =? 0 then Ok (S p)
      else
        do d <- get buf (S (S p));
        if d =? 0 then Ok (S p)
        else if negb (c =? 34) || negb (isspace d) then skip_quoted f buf (S p) else Ok (S p)
  end.
(** bss_util.h 242: the loop to the end of an argument without quotes *)
Fixpoint skip_bare (fuel : nat) (buf : list Z) (p : nat) : res nat :=
  match fuel with
  | O => OutOfFuel
  | S f => do c <- get buf (S p); if negb (c =? 0) && negb (isspace c) then skip_bare f buf (S p) else Ok (S p)
  end.
(** bss_util.h 228-248: the loop of ToArgV.  cap is the size of the array argv, None for a null pointer; argv has the
    entries written so far, given as positions in the buffer.  With a null pointer only the number of entries matters *)
Fixpoint argv_loop (fuel : nat) (cap : option nat) (buf : list Z) (argv : list nat) (p : nat) : res (list Z * list nat) :=
  match fuel with
  | O => OutOfFuel
  | S f =>
      do c <- get buf p;
      if c =? 0 then Ok (buf, argv)
      else if isspace c then argv_loop f cap buf argv (S p)
      else
        let fits := match cap with Some n => (length argv <? n)%nat | None => true end in
        if negb fits then UB
        else
          do (argv, q) <- (if c =? 34 then do q <- skip_quoted f buf p; Ok (argv ++ [S p], q)
                           else do q <- skip_bare f buf p; Ok (argv ++ [p], q));
          do d <- get buf q;
          if d =? 0 then Ok (buf, argv)
          else
            do buf <- (match cap with Some _ => set buf q 0 | None => Ok buf end);
            argv_loop f cap buf argv (S q)
  end.
(** bss_util.h 224-250: ToArgV(argv, cmdline): the buffer afterwards and the entries of argv; the number returned is the
    length of the list *)
Definition ToArgV (cap : option nat) (buf : list Z) : res (list Z * list nat) := argv_loop (S (length buf)) cap buf [] 0.

(** bss_util.h 259-269: the loop of ProcessCmdArgs; cur holds the arguments from the pointer cur on, len of them.  The calls
    of fn are returned in order, each with its arguments *)
Fixpoint cmdargs_loop (rest : list (list Z)) (cur : list (list Z)) (divider : Z) : list (list (list Z)) :=
  match rest with
  | [] => [cur]
  | a :: t => if nth 0 a 0 =? divider then cur :: cmdargs_loop t [a] divider else cmdargs_loop t (cur ++ [a]) divider
  end.
(** bss_util.h 253-272: ProcessCmdArgs; a string is given without its 0, so that the first character of the empty one is 0 *)
Definition ProcessCmdArgs (argv : list (list Z)) (divider : Z) : list (list (list Z)) :=
  match argv with
  | [] => []
  | a :: t => cmdargs_loop t [a] divider
  end.

(** bss_util.h 286: o << n of an int below 100 *)
Definition small_dec (n : nat) : list Z :=
  if (n <? 10)%nat then [48 + Z.of_nat n] else [48 + Z.of_nat (n / 10); 48 + Z.of_nat (n mod 10)].
(** bss_util.h 286: "{INVALID PARAMETER " *)
Definition invalid_text : list Z := [123; 73; 78; 86; 65; 76; 73; 68; 32; 80; 65; 82; 65; 77; 69; 84; 69; 82; 32].
(** bss_util.h 277-286: helper<N>(o, n, args...), N is one less than the number of all arguments; the difference N - n is
    converted to size_t in the comparison.  Arguments are given as the texts that operator<< makes of them *)
Fixpoint format_helper (N n : nat) (args : list (list Z)) : list Z :=
  match args with
  | a :: t => if Z.of_nat (length t) =? wrap 64 (Z.of_nat N - Z.of_nat n) then a else format_helper N n t
  | [] => invalid_text ++ small_dec n ++ [125]
  end.
(** bss_util.h 294: the test whether a character is a decimal digit *)
Definition digit (c : Z) : bool := (48 <=? c) && (c <=? 57).
(** bss_util.h 294, 299-308: is there a parameter at position p; its number and its length *)
Definition param_at (buf : list Z) (p : nat) : res (option (nat * nat)) :=
  do c0 <- get buf p;
  if negb (c0 =? 123) then Ok None
  else
    do c1 <- get buf (p + 1);
    if negb (digit c1) then Ok None
    else
      do c2 <- get buf (p + 2);
      if c2 =? 125 then Ok (Some (Z.to_nat (c1 - 48), 3%nat))
      else if negb (digit c2) then Ok None
      else
        do c3 <- get buf (p + 3);
        if c3 =? 125 then Ok (Some (Z.to_nat (c2 - 48 + (c1 - 48) * 10), 4%nat)) else Ok None.
(** bss_util.h 297, 316: o.write(buf + pos, n) *)
Definition chunk (buf : list Z) (pos n : nat) : list Z := firstn n (skipn pos buf).
(** bss_util.h 292-317: the loop of F; p is format, pos is pos, out is what has been written *)
Fixpoint format_loop (fuel : nat) (fn : nat -> list Z) (buf : list Z) (p pos : nat) (out : list Z) : res (list Z) :=
  match fuel with
  | O => OutOfFuel
  | S f =>
      do c <- get buf p;
      if c =? 0 then Ok (if (pos <? p)%nat then out ++ chunk buf pos (p - pos) else out)
      else
        do m <- param_at buf p;
        match m with
        | Some (n, len) =>
            let out := if (pos <? p)%nat then out ++ chunk buf pos (p - pos) else out in
            format_loop f fn buf (p + len) (p + len) (out ++ fn n)
        | None => format_loop f fn buf (S p) pos out
        end
  end.
(** bss_util.h 288-318: __safeFormat::F *)
Definition format_F (fn : nat -> list Z) (buf : list Z) : res (list Z) := format_loop (S (length buf)) fn buf 0 0 [].
(** bss_util.h 322-326: SafeFormat with at least one argument (there is no instance without arguments) *)
Definition SafeFormat (buf : list Z) (args : list (list Z)) : res (list Z) :=
  format_F (fun n => format_helper (length args - 1) n args) buf.

(** Str.h 186-188: the loop of ReplaceChar from position i on, n characters are left *)
Fixpoint replace_loop (n : nat) (s : list Z) (i : nat) (search repl : Z) : res (list Z) :=
  match n with
  | O => Ok s
  | S n' =>
      do c <- get s i;
      if c =? search then do s <- set s i repl; replace_loop n' s (S i) search repl else replace_loop n' s (S i) search repl
  end.
(** Str.h 181-191: ReplaceChar; the string has its length, zeros in it are characters *)
Definition ReplaceChar (s : list Z) (search repl : Z) : res (list Z) := replace_loop (length s) s 0 search repl.
(** Str.h 248-250: the loop of StripChar: text at p, i characters written to r *)
Fixpoint strip_loop (fuel : nat) (text : list Z) (p : nat) (c : Z) (r : list Z) (i : nat) : res (list Z * nat) :=
  match fuel with
  | O => OutOfFuel
  | S f =>
      do x <- get text p;
      if x =? 0 then Ok (r, i)
      else if negb (x =? c) then do r <- set r i x; strip_loop f text (S p) c r (S i)
      else strip_loop f text (S p) c r i
  end.
(** Str.h 242-255: StripChar; RecalcSize (179) cuts the result at its first 0 *)
Definition StripChar (text : list Z) (c : Z) : res (list Z) :=
  do n <- strend text 0;
  do (r, i) <- strip_loop (S (length text)) text 0 c (repeat 0 (S n)) 0;
  do r <- set r i 0;
  Ok (until0 r).

(** strtok_r of the C library, behind STOK (Str.h 34): skip the delimiters from p on *)
Fixpoint skip_delims (fuel : nat) (buf : list Z) (p : nat) (d : Z) : res nat :=
  match fuel with
  | O => OutOfFuel
  | S f => do c <- get buf p; if negb (c =? 0) && (c =? d) then skip_delims f buf (S p) d else Ok p
  end.
(** strtok_r: the end of the token at p *)
Fixpoint token_end (fuel : nat) (buf : list Z) (p : nat) (d : Z) : res nat :=
  match fuel with
  | O => OutOfFuel
  | S f => do c <- get buf p; if (c =? 0) || (c =? d) then Ok p else token_end f buf (S p) d
  end.
(** strtok_r with one delimiter, from position p on: the buffer, the token or null, the context *)
Definition strtok (buf : list Z) (p : nat) (d : Z) : res (list Z * option nat * nat) :=
  do q <- skip_delims (S (length buf)) buf p d;
  do c <- get buf q;
  if c =? 0 then Ok (buf, None, q)
  else
    do e <- token_end (S (length buf)) buf q d;
    do x <- get buf e;
    if x =? 0 then Ok (buf, Some q, e)
    else do buf <- set buf e 0; Ok (buf, Some q, S e).
(** Str.h 84-95: STOK of char32_t strings; p is the string of the first call, or the context *)
Definition strtok32 (first : bool) (buf : list Z) (p : nat) (d : Z) : res (list Z * option nat * nat) :=
  do buf <- (if first then Ok buf else set buf p d);
  do e <- token_end (S (length buf)) buf p d;
  do buf <- set buf e 0;
  Ok (buf, Some p, e).
(** Str.h 201-207 and 229-236: the loop of Explode and of ParseTokens; each token is copied when it is found *)
Fixpoint explode_loop (fuel : nat) (tok : bool -> list Z -> nat -> Z -> res (list Z * option nat * nat))
  (first : bool) (buf : list Z) (p : nat) (d : Z) (dest : list (list Z)) : res (list (list Z)) :=
  match fuel with
  | O => OutOfFuel
  | S f =>
      do (buf, r, ctx) <- tok first buf p d;
      match r with
      | None => Ok dest
      | Some q => explode_loop f tok false buf ctx d (dest ++ [cstr buf q])
      end
  end.
(** Str.h 209-219: ExplodeNull from position p on *)
Fixpoint explode_null (fuel : nat) (buf : list Z) (p : nat) (dest : list (list Z)) : res (list (list Z)) :=
  match fuel with
  | O => OutOfFuel
  | S f =>
      do c <- get buf p;
      if c =? 0 then Ok dest else do e <- strend buf p; explode_null f buf (S e) (dest ++ [cstr buf p])
  end.
(** Str.h 193-208: Explode of char strings; the text is copied up to its 0 first *)
Definition Explode (d : Z) (text : list Z) : res (list (list Z)) :=
  if d =? 0 then explode_null (S (length text)) text 0 []
  else explode_loop (S (S (length text))) (fun _ => strtok) true (until0 text ++ [0]) 0 d [].
(** Str.h 193-208: Explode of char32_t strings, for a given bound on the number of tokens *)
Definition Explode32 (fuel : nat) (d : Z) (text : list Z) : res (list (list Z)) :=
  explode_loop fuel strtok32 true (until0 text ++ [0]) 0 d [].

(** strchr of the C library from position p on, d not 0 *)
Fixpoint strchr (fuel : nat) (buf : list Z) (p : nat) (d : Z) : res (option nat) :=
  match fuel with
  | O => OutOfFuel
  | S f => do c <- get buf p; if c =? d then Ok (Some p) else if c =? 0 then Ok None else strchr f buf (S p) d
  end.
(** Str.h 134-138: the loop that skips n fields; text is a pointer that may be null *)
Fixpoint skip_fields (n : nat) (buf : list Z) (text : option nat) (d : Z) : res (option nat) :=
  match n with
  | O => Ok text
  | S n' =>
      match text with
      | None => skip_fields n' buf None d
      | Some p => do r <- strchr (S (length buf)) buf p d; skip_fields n' buf (option_map S r) d
      end
  end.
(** Str.h 132-150: StrT(index, text, delim) *)
Definition StrField (index : nat) (buf : list Z) (d : Z) : res (list Z) :=
  do t <- skip_fields index buf (Some 0%nat) d;
  match t with
  | None => Ok []
  | Some p =>
      do r <- strchr (S (length buf)) buf p d;
      do e <- (match r with Some e => Ok e | None => strend buf p end);
      Ok (chunk buf p (e - p))
  end.
