(** * The JSON reader and writer of JSON.h

    Model of [WriteJSON] and [ParseJSON] for [JSONValue] (JSON.h 18-474, with
    the parts of Serializer.h and DynArray.h they call).  Characters are
    numbers 0..255.

    Simplifications, for the whole file:
    - A [double] is represented by the text [ostream << double] prints for it,
      and the result of [strtod] by the text it consumes.  The rounding done
      by the printing and by [strtod] is not modelled.
    - The stream is a string stream: reading fails at its end and nowhere
      else.  The output stream never fails.
    - Indentation levels do not reach 2^63 (JSON.h 143 uses the top bit of
      the level as a flag).
    - The locale is "C" ([isspace], [tolower], number formats). *)
From Coq Require Import ZArith List Bool.
From Verif Require Import Common BitUtil.
Import ListNotations.
Local Open Scope Z_scope.

(** [JSONValue]: JSON.h 146-167.  [JEmpty] is the variant holding nothing
    (tag -1, Variant.h 59), which is also what [null] reads as. *)
Inductive jval : Type :=
| JEmpty
| JStr (s : list Z)
| JDouble (text : list Z)
| JInt (z : Z)
| JBool (b : bool)
| JArr (l : list jval)
| JObj (l : list (list Z * jval)).

(* ------------------------------------------------------------------ *)
(** * Text helpers *)

Definition cQUOTE := 34.      (* double quote *)
Definition cBSLASH := 92.
Definition cSLASH := 47.
Definition cCOMMA := 44.
Definition cCOLON := 58.
Definition cLBRACE := 123.
Definition cRBRACE := 125.
Definition cLBRACK := 91.
Definition cRBRACK := 93.
Definition cNL := 10.
Definition cTAB := 9.
Definition cSPACE := 32.
Definition cDOT := 46.

(** [isspace] in the "C" locale. *)
Definition isspace (c : Z) : bool := (c =? 32) || ((9 <=? c) && (c <=? 13)).

Definition isdigit (c : Z) : bool := (48 <=? c) && (c <=? 57).

(** The C string in a buffer: everything before the first NUL (the effect of
    [c_str()] followed by a C string function). *)
Fixpoint c_str (l : list Z) : list Z :=
  match l with
  | [] => []
  | c :: t => if c =? 0 then [] else c :: c_str t
  end.

(** Decimal digits of a non-negative number, [n] digits at most, put in front
    of [acc]; used by [ostream << int64_t] (JSON.h 465). *)
Fixpoint digits (n : nat) (z : Z) (acc : list Z) : list Z :=
  match n with
  | O => acc
  | S n => let acc := (48 + z mod 10) :: acc in
           if z / 10 =? 0 then acc else digits n (z / 10) acc
  end.

(** [ostream << int64_t] (JSON.h 465): a sign and at most 19 digits. *)
Definition show_int (z : Z) : list Z :=
  if z <? 0 then 45 :: digits 19 (- z) [] else digits 19 z [].

(** "true" and "false": JSON.h 37. *)
Definition show_bool (b : bool) : list Z :=
  if b then [116; 114; 117; 101] else [102; 97; 108; 115; 101].

(* ------------------------------------------------------------------ *)
(** * The writer *)

(** One character of a string: JSON.h 387-398. *)
Definition escape_char (c : Z) : list Z :=
  if c =? 34 then [92; 34]
  else if c =? 92 then [92; 92]
  else if c =? 47 then [92; 47]
  else if c =? 8 then [92; 98]
  else if c =? 12 then [92; 102]
  else if c =? 10 then [92; 110]
  else if c =? 13 then [92; 114]
  else if c =? 9 then [92; 116]
  else [c].

(** The quoted string: JSON.h 383-401. *)
Definition show_str (s : list Z) : list Z :=
  cQUOTE :: flat_map escape_char s ++ [cQUOTE].

(** The engine's [pretty] field is a level (0 when not pretty) and the flag
    "something has been written at this level" ([PRETTYFLAG], JSON.h 143). *)
Record pretty := Pretty { level : nat; flag : bool }.

(** [WriteJSONTabs]: JSON.h 108-113; only called with a positive level. *)
Definition tabs (lvl : nat) : list Z := repeat cTAB (lvl - 1).

Definition is_pretty (lvl : nat) : bool := negb (lvl =? 0)%nat. (* JSON.h 107 *)

(** [WriteJSONId]: JSON.h 115-127; the id is printed as a C string. *)
Definition write_id (id : option (list Z)) (lvl : nat) : list Z :=
  match id with
  | None => []
  | Some k =>
      (if is_pretty lvl then cNL :: tabs lvl else [])
      ++ cQUOTE :: c_str k ++ [cQUOTE; cCOLON; cSPACE]
  end.

(** [WriteJSONComma]: JSON.h 129-134; the flag is set afterwards. *)
Definition write_comma (fl : bool) : list Z := if fl then [cCOMMA] else [].

(** The level pushed for the children: [WriteJSONPretty], JSON.h 136; their
    flag is clear. *)
Definition deeper (lvl : nat) : nat := if is_pretty lvl then S lvl else lvl.

(** [WriteJSONBase<JSONValue>]: JSON.h 413-429, dispatching to
    [SerializeNumber] 460-466, [SerializeBool] 33-38, the string writer
    378-402, [SerializeArray] 430-445, and for objects [WriteJSONObject]
    344-372 around DynArray.h 126-133 and [EvaluateKeyValue] (Serializer.h
    290-301).  Result: the bytes written, and the flag of the
    level afterwards ([PushValue] restores the level, Serializer.h 29-39). *)
Fixpoint write (v : jval) (id : option (list Z)) (lvl : nat) (fl : bool) {struct v}
  : list Z * bool :=
  let head := write_comma fl ++ write_id id lvl in
  match v with
  | JEmpty => ([], fl)
  | JStr s => (head ++ show_str s, true)
  | JDouble t => (head ++ t, true)
  | JInt z => (head ++ show_int z, true)
  | JBool b => (head ++ show_bool b, true)
  | JArr l =>
      (head ++ cLBRACK ::
       (fix elems l fl := match l with
                          | [] => []
                          | x :: l => let '(o, fl) := write x None (deeper lvl) fl in
                                      o ++ elems l fl
                          end) l false
       ++ [cRBRACK], true)
  | JObj l =>
      (write_comma fl
       ++ match id with None => if is_pretty lvl then [cNL] else [] | Some _ => [] end
       ++ write_id id lvl
       ++ match id with None => if is_pretty lvl then tabs lvl else [] | Some _ => [] end
       ++ cLBRACE ::
       (fix members l fl := match l with
                            | [] => []
                            | (k, x) :: l =>
                                let '(o, fl) := write x (Some k) (deeper lvl) fl in
                                o ++ members l fl
                            end) l false
       ++ (if is_pretty lvl then cNL :: tabs lvl else [])
       ++ [cRBRACE], true)
  end.

(** [WriteJSON]: JSON.h 407-408. *)
Definition WriteJSON (v : jval) (lvl : nat) : list Z := fst (write v None lvl false).

(* ------------------------------------------------------------------ *)
(** * The input stream *)

(** [std::istream] over a string: the bytes left and the eof and fail bits.
    [!!s] is [negb fail]. *)
Record stream := Str { rest : list Z; eofb : bool; failb : bool }.

Definition good (s : stream) : bool := negb (eofb s) && negb (failb s).

(** [istream::peek]: -1 and eof at the end; a stream that is not good fails. *)
Definition peek (s : stream) : Z * stream :=
  if good s then
    match rest s with
    | [] => (-1, Str [] true (failb s))
    | c :: _ => (c, s)
    end
  else (-1, Str (rest s) (eofb s) true).

(** [istream::get]: like [peek], but fails at the end and consumes. *)
Definition get (s : stream) : Z * stream :=
  if good s then
    match rest s with
    | [] => (-1, Str [] true true)
    | c :: r => (c, Str r (eofb s) (failb s))
    end
  else (-1, Str (rest s) (eofb s) true).

(** The conjunction [s.peek() != c1 && s.peek() != c2 && ...], each [peek]
    being a call. *)
Fixpoint none_of (cs : list Z) (s : stream) : bool * stream :=
  match cs with
  | [] => (true, s)
  | c :: cs => let '(p, s) := peek s in
               if p =? c then (false, s) else none_of cs s
  end.

(** The loop condition [!!s && s.peek() != c1 && ...]. *)
Definition more (cs : list Z) (s : stream) : bool * stream :=
  if failb s then (false, s) else none_of cs s.

(** [ParseJSONEatWhitespace]: JSON.h 74. *)
Fixpoint eat_ws (fuel : nat) (s : stream) : res stream :=
  match fuel with
  | O => OutOfFuel
  | S fuel =>
      if failb s then Ok s
      else let '(c, s) := peek s in
           if isspace c then eat_ws fuel (snd (get s)) else Ok s
  end.

(* ------------------------------------------------------------------ *)
(** * C number readers *)

Definition hexval (c : Z) : option Z :=
  if isdigit c then Some (c - 48)
  else if (97 <=? c) && (c <=? 102) then Some (c - 87)
  else if (65 <=? c) && (c <=? 70) then Some (c - 55)
  else None.

Fixpoint hex_digits (l : list Z) (acc : Z) : Z :=
  match l with
  | [] => acc
  | c :: t => match hexval c with Some d => hex_digits t (16 * acc + d) | None => acc end
  end.

(** [strtoul(buf, 0, 16)] after the sign: an optional 0x before a hex digit. *)
Definition hex_prefixed (l : list Z) : Z :=
  match l with
  | 48 :: x :: d :: t =>
      if ((x =? 120) || (x =? 88)) && match hexval d with Some _ => true | None => false end
      then hex_digits (d :: t) 0 else hex_digits l 0
  | _ => hex_digits l 0
  end.

Fixpoint drop_space (l : list Z) : list Z :=
  match l with
  | c :: t => if isspace c then drop_space t else l
  | [] => []
  end.

(** [strtoul(buf, 0, 16)] (JSON.h 98) on at most four characters: no overflow;
    a minus sign negates in 64 bits. *)
Definition strtoul16 (l : list Z) : Z :=
  match drop_space l with
  | c :: t => if c =? 45 then wrap 64 (- hex_prefixed t)
              else if c =? 43 then hex_prefixed t
              else hex_prefixed (c :: t)
  | [] => 0
  end.

Fixpoint dec_digits (l : list Z) (acc : Z) : Z :=
  match l with
  | [] => acc
  | c :: t => if isdigit c then dec_digits t (10 * acc + (c - 48)) else acc
  end.

(** [strtoll(buf, 0, 10)] (JSON.h 280): saturates at the limits of int64. *)
Definition strtoll (l : list Z) : Z :=
  let clamp z := Z.max (- 2 ^ 63) (Z.min (2 ^ 63 - 1) z) in
  match drop_space l with
  | c :: t => if c =? 45 then clamp (- dec_digits t 0)
              else if c =? 43 then clamp (dec_digits t 0)
              else clamp (dec_digits (c :: t) 0)
  | [] => 0
  end.

(** Characters of a decimal floating-point number. *)
Definition float_char (c : Z) : bool :=
  isdigit c || (c =? 46) || (c =? 45) || (c =? 43) || (c =? 101) || (c =? 69).

(** [strtod] (JSON.h 278), by the text it is given up to the first character
    that cannot belong to a decimal number.  Simplified: hexadecimal floats
    are cut at the x, and trailing number characters that [strtod] would not
    use (as in "1.5.2") stay in the text. *)
Fixpoint strtod (l : list Z) : list Z :=
  match l with
  | c :: t => if float_char c then c :: strtod t else []
  | [] => []
  end.

Definition lower (c : Z) : Z := if (65 <=? c) && (c <=? 90) then c + 32 else c.

Fixpoint list_eqb (a b : list Z) : bool :=
  match a, b with
  | [], [] => true
  | x :: a, y :: b => (x =? y) && list_eqb a b
  | _, _ => false
  end.

(** [!STRICMP(a, b)] with [b] in lower case: JSON.h 287-289. *)
Definition stricmp_eq (a b : list Z) : bool := list_eqb (map lower (c_str a)) b.

(* ------------------------------------------------------------------ *)
(** * The reader *)

(** [ParseJSONEatCharacter]: JSON.h 75-103; the characters appended.  [int]
    results are converted to [char]; [OutputUnicode] takes an [int], bss_util.h
    328. *)
Definition eat_char (s : stream) : list Z * stream :=
  let '(c, s) := get s in
  if negb (wrap 8 c =? 92) then ([wrap 8 c], s)
  else
    let '(e, s) := get s in
    if e =? 34 then ([34], s)
    else if e =? 92 then ([92], s)
    else if e =? 47 then ([47], s)
    else if e =? 98 then ([8], s)
    else if e =? 102 then ([12], s)
    else if e =? 110 then ([10], s)
    else if e =? 114 then ([13], s)
    else if e =? 116 then ([9], s)
    else if e =? 117 then
      let '(a, s) := get s in
      let '(b, s) := get s in
      let '(c, s) := get s in
      let '(d, s) := get s in
      let buf := [wrap 8 a; wrap 8 b; wrap 8 c; wrap 8 d] in
      (OutputUnicode (sgn 32 (strtoul16 (c_str buf))), s)
    else ([], s).

(** The loop reading the inside of a quoted string: JSON.h 183-184, 233-234. *)
Fixpoint quoted (fuel : nat) (buf : list Z) (s : stream) : res (list Z * stream) :=
  match fuel with
  | O => OutOfFuel
  | S fuel =>
      let '(go, s) := more [34; -1] s in
      if go then let '(o, s) := eat_char s in quoted fuel (buf ++ o) s
      else Ok (buf, s)
  end.

(** The loop reading an unquoted value: JSON.h 228-229. *)
Fixpoint unquoted (fuel : nat) (buf : list Z) (s : stream) : res (list Z * stream) :=
  match fuel with
  | O => OutOfFuel
  | S fuel =>
      let '(go, s) := more [44; 125; 93; -1] s in
      if go then let '(c, s) := get s in unquoted fuel (buf ++ [wrap 8 c]) s
      else Ok (buf, s)
  end.

(** [ParseJSONBase<std::string>]: JSON.h 216-237. *)
Definition parse_str (fuel : nat) (s : stream) : res (list Z * stream) :=
  let '(ok, s) := none_of [44; 93; 125] s in
  if negb ok then Ok ([], s)
  else
    let '(c, s) := get s in
    if negb (wrap 8 c =? 34) then unquoted fuel [wrap 8 c] s
    else do (buf, s) <- quoted fuel [] s;
         Ok (buf, snd (get s)).

(** Skipping up to one of the characters: JSON.h 195-196 and 317-318. *)
Fixpoint skip_to (fuel : nat) (cs : list Z) (s : stream) : res stream :=
  match fuel with
  | O => OutOfFuel
  | S fuel =>
      let '(go, s) := more cs s in
      if go then skip_to fuel cs (snd (get s)) else Ok s
  end.

(** What follows an element: JSON.h 195-200 and 317-321 (the second
    [peek() != -1] of line 319 is no further test). *)
Definition after_elem (fuel : nat) (close : Z) (s : stream) : res stream :=
  do s <- skip_to fuel [44; close; -1] s;
  let s := if failb s then s
           else let '(c, s) := peek s in
                if c =? 44 then snd (get s) else s in
  eat_ws fuel s.

(** The first character of a number: JSON.h 259-271. *)
Definition number_start (c : Z) : bool :=
  isdigit c || (c =? 46) || (c =? 45) || (c =? 43).

(** An unquoted number: JSON.h 273-280. *)
Definition number_of (buf : list Z) : jval :=
  if existsb (Z.eqb 46) (c_str buf) then JDouble (strtod (c_str buf))
  else JInt (strtoll (c_str buf)).

(** Any other unquoted text: JSON.h 285-291; the target is empty before. *)
Definition word_of (buf : list Z) : jval :=
  if stricmp_eq buf (show_bool true) then JBool true
  else if stricmp_eq buf (show_bool false) then JBool false
  else if stricmp_eq buf [110; 117; 108; 108] then JEmpty
  else JStr buf.

(** If the stream has not failed, the next character is consumed and compared. *)
Definition expect (c : Z) (s : stream) : bool * stream :=
  if failb s then (false, s) else let '(x, s) := get s in (x =? c, s).

(** Consuming the closing bracket if it is there: JSON.h 202, 323-324. *)
Definition close_bracket (c : Z) (s : stream) : stream :=
  let '(x, s) := peek s in if x =? c then snd (get s) else s.

(** [ParseJSONBase<JSONValue>] (JSON.h 241-294), [ParseArray] (302-325) with
    [_serializeAdd] (DynArray.h 145-149), and [ParseJSONObject] (169-203) with
    [_serializeInsert] (DynArray.h 137-143), which stores the key as a C
    string. *)
Fixpoint parse_value (fuel : nat) (s : stream) : res (jval * stream) :=
  match fuel with
  | O => OutOfFuel
  | S fuel =>
      do s <- eat_ws fuel s;
      let '(c, s) := peek s in
      if c =? 123 then
        do s <- eat_ws fuel s;
        let '(ok, s) := expect 123 s in
        if ok then
          do s <- eat_ws fuel s;
          do (l, s) <- object_loop fuel [] s;
          Ok (JObj l, close_bracket 125 s)
        else Ok (JObj [], s)
      else if c =? 91 then
        do s <- eat_ws fuel s;
        let '(ok, s) := expect 91 s in
        if ok then
          do s <- eat_ws fuel s;
          do (l, s) <- array_loop fuel [] s;
          Ok (JArr l, close_bracket 93 s)
        else Ok (JArr [], s)
      else
        do (buf, s) <- parse_str fuel s;
        Ok (if c =? 34 then JStr buf
            else if number_start c then number_of buf
            else word_of buf, s)
  end

(** The loop of [ParseArray]: JSON.h 314-322. *)
with array_loop (fuel : nat) (acc : list jval) (s : stream) : res (list jval * stream) :=
  match fuel with
  | O => OutOfFuel
  | S fuel =>
      let '(go, s) := more [93; -1] s in
      if go then
        do (v, s) <- parse_value fuel s;
        do s <- after_elem fuel 93 s;
        array_loop fuel (acc ++ [v]) s
      else Ok (acc, s)
  end

(** The loop of [ParseJSONObject]: JSON.h 177-201. *)
with object_loop (fuel : nat) (acc : list (list Z * jval)) (s : stream)
  : res (list (list Z * jval) * stream) :=
  match fuel with
  | O => OutOfFuel
  | S fuel =>
      let '(go, s) := more [125; -1] s in
      if go then
        let '(q, s) := expect 34 s in
        if negb q then object_loop fuel acc s
        else
          let '(p, s) := peek s in
          if p =? -1 then object_loop fuel acc s
          else
            do (k, s) <- quoted fuel [] s;
            let s := if failb s then s else snd (get s) in
            do s <- eat_ws fuel s;
            let '(c, s) := get s in
            if negb (c =? 58) then object_loop fuel acc s
            else
              do s <- eat_ws fuel s;
              do (v, s) <- parse_value fuel s;
              do s <- after_elem fuel 125 s;
              object_loop fuel (acc ++ [(c_str k, v)]) s
      else Ok (acc, s)
  end.

(** [ParseJSON(obj, const char-pointer or istream)]: JSON.h 211-214. *)
Definition ParseJSON (fuel : nat) (text : list Z) : res jval :=
  do (v, s) <- parse_value fuel (Str text false false);
  Ok v.

(* Checks. *)
Example json_ex1 :
  WriteJSON (JObj [([97], JArr [JInt 1; JBool true; JStr [34]; JObj []])]) 0
  = [123; 34;97;34;58;32; 91; 49;44; 116;114;117;101;44; 34;92;34;34;44; 123;125; 93; 125].
Proof. reflexivity. Qed.
