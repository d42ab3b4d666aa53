(* Model of XMLNode and XMLFile (XML.cpp, include/bss-util/XML.h): reading and writing XML.
   Characters are numbers 0..255.  The streams are string streams: reading fails at the end of the text and nowhere else,
   the output never fails.  The hashes _nodehash and _attrhash are not part of a node here (see XMLTree.v for them); the
   value of a number (_evalValue) is a function of the string, see eval_int.  The locale is "C".  isspace of a negative
   char is false (gcc).  The depth of the recursion is not limited. *)
From Coq Require Import ZArith List Bool.
From Verif Require Import Common BitUtil JSON Str.
Import ListNotations.
Local Open Scope Z_scope.

(** XML.h 16-24, 108-113: a node: name, attributes (name and string), string of the value, child nodes *)
Inductive node := Node (name : list Z) (attrs : list (list Z * list Z)) (value : list Z) (nodes : list node).

(* ------------------------------------------------------------------ input streams *)
(** std::istream: what is left to read, and the state: good, eofbit, failbit *)
Inductive iostate := Good | Eof | Fail.
Record stream := Stream { rest : list Z; st : iostate }.
(** peek: at the end sets eofbit; fails unless the state is good.  None is -1 *)
Definition peek (s : stream) : option Z * stream :=
  match st s with
  | Good => match rest s with c :: _ => (Some c, s) | [] => (None, Stream [] Eof) end
  | _ => (None, Stream (rest s) Fail)
  end.
(** get, converted to char: -1 becomes 255 *)
Definition get (s : stream) : Z * stream :=
  match st s, rest s with
  | Good, c :: t => (c, Stream t Good)
  | _, r => (255, Stream r Fail)
  end.
(** seekg to a position where r is left to read: clears eofbit, does nothing if failbit is set *)
Definition seekg (r : list Z) (s : stream) : stream := match st s with Fail => s | _ => Stream r Good end.

(** XML.cpp 180-181 *)
Fixpoint eat_space (l : list Z) : stream :=
  match l with
  | [] => Stream [] Eof
  | c :: t => if isspace c then eat_space t else Stream l Good
  end.
(** XML.cpp 185-192: the characters before the star (or all): Some: went through all; None: mismatch.  The end of the
    text ends the loop as well: then the state is Eof, and the flag tells whether characters of the pattern are left *)
Fixpoint match_prefix (p l : list Z) {struct l} : option (bool * stream) :=
  match l with
  | [] => Some (match p with [] => true | _ => false end, Stream [] Eof)
  | c :: t => match p with [] => Some (true, Stream l Good) | d :: p => if c =? d then match_prefix p t else None end
  end.
(** XML.cpp 211-215: the characters after the star: j of them are matched, and the characters read *)
Fixpoint match_suffix (q : list Z) (l : list Z) (j : nat) (out : list Z) : nat * list Z * stream :=
  match l with
  | [] => (j, out, Stream [] Eof)
  | c :: t => if (j =? length q)%nat then (j, out, Stream l Good) else match_suffix q t (if c =? nth j q 0 then S j else O) (out ++ [c])
  end.
(** XML.cpp 178-227: _match, for the pattern p (no star, q = None) or p*q; reset is always false.  The result: whether
    it matches, the stream, and out *)
Definition xmatch (s : stream) (out : list Z) (p : list Z) (q : option (list Z)) : bool * stream * list Z :=
  let s := match st s with Good => eat_space (rest s) | _ => Stream (rest s) Fail end in
  match st s with
  | Good =>
    match match_prefix p (rest s) with
    | None => (false, s, out)
    | Some (all, s') =>
      match all, q, st s' with
      | true, None, _ => (true, s', out)
      | true, Some q, Good =>
        let '(j, out, s'') := match_suffix q (rest s') O [] in
        let out := firstn (length out - j) out in
        if (j =? length q)%nat then (true, s'', out) else (false, seekg (rest s) s'', out)
      | _, _, _ => (false, Stream (rest s') Fail, out)
      end
    end
  | _ => (false, Stream (rest s) Fail, out)
  end.

(* ------------------------------------------------------------------ numbers *)
(** the digits of strtol, strtoll and strtoull in base 10 or 16 *)
Fixpoint to_digits (base : Z) (l : list Z) (acc : Z) : Z :=
  match l with
  | c :: t => match hexval c with Some d => if d <? base then to_digits base t (base * acc + d) else acc | None => acc end
  | [] => acc
  end.
(** after the sign; in base 16 an optional 0x before a digit *)
Definition to_prefixed (base : Z) (l : list Z) : Z :=
  match l with
  | 48 :: x :: d :: t =>
    if (base =? 16) && ((x =? 120) || (x =? 88)) && match hexval d with Some _ => true | None => false end then to_digits base (d :: t) 0 else to_digits base l 0
  | _ => to_digits base l 0
  end.
(** sign and absolute value *)
Definition to_number (base : Z) (l : list Z) : bool * Z :=
  match drop_space l with
  | c :: t => if c =? 45 then (true, to_prefixed base t) else if c =? 43 then (false, to_prefixed base t) else (false, to_prefixed base (c :: t))
  | [] => (false, 0)
  end.
(** strtol and strtoll, 64 bits *)
Definition strtol (base : Z) (l : list Z) : Z :=
  let (n, z) := to_number base l in Z.max (- 2 ^ 63) (Z.min (2 ^ 63 - 1) (if n then - z else z)).
(** strtoull, 64 bits *)
Definition strtoull (base : Z) (l : list Z) : Z :=
  let (n, z) := to_number base l in if 2 ^ 64 <=? z then 2 ^ 64 - 1 else wrap 64 (if n then - z else z).
(** XML.cpp 326-344: _evalValue: the integer.  Base 2 stops at the b of 0b: the value is 0 *)
Definition eval_int (s : list Z) : Z :=
  let l := c_str s in
  match s with
  | 45 :: _ => strtol 10 l
  | 48 :: 120 :: _ => sgn 64 (strtoull 16 l)
  | 48 :: 98 :: _ => 0
  | _ => sgn 64 (strtoull 10 l)
  end.

(** XML.cpp 135: SetValue(int64_t): the new string; std::to_string prints as ostream does *)
Definition set_value_int (n : node) (z : Z) : node := match n with Node name attrs _ nodes => Node name attrs (show_int z) nodes end.

(* ------------------------------------------------------------------ the reader *)
(** the patterns: XML.cpp 231, 232, 36, 257, 315-321, 290, 293 *)
Definition pCOMMENT := [60; 33; 45; 45].   (* <!-- *)
Definition qCOMMENT := [45; 45; 62].       (* --> *)
Definition pDECL := [60; 63].              (* <? *)
Definition qDECL := [63; 62].              (* ?> *)
Definition pEND := [60; 47].               (* </ *)
Definition eLT := [38; 108; 116; 59].      (* &lt; *)
Definition eGT := [38; 103; 116; 59].      (* &gt; *)
Definition eAMP := [38; 97; 109; 112; 59]. (* &amp; *)
Definition eAPOS := [38; 97; 112; 111; 115; 59].  (* &apos; *)
Definition eQUOT := [38; 113; 117; 111; 116; 59]. (* &quot; *)
Definition pHEX := [38; 35; 120].          (* &#x *)
Definition pDEC := [38; 35].               (* &# *)

(** XML.cpp 161-175: _addAttribute replaces an attribute of the same name *)
Fixpoint add_attr (l : list (list Z * list Z)) (v : list Z * list Z) : list (list Z * list Z) :=
  match l with
  | [] => [v]
  | w :: l => if list_eq_dec Z.eq_dec (fst w) (fst v) then v :: l else w :: add_attr l v
  end.
(** XML.cpp 295-296, 303-304: eat everything until the next space *)
Fixpoint eat_word (l : list Z) (acc : list Z) : stream * list Z :=
  match l with
  | [] => (Stream [] Eof, acc)
  | c :: t => if isspace c then (Stream l Good, acc) else eat_word t (acc ++ [c])
  end.
Definition eat_word_s (s : stream) (acc : list Z) : stream * list Z :=
  match st s with Good => eat_word (rest s) acc | _ => (Stream (rest s) Fail, acc) end.
(** XML.cpp 287-309: the loop of _parseAttribute *)
Fixpoint attr_loop (fuel : nat) (s : stream) (attrs : list (list Z * list Z)) : res (list (list Z * list Z)) :=
  match fuel with
  | O => OutOfFuel
  | S fuel =>
    let (c, s) := peek s in
    match c with
    | None => Ok attrs
    | Some _ =>
      let '(m, s, name) := xmatch s [] [] (Some [61]) in
      if m then
        let name := Trim name in
        let '(m, s, v) := xmatch s [] [34] (Some [34]) in
        let (s, v) := if m then (s, v) else eat_word_s s v in
        attr_loop fuel s (add_attr attrs (name, v))
      else
        let (s, name) := eat_word_s s name in
        attr_loop fuel s (add_attr attrs (name, []))
    end
  end.
(** XML.cpp 275-278: the characters before the first space, and the rest *)
Fixpoint split_space (l : list Z) : list Z * list Z :=
  match l with
  | [] => ([], [])
  | c :: t => if isspace c then ([], l) else let (a, b) := split_space t in (c :: a, b)
  end.
(** XML.cpp 273-310: _parseAttribute: the name and the attributes (added to those there are); also the trimmed buf *)
Definition parse_attribute (buf : list Z) (attrs : list (list Z * list Z)) : res (list Z * list (list Z * list Z)) :=
  let (name, r) := split_space (Trim buf) in
  match drop_space r with
  | [] => Ok (name, attrs)
  | r => let c := c_str r in do attrs <- attr_loop (S (length c)) (Stream c Good) attrs; Ok (name, attrs)
  end.

(** XML.cpp 312-324: _parseEntity; strtol is converted to int *)
Definition parse_entity (s : stream) (target : list Z) : stream * list Z :=
  let '(m, s, _) := xmatch s [] eLT None in if m then (s, target ++ [60]) else
  let '(m, s, _) := xmatch s [] eGT None in if m then (s, target ++ [62]) else
  let '(m, s, _) := xmatch s [] eAMP None in if m then (s, target ++ [38]) else
  let '(m, s, _) := xmatch s [] eAPOS None in if m then (s, target ++ [39]) else
  let '(m, s, _) := xmatch s [] eQUOT None in if m then (s, target ++ [34]) else
  let '(m, s, buf) := xmatch s [] pHEX (Some [59]) in if m then (s, target ++ OutputUnicode (sgn 32 (strtol 16 (c_str buf)))) else
  let '(m, s, buf) := xmatch s [] pDEC (Some [59]) in if m then (s, target ++ OutputUnicode (sgn 32 (strtol 10 (c_str buf)))) else
  let (c, s) := get s in (s, target ++ [c]).

(** XML.cpp 231: comments are skipped *)
Fixpoint comments (fuel : nat) (s : stream) (buf : list Z) : res (stream * list Z) :=
  match fuel with
  | O => OutOfFuel
  | S fuel => let '(m, s, buf) := xmatch s buf pCOMMENT (Some qCOMMENT) in if m then comments fuel s buf else Ok (s, buf)
  end.

(** XML.cpp 229-245: _parse on a new node, with the stream, buf: whether it is a node, the stream, buf, the node;
    XML.cpp 247-271: _parseInner, the loop: whether the end tag was found, the stream, buf, the string of the value, the
    nodes.  The seek of line 243 goes back to the / of the end tag, which is the last thing read *)
Fixpoint parse (fuel : nat) (s : stream) (buf : list Z) : res (bool * stream * list Z * node) :=
  match fuel with
  | O => OutOfFuel
  | S fuel =>
    do (s, buf) <- comments fuel s buf;
    let '(m, s, buf) := xmatch s buf [60] (Some [62]) in
    if negb m then Ok (false, s, buf, Node [] [] [] [])
    else if negb (length buf =? 0)%nat && (last buf 0 =? 47) then
      do (name, attrs) <- parse_attribute (removelast buf) []; Ok (true, s, Trim (removelast buf), Node name attrs [] [])
    else
      do (name, attrs) <- parse_attribute buf [];
      do (fin, s, buf, value, nodes) <- inner fuel s (Trim buf) [] [];
      let nd := Node name attrs value nodes in
      let (c, s) := peek s in
      match c with
      | None => Ok (true, s, buf, nd)
      | Some _ => if list_eq_dec Z.eq_dec (Trim buf) name then Ok (true, s, buf, nd) else Ok (true, seekg (47 :: buf ++ 62 :: rest s) s, buf, nd)
      end
  end
with inner (fuel : nat) (s : stream) (buf value : list Z) (nodes : list node) : res (bool * stream * list Z * list Z * list node) :=
  match fuel with
  | O => OutOfFuel
  | S fuel =>
    let (c, s) := peek s in
    match c with
    | None => Ok (false, s, buf, value, nodes)
    | Some c =>
      if c =? 38 then let (s, value) := parse_entity s value in inner fuel s buf value nodes
      else if c =? 60 then
        let '(m, s, buf) := xmatch s buf pEND (Some [62]) in
        if m then let (_, s) := peek s in Ok (true, s, buf, value, nodes) else
        let '(m, s, buf) := xmatch s buf pCOMMENT (Some qCOMMENT) in
        if m then inner fuel s buf value nodes else
        do (m, s, buf, nd) <- parse fuel s buf;
        if m then inner fuel s buf value (nodes ++ [nd])
        else let (c, s) := get s in inner fuel s buf (value ++ [c]) nodes
      else let (c, s) := get s in inner fuel s buf (value ++ [c]) nodes
    end
  end.

(** XML.cpp 27-38, 16: XMLFile::Read into a new file: the name, the attributes of the declaration, the value and the
    nodes of the file *)
Definition read (text : list Z) : res node :=
  let '(m, s, buf) := xmatch (Stream text Good) [] pDECL (Some qDECL) in
  do (name, attrs) <- (if m then parse_attribute buf [] else Ok ([120; 109; 108], []));
  do (_, _, _, value, nodes) <- inner (length text + 4) s (if m then Trim buf else buf) [] [];
  Ok (Node name attrs value nodes).

(* ------------------------------------------------------------------ the writer *)
(** XML.cpp 358-381: _writeString *)
Definition write_char (attribute : bool) (c : Z) : list Z :=
  if attribute then (if c =? 34 then eQUOT else [c])
  else if c =? 60 then eLT else if c =? 62 then eGT else if c =? 38 then eAMP else if c =? 39 then eAPOS else if c =? 34 then eQUOT else [c].
Definition write_string (attribute : bool) (s : list Z) : list Z := flat_map (write_char attribute) (c_str s).
(** XML.cpp 346-356: _writeAttribute *)
Definition write_attr (a : list Z * list Z) : list Z := 32 :: fst a ++ [61; 34] ++ write_string true (snd a) ++ [34].
Definition write_attrs (name : list Z) (attrs : list (list Z * list Z)) : list Z := name ++ flat_map write_attr attrs.
(** XML.cpp 385-389, 408-412 *)
Definition newline (pretty : bool) (depth : nat) : list Z := if pretty then 10 :: repeat 9 depth else [].
(** XML.cpp 383-415: _write *)
Fixpoint write (pretty : bool) (depth : nat) (n : node) : list Z :=
  match n with
  | Node name attrs value nodes =>
    let content := match Trim value with [] => false | _ => true end in
    newline pretty depth ++ 60 :: write_attrs name attrs ++
    match content, nodes with
    | false, [] => [47; 62]
    | _, _ =>
      62 :: (if content then write_string false value else []) ++ flat_map (write pretty (S depth)) nodes ++
      match nodes with [] => [] | _ => newline pretty depth end ++ [60; 47] ++ name ++ [62]
    end
  end.
(** XML.cpp 46-56: XMLFile::Write *)
Definition write_file (pretty : bool) (f : node) : list Z :=
  match f with
  | Node name attrs _ nodes =>
    match attrs with [] => [] | _ => pDECL ++ write_attrs name attrs ++ qDECL end ++ flat_map (write pretty 0) nodes
  end.
