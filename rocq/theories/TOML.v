(* The TOML reader and writer: include/bss-util/TOML.h, with the parts of Serializer.h that walk a structure.

   Characters are numbers 0..255.  Simplifications, for the whole file:
   - The stream is a string stream as in JSON.v: reading fails at its end and nowhere else; the output stream never fails.
   - A structure is a value that carries its type: the fields of a table are those of EvaluateType (Serializer.h 269-287), an
     array carries the default element that its Add function appends (Serializer.h 142-150).  Numbers are int64_t.
   - The key is looked up by comparing strings; that the trie does this is C47.
   - The library is compiled without assertions; the locale is "C". *)
From Coq Require Import ZArith List Bool.
From Verif Require Import Common BitUtil JSON.
Import ListNotations.
Local Open Scope Z_scope.

(* ------------------------------------------------------------------ white space *)
(** s.peek() == c1 || s.peek() == c2 || ..., each peek being a call *)
Fixpoint any_of (cs : list Z) (s : stream) : bool * stream :=
  match cs with
  | [] => (false, s)
  | c :: cs => let '(p, s) := peek s in if p =? c then (true, s) else any_of cs s
  end.
(** while(!!s && (s.peek() == c1 || ...)) s.get() *)
Fixpoint eat_any (fuel : nat) (cs : list Z) (s : stream) : res stream :=
  match fuel with
  | O => OutOfFuel
  | S fuel =>
      if failb s then Ok s
      else let '(b, s) := any_of cs s in if b then eat_any fuel cs (snd (get s)) else Ok s
  end.
(** ParseTOMLEatWhitespace: TOML.h 76 *)
Definition eat_blank (fuel : nat) (s : stream) : res stream := eat_any fuel [32; 9] s.
(** ParseTOMLEatAllspace: TOML.h 77-85: white space and comments *)
Fixpoint eat_all (fuel : nat) (s : stream) : res stream :=
  match fuel with
  | O => OutOfFuel
  | S fuel =>
      if failb s then Ok s
      else
        let '(c, s) := peek s in
        let '(b, s) := if isspace c then (true, s) else let '(d, s) := peek s in (d =? 35, s) in
        if b then
          let '(d, s) := peek s in
          if d =? 35 then do s <- skip_to fuel [10; 13; -1] s; eat_all fuel s
          else eat_all fuel (snd (get s))
        else Ok s
  end.
(** if(s.peek() == c) s.get() *)
Definition get_if (c : Z) (s : stream) : stream := let '(x, s) := peek s in if x =? c then snd (get s) else s.
(** ParseTOMLEatNewline: TOML.h 86-96 *)
Definition eat_newline (s : stream) : stream :=
  let s := get_if 10 s in
  let '(c, s) := peek s in
  if c =? 13 then get_if 10 (snd (get s)) else s.

(* ------------------------------------------------------------------ strings *)
(** ParseTOMLCharacter: TOML.h 144-188: the characters appended *)
Definition toml_char (fuel : nat) (multi : bool) (s : stream) : res (list Z * stream) :=
  let '(c, s) := peek s in
  if c =? 92 then
    let s := snd (get s) in
    if failb s then Ok ([], s)
    else
      let '(d, s) := peek s in
      if d =? -1 then Ok ([], s)
      else
        let '(nl, s) := if multi then any_of [10; 13] s else (false, s) in
        if nl then do s <- eat_blank fuel (eat_newline s); Ok ([], s)
        else
          let '(e, s) := get s in
          if e =? 98 then Ok ([8], s)
          else if e =? 116 then Ok ([9], s)
          else if e =? 110 then Ok ([10], s)
          else if e =? 102 then Ok ([12], s)
          else if e =? 114 then Ok ([13], s)
          else if e =? 34 then Ok ([34], s)
          else if e =? 92 then Ok ([92], s)
          else if e =? 117 then
            let '(a, s) := get s in let '(b, s) := get s in let '(c, s) := get s in let '(d, s) := get s in
            Ok (OutputUnicode (sgn 32 (strtoul16 (c_str (map (wrap 8) [a; b; c; d])))), s)
          else if e =? 85 then
            let '(a, s) := get s in let '(b, s) := get s in let '(c, s) := get s in let '(d, s) := get s in
            let '(a2, s) := get s in let '(b2, s) := get s in let '(c2, s) := get s in let '(d2, s) := get s in
            Ok (OutputUnicode (sgn 32 (strtoul16 (c_str (map (wrap 8) [a; b; c; d; a2; b2; c2; d2])))), s)
          else Ok ([], s)
  else let '(x, s) := get s in Ok ([wrap 8 x], s).
(** the loop of a string in double quotes: TOML.h 226-227 *)
Fixpoint basic (fuel : nat) (multi : bool) (buf : list Z) (s : stream) : res (list Z * stream) :=
  match fuel with
  | O => OutOfFuel
  | S fuel =>
      let '(go, s) := more [10; 13; 34; -1] s in
      if go then do (o, s) <- toml_char fuel multi s; basic fuel multi (buf ++ o) s else Ok (buf, s)
  end.
(** the loop of a multi-line string: TOML.h 206-222 *)
Fixpoint multi_basic (fuel : nat) (buf : list Z) (s : stream) : res (list Z * stream) :=
  match fuel with
  | O => OutOfFuel
  | S fuel =>
      if failb s then Ok (buf, s)
      else
        let '(c, s) := peek s in
        if c =? 34 then
          let '(c, s) := peek (snd (get s)) in
          if c =? 34 then
            let '(c, s) := peek (snd (get s)) in
            if c =? 34 then Ok (buf, s) else multi_basic fuel (buf ++ [34; 34]) s
          else multi_basic fuel (buf ++ [34]) s
        else do (o, s) <- toml_char fuel true s; multi_basic fuel (buf ++ o) s
  end.
(** the loops that append characters as they are: TOML.h 255, 261 *)
Fixpoint plain (fuel : nat) (stop : list Z) (buf : list Z) (s : stream) : res (list Z * stream) :=
  match fuel with
  | O => OutOfFuel
  | S fuel =>
      let '(go, s) := more stop s in
      if go then let '(c, s) := get s in plain fuel stop (buf ++ [wrap 8 c]) s else Ok (buf, s)
  end.
(** the loop of a multi-line literal string: TOML.h 240-251 *)
Fixpoint multi_literal (fuel : nat) (buf : list Z) (s : stream) : res (list Z * stream) :=
  match fuel with
  | O => OutOfFuel
  | S fuel =>
      if failb s then Ok (buf, s)
      else
        let '(c, s) := get s in
        let c := wrap 8 c in
        let '(q, s) := if c =? 39 then peek s else (0, s) in
        if (c =? 39) && (q =? 39) then
          let '(q, s) := peek (snd (get s)) in
          if q =? 39 then Ok (buf, s) else multi_literal fuel (buf ++ [39; 39]) s
        else multi_literal fuel (buf ++ [c]) s
  end.
(** TOML.h 262-268: the position of the last character that is not white space, from the terminating zero on; char is signed *)
Fixpoint strip_at (buf : list Z) (i : nat) : nat :=
  match i with O => O | S j => if sgn 8 (nth i (buf ++ [0]) 0) <? 33 then strip_at buf j else i end.
(** TOML.h 262-268: the resized buffer *)
Definition strip (buf : list Z) : list Z :=
  match buf with [] => [] | _ => firstn (S (strip_at buf (length buf))) buf end.
(** ParseTOMLString: TOML.h 190-272 *)
Definition toml_string (fuel : nat) (multi : bool) (end1 end2 : Z) (s : stream) : res (list Z * stream) :=
  do s <- eat_blank fuel s;
  let '(c, s) := peek s in
  if c =? 34 then
    let '(c, s) := peek (snd (get s)) in
    do (buf, s) <-
      (if c =? 34 then
         let '(c, s) := peek (snd (get s)) in
         if (c =? 34) && multi then multi_basic fuel [] (eat_newline (snd (get s))) else Ok ([], s)
       else basic fuel multi [] s);
    Ok (buf, get_if 34 s)
  else if c =? 39 then
    let '(c, s) := peek (snd (get s)) in
    do (buf, s) <-
      (if c =? 39 then
         let '(c, s) := peek (snd (get s)) in
         if (c =? 39) && multi then multi_literal fuel [] (eat_newline (snd (get s))) else Ok ([], s)
       else plain fuel [10; 13; 39; -1] [] s);
    Ok (buf, get_if 39 s)
  else
    do (buf, s) <- plain fuel [10; 13; end1; end2; -1] [] s;
    Ok (strip buf, s).

(* ------------------------------------------------------------------ numbers and booleans *)
(** the digits at the beginning, their number, and the rest *)
Fixpoint span_digits (l : list Z) (acc : Z) (n : nat) : Z * nat * list Z :=
  match l with
  | [] => (acc, n, [])
  | c :: t => if isdigit c then span_digits t (10 * acc + (c - 48)) (S n) else (acc, n, l)
  end.
(** s >> o for an integer type from lo to hi: white space is skipped; without a digit the result is 0 and the stream fails, out of
    range the nearest limit and the stream fails; at the end of the stream o is not written *)
Definition in_num (lo hi : Z) (s : stream) : option Z * stream :=
  if good s then
    match drop_space (rest s) with
    | [] => (None, Str [] true true)
    | c :: t =>
        let '(v, n, r) := if (c =? 45) || (c =? 43) then span_digits t 0 0 else span_digits (c :: t) 0 0 in
        let v := if c =? 45 then - v else v in
        let e := match r with [] => true | _ => false end in
        if (n =? 0)%nat then (Some 0, Str r e true)
        else if v <? lo then (Some lo, Str r e true)
        else if hi <? v then (Some hi, Str r e true)
        else (Some v, Str r e false)
    end
  else (None, Str (rest s) (eofb s) true).
(** while(!!s && s.peek() != -1 && s.get() != c): TOML.h 382 *)
Fixpoint get_until (fuel : nat) (c : Z) (s : stream) : res stream :=
  match fuel with
  | O => OutOfFuel
  | S fuel =>
      let '(go, s) := more [-1] s in
      if go then let '(x, s) := get s in if x =? c then Ok s else get_until fuel c s else Ok s
  end.
(** ParseNumber for int64_t: TOML.h 371-388; copying a number that was not read is undefined *)
Definition ParseNumber (fuel : nat) (z : Z) (s : stream) : res (Z * stream) :=
  let '(b, s) := any_of [10; 13; 44] s in
  if b then Ok (z, s)
  else
    let '(c, s) := peek s in
    if c =? 34 then
      let '(o, s) := in_num (- 2 ^ 63) (2 ^ 63 - 1) (snd (get s)) in
      do s <- get_until fuel 34 s;
      let s := snd (get s) in
      match o with Some v => Ok (v, s) | None => UB end
    else
      let '(o, s) := in_num (- 2 ^ 63) (2 ^ 63 - 1) s in
      match o with Some v => Ok (v, s) | None => UB end.
(** the loop of ParseBool, over the text "true": TOML.h 45-54 *)
Fixpoint bool_loop (val : list Z) (s : stream) : bool * stream :=
  let '(go, s) := more [44; 125; 93; -1] s in
  match val with
  | [] => (true, s)
  | c :: val => if go then let '(x, s) := get s in if x =? c then bool_loop val s else (false, s) else (true, s)
  end.
(** ParseBool: TOML.h 32-55 *)
Definition ParseBool (fuel : nat) (s : stream) : res (bool * stream) :=
  do s <- eat_blank fuel s;
  let '(c, s) := peek s in
  let '(d, s) := if 48 <=? c then peek s else (-1, s) in
  if (48 <=? c) && (d <=? 57) then
    let '(o, s) := in_num 0 (2 ^ 64 - 1) s in
    match o with Some v => Ok (negb (v =? 0), s) | None => UB end
  else Ok (bool_loop (show_bool true) s).

(* ------------------------------------------------------------------ values *)
(** a structure: std::string or Str, bool, int64_t, a std::vector with its default element, a structure with named fields *)
Inductive tval : Type :=
| TStr (s : list Z)
| TBool (b : bool)
| TInt (z : Z)
| TArr (e : tval) (l : list tval)
| TTab (fs : list (list Z * tval)).
(** TOML.h 138 *)
Definition NORMAL : Z := 0.
Definition TABLE : Z := 1.
Definition INLINE : Z := 2.
Definition BEGIN : Z := 3.
(** FindParse: Serializer.h 328-359: the field with that name is parsed; an unknown name does nothing *)
Fixpoint field_parse (p : tval -> stream -> res (tval * stream)) (id : list Z) (fs : list (list Z * tval)) (s : stream) : res (list (list Z * tval) * stream) :=
  match fs with
  | [] => Ok ([], s)
  | (k, v) :: t =>
      if list_eqb k id then do (v, s) <- p v s; Ok ((k, v) :: t, s)
      else do (t, s) <- field_parse p id t s; Ok ((k, v) :: t, s)
  end.

(** TOML.h 334-339 *)
Fixpoint eat_lines (fuel : nat) (s : stream) : res stream :=
  match fuel with
  | O => OutOfFuel
  | S fuel =>
      let '(go, s) := more [91; -1] s in
      if go then do s <- skip_to fuel [10; 13; -1] s; eat_lines fuel (eat_newline s) else Ok s
  end.

(** Action::Parse (Serializer.h 71-88, 142-163), ParseArray (TOML.h 567-592), ParseMany (594-648), ParseTOMLTable (274-294),
    ParseTOMLPairs (296-314), ParseTOMLRoot (316-342) *)
Fixpoint parse (fuel : nat) (st : Z) (v : tval) (s : stream) {struct fuel} : res (tval * stream) :=
  match fuel with
  | O => OutOfFuel
  | S fuel =>
      match v with
      | TStr _ => do (t, s) <- toml_string fuel true 0 0 s; Ok (TStr t, s)
      | TBool _ => do (b, s) <- ParseBool fuel s; Ok (TBool b, s)
      | TInt z => do (z, s) <- ParseNumber fuel z s; Ok (TInt z, s)
      | TArr e l =>
          let '(c, s) := if NORMAL <? st then peek s else (0, s) in
          if c =? 46 then
            match rev l with
            | [] => UB
            | x :: r => do (x, s) <- parse fuel st x s; Ok (TArr e (rev r ++ [x]), s)
            end
          else if st =? INLINE then do (x, s) <- parse fuel st e s; Ok (TArr e (l ++ [x]), s)
          else
            do s <- eat_blank fuel s;
            if failb s then Ok (v, s)
            else
              let '(c, s) := get s in
              if negb (c =? 91) then Ok (v, s)
              else do s <- eat_all fuel s; do (l, s) <- parse_elems fuel st e l s; Ok (TArr e l, s)
      | TTab fs =>
          do (fs, s) <-
            (if st =? BEGIN then
               do s <- eat_all fuel s; do (fs, s) <- parse_pairs fuel fs s; parse_root fuel fs s
             else if (st =? TABLE) || (st =? INLINE) then
               let '(c, s) := peek s in
               if c =? 46 then
                 do (buf, s) <- toml_string fuel false 46 93 (snd (get s));
                 field_parse (parse fuel st) (c_str buf) fs s
               else
                 let '(c, s) := peek s in
                 if c =? 93 then
                   let s := snd (get s) in
                   let s := if st =? INLINE then get_if 93 s else s in
                   do s <- eat_all fuel s; parse_pairs fuel fs s
                 else Ok (fs, s)
             else
               do s <- eat_blank fuel s;
               let '(c, s) := peek s in
               if c =? 123 then do s <- eat_all fuel (snd (get s)); parse_table fuel fs s
               else Ok (fs, s));
          Ok (TTab fs, s)
      end
  end
(** TOML.h 584-590 *)
with parse_elems (fuel : nat) (st : Z) (e : tval) (l : list tval) (s : stream) {struct fuel} : res (list tval * stream) :=
  match fuel with
  | O => OutOfFuel
  | S fuel =>
      let '(go, s) := more [93; -1] s in
      if go then
        do (x, s) <- parse fuel st e s;
        do s <- skip_to fuel [44; 93; -1] s;
        do s <- eat_all fuel (if failb s then s else get_if 44 s);
        parse_elems fuel st e (l ++ [x]) s
      else Ok (l, s)
  end
(** TOML.h 279-293 *)
with parse_table (fuel : nat) (fs : list (list Z * tval)) (s : stream) {struct fuel} : res (list (list Z * tval) * stream) :=
  match fuel with
  | O => OutOfFuel
  | S fuel =>
      let '(go, s) := more [125; 10; 13; -1] s in
      if go then
        do (buf, s) <- toml_string fuel false 61 0 s;
        do s <- eat_blank fuel s;
        let '(c, s) := if failb s then (0, s) else peek s in
        do (fs, s) <- (if c =? 61 then field_parse (parse fuel NORMAL) (c_str buf) fs (snd (get s)) else Ok (fs, s));
        do s <- skip_to fuel [10; 13; 44; 125; -1] s;
        do s <- eat_blank fuel (get_if 44 s);
        parse_table fuel fs s
      else Ok (fs, get_if 125 s)
  end
(** TOML.h 301-313 *)
with parse_pairs (fuel : nat) (fs : list (list Z * tval)) (s : stream) {struct fuel} : res (list (list Z * tval) * stream) :=
  match fuel with
  | O => OutOfFuel
  | S fuel =>
      let '(go, s) := more [91; -1] s in
      if go then
        do (buf, s) <- toml_string fuel false 61 0 s;
        do s <- eat_blank fuel s;
        let '(c, s) := if failb s then (0, s) else peek s in
        do (fs, s) <-
          (if c =? 61 then
             do (fs, s) <- field_parse (parse fuel NORMAL) (c_str buf) fs (snd (get s));
             do s <- skip_to fuel [10; 13; -1] s; Ok (fs, s)
           else Ok (fs, s));
        do s <- eat_all fuel s;
        parse_pairs fuel fs s
      else Ok (fs, s)
  end
(** TOML.h 322-341 *)
with parse_root (fuel : nat) (fs : list (list Z * tval)) (s : stream) {struct fuel} : res (list (list Z * tval) * stream) :=
  match fuel with
  | O => OutOfFuel
  | S fuel =>
      let '(c, s) := if failb s then (0, s) else get s in
      if c =? 91 then
        let '(c, s) := peek s in
        let s := if c =? 91 then snd (get s) else s in
        let st := if c =? 91 then INLINE else TABLE in
        do (buf, s) <- toml_string fuel false 93 46 s;
        do s <- eat_blank fuel s;
        let '(b, s) := if failb s then (false, s) else any_of [93; 46] s in
        do (fs, s) <- (if b then field_parse (parse fuel st) (c_str buf) fs s else Ok (fs, s));
        do s <- eat_lines fuel s;
        do s <- eat_all fuel s;
        parse_root fuel fs s
      else Ok (fs, s)
  end.
(** ParseTOML into a structure: TOML.h 550-565 *)
Definition ParseTOML (fuel : nat) (v : tval) (text : list Z) : res tval :=
  do (v, s) <- parse fuel BEGIN v (Str text false false); Ok v.

(* ------------------------------------------------------------------ the writer *)
(** WriteTOMLId: TOML.h 108-118: the text and the new value of first *)
Definition write_id (st : Z) (first : bool) (id : option (list Z)) : list Z * bool :=
  let '(c, f) :=
    match id with
    | None => if first then ([], false) else ([44; 32], false)
    | Some _ => if st =? INLINE then if first then ([], false) else ([44; 32], false) else ([], first)
    end in
  (c ++ match id with Some k => k ++ [32; 61; 32] | None => [] end, f).
(** TOML.h 72-73, 667-668, 697-698, 774-775 *)
Definition line_end (st : Z) (id : option (list Z)) : list Z :=
  match id with Some _ => if st =? INLINE then [] else [10] | None => [] end.
(** TOML.h 758-771: one character of a string *)
Definition escape (c : Z) : list Z :=
  if c =? 34 then [92; 34]
  else if c =? 92 then [92; 92]
  else if c =? 8 then [92; 98]
  else if c =? 12 then [92; 102]
  else if c =? 10 then [92; 110]
  else if c =? 13 then [92; 114]
  else if c =? 9 then [92; 116]
  else [c].
(** TOML.h 756-773 *)
Definition show_str (s : list Z) : list Z := 34 :: flat_map escape s ++ [34].
(** SerializeBool (TOML.h 65-74), SerializeArray (650-669), SerializeNumber (689-699), WriteTOMLTables (701-712), WriteTOMLPairs
    (714-738), Serialize (745-806): the text and the new value of first, for a state, first, and lastid *)
Fixpoint ser (v : tval) (st : Z) (first : bool) (lastid : list Z) (id : option (list Z)) {struct v} : list Z * bool :=
  match v with
  | TStr t => if st =? TABLE then ([], first) else let '(h, f) := write_id st first id in (h ++ show_str t ++ line_end st id, f)
  | TBool b => if st =? TABLE then ([], first) else let '(h, f) := write_id st first id in (h ++ show_bool b ++ line_end st id, f)
  | TInt z => if st =? TABLE then ([], first) else let '(h, f) := write_id st first id in (h ++ show_int z ++ line_end st id, f)
  | TArr _ l =>
      if st =? TABLE then ([], first)
      else
        let '(h, f) := write_id st first id in
        let body :=
          (fix elems l f := match l with [] => [] | x :: l => let '(o, f) := ser x st f lastid None in o ++ elems l f end) l true in
        (h ++ 91 :: body ++ 93 :: line_end st id, f)
  | TTab fs =>
      let fields := fun st f lastid =>
        (fix fields l f :=
           match l with
           | [] => ([], f)
           | (k, x) :: l => let '(o, f) := ser x st f lastid (Some k) in let '(p, f) := fields l f in (o ++ p, f)
           end) fs f in
      if (st =? INLINE) || (match id with None => true | Some _ => false end && (st =? NORMAL)) then
        let '(h, _) := write_id INLINE first id in
        let '(b, f) := fields INLINE true lastid in
        (h ++ [123; 32] ++ b ++ [32; 125], f)
      else if negb (st =? NORMAL) then
        let head := match id with Some k => 91 :: (match lastid with [] => [] | _ => lastid ++ [46] end) ++ k ++ [93; 10] | None => [] end in
        let '(b, f) := fields NORMAL true lastid in
        let sub := match id with Some k => (match lastid with [] => [] | _ => lastid ++ [46] end) ++ k | None => match lastid with [] => [] | _ => lastid ++ [46] end end in
        let '(t, f) := fields TABLE f sub in
        (head ++ b ++ [10] ++ t, f)
      else ([], first)
  end.
(** WriteTOML: TOML.h 740-741 *)
Definition WriteTOML (v : tval) : list Z := fst (ser v TABLE false [] None).
