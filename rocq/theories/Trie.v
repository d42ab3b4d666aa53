(* Model of Trie<T, IGNORECASE> (include/bss-util/Trie.h).
   A char is an integer from -128 to 127 (char is signed on the supported platforms); a C string is the list of its
   characters without the terminator.  Simplification: the index type T is unbounded, (T)-1 is None; with a bounded T the
   asserts on 135 and 157 require the number of nodes to stay below its maximum.  fold is the identity, or tolower if
   IGNORECASE (defined by lower below; on negative characters the C library function is taken to do nothing). *)
From Coq Require Import List Arith ZArith Bool.
From Verif Require Import Common OrderSpec Search Heap.
Import ListNotations.

(* Trie.h 15-21: TRIE_NODE *)
Record node := mkn { chr : Z; child : option nat; clen : nat; word : option nat }.
(* Trie.h 125-134: _fill sets nodes to this *)
Definition fresh : node := mkn 0 None 0 None.
(* tolower in the C locale, used on Trie.h 62, 87, 141, 155 *)
Definition lower (c : Z) : Z := if (65 <=? c)%Z && (c <=? 90)%Z then (c + 32)%Z else c.

Section Trie.
Context (fold : Z -> Z).

(* the C library comparison (strcmp, STRICMP) behind CompStr / CompIStr on Trie.h 33 and compare.h 46-56: characters
   compare as unsigned char, the end of a string comes before every character *)
Fixpoint lex (a b : list Z) : Z :=
  match a, b with
  | [], [] => 0
  | [], _ :: _ => -1
  | _ :: _, [] => 1
  | x :: a, y :: b => if (wrap 8 x <? wrap 8 y)%Z then -1 else if (wrap 8 y <? wrap 8 x)%Z then 1 else lex a b
  end.
(* Trie.h 33: CompTSecond with CompStr or CompIStr *)
Definition comp (a b : nat * list Z) : Z := lex (map fold (snd a)) (map fold (snd b)).
(* str[0].second[level] (Trie.h 139, 154) *)
Definition char_at (w : list Z) (level : nat) : res Z := if level =? length w then Ok 0%Z else get w level.
(* Trie.h 135: _checkSize, doubling the array *)
Definition check_size (arr : list node) (r : nat) : list node := if length arr <=? r then arr ++ repeat fresh (length arr) else arr.
(* Trie.h 151-159: the first pass, with l the last character and rn the model's r + 1 (so that it is never -1); str from i on *)
Fixpoint pass1 (str : list (nat * list Z)) (level len : nat) (arr : list node) (rn : nat) (l : Z) : res (list node * nat) :=
  match len with
  | O => Ok (arr, rn)
  | S len =>
      match str with
      | [] => UB
      | p :: str =>
          do c <- char_at (snd p) level;
          let c := fold c in
          do (arr, rn, l) <-
            (if Z.eqb l c then Ok (arr, rn, l)
             else let arr := check_size arr rn in
                  do nd <- get arr rn;
                  do arr <- set arr rn (mkn c (child nd) (clen nd) (word nd));
                  Ok (arr, S rn, c));
          do nd <- get arr (rn - 1);
          do arr <- set arr (rn - 1) (mkn (chr nd) (child nd) (S (clen nd)) (word nd));
          pass1 str level len arr rn l
      end
  end.
(* Trie.h 165-170: the second pass over k nodes from i; rec is _init at the next level *)
Fixpoint pass2 (rec : list node -> list (nat * list Z) -> nat -> nat -> res (list node * nat)) (k i r : nat) (arr : list node) (str : list (nat * list Z)) : res (list node * nat) :=
  match k with
  | O => Ok (arr, r)
  | S k =>
      do nd <- get arr i;
      do arr <- set arr i (mkn (chr nd) (Some r) (clen nd) (word nd));
      do nd <- get arr i;
      do (arr, r) <- rec arr str (clen nd) r;
      do nd <- get arr i;
      pass2 rec k (S i) r arr (skipn (clen nd) str)
  end.
(* Trie.h 136-174: _init(len, str, cnt, level); fuel bounds the recursion depth *)
Fixpoint init (fuel : nat) (arr : list node) (str : list (nat * list Z)) (len cnt level : nat) : res (list node * nat) :=
  match fuel with
  | O => OutOfFuel
  | S fuel =>
      do p <- get str 0;
      do c <- char_at (snd p) level;
      let c := fold c in
      do (arr, str, len) <-
        (if Z.eqb c 0 then
           let arr := check_size arr cnt in
           do nd <- get arr cnt;
           do arr <- set arr cnt (mkn (chr nd) (child nd) (clen nd) (Some (fst p)));
           Ok (arr, tl str, len - 1)
         else Ok (arr, str, len));
      do (arr, last) <- pass1 str level len arr cnt 0%Z;
      let len := last - cnt in
      do (arr, r) <- pass2 (fun arr str n r => init fuel arr str n r (S level)) len cnt last arr str;
      do nd <- get arr cnt;
      do arr <- set arr cnt (mkn (chr nd) (child nd) len (word nd));
      Ok (arr, if len =? 0 then 1 + r else r)
  end.
(* Trie.h 49-51, 111-124: the constructors from an array of words (38-48, with variable arguments, is the same): BASE(num)
   nodes, sorting, _init.  The fuel is one more than the longest word. *)
Definition construct (words : list (list Z)) : res (list node) :=
  let arr := repeat fresh (length words) in
  do s <- HeapSort comp (combine (seq 0 (length words)) words);
  do (arr, _) <- init (S (list_max (map (@length Z) words))) arr s (length words) 0 0;
  Ok arr.
(* Trie.h 108: _CompTNode *)
Definition CompTNode (t : node) (c : Z) : Z := zcmp (chr t) c.
(* Trie.h 59-75, 83-100: the loop of Get from the node at base, over the characters read *)
Fixpoint get_loop (arr : list node) (base : nat) (w : list Z) : res (option nat) :=
  do cur <- get arr base;
  match w with
  | [] => Ok (word cur)
  | c :: w =>
      let c := fold c in
      do r <- (if 1 <? clen cur then BinarySearchExact CompTNode (skipn base arr) c 0 (clen cur)
               else if clen cur =? 1 then Ok (if Z.eqb (chr cur) c then 0 else -1)%Z
               else Ok (-1)%Z);
      if (r <? 0)%Z then Ok None
      else do nd <- get arr (base + Z.to_nat r);
           match child nd with
           | Some b => get_loop arr b w
           | None => UB
           end
  end.
(* Trie.h 53-76: Get(word), reading to the terminator *)
Definition Get (arr : list node) (w : list Z) : res (option nat) := get_loop arr 0 w.
(* Trie.h 77-101: Get(word, len) for an array w of at least len characters *)
Definition GetN (arr : list node) (w : list Z) (len : nat) : res (option nat) := if len <=? length w then get_loop arr 0 (firstn len w) else UB.
End Trie.
