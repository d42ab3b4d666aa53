(* Model of StringTable<T> (include/bss-util/StringTable.h), T = char.
   Characters are integers, 0 the terminator; a C string passed in is the list of its characters without the terminator.
   The two Arrays _strings and _indices are lists; the elements of _strings are options, None being memory not written
   yet.  Sizes are unbounded. *)
From Coq Require Import List Arith ZArith Bool.
From Verif Require Import Common.
Import ListNotations.

(* StringTable.h 135-136 *)
Record table := mk { strings : list (option Z); indices : list nat }.
(* StringTable.h 26, 28: _strings(0), _indices(0) *)
Definition empty : table := mk [] [].
(* memcpy of src to dst + off (StringTable.h 71, 130; Array.h _copy) *)
Fixpoint memcpy {A} (dst : list A) (off : nat) (src : list A) : res (list A) :=
  match src with
  | [] => Ok dst
  | x :: src => do dst <- set dst off x; memcpy dst (S off) src
  end.
(* Array.h 311-318 SetCapacity to a larger size: the old elements, then unwritten ones *)
Definition grow {A} (l : list (option A)) (n : nat) : list (option A) := firstn n l ++ repeat None (n - length l).
(* the C string stored from the start of m: characters up to the terminator; running off the end or into unwritten
   memory is UB (how a caller reads the result of GetString; SLEN on Str.h 33 reads the same characters) *)
Fixpoint cstring (m : list (option Z)) : res (list Z) :=
  match m with
  | Some c :: m => if Z.eqb c 0 then Ok [] else do r <- cstring m; Ok (c :: r)
  | _ => UB
  end.
(* StringTable.h 61: GetString, read as a C string *)
Definition GetString (t : table) (i : nat) : res (list Z) := do o <- get (indices t) i; cstring (skipn o (strings t)).
(* StringTable.h 57, 59 *)
Definition Length (t : table) : nat := length (indices t).
Definition TotalWordCapacity (t : table) : nat := length (strings t).   (* StringTable.h 59 *)
(* the memory of a C string with its terminator *)
Definition zterm (s : list Z) : list (option Z) := map Some s ++ [Some 0%Z].
(* StringTable.h 126-132: the copying loop; lens are the lengths left in _indices by 116-120 *)
Fixpoint copy_loop (buf : list (option Z)) (idx : list nat) (i cur : nat) (ss : list (list Z)) : res (list (option Z) * list nat) :=
  match ss with
  | [] => Ok (buf, idx)
  | s :: ss =>
      do hold <- get idx i;
      do idx <- set idx i cur;
      do buf <- memcpy buf cur (firstn hold (zterm s));
      copy_loop buf idx (S i) (cur + hold) ss
  end.
(* StringTable.h 108-133: _construct *)
Definition construct (ss : list (list Z)) : res table :=
  if length ss =? 0 then Ok empty else
  let idx := map (fun s => length s + 1) ss in
  let sz := fold_left (fun a n => a + n) idx 0 in
  do (buf, idx) <- copy_loop (repeat None sz) idx 0 0 ss;
  Ok (mk buf idx).
(* StringTable.h 62-72: AppendString *)
Definition AppendString (t : table) (s : list Z) : res table :=
  let n := length (indices t) in
  if n =? 0 then UB else
  do o <- get (indices t) (n - 1);
  do l <- cstring (skipn o (strings t));
  let last := length l + 1 + o in
  let idx := indices t ++ [last] in
  let sz := length s + 1 in
  let last := length (strings t) in
  do buf <- memcpy (grow (strings t) (last + sz)) last (zterm s);
  Ok (mk buf idx).
(* Array.h 359-365: operator+=.  add is the array added, None if it is the array itself: then add._capacity is read after
   it has grown, and the copy reads the grown array. *)
Definition array_add {A} (a : list (option A)) (add : option (list (option A))) : res (list (option A)) :=
  match add with
  | Some b => memcpy (grow a (length a + length b)) (length a) b
  | None => let a' := grow a (length a + length a) in memcpy a' (length a) a'
  end.
(* StringTable.h 92-103: operator+=; right is None for t += t *)
Definition add (t : table) (right : option table) : res table :=
  let byteadd := length (strings t) in
  let i := length (indices t) in
  do buf <- array_add (strings t) (option_map strings right);
  do idx <- array_add (map Some (indices t)) (option_map (fun r => map Some (indices r)) right);
  (* 99-100: for(; i < _indices.Capacity(); ++i) _indices[i] += byteadd *)
  let idx := map (fun o => match o with Some x => x | None => 0 end) idx in
  Ok (mk buf (firstn i idx ++ map (fun x => x + byteadd) (skipn i idx))).
(* bss_util.h 145-152: strccount(string, c, length), called with c = 0; the loop test looks at the first character only *)
Fixpoint strccount_loop (buf : list (option Z)) (n i ret : nat) : res nat :=
  match n with
  | O => Ok ret
  | S n => do c0 <- get buf 0;
           match c0 with
           | None => UB
           | Some c0 => if Z.eqb c0 0 then Ok ret else
               do c <- get buf i;
               match c with None => UB | Some c => strccount_loop buf n (S i) (if Z.eqb c 0 then S ret else ret) end
           end
  end.
(* StringTable.h 43-52: filling in the indices *)
Fixpoint stream_loop (n : nat) (buf : list (option Z)) (idx : list nat) (i j : nat) : res (list nat) :=
  match n with
  | O => Ok idx
  | S n =>
      if j <? length idx then
        do x <- get idx j;
        do idx <- set idx j (S x);
        do c <- get buf i;
        match c with
        | None => UB
        | Some c =>
            if Z.eqb c 0 then
              do idx <- (if S j <? length idx then do p <- get idx j; set idx (S j) p else Ok idx);
              stream_loop n buf idx (S i) (S j)
            else stream_loop n buf idx (S i) j
        end
      else Ok idx
  end.
(* StringTable.h 30-53: the stream constructor, for a stream that holds all the bytes asked for *)
Definition of_stream (bytes : list Z) : res table :=
  if length bytes =? 0 then Ok empty else
  do buf <- set (map Some bytes) (length bytes - 1) (Some 0%Z);
  do n <- strccount_loop buf (length buf) 0 0;
  do idx <- stream_loop (length buf) buf (repeat 0 n) 0 1;
  Ok (mk buf idx).
(* StringTable.h 76: DumpToStream; writing unwritten memory is UB *)
Fixpoint dump_loop (m : list (option Z)) : res (list Z) :=
  match m with
  | [] => Ok []
  | Some c :: m => do r <- dump_loop m; Ok (c :: r)
  | None :: _ => UB
  end.
Definition DumpToStream (t : table) : res (list Z) := dump_loop (strings t).   (* StringTable.h 76 *)
