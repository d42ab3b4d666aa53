(* Model of bss::Variant (include/bss-util/Variant.h 24-270), of the part of Serializer.h that parses one (188-230), and of
   bss::Singleton (include/bss-util/Singleton.h 9-26).
   The types of a Variant are numbers; an object of a type is a value.  Constructors and assignments of the types do not
   throw; copies are equal to the original, and an object that was moved from holds some value (moved).  A failing assert
   and an access to an object that does not live in the storage, or not as that type, are UB. *)
From Coq Require Import List Arith ZArith Bool.
From Verif Require Import Common.
Import ListNotations.
Local Open Scope Z_scope.

(** Variant.h 47-56: getpos, the position of a type in a list of types, or -1 *)
Fixpoint getpos (x : nat) (l : list nat) : Z :=
  match l with
  | [] => -1
  | t :: r => if Nat.eqb x t then 0 else if negb (getpos x r =? -1) then getpos x r + 1 else -1
  end.

Section VariantModel.
Context {val : Type}.
(** what T() constructs; what a moved-from object holds; static_cast from the first type to the second *)
Context (dflt : nat -> val) (moved : nat -> val -> val) (cast : nat -> nat -> val -> val).
(** the types Arg, Args... *)
Context (ts : list nat).

(** Variant.h 264-269: _tag and the object that lives in _store, with its type *)
Record var := mkv { vtag : Z; store : option (nat * val) }.
(** the variants by name, None if there is none; lost are the objects whose storage was reused, or went away, without a
    call of their destructor *)
Record state := mkst { vars : list (option var); lost : list (nat * val) }.

(** reinterpret_cast of _store to a pointer to T, and an access to the object *)
Definition object (T : nat) (s : option (nat * val)) : res val :=
  match s with Some (t, v) => if Nat.eqb t T then Ok v else UB | None => UB end.
(** what is lost when an object is constructed in the storage, or the storage goes away *)
Definition reuse (s : option (nat * val)) : list (nat * val) := match s with Some o => [o] | None => [] end.

(** Variant.h 169-182: _destroy over the rest l of the types; the result is the storage afterwards *)
Fixpoint destroy (tag : Z) (s : option (nat * val)) (l : list nat) : res (option (nat * val)) :=
  match l with
  | [] => UB
  | T :: r =>
      if tag =? getpos T ts then do _ <- object T s; Ok None
      else match r with [] => if tag =? -1 then Ok s else UB | _ => destroy tag s r end
  end.
(** Variant.h 168: _destruct *)
Definition destruct_ (x : var) : res (option (nat * val)) := destroy (vtag x) (store x) ts.
(** Variant.h 183-208: _constructU, by copy and by move: the new object, and the storage of the source afterwards *)
Fixpoint constructU (mv : bool) (tag : Z) (src : option (nat * val)) (l : list nat) : res (option (nat * val) * option (nat * val)) :=
  match l with
  | [] => UB
  | T :: r =>
      if tag =? getpos T ts then
        do v <- object T src; Ok (Some (T, v), if mv then Some (T, moved T v) else src)
      else match r with [] => if tag =? -1 then Ok (None, src) else UB | _ => constructU mv tag src r end
  end.
(** Variant.h 209-234: _assignU, by copy and by move *)
Fixpoint assignU (mv : bool) (tag : Z) (dst src : option (nat * val)) (l : list nat) : res (option (nat * val) * option (nat * val)) :=
  match l with
  | [] => UB
  | T :: r =>
      if tag =? getpos T ts then
        do _ <- object T dst; do v <- object T src; Ok (Some (T, v), if mv then Some (T, moved T v) else src)
      else match r with [] => UB | _ => assignU mv tag dst src r end
  end.
(** Variant.h 235-248: _convert *)
Fixpoint convertU (U : nat) (tag : Z) (s : option (nat * val)) (l : list nat) : res val :=
  match l with
  | [] => UB
  | T :: r =>
      if tag =? getpos T ts then do v <- object T s; Ok (cast T U v)
      else match r with [] => UB | _ => convertU U tag s r end
  end.

(** a place for a new object in storage that held s: what it holds then, and what was lost *)
Definition place (s new : option (nat * val)) : option (nat * val) * list (nat * val) :=
  match new with Some _ => (new, reuse s) | None => (s, []) end.

(** the variant with the name i *)
Definition var_at (s : state) (i : nat) : res var := do x <- get (vars s) i; match x with Some x => Ok x | None => UB end.
Definition put (s : state) (i : nat) (x : option var) (l : list (nat * val)) : res state :=
  do v <- set (vars s) i x; Ok (mkst v (lost s ++ l)).
(** storage for a new variant with the name i *)
Definition fresh (s : state) (i : nat) : res unit := do x <- get (vars s) i; match x with None => Ok tt | Some _ => UB end.

(** the fields of a serialised variant, in the order of the document: t with a number, and o, which parses as a value of
    whatever type is asked for *)
Inductive field := FT (t : Z) | FO (p : nat -> val).
Inductive op :=
| New (i : nat) | NewFrom (mv : bool) (i j : nat) | NewVal (i T : nat) (v : val)
| Assign (mv : bool) (i j : nat) | Put (i T : nat) (v : val) | Typeset (i T : nat) | Kill (i : nat) | Parse (i : nat) (d : list field).

(** Serializer.h 199-210: _parse over the rest l of the types *)
Fixpoint parse_o (x : var) (p : nat -> val) (l : list nat) : res (var * list (nat * val)) :=
  match l with
  | [] => Ok (x, [])
  | A :: r =>
      if vtag x =? getpos A ts then
        (* new(&obj) Variant(); typeset; Action::Parse *)
        do s <- destruct_ (mkv (-1) None);
        let '(s, l1) := place s (Some (A, dflt A)) in
        do _ <- object A s;
        Ok (mkv (getpos A ts) (Some (A, p A)), reuse (store x) ++ l1)
      else parse_o x p r
  end.
(** Variant.h 114-119, with the engine calling the action of each field in the order of the document *)
Fixpoint parse_doc (x : var) (d : list field) (lo : list (nat * val)) : res (var * list (nat * val)) :=
  match d with
  | [] => Ok (x, lo)
  | FT t :: r => parse_doc (mkv t (store x)) r lo
  | FO p :: r => do (x, l) <- parse_o x p ts; parse_doc x r (lo ++ l)
  end.

Definition step (s : state) (o : op) : res state :=
  match o with
  (* 59: Variant() *)
  | New i => do _ <- fresh s i; put s i (Some (mkv (-1) None)) []
  (* 60-61, 126-130: from another variant *)
  | NewFrom mv i j =>
      do _ <- fresh s i; do y <- var_at s j;
      do (n, sj) <- constructU mv (vtag y) (store y) ts;
      let '(n, l) := place None n in
      do s <- put s j (Some (mkv (vtag y) sj)) [];
      put s i (Some (mkv (vtag y) n)) l
  (* 62-65, 131-136: from a value *)
  | NewVal i T v => do _ <- fresh s i; put s i (Some (mkv (getpos T ts) (Some (T, v)))) []
  (* 67-68, 143-153: _assign of a variant; the source is written before the target, which matters only for a = move(a) *)
  | Assign mv i j =>
      do x <- var_at s i; do y <- var_at s j;
      if vtag x =? vtag y then
        do (n, sj) <- assignU mv (vtag x) (store x) (store y) ts;
        do s <- put s j (Some (mkv (vtag y) sj)) [];
        put s i (Some (mkv (vtag x) n)) []
      else
        do d <- destruct_ x;
        do (n, sj) <- constructU mv (vtag y) (store y) ts;
        let '(n, l) := place d n in
        do s <- put s j (Some (mkv (vtag y) sj)) [];
        put s i (Some (mkv (vtag y) n)) l
  (* 69-72, 154-165: _assign of a value *)
  | Put i T v =>
      do x <- var_at s i;
      if vtag x =? getpos T ts then do _ <- object T (store x); put s i (Some (mkv (vtag x) (Some (T, v)))) []
      else
        do d <- destruct_ x;
        let '(n, l) := place d (Some (T, v)) in
        put s i (Some (mkv (getpos T ts) n)) l
  (* 98-105: typeset *)
  | Typeset i T =>
      do x <- var_at s i; do d <- destruct_ x;
      let '(n, l) := place d (Some (T, dflt T)) in
      put s i (Some (mkv (getpos T ts) n)) l
  (* 66: ~Variant *)
  | Kill i => do x <- var_at s i; do d <- destruct_ x; put s i None (reuse d)
  (* 114-119: Serialize, with a document to parse *)
  | Parse i d => do x <- var_at s i; do (x, l) <- parse_doc x d []; put s i (Some x) l
  end.
Fixpoint run (s : state) (l : list op) : res state := match l with [] => Ok s | o :: r => do s <- step s o; run s r end.

(** Variant.h 106: tag; 97: is; 74-87: get; 88-91: convert (of a variant that is not const: the const one does not compile) *)
Definition Tag (s : state) (i : nat) : res Z := do x <- var_at s i; Ok (vtag x).
Definition Is (s : state) (i T : nat) : res bool := do x <- var_at s i; Ok (getpos T ts =? vtag x).
Definition Get (s : state) (i T : nat) : res val := do x <- var_at s i; if getpos T ts =? vtag x then object T (store x) else UB.
Definition Convert (s : state) (i U : nat) : res val := do x <- var_at s i; convertU U (vtag x) (store x) ts.
(** Serializer.h 211-220: the fields that are written; o is written unless the variant is empty *)
Fixpoint ser_o (x : var) (l : list nat) : res (list field) :=
  match l with
  | [] => UB
  | A :: r =>
      if vtag x =? getpos A ts then do v <- object A (store x); Ok [FO (fun _ => v)]
      else match r with [] => if vtag x =? -1 then Ok [] else UB | _ => ser_o x r end
  end.
(** Variant.h 114-119: Serialize *)
Definition Ser (s : state) (i : nat) : res (list field) := do x <- var_at s i; do l <- ser_o x ts; Ok (FT (vtag x) :: l).
End VariantModel.

(* ------------------------------------------------------------------ *)
(** Layout.  A type is its size and its alignment. *)
(** Variant.h 31-35: max_sizeof *)
Fixpoint max_sizeof (l : list (Z * Z)) : Z :=
  match l with [] => 0 | [a] => fst a | a :: r => if max_sizeof r >? fst a then max_sizeof r else fst a end.
(** std::conditional (C++ standard): a class without members *)
Definition std_conditional : Z * Z := (1, 1).
(** Variant.h 37-45: max_alignof::type; the typedef names the class std::conditional itself, not its member type *)
Definition max_alignof_type (l : list (Z * Z)) : Z * Z := match l with [] => (0, 1) | [a] => a | _ => std_conditional end.
(** Itanium ABI: the offset of a member with alignment a behind n bytes *)
Definition align_up (n a : Z) : Z := (n + a - 1) / a * a.
(** Variant.h 264-269: the alignment of the union (of char and of type), its offset behind int _tag (4 bytes, aligned to 4),
    its size, and the alignment of the whole *)
Definition union_align (l : list (Z * Z)) : Z := Z.max 1 (snd (max_alignof_type l)).
Definition store_offset (l : list (Z * Z)) : Z := align_up 4 (union_align l).
Definition store_size (l : list (Z * Z)) : Z := max_sizeof l.
Definition variant_align (l : list (Z * Z)) : Z := Z.max 4 (union_align l).

(* ------------------------------------------------------------------ *)
(** Singleton.h 9-26.  live are the objects (addresses) that exist; inst is _instance. *)
Record sing := mksing { live : list nat; inst : option nat }.
Inductive sop := SNew (a : nat) | SMove (a b : nat) | SAssign (a b : nat) | SKill (a : nat).
Definition is_inst (s : sing) (a : nat) : bool := match inst s with Some x => Nat.eqb x a | None => false end.
Definition has (s : sing) (a : nat) : bool := existsb (Nat.eqb a) (live s).
(** Singleton.h 15: the move constructor of a from b; 16: the constructor; 17: the destructor; 21: a = move(b).  An object
    constructed where one lives, or the use of one that does not, is UB. *)
Definition sstep (s : sing) (o : sop) : res sing :=
  match o with
  | SNew a => if has s a then UB else Ok (mksing (a :: live s) (Some a))
  | SMove a b => if has s a || negb (has s b) then UB else Ok (mksing (a :: live s) (if is_inst s b then Some a else inst s))
  | SAssign a b => if negb (has s a) || negb (has s b) then UB else Ok (mksing (live s) (if is_inst s b then Some a else inst s))
  | SKill a => if negb (has s a) then UB else Ok (mksing (filter (fun x => negb (Nat.eqb x a)) (live s)) (if is_inst s a then None else inst s))
  end.
Fixpoint srun (s : sing) (l : list sop) : res sing := match l with [] => Ok s | o :: r => do s <- sstep s o; srun s r end.
