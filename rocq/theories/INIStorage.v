(* Model of INIstorage: the sections and entries in memory, and the edits of the text of the file (bss-util/INIstorage.cpp,
   bss-util/INIParser.c 181-296).  The text is the list of the chars of the string _ini, without its terminator. *)
From Coq Require Import List Arith Bool ZArith.
From Verif Require Import Common Dll LLBase INIParser INIChain.
Import ListNotations.
Local Open Scope nat_scope.

(** A char pointer into the text is an index; the chars from there on are the list l.  strchr: it stops at a terminator *)
Fixpoint strchr (l : list Z) (c : Z) (i : nat) : option nat :=
  match l with [] => None | x :: l => if (x =? 0)%Z then None else if (x =? c)%Z then Some i else strchr l c (S i) end.
(** INIParser.c 54-58: _trimlstr in the text, which ends with a terminator; the number of chars skipped *)
Fixpoint skip_blanks (l : list Z) : nat := match l with [] => 0 | c :: l => if (0 <? c)%Z && (c <? 33)%Z then S (skip_blanks l) else 0 end.
(** INIParser.c 181-198: _snextkeychar of the n chars before end; whether it is a section, and where *)
Fixpoint snextkeychar (l : list Z) (n i : nat) : res (option (bool * nat)) :=
  match n with
  | O => Ok None
  | S n => match l with
           | [] => UB
           | c :: l => if (c =? semi)%Z then Ok None else if (c =? equ)%Z then Ok (Some (false, i)) else if (c =? lbr)%Z then Ok (Some (true, i)) else snextkeychar l n (S i)
           end
  end.
(** INIParser.c 200-211: _svalidatesection *)
Fixpoint svalidatesection (l : list Z) (n i : nat) (valid : bool) : res (option nat) :=
  match n with
  | O => Ok (if valid then Some i else None)
  | S n => match l with
           | [] => UB
           | c :: l => if (c =? semi)%Z then Ok None else if (c =? rbr)%Z then Ok (if valid then Some i else None)
                       else svalidatesection l n (S i) (valid || (33 <=? c)%Z)
           end
  end.
(** INIParser.c 212-217: _svalidatevalue *)
Fixpoint svalidatevalue (l : list Z) (n i : nat) : res nat :=
  match n with
  | O => Ok i
  | S n => match l with [] => UB | c :: l => if (c =? semi)%Z then Ok i else svalidatevalue l n (S i) end
  end.
(** INIParser.c 219-223: _trimrstralt, and INIstorage.cpp 24-29: rtrimstr; k is end - begin (0 if negative) *)
Fixpoint trimr (t : list Z) (e k : nat) : res nat :=
  match k with
  | O => Ok e
  | S k => do c <- get t e; if (c <? 33)%Z then trimr t (e - 1) k else Ok e
  end.
(** STRNICMP gives 0: the first n chars agree but for the case; the lists end with a terminator *)
Fixpoint strnicmp (a b : list Z) (n : nat) : bool :=
  match n with
  | O => true
  | S n => match a, b with
           | [], [] => true
           | x :: a, y :: b => (lower x =? lower y)%Z && strnicmp a b n
           | _, _ => false
           end
  end.
(** INIParser.c 225-233: comparevalues gives 0; a length that is negative is taken as a size_t, so both strings are compared to
    their ends *)
Definition comparevalues (t : list Z) (start e : nat) (comp : list Z) : res bool :=
  let start := start + skip_blanks (skipn start t) in
  do e <- trimr t (e - 1) (e - 1 - start);
  let a := (Z.of_nat e - Z.of_nat start + 1)%Z in
  let n := if (a <? 0)%Z then S (length t + length comp) else Nat.min (Z.to_nat a) (length comp) in
  Ok (strnicmp (skipn start t) comp n).
(** INIParser.c 245-265: the loop of bssFindINISection; count is curinstance + 1, found is retval.start.  Gives the begin and the
    end of the chunk *)
Fixpoint find_section (fuel : nat) (t section : list Z) (instance cur count : nat) (found : option nat) : res (option (nat * nat)) :=
  match fuel with
  | O => OutOfFuel
  | S fuel =>
    if cur <? length t then
      let line := match strchr (skipn cur t) nl cur with Some i => i | None => length t end in
      do k <- snextkeychar (skipn cur t) (line - cur) cur;
      match k with
      | Some (true, tc) =>
        match found with
        | Some s => Ok (Some (s, cur - 1))
        | None =>
          do sec <- svalidatesection (skipn tc t) (line - tc) tc false;
          match sec with
          | None => find_section fuel t section instance (S line) count found
          | Some sec =>
            if sec =? S tc then find_section fuel t section instance (S line) count found
            else
              do eq <- comparevalues t (S tc) sec section;
              if eq then find_section fuel t section instance (S line) (S count) (if count =? instance then Some tc else found)
              else find_section fuel t section instance (S line) count found
          end
        end
      | _ => find_section fuel t section instance (S line) count found
      end
    else Ok (match found with Some s => Some (s, length t) | None => None end)
  end.
(** INIParser.c 234-266: bssFindINISection *)
Definition bssFindINISection (t section : list Z) (instance : nat) : res (option (nat * nat)) := find_section (S (length t)) t section instance 0 0 None.
(** INIParser.c 279-295: the loop of bssFindINIEntry *)
Fixpoint find_entry (fuel : nat) (t : list Z) (e : nat) (key : list Z) (instance cur count : nat) : res (option (nat * nat)) :=
  match fuel with
  | O => OutOfFuel
  | S fuel =>
    if cur <? e then
      let line := match strchr (skipn cur t) nl cur with Some i => i | None => e end in
      do k <- snextkeychar (skipn cur t) (line - cur) cur;
      match k with
      | Some (false, tc) =>
        if validatekey (skipn cur t) (tc - cur) then
          do eq <- comparevalues t cur tc key;
          if eq then
            if count =? instance then
              do sec <- svalidatevalue (skipn (S tc) t) (line - S tc) (S tc);
              Ok (Some (cur + skip_blanks (skipn cur t), sec))
            else find_entry fuel t e key instance (S line) (S count)
          else find_entry fuel t e key instance (S line) count
        else find_entry fuel t e key instance (S line) count
      | _ => find_entry fuel t e key instance (S line) count
      end
    else Ok None
  end.
(** INIParser.c 268-296: bssFindINIEntry *)
Definition bssFindINIEntry (t : list Z) (chunk : nat * nat) (key : list Z) (instance : nat) : res (option (nat * nat)) :=
  find_entry (S (length t)) t (snd chunk) key instance (fst chunk) 0.

(** std::string::erase, insert and replace of the chars from i on *)
Definition erase (t : list Z) (i n : nat) : res (list Z) := if i <=? length t then Ok (firstn i t ++ skipn (i + n) t) else UB.
Definition replace (t : list Z) (i n : nat) (s : list Z) : res (list Z) := if i <=? length t then Ok (firstn i t ++ s ++ skipn (i + n) t) else UB.

(** INIentry.h 50-51: _key and _svalue (the numbers are not modelled) *)
Record entry := Ent { key : list Z; svalue : list Z }.
(** INIsection.h 77-82: _name, _index and the entries *)
Record section := Sec { sname : list Z; index : nat; entries : chain entry }.
(** INIstorage.h 76-82: _ini, when the file is open for edits, and the sections *)
Record store := Store { ini : list Z; sections : chain section }.

(** INIsection.cpp 76-97: _addEntry; without a value (Set(0), INIentry.cpp 31) the value stays empty *)
Definition addEntry (s : section) (k : list Z) (data : list Z) : res section :=
  do (c, _) <- add (entries s) k (fun _ => Ent k data);
  Ok (Sec (sname s) (index s) c).
(** INIstorage.cpp 119-123: the number of chars before the white space at the end *)
Fixpoint stripped (t : list Z) (i : nat) : res nat :=
  match i with
  | O => Ok 0
  | S j => do c <- get t j; if negb ((c =? 32) || (c =? nl) || (c =? 13))%Z then Ok i else stripped t j
  end.
(** INIstorage.cpp 113-134: AddSection; gives the node of the section *)
Definition AddSection (s : store) (name : list Z) : res (store * nat) :=
  do i <- stripped (ini s) (length (ini s));
  let t := if 0 <? i then firstn i (ini s) ++ [nl; nl] else ini s in
  let t := t ++ [lbr] ++ name ++ [rbr] in
  do (c, a) <- add (sections s) name (fun i => Sec name i empty);
  Ok (Store t c, a).
(** INIstorage.cpp 184, 194: the changes of _index *)
Definition zero_index (s : section) : section := Sec (sname s) 0 (entries s).
Definition dec_index (s : section) : section := Sec (sname s) (index s - 1) (entries s).
(** INIstorage.cpp 165-203: RemoveSection *)
Definition RemoveSection (s : store) (name : list Z) (instance : nat) : res (store * bool) :=
  do chunk <- bssFindINISection (ini s) name instance;
  match hfind (hash (sections s)) name, chunk with
  | Some _, Some (b, e) =>
    do c <- remove (sections s) name instance zero_index dec_index;
    match c with
    | None => Ok (s, false)
    | Some c => do t <- erase (ini s) b (e - b + 1); Ok (Store t c, true)
    end
  | _, _ => Ok (s, false)
  end.
(** INIstorage.cpp 205-285: EditEntry; a key or section instance of None is ~0, a value of None is null *)
Definition EditEntry (s : store) (name k : list Z) (nvalue : option (list Z)) (keyinstance secinstance : option nat) : res (store * Z) :=
  do (s, si) <- match secinstance with
                | Some i => Ok (s, i)
                | None => do (s, a) <- AddSection s name;
                          match val (sections s) a with Some sec => Ok (s, index sec) | None => UB end
                end;
  match hfind (hash (sections s)) name with
  | None => Ok (s, -1)%Z
  | Some r =>
    if length (inst (sections s) r) <? si then Ok (s, -2)%Z
    else
      let a := if 0 <? si then nth (si - 1) (inst (sections s) r) 0 else r in
      match val (sections s) a with
      | None => UB
      | Some psec =>
        do chunk <- bssFindINISection (ini s) name si;
        match chunk with
        | None => Ok (s, -3)%Z
        | Some (cb, ce) =>
          match keyinstance with
          | None =>
            do psec <- addEntry psec k (match nvalue with Some v => v | None => [] end);
            let construct := [nl] ++ k ++ [equ] ++ match nvalue with Some v => v | None => [] end in
            let t := match strchr (skipn (ce - 1) (ini s)) nl (ce - 1) with
                     | None => ini s ++ construct
                     | Some i => firstn i (ini s) ++ construct ++ skipn i (ini s)
                     end in
            Ok (Store t (set_value (sections s) a psec), 0%Z)
          | Some ki =>
            match hfind (hash (entries psec)) k with
            | None => Ok (s, -4)%Z
            | Some er =>
              if length (inst (entries psec) er) <? ki then Ok (s, -5)%Z
              else
                do chunk <- bssFindINIEntry (ini s) (cb, ce) k ki;
                match chunk with
                | None => Ok (s, -7)%Z
                | Some (b, e) =>
                  match nvalue with
                  | None =>
                    do c <- remove (entries psec) k ki (fun x => x) (fun x => x);
                    match c with
                    | None => UB
                    | Some c =>
                      let e' := match strchr (skipn e (ini s)) nl e with None => e | Some i => S i end in
                      do t <- erase (ini s) b (e' - b);
                      Ok (Store t (set_value (sections s) a (Sec (sname psec) (index psec) c)), 0%Z)
                    end
                  | Some v =>
                    let ea := if ki =? 0 then er else nth (ki - 1) (inst (entries psec) er) 0 in
                    match val (entries psec) ea with
                    | None => UB
                    | Some x =>
                      let s := Store (ini s) (set_value (sections s) a (Sec (sname psec) (index psec) (set_value (entries psec) ea (Ent (key x) v)))) in
                      match strchr (skipn b (ini s)) equ b with
                      | None => Ok (s, -6)%Z
                      | Some q =>
                        do r <- trimr (ini s) (e - 1) (e - 1 - S q);
                        do t <- replace (ini s) (S q) (S r - S q) v;
                        Ok (Store t (sections s), 0%Z)
                      end
                    end
                  end
                end
            end
          end
        end
      end
  end.
(** INIstorage.cpp 91-111 and INIsection.cpp 125-145: GetSection, GetNumSections, GetEntryPtr, and GetNumEntries of a section *)
Definition GetSection (s : store) (name : list Z) (instance : nat) : option section := value (sections s) name instance.
Definition GetNumSections (s : store) (name : list Z) : nat := count (sections s) name.
Definition GetEntryPtr (s : store) (name k : list Z) (keyinstance secinstance : nat) : option entry :=
  match GetSection s name secinstance with None => None | Some sec => value (entries sec) k keyinstance end.
Definition GetNumEntries (sec : section) (k : list Z) : nat := count (entries sec) k.
(** the C string at the begin of an array *)
Fixpoint c_str (l : list Z) : list Z := match l with [] => [] | c :: l => if (c =? 0)%Z then [] else c :: c_str l end.
(** INIstorage.cpp 310-319: the loop of _loadINI; cur is cursec *)
Fixpoint load_loop (fuel : nat) (p : parser) (c : chain section) (cur : option nat) : res (chain section) :=
  match fuel with
  | O => OutOfFuel
  | S fuel =>
    do (p, code) <- bssParseLine p;
    if (code =? 0)%Z then Ok c
    else if newsection p then
      do (c, a) <- add c (c_str (cursection p)) (fun i => Sec (c_str (cursection p)) i empty);
      load_loop fuel p c (Some a)
    else
      do (c, a) <- match cur with Some a => Ok (c, a) | None => add c [] (fun i => Sec [] i empty) end;
      match val c a with
      | None => UB
      | Some sec => do sec <- addEntry sec (c_str (curkey p)) (c_str (curvalue p)); load_loop fuel p (set_value c a sec) (Some a)
      end
  end.
(** INIstorage.cpp 62-76, 305-325: the constructor from a file, and _openINI (31-47), which reads the file as it is; b is the
    buffer before it is written.  The file is open for edits at once (in the source at the first edit) *)
Definition loadINI (f b : list Z) : res store := do c <- load_loop (length f + 2) (bssInitINI f b) empty None; Ok (Store f c).
