(* What a sequence of edits of an INI file means: a document is the list of its sections, a section the list of its pairs. *)
From Coq Require Import List Arith ZArith Bool.
From Verif Require Import Common INIParser INIParserProps INIChain.
Import ListNotations.
Local Open Scope nat_scope.

(* a list of named things; the ones of a name (same: equal but for the case of the letters), their number, the i-th of them; removing
   and changing it *)
Section Named.
Context {A : Type}.
Implicit Types d : list (list Z * A).
Definition those d (n : list Z) : list (list Z * A) := filter (fun x => same (fst x) n) d.
Definition many d n : nat := length (those d n).
Definition nth_of d n i : option A := nth_error (map snd (those d n)) i.
Fixpoint remove_nth d n i : list (list Z * A) :=
  match d with [] => [] | x :: d => if same (fst x) n then match i with O => d | S i => x :: remove_nth d n i end else x :: remove_nth d n i end.
Fixpoint change_nth d n i (f : A -> A) : list (list Z * A) :=
  match d with [] => [] | x :: d => if same (fst x) n then match i with O => (fst x, f (snd x)) :: d | S i => x :: change_nth d n i f end else x :: change_nth d n i f end.
End Named.
Definition doc := list (list Z * list (list Z * list Z)).
Inductive op :=
| Add (name : list Z)                                                        (* AddSection *)
| Remove (name : list Z) (i : nat)                                           (* RemoveSection; the result is 1 or 0 *)
| Edit (name key : list Z) (v : option (list Z)) (ki si : option nat).       (* EditEntry *)
Definition edit_section (ps : list (list Z * list Z)) (key : list Z) (v : option (list Z)) (ki : option nat) : list (list Z * list Z) * Z :=
  match ki with
  | None => (ps ++ [(key, match v with Some v => v | None => [] end)], 0%Z)
  | Some j => match nth_of ps key j with
              | None => (ps, if many ps key =? 0 then (-4)%Z else (-5)%Z)
              | Some _ => (match v with None => remove_nth ps key j | Some v => change_nth ps key j (fun _ => v) end, 0%Z)
              end
  end.
Definition spec_step (d : doc) (o : op) : doc * Z :=
  match o with
  | Add n => (d ++ [(n, [])], 0%Z)
  | Remove n i => if i <? many d n then (remove_nth d n i, 1%Z) else (d, 0%Z)
  | Edit n k v ki si =>
    let '(d, i) := match si with Some i => (d, i) | None => (d ++ [(n, [])], many d n) end in
    match nth_of d n i with
    | None => (d, if many d n =? 0 then (-1)%Z else (-2)%Z)
    | Some ps => let '(ps, code) := edit_section ps k v ki in (change_nth d n i (fun _ => ps), code)
    end
  end.
Fixpoint spec_run (d : doc) (os : list op) : doc * list Z :=
  match os with
  | [] => (d, [])
  | o :: os => let '(d, code) := spec_step d o in let '(d, codes) := spec_run d os in (d, code :: codes)
  end.

(* the text of some lines *)
Fixpoint join (ls : list (list Z)) : list Z := match ls with [] => [] | [l] => l | l :: ls => l ++ nl :: join ls end.
Definition texts (ls : list item) : list Z := join (map text ls).
(* a line that is understood: a pair, a section, or a line without '=' and '[' before a comment *)
Definition line_ok (i : item) : Prop :=
  Forall (fun c => c <> 0)%Z (text i) /\ ~ In nl (text i) /\
  match i with
  | ILine l => exists a b, l = a ++ b /\ before_ok a /\ (b = [] \/ exists c, b = semi :: c)
  | IPair k v c => key_ok k /\ value_ok v /\ comment c
  | ISect a n j => before_ok a /\ name_ok n
  end.
(* a string without the blanks at its ends *)
Fixpoint ltrim (s : list Z) : list Z := match s with [] => [] | c :: r => if (0 <? c)%Z && (c <? 33)%Z then ltrim r else s end.
Definition trim (s : list Z) : list Z := rev (ltrim (rev (ltrim s))).
(* the document that some lines say: the pairs before the first section, and the sections with their pairs *)
Fixpoint doc_of (ls : list item) : list (list Z * list Z) * list (list Z * list (list Z * list Z)) :=
  match ls with
  | [] => ([], [])
  | ILine _ :: ls => doc_of ls
  | IPair k v _ :: ls => ((trim k, trim v) :: fst (doc_of ls), snd (doc_of ls))
  | ISect _ n _ :: ls => ([], (trim n, fst (doc_of ls)) :: snd (doc_of ls))
  end.

(* a text says a document: it is made of understood lines, without pairs before the first section *)
Definition says (t : list Z) (d : doc) : Prop := exists ls, t = texts ls /\ Forall line_ok ls /\ ls <> [] /\ doc_of ls = ([], d).
(* no name is the begin of another one *)
Definition prefix_free (P : list Z -> Prop) : Prop := forall a b, P a -> P b -> (exists r, fold_case b = fold_case a ++ r) -> fold_case a = fold_case b.
(* names and keys that may be used: no blanks at the ends, and no chars that mean something *)
Definition names_ok (N : list Z -> Prop) : Prop := prefix_free N /\ forall n, N n -> name_ok n /\ trim n = n.
Definition keys_ok (K : list Z -> Prop) : Prop := prefix_free K /\ forall k, K k -> key_ok k /\ trim k = k.
Definition op_ok (N K : list Z -> Prop) (o : op) : Prop :=
  match o with
  | Add n => N n
  | Remove n _ => N n
  | Edit n k v _ _ => N n /\ K k /\ match v with None => True | Some v => value_ok v /\ trim v = v end
  end.
Definition within (N K : list Z -> Prop) (d : doc) : Prop := Forall (fun s => N (fst s) /\ Forall (fun p => K (fst p)) (snd s)) d.
