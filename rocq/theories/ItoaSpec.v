(* Vocabulary of property C17: reading a number written in a radix. *)
From Coq Require Import List ZArith Bool.
Import ListNotations.
Local Open Scope Z_scope.

(* the value of a digit character: 0-9, then A-Z *)
Definition digit_value (c : Z) : option Z :=
  if (48 <=? c) && (c <=? 57) then Some (c - 48)
  else if (65 <=? c) && (c <=? 90) then Some (c - 65 + 10)
  else None.

(* positional reading of a digit string, most significant digit first *)
Fixpoint read_digits (radix acc : Z) (s : list Z) : option Z :=
  match s with
  | [] => Some acc
  | c :: t =>
    match digit_value c with
    | Some d => if d <? radix then read_digits radix (acc * radix + d) t else None
    | None => None
    end
  end.

(* an optional minus sign followed by at least one digit *)
Definition read_number (radix : Z) (s : list Z) : option Z :=
  match s with
  | [] => None
  | 45 :: [] => None
  | 45 :: t => match read_digits radix 0 t with Some v => Some (- v) | None => None end
  | _ => read_digits radix 0 s
  end.

(* the characters of memory up to its first null character *)
Fixpoint c_string (l : list Z) : option (list Z) :=
  match l with
  | [] => None
  | c :: t => if c =? 0 then Some [] else match c_string t with Some s => Some (c :: s) | None => None end
  end.
