(* Independent vocabulary for C10 and C11: the url-safe base-64 alphabet and bit strings. *)
From Coq Require Import ZArith Bool String Ascii List.
Import ListNotations.
Local Open Scope Z_scope.

Definition is_byte (b : Z) : Prop := 0 <= b < 256.

(* RFC 4648 section 5 alphabet, value of a digit is its position *)
Definition alphabet : list Z :=
  map (fun a => Z.of_N (N_of_ascii a))
    (list_ascii_of_string "ABCDEFGHIJKLMNOPQRSTUVWXYZabcdefghijklmnopqrstuvwxyz0123456789-_"%string).

(* c is the digit of value v *)
Definition digit (c v : Z) : Prop := 0 <= v /\ nth_error alphabet (Z.to_nat v) = Some c.

(* the n low bits of v, most significant first *)
Fixpoint bits (n : nat) (v : Z) : list bool :=
  match n with O => [] | S n' => Z.testbit v (Z.of_nat n') :: bits n' v end.

(* the text [t] is the base-64 form of [l] : the bits of its digits are those of the bytes
   followed by fewer than six zero bits *)
Definition base64_of (l t : list Z) : Prop :=
  exists vs pad, Forall2 digit t vs /\ (pad < 6)%nat /\
    concat (map (bits 6) vs) = concat (map (bits 8) l) ++ repeat false pad.
