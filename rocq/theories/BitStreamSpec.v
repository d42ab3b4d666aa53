(* Vocabulary of property C15: bits of numbers and of memory, least significant first. *)
From Coq Require Import List ZArith Bool.
Import ListNotations.

Definition bits (n : nat) (x : Z) : list bool := map (fun j => Z.testbit x (Z.of_nat j)) (seq 0 n).
Definition byte (x : Z) : Prop := (0 <= x < 256)%Z.
Definition bytes (l : list Z) : Prop := Forall byte l.
Definition mem_bits (d : list Z) : list bool := flat_map (bits 8) d.
