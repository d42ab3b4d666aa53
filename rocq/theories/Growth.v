(* Capacity growth shared by the containers. *)
From Coq Require Import ZArith Lia.
From Coq Require Import ZifyNat.
From Verif Require Import Common.

(** defines.h:57 [T_FBNEXT] and bss_util.h:369-375 [fbnext], absent wrap-around (the wrapping
    version is BitUtil.fbnext, property C08). *)
Definition fbnext_nat (x : nat) : nat := x + 1 + x / 2 + x / 8 - x / 128.

Lemma fbnext_nat_gt x : x < fbnext_nat x.
Proof. unfold fbnext_nat. lia. Qed.
