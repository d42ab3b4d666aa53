(* C104: the last code point. *)
From Coq Require Import List ZArith Lia ZifyBool ZifyNat.
From Verif Require Import Common BitUtil UtfSpec BitUtilProofs MiscBitProofs JSON JSONProofs Str XML XMLSpec XMLProofs XMLRound XMLProps.
Import ListNotations.
Local Open Scope Z_scope.

(** The claim of C104 for one numbered character alone fails for the last code point: <a>&#1114111;</a> is read as an
    element without text. *)
Theorem C104_XML_entities_refuted :
  ~ (forall name ds, good_name name -> ds <> [] -> Forall is_dec ds -> scalar (numeral 10 ds) ->
       read ([60] ++ name ++ [62] ++ spelled (Dec ds) ++ [60; 47] ++ name ++ [62]) = Ok (Node xml [] [] [Node name [] (utf8 (numeral 10 ds)) []])).
Proof.
  intros H. specialize (H [97] [49; 49; 49; 52; 49; 49; 49]). vm_compute in H.
  assert (E : Ok (Node [120; 109; 108] [] [] [Node [97] [] [] []]) = Ok (Node [120; 109; 108] [] [] [Node [97] [] [244; 143; 191; 191] []])); [|discriminate E].
  apply H.
  - apply (sample_good_name 97). lia.
  - discriminate.
  - repeat constructor; discriminate.
  - right. split; discriminate.
Qed.
Print Assumptions C104_XML_entities_refuted.
