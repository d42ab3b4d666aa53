(* Property C15: a BitStream returns the bits that were written. *)
From Coq Require Import List ZArith Bool Lia Arith.
From Coq Require Import ZifyBool ZifyNat.
From Verif Require Import Common BitStreamSpec BitStream BitStreamProofs.
Import ListNotations.
Local Open Scope Z_scope.

(* a Write of n bits from memory d *)
Definition good_write (p : list Z * nat) : Prop := bytes (fst p) /\ (snd p <= 8 * length (fst p))%nat.
(* the bits it writes *)
Definition written (p : list Z * nat) : list bool := firstn (snd p) (mem_bits (fst p)).

(* The bytes emitted are the concatenation of the written bits, filled up with zero bits to whole bytes. *)
Theorem C15_Write_concatenation :
  forall l, Forall good_write l ->
  exists s, write_all writer0 l = Ok s /\ bytes (wbase s) /\
    exists pad, (pad < 8)%nat /\ mem_bits (wbase s) = flat_map written l ++ repeat false pad.
Proof.
  intros l Hl. destruct (write_all_ok l writer0) as (s & E & B & M); auto.
  { repeat split; cbn; try lia. constructor. }
  exists s. split; auto. split; auto. rewrite M. unfold padded. eexists. split; [|reflexivity]. apply Nat.mod_upper_bound. lia.
Qed.
Print Assumptions C15_Write_concatenation.

Lemma read_all_ok : forall l s tail, rinv s -> Forall good_write l -> rest s = flat_map written l ++ tail ->
  exists r, read_all s (map (fun p => (repeat 0 (length (fst p)), snd p)) l) = Ok r /\
    Forall2 (fun p d => bytes d /\ length d = length (fst p) /\
      mem_bits d = written p ++ repeat false (8 * length (fst p) - snd p)) l r.
Proof.
  induction l as [|[src n] l IH]; intros s tail Hs Hl Hr; cbn [map read_all].
  - exists []. auto.
  - inversion Hl as [|? ? [H1 H2] H3]; subst. cbn [fst snd flat_map] in *. unfold written in Hr at 1. cbn [fst snd] in Hr.
    assert (Ln : length (firstn n (mem_bits src)) = n) by (rewrite firstn_length, mem_bits_length; lia).
    destruct (Read_ok s (length src) n Hs H2) as (d & s' & -> & B & L & M & R & I).
    { rewrite Hr, !app_length, Ln. lia. }
    cbn [bind]. rewrite <- app_assoc in Hr.
    destruct (IH s' tail I H3) as (r & -> & F).
    { rewrite R, Hr, skipn_app, Ln, Nat.sub_diag, skipn_all2 by lia. reflexivity. }
    cbn [bind]. exists (d :: r). split; auto. constructor; auto. cbn [fst snd]. split; auto. split; auto.
    rewrite M, Hr, firstn_app, Ln, Nat.sub_diag. rewrite firstn_all2 by lia. cbn [firstn]. rewrite app_nil_r. reflexivity.
Qed.

(* Reading back with the same widths into zeroed destinations of the same sizes gives, for every
   write in order, memory holding exactly the written bits and zeros above them.  Whatever other
   bytes follow in the stream does not matter. *)
Theorem C15_roundtrip :
  forall l trailing, Forall good_write l -> bytes trailing ->
  exists s r, write_all writer0 l = Ok s /\
    read_all (reader0 (wbase s ++ trailing)) (map (fun p => (repeat 0 (length (fst p)), snd p)) l) = Ok r /\
    Forall2 (fun p d => bytes d /\ length d = length (fst p) /\
      mem_bits d = written p ++ repeat false (8 * length (fst p) - snd p)) l r.
Proof.
  intros l tr Hl Ht. destruct (C15_Write_concatenation l Hl) as (s & E & B & pad & _ & M).
  destruct (read_all_ok l (reader0 (wbase s ++ tr)) (repeat false pad ++ mem_bits tr)) as (r & E' & F); auto.
  { split; cbn; [lia|]. apply Forall_app. auto. }
  { unfold rest. cbn [roff rpos rbase reader0 Z.to_nat skipn]. rewrite mem_bits_app, M, <- app_assoc. reflexivity. }
  exists s, r. auto.
Qed.
Print Assumptions C15_roundtrip.

(* In particular sources without bits above the written width come back byte for byte. *)
Theorem C15_roundtrip_values :
  forall l trailing, Forall good_write l -> bytes trailing ->
  Forall (fun p => skipn (snd p) (mem_bits (fst p)) = repeat false (8 * length (fst p) - snd p)) l ->
  exists s, write_all writer0 l = Ok s /\
    read_all (reader0 (wbase s ++ trailing)) (map (fun p => (repeat 0 (length (fst p)), snd p)) l) = Ok (map fst l).
Proof.
  intros l tr Hl Ht Hz. destruct (C15_roundtrip l tr Hl Ht) as (s & r & E & E' & F). exists s. split; auto. rewrite E'. f_equal.
  clear E E'. induction F as [|p d l r (B & L & M) F IH]; auto. inversion Hl; inversion Hz; subst. cbn [map]. f_equal; auto.
  apply mem_bits_inj; auto; [apply H1|]. rewrite M, <- H5. unfold written. apply firstn_skipn.
Qed.
Print Assumptions C15_roundtrip_values.

(* The zeroed destination is needed: a partial byte is or-ed into what the destination held. *)
Theorem C15_dirty_destination :
  exists s r, write_all writer0 [([1], 3%nat)] = Ok s /\
    read_all (reader0 (wbase s)) [([6], 3%nat)] = Ok r /\ r <> [[1]].
Proof. eexists _, _. split; [vm_compute; reflexivity|]. split; [vm_compute; reflexivity|]. discriminate. Qed.

Example C15_example :
  let l := [([0x2A], 6%nat); ([0x34; 0x12], 16%nat); ([1], 1%nat); ([0xCD; 0x0B], 12%nat); ([0x7F], 8%nat)] in
  Forall good_write l /\
  (exists s, write_all writer0 l = Ok s /\ wbase s = [0x2A; 0x8D; 0xC4; 0xE6; 0xFD; 0x03] /\
    read_all (reader0 (wbase s)) (map (fun p => (repeat 0 (length (fst p)), snd p)) l) = Ok (map fst l)).
Proof.
  split.
  - repeat constructor; cbn; lia.
  - eexists. split; [vm_compute; reflexivity|]. split; vm_compute; reflexivity.
Qed.
