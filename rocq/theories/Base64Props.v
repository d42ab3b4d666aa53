(* Properties C10 and C11: Base64Encode / Base64Decode. *)
From Coq Require Import List ZArith Bool Lia.
From Coq Require Import ZifyBool ZifyNat.
From Verif Require Import Common Base64 Base64Spec Base64Proofs.
Import ListNotations.
Local Open Scope Z_scope.

(* ================= C10 ================= *)
(* encoding succeeds, writes exactly the announced number of characters, decoding them
   (with the announced number of bytes) gives the bytes back *)
Theorem C10_Base64_roundtrip :
  forall l, Forall is_byte l ->
  exists t, Base64Encode l (length l) = Ok t /\
    length t = enc_size (length l) /\
    Base64Decode t (length t) = Ok l /\
    dec_size (length t) = length l.
Proof.
  intros l Hl. exists (encf l). destruct (roundtrip_f l Hl) as [R1 R2].
  assert (Hm : (length (encf l) mod 4 <> 1)%nat) by (rewrite encf_length; apply enc_size_mod).
  split; [now apply Base64Encode_ok|]. split; [apply encf_length|].
  split; [rewrite Base64Decode_ok by auto; now rewrite R1|].
  rewrite <- decf_length by auto. now rewrite R1.
Qed.
Print Assumptions C10_Base64_roundtrip.

Theorem C10_Base64_injective :
  forall l1 l2 t, Forall is_byte l1 -> Forall is_byte l2 ->
  Base64Encode l1 (length l1) = Ok t -> Base64Encode l2 (length l2) = Ok t -> l1 = l2.
Proof.
  intros l1 l2 t H1 H2 E1 E2.
  destruct (C10_Base64_roundtrip l1 H1) as (t1 & A1 & _ & D1 & _).
  destruct (C10_Base64_roundtrip l2 H2) as (t2 & A2 & _ & D2 & _).
  rewrite E1 in A1. rewrite E2 in A2. inversion A1; inversion A2; subst. congruence.
Qed.
Print Assumptions C10_Base64_injective.

(* what is written is the standard url-safe base-64 text of the bytes *)
Lemma digit_ch x : 0 <= x < 64 -> digit (ch x) x.
Proof.
  intros H. split; [lia|]. change alphabet with code. unfold ch.
  apply nth_error_nth'. change (length code) with 64%nat. lia.
Qed.

Ltac bitrw := cbn [bits concat map app repeat]; cbn [Z.of_nat Pos.of_succ_nat Pos.succ];
  rewrite ?Z.lor_spec, ?Z.shiftl_spec, ?Z.shiftr_spec, ?Z.land_spec by lia.

Lemma tb_hi b i k : 0 <= b < 2 ^ k -> 0 <= k <= i -> Z.testbit b i = false.
Proof.
  intros H Hk. destruct (Z.eq_dec b 0) as [->|]; [apply Z.bits_0|].
  apply Z.bits_above_log2; [lia|]. assert (Z.log2 b < k) by (apply Z.log2_lt_pow2; lia). lia.
Qed.

Lemma g1 a : 0 <= a < 256 -> bits 6 (a / 4) = firstn 6 (bits 8 a).
Proof.
  intros H. change (a / 4) with (a / 2 ^ 2). rewrite <- Z.shiftr_div_pow2 by lia. cbn [bits firstn].
  rewrite !Z.shiftr_spec by lia. reflexivity.
Qed.
Lemma g2 a b : 0 <= a < 256 -> 0 <= b < 256 ->
  bits 6 (a mod 4 * 16 + b / 16) = skipn 6 (bits 8 a) ++ firstn 4 (bits 8 b).
Proof.
  intros Ha Hb. rewrite <- lor16 by lia. rewrite <- bits3, <- bits240 by auto. cbn [bits firstn skipn app].
  rewrite !Z.lor_spec, !Z.shiftr_spec, !Z.shiftl_spec, !Z.land_spec by lia.
  cbn. rewrite ?andb_true_r, ?andb_false_r, ?orb_false_r, ?orb_false_l. reflexivity.
Qed.
Lemma g3 a b : 0 <= a < 256 -> 0 <= b < 256 ->
  bits 6 (a mod 16 * 4 + b / 64) = skipn 4 (bits 8 a) ++ firstn 2 (bits 8 b).
Proof.
  intros Ha Hb. rewrite <- lor4 by lia. rewrite <- bits15, <- bits192 by auto. cbn [bits firstn skipn app].
  rewrite !Z.lor_spec, !Z.shiftr_spec, !Z.shiftl_spec, !Z.land_spec by lia.
  cbn. rewrite ?andb_true_r, ?andb_false_r, ?orb_false_r, ?orb_false_l. reflexivity.
Qed.
Lemma g4 a : bits 6 (a mod 64) = skipn 2 (bits 8 a).
Proof.
  rewrite <- bits63. cbn [bits skipn]. rewrite !Z.land_spec. cbn. rewrite !andb_true_r. reflexivity.
Qed.

Lemma encf_vals l : Forall is_byte l -> base64_of l (encf l).
Proof.
  assert (G : forall n l, (length l <= n)%nat -> Forall is_byte l -> base64_of l (encf l)).
  { induction n as [|n IH]; intros l0 Hn Hl.
    - destruct l0; [|cbn in Hn; lia]. exists [], 0%nat. repeat split; [constructor|lia].
    - destruct l0 as [|a [|b [|c r]]].
      + exists [], 0%nat. repeat split; [constructor|lia].
      + inversion Hl as [|? ? Ha _]; subst. unfold is_byte in Ha.
        exists [a / 4; a mod 4 * 16], 4%nat. split; [cbn [encf]; repeat (constructor; [apply digit_ch; lia|]); constructor|].
        split; [lia|]. cbn [map concat]. replace (a mod 4 * 16) with (a mod 4 * 16 + 0 / 16) by (rewrite Z.div_0_l; lia).
        rewrite g1, g2 by lia. reflexivity.
      + inversion Hl as [|? ? Ha Hl1]; subst. inversion Hl1 as [|? ? Hb _]; subst. unfold is_byte in *.
        exists [a / 4; a mod 4 * 16 + b / 16; b mod 16 * 4], 2%nat.
        split; [|split; [lia|]].
        { cbn [encf]. repeat (constructor; [apply digit_ch; lia|]). constructor. }
        cbn [map concat]. replace (b mod 16 * 4) with (b mod 16 * 4 + 0 / 64) by (rewrite Z.div_0_l; lia).
        rewrite g1, g2, g3 by lia. reflexivity.
      + inversion Hl as [|? ? Ha Hl1]; subst. inversion Hl1 as [|? ? Hb Hl2]; subst.
        inversion Hl2 as [|? ? Hc Hl3]; subst. unfold is_byte in Ha, Hb, Hc.
        cbn in Hn. destruct (IH r) as (vs & pad & F & P & E); [lia|auto|].
        exists (a / 4 :: a mod 4 * 16 + b / 16 :: b mod 16 * 4 + c / 64 :: c mod 64 :: vs), pad.
        split; [|split; [lia|]].
        { cbn [encf]. repeat (constructor; [apply digit_ch; lia|]). exact F. }
        cbn [map concat]. rewrite E, g1, g2, g3, g4 by lia. reflexivity. }
  intros Hl. exact (G (length l) l (le_n _) Hl).
Qed.

Theorem C10_Base64_standard :
  forall l t, Forall is_byte l -> Base64Encode l (length l) = Ok t -> base64_of l t.
Proof.
  intros l t Hl E. rewrite Base64Encode_ok in E by auto. inversion E. now apply encf_vals.
Qed.
Print Assumptions C10_Base64_standard.

Example C10_example : (* bytes 0,255,16,131 and "M" *)
  Base64Encode [0; 255; 16; 131; 77] 5 = Ok [65; 80; 56; 81; 103; 48; 48] /\
  Base64Decode [65; 80; 56; 81; 103; 48; 48] 7 = Ok [0; 255; 16; 131; 77] /\
  Forall is_byte [0; 255; 16; 131; 77].
Proof. repeat split; try (vm_compute; reflexivity). repeat constructor; cbv; congruence. Qed.

(* ================= C11 ================= *)
(* every text over the alphabet is decoded without undefined behaviour and with exactly the
   announced number of bytes, each of them a byte *)
Lemma alpha_inrange c v : digit c v -> inrange c.
Proof.
  intros [H0 H]. assert (Hc : In c alphabet) by (eapply nth_error_In; eauto).
  assert (A : forallb (fun c => (45 <=? c) && (c <=? 122)) alphabet = true) by (vm_compute; reflexivity).
  rewrite forallb_forall in A. specialize (A c Hc). unfold inrange. lia.
Qed.

Lemma decf_bytes l : Forall is_byte (decf l).
Proof.
  assert (G : forall n l, (length l <= n)%nat -> Forall is_byte (decf l)).
  { induction n as [|n IH]; intros l0 Hn.
    - destruct l0; [constructor|cbn in Hn; lia].
    - assert (B0 : forall x y, is_byte (d0 x y)) by (intros; unfold is_byte, d0; lia).
      assert (B1 : forall x y, is_byte (d1 x y)) by (intros; unfold is_byte, d1; lia).
      assert (B2 : forall x y, is_byte (d2 x y)) by (intros; unfold is_byte, d2; lia).
      destruct l0 as [|a [|b [|c [|d r]]]]; cbn [decf]; repeat (apply Forall_cons; [auto; fail|]); try apply Forall_nil.
      apply IH. cbn in Hn. lia. }
  exact (G (length l) l (le_n _)).
Qed.

Theorem C11_Base64Decode_total :
  forall t, Forall (fun c => exists v, digit c v) t ->
  exists l, Base64Decode t (length t) = Ok l /\ length l = dec_size (length t) /\ Forall is_byte l.
Proof.
  intros t Ht. assert (Hr : Forall inrange t).
  { eapply Forall_impl; [|exact Ht]. intros c [v Hv]. eapply alpha_inrange; eauto. }
  destruct (Nat.eq_dec (length t mod 4) 1) as [E|E].
  - exists []. unfold Base64Decode, dec_size. rewrite E. repeat split. constructor.
  - exists (decf t). rewrite Base64Decode_ok by auto. split; [reflexivity|].
    split; [now apply decf_length|]. apply decf_bytes.
Qed.
Print Assumptions C11_Base64Decode_total.

(* exactly: no undefined behaviour iff every character lies in ['-','z'] (45..122), unless
   the length is refused outright, in which case nothing is written *)
Theorem C11_Base64Decode_exact :
  forall t,
  ((length t mod 4 = 1)%nat -> Base64Decode t (length t) = Ok []) /\
  ((length t mod 4 <> 1)%nat ->
     (Forall (fun c => 45 <= c <= 122) t ->
        exists l, Base64Decode t (length t) = Ok l /\ length l = dec_size (length t)) /\
     (Exists (fun c => ~ (45 <= c <= 122)) t -> Base64Decode t (length t) = UB)).
Proof.
  intros t. split; [|intros Hm; split].
  - intros H. unfold Base64Decode. now rewrite H.
  - intros H. exists (decf t). split; [now apply Base64Decode_ok|now apply decf_length].
  - intros H. apply Base64Decode_out; auto. intros F. apply Exists_exists in H.
    destruct H as (x & Hx & Hn). rewrite Forall_forall in F. exact (Hn (F x Hx)).
Qed.
Print Assumptions C11_Base64Decode_exact.

Example C11_example : (* "A_-z9" is refused, "A_-z9a" decodes to 4 bytes, '+' is out of the table *)
  Base64Decode [65; 95; 45; 122; 57] 5 = Ok [] /\
  Base64Decode [65; 95; 45; 122; 57; 97] 6 = Ok [3; 255; 179; 245] /\
  Base64Decode [65; 43] 2 = UB.
Proof. vm_compute. auto. Qed.
