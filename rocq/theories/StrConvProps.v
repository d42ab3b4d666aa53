(* Converting between Str and strings of char32_t. *)
From Coq Require Import List ZArith Bool Lia Arith.
From Coq Require Import ZifyBool ZifyNat.
From Verif Require Import Common UtfSpec Utf UtfProofs UtfProps StrConv.
Import ListNotations.
Local Open Scope Z_scope.

Lemma resize_drop l x : resize (l ++ [x]) (length l) = l.
Proof. unfold resize. rewrite app_length. replace (length l <=? length l + length [x])%nat with true by (cbn; lia). now rewrite firstn_app, firstn_all, Nat.sub_diag, app_nil_r. Qed.
Lemma keep l n : (length l <= n)%nat -> firstn n (l ++ repeat 0 n) = l ++ repeat 0 (n - length l).
Proof. intros L. rewrite firstn_app, firstn_all2 by lia. f_equal. assert (H : forall k m, (k <= m)%nat -> firstn k (repeat 0 m) = repeat 0 k).
  { induction k as [|k IH]; intros [|m] K; try lia; cbn; [reflexivity..|]. f_equal. apply IH. lia. } apply H. lia. Qed.
Lemma conv_text conv slack src len out : conv src len None = Ok ([], (length out + 1)%nat) ->
  conv src len (Some (length out + 1 + slack)%nat) = Ok (out ++ [0], (length out + 1)%nat) -> convStr conv slack src len = Ok (Some out).
Proof.
  intros E1 E2. unfold convStr. rewrite E1. cbn [bind]. rewrite E2. cbn [bind]. rewrite Nat.add_1_r. do 2 f_equal. rewrite keep by (rewrite app_length; cbn; lia).
  rewrite app_length, Nat.add_1_r, Nat.sub_diag, app_nil_r. apply resize_drop.
Qed.

(** A text that can be in memory: not so long that a ptrdiff_t cannot count it. *)
Definition fits (n : nat) : Prop := Z.of_nat n < 2 ^ 63 - 1.
(** Up to the terminator, and from a whole string, the conversion gives the UTF-8 form, and back the text: whatever is behind the terminator and
    however much space the string takes. *)
Theorem C186_convert_partial : forall cps rest slack, text cps -> fits (length (flat_map utf8 cps)) -> fits (length cps) ->
  str_of_u32 slack (cps ++ 0 :: rest) = Ok (Some (flat_map utf8 cps)) /\ str_of_StrT32 slack cps = Ok (Some (flat_map utf8 cps)) /\
  u32_of_str slack (flat_map utf8 cps ++ 0 :: rest) = Ok (Some cps) /\ StrT32_of_str slack (flat_map utf8 cps) = Ok (Some cps).
Proof.
  intros cps rest slack Ht F8 F. unfold fits in *. split; [|split; [|split]]; apply conv_text.
  - apply (u32to8_text cps rest (-1) (length (flat_map utf8 cps) + 1) Ht); [left; lia|apply le_n].
  - apply (u32to8_text cps rest (-1) _ Ht); [left; lia|lia].
  - apply (u32to8_text cps [] _ (length (flat_map utf8 cps) + 1) Ht); [right; lia|apply le_n].
  - apply (u32to8_text cps [] _ _ Ht); [right; lia|lia].
  - apply (u8to32_text cps rest (-1) (length (cps) + 1) Ht); [left; lia|apply le_n].
  - apply (u8to32_text cps rest (-1) _ Ht); [left; lia|lia].
  - apply (u8to32_text cps [] _ (length (cps) + 1) Ht); [right; lia|apply le_n].
  - apply (u8to32_text cps [] _ _ Ht); [right; lia|lia].
Qed.
Print Assumptions C186_convert_partial.

Lemma total_bytes8 : forall cps, Forall (fun c => 0 <= c <= 0x10FFFF) cps -> total u32to8_weight cps = length (flat_map utf8 cps).
Proof. intros. now rewrite total_len8. Qed.
(** With a count every text loses its last byte, or its last char in the other direction; with a count of zero the constructor throws. *)
Theorem C186_count_refuted :
  (forall cps x rest slack, text cps -> cps <> [] ->
     str_of_u32_count slack (cps ++ x :: rest) (length cps) = Ok (Some (removelast (flat_map utf8 cps))) /\
     u32_of_str_count slack (flat_map utf8 cps ++ x :: rest) (length (flat_map utf8 cps)) = Ok (Some (removelast cps))) /\
  (forall text slack, str_of_u32_count slack text 0 = Ok None /\ u32_of_str_count slack text 0 = Ok None) /\
  ~ (forall cps x rest slack, text cps -> str_of_u32_count slack (cps ++ x :: rest) (length cps) = Ok (Some (flat_map utf8 cps))).
Proof.
  assert (A : forall cps x rest slack, text cps -> cps <> [] -> str_of_u32_count slack (cps ++ x :: rest) (length cps) = Ok (Some (removelast (flat_map utf8 cps)))).
  { intros cps x rest slack Ht NE. unfold str_of_u32_count, convStr, UTF32toUTF8. assert (L : (0 < length cps)%nat) by (destruct cps; [congruence|cbn; lia]).
    rewrite !srclen_nz by lia. unfold limit. replace (Z.of_nat (length cps) <? 0) with false by lia.
    pose proof (scan_ok u32to8_weight (Z.of_nat (length cps)) cps [] x rest (S (length (cps ++ x :: rest))) 1 (text_nz _ Ht)) as G. cbn [length app Nat.add] in G.
    rewrite G; [|lia|now right|rewrite app_length; cbn; lia]. clear G. cbn [bind fst snd]. unfold source_end. replace (Z.of_nat (length cps) <? Z.of_nat (length cps)) with false by lia. rewrite Nat2Z.id.
    rewrite (total_bytes8 cps) by (now apply text_range). set (b := flat_map utf8 cps).
    pose proof (u32to8_loop_ok (S (length b) + slack) cps [] (x :: rest) (S (length (cps ++ x :: rest))) [] (text_range _ Ht)) as G. cbn [length app Nat.add] in G. fold b in G.
    cbn [Nat.add]. rewrite G; [|rewrite app_length; lia|lia]. rewrite ?srclen_nz by lia. cbn [bind]. rewrite keep by lia. assert (B : b <> []).
    { unfold b. destruct cps as [|c cps]; [congruence|]. cbn [flat_map]. destruct (trailing_utf8 c) as (fb & r & E & _); [inversion Ht as [|? ? [Sc _] _]; unfold scalar in Sc; lia|]. rewrite E. discriminate. }
    destruct (exists_last B) as (b' & z & ->). rewrite removelast_last, app_length, Nat.add_1_r. do 2 f_equal. unfold resize. rewrite <- app_assoc, !app_length. 
    replace (length b' <=? _)%nat with true by (rewrite ?repeat_length; cbn; lia). rewrite firstn_app, firstn_all, Nat.sub_diag, firstn_O. apply app_nil_r. }
  split; [|split].
  - intros cps x rest slack Ht NE. split; [apply A; assumption|]. unfold u32_of_str_count, convStr, UTF8toUTF32. set (b := flat_map utf8 cps).
    assert (L : (0 < length b)%nat). { unfold b. destruct cps as [|c cps]; [congruence|]. cbn [flat_map]. destruct (trailing_utf8 c) as (fb & r & E & _); [inversion Ht as [|? ? [Sc _] _]; unfold scalar in Sc; lia|]. rewrite E. cbn. lia. }
    rewrite !srclen_nz by lia. unfold limit. replace (Z.of_nat (length b) <? 0) with false by lia.
    pose proof (scan_ok u8to32_weight (Z.of_nat (length b)) b [] x rest (S (length (b ++ x :: rest))) 1 (text_utf8_nz _ Ht)) as G. cbn [length app Nat.add] in G.
    rewrite G; [|lia|now right|rewrite app_length; cbn; lia]. clear G. cbn [bind fst snd]. unfold source_end. replace (Z.of_nat (length b) <? Z.of_nat (length b)) with false by lia. rewrite Nat2Z.id.
    assert (Tb : total u8to32_weight b = length cps) by (apply total_flat; now apply text_range). rewrite Tb.
    assert (Lb : (length cps <= length b)%nat).
    { unfold b. clear -Ht. induction Ht as [|c l [Sc _] Hl IH]; [auto|]. cbn [flat_map length]. rewrite app_length. destruct (trailing_utf8 c) as (fb & r & E & _); [unfold scalar in Sc; lia|]. rewrite E. cbn. lia. }
    pose proof (u8to32_loop_ok (S (length cps) + slack) cps [] (x :: rest) (S (length (b ++ x :: rest))) [] (text_scalar _ Ht)) as G. cbn [length app Nat.add] in G. fold b in G.
    cbn [Nat.add]. rewrite G; [|rewrite app_length; lia|lia]. rewrite ?srclen_nz by lia. cbn [bind]. rewrite keep by lia.
    destruct (exists_last NE) as (c' & z & ->). rewrite removelast_last, app_length, Nat.add_1_r. do 2 f_equal. unfold resize. rewrite <- app_assoc, !app_length.
    replace (length c' <=? _)%nat with true by (rewrite ?repeat_length; cbn; lia). rewrite firstn_app, firstn_all, Nat.sub_diag, firstn_O. apply app_nil_r.
  - split; reflexivity.
  - intros H. assert (Ht : text [97]) by (repeat constructor; unfold scalar; lia). specialize (H [97] 0 [] 0%nat Ht). rewrite (A [97] 0 [] 0%nat Ht ltac:(discriminate)) in H. discriminate.
Qed.
Print Assumptions C186_count_refuted.

(** A text of bytes that begins with a byte that begins no char, instead of giving a string, throws. *)
Theorem C186_invalid_refuted : forall b bytes rest slack, (0x80 <= b < 0xC0 \/ 0xF8 <= b < 0x100) -> Forall (fun c => c <> 0) bytes -> fits (S (length bytes)) ->
  u32_of_str slack (b :: bytes ++ 0 :: rest) = Ok None.
Proof.
  intros b bytes rest slack B Nz F. unfold u32_of_str, convStr, UTF8toUTF32. rewrite !srclen_nz by lia. change (b :: bytes ++ 0 :: rest) with ((b :: bytes) ++ 0 :: rest).
  rewrite scan_text; [|left; split; [lia|exact F]|constructor; [lia|exact Nz]]. cbn [bind fst snd]. set (src := (b :: bytes) ++ 0 :: rest).
  set (e := source_end _ _). set (cap := (_ + slack)%nat).
  assert (E : u8to32_loop (S (length src)) src 0 e cap [] = Ok []).
  { cbn [u8to32_loop]. destruct (0 <? e)%nat; [|reflexivity]. change (get src 0) with (Ok b). cbn [bind].
    destruct (Nat.leb (e - 0) (trailingBytes b)); [reflexivity|].
    assert (X : isLegalUTF8 src 0 (trailingBytes b + 1) = Ok false).
    { unfold isLegalUTF8. change (get src 0) with (Ok b). cbn [bind]. unfold trailingBytes.
      destruct B as [B|B].
      - replace (b <? 0xC0) with true by lia. cbn [Nat.add]. replace (0x80 <=? b) with true by lia. replace (b <? 0xC2) with true by lia. reflexivity.
      - replace (b <? 0xC0) with false by lia. replace (b <? 0xE0) with false by lia. replace (b <? 0xF0) with false by lia. replace (b <? 0xF8) with false by lia. destruct (b <? 0xFC); reflexivity. }
    rewrite X. reflexivity. }
  rewrite E. reflexivity.
Qed.
Print Assumptions C186_invalid_refuted.

Example C186_example : text [97; 0x20AC] /\ str_of_u32 5 [97; 0x20AC; 0; 7] = Ok (Some [97; 0xE2; 0x82; 0xAC]) /\ StrT32_of_str 0 [97; 0xE2; 0x82; 0xAC] = Ok (Some [97; 0x20AC]) /\
  str_of_u32_count 0 [97; 0x20AC; 0] 2 = Ok (Some [97; 0xE2; 0x82]).
Proof. split; [repeat constructor; unfold scalar; lia|]. split; [reflexivity|]. split; reflexivity. Qed.
