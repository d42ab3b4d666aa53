(* Properties C12, C13 and C14: the UTF converters. *)
From Coq Require Import List ZArith Bool Lia Arith.
From Coq Require Import ZifyBool ZifyNat.
From Verif Require Import Common UtfSpec Utf UtfProofs.
Import ListNotations.
Local Open Scope Z_scope.

(* a code point that may occur inside a null-terminated string *)
Definition text (cps : list Z) : Prop := Forall (fun c => scalar c /\ c <> 0) cps.

Lemma text_range cps : text cps -> Forall (fun c => 0 <= c <= 0x10FFFF) cps.
Proof. apply Forall_impl. unfold scalar. intros c [H _]. lia. Qed.
Lemma text_nz cps : text cps -> Forall (fun c => c <> 0) cps.
Proof. apply Forall_impl. tauto. Qed.
Lemma text_scalar cps : text cps -> Forall scalar cps.
Proof. apply Forall_impl. tauto. Qed.
Lemma text_utf8_nz cps : text cps -> Forall (fun c => c <> 0) (flat_map utf8 cps).
Proof.
  induction 1 as [|c cps [H1 H2] H IH]; [constructor|]. cbn [flat_map]. apply Forall_app. split; auto.
  apply utf8_nonzero. unfold scalar in H1. lia.
Qed.
Lemma scalar0 : scalar 0.
Proof. unfold scalar. lia. Qed.

(* the length argument reaches at least the terminator behind n units *)
Definition reaches (srclen : Z) (n : nat) : Prop := srclen < 0 /\ Z.of_nat n < 2 ^ 63 - 1 \/ Z.of_nat n < srclen.

Lemma reaches_lim srclen n : reaches srclen n -> srclen <> 0 /\ Z.of_nat n < limit srclen.
Proof.
  unfold reaches, limit, PTRDIFF_MAX. destruct (Z.ltb_spec srclen 0); lia.
Qed.

Lemma srclen_nz srclen {A} (x y : A) : srclen <> 0 -> (if srclen =? 0 then x else y) = y.
Proof. intros. destruct (Z.eqb_spec srclen 0); congruence. Qed.

Lemma scan_text w srclen us rest : reaches srclen (length us) -> Forall (fun c => c <> 0) us ->
  scan (S (length (us ++ 0 :: rest))) w (us ++ 0 :: rest) (limit srclen) 0 1 = Ok (length us, (1 + total w us)%nat).
Proof.
  intros Hr Hnz. destruct (reaches_lim _ _ Hr).
  pose proof (scan_ok w (limit srclen) us [] 0 rest (S (length (us ++ 0 :: rest))) 1 Hnz) as G. cbn [length app Nat.add] in G.
  apply G; [lia|now left|]. rewrite app_length. cbn. lia.
Qed.

Lemma source_end_text srclen n : reaches srclen n -> source_end (limit srclen) n = S n.
Proof. intros H. destruct (reaches_lim _ _ H). unfold source_end. destruct (Z.ltb_spec (Z.of_nat n) (limit srclen)); [auto|lia]. Qed.

Lemma u32to8_text cps rest srclen cap : text cps -> reaches srclen (length cps) ->
  (length (flat_map utf8 cps) + 1 <= cap)%nat ->
  UTF32toUTF8 (cps ++ 0 :: rest) srclen None = Ok ([], (length (flat_map utf8 cps) + 1)%nat) /\
  UTF32toUTF8 (cps ++ 0 :: rest) srclen (Some cap) = Ok (flat_map utf8 cps ++ [0], (length (flat_map utf8 cps) + 1)%nat).
Proof.
  intros Ht Hr Hcap. unfold UTF32toUTF8. destruct (reaches_lim _ _ Hr) as [Hz Hl]. rewrite !srclen_nz by auto.
  rewrite scan_text by (auto using text_nz). cbn [bind fst snd]. rewrite total_len8 by (now apply text_range).
  rewrite source_end_text by auto. split; [do 2 f_equal; lia|].
  pose proof (u32to8_loop_ok cap (cps ++ [0]) [] rest (S (length (cps ++ 0 :: rest))) []) as G. cbn [length app Nat.add] in G.
  rewrite <- app_assoc in G. cbn [app] in G.
  replace (S (length cps)) with (length (cps ++ [0])) by (rewrite app_length; cbn; lia).
  assert (E : flat_map utf8 (cps ++ [0]) = flat_map utf8 cps ++ [0]) by (rewrite flat_map_app; reflexivity).
  rewrite G; rewrite ?E.
  - cbn [bind]. rewrite app_length. reflexivity.
  - apply Forall_app. split; [now apply text_range|]. constructor; [lia|constructor].
  - rewrite !app_length. cbn. lia.
  - rewrite app_length. cbn. lia.
Qed.

Lemma u8to32_text cps rest srclen cap : text cps -> reaches srclen (length (flat_map utf8 cps)) ->
  (length cps + 1 <= cap)%nat ->
  UTF8toUTF32 (flat_map utf8 cps ++ 0 :: rest) srclen None = Ok ([], (length cps + 1)%nat) /\
  UTF8toUTF32 (flat_map utf8 cps ++ 0 :: rest) srclen (Some cap) = Ok (cps ++ [0], (length cps + 1)%nat).
Proof.
  intros Ht Hr Hcap. unfold UTF8toUTF32. destruct (reaches_lim _ _ Hr) as [Hz Hl]. rewrite !srclen_nz by auto.
  rewrite scan_text by (auto using text_utf8_nz). cbn [bind fst snd]. rewrite total_flat by (now apply text_range).
  rewrite source_end_text by auto. split; [do 2 f_equal; lia|].
  pose proof (u8to32_loop_ok cap (cps ++ [0]) [] rest (S (length (flat_map utf8 cps ++ 0 :: rest))) []) as G. cbn [length app Nat.add] in G.
  assert (E : flat_map utf8 (cps ++ [0]) = flat_map utf8 cps ++ [0]) by (rewrite flat_map_app; reflexivity).
  rewrite E in G. rewrite <- app_assoc in G. cbn [app] in G.
  replace (S (length (flat_map utf8 cps))) with (length (flat_map utf8 cps ++ [0])) by (rewrite app_length; cbn; lia).
  assert (Lle : forall l, (length l <= length (flat_map utf8 l))%nat).
  { induction l as [|c l IH]; auto. cbn [flat_map length]. rewrite app_length. assert (1 <= length (utf8 c))%nat; [|lia].
    unfold utf8. destruct (c <? 128), (c <? 2048), (c <? 65536); cbn; lia. }
  rewrite G.
  - cbn [bind]. rewrite app_length. reflexivity.
  - apply Forall_app. split; [now apply text_scalar|]. constructor; [apply scalar0|constructor].
  - rewrite !app_length. cbn. specialize (Lle cps). lia.
  - rewrite app_length. cbn. lia.
Qed.

(* UTF-32 -> UTF-8 announces and writes exactly the standard form plus the terminator, and
   UTF-8 -> UTF-32 announces and recovers the original; whatever follows the terminators in memory,
   with a negative length or any explicit length that covers the terminator. *)
Theorem C12_UTF8_roundtrip :
  forall cps rest rest' len len' cap cap',
  text cps -> reaches len (length cps) -> reaches len' (length (flat_map utf8 cps)) ->
  exists n n',
    UTF32toUTF8 (cps ++ 0 :: rest) len None = Ok ([], n) /\
    ((n <= cap)%nat -> UTF32toUTF8 (cps ++ 0 :: rest) len (Some cap) = Ok (flat_map utf8 cps ++ [0], n)) /\
    length (flat_map utf8 cps ++ [0]) = n /\
    UTF8toUTF32 (flat_map utf8 cps ++ 0 :: rest') len' None = Ok ([], n') /\
    ((n' <= cap')%nat -> UTF8toUTF32 (flat_map utf8 cps ++ 0 :: rest') len' (Some cap') = Ok (cps ++ [0], n')) /\
    n' = length (cps ++ [0]).
Proof.
  intros cps rest rest' len len' cap cap' Ht H1 H2.
  exists (length (flat_map utf8 cps) + 1)%nat, (length cps + 1)%nat. rewrite !app_length. cbn [length].
  destruct (u32to8_text cps rest len (length (flat_map utf8 cps) + 1) Ht H1) as [E1 _]; [lia|].
  destruct (u8to32_text cps rest' len' (length cps + 1) Ht H2) as [E2 _]; [lia|].
  split; auto. split; [intros; apply u32to8_text; auto|]. split; auto. split; auto. split; [intros; apply u8to32_text; auto|auto].
Qed.
Print Assumptions C12_UTF8_roundtrip.

Lemma utf16_nz cps : text cps -> Forall (fun c => c <> 0) (flat_map utf16 cps).
Proof.
  induction 1 as [|c cps [H1 H2] H IH]; [constructor|]. cbn [flat_map]. apply Forall_app. split; auto.
  unfold scalar in H1. unfold utf16. destruct (Z.ltb_spec c 65536); repeat (apply Forall_cons; [lia|]); constructor.
Qed.

Lemma u32to16_text cps rest srclen cap : text cps -> reaches srclen (length cps) ->
  (length (flat_map utf16 cps) + 1 <= cap)%nat ->
  UTF32toUTF16 (cps ++ 0 :: rest) srclen None = Ok ([], (length (flat_map utf16 cps) + 1)%nat) /\
  UTF32toUTF16 (cps ++ 0 :: rest) srclen (Some cap) = Ok (flat_map utf16 cps ++ [0], (length (flat_map utf16 cps) + 1)%nat).
Proof.
  intros Ht Hr Hcap. unfold UTF32toUTF16. destruct (reaches_lim _ _ Hr) as [Hz Hl]. rewrite !srclen_nz by auto.
  rewrite scan_text by (auto using text_nz). cbn [bind fst snd]. rewrite total_len16.
  rewrite source_end_text by auto. split; [do 2 f_equal; lia|].
  pose proof (u32to16_loop_ok cap (cps ++ [0]) [] rest (S (length (cps ++ 0 :: rest))) []) as G. cbn [length app Nat.add] in G.
  rewrite <- app_assoc in G. cbn [app] in G.
  replace (S (length cps)) with (length (cps ++ [0])) by (rewrite app_length; cbn; lia).
  assert (E : flat_map utf16 (cps ++ [0]) = flat_map utf16 cps ++ [0]) by (rewrite flat_map_app; reflexivity).
  rewrite G; rewrite ?E.
  - cbn [bind]. rewrite app_length. reflexivity.
  - apply Forall_app. split; [now apply text_scalar|]. constructor; [apply scalar0|constructor].
  - rewrite !app_length. cbn. lia.
  - rewrite app_length. cbn. lia.
Qed.

Lemma wcslen_ok : forall us pre rest fuel, Forall (fun c => c <> 0) us -> (length us < fuel)%nat ->
  wcslen_from fuel (pre ++ us ++ 0 :: rest) (length pre) = Ok (length pre + length us)%nat.
Proof.
  induction us as [|c us IH]; intros pre rest fuel Hn Hf; destruct fuel as [|fuel]; cbn [length] in Hf; try lia; cbn [wcslen_from app].
  - rewrite get_app_mid. cbn [bind length]. change (0 =? 0) with true. cbn. now rewrite Nat.add_0_r.
  - rewrite get_app_mid. cbn [bind]. inversion Hn; subst. destruct (Z.eqb_spec c 0); [congruence|].
    replace (pre ++ c :: us ++ 0 :: rest) with ((pre ++ [c]) ++ us ++ 0 :: rest) by (rewrite <- app_assoc; reflexivity).
    replace (S (length pre)) with (length (pre ++ [c])) by (rewrite app_length; cbn; lia).
    rewrite IH; auto; [|lia]. rewrite app_length. cbn [length]. f_equal. lia.
Qed.

(* how UTF16toUTF32 is told the extent: negative, or exactly the text with its terminator *)
Lemma u16to32_text cps rest srclen cap : text cps -> (srclen < 0 \/ srclen = Z.of_nat (length (flat_map utf16 cps) + 1)) ->
  (length cps + 1 <= cap)%nat ->
  UTF16toUTF32 (flat_map utf16 cps ++ 0 :: rest) srclen None = Ok ([], (length (flat_map utf16 cps) + 1)%nat) /\
  UTF16toUTF32 (flat_map utf16 cps ++ 0 :: rest) srclen (Some cap) = Ok (cps ++ [0], (length cps + 1)%nat).
Proof.
  intros Ht Hr Hcap. unfold UTF16toUTF32. rewrite !srclen_nz by lia.
  assert (E0 : (if srclen <? 0 then do l <- wcslen_from (S (length (flat_map utf16 cps ++ 0 :: rest))) (flat_map utf16 cps ++ 0 :: rest) 0; Ok (l + 1)%nat else Ok (Z.to_nat srclen))
     = Ok (length (flat_map utf16 cps) + 1)%nat).
  { destruct (Z.ltb_spec srclen 0); [|f_equal; lia].
    rewrite (wcslen_ok (flat_map utf16 cps) [] rest); auto using utf16_nz. rewrite app_length. cbn. lia. }
  rewrite E0. cbn [bind]. split; auto.
  pose proof (u16to32_loop_ok cap (cps ++ [0]) [] rest (S (length (flat_map utf16 cps ++ 0 :: rest))) []) as G. cbn [length app Nat.add] in G.
  assert (E : flat_map utf16 (cps ++ [0]) = flat_map utf16 cps ++ [0]) by (rewrite flat_map_app; reflexivity).
  rewrite E in G. rewrite <- app_assoc in G. cbn [app] in G.
  replace (length (flat_map utf16 cps) + 1)%nat with (length (flat_map utf16 cps ++ [0])) by (rewrite app_length; cbn; lia).
  assert (Lle : forall l, (length l <= length (flat_map utf16 l))%nat).
  { induction l as [|c l IH]; auto. cbn [flat_map length]. rewrite app_length, utf16_length. destruct (c <? 65536); lia. }
  rewrite G.
  - cbn [bind]. rewrite app_length. reflexivity.
  - apply Forall_app. split; [now apply text_scalar|]. constructor; [apply scalar0|constructor].
  - rewrite !app_length. cbn. specialize (Lle cps). lia.
  - rewrite app_length. cbn. lia.
Qed.

Theorem C13_UTF16_roundtrip :
  forall cps rest rest' len len' cap cap',
  text cps -> reaches len (length cps) -> (len' < 0 \/ len' = Z.of_nat (length (flat_map utf16 cps) + 1)) ->
  exists n n',
    UTF32toUTF16 (cps ++ 0 :: rest) len None = Ok ([], n) /\
    ((n <= cap)%nat -> UTF32toUTF16 (cps ++ 0 :: rest) len (Some cap) = Ok (flat_map utf16 cps ++ [0], n)) /\
    length (flat_map utf16 cps ++ [0]) = n /\
    UTF16toUTF32 (flat_map utf16 cps ++ 0 :: rest') len' None = Ok ([], n') /\
    ((length (cps ++ [0%Z]) <= cap')%nat ->
       UTF16toUTF32 (flat_map utf16 cps ++ 0 :: rest') len' (Some cap') = Ok (cps ++ [0], length (cps ++ [0]))) /\
    (length (cps ++ [0%Z]) <= n')%nat.
Proof.
  intros cps rest rest' len len' cap cap' Ht H1 H2.
  exists (length (flat_map utf16 cps) + 1)%nat, (length (flat_map utf16 cps) + 1)%nat. rewrite !app_length. cbn [length].
  destruct (u32to16_text cps rest len (length (flat_map utf16 cps) + 1) Ht H1) as [E1 _]; [lia|].
  destruct (u16to32_text cps rest' len' (length cps + 1) Ht H2) as [E2 _]; [lia|].
  assert (Lle : forall l, (length l <= length (flat_map utf16 l))%nat).
  { induction l as [|c l IH]; auto. cbn [flat_map length]. rewrite app_length, utf16_length. destruct (c <? 65536); lia. }
  split; auto. split; [intros; apply u32to16_text; auto|]. split; auto. split; auto. split; [intros; apply u16to32_text; auto|].
  specialize (Lle cps). lia.
Qed.
Print Assumptions C13_UTF16_roundtrip.

(* ================= C14 ================= *)
(* a terminator lies before the explicit length ends, or one more unit behind the source is readable *)
Definition readable (src : list Z) (srclen : Z) : Prop :=
  (exists i, nth_error src i = Some 0 /\ (srclen < 0 \/ Z.of_nat i < srclen)) \/ 0 <= srclen < Z.of_nat (length src).

Lemma scan_readable w src srclen : readable src srclen -> srclen <> 0 -> Z.of_nat (length src) < 2 ^ 63 - 1 ->
  exists j m, scan (S (length src)) w src (limit srclen) 0 1 = Ok (j, m) /\ (source_end (limit srclen) j <= length src)%nat.
Proof.
  intros Hr Hz Hbig.
  assert (Hl : 0 <= limit srclen) by (unfold limit, PTRDIFF_MAX; destruct (Z.ltb_spec srclen 0); lia).
  destruct (scan_total w src (limit srclen) (S (length src)) 0 1) as (j & m & E & Hj & Hm); [|lia|].
  - destruct Hr as [(i & Hi & Hc)|Hr].
    + exists i. split; [pose proof (nth_error_lt _ _ _ Hi); lia|now left].
    + exists (Z.to_nat srclen). split; [lia|]. right. unfold limit. destruct (Z.ltb_spec srclen 0); lia.
  - exists j, m. split; auto. unfold source_end. destruct (Z.ltb_spec (Z.of_nat j) (limit srclen)); lia.
Qed.

(* total, within the buffer, on every input; partial: an unterminated source needs one readable unit
   behind it (see C14_overread_refuted) *)
Theorem C14_UTF8toUTF32_safe_partial :
  forall src srclen output, readable src srclen -> Z.of_nat (length src) < 2 ^ 63 - 1 ->
  exists out n, UTF8toUTF32 src srclen output = Ok (out, n) /\ Forall scalar out /\
    match output with Some cap => (length out <= cap)%nat /\ n = length out | None => out = [] end.
Proof.
  intros src srclen output Hr Hb. unfold UTF8toUTF32. destruct (Z.eqb_spec srclen 0).
  { exists [], 0%nat. split; auto. split; [constructor|]. destruct output; cbn; auto. split; [lia|auto]. }
  destruct (scan_readable u8to32_weight src srclen Hr n Hb) as (j & m & -> & He). cbn [bind fst snd].
  destruct output as [cap|]; [|exists [], m; repeat split; auto].
  destruct (u8to32_loop_total src (source_end (limit srclen) j) cap He (S (length src)) 0 []) as (o & -> & Hl & Hs); [lia|constructor|cbn; lia|].
  cbn [bind]. exists o, (length o). auto.
Qed.

Theorem C14_UTF32toUTF8_safe_partial :
  forall src srclen output, readable src srclen -> Z.of_nat (length src) < 2 ^ 63 - 1 ->
  exists out n, UTF32toUTF8 src srclen output = Ok (out, n) /\
    match output with Some cap => (length out <= cap)%nat /\ n = length out | None => out = [] end.
Proof.
  intros src srclen output Hr Hb. unfold UTF32toUTF8. destruct (Z.eqb_spec srclen 0).
  { exists [], 0%nat. split; auto. destruct output; cbn; auto. split; [lia|auto]. }
  destruct (scan_readable u32to8_weight src srclen Hr n Hb) as (j & m & -> & He). cbn [bind fst snd].
  destruct output as [cap|]; [|exists [], m; repeat split; auto].
  destruct (u32to8_loop_total src (source_end (limit srclen) j) cap He (S (length src)) 0 []) as (o & -> & Hl); [lia|cbn; lia|].
  cbn [bind]. exists o, (length o). auto.
Qed.

Theorem C14_UTF32toUTF16_safe_partial :
  forall src srclen output, readable src srclen -> Z.of_nat (length src) < 2 ^ 63 - 1 ->
  exists out n, UTF32toUTF16 src srclen output = Ok (out, n) /\
    match output with Some cap => (length out <= cap)%nat /\ n = length out | None => out = [] end.
Proof.
  intros src srclen output Hr Hb. unfold UTF32toUTF16. destruct (Z.eqb_spec srclen 0).
  { exists [], 0%nat. split; auto. destruct output; cbn; auto. split; [lia|auto]. }
  destruct (scan_readable u32to16_weight src srclen Hr n Hb) as (j & m & -> & He). cbn [bind fst snd].
  destruct output as [cap|]; [|exists [], m; repeat split; auto].
  destruct (u32to16_loop_total src (source_end (limit srclen) j) cap He (S (length src)) 0 []) as (o & -> & Hl); [lia|cbn; lia|].
  cbn [bind]. exists o, (length o). auto.
Qed.

(* UTF16toUTF32 needs nothing behind the source *)
Theorem C14_UTF16toUTF32_safe :
  forall src srclen output, 0 <= srclen <= Z.of_nat (length src) ->
  exists out n, UTF16toUTF32 src srclen output = Ok (out, n) /\
    match output with Some cap => (length out <= cap)%nat /\ n = length out | None => out = [] end.
Proof.
  intros src srclen output Hr. unfold UTF16toUTF32. destruct (Z.eqb_spec srclen 0).
  { exists [], 0%nat. split; auto. destruct output; cbn; auto. split; [lia|auto]. }
  destruct (Z.ltb_spec srclen 0); [lia|]. cbn [bind]. destruct output as [cap|]; [|eauto].
  destruct (u16to32_loop_total src (Z.to_nat srclen) cap) with (fuel := S (length src)) (s := 0%nat) (out := @nil Z) as (o & -> & Hl); [lia|lia|cbn; lia|].
  cbn [bind]. exists o, (length o). auto.
Qed.
Print Assumptions C14_UTF8toUTF32_safe_partial.
Print Assumptions C14_UTF32toUTF8_safe_partial.
Print Assumptions C14_UTF32toUTF16_safe_partial.
Print Assumptions C14_UTF16toUTF32_safe.

(* The full statement is false: with an explicit length and no terminator inside it, the counting
   loop reads the unit behind the source, on every such input. *)
Lemma scan_overread w : forall todo pre fuel n, Forall (fun c => c <> 0) todo -> (length todo < fuel)%nat ->
  scan fuel w (pre ++ todo) (Z.of_nat (length pre + length todo)) (length pre) n = UB.
Proof.
  induction todo as [|c todo IH]; intros pre fuel n Hn Hf; destruct fuel as [|fuel]; cbn [length] in *; try lia; cbn [scan].
  - unfold get. rewrite app_nil_r. rewrite (proj2 (nth_error_None pre (length pre))) by lia. reflexivity.
  - rewrite get_app_mid. cbn [bind]. inversion Hn; subst. destruct (Z.eqb_spec c 0); [congruence|].
    destruct (Z.ltb_spec (Z.of_nat (length pre)) (Z.of_nat (length pre + S (length todo)))); [|lia]. cbn [negb andb].
    specialize (IH (pre ++ [c]) fuel (n + w c)%nat H2 ltac:(lia)). rewrite <- app_assoc, app_length in IH. cbn [app length] in IH.
    replace (length pre + S (length todo))%nat with (length pre + 1 + length todo)%nat by lia.
    replace (S (length pre)) with (length pre + 1)%nat by lia. exact IH.
Qed.

Theorem C14_overread_refuted :
  forall src output, src <> [] -> Forall (fun c => c <> 0) src ->
  UTF8toUTF32 src (Z.of_nat (length src)) output = UB /\
  UTF32toUTF8 src (Z.of_nat (length src)) output = UB /\
  UTF32toUTF16 src (Z.of_nat (length src)) output = UB.
Proof.
  intros src output Hne Hn. unfold UTF8toUTF32, UTF32toUTF8, UTF32toUTF16, limit.
  assert (0 < length src)%nat by (destruct src; [congruence|cbn; lia]).
  destruct (Z.eqb_spec (Z.of_nat (length src)) 0); [lia|]. destruct (Z.ltb_spec (Z.of_nat (length src)) 0); [lia|].
  pose proof (fun w => scan_overread w src [] (S (length src)) 1 Hn ltac:(lia)) as G. cbn [app length Nat.add] in G.
  rewrite !G. cbn. auto.
Qed.
Print Assumptions C14_overread_refuted.

Example C12_example :
  UTF32toUTF8 [0x48; 0x20AC; 0x1F600; 0] (-1) (Some 20%nat) = Ok ([0x48; 0xE2; 0x82; 0xAC; 0xF0; 0x9F; 0x98; 0x80; 0], 9%nat) /\
  UTF8toUTF32 [0x48; 0xE2; 0x82; 0xAC; 0xF0; 0x9F; 0x98; 0x80; 0] (-1) (Some 4%nat) = Ok ([0x48; 0x20AC; 0x1F600; 0], 4%nat) /\
  text [0x48; 0x20AC; 0x1F600] /\ reaches (-1) 3 /\ reaches 9 8.
Proof.
  split; [vm_compute; reflexivity|]. split; [vm_compute; reflexivity|].
  split; [repeat (constructor; [unfold scalar; lia|]); constructor|]. unfold reaches. lia.
Qed.

Example C13_example :
  UTF32toUTF16 [0x48; 0xFFFD; 0x1F600; 0] (-1) (Some 20%nat) = Ok ([0x48; 0xFFFD; 0xD83D; 0xDE00; 0], 5%nat) /\
  UTF16toUTF32 [0x48; 0xFFFD; 0xD83D; 0xDE00; 0] 5 (Some 4%nat) = Ok ([0x48; 0xFFFD; 0x1F600; 0], 4%nat) /\
  text [0x48; 0xFFFD; 0x1F600].
Proof.
  split; [vm_compute; reflexivity|]. split; [vm_compute; reflexivity|].
  repeat (constructor; [unfold scalar; lia|]); constructor.
Qed.

(* a truncated sequence, an overlong form and a surrogate, into a buffer of two units *)
Example C14_example :
  readable [0xE2; 0x82; 0; 7] 3 /\
  UTF8toUTF32 [0xE2; 0x82; 0; 7] 3 (Some 2%nat) = Ok ([], 0%nat) /\
  (exists o n, UTF8toUTF32 [0x41; 0xF4; 0x8F; 0xBF; 0xBF; 0x42; 0x43; 0] 7 (Some 2%nat) = Ok (o, n) /\ n = 2%nat) /\
  UTF8toUTF32 [0x41; 0x42] 2 None = UB.
Proof.
  split; [right; cbn; lia|]. split; [vm_compute; reflexivity|]. split; [do 2 eexists; split; vm_compute; reflexivity|].
  vm_compute; reflexivity.
Qed.
