(* Properties C01-C09, C61, C62 of /verif/properties.jsonl: integer helpers. *)
From Coq Require Import List ZArith Bool Lia.
From Verif Require Import Common BitUtil BitUtilSpec UtfSpec
  BitUtilProofs BitCountProofs MulExtractProofs MiscBitProofs.
Import ListNotations.
Local Open Scope Z_scope.
Ltac Zify.zify_post_hook ::= idtac.

(* ================= C01 ================= *)
Theorem C01_bssMod_euclidean :
  forall w x m, 0 < w -> - 2 ^ (w - 1) <= x < 2 ^ (w - 1) -> 0 < m < 2 ^ (w - 1) ->
  exists r, bssMod w x m = Ok r /\ 0 <= r < m /\ (m | x - r).
Proof.
  intros w x m Hw Hx Hm. exists (x mod m). split; [now apply bssMod_ok|]. split.
  - apply Z.mod_pos_bound. lia.
  - exists (x / m). rewrite (Z.div_mod x m) at 1 by lia. ring.
Qed.
Print Assumptions C01_bssMod_euclidean.

Theorem C01_IntDiv_floor :
  forall w x m, 0 < w -> - 2 ^ (w - 1) <= x < 2 ^ (w - 1) -> 0 < m < 2 ^ (w - 1) ->
  exists q r, IntDiv w x m = Ok q /\ bssMod w x m = Ok r /\
    q * m <= x < (q + 1) * m /\ x = q * m + r.
Proof.
  intros w x m Hw Hx Hm. exists (x / m), (x mod m).
  split; [now apply IntDiv_ok|]. split; [now apply bssMod_ok|].
  pose proof (Z.div_mod x m ltac:(lia)). pose proof (Z.mod_pos_bound x m ltac:(lia)). lia.
Qed.
Print Assumptions C01_IntDiv_floor.

(* the hypotheses are met, at the most negative int and a negative exact multiple *)
Example C01_example : bssMod 32 (-2147483648) 10 = Ok 2 /\ IntDiv 32 (-2147483648) 10 = Ok (-214748365)
  /\ IntDiv 32 (-20) 10 = Ok (-2) /\ bssMod 32 (-20) 10 = Ok 0.
Proof. vm_compute. auto. Qed.

(* ================= C02 ================= *)
Theorem C02_NextPow2 :
  forall w f, In (w, f) [(8, NextPow2_8); (16, NextPow2_16); (32, NextPow2_32); (64, NextPow2_64)] ->
  forall v, 0 <= v < 2 ^ w ->
  (1 <= v <= 2 ^ (w - 1) -> least_pow2_above v (f v)) /\
  (v = 0 \/ 2 ^ (w - 1) < v -> f v = 0).
Proof.
  intros w f Hin v Hv.
  assert (E : f v = if (1 <=? v) && (v <=? 2 ^ (w - 1)) then 2 ^ (Z.log2_up v) else 0).
  { cbn [In] in Hin. destruct Hin as [H|[H|[H|[H|[]]]]]; inversion H; subst; clear H.
    - now apply NextPow2_8_val.
    - now apply NextPow2_16_val.
    - now apply NextPow2_32_val.
    - now apply NextPow2_64_val. }
  rewrite E. split; intros Hr.
  - destruct (Z.leb_spec 1 v); [|lia]. destruct (Z.leb_spec v (2 ^ (w - 1))); [|lia]. cbn [andb].
    destruct (log2_up_least v) as [H1 H2]; [lia|]. split; [|split]; auto.
    exists (Z.log2_up v). split; auto. apply Z.log2_up_nonneg.
  - destruct (Z.leb_spec 1 v), (Z.leb_spec v (2 ^ (w - 1))); cbn [andb]; auto. lia.
Qed.
Print Assumptions C02_NextPow2.

Example C02_example : NextPow2_64 (2 ^ 62 + 1) = 2 ^ 63 /\ NextPow2_32 33 = 64 /\ NextPow2_8 128 = 128
  /\ NextPow2_8 129 = 0.
Proof. vm_compute. auto. Qed.

(* ================= C03 ================= *)
Theorem C03_BitCount :
  forall k : nat, In k [1; 2; 4; 8; 16]%nat ->
  forall v, 0 <= v < 2 ^ (8 * Z.of_nat k) ->
  BitCount (8 * Z.of_nat k) v = popcount (8 * k) v.
Proof.
  intros k Hk v Hv. apply BitCount_ok; auto. cbn [In] in Hk. lia.
Qed.
Print Assumptions C03_BitCount.

Example C03_example : BitCount 64 0xFFFF00010F0F8003 = 28 /\ popcount 64 0xFFFF00010F0F8003 = 28
  /\ BitCount 128 (2 ^ 128 - 1) = 128.
Proof. vm_compute. auto. Qed.

(* ================= C04 ================= *)
Theorem C04_FlipEndian_reverses :
  forall (A : Type) (block rest : list A), (length block <= 255)%nat ->
  FlipEndian (block ++ rest) (length block) = Ok (rev block ++ rest).
Proof. intros A block rest _. exact (FlipEndian_frame block rest). Qed.
Print Assumptions C04_FlipEndian_reverses.

Theorem C04_FlipEndianT_reverses :
  forall (A : Type) (block : list A), (length block <= 255)%nat ->
  FlipEndianT block (length block) = Ok (rev block).
Proof. intros A block _. exact (FlipEndianT_ok block). Qed.
Print Assumptions C04_FlipEndianT_reverses.

Theorem C04_FlipEndian_involutive :
  forall (A : Type) (block : list A), (length block <= 255)%nat ->
  (do b <- FlipEndian block (length block); FlipEndian b (length b)) = Ok block.
Proof.
  intros A block _. rewrite FlipEndian_ok. cbn [bind]. rewrite FlipEndian_ok. now rewrite rev_involutive.
Qed.
Print Assumptions C04_FlipEndian_involutive.

Example C04_example : FlipEndian [1;2;3;4;5;77] 5 = Ok [5;4;3;2;1;77] /\ FlipEndian (A:=Z) [] 0 = Ok [].
Proof. vm_compute. auto. Qed.

(* ================= C05 ================= *)
(** The claim for every width, including 64 bits, is false of the code (2 << i is an int). *)
Theorem C05_IntFastSqrt_refuted :
  exists n, 0 <= n < 2 ^ 64 /\
    ~ exists r, IntFastSqrt 64 n = Ok r /\ 0 <= r /\ r * r <= n < (r + 1) * (r + 1).
Proof.
  exists (2 ^ 60). split; [split; vm_compute; congruence|].
  intros (r & E & Hr & Hb).
  replace (IntFastSqrt 64 (2 ^ 60)) with (Ok 9223372035781033984) in E by (vm_compute; reflexivity).
  inversion E; subst. vm_compute in Hb. intuition congruence.
Qed.
Print Assumptions C05_IntFastSqrt_refuted.

(** It holds for 8, 16 and 32 bits, and for 64-bit arguments below 2^60.  Missing from the
    full claim: 64-bit arguments from 2^60 on, where the code is wrong. *)
Theorem C05_IntFastSqrt_partial :
  (forall w n, In w [8; 16; 32] -> 0 <= n < 2 ^ w ->
     exists r, IntFastSqrt w n = Ok r /\ 0 <= r /\ r * r <= n < (r + 1) * (r + 1)) /\
  (forall n, 0 <= n < 2 ^ 60 ->
     exists r, IntFastSqrt 64 n = Ok r /\ 0 <= r /\ r * r <= n < (r + 1) * (r + 1)).
Proof.
  split.
  - intros w n Hw Hn. apply IntFastSqrt_ok; auto. cbn [In] in Hw. lia.
  - exact IntFastSqrt64_ok.
Qed.
Print Assumptions C05_IntFastSqrt_partial.

Example C05_example : IntFastSqrt 32 4294967295 = Ok 65535 /\ IntFastSqrt 64 (2 ^ 60 - 1) = Ok 1073741823.
Proof. vm_compute. auto. Qed.

(* ================= C06 ================= *)
Theorem C06_MultiplyExtract_unsigned :
  forall h x y s, 2 <= h -> let w := 2 * h in
  0 <= x < 2 ^ w -> 0 <= y < 2 ^ w -> 0 < s < 2 * w ->
  mulextract_u w x y s = Ok ((x * y / 2 ^ s) mod 2 ^ w).
Proof. intros h x y s Hh w. exact (mulextract_u_ok h Hh x y s). Qed.
Print Assumptions C06_MultiplyExtract_unsigned.

Theorem C06_MultiplyExtract_signed :
  forall h x y s, 2 <= h -> let w := 2 * h in
  - 2 ^ (w - 1) < x < 2 ^ (w - 1) -> - 2 ^ (w - 1) < y < 2 ^ (w - 1) -> 0 < s < 2 * w ->
  exists r, mulextract_s w x y s = Ok r /\ - 2 ^ (w - 1) <= r < 2 ^ (w - 1) /\
    (2 ^ w | x * y / 2 ^ s - r).
Proof.
  intros h x y s Hh w Hx Hy Hs. exists (sgn w (x * y / 2 ^ s)).
  split; [exact (mulextract_s_ok h Hh x y s Hx Hy Hs)|].
  set (z := x * y / 2 ^ s). clearbody z.
  assert (Hpw : 2 ^ w = 2 * 2 ^ (w - 1)) by (rewrite <- Z.pow_succ_r by lia; f_equal; lia).
  assert (0 < 2 ^ (w - 1)) by (apply Z.pow_pos_nonneg; lia).
  unfold sgn. pose proof (Z.mod_pos_bound z (2 ^ w) ltac:(lia)) as Hb.
  pose proof (Z.div_mod z (2 ^ w) ltac:(lia)) as Hd.
  destruct (Z.ltb_spec (z mod 2 ^ w) (2 ^ (w - 1))).
  - split; [lia|]. exists (z / 2 ^ w). lia.
  - split; [lia|]. exists (z / 2 ^ w + 1). lia.
Qed.
Print Assumptions C06_MultiplyExtract_signed.

(** A shift of zero executes a shift by the full width, undefined in C++. *)
Theorem C06_shift_zero_undefined :
  exists x y, mulextract_u 64 x y 0 = UB.
Proof. exists 1, 1. vm_compute. reflexivity. Qed.
Print Assumptions C06_shift_zero_undefined.

Example C06_example :
  mulextract_u 64 0xFFFFFFFFFFFFFFFF 0xFFFFFFFFFFFFFFFF 64 = Ok 0xFFFFFFFFFFFFFFFE /\
  mulextract_s 64 (-3) 5 1 = Ok (-8) /\ mulextract_s 64 (-(2^62)) (2^62) 100 = Ok (-16777216).
Proof. vm_compute. auto. Qed.

(* ================= C07 ================= *)
Theorem C07_DaysFromCivil_calendar :
  DaysFromCivil 1970 1 1 = 0 /\
  (forall y m d, valid (y, m, d) ->
     let '(y', m', d') := next_day (y, m, d) in
     valid (y', m', d') /\ DaysFromCivil y' m' d' = DaysFromCivil y m d + 1).
Proof.
  split; [reflexivity|]. intros y m d H.
  destruct (days_next (y, m, d) H) as [H1 H2].
  destruct (next_day (y, m, d)) as [[y' m'] d']. split; auto.
Qed.
Print Assumptions C07_DaysFromCivil_calendar.

Theorem C07_DaysFromCivil_order :
  forall y1 m1 d1 y2 m2 d2, valid (y1, m1, d1) -> valid (y2, m2, d2) ->
  date_lt (y1, m1, d1) (y2, m2, d2) -> DaysFromCivil y1 m1 d1 < DaysFromCivil y2 m2 d2.
Proof. intros y1 m1 d1 y2 m2 d2. exact (days_lt (y1, m1, d1) (y2, m2, d2)). Qed.
Print Assumptions C07_DaysFromCivil_order.

Theorem C07_DaysFromCivil_onto :
  forall n, exists y m d, valid (y, m, d) /\ DaysFromCivil y m d = n.
Proof. intros n. destruct (days_surj n) as ([[y m] d] & Hv & E). exists y, m, d. auto. Qed.
Print Assumptions C07_DaysFromCivil_onto.

Example C07_example : valid (-400, 2, 29) /\ DaysFromCivil (-400) 2 29 = -865566 /\
  next_day (2000, 2, 28) = (2000, 2, 29) /\ next_day (1900, 2, 28) = (1900, 3, 1).
Proof. vm_compute. repeat split; congruence. Qed.

(* ================= C08 ================= *)
Theorem C08_fbnext_grows :
  forall w x, 0 <= x -> 2 * x + 1 < 2 ^ w -> x < fbnext w x <= 2 * x + 1.
Proof.
  intros w x Hx Hb.
  assert (x / 2 + x / 8 - x / 128 <= x /\ 0 <= x / 2 + x / 8 - x / 128).
  { pose proof (Z.div_mod x 2). pose proof (Z.mod_pos_bound x 2).
    pose proof (Z.div_mod x 8). pose proof (Z.mod_pos_bound x 8).
    pose proof (Z.div_mod x 128). pose proof (Z.mod_pos_bound x 128). lia. }
  rewrite fbnext_val by lia. lia.
Qed.
Print Assumptions C08_fbnext_grows.

Theorem C08_nextmultiple_least :
  forall w k x, 0 <= k <= w -> 0 <= x -> x + (2 ^ k - 1) < 2 ^ w ->
  least_multiple_above (2 ^ k) x (nextmultiple w x (2 ^ k - 1)).
Proof.
  intros w k x Hk Hx Hb. rewrite nextmultiple_val by lia.
  assert (0 < 2 ^ k) by (apply Z.pow_pos_nonneg; lia).
  destruct (ceil_mult_least x (2 ^ k)) as (H1 & H2 & H3); auto. repeat split; auto.
Qed.
Print Assumptions C08_nextmultiple_least.

Theorem C08_AlignSize_least :
  forall w sz a, 0 < a -> 0 <= sz -> sz + (a - 1) < 2 ^ w ->
  exists r, AlignSize w sz a = Ok r /\ least_multiple_above a sz r.
Proof.
  intros w sz a Ha Hs Hb. exists ((sz + (a - 1)) / a * a).
  destruct (ceil_mult_least sz a) as (H1 & H2 & H3); auto. split; [|repeat split; auto].
  apply AlignSize_val; auto. pose proof (Z.div_mod (sz + (a - 1)) a ltac:(lia)).
  pose proof (Z.mod_pos_bound (sz + (a - 1)) a ltac:(lia)). lia.
Qed.
Print Assumptions C08_AlignSize_least.

Example C08_example : fbnext 64 1000 = 1619 /\ nextmultiple 64 13 7 = 16 /\ AlignSize 64 13 6 = Ok 18
  /\ fbnext 64 0 = 1.
Proof. vm_compute. auto. Qed.

(* ================= C09 ================= *)
(** The 64-bit version compiled by GCC counts leading zeros of the low 32 bits only. *)
Theorem C09_bssLog2_gcc64_refuted :
  exists v, 0 < v < 2 ^ 64 /\
    ~ exists r, bssLog2_gcc64 v = Ok r /\ 2 ^ r <= v < 2 ^ (r + 1).
Proof.
  exists 1. split; [split; vm_compute; congruence|].
  intros (r & E & Hb). vm_compute in E. inversion E; subst.
  vm_compute in Hb. intuition congruence.
Qed.
Print Assumptions C09_bssLog2_gcc64_refuted.

(** Every other version is right.  Missing from the full claim: the 64-bit GCC version. *)
Theorem C09_bssLog2_partial :
  (forall w f, In (w, f) [(8, bssLog2_8); (16, bssLog2_16); (32, bssLog2_32); (64, bssLog2_64)] ->
     f 0 = 0 /\ forall v, 0 < v < 2 ^ w -> 2 ^ f v <= v < 2 ^ (f v + 1)) /\
  (bssLog2_gcc32 0 = Ok 0 /\
   forall v, 0 < v < 2 ^ 32 -> exists r, bssLog2_gcc32 v = Ok r /\ 2 ^ r <= v < 2 ^ (r + 1)) /\
  (forall k, 0 <= k < 32 -> bssLog2_p2 (2 ^ k) = k).
Proof.
  split; [|split; [split; [reflexivity|]|exact bssLog2_p2_ok]].
  - intros w f Hin.
    assert (E : forall v, 0 <= v < 2 ^ w -> f v = Z.log2 v).
    { cbn [In] in Hin. destruct Hin as [H|[H|[H|[H|[]]]]]; inversion H; subst; clear H.
      - exact bssLog2_8_ok.
      - exact bssLog2_16_ok.
      - exact bssLog2_32_ok.
      - exact bssLog2_64_ok. }
    split.
    + rewrite E; [reflexivity|]. split; [lia|].
      cbn [In] in Hin. destruct Hin as [H|[H|[H|[H|[]]]]]; inversion H; reflexivity.
    + intros v Hv. rewrite E by lia. rewrite Z.add_1_r. apply Z.log2_spec. lia.
  - intros v Hv. exists (Z.log2 v). split; [apply bssLog2_gcc32_ok; lia|].
    rewrite Z.add_1_r. apply Z.log2_spec. lia.
Qed.
Print Assumptions C09_bssLog2_partial.

Example C09_example : bssLog2_64 (2 ^ 63 + 5) = 63 /\ bssLog2_gcc32 4096 = Ok 12 /\ bssLog2_8 255 = 7.
Proof. vm_compute. auto. Qed.

(* ================= C61 ================= *)
Theorem C61_ByteSearch_first :
  forall s f, s <> [] -> f <> [] ->
  exists r, ByteSearch s (length s) f (length f) = Ok r /\
    match r with
    | Some p => (p + length f <= length s)%nat /\ matches_at s f p /\
                forall q, (q < p)%nat -> ~ matches_at s f q
    | None => forall q, ~ matches_at s f q
    end.
Proof.
  intros s f Hs Hf. unfold ByteSearch.
  destruct (Nat.eqb_spec (length s) 0) as [E|_]; [destruct s; [congruence|discriminate]|].
  destruct (Nat.eqb_spec (length f) 0) as [E|Hf0]; [destruct f; [congruence|discriminate]|].
  assert (Hshort : forall q, matches_at s f q -> (q + length f <= length s)%nat).
  { intros q Hm. specialize (Hm (length f - 1)%nat ltac:(lia)).
    destruct (nth_error_ex f (length f - 1)) as [x Hx]; [lia|].
    rewrite Hx in Hm. apply nth_error_lt in Hm. lia. }
  destruct (Nat.ltb_spec (length s) (length f)); cbn [orb].
  - exists None. split; auto. intros q Hm. apply Hshort in Hm. lia.
  - destruct (bytesearch_loop_ok s f (S (length s - length f)) 0) as (r & Er & Hr); [lia|lia|].
    exists r. split; auto. destruct r as [p|].
    + destruct Hr as (_ & H2 & H3 & H4). repeat split; auto. intros q Hq. apply H4. lia.
    + intros q Hm. apply (Hr q); auto; lia.
Qed.
Print Assumptions C61_ByteSearch_first.

Example C61_example : ByteSearch [1;2;1;2;3] 5 [1;2;3] 3 = Ok (Some 2%nat) /\ ByteSearch [1;2] 2 [2;3] 2 = Ok None.
Proof. vm_compute. auto. Qed.

(* ================= C62 ================= *)
(** The last code point U+10FFFF is dropped. *)
Theorem C62_OutputUnicode_refuted :
  exists c, scalar c /\ OutputUnicode c <> utf8 c.
Proof. exists 0x10FFFF. split; [right; lia|]. vm_compute. discriminate. Qed.
Print Assumptions C62_OutputUnicode_refuted.

(** Every other scalar value is encoded correctly.  Missing: U+10FFFF. *)
Theorem C62_OutputUnicode_partial :
  forall c, scalar c -> c <> 0x10FFFF -> OutputUnicode c = utf8 c.
Proof. intros c Hc Hne. apply OutputUnicode_ok. unfold scalar in Hc. lia. Qed.
Print Assumptions C62_OutputUnicode_partial.

Example C62_example : scalar 0x20AC /\ OutputUnicode 0x20AC = [0xE2; 0x82; 0xAC] /\ OutputUnicode 0x10FFFE = utf8 0x10FFFE.
Proof. split; [left; lia|]. vm_compute. auto. Qed.
