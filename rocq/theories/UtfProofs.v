From Coq Require Import List ZArith Bool Lia Arith.
From Coq Require Import ZifyBool ZifyNat.
From Verif Require Import Common BitUtil BitUtilProofs MiscBitProofs UtfSpec Utf.
Import ListNotations.
Local Open Scope Z_scope.

Lemma wrap8 x : 0 <= x < 256 -> wrap 8 x = x.
Proof. intros. unfold wrap. change (2 ^ 8) with 256. rewrite Z.mod_small; lia. Qed.
Lemma wrap16 x : 0 <= x < 65536 -> wrap 16 x = x.
Proof. intros. unfold wrap. change (2 ^ 16) with 65536. rewrite Z.mod_small; lia. Qed.
Lemma wrap32 x : 0 <= x < 4294967296 -> wrap 32 x = x.
Proof. intros. unfold wrap. change (2 ^ 32) with 4294967296. rewrite Z.mod_small; lia. Qed.
Lemma wrap32_range x : 0 <= wrap 32 x < 4294967296.
Proof. unfold wrap. change (2 ^ 32) with 4294967296. apply Z.mod_pos_bound. lia. Qed.

Lemma shr6 c : Z.shiftr c 6 = c / 64.
Proof. now rewrite Z.shiftr_div_pow2 by lia. Qed.
Lemma shl6 c : Z.shiftl c 6 = c * 64.
Proof. now rewrite Z.shiftl_mul_pow2 by lia. Qed.
Lemma shr10 c : Z.shiftr c 10 = c / 1024.
Proof. now rewrite Z.shiftr_div_pow2 by lia. Qed.
Lemma shl10 c : Z.shiftl c 10 = c * 1024.
Proof. now rewrite Z.shiftl_mul_pow2 by lia. Qed.
Lemma land3ff c : Z.land c 0x3FF = c mod 1024.
Proof. change 0x3FF with (Z.ones 10). now rewrite Z.land_ones by lia. Qed.

Lemma trail_byte_val c : trail_byte c = 0x80 + c mod 64.
Proof.
  unfold trail_byte. assert (E : Z.land (Z.lor c 0x80) 0xBF = Z.lor 0x80 (Z.land c 0x3F)).
  { change 0xBF with (Z.lor 0x80 0x3F). apply Z.bits_inj'. intros i Hi. rewrite ?Z.land_spec, ?Z.lor_spec, ?Z.land_spec.
    destruct (Z.testbit c i), (Z.testbit 0x80 i), (Z.testbit 0x3F i); reflexivity. }
  rewrite E, land_mask6, lor80 by lia. apply wrap8. lia.
Qed.

Lemma landC0 b : 0 <= b < 256 -> Z.land b 0xC0 = 64 * (b / 64).
Proof.
  intros H. assert (G : forallb (fun n => Z.land (Z.of_nat n) 0xC0 =? 64 * (Z.of_nat n / 64)) (seq 0 256) = true) by (vm_compute; reflexivity).
  rewrite forallb_forall in G. specialize (G (Z.to_nat b)). rewrite Z2Nat.id in G by lia.
  apply Z.eqb_eq. apply G. apply in_seq. lia.
Qed.

Lemma lorC0 b : 0 <= b < 32 -> Z.lor b 0xC0 = 0xC0 + b.
Proof. intros. rewrite Z.lor_comm. apply (lor_disjoint 6 5). lia. lia. Qed.
Lemma lorE0 b : 0 <= b < 16 -> Z.lor b 0xE0 = 0xE0 + b.
Proof. intros. rewrite Z.lor_comm. apply (lor_disjoint 14 4). lia. lia. Qed.
Lemma lorF0 b : 0 <= b < 8 -> Z.lor b 0xF0 = 0xF0 + b.
Proof. intros. rewrite Z.lor_comm. apply (lor_disjoint 30 3). lia. lia. Qed.

Lemma u8_bytes_utf8 c : 0 <= c <= 0x10FFFF -> u8_bytes (u32to8_weight c) c = utf8 c.
Proof.
  intros Hc. unfold u32to8_weight, utf8.
  destruct (Z.ltb_spec c 0x80). { cbn [u8_bytes firstByteMark nth]. rewrite Z.lor_0_r, wrap8 by lia. reflexivity. }
  destruct (Z.ltb_spec c 0x800).
  { cbn [u8_bytes firstByteMark nth]. rewrite shr6, trail_byte_val, lorC0, wrap8 by lia. reflexivity. }
  destruct (Z.ltb_spec c 0x10000).
  { cbn [u8_bytes firstByteMark nth]. rewrite !shr6, !trail_byte_val, lorE0, wrap8 by lia.
    replace (c / 64 / 64) with (c / 4096) by (rewrite Z.div_div; lia). reflexivity. }
  destruct (Z.leb_spec c 0x10FFFF); [|lia].
  cbn [u8_bytes firstByteMark nth]. rewrite !shr6, !trail_byte_val, lorF0, wrap8 by lia.
  replace (c / 64 / 64 / 64) with (c / 262144) by (rewrite !Z.div_div; lia).
  replace (c / 64 / 64) with (c / 4096) by (rewrite Z.div_div; lia). reflexivity.
Qed.

Lemma utf8_length c : 0 <= c <= 0x10FFFF -> length (utf8 c) = u32to8_weight c.
Proof.
  intros Hc. unfold u32to8_weight, utf8.
  destruct (Z.ltb_spec c 0x80); auto. destruct (Z.ltb_spec c 0x800); auto. destruct (Z.ltb_spec c 0x10000); auto.
  destruct (Z.leb_spec c 0x10FFFF); auto; lia.
Qed.
Lemma u8_bytes_length n ch : (n <= 4)%nat -> length (u8_bytes n ch) = n.
Proof. intros H. do 5 (destruct n as [|n]; [reflexivity|]). lia. Qed.
Lemma weight8_le c : (1 <= u32to8_weight c <= 4)%nat.
Proof. unfold u32to8_weight. destruct (c <? 128), (c <? 2048), (c <? 65536), (c <=? 1114111); lia. Qed.

(* ---- access in a decomposed list ---- *)
Lemma get_app_mid {A} (pre rest : list A) x : get (pre ++ x :: rest) (length pre) = Ok x.
Proof. apply get_some. rewrite nth_error_app2 by lia. now rewrite Nat.sub_diag. Qed.
Lemma get_app_off {A} (pre mid rest : list A) k x : nth_error mid k = Some x -> get (pre ++ mid ++ rest) (length pre + k) = Ok x.
Proof.
  intros H. apply get_some. rewrite nth_error_app2 by lia. replace (length pre + k - length pre)%nat with k by lia.
  rewrite nth_error_app1; auto. eapply nth_error_lt; eauto.
Qed.

(* ---- the counting loop ---- *)
Definition total (w : Z -> nat) (l : list Z) : nat := list_sum (map w l).

Lemma scan_ok w lim : forall todo pre x rest fuel n,
  Forall (fun c => c <> 0) todo -> Z.of_nat (length pre + length todo) <= lim ->
  (x = 0 \/ Z.of_nat (length pre + length todo) = lim) -> (length todo < fuel)%nat ->
  scan fuel w (pre ++ todo ++ x :: rest) lim (length pre) n = Ok ((length pre + length todo)%nat, (n + total w todo)%nat).
Proof.
  induction todo as [|c todo IH]; intros pre x rest fuel n Hnz Hlim Hx Hf; destruct fuel as [|fuel]; cbn [length] in Hf; try lia.
  - cbn [scan app]. rewrite get_app_mid. cbn [bind]. cbn [length] in *.
    destruct Hx as [->|Hx].
    + change (0 =? 0) with true. unfold total. cbn. rewrite !Nat.add_0_r. reflexivity.
    + destruct (Z.ltb_spec (Z.of_nat (length pre)) lim); [lia|]. rewrite andb_false_r. unfold total. cbn. rewrite !Nat.add_0_r. reflexivity.
  - cbn [scan app]. rewrite get_app_mid. cbn [bind]. inversion Hnz; subst. cbn [length] in *.
    destruct (Z.eqb_spec c 0); [congruence|]. destruct (Z.ltb_spec (Z.of_nat (length pre)) lim); [|lia]. cbn [negb andb].
    replace (pre ++ c :: todo ++ x :: rest) with ((pre ++ [c]) ++ todo ++ x :: rest) by (rewrite <- !app_assoc; reflexivity).
    replace (S (length pre)) with (length (pre ++ [c])) by (rewrite app_length; cbn; lia).
    rewrite IH; auto; try (rewrite app_length; cbn [length]; lia).
    + rewrite app_length. cbn [length]. unfold total. cbn [map]. change (list_sum (w c :: map w todo)) with (w c + list_sum (map w todo))%nat.
      replace (length pre + 1 + length todo)%nat with (length pre + S (length todo))%nat by lia. rewrite Nat.add_assoc. reflexivity.
    + lia.
Qed.

(* total scan on arbitrary contents: ends inside the readable units *)
Lemma scan_total w src lim : forall fuel i n,
  (exists j, (i <= j < length src)%nat /\ (nth_error src j = Some 0 \/ Z.of_nat j >= lim)) -> (length src - i < fuel)%nat ->
  exists j m, scan fuel w src lim i n = Ok (j, m) /\ (i <= j < length src)%nat /\ (Z.of_nat j <= Z.max lim (Z.of_nat i)).
Proof.
  induction fuel as [|fuel IH]; intros i n (j & Hj & Hc) Hf; [lia|].
  cbn [scan]. destruct (get_ok src i) as (c & E & En); [lia|]. rewrite E. cbn [bind].
  destruct (negb (c =? 0) && (Z.of_nat i <? lim)) eqn:B.
  - apply andb_true_iff in B. destruct B as [B1 B2].
    assert (i <> j).
    { intros ->. destruct Hc as [Hc|Hc]; [|lia]. rewrite Hc in En. inversion En; subst. discriminate. }
    destruct (IH (S i) (n + w c)%nat) as (j' & m & E' & Hj' & Hl); [exists j; split; [lia|auto]|lia|].
    exists j', m. split; auto. split; lia.
  - exists i, n. split; auto. split; lia.
Qed.

(* ---- UTF32toUTF8 ---- *)
Lemma u32to8_loop_ok cap : forall todo pre rest fuel out,
  Forall (fun c => 0 <= c <= 0x10FFFF) todo -> (length todo <= fuel)%nat ->
  (length out + length (flat_map utf8 todo) <= cap)%nat ->
  u32to8_loop fuel (pre ++ todo ++ rest) (length pre) (length pre + length todo) cap out = Ok (out ++ flat_map utf8 todo).
Proof.
  induction todo as [|c todo IH]; intros pre rest fuel out Hs Hf Hcap.
  - cbn [length flat_map]. rewrite app_nil_r. destruct fuel; cbn [u32to8_loop]; destruct (Nat.ltb_spec (length pre) (length pre + 0)); auto; lia.
  - destruct fuel as [|fuel]; cbn [length] in Hf; [lia|]. cbn [u32to8_loop length].
    destruct (Nat.ltb_spec (length pre) (length pre + S (length todo))); [|lia]. cbn [app]. rewrite get_app_mid. cbn [bind].
    inversion Hs; subst. cbn [flat_map] in *. rewrite app_length, utf8_length in Hcap by auto.
    destruct (Nat.ltb_spec cap (length out + u32to8_weight c)); [lia|].
    destruct (Z.leb_spec c 1114111); [|lia]. rewrite u8_bytes_utf8 by auto.
    replace (pre ++ c :: todo ++ rest) with ((pre ++ [c]) ++ todo ++ rest) by (rewrite <- !app_assoc; reflexivity).
    replace (S (length pre)) with (length (pre ++ [c])) by (rewrite app_length; cbn; lia).
    replace (length pre + S (length todo))%nat with (length (pre ++ [c]) + length todo)%nat by (rewrite app_length; cbn; lia).
    rewrite IH; auto; [now rewrite <- app_assoc|lia|]. rewrite app_length, utf8_length by auto. lia.
Qed.

(* ---- UTF8toUTF32 ---- *)
Lemma trailing_utf8 c : 0 <= c <= 0x10FFFF -> exists fb r, utf8 c = fb :: r /\ trailingBytes fb = length r.
Proof.
  intros Hc. unfold utf8.
  destruct (Z.ltb_spec c 0x80). { exists c, []. split; auto. unfold trailingBytes. destruct (Z.ltb_spec c 192); auto; lia. }
  destruct (Z.ltb_spec c 0x800).
  { eexists _, _. split; [reflexivity|]. unfold trailingBytes. set (b := 192 + c / 64). assert (192 <= b < 224) by lia. clearbody b.
    destruct (Z.ltb_spec b 192); [lia|]. destruct (Z.ltb_spec b 224); [reflexivity|lia]. }
  destruct (Z.ltb_spec c 0x10000).
  { eexists _, _. split; [reflexivity|]. unfold trailingBytes. set (b := 224 + c / 4096). assert (224 <= b < 240) by lia. clearbody b.
    destruct (Z.ltb_spec b 192); [lia|]. destruct (Z.ltb_spec b 224); [lia|]. destruct (Z.ltb_spec b 240); [reflexivity|lia]. }
  eexists _, _. split; [reflexivity|]. unfold trailingBytes. set (b := 240 + c / 262144). assert (240 <= b < 248) by lia. clearbody b.
  destruct (Z.ltb_spec b 192); [lia|]. destruct (Z.ltb_spec b 224); [lia|]. destruct (Z.ltb_spec b 240); [lia|].
  destruct (Z.ltb_spec b 248); [reflexivity|lia].
Qed.

Ltac goff E := match goal with |- context[get (?p ++ ?m ++ ?r) (length ?p + ?k)] => rewrite (get_app_off p m r k _ E) end.

Lemma bad_trail_ok x : 0 <= x < 64 -> bad_trail (128 + x) = false.
Proof. intros. unfold bad_trail. destruct (Z.ltb_spec (128 + x) 128), (Z.ltb_spec 191 (128 + x)); auto; lia. Qed.

Lemma tail_ok fb : (0 <= fb < 0x80 \/ 0xC2 <= fb <= 0xF4) -> negb ((0x80 <=? fb) && (fb <? 0xC2)) && negb (0xF4 <? fb) = true.
Proof. intros. destruct (Z.leb_spec 0x80 fb), (Z.ltb_spec fb 0xC2), (Z.ltb_spec 0xF4 fb); auto; lia. Qed.

Lemma isLegal_utf8 c pre rest : scalar c -> isLegalUTF8 (pre ++ utf8 c ++ rest) (length pre) (length (utf8 c)) = Ok true.
Proof.
  intros Hc. unfold scalar in Hc. unfold isLegalUTF8.
  destruct (trailing_utf8 c) as (fb & r & E & _); [lia|].
  assert (E0 : get (pre ++ utf8 c ++ rest) (length pre) = Ok fb).
  { pose proof (get_app_off pre (utf8 c) rest 0 fb) as G. rewrite Nat.add_0_r in G. apply G. now rewrite E. }
  rewrite E0. cbn [bind].
  assert (G1 : forall a, nth_error (utf8 c) 1 = Some a -> get (pre ++ utf8 c ++ rest) (length pre + 1) = Ok a) by (intros; now apply get_app_off).
  assert (G2 : forall a, nth_error (utf8 c) 2 = Some a -> get (pre ++ utf8 c ++ rest) (length pre + 2) = Ok a) by (intros; now apply get_app_off).
  assert (G3 : forall a, nth_error (utf8 c) 3 = Some a -> get (pre ++ utf8 c ++ rest) (length pre + 3) = Ok a) by (intros; now apply get_app_off).
  clear E0. set (src := pre ++ utf8 c ++ rest) in *. clearbody src. revert E G1 G2 G3. unfold utf8.
  destruct (Z.ltb_spec c 0x80); [|destruct (Z.ltb_spec c 0x800); [|destruct (Z.ltb_spec c 0x10000)]]; intros E G1 G2 G3;
    apply (f_equal (hd 0)) in E; cbn [hd] in E; subst fb; cbn [length nth_error] in *.
  - f_equal. apply tail_ok. lia.
  - rewrite (G1 _ eq_refl). cbn [bind]. rewrite bad_trail_ok by lia. rewrite tail_ok by lia.
    destruct (Z.eqb_spec (192 + c / 64) 224); [lia|]. destruct (Z.eqb_spec (192 + c / 64) 237); [lia|].
    destruct (Z.eqb_spec (192 + c / 64) 240); [lia|]. destruct (Z.eqb_spec (192 + c / 64) 244); [lia|].
    destruct (Z.ltb_spec (128 + c mod 64) 128); [lia|reflexivity].
  - rewrite (G2 _ eq_refl), (G1 _ eq_refl). cbn [bind]. rewrite !bad_trail_ok by lia. rewrite tail_ok by lia.
    destruct (Z.eqb_spec (224 + c / 4096) 224).
    { destruct (Z.ltb_spec (128 + (c / 64) mod 64) 160); [lia|reflexivity]. }
    destruct (Z.eqb_spec (224 + c / 4096) 237).
    { destruct (Z.ltb_spec 159 (128 + (c / 64) mod 64)); [lia|reflexivity]. }
    destruct (Z.eqb_spec (224 + c / 4096) 240); [lia|]. destruct (Z.eqb_spec (224 + c / 4096) 244); [lia|].
    destruct (Z.ltb_spec (128 + (c / 64) mod 64) 128); [lia|reflexivity].
  - rewrite (G3 _ eq_refl), (G2 _ eq_refl), (G1 _ eq_refl). cbn [bind]. rewrite !bad_trail_ok by lia. rewrite tail_ok by lia.
    destruct (Z.eqb_spec (240 + c / 262144) 224); [lia|]. destruct (Z.eqb_spec (240 + c / 262144) 237); [lia|].
    destruct (Z.eqb_spec (240 + c / 262144) 240).
    { destruct (Z.ltb_spec (128 + (c / 4096) mod 64) 144); [lia|reflexivity]. }
    destruct (Z.eqb_spec (240 + c / 262144) 244).
    { destruct (Z.ltb_spec 143 (128 + (c / 4096) mod 64)); [lia|reflexivity]. }
    destruct (Z.ltb_spec (128 + (c / 4096) mod 64) 128); [lia|reflexivity].
Qed.

Lemma gather_utf8 c pre rest : 0 <= c <= 0x10FFFF ->
  exists ch, gather (pre ++ utf8 c ++ rest) (length pre) (length (utf8 c) - 1) 0 = Ok ch /\
    wrap 32 (ch - nth (length (utf8 c) - 1) offsets 0) = c.
Proof.
  intros Hc.
  assert (G0 : forall a, nth_error (utf8 c) 0 = Some a -> get (pre ++ utf8 c ++ rest) (length pre) = Ok a).
  { intros a H. pose proof (get_app_off pre (utf8 c) rest 0 a H) as G. now rewrite Nat.add_0_r in G. }
  assert (G1 : forall a, nth_error (utf8 c) 1 = Some a -> get (pre ++ utf8 c ++ rest) (S (length pre)) = Ok a).
  { intros a H. replace (S (length pre)) with (length pre + 1)%nat by lia. now apply get_app_off. }
  assert (G2 : forall a, nth_error (utf8 c) 2 = Some a -> get (pre ++ utf8 c ++ rest) (S (S (length pre))) = Ok a).
  { intros a H. replace (S (S (length pre))) with (length pre + 2)%nat by lia. now apply get_app_off. }
  assert (G3 : forall a, nth_error (utf8 c) 3 = Some a -> get (pre ++ utf8 c ++ rest) (S (S (S (length pre)))) = Ok a).
  { intros a H. replace (S (S (S (length pre)))) with (length pre + 3)%nat by lia. now apply get_app_off. }
  set (src := pre ++ utf8 c ++ rest) in *. clearbody src. revert G0 G1 G2 G3. unfold utf8.
  destruct (Z.ltb_spec c 0x80); [|destruct (Z.ltb_spec c 0x800); [|destruct (Z.ltb_spec c 0x10000)]];
    intros G0 G1 G2 G3; cbn [length nth_error Nat.sub gather offsets nth] in *;
    rewrite ?(G0 _ eq_refl), ?(G1 _ eq_refl), ?(G2 _ eq_refl), ?(G3 _ eq_refl); cbn [bind];
    (eexists; split; [reflexivity|]); rewrite ?shl6;
    unfold wrap; change (2 ^ 32) with 4294967296.
  - lia.
  - rewrite (Z.mod_small (0 + (192 + c / 64))) by lia. rewrite (Z.mod_small ((0 + (192 + c / 64)) * 64)) by lia.
    rewrite (Z.mod_small (_ + (128 + c mod 64))) by lia. rewrite Z.mod_small; lia.
  - rewrite (Z.mod_small (0 + (224 + c / 4096))) by lia. rewrite (Z.mod_small ((0 + (224 + c / 4096)) * 64)) by lia.
    rewrite (Z.mod_small (_ + (128 + (c / 64) mod 64))) by lia.
    rewrite (Z.mod_small (_ * 64)) by lia. rewrite (Z.mod_small (_ + (128 + c mod 64))) by lia. rewrite Z.mod_small; lia.
  - rewrite (Z.mod_small (0 + (240 + c / 262144))) by lia. rewrite (Z.mod_small ((0 + (240 + c / 262144)) * 64)) by lia.
    rewrite (Z.mod_small (_ + (128 + (c / 4096) mod 64))) by lia.
    rewrite (Z.mod_small (((0 + (240 + c / 262144)) * 64 + (128 + (c / 4096) mod 64)) * 64)) by lia.
    rewrite (Z.mod_small (_ + (128 + (c / 64) mod 64))) by lia.
    rewrite (Z.mod_small (_ * 64)) by lia.
    rewrite (Z.mod_small (_ + (128 + c mod 64))) by lia. rewrite Z.mod_small; lia.
Qed.

Lemma sanitize_scalar c : scalar c -> sanitize c = c.
Proof.
  unfold scalar, sanitize. intros H. destruct (Z.leb_spec c 1114111); [|lia].
  destruct (Z.leb_spec 55296 c), (Z.leb_spec c 57343); auto; lia.
Qed.

Lemma u8to32_loop_ok cap : forall todo pre rest fuel out,
  Forall scalar todo -> (length todo <= fuel)%nat -> (length out + length todo <= cap)%nat ->
  u8to32_loop fuel (pre ++ flat_map utf8 todo ++ rest) (length pre) (length pre + length (flat_map utf8 todo)) cap out = Ok (out ++ todo).
Proof.
  induction todo as [|c todo IH]; intros pre rest fuel out Hs Hf Hcap.
  - cbn [length flat_map]. rewrite app_nil_r. destruct fuel; cbn [u8to32_loop]; destruct (Nat.ltb_spec (length pre) (length pre + 0)); auto; lia.
  - destruct fuel as [|fuel]; cbn [length] in Hf; [lia|]. inversion Hs as [|? ? Hc Hs']; subst. cbn [flat_map u8to32_loop].
    assert (Hc' : 0 <= c <= 0x10FFFF) by (unfold scalar in Hc; lia).
    rewrite <- app_assoc. rewrite app_length.
    destruct (trailing_utf8 c Hc') as (fb & r & E & Et).
    assert (L : length (utf8 c) = S (length r)) by now rewrite E.
    destruct (Nat.ltb_spec (length pre) (length pre + (length (utf8 c) + length (flat_map utf8 todo)))); [|lia].
    assert (E0 : get (pre ++ utf8 c ++ flat_map utf8 todo ++ rest) (length pre) = Ok fb).
    { pose proof (get_app_off pre (utf8 c) (flat_map utf8 todo ++ rest) 0 fb) as G. rewrite Nat.add_0_r in G. apply G. now rewrite E. }
    rewrite E0. cbn [bind]. rewrite Et.
    match goal with |- context[Nat.leb ?a ?b] => destruct (Nat.leb_spec a b); [lia|] end.
    replace (length r + 1)%nat with (length (utf8 c)) by lia. rewrite isLegal_utf8 by auto. cbn [bind negb].
    destruct (gather_utf8 c pre (flat_map utf8 todo ++ rest) Hc') as (ch & Eg & Ec).
    replace (length (utf8 c) - 1)%nat with (length r) in * by lia. rewrite Eg. cbn [bind].
    assert (Hr : (length r < length offsets)%nat).
    { pose proof (utf8_length c Hc'). pose proof (weight8_le c). cbn. lia. }
    rewrite (get_some offsets (length r) (nth (length r) offsets 0)) by (now apply nth_error_nth').
    cbn [bind]. rewrite Ec. cbn [length] in Hcap. destruct (Nat.leb_spec cap (length out)); [lia|].
    rewrite sanitize_scalar by auto.
    replace (pre ++ utf8 c ++ flat_map utf8 todo ++ rest) with ((pre ++ utf8 c) ++ flat_map utf8 todo ++ rest) by (rewrite <- !app_assoc; reflexivity).
    replace (length pre + length r + 1)%nat with (length (pre ++ utf8 c)) by (rewrite app_length; lia).
    replace (length pre + (length (utf8 c) + length (flat_map utf8 todo)))%nat with (length (pre ++ utf8 c) + length (flat_map utf8 todo))%nat by (rewrite app_length; lia).
    rewrite IH; auto; [now rewrite <- app_assoc|lia|]. rewrite app_length. cbn [length]. lia.
Qed.

Lemma weight8to32 c : 0 <= c <= 0x10FFFF -> total u8to32_weight (utf8 c) = 1%nat.
Proof.
  intros Hc. unfold utf8, total, u8to32_weight.
  destruct (Z.ltb_spec c 0x80); [|destruct (Z.ltb_spec c 0x800); [|destruct (Z.ltb_spec c 0x10000)]]; cbn [map list_sum fold_right];
    rewrite !landC0 by lia; repeat match goal with |- context[Z.eqb ?a ?b] => destruct (Z.eqb_spec a b); try lia end; auto.
Qed.

Lemma total_app w a b : total w (a ++ b) = (total w a + total w b)%nat.
Proof. unfold total. rewrite map_app. apply list_sum_app. Qed.
Lemma total_flat cps : Forall (fun c => 0 <= c <= 0x10FFFF) cps -> total u8to32_weight (flat_map utf8 cps) = length cps.
Proof. induction 1; auto. cbn [flat_map length]. rewrite total_app, weight8to32, IHForall; auto. Qed.
Lemma total_len8 cps : Forall (fun c => 0 <= c <= 0x10FFFF) cps -> total u32to8_weight cps = length (flat_map utf8 cps).
Proof. induction 1; auto. cbn [flat_map]. rewrite app_length, utf8_length by auto. rewrite <- IHForall. reflexivity. Qed.

Lemma utf8_nonzero c : 0 < c <= 0x10FFFF -> Forall (fun b => b <> 0) (utf8 c).
Proof.
  intros Hc. unfold utf8. destruct (Z.ltb_spec c 0x80); [|destruct (Z.ltb_spec c 0x800); [|destruct (Z.ltb_spec c 0x10000)]];
    repeat (apply Forall_cons; [lia|]); constructor.
Qed.

(* ---- UTF-16 ---- *)
Lemma utf16_length c : length (utf16 c) = if c <? 0x10000 then 1%nat else 2%nat.
Proof. unfold utf16. destruct (c <? 65536); reflexivity. Qed.
Lemma weight16 c : u32to16_weight c = length (utf16 c).
Proof. rewrite utf16_length. unfold u32to16_weight. destruct (Z.ltb_spec 65535 c), (Z.ltb_spec c 65536); auto; lia. Qed.
Lemma total_len16 cps : total u32to16_weight cps = length (flat_map utf16 cps).
Proof. induction cps; auto. cbn [flat_map]. rewrite app_length, <- weight16, <- IHcps. reflexivity. Qed.

Lemma u32to16_loop_ok cap : forall todo pre rest fuel out,
  Forall scalar todo -> (length todo <= fuel)%nat ->
  (length out + length (flat_map utf16 todo) <= cap)%nat ->
  u32to16_loop fuel (pre ++ todo ++ rest) (length pre) (length pre + length todo) cap out = Ok (out ++ flat_map utf16 todo).
Proof.
  induction todo as [|c todo IH]; intros pre rest fuel out Hs Hf Hcap.
  - cbn [length flat_map]. rewrite app_nil_r. destruct fuel; cbn [u32to16_loop]; destruct (Nat.ltb_spec (length pre) (length pre + 0)); auto; lia.
  - destruct fuel as [|fuel]; cbn [length] in Hf; [lia|]. cbn [u32to16_loop length].
    destruct (Nat.ltb_spec (length pre) (length pre + S (length todo))); [|lia]. inversion Hs as [|? ? Hc Hs']; subst.
    cbn [flat_map] in *. rewrite app_length in Hcap. pose proof (utf16_length c) as L16.
    destruct (Nat.leb_spec cap (length out)); [destruct (c <? 65536); lia|].
    cbn [app]. rewrite get_app_mid. cbn [bind].
    replace (pre ++ c :: todo ++ rest) with ((pre ++ [c]) ++ todo ++ rest) by (rewrite <- !app_assoc; reflexivity).
    replace (S (length pre)) with (length (pre ++ [c])) by (rewrite app_length; cbn; lia).
    replace (length pre + S (length todo))%nat with (length (pre ++ [c]) + length todo)%nat by (rewrite app_length; cbn; lia).
    unfold scalar in Hc. unfold utf16 at 1. unfold utf16 in Hcap at 1.
    destruct (Z.leb_spec c 65535).
    + destruct (Z.ltb_spec c 65536); [|lia]. cbn [length] in Hcap.
      replace ((55296 <=? c) && (c <=? 57343)) with false by (destruct (Z.leb_spec 55296 c), (Z.leb_spec c 57343); auto; lia).
      rewrite wrap16 by lia. rewrite IH; auto; [now rewrite <- app_assoc|lia|]. rewrite app_length. cbn [length]. lia.
    + destruct (Z.ltb_spec c 65536); [lia|]. cbn [length] in Hcap. destruct (Z.ltb_spec 1114111 c); [lia|].
      destruct (Nat.leb_spec cap (length out + 1)); [lia|]. rewrite shr10, land3ff. rewrite !wrap16 by lia.
      rewrite (Z.add_comm _ 55296), (Z.add_comm _ 56320).
      rewrite IH; auto; [now rewrite <- app_assoc|lia|]. rewrite app_length. cbn [length]. lia.
Qed.

Lemma u16to32_loop_ok cap : forall todo pre rest fuel out,
  Forall scalar todo -> (length todo <= fuel)%nat -> (length out + length todo <= cap)%nat ->
  u16to32_loop fuel (pre ++ flat_map utf16 todo ++ rest) (length pre) (length pre + length (flat_map utf16 todo)) cap out = Ok (out ++ todo).
Proof.
  induction todo as [|c todo IH]; intros pre rest fuel out Hs Hf Hcap.
  - cbn [length flat_map]. rewrite app_nil_r. destruct fuel; cbn [u16to32_loop]; destruct (Nat.ltb_spec (length pre) (length pre + 0)); auto; lia.
  - destruct fuel as [|fuel]; cbn [length] in Hf; [lia|]. cbn [u16to32_loop flat_map].
    inversion Hs as [|? ? Hc Hs']; subst. unfold scalar in Hc. cbn [length] in Hcap. rewrite app_length.
    assert (EQ : (pre ++ (utf16 c ++ flat_map utf16 todo) ++ rest) = ((pre ++ utf16 c) ++ flat_map utf16 todo ++ rest)) by (rewrite <- !app_assoc; reflexivity).
    assert (L2 : (length pre + (length (utf16 c) + length (flat_map utf16 todo)))%nat = (length (pre ++ utf16 c) + length (flat_map utf16 todo))%nat) by (rewrite app_length; lia).
    assert (Fin : (if (cap <=? length out)%nat then Ok out else
      u16to32_loop fuel (pre ++ (utf16 c ++ flat_map utf16 todo) ++ rest) (length (pre ++ utf16 c)) (length pre + (length (utf16 c) + length (flat_map utf16 todo))) cap (out ++ [c])) = Ok (out ++ c :: todo)).
    { destruct (Nat.leb_spec cap (length out)); [lia|]. rewrite EQ, L2. rewrite IH; auto; [now rewrite <- app_assoc|lia|]. rewrite app_length. cbn [length]. lia. }
    pose proof (utf16_length c) as Lc.
    destruct (Nat.ltb_spec (length pre) (length pre + (length (utf16 c) + length (flat_map utf16 todo)))); [|destruct (c <? 65536); lia].
    rewrite app_length in Fin. remember (flat_map utf16 todo) as F eqn:EF in *. clear EF IH EQ L2 Lc.
    assert (U : utf16 c = if c <? 65536 then [c] else [55296 + (c - 65536) / 1024; 56320 + (c - 65536) mod 1024]) by reflexivity.
    rewrite U in *. clear U. revert Fin.
    destruct (Z.ltb_spec c 65536); cbn [app length]; intros Fin.
    + rewrite get_app_mid. cbn [bind]. replace ((55296 <=? c) && (c <=? 56319)) with false by (destruct (Z.leb_spec 55296 c), (Z.leb_spec c 56319); auto; lia).
      replace (S (length pre)) with (length pre + 1)%nat by lia. exact Fin.
    + rewrite get_app_mid. cbn [bind]. set (hi := 55296 + (c - 65536) / 1024) in *. set (lo := 56320 + (c - 65536) mod 1024) in *.
      replace ((55296 <=? hi) && (hi <=? 56319)) with true by (destruct (Z.leb_spec 55296 hi), (Z.leb_spec hi 56319); unfold hi in *; auto; lia).
      match goal with |- context[Nat.ltb (S (length pre)) ?q] => destruct (Nat.ltb_spec (S (length pre)) q); [|lia] end.
      assert (G : get (pre ++ hi :: lo :: F ++ rest) (S (length pre)) = Ok lo).
      { replace (S (length pre)) with (length pre + 1)%nat by lia.
        apply (get_app_off pre [hi; lo] (F ++ rest) 1). reflexivity. }
      rewrite G. cbn [bind].
      replace ((56320 <=? lo) && (lo <=? 57343)) with true by (destruct (Z.leb_spec 56320 lo), (Z.leb_spec lo 57343); unfold lo in *; auto; lia).
      rewrite shl10. replace (wrap 32 ((hi - 55296) * 1024 + (lo - 56320) + 65536)) with c by (rewrite wrap32; unfold hi, lo; lia).
      replace (S (S (length pre))) with (length pre + 2)%nat by lia. exact Fin.
Qed.

(* ---- safety on arbitrary contents ---- *)
Lemma isLegal_total src s n : (s + n <= length src)%nat -> (0 < n)%nat -> exists b, isLegalUTF8 src s n = Ok b.
Proof.
  intros H H0. unfold isLegalUTF8. destruct (get_ok src s) as (x & -> & _); [lia|]. cbn [bind].
  do 5 (destruct n as [|n]; [first [lia|
    repeat match goal with
    | |- context[get src ?i] => destruct (get_ok src i) as (? & -> & _); [lia|]; cbn [bind]
    | |- context[if ?b then _ else _] => destruct b
    end; eauto]|]). eauto.
Qed.
Lemma gather_total src : forall n s ch, (s + n < length src)%nat -> exists v, gather src s n ch = Ok v.
Proof.
  induction n as [|n IH]; intros s ch H; cbn [gather]; destruct (get_ok src s) as (x & -> & _); try lia; cbn [bind]; eauto.
  apply IH. lia.
Qed.
Lemma trailing_le b : (trailingBytes b <= 5)%nat.
Proof. unfold trailingBytes. destruct (b <? 192), (b <? 224), (b <? 240), (b <? 248), (b <? 252); lia. Qed.
Lemma sanitize_is_scalar c : 0 <= c -> scalar (sanitize c).
Proof.
  intros H. unfold sanitize, scalar. destruct (Z.leb_spec c 1114111); [|lia].
  destruct (Z.leb_spec 55296 c), (Z.leb_spec c 57343); cbn [andb]; lia.
Qed.

Lemma u8to32_loop_total src e cap : (e <= length src)%nat -> forall fuel s out,
  (e - s <= fuel)%nat -> Forall scalar out -> (length out <= cap)%nat ->
  exists o, u8to32_loop fuel src s e cap out = Ok o /\ (length o <= cap)%nat /\ Forall scalar o.
Proof.
  intros He. induction fuel as [|fuel IH]; intros s out Hf Hs Hc; cbn [u8to32_loop].
  - destruct (Nat.ltb_spec s e); [lia|]. eauto.
  - destruct (Nat.ltb_spec s e); [|eauto]. destruct (get_ok src s) as (fb & -> & _); [lia|]. cbn [bind].
    destruct (Nat.leb_spec (e - s) (trailingBytes fb)); [eauto|].
    destruct (isLegal_total src s (trailingBytes fb + 1)) as (b & ->); [lia|lia|]. cbn [bind]. destruct b; cbn [negb]; [|eauto].
    destruct (gather_total src (trailingBytes fb) s 0) as (v & ->); [lia|]. cbn [bind].
    pose proof (trailing_le fb). destruct (get_ok offsets (trailingBytes fb)) as (off & -> & _); [cbn; lia|]. cbn [bind].
    destruct (Nat.leb_spec cap (length out)); [eauto|]. apply IH; [lia| |].
    + apply Forall_app. split; auto. constructor; auto. apply sanitize_is_scalar. apply wrap32_range.
    + rewrite app_length. cbn. lia.
Qed.

Lemma u32to8_loop_total src e cap : (e <= length src)%nat -> forall fuel s out,
  (e - s <= fuel)%nat -> (length out <= cap)%nat ->
  exists o, u32to8_loop fuel src s e cap out = Ok o /\ (length o <= cap)%nat.
Proof.
  intros He. induction fuel as [|fuel IH]; intros s out Hf Hc; cbn [u32to8_loop].
  - destruct (Nat.ltb_spec s e); [lia|]. eauto.
  - destruct (Nat.ltb_spec s e); [|eauto]. destruct (get_ok src s) as (c & -> & _); [lia|]. cbn [bind].
    destruct (Nat.ltb_spec cap (length out + u32to8_weight c)); [eauto|]. apply IH; [lia|].
    pose proof (weight8_le c). rewrite app_length, u8_bytes_length by lia. lia.
Qed.

Lemma u32to16_loop_total src e cap : (e <= length src)%nat -> forall fuel s out,
  (e - s <= fuel)%nat -> (length out <= cap)%nat ->
  exists o, u32to16_loop fuel src s e cap out = Ok o /\ (length o <= cap)%nat.
Proof.
  intros He. induction fuel as [|fuel IH]; intros s out Hf Hc; cbn [u32to16_loop].
  - destruct (Nat.ltb_spec s e); [lia|]. eauto.
  - destruct (Nat.ltb_spec s e); [|eauto]. destruct (Nat.leb_spec cap (length out)); [eauto|].
    destruct (get_ok src s) as (c & -> & _); [lia|]. cbn [bind].
    destruct (c <=? 65535); [apply IH; [lia|rewrite app_length; cbn; lia]|].
    destruct (1114111 <? c); [apply IH; [lia|rewrite app_length; cbn; lia]|].
    destruct (Nat.leb_spec cap (length out + 1)); [eauto|]. apply IH; [lia|rewrite app_length; cbn; lia].
Qed.

Lemma u16to32_loop_total src e cap : (e <= length src)%nat -> forall fuel s out,
  (e - s <= fuel)%nat -> (length out <= cap)%nat ->
  exists o, u16to32_loop fuel src s e cap out = Ok o /\ (length o <= cap)%nat.
Proof.
  intros He. induction fuel as [|fuel IH]; intros s out Hf Hc; cbn [u16to32_loop].
  - destruct (Nat.ltb_spec s e); [lia|]. eauto.
  - destruct (Nat.ltb_spec s e); [|eauto]. destruct (get_ok src s) as (c & -> & _); [lia|]. cbn [bind].
    assert (Em : forall s' ch, (s < s')%nat -> exists o, (if (cap <=? length out)%nat then Ok out else u16to32_loop fuel src s' e cap (out ++ [ch])) = Ok o /\ (length o <= cap)%nat).
    { intros s' ch Hs'. destruct (Nat.leb_spec cap (length out)); [eauto|]. apply IH; [lia|rewrite app_length; cbn; lia]. }
    destruct ((55296 <=? c) && (c <=? 56319)); [|apply Em; lia].
    destruct (Nat.ltb_spec (S s) e); [|eauto]. destruct (get_ok src (S s)) as (c2 & -> & _); [lia|]. cbn [bind].
    destruct ((56320 <=? c2) && (c2 <=? 57343)); apply Em; lia.
Qed.
