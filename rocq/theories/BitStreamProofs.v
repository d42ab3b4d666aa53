From Coq Require Import List ZArith Bool Lia Arith.
From Coq Require Import ZifyBool ZifyNat.
From Verif Require Import Common MiscBitProofs BitStreamSpec BitStream.
Import ListNotations.
Local Open Scope Z_scope.

Lemma bits_length n x : length (bits n x) = n.
Proof. unfold bits. now rewrite map_length, seq_length. Qed.
Lemma mem_bits_length d : length (mem_bits d) = (8 * length d)%nat.
Proof. unfold mem_bits. induction d; auto. cbn [flat_map]. rewrite app_length, bits_length, IHd. cbn [length]. lia. Qed.
Lemma mem_bits_app a b : mem_bits (a ++ b) = mem_bits a ++ mem_bits b.
Proof. apply flat_map_app. Qed.

Lemma nth_error_bits n x j : nth_error (bits n x) j = if (j <? n)%nat then Some (Z.testbit x (Z.of_nat j)) else None.
Proof.
  unfold bits. rewrite nth_error_map. destruct (Nat.ltb_spec j n).
  - rewrite nth_error_nth' with (d := 0%nat) by (rewrite seq_length; lia). rewrite seq_nth by lia. reflexivity.
  - rewrite (proj2 (nth_error_None _ _)); auto. rewrite seq_length. lia.
Qed.

Lemma byte_wrap x : byte (wrap 8 x).
Proof. unfold byte, wrap. change (2 ^ 8) with 256. lia. Qed.

Lemma byte_testbit_high x j : byte x -> 8 <= j -> Z.testbit x j = false.
Proof.
  intros [H1 H2] Hj. destruct (Z.eq_dec x 0) as [->|]; [apply Z.bits_0|].
  apply Z.bits_above_log2; [lia|]. assert (Z.log2 x < 8); [|lia]. apply Z.log2_lt_pow2; lia.
Qed.

Lemma bits8_inj a b : byte a -> byte b -> bits 8 a = bits 8 b -> a = b.
Proof.
  intros Ha Hb E. apply Z.bits_inj'. intros j Hj. destruct (Z.lt_ge_cases j 8).
  - apply (f_equal (fun l => nth_error l (Z.to_nat j))) in E. rewrite !nth_error_bits in E.
    destruct (Nat.ltb_spec (Z.to_nat j) 8); [|lia]. rewrite Z2Nat.id in E by lia. congruence.
  - rewrite !byte_testbit_high; auto.
Qed.

Lemma mem_bits_inj : forall a b, bytes a -> bytes b -> mem_bits a = mem_bits b -> a = b.
Proof.
  induction a as [|x a IH]; intros [|y b] Ha Hb E; auto.
  - apply (f_equal (@length _)) in E. rewrite !mem_bits_length in E. cbn in E. lia.
  - apply (f_equal (@length _)) in E. rewrite !mem_bits_length in E. cbn in E. lia.
  - inversion Ha; inversion Hb; subst. unfold mem_bits in E. cbn [flat_map] in E.
    assert (E1 := f_equal (firstn 8) E). assert (E2 := f_equal (skipn 8) E).
    rewrite !firstn_app, !skipn_app, !bits_length, !firstn_all2, !skipn_all2 in * by (rewrite bits_length; lia).
    change (8 - 8)%nat with 0%nat in *. cbn [firstn skipn app] in *. rewrite !app_nil_r in E1.
    f_equal; [apply bits8_inj; auto|apply IH; auto].
Qed.

Lemma testbit_wrap8 x j : 0 <= j -> Z.testbit (wrap 8 x) j = (j <? 8) && Z.testbit x j.
Proof.
  intros. unfold wrap. destruct (Z.ltb_spec j 8); cbn [andb].
  - now rewrite Z.mod_pow2_bits_low by lia.
  - rewrite Z.mod_pow2_bits_high; auto. lia.
Qed.

(* the low bits of x moved above the w pending bits of buf *)
Lemma put_bits buf x w : (w <= 7)%nat -> 0 <= buf < 2 ^ Z.of_nat w ->
  bits 8 (wrap 8 (Z.lor buf (Z.shiftl x (Z.of_nat w)))) = bits w buf ++ firstn (8 - w) (bits 8 x).
Proof.
  intros Hw Hb. apply nth_error_ext. intros j. rewrite nth_error_bits. destruct (Nat.ltb_spec j 8).
  - rewrite testbit_wrap8 by lia. destruct (Z.ltb_spec (Z.of_nat j) 8); [|lia]. cbn [andb].
    rewrite Z.lor_spec, Z.shiftl_spec by lia. destruct (Nat.lt_ge_cases j w) as [Hj|Hj].
    + rewrite nth_error_app1 by (rewrite bits_length; lia). rewrite nth_error_bits. destruct (Nat.ltb_spec j w); [|lia].
      rewrite (Z.testbit_neg_r x) by lia. now rewrite orb_false_r.
    + rewrite nth_error_app2 by (rewrite bits_length; lia). rewrite bits_length, nth_error_firstn, nth_error_bits.
      destruct (Nat.ltb_spec (j - w) (8 - w)); [|lia]. destruct (Nat.ltb_spec (j - w) 8); [|lia].
      replace (Z.testbit buf (Z.of_nat j)) with false.
      * rewrite orb_false_l. do 2 f_equal. lia.
      * symmetry. destruct (Z.eq_dec buf 0) as [->|]; [apply Z.bits_0|]. apply Z.bits_above_log2; [lia|].
        assert (Z.log2 buf < Z.of_nat w) by (apply Z.log2_lt_pow2; lia). lia.
  - symmetry. apply nth_error_None. rewrite app_length, firstn_length, !bits_length. lia.
Qed.

Lemma carry_bits x w : (w <= 7)%nat -> byte x ->
  bits w (wrap 8 (Z.shiftr x (8 - Z.of_nat w))) = skipn (8 - w) (bits 8 x).
Proof.
  intros Hw Hx. apply nth_error_ext. intros j. rewrite nth_error_bits, nth_error_skipn, nth_error_bits.
  destruct (Nat.ltb_spec j w), (Nat.ltb_spec (8 - w + j) 8); try lia; auto.
  rewrite testbit_wrap8, Z.shiftr_spec by lia. destruct (Z.ltb_spec (Z.of_nat j) 8); [|lia]. cbn [andb].
  do 2 f_equal. lia.
Qed.

Lemma carry_range x w : (w <= 7)%nat -> byte x -> 0 <= wrap 8 (Z.shiftr x (8 - Z.of_nat w)) < 2 ^ Z.of_nat w.
Proof.
  intros Hw [H1 H2]. unfold wrap. rewrite Z.shiftr_div_pow2 by lia.
  assert (E : 2 ^ 8 = 2 ^ (8 - Z.of_nat w) * 2 ^ Z.of_nat w) by (rewrite <- Z.pow_add_r by lia; f_equal; lia).
  assert (0 < 2 ^ (8 - Z.of_nat w)) by (apply Z.pow_pos_nonneg; lia).
  assert (0 <= x / 2 ^ (8 - Z.of_nat w) < 2 ^ Z.of_nat w).
  { split; [apply Z.div_pos; lia|]. apply Z.div_lt_upper_bound; auto. rewrite <- E. exact H2. }
  rewrite Z.mod_small; auto. split; [lia|]. apply Z.lt_le_trans with (2 ^ Z.of_nat w); [lia|]. apply Z.pow_le_mono_r; lia.
Qed.

Lemma mask_bits x m w : (w <= m)%nat -> bits w (Z.land x (Z.shiftl 1 (Z.of_nat m) - 1)) = bits w x.
Proof.
  intros H. rewrite Z.shiftl_1_l, Z.sub_1_r, <- Z.ones_equiv, Z.land_ones by lia.
  apply nth_error_ext. intros j. rewrite !nth_error_bits. destruct (Nat.ltb_spec j w); auto.
  now rewrite Z.mod_pow2_bits_low by lia.
Qed.

Lemma mask_range x m : 0 <= Z.land x (Z.shiftl 1 (Z.of_nat m) - 1) < 2 ^ Z.of_nat m.
Proof.
  rewrite Z.shiftl_1_l, Z.sub_1_r, <- Z.ones_equiv, Z.land_ones by lia. apply Z.mod_pos_bound. apply Z.pow_pos_nonneg; lia.
Qed.

(* what the writer has accepted so far *)
Definition content (s : writer) : list bool := mem_bits (wbase s) ++ bits (Z.to_nat (woff s)) (wbuf s).
Definition winv (s : writer) : Prop :=
  0 <= woff s <= 7 /\ 0 <= wbuf s < 2 ^ woff s /\ bytes (wbase s).

Lemma write_loop_ok : forall q d k s, winv s -> bytes d -> (k + q <= length d)%nat ->
  exists s', write_loop q d k s = Ok s' /\ winv s' /\ woff s' = woff s /\
    content s' = content s ++ mem_bits (firstn q (skipn k d)).
Proof.
  induction q as [|q IH]; intros d k s Hs Hd Hk; cbn [write_loop].
  - exists s. cbn [firstn]. cbn. rewrite app_nil_r. auto.
  - destruct (nth_error_ex d k) as [x Hx]; [lia|]. rewrite (get_some _ _ _ Hx). cbn [bind].
    assert (Bx : byte x) by (apply (proj1 (Forall_forall _ _) Hd); eapply nth_error_In; eauto).
    destruct Hs as (Ho & Hb & Hl). assert (Ew : woff s = Z.of_nat (Z.to_nat (woff s))) by lia.
    set (w := Z.to_nat (woff s)) in *. clearbody w.
    rewrite Ew in Hb |- *. assert (w <= 7)%nat by lia.
    edestruct (IH d (S k)) as (s' & E & I & O & C); [| |lia|].
    2:exact Hd. 2:{ exists s'. rewrite E. split; auto. split; auto. split; [exact O|]. rewrite C.
      unfold content. cbn [wbase wbuf woff]. rewrite Nat2Z.id. rewrite carry_bits by auto.
      rewrite mem_bits_app. cbn [mem_bits flat_map]. rewrite app_nil_r, put_bits by auto.
      rewrite (skipn_cons _ _ _ Hx). cbn [firstn mem_bits flat_map].
      rewrite Ew, Nat2Z.id, <- !app_assoc. do 2 f_equal. rewrite app_assoc, firstn_skipn. reflexivity. }
    split; cbn [woff wbuf wbase]; [lia|]. split; [now apply carry_range|].
    apply Forall_app. split; auto. constructor; [apply byte_wrap|constructor].
Qed.

Lemma Write_ok s d n : winv s -> bytes d -> (n <= 8 * length d)%nat ->
  exists s', Write s d n = Ok s' /\ winv s' /\ content s' = content s ++ firstn n (mem_bits d).
Proof.
  intros Hs Hd Hn. unfold Write.
  destruct (write_loop_ok (n / 8) d 0 s Hs Hd) as (s1 & -> & I & _ & C); [lia|]. cbn [bind skipn] in *.
  assert (En : n = (8 * (n / 8) + n mod 8)%nat) by lia.
  assert (Ef : firstn n (mem_bits d) = mem_bits (firstn (n / 8) d) ++ firstn (n mod 8) (mem_bits (skipn (n / 8) d))).
  { rewrite <- (firstn_skipn (n / 8) d) at 1. rewrite mem_bits_app, firstn_app, mem_bits_length, firstn_length.
    replace (n - 8 * Nat.min (n / 8) (length d))%nat with (n mod 8)%nat by lia. f_equal.
    apply firstn_all2. rewrite mem_bits_length, firstn_length. lia. }
  rewrite Ef. clear Ef. assert (Hr : (n mod 8 <= 7)%nat) by lia. set (i := (n mod 8)%nat) in *. set (k := (n / 8)%nat) in *.
  clearbody i k. destruct (Z.eqb_spec (Z.of_nat i) 0).
  { exists s1. assert (i = 0)%nat by lia. subst i. cbn [firstn]. rewrite app_nil_r. auto. }
  destruct (nth_error_ex d k) as [x Hx]; [lia|]. rewrite (get_some _ _ _ Hx). cbn [bind].
  assert (Bx : byte x) by (apply (proj1 (Forall_forall _ _) Hd); eapply nth_error_In; eauto).
  rewrite (skipn_cons _ _ _ Hx). cbn [mem_bits flat_map]. rewrite firstn_app, bits_length.
  replace (i - 8)%nat with 0%nat by lia. cbn [firstn]. rewrite app_nil_r, app_assoc, <- C.
  destruct I as (Ho & Hb & Hl). unfold content. assert (Ew : woff s1 = Z.of_nat (Z.to_nat (woff s1))) by lia.
  set (w := Z.to_nat (woff s1)) in *. clearbody w. rewrite Ew in *. assert (w <= 7)%nat by lia.
  assert (Eland : Z.land (Z.of_nat w + Z.of_nat i) 7 = Z.of_nat (if (8 <=? Z.of_nat w + Z.of_nat i)%Z then w + i - 8 else w + i)%nat).
  { change 7 with (Z.ones 3). rewrite Z.land_ones by lia. change (2 ^ 3) with 8. destruct (Z.leb_spec 8 (Z.of_nat w + Z.of_nat i)); lia. }
  rewrite Eland. destruct (Z.leb_spec 8 (Z.of_nat w + Z.of_nat i)).
  - eexists. split; [reflexivity|]. split.
    + split; cbn [woff wbuf wbase]; [lia|]. split; [apply mask_range|]. apply Forall_app. split; auto. constructor; [apply byte_wrap|constructor].
    + cbn [woff wbuf wbase]. rewrite Nat2Z.id, mask_bits by lia.
      rewrite mem_bits_app. cbn [mem_bits flat_map]. rewrite app_nil_r, put_bits by auto. rewrite <- !app_assoc. do 2 f_equal.
      rewrite <- (firstn_skipn (8 - w) (firstn i (bits 8 x))). rewrite firstn_firstn, Nat.min_l by lia. f_equal.
      rewrite skipn_firstn_comm, <- carry_bits by auto. replace (i - (8 - w))%nat with (w + i - 8)%nat by lia.
      set (c := wrap 8 (Z.shiftr x (8 - Z.of_nat w))). apply nth_error_ext. intros j.
      rewrite nth_error_firstn, !nth_error_bits. destruct (Nat.ltb_spec j (w + i - 8)), (Nat.ltb_spec j w); auto; lia.
  - eexists. split; [reflexivity|]. split.
    + split; cbn [woff wbuf wbase]; [lia|]. split; [apply mask_range|auto].
    + cbn [woff wbuf wbase]. rewrite Nat2Z.id, mask_bits by lia. rewrite <- app_assoc. f_equal.
      assert (G : bits (w + i) (wrap 8 (Z.lor (wbuf s1) (Z.shiftl x (Z.of_nat w)))) = firstn (w + i) (bits 8 (wrap 8 (Z.lor (wbuf s1) (Z.shiftl x (Z.of_nat w)))))).
      { apply nth_error_ext. intros j. rewrite nth_error_firstn, !nth_error_bits. destruct (Nat.ltb_spec j (w + i)), (Nat.ltb_spec j 8); auto; lia. }
      rewrite G, put_bits by auto. rewrite firstn_app, bits_length, firstn_firstn.
      rewrite firstn_all2 by (rewrite bits_length; lia). f_equal. f_equal. lia.
Qed.

Definition padded (l : list bool) : list bool := l ++ repeat false ((8 - length l mod 8) mod 8).

Lemma bits_padded b w : (w <= 7)%nat -> 0 <= b < 2 ^ Z.of_nat w -> bits 8 b = bits w b ++ repeat false (8 - w).
Proof.
  intros Hw Hb. rewrite <- (put_bits b 0 w Hw Hb) at 1 || idtac.
  pose proof (put_bits b 0 w Hw Hb) as P. rewrite Z.shiftl_0_l, Z.lor_0_r in P.
  assert (2 ^ Z.of_nat w <= 2 ^ 8) by (apply Z.pow_le_mono_r; lia).
  unfold wrap in P. rewrite Z.mod_small in P by lia. rewrite P. f_equal.
  apply nth_error_ext. intros j. rewrite nth_error_firstn, nth_error_bits.
  destruct (Nat.ltb_spec j (8 - w)).
  - destruct (Nat.ltb_spec j 8); [|lia]. rewrite Z.bits_0. symmetry.
    rewrite nth_error_nth' with (d := false) by (rewrite repeat_length; lia). f_equal. apply nth_repeat.
  - symmetry. apply nth_error_None. rewrite repeat_length. lia.
Qed.

Lemma Flush_ok s : winv s -> bytes (wbase (Flush s)) /\ mem_bits (wbase (Flush s)) = padded (content s).
Proof.
  intros (Ho & Hb & Hl). unfold Flush, content, padded. destruct (Z.eqb_spec (woff s) 0) as [E|E].
  - split; auto. rewrite E. cbn [Z.to_nat]. change (bits 0 (wbuf s)) with (@nil bool). rewrite app_nil_r, mem_bits_length.
    replace ((8 - (8 * length (wbase s)) mod 8) mod 8)%nat with 0%nat by lia. cbn. now rewrite app_nil_r.
  - cbn [wbase]. assert (Ew : woff s = Z.of_nat (Z.to_nat (woff s))) by lia. set (w := Z.to_nat (woff s)) in *. clearbody w.
    rewrite Ew in Hb, Ho, E. assert (w <= 7)%nat by lia. split.
    + apply Forall_app. split; auto. constructor; [|constructor]. split; [lia|].
      assert (2 ^ Z.of_nat w <= 2 ^ 8) by (apply Z.pow_le_mono_r; lia). change (2 ^ 8) with 256 in *. lia.
    + rewrite mem_bits_app. cbn [mem_bits flat_map]. rewrite app_nil_r, (bits_padded (wbuf s) w) by auto.
      rewrite <- app_assoc. do 3 f_equal. rewrite app_length, mem_bits_length, bits_length. lia.
Qed.

Lemma write_all_ok : forall l s, winv s -> Forall (fun p => bytes (fst p) /\ (snd p <= 8 * length (fst p))%nat) l ->
  exists s', write_all s l = Ok s' /\ bytes (wbase s') /\
    mem_bits (wbase s') = padded (content s ++ flat_map (fun p => firstn (snd p) (mem_bits (fst p))) l).
Proof.
  induction l as [|[d n] l IH]; intros s Hs Hl; cbn [write_all].
  - exists (Flush s). split; auto. cbn [flat_map]. rewrite app_nil_r. now apply Flush_ok.
  - inversion Hl as [|? ? [H1 H2] H3]; subst. cbn [fst snd] in *.
    destruct (Write_ok s d n Hs H1 H2) as (s1 & -> & I & C). cbn [bind].
    destruct (IH s1 I H3) as (s' & -> & B & E). exists s'. split; auto. split; auto.
    rewrite E, C. cbn [flat_map fst snd]. now rewrite app_assoc.
Qed.

(* ---------------- reading ---------------- *)
Definition rest (s : reader) : list bool := skipn (Z.to_nat (roff s)) (mem_bits (skipn (rpos s) (rbase s))).
Definition rinv (s : reader) : Prop := 0 <= roff s <= 7 /\ bytes (rbase s).

Lemma join_bits a b r : (r <= 7)%nat -> byte a ->
  bits 8 (wrap 8 (Z.lor (wrap 8 (Z.shiftr a (Z.of_nat r))) (Z.shiftl b (8 - Z.of_nat r)))) =
  skipn r (bits 8 a) ++ firstn r (bits 8 b).
Proof.
  intros Hr Ha. apply nth_error_ext. intros j. rewrite nth_error_bits. destruct (Nat.ltb_spec j 8).
  - rewrite testbit_wrap8 by lia. destruct (Z.ltb_spec (Z.of_nat j) 8); [|lia]. cbn [andb].
    rewrite Z.lor_spec, Z.shiftl_spec, testbit_wrap8, Z.shiftr_spec by lia.
    destruct (Z.ltb_spec (Z.of_nat j) 8); [|lia]. cbn [andb].
    destruct (Nat.lt_ge_cases j (8 - r)) as [Hj|Hj].
    + rewrite nth_error_app1 by (rewrite skipn_length, bits_length; lia). rewrite nth_error_skipn, nth_error_bits.
      destruct (Nat.ltb_spec (r + j) 8); [|lia].
      rewrite (Z.testbit_neg_r b) by lia. rewrite orb_false_r. do 2 f_equal. lia.
    + rewrite nth_error_app2 by (rewrite skipn_length, bits_length; lia). rewrite skipn_length, bits_length, nth_error_firstn, nth_error_bits.
      destruct (Nat.ltb_spec (j - (8 - r)) r); [|lia]. destruct (Nat.ltb_spec (j - (8 - r)) 8); [|lia].
      rewrite byte_testbit_high by (auto; lia). rewrite orb_false_l. do 2 f_equal. lia.
  - symmetry. apply nth_error_None. rewrite app_length, firstn_length, skipn_length, !bits_length. lia.
Qed.

Lemma bits_prefix m n x : (m <= n)%nat -> bits m x = firstn m (bits n x).
Proof.
  intros H. apply nth_error_ext. intros j. rewrite nth_error_firstn, !nth_error_bits.
  destruct (Nat.ltb_spec j m), (Nat.ltb_spec j n); auto; lia.
Qed.

Lemma set_mid {A} (pre : list A) x y t : set (pre ++ x :: t) (length pre) y = Ok (pre ++ y :: t).
Proof. rewrite set_ok by (rewrite app_length; cbn; lia). rewrite upd_app_r, Nat.sub_diag by lia. reflexivity. Qed.
Lemma get_mid {A} (pre : list A) x t : get (pre ++ x :: t) (length pre) = Ok x.
Proof. unfold get. rewrite nth_error_app2, Nat.sub_diag by lia. reflexivity. Qed.

(* the first byte of the stream and what follows it *)
Lemma rest_first s r : rinv s -> roff s = Z.of_nat r -> (1 <= length (rest s))%nat ->
  exists a, nth_error (rbase s) (rpos s) = Some a /\ byte a /\ peek s = a /\ skip s = {| rbase := rbase s; rpos := S (rpos s); roff := roff s |} /\
    rest s = skipn r (bits 8 a) ++ mem_bits (skipn (S (rpos s)) (rbase s)).
Proof.
  intros [Ho Hb] Er Hl. unfold rest in *. rewrite Er, Nat2Z.id in *.
  destruct (nth_error (rbase s) (rpos s)) as [a|] eqn:Ea.
  - exists a. split; auto. split; [apply (proj1 (Forall_forall _ _) Hb); eapply nth_error_In; eauto|].
    unfold peek, skip. rewrite Ea. split; auto. pose proof (nth_error_lt _ _ _ Ea).
    destruct (Nat.ltb_spec (rpos s) (length (rbase s))); [|lia]. split; [rewrite Er; auto|].
    rewrite (skipn_cons _ _ _ Ea). cbn [mem_bits flat_map]. rewrite skipn_app, bits_length.
    replace (r - 8)%nat with 0%nat by lia. reflexivity.
  - apply nth_error_None in Ea. rewrite (skipn_all2 (rbase s)) in Hl by lia. cbn in Hl. rewrite skipn_nil in Hl. cbn in Hl. lia.
Qed.

Lemma rest_next r s : rinv s -> roff s = Z.of_nat r -> (1 <= r)%nat -> 
  (1 <= length (mem_bits (skipn (rpos s) (rbase s))))%nat ->
  byte (peek s) /\ mem_bits (skipn (rpos s) (rbase s)) = firstn r (bits 8 (peek s)) ++ rest s.
Proof.
  intros [Ho Hb] Er Hr Hl. unfold rest. rewrite Er, Nat2Z.id.
  unfold peek. destruct (nth_error (rbase s) (rpos s)) as [a|] eqn:Ea.
  - split; [apply (proj1 (Forall_forall _ _) Hb); eapply nth_error_In; eauto|].
    rewrite (skipn_cons _ _ _ Ea). cbn [mem_bits flat_map].
    rewrite <- (firstn_skipn r (bits 8 a ++ _)) at 1. f_equal. rewrite firstn_app, bits_length.
    replace (r - 8)%nat with 0%nat by lia. cbn. now rewrite app_nil_r.
  - apply nth_error_None in Ea. rewrite (skipn_all2 (rbase s)) in Hl by lia. cbn in Hl. lia.
Qed.

Lemma read_loop_ok : forall q pre todo s, rinv s -> (q <= length todo)%nat -> (8 * q <= length (rest s))%nat ->
  exists vals s', read_loop q (pre ++ todo) (length pre) s = Ok (pre ++ vals ++ skipn q todo, s') /\
    length vals = q /\ bytes vals /\ mem_bits vals = firstn (8 * q) (rest s) /\
    rest s' = skipn (8 * q) (rest s) /\ rinv s' /\ roff s' = roff s.
Proof.
  induction q as [|q IH]; intros pre todo s Hs Hq Hl.
  - exists [], s. cbn [read_loop]. split; [reflexivity|]. cbn. repeat split; auto; try constructor; apply Hs.
  - destruct todo as [|x todo]; cbn [length] in Hq; [lia|]. unfold read_loop; fold read_loop.
    rewrite set_mid. cbn [bind]. rewrite get_mid. cbn [bind]. rewrite set_mid. cbn [bind].
    assert (Er : roff s = Z.of_nat (Z.to_nat (roff s))) by (destruct Hs; lia).
    set (r := Z.to_nat (roff s)) in *. clearbody r.
    destruct (rest_first s r Hs Er) as (a & Ea & Ba & -> & -> & R); [lia|].
    set (s1 := {| rbase := rbase s; rpos := S (rpos s); roff := roff s |}).
    assert (H1 : rinv s1) by exact Hs.
    set (v := wrap 8 _). specialize (IH (pre ++ [v]) todo s1 H1 ltac:(lia)).
    assert (Hr7 : (r <= 7)%nat) by (destruct Hs; lia).
    assert (Hv : bits 8 v = firstn 8 (rest s) /\ rest s1 = skipn 8 (rest s)).
    { unfold v. rewrite Er, join_bits by auto. rewrite R in Hl |- *.
      assert (L8 : length (skipn r (bits 8 a)) = (8 - r)%nat) by (rewrite skipn_length, bits_length; lia).
      rewrite app_length, L8 in Hl. rewrite firstn_app, skipn_app, L8.
      rewrite (firstn_all2 (skipn r (bits 8 a))), (skipn_all2 (skipn r (bits 8 a))) by lia.
      replace (8 - (8 - r))%nat with r by lia. destruct (Nat.eq_dec r 0) as [E0|E0].
      - subst r. cbn [firstn skipn app]. rewrite !app_nil_r. split; auto. unfold rest. subst s1. cbn [roff rpos rbase]. rewrite Er. reflexivity.
      - destruct (rest_next r s1 H1 Er) as [Bb E]; [lia| |]. { subst s1. cbn [roff rpos rbase]. lia. }
        change (skipn (S (rpos s)) (rbase s)) with (skipn (rpos s1) (rbase s1)). rewrite E.
        assert (Lr : length (firstn r (bits 8 (peek s1))) = r) by (rewrite firstn_length, bits_length; lia).
        rewrite firstn_app, skipn_app, Lr, Nat.sub_diag. cbn [firstn skipn].
        rewrite (firstn_all2 (firstn r (bits 8 (peek s1)))), (skipn_all2 (firstn r (bits 8 (peek s1)))) by lia. rewrite app_nil_r. auto. }
    destruct Hv as [Hv1 Hv2]. rewrite Hv2, skipn_length in IH. destruct IH as (vals & s' & E & L & B & M & R' & I & O); [lia|].
    rewrite <- app_assoc, app_length in E. cbn [app length] in E. rewrite Nat.add_1_r in E.
    exists (v :: vals), s'. rewrite E. split; [rewrite <- app_assoc; reflexivity|]. split; [cbn; lia|].
    split; [constructor; auto; apply byte_wrap|]. split; [|split; [|split; auto]].
    + cbn [mem_bits flat_map]. change (flat_map (bits 8) vals) with (mem_bits vals). rewrite M, Hv1.
      replace (8 * S q)%nat with (8 + 8 * q)%nat by lia.
      rewrite <- (firstn_skipn 8 (rest s)) at 3. rewrite firstn_app, firstn_length.
      replace (8 + 8 * q - Nat.min 8 (length (rest s)))%nat with (8 * q)%nat by lia.
      f_equal. symmetry. apply firstn_all2. rewrite firstn_length. lia.
    + rewrite R'. replace (8 * S q)%nat with (8 * q + 8)%nat by lia. clear.
      generalize (rest s). intros l. apply nth_error_ext. intros j. rewrite !nth_error_skipn. f_equal. lia.
Qed.

Lemma land_ones_bits8 x i : (i <= 8)%nat -> bits 8 (Z.land x (Z.shiftl 1 (Z.of_nat i) - 1)) = firstn i (bits 8 x) ++ repeat false (8 - i).
Proof.
  intros H. destruct (Nat.eq_dec i 8).
  - subst. rewrite mask_bits by lia. rewrite firstn_all2 by (rewrite bits_length; lia). rewrite Nat.sub_diag. cbn [repeat]. now rewrite app_nil_r.
  - rewrite (bits_padded _ i) by (try lia; apply mask_range). rewrite mask_bits by lia. f_equal. apply bits_prefix. lia.
Qed.

Lemma or_zero_bits a r : (r <= 7)%nat -> byte a -> bits (8 - r) (wrap 8 (Z.lor 0 (Z.shiftr a (Z.of_nat r)))) = skipn r (bits 8 a).
Proof.
  intros Hr Ha. rewrite Z.lor_0_l. apply nth_error_ext. intros j. rewrite nth_error_bits, nth_error_skipn, nth_error_bits.
  destruct (Nat.ltb_spec j (8 - r)), (Nat.ltb_spec (r + j) 8); try lia; auto.
  rewrite testbit_wrap8, Z.shiftr_spec by lia. destruct (Z.ltb_spec (Z.of_nat j) 8); [|lia]. cbn [andb]. do 2 f_equal. lia.
Qed.

Lemma mem_bits_zeros n : mem_bits (repeat 0 n) = repeat false (8 * n).
Proof.
  induction n; auto. change (repeat 0 (S n)) with (0 :: repeat 0 n). unfold mem_bits in *. cbn [flat_map]. rewrite IHn.
  replace (8 * S n)%nat with (8 + 8 * n)%nat by lia. rewrite repeat_app. reflexivity.
Qed.

Lemma bytes_zeros n : bytes (repeat 0 n).
Proof. apply Forall_forall. intros x H. apply repeat_spec in H. subst. unfold byte. lia. Qed.

Lemma skipn_repeat {A} (x : A) n m : skipn n (repeat x m) = repeat x (m - n).
Proof. revert m. induction n; intros m; [now rewrite Nat.sub_0_r|]. destruct m; cbn; auto. Qed.

Lemma firstn_firstn_skipn {A} (l : list A) a b : firstn (a + b) l = firstn a l ++ firstn b (skipn a l).
Proof. revert l. induction a; intros l; auto. destruct l; cbn; [now rewrite firstn_nil|]. now rewrite IHa. Qed.

Lemma skipn_skipn' {A} (l : list A) a b : skipn b (skipn a l) = skipn (a + b) l.
Proof. apply nth_error_ext. intros j. rewrite !nth_error_skipn. f_equal. lia. Qed.

Lemma Read_ok s len n : rinv s -> (n <= 8 * len)%nat -> (n <= length (rest s))%nat ->
  exists d s', Read s (repeat 0 len) n = Ok (d, s') /\ bytes d /\ length d = len /\
    mem_bits d = firstn n (rest s) ++ repeat false (8 * len - n) /\ rest s' = skipn n (rest s) /\ rinv s'.
Proof.
  intros Hs Hn Hl. unfold Read.
  destruct (read_loop_ok (n / 8) [] (repeat 0 len) s Hs) as (vals & s1 & E & L & B & M & R & I & O); [rewrite repeat_length; lia|lia|].
  cbn [app length] in E. rewrite E. cbn [bind]. rewrite skipn_repeat in *.
  assert (En : n = (8 * (n / 8) + n mod 8)%nat) by lia. assert (Hi : (n mod 8 <= 7)%nat) by lia.
  set (i := (n mod 8)%nat) in *. set (k := (n / 8)%nat) in *. clearbody i k. clear E. destruct (Z.eqb_spec (Z.of_nat i) 0).
  { assert (i = 0)%nat by lia. subst i. rewrite Nat.add_0_r in En. subst n. eexists _, _. split; [reflexivity|].
    split; [apply Forall_app; split; [exact B|apply bytes_zeros]|]. split; [rewrite app_length, repeat_length; lia|].
    rewrite mem_bits_app, M, mem_bits_zeros. split; [do 2 f_equal; lia|]. auto. }
  destruct (len - k)%nat as [|m] eqn:Em; [lia|]. cbn [repeat]. replace k with (length vals).
  rewrite get_mid. cbn [bind]. rewrite set_mid. cbn [bind].
  assert (Er : roff s1 = Z.of_nat (Z.to_nat (roff s1))) by (destruct I; lia).
  set (r := Z.to_nat (roff s1)) in *. clearbody r. assert (Hr7 : (r <= 7)%nat) by (destruct I; lia).
  assert (Hrest : (i <= length (rest s1))%nat) by (rewrite R, skipn_length; lia).
  destruct (rest_first s1 r I Er) as (a & Ea & Ba & Epk & Esk & R1); [lia|]. rewrite Epk, Esk.
  set (s2 := {| rbase := rbase s1; rpos := S (rpos s1); roff := roff s1 |}).
  assert (I2 : rinv s2) by exact I.
  assert (Eland : Z.land (roff s1 + Z.of_nat i) 7 = Z.of_nat (if (8 <=? r + i)%nat then r + i - 8 else r + i)%nat).
  { rewrite Er. change 7 with (Z.ones 3). rewrite Z.land_ones by lia. change (2 ^ 3) with 8. destruct (Nat.leb_spec 8 (r + i)); lia. }
  (* common ending *)
  assert (Fin : forall v s3 sx, bits i v = firstn i (rest s1) -> rbase sx = rbase s1 ->
    s3 = {| rbase := rbase sx; rpos := rpos sx; roff := Z.land (roff s1 + Z.of_nat i) 7 |} ->
    rest s3 = skipn i (rest s1) ->
    exists d s', (do x <- get (vals ++ v :: repeat 0 m) (length vals);
       do d4 <- set (vals ++ v :: repeat 0 m) (length vals) (Z.land x (Z.shiftl 1 (Z.of_nat i) - 1)); Ok (d4, s3)) = Ok (d, s') /\
      bytes d /\ length d = len /\ mem_bits d = firstn n (rest s) ++ repeat false (8 * len - n) /\ rest s' = skipn n (rest s) /\ rinv s').
  { intros v s3 sx Hv Hb Hs3 Hr3. rewrite get_mid. cbn [bind]. rewrite set_mid. cbn [bind]. eexists _, _. split; [reflexivity|].
    pose proof (mask_range v i) as MR. assert (2 ^ Z.of_nat i <= 2 ^ 8) by (apply Z.pow_le_mono_r; lia). change (2 ^ 8) with 256 in *.
    split; [apply Forall_app; split; [exact B|]; constructor; [red; lia|apply bytes_zeros]|].
    split; [rewrite app_length; cbn [length]; rewrite repeat_length; lia|].
    split; [|split; [rewrite Hr3, R, skipn_skipn', <- En; auto|]].
    - rewrite mem_bits_app, M. cbn [mem_bits flat_map]. change (flat_map (bits 8)) with mem_bits. rewrite land_ones_bits8, mem_bits_zeros by lia.
      rewrite <- (bits_prefix i 8 v) by lia. rewrite Hv, R. rewrite (f_equal (fun z => firstn z (rest s)) En), firstn_firstn_skipn, <- !app_assoc. do 2 f_equal.
      rewrite <- repeat_app. f_equal. lia.
    - subst s3. split; cbn [roff rbase]; [rewrite Eland; destruct (Nat.leb_spec 8 (r + i)); lia|]. rewrite Hb. apply I. }
  assert (L8 : length (skipn r (bits 8 a)) = (8 - r)%nat) by (rewrite skipn_length, bits_length; lia).
  replace (8 <=? roff s1 + Z.of_nat i) with (8 <=? r + i)%nat by (rewrite Er; lia).
  replace (8 <? roff s1 + Z.of_nat i) with (8 <? r + i)%nat by (rewrite Er; lia).
  destruct (Nat.leb_spec 8 (r + i)) as [Hri|Hri]; [destruct (Nat.ltb_spec 8 (r + i)) as [Hri'|Hri']|]; cbn [bind].
  - rewrite get_mid. cbn [bind]. rewrite set_mid. cbn [bind].
    destruct (rest_next r s2 I2 Er) as [Bb E]; [lia| |]. { rewrite R1, app_length, L8 in Hrest. subst s2. cbn [roff rpos rbase]. lia. }
    apply Fin with (sx := s2); auto.
    + rewrite Z.lor_0_l. rewrite (bits_prefix i 8) by lia. rewrite Er, join_bits by auto. rewrite R1.
      change (skipn (S (rpos s1)) (rbase s1)) with (skipn (rpos s2) (rbase s2)). rewrite E.
      rewrite app_assoc, (firstn_app _ _ (rest s2)), app_length, L8, firstn_length, bits_length.
      replace (i - (8 - r + Nat.min r 8))%nat with 0%nat by lia. cbn [firstn]. now rewrite app_nil_r.
    + rewrite R1. change (skipn (S (rpos s1)) (rbase s1)) with (skipn (rpos s2) (rbase s2)).
      rewrite skipn_app, L8, skipn_all2 by lia. unfold rest. cbn [roff rpos rbase app]. rewrite Eland, Nat2Z.id. f_equal. lia.
  - apply Fin with (sx := s2); auto.
    + rewrite (bits_prefix i (8 - r)) by lia. rewrite Er, or_zero_bits by auto. rewrite R1, firstn_app, L8.
      replace (i - (8 - r))%nat with 0%nat by lia. cbn [firstn]. now rewrite app_nil_r.
    + rewrite R1. change (skipn (S (rpos s1)) (rbase s1)) with (skipn (rpos s2) (rbase s2)).
      rewrite skipn_app, L8, skipn_all2 by lia. unfold rest. cbn [roff rpos rbase app]. rewrite Eland, Nat2Z.id. f_equal. lia.
  - apply Fin with (sx := s1); auto.
    + rewrite (bits_prefix i (8 - r)) by lia. rewrite Er, or_zero_bits by auto. rewrite R1, firstn_app, L8.
      replace (i - (8 - r))%nat with 0%nat by lia. cbn [firstn]. now rewrite app_nil_r.
    + unfold rest. cbn [roff rpos rbase]. rewrite Eland, Nat2Z.id, Er, Nat2Z.id. now rewrite skipn_skipn'.
Qed.
