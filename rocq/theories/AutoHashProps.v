(* C201: the standard hash of keys agrees with their equality. *)
From Coq Require Import List ZArith Bool Lia.
From Coq Require Import ZifyBool.
From Verif Require Import Common StrHash AutoHash.
From Verif Require HashProps StrHashProps.
Import ListNotations.
Local Open Scope Z_scope.

(* --- specification --- *)
(** characters are of type char; text: none is the terminator *)
Definition char_range (c : Z) : Prop := -128 <= c < 128.
Definition text (s : list Z) : Prop := Forall (fun c => char_range c /\ c <> 0) s.
(** the two keys have one type, and values in its range *)
Fixpoint typed (mem : Z -> list Z) (a b : key) : Prop :=
  match a, b with
  | KInt n x, KInt m y => n = m /\ In n [8; 16; 32; 64] /\ (0 <= x < 2 ^ n /\ 0 <= y < 2 ^ n \/ - 2 ^ (n - 1) <= x < 2 ^ (n - 1) /\ - 2 ^ (n - 1) <= y < 2 ^ (n - 1))
  | KFloat x, KFloat y => 0 <= x < 2 ^ 32 /\ 0 <= y < 2 ^ 32
  | KDouble x, KDouble y => 0 <= x < 2 ^ 64 /\ 0 <= y < 2 ^ 64
  | KPtr p, KPtr q => text (mem p) /\ text (mem q)
  | KStr s, KStr t => Forall char_range s /\ Forall char_range t
  | KOne a, KOne b => typed mem a b
  | KPair a b, KPair c d => typed mem a c /\ typed mem b d
  | _, _ => False
  end.
(** no part of the key is the floating point number -0 *)
Fixpoint no_negative_zero (k : key) : Prop :=
  match k with KFloat b => b <> 2 ^ 31 | KDouble b => b <> 2 ^ 63 | KOne a => no_negative_zero a | KPair a b => no_negative_zero a /\ no_negative_zero b | _ => True end.
(** no part is a C string, a NaN, or a string with the character 0 *)
Fixpoint plain (k : key) : Prop :=
  match k with
  | KInt _ _ => True
  | KFloat b => b mod 2 ^ 31 <= 255 * 2 ^ 23
  | KDouble b => b mod 2 ^ 63 <= 2047 * 2 ^ 52
  | KPtr _ => False
  | KStr s => Forall (fun c => c <> 0) s
  | KOne a => plain a
  | KPair a b => plain a /\ plain b
  end.

(* --- the integer hash is a permutation --- *)
Lemma xorshift_inj n x y : 0 < n -> 0 <= x -> 0 <= y -> Z.lxor x (Z.shiftr x n) = Z.lxor y (Z.shiftr y n) -> x = y.
Proof.
  intros N X Y E. assert (D : Z.lxor x y = Z.shiftr (Z.lxor x y) n).
  { rewrite Z.shiftr_lxor. apply Z.bits_inj'. intros i I. apply (f_equal (fun z => Z.testbit z i)) in E. rewrite !Z.lxor_spec in *.
    destruct (Z.testbit x i), (Z.testbit y i), (Z.testbit (Z.shiftr x n) i), (Z.testbit (Z.shiftr y n) i); cbn in *; congruence. }
  assert (P : 0 <= Z.lxor x y) by (apply Z.lxor_nonneg; lia). rewrite Z.shiftr_div_pow2 in D by lia. pose proof (Z.pow_gt_1 2 n ltac:(lia)) as [Q _]. specialize (Q N).
  destruct (Z.eq_dec (Z.lxor x y) 0) as [Z0|NZ]; [now apply Z.lxor_eq|]. exfalso. pose proof (Z.div_lt (Z.lxor x y) (2 ^ n) ltac:(lia) Q). lia.
Qed.
Lemma xorshift_range n x : 0 <= n -> 0 <= x < 2 ^ 32 -> 0 <= Z.lxor x (Z.shiftr x n) < 2 ^ 32.
Proof.
  intros N X. split; [apply Z.lxor_nonneg; rewrite Z.shiftr_nonneg; lia|].
  destruct (Z.eq_dec (Z.lxor x (Z.shiftr x n)) 0) as [->|NZ]; [lia|]. assert (P : 0 <= Z.lxor x (Z.shiftr x n)) by (apply Z.lxor_nonneg; rewrite Z.shiftr_nonneg; lia).
  apply Z.log2_lt_pow2; [lia|]. eapply Z.le_lt_trans; [apply Z.log2_lxor; rewrite ?Z.shiftr_nonneg; lia|]. apply Z.max_lub_lt.
  - destruct (Z.eq_dec x 0) as [->|]; [reflexivity|apply Z.log2_lt_pow2; lia].
  - assert (S1 : 0 <= Z.shiftr x n <= x). { rewrite Z.shiftr_div_pow2 by lia. pose proof (Z.pow_pos_nonneg 2 n ltac:(lia) N) as Q. split; [apply Z.div_pos; lia|]. apply Z.div_le_upper_bound; [lia|]. nia. }
    destruct (Z.eq_dec (Z.shiftr x n) 0) as [->|]; [reflexivity|apply Z.log2_lt_pow2; lia].
Qed.
Lemma mulmod_inj a c x y q : 0 <= x < 2 ^ 32 -> 0 <= y < 2 ^ 32 -> a * c = 1 + q * 2 ^ 32 -> (x * a) mod 2 ^ 32 = (y * a) mod 2 ^ 32 -> x = y.
Proof.
  intros X Y A E. assert (Q : (x * a * c) mod 2 ^ 32 = (y * a * c) mod 2 ^ 32) by (rewrite (Z.mul_mod (x * a)), (Z.mul_mod (y * a)), E by lia; reflexivity).
  rewrite <- !Z.mul_assoc, A in Q. replace (x * (1 + q * 2 ^ 32)) with (x + x * q * 2 ^ 32) in Q by ring. replace (y * (1 + q * 2 ^ 32)) with (y + y * q * 2 ^ 32) in Q by ring.
  rewrite !Z.mod_add, !Z.mod_small in Q by lia. exact Q.
Qed.
Lemma sub_form n x : 0 <= n -> wrap 32 (x + Z.lnot (wrap 32 (Z.shiftl x n))) = (x * (1 - 2 ^ n) - 1) mod 2 ^ 32.
Proof.
  intros N. unfold wrap. rewrite Z.shiftl_mul_pow2 by lia. unfold Z.lnot. pose proof (Z.div_mod (x * 2 ^ n) (2 ^ 32) ltac:(lia)) as D.
  replace (x + Z.pred (- ((x * 2 ^ n) mod 2 ^ 32))) with (x * (1 - 2 ^ n) - 1 + (x * 2 ^ n / 2 ^ 32) * 2 ^ 32) by lia. apply Z.mod_add. lia.
Qed.
Lemma pred_mod u v : (u - 1) mod 2 ^ 32 = (v - 1) mod 2 ^ 32 -> u mod 2 ^ 32 = v mod 2 ^ 32.
Proof. intros E. apply (f_equal (fun z => (z + 1) mod 2 ^ 32)) in E. rewrite !Z.add_mod_idemp_l in E by lia. now replace (u - 1 + 1) with u in E by ring; replace (v - 1 + 1) with v in E by ring. Qed.
Lemma wrap_range x : 0 <= wrap 32 x < 2 ^ 32.
Proof. apply Z.mod_pos_bound. lia. Qed.
Lemma wang1_inj x y : 0 <= x < 2 ^ 32 -> 0 <= y < 2 ^ 32 -> wang1 x = wang1 y -> x = y.
Proof. intros X Y E. unfold wang1 in E. rewrite !sub_form in E by lia. apply pred_mod in E. now apply (mulmod_inj (1 - 2 ^ 15) (1 + 2 ^ 15 + 2 ^ 30) x y (- 2 ^ 13)). Qed.
Lemma wang5_inj x y : 0 <= x < 2 ^ 32 -> 0 <= y < 2 ^ 32 -> wang5 x = wang5 y -> x = y.
Proof. intros X Y E. unfold wang5 in E. rewrite !sub_form in E by lia. apply pred_mod in E. now apply (mulmod_inj (1 - 2 ^ 11) (1 + 2 ^ 11 + 2 ^ 22) x y (- 2)). Qed.
Lemma wang3_inj x y : 0 <= x < 2 ^ 32 -> 0 <= y < 2 ^ 32 -> wang3 x = wang3 y -> x = y.
Proof.
  intros X Y E. unfold wang3, wrap in E. rewrite !Z.add_mod_idemp_r, !Z.shiftl_mul_pow2 in E by lia. apply (mulmod_inj 9 954437177 x y 2); [assumption|assumption|reflexivity|].
  replace (x * 9) with (x + x * 2 ^ 3) by ring. replace (y * 9) with (y + y * 2 ^ 3) by ring. exact E.
Qed.
Lemma wang2_inj x y : 0 <= x -> 0 <= y -> wang2 x = wang2 y -> x = y.
Proof. unfold wang2. now apply (xorshift_inj 10). Qed.
Lemma wang4_inj x y : 0 <= x -> 0 <= y -> wang4 x = wang4 y -> x = y.
Proof. unfold wang4. now apply (xorshift_inj 6). Qed.
Lemma wang6_inj x y : 0 <= x -> 0 <= y -> wang6 x = wang6 y -> x = y.
Proof. unfold wang6. now apply (xorshift_inj 16). Qed.
Lemma wang1_range x : 0 <= wang1 x < 2 ^ 32.
Proof. unfold wang1. apply wrap_range. Qed.
Lemma wang2_range x : 0 <= x < 2 ^ 32 -> 0 <= wang2 x < 2 ^ 32.
Proof. unfold wang2. apply xorshift_range. lia. Qed.
Lemma wang3_range x : 0 <= wang3 x < 2 ^ 32.
Proof. unfold wang3. apply wrap_range. Qed.
Lemma wang4_range x : 0 <= x < 2 ^ 32 -> 0 <= wang4 x < 2 ^ 32.
Proof. unfold wang4. apply xorshift_range. lia. Qed.
Lemma wang5_range x : 0 <= wang5 x < 2 ^ 32.
Proof. unfold wang5. apply wrap_range. Qed.
Local Opaque wang1 wang2 wang3 wang4 wang5 wang6.
Lemma hash32_inj x y : 0 <= x < 2 ^ 32 -> 0 <= y < 2 ^ 32 -> hash32 x = hash32 y -> x = y.
Proof.
  intros X Y E. unfold hash32 in E.
  pose proof (wang1_range x) as X1. pose proof (wang1_range y) as Y1. pose proof (wang2_range _ X1) as X2. pose proof (wang2_range _ Y1) as Y2.
  pose proof (wang3_range (wang2 (wang1 x))) as X3. pose proof (wang3_range (wang2 (wang1 y))) as Y3. pose proof (wang4_range _ X3) as X4. pose proof (wang4_range _ Y3) as Y4.
  pose proof (wang5_range (wang4 (wang3 (wang2 (wang1 x))))) as X5. pose proof (wang5_range (wang4 (wang3 (wang2 (wang1 y))))) as Y5.
  apply (wang6_inj _ _ (proj1 X5) (proj1 Y5)) in E. apply (wang5_inj _ _ X4 Y4) in E. apply (wang4_inj _ _ (proj1 X3) (proj1 Y3)) in E. apply (wang3_inj _ _ X2 Y2) in E.
  apply (wang2_inj _ _ (proj1 X1) (proj1 Y1)) in E. exact (wang1_inj x y X Y E).
Qed.
Lemma ok_inj {A} (x y : A) : Ok x = Ok y -> x = y.
Proof. intros E. now injection E. Qed.
Lemma hash_int mem ins n x : hash mem ins (KInt n x) = Ok (if n =? 64 then hash64 (wrap 64 x) else if n =? 32 then hash32 (wrap 32 x) else wrap 32 x).
Proof. reflexivity. Qed.
Lemma hash64_bit32 k : hash64 (Z.lxor k (2 ^ 32)) = hash64 k.
Proof.
  unfold hash64, wrap. apply Z.bits_inj'. intros i I. destruct (Z.ltb_spec i 32) as [L|L]; [|rewrite !Z.mod_pow2_bits_high by lia; reflexivity].
  rewrite !Z.mod_pow2_bits_low, !Z.lxor_spec, !Z.shiftr_spec, !Z.mod_pow2_bits_low, !Z.shiftl_spec, !Z.lxor_spec by lia.
  rewrite !Z.pow2_bits_eqb by lia. replace (32 =? i + 33) with false by lia. replace (32 =? i) with false by lia. replace (32 =? i - 11) with false by lia. rewrite !xorb_false_r. reflexivity.
Qed.

(* --- equality --- *)
Lemma float_eq_same w inf a b : 0 < w -> 0 <= a < 2 ^ w -> 0 <= b < 2 ^ w -> a <> 2 ^ (w - 1) -> b <> 2 ^ (w - 1) -> float_eq w inf a b = true -> a = b.
Proof.
  intros W A B NA NB E. unfold float_eq in E. apply andb_prop in E. destruct E as [_ E]. apply orb_prop in E. destruct E as [E|E]; [lia|]. apply andb_prop in E. destruct E as [EA EB].
  assert (T : 2 ^ w = 2 * 2 ^ (w - 1)) by (rewrite <- Z.pow_succ_r by lia; f_equal; lia). pose proof (Z.pow_pos_nonneg 2 (w - 1) ltac:(lia) ltac:(lia)) as P.
  assert (ZERO : forall v, 0 <= v < 2 ^ w -> v <> 2 ^ (w - 1) -> (v mod 2 ^ (w - 1) =? 0) = true -> v = 0).
  { intros v V N M. apply Z.eqb_eq in M. apply Z.div_exact in M; [|lia]. assert (0 <= v / 2 ^ (w - 1) < 2) by (split; [apply Z.div_pos; lia|apply Z.div_lt_upper_bound; lia]). destruct (Z.eq_dec (v / 2 ^ (w - 1)) 0) as [Q|Q]; [rewrite Q in M; lia|]. replace (v / 2 ^ (w - 1)) with 1 in M by lia. lia. }
  rewrite (ZERO a A NA EA), (ZERO b B NB EB). reflexivity.
Qed.
Lemma list_eq_spec a : forall b, list_eq a b = true <-> a = b.
Proof.
  induction a as [|x a IH]; intros [|y b]; cbn [list_eq]; try (split; [discriminate|discriminate]); [tauto|]. rewrite andb_true_iff, IH, Z.eqb_eq. split; [intros [-> ->]; reflexivity|intros E; injection E; auto].
Qed.
Lemma native_same mem a : forall b, typed mem a b -> no_negative_zero a -> no_negative_zero b -> native a b = true -> a = b.
Proof.
  induction a as [n x|x|x|p|s|a IH|a IHa b IHb]; intros [m y|y|y|q|t|a'|a' b'] T NA NB E; cbn [typed native no_negative_zero] in *; try contradiction.
  - destruct T as [-> _]. apply Z.eqb_eq in E. now subst.
  - f_equal. exact (float_eq_same 32 inf32 x y eq_refl (proj1 T) (proj2 T) NA NB E).
  - f_equal. exact (float_eq_same 64 inf64 x y eq_refl (proj1 T) (proj2 T) NA NB E).
  - apply Z.eqb_eq in E. now subst.
  - apply list_eq_spec in E. now subst.
  - f_equal. now apply IH.
  - apply andb_prop in E. destruct E as [E1 E2]. f_equal; [now apply IHa|now apply IHb].
Qed.
(** the text of a std::string as a C string *)
Fixpoint cut (s : list Z) : list Z := match s with [] => [] | c :: s => if c =? 0 then [] else c :: cut s end.
Lemma cut_rest s : exists r, s ++ [0] = cut s ++ 0 :: r.
Proof. induction s as [|c s [r IH]]; [exists []; reflexivity|]. cbn [cut]. destruct (Z.eqb_spec c 0) as [->|N]; [exists (s ++ [0]); reflexivity|exists r; cbn [app]; now rewrite IH]. Qed.
Lemma cut_text s : Forall char_range s -> StrHashProps.chars (cut s).
Proof. induction 1 as [|c s C _ IH]; [constructor|]. cbn [cut]. destruct (Z.eqb_spec c 0); [constructor|]. constructor; [split; assumption|exact IH]. Qed.
Lemma cut_id s : Forall (fun c => c <> 0) s -> cut s = s.
Proof. induction 1 as [|c s C _ IH]; [reflexivity|]. cbn [cut]. destruct (Z.eqb_spec c 0); [contradiction|]. now rewrite IH. Qed.
Lemma string_equal (ins : bool) s t : Forall char_range s -> Forall char_range t -> (if ins then KH_STR_EQUAL_INS else KH_STR_EQUAL) (s ++ [0]) (t ++ [0]) = Ok true ->
  exists h, (if ins then KH_STR_HASH_INS else KH_STR_HASH) (s ++ [0]) = Ok h /\ (if ins then KH_STR_HASH_INS else KH_STR_HASH) (t ++ [0]) = Ok h.
Proof.
  intros S1 T1 E. destruct (cut_rest s) as [rs ES], (cut_rest t) as [rt ET]. rewrite ES, ET in *. apply cut_text in S1. apply cut_text in T1. destruct ins.
  - exact (proj2 (StrHashProps.C37_insensitive _ _ _ _ S1 T1) E).
  - apply (StrHashProps.C37_sensitive _ _ _ _ S1 T1) in E. rewrite E. exists (StrHashProps.poly (cut t)). rewrite !StrHashProps.C37_hash_value by assumption. split; reflexivity.
Qed.
Lemma string_hash (ins : bool) s : Forall char_range s -> exists h, (if ins then KH_STR_HASH_INS else KH_STR_HASH) (s ++ [0]) = Ok h.
Proof.
  intros S1. destruct (cut_rest s) as [rs ES]. rewrite ES. apply cut_text in S1. destruct ins; [|eexists; now apply StrHashProps.C37_hash_value].
  destruct (StrHashProps.C37_insensitive _ _ rs rs S1 S1) as [A B]. destruct (B (proj2 A ltac:(clear; induction (cut s); constructor; [constructor|assumption]))) as [h [H _]]. exists h. exact H.
Qed.
Lemma text_range s : text s -> Forall char_range s.
Proof. apply Forall_impl. tauto. Qed.
Lemma hash_defined mem ins k : typed mem k k -> exists h, hash mem ins k = Ok h.
Proof.
  revert ins. induction k as [n x|x|x|p|s|a IH|a IHa b IHb]; intros ins T; cbn [typed hash] in *.
  - eexists; reflexivity.
  - eexists; reflexivity.
  - eexists; reflexivity.
  - apply string_hash, text_range, T.
  - apply string_hash, T.
  - now apply IH.
  - destruct T as [T1 T2]. destruct (IHa false T1) as [x ->], (IHb false T2) as [y ->]. cbn [bind]. eexists; reflexivity.
Qed.

(** Keys of one type that are equal have the same hash, with or without regard to case.  What is missing: floating point numbers that are -0 *)
Theorem C201_consistent_partial mem ins a b : typed mem a b -> no_negative_zero a -> no_negative_zero b -> equal mem ins a b = Ok true ->
  exists h, hash mem ins a = Ok h /\ hash mem ins b = Ok h.
Proof.
  intros T NA NB E.
  assert (D : native a b = true -> exists h, hash mem ins a = Ok h /\ hash mem ins b = Ok h).
  { intros Q. pose proof (native_same mem a b T NA NB Q) as ->. destruct (hash_defined mem ins b T) as [h H]. exists h. split; exact H. }
  destruct a, b; cbn [typed equal] in *; try contradiction; try (injection E as E; exact (D E)).
  - cbn [hash]. destruct T as [T1 T2]. apply string_equal; [now apply text_range|now apply text_range|exact E].
  - cbn [hash]. destruct T as [T1 T2]. now apply string_equal.
Qed.
Print Assumptions C201_consistent_partial.
(** Refuted: 0 and -0 are equal keys with different hashes, alone and in a tuple *)
Theorem C201_zero_refuted mem ins :
  equal mem ins (KDouble 0) (KDouble (2 ^ 63)) = Ok true /\ hash mem ins (KDouble 0) <> hash mem ins (KDouble (2 ^ 63)) /\
  equal mem ins (KFloat 0) (KFloat (2 ^ 31)) = Ok true /\ hash mem ins (KFloat 0) <> hash mem ins (KFloat (2 ^ 31)) /\
  (forall n, equal mem ins (KPair (KInt 32 n) (KDouble 0)) (KPair (KInt 32 n) (KDouble (2 ^ 63))) = Ok true).
Proof.
  split; [reflexivity|]. split; [vm_compute; discriminate|]. split; [reflexivity|]. split; [vm_compute; discriminate|]. intros n. cbn [equal native]. rewrite Z.eqb_refl. reflexivity.
Qed.
Print Assumptions C201_zero_refuted.

(** Keys without C strings, NaN, -0 and strings with the character 0 are equal exactly if they are the same; C strings, alone, if they have the same
    characters; with the case ignored, strings that are equal but for the case of letters.  What is missing: the others *)
Theorem C201_equal_partial mem :
  (forall a b, typed mem a b -> plain a -> plain b -> no_negative_zero a -> no_negative_zero b -> (equal mem false a b = Ok true <-> a = b)) /\
  (forall p q, text (mem p) -> text (mem q) -> (equal mem false (KPtr p) (KPtr q) = Ok true <-> mem p = mem q)) /\
  (forall p q, text (mem p) -> text (mem q) -> (equal mem true (KPtr p) (KPtr q) = Ok true <-> Forall2 StrHashProps.same_letter (mem p) (mem q))) /\
  (forall s t, text s -> text t -> (equal mem true (KStr s) (KStr t) = Ok true <-> Forall2 StrHashProps.same_letter s t)).
Proof.
  split; [|split; [|split]].
  - intros a b T PA PB NA NB.
    assert (REFL : forall k, plain k -> native k k = true).
    { induction k as [n x|x|x|p|s|k IH|k IHk l IHl]; cbn [plain native]; intros P; try contradiction.
      - apply Z.eqb_refl.
      - unfold float_eq, inf32. rewrite Z.eqb_refl. cbn [orb]. rewrite andb_true_r. change (32 - 1) with 31. lia.
      - unfold float_eq, inf64. rewrite Z.eqb_refl. cbn [orb]. rewrite andb_true_r. change (64 - 1) with 63. lia.
      - now apply list_eq_spec.
      - now apply IH.
      - destruct P. now rewrite IHk, IHl. }
    assert (D : Ok (native a b) = Ok true <-> a = b).
    { split; [intros E; injection E as E; exact (native_same mem a b T NA NB E)|intros ->; now rewrite REFL]. }
    destruct a, b; cbn [typed plain] in *; try contradiction; try exact D.
    destruct T as [T1 T2]. cbn [equal]. destruct (cut_rest s) as [rs ES], (cut_rest s0) as [rt ET]. rewrite ES, ET. apply cut_text in T1. apply cut_text in T2.
    rewrite (StrHashProps.C37_sensitive _ _ rs rt T1 T2), !cut_id by assumption. split; [now intros ->|intros E; now injection E].
  - intros p q P Q. cbn [equal]. exact (StrHashProps.C37_sensitive _ _ [] [] P Q).
  - intros p q P Q. cbn [equal]. exact (proj1 (StrHashProps.C37_insensitive _ _ [] [] P Q)).
  - intros p q P Q. cbn [equal]. exact (proj1 (StrHashProps.C37_insensitive _ _ [] [] P Q)).
Qed.
Print Assumptions C201_equal_partial.
(** Refuted: in a tuple, C strings at different addresses differ whatever their characters, although they have the same hash; strings that are the same
    up to a character 0 are one key; a NaN does not equal itself, so that it is never found *)
Theorem C201_equal_refuted mem ins :
  (forall a p q, p <> q -> mem p = mem q -> equal mem ins (KPair a (KPtr p)) (KPair a (KPtr q)) = Ok false /\ hash mem ins (KPair a (KPtr p)) = hash mem ins (KPair a (KPtr q))) /\
  (forall s t u, text s -> equal mem ins (KStr (s ++ 0 :: t)) (KStr (s ++ 0 :: u)) = Ok true) /\
  (forall b, 2047 * 2 ^ 52 < b mod 2 ^ 63 -> equal mem ins (KDouble b) (KDouble b) = Ok false).
Proof.
  split; [|split].
  - intros a p q N M. cbn [equal native hash]. rewrite (proj2 (Z.eqb_neq p q) N), M. split; reflexivity.
  - intros s t u S1. cbn [equal]. rewrite <- !app_assoc. cbn [app]. destruct ins.
    + apply (StrHashProps.C37_insensitive _ _ _ _ S1 S1). clear. induction s; constructor; [constructor|assumption].
    + now apply (StrHashProps.C37_sensitive _ _ _ _ S1 S1).
  - intros b B. cbn [equal native]. unfold float_eq, inf64. change (64 - 1) with 63. rewrite (proj2 (Z.leb_gt (b mod 2 ^ 63) (2047 * 2 ^ 52)) B). reflexivity.
Qed.
Print Assumptions C201_equal_refuted.

Local Opaque hash32 hash64.
(** Different integers of up to 32 bits, and different floats, have different hashes; 64-bit integers that differ in bit 32 only have the same *)
Theorem C201_spread mem ins :
  (forall n x y, In n [8; 16; 32] -> typed mem (KInt n x) (KInt n y) -> hash mem ins (KInt n x) = hash mem ins (KInt n y) -> x = y) /\
  (forall x y, typed mem (KFloat x) (KFloat y) -> hash mem ins (KFloat x) = hash mem ins (KFloat y) -> x = y) /\
  (forall x, 0 <= x < 2 ^ 64 -> hash mem ins (KInt 64 (Z.lxor x (2 ^ 32))) = hash mem ins (KInt 64 x) /\ Z.lxor x (2 ^ 32) <> x).
Proof.
  split; [|split].
  - intros n x y N T E. rewrite !hash_int in E. apply ok_inj in E. cbn [typed] in T. destruct T as [_ [_ R]].
    assert (G : wrap 32 x = wrap 32 y -> x = y).
    { unfold wrap. intros Q. destruct N as [<-|[<-|[<-|[]]]]; cbn in R; lia. }
    destruct N as [<-|[<-|[<-|[]]]].
    + change (8 =? 64) with false in E. change (8 =? 32) with false in E. exact (G E).
    + change (16 =? 64) with false in E. change (16 =? 32) with false in E. exact (G E).
    + change (32 =? 64) with false in E. change (32 =? 32) with true in E. apply G. exact (hash32_inj _ _ (wrap_range x) (wrap_range y) E).
  - intros x y [X Y] E. cbn [hash] in E. apply ok_inj in E. exact (hash32_inj x y X Y E).
  - intros x X. split.
    + rewrite !hash_int. rewrite Z.eqb_refl. f_equal. rewrite <- (hash64_bit32 (wrap 64 x)). f_equal. unfold wrap. rewrite (Z.mod_small x) by exact X. apply Z.mod_small.
      split; [apply Z.lxor_nonneg; lia|]. destruct (Z.eq_dec (Z.lxor x (2 ^ 32)) 0) as [->|NZ]; [lia|]. assert (P : 0 <= Z.lxor x (2 ^ 32)) by (apply Z.lxor_nonneg; lia).
      apply Z.log2_lt_pow2; [lia|]. eapply Z.le_lt_trans; [apply Z.log2_lxor; lia|]. apply Z.max_lub_lt; [|reflexivity]. destruct (Z.eq_dec x 0) as [->|]; [reflexivity|apply Z.log2_lt_pow2; lia].
    + intros E. apply (f_equal (fun z => Z.testbit z 32)) in E. rewrite Z.lxor_spec, Z.pow2_bits_eqb in E by lia. destruct (Z.testbit x 32); discriminate.
Qed.
Print Assumptions C201_spread.

Local Transparent hash32 hash64 wang1 wang2 wang3 wang4 wang5 wang6.
(** a tuple of an integer, a double and a string; the hash of 1; hashes of strings that differ in case *)
Definition sample (n : Z) : key := KPair (KPair (KInt 32 n) (KDouble (1023 * 2 ^ 52))) (KStr [65; 98]).
Example C201_example mem :
  typed mem (sample (-7)) (sample 3) /\ plain (sample (-7)) /\ no_negative_zero (sample 3) /\ equal mem false (sample 3) (sample 3) = Ok true /\
  equal mem false (sample (-7)) (sample 3) = Ok false /\ hash mem false (sample 3) <> hash mem false (sample (-7)) /\ hash mem false (KInt 32 1) = Ok (hash32 1) /\ hash32 0 <> hash32 1 /\
  equal mem true (KStr [65; 98]) (KStr [97; 66]) = Ok true /\ hash mem true (KStr [65; 98]) = hash mem true (KStr [97; 66]).
Proof.
  split; [cbn; repeat split; try lia; try (right; lia); try (repeat constructor; unfold char_range; lia); auto|]. split; [cbn; repeat split; try lia; repeat constructor; discriminate|].
  split; [cbn; repeat split; discriminate|]. repeat split; try reflexivity; vm_compute; discriminate.
Qed.
