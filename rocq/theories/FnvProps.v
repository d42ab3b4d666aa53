(* Property C169: the FNV-1a hashes. *)
From Coq Require Import ZArith List Bool Lia.
From Verif Require Import Common Fnv.
Import ListNotations.
Local Open Scope Z_scope.

(* the published algorithm: xor each byte in, multiply by the prime, modulo 2^w *)
Definition fnv1a (w basis prime : Z) (bytes : list Z) : Z :=
  fold_left (fun h c => (Z.lxor h c * prime) mod 2 ^ w) bytes basis.
Definition fnv1a_32 : list Z -> Z := fnv1a 32 2166136261 16777619.
Definition fnv1a_64 : list Z -> Z := fnv1a 64 14695981039346656037 1099511628211.
Definition ascii (bytes : list Z) : Prop := Forall (fun c => 0 < c < 128) bytes.

Lemma sgn_ascii c : 0 < c < 128 -> sgn 8 c = c.
Proof. intros H. unfold sgn. change (2 ^ 8) with 256. change (2 ^ (8 - 1)) with 128. rewrite Z.mod_small by lia. destruct (Z.ltb_spec c 128); lia. Qed.

Lemma from32 : forall s v, ascii s -> hash_fnv1a_from s v = fold_left (fun h c => (Z.lxor h c * 16777619) mod 2 ^ 32) s v.
Proof.
  induction s as [|c s IH]; intros v A; [reflexivity|]. inversion A; subst. cbn [hash_fnv1a_from fold_left]. rewrite IH by auto. f_equal.
  unfold fnv32_step. rewrite sgn_ascii by auto. unfold wrap. rewrite (Z.mod_small c) by (change (2 ^ 32) with 4294967296; lia).
  change (2 ^ 64) with (2 ^ 32 * 2 ^ 32). rewrite <- Znumtheory.Zmod_div_mod; [reflexivity|lia|lia|]. exists (2 ^ 32). reflexivity.
Qed.

(* low halves only depend on low halves *)
Lemma lxor_mod a b n : 0 <= n -> Z.lxor a b mod 2 ^ n = Z.lxor (a mod 2 ^ n) (b mod 2 ^ n).
Proof.
  intros N. apply Z.bits_inj. intros k. rewrite Z.lxor_spec. destruct (Z_lt_le_dec k 0); [now rewrite !Z.testbit_neg_r|].
  destruct (Z_lt_le_dec k n); [rewrite !Z.mod_pow2_bits_low, Z.lxor_spec by lia; reflexivity|rewrite !Z.mod_pow2_bits_high by lia; reflexivity].
Qed.

Lemma from64 : forall s v v', ascii s -> v mod 2 ^ 32 = v' mod 2 ^ 32 ->
  hash64_fnv1a_from s v mod 2 ^ 32 = fold_left (fun h c => (Z.lxor h c * 1099511628211) mod 2 ^ 64) s v' mod 2 ^ 32.
Proof.
  induction s as [|c s IH]; intros v v' A E; [exact E|]. inversion A; subst. cbn [hash64_fnv1a_from fold_left]. apply IH; auto.
  unfold fnv64_step. rewrite sgn_ascii by auto. unfold wrap. rewrite (Z.mod_small c) by (change (2 ^ 64) with 18446744073709551616; lia).
  rewrite Z.mod_mod by lia. rewrite <- !Znumtheory.Zmod_div_mod by (try lia; exists (2 ^ 32); reflexivity).
  rewrite Z.mul_mod by lia. rewrite lxor_mod by lia. rewrite E. rewrite <- lxor_mod by lia. rewrite <- Z.mul_mod by lia. reflexivity.
Qed.

Lemma bound64 : forall s v, s <> [] -> 0 <= hash64_fnv1a_from s v < 2 ^ 32.
Proof.
  assert (H : forall s v, 0 <= v < 2 ^ 32 -> 0 <= hash64_fnv1a_from s v < 2 ^ 32).
  { induction s as [|c s IH]; intros v V; auto. cbn [hash64_fnv1a_from]. apply IH. unfold fnv64_step, wrap. apply Z.mod_pos_bound. lia. }
  intros [|c s] v N; [congruence|]. cbn [hash64_fnv1a_from]. apply H. unfold fnv64_step, wrap. apply Z.mod_pos_bound. lia.
Qed.

(* On 7 bit strings hash_fnv1a is FNV-1a with 32 bits, while hash64_fnv1a is the low half of FNV-1a with
   64 bits.  Hashing may go on from the hash of a prefix. *)
Theorem C169_fnv_partial :
  (forall s, ascii s -> hash_fnv1a s = fnv1a_32 s) /\
  (forall s, ascii s -> s <> [] -> hash64_fnv1a s = fnv1a_64 s mod 2 ^ 32) /\
  (forall s t v, hash_fnv1a_from (s ++ t) v = hash_fnv1a_from t (hash_fnv1a_from s v)) /\
  (forall s t v, hash64_fnv1a_from (s ++ t) v = hash64_fnv1a_from t (hash64_fnv1a_from s v)).
Proof.
  split; [|split; [|split]].
  - intros s A. apply from32. exact A.
  - intros s A N. unfold hash64_fnv1a, fnv1a_64, fnv1a. rewrite <- (from64 s 14695981039346656037) by auto. symmetry. apply Z.mod_small. now apply bound64.
  - induction s as [|c s IH]; intros; cbn; auto.
  - induction s as [|c s IH]; intros; cbn; auto.
Qed.
Print Assumptions C169_fnv_partial.

(* bytes above 127 are hashed differently; the 64 bit hash never uses its upper half *)
Theorem C169_fnv_refuted :
  (exists s, Forall (fun c => 0 < c < 256) s /\ hash_fnv1a s <> fnv1a_32 s) /\
  (exists s, ascii s /\ hash64_fnv1a s <> fnv1a_64 s) /\
  (forall s, s <> [] -> hash64_fnv1a s < 2 ^ 32).
Proof.
  split; [|split].
  - exists [195; 188]. split; [repeat constructor; lia|]. vm_compute. discriminate.
  - exists [97]. split; [repeat constructor; lia|]. vm_compute. discriminate.
  - intros s N. now apply bound64.
Qed.
Print Assumptions C169_fnv_refuted.

(* the published value for "foobar" *)
Example C169_example : ascii [102; 111; 111; 98; 97; 114] /\ hash_fnv1a [102; 111; 111; 98; 97; 114] = 0xbf9cf968 /\
  fnv1a_64 [102; 111; 111; 98; 97; 114] = 0x85944171f73967e8 /\ hash64_fnv1a [102; 111; 111; 98; 97; 114] = 0xf73967e8.
Proof. split; [repeat constructor; lia|]. vm_compute. auto. Qed.
