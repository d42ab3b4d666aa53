(** C16: [UBJSONTuple::Parse] inverts [UBJSONTuple::Write]. *)
From Coq Require Import List ZArith Lia Bool.
From Coq Require Import ZifyBool ZifyNat.
From Verif Require Import Common UBJSON.
Import ListNotations.
Open Scope Z_scope.

(* ------------------------------------------------------------------ *)
(** * Specification *)

(** A byte. *)
Definition byte (b : Z) : Prop := 0 <= b < 256.

(** The values a C++ object of each kind can hold: integers in the range of
    their width, strings and containers whose length fits in [int64_t].
    In an array or object whose elements do not all have one type (which is
    therefore not written as a typed container) no element is a no-op. *)
Fixpoint legal (v : val) : Prop :=
  match v with
  | VNull | VNoOp | VTrue | VFalse => True
  | VChar z | VInt8 z => -128 <= z < 128
  | VUInt8 z => 0 <= z < 256
  | VInt16 z => -32768 <= z < 32768
  | VInt32 z => -2147483648 <= z < 2147483648
  | VInt64 z => -9223372036854775808 <= z < 9223372036854775808
  | VFloat b => 0 <= b < 4294967296
  | VDouble b => 0 <= b < 18446744073709551616
  | VBignum s | VString s =>
      Forall byte s /\ Z.of_nat (length s) < 9223372036854775808
  | VArray l =>
      Z.of_nat (length l) < 9223372036854775808 /\
      ((exists t, Forall (fun x => type_of x = t) l) \/ ~ In VNoOp l) /\
      fold_right (fun x P => legal x /\ P) True l
  | VObject l =>
      Z.of_nat (length l) < 9223372036854775808 /\
      ((exists t, Forall (fun x => type_of (snd x) = t) l) \/ ~ In VNoOp (map snd l)) /\
      fold_right (fun x P => (Forall byte (fst x) /\
                              Z.of_nat (length (fst x)) < 9223372036854775808 /\
                              legal (snd x)) /\ P) True l
  end.

Definition is_null (v : val) := match v with VNull => true | _ => false end.
Definition is_noop (v : val) := match v with VNoOp => true | _ => false end.
Definition is_true (v : val) := match v with VTrue => true | _ => false end.
Definition is_false (v : val) := match v with VFalse => true | _ => false end.

(** The tree ends in zero-width array elements: it is a non-empty array of
    only nulls, only trues, only falses or only no-ops, or its last element
    (or last entry's value) is such a tree. *)
Fixpoint ends_zero_width (v : val) : bool :=
  match v with
  | VArray l =>
      match l with
      | [] => false
      | _ => forallb is_null l || forallb is_noop l || forallb is_true l ||
             forallb is_false l || last (map ends_zero_width l) false
      end
  | VObject l => last (map (fun x => ends_zero_width (snd x)) l) false
  | _ => false
  end.

(** Number of nodes of a tree, and a bound on the calls needed to read it. *)
Fixpoint size (v : val) : nat :=
  match v with
  | VArray l => S (S (fold_right (fun x n => S (size x + n)) O l))
  | VObject l => S (S (fold_right (fun x n => S (size (snd x) + n)) O l))
  | _ => 1%nat
  end.

(* ------------------------------------------------------------------ *)
(** * Proofs *)

Lemma val_ind2 (P : val -> Prop) :
  P VNull -> P VNoOp -> P VTrue -> P VFalse ->
  (forall z, P (VChar z)) -> (forall z, P (VInt8 z)) -> (forall z, P (VUInt8 z)) ->
  (forall z, P (VInt16 z)) -> (forall z, P (VInt32 z)) -> (forall z, P (VInt64 z)) ->
  (forall z, P (VFloat z)) -> (forall z, P (VDouble z)) ->
  (forall s, P (VBignum s)) -> (forall s, P (VString s)) ->
  (forall l, Forall P l -> P (VArray l)) ->
  (forall l, Forall (fun x => P (snd x)) l -> P (VObject l)) ->
  forall v, P v.
Proof.
  intros h1 h2 h3 h4 h5 h6 h7 h8 h9 h10 h11 h12 h13 h14 ha ho.
  fix IH 1. intros v; destruct v; try solve [clear IH; auto].
  - apply ha. induction l as [|x l IHl]; constructor; auto.
  - apply ho. induction l as [|x l IHl]; constructor; auto.
Qed.

Lemma le_length n z : length (le n z) = n.
Proof. revert z; induction n; intros; cbn; auto. Qed.

Lemma le_byte n z : Forall byte (le n z).
Proof.
  revert z; induction n; intros; cbn; constructor; auto.
  unfold byte; apply Z.mod_pos_bound; lia.
Qed.

Lemma of_le_le n z : of_le (le n z) = z mod 2 ^ (8 * Z.of_nat n).
Proof.
  revert z; induction n as [|n IH]; intros z.
  - cbn. rewrite Z.mod_1_r. reflexivity.
  - cbn [le of_le]. rewrite IH.
    replace (8 * Z.of_nat (S n)) with (8 + 8 * Z.of_nat n) by lia.
    rewrite Z.pow_add_r by lia. change (2 ^ 8) with 256.
    assert (0 < 2 ^ (8 * Z.of_nat n)) by (apply Z.pow_pos_nonneg; lia).
    rewrite Zmod_eq_full with (a := z) (b := 256) by lia.
    rewrite (Z.rem_mul_r z 256) by lia.
    rewrite Zmod_eq_full with (a := z) (b := 256) by lia. lia.
Qed.

Lemma sgn_mod w x lo : lo = 2 ^ (w - 1) -> 1 <= w -> - lo <= x < lo ->
  sgn w (x mod 2 ^ w) = x.
Proof.
  intros -> Hw H. unfold sgn. rewrite Z.mod_mod by (apply Z.pow_nonzero; lia).
  assert (E : 2 ^ w = 2 * 2 ^ (w - 1)).
  { rewrite <- Z.pow_succ_r by lia. f_equal; lia. }
  destruct (Z_lt_le_dec x 0).
  - rewrite <- (Z_mod_plus_full x 1 (2 ^ w)).
    rewrite Z.mod_small by lia. destruct (_ <? _) eqn:?; lia.
  - rewrite Z.mod_small by lia. destruct (_ <? _) eqn:?; lia.
Qed.

Lemma sread_app n l r : n = length l -> sread n (St (l ++ r) false) = (Some l, St r false).
Proof.
  intros ->. unfold sread; cbn [failed bytes]. rewrite app_length.
  replace (length l <=? length l + length r)%nat with true by lia.
  rewrite firstn_app, Nat.sub_diag, firstn_O, firstn_all, app_nil_r.
  rewrite skipn_app, Nat.sub_diag, skipn_all. reflexivity.
Qed.

Lemma parse_bits_ok n z r : 0 <= z < 2 ^ (8 * Z.of_nat n) ->
  parse_bits n (St (write_integer n z ++ r) false) = POk z (St r false).
Proof.
  intros H. unfold parse_bits, write_integer.
  rewrite sread_app by (rewrite rev_length, le_length; reflexivity).
  rewrite rev_involutive, of_le_le, Z.mod_small by lia. reflexivity.
Qed.

Lemma parse_int_ok n z lo r : lo = 2 ^ (8 * Z.of_nat n - 1) -> (1 <= n)%nat ->
  - lo <= z < lo ->
  parse_int n (St (write_integer n z ++ r) false) = POk z (St r false).
Proof.
  intros E Hn H. unfold parse_int, parse_bits, write_integer.
  rewrite sread_app by (rewrite rev_length, le_length; reflexivity).
  rewrite rev_involutive, of_le_le. cbn [pbind].
  rewrite (sgn_mod _ _ lo) by (auto; lia). reflexivity.
Qed.

Lemma write_integer_byte n z : Forall byte (write_integer n z).
Proof. apply Forall_rev, le_byte. Qed.

Lemma write_length_byte n : Forall byte (write_length n).
Proof.
  unfold write_length, int_tuple.
  repeat match goal with |- context [if ?b then _ else _] => destruct b end;
    cbn [type_of write_scalar]; (constructor; [cbv; split; congruence|apply write_integer_byte]).
Qed.

Lemma write_length_ne n : write_length n <> [].
Proof. discriminate. Qed.

Lemma parse_length_ok n r : 0 <= n < 9223372036854775808 ->
  parse_length (St (write_length n ++ r) false) = POk n (St r false).
Proof.
  intros H. unfold parse_length, write_length, int_tuple.
  destruct (check_int 0 255 n) eqn:E1; [|destruct (check_int (-128) 127 n) eqn:E2;
    [|destruct (check_int (-32768) 32767 n) eqn:E3;
      [|destruct (check_int (-2147483648) 2147483647 n) eqn:E4]]];
  unfold check_int in *;
  cbn [type_of write_scalar]; rewrite <- app_comm_cons; cbn [parse_length_f failed];
  unfold sget; cbn [failed bytes].
  - change (((T_UINT8 =? T_CHAR) || (T_UINT8 =? T_INT8))) with false.
    change (T_UINT8 =? T_UINT8) with true. cbv iota.
    rewrite parse_bits_ok by (change (2 ^ (8 * Z.of_nat 1)) with 256; lia).
    cbn [pbind]. replace (n <? 0) with false by lia. reflexivity.
  - exfalso; lia.
  - change (((T_INT16 =? T_CHAR) || (T_INT16 =? T_INT8))) with false.
    change (T_INT16 =? T_UINT8) with false. change (T_INT16 =? T_INT16) with true. cbv iota.
    rewrite (parse_int_ok 2 n 32768) by (try reflexivity; lia).
    cbn [pbind]. replace (n <? 0) with false by lia. reflexivity.
  - change (((T_INT32 =? T_CHAR) || (T_INT32 =? T_INT8))) with false.
    change (T_INT32 =? T_UINT8) with false. change (T_INT32 =? T_INT16) with false.
    change (T_INT32 =? T_INT32) with true. cbv iota.
    rewrite (parse_int_ok 4 n 2147483648) by (try reflexivity; lia).
    cbn [pbind]. replace (n <? 0) with false by lia. reflexivity.
  - change (((T_INT64 =? T_CHAR) || (T_INT64 =? T_INT8))) with false.
    change (T_INT64 =? T_UINT8) with false. change (T_INT64 =? T_INT16) with false.
    change (T_INT64 =? T_INT32) with false. change (T_INT64 =? T_INT64) with true. cbv iota.
    rewrite (parse_int_ok 8 n 9223372036854775808) by (try reflexivity; lia).
    cbn [pbind]. replace (n <? 0) with false by lia. reflexivity.
Qed.

Lemma parse_string_ok s r : Z.of_nat (length s) < 9223372036854775808 ->
  parse_string (St ((write_length (Z.of_nat (length s)) ++ s) ++ r) false) =
  POk s (St r false).
Proof.
  intros H. unfold parse_string. rewrite <- app_assoc, parse_length_ok by lia.
  cbn [pbind]. destruct (Z.of_nat (length s) >? 0) eqn:E.
  - rewrite sread_app by lia. reflexivity.
  - destruct s; cbn in E; [reflexivity|lia].
Qed.

Lemma type_of_byte v : byte (type_of v).
Proof. destruct v; cbv; split; congruence. Qed.

Lemma type_of_none v : (type_of v =? T_NONE) = false.
Proof. destruct v; reflexivity. Qed.

Lemma type_of_special v : type_of v <> T_TYPE /\ type_of v <> T_COUNT /\ type_of v <> T_NONE.
Proof. destruct v; cbv; repeat split; congruence. Qed.

(** The element type of a container. *)
Lemma common_type_cases ts : ts <> [] -> (forall t, In t ts -> t <> T_NONE) ->
  (common_type ts <> T_NONE /\ Forall (fun t => t = common_type ts) ts) \/
  (common_type ts = T_NONE /\ ~ exists t, Forall (fun x => x = t) ts).
Proof.
  intros Hne Hn. destruct ts as [|t ts]; [congruence|]. unfold common_type.
  destruct (forallb _ _) eqn:E.
  - left. split; [apply Hn; left; reflexivity|]. rewrite forallb_forall in E.
    apply Forall_forall. intros x Hx. specialize (E x Hx). lia.
  - right. split; [reflexivity|]. intros (u & Hu).
    assert (forallb (fun x => x =? t) (t :: ts) = true); [|congruence].
    apply forallb_forall. intros x Hx. rewrite Forall_forall in Hu.
    rewrite (Hu x Hx), <- (Hu t) by (left; reflexivity). lia.
Qed.

Lemma parse_marker_ok c r : c <> T_NO_OP ->
  parse_marker (St (c :: r) false) = POk c (St r false).
Proof.
  intros H. unfold parse_marker. cbn [parse_marker_f]. unfold sget; cbn [failed bytes].
  replace (c =? T_NO_OP) with false by lia. reflexivity.
Qed.

(** A type and a count are read back as written. *)
Lemma parse_type_count_ok ty n r : ty <> T_TYPE -> ty <> T_COUNT ->
  0 <= n < 9223372036854775808 ->
  parse_type_count (St (write_type_count ty n ++ r) false) = POk (ty, n) (St r false).
Proof.
  intros Hd Hc Hn. unfold parse_type_count, write_type_count.
  destruct (Z.eqb_spec ty T_NONE) as [->|Hne].
  - cbn [app]. unfold peek, sget; cbn [failed bytes].
    change (T_COUNT =? T_TYPE) with false. cbn [negb andb failed bytes].
    change (T_COUNT =? T_COUNT) with true. cbv iota.
    rewrite parse_length_ok by lia. reflexivity.
  - cbn [app]. unfold peek, sget; cbn [failed bytes].
    change (T_TYPE =? T_TYPE) with true. cbn [negb andb failed bytes].
    change (T_COUNT =? T_COUNT) with true. cbv iota.
    rewrite parse_length_ok by lia. reflexivity.
Qed.

Definition zt (ty : Z) : Prop := ty = T_NULL \/ ty = T_NO_OP \/ ty = T_TRUE \/ ty = T_FALSE.

Lemma zt_dec ty : zt ty \/ ~ zt ty.
Proof. unfold zt. lia. Qed.

Lemma zt_scalar v : zt (type_of v) -> ends_zero_width v = false.
Proof. unfold zt; destruct v; cbv -[ends_zero_width]; intuition congruence. Qed.

Lemma payload_ne v : ~ zt (type_of v) -> payload v <> [].
Proof.
  unfold zt; destruct v; cbn [type_of]; intros H E; try (apply H; tauto);
    try (apply (f_equal (@length Z)) in E; cbn [payload] in E;
         unfold write_integer in E; rewrite rev_length, le_length in E; discriminate);
    try (cbn [payload] in E; discriminate E).
  - destruct l; cbn [payload] in E; [discriminate|].
    unfold write_type_count in E. destruct (_ =? _); discriminate.
  - destruct l; cbn [payload] in E; [discriminate|].
    unfold write_type_count in E. destruct (_ =? _); discriminate.
Qed.

Lemma legal_array l : legal (VArray l) <->
  Z.of_nat (length l) < 9223372036854775808 /\
  ((exists t, Forall (fun x => type_of x = t) l) \/ ~ In VNoOp l) /\ Forall legal l.
Proof.
  cbn [legal].
  assert (E : fold_right (fun x P => legal x /\ P) True l <-> Forall legal l).
  { induction l; cbn; split; intros H; auto.
    - constructor; tauto.
    - inversion H; subst; tauto. }
  tauto.
Qed.

Definition legal_entry (x : list Z * val) : Prop :=
  Forall byte (fst x) /\ Z.of_nat (length (fst x)) < 9223372036854775808 /\ legal (snd x).

Lemma legal_object l : legal (VObject l) <->
  Z.of_nat (length l) < 9223372036854775808 /\
  ((exists t, Forall (fun x => type_of (snd x) = t) l) \/ ~ In VNoOp (map snd l)) /\
  Forall legal_entry l.
Proof.
  cbn [legal].
  assert (E : fold_right (fun x P => (Forall byte (fst x) /\
                              Z.of_nat (length (fst x)) < 9223372036854775808 /\
                              legal (snd x)) /\ P) True l <-> Forall legal_entry l).
  { induction l; cbn; split; intros H; auto.
    - constructor; [unfold legal_entry|]; tauto.
    - inversion H; subst; unfold legal_entry in *; tauto. }
  tauto.
Qed.

Lemma type_count_byte ty n : byte ty -> Forall byte (write_type_count ty n).
Proof.
  intros H. unfold write_type_count. apply Forall_app; split.
  - destruct (_ =? _); repeat constructor; try exact (proj1 H); try exact (proj2 H); cbv; congruence.
  - constructor; [cbv; split; congruence|apply write_length_byte].
Qed.

Lemma common_type_byte ts : Forall byte ts -> byte (common_type ts).
Proof.
  intros H. destruct ts; cbn [common_type]; [cbv; split; congruence|].
  destruct (forallb _ _); [inversion H; auto|cbv; split; congruence].
Qed.

Lemma Forall_flat_map {A B} (P : B -> Prop) (f : A -> list B) l :
  Forall (fun x => Forall P (f x)) l -> Forall P (flat_map f l).
Proof. induction 1; cbn; auto. apply Forall_app; auto. Qed.

Lemma payload_byte v : legal v -> Forall byte (payload v).
Proof.
  induction v using val_ind2; intros L; cbn [payload]; auto using write_integer_byte.
  - cbn [legal] in L. apply Forall_app; split; [apply write_length_byte|tauto].
  - cbn [legal] in L. apply Forall_app; split; [apply write_length_byte|tauto].
  - apply legal_array in L. destruct L as (_ & _ & L).
    destruct l as [|v l]; [repeat constructor; cbv; congruence|].
    cbv zeta. set (ty := common_type _). apply Forall_app; split.
    + apply type_count_byte, common_type_byte, Forall_forall.
      intros t Ht. apply in_map_iff in Ht. destruct Ht as (x & <- & _). apply type_of_byte.
    + apply Forall_flat_map. apply Forall_forall. intros x Hx.
      rewrite Forall_forall in H, L. apply Forall_app; split; [|auto].
      destruct (_ =? _); auto using type_of_byte.
  - apply legal_object in L. destruct L as (_ & _ & L).
    destruct l as [|v l]; [repeat constructor; cbv; congruence|].
    cbv zeta. set (ty := common_type _). apply Forall_app; split.
    + apply type_count_byte, common_type_byte, Forall_forall.
      intros t Ht. apply in_map_iff in Ht. destruct Ht as (x & <- & _). apply type_of_byte.
    + apply Forall_flat_map. apply Forall_forall. intros x Hx.
      rewrite Forall_forall in H, L. destruct (L x Hx) as (L1 & L2 & L3).
      apply Forall_app; split; [apply write_length_byte|].
      apply Forall_app; split; [auto|].
      apply Forall_app; split; [|auto].
      destruct (_ =? _); auto using type_of_byte.
Qed.

(** What is shown of every tree, by induction. *)
Definition reads (v : val) : Prop :=
  forall rest n, legal v -> Forall byte rest ->
    rest <> [] \/ ends_zero_width v = false -> (size v <= n)%nat ->
    parse n (type_of v) (St (payload v ++ rest) false) = POk v (St rest false).

(** The same with the marker in front. *)
Lemma reads_marked v : reads v -> forall rest n, v <> VNoOp -> legal v -> Forall byte rest ->
  rest <> [] \/ ends_zero_width v = false -> (size v <= n)%nat ->
  parse n T_NONE (St (type_of v :: payload v ++ rest) false) = POk v (St rest false).
Proof.
  intros R rest n Hv L B Z Hn. specialize (R rest n L B Z Hn).
  destruct n as [|n]; [destruct v; cbn in Hn; lia|].
  cbn [parse] in *. change (T_NONE =? T_NONE) with true.
  rewrite type_of_none in R. cbv iota in *.
  rewrite parse_marker_ok; [exact R|]. destruct v; cbv; congruence.
Qed.

Lemma more_pos k fin s : 0 < k -> Forall byte s -> s <> [] -> more k fin (St s false) = true.
Proof.
  intros Hk B Hs. unfold more, peek; cbn [failed bytes].
  destruct s as [|b s]; [congruence|]. inversion B; subst. unfold byte in *.
  replace (b =? -1) with false by lia. replace (k >? 0) with true by lia. reflexivity.
Qed.

Definition enc (ty : Z) (i : val) : list Z :=
  (if ty =? T_NONE then [type_of i] else []) ++ payload i.

Definition lsize (l : list val) : nat := S (fold_right (fun x n => S (size x + n)) O l).

Lemma size_pos v : (1 <= size v)%nat.
Proof. destruct v; cbn; lia. Qed.

Lemma enc_ne ty x : (ty = type_of x \/ ty = T_NONE) -> ~ zt ty -> enc ty x <> [].
Proof.
  intros [->| ->] H E; unfold enc in E.
  - apply app_eq_nil in E. destruct E as [_ E]. exact (payload_ne _ H E).
  - discriminate E.
Qed.

Lemma enc_byte ty x : legal x -> Forall byte (enc ty x).
Proof.
  intros L. apply Forall_app; split; [|apply payload_byte; auto].
  destruct (_ =? _); auto using type_of_byte.
Qed.

(** One element. *)
Lemma elem_ok ty x rest n : reads x -> legal x -> Forall byte rest ->
  (ty = type_of x \/ ty = T_NONE /\ x <> VNoOp) ->
  rest <> [] \/ ends_zero_width x = false -> (size x <= n)%nat ->
  parse n ty (St (enc ty x ++ rest) false) = POk x (St rest false).
Proof.
  intros R L B T Z Hn. unfold enc. destruct T as [->|[-> Hx]].
  - rewrite type_of_none. apply R; auto.
  - change (T_NONE =? T_NONE) with true. cbn [app]. apply reads_marked; auto.
Qed.

Lemma array_ok ty : forall l rest n,
  Forall reads l -> Forall legal l -> Forall byte rest ->
  Forall (fun x => ty = type_of x \/ ty = T_NONE /\ x <> VNoOp) l ->
  rest <> [] \/ (last (map ends_zero_width l) false = false /\ (zt ty -> l = [])) ->
  (lsize l <= n)%nat ->
  parse_array n ty (Z.of_nat (length l)) (St (flat_map (enc ty) l ++ rest) false) =
  POk l (St rest false).
Proof.
  induction l as [|x l IH]; intros rest n R L B T Z Hn.
  - destruct n as [|n]; [unfold lsize in Hn; lia|]. cbn [parse_array length flat_map app].
    unfold more, eat_end. cbn [Z.of_nat Z.gtb Z.ltb Z.compare orb andb negb].
    rewrite andb_false_r. cbn [andb]. reflexivity.
  - destruct n as [|n]; [unfold lsize in Hn; lia|]. cbn [parse_array flat_map].
    inversion R as [|? ? Rx Rl]; inversion L as [|? ? Lx Ll]; inversion T as [|? ? Tx Tl]; subst.
    assert (Hs : (size x + lsize l <= n)%nat) by (unfold lsize in *; cbn in Hn; lia).
    assert (Bl : Forall byte (flat_map (enc ty) l ++ rest)).
    { apply Forall_app; split; [|auto]. apply Forall_flat_map.
      apply Forall_forall; intros y Hy. rewrite Forall_forall in Ll. apply enc_byte; auto. }
    rewrite <- app_assoc.
    rewrite more_pos; [| cbn [length]; lia | apply Forall_app; split; [apply enc_byte|]; auto |].
    2:{ destruct (zt_dec ty) as [Zt|Nz].
        - destruct Z as [Z|[_ Z]]; [|specialize (Z Zt); congruence].
          intros E. apply app_eq_nil in E. destruct E as [_ E].
          apply app_eq_nil in E. tauto.
        - intros E. apply app_eq_nil in E. destruct E as [E _].
          revert E. apply enc_ne; tauto. }
    rewrite elem_ok; auto.
    + cbn [pbind]. replace (Z.of_nat (length (x :: l)) - 1) with (Z.of_nat (length l)) by (cbn [length]; lia).
      rewrite IH; auto.
      * destruct Z as [Z|[Z1 Z2]]; [auto|]. right. split.
        -- destruct l; [reflexivity|exact Z1].
        -- intros Zt. specialize (Z2 Zt). discriminate.
      * pose proof (size_pos x); lia.
    + destruct l as [|y l].
      * cbn [flat_map app]. destruct Z as [Z|[Z _]]; [auto|]. right; exact Z.
      * destruct (zt_dec ty) as [Zt|Nz].
        -- right. destruct Tx as [->|[-> _]]; [apply zt_scalar; auto|].
           unfold zt in Zt. cbv in Zt. lia.
        -- left. cbn [flat_map]. intros E. apply app_eq_nil in E. destruct E as [E _].
           apply app_eq_nil in E. destruct E as [E _]. inversion Tl; subst.
           revert E. apply enc_ne; tauto.
    + unfold lsize in Hs; lia.
Qed.

Definition oenc (ty : Z) (i : list Z * val) : list Z :=
  write_length (Z.of_nat (length (fst i))) ++ fst i ++ enc ty (snd i).

Definition osize (l : list (list Z * val)) : nat :=
  S (fold_right (fun x n => S (size (snd x) + n)) O l).

Lemma oenc_byte ty x : legal_entry x -> Forall byte (oenc ty x).
Proof.
  intros (L1 & L2 & L3). unfold oenc. apply Forall_app; split; [apply write_length_byte|].
  apply Forall_app; split; auto using enc_byte.
Qed.

Lemma object_ok ty : forall l rest n,
  Forall (fun x => reads (snd x)) l -> Forall legal_entry l -> Forall byte rest ->
  Forall (fun x => ty = type_of (snd x) \/ ty = T_NONE /\ snd x <> VNoOp) l ->
  rest <> [] \/ last (map (fun x => ends_zero_width (snd x)) l) false = false ->
  (osize l <= n)%nat ->
  parse_object n ty (Z.of_nat (length l)) (St (flat_map (oenc ty) l ++ rest) false) =
  POk l (St rest false).
Proof.
  induction l as [|[key x] l IH]; intros rest n R L B T Z Hn.
  - destruct n as [|n]; [unfold osize in Hn; lia|]. cbn [parse_object length flat_map app].
    unfold more, eat_end. cbn [Z.of_nat Z.gtb Z.ltb Z.compare orb andb negb].
    rewrite andb_false_r. cbn [andb]. reflexivity.
  - destruct n as [|n]; [unfold osize in Hn; lia|]. cbn [parse_object flat_map].
    inversion R as [|? ? Rx Rl]; inversion L as [|? ? Lx Ll]; inversion T as [|? ? Tx Tl]; subst.
    assert (Hs : (size x + osize l <= n)%nat) by (unfold osize in *; cbn in Hn; lia).
    assert (Bl : Forall byte (flat_map (oenc ty) l ++ rest)).
    { apply Forall_app; split; [|auto]. apply Forall_flat_map.
      apply Forall_forall; intros y Hy. rewrite Forall_forall in Ll. apply oenc_byte; auto. }
    rewrite <- app_assoc.
    rewrite more_pos; [| cbn [length]; lia | apply Forall_app; split; [apply oenc_byte|]; auto |].
    2:{ unfold oenc. intros E. apply app_eq_nil in E. destruct E as [E _].
        apply app_eq_nil in E. destruct E as [E _]. revert E. apply write_length_ne. }
    destruct Lx as (L1 & L2 & L3). cbn [fst snd] in *.
    unfold oenc at 1. cbn [fst snd]. rewrite <- (app_assoc (write_length _)), parse_length_ok by lia.
    cbn [pbind]. rewrite <- (app_assoc key), sread_app by lia.
    rewrite elem_ok; auto.
    + cbn [pbind]. replace (Z.of_nat (length ((key, x) :: l)) - 1) with (Z.of_nat (length l)) by (cbn [length]; lia).
      rewrite IH; auto.
      * destruct Z as [Z|Z]; [auto|]. right. destruct l; [reflexivity|exact Z].
      * pose proof (size_pos x); lia.
    + destruct l as [|y l].
      * cbn [flat_map app]. destruct Z as [Z|Z]; [auto|]. right; exact Z.
      * left. cbn [flat_map]. unfold oenc. intros E. apply app_eq_nil in E. destruct E as [E _].
        apply app_eq_nil in E. destruct E as [E _]. apply app_eq_nil in E. destruct E as [E _].
        revert E. apply write_length_ne.
    + unfold osize in Hs; lia.
Qed.

Lemma zt_array l : l <> [] -> Forall (fun x => zt (type_of x)) l ->
  (exists t, Forall (fun x => type_of x = t) l) -> ends_zero_width (VArray l) = true.
Proof.
  intros Hl Z (t & Ht). destruct l as [|x l]; [congruence|].
  cbn [ends_zero_width].
  assert (Hz : zt t). { inversion Z; inversion Ht; subst; auto. }
  destruct Hz as [->|[->|[->| ->]]].
  - replace (forallb is_null (x :: l)) with true; [reflexivity|].
    symmetry. apply forallb_forall. intros y Hy. rewrite Forall_forall in Ht.
    specialize (Ht y Hy). destruct y; try reflexivity; cbv in Ht; congruence.
  - replace (forallb is_noop (x :: l)) with true; [rewrite !orb_true_r; reflexivity|].
    symmetry. apply forallb_forall. intros y Hy. rewrite Forall_forall in Ht.
    specialize (Ht y Hy). destruct y; try reflexivity; cbv in Ht; congruence.
  - replace (forallb is_true (x :: l)) with true; [rewrite !orb_true_r; reflexivity|].
    symmetry. apply forallb_forall. intros y Hy. rewrite Forall_forall in Ht.
    specialize (Ht y Hy). destruct y; try reflexivity; cbv in Ht; congruence.
  - replace (forallb is_false (x :: l)) with true; [rewrite !orb_true_r; reflexivity|].
    symmetry. apply forallb_forall. intros y Hy. rewrite Forall_forall in Ht.
    specialize (Ht y Hy). destruct y; try reflexivity; cbv in Ht; congruence.
Qed.

(** The type passed to the children. *)
Lemma child_types (l : list val) : l <> [] ->
  ((exists t, Forall (fun x => type_of x = t) l) \/ ~ In VNoOp l) ->
  let ty := common_type (map type_of l) in
  Forall (fun x => ty = type_of x \/ ty = T_NONE /\ x <> VNoOp) l /\
  (ty <> T_NONE -> Forall (fun x => type_of x = ty) l) /\
  ty <> T_TYPE /\ ty <> T_COUNT.
Proof.
  intros Hl H ty.
  destruct (common_type_cases (map type_of l)) as [[Hn Hf]|[Hn Hf]].
  { destruct l; cbn; congruence. }
  { intros t Ht. apply in_map_iff in Ht. destruct Ht as (x & <- & _).
    apply type_of_special. }
  - fold ty in Hn, Hf. rewrite Forall_map in Hf. split; [|split].
    + eapply Forall_impl; [|exact Hf]. cbn. intros; left; congruence.
    + intros _. exact Hf.
    + destruct l as [|x l]; [congruence|]. inversion Hf; subst.
      rewrite <- H2. pose proof (type_of_special x); tauto.
  - fold ty in Hn. rewrite Hn. split; [|split].
    + destruct H as [(t & Ht)|H].
      * exfalso. apply Hf. exists t. rewrite Forall_map. exact Ht.
      * apply Forall_forall. intros x Hx. right. split; [reflexivity|]. intros ->; auto.
    + congruence.
    + cbv; split; congruence.
Qed.

Lemma reads_all v : reads v.
Proof.
  induction v using val_ind2; intros rest n L B Z Hn;
    (destruct n as [|n]; [cbn in Hn; lia|]);
    cbn [parse]; rewrite type_of_none; cbn [pbind].
  - reflexivity.
  - reflexivity.
  - reflexivity.
  - reflexivity.
  - cbn -[parse_int write_integer]. cbn [legal] in L.
    rewrite (parse_int_ok 1 z 128); auto; lia.
  - cbn -[parse_int write_integer]. cbn [legal] in L.
    rewrite (parse_int_ok 1 z 128); auto; lia.
  - cbn -[parse_bits write_integer]. cbn [legal] in L.
    rewrite parse_bits_ok; auto; change (2 ^ (8 * Z.of_nat 1)) with 256; lia.
  - cbn -[parse_int write_integer]. cbn [legal] in L.
    rewrite (parse_int_ok 2 z 32768); auto; lia.
  - cbn -[parse_int write_integer]. cbn [legal] in L.
    rewrite (parse_int_ok 4 z 2147483648); auto; lia.
  - cbn -[parse_int write_integer]. cbn [legal] in L.
    rewrite (parse_int_ok 8 z 9223372036854775808); auto; lia.
  - cbn -[parse_bits write_integer]. cbn [legal] in L.
    rewrite parse_bits_ok; auto.
  - cbn -[parse_bits write_integer]. cbn [legal] in L.
    rewrite parse_bits_ok; auto.
  - cbn [type_of payload]. cbn [legal] in L.
    change (pbind (parse_string (St ((write_length (Z.of_nat (length s)) ++ s) ++ rest) false))
             (fun b s => POk (VBignum b) s) = POk (VBignum s) (St rest false)).
    rewrite parse_string_ok by tauto. reflexivity.
  - cbn [type_of payload]. cbn [legal] in L.
    change (pbind (parse_string (St ((write_length (Z.of_nat (length s)) ++ s) ++ rest) false))
             (fun b s => POk (VString b) s) = POk (VString s) (St rest false)).
    rewrite parse_string_ok by tauto. reflexivity.
  - apply legal_array in L. destruct L as (L1 & L2 & L3).
    assert (Hs : (lsize l <= n)%nat) by (cbn [size] in Hn; unfold lsize; lia).
    change (pbind (parse_type_count (St (payload (VArray l) ++ rest) false)) (fun tc s =>
      pbind (parse_array n (fst tc) (snd tc) s) (fun l s => POk (VArray l) s)) =
      POk (VArray l) (St rest false)).
    destruct l as [|x l].
    + cbn [payload app]. destruct n as [|n]; [unfold lsize, osize in Hs; lia|]. reflexivity.
    + cbn [payload]. destruct (child_types (x :: l)) as (C1 & C2 & C3 & C4); [congruence|auto|].
      set (l0 := x :: l) in *. set (ty := common_type (map type_of l0)) in *.
      change (flat_map _ l0) with (flat_map (enc ty) l0).
      rewrite <- app_assoc, parse_type_count_ok by (auto; lia).
      cbn [pbind fst snd]. rewrite array_ok; auto.
      destruct Z as [Z|Z]; [auto|]. right. split.
      * unfold l0 in Z. cbn [ends_zero_width] in Z. fold l0 in Z.
        repeat (apply orb_false_iff in Z; destruct Z as [? Z]); auto.
      * intros Zt. exfalso. assert (Hne : ty <> T_NONE).
        { unfold zt in Zt. intros E; rewrite E in Zt; cbv in Zt; lia. }
        rewrite zt_array in Z; [discriminate|unfold l0; congruence| |].
        -- eapply Forall_impl; [|exact (C2 Hne)]. cbn. intros a ->. exact Zt.
        -- exists ty. exact (C2 Hne).
  - apply legal_object in L. destruct L as (L1 & L2 & L3).
    assert (Hs : (osize l <= n)%nat) by (cbn [size] in Hn; unfold osize; lia).
    change (pbind (parse_type_count (St (payload (VObject l) ++ rest) false)) (fun tc s =>
      pbind (parse_object n (fst tc) (snd tc) s) (fun l s => POk (VObject l) s)) =
      POk (VObject l) (St rest false)).
    destruct l as [|x l].
    + cbn [payload app]. destruct n as [|n]; [unfold lsize, osize in Hs; lia|]. reflexivity.
    + cbn [payload]. destruct (child_types (map snd (x :: l))) as (C1 & C2 & C3 & C4);
        [discriminate| |].
      { destruct L2 as [(t & Ht)|L2]; [left; exists t; rewrite Forall_map; exact Ht|auto]. }
      rewrite map_map in C1, C2, C3, C4.
      set (l0 := x :: l) in *. set (ty := common_type (map (fun i => type_of (snd i)) l0)) in *.
      change (flat_map _ l0) with (flat_map (oenc ty) l0).
      rewrite <- app_assoc, parse_type_count_ok by (auto; lia).
      cbn [pbind fst snd]. rewrite Forall_map in C1. rewrite object_ok; auto.
Qed.

(* ------------------------------------------------------------------ *)
(** * Theorems *)

(** Reading back what was written gives the same tree and leaves exactly the
    bytes that follow. *)
Theorem C16_roundtrip :
  forall v rest,
    v <> VNoOp -> legal v -> Forall byte rest ->
    (rest <> [] \/ ends_zero_width v = false) ->
    forall fuel, (size v <= fuel)%nat ->
    parse fuel T_NONE (St (write v T_NONE ++ rest) false) = POk v (St rest false).
Proof.
  intros v rest Hv L B Z n Hn. unfold write. change (T_NONE =? T_NONE) with true.
  cbn [app]. apply reads_marked; auto using reads_all.
Qed.
Print Assumptions C16_roundtrip.

(** Two different trees are never written as the same bytes. *)
Theorem C16_injective :
  forall v w, v <> VNoOp -> w <> VNoOp -> legal v -> legal w ->
    write v T_NONE = write w T_NONE -> v = w.
Proof.
  intros v w Hv Hw Lv Lw E.
  pose proof (C16_roundtrip v [0] Hv Lv) as P. pose proof (C16_roundtrip w [0] Hw Lw) as Q.
  assert (B : Forall byte [0]) by (repeat constructor; cbv; congruence).
  specialize (P B ltac:(left; congruence) (size v + size w)%nat ltac:(lia)).
  specialize (Q B ltac:(left; congruence) (size v + size w)%nat ltac:(lia)).
  rewrite E in P. rewrite P in Q. congruence.
Qed.
Print Assumptions C16_injective.

(** Trees written one after another are read back one after another. *)
Fixpoint parse_many (k fuel : nat) (s : istream) : presult (list val) :=
  match k with
  | O => POk [] s
  | S k => pbind (parse fuel T_NONE s) (fun v s =>
           pbind (parse_many k fuel s) (fun l s => POk (v :: l) s))
  end.

Theorem C16_sequence :
  forall vs rest fuel,
    Forall (fun v => v <> VNoOp /\ legal v /\ (size v <= fuel)%nat) vs ->
    Forall byte rest -> rest <> [] ->
    parse_many (length vs) fuel (St (flat_map (fun v => write v T_NONE) vs ++ rest) false) =
    POk vs (St rest false).
Proof.
  induction vs as [|v vs IH]; intros rest fuel H B Hr; [reflexivity|].
  inversion H as [|? ? (Hv & L & Hn) Hvs]; subst.
  cbn [length parse_many flat_map]. rewrite <- app_assoc.
  assert (B' : Forall byte (flat_map (fun v => write v T_NONE) vs ++ rest)).
  { apply Forall_app; split; [|auto]. apply Forall_flat_map.
    eapply Forall_impl; [|exact Hvs]. cbn. intros a (_ & La & _). apply (enc_byte T_NONE); auto. }
  rewrite C16_roundtrip; auto.
  - cbn [pbind]. rewrite IH; auto.
  - left. intros E. apply app_eq_nil in E. tauto.
Qed.
Print Assumptions C16_sequence.

(** The excluded corner: an array of three nulls at the very end of the
    stream is read back as an empty array. *)
Theorem C16_zero_width_at_end_refuted :
  parse 10 T_NONE (St (write (VArray [VNull; VNull; VNull]) T_NONE) false) =
  POk (VArray []) (St [] false).
Proof. reflexivity. Qed.
Print Assumptions C16_zero_width_at_end_refuted.

(** The other excluded corner: a no-op in a mixed array is skipped, and the
    element after it is taken in its place. *)
Theorem C16_noop_refuted :
  parse 10 T_NONE (St (write (VArray [VNoOp; VTrue]) T_NONE) false) =
  POk (VArray [VTrue]) (St [] false).
Proof. reflexivity. Qed.
Print Assumptions C16_noop_refuted.

(** A tree with every kind of value, nested and typed containers: the
    hypotheses hold and the conclusion can also be computed. *)
Definition sample : val :=
  VObject
    [([97], VArray [VInt16 (-300); VInt16 7]);
     ([], VArray [VNoOp; VNoOp]);
     ([98; 0; 99], VObject [([1], VTrue); ([2], VString [200; 0; 36])]);
     ([255], VArray [VNull; VChar (-1); VInt8 5; VUInt8 255; VInt32 (-2147483648);
                     VInt64 9223372036854775807; VFloat 1065353216; VDouble 1;
                     VBignum [49; 50]; VArray []; VObject []; VFalse])].

Example C16_example :
  sample <> VNoOp /\ legal sample /\ ends_zero_width sample = false /\
  parse 40 T_NONE (St (write sample T_NONE) false) = POk sample (St [] false).
Proof.
  split; [discriminate|]. split; [|split; [reflexivity|vm_compute; reflexivity]].
  cbn -[Z.of_nat]. unfold byte.
  repeat match goal with
  | |- _ /\ _ => split
  | |- True => exact Logic.I
  | |- Forall _ [] => constructor
  | |- Forall (fun b => 0 <= b < 256) (_ :: _) => constructor
  | |- _ => lia
  | |- (exists _, _) \/ ~ _ => first [left; eexists; solve [repeat constructor] | right; cbn; intuition congruence]
  end.
Qed.
