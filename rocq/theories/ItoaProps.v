(* Property C17: itoa_r. *)
From Coq Require Import List ZArith Bool Lia Arith.
From Coq Require Import ZifyBool ZifyNat.
From Verif Require Import Common ItoaSpec Itoa.
Import ListNotations.
Local Open Scope Z_scope.

Definition dchar (t : Z) : Z := if 9 <? t then t + 55 else t + 48.

(* digits produced, least significant first *)
Fixpoint digs (n : nat) (v r : Z) : list Z :=
  match n with
  | O => []
  | S n => dchar (v mod r) :: (if v / r <=? 0 then [] else digs n (v / r) r)
  end.

Lemma digit_char_ok t : 0 <= t < 36 -> digit_char t = Ok (dchar t).
Proof.
  intros H. unfold digit_char, int32, dchar. destruct (Z.ltb_spec 9 t).
  - replace ((- 2 ^ 31 <=? t + 55) && (t + 55 <? 2 ^ 31)) with true by lia. cbn [bind]. unfold wrap. rewrite Z.mod_small; auto. change (2 ^ 8) with 256. lia.
  - replace ((- 2 ^ 31 <=? t + 48) && (t + 48 <? 2 ^ 31)) with true by lia. cbn [bind]. unfold wrap. rewrite Z.mod_small; auto. change (2 ^ 8) with 256. lia.
Qed.

Lemma sgn_small x : 0 <= x < 2 ^ 31 -> sgn 32 x = x.
Proof.
  intros H. unfold sgn. rewrite Z.mod_small by (change (2 ^ 32) with (2 * 2 ^ 31); lia).
  change (2 ^ (32 - 1)) with (2 ^ 31). destruct (Z.ltb_spec x (2 ^ 31)); lia.
Qed.

Lemma digs_length n v r : (length (digs n v r) <= n)%nat.
Proof. revert v. induction n; intros v; cbn [digs length]; auto. destruct (v / r <=? 0); cbn [length]; [lia|]. specialize (IHn (v / r)). lia. Qed.

Lemma digits_loop_ok r : 2 <= r <= 36 -> forall fuel pre todo size v, 0 <= v < 2 ^ 31 ->
  size <= Z.of_nat (length pre + length todo) -> Z.of_nat (length pre) <= size -> size - Z.of_nat (length pre) < Z.of_nat fuel ->
  let ds := digs (Z.to_nat (size - Z.of_nat (length pre))) v r in
  digits_loop fuel (pre ++ todo) (length pre) size v r = Ok (pre ++ ds ++ skipn (length ds) todo, (length pre + length ds)%nat).
Proof.
  intros Hr. induction fuel as [|fuel IH]; intros pre todo size v Hv H1 H2 H3 ds; [lia|]. cbn [digits_loop].
  destruct (Z.ltb_spec (Z.of_nat (length pre)) size).
  - subst ds. destruct (Z.to_nat (size - Z.of_nat (length pre))) as [|n] eqn:En; [lia|]. cbn [digs].
    assert (Ew : wrap 32 v = v) by (unfold wrap; rewrite Z.mod_small; auto; change (2 ^ 32) with (2 * 2 ^ 31); lia). rewrite Ew.
    assert (0 <= v / r < 2 ^ 31). { split; [apply Z.div_pos; lia|]. apply Z.le_lt_trans with v; [|lia]. apply Z.div_le_upper_bound; [lia|]. clear - Hr Hv. nia. }
    assert (Hm : 0 <= v mod r < r) by (apply Z.mod_pos_bound; lia). clear Ew.
    rewrite !sgn_small by lia. rewrite digit_char_ok by lia. cbn [bind].
    destruct todo as [|x todo]; [cbn [length] in *; lia|]. cbn [length] in *.
    rewrite set_ok by (rewrite app_length; cbn; lia). rewrite upd_app_r, Nat.sub_diag by lia. cbn [upd bind].
    destruct (Z.leb_spec (v / r) 0).
    + cbn [length app skipn]. f_equal. f_equal. lia.
    + replace (pre ++ dchar (v mod r) :: todo) with ((pre ++ [dchar (v mod r)]) ++ todo) by (rewrite <- app_assoc; reflexivity).
      replace (S (length pre)) with (length (pre ++ [dchar (v mod r)])) by (rewrite app_length; cbn; lia).
      rewrite IH; rewrite ?app_length; cbn [length]; try lia.
      replace (Z.to_nat (size - Z.of_nat (length pre + 1))) with n by lia.
      rewrite <- app_assoc. cbn [app skipn]. f_equal. f_equal. lia.
  - subst ds. replace (Z.to_nat (size - Z.of_nat (length pre))) with 0%nat by lia. cbn [digs length app skipn]. now rewrite Nat.add_0_r.
Qed.

(* reversal of the segment behind pre *)
Lemma rev_ends {A} (m : list A) : (2 <= length m)%nat -> exists a m' b, m = a :: m' ++ [b].
Proof.
  destruct m as [|a m]; cbn; intros; [lia|]. destruct (exists_last (l := m)) as (m' & b & ->); [destruct m; cbn in *; [lia|congruence]|]. eauto.
Qed.

Lemma reverse_loop_ok : forall n fuel mid pre post, (length mid <= n)%nat -> (length mid < fuel)%nat ->
  reverse_loop fuel (pre ++ mid ++ post) (Z.of_nat (length pre)) (Z.of_nat (length pre + length mid) - 1) = Ok (pre ++ rev mid ++ post).
Proof.
  induction n as [|n IH]; intros fuel mid pre post Hn Hf; (destruct fuel as [|fuel]; [lia|]); cbn [reverse_loop].
  - destruct mid; cbn [length] in *; [|lia]. destruct (Z.ltb_spec (Z.of_nat (length pre)) (Z.of_nat (length pre + 0) - 1)); [lia|]. reflexivity.
  - destruct (Z.ltb_spec (Z.of_nat (length pre)) (Z.of_nat (length pre + length mid) - 1)).
    + destruct (rev_ends mid) as (a & m & b & ->); [lia|]. cbn [length] in *. rewrite app_length in *. cbn [length] in *.
      rewrite Nat2Z.id. replace (Z.to_nat _) with (length (pre ++ a :: m)) by (rewrite app_length; cbn; lia).
      assert (G1 : forall x l, get (pre ++ x :: l) (length pre) = Ok x).
      { intros. unfold get. rewrite nth_error_app2, Nat.sub_diag by lia. reflexivity. }
      assert (S1 : forall x y l, set (pre ++ x :: l) (length pre) y = Ok (pre ++ y :: l)).
      { intros. rewrite set_ok by (rewrite app_length; cbn; lia). rewrite upd_app_r, Nat.sub_diag by lia. reflexivity. }
      cbn [app]. rewrite G1. cbn [bind]. rewrite <- app_assoc. cbn [app].
      replace (pre ++ a :: m ++ b :: post) with ((pre ++ a :: m) ++ b :: post) by (rewrite <- app_assoc; reflexivity).
      unfold get at 1. rewrite nth_error_app2, Nat.sub_diag by lia. cbn [nth_error bind].
      rewrite <- app_assoc. cbn [app]. rewrite S1. cbn [bind].
      replace (pre ++ b :: m ++ b :: post) with ((pre ++ b :: m) ++ b :: post) by (rewrite <- app_assoc; reflexivity).
      replace (length (pre ++ a :: m)) with (length (pre ++ b :: m)) by (rewrite !app_length; reflexivity).
      rewrite set_ok by (rewrite !app_length; cbn; lia). rewrite upd_app_r, Nat.sub_diag by lia. cbn [upd bind].
      specialize (IH fuel m (pre ++ [b]) (a :: post)). rewrite app_length in IH. cbn [length] in IH.
      rewrite <- !app_assoc in IH |- *. cbn [app] in IH |- *.
      replace (Z.of_nat (length pre) + 1) with (Z.of_nat (length pre + 1)) by lia.
      replace (Z.of_nat (length pre + S (length m + 1)) - 1 - 1) with (Z.of_nat (length pre + 1 + length m) - 1) by lia.
      rewrite IH by lia. cbn [rev]. rewrite rev_app_distr. cbn [rev app]. rewrite <- !app_assoc. reflexivity.
    + destruct mid as [|a [|b mid]]; cbn [length] in *; [reflexivity|reflexivity|lia].
Qed.

(* the digits read back *)
Lemma dchar_value t : 0 <= t < 36 -> digit_value (dchar t) = Some t /\ dchar t <> 0.
Proof.
  intros H. unfold dchar, digit_value. destruct (Z.ltb_spec 9 t).
  - replace ((48 <=? t + 55) && (t + 55 <=? 57)) with false by lia. replace ((65 <=? t + 55) && (t + 55 <=? 90)) with true by lia.
    split; [f_equal; lia|lia].
  - replace ((48 <=? t + 48) && (t + 48 <=? 57)) with true by lia. split; [f_equal; lia|lia].
Qed.

Lemma read_digits_snoc r : forall s acc t v, read_digits r acc s = Some v -> 0 <= t < r -> r <= 36 ->
  read_digits r acc (s ++ [dchar t]) = Some (v * r + t).
Proof.
  induction s as [|c s IH]; intros acc t v E Ht Hr; cbn [read_digits app] in *.
  - injection E as ->. destruct (dchar_value t) as [-> _]; [lia|]. destruct (Z.ltb_spec t r); [auto|lia].
  - destruct (digit_value c); [|discriminate]. destruct (z <? r); [|discriminate]. auto.
Qed.

Lemma digs_read r : 2 <= r <= 36 -> forall n v, 0 <= v < r ^ Z.of_nat n -> (1 <= n)%nat ->
  read_digits r 0 (rev (digs n v r)) = Some v /\ Forall (fun c => c <> 0 /\ c <> 45) (digs n v r) /\ digs n v r <> [].
Proof.
  intros Hr. induction n as [|n IH]; intros v Hv Hn; [lia|]. cbn [digs rev].
  assert (Hm : 0 <= v mod r < r) by (apply Z.mod_pos_bound; lia).
  assert (Hd : Forall (fun c => c <> 0 /\ c <> 45) [dchar (v mod r)]).
  { constructor; [|constructor]. unfold dchar. destruct (9 <? v mod r) eqn:E; lia. }
  assert (Hq : v = r * (v / r) + v mod r) by (apply Z.div_mod; lia).
  destruct (Z.leb_spec (v / r) 0).
  - assert (0 <= v / r) by (apply Z.div_pos; lia). cbn [rev app].
    pose proof (read_digits_snoc r [] 0 (v mod r) 0 eq_refl Hm ltac:(lia)) as P. cbn [app] in P. rewrite P. split; [f_equal; nia|]. split; auto. discriminate.
  - rewrite Nat2Z.inj_succ, Z.pow_succ_r in Hv by lia.
    assert (v / r < r ^ Z.of_nat n) by (apply Z.div_lt_upper_bound; lia).
    destruct n as [|n]. { change (r ^ Z.of_nat 0) with 1 in *. lia. }
    destruct (IH (v / r)) as (E & F & _); [lia|lia|]. split; [|split].
    + rewrite (read_digits_snoc r _ 0 (v mod r) (v / r)); auto; [|lia]. f_equal. lia.
    + inversion Hd; subst. constructor; auto.
    + discriminate.
Qed.

Lemma c_string_app s t : Forall (fun c => c <> 0) s -> c_string (s ++ 0 :: t) = Some s.
Proof. induction 1 as [|c s H F IH]; cbn [c_string app]; auto. destruct (Z.eqb_spec c 0); [congruence|]. now rewrite IH. Qed.

(* The whole function, for every int but INT_MIN, every radix and every buffer of the given size:
   never outside the buffer, and the string is the sign followed by as many low digits as fit. *)
Lemma itoa_run val buf size r : - 2 ^ 31 < val < 2 ^ 31 -> 2 <= r <= 36 -> 2 <= size -> Z.of_nat (length buf) = size ->
  let sign := if val <? 0 then [45] else [] in
  let ds := digs (Z.to_nat (size - 1 - Z.of_nat (length sign))) (Z.abs val) r in
  exists tail, itoa_r val (Some buf) size r = Ok (0, sign ++ rev ds ++ 0 :: tail) /\
    length (sign ++ rev ds ++ 0 :: tail) = length buf.
Proof.
  intros Hv Hr Hs Hl sign ds. unfold itoa_r. replace ((r <? 2) || (size <=? 1)) with false by lia.
  assert (E1 : exists b1, length b1 = (length buf - length sign)%nat /\ (length sign < length buf)%nat /\
    (if val <? 0 then do b <- set buf 0 45; do v <- int32 (- val); Ok (b, 1%nat, v) else Ok (buf, 0%nat, val)) = Ok (sign ++ b1, length sign, Z.abs val)).
  { subst sign. destruct (Z.ltb_spec val 0).
    - destruct buf as [|x buf]; [cbn in Hl; lia|]. exists buf. cbn [length app set Nat.ltb Nat.leb upd bind].
      split; [lia|]. split; [cbn [length] in Hl; lia|]. unfold set. cbn. unfold int32. replace ((- 2 ^ 31 <=? - val) && (- val <? 2 ^ 31)) with true by lia.
      cbn [bind]. do 2 f_equal. lia.
    - exists buf. cbn [length app]. split; [lia|]. split; [lia|]. do 2 f_equal. lia. }
  destruct E1 as (b1 & L1 & Ls & ->). cbn [bind].
  rewrite (digits_loop_ok r Hr) by lia. cbn [bind]. fold ds.
  assert (Ld : (length ds <= Z.to_nat (size - 1 - Z.of_nat (length sign)))%nat) by apply digs_length.
  assert (Lk : (length (skipn (length ds) b1) = length b1 - length ds)%nat) by apply skipn_length.
  destruct (skipn (length ds) b1) as [|x tail]; [cbn [length] in Lk; lia|]. cbn [length] in Lk.
  replace (sign ++ ds ++ x :: tail) with ((sign ++ ds) ++ x :: tail) by (rewrite app_assoc; reflexivity).
  replace (length sign + length ds)%nat with (length (sign ++ ds)) by (rewrite app_length; lia).
  rewrite set_ok by (rewrite !app_length; cbn; lia). rewrite upd_app_r, Nat.sub_diag by lia. cbn [upd bind].
  rewrite <- app_assoc. rewrite app_length.
  rewrite (reverse_loop_ok (length ds)) by lia. cbn [bind]. exists tail. split; [reflexivity|].
  rewrite !app_length, rev_length. cbn [length]. lia.
Qed.

Theorem C17_itoa_r_reads_back :
  forall val buf size radix digits,
  - 2 ^ 31 < val < 2 ^ 31 -> 2 <= radix <= 36 -> Z.of_nat (length buf) = size ->
  (* the buffer has room for the sign, the digits and the terminator *)
  Z.abs val < radix ^ digits -> 1 <= digits -> (if val <? 0 then 1 else 0) + digits + 1 <= size ->
  exists buf' s, itoa_r val (Some buf) size radix = Ok (0, buf') /\ length buf' = length buf /\
    c_string buf' = Some s /\ read_number radix s = Some val.
Proof.
  intros val buf size r k Hv Hr Hl Hk Hk1 Hs.
  assert (2 <= size) by (destruct (val <? 0); lia).
  destruct (itoa_run val buf size r Hv Hr H Hl) as (tail & E & L).
  set (sign := if val <? 0 then [45] else []) in *.
  set (n := Z.to_nat (size - 1 - Z.of_nat (length sign))) in *. set (ds := digs n (Z.abs val) r) in *.
  assert (Hkn : k <= Z.of_nat n) by (subst n sign; destruct (val <? 0); cbn [length]; lia).
  destruct (digs_read r Hr n (Z.abs val)) as (R & F & N).
  { split; [lia|]. apply Z.lt_le_trans with (r ^ k); auto. apply Z.pow_le_mono_r; lia. }
  { lia. }
  fold ds in R, F, N. exists (sign ++ rev ds ++ 0 :: tail), (sign ++ rev ds). split; auto. split; auto. split.
  - rewrite app_assoc. apply c_string_app. apply Forall_app. split.
    + subst sign. destruct (val <? 0); repeat constructor; discriminate.
    + apply Forall_rev. revert F. apply Forall_impl. tauto.
  - assert (Hne : rev ds <> []) by (intros E0; apply N; rewrite <- (rev_involutive ds), E0; reflexivity).
    assert (F' : Forall (fun c => c <> 0 /\ c <> 45) (rev ds)) by now apply Forall_rev.
    subst sign. destruct (Z.ltb_spec val 0).
    + cbn [app read_number]. destruct (rev ds) as [|c t]; [congruence|]. rewrite R. f_equal. lia.
    + cbn [app]. destruct (rev ds) as [|c t]; [congruence|]. inversion F' as [|? ? [_ Hc] _]; subst.
      unfold read_number. rewrite R. replace (Z.abs val) with val by lia.
      destruct c as [|[[[[[[]|[]|]|[[]|[]|]|]|[[[]|[]|]|[[]|[]|]|]|]|[[[[]|[]|]|[[]|[]|]|]|[[[]|[]|]|[[]|[]|]|]|]|]|[[[[[]|[]|]|[[]|[]|]|]|[[[]|[]|]|[[]|[]|]|]|]|[[[[]|[]|]|[[]|[]|]|]|[[[]|[]|]|[[]|[]|]|]|]|]|]|]; try reflexivity; congruence.
Qed.
Print Assumptions C17_itoa_r_reads_back.

Lemma c_string_ex tail : forall l, exists s, c_string (l ++ 0 :: tail) = Some s.
Proof.
  induction l as [|c l IH]; cbn [app c_string]; [eexists; reflexivity|]. destruct (c =? 0); [eauto|]. destruct IH as (s & ->). eauto.
Qed.

(* Whatever the buffer size, including invalid arguments: total, and never outside the buffer. *)
Theorem C17_itoa_r_in_bounds :
  forall val buf size radix,
  - 2 ^ 31 < val < 2 ^ 31 -> radix <= 36 -> Z.of_nat (length buf) = size ->
  exists code buf', itoa_r val (Some buf) size radix = Ok (code, buf') /\ length buf' = length buf /\
    (code = 0 <-> 2 <= radix /\ 2 <= size) /\ (code = 0 -> exists s, c_string buf' = Some s).
Proof.
  intros val buf size r Hv Hr Hl. destruct (Z.lt_ge_cases r 2); [|destruct (Z.lt_ge_cases size 2)].
  - unfold itoa_r. replace ((r <? 2) || (size <=? 1)) with true by lia. exists 22, buf. repeat split; auto; try lia. 
  - unfold itoa_r. replace ((r <? 2) || (size <=? 1)) with true by lia. exists 22, buf. repeat split; auto; try lia. 
  - destruct (itoa_run val buf size r Hv) as (tail & E & L); try lia. eexists _, _. split; [exact E|]. split; [exact L|].
    split; [lia|]. intros _. rewrite app_assoc. apply c_string_ex.
Qed.
Print Assumptions C17_itoa_r_in_bounds.

(* INT_MIN is excluded because its negation overflows. *)
Theorem C17_int_min_undefined : forall x buf size radix, 2 <= radix -> 2 <= size ->
  itoa_r (- 2 ^ 31) (Some (x :: buf)) size radix = UB.
Proof. intros. unfold itoa_r. replace ((radix <? 2) || (size <=? 1)) with false by lia. reflexivity. Qed.

Example C17_example :
  exists buf', itoa_r (-48879) (Some [1;2;3;4;5;6;7]) 7 16 = Ok (0, buf') /\ c_string buf' = Some [45; 66; 69; 69; 70] /\
  read_number 16 [45; 66; 69; 69; 70] = Some (-48879) /\ Z.abs (-48879) < 16 ^ 4.
Proof. eexists. repeat split; vm_compute; reflexivity. Qed.
