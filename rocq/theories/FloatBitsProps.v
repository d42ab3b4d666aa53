(* Properties of the functions on the bits of floating-point numbers (include/bss-util/bss_util.h 394-591): C154-C156. *)
From Coq Require Import ZArith Bool Reals Lia Lra List.
From Coq Require Import ZifyBool.
From Flocq Require Import Core IEEE754.Binary IEEE754.Bits.
From Verif Require Import Common FloatBits.
Local Open Scope Z_scope.

(* ------------------------------------------------------------------ *)
(* what the bits mean: the value of a finite number in units of the smallest positive one *)
Section Values.
Context (mw ew : Z) (Hmw : 1 <= mw) (Hew : 2 <= ew).
(** the bits without the sign; the sign *)
Definition mag (u : Z) : Z := u mod signbit mw ew.
Definition neg (u : Z) : bool := signbit mw ew <=? u.
Definition is_float (u : Z) : Prop := 0 <= u < 2 ^ width mw ew.
(** infinity *)
Definition inf_bits : Z := (2 ^ ew - 1) * 2 ^ mw.
Definition finite (u : Z) : Prop := is_float u /\ mag u < inf_bits.
Definition not_a_number (u : Z) : Prop := is_float u /\ inf_bits < mag u.
(** the value *)
Definition val (u : Z) : Z := if neg u then - units mw (mag u) else units mw (mag u).

Lemma pow_pos n : 0 <= n -> 0 < 2 ^ n.
Proof. intros H. apply Z.pow_pos_nonneg; lia. Qed.
Lemma signbit_eq : signbit mw ew = 2 ^ ew * 2 ^ mw.
Proof. unfold signbit, width. rewrite <- Z.pow_add_r by lia. f_equal. lia. Qed.
Lemma width_eq : 2 ^ width mw ew = 2 * signbit mw ew.
Proof. unfold signbit, width. rewrite <- Z.pow_succ_r by lia. f_equal. lia. Qed.
Lemma inf_lt : 0 < inf_bits < signbit mw ew /\ signbit mw ew = inf_bits + 2 ^ mw.
Proof.
  rewrite signbit_eq. unfold inf_bits. pose proof (pow_pos mw). assert (2 ^ 2 <= 2 ^ ew) by (apply Z.pow_le_mono_r; lia). nia.
Qed.
Lemma float_split u : is_float u -> 0 <= mag u < signbit mw ew /\ u = mag u + (if neg u then signbit mw ew else 0).
Proof.
  unfold is_float, mag, neg. rewrite width_eq. intros H. pose proof (pow_pos (width mw ew - 1)). fold (signbit mw ew) in *. assert (0 < signbit mw ew) by (apply H0; unfold width; lia).
  split; [apply Z.mod_pos_bound; lia|]. destruct (Z.leb_spec (signbit mw ew) u).
  - rewrite <- (Z.mod_unique u (signbit mw ew) 1 (u - signbit mw ew)); lia.
  - rewrite Z.mod_small; lia.
Qed.

(** the numbers grow with the bits *)
Lemma units_step m : 0 <= m -> units mw m < units mw (m + 1).
Proof.
  intros Hm. unfold units. pose proof (pow_pos mw ltac:(lia)) as P. set (b := 2 ^ mw) in *.
  pose proof (Z.div_mod m b ltac:(lia)) as D. pose proof (Z.mod_pos_bound m b P) as B. assert (Q : 0 <= m / b) by (apply Z.div_pos; lia).
  destruct (Z.eq_dec (m mod b) (b - 1)) as [E|E].
  - assert (E1 : (m + 1) / b = m / b + 1) by (symmetry; apply Z.div_unique with 0; lia). assert (E2 : (m + 1) mod b = 0) by (symmetry; apply Z.mod_unique with (m / b + 1); lia).
    rewrite E1, E2, E. destruct (Z.eqb_spec (m / b) 0) as [Z0|Z0].
    + rewrite Z0. cbn. lia.
    + destruct (Z.eqb_spec (m / b + 1) 0); [lia|]. replace (m / b + 1 - 1) with (Z.succ (m / b - 1)) by lia. rewrite Z.pow_succ_r by lia. pose proof (pow_pos (m / b - 1) ltac:(lia)). nia.
  - assert (E1 : (m + 1) / b = m / b) by (symmetry; apply Z.div_unique with (m mod b + 1); lia). assert (E2 : (m + 1) mod b = m mod b + 1) by (symmetry; apply Z.mod_unique with (m / b); lia).
    rewrite E1, E2. destruct (Z.eqb_spec (m / b) 0) as [Z0|Z0]; [lia|]. pose proof (pow_pos (m / b - 1) ltac:(lia)). nia.
Qed.
Lemma units_lt m n : 0 <= m -> m < n -> units mw m < units mw n.
Proof.
  intros Hm H. replace n with (m + Z.of_nat (S (Z.to_nat (n - m - 1)))) by lia. generalize (Z.to_nat (n - m - 1)) as k. induction k as [|k IH].
  - apply units_step. auto.
  - eapply Z.lt_trans; [apply IH|]. replace (m + Z.of_nat (S (S k))) with (m + Z.of_nat (S k) + 1) by lia. apply units_step. lia.
Qed.
Lemma units_le m n : 0 <= m -> 0 <= n -> (units mw m <= units mw n <-> m <= n).
Proof.
  intros Hm Hn. split; intros H.
  - destruct (Z.le_gt_cases m n) as [|C]; auto. pose proof (units_lt n m Hn C). lia.
  - destruct (Z.eq_dec m n) as [->|]; [lia|]. pose proof (units_lt m n Hm ltac:(lia)). lia.
Qed.
Lemma units_0 : units mw 0 = 0.
Proof. unfold units. rewrite Z.div_0_l, Z.mod_0_l by (pose proof (pow_pos mw); lia). reflexivity. Qed.

(** the number of steps from zero *)
Definition rank (u : Z) : Z := if neg u then - mag u else mag u.
Lemma val_rank u v : is_float u -> is_float v -> (val u < val v <-> rank u < rank v).
Proof.
  intros Hu Hv. apply float_split in Hu as [Mu _]. apply float_split in Hv as [Mv _]. unfold val, rank.
  pose proof (units_le (mag u) (mag v)). pose proof (units_le (mag v) (mag u)). pose proof (units_le 0 (mag u)). pose proof (units_le 0 (mag v)). pose proof (units_le (mag u) 0). pose proof (units_le (mag v) 0). rewrite units_0 in *.
  destruct (neg u), (neg v); lia.
Qed.
Lemma val_rank_eq u v : is_float u -> is_float v -> (val u = val v <-> rank u = rank v).
Proof. intros Hu Hv. pose proof (val_rank u v Hu Hv). pose proof (val_rank v u Hv Hu). lia. Qed.
Lemma rank_finite u : finite u -> - inf_bits < rank u < inf_bits.
Proof. intros [Hu Hf]. apply float_split in Hu as [M _]. unfold rank. destruct (neg u); lia. Qed.
Lemma rank_onto r : - inf_bits < r < inf_bits -> exists u, finite u /\ rank u = r.
Proof.
  intros H. pose proof inf_lt as [I0 _]. exists (if r <? 0 then signbit mw ew - r else r). unfold finite, is_float, rank, mag, neg. rewrite width_eq.
  destruct (Z.ltb_spec r 0).
  - rewrite <- (Z.mod_unique (signbit mw ew - r) (signbit mw ew) 1 (- r)) by lia. destruct (Z.leb_spec (signbit mw ew) (signbit mw ew - r)); lia.
  - rewrite Z.mod_small by lia. destruct (Z.leb_spec (signbit mw ew) r); lia.
Qed.

(** c is the finite number next to a *)
Definition neighbours (a c : Z) : Prop := finite a /\ finite c /\ val a <> val c /\ forall x, finite x -> ~ (val a < val x < val c) /\ ~ (val c < val x < val a).
(** b can be reached from a in at most k steps from a number to one next to it *)
Inductive within : nat -> Z -> Z -> Prop :=
| w_here k a b : finite a -> finite b -> val a = val b -> within k a b
| w_step k a b c : neighbours a c -> within k c b -> within (S k) a b.
Lemma neighbours_rank a c : finite a -> finite c -> (neighbours a c <-> Z.abs (rank a - rank c) = 1).
Proof.
  intros Ha Hc. pose proof (val_rank_eq a c (proj1 Ha) (proj1 Hc)) as E. split.
  - intros (_ & _ & Hne & Hx). destruct (Z.eq_dec (Z.abs (rank a - rank c)) 1) as [|Hd]; auto. exfalso.
    assert (rank a <> rank c) by lia. pose proof (rank_finite a Ha). pose proof (rank_finite c Hc).
    destruct (rank_onto (Z.min (rank a) (rank c) + 1)) as (x & Fx & Rx); [lia|]. destruct (Hx x Fx) as [Hp Hq].
    rewrite (val_rank a x), (val_rank x c) in Hp by (apply Ha || apply Hc || apply Fx). rewrite (val_rank c x), (val_rank x a) in Hq by (apply Ha || apply Hc || apply Fx). lia.
  - intros Hd. split; auto. split; auto. split; [lia|]. intros x Fx.
    rewrite (val_rank a x), (val_rank x c), (val_rank c x), (val_rank x a) by (apply Ha || apply Hc || apply Fx). lia.
Qed.
Lemma within_rank k a b : finite a -> finite b -> (within k a b <-> Z.abs (rank a - rank b) <= Z.of_nat k).
Proof.
  intros Ha Hb. split.
  - intros W. revert Ha Hb. induction W as [k a b _ _ E|k a b c Hn W IH]; intros Ha Hb.
    + apply val_rank_eq in E; [lia|apply Ha|apply Hb].
    + pose proof (proj1 (proj2 Hn)) as Hc. apply neighbours_rank in Hn; auto. specialize (IH Hc Hb). lia.
  - revert a Ha. induction k as [|k IH]; intros a Ha H.
    + apply w_here; auto. apply val_rank_eq; [apply Ha|apply Hb|lia].
    + destruct (Z.eq_dec (rank a) (rank b)) as [E|E]; [apply w_here; auto; apply val_rank_eq; auto; [apply Ha|apply Hb]|].
      pose proof (rank_finite a Ha). pose proof (rank_finite b Hb).
      destruct (rank_onto (if rank a <? rank b then rank a + 1 else rank a - 1)) as (c & Fc & Rc); [destruct (Z.ltb_spec (rank a) (rank b)); lia|].
      apply w_step with c; [apply neighbours_rank; auto; destruct (Z.ltb_spec (rank a) (rank b)); lia|]. apply IH; auto. destruct (Z.ltb_spec (rank a) (rank b)); lia.
Qed.

(** the masks *)
Lemma land_below u : 0 <= u -> Z.land u (below mw ew) = u mod signbit mw ew.
Proof. intros H. unfold below, signbit. replace (2 ^ (width mw ew - 1) - 1) with (Z.ones (width mw ew - 1)) by (rewrite Z.ones_equiv; lia). apply Z.land_ones. unfold width. lia. Qed.
Lemma lor_nonneg a b : (0 <=? Z.lor a b) = (0 <=? a) && (0 <=? b).
Proof.
  destruct (Z.leb_spec 0 (Z.lor a b)) as [H|H].
  - apply Z.lor_nonneg in H. lia.
  - destruct (Z.leb_spec 0 a), (Z.leb_spec 0 b); auto. assert (0 <= Z.lor a b) by now apply Z.lor_nonneg. lia.
Qed.
Lemma sgn_spec x : exists q, sgn (width mw ew) x = x + q * (2 * signbit mw ew) /\ - signbit mw ew <= sgn (width mw ew) x < signbit mw ew.
Proof.
  unfold sgn. fold (signbit mw ew). rewrite width_eq. pose proof inf_lt. pose proof (Z.div_mod x (2 * signbit mw ew) ltac:(lia)). pose proof (Z.mod_pos_bound x (2 * signbit mw ew) ltac:(lia)).
  destruct (Z.ltb_spec (x mod (2 * signbit mw ew)) (signbit mw ew)); [exists (- (x / (2 * signbit mw ew)))|exists (- (x / (2 * signbit mw ew)) - 1)]; lia.
Qed.
Lemma sgn_float u : is_float u -> sgn (width mw ew) u = if neg u then mag u - signbit mw ew else mag u.
Proof.
  intros H. pose proof (float_split u H) as [M E]. unfold is_float in H. rewrite width_eq in H. unfold sgn. fold (signbit mw ew). rewrite width_eq, (Z.mod_small u) by lia. unfold neg in *. destruct (Z.leb_spec (signbit mw ew) u), (Z.ltb_spec u (signbit mw ew)); lia.
Qed.
(** the highest bit of the exclusive or *)
Lemma sign_bit u : is_float u -> Z.testbit u (width mw ew - 1) = neg u.
Proof.
  intros H. apply float_split in H as [M E]. apply eq_iff_eq_true. rewrite Z.testbit_true by (unfold width; lia). fold (signbit mw ew).
  destruct (neg u); rewrite E.
  - rewrite <- (Z.div_unique (mag u + signbit mw ew) (signbit mw ew) 1 (mag u)) by lia. split; reflexivity.
  - rewrite Z.add_0_r, Z.div_small by lia. split; discriminate.
Qed.
Lemma test_eq a b : is_float a -> is_float b -> - (Z.lxor a b / signbit mw ew) = if xorb (neg a) (neg b) then -1 else 0.
Proof.
  intros Ha Hb. assert (Hx : is_float (Z.lxor a b)).
  { unfold is_float in *. split; [apply Z.lxor_nonneg; lia|]. destruct (Z.eq_dec (Z.lxor a b) 0) as [->|]; [lia|]. assert (0 <= Z.lxor a b) by (apply Z.lxor_nonneg; lia).
    apply Z.log2_lt_pow2; [lia|]. pose proof (Z.log2_lxor a b ltac:(lia) ltac:(lia)).
    assert (forall u, 0 <= u < 2 ^ width mw ew -> Z.log2 u < width mw ew) as L. { intros u Hu. destruct (Z.eq_dec u 0) as [->|]; [cbn; unfold width; lia|]. apply Z.log2_lt_pow2; lia. }
    pose proof (L a Ha). pose proof (L b Hb). lia. }
  pose proof (sign_bit _ Hx) as S. rewrite Z.lxor_spec, !sign_bit in S by auto. rewrite S.
  apply float_split in Hx as [M E]. destruct (neg (Z.lxor a b)); rewrite E.
  - rewrite <- (Z.div_unique (mag (Z.lxor a b) + signbit mw ew) (signbit mw ew) 1 (mag (Z.lxor a b))) by lia. reflexivity.
  - rewrite Z.add_0_r, Z.div_small by lia. reflexivity.
Qed.
(** x xor (-1 & 0x7fff...) *)
Lemma flip x : - signbit mw ew <= x < signbit mw ew -> Z.lxor x (Z.land (-1) (below mw ew)) = if x <? 0 then - (2 * signbit mw ew) - 1 - x + signbit mw ew else signbit mw ew - 1 - x.
Proof.
  intros H. rewrite Z.land_m1_l. set (n := width mw ew - 1). assert (Hn : 0 <= n) by (unfold n, width; lia). assert (Hn1 : 0 < n) by (unfold n, width; lia). assert (Eb : below mw ew = Z.ones n) by (unfold below, signbit; fold n; rewrite Z.ones_equiv; lia). unfold signbit in *. fold n in H |- *.
  rewrite Eb. pose proof (pow_pos n Hn) as P.
  assert (F : forall y, 0 <= y < 2 ^ n -> Z.lxor y (Z.ones n) = 2 ^ n - 1 - y).
  { intros y Hy. assert (E : y + Z.lxor y (Z.ones n) = Z.ones n); [|rewrite Z.ones_equiv in *; lia].
    rewrite Z.add_nocarry_lxor.
    - rewrite <- Z.lxor_assoc, Z.lxor_nilpotent. apply Z.lxor_0_l.
    - apply Z.bits_inj'. intros k Hk. rewrite Z.land_spec, Z.lxor_spec, Z.bits_0. destruct (Z.lt_ge_cases k n).
      + rewrite Z.ones_spec_low by lia. destruct (Z.testbit y k); reflexivity.
      + rewrite Z.ones_spec_high by lia. rewrite (Z.bits_above_log2 y k); [reflexivity|lia|]. destruct (Z.eq_dec y 0) as [->|]; [cbn; lia|]. assert (Z.log2 y < n) by (apply Z.log2_lt_pow2; lia). lia. }
  destruct (Z.ltb_spec x 0).
  - replace x with (Z.lnot (- x - 1)) at 1 by (unfold Z.lnot; lia).
    assert (E : Z.lxor (Z.lnot (- x - 1)) (Z.ones n) = Z.lnot (Z.lxor (- x - 1) (Z.ones n))).
    { apply Z.bits_inj'. intros k Hk. rewrite Z.lxor_spec, !Z.lnot_spec, Z.lxor_spec by lia. destruct (Z.testbit (- x - 1) k), (Z.testbit (Z.ones n) k); reflexivity. }
    rewrite E, F by lia. unfold Z.lnot. lia.
  - apply F. lia.
Qed.

Lemma inf_ge : 3 * 2 ^ mw <= inf_bits.
Proof. unfold inf_bits. pose proof (pow_pos mw). assert (2 ^ 2 <= 2 ^ ew) by (apply Z.pow_le_mono_r; lia). nia. Qed.
(** the differences that fCompare computes, where nothing overflows and where overflow wraps around *)
Lemma lxor_0_mask x : Z.lxor x (Z.land 0 (below mw ew)) = x.
Proof. rewrite Z.land_0_l. apply Z.lxor_0_r. Qed.
Lemma signed_ok x : - signbit mw ew <= x < signbit mw ew -> signed mw ew x = Ok x.
Proof. intros H. unfold signed. destruct (Z.leb_spec (- signbit mw ew) x), (Z.ltb_spec x (signbit mw ew)); auto; lia. Qed.
Lemma signed_ub x : ~ (- signbit mw ew <= x < signbit mw ew) -> signed mw ew x = UB.
Proof. intros H. unfold signed. destruct (Z.leb_spec (- signbit mw ew) x), (Z.ltb_spec x (signbit mw ew)); auto; lia. Qed.
Lemma both v w : (0 <=? Z.lor v w) = true <-> 0 <= v /\ 0 <= w.
Proof. rewrite lor_nonneg. lia. Qed.

Lemma cmp_same a b k : finite a -> finite b -> neg a = neg b -> 0 <= k <= 2 ^ mw ->
  fCompare mw ew a b k = Ok (Z.abs (rank a - rank b) <=? k) /\ fCompare_wrap mw ew a b k = (Z.abs (rank a - rank b) <=? k).
Proof.
  intros [Ha Fa] [Hb Fb] E K. pose proof inf_lt as [I0 I1]. pose proof (float_split a Ha) as [Ma _]. pose proof (float_split b Hb) as [Mb _].
  assert (Hd : sgn (width mw ew) a - sgn (width mw ew) b = mag a - mag b) by (rewrite !sgn_float by auto; rewrite E; destruct (neg b); lia).
  assert (Hr : Z.abs (rank a - rank b) = Z.abs (mag a - mag b)) by (unfold rank; rewrite E; destruct (neg b); lia).
  pose proof (sgn_float a Ha) as Sa. assert (Ba : - signbit mw ew <= sgn (width mw ew) a < signbit mw ew) by (rewrite Sa; destruct (neg a); lia).
  assert (Id : forall x, - signbit mw ew <= x < signbit mw ew -> sgn (width mw ew) x = x). { intros x Hx. destruct (sgn_spec x) as (q & Eq & Bq). assert (q = 0) as -> by (clear - Eq Bq Hx I0; nia). lia. }
  assert (Hl : (0 <=? Z.lor (k + (mag a - mag b)) (k - (mag a - mag b))) = (Z.abs (mag a - mag b) <=? k)) by (rewrite lor_nonneg; lia).
  unfold fCompare, fCompare_wrap. rewrite test_eq, E, xorb_nilpotent, Hr by auto. cbv zeta. split.
  - rewrite Z.add_0_r, (signed_ok _ Ba). cbn [bind]. rewrite lxor_0_mask, Hd, signed_ok by lia. cbn [bind]. rewrite signed_ok by lia. cbn [bind]. rewrite signed_ok by lia. cbn [bind]. now rewrite Hl.
  - rewrite Z.add_0_r, (Id _ Ba), lxor_0_mask, Hd, (Id (mag a - mag b)) by lia. rewrite !Id by lia. apply Hl.
Qed.
Lemma cmp_neg_pos a b k : finite a -> finite b -> neg a = true -> neg b = false -> mag a <> 0 -> 0 <= k -> mag a + mag b + k < signbit mw ew ->
  fCompare mw ew a b k = Ok (Z.abs (rank a - rank b) <=? k).
Proof.
  intros [Ha Fa] [Hb Fb] Na Nb M0 K1 K2. pose proof inf_lt as [I0 I1]. pose proof (float_split a Ha) as [Ma _]. pose proof (float_split b Hb) as [Mb _].
  unfold fCompare. rewrite test_eq, !sgn_float, Na, Nb by auto. cbv zeta. cbn [xorb]. rewrite signed_ok by lia. cbn [bind]. rewrite flip by lia.
  destruct (Z.ltb_spec (mag a - signbit mw ew + -1) 0); [|lia]. rewrite signed_ok by lia. cbn [bind]. rewrite signed_ok by lia. cbn [bind]. rewrite signed_ok by lia. cbn [bind]. f_equal.
  rewrite lor_nonneg. unfold rank. rewrite Na, Nb. lia.
Qed.
Lemma cmp_wrap_opposite a b k : finite a -> finite b -> neg a = negb (neg b) -> 0 <= k <= 2 ^ mw ->
  fCompare_wrap mw ew a b k = (Z.abs (rank a - rank b) <=? k).
Proof.
  intros [Ha Fa] [Hb Fb] E K. pose proof inf_lt as [I0 I1]. pose proof (float_split a Ha) as [Ma _]. pose proof (float_split b Hb) as [Mb _].
  set (S := signbit mw ew) in *. set (D := mag a + mag b).
  assert (Hr : Z.abs (rank a - rank b) = D) by (unfold rank, D; rewrite E; destruct (neg b); cbn [negb]; lia).
  unfold fCompare_wrap. rewrite test_eq, Hr by auto. rewrite E. replace (xorb (negb (neg b)) (neg b)) with true by (destruct (neg b); reflexivity). cbv zeta.
  destruct (sgn_spec (sgn (width mw ew) a + -1)) as (q & Eq & Bq). fold S in Eq, Bq. rewrite (sgn_float a Ha), E in *. fold S in Eq, Bq |- *.
  set (x := sgn (width mw ew) ((if negb (neg b) then mag a - S else mag a) + -1)) in *. rewrite (flip x) by exact Bq. fold S.
  assert (Hd : exists q', (if x <? 0 then - (2 * S) - 1 - x + S else S - 1 - x) - sgn (width mw ew) b = - D + q' * (2 * S)).
  { rewrite (sgn_float b Hb). fold S. unfold D. destruct (neg b); cbn [negb] in Eq; destruct (Z.ltb_spec x 0); [exists (- q)|exists (1 - q)|exists (-1 - q + 1)|exists (- q + 1)]; lia. }
  destruct Hd as (q' & ->). destruct (sgn_spec (- D + q' * (2 * S))) as (q2 & E2 & B2). fold S in E2, B2. set (d := sgn (width mw ew) (- D + q' * (2 * S))) in *.
  destruct (sgn_spec (k + d)) as (q3 & E3 & B3). destruct (sgn_spec (k - d)) as (q4 & E4 & B4). fold S in E3, B3, E4, B4.
  rewrite lor_nonneg. pose proof (pow_pos mw ltac:(lia)) as P. assert (B : 0 <= D < 2 * S - 2 * 2 ^ mw) by (unfold D; lia). clearbody d x D. pose proof inf_ge as I2.
  assert (Q : 0 <= q' + q2 <= 1) by (clear - E2 B2 B P; nia).
  assert (d = - D \/ d = 2 * S - D) as [Hd|Hd] by (assert (q' + q2 = 0 \/ q' + q2 = 1) by lia; clear - E2 H; nia).
  - assert (q3 = 0) as -> by (clear - E3 B3 Hd B B2 K I0 I1 P; nia). assert (-1 <= q4 <= 0) by (clear - E4 B4 Hd B B2 K I0 I1 P; nia). assert (q4 = -1 \/ q4 = 0) as [-> | ->] by lia; lia.
  - assert (q4 = 0) as -> by (clear - E4 B4 Hd B B2 K I0 I1 P; nia). lia.
Qed.
End Values.

(* ------------------------------------------------------------------ *)
(* the same in terms of Flocq's formalisation of IEEE 754 *)
Section Flocq.
Context (mw ew : Z) (Hmw : 1 <= mw) (Hew : 2 <= ew).
Lemma split_eq u : is_float mw ew u -> split_bits mw ew u = (neg mw ew u, mag mw ew u mod 2 ^ mw, mag mw ew u / 2 ^ mw).
Proof.
  intros H. pose proof (float_split mw ew Hmw Hew u H) as [M E]. unfold split_bits. pose proof (signbit_eq mw ew Hmw Hew) as S. pose proof (pow_pos mw ltac:(lia)). pose proof (pow_pos ew ltac:(lia)).
  change (2 ^ mw)%Z with (2 ^ mw) in *. unfold neg. rewrite S, (Z.mul_comm (2 ^ ew)). f_equal; [f_equal|].
  - rewrite E at 1. destruct (neg mw ew u); [|f_equal; lia]. rewrite S. apply Z.mod_add. lia.
  - rewrite E at 1. destruct (neg mw ew u).
    + rewrite S, Z.div_add by lia. replace (mag mw ew u / 2 ^ mw + 2 ^ ew) with (mag mw ew u / 2 ^ mw + 1 * 2 ^ ew) by lia. rewrite Z.mod_add by lia. apply Z.mod_small. split; [apply Z.div_pos; lia|apply Z.div_lt_upper_bound; lia].
    + rewrite Z.add_0_r. apply Z.mod_small. split; [apply Z.div_pos; lia|apply Z.div_lt_upper_bound; lia].
Qed.
Definition sees (u : Z) : Prop :=
  let f := binary_float_of_bits_aux mw ew u in
  is_finite_FF f = (mag mw ew u <? inf_bits mw ew) /\ is_nan_FF f = (inf_bits mw ew <? mag mw ew u) /\ sign_FF f = neg mw ew u
  /\ (finite mw ew u -> FF2R radix2 f = (IZR (val mw ew u) * bpow radix2 (SpecFloat.emin (mw + 1) (2 ^ (ew - 1))))%R).
Lemma aux_sees u : is_float mw ew u -> sees u.
Proof.
  intros H. pose proof (float_split mw ew Hmw Hew u H) as [M E]. pose proof (inf_lt mw ew Hmw Hew) as [I0 I1]. pose proof (pow_pos mw ltac:(lia)) as P. pose proof (signbit_eq mw ew Hmw Hew) as S.
  assert (Ie : inf_bits mw ew = (2 ^ ew - 1) * 2 ^ mw) by reflexivity.
  unfold sees. cbv zeta. unfold binary_float_of_bits_aux. rewrite split_eq by auto. unfold finite, val, units.
  set (g := mag mw ew u) in *. pose proof (Z.div_mod g (2 ^ mw) ltac:(lia)) as D. pose proof (Z.mod_pos_bound g (2 ^ mw) P) as B. set (m := g mod 2 ^ mw) in *. set (e := g / 2 ^ mw) in *.
  assert (He : 0 <= e) by (apply Z.div_pos; lia). clearbody m e. set (em := SpecFloat.emin (mw + 1) (2 ^ (ew - 1))).
  assert (Zb : forall x y, Zeq_bool x y = (x =? y)) by (intros x y; pose proof (Zeq_bool_if x y); destruct (Zeq_bool x y), (Z.eqb_spec x y); congruence || easy). rewrite !Zb.
  pose proof (inf_ge mw ew Hmw Hew) as I2. destruct (Z.eqb_spec e 0) as [E0|E0].
  - rewrite E0, Z.mul_0_r in D. destruct m as [|p|p]; [| |lia]; cbn [is_finite_FF is_nan_FF sign_FF FF2R]; (split; [lia|split; [lia|split; [reflexivity|]]]); intros _.
    + destruct (neg mw ew u); cbn; lra.
    + unfold F2R. cbn [Fnum Fexp]. destruct (neg mw ew u); reflexivity.
  - destruct (Z.eqb_spec e (2 ^ ew - 1)) as [E1|E1].
    + destruct m as [|p|p]; [| |lia]; cbn [is_finite_FF is_nan_FF sign_FF FF2R]; (split; [nia|split; [nia|split; [reflexivity|]]]); intros [_ ?]; nia.
    + assert (m + 2 ^ mw > 0) by lia. destruct (m + 2 ^ mw) as [|p|p] eqn:Ep; try lia. cbn [is_finite_FF is_nan_FF sign_FF FF2R]. assert (e < 2 ^ ew - 1) by nia. split; [nia|split; [nia|split; [reflexivity|]]]. intros _.
      unfold F2R. cbn [Fnum Fexp]. replace (e + em - 1) with ((e - 1) + em) by lia. rewrite bpow_plus, <- (IZR_Zpower radix2 (e - 1)) by lia. change (Zaux.radix_val radix2 ^ (e - 1)) with (2 ^ (e - 1)).
      rewrite <- Rmult_assoc, <- mult_IZR. f_equal. f_equal. rewrite (Z.add_comm (2 ^ mw)), Ep. destruct (neg mw ew u); cbn [SpecFloat.cond_Zopp]; lia.
Qed.
End Flocq.

(* ------------------------------------------------------------------ *)
(* C154: signs and closeness to zero *)
Definition F32 (u : Z) : Prop := 0 <= u < 2 ^ 32.
Definition F64 (u : Z) : Prop := 0 <= u < 2 ^ 64.
(** Flocq's reading of the bits is the one used here *)
Theorem C154_values :
  (forall u, F32 u ->
     Bsign 24 128 (b32_of_bits u) = neg 23 8 u /\ (is_finite 24 128 (b32_of_bits u) = true <-> finite 23 8 u) /\ (is_nan 24 128 (b32_of_bits u) = true <-> not_a_number 23 8 u)
     /\ (finite 23 8 u -> B2R 24 128 (b32_of_bits u) = (IZR (val 23 8 u) * bpow radix2 (-149))%R)) /\
  (forall u, F64 u ->
     Bsign 53 1024 (b64_of_bits u) = neg 52 11 u /\ (is_finite 53 1024 (b64_of_bits u) = true <-> finite 52 11 u) /\ (is_nan 53 1024 (b64_of_bits u) = true <-> not_a_number 52 11 u)
     /\ (finite 52 11 u -> B2R 53 1024 (b64_of_bits u) = (IZR (val 52 11 u) * bpow radix2 (-1074))%R)).
Proof.
  split; intros u H.
  - assert (Hf : is_float 23 8 u) by exact H. pose proof (aux_sees 23 8 ltac:(lia) ltac:(lia) u Hf) as (A1 & A2 & A3 & A4). unfold b32_of_bits, binary_float_of_bits.
    split; [|split; [|split]]; [|unfold finite|unfold not_a_number|].
    + erewrite Bsign_FF2B. exact A3.
    + change 24 with (23 + 1). change 128 with (2 ^ (8 - 1)). rewrite is_finite_FF2B, A1, Z.ltb_lt. tauto.
    + change 24 with (23 + 1). change 128 with (2 ^ (8 - 1)). rewrite is_nan_FF2B, A2, Z.ltb_lt. tauto.
    + intros Fu. change 24 with (23 + 1). change 128 with (2 ^ (8 - 1)). rewrite B2R_FF2B. exact (A4 Fu).
  - assert (Hf : is_float 52 11 u) by exact H. pose proof (aux_sees 52 11 ltac:(lia) ltac:(lia) u Hf) as (A1 & A2 & A3 & A4). unfold b64_of_bits, binary_float_of_bits.
    split; [|split; [|split]]; [|unfold finite|unfold not_a_number|].
    + erewrite Bsign_FF2B. exact A3.
    + change 53 with (52 + 1). change 1024 with (2 ^ (11 - 1)). rewrite is_finite_FF2B, A1, Z.ltb_lt. tauto.
    + change 53 with (52 + 1). change 1024 with (2 ^ (11 - 1)). rewrite is_nan_FF2B, A2, Z.ltb_lt. tauto.
    + intros Fu. change 53 with (52 + 1). change 1024 with (2 ^ (11 - 1)). rewrite B2R_FF2B. exact (A4 Fu).
Qed.
Print Assumptions C154_values.

Section Signs.
Context (mw ew : Z) (Hmw : 1 <= mw) (Hew : 2 <= ew).
Lemma one_lt : 0 <= one_bits mw ew < inf_bits mw ew.
Proof.
  unfold one_bits, inf_bits. pose proof (pow_pos mw ltac:(lia)). assert (2 ^ 1 <= 2 ^ (ew - 1)) by (apply Z.pow_le_mono_r; lia).
  replace (2 ^ ew) with (2 * 2 ^ (ew - 1)) by (rewrite <- Z.pow_succ_r by lia; f_equal; lia). nia.
Qed.
Lemma fsign_eq u : is_float mw ew u -> fsign mw ew u = one_bits mw ew + (if neg mw ew u then signbit mw ew else 0).
Proof.
  intros H. pose proof (sign_bit mw ew Hmw Hew u H) as T. pose proof one_lt as O. pose proof (inf_lt mw ew Hmw Hew) as [I0 I1]. unfold fsign. set (n := width mw ew - 1) in *. assert (0 < n) by (unfold n, width; lia).
  assert (L : Z.land u (signbit mw ew) = if neg mw ew u then signbit mw ew else 0).
  { unfold signbit. fold n. apply Z.bits_inj'. intros k Hk. rewrite Z.land_spec, Z.pow2_bits_eqb by lia. destruct (Z.eqb_spec n k) as [<-|N].
    - rewrite T. destruct (neg mw ew u); cbn [andb]; [rewrite Z.pow2_bits_eqb by lia; lia|now rewrite Z.bits_0].
    - rewrite andb_false_r. destruct (neg mw ew u); [rewrite Z.pow2_bits_eqb by lia; lia|now rewrite Z.bits_0]. }
  rewrite L. assert (D : Z.land (if neg mw ew u then signbit mw ew else 0) (one_bits mw ew) = 0).
  { destruct (neg mw ew u); [|apply Z.land_0_l]. unfold signbit. fold n. apply Z.bits_inj'. intros k Hk. rewrite Z.land_spec, Z.pow2_bits_eqb, Z.bits_0 by lia. destruct (Z.eqb_spec n k) as [<-|N]; [|reflexivity].
    cbn [andb]. destruct (Z.eq_dec (one_bits mw ew) 0) as [->|]; [apply Z.bits_0|]. apply Z.bits_above_log2; [lia|]. apply Z.log2_lt_pow2; [lia|]. unfold signbit in *. fold n in I0, I1 |- *. lia. }
  rewrite <- Z.lxor_lor, <- Z.add_nocarry_lxor by exact D. lia.
Qed.
Lemma fsign_parts u : is_float mw ew u -> finite mw ew (fsign mw ew u) /\ mag mw ew (fsign mw ew u) = one_bits mw ew /\ neg mw ew (fsign mw ew u) = neg mw ew u.
Proof.
  intros H. rewrite fsign_eq by auto. pose proof one_lt as O. pose proof (inf_lt mw ew Hmw Hew) as [I0 I1].
  assert (M : mag mw ew (one_bits mw ew + (if neg mw ew u then signbit mw ew else 0)) = one_bits mw ew).
  { unfold mag. destruct (neg mw ew u); [rewrite <- (Z.mod_unique _ (signbit mw ew) 1 (one_bits mw ew)); lia|rewrite Z.mod_small; lia]. }
  split; [|split; auto].
  - split; [|lia]. unfold is_float. rewrite width_eq by lia. destruct (neg mw ew u); lia.
  - unfold neg at 1. destruct (neg mw ew u); [apply Z.leb_le|apply Z.leb_gt]; lia.
Qed.
Lemma small_eq u e : is_float mw ew u -> fSmall mw ew u e = (mag mw ew u <=? e).
Proof. intros H. unfold fSmall. rewrite land_below; [reflexivity| | |destruct H]; lia. Qed.
Lemma small_neg u e : is_float mw ew u -> is_float mw ew e -> neg mw ew e = true -> fSmall mw ew u e = true.
Proof. intros H He N. rewrite small_eq by auto. apply Z.leb_le. pose proof (float_split mw ew Hmw Hew u H) as [M _]. unfold neg in N. apply Z.leb_le in N. lia. Qed.
Lemma small_finite u e : is_float mw ew u -> finite mw ew e -> neg mw ew e = false -> (fSmall mw ew u e = true <-> finite mw ew u /\ Z.abs (val mw ew u) <= val mw ew e).
Proof.
  intros H [He Fe] N. rewrite small_eq, Z.leb_le by auto. pose proof (float_split mw ew Hmw Hew u H) as [M _]. pose proof (float_split mw ew Hmw Hew e He) as [Me Ee]. rewrite N in Ee.
  pose proof (units_le mw Hmw (mag mw ew u) (mag mw ew e) ltac:(lia) ltac:(lia)) as U. pose proof (units_le mw Hmw 0 (mag mw ew u) ltac:(lia) ltac:(lia)) as U0. rewrite (units_0 mw Hmw) in U0.
  assert (A : Z.abs (val mw ew u) = units mw (mag mw ew u)) by (unfold val; destruct (neg mw ew u); lia). rewrite A. unfold val. rewrite N. unfold finite. split; [|intros [_ ?]]; [intros; split; [split; auto|]|]; lia.
Qed.
Lemma small_inf u e : is_float mw ew u -> is_float mw ew e -> ~ finite mw ew e -> ~ not_a_number mw ew e -> neg mw ew e = false -> (fSmall mw ew u e = true <-> ~ not_a_number mw ew u).
Proof.
  intros H He N1 N2 N. rewrite small_eq, Z.leb_le by auto. pose proof (float_split mw ew Hmw Hew e He) as [Me Ee]. rewrite N in Ee. unfold finite, not_a_number in *.
  assert (mag mw ew e = inf_bits mw ew). { destruct (Z.lt_trichotomy (mag mw ew e) (inf_bits mw ew)) as [|[|]]; tauto. } split; [intros ? [_ ?]; lia|]. intros Nu. destruct (Z.le_gt_cases (mag mw ew u) e); auto. exfalso. apply Nu. split; auto. lia.
Qed.
End Signs.

Lemma IZR_bpow n k : 0 <= n -> (IZR (2 ^ n) * bpow radix2 k)%R = bpow radix2 (n + k).
Proof. intros H. rewrite bpow_plus. f_equal. exact (IZR_Zpower radix2 n H). Qed.
Theorem C154_sign :
  (forall u, F32 u -> B2R 24 128 (b32_of_bits (fsign 23 8 u)) = (if Bsign 24 128 (b32_of_bits u) then -1 else 1)%R) /\
  (forall u, F64 u -> B2R 53 1024 (b64_of_bits (fsign 52 11 u)) = (if Bsign 53 1024 (b64_of_bits u) then -1 else 1)%R).
Proof.
  split; intros u H.
  - destruct (fsign_parts 23 8 ltac:(lia) ltac:(lia) u H) as (A1 & A2 & A3). pose proof (proj1 C154_values _ (proj1 A1)) as (_ & _ & _ & V). rewrite (V A1). pose proof (proj1 C154_values _ H) as (-> & _).
    unfold val. rewrite A2, A3. change (units 23 (one_bits 23 8)) with (2 ^ 149). destruct (neg 23 8 u); rewrite ?opp_IZR, ?Ropp_mult_distr_l_reverse, IZR_bpow by lia; cbn; lra.
  - destruct (fsign_parts 52 11 ltac:(lia) ltac:(lia) u H) as (A1 & A2 & A3). pose proof (proj2 C154_values _ (proj1 A1)) as (_ & _ & _ & V). rewrite (V A1). pose proof (proj2 C154_values _ H) as (-> & _).
    unfold val. rewrite A2, A3. change (units 52 (one_bits 52 11)) with (2 ^ 1074). destruct (neg 52 11 u); rewrite ?opp_IZR, ?Ropp_mult_distr_l_reverse, IZR_bpow by lia; cbn; lra.
Qed.
Print Assumptions C154_sign.

Lemma abs_le a b k : (Rabs (IZR a * bpow radix2 k) <= IZR b * bpow radix2 k)%R <-> Z.abs a <= b.
Proof.
  pose proof (bpow_gt_0 radix2 k) as P. rewrite Rabs_mult, (Rabs_pos_eq (bpow radix2 k)), <- abs_IZR by lra. split; intros H.
  - apply le_IZR. apply Rmult_le_reg_r in H; auto.
  - apply Rmult_le_compat_r; [lra|]. now apply IZR_le.
Qed.
(** with a bound that is not negative; with one that is *)
Theorem C154_small :
  (forall u e, F32 u -> F32 e ->
     (is_finite 24 128 (b32_of_bits e) = true -> Bsign 24 128 (b32_of_bits e) = false ->
        (fSmall 23 8 u e = true <-> is_finite 24 128 (b32_of_bits u) = true /\ (Rabs (B2R 24 128 (b32_of_bits u)) <= B2R 24 128 (b32_of_bits e))%R)) /\
     (b32_of_bits e = B754_infinity 24 128 false -> (fSmall 23 8 u e = true <-> is_nan 24 128 (b32_of_bits u) = false)) /\
     (Bsign 24 128 (b32_of_bits e) = true -> fSmall 23 8 u e = true)) /\
  (forall u e, F64 u -> F64 e ->
     (is_finite 53 1024 (b64_of_bits e) = true -> Bsign 53 1024 (b64_of_bits e) = false ->
        (fSmall 52 11 u e = true <-> is_finite 53 1024 (b64_of_bits u) = true /\ (Rabs (B2R 53 1024 (b64_of_bits u)) <= B2R 53 1024 (b64_of_bits e))%R)) /\
     (b64_of_bits e = B754_infinity 53 1024 false -> (fSmall 52 11 u e = true <-> is_nan 53 1024 (b64_of_bits u) = false)) /\
     (Bsign 53 1024 (b64_of_bits e) = true -> fSmall 52 11 u e = true)).
Proof.
  assert (Nb : forall (b : bool) P, (b = true <-> P) -> (b = false <-> ~ P)) by (intros [] P HP; split; [discriminate|tauto|intros _ ?; now apply HP in H|auto]).
  split; intros u e Hu He.
  - pose proof (proj1 C154_values u Hu) as (U1 & U2 & U3 & U4). pose proof (proj1 C154_values e He) as (E1 & E2 & E3 & E4). split; [|split].
    + intros Fe Ne. rewrite E1 in Ne. apply E2 in Fe. rewrite small_finite by (auto; lia). rewrite U2, (E4 Fe). split; intros [Fu L]; split; auto; [rewrite (U4 Fu); now apply abs_le|rewrite (U4 Fu) in L; now apply abs_le in L].
    + intros Ei. rewrite (Nb _ _ U3). rewrite Ei in E1, E2, E3. cbn in E1, E2, E3. apply small_inf; auto; try lia; [rewrite <- E2|rewrite <- E3]; discriminate.
    + intros Ne. rewrite E1 in Ne. apply small_neg; auto; lia.
  - pose proof (proj2 C154_values u Hu) as (U1 & U2 & U3 & U4). pose proof (proj2 C154_values e He) as (E1 & E2 & E3 & E4). split; [|split].
    + intros Fe Ne. rewrite E1 in Ne. apply E2 in Fe. rewrite small_finite by (auto; lia). rewrite U2, (E4 Fe). split; intros [Fu L]; split; auto; [rewrite (U4 Fu); now apply abs_le|rewrite (U4 Fu) in L; now apply abs_le in L].
    + intros Ei. rewrite (Nb _ _ U3). rewrite Ei in E1, E2, E3. cbn in E1, E2, E3. apply small_inf; auto; try lia; [rewrite <- E2|rewrite <- E3]; discriminate.
    + intros Ne. rewrite E1 in Ne. apply small_neg; auto; lia.
Qed.
Print Assumptions C154_small.
(** -2.5 has the sign -1; 1e-8 is small, 1e-6 is not (FLT_EPS is 1.192092896e-07); but within -1.0 is every number *)
Example C154_example :
  fsign 23 8 3223322624 = 3212836864 /\ fSmall 23 8 841731191 872415232 = true /\ fSmall 23 8 897988541 872415232 = false /\ fSmall 23 8 1176256512 3212836864 = true.
Proof. vm_compute. auto. Qed.

(* ------------------------------------------------------------------ *)
(* C155: closeness in steps; mw and ew are 23 and 8 for float, 52 and 11 for double *)
Theorem C155_same_partial mw ew a b k : 1 <= mw -> 2 <= ew -> finite mw ew a -> finite mw ew b -> neg mw ew a = neg mw ew b -> 0 <= k <= 2 ^ mw ->
  exists r, fCompare mw ew a b k = Ok r /\ (r = true <-> within mw ew (Z.to_nat k) a b).
Proof.
  intros Hm He Ha Hb E K. eexists. split; [apply cmp_same; auto|]. rewrite within_rank by auto. rewrite Z.leb_le, Z2Nat.id by lia. reflexivity.
Qed.
Print Assumptions C155_same_partial.
(** a below zero, b not *)
Theorem C155_below_partial mw ew a b k : 1 <= mw -> 2 <= ew -> finite mw ew a -> finite mw ew b -> val mw ew a < 0 -> neg mw ew b = false -> 0 <= k -> mag mw ew a + mag mw ew b + k < 2 ^ (mw + ew) ->
  exists r, fCompare mw ew a b k = Ok r /\ (r = true <-> within mw ew (Z.to_nat k) a b).
Proof.
  intros Hm He Ha Hb Va Nb K1 K2. pose proof (float_split mw ew Hm He a (proj1 Ha)) as [Ma _]. pose proof (units_le mw Hm 0 (mag mw ew a) ltac:(lia) ltac:(lia)) as U. rewrite units_0 in U by auto.
  assert (neg mw ew a = true /\ mag mw ew a <> 0) as [Na M0]. { unfold val in Va. destruct (neg mw ew a); [split; auto; intros Q; rewrite Q, units_0 in Va; lia|lia]. }
  eexists. split; [apply cmp_neg_pos; auto; unfold signbit, width; replace (1 + ew + mw - 1) with (mw + ew) by lia; exact K2|]. rewrite within_rank by auto. rewrite Z.leb_le, Z2Nat.id by lia. reflexivity.
Qed.
Print Assumptions C155_below_partial.
(** on a machine where signed arithmetic wraps around *)
Theorem C155_wraparound mw ew a b k : 1 <= mw -> 2 <= ew -> finite mw ew a -> finite mw ew b -> 0 <= k <= 2 ^ mw ->
  (fCompare_wrap mw ew a b k = true <-> within mw ew (Z.to_nat k) a b).
Proof.
  intros Hm He Ha Hb K. rewrite within_rank, Z2Nat.id, <- Z.leb_le by (auto; lia). destruct (Bool.bool_dec (neg mw ew a) (neg mw ew b)) as [E|E].
  - rewrite (proj2 (cmp_same mw ew Hm He a b k Ha Hb E K)). reflexivity.
  - rewrite cmp_wrap_opposite; auto; [reflexivity|]. destruct (neg mw ew a), (neg mw ew b); auto; congruence.
Qed.
Print Assumptions C155_wraparound.
(** the arithmetic overflows for every a above zero and b below zero that are not both very large *)
Theorem C155_compare_refuted :
  (forall mw ew a b k, 1 <= mw -> 2 <= ew -> finite mw ew a -> finite mw ew b -> 0 < val mw ew a -> val mw ew b < 0 -> mag mw ew a + mag mw ew b <= 2 ^ (mw + ew) -> fCompare mw ew a b k = UB)
  /\ (finite 23 8 1065353216 /\ finite 23 8 3212836864 /\ fCompare 23 8 1065353216 3212836864 1 = UB)
  /\ (finite 23 8 1 /\ finite 23 8 2147483649 /\ within 23 8 2 1 2147483649 /\ fCompare 23 8 1 2147483649 2 = UB).
Proof.
  split; [|split].
  - intros mw ew a b k Hm He Ha Hb Va Vb K. pose proof (float_split mw ew Hm He a (proj1 Ha)) as [Ma _]. pose proof (float_split mw ew Hm He b (proj1 Hb)) as [Mb _].
    pose proof (units_le mw Hm 0 (mag mw ew a) ltac:(lia) ltac:(lia)) as U. pose proof (units_le mw Hm 0 (mag mw ew b) ltac:(lia) ltac:(lia)) as V. rewrite units_0 in U, V by auto.
    assert (neg mw ew a = false /\ mag mw ew a <> 0) as [Na M0]. { unfold val in Va. destruct (neg mw ew a); [lia|split; auto; intros Q; rewrite Q, units_0 in Va; lia]. }
    assert (Nb : neg mw ew b = true) by (unfold val in Vb; destruct (neg mw ew b); [auto|lia]).
    assert (K2 : mag mw ew a + mag mw ew b <= signbit mw ew) by (unfold signbit, width; replace (1 + ew + mw - 1) with (mw + ew) by lia; exact K).
    unfold fCompare. rewrite test_eq, !sgn_float, Na, Nb by (auto; apply Ha || apply Hb). cbv zeta. cbn [xorb]. rewrite signed_ok by lia. cbn [bind]. rewrite flip by lia.
    destruct (Z.ltb_spec (mag mw ew a + -1) 0); [lia|]. rewrite signed_ub by lia. reflexivity.
  - vm_compute. intuition discriminate.
  - assert (F1 : finite 23 8 1) by (vm_compute; intuition discriminate). assert (F2 : finite 23 8 2147483649) by (vm_compute; intuition discriminate).
    split; [|split; [|split]]; auto. apply within_rank; auto; try lia. vm_compute. discriminate.
Qed.
Print Assumptions C155_compare_refuted.
(** fCompareSmall: a number next to zero is compared with the bound instead *)
Theorem C155_small_partial mw ew a b k e : 1 <= mw -> 2 <= ew -> finite mw ew a -> finite mw ew b -> finite mw ew e -> neg mw ew e = false -> 0 <= k <= 2 ^ mw ->
  neg mw ew a = neg mw ew b \/ val mw ew a = 0 \/ val mw ew b = 0 ->
  exists r, fCompareSmall mw ew a b k e = Ok r
    /\ (r = true <-> if (val mw ew a =? 0) || (val mw ew b =? 0) then Z.abs (val mw ew a - val mw ew b) <= val mw ew e else within mw ew (Z.to_nat k) a b).
Proof.
  intros Hm He Ha Hb Hf Ne K E.
  assert (Z0 : forall u, finite mw ew u -> is_zero mw ew u = (val mw ew u =? 0)).
  { intros u [Hu _]. pose proof (float_split mw ew Hm He u Hu) as [M _]. unfold is_zero. rewrite land_below by (destruct Hu; lia). fold (mag mw ew u).
    pose proof (units_le mw Hm 0 (mag mw ew u) ltac:(lia) ltac:(lia)) as U. pose proof (units_le mw Hm (mag mw ew u) 0 ltac:(lia) ltac:(lia)) as V. rewrite units_0 in U, V by auto. unfold val. destruct (neg mw ew u); lia. }
  unfold fCompareSmall. rewrite (Z0 a Ha), (Z0 b Hb). destruct (Z.eqb_spec (val mw ew a) 0) as [Ea|Ea]; cbn [orb].
  - eexists. split; [reflexivity|]. rewrite small_finite by (auto; apply Hb). rewrite Ea. replace (Z.abs (0 - val mw ew b)) with (Z.abs (val mw ew b)) by lia. tauto.
  - destruct (Z.eqb_spec (val mw ew b) 0) as [Eb|Eb].
    + eexists. split; [reflexivity|]. rewrite small_finite by (auto; apply Ha). rewrite Eb, Z.sub_0_r. tauto.
    + apply C155_same_partial; auto. tauto.
Qed.
Print Assumptions C155_small_partial.
(** 1.0 and the next float; 1.0 and the float 5 steps on; -1e-44 and 1e-44; 0.0 and 1e-8; wrapping around, 1e-44 and -1e-44 *)
Example C155_example :
  fCompare 23 8 1065353216 1065353217 1 = Ok true /\ fCompare 23 8 1065353216 1065353221 1 = Ok false
  /\ fCompare 23 8 2147483655 7 14 = Ok true /\ fCompareSmall 23 8 0 841731191 1 872415232 = Ok true /\ fCompare_wrap 23 8 7 2147483655 14 = true /\ fCompare_wrap 23 8 7 2147483655 13 = false.
Proof. vm_compute. intuition. Qed.

(* ------------------------------------------------------------------ *)
(* C156: the wide comparison *)
Lemma land_mask k j a : 0 <= k -> 0 <= j -> Z.land (Z.ones k * 2 ^ j) a = ((a / 2 ^ j) mod 2 ^ k) * 2 ^ j.
Proof.
  intros Hk Hj. rewrite <- Z.land_ones, <- (Z.shiftr_div_pow2 a j), <- !Z.shiftl_mul_pow2 by lia. apply Z.bits_inj'. intros n Hn.
  rewrite Z.land_spec, !Z.shiftl_spec by lia. destruct (Z.lt_ge_cases n j).
  - rewrite (Z.testbit_neg_r (Z.ones k)), (Z.testbit_neg_r (Z.land _ _)) by lia. reflexivity.
  - rewrite Z.land_spec, Z.shiftr_spec by lia. replace (n - j + j) with n by lia. apply andb_comm.
Qed.
(** the exponent and the upper 16 bits of the mantissa *)
Definition exponent (a : Z) : Z := (a / 2 ^ 23) mod 2 ^ 8.
Definition upper (a : Z) : Z := (a mod 2 ^ 23) / 2 ^ 7.
Lemma wide_eq a b : F32 a -> F32 b -> fWideCompare a b =
  if exponent a =? exponent b then upper a =? upper b
  else (Z.abs (exponent a - exponent b) =? 1) && (Z.abs (upper a - upper b) =? 65535).
Proof.
  intros Ha Hb. unfold fWideCompare.
  assert (E : forall x, Z.land 2139095040 x = exponent x * 2 ^ 23) by (intros x; change 2139095040 with (Z.ones 8 * 2 ^ 23); apply land_mask; lia).
  assert (U : forall x, Z.land 8388480 x = upper x * 2 ^ 7).
  { intros x. change 8388480 with (Z.ones 16 * 2 ^ 7). rewrite land_mask by lia. f_equal. unfold upper. change (2 ^ 23) with (2 ^ 7 * 2 ^ 16). rewrite Z.rem_mul_r by (try lia; compute; discriminate).
    rewrite (Z.mul_comm (2 ^ 7)), Z.div_add, (Z.div_small (x mod 2 ^ 7)) by (try apply Z.mod_pos_bound; lia). lia. }
  rewrite !E, !U. assert (B : forall x, 0 <= exponent x < 256) by (intros x; apply Z.mod_pos_bound; lia).
  replace (Z.abs (exponent a * 2 ^ 23 - exponent b * 2 ^ 23) / 2 ^ 23) with (Z.abs (exponent a - exponent b)).
  2:{ replace (exponent a * 2 ^ 23 - exponent b * 2 ^ 23) with ((exponent a - exponent b) * 2 ^ 23) by lia. rewrite Z.abs_mul, (Z.abs_eq (2 ^ 23)), Z.div_mul by lia. reflexivity. }
  unfold wrap. pose proof (B a). pose proof (B b). rewrite Z.mod_small by (change (2 ^ 8) with 256; lia). change (2 ^ 7) with 128. cbv zeta.
  destruct (Z.eqb_spec (exponent a) (exponent b)) as [Ee|Ee].
  - rewrite Ee, Z.sub_diag. cbn [Z.abs Z.gtb Z.eqb Z.compare]. lia.
  - rewrite Z.gtb_ltb. destruct (Z.ltb_spec 1 (Z.abs (exponent a - exponent b))); [lia|]. destruct (Z.eqb_spec (Z.abs (exponent a - exponent b)) 0); lia.
Qed.
(** numbers alike in all but the last seven bits are equal for it; of two numbers with the same sign and exponent it says so only if they are fewer than 128 steps apart;
    numbers whose exponents differ by two it tells apart; numbers around a power of two, alike but for the last seven bits counted through, are equal for it *)
Theorem C156_wide_partial a b : F32 a -> F32 b ->
  fWideCompare a b = fWideCompare b a /\ fWideCompare a a = true
  /\ (mag 23 8 a / 128 = mag 23 8 b / 128 -> fWideCompare a b = true)
  /\ (fWideCompare a b = true -> neg 23 8 a = neg 23 8 b -> mag 23 8 a / 2 ^ 23 = mag 23 8 b / 2 ^ 23 -> finite 23 8 a -> finite 23 8 b -> within 23 8 127 a b)
  /\ (2 <= Z.abs (mag 23 8 a / 2 ^ 23 - mag 23 8 b / 2 ^ 23) -> fWideCompare a b = false)
  /\ (mag 23 8 a / 128 + 1 = mag 23 8 b / 128 -> mag 23 8 a / 2 ^ 23 + 1 = mag 23 8 b / 2 ^ 23 -> fWideCompare a b = true).
Proof.
  intros Ha Hb. rewrite !wide_eq by auto.
  assert (Sp : forall x, F32 x -> exponent x = mag 23 8 x / 2 ^ 23 /\ upper x = (mag 23 8 x / 128) mod 2 ^ 16 /\ exponent x = mag 23 8 x / 128 / 2 ^ 16).
  { intros x Hx. pose proof (float_split 23 8 ltac:(lia) ltac:(lia) x Hx) as [M E]. assert (exponent x = mag 23 8 x / 2 ^ 23) as Ee.
    { unfold exponent. rewrite E at 1. change (signbit 23 8) with (2 ^ 8 * 2 ^ 23) in *. destruct (neg 23 8 x).
      - rewrite Z.div_add by lia. replace (mag 23 8 x / 2 ^ 23 + 2 ^ 8) with (mag 23 8 x / 2 ^ 23 + 1 * 2 ^ 8) by lia. rewrite Z.mod_add by lia. apply Z.mod_small. split; [apply Z.div_pos; lia|apply Z.div_lt_upper_bound; lia].
      - rewrite Z.add_0_r. apply Z.mod_small. split; [apply Z.div_pos; lia|apply Z.div_lt_upper_bound; lia]. }
    split; [exact Ee|]. split; [|rewrite Ee, Z.div_div by lia; reflexivity]. unfold upper. assert (x mod 2 ^ 23 = mag 23 8 x mod 2 ^ 23) as ->.
    { rewrite E at 1. change (signbit 23 8) with (2 ^ 8 * 2 ^ 23). destruct (neg 23 8 x); [apply Z.mod_add; lia|f_equal; lia]. }
    change (2 ^ 23) with (2 ^ 7 * 2 ^ 16). rewrite Z.rem_mul_r by (try lia; compute; discriminate).
    rewrite (Z.mul_comm (2 ^ 7)), Z.div_add, (Z.div_small (mag 23 8 x mod 2 ^ 7)) by (try apply Z.mod_pos_bound; lia). change (2 ^ 7) with 128. lia. }
  destruct (Sp a Ha) as (A1 & A2 & A3). destruct (Sp b Hb) as (B1 & B2 & B3). split; [|split; [|split; [|split; [|split]]]].
  - rewrite (Z.eqb_sym (exponent b)). destruct (exponent a =? exponent b); lia.
  - rewrite Z.eqb_refl. apply Z.eqb_refl.
  - intros E. rewrite A3, B3, A2, B2, E, !Z.eqb_refl. reflexivity.
  - intros E Es Ee Fa Fb. rewrite A1, B1, Ee, Z.eqb_refl, A2, B2 in E. apply Z.eqb_eq in E. apply within_rank; auto; try lia.
    rewrite <- A1, <- B1, A3, B3 in Ee. pose proof (Z.div_mod (mag 23 8 a / 128) (2 ^ 16) ltac:(lia)). pose proof (Z.div_mod (mag 23 8 b / 128) (2 ^ 16) ltac:(lia)).
    pose proof (Z.div_mod (mag 23 8 a) 128 ltac:(lia)). pose proof (Z.div_mod (mag 23 8 b) 128 ltac:(lia)). pose proof (Z.mod_pos_bound (mag 23 8 a) 128 ltac:(lia)). pose proof (Z.mod_pos_bound (mag 23 8 b) 128 ltac:(lia)).
    unfold rank. rewrite Es. destruct (neg 23 8 b); lia.
  - intros D. rewrite <- A1, <- B1 in D. destruct (Z.eqb_spec (exponent a) (exponent b)); lia.
  - intros E Ee. rewrite <- A1, <- B1 in Ee. pose proof (Z.div_mod (mag 23 8 a / 128) (2 ^ 16) ltac:(lia)) as Da. pose proof (Z.div_mod (mag 23 8 b / 128) (2 ^ 16) ltac:(lia)) as Db.
    rewrite <- A2, <- A3 in Da. rewrite <- B2, <- B3 in Db. pose proof (Z.mod_pos_bound (mag 23 8 a / 128) (2 ^ 16) ltac:(lia)). pose proof (Z.mod_pos_bound (mag 23 8 b / 128) (2 ^ 16) ltac:(lia)).
    change (2 ^ 16) with 65536 in *. destruct (Z.eqb_spec (exponent a) (exponent b)); lia.
Qed.
Print Assumptions C156_wide_partial.
(** it calls 1.0 and -1.0 equal, and 1.0 and 3.9999998 (it does not look which of the two exponents is the larger) *)
Theorem C156_wide_refuted :
  (exists a b, F32 a /\ F32 b /\ B2R 24 128 (b32_of_bits a) = 1%R /\ B2R 24 128 (b32_of_bits b) = (-1)%R /\ fWideCompare a b = true)
  /\ (exists a b, F32 a /\ F32 b /\ B2R 24 128 (b32_of_bits a) = 1%R /\ (399 / 100 < B2R 24 128 (b32_of_bits b))%R /\ fWideCompare a b = true).
Proof.
  assert (V : forall u n, F32 u -> finite 23 8 u -> val 23 8 u = n * 2 ^ 126 -> B2R 24 128 (b32_of_bits u) = (IZR n / 2 ^ 23)%R).
  { intros u n H F E. rewrite (proj2 (proj2 (proj2 (proj1 C154_values u H))) F), E, mult_IZR, Rmult_assoc, IZR_bpow by lia. cbn -[pow]. unfold Rdiv. f_equal. cbn. lra. }
  split; [exists 1065353216, 3212836864|exists 1065353216, 1082130431].
  - split; [compute; intuition discriminate|]. split; [compute; intuition discriminate|]. split; [|split; [|reflexivity]].
    + rewrite (V 1065353216 (2 ^ 23)); [|compute; intuition discriminate..|reflexivity]. cbn. lra.
    + rewrite (V 3212836864 (- 2 ^ 23)); [|compute; intuition discriminate..|reflexivity]. cbn. lra.
  - split; [compute; intuition discriminate|]. split; [compute; intuition discriminate|]. split; [|split; [|reflexivity]].
    + rewrite (V 1065353216 (2 ^ 23)); [|compute; intuition discriminate..|reflexivity]. cbn. lra.
    + rewrite (V 1082130431 (2 ^ 25 - 2)); [|compute; intuition discriminate..|reflexivity]. cbn. lra.
Qed.
Print Assumptions C156_wide_refuted.
(** 1.0 and 1.0 + 100 steps; 1.0 and 1.0 + 200 steps; the largest float below 2.0 and 2.0 *)
Example C156_example : fWideCompare 1065353216 1065353316 = true /\ fWideCompare 1065353216 1065353416 = false /\ fWideCompare 1073741823 1073741824 = true.
Proof. vm_compute. auto. Qed.
