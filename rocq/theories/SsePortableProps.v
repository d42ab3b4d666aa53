(* The arrays that stand for the registers without the instructions of the processor agree with these instructions. *)
From Coq Require Import ZArith List Bool Lia ZifyBool ZifyNat.
From Verif Require Import Common Sse SseProps SsePortable.
Import ListNotations.
Local Open Scope Z_scope.

(** A number of a signed type of w bits; an array of these that fills a register. *)
Definition fits (w x : Z) : Prop := - 2 ^ (w - 1) <= x < 2 ^ (w - 1).
Definition vector (w : Z) (l : list Z) : Prop := length l = count w /\ Forall (fits w) l.
(** The portable function is defined and returns the elements of the register that the instruction returns. *)
Definition agrees (w : Z) (port : res (list Z)) (inst : Z) : Prop :=
  exists out, port = Ok out /\ vector w out /\ forall i, (i < count w)%nat -> nth i out 0 = elem w inst i.

Lemma half_pow w : 0 < w -> 2 ^ w = 2 * 2 ^ (w - 1).
Proof. intros W. rewrite <- Z.pow_succ_r by lia. f_equal. lia. Qed.
Lemma sgn_fits w x : 0 < w -> fits w (sgn w x).
Proof.
  intros W. pose proof (half_pow w W). pose proof (Z.mod_pos_bound x (2 ^ w) ltac:(apply Z.pow_pos_nonneg; lia)).
  unfold fits, sgn. destruct (Z.ltb_spec (x mod 2 ^ w) (2 ^ (w - 1))); lia.
Qed.
Lemma sgn_id w x : 0 < w -> fits w x -> sgn w x = x.
Proof.
  intros W F. pose proof (half_pow w W). unfold fits in F. pose proof (Z.pow_pos_nonneg 2 (w - 1) ltac:(lia) ltac:(lia)). unfold sgn. destruct (Z_lt_le_dec x 0).
  - replace (x mod 2 ^ w) with (x + 2 ^ w); [destruct (Z.ltb_spec (x + 2 ^ w) (2 ^ (w - 1))); lia|].
    symmetry. rewrite <- (Z.mod_add x 1) by lia. rewrite Z.mul_1_l. apply Z.mod_small. lia.
  - rewrite Z.mod_small by lia. destruct (Z.ltb_spec x (2 ^ (w - 1))); lia.
Qed.
Lemma wrap_range w x : 0 <= w -> 0 <= wrap w x < 2 ^ w.
Proof. intros. apply Z.mod_pos_bound, Z.pow_pos_nonneg; lia. Qed.
Lemma lane_reg w l i : 0 < w -> lane w (reg w l) i = wrap w (nth i l 0).
Proof.
  intros W. unfold reg. rewrite lane_pack; [|exact W|].
  - replace 0 with (wrap w 0) at 1 by (unfold wrap; apply Z.mod_0_l, Z.pow_nonzero; lia). apply map_nth.
  - apply Forall_forall. intros y Y. apply in_map_iff in Y. destruct Y as [x [<- _]]. apply wrap_range. lia.
Qed.
Lemma nth_fits w l i : 0 < w -> Forall (fits w) l -> fits w (nth i l 0).
Proof.
  intros W F. destruct (nth_in_or_default i l 0) as [I | ->]; [exact (proj1 (Forall_forall _ _) F _ I)|].
  pose proof (Z.pow_pos_nonneg 2 (w - 1) ltac:(lia) ltac:(lia)). unfold fits. lia.
Qed.
Lemma elem_reg w l i : 0 < w -> Forall (fits w) l -> elem w (reg w l) i = nth i l 0.
Proof. intros W F. unfold elem. rewrite lane_reg by exact W. rewrite sgn_wrap. apply sgn_id; [exact W|]. apply nth_fits; assumption. Qed.

Lemma ArrayMap_each F (P : nat -> Z -> Prop) : forall l r, length l = length r ->
  (forall i, (i < length l)%nat -> exists z, F (nth i l 0) (nth i r 0) = Ok z /\ P i z) ->
  exists out, ArrayMap F l r = Ok out /\ length out = length l /\ forall i, (i < length l)%nat -> P i (nth i out 0).
Proof.
  intros l. revert P. induction l as [|x l IH]; intros P [|y r] L H; try discriminate.
  - exists []. cbn. repeat split. intros; lia.
  - destruct (H O ltac:(cbn; lia)) as [z [E Pz]]. cbn [nth] in E. destruct (IH (fun i => P (S i)) r ltac:(cbn in L; lia)) as [out [Eo [Lo Po]]].
    { intros i I. apply (H (S i)). cbn. lia. }
    exists (z :: out). cbn [ArrayMap]. rewrite E. cbn [bind]. rewrite Eo. cbn [bind length]. repeat split; [lia|]. intros [|i] I; cbn [nth]; [exact Pz|]. apply Po. lia.
Qed.
Lemma array_shift_each F (P : nat -> Z -> Prop) s : forall l,
  (forall i, (i < length l)%nat -> exists z, F (nth i l 0) s = Ok z /\ P i z) ->
  exists out, array_shift F l s = Ok out /\ length out = length l /\ forall i, (i < length l)%nat -> P i (nth i out 0).
Proof.
  intros l. revert P. induction l as [|x l IH]; intros P H.
  - exists []. cbn. repeat split. intros; lia.
  - destruct (H O ltac:(cbn; lia)) as [z [E Pz]]. cbn [nth] in E. destruct (IH (fun i => P (S i))) as [out [Eo [Lo Po]]].
    { intros i I. apply (H (S i)). cbn. lia. }
    exists (z :: out). cbn [array_shift]. rewrite E. cbn [bind]. rewrite Eo. cbn [bind length]. repeat split; [lia|]. intros [|i] I; cbn [nth]; [exact Pz|]. apply Po. lia.
Qed.
Lemma make_agrees w out inst : length out = count w -> 0 < w -> (forall i, (i < count w)%nat -> nth i out 0 = elem w inst i) -> agrees w (Ok out) inst.
Proof.
  intros L W H. exists out. split; [reflexivity|]. split; [|exact H]. split; [exact L|]. apply Forall_forall. intros x X. destruct (In_nth _ _ 0 X) as [i [I E]].
  rewrite <- E, H by lia. apply sgn_fits. exact W.
Qed.
Lemma map_agrees w F l r inst : 0 < w -> vector w l -> vector w r ->
  (forall i, (i < count w)%nat -> F (nth i l 0) (nth i r 0) = Ok (elem w inst i)) -> agrees w (ArrayMap F l r) inst.
Proof.
  intros W [Ll Fl] [Lr Fr] H. destruct (ArrayMap_each F (fun i z => z = elem w inst i) l r ltac:(congruence)) as [out [E [L P]]].
  - intros i I. exists (elem w inst i). split; [apply H; lia|reflexivity].
  - rewrite E. apply make_agrees; [lia|exact W|]. intros i I. apply P. lia.
Qed.
Lemma shift_agrees w F l s inst : 0 < w -> vector w l ->
  (forall i, (i < count w)%nat -> F (nth i l 0) s = Ok (elem w inst i)) -> agrees w (array_shift F l s) inst.
Proof.
  intros W [Ll Fl] H. destruct (array_shift_each F (fun i z => z = elem w inst i) s l) as [out [E [L P]]].
  - intros i I. exists (elem w inst i). split; [apply H; lia|reflexivity].
  - rewrite E. apply make_agrees; [lia|exact W|]. intros i I. apply P. lia.
Qed.

Lemma pack_range w l : 0 < w -> Forall (fun x => 0 <= x < 2 ^ w) l -> 0 <= pack w l < 2 ^ (w * Z.of_nat (length l)).
Proof.
  intros W. assert (P : 0 < 2 ^ w) by (apply Z.pow_pos_nonneg; lia). induction l as [|x l IH]; intros F.
  - cbn [pack length]. rewrite Z.mul_0_r. cbn. lia.
  - inversion F as [|? ? X F']; subst. specialize (IH F'). cbn [pack length]. replace (w * Z.of_nat (S (length l))) with (w + w * Z.of_nat (length l)) by lia.
    rewrite Z.pow_add_r by lia. split; [nia|]. nia.
Qed.
Lemma whole w : width w -> w * Z.of_nat (count w) = 128.
Proof. intros [-> | [-> | [-> | ->]]]; reflexivity. Qed.
Lemma reg_range w l : width w -> length l = count w -> 0 <= reg w l < 2 ^ 128.
Proof.
  intros W L. unfold reg. pose proof (pack_range w (map (wrap w) l) (width_pos w W)) as H. rewrite map_length, L, (whole w W) in H. apply H.
  apply Forall_forall. intros y Y. apply in_map_iff in Y. destruct Y as [x [<- _]]. apply wrap_range. pose proof (width_pos w W). lia.
Qed.
(** A register is determined by its elements. *)
Lemma same_lanes w x y : width w -> 0 <= x < 2 ^ 128 -> 0 <= y < 2 ^ 128 -> (forall i, (i < count w)%nat -> lane w x i = lane w y i) -> x = y.
Proof.
  intros W X Y H. pose proof (width_pos w W) as W0. apply Z.bits_inj'. intros k K.
  destruct (Z_lt_le_dec k 128).
  - assert (B : forall z, Z.testbit z k = Z.testbit (lane w z (Z.to_nat (k / w))) (k mod w)).
    { intros z. pose proof (Z.mod_pos_bound k w W0). rewrite lane_bit by lia. replace (k mod w <? w) with true by lia. cbn [andb]. f_equal.
      rewrite Z2Nat.id by (apply Z.div_pos; lia). pose proof (Z.div_mod k w). lia. }
    rewrite !B. f_equal. apply H. apply Nat2Z.inj_lt. rewrite Z2Nat.id by (apply Z.div_pos; lia). apply Z.div_lt_upper_bound; [exact W0|]. rewrite whole by exact W. lia.
  - rewrite <- (Z.mod_small x (2 ^ 128)), <- (Z.mod_small y (2 ^ 128)) by assumption. rewrite !Z.mod_pow2_bits_high by lia. reflexivity.
Qed.
Lemma sgn_bit w x k : 0 <= k < w -> Z.testbit (sgn w x) k = Z.testbit x k.
Proof.
  intros K. rewrite <- (Z.mod_pow2_bits_low x w k), <- (Z.mod_pow2_bits_low (sgn w x) w k) by lia. f_equal.
  pose proof (Z.pow_pos_nonneg 2 w ltac:(lia) ltac:(lia)). unfold sgn. destruct (_ <? _); [apply Z.mod_mod; lia|].
  replace (x mod 2 ^ w - 2 ^ w) with (x mod 2 ^ w + (-1) * 2 ^ w) by lia. rewrite Z.mod_add by lia. apply Z.mod_mod. lia.
Qed.
Lemma words_agree (F G : Z -> Z -> Z) (f : bool -> bool -> bool) w l r : f false false = false -> width w -> vector w l -> vector w r ->
  (forall x y k, 0 <= k -> Z.testbit (F x y) k = f (Z.testbit x k) (Z.testbit y k)) ->
  (forall x y k, 0 <= k -> Z.testbit (G x y) k = f (Z.testbit x k) (Z.testbit y k)) ->
  agrees w (on_words F w l r) (G (reg w l) (reg w r)).
Proof.
  intros F0 W [Ll Fl] [Lr Fr] HF HG. pose proof (width_pos w W) as W0. unfold on_words.
  pose proof (reg_range w l W Ll) as RA. pose proof (reg_range w r W Lr) as RB. set (A := reg w l) in *. set (B := reg w r) in *. clearbody A B.
  assert (L64 : forall z, length (unreg 64 z) = 2%nat) by (intros; unfold unreg; rewrite map_length, lanes_length; reflexivity).
  assert (N64 : forall z i, (i < 2)%nat -> nth i (unreg 64 z) 0 = sgn 64 (lane 64 z i)).
  { intros z i I. unfold unreg. rewrite (nth_indep _ 0 (sgn 64 0)) by (rewrite map_length, lanes_length; exact I). rewrite map_nth, lanes_nth by exact I. reflexivity. }
  destruct (ArrayMap_each (fun x y => Ok (F x y)) (fun i z => z = F (sgn 64 (lane 64 A i)) (sgn 64 (lane 64 B i))) (unreg 64 A) (unreg 64 B)) as [v [E [L P]]].
  { rewrite !L64. reflexivity. }
  { intros i I. rewrite L64 in I. eexists. split; [reflexivity|]. rewrite !N64 by exact I. reflexivity. }
  rewrite L64 in *. rewrite E. cbn [bind].
  assert (S : reg 64 v = G A B).
  { apply (same_lanes 64).
    - unfold width. lia.
    - apply reg_range; [unfold width; lia|]. exact L.
    - split.
      + apply Z.bits_iff_nonneg_ex. exists 128. intros m M. rewrite HG by lia. rewrite <- (Z.mod_small A (2 ^ 128)), <- (Z.mod_small B (2 ^ 128)) by assumption. rewrite !Z.mod_pow2_bits_high by lia. exact F0.
      + destruct (Z_lt_le_dec (G A B) (2 ^ 128)) as [|Big]; [assumption|exfalso].
        assert (Q : G A B = (G A B) mod 2 ^ 128).
        { apply Z.bits_inj'. intros k K. destruct (Z_lt_le_dec k 128); [rewrite Z.mod_pow2_bits_low by lia; reflexivity|]. rewrite Z.mod_pow2_bits_high by lia.
          rewrite HG by lia. rewrite <- (Z.mod_small A (2 ^ 128)), <- (Z.mod_small B (2 ^ 128)) by assumption. rewrite !Z.mod_pow2_bits_high by lia. exact F0. }
        pose proof (Z.mod_pos_bound (G A B) (2 ^ 128) ltac:(lia)). lia.
    - intros i I. change (count 64) with 2%nat in I. rewrite lane_reg, P by (lia || exact I). apply Z.bits_inj'. intros k K. rewrite lane_bit by lia. unfold wrap.
      destruct (Z.ltb_spec k 64).
      + rewrite Z.mod_pow2_bits_low by lia. rewrite HF, HG by lia. rewrite !sgn_bit, !lane_bit by lia. replace (k <? 64) with true by lia. reflexivity.
      + rewrite Z.mod_pow2_bits_high by lia. reflexivity. }
  rewrite S. apply make_agrees; [unfold unreg; rewrite map_length; apply lanes_length|exact W0|]. intros i I. unfold unreg.
  rewrite (nth_indep _ 0 (sgn w 0)) by (rewrite map_length, lanes_length; exact I). rewrite map_nth, lanes_nth by exact I. reflexivity.
Qed.

Lemma sgn_sum w x y : sgn w (wrap w x + wrap w y) = sgn w (x + y).
Proof. apply sgn_cong. unfold wrap. rewrite <- Zplus_mod. reflexivity. Qed.
Lemma sgn_difference w x y : sgn w (wrap w x - wrap w y) = sgn w (x - y).
Proof. apply sgn_cong. unfold wrap. rewrite <- Zminus_mod. reflexivity. Qed.
Lemma compute_ok w v : 0 < w -> (32 <= w -> fits w v) -> compute w v = Ok (sgn w v).
Proof.
  intros W F. unfold compute. destruct (Z.ltb_spec w 32); [reflexivity|]. rewrite sgn_id by auto. specialize (F ltac:(assumption)). unfold fits in F.
  replace ((- 2 ^ (w - 1) <=? v) && (v <? 2 ^ (w - 1))) with true by lia. reflexivity.
Qed.

(** Adding and subtracting agree unless a number of 32 or 64 bits overflows; shorter ones always. *)
Theorem C182_add_sub_partial : forall w l r, width w -> vector w l -> vector w r ->
  ((forall i, (i < count w)%nat -> 32 <= w -> fits w (nth i l 0 + nth i r 0)) -> agrees w (p_add w l r) (vadd w (reg w l) (reg w r))) /\
  ((forall i, (i < count w)%nat -> 32 <= w -> fits w (nth i l 0 - nth i r 0)) -> agrees w (p_sub w l r) (vsub w (reg w l) (reg w r))).
Proof.
  intros w l r W Vl Vr. pose proof (width_pos w W) as W0. split; intros H; apply map_agrees; try assumption; intros i I; pose proof (C177_elements w (reg w l) (reg w r) i W I) as [A [S _]]; unfold elem.
  - rewrite A. unfold sse_add. rewrite compute_ok by auto. f_equal. rewrite !lane_reg by exact W0. change (?a mod 2 ^ w) with (wrap w a). rewrite sgn_wrap. symmetry. apply sgn_sum.
  - rewrite S. unfold sse_sub. rewrite compute_ok by auto. f_equal. rewrite !lane_reg by exact W0. change (?a mod 2 ^ w) with (wrap w a). rewrite sgn_wrap. symmetry. apply sgn_difference.
Qed.
Print Assumptions C182_add_sub_partial.

(** Multiplying agrees unless it overflows; the smaller and the larger number, comparing, and all operations on bits always. *)
Theorem C182_multiply_min_max_partial : forall l r, vector 32 l -> vector 32 r ->
  ((forall i, (i < 4)%nat -> fits 32 (nth i l 0 * nth i r 0)) -> agrees 32 (p_mul l r) (vmul (reg 32 l) (reg 32 r))) /\
  agrees 32 (p_min l r) (vmin (reg 32 l) (reg 32 r)) /\ agrees 32 (p_max l r) (vmax (reg 32 l) (reg 32 r)).
Proof.
  intros l r Vl Vr. assert (E : forall v i, vector 32 v -> elem 32 (reg 32 v) i = nth i v 0) by (intros v i [_ V]; apply elem_reg; [lia|exact V]).
  split; [|split]; [intros H|..]; apply map_agrees; try (lia || assumption); intros i I; pose proof (C178_multiply_min_max (reg 32 l) (reg 32 r) i I) as [M [N X]]; rewrite !E in * by assumption.
  - unfold elem. rewrite M. unfold sse_mul. rewrite compute_ok by (try lia; intros; apply H; exact I). f_equal. symmetry. apply (sgn_wrap 32).
  - rewrite N. unfold sse_min. f_equal. destruct (Z.ltb_spec (nth i l 0) (nth i r 0)); lia.
  - rewrite X. unfold sse_max. f_equal. destruct (Z.ltb_spec (nth i r 0) (nth i l 0)); lia.
Qed.
Print Assumptions C182_multiply_min_max_partial.

Theorem C182_compare : forall w l r, width w -> w <> 64 -> vector w l -> vector w r ->
  agrees w (p_eq w l r) (veq w (reg w l) (reg w r)) /\ agrees w (p_lt w l r) (vlt w (reg w l) (reg w r)) /\ agrees w (p_gt w l r) (vgt w (reg w l) (reg w r)).
Proof.
  intros w l r W W64 Vl Vr. pose proof (width_pos w W) as W0. assert (E : forall v i, vector w v -> elem w (reg w v) i = nth i v 0) by (intros v i [_ V]; apply elem_reg; [lia|exact V]).
  split; [|split]; apply map_agrees; try assumption; intros i I; pose proof (C177_compare w (reg w l) (reg w r) i W W64 I) as C; cbv zeta in C; destruct C as [A [_ [B [_ [D _]]]]];
    rewrite !E in A, B, D by assumption; unfold sse_cmp, elem; f_equal.
  - rewrite A. reflexivity.
  - rewrite B. reflexivity.
  - rewrite D, Z.gtb_ltb. reflexivity.
Qed.
Print Assumptions C182_compare.

Theorem C182_bits : forall w l r, width w -> vector w l -> vector w r ->
  agrees w (p_and w l r) (mm_and (reg w l) (reg w r)) /\ agrees w (p_or w l r) (mm_or (reg w l) (reg w r)) /\
  agrees w (p_xor w l r) (mm_xor (reg w l) (reg w r)) /\ agrees w (p_andnot w l r) (mm_andnot (reg w l) (reg w r)).
Proof.
  intros w l r W Vl Vr. repeat split.
  - apply (words_agree Z.land Z.land andb); auto using Z.land_spec.
  - apply (words_agree Z.lor Z.lor orb); auto using Z.lor_spec.
  - apply (words_agree Z.lxor Z.lxor xorb); auto using Z.lxor_spec.
  - apply (words_agree (fun l r => Z.land (Z.lnot l) r) (fun a b => Z.ldiff b a) (fun x y => negb x && y)); auto.
    + intros. rewrite Z.land_spec, Z.lnot_spec by assumption. reflexivity.
    + intros. rewrite Z.ldiff_spec. apply andb_comm.
Qed.
Print Assumptions C182_bits.

(** To the right by less than the width always; to the left for numbers that are not negative and lose no bit that is set (of 16 bits: also if
    they do). *)
Theorem C182_shift_partial : forall w l n, (w = 16 \/ w = 32 \/ w = 64) -> vector w l -> 0 <= n < w ->
  agrees w (p_sr w l n) (mm_srli w (reg w l) n) /\ agrees w (p_sra w l n) (mm_srai w (reg w l) n) /\
  ((forall i, (i < count w)%nat -> 0 <= nth i l 0 /\ (w = 16 \/ nth i l 0 * 2 ^ n < 2 ^ w)) -> agrees w (p_sl w l n) (mm_slli w (reg w l) n)).
Proof.
  intros w l n W V N. assert (WW : width w) by (unfold width; lia). pose proof (width_pos w WW) as W0. assert (Pn : 0 < 2 ^ n) by (apply Z.pow_pos_nonneg; lia).
  assert (Wn : wrap 32 n = n) by (unfold wrap; apply Z.mod_small; lia). assert (Pw : 0 < 2 ^ w) by (apply Z.pow_pos_nonneg; lia).
  assert (Q : n < promoted w) by (unfold promoted; destruct (Z.ltb_spec w 32); lia).
  split; [|split]; [| |intros H]; apply shift_agrees; try assumption; intros i I; unfold elem.
  - unfold mm_srli. rewrite lane_lift1; [|exact W0|exact I|].
    + rewrite Wn, lane_reg by exact W0. replace (n <? w) with true by lia. unfold sse_sr. replace ((0 <=? n) && (n <? promoted w)) with true by lia. reflexivity.
    + intros x X. rewrite Wn. replace (n <? w) with true by lia. split; [apply Z.div_pos; lia|]. apply Z.le_lt_trans with x; [|lia]. apply Z.div_le_upper_bound; nia.
  - unfold mm_srai. rewrite lane_lift1; [|exact W0|exact I|].
    + rewrite Wn, lane_reg, !sgn_wrap by exact W0. replace (n <? w) with true by lia. unfold sse_sra. replace ((0 <=? n) && (n <? promoted w)) with true by lia.
      f_equal. rewrite (sgn_id w (nth i l 0)); [reflexivity|exact W0|]. apply nth_fits; [exact W0|apply V].
    + intros x X. apply wrap_range. lia.
  - unfold mm_slli. rewrite lane_lift1; [|exact W0|exact I|].
    + rewrite Wn, lane_reg by exact W0. replace (n <? w) with true by lia. destruct (H i I) as [X0 X1]. pose proof (nth_fits w l i W0 (proj2 V)) as F. unfold fits in F.
      rewrite sgn_wrap. unfold sse_sl.
      assert (B : nth i l 0 * 2 ^ n < 2 ^ promoted w).
      { destruct W as [-> | W]; [|destruct X1 as [X1|X1]; [lia|]; replace (promoted w) with w by (unfold promoted; destruct (Z.ltb_spec w 32); lia); exact X1].
        change (promoted 16) with 32. assert (2 ^ n <= 2 ^ 15) by (apply Z.pow_le_mono_r; lia). nia. }
      replace ((0 <=? n) && (n <? promoted w) && (0 <=? nth i l 0) && (nth i l 0 * 2 ^ n <? 2 ^ promoted w)) with true by lia.
      f_equal. apply sgn_cong. unfold wrap. rewrite Zmult_mod_idemp_l. reflexivity.
    + intros x X. rewrite Wn. replace (n <? w) with true by lia. apply wrap_range. lia.
Qed.
Print Assumptions C182_shift_partial.

Lemma two_bits x : (Z.to_nat (Z.land x 3) = 0 \/ Z.to_nat (Z.land x 3) = 1 \/ Z.to_nat (Z.land x 3) = 2 \/ Z.to_nat (Z.land x 3) = 3)%nat.
Proof. change 3 with (Z.ones 2). rewrite Z.land_ones by lia. pose proof (Z.mod_pos_bound x (2 ^ 2) ltac:(lia)). lia. Qed.

(** Choosing elements by a number of 8 bits always agrees. *)
Theorem C182_shuffle : forall imm,
  (forall l, vector 32 l -> agrees 32 (p_shuffle4 l l imm) (mm_shuffle_epi32 (reg 32 l) imm)) /\
  (forall l, vector 16 l -> agrees 16 (p_shuffle8 0 l imm) (mm_shufflelo_epi16 (reg 16 l) imm) /\ agrees 16 (p_shuffle8 4 l imm) (mm_shufflehi_epi16 (reg 16 l) imm)).
Proof.
  intros imm. assert (Z0 : Z.shiftr imm 0 = imm) by apply Z.shiftr_0_r.
  pose proof (two_bits imm) as B0. pose proof (two_bits (Z.shiftr imm 2)) as B1. pose proof (two_bits (Z.shiftr imm 4)) as B2. pose proof (two_bits (Z.shiftr imm 6)) as B3.
  split; intros l [L F].
  - destruct l as [|a [|b [|c [|d [|]]]]]; try discriminate. unfold p_shuffle4, mm_shuffle_epi32. cbn [map Z.mul Pos.mul]. rewrite !Z0.
    revert B0 B1 B2 B3. generalize (Z.to_nat (Z.land imm 3)) (Z.to_nat (Z.land (Z.shiftr imm 2) 3)) (Z.to_nat (Z.land (Z.shiftr imm 4) 3)) (Z.to_nat (Z.land (Z.shiftr imm 6) 3)).
    intros i0 i1 i2 i3 B0 B1 B2 B3.
    assert (G : forall i, (i = 0 \/ i = 1 \/ i = 2 \/ i = 3)%nat -> get [a; b; c; d] i = Ok (nth i [a; b; c; d] 0)) by (intros i [-> | [-> | [-> | ->]]]; reflexivity).
    rewrite !G by assumption. cbn [bind]. apply make_agrees; [reflexivity|lia|]. intros i I. unfold elem.
    rewrite lane_four by (apply lane_range; lia). apply lt4 in I. destruct I as [-> | [-> | [-> | ->]]]; cbn [nth]; symmetry; apply elem_reg; auto; lia.
  - destruct l as [|a [|b [|c [|d [|e [|f [|g [|h [|]]]]]]]]]; try discriminate. unfold p_shuffle8, mm_shufflelo_epi16, mm_shufflehi_epi16. cbn [map Z.mul Pos.mul app]. rewrite !Z0.
    revert B0 B1 B2 B3. generalize (Z.to_nat (Z.land imm 3)) (Z.to_nat (Z.land (Z.shiftr imm 2) 3)) (Z.to_nat (Z.land (Z.shiftr imm 4) 3)) (Z.to_nat (Z.land (Z.shiftr imm 6) 3)).
    intros i0 i1 i2 i3 B0 B1 B2 B3.
    assert (R : forall i, 0 <= lane 16 (reg 16 [a; b; c; d; e; f; g; h]) i < 2 ^ 16) by (intros; apply lane_range; lia).
    assert (I8 : forall i, (i < count 16)%nat -> (i = 0 \/ i = 1 \/ i = 2 \/ i = 3 \/ i = 4 \/ i = 5 \/ i = 6 \/ i = 7)%nat) by (change (count 16) with 8%nat; lia).
    assert (E : forall i, sgn 16 (lane 16 (reg 16 [a; b; c; d; e; f; g; h]) i) = nth i [a; b; c; d; e; f; g; h] 0) by (intros; apply elem_reg; [lia|exact F]).
    assert (G : forall i o, (o = 0 \/ o = 4)%nat -> (i = 0 \/ i = 1 \/ i = 2 \/ i = 3)%nat -> get [a; b; c; d; e; f; g; h] (i + o) = Ok (nth (o + i) [a; b; c; d; e; f; g; h] 0))
      by (intros i o [-> | ->] [-> | [-> | [-> | ->]]]; reflexivity).
    rewrite !G by auto. cbn [bind Nat.add set length Nat.ltb Nat.leb upd].
    split; (apply make_agrees; [reflexivity|lia|]); intros i I; unfold elem; (rewrite lane_pack; [|lia|repeat constructor; apply R]); apply I8 in I;
      repeat (destruct I as [-> | I]; [cbn [nth]; symmetry; apply E|]); subst i; cbn [nth]; symmetry; apply E.
Qed.
Print Assumptions C182_shuffle.

(** The statement of the property: every operation of the arrays agrees with its instruction, whatever the operands. *)
Definition portable_spec : Prop := forall w l r n, width w -> vector w l -> vector w r -> 0 <= n < 256 ->
  agrees w (p_add w l r) (vadd w (reg w l) (reg w r)) /\ agrees w (p_sl w l n) (mm_slli w (reg w l) n) /\ agrees w (p_sr w l n) (mm_srli w (reg w l) n).
(** The instruction that chooses doubles (_mm_shuffle_pd): bit 0 chooses from the first, bit 1 from the second register. *)
Definition mm_shuffle_pd (a b imm : Z) : Z := pack 64 [lane 64 a (Z.to_nat (imm mod 2)); lane 64 b (Z.to_nat (imm / 2 mod 2))].

(** An overflow, and shifting a negative number or by the width, is not defined; the instructions wrap around, and return zero.  With the number
    2 the arrays of doubles choose a[1] and b[0], the instruction a[0] and b[1]. *)
Theorem C182_portable_refuted : ~ portable_spec /\
  p_add 32 [2147483647; 0; 0; 0] [1; 0; 0; 0] = UB /\ elem 32 (vadd 32 (reg 32 [2147483647; 0; 0; 0]) (reg 32 [1; 0; 0; 0])) 0 = -2147483648 /\
  p_sl 32 [-1; 0; 0; 0] 1 = UB /\ elem 32 (mm_slli 32 (reg 32 [-1; 0; 0; 0]) 1) 0 = -2 /\
  p_sr 32 [7; 0; 0; 0] 32 = UB /\ mm_srli 32 (reg 32 [7; 0; 0; 0]) 32 = 0 /\
  (forall a0 a1 b0 b1, p_shuffle2 [a0; a1] [b0; b1] 2 = Ok [a1; b0]) /\
  (forall a b, 0 <= a < 2 ^ 128 -> 0 <= b < 2 ^ 128 -> lane 64 (mm_shuffle_pd a b 2) 0 = lane 64 a 0 /\ lane 64 (mm_shuffle_pd a b 2) 1 = lane 64 b 1).
Proof.
  assert (A : p_add 32 [2147483647; 0; 0; 0] [1; 0; 0; 0] = UB) by (vm_compute; reflexivity). split.
  { intros H. destruct (H 32 [2147483647; 0; 0; 0] [1; 0; 0; 0] 0) as [[out [E _]] _].
    - unfold width. lia.
    - split; [reflexivity|]. repeat constructor; vm_compute; congruence.
    - split; [reflexivity|]. repeat constructor; vm_compute; congruence.
    - lia.
    - rewrite A in E. discriminate. }
  split; [exact A|]. do 5 (split; [vm_compute; reflexivity|]). split; [reflexivity|]. intros a b _ _. unfold mm_shuffle_pd. rewrite !lane_two by (apply lane_range; lia). split; reflexivity.
Qed.
Print Assumptions C182_portable_refuted.

Example C182_example : vector 16 [1; -2; 3; -32768; 5; 6; 32767; 8] /\ vector 16 [1; 1; 1; -1; 1; 1; 1; 1] /\
  p_add 16 [1; -2; 3; -32768; 5; 6; 32767; 8] [1; 1; 1; -1; 1; 1; 1; 1] = Ok [2; -1; 4; 32767; 6; 7; -32768; 9] /\
  p_shuffle8 4 [1; -2; 3; -32768; 5; 6; 32767; 8] 27 = Ok [1; -2; 3; -32768; 8; 32767; 6; 5] /\
  p_andnot 32 [5; -1; 0; 7] [-1; -1; -1; 12] = Ok [-6; 0; -1; 8] /\ vector 32 [5; -1; 0; 7] /\
  p_sl 16 [20000; 1; 0; 0; 0; 0; 0; 0] 3 = Ok [28928; 8; 0; 0; 0; 0; 0; 0] /\ p_sra 32 [-8; 9; 0; 0] 1 = Ok [-4; 4; 0; 0] /\ p_sr 32 [-8; 9; 0; 0] 1 = Ok [2147483644; 4; 0; 0].
Proof.
  assert (V : forall w l, length l = count w -> forallb (fun x => (- 2 ^ (w - 1) <=? x) && (x <? 2 ^ (w - 1))) l = true -> vector w l).
  { intros w l L B. split; [exact L|]. apply Forall_forall. intros x X. apply (proj1 (forallb_forall _ _) B) in X. unfold fits. lia. }
  split; [apply V; vm_compute; reflexivity|]. split; [apply V; vm_compute; reflexivity|]. do 3 (split; [vm_compute; reflexivity|]).
  split; [apply V; vm_compute; reflexivity|]. split; [vm_compute; reflexivity|]. split; vm_compute; reflexivity.
Qed.
