(* Property C26: DynArray<bool> behaves as a list of booleans (except Insert far from the end). *)
From Coq Require Import List ZArith Bool Arith Lia.
From Coq Require Import ZifyBool ZifyNat.
From Verif Require Import Common Growth BitUtil BitUtilSpec BitCountProofs BitStreamSpec BitStreamProofs DynArrayBool.
Import ListNotations.

(* ---- specification ---- *)
Definition contents (s : barr) : list bool := firstn (blen s) (mem_bits (bytes_ s)).

Definition effect (o : b_op) (l : list bool) : list bool :=
  match o with
  | BAdd v => l ++ [v]
  | BInsert v i => firstn i l ++ [v] ++ skipn i l
  | BRemove i => firstn i l ++ skipn (S i) l
  | BRemoveLast => removelast l
  | BPut i v => firstn i l ++ [v] ++ skipn (S i) l
  | BSetLength n => firstn n (l ++ repeat false (n - length l))
  end.
Definition valid (o : b_op) (l : list bool) : Prop :=
  match o with
  | BInsert _ i => i <= length l
  | BRemove i | BPut i _ => i < length l
  | BRemoveLast => l <> []
  | _ => True
  end.
(* the insertions the code gets right: the insertion point is in one of the last two bytes *)
Definition near_end (o : b_op) (l : list bool) : Prop :=
  match o with BInsert _ i => length l / 8 <= i / 8 + 1 | _ => True end.
Definition ones (l : list bool) : nat := length (filter (fun b => b) l).

(* arrays obtained by valid calls, with arbitrary bytes in freshly allocated storage *)
Definition junk_ok (fresh : nat -> list Z) : Prop := forall n, length (fresh n) = n /\ bytes (fresh n).
Inductive reachable : barr -> Prop :=
| r_new : reachable barr0
| r_step s o s' fresh : junk_ok fresh -> reachable s -> valid o (contents s) -> near_end o (contents s) ->
    b_step fresh s o = Ok s' -> reachable s'.

(* ---- bytes ---- *)
Lemma all_bytes (P : Z -> bool) : forallb (fun n => P (Z.of_nat n)) (seq 0 256) = true -> forall b, byte b -> P b = true.
Proof.
  intros H b B. rewrite forallb_forall in H. specialize (H (Z.to_nat b)).
  rewrite Z2Nat.id in H by (red in B; lia). apply H, in_seq. red in B. lia.
Qed.
Lemma all_bytes8 (P : Z -> nat -> bool) : forallb (fun n => forallb (P (Z.of_nat n)) (seq 0 8)) (seq 0 256) = true ->
  forall b o, byte b -> o < 8 -> P b o = true.
Proof.
  intros H b o B O. pose proof (all_bytes (fun z => forallb (P z) (seq 0 8)) H b B) as H1. cbv beta in H1.
  rewrite forallb_forall in H1. apply H1, in_seq. lia.
Qed.
Definition beq (a b : list bool) : bool := if list_eq_dec Bool.bool_dec a b then true else false.
Lemma beq_true a b : beq a b = true -> a = b.
Proof. unfold beq. destruct (list_eq_dec _ a b); congruence. Qed.

Definition maskb (o : nat) : Z := wrap 8 (Z.shiftl 255 (Z.of_nat o)).
Lemma del_first b o : byte b -> o < 8 ->
  bits 8 (wrap 8 (Z.lor (Z.land (Z.shiftr b 1) (maskb o)) (Z.land b (Z.lnot (maskb o))))) =
  firstn o (bits 8 b) ++ skipn (S o) (bits 8 b) ++ [false].
Proof.
  intros B O. apply beq_true.
  apply (all_bytes8 (fun b o => beq (bits 8 (wrap 8 (Z.lor (Z.land (Z.shiftr b 1) (maskb o)) (Z.land b (Z.lnot (maskb o))))))
    (firstn o (bits 8 b) ++ skipn (S o) (bits 8 b) ++ [false]))); [vm_compute; reflexivity|exact B|exact O].
Qed.
Lemma ins_first b o : byte b -> o < 8 ->
  bits 8 (wrap 8 (Z.lor (Z.shiftl (Z.land b (maskb o)) 1) (Z.land b (Z.lnot (maskb o))))) =
  firstn o (bits 8 b) ++ [false] ++ firstn (7 - o) (skipn o (bits 8 b)).
Proof.
  intros B O. apply beq_true.
  apply (all_bytes8 (fun b o => beq (bits 8 (wrap 8 (Z.lor (Z.shiftl (Z.land b (maskb o)) 1) (Z.land b (Z.lnot (maskb o))))))
    (firstn o (bits 8 b) ++ [false] ++ firstn (7 - o) (skipn o (bits 8 b))))); [vm_compute; reflexivity|exact B|exact O].
Qed.
Lemma setbit_bits b o (v : bool) : byte b -> o < 8 ->
  bits 8 (wrap 8 (Z.lor (Z.land b (Z.lnot (Z.shiftl 1 (Z.of_nat o)))) (Z.land (if v then (-1)%Z else 0%Z) (Z.shiftl 1 (Z.of_nat o))))) =
  upd (bits 8 b) o v.
Proof.
  intros B O. apply beq_true.
  destruct v.
  - apply (all_bytes8 (fun b o => beq (bits 8 (wrap 8 (Z.lor (Z.land b (Z.lnot (Z.shiftl 1 (Z.of_nat o)))) (Z.land (-1) (Z.shiftl 1 (Z.of_nat o))))))
    (upd (bits 8 b) o true))); [vm_compute; reflexivity|exact B|exact O].
  - apply (all_bytes8 (fun b o => beq (bits 8 (wrap 8 (Z.lor (Z.land b (Z.lnot (Z.shiftl 1 (Z.of_nat o)))) (Z.land 0 (Z.shiftl 1 (Z.of_nat o))))))
    (upd (bits 8 b) o false))); [vm_compute; reflexivity|exact B|exact O].
Qed.
Lemma shr1_bits b : byte b -> bits 8 (Z.shiftr b 1) = skipn 1 (bits 8 b) ++ [false] /\ byte (Z.shiftr b 1).
Proof.
  intros B. split; [apply beq_true; apply (all_bytes (fun b => beq (bits 8 (Z.shiftr b 1)) (skipn 1 (bits 8 b) ++ [false]))); [vm_compute; reflexivity|exact B]|].
  red in B |- *. rewrite Z.shiftr_div_pow2 by lia. change (2 ^ 1)%Z with 2%Z. lia.
Qed.
(* the carry between neighbouring bytes *)
Lemma testbit_bits b j : Z.testbit b (Z.of_nat j) = nth j (bits (S j) b) false.
Proof. symmetry. apply nth_error_nth. rewrite nth_error_bits. replace (j <? S j) with true by lia. reflexivity. Qed.
Lemma bits8 x : bits 8 x = [Z.testbit x 0; Z.testbit x 1; Z.testbit x 2; Z.testbit x 3; Z.testbit x 4; Z.testbit x 5; Z.testbit x 6; Z.testbit x 7].
Proof. reflexivity. Qed.
Lemma del_carry a b : byte a -> byte b ->
  bits 8 (wrap 8 (Z.lor (Z.land a (Z.shiftr 255 1)) (Z.shiftl (Z.land b 1) 7))) = firstn 7 (bits 8 a) ++ firstn 1 (bits 8 b).
Proof.
  intros A B. change (Z.shiftr 255 1) with 127%Z. rewrite !bits8. cbn [firstn app].
  rewrite !testbit_wrap8, !Z.lor_spec, !Z.land_spec, !Z.shiftl_spec, !Z.land_spec by lia.
  cbn [Z.ltb Z.compare Pos.compare Pos.compare_cont andb].
  repeat match goal with |- context [Z.testbit ?x ?y] => 
    match x with 127%Z => let r := eval vm_compute in (Z.testbit x y) in change (Z.testbit x y) with r
    | 1%Z => let r := eval vm_compute in (Z.testbit x y) in change (Z.testbit x y) with r end end.
  change (7 - 7)%Z with 0%Z.
  repeat rewrite ?andb_true_r, ?andb_false_r, ?orb_false_r, ?orb_false_l.
  reflexivity.
Qed.
Lemma ins_carry s b : byte s -> byte b ->
  bits 8 (wrap 8 (Z.lor (Z.shiftr s 7) (Z.land (Z.shiftl b 1) 254))) = skipn 7 (bits 8 s) ++ firstn 7 (bits 8 b).
Proof.
  intros A B. rewrite !bits8. cbn [firstn skipn app].
  rewrite !testbit_wrap8, !Z.lor_spec, !Z.land_spec by lia.
  cbn [Z.ltb Z.compare Pos.compare Pos.compare_cont andb].
  rewrite !Z.shiftr_spec, !Z.shiftl_spec by lia.
  repeat match goal with |- context [Z.testbit ?x ?y] => 
    match x with 254%Z => let r := eval vm_compute in (Z.testbit x y) in change (Z.testbit x y) with r end end.
  rewrite (byte_testbit_high s (1 + 7)), (byte_testbit_high s (2 + 7)), (byte_testbit_high s (3 + 7)), (byte_testbit_high s (4 + 7)),
    (byte_testbit_high s (5 + 7)), (byte_testbit_high s (6 + 7)), (byte_testbit_high s (7 + 7)) by (auto; lia).
  repeat rewrite ?andb_true_r, ?andb_false_r, ?orb_false_r, ?orb_false_l. reflexivity.
Qed.
Lemma mask_start b o : byte b -> o < 8 ->
  ones (bits 8 (Z.land b (wrap 8 (Z.lnot (Z.shiftl 1 (Z.of_nat o) - 1))))) = ones (skipn o (bits 8 b)).
Proof.
  intros B O. apply Nat.eqb_eq.
  apply (all_bytes8 (fun b o => ones (bits 8 (Z.land b (wrap 8 (Z.lnot (Z.shiftl 1 (Z.of_nat o) - 1))))) =? ones (skipn o (bits 8 b)))); [vm_compute; reflexivity|exact B|exact O].
Qed.
Lemma mask_end b o : byte b -> o < 8 ->
  ones (bits 8 (Z.land b (Z.shiftr 255 (Z.of_nat o)))) = ones (firstn (8 - o) (bits 8 b)).
Proof.
  intros B O. apply Nat.eqb_eq.
  apply (all_bytes8 (fun b o => ones (bits 8 (Z.land b (Z.shiftr 255 (Z.of_nat o)))) =? ones (firstn (8 - o) (bits 8 b)))); [vm_compute; reflexivity|exact B|exact O].
Qed.
Lemma mask_start_bits b o : byte b -> o < 8 ->
  bits 8 (Z.land b (wrap 8 (Z.lnot (Z.shiftl 1 (Z.of_nat o) - 1)))) = repeat false o ++ skipn o (bits 8 b).
Proof.
  intros B O. apply beq_true.
  apply (all_bytes8 (fun b o => beq (bits 8 (Z.land b (wrap 8 (Z.lnot (Z.shiftl 1 (Z.of_nat o) - 1))))) (repeat false o ++ skipn o (bits 8 b)))); [vm_compute; reflexivity|exact B|exact O].
Qed.
Lemma byte_land b m : byte b -> byte (Z.land b m).
Proof.
  intros B. assert (E : Z.land b m = wrap 8 (Z.land b m)); [|rewrite E; apply byte_wrap].
  apply Z.bits_inj'. intros j J. rewrite testbit_wrap8, Z.land_spec by lia.
  destruct (Z.ltb_spec j 8); [reflexivity|]. rewrite byte_testbit_high; auto.
Qed.

Lemma popcount_bits w v : popcount w v = Z.of_nat (ones (bits w v)).
Proof.
  unfold popcount, ones, bits. f_equal.
  induction (seq 0 w) as [|x l IH]; [reflexivity|]. cbn [filter map]. destruct (Z.testbit v (Z.of_nat x)); cbn [length]; lia.
Qed.
Lemma BitCount8 b : byte b -> BitCount 8 b = Z.of_nat (ones (bits 8 b)).
Proof. intros B. rewrite <- popcount_bits. apply (BitCount_ok 1 b); [lia|]. exact B. Qed.

(* ---- memory ---- *)
Lemma split_at {A} (l : list A) n : n < length l -> exists pre x post, l = pre ++ x :: post /\ length pre = n.
Proof.
  intros H. destruct (nth_error_ex l n H) as (x & E). exists (firstn n l), x, (skipn (S n) l).
  split; [|rewrite firstn_length; lia]. rewrite <- (firstn_skipn n l) at 1. f_equal. now apply skipn_cons.
Qed.
Lemma get_mid' {A} (pre : list A) x t n : length pre = n -> get (pre ++ x :: t) n = Ok x.
Proof. intros <-. apply get_mid. Qed.
Lemma set_mid' {A} (pre : list A) x y t n : length pre = n -> set (pre ++ x :: t) n y = Ok (pre ++ y :: t).
Proof. intros <-. apply set_mid. Qed.
Lemma bytes_mid pre x post : bytes (pre ++ x :: post) <-> bytes pre /\ byte x /\ bytes post.
Proof. unfold bytes. rewrite Forall_app. split; [intros (A & B); inversion B; auto|intros (A & B & C); auto]. Qed.
Lemma mem_bits_cons x l : mem_bits (x :: l) = bits 8 x ++ mem_bits l.
Proof. reflexivity. Qed.

Lemma setbit_ok bs i v : bytes bs -> i < 8 * length bs ->
  exists bs', setbit bs i v = Ok bs' /\ bytes bs' /\ length bs' = length bs /\ mem_bits bs' = upd (mem_bits bs) i v.
Proof.
  intros B H. destruct (split_at bs (i / 8)) as (pre & x & post & -> & L); [lia|].
  unfold setbit. rewrite (get_mid' _ _ _ _ L). cbn [bind]. rewrite (set_mid' _ _ _ _ _ L).
  apply bytes_mid in B as (B1 & B2 & B3).
  eexists. split; [reflexivity|]. split; [apply bytes_mid; auto using byte_wrap|].
  split; [now rewrite !app_length|].
  rewrite !mem_bits_app, !mem_bits_cons, setbit_bits by (auto; lia).
  rewrite upd_app_r by (rewrite mem_bits_length; lia). f_equal.
  rewrite upd_app_l by (rewrite mem_bits_length, bits_length; lia). f_equal. f_equal. rewrite mem_bits_length. lia.
Qed.

(* n consecutive bytes from pre on, walked by delete_loop *)
Lemma delete_loop_ok : forall mid pre x post i, bytes (pre ++ x :: mid ++ post) -> i = S (length pre) ->
  exists x' mid' b, delete_loop (pre ++ x :: mid ++ post) i (length mid) = Ok (pre ++ x' :: mid' ++ post) /\
    bytes (x' :: mid') /\ length mid' = length mid /\ mem_bits (x' :: mid') = firstn 7 (bits 8 x) ++ mem_bits mid ++ [b].
Proof.
  induction mid as [|y mid IH]; intros pre x post i B ->.
  - exists x, [], (Z.testbit x 7). cbn [length delete_loop]. split; [reflexivity|].
    apply bytes_mid in B as (_ & B & _). split; [constructor; auto; constructor|]. split; [reflexivity|]. reflexivity.
  - cbn [length delete_loop]. replace (S (length pre) - 1) with (length pre) by lia.
    rewrite get_mid. cbn [bind]. change ((y :: mid) ++ post) with (y :: mid ++ post) in *.
    replace (pre ++ x :: y :: mid ++ post) with ((pre ++ [x]) ++ y :: mid ++ post) by now rewrite <- app_assoc.
    rewrite (get_mid' (pre ++ [x])) by (rewrite app_length; cbn [length]; lia). cbn [bind].
    rewrite <- app_assoc. cbn [app]. rewrite set_mid. cbn [bind].
    set (x1 := wrap 8 _).
    replace (pre ++ x1 :: y :: mid ++ post) with ((pre ++ [x1]) ++ y :: mid ++ post) by now rewrite <- app_assoc.
    rewrite (set_mid' (pre ++ [x1])) by (rewrite app_length; cbn [length]; lia). cbn [bind].
    apply bytes_mid in B as (B1 & B2 & B3). inversion B3 as [|? ? B4 B5]; subst.
    destruct (shr1_bits y B4) as (Y1 & Y2).
    destruct (IH (pre ++ [x1]) (Z.shiftr y 1) post (S (S (length pre)))) as (x' & mid' & b & E & E1 & E2 & E3).
    { apply bytes_mid. split; [apply Forall_app; split; [exact B1|constructor; [apply byte_wrap|constructor]]|]. split; [auto|exact B5]. }
    { rewrite app_length. cbn. lia. }
    rewrite E. exists x1, (x' :: mid'), b. rewrite <- app_assoc. split; [reflexivity|].
    split; [constructor; [apply byte_wrap|exact E1]|]. split; [cbn; lia|].
    rewrite mem_bits_cons, E3, Y1. unfold x1. rewrite del_carry by auto. rewrite mem_bits_cons.
    rewrite firstn_app, (firstn_all2 (n := 7) (skipn 1 (bits 8 y))) by (rewrite skipn_length, bits_length; lia).
    rewrite skipn_length, bits_length. cbn [Nat.sub firstn]. rewrite app_nil_r, <- !app_assoc. f_equal.
Qed.

Lemma mem_prefix {A} (pre : list A) i l1 l2 : length pre <= i -> firstn i (pre ++ l1) ++ skipn (S i) (pre ++ l2) =
  pre ++ firstn (i - length pre) l1 ++ skipn (S i - length pre) l2.
Proof.
  intros H. rewrite firstn_app, skipn_app. rewrite (firstn_all2 (n := i) pre) by lia. rewrite (skipn_all2 (n := S i) pre) by lia.
  now rewrite <- app_assoc.
Qed.

Definition cap (s : barr) : nat := 8 * length (bytes_ s).
Definition inv (s : barr) : Prop := bytes (bytes_ s) /\ blen s <= cap s.

Lemma chunks_spec n : n <= 8 * chunks n < n + 8.
Proof. unfold chunks. lia. Qed.

Lemma shiftDelete_ok s i : inv s -> i < blen s ->
  exists bs, shiftDelete s i = Ok bs /\ bytes bs /\ length bs = length (bytes_ s) /\
    firstn (blen s - 1) (mem_bits bs) = firstn i (contents s) ++ skipn (S i) (contents s).
Proof.
  intros (B & L) H. unfold cap in L. pose proof (chunks_spec (blen s)) as HC.
  unfold shiftDelete. fold (maskb (i mod 8)).
  destruct (split_at (bytes_ s) (i / 8)) as (pre & x & post0 & E & LP); [lia|].
  unfold contents. rewrite E in *. rewrite (get_mid' _ _ _ _ LP). cbn [bind]. rewrite (set_mid' _ _ _ _ _ LP). cbn [bind].
  apply bytes_mid in B as (B1 & B2 & B3). rewrite app_length in L. cbn [length] in L.
  set (k := chunks (blen s) - (i / 8 + 1)).
  assert (Hk : k <= length post0) by (subst k; lia).
  rewrite <- (firstn_skipn k post0) in B3 |- *. set (mid := firstn k post0) in *. set (post := skipn k post0) in *.
  assert (LM : length mid = k) by (subst mid; rewrite firstn_length; lia).
  assert (LT : length post0 = length mid + length post) by (subst mid post; rewrite <- app_length; now rewrite firstn_skipn).
  set (x1 := wrap 8 _).
  destruct (delete_loop_ok mid pre x1 post (i / 8 + 1)) as (x' & mid' & b & R & R1 & R2 & R3).
  { apply bytes_mid. split; [exact B1|]. split; [apply byte_wrap|exact B3]. }
  { lia. }
  rewrite LM in R. rewrite R. clear R. eexists. split; [reflexivity|].
  apply Forall_app in B3 as (B3 & B4). inversion R1; subst.
  split. { apply bytes_mid. split; [auto|]. split; [auto|]. apply Forall_app. auto. }
  split. { rewrite !app_length. cbn [length]. rewrite !app_length. lia. }
  assert (X1 : firstn 7 (bits 8 x1) = firstn (i mod 8) (bits 8 x) ++ skipn (S (i mod 8)) (bits 8 x)).
  { subst x1. rewrite del_first by (auto; lia). rewrite app_assoc, firstn_app, firstn_all2.
    - rewrite app_length, firstn_length, skipn_length, bits_length. replace (7 - _) with 0 by lia. now rewrite app_nil_r.
    - rewrite app_length, firstn_length, skipn_length, bits_length. lia. }
  rewrite X1 in R3. clear X1 x1.
  change (x' :: mid' ++ post) with ((x' :: mid') ++ post).
  rewrite !mem_bits_app, R3. rewrite mem_bits_cons, !mem_bits_app.
  set (P := mem_bits pre). assert (LPB : length P = 8 * (i / 8)) by (subst P; rewrite mem_bits_length; lia).
  set (M := mem_bits mid). assert (LMB : length M = 8 * k) by (subst M; rewrite mem_bits_length; lia).
  set (Q := mem_bits post). pose proof (bits_length 8 x) as LX. set (X := bits 8 x) in *. clearbody X P M Q.
  set (o := i mod 8) in *. assert (O : i = 8 * (i / 8) + o) by (subst o; lia).
  (* the whole bytes as one list W of bits *)
  assert (W : forall n, n <= length P + length X + length M -> firstn n (P ++ X ++ M ++ Q) = firstn n (P ++ X ++ M)).
  { intros n Hn. rewrite !app_assoc. rewrite (firstn_app n ((P ++ X) ++ M)). replace (n - _) with 0 by (rewrite !app_length; lia). cbn [firstn]. apply app_nil_r. }
  rewrite W by lia. clear W.
  assert (G : P ++ (((firstn o X ++ skipn (S o) X) ++ M ++ [b]) ++ Q) = (firstn i (P ++ X ++ M) ++ skipn (S i) (P ++ X ++ M)) ++ [b] ++ Q).
  { rewrite mem_prefix by lia. rewrite (firstn_app (i - length P)), (skipn_app (S i - length P)).
    replace (i - length P) with o by lia. replace (S i - length P) with (S o) by lia.
    replace (o - length X) with 0 by lia. replace (S o - length X) with 0 by lia. cbn [firstn skipn]. rewrite app_nil_r, <- !app_assoc. reflexivity. }
  rewrite G. clear G. set (W := P ++ X ++ M).
  assert (LW : blen s <= length W) by (subst W; rewrite !app_length; subst k; lia).
  clearbody W.
  rewrite firstn_app. replace (blen s - 1 - length (firstn i W ++ skipn (S i) W)) with 0 by (rewrite app_length, firstn_length, skipn_length; lia).
  cbn [firstn]. rewrite app_nil_r.
  apply nth_error_ext_lt.
  - rewrite !app_length, !firstn_length, !skipn_length, !app_length, !firstn_length, !skipn_length. lia.
  - intros j Hj. assert (j < blen s - 1) by (rewrite firstn_length in Hj; lia).
    rewrite nth_error_firstn. replace (j <? blen s - 1) with true by lia.
    destruct (Nat.lt_ge_cases j i).
    + rewrite !nth_error_app1 by (rewrite ?firstn_length; lia). rewrite !nth_error_firstn.
      replace (j <? i) with true by lia. replace (j <? blen s) with true by lia. reflexivity.
    + rewrite !nth_error_app2 by (rewrite ?firstn_length; lia). rewrite !firstn_length, !nth_error_skipn, nth_error_firstn.
      replace (S i + (j - Nat.min i (Nat.min (blen s) (length W))) <? blen s) with true by lia. f_equal. lia.
Qed.

Section Steps.
Context (fresh : nat -> list Z) (FR : junk_ok fresh).

Lemma setcap_ok bs c : bytes bs -> length bs <= c ->
  bytes (bsetCapacity fresh bs c) /\ length (bsetCapacity fresh bs c) = c /\
  (forall n, n <= 8 * length bs -> firstn n (mem_bits (bsetCapacity fresh bs c)) = firstn n (mem_bits bs)).
Proof.
  intros B H. unfold bsetCapacity. rewrite firstn_all2 by lia. destruct (FR (c - length bs)) as (F1 & F2).
  split; [apply Forall_app; auto|]. split; [rewrite app_length; lia|].
  intros n Hn. rewrite mem_bits_app, firstn_app, mem_bits_length. replace (n - 8 * length bs) with 0 by lia. apply app_nil_r.
Qed.
Lemma checkSize_ok s : inv s -> inv (bcheckSize fresh s) /\ blen (bcheckSize fresh s) = blen s /\
  blen s < cap (bcheckSize fresh s) /\ contents (bcheckSize fresh s) = contents s.
Proof.
  intros (B & L). unfold bcheckSize. destruct (Nat.leb_spec (length (bytes_ s) * 8) (blen s)).
  - pose proof (fbnext_nat_gt (length (bytes_ s))) as G. destruct (setcap_ok (bytes_ s) _ B (Nat.lt_le_incl _ _ G)) as (S1 & S2 & S3).
    unfold inv, cap, contents in *. cbn [bytes_ blen]. rewrite S2. repeat split; auto; try lia.
  - unfold inv, cap in *. repeat split; auto; lia.
Qed.

Lemma contents_length s : inv s -> length (contents s) = blen s.
Proof. intros (B & L). unfold contents, cap in *. rewrite firstn_length, mem_bits_length. lia. Qed.

Definition done (s : barr) (o : b_op) : Prop := exists s', b_step fresh s o = Ok s' /\ inv s' /\ contents s' = effect o (contents s).

Lemma firstn_upd_lt {A} (l : list A) n i v : i < n -> firstn n (upd l i v) = upd (firstn n l) i v.
Proof.
  revert l i. induction n as [|n IH]; intros l i H; [lia|]. destruct l as [|a l]; [now destruct i|].
  destruct i; cbn; [reflexivity|]. f_equal. apply IH. lia.
Qed.

Lemma put_ok s i v : inv s -> i < blen s -> done s (BPut i v).
Proof.
  intros I H. pose proof (contents_length s I) as CL. destruct I as (B & L). unfold done. cbn [b_step effect]. unfold bPut. replace (i <? blen s) with true by lia.
  unfold cap in L. destruct (setbit_ok (bytes_ s) i v B) as (bs & E & E1 & E2 & E3); [lia|]. rewrite E. cbn [bind].
  eexists. split; [reflexivity|]. unfold inv, cap, contents. cbn [bytes_ blen]. rewrite E2. split; [split; [auto|lia]|].
  rewrite E3, firstn_upd_lt by lia. apply upd_split. unfold contents in CL. lia.
Qed.
Lemma add_ok s v : inv s -> done s (BAdd v).
Proof.
  intros I. destruct (checkSize_ok s I) as ((B & L) & E1 & E2 & E3). unfold done. cbn [b_step effect]. unfold bAdd.
  rewrite <- E3. set (s1 := bcheckSize fresh s) in *. unfold cap in *.
  destruct (setbit_ok (bytes_ s1) (blen s1) v B) as (bs & E & F1 & F2 & F3); [lia|]. rewrite E. cbn [bind].
  eexists. split; [reflexivity|]. unfold inv, cap, contents. cbn [bytes_ blen]. rewrite F2. split; [split; [auto|lia]|].
  rewrite F3. replace (blen s1 + 1) with (S (blen s1)) by lia.
  rewrite (firstn_snoc _ (blen s1) v); [|rewrite nth_error_upd_eq; [reflexivity|rewrite mem_bits_length; lia]].
  f_equal. apply firstn_upd_ge. lia.
Qed.
Lemma removelast_ok s : inv s -> 0 < blen s -> done s BRemoveLast.
Proof.
  intros I H. pose proof (contents_length s I) as CL. unfold done. cbn [b_step effect]. unfold bRemoveLast. replace (blen s =? 0) with false by lia.
  eexists. split; [reflexivity|]. destruct I as (B & L). unfold inv, cap, contents in *. cbn [bytes_ blen]. split; [split; [auto|lia]|].
  rewrite removelast_firstn_len, CL, firstn_firstn. f_equal. lia.
Qed.
Lemma remove_ok s i : inv s -> i < blen s -> done s (BRemove i).
Proof.
  intros I H. destruct (shiftDelete_ok s i I H) as (bs & E & E1 & E2 & E3). unfold done. cbn [b_step effect]. unfold bRemove.
  replace (i <? blen s) with true by lia. cbn [negb]. rewrite E. cbn [bind].
  eexists. split; [reflexivity|]. destruct I as (B & L). unfold inv, cap in *. cbn [bytes_ blen]. split; [split; [auto|lia]|]. exact E3.
Qed.

Lemma clear_ok : forall n bs i, bytes bs -> i + n <= 8 * length bs ->
  exists bs', clear_bits bs i n = Ok bs' /\ bytes bs' /\ length bs' = length bs /\
    firstn (i + n) (mem_bits bs') = firstn i (mem_bits bs) ++ repeat false n.
Proof.
  induction n as [|n IH]; intros bs i B H.
  - exists bs. cbn [repeat clear_bits]. rewrite app_nil_r, Nat.add_0_r. auto.
  - cbn [clear_bits]. destruct (setbit_ok bs i false B) as (b1 & E & E1 & E2 & E3); [lia|]. rewrite E. cbn [bind].
    destruct (IH b1 (S i) E1) as (b2 & F & F1 & F2 & F3); [lia|]. rewrite F. exists b2. repeat split; auto; [lia|].
    replace (i + S n) with (S i + n) by lia. rewrite F3, E3.
    rewrite (firstn_snoc _ i false) by (rewrite nth_error_upd_eq; [reflexivity|rewrite mem_bits_length; lia]).
    rewrite firstn_upd_ge by lia. now rewrite <- app_assoc.
Qed.
Lemma setlength_ok s n : inv s -> done s (BSetLength n).
Proof.
  intros I. pose proof (contents_length s I) as CL. destruct I as (B & L). unfold done. cbn [b_step effect]. unfold bSetLength. unfold cap in L.
  set (bs := if Nat.ltb _ _ then _ else _).
  assert (S : bytes bs /\ length (bytes_ s) <= length bs /\ n <= 8 * length bs /\ firstn (blen s) (mem_bits bs) = contents s).
  { subst bs. pose proof (chunks_spec n). destruct (Nat.ltb_spec (length (bytes_ s) * 8) n); [|repeat split; auto; lia].
    destruct (setcap_ok (bytes_ s) (chunks n) B) as (S1 & S2 & S3); [lia|]. rewrite S2. repeat split; auto; try lia. apply S3. lia. }
  destruct S as (S1 & S2 & S3 & S4). clearbody bs.
  destruct (Nat.le_gt_cases n (blen s)).
  - replace (n - blen s) with 0 by lia. cbn [clear_bits bind]. eexists. split; [reflexivity|].
    unfold inv, cap, contents. cbn [bytes_ blen]. split; [split; [auto|lia]|].
    fold (contents s). rewrite CL. replace (n - blen s) with 0 by lia. cbn [repeat]. rewrite app_nil_r, <- S4, firstn_firstn. f_equal. lia.
  - destruct (clear_ok (n - blen s) bs (blen s) S1) as (b2 & F & F1 & F2 & F3); [lia|]. rewrite F. cbn [bind]. eexists. split; [reflexivity|].
    replace (blen s + (n - blen s)) with n in F3 by lia.
    unfold inv, cap, contents. cbn [bytes_ blen]. split; [split; [auto|lia]|]. fold (contents s). rewrite CL, F3, S4.
    symmetry. apply firstn_all2. rewrite app_length, repeat_length, CL. lia.
Qed.

Lemma insert_ok s v i : inv s -> i <= blen s -> blen s / 8 <= i / 8 + 1 -> done s (BInsert v i).
Proof.
  intros I H HN. unfold done. cbn [b_step effect]. unfold bInsert. replace (i <=? blen s) with true by lia. cbn [negb].
  unfold shiftInsert. destruct (checkSize_ok s I) as (I1 & E1 & E2 & E3). rewrite <- E3. set (s1 := bcheckSize fresh s) in *. clearbody s1.
  rewrite <- E1 in H, HN, E2. cbv zeta. clear E1 E3 I s. rename s1 into s.
  destruct I1 as (B & L). unfold cap in *. fold (maskb (i mod 8)).
  pose proof (chunks_spec (blen s + 1)) as HC. set (len := chunks (blen s + 1)) in *. assert (HL : len = blen s / 8 + 1) by lia. clearbody len.
  destruct (split_at (bytes_ s) (i / 8)) as (pre & x & post & E & LP); [lia|].
  unfold contents. rewrite E in *. rewrite (get_mid' _ _ _ _ LP). cbn [bind]. rewrite (set_mid' _ _ _ _ _ LP). cbn [bind].
  apply bytes_mid in B as (B1 & B2 & B3). rewrite app_length in L, E2. cbn [length] in L, E2.
  set (x1 := wrap 8 _). set (o := i mod 8) in *. assert (O : i = 8 * (i / 8) + o) by (subst o; lia).
  assert (X1 : bits 8 x1 = firstn o (bits 8 x) ++ [false] ++ firstn (7 - o) (skipn o (bits 8 x))) by (apply ins_first; auto; subst o; lia).
  assert (BX1 : byte x1) by apply byte_wrap. clearbody x1. pose proof (bits_length 8 x) as LX.
  (* memory after the shift: everything up to the new length is shifted *)
  assert (G : exists bs2, insert_loop (pre ++ x1 :: post) x (i / 8 + 1) (len - (i / 8 + 1)) = Ok bs2 /\ bytes bs2 /\
     length bs2 = length (bytes_ s) /\
     firstn (blen s + 1) (mem_bits bs2) = firstn i (mem_bits (pre ++ x :: post)) ++ [false] ++ firstn (blen s - i) (skipn i (mem_bits (pre ++ x :: post)))).
  { assert (P1 : firstn i (mem_bits (pre ++ x :: post)) = mem_bits pre ++ firstn o (bits 8 x)).
    { rewrite mem_bits_app, mem_bits_cons, firstn_app, mem_bits_length. rewrite firstn_all2 by (rewrite mem_bits_length; lia). f_equal.
      rewrite firstn_app. replace (i - 8 * length pre) with o by lia. replace (o - length (bits 8 x)) with 0 by (subst o; lia). apply app_nil_r. }
    assert (P2 : skipn i (mem_bits (pre ++ x :: post)) = skipn o (bits 8 x) ++ mem_bits post).
    { rewrite mem_bits_app, mem_bits_cons, skipn_app, mem_bits_length. rewrite skipn_all2 by (rewrite mem_bits_length; lia). cbn [app].
      rewrite skipn_app. replace (i - 8 * length pre) with o by lia. replace (o - length (bits 8 x)) with 0 by (subst o; lia). reflexivity. }
    rewrite P1, P2. rewrite E, app_length. cbn [length].
    destruct (Nat.eq_dec len (i / 8 + 1)) as [K|K].
    - replace (len - (i / 8 + 1)) with 0 by lia. cbn [insert_loop]. eexists. split; [reflexivity|].
      split; [apply bytes_mid; auto|]. split; [rewrite app_length; reflexivity|].
      rewrite mem_bits_app, mem_bits_cons, X1, <- !app_assoc. cbn [app].
      rewrite firstn_app, firstn_all2 by (rewrite mem_bits_length; lia). f_equal. rewrite mem_bits_length.
      rewrite firstn_app, firstn_all2 by (rewrite firstn_length; lia). f_equal. rewrite firstn_length, LX.
      replace (blen s + 1 - 8 * length pre - Nat.min o 8) with (S (blen s - i)) by (subst o; lia). cbn [firstn]. f_equal.
      rewrite firstn_app, firstn_firstn. rewrite firstn_length, skipn_length, LX.
      rewrite (firstn_app (blen s - i)), skipn_length, LX.
      replace (blen s - i - (8 - o)) with 0 by (subst o; lia). replace (blen s - i - Nat.min (7 - o) (8 - o)) with 0 by (subst o; lia).
      cbn [firstn]. f_equal. f_equal. subst o; lia.
    - replace (len - (i / 8 + 1)) with 1 by lia. cbn [insert_loop].
      destruct post as [|y post]; [cbn [length] in *; lia|]. pose proof (Forall_inv B3) as B4. pose proof (Forall_inv_tail B3) as B5.
      replace (pre ++ x1 :: y :: post) with ((pre ++ [x1]) ++ y :: post) by now rewrite <- app_assoc.
      rewrite (get_mid' (pre ++ [x1])) by (rewrite app_length; cbn [length]; lia). cbn [bind].
      rewrite (set_mid' (pre ++ [x1])) by (rewrite app_length; cbn [length]; lia). cbn [bind].
      eexists. split; [reflexivity|]. split.
      { rewrite <- app_assoc. apply bytes_mid. split; auto. split; auto. constructor; [apply byte_wrap|exact B5]. }
      split; [rewrite <- app_assoc, app_length; reflexivity|].
      rewrite <- app_assoc. cbn [app]. rewrite mem_bits_app, !mem_bits_cons, X1, ins_carry, <- !app_assoc by auto. cbn [app].
      rewrite firstn_app, firstn_all2 by (rewrite mem_bits_length; lia). f_equal. rewrite mem_bits_length.
      rewrite firstn_app, firstn_all2 by (rewrite firstn_length; lia). f_equal. rewrite firstn_length, LX.
      replace (blen s + 1 - 8 * length pre - Nat.min o 8) with (S (blen s - i)) by (subst o; lia). rewrite firstn_cons. f_equal.
      assert (J : firstn (7 - o) (skipn o (bits 8 x)) ++ skipn 7 (bits 8 x) = skipn o (bits 8 x)).
      { rewrite <- (firstn_skipn (7 - o) (skipn o (bits 8 x))) at 2. f_equal. rewrite skipn_skipn'. f_equal. subst o; lia. }
      rewrite (app_assoc (firstn (7 - o) _)), J.
      rewrite !firstn_app. f_equal. rewrite skipn_length, LX, firstn_firstn, firstn_length, !bits_length.
      assert (blen s - i - (8 - o) <= 7) by (subst o; lia).
      replace (Nat.min (blen s - i - (8 - o)) 7) with (blen s - i - (8 - o)) by lia.
      replace (blen s - i - (8 - o) - Nat.min 7 8) with 0 by lia. rewrite firstn_O. rewrite app_nil_r.
      replace (blen s - i - (8 - o) - 8) with 0 by lia. rewrite firstn_O. now rewrite app_nil_r. }
  destruct G as (bs2 & -> & G1 & G2 & G3). cbn [bind bytes_ blen].
  rewrite E, app_length in G2. cbn [length] in G2.
  destruct (setbit_ok bs2 i v G1) as (bs3 & F & F1 & F2 & F3); [lia|]. rewrite F. cbn [bind].
  eexists. split; [reflexivity|]. unfold inv, cap, contents. cbn [bytes_ blen]. split; [split; [auto|lia]|].
  rewrite F3, firstn_upd_lt by lia. rewrite G3. clear - H L.
  set (W := mem_bits (pre ++ x :: post)). assert (LW : blen s <= length W) by (subst W; rewrite mem_bits_length, app_length; cbn [length]; lia). clearbody W.
  rewrite upd_app_r by (rewrite firstn_length; lia). rewrite firstn_length. replace (i - Nat.min i (length W)) with 0 by lia. cbn [upd app].
  rewrite firstn_firstn. replace (Nat.min i (blen s)) with i by lia. f_equal. f_equal. now rewrite skipn_firstn_comm.
Qed.

Lemma step_ok s o : inv s -> valid o (contents s) -> near_end o (contents s) -> done s o.
Proof.
  intros I V N. pose proof (contents_length s I) as CL. destruct o; cbn [valid near_end] in V, N; try rewrite CL in V; try rewrite CL in N.
  - now apply add_ok.
  - now apply insert_ok.
  - apply remove_ok; [exact I|lia].
  - apply removelast_ok; auto. destruct (contents s); [congruence|cbn in CL; lia].
  - now apply put_ok.
  - now apply setlength_ok.
Qed.
End Steps.

Lemma reachable_inv s : reachable s -> inv s.
Proof.
  induction 1 as [|s o s' fresh FR R IH V N E]; [split; [constructor|cbn; lia]|].
  destruct (step_ok fresh FR s o IH V N) as (s2 & E2 & I & _). congruence.
Qed.

(* ---- C26 ---- *)
(** From every array obtained by valid calls, whatever bytes fresh storage holds, every valid Add, Remove, RemoveLast,
    element assignment and SetLength, and every Insert whose index lies in one of the last two storage bytes, succeeds
    and does to the bits what it does to a list of booleans.  Missing: Insert further from the end, which is wrong in
    the code (C26_Insert_refuted). *)
Theorem C26_DynArrayBool_list_partial fresh s o : junk_ok fresh -> reachable s -> valid o (contents s) -> near_end o (contents s) ->
  exists s', b_step fresh s o = Ok s' /\ contents s' = effect o (contents s).
Proof.
  intros F R V N. destruct (step_ok fresh F s o (reachable_inv s R) V N) as (s' & E & _ & C). eauto.
Qed.
Print Assumptions C26_DynArrayBool_list_partial.

(** Reading element i gives the i-th boolean; Length is the length of the list. *)
Theorem C26_DynArrayBool_read s i : reachable s -> i < length (contents s) ->
  blen s = length (contents s) /\ exists b, nth_error (contents s) i = Some b /\ bAt s i = Ok b.
Proof.
  intros R H. pose proof (reachable_inv s R) as I. rewrite contents_length in * by auto. split; [reflexivity|].
  destruct I as (B & L). unfold cap in L. unfold bAt. replace (i <? blen s) with true by lia.
  destruct (split_at (bytes_ s) (i / 8)) as (pre & x & post & E & LP); [lia|]. unfold contents. rewrite E in *. rewrite (get_mid' _ _ _ _ LP). cbn [bind].
  apply bytes_mid in B as (_ & B & _). exists (Z.testbit x (Z.of_nat (i mod 8))).
  split.
  - rewrite nth_error_firstn. replace (i <? blen s) with true by lia.
    rewrite mem_bits_app, mem_bits_cons, nth_error_app2 by (rewrite mem_bits_length; lia). rewrite mem_bits_length.
    replace (i - 8 * length pre) with (i mod 8) by lia. rewrite nth_error_app1 by (rewrite bits_length; lia).
    rewrite nth_error_bits. replace (i mod 8 <? 8) with true by lia. reflexivity.
  - f_equal. apply (all_bytes8 (fun x o => Bool.eqb (negb (Z.land x (Z.shiftl 1 (Z.of_nat o)) =? 0)%Z) (Z.testbit x (Z.of_nat o)))) with (b := x) (o := i mod 8) in B.
    + now apply Bool.eqb_prop.
    + vm_compute. reflexivity.
    + lia.
Qed.
Print Assumptions C26_DynArrayBool_read.

Lemma ones_app a b : ones (a ++ b) = ones a + ones b.
Proof. unfold ones. now rewrite filter_app, app_length. Qed.
Lemma ones_zeros : forall o k, ones (firstn k (repeat false o)) = 0.
Proof. induction o as [|o IH]; intros [|k]; try reflexivity. exact (IH k). Qed.
Lemma count_loop_ok : forall mid pre post i c, bytes (pre ++ mid ++ post) -> i = length pre ->
  count_loop (pre ++ mid ++ post) i (length mid) c = Ok (c + Z.of_nat (ones (mem_bits mid)))%Z.
Proof.
  induction mid as [|x mid IH]; intros pre post i c B ->.
  - cbn. f_equal. lia.
  - cbn [length count_loop]. change ((x :: mid) ++ post) with (x :: mid ++ post) in *. rewrite get_mid. cbn [bind].
    assert (BX : byte x) by now apply bytes_mid in B.
    replace (pre ++ x :: mid ++ post) with ((pre ++ [x]) ++ mid ++ post) in * by now rewrite <- app_assoc.
    rewrite IH; [|exact B|rewrite app_length; cbn [length]; lia]. rewrite BitCount8 by auto. rewrite mem_bits_cons, ones_app. f_equal. lia.
Qed.

(** CountBits(i, n) is the number of true elements among the n elements from i on. *)
Theorem C26_CountBits s i n : reachable s -> i + n <= length (contents s) ->
  CountBits s i n = Ok (Z.of_nat (ones (firstn n (skipn i (contents s))))).
Proof.
  intros R H. pose proof (reachable_inv s R) as I. rewrite contents_length in H by auto. destruct I as (B & L). unfold cap in L.
  unfold CountBits. destruct (Nat.eqb_spec n 0) as [->|N0]; [reflexivity|]. cbv zeta.
  replace (n + i <=? blen s) with true by lia. cbn [negb].
  assert (C : firstn n (skipn i (contents s)) = firstn n (skipn i (mem_bits (bytes_ s)))).
  { unfold contents. rewrite skipn_firstn_comm, firstn_firstn. f_equal. lia. }
  rewrite C. clear C. pose proof (chunks_spec (n + i)) as HC. set (e := chunks (n + i)) in *. clearbody e.
  replace (i - i / 8 * 8) with (i mod 8) by lia.
  destruct (split_at (bytes_ s) (i / 8)) as (pre & x & post & E & LP); [lia|]. rewrite E in *. rewrite app_length in L. cbn [length] in L.
  rewrite (get_mid' _ _ _ _ LP). cbn [bind]. pose proof B as B0. apply bytes_mid in B as (B1 & B2 & B3).
  set (o := i mod 8) in *. assert (O : i = 8 * (i / 8) + o) by (subst o; lia). assert (O8 : o < 8) by (subst o; lia).
  assert (P2 : skipn i (mem_bits (pre ++ x :: post)) = skipn o (bits 8 x) ++ mem_bits post).
  { rewrite mem_bits_app, mem_bits_cons, skipn_app, mem_bits_length. rewrite skipn_all2 by (rewrite mem_bits_length; lia). cbn [app].
    rewrite skipn_app. replace (i - 8 * length pre) with o by lia. replace (o - length (bits 8 x)) with 0 by (rewrite bits_length; lia). reflexivity. }
  rewrite P2. clear P2.
  destruct (Nat.eqb_spec (i / 8) (e - 1)) as [K|K].
  - rewrite BitCount8 by (apply byte_land, byte_land; auto). rewrite mask_end by (try apply byte_land; auto; lia). rewrite mask_start_bits by auto.
    f_equal. f_equal. rewrite firstn_app, repeat_length, ones_app.
    rewrite ones_zeros.
    rewrite (firstn_app n), ones_app, skipn_length, bits_length. replace (n - (8 - o)) with 0 by lia. cbn [firstn].
    replace (8 - (e * 8 - (n + i)) - o) with n by lia. unfold ones at 3. cbn [filter length]. lia.
  - destruct (split_at post (e - 1 - (i / 8 + 1))) as (mid & y & post' & E' & LM); [lia|]. subst post.
    replace (pre ++ x :: mid ++ y :: post') with ((pre ++ x :: mid) ++ y :: post') by now rewrite <- app_assoc.
    rewrite (get_mid' (pre ++ x :: mid)) by (rewrite app_length; cbn [length]; lia). cbn [bind].
    apply bytes_mid in B3 as (B4 & B5 & B6).
    rewrite <- LM. replace ((pre ++ x :: mid) ++ y :: post') with ((pre ++ [x]) ++ mid ++ (y :: post')) by (rewrite <- !app_assoc; reflexivity).
    rewrite count_loop_ok; [|rewrite <- app_assoc; exact B0|rewrite app_length; cbn [length]; lia].
    rewrite !BitCount8 by (apply byte_land; auto). rewrite mask_start, mask_end by (auto; lia).
    f_equal. rewrite mem_bits_app, mem_bits_cons. rewrite (firstn_app n), (firstn_all2 (n := n) (skipn o (bits 8 x))) by (rewrite skipn_length, bits_length; lia).
    rewrite skipn_length, bits_length. rewrite (firstn_app (n - (8 - o))), (firstn_all2 (n := n - (8 - o)) (mem_bits mid)) by (rewrite mem_bits_length; lia). rewrite mem_bits_length.
    rewrite (firstn_app (n - (8 - o) - 8 * length mid)), bits_length. replace (n - (8 - o) - 8 * length mid - 8) with 0 by lia. cbn [firstn]. rewrite app_nil_r.
    rewrite !ones_app. replace (n - (8 - o) - 8 * length mid) with (8 - (e * 8 - (n + i))) by lia. lia.
Qed.
Print Assumptions C26_CountBits.

(* ---- what fails ---- *)
Fixpoint adds (l : list bool) (s : barr) : res barr :=
  match l with [] => Ok s | v :: l' => do s1 <- bAdd (fun n => repeat 0%Z n) s v; adds l' s1 end.
Lemma zeros_junk : junk_ok (fun n => repeat 0%Z n).
Proof. intro n. split; [apply repeat_length|apply bytes_zeros]. Qed.
Lemma adds_reachable : forall l s s', reachable s -> adds l s = Ok s' -> reachable s'.
Proof.
  induction l as [|v l IH]; cbn [adds]; intros s s' R E; [congruence|].
  destruct (bAdd _ s v) as [s1| |] eqn:E1; cbn [bind] in E; try discriminate.
  apply (IH s1); auto. apply (r_step s (BAdd v) s1 _ zeros_junk R); cbn; auto.
Qed.

(** Insert is wrong in general: inserting in front of 15 trues, a false and 8 trues loses the bit that crosses from the second to the
    third byte (the carry is taken from the byte already shifted). *)
Theorem C26_Insert_refuted : exists fresh s v i s', junk_ok fresh /\ reachable s /\ valid (BInsert v i) (contents s) /\
  b_step fresh s (BInsert v i) = Ok s' /\ contents s' <> effect (BInsert v i) (contents s).
Proof.
  set (l := repeat true 15 ++ [false] ++ repeat true 8).
  destruct (adds l barr0) as [s| |] eqn:E; [|vm_compute in E; discriminate|vm_compute in E; discriminate].
  exists (fun n => repeat 0%Z n), s, false, 0.
  destruct (b_step (fun n => repeat 0%Z n) s (BInsert false 0)) as [s'| |] eqn:E2.
  - exists s'. split; [apply zeros_junk|]. split; [apply (adds_reachable l barr0); [constructor|auto]|].
    split; [cbn; lia|]. split; [reflexivity|].
    vm_compute in E. injection E as <-. vm_compute in E2. injection E2 as <-. vm_compute. discriminate.
  - vm_compute in E. injection E as <-. vm_compute in E2. discriminate.
  - vm_compute in E. injection E as <-. vm_compute in E2. discriminate.
Qed.
Print Assumptions C26_Insert_refuted.

(** AddConstruct writes outside the storage. *)
Theorem C26_AddConstruct_refuted : exists fresh s, junk_ok fresh /\ reachable s /\ bAddConstruct fresh s = UB.
Proof.
  destruct (adds [true; true] barr0) as [s| |] eqn:E; [|vm_compute in E; discriminate|vm_compute in E; discriminate].
  exists (fun n => repeat 0%Z n), s. split; [apply zeros_junk|]. split; [apply (adds_reachable [true; true] barr0); [constructor|auto]|].
  vm_compute in E. injection E as <-. reflexivity.
Qed.
Print Assumptions C26_AddConstruct_refuted.

(* A ten-element array reached with nonzero junk, on which an insertion and a removal cross a byte boundary. *)
Definition junk255 (n : nat) : list Z := repeat 255%Z n.
Example C26_example :
  (exists s, adds [true; false; true; true; false; false; true; true; false; true] barr0 = Ok s /\ reachable s /\
     contents s = [true; false; true; true; false; false; true; true; false; true] /\
     valid (BInsert true 2) (contents s) /\ near_end (BInsert true 2) (contents s) /\ valid (BRemove 3) (contents s) /\
     CountBits s 2 7 = Ok 4%Z) /\ junk_ok junk255.
Proof.
  split.
  - set (l := [true; false; true; true; false; false; true; true; false; true]).
    destruct (adds l barr0) as [s| |] eqn:E; [|vm_compute in E; discriminate|vm_compute in E; discriminate].
    exists s. split; [reflexivity|]. split; [apply (adds_reachable l barr0); [constructor|auto]|].
    vm_compute in E. injection E as <-. vm_compute. repeat split; repeat constructor.
  - intro n. split; [apply repeat_length|]. apply Forall_forall. intros x Hx. apply repeat_spec in Hx. subst. red. lia.
Qed.
