From Coq Require Import List ZArith Bool Lia.
From Coq Require Import ZifyBool ZifyNat.
From Verif Require Import Common Base64 BitUtilProofs MiscBitProofs.
Import ListNotations.
Local Open Scope Z_scope.
Ltac Zify.zify_post_hook ::= Z.div_mod_to_equations.

Definition byte (b : Z) : Prop := 0 <= b < 256.

Definition ch (x : Z) : Z := nth (Z.to_nat x) code 0.

Lemma getz_code x : 0 <= x < 64 -> getz code x = Ok (ch x).
Proof.
  intros H. unfold getz. destruct (Z.ltb_spec x 0); [lia|].
  unfold get, ch. rewrite (nth_error_nth' code 0); [reflexivity|].
  change (length code) with 64%nat. lia.
Qed.

Lemma dmap_ch x : 0 <= x < 64 -> getz dmap (ch x - 45) = Ok x.
Proof.
  intros H.
  assert (A : forallb (fun n => match getz dmap (ch (Z.of_nat n) - 45) with Ok y => y =? Z.of_nat n | _ => false end) (seq 0 64) = true)
    by (vm_compute; reflexivity).
  rewrite forallb_forall in A. specialize (A (Z.to_nat x)).
  rewrite in_seq in A. rewrite Z2Nat.id in A by lia. specialize (A ltac:(lia)).
  destruct (getz dmap (ch x - 45)); try discriminate. f_equal. lia.
Qed.

(* functional form of the encoder *)
Fixpoint encf (l : list Z) : list Z :=
  match l with
  | [] => []
  | [a] => [ch (a / 4); ch (a mod 4 * 16)]
  | [a; b] => [ch (a / 4); ch (a mod 4 * 16 + b / 16); ch (b mod 16 * 4)]
  | a :: b :: c :: r =>
      ch (a / 4) :: ch (a mod 4 * 16 + b / 16) :: ch (b mod 16 * 4 + c / 64) :: ch (c mod 64) :: encf r
  end.

Lemma bits252 a : byte a -> Z.shiftr (Z.land a 252) 2 = a / 4.
Proof.
  intros H. rewrite Z.shiftr_land. change (Z.shiftr 252 2) with (Z.ones 6).
  rewrite Z.land_ones, Z.shiftr_div_pow2 by lia. change (2 ^ 6) with 64. change (2 ^ 2) with 4.
  unfold byte in H. apply Z.mod_small. lia.
Qed.
Lemma bits240 a : byte a -> Z.shiftr (Z.land a 240) 4 = a / 16.
Proof.
  intros H. rewrite Z.shiftr_land. change (Z.shiftr 240 4) with (Z.ones 4).
  rewrite Z.land_ones, Z.shiftr_div_pow2 by lia. change (2 ^ 4) with 16.
  unfold byte in H. apply Z.mod_small. lia.
Qed.
Lemma bits192 a : byte a -> Z.shiftr (Z.land a 192) 6 = a / 64.
Proof.
  intros H. rewrite Z.shiftr_land. change (Z.shiftr 192 6) with (Z.ones 2).
  rewrite Z.land_ones, Z.shiftr_div_pow2 by lia. change (2 ^ 6) with 64. change (2 ^ 2) with 4.
  unfold byte in H. apply Z.mod_small. lia.
Qed.
Lemma bits3 a : Z.shiftl (Z.land a 3) 4 = a mod 4 * 16.
Proof. change 3 with (Z.ones 2). rewrite Z.land_ones, Z.shiftl_mul_pow2 by lia. reflexivity. Qed.
Lemma bits15 a : Z.shiftl (Z.land a 15) 2 = a mod 16 * 4.
Proof. change 15 with (Z.ones 4). rewrite Z.land_ones, Z.shiftl_mul_pow2 by lia. reflexivity. Qed.
Lemma bits63 a : Z.land a 63 = a mod 64.
Proof. change 63 with (Z.ones 6). rewrite Z.land_ones by lia. reflexivity. Qed.

Lemma get_app_r {A} (p l : list A) k :
  get (p ++ l) (length p + k) = get l k.
Proof. unfold get. rewrite nth_error_app2 by lia. replace (length p + k - length p)%nat with k by lia. reflexivity. Qed.

Lemma lor16 x y : 0 <= y < 16 -> Z.lor (x * 16) y = x * 16 + y.
Proof. intros H. change 16 with (2 ^ 4). apply lor_disjoint; [lia|exact H]. Qed.
Lemma lor4 x y : 0 <= y < 4 -> Z.lor (x * 4) y = x * 4 + y.
Proof. intros H. change 4 with (2 ^ 2). apply lor_disjoint; [lia|exact H]. Qed.

Lemma enc_loop_ok l : forall pre k r out,
  Forall byte l -> length l = (3 * k)%nat ->
  enc_loop (pre ++ l ++ r) k (length pre) out = Ok (out ++ encf l).
Proof.
  intros pre k. revert pre l. induction k as [|k IH]; intros pre l r out Hl Hlen.
  - destruct l; [|discriminate]. cbn [encf enc_loop]. now rewrite app_nil_r.
  - destruct l as [|a [|b [|c l]]]; cbn in Hlen; try lia.
    inversion Hl as [|? ? Ha Hl1]; subst. inversion Hl1 as [|? ? Hb Hl2]; subst.
    inversion Hl2 as [|? ? Hc Hl3]; subst. unfold byte in *.
    cbn [enc_loop]. rewrite !get_app_r. unfold get. cbn [nth_error bind app].
    rewrite bits252 by auto. rewrite getz_code by lia. cbn [bind].
    rewrite bits3, bits240 by auto.
    rewrite lor16 by lia.
    rewrite getz_code by lia. cbn [bind].
    rewrite bits15, bits192 by auto.
    rewrite lor4 by lia.
    rewrite getz_code by lia. cbn [bind].
    rewrite bits63, getz_code by lia. cbn [bind].
    specialize (IH (pre ++ [a; b; c]) l r (out ++ [ch (a / 4); ch (a mod 4 * 16 + b / 16); ch (b mod 16 * 4 + c / 64); ch (c mod 64)])).
    rewrite app_length in IH. cbn [length] in IH. rewrite <- !app_assoc in IH. cbn [app] in IH.
    rewrite IH by (auto; lia). reflexivity.
Qed.

Lemma encf_app3 l : forall k r, length l = (3 * k)%nat -> encf (l ++ r) = encf l ++ encf r.
Proof.
  intros k. revert l. induction k as [|k IH]; intros l r Hl.
  - destruct l; [reflexivity|discriminate].
  - destruct l as [|a [|b [|c l]]]; cbn in Hl; try lia.
    cbn [app encf]. rewrite IH by lia. reflexivity.
Qed.

Lemma split3 (l : list Z) : exists l1 l2, l = l1 ++ l2 /\
  length l1 = (3 * (length l / 3))%nat /\ length l2 = (length l mod 3)%nat.
Proof.
  exists (firstn (3 * (length l / 3)) l), (skipn (3 * (length l / 3)) l).
  split; [symmetry; apply firstn_skipn|]. rewrite firstn_length, skipn_length. lia.
Qed.

Lemma Base64Encode_ok l : Forall byte l ->
  Base64Encode l (length l) = Ok (encf l).
Proof.
  intros Hl. unfold Base64Encode. destruct (split3 l) as (l1 & l2 & E & H1 & H2).
  set (n := length l) in *. assert (Hn : n = length l) by reflexivity. clearbody n.
  subst l. rewrite app_length in Hn.
  assert (Hn2 : (n <= length l1 + length l2 <= n)%nat) by lia. clear Hn. rename Hn2 into Hn. apply Forall_app in Hl. destruct Hl as [Hb1 Hb2].
  pose proof (enc_loop_ok l1 [] (n / 3) l2 [] Hb1 H1) as EL. cbn [app length] in EL.
  rewrite EL. cbn [bind].
  rewrite (encf_app3 l1 (n / 3)) by auto.
  replace (n - n mod 3)%nat with (length l1) by lia.
  destruct l2 as [|a [|b [|c l2]]]; cbn [length] in H2; [| | |lia].
  - destruct (Nat.ltb_spec (length l1) n); [cbn in Hn; lia|]. cbn [encf]. now rewrite app_nil_r.
  - destruct (Nat.ltb_spec (length l1) n); [|cbn in Hn; lia].
    inversion Hb2 as [|? ? Ha _]; subst. unfold byte in Ha.
    replace (length l1) with (length l1 + 0)%nat at 1 by lia. rewrite get_app_r. idtac.
    unfold get. cbn [nth_error bind].
    rewrite bits252 by auto. rewrite getz_code by lia. cbn [bind].
    destruct (Nat.leb_spec n (length l1 + 1)); [|cbn in Hn; lia].
    rewrite bits3. rewrite getz_code by lia. reflexivity.
  - destruct (Nat.ltb_spec (length l1) n); [|cbn in Hn; lia].
    inversion Hb2 as [|? ? Ha Hb2']; subst. inversion Hb2' as [|? ? Hb _]; subst. unfold byte in Ha, Hb.
    replace (get (l1 ++ [a; b]) (length l1)) with (get (l1 ++ [a; b]) (length l1 + 0)) by (f_equal; lia).
    rewrite !get_app_r. unfold get. cbn [nth_error bind].
    rewrite bits252 by auto. rewrite getz_code by lia. cbn [bind].
    destruct (Nat.leb_spec n (length l1 + 1)); [cbn in Hn; lia|].
    unfold get. cbn [nth_error bind].
    rewrite bits3, bits240 by auto.
    rewrite lor16 by lia.
    rewrite getz_code by lia. cbn [bind].
    rewrite bits15. rewrite getz_code by lia. reflexivity.
Qed.

Lemma encf_length l : length (encf l) = enc_size (length l).
Proof.
  unfold enc_size. destruct (split3 l) as (l1 & l2 & -> & H1 & H2).
  set (n := length (l1 ++ l2)) in *. assert (Hn : n = length (l1 ++ l2)) by reflexivity. clearbody n.
  rewrite app_length in Hn.
  assert (Hn2 : (n <= length l1 + length l2 <= n)%nat) by lia. clear Hn. rename Hn2 into Hn.
  rewrite (encf_app3 l1 (n / 3)) by auto. rewrite app_length.
  assert (H4 : forall k l, length l = (3 * k)%nat -> length (encf l) = (4 * k)%nat).
  { clear. induction k as [|k IH]; intros l Hl.
    - destruct l; [reflexivity|discriminate].
    - destruct l as [|a [|b [|c l]]]; cbn in Hl; try lia. cbn [encf length]. rewrite IH by lia. lia. }
  rewrite (H4 (n / 3)%nat) by auto.
  destruct l2 as [|a [|b [|c l2]]]; cbn [length] in H2; [| | |lia]; rewrite <- H2; cbn [encf length Nat.eqb]; lia.
Qed.

(* ---- decoder ---- *)
Definition dval (c : Z) : Z := match getz dmap (c - 45) with Ok v => v | _ => 0 end.
Definition inrange (c : Z) : Prop := 45 <= c <= 122.

Lemma getz_dmap c : inrange c -> getz dmap (c - 45) = Ok (dval c) /\ 0 <= dval c < 64.
Proof.
  intros H. unfold inrange in H.
  assert (A : forallb (fun n => match getz dmap (Z.of_nat n - 45) with Ok y => (0 <=? y) && (y <? 64) | _ => false end) (seq 45 78) = true)
    by (vm_compute; reflexivity).
  rewrite forallb_forall in A. specialize (A (Z.to_nat c)).
  rewrite in_seq in A. rewrite Z2Nat.id in A by lia. specialize (A ltac:(lia)).
  unfold dval. destruct (getz dmap (c - 45)); try discriminate. split; auto. lia.
Qed.

Lemma getz_dmap_out c : ~ inrange c -> getz dmap (c - 45) = UB.
Proof.
  intros H. unfold inrange in H. unfold getz. destruct (Z.ltb_spec (c - 45) 0); [reflexivity|].
  unfold get. rewrite (proj2 (nth_error_None dmap (Z.to_nat (c - 45)))); [reflexivity|].
  change (length dmap) with 78%nat. lia.
Qed.

Definition d0 (x y : Z) : Z := (x * 4 + y / 16) mod 256.
Definition d1 (x y : Z) : Z := (x * 16 + y / 4) mod 256.
Definition d2 (x y : Z) : Z := (x * 64 + y) mod 256.

Fixpoint decf (l : list Z) : list Z :=
  match l with
  | [] => []
  | [_] => []
  | [a; b] => [d0 (dval a) (dval b)]
  | [a; b; c] => [d0 (dval a) (dval b); d1 (dval b) (dval c)]
  | a :: b :: c :: d :: r =>
      d0 (dval a) (dval b) :: d1 (dval b) (dval c) :: d2 (dval c) (dval d) :: decf r
  end.

Lemma db0 x y : 0 <= y < 64 -> wrap 8 (Z.lor (Z.shiftl x 2) (Z.shiftr y 4)) = d0 x y.
Proof.
  intros H. rewrite Z.shiftl_mul_pow2, Z.shiftr_div_pow2 by lia.
  rewrite lor_disjoint by (change (2 ^ 2) with 4; change (2 ^ 4) with 16; lia). reflexivity.
Qed.
Lemma db1 x y : 0 <= y < 64 -> wrap 8 (Z.lor (Z.shiftl x 4) (Z.shiftr y 2)) = d1 x y.
Proof.
  intros H. rewrite Z.shiftl_mul_pow2, Z.shiftr_div_pow2 by lia.
  rewrite lor_disjoint by (change (2 ^ 2) with 4; change (2 ^ 4) with 16; lia). reflexivity.
Qed.
Lemma db2 x y : 0 <= y < 64 -> wrap 8 (Z.lor (Z.shiftl x 6) y) = d2 x y.
Proof.
  intros H. rewrite Z.shiftl_mul_pow2 by lia.
  rewrite lor_disjoint by (change (2 ^ 6) with 64; lia). reflexivity.
Qed.

Lemma dlook_app pre l i c : nth_error l i = Some c -> inrange c ->
  dlook (pre ++ l) (length pre + i) = Ok (dval c).
Proof.
  intros H Hc. unfold dlook. rewrite get_app_r. rewrite (get_some _ _ _ H). cbn [bind].
  now apply getz_dmap.
Qed.

Lemma dlook_app_out pre l i c : nth_error l i = Some c -> ~ inrange c ->
  dlook (pre ++ l) (length pre + i) = UB.
Proof.
  intros H Hc. unfold dlook. rewrite get_app_r. rewrite (get_some _ _ _ H). cbn [bind].
  now apply getz_dmap_out.
Qed.

Lemma dec_loop_ok k : forall pre l r out,
  Forall inrange l -> length l = (4 * k)%nat ->
  dec_loop (pre ++ l ++ r) k (length pre) out = Ok (out ++ decf l).
Proof.
  induction k as [|k IH]; intros pre l r out Hl Hlen.
  - destruct l; [|discriminate]. cbn [decf dec_loop]. now rewrite app_nil_r.
  - destruct l as [|a [|b [|c [|d l]]]]; cbn in Hlen; try lia.
    inversion Hl as [|? ? Ha Hl1]; subst. inversion Hl1 as [|? ? Hb Hl2]; subst.
    inversion Hl2 as [|? ? Hc Hl3]; subst. inversion Hl3 as [|? ? Hd Hl4]; subst.
    cbn [dec_loop app].
    rewrite (dlook_app pre _ 0 a), (dlook_app pre _ 1 b), (dlook_app pre _ 2 c), (dlook_app pre _ 3 d) by auto.
    cbn [bind].
    pose proof (proj2 (getz_dmap b Hb)). pose proof (proj2 (getz_dmap c Hc)). pose proof (proj2 (getz_dmap d Hd)).
    rewrite db0, db1, db2 by auto.
    specialize (IH (pre ++ [a; b; c; d]) l r (out ++ [d0 (dval a) (dval b); d1 (dval b) (dval c); d2 (dval c) (dval d)])).
    rewrite app_length in IH. cbn [length] in IH. rewrite <- !app_assoc in IH. cbn [app] in IH.
    rewrite IH by (auto; lia). reflexivity.
Qed.

Lemma dec_loop_out k : forall pre l r out,
  ~ Forall inrange l -> length l = (4 * k)%nat ->
  dec_loop (pre ++ l ++ r) k (length pre) out = UB.
Proof.
  assert (Hdec : forall x, inrange x \/ ~ inrange x) by (intros; unfold inrange; lia).
  induction k as [|k IH]; intros pre l r out Hl Hlen.
  - destruct l; [|discriminate]. exfalso. apply Hl. constructor.
  - destruct l as [|a [|b [|c [|d l]]]]; cbn in Hlen; try lia.
    cbn [dec_loop app].
    destruct (Hdec a) as [Ha|Ha]; [|now rewrite (dlook_app_out pre _ 0 a) by auto].
    rewrite (dlook_app pre _ 0 a) by auto. cbn [bind].
    destruct (Hdec b) as [Hb|Hb]; [|now rewrite (dlook_app_out pre _ 1 b) by auto].
    rewrite (dlook_app pre _ 1 b) by auto. cbn [bind].
    destruct (Hdec c) as [Hc|Hc]; [|now rewrite (dlook_app_out pre _ 2 c) by auto].
    rewrite (dlook_app pre _ 2 c) by auto. cbn [bind].
    destruct (Hdec d) as [Hd|Hd]; [|now rewrite (dlook_app_out pre _ 3 d) by auto].
    rewrite (dlook_app pre _ 3 d) by auto. cbn [bind].
    assert (Hl' : ~ Forall inrange l) by (intros H; apply Hl; auto).
    match goal with |- dec_loop _ _ _ ?o = _ => specialize (IH (pre ++ [a; b; c; d]) l r o) end.
    rewrite app_length in IH. cbn [length] in IH. rewrite <- !app_assoc in IH. cbn [app] in IH.
    rewrite IH by (auto; lia). reflexivity.
Qed.

Lemma decf_app4 l : forall k r, length l = (4 * k)%nat -> decf (l ++ r) = decf l ++ decf r.
Proof.
  intros k. revert l. induction k as [|k IH]; intros l r Hl.
  - destruct l; [reflexivity|discriminate].
  - destruct l as [|a [|b [|c [|d l]]]]; cbn in Hl; try lia.
    cbn [app decf]. rewrite IH by lia. reflexivity.
Qed.

Lemma split4 (l : list Z) : exists l1 l2, l = l1 ++ l2 /\
  length l1 = (4 * (length l / 4))%nat /\ length l2 = (length l mod 4)%nat.
Proof.
  exists (firstn (4 * (length l / 4)) l), (skipn (4 * (length l / 4)) l).
  split; [symmetry; apply firstn_skipn|]. rewrite firstn_length, skipn_length. lia.
Qed.

Lemma Base64Decode_ok l : Forall inrange l -> (length l mod 4 <> 1)%nat ->
  Base64Decode l (length l) = Ok (decf l).
Proof.
  intros Hl Hm. unfold Base64Decode. destruct (split4 l) as (l1 & l2 & E & H1 & H2).
  set (n := length l) in *. assert (Hn : n = length l) by reflexivity. clearbody n.
  subst l. rewrite app_length in Hn.
  assert (Hn2 : (n <= length l1 + length l2 <= n)%nat) by lia. clear Hn. rename Hn2 into Hn. apply Forall_app in Hl. destruct Hl as [Hb1 Hb2].
  destruct (Nat.eqb_spec (n mod 4) 1); [lia|].
  pose proof (dec_loop_ok (n / 4) [] l1 l2 [] Hb1 H1) as EL. cbn [app length] in EL.
  rewrite EL. cbn [bind].
  rewrite (decf_app4 l1 (n / 4)) by auto.
  replace (n / 4 * 4)%nat with (length l1) by lia.
  destruct l2 as [|a [|b [|c [|d l2]]]]; cbn [length] in H2; [| | | |lia].
  - destruct (Nat.ltb_spec (S (length l1)) n); [cbn in Hn; lia|]. cbn [bind].
    destruct (Nat.ltb_spec (S (S (length l1))) n); [cbn in Hn; lia|]. cbn [decf]. now rewrite app_nil_r.
  - lia.
  - destruct (Nat.ltb_spec (S (length l1)) n); [|cbn in Hn; lia].
    destruct (Nat.ltb_spec (S (S (length l1))) n); [cbn in Hn; lia|].
    inversion Hb2 as [|? ? Ha Hb2']; subst. inversion Hb2' as [|? ? Hb _]; subst.
    replace (S (length l1) - 1)%nat with (length l1 + 0)%nat by lia.
    replace (S (length l1)) with (length l1 + 1)%nat by lia.
    rewrite (dlook_app l1 _ 0 a), (dlook_app l1 _ 1 b) by auto. cbn [bind].
    pose proof (proj2 (getz_dmap b Hb)). rewrite db0 by auto. reflexivity.
  - destruct (Nat.ltb_spec (S (length l1)) n); [|cbn in Hn; lia].
    destruct (Nat.ltb_spec (S (S (length l1))) n); [|cbn in Hn; lia].
    inversion Hb2 as [|? ? Ha Hb2']; subst. inversion Hb2' as [|? ? Hb Hb2'']; subst.
    inversion Hb2'' as [|? ? Hc _]; subst.
    replace (S (S (length l1)) - 1)%nat with (length l1 + 1)%nat by lia.
    replace (S (S (length l1))) with (length l1 + 2)%nat by lia.
    replace (S (length l1) - 1)%nat with (length l1 + 0)%nat by lia.
    replace (S (length l1)) with (length l1 + 1)%nat by lia.
    rewrite (dlook_app l1 _ 0 a), (dlook_app l1 _ 1 b), (dlook_app l1 _ 2 c) by auto. cbn [bind].
    pose proof (proj2 (getz_dmap b Hb)). pose proof (proj2 (getz_dmap c Hc)).
    rewrite db0, db1 by auto. rewrite <- app_assoc. reflexivity.
Qed.

Lemma Base64Decode_out l : ~ Forall inrange l -> (length l mod 4 <> 1)%nat ->
  Base64Decode l (length l) = UB.
Proof.
  assert (Hdec : forall x, inrange x \/ ~ inrange x) by (intros; unfold inrange; lia).
  assert (Hfd : forall l, Forall inrange l \/ ~ Forall inrange l).
  { clear - Hdec. induction l as [|x l IH]; [left; auto|].
    destruct (Hdec x); [|right; intros H1; inversion H1; auto].
    destruct IH; [left; auto|right; intros H1; inversion H1; auto]. }
  intros Hl Hm. unfold Base64Decode. destruct (split4 l) as (l1 & l2 & E & H1 & H2).
  set (n := length l) in *. assert (Hn : n = length l) by reflexivity. clearbody n.
  subst l. rewrite app_length in Hn.
  assert (Hn2 : (n <= length l1 + length l2 <= n)%nat) by lia. clear Hn. rename Hn2 into Hn.
  destruct (Nat.eqb_spec (n mod 4) 1); [lia|].
  destruct (Hfd l1) as [Hb1|Hb1].
  2:{ pose proof (dec_loop_out (n / 4) [] l1 l2 [] Hb1 H1) as EL. cbn [app length] in EL.
      now rewrite EL. }
  assert (Hb2 : ~ Forall inrange l2) by (intros H; apply Hl; apply Forall_app; auto).
  pose proof (dec_loop_ok (n / 4) [] l1 l2 [] Hb1 H1) as EL. cbn [app length] in EL.
  rewrite EL. cbn [bind].
  replace (n / 4 * 4)%nat with (length l1) by lia.
  destruct l2 as [|a [|b [|c [|d l2]]]]; cbn [length] in H2; [| | | |lia].
  - exfalso. auto.
  - lia.
  - destruct (Nat.ltb_spec (S (length l1)) n); [|cbn in Hn; lia].
    replace (S (length l1) - 1)%nat with (length l1 + 0)%nat by lia.
    replace (S (length l1)) with (length l1 + 1)%nat by lia.
    destruct (Hdec a) as [Ha|Ha]; [|now rewrite (dlook_app_out l1 _ 0 a) by auto].
    rewrite (dlook_app l1 _ 0 a) by auto. cbn [bind].
    destruct (Hdec b) as [Hb|Hb]; [|now rewrite (dlook_app_out l1 _ 1 b) by auto].
    exfalso. auto.
  - destruct (Nat.ltb_spec (S (length l1)) n); [|cbn in Hn; lia].
    destruct (Nat.ltb_spec (S (S (length l1))) n); [|cbn in Hn; lia].
    replace (S (S (length l1)) - 1)%nat with (length l1 + 1)%nat by lia.
    replace (S (S (length l1))) with (length l1 + 2)%nat by lia.
    replace (S (length l1) - 1)%nat with (length l1 + 0)%nat by lia.
    replace (S (length l1)) with (length l1 + 1)%nat by lia.
    destruct (Hdec a) as [Ha|Ha]; [|now rewrite (dlook_app_out l1 _ 0 a) by auto].
    rewrite (dlook_app l1 _ 0 a) by auto. cbn [bind].
    destruct (Hdec b) as [Hb|Hb]; [|now rewrite (dlook_app_out l1 _ 1 b) by auto].
    rewrite (dlook_app l1 _ 1 b) by auto. cbn [bind].
    destruct (Hdec c) as [Hc|Hc]; [|now rewrite (dlook_app_out l1 _ 2 c) by auto].
    exfalso. auto.
Qed.

Lemma decf_length l : (length l mod 4 <> 1)%nat -> length (decf l) = dec_size (length l).
Proof.
  intros Hm. unfold dec_size. destruct (split4 l) as (l1 & l2 & -> & H1 & H2).
  set (n := length (l1 ++ l2)) in *. assert (Hn : n = length (l1 ++ l2)) by reflexivity. clearbody n.
  rewrite app_length in Hn.
  assert (Hn2 : (n <= length l1 + length l2 <= n)%nat) by lia. clear Hn. rename Hn2 into Hn.
  destruct (Nat.eqb_spec (n mod 4) 1); [lia|].
  rewrite (decf_app4 l1 (n / 4)) by auto. rewrite app_length.
  assert (H4 : forall k l, length l = (4 * k)%nat -> length (decf l) = (3 * k)%nat).
  { clear. induction k as [|k IH]; intros l Hl.
    - destruct l; [reflexivity|discriminate].
    - destruct l as [|a [|b [|c [|d l]]]]; cbn in Hl; try lia. cbn [decf length]. rewrite IH by lia. lia. }
  rewrite (H4 (n / 4)%nat) by auto.
  destruct l2 as [|a [|b [|c [|d l2]]]]; cbn [length] in H2; [| | | |lia]; rewrite <- H2; cbn [decf length Nat.eqb]; try lia.
Qed.

(* ---- round trip ---- *)
Lemma dval_ch x : 0 <= x < 64 -> dval (ch x) = x.
Proof. intros H. unfold dval. now rewrite dmap_ch. Qed.

Lemma ch_inrange x : 0 <= x < 64 -> inrange (ch x).
Proof.
  intros H. unfold inrange.
  assert (A : forallb (fun n => (45 <=? ch (Z.of_nat n)) && (ch (Z.of_nat n) <=? 122)) (seq 0 64) = true)
    by (vm_compute; reflexivity).
  rewrite forallb_forall in A. specialize (A (Z.to_nat x)).
  rewrite in_seq in A. rewrite Z2Nat.id in A by lia. specialize (A ltac:(lia)). lia.
Qed.

Lemma roundtrip_f l : Forall byte l -> decf (encf l) = l /\ Forall inrange (encf l).
Proof.
  assert (G : forall n l, (length l <= n)%nat -> Forall byte l -> decf (encf l) = l /\ Forall inrange (encf l)).
  { clear. induction n as [|n IH]; intros l Hn Hl.
    - destruct l; [split; [reflexivity|constructor]|cbn in Hn; lia].
    - destruct l as [|a [|b [|c l]]].
      + split; [reflexivity|constructor].
      + inversion Hl as [|? ? Ha _]; subst. unfold byte in Ha.
        cbn [encf decf]. rewrite !dval_ch by lia. split.
        * unfold d0. f_equal. lia.
        * repeat constructor; apply ch_inrange; lia.
      + inversion Hl as [|? ? Ha Hl1]; subst. inversion Hl1 as [|? ? Hb _]; subst. unfold byte in *.
        cbn [encf decf]. rewrite !dval_ch by lia. split.
        * unfold d0, d1. f_equal; [lia|]. f_equal. lia.
        * repeat constructor; apply ch_inrange; lia.
      + inversion Hl as [|? ? Ha Hl1]; subst. inversion Hl1 as [|? ? Hb Hl2]; subst.
        inversion Hl2 as [|? ? Hc Hl3]; subst. unfold byte in Ha, Hb, Hc.
        cbn in Hn. destruct (IH l) as [I1 I2]; [lia|auto|].
        cbn [encf decf]. rewrite !dval_ch by lia. split.
        * rewrite I1. unfold d0, d1, d2. f_equal; [lia|]. f_equal; [lia|]. f_equal. lia.
        * repeat (constructor; [apply ch_inrange; lia|]). exact I2. }
  intros Hl. exact (G (length l) l (le_n _) Hl).
Qed.

Lemma enc_size_mod n : (enc_size n mod 4 <> 1)%nat.
Proof.
  unfold enc_size. destruct (Nat.eqb_spec (n mod 3) 0); lia.
Qed.
