(* Properties C174 and C175: the numbers of INI entries. *)
From Coq Require Import Reals ZArith List Bool Lia Lra.
From Coq Require Import ZifyBool ZifyNat.
From Flocq Require Import Core.
From Verif Require Import Common JSON JSONProofs INIEntry.
Import ListNotations.
Local Open Scope Z_scope.

(* ---------- texts of numbers ---------- *)
(* digits, most significant first, in a base *)
Definition value_in (base : Z) (ds : list Z) : Z := fold_left (fun a d => base * a + d) ds 0.
Definition dec_char (d : Z) : Z := 48 + d.
Definition decimal_digits (ds : list Z) : Prop := Forall (fun d => 0 <= d <= 9) ds.
Inductive signs := NoSign | Plus_ | Minus.
Definition sign_text (s : signs) : list Z := match s with NoSign => [] | Plus_ => [43] | Minus => [45] end.
Definition apply_sign (s : signs) (v : Z) : Z := match s with Minus => - v | _ => v end.
(* the characters of a hexadecimal digit *)
Inductive hex_char : Z -> Z -> Prop :=
| hc_dec d : 0 <= d <= 9 -> hex_char (48 + d) d
| hc_low d : 10 <= d <= 15 -> hex_char (97 + (d - 10)) d
| hc_up d : 10 <= d <= 15 -> hex_char (65 + (d - 10)) d.
(* the double nearest to a real number, ties to even *)
Definition nearest_double (x : R) : R := round radix2 (FLT_exp (-1074) 53) ZnearestE x.
(* the number written as ip . fp *)
Definition point_value (ip fp : list Z) : R := (IZR (value_in 10 (ip ++ fp)) / IZR (10 ^ Z.of_nat (length fp)))%R.

(* ---------- proofs ---------- *)
Lemma dec_digits_acc : forall ds rest a, decimal_digits ds -> match rest with c :: _ => isdigit c = false | [] => True end ->
  dec_digits (map dec_char ds ++ rest) a = fold_left (fun a d => 10 * a + d) ds a.
Proof.
  induction ds as [|d ds IH]; intros rest a D R; cbn [map app fold_left].
  - destruct rest as [|c rest]; cbn [dec_digits]; [reflexivity|now rewrite R].
  - inversion D; subst. cbn [dec_digits]. unfold dec_char at 1, isdigit. replace ((48 <=? 48 + d) && (48 + d <=? 57)) with true by lia.
    rewrite IH by auto. f_equal. unfold dec_char. lia.
Qed.
Lemma take_digits_ok : forall ds rest a n, decimal_digits ds -> match rest with c :: _ => isdigit c = false | [] => True end ->
  take_digits (map dec_char ds ++ rest) a n = (fold_left (fun a d => 10 * a + d) ds a, (n + length ds)%nat, rest).
Proof.
  induction ds as [|d ds IH]; intros rest a n D R; cbn [map app fold_left].
  - rewrite Nat.add_0_r. destruct rest as [|c rest]; cbn [take_digits]; [reflexivity|now rewrite R].
  - inversion D; subst. cbn [take_digits]. unfold dec_char at 1, isdigit. replace ((48 <=? 48 + d) && (48 + d <=? 57)) with true by lia.
    rewrite IH by auto. f_equal. f_equal; [f_equal; unfold dec_char; lia|cbn [length]; lia].
Qed.

Lemma no_point ds : decimal_digits ds -> existsb (Z.eqb 46) (map dec_char ds) = false.
Proof. induction 1 as [|d ds H F IH]; [reflexivity|]. cbn [map existsb]. rewrite IH, orb_false_r. unfold dec_char. lia. Qed.

Lemma value_pos base ds : 0 < base -> Forall (fun d => 0 <= d) ds -> forall a, 0 <= a -> 0 <= fold_left (fun a d => base * a + d) ds a.
Proof. intros B F. induction F as [|d ds H F IH]; intros a A; cbn [fold_left]; auto. apply IH. nia. Qed.

(* a text that does not start with 0x, by the branch taken *)
Lemma Set_plain data : (forall x r, data = 48 :: x :: r -> x <> 120 /\ x <> 88) -> existsb (Z.eqb 46) data = false ->
  Set_text data = Ok {| svalue := data; ivalue := strtoll data; dvalue := rnd64 (IZR (strtoll data)) |}.
Proof.
  intros N P. unfold Set_text. rewrite P. cbn [negb].
  destruct data as [|c [|x r]]; try reflexivity; [destruct c as [|p|p]; try reflexivity; do 6 (destruct p; try reflexivity)|].
  destruct (Z.eq_dec c 48) as [->|NE]; [|destruct c as [|p|p]; try reflexivity; do 6 (destruct p; try reflexivity); congruence].
  destruct (N x r eq_refl). replace ((x =? 120) || (x =? 88)) with false by lia. reflexivity.
Qed.
Lemma Set_point data : (forall x r, data = 48 :: x :: r -> x <> 120 /\ x <> 88) -> existsb (Z.eqb 46) data = true ->
  Set_text data = do i <- to_int64 (atof data); Ok {| svalue := data; ivalue := i; dvalue := atof data |}.
Proof.
  intros N P. unfold Set_text. rewrite P. cbn [negb].
  destruct data as [|c [|x r]]; try reflexivity; [destruct c as [|p|p]; try reflexivity; do 6 (destruct p; try reflexivity)|].
  destruct (Z.eq_dec c 48) as [->|NE]; [|destruct c as [|p|p]; try reflexivity; do 6 (destruct p; try reflexivity); congruence].
  destruct (N x r eq_refl). replace ((x =? 120) || (x =? 88)) with false by lia. reflexivity.
Qed.


Lemma not_hex_text s ds rest : decimal_digits ds -> (rest = [] \/ exists r, rest = 46 :: r) ->
  forall x r, sign_text s ++ map dec_char ds ++ rest = 48 :: x :: r -> x <> 120 /\ x <> 88.
Proof.
  intros D R x r E. destruct s; cbn [sign_text app] in E; try discriminate. destruct D as [|d ds H D]; cbn [map app] in E.
  - destruct R as [->|(q & ->)]; discriminate.
  - injection E as _ E. destruct D as [|d2 ds H2 D]; cbn [map app] in E.
    + destruct R as [->|(q & ->)]; [discriminate|]. injection E as <- _. lia.
    + injection E as <- _. unfold dec_char. lia.
Qed.

Lemma head_sign (f : Z -> Z) s ds rest : decimal_digits ds -> (ds <> [] \/ exists r, rest = 46 :: r) ->
  exists c t, sign_text s ++ map dec_char ds ++ rest = c :: t /\ isspace c = false /\
    match s with Minus => c = 45 /\ t = map dec_char ds ++ rest | Plus_ => c = 43 /\ t = map dec_char ds ++ rest | NoSign => c <> 45 /\ c <> 43 end.
Proof.
  intros D N. destruct s; cbn [sign_text app].
  - destruct D as [|d ds H D]; cbn [map app].
    + destruct N as [N|(r & ->)]; [congruence|]. exists 46, r. repeat split; try reflexivity; lia.
    + exists (dec_char d), (map dec_char ds ++ rest). split; [reflexivity|]. unfold dec_char, isspace. lia.
  - exists 43, (map dec_char ds ++ rest). auto.
  - exists 45, (map dec_char ds ++ rest). auto.
Qed.

Lemma strtoll_text s ds : decimal_digits ds -> ds <> [] -> - 2 ^ 63 <= apply_sign s (value_in 10 ds) < 2 ^ 63 ->
  strtoll (sign_text s ++ map dec_char ds) = apply_sign s (value_in 10 ds).
Proof.
  intros D N R. pose proof (dec_digits_acc ds [] 0 D I) as V. rewrite app_nil_r in V.
  destruct (head_sign (fun x => x) s ds [] D (or_introl N)) as (c & t & E & S & M). rewrite app_nil_r in *. unfold strtoll. rewrite E. cbn [drop_space]. rewrite S.
  unfold value_in in *. destruct s; cbn [apply_sign sign_text app] in *.
  - replace (c =? 45) with false by lia. replace (c =? 43) with false by lia. rewrite <- E, V. lia.
  - destruct M as [-> ->]. cbn [Z.eqb Pos.eqb]. rewrite V. lia.
  - destruct M as [-> ->]. cbn [Z.eqb Pos.eqb]. rewrite V. lia.
Qed.

Lemma decimal_text ip fp : decimal_digits ip -> decimal_digits fp -> decimal (map dec_char ip ++ 46 :: map dec_char fp) = point_value ip fp.
Proof.
  intros D1 D2. unfold decimal. rewrite take_digits_ok by auto. cbn [Z.eqb Pos.eqb].
  pose proof (take_digits_ok fp [] (fold_left (fun a d => 10 * a + d) ip 0) 0 D2 I) as T. rewrite app_nil_r in T. rewrite T. cbn [exponent Nat.add].
  unfold point_value, value_in. rewrite fold_left_app. unfold Rdiv. f_equal. rewrite Z.sub_0_l, bpow_opp. f_equal.
  rewrite <- IZR_Zpower by lia. reflexivity.
Qed.

Definition signed_real (s : signs) (x : R) : R := match s with Minus => (- x)%R | _ => x end.

Lemma atof_text s ip fp : decimal_digits ip -> decimal_digits fp ->
  atof (sign_text s ++ map dec_char ip ++ 46 :: map dec_char fp) = nearest_double (signed_real s (point_value ip fp)).
Proof.
  intros D1 D2. destruct (head_sign (fun x => x) s ip (46 :: map dec_char fp) D1) as (c & t & E & S & M); [right; eauto|].
  unfold atof. rewrite E. cbn [drop_space]. rewrite S. destruct s; cbn [sign_text app signed_real] in *.
  - replace (c =? 45) with false by lia. replace (c =? 43) with false by lia. rewrite <- E, decimal_text by auto. reflexivity.
  - destruct M as [-> ->]. cbn [Z.eqb Pos.eqb]. rewrite decimal_text by auto. reflexivity.
  - destruct M as [-> ->]. cbn [Z.eqb Pos.eqb]. rewrite decimal_text by auto. reflexivity.
Qed.

Lemma to_int64_ok d : (Rabs d < IZR (2 ^ 63))%R -> to_int64 d = Ok (Ztrunc d).
Proof.
  intros H. unfold to_int64. assert (A : Z.abs (Ztrunc d) < 2 ^ 63).
  { rewrite <- Ztrunc_abs. apply lt_IZR. eapply Rle_lt_trans; [|exact H]. rewrite Ztrunc_floor by apply Rabs_pos. apply Zfloor_lb. }
  replace ((- 2 ^ 63 <=? Ztrunc d) && (Ztrunc d <? 2 ^ 63)) with true by lia. reflexivity.
Qed.

Lemma hex_char_val c d : hex_char c d -> hexval c = Some d.
Proof. intros [e H|e H|e H]; unfold hexval, isdigit; repeat match goal with |- context [if ?b then _ else _] => destruct b eqn:?; [|] end; try (f_equal; lia); lia. Qed.

Lemma hex_digits_text cs ds : Forall2 hex_char cs ds -> forall a, hex_digits cs a = fold_left (fun a d => 16 * a + d) ds a.
Proof. induction 1 as [|c d cs ds H F IH]; intros a; cbn [hex_digits fold_left]; [reflexivity|]. rewrite (hex_char_val c d H). apply IH. Qed.

(* Texts of integers in decimal and hexadecimal, and of decimal numbers with a point, give the number: the
   integer itself (a hexadecimal one modulo 2^64, as a signed number), the nearest double, and the double
   rounded towards zero. *)
Theorem C174_text_partial :
  (forall s ds, decimal_digits ds -> ds <> [] -> - 2 ^ 63 <= apply_sign s (value_in 10 ds) < 2 ^ 63 ->
   exists e, Set_text (sign_text s ++ map dec_char ds) = Ok e /\
     ivalue e = apply_sign s (value_in 10 ds) /\ dvalue e = nearest_double (IZR (apply_sign s (value_in 10 ds)))) /\
  (forall x cs ds, (x = 120 \/ x = 88) -> Forall2 hex_char cs ds -> ds <> [] -> value_in 16 ds < 2 ^ 64 ->
   exists e, Set_text (48 :: x :: cs) = Ok e /\ - 2 ^ 63 <= ivalue e < 2 ^ 63 /\
     (ivalue e = value_in 16 ds \/ ivalue e = value_in 16 ds - 2 ^ 64) /\ dvalue e = nearest_double (IZR (value_in 16 ds))) /\
  (forall s ip fp, decimal_digits ip -> decimal_digits fp ->
   let d := nearest_double (signed_real s (point_value ip fp)) in
   (Rabs d < IZR (2 ^ 63))%R ->
   exists e, Set_text (sign_text s ++ map dec_char ip ++ 46 :: map dec_char fp) = Ok e /\ dvalue e = d /\ ivalue e = Ztrunc d).
Proof.
  split; [|split].
  - intros s ds D N R. pose proof (not_hex_text s ds [] D (or_introl eq_refl)) as NH. rewrite app_nil_r in NH.
    rewrite Set_plain; [|exact NH|].
    + eexists. split; [reflexivity|]. cbn [ivalue dvalue]. rewrite strtoll_text by auto. auto.
    + rewrite existsb_app, no_point by auto. destruct s; reflexivity.
  - intros x cs ds X F N L. unfold Set_text. replace ((x =? 120) || (x =? 88)) with true by lia.
    assert (V : strtoull16 (48 :: x :: cs) = value_in 16 ds).
    { destruct F as [|c d cs ds H F]; [congruence|]. unfold strtoull16, hex_prefixed. replace ((x =? 120) || (x =? 88)) with true by lia.
      rewrite (hex_char_val c d H). cbn [andb]. rewrite (hex_digits_text (c :: cs) (d :: ds)) by (constructor; auto). unfold value_in in *. lia. }
    assert (P : 0 <= value_in 16 ds).
    { apply value_pos; [lia| |lia]. clear - F. induction F as [|c d cs ds H F IH]; constructor; auto. destruct H; lia. }
    eexists. split; [reflexivity|]. cbn [ivalue dvalue]. rewrite V. unfold sgn. rewrite Z.mod_small by lia.
    change (2 ^ (64 - 1)) with (2 ^ 63). destruct (Z.ltb_spec (value_in 16 ds) (2 ^ 63)); repeat split; auto; lia.
  - intros s ip fp D1 D2 d B. rewrite Set_point.
    + rewrite atof_text by auto. fold d. rewrite to_int64_ok by exact B. cbn [bind]. eexists. split; [reflexivity|]. auto.
    + apply not_hex_text; eauto.
    + rewrite !existsb_app. cbn [existsb]. rewrite (Z.eqb_refl 46). cbn [orb]. rewrite !orb_true_r. reflexivity.
Qed.
Print Assumptions C174_text_partial.

Lemma nearest_int z : Z.abs z <= 2 ^ 53 -> nearest_double (IZR z) = IZR z.
Proof.
  intros H. unfold nearest_double. apply round_generic; [apply valid_rnd_N|]. apply generic_format_FLT.
  destruct (Z.eq_dec (Z.abs z) (2 ^ 53)) as [E|E].
  - exists (Float radix2 (Z.sgn z) 53); cbn [Fnum Fexp]; try lia.
    + unfold F2R. cbn [Fnum Fexp]. rewrite <- IZR_Zpower by lia. rewrite <- mult_IZR. f_equal. change (Zpower radix2 53) with (2 ^ 53). lia.
    + change (radix2 ^ 53) with (2 ^ 53). destruct z; cbn; lia.
  - exists (Float radix2 z 0); cbn [Fnum Fexp]; try lia.
    + unfold F2R. cbn [Fnum Fexp bpow]. lra.
    + change (radix2 ^ 53) with (2 ^ 53). lia.
Qed.

(* "1e3" is 1, "-0x10" is 0, and a number with a point beyond the range of int64_t is UB *)
Theorem C174_text_refuted :
  (exists e, Set_text [49; 101; 51] = Ok e /\ ivalue e = 1 /\ dvalue e = 1%R) /\
  (exists e, Set_text [45; 48; 120; 49; 48] = Ok e /\ ivalue e = 0 /\ dvalue e = 0%R) /\
  Set_text (map dec_char [9; 2; 2; 3; 3; 7; 2; 0; 3; 6; 8; 5; 4; 7; 7; 5; 8; 0; 8] ++ [46; 48]) = UB.
Proof.
  split; [|split].
  - eexists. split; [reflexivity|]. cbn [ivalue dvalue]. split; [reflexivity|]. apply (nearest_int 1). cbn; lia.
  - eexists. split; [reflexivity|]. cbn [ivalue dvalue]. split; [reflexivity|]. apply (nearest_int 0). cbn; lia.
  - set (ip := [9; 2; 2; 3; 3; 7; 2; 0; 3; 6; 8; 5; 4; 7; 7; 5; 8; 0; 8]).
    change (Set_text (sign_text NoSign ++ map dec_char ip ++ 46 :: map dec_char [0]) = UB).
    assert (D1 : decimal_digits ip) by (repeat constructor; lia). assert (D2 : decimal_digits [0]) by (repeat constructor; lia).
    rewrite Set_point.
    + rewrite atof_text by auto. cbn [signed_real]. assert (V : point_value ip [0] = IZR (2 ^ 63)).
      { unfold point_value. change (value_in 10 (ip ++ [0])) with (2 ^ 63 * 10). change (10 ^ Z.of_nat (length [0])) with 10. rewrite mult_IZR. field. }
      rewrite V. assert (G : nearest_double (IZR (2 ^ 63)) = IZR (2 ^ 63)).
      { unfold nearest_double. apply round_generic; [apply valid_rnd_N|]. change (IZR (2 ^ 63)) with (IZR (Zpower radix2 63)). rewrite IZR_Zpower by lia. apply generic_format_bpow. unfold FLT_exp. lia. }
      rewrite G. unfold to_int64. rewrite Ztrunc_IZR. reflexivity.
    + apply not_hex_text; eauto.
    + reflexivity.
Qed.
Print Assumptions C174_text_refuted.

(* the conversion operators give the integer whenever it fits the type *)
Theorem C174_conversions : forall e w, 0 < w ->
  (as_bool e = true <-> ivalue e <> 0) /\
  (- 2 ^ (w - 1) <= ivalue e < 2 ^ (w - 1) -> as_signed w e = ivalue e) /\
  (0 <= ivalue e < 2 ^ w -> as_unsigned w e = ivalue e).
Proof.
  intros e w W. split; [unfold as_bool; destruct (Z.eqb_spec (ivalue e) 0); cbn; split; congruence|].
  assert (P : 2 ^ w = 2 * 2 ^ (w - 1)) by (rewrite <- Z.pow_succ_r by lia; f_equal; lia).
  assert (P2 : 0 < 2 ^ (w - 1)) by (apply Z.pow_pos_nonneg; lia). split; intros H.
  - unfold as_signed, sgn. destruct (Z_lt_le_dec (ivalue e) 0).
    + rewrite <- (Z.mod_unique (ivalue e) (2 ^ w) (-1) (ivalue e + 2 ^ w)) by lia. destruct (Z.ltb_spec (ivalue e + 2 ^ w) (2 ^ (w - 1))); lia.
    + rewrite Z.mod_small by lia. destruct (Z.ltb_spec (ivalue e) (2 ^ (w - 1))); lia.
  - unfold as_unsigned, wrap. apply Z.mod_small. lia.
Qed.
Print Assumptions C174_conversions.

(* "-12", "0xfF", "2.5" *)
Example C174_example :
  decimal_digits [1; 2] /\ apply_sign Minus (value_in 10 [1; 2]) = -12 /\ Forall2 hex_char [102; 70] [15; 15] /\ value_in 16 [15; 15] = 255 /\
  (exists e, Set_text [50; 46; 53] = Ok e /\ dvalue e = 2.5%R /\ ivalue e = 2).
Proof.
  split; [repeat constructor; lia|]. split; [reflexivity|]. split; [constructor; [exact (hc_low 15 ltac:(lia))|constructor; [exact (hc_up 15 ltac:(lia))|constructor]]|].
  split; [reflexivity|]. destruct C174_text_partial as (_ & _ & H). specialize (H NoSign [2] [5]). cbn zeta in H. cbn [signed_real] in H.
  assert (V : point_value [2] [5] = 2.5%R) by (unfold point_value; cbn; lra).
  assert (G : nearest_double 2.5 = 2.5%R).
  { unfold nearest_double. apply round_generic; [apply valid_rnd_N|]. apply generic_format_FLT. exists (Float radix2 5 (-1)); cbn [Fnum Fexp]; try (cbn; lia). unfold F2R. cbn. lra. }
  rewrite V, G in H. destruct H as (e & E & E1 & E2); [repeat constructor; lia|repeat constructor; lia|rewrite Rabs_pos_eq by lra; apply (Rlt_trans _ 3); [lra|apply IZR_lt; reflexivity]|].
  exists e. split; [exact E|]. split; auto. rewrite E2. rewrite Ztrunc_floor by lra. apply Zfloor_imp. cbn. lra.
Qed.

(* ---------- saving and loading ---------- *)
Lemma digits_text l : Forall (fun c => isdigit c = true) l -> exists ds, l = map dec_char ds /\ decimal_digits ds.
Proof.
  induction 1 as [|c l H F (ds & -> & D)]; [exists []; split; [reflexivity|constructor]|]. exists ((c - 48) :: ds). unfold isdigit in H.
  split; [cbn [map]; f_equal; unfold dec_char; lia|constructor; auto; lia].
Qed.

Lemma show_int_point z : - 2 ^ 63 <= z < 2 ^ 63 -> existsb (Z.eqb 46) (show_int z) = false /\ (forall x r, show_int z = 48 :: x :: r -> x <> 120 /\ x <> 88).
Proof.
  intros R. destruct (show_int_shape z R) as (h & t & E & H & T). rewrite E. split.
  - cbn [existsb]. destruct (digits_text t T) as (ds & -> & D). rewrite no_point by auto. unfold isdigit in H. lia.
  - intros x r Q. injection Q as _ ->. inversion T; subst. unfold isdigit in *. lia.
Qed.

Definition six_digits (n : Z) : list Z := map (fun k => n / 10 ^ k mod 10) [5; 4; 3; 2; 1; 0].
Lemma six_text n : six n = map dec_char (six_digits n).
Proof. reflexivity. Qed.
Lemma six_value n a : 0 <= n < 1000000 -> fold_left (fun a d => 10 * a + d) (six_digits n) a = 1000000 * a + n.
Proof.
  intros H. unfold six_digits. cbn [map fold_left]. change (10 ^ 5) with 100000. change (10 ^ 4) with 10000. change (10 ^ 3) with 1000. change (10 ^ 2) with 100. change (10 ^ 1) with 10. change (10 ^ 0) with 1.
  rewrite Z.div_1_r. Z.to_euclidean_division_equations. lia.
Qed.
Lemma six_decimal n : decimal_digits (six_digits n).
Proof. unfold six_digits. cbn [map]. repeat (constructor; [pose proof (Z.mod_pos_bound (n / 10 ^ 5) 10 ltac:(lia)); match goal with |- 0 <= ?x mod 10 <= 9 => pose proof (Z.mod_pos_bound x 10 ltac:(lia)); lia end|]). constructor. Qed.

Lemma show_float_text neg n d : 0 <= n < 10 ^ 25 -> (Rabs d * 1000000 = IZR n)%R ->
  exists ip, decimal_digits ip /\ show_float neg d = sign_text (if neg then Minus else NoSign) ++ map dec_char ip ++ 46 :: map dec_char (six_digits (n mod 1000000)) /\
    point_value ip (six_digits (n mod 1000000)) = Rabs d.
Proof.
  intros N E. unfold show_float. rewrite E. assert (ZN : ZnearestE (IZR n) = n) by (apply Zrnd_IZR; apply valid_rnd_N). rewrite ZN.
  destruct (digits_text _ (digits_digit 309 (n / 1000000) [] (Forall_nil _))) as (ip & Ei & Di). exists ip. split; auto.
  split; [rewrite Ei, six_text; destruct neg; reflexivity|].
  assert (V : value_in 10 ip = n / 1000000).
  { pose proof (digits_value 309 (n / 1000000) []) as V. rewrite Ei in V. pose proof (dec_digits_acc ip [] 0 Di I) as V2. rewrite app_nil_r in V2. unfold value_in. rewrite <- V2. rewrite V; [reflexivity|].
    split; [apply Z.div_pos; lia|]. apply Z.lt_le_trans with (10 ^ 19); [apply Z.div_lt_upper_bound; lia|apply Z.pow_le_mono_r; lia]. }
  unfold point_value, value_in. rewrite fold_left_app. fold (value_in 10 ip). rewrite V.
  pose proof (Z.mod_pos_bound n 1000000 ltac:(lia)). rewrite six_value by lia. rewrite <- Z.div_mod by lia. rewrite <- E. change (10 ^ Z.of_nat (length (six_digits (n mod 1000000)))) with 1000000. field.
Qed.

(* A stored integer survives saving and loading, with the text, the double and all.  So does a stored double
   with at most six digits behind the point. *)
Theorem C175_reload_partial :
  (forall i, - 2 ^ 63 <= i < 2 ^ 63 -> Set_text (svalue (SetInt i)) = Ok (SetInt i) /\ ivalue (SetInt i) = i) /\
  (forall negative d n, generic_format radix2 (FLT_exp (-1074) 53) d -> (Rabs d < IZR (2 ^ 63))%R ->
   (if negative : bool then d <= 0 else 0 <= d)%R -> (Rabs d * 1000000 = IZR n)%R ->
   exists e, SetFloat negative d = Ok e /\ Set_text (svalue e) = Ok e /\ dvalue e = d /\ ivalue e = Ztrunc d).
Proof.
  split.
  - intros i R. destruct (show_int_point i R) as (P & H). cbn [svalue SetInt]. rewrite Set_plain by auto.
    pose proof (strtoll_show i [] R) as S. rewrite app_nil_r in S. rewrite S by constructor. auto.
  - intros neg d n F B S E. assert (N : 0 <= n < 10 ^ 25).
    { pose proof (Rabs_pos d). split; [apply le_IZR; rewrite <- E; lra|]. apply lt_IZR. rewrite <- E. apply Rlt_trans with (IZR (2 ^ 63) * 1000000)%R; [lra|]. rewrite <- mult_IZR. apply IZR_lt. reflexivity. }
    unfold SetFloat. rewrite to_int64_ok by exact B. cbn [bind]. eexists. split; [reflexivity|]. cbn [svalue dvalue ivalue]. split; [|auto].
    destruct (show_float_text neg n d N E) as (ip & D & T & V). rewrite T.
    assert (A : atof (sign_text (if neg then Minus else NoSign) ++ map dec_char ip ++ 46 :: map dec_char (six_digits (n mod 1000000))) = d).
    { rewrite atof_text by (auto using six_decimal). rewrite V. assert (Q : signed_real (if neg then Minus else NoSign) (Rabs d) = d).
      { destruct neg; cbn [signed_real]; [rewrite Rabs_left1 by exact S; ring|now rewrite Rabs_pos_eq]. }
      rewrite Q. unfold nearest_double. apply round_generic; [apply valid_rnd_N|exact F]. }
    rewrite Set_point, A.
    + rewrite to_int64_ok by exact B. reflexivity.
    + apply not_hex_text; eauto.
    + rewrite !existsb_app. cbn [existsb]. rewrite (Z.eqb_refl 46). cbn [orb]. rewrite !orb_true_r. reflexivity.
Qed.
Print Assumptions C175_reload_partial.

(* 2^-30 is loaded as zero; storing 2^63 is UB *)
Theorem C175_reload_refuted :
  (exists e e', SetFloat false (bpow radix2 (-30)) = Ok e /\ Set_text (svalue e) = Ok e' /\ dvalue e' = 0%R) /\
  generic_format radix2 (FLT_exp (-1074) 53) (bpow radix2 (-30)) /\
  SetFloat false (IZR (2 ^ 63)) = UB.
Proof.
  assert (P : (0 < bpow radix2 (-30) < /2 * / 1000000)%R).
  { split; [apply bpow_gt_0|]. change (bpow radix2 (-30)) with (/ IZR (2 ^ 30))%R. rewrite <- Rinv_mult_distr by lra. apply Rinv_lt_contravar; [|].
    - apply Rmult_lt_0_compat; [lra|]. apply IZR_lt. reflexivity.
    - rewrite <- mult_IZR. apply IZR_lt. reflexivity. }
  assert (AB : Rabs (bpow radix2 (-30)) = bpow radix2 (-30)) by (apply Rabs_pos_eq; lra).
  split; [|split].
  - assert (T : show_float false (bpow radix2 (-30)) = sign_text NoSign ++ map dec_char [0] ++ 46 :: map dec_char [0; 0; 0; 0; 0; 0]).
    { unfold show_float. assert (Z0 : ZnearestE (Rabs (bpow radix2 (-30)) * 1000000) = 0).
      { apply Znearest_imp. rewrite AB. rewrite Rabs_pos_eq; lra. }
      rewrite Z0. reflexivity. }
    unfold SetFloat. rewrite to_int64_ok.
    + cbn [bind]. eexists _, {| svalue := _; ivalue := 0; dvalue := 0%R |}. split; [reflexivity|]. cbn [svalue dvalue]. rewrite T. split; [|reflexivity].
      assert (A : atof (sign_text NoSign ++ map dec_char [0] ++ 46 :: map dec_char [0; 0; 0; 0; 0; 0]) = 0%R).
      { rewrite atof_text by (repeat constructor; lia). cbn [signed_real]. replace (point_value [0] [0; 0; 0; 0; 0; 0]) with (IZR 0); [apply (nearest_int 0); cbn; lia|].
        unfold point_value. change (value_in 10 ([0] ++ [0; 0; 0; 0; 0; 0])) with 0. unfold Rdiv. ring. }
      rewrite Set_point, A.
      * unfold to_int64. rewrite Ztrunc_IZR. reflexivity.
      * apply not_hex_text; [repeat constructor; lia|eauto].
      * reflexivity.
    + rewrite AB. apply Rlt_trans with 1%R; [lra|]. apply IZR_lt. reflexivity.
  - apply generic_format_bpow. unfold FLT_exp. lia.
  - unfold SetFloat, to_int64. rewrite Ztrunc_IZR. reflexivity.
Qed.
Print Assumptions C175_reload_refuted.

(* 2.5 with n = 2500000; and an integer *)
Example C175_example : generic_format radix2 (FLT_exp (-1074) 53) 2.5 /\ (Rabs 2.5 * 1000000 = IZR 2500000)%R /\ (Rabs 2.5 < IZR (2 ^ 63))%R /\
  svalue (SetInt (-12)) = [45; 49; 50].
Proof.
  split; [|split; [rewrite Rabs_pos_eq by lra; lra|split; [|reflexivity]]].
  - apply generic_format_FLT. exists (Float radix2 5 (-1)); cbn [Fnum Fexp]; try (cbn; lia). unfold F2R. cbn. lra.
  - rewrite Rabs_pos_eq by lra. apply Rlt_trans with 3%R; [lra|]. apply IZR_lt. reflexivity.
Qed.
