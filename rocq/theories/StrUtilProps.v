(** * C121-C126: the string helpers of bss_util.h and Str.h *)
From Coq Require Import ZArith List Bool Lia ZifyBool ZifyNat.
From Verif Require Import Common Str StrUtil.
Import ListNotations.
Local Open Scope Z_scope.

(** ** Buffers as a part already passed and the rest *)
Lemma get_mid {A} (pre : list A) x t : get (pre ++ x :: t) (length pre) = Ok x.
Proof. apply get_some. rewrite nth_error_app2, Nat.sub_diag by lia. reflexivity. Qed.
Lemma get_at {A} (pre t : list A) k : get (pre ++ t) (length pre + k) = get t k.
Proof. unfold get. rewrite nth_error_app2 by lia. now replace (length pre + k - length pre)%nat with k by lia. Qed.
Lemma set_mid {A} (pre : list A) x y t : set (pre ++ x :: t) (length pre) y = Ok (pre ++ y :: t).
Proof.
  rewrite set_ok by (rewrite app_length; cbn; lia). f_equal. rewrite upd_app_r by lia. now rewrite Nat.sub_diag.
Qed.
Lemma shift {A} (pre : list A) x t : pre ++ x :: t = (pre ++ [x]) ++ t.
Proof. now rewrite <- app_assoc. Qed.
Lemma shift_len {A} (pre : list A) x : S (length pre) = length (pre ++ [x]).
Proof. rewrite app_length. cbn. lia. Qed.
Lemma skipn_pre {A} (pre t : list A) : skipn (length pre) (pre ++ t) = t.
Proof. rewrite skipn_app, skipn_all, Nat.sub_diag. reflexivity. Qed.
Lemma until0_app s t : ~ In 0 s -> until0 (s ++ 0 :: t) = s.
Proof.
  induction s as [|c s IH]; cbn [app until0 In]; intros N; [reflexivity|].
  destruct (Z.eqb_spec c 0); [tauto|]. f_equal. tauto.
Qed.
Lemma cstr_mid pre s t : ~ In 0 s -> cstr (pre ++ s ++ 0 :: t) (length pre) = s.
Proof. intros. unfold cstr. rewrite skipn_pre. now apply until0_app. Qed.
Lemma strend_go s : forall fuel pre t, ~ In 0 s -> (length s < fuel)%nat -> strlen_from fuel (pre ++ s ++ 0 :: t) (length pre) = Ok (length pre + length s)%nat.
Proof.
  induction s as [|c s IH]; intros [|f] pre t N L; cbn [length] in *; try lia; cbn [app strlen_from]; rewrite get_mid; cbn [bind].
  - cbn. f_equal. lia.
  - destruct (Z.eqb_spec c 0) as [->|]; [exfalso; apply N; now left|].
    rewrite (shift pre c), (shift_len pre c), IH by (try lia; intros ?; apply N; now right).
    rewrite app_length; cbn; f_equal; lia.
Qed.
Lemma strend_ok pre s t : ~ In 0 s -> strend (pre ++ s ++ 0 :: t) (length pre) = Ok (length pre + length s)%nat.
Proof. intros. apply strend_go; auto. rewrite !app_length. cbn. lia. Qed.

(** ** C121 *)
Definition subst_char (find repl c : Z) : Z := if c =? find then repl else c.
Lemma strreplace_go find repl s : forall fuel pre t, ~ In 0 s -> (length s < fuel)%nat ->
  strreplace_loop fuel (pre ++ s ++ 0 :: t) (length pre) find repl = Ok (pre ++ map (subst_char find repl) s ++ 0 :: t).
Proof.
  induction s as [|c s IH]; intros [|f] pre t N L; cbn [length] in *; try lia; cbn [app strreplace_loop map]; rewrite get_mid; cbn [bind].
  - reflexivity.
  - destruct (Z.eqb_spec c 0) as [->|]; [exfalso; apply N; now left|]. unfold subst_char at 1.
    destruct (c =? find).
    + rewrite set_mid. cbn [bind]. rewrite (shift pre repl), (shift_len pre repl), IH by (try lia; intros ?; apply N; now right). now rewrite <- app_assoc.
    + rewrite (shift pre c), (shift_len pre c), IH by (try lia; intros ?; apply N; now right). now rewrite <- app_assoc.
Qed.
(** strreplace changes exactly the occurrences of the character in the string, and nothing behind its 0. *)
Theorem C121_strreplace : forall s rest find repl, ~ In 0 s ->
  strreplace (s ++ 0 :: rest) find repl = Ok (map (fun c => if c =? find then repl else c) s ++ 0 :: rest).
Proof. intros. apply (strreplace_go find repl s _ [] rest); auto. rewrite app_length. cbn. lia. Qed.
Print Assumptions C121_strreplace.
Lemma replace_go find repl s : forall pre, replace_loop (length s) (pre ++ s) (length pre) find repl = Ok (pre ++ map (subst_char find repl) s).
Proof.
  induction s as [|c s IH]; intros pre; cbn [length replace_loop map]; [reflexivity|].
  rewrite get_mid. cbn [bind]. unfold subst_char at 1. destruct (c =? find).
  - rewrite set_mid. cbn [bind]. rewrite (shift pre repl), (shift_len pre repl), IH. now rewrite <- app_assoc.
  - rewrite (shift pre c), (shift_len pre c), IH. now rewrite <- app_assoc.
Qed.
(** ReplaceChar does the same to a Str, zeros included. *)
Theorem C121_ReplaceChar : forall s search repl, ReplaceChar s search repl = Ok (map (fun c => if c =? search then repl else c) s).
Proof. intros. apply (replace_go search repl s []). Qed.
Print Assumptions C121_ReplaceChar.

Lemma strccount_go c s : forall fuel pre t ret, ~ In 0 s -> (length s < fuel)%nat ->
  strccount_loop fuel (pre ++ s ++ 0 :: t) (length pre) c ret = Ok (ret + count_occ Z.eq_dec s c)%nat.
Proof.
  induction s as [|x s IH]; intros [|f] pre t ret N L; cbn [length] in *; try lia; cbn [app strccount_loop count_occ]; rewrite get_mid; cbn [bind].
  - cbn. f_equal. lia.
  - destruct (Z.eqb_spec x 0) as [->|]; [exfalso; apply N; now left|].
    rewrite (shift pre x), (shift_len pre x), IH by (try lia; intros ?; apply N; now right).
    destruct (Z.eq_dec x c), (Z.eqb_spec x c); try congruence; f_equal; lia.
Qed.
(** strccount(string, c) counts the occurrences of c. *)
Theorem C121_strccount : forall s rest c, ~ In 0 s -> strccount (s ++ 0 :: rest) c = Ok (count_occ Z.eq_dec s c).
Proof. intros. apply (strccount_go c s _ [] rest 0%nat); auto. rewrite app_length. cbn. lia. Qed.
Print Assumptions C121_strccount.
Lemma strccount_n_go c x0 s : forall n pre t ret, x0 <> 0 -> (n <= length s)%nat -> nth_error (pre ++ s ++ t) 0 = Some x0 ->
  strccount_n_loop n (pre ++ s ++ t) (length pre) c ret = Ok (ret + count_occ Z.eq_dec (firstn n s) c)%nat.
Proof.
  induction s as [|x s IH]; intros [|n] pre t ret N L E; cbn [length] in *; try lia; cbn [strccount_n_loop firstn count_occ]; try (f_equal; lia).
  rewrite (get_some _ _ _ E). cbn [bind]. replace (x0 =? 0) with false by lia. cbn [app]. rewrite get_mid. cbn [bind].
  rewrite (shift pre x), (shift_len pre x), IH; auto; try lia.
  - destruct (Z.eq_dec x c), (Z.eqb_spec x c); try congruence; f_equal; lia.
  - now rewrite <- shift.
Qed.
(** strccount(string, c, length) counts the occurrences of c among the first characters, if the length is at most that of
    the string.  Missing: greater lengths, see the next theorem. *)
Theorem C121_strccount_length_partial : forall s rest c n, ~ In 0 s -> (n <= length s)%nat ->
  strccount_n (s ++ 0 :: rest) c n = Ok (count_occ Z.eq_dec (firstn n s) c).
Proof.
  intros s rest c n N L. destruct s as [|x s].
  - destruct n; cbn in L; [reflexivity|lia].
  - apply (strccount_n_go c x (x :: s) n [] (0 :: rest) 0%nat); auto. intros ->. apply N. now left.
Qed.
Print Assumptions C121_strccount_length_partial.
(** With a greater length it does not stop at the end of the string: it counts what lies behind it, or reads outside the
    buffer. *)
Theorem C121_strccount_length_refuted :
  strccount_n [97; 0; 97] 97 3 = Ok 2%nat /\ count_occ Z.eq_dec (firstn 3 [97]) 97 = 1%nat /\ strccount_n [97; 0] 97 3 = UB.
Proof. repeat split. Qed.
Print Assumptions C121_strccount_length_refuted.

Definition without (c : Z) (s : list Z) : list Z := filter (fun x => negb (x =? c)) s.
Lemma strip_go (c : Z) s : forall fuel pre t a n, ~ In 0 s -> (length s < fuel)%nat -> (length s <= n)%nat ->
  exists k, (length (without c s) + k = n)%nat /\
  strip_loop fuel (pre ++ s ++ 0 :: t) (length pre) c (a ++ repeat 0 (S n)) (length a) =
  Ok (a ++ without c s ++ repeat 0 (S k), (length a + length (without c s))%nat).
Proof.
  induction s as [|x s IH]; intros [|f] pre t a n N L Ln; cbn [length] in *; try lia; cbn [app strip_loop]; rewrite get_mid; cbn [bind].
  - exists n. split; [reflexivity|]. cbn. now rewrite Nat.add_0_r.
  - destruct (Z.eqb_spec x 0) as [->|]; [exfalso; apply N; now left|].
    replace (without c (x :: s)) with (if negb (x =? c) then x :: without c s else without c s) by reflexivity. destruct (negb (x =? c)).
    + destruct n as [|n]; [lia|]. cbn [repeat]. rewrite set_mid. cbn [bind]. rewrite (shift pre x), (shift_len pre x), (shift a x), (shift_len a x).
      destruct (IH f (pre ++ [x]) t (a ++ [x]) n) as (k & K & E); try lia; [intros ?; apply N; now right|].
      exists k. cbn [repeat] in E. rewrite E. split; [cbn [length]; lia|]. rewrite <- !app_assoc, app_length. cbn [app length]. do 2 f_equal. lia.
    + rewrite (shift pre x), (shift_len pre x).
      destruct (IH f (pre ++ [x]) t a n) as (k & K & E); try lia; [intros ?; apply N; now right|]. exists k. now rewrite E.
Qed.
(** StripChar returns the string without the character. *)
Theorem C121_StripChar : forall s rest c, ~ In 0 s -> StripChar (s ++ 0 :: rest) c = Ok (filter (fun x => negb (x =? c)) s).
Proof.
  intros s rest c N. unfold StripChar. pose proof (strend_ok [] s rest N) as L. cbn [app length Nat.add] in L. rewrite L. cbn [bind].
  destruct (strip_go c s (S (length (s ++ 0 :: rest))) [] rest [] (length s)) as (k & K & E); auto; [rewrite app_length; cbn; lia|].
  cbn [app length] in E. rewrite E. cbn [bind Nat.add]. cbn [repeat]. rewrite set_mid. cbn [bind]. f_equal. apply until0_app.
  unfold without. rewrite filter_In. tauto.
Qed.
Print Assumptions C121_StripChar.
Example C121_example :
  strreplace [97; 46; 98; 46; 0; 46] 46 44 = Ok [97; 44; 98; 44; 0; 46] /\ ReplaceChar [46; 0; 46] 46 44 = Ok [44; 0; 44] /\
  strccount [97; 46; 98; 46; 0; 46] 46 = Ok 2%nat /\ strccount_n [97; 46; 98; 46; 0; 46] 46 2 = Ok 1%nat /\
  StripChar [97; 46; 98; 46; 0; 46] 46 = Ok [97; 98] /\ ~ In 0 [97; 46; 98; 46].
Proof. repeat split; cbn; intuition discriminate. Qed.

(** ** C122 *)
(** white space: the characters 1 to 32 *)
Definition white (c : Z) : Prop := 1 <= c <= 32.
(** the other ASCII characters *)
Definition solid (c : Z) : Prop := 33 <= c <= 127.
Lemma ltrim_go a : forall fuel pre c t, Forall white a -> ~ white c -> 0 <= c < 256 -> (length a < fuel)%nat ->
  strltrim_loop fuel (pre ++ a ++ c :: t) (length pre) = Ok (length pre + length a)%nat.
Proof.
  induction a as [|x a IH]; intros [|f] pre c t F N B L; cbn [length] in *; try lia; cbn [app strltrim_loop]; rewrite get_mid; cbn [bind].
  - unfold white in N. replace ((0 <? schar c) && (schar c <? 33)) with false by (unfold schar; destruct (Z.ltb_spec c 128); lia). f_equal; lia.
  - apply Forall_cons_iff in F. destruct F as [W F]. unfold white in W.
    replace ((0 <? schar x) && (schar x <? 33)) with true by (unfold schar; destruct (Z.ltb_spec x 128); lia).
    rewrite (shift pre x), (shift_len pre x), IH by (auto; lia). rewrite app_length. cbn. f_equal. lia.
Qed.
(** strltrim passes over exactly the white space in front. *)
Theorem C122_strltrim : forall pre a c rest, Forall white a -> ~ white c -> 0 <= c < 256 ->
  strltrim (pre ++ a ++ c :: rest) (length pre) = Ok (length pre + length a)%nat.
Proof. intros. apply ltrim_go; auto. rewrite !app_length. cbn. lia. Qed.
Print Assumptions C122_strltrim.
Lemma rtrim_go buf p base : forall k fuel, (p <= base)%nat ->
  (forall i, (base < i <= base + k)%nat -> exists x, nth_error buf i = Some x /\ schar x < 33) ->
  ((p < base)%nat -> exists x, nth_error buf base = Some x /\ 33 <= schar x) -> (k < fuel)%nat ->
  strrtrim_loop fuel buf p (base + k) = Ok base.
Proof.
  induction k as [|k IH]; intros [|f] P W B L; try lia; cbn [strrtrim_loop].
  - rewrite Nat.add_0_r. destruct (Nat.ltb_spec p base); [|reflexivity]. destruct (B H) as (x & E & X).
    rewrite (get_some _ _ _ E). cbn [bind]. replace (schar x <? 33) with false by lia. reflexivity.
  - replace (p <? base + S k)%nat with true by lia. destruct (W (base + S k)%nat) as (x & E & X); [lia|].
    rewrite (get_some _ _ _ E). cbn [bind]. replace (schar x <? 33) with true by lia.
    replace (pred (base + S k)) with (base + k)%nat by lia. apply IH; auto; try lia. intros i I. apply W. lia.
Qed.
Lemma white_schar c : white c -> schar c < 33.
Proof. unfold white, schar. destruct (Z.ltb_spec c 128); lia. Qed.
Lemma solid_schar c : solid c -> 33 <= schar c.
Proof. unfold solid, schar. destruct (Z.ltb_spec c 128); lia. Qed.
Lemma rtrim_ok pre m c b t : ~ In 0 m -> solid c -> Forall white b ->
  strrtrim (pre ++ (m ++ c :: b) ++ 0 :: t) (length pre) = Ok (pre ++ m ++ c :: 0 :: tl (b ++ 0 :: t)).
Proof.
  intros M S F. unfold strrtrim.
  assert (N : ~ In 0 (m ++ c :: b)).
  { rewrite in_app_iff. cbn [In]. unfold solid in S. rewrite Forall_forall in F. intros [?|[?|I]]; [auto|lia|]. apply F in I. unfold white in I. lia. }
  rewrite strend_ok by auto. cbn [bind]. rewrite (app_length m (c :: b)). cbn [length].
  replace (length pre + (length m + Datatypes.S (length b)))%nat with (length (pre ++ m) + Datatypes.S (length b))%nat by (rewrite app_length; lia).
  replace (pre ++ (m ++ c :: b) ++ 0 :: t) with ((pre ++ m) ++ c :: b ++ 0 :: t) by (now rewrite <- !app_assoc).
  rewrite (rtrim_go _ _ (length (pre ++ m)) (Datatypes.S (length b))).
  - cbn [bind]. assert (E : exists y, b ++ 0 :: t = y :: tl (b ++ 0 :: t)) by (destruct b; cbn; eauto). destruct E as [y E]. rewrite E at 1.
    rewrite (shift (pre ++ m) c), (shift_len (pre ++ m) c), set_mid, <- !app_assoc. reflexivity.
  - rewrite app_length. lia.
  - intros i I. rewrite nth_error_app2 by lia. destruct (i - length (pre ++ m))%nat as [|j] eqn:J; [lia|]. cbn [nth_error].
    destruct (Nat.lt_ge_cases j (length b)).
    + rewrite nth_error_app1 by auto. destruct (nth_error_ex b j) as [x X]; auto. exists x. split; [auto|]. apply white_schar.
      rewrite Forall_forall in F. eapply F, nth_error_In; eauto.
    + rewrite nth_error_app2 by auto. replace (j - length b)%nat with 0%nat by lia. exists 0. split; reflexivity.
  - intros _. exists c. split; [|now apply solid_schar]. now rewrite nth_error_app2, Nat.sub_diag by lia.
  - rewrite !app_length. cbn [length]. rewrite app_length. cbn. lia.
Qed.
(** strtrim leaves exactly the text between the white space at both ends, if there is a text and its last character is
    ASCII.  Missing: strings of white space only, the empty string, and other last characters, see the theorems below. *)
Theorem C122_strtrim_partial : forall pre a m b rest, ~ In 0 m -> Forall (fun c => 0 <= c < 256) m ->
  Forall white a -> Forall white b -> m <> [] -> ~ white (hd 0 m) -> solid (last m 0) ->
  exists buf, strtrim (pre ++ a ++ m ++ b ++ 0 :: rest) (length pre) = Ok (buf, (length pre + length a)%nat) /\
    cstr buf (length pre + length a) = m /\
    length buf = length (pre ++ a ++ m ++ b ++ 0 :: rest) /\
    firstn (length pre + length a + length m) buf = pre ++ a ++ m /\
    skipn (length pre + length a + length m + length b) buf = 0 :: rest.
Proof.
  intros pre a m b rest M R A B NE H S. destruct (exists_last NE) as (m' & c & ->). rewrite last_last in S.
  unfold strtrim. assert (E : exists d t, m' ++ [c] = d :: t) by (destruct m'; cbn; eauto). destruct E as (d & t & E).
  assert (L : strltrim (pre ++ a ++ (m' ++ [c]) ++ b ++ 0 :: rest) (length pre) = Ok (length pre + length a)%nat).
  { rewrite E in *. cbn [hd app] in *. apply C122_strltrim; auto. apply Forall_inv in R. auto. }
  rewrite L. cbn [bind].
  replace (length pre + length a)%nat with (length (pre ++ a)) by (now rewrite app_length).
  replace (pre ++ a ++ (m' ++ [c]) ++ b ++ 0 :: rest) with ((pre ++ a) ++ (m' ++ c :: b) ++ 0 :: rest) by (rewrite <- !app_assoc; reflexivity).
  rewrite rtrim_ok; auto; [|rewrite in_app_iff in M; tauto]. cbn [bind]. eexists. split; [reflexivity|].
  assert (LB : forall x, length (tl (b ++ 0 :: x)) = (length b + length x)%nat).
  { intros x. destruct b; cbn [app tl length]; [|rewrite app_length; cbn]; lia. }
  repeat split.
  - replace (m' ++ c :: 0 :: tl (b ++ 0 :: rest)) with ((m' ++ [c]) ++ 0 :: tl (b ++ 0 :: rest)) by (now rewrite <- app_assoc). now apply cstr_mid.
  - rewrite !app_length. cbn [length]. rewrite LB, ?app_length. cbn. lia.
  - replace ((pre ++ a) ++ m' ++ c :: 0 :: tl (b ++ 0 :: rest)) with ((pre ++ a ++ m' ++ [c]) ++ 0 :: tl (b ++ 0 :: rest)) by (now rewrite <- !app_assoc).
    rewrite firstn_app. replace (length (pre ++ a) + length (m' ++ [c]) - length (pre ++ a ++ m' ++ [c]))%nat with 0%nat by (rewrite !app_length; lia).
    rewrite firstn_O, app_nil_r. apply firstn_all2. rewrite !app_length. lia.
  - destruct b as [|y b]; cbn [app tl length].
    + replace ((pre ++ a) ++ m' ++ c :: 0 :: rest) with ((pre ++ a ++ m' ++ [c]) ++ 0 :: rest) by (now rewrite <- !app_assoc).
      rewrite skipn_app, skipn_all2 by (rewrite !app_length; cbn; lia).
      replace (length (pre ++ a) + length (m' ++ [c]) + 0 - length (pre ++ a ++ m' ++ [c]))%nat with 0%nat by (rewrite !app_length; cbn; lia). reflexivity.
    + replace ((pre ++ a) ++ m' ++ c :: 0 :: b ++ 0 :: rest) with ((pre ++ a ++ m' ++ c :: 0 :: b) ++ 0 :: rest) by (now rewrite <- !app_assoc).
      rewrite skipn_app, skipn_all2 by (rewrite !app_length; cbn; lia).
      replace (length (pre ++ a) + length (m' ++ [c]) + Datatypes.S (length b) - length (pre ++ a ++ m' ++ c :: 0%Z :: b))%nat with 0%nat by (rewrite !app_length; cbn; lia). reflexivity.
Qed.
Print Assumptions C122_strtrim_partial.
(** On every string of white space, also the empty one, whose buffer ends with its terminating 0, strtrim writes behind the
    end of the buffer. *)
Theorem C122_blank_refuted : forall a, Forall white a -> strtrim (a ++ [0]) 0 = UB.
Proof.
  intros a F. unfold strtrim. pose proof (C122_strltrim [] a 0 [] F) as L. cbn [app length Nat.add] in L. rewrite L by (unfold white; lia). cbn [bind].
  unfold strrtrim. pose proof (strend_ok a [] [] (fun x => x)) as L2. cbn [app length] in L2. rewrite L2. cbn [bind]. rewrite (rtrim_go _ (length a) (length a) 0); try lia.
  cbn [bind]. unfold set. rewrite app_length. cbn [length]. now replace (S (length a) <? length a + 1)%nat with false by lia.
Qed.
Print Assumptions C122_blank_refuted.
(** strrtrim leaves one blank of a string of blanks; and it removes characters outside ASCII, here the two bytes of an
    e with an acute accent. *)
Theorem C122_rtrim_refuted :
  (do b <- strrtrim [32; 32; 0] 0; Ok (cstr b 0)) = Ok [32] /\
  (do b <- strrtrim [97; 195; 169; 0] 0; Ok (cstr b 0)) = Ok [97].
Proof. split; reflexivity. Qed.
Print Assumptions C122_rtrim_refuted.
Example C122_example : (do (b, q) <- strtrim [32; 9; 97; 32; 98; 10; 32; 0; 55] 0; Ok (cstr b q)) = Ok [97; 32; 98] /\
  Forall white [32; 9] /\ solid (last [97; 32; 98] 0) /\ ~ white (hd 0 [97; 32; 98]).
Proof. repeat split; try (cbn; unfold white; lia). repeat constructor; unfold white; lia. Qed.

(** ** C123 *)
(** an argument on a command line: a word, or a text in quotation marks *)
Inductive arg := Bare (w : list Z) | Quoted (w : list Z).
Definition text (a : arg) : list Z := match a with Bare w | Quoted w => w end.
Definition written (a : arg) : list Z := match a with Bare w => w | Quoted w => 34 :: w ++ [34] end.
(** a quotation mark followed by white space ends a quoted text *)
Fixpoint no_end (w : list Z) : Prop :=
  match w with
  | c :: t => ~ (c = 34 /\ isspace (hd 0 t) = true) /\ no_end t
  | [] => True
  end.
Definition good_arg (a : arg) : Prop :=
  match a with
  | Bare w => w <> [] /\ hd 0 w <> 34 /\ Forall (fun c => c <> 0 /\ isspace c = false) w
  | Quoted w => ~ In 0 w /\ no_end w
  end.
Definition blanks (l : list Z) : Prop := Forall (fun c => isspace c = true) l.
(** the command line: every argument with the white space behind it *)
Fixpoint line (l : list (arg * list Z)) : list Z :=
  match l with
  | [] => []
  | (a, sp) :: t => written a ++ sp ++ line t
  end.
Fixpoint good_line (l : list (arg * list Z)) : Prop :=
  match l with
  | [] => True
  | (a, sp) :: t => good_arg a /\ blanks sp /\ (t = [] \/ sp <> []) /\ good_line t
  end.
Lemma isspace_0 c : isspace c = true -> c <> 0.
Proof. intros H ->. discriminate. Qed.
Lemma bare_go w : forall fuel pre c t, Forall (fun c => c <> 0 /\ isspace c = false) w -> c = 0 \/ isspace c = true -> (length w < fuel)%nat ->
  forall x, skip_bare fuel (pre ++ x :: w ++ c :: t) (length pre) = Ok (S (length pre + length w))%nat.
Proof.
  induction w as [|y w IH]; intros [|f] pre c t F C L x; cbn [length] in *; try lia; cbn [app skip_bare];
    rewrite (shift pre x), (shift_len pre x), get_mid; cbn [bind].
  - replace (negb (c =? 0) && negb (isspace c)) with false by (destruct C as [->|E]; [reflexivity|rewrite E; destruct (c =? 0); reflexivity]).
    rewrite app_length. cbn. f_equal. lia.
  - apply Forall_cons_iff in F. destruct F as [[Y0 Y] F]. rewrite Y. replace (negb (y =? 0)) with true by lia. cbn [andb negb].
    rewrite IH by (auto; lia). rewrite app_length. cbn. f_equal. lia.
Qed.
(** the closing quotation mark is followed by the end or by white space *)
Lemma quoted_go w : forall fuel pre c t, ~ In 0 w -> no_end w -> c = 0 \/ isspace c = true -> (length w < fuel)%nat ->
  forall x, skip_quoted fuel (pre ++ x :: w ++ 34 :: c :: t) (length pre) = Ok (S (length pre + length w))%nat.
Proof.
  induction w as [|y w IH]; intros [|f] pre c t N E C L x; cbn [length] in *; try lia; cbn [app skip_quoted];
    rewrite (shift pre x), (shift_len pre x), get_mid; cbn [bind].
  - replace (34 =? 0) with false by reflexivity. rewrite (shift (pre ++ [x]) 34), (shift_len (pre ++ [x]) 34), get_mid. cbn [bind].
    rewrite !app_length. cbn [length]. destruct C as [->|C].
    + cbn. f_equal. lia.
    + rewrite C. replace (c =? 0) with false by (apply isspace_0 in C; lia). cbn. f_equal. lia.
  - cbn [no_end] in E. destruct E as [E1 E2].
    replace (y =? 0) with false by (symmetry; apply Z.eqb_neq; intros ->; apply N; now left).
    assert (Z : exists d t', w ++ 34 :: c :: t = d :: t' /\ d <> 0 /\ (y = 34 -> isspace d = false)).
    { destruct w as [|d w]; cbn [app].
      - exists 34, (c :: t). repeat split; lia || auto.
      - exists d, (w ++ 34 :: c :: t). repeat split; [intros ->; apply N; cbn; auto|]. intros ->. cbn [hd] in E1. destruct (isspace d); tauto. }
    destruct Z as (d & t' & Z & D0 & D). rewrite Z at 1. rewrite (shift (pre ++ [x]) y), (shift_len (pre ++ [x]) y), get_mid. cbn [bind].
    replace (d =? 0) with false by lia.
    replace (negb (y =? 34) || negb (isspace d)) with true.
    2:{ destruct (Z.eqb_spec y 34) as [->|]; [rewrite D by auto|]; reflexivity. }
    rewrite IH by (auto; try lia; intros ?; apply N; now right). rewrite app_length. cbn. f_equal. lia.
Qed.
Lemma blanks_go sp : forall fuel cap pre t argv, blanks sp ->
  argv_loop (length sp + fuel) cap (pre ++ sp ++ t) argv (length pre) = argv_loop fuel cap (pre ++ sp ++ t) argv (length pre + length sp).
Proof.
  induction sp as [|c sp IH]; intros fuel cap pre t argv F; cbn [length Nat.add app].
  - now rewrite Nat.add_0_r.
  - apply Forall_cons_iff in F. destruct F as [C F]. cbn [argv_loop]. rewrite get_mid. cbn [bind].
    replace (c =? 0) with false by (apply isspace_0 in C; lia). rewrite C. rewrite (shift pre c), (shift_len pre c), IH by auto. rewrite app_length. cbn [length]. f_equal. lia.
Qed.
(** the buffer after the arguments have been cut off *)
Definition cutw (a : arg) (sp : list Z) : list Z :=
  match a with
  | Bare w => w ++ match sp with [] => [] | _ :: t => 0 :: t end
  | Quoted w => 34 :: w ++ 0 :: sp
  end.
Fixpoint cut (l : list (arg * list Z)) : list Z :=
  match l with
  | [] => []
  | (a, sp) :: t => cutw a sp ++ cut t
  end.
Definition offset (a : arg) : nat := match a with Bare _ => 0%nat | Quoted _ => 1%nat end.
Fixpoint starts (n : nat) (l : list (arg * list Z)) : list nat :=
  match l with
  | [] => []
  | (a, sp) :: t => (n + offset a)%nat :: starts (n + length (written a ++ sp)) t
  end.
Definition mode (cap : option nat) (l : list (arg * list Z)) : list Z := match cap with Some _ => cut l | None => line l end.
Lemma argv_go l : forall fuel cap pre t argv, good_line l -> (length (line l) < fuel)%nat ->
  match cap with Some n => (length argv + length l <= n)%nat | None => True end ->
  argv_loop fuel cap (pre ++ line l ++ 0 :: t) argv (length pre) = Ok (pre ++ mode cap l ++ 0 :: t, argv ++ starts (length pre) l).
Proof.
  induction l as [|[a sp] l IH]; intros fuel cap pre t argv G L C.
  - destruct fuel; [cbn in L; lia|]. cbn [line app argv_loop starts]. rewrite get_mid. cbn [bind]. rewrite app_nil_r. unfold mode. now destruct cap.
  - cbn [good_line] in G. destruct G as (GA & B & SP & G). destruct fuel as [|f]; [lia|]. cbn [line starts] in *.
    assert (FIT : negb match cap with Some n => (length argv <? n)%nat | None => true end = false).
    { destruct cap as [n|]; [|reflexivity]. cbn [length] in C. destruct (Nat.ltb_spec (length argv) n); [reflexivity|lia]. }
    destruct a as [w|w]; cbn [written offset good_arg] in *.
    + destruct GA as (NE & H & F). destruct w as [|x w]; [congruence|]. cbn [hd] in H. apply Forall_cons_iff in F. destruct F as [[X0 X] F].
      cbn [app argv_loop]. rewrite get_mid. cbn [bind]. replace (x =? 0) with false by lia. rewrite X, FIT. replace (x =? 34) with false by lia.
      destruct sp as [|s sp].
      * destruct SP as [->|]; [|congruence]. cbn [line app starts]. rewrite app_nil_r.
        rewrite bare_go; auto; [|cbn [line app] in L; rewrite app_nil_r in L; cbn [length] in L; lia].
        cbn [bind].
        replace (pre ++ x :: w ++ 0 :: t) with ((pre ++ x :: w) ++ 0 :: t) by (now rewrite <- app_assoc).
        replace (S (length pre + length w)) with (length (pre ++ x :: w)) by (rewrite app_length; cbn; lia).
        rewrite get_mid. cbn [bind]. replace (0 =? 0) with true by reflexivity. rewrite Nat.add_0_r.
        destruct cap; cbn [mode cut cutw line written app]; rewrite ?app_nil_r, <- ?app_assoc; reflexivity.
      * apply Forall_cons_iff in B. destruct B as [S0 B]. pose proof (isspace_0 s S0) as Sn.
        repeat (rewrite <- app_assoc; cbn [app]). rewrite bare_go; auto; [|rewrite app_length in L; cbn [app length] in L; lia].
        cbn [bind].
        replace (pre ++ x :: w ++ s :: sp ++ line l ++ 0 :: t) with ((pre ++ x :: w) ++ s :: sp ++ line l ++ 0 :: t) by (now rewrite <- app_assoc).
        replace (S (length pre + length w)) with (length (pre ++ x :: w)) by (rewrite app_length; cbn; lia).
        rewrite get_mid. cbn [bind]. replace (s =? 0) with false by lia.
        set (y := match cap with Some _ => 0 | None => s end).
        replace (match cap with Some _ => set ((pre ++ x :: w) ++ s :: sp ++ line l ++ 0 :: t) (length (pre ++ x :: w)) 0 | None => Ok ((pre ++ x :: w) ++ s :: sp ++ line l ++ 0 :: t) end)
          with (Ok ((pre ++ x :: w) ++ y :: sp ++ line l ++ 0 :: t)) by (subst y; destruct cap; [now rewrite set_mid|reflexivity]).
        cbn [bind]. rewrite (shift (pre ++ x :: w) y), (shift_len (pre ++ x :: w) y).
        assert (Lf : exists f', f = (length sp + f')%nat /\ (length (line l) < f')%nat).
        { exists (f - length sp)%nat. cbn [app length] in L. rewrite !app_length in L. cbn [length] in L. rewrite app_length in L. lia. }
        destruct Lf as (f' & -> & Lf). rewrite blanks_go by auto.
        replace (length ((pre ++ x :: w) ++ [y]) + length sp)%nat with (length (((pre ++ x :: w) ++ [y]) ++ sp)) by (rewrite !app_length; cbn; lia).
        rewrite (app_assoc ((pre ++ x :: w) ++ [y]) sp). rewrite IH; auto.
        2:{ destruct cap; [|exact I]. rewrite app_length. cbn [length] in *. lia. }
        rewrite Nat.add_0_r. f_equal. f_equal.
        -- subst y. destruct cap; cbn [mode cut cutw line written app]; rewrite <- !app_assoc; cbn [app]; rewrite <- ?app_assoc; reflexivity.
        -- rewrite <- app_assoc. cbn [app]. do 3 f_equal. rewrite !app_length. cbn [length]. rewrite !app_length. cbn [length]. lia.
    + destruct GA as (N & E).
      cbn [app argv_loop]. rewrite get_mid. cbn [bind]. replace (34 =? 0) with false by reflexivity. replace (isspace 34) with false by reflexivity. rewrite FIT.
      replace (34 =? 34) with true by reflexivity. rewrite <- !app_assoc. cbn [app].
      assert (Z : exists c t', sp ++ line l ++ 0 :: t = c :: t' /\ (c = 0 \/ isspace c = true)).
      { destruct sp as [|s sp]; cbn [app].
        - destruct SP as [->|]; [|congruence]. exists 0, t. cbn. auto.
        - apply Forall_inv in B. eauto. }
      destruct Z as (c & t' & Z & Cc).
      assert (Q : skip_quoted f (pre ++ 34 :: w ++ 34 :: sp ++ line l ++ 0 :: t) (length pre) = Ok (S (length pre + length w))%nat).
      { rewrite Z. apply quoted_go; auto. cbn [app length] in L. rewrite !app_length in L. cbn [length] in L. lia. }
      rewrite Q. cbn [bind].
      replace (pre ++ 34 :: w ++ 34 :: sp ++ line l ++ 0 :: t) with ((pre ++ 34 :: w) ++ 34 :: sp ++ line l ++ 0 :: t) by (now rewrite <- app_assoc).
      replace (S (length pre + length w)) with (length (pre ++ 34 :: w)) by (rewrite app_length; cbn; lia).
      rewrite get_mid. cbn [bind]. replace (34 =? 0) with false by reflexivity.
      set (y := match cap with Some _ => 0 | None => 34 end).
      replace (match cap with Some _ => set ((pre ++ 34 :: w) ++ 34 :: sp ++ line l ++ 0 :: t) (length (pre ++ 34 :: w)) 0 | None => Ok ((pre ++ 34 :: w) ++ 34 :: sp ++ line l ++ 0 :: t) end)
        with (Ok ((pre ++ 34 :: w) ++ y :: sp ++ line l ++ 0 :: t)) by (subst y; destruct cap; [now rewrite set_mid|reflexivity]).
      cbn [bind]. rewrite (shift (pre ++ 34 :: w) y), (shift_len (pre ++ 34 :: w) y).
      assert (Lf : exists f', f = (length sp + f')%nat /\ (length (line l) < f')%nat).
      { exists (f - length sp)%nat. cbn [app length] in L. rewrite !app_length in L. cbn [length] in L. lia. }
      destruct Lf as (f' & -> & Lf). rewrite blanks_go by auto.
      replace (length ((pre ++ 34%Z :: w) ++ [y]) + length sp)%nat with (length (((pre ++ 34%Z :: w) ++ [y]) ++ sp)) by (rewrite !app_length; cbn; lia).
      rewrite (app_assoc ((pre ++ 34 :: w) ++ [y]) sp). rewrite IH; auto.
      2:{ destruct cap; [|exact I]. rewrite app_length. cbn [length] in *. lia. }
      f_equal. f_equal.
      * subst y. destruct cap; cbn [mode cut cutw line written app]; rewrite <- !app_assoc; cbn [app]; rewrite <- ?app_assoc; reflexivity.
      * rewrite <- app_assoc. cbn [app]. replace (length pre + 1)%nat with (S (length pre)) by lia. do 3 f_equal. rewrite !app_length. cbn [length]. rewrite !app_length. cbn [length]. lia.
Qed.
Lemma no_zero_text a : good_arg a -> ~ In 0 (text a).
Proof.
  destruct a; cbn [good_arg text]; [|tauto]. intros (_ & _ & F) I. rewrite Forall_forall in F. apply F in I. tauto.
Qed.
Lemma starts_text l : forall pre t, good_line l -> map (cstr (pre ++ cut l ++ 0 :: t)) (starts (length pre) l) = map (fun p => text (fst p)) l.
Proof.
  induction l as [|[a sp] l IH]; intros pre t G; cbn [starts map cut fst]; [reflexivity|].
  cbn [good_line] in G. destruct G as (GA & B & SP & G). pose proof (no_zero_text a GA) as NZ. f_equal.
  - destruct a as [w|w]; cbn [offset cutw text] in *.
    + rewrite Nat.add_0_r. destruct sp as [|s sp].
      * destruct SP as [->|]; [|congruence]. cbn [cut app]. rewrite app_nil_r, app_nil_r. now apply cstr_mid.
      * rewrite <- !app_assoc. cbn [app]. now apply cstr_mid.
    + replace (pre ++ ((34 :: w ++ 0 :: sp) ++ cut l) ++ 0 :: t) with ((pre ++ [34]) ++ w ++ 0 :: sp ++ cut l ++ 0 :: t) by (repeat (rewrite <- app_assoc; cbn [app]); reflexivity).
      replace (length pre + 1)%nat with (length (pre ++ [34])) by (now rewrite app_length). now apply cstr_mid.
  - assert (LC : length (written a ++ sp) = length (cutw a sp)).
    { destruct a; cbn [written cutw length]; rewrite ?app_length; [destruct sp; reflexivity|cbn; rewrite !app_length; cbn; lia]. }
    rewrite LC, <- app_length, <- (IH (pre ++ cutw a sp) t G). f_equal. now rewrite <- !app_assoc.
Qed.
(** A command line made of words and quoted texts, separated by white space, is taken apart into exactly these arguments,
    and the count found without an array is their number. *)
Theorem C123_ToArgV_arguments : forall lead l rest, blanks lead -> good_line l ->
  let args := map (fun p => text (fst p)) l in
  ToArgV None (lead ++ line l ++ 0 :: rest) = Ok (lead ++ line l ++ 0 :: rest, starts (length lead) l) /\
  length (starts (length lead) l) = length args /\
  forall n, (length args <= n)%nat -> exists buf argv, ToArgV (Some n) (lead ++ line l ++ 0 :: rest) = Ok (buf, argv) /\ map (cstr buf) argv = args.
Proof.
  intros lead l rest B G args.
  assert (R : forall cap, match cap with Some n => (length l <= n)%nat | None => True end ->
    ToArgV cap (lead ++ line l ++ 0 :: rest) = Ok (lead ++ mode cap l ++ 0 :: rest, starts (length lead) l)).
  { intros cap H. unfold ToArgV. rewrite !app_length. cbn [length].
    replace (S (length lead + (length (line l) + S (length rest)))) with (length lead + S (length (line l) + S (length rest)))%nat by lia.
    pose proof (blanks_go lead (S (length (line l) + S (length rest))) cap [] (line l ++ 0 :: rest) [] B) as E. cbn [app length Nat.add] in E. cbn [Nat.add].
    rewrite E. rewrite argv_go; auto. lia. }
  split; [apply (R None); exact I|]. split.
  - unfold args. rewrite map_length. clear. generalize (length lead). induction l as [|[a sp] l IH]; intros n; cbn; auto.
  - intros n H. unfold args in *. rewrite map_length in H. rewrite (R (Some n)) by auto. do 2 eexists. split; [reflexivity|]. now apply starts_text.
Qed.
Print Assumptions C123_ToArgV_arguments.
(** two buffers agree from position p on *)
Definition agree (b1 b2 : list Z) (p : nat) : Prop := length b1 = length b2 /\ forall i, (p <= i)%nat -> nth_error b1 i = nth_error b2 i.
Lemma agree_get b1 b2 p i : agree b1 b2 p -> (p <= i)%nat -> get b1 i = get b2 i.
Proof. intros [_ A] L. unfold get. now rewrite A. Qed.
Lemma agree_le b1 b2 p q : agree b1 b2 p -> (p <= q)%nat -> agree b1 b2 q.
Proof. intros [L A] H. split; [auto|]. intros i I. apply A. lia. Qed.
Lemma agree_quoted b1 b2 f : forall p, agree b1 b2 p -> skip_quoted f b1 p = skip_quoted f b2 p.
Proof.
  induction f as [|f IH]; intros p A; cbn [skip_quoted]; [reflexivity|].
  rewrite (agree_get _ _ _ (S p) A), (agree_get _ _ _ (S (S p)) A), IH by (eauto using agree_le; lia). reflexivity.
Qed.
Lemma agree_bare b1 b2 f : forall p, agree b1 b2 p -> skip_bare f b1 p = skip_bare f b2 p.
Proof.
  induction f as [|f IH]; intros p A; cbn [skip_bare]; [reflexivity|].
  rewrite (agree_get _ _ _ (S p) A), IH by (eauto using agree_le; lia). reflexivity.
Qed.
(** a string of e characters in a buffer *)
Definition string_in (buf : list Z) (e : nat) : Prop := nth_error buf e = Some 0 /\ forall i, (i < e)%nat -> exists c, nth_error buf i = Some c /\ c <> 0.
Lemma string_get buf e p : string_in buf e -> (p <= e)%nat -> exists c, get buf p = Ok c /\ (c = 0 <-> p = e).
Proof.
  intros [Z N] L. destruct (Nat.eq_dec p e) as [->|].
  - exists 0. split; [now apply get_some|tauto].
  - destruct (N p) as (c & C & C0); [lia|]. exists c. split; [now apply get_some|]. tauto.
Qed.
Lemma quoted_total buf e f : forall p, string_in buf e -> (p < e)%nat -> (e <= p + f)%nat ->
  exists q, skip_quoted f buf p = Ok q /\ (p < q <= e)%nat.
Proof.
  induction f as [|f IH]; intros p S L F; [lia|]. cbn [skip_quoted].
  destruct (string_get buf e (Datatypes.S p) S) as (c & -> & C); [lia|]. cbn [bind].
  destruct (Z.eqb_spec c 0); [exists (Datatypes.S p); split; [reflexivity|lia]|].
  assert (Datatypes.S p <> e) by tauto.
  destruct (string_get buf e (Datatypes.S (Datatypes.S p)) S) as (d & -> & D); [lia|]. cbn [bind].
  destruct (Z.eqb_spec d 0); [exists (Datatypes.S p); split; [reflexivity|lia]|].
  assert (Datatypes.S (Datatypes.S p) <> e) by tauto.
  destruct (negb (c =? 34) || negb (isspace d)); [|exists (Datatypes.S p); split; [reflexivity|lia]].
  destruct (IH (Datatypes.S p) S) as (q & -> & Q); try lia. exists q. split; [reflexivity|lia].
Qed.
Lemma bare_total buf e f : forall p, string_in buf e -> (p < e)%nat -> (e <= p + f)%nat ->
  exists q, skip_bare f buf p = Ok q /\ (p < q <= e)%nat.
Proof.
  induction f as [|f IH]; intros p S L F; [lia|]. cbn [skip_bare].
  destruct (string_get buf e (Datatypes.S p) S) as (c & -> & C); [lia|]. cbn [bind].
  destruct (Z.eqb_spec c 0); [exists (Datatypes.S p); split; [reflexivity|lia]|].
  assert (Datatypes.S p <> e) by tauto. cbn [negb andb].
  destruct (negb (isspace c)); [|exists (Datatypes.S p); split; [reflexivity|lia]].
  destruct (IH (Datatypes.S p) S) as (q & -> & Q); try lia. exists q. split; [reflexivity|lia].
Qed.
Lemma argv_total buf e f : forall p argv, string_in buf e -> (p <= e)%nat -> (e < p + f)%nat -> Forall (fun i => (i <= e)%nat) argv ->
  exists argv', argv_loop f None buf argv p = Ok (buf, argv') /\ Forall (fun i => (i <= e)%nat) argv' /\ (length argv <= length argv')%nat /\
  forall n b2, agree buf b2 p -> (length argv' <= n)%nat -> exists b3, argv_loop f (Some n) b2 argv p = Ok (b3, argv') /\ agree buf b3 e.
Proof.
  induction f as [|f IH]; intros p argv S L F A; [lia|]. cbn [argv_loop].
  destruct (string_get buf e p S L) as (c & G & C). rewrite G. cbn [bind].
  destruct (Z.eqb_spec c 0) as [C0|C0].
  { exists argv. repeat split; auto. intros n b2 AG _. rewrite <- (agree_get _ _ _ p AG), G by lia. cbn [bind].
    rewrite (proj2 (Z.eqb_eq c 0) C0). exists b2. split; [reflexivity|]. eapply agree_le; eauto. }
  assert (p < e)%nat by (destruct (Nat.eq_dec p e); [tauto|lia]).
  destruct (isspace c) eqn:SP.
  { destruct (IH (Datatypes.S p) argv S) as (argv' & E & A' & LE & R); try lia; auto. exists argv'. repeat split; auto.
    intros n b2 AG N. rewrite <- (agree_get _ _ _ p AG), G by lia. cbn [bind]. rewrite (proj2 (Z.eqb_neq c 0) C0), SP. apply R; auto. eapply agree_le; eauto. }
  cbn [negb].
  assert (Q : exists a q, (forall b2, agree buf b2 p -> (if c =? 34 then do q <- skip_quoted f b2 p; Ok (argv ++ [Datatypes.S p], q)
                           else do q <- skip_bare f b2 p; Ok (argv ++ [p], q)) = Ok (argv ++ [a], q)) /\ (p < q <= e)%nat /\ (a <= e)%nat).
  { destruct (c =? 34).
    - destruct (quoted_total buf e f p S) as (q & E & Q); try lia. exists (Datatypes.S p), q. repeat split; try lia.
      intros b2 AG. now rewrite <- (agree_quoted buf b2 f p AG), E.
    - destruct (bare_total buf e f p S) as (q & E & Q); try lia. exists p, q. repeat split; try lia.
      intros b2 AG. now rewrite <- (agree_bare buf b2 f p AG), E. }
  destruct Q as (a & q & E & Q & Aa). rewrite (E buf) by (split; auto). cbn [bind].
  assert (A2 : Forall (fun i => (i <= e)%nat) (argv ++ [a])) by (apply Forall_app; split; auto).
  destruct (string_get buf e q S) as (d & Gd & D); [lia|]. rewrite Gd. cbn [bind].
  destruct (Z.eqb_spec d 0) as [D0|D0].
  { exists (argv ++ [a]). repeat split; auto; [rewrite app_length; lia|].
    intros n b2 AG N. rewrite app_length in N. cbn [length] in N.
    rewrite <- (agree_get _ _ _ p AG), G by lia. cbn [bind]. rewrite (proj2 (Z.eqb_neq c 0) C0), SP.
    replace (length argv <? n)%nat with true by lia. cbn [negb]. rewrite E by auto. cbn [bind].
    rewrite <- (agree_get _ _ _ q AG), Gd by lia. cbn [bind]. rewrite (proj2 (Z.eqb_eq d 0) D0). exists b2. split; [reflexivity|]. eapply agree_le; eauto. }
  assert (q < e)%nat by (destruct (Nat.eq_dec q e); [tauto|lia]).
  destruct (IH (Datatypes.S q) (argv ++ [a]) S) as (argv' & E' & A' & LE & R); try lia; auto.
  exists argv'. rewrite app_length in LE. cbn [length] in LE. repeat split; auto; [lia|].
  intros n b2 AG N. rewrite <- (agree_get _ _ _ p AG), G by lia. cbn [bind]. rewrite (proj2 (Z.eqb_neq c 0) C0), SP.
  replace (length argv <? n)%nat with true by lia. cbn [negb]. rewrite E by auto. cbn [bind].
  rewrite <- (agree_get _ _ _ q AG), Gd by lia. cbn [bind]. rewrite (proj2 (Z.eqb_neq d 0) D0).
  assert (QL : (q < length b2)%nat). { destruct AG as [AL _]. rewrite <- AL. apply get_inv in Gd. eapply nth_error_lt; eauto. }
  rewrite set_ok by auto. cbn [bind]. apply R; auto.
  destruct AG as [AL AG]. split; [now rewrite upd_length|]. intros i I. rewrite nth_error_upd_neq by lia. apply AG. lia.
Qed.
(** On every string the count of the first call (without an array) is the size of the array that the second call needs: it
    stores that many pointers, all into the string, and never leaves its buffers. *)
Theorem C123_ToArgV_two_calls : forall s rest, ~ In 0 s ->
  exists argv, ToArgV None (s ++ 0 :: rest) = Ok (s ++ 0 :: rest, argv) /\ Forall (fun i => (i <= length s)%nat) argv /\
  forall n, (length argv <= n)%nat -> exists buf, ToArgV (Some n) (s ++ 0 :: rest) = Ok (buf, argv) /\
    length buf = length (s ++ 0 :: rest) /\ skipn (length s) buf = 0 :: rest.
Proof.
  intros s rest N. assert (S : string_in (s ++ 0 :: rest) (length s)).
  { split; [now rewrite nth_error_app2, Nat.sub_diag by lia|]. intros i I. rewrite nth_error_app1 by auto.
    destruct (nth_error_ex s i I) as [c C]. exists c. split; [auto|]. intros ->. apply N. eapply nth_error_In; eauto. }
  destruct (argv_total _ _ (Datatypes.S (length (s ++ 0 :: rest))) 0 [] S) as (argv & E & A & _ & R); auto; try lia; [rewrite app_length; lia|].
  exists argv. split; [exact E|]. split; [exact A|]. intros n L. destruct (R n (s ++ 0 :: rest)) as (b3 & E3 & AL & AG); auto; [split; auto|].
  exists b3. split; [exact E3|]. split; [auto|].
  apply nth_error_ext. intros i. rewrite nth_error_skipn, <- AG by lia. rewrite nth_error_app2 by lia. f_equal. lia.
Qed.
Print Assumptions C123_ToArgV_two_calls.
Example C123_example :
  let l := [(Bare [97; 98], [32; 9]); (Quoted [99; 32; 34; 100; 34], [32]); (Quoted [], [])] in
  good_line l /\ line l = [97; 98; 32; 9; 34; 99; 32; 34; 100; 34; 34; 32; 34; 34] /\
  (do (b, a) <- ToArgV (Some 3%nat) ([32] ++ line l ++ [0]); Ok (map (cstr b) a)) = Ok [[97; 98]; [99; 32; 34; 100; 34]; []].
Proof.
  cbn -[ToArgV]. repeat split; try (repeat constructor; fail); try discriminate; try (right; discriminate); try (intros [? ?]; discriminate); try tauto; try lia.
  all: try (repeat constructor; lia). all: try (cbn; intuition discriminate).
Qed.

(** ** C124 *)
(** ProcessCmdArgs calls fn with the arguments cut into groups: together they are all the arguments in order, none is
    empty, every group but the first begins with the divider, and no other argument does. *)
Theorem C124_ProcessCmdArgs : forall argv d, let groups := ProcessCmdArgs argv d in
  let marked := fun a : list Z => nth 0 a 0 = d in
  concat groups = argv /\ Forall (fun g => exists a t, g = a :: t /\ Forall (fun b => ~ marked b) t) groups /\
  Forall (fun g => exists a t, g = a :: t /\ marked a) (tl groups).
Proof.
  intros argv d groups marked. subst groups. destruct argv as [|a0 t0]; [cbn; auto|]. cbn [ProcessCmdArgs].
  assert (G : forall rest a cur, Forall (fun b => ~ marked b) cur ->
    concat (cmdargs_loop rest (a :: cur) d) = (a :: cur) ++ rest /\
    Forall (fun g => exists a t, g = a :: t /\ Forall (fun b => ~ marked b) t) (cmdargs_loop rest (a :: cur) d) /\
    Forall (fun g => exists a t, g = a :: t /\ marked a) (tl (cmdargs_loop rest (a :: cur) d)) /\
    exists g gs, cmdargs_loop rest (a :: cur) d = (a :: g) :: gs).
  { induction rest as [|x rest IH]; intros a cur F; cbn [cmdargs_loop].
    - cbn [concat tl]. rewrite !app_nil_r. repeat split; eauto.
    - destruct (Z.eqb_spec (nth 0 x 0) d) as [M|M].
      + destruct (IH x [] (Forall_nil _)) as (E & A & B & (g & gs & H)). cbn [concat tl]. rewrite E. repeat split; eauto.
        rewrite H in *. cbn [tl] in *. constructor; [exists x, g; auto|exact B].
      + destruct (IH a (cur ++ [x])) as (E & A & B & H); [apply Forall_app; auto|]. cbn [app] in *. rewrite E. rewrite <- app_assoc. auto. }
  destruct (G t0 a0 [] (Forall_nil _)) as (E & A & B & _). auto.
Qed.
Print Assumptions C124_ProcessCmdArgs.
Example C124_example : ProcessCmdArgs [[112]; [45; 97]; [49]; [50]; [45; 98]; []] 45 = [[[112]]; [[45; 97]; [49]; [50]]; [[45; 98]; []]].
Proof. reflexivity. Qed.

(** ** C125 *)
(** a format is a sequence of characters and of parameters {d} and {dd} *)
Inductive piece := Chr (c : Z) | Par1 (d : nat) | Par2 (d e : nat).
Definition shown (p : piece) : list Z :=
  match p with
  | Chr c => [c]
  | Par1 d => [123; 48 + Z.of_nat d; 125]
  | Par2 d e => [123; 48 + Z.of_nat d; 48 + Z.of_nat e; 125]
  end.
Definition format_text (l : list piece) : list Z := flat_map shown l.
(** an opening brace that begins a parameter *)
Definition begins_param (s : list Z) : Prop :=
  exists d t, (d < 10)%nat /\ (s = 123 :: 48 + Z.of_nat d :: 125 :: t \/ exists e, (e < 10)%nat /\ s = 123 :: 48 + Z.of_nat d :: 48 + Z.of_nat e :: 125 :: t).
Fixpoint good_format (l : list piece) : Prop :=
  match l with
  | [] => True
  | p :: t => match p with
              | Chr c => c <> 0 /\ ~ begins_param (format_text (p :: t))
              | Par1 d => (d < 10)%nat
              | Par2 d e => (d < 10)%nat /\ (e < 10)%nat
              end /\ good_format t
  end.
(** what a piece stands for *)
Definition meaning (fn : nat -> list Z) (p : piece) : list Z :=
  match p with Chr c => [c] | Par1 d => fn d | Par2 d e => fn (10 * d + e)%nat end.
Lemma digit_ex c : digit c = true <-> exists d, (d < 10)%nat /\ c = 48 + Z.of_nat d.
Proof.
  unfold digit. split.
  - intros H. exists (Z.to_nat (c - 48)). lia.
  - intros (d & D & ->). lia.
Qed.
Lemma param_par1 pre d t : (d < 10)%nat -> param_at (pre ++ 123 :: 48 + Z.of_nat d :: 125 :: t) (length pre) = Ok (Some (d, 3%nat)).
Proof.
  intros D. unfold param_at. rewrite get_mid, !get_at. cbn [bind get nth_error].
  replace (123 =? 123) with true by reflexivity. cbn [negb]. rewrite (proj2 (digit_ex (48 + Z.of_nat d))) by eauto. cbn [negb bind].
  change (125 =? 125) with true. cbn [negb]. do 3 f_equal. lia.
Qed.
Lemma param_par2 pre d e t : (d < 10)%nat -> (e < 10)%nat ->
  param_at (pre ++ 123 :: 48 + Z.of_nat d :: 48 + Z.of_nat e :: 125 :: t) (length pre) = Ok (Some (10 * d + e, 4)%nat).
Proof.
  intros D E. unfold param_at. rewrite get_mid, !get_at. cbn [bind get nth_error].
  replace (123 =? 123) with true by reflexivity. cbn [negb]. rewrite !(proj2 (digit_ex _)) by eauto. cbn [negb bind].
  replace (48 + Z.of_nat e =? 125) with false by lia. cbn [negb bind]. change (125 =? 125) with true. cbn [negb]. do 3 f_equal. lia.
Qed.
Lemma param_none pre c s t : ~ begins_param (c :: s) -> param_at (pre ++ c :: s ++ 0 :: t) (length pre) = Ok None.
Proof.
  intros H. unfold param_at. rewrite get_mid. cbn [bind]. destruct (Z.eqb_spec c 123) as [->|]; [|reflexivity]. cbn [negb].
  rewrite !get_at. destruct s as [|x1 s]; cbn [app bind get nth_error]; [reflexivity|].
  destruct (digit x1) eqn:D1; cbn [negb]; [|reflexivity]. apply digit_ex in D1. destruct D1 as (d & D & ->).
  destruct s as [|x2 s]; cbn [app bind get nth_error]; [reflexivity|].
  destruct (Z.eqb_spec x2 125) as [->|]; [exfalso; apply H; exists d, s; auto|].
  destruct (digit x2) eqn:D2; cbn [negb]; [|reflexivity]. apply digit_ex in D2. destruct D2 as (e & E & ->).
  destruct s as [|x3 s]; cbn [app bind get nth_error]; [reflexivity|].
  destruct (Z.eqb_spec x3 125) as [->|]; [|reflexivity]. exfalso; apply H; exists d, s. split; [auto|]. right. eauto.
Qed.
Lemma chunk_pre pre t pos : (pos <= length pre)%nat -> chunk (pre ++ t) pos (length pre - pos) = skipn pos pre.
Proof.
  intros L. unfold chunk. rewrite skipn_app. replace (pos - length pre)%nat with 0%nat by lia. cbn [skipn].
  rewrite firstn_app, skipn_length. replace (length pre - pos - (length pre - pos))%nat with 0%nat by lia.
  rewrite firstn_O, app_nil_r. apply firstn_all2. rewrite skipn_length. lia.
Qed.
Lemma chunk_out pre t pos (out : list Z) : (pos <= length pre)%nat ->
  (if (pos <? length pre)%nat then out ++ chunk (pre ++ t) pos (length pre - pos) else out) = out ++ skipn pos pre.
Proof.
  intros L. rewrite chunk_pre by auto. destruct (Nat.ltb_spec pos (length pre)); [reflexivity|].
  now rewrite skipn_all2, app_nil_r by lia.
Qed.
Lemma format_go fn l : forall fuel pre t pos out, good_format l -> (length (format_text l) < fuel)%nat -> (pos <= length pre)%nat ->
  format_loop fuel fn (pre ++ format_text l ++ 0 :: t) (length pre) pos out = Ok (out ++ skipn pos pre ++ flat_map (meaning fn) l).
Proof.
  induction l as [|p l IH]; intros [|f] pre t pos out G L P; try lia; cbn [format_loop].
  - cbn [format_text flat_map app]. rewrite get_mid. cbn [bind]. change (0 =? 0) with true. cbn iota. rewrite chunk_out, app_nil_r by auto. reflexivity.
  - cbn [good_format] in G. destruct G as [GP G]. destruct p as [c|d|d e]; cbn [format_text flat_map shown app length] in *.
    + destruct GP as [C0 NB]. rewrite get_mid. cbn [bind]. replace (c =? 0) with false by lia.
      fold (format_text l) in *. rewrite param_none by auto. cbn [bind].
      rewrite (shift pre c), (shift_len pre c), IH by (auto; try (rewrite app_length; cbn); lia).
      f_equal. cbn [meaning]. rewrite skipn_app. replace (pos - length pre)%nat with 0%nat by lia. cbn [skipn]. now rewrite <- app_assoc.
    + rewrite get_mid. cbn [bind]. change (123 =? 0) with false. cbn iota. rewrite param_par1 by auto. cbn [bind].
      rewrite chunk_out by auto. fold (format_text l) in *.
      replace (length pre + 3)%nat with (length (pre ++ [123; 48 + Z.of_nat d; 125])) by (now rewrite app_length).
      replace (pre ++ 123 :: 48 + Z.of_nat d :: 125 :: format_text l ++ 0 :: t) with ((pre ++ [123; 48 + Z.of_nat d; 125]) ++ format_text l ++ 0 :: t) by (now rewrite <- app_assoc).
      rewrite IH by (auto; lia). rewrite skipn_all. cbn [meaning app]. now rewrite <- !app_assoc.
    + destruct GP as [D E]. rewrite get_mid. cbn [bind]. change (123 =? 0) with false. cbn iota. rewrite param_par2 by auto. cbn [bind].
      rewrite chunk_out by auto. fold (format_text l) in *.
      replace (length pre + 4)%nat with (length (pre ++ [123; 48 + Z.of_nat d; 48 + Z.of_nat e; 125])) by (now rewrite app_length).
      replace (pre ++ 123 :: 48 + Z.of_nat d :: 48 + Z.of_nat e :: 125 :: format_text l ++ 0 :: t) with ((pre ++ [123; 48 + Z.of_nat d; 48 + Z.of_nat e; 125]) ++ format_text l ++ 0 :: t) by (now rewrite <- app_assoc).
      rewrite IH by (auto; lia). rewrite skipn_all. cbn [meaning app]. now rewrite <- !app_assoc.
Qed.
Lemma format_F_ok fn l rest : good_format l -> format_F fn (format_text l ++ 0 :: rest) = Ok (flat_map (meaning fn) l).
Proof. intros G. unfold format_F. apply (format_go fn l _ [] rest 0%nat []); auto; cbn; rewrite ?app_length; lia. Qed.
Lemma helper_ok n : forall args N, (n < 100)%nat -> Z.of_nat (length args) < 2 ^ 31 -> (length args = S N - 0)%nat \/ True ->
  forall k, (k + length args = S N)%nat -> (k <= n)%nat \/ False ->
  Z.of_nat N < 2 ^ 31 ->
  format_helper N n args = match nth_error args (n - k) with Some a => a | None => invalid_text ++ small_dec n ++ [125] end.
Proof.
  induction args as [|a args IH]; intros N Hn L _ k K [KN|[]] LN; cbn [format_helper].
  - now destruct (n - k)%nat.
  - cbn [length] in *. destruct (Z.eqb_spec (Z.of_nat (length args)) (wrap 64 (Z.of_nat N - Z.of_nat n))) as [E|E].
    + assert (n = k). { unfold wrap in E. destruct (Z.le_gt_cases (Z.of_nat n) (Z.of_nat N)).
        - rewrite Z.mod_small in E by lia. lia.
        - exfalso. replace (Z.of_nat N - Z.of_nat n) with (2 ^ 64 - (Z.of_nat n - Z.of_nat N) + (-1) * 2 ^ 64) in E by lia.
          rewrite Z.mod_add, Z.mod_small in E by lia. lia. }
      subst. now rewrite Nat.sub_diag.
    + assert (n <> k). { intros ->. apply E. unfold wrap. rewrite Z.mod_small by lia. lia. }
      replace (n - k)%nat with (S (n - S k)) by lia. cbn [nth_error]. apply IH; auto; try lia.
Qed.
(** "{INVALID PARAMETER n}" for the number as it is printed *)
Definition bad_param (digits : list Z) : list Z :=
  [123; 73; 78; 86; 65; 76; 73; 68; 32; 80; 65; 82; 65; 77; 69; 84; 69; 82; 32] ++ digits ++ [125].
(** the value of a piece: a character stands for itself, a parameter for the argument of that number, counted from 0 *)
Definition value (args : list (list Z)) (p : piece) : list Z :=
  match p with
  | Chr c => [c]
  | Par1 d => match nth_error args d with Some a => a | None => bad_param [48 + Z.of_nat d] end
  | Par2 d e =>
      match nth_error args (10 * d + e) with
      | Some a => a
      | None => bad_param (if (d =? 0)%nat then [48 + Z.of_nat e] else [48 + Z.of_nat d; 48 + Z.of_nat e])
      end
  end.
(** SafeFormat writes the format with every parameter {d} or {dd} replaced by the argument of that number. *)
Theorem C125_SafeFormat : forall l args rest, good_format l -> args <> [] -> Z.of_nat (length args) < 2 ^ 31 ->
  SafeFormat (format_text l ++ 0 :: rest) args = Ok (flat_map (value args) l).
Proof.
  intros l args rest G NE B. unfold SafeFormat. rewrite format_F_ok by auto. f_equal.
  assert (H : forall n, (n < 100)%nat -> format_helper (length args - 1) n args = match nth_error args n with Some a => a | None => invalid_text ++ small_dec n ++ [125] end).
  { intros n Hn. assert (length args <> 0)%nat by (destruct args; cbn; congruence || lia).
    rewrite (helper_ok n args (length args - 1) Hn B (or_intror I) 0) by (auto; lia). now rewrite Nat.sub_0_r. }
  clear rest. induction l as [|p l IH]; [reflexivity|]. cbn [good_format flat_map] in *. destruct G as [GP G]. rewrite IH by auto. f_equal.
  destruct p as [c|d|d e]; cbn [meaning value]; [reflexivity| |].
  - rewrite H by lia. destruct (nth_error args d); [reflexivity|]. unfold small_dec. now replace (d <? 10)%nat with true by lia.
  - rewrite H by lia. destruct (nth_error args (10 * d + e)); [reflexivity|]. unfold small_dec, bad_param, invalid_text.
    destruct (Nat.eqb_spec d 0) as [->|].
    + cbn [Nat.mul Nat.add]. now replace (e <? 10)%nat with true by lia.
    + replace (10 * d + e <? 10)%nat with false by lia. replace ((10 * d + e) / 10)%nat with d by (apply (Nat.div_unique _ _ _ e); lia).
      replace ((10 * d + e) mod 10)%nat with e by (apply (Nat.mod_unique _ _ d); lia). reflexivity.
Qed.
Print Assumptions C125_SafeFormat.
Lemma begins_dec s : begins_param s \/ ~ begins_param s.
Proof.
  destruct s as [|x0 s]; [right; intros (d & t & _ & [H|(e & _ & H)]); discriminate|].
  pose proof (param_none [] x0 s []) as N. cbn [app length] in N.
  destruct (param_at (x0 :: s ++ [0]) 0) as [[[n len]|]| |] eqn:E.
  - left. clear N. revert E. unfold param_at. cbn [get nth_error bind]. destruct (Z.eqb_spec x0 123) as [->|]; cbn [negb]; [|discriminate].
    change (0 + 1)%nat with 1%nat; change (0 + 2)%nat with 2%nat; change (0 + 3)%nat with 3%nat.
    destruct s as [|x1 s]; cbn [app get nth_error bind]; [discriminate|]. destruct (digit x1) eqn:D1; cbn [negb]; [|discriminate].
    apply digit_ex in D1. destruct D1 as (d & D & ->).
    destruct s as [|x2 s]; cbn [app get nth_error bind]; [discriminate|]. destruct (Z.eqb_spec x2 125) as [->|]; [intros _; exists d, s; auto|].
    destruct (digit x2) eqn:D2; cbn [negb]; [|discriminate]. apply digit_ex in D2. destruct D2 as (e & He & ->).
    destruct s as [|x3 s]; cbn [app get nth_error bind]; [discriminate|]. destruct (Z.eqb_spec x3 125) as [->|]; [|discriminate].
    intros _. exists d, s. split; [auto|]. right; eauto.
  - right. intros (d & t & D & [H|(e & He & H)]); change (x0 :: s ++ [0]) with ((x0 :: s) ++ [0]) in E; rewrite H in E; cbn [app] in E; clear N.
    + pose proof (param_par1 [] d (t ++ [0]) D) as P. cbn [app length] in P. congruence.
    + pose proof (param_par2 [] d e (t ++ [0]) D He) as P. cbn [app length] in P. congruence.
  - right. intros H. destruct H as (d & t & D & [H|(e & He & H)]); change (x0 :: s ++ [0]) with ((x0 :: s) ++ [0]) in E; rewrite H in E; cbn [app] in E; clear N.
    + pose proof (param_par1 [] d (t ++ [0]) D) as P. cbn [app length] in P. congruence.
    + pose proof (param_par2 [] d e (t ++ [0]) D He) as P. cbn [app length] in P. congruence.
  - right. intros H. destruct H as (d & t & D & [H|(e & He & H)]); change (x0 :: s ++ [0]) with ((x0 :: s) ++ [0]) in E; rewrite H in E; cbn [app] in E; clear N.
    + pose proof (param_par1 [] d (t ++ [0]) D) as P. cbn [app length] in P. congruence.
    + pose proof (param_par2 [] d e (t ++ [0]) D He) as P. cbn [app length] in P. congruence.
Qed.
(** Every format is such a sequence. *)
Theorem C125_every_format : forall s, ~ In 0 s -> exists l, good_format l /\ format_text l = s.
Proof.
  intros s. remember (length s) as n eqn:E. revert s E. induction n as [n IH] using lt_wf_ind. intros s -> N.
  destruct s as [|c s]; [exists []; cbn; auto|].
  destruct (begins_dec (c :: s)) as [(d & t & D & [H|(e & He & H)])|H].
  - assert (c = 123) by congruence. assert (s = 48 + Z.of_nat d :: 125 :: t) by congruence. subst c s. clear H. destruct (IH (length t)) with (s := t) as (l & G & F); [cbn [length]; lia|reflexivity|intros I; apply N; cbn [In]; tauto|].
    exists (Par1 d :: l). cbn [good_format format_text flat_map shown app]. fold (format_text l). rewrite F. auto.
  - assert (c = 123) by congruence. assert (s = 48 + Z.of_nat d :: 48 + Z.of_nat e :: 125 :: t) by congruence. subst c s. clear H. destruct (IH (length t)) with (s := t) as (l & G & F); [cbn [length]; lia|reflexivity|intros I; apply N; cbn [In]; tauto|].
    exists (Par2 d e :: l). cbn [good_format format_text flat_map shown app]. fold (format_text l). rewrite F. auto.
  - destruct (IH (length s)) with (s := s) as (l & G & F); [cbn [length]; lia|reflexivity|intros I; apply N; cbn [In]; tauto|].
    exists (Chr c :: l). cbn [good_format format_text flat_map shown app]. fold (format_text l). rewrite F. repeat split; auto. intros ->. apply N. now left.
Qed.
Print Assumptions C125_every_format.
Example C125_example :
  let l := [Chr 97; Par1 1; Chr 123; Par2 0 0; Chr 125; Par1 7] in
  good_format l /\ format_text l = [97; 123; 49; 125; 123; 123; 48; 48; 125; 125; 123; 55; 125] /\
  SafeFormat (format_text l ++ [0]) [[120]; [121; 122]] =
  Ok ([97; 121; 122; 123; 120; 125] ++ [123; 73; 78; 86; 65; 76; 73; 68; 32; 80; 65; 82; 65; 77; 69; 84; 69; 82; 32; 55; 125]).
Proof.
  cbn -[SafeFormat begins_param]. repeat split; try lia.
  all: intros (d & t & D & [H|(e & E & H)]); injection H; intros; lia.
Qed.

(** ** C126 *)
(** the pieces between the delimiters, empty ones included *)
Fixpoint split_on (d : Z) (s : list Z) : list (list Z) :=
  match s with
  | [] => [[]]
  | c :: t => if c =? d then [] :: split_on d t
              else match split_on d t with w :: r => (c :: w) :: r | [] => [[c]] end
  end.
(** split_on is the inverse of joining with the delimiter *)
Fixpoint join_with (d : Z) (l : list (list Z)) : list Z :=
  match l with [] => [] | [w] => w | w :: t => w ++ d :: join_with d t end.
Lemma split_nonnil d s : split_on d s <> [].
Proof. destruct s as [|c t]; cbn [split_on]; [discriminate|]. destruct (c =? d); [discriminate|]. destruct (split_on d t); discriminate. Qed.
Lemma split_join d s : join_with d (split_on d s) = s /\ Forall (fun w => ~ In d w) (split_on d s).
Proof.
  induction s as [|c t [IH F]]; cbn [split_on]; [cbn; auto|]. pose proof (split_nonnil d t) as NN. destruct (Z.eqb_spec c d) as [->|N].
  - split; [|constructor; auto]. cbn [join_with]. destruct (split_on d t) eqn:E; [congruence|]. cbn [app]. now rewrite IH.
  - destruct (split_on d t) as [|w r]; [congruence|]. split.
    + rewrite <- IH. destruct r; reflexivity.
    + apply Forall_cons_iff in F. destruct F as [A B]. constructor; auto. cbn [In]. intros [?|?]; auto.
Qed.
Lemma split_token d w s : ~ In d w -> split_on d (w ++ d :: s) = w :: split_on d s.
Proof.
  induction w as [|c w IH]; intros N; cbn [app split_on].
  - now rewrite Z.eqb_refl.
  - destruct (Z.eqb_spec c d); [exfalso; apply N; now left|]. rewrite IH; [reflexivity|]. intros ?; apply N; now right.
Qed.
Lemma split_last d w : ~ In d w -> split_on d w = [w].
Proof.
  induction w as [|c w IH]; intros N; cbn [split_on]; [reflexivity|].
  destruct (Z.eqb_spec c d); [exfalso; apply N; now left|]. rewrite IH; [reflexivity|]. intros ?; apply N; now right.
Qed.
Definition nonempty (w : list Z) : bool := match w with [] => false | _ => true end.
Lemma delims_split d ds s : Forall (eq d) ds -> filter nonempty (split_on d (ds ++ s)) = filter nonempty (split_on d s).
Proof. induction 1 as [|c ds <- F IH]; cbn [app split_on]; [reflexivity|]. rewrite Z.eqb_refl. cbn [filter nonempty]. exact IH. Qed.
Lemma first_delims (d : Z) s : exists ds s', s = ds ++ s' /\ Forall (eq d) ds /\ (s' = [] \/ exists c t, s' = c :: t /\ c <> d).
Proof.
  induction s as [|c s (ds & s' & -> & F & H)]; [exists [], []; auto|].
  destruct (Z.eq_dec c d) as [->|N]; [exists (d :: ds), s'; auto|]. exists [], (c :: ds ++ s'). repeat split; auto. right. eauto.
Qed.
Lemma first_token (d : Z) s : exists w s', s = w ++ s' /\ ~ In d w /\ (s' = [] \/ exists t, s' = d :: t).
Proof.
  induction s as [|c s (w & s' & -> & F & H)]; [exists [], []; cbn; auto|].
  destruct (Z.eq_dec c d) as [->|N]; [exists [], (d :: w ++ s'); repeat split; [intros []|right; eauto]|]. exists (c :: w), s'. cbn [In app]. intuition.
Qed.
Lemma delims_go d ds : forall fuel pre c t, Forall (eq d) ds -> d <> 0 -> c = 0 \/ c <> d -> (length ds < fuel)%nat ->
  skip_delims fuel (pre ++ ds ++ c :: t) (length pre) d = Ok (length pre + length ds)%nat.
Proof.
  induction ds as [|x ds IH]; intros [|f] pre c t F D C L; cbn [length] in *; try lia; cbn [app skip_delims]; rewrite get_mid; cbn [bind].
  - replace (negb (c =? 0) && (c =? d)) with false by lia. f_equal. lia.
  - apply Forall_cons_iff in F. destruct F as [<- F]. replace (negb (d =? 0) && (d =? d)) with true by lia.
    rewrite (shift pre d), (shift_len pre d), IH by (auto; lia). rewrite app_length. cbn. f_equal. lia.
Qed.
Lemma token_go d w : forall fuel pre c t, ~ In d w -> ~ In 0 w -> c = 0 \/ c = d -> (length w < fuel)%nat ->
  token_end fuel (pre ++ w ++ c :: t) (length pre) d = Ok (length pre + length w)%nat.
Proof.
  induction w as [|x w IH]; intros [|f] pre c t D N C L; cbn [length In] in *; try lia; cbn [app token_end]; rewrite get_mid; cbn [bind].
  - replace ((c =? 0) || (c =? d)) with true by lia. f_equal. lia.
  - replace ((x =? 0) || (x =? d)) with false by lia. rewrite (shift pre x), (shift_len pre x), IH by (auto; lia). rewrite app_length. cbn. f_equal. lia.
Qed.
Lemma explode_go d : d <> 0 -> forall n s, length s = n -> forall fuel pre first dest, ~ In 0 s -> (length s < fuel)%nat ->
  explode_loop fuel (fun _ => strtok) first (pre ++ s ++ [0]) (length pre) d dest = Ok (dest ++ filter nonempty (split_on d s)).
Proof.
  intros D. induction n as [n IH] using lt_wf_ind. intros s E [|f] pre first dest N L; [lia|]. cbn [explode_loop].
  destruct (first_delims d s) as (ds & s' & Es & F & H). unfold strtok.
  rewrite Es. rewrite <- app_assoc. rewrite (delims_split d ds s' F).
  destruct H as [->|(c & t & -> & C)].
  - cbn [app]. rewrite delims_go by (auto; rewrite !app_length; cbn; lia). cbn [bind].
    replace (length pre + length ds)%nat with (length (pre ++ ds)) by (now rewrite app_length). rewrite (app_assoc pre ds), get_mid. cbn [bind].
    change (0 =? 0) with true. cbn iota. cbn. now rewrite app_nil_r.
  - assert (C0 : c <> 0) by (intros ->; apply N; rewrite Es, in_app_iff; cbn; auto).
    cbn [app]. rewrite delims_go by (auto; rewrite !app_length; cbn; lia). cbn [bind].
    replace (length pre + length ds)%nat with (length (pre ++ ds)) by (now rewrite app_length). rewrite !(app_assoc pre ds), get_mid. cbn [bind].
    replace (c =? 0) with false by lia.
    destruct (first_token d (c :: t)) as (w & s' & Ew & W & H).
    assert (Nw : ~ In 0 (w ++ s')) by (rewrite <- Ew; intros I; apply N; rewrite Es, in_app_iff; auto).
    rewrite in_app_iff in Nw.
    assert (NE : w <> []). { intros ->. cbn [app] in Ew. destruct H as [->|[? ->]]; [discriminate|]. congruence. }
    assert (Lw : (length w > 0)%nat) by (destruct w; cbn; [congruence|lia]).
    assert (Le : length s = (length ds + (length w + length s'))%nat) by (rewrite Es, Ew, !app_length; reflexivity).
    replace ((pre ++ ds) ++ c :: t ++ [0]) with ((pre ++ ds) ++ w ++ s' ++ [0]) by (rewrite (app_assoc w s' [0]), <- Ew; reflexivity).
    rewrite Ew.
    destruct H as [->|[t' ->]].
    + cbn [app]. rewrite token_go by (auto; try tauto; rewrite !app_length; cbn; lia). cbn [bind].
      replace (length (pre ++ ds) + length w)%nat with (length ((pre ++ ds) ++ w)) by (now rewrite app_length).
      rewrite (app_assoc (pre ++ ds) w). rewrite get_mid. cbn [bind]. change (0 =? 0) with true. cbn iota.
      assert (CM : cstr (((pre ++ ds) ++ w) ++ [0]) (length (pre ++ ds)) = w) by (rewrite <- (app_assoc (pre ++ ds) w); apply cstr_mid; tauto). cbn [bind]. rewrite CM.
      rewrite app_nil_r. rewrite (split_last d w W). cbn [filter nonempty]. destruct w as [|x w]; [congruence|]. cbn [nonempty].
      rewrite (IH 0%nat) with (s := []) (pre := (pre ++ ds) ++ x :: w); cbn; auto; try lia. now rewrite app_nil_r.
    + cbn [app]. rewrite token_go by (auto; try tauto; rewrite !app_length; cbn; lia). cbn [bind].
      replace (length (pre ++ ds) + length w)%nat with (length ((pre ++ ds) ++ w)) by (now rewrite app_length).
      rewrite (app_assoc (pre ++ ds) w). rewrite get_mid. cbn [bind]. replace (d =? 0) with false by lia.
      rewrite set_mid. cbn [bind]. assert (CM : cstr (((pre ++ ds) ++ w) ++ 0 :: t' ++ [0]) (length (pre ++ ds)) = w) by (rewrite <- (app_assoc (pre ++ ds) w); apply cstr_mid; tauto). rewrite CM.
      rewrite (split_token d w t' W). cbn [filter]. destruct w as [|x w]; [congruence|]. cbn [nonempty].
      rewrite (shift ((pre ++ ds) ++ x :: w) 0), (shift_len ((pre ++ ds) ++ x :: w) 0).
      cbn [length] in Le, Lw. cbn [In] in Nw.
      rewrite (IH (length t')) with (s := t'); auto; try lia; try tauto. now rewrite <- app_assoc.
Qed.
(** Explode returns the non-empty pieces between the delimiters, in order. *)
Theorem C126_Explode : forall d s rest, d <> 0 -> ~ In 0 s ->
  Explode d (s ++ 0 :: rest) = Ok (filter nonempty (split_on d s)) /\
  join_with d (split_on d s) = s /\ Forall (fun w => ~ In d w) (split_on d s).
Proof.
  intros d s rest D N. split; [|apply split_join]. unfold Explode. replace (d =? 0) with false by lia. rewrite until0_app by auto.
  apply (explode_go d D (length s) s eq_refl _ [] true []); auto. rewrite app_length. lia.
Qed.
Print Assumptions C126_Explode.
Fixpoint zero_separated (l : list (list Z)) : list Z := match l with [] => [0] | w :: t => w ++ 0 :: zero_separated t end.
Lemma explode_null_go l : forall fuel pre t dest, Forall (fun w => ~ In 0 w /\ w <> []) l -> (length l < fuel)%nat ->
  explode_null fuel (pre ++ zero_separated l ++ t) (length pre) dest = Ok (dest ++ l).
Proof.
  induction l as [|w l IH]; intros [|f] pre t dest F L; cbn [length] in *; try lia; cbn [zero_separated explode_null app].
  - rewrite get_mid. cbn. now rewrite app_nil_r.
  - apply Forall_cons_iff in F. destruct F as [[N NE] F]. destruct w as [|x w]; [congruence|].
    rewrite <- app_assoc. cbn [app]. rewrite get_mid. cbn [bind]. replace (x =? 0) with false by (symmetry; apply Z.eqb_neq; intros ->; apply N; now left).
    change (x :: w ++ 0 :: zero_separated l ++ t) with ((x :: w) ++ 0 :: zero_separated l ++ t).
    rewrite strend_ok by auto. cbn [bind]. rewrite cstr_mid by auto.
    replace (S (length pre + length (x :: w))) with (length (pre ++ (x :: w) ++ [0])) by (rewrite !app_length; cbn; lia).
    replace (pre ++ (x :: w) ++ 0 :: zero_separated l ++ t) with ((pre ++ (x :: w) ++ [0]) ++ zero_separated l ++ t) by (now rewrite <- !app_assoc).
    rewrite IH by (auto; lia). now rewrite <- app_assoc.
Qed.
(** With the delimiter 0 it takes apart strings that follow each other, up to an empty one. *)
Theorem C126_Explode_zero : forall l rest, Forall (fun w => ~ In 0 w /\ w <> []) l -> Explode 0 (zero_separated l ++ rest) = Ok l.
Proof.
  intros l rest F. unfold Explode. change (0 =? 0) with true. cbn iota. apply (explode_null_go l _ [] rest []); auto.
  rewrite app_length. clear F. induction l as [|w l IH]; cbn [zero_separated length]; [lia|]. rewrite app_length. cbn [length]. lia.
Qed.
Print Assumptions C126_Explode_zero.
(** For strings of char32_t it never ends: the loop, however long it runs, does not come to a last token. *)
Theorem C126_Explode32_refuted : forall fuel d s rest, d <> 0 -> ~ In 0 s -> Explode32 fuel d (s ++ 0 :: rest) = OutOfFuel.
Proof.
  intros fuel d s rest D N. unfold Explode32. rewrite until0_app by auto.
  assert (G : forall f buf p dest, (p < length buf)%nat -> explode_loop f strtok32 false buf p d dest = OutOfFuel).
  { induction f as [|f IH]; intros buf p dest L; [reflexivity|]. cbn [explode_loop]. unfold strtok32 at 1. rewrite set_ok by auto. cbn [bind].
    rewrite upd_length. cbn [token_end]. rewrite (get_some _ _ d) by (now apply nth_error_upd_eq). cbn [bind].
    rewrite Z.eqb_refl, orb_true_r. cbn [bind]. rewrite set_ok by (now rewrite upd_length). cbn [bind]. apply IH. now rewrite !upd_length. }
  destruct fuel as [|f]; [reflexivity|]. cbn [explode_loop]. unfold strtok32 at 1. cbn [bind].
  destruct (first_token d s) as (w & s' & -> & W & H).
  assert (E : exists c t, (w ++ s') ++ [0] = w ++ c :: t /\ (c = 0 \/ c = d)).
  { destruct H as [->|[t ->]]; rewrite <- app_assoc; cbn [app]; eauto. }
  destruct E as (c & t & -> & C). rewrite in_app_iff in N.
  pose proof (token_go d w (S (length (w ++ c :: t))) [] c t W) as T. cbn [app length Nat.add] in T.
  rewrite T by (try tauto; rewrite app_length; lia). cbn [bind]. rewrite set_ok by (rewrite app_length; cbn; lia). cbn [bind].
  apply G. rewrite upd_length, app_length. cbn. lia.
Qed.
Print Assumptions C126_Explode32_refuted.
Lemma strchr_some d w : forall fuel pre t, ~ In d w -> ~ In 0 w -> (length w < fuel)%nat ->
  strchr fuel (pre ++ w ++ d :: t) (length pre) d = Ok (Some (length pre + length w)%nat).
Proof.
  induction w as [|x w IH]; intros [|f] pre t D N L; cbn [length In] in *; try lia; cbn [app strchr]; rewrite get_mid; cbn [bind].
  - rewrite Z.eqb_refl. do 2 f_equal. lia.
  - replace (x =? d) with false by lia. replace (x =? 0) with false by lia. rewrite (shift pre x), (shift_len pre x), IH by (auto; lia). rewrite app_length. cbn. do 2 f_equal. lia.
Qed.
Lemma strchr_none d w : forall fuel pre t, d <> 0 -> ~ In d w -> ~ In 0 w -> (length w < fuel)%nat ->
  strchr fuel (pre ++ w ++ 0 :: t) (length pre) d = Ok None.
Proof.
  induction w as [|x w IH]; intros [|f] pre t D0 D N L; cbn [length In] in *; try lia; cbn [app strchr]; rewrite get_mid; cbn [bind].
  - replace (0 =? d) with false by lia. reflexivity.
  - replace (x =? d) with false by lia. replace (x =? 0) with false by lia. rewrite (shift pre x), (shift_len pre x), IH by (auto; lia). reflexivity.
Qed.
Lemma fields_null n buf d : skip_fields n buf None d = Ok None.
Proof. induction n; cbn [skip_fields]; auto. Qed.
Lemma chunk_mid pre w t : chunk (pre ++ w ++ t) (length pre) (length w) = w.
Proof. unfold chunk. rewrite skipn_pre, firstn_app, Nat.sub_diag, firstn_O, app_nil_r. apply firstn_all. Qed.
Lemma fields_go d : d <> 0 -> forall n s pre t, ~ In 0 s ->
  let buf := pre ++ s ++ 0 :: t in
  (do r <- skip_fields n buf (Some (length pre)) d;
   match r with
   | None => Ok []
   | Some p => do r <- strchr (S (length buf)) buf p d; do e <- (match r with Some e => Ok e | None => strend buf p end); Ok (chunk buf p (e - p))
   end) = Ok (nth n (split_on d s) []).
Proof.
  intros D. induction n as [|n IH]; intros s pre t N buf; destruct (first_token d s) as (w & s' & -> & W & H);
    rewrite in_app_iff in N; cbn [skip_fields bind].
  - subst buf. destruct H as [->|[t' ->]].
    + rewrite app_nil_r. rewrite strchr_none by (auto; try tauto; rewrite !app_length; lia). cbn [bind].
      rewrite strend_ok by tauto. cbn [bind]. replace (length pre + length w - length pre)%nat with (length w) by lia.
      rewrite chunk_mid, split_last by auto. reflexivity.
    + rewrite <- app_assoc. cbn [app]. rewrite strchr_some by (auto; try tauto; rewrite !app_length; lia). cbn [bind].
      replace (length pre + length w - length pre)%nat with (length w) by lia. rewrite chunk_mid, split_token by auto. reflexivity.
  - subst buf. destruct H as [->|[t' ->]].
    + rewrite app_nil_r. rewrite strchr_none by (auto; try tauto; rewrite !app_length; lia). cbn [bind option_map].
      rewrite fields_null. cbn [bind]. rewrite split_last by auto. now destruct n.
    + rewrite <- app_assoc. cbn [app]. rewrite strchr_some by (auto; try tauto; rewrite !app_length; lia). cbn [bind option_map].
      replace (S (length pre + length w)) with (length (pre ++ w ++ [d])) by (rewrite !app_length; cbn; lia).
      replace (pre ++ w ++ d :: t' ++ 0 :: t) with ((pre ++ w ++ [d]) ++ t' ++ 0 :: t) by (now rewrite <- !app_assoc).
      rewrite split_token by auto. cbn [nth]. apply IH. cbn [In] in N. tauto.
Qed.
(** The constructor with an index returns the piece of that number, empty pieces counted, and the empty string behind the
    last one. *)
Theorem C126_field : forall index d s rest, d <> 0 -> ~ In 0 s -> StrField index (s ++ 0 :: rest) d = Ok (nth index (split_on d s) []).
Proof. intros. apply (fields_go d H index s [] rest H0). Qed.
Print Assumptions C126_field.
Example C126_example :
  Explode 44 [44; 97; 98; 44; 44; 99; 0] = Ok [[97; 98]; [99]] /\ split_on 44 [44; 97; 98; 44; 44; 99] = [[]; [97; 98]; []; [99]] /\
  Explode 0 [97; 98; 0; 99; 0; 0; 55] = Ok [[97; 98]; [99]] /\ StrField 3 [44; 97; 98; 44; 44; 99; 0] 44 = Ok [99] /\
  StrField 2 [44; 97; 98; 44; 44; 99; 0] 44 = Ok [] /\ StrField 7 [44; 97; 98; 44; 44; 99; 0] 44 = Ok [] /\
  Explode32 100 44 [97; 44; 98; 0] = OutOfFuel.
Proof. repeat split. Qed.
