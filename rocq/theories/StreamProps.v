(* Properties C133 (StreamBufArray), C134 (StreamBufDynArray) and C135 (StreamSplitter) of include/bss-util/stream.h. *)
From Coq Require Import List ZArith Lia Bool Arith.
From Coq Require Import ZifyBool ZifyNat.
From Verif Require Import Common Growth Stream.
Import ListNotations.
Local Open Scope Z_scope.

(* ------------------------------------------------------------------ C133 *)
(** A reader of a text: what has been read (the last character first) and what is still to come. *)
Definition reader := (list Z * list Z)%type.
Definition text_of (r : reader) : list Z := rev (fst r) ++ snd r.
(** the reader of the same text at position p *)
Definition at_pos (text : list Z) (p : nat) : reader := (rev (firstn p text), skipn p text).
Definition first_or_eof (l : list Z) : Z := match l with c :: _ => c | [] => -1 end.
Definition target (r : reader) (off : Z) (way : seekdir) : Z :=
  match way with
  | Cur => Z.of_nat (length (fst r)) + off
  | End_ => Z.of_nat (length (text_of r)) + off
  | Beg => off
  end.
(** What a call is expected to do; None for a seek outside the text. *)
Definition expected (r : reader) (o : rop) : option (rres * reader) :=
  let (done, rest) := r in
  match o with
  | Peek => Some (Num (first_or_eof rest), r)
  | Get => Some (Num (first_or_eof rest), match rest with c :: t => (c :: done, t) | [] => r end)
  | Unget => Some (Num (first_or_eof done), match done with c :: t => (t, c :: rest) | [] => r end)
  | Putback x => match done with
                 | c :: t => if c =? x then Some (Num c, (t, c :: rest)) else Some (Num (-1), r)
                 | [] => Some (Num (-1), r)
                 end
  | Avail => Some (Num (Z.of_nat (length rest)), r)
  | Read n => Some (Bytes (firstn n rest) (length (firstn n rest)), (rev (firstn n rest) ++ done, skipn n rest))
  | Seek off way => let p := target r off way in
      if (0 <=? p) && (p <=? Z.of_nat (length (text_of r))) then Some (Num p, at_pos (text_of r) (Z.to_nat p)) else None
  end.
Fixpoint expected_run (l : list rop) (r : reader) : option (list rres) :=
  match l with
  | [] => Some []
  | o :: t => match expected r o with
              | Some (x, r) => match expected_run t r with Some xs => Some (x :: xs) | None => None end
              | None => None
              end
  end.
Definition is_byte (c : Z) : Prop := 0 <= c < 256.
Definition low_putback (o : rop) : Prop := match o with Putback c => 0 <= c < 128 | _ => True end.

Definition rd (s : sba) (r : reader) : Prop := (acur s <= length (adata s))%nat /\ r = at_pos (adata s) (acur s).
Lemma at_pos_text t p : (p <= length t)%nat -> text_of (at_pos t p) = t.
Proof. intros. unfold text_of, at_pos. cbn [fst snd]. rewrite rev_involutive. apply firstn_skipn. Qed.
Lemma firstn_S_get {A} (l : list A) n c : nth_error l n = Some c -> firstn (S n) l = firstn n l ++ [c].
Proof. revert n; induction l; intros [|n] H; cbn in *; try congruence. f_equal. auto. Qed.
Lemma skipn_get {A} (l : list A) n c : nth_error l n = Some c -> skipn n l = c :: skipn (S n) l.
Proof. revert n; induction l; intros [|n] H; cbn in *; try congruence. rewrite IHl by auto. destruct l; [destruct n; discriminate|reflexivity]. Qed.
Lemma schar8_low c x : is_byte c -> 0 <= x < 128 -> (x =? schar8 c) = (c =? x).
Proof. unfold is_byte, schar8, sgn. intros. rewrite Z.mod_small by lia. change (2 ^ (8 - 1)) with 128. change (2 ^ 8) with 256. destruct (Z.ltb_spec c 128); lia. Qed.
Lemma read_pos {A} (d : list A) n : forall p, (p <= length d)%nat ->
  firstn (p + Nat.min (length d - p) n) d = firstn p d ++ firstn n (skipn p d) /\ skipn (p + Nat.min (length d - p) n) d = skipn n (skipn p d).
Proof.
  induction d as [|x d IH]; intros p L.
  - cbn in L. assert (p = 0)%nat as -> by lia. destruct n; split; reflexivity.
  - destruct p as [|p].
    + cbn [Nat.add Nat.sub firstn skipn app]. destruct (Nat.le_gt_cases (length (x :: d)) n).
      * rewrite Nat.min_l by lia. rewrite !firstn_all2, !skipn_all2 by lia. auto.
      * rewrite Nat.min_r by lia. auto.
    + cbn [length] in *. destruct (IH p ltac:(lia)) as [A1 A2]. cbn [Nat.add Nat.sub firstn skipn app]. rewrite A1, A2. auto.
Qed.
Lemma a_step_ok s r o x r' : Forall is_byte (adata s) -> rd s r -> low_putback o -> expected r o = Some (x, r') ->
  exists s', a_step s o = Ok (x, s') /\ rd s' r' /\ adata s' = adata s.
Proof.
  intros B [L ->] P E. unfold at_pos in E. destruct s as [d p]. cbn [adata acur] in *.
  assert (Q : p = length d \/ exists c, nth_error d p = Some c).
  { destruct (nth_error d p) eqn:N; [eauto|left]. apply nth_error_None in N. lia. }
  destruct o as [| | |y| |n|off way]; cbn [expected] in E.
  - injection E as <- <-. exists (mka d p). unfold a_step, a_underflow. cbn [adata acur]. split; [|split; [split; auto|auto]].
    destruct Q as [->|[c N]].
    + rewrite Nat.eqb_refl, skipn_all. reflexivity.
    + assert (p < length d)%nat by (apply nth_error_Some; congruence). replace (p =? length d)%nat with false by lia.
      unfold get. rewrite N, (skipn_get d p c N). reflexivity.
  - unfold a_step, a_uflow. cbn [adata acur]. destruct Q as [->|[c N]].
    + rewrite Nat.eqb_refl. rewrite skipn_all in E. injection E as <- <-. eexists. split; [reflexivity|]. split; [|reflexivity].
      split; [cbn; lia|]. unfold at_pos. cbn [adata acur]. now rewrite skipn_all.
    + assert (p < length d)%nat by (apply nth_error_Some; congruence). replace (p =? length d)%nat with false by lia.
      rewrite (skipn_get d p c N) in E. injection E as <- <-. unfold get. rewrite N. cbn [bind]. eexists. split; [reflexivity|].
      split; [|reflexivity]. split; [cbn [adata acur]; lia|]. unfold at_pos. cbn [adata acur]. rewrite (firstn_S_get d p c N), rev_app_distr. reflexivity.
  - unfold a_step, a_pbackfail. cbn [adata acur]. destruct p as [|p].
    + cbn [Nat.eqb]. cbn [firstn rev skipn first_or_eof] in E. injection E as <- <-. eexists. split; [reflexivity|]. split; [|reflexivity]. split; [cbn; lia|reflexivity].
    + cbn [Nat.eqb]. change (-1 =? -1) with true. cbn iota. cbn [bind]. replace (S p - 1)%nat with p by lia.
      destruct (nth_error d p) as [c|] eqn:N; [|apply nth_error_None in N; lia]. rewrite (firstn_S_get d p c N), rev_app_distr in E. cbn [rev app first_or_eof] in E.
      injection E as <- <-. unfold get. rewrite N. cbn [bind]. eexists. split; [reflexivity|]. split; [|reflexivity].
      split; [cbn [adata acur]; lia|]. unfold at_pos. cbn [adata acur]. now rewrite (skipn_get d p c N).
  - unfold a_step, a_pbackfail. cbn [adata acur]. cbn [low_putback] in P. destruct p as [|p].
    + cbn [Nat.eqb]. cbn [firstn rev skipn first_or_eof] in E. injection E as <- <-. eexists. split; [reflexivity|]. split; [|reflexivity]. split; [cbn; lia|reflexivity].
    + cbn [Nat.eqb]. replace (y =? -1) with false by lia. replace (S p - 1)%nat with p by lia.
      destruct (nth_error d p) as [c|] eqn:N; [|apply nth_error_None in N; lia]. rewrite (firstn_S_get d p c N), rev_app_distr in E. cbn [rev app first_or_eof] in E.
      unfold get. rewrite N. cbn [bind]. rewrite schar8_low by (auto; eapply Forall_forall; eauto using nth_error_In).
      destruct (c =? y) eqn:C; cbn [negb]; injection E as <- <-; cbn [bind]; (eexists; split; [reflexivity|]; split; [|reflexivity]); (split; [cbn [adata acur]; lia|]); unfold at_pos; cbn [adata acur].
      * now rewrite (skipn_get d p c N).
      * rewrite (firstn_S_get d p c N), rev_app_distr. reflexivity.
  - injection E as <- <-. eexists. unfold a_step, a_showmanyc. cbn [adata acur]. rewrite skipn_length. split; [repeat f_equal; lia|]. split; [|reflexivity]. split; [cbn; lia|reflexivity].
  - injection E as <- <-. unfold a_step, a_xsgetn. cbn [adata acur]. replace (length d <? p)%nat with false by lia. cbn [bind fst snd].
    assert (F : firstn (Nat.min (length d - p) n) (skipn p d) = firstn n (skipn p d)).
    { rewrite <- (firstn_all (skipn p d)) at 2. rewrite firstn_firstn, skipn_length. f_equal. lia. }
    destruct (read_pos d n p L) as [R1 R2].
    rewrite F. exists (mka d (p + Nat.min (length d - p) n)%nat). split; [|split; [|reflexivity]].
    + do 3 f_equal. rewrite firstn_length, skipn_length. lia.
    + split; [cbn [adata acur]; lia|]. unfold at_pos. cbn [adata acur]. now rewrite R1, R2, rev_app_distr.
  - assert (T : text_of (at_pos d p) = d) by (apply at_pos_text; auto). unfold at_pos in T. unfold target in E. rewrite T in E. cbn [fst] in E.
    rewrite rev_length, firstn_length, (Nat.min_l p) in E by lia. unfold a_step, a_seekoff. cbn [adata acur].
    set (q := match way with Cur => _ | End_ => _ | Beg => _ end) in *.
    destruct ((0 <=? q) && (q <=? Z.of_nat (length d))) eqn:C; [|discriminate]. injection E as <- <-. cbn [bind]. eexists. split; [reflexivity|]. split; [|reflexivity].
    split; [cbn [adata acur]; lia|reflexivity].
Qed.
(** Every call of a reader over memory answers as a reader of that text should, as long as seeks stay inside the text and
    only characters below 128 are put back. *)
Theorem C133_reader_partial : forall data ops answers, Forall is_byte data -> Forall low_putback ops ->
  expected_run ops ([], data) = Some answers -> a_run ops (sba_new data) = Ok answers.
Proof.
  intros data ops answers B P. assert (R : rd (sba_new data) ([], data)) by (split; [cbn; lia|reflexivity]).
  assert (B' : Forall is_byte (adata (sba_new data))) by exact B. revert R B'. generalize (sba_new data) as s. generalize ([] : list Z, data) as r. clear B data.
  revert answers. induction P as [|o l Po P IH]; intros xs r s R B E; cbn [expected_run a_run] in *; [congruence|].
  destruct (expected r o) as [[x r']|] eqn:X; [|discriminate]. destruct (expected_run l r') as [ys|] eqn:Y; [|discriminate]. injection E as <-.
  destruct (a_step_ok s r o x r' B R Po X) as (s' & -> & R' & D). cbn [bind]. rewrite (IH ys r' s') by (auto; now rewrite D). reflexivity.
Qed.
Print Assumptions C133_reader_partial.
(** A character of 128 or more cannot be put back although it was read last, and a seek outside the text is not refused. *)
Theorem C133_reader_refuted :
  (exists data ops answers, Forall is_byte data /\ expected_run ops ([], data) = Some answers /\ a_run ops (sba_new data) <> Ok answers) /\
  (exists data off, Forall is_byte data /\ a_run [Seek off Beg] (sba_new data) = UB).
Proof.
  split.
  - exists [200], [Get; Putback 200], [Num 200; Num 200]. split; [constructor; [split; lia|constructor]|]. split; [reflexivity|]. discriminate.
  - exists [1], 2. split; [constructor; [split; lia|constructor]|reflexivity].
Qed.
Print Assumptions C133_reader_refuted.
Example C133_example :
  let data := [97; 200; 99; 100] in
  let ops := [Get; Putback 97; Read 3; Avail; Peek; Unget; Seek (-1) End_; Get; Get; Seek 1 Beg; Putback 98; Seek 1 Cur; Read 9] in
  Forall is_byte data /\ Forall low_putback ops /\
  expected_run ops ([], data) = Some [Num 97; Num 97; Bytes [97; 200; 99] 3; Num 1; Num 100; Num 99; Num 3; Num 100; Num (-1); Num 1; Num (-1); Num 2; Bytes [99; 100] 2].
Proof. cbv zeta. split; [repeat constructor; lia|]. split; [repeat constructor; lia|reflexivity]. Qed.

(* ------------------------------------------------------------------ C134 *)
(** the bytes of the elements of the array *)
Definition contents (k : nat) (s : sbd) : list (option Z) := firstn (dlen s * k) (mem s).
(** an array of [len] elements of [k] bytes, all of them written, in a storage for a whole number of elements *)
Definition good_array (k : nat) (m : list (option Z)) (len : nat) (bytes : list Z) : Prop :=
  (0 < k)%nat /\ (exists cap, length m = cap * k)%nat /\ (len * k <= length m)%nat /\ firstn (len * k) m = map Some bytes.

Section W.
Context (k : nat).
Definition winv (s : sbd) (text : list Z) : Prop :=
  (0 < k)%nat /\ eb s = 0%nat /\ ep s = length (mem s) /\ (exists cap, length (mem s) = cap * k)%nat /\ pp s = length text /\ (pp s <= ep s)%nat /\
  firstn (pp s) (mem s) = map Some text /\ dlen s = (pp s / k)%nat /\ eg s = (dlen s * k)%nat.
Lemma d_copy_ok l : forall m p, (p + length l <= length m)%nat -> d_copy m p l = Ok (firstn p m ++ map Some l ++ skipn (p + length l) m).
Proof.
  induction l as [|c l IH]; intros m p L; cbn [d_copy length map app] in *.
  - rewrite Nat.add_0_r, firstn_skipn. reflexivity.
  - rewrite (set_ok m p (Some c)) by lia. cbn [bind]. rewrite IH by (rewrite upd_length; lia). f_equal.
    assert (N : nth_error (upd m p (Some c)) p = Some (Some c)) by (apply nth_error_upd_eq; lia).
    rewrite (firstn_S_get _ _ _ N), <- app_assoc. cbn [app]. f_equal; [|f_equal; f_equal].
    + clear. revert p; induction m; intros [|p]; cbn; auto. f_equal. auto.
    + replace (p + S (length l))%nat with (S p + length l)%nat by lia. clear. revert p; induction m as [|x m IH]; intros p; [reflexivity|].
      destruct p; [reflexivity|]. cbn [upd Nat.add skipn]. apply (IH p).
Qed.
Lemma fixlen_ok s text l : winv s text -> (length l <= ep s - pp s)%nat ->
  exists m, d_copy (mem s) (pp s) l = Ok m /\
  let s' := d_fixlength k (mkd m (dlen s) (eb s) (gp s) (eg s) (pp s + length l) (ep s)) in winv s' (text ++ l) /\ gp s' = gp s /\ ep s' = ep s.
Proof.
  intros (K & Eb & Ep & (cap & C) & P & LE & F & D & Eg) L. rewrite d_copy_ok by lia. eexists. split; [reflexivity|].
  assert (FL : length (firstn (pp s) (mem s)) = pp s) by (rewrite firstn_length; lia).
  cbv zeta. split; [|split; reflexivity]. unfold winv, d_fixlength. cbn [mem dlen eb gp eg pp ep].
  assert (ML : length (firstn (pp s) (mem s) ++ map Some l ++ skipn (pp s + length l) (mem s)) = length (mem s)).
  { rewrite !app_length, FL, map_length, skipn_length. lia. }
  rewrite ML, Eb, Nat.sub_0_r. repeat split; auto; try lia.
  - exists cap. exact C.
  - rewrite app_length. lia.
  - rewrite app_assoc. rewrite <- (firstn_all (firstn (pp s) (mem s) ++ map Some l)) at 1. rewrite firstn_all.
    rewrite firstn_app. rewrite (firstn_all2 (firstn (pp s) (mem s) ++ map Some l)) by (rewrite app_length, FL, map_length; lia).
    replace (pp s + length l - length (firstn (pp s) (mem s) ++ map Some l))%nat with 0%nat by (rewrite app_length, FL, map_length; lia).
    cbn [firstn]. rewrite app_nil_r, F, map_app. reflexivity.
Qed.
Lemma expand_ok s text sz : winv s text -> pp s = ep s ->
  let s' := d_expand k sz s in winv s' text /\ (sz < ep s' - pp s')%nat /\ (k = 1%nat -> gp s' = gp s).
Proof.
  intros (K & Eb & Ep & (cap & C) & P & LE & F & D & Eg) Q. cbv zeta. unfold d_expand. rewrite Eb, Nat.sub_0_r.
  assert (DK : dlen s = cap) by (rewrite D, Q, Ep, C; apply Nat.div_mul; lia).
  set (cap' := Nat.max _ _). assert (CC : (sz / k + cap + 1 <= cap')%nat) by (unfold cap'; rewrite DK; lia).
  assert (SZ : (sz < (sz / k + 1) * k)%nat) by (pose proof (Nat.div_mod sz k ltac:(lia)); pose proof (Nat.mod_upper_bound sz k ltac:(lia)); nia).
  assert (BIG : (cap * k + sz < cap' * k)%nat) by nia.
  unfold d_setcapacity. replace (length (mem s) <? cap' * k)%nat with true by lia.
  assert (ML : length (mem s ++ repeat None (cap' * k - length (mem s))) = (cap' * k)%nat) by (rewrite app_length, repeat_length; lia).
  unfold winv. cbn [mem dlen eb gp eg pp ep]. rewrite ML, DK. repeat split; auto; try lia.
  - exists cap'. reflexivity.
  - rewrite firstn_app. replace (cap * k - length (mem s))%nat with 0%nat by lia. cbn [firstn]. rewrite app_nil_r. rewrite <- F. f_equal. lia.
  - symmetry. apply Nat.div_mul. lia.
Qed.
Lemma expand_put s text l f : winv s text -> pp s = ep s ->
  exists s', d_xsputn k (S f) l s = Ok (length l, s') /\ winv s' (text ++ l) /\ (k = 1%nat -> gp s' = gp s).
Proof.
  intros W Q. cbn [d_xsputn]. rewrite Q, Nat.eqb_refl. destruct (expand_ok s text (length l) W Q) as (W1 & R & G). cbv zeta in *.
  set (s1 := d_expand k (length l) s) in *. rewrite Nat.min_r, firstn_all by lia.
  destruct (fixlen_ok s1 text l W1 ltac:(lia)) as (m & -> & W2 & G2 & _). cbn [bind]. cbv zeta in *. rewrite Nat.sub_diag. cbn [Nat.eqb].
  eexists. split; [reflexivity|]. split; [exact W2|]. intros K1. rewrite G2. auto.
Qed.
Lemma put_ok s text l f : winv s text ->
  exists r s', d_xsputn k (S (S f)) l s = Ok (r, s') /\ winv s' (text ++ l) /\ (k = 1%nat -> gp s' = gp s) /\ (r <= length l)%nat /\ ((length l <= ep s - pp s)%nat -> r = length l).
Proof.
  intros W. destruct (Nat.eq_dec (pp s) (ep s)) as [Q|Q].
  - destruct (expand_put s text l (S f) W Q) as (s' & E & W' & G). exists (length l), s'. auto.
  - cbn [d_xsputn]. replace (pp s =? ep s)%nat with false by lia.
    assert (LE : (pp s <= ep s)%nat) by apply W.
    set (r := Nat.min (ep s - pp s) (length l)).
    assert (FL : length (firstn r l) = r) by (rewrite firstn_length; lia).
    destruct (fixlen_ok s text (firstn r l) W ltac:(lia)) as (m & EM & W2 & G2 & E2). rewrite FL in *. rewrite EM. cbn [bind]. cbv zeta in *.
    destruct (Nat.eqb_spec (length l - r) 0) as [Z0|NZ].
    + exists r. eexists. split; [reflexivity|]. rewrite (firstn_all2 l) in W2 by lia. split; [exact W2|]. split; [intros _; exact G2|]. split; lia.
    + set (s2 := d_fixlength k _) in *. destruct (expand_put s2 (text ++ firstn r l) (skipn r l) f W2) as (s' & E' & W' & G').
      { rewrite E2. unfold s2. cbn [d_fixlength pp]. lia. }
      rewrite skipn_length in E'. change (match f with O => _ | S _ => _ end) with (d_xsputn k (S f) (skipn r l) s2) || idtac.
      exists (length l - r)%nat, s'. split; [exact E'|]. rewrite <- app_assoc, firstn_skipn in W'. split; [exact W'|]. split; [intros K1; now rewrite G', G2 by auto|]. split; lia.
Qed.
End W.

Definition written (o : dop) : option (list Z) := match o with DWrite l => Some l | _ => None end.
Lemma new_winv k m len bytes : good_array k m len bytes -> winv k (sbd_new k m len 0) bytes.
Proof.
  intros (K & C & L & F). unfold winv, sbd_new. cbn [mem dlen eb gp eg pp ep]. rewrite Nat.mul_0_l.
  assert (length bytes = len * k)%nat by (apply (f_equal (@length _)) in F; rewrite map_length, firstn_length in F; lia).
  repeat split; auto; try lia. symmetry. apply Nat.div_mul. lia.
Qed.
Lemma winv_contents k s text : winv k s text -> dlen s = (length text / k)%nat /\ firstn (length text) (mem s) = map Some text /\ contents k s = map Some (firstn (length text / k * k) text).
Proof.
  intros (K & Eb & Ep & C & P & LE & F & D & Eg). rewrite <- P. repeat split; auto. unfold contents. rewrite D.
  rewrite <- firstn_map, <- F, firstn_firstn. f_equal. symmetry. apply Nat.min_l. rewrite Nat.mul_comm. apply Nat.mul_div_le. lia.
Qed.
(** Whole blocks of bytes written one after the other are appended to the bytes of the array, in order; the length of the
    array counts the elements that are complete. *)
Theorem C134_write_partial : forall k m len bytes blocks, good_array k m len bytes ->
  let all := bytes ++ concat blocks in
  exists answers s, d_run k (map DWrite blocks) (sbd_new k m len 0) = Ok (answers, s) /\
    dlen s = (length all / k)%nat /\ contents k s = map Some (firstn (length all / k * k) all) /\ firstn (length all) (mem s) = map Some all.
Proof.
  intros k m len bytes blocks G. cbv zeta. apply new_winv in G. revert G. generalize (sbd_new k m len 0) as s. generalize bytes as text. clear m len bytes.
  induction blocks as [|l t IH]; intros text s W; cbn [map concat d_run].
  - exists [], s. split; [reflexivity|]. rewrite app_nil_r. destruct (winv_contents k s text W) as (A & B & C). auto.
  - unfold d_step. destruct (put_ok k s text l 2 W) as (r & s1 & -> & W1 & _). cbn [bind]. destruct (IH (text ++ l) s1 W1) as (rs & s2 & E & H). rewrite E. cbn [bind].
    eexists _, s2. split; [reflexivity|]. now rewrite app_assoc.
Qed.
Print Assumptions C134_write_partial.

(** what a call on a stream over an array of bytes is expected to answer; nothing is said about the number that a write answers *)
Definition dexpected (r : reader) (o : dop) : option (option rres * reader) :=
  let lift x := match x with Some (a, r) => Some (Some a, r) | None => None end in
  match o with
  | DPeek => lift (expected r Peek)
  | DGet => lift (expected r Get)
  | DUnget => lift (expected r Unget)
  | DRead n => lift (expected r (Read n))
  | DSeek off way => lift (expected r (Seek off way))
  | DWrite l => Some (None, (fst r, snd r ++ l))
  | DPut c => Some (Some (Num c), (fst r, snd r ++ [c]))
  end.
Fixpoint dexpected_run (l : list dop) (r : reader) : option (list (option rres) * reader) :=
  match l with
  | [] => Some ([], r)
  | o :: t => match dexpected r o with
              | Some (x, r) => match dexpected_run t r with Some (xs, r) => Some (x :: xs, r) | None => None end
              | None => None
              end
  end.
Definition agree (e : option rres) (a : rres) : Prop := match e with Some x => a = x | None => True end.
Definition no_put (o : dop) : Prop := match o with DPut _ => False | _ => True end.
Definition drd (s : sbd) (r : reader) : Prop := exists text, winv 1 s text /\ (gp s <= length text)%nat /\ r = at_pos text (gp s).
Lemma load_ok s text p c : winv 1 s text -> nth_error text p = Some c -> d_load s p = Ok c.
Proof.
  intros (K & Eb & Ep & C & P & LE & F & D & Eg) N. unfold d_load, get.
  assert (p < length text)%nat by (apply nth_error_Some; congruence).
  assert (HN : nth_error (firstn (pp s) (mem s)) p = nth_error (mem s) p).
  { rewrite P. clear - H. revert p H. generalize (mem s) as l, (length text) as n. induction l; intros [|n] [|p] H; cbn; auto; try lia. apply IHl. lia. }
  rewrite <- HN, F, nth_error_map, N. reflexivity.
Qed.
Lemma loads_ok s text n : winv 1 s text -> forall p, (p + n <= length text)%nat -> d_loads s p n = Ok (firstn n (skipn p text)).
Proof.
  intros W. induction n as [|n IH]; intros p L; cbn [d_loads]; [reflexivity|].
  destruct (nth_error text p) as [c|] eqn:N; [|apply nth_error_None in N; lia]. rewrite (load_ok s text p c W N). cbn [bind]. rewrite IH by lia. cbn [bind].
  rewrite (skipn_get text p c N). reflexivity.
Qed.
Lemma winv_gp s text g e b : winv 1 s text -> eg s = e -> eb s = b -> winv 1 (mkd (mem s) (dlen s) b g e (pp s) (ep s)) text.
Proof. intros W <- <-. exact W. Qed.
Lemma at_pos_app text l p : (p <= length text)%nat -> at_pos (text ++ l) p = (fst (at_pos text p), snd (at_pos text p) ++ l).
Proof. intros. unfold at_pos. cbn [fst snd]. rewrite firstn_app, skipn_app. replace (p - length text)%nat with 0%nat by lia. cbn [firstn skipn]. now rewrite app_nil_r. Qed.
Lemma d_step_ok s r o x r' : drd s r -> no_put o -> dexpected r o = Some (x, r') -> exists a s', d_step 1 s o = Ok (a, s') /\ agree x a /\ drd s' r'.
Proof.
  intros (text & W & L & ->) NP E. assert (EG : eg s = length text).
  { destruct W as (K & Eb & Ep & C & P & LE & F & D & Eg). rewrite Eg, D, P, Nat.div_1_r. lia. }
  assert (EB : eb s = 0%nat) by apply W.
  assert (Q : gp s = length text \/ exists c, nth_error text (gp s) = Some c).
  { destruct (nth_error text (gp s)) eqn:N; [eauto|left]. apply nth_error_None in N. lia. }
  set (p := gp s) in *.
  destruct o as [| | |n|off way|l|c]; cbn [dexpected] in E; [| | | | | |destruct NP].
  - injection E as <- <-. unfold d_step, d_sgetc. fold p. rewrite EG. destruct Q as [Q|[c N]].
    + rewrite Q, Nat.eqb_refl. eexists _, s. split; [reflexivity|]. split; [cbn; now rewrite skipn_all|]. exists text. fold p. rewrite Q. split; [exact W|]. split; [lia|reflexivity].
    + assert (p < length text)%nat by (apply nth_error_Some; congruence). replace (p =? length text)%nat with false by lia. rewrite (load_ok s text p c W N). cbn [bind].
      eexists _, s. split; [reflexivity|]. split; [unfold at_pos; cbn; now rewrite (skipn_get text p c N)|]. exists text. auto.
  - unfold d_step, d_sbumpc. fold p. rewrite EG. destruct Q as [Q|[c N]].
    + rewrite Q, Nat.eqb_refl. unfold at_pos in E. rewrite Q, skipn_all in E. cbn [expected first_or_eof] in E. injection E as <- <-. eexists _, s. split; [reflexivity|]. split; [reflexivity|].
      exists text. fold p. rewrite Q. split; [exact W|]. split; [lia|]. unfold at_pos. now rewrite skipn_all.
    + assert (p < length text)%nat by (apply nth_error_Some; congruence). replace (p =? length text)%nat with false by lia. rewrite (load_ok s text p c W N). cbn [bind].
      unfold at_pos in E. rewrite (skipn_get text p c N) in E. cbn [expected first_or_eof] in E. injection E as <- <-. eexists. eexists. split; [reflexivity|]. split; [reflexivity|].
      exists text. split; [apply winv_gp; auto|]. cbn [gp]. split; [lia|]. unfold at_pos. rewrite (firstn_S_get text p c N), rev_app_distr. reflexivity.
  - unfold d_step, d_sungetc. fold p. rewrite EB. unfold at_pos in E. destruct p as [|p'] eqn:PE.
    + cbn [Nat.ltb Nat.leb]. cbn [firstn rev expected first_or_eof] in E. injection E as <- <-. eexists _, s. split; [reflexivity|]. split; [reflexivity|]. exists text. fold p. rewrite PE. split; [exact W|]. split; [lia|reflexivity].
    + replace (0 <? S p')%nat with true by lia. replace (S p' - 1)%nat with p' by lia. destruct (nth_error text p') as [c|] eqn:N; [|apply nth_error_None in N; lia].
      rewrite (load_ok s text p' c W N). cbn [bind]. rewrite (firstn_S_get text p' c N), rev_app_distr in E. cbn [rev app expected first_or_eof] in E. injection E as <- <-.
      eexists. eexists. split; [reflexivity|]. split; [reflexivity|]. exists text. split; [apply winv_gp; auto|]. cbn [gp]. split; [lia|]. unfold at_pos. now rewrite (skipn_get text p' c N).
  - cbn [expected at_pos] in E. unfold at_pos in E. cbn [expected] in E. injection E as <- <-. unfold d_step, d_xsgetn. fold p. rewrite EG. replace (length text <? p)%nat with false by lia.
    rewrite (loads_ok s text _ W) by lia. cbn [bind fst snd]. destruct (read_pos text n p L) as [R1 R2].
    assert (F : firstn (Nat.min (length text - p) n) (skipn p text) = firstn n (skipn p text)).
    { rewrite <- (firstn_all (skipn p text)) at 2. rewrite firstn_firstn, skipn_length. f_equal. lia. }
    rewrite F. eexists. eexists. split; [reflexivity|]. split; [cbn [agree]; f_equal; rewrite firstn_length, skipn_length; lia|].
    exists text. split; [apply winv_gp; auto|]. cbn [gp]. split; [lia|]. unfold at_pos. now rewrite R1, R2, rev_app_distr.
  - assert (T : text_of (at_pos text p) = text) by (apply at_pos_text; auto). unfold at_pos in E, T. cbn [expected] in E. unfold target in E. rewrite T in E. cbn [fst] in E.
    rewrite rev_length, firstn_length, (Nat.min_l p) in E by lia. unfold d_step, d_seekoff. fold p. rewrite EG, EB. cbn [Z.of_nat]. rewrite Z.add_0_l.
    set (q := match way with Cur => _ | End_ => _ | Beg => _ end) in *.
    destruct ((0 <=? q) && (q <=? Z.of_nat (length text))) eqn:C; [|discriminate]. injection E as <- <-.
    assert (LM : (length text <= length (mem s))%nat) by (destruct W as (? & ? & ? & ? & ? & ? & ?); lia).
    replace ((0 <=? q) && (q <=? Z.of_nat (length (mem s)))) with true by lia. cbn [bind]. eexists. eexists. split; [reflexivity|].
    split; [cbn [agree]; f_equal; lia|]. exists text. split; [apply winv_gp; auto|]. cbn [gp]. split; [lia|reflexivity].
  - injection E as <- <-. unfold d_step. destruct (put_ok 1 s text l 2 W) as (n & s1 & -> & W1 & G & _). cbn [bind]. eexists. eexists. split; [reflexivity|]. split; [exact I|].
    exists (text ++ l). rewrite (G eq_refl). fold p. split; [auto|]. split; [rewrite app_length; lia|]. now rewrite at_pos_app by auto.
Qed.
(** A stream over an array of bytes, from its beginning, written in blocks: reads answer with the bytes of the array and of
    everything written, in order, and the array holds them. *)
Theorem C134_readwrite_partial : forall m len bytes ops answers r, good_array 1 m len bytes -> Forall no_put ops ->
  dexpected_run ops ([], bytes) = Some (answers, r) ->
  exists got s, d_run 1 ops (sbd_new 1 m len 0) = Ok (got, s) /\ Forall2 agree answers got /\
    dlen s = length (text_of r) /\ contents 1 s = map Some (text_of r).
Proof.
  intros m len bytes ops answers r G P E.
  assert (R : drd (sbd_new 1 m len 0) ([], bytes)) by (exists bytes; split; [now apply new_winv|]; split; [cbn; lia|reflexivity]).
  clear G. revert R E. generalize (sbd_new 1 m len 0) as s. generalize ([] : list Z, bytes) as r0. clear m len bytes.
  revert answers r. induction P as [|o l Po P IH]; intros xs r r0 s R E; cbn [dexpected_run d_run] in *.
  - injection E as <- <-. exists [], s. split; [reflexivity|]. split; [constructor|]. destruct R as (text & W & L & ->). rewrite at_pos_text by auto.
    destruct (winv_contents 1 s text W) as (A & B & C). rewrite Nat.div_1_r in *. split; [auto|]. rewrite C, Nat.mul_1_r, firstn_all. reflexivity.
  - destruct (dexpected r0 o) as [[x r1]|] eqn:X; [|discriminate]. destruct (dexpected_run l r1) as [[ys r2]|] eqn:Y; [|discriminate]. injection E as <- <-.
    destruct (d_step_ok s r0 o x r1 R Po X) as (a & s' & -> & Ag & R'). cbn [bind]. destruct (IH ys r2 r1 s' R' Y) as (got & s2 & -> & F & D & C). cbn [bind].
    exists (a :: got), s2. split; [reflexivity|]. split; [constructor; auto|auto].
Qed.
Print Assumptions C134_readwrite_partial.
(** A write that does not fit in the capacity answers with fewer bytes than it wrote (so that the ostream takes it for a
    failure); characters put one at a time are lost; a stream that begins at a later element cuts the array; and with
    elements of several bytes the position of reading moves when a write enlarges the array. *)
Theorem C134_stream_refuted :
  (exists m len bytes l n s, good_array 1 m len bytes /\ d_run 1 [DWrite l] (sbd_new 1 m len 0) = Ok ([Num n], s) /\ n < Z.of_nat (length l)) /\
  (exists l got s, d_run 1 (map DPut l) (sbd_new 1 [] 0 0) = Ok (got, s) /\ contents 1 s <> map Some l) /\
  (exists m len bytes l got s, good_array 1 m len bytes /\ (1 <= len)%nat /\ d_run 1 [DWrite l] (sbd_new 1 m len 1) = Ok (got, s) /\ contents 1 s <> map Some (bytes ++ l)) /\
  (exists m len bytes c d e l n s, good_array 2 m len bytes /\ firstn 2 bytes = [c; d] /\ d_run 2 [DGet; DWrite l; DGet] (sbd_new 2 m len 0) = Ok ([Num c; Num n; Num e], s) /\ e <> d).
Proof.
  split; [|split; [|split]].
  - exists [Some 1; None], 1%nat, [1], [2; 3]. eexists. eexists. split; [|split; [vm_compute; reflexivity|reflexivity]].
    repeat split; try (cbn; lia). exists 2%nat. reflexivity.
  - exists [1; 2; 3; 4; 5; 6; 7; 8]. eexists. eexists. split; [vm_compute; reflexivity|]. vm_compute. discriminate.
  - exists [Some 1; None], 1%nat, [1], [2]. eexists. eexists. split; [|split; [lia|split; [vm_compute; reflexivity|vm_compute; discriminate]]].
    repeat split; try (cbn; lia). exists 2%nat. reflexivity.
  - exists [Some 1; Some 2; Some 3; Some 4], 2%nat, [1; 2; 3; 4], 1, 2, 3, [9; 9]. eexists. eexists. split.
    + repeat split; try (cbn; lia). exists 2%nat. reflexivity.
    + split; [reflexivity|]. split; [vm_compute; reflexivity|]. discriminate.
Qed.
Print Assumptions C134_stream_refuted.
(** A write that fits in the capacity, or that finds no room at all, answers with the number of its bytes. *)
Theorem C134_count_partial : forall k m len bytes l, good_array k m len bytes -> (length l <= length m - len * k \/ length m = len * k)%nat ->
  exists s, d_run k [DWrite l] (sbd_new k m len 0) = Ok ([Num (Z.of_nat (length l))], s).
Proof.
  intros k m len bytes l G H. apply new_winv in G. set (s := sbd_new k m len 0) in *. cbn [d_run]. unfold d_step. destruct H as [H|H].
  - destruct (put_ok k s bytes l 2 G) as (r & s' & -> & _ & _ & _ & R). cbn [bind]. rewrite R by exact H. eexists. reflexivity.
  - destruct (expand_put k s bytes l 3 G) as (s' & -> & _); [cbn; lia|]. cbn [bind]. eexists. reflexivity.
Qed.
Print Assumptions C134_count_partial.
Example C134_example :
  let m := [Some 10; Some 11; None; None] in
  let ops := [DGet; DWrite [1; 2; 3]; DRead 3; DUnget; DSeek (-1) End_; DGet; DGet; DWrite [4]; DPeek] in
  good_array 1 m 2 [10; 11] /\ Forall no_put ops /\
  dexpected_run ops ([], [10; 11]) =
    Some ([Some (Num 10); None; Some (Bytes [11; 1; 2] 3); Some (Num 2); Some (Num 4); Some (Num 3); Some (Num (-1)); None; Some (Num 4)], ([3; 2; 1; 11; 10], [4])) /\
  good_array 2 m 1 [10; 11].
Proof.
  cbv zeta. split; [|split; [|split; [reflexivity|]]].
  - repeat split; try (cbn; lia). exists 4%nat. reflexivity.
  - repeat constructor.
  - repeat split; try (cbn; lia). exists 2%nat. reflexivity.
Qed.

(* ------------------------------------------------------------------ C135 *)
(** the text written while stream i was a target; [on] says whether it is one at first *)
Fixpoint heard (i : nat) (on : bool) (l : list sop) : list Z :=
  match l with
  | [] => []
  | SWrite t :: r => (if on then t else []) ++ heard i on r
  | SFlush :: r => heard i on r
  | SAdd j :: r => heard i (on || (i =? j)%nat) r
  | SClear :: r => heard i false r
  end.
(** a stream is not added while it is a target *)
Fixpoint added_once (cur : list nat) (l : list sop) : Prop :=
  match l with
  | [] => True
  | SAdd j :: r => ~ In j cur /\ added_once (j :: cur) r
  | SClear :: r => added_once [] r
  | _ :: r => added_once cur r
  end.
(** the streams added exist *)
Definition known (n : nat) (o : sop) : Prop := match o with SAdd j => (j < n)%nat | _ => True end.
(** the text since the last call that empties the buffer *)
Fixpoint pending (acc : list Z) (l : list sop) : list Z :=
  match l with [] => acc | SWrite t :: r => pending (acc ++ t) r | _ :: r => pending [] r end.

Definition mem_nat (i : nat) (l : list nat) : bool := existsb (Nat.eqb i) l.
Lemma mem_nat_in i l : mem_nat i l = true <-> In i l.
Proof. unfold mem_nat. rewrite existsb_exists. split; [intros (x & I & E); apply Nat.eqb_eq in E; congruence|]. intros I. exists i. split; [auto|apply Nat.eqb_refl]. Qed.
Lemma send_ok t text : forall w, NoDup t -> Forall (fun i => i < length w)%nat t ->
  exists w', s_send t text w = Ok w' /\ length w' = length w /\
    forall i, (i < length w)%nat -> nth i w' [] = nth i w [] ++ (if mem_nat i t then text else []).
Proof.
  induction t as [|j t IH]; intros w N F; cbn [s_send].
  - exists w. split; [reflexivity|]. split; [reflexivity|]. intros i _. cbn. now rewrite app_nil_r.
  - inversion N as [|? ? NI N']; inversion F as [|? ? L F']; subst. destruct (nth_error w j) as [old|] eqn:E; [|apply nth_error_None in E; lia].
    unfold get. rewrite E. cbn [bind]. rewrite set_ok by auto. cbn [bind]. destruct (IH (upd w j (old ++ text)) N') as (w' & -> & L' & H); [rewrite upd_length; auto|].
    rewrite upd_length in *. exists w'. split; [reflexivity|]. split; [auto|]. intros i Li. rewrite H by auto. cbn [mem_nat existsb]. fold (mem_nat i t).
    destruct (Nat.eqb_spec i j) as [->|NE].
    + cbn [orb]. destruct (mem_nat j t) eqn:M; [apply mem_nat_in in M; contradiction|]. rewrite app_nil_r.
      rewrite (nth_error_nth (upd w j (old ++ text)) j []  (nth_error_upd_eq w j (old ++ text) L)). rewrite (nth_error_nth w j [] E). reflexivity.
    + cbn [orb]. f_equal. destruct (nth_error w i) as [x|] eqn:X; [|apply nth_error_None in X; lia].
      rewrite (nth_error_nth w i [] X). apply nth_error_nth. rewrite nth_error_upd_neq by auto. exact X.
Qed.
(** whether stream i is a target after the calls *)
Fixpoint target_after (i : nat) (on : bool) (l : list sop) : bool :=
  match l with [] => on | SAdd j :: r => target_after i (on || (i =? j)%nat) r | SClear :: r => target_after i false r | _ :: r => target_after i on r end.
Lemma s_run_ok ops : forall buf ts w, NoDup ts -> Forall (fun i => i < length w)%nat ts -> added_once ts ops -> Forall (known (length w)) ops ->
  exists s w', s_run ops (mks buf ts, w) = Ok (s, w') /\ length w' = length w /\ sbuf s = pending buf ops /\ forall i, (i < length w)%nat ->
    mem_nat i (stargets s) = target_after i (mem_nat i ts) ops /\
    nth i w' [] ++ (if mem_nat i (stargets s) then sbuf s else []) = nth i w [] ++ (if mem_nat i ts then buf else []) ++ heard i (mem_nat i ts) ops.
Proof.
  induction ops as [|o ops IH]; intros buf ts w N F A K; cbn [s_run heard added_once target_after pending] in *.
  - exists (mks buf ts), w. split; [reflexivity|]. split; [reflexivity|]. split; [reflexivity|]. intros i Li. cbn [stargets sbuf]. rewrite app_nil_r. auto.
  - inversion K as [|? ? Ko K']; subst. destruct o as [t| |j|]; unfold s_step, s_sync; cbn [sbuf stargets bind].
    + destruct (IH (buf ++ t) ts w N F A K') as (s & w' & E & L & B & H). exists s, w'. split; [exact E|]. split; [exact L|]. split; [exact B|]. intros i Li.
      destruct (H i Li) as [T X]. split; [exact T|]. rewrite X. destruct (mem_nat i ts); [now rewrite <- !app_assoc|reflexivity].
    + destruct (send_ok ts buf w N F) as (w1 & -> & L1 & H1). cbn [bind]. destruct (IH [] ts w1) as (s & w' & E & L & B & H); [auto|now rewrite L1|auto|now rewrite L1|].
      exists s, w'. split; [exact E|]. split; [congruence|]. split; [exact B|]. intros i Li. rewrite L1 in H. destruct (H i Li) as [T X]. split; [exact T|]. rewrite X, (H1 i Li).
      destruct (mem_nat i ts); rewrite <- ?app_assoc; reflexivity.
    + destruct A as [NI A]. destruct (send_ok ts buf w N F) as (w1 & -> & L1 & H1). cbn [bind sbuf stargets].
      assert (A' : added_once (ts ++ [j]) ops).
      { assert (P : forall i, In i (ts ++ [j]) -> In i (j :: ts)) by (intros i I; apply in_app_or in I; cbn in *; tauto).
        clear - A P. revert A P. generalize (j :: ts) as a, (ts ++ [j]) as b. induction ops as [|o ops IH]; intros a b A P; cbn [added_once] in *; auto.
        destruct o; eauto. destruct A as [X A]. split; [auto|]. eapply IH; eauto. intros q [->|I]; cbn; auto. }
      destruct (IH [] (ts ++ [j]) w1) as (s & w' & E & L & B & H).
      * rewrite <- (rev_involutive (ts ++ [j])), rev_unit. apply NoDup_rev. constructor; [now rewrite <- in_rev|now apply NoDup_rev].
      * rewrite L1. apply Forall_app. split; [auto|]. constructor; [exact Ko|constructor].
      * exact A'.
      * now rewrite L1.
      * exists s, w'. split; [exact E|]. split; [congruence|]. split; [exact B|]. intros i Li. rewrite L1 in H.
        assert (M : mem_nat i (ts ++ [j]) = (mem_nat i ts || (i =? j)%nat)) by (unfold mem_nat; rewrite existsb_app; cbn; now rewrite orb_false_r).
        destruct (H i Li) as [T X]. rewrite M in *. split; [exact T|]. rewrite X, (H1 i Li). rewrite <- app_assoc. f_equal. f_equal.
        now destruct (mem_nat i ts || (i =? j)%nat).
    + destruct (send_ok ts buf w N F) as (w1 & -> & L1 & H1). cbn [bind sbuf stargets]. destruct (IH [] [] w1) as (s & w' & E & L & B & H); [constructor|constructor|auto|now rewrite L1|].
      exists s, w'. split; [exact E|]. split; [congruence|]. split; [exact B|]. intros i Li. rewrite L1 in H. destruct (H i Li) as [T X]. split; [exact T|]. rewrite X, (H1 i Li).
      cbn [mem_nat existsb]. rewrite <- app_assoc. reflexivity.
Qed.
(** Every stream receives exactly the text written while it was a target, in order and once; only what was written since the
    last flush (or change of targets) may still be waiting, and that is lost if the buffer is destroyed. *)
Theorem C135_splitter : forall ops w, added_once [] ops -> Forall (known (length w)) ops ->
  exists s w', s_run ops (mks [] [], w) = Ok (s, w') /\ length w' = length w /\ forall i, (i < length w)%nat ->
    nth i w' [] ++ (if target_after i false ops then pending [] ops else []) = nth i w [] ++ heard i false ops.
Proof.
  intros ops w A K. destruct (s_run_ok ops [] [] w) as (s & w' & E & L & B & H); try constructor; auto.
  exists s, w'. split; [exact E|]. split; [exact L|]. intros i Li. destruct (H i Li) as [T X]. cbn [mem_nat existsb] in *. rewrite T, B in X. rewrite X. reflexivity.
Qed.
Print Assumptions C135_splitter.
(** after a flush nothing is waiting *)
Corollary C135_flushed : forall ops w, added_once [] (ops ++ [SFlush]) -> Forall (known (length w)) ops ->
  exists s w', s_run (ops ++ [SFlush]) (mks [] [], w) = Ok (s, w') /\ forall i, (i < length w)%nat -> nth i w' [] = nth i w [] ++ heard i false ops.
Proof.
  intros ops w A K. destruct (C135_splitter (ops ++ [SFlush]) w A) as (s & w' & E & L & H).
  - apply Forall_app. split; [auto|]. constructor; [exact I|constructor].
  - exists s, w'. split; [exact E|]. intros i Li. specialize (H i Li).
    assert (P : forall l acc, pending acc (l ++ [SFlush]) = []) by (induction l as [|[] l IH]; intros; cbn; auto).
    assert (Q : forall l on, heard i on (l ++ [SFlush]) = heard i on l) by (induction l as [|[] l IH]; intros; cbn; rewrite ?IH; auto).
    rewrite P, Q in H. destruct (target_after i false (ops ++ [SFlush])); rewrite app_nil_r in H; exact H.
Qed.
Print Assumptions C135_flushed.
Example C135_example :
  let ops := [SWrite [1]; SAdd 0; SWrite [2; 3]; SAdd 1; SWrite [4]; SFlush; SWrite [5]; SClear; SWrite [6]; SAdd 1; SWrite [7]; SFlush; SWrite [8]] in
  added_once [] ops /\ Forall (known 2) ops /\ heard 0 false ops = [2; 3; 4; 5] /\ heard 1 false ops = [4; 5; 7; 8] /\ pending [] ops = [8] /\
  exists s, s_run ops (mks [] [], [[]; [9]]) = Ok (s, [[2; 3; 4; 5]; [9; 4; 5; 7]]).
Proof. cbv zeta. split; [cbn; intuition discriminate|]. split; [repeat constructor|]. repeat split. eexists. reflexivity. Qed.
