(* The scans of bssFindINISection and bssFindINIEntry over a text made of lines. *)
From Coq Require Import List Arith ZArith Bool Lia ZifyBool ZifyNat.
From Verif Require Import Common INIParser INIParserProps INIChain INIChainProofs INIStorage INIDoc.
Import ListNotations.
Local Open Scope nat_scope.

Lemma ltrim_spec s : exists a, s = a ++ ltrim s /\ Forall blank a /\ forall c r, ltrim s = c :: r -> ~ blank c.
Proof.
  induction s as [|c s (a & E & F & N)]; [exists []; repeat split; auto; discriminate|]. cbn [ltrim].
  destruct ((0 <? c)%Z && (c <? 33)%Z) eqn:B.
  - exists (c :: a). cbn. split; [now f_equal|]. split; auto. constructor; auto. unfold blank. lia.
  - exists []. split; auto. split; auto. intros x r [= <- <-]. unfold blank. lia.
Qed.
Lemma trim_spec s : trimmed s (trim s).
Proof.
  destruct (ltrim_spec s) as (a & E & F & N). destruct (ltrim_spec (rev (ltrim s))) as (b & E2 & F2 & N2). exists a, (rev b). unfold trim.
  assert (E3 : ltrim s = rev (ltrim (rev (ltrim s))) ++ rev b) by (rewrite <- rev_app_distr, <- E2, rev_involutive; auto).
  split; [rewrite <- E3; auto|]. split; auto. split; [apply Forall_rev; auto|]. split.
  - intros c r H. rewrite H in E3. apply (N c (r ++ rev b)). rewrite E3. reflexivity.
  - intros c r H. apply (f_equal (@rev Z)) in H. rewrite rev_involutive, rev_app_distr in H. cbn in H. eapply N2, H.
Qed.
Lemma trim_is s t : trimmed s t -> trim s = t.
Proof. intros H. apply (trim_unique s); auto. apply trim_spec. Qed.

(* ---- the joined text ---- *)
Lemma join_cons l ls : ls <> [] -> join (l :: ls) = l ++ nl :: join ls.
Proof. destruct ls; [congruence|reflexivity]. Qed.
Definition cl (ls : list item) : list Z := concat (map (fun i => text i ++ [nl]) ls).
Lemma texts_cons i ls : ls <> [] -> texts (i :: ls) = (text i ++ [nl]) ++ texts ls.
Proof. intros H. unfold texts. cbn [map]. rewrite join_cons by (destruct ls; [congruence|discriminate]). now rewrite <- app_assoc. Qed.
Lemma texts_app a b : b <> [] -> texts (a ++ b) = cl a ++ texts b.
Proof.
  intros H. induction a as [|i a IH]; auto. cbn [app]. rewrite texts_cons by (destruct a; [exact H|discriminate]). rewrite IH. unfold cl. cbn [map concat]. now rewrite app_assoc.
Qed.
Lemma cl_app a b : cl (a ++ b) = cl a ++ cl b.
Proof. unfold cl. now rewrite map_app, concat_app. Qed.
Lemma cl_snoc a : a <> [] -> cl a = texts a ++ [nl].
Proof.
  intros H. destruct (@exists_last _ a H) as (b & i & ->). rewrite texts_app by discriminate. rewrite cl_app. unfold texts at 1, cl at 2. cbn [map concat join]. rewrite app_nil_r. now rewrite app_assoc.
Qed.

(* ---- strchr and the line scan ---- *)
Lemma strchr_line l c q i : Forall (fun c => c <> 0)%Z l -> ~ In c l -> strchr (l ++ q) c i = strchr q c (i + length l).
Proof.
  revert i. induction l as [|x l IH]; intros i F N; cbn [app strchr length]; [now rewrite Nat.add_0_r|]. inversion F; subst.
  destruct (Z.eqb_spec x 0); [lia|]. destruct (Z.eqb_spec x c); [exfalso; apply N; now left|]. rewrite IH; auto; [f_equal; lia|]. intros K. apply N. now right.
Qed.
Lemma snext_before a r n i : before_ok a -> snextkeychar (a ++ r) (length a + n) i = snextkeychar r n (length a + i).
Proof.
  revert i. induction a as [|c a IH]; intros i H; [reflexivity|]. inversion H as [|? ? (H0 & H1 & H2 & H3 & H4) Ha]; subst. cbn [app snextkeychar length Nat.add].
  destruct (Z.eqb_spec c semi); [lia|]. destruct (Z.eqb_spec c equ); [lia|]. destruct (Z.eqb_spec c lbr); [lia|]. rewrite IH, Nat.add_succ_r; auto.
Qed.
Definition kind (i : item) (pos : nat) : option (bool * nat) :=
  match i with ILine _ => None | IPair k _ _ => Some (false, pos + length k) | ISect a _ _ => Some (true, pos + length a) end.
Lemma key_before k : key_ok k -> before_ok k.
Proof. intros [H _]. unfold before_ok. eapply Forall_impl; [|exact H]. unfold ascii. intros c. cbn. lia. Qed.
Lemma snext_line i q pos : line_ok i -> snextkeychar (text i ++ q) (length (text i)) pos = Ok (kind i pos).
Proof.
  intros (NZ & NN & H). destruct i as [l|k v c|a n j]; cbn [text kind] in *.
  - destruct H as (a & b & -> & Ha & Hb). rewrite app_length, <- app_assoc, snext_before by auto. destruct Hb as [->|(c & ->)]; [destruct q|]; reflexivity.
  - destruct H as (Hk & _). rewrite app_length, <- app_assoc, snext_before by (apply key_before; auto). cbn. now rewrite Nat.add_comm.
  - destruct H as (Ha & _). rewrite app_length, <- app_assoc, snext_before by auto. cbn. now rewrite Nat.add_comm.
Qed.
Definition ends_line (q : list Z) : Prop := q = [] \/ exists r, q = nl :: r.
Lemma line_end (i : item) p q d : line_ok i -> ends_line q -> (q = [] -> d = length p + length (text i)) ->
  match strchr (skipn (length p) (p ++ text i ++ q)) nl (length p) with Some k => k | None => d end = length p + length (text i).
Proof.
  intros (NZ & NN & _) Q D. rewrite skipn_app_len, strchr_line by auto. destruct Q as [->|(r & ->)]; cbn; auto.
Qed.

(* ---- comparevalues ---- *)
Lemma trimr_stop t k e m x : nth_error t m = Some x -> (33 <= x)%Z -> (forall i, m < i <= e -> exists y, nth_error t i = Some y /\ (y < 33)%Z) -> m <= e -> e - m <= k -> trimr t e k = Ok m.
Proof.
  revert e. induction k as [|k IH]; intros e Hm Hx Hb L K; cbn [trimr].
  - f_equal. lia.
  - destruct (Nat.eq_dec e m) as [->|N]; [unfold get; rewrite Hm; cbn; destruct (Z.ltb_spec x 33); [lia|reflexivity]|].
    destruct (Hb e) as (y & Ey & Hy); [lia|]. unfold get. rewrite Ey. cbn. destruct (Z.ltb_spec y 33); [|lia]. apply IH; auto; try lia. intros i Hi. apply Hb. lia.
Qed.
Lemma trimr_begin t k e : (forall i, e - k < i <= e -> exists y, nth_error t i = Some y /\ (y < 33)%Z) -> k <= e -> trimr t e k = Ok (e - k).
Proof.
  revert e. induction k as [|k IH]; intros e Hb L; cbn [trimr]; [f_equal; lia|].
  destruct (Hb e) as (y & Ey & Hy); [lia|]. unfold get. rewrite Ey. cbn. destruct (Z.ltb_spec y 33); [|lia]. rewrite IH; [f_equal; lia| |lia]. intros i Hi. apply Hb. lia.
Qed.
Lemma skip_blanks_app a c r : Forall blank a -> ~ blank c -> skip_blanks (a ++ c :: r) = length a.
Proof.
  induction a as [|x a IH]; intros F N; cbn [app skip_blanks length].
  - destruct ((0 <? c)%Z && (c <? 33)%Z) eqn:B; auto. exfalso. apply N. unfold blank. lia.
  - inversion F as [|? ? Hx Ha]; subst. unfold blank in Hx. destruct ((0 <? x)%Z && (x <? 33)%Z) eqn:B; [|lia]. now rewrite IH.
Qed.
Definition clash (a b : list Z) : bool := strnicmp a b (Nat.min (length a) (length b)).
Lemma strnicmp_app a q b n : n <= length a -> strnicmp (a ++ q) b n = strnicmp a b n.
Proof.
  revert b n. induction a as [|x a IH]; intros b n L; cbn [length app] in *; [replace n with 0 by lia; destruct q, b; reflexivity|].
  destruct n; [destruct b; reflexivity|]. destruct b; auto. cbn [strnicmp]. rewrite IH; auto. lia.
Qed.
Lemma compare_ok p raw q a comp : trimmed raw a -> Forall ascii raw -> a <> [] ->
  comparevalues (p ++ raw ++ q) (length p) (length p + length raw) comp = Ok (clash a comp).
Proof.
  intros (g & b & -> & Hg & Hb & Hf & Hl) A NE. destruct a as [|c a']; [congruence|]. set (a := c :: a') in *.
  unfold comparevalues. rewrite skipn_app_len.
  assert (Esk : skip_blanks ((g ++ a ++ b) ++ q) = length g) by (unfold a; rewrite <- app_assoc; cbn [app]; apply skip_blanks_app; auto; eapply Hf; reflexivity).
  rewrite Esk. destruct (@exists_last _ a) as (u & x & Eu); [discriminate|].
  assert (Hx : (33 <= x)%Z). { pose proof (Hl x u Eu) as N. assert (Ax : ascii x) by (rewrite Forall_forall in A; apply A; rewrite Eu, !in_app_iff; cbn; tauto). unfold blank, ascii in *. lia. }
  set (t := p ++ (g ++ a ++ b) ++ q).
  assert (Et : t = (p ++ g ++ u) ++ x :: b ++ q) by (unfold t; rewrite Eu, <- !app_assoc; reflexivity).
  assert (L : length p + length (g ++ a ++ b) - 1 = length (p ++ g ++ u) + length b) by (rewrite Eu, !app_length; cbn; lia).
  rewrite L. rewrite (trimr_stop t _ _ (length (p ++ g ++ u)) x); auto.
  - cbn [bind]. destruct (Z.ltb_spec (Z.of_nat (length (p ++ g ++ u)) - Z.of_nat (length p + length g) + 1) 0); [rewrite !app_length in *; lia|].
    replace (Z.to_nat (Z.of_nat (length (p ++ g ++ u)) - Z.of_nat (length p + length g) + 1)) with (length a) by (rewrite Eu, !app_length; cbn; lia).
    replace (skipn (length p + length g) t) with (a ++ b ++ q).
    2:{ unfold t. rewrite <- app_length. replace (p ++ (g ++ a ++ b) ++ q) with ((p ++ g) ++ a ++ b ++ q) by (rewrite <- !app_assoc; reflexivity). now rewrite skipn_app_len. }
    rewrite strnicmp_app by lia. reflexivity.
  - rewrite Et, nth_error_app2, Nat.sub_diag by lia. reflexivity.
  - intros i Hi. rewrite Et, nth_error_app2 by lia. destruct (i - length (p ++ g ++ u)) as [|k] eqn:Ek; [lia|]. cbn [nth_error]. rewrite nth_error_app1 by lia.
    destruct (nth_error b k) as [y|] eqn:Ey; [|apply nth_error_None in Ey; lia]. exists y. split; auto. rewrite Forall_forall in Hb. apply nth_error_In in Ey. apply Hb in Ey. unfold blank in Ey. lia.
  - lia.
  - rewrite !app_length in *. lia.
Qed.
Lemma clash_prefix a b : clash a b = true -> (exists r, fold_case b = fold_case a ++ r) \/ (exists r, fold_case a = fold_case b ++ r).
Proof.
  unfold clash. revert b. induction a as [|x a IH]; intros b H; [left; eexists; reflexivity|]. destruct b as [|y b]; [right; eexists; reflexivity|].
  cbn [length Nat.min strnicmp] in H. apply andb_true_iff in H as [H1 H2]. apply IH in H2. apply Z.eqb_eq in H1. unfold fold_case in *. cbn [map app].
  destruct H2 as [(r & E)|(r & E)]; [left|right]; exists r; rewrite E; cbn; congruence.
Qed.
Lemma clash_same a b : fold_case a = fold_case b -> clash a b = true.
Proof.
  unfold clash. revert b. induction a as [|x a IH]; intros [|y b] H; try discriminate; auto. unfold fold_case in *. cbn [map] in H. injection H as H1 H2. cbn [length Nat.min strnicmp]. rewrite IH by auto. rewrite H1, Z.eqb_refl. reflexivity.
Qed.
Lemma clash_free P a b : prefix_free P -> P a -> P b -> clash a b = same a b.
Proof.
  intros H Pa Pb. destruct (same_spec a b) as [E|E]; [now apply clash_same|]. destruct (clash a b) eqn:C; auto. exfalso. apply E. apply clash_prefix in C as [C|C]; [apply H; auto|symmetry; apply H; auto].
Qed.

(* ---- bssFindINISection ---- *)
Fixpoint scan (T : nat) (ls : list item) (section : list Z) (instance count : nat) (found : option nat) (cur : nat) : option (nat * nat) :=
  match ls with
  | [] => match found with Some s => Some (s, T) | None => None end
  | i :: ls =>
    let cur' := cur + length (text i) + 1 in
    match i with
    | ISect a n j => match found with
                     | Some s => Some (s, cur - 1)
                     | None => if clash (trim n) section then scan T ls section instance (S count) (if count =? instance then Some (cur + length a) else None) cur'
                               else scan T ls section instance count None cur'
                     end
    | _ => scan T ls section instance count found cur'
    end
  end.
Lemma svalid_app v q n i b : Forall (fun c => c <> semi /\ c <> rbr) v -> svalidatesection (v ++ rbr :: q) (length v + S n) i b = Ok (if existsb (fun c => 33 <=? c)%Z v || b then Some (i + length v) else None).
Proof.
  revert i b. induction v as [|c v IH]; intros i b F; cbn [app length Nat.add svalidatesection existsb].
  - rewrite Nat.add_0_r. destruct b; reflexivity.
  - inversion F as [|? ? (H1 & H2) Hv]; subst. destruct (Z.eqb_spec c semi); [lia|]. destruct (Z.eqb_spec c rbr); [lia|]. rewrite IH by auto.
    replace (existsb (fun c => 33 <=? c)%Z v || (b || (33 <=? c)%Z)) with ((33 <=? c)%Z || existsb (fun c => 33 <=? c)%Z v || b) by (destruct b, (33 <=? c)%Z, (existsb (fun c => 33 <=? c)%Z v); reflexivity).
    destruct (_ || _); auto. do 2 f_equal. lia.
Qed.
Lemma sect_valid a n j p q : line_ok (ISect a n j) ->
  let t := p ++ text (ISect a n j) ++ q in let tc := length p + length a in
  svalidatesection (skipn tc t) (length p + length (text (ISect a n j)) - tc) tc false = Ok (Some (S tc + length n)).
Proof.
  intros (_ & _ & Ha & Hn & Ex). cbn [text]. cbn zeta. replace (p ++ (a ++ lbr :: n ++ rbr :: j) ++ q) with ((p ++ a) ++ (lbr :: n) ++ rbr :: j ++ q) by (rewrite <- !app_assoc; cbn [app]; rewrite <- !app_assoc; reflexivity).
  rewrite <- app_length, skipn_app_len.
  replace (length p + length (a ++ lbr :: n ++ rbr :: j) - length (p ++ a)) with (length (lbr :: n) + S (length j)) by (rewrite !app_length; cbn [length]; rewrite !app_length; cbn [length]; lia).
  rewrite svalid_app.
  - change (existsb (fun c => (33 <=? c)%Z) (lbr :: n)) with true. cbn [orb length]. do 2 f_equal. lia.
  - constructor; [split; discriminate|]. eapply Forall_impl; [|exact Hn]. cbn. tauto.
Qed.
Lemma trim_name_ne n : name_ok n -> trim n <> [].
Proof. intros (_ & H). exact (trimmed_ne n (trim n) (trim_spec n) H). Qed.
Lemma trim_key_ne n : key_ok n -> trim n <> [].
Proof. intros (_ & H). exact (trimmed_ne n (trim n) (trim_spec n) H). Qed.
Lemma find_section_past fuel t section instance cur count found : fuel > 0 -> length t <= cur -> find_section fuel t section instance cur count found = Ok (match found with Some s => Some (s, length t) | None => None end).
Proof. intros F L. destruct fuel; [lia|]. cbn [find_section]. destruct (Nat.ltb_spec cur (length t)); [lia|reflexivity]. Qed.
Lemma texts_split i ls : exists q, texts (i :: ls) = text i ++ q /\ ends_line q /\ (ls = [] -> q = []) /\ (ls <> [] -> q = nl :: texts ls).
Proof.
  destruct ls as [|i2 ls].
  - exists []. unfold texts. cbn [map join]. rewrite app_nil_r. split; auto. split; [now left|]. split; auto. congruence.
  - exists (nl :: texts (i2 :: ls)). rewrite texts_cons by discriminate. rewrite <- app_assoc. split; auto. split; [right; eauto|]. split; [discriminate|auto].
Qed.
Lemma find_section_scan section instance : forall ls p fuel count found, Forall line_ok ls -> ls <> [] -> length (texts ls) < fuel ->
  find_section fuel (p ++ texts ls) section instance (length p) count found = Ok (scan (length (p ++ texts ls)) ls section instance count found (length p)).
Proof.
  induction ls as [|i ls IH]; intros p fuel count found OK NE FU; [congruence|]. inversion OK as [|? ? Hi Hls]; subst.
  destruct (texts_split i ls) as (q & Et & Q & Q1 & Q2). rewrite Et in FU |- *. set (t := p ++ text i ++ q) in *.
  assert (Next : forall fuel' count' found', length (texts (i :: ls)) <= fuel' -> text i ++ q <> [] -> find_section fuel' t section instance (S (length p + length (text i))) count' found' =
    Ok (scan (length t) ls section instance count' found' (length p + length (text i) + 1))).
  { intros fuel' count' found' F' NEq. rewrite Et in F'. destruct ls as [|i2 ls].
    - specialize (Q1 eq_refl). subst q. rewrite app_nil_r in NEq, F'. rewrite find_section_past; [reflexivity| |].
      + destruct (text i); [congruence|cbn in F'; lia].
      + unfold t. rewrite !app_length. cbn. lia.
    - specialize (Q2 ltac:(discriminate)). subst q. pose proof (IH (p ++ text i ++ [nl]) fuel' count' found' Hls ltac:(discriminate)) as H.
      replace ((p ++ text i ++ [nl]) ++ texts (i2 :: ls)) with t in H by (unfold t; rewrite <- !app_assoc; reflexivity).
      replace (length (p ++ text i ++ [nl])) with (S (length p + length (text i))) in H by (rewrite !app_length; cbn; lia).
      rewrite H; [do 2 f_equal; lia|]. rewrite app_length in F'. cbn [length] in F'. lia. }
  destruct fuel as [|fuel]; [lia|]. cbn [find_section]. destruct (Nat.ltb_spec (length p) (length t)) as [Lt|Ge].
  2:{ (* the last line, empty *) assert (El : text i ++ q = []) by (apply length_zero_iff_nil; unfold t in Ge; rewrite app_length in Ge; lia).
      apply app_eq_nil in El as [E1 E2]. destruct ls as [|i2 ls]; [|specialize (Q2 ltac:(discriminate)); congruence]. cbn [scan]. destruct i as [l|k v c|a n j]; cbn [text] in E1; [reflexivity|destruct k; discriminate|destruct a; discriminate]. }
  assert (NEq : text i ++ q <> []) by (intros E; unfold t in Lt; rewrite E, app_nil_r in Lt; lia).
  pose proof (line_end i p q (length t) Hi Q) as LE. fold t in LE. rewrite LE by (intros ->; unfold t; rewrite !app_length; cbn; lia). clear LE.
  replace (length p + length (text i) - length p) with (length (text i)) by lia. assert (Sk : skipn (length p) t = text i ++ q) by apply skipn_app_len. rewrite Sk, snext_line by auto. cbn [bind].
  assert (F1 : length (texts (i :: ls)) <= fuel) by (rewrite Et; lia).
  destruct i as [l|k v c|a n j]; cbn [kind scan].
  - apply Next; auto.
  - apply Next; auto.
  - destruct found as [s|]; [reflexivity|]. pose proof (sect_valid a n j p q Hi) as SV. cbn zeta in SV. fold t in SV. rewrite SV. cbn [bind]. pose proof Hi as (_ & _ & Ha & Hn).
    destruct (Nat.eqb_spec (S (length p + length a) + length n) (S (length p + length a))) as [E|_]. { destruct Hn as (_ & Ex). destruct n; [inversion Ex|cbn in E; lia]. }
    assert (CV : comparevalues t (S (length p + length a)) (S (length p + length a) + length n) section = Ok (clash (trim n) section)).
    { replace (S (length p + length a)) with (length (p ++ a ++ [lbr])) by (rewrite !app_length; cbn; lia). unfold t. cbn [text].
      replace (p ++ (a ++ lbr :: n ++ rbr :: j) ++ q) with ((p ++ a ++ [lbr]) ++ n ++ rbr :: j ++ q) by (rewrite <- !app_assoc; cbn [app]; rewrite <- !app_assoc; reflexivity).
      apply compare_ok; [apply trim_spec| |apply trim_name_ne; auto]. destruct Hn as (Hn & _). eapply Forall_impl; [|exact Hn]. cbn. tauto. }
    rewrite CV. cbn [bind]. destruct (clash (trim n) section); [|apply Next; auto]. destruct (count =? instance); apply Next; auto.
Qed.
Lemma find_section_ok ls section instance : Forall line_ok ls -> ls <> [] -> bssFindINISection (texts ls) section instance = Ok (scan (length (texts ls)) ls section instance 0 None 0).
Proof. intros OK NE. unfold bssFindINISection. apply (find_section_scan section instance ls []); auto. Qed.
