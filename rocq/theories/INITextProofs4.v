(* The text after AddSection. *)
From Coq Require Import List Arith ZArith Bool Lia ZifyBool ZifyNat.
From Verif Require Import Common INIParser INIParserProps INIChain INIChainProofs INIStorage INIDoc INITextProofs INITextProofs2 INITextProofs3.
Import ListNotations.
Local Open Scope nat_scope.

Definition white (c : Z) : Prop := (c = 32 \/ c = nl \/ c = 13)%Z.
Lemma white_blank c : white c -> blank c.
Proof. unfold white, blank, nl. lia. Qed.
Lemma stripped_ok t : forall i, i <= length t -> exists k, stripped t i = Ok k /\ k <= i /\ (forall m, k <= m < i -> exists c, nth_error t m = Some c /\ white c) /\ (k = 0 \/ exists c, nth_error t (k - 1) = Some c /\ ~ white c).
Proof.
  induction i as [|i IH]; intros L; cbn [stripped].
  - exists 0. split; auto. split; auto. split; [lia|now left].
  - unfold get. destruct (nth_error t i) as [c|] eqn:E; [|apply nth_error_None in E; lia]. cbn [bind].
    destruct (negb ((c =? 32) || (c =? nl) || (c =? 13))%Z) eqn:W.
    + exists (S i). split; auto. split; auto. split; [lia|]. right. exists c. cbn. rewrite Nat.sub_0_r. split; auto. unfold white. lia.
    + destruct IH as (k & E1 & L1 & A & B); [lia|]. exists k. split; auto. split; [lia|]. split; auto. intros m Hm. destruct (Nat.eq_dec m i) as [->|]; [|apply A; lia]. exists c. split; auto. unfold white. lia.
Qed.
Lemma stripped_split t : exists k, stripped t (length t) = Ok k /\ Forall white (skipn k t) /\ (k = 0 \/ exists x c, firstn k t = x ++ [c] /\ ~ white c).
Proof.
  destruct (stripped_ok t (length t)) as (k & E & L & A & B); [lia|]. exists k. split; auto. split.
  - apply Forall_forall. intros c Hc. apply In_nth_error in Hc as [m Hm]. assert (Lm : m < length (skipn k t)) by (apply nth_error_Some; congruence). rewrite skipn_length in Lm.
    destruct (A (k + m)) as (c' & E1 & W); [lia|]. rewrite <- (firstn_skipn k t), nth_error_app2 in E1 by (rewrite firstn_length; lia). rewrite firstn_length in E1. replace (k + m - Nat.min k (length t)) with m in E1 by lia. congruence.
  - destruct B as [->|(c & E1 & W)]; [now left|]. destruct k as [|k]; [now left|]. right. cbn in E1. rewrite Nat.sub_0_r in E1. exists (firstn k t), c. split; auto.
    clear -E1. revert t E1. induction k as [|k IH]; intros [|y t] E; try discriminate; cbn in *; [now injection E as ->|]. now rewrite <- (IH t E).
Qed.
(* a line without the white space at its end *)
Lemma cut_line i y w : line_ok i -> text i = y ++ w -> Forall white w -> y <> [] -> (exists x c, y = x ++ [c] /\ ~ white c) -> exists i', line_ok i' /\ text i' = y /\ forall r, doc_of (i' :: r) = doc_of (i :: r).
Proof.
  intros (NZ & NN & H) E W NE (x0 & c0 & Ey & Wc0). rewrite E in NZ, NN. apply Forall_app in NZ as [NZ _]. assert (NN' : ~ In nl y) by (intros K; apply NN, in_or_app; auto). clear NN.
  assert (WB : Forall blank w) by (eapply Forall_impl; [apply white_blank|exact W]).
  (* a mark that is not white is in y *)
  assert (Mark : forall u m v, ~ white m -> u ++ m :: v = y ++ w -> exists v', y = u ++ m :: v' /\ v = v' ++ w).
  { intros u m v Hm Em. apply app_eq_app in Em as (l & [[E1 E2]|[E1 E2]]).
    - exfalso. apply Hm. rewrite Forall_forall in W. apply W. rewrite E2. apply in_or_app. right. now left.
    - destruct l as [|l0 l]; [|cbn in E2; injection E2 as <- ->; exists l; auto]. cbn in E2. exfalso. apply Hm. rewrite Forall_forall in W. apply W. rewrite <- E2. now left. }
  destruct i as [l|k v c|a n j]; cbn [text] in E.
  - exists (ILine y). split; [|split; auto]. split; auto. split; auto. destruct H as (a & b & -> & Ha & Hb). destruct Hb as [->|(c & ->)].
    + rewrite app_nil_r in E. subst a. exists y, []. rewrite app_nil_r. split; auto. split; auto. unfold before_ok in Ha |- *. apply Forall_app in Ha. tauto.
    + destruct (Mark a semi c) as (v' & Ev & _); [unfold white; discriminate 1 || (intros [K|[K|K]]; discriminate K)|exact E|]. exists a, (semi :: v'). split; auto. split; auto. right. eauto.
  - destruct H as (Hk & Hv & Hc). destruct (Mark k equ (v ++ c)) as (v' & Ev & Evc); [intros [K|[K|K]]; discriminate K|exact E|].
    destruct Hc as [->|(c' & -> & Nc)].
    + rewrite app_nil_r in Evc. exists (IPair k v' []). split; [|split].
      * split; [cbn [text]; rewrite app_nil_r, <- Ev; auto|]. split; [cbn [text]; rewrite app_nil_r, <- Ev; auto|]. split; auto. split; [|now left]. unfold value_ok in *. rewrite Evc in Hv. apply Forall_app in Hv. tauto.
      * cbn [text]. now rewrite app_nil_r.
      * intros r. cbn [doc_of]. now rewrite Evc, trim_right_blank.
    + destruct (Mark (k ++ equ :: v) semi c') as (v2 & Ev2 & Ec); [intros [K|[K|K]]; discriminate K|rewrite <- app_assoc; exact E|].
      exists (IPair k v (semi :: v2)). assert (Et : text (IPair k v (semi :: v2)) = y) by (cbn [text]; rewrite Ev2, <- app_assoc; reflexivity). split; [|split; auto]. split; [rewrite Et; auto|]. split; [rewrite Et; auto|]. split; auto. split; auto. right. exists v2. split; auto. intros K. apply Nc. rewrite Ec. apply in_or_app. auto.
  - destruct H as (Ha & Hn). destruct (Mark (a ++ lbr :: n) rbr j) as (v2 & Ev2 & Ec); [intros [K|[K|K]]; discriminate K|rewrite <- app_assoc; exact E|].
    exists (ISect a n v2). assert (Et : text (ISect a n v2) = y) by (cbn [text]; rewrite Ev2, <- app_assoc; reflexivity). split; [|split; auto]. split; [rewrite Et; auto|]. split; [rewrite Et; auto|]. auto.
Qed.
Lemma white_line i : line_ok i -> Forall white (text i) -> exists l, i = ILine l /\ before_ok l.
Proof.
  intros (NZ & NN & H) W. assert (Mark : forall c, In c (text i) -> white c) by (now apply Forall_forall). destruct i as [l|k v c|a n j]; cbn [text] in *.
  - exists l. split; auto. destruct H as (a & b & -> & Ha & [->|(c & ->)]); [now rewrite app_nil_r|]. exfalso. assert (K : white semi) by (apply Mark, in_or_app; right; now left). destruct K as [K|[K|K]]; discriminate K.
  - exfalso. assert (K : white equ) by (apply Mark, in_or_app; right; now left). destruct K as [K|[K|K]]; discriminate K.
  - exfalso. assert (K : white lbr) by (apply Mark, in_or_app; right; now left). destruct K as [K|[K|K]]; discriminate K.
Qed.
Lemma doc_ext A i i' : (forall r, doc_of (i' :: r) = doc_of (i :: r)) -> doc_of (A ++ [i']) = doc_of (A ++ [i]).
Proof. intros H. induction A as [|x A IH]; [apply H|]. cbn [app]. destruct x; cbn [doc_of]; now rewrite IH. Qed.
Lemma doc_line A l : doc_of (A ++ [ILine l]) = doc_of A.
Proof. induction A as [|x A IH]; auto. cbn [app]. destruct x; cbn [doc_of]; now rewrite IH. Qed.
Lemma strip_lines : forall ls, ls <> [] -> Forall line_ok ls -> forall x w, texts ls = x ++ w -> Forall white w -> (exists y c, x = y ++ [c] /\ ~ white c) ->
  exists ls', ls' <> [] /\ Forall line_ok ls' /\ texts ls' = x /\ doc_of ls' = doc_of ls.
Proof.
  induction ls as [|z ls IH] using rev_ind; intros NE OK x w E W (y & c & Ex & Wc); [congruence|]. clear NE. apply Forall_app in OK as [OK1 OK2]. inversion OK2 as [|? ? OKz _]; subst.
  rewrite texts_app, texts_one in E by discriminate. apply app_eq_app in E as (l & [[E1 E2]|[E1 E2]]).
  - (* the line is white *)
    destruct (white_line z OKz) as (lz & -> & _). { rewrite E2 in W. apply Forall_app in W. tauto. }
    assert (N : ls <> []) by (intros ->; cbn in E1; symmetry in E1; apply app_eq_nil in E1 as [E1 _]; destruct y; discriminate). rewrite cl_snoc in E1 by auto.
    destruct (@exists_last _ l) as (l' & m & ->).
    { intros ->. rewrite app_nil_r in E1. apply app_inj_tail in E1 as [_ E1]. apply Wc. right. left. congruence. }
    rewrite app_assoc in E1. apply app_inj_tail in E1 as [E1 <-]. destruct (IH N OK1 _ _ E1) as (ls' & A & B & C & D).
    + rewrite E2 in W. apply Forall_app in W as [W _]. apply Forall_app in W. tauto.
    + eauto.
    + exists ls'. split; auto. split; auto. split; auto. rewrite doc_line. exact D.
  - destruct l as [|l0 l].
    + (* the text before the line ends with a new line *)
      cbn in E2. rewrite app_nil_r in E1. exfalso. destruct ls as [|i0 ls0]; [cbn in E1; destruct y; discriminate|]. rewrite cl_snoc in E1 by discriminate. apply app_inj_tail in E1 as [_ E1]. apply Wc. right. left. congruence.
    + destruct (cut_line z (l0 :: l) w OKz E2 W) as (i' & A & B & C); [discriminate| |].
      { destruct (@exists_last _ (l0 :: l)) as (u & m & Eu); [discriminate|]. exists u, m. split; auto. rewrite Eu, app_assoc in E1. apply app_inj_tail in E1 as [_ E1]. now rewrite <- E1. }
      exists (ls ++ [i']). split; [destruct ls; discriminate|]. split; [apply Forall_app; auto|]. split; [rewrite texts_app, texts_one, B by discriminate; auto|]. apply doc_ext. exact C.
Qed.
Lemma all_white : forall ls, Forall line_ok ls -> Forall white (texts ls) -> doc_of ls = ([], []) /\ Forall (fun i => exists l, i = ILine l /\ before_ok l) ls.
Proof.
  induction ls as [|i ls IH]; intros OK W; [auto|]. inversion OK; subst. destruct (texts_split i ls) as (q & E & _ & Q1 & Q2). rewrite E in W. apply Forall_app in W as [W1 W2]. destruct (white_line i) as (l & -> & Hl); auto.
  destruct ls as [|i2 ls]; [split; auto; constructor; eauto|]. rewrite Q2 in W2 by discriminate. inversion W2; subst. destruct IH as (A & B); auto. split; [exact A|constructor; eauto].
Qed.
Definition add_text (t name : list Z) : res (list Z) :=
  do i <- stripped t (length t);
  Ok ((if 0 <? i then firstn i t ++ [nl; nl] else t) ++ [lbr] ++ name ++ [rbr]).
Lemma nz_name n : name_ok n -> Forall (fun c => c <> 0)%Z n /\ ~ In nl n.
Proof.
  intros (H & _). split; [eapply Forall_impl; [|exact H]; unfold ascii; cbn; lia|]. intros K. rewrite Forall_forall in H. apply H in K. tauto.
Qed.
Lemma sect_line_ok a n : before_ok a -> name_ok n -> line_ok (ISect a n []).
Proof.
  intros Ha Hn. destruct (nz_name n Hn) as [A B]. split; [|split; auto]; cbn [text].
  - apply Forall_app. split; [eapply Forall_impl; [|exact Ha]; cbn; tauto|]. constructor; [discriminate|]. apply Forall_app. split; auto. constructor; [discriminate|constructor].
  - intros K. apply in_app_or in K as [K|[K|K]]; [unfold before_ok in Ha; rewrite Forall_forall in Ha; apply Ha in K; tauto|discriminate K|]. apply in_app_or in K as [K|[K|[]]]; [auto|discriminate K].
Qed.
Lemma added ls name : Forall line_ok ls -> ls <> [] -> name_ok name -> trim name = name ->
  exists ls', add_text (texts ls) name = Ok (texts ls') /\ Forall line_ok ls' /\ ls' <> [] /\ doc_of ls' = (fst (doc_of ls), snd (doc_of ls) ++ [(name, [])]).
Proof.
  intros OK NE Hn Tn. unfold add_text. destruct (stripped_split (texts ls)) as (k & E & W & C). rewrite E. cbn [bind]. destruct C as [->|(x & c & Ex & Wc)].
  - cbn [Nat.ltb Nat.leb]. cbn [skipn] in W. destruct (all_white ls OK W) as (D & Wl). destruct (@exists_last _ ls NE) as (l0 & z & ->). apply Forall_app in Wl as [_ Wl]. inversion Wl as [|? ? (l & -> & Hl) _]; subst.
    apply Forall_app in OK as [OK0 _]. exists (l0 ++ [ISect l name []]). split; [|split; [apply Forall_app; split; auto; constructor; auto; apply sect_line_ok; auto|split; [destruct l0; discriminate|]]].
    + rewrite !texts_app, !texts_one by discriminate. cbn [text]. f_equal. asc. reflexivity.
    + rewrite D. rewrite doc_line in D. rewrite doc_at_sect by (right; eauto 6). rewrite D. cbn. now rewrite Tn.
  - assert (K : 0 <? k = true) by (destruct k; [destruct x; discriminate|reflexivity]). rewrite K. destruct (strip_lines ls NE OK (firstn k (texts ls)) (skipn k (texts ls))) as (ls' & A & B & C & D); auto; [now rewrite firstn_skipn|eauto|].
    exists (ls' ++ [ILine []; ISect [] name []]). split; [|split; [apply Forall_app; split; auto|split; [destruct ls'; discriminate|]]].
    + rewrite texts_app by discriminate. rewrite texts_cons by discriminate. rewrite texts_one, cl_snoc, C by auto. f_equal. cbn [text]. asc. reflexivity.
    + constructor; [|constructor; [apply sect_line_ok; auto; constructor|constructor]]. split; [constructor|]. split; [intros []|]. exists [], []. split; auto. split; [constructor|now left].
    + replace (ls' ++ [ILine []; ISect [] name []]) with ((ls' ++ [ILine []]) ++ [ISect [] name []]) by (rewrite <- app_assoc; reflexivity). rewrite doc_at_sect by (right; eauto 6). rewrite doc_line, D. cbn. now rewrite Tn.
Qed.
