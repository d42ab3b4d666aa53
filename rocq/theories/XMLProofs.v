(** * XML: termination of the reader, and the reader on what the writer writes *)
From Coq Require Import ZArith List Bool Lia ZifyBool ZifyNat.
From Verif Require Import Common BitUtil JSON JSONProofs Str XML.
Import ListNotations.
Local Open Scope Z_scope.

(* ------------------------------------------------------------------ termination *)
(** 0 when no more characters can be read *)
Definition mu (s : stream) : nat := match st s with Good => S (length (rest s)) | _ => O end.

Lemma mu_good s : st s = Good -> mu s = S (length (rest s)).
Proof. unfold mu. now intros ->. Qed.
Lemma mu_bad s : st s <> Good -> mu s = O.
Proof. unfold mu. destruct (st s); congruence. Qed.

Lemma peek_mu s c s' : peek s = (c, s') -> (mu s' <= mu s)%nat /\ (c = None -> mu s' = O) /\ (c <> None -> s' = s /\ st s = Good /\ rest s <> []).
Proof.
  unfold peek, mu. destruct (st s) eqn:E.
  - destruct (rest s) eqn:F; intros H; inversion H; subst; cbn; repeat split; auto; try lia; congruence || (rewrite ?E, ?F; cbn; lia).
  - intros H; inversion H; subst; cbn. repeat split; auto; congruence.
  - intros H; inversion H; subst; cbn. repeat split; auto; congruence.
Qed.
Lemma get_mu s c s' : get s = (c, s') -> (mu s' <= mu s)%nat /\ (mu s <> O -> (mu s' < mu s)%nat).
Proof.
  unfold get, mu. destruct (st s) eqn:E; [destruct (rest s)|..]; intros H; inversion H; subst; cbn; lia.
Qed.
Lemma seekg_mu r s : (mu (seekg r s) <= S (length r))%nat.
Proof. unfold seekg, mu. destruct (st s) eqn:E; cbn; rewrite ?E; lia. Qed.

Lemma eat_space_mu l : (mu (eat_space l) <= S (length l))%nat /\ (st (eat_space l) = Good -> (length (rest (eat_space l)) <= length l)%nat).
Proof.
  induction l as [|c l [A B]]; cbn [eat_space length]; [split; [cbn; lia|cbn; congruence]|].
  destruct (isspace c); [split; [lia|intros H; apply B in H; lia]|split; [cbn; lia|cbn; lia]].
Qed.
Lemma eat_space_head l : st (eat_space l) = Good -> exists c t, rest (eat_space l) = c :: t /\ isspace c = false.
Proof. induction l as [|c l IH]; cbn [eat_space]; [discriminate|]. destruct (isspace c) eqn:E; auto. intros _. exists c, l. auto. Qed.
Lemma match_prefix_len p : forall l b s, match_prefix p l = Some (b, s) ->
  (length (rest s) <= length l)%nat /\ (b = true -> (length (rest s) + length p = length l)%nat).
Proof.
  intros l. revert p. induction l as [|c l IH]; intros p b s H; cbn in H.
  - inversion H; subst; cbn. split; [lia|]. destruct p; cbn; [lia|discriminate].
  - destruct p as [|d p]; [inversion H; subst; cbn; lia|]. destruct (c =? d); [|discriminate].
    apply IH in H as [A B]. cbn. split; [lia|]. intros X. apply B in X. lia.
Qed.
Lemma match_suffix_len q : forall l j out j' out' s, match_suffix q l j out = (j', out', s) ->
  (length (rest s) + length out' = length l + length out)%nat.
Proof.
  induction l as [|c l IH]; intros j out j' out' s H; cbn in H; [inversion H; subst; cbn; lia|].
  destruct (j =? length q)%nat; [inversion H; subst; cbn; lia|]. apply IH in H. rewrite app_length in H. cbn in *. lia.
Qed.
Lemma match_suffix_j q : forall l j out j' out' s, match_suffix q l j out = (j', out', s) -> (j <= length out -> j' <= length out')%nat.
Proof.
  induction l as [|c l IH]; intros j out j' out' s H L; cbn in H; [inversion H; subst; cbn; lia|].
  destruct (j =? length q)%nat; [inversion H; subst; cbn; lia|]. apply IH in H; auto. rewrite app_length; cbn. destruct (c =? nth j q 0); lia.
Qed.

Lemma xmatch_mu s out p q b s' out' : xmatch s out p q = (b, s', out') ->
  (mu s' <= mu s)%nat /\
  (b = true -> st s = Good /\ (length (rest s') + length p + match q with Some q => length q + length out' | None => O end <= length (rest s))%nat).
Proof.
  unfold xmatch. intros H.
  set (s1 := match st s with Good => eat_space (rest s) | _ => Stream (rest s) Fail end) in H.
  assert (M1 : (mu s1 <= mu s)%nat /\ (st s1 = Good -> st s = Good /\ (length (rest s1) <= length (rest s))%nat)).
  { unfold s1, mu at 2. destruct (st s) eqn:E; cbn; [|split; [lia|discriminate]..].
    destruct (eat_space_mu (rest s)) as [A B]. split; [auto|]. intros X; split; auto. }
  destruct M1 as [M1 G1]. destruct (st s1) eqn:E1.
  2,3: inversion H; subst; split; [unfold mu at 1; cbn; lia|discriminate].
  specialize (G1 eq_refl) as [G1 L1].
  destruct (match_prefix p (rest s1)) as [[all s2]|] eqn:P; [|inversion H; subst; split; [auto|discriminate]].
  pose proof (match_prefix_len _ _ _ _ P) as [A B].
  assert (M : mu s = S (length (rest s))) by (unfold mu; now rewrite G1).
  destruct all; [|inversion H; subst; split; [unfold mu at 1; cbn; lia|discriminate]].
  destruct q as [q|].
  - destruct (st s2) eqn:E2; [|inversion H; subst; split; [unfold mu at 1; cbn; lia|discriminate]..].
    destruct (match_suffix q (rest s2) 0 []) as [[j out1] s3] eqn:S3.
    pose proof (match_suffix_len _ _ _ _ _ _ _ S3) as L3. pose proof (match_suffix_j _ _ _ _ _ _ _ S3) as J3. cbn in L3, J3. specialize (J3 ltac:(lia)). specialize (B eq_refl).
    destruct (j =? length q)%nat eqn:J.
    + inversion H; subst. split; [unfold mu at 1; destruct (st s'); lia|]. intros _. split; [auto|]. rewrite firstn_length. lia.
    + inversion H; subst. split; [|discriminate]. pose proof (seekg_mu (rest s1) s3). lia.
  - inversion H; subst. specialize (B eq_refl). split; [unfold mu at 1; destruct (st s'); lia|]. intros _; split; [auto|lia].
Qed.

Lemma eat_word_mu l : forall acc s a, eat_word l acc = (s, a) -> (mu s <= S (length l))%nat.
Proof. induction l as [|c l IH]; intros acc s a H; cbn in H; [inversion H; subst; unfold mu; cbn; lia|]. destruct (isspace c); [inversion H; subst; unfold mu; cbn; lia|]. apply IH in H. cbn; lia. Qed.
Lemma eat_word_s_mu s acc s' a : eat_word_s s acc = (s', a) -> (mu s' <= mu s)%nat.
Proof.
  unfold eat_word_s. unfold mu at 2. destruct (st s); intros H; [apply eat_word_mu in H; auto|inversion H; subst; unfold mu; cbn; lia..].
Qed.

(** a failed *= leaves the stream dead or before a character that is not space *)
Lemma xmatch_star_fail s out q s' out' : xmatch s out [] (Some q) = (false, s', out') ->
  mu s' = O \/ exists c t, s' = Stream (c :: t) Good /\ isspace c = false.
Proof.
  unfold xmatch. intros H.
  set (s1 := match st s with Good => eat_space (rest s) | _ => Stream (rest s) Fail end) in H.
  destruct (st s1) eqn:E1; [|left; inversion H; subst; reflexivity..].
  assert (X : exists c t, rest s1 = c :: t /\ isspace c = false).
  { unfold s1 in *. destruct (st s); [apply eat_space_head; auto|discriminate..]. }
  destruct X as (c & t & R & C). rewrite R in H. cbn [match_prefix st rest] in H.
  destruct (match_suffix q (c :: t) 0 []) as [[j out1] s3] eqn:S3.
  destruct (j =? length q)%nat; [discriminate|]. inversion H; subst.
  unfold seekg. destruct (st s3) eqn:E; [right; eauto..|left; unfold mu; rewrite E; auto].
Qed.
Lemma eat_word_s_lt c t acc s a : isspace c = false -> eat_word_s (Stream (c :: t) Good) acc = (s, a) -> (mu s <= S (length t))%nat.
Proof. intros C. unfold eat_word_s. cbn [st rest eat_word]. rewrite C. apply eat_word_mu. Qed.

Lemma attr_loop_total : forall fuel s attrs, (mu s <= fuel)%nat -> (0 < fuel)%nat -> exists r, attr_loop fuel s attrs = Ok r.
Proof.
  induction fuel as [|fuel IH]; intros s attrs M F; [lia|]. cbn [attr_loop].
  destruct (peek s) as [c s1] eqn:P. apply peek_mu in P as (P1 & P2 & P3). destruct c as [c|]; [|eauto].
  destruct (P3 ltac:(congruence)) as (-> & G & NE).
  assert (1 <= length (rest s))%nat by (destruct (rest s); [congruence|cbn; lia]). pose proof (mu_good _ G) as MG.
  destruct (xmatch s [] [] (Some [61])) as [[m s2] name] eqn:X. pose proof (xmatch_mu _ _ _ _ _ _ _ X) as [X1 X2].
  destruct m.
  - destruct (X2 eq_refl) as [_ X3]. cbn in X3.
    destruct (xmatch s2 [] [34] (Some [34])) as [[m s3] v] eqn:Y. apply xmatch_mu in Y as [Y1 _].
    assert (M2 : (mu s2 < mu s)%nat). { unfold mu at 1. destruct (st s2); lia. }
    assert (Z : exists s4 v', (if m then (s3, v) else eat_word_s s3 v) = (s4, v') /\ (mu s4 <= mu s3)%nat).
    { destruct m; [eauto|]. destruct (eat_word_s s3 v) as [s4 v'] eqn:W. apply eat_word_s_mu in W. eauto. }
    destruct Z as (s4 & v' & -> & Z). apply IH; lia.
  - destruct (eat_word_s s2 name) as [s3 n] eqn:W. destruct (xmatch_star_fail _ _ _ _ _ X) as [D|(d & t & -> & D)].
    + apply eat_word_s_mu in W. apply IH; lia.
    + apply eat_word_s_lt in W; auto. unfold mu in X1 at 1. cbn in X1. apply IH; lia.
Qed.

Lemma parse_attribute_total buf attrs : exists r, parse_attribute buf attrs = Ok r.
Proof.
  unfold parse_attribute. destruct (split_space (Trim buf)) as [name r]. destruct (drop_space r) as [|c t]; [eauto|].
  edestruct (attr_loop_total (S (length (c_str (c :: t)))) (Stream (c_str (c :: t)) Good) attrs) as [a A]; [unfold mu; cbn; lia|lia|].
  rewrite A. cbn. eauto.
Qed.
Lemma comments_total : forall fuel s buf, (mu s < fuel)%nat -> exists s' buf', comments fuel s buf = Ok (s', buf') /\ (mu s' <= mu s)%nat.
Proof.
  induction fuel as [|fuel IH]; intros s buf M; [lia|]. cbn [comments].
  destruct (xmatch s buf pCOMMENT (Some qCOMMENT)) as [[m s1] b1] eqn:X. apply xmatch_mu in X as [X1 X2].
  destruct m; [|eauto]. destruct (X2 eq_refl) as [G L]. cbn in L. rewrite (mu_good _ G) in *.
  destruct (IH s1 b1) as (s' & b' & E & L'). { unfold mu. destruct (st s1); lia. }
  exists s', b'. split; auto. lia.
Qed.
Lemma xmatch_lt s out p q b s' out' : xmatch s out p q = (b, s', out') -> (0 < length p)%nat -> (mu s' <= mu s)%nat /\ (b = true -> (mu s' < mu s)%nat).
Proof.
  intros X P. apply xmatch_mu in X as [A B]. split; auto. intros T. destruct (B T) as [G L]. rewrite (mu_good _ G). unfold mu. destruct (st s'); lia.
Qed.
Lemma parse_entity_mu s t s' t' : parse_entity s t = (s', t') -> (mu s' <= mu s)%nat /\ (mu s <> O -> (mu s' < mu s)%nat).
Proof.
  unfold parse_entity. intros H.
  repeat match type of H with
  | context [xmatch ?a ?b ?c ?d] =>
    let m := fresh "m" in let s1 := fresh "s" in let b1 := fresh "b" in let X := fresh "X" in
    destruct (xmatch a b c d) as [[m s1] b1] eqn:X; apply xmatch_lt in X; [|cbn; lia]; destruct X as [? X];
    destruct m; [inversion H; subst; specialize (X eq_refl); lia|clear X]
  end.
  destruct (get _) as [c s7] eqn:G in H. apply get_mu in G as [? ?]. inversion H; subst. lia.
Qed.

Lemma total_all : forall fuel,
  (forall s buf, (mu s + 1 < fuel)%nat -> exists b s' buf' nd, parse fuel s buf = Ok (b, s', buf', nd) /\ (mu s' <= mu s)%nat /\ (b = true -> (mu s' < mu s)%nat)) /\
  (forall s buf v ns, (mu s + 2 < fuel)%nat -> exists fin s' buf' v' ns', inner fuel s buf v ns = Ok (fin, s', buf', v', ns') /\
    (mu s' <= mu s)%nat /\ (fin = false -> mu s' = O) /\ (mu s' <> O -> (length (rest s') + length buf' + 4 <= mu s)%nat)).
Proof.
  induction fuel as [|fuel [IHp IHi]]; [split; intros; lia|]. split.
  - intros s buf M. cbn [parse].
    destruct (comments_total fuel s buf ltac:(lia)) as (s1 & b1 & -> & M1). cbn [bind].
    destruct (xmatch s1 b1 [60] (Some [62])) as [[m s2] b2] eqn:X. apply xmatch_mu in X as [X1 X2].
    destruct m; cbn [negb]; [|do 4 eexists; split; [reflexivity|split; [lia|discriminate]]].
    destruct (X2 eq_refl) as [G L]. cbn in L. pose proof (mu_good _ G) as MG.
    assert (M2 : (mu s2 + 2 <= S (length (rest s1)))%nat) by (unfold mu; destruct (st s2); lia).
    destruct (negb (length b2 =? 0)%nat && (last b2 0 =? 47)).
    + destruct (parse_attribute_total (removelast b2) []) as [[name attrs] ->]. cbn [bind].
      do 4 eexists; split; [reflexivity|]. lia.
    + destruct (parse_attribute_total b2 []) as [[name attrs] ->]. cbn [bind].
      destruct (IHi s2 (Trim b2) [] [] ltac:(lia)) as (fin & s3 & b3 & v & ns & -> & I1 & I2 & I3). cbn [bind].
      destruct (peek s3) as [c s4] eqn:P. apply peek_mu in P as (P1 & P2 & P3).
      destruct c; [|do 4 eexists; split; [reflexivity|]; lia].
      destruct (P3 ltac:(congruence)) as (-> & G3 & _). pose proof (mu_good _ G3) as MG3.
      destruct (list_eq_dec Z.eq_dec (Trim b3) name); [do 4 eexists; split; [reflexivity|]; lia|].
      do 4 eexists; split; [reflexivity|].
      pose proof (seekg_mu (47 :: b3 ++ 62 :: rest s3) s3) as Q. cbn in Q. rewrite app_length in Q. cbn in Q. lia.
  - intros s buf v ns M. cbn [inner].
    destruct (peek s) as [c s1] eqn:P. apply peek_mu in P as (P1 & P2 & P3).
    destruct c as [c|]; [|do 5 eexists; split; [reflexivity|]; specialize (P2 eq_refl); repeat split; lia].
    destruct (P3 ltac:(congruence)) as (-> & G & NE). pose proof (mu_good _ G) as MG.
    assert (STEP : forall s' buf v ns, (mu s' < mu s)%nat -> exists fin s'' buf' v' ns', inner fuel s' buf v ns = Ok (fin, s'', buf', v', ns') /\
      (mu s'' <= mu s)%nat /\ (fin = false -> mu s'' = O) /\ (mu s'' <> O -> (length (rest s'') + length buf' + 4 <= mu s)%nat)).
    { intros s' b0 v0 n0 L. destruct (IHi s' b0 v0 n0 ltac:(lia)) as (fin & s3 & b3 & v3 & n3 & -> & I1 & I2 & I3).
      do 5 eexists; split; [reflexivity|]. repeat split; auto; lia. }
    assert (GET : forall s' buf v ns, (mu s' <= mu s)%nat -> exists fin s'' buf' v' ns', (let (c, s0) := get s' in inner fuel s0 buf (v ++ [c]) ns) = Ok (fin, s'', buf', v', ns') /\
      (mu s'' <= mu s)%nat /\ (fin = false -> mu s'' = O) /\ (mu s'' <> O -> (length (rest s'') + length buf' + 4 <= mu s)%nat)).
    { intros s' b0 v0 n0 L. destruct (get s') as [d s2] eqn:E. apply get_mu in E. apply STEP. lia. }
    destruct (c =? 38).
    { destruct (parse_entity s v) as [s2 v2] eqn:E. apply parse_entity_mu in E. apply STEP. lia. }
    destruct (c =? 60); [|apply GET; lia].
    destruct (xmatch s buf pEND (Some [62])) as [[m s2] b2] eqn:X. apply xmatch_mu in X as [X1 X2].
    destruct m.
    { destruct (X2 eq_refl) as [_ L]. cbn in L. destruct (peek s2) as [d s3] eqn:E. pose proof E as E'. apply peek_mu in E as (E1 & E2 & E3).
      do 5 eexists; split; [reflexivity|]. split; [lia|]. split; [discriminate|]. intros N.
      destruct d; [|specialize (E2 eq_refl); lia]. destruct (E3 ltac:(congruence)) as (-> & _ & _). lia. }
    destruct (xmatch s2 b2 pCOMMENT (Some qCOMMENT)) as [[m s3] b3] eqn:Y. apply xmatch_lt in Y as [Y1 Y2]; [|cbn; lia].
    destruct m; [specialize (Y2 eq_refl); apply STEP; lia|].
    destruct (IHp s3 b3 ltac:(lia)) as (b & s4 & b4 & nd & -> & Q1 & Q2). cbn [bind].
    destruct b; [specialize (Q2 eq_refl); apply STEP; lia|apply GET; lia].
Qed.

Lemma read_total text : exists f, read text = Ok f.
Proof.
  unfold read. destruct (xmatch (Stream text Good) [] pDECL (Some qDECL)) as [[m s] buf] eqn:X. apply xmatch_lt in X as [X1 _]; [|cbn; lia].
  assert (exists r, (if m then parse_attribute buf [] else Ok ([120; 109; 108], [])) = Ok r) as [[name attrs] ->].
  { destruct m; [apply parse_attribute_total|eauto]. }
  cbn [bind].
  destruct (total_all (length text + 4)) as [_ T]. destruct (T s (if m then Trim buf else buf) [] []) as (fin & s' & b' & v & ns & -> & _).
  { unfold mu in X1 at 2. cbn in X1. lia. }
  cbn. eauto.
Qed.

(* ------------------------------------------------------------------ the fuel does not matter *)
Lemma comments_mono : forall n s buf r, comments n s buf = Ok r -> comments (S n) s buf = Ok r.
Proof.
  induction n as [|n IH]; intros s buf r; [discriminate|]. intros H. remember (S n) as k. cbn [comments]. subst k. cbn [comments] in H.
  destruct (xmatch s buf pCOMMENT (Some qCOMMENT)) as [[m s1] b1]. destruct m; auto.
Qed.
Lemma parse_mono : forall n,
  (forall s buf r, parse n s buf = Ok r -> parse (S n) s buf = Ok r) /\
  (forall s buf v ns r, inner n s buf v ns = Ok r -> inner (S n) s buf v ns = Ok r).
Proof.
  induction n as [|n [IHp IHi]]; [split; intros; discriminate|]. split.
  - intros s buf r H. remember (S n) as k. cbn [parse]. subst k. cbn [parse] in H.
    destruct (comments n s buf) as [[s1 b1]| |] eqn:C; [|discriminate..]. cbn [bind] in H.
    apply comments_mono in C. rewrite C. cbn [bind].
    destruct (xmatch s1 b1 [60] (Some [62])) as [[m s2] b2]. destruct m; cbn [negb] in *; auto.
    destruct (negb (length b2 =? 0)%nat && (last b2 0 =? 47)); auto.
    destruct (parse_attribute b2 []) as [[name attrs]| |]; cbn [bind] in *; auto.
    destruct (inner n s2 (Trim b2) [] []) as [[[[[fin s3] b3] v] ns]| |] eqn:I; [|discriminate..].
    apply IHi in I. rewrite I. cbn [bind] in *. auto.
  - intros s buf v ns r H. remember (S n) as k. cbn [inner]. subst k. cbn [inner] in H.
    destruct (peek s) as [c s1]. destruct c as [c|]; auto.
    destruct (c =? 38). { destruct (parse_entity s1 v). auto. }
    destruct (c =? 60). 2: { destruct (get s1). auto. }
    destruct (xmatch s1 buf pEND (Some [62])) as [[m s2] b2]. destruct m; auto.
    destruct (xmatch s2 b2 pCOMMENT (Some qCOMMENT)) as [[m s3] b3]. destruct m; auto.
    destruct (parse n s3 b3) as [[[[b s4] b4] nd]| |] eqn:I; [|discriminate..].
    apply IHp in I. rewrite I. cbn [bind] in *. destruct b; auto. destruct (get s4). auto.
Qed.
Lemma inner_le n m s buf v ns r : (n <= m)%nat -> inner n s buf v ns = Ok r -> inner m s buf v ns = Ok r.
Proof. induction 1; auto. intros E. apply parse_mono. auto. Qed.
