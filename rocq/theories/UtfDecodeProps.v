(* Properties C63, C64 and C65: the UTF converters on arbitrary, possibly ill-formed, input. *)
From Coq Require Import List ZArith Bool Lia Arith.
From Coq Require Import ZifyBool ZifyNat.
From Verif Require Import Common UtfSpec Utf UtfProofs UtfProps.
Import ListNotations.
Local Open Scope Z_scope.

(* ---------------- specification ---------------- *)
Definition prefix {A} (a b : list A) : Prop := exists r, b = a ++ r.

(* what the converter is given to read: the units up to and including the terminator, or, with an explicit length and
   no terminator before its end, exactly that many units (one more is readable, see C14) *)
Inductive given (src : list Z) (srclen : Z) : list Z -> Prop :=
| g_term us rest : src = us ++ 0 :: rest -> Forall (fun u => u <> 0) us -> reaches srclen (length us) -> given src srclen (us ++ [0])
| g_len us x rest : src = us ++ x :: rest -> Forall (fun u => u <> 0) us -> srclen = Z.of_nat (length us) -> us <> [] -> given src srclen us.

(* [out] spells the longest beginning of [t] that is well-formed UTF-8 *)
Definition well_formed_prefix (out t : list Z) : Prop := Forall scalar out /\ prefix (flat_map utf8 out) t.
Definition longest (out t : list Z) : Prop :=
  well_formed_prefix out t /\ forall out', well_formed_prefix out' t -> prefix out' out.

(* the standard treatment of values that are not Unicode scalar values *)
Definition is_scalar (c : Z) : bool := (c <? 0xD800) || (0xE000 <=? c) && (c <=? 0x10FFFF).
Definition replaced (c : Z) : Z := if is_scalar c then c else 0xFFFD.

Definition high_surrogate (c : Z) : Prop := 0xD800 <= c <= 0xDBFF.
Definition low_surrogate (c : Z) : Prop := 0xDC00 <= c <= 0xDFFF.
(* every surrogate pair has been joined *)
Fixpoint joined (l : list Z) : Prop :=
  match l with
  | [] => True
  | c :: r => match r with [] => True | d :: _ => ~ (high_surrogate c /\ low_surrogate d) end /\ joined r
  end.

(* ---------------- proofs ---------------- *)
Lemma get_split {A} (l : list A) n x : get l n = Ok x -> exists a b, l = a ++ x :: b /\ length a = n.
Proof.
  unfold get. destruct (nth_error l n) eqn:E; [|discriminate]. intros H. injection H as ->. apply nth_error_split in E.
  destruct E as (a & b & -> & L). eauto.
Qed.

Lemma get_in {A} (P : A -> Prop) l n x : Forall P l -> get l n = Ok x -> P x.
Proof. intros H E. apply get_split in E. destruct E as (a & b & -> & _). apply Forall_app in H. destruct H as [_ H]. now inversion H. Qed.

Lemma get_nth {A} (l : list A) n x : get l n = Ok x -> nth_error l n = Some x.
Proof. unfold get. destruct (nth_error l n); congruence. Qed.

Lemma mid2 {A} (l : list A) s a b : get l s = Ok a -> get l (s + 1) = Ok b -> exists pre r, l = pre ++ a :: b :: r /\ length pre = s.
Proof.
  intros H1 H2. apply get_split in H1. destruct H1 as (pre & r & -> & L). apply get_nth in H2.
  rewrite nth_error_app2 in H2 by lia. replace (s + 1 - length pre)%nat with 1%nat in H2 by lia. cbn in H2.
  destruct r as [|y r]; [discriminate|]. injection H2 as ->. eauto.
Qed.

Lemma mid3 {A} (l : list A) s a b c : get l s = Ok a -> get l (s + 1) = Ok b -> get l (s + 2) = Ok c ->
  exists pre r, l = pre ++ a :: b :: c :: r /\ length pre = s.
Proof.
  intros H1 H2 H3. destruct (mid2 _ _ _ _ H1 H2) as (pre & r & -> & L). apply get_nth in H3.
  rewrite nth_error_app2 in H3 by lia. replace (s + 2 - length pre)%nat with 2%nat in H3 by lia. cbn in H3.
  destruct r as [|y r]; [discriminate|]. injection H3 as ->. eauto.
Qed.

Lemma mid4 {A} (l : list A) s a b c d : get l s = Ok a -> get l (s + 1) = Ok b -> get l (s + 2) = Ok c -> get l (s + 3) = Ok d ->
  exists pre r, l = pre ++ a :: b :: c :: d :: r /\ length pre = s.
Proof.
  intros H1 H2 H3 H4. destruct (mid3 _ _ _ _ _ H1 H2 H3) as (pre & r & -> & L). apply get_nth in H4.
  rewrite nth_error_app2 in H4 by lia. replace (s + 3 - length pre)%nat with 3%nat in H4 by lia. cbn in H4.
  destruct r as [|y r]; [discriminate|]. injection H4 as ->. eauto.
Qed.

Lemma bad_trail_false a : bad_trail a = false -> 0x80 <= a <= 0xBF.
Proof. unfold bad_trail. lia. Qed.

(* a sequence that isLegalUTF8 accepts is the standard form of a scalar value *)
Lemma legal_utf8 src s fb : Forall (fun b => 0 <= b < 256) src -> get src s = Ok fb -> isLegalUTF8 src s (trailingBytes fb + 1) = Ok true ->
  exists pre c rest, src = pre ++ utf8 c ++ rest /\ length pre = s /\ scalar c /\ length (utf8 c) = (trailingBytes fb + 1)%nat.
Proof.
  intros Hb H0 H. pose proof (get_in _ _ _ _ Hb H0) as Hfb. cbn beta in Hfb. unfold isLegalUTF8 in H. rewrite H0 in H. cbn [bind] in H.
  unfold trailingBytes in *.
  destruct (Z.ltb_spec fb 0xC0); cbn [Nat.add] in *.
  { apply get_split in H0. destruct H0 as (pre & r & -> & L). exists pre, fb, r.
    assert (E : fb < 0x80) by (injection H as H; lia). assert (U : utf8 fb = [fb]) by (unfold utf8; destruct (Z.ltb_spec fb 128); [auto|lia]).
    rewrite U. cbn. split; auto. split; auto. split; auto. unfold scalar. lia. }
  destruct (Z.ltb_spec fb 0xE0); cbn [Nat.add] in *.
  { destruct (get src (s + 1)) as [a| |] eqn:Ha; try discriminate. cbn [bind] in H.
    destruct (bad_trail a) eqn:Ba; [discriminate|]. apply bad_trail_false in Ba.
    assert (E : 0xC2 <= fb).
    { destruct (Z.eqb_spec fb 0xE0); [lia|]. destruct (Z.eqb_spec fb 0xED); [lia|]. destruct (Z.eqb_spec fb 0xF0); [lia|].
      destruct (Z.eqb_spec fb 0xF4); [lia|]. destruct (Z.ltb_spec a 0x80); [lia|]. injection H as H. lia. }
    destruct (mid2 _ _ _ _ H0 Ha) as (pre & r & -> & L). exists pre, ((fb - 0xC0) * 64 + (a - 0x80)), r.
    assert (U : utf8 ((fb - 0xC0) * 64 + (a - 0x80)) = [fb; a]).
    { unfold utf8. match goal with |- context[if Z.ltb ?x ?y then _ else _] => destruct (Z.ltb_spec x y); [lia|] end.
      match goal with |- context[if Z.ltb ?x ?y then _ else _] => destruct (Z.ltb_spec x y); [|lia] end. repeat (f_equal; [lia|]). f_equal. lia. }
    rewrite U. cbn. split; auto. split; auto. split; auto. unfold scalar. lia. }
  destruct (Z.ltb_spec fb 0xF0); cbn [Nat.add] in *.
  { destruct (get src (s + 2)) as [b| |] eqn:Hb2; try discriminate. cbn [bind] in H.
    destruct (bad_trail b) eqn:Bb; [discriminate|]. apply bad_trail_false in Bb.
    destruct (get src (s + 1)) as [a| |] eqn:Ha; try discriminate. cbn [bind] in H.
    destruct (bad_trail a) eqn:Ba; [discriminate|]. apply bad_trail_false in Ba.
    assert (E : (fb = 0xE0 -> 0xA0 <= a) /\ (fb = 0xED -> a <= 0x9F)).
    { destruct (Z.eqb_spec fb 0xE0); [destruct (Z.ltb_spec a 0xA0); [discriminate|lia]|].
      destruct (Z.eqb_spec fb 0xED); [destruct (Z.ltb_spec 0x9F a); [discriminate|lia]|]. lia. }
    destruct (mid3 _ _ _ _ _ H0 Ha Hb2) as (pre & r & -> & L). exists pre, ((fb - 0xE0) * 4096 + (a - 0x80) * 64 + (b - 0x80)), r.
    assert (U : utf8 ((fb - 0xE0) * 4096 + (a - 0x80) * 64 + (b - 0x80)) = [fb; a; b]).
    { unfold utf8. do 2 (match goal with |- context[if Z.ltb ?x ?y then _ else _] => destruct (Z.ltb_spec x y); [lia|] end).
      match goal with |- context[if Z.ltb ?x ?y then _ else _] => destruct (Z.ltb_spec x y); [|lia] end. repeat (f_equal; [lia|]). f_equal. lia. }
    rewrite U. cbn. split; auto. split; auto. split; auto. unfold scalar. lia. }
  destruct (Z.ltb_spec fb 0xF8); cbn [Nat.add] in *.
  { destruct (get src (s + 3)) as [d| |] eqn:Hd; try discriminate. cbn [bind] in H.
    destruct (bad_trail d) eqn:Bd; [discriminate|]. apply bad_trail_false in Bd.
    destruct (get src (s + 2)) as [b| |] eqn:Hb2; try discriminate. cbn [bind] in H.
    destruct (bad_trail b) eqn:Bb; [discriminate|]. apply bad_trail_false in Bb.
    destruct (get src (s + 1)) as [a| |] eqn:Ha; try discriminate. cbn [bind] in H.
    destruct (bad_trail a) eqn:Ba; [discriminate|]. apply bad_trail_false in Ba.
    assert (E : fb <= 0xF4 /\ (fb = 0xF0 -> 0x90 <= a) /\ (fb = 0xF4 -> a <= 0x8F)).
    { destruct (Z.eqb_spec fb 0xE0); [lia|]. destruct (Z.eqb_spec fb 0xED); [lia|].
      destruct (Z.eqb_spec fb 0xF0); [destruct (Z.ltb_spec a 0x90); [discriminate|lia]|].
      destruct (Z.eqb_spec fb 0xF4); [destruct (Z.ltb_spec 0x8F a); [discriminate|lia]|].
      destruct (Z.ltb_spec a 0x80); [discriminate|]. injection H as H. lia. }
    destruct (mid4 _ _ _ _ _ _ H0 Ha Hb2 Hd) as (pre & r & -> & L).
    exists pre, ((fb - 0xF0) * 262144 + (a - 0x80) * 4096 + (b - 0x80) * 64 + (d - 0x80)), r.
    assert (U : utf8 ((fb - 0xF0) * 262144 + (a - 0x80) * 4096 + (b - 0x80) * 64 + (d - 0x80)) = [fb; a; b; d]).
    { unfold utf8. do 3 (match goal with |- context[if Z.ltb ?x ?y then _ else _] => destruct (Z.ltb_spec x y); [lia|] end).
      repeat (f_equal; [lia|]). f_equal. lia. }
    rewrite U. cbn. split; auto. split; auto. split; auto. unfold scalar. lia. }
  destruct (Z.ltb_spec fb 0xFC); discriminate.
Qed.

Lemma utf8_cons c : scalar c -> exists fb r, utf8 c = fb :: r /\ trailingBytes fb = length r.
Proof. intros H. apply trailing_utf8. unfold scalar in H. lia. Qed.

(* the main loop, from an offset at which the bytes converted so far end *)
Lemma decode_loop cap : forall fuel pre todo rest out,
  Forall (fun b => 0 <= b < 256) (pre ++ todo ++ rest) -> (length todo <= fuel)%nat -> (length out <= cap)%nat ->
  exists o, u8to32_loop fuel (pre ++ todo ++ rest) (length pre) (length pre + length todo) cap out = Ok (out ++ o) /\
    Forall scalar o /\ prefix (flat_map utf8 o) todo /\ (length (out ++ o) <= cap)%nat /\
    (length (out ++ o) = cap \/ forall c, scalar c -> ~ prefix (flat_map utf8 (o ++ [c])) todo).
Proof.
  induction fuel as [|fuel IH]; intros pre todo rest out Hb Hf Hc.
  { destruct todo; [|cbn in Hf; lia]. cbn [length u8to32_loop]. rewrite Nat.add_0_r, Nat.ltb_irrefl. exists []. rewrite app_nil_r.
    split; auto. split; [constructor|]. split; [exists []; auto|]. split; auto. right. intros c Hs [r E]. cbn [app flat_map] in E.
    destruct (utf8_cons c Hs) as (fb & q & U & _). rewrite U in E. discriminate. }
  cbn [u8to32_loop]. destruct (Nat.ltb_spec (length pre) (length pre + length todo)).
  2: { destruct todo; [|cbn in *; lia]. exists []. rewrite app_nil_r.
    split; auto. split; [constructor|]. split; [exists []; auto|]. split; auto. right. intros c Hs [r E]. cbn [app flat_map] in E.
    destruct (utf8_cons c Hs) as (fb & q & U & _). rewrite U in E. discriminate. }
  destruct todo as [|fb todo]; [cbn in *; lia|]. cbn [app]. rewrite get_app_mid. cbn [bind].
  assert (Stop : (forall c, scalar c -> ~ prefix (utf8 c) (fb :: todo)) ->
    exists o, Ok out = Ok (out ++ o) /\ Forall scalar o /\ prefix (flat_map utf8 o) (fb :: todo) /\ (length (out ++ o) <= cap)%nat /\
      (length (out ++ o) = cap \/ forall c, scalar c -> ~ prefix (flat_map utf8 (o ++ [c])) (fb :: todo))).
  { intros N. exists []. rewrite app_nil_r. split; auto. split; [constructor|]. split; [exists (fb :: todo); auto|]. split; auto.
    right. intros c Hs. cbn [app flat_map]. rewrite app_nil_r. auto. }
  destruct (Nat.leb_spec (length pre + length (fb :: todo) - length pre) (trailingBytes fb)) as [Hshort|Hlong].
  { apply Stop. intros c Hs [r E]. destruct (utf8_cons c Hs) as (fb' & q & U & T). rewrite U in E. cbn [app] in E. injection E as <- E2. subst todo.
    cbn [length] in Hshort. rewrite app_length in Hshort. lia. }
  set (src := pre ++ fb :: todo ++ rest) in *.
  assert (G0 : get src (length pre) = Ok fb) by apply get_app_mid.
  assert (Ex : exists b, isLegalUTF8 src (length pre) (trailingBytes fb + 1) = Ok b).
  { apply isLegal_total; [|lia]. unfold src. rewrite app_length. cbn [length] in *. rewrite app_length. lia. }
  destruct Ex as [[|] Hl]; rewrite Hl; cbn [bind negb].
  2: { apply Stop. intros c Hs [r E]. destruct (utf8_cons c Hs) as (fb' & q & U & T).
    pose proof (isLegal_utf8 c pre (r ++ rest) Hs) as L. rewrite U in *. cbn [app] in E. injection E as <- E2. subst todo.
    cbn [length app] in L. unfold src in Hl. rewrite <- app_assoc in Hl. rewrite T in Hl. replace (S (length q)) with (length q + 1)%nat in L by lia. congruence. }
  destruct (legal_utf8 src (length pre) fb Hb G0 Hl) as (pre' & c & rest' & Es & Lp & Hs & Lu).
  assert (Epre : pre' = pre /\ fb :: todo ++ rest = utf8 c ++ rest').
  { unfold src in Es. apply app_eq_app in Es. destruct Es as (l & [[E1 E2]|[E1 E2]]); subst; rewrite app_length in Lp;
      destruct l; cbn [length] in Lp; try lia; rewrite ?app_nil_r; cbn [app] in *; auto. }
  destruct Epre as [-> Es2]. clear Es Lp.
  assert (Et : exists q, fb :: todo = utf8 c ++ q /\ rest' = q ++ rest).
  { change (fb :: todo ++ rest) with ((fb :: todo) ++ rest) in Es2. apply app_eq_app in Es2. destruct Es2 as (l & [[E1 E2]|[E1 E2]]).
    - exists l. auto.
    - exists []. rewrite app_nil_r. assert (length (utf8 c) = length (fb :: todo) + length l)%nat by (rewrite E1; apply app_length).
      destruct l; [|cbn [length] in *; lia]. rewrite app_nil_r in E1. cbn [app] in E2. subst rest. auto. }
  destruct Et as (q & Et & ->).
  assert (Hc' : 0 <= c <= 0x10FFFF) by (unfold scalar in Hs; lia).
  destruct (gather_utf8 c pre (q ++ rest) Hc') as (ch & Eg & Ec).
  assert (Esrc : src = pre ++ utf8 c ++ q ++ rest).
  { unfold src. f_equal. exact Es2. }
  rewrite Esrc. replace (length (utf8 c) - 1)%nat with (trailingBytes fb) in Eg, Ec by lia. rewrite Eg. cbn [bind].
  assert (Hr : (trailingBytes fb < length offsets)%nat).
  { pose proof (utf8_length c Hc'). pose proof (weight8_le c). cbn. lia. }
  rewrite (get_some offsets (trailingBytes fb) (nth (trailingBytes fb) offsets 0)) by (now apply nth_error_nth'). cbn [bind]. rewrite Ec.
  rewrite sanitize_scalar by auto.
  destruct (Nat.leb_spec cap (length out)) as [Hfull|Hroom].
  { exists []. rewrite app_nil_r. split; auto. split; [constructor|]. split; [exists (fb :: todo); auto|]. split; auto. left. lia. }
  specialize (IH (pre ++ utf8 c) q rest (out ++ [c])).
  replace (pre ++ utf8 c ++ q ++ rest) with ((pre ++ utf8 c) ++ q ++ rest) by (rewrite <- !app_assoc; reflexivity).
  replace (length pre + trailingBytes fb + 1)%nat with (length (pre ++ utf8 c)) by (rewrite app_length; lia).
  assert (Lq : length (fb :: todo) = (length (utf8 c) + length q)%nat) by (rewrite Et; apply app_length).
  replace (length pre + length (fb :: todo))%nat with (length (pre ++ utf8 c) + length q)%nat by (rewrite app_length; lia).
  destruct IH as (o & E & Ho & [r Hp] & Hlen & Hmax).
  - rewrite <- app_assoc. change (Forall (fun b => 0 <= b < 256) src) in Hb. rewrite Esrc in Hb. exact Hb.
  - cbn [length] in *. lia.
  - rewrite app_length. cbn. lia.
  - exists (c :: o). replace (out ++ c :: o) with ((out ++ [c]) ++ o) by (rewrite <- app_assoc; reflexivity).
    split; [exact E|]. split; [constructor; auto|]. split.
    { exists r. cbn [flat_map]. rewrite Et, Hp, app_assoc. reflexivity. }
    split; [exact Hlen|]. destruct Hmax as [Hm|Hm]; [now left|]. right. intros c' Hc2 [r' E2]. apply (Hm c' Hc2). exists r'.
    cbn [app flat_map] in E2. rewrite Et in E2. rewrite <- app_assoc in E2. apply app_inv_head in E2. exact E2.
Qed.


Lemma given_scan w src srclen t : given src srclen t ->
  srclen <> 0 /\ exists rest i us, src = t ++ rest /\ scan (S (length src)) w src (limit srclen) 0 1 = Ok (i, (1 + total w us)%nat) /\
    source_end (limit srclen) i = length t /\ (t = us ++ [0] \/ t = us).
Proof.
  intros [us rest -> Hn Hr|us x rest -> Hn -> Hne].
  - split; [apply (reaches_lim _ _ Hr)|]. exists rest, (length us), us. rewrite <- app_assoc. split; auto.
    rewrite scan_text by auto. split; auto. rewrite source_end_text by auto. rewrite app_length. cbn [length]. split; [lia|auto].
  - assert (0 < length us)%nat by (destruct us; [congruence|cbn; lia]). split; [lia|]. exists (x :: rest), (length us), us. split; auto.
    assert (L : limit (Z.of_nat (length us)) = Z.of_nat (length us)) by (unfold limit; destruct (Z.ltb_spec (Z.of_nat (length us)) 0); lia).
    rewrite L. pose proof (scan_ok w (Z.of_nat (length us)) us [] x rest (S (length (us ++ x :: rest))) 1 Hn) as G. cbn [length app Nat.add] in G.
    rewrite G; [|lia|now right|rewrite app_length; cbn; lia]. split; auto. unfold source_end.
    destruct (Z.ltb_spec (Z.of_nat (length us)) (Z.of_nat (length us))); [lia|]. split; [lia|auto].
Qed.

Lemma total_le w (t us : list Z) : w 0 = 1%nat -> t = us ++ [0] \/ t = us -> (total w t <= 1 + total w us)%nat.
Proof. intros H [->| ->]; [|lia]. rewrite total_app. unfold total at 2. cbn. rewrite H. lia. Qed.

Lemma cons_eq {A} (a b : A) l m : a :: l = b :: m -> a = b /\ l = m.
Proof. intros H. now inversion H. Qed.
Ltac uncons E := repeat (apply cons_eq in E; let H := fresh "Q" in destruct E as [H E]).

Lemma split4 c : c = c / 262144 * 262144 + (c / 4096) mod 64 * 4096 + (c / 64) mod 64 * 64 + c mod 64.
Proof. lia. Qed.
Lemma split3 c : c = c / 4096 * 4096 + (c / 64) mod 64 * 64 + c mod 64.
Proof. lia. Qed.
Lemma split2 c : c = c / 64 * 64 + c mod 64.
Proof. lia. Qed.

Lemma utf8_inj c d : scalar c -> scalar d -> utf8 c = utf8 d -> c = d.
Proof.
  unfold scalar, utf8. intros Hc Hd.
  destruct (Z.ltb_spec c 128); [|destruct (Z.ltb_spec c 2048); [|destruct (Z.ltb_spec c 65536)]];
    (destruct (Z.ltb_spec d 128); [|destruct (Z.ltb_spec d 2048); [|destruct (Z.ltb_spec d 65536)]]);
    intros E; try discriminate; uncons E; clear E Hc Hd; try assumption;
    [rewrite (split2 c), (split2 d)|rewrite (split3 c), (split3 d)|rewrite (split4 c), (split4 d)]; lia.
Qed.

(* the forms of two scalar values cannot both begin the same bytes unless the values agree *)
Lemma utf8_prefix_free c d a b : scalar c -> scalar d -> utf8 c ++ a = utf8 d ++ b -> c = d /\ a = b.
Proof.
  intros Hc Hd E. destruct (utf8_cons c Hc) as (f & q & U & T). destruct (utf8_cons d Hd) as (g & r & V & T').
  assert (f = g) by (rewrite U, V in E; cbn in E; congruence). subst g.
  assert (L : length (utf8 c) = length (utf8 d)) by (rewrite U, V; cbn; congruence).
  apply app_eq_app in E. destruct E as (l & [[E1 E2]|[E1 E2]]); apply (f_equal (@length Z)) in E1 as E3; rewrite app_length in E3;
    (destruct l; [|cbn in E3; lia]); rewrite app_nil_r in E1; cbn [app] in E2; split; auto using utf8_inj; symmetry; auto using utf8_inj.
Qed.

Lemma max_longest out : forall t, well_formed_prefix out t -> (forall c, scalar c -> ~ prefix (flat_map utf8 (out ++ [c])) t) -> longest out t.
Proof.
  induction out as [|c out IH]; intros t [Hs [r Hp]] Hm; (split; [split; [auto|exists r; auto]|]); intros out' [Hs' [r' Hp']].
  - destruct out' as [|d out']; [exists []; auto|]. exfalso. apply Forall_cons_iff in Hs'. destruct Hs' as [Hd Hs']. apply (Hm d Hd).
    exists (flat_map utf8 out' ++ r'). cbn [flat_map app] in *. rewrite Hp', app_nil_r, <- app_assoc. reflexivity.
  - destruct out' as [|d out']; [exists (c :: out); auto|]. apply Forall_cons_iff in Hs, Hs'. destruct Hs as [Hc Hs], Hs' as [Hd Hs'].
    rewrite Hp in Hp'. cbn [flat_map] in Hp'. rewrite <- !app_assoc in Hp'.
    apply utf8_prefix_free in Hp'; auto. destruct Hp' as [<- Hp'].
    destruct (IH (flat_map utf8 out ++ r)) as [_ G].
    + split; auto. exists r. auto.
    + intros e He [q Hq]. apply (Hm e He). exists q. rewrite Hp. cbn [app flat_map]. rewrite <- !app_assoc. now rewrite Hq.
    + destruct (G out') as [z Hz]; [split; auto; exists r'; auto|]. exists z. cbn. now rewrite Hz.
Qed.

(* UTF8toUTF32 on arbitrary bytes: what it writes spells a beginning of the source in well-formed UTF-8, as long as the buffer
   allows; and with a buffer of the announced size exactly the longest such beginning. *)
Theorem C63_UTF8_longest_prefix :
  forall src srclen t cap, Forall (fun b => 0 <= b < 256) src -> given src srclen t ->
  exists out n,
    UTF8toUTF32 src srclen None = Ok ([], n) /\
    UTF8toUTF32 src srclen (Some cap) = Ok (out, length out) /\
    well_formed_prefix out t /\ (length out <= cap)%nat /\
    (length out = cap \/ longest out t) /\ ((n <= cap)%nat -> longest out t).
Proof.
  intros src srclen t cap Hb Hg. destruct (given_scan u8to32_weight _ _ _ Hg) as (Hz & rest & i & us & -> & Es & Ee & Ht).
  unfold UTF8toUTF32. rewrite !srclen_nz by auto. rewrite Es. cbn [bind fst snd]. rewrite Ee.
  destruct (decode_loop cap (S (length (t ++ rest))) [] t rest []) as (o & E & Ho & Hp & Hl & Hm); [exact Hb|rewrite app_length; lia|cbn; lia|].
  cbn [app length Nat.add] in *. rewrite E. cbn [bind]. exists o, (1 + total u8to32_weight us)%nat. split; auto. split; auto.
  assert (W : well_formed_prefix o t) by (split; auto). split; auto. split; auto. split.
  { destruct Hm as [Hm|Hm]; [now left|right; now apply max_longest]. }
  intros Hcap. destruct Hm as [Hm|Hm]; [|now apply max_longest].
  apply max_longest; auto. intros c Hc [r Er].
  pose proof (total_le u8to32_weight t us eq_refl Ht) as Hle. rewrite Er, total_app, total_flat, app_length in Hle. { cbn in Hle. lia. }
  apply Forall_app. split; [|repeat constructor; unfold scalar in Hc; lia]. revert Ho. apply Forall_impl. unfold scalar. intros; lia.
Qed.
Print Assumptions C63_UTF8_longest_prefix.

(* hence it accepts the whole source exactly when the source is well-formed UTF-8 *)
Theorem C63_UTF8_accepts_exactly_well_formed :
  forall src srclen t cap, Forall (fun b => 0 <= b < 256) src -> given src srclen t -> (length t <= cap)%nat ->
  (exists out n, UTF8toUTF32 src srclen (Some cap) = Ok (out, n) /\ flat_map utf8 out = t) <->
  (exists cps, Forall scalar cps /\ flat_map utf8 cps = t).
Proof.
  intros src srclen t cap Hb Hg Hcap. destruct (C63_UTF8_longest_prefix src srclen t cap Hb Hg) as (out & n & _ & E & [Hs [r Hr]] & Hl & Hm & _).
  assert (Lle : forall l, Forall scalar l -> (length l <= length (flat_map utf8 l))%nat).
  { induction 1 as [|c l Hc H IH]; auto. cbn [flat_map length]. rewrite app_length. destruct (utf8_cons c Hc) as (f & q & -> & _). cbn. lia. }
  split.
  - intros (o & m & E' & Ht). rewrite E in E'. injection E' as <- <-. eauto.
  - intros (cps & Hc & Ht). exists out, (length out). split; auto.
    destruct Hm as [Hm|[_ Hm]].
    + pose proof (Lle out Hs). rewrite Hr. rewrite Hr, app_length in Hcap. destruct r; [now rewrite app_nil_r|]. cbn in Hcap. lia.
    + destruct (Hm cps) as [z Hz]; [split; auto; exists []; now rewrite app_nil_r|]. rewrite Hz, flat_map_app, Ht, <- app_assoc in Hr.
      assert (L : length t = length (t ++ flat_map utf8 z ++ r)) by congruence. rewrite !app_length in L.
      rewrite Hz, flat_map_app, Ht. destruct (flat_map utf8 z); [apply app_nil_r|cbn in L; lia].
Qed.
Print Assumptions C63_UTF8_accepts_exactly_well_formed.

(* an overlong slash after "A", read with a terminator and with an explicit length *)
Example C63_example :
  given [0x41; 0xC0; 0xAF; 0; 9] (-1) [0x41; 0xC0; 0xAF; 0] /\
  given [0x41; 0xED; 0xA0; 0x80; 7] 4 [0x41; 0xED; 0xA0; 0x80] /\
  UTF8toUTF32 [0x41; 0xC0; 0xAF; 0; 9] (-1) (Some 9%nat) = Ok ([0x41], 1%nat) /\
  UTF8toUTF32 [0x41; 0xED; 0xA0; 0x80; 7] 4 (Some 9%nat) = Ok ([0x41], 1%nat).
Proof.
  split. { apply (g_term _ _ [0x41; 0xC0; 0xAF] [9]); [reflexivity|repeat constructor; discriminate|left; cbn; lia]. }
  split. { apply (g_len _ _ [0x41; 0xED; 0xA0; 0x80] 7 []); [reflexivity|repeat constructor; discriminate|reflexivity|discriminate]. }
  split; vm_compute; reflexivity.
Qed.

(* ================= C64 ================= *)
Lemma loop16_replaced cap : forall todo pre rest fuel out,
  Forall (fun c => 0 <= c) todo -> (length todo <= fuel)%nat -> (length out + length (flat_map utf16 (map replaced todo)) <= cap)%nat ->
  u32to16_loop fuel (pre ++ todo ++ rest) (length pre) (length pre + length todo) cap out = Ok (out ++ flat_map utf16 (map replaced todo)).
Proof.
  induction todo as [|c todo IH]; intros pre rest fuel out Hs Hf Hcap.
  - cbn [length map flat_map]. rewrite app_nil_r. destruct fuel; cbn [u32to16_loop]; destruct (Nat.ltb_spec (length pre) (length pre + 0)); auto; lia.
  - destruct fuel as [|fuel]; cbn [length] in Hf; [lia|]. cbn [u32to16_loop length app]. inversion Hs as [|? ? Hc Hs']; subst.
    destruct (Nat.ltb_spec (length pre) (length pre + S (length todo))); [|lia]. cbn [map flat_map] in Hcap |- *. rewrite app_length in Hcap.
    assert (L1 : (1 <= length (utf16 (replaced c)))%nat) by (rewrite utf16_length; destruct (_ <? _); lia).
    destruct (Nat.leb_spec cap (length out)); [lia|]. rewrite get_app_mid. cbn [bind].
    assert (Fin : u32to16_loop fuel (pre ++ c :: todo ++ rest) (S (length pre)) (length pre + S (length todo)) cap (out ++ utf16 (replaced c)) =
      Ok (out ++ utf16 (replaced c) ++ flat_map utf16 (map replaced todo))).
    { replace (pre ++ c :: todo ++ rest) with ((pre ++ [c]) ++ todo ++ rest) by (rewrite <- app_assoc; reflexivity).
      replace (S (length pre)) with (length (pre ++ [c])) by (rewrite app_length; cbn; lia).
      replace (length pre + S (length todo))%nat with (length (pre ++ [c]) + length todo)%nat by (rewrite app_length; cbn; lia).
      rewrite IH; auto; [now rewrite app_assoc|lia|rewrite app_length; lia]. }
    rewrite <- Fin. unfold replaced, is_scalar in *.
    destruct (Z.leb_spec c 0xFFFF).
    + destruct (Z.ltb_spec c 0xD800); cbn [orb].
      * replace ((0xD800 <=? c) && (c <=? 0xDFFF)) with false by lia. unfold utf16. destruct (Z.ltb_spec c 65536); [|lia]. rewrite wrap16 by lia. reflexivity.
      * destruct (Z.leb_spec 0xE000 c); cbn [andb].
        -- replace ((0xD800 <=? c) && (c <=? 0xDFFF)) with false by lia. replace (c <=? 0x10FFFF) with true by lia.
           unfold utf16. destruct (Z.ltb_spec c 65536); [|lia]. rewrite wrap16 by lia. reflexivity.
        -- replace ((0xD800 <=? c) && (c <=? 0xDFFF)) with true by lia. reflexivity.
    + destruct (Z.ltb_spec c 0xD800); [lia|]. destruct (Z.leb_spec 0xE000 c); [|lia]. cbn [orb andb] in *.
      destruct (Z.leb_spec c 0x10FFFF); destruct (Z.ltb_spec 0x10FFFF c); try lia; [|reflexivity].
      rewrite utf16_length in Hcap. destruct (Z.ltb_spec c 65536); [lia|]. destruct (Nat.leb_spec cap (length out + 1)); [lia|].
      unfold utf16. destruct (Z.ltb_spec c 65536); [lia|]. rewrite shr10, land3ff, !wrap16 by lia.
      rewrite (Z.add_comm _ 55296), (Z.add_comm _ 56320). reflexivity.
Qed.

Lemma replaced_scalar c : 0 <= c -> scalar (replaced c).
Proof. unfold replaced, is_scalar, scalar. intros. destruct (Z.ltb_spec c 0xD800), (Z.leb_spec 0xE000 c), (Z.leb_spec c 0x10FFFF); cbn; lia. Qed.

Lemma weight16_replaced todo : (length (flat_map utf16 (map replaced todo)) <= total u32to16_weight todo)%nat.
Proof.
  induction todo as [|c todo IH]; [cbn; lia|]. cbn [map flat_map]. rewrite app_length. change (total u32to16_weight (c :: todo)) with (u32to16_weight c + total u32to16_weight todo)%nat.
  apply Nat.add_le_mono; [|exact IH]. clear IH. rewrite utf16_length. unfold u32to16_weight, replaced, is_scalar.
  destruct (Z.ltb_spec c 0xD800), (Z.leb_spec 0xE000 c), (Z.leb_spec c 0x10FFFF); cbn [orb andb];
    destruct (Z.ltb_spec 0xFFFF c), (Z.ltb_spec c 65536); cbn; lia.
Qed.

(* UTF32toUTF16 on arbitrary 32-bit values: the standard UTF-16 form of the source with every value that is not a Unicode
   scalar value replaced by U+FFFD, whenever the buffer has the announced size. *)
Theorem C64_UTF32toUTF16_replaces :
  forall src srclen t, Forall (fun c => 0 <= c < 2 ^ 32) src -> given src srclen t ->
  exists n, UTF32toUTF16 src srclen None = Ok ([], n) /\ Forall scalar (map replaced t) /\
    forall cap, (n <= cap)%nat ->
    UTF32toUTF16 src srclen (Some cap) = Ok (flat_map utf16 (map replaced t), length (flat_map utf16 (map replaced t))).
Proof.
  intros src srclen t Hb Hg. destruct (given_scan u32to16_weight _ _ _ Hg) as (Hz & rest & i & us & -> & Es & Ee & Ht).
  unfold UTF32toUTF16. rewrite !srclen_nz by auto. rewrite Es. cbn [bind fst snd]. eexists. split; [reflexivity|].
  apply Forall_app in Hb. destruct Hb as [Hb _].
  assert (Hp : Forall (fun c => 0 <= c) t) by (revert Hb; apply Forall_impl; intros; lia).
  split. { apply Forall_map. revert Hp. apply Forall_impl. intros; now apply replaced_scalar. }
  intros cap Hc. rewrite srclen_nz by auto. rewrite Ee.
  pose proof (loop16_replaced cap t [] rest (S (length (t ++ rest))) [] Hp) as G. cbn [length app Nat.add] in G.
  pose proof (total_le u32to16_weight t us eq_refl Ht). pose proof (weight16_replaced t).
  rewrite G; [reflexivity|rewrite app_length; lia|lia].
Qed.
Print Assumptions C64_UTF32toUTF16_replaces.

Definition cut (c : Z) : Z := if c <=? 0x10FFFF then c else 0xFFFD.

Lemma loop8_cut cap : forall todo pre rest fuel out,
  Forall (fun c => 0 <= c) todo -> (length todo <= fuel)%nat -> (length out + length (flat_map utf8 (map cut todo)) <= cap)%nat ->
  u32to8_loop fuel (pre ++ todo ++ rest) (length pre) (length pre + length todo) cap out = Ok (out ++ flat_map utf8 (map cut todo)).
Proof.
  induction todo as [|c todo IH]; intros pre rest fuel out Hs Hf Hcap.
  - cbn [length map flat_map]. rewrite app_nil_r. destruct fuel; cbn [u32to8_loop]; destruct (Nat.ltb_spec (length pre) (length pre + 0)); auto; lia.
  - destruct fuel as [|fuel]; cbn [length] in Hf; [lia|]. cbn [u32to8_loop length app]. inversion Hs as [|? ? Hc Hs']; subst.
    destruct (Nat.ltb_spec (length pre) (length pre + S (length todo))); [|lia]. cbn [map flat_map] in Hcap |- *. rewrite app_length in Hcap.
    rewrite get_app_mid. cbn [bind].
    assert (W : u32to8_weight c = u32to8_weight (cut c)).
    { unfold cut. destruct (Z.leb_spec c 0x10FFFF); auto. unfold u32to8_weight. destruct (Z.ltb_spec c 128), (Z.ltb_spec c 2048), (Z.ltb_spec c 65536), (Z.leb_spec c 0x10FFFF); try lia. reflexivity. }
    assert (R : 0 <= cut c <= 0x10FFFF) by (unfold cut; destruct (Z.leb_spec c 0x10FFFF); lia).
    fold (cut c). rewrite W, <- (utf8_length (cut c)) by auto. destruct (Nat.ltb_spec cap (length out + length (utf8 (cut c)))); [lia|].
    rewrite utf8_length, u8_bytes_utf8 by auto.
    replace (pre ++ c :: todo ++ rest) with ((pre ++ [c]) ++ todo ++ rest) by (rewrite <- app_assoc; reflexivity).
    replace (S (length pre)) with (length (pre ++ [c])) by (rewrite app_length; cbn; lia).
    replace (length pre + S (length todo))%nat with (length (pre ++ [c]) + length todo)%nat by (rewrite app_length; cbn; lia).
    rewrite IH; auto; [now rewrite app_assoc|lia|rewrite app_length; lia].
Qed.

Lemma total_cut todo : Forall (fun c => 0 <= c) todo -> total u32to8_weight todo = length (flat_map utf8 (map cut todo)).
Proof.
  induction 1 as [|c todo Hc H IH]; auto. cbn [map flat_map]. rewrite app_length.
  change (total u32to8_weight (c :: todo)) with (u32to8_weight c + total u32to8_weight todo)%nat. rewrite IH. f_equal.
  rewrite utf8_length by (unfold cut; destruct (Z.leb_spec c 0x10FFFF); lia). unfold cut. destruct (Z.leb_spec c 0x10FFFF); auto.
  unfold u32to8_weight. destruct (Z.ltb_spec c 128), (Z.ltb_spec c 2048), (Z.ltb_spec c 65536), (Z.leb_spec c 0x10FFFF); try lia. reflexivity.
Qed.

Lemma u32to8_cut src srclen t : Forall (fun c => 0 <= c < 2 ^ 32) src -> given src srclen t ->
  exists n, UTF32toUTF8 src srclen None = Ok ([], n) /\
    forall cap, (n <= cap)%nat -> UTF32toUTF8 src srclen (Some cap) = Ok (flat_map utf8 (map cut t), length (flat_map utf8 (map cut t))).
Proof.
  intros Hb Hg. destruct (given_scan u32to8_weight _ _ _ Hg) as (Hz & rest & i & us & -> & Es & Ee & Ht).
  unfold UTF32toUTF8. rewrite !srclen_nz by auto. rewrite Es. cbn [bind fst snd]. eexists. split; [reflexivity|].
  apply Forall_app in Hb. destruct Hb as [Hb _].
  assert (Hp : Forall (fun c => 0 <= c) t) by (revert Hb; apply Forall_impl; intros; lia).
  intros cap Hc. rewrite srclen_nz by auto. rewrite Ee.
  pose proof (loop8_cut cap t [] rest (S (length (t ++ rest))) [] Hp) as G. cbn [length app Nat.add] in G.
  pose proof (total_le u32to8_weight t us eq_refl Ht). rewrite total_cut in H by auto.
  rewrite G; [reflexivity|rewrite app_length; lia|lia].
Qed.

(* the same for UTF32toUTF8, but only when the source holds no surrogates; partial: they are not replaced, see below *)
Theorem C64_UTF32toUTF8_replaces_partial :
  forall src srclen t, Forall (fun c => 0 <= c < 2 ^ 32) src -> given src srclen t -> Forall (fun c => ~ (0xD800 <= c <= 0xDFFF)) t ->
  exists n, UTF32toUTF8 src srclen None = Ok ([], n) /\
    forall cap, (n <= cap)%nat ->
    UTF32toUTF8 src srclen (Some cap) = Ok (flat_map utf8 (map replaced t), length (flat_map utf8 (map replaced t))).
Proof.
  intros src srclen t Hb Hg Hn. destruct (u32to8_cut src srclen t Hb Hg) as (n & E & H). exists n. split; auto.
  replace (map replaced t) with (map cut t); auto. apply map_ext_in. intros c Hi. rewrite Forall_forall in Hn. specialize (Hn c Hi).
  unfold replaced, cut, is_scalar. destruct (Z.ltb_spec c 0xD800), (Z.leb_spec 0xE000 c), (Z.leb_spec c 0x10FFFF); cbn; auto; lia.
Qed.
Print Assumptions C64_UTF32toUTF8_replaces_partial.

Lemma utf8_no_surrogate c d rest a : 0xD800 <= c <= 0xDFFF -> scalar d -> utf8 c ++ rest <> utf8 d ++ a.
Proof.
  intros Hc Hd E. assert (U : utf8 c = [0xED; 0x80 + (c / 64) mod 64; 0x80 + c mod 64]).
  { unfold utf8. destruct (Z.ltb_spec c 128); [lia|]. destruct (Z.ltb_spec c 2048); [lia|]. destruct (Z.ltb_spec c 65536); [|lia].
    replace (c / 4096) with 13 by lia. reflexivity. }
  rewrite U in E. clear U. unfold scalar in Hd. unfold utf8 in E.
  destruct (Z.ltb_spec d 128); [|destruct (Z.ltb_spec d 2048); [|destruct (Z.ltb_spec d 65536)]]; cbn [app] in E; uncons E; lia.
Qed.

(* On every source with a surrogate in it, UTF32toUTF8 emits bytes that are not well-formed UTF-8. *)
Theorem C64_UTF32toUTF8_surrogate_refuted :
  forall src srclen t, Forall (fun c => 0 <= c < 2 ^ 32) src -> given src srclen t -> Exists (fun c => 0xD800 <= c <= 0xDFFF) t ->
  exists n out, UTF32toUTF8 src srclen (Some n) = Ok (out, length out) /\ UTF32toUTF8 src srclen None = Ok ([], n) /\
    ~ exists cps, Forall scalar cps /\ flat_map utf8 cps = out.
Proof.
  intros src srclen t Hb Hg Hx. destruct (u32to8_cut src srclen t Hb Hg) as (n & E & H). exists n, (flat_map utf8 (map cut t)). split; auto. split; auto.
  assert (Hp : Forall (fun c => 0 <= c) t).
  { destruct (given_scan u32to8_weight _ _ _ Hg) as (_ & rest & _ & _ & -> & _). apply Forall_app in Hb. destruct Hb as [Hb _]. revert Hb. apply Forall_impl. intros; lia. }
  clear E H Hb Hg. intros (cps & Hs & Hf). revert cps Hs Hf Hp. induction Hx as [c t Hc|c t Hx IH]; intros cps Hs Hf Hp; cbn [map flat_map] in Hf.
  - destruct Hs as [|d cps Hd Hs]; cbn [flat_map] in Hf.
    + assert (Ec : cut c = c) by (unfold cut; destruct (Z.leb_spec c 0x10FFFF); lia). rewrite Ec in Hf.
      destruct (trailing_utf8 c) as (f & q & U & _); [lia|]. rewrite U in Hf. discriminate.
    + assert (Ec : cut c = c) by (unfold cut; destruct (Z.leb_spec c 0x10FFFF); lia). rewrite Ec in Hf. symmetry in Hf. now apply utf8_no_surrogate in Hf.
  - inversion Hp as [|? ? Hc Hp']; subst. destruct (Z_lt_dec (cut c) 0xD800) as [L|L]; [|destruct (Z_lt_dec 0xDFFF (cut c)) as [G|G]].
    1,2: assert (Sc : scalar (cut c)) by (unfold scalar, cut in *; destruct (Z.leb_spec c 0x10FFFF); lia);
      destruct Hs as [|d cps Hd Hs]; cbn [flat_map] in Hf;
      [destruct (utf8_cons _ Sc) as (f & q & U & _); rewrite U in Hf; discriminate|];
      apply utf8_prefix_free in Hf; auto; destruct Hf as [_ Hf]; eapply IH; eauto.
    destruct Hs as [|d cps Hd Hs]; cbn [flat_map] in Hf.
    + destruct (trailing_utf8 (cut c)) as (f & q & U & _); [lia|]. rewrite U in Hf. discriminate.
    + symmetry in Hf. apply utf8_no_surrogate in Hf; auto; lia.
Qed.
Print Assumptions C64_UTF32toUTF8_surrogate_refuted.

Example C64_example :
  given [0x41; 0xD800; 0x110000; 0] (-1) [0x41; 0xD800; 0x110000; 0] /\
  UTF32toUTF16 [0x41; 0xD800; 0x110000; 0] (-1) (Some 9%nat) = Ok ([0x41; 0xFFFD; 0xFFFD; 0], 4%nat) /\
  given [0x41; 0xFFFFFFFF; 0x20AC; 5] 3 [0x41; 0xFFFFFFFF; 0x20AC] /\
  UTF32toUTF8 [0x41; 0xFFFFFFFF; 0x20AC; 5] 3 (Some 9%nat) = Ok ([0x41; 0xEF; 0xBF; 0xBD; 0xE2; 0x82; 0xAC], 7%nat) /\
  UTF32toUTF8 [0x41; 0xD800; 0] (-1) (Some 9%nat) = Ok ([0x41; 0xED; 0xA0; 0x80; 0], 5%nat).
Proof.
  split. { apply (g_term _ _ [0x41; 0xD800; 0x110000] []); [reflexivity|repeat constructor; discriminate|left; cbn; lia]. }
  split; [vm_compute; reflexivity|].
  split. { apply (g_len _ _ [0x41; 0xFFFFFFFF; 0x20AC] 5 []); [reflexivity|repeat constructor; discriminate|reflexivity|discriminate]. }
  split; vm_compute; reflexivity.
Qed.

(* ================= C65 ================= *)
(* how UTF16toUTF32 is told what to read: everything up to and including the terminator, or an explicit number of units *)
Inductive given16 (src : list Z) (srclen : Z) : list Z -> Prop :=
| g16_term us rest : src = us ++ 0 :: rest -> Forall (fun u => u <> 0) us -> srclen < 0 -> given16 src srclen (us ++ [0])
| g16_len us rest : src = us ++ rest -> srclen = Z.of_nat (length us) -> us <> [] -> given16 src srclen us.

Lemma joined_cons c l : joined l -> (forall d r, l = d :: r -> ~ (high_surrogate c /\ low_surrogate d)) -> joined (c :: l).
Proof. intros J H. cbn. split; auto. destruct l; auto. eapply H; eauto. Qed.

(* the first unit of a non-empty decoded list *)
Lemma utf16_head c : 0 <= c <= 0x10FFFF -> exists u q, utf16 c = u :: q /\ (low_surrogate c <-> low_surrogate u).
Proof. intros H. unfold utf16, low_surrogate. destruct (Z.ltb_spec c 65536); do 2 eexists; (split; [reflexivity|]); lia. Qed.

Lemma loop16_decode cap : forall fuel todo pre rest out,
  Forall (fun u => 0 <= u < 65536) todo -> (length todo <= fuel)%nat -> (length out + length todo <= cap)%nat ->
  exists o, u16to32_loop fuel (pre ++ todo ++ rest) (length pre) (length pre + length todo) cap out = Ok (out ++ o) /\
    Forall (fun c => 0 <= c <= 0x10FFFF) o /\ joined o /\
    (flat_map utf16 o = todo \/ exists h, high_surrogate h /\ todo = flat_map utf16 o ++ [h]).
Proof.
  induction fuel as [|fuel IH]; intros todo pre rest out Hb Hf Hc.
  { destruct todo; [|cbn in Hf; lia]. exists []. cbn [u16to32_loop length]. rewrite Nat.add_0_r, Nat.ltb_irrefl, app_nil_r. cbn. auto. }
  cbn [u16to32_loop]. destruct todo as [|u todo]. { exists []. cbn [length]. rewrite Nat.add_0_r, Nat.ltb_irrefl, app_nil_r. cbn. auto. }
  cbn [length] in *. destruct (Nat.ltb_spec (length pre) (length pre + S (length todo))); [|lia]. cbn [app]. rewrite get_app_mid. cbn [bind].
  inversion Hb as [|? ? Hu Hb']; subst.
  assert (One : (high_surrogate u -> exists v q, todo = v :: q /\ ~ low_surrogate v) ->
    exists o, u16to32_loop fuel (pre ++ u :: todo ++ rest) (S (length pre)) (length pre + S (length todo)) cap (out ++ [u]) = Ok (out ++ o) /\
    Forall (fun c => 0 <= c <= 0x10FFFF) o /\ joined o /\
    (flat_map utf16 o = u :: todo \/ exists h, high_surrogate h /\ u :: todo = flat_map utf16 o ++ [h])).
  { intros Hh. destruct (IH todo (pre ++ [u]) rest (out ++ [u]) Hb') as (o & E & Ho & J & T); [lia|rewrite app_length; cbn; lia|].
    exists (u :: o). rewrite <- !app_assoc in E. cbn [app] in E. rewrite app_length in E. cbn [length] in E.
    replace (S (length pre)) with (length pre + 1)%nat by lia. replace (length pre + S (length todo))%nat with (length pre + 1 + length todo)%nat by lia.
    split; [exact E|]. split; [constructor; auto; lia|].
    assert (Uu : utf16 u = [u]) by (unfold utf16; destruct (Z.ltb_spec u 65536); [auto|lia]).
    split.
    - apply joined_cons; auto. intros d r -> [Hd Hl]. destruct (Hh Hd) as (v & q & -> & Hv). inversion Ho as [|? ? Hd1 Ho']; subst.
      destruct (utf16_head d Hd1) as (w & z & Ud & Hw). cbn [flat_map] in T. rewrite Ud in T. cbn [app] in T. apply Hv.
      destruct T as [T|(h & _ & T)]; injection T as <- _; tauto.
    - cbn [flat_map]. rewrite Uu. cbn [app]. destruct T as [T|(h & Hh' & T)]; [left; congruence|]. right. exists h. split; auto. now rewrite T. }
  destruct (Z.leb_spec 0xD800 u), (Z.leb_spec u 0xDBFF); cbn [andb];
    try (destruct (Nat.leb_spec cap (length out)); [lia|]; apply One; unfold high_surrogate; lia).
  destruct todo as [|v todo].
  { cbn [length]. destruct (Nat.ltb_spec (S (length pre)) (length pre + 1)); [lia|]. exists []. rewrite app_nil_r. cbn. repeat split; auto.
    right. exists u. unfold high_surrogate. split; auto. }
  cbn [length] in *. destruct (Nat.ltb_spec (S (length pre)) (length pre + S (S (length todo)))); [|lia].
  assert (G : get (pre ++ u :: (v :: todo) ++ rest) (S (length pre)) = Ok v).
  { replace (S (length pre)) with (length pre + 1)%nat by lia. apply (get_app_off pre [u; v] (todo ++ rest) 1). reflexivity. }
  rewrite G. cbn [bind]. destruct (Nat.leb_spec cap (length out)); [lia|]. inversion Hb' as [|? ? Hv Hb'']; subst.
  destruct (Z.leb_spec 0xDC00 v), (Z.leb_spec v 0xDFFF); cbn [andb]; try (apply One; intros _; exists v, todo; split; auto; unfold low_surrogate; lia).
  rewrite shl10, wrap32 by lia. set (c := (u - 55296) * 1024 + (v - 56320) + 65536).
  destruct (IH todo (pre ++ [u; v]) rest (out ++ [c]) Hb'') as (o & E & Ho & J & T); [lia|rewrite app_length; cbn; lia|].
  exists (c :: o). rewrite <- !app_assoc in E. cbn [app] in E |- *. rewrite app_length in E. cbn [length] in E.
  replace (S (S (length pre))) with (length pre + 2)%nat by lia. replace (length pre + S (S (length todo)))%nat with (length pre + 2 + length todo)%nat by lia.
  split; [exact E|]. split; [constructor; auto; unfold c; lia|].
  split. { apply joined_cons; auto. intros d r _ [Hd _]. unfold high_surrogate, c in Hd. lia. }
  assert (Uc : utf16 c = [u; v]) by (unfold utf16; destruct (Z.ltb_spec c 65536); [unfold c in *; lia|]; unfold c; f_equal; [lia|f_equal; lia]).
  cbn [flat_map]. rewrite Uc. cbn [app]. destruct T as [T|(h & Hh' & T)]; [left; congruence|]. right. exists h. split; auto. now rewrite T.
Qed.

(* UTF16toUTF32 on arbitrary units: nothing is lost. Joining the pairs and leaving unpaired surrogates as they are gives
   the code points whose UTF-16 form is the source again; only a high surrogate at the very end is left out. *)
Theorem C65_UTF16_lossless :
  forall src srclen t, Forall (fun u => 0 <= u < 65536) src -> given16 src srclen t ->
  exists n, UTF16toUTF32 src srclen None = Ok ([], n) /\
    forall cap, (n <= cap)%nat -> exists out, UTF16toUTF32 src srclen (Some cap) = Ok (out, length out) /\
    Forall (fun c => 0 <= c <= 0x10FFFF) out /\ joined out /\
    (flat_map utf16 out = t \/ exists h, high_surrogate h /\ t = flat_map utf16 out ++ [h]) /\
    (srclen < 0 -> flat_map utf16 out = t).
Proof.
  intros src srclen t Hb Hg.
  assert (E0 : srclen <> 0 /\ (exists rest, src = t ++ rest) /\ (srclen < 0 -> exists us, t = us ++ [0]) /\
    (if srclen <? 0 then do l <- wcslen_from (S (length src)) src 0; Ok (l + 1)%nat else Ok (Z.to_nat srclen)) = Ok (length t)).
  { destruct Hg as [us rest -> Hn Hl|us rest -> -> Hne].
    - split; [lia|]. split; [exists rest; now rewrite <- app_assoc|]. split; [eauto|]. destruct (Z.ltb_spec srclen 0); [|lia].
      rewrite (wcslen_ok us [] rest); auto; [|rewrite app_length; cbn; lia]. cbn. rewrite app_length. cbn. f_equal.
    - split; [destruct us; [congruence|cbn; lia]|]. split; [eauto|]. split; [lia|]. destruct (Z.ltb_spec (Z.of_nat (length us)) 0); [lia|]. f_equal. lia. }
  destruct E0 as (Hz & [rest ->] & Hn & E0). unfold UTF16toUTF32.
  apply Forall_app in Hb. destruct Hb as [Hb _].
  exists (length t). rewrite srclen_nz by auto. rewrite E0. cbn [bind]. split; auto.
  intros cap Hc. rewrite srclen_nz by auto.
  destruct (loop16_decode cap (S (length (t ++ rest))) t [] rest [] Hb) as (o & E & Ho & J & T); [rewrite app_length; lia|cbn; lia|].
  cbn [length app Nat.add] in E. exists o. rewrite E. cbn [bind].
  split; auto. split; auto. split; auto. split; auto. intros Hneg. destruct T as [T|(h & Hh & T)]; auto.
  destruct (Hn Hneg) as (us & ->). apply app_inj_tail in T. destruct T as [_ <-]. unfold high_surrogate in Hh. lia.
Qed.
Print Assumptions C65_UTF16_lossless.

(* an unpaired low surrogate, an unpaired high one, a pair; and a high surrogate at the end of an explicit length *)
Example C65_example :
  given16 [0xDC00; 0xD800; 0x41; 0xD83D; 0xDE00; 0] (-1) [0xDC00; 0xD800; 0x41; 0xD83D; 0xDE00; 0] /\
  UTF16toUTF32 [0xDC00; 0xD800; 0x41; 0xD83D; 0xDE00; 0] (-1) (Some 6%nat) = Ok ([0xDC00; 0xD800; 0x41; 0x1F600; 0], 5%nat) /\
  joined [0xDC00; 0xD800; 0x41; 0x1F600; 0] /\
  given16 [0x41; 0xD83D; 0xDE00] 2 [0x41; 0xD83D] /\ UTF16toUTF32 [0x41; 0xD83D; 0xDE00] 2 (Some 6%nat) = Ok ([0x41], 1%nat).
Proof.
  split. { apply (g16_term _ _ [0xDC00; 0xD800; 0x41; 0xD83D; 0xDE00] []); [reflexivity|repeat constructor; discriminate|lia]. }
  split; [vm_compute; reflexivity|]. split. { cbn. unfold high_surrogate, low_surrogate. lia. }
  split. { apply (g16_len _ _ [0x41; 0xD83D] [0xDE00]); [reflexivity|reflexivity|discriminate]. }
  vm_compute; reflexivity.
Qed.
