(* Property C60: the INI line parser recovers keys, values and sections. *)
From Coq Require Import List Arith ZArith Bool Lia ZifyBool ZifyNat.
From Verif Require Import Common INIParser.
Import ListNotations.
Local Open Scope Z_scope.

(* ---------------------------------------------------- specification ---------------------------------------------------- *)
Definition blank (c : Z) : Prop := 0 < c < 33.
Definition printable (c : Z) : Prop := 33 <= c < 128.
Definition ascii (c : Z) : Prop := 0 < c < 128.
(* t is s without the blanks at its ends *)
Definition trimmed (s t : list Z) : Prop := exists a b, s = a ++ t ++ b /\ Forall blank a /\ Forall blank b /\ (forall c r, t = c :: r -> ~ blank c) /\ (forall c r, t = r ++ [c] -> ~ blank c).
(* an array that holds the C string t *)
Definition cstring (l t : list Z) : Prop := exists r, l = t ++ 0 :: r /\ Forall (fun c => c <> 0) t.
(* a parser that can be used *)
Definition ready (p : parser) : Prop := eof p = false /\ (2 <= length (buf p))%nat /\ (exists k, cstring (curkey p) k) /\ (exists v, cstring (curvalue p) v) /\ (exists s, cstring (cursection p) s).
(* the rest of the file after a line: a new line and more, or the end *)
Inductive tail : list Z -> list Z -> bool -> Prop :=
| t_nl rest : tail (nl :: rest) rest false
| t_eof : tail [] [] true.
(* a comment, or none *)
Definition comment (c : list Z) : Prop := c = [] \/ exists c', c = semi :: c' /\ ~ In nl c'.
Definition key_ok (k : list Z) : Prop := Forall (fun c => ascii c /\ c <> nl /\ c <> semi /\ c <> equ /\ c <> lbr) k /\ Exists printable k.
Definition value_ok (v : list Z) : Prop := Forall (fun c => ascii c /\ c <> nl /\ c <> semi) v.
Definition name_ok (n : list Z) : Prop := Forall (fun c => ascii c /\ c <> nl /\ c <> semi /\ c <> rbr) n /\ Exists printable n.
Definition before_ok (a : list Z) : Prop := Forall (fun c => c <> 0 /\ c <> nl /\ c <> semi /\ c <> equ /\ c <> lbr) a.

(* ---------------------------------------------------- proofs ---------------------------------------------------- *)
Lemma strlen_app s r : Forall (fun c => c <> 0) s -> strlen (s ++ 0 :: r) = Ok (length s).
Proof. induction s as [|c s IH]; intros H; [reflexivity|]. inversion H as [|? ? Hc Hs]; subst. cbn [app strlen]. destruct (Z.eqb_spec c 0); [contradiction|]. rewrite (IH Hs). reflexivity. Qed.
Lemma trimlstr_app a c r : Forall blank a -> ~ blank c -> trimlstr (a ++ c :: r) = Ok (length a).
Proof.
  induction a as [|x a IH]; intros H N; cbn [app trimlstr].
  - destruct ((0 <? c) && (c <? 33)) eqn:E; [|reflexivity]. exfalso. apply N. unfold blank. lia.
  - inversion H as [|? ? Hx Ha]; subst. unfold blank in Hx. destruct ((0 <? x) && (x <? 33)) eqn:E; [|lia]. rewrite (IH Ha N). reflexivity.
Qed.
Lemma trimr_loop_app t x w k : (k <= length w)%nat -> Forall (fun c => c < 33) w -> (t = [] \/ 33 <= x) -> trimr_loop (t ++ x :: w) (length t + k) = Ok (length t).
Proof.
  induction k as [|k IH]; intros L F X.
  - rewrite Nat.add_0_r. destruct X as [->|X]; [reflexivity|]. destruct (length t) as [|m] eqn:E; [reflexivity|]. cbn [trimr_loop]. rewrite <- E. unfold get. rewrite nth_error_app2, Nat.sub_diag by lia. cbn [nth_error bind]. destruct (x <? 33) eqn:Q; [lia|reflexivity].
  - rewrite Nat.add_succ_r. cbn [trimr_loop]. unfold get. rewrite nth_error_app2 by lia. replace (S (length t + k) - length t)%nat with (S k) by lia. cbn [nth_error]. destruct (nth_error w k) as [c|] eqn:E; [|apply nth_error_None in E; lia]. cbn [bind]. rewrite Forall_forall in F. pose proof (F c (nth_error_In _ _ E)). destruct (c <? 33) eqn:Q; [|lia]. apply IH; [lia|rewrite Forall_forall; exact F|exact X].
Qed.
Lemma set_app {A} (a : list A) x r v : set (a ++ x :: r) (length a) v = Ok (a ++ v :: r).
Proof. unfold set. rewrite app_length. cbn [length]. destruct (Nat.ltb_spec (length a) (length a + S (length r))); [|lia]. f_equal. clear. induction a as [|y a IH]; [reflexivity|]. cbn [app length upd]. rewrite IH. reflexivity. Qed.
Lemma memcpy_ok l src : (length src <= length l)%nat -> memcpy l src = Ok (src ++ skipn (length src) l).
Proof. intros H. unfold memcpy. destruct (Nat.leb_spec (length src) (length l)); [reflexivity|lia]. Qed.
Lemma skipn_app_len {A} (a r : list A) : skipn (length a) (a ++ r) = r.
Proof. induction a; [reflexivity|assumption]. Qed.
Lemma firstn_app_len {A} (a r : list A) : firstn (length a) (a ++ r) = a.
Proof. induction a as [|x a IH]; [reflexivity|]. cbn [length firstn app]. rewrite IH. reflexivity. Qed.
Lemma blank_nz a : Forall blank a -> Forall (fun c => c <> 0) a.
Proof. apply Forall_impl. unfold blank. lia. Qed.
Lemma savestr_room orig s0 n : cstring orig s0 -> (n + 1 <= length (if (length s0 <? n)%nat then resize orig (n + 1) else orig))%nat.
Proof.
  intros (r & -> & _). destruct (Nat.ltb_spec (length s0) n) as [L|L].
  - unfold resize. rewrite firstn_length, app_length, repeat_length. lia.
  - rewrite app_length. cbn [length]. lia.
Qed.
Lemma savestr_ok orig s0 a t b r : cstring orig s0 -> Forall blank a -> Forall blank b -> Forall ascii t -> t <> [] -> (forall c r, t = c :: r -> ~ blank c) -> (forall c r, t = r ++ [c] -> ~ blank c) ->
  exists o, savestr orig ((a ++ t ++ b) ++ 0 :: r) = Ok o /\ cstring o t.
Proof.
  intros CS Ha Hb Ht NE Hf Hl. pose proof CS as (r0 & -> & F0). destruct t as [|c t']; [congruence|]. pose proof (Hf c t' eq_refl) as Nc. set (t := c :: t') in *.
  assert (NZ : Forall (fun c => c <> 0) t) by (revert Ht; apply Forall_impl; unfold ascii; lia).
  unfold savestr. rewrite (strlen_app s0 r0 F0). cbn [bind].
  replace ((a ++ t ++ b) ++ 0 :: r) with (a ++ c :: (t' ++ b ++ 0 :: r)) by (unfold t; rewrite <- !app_assoc; reflexivity).
  rewrite (trimlstr_app a c _ Ha Nc). cbn [bind]. rewrite skipn_app_len. replace (c :: t' ++ b ++ 0 :: r) with ((t ++ b) ++ 0 :: r) by (unfold t; rewrite <- app_assoc; reflexivity).
  assert (NZ2 : Forall (fun c => c <> 0) (t ++ b)) by (apply Forall_app; split; [exact NZ|apply blank_nz, Hb]).
  rewrite (strlen_app (t ++ b) r NZ2). cbn [bind]. rewrite firstn_app_len. pose proof (savestr_room _ s0 (length (t ++ b)) CS) as RM. set (o1 := if (length s0 <? length (t ++ b))%nat then resize (s0 ++ 0 :: r0) (length (t ++ b) + 1) else s0 ++ 0 :: r0) in *.
  rewrite memcpy_ok by lia. cbn [bind]. destruct (skipn (length (t ++ b)) o1) as [|y r1] eqn:E1. { apply (f_equal (@length Z)) in E1. rewrite skipn_length in E1. cbn [length] in E1. lia. }
  rewrite set_app. cbn [bind]. unfold trimrstr. rewrite (strlen_app (t ++ b) r1 NZ2). cbn [bind].
  destruct (@exists_last _ t) as (u & x & Eu); [discriminate|]. pose proof (Hl x u Eu) as Nx. assert (Ax : ascii x) by (rewrite Forall_forall in Ht; apply Ht; rewrite Eu; apply in_or_app; right; left; reflexivity).
  rewrite Eu. rewrite <- !app_assoc. cbn [app]. rewrite !app_length. cbn [length]. replace (length u + 1 + length b)%nat with (length u + S (length b))%nat by lia.
  replace (u ++ x :: b ++ 0 :: r1) with (u ++ x :: (b ++ [0]) ++ r1) by (rewrite <- app_assoc; reflexivity).
  assert (TL : trimr_loop (u ++ x :: (b ++ [0]) ++ r1) (length u + S (length b)) = Ok (length u)).
  { assert (K : forall k l w, (k < length l)%nat -> trimr_loop l k = trimr_loop (l ++ w) k). { clear. induction k as [|k IH]; intros l w L; [reflexivity|]. cbn [trimr_loop]. unfold get. rewrite nth_error_app1 by exact L. destruct (nth_error l (S k)) as [c|]; [|reflexivity]. cbn [bind]. destruct (c <? 33); [|reflexivity]. apply IH. lia. }
    replace (u ++ x :: (b ++ [0]) ++ r1) with ((u ++ x :: (b ++ [0])) ++ r1) by (rewrite <- (app_assoc u); reflexivity). rewrite <- K by (rewrite !app_length; cbn [length]; rewrite app_length; cbn [length]; lia). apply trimr_loop_app; [rewrite app_length; cbn [length]; lia| |right; unfold ascii in Ax; unfold blank in Nx; lia]. apply Forall_app. split; [revert Hb; apply Forall_impl; unfold blank; lia|constructor; [lia|constructor]]. }
  rewrite TL. cbn [bind]. replace (u ++ x :: (b ++ [0]) ++ r1) with ((u ++ [x]) ++ (b ++ [0]) ++ r1) by (rewrite <- app_assoc; reflexivity). replace (S (length u)) with (length (u ++ [x])) by (rewrite app_length; cbn [length]; lia).
  destruct (b ++ [0]) as [|z w] eqn:Eb; [destruct b; discriminate Eb|]. cbn [app]. rewrite set_app. eexists. split; [reflexivity|]. exists (w ++ r1). split; [rewrite <- app_assoc; reflexivity|]. rewrite <- Eu. exact NZ.
Qed.
Lemma savestr_blank orig s0 a r : cstring orig s0 -> Forall blank a -> (2 <= length orig)%nat -> exists o, savestr orig (a ++ 0 :: r) = Ok o /\ cstring o [].
Proof.
  intros (r0 & -> & F0) Ha L. unfold savestr. rewrite (strlen_app s0 r0 F0). cbn [bind]. rewrite (trimlstr_app a 0 r Ha) by (unfold blank; lia). cbn [bind]. rewrite skipn_app_len. cbn [strlen Z.eqb bind]. destruct (Nat.ltb_spec (length s0) 0); [lia|]. cbn [firstn]. rewrite memcpy_ok by (cbn; lia). cbn [length app skipn bind].
  remember (s0 ++ 0 :: r0) as o eqn:Eo. clear Eo. destruct o as [|x [|y o]]; try (cbn in L; lia). cbn. eexists. split; [reflexivity|]. exists (0 :: o). split; [reflexivity|constructor].
Qed.
Lemma nextkeychar_key k r i : Forall (fun c => c <> 0 /\ c <> semi /\ c <> equ /\ c <> lbr) k -> nextkeychar (k ++ r) i = nextkeychar r (length k + i).
Proof.
  revert i. induction k as [|c k IH]; intros i H; [reflexivity|]. inversion H as [|? ? (H0 & H1 & H2 & H3) Hk]; subst. cbn [app nextkeychar]. destruct (Z.eqb_spec c 0); [contradiction|]. destruct (Z.eqb_spec c semi); [contradiction|]. destruct (Z.eqb_spec c equ); [contradiction|]. destruct (Z.eqb_spec c lbr); [contradiction|]. rewrite (IH (S i) Hk). f_equal. cbn [length]. lia.
Qed.
Lemma validatevalue_app v c r i : Forall (fun c => c <> 0 /\ c <> semi) v -> c = 0 \/ c = semi -> validatevalue (v ++ c :: r) i = Ok (length v + i)%nat.
Proof.
  revert i. induction v as [|x v IH]; intros i H C; cbn [app validatevalue length].
  - destruct C as [->| ->]; reflexivity.
  - inversion H as [|? ? (H0 & H1) Hv]; subst. destruct (Z.eqb_spec x 0); [contradiction|]. destruct (Z.eqb_spec x semi); [contradiction|]. rewrite (IH (S i) Hv C). f_equal. lia.
Qed.
Lemma validatesection_app v c r i : Forall (fun c => c <> 0 /\ c <> semi /\ c <> rbr) v -> c = rbr -> validatesection (v ++ c :: r) i true = Ok (Some (length v + i)%nat).
Proof.
  revert i. induction v as [|x v IH]; intros i H C; cbn [app validatesection length].
  - subst c. reflexivity.
  - inversion H as [|? ? (H0 & H1 & H2) Hv]; subst. destruct (Z.eqb_spec x 0); [contradiction|]. destruct (Z.eqb_spec x semi); [contradiction|]. destruct (Z.eqb_spec x rbr); [contradiction|]. cbn [orb]. rewrite (IH (S i) Hv eq_refl). do 2 f_equal. lia.
Qed.
Lemma getline_tail n line tl rest e : ~ In nl line -> tail tl rest e -> (length line < n)%nat -> exists t, getline n (line ++ tl) = (line ++ t, rest, e) /\ (t = [] \/ t = [nl]).
Proof.
  intros N T. revert n. induction line as [|c line IH]; intros n L.
  - destruct n as [|n]; [lia|]. destruct T as [rest|]; [exists [nl]|exists []]; auto.
  - destruct n as [|n]; [lia|]. cbn [length] in L. destruct (IH ltac:(intros K; apply N; right; exact K) n ltac:(lia)) as (t & E & Ht). exists t. split; [|exact Ht]. cbn [app getline]. destruct (Z.eqb_spec c nl) as [->|]; [exfalso; apply N; left; reflexivity|]. rewrite E. reflexivity.
Qed.
Definition step_file (p : parser) (rest : list Z) (e : bool) (b : list Z) : parser := mkp rest e (curvalue p) (curkey p) (cursection p) (newsection p) b.
Lemma fgets_ok p line tl rest e : eof p = false -> line <> [] -> ~ In nl line -> tail tl rest e -> file p = line ++ tl -> (length line + 1 < length (buf p))%nat ->
  exists t j, fgets p = Ok (step_file p rest e (line ++ t ++ 0 :: j)) /\ (t = [] \/ t = [nl]) /\ length (line ++ t ++ 0 :: j) = length (buf p).
Proof.
  intros E NE N T F L. destruct (getline_tail (length (buf p) - 1) line tl rest e N T ltac:(lia)) as (t & G & Ht). unfold fgets. rewrite F, G, E. cbn [orb]. destruct line as [|c line]; [congruence|]. cbn [app].
  change (c :: line ++ t) with ((c :: line) ++ t). change (c :: (line ++ t) ++ [0]) with (((c :: line) ++ t) ++ [0]). assert (LT : (length t <= 1)%nat) by (destruct Ht as [->| ->]; cbn; lia). rewrite memcpy_ok by (rewrite !app_length; cbn [length] in *; lia). cbn [bind]. exists t, (skipn (length (((c :: line) ++ t) ++ [0])) (buf p)). split; [|split; [exact Ht|]].
  - unfold step_file. do 2 f_equal. rewrite <- !app_assoc. reflexivity.
  - pose proof (skipn_length (length (((c :: line) ++ t) ++ [0])) (buf p)) as SL. rewrite !app_length in *. cbn [length] in *. rewrite !app_length in *. cbn [length] in *. lia.
Qed.
Lemma trimmed_ne s t : trimmed s t -> Exists printable s -> t <> [].
Proof.
  intros (a & b & -> & Ha & Hb & _) E ->. cbn [app] in E. apply Exists_exists in E. destruct E as (c & Hc & P). unfold printable in P. apply in_app_or in Hc. rewrite Forall_forall in Ha, Hb. destruct Hc as [Hc|Hc]; [pose proof (Ha c Hc) as Q|pose proof (Hb c Hc) as Q]; unfold blank in Q; lia.
Qed.
Lemma savestr_trim orig s0 s t w r : cstring orig s0 -> trimmed s t -> Forall ascii s -> Forall blank w -> t <> [] \/ (2 <= length orig)%nat -> exists o, savestr orig ((s ++ w) ++ 0 :: r) = Ok o /\ cstring o t.
Proof.
  intros CS (a & b & -> & Ha & Hb & Hf & Hl) HA HW HN. assert (At : Forall ascii t) by (apply Forall_app in HA; destruct HA as (_ & HA); apply Forall_app in HA; apply HA). assert (Hbw : Forall blank (b ++ w)) by (apply Forall_app; auto).
  destruct t as [|c t].
  - destruct HN as [HN|HN]; [congruence|]. cbn [app]. apply (savestr_blank orig s0); [exact CS| |exact HN]. rewrite <- app_assoc. apply Forall_app. auto.
  - replace ((a ++ (c :: t) ++ b) ++ w) with (a ++ (c :: t) ++ (b ++ w)) by (rewrite <- !app_assoc; reflexivity). apply (savestr_ok orig s0); auto. discriminate.
Qed.
Lemma nlw t : t = [] \/ t = [nl] -> Forall blank t.
Proof. intros [->| ->]; repeat constructor. Qed.
Lemma pair_loop n p key value com tl rest e k v : ready p -> key_ok key -> value_ok value -> comment com -> tail tl rest e -> file p = key ++ equ :: value ++ com ++ tl -> (length (key ++ equ :: value ++ com) + 1 < length (buf p))%nat ->
  trimmed key k -> trimmed value v -> v <> [] \/ (2 <= length (curvalue p))%nat ->
  exists p', parse_loop (S n) p = Ok (p', 1) /\ cstring (curkey p') k /\ cstring (curvalue p') v /\ cursection p' = cursection p /\ newsection p' = newsection p /\ file p' = rest /\ eof p' = e /\ length (buf p') = length (buf p).
Proof.
  intros (EF & BL & (k0 & CK) & (v0 & CV) & CS) (HK & EK) HV HC T F L TK TV NV. set (line := key ++ equ :: value ++ com) in *.
  assert (NL : ~ In nl line). { unfold line. intros K. apply in_app_or in K. rewrite Forall_forall in HK. unfold value_ok in HV. rewrite Forall_forall in HV. destruct K as [K|[K|K]]; [destruct (HK nl K); tauto|discriminate K|]. apply in_app_or in K. destruct K as [K|K]; [destruct (HV nl K); tauto|]. destruct HC as [->|(c' & -> & N)]; [exact K|]. destruct K as [K|K]; [discriminate K|exact (N K)]. }
  destruct (fgets_ok p line tl rest e EF ltac:(unfold line; destruct key; discriminate) NL T) as (t & j & G & Ht & LB); [unfold line; rewrite F, <- !app_assoc; cbn [app]; rewrite <- app_assoc; reflexivity|exact L|].
  cbn [parse_loop]. rewrite EF, G. cbn [bind step_file buf]. unfold line in *. rewrite <- app_assoc. cbn [app].
  rewrite (nextkeychar_key key) by (revert HK; apply Forall_impl; unfold ascii; intros c; lia). cbn [nextkeychar]. change (equ =? 0) with false. change (equ =? semi) with false. change (equ =? equ) with true. cbn iota. cbn [bind]. rewrite Nat.add_0_r.
  unfold validatekey. rewrite firstn_app_len. assert (VK : existsb (fun c => 33 <=? c) key = true). { apply existsb_exists. apply Exists_exists in EK. destruct EK as (c & Hc & P). exists c. split; [exact Hc|]. unfold printable in P. lia. }
  rewrite VK. assert (SK : forall x r, skipn (S (length key)) (key ++ x :: r) = r). { intros x r. replace (key ++ x :: r) with ((key ++ [x]) ++ r) by (rewrite <- app_assoc; reflexivity). replace (S (length key)) with (length (key ++ [x])) by (rewrite app_length; cbn [length]; lia). apply skipn_app_len. }
  rewrite SK.
  (* the value up to the comment or the end of the line *)
  assert (VS : exists w c r, (value ++ com) ++ t ++ 0 :: j = (value ++ w) ++ c :: r /\ (c = 0 \/ c = semi) /\ Forall blank w).
  { destruct HC as [->|(c' & -> & N)]; [exists t, 0, j; rewrite app_nil_r, <- app_assoc; split; [reflexivity|]; split; [auto|apply nlw, Ht]|]. exists [], semi, (c' ++ t ++ 0 :: j). rewrite app_nil_r, <- app_assoc. split; [reflexivity|]. split; [auto|constructor]. }
  destruct VS as (w & c & r & EV & Cc & Hw). rewrite EV. assert (AV : Forall ascii value) by (revert HV; apply Forall_impl; intros x; tauto).
  assert (NW : Forall (fun c => c <> 0 /\ c <> semi) (value ++ w)). { apply Forall_app. split; [revert HV; apply Forall_impl; unfold ascii; intros x; lia|revert Hw; apply Forall_impl; unfold blank, semi; intros x; lia]. }
  rewrite (validatevalue_app (value ++ w) c r) by assumption. cbn [bind].
  replace (key ++ equ :: (value ++ w) ++ c :: r) with ((key ++ equ :: value ++ w) ++ c :: r) by (rewrite <- app_assoc; reflexivity). replace (length (value ++ w) + S (length key))%nat with (length (key ++ equ :: value ++ w)) by (rewrite !app_length; cbn [length]; rewrite app_length; lia). rewrite set_app. cbn [bind].
  unfold new_pair, with_buf. cbn [buf step_file file eof curvalue curkey cursection newsection].
  replace ((key ++ equ :: value ++ w) ++ 0 :: r) with (key ++ equ :: (value ++ w) ++ 0 :: r) by (rewrite <- (app_assoc key); reflexivity). rewrite set_app. cbn [bind].
  assert (AK : Forall ascii key) by (revert HK; apply Forall_impl; intros x; tauto).
  destruct (savestr_trim (curkey p) k0 key k [] ((value ++ w) ++ 0 :: r) CK TK AK ltac:(constructor) ltac:(left; apply (trimmed_ne key k TK EK))) as (ok & EO & CO). rewrite app_nil_r in EO. rewrite EO. cbn [bind]. rewrite SK.
  destruct (savestr_trim (curvalue p) v0 value v w r CV TV AV Hw NV) as (ov & EO2 & CO2). rewrite EO2. cbn [bind]. eexists. split; [reflexivity|]. cbn. split; [exact CO|]. split; [exact CO2|]. split; [reflexivity|]. split; [reflexivity|]. split; [reflexivity|]. split; [reflexivity|].
  clear - LB EV. apply (f_equal (@length Z)) in EV. repeat (rewrite !app_length in *; cbn [length] in * ). lia.
Qed.

Lemma section_loop n p pre name junk tl rest e s : ready p -> before_ok pre -> name_ok name -> ~ In nl junk -> tail tl rest e -> file p = pre ++ lbr :: name ++ rbr :: junk ++ tl -> (length (pre ++ lbr :: name ++ rbr :: junk) + 1 < length (buf p))%nat -> trimmed name s ->
  exists p', parse_loop (S n) p = Ok (p', -1) /\ cstring (cursection p') s /\ newsection p' = true /\ curkey p' = curkey p /\ curvalue p' = curvalue p /\ file p' = rest /\ eof p' = e /\ length (buf p') = length (buf p).
Proof.
  intros (EF & BL & CK & CV & (s0 & CS)) HP (HN & EN) HJ T F L TN. set (line := pre ++ lbr :: name ++ rbr :: junk) in *.
  assert (NL : ~ In nl line). { unfold line. intros K. apply in_app_or in K. unfold before_ok in HP. rewrite Forall_forall in HP, HN. destruct K as [K|[K|K]]; [destruct (HP nl K); tauto|discriminate K|]. apply in_app_or in K. destruct K as [K|[K|K]]; [destruct (HN nl K); tauto|discriminate K|exact (HJ K)]. }
  destruct (fgets_ok p line tl rest e EF ltac:(unfold line; destruct pre; discriminate) NL T) as (t & j & G & Ht & LB); [unfold line; rewrite F, <- !app_assoc; cbn [app]; rewrite <- app_assoc; reflexivity|exact L|].
  cbn [parse_loop]. rewrite EF, G. cbn [bind step_file buf]. unfold line in *. rewrite <- app_assoc. cbn [app].
  rewrite (nextkeychar_key pre) by (revert HP; apply Forall_impl; intros c; tauto). cbn [nextkeychar]. change (lbr =? 0) with false. change (lbr =? semi) with false. change (lbr =? equ) with false. change (lbr =? lbr) with true. cbn iota. cbn [bind]. rewrite Nat.add_0_r.
  rewrite skipn_app_len. cbn [validatesection]. change (lbr =? 0) with false. change (lbr =? semi) with false. change (lbr =? rbr) with false. change (false || (33 <=? lbr)) with true. cbn iota.
  rewrite <- app_assoc. cbn [app]. rewrite (validatesection_app name rbr) by (try reflexivity; revert HN; apply Forall_impl; unfold ascii; intros c; lia). cbn [bind].
  assert (NE : name <> []) by (intros ->; inversion EN). destruct (Nat.eqb_spec (length name + S (length pre)) (S (length pre))) as [E|_]; [destruct name; [congruence|cbn in E; lia]|].
  replace (pre ++ lbr :: name ++ rbr :: junk ++ t ++ 0 :: j) with ((pre ++ lbr :: name) ++ rbr :: junk ++ t ++ 0 :: j) by (rewrite <- (app_assoc pre); reflexivity). replace (length name + S (length pre))%nat with (length (pre ++ lbr :: name)) by (rewrite app_length; cbn [length]; lia). rewrite set_app. cbn [bind].
  unfold new_section, with_buf. cbn [buf step_file file eof curvalue curkey cursection newsection].
  assert (SK : skipn (S (length pre)) ((pre ++ lbr :: name) ++ 0 :: junk ++ t ++ 0 :: j) = name ++ 0 :: junk ++ t ++ 0 :: j). { replace ((pre ++ lbr :: name) ++ 0 :: junk ++ t ++ 0 :: j) with ((pre ++ [lbr]) ++ name ++ 0 :: junk ++ t ++ 0 :: j) by (rewrite <- !app_assoc; reflexivity). replace (S (length pre)) with (length (pre ++ [lbr])) by (rewrite app_length; cbn [length]; lia). apply skipn_app_len. }
  rewrite SK. destruct (savestr_trim (cursection p) s0 name s [] (junk ++ t ++ 0 :: j) CS TN ltac:(revert HN; apply Forall_impl; intros x; tauto) ltac:(constructor) ltac:(left; apply (trimmed_ne name s TN EN))) as (o & EO & CO). rewrite app_nil_r in EO. rewrite EO. cbn [bind].
  eexists. split; [reflexivity|]. cbn. split; [exact CO|]. do 5 (split; [reflexivity|]). clear - LB. repeat (rewrite !app_length in *; cbn [length] in * ). lia.
Qed.
Lemma skip_loop n p line tl rest e : ready p -> ~ In nl line -> (exists a b, line = a ++ b /\ before_ok a /\ (b = [] \/ exists c, b = semi :: c)) -> tl = nl :: rest \/ line <> [] -> tail tl rest e -> file p = line ++ tl -> (length line + 1 < length (buf p))%nat ->
  exists b, parse_loop (S n) p = parse_loop n (step_file p rest e b) /\ length b = length (buf p).
Proof.
  intros (EF & BL & _) NL (a & b & EL & HA & HB) NEM T F L.
  assert (G : exists t j, fgets p = Ok (step_file p rest e (line ++ t ++ 0 :: j)) /\ (t = [] \/ t = [nl]) /\ length (line ++ t ++ 0 :: j) = length (buf p)).
  { destruct line as [|c line]; [|apply (fgets_ok p (c :: line) tl rest e EF); auto; discriminate]. destruct NEM as [->|NEM]; [|congruence]. exists [nl], (skipn 2 (buf p)). split; [|split; [auto|cbn [app length]; rewrite skipn_length; lia]]. inversion T; subst. unfold fgets. rewrite F, EF. destruct (length (buf p) - 1)%nat eqn:E; [lia|]. cbn [getline app]. rewrite Z.eqb_refl. rewrite memcpy_ok by (cbn [app length]; lia). reflexivity. }
  destruct G as (t & j & G & Ht & LB). exists (line ++ t ++ 0 :: j). split; [|exact LB]. cbn [parse_loop]. rewrite EF, G. cbn [bind step_file buf].
  assert (K : nextkeychar (line ++ t ++ 0 :: j) 0 = Ok None). { rewrite EL, <- app_assoc. rewrite (nextkeychar_key a) by (revert HA; apply Forall_impl; intros c; tauto). destruct HB as [->|(c & ->)]; [destruct Ht as [->| ->]; reflexivity|reflexivity]. }
  rewrite K. cbn [bind]. reflexivity.
Qed.
(* the fuel is enough *)
Lemma strlen_fuel l : strlen l <> OutOfFuel.
Proof. induction l as [|c l IH]; [discriminate|]. cbn. destruct (c =? 0); [discriminate|]. destruct (strlen l); [discriminate|discriminate|congruence]. Qed.
Lemma trimlstr_fuel l : trimlstr l <> OutOfFuel.
Proof. induction l as [|c l IH]; [discriminate|]. cbn. destruct ((0 <? c) && (c <? 33)); [|discriminate]. destruct (trimlstr l); [discriminate|discriminate|congruence]. Qed.
Lemma trimr_fuel l k : trimr_loop l k <> OutOfFuel.
Proof. induction k as [|k IH]; [discriminate|]. cbn [trimr_loop]. unfold get. destruct (nth_error l (S k)) as [c|]; [|discriminate]. cbn [bind]. destruct (c <? 33); [exact IH|discriminate]. Qed.
Lemma set_fuel {A} (l : list A) i v : set l i v <> OutOfFuel.
Proof. unfold set. destruct (i <? length l)%nat; discriminate. Qed.
Lemma memcpy_fuel l s : memcpy l s <> OutOfFuel.
Proof. unfold memcpy. destruct (length s <=? length l)%nat; discriminate. Qed.
Lemma bind_fuel {A B} (m : res A) (f : A -> res B) : m <> OutOfFuel -> (forall a, m = Ok a -> f a <> OutOfFuel) -> bind m f <> OutOfFuel.
Proof. intros H K. destruct m; cbn; auto; discriminate. Qed.
Lemma savestr_fuel o s : savestr o s <> OutOfFuel.
Proof.
  unfold savestr. apply bind_fuel; [apply strlen_fuel|intros n _]. apply bind_fuel; [apply trimlstr_fuel|intros k _]. cbn zeta. apply bind_fuel; [apply strlen_fuel|intros m _]. apply bind_fuel; [apply memcpy_fuel|intros o1 _]. apply bind_fuel; [apply set_fuel|intros o2 _].
  unfold trimrstr. apply bind_fuel; [apply strlen_fuel|intros a _]. apply bind_fuel; [apply trimr_fuel|intros i _]. apply set_fuel.
Qed.
Lemma nextkeychar_fuel l i : nextkeychar l i <> OutOfFuel.
Proof. revert i. induction l as [|c l IH]; intros i; [discriminate|]. cbn. destruct (c =? 0), (c =? semi), (c =? equ), (c =? lbr); try discriminate; apply IH. Qed.
Lemma validatevalue_fuel l i : validatevalue l i <> OutOfFuel.
Proof. revert i. induction l as [|c l IH]; intros i; [discriminate|]. cbn. destruct (c =? 0), (c =? semi); try discriminate; apply IH. Qed.
Lemma validatesection_fuel l i v : validatesection l i v <> OutOfFuel.
Proof. revert i v. induction l as [|c l IH]; intros i v; [discriminate|]. cbn. destruct (c =? 0), (c =? semi), (c =? rbr); try discriminate; apply IH. Qed.
Lemma getline_len n l a b e : getline n l = (a, b, e) -> length l = (length a + length b)%nat /\ (a = [] -> (0 < n)%nat -> e = true) /\ (length a <= n)%nat.
Proof.
  revert l a b e. induction n as [|n IH]; intros l a b e H; cbn in H; [injection H as <- <- <-; cbn; lia|]. destruct l as [|c l]; [injection H as <- <- <-; cbn; auto with arith|]. destruct (c =? nl); [injection H as <- <- <-; cbn; split; [lia|]; split; [discriminate|lia]|]. destruct (getline n l) as [[a' b'] e'] eqn:E. injection H as <- <- <-. destruct (IH l a' b' e' E) as (L & _ & L2). cbn [length]. split; [lia|]. split; [discriminate|lia].
Qed.
Lemma fgets_fuel p : fgets p <> OutOfFuel.
Proof. unfold fgets. destruct (getline _ _) as [[a b] e]. destruct a as [|c a]; [discriminate|]. apply bind_fuel; [apply memcpy_fuel|discriminate]. Qed.
Definition todo (p : parser) : nat := if eof p then 0%nat else S (length (file p)).
Lemma memcpy_len l s l' : memcpy l s = Ok l' -> length l' = length l.
Proof. unfold memcpy. destruct (Nat.leb_spec (length s) (length l)) as [L|L]; [|discriminate]. intros E. injection E as <-. rewrite app_length, skipn_length. lia. Qed.
Lemma fgets_todo p p' : fgets p = Ok p' -> (2 <= length (buf p))%nat -> eof p = false -> (todo p' < todo p)%nat /\ length (buf p') = length (buf p).
Proof.
  unfold fgets. intros H L E. destruct (getline _ _) as [[a b] e] eqn:G. destruct (getline_len _ _ _ _ _ G) as (L1 & L2 & L3). destruct a as [|c a].
  - injection H as <-. rewrite L2 by (try reflexivity; lia). unfold todo. cbn. rewrite orb_true_r, E. split; [lia|reflexivity].
  - destruct (memcpy (buf p) ((c :: a) ++ [0])) as [bf| |] eqn:Q; [|discriminate H|discriminate H]. cbn [bind] in H. injection H as <-. unfold todo. cbn [eof file buf]. rewrite E. cbn [length] in L1. split; [destruct (false || e); lia|]. apply (memcpy_len _ _ _ Q).
Qed.
Lemma parse_fuel n p : (2 <= length (buf p))%nat -> (todo p < n)%nat -> parse_loop n p <> OutOfFuel /\ forall m, (n <= m)%nat -> parse_loop m p = parse_loop n p.
Proof.
  revert p. induction n as [|n IH]; intros p L T; [lia|].
  assert (STEP : forall p', fgets p = Ok p' -> eof p = false -> parse_loop n p' <> OutOfFuel /\ forall m, (n <= m)%nat -> parse_loop m p' = parse_loop n p'). { intros p' F E. destruct (fgets_todo p p' F L E) as (T' & L'). apply IH; lia. }
  split.
  - cbn [parse_loop]. destruct (eof p) eqn:E; [discriminate|]. apply bind_fuel; [apply fgets_fuel|intros p' F]. destruct (STEP p' F eq_refl) as (S1 & _). apply bind_fuel; [apply nextkeychar_fuel|intros k _]. destruct k as [[[|] tc]|]; [| |exact S1].
    + apply bind_fuel; [apply validatesection_fuel|intros [sec|] _; [|exact S1]]. destruct (sec =? S tc)%nat; [exact S1|]. apply bind_fuel; [apply set_fuel|intros b _]. apply bind_fuel; [|discriminate]. unfold new_section. apply bind_fuel; [apply savestr_fuel|discriminate].
    + destruct (validatekey (buf p') tc); [|exact S1]. apply bind_fuel; [apply validatevalue_fuel|intros sec _]. apply bind_fuel; [apply set_fuel|intros b _]. apply bind_fuel; [|discriminate]. unfold new_pair. apply bind_fuel; [apply set_fuel|intros b2 _]. apply bind_fuel; [apply savestr_fuel|intros b3 _]. apply bind_fuel; [apply savestr_fuel|discriminate].
  - intros [|m] Hm; [lia|]. cbn [parse_loop]. destruct (eof p) eqn:E; [reflexivity|]. destruct (fgets p) as [p'| |] eqn:F; [|reflexivity|reflexivity]. cbn [bind]. destruct (STEP p' eq_refl eq_refl) as (_ & S2). rewrite (S2 m) by lia. reflexivity.
Qed.
Lemma ready_clear p : ready p -> ready (mkp (file p) (eof p) (curvalue p) (curkey p) (cursection p) false (buf p)).
Proof. exact (fun H => H). Qed.

(* ---------------------------------------------------- theorems ---------------------------------------------------- *)
(* The full claim is about every line key=value;comment.  This is about values that are not blank, or a value buffer of two
   bytes or more, and about ASCII texts; see the refutations below for the rest. *)
Theorem C60_pair_partial p key value com tl rest e k v : ready p -> key_ok key -> value_ok value -> comment com -> tail tl rest e -> file p = key ++ equ :: value ++ com ++ tl -> (length (key ++ equ :: value ++ com) + 1 < length (buf p))%nat ->
  trimmed key k -> trimmed value v -> v <> [] \/ (2 <= length (curvalue p))%nat ->
  exists p', bssParseLine p = Ok (p', 1) /\ cstring (curkey p') k /\ cstring (curvalue p') v /\ cursection p' = cursection p /\ newsection p' = false /\ file p' = rest /\ eof p' = e /\ length (buf p') = length (buf p).
Proof. intros R HK HV HC T F L TK TV N. unfold bssParseLine. rewrite Nat.add_succ_r. apply (pair_loop (length (file p) + 1) (mkp (file p) (eof p) (curvalue p) (curkey p) (cursection p) false (buf p)) key value com tl rest e k v); auto. Qed.
Print Assumptions C60_pair_partial.
Theorem C60_section_partial p pre name junk tl rest e s : ready p -> before_ok pre -> name_ok name -> ~ In nl junk -> tail tl rest e -> file p = pre ++ lbr :: name ++ rbr :: junk ++ tl -> (length (pre ++ lbr :: name ++ rbr :: junk) + 1 < length (buf p))%nat -> trimmed name s ->
  exists p', bssParseLine p = Ok (p', -1) /\ cstring (cursection p') s /\ newsection p' = true /\ curkey p' = curkey p /\ curvalue p' = curvalue p /\ file p' = rest /\ eof p' = e /\ length (buf p') = length (buf p).
Proof. intros R HP HN HJ T F L TN. unfold bssParseLine. rewrite Nat.add_succ_r. apply (section_loop (length (file p) + 1) (mkp (file p) (eof p) (curvalue p) (curkey p) (cursection p) false (buf p)) pre name junk tl rest e s); auto. Qed.
Print Assumptions C60_section_partial.
(* Comment lines, and lines without '=' and '[' before a comment, are ignored: the call does what it would do on the rest of the file. *)
Theorem C60_comment p line rest : ready p -> ~ In nl line -> (exists a b, line = a ++ b /\ before_ok a /\ (b = [] \/ exists c, b = semi :: c)) -> file p = line ++ nl :: rest -> (length line + 1 < length (buf p))%nat ->
  exists b, length b = length (buf p) /\ bssParseLine p = bssParseLine (mkp rest false (curvalue p) (curkey p) (cursection p) false b).
Proof.
  intros R NL SH F L. unfold bssParseLine. rewrite Nat.add_succ_r. destruct (skip_loop (length (file p) + 1) (mkp (file p) (eof p) (curvalue p) (curkey p) (cursection p) false (buf p)) line (nl :: rest) rest false R NL SH (or_introl eq_refl) (t_nl rest) F L) as (b & E & LB). exists b. split; [exact LB|]. rewrite E. unfold step_file. cbn [curvalue curkey cursection newsection file eof buf]. cbn [buf] in LB. destruct R as (_ & BL & _).
  apply (parse_fuel (length rest + 2)); cbn [buf todo eof file]; [lia|unfold todo; cbn; lia|]. rewrite F, app_length. cbn [length]. lia.
Qed.
Print Assumptions C60_comment.
(* Every call comes to an end. *)
Theorem C60_ends p : (2 <= length (buf p))%nat -> bssParseLine p <> OutOfFuel.
Proof. intros L. unfold bssParseLine. apply parse_fuel; [exact L|]. unfold todo. cbn. destruct (eof p); lia. Qed.
Print Assumptions C60_ends.

(* A file of such lines: the calls report the sections and the pairs in order. *)
Inductive item := ILine (l : list Z) | IPair (key value com : list Z) | ISect (pre name junk : list Z).
Definition text (i : item) : list Z := match i with ILine l => l | IPair k v c => k ++ equ :: v ++ c | ISect a n j => a ++ lbr :: n ++ rbr :: j end.
Definition item_ok (size : nat) (i : item) : Prop :=
  (length (text i) + 1 < size)%nat /\
  match i with
  | ILine l => ~ In nl l /\ exists a b, l = a ++ b /\ before_ok a /\ (b = [] \/ exists c, b = semi :: c)
  | IPair k v c => key_ok k /\ value_ok v /\ Exists printable v /\ comment c
  | ISect a n j => before_ok a /\ name_ok n /\ ~ In nl j
  end.
(* what a call reports about an item *)
Definition reports (i : item) (p : parser) (code : Z) : Prop :=
  match i with
  | ILine _ => False
  | IPair k v _ => code = 1 /\ (forall t, trimmed k t -> cstring (curkey p) t) /\ (forall t, trimmed v t -> cstring (curvalue p) t)
  | ISect _ n _ => code = -1 /\ forall t, trimmed n t -> cstring (cursection p) t
  end.
Inductive calls : parser -> list item -> parser -> Prop :=
| c_nil p : calls p [] p
| c_cons p i is p1 code p2 : bssParseLine p = Ok (p1, code) -> reports i p1 code -> calls p1 is p2 -> calls p (i :: is) p2.
Definition is_line (i : item) : bool := match i with ILine _ => true | _ => false end.
Lemma trim_left s : exists a t, s = a ++ t /\ Forall blank a /\ (forall c r, t = c :: r -> ~ blank c).
Proof.
  induction s as [|c s (a & t & -> & Ha & Ht)]; [exists [], []; split; [reflexivity|]; split; [constructor|discriminate]|]. destruct (Z_lt_dec 0 c) as [H0|H0]; [destruct (Z_lt_dec c 33) as [H1|H1]|].
  - exists (c :: a), t. split; [reflexivity|]. split; [constructor; [split; assumption|exact Ha]|exact Ht].
  - exists [], (c :: a ++ t). split; [reflexivity|]. split; [constructor|]. intros c' r E. injection E as <- _. unfold blank. lia.
  - exists [], (c :: a ++ t). split; [reflexivity|]. split; [constructor|]. intros c' r E. injection E as <- _. unfold blank. lia.
Qed.
Lemma trim_right s : exists t b, s = t ++ b /\ Forall blank b /\ (forall c r, t = r ++ [c] -> ~ blank c).
Proof.
  destruct (trim_left (rev s)) as (a & t & E & Ha & Ht). exists (rev t), (rev a). split; [rewrite <- rev_app_distr, <- E, rev_involutive; reflexivity|]. split; [apply Forall_rev, Ha|]. intros c r Q. apply (Ht c (rev r)). rewrite <- (rev_involutive t), Q, rev_app_distr. reflexivity.
Qed.
Lemma trim_ex s : exists t, trimmed s t.
Proof.
  destruct (trim_left s) as (a & t & -> & Ha & Ht). destruct (trim_right t) as (t' & b & -> & Hb & Ht'). exists t', a, b. split; [reflexivity|]. split; [exact Ha|]. split; [exact Hb|]. split; [|exact Ht']. intros c r ->. apply (Ht c (r ++ b)). reflexivity.
Qed.
Lemma blank_prefix a t a' t' : a ++ t = a' ++ t' -> Forall blank a -> Forall blank a' -> (forall c r, t = c :: r -> ~ blank c) -> (forall c r, t' = c :: r -> ~ blank c) -> a = a' /\ t = t'.
Proof.
  revert a'. induction a as [|x a IH]; intros a' E Ha Ha' Ht Ht'.
  - destruct a' as [|y a']; [auto|]. cbn in E. inversion Ha' as [|? ? Hy _]; subst. destruct (Ht y (a' ++ t') eq_refl Hy).
  - destruct a' as [|y a']; cbn in E; [inversion Ha as [|? ? Hx _]; subst; destruct (Ht' x (a ++ t) eq_refl Hx)|]. injection E as <- E. inversion Ha; inversion Ha'; subst. destruct (IH a' E) as (-> & ->); auto.
Qed.
Lemma trim_unique s t t' : trimmed s t -> trimmed s t' -> t = t'.
Proof.
  intros (a & b & E & Ha & Hb & Hf & Hl) (a' & b' & E' & Ha' & Hb' & Hf' & Hl'). rewrite E in E'.
  assert (G : forall a t b a' t' b', a ++ t ++ b = a' ++ t' ++ b' -> Forall blank a -> Forall blank b -> Forall blank a' -> Forall blank b' -> (forall c r, t = c :: r -> ~ blank c) -> (forall c r, t' = c :: r -> ~ blank c) -> t = [] -> t' = []).
  { clear. intros a t b a' t' b' E Ha Hb Ha' Hb' Hf Hf' ->. destruct t' as [|c t']; [reflexivity|]. exfalso. apply (Hf' c t' eq_refl). cbn [app] in E. assert (K : In c (a ++ b)) by (rewrite E; apply in_or_app; right; left; reflexivity). rewrite Forall_forall in Ha, Hb. apply in_app_or in K. destruct K as [K|K]; [apply (Ha c K)|apply (Hb c K)]. }
  destruct t as [|c t]; [symmetry; apply (G a [] b a' t' b' E'); auto|]. destruct t' as [|c' t']; [exfalso; pose proof (G a' [] b' a (c :: t) b (eq_sym E') Ha' Hb' Ha Hb Hf' Hf eq_refl) as K; discriminate K|].
  destruct (blank_prefix a ((c :: t) ++ b) a' ((c' :: t') ++ b') E' Ha Ha') as (_ & E2); [intros x r Q; injection Q as <- _; apply (Hf c t eq_refl)|intros x r Q; injection Q as <- _; apply (Hf' c' t' eq_refl)|].
  apply (f_equal (@rev Z)) in E2. rewrite !rev_app_distr in E2. destruct (blank_prefix _ _ _ _ E2) as (_ & E3); [apply Forall_rev, Hb|apply Forall_rev, Hb'| | |].
  - intros x r Q. apply (Hl x (rev r)). rewrite <- (rev_involutive (c :: t)), Q. reflexivity.
  - intros x r Q. apply (Hl' x (rev r)). rewrite <- (rev_involutive (c' :: t')), Q. reflexivity.
  - rewrite <- (rev_involutive (c :: t)), E3, rev_involutive. reflexivity.
Qed.
Theorem C60_file_partial is p rest : ready p -> Forall (item_ok (length (buf p))) is -> file p = concat (map (fun i => text i ++ [nl]) is) ++ rest ->
  exists p1 p2, calls p (filter (fun i => negb (is_line i)) is) p1 /\ bssParseLine p1 = bssParseLine p2 /\ ready p2 /\ file p2 = rest.
Proof.
  revert p. induction is as [|i is IH]; intros p R H F; [exists p, p; split; [constructor|auto]|]. inversion H as [|? ? (L & Hi) His]; subst. cbn [map concat] in F. rewrite <- !app_assoc in F. cbn [app] in F. set (more := concat (map (fun i => text i ++ [nl]) is) ++ rest) in *. pose proof R as (EF & BL & CK & CV & CS).
  destruct i as [l|k v c|a n j]; cbn [text] in *.
  - destruct Hi as (NL & SH). destruct (C60_comment p l more R NL SH F L) as (b & LB & E). destruct (IH (mkp more false (curvalue p) (curkey p) (cursection p) false b)) as (p1 & p2 & C & E2 & R2 & F2).
    + split; [reflexivity|]. cbn [buf]. split; [lia|]. auto.
    + cbn [buf]. rewrite LB. exact His.
    + reflexivity.
    + cbn [filter is_line negb]. destruct (filter (fun i => negb (is_line i)) is) as [|i0 is0] eqn:EFI.
      * inversion C; subst. exists p, p2. split; [constructor|]. split; [rewrite E; exact E2|auto].
      * inversion C as [|? ? ? q code q2 E3 RP C']; subst. exists p1, p2. split; [|auto]. apply (c_cons p i0 is0 q code p1); [rewrite E; exact E3|exact RP|exact C'].
  - destruct Hi as (HK & HV & EV & HC). destruct (trim_ex k) as (tk & TK). destruct (trim_ex v) as (tv & TV). cbn [filter is_line negb].
    destruct (C60_pair_partial p k v c (nl :: more) more false tk tv R HK HV HC (t_nl more)) as (p1 & E & C1 & C2 & C3 & C4 & C5 & C6 & C7); auto; [rewrite F, <- !app_assoc; cbn [app]; rewrite <- app_assoc; reflexivity|left; apply (trimmed_ne v tv TV EV)|].
    destruct (IH p1) as (p2 & p3 & C & Q); [split; [exact C6|]; split; [lia|]; rewrite C3; eauto|rewrite C7; exact His|exact C5|]. exists p2, p3. split; [|exact Q]. apply (c_cons p _ _ p1 1 p2 E); [|exact C]. split; [reflexivity|]. split; intros t T; [rewrite (trim_unique k t tk T TK); exact C1|rewrite (trim_unique v t tv T TV); exact C2].
  - destruct Hi as (HP & HN & HJ). destruct (trim_ex n) as (tn & TN). cbn [filter is_line negb].
    destruct (C60_section_partial p a n j (nl :: more) more false tn R HP HN HJ (t_nl more)) as (p1 & E & C1 & C2 & C3 & C4 & C5 & C6 & C7); auto; [rewrite F, <- !app_assoc; cbn [app]; rewrite <- app_assoc; reflexivity|].
    destruct (IH p1) as (p2 & p3 & C & Q); [split; [exact C6|]; split; [lia|]; rewrite C3, C4; eauto|rewrite C7; exact His|exact C5|]. exists p2, p3. split; [|exact Q]. apply (c_cons p _ _ p1 (-1) p2 E); [|exact C]. split; [reflexivity|]. intros t T. rewrite (trim_unique n t tn T TN). exact C1.
Qed.
Print Assumptions C60_file_partial.
(* A fresh parser is ready, and the line " a = b c ;d" is one of the lines meant. *)
Definition fresh (stream : list Z) : parser := bssInitINI stream (repeat 7 1024).
Lemma fresh_ready stream : ready (fresh stream).
Proof. split; [reflexivity|]. split; [unfold fresh, bssInitINI; cbn [buf]; rewrite repeat_length; lia|]. repeat split; exists [], []; split; try reflexivity; constructor. Qed.
Ltac ascii_ok := repeat (constructor; [unfold ascii, nl, semi, equ, lbr, rbr; lia|]); constructor.
Definition ex_line : item := IPair [32; 97; 32] [32; 98; 32; 99; 32] [59; 100].
Definition ex_sect : item := ISect [9] [32; 115; 32] [59; 61].
Example C60_example : exists p1 p2, calls (fresh (concat (map (fun i => text i ++ [nl]) [ILine [59; 61]; ex_sect; ILine []; ex_line]))) [ex_sect; ex_line] p1 /\ bssParseLine p1 = bssParseLine p2 /\ ready p2 /\ file p2 = [] /\ trimmed [32; 98; 32; 99; 32] [98; 32; 99].
Proof.
  destruct (C60_file_partial [ILine [59; 61]; ex_sect; ILine []; ex_line] (fresh (concat (map (fun i => text i ++ [nl]) [ILine [59; 61]; ex_sect; ILine []; ex_line]))) []) as (p1 & p2 & C & E & R & F).
  - apply fresh_ready.
  - assert (L : length (buf (fresh (concat (map (fun i => text i ++ [nl]) [ILine [59; 61]; ex_sect; ILine []; ex_line])))) = 1024%nat) by (unfold fresh, bssInitINI; cbn [buf]; apply repeat_length). rewrite L. assert (HM : (20 < 1024)%nat) by lia. clear L. revert HM. generalize 1024%nat. intros M HM. unfold ex_sect, ex_line. constructor; [|constructor; [|constructor; [|constructor; [|constructor]]]]; (split; [cbn [text length app]; lia|]).
    + split; [cbn; unfold nl; intuition discriminate|]. exists [], [59; 61]. split; [reflexivity|]. split; [constructor|right; exists [61]; reflexivity].
    + split; [ascii_ok|]. split; [split; [ascii_ok|apply Exists_cons_tl, Exists_cons_hd; unfold printable; lia]|]. cbn. unfold nl. intuition discriminate.
    + split; [intros []|]. exists [], []. split; [reflexivity|]. split; [constructor|left; reflexivity].
    + split; [split; [ascii_ok|apply Exists_cons_tl, Exists_cons_hd; unfold printable; lia]|]. split; [ascii_ok|]. split; [apply Exists_cons_tl, Exists_cons_hd; unfold printable; lia|]. right. exists [100]. split; [reflexivity|]. cbn. unfold nl. intuition discriminate.
  - rewrite app_nil_r. reflexivity.
  - exists p1, p2. split; [exact C|]. split; [exact E|]. split; [exact R|]. split; [exact F|]. exists [32], [32]. split; [reflexivity|]. split; [constructor; [unfold blank; lia|constructor]|]. split; [constructor; [unfold blank; lia|constructor]|]. split; [intros c r Q; injection Q as <- _; unfold blank; lia|]. intros c r Q. destruct r as [|? [|? [|? [|? r]]]]; try discriminate Q; injection Q; intros; subst; unfold blank; lia.
Qed.
(* The claim is false of the code for a blank value: _trimrstr writes a terminator one past an empty string, and a new parser
   has one byte for the value.  The line is "a=" *)
Theorem C60_blank_value_refuted : bssParseLine (fresh [97; 61; 10]) = UB.
Proof. vm_compute. reflexivity. Qed.
Print Assumptions C60_blank_value_refuted.
(* It is false for texts that end in a byte above 127, which as a char is less than 33: of "k=Jos" and the two bytes of the
   letter e with an acute accent the value is "Jos" *)
Theorem C60_high_byte_refuted : exists p, bssParseLine (fresh [107; 61; 74; 111; 115; -61; -87; 10]) = Ok (p, 1) /\ cstring (curvalue p) [74; 111; 115].
Proof. eexists. split; [vm_compute; reflexivity|]. exists [-87; 10; 0]. cbn. split; [reflexivity|]. repeat constructor; discriminate. Qed.
Print Assumptions C60_high_byte_refuted.
(* Of a file it is false when the last line is a section with a new line: it is reported twice *)
Theorem C60_last_section_refuted : exists p p', bssParseLine (fresh [91; 97; 93; 10]) = Ok (p, -1) /\ bssParseLine p = Ok (p', -1) /\ newsection p' = true.
Proof. do 2 eexists. split; [vm_compute; reflexivity|]. split; [vm_compute; reflexivity|reflexivity]. Qed.
Print Assumptions C60_last_section_refuted.
