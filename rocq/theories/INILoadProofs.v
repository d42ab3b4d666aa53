(* Loading an INI file: the nodes in memory are the sections and pairs of the lines. *)
From Coq Require Import List Arith ZArith Bool Lia ZifyBool ZifyNat.
From Verif Require Import Common INIParser INIParserProps INIChain INIChainProofs INIStorage INIDoc INITextProofs INITextProofs2 INITextProofs3 INITextProofs4 INIStorageProofs.
Import ListNotations.
Local Open Scope nat_scope.

(* the last section followed by a new line and nothing else is not meant *)
Fixpoint ends (ls : list item) : Prop :=
  match ls with
  | [] => True
  | [ISect _ _ _; ILine []] => False
  | _ :: ls => ends ls
  end.
(* a line that the parser can hold, with a value that is not blank *)
Definition fits (size : nat) (i : item) : Prop :=
  length (text i) + 1 < size /\ match i with IPair _ v _ => Exists printable v | _ => True end.
Definition quiet (p : parser) : Prop := nextkeychar (buf p) 0 = Ok None.

Lemma c_str_ok l t : cstring l t -> c_str l = t.
Proof. intros (r & -> & H). induction t as [|c t IH]; [reflexivity|]. inversion H; subst. cbn [app c_str]. destruct (Z.eqb_spec c 0); [contradiction|]. now rewrite IH. Qed.
Lemma eof_done p : eof p = true -> exists p', bssParseLine p = Ok (p', 0%Z).
Proof. intros E. unfold bssParseLine. rewrite Nat.add_succ_r. cbn [parse_loop eof]. rewrite E. eauto. Qed.
Lemma quiet_done p : 2 <= length (buf p) -> eof p = false -> file p = [] -> quiet p -> exists p', bssParseLine p = Ok (p', 0%Z).
Proof.
  intros L E F Q. unfold bssParseLine. rewrite F. cbn [length Nat.add]. cbn [parse_loop eof]. rewrite E. unfold fgets. cbn [file buf]. destruct (length (buf p) - 1) eqn:EL; [lia|]. cbn [getline bind orb eof]. unfold quiet in Q. cbn [buf]. rewrite Q. cbn [bind parse_loop eof]. rewrite ?E, ?orb_true_r. eauto.
Qed.
Lemma nextkey_cut : forall l i tc, nextkeychar l i = Ok (Some (false, tc)) -> i <= tc /\ tc - i < length l /\ forall l', length l' = length l -> (forall j, j < tc - i -> nth_error l' j = nth_error l j) -> nth_error l' (tc - i) = Some 0%Z -> nextkeychar l' i = Ok None.
Proof.
  induction l as [|c l IH]; intros i tc; cbn [nextkeychar]; [discriminate|]. destruct (c =? 0)%Z eqn:E0; [discriminate|]. destruct (c =? semi)%Z eqn:E1; [discriminate|]. destruct (c =? equ)%Z eqn:E2.
  - intros H. injection H as <-. cbn [length]. split; [lia|]. split; [lia|]. intros [|c' l'] L _ Z; [discriminate|]. rewrite Nat.sub_diag in Z. cbn in Z. injection Z as ->. reflexivity.
  - destruct (c =? lbr)%Z eqn:E3; [discriminate|]. intros H. destruct (IH _ _ H) as (A & B & C). cbn [length]. split; [lia|]. split; [lia|]. intros [|c' l'] L S Z; [discriminate|]. pose proof (S 0 ltac:(lia)) as S0. cbn in S0. injection S0 as ->. cbn [nextkeychar]. rewrite E0, E1, E2, E3. apply C; [cbn in L; lia| |].
    + intros j Hj. apply (S (Datatypes.S j)). lia.
    + replace (tc - i) with (Datatypes.S (tc - Datatypes.S i)) in Z by lia. exact Z.
Qed.
Lemma validatevalue_ge : forall l i r, validatevalue l i = Ok r -> i <= r.
Proof. induction l as [|c l IH]; intros i r; cbn [validatevalue]; [discriminate|]. destruct (c =? 0)%Z; [intros H; injection H; lia|]. destruct (c =? semi)%Z; [intros H; injection H; lia|]. intros H. apply IH in H. lia. Qed.
Lemma set_facts {A} (l l' : list A) i v : set l i v = Ok l' -> length l' = length l /\ nth_error l' i = Some v /\ forall j, j <> i -> nth_error l' j = nth_error l j.
Proof. intros H. apply set_inv in H as [L ->]. split; [apply upd_length|]. split; [now apply nth_error_upd_eq|]. intros j Hj. apply nth_error_upd_neq; congruence. Qed.
Lemma pair_quiet : forall n p p', parse_loop n p = Ok (p', 1%Z) -> quiet p'.
Proof.
  induction n as [|n IH]; intros p p'; cbn [parse_loop]; [discriminate|]. destruct (eof p); [discriminate|]. intros H. apply bind_ok in H as (p1 & _ & H). apply bind_ok in H as (k & Ek & H). destruct k as [[[|] tc]|]; [| |eapply IH, H].
  - apply bind_ok in H as (sec & _ & H). destruct sec as [sec|]; [|eapply IH, H]. destruct (sec =? S tc); [eapply IH, H|]. apply bind_ok in H as (b & _ & H). apply bind_ok in H as (p2 & _ & H). discriminate.
  - destruct (validatekey (buf p1) tc); [|eapply IH, H]. apply bind_ok in H as (sec & Ev & H). apply bind_ok in H as (b & Eb & H). apply bind_ok in H as (p2 & E2 & H). injection H as ->. unfold new_pair in E2. apply bind_ok in E2 as (b2 & Eb2 & E2). apply bind_ok in E2 as (k2 & _ & E2). apply bind_ok in E2 as (v2 & _ & E2). injection E2 as <-. unfold quiet. cbn [buf with_buf] in *.
    destruct (nextkey_cut _ _ _ Ek) as (_ & Lt & C). apply validatevalue_ge in Ev. destruct (set_facts _ _ _ _ Eb) as (L1 & _ & O1). destruct (set_facts _ _ _ _ Eb2) as (L2 & Z2 & O2). rewrite Nat.sub_0_r in C. apply C; [congruence| |exact Z2]. intros j Hj. rewrite O2, O1 by lia. reflexivity.
Qed.
Lemma line_file p line tl rest e : ready p -> ~ In nl line -> (exists a b, line = a ++ b /\ before_ok a /\ (b = [] \/ exists c, b = semi :: c)) -> tl = nl :: rest \/ line <> [] -> tail tl rest e -> file p = line ++ tl -> length line + 1 < length (buf p) ->
  exists p', bssParseLine p = bssParseLine p' /\ quiet p' /\ length (buf p') = length (buf p) /\ file p' = rest /\ eof p' = e /\ curkey p' = curkey p /\ curvalue p' = curvalue p /\ cursection p' = cursection p.
Proof.
  intros (EF & BL & _) NL (a & b & EL & HA & HB) NEM T F L.
  assert (G : exists t j, fgets (mkp (file p) (eof p) (curvalue p) (curkey p) (cursection p) false (buf p)) = Ok (step_file (mkp (file p) (eof p) (curvalue p) (curkey p) (cursection p) false (buf p)) rest e (line ++ t ++ 0%Z :: j)) /\ (t = [] \/ t = [nl]) /\ length (line ++ t ++ 0%Z :: j) = length (buf p)).
  { destruct line as [|c line]; [|apply (fgets_ok (mkp (file p) (eof p) (curvalue p) (curkey p) (cursection p) false (buf p)) (c :: line) tl rest e EF); auto; discriminate]. destruct NEM as [->|NEM]; [|congruence]. exists [nl], (skipn 2 (buf p)). split; [|split; [auto|cbn [app length]; rewrite skipn_length; lia]]. inversion T; subst. unfold fgets. cbn [file buf eof]. rewrite F, EF. destruct (length (buf p) - 1)%nat eqn:E; [lia|]. cbn [getline app]. rewrite Z.eqb_refl. rewrite memcpy_ok by (cbn [app length]; lia). reflexivity. }
  destruct G as (t & j & G & Ht & LB). exists (step_file p rest e (line ++ t ++ 0%Z :: j)).
  assert (K : nextkeychar (line ++ t ++ 0%Z :: j) 0 = Ok None). { rewrite EL, <- app_assoc. rewrite (nextkeychar_key a) by (revert HA; apply Forall_impl; intros c; tauto). destruct HB as [->|(c & ->)]; [destruct Ht as [->| ->]; reflexivity|reflexivity]. }
  split; [|unfold quiet; cbn; auto 8].
  unfold bssParseLine at 1. rewrite Nat.add_succ_r. cbn [parse_loop eof]. rewrite EF. rewrite EF in G. rewrite G. cbn [bind step_file buf]. rewrite K. cbn [bind]. unfold bssParseLine. cbn [file step_file eof curvalue curkey cursection newsection buf].
  assert (LR : length rest <= length (file p)) by (rewrite F, app_length; inversion T; subst; cbn [length]; lia).
  assert (LR2 : e = false -> length rest < length (file p)) by (rewrite F, app_length; inversion T; subst; cbn [length]; [lia|discriminate]).
  apply (parse_fuel (length rest + 2)); cbn [buf todo eof file]; [rewrite LB; lia|unfold todo; cbn [eof file]; destruct e; lia|]. destruct e; [|specialize (LR2 eq_refl); lia].
  rewrite F. destruct line as [|l0 line0]; [destruct NEM as [K'|K']; [rewrite K' in T; inversion T|congruence]|]. cbn [length app]. rewrite app_length. inversion T; subst. cbn [length]. lia.
Qed.

Lemma change_last {A} (d1 : list (list Z * A)) n x d2 f : change_nth (d1 ++ (n, x) :: d2) n (many d1 n) f = d1 ++ (n, f x) :: d2.
Proof.
  induction d1 as [|[m y] d1 IH]; cbn [app change_nth fst snd]; [now rewrite same_refl|]. unfold many in *. rewrite those_cons. destruct (same m n); cbn [length]; now rewrite IH.
Qed.
Lemma nth_of_last {A} (d1 : list (list Z * A)) n x d2 : nth_of (d1 ++ (n, x) :: d2) n (many d1 n) = Some x.
Proof. unfold nth_of. rewrite nth_error_map, (those_nth d1 d2 n x n) by apply same_refl. reflexivity. Qed.
(* one more pair in the section that is read *)
Lemma pair_added c d1 n ps a k v : mem c (d1 ++ [(n, ps)]) -> node c n (many d1 n) = Some a -> exists sec sec', val c a = Some sec /\ addEntry sec k v = Ok sec' /\ mem (set_value c a sec') (d1 ++ [(n, ps ++ [(k, v)])]) /\ node (set_value c a sec') n (many d1 n) = Some a.
Proof.
  intros M E. destruct (node_at c _ n (many d1 n) ps M (nth_of_last d1 n ps [])) as (a' & sec & n' & E' & Ev & (S1 & S2 & S3)). rewrite E in E'. injection E' as <-.
  destruct (entries_add (entries sec) ps k v S3) as (c' & Ec & Me). exists sec. unfold addEntry. rewrite Ec. cbn [bind]. eexists. split; [exact Ev|]. split; [reflexivity|]. split; [|exact E].
  rewrite <- (change_last d1 n ps [] (fun _ => ps ++ [(k, v)])). eapply mem_change; eauto; [apply nth_of_last|]. intros s0 E0. rewrite Ev in E0. injection E0 as <-. auto.
Qed.

(* what is in memory while the lines are read, and what it is after the lines that are left *)
Inductive part (c : chain section) : option nat -> (list (list Z * list Z) -> list (list Z * list (list Z * list Z)) -> doc) -> Prop :=
| p_none : mem c [] -> part c None (fun ps d => match ps with [] => d | _ => ([], ps) :: d end)
| p_some d1 n ps a : mem c (d1 ++ [(n, ps)]) -> node c n (many d1 n) = Some a -> part c (Some a) (fun ps2 d2 => d1 ++ (n, ps ++ ps2) :: d2).
Lemma part_mem c cur f : part c cur f -> mem c (f [] []).
Proof. intros [M|d1 n ps a M _]; [exact M|]. now rewrite app_nil_r. Qed.
Lemma part_pair c cur f k v : part c cur f -> exists c1 a sec sec', (match cur with Some a => Ok (c, a) | None => add c [] (fun i => Sec [] i empty) end) = Ok (c1, a) /\ val c1 a = Some sec /\ addEntry sec k v = Ok sec' /\
  exists g, part (set_value c1 a sec') (Some a) g /\ forall ps d, g ps d = f ((k, v) :: ps) d.
Proof.
  intros [M|d1 n ps a M E].
  - destruct (mem_add c [] [] M) as (c1 & Ea & M1 & N1 & _). destruct (pair_added c1 [] [] [] (fresh c) k v M1 N1) as (sec & sec' & E1 & E2 & E3 & E4). exists c1, (fresh c), sec, sec'. split; auto. split; auto. split; auto. eexists. split; [apply (p_some _ [] [] _ _ E3 E4)|]. reflexivity.
  - destruct (pair_added c d1 n ps a k v M E) as (sec & sec' & E1 & E2 & E3 & E4). exists c, a, sec, sec'. split; auto. split; auto. split; auto. eexists. split; [apply (p_some _ d1 n _ _ E3 E4)|]. intros ps2 d. cbn beta. now rewrite <- app_assoc.
Qed.
Lemma part_sect c cur f n : part c cur f -> exists c1, add c n (fun i => Sec n i empty) = Ok (c1, fresh c) /\ exists g, part c1 (Some (fresh c)) g /\ forall ps d, g ps d = f [] ((n, ps) :: d).
Proof.
  intros P. pose proof (part_mem c cur f P) as M. destruct (mem_add c _ n M) as (c1 & Ea & M1 & N1 & _). exists c1. split; auto. eexists. split; [apply (p_some _ _ n _ _ M1 N1)|]. intros ps d. cbn [app]. destruct P as [_|d1 m qs a _ _]; [reflexivity|]. rewrite !app_nil_r. rewrite <- app_assoc. reflexivity.
Qed.
Lemma load_line fuel p p' c cur : bssParseLine p = bssParseLine p' -> load_loop fuel p c cur = load_loop fuel p' c cur.
Proof. intros E. destruct fuel; [reflexivity|]. cbn [load_loop]. now rewrite E. Qed.
Lemma load_end fuel p p' c cur : 0 < fuel -> bssParseLine p = Ok (p', 0%Z) -> load_loop fuel p c cur = Ok c.
Proof. intros L E. destruct fuel; [lia|]. cbn [load_loop]. rewrite E. reflexivity. Qed.
Lemma texts_len i ls : ls <> [] -> length (texts (i :: ls)) = length (text i) + 1 + length (texts ls).
Proof. intros H. rewrite texts_cons by auto. rewrite !app_length. cbn. lia. Qed.

Lemma load_ok : forall ls fuel p c cur f, Forall line_ok ls -> Forall (fits (length (buf p))) ls -> ls <> [] -> ends ls -> ready p -> (ls = [ILine []] -> quiet p) -> file p = texts ls -> length (texts ls) + 1 < fuel -> part c cur f ->
  exists c', load_loop fuel p c cur = Ok c' /\ mem c' (f (fst (doc_of ls)) (snd (doc_of ls))).
Proof.
  induction ls as [|i ls IH]; intros fuel p c cur f OK FI NE EN R Q F LF P; [congruence|]. inversion OK as [|? ? Oi OK']; subst. inversion FI as [|? ? Fi FI']; subst.
  assert (T : exists tl rest e, file p = text i ++ tl /\ tail tl rest e /\ (e = true -> ls = [] /\ tl = []) /\ (e = false -> ls <> [] /\ rest = texts ls /\ tl = nl :: rest)).
  { destruct ls as [|i2 ls]; [exists [], [], true|exists (nl :: texts (i2 :: ls)), (texts (i2 :: ls)), false].
    - split; [rewrite F; unfold texts; cbn [map join]; now rewrite app_nil_r|]. split; [constructor|]. split; [auto|discriminate].
    - split; [rewrite F, texts_cons by discriminate; now rewrite <- app_assoc|]. split; [constructor|]. split; [discriminate|]. intros _. split; [discriminate|auto]. }
  destruct T as (tl & rest & e & Fp & T & T1 & T2).
  assert (EN' : ls <> [] -> ends ls). { intros H. destruct ls as [|i2 ls]; [congruence|]. destruct i; cbn [ends] in EN; try exact EN. destruct i2 as [[|]| |]; try exact EN. destruct ls; [contradiction|exact EN]. }
  (* what is left after the line *)
  assert (Next : forall p' c' cur' g fuel', fuel' + 1 >= fuel -> length (buf p') = length (buf p) -> (exists k, cstring (curkey p') k) -> (exists k, cstring (curvalue p') k) -> (exists k, cstring (cursection p') k) -> file p' = rest -> eof p' = e -> (quiet p' \/ ls <> [ILine []]) -> part c' cur' g ->
     exists c'', load_loop fuel' p' c' cur' = Ok c'' /\ mem c'' (g (fst (doc_of ls)) (snd (doc_of ls)))).
  { intros p' c' cur' g fuel' Hf Lb H1 H2 H3 Hfile He Hq Hp. destruct e.
    - destruct (T1 eq_refl) as [-> _]. destruct (eof_done p' He) as (p2 & E2). exists c'. split; [apply (load_end _ _ p2); auto; lia|]. cbn. eapply part_mem, Hp.
    - destruct (T2 eq_refl) as (N & Er & _). apply IH; auto; try (rewrite Lb; auto).
      + split; auto. split; [rewrite Lb; apply R|auto].
      + intros E. destruct Hq; [auto|congruence].
      + congruence.
      + rewrite texts_len in LF by auto. lia. }
  destruct R as (RE & RB & RK & RV & RS). assert (R : ready p) by (split; auto).
  destruct i as [l|k v cm|a n j]; cbn [text] in *.
  - destruct Oi as (_ & NL & SH). cbn [text] in NL. destruct Fi as [FL _]. cbn [text] in FL.
    destruct l as [|l0 l].
    + destruct e.
      * destruct (T1 eq_refl) as [-> ->]. destruct (quiet_done p RB RE) as (p2 & E2); [exact Fp|auto|]. exists c. split; [apply (load_end _ _ p2); auto; lia|]. cbn. eapply part_mem, P.
      * destruct (T2 eq_refl) as (N & Er & Etl). destruct (line_file p [] tl rest false R NL SH) as (p' & E & Q' & L' & F' & E' & K1 & K2 & K3); auto. rewrite (load_line _ _ p') by auto. apply (Next p' c cur f); auto; try lia; rewrite ?K1, ?K2, ?K3; auto.
    + destruct (line_file p (l0 :: l) tl rest e R NL SH) as (p' & E & Q' & L' & F' & E' & K1 & K2 & K3); auto; [right; discriminate|]. rewrite (load_line _ _ p') by auto. apply (Next p' c cur f); auto; try lia; rewrite ?K1, ?K2, ?K3; auto.
  - destruct Oi as (_ & _ & HK & HV & HC). destruct Fi as [FL FV]. destruct fuel as [|fuel]; [lia|].
    destruct (C60_pair_partial p k v cm tl rest e (trim k) (trim v) R HK HV HC T) as (p' & E & C1 & C2 & C3 & C4 & C5 & C6 & C7); auto; [rewrite Fp, <- !app_assoc; cbn [app]; now rewrite <- app_assoc|apply trim_spec|apply trim_spec|left; eapply trimmed_ne; [apply trim_spec|exact FV]|].
    cbn [load_loop]. rewrite E. cbn [bind]. change (1 =? 0)%Z with false. cbn iota. rewrite C4. rewrite (c_str_ok _ _ C1), (c_str_ok _ _ C2).
    destruct (part_pair c cur f (trim k) (trim v) P) as (c1 & a & sec & sec' & E1 & E2 & E3 & g & Pg & Eg). rewrite E1. cbn [bind]. rewrite E2, E3. cbn [bind].
    destruct (Next p' _ _ g fuel ltac:(lia) C7 ltac:(eauto) ltac:(eauto) ltac:(rewrite C3; auto) C5 C6 ltac:(left; eapply pair_quiet, E) Pg) as (c' & Ec & Mc). exists c'. split; [exact Ec|]. cbn [doc_of fst snd]. rewrite <- Eg. exact Mc.
  - destruct Oi as (_ & NLs & HP & HN). destruct Fi as [FL _]. cbn [text] in NLs. destruct fuel as [|fuel]; [lia|].
    assert (HJ : ~ In nl j) by (intros K; apply NLs; apply in_or_app; right; right; apply in_or_app; right; now right).
    destruct (C60_section_partial p a n j tl rest e (trim n) R HP HN HJ T) as (p' & E & C1 & C2 & C3 & C4 & C5 & C6 & C7); auto; [rewrite Fp, <- !app_assoc; cbn [app]; rewrite <- app_assoc; reflexivity|apply trim_spec|].
    cbn [load_loop]. rewrite E. cbn [bind]. change (-1 =? 0)%Z with false. cbn iota. rewrite C2. rewrite (c_str_ok _ _ C1).
    destruct (part_sect c cur f (trim n) P) as (c1 & E1 & g & Pg & Eg). rewrite E1. cbn [bind].
    destruct (Next p' c1 (Some (fresh c)) g fuel ltac:(lia) C7 ltac:(rewrite C3; auto) ltac:(rewrite C4; auto) ltac:(eauto) C5 C6) as (c' & Ec & Mc); [right; intros ->; exact EN|exact Pg|]. exists c'. split; [exact Ec|]. cbn [doc_of fst snd]. rewrite <- Eg. exact Mc.
Qed.
