(* Properties C118 to C120: INIstorage: what is in memory, the text of the file, and the meaning of the edits agree. *)
From Coq Require Import List Arith ZArith Bool Lia ZifyBool ZifyNat.
From Verif Require Import Common Dll LLBase LLBaseProps INIParser INIParserProps INIChain INIChainProofs INIStorage INIDoc INITextProofs INITextProofs2 INITextProofs3 INITextProofs4 INIStorageProofs INILoadProofs.
Import ListNotations.
Local Open Scope nat_scope.

(** The edits as calls (INIstorage.cpp 113-134, 165-203, 205-285) *)
Definition step (s : store) (o : op) : res (store * Z) :=
  match o with
  | Add n => do (s, _) <- AddSection s n; Ok (s, 0%Z)
  | Remove n i => do (s, b) <- RemoveSection s n i; Ok (s, if b then 1%Z else 0%Z)
  | Edit n k v ki si => EditEntry s n k v ki si
  end.
Fixpoint run (s : store) (os : list op) : res (store * list Z) :=
  match os with
  | [] => Ok (s, [])
  | o :: os => do (s, code) <- step s o; do (s, codes) <- run s os; Ok (s, code :: codes)
  end.
(* what the calls tell is the document *)
Definition shows (s : store) (d : doc) : Prop :=
  (forall n, GetNumSections s n = many d n) /\
  (forall n i, match nth_of d n i, GetSection s n i with
               | None, None => True
               | Some ps, Some sec => same (sname sec) n = true /\ index sec = i /\ forall k, GetNumEntries sec k = many ps k
               | _, _ => False
               end) /\
  (forall n i k j, match GetEntryPtr s n k j i with
                   | None => match nth_of d n i with None => True | Some ps => nth_of ps k j = None end
                   | Some e => same (key e) k = true /\ exists ps, nth_of d n i = Some ps /\ nth_of ps k j = Some (svalue e)
                   end).
Definition agree (s : store) (d : doc) : Prop := says (ini s) d /\ mem (sections s) d.

Lemma mem_count c d n : mem c d -> count c n = many d n.
Proof. intros (gs & H & M). rewrite (count_ok c gs) by auto. pose proof (secs_len _ _ _ (M n)) as L. rewrite map_length in L. exact L. Qed.
Lemma mem_hfind c d n : mem c d -> match hfind (hash c) n with
  | None => many d n = 0
  | Some r => S (length (inst c r)) = many d n /\ forall i, i <= length (inst c r) -> node c n i = Some (if 0 <? i then nth (i - 1) (inst c r) 0 else r)
  end.
Proof.
  intros H. pose proof (mem_count c d n H) as C. unfold count in C. destruct (hfind (hash c) n) as [r|] eqn:E; [|auto]. split; [lia|]. intros i Hi. unfold node. rewrite E. destruct i as [|i]; [reflexivity|]. cbn [Nat.eqb Nat.ltb Nat.leb Nat.sub]. rewrite Nat.sub_0_r. apply nth_error_nth'. lia.
Qed.
Lemma entries_count c ps k : mem_entries c ps -> count c k = many ps k.
Proof. intros (es & H & M). rewrite (count_ok c es) by auto. pose proof (f_equal (@length _) (M k)) as L. rewrite !map_length in L. exact L. Qed.
Lemma entries_hfind c ps k : mem_entries c ps -> match hfind (hash c) k with
  | None => many ps k = 0
  | Some r => S (length (inst c r)) = many ps k /\ forall i, i <= length (inst c r) -> node c k i = Some (if i =? 0 then r else nth (i - 1) (inst c r) 0)
  end.
Proof.
  intros H. pose proof (entries_count c ps k H) as C. unfold count in C. destruct (hfind (hash c) k) as [r|] eqn:E; [|auto]. split; [lia|]. intros i Hi. unfold node. rewrite E. destruct i as [|i]; [reflexivity|]. cbn [Nat.eqb Nat.sub]. rewrite Nat.sub_0_r. apply nth_error_nth'. lia.
Qed.

(* a document within the names allowed *)
Lemma hits_many N (d : doc) n : prefix_free N -> N n -> Forall (fun s => N (fst s)) d -> hits (map fst d) n = many d n.
Proof.
  intros P Hn F. unfold hits, many, those. induction d as [|[m ps] d IH]; auto. inversion F as [|? ? Hm F']; subst. cbn [map filter fst]. rewrite (clash_free N m n) by auto. destruct (same m n); cbn [length]; now rewrite IH.
Qed.
Lemma hits_many2 K (d : list (list Z * list Z)) n : prefix_free K -> K n -> Forall (fun s => K (fst s)) d -> hits (map fst d) n = many d n.
Proof.
  intros P Hn F. unfold hits, many, those. induction d as [|[m ps] d IH]; auto. inversion F as [|? ? Hm F']; subst. cbn [map filter fst]. rewrite (clash_free K m n) by auto. destruct (same m n); cbn [length]; now rewrite IH.
Qed.
Lemma within_names N K d : within N K d -> Forall (fun s => N (fst s)) d.
Proof. apply Forall_impl. tauto. Qed.

Section Sim.
Variable N K : list Z -> Prop.
Hypothesis NO : names_ok N.
Hypothesis KO : keys_ok K.

Lemma add_sim s d n : agree s d -> N n -> exists s', AddSection s n = Ok (s', fresh (sections s)) /\ agree s' (d ++ [(n, [])]) /\ node (sections s') n (many d n) = Some (fresh (sections s)) /\
  exists sec, val (sections s') (fresh (sections s)) = Some sec /\ index sec = many d n.
Proof.
  intros ((ls & Et & OK & NE & D) & M) Hn. destruct NO as [_ NO']. destruct (NO' n Hn) as [Hok Htr].
  destruct (added ls n OK NE Hok Htr) as (ls' & E & OK' & NE' & D'). unfold AddSection. unfold add_text in E. rewrite <- Et in E. destruct (stripped (ini s) (length (ini s))) as [i| |]; try discriminate. cbn [bind] in E |- *. injection E as E.
  destruct (mem_add (sections s) d n M) as (c' & Ea & M' & Q). rewrite Ea. cbn [bind]. eexists. split; [reflexivity|]. split; [|exact Q]. split; [|exact M']. exists ls'. cbn [ini]. rewrite D in D'. cbn [fst snd] in D'. auto.
Qed.
Lemma remove_sim s d n i : agree s d -> within N K d -> N n -> exists s', RemoveSection s n i = Ok (s', i <? many d n) /\ agree s' (if i <? many d n then remove_nth d n i else d).
Proof.
  intros ((ls & Et & OK & NE & D) & M) W Hn. destruct NO as [PF _]. unfold RemoveSection. rewrite Et. pose proof (mem_hfind (sections s) d n M) as HF.
  assert (AG : agree s d) by (split; auto; exists ls; auto). assert (H0 : forall L, heads L = map fst (snd (doc_of L))) by reflexivity.
  destruct (Nat.ltb_spec i (many d n)) as [L|L].
  - destruct (nth_of d n i) as [ps|] eqn:En; [|apply nth_of_none in En; lia]. destruct (nth_of_split d n i ps En) as (d1 & n' & d2 & Ed & S & C & R & _).
    destruct (split_section ls d1 n' ps d2) as (L1 & a & nm & j & b & L2 & -> & D1 & Tn & NS & Pb & AS & D2); [rewrite D; exact Ed|].
    assert (Hi : hits (heads L1) n = i). { rewrite H0, D1, (hits_many N) by (auto; apply within_names in W; rewrite Ed in W; apply Forall_app in W; tauto). exact C. }
    assert (Hc : clash (trim nm) n = true). { rewrite Tn. apply clash_same. destruct (same_spec n' n); [auto|discriminate]. }
    pose proof (found_section L1 a nm j b L2 n OK NS AS Hc) as FS. rewrite Hi in FS. rewrite FS. cbn [bind].
    destruct (hfind (hash (sections s)) n) as [r|]; [|lia]. destruct (mem_remove (sections s) d n i M L) as (c' & Er & M'). rewrite Er. cbn [bind].
    destruct (removed L1 a nm j b L2 OK NS AS) as (ls' & Ee & OK' & NE' & D'). cbn zeta in Ee. rewrite Ee. cbn [bind]. eexists. split; [reflexivity|]. split; [|exact M']. exists ls'. cbn [ini]. split; auto. split; auto. split; auto.
    rewrite D', R. pose proof (doc_section L1 a nm j b L2 NS AS) as DS. rewrite D in DS. injection DS as DS1 DS2. now rewrite D1, D2, <- DS1.
  - rewrite found_none; auto.
    2:{ rewrite H0, (hits_many N) by (auto; rewrite D; apply within_names in W; exact W). rewrite D. exact L. }
    cbn [bind]. exists s. split; auto. destruct (hfind (hash (sections s)) n); reflexivity.
Qed.

Lemma edit_sim s d n k v ki i : agree s d -> within N K d -> N n -> K k -> match v with None => True | Some v => value_ok v /\ trim v = v end ->
  exists s' d' code, EditEntry s n k v ki (Some i) = Ok (s', code) /\ spec_step d (Edit n k v ki (Some i)) = (d', code) /\ agree s' d'.
Proof.
  intros ((ls & Et & OK & NE & D) & M) W Hn Hk Hv. destruct NO as [PF _]. destruct KO as [PK KO']. destruct (KO' k Hk) as [Kok Ktr]. assert (AG : agree s d) by (split; auto; exists ls; auto).
  unfold EditEntry. cbn [bind]. cbn [spec_step]. pose proof (mem_hfind (sections s) d n M) as HF. destruct (hfind (hash (sections s)) n) as [r|] eqn:EF.
  2:{ assert (E0 : nth_of d n i = None) by (apply nth_of_none; lia). rewrite E0, HF. do 3 eexists. split; [reflexivity|]. split; [reflexivity|exact AG]. }
  destruct HF as [HC HN]. destruct (Nat.ltb_spec (length (inst (sections s) r)) i) as [L|L].
  { assert (E0 : nth_of d n i = None) by (apply nth_of_none; lia). rewrite E0. replace (many d n =? 0) with false by lia. do 3 eexists. split; [reflexivity|]. split; [reflexivity|exact AG]. }
  specialize (HN i L). set (a := if 0 <? i then nth (i - 1) (inst (sections s) r) 0 else r) in *.
  destruct (nth_of d n i) as [ps|] eqn:En; [|apply nth_of_none in En; lia]. destruct (nth_of_split d n i ps En) as (d1 & n' & d2 & Ed & S & C & _ & Fch).
  destruct (node_at (sections s) d n i ps M En) as (a' & psec & n0 & Ea & Ev & MS). rewrite HN in Ea. injection Ea as <-. rewrite Ev. destruct MS as (Sn & Si & Me).
  destruct (split_section ls d1 n' ps d2) as (L1 & pa & nm & j & b & L2 & -> & D1 & Tn & NS & Pb & AS & D2); [rewrite D; exact Ed|].
  assert (Hi : hits (heads L1) n = i). { unfold heads. rewrite D1, (hits_many N) by (auto; apply within_names in W; rewrite Ed in W; apply Forall_app in W; tauto). exact C. }
  assert (Hc : clash (trim nm) n = true). { rewrite Tn. apply clash_same. destruct (same_spec n' n); [auto|discriminate]. }
  pose proof (found_section L1 pa nm j b L2 n OK NS AS Hc) as FS. rewrite Hi in FS. rewrite Et, FS. cbn [bind].
  assert (F1 : fst (doc_of L1) = []). { pose proof (doc_section L1 pa nm j b L2 NS AS) as DS. rewrite D in DS. now injection DS. }
  assert (Wps : Forall (fun p => K (fst p)) ps). { unfold within in W. rewrite Ed in W. apply Forall_app in W as [_ W]. inversion W; subst. cbn in *. tauto. }
  assert (Done : forall ls' ps', Forall line_ok ls' -> ls' <> [] -> doc_of ls' = (fst (doc_of L1), snd (doc_of L1) ++ (trim nm, ps') :: snd (doc_of L2)) -> forall sec', sname sec' = sname psec -> index sec' = index psec -> mem_entries (entries sec') ps' ->
    agree (Store (texts ls') (set_value (sections s) a sec')) (change_nth d n i (fun _ => ps'))).
  { intros ls' ps' OK' NE' D' sec' Q1 Q2 Q3. split.
    - exists ls'. cbn [ini]. split; auto. split; auto. split; auto. rewrite D', F1, D1, D2, Tn, Fch. reflexivity.
    - cbn [sections]. apply (mem_change (sections s) d n i a sec' ps ps'); auto. intros s0 E0. rewrite Ev in E0. injection E0 as <-. auto. }
  unfold edit_section. destruct ki as [ki|].
  2:{ (* an insertion *)
    set (vv := match v with Some v0 => v0 | None => [] end). assert (Hvv : value_ok vv /\ trim vv = vv) by (unfold vv; destruct v; [exact Hv|split; [constructor|reflexivity]]). destruct Hvv as [V1 V2].
    unfold addEntry. destruct (entries_add (entries psec) ps k vv Me) as (c' & Ec & Me'). rewrite Ec. cbn [bind].
    assert (OKp : line_ok (IPair k vv [])). { destruct Kok as [K1 K2]. split; [|split]; cbn [text]; rewrite ?app_nil_r.
      - apply Forall_app. split; [eapply Forall_impl; [|exact K1]; unfold ascii; cbn; lia|]. constructor; [discriminate|]. eapply Forall_impl; [|exact V1]. unfold ascii. cbn. lia.
      - intros Q. apply in_app_or in Q as [Q|[Q|Q]]; [rewrite Forall_forall in K1; apply K1 in Q; tauto|discriminate Q|]. unfold value_ok in V1. rewrite Forall_forall in V1. apply V1 in Q. tauto.
      - split; [split; auto|]. split; auto. now left. }
    destruct (inserted L1 pa nm j b L2 k vv OK OKp NS AS) as (ls' & Ei & OK' & NE' & D'). unfold insert_at, construct in Ei.
    do 3 eexists. split; [reflexivity|]. split; [reflexivity|].
    rewrite Ei. apply Done; auto. rewrite D', Pb, Ktr, V2. reflexivity. }
  pose proof (entries_hfind (entries psec) ps k Me) as HE. destruct (hfind (hash (entries psec)) k) as [er|].
  2:{ assert (E0 : nth_of ps k ki = None) by (apply nth_of_none; lia). rewrite E0, HE. do 3 eexists. split; [reflexivity|]. split; [reflexivity|]. rewrite Fch, <- Ed. exact AG. }
  destruct HE as [HEC HEN]. destruct (Nat.ltb_spec (length (inst (entries psec) er)) ki) as [L'|L'].
  { assert (E0 : nth_of ps k ki = None) by (apply nth_of_none; lia). rewrite E0. replace (many ps k =? 0) with false by lia. do 3 eexists. split; [reflexivity|]. split; [reflexivity|]. rewrite Fch, <- Ed. exact AG. }
  specialize (HEN ki L'). set (ea := if ki =? 0 then er else nth (ki - 1) (inst (entries psec) er) 0) in *.
  destruct (nth_of ps k ki) as [ov|] eqn:Eo; [|apply nth_of_none in Eo; lia]. destruct (nth_of_split ps k ki ov Eo) as (q1 & k' & q2 & Eq & Sk & Ck & Rq & Fq).
  destruct (split_pair b q1 k' ov q2 NS) as (b1 & kk & vv & c & b2 & -> & P1 & Tk & Tv & P2); [rewrite Pb; exact Eq|].
  assert (Hki : hits (map fst (fst (doc_of b1))) k = ki). { rewrite P1, (hits_many2 K) by (auto; rewrite Eq in Wps; apply Forall_app in Wps; tauto). exact Ck. }
  assert (Hck : clash (trim kk) k = true). { rewrite Tk. apply clash_same. destruct (same_spec k' k); [auto|discriminate]. }
  pose proof (found_entry L1 pa nm j b1 kk vv c b2 L2 k OK NS Hck) as FE. cbn zeta in FE. rewrite Hki in FE. rewrite FE. cbn [bind].
  destruct v as [nv|].
  - destruct Hv as [V1 V2]. destruct (entry_at (entries psec) ps k ki ov Me Eo) as (ea' & k2 & Een & Eev). rewrite HEN in Een. injection Een as <-. rewrite Eev. cbn [key ini sections].
    destruct (edited L1 pa nm j b1 kk vv c b2 L2 nv OK NS AS V1 V2) as (ls' & t' & Ee & -> & OK' & NE' & D'). cbn zeta in Ee. unfold edit_value in Ee.
    destruct (strchr (skipn (length (cl (L1 ++ ISect pa nm j :: b1)) + lead kk) (texts (L1 ++ ISect pa nm j :: (b1 ++ IPair kk vv c :: b2) ++ L2))) equ (length (cl (L1 ++ ISect pa nm j :: b1)) + lead kk)) as [q|]; [|discriminate].
    injection Ee as Ee. apply bind_ok in Ee as (r0 & Er & Ee). rewrite Er. cbn [bind]. change (r0 - q) with (Datatypes.S r0 - Datatypes.S q) in Ee. rewrite Ee. cbn [bind]. do 3 eexists. split; [reflexivity|]. split; [reflexivity|].
    apply Done; auto.
    + rewrite D', P1, P2, Fq, Tk. reflexivity.
    + cbn [entries]. apply (entries_change (entries psec) ps k ki ov nv ea); auto.
  - destruct (entries_remove (entries psec) ps k ki Me) as (c' & Er & Me'); [lia|]. rewrite Er. cbn [bind].
    destruct (deleted L1 pa nm j b1 kk vv c b2 L2 OK NS AS) as (ls' & Ee & OK' & NE' & D'). cbn zeta in Ee. unfold delete_from in Ee. rewrite Ee. cbn [bind].
    do 3 eexists. split; [reflexivity|]. split; [reflexivity|]. apply Done; auto. rewrite D', P1, P2, Rq. reflexivity.
Qed.
Lemma edit_new s d n k v ki : agree s d -> N n -> exists s', AddSection s n = Ok (s', fresh (sections s)) /\ agree s' (d ++ [(n, [])]) /\ EditEntry s n k v ki None = EditEntry s' n k v ki (Some (many d n)).
Proof.
  intros A Hn. destruct (add_sim s d n A Hn) as (s' & E & A' & _ & sec & Ev & Ei). exists s'. split; auto. split; auto. unfold EditEntry at 1. rewrite E. cbn [bind]. rewrite Ev. cbn [bind]. rewrite Ei. reflexivity.
Qed.
Lemma within_step d o : within N K d -> op_ok N K o -> within N K (fst (spec_step d o)).
Proof.
  intros W O. assert (Wa : forall n, N n -> within N K (d ++ [(n, [])])) by (intros n Hn; apply Forall_app; split; auto; constructor; [cbn; auto|constructor]).
  assert (Wc : forall d n i ps, within N K d -> Forall (fun p => K (fst p)) ps -> within N K (change_nth d n i (fun _ => ps))).
  { clear. intros d n. induction d as [|x d IH]; intros i ps W F; auto. inversion W as [|? ? [W1 W2] W3]; subst. cbn [change_nth]. destruct (same (fst x) n); [destruct i|]; constructor; cbn; auto; apply IH; auto. }
  assert (Wr : forall A (P : list Z * A -> Prop) d n i, Forall P d -> Forall P (remove_nth d n i)).
  { clear. intros A P d n. induction d as [|x d IH]; intros i W; auto. inversion W; subst. cbn [remove_nth]. destruct (same (fst x) n); [destruct i|]; auto. }
  assert (Wk : forall ps k i (v : list Z), Forall (fun p => K (fst p)) ps -> Forall (fun p => K (fst p)) (change_nth ps k i (fun _ => v))).
  { clear. intros ps k. induction ps as [|x d IH]; intros i v W; auto. inversion W; subst. cbn [change_nth]. destruct (same (fst x) k); [destruct i|]; constructor; cbn; auto. }
  assert (Wn : forall d n i ps, within N K d -> nth_of d n i = Some ps -> Forall (fun p => K (fst p)) ps).
  { clear. intros d n i ps W E. destruct (nth_of_split d n i ps E) as (d1 & n' & d2 & -> & _). unfold within in W. apply Forall_app in W as [_ W]. inversion W; subst. cbn in *. tauto. }
  destruct o as [n|n i|n k v ki si]; cbn [spec_step op_ok] in *.
  - apply Wa, O.
  - destruct (i <? many d n); [apply Wr, W|exact W].
  - destruct O as (On & Ok' & _). set (p := match si with Some i => (d, i) | None => (d ++ [(n, [])], many d n) end). assert (Wp : within N K (fst p)) by (destruct si; [exact W|apply Wa, On]). destruct p as [d0 i0]. cbn [fst] in Wp.
    destruct (nth_of d0 n i0) as [ps|] eqn:E; [|exact Wp]. pose proof (Wn d0 n i0 ps Wp E) as Wps. unfold edit_section. destruct ki as [ki|]; [|apply Wc; auto; apply Forall_app; split; auto]. destruct (nth_of ps k ki); [|apply Wc; auto]. destruct v; apply Wc; auto; apply (Wr _ (fun p => K (fst p))); auto.
Qed.
Lemma step_sim s d o : agree s d -> within N K d -> op_ok N K o -> exists s', step s o = Ok (s', snd (spec_step d o)) /\ agree s' (fst (spec_step d o)).
Proof.
  intros A W O. destruct o as [n|n i|n k v ki si]; cbn [op_ok] in O.
  - destruct (add_sim s d n A O) as (s' & E & A' & _). exists s'. cbn [step spec_step fst snd]. rewrite E. auto.
  - destruct (remove_sim s d n i A W O) as (s' & E & A'). exists s'. cbn [step spec_step]. rewrite E. cbn [bind]. destruct (i <? many d n); auto.
  - destruct O as (On & Ok' & Ov). destruct si as [i|].
    + destruct (edit_sim s d n k v ki i A W On Ok' Ov) as (s' & d' & code & E & E2 & A'). exists s'. rewrite E2. cbn [step fst snd]. auto.
    + destruct (edit_new s d n k v ki A On) as (s1 & _ & A1 & E1). assert (W1 : within N K (d ++ [(n, [])])) by (apply (within_step d (Add n)); auto).
      destruct (edit_sim s1 (d ++ [(n, [])]) n k v ki (many d n) A1 W1 On Ok' Ov) as (s' & d' & code & E & E2 & A'). exists s'. cbn [step]. rewrite E1, E.
      assert (E3 : spec_step d (Edit n k v ki None) = spec_step (d ++ [(n, [])]) (Edit n k v ki (Some (many d n)))) by reflexivity. rewrite E3, E2. auto.
Qed.
Lemma run_sim : forall os s d, agree s d -> within N K d -> Forall (op_ok N K) os -> exists s', run s os = Ok (s', snd (spec_run d os)) /\ agree s' (fst (spec_run d os)) /\ within N K (fst (spec_run d os)).
Proof.
  induction os as [|o os IH]; intros s d A W O; [exists s; auto|]. inversion O; subst. destruct (step_sim s d o A W) as (s1 & E & A1); auto. pose proof (within_step d o W) as W1. cbn [run spec_run]. rewrite E. cbn [bind]. destruct (spec_step d o) as [d1 c1]. cbn [fst snd] in *.
  destruct (IH s1 d1 A1) as (s' & E2 & A2 & W2); auto. exists s'. rewrite E2. cbn [bind]. destruct (spec_run d1 os) as [d2 c2]. auto.
Qed.
End Sim.

Lemma mem_shows s d : mem (sections s) d -> shows s d.
Proof.
  intros M. split; [|split].
  - intros n. apply mem_count, M.
  - intros n i. unfold GetSection, value. destruct (nth_of d n i) as [ps|] eqn:E.
    + destruct (node_at (sections s) d n i ps M E) as (a & sec & n' & En & Ev & (S1 & S2 & Me)). rewrite En, Ev.
      destruct M as (gs & H & M). destruct (nth_of_split d n i ps E) as (d1 & m & d2 & Ed & S & C & _). pose proof (M n) as Mn.
      assert (K : nth_error (map snd (grp gs n)) i = Some sec). { rewrite <- (at_value (sections s) gs) by auto. unfold value. now rewrite En. }
      pose proof (secs_nth 0 _ _ i sec (m, ps) Mn K) as Q. destruct Q as (Q1 & Q2 & Q3); [rewrite Ed, <- C; now apply those_nth|]. cbn [fst] in Q1. split; [rewrite Q1; exact S|]. split; auto. intros k. unfold GetNumEntries. apply entries_count, Q3.
    + destruct M as (gs & H & M). rewrite (node_ok (sections s) gs) by auto. assert (L : length (grp gs n) <= i). { pose proof (secs_len _ _ _ (M n)) as L. rewrite map_length in L. apply nth_of_none in E. unfold many in E. lia. } replace (nth_error (map fst (grp gs n)) i) with (@None nat); [exact I|]. symmetry. apply nth_error_None. now rewrite map_length.
  - intros n i k j. unfold GetEntryPtr, GetSection, value. destruct (nth_of d n i) as [ps|] eqn:E.
    + destruct (node_at (sections s) d n i ps M E) as (a & sec & n' & En & Ev & (S1 & S2 & Me)). rewrite En, Ev. destruct (nth_of ps k j) as [v|] eqn:Ek.
      * destruct (entry_at (entries sec) ps k j v Me Ek) as (b & k' & Eb & Evb). rewrite Eb, Evb. cbn [key svalue]. split; [|eauto].
        destruct Me as (es & H & Me). destruct (nth_of_split ps k j v Ek) as (q1 & m & q2 & Eq & S & C & _). pose proof (f_equal (fun l => nth_error l j) (Me k)) as Q. cbn beta in Q. rewrite !nth_error_map in Q. rewrite Eq, <- C, those_nth in Q by auto. rewrite (node_ok (entries sec) es) in Eb by auto. rewrite <- C, nth_error_map in Eb.
        destruct (nth_error (grp es k) (many q1 k)) as [[b' e]|] eqn:Eg; [|discriminate]. cbn in Eb, Q. injection Eb as ->. injection Q as ->. destruct H as (_ & _ & _ & _ & _ & _ & VV & _). rewrite (VV b (ent (m, v))) in Evb by (eapply grp_in, nth_error_In, Eg). injection Evb as <-. exact S.
      * destruct Me as (es & H & Me). rewrite (node_ok (entries sec) es) by auto. assert (L : length (grp es k) <= j). { pose proof (f_equal (@length _) (Me k)) as L. rewrite !map_length in L. apply nth_of_none in Ek. unfold many in Ek. lia. } replace (nth_error (map fst (grp es k)) j) with (@None nat); [reflexivity|]. symmetry. apply nth_error_None. now rewrite map_length.
    + destruct M as (gs & H & M). rewrite (node_ok (sections s) gs) by auto. assert (L : length (grp gs n) <= i). { pose proof (secs_len _ _ _ (M n)) as L. rewrite map_length in L. apply nth_of_none in E. unfold many in E. lia. } replace (nth_error (map fst (grp gs n)) i) with (@None nat); [exact I|]. symmetry. apply nth_error_None. now rewrite map_length.
Qed.

(* ------------------------------------------------------------ C118 ------------------------------------------------------------ *)
(* The nodes with instances as a container: over any history the i-th node of a name, the number of them and the values are those of the
   list of named values, and the linked list has the nodes of a name beside each other. *)
Inductive cop {V : Type} := CAdd (n : list Z) (v : V) | CRemove (n : list Z) (i : nat) | CSet (n : list Z) (i : nat) (v : V).
Arguments cop : clear implicits.
Definition cstep {V} (c : chain V) (o : cop V) : res (chain V * bool) :=
  match o with
  | CAdd n v => do (c, _) <- add c n (fun _ => v); Ok (c, true)
  | CRemove n i => do r <- remove c n i (fun x => x) (fun x => x); Ok (match r with Some c => (c, true) | None => (c, false) end)
  | CSet n i v => Ok (match node c n i with Some a => (set_value c a v, true) | None => (c, false) end)
  end.
Fixpoint crun {V} (c : chain V) (os : list (cop V)) : res (chain V * list bool) :=
  match os with [] => Ok (c, []) | o :: os => do (c, b) <- cstep c o; do (c, bs) <- crun c os; Ok (c, b :: bs) end.
Definition cspec {V} (d : list (list Z * V)) (o : cop V) : list (list Z * V) * bool :=
  match o with
  | CAdd n v => (d ++ [(n, v)], true)
  | CRemove n i => (remove_nth d n i, i <? many d n)
  | CSet n i v => (change_nth d n i (fun _ => v), i <? many d n)
  end.
Fixpoint cspecs {V} (d : list (list Z * V)) (os : list (cop V)) : list (list Z * V) * list bool :=
  match os with [] => (d, []) | o :: os => let '(d, b) := cspec d o in let '(d, bs) := cspecs d os in (d, b :: bs) end.
Definition holds {V} (c : chain V) (d : list (list Z * V)) : Prop := exists gs, chain_ok c gs /\ forall n, map snd (grp gs n) = map snd (those d n).

Section C118.
Context {V : Type}.
Implicit Types (c : chain V) (d : list (list Z * V)).
Lemma holds_len c gs d n : chain_ok c gs -> (forall n, map snd (grp gs n) = map snd (those d n)) -> length (grp gs n) = many d n.
Proof. intros _ M. pose proof (f_equal (@length _) (M n)) as L. now rewrite !map_length in L. Qed.
Lemma remove_none d n i : many d n <= i -> remove_nth d n i = d.
Proof. revert i. unfold many. induction d as [|[m x] d IH]; intros i L; [reflexivity|]. rewrite those_cons in L. cbn [remove_nth fst]. destruct (same m n); [|now rewrite IH]. cbn [length] in L. destruct i as [|i]; [lia|]. rewrite IH by lia. reflexivity. Qed.
Lemma change_none d n i f : many d n <= i -> change_nth d n i f = d.
Proof. revert i. unfold many. induction d as [|[m x] d IH]; intros i L; [reflexivity|]. rewrite those_cons in L. cbn [change_nth fst]. destruct (same m n); [|now rewrite IH]. cbn [length] in L. destruct i as [|i]; [lia|]. rewrite IH by lia. reflexivity. Qed.
Lemma drop_id (l : list V) i : i < length l -> drop (fun x => x) (fun x => x) i l = firstn i l ++ skipn (S i) l.
Proof. intros H. destruct i as [|i]; [destruct l as [|x [|y l]]; cbn [drop tl firstn skipn app]; now rewrite ?map_id|cbn [drop]; now rewrite map_id]. Qed.
Lemma grp_same (gs : groups) n n' : same n n' = true -> grp (V := V) gs n' = grp gs n.
Proof. intros H. unfold grp. f_equal. apply filter_ext. intros g. rewrite (same_sym (fst g) n), (same_sym (fst g) n'). symmetry. now apply same_trans. Qed.
Lemma cstep_ok c d o : holds c d -> exists c', cstep c o = Ok (c', snd (cspec d o)) /\ holds c' (fst (cspec d o)).
Proof.
  intros (gs & H & M). destruct o as [n v|n i|n i v]; cbn [cstep cspec fst snd].
  - destruct (add_ok c gs n (fun _ => v) H) as (c' & gs' & E & H' & G). rewrite E. exists c'. split; auto. exists gs'. split; auto. intros m. rewrite G, those_snoc. destruct (same n m); [|rewrite app_nil_r; apply M]. now rewrite !map_app, M.
  - pose proof (holds_len c gs d n H M) as L. destruct (Nat.ltb_spec i (many d n)) as [B|B].
    + destruct (remove_ok c gs n i (fun x => x) (fun x => x) H) as (c' & gs' & E & H' & G); [lia|]. rewrite E. exists c'. split; auto. exists gs'. split; auto. intros m. rewrite G.
      destruct (nth_of d n i) as [x|] eqn:En; [|apply nth_of_none in En; lia]. destruct (nth_of_split d n i x En) as (d1 & n' & d2 & Ed & S & C & R & _). rewrite R, (those_removed d1 d2 n' x n m S), <- Ed, C. destruct (same n m) eqn:S'; [|apply M].
      rewrite drop_id by (rewrite map_length, (grp_same gs n m S'); lia). now rewrite M, map_app, firstn_map, skipn_map.
    + rewrite (remove_fails c gs) by (auto; lia). cbn [bind]. exists c. split; auto. rewrite remove_none by auto. exists gs. auto.
  - pose proof (holds_len c gs d n H M) as L. destruct (Nat.ltb_spec i (many d n)) as [B|B].
    + destruct (node c n i) as [a|] eqn:En; [|rewrite (node_ok c gs) in En by auto; apply nth_error_None in En; rewrite map_length in En; lia]. destruct (set_value_ok c gs n i a v H En) as (gs' & H' & G). eexists. split; [reflexivity|]. exists gs'. split; auto. intros m. rewrite G.
      destruct (nth_of d n i) as [x|] eqn:Ex; [|apply nth_of_none in Ex; lia]. destruct (nth_of_split d n i x Ex) as (d1 & n' & d2 & Ed & S & C & _ & R). rewrite R, (those_changed d1 d2 n' x v n m S), <- Ed, C. destruct (same n m) eqn:S'; [|apply M].
      rewrite upd_map_snd by (rewrite (grp_same gs n m S'); lia). rewrite !map_app. cbn [map snd]. now rewrite M, firstn_map, skipn_map.
    + destruct (node c n i) as [a|] eqn:En; [rewrite (node_ok c gs) in En by auto; assert (K : nth_error (map fst (grp gs n)) i <> None) by congruence; apply nth_error_Some in K; rewrite map_length in K; lia|]. exists c. split; auto. rewrite change_none by auto. exists gs. auto.
Qed.
Lemma crun_ok os c d : holds c d -> exists c', crun c os = Ok (c', snd (cspecs d os)) /\ holds c' (fst (cspecs d os)).
Proof.
  revert c d. induction os as [|o os IH]; intros c d H; [exists c; auto|]. destruct (cstep_ok c d o H) as (c1 & E & H1). cbn [crun cspecs]. rewrite E. cbn [bind]. destruct (cspec d o) as [d1 b]. cbn [fst snd] in *. destruct (IH c1 d1 H1) as (c2 & E2 & H2). rewrite E2. cbn [bind]. destruct (cspecs d1 os) as [d2 bs]. exists c2. auto.
Qed.
Theorem C118_instances (os : list (cop V)) : exists c, crun empty os = Ok (c, snd (cspecs [] os)) /\
  let d := fst (cspecs [] os) in
  (forall n i, value c n i = nth_of d n i) /\ (forall n, count c n = many d n) /\
  (* the list from the first to the last node, forwards and backwards: the names one after the other, each with all its nodes *)
  exists gs : list (list Z * list (nat * V)),
    list_at (hp c) (root c) (last c) (flat_map (fun g => map fst (snd g)) gs) /\ NoDup (flat_map (fun g => map fst (snd g)) gs) /\ NoDup (map (fun g => fold_case (fst g)) gs) /\
    (forall n xs, In (n, xs) gs -> map snd xs = map snd (those d n) /\ xs <> [] /\ forall i a x, nth_error xs i = Some (a, x) -> node c n i = Some a /\ val c a = Some x) /\
    (forall x, hp c x <> None <-> In x (flat_map (fun g => map fst (snd g)) gs)).
Proof.
  destruct (crun_ok os empty []) as (c & E & gs & H & M); [exists []; split; [apply empty_ok|reflexivity]|]. exists c. split; auto. cbn zeta. set (d := fst (cspecs [] os)) in *. split; [|split].
  - intros n i. rewrite (at_value c gs) by auto. now rewrite M.
  - intros n. rewrite (count_ok c gs) by auto. now apply (holds_len c gs).
  - exists gs. assert (Ei : flat_map (fun g => map fst (snd g)) gs = ids gs). { unfold ids. clear. induction gs as [|g gs IH]; [reflexivity|]. cbn [flat_map]. now rewrite map_app, IH. }
    rewrite Ei. pose proof H as (D & NE & ND & HF & HN & I & VV & F & HH). split; auto. split; [eapply list_at_nodup, D|]. split; auto. split; [|exact HH].
    intros n xs Hin. assert (Eg : grp gs n = xs).
    { clear -ND Hin. induction gs as [|[m ys] gs IH]; [destruct Hin|]. inversion ND as [|? ? NI ND']; subst. rewrite grp_cons. destruct Hin as [Q|Hin].
      - injection Q as -> ->. rewrite same_refl, grp_none; [apply app_nil_r|]. intros g Hg. destruct (same_spec (fst g) n) as [Q|]; auto. exfalso. apply NI. cbn. rewrite <- Q. now apply (in_map (fun g => fold_case (fst g))).
      - destruct (same_spec m n) as [Q|]; [|apply IH; auto]. exfalso. apply NI. cbn. rewrite Q. exact (in_map (fun g => fold_case (fst g)) _ _ Hin). }
    rewrite <- Eg. split; [apply M|]. split; [rewrite Eg; exact (NE _ Hin)|]. intros i a x Ex. rewrite (node_ok c gs) by auto. rewrite nth_error_map, Ex. split; [reflexivity|]. apply VV. eapply grp_in, nth_error_In, Ex.
Qed.
End C118.
Print Assumptions C118_instances.
(* the nodes of "a", "B", "A" and a second "b", after the first "a" is removed *)
Example C118_example : match crun empty [CAdd [97%Z] 1; CAdd [66%Z] 2; CAdd [65%Z] 3; CAdd [98%Z] 4; CRemove [97%Z] 0; CSet [98%Z] 1 5; CRemove [98%Z] 2] with
  | Ok (c, bs) => bs = [true; true; true; true; true; true; false] /\ value c [97%Z] 0 = Some 3 /\ value c [98%Z] 1 = Some 5 /\ count c [98%Z] = 2
  | _ => False
  end.
Proof. vm_compute. auto. Qed.

(* ------------------------------------------------------------ C119 ------------------------------------------------------------ *)
(* Over any history of edits of a new file, the results of the calls, what is in memory and what the text of the file says are those of the
   document.  Partial: the names used are such that none is the begin of another one, and likewise the keys; they have no blanks at
   their ends, and they and the values have no chars that mean something. *)
Theorem C119_INIstorage_partial N K os : names_ok N -> keys_ok K -> Forall (op_ok N K) os ->
  exists s, run (Store [] empty) os = Ok (s, snd (spec_run [] os)) /\ shows s (fst (spec_run [] os)) /\ says (ini s) (fst (spec_run [] os)).
Proof.
  intros HN HK HO. destruct (run_sim N K HN HK os (Store [] empty) []) as (s & E & (S & M) & _); auto.
  - split; [|apply mem_empty]. exists [ILine []]. split; [reflexivity|]. split; [|split; [discriminate|reflexivity]]. constructor; [|constructor]. split; [constructor|]. split; [intros []|]. exists [], []. split; [reflexivity|]. split; [constructor|now left].
  - constructor.
  - exists s. split; auto. split; auto. now apply mem_shows.
Qed.
Print Assumptions C119_INIstorage_partial.
Definition ex_ops : list op := [Edit [97%Z] [107%Z] (Some [49%Z]) None None; Add [66%Z]; Edit [65%Z] [120%Z] (Some [50%Z; 32%Z; 51%Z]) None (Some 0); Edit [98%Z] [75%Z] (Some [52%Z]) None (Some 0); Edit [97%Z] [75%Z] None (Some 0) (Some 0); Edit [97%Z] [107%Z] None (Some 0) (Some 0); Add [97%Z]; Remove [97%Z] 0].
Definition ex_names (n : list Z) : Prop := n = [97%Z] \/ n = [65%Z] \/ n = [66%Z] \/ n = [98%Z].
Definition ex_keys (k : list Z) : Prop := k = [107%Z] \/ k = [75%Z] \/ k = [120%Z].
Example C119_example : exists s, run (Store [] empty) ex_ops = Ok (s, [0; 0; 0; 0; 0; -4; 0; 1]%Z) /\ shows s [([66%Z], [([75%Z], [52%Z])]); ([97%Z], [])] /\ says (ini s) [([66%Z], [([75%Z], [52%Z])]); ([97%Z], [])].
Proof.
  apply (C119_INIstorage_partial ex_names ex_keys ex_ops).
  - split.
    + intros a b [->|[->|[->| ->]]] [->|[->|[->| ->]]] (r & E); cbn in E |- *; try reflexivity; injection E; discriminate.
    + intros n H. assert (name_ok n) by (destruct H as [->|[->|[->| ->]]]; split; [ascii_ok|constructor; unfold printable; lia|ascii_ok|constructor; unfold printable; lia|ascii_ok|constructor; unfold printable; lia|ascii_ok|constructor; unfold printable; lia]). split; auto. destruct H as [->|[->|[->| ->]]]; reflexivity.
  - split.
    + intros a b [->|[->| ->]] [->|[->| ->]] (r & E); cbn in E |- *; try reflexivity; injection E; discriminate.
    + intros n H. split; [destruct H as [->|[->| ->]]; split; [ascii_ok|constructor; unfold printable; lia|ascii_ok|constructor; unfold printable; lia|ascii_ok|constructor; unfold printable; lia]|destruct H as [->|[->| ->]]; reflexivity].
  - unfold ex_ops, ex_names, ex_keys. repeat (constructor; [cbn [op_ok]; repeat split; auto; ascii_ok|]). constructor.
Qed.
(* Without the condition on the keys it is false: with the keys "ab" and "a" in this order, the edit of the value of "a" changes it in
   memory and in the file the line of "ab", though the call succeeds; read again, "ab" has the new value and "a" the old one *)
Definition clash_ops : list op := [Edit [115%Z] [97%Z; 98%Z] (Some [49%Z]) None None; Edit [115%Z] [97%Z] (Some [50%Z]) None (Some 0); Edit [115%Z] [97%Z] (Some [52%Z]) (Some 0) (Some 0)].
Theorem C119_prefix_refuted : exists s s2, run (Store [] empty) clash_ops = Ok (s, [0; 0; 0]%Z) /\ option_map svalue (GetEntryPtr s [115%Z] [97%Z] 0 0) = Some [52%Z] /\ option_map svalue (GetEntryPtr s [115%Z] [97%Z; 98%Z] 0 0) = Some [49%Z] /\
  loadINI (ini s) (repeat 7%Z 64) = Ok s2 /\ option_map svalue (GetEntryPtr s2 [115%Z] [97%Z] 0 0) = Some [50%Z] /\ option_map svalue (GetEntryPtr s2 [115%Z] [97%Z; 98%Z] 0 0) = Some [52%Z].
Proof. do 2 eexists. split; [vm_compute; reflexivity|]. split; [vm_compute; reflexivity|]. split; [vm_compute; reflexivity|]. split; [vm_compute; reflexivity|]. split; vm_compute; reflexivity. Qed.
Print Assumptions C119_prefix_refuted.

(* ------------------------------------------------------------ C120 ------------------------------------------------------------ *)
(* Loading a file: the sections and pairs in memory are those that its lines say; pairs before the first section are in a section without
   a name.  Partial: values are not blank, the file is not empty, and does not end in a section and a new line. *)
Definition all_sections (d : list (list Z * list Z) * doc) : doc := match fst d with [] => snd d | ps => ([], ps) :: snd d end.
Lemma load_mem ls b : Forall line_ok ls -> Forall (fits (length b)) ls -> ls <> [] -> ls <> [ILine []] -> ends ls -> 2 <= length b ->
  exists s, loadINI (texts ls) b = Ok s /\ ini s = texts ls /\ mem (sections s) (all_sections (doc_of ls)).
Proof.
  intros OK F NE NE2 EN L. destruct (load_ok ls (length (texts ls) + 2) (bssInitINI (texts ls) b) empty None (fun ps d => match ps with [] => d | _ => ([], ps) :: d end) OK F NE EN) as (c & E & M); [|congruence|reflexivity|lia|apply p_none, mem_empty|].
  - split; [reflexivity|]. split; [exact L|]. repeat split; exists [], []; (split; [reflexivity|constructor]).
  - exists (Store (texts ls) c). unfold loadINI. rewrite E. split; [reflexivity|]. split; [reflexivity|]. cbn [sections]. unfold all_sections, doc in *. destruct (fst (doc_of ls)); exact M.
Qed.
Theorem C120_load_partial ls b : Forall line_ok ls -> Forall (fits (length b)) ls -> ls <> [] -> ls <> [ILine []] -> ends ls -> 2 <= length b ->
  exists s, loadINI (texts ls) b = Ok s /\ ini s = texts ls /\ shows s (all_sections (doc_of ls)).
Proof. intros. destruct (load_mem ls b) as (s & E & I & M); auto. exists s. split; auto. split; auto. now apply mem_shows. Qed.
Print Assumptions C120_load_partial.
(* and from then on the edits keep memory and text in agreement, when the file has no pairs before the first section *)
Theorem C120_load_edit_partial ls b N K os : Forall line_ok ls -> Forall (fits (length b)) ls -> ls <> [] -> ls <> [ILine []] -> ends ls -> 2 <= length b ->
  names_ok N -> keys_ok K -> fst (doc_of ls) = [] -> within N K (snd (doc_of ls)) -> Forall (op_ok N K) os ->
  exists s s', loadINI (texts ls) b = Ok s /\ run s os = Ok (s', snd (spec_run (snd (doc_of ls)) os)) /\ shows s' (fst (spec_run (snd (doc_of ls)) os)) /\ says (ini s') (fst (spec_run (snd (doc_of ls)) os)).
Proof.
  intros OK F NE NE2 EN L HN HK F0 W O. destruct (load_mem ls b) as (s & E & I & M); auto. unfold all_sections, doc in M. rewrite F0 in M. destruct (run_sim N K HN HK os s (snd (doc_of ls))) as (s' & E2 & (S & M') & _); auto.
  - split; auto. exists ls. rewrite I. split; auto. split; auto. split; auto. rewrite <- F0. now destruct (doc_of ls).
  - exists s, s'. split; auto. split; auto. split; auto. now apply mem_shows.
Qed.
Print Assumptions C120_load_edit_partial.
(* "x=1", a comment, "[s] ", " k = v w ;c", and a new line *)
Definition ex_file : list item := [IPair [120%Z] [49%Z] []; ILine [59%Z; 91%Z]; ISect [] [115%Z] [32%Z]; IPair [32%Z; 107%Z; 32%Z] [32%Z; 118%Z; 32%Z; 119%Z; 32%Z] [59%Z; 99%Z]; ILine []].
Lemma ex_file_ok : Forall line_ok ex_file.
Proof.
  unfold ex_file. constructor; [|constructor; [|constructor; [|constructor; [|constructor; [|constructor]]]]]; (split; [repeat (constructor; [discriminate|]); constructor|]); (split; [cbn; unfold nl; intuition discriminate|]).
  - split; [split; [ascii_ok|constructor; unfold printable; lia]|]. split; [ascii_ok|now left].
  - exists [], [59%Z; 91%Z]. split; [reflexivity|]. split; [constructor|right; exists [91%Z]; reflexivity].
  - split; [constructor|]. split; [ascii_ok|constructor; unfold printable; lia].
  - split; [split; [ascii_ok|apply Exists_cons_tl; constructor; unfold printable; lia]|]. split; [ascii_ok|]. right. exists [99%Z]. split; [reflexivity|]. cbn. unfold nl. intuition discriminate.
  - exists [], []. split; [reflexivity|]. split; [constructor|now left].
Qed.
Example C120_example : exists s, loadINI (texts ex_file) (repeat 7%Z 64) = Ok s /\ ini s = texts ex_file /\ shows s [([], [([120%Z], [49%Z])]); ([115%Z], [([107%Z], [118%Z; 32%Z; 119%Z])])].
Proof.
  apply (C120_load_partial ex_file (repeat 7%Z 64) ex_file_ok); [|discriminate|discriminate|exact I|rewrite repeat_length; lia].
  rewrite repeat_length. unfold ex_file. constructor; [|constructor; [|constructor; [|constructor; [|constructor; [|constructor]]]]]; split; cbn [text length app]; auto; try lia; [constructor; unfold printable; lia|apply Exists_cons_tl; constructor; unfold printable; lia].
Qed.
(* It is false for a file that ends in a section and a new line: the section is loaded twice.  Deleting the only pair of the last section
   makes such a file, so what was saved is not what is loaded. *)
Theorem C120_last_section_refuted : exists s s2, run (Store [] empty) [Edit [97%Z] [107%Z] (Some [49%Z]) None None; Edit [97%Z] [107%Z] None (Some 0) (Some 0)] = Ok (s, [0; 0]%Z) /\ GetNumSections s [97%Z] = 1 /\
  loadINI (ini s) (repeat 7%Z 64) = Ok s2 /\ GetNumSections s2 [97%Z] = 2.
Proof. do 2 eexists. split; [vm_compute; reflexivity|]. split; [vm_compute; reflexivity|]. split; vm_compute; reflexivity. Qed.
Print Assumptions C120_last_section_refuted.
(* It is false for an empty file: what is loaded is what the memory of the buffer happened to hold *)
Theorem C120_empty_file_refuted : exists s s2, loadINI [] (0%Z :: repeat 7%Z 64) = Ok s /\ GetNumSections s [97%Z] = 0 /\ loadINI [] ([91; 97; 93; 0] ++ repeat 7 64)%Z = Ok s2 /\ GetNumSections s2 [97%Z] = 1.
Proof. do 2 eexists. split; [vm_compute; reflexivity|]. split; [vm_compute; reflexivity|]. split; vm_compute; reflexivity. Qed.
Print Assumptions C120_empty_file_refuted.
