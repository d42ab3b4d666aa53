(* What the scans find in a text with sections, and the texts after the edits. *)
From Coq Require Import List Arith ZArith Bool Lia ZifyBool ZifyNat.
From Verif Require Import Common INIParser INIParserProps INIChain INIChainProofs INIStorage INIDoc INITextProofs.
Import ListNotations.
Local Open Scope nat_scope.

Definition is_sect (i : item) : bool := match i with ISect _ _ _ => true | _ => false end.
Definition no_sect (ls : list item) : Prop := Forall (fun i => is_sect i = false) ls.
Definition at_sect (ls : list item) : Prop := ls = [] \/ exists a n j r, ls = ISect a n j :: r.
Definition heads (ls : list item) : list (list Z) := map fst (snd (doc_of ls)).
Definition hits (hs : list (list Z)) (n : list Z) : nat := length (filter (fun h => clash h n) hs).

Lemma doc_no_sect b r : no_sect b -> doc_of (b ++ r) = (fst (doc_of b) ++ fst (doc_of r), snd (doc_of r)).
Proof.
  induction b as [|i b IH]; intros H; [cbn; apply surjective_pairing|]. inversion H as [|? ? Hi Hb]; subst. destruct i as [l|k v c|a n j]; [|cbn [app doc_of]; rewrite (IH Hb); reflexivity|discriminate].
  cbn [app doc_of]. auto.
Qed.
Lemma doc_at_sect a r : at_sect r -> doc_of (a ++ r) = (fst (doc_of a), snd (doc_of a) ++ snd (doc_of r)).
Proof.
  intros H. induction a as [|i a IH]; cbn [app].
  - destruct H as [->|(x & n & j & r' & ->)]; reflexivity.
  - destruct i as [l|k v c|x n j]; cbn [doc_of]; rewrite IH; reflexivity.
Qed.
Lemma doc_snd_no_sect b : no_sect b -> snd (doc_of b) = [].
Proof. induction b as [|i b IH]; intros H; auto. inversion H as [|? ? Hi Hb]; subst. destruct i; try discriminate; cbn; auto. Qed.
Lemma at_sect_fst r : at_sect r -> fst (doc_of r) = [].
Proof. intros [->|(a & n & j & r' & ->)]; reflexivity. Qed.
Lemma doc_section L1 a n j b L2 : no_sect b -> at_sect L2 ->
  doc_of (L1 ++ ISect a n j :: b ++ L2) = (fst (doc_of L1), snd (doc_of L1) ++ (trim n, fst (doc_of b)) :: snd (doc_of L2)).
Proof.
  intros H A. rewrite doc_at_sect by (right; eauto 6). cbn [doc_of snd]. rewrite doc_no_sect by auto. cbn [fst snd]. now rewrite (at_sect_fst L2), app_nil_r.
Qed.
(* the lines of a section of the document *)
Lemma split_body ls : exists b L2, ls = b ++ L2 /\ no_sect b /\ at_sect L2.
Proof.
  induction ls as [|i ls (b & L2 & -> & Hb & H2)]; [exists [], []; repeat split; [constructor|now left]|].
  destruct (is_sect i) eqn:E.
  - destruct i as [l|k v c|a n j]; try discriminate. exists [], (ISect a n j :: b ++ L2). repeat split; [constructor|right; eauto 6].
  - exists (i :: b), L2. repeat split; auto. constructor; auto.
Qed.
Lemma split_section : forall ls d1 n ps d2, snd (doc_of ls) = d1 ++ (n, ps) :: d2 ->
  exists L1 a nm j b L2, ls = L1 ++ ISect a nm j :: b ++ L2 /\ snd (doc_of L1) = d1 /\ trim nm = n /\ no_sect b /\ fst (doc_of b) = ps /\ at_sect L2 /\ snd (doc_of L2) = d2.
Proof.
  induction ls as [|i ls IH]; intros d1 n ps d2 E; [destruct d1; discriminate|].
  assert (Skip : snd (doc_of ls) = d1 ++ (n, ps) :: d2 -> (forall L, snd (doc_of (i :: L)) = snd (doc_of L)) -> exists L1 a nm j b L2, i :: ls = L1 ++ ISect a nm j :: b ++ L2 /\ snd (doc_of L1) = d1 /\ trim nm = n /\ no_sect b /\ fst (doc_of b) = ps /\ at_sect L2 /\ snd (doc_of L2) = d2).
  { intros E' S. destruct (IH _ _ _ _ E') as (L1 & a & nm & j & b & L2 & -> & H1 & H). exists (i :: L1), a, nm, j, b, L2. split; auto. split; auto. now rewrite S. }
  destruct i as [l|k v c|a nm j]; [now apply Skip|now apply Skip|]. clear Skip. cbn [doc_of snd] in E. destruct d1 as [|[n0 p0] d1].
  - cbn in E. injection E as E1 E2 E3. destruct (split_body ls) as (b & L2 & -> & Hb & H2). exists [], a, nm, j, b, L2. rewrite doc_no_sect in E2, E3 by auto. cbn [fst snd] in E2, E3. rewrite (at_sect_fst L2), app_nil_r in E2 by auto. tauto.
  - cbn in E. injection E as E1 E2 E3. destruct (IH _ _ _ _ E3) as (L1 & a' & nm' & j' & b & L2 & -> & H1 & H). exists (ISect a nm j :: L1), a', nm', j', b, L2.
    split; auto. split; auto. cbn [doc_of snd]. rewrite H1. f_equal. rewrite <- E1. f_equal. rewrite doc_at_sect in E2 by (right; eauto 6). exact E2.
Qed.
Lemma split_pair : forall b q1 k v q2, no_sect b -> fst (doc_of b) = q1 ++ (k, v) :: q2 ->
  exists b1 kk vv c b2, b = b1 ++ IPair kk vv c :: b2 /\ fst (doc_of b1) = q1 /\ trim kk = k /\ trim vv = v /\ fst (doc_of b2) = q2.
Proof.
  induction b as [|i b IH]; intros q1 k v q2 H E; [destruct q1; discriminate|]. inversion H as [|? ? Hi Hb]; subst. destruct i as [l|kk vv c|a n j]; [| |discriminate].
  - cbn [doc_of] in E. destruct (IH _ _ _ _ Hb E) as (b1 & kk & vv & c & b2 & -> & Q). exists (ILine l :: b1), kk, vv, c, b2. auto.
  - cbn [doc_of fst] in E. destruct q1 as [|[k0 v0] q1].
    + cbn in E. injection E as E1 E2 E3. exists [], kk, vv, c, b. auto.
    + cbn in E. injection E as E1 E2 E3. destruct (IH _ _ _ _ Hb E3) as (b1 & kk' & vv' & c' & b2 & -> & Q1 & Q). exists (IPair kk vv c :: b1), kk', vv', c', b2. split; auto. split; auto. cbn [doc_of fst]. rewrite Q1. congruence.
Qed.

(* ---- the section found ---- *)
Lemma cl_cons i ls : cl (i :: ls) = (text i ++ [nl]) ++ cl ls.
Proof. reflexivity. Qed.
Lemma heads_app_sect L1 r : at_sect r -> heads (L1 ++ r) = heads L1 ++ heads r.
Proof. intros H. unfold heads. rewrite doc_at_sect by auto. cbn [snd]. apply map_app. Qed.
Lemma scan_body T section instance b : forall L2 s count cur, no_sect b -> at_sect L2 ->
  scan T (b ++ L2) section instance count (Some s) cur = Some (s, if match L2 with [] => true | _ => false end then T else cur + length (cl b) - 1).
Proof.
  induction b as [|i b IH]; intros L2 s count cur H A; cbn [app].
  - destruct A as [->|(a & n & j & r & ->)]; cbn; [reflexivity|]. do 3 f_equal. lia.
  - inversion H as [|? ? Hi Hb]; subst. destruct i as [l|k v c|a n j]; try discriminate; cbn [scan]; rewrite IH by auto; rewrite cl_cons, !app_length; cbn [length];
    (destruct L2; cbn; [reflexivity|do 2 f_equal; lia]).
Qed.
Lemma scan_found T section instance a n j b L2 : no_sect b -> at_sect L2 -> clash (trim n) section = true -> forall L1 count cur, count + hits (heads L1) section = instance ->
  scan T (L1 ++ ISect a n j :: b ++ L2) section instance count None cur =
    Some (cur + length (cl L1) + length a, if match L2 with [] => true | _ => false end then T else cur + length (cl (L1 ++ ISect a n j :: b)) - 1).
Proof.
  intros Hb A C. induction L1 as [|i L1 IH]; intros count cur H; cbn [app].
  - cbn in H. cbn [scan]. rewrite C. replace (count =? instance) with true by lia. rewrite scan_body by auto. rewrite cl_cons, !app_length. cbn [cl map concat length]. destruct L2; do 2 f_equal; lia.
  - assert (Next : forall count', count' + hits (heads L1) section = instance -> scan T (L1 ++ ISect a n j :: b ++ L2) section instance count' None (cur + length (text i) + 1) =
      Some (cur + length (cl (i :: L1)) + length a, if match L2 with [] => true | _ => false end then T else cur + length (cl (i :: L1 ++ ISect a n j :: b)) - 1)).
    { intros count' H'. rewrite IH by auto. rewrite !cl_cons, !app_length. cbn [length]. destruct L2; do 2 f_equal; lia. }
    destruct i as [l|k v c|x m y]; cbn [scan]; try (apply Next; exact H). unfold heads, hits in H. cbn [doc_of snd map fst filter] in H.
    destruct (clash (trim m) section) eqn:E; cbn [length] in H.
    + destruct (Nat.eqb_spec count instance); [lia|]. apply Next. unfold heads, hits. lia.
    + apply Next. unfold heads, hits. lia.
Qed.
Lemma scan_none T section instance : forall ls count cur, count + hits (heads ls) section <= instance -> scan T ls section instance count None cur = None.
Proof.
  induction ls as [|i ls IH]; intros count cur H; auto. destruct i as [l|k v c|x m y]; cbn [scan]; try (apply IH; exact H). unfold heads, hits in H. cbn [doc_of snd map fst filter] in H.
  destruct (clash (trim m) section) eqn:E; cbn [length] in H.
  - destruct (Nat.eqb_spec count instance); [lia|]. apply IH. unfold heads, hits. lia.
  - apply IH. unfold heads, hits. lia.
Qed.

(* ---- bssFindINIEntry ---- *)
Definition lead (k : list Z) : nat := length k - length (ltrim k).
Fixpoint escan (ls : list item) (key : list Z) (instance count cur : nat) : option (nat * nat) :=
  match ls with
  | [] => None
  | i :: ls =>
    let cur' := cur + length (text i) + 1 in
    match i with
    | IPair k v c => if clash (trim k) key then
                       if count =? instance then Some (cur + lead k, cur + length k + 1 + length v) else escan ls key instance (S count) cur'
                     else escan ls key instance count cur'
    | _ => escan ls key instance count cur'
    end
  end.
Lemma svalue_ok v c q i : Forall (fun x => x <> semi) v -> comment c -> svalidatevalue (v ++ c ++ q) (length v + length c) i = Ok (i + length v).
Proof.
  intros F C. revert i. induction v as [|x v IH]; intros i; cbn [app length Nat.add].
  - rewrite Nat.add_0_r. destruct C as [->|(c' & -> & _)]; cbn; [destruct q|]; reflexivity.
  - inversion F; subst. cbn [svalidatevalue]. destruct (Z.eqb_spec x semi); [lia|]. rewrite IH by auto. f_equal. lia.
Qed.
Lemma lead_skip k q : key_ok k -> skip_blanks (k ++ q) = lead k.
Proof.
  intros H. destruct (ltrim_spec k) as (a & E & F & N). assert (NE : ltrim k <> []) by (intros E'; apply (trim_key_ne k H); unfold trim; now rewrite E').
  unfold lead. destruct (ltrim k) as [|c r] eqn:El; [congruence|]. rewrite E at 1. rewrite <- app_assoc. cbn [app]. rewrite skip_blanks_app; [|auto|eapply N; eauto]. apply (f_equal (@length Z)) in E. rewrite app_length in E. lia.
Qed.
Lemma find_entry_past fuel t e key instance cur count : fuel > 0 -> e <= cur -> find_entry fuel t e key instance cur count = Ok None.
Proof. intros F L. destruct fuel; [lia|]. cbn [find_entry]. destruct (Nat.ltb_spec cur e); [lia|reflexivity]. Qed.
Lemma find_entry_scan key instance q : forall ls p fuel count, Forall line_ok ls -> ls <> [] -> ends_line q -> length (texts ls) < fuel ->
  find_entry fuel (p ++ texts ls ++ q) (length p + length (texts ls)) key instance (length p) count = Ok (escan ls key instance count (length p)).
Proof.
  induction ls as [|i ls IH]; intros p fuel count OK NE EQ FU; [congruence|]. inversion OK as [|? ? Hi Hls]; subst.
  destruct (texts_split i ls) as (q0 & Et & Q & Q1 & Q2). rewrite Et in FU |- *.
  replace (p ++ (text i ++ q0) ++ q) with (p ++ text i ++ (q0 ++ q)) by (now rewrite <- (app_assoc (text i))). set (t := p ++ text i ++ (q0 ++ q)) in *. set (e := length p + length (text i ++ q0)).
  assert (Next : forall fuel' count', length (texts (i :: ls)) <= fuel' -> text i ++ q0 <> [] -> find_entry fuel' t e key instance (S (length p + length (text i))) count' =
    Ok (escan ls key instance count' (length p + length (text i) + 1))).
  { intros fuel' count' F' NEq. rewrite Et in F'. destruct ls as [|i2 ls].
    - specialize (Q1 eq_refl). subst q0. rewrite app_nil_r in NEq, F'. rewrite find_entry_past; [reflexivity| |].
      + destruct (text i); [congruence|cbn in F'; lia].
      + unfold e. rewrite !app_length. cbn. lia.
    - specialize (Q2 ltac:(discriminate)). subst q0. pose proof (IH (p ++ text i ++ [nl]) fuel' count' Hls ltac:(discriminate) EQ) as H.
      replace ((p ++ text i ++ [nl]) ++ texts (i2 :: ls) ++ q) with t in H by (unfold t; rewrite <- !app_assoc; reflexivity).
      replace (length (p ++ text i ++ [nl]) + length (texts (i2 :: ls))) with e in H by (unfold e; rewrite !app_length; cbn; lia).
      replace (length (p ++ text i ++ [nl])) with (S (length p + length (text i))) in H by (rewrite !app_length; cbn; lia).
      rewrite H; [do 2 f_equal; lia|]. rewrite app_length in F'. cbn [length] in F'. lia. }
  destruct fuel as [|fuel]; [lia|]. cbn [find_entry]. destruct (Nat.ltb_spec (length p) e) as [Lt|Ge].
  2:{ assert (El : text i ++ q0 = []) by (apply length_zero_iff_nil; unfold e in Ge; lia).
      apply app_eq_nil in El as [E1 E2]. destruct ls as [|i2 ls]; [|specialize (Q2 ltac:(discriminate)); congruence]. cbn [escan]. destruct i as [l|k v c|a n j]; cbn [text] in E1; [reflexivity|destruct k; discriminate|reflexivity]. }
  assert (NEq : text i ++ q0 <> []) by (intros E; unfold e in Lt; rewrite E in Lt; cbn in Lt; lia).
  assert (QE : ends_line (q0 ++ q)). { destruct Q as [->|(r & ->)]; [exact EQ|]. right. eexists. reflexivity. }
  pose proof (line_end i p (q0 ++ q) e Hi QE) as LE. fold t in LE. rewrite LE. 2:{ intros E. apply app_eq_nil in E as [-> _]. unfold e. now rewrite app_nil_r. } clear LE.
  replace (length p + length (text i) - length p) with (length (text i)) by lia. assert (Sk : skipn (length p) t = text i ++ q0 ++ q) by apply skipn_app_len. rewrite Sk, snext_line by auto. cbn [bind].
  assert (F1 : length (texts (i :: ls)) <= fuel) by (rewrite Et; lia).
  destruct i as [l|k v c|a n j]; cbn [kind escan].
  - apply Next; auto.
  - pose proof Hi as (_ & _ & Hk & Hv & Hc). cbn [text].
    assert (VK : validatekey ((k ++ equ :: v ++ c) ++ q0 ++ q) (length p + length k - length p) = true).
    { unfold validatekey. replace (length p + length k - length p) with (length k) by lia. rewrite <- app_assoc, firstn_app_len. destruct Hk as (_ & Ex). apply Exists_exists in Ex as (x & Hx & Px). apply existsb_exists. exists x. split; auto. unfold printable in Px. lia. }
    rewrite VK. assert (CV : comparevalues t (length p) (length p + length k) key = Ok (clash (trim k) key)).
    { unfold t. cbn [text]. rewrite <- (app_assoc k). apply compare_ok; [apply trim_spec| |apply trim_key_ne; auto]. destruct Hk as (Hk & _). eapply Forall_impl; [|exact Hk]. cbn. tauto. }
    rewrite CV. cbn [bind]. destruct (clash (trim k) key); [|apply Next; auto]. destruct (count =? instance); [|apply Next; auto].
    replace (skipn (S (length p + length k)) t) with (v ++ c ++ q0 ++ q).
    2:{ replace (S (length p + length k)) with (length (p ++ k ++ [equ])) by (rewrite !app_length; cbn; lia). unfold t. cbn [text]. replace (p ++ (k ++ equ :: v ++ c) ++ q0 ++ q) with ((p ++ k ++ [equ]) ++ v ++ c ++ q0 ++ q) by (rewrite <- !app_assoc; cbn [app]; rewrite <- !app_assoc; reflexivity). now rewrite skipn_app_len. }
    replace (length p + length (k ++ equ :: v ++ c) - S (length p + length k)) with (length v + length c) by (rewrite !app_length; cbn [length]; rewrite app_length; lia).
    rewrite svalue_ok; [|eapply Forall_impl; [|exact Hv]; cbn; tauto|auto]. cbn [bind]. rewrite <- app_assoc, lead_skip by auto. do 3 f_equal. lia.
  - apply Next; auto.
Qed.
Lemma escan_found key instance k v c b2 : clash (trim k) key = true -> forall b1 count cur, count + hits (map fst (fst (doc_of b1))) key = instance -> no_sect b1 ->
  escan (b1 ++ IPair k v c :: b2) key instance count cur = Some (cur + length (cl b1) + lead k, cur + length (cl b1) + length k + 1 + length v).
Proof.
  intros C. induction b1 as [|i b1 IH]; intros count cur H NS; cbn [app].
  - cbn in H. cbn [escan]. rewrite C. replace (count =? instance) with true by lia. cbn. do 2 f_equal; lia.
  - inversion NS as [|? ? Hi Hb]; subst. assert (Next : forall count', count' + hits (map fst (fst (doc_of b1))) key = count + hits (map fst (fst (doc_of (i :: b1)))) key -> escan (b1 ++ IPair k v c :: b2) key (count + hits (map fst (fst (doc_of (i :: b1)))) key) count' (cur + length (text i) + 1) =
      Some (cur + length (cl (i :: b1)) + lead k, cur + length (cl (i :: b1)) + length k + 1 + length v)).
    { intros count' H'. rewrite <- H' in IH. rewrite <- H', IH by auto. rewrite cl_cons, !app_length. cbn [length]. do 2 f_equal; lia. }
    destruct i as [l|k' v' c'|x m y]; [| |discriminate]; cbn [escan].
    + apply Next. reflexivity.
    + cbn [doc_of fst map] in *. unfold hits in *. cbn [filter] in *. destruct (clash (trim k') key) eqn:E; cbn [length] in *.
      * destruct (Nat.eqb_spec count (count + S (length (filter (fun h => clash h key) (map fst (fst (doc_of b1))))))); [lia|]. apply Next. lia.
      * apply Next. lia.
Qed.
