(* The texts after the edits. *)
From Coq Require Import List Arith ZArith Bool Lia ZifyBool ZifyNat.
From Verif Require Import Common INIParser INIParserProps INIChain INIChainProofs INIStorage INIDoc INITextProofs INITextProofs2.
Import ListNotations.
Local Open Scope nat_scope.

Ltac asc := repeat (rewrite <- ?app_assoc; cbn [app]).
Definition rest (C : list item) : list Z := match C with [] => [] | _ => nl :: texts C end.
Lemma texts_mid A B C : B <> [] -> texts (A ++ B ++ C) = cl A ++ texts B ++ rest C.
Proof.
  intros H. rewrite texts_app by (destruct B; [congruence|discriminate]). f_equal. destruct C as [|c C]; [cbn; now rewrite !app_nil_r|].
  rewrite texts_app by discriminate. rewrite cl_snoc by auto. rewrite <- app_assoc. reflexivity.
Qed.
Lemma rest_ends C : ends_line (rest C).
Proof. destruct C; [now left|right; cbn; eauto]. Qed.
Lemma texts_one i : texts [i] = text i.
Proof. reflexivity. Qed.
Definition prepend (a : list Z) (i : item) : item := match i with ILine l => ILine (a ++ l) | IPair k v c => IPair (a ++ k) v c | ISect x n j => ISect (a ++ x) n j end.
Lemma text_prepend a i : text (prepend a i) = a ++ text i.
Proof. destruct i; cbn; now rewrite <- ?app_assoc. Qed.
Lemma texts_prepend a i ls : texts (prepend a i :: ls) = a ++ texts (i :: ls).
Proof.
  destruct ls as [|i2 ls]; [rewrite !texts_one; apply text_prepend|]. rewrite !texts_cons by discriminate. rewrite text_prepend, <- !app_assoc. reflexivity.
Qed.
Lemma line_ok_prepend a i : before_ok a -> (Forall blank a \/ is_sect i = true) -> line_ok i -> line_ok (prepend a i).
Proof.
  intros Ha B (NZ & NN & H). split; [|split].
  - rewrite text_prepend. apply Forall_app. split; auto. eapply Forall_impl; [|exact Ha]. cbn. tauto.
  - rewrite text_prepend, in_app_iff. intros [K|K]; auto. unfold before_ok in Ha. rewrite Forall_forall in Ha. apply Ha in K. tauto.
  - destruct i as [l|k v c|x n j]; cbn [prepend].
    + destruct H as (y & b & -> & Hy & Hb). exists (a ++ y), b. rewrite app_assoc. split; auto. split; auto. apply Forall_app. auto.
    + destruct B as [B|B]; [|discriminate]. destruct H as ((Hk & Ek) & Hv & Hc). split; [|auto]. split; [|apply Exists_app; auto]. apply Forall_app. split; auto.
      unfold before_ok in Ha. rewrite Forall_forall in *. intros y Hy. specialize (B y Hy). specialize (Ha y Hy). unfold ascii, blank in *. lia.
    + destruct H as (Hx & Hn). split; auto. apply Forall_app. auto.
Qed.
Lemma trimmed_blank a s b t : Forall blank a -> Forall blank b -> trimmed s t -> trimmed (a ++ s ++ b) t.
Proof.
  intros Ha Hb (g & h & -> & Hg & Hh & H). exists (a ++ g), (h ++ b). rewrite <- !app_assoc. split; auto. split; [apply Forall_app; auto|]. split; [apply Forall_app; auto|auto].
Qed.
Lemma trim_left_blank a s : Forall blank a -> trim (a ++ s) = trim s.
Proof. intros H. apply trim_is. rewrite <- (app_nil_r s) at 1. apply trimmed_blank; auto. apply trim_spec. Qed.
Lemma trim_right_blank s b : Forall blank b -> trim (s ++ b) = trim s.
Proof. intros H. apply trim_is. apply (trimmed_blank [] s b); auto. apply trim_spec. Qed.
Lemma doc_prepend a i r : (Forall blank a \/ is_sect i = true) -> doc_of (prepend a i :: r) = doc_of (i :: r).
Proof. intros H. destruct i as [l|k v c|x n j]; cbn [prepend doc_of]; auto. destruct H as [H|H]; [|discriminate]. now rewrite trim_left_blank. Qed.

(* ---- finding ---- *)
Definition block_end (L1 : list item) (i : item) (b : list item) : nat := length (texts (L1 ++ i :: b)).
Lemma found_section L1 a n j b L2 name : Forall line_ok (L1 ++ ISect a n j :: b ++ L2) -> no_sect b -> at_sect L2 -> clash (trim n) name = true ->
  bssFindINISection (texts (L1 ++ ISect a n j :: b ++ L2)) name (hits (heads L1) name) = Ok (Some (length (cl L1) + length a, block_end L1 (ISect a n j) b)).
Proof.
  intros OK NS A C. rewrite find_section_ok by (auto; destruct L1; discriminate). rewrite scan_found by auto. cbn [Nat.add]. do 3 f_equal. unfold block_end.
  destruct L2 as [|y L2]; [now rewrite app_nil_r|]. rewrite cl_snoc by (destruct L1; discriminate). rewrite app_length. cbn. lia.
Qed.
Lemma found_none ls name i : Forall line_ok ls -> ls <> [] -> hits (heads ls) name <= i -> bssFindINISection (texts ls) name i = Ok None.
Proof. intros OK NE H. rewrite find_section_ok by auto. now rewrite scan_none. Qed.

(* ---- RemoveSection ---- *)
Lemma erase_mid x y z n : n = length y -> erase (x ++ y ++ z) (length x) n = Ok (x ++ z).
Proof.
  intros ->. unfold erase. rewrite app_length. destruct (Nat.leb_spec (length x) (length x + length (y ++ z))); [|lia]. rewrite firstn_app_len.
  replace (x ++ y ++ z) with ((x ++ y) ++ z) by (now rewrite app_assoc). rewrite <- app_length, skipn_app_len. reflexivity.
Qed.
Lemma erase_end x y n : length y <= n -> erase (x ++ y) (length x) n = Ok x.
Proof.
  intros H. unfold erase. rewrite app_length. destruct (Nat.leb_spec (length x) (length x + length y)); [|lia]. rewrite firstn_app_len, skipn_all2 by (rewrite app_length; lia). now rewrite app_nil_r.
Qed.
Lemma text_block a n j b : exists X, texts (ISect a n j :: b) = a ++ X /\ X <> [].
Proof.
  change (ISect a n j) with (ISect ([] ++ a) n j). exists (texts (ISect [] n j :: b)). replace (ISect ([] ++ a) n j) with (prepend a (ISect [] n j)) by (cbn; now rewrite app_nil_r). rewrite texts_prepend. split; auto.
  destruct b; [discriminate|]. rewrite texts_cons by discriminate. discriminate.
Qed.
Lemma removed L1 a n j b L2 : Forall line_ok (L1 ++ ISect a n j :: b ++ L2) -> no_sect b -> at_sect L2 ->
  let st := length (cl L1) + length a in
  exists ls', erase (texts (L1 ++ ISect a n j :: b ++ L2)) st (block_end L1 (ISect a n j) b - st + 1) = Ok (texts ls') /\ Forall line_ok ls' /\ ls' <> [] /\
    doc_of ls' = (fst (doc_of L1), snd (doc_of L1) ++ snd (doc_of L2)).
Proof.
  intros OK NS A st. apply Forall_app in OK as [OK1 OK2]. inversion OK2 as [|? ? OKs OK3]; subst. apply Forall_app in OK3 as [OKb OK2']. destruct (text_block a n j b) as (X & EX & _).
  assert (Ha : before_ok a) by (destruct OKs as (_ & _ & H & _); auto).
  assert (E : texts (L1 ++ ISect a n j :: b ++ L2) = (cl L1 ++ a) ++ X ++ rest L2).
  { change (ISect a n j :: b ++ L2) with ((ISect a n j :: b) ++ L2). rewrite texts_mid by discriminate. rewrite EX, <- !app_assoc. reflexivity. }
  assert (Est : st = length (cl L1 ++ a)) by (unfold st; now rewrite app_length).
  assert (Een : block_end L1 (ISect a n j) b = st + length X). { unfold block_end. rewrite texts_app by discriminate. rewrite EX, !app_length. unfold st. lia. }
  rewrite Een, E, Est. replace (length (cl L1 ++ a) + length X - length (cl L1 ++ a) + 1) with (length X + 1) by lia.
  destruct A as [->|(a' & n' & j' & r & ->)].
  - exists (L1 ++ [ILine a]). rewrite erase_end by (cbn [rest]; rewrite app_nil_r; lia). rewrite texts_app by discriminate. split; auto. split; [|split; [destruct L1; discriminate|]].
    + apply Forall_app. split; auto. constructor; auto. split; [|split].
      * eapply Forall_impl; [|exact Ha]. cbn. tauto.
      * intros K. unfold before_ok in Ha. rewrite Forall_forall in Ha. apply Ha in K. tauto.
      * exists a, []. rewrite app_nil_r. auto.
    + clear. induction L1 as [|i L1 IH]; auto. cbn [app doc_of]. destruct i; cbn [doc_of]; rewrite IH; reflexivity.
  - exists (L1 ++ ISect (a ++ a') n' j' :: r). cbn [rest]. replace (X ++ nl :: texts (ISect a' n' j' :: r)) with ((X ++ [nl]) ++ texts (ISect a' n' j' :: r)) by (rewrite <- app_assoc; reflexivity).
    rewrite erase_mid by (rewrite app_length; cbn; lia). rewrite texts_app by discriminate. change (ISect (a ++ a') n' j') with (prepend a (ISect a' n' j')). rewrite texts_prepend, app_assoc. split; auto. split; [|split; [destruct L1; discriminate|]].
    + apply Forall_app. split; auto. inversion OK2'; subst. constructor; auto. apply line_ok_prepend; auto.
    + rewrite doc_at_sect by (right; cbn; eauto 6). reflexivity.
Qed.

(* ---- EditEntry: an insertion ---- *)
Definition construct (k v : list Z) : list Z := [nl] ++ k ++ [equ] ++ v.
Definition insert_at (t : list Z) (ce : nat) (c : list Z) : list Z :=
  match strchr (skipn (ce - 1) t) nl (ce - 1) with None => t ++ c | Some i => firstn i t ++ c ++ skipn i t end.
Lemma inserted L1 a n j b L2 k v : Forall line_ok (L1 ++ ISect a n j :: b ++ L2) -> line_ok (IPair k v []) -> no_sect b -> at_sect L2 ->
  exists ls', insert_at (texts (L1 ++ ISect a n j :: b ++ L2)) (block_end L1 (ISect a n j) b) (construct k v) = texts ls' /\ Forall line_ok ls' /\ ls' <> [] /\
    doc_of ls' = (fst (doc_of L1), snd (doc_of L1) ++ (trim n, fst (doc_of b) ++ [(trim k, trim v)]) :: snd (doc_of L2)).
Proof.
  intros OK OKp NS A. apply Forall_app in OK as [OK1 OK2]. inversion OK2 as [|? ? OKs OK3]; subst. apply Forall_app in OK3 as [OKb OK2'].
  set (blk := ISect a n j :: b). assert (E : texts (L1 ++ ISect a n j :: b ++ L2) = cl L1 ++ texts blk ++ rest L2) by (apply (texts_mid L1 blk L2); discriminate).
  assert (Een : block_end L1 (ISect a n j) b = length (cl L1) + length (texts blk)) by (unfold block_end; rewrite texts_app by discriminate; now rewrite app_length).
  rewrite E, Een. unfold insert_at.
  assert (Kv : texts [IPair k v []] = k ++ equ :: v) by (cbn; now rewrite app_nil_r).
  destruct (@exists_last _ blk) as (blk' & z & Eb); [discriminate|].
  assert (Lz : blk = blk' ++ [z] /\ (text z = [] -> exists b', blk' = ISect a n j :: b' /\ b = b' ++ [z])).
  { split; auto. intros Ez. unfold blk in Eb. destruct blk' as [|y blk']; cbn in Eb; [injection Eb as <- ->; destruct a; discriminate|]. injection Eb as <- Eb. exists blk'. auto. }
  destruct Lz as [_ Lz]. destruct (text z) as [|z0 zr] eqn:Ez.
  - destruct (Lz eq_refl) as (b' & Eb' & Ebb). assert (Ex : texts blk = texts blk' ++ [nl]).
    { rewrite Eb, texts_app by discriminate. rewrite texts_one, Ez, app_nil_r. apply cl_snoc. rewrite Eb'. discriminate. }
    rewrite Ex. rewrite app_length. cbn [length]. replace (length (cl L1) + (length (texts blk') + 1) - 1) with (length (cl L1 ++ texts blk')) by (rewrite app_length; lia).
    replace (cl L1 ++ (texts blk' ++ [nl]) ++ rest L2) with ((cl L1 ++ texts blk') ++ nl :: rest L2) by (rewrite <- !app_assoc; reflexivity).
    rewrite skipn_app_len. cbn [strchr]. change (nl =? 0)%Z with false. change (nl =? nl)%Z with true. cbn iota. rewrite firstn_app_len, skipn_app_len.
    exists (L1 ++ ISect a n j :: (b' ++ [IPair k v []; z]) ++ L2). split; [|split; [|split; [destruct L1; discriminate|]]].
    + change (ISect a n j :: (b' ++ [IPair k v []; z]) ++ L2) with ((ISect a n j :: b' ++ [IPair k v []; z]) ++ L2). rewrite texts_mid by discriminate.
      change (ISect a n j :: b' ++ [IPair k v []; z]) with ((ISect a n j :: b') ++ [IPair k v []; z]). rewrite <- Eb', texts_app by discriminate. rewrite texts_cons by discriminate. rewrite texts_one, Ez. cbn [text]. rewrite (cl_snoc blk') by (rewrite Eb'; discriminate).
      unfold construct. repeat (rewrite <- ?app_assoc, ?app_nil_r; cbn [app]). reflexivity.
    + apply Forall_app. split; auto. constructor; auto. apply Forall_app. split; auto. rewrite Ebb in OKb. apply Forall_app in OKb as [Q1 Q2]. apply Forall_app. split; auto.
    + assert (NS' : no_sect (b' ++ [IPair k v []; z])). { rewrite Ebb in NS. apply Forall_app in NS as [Q1 Q2]. apply Forall_app. split; [exact Q1|constructor; [reflexivity|exact Q2]]. }
      rewrite doc_section by auto. rewrite Ebb in NS |- *. apply Forall_app in NS as [Q1 Q2]. rewrite !(doc_no_sect b') by auto. cbn [fst]. f_equal. f_equal. f_equal. f_equal.
      destruct z as [l|kk vv cc|x y w]; cbn [text] in Ez; [|destruct kk; discriminate|destruct x; discriminate]. cbn. now rewrite app_nil_r.
  - assert (Hz : line_ok z). { assert (Fb : Forall line_ok blk) by (constructor; auto). rewrite Eb in Fb. apply Forall_app in Fb as [_ Fb]. inversion Fb; auto. } destruct Hz as (NZ & NN & _). rewrite Ez in NZ, NN.
    destruct (@exists_last _ (z0 :: zr)) as (u & y & Ey); [discriminate|]. rewrite Ey in *.
    assert (Hy : y <> 0%Z /\ y <> nl). { split; [rewrite Forall_forall in NZ; apply NZ, in_or_app; right; now left|]. intros ->. apply NN, in_or_app. right. now left. }
    assert (Ex : texts blk = (cl blk' ++ u) ++ [y]). { rewrite Eb, texts_app by discriminate. now rewrite texts_one, Ez, app_assoc. }
    exists (L1 ++ ISect a n j :: (b ++ [IPair k v []]) ++ L2). split; [|split; [|split; [destruct L1; discriminate|]]].
    + set (W := cl blk' ++ u) in *. change (ISect a n j :: (b ++ [IPair k v []]) ++ L2) with ((blk ++ [IPair k v []]) ++ L2). rewrite texts_mid by (unfold blk; discriminate). rewrite (texts_app blk) by discriminate. rewrite (cl_snoc blk) by discriminate. rewrite Kv.
      assert (Ew : texts blk = W ++ [y]) by exact Ex. rewrite Ew. replace (length (cl L1) + length (W ++ [y]) - 1) with (length (cl L1 ++ W)) by (rewrite !app_length; cbn; lia).
      replace (cl L1 ++ (W ++ [y]) ++ rest L2) with ((cl L1 ++ W) ++ y :: rest L2) by (rewrite <- !app_assoc; reflexivity). rewrite skipn_app_len. cbn [strchr].
      destruct (Z.eqb_spec y 0); [tauto|]. destruct (Z.eqb_spec y nl); [tauto|]. destruct L2 as [|i2 L2]; cbn [rest strchr].
      * unfold construct. rewrite app_nil_r, <- !app_assoc. reflexivity.
      * change (nl =? 0)%Z with false. change (nl =? nl)%Z with true. cbn iota. replace (S (length (cl L1 ++ W))) with (length ((cl L1 ++ W) ++ [y])) by (rewrite (app_length (cl L1 ++ W)); cbn; lia).
        replace ((cl L1 ++ W) ++ y :: nl :: texts (i2 :: L2)) with (((cl L1 ++ W) ++ [y]) ++ nl :: texts (i2 :: L2)) by (rewrite <- !app_assoc; reflexivity). rewrite firstn_app_len, skipn_app_len. unfold construct. asc. reflexivity.
    + apply Forall_app. split; auto. constructor; auto. apply Forall_app. split; auto. apply Forall_app. split; auto.
    + assert (NS' : no_sect (b ++ [IPair k v []])) by (apply Forall_app; split; auto; constructor; auto). rewrite doc_section by auto. rewrite (doc_no_sect b) by auto. reflexivity.
Qed.

(* ---- EditEntry: the entry found ---- *)
Lemma found_entry L1 a n j b1 k v c b2 L2 key : Forall line_ok (L1 ++ ISect a n j :: (b1 ++ IPair k v c :: b2) ++ L2) -> no_sect (b1 ++ IPair k v c :: b2) -> clash (trim k) key = true ->
  let P := cl (L1 ++ ISect a n j :: b1) in
  bssFindINIEntry (texts (L1 ++ ISect a n j :: (b1 ++ IPair k v c :: b2) ++ L2)) (length (cl L1) + length a, block_end L1 (ISect a n j) (b1 ++ IPair k v c :: b2)) key (hits (map fst (fst (doc_of b1))) key)
    = Ok (Some (length P + lead k, length P + length k + 1 + length v)).
Proof.
  intros OK NS C P. apply Forall_app in OK as [OK1 OK2]. inversion OK2 as [|? ? OKs OK3]; subst. apply Forall_app in OK3 as [OKb OK2']. set (b := b1 ++ IPair k v c :: b2) in *.
  assert (E : texts (L1 ++ ISect a n j :: b ++ L2) = (cl L1 ++ a) ++ texts (ISect [] n j :: b) ++ rest L2).
  { change (ISect a n j :: b ++ L2) with ((ISect a n j :: b) ++ L2). rewrite texts_mid by discriminate. replace (ISect a n j) with (prepend a (ISect [] n j)) by (cbn; now rewrite app_nil_r). rewrite texts_prepend, <- !app_assoc. reflexivity. }
  assert (Een : block_end L1 (ISect a n j) b = length (cl L1 ++ a) + length (texts (ISect [] n j :: b))).
  { unfold block_end. rewrite texts_app by discriminate. replace (ISect a n j) with (prepend a (ISect [] n j)) by (cbn; now rewrite app_nil_r). rewrite texts_prepend, !app_length. lia. }
  unfold bssFindINIEntry. cbn [fst snd]. rewrite Een, E. rewrite <- (app_length (cl L1) a). rewrite find_entry_scan.
  - cbn [escan]. unfold b. rewrite escan_found; auto.
    + unfold P. rewrite cl_app, cl_cons, !app_length. cbn [text length]. rewrite !app_length. cbn [length]. rewrite !app_length. cbn [length]. do 3 f_equal; lia.
    + apply Forall_app in NS. tauto.
  - constructor; auto. destruct OKs as (NZ & NN & Ha & Hn). cbn [text] in *. split; [|split; [|split; [constructor|auto]]]; cbn [text].
    + apply Forall_app in NZ. tauto.
    + intros K. apply NN, in_or_app. now right.
  - discriminate.
  - apply rest_ends.
  - rewrite !app_length. lia.
Qed.
Lemma text_pair_split L1 a n j b1 k v c b2 L2 : texts (L1 ++ ISect a n j :: (b1 ++ IPair k v c :: b2) ++ L2) = cl (L1 ++ ISect a n j :: b1) ++ (k ++ equ :: v ++ c) ++ rest (b2 ++ L2).
Proof.
  replace (L1 ++ ISect a n j :: (b1 ++ IPair k v c :: b2) ++ L2) with ((L1 ++ ISect a n j :: b1) ++ [IPair k v c] ++ (b2 ++ L2)) by (asc; reflexivity).
  rewrite texts_mid by discriminate. reflexivity.
Qed.
Lemma lead_split k : k = firstn (lead k) k ++ ltrim k /\ Forall blank (firstn (lead k) k) /\ length (firstn (lead k) k) = lead k.
Proof.
  destruct (ltrim_spec k) as (g & E & F & _). assert (L : lead k = length g) by (unfold lead; apply (f_equal (@length Z)) in E; rewrite app_length in E; lia).
  assert (Ef : firstn (lead k) k = g) by (rewrite L, E at 1; apply firstn_app_len). rewrite Ef. auto.
Qed.
Definition delete_from (t : list Z) (b e : nat) : res (list Z) :=
  let e' := match strchr (skipn e t) nl e with None => e | Some i => S i end in erase t b (e' - b).
Lemma deleted L1 a n j b1 k v c b2 L2 : Forall line_ok (L1 ++ ISect a n j :: (b1 ++ IPair k v c :: b2) ++ L2) -> no_sect (b1 ++ IPair k v c :: b2) -> at_sect L2 ->
  let P := cl (L1 ++ ISect a n j :: b1) in
  exists ls', delete_from (texts (L1 ++ ISect a n j :: (b1 ++ IPair k v c :: b2) ++ L2)) (length P + lead k) (length P + length k + 1 + length v) = Ok (texts ls') /\ Forall line_ok ls' /\ ls' <> [] /\
    doc_of ls' = (fst (doc_of L1), snd (doc_of L1) ++ (trim n, fst (doc_of b1) ++ fst (doc_of b2)) :: snd (doc_of L2)).
Proof.
  intros OK NS A P. rewrite text_pair_split. fold P. apply Forall_app in OK as [OK1 OK2]. inversion OK2 as [|? ? OKs OK3]; subst. apply Forall_app in OK3 as [OKb OK2']. apply Forall_app in OKb as [OKb1 OKb2]. inversion OKb2 as [|? ? OKp OKb2']; subst.
  apply Forall_app in NS as [NS1 NS2]. inversion NS2 as [|? ? _ NS2']; subst. pose proof OKp as (NZ & NN & Hk & Hv & Hc).
  destruct (lead_split k) as (Ek & Fk & Lk). set (g := firstn (lead k) k) in *.
  assert (Hg : before_ok g). { pose proof (key_before k Hk) as B. rewrite Ek in B. apply Forall_app in B. tauto. }
  set (R := b2 ++ L2). unfold delete_from.
  set (M := ltrim k ++ equ :: v).
  assert (E1 : P ++ (k ++ equ :: v ++ c) ++ rest R = ((P ++ g) ++ M) ++ c ++ rest R).
  { rewrite Ek at 1. unfold M. asc; reflexivity. }
  assert (E2 : length P + length k + 1 + length v = length ((P ++ g) ++ M)).
  { unfold M. rewrite !app_length. cbn [length]. assert (Lk' : length k = length g + length (ltrim k)) by (rewrite Ek at 1; apply app_length). lia. }
  rewrite E1, E2, skipn_app_len. cbn [text] in NZ, NN.
  rewrite strchr_line. 2:{ apply Forall_app in NZ as [_ NZ]. inversion NZ as [|? ? _ NZ']; subst. apply Forall_app in NZ'. tauto. } 2:{ intros K. apply NN, in_or_app. right. right. apply in_or_app. auto. }
  replace (length P + lead k) with (length (P ++ g)) by (rewrite app_length; lia).
  assert (OKP : Forall line_ok (L1 ++ ISect a n j :: b1)) by (apply Forall_app; auto).
  assert (DR : forall r', at_sect r' -> no_sect b1) by auto.
  destruct R as [|r R'] eqn:ER; cbn [rest strchr].
  - unfold R in ER. apply app_eq_nil in ER as [-> ->]. exists ((L1 ++ ISect a n j :: b1) ++ [ILine (g ++ c)]). rewrite texts_app by discriminate. rewrite texts_one. cbn [text]. fold P.
    rewrite <- (app_assoc (P ++ g)). rewrite app_nil_r. rewrite erase_mid by (rewrite (app_length _ M); lia). rewrite <- app_assoc. split; auto. split; [|split; [destruct L1; discriminate|]].
    + apply Forall_app. split; auto. constructor; auto. split; [|split]; cbn [text].
      * apply Forall_app. split; [eapply Forall_impl; [|exact Hg]; cbn; tauto|]. apply Forall_app in NZ as [_ NZ]. inversion NZ as [|? ? _ NZ']; subst. apply Forall_app in NZ'. tauto.
      * intros K. apply in_app_or in K as [K|K]; [unfold before_ok in Hg; rewrite Forall_forall in Hg; apply Hg in K; tauto|]. apply NN, in_or_app. right. right. apply in_or_app. auto.
      * exists g, c. split; auto. split; auto. destruct Hc as [->|(c' & -> & _)]; eauto.
    + replace ((L1 ++ ISect a n j :: b1) ++ [ILine (g ++ c)]) with (L1 ++ ISect a n j :: (b1 ++ [ILine (g ++ c)]) ++ []) by (rewrite app_nil_r, <- app_assoc; reflexivity).
      rewrite doc_section; [|apply Forall_app; split; auto; constructor; auto|now left]. rewrite doc_no_sect by auto. reflexivity.
  - change (nl =? 0)%Z with false. change (nl =? nl)%Z with true. cbn iota.
    exists ((L1 ++ ISect a n j :: b1) ++ prepend g r :: R'). rewrite texts_app by discriminate. rewrite texts_prepend. fold P.
    replace (((P ++ g) ++ M) ++ c ++ nl :: texts (r :: R')) with ((P ++ g) ++ (M ++ c ++ [nl]) ++ texts (r :: R')) by (rewrite <- !app_assoc; reflexivity).
    rewrite erase_mid by (rewrite !app_length; cbn [length]; lia). rewrite <- app_assoc. split; auto. assert (OKR : Forall line_ok (r :: R')) by (rewrite <- ER; apply Forall_app; auto). inversion OKR; subst. split; [|split; [destruct L1; discriminate|]].
    + apply Forall_app. split; auto. constructor; auto. apply line_ok_prepend; auto.
    + assert (DP : forall X, doc_of (X ++ prepend g r :: R') = doc_of (X ++ r :: R')). { induction X as [|i X IH]; cbn [app]; [apply doc_prepend; auto|]. destruct i; cbn [doc_of]; now rewrite ?IH. }
      rewrite DP, <- ER, <- app_assoc. cbn [app]. unfold R. replace (b1 ++ b2 ++ L2) with ((b1 ++ b2) ++ L2) by now rewrite app_assoc. rewrite doc_section; [|apply Forall_app; auto|auto]. rewrite doc_no_sect by auto. reflexivity.
Qed.

(* ---- EditEntry: a new value ---- *)
Definition edit_value (t : list Z) (b e : nat) (nv : list Z) : option (res (list Z)) :=
  match strchr (skipn b t) equ b with
  | None => None
  | Some q => Some (do r <- trimr t (e - 1) (e - 1 - S q); replace t (S q) (S r - S q) nv)
  end.
Lemma replace_mid x y z n s : n = length y -> replace (x ++ y ++ z) (length x) n s = Ok (x ++ s ++ z).
Proof.
  intros ->. unfold replace. rewrite app_length. destruct (Nat.leb_spec (length x) (length x + length (y ++ z))); [|lia]. rewrite firstn_app_len.
  replace (x ++ y ++ z) with ((x ++ y) ++ z) by (now rewrite app_assoc). rewrite <- app_length, skipn_app_len. reflexivity.
Qed.
Lemma edited L1 a n j b1 k v c b2 L2 nv : Forall line_ok (L1 ++ ISect a n j :: (b1 ++ IPair k v c :: b2) ++ L2) -> no_sect (b1 ++ IPair k v c :: b2) -> at_sect L2 -> value_ok nv -> trim nv = nv ->
  let P := cl (L1 ++ ISect a n j :: b1) in
  exists ls' t', edit_value (texts (L1 ++ ISect a n j :: (b1 ++ IPair k v c :: b2) ++ L2)) (length P + lead k) (length P + length k + 1 + length v) nv = Some (Ok t') /\ t' = texts ls' /\ Forall line_ok ls' /\ ls' <> [] /\
    doc_of ls' = (fst (doc_of L1), snd (doc_of L1) ++ (trim n, fst (doc_of b1) ++ (trim k, nv) :: fst (doc_of b2)) :: snd (doc_of L2)).
Proof.
  intros OK NS A Hnv Tnv P. rewrite text_pair_split. fold P. apply Forall_app in OK as [OK1 OK2]. inversion OK2 as [|? ? OKs OK3]; subst. apply Forall_app in OK3 as [OKb OK2']. apply Forall_app in OKb as [OKb1 OKb2]. inversion OKb2 as [|? ? OKp OKb2']; subst.
  apply Forall_app in NS as [NS1 NS2]. inversion NS2 as [|? ? _ NS2']; subst. pose proof OKp as (NZ & NN & Hk & Hv & Hc).
  destruct (lead_split k) as (Ek & Fk & Lk). set (g := firstn (lead k) k) in *.
  set (R := b2 ++ L2). unfold edit_value. set (t := P ++ (k ++ equ :: v ++ c) ++ rest R).
  assert (Sk : skipn (length P + lead k) t = ltrim k ++ equ :: v ++ c ++ rest R).
  { unfold t. rewrite Ek at 2. replace (length P + lead k) with (length (P ++ g)) by (rewrite app_length; lia). replace (P ++ ((g ++ ltrim k) ++ equ :: v ++ c) ++ rest R) with ((P ++ g) ++ ltrim k ++ equ :: v ++ c ++ rest R) by (asc; reflexivity). now rewrite skipn_app_len. }
  assert (Lk2 : length k = lead k + length (ltrim k)) by (rewrite Ek at 1; rewrite app_length; lia).
  rewrite Sk. pose proof (key_before k Hk) as Bk. assert (Bl : before_ok (ltrim k)) by (rewrite Ek in Bk; apply Forall_app in Bk; tauto).
  rewrite strchr_line. 2:{ eapply Forall_impl; [|exact Bl]. cbn. tauto. } 2:{ intros K. unfold before_ok in Bl. rewrite Forall_forall in Bl. apply Bl in K. tauto. }
  cbn [strchr]. change (equ =? 0)%Z with false. change (equ =? equ)%Z with true. cbn iota.
  set (Q := P ++ k ++ [equ]). assert (LQ : S (length P + lead k + length (ltrim k)) = length Q) by (unfold Q; rewrite !app_length; cbn [length]; lia). rewrite LQ.
  replace (length P + length k + 1 + length v - 1) with (length P + length k + length v) by lia. replace (length P + length k + length v) with (length Q - 1 + length v) by (unfold Q; rewrite !app_length; cbn [length]; lia).
  assert (LQ0 : 0 < length Q) by (unfold Q; rewrite !app_length; cbn [length]; lia).
  assert (Et : t = Q ++ v ++ c ++ rest R) by (unfold t, Q; asc; reflexivity).
  assert (Key : exists x y r, v = x ++ y /\ Forall blank y /\ trimr t (length Q - 1 + length v) (length Q - 1 + length v - length Q) = Ok r /\ S r - length Q = length x).
  { destruct (trim_spec v) as (l & rb & Ev & Hl & Hr & Hf & Hla). destruct (trim v) as [|v0 vr] eqn:Etv.
    - cbn [app] in Ev. assert (Bv : Forall blank v) by (rewrite Ev; apply Forall_app; auto). destruct v as [|y0 y].
      + exists [], [], (length Q - 1). split; auto. split; auto. cbn [length]. replace (length Q - 1 + 0 - length Q) with 0 by lia. cbn [trimr]. split; [f_equal; lia|cbn [length]; lia].
      + inversion Bv as [|? ? B1 B2]; subst y0. exists [x], y, (length Q). split; auto. split; auto. split; [|cbn [length]; lia]. cbn [length]. rewrite trimr_begin; [f_equal; lia| |lia].
        intros i Hi. rewrite Et, nth_error_app2 by lia. rewrite nth_error_app1 by (cbn [length]; lia). destruct (nth_error (x :: y) (i - length Q)) as [w|] eqn:Ew; [|apply nth_error_None in Ew; cbn [length] in Ew; lia].
        exists w. split; auto. apply nth_error_In in Ew. rewrite Forall_forall in Bv. apply Bv in Ew. unfold blank in Ew. lia.
    - set (tv := v0 :: vr) in *. destruct (@exists_last _ tv) as (u & z & Eu); [discriminate|]. exists (l ++ tv), rb, (length (Q ++ l ++ u)).
      split; [now rewrite <- app_assoc|]. split; auto. split; [|rewrite Eu, !app_length; cbn [length]; lia].
      assert (Hz : (33 <= z)%Z). { pose proof (Hla z u Eu) as N. assert (Az : ascii z) by (unfold value_ok in Hv; rewrite Forall_forall in Hv; apply Hv; rewrite Ev, Eu, !in_app_iff; cbn; tauto). unfold blank, ascii in *. lia. }
      assert (Et2 : t = (Q ++ l ++ u) ++ z :: rb ++ c ++ rest R) by (rewrite Et, Ev, Eu, <- !app_assoc; reflexivity).
      assert (Lv : length Q - 1 + length v = length (Q ++ l ++ u) + length rb) by (rewrite Ev, Eu, !app_length; cbn [length]; lia).
      rewrite Lv. apply (trimr_stop t _ _ _ z); auto.
      + rewrite Et2, nth_error_app2, Nat.sub_diag by lia. reflexivity.
      + intros i Hi. rewrite Et2, nth_error_app2 by lia. destruct (i - length (Q ++ l ++ u)) as [|m] eqn:Em; [lia|]. cbn [nth_error]. rewrite nth_error_app1 by lia.
        destruct (nth_error rb m) as [w|] eqn:Ew; [|apply nth_error_None in Ew; lia]. exists w. split; auto. apply nth_error_In in Ew. rewrite Forall_forall in Hr. apply Hr in Ew. unfold blank in Ew. lia.
      + lia.
      + rewrite !app_length in *. lia. }
  destruct Key as (x & y & r & Ev & By & Er & Lr). rewrite Er. cbn [bind]. rewrite Et, Ev. rewrite <- (app_assoc x). rewrite replace_mid by auto.
  assert (Hy : value_ok y) by (unfold value_ok in *; rewrite Ev in Hv; apply Forall_app in Hv; tauto).
  exists ((L1 ++ ISect a n j :: b1) ++ [IPair k (nv ++ y) c] ++ R). eexists. split; [reflexivity|]. split; [|split; [|split; [destruct L1; discriminate|]]].
  - rewrite texts_mid by discriminate. rewrite texts_one. cbn [text]. fold P. unfold Q. asc; reflexivity.
  - apply Forall_app. split; [apply Forall_app; auto|]. constructor; [|apply Forall_app; auto]. cbn [text] in NZ, NN. apply Forall_app in NZ as [NZ1 NZ2]. inversion NZ2 as [|? ? _ NZ3]; subst. apply Forall_app in NZ3 as [_ NZ4].
    assert (Vy : value_ok (nv ++ y)) by (apply Forall_app; auto).
    split; [|split]; cbn [text].
    + apply Forall_app. split; auto. constructor; [discriminate|]. apply Forall_app. split; auto. eapply Forall_impl; [|exact Vy]. unfold ascii. cbn. lia.
    + intros K. apply in_app_or in K as [K|[K|K]]; [apply NN, in_or_app; auto|discriminate K|]. apply in_app_or in K as [K|K]; [unfold value_ok in Vy; rewrite Forall_forall in Vy; apply Vy in K; tauto|]. apply NN, in_or_app. right. right. apply in_or_app. auto.
    + auto.
  - rewrite <- app_assoc. cbn [app]. unfold R. replace (b1 ++ IPair k (nv ++ y) c :: b2 ++ L2) with ((b1 ++ IPair k (nv ++ y) c :: b2) ++ L2) by (rewrite <- app_assoc; reflexivity). rewrite doc_section; [|apply Forall_app; split; auto; constructor; auto|auto].
    rewrite doc_no_sect by auto. cbn [doc_of fst]. rewrite trim_right_blank, Tnv by auto. reflexivity.
Qed.
