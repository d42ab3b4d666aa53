(* Properties C35 (Hash is a finite map) and C36 (the probing terminates). *)
From Coq Require Import List Arith ZArith Bool Lia Permutation.
From Coq Require Import ZifyBool ZifyNat.
From Verif Require Import Common BitUtil Hash HashProofs.
Import ListNotations.

Section Spec.
Context {K V : Type} (hash : K -> nat) (eqb : K -> K -> bool).

(* HashEqual is an equivalence and HashFunc respects it *)
Record consistent : Prop := {
  c_refl : forall a, eqb a a = true;
  c_sym : forall a b, eqb a b = true -> eqb b a = true;
  c_trans : forall a b c, eqb a b = true -> eqb b c = true -> eqb a c = true;
  c_hash : forall a b, eqb a b = true -> hash a = hash b }.

(* a finite map as a list of entries with pairwise different keys *)
Definition distinct (l : list (K * V)) : Prop := ForallOrdPairs (fun a b => eqb (fst a) (fst b) = false) l.
Definition lookup (l : list (K * V)) (k : K) : option V := option_map snd (find (fun e => eqb (fst e) k) l).
(* what the table shows: a range loop visits the entries, Length counts them, Get and Exists answer for every key *)
Definition shows (h : table K V) (l : list (K * V)) : Prop :=
  iterate h = Ok l /\ distinct l /\ Length h = length l /\
  forall k, Get hash eqb h k = Ok (lookup l k) /\ Exists hash eqb h k = Ok (match lookup l k with Some _ => true | None => false end).
(* the arguments are 32-bit unsigned; the table does not outgrow 2^31 buckets *)
Definition valid (o : h_op K V) (l : list (K * V)) : Prop :=
  match o with
  | OInsert _ _ => (Z.of_nat (length l) < 2 ^ 30)%Z
  | OSetCapacity c => (0 <= c < 2 ^ 32)%Z
  | _ => True
  end.
(* the effect of each call *)
Definition effect (o : h_op K V) (l l' : list (K * V)) (h' : table K V) (r : nat + bool) : Prop :=
  match o with
  | OInsert k v =>
      (exists i, r = inl i /\ GetValue h' i = Ok (Some v)) /\
      (lookup l k = None -> Permutation l' ((k, v) :: l)) /\
      (* an existing entry keeps its key object and gets the new value *)
      (forall v0, lookup l k = Some v0 -> exists k0 m, eqb k0 k = true /\ Permutation l ((k0, v0) :: m) /\ Permutation l' ((k0, v) :: m))
  | OSet k v =>
      (lookup l k = None -> l' = l /\ r = inr false) /\
      (forall v0, lookup l k = Some v0 -> r = inr true /\
         exists k0 m, eqb k0 k = true /\ Permutation l ((k0, v0) :: m) /\ Permutation l' ((k0, v) :: m))
  | ORemove k =>
      (lookup l k = None -> l' = l /\ r = inr false) /\
      (forall v0, lookup l k = Some v0 -> r = inr true /\ exists k0, eqb k0 k = true /\ Permutation l ((k0, v0) :: l'))
  | ORemoveIter i =>
      (r = inr false /\ l' = l) \/ (r = inr true /\ exists e, Permutation l (e :: l'))
  | OClear => l' = []
  | OSetCapacity _ => Permutation l' l
  end.
Inductive reachable : table K V -> Prop :=
| r_new c h : (0 <= c < 2 ^ 32)%Z -> new_table hash c = Ok h -> reachable h
| r_step h o h' r : reachable h -> (forall l, shows h l -> valid o l) -> h_step hash eqb h o = Ok (h', r) -> reachable h'
| r_assign h c h' : reachable h -> reachable c -> assign hash h c = Ok h' -> reachable h'.
End Spec.

Section Proofs.
Context {K V : Type} (hash : K -> nat) (eqb : K -> K -> bool) (C : consistent hash eqb).
Notation table := (table K V).
Notation entries := (@entries K V).

(* --- distinct --- *)
Lemma eq_false a b : eqb a b = false -> eqb b a = false.
Proof. intros H. destruct (eqb b a) eqn:E; [|reflexivity]. apply (c_sym _ _ C) in E. congruence. Qed.
Lemma distinct_cons (e : K * V) l : distinct eqb (e :: l) <-> (forall x, In x l -> eqb (fst e) (fst x) = false) /\ distinct eqb l.
Proof.
  unfold distinct. split.
  - intros H. inversion H; subst. rewrite Forall_forall in *. auto.
  - intros [H1 H2]. constructor; [rewrite Forall_forall; exact H1|exact H2].
Qed.
Lemma distinct_perm (l l' : list (K * V)) : Permutation l l' -> distinct eqb l -> distinct eqb l'.
Proof.
  induction 1 as [|x l l' P IH|x y l|l l' l'' _ IH1 _ IH2]; auto.
  - rewrite !distinct_cons. intros [H1 H2]. split; [|auto]. intros z Hz. apply H1. eapply Permutation_in; [apply Permutation_sym; exact P|exact Hz].
  - rewrite !distinct_cons. intros (H1 & H2 & H3). split; [|split; [|exact H3]].
    + intros z [<-|Hz]; [apply eq_false, H1; left; reflexivity|auto].
    + intros z Hz. apply H1. right. exact Hz.
Qed.
Lemma lookup_in (l : list (K * V)) k k0 v : distinct eqb l -> In (k0, v) l -> eqb k0 k = true -> lookup eqb l k = Some v.
Proof.
  intros D Hin E. unfold lookup. induction l as [|[a b] l IH]; [destruct Hin|]. cbn [find]. apply distinct_cons in D. destruct D as [D1 D2].
  cbn [fst] in *. destruct (eqb a k) eqn:Ea.
  - destruct Hin as [Hin|Hin]; [injection Hin as -> ->; reflexivity|]. exfalso. specialize (D1 _ Hin). cbn [fst] in D1.
    rewrite (c_trans _ _ C a k k0) in D1; [discriminate|exact Ea|apply (c_sym _ _ C); exact E].
  - destruct Hin as [Hin|Hin]; [injection Hin as -> ->; congruence|]. apply IH; auto.
Qed.
Lemma lookup_none (l : list (K * V)) k : (forall e, In e l -> eqb (fst e) k = false) -> lookup eqb l k = None.
Proof.
  intros H. unfold lookup. destruct (find (fun e => eqb (fst e) k) l) as [e|] eqn:F; [|reflexivity].
  apply find_some in F. destruct F as [F1 F2]. rewrite (H e F1) in F2. discriminate.
Qed.

(* --- the invariant --- *)
Record tab (h : table) : Prop := {
  t_flags : length (flags h) = nb h;
  t_slots : length (slots h) = nb h;
  t_size : size h = length (entries (flags h) (slots h));
  t_occ : occ h = nonE (flags h);
  t_ub : ub h = upper (nb h);
  t_room : occ h <= ub h;
  t_live : forall i, nth_error (flags h) i = Some FLive -> exists e, nth_error (slots h) i = Some (Some e) /\ reach (nb h) (flags h) (hash (fst e)) i;
  t_dist : distinct eqb (entries (flags h) (slots h)) }.
Definition wf (h : table) : Prop := h = empty \/ (good_n (nb h) /\ tab h).
Definition cont (h : table) : list (K * V) := entries (flags h) (slots h).

Lemma tab_free h : good_n (nb h) -> tab h -> exists i, nth_error (flags h) i = Some FEmpty.
Proof.
  intros G T. apply nonE_free. rewrite (t_flags h T), <- (t_occ h T). pose proof (t_room h T). rewrite (t_ub h T) in *.
  pose proof (upper_lt (nb h) (good_n_ge _ G)). lia.
Qed.

(* --- lookup --- *)
Definition hit (h : table) (key : K) (i : nat) : Prop := exists e, liveAt (flags h) (slots h) i e /\ eqb (fst e) key = true.
Definition missing (h : table) (key : K) : Prop := forall i, ~ hit h key i.
Lemma get_loop_ok h key : good_n (nb h) -> tab h ->
  exists i, get_loop eqb (S (nb h)) h key (Nat.land (hash key) (nb h - 1)) (Nat.land (hash key) (nb h - 1)) 0 = Ok i /\
  ((i < nb h /\ hit h key i) \/ (i = nb h /\ missing h key)).
Proof.
  intros G T. destruct (tab_free h G T) as (i0 & Hi0). destruct G as (k & Hk & En).
  pose proof (t_flags h T) as LF. pose proof (t_slots h T) as LS.
  destruct (idx_surj k (hash key) i0) as (t0 & Ht0 & Et0); [rewrite <- En, <- LF; eapply nth_error_lt; exact Hi0|].
  replace (Nat.land (hash key) (nb h - 1)) with (idx (2 ^ k) (hash key) 0) by (rewrite En; symmetry; apply idx_0).
  assert (X : forall fuel s, t0 - s < fuel -> s <= t0 ->
    (forall r, r < s -> ~ hit h key (idx (2 ^ k) (hash key) r)) ->
    exists i, get_loop eqb fuel h key (idx (2 ^ k) (hash key) 0) (idx (2 ^ k) (hash key) s) s = Ok i /\
      ((i < nb h /\ hit h key i) \/ (i = nb h /\ missing h key))).
  { induction fuel as [|fuel IH]; intros s Hf Hs Hr; [lia|]. cbn [get_loop].
    destruct (get_ok (flags h) (idx (2 ^ k) (hash key) s)) as (f & Eg & Enf); [rewrite LF, En; apply idx_lt|]. rewrite Eg. cbn [bind].
    assert (NEXT : f <> FEmpty -> ~ hit h key (idx (2 ^ k) (hash key) s) ->
      exists i, (let i' := Nat.land (idx (2 ^ k) (hash key) s + S s) (nb h - 1) in
        if i' =? idx (2 ^ k) (hash key) 0 then Ok (nb h) else get_loop eqb fuel h key (idx (2 ^ k) (hash key) 0) i' (S s)) = Ok i /\
      ((i < nb h /\ hit h key i) \/ (i = nb h /\ missing h key))).
    { intros Hne Hnh. cbv zeta. replace (Nat.land (idx (2 ^ k) (hash key) s + S s) (nb h - 1)) with (idx (2 ^ k) (hash key) (S s)) by (rewrite En; symmetry; apply idx_S).
      assert (Hst : s <> t0) by (intros ->; rewrite Et0, Hi0 in Enf; congruence).
      destruct (Nat.eqb_spec (idx (2 ^ k) (hash key) (S s)) (idx (2 ^ k) (hash key) 0)) as [E0|_].
      { apply idx_inj in E0; lia. }
      apply IH; [lia|lia|]. intros r Hr'. destruct (Nat.eq_dec r s) as [->|]; [exact Hnh|apply Hr; lia]. }
    destruct f.
    - exists (nb h). split; [reflexivity|]. right. split; [reflexivity|]. intros i (e & [L1 L2] & Ee).
      destruct (t_live h T i L1) as (e' & L2' & t & Ht & Eti & Hts). rewrite L2 in L2'. injection L2' as <-.
      rewrite (c_hash _ _ C _ _ Ee), En in *. destruct (Nat.lt_ge_cases t s) as [Hlt|Hge].
      + apply (Hr t Hlt). exists e. rewrite Eti. split; [split; assumption|exact Ee].
      + destruct (Nat.eq_dec t s) as [->|Hne]; [rewrite Eti in Enf; congruence|]. apply (Hts s); [lia|exact Enf].
    - apply NEXT; [discriminate|]. intros (e & [L1 _] & _). congruence.
    - destruct (t_live h T _ Enf) as (e & He & _). unfold rd. rewrite (get_some _ _ _ He). cbn [bind].
      destruct (eqb (fst e) key) eqn:Ee.
      + eexists. split; [reflexivity|]. left. split; [rewrite En; apply idx_lt|]. exists e. split; [split; assumption|exact Ee].
      + apply NEXT; [discriminate|]. intros (e' & [_ L2] & Ee'). congruence. }
  apply X; [rewrite En; lia|lia|]. intros r Hr. lia.
Qed.
Lemma Iterator_ok h key : wf h -> exists i, Iterator hash eqb h key = Ok i /\ ((i < nb h /\ hit h key i) \/ (i = nb h /\ missing h key)).
Proof.
  intros [->|[G T]].
  - exists 0. split; [reflexivity|]. right. split; [reflexivity|]. intros i (e & [L _] & _). destruct i; discriminate.
  - unfold Iterator. pose proof (good_n_ge _ G). destruct (Nat.eqb_spec (nb h) 0); [lia|]. apply get_loop_ok; assumption.
Qed.
Lemma missing_lookup h key : missing h key -> lookup eqb (cont h) key = None.
Proof.
  intros M. apply lookup_none. intros e He. apply in_entries in He. destruct He as (i & L). destruct (eqb (fst e) key) eqn:E; [|reflexivity].
  exfalso. apply (M i). exists e. auto.
Qed.
Lemma cont_dist h : wf h -> distinct eqb (cont h).
Proof. intros [->|[G T]]; [constructor|apply (t_dist h T)]. Qed.
Lemma hit_lookup h key i e : wf h -> liveAt (flags h) (slots h) i e -> eqb (fst e) key = true -> lookup eqb (cont h) key = Some (snd e).
Proof.
  intros W L E. destruct e as [k v]. apply (lookup_in _ _ k); [apply cont_dist; exact W| |exact E]. apply in_entries. eauto.
Qed.

(* --- iteration --- *)
Lemma skip_ok h : tab h -> forall todo cur, todo + cur = nb h ->
  exists c, skip todo cur (flags h) = Ok c /\ cur <= c <= nb h /\ (c < nb h -> nth_error (flags h) c = Some FLive) /\
  entries (skipn cur (flags h)) (skipn cur (slots h)) = entries (skipn c (flags h)) (skipn c (slots h)).
Proof.
  intros T. induction todo as [|todo IH]; intros cur Hc; cbn [skip].
  - exists cur. split; [reflexivity|]. split; [lia|]. split; [lia|reflexivity].
  - destruct (get_ok (flags h) cur) as (f & Eg & En); [rewrite (t_flags h T); lia|]. rewrite Eg. cbn [bind]. destruct (is_live f) eqn:Ef.
    + exists cur. split; [reflexivity|]. split; [lia|]. split; [|reflexivity]. intros _. destruct f; try discriminate. exact En.
    + destruct (IH (S cur) ltac:(lia)) as (c & E & B & Lv & X). exists c. split; [exact E|]. split; [lia|]. split; [exact Lv|]. rewrite <- X.
      rewrite (skipn_cons (flags h) cur f En).
      destruct (nth_error_ex (slots h) cur) as [s Es]; [rewrite (t_slots h T); lia|]. rewrite (skipn_cons (slots h) cur s Es).
      cbn [HashProofs.entries]. destruct f; try discriminate; reflexivity.
Qed.
Lemma iterate_from_ok h : tab h -> forall fuel cur, cur <= nb h -> nb h - cur < fuel ->
  iterate_from fuel cur h = Ok (entries (skipn cur (flags h)) (skipn cur (slots h))).
Proof.
  intros T. induction fuel as [|fuel IH]; intros cur Hc Hf; [lia|]. cbn [iterate_from].
  destruct (skip_ok h T (nb h - cur) cur ltac:(lia)) as (c & E & B & Lv & X). rewrite E. cbn [bind]. rewrite X.
  destruct (Nat.eqb_spec c (nb h)) as [->|Hne].
  - rewrite skipn_all2 by (rewrite (t_flags h T); lia). reflexivity.
  - specialize (Lv ltac:(lia)). destruct (t_live h T c Lv) as (e & He & _). unfold rd. rewrite (get_some _ _ _ He). cbn [bind].
    rewrite IH by lia. cbn [bind]. rewrite (skipn_cons _ _ _ Lv), (skipn_cons _ _ _ He). reflexivity.
Qed.
Lemma iterate_ok h : wf h -> iterate h = Ok (cont h).
Proof.
  intros [->|[G T]]; [reflexivity|]. unfold iterate. rewrite (iterate_from_ok h T) by lia. reflexivity.
Qed.
Lemma ExistsIter_ok h i : wf h -> exists b, ExistsIter h i = Ok b /\ (if b then exists e, liveAt (flags h) (slots h) i e else nth_error (flags h) i <> Some FLive).
Proof.
  intros W. unfold ExistsIter. destruct (Nat.ltb_spec i (nb h)) as [Hi|Hi].
  - destruct W as [->|[G T]]; [cbn in Hi; lia|]. destruct (get_ok (flags h) i) as (f & Eg & En); [rewrite (t_flags h T); lia|].
    rewrite Eg. cbn [bind]. destruct f; eexists; (split; [reflexivity|]); cbn [is_live]; try (rewrite En; discriminate).
    destruct (t_live h T i En) as (e & He & _). exists e. split; assumption.
  - exists false. split; [reflexivity|]. destruct W as [->|[G T]]; [destruct i; discriminate|].
    rewrite (proj2 (nth_error_None (flags h) i)) by (rewrite (t_flags h T); lia). discriminate.
Qed.
Lemma GetValue_live h i e : wf h -> liveAt (flags h) (slots h) i e -> GetValue h i = Ok (Some (snd e)).
Proof.
  intros W [L1 L2]. unfold GetValue. destruct (ExistsIter_ok h i W) as (b & E & H). rewrite E. cbn [bind]. destruct b; [|congruence].
  unfold rd. rewrite (get_some _ _ _ L2). reflexivity.
Qed.
Lemma wf_shows h : wf h -> shows hash eqb h (cont h).
Proof.
  intros W. split; [apply iterate_ok; exact W|]. split; [apply cont_dist; exact W|]. split.
  - destruct W as [->|[G T]]; [reflexivity|]. apply (t_size h T).
  - intros k. unfold Get, Exists. destruct (Iterator_ok h k W) as (i & E & [[Hi (e & L & Ee)]|[-> M]]); rewrite E; cbn [bind].
    + rewrite (hit_lookup h k i e W L Ee), (GetValue_live h i e W L). split; [reflexivity|].
      destruct (ExistsIter_ok h i W) as (b & Eb & H). rewrite Eb. destruct b; [reflexivity|]. destruct L. contradiction.
    + rewrite (missing_lookup h k M). unfold GetValue, ExistsIter. rewrite Nat.ltb_irrefl. split; reflexivity.
Qed.
Lemma shows_fun (h : table) l l' : shows hash eqb h l -> shows hash eqb h l' -> l = l'.
Proof. intros (E & _) (E' & _). congruence. Qed.

(* --- resize --- *)
Lemma resize_ok h c : wf h -> (0 <= c < 2 ^ 32)%Z -> exists h', resize hash h c = Ok h' /\ wf h' /\ Permutation (cont h') (cont h) /\ size h' = size h /\
  ((upper (round_buckets c) <= size h /\ h' = h) \/ (nb h' = round_buckets c /\ good_n (nb h') /\ occ h' = size h /\ size h < ub h')).
Proof.
  intros W Hc. unfold resize. pose proof (round_good c Hc) as G. destruct (Nat.leb_spec (upper (round_buckets c)) (size h)) as [Hu|Hu].
  - exists h. split; [reflexivity|]. split; [exact W|]. split; [reflexivity|]. split; [reflexivity|]. left. auto.
  - pose proof G as (k & Hk & En). set (sl := if nb h <? round_buckets c then slots h ++ repeat None (round_buckets c - nb h) else slots h).
    assert (WF : length (flags h) = nb h /\ length (slots h) = nb h /\ size h = length (cont h) /\
      (forall i, nth_error (flags h) i = Some FLive -> exists e, nth_error (slots h) i = Some (Some e))).
    { destruct W as [->|[_ T]].
      - repeat split. intros [|i] Hi; discriminate.
      - split; [apply T|]. split; [apply T|]. split; [apply T|]. intros i Hi. destruct (t_live h T i Hi) as (e & He & _). eauto. }
    destruct WF as (W1 & W2 & W3 & W4).
    assert (Lsl : length sl = Nat.max (nb h) (round_buckets c)).
    { unfold sl. destruct (Nat.ltb_spec (nb h) (round_buckets c)); [rewrite app_length, repeat_length|]; lia. }
    assert (Esl : entries (flags h) sl = cont h).
    { unfold sl, cont. destruct (Nat.ltb_spec (nb h) (round_buckets c)); [apply entries_app; lia|reflexivity]. }
    assert (W4' : forall i, nth_error (flags h) i = Some FLive -> exists e, nth_error sl i = Some (Some e)).
    { intros i Hi. destruct (W4 i Hi) as (e & He). exists e. unfold sl. destruct (Nat.ltb_spec (nb h) (round_buckets c)); [|exact He].
      rewrite nth_error_app_l; [exact He|eapply nth_error_lt; exact He]. }
    clearbody sl. pose proof (good_n_ge _ G) as G4. pose proof (upper_lt _ G4) as UL. clear Hc. rewrite En in *.
    destruct (rehash_ok hash (nb h) k (nb h) 0 (flags h) (repeat FEmpty (2 ^ k)) sl) as (fl' & nfl & sl1 & E & R & Ls & P).
    + unfold rh. rewrite repeat_length. split; [exact W1|]. split; [reflexivity|]. split; [lia|]. split; [lia|]. split; [exact W4'|].
      assert (X : forall i f, nth_error (repeat FEmpty (2 ^ k)) i = Some f -> f = FEmpty) by (intros i f Hi; apply nth_error_In, repeat_spec in Hi; exact Hi).
      split; [intros i Hi; apply X in Hi; discriminate|]. split; [intros i Hi; apply X in Hi; discriminate|]. intros i _ Hi. apply X in Hi. discriminate.
    + lia.
    + unfold lives. rewrite entries_repeat, Esl. cbn [length]. lia.
    + intros i Hi. lia.
    + rewrite E. cbn [bind]. rewrite entries_repeat, app_nil_r, Esl in P. destruct R as (R1 & R2 & R3 & R4 & RO & RN & RD & RX).
      assert (Ef : entries nfl (firstn (2 ^ k) sl1) = entries nfl sl1) by (apply entries_firstn; lia).
      eexists. split; [reflexivity|]. cbn [nb size occ ub flags slots cont] in *. unfold cont at 1. cbn [flags slots]. rewrite Ef.
      split; [|split; [exact P|split; [reflexivity|right; split; [reflexivity|split; [exact G|split; [reflexivity|exact Hu]]]]]].
      right. cbn [nb]. split; [exact G|]. constructor; cbn [nb size occ ub flags slots].
      * exact R2.
      * rewrite firstn_length. lia.
      * rewrite Ef, (Permutation_length P). exact W3.
      * rewrite <- (entries_full nfl sl1); [rewrite (Permutation_length P); exact W3|lia|exact RD|].
        intros i Hi. destruct (RN i Hi) as (e & He & _). eauto.
      * reflexivity.
      * lia.
      * intros i Hi. destruct (RN i Hi) as (e & He & Re). exists e. split; [|exact Re]. rewrite nth_error_firstn.
        pose proof (nth_error_lt _ _ _ Hi). destruct (Nat.ltb_spec i (2 ^ k)); [exact He|lia].
      * rewrite Ef. eapply distinct_perm; [apply Permutation_sym; exact P|]. apply cont_dist. exact W.
Qed.
Lemma make_room_ok h : wf h -> (Z.of_nat (length (cont h)) < 2 ^ 30)%Z ->
  exists h', make_room hash h = Ok h' /\ good_n (nb h') /\ tab h' /\ occ h' < ub h' /\ Permutation (cont h') (cont h).
Proof.
  intros W Hs. unfold make_room. destruct (Nat.leb_spec (ub h) (occ h)) as [Hf|Hf].
  2:{ exists h. destruct W as [->|[G T]]; [cbn in Hf; lia|]. auto. }
  assert (FIN : forall c, (0 <= c < 2 ^ 32)%Z -> size h < upper (round_buckets c) ->
     exists h', resize hash h c = Ok h' /\ good_n (nb h') /\ tab h' /\ occ h' < ub h' /\ Permutation (cont h') (cont h)).
  { intros c Hc Hlt. destruct (resize_ok h c W Hc) as (h' & E & W' & P & Sz & [[X _]|(X1 & X2 & X3 & X4)]); [lia|].
    exists h'. split; [exact E|]. destruct W' as [->|[G' T']]; [pose proof (good_n_ge _ X2) as Y; cbn in Y; lia|].
    split; [exact X2|]. split; [exact T'|]. split; [lia|exact P]. }
  destruct W as [->|[G T]].
  - cbn [size nb empty Nat.mul Nat.ltb Nat.leb]. apply (FIN 1%Z); [lia|]. vm_compute. lia.
  - pose proof (t_size h T) as Sz. fold (cont h) in Sz. pose proof (good_n_ge _ G) as G4.
    assert (Hn : (Z.of_nat (nb h) <= 2 ^ 31)%Z).
    { destruct G as (k & Hk & ->). rewrite ofnat_pow. apply Z.pow_le_mono_r; lia. }
    destruct (Nat.ltb_spec (2 * size h) (nb h)) as [H2|H2].
    + apply FIN; [lia|]. rewrite (proj2 (round_same _ G)). apply upper_half; assumption.
    + apply FIN; [lia|]. apply (upper_double (nb h)); [exact G4| |].
      * rewrite Sz. etransitivity; [apply entries_le|]. etransitivity; [apply nonE_len|]. rewrite (t_flags h T). lia.
      * apply round_next; [exact G|].
        destruct G as (k & Hk & En). rewrite En, ofnat_pow in *. destruct (Nat.lt_ge_cases k 31) as [|Hk'].
        -- apply Z.pow_le_mono_r; lia.
        -- exfalso. assert (k = 31) by lia. subst k. change (Z.of_nat 31) with 31%Z in *. 
           assert (Z.of_nat (2 ^ 31) = 2 ^ 31)%Z by (rewrite ofnat_pow; reflexivity). lia.
Qed.

(* --- insertion --- *)
Lemma find_slot_ok h key : good_n (nb h) -> tab h ->
  exists x, find_slot hash eqb h key = Ok x /\ x < nb h /\
  (hit h key x \/ (missing h key /\ nth_error (flags h) x <> Some FLive /\ reach (nb h) (flags h) (hash key) x)).
Proof.
  intros G T. destruct (tab_free h G T) as (i0 & Hi0). pose proof G as (k & Hk & En).
  pose proof (t_flags h T) as LF. pose proof (t_slots h T) as LS.
  destruct (idx_surj k (hash key) i0) as (t0 & Ht0 & Et0); [rewrite <- En, <- LF; eapply nth_error_lt; exact Hi0|].
  assert (MISS : forall s, s < 2 ^ k -> nth_error (flags h) (idx (2 ^ k) (hash key) s) = Some FEmpty ->
    (forall r, r < s -> ~ hit h key (idx (2 ^ k) (hash key) r)) -> missing h key).
  { intros s Hs Enf Hr i (e & [L1 L2] & Ee). destruct (t_live h T i L1) as (e' & L2' & t & Ht & Eti & Hts). rewrite L2 in L2'. injection L2' as <-.
    rewrite (c_hash _ _ C _ _ Ee), En in *. destruct (Nat.lt_ge_cases t s) as [Hlt|Hge].
    - apply (Hr t Hlt). exists e. rewrite Eti. split; [split; assumption|exact Ee].
    - destruct (Nat.eq_dec t s) as [->|Hne]; [rewrite Eti in Enf; congruence|]. apply (Hts s); [lia|exact Enf]. }
  unfold find_slot. cbv zeta. replace (Nat.land (hash key) (nb h - 1)) with (idx (2 ^ k) (hash key) 0) by (rewrite En; symmetry; apply idx_0).
  assert (X : forall fuel s site, t0 - s < fuel -> s <= t0 ->
    (forall r, r < s -> ~ hit h key (idx (2 ^ k) (hash key) r) /\ nth_error (flags h) (idx (2 ^ k) (hash key) r) <> Some FEmpty) ->
    (site = nb h \/ exists r, r < s /\ idx (2 ^ k) (hash key) r = site /\ nth_error (flags h) site = Some FDel) ->
    exists x, put_loop eqb fuel h key (idx (2 ^ k) (hash key) 0) site (idx (2 ^ k) (hash key) s) s = Ok x /\ x < nb h /\
      (hit h key x \/ (missing h key /\ nth_error (flags h) x <> Some FLive /\ reach (nb h) (flags h) (hash key) x))).
  { induction fuel as [|fuel IH]; intros s site Hf Hs Hr Hsite; [lia|]. cbn [put_loop].
    destruct (get_ok (flags h) (idx (2 ^ k) (hash key) s)) as (f & Eg & Enf); [rewrite LF, En; apply idx_lt|]. rewrite Eg. cbn [bind].
    assert (NEXT : forall site', f <> FEmpty -> ~ hit h key (idx (2 ^ k) (hash key) s) ->
      (site' = nb h \/ exists r, r < S s /\ idx (2 ^ k) (hash key) r = site' /\ nth_error (flags h) site' = Some FDel) ->
      exists x, (let i' := Nat.land (idx (2 ^ k) (hash key) s + S s) (nb h - 1) in
        if i' =? idx (2 ^ k) (hash key) 0 then Ok (if site' =? nb h then i' else site') else put_loop eqb fuel h key (idx (2 ^ k) (hash key) 0) site' i' (S s)) = Ok x /\
      x < nb h /\ (hit h key x \/ (missing h key /\ nth_error (flags h) x <> Some FLive /\ reach (nb h) (flags h) (hash key) x))).
    { intros site' Hne Hnh Hsite'. cbv zeta. replace (Nat.land (idx (2 ^ k) (hash key) s + S s) (nb h - 1)) with (idx (2 ^ k) (hash key) (S s)) by (rewrite En; symmetry; apply idx_S).
      assert (Hst : s <> t0) by (intros ->; rewrite Et0, Hi0 in Enf; congruence).
      destruct (Nat.eqb_spec (idx (2 ^ k) (hash key) (S s)) (idx (2 ^ k) (hash key) 0)) as [E0|_].
      { apply idx_inj in E0; lia. }
      apply IH; [lia|lia| |exact Hsite']. intros r Hr'. destruct (Nat.eq_dec r s) as [->|]; [split; [exact Hnh|congruence]|apply Hr; lia]. }
    destruct f.
    - assert (M : missing h key) by (apply (MISS s); [lia|exact Enf|apply Hr]).
      destruct Hsite as [->|(r & Hrs & Er & Ed)].
      + rewrite Nat.eqb_refl. eexists. split; [reflexivity|]. split; [rewrite En; apply idx_lt|]. right. split; [exact M|]. split; [congruence|].
        exists s. rewrite En. split; [lia|]. split; [reflexivity|]. intros r Hr'. apply Hr. exact Hr'.
      + assert (Hsn : site < nb h) by (rewrite <- Er, En; apply idx_lt). destruct (Nat.eqb_spec site (nb h)); [lia|].
        exists site. split; [reflexivity|]. split; [exact Hsn|]. right. split; [exact M|]. split; [congruence|].
        exists r. rewrite En. split; [lia|]. split; [exact Er|]. intros r' Hr'. apply Hr. lia.
    - apply NEXT; [discriminate| |].
      + intros (e & [L1 _] & _). congruence.
      + right. exists s. split; [lia|]. split; [reflexivity|exact Enf].
    - destruct (t_live h T _ Enf) as (e & He & _). unfold rd. rewrite (get_some _ _ _ He). cbn [bind].
      destruct (eqb (fst e) key) eqn:Ee.
      + eexists. split; [reflexivity|]. split; [rewrite En; apply idx_lt|]. left. exists e. split; [split; assumption|exact Ee].
      + apply NEXT; [discriminate| |].
        * intros (e' & [_ L2] & Ee'). congruence.
        * destruct Hsite as [->|(r & Hrs & Q)]; [left; reflexivity|right; exists r; split; [lia|exact Q]]. }
  destruct (get_ok (flags h) (idx (2 ^ k) (hash key) 0)) as (f & Eg & Enf); [rewrite LF, En; apply idx_lt|]. rewrite Eg. cbn [bind].
  destruct (is_empty f) eqn:Ef.
  - destruct f; try discriminate. eexists. split; [reflexivity|]. split; [rewrite En; apply idx_lt|]. right.
    split; [apply (MISS 0); [lia|exact Enf|intros r Hr; lia]|]. split; [congruence|]. exists 0. rewrite En. split; [lia|]. split; [reflexivity|]. intros r Hr. lia.
  - apply X; [rewrite En; lia|lia|intros r Hr; lia|left; reflexivity].
Qed.
(* writing a new entry to a free bucket *)
Lemma put_new h key v x occ' : good_n (nb h) -> tab h -> missing h key -> x < nb h -> nth_error (flags h) x <> Some FLive -> reach (nb h) (flags h) (hash key) x ->
  occ' = nonE (upd (flags h) x FLive) -> occ' <= ub h ->
  let h' := mk (nb h) (S (size h)) occ' (ub h) (upd (flags h) x FLive) (upd (slots h) x (Some (key, v))) in
  wf h' /\ Permutation (cont h') ((key, v) :: cont h) /\ liveAt (flags h') (slots h') x (key, v).
Proof.
  intros G T M Hx Hl R Ho Hu. cbv zeta. pose proof (t_flags h T) as LF. pose proof (t_slots h T) as LS.
  assert (P : Permutation (entries (upd (flags h) x FLive) (upd (slots h) x (Some (key, v)))) ((key, v) :: cont h)).
  { apply entries_add; [exact Hl|lia|lia]. }
  split; [|split; [exact P|]].
  - right. cbn [nb]. split; [exact G|]. constructor; cbn [nb size occ ub flags slots].
    + rewrite upd_length. exact LF.
    + rewrite upd_length. exact LS.
    + rewrite (Permutation_length P). cbn [length]. f_equal. apply (t_size h T).
    + exact Ho.
    + apply (t_ub h T).
    + exact Hu.
    + intros i Hi. assert (RM : forall hh j, reach (nb h) (flags h) hh j -> reach (nb h) (upd (flags h) x FLive) hh j).
      { intros hh j. apply reach_mono. intros z. apply upd_keep. discriminate. }
      destruct (Nat.eq_dec x i) as [<-|Hne].
      * exists (key, v). rewrite nth_error_upd_eq by lia. split; [reflexivity|]. apply RM. exact R.
      * rewrite nth_error_upd_neq in Hi by auto. rewrite nth_error_upd_neq by auto. destruct (t_live h T i Hi) as (e & He & Re). exists e. split; [exact He|]. apply RM. exact Re.
    + eapply distinct_perm; [apply Permutation_sym; exact P|]. apply distinct_cons. split; [|apply (t_dist h T)].
      intros e He. apply in_entries in He. destruct He as (i & L). cbn [fst]. destruct (eqb key (fst e)) eqn:E; [|reflexivity].
      exfalso. apply (M i). exists e. split; [exact L|]. apply (c_sym _ _ C). exact E.
  - split; cbn [flags slots]; apply nth_error_upd_eq; lia.
Qed.
(* assigning a value to a live bucket *)
Lemma put_val h x e v : good_n (nb h) -> tab h -> liveAt (flags h) (slots h) x e ->
  let h' := mk (nb h) (size h) (occ h) (ub h) (flags h) (upd (slots h) x (Some (fst e, v))) in
  wf h' /\ liveAt (flags h') (slots h') x (fst e, v) /\ exists m, Permutation (cont h) (e :: m) /\ Permutation (cont h') ((fst e, v) :: m).
Proof.
  intros G T L. cbv zeta. pose proof (t_flags h T) as LF. pose proof (t_slots h T) as LS. destruct L as [L1 L2].
  pose proof (nth_error_lt _ _ _ L2) as Lx.
  destruct (entries_set _ _ _ _ (fst e, v) (conj L1 L2)) as (m & P1 & P2).
  split; [|split].
  - right. cbn [nb]. split; [exact G|]. constructor; cbn [nb size occ ub flags slots].
    + exact LF.
    + rewrite upd_length. exact LS.
    + rewrite (Permutation_length P2), (t_size h T), (Permutation_length P1). reflexivity.
    + apply (t_occ h T).
    + apply (t_ub h T).
    + apply (t_room h T).
    + intros i Hi. destruct (t_live h T i Hi) as (e' & He & Re). destruct (Nat.eq_dec x i) as [<-|Hne].
      * exists (fst e, v). rewrite nth_error_upd_eq by lia. split; [reflexivity|]. rewrite L2 in He. injection He as <-. exact Re.
      * exists e'. rewrite nth_error_upd_neq by auto. auto.
    + eapply distinct_perm; [apply Permutation_sym; exact P2|]. pose proof (distinct_perm _ _ P1 (t_dist h T)) as D.
      apply distinct_cons in D. apply distinct_cons. exact D.
  - split; cbn [flags slots]; [exact L1|apply nth_error_upd_eq; lia].
  - exists m. split; assumption.
Qed.
Lemma lookup_perm (l l' : list (K * V)) k : distinct eqb l -> Permutation l l' -> lookup eqb l k = lookup eqb l' k.
Proof.
  intros D P. pose proof (distinct_perm _ _ P D) as D'. destruct (lookup eqb l k) as [v|] eqn:E.
  - symmetry. unfold lookup in E. destruct (find (fun e => eqb (fst e) k) l) as [[k0 v0]|] eqn:F; [|discriminate]. injection E as <-.
    apply find_some in F. destruct F as [F1 F2]. apply (lookup_in _ _ k0); [exact D'|eapply Permutation_in; [exact P|exact F1]|exact F2].
  - symmetry. apply lookup_none. intros e He. destruct (eqb (fst e) k) eqn:Ee; [|reflexivity]. exfalso. destruct e as [k0 v0].
    rewrite (lookup_in l k k0 v0) in E; [discriminate|exact D|eapply Permutation_in; [apply Permutation_sym; exact P|exact He]|exact Ee].
Qed.
Lemma Insert_ok h key v : wf h -> (Z.of_nat (length (cont h)) < 2 ^ 30)%Z -> exists h' i, Insert hash eqb h key v = Ok (h', i) /\ wf h' /\
  effect eqb (OInsert key v) (cont h) (cont h') h' (inl i).
Proof.
  intros W Hs. unfold Insert. destruct (make_room_ok h W Hs) as (h1 & E1 & G & T & Room & P). rewrite E1. cbn [bind].
  assert (W1 : wf h1) by (right; auto).
  destruct (find_slot_ok h1 key G T) as (x & Ex & Hx & D). rewrite Ex. cbn [bind].
  pose proof (t_flags h1 T) as LF. pose proof (t_slots h1 T) as LS.
  rewrite (t_occ h1 T) in Room |- *.
  destruct (get_ok (flags h1) x ltac:(lia)) as (f & Eg & En). rewrite Eg. cbn [bind].
  assert (LK : lookup eqb (cont h) key = lookup eqb (cont h1) key) by (apply lookup_perm; [apply cont_dist; exact W|apply Permutation_sym; exact P]).
  destruct D as [(e & L & Ee)|(M & Hl & R)].
  - pose proof L as [L1 L2]. assert (f = FLive) by congruence. subst f. unfold rd. rewrite (get_some _ _ _ L2). cbn [bind]. rewrite set_ok by lia. cbn [bind].
    destruct (put_val h1 x e v G T L) as (W' & L' & m & P1 & P2). rewrite (t_occ h1 T) in *.
    do 2 eexists. split; [reflexivity|]. split; [exact W'|]. cbn [effect]. rewrite LK, (hit_lookup h1 key x e W1 L Ee). split; [|split].
    + exists x. split; [reflexivity|]. apply (GetValue_live _ _ _ W' L').
    + discriminate.
    + intros v0 Ev. injection Ev as <-. exists (fst e), m. split; [exact Ee|]. split; [rewrite <- P, P1; destruct e; reflexivity|exact P2].
  - destruct f; [| |congruence]; rewrite (set_ok (flags h1)) by lia; cbn [bind]; rewrite set_ok by lia; cbn [bind].
    + destruct (put_new h1 key v x (S (nonE (flags h1))) G T M Hx Hl R) as (W' & P' & L').
      { symmetry. apply nonE_take; [exact En|discriminate]. } { lia. }
      do 2 eexists. split; [reflexivity|]. split; [exact W'|]. cbn [effect]. rewrite LK, (missing_lookup h1 key M). split; [|split].
      * exists x. split; [reflexivity|]. apply (GetValue_live _ _ _ W' L').
      * intros _. rewrite P', P. reflexivity.
      * discriminate.
    + destruct (put_new h1 key v x (nonE (flags h1)) G T M Hx Hl R) as (W' & P' & L').
      { symmetry. eapply nonE_same; [exact En|discriminate|discriminate]. } { lia. }
      do 2 eexists. split; [reflexivity|]. split; [exact W'|]. cbn [effect]. rewrite LK, (missing_lookup h1 key M). split; [|split].
      * exists x. split; [reflexivity|]. apply (GetValue_live _ _ _ W' L').
      * intros _. rewrite P', P. reflexivity.
      * discriminate.
Qed.
(* --- the other calls --- *)
Lemma SetValue_ok h i v : wf h -> exists h' b, SetValue h i v = Ok (h', b) /\ wf h' /\
  (if b then exists e m, liveAt (flags h) (slots h) i e /\ Permutation (cont h) (e :: m) /\ Permutation (cont h') ((fst e, v) :: m)
   else h' = h /\ nth_error (flags h) i <> Some FLive).
Proof.
  intros W. unfold SetValue. destruct (ExistsIter_ok h i W) as (b & E & H). rewrite E. cbn [bind]. destruct b.
  - destruct H as (e & L). pose proof L as [L1 L2]. unfold rd. rewrite (get_some _ _ _ L2). cbn [bind].
    destruct W as [->|[G T]]; [destruct i; discriminate|]. rewrite set_ok by (eapply nth_error_lt; exact L2). cbn [bind].
    destruct (put_val h i e v G T L) as (W' & L' & m & P1 & P2). do 2 eexists. split; [reflexivity|]. split; [exact W'|]. exists e, m. auto.
  - do 2 eexists. split; [reflexivity|]. split; [exact W|]. auto.
Qed.
Lemma delete_ok h x e : wf h -> liveAt (flags h) (slots h) x e -> exists h', delete h x = Ok h' /\ wf h' /\ Permutation (cont h) (e :: cont h').
Proof.
  intros [->|[G T]] [L1 L2]; [destruct x; discriminate|]. unfold delete. pose proof (t_flags h T) as LF. pose proof (t_slots h T) as LS.
  pose proof (nth_error_lt _ _ _ L1) as Lx. destruct (Nat.eqb_spec x (nb h)); [lia|]. rewrite (get_some _ _ _ L1). cbn [bind is_live].
  unfold rd. rewrite (get_some _ _ _ L2). cbn [bind]. rewrite set_ok by lia. cbn [bind]. rewrite set_ok by lia. cbn [bind].
  assert (P : Permutation (cont h) (e :: entries (upd (flags h) x FDel) (slots h))) by (apply entries_drop; [split; assumption|discriminate]).
  assert (Nl : nth_error (upd (flags h) x FDel) x <> Some FLive) by (rewrite nth_error_upd_eq by lia; discriminate).
  rewrite <- (entries_frame _ _ x None Nl) in P.
  eexists. split; [reflexivity|]. split; [|exact P].
  right. cbn [nb]. split; [exact G|]. constructor; cbn [nb size occ ub flags slots].
  - rewrite upd_length. exact LF.
  - rewrite upd_length. exact LS.
  - rewrite (t_size h T). fold (cont h). rewrite (Permutation_length P). cbn [length]. lia.
  - rewrite (t_occ h T). symmetry. eapply nonE_same; [exact L1|discriminate|discriminate].
  - apply (t_ub h T).
  - apply (t_room h T).
  - intros i Hi. destruct (Nat.eq_dec x i) as [<-|Hne]; [contradiction|]. rewrite nth_error_upd_neq in Hi by auto. rewrite nth_error_upd_neq by auto.
    destruct (t_live h T i Hi) as (e' & He & Re). exists e'. split; [exact He|]. eapply reach_mono; [|exact Re]. intros z. apply upd_keep. discriminate.
  - pose proof (distinct_perm _ _ P (t_dist h T)) as D. apply distinct_cons in D. apply D.
Qed.
Lemma Clear_ok h : wf h -> wf (Clear h) /\ cont (Clear h) = [] /\ size (Clear h) = 0.
Proof.
  intros W. unfold cont, Clear. cbn [flags slots size]. rewrite entries_repeat. split; [|auto]. destruct W as [->|[G T]]; [left; reflexivity|].
  right. cbn [nb]. split; [exact G|]. constructor; cbn [nb size occ ub flags slots].
  - apply repeat_length.
  - apply repeat_length.
  - rewrite entries_repeat. reflexivity.
  - rewrite nonE_repeat. reflexivity.
  - apply (t_ub h T).
  - lia.
  - intros i Hi. apply nth_error_In, repeat_spec in Hi. discriminate.
  - rewrite entries_repeat. constructor.
Qed.
Lemma step_ok h o : wf h -> valid o (cont h) -> exists h' r, h_step hash eqb h o = Ok (h', r) /\ wf h' /\ effect eqb o (cont h) (cont h') h' r.
Proof.
  intros W Vl. destruct o as [k v|k v|k|i| |c]; cbn [h_step valid] in *.
  - destruct (Insert_ok h k v W Vl) as (h' & i & E & W' & Ef). rewrite E. cbn [bind]. do 2 eexists. split; [reflexivity|]. split; [exact W'|exact Ef].
  - unfold Set_. destruct (Iterator_ok h k W) as (i & E & D). rewrite E. cbn [bind].
    destruct (SetValue_ok h i v W) as (h' & b & E' & W' & H). rewrite E'. cbn [bind]. do 2 eexists. split; [reflexivity|]. split; [exact W'|]. cbn [effect].
    destruct D as [[Hi (e & L & Ee)]|[-> M]].
    + rewrite (hit_lookup h k i e W L Ee). split; [discriminate|]. intros v0 Ev. injection Ev as <-.
      destruct b; [|destruct L; tauto]. destruct H as (e' & m & L' & P1 & P2). assert (e' = e) by (destruct L, L'; congruence). subst e'.
      split; [reflexivity|]. exists (fst e), m. split; [exact Ee|]. split; [destruct e; exact P1|exact P2].
    + rewrite (missing_lookup h k M). split; [|discriminate]. intros _. destruct b; [|destruct H as [-> _]; auto].
      destruct H as (e & m & [L _] & _). apply nth_error_lt in L. destruct W as [->|[G T]]; [cbn in L; lia|]. rewrite (t_flags h T) in L. lia.
  - unfold Remove. destruct (Iterator_ok h k W) as (i & E & D). rewrite E. cbn [bind]. destruct D as [[Hi (e & L & Ee)]|[-> M]].
    + destruct (Nat.eqb_spec (nb h) i); [lia|]. destruct (delete_ok h i e W L) as (h' & E' & W' & P). rewrite E'. cbn [bind].
      do 2 eexists. split; [reflexivity|]. split; [exact W'|]. cbn [effect]. rewrite (hit_lookup h k i e W L Ee). split; [discriminate|].
      intros v0 Ev. injection Ev as <-. split; [reflexivity|]. exists (fst e). split; [exact Ee|]. destruct e; exact P.
    + rewrite Nat.eqb_refl. cbn [bind]. do 2 eexists. split; [reflexivity|]. split; [exact W|]. cbn [effect]. rewrite (missing_lookup h k M). split; [auto|discriminate].
  - unfold RemoveIter. destruct (ExistsIter_ok h i W) as (b & E & H). rewrite E. cbn [bind]. destruct b.
    + destruct H as (e & L). destruct (delete_ok h i e W L) as (h' & E' & W' & P). rewrite E'. cbn [bind].
      do 2 eexists. split; [reflexivity|]. split; [exact W'|]. right. split; [reflexivity|]. eauto.
    + do 2 eexists. split; [reflexivity|]. split; [exact W|]. left. auto.
  - destruct (Clear_ok h W) as (W' & Ec & _). do 2 eexists. split; [reflexivity|]. split; [exact W'|exact Ec].
  - unfold SetCapacity. destruct (Z.ltb_spec (Z.of_nat (nb h)) c).
    + destruct (resize_ok h c W Vl) as (h' & E & W' & P & _). rewrite E. cbn [bind]. do 2 eexists. split; [reflexivity|]. split; [exact W'|exact P].
    + do 2 eexists. split; [reflexivity|]. split; [exact W|]. cbn [effect]. reflexivity.
Qed.
Lemma copy_slots_ok cfl (csl : list (option (K * V))) : forall todo i sl, length cfl = todo + i -> length csl = todo + i -> length sl = todo + i ->
  (forall j, nth_error cfl j = Some FLive -> exists e, nth_error csl j = Some (Some e)) ->
  exists sl', copy_slots todo i cfl csl sl = Ok sl' /\ length sl' = length sl /\
    (forall j, i <= j -> nth_error cfl j = Some FLive -> nth_error sl' j = nth_error csl j) /\ (forall j, j < i -> nth_error sl' j = nth_error sl j).
Proof.
  induction todo as [|todo IH]; intros i sl H1 H2 H3 HL; cbn [copy_slots].
  - exists sl. split; [reflexivity|]. split; [reflexivity|]. split; [|auto]. intros j Hj Hl. apply nth_error_lt in Hl. lia.
  - destruct (get_ok cfl i ltac:(lia)) as (f & Eg & En). rewrite Eg. cbn [bind]. destruct (is_live f) eqn:Ef.
    + destruct f; try discriminate. destruct (HL i En) as (e & He). unfold rd. rewrite (get_some _ _ _ He). cbn [bind]. rewrite set_ok by lia. cbn [bind].
      destruct (IH (S i) (upd sl i (Some e)) ltac:(lia) ltac:(lia) ltac:(rewrite upd_length; lia) HL) as (sl' & E & Ls & A & B).
      exists sl'. split; [exact E|]. split; [rewrite Ls, upd_length; reflexivity|]. split.
      * intros j Hj Hl. destruct (Nat.eq_dec i j) as [<-|Hne]; [|apply A; [lia|exact Hl]]. rewrite B by lia. rewrite nth_error_upd_eq by lia. congruence.
      * intros j Hj. rewrite B by lia. apply nth_error_upd_neq. lia.
    + destruct (IH (S i) sl ltac:(lia) ltac:(lia) ltac:(lia) HL) as (sl' & E & Ls & A & B).
      exists sl'. split; [exact E|]. split; [exact Ls|]. split.
      * intros j Hj Hl. destruct (Nat.eq_dec i j) as [<-|Hne]; [rewrite En in Hl; injection Hl as ->; discriminate|]. apply A; [lia|exact Hl].
      * intros j Hj. apply B. lia.
Qed.
Lemma entries_agree fl : forall (s1 s2 : list (option (K * V))), length s1 = length s2 ->
  (forall i, nth_error fl i = Some FLive -> nth_error s1 i = nth_error s2 i) -> entries fl s1 = entries fl s2.
Proof.
  induction fl as [|f fl IH]; intros [|a s1] [|b s2] L H; try discriminate; try reflexivity. cbn [HashProofs.entries].
  rewrite (IH s1 s2) by (try (intros i; apply (H (S i))); cbn [length] in L; lia). destruct f; auto. specialize (H 0 eq_refl). injection H as ->. reflexivity.
Qed.
Lemma assign_ok h c : wf h -> wf c -> exists h', assign hash h c = Ok h' /\ wf h' /\ cont h' = cont c.
Proof.
  intros Wh Wc. unfold assign. destruct Wc as [->|[G T]]; [exists empty; split; [reflexivity|split; [left; reflexivity|reflexivity]]|].
  pose proof (good_n_ge _ G) as G4. destruct (Nat.eqb_spec (nb c) 0); [lia|]. destruct (Clear_ok h Wh) as (W' & _ & Sz).
  destruct (resize_ok (Clear h) (Z.of_nat (nb c)) W') as (h1 & E & W1 & _ & _ & D).
  { destruct G as (k & Hk & ->). rewrite ofnat_pow. split; [lia|]. apply Z.pow_lt_mono_r; lia. }
  rewrite E. cbn [bind]. rewrite (proj1 (round_same _ G)), Sz in D. pose proof (upper_half (nb c) 0 G4 ltac:(lia)).
  destruct D as [[D _]|(D & _)]; [lia|]. rewrite D.
  destruct W1 as [->|[G1 T1]]; [cbn in D; lia|]. pose proof (t_flags c T) as LF. pose proof (t_slots c T) as LS.
  destruct (Nat.leb_spec (nb c) (length (flags c))); [|lia]. cbn [negb].
  destruct (copy_slots_ok (flags c) (slots c) (nb c) 0 (slots h1)) as (sl' & E' & Ls & A & _).
  { lia. } { lia. } { rewrite (t_slots h1 T1). lia. } { intros j Hj. destruct (t_live c T j Hj) as (e & He & _). eauto. }
  rewrite E'. cbn [bind]. rewrite firstn_all2 by lia. rewrite (t_slots h1 T1), D in Ls.
  assert (EE : entries (flags c) sl' = cont c) by (apply entries_agree; [lia|intros i Hi; apply A; [lia|exact Hi]]).
  eexists. split; [reflexivity|]. split; [|exact EE]. right. cbn [nb]. split; [exact G|]. constructor; cbn [nb size occ ub flags slots].
  - exact LF.
  - exact Ls.
  - rewrite EE. apply (t_size c T).
  - apply (t_occ c T).
  - apply (t_ub c T).
  - apply (t_room c T).
  - intros i Hi. rewrite A by (auto; lia). apply (t_live c T). exact Hi.
  - rewrite EE. apply (t_dist c T).
Qed.
Lemma reachable_wf h : reachable hash eqb h -> wf h.
Proof.
  induction 1 as [c h Hc E|h o h' r _ W V' E|h c h' _ W _ Wc E].
  - unfold new_table in E. destruct (Z.ltb_spec 0 c).
    + destruct (resize_ok empty c (or_introl eq_refl) Hc) as (h1 & E1 & W1 & _). congruence.
    + injection E as <-. left. reflexivity.
  - destruct (step_ok h o W (V' _ (wf_shows h W))) as (h1 & r1 & E1 & W1 & _). congruence.
  - destruct (assign_ok h c W Wc) as (h1 & E1 & W1 & _). congruence.
Qed.
End Proofs.

(* C35: a reachable table shows a finite map, and every call is defined and has the effect described above. *)
Theorem C35_Hash_map : forall (K V : Type) (hash : K -> nat) (eqb : K -> K -> bool), consistent hash eqb ->
  forall h : table K V, reachable hash eqb h ->
  (exists l, shows hash eqb h l) /\
  forall l o, shows hash eqb h l -> valid o l ->
    exists h' r l', h_step hash eqb h o = Ok (h', r) /\ shows hash eqb h' l' /\ effect eqb o l l' h' r.
Proof.
  intros K V hash eqb C h R. pose proof (reachable_wf hash eqb C h R) as W. pose proof (wf_shows hash eqb C h W) as Sh. split; [eauto|].
  intros l o Sl Vl. rewrite (shows_fun hash eqb h l _ Sl Sh) in *. destruct (step_ok hash eqb C h o W Vl) as (h' & r & E & W' & Ef).
  exists h', r, (cont h'). split; [exact E|]. split; [apply wf_shows; auto|exact Ef].
Qed.
Print Assumptions C35_Hash_map.

(* construction with any number of buckets gives the empty map; assignment copies the map *)
Theorem C35_Hash_copy : forall (K V : Type) (hash : K -> nat) (eqb : K -> K -> bool), consistent hash eqb ->
  (forall c, (0 <= c < 2 ^ 32)%Z -> exists h : table K V, new_table hash c = Ok h /\ shows hash eqb h []) /\
  (forall (h c : table K V) l, reachable hash eqb h -> reachable hash eqb c -> shows hash eqb c l ->
    exists h', assign hash h c = Ok h' /\ shows hash eqb h' l).
Proof.
  intros K V hash eqb C. split.
  - intros c Hc. unfold new_table. destruct (Z.ltb_spec 0 c).
    + destruct (resize_ok hash eqb C (@empty K V) c (or_introl eq_refl) Hc) as (h & E & W & P & _). exists h. split; [exact E|].
      cbn in P. apply Permutation_sym, Permutation_nil in P. rewrite <- P. apply wf_shows; auto.
    + exists empty. split; [reflexivity|]. apply (wf_shows hash eqb C empty). left. reflexivity.
  - intros h c l Rh Rc Sl. pose proof (reachable_wf hash eqb C c Rc) as Wc. rewrite (shows_fun hash eqb c l _ Sl (wf_shows hash eqb C c Wc)).
    destruct (assign_ok hash eqb C h c (reachable_wf hash eqb C h Rh) Wc) as (h' & E & W' & Ec). exists h'. split; [exact E|]. rewrite <- Ec. apply wf_shows; auto.
Qed.
Print Assumptions C35_Hash_copy.

(* C36: with 2^k buckets the first 2^k probes visit every bucket exactly once. *)
Theorem C36_probe_permutation : forall k hash_value,
  Permutation (probes (2 ^ k) (2 ^ k) (Nat.land hash_value (2 ^ k - 1)) 0) (seq 0 (2 ^ k)).
Proof. intros k h. rewrite idx_0, probes_map. apply idx_perm. Qed.
Print Assumptions C36_probe_permutation.

(* Every reachable table that has buckets has 2^k of them (k >= 2) and one of them is empty, so every lookup, insertion
   and rehash terminates: none of the calls runs out of the fuel n_buckets + 1 (nor is otherwise undefined). *)
Theorem C36_Hash_terminates : forall (K V : Type) (hash : K -> nat) (eqb : K -> K -> bool), consistent hash eqb ->
  forall h : table K V, reachable hash eqb h ->
  (nb h = 0 \/ exists k, 2 <= k <= 31 /\ nb h = 2 ^ k /\ length (flags h) = nb h /\ exists i, nth_error (flags h) i = Some FEmpty) /\
  (forall key, exists i, Iterator hash eqb h key = Ok i /\ i <= nb h) /\
  (forall key v, (Z.of_nat (Length h) < 2 ^ 30)%Z -> exists h' i, Insert hash eqb h key v = Ok (h', i) /\ i < nb h') /\
  (forall c, (0 <= c < 2 ^ 32)%Z -> exists h', resize hash h c = Ok h').
Proof.
  intros K V hash eqb C h R. pose proof (reachable_wf hash eqb C h R) as W. split; [|split; [|split]].
  - destruct W as [->|[G T]]; [left; reflexivity|right]. destruct G as (k & Hk & E). exists k. split; [exact Hk|]. split; [exact E|]. split; [apply (t_flags _ _ h T)|].
    apply (tab_free hash eqb h); [exists k; auto|exact T].
  - intros key. destruct (Iterator_ok hash eqb C h key W) as (i & E & D). exists i. split; [exact E|]. destruct D as [[D _]|[D _]]; lia.
  - intros key v Hs. assert (Hs' : (Z.of_nat (length (cont h)) < 2 ^ 30)%Z) by (destruct W as [->|[G T]]; [exact Hs|unfold Length in Hs; rewrite (t_size _ _ h T) in Hs; exact Hs]).
    destruct (Insert_ok hash eqb C h key v W Hs') as (h' & i & E & W' & ((i' & Ei & Hg) & _)). injection Ei as <-. exists h', i. split; [exact E|].
    unfold GetValue, ExistsIter in Hg. destruct (Nat.ltb_spec i (nb h')); [assumption|]. discriminate.
  - intros c Hc. destruct (resize_ok hash eqb C h c W Hc) as (h' & E & _). eauto.
Qed.
Print Assumptions C36_Hash_terminates.

(* keys colliding in pairs, growth through several rehashes, removals and reinsertion *)
Definition hrun (l : list (h_op Z Z)) (h : table Z Z) : res (table Z Z) :=
  fold_left (fun r o => do h <- r; do (h1, _) <- h_step (fun k => Z.to_nat k / 2 * 16) Z.eqb h o; Ok h1) l (Ok h).
Lemma ex_consistent : consistent (fun k => Z.to_nat k / 2 * 16) Z.eqb.
Proof. constructor; intros; repeat match goal with H : (_ =? _)%Z = true |- _ => apply Z.eqb_eq in H end; subst; auto using Z.eqb_refl. Qed.
Example C35_example : exists h h', new_table (fun k => Z.to_nat k / 2 * 16) 3 = Ok h /\
  hrun (map (fun k => OInsert k (k * 10)) [1; 2; 3; 4; 5; 6; 7; 2] ++ [ORemove 3; OSet 4 44; OInsert 3 33; ORemove 9; OSetCapacity 60])%Z h = Ok h' /\
  nb h' = 64 /\ Length h' = 7 /\ Get (fun k => Z.to_nat k / 2 * 16) Z.eqb h' 3%Z = Ok (Some 33%Z) /\
  Get (fun k => Z.to_nat k / 2 * 16) Z.eqb h' 4%Z = Ok (Some 44%Z) /\ Get (fun k => Z.to_nat k / 2 * 16) Z.eqb h' 9%Z = Ok None.
Proof. eexists _, _. split; [vm_compute; reflexivity|]. split; [vm_compute; reflexivity|]. vm_compute. auto. Qed.
Example C35_reachable : exists h, reachable (fun k => Z.to_nat k / 2 * 16) Z.eqb h /\ Get (fun k => Z.to_nat k / 2 * 16) Z.eqb h 5%Z = Ok (Some 1%Z).
Proof.
  pose proof (r_new (fun k => Z.to_nat k / 2 * 16) Z.eqb 0 _ ltac:(lia) eq_refl : reachable _ _ (@empty Z Z)) as R0.
  assert (V0 : forall l, shows (fun k => Z.to_nat k / 2 * 16) Z.eqb (@empty Z Z) l -> valid (OInsert 5%Z 1%Z) l) by (intros l (E & _); injection E as <-; cbn; lia).
  assert (X : exists h', h_step (fun k => Z.to_nat k / 2 * 16) Z.eqb empty (OInsert 5%Z 1%Z) = Ok h' /\ Get (fun k => Z.to_nat k / 2 * 16) Z.eqb (fst h') 5%Z = Ok (Some 1%Z))
    by (eexists; split; vm_compute; reflexivity).
  destruct X as ([h r] & E & X). exists h. split; [exact (r_step _ _ _ _ _ _ R0 V0 E)|exact X].
Qed.
