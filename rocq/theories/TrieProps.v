(* Property C47: Trie lookup inverts construction. *)
From Coq Require Import List Arith Lia ZArith Bool Permutation Sorted.
From Coq Require Import ZifyBool ZifyNat.
From Verif Require Import Common OrderSpec OrderProofs Search SearchProofs Heap HeapProps Trie.
Import ListNotations.

Section Proofs.
Context (fold : Z -> Z) (fold0 : fold 0%Z = 0%Z).
Notation item := (nat * list Z)%type.
Definition key (it : item) : list Z := map fold (snd it).
Definition suf (level : nat) (it : item) : list Z := skipn level (key it).
Definition good (it : item) : Prop := forall c, In c (key it) -> (0 < c < 128)%Z.
Definition sorted (level : nat) (items : list item) : Prop := StronglySorted (fun a b => lex (suf level a) (suf level b) = -1)%Z items.
Definition opt {A} (e : option A) : list A := match e with Some x => [x] | None => [] end.
Definition groups_of (level : nat) (items : list item) (e : option item) (gs : list (Z * list item)) : Prop :=
  items = opt e ++ concat (map snd gs) /\
  (forall it, e = Some it -> length (key it) = level) /\
  (forall c g, In (c, g) gs -> g <> [] /\ (0 < c < 128)%Z /\ sorted (S level) g /\ forall it, In it g -> nth_error (key it) level = Some c) /\
  StronglySorted (fun a b => fst a < fst b)%Z gs.
Lemma suf_nth level it c : nth_error (key it) level = Some c -> suf level it = c :: suf (S level) it.
Proof. intros E. unfold suf. apply skipn_cons. exact E. Qed.
Lemma suf_nil level it : length (key it) = level -> suf level it = [].
Proof. intros E. unfold suf. apply skipn_all2. lia. Qed.
Lemma wrap_small c : (0 < c < 128)%Z -> wrap 8 c = c.
Proof. intros H. unfold wrap. apply Z.mod_small. change (2 ^ 8)%Z with 256%Z. lia. Qed.
Lemma lex_cons x y a b : (0 < x < 128)%Z -> (0 < y < 128)%Z -> lex (x :: a) (y :: b) = (-1)%Z -> (x < y)%Z \/ x = y /\ lex a b = (-1)%Z.
Proof. intros Hx Hy. cbn [lex]. rewrite !wrap_small by assumption. destruct (Z.ltb_spec x y); [auto|]. destruct (Z.ltb_spec y x); [discriminate|]. intros E. right. split; [lia|exact E]. Qed.
Lemma decompose level : forall items, sorted level items -> (forall it, In it items -> good it /\ level <= length (key it)) -> exists e gs, groups_of level items e gs.
Proof.
  induction items as [|it items IH]; intros S H.
  - exists None, []. split; [reflexivity|]. split; [discriminate|]. split; [intros c g []|constructor].
  - apply StronglySorted_inv in S. destruct S as [S F]. destruct (IH S) as (e & gs & Ei & He & Hg & Hs); [intros x Hx; apply H; right; exact Hx|]. rewrite Forall_forall in F.
    destruct (H it (or_introl eq_refl)) as [G L]. destruct (Nat.eq_dec (length (key it)) level) as [El|Nl].
    + assert (e = None). { destruct e as [it'|]; [|reflexivity]. exfalso. specialize (F it'). rewrite (suf_nil level it El), (suf_nil level it' (He it' eq_refl)) in F. cbn in F. assert (0 = -1)%Z; [|discriminate]. apply F. rewrite Ei. left. reflexivity. }
      subst e. exists (Some it), gs. split; [cbn [opt app] in *; f_equal; exact Ei|]. split; [intros x E; injection E as <-; exact El|]. split; assumption.
    + destruct (nth_error_ex (key it) level) as [c Ec]; [lia|]. pose proof (suf_nth _ _ _ Ec) as Es. assert (Gc : (0 < c < 128)%Z) by (apply G; eapply nth_error_In; exact Ec).
      assert (e = None). { destruct e as [it'|]; [|reflexivity]. exfalso. specialize (F it'). rewrite Es, (suf_nil level it' (He it' eq_refl)) in F. cbn in F. assert (1 = -1)%Z; [|discriminate]. apply F. rewrite Ei. left. reflexivity. }
      subst e. exists None. cbn [opt app] in Ei.
      assert (K1 : sorted (Datatypes.S level) [it]) by (repeat constructor).
      destruct gs as [|[c' g'] gs].
      * exists [(c, [it])]. split; [cbn in *; f_equal; exact Ei|]. split; [discriminate|]. split; [|repeat constructor]. intros c0 g0 [E|[]]. injection E as <- <-. split; [discriminate|]. split; [exact Gc|]. split; [exact K1|]. intros x [<-|[]]. exact Ec.
      * destruct (Hg c' g' (or_introl eq_refl)) as (Ng & Gc' & Sg & Hc'). apply StronglySorted_inv in Hs. destruct Hs as [Hs Fs].
        assert (Fg : forall x, In x g' -> (c < c')%Z \/ c = c' /\ lex (suf (Datatypes.S level) it) (suf (Datatypes.S level) x) = (-1)%Z).
        { intros x Hx. apply lex_cons; auto. rewrite <- Es, <- (suf_nth _ _ _ (Hc' x Hx)). apply F. rewrite Ei. cbn [map concat snd]. apply in_or_app. left. exact Hx. }
        destruct (Z.eq_dec c c') as [->|Nc].
        -- exists ((c', it :: g') :: gs). split; [cbn [map concat snd opt app] in *; f_equal; exact Ei|]. split; [discriminate|]. split; [|constructor; assumption].
           intros c0 g0 [E|E]; [|apply Hg; right; exact E]. injection E as <- <-. split; [discriminate|]. split; [exact Gc|]. split.
           ++ constructor; [exact Sg|]. rewrite Forall_forall. intros x Hx. destruct (Fg x Hx) as [|[_ X]]; [lia|exact X].
           ++ intros x [<-|Hx]; [exact Ec|apply Hc'; exact Hx].
        -- assert (Lc : (c < c')%Z). { destruct g' as [|x g']; [congruence|]. destruct (Fg x (or_introl eq_refl)) as [|[X _]]; [assumption|congruence]. }
           exists ((c, [it]) :: (c', g') :: gs). split; [cbn [map concat snd opt app] in *; f_equal; exact Ei|]. split; [discriminate|]. split.
           ++ intros c0 g0 [E|E]; [|apply Hg; exact E]. injection E as <- <-. split; [discriminate|]. split; [exact Gc|]. split; [exact K1|]. intros x [<-|[]]. exact Ec.
           ++ constructor; [constructor; assumption|]. constructor; [exact Lc|]. rewrite Forall_forall in *. intros x Hx. specialize (Fs x Hx). cbn [fst] in *. lia.
Qed.

(* --- what a finished group of nodes stands for --- *)
Fixpoint rep (n : nat) (arr : list node) (lo hi base level : nat) (items : list item) : Prop :=
  match n with
  | O => False
  | S n => exists e gs nd, groups_of level items e gs /\ lo <= base /\ base < hi /\ base + length gs <= hi /\
      nth_error arr base = Some nd /\ word nd = option_map fst e /\ clen nd = length gs /\
      forall j c g, nth_error gs j = Some (c, g) -> exists nd' b, nth_error arr (base + j) = Some nd' /\ chr nd' = c /\ child nd' = Some b /\ rep n arr lo hi b (S level) g
  end.
Lemma rep_frame n : forall arr arr' lo hi lo' hi' base level items, (forall i, lo <= i < hi -> nth_error arr' i = nth_error arr i) -> lo' <= lo -> hi <= hi' ->
  rep n arr lo hi base level items -> rep n arr' lo' hi' base level items.
Proof.
  induction n as [|n IH]; intros arr arr' lo hi lo' hi' base level items F Hl Hh R; [exact R|]. cbn [rep] in *. destruct R as (e & gs & nd & G & B1 & B2 & B3 & E & W & C & K). exists e, gs, nd.
  split; [exact G|]. split; [lia|]. split; [lia|]. split; [lia|]. split; [rewrite F by lia; exact E|]. split; [exact W|]. split; [exact C|]. intros j c g Ej. pose proof (nth_error_lt _ _ _ Ej). destruct (K j c g Ej) as (nd' & b & E1 & E2 & E3 & E4).
  exists nd', b. split; [rewrite F by lia; exact E1|]. split; [exact E2|]. split; [exact E3|]. eapply IH; eauto.
Qed.
Lemma sorted_nth_lt (gs : list (Z * list item)) : StronglySorted (fun a b => fst a < fst b)%Z gs -> forall i j a b, i < j -> nth_error gs i = Some a -> nth_error gs j = Some b -> (fst a < fst b)%Z.
Proof.
  induction 1 as [|x gs S IH F]; intros i j a b L Ei Ej; [destruct i; discriminate|]. destruct j as [|j]; [lia|]. cbn [nth_error] in Ej. destruct i as [|i]; cbn [nth_error] in Ei.
  - injection Ei as <-. rewrite Forall_forall in F. apply F. eapply nth_error_In; exact Ej.
  - eapply (IH i j); eauto; lia.
Qed.
Lemma get_rep : forall q n arr lo hi base level items, rep n arr lo hi base level items ->
  exists r, get_loop fold arr base q = Ok r /\ (forall it, In it items -> suf level it = map fold q -> r = Some (fst it)) /\ ((forall it, In it items -> suf level it <> map fold q) -> r = None).
Proof.
  induction q as [|c q IH]; intros n arr lo hi base level items R; destruct n as [|n]; try destruct R; rename x into e.
  - destruct H as (gs & nd & (Ei & He & Hg & Hs) & B1 & B2 & B3 & E & W & C & K). cbn [get_loop]. rewrite (get_some _ _ _ E). cbn [bind]. exists (word nd). split; [reflexivity|]. split.
    + intros it Hi Es. rewrite Ei in Hi. apply in_app_or in Hi. destruct Hi as [Hi|Hi].
      * rewrite W. destruct e as [it'|]; [|destruct Hi]. destruct Hi as [<-|[]]. reflexivity.
      * exfalso. apply in_concat in Hi. destruct Hi as (g & Hg' & Hi). apply in_map_iff in Hg'. destruct Hg' as ([c0 g0] & <- & Hg'). destruct (Hg _ _ Hg') as (_ & _ & _ & Hn). rewrite (suf_nth _ _ _ (Hn it Hi)) in Es. discriminate.
    + intros N. rewrite W. destruct e as [it|]; [|reflexivity]. exfalso. apply (N it); [rewrite Ei; left; reflexivity|]. apply suf_nil. apply He. reflexivity.
  - destruct H as (gs & nd & (Ei & He & Hg & Hs) & B1 & B2 & B3 & E & W & C & K). cbn [get_loop map]. rewrite (get_some _ _ _ E). cbn [bind]. set (fc := fold c).
    assert (Out : forall it, In it items -> suf level it = fc :: map fold q -> exists j g, nth_error gs j = Some (fc, g) /\ In it g /\ suf (S level) it = map fold q).
    { intros it Hi Es. rewrite Ei in Hi. apply in_app_or in Hi. destruct Hi as [Hi|Hi].
      - destruct e as [it'|]; [|destruct Hi]. destruct Hi as [<-|[]]. rewrite (suf_nil level it' (He it' eq_refl)) in Es. discriminate.
      - apply in_concat in Hi. destruct Hi as (g & Hg' & Hi). apply in_map_iff in Hg'. destruct Hg' as ([c0 g0] & <- & Hg'). destruct (Hg _ _ Hg') as (_ & _ & _ & Hn). rewrite (suf_nth _ _ _ (Hn it Hi)) in Es. injection Es as -> Es. apply In_nth_error in Hg'. destruct Hg' as [j Hj]. exists j, g0. auto. }
    assert (Sr : exists r, (if 1 <? clen nd then BinarySearchExact CompTNode (skipn base arr) fc 0 (clen nd) else if clen nd =? 1 then Ok (if Z.eqb (chr nd) fc then 0 else -1)%Z else Ok (-1)%Z) = Ok r /\
      ((exists j g, r = Z.of_nat j /\ nth_error gs j = Some (fc, g)) \/ (r = (-1)%Z /\ forall j g, nth_error gs j <> Some (fc, g)))).
    { rewrite C. destruct (Nat.ltb_spec 1 (length gs)) as [L|L].
      - assert (Nd : forall j x, j < length gs -> nth_error (skipn base arr) j = Some x -> exists g, nth_error gs j = Some (chr x, g)).
        { intros j x Lj Ex. destruct (nth_error_ex gs j Lj) as [[c0 g0] Ej]. destruct (K j c0 g0 Ej) as (nd' & b & E1 & E2 & _). rewrite nth_error_skipn in Ex. rewrite E1 in Ex. injection Ex as <-. exists g0. rewrite E2. exact Ej. }
        assert (La : base + length gs <= length arr). { destruct (nth_error_ex gs (length gs - 1)) as [[c0 g0] Ej]; [lia|]. destruct (K _ _ _ Ej) as (nd' & b & E1 & _). apply nth_error_lt in E1. lia. }
        unfold BinarySearchExact. rewrite Nat.sub_0_r.
        destruct (exact_loop_ok CompTNode (skipn base arr) fc (length gs) 0 (Z.of_nat (length gs) - 1)) as [(m & x & Em & R1 & R2 & R3)|[Em R]]; try lia.
        { rewrite skipn_length. lia. }
        { intros i j x y Hi Hij Hj Ex Ey. destruct (Nd i x ltac:(lia) Ex) as [g1 Eg1]. destruct (Nd j y ltac:(lia) Ey) as [g2 Eg2]. pose proof (sorted_nth_lt gs Hs i j _ _ Hij Eg1 Eg2) as Lt. cbn [fst] in Lt. unfold CompTNode, zcmp. destruct (Z.compare_spec (chr x) fc), (Z.compare_spec (chr y) fc); lia. }
        + exists (Z.of_nat m). split; [exact Em|]. left. destruct (Nd m x ltac:(lia) R2) as [g Eg]. assert (chr x = fc) by (unfold CompTNode, zcmp in R3; destruct (Z.compare_spec (chr x) fc); [assumption|discriminate..]). exists m, g. split; [reflexivity|]. congruence.
        + exists (-1)%Z. split; [exact Em|]. right. split; [reflexivity|]. intros j g Ej. destruct (K _ _ _ Ej) as (nd' & b & E1 & E2 & _). pose proof (nth_error_lt _ _ _ Ej). apply (R j nd'); [lia|rewrite nth_error_skipn; exact E1|]. unfold CompTNode, zcmp. rewrite E2, Z.compare_refl. reflexivity.
      - destruct (Nat.eqb_spec (length gs) 1) as [L1|L1].
        + destruct gs as [|[c0 g0] gs]; [discriminate|]. destruct gs; [|discriminate]. destruct (K 0 c0 g0 eq_refl) as (nd' & b & E1 & E2 & _). rewrite Nat.add_0_r, E in E1. injection E1 as <-. eexists. split; [reflexivity|]. destruct (Z.eqb_spec (chr nd) fc) as [Ec|Nc].
          * left. exists 0, g0. split; [reflexivity|]. cbn. congruence.
          * right. split; [reflexivity|]. intros [|[|j]] g Ej; cbn in Ej; congruence.
        + exists (-1)%Z. split; [reflexivity|]. right. split; [reflexivity|]. intros j g Ej. apply nth_error_lt in Ej. lia. }
    destruct Sr as (r & Er & Hr). rewrite Er. cbn [bind]. destruct Hr as [(j & g & -> & Ej)|[-> No]].
    + destruct (Z.ltb_spec (Z.of_nat j) 0); [lia|]. rewrite Nat2Z.id. destruct (K j fc g Ej) as (nd' & b & E1 & E2 & E3 & R'). rewrite (get_some _ _ _ E1). cbn [bind]. rewrite E3. destruct (IH n arr lo hi b (S level) g R') as (r & Eg & Hin & Hout). exists r. split; [exact Eg|].
      destruct (Hg fc g (nth_error_In _ _ Ej)) as (_ & _ & _ & Hn). split.
      * intros it Hi Es. destruct (Out it Hi Es) as (j' & g' & Ej' & Hi' & Es'). assert (j' = j). { destruct (lt_eq_lt_dec j j') as [[L|L]|L]; [|lia|]; [pose proof (sorted_nth_lt gs Hs j j' _ _ L Ej Ej')|pose proof (sorted_nth_lt gs Hs j' j _ _ L Ej' Ej)]; cbn [fst] in *; lia. }
        subst j'. rewrite Ej in Ej'. injection Ej' as <-. apply Hin; assumption.
      * intros N. apply Hout. intros it Hi Es. apply (N it).
        -- rewrite Ei. apply in_or_app. right. apply in_concat. exists g. split; [|exact Hi]. apply in_map_iff. exists (fc, g). split; [reflexivity|eapply nth_error_In; exact Ej].
        -- rewrite (suf_nth _ _ _ (Hn it Hi)), Es. reflexivity.
    + cbn [Z.ltb Z.compare]. exists None. split; [reflexivity|]. split; [|auto]. intros it Hi Es. destruct (Out it Hi Es) as (j & g & Ej & _). exfalso. exact (No j g Ej).
Qed.

(* --- construction --- *)
Definition init_node (w : option nat) (cnt i : nat) : node := mkn 0 None 0 (if i =? cnt then w else None).
Definition ready (w : option nat) (cnt : nat) (arr : list node) (rn : nat) : Prop :=
  cnt <= rn /\ rn <= length arr /\ 0 < length arr /\ (w = None \/ cnt < length arr) /\ forall i, rn <= i -> i < length arr -> nth_error arr i = Some (init_node w cnt i).
Lemma check_size_ready w cnt arr rn : ready w cnt arr rn -> ready w cnt (check_size arr rn) rn /\ rn < length (check_size arr rn) /\ (forall i, i < length arr -> nth_error (check_size arr rn) i = nth_error arr i).
Proof.
  intros (H1 & H2 & H3 & H4 & H5). unfold check_size. destruct (Nat.leb_spec (length arr) rn) as [L|L].
  - split; [|split; [rewrite app_length, repeat_length; lia|intros i Hi; apply nth_error_app1; exact Hi]]. split; [exact H1|]. rewrite app_length, repeat_length. split; [lia|]. split; [lia|]. split; [destruct H4; [left; assumption|right; lia]|].
    intros i Hi Hl. destruct (Nat.lt_ge_cases i (length arr)) as [Li|Li]; [rewrite nth_error_app1 by exact Li; apply H5; assumption|]. rewrite nth_error_app2 by exact Li. rewrite nth_error_repeat by lia. unfold fresh, init_node. destruct (Nat.eqb_spec i cnt) as [->|]; [|reflexivity]. destruct H4 as [->|H4]; [reflexivity|lia].
  - split; [split; [exact H1|]; split; [lia|]; split; [lia|]; split; assumption|]. split; [exact L|auto].
Qed.
Lemma char_ok level it c : nth_error (key it) level = Some c -> exists c', char_at (snd it) level = Ok c' /\ fold c' = c.
Proof.
  unfold key, char_at. rewrite nth_error_map. destruct (nth_error (snd it) level) as [c'|] eqn:E; [|discriminate]. intros X. injection X as <-. pose proof (nth_error_lt _ _ _ E). destruct (Nat.eqb_spec level (length (snd it))); [lia|]. rewrite (get_some _ _ _ E). eauto.
Qed.
Lemma char_end level it : length (key it) = level -> char_at (snd it) level = Ok 0%Z.
Proof. unfold key, char_at. rewrite map_length. intros ->. rewrite Nat.eqb_refl. reflexivity. Qed.
Lemma pass1_same level c : forall g rest len arr rn nd, (forall it, In it g -> nth_error (key it) level = Some c) -> nth_error arr (rn - 1) = Some nd ->
  pass1 fold (g ++ rest) level (length g + len) arr rn c = pass1 fold rest level len (upd arr (rn - 1) (mkn (chr nd) (child nd) (length g + clen nd) (word nd))) rn c.
Proof.
  induction g as [|it g IH]; intros rest len arr rn nd H E.
  - cbn [app length Nat.add]. rewrite upd_same; [reflexivity|]. destruct nd. exact E.
  - cbn [app length Nat.add pass1]. destruct (char_ok level it c (H it (or_introl eq_refl))) as (c' & Ec & Ef). rewrite Ec. cbn [bind]. rewrite Ef, Z.eqb_refl. cbn [bind]. rewrite (get_some _ _ _ E). cbn [bind]. pose proof (nth_error_lt _ _ _ E). rewrite set_ok by lia. cbn [bind].
    rewrite (IH rest len _ rn (mkn (chr nd) (child nd) (S (clen nd)) (word nd))); [|intros x Hx; apply H; right; exact Hx|apply nth_error_upd_eq; lia]. rewrite upd_upd. cbn [chr child clen word]. replace (length g + S (clen nd)) with (S (length g + clen nd)) by lia. reflexivity.
Qed.
Definition total (gs : list (Z * list item)) : nat := length (concat (map snd gs)).
Lemma pass1_ok level w cnt : forall gs rest arr rn l, ready w cnt arr rn -> StronglySorted (fun a b => fst a < fst b)%Z gs -> (forall c g, In (c, g) gs -> (l < c)%Z /\ g <> [] /\ forall it, In it g -> nth_error (key it) level = Some c) ->
  exists arr1, pass1 fold (concat (map snd gs) ++ rest) level (total gs) arr rn l = Ok (arr1, rn + length gs) /\ ready w cnt arr1 (rn + length gs) /\ (forall i, i < rn -> nth_error arr1 i = nth_error arr i) /\
   (forall j c g, nth_error gs j = Some (c, g) -> nth_error arr1 (rn + j) = Some (mkn c None (length g) (word (init_node w cnt (rn + j))))).
Proof.
  induction gs as [|[c g] gs IH]; intros rest arr rn l R SS H.
  - exists arr. cbn [length]. rewrite Nat.add_0_r. split; [destruct rest; reflexivity|]. split; [exact R|]. split; [auto|]. intros [|j]; discriminate.
  - apply StronglySorted_inv in SS. destruct SS as [SS F]. destruct (H c g (or_introl eq_refl)) as (Lc & Ng & Hc). destruct g as [|it g]; [congruence|].
    destruct (check_size_ready w cnt arr rn R) as (R1 & Lr & Ek). set (arr0 := check_size arr rn) in *. pose proof R1 as (Q1 & Q2 & Q3 & Q4 & Q5). pose proof R as (P1 & P2 & P3 & P4 & P5).
    assert (E0 : nth_error arr0 rn = Some (init_node w cnt rn)) by (apply Q5; lia).
    unfold total. cbn [map concat snd]. rewrite app_length. cbn [length Nat.add app pass1]. rewrite <- app_assoc. destruct (char_ok level it c (Hc it (or_introl eq_refl))) as (c' & Ec & Ef). rewrite Ec. cbn [bind]. rewrite Ef. destruct (Z.eqb_spec l c) as [|_]; [lia|]. fold arr0.
    rewrite (get_some _ _ _ E0). cbn [bind]. rewrite set_ok by lia. cbn [bind]. replace (S rn - 1) with rn by lia. rewrite (get_some _ rn (mkn c None 0 (word (init_node w cnt rn)))) by (apply nth_error_upd_eq; lia). cbn [bind]. rewrite set_ok by (rewrite upd_length; lia). cbn [bind chr child clen word]. rewrite upd_upd.
    rewrite (pass1_same level c g (concat (map snd gs) ++ rest) (length (concat (map snd gs))) _ (S rn) (mkn c None 1 (word (init_node w cnt rn)))).
    2:{ intros x Hx. apply Hc. right. exact Hx. }
    2:{ replace (S rn - 1) with rn by lia. apply nth_error_upd_eq. lia. }
    replace (S rn - 1) with rn by lia. rewrite upd_upd. cbn [chr child clen word]. set (nd := mkn c None (length g + 1) (word (init_node w cnt rn))).
    destruct (IH rest (upd arr0 rn nd) (Datatypes.S rn) c) as (arr1 & E1 & R2 & Un & Nd).
    + split; [lia|]. rewrite upd_length. split; [lia|]. split; [lia|]. split; [exact Q4|]. intros i Hi Hl. rewrite nth_error_upd_neq by lia. apply Q5; lia.
    + exact SS.
    + intros c0 g0 Hin. destruct (H c0 g0 (or_intror Hin)) as (_ & N0 & H0). split; [|split; assumption]. rewrite Forall_forall in F. apply (F (c0, g0) Hin).
    + exists arr1. cbn [length]; replace (rn + S (length gs)) with (S rn + length gs) by lia. split; [exact E1|]. split; [exact R2|]. split.
      * intros i Hi. rewrite Un by lia. rewrite nth_error_upd_neq by lia. apply Ek. lia.
      * intros [|j] c0 g0 Ej; cbn [nth_error] in Ej.
        -- injection Ej as <- <-. rewrite Nat.add_0_r, Un by lia. rewrite nth_error_upd_eq by lia. unfold nd. cbn [length]. replace (length g + 1) with (S (length g)) by lia. reflexivity.
        -- replace (rn + S j) with (S rn + j) by lia. apply Nd. exact Ej.
Qed.
(* the specification of _init at one level *)
Definition init_spec (n level : nat) : Prop := forall arr str len cnt items, items = firstn len str -> len <= length str -> items <> [] -> sorted level items ->
  (forall it, In it items -> good it /\ level <= length (key it) /\ length (key it) - level < n) -> ready None cnt arr cnt ->
  exists arr' r, init fold n arr str len cnt level = Ok (arr', r) /\ cnt < r /\ ready None cnt arr' r /\ (forall i, i < cnt -> nth_error arr' i = nth_error arr i) /\ rep n arr' cnt r cnt level items.
Lemma ready_none cnt cnt' arr r : cnt' <= r -> ready None cnt arr r -> ready None cnt' arr r.
Proof. intros H (H1 & H2 & H3 & H4 & H5). split; [exact H|]. split; [exact H2|]. split; [exact H3|]. split; [left; reflexivity|]. intros i Hi Hl. rewrite (H5 i Hi Hl). unfold init_node. destruct (i =? cnt), (i =? cnt'); reflexivity. Qed.
Lemma ready_some w cnt arr r : cnt < r -> ready w cnt arr r -> ready None r arr r.
Proof.
  intros H (H1 & H2 & H3 & H4 & H5). split; [lia|]. split; [exact H2|]. split; [exact H3|]. split; [left; reflexivity|]. intros i Hi Hl. rewrite (H5 i Hi Hl). unfold init_node. destruct (Nat.eqb_spec i cnt); [lia|]. destruct (i =? r); reflexivity.
Qed.
Lemma pass2_ok n level : init_spec n (S level) -> forall gs i r arr rest wd, (forall j c g, nth_error gs j = Some (c, g) -> nth_error arr (i + j) = Some (mkn c None (length g) (wd j))) -> ready None r arr r -> i + length gs <= r ->
  (forall c g, In (c, g) gs -> g <> [] /\ sorted (S level) g /\ forall it, In it g -> good it /\ S level <= length (key it) /\ length (key it) - S level < n) ->
  exists arr' r', pass2 (fun arr str n' r => init fold n arr str n' r (S level)) (length gs) i r arr (concat (map snd gs) ++ rest) = Ok (arr', r') /\ r <= r' /\ ready None r' arr' r' /\
    (forall x, x < r -> (x < i \/ i + length gs <= x) -> nth_error arr' x = nth_error arr x) /\
    (forall j c g, nth_error gs j = Some (c, g) -> exists b, nth_error arr' (i + j) = Some (mkn c (Some b) (length g) (wd j)) /\ rep n arr' r r' b (S level) g).
Proof.
  intros SP. induction gs as [|[c g] gs IH]; intros i r arr rest wd Hn R Hi Hg.
  - exists arr, r. cbn [length pass2]. split; [reflexivity|]. split; [lia|]. split; [exact R|]. split; [auto|]. intros [|j]; discriminate.
  - cbn [length pass2]. cbn [length] in Hi. pose proof R as (P1 & P2 & P3 & P4 & P5). pose proof (Hn 0 c g eq_refl) as E0. rewrite Nat.add_0_r in E0. rewrite (get_some _ _ _ E0). cbn [bind]. pose proof (nth_error_lt _ _ _ E0) as L0. rewrite set_ok by lia. cbn [bind chr clen word].
    rewrite (get_some _ i (mkn c (Some r) (length g) (wd 0))) by (apply nth_error_upd_eq; lia). cbn [bind clen].
    destruct (Hg c g (or_introl eq_refl)) as (Ng & Sg & Gg).
    destruct (SP (upd arr i (mkn c (Some r) (length g) (wd 0))) (concat (map snd ((c, g) :: gs)) ++ rest) (length g) r g) as (arr1 & r1 & E1 & Lr & R1 & Un1 & Rep1).
    + cbn [map concat snd]. rewrite <- app_assoc, firstn_app, firstn_all, Nat.sub_diag. cbn [firstn]. rewrite app_nil_r. reflexivity.
    + cbn [map concat snd]. rewrite !app_length. lia.
    + exact Ng.
    + exact Sg.
    + exact Gg.
    + split; [lia|]. rewrite upd_length. split; [lia|]. split; [lia|]. split; [left; reflexivity|]. intros x Hx Hl. rewrite nth_error_upd_neq by lia. apply P5; lia.
    + rewrite E1. cbn [bind]. assert (E2 : nth_error arr1 i = Some (mkn c (Some r) (length g) (wd 0))) by (rewrite Un1 by lia; apply nth_error_upd_eq; lia). rewrite (get_some _ _ _ E2). cbn [bind clen].
      replace (skipn (length g) (concat (map snd ((c, g) :: gs)) ++ rest)) with (concat (map snd gs) ++ rest) by (cbn [map concat snd]; rewrite <- app_assoc, skipn_app, skipn_all, Nat.sub_diag; reflexivity).
      destruct (IH (S i) r1 arr1 rest (fun j => wd (S j))) as (arr2 & r2 & E3 & Lr2 & R2 & Un2 & Rep2).
      * intros j c0 g0 Ej. replace (S i + j) with (i + S j) by lia. pose proof (nth_error_lt _ _ _ Ej). rewrite Un1 by lia. rewrite nth_error_upd_neq by lia. apply Hn. exact Ej.
      * apply (ready_none r); [lia|exact R1].
      * lia.
      * intros c0 g0 Hin. apply (Hg c0 g0). right. exact Hin.
      * exists arr2, r2. split; [exact E3|]. split; [lia|]. split; [exact R2|]. split.
        -- intros x Hx Ho. rewrite Un2 by lia. rewrite Un1 by lia. apply nth_error_upd_neq. lia.
        -- intros [|j] c0 g0 Ej; cbn [nth_error] in Ej.
           ++ injection Ej as <- <-. exists r. rewrite Nat.add_0_r. split; [rewrite Un2 by lia; exact E2|]. apply (rep_frame n arr1 arr2 r r1 r r2); [|lia|lia|exact Rep1]. intros x Hx. apply Un2; lia.
           ++ replace (i + S j) with (S i + j) by lia. destruct (Rep2 j c0 g0 Ej) as (b & Eb & Rb). exists b. split; [exact Eb|]. apply (rep_frame n arr2 arr2 r1 r2 r r2); auto; lia.
Qed.
Lemma init_ok : forall n level, init_spec n level.
Proof.
  induction n as [|n IH]; intros level arr str len cnt items Ei Hl Nn So Hw R.
  - exfalso. destruct items as [|it items]; [congruence|]. destruct (Hw it (or_introl eq_refl)) as (_ & _ & X). lia.
  - destruct (decompose level items So) as (e & gs & D); [intros it Hit; destruct (Hw it Hit) as (a & b & _); auto|]. pose proof D as (Ed & He & Hg & Hs).
    assert (Es : str = items ++ skipn len str) by (rewrite Ei; symmetry; apply firstn_skipn). assert (Ll : len = length items) by (rewrite Ei, firstn_length; lia).
    assert (Hg2 : forall c g, In (c, g) gs -> g <> [] /\ sorted (S level) g /\ forall it, In it g -> good it /\ S level <= length (key it) /\ length (key it) - S level < n).
    { intros c g Hin. destruct (Hg c g Hin) as (A1 & A2 & A3 & A4). split; [exact A1|]. split; [exact A3|]. intros it Hit. destruct (Hw it) as (B1 & B2 & B3); [rewrite Ed; apply in_or_app; right; apply in_concat; exists g; split; [apply in_map_iff; exists (c, g); auto|exact Hit]|].
      pose proof (nth_error_lt _ _ _ (A4 it Hit)). split; [exact B1|]. lia. }
    (* the word that ends here *)
    assert (Step1 : exists arr0, (do p <- get str 0; do c <- char_at (snd p) level; let c := fold c in
       do (arr, str, len) <- (if Z.eqb c 0 then let arr := check_size arr cnt in do nd <- get arr cnt; do arr <- set arr cnt (mkn (chr nd) (child nd) (clen nd) (Some (fst p))); Ok (arr, tl str, len - 1) else Ok (arr, str, len));
       Ok (arr, str, len)) = Ok (arr0, concat (map snd gs) ++ skipn len str, total gs) /\ ready (option_map fst e) cnt arr0 cnt /\ (forall i, i < cnt -> nth_error arr0 i = nth_error arr i) /\ (gs = [] -> cnt < length arr0)).
    { destruct e as [it|].
      - cbn [opt app] in Ed. rewrite (get_some str 0 it) by (rewrite Es, Ed; reflexivity). cbn [bind]. rewrite (char_end level it (He it eq_refl)). cbn [bind]. rewrite fold0. cbn [Z.eqb]. destruct (check_size_ready None cnt arr cnt R) as ((Q1 & Q2 & Q3 & Q4 & Q5) & Lr & Ek). pose proof R as (P1 & P2 & _).
        rewrite (get_some _ cnt (init_node None cnt cnt)) by (apply Q5; lia). cbn [bind]. rewrite set_ok by exact Lr. cbn [bind]. eexists. split; [repeat f_equal|].
        + rewrite Es, Ed at 1. reflexivity.
        + rewrite Ll, Ed. cbn [length]. unfold total. lia.
        + split; [|split].
          * split; [lia|]. rewrite upd_length. split; [lia|]. split; [lia|]. split; [right; lia|]. intros i Hi Hli. destruct (Nat.eq_dec i cnt) as [->|N].
            -- rewrite nth_error_upd_eq by lia. unfold init_node. cbn [chr child clen]. rewrite Nat.eqb_refl. reflexivity.
            -- rewrite nth_error_upd_neq by congruence. rewrite Q5 by lia. unfold init_node. destruct (Nat.eqb_spec i cnt); [congruence|reflexivity].
          * intros i Hi. rewrite nth_error_upd_neq by lia. apply Ek. lia.
          * intros _. rewrite upd_length. exact Lr.
      - cbn [opt app] in Ed. destruct gs as [|[c g] gs]; [cbn in Ed; congruence|]. destruct (Hg c g (or_introl eq_refl)) as (Ng & Gc & _ & Hc). destruct g as [|it g]; [congruence|].
        rewrite (get_some str 0 it) by (rewrite Es, Ed; reflexivity). cbn [bind]. destruct (char_ok level it c (Hc it (or_introl eq_refl))) as (c' & Ec & Ef). rewrite Ec. cbn [bind]. rewrite Ef. destruct (Z.eqb_spec c 0); [lia|]. cbn [bind]. exists arr. split.
        + rewrite <- Ed. rewrite <- Es. unfold total. rewrite <- Ed, Ll. reflexivity.
        + split; [exact R|]. split; [auto|discriminate]. }
    destruct Step1 as (arr0 & E0 & R0 & Un0 & Lg). cbn [init].
    destruct (get str 0) as [p| |] eqn:Ep; cbn [bind] in E0 |- *; try discriminate. destruct (char_at (snd p) level) as [c| |] eqn:Ec; cbn [bind] in E0 |- *; try discriminate.
    match type of E0 with (do _ <- ?X; _) = _ => destruct X as [[[a s] l]| |] eqn:EX; cbn [bind] in E0; try discriminate end. injection E0 as -> -> ->. cbn [bind].
    destruct (pass1_ok level (option_map fst e) cnt gs (skipn len str) arr0 cnt 0%Z R0 Hs) as (arr1 & E1 & R1 & Un1 & Nd1).
    { intros c0 g0 Hin. destruct (Hg c0 g0 Hin) as (A1 & A2 & A3 & A4). split; [lia|]. auto. }
    rewrite E1. cbn [bind]. replace (cnt + length gs - cnt) with (length gs) by lia.
    set (last := cnt + length gs) in *. pose proof R1 as (P1 & P2 & P3 & P4 & P5).
    assert (Lc : cnt < length arr1).
    { destruct gs as [|x gs']; [|unfold last in P2; cbn [length] in P2; lia]. specialize (Lg eq_refl). assert (arr1 = arr0) by (destruct (skipn len str); cbn in E1; injection E1; auto). subst arr1. exact Lg. }
    assert (Fin : exists arr2 r2, pass2 (fun arr str n' r => init fold n arr str n' r (S level)) (length gs) cnt last arr1 (concat (map snd gs) ++ skipn len str) = Ok (arr2, r2) /\
      (gs = [] /\ arr2 = arr1 /\ r2 = cnt \/ gs <> [] /\ last <= r2 /\ ready None r2 arr2 r2 /\ (forall x, x < cnt -> nth_error arr2 x = nth_error arr1 x) /\
       (forall j c g, nth_error gs j = Some (c, g) -> exists b, nth_error arr2 (cnt + j) = Some (mkn c (Some b) (length g) (word (init_node (option_map fst e) cnt (cnt + j)))) /\ rep n arr2 last r2 b (S level) g))).
    { assert (Cs : gs = [] \/ 0 < length gs) by (destruct gs; [left; reflexivity|right; cbn [length]; lia]). destruct Cs as [Eg|Lgs].
      - exists arr1, last. split; [rewrite Eg; reflexivity|]. left. split; [exact Eg|]. split; [reflexivity|]. unfold last. rewrite Eg. cbn [length]. lia.
      - destruct (pass2_ok n level (IH (S level)) gs cnt last arr1 (skipn len str) (fun j => word (init_node (option_map fst e) cnt (cnt + j)))) as (arr2 & r2 & E2 & Lr2 & R2 & Un2 & Nd2).
        + exact Nd1.
        + apply (ready_some (option_map fst e) cnt); [unfold last; lia|exact R1].
        + unfold last. lia.
        + exact Hg2.
        + exists arr2, r2. split; [exact E2|]. right. split; [intros Eg; rewrite Eg in Lgs; cbn [length] in Lgs; lia|]. split; [exact Lr2|]. split; [exact R2|]. split; [|exact Nd2]. intros y Hy. apply Un2; lia. }
    destruct Fin as (arr2 & r2 & E2 & Fin). rewrite E2. cbn [bind].
    destruct Fin as [(Eg & -> & ->)|(Ng & Lr2 & R2 & Un2 & Nd2)].
    + subst gs. cbn [length] in *. assert (last = cnt) by (unfold last; lia). rewrite (get_some arr1 cnt (init_node (option_map fst e) cnt cnt)) by (apply P5; lia). cbn [bind]. rewrite set_ok by exact Lc. cbn [bind chr child word Nat.eqb].
      eexists _, _. split; [reflexivity|]. split; [lia|]. split; [|split].
      * split; [lia|]. rewrite upd_length. split; [lia|]. split; [lia|]. split; [left; reflexivity|]. intros i Hi Hli. rewrite nth_error_upd_neq by lia. rewrite P5 by lia. unfold init_node. destruct (Nat.eqb_spec i cnt); [lia|reflexivity].
      * intros i Hi. rewrite nth_error_upd_neq by lia. rewrite Un1 by lia. apply Un0. exact Hi.
      * cbn [rep]. exists e, []. eexists. split; [exact D|]. split; [lia|]. split; [lia|]. split; [cbn [length]; lia|]. split; [apply nth_error_upd_eq; exact Lc|]. split; [unfold init_node; rewrite Nat.eqb_refl; reflexivity|]. split; [reflexivity|]. intros [|j]; discriminate.
    + pose proof R2 as (Q1 & Q2 & Q3 & Q4 & Q5). assert (Lgs : 0 < length gs) by (destruct gs; [congruence|cbn [length]; lia]). assert (Ll2 : cnt < last) by (unfold last; lia).
      destruct (nth_error_ex gs 0 Lgs) as [[c0 g0] Ec0]. destruct (Nd2 0 c0 g0 Ec0) as (b0 & Eb0 & Rb0). rewrite Nat.add_0_r in Eb0. rewrite (get_some _ _ _ Eb0). cbn [bind]. rewrite set_ok by lia. cbn [bind chr child word]. destruct (Nat.eqb_spec (length gs) 0); [lia|].
      eexists _, _. split; [reflexivity|]. split; [lia|]. split; [|split].
      * split; [lia|]. rewrite upd_length. split; [lia|]. split; [lia|]. split; [left; reflexivity|]. intros i Hi Hli. rewrite nth_error_upd_neq by lia. rewrite Q5 by lia. unfold init_node. destruct (i =? cnt), (i =? r2); reflexivity.
      * intros i Hi. rewrite nth_error_upd_neq by lia. rewrite Un2, Un1 by lia. apply Un0. exact Hi.
      * cbn [rep]. exists e, gs. eexists. split; [exact D|]. split; [lia|]. split; [lia|]. split; [unfold last in *; lia|]. split; [apply nth_error_upd_eq; lia|]. split; [unfold init_node; rewrite Nat.eqb_refl; reflexivity|]. split; [reflexivity|].
        intros j c1 g1 Ej. destruct (Nd2 j c1 g1 Ej) as (b & Eb & Rb).
        assert (Fr : rep n (upd arr2 cnt (mkn c0 (Some b0) (length gs) (word (init_node (option_map fst e) cnt cnt)))) cnt r2 b (S level) g1).
        { apply (rep_frame n arr2 _ last r2 cnt r2); [|lia|lia|exact Rb]. intros i Hi. apply nth_error_upd_neq. lia. }
        destruct j as [|j].
        -- rewrite Nat.add_0_r in *. rewrite Ec0 in Ej. injection Ej as <- <-. rewrite Eb0 in Eb. injection Eb as <-. eexists _, b0. split; [apply nth_error_upd_eq; lia|]. split; [reflexivity|]. split; [reflexivity|]. exact Fr.
        -- eexists _, b. split; [rewrite nth_error_upd_neq by lia; exact Eb|]. split; [reflexivity|]. split; [reflexivity|]. exact Fr.
Qed.
End Proofs.
Lemma lex_range : forall a b, lex a b = (-1)%Z \/ lex a b = 0%Z \/ lex a b = 1%Z.
Proof. induction a as [|x a IH]; intros [|y b]; cbn [lex]; auto. destruct (Z.ltb_spec (wrap 8 x) (wrap 8 y)); auto. destruct (Z.ltb_spec (wrap 8 y) (wrap 8 x)); auto. Qed.
Lemma lex_anti : forall a b, lex b a = (- lex a b)%Z.
Proof. induction a as [|x a IH]; intros [|y b]; cbn [lex]; auto. destruct (Z.ltb_spec (wrap 8 x) (wrap 8 y)), (Z.ltb_spec (wrap 8 y) (wrap 8 x)); auto; lia. Qed.
Lemma lex_trans : forall a b c, (lex a b <= 0 -> lex b c <= 0 -> lex a c <= 0)%Z.
Proof.
  induction a as [|x a IH]; intros [|y b] [|z c]; cbn [lex]; try lia. specialize (IH b c).
  destruct (Z.ltb_spec (wrap 8 x) (wrap 8 y)), (Z.ltb_spec (wrap 8 y) (wrap 8 z)), (Z.ltb_spec (wrap 8 x) (wrap 8 z)), (Z.ltb_spec (wrap 8 y) (wrap 8 x)), (Z.ltb_spec (wrap 8 z) (wrap 8 y)), (Z.ltb_spec (wrap 8 z) (wrap 8 x)); auto; lia.
Qed.
Lemma comp_preorder fold : total_preorder (comp fold).
Proof. constructor; intros; [apply lex_range|apply lex_anti|eapply lex_trans; eassumption]. Qed.
Lemma lex_zero : forall a b, (forall c, In c a -> 0 < c < 128)%Z -> (forall c, In c b -> 0 < c < 128)%Z -> lex a b = 0%Z -> a = b.
Proof.
  induction a as [|x a IH]; intros [|y b] Ha Hb; cbn [lex]; try discriminate; [auto|]. rewrite !wrap_small by (first [apply Ha; left; reflexivity | apply Hb; left; reflexivity]). intros E. destruct (Z.ltb_spec x y); [discriminate E|]. destruct (Z.ltb_spec y x); [discriminate E|]. f_equal; [lia|]. apply IH; [intros; apply Ha; right; assumption|intros; apply Hb; right; assumption|exact E].
Qed.
Lemma asc_strict fold : forall s, (forall it, In it s -> good fold it) -> ascending (comp fold) s -> NoDup (map (key fold) s) -> sorted fold 0 s.
Proof.
  induction s as [|x s IH]; intros G A N; [constructor|]. apply asc_cons_inv in A. destruct A as [A F]. inversion N as [|? ? N1 N2]; subst. constructor; [apply IH; auto; intros; apply G; right; assumption|]. rewrite Forall_forall. intros y Hy. unfold suf. cbn [skipn]. specialize (F y Hy). unfold comp in F. fold (key fold x) (key fold y) in F.
  destruct (lex_range (key fold x) (key fold y)) as [E|[E|E]]; [exact E| |lia]. exfalso. apply N1. rewrite (lex_zero _ _ (G x (or_introl eq_refl)) (G y (or_intror Hy)) E). apply in_map. exact Hy.
Qed.

(* ------------------------------------------------ specification ------------------------------------------------ *)
(* the two instantiations of IGNORECASE: words are identified as they are, or up to the case of ASCII letters *)
Definition identifies (f : Z -> Z) : Prop := f = (fun c => c) \/ f = lower.
Definition ascii (w : list Z) : Prop := forall c, In c w -> (0 < c < 128)%Z.
(* r is the answer for the query q: the index of the one word equal to it up to f, or none *)
Definition answer (f : Z -> Z) (words : list (list Z)) (q : list Z) (r : option nat) : Prop :=
  match r with
  | Some i => exists w, nth_error words i = Some w /\ map f w = map f q
  | None => forall w, In w words -> map f w <> map f q
  end.
Lemma NoDup_map_seq {A B} (f : A -> B) : forall (l : list A) k, map (fun it => f (snd it)) (combine (seq k (length l)) l) = map f l.
Proof. induction l as [|a l IH]; intros k; [reflexivity|]. cbn [length seq combine map snd]. f_equal. apply IH. Qed.
Lemma in_combine_seq {A} : forall (l : list A) k i w, In (i, w) (combine (seq k (length l)) l) <-> k <= i /\ nth_error l (i - k) = Some w.
Proof.
  induction l as [|a l IH]; intros k i w; cbn [length seq combine].
  - split; [intros []|]. intros [_ X]. destruct (i - k); discriminate.
  - cbn [In]. rewrite IH. split.
    + intros [E|[L E]]; [injection E as <- <-; rewrite Nat.sub_diag; split; [lia|reflexivity]|]. split; [lia|]. replace (i - k) with (S (i - S k)) by lia. exact E.
    + intros [L E]. destruct (Nat.eq_dec i k) as [->|N]; [rewrite Nat.sub_diag in E; injection E as ->; left; reflexivity|]. right. split; [lia|]. replace (i - k) with (S (i - S k)) in E by lia. exact E.
Qed.
(* C47 for words of 7-bit characters: construction succeeds, every lookup stays inside the node array and gives the answer.
   Missing: words with bytes of 128 and more (refuted below), an empty list of words (refuted below). *)
Theorem C47_Trie_partial : forall f words, identifies f -> words <> [] -> (forall w, In w words -> ascii w) -> NoDup (map (map f) words) ->
  exists t, construct f words = Ok t /\ (forall q, exists r, Get f t q = Ok r /\ answer f words q r) /\ (forall q len, len <= length q -> exists r, GetN f t q len = Ok r /\ answer f words (firstn len q) r).
Proof.
  intros f words Hf Nn Asc ND.
  assert (F0 : f 0%Z = 0%Z) by (destruct Hf as [-> | ->]; reflexivity).
  assert (Fg : forall c, (0 < c < 128 -> 0 < f c < 128)%Z). { intros c Hc. destruct Hf as [-> | ->]; [exact Hc|]. unfold lower. destruct (Z.leb_spec 65 c), (Z.leb_spec c 90); cbn [andb]; lia. }
  unfold construct. destruct (C22_HeapSort_sorts (comp f) (0, []) (comp_preorder f) (combine (seq 0 (length words)) words)) as (s & Es & Ps & As). rewrite Es. cbn [bind].
  assert (Hin : forall i w, In (i, w) s <-> nth_error words i = Some w).
  { intros i w. transitivity (In (i, w) (combine (seq 0 (length words)) words)); [split; apply Permutation_in; [exact Ps|apply Permutation_sym; exact Ps]|]. rewrite in_combine_seq, Nat.sub_0_r. intuition lia. }
  assert (Ls : length s = length words) by (rewrite (Permutation_length Ps), combine_length, seq_length; lia).
  assert (Gs : forall it, In it s -> good f it). { intros [i w] Hi c Hc. apply Hin in Hi. unfold key in Hc. cbn [snd] in Hc. apply in_map_iff in Hc. destruct Hc as (c0 & <- & Hc). apply Fg. apply (Asc w); [eapply nth_error_In; exact Hi|exact Hc]. }
  assert (Ss : sorted f 0 s). { apply asc_strict; [exact Gs|exact As|]. apply (Permutation_NoDup (l := map (map f) words)); [|exact ND]. rewrite <- (NoDup_map_seq (map f) words 0). apply Permutation_map. apply Permutation_sym. exact Ps. }
  assert (Lw : 0 < length words) by (destruct words; [congruence|cbn [length]; lia]).
  destruct (init_ok f F0 (S (list_max (map (@length Z) words))) 0 (repeat fresh (length words)) s (length words) 0 s) as (arr & r & Ei & Lr & _ & _ & Rep).
  - rewrite <- Ls. symmetry. apply firstn_all.
  - lia.
  - destruct s; [cbn [length] in Ls; lia|discriminate].
  - exact Ss.
  - intros [i w] Hi. split; [apply Gs; exact Hi|]. unfold key. cbn [snd]. rewrite map_length. split; [lia|]. apply Hin in Hi. pose proof (list_max_le (map (@length Z) words) (list_max (map (@length Z) words))) as [X _]. specialize (X (le_n _)). rewrite Forall_forall in X. specialize (X (length w) (in_map _ _ _ (nth_error_In _ _ Hi))). lia.
  - split; [lia|]. rewrite repeat_length. split; [lia|]. split; [lia|]. split; [left; reflexivity|]. intros i _ Hl. rewrite nth_error_repeat by exact Hl. unfold fresh, init_node. destruct (i =? 0); reflexivity.
  - rewrite Ei. cbn [bind]. exists arr. split; [reflexivity|].
    assert (Q : forall q, exists r, Get f arr q = Ok r /\ answer f words q r).
    { intros q. unfold Get. destruct (get_rep f q _ _ _ _ _ _ _ Rep) as (x & Ex & Hi & Ho). exists x. split; [exact Ex|].
      assert (D : (exists it, In it s /\ key f it = map f q) \/ (forall it, In it s -> key f it <> map f q)).
      { clear. induction s as [|it s IH]; [right; intros it []|]. destruct (list_eq_dec Z.eq_dec (key f it) (map f q)) as [E|N]; [left; exists it; split; [left; reflexivity|exact E]|]. destruct IH as [(it' & H1 & H2)|H]; [left; exists it'; split; [right; exact H1|exact H2]|]. right. intros it' [<-|H']; [exact N|apply H; exact H']. }
      destruct D as [([i w] & H1 & H2)|H].
      - rewrite (Hi _ H1 H2). exists w. split; [apply Hin; exact H1|exact H2].
      - rewrite (Ho H). intros w Hw. apply In_nth_error in Hw. destruct Hw as [i Ew]. apply Hin in Ew. exact (H _ Ew). }
    split; [exact Q|]. intros q len Hlen. unfold GetN. destruct (Nat.leb_spec len (length q)); [apply Q|lia].
Qed.
Print Assumptions C47_Trie_partial.
(* in particular a stored word is found under its own index *)
Theorem C47_stored_word_found_partial : forall f words t i w, identifies f -> (forall w, In w words -> ascii w) -> NoDup (map (map f) words) -> construct f words = Ok t -> nth_error words i = Some w -> Get f t w = Ok (Some i).
Proof.
  intros f words t i w Hf Asc ND E Ew. destruct (C47_Trie_partial f words Hf) as (t' & E' & Q & _); [intros ->; destruct i; discriminate|exact Asc|exact ND|]. rewrite E in E'. injection E' as <-. destruct (Q w) as (r & Er & An). rewrite Er. destruct r as [k|].
  - destruct An as (w' & Ek & Eq). f_equal. f_equal. apply (NoDup_nth_error (map (map f) words)); [exact ND|rewrite map_length; eapply nth_error_lt; exact Ek|]. rewrite !nth_error_map, Ek, Ew. cbn. f_equal. exact Eq.
  - exfalso. apply (An w); [eapply nth_error_In; exact Ew|reflexivity].
Qed.
Print Assumptions C47_stored_word_found_partial.
(* The full statement fails for words with bytes of 128 and more: sorting compares unsigned characters, lookup signed ones.
   Of the words "a", "b", "\xC3", all of them stored, the last is reported not found. *)
Theorem C47_high_bytes_refuted : exists words, NoDup words /\ (forall w, In w words -> ~ In 0%Z w) /\ exists t i w, construct (fun c => c) words = Ok t /\ nth_error words i = Some w /\ Get (fun c => c) t w = Ok None.
Proof.
  exists [[97]; [98]; [-61]]%Z. split; [repeat constructor; cbn; intuition discriminate|]. split; [intros w Hw H0; cbn in Hw; intuition subst; cbn in H0; intuition discriminate|].
  destruct (construct (fun c => c) [[97]; [98]; [-61]]%Z) as [t| |] eqn:E; [|vm_compute in E; discriminate..]. exists t, 2, [-61]%Z. split; [reflexivity|]. split; [reflexivity|]. vm_compute in E. injection E as <-. vm_compute. reflexivity.
Qed.
Print Assumptions C47_high_bytes_refuted.
(* An empty list of words is undefined behaviour: _init reads str[0]. *)
Theorem C47_no_words_refuted : forall f, construct f [] = UB.
Proof. reflexivity. Qed.
Print Assumptions C47_no_words_refuted.
(* words that are prefixes of one another, case-insensitive, with the empty word *)
Example C47_example : exists t, construct lower [[105; 110; 115]; [73; 78]; []; [105; 110; 116]; [97]]%Z = Ok t /\
  Get lower t [105; 110]%Z = Ok (Some 1) /\ Get lower t [] = Ok (Some 2) /\ Get lower t [73; 110; 84]%Z = Ok (Some 3) /\ Get lower t [105]%Z = Ok None /\ Get lower t [105; 110; 116; 97]%Z = Ok None.
Proof. eexists. split; [vm_compute; reflexivity|]. vm_compute. repeat split; reflexivity. Qed.
Example C47_example_hypotheses : (forall w, In w [[105; 110; 115]; [73; 78]; []; [105; 110; 116]; [97]]%Z -> ascii w) /\ NoDup (map (map lower) [[105; 110; 115]; [73; 78]; []; [105; 110; 116]; [97]]%Z).
Proof. split; [intros w Hw c Hc; cbn in Hw; intuition subst; cbn in Hc; intuition lia|]. vm_compute. repeat constructor; cbn; intuition discriminate. Qed.
