(* Copying and moving the chains of nodes of INI objects; the path of an INIstorage. *)
From Coq Require Import List Arith Bool ZArith Lia.
From Verif Require Import Common Dll LLBase LLBaseProps INIChain INIChainProofs INICopy.
Import ListNotations.

(** A new name is put at the end. *)
Lemma add_new {V} (c : chain V) gs name make : chain_ok c gs -> grp gs name = [] ->
  exists c', add c name make = Ok (c', fresh c) /\ chain_ok c' (gs ++ [(name, [(fresh c, make 0)])]) /\ fresh c' = S (fresh c).
Proof.
  intros H G. destruct (fresh_put c gs H) as (D & NI & A). pose proof H as (D0 & NE & ND & HF & HN & I & VV & F & HH).
  unfold add. rewrite HF, G.
  cbn [map hd_error]. set (gs' := gs ++ [(name, [(fresh c, make 0)])]).
    pose proof (grp_nonempty gs name NE G) as O.
    assert (Gr : forall n, grp gs' n = if same name n then grp gs n ++ [(fresh c, make (length (grp gs n)))] else grp gs n).
    { intros n. unfold gs'. rewrite grp_app, grp_cons. change (grp [] n) with (@nil (nat * V)). destruct (same name n) eqn:E; cbn [app]; [|now rewrite app_nil_r].
      rewrite (grp_none gs n); auto. intros g Hg. rewrite same_sym, <- (same_trans name n (fst g) E), same_sym. auto. }
    assert (Hgs : ids gs' = ids gs ++ [fresh c]) by (unfold gs'; rewrite ids_app; reflexivity).
    assert (OK : forall h l r0, list_at h r0 l (ids gs ++ [fresh c]) -> only_changes (fresh c :: ids gs) (put (hp c) (fresh c) (Some (None, None))) h ->
      chain_ok (Chain h (put (val c) (fresh c) (Some (make 0))) (put (inst c) (fresh c) []) ((name, fresh c) :: hash c) r0 l (S (fresh c))) gs').
    { intros h l r0 Dh Oh. unfold chain_ok. cbn [hp val inst hash root last INIChain.fresh].
      split; [now rewrite Hgs|]. split; [|split; [|split; [|split; [|split; [|split; [|split]]]]]].
      - intros g Hg. apply in_app_iff in Hg as [Hg|[<-|[]]]; auto. discriminate.
      - unfold gs'. rewrite map_app. cbn [map fst]. apply NoDup_app_snoc. 
        + exact ND.
        + intros K. apply in_map_iff in K as (g & K1 & K2). specialize (O g K2). destruct (same_spec (fst g) name); congruence.
      - intros n. cbn [hfind]. rewrite Gr, HF. destruct (same name n) eqn:E; auto. rewrite (grp_none gs n); auto.
        intros g Hg. rewrite same_sym, <- (same_trans name n (fst g) E), same_sym. auto.
      - cbn [map fst]. constructor; auto. apply hfind_none_in. rewrite HF, G. reflexivity.
      - intros nm a v rest K. apply in_app_iff in K as [K|[K|[]]].
        + rewrite put_other; [eapply I, K|]. intros ->. apply NI. unfold ids. apply in_map_iff. exists (fresh c, v). split; auto.
          apply in_flat_map. exists (nm, (fresh c, v) :: rest). split; auto. now left.
        + inversion K; subst. rewrite put_same. reflexivity.
      - intros a v K. unfold gs' in K. rewrite flat_map_app in K. apply in_app_iff in K as [K|K].
        + rewrite put_other; auto. intros ->. apply NI. unfold ids. apply in_map_iff. exists (fresh c, v). auto.
        + cbn in K. destruct K as [K|[]]. inversion K; subst. apply put_same.
      - intros a K. rewrite Hgs, in_app_iff in K. destruct K as [K|[<-|[]]]; [apply F in K; lia|lia].
      - apply (heap_after (hp c) h (ids gs) (ids gs') (fresh c)); auto.
        + eapply put_changes, Oh.
        + rewrite Hgs. eapply list_heap, Dh.
        + intros x Hx. rewrite Hgs, in_app_iff. cbn in *. destruct Hx; auto. }
    destruct gs as [|g gs0] eqn:Eg.
    + destruct D0 as (R & _). cbn in R. rewrite R. cbn [isnull]. eexists. split; [reflexivity|]. split; [|reflexivity]. apply OK; [|intros x Hx; reflexivity]. cbn. rewrite list_at_dll. cbn. rewrite put_same. auto.
    + rewrite <- Eg in *. assert (NN : ids gs <> []).
      { subst gs. destruct g as [nm [|[a v] x]]; [exfalso; apply (NE (nm, [])); [now left|reflexivity]|]. cbn. discriminate. }
      destruct (C30_LLAddAfter _ _ _ _ _ D NI A) as (h' & r' & _ & D' & O' & _ & E2). destruct (E2 NN) as [E3 ->].
      assert (R0 : isnull (root c) = false). { destruct D0 as (R & _). rewrite R. destruct (ids gs); [contradiction|reflexivity]. }
      rewrite R0, E3. cbn [bind]. eexists. split; [reflexivity|]. split; [|reflexivity]. apply OK; auto.
Qed.

Section P.
Context {V : Type} (name : V -> list Z).
Implicit Types (c : chain V).

(** A chain that adding and removing made; a value is added under its own name, and removing others does not change its name. *)
Inductive made : chain V -> Prop :=
| made_empty : made empty
| made_add : forall c n make c' p, made c -> (forall i, name (make i) = n) -> add c n make = Ok (c', p) -> made c'
| made_remove : forall c n i zero down c', made c -> (forall x, name (zero x) = name x) -> (forall x, name (down x) = name x) ->
    remove c n i zero down = Ok (Some c') -> made c'.

Definition named (gs : groups (V := V)) : Prop := forall n x, In x (map snd (grp gs n)) -> same (name x) n = true.
Lemma made_ok c : made c -> exists gs, chain_ok c gs /\ named gs.
Proof.
  induction 1 as [|c n make c' p M [gs [H N]] Hn E|c n i zero down c' M [gs [H N]] Hz Hd E].
  - exists []. split; [apply empty_ok|]. intros n x [].
  - destruct (add_ok c gs n make H) as (c2 & gs2 & E2 & H2 & G2). rewrite E in E2. injection E2 as <- _. exists gs2. split; [exact H2|].
    intros m x X. rewrite G2 in X. destruct (same n m) eqn:S; [|apply N, X]. rewrite map_app, in_app_iff in X. destruct X as [X|[<-|[]]]; [apply N, X|]. cbn [snd]. rewrite Hn. exact S.
  - destruct (Nat.lt_ge_cases i (length (grp gs n))) as [L|L].
    + destruct (remove_ok c gs n i zero down H L) as (c2 & gs2 & E2 & H2 & G2). rewrite E in E2. injection E2 as <-. exists gs2. split; [exact H2|].
      intros m x X. rewrite G2 in X. destruct (same n m) eqn:SS; [|apply N, X].
      assert (K : forall y, In y (drop zero down i (map snd (grp gs m))) -> exists z, In z (map snd (grp gs m)) /\ name y = name z).
      { intros y Y. unfold drop in Y. destruct i as [|i].
        - destruct (map snd (grp gs m)) as [|z0 [|z1 r]]; cbn [tl] in Y; try destruct Y as [<-|Y].
          + destruct Y.
          + destruct Y.
          + exists z1. cbn. auto.
          + apply in_map_iff in Y. destruct Y as [z [<- Z]]. exists z. cbn. auto.
        - apply in_app_iff in Y. destruct Y as [Y|Y].
          + exists y. split; [|reflexivity]. rewrite <- (firstn_skipn (S i)). apply in_app_iff. auto.
          + apply in_map_iff in Y. destruct Y as [z [<- Z]]. exists z. split; [|apply Hd]. rewrite <- (firstn_skipn (S (S i))). apply in_app_iff. auto. }
      destruct (K x X) as [z [Z ->]]. apply N, Z.
    + rewrite (remove_fails c gs n i zero down H L) in E. discriminate.
Qed.


(** The nodes from t on. *)
Fixpoint linked (h : heap) (t : ptr) (l : list nat) : Prop :=
  match l with [] => t = None | a :: l => t = Some a /\ exists nx pv, h a = Some (nx, pv) /\ linked h nx l end.
Lemma linked_at h r l is : list_at h r l is -> linked h r is.
Proof.
  intros (R & _ & D). subst r. assert (G : forall k, linked h (nth_error is k) (skipn k is)).
  { intros k. remember (length is - k) as m eqn:M. revert k M. induction m as [|m IH]; intros k M.
    - rewrite skipn_all2 by lia. cbn. apply nth_error_None. lia.
    - destruct (nth_error is k) as [a|] eqn:E; [|apply nth_error_None in E; lia].
      assert (S : skipn k is = a :: skipn (S k) is).
      { clear -E. revert is E. induction k as [|k IH]; intros [|b is] E; cbn in E; try discriminate; [now injection E as ->|]. cbn [skipn]. rewrite (IH is E). reflexivity. }
      rewrite S. cbn [linked]. split; [reflexivity|]. eexists _, _. split; [apply D, E|]. apply IH. lia. }
  exact (G 0).
Qed.
Lemma linked_ext h h' t l : (forall a, In a l -> h' a = h a) -> linked h t l -> linked h' t l.
Proof.
  revert t. induction l as [|a l IH]; intros t X L; [exact L|]. destruct L as [-> (nx & pv & E & L)]. cbn [linked]. split; [reflexivity|].
  exists nx, pv. split; [rewrite X by (now left); exact E|]. apply IH; [|exact L]. intros b B. apply X. now right.
Qed.
Lemma bounded_length (l : list nat) m : NoDup l -> (forall a, In a l -> a < m) -> length l <= m.
Proof.
  intros N B. rewrite <- (seq_length m 0). apply NoDup_incl_length; [exact N|]. intros a A. apply in_seq. specialize (B a A). lia.
Qed.
Lemma nodes_bound c gs : chain_ok c gs -> NoDup (ids gs) /\ length (ids gs) <= fresh c.
Proof. intros (D & _ & _ & _ & _ & _ & _ & F & _). pose proof (list_at_nodup _ _ _ _ D) as N. split; [exact N|]. apply bounded_length; assumption. Qed.

Lemma walk_linked c : forall l t fuel, linked (hp c) t (map fst l) -> (forall a v, In (a, v) l -> val c a = Some v) -> length l <= fuel -> walk fuel c t = Ok (map snd l).
Proof.
  induction l as [|[a v] l IH]; intros t fuel L W F.
  - cbn in L. subst t. destruct fuel; reflexivity.
  - destruct L as [-> (nx & pv & E & L)]. destruct fuel as [|fuel]; [cbn in F; lia|]. cbn [fst] in *. cbn [walk]. rewrite (W a v) by (now left).
    unfold rd_next, rd. rewrite E. cbn [bind fst]. rewrite (IH nx fuel); [reflexivity|exact L| |cbn in F; lia]. intros b w B. apply W. now right.
Qed.
Lemma walk_ok c gs : chain_ok c gs -> walk (fresh c) c (root c) = Ok (map snd (flat_map snd gs)).
Proof.
  intros H. destruct (nodes_bound c gs H) as [_ B]. destruct H as (D & _ & _ & _ & _ & _ & W & _). apply walk_linked; [exact (linked_at _ _ _ _ D)|exact W|].
  unfold ids in B. rewrite map_length in B. exact B.
Qed.

Lemma grp_same (gs : groups (V := V)) n m : same n m = true -> grp gs n = grp gs m.
Proof. intros E. unfold grp. f_equal. apply filter_ext. intros g. rewrite same_sym, (same_sym (fst g) m). apply (same_trans n m (fst g) E). Qed.
Lemma grp_single (gs : groups (V := V)) nm x : NoDup (map (fun g => fold_case (fst g)) gs) -> In (nm, x) gs -> grp gs nm = x.
Proof.
  induction gs as [|[k y] gs IH]; intros ND I; [destruct I|]. inversion ND as [|? ? NI ND']; subst. rewrite grp_cons. destruct I as [E|I].
  - injection E as -> ->. rewrite same_refl, grp_none; [apply app_nil_r|]. intros g G. destruct (same_spec (fst g) nm) as [E|]; [|reflexivity]. exfalso. apply NI. cbn [fst]. rewrite <- E.
    apply in_map_iff. exists g. auto.
  - rewrite IH by assumption. destruct (same_spec k nm) as [E|]; [|reflexivity]. exfalso. apply NI. cbn [fst]. rewrite E. apply in_map_iff. exists (nm, x). auto.
Qed.

(** The groups of the copy: the same names and values at other addresses. *)
Definition mirror (lo : nat) (g m : list Z * list (nat * V)) : Prop := exists a b v, snd g = [(a, v)] /\ m = (name v, [(b, v)]) /\ same (name v) (fst g) = true /\ lo <= b.
Lemma mirror_grp lo gs ms : Forall2 (mirror lo) gs ms -> forall n, map snd (grp ms n) = map snd (grp gs n).
Proof.
  induction 1 as [|[k y] m gs ms (a & b & v & E1 & E2 & E3 & E4) F IH]; intros n; [reflexivity|]. cbn [snd fst] in *. subst y m. rewrite !grp_cons. rewrite !map_app, IH.
  rewrite (same_trans _ _ n E3). destruct (same k n); reflexivity.
Qed.
Lemma mirror_values lo gs ms : Forall2 (mirror lo) gs ms -> map snd (flat_map snd ms) = map snd (flat_map snd gs).
Proof.
  induction 1 as [|[k y] m gs ms (a & b & v & E1 & E2 & E3 & E4) F IH]; [reflexivity|]. cbn [snd fst] in *. subst y m. cbn [flat_map snd app map]. now rewrite IH.
Qed.
Lemma mirror_weak lo lo' gs ms : lo <= lo' -> Forall2 (mirror lo') gs ms -> Forall2 (mirror lo) gs ms.
Proof. intros L. induction 1 as [|g m gs ms (a & b & v & E1 & E2 & E3 & E4) F IH]; constructor; [|exact IH]. exists a, b, v. repeat split; auto. lia. Qed.

Lemma copy_each junk src : forall gs2 dst gsd fuel t,
  linked (hp src) t (ids gs2) ->
  (forall g, In g gs2 -> exists a v, snd g = [(a, v)] /\ val src a = Some v /\ inst src a = [] /\ same (name v) (fst g) = true) ->
  NoDup (map (fun g => fold_case (fst g)) gs2) -> chain_ok dst gsd -> (forall g, In g gs2 -> grp gsd (fst g) = []) -> length gs2 <= fuel ->
  exists dst' ms, copy_loop name junk fuel src dst t None 0 = Ok (src, dst') /\ chain_ok dst' (gsd ++ ms) /\ Forall2 (mirror (fresh dst)) gs2 ms.
Proof.
  induction gs2 as [|g gs2 IH]; intros dst gsd fuel t L SG ND K G F.
  - cbn in L. subst t. exists dst, []. rewrite app_nil_r. split; [destruct fuel; reflexivity|]. split; [exact K|constructor].
  - destruct fuel as [|fuel]; [cbn in F; lia|]. destruct (SG g (or_introl eq_refl)) as (a & v & Eg & Ev & Ei & En). destruct g as [k y]. cbn [fst snd] in Eg, En. subst y.
    rewrite ids_cons in L. cbn [map fst app linked] in L. destruct L as [-> (nx & pv & Eh & L)].
    assert (Gn : grp gsd (name v) = []) by (rewrite (grp_same gsd _ k En); apply (G (k, [(a, v)])); now left).
    destruct (add_new dst gsd (name v) (fun _ => v) K Gn) as (c' & Ea & Ok' & Fr).
    inversion ND as [|? ? NI ND']; subst.
    assert (E : copy_loop name junk (S fuel) src dst (Some a) None 0 = copy_loop name junk fuel src c' nx None 0).
    { cbn [copy_loop]. rewrite Ev. unfold rd_next, rd. rewrite Eh. cbn [bind fst]. rewrite Ei. cbn [length Nat.eqb negb Nat.ltb Nat.leb].
      assert (Hf : hfind (hash dst) (name v) = None) by (destruct K as (_ & _ & _ & HF & _); rewrite HF, Gn; reflexivity).
      unfold add in Ea. rewrite Hf in Ea. unfold hinsert. rewrite Hf. destruct (isnull (root dst)).
      - injection Ea as <-. reflexivity.
      - destruct (LLAddAfter2 _ _ _) as [[h l]| |]; cbn [bind] in *; try discriminate. injection Ea as <-. reflexivity. }
    rewrite E. destruct (IH c' (gsd ++ [(name v, [(fresh dst, v)])]) fuel nx L) as (dst' & ms & E' & K' & F').
    + intros g Hg. apply SG. now right.
    + exact ND'.
    + exact Ok'.
    + intros g Hg. rewrite grp_app, (G g) by (now right). rewrite grp_cons. change (grp [] (fst g)) with (@nil (nat * V)). rewrite (same_trans _ _ (fst g) En).
      destruct (same_spec k (fst g)) as [Ek|]; [|reflexivity]. exfalso. apply NI. cbn [fst]. rewrite Ek. apply in_map_iff. exists g. auto.
    + cbn in F. lia.
    + exists dst', ((name v, [(fresh dst, v)]) :: ms). split; [exact E'|]. split; [rewrite <- app_assoc in K'; exact K'|]. constructor.
      * exists a, (fresh dst), v. repeat split; auto.
      * apply (mirror_weak _ (fresh c')); [lia|exact F'].
Qed.

(** What copying should do: the source is not changed, and the copy has the same values under the same names and numbers, and in the same order,
    in nodes of its own.  *)
Definition faithful (src src' dst : chain V) : Prop :=
  (forall n i, value src' n i = value src n i) /\ (forall n i, value dst n i = value src n i) /\ (forall n, count dst n = count src n) /\
  (exists l, walk (fresh src) src (root src) = Ok l /\ walk (fresh dst) dst (root dst) = Ok l) /\
  (forall a, hp dst a <> None -> hp src a = None).

(** Chains in which no name occurs twice are copied. *)
Theorem C183_copy_partial : forall junk c, made c -> (forall n, count c n <= 1) -> exists c' dst, copy name junk c = Ok (c', dst) /\ faithful c c' dst.
Proof.
  intros junk c M One. destruct (made_ok c M) as [gs [K N]]. pose proof K as (D & NE & ND & HF & HN & I & W & F & HH).
  destruct (nodes_bound c gs K) as [NDi B].
  assert (Single : forall g, In g gs -> exists a v, snd g = [(a, v)] /\ val c a = Some v /\ inst c a = [] /\ same (name v) (fst g) = true).
  { intros [k y] Hg. cbn [fst snd]. pose proof (grp_single gs k y ND Hg) as Gk. pose proof (One k) as O. rewrite (count_ok c gs k K), Gk in O. pose proof (NE _ Hg) as Y. cbn [snd] in Y.
    destruct y as [|[a v] [|]]; cbn in O; [congruence| |lia]. exists a, v. split; [reflexivity|]. split; [|split].
    - apply W. apply in_flat_map. exists (k, [(a, v)]). split; [exact Hg|now left].
    - exact (I k a v [] Hg).
    - apply N. rewrite Gk. now left. }
  set (e := Chain (fun _ => None) (fun _ => None) (fun _ => []) [] None None (fresh c) : chain V).
  assert (Ke : chain_ok e []).
  { unfold chain_ok, e. cbn [hp val inst hash root last fresh]. repeat split; cbn; auto; try tauto; try constructor; try (intros j x Ex; destruct j; discriminate); try congruence. }
  assert (Len : length gs <= fresh c).
  { apply Nat.le_trans with (length (ids gs)); [|exact B]. clear -NE. induction gs as [|[k y] gs IH]; [cbn; lia|]. rewrite ids_cons, app_length, map_length. cbn [length].
    specialize (IH (fun g Hg => NE g (or_intror Hg))). pose proof (NE (k, y) (or_introl eq_refl)) as Y. cbn [snd] in Y. destruct y; [congruence|]. cbn [length]. lia. }
  destruct (copy_each junk c gs e [] (fresh c) (root c) (linked_at _ _ _ _ D) Single ND Ke (fun _ _ => eq_refl) Len) as (dst & ms & E & Kd & Fm).
  cbn [app] in Kd. exists c, dst. split; [exact E|]. unfold faithful. split; [reflexivity|]. split; [|split; [|split]].
  - intros n i. rewrite (at_value dst ms n i Kd), (at_value c gs n i K). rewrite (mirror_grp _ _ _ Fm). reflexivity.
  - intros n. rewrite (count_ok dst ms n Kd), (count_ok c gs n K). rewrite <- !(map_length snd). rewrite (mirror_grp _ _ _ Fm). reflexivity.
  - exists (map snd (flat_map snd gs)). split; [apply walk_ok, K|]. rewrite (walk_ok dst ms Kd). f_equal. exact (mirror_values _ _ _ Fm).
  - intros a A. destruct Kd as (_ & _ & _ & _ & _ & _ & _ & _ & Hd). apply Hd in A.
    assert (L : fresh c <= a).
    { change (fresh c) with (fresh e). clear -Fm A. induction Fm as [|g m gs ms (a' & b & v & E1 & E2 & E3 & E4) F IH]; [destruct A|]. subst m. rewrite ids_cons in A. cbn [map fst app In] in A.
      destruct A as [<-|A]; [exact E4|apply IH, A]. }
    destruct (hp c a) eqn:Eh; [|reflexivity]. exfalso. assert (In a (ids gs)) as Ia by (apply HH; congruence). apply F in Ia. lia.
Qed.

Lemma destroy_linked : forall l c fuel, linked (hp c) (root c) l -> NoDup l -> length l <= fuel ->
  exists d, destroy fuel c = Ok d /\ root d = None /\ last d = None /\ inst d = inst c /\ forall a, val d a = if in_dec Nat.eq_dec a l then None else val c a.
Proof.
  induction l as [|a l IH]; intros c fuel L ND F.
  - cbn in L. exists (Chain (hp c) (val c) (inst c) (hash c) None None (fresh c)). split; [destruct fuel; cbn [destroy]; rewrite L; reflexivity|]. repeat split.
  - destruct L as [R (nx & pv & E & L)]. destruct fuel as [|fuel]; [cbn in F; lia|]. inversion ND as [|? ? NI ND']; subst. cbn [destroy]. rewrite R. unfold rd_next, rd. rewrite E. cbn [bind fst].
    destruct (IH (Chain (put (hp c) a None) (put (val c) a None) (inst c) (hash c) nx (last c) (fresh c)) fuel) as (d & Ed & Rd & Ld & Id & Vd).
    + cbn [hp root]. apply (linked_ext (hp c)); [|exact L]. intros b Hb. apply put_other. congruence.
    + exact ND'.
    + cbn in F. lia.
    + exists d. split; [exact Ed|]. split; [exact Rd|]. split; [exact Ld|]. split; [exact Id|]. intros b. rewrite Vd. cbn [val]. destruct (in_dec Nat.eq_dec b l), (in_dec Nat.eq_dec b (a :: l)); try reflexivity.
      * exfalso. apply n. now right.
      * destruct i as [<-|]; [apply put_same|contradiction].
      * apply put_other. intros ->. apply n0. now left.
Qed.
(** Moving a storage by assignment: whatever it holds, the target has no node in its list, and looking up any section gives a node that was given
    back. *)
Theorem C183_move_refuted : forall c, made c -> exists d, move_assign c = Ok d /\ root d = None /\
  forall n i a, node c n i = Some a -> value c n i <> None /\ node d n i = Some a /\ val d a = None.
Proof.
  intros c M. destruct (made_ok c M) as [gs [K N]]. destruct (nodes_bound c gs K) as [NDi B]. pose proof K as (D & NE & ND & HF & HN & I & W & F & HH).
  destruct (destroy_linked (ids gs) (Chain (hp c) (val c) (inst c) [] (root c) (last c) (fresh c)) (fresh c) (linked_at _ _ _ _ D) NDi B) as (d & Ed & Rd & Ld & Id & Vd).
  unfold move_assign. rewrite Ed. cbn [bind]. eexists. split; [reflexivity|]. split; [exact Rd|]. intros n i a E. cbn [val]. split; [|split].
  - rewrite (at_value c gs n i K). rewrite (node_ok c gs n i K) in E. intros X. apply nth_error_None in X. rewrite map_length in X.
    assert (nth_error (map fst (grp gs n)) i <> None) as Y by congruence. apply nth_error_Some in Y. rewrite map_length in Y. lia.
  - unfold node in *. cbn [hash inst]. rewrite Id. exact E.
  - rewrite Vd. destruct (in_dec Nat.eq_dec a (ids gs)) as [|X]; [reflexivity|exfalso; apply X]. rewrite (node_ok c gs n i K) in E. apply nth_error_In in E. unfold ids. apply in_map_iff in E.
    destruct E as [p [<- P]]. apply in_map. exact (grp_in gs n p P).
Qed.
End P.
Print Assumptions C183_copy_partial.
Print Assumptions C183_move_refuted.

(** With two sections of the same name the copy finds only the second one, and with three the source finds a section of the copy: for all values
    and whatever the memory held. *)
Definition pair_name (x : list Z * Z) : list Z := fst x.
Theorem C183_copy_refuted :
  (forall junk (x y : Z), exists c c' dst, made pair_name c /\ copy pair_name junk c = Ok (c', dst) /\
     value c [97%Z] 0 = Some ([97%Z], x) /\ value c [97%Z] 1 = Some ([97%Z], y) /\ value dst [97%Z] 0 = Some ([97%Z], y) /\ count dst [97%Z] = 1) /\
  (forall junk (x y z : Z), exists c c' dst a, made pair_name c /\ copy pair_name junk c = Ok (c', dst) /\
     node c [97%Z] 1 <> node c' [97%Z] 1 /\ node c' [97%Z] 1 = Some a /\ hp c a = None /\ hp dst a <> None /\ value c [97%Z] 2 = Some ([97%Z], z)) /\
  ~ (forall junk c, made pair_name c -> exists c' dst, copy pair_name junk c = Ok (c', dst) /\ faithful c c' dst).
Proof.
  assert (Two : forall junk (x y : Z), exists c c' dst, made pair_name c /\ copy pair_name junk c = Ok (c', dst) /\
     value c [97%Z] 0 = Some ([97%Z], x) /\ value c [97%Z] 1 = Some ([97%Z], y) /\ value dst [97%Z] 0 = Some ([97%Z], y) /\ count dst [97%Z] = 1).
  { intros junk x y. destruct (add empty [97%Z] (fun _ => ([97%Z], x))) as [[c1 p1]| |] eqn:E1; [|vm_compute in E1; discriminate..].
    destruct (add c1 [97%Z] (fun _ => ([97%Z], y))) as [[c2 p2]| |] eqn:E2; [|vm_compute in E1; injection E1 as <- _; vm_compute in E2; discriminate..].
    assert (M : made pair_name c2) by (eapply made_add; [eapply made_add; [apply made_empty| |exact E1]| |exact E2]; reflexivity).
    vm_compute in E1. injection E1 as <- _. vm_compute in E2. injection E2 as <- _.
    eexists _, _, _. split; [exact M|]. clear M. split; [vm_compute; reflexivity|]. repeat split. }
  split; [exact Two|]. split.
  - intros junk x y z. destruct (add empty [97%Z] (fun _ => ([97%Z], x))) as [[c1 p1]| |] eqn:E1; [|vm_compute in E1; discriminate..].
    destruct (add c1 [97%Z] (fun _ => ([97%Z], y))) as [[c2 p2]| |] eqn:E2; [|vm_compute in E1; injection E1 as <- _; vm_compute in E2; discriminate..].
    destruct (add c2 [97%Z] (fun _ => ([97%Z], z))) as [[c3 p3]| |] eqn:E3; [|vm_compute in E1; injection E1 as <- _; vm_compute in E2; injection E2 as <- _; vm_compute in E3; discriminate..].
    assert (M : made pair_name c3) by (eapply made_add; [eapply made_add; [eapply made_add; [apply made_empty| |exact E1]| |exact E2]| |exact E3]; reflexivity).
    vm_compute in E1. injection E1 as <- _. vm_compute in E2. injection E2 as <- _. vm_compute in E3. injection E3 as <- _.
    eexists _, _, _, _. split; [exact M|]. clear M. split; [vm_compute; reflexivity|]. split; [vm_compute; discriminate|]. split; [vm_compute; reflexivity|]. split; [reflexivity|]. split; [vm_compute; discriminate|reflexivity].
  - intros H. destruct (Two (fun _ => 0) 1%Z 2%Z) as (c & c' & dst & M & E & V0 & _ & V1 & _). destruct (H (fun _ => 0) c M) as (c2 & dst2 & E2 & _ & Fv & _).
    rewrite E in E2. injection E2 as <- <-. specialize (Fv [97%Z] 0). congruence.
Qed.
Print Assumptions C183_copy_refuted.

(** The path and the name of the file together are what was given; the name holds no separator and the path ends in one. *)
Lemma strrchr_spec (s : list Z) c : match strrchr s c with
  | None => ~ In c s
  | Some i => nth_error s i = Some c /\ ~ In c (skipn (S i) s) end.
Proof.
  induction s as [|x s IH]; [intros []|]. cbn [strrchr]. destruct (strrchr s c) as [i|].
  - exact IH.
  - destruct (x =? c)%Z eqn:E; [apply Z.eqb_eq in E; subst; split; [reflexivity|exact IH]|]. apply Z.eqb_neq in E. intros [->|X]; [congruence|contradiction].
Qed.
Lemma strlen_end (l : list Z) : ~ In 0%Z l -> strlen (l ++ [0%Z]) = length l.
Proof. induction l as [|x l IH]; intros N; [reflexivity|]. cbn [app strlen length]. destruct (x =? 0)%Z eqn:E; [apply Z.eqb_eq in E; subst; exfalso; apply N; now left|]. rewrite IH; [reflexivity|]. intros X. apply N. now right. Qed.
Lemma skipn_add {A} (l : list A) : forall n m, skipn m (skipn n l) = skipn (n + m) l.
Proof. induction l as [|x l IH]; intros n m; [now rewrite !skipn_nil|]. destruct n; [reflexivity|]. cbn [skipn Nat.add]. apply IH. Qed.
Lemma firstn_last {A} (l : list A) : forall i x, nth_error l i = Some x -> firstn (S i) l = firstn i l ++ [x].
Proof. induction l as [|y l IH]; intros [|i] x E; try discriminate; [injection E as ->; reflexivity|]. cbn [nth_error] in E. change (firstn (S (S i)) (y :: l)) with (y :: firstn (S i) l). rewrite (IH i x E). reflexivity. Qed.
Lemma in_skipn {A} (l : list A) : forall n x, In x (skipn n l) -> In x l.
Proof. induction l as [|y l IH]; intros [|n] x H; cbn in *; auto. right. eauto. Qed.
Theorem C184_path : forall file, ~ In 0%Z file -> let (path, filename) := setFilePath file in
  path ++ filename = file /\ ~ In 47%Z filename /\ ~ In 92%Z filename /\ (path = [] \/ exists dir s, path = dir ++ [s] /\ (s = 47 \/ s = 92)%Z).
Proof.
  intros file N. unfold setFilePath. set (h1 := match strrchr file 47 with None => 0 | Some i => S i end).
  set (h2 := match strrchr (skipn h1 file) 92 with None => h1 | Some i => h1 + S i end).
  assert (E0 : firstn (strlen (firstn h2 file ++ [0%Z])) (firstn h2 file ++ [0%Z]) = firstn h2 file).
  { rewrite strlen_end; [|intros X; apply N; rewrite <- (firstn_skipn h2 file); apply in_or_app; now left]. rewrite firstn_app, firstn_all, Nat.sub_diag. apply app_nil_r. }
  rewrite E0. split; [apply firstn_skipn|].
  pose proof (strrchr_spec file 47) as A. pose proof (strrchr_spec (skipn h1 file) 92) as B.
  assert (A' : ~ In 47%Z (skipn h1 file)) by (unfold h1; destruct (strrchr file 47); [exact (proj2 A)|exact A]).
  assert (E2 : skipn h2 file = match strrchr (skipn h1 file) 92 with None => skipn h1 file | Some i => skipn (S i) (skipn h1 file) end).
  { unfold h2. destruct (strrchr (skipn h1 file) 92); [now rewrite skipn_add|reflexivity]. }
  split; [|split].
  - rewrite E2. destruct (strrchr (skipn h1 file) 92); [|exact A']. intros X. apply A'. exact (in_skipn _ _ _ X).
  - rewrite E2. destruct (strrchr (skipn h1 file) 92); [exact (proj2 B)|exact B].
  - unfold h2. destruct (strrchr (skipn h1 file) 92) as [i|].
    + right. exists (firstn (h1 + i) file), 92%Z. split; [|now right]. rewrite Nat.add_succ_r. apply firstn_last.
      destruct B as [B _]. rewrite <- B. clear. clearbody h1. revert file; induction h1 as [|h IH]; intros [|x l]; try reflexivity; [now destruct i|]. apply IH.
    + unfold h1. destruct (strrchr file 47) as [i|]; [|now left]. right. exists (firstn i file), 47%Z. split; [|now left]. apply firstn_last. exact (proj1 A).
Qed.
Print Assumptions C184_path.

Example C183_example : exists c c' dst, made pair_name c /\ (forall n, count c n <= 1) /\ copy pair_name (fun _ => 9) c = Ok (c', dst) /\
  walk 3 dst (root dst) = Ok [([97], 1); ([98], 2)]%Z /\ node dst [66]%Z 0 = Some 3 /\ node c [66]%Z 0 = Some 1.
Proof.
  destruct (add empty [97%Z] (fun _ => ([97%Z], 1%Z))) as [[c1 p1]| |] eqn:E1; [|vm_compute in E1; discriminate..].
  destruct (add c1 [98%Z] (fun _ => ([98%Z], 2%Z))) as [[c2 p2]| |] eqn:E2; [|vm_compute in E1; injection E1 as <- _; vm_compute in E2; discriminate..].
  assert (M : made pair_name c2) by (eapply made_add; [eapply made_add; [apply made_empty| |exact E1]| |exact E2]; reflexivity).
  vm_compute in E1. injection E1 as <- _. vm_compute in E2. injection E2 as <- _.
  eexists _, _, _. split; [exact M|]. clear M. split.
  - intros n. unfold count, node. cbn [hash]. cbn [hfind]. destruct (same [98%Z] n); [cbn; lia|]. destruct (same [97%Z] n); cbn; lia.
  - split; [vm_compute; reflexivity|]. repeat split.
Qed.
Example C184_example : setFilePath [99; 58; 92; 100; 47; 101; 92; 97; 46; 105]%Z = ([99; 58; 92; 100; 47; 101; 92]%Z, [97; 46; 105]%Z)
  /\ setFilePath [97; 46; 105]%Z = ([], [97; 46; 105]%Z).
Proof. split; reflexivity. Qed.
