(* Property C29: LinkedArray is an ordered list with stable indices. *)
From Coq Require Import List Arith Bool Lia Permutation.
From Coq Require Import ZifyBool ZifyNat.
From Verif Require Import Common Growth Dll LinkedArray.
Import ListNotations.

Section Spec.
Context {T : Type} (fresh : lnode T).

(* what the array shows: [l] lists the live (index, element) pairs in order.  Front/Back are the first and last index,
   Next/Prev lead from each index to its neighbours, (CT_)-1 at the ends, and GetItem of each index is its element. *)
Definition shows (s : larr T) (l : list (nat * T)) : Prop :=
  let ids := map fst l in
  len s = length l /\ NoDup ids /\
  Front s = nth_error ids 0 /\ Back s = (match length ids with 0 => None | S j => nth_error ids j end) /\
  forall k i v, nth_error l k = Some (i, v) ->
    GetItem s i = Ok v /\ Next s i = Ok (nth_error ids (S k)) /\
    Prev s i = Ok (match k with 0 => None | S j => nth_error ids j end).
(* indices given to the operations are live, or (CT_)-1 for the insertions *)
Definition valid (o : l_op T) (l : list (nat * T)) : Prop :=
  match o with
  | OInsertAfter _ (Some i) | OInsertBefore _ (Some i) | ORemove i | OPut i _ => In i (map fst l)
  | _ => True
  end.
(* l' and the result r of the operation; a new element gets an index that is not live *)
Definition effect (o : l_op T) (l l' : list (nat * T)) (r : l_out T) : Prop :=
  match o with
  | OAdd v | OInsertAfter v None | OInsertBefore v None =>
      exists h, r = RIndex (Some h) /\ ~ In h (map fst l) /\ l' = l ++ [(h, v)]
  | OInsertAfter v (Some i) => exists h a x b, r = RIndex (Some h) /\ ~ In h (map fst l) /\ l = a ++ (i, x) :: b /\ l' = a ++ (i, x) :: (h, v) :: b
  | OInsertBefore v (Some i) => exists h a x b, r = RIndex (Some h) /\ ~ In h (map fst l) /\ l = a ++ (i, x) :: b /\ l' = a ++ (h, v) :: (i, x) :: b
  | ORemove i => exists a x b, r = RVal x /\ l = a ++ (i, x) :: b /\ l' = a ++ b
  | OPut i v => exists a x b, l = a ++ (i, x) :: b /\ l' = a ++ (i, v) :: b
  | OClear => l' = []
  | OSetCapacity n => l' = l
  | OAssign o => shows o l'
  end.
Inductive reachable : larr T -> Prop :=
| r_new n s : new_larr fresh n = Ok s -> reachable s
| r_step s o s' r l : reachable s -> shows s l -> valid o l -> (forall x, o = OAssign x -> reachable x) ->
    l_step fresh s o = Ok (s', r) -> reachable s'.
End Spec.

Section Proofs.
Context {T : Type} (fresh : lnode T).

Definition lk (nd : list (lnode T)) : links := fun x => option_map (fun n => (next n, prev n)) (nth_error nd x).
Definition nx (nd : list (lnode T)) : nat -> option ptr := fun x => option_map (fun n => next n) (nth_error nd x).
Definition vl (nd : list (lnode T)) : nat -> option T := fun x => option_map (fun n => val n) (nth_error nd x).
Definition vals (nd : list (lnode T)) (l : list (nat * T)) : Prop := forall i v, In (i, v) l -> vl nd i = Some v.

(* the live chain, the free chain and the elements; together the two chains are all the nodes but [extra] *)
Definition core (nd : list (lnode T)) (fr : ptr) (l : list (nat * T)) (f extra : list nat) : Prop :=
  dll (lk nd) None (map fst l) None /\ chain (nx nd) f None /\ fr = hd_or f None /\ vals nd l /\
  Permutation (extra ++ map fst l ++ f) (seq 0 (length nd)).
Definition inv (s : larr T) (l : list (nat * T)) : Prop :=
  len s = length l /\ start s = hd_or (map fst l) None /\ end_ s = last_or None (map fst l) /\
  exists f, core (nodes s) (freelist s) l f [].

Lemma lk_inv nd x n p : lk nd x = Some (n, p) -> exists c, nth_error nd x = Some c /\ next c = n /\ prev c = p.
Proof. unfold lk. destruct (nth_error nd x) as [c|]; [|discriminate]. cbn. intros E. inversion E. eauto. Qed.
Lemma nx_inv nd x n : nx nd x = Some n -> exists c, nth_error nd x = Some c /\ next c = n.
Proof. unfold nx. destruct (nth_error nd x) as [c|]; [|discriminate]. cbn. intros E. inversion E. eauto. Qed.
Lemma vl_inv nd x v : vl nd x = Some v -> exists c, nth_error nd x = Some c /\ val c = v.
Proof. unfold vl. destruct (nth_error nd x) as [c|]; [|discriminate]. cbn. intros E. inversion E. eauto. Qed.

Lemma core_nodup nd fr l f e : core nd fr l f e -> NoDup (e ++ map fst l ++ f).
Proof. intros (_ & _ & _ & _ & P). eapply Permutation_NoDup; [apply Permutation_sym, P|apply seq_NoDup]. Qed.
Lemma core_lt nd fr l f e x : core nd fr l f e -> In x (e ++ map fst l ++ f) -> x < length nd.
Proof. intros (_ & _ & _ & _ & P) I. eapply Permutation_in in I; [|exact P]. apply in_seq in I. lia. Qed.

Lemma nodup_app_l {A} (a b : list A) : NoDup (a ++ b) -> NoDup a.
Proof. induction b as [|x b IH] using rev_ind; [now rewrite app_nil_r|]. rewrite app_assoc. intros H. apply NoDup_remove_1 in H. rewrite app_nil_r in H. auto. Qed.
Lemma nodup_app_disj {A} (a b : list A) x : NoDup (a ++ b) -> In x a -> In x b -> False.
Proof. intros N I J. apply in_split in J. destruct J as (b1 & b2 & ->). rewrite app_assoc in N. apply NoDup_remove_2 in N. apply N. rewrite !in_app_iff. auto. Qed.

Lemma inv_shows s l : inv s l -> shows s l.
Proof.
  intros (L & ST & E & f & C). split; [auto|]. split; [eapply nodup_app_l, (core_nodup _ _ _ _ _ C)|].
  unfold Front, Back. rewrite ST, E, hd_or_nth, last_or_nth. split; [reflexivity|]. split; [reflexivity|].
  destruct C as (D & _ & _ & V & _). intros k i v N. rewrite dll_nth in D.
  assert (N' : nth_error (map fst l) k = Some i) by (erewrite map_nth_error by exact N; reflexivity).
  pose proof (D k i N') as D'. apply lk_inv in D'. destruct D' as (c & C & C1 & C2).
  pose proof (V i v (nth_error_In _ _ N)) as V'. apply vl_inv in V'. destruct V' as (c' & C' & C3).
  unfold GetItem, Next, Prev, rd. rewrite (get_some _ _ _ C). cbn [bind]. assert (c' = c) by congruence. subst c'.
  rewrite C1, C2, C3. split; [reflexivity|]. split; [|reflexivity]. destruct (nth_error (map fst l) (S k)); reflexivity.
Qed.
Lemma shows_fun (s : larr T) l l' : shows s l -> shows s l' -> l = l'.
Proof.
  intros (A1 & _ & A2 & _ & A3) (B1 & _ & B2 & _ & B3). assert (LL : length l = length l') by congruence.
  assert (Q : forall k, k < length l -> nth_error l k = nth_error l' k).
  { assert (ID : forall k, k < length l -> nth_error (map fst l) k = nth_error (map fst l') k).
    { induction k as [|k IH]; intros Hk; [congruence|].
      destruct (nth_error_ex l k) as ((i & v) & X); [lia|]. destruct (nth_error_ex l' k) as ((i' & v') & Y); [lia|].
      specialize (IH ltac:(lia)). erewrite !map_nth_error in IH by eassumption. cbn in IH. assert (i = i') by congruence. subst i'.
      destruct (A3 _ _ _ X) as (_ & A & _). destruct (B3 _ _ _ Y) as (_ & B & _). congruence. }
    intros k Hk. destruct (nth_error_ex l k) as ((i & v) & X); [lia|]. destruct (nth_error_ex l' k) as ((i' & v') & Y); [lia|].
    pose proof (ID k Hk) as IE. erewrite !map_nth_error in IE by eassumption. cbn in IE. assert (i = i') by congruence. subst i'.
    destruct (A3 _ _ _ X) as (A & _). destruct (B3 _ _ _ Y) as (B & _). congruence. }
  apply nth_error_ext_lt; auto.
Qed.

(* setting up a chunk of k free nodes from [start] *)
Lemma setup_ok nd fr start k f : chain (nx nd) f None -> fr = hd_or f None -> start + k <= length nd ->
  (forall x, In x f -> x < start \/ start + k <= x) ->
  exists nd', setupChunk nd fr start k = Ok (nd', hd_or (seq start k ++ f) None) /\ length nd' = length nd /\
    chain (nx nd') (seq start k ++ f) None /\
    (forall x, x < start \/ start + k <= x -> nth_error nd' x = nth_error nd x) /\ (forall x, vl nd' x = vl nd x).
Proof.
  revert nd fr f. induction k as [|k IH]; intros nd fr f C F L D.
  - exists nd. cbn [setupChunk seq app]. rewrite F. repeat split; auto.
  - cbn [setupChunk]. unfold addFreeList, wr_next, rd, wr. destruct (get_ok nd (start + k)) as (n & G & N); [lia|]. rewrite G. cbn [bind].
    unfold set. replace (start + k <? length nd) with true by lia. cbn [bind].
    set (n' := {| val := val n; next := fr; prev := prev n |}).
    set (nd1 := upd nd (start + k) n').
    assert (H : forall x, x <> start + k -> nth_error nd1 x = nth_error nd x) by (intros x Hx; unfold nd1; apply nth_error_upd_neq; auto).
    assert (H0 : nth_error nd1 (start + k) = Some n') by (apply nth_error_upd_eq; lia).
    destruct (IH nd1 (Some (start + k)) ((start + k) :: f)) as (nd' & E & L' & C' & K & V).
    + cbn [chain]. split; [unfold nx; rewrite H0; cbn; rewrite F; reflexivity|]. eapply chain_ext; [|exact C].
      intros x Hx. unfold nx. rewrite H; auto. destruct (D x Hx); lia.
    + reflexivity.
    + unfold nd1. rewrite upd_length. lia.
    + intros x [<-|Hx]; [lia|]. destruct (D x Hx); lia.
    + exists nd'. rewrite seq_S, <- app_assoc. cbn [app]. rewrite E. repeat split; auto.
      * rewrite L'. unfold nd1. apply upd_length.
      * intros x Hx. rewrite K by lia. apply H. lia.
      * intros x. rewrite V. unfold vl. destruct (Nat.eq_dec x (start + k)) as [->|NE]; [rewrite H0, N; reflexivity|rewrite H; auto].
Qed.

Lemma inv_new n : exists s, new_larr fresh n = Ok s /\ inv s [].
Proof.
  unfold new_larr. destruct (setup_ok (repeat fresh n) None 0 n []) as (nd & E & L & C & _).
  - exact I.
  - reflexivity.
  - rewrite repeat_length. lia.
  - intros x [].
  - rewrite E. cbn [bind]. rewrite app_nil_r in *. eexists. split; [reflexivity|]. rewrite repeat_length in L.
    split; [reflexivity|]. split; [reflexivity|]. split; [reflexivity|]. exists (seq 0 n). unfold core. cbn. repeat split; auto.
    + intros i v [].
    + rewrite L. apply Permutation_refl.
Qed.
Lemma clear_ok s l : inv s l -> exists s', Clear s = Ok s' /\ inv s' [].
Proof.
  intros _. unfold Clear. destruct (setup_ok (nodes s) None 0 (length (nodes s)) []) as (nd & E & L & C & _).
  - exact I.
  - reflexivity.
  - lia.
  - intros x [].
  - rewrite E. cbn [bind]. rewrite app_nil_r in *. eexists. split; [reflexivity|].
    split; [reflexivity|]. split; [reflexivity|]. split; [reflexivity|]. exists (seq 0 (length (nodes s))). unfold core. cbn. repeat split; auto.
    + intros i v [].
    + rewrite L. apply Permutation_refl.
Qed.
Lemma setcap_ok s l n : inv s l -> exists s', SetCapacity fresh s n = Ok s' /\ inv s' l /\
  (length (nodes s) < n -> freelist s' <> None).
Proof.
  intros (L & ST & E & f & C). unfold SetCapacity. destruct (Nat.ltb_spec n (length (nodes s))) as [H|H].
  - exists s. repeat split; auto; [|lia]. exists f. exact C.
  - set (h := length (nodes s)) in *. set (nd := nodes s ++ repeat fresh (n - h)).
    assert (LN : length nd = n) by (unfold nd; rewrite app_length, repeat_length; lia).
    assert (LO : forall x, In x (map fst l ++ f) -> x < h) by (intros x I; apply (core_lt _ _ _ _ _ x C); exact I).
    destruct C as (D & Ch & F & V & P).
    assert (OLD : forall x, x < h -> nth_error nd x = nth_error (nodes s) x) by (intros x Hx; unfold nd; apply nth_error_app1; exact Hx).
    assert (Ch1 : chain (nx nd) f None).
    { eapply chain_ext; [|exact Ch]. intros x Hx. unfold nx. rewrite OLD; auto. apply LO. rewrite in_app_iff. auto. }
    destruct (setup_ok nd (freelist s) h (n - h) f Ch1 F) as (nd' & E' & L' & C' & K & V').
    + rewrite LN. lia.
    + intros x Hx. left. apply LO. rewrite in_app_iff. auto.
    + rewrite E'. cbn [bind]. eexists. split; [reflexivity|]. split.
      * split; [auto|]. split; [auto|]. split; [auto|]. exists (seq h (n - h) ++ f). unfold core. cbn [nodes freelist].
        assert (NE : forall x, In x (map fst l) -> nth_error nd' x = nth_error (nodes s) x).
        { intros x Hx. assert (x < h) by (apply LO; rewrite in_app_iff; auto). rewrite K by lia. apply OLD. lia. }
        repeat split; auto.
        -- eapply dll_ext; [|exact D]. intros x Hx. unfold lk. now rewrite NE.
        -- intros i v Hi. unfold vl. rewrite NE; [apply V; exact Hi|]. apply in_map_iff. exists (i, v). auto.
        -- rewrite L', LN. replace n with (h + (n - h)) at 2 by lia. rewrite seq_app. cbn [app Nat.add].
           rewrite (Permutation_app_comm (seq h (n - h)) f). rewrite app_assoc. apply Permutation_app_tail. exact P.
      * intros Hn. cbn [freelist]. destruct (n - h) eqn:EQ; [lia|]. discriminate.
Qed.

(* a free chain is determined by its head *)
Lemma chain_fun (g : nat -> option ptr) : forall f f', chain g f None -> chain g f' None -> hd_or f None = hd_or f' None -> f = f'.
Proof.
  induction f as [|x f IH]; intros [|y f'] C C' H; cbn [hd_or] in H; try discriminate; [reflexivity|]. injection H as <-. destruct C as (C1 & C2), C' as (C3 & C4). f_equal. apply IH; auto. congruence.
Qed.
(* the free chain of s, if not empty, loses its head c *)
Definition takes (s : larr T) (c : nat) (f : list nat) : Prop :=
  forall f0, chain (nx (nodes s)) f0 None -> freelist s = hd_or f0 None -> f0 <> [] -> f0 = c :: f.
Lemma prep_ok s l : inv s l -> exists s' c f, insertPrep fresh s = Ok (s', Some c) /\
  len s' = length l /\ start s' = hd_or (map fst l) None /\ end_ s' = last_or None (map fst l) /\
  core (nodes s') (freelist s') l f [c] /\ takes s c f.
Proof.
  intros I. unfold insertPrep.
  assert (Q : exists s1, (match freelist s with None => SetCapacity fresh s (fbnext_nat (length (nodes s))) | Some _ => Ok s end) = Ok s1
     /\ inv s1 l /\ freelist s1 <> None /\ (freelist s <> None -> s1 = s)).
  { destruct (freelist s) eqn:F.
    - exists s. rewrite F. repeat split; auto; try apply I. discriminate.
    - destruct (setcap_ok s l (fbnext_nat (length (nodes s))) I) as (s1 & E & I1 & FR). exists s1. repeat split; try apply I1; auto.
      + apply FR. apply fbnext_nat_gt.
      + congruence. }
  destruct Q as (s1 & -> & I1 & NF & SAME). cbn [bind]. destruct I1 as (L & ST & E & f & D & Ch & F & V & P).
  destruct f as [|c f]; [cbn in F; congruence|]. cbn [hd_or] in F. rewrite F. cbn [rd]. destruct Ch as (Hc & Ch).
  destruct (nx_inv _ _ _ Hc) as (n & N & NN). rewrite (get_some _ _ _ N). cbn [bind]. eexists _, c, f. split; [reflexivity|]. cbn [len start end_ nodes freelist].
  split; [auto|]. split; [auto|]. split; [auto|]. split.
  - repeat split; auto. cbn [app]. rewrite <- P. cbn [app]. apply Permutation_middle.
  - intros f0 C0 H0 N0. apply (chain_fun (nx (nodes s))); [exact C0| |].
    + rewrite <- SAME by (rewrite H0; destruct f0; [congruence|discriminate]). split; assumption.
    + rewrite <- H0, <- SAME by (rewrite H0; destruct f0; [congruence|discriminate]). exact F.
Qed.

Lemma get_upd_same {A} (l : list A) i v : i < length l -> get (upd l i v) i = Ok v.
Proof. intros. apply get_some. now apply nth_error_upd_eq. Qed.
Lemma get_upd_other {A} (l : list A) i j v : (i =? j) = false -> get (upd l i v) j = get l j.
Proof. intros H. unfold get. rewrite nth_error_upd_neq; auto. now apply Nat.eqb_neq. Qed.
Lemma set_lt {A} (l : list A) i v : i < length l -> set l i v = Ok (upd l i v).
Proof. intros H. unfold set. now rewrite (proj2 (Nat.ltb_lt _ _) H). Qed.

(* pointwise description of the nodes after linking c between a and b *)
Definition linked (nd : list (lnode T)) (a : list nat) (c : nat) (item : T) (b : list nat) (nd' : list (lnode T)) : Prop :=
  length nd' = length nd /\
  nth_error nd' c = Some {| val := item; next := hd_or b None; prev := last_or None a |} /\
  (forall x a0 n, a = a0 ++ [x] -> nth_error nd x = Some n -> nth_error nd' x = Some {| val := val n; next := Some c; prev := prev n |}) /\
  (forall y b0 n, b = y :: b0 -> nth_error nd y = Some n -> nth_error nd' y = Some {| val := val n; next := next n; prev := Some c |}) /\
  (forall x, x <> c -> Some x <> last_or None a -> Some x <> hd_or b None -> nth_error nd' x = nth_error nd x).

Lemma last_or_in a x : Some x = last_or None a -> In x a.
Proof. destruct a as [|y a0 _] using rev_ind; [discriminate|]. rewrite last_or_snoc, in_app_iff. intros E. inversion E. cbn. auto. Qed.
Lemma hd_or_in a x : Some x = hd_or a None -> In x a.
Proof. destruct a; [discriminate|]. cbn. intros E. inversion E. auto. Qed.

Lemma linked_vl nd a c item b nd' x : linked nd a c item b nd' -> x <> c -> vl nd' x = vl nd x.
Proof.
  intros (L & P1 & P2 & P3 & P4) NC. unfold vl.
  destruct (nth_error nd x) as [n|] eqn:N.
  - destruct (last_or None a) as [z|] eqn:LA; [destruct (Nat.eq_dec x z) as [->|NZ]|].
    + destruct a as [|w a0 _] using rev_ind; [discriminate|]. rewrite last_or_snoc in LA. inversion LA; subst. now rewrite (P2 _ _ _ eq_refl N).
    + destruct (hd_or b None) as [y|] eqn:HB; [destruct (Nat.eq_dec x y) as [->|NY]|].
      * destruct b as [|w b0]; [discriminate|]. inversion HB; subst. now rewrite (P3 _ _ _ eq_refl N).
      * rewrite P4, N; congruence.
      * rewrite P4, N; congruence.
    + destruct (hd_or b None) as [y|] eqn:HB; [destruct (Nat.eq_dec x y) as [->|NY]|].
      * destruct b as [|w b0]; [discriminate|]. inversion HB; subst. now rewrite (P3 _ _ _ eq_refl N).
      * rewrite P4, N; congruence.
      * rewrite P4, N; congruence.
  - apply nth_error_None in N. assert (X : nth_error nd' x = None) by (apply nth_error_None; lia). rewrite X. reflexivity.
Qed.

Lemma linked_core nd fr la lb f c item nd' : core nd fr (la ++ lb) f [c] -> linked nd (map fst la) c item (map fst lb) nd' ->
  core nd' fr (la ++ (c, item) :: lb) f [].
Proof.
  intros C LK. pose proof (core_nodup _ _ _ _ _ C) as ND. destruct C as (D & Ch & F & V & P). pose proof LK as (L & P1 & P2 & P3 & P4).
  rewrite map_app in D, ND, P. cbn [app] in ND. apply NoDup_cons_iff in ND. destruct ND as (NC & ND).
  assert (NCl : ~ In c (map fst la ++ map fst lb)) by (intros I; apply NC; rewrite in_app_iff; auto).
  unfold core. rewrite map_app. cbn [map fst]. split; [|split; [|split; [|split]]]; auto.
  - eapply dll_insert; [eapply dll_nodup, D|exact NCl|exact D| | | |].
    + intros x N1 N2 N3 _. unfold lk. now rewrite P4.
    + unfold lk. now rewrite P1.
    + intros x a0 b0 E _ H. apply lk_inv in H. destruct H as (n & N & _ & N2). unfold lk. rewrite (P2 _ _ _ E N). cbn. now rewrite N2.
    + intros y b0 E H. apply lk_inv in H. destruct H as (n & N & N1 & _). unfold lk. rewrite (P3 _ _ _ E N). cbn. now rewrite N1.
  - eapply chain_ext; [|exact Ch]. intros x Hx. unfold nx. rewrite P4; auto.
    + intros ->. apply NC. rewrite in_app_iff. auto.
    + intros E. apply last_or_in in E. eapply nodup_app_disj; [exact ND| |exact Hx]. rewrite in_app_iff. auto.
    + intros E. apply hd_or_in in E. eapply nodup_app_disj; [exact ND| |exact Hx]. rewrite in_app_iff. auto.
  - intros i v I. destruct (Nat.eq_dec i c) as [->|NE].
    + unfold vl. rewrite P1. cbn. apply in_app_iff in I. destruct I as [I|[I|I]].
      * exfalso. apply NCl. rewrite in_app_iff. left. apply in_map_iff. exists (c, v). auto.
      * congruence.
      * exfalso. apply NCl. rewrite in_app_iff. right. apply in_map_iff. exists (c, v). auto.
    + rewrite (linked_vl _ _ _ _ _ _ _ LK NE). apply V. apply in_app_iff. apply in_app_iff in I. destruct I as [I|[I|I]]; auto. congruence.
  - rewrite L. cbn [app]. cbn [app] in P. rewrite <- P. rewrite <- !app_assoc. cbn [app]. apply Permutation_sym, Permutation_middle.
Qed.

Lemma core_facts nd fr l f c a b : core nd fr l f [c] -> map fst l = a ++ b ->
  c < length nd /\ (forall a0 x, a = a0 ++ [x] -> (exists n, nth_error nd x = Some n /\ next n = hd_or b None /\ prev n = last_or None a0) /\ x <> c /\ x < length nd) /\
  (forall y b0, b = y :: b0 -> (exists n, nth_error nd y = Some n /\ next n = hd_or b0 None /\ prev n = last_or None a) /\ y <> c /\ y < length nd) /\
  (forall a0 x y b0, a = a0 ++ [x] -> b = y :: b0 -> x <> y).
Proof.
  intros C E. pose proof (core_nodup _ _ _ _ _ C) as ND. pose proof (fun x => core_lt _ _ _ _ _ x C) as LT. rewrite E in ND, LT.
  destruct C as (D & _ & _ & _ & _). rewrite E in D. cbn [app] in ND. apply NoDup_cons_iff in ND. destruct ND as (NC & ND).
  apply dll_app in D. destruct D as (DA & DB). split; [|split; [|split]].
  - apply LT. now left.
  - intros a0 x ->. apply dll_app in DA. destruct DA as (_ & (H & _)). split; [|split].
    + apply lk_inv in H. destruct H as (n & N & N1 & N2). cbn [hd_or] in N1. eauto.
    + intros ->. apply NC. rewrite !in_app_iff. cbn. auto.
    + apply LT. cbn. rewrite !in_app_iff. cbn. auto 10.
  - intros y b0 ->. destruct DB as (H & _). split; [|split].
    + apply lk_inv in H. destruct H as (n & N & N1 & N2). eauto.
    + intros ->. apply NC. rewrite !in_app_iff. cbn. auto.
    + apply LT. cbn. rewrite !in_app_iff. cbn. auto 10.
  - intros a0 x y b0 -> -> ->. rewrite <- !app_assoc in ND. cbn in ND. apply NoDup_remove_2 in ND. apply ND. rewrite !in_app_iff. cbn. auto.
Qed.

Ltac cb := cbn [bind fst snd negb rd wr next prev val nodes len start end_ freelist].
Ltac norm := repeat (cb; first
  [ rewrite set_lt by (rewrite ?upd_length; assumption)
  | rewrite get_upd_same by (rewrite ?upd_length; assumption)
  | rewrite get_upd_other by assumption
  | match goal with N : nth_error ?l ?x = Some _ |- context [get ?l ?x] => rewrite (get_some _ _ _ N) end
  | match goal with N : ?p = Some ?x |- context [match ?p with Some _ => _ | None => _ end] => rewrite N end
  | match goal with N : ?p = None |- context [match ?p with Some _ => _ | None => _ end] => rewrite N end ]); cb.
Ltac neqs := repeat match goal with
  | H : ?a <> ?b :> nat |- _ => assert ((a =? b) = false) by (now apply Nat.eqb_neq); assert ((b =? a) = false) by (apply Nat.eqb_neq; auto); clear H end.
Ltac snoc_inj := match goal with
  | H : [] = _ ++ [_] |- _ => symmetry in H; apply app_eq_nil in H; destruct H; discriminate
  | H : _ ++ [_] = _ ++ [_] |- _ => apply app_inj_tail in H; destruct H; subst
  | H : _ :: _ = _ :: _ |- _ => inversion H; clear H; subst
  | H : [] = _ :: _ |- _ => discriminate end.
Ltac pnorm := repeat first
  [ rewrite nth_error_upd_eq by (rewrite ?upd_length; assumption)
  | rewrite nth_error_upd_neq by (apply Nat.eqb_neq; assumption) ]; cb.
Ltac finish := unfold linked; rewrite ?last_or_snoc; cbn [hd_or last_or fold_left];
  split; [rewrite ?upd_length; reflexivity|]; repeat split; intros; try snoc_inj;
  repeat match goal with
   | H : Some ?x <> Some ?y |- _ => assert (x <> y) by congruence; clear H
   | H : Some ?x <> None |- _ => clear H end; neqs; pnorm;
  try congruence; auto.

Lemma insert_after_strong s l item la lb index : inv s l -> l = la ++ lb ->
  (match index with None => lb = [] | Some i => last_or None (map fst la) = Some i end) ->
  exists s' c, InsertAfter fresh s item index = Ok (s', Some c) /\ ~ In c (map fst l) /\ inv s' (la ++ (c, item) :: lb) /\
    exists f, chain (nx (nodes s')) f None /\ freelist s' = hd_or f None /\ takes s c f.
Proof.
  intros I El HI. destruct (prep_ok _ _ I) as (s1 & c & f & E & L & ST & EN & C & TK). unfold InsertAfter. rewrite E. cbn [bind].
  pose proof (core_nodup _ _ _ _ _ C) as ND. cbn [app] in ND. apply NoDup_cons_iff in ND. destruct ND as (NC & _).
  assert (NCl : ~ In c (map fst l)) by (intros H; apply NC; rewrite in_app_iff; auto). clear NC.
  assert (Em : map fst l = map fst la ++ map fst lb) by (rewrite El; apply map_app).
  destruct (core_facts _ _ _ _ _ _ _ C Em) as (LC & FA & FB & FN).
  assert (PV : (match index with None => end_ s1 | Some _ => index end) = last_or None (map fst la)).
  { destruct index; [congruence|]. rewrite EN, El, HI, app_nil_r. reflexivity. }
  rewrite PV. clear PV.
  assert (NB : map fst la = [] -> map fst lb = []).
  { intros Q. destruct index; [rewrite Q in HI; discriminate|]. now rewrite HI. }
  clear HI.
  cut (exists nd' st en, (do nd <- wr (nodes s1) (Some c) {| val := item; next := None; prev := last_or None (map fst la) |};
    do (nd, st) <- match last_or None (map fst la) with
      | None => Ok (nd, Some c)
      | Some _ => do q <- rd nd (last_or None (map fst la)); do nd <- wr_next nd (Some c) (next q); do nd <- wr_next nd (last_or None (map fst la)) (Some c); Ok (nd, start s1)
      end;
    do pcur <- rd nd (Some c);
    do (nd, en) <- match next pcur with
      | None => Ok (nd, Some c)
      | Some _ => do nd <- wr_prev nd (next pcur) (Some c); Ok (nd, end_ s1)
      end;
    Ok ({| nodes := nd; len := len s1 + 1; start := st; end_ := en; freelist := freelist s1 |}, Some c)) =
    Ok ({| nodes := nd'; len := len s1 + 1; start := st; end_ := en; freelist := freelist s1 |}, Some c) /\
    linked (nodes s1) (map fst la) c item (map fst lb) nd' /\ st = hd_or (map fst la ++ c :: map fst lb) None /\ en = last_or None (map fst la ++ c :: map fst lb)).
  { intros (nd' & st & en & Q & LK & Hst & Hen). eexists _, c. split; [exact Q|]. split; [exact NCl|].
    assert (CR : core nd' (freelist s1) (la ++ (c, item) :: lb) f []) by (eapply linked_core; [rewrite <- El; exact C|exact LK]).
    split; [|exists f; cbn [nodes freelist]; split; [apply CR|]; split; [apply CR|exact TK]].
    split; [cbn [len]; rewrite L, El, !app_length; cbn [length]; lia|]. rewrite map_app. cbn [map fst start end_ nodes freelist]. split; [auto|]. split; [auto|].
    exists f. exact CR. }
  clear TK. rewrite ST, EN, Em. unfold wr_next, wr_prev.
  destruct (map fst la) as [|x a0 _] using rev_ind; destruct (map fst lb) as [|y b0]; rewrite ?last_or_snoc; cbn [app hd_or last_or fold_left].
  - eexists _, _, _. split; [norm; reflexivity|]. split; [finish|auto].
  - discriminate (NB eq_refl).
  - destruct (FA _ _ eq_refl) as ((n & N & N1 & N2) & NX & LX). clear FA FB FN. cbn [hd_or] in N1. neqs.
    eexists _, _, _. split; [norm; reflexivity|]. split; [finish|]. rewrite app_nil_r. destruct a0; auto.
  - destruct (FA _ _ eq_refl) as ((n & N & N1 & N2) & NX & LX). destruct (FB _ _ eq_refl) as ((m & M & M1 & M2) & NY & LY).
    pose proof (FN _ _ _ _ eq_refl eq_refl) as NXY. clear FA FB FN. cbn [hd_or] in N1. rewrite last_or_snoc in M2. neqs.
    eexists _, _, _. split; [norm; reflexivity|]. split; [finish|]. split; [destruct a0; reflexivity|].
    rewrite !last_or_app, !last_or_cons. reflexivity.
Qed.

Lemma insert_after_ok s l item la lb index : inv s l -> l = la ++ lb ->
  (match index with None => lb = [] | Some i => last_or None (map fst la) = Some i end) ->
  exists s' c, InsertAfter fresh s item index = Ok (s', Some c) /\ ~ In c (map fst l) /\ inv s' (la ++ (c, item) :: lb).
Proof. intros I El HI. destruct (insert_after_strong s l item la lb index I El HI) as (s' & c & A & B & D & _). eauto. Qed.

Lemma insert_before_ok s l item la lb index : inv s l -> l = la ++ lb -> index = hd_or (map fst lb) None ->
  exists s' c, InsertBefore fresh s item index = Ok (s', Some c) /\ ~ In c (map fst l) /\ inv s' (la ++ (c, item) :: lb).
Proof.
  intros I El HI. destruct (prep_ok _ _ I) as (s1 & c & f & E & L & ST & EN & C & _). unfold InsertBefore. rewrite E. cbn [bind].
  pose proof (core_nodup _ _ _ _ _ C) as ND. cbn [app] in ND. apply NoDup_cons_iff in ND. destruct ND as (NC & _).
  assert (NCl : ~ In c (map fst l)) by (intros H; apply NC; rewrite in_app_iff; auto). clear NC.
  assert (Em : map fst l = map fst la ++ map fst lb) by (rewrite El; apply map_app).
  destruct (core_facts _ _ _ _ _ _ _ C Em) as (LC & FA & FB & FN).
  cut (exists nd' st en, (do nd <- wr (nodes s1) (Some c) {| val := item; next := index; prev := match index with None => end_ s1 | Some _ => None end |};
    do (nd, en) <- match index with
      | None => Ok (nd, Some c)
      | Some _ => do q <- rd nd index; do nd <- wr_prev nd (Some c) (prev q); do nd <- wr_prev nd index (Some c); Ok (nd, end_ s1)
      end;
    do pcur <- rd nd (Some c);
    do (nd, st) <- match prev pcur with
      | None => Ok (nd, Some c)
      | Some _ => do nd <- wr_next nd (prev pcur) (Some c); Ok (nd, start s1)
      end;
    Ok ({| nodes := nd; len := len s1 + 1; start := st; end_ := en; freelist := freelist s1 |}, Some c)) =
    Ok ({| nodes := nd'; len := len s1 + 1; start := st; end_ := en; freelist := freelist s1 |}, Some c) /\
    linked (nodes s1) (map fst la) c item (map fst lb) nd' /\ st = hd_or (map fst la ++ c :: map fst lb) None /\ en = last_or None (map fst la ++ c :: map fst lb)).
  { intros (nd' & st & en & Q & LK & Hst & Hen). eexists _, c. split; [exact Q|]. split; [exact NCl|].
    split; [cbn [len]; rewrite L, El, !app_length; cbn [length]; lia|]. rewrite map_app. cbn [map fst start end_ nodes freelist]. split; [auto|]. split; [auto|].
    exists f. eapply linked_core; [rewrite <- El; exact C|exact LK]. }
  rewrite ST, EN, Em. subst index. unfold wr_next, wr_prev.
  destruct (map fst la) as [|x a0 _] using rev_ind; destruct (map fst lb) as [|y b0]; rewrite ?last_or_snoc, ?app_nil_r, ?last_or_snoc; cbn [app hd_or last_or fold_left].
  - eexists _, _, _. split; [norm; reflexivity|]. split; [finish|auto].
  - destruct (FB _ _ eq_refl) as ((m & M & M1 & M2) & NY & LY). clear FA FB FN. cbn [last_or fold_left] in M2. neqs.
    eexists _, _, _. split; [norm; reflexivity|]. split; [finish|auto].
  - destruct (FA _ _ eq_refl) as ((n & N & N1 & N2) & NX & LX). clear FA FB FN. cbn [hd_or] in N1. neqs.
    eexists _, _, _. split; [norm; reflexivity|]. split; [finish|]. split; [destruct a0; reflexivity|]. reflexivity.
  - destruct (FA _ _ eq_refl) as ((n & N & N1 & N2) & NX & LX). destruct (FB _ _ eq_refl) as ((m & M & M1 & M2) & NY & LY).
    pose proof (FN _ _ _ _ eq_refl eq_refl) as NXY. clear FA FB FN. cbn [hd_or] in N1. rewrite last_or_snoc in M2. neqs.
    eexists _, _, _. split; [norm; reflexivity|]. split; [finish|]. split; [destruct a0; reflexivity|].
    rewrite !last_or_app, !last_or_cons. reflexivity.
Qed.

(* pointwise description of the nodes after unlinking c from between a and b and putting it on the free chain *)
Definition unlinked (nd : list (lnode T)) (a : list nat) (c : nat) (fr : ptr) (b : list nat) (nd' : list (lnode T)) : Prop :=
  length nd' = length nd /\
  (exists n', nth_error nd' c = Some n' /\ next n' = fr) /\
  (forall x a0 n, a = a0 ++ [x] -> nth_error nd x = Some n -> nth_error nd' x = Some {| val := val n; next := hd_or b None; prev := prev n |}) /\
  (forall y b0 n, b = y :: b0 -> nth_error nd y = Some n -> nth_error nd' y = Some {| val := val n; next := next n; prev := last_or None a |}) /\
  (forall x, x <> c -> Some x <> last_or None a -> Some x <> hd_or b None -> nth_error nd' x = nth_error nd x).
Lemma unlinked_vl nd a c fr b nd' x : unlinked nd a c fr b nd' -> x <> c -> vl nd' x = vl nd x.
Proof.
  intros (L & P1 & P2 & P3 & P4) NC. unfold vl.
  destruct (nth_error nd x) as [n|] eqn:N.
  - destruct (last_or None a) as [z|] eqn:LA; [destruct (Nat.eq_dec x z) as [->|NZ]|].
    + destruct a as [|w a0 _] using rev_ind; [discriminate|]. rewrite last_or_snoc in LA. inversion LA; subst. now rewrite (P2 _ _ _ eq_refl N).
    + destruct (hd_or b None) as [y|] eqn:HB; [destruct (Nat.eq_dec x y) as [->|NY]|].
      * destruct b as [|w b0]; [discriminate|]. inversion HB; subst. now rewrite (P3 _ _ _ eq_refl N).
      * rewrite P4, N; congruence.
      * rewrite P4, N; congruence.
    + destruct (hd_or b None) as [y|] eqn:HB; [destruct (Nat.eq_dec x y) as [->|NY]|].
      * destruct b as [|w b0]; [discriminate|]. inversion HB; subst. now rewrite (P3 _ _ _ eq_refl N).
      * rewrite P4, N; congruence.
      * rewrite P4, N; congruence.
  - apply nth_error_None in N. assert (X : nth_error nd' x = None) by (apply nth_error_None; lia). rewrite X. reflexivity.
Qed.
Lemma unlinked_core nd fr la lb f c v0 nd' : core nd fr (la ++ (c, v0) :: lb) f [] -> unlinked nd (map fst la) c fr (map fst lb) nd' ->
  core nd' (Some c) (la ++ lb) (c :: f) [].
Proof.
  intros C UK. pose proof (core_nodup _ _ _ _ _ C) as ND. destruct C as (D & Ch & F & V & P). pose proof UK as (L & (n' & P1 & P1') & P2 & P3 & P4).
  rewrite map_app in D, ND, P. cbn [app map fst] in D, ND, P.
  pose proof (dll_nodup _ _ _ D) as NDl. pose proof (NoDup_remove_2 _ _ _ NDl) as NCl.
  assert (NDf : NoDup ((map fst la ++ map fst lb) ++ f) /\ ~ In c f).
  { rewrite <- app_assoc in ND. cbn in ND. split; [apply NoDup_remove_1 in ND; now rewrite <- app_assoc|]. apply NoDup_remove_2 in ND. intros H. apply ND. rewrite !in_app_iff. auto. }
  destruct NDf as (NDf & NCf).
  unfold core. rewrite map_app. cbn [hd_or]. split; [|split; [|split; [|split]]]; auto.
  - eapply dll_remove; [exact NDl|exact D| | |].
    + intros x N1 N2 N3 _. unfold lk. now rewrite P4.
    + intros x a0 E H. apply lk_inv in H. destruct H as (n & N & _ & N2). unfold lk. rewrite (P2 _ _ _ E N). cbn. now rewrite N2.
    + intros y b0 E H. apply lk_inv in H. destruct H as (n & N & N1 & _). unfold lk. rewrite (P3 _ _ _ E N). cbn. now rewrite N1.
  - cbn [chain]. split; [unfold nx; rewrite P1; cbn; congruence|]. eapply chain_ext; [|exact Ch]. intros x Hx. unfold nx. rewrite P4; auto.
    + intros ->. auto.
    + intros E. apply last_or_in in E. eapply nodup_app_disj; [exact NDf| |exact Hx]. rewrite in_app_iff. auto.
    + intros E. apply hd_or_in in E. eapply nodup_app_disj; [exact NDf| |exact Hx]. rewrite in_app_iff. auto.
  - intros i v I. assert (NE : i <> c).
    { intros ->. apply NCl. apply in_app_iff. apply in_app_iff in I. destruct I as [I|I]; [left|right]; apply in_map_iff; exists (c, v); auto. }
    rewrite (unlinked_vl _ _ _ _ _ _ _ UK NE). apply V. apply in_app_iff. apply in_app_iff in I. cbn. tauto.
  - rewrite L. rewrite <- P. cbn [app]. rewrite <- !app_assoc. cbn [app]. apply Permutation_app_head. symmetry. apply Permutation_middle.
Qed.

Ltac finishu := unfold unlinked; rewrite ?last_or_snoc; cbn [hd_or last_or fold_left];
  split; [rewrite ?upd_length; reflexivity|]; split; [eexists; split; [pnorm; reflexivity|reflexivity]|];
  repeat split; intros; try snoc_inj;
  repeat match goal with
   | H : Some ?x <> Some ?y |- _ => assert (x <> y) by congruence; clear H
   | H : Some ?x <> None |- _ => clear H end; neqs; pnorm;
  try congruence; auto.

Lemma remove_ok s la c v0 lb : inv s (la ++ (c, v0) :: lb) -> exists s', Remove s c = Ok (s', v0) /\ inv s' (la ++ lb).
Proof.
  intros (L & ST & EN & f & C). rewrite map_app in ST, EN. cbn [map fst] in ST, EN.
  pose proof (core_lt _ _ _ _ _ c C) as LC. pose proof (fun x => core_lt _ _ _ _ _ x C) as LT.
  rewrite map_app in LC, LT. cbn [map fst app] in LC, LT. specialize (LC ltac:(rewrite !in_app_iff; cbn; auto)).
  pose proof C as (D & _ & _ & V & _). rewrite map_app in D. cbn [map fst] in D.
  assert (HV : vl (nodes s) c = Some v0) by (apply V; rewrite in_app_iff; cbn; auto).
  pose proof (dll_nodup _ _ _ D) as ND. pose proof (NoDup_remove_2 _ _ _ ND) as NC. apply NoDup_remove_1 in ND.
  apply dll_app in D. destruct D as (DA & HC & DB). apply lk_inv in HC. destruct HC as (nc & HC & HC1 & HC2).
  apply vl_inv in HV. destruct HV as (nc' & HV & HV1). assert (nc' = nc) by congruence. subst nc'. clear HV.
  cut (exists s', Remove s c = Ok (s', v0) /\ unlinked (nodes s) (map fst la) c (freelist s) (map fst lb) (nodes s') /\
    start s' = hd_or (map fst la ++ map fst lb) None /\ end_ s' = last_or None (map fst la ++ map fst lb) /\ freelist s' = Some c /\ len s' = len s - 1).
  { intros (s' & Q & U & Hst & Hen & Hf & Hl). exists s'. split; [exact Q|]. split; [rewrite Hl, L, !app_length; cbn; lia|].
    rewrite map_app. split; [auto|]. split; [auto|]. exists (c :: f). rewrite Hf. eapply unlinked_core; eauto. }
  clear C V L. unfold Remove. replace (negb (c <? length (nodes s))) with false by lia. rewrite ST, EN. unfold addFreeList, wr_next, wr_prev.
  destruct (map fst la) as [|x a0 _] using rev_ind; destruct (map fst lb) as [|y b0]; rewrite ?last_or_snoc, ?app_nil_r, ?last_or_snoc in *; cbn [app hd_or last_or fold_left] in *.
  - eexists. split; [norm; rewrite HV1; reflexivity|]. split; [cb; finishu|]. cb. rewrite ?HC1, ?HC2. auto.
  - destruct DB as (HY & _). assert (NY : c <> y) by (intros ->; apply NC; now left). apply lk_inv in HY. destruct HY as (m & M & M1 & M2).
    assert (LY : y < length (nodes s)) by (apply LT; cbn; auto). neqs. eexists. split; [norm; rewrite HV1; reflexivity|]. split; [cb; finishu|]. cb. rewrite ?HC1, ?HC2. auto.
  - apply dll_app in DA. destruct DA as (_ & (HX & _)). cbn [hd_or] in HX.
    assert (NX : c <> x) by (intros ->; apply NC; rewrite !in_app_iff; cbn; auto). apply lk_inv in HX. destruct HX as (n & N & N1 & N2).
    assert (LX : x < length (nodes s)) by (apply LT; rewrite !in_app_iff; cbn; auto 10). neqs. eexists. split; [norm; rewrite HV1; reflexivity|]. split; [cb; finishu|]. cb. rewrite ?HC1, ?HC2.
    split; [|auto]. destruct a0; reflexivity.
  - apply dll_app in DA. destruct DA as (_ & (HX & _)). cbn [hd_or] in HX. destruct DB as (HY & _).
    assert (NX : c <> x) by (intros ->; apply NC; rewrite !in_app_iff; cbn; auto). apply lk_inv in HX. destruct HX as (n & N & N1 & N2).
    assert (NY : c <> y) by (intros ->; apply NC; rewrite !in_app_iff; cbn; auto). apply lk_inv in HY. destruct HY as (m & M & M1 & M2).
    assert (NXY : x <> y) by (intros ->; apply NoDup_remove_2 in ND; apply ND; rewrite !in_app_iff; cbn; auto).
    assert (LX : x < length (nodes s)) by (apply LT; rewrite !in_app_iff; cbn; auto 10).
    assert (LY : y < length (nodes s)) by (apply LT; rewrite !in_app_iff; cbn; auto 10). neqs.
    eexists. split; [norm; rewrite HV1; reflexivity|]. split; [cb; finishu|]. cb. rewrite ?HC1, ?HC2.
    split; [destruct a0; reflexivity|]. split; [|auto]. rewrite !last_or_app, !last_or_cons. reflexivity.
Qed.

Lemma put_ok s la c v0 lb v : inv s (la ++ (c, v0) :: lb) -> exists s', Put s c v = Ok s' /\ inv s' (la ++ (c, v) :: lb).
Proof.
  intros (L & ST & EN & f & C). pose proof (core_lt _ _ _ _ _ c C ltac:(rewrite map_app, !in_app_iff; cbn; auto)) as LC.
  pose proof (core_nodup _ _ _ _ _ C) as ND. cbn [app] in ND. apply nodup_app_l in ND. rewrite map_app in ND. cbn [map fst] in ND. apply NoDup_remove_2 in ND.
  assert (EM : map fst (la ++ (c, v) :: lb) = map fst (la ++ (c, v0) :: lb)) by (rewrite !map_app; reflexivity).
  unfold Put. cbn [rd wr]. destruct (get_ok _ _ LC) as (n & G & N). rewrite G. cbn [bind]. rewrite set_lt by exact LC. cbn [bind].
  eexists. split; [reflexivity|]. split; [cbn; rewrite L, !app_length; reflexivity|]. rewrite EM. split; [exact ST|]. split; [exact EN|]. exists f. cbn [nodes freelist].
  destruct C as (D & Ch & F & V & P). unfold core. rewrite EM, upd_length. split; [|split; [|split; [|split]]]; auto.
  - eapply dll_ext; [|exact D]. intros h _. unfold lk. rewrite nth_error_upd. destruct (Nat.eqb_spec c h) as [->|]; cbn [andb]; [|reflexivity].
    replace (h <? length (nodes s)) with true by lia. rewrite N. reflexivity.
  - eapply chain_ext; [|exact Ch]. intros h _. unfold nx. rewrite nth_error_upd. destruct (Nat.eqb_spec c h) as [->|]; cbn [andb]; [|reflexivity].
    replace (h <? length (nodes s)) with true by lia. rewrite N. reflexivity.
  - intros i w I. unfold vl. destruct (Nat.eq_dec c i) as [->|NE].
    + rewrite nth_error_upd_eq by exact LC. cbn. apply in_app_iff in I. destruct I as [I|[I|I]]; [|congruence|];
        exfalso; apply ND; apply in_app_iff; [left|right]; apply in_map_iff; exists (i, w); auto.
    + rewrite nth_error_upd_neq by auto. apply V. apply in_app_iff in I. apply in_app_iff. destruct I as [I|[I|I]]; [auto| |cbn; auto]. congruence.
Qed.

Lemma in_split_fst (l : list (nat * T)) i : In i (map fst l) -> exists a x b, l = a ++ (i, x) :: b.
Proof.
  intros I. apply in_map_iff in I. destruct I as ((j & x) & <- & I). apply in_split in I. destruct I as (a & b & ->). eauto.
Qed.

Lemma step_ok s l o : inv s l -> valid o l -> (forall x, o = OAssign x -> exists l', inv x l') ->
  exists s' r l', l_step fresh s o = Ok (s', r) /\ inv s' l' /\ effect o l l' r.
Proof.
  intros I V A. destruct o as [v|v [i|]|v [i|]|i|i v| |n|o]; cbn [l_step valid effect] in *.
  - unfold Add. destruct (insert_after_ok s l v l [] (end_ s) I) as (s' & c & E & NC & I').
    + now rewrite app_nil_r.
    + pose proof I as (_ & _ & EN & _). rewrite EN. destruct (last_or None (map fst l)); auto.
    + rewrite E. cbn [bind]. eexists s', _, _. split; [reflexivity|]. split; [exact I'|]. eauto.
  - destruct (in_split_fst _ _ V) as (a & x & b & ->).
    destruct (insert_after_ok s _ v (a ++ [(i, x)]) b (Some i) I) as (s' & c & E & NC & I').
    + now rewrite <- app_assoc.
    + rewrite map_app, last_or_app. reflexivity.
    + rewrite E. cbn [bind]. rewrite <- app_assoc in I'. cbn [app] in I'. eexists s', _, _. split; [reflexivity|]. split; [exact I'|]. exists c, a, x, b. auto.
  - destruct (insert_after_ok s l v l [] None I) as (s' & c & E & NC & I').
    + now rewrite app_nil_r.
    + reflexivity.
    + rewrite E. cbn [bind]. eexists s', _, _. split; [reflexivity|]. split; [exact I'|]. eauto.
  - destruct (in_split_fst _ _ V) as (a & x & b & ->).
    destruct (insert_before_ok s _ v a ((i, x) :: b) (Some i) I) as (s' & c & E & NC & I'); [reflexivity|reflexivity|].
    rewrite E. cbn [bind]. eexists s', _, _. split; [reflexivity|]. split; [exact I'|]. exists c, a, x, b. auto.
  - destruct (insert_before_ok s l v l [] None I) as (s' & c & E & NC & I').
    + now rewrite app_nil_r.
    + reflexivity.
    + rewrite E. cbn [bind]. eexists s', _, _. split; [reflexivity|]. split; [exact I'|]. eauto.
  - destruct (in_split_fst _ _ V) as (a & x & b & ->). destruct (remove_ok _ _ _ _ _ I) as (s' & E & I').
    rewrite E. cbn [bind]. eexists s', _, _. split; [reflexivity|]. split; [exact I'|]. exists a, x, b. auto.
  - destruct (in_split_fst _ _ V) as (a & x & b & ->). destruct (put_ok _ _ _ _ _ v I) as (s' & E & I').
    rewrite E. cbn [bind]. eexists s', _, _. split; [reflexivity|]. split; [exact I'|]. exists a, x, b. auto.
  - destruct (clear_ok _ _ I) as (s' & E & I'). rewrite E. cbn [bind]. eexists s', _, _. split; [reflexivity|]. split; [exact I'|]. reflexivity.
  - destruct (setcap_ok _ _ n I) as (s' & E & I' & _). rewrite E. cbn [bind]. eexists s', _, _. split; [reflexivity|]. split; [exact I'|]. reflexivity.
  - destruct (A _ eq_refl) as (l' & I'). cbn [Assign bind]. eexists o, _, l'. split; [reflexivity|]. split; [exact I'|]. apply inv_shows, I'.
Qed.
Lemma reachable_inv s : reachable fresh s -> exists l, inv s l.
Proof.
  induction 1 as [n s E|s o s' r l R IH SH V RA IHA E].
  - destruct (inv_new n) as (s' & E' & I). rewrite E in E'. inversion E'; subst. eauto.
  - destruct IH as (l0 & I). pose proof (shows_fun _ _ _ (inv_shows _ _ I) SH) as Q. subst l0.
    destruct (step_ok s l o I V) as (s2 & r2 & l2 & E2 & I2 & _); [intros x Hx; exact (IHA x Hx)|].
    rewrite E in E2. inversion E2; subst. eauto.
Qed.
End Proofs.

Theorem C29_LinkedArray_list {T} (fresh : lnode T) s : reachable fresh s ->
  (exists l, shows s l) /\
  forall l o, shows s l -> valid o l -> (forall x, o = OAssign x -> reachable fresh x) ->
    exists s' r l', l_step fresh s o = Ok (s', r) /\ shows s' l' /\ effect o l l' r.
Proof.
  intros R. destruct (reachable_inv fresh s R) as (l0 & I0). split; [exists l0; apply inv_shows, I0|].
  intros l o SH V RA. pose proof (shows_fun _ _ _ (inv_shows _ _ I0) SH) as Q. subst l0.
  destruct (step_ok fresh s l o I0 V) as (s' & r & l' & E & I' & EF).
  - intros x Hx. apply (reachable_inv fresh). auto.
  - exists s', r, l'. split; [exact E|]. split; [apply inv_shows, I'|exact EF].
Qed.
Print Assumptions C29_LinkedArray_list.

(* every capacity can be constructed, and shows the empty list *)
Theorem C29_LinkedArray_new {T} (fresh : lnode T) n : exists s, new_larr fresh n = Ok s /\ reachable fresh s /\ shows s [].
Proof. destruct (inv_new fresh n) as (s & E & I). exists s. split; [exact E|]. split; [econstructor; exact E|apply inv_shows, I]. Qed.
Print Assumptions C29_LinkedArray_new.

Lemma wr_len {T} (nd : list (lnode T)) p n nd' : wr nd p n = Ok nd' -> length nd' = length nd.
Proof. destruct p; [|discriminate]. cbn. unfold set. destruct (_ <? _); [|discriminate]. intros E. inversion E. apply upd_length. Qed.
(* an index of a removed element is used again before the array grows: the array grows only when all nodes are live *)
Theorem C29_LinkedArray_reuse {T} (fresh : lnode T) s v i s' p : reachable fresh s -> len s < length (nodes s) ->
  InsertAfter fresh s v i = Ok (s', p) -> length (nodes s') = length (nodes s).
Proof.
  intros R LT E. destruct (reachable_inv fresh s R) as (l & L & _ & _ & f & _ & _ & F & _ & P).
  apply Permutation_length in P. cbn in P. rewrite app_length, map_length, seq_length in P.
  unfold InsertAfter in E. apply bind_ok in E. destruct E as ((s1 & cur) & E1 & E). unfold insertPrep in E1.
  destruct f as [|c f]; [cbn in P; lia|]. cbn [hd_or] in F. rewrite F in E1. cbn [bind] in E1. rewrite F in E1.
  apply bind_ok in E1. destruct E1 as (n & _ & E1). inversion E1; subst s1 cur. clear E1.
  apply bind_ok in E. destruct E as (nd1 & W1 & E). apply wr_len in W1. cbn [nodes] in W1.
  apply bind_ok in E. destruct E as ((nd2 & st) & W2 & E).
  assert (L2 : length nd2 = length nd1).
  { destruct (match i with Some _ => i | None => _ end) as [q|]; [|inversion W2; reflexivity].
    apply bind_ok in W2. destruct W2 as (x & _ & W2). apply bind_ok in W2. destruct W2 as (y & Y & W2). apply bind_ok in W2. destruct W2 as (z & Z & W2).
    inversion W2; subst. unfold wr_next in Y, Z. apply bind_ok in Y, Z. destruct Y as (? & _ & Y), Z as (? & _ & Z). apply wr_len in Y, Z. congruence. }
  apply bind_ok in E. destruct E as (pc & _ & E). apply bind_ok in E. destruct E as ((nd3 & en) & W3 & E). inversion E; subst. cbn [nodes].
  assert (L3 : length nd3 = length nd2).
  { destruct (next pc) as [q|]; [|inversion W3; reflexivity].
    apply bind_ok in W3. destruct W3 as (y & Y & W3). inversion W3; subst. unfold wr_prev in Y. apply bind_ok in Y. destruct Y as (? & _ & Y). apply wr_len in Y. congruence. }
  congruence.
Qed.
Print Assumptions C29_LinkedArray_reuse.

Definition ex_fresh : lnode nat := {| val := 77; next := Some 5; prev := Some 9 |}.
Example C29_example : exists s1 s2 s3, new_larr ex_fresh 1 = Ok s1 /\
  l_step ex_fresh s1 (OAdd 10) = Ok (s2, RIndex (Some 0)) /\
  l_step ex_fresh s2 (OInsertBefore 20 (Some 0)) = Ok (s3, RIndex (Some 1)) /\
  reachable ex_fresh s3 /\ shows s3 [(1, 20); (0, 10)] /\ valid (ORemove 0) [(1, 20); (0, 10)].
Proof.
  eexists _, _, _. split; [vm_compute; reflexivity|]. split; [vm_compute; reflexivity|]. split; [vm_compute; reflexivity|].
  assert (S1 : shows {| nodes := [{| val := 77; next := None; prev := Some 9 |}]; len := 0; start := None; end_ := None; freelist := Some 0 |} (@nil (nat * nat))).
  { split; [reflexivity|]. split; [constructor|]. split; [reflexivity|]. split; [reflexivity|]. intros [|k] i v E; discriminate. }
  split; [|split].
  - eapply r_step with (o := OInsertBefore 20 (Some 0)) (l := [(0, 10)]); [eapply r_step with (o := OAdd 10) (l := []); [eapply (r_new _ 1); reflexivity|exact S1|exact I|discriminate|reflexivity]| | |discriminate|reflexivity].
    + split; [reflexivity|]. split; [repeat constructor; auto|]. split; [reflexivity|]. split; [reflexivity|].
      intros [|[|k]] i v E; inversion E; subst; repeat split; reflexivity.
    + cbn. auto.
  - split; [reflexivity|]. split; [repeat constructor; cbn; intuition discriminate|]. split; [reflexivity|]. split; [reflexivity|].
    intros [|[|[|k]]] i v E; inversion E; subst; repeat split; reflexivity.
  - cbn. auto.
Qed.
