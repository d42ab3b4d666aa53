(* Property C30: the intrusive list functions splice exactly one node. *)
From Coq Require Import List Arith Bool Lia.
From Verif Require Import Common Dll LLBase.
Import ListNotations.

(* [ids] is the list reached from root (and last): root is its first address, last its last, and every node points at
   its neighbours, null at the ends *)
Definition list_at (h : heap) (root last : ptr) (ids : list nat) : Prop :=
  root = nth_error ids 0 /\
  last = (match length ids with 0 => None | S j => nth_error ids j end) /\
  forall k x, nth_error ids k = Some x ->
    h x = Some (nth_error ids (S k), match k with 0 => None | S j => nth_error ids j end).
(* nothing outside [ids] changed, in particular no node was created or destroyed *)
Definition only_changes (ids : list nat) (h h' : heap) : Prop := forall x, ~ In x ids -> h' x = h x.

Lemma list_at_dll h r l ids : list_at h r l ids <-> r = hd_or ids None /\ l = last_or None ids /\ dll h None ids None.
Proof.
  unfold list_at. rewrite hd_or_nth, last_or_nth, dll_nth. split; intros (A & B & C); repeat split; auto.
  - intros k x E. rewrite (C k x E). destruct (nth_error ids (S k)); reflexivity.
  - intros k x E. rewrite (C k x E). destruct (nth_error ids (S k)); reflexivity.
Qed.
(* a well-formed list has no repetition *)
Lemma list_at_nodup h r l ids : list_at h r l ids -> NoDup ids.
Proof. rewrite list_at_dll. intros (_ & _ & D). eapply dll_nodup, D. Qed.
(* and is determined by its root *)
Lemma list_at_fun h r l ids l' ids' : list_at h r l ids -> list_at h r l' ids' -> ids = ids' /\ l = l'.
Proof.
  rewrite !list_at_dll. intros (A & B & D) (A' & B' & D').
  assert (E : ids = ids'). { destruct ids as [|x t], ids' as [|y u]; cbn in A, A'; try congruence. assert (x = y) by congruence. subst y.
    f_equal. eapply dll_suffix; eauto. }
  subst. auto.
Qed.

(* pointwise description of the heap after inserting c between a and b *)
Definition spliced_in (h : heap) (a : list nat) (c : nat) (b : list nat) (h' : heap) : Prop :=
  h' c = Some (hd_or b None, last_or None a) /\
  (forall x a0 n p, a = a0 ++ [x] -> h x = Some (n, p) -> h' x = Some (Some c, p)) /\
  (forall y b0 n p, b = y :: b0 -> h y = Some (n, p) -> h' y = Some (n, Some c)) /\
  (forall x, x <> c -> Some x <> last_or None a -> Some x <> hd_or b None -> h' x = h x).
Definition spliced_out (h : heap) (a : list nat) (c : nat) (b : list nat) (h' : heap) : Prop :=
  (forall x a0 n p, a = a0 ++ [x] -> h x = Some (n, p) -> h' x = Some (hd_or b None, p)) /\
  (forall y b0 n p, b = y :: b0 -> h y = Some (n, p) -> h' y = Some (n, last_or None a)) /\
  (forall x, Some x <> last_or None a -> Some x <> hd_or b None -> h' x = h x).

Lemma last_or_in a x : Some x = last_or None a -> In x a.
Proof. destruct a as [|y a0 _] using rev_ind; [discriminate|]. rewrite last_or_snoc, in_app_iff. intros E. inversion E. cbn. auto. Qed.
Lemma hd_or_in a x : Some x = hd_or a None -> In x a.
Proof. destruct a; [discriminate|]. cbn. intros E. inversion E. auto. Qed.

Lemma spliced_in_list h a c b h' : dll h None (a ++ b) None -> ~ In c (a ++ b) -> spliced_in h a c b h' ->
  dll h' None (a ++ c :: b) None /\ only_changes (c :: a ++ b) h h'.
Proof.
  intros D NI (S1 & S2 & S3 & S4). split.
  - eapply dll_insert; eauto using dll_nodup.
  - intros x NX. apply S4.
    + intros ->. apply NX. now left.
    + intros E. apply NX. right. apply in_app_iff. left. now apply last_or_in.
    + intros E. apply NX. right. apply in_app_iff. right. now apply hd_or_in.
Qed.
Lemma spliced_out_list h a c b h' : dll h None (a ++ c :: b) None -> spliced_out h a c b h' ->
  dll h' None (a ++ b) None /\ only_changes (a ++ b) h h'.
Proof.
  intros D (S2 & S3 & S4). split.
  - eapply dll_remove; eauto using dll_nodup.
  - intros x NX. apply S4.
    + intros E. apply NX. apply in_app_iff. left. now apply last_or_in.
    + intros E. apply NX. apply in_app_iff. right. now apply hd_or_in.
Qed.

Ltac norm := repeat (cbn [bind fst snd negb isnull peq];
  first [rewrite Nat.eqb_refl | match goal with
    | H : (?a =? ?b) = false |- context [?a =? ?b] => rewrite H
    | H : ?h ?x = Some _ |- context [match ?h ?x with Some _ => _ | None => _ end] => rewrite H end]); cbn [bind fst snd negb isnull peq].
Ltac neqs := repeat match goal with
  | H : ?a <> ?b :> nat |- _ => assert ((a =? b) = false) by (now apply Nat.eqb_neq); assert ((b =? a) = false) by (apply Nat.eqb_neq; auto); clear H end.
Ltac snoc_inj := match goal with
  | H : [] = _ ++ [_] |- _ => symmetry in H; apply app_eq_nil in H; destruct H; discriminate
  | H : _ ++ [_] = _ ++ [_] |- _ => apply app_inj_tail in H; destruct H; subst
  | H : _ :: _ = _ :: _ |- _ => inversion H; clear H; subst
  | H : [] = _ :: _ |- _ => discriminate end.
Ltac finish := unfold spliced_in, spliced_out; rewrite ?last_or_snoc; cbn [hd_or last_or fold_left];
  repeat split; intros; try snoc_inj; norm; try congruence;
  repeat match goal with
   | H : Some ?x <> Some ?y |- _ => assert (x <> y) by congruence; clear H
   | H : Some ?x <> None |- _ => clear H end; neqs; norm; try congruence; auto.

Lemma mid_facts (h : heap) a c b : dll h None (a ++ b) None -> ~ In c (a ++ b) ->
  (forall a0 x, a = a0 ++ [x] -> h x = Some (hd_or b None, last_or None a0) /\ x <> c) /\
  (forall y b0, b = y :: b0 -> h y = Some (hd_or b0 None, last_or None a) /\ y <> c) /\
  (forall a0 x y b0, a = a0 ++ [x] -> b = y :: b0 -> x <> y).
Proof.
  intros D NI. pose proof (dll_nodup _ _ _ D) as ND. apply dll_app in D. destruct D as (DA & DB). split; [|split].
  - intros a0 x ->. apply dll_app in DA. cbn in DA. split; [apply DA|]. intros ->. apply NI. rewrite !in_app_iff. cbn. auto.
  - intros y b0 ->. cbn in DB. split; [apply DB|]. intros ->. apply NI. rewrite !in_app_iff. cbn. auto.
  - intros a0 x y b0 -> -> ->. apply NoDup_remove_2 in ND. apply ND. rewrite !in_app_iff. cbn. auto.
Qed.

Ltac exec_ := unfold rd_next, rd_prev, wr_next, wr_prev, rd, wr; norm.

Lemma insert_between_ok h a c y b0 : dll h None (a ++ y :: b0) None -> ~ In c (a ++ y :: b0) -> h c <> None ->
  exists h', LLInsert2 h (Some c) (Some y) = Ok h' /\ spliced_in h a c (y :: b0) h' /\
    forall r, LLInsert h (Some c) (Some y) r = Ok (h', match a with [] => Some c | _ => r end).
Proof.
  intros D NI HC. destruct (mid_facts _ _ _ _ D NI) as (FA & FB & FN). destruct (FB _ _ eq_refl) as (HY & NY).
  destruct (h c) as [[cn cp]|] eqn:HC'; [|congruence]. clear FB HC.
  destruct a as [|x a0 _] using rev_ind.
  - clear FA FN. cbn [last_or fold_left] in HY. neqs. unfold LLInsert2, LLInsert. eexists. split; [exec_; reflexivity|split; [finish|intros r]].
    exec_. reflexivity.
  - destruct (FA _ _ eq_refl) as (HX & NX). pose proof (FN _ _ _ _ eq_refl eq_refl) as NXY. clear FA FN. rewrite last_or_snoc in HY. cbn [hd_or] in HX. neqs.
    unfold LLInsert2, LLInsert. eexists. split; [exec_; reflexivity|split; [finish|intros r]].
    exec_. destruct (a0 ++ [x]) eqn:E; [destruct a0; discriminate|]. reflexivity.
Qed.
Lemma insert_after_ok h a0 x c b : dll h None ((a0 ++ [x]) ++ b) None -> ~ In c ((a0 ++ [x]) ++ b) -> h c <> None ->
  exists h', LLInsertAfter2 h (Some c) (Some x) = Ok h' /\ spliced_in h (a0 ++ [x]) c b h' /\
    forall l, LLInsertAfter h (Some c) (Some x) l = Ok (h', match b with [] => Some c | _ => l end).
Proof.
  intros D NI HC. destruct (mid_facts _ _ _ _ D NI) as (FA & FB & FN). destruct (FA _ _ eq_refl) as (HX & NX).
  destruct (h c) as [[cn cp]|] eqn:HC'; [|congruence]. clear FA HC.
  destruct b as [|y b0].
  - clear FB FN. cbn [hd_or] in HX. neqs. unfold LLInsertAfter2, LLInsertAfter. eexists. split; [exec_; reflexivity|split; [finish|intros r]].
    exec_. reflexivity.
  - destruct (FB _ _ eq_refl) as (HY & NY). pose proof (FN _ _ _ _ eq_refl eq_refl) as NXY. clear FB FN. rewrite last_or_snoc in HY. cbn [hd_or] in HX. neqs.
    unfold LLInsertAfter2, LLInsertAfter. eexists. split; [exec_; reflexivity|split; [finish|intros r]].
    exec_. reflexivity.
Qed.
Lemma add_ok h c b : dll h None b None -> ~ In c b -> h c <> None ->
  exists h', LLAdd h (Some c) (hd_or b None) = Ok (h', Some c) /\ spliced_in h [] c b h' /\
    forall l, LLAdd3 h (Some c) (hd_or b None) l = Ok (h', (Some c, match b with [] => Some c | _ => l end)).
Proof.
  intros D NI HC. destruct (mid_facts h [] c b D NI) as (_ & FB & _).
  destruct (h c) as [[cn cp]|] eqn:HC'; [|congruence]. clear HC.
  destruct b as [|y b0].
  - clear FB. unfold LLAdd, LLAdd3. cbn [hd_or]. eexists. split; [exec_; reflexivity|split; [finish|intros r]].
    exec_. reflexivity.
  - destruct (FB _ _ eq_refl) as (HY & NY). clear FB. cbn [last_or fold_left] in HY. neqs.
    unfold LLAdd, LLAdd3. cbn [hd_or]. eexists. split; [exec_; reflexivity|split; [finish|intros r]].
    exec_. reflexivity.
Qed.
Lemma add_after_ok h c a : dll h None a None -> ~ In c a -> h c <> None ->
  exists h', (a <> [] -> LLAddAfter2 h (Some c) (last_or None a) = Ok (h', Some c)) /\ spliced_in h a c [] h' /\
    forall r, LLAddAfter h (Some c) r (last_or None a) = Ok (h', (match a with [] => Some c | _ => r end, Some c)).
Proof.
  intros D NI HC. rewrite <- (app_nil_r a) in D, NI. destruct (mid_facts h a c [] D NI) as (FA & _ & _).
  destruct (h c) as [[cn cp]|] eqn:HC'; [|congruence]. clear HC.
  destruct a as [|x a0 _] using rev_ind.
  - clear FA. unfold LLAddAfter2, LLAddAfter. cbn [last_or fold_left]. eexists. split; [congruence|split]; [|intros r].
    2:{ exec_. reflexivity. } finish.
  - destruct (FA _ _ eq_refl) as (HX & NX). clear FA. rewrite last_or_snoc. cbn [hd_or] in HX. neqs.
    unfold LLAddAfter2, LLAddAfter. eexists. split; [intros _; exec_; reflexivity|split; [finish|intros r]].
    exec_. destruct (a0 ++ [x]) eqn:E; [destruct a0; discriminate|]. reflexivity.
Qed.
Lemma remove_ok h a c b : dll h None (a ++ c :: b) None ->
  exists h', LLRemove1 h (Some c) = Ok h' /\ spliced_out h a c b h' /\
    LLRemove2 h (Some c) (hd_or (a ++ c :: b) None) = Ok (h', hd_or (a ++ b) None) /\
    LLRemove3 h (Some c) (hd_or (a ++ c :: b) None) (last_or None (a ++ c :: b)) = Ok (h', (hd_or (a ++ b) None, last_or None (a ++ b))).
Proof.
  intros D. pose proof (dll_nodup _ _ _ D) as ND. pose proof (NoDup_remove_2 _ _ _ ND) as NC. apply NoDup_remove_1 in ND.
  apply dll_app in D. destruct D as (DA & HC & DB). rewrite last_or_app, last_or_cons.
  destruct a as [|x a0 _] using rev_ind; destruct b as [|y b0]; cbn [hd_or last_or fold_left app] in *.
  - unfold LLRemove1, LLRemove2, LLRemove3. eexists. split; [exec_; reflexivity|split; [finish|split]].
    + exec_. reflexivity.
    + exec_. reflexivity.
  - destruct DB as (HY & _). assert (NY : c <> y) by (intros ->; apply NC; now left). neqs.
    unfold LLRemove1, LLRemove2, LLRemove3. eexists. split; [exec_; reflexivity|split; [finish|split]].
    + exec_. reflexivity.
    + exec_. reflexivity.
  - apply dll_app in DA. destruct DA as (_ & (HX & _)). change (fold_left _ ?l ?p) with (last_or p l) in *. rewrite last_or_snoc in HC. cbn [hd_or] in HX.
    assert (NX : c <> x) by (intros ->; apply NC; rewrite !in_app_iff; cbn; auto). neqs.
    unfold LLRemove1, LLRemove2, LLRemove3. eexists. split; [exec_; reflexivity|split; [finish|split]].
    + exec_. rewrite !app_nil_r, hd_or_app. destruct a0; reflexivity.
    + exec_. rewrite !app_nil_r, last_or_snoc, hd_or_app. destruct a0; reflexivity.
  - apply dll_app in DA. destruct DA as (_ & (HX & _)). change (fold_left _ ?l ?p) with (last_or p l) in *. rewrite last_or_snoc in HC. cbn [hd_or] in HX.
    destruct DB as (HY & _).
    assert (NX : c <> x) by (intros ->; apply NC; rewrite !in_app_iff; cbn; auto).
    assert (NY : c <> y) by (intros ->; apply NC; rewrite !in_app_iff; cbn; auto).
    assert (NXY : x <> y) by (intros ->; apply NoDup_remove_2 in ND; apply ND; rewrite !in_app_iff; cbn; auto). neqs.
    unfold LLRemove1, LLRemove2, LLRemove3. eexists. split; [exec_; reflexivity|split; [finish|split]].
    + exec_. rewrite !hd_or_app. destruct a0; reflexivity.
    + exec_. rewrite !hd_or_app, last_or_app, last_or_cons. destruct a0; reflexivity.
Qed.

Lemma dll_prefix lk a1 a2 x b1 b2 : dll lk None (a1 ++ x :: b1) None -> dll lk None (a2 ++ x :: b2) None -> a1 = a2.
Proof.
  revert a2 x b1 b2. induction a1 as [|y a1 IH] using rev_ind; intros a2 x b1 b2 D1 D2; destruct a2 as [|z a2 _] using rev_ind; auto.
  - apply dll_app in D1, D2. destruct D1 as (_ & (H1 & _)), D2 as (_ & (H2 & _)). rewrite last_or_snoc in H2. cbn in H1. congruence.
  - apply dll_app in D1, D2. destruct D1 as (_ & (H1 & _)), D2 as (_ & (H2 & _)). rewrite last_or_snoc in H1. cbn in H2. congruence.
  - assert (E : y = z). { apply dll_app in D1, D2. destruct D1 as (_ & (H1 & _)), D2 as (_ & (H2 & _)). rewrite last_or_snoc in H1, H2. congruence. }
    subst z. f_equal. rewrite <- app_assoc in D1, D2. cbn in D1, D2. eapply IH; eauto.
Qed.
(* two well-formed lists with different roots share no node *)
Lemma list_at_disjoint h r1 l1 ids1 r2 l2 ids2 x : list_at h r1 l1 ids1 -> list_at h r2 l2 ids2 -> In x ids1 -> In x ids2 -> r1 = r2.
Proof.
  rewrite !list_at_dll. intros (-> & _ & D1) (-> & _ & D2) I1 I2.
  apply in_split in I1, I2. destruct I1 as (a1 & b1 & ->), I2 as (a2 & b2 & ->).
  rewrite (dll_prefix _ _ _ _ _ _ D1 D2). rewrite !hd_or_app. reflexivity.
Qed.

(* every other list of the heap that does not contain the node being linked is still there, unchanged *)
Definition others_kept (h : heap) (root : ptr) (node : nat) (h' : heap) : Prop :=
  forall r l ids, list_at h r l ids -> r <> root -> ~ In node ids -> list_at h' r l ids.

Lemma list_at_ext h h' r l ids : (forall x, In x ids -> h' x = h x) -> list_at h r l ids -> list_at h' r l ids.
Proof. rewrite !list_at_dll. intros E (A & B & D). repeat split; auto. eapply dll_ext; eauto. Qed.
Lemma others_in h root last ids c h' : list_at h root last ids -> only_changes (c :: ids) h h' -> others_kept h root c h'.
Proof.
  intros L O r l ids2 L2 NE NC. eapply list_at_ext; [|exact L2]. intros x Hx. apply O. intros [->|H]; auto.
  apply NE. symmetry. eapply list_at_disjoint; [exact L|exact L2|exact H|exact Hx].
Qed.
Lemma only_incl ids ids' h h' : (forall x, In x ids -> In x ids') -> only_changes ids h h' -> only_changes ids' h h'.
Proof. intros I O x N. apply O. auto. Qed.

(* LLInsert puts the node just before the target *)
Theorem C30_LLInsert h root last a t b c :
  list_at h root last (a ++ t :: b) -> ~ In c (a ++ t :: b) -> h c <> None ->
  exists h' root', LLInsert h (Some c) (Some t) root = Ok (h', root') /\ list_at h' root' last (a ++ c :: t :: b) /\
    only_changes (c :: a ++ t :: b) h h' /\ others_kept h root c h' /\
    LLInsert2 h (Some c) (Some t) = Ok h' /\ (a <> [] -> root' = root).
Proof.
  intros L NI HC. pose proof L as L0. rewrite list_at_dll in L. destruct L as (R & La & D).
  destruct (insert_between_ok _ _ _ _ _ D NI HC) as (h' & E2 & S & E). destruct (spliced_in_list _ _ _ _ _ D NI S) as (D' & O).
  eexists h', _. split; [apply E|]. split; [|split; [|split; [|split]]]; auto.
  - rewrite list_at_dll. split; [|split; auto].
    + rewrite R, !hd_or_app. destruct a; reflexivity.
    + rewrite La, !last_or_app, !last_or_cons. reflexivity.
  - eapply others_in; eauto.
  - destruct a; congruence.
Qed.
Print Assumptions C30_LLInsert.

(* LLInsertAfter puts the node just after the target *)
Theorem C30_LLInsertAfter h root last a t b c :
  list_at h root last (a ++ t :: b) -> ~ In c (a ++ t :: b) -> h c <> None ->
  exists h' last', LLInsertAfter h (Some c) (Some t) last = Ok (h', last') /\ list_at h' root last' (a ++ t :: c :: b) /\
    only_changes (c :: a ++ t :: b) h h' /\ others_kept h root c h' /\
    LLInsertAfter2 h (Some c) (Some t) = Ok h' /\ (b <> [] -> last' = last).
Proof.
  intros L NI HC. pose proof L as L0. rewrite list_at_dll in L. destruct L as (R & La & D).
  replace (a ++ t :: b) with ((a ++ [t]) ++ b) in * by (now rewrite <- app_assoc).
  destruct (insert_after_ok _ _ _ _ _ D NI HC) as (h' & E2 & S & E). destruct (spliced_in_list _ _ _ _ _ D NI S) as (D' & O).
  eexists h', _. split; [apply E|]. split; [|split; [|split; [|split]]]; auto.
  - rewrite list_at_dll. replace (a ++ t :: c :: b) with ((a ++ [t]) ++ c :: b) by (now rewrite <- app_assoc). split; [|split; auto].
    + rewrite R, !hd_or_app. destruct a; reflexivity.
    + rewrite La, !(last_or_app _ _ b), !(last_or_app _ _ (c :: b)), !last_or_cons. destruct b; [|rewrite !last_or_cons]; reflexivity.
  - eapply others_in; eauto.
  - destruct b; congruence.
Qed.
Print Assumptions C30_LLInsertAfter.

(* LLAdd puts the node at the front, also of an empty list *)
Theorem C30_LLAdd h root last b c :
  list_at h root last b -> ~ In c b -> h c <> None ->
  exists h' last', LLAdd3 h (Some c) root last = Ok (h', (Some c, last')) /\ list_at h' (Some c) last' (c :: b) /\
    only_changes (c :: b) h h' /\ others_kept h root c h' /\
    LLAdd h (Some c) root = Ok (h', Some c) /\ (b <> [] -> last' = last).
Proof.
  intros L NI HC. pose proof L as L0. rewrite list_at_dll in L. destruct L as (R & La & D).
  destruct (add_ok _ _ _ D NI HC) as (h' & E2 & S & E). destruct (spliced_in_list _ [] _ _ _ D NI S) as (D' & O).
  rewrite <- R in E, E2. eexists h', _. split; [apply E|]. split; [|split; [|split; [|split]]]; auto.
  - rewrite list_at_dll. split; [|split]; auto. rewrite La, last_or_cons. destruct b; reflexivity.
  - eapply others_in; eauto.
  - destruct b; congruence.
Qed.
Print Assumptions C30_LLAdd.

(* LLAddAfter puts the node at the end; the two-argument form needs a non-empty list *)
Theorem C30_LLAddAfter h root last a c :
  list_at h root last a -> ~ In c a -> h c <> None ->
  exists h' root', LLAddAfter h (Some c) root last = Ok (h', (root', Some c)) /\ list_at h' root' (Some c) (a ++ [c]) /\
    only_changes (c :: a) h h' /\ others_kept h root c h' /\
    (a <> [] -> LLAddAfter2 h (Some c) last = Ok (h', Some c) /\ root' = root).
Proof.
  intros L NI HC. pose proof L as L0. rewrite list_at_dll in L. destruct L as (R & La & D).
  destruct (add_after_ok _ _ _ D NI HC) as (h' & E2 & S & E).
  pose proof D as D1. pose proof NI as NI1. rewrite <- (app_nil_r a) in D1, NI1.
  destruct (spliced_in_list _ _ _ _ _ D1 NI1 S) as (D' & O). rewrite app_nil_r in O.
  rewrite <- La in E, E2. eexists h', _. split; [apply E|]. split; [|split; [|split]]; auto.
  - rewrite list_at_dll. split; [|split]; auto.
    + rewrite R, hd_or_app. destruct a; reflexivity.
    + now rewrite last_or_snoc.
  - eapply others_in; eauto.
  - intros NE. split; auto. destruct a; congruence.
Qed.
Print Assumptions C30_LLAddAfter.

(* LLRemove takes exactly that node out, in all three forms *)
Theorem C30_LLRemove h root last a c b :
  list_at h root last (a ++ c :: b) ->
  exists h' root' last', LLRemove3 h (Some c) root last = Ok (h', (root', last')) /\ list_at h' root' last' (a ++ b) /\
    only_changes (a ++ b) h h' /\ others_kept h root c h' /\
    LLRemove2 h (Some c) root = Ok (h', root') /\ LLRemove1 h (Some c) = Ok h' /\
    (a <> [] -> root' = root) /\ (b <> [] -> last' = last).
Proof.
  intros L. pose proof L as L0. rewrite list_at_dll in L. destruct L as (R & La & D).
  destruct (remove_ok _ _ _ _ D) as (h' & E1 & S & E2 & E3). destruct (spliced_out_list _ _ _ _ _ D S) as (D' & O).
  rewrite <- R in E2, E3. rewrite <- La in E3. eexists h', _, _. split; [apply E3|]. split; [|split; [|split; [|split; [|split; [|split]]]]]; auto.
  - rewrite list_at_dll. auto.
  - eapply others_in; [exact L0|]. eapply only_incl; [|exact O]. intros x. rewrite !in_app_iff. cbn. rewrite in_app_iff. cbn. tauto.
  - rewrite R, !hd_or_app. destruct a; [congruence|reflexivity].
  - rewrite La, !last_or_app, last_or_cons. destruct b; [congruence|]. rewrite !last_or_cons. reflexivity.
Qed.
Print Assumptions C30_LLRemove.

(* AltLLAdd / AltLLRemove are the two-argument LLAdd / LLRemove *)
Definition ex_heap : heap := fun x => match x with 1 => Some (Some 2, None) | 2 => Some (Some 3, Some 1) | 3 => Some (None, Some 2)
  | 7 => Some (Some 8, None) | 8 => Some (None, Some 7) | 5 => Some (Some 99, Some 98) | _ => None end.
Example C30_example : list_at ex_heap (Some 1) (Some 3) ([1] ++ 2 :: [3]) /\ ~ In 5 ([1] ++ 2 :: [3]) /\ ex_heap 5 <> None /\
  list_at ex_heap (Some 7) (Some 8) [7; 8].
Proof.
  split; [|split; [|split]]; [rewrite list_at_dll; now repeat split| |discriminate|rewrite list_at_dll; now repeat split].
  cbn. intuition discriminate.
Qed.
