(* Doubly linked chains of numbered nodes, used for LinkedArray (C29) and the intrusive lists (C30).  Nothing here models
   a function of /repo: [lk a] reads the (next, prev) fields of node a, None is the null link. *)
From Coq Require Import List Arith Bool Lia.
From Verif Require Import Common.
Import ListNotations.

Notation ptr := (option nat).
Notation links := (nat -> option (ptr * ptr)).
Definition hd_or (l : list nat) (n : ptr) : ptr := match l with [] => n | x :: _ => Some x end.
Definition last_or (p : ptr) (l : list nat) : ptr := fold_left (fun _ x => Some x) l p.

(* [ids] in this order is a chain entered from p and leaving to n *)
Fixpoint dll (lk : links) (p : ptr) (ids : list nat) (n : ptr) : Prop :=
  match ids with
  | [] => True
  | h :: t => lk h = Some (hd_or t n, p) /\ dll lk (Some h) t n
  end.
(* singly linked chain through the next fields *)
Fixpoint chain (nx : nat -> option ptr) (ids : list nat) (n : ptr) : Prop :=
  match ids with
  | [] => True
  | h :: t => nx h = Some (hd_or t n) /\ chain nx t n
  end.

Lemma hd_or_app a b n : hd_or (a ++ b) n = hd_or a (hd_or b n).
Proof. destruct a; reflexivity. Qed.
Lemma last_or_app p a b : last_or p (a ++ b) = last_or (last_or p a) b.
Proof. apply fold_left_app. Qed.
Lemma last_or_snoc p a x : last_or p (a ++ [x]) = Some x.
Proof. rewrite last_or_app. reflexivity. Qed.
Lemma last_or_cons p x a : last_or p (x :: a) = last_or (Some x) a.
Proof. reflexivity. Qed.

Lemma dll_app lk p a b n : dll lk p (a ++ b) n <-> dll lk p a (hd_or b n) /\ dll lk (last_or p a) b n.
Proof.
  revert p. induction a as [|h t IH]; intros p; cbn [app dll]; [cbn; tauto|].
  rewrite hd_or_app, last_or_cons, IH. tauto.
Qed.
Lemma dll_ext lk lk' p ids n : (forall h, In h ids -> lk' h = lk h) -> dll lk p ids n -> dll lk' p ids n.
Proof.
  revert p. induction ids as [|h t IH]; intros p E; cbn [dll]; [auto|]. intros (A & B). split.
  - rewrite E; [exact A|now left].
  - apply IH; auto. intros x Hx. apply E. now right.
Qed.
Lemma chain_ext nx nx' ids n : (forall h, In h ids -> nx' h = nx h) -> chain nx ids n -> chain nx' ids n.
Proof.
  induction ids as [|h t IH]; intros E; cbn [chain]; [auto|]. intros (A & B). split.
  - rewrite E; [exact A|now left].
  - apply IH; auto. intros x Hx. apply E. now right.
Qed.

Lemma dll_suffix lk p1 p2 h t1 t2 : dll lk p1 (h :: t1) None -> dll lk p2 (h :: t2) None -> t1 = t2.
Proof.
  revert p1 p2 h t2. induction t1 as [|x t IH]; intros p1 p2 h t2; cbn [dll]; intros (A & B) (C & D).
  - destruct t2; auto. cbn in A, C. rewrite A in C. congruence.
  - destruct t2 as [|y t2]; cbn [hd_or] in A, C; rewrite A in C; [congruence|].
    assert (x = y) by congruence. subst y. f_equal. eapply IH; [exact B|exact D].
Qed.
Lemma dll_nodup lk p ids : dll lk p ids None -> NoDup ids.
Proof.
  revert p. induction ids as [|h t IH]; intros p H; constructor.
  - intros I. apply in_split in I. destruct I as (a & b & E).
    assert (D : dll lk (last_or (Some h) a) (h :: b) None).
    { destruct H as [_ H]. rewrite E in H. apply dll_app in H. apply H. }
    pose proof (dll_suffix _ _ _ _ _ _ H D) as S. rewrite S in E. apply (f_equal (@length nat)) in E. rewrite app_length in E. cbn in E. lia.
  - destruct H as [_ H]. eapply IH, H.
Qed.

(* positional reading *)
Lemma dll_nth lk p ids n : dll lk p ids n <->
  forall k x, nth_error ids k = Some x ->
    lk x = Some (match nth_error ids (S k) with Some y => Some y | None => n end,
                 match k with 0 => p | S j => nth_error ids j end).
Proof.
  revert p. induction ids as [|h t IH]; intros p; cbn [dll].
  - split; auto. intros _ k x E. destruct k; discriminate.
  - rewrite IH. split.
    + intros (A & B) [|k] x E; cbn in E.
      * inversion E; subst. rewrite A. destruct t; reflexivity.
      * rewrite (B k x E). cbn [nth_error]. destruct k; reflexivity.
    + intros A. split.
      * specialize (A 0 h eq_refl). rewrite A. destruct t; reflexivity.
      * intros k x E. specialize (A (S k) x E). rewrite A. cbn [nth_error]. destruct k; reflexivity.
Qed.
Lemma hd_or_nth l : hd_or l None = nth_error l 0.
Proof. destruct l; reflexivity. Qed.
Lemma last_or_nth l : last_or None l = match length l with 0 => None | S j => nth_error l j end.
Proof.
  destruct l as [|x t] using rev_ind; [reflexivity|]. rewrite last_or_snoc, app_length. cbn [length].
  replace (length t + 1) with (S (length t)) by lia. rewrite nth_error_app2 by lia. rewrite Nat.sub_diag. reflexivity.
Qed.

(* insertion of c between a and b *)
Lemma dll_insert lk lk' p a b c n : NoDup (a ++ b) -> ~ In c (a ++ b) -> dll lk p (a ++ b) n ->
  (forall x, x <> c -> Some x <> last_or None a -> Some x <> hd_or b None -> In x (a ++ b) -> lk' x = lk x) ->
  lk' c = Some (hd_or b n, last_or p a) ->
  (forall x a0 b0, a = a0 ++ [x] -> b = b0 -> lk x = Some (hd_or b n, last_or p a0) -> lk' x = Some (Some c, last_or p a0)) ->
  (forall y b0, b = y :: b0 -> lk y = Some (hd_or b0 n, last_or p a) -> lk' y = Some (hd_or b0 n, Some c)) ->
  dll lk' p (a ++ c :: b) n.
Proof.
  intros ND NI D FR HC HA HB. apply dll_app in D. destruct D as (DA & DB). apply dll_app. cbn [dll hd_or]. split; [|split].
  - destruct a as [|x a0 _] using rev_ind; [exact I|]. apply dll_app in DA. destruct DA as (DA & (DX & _)). apply dll_app. split; [|split; [|exact I]].
    + cbn [hd_or]. eapply dll_ext; [|exact DA]. intros h Hh. apply FR.
      * intros ->. apply NI. rewrite !in_app_iff. auto.
      * rewrite last_or_snoc. intros E. inversion E; subst. rewrite <- app_assoc in ND. apply NoDup_remove_2 in ND. apply ND. rewrite in_app_iff. auto.
      * intros E. destruct b; cbn in E; [discriminate|]. inversion E; subst. apply NoDup_remove_2 in ND. apply ND. rewrite !in_app_iff. auto.
      * rewrite !in_app_iff. auto.
    + cbn [hd_or]. cbn [hd_or] in DX. eapply HA; [reflexivity|reflexivity|exact DX].
  - exact HC.
  - destruct b as [|y b0]; [exact I|]. destruct DB as (DY & DB). split.
    + eapply HB; [reflexivity|exact DY].
    + eapply dll_ext; [|exact DB]. intros h Hh. apply FR.
      * intros ->. apply NI. rewrite !in_app_iff. cbn. auto.
      * intros E. destruct a as [|x a0 _] using rev_ind; [discriminate|]. rewrite last_or_snoc in E. inversion E; subst.
        rewrite <- app_assoc in ND. apply NoDup_remove_2 in ND. apply ND. rewrite !in_app_iff. cbn. auto.
      * cbn. intros E. inversion E; subst. apply NoDup_remove_2 in ND. apply ND. rewrite in_app_iff. auto.
      * rewrite !in_app_iff. cbn. auto.
Qed.
(* removal of c from between a and b *)
Lemma dll_remove lk lk' p a b c n : NoDup (a ++ c :: b) -> dll lk p (a ++ c :: b) n ->
  (forall x, x <> c -> Some x <> last_or None a -> Some x <> hd_or b None -> In x (a ++ b) -> lk' x = lk x) ->
  (forall x a0, a = a0 ++ [x] -> lk x = Some (Some c, last_or p a0) -> lk' x = Some (hd_or b n, last_or p a0)) ->
  (forall y b0, b = y :: b0 -> lk y = Some (hd_or b0 n, Some c) -> lk' y = Some (hd_or b0 n, last_or p a)) ->
  dll lk' p (a ++ b) n.
Proof.
  intros ND D FR HA HB. pose proof (NoDup_remove_1 _ _ _ ND) as ND1. pose proof (NoDup_remove_2 _ _ _ ND) as ND2.
  apply dll_app in D. destruct D as (DA & (DC & DB)). apply dll_app. split.
  - destruct a as [|x a0 _] using rev_ind; [exact I|]. apply dll_app in DA. destruct DA as (DA & (DX & _)). apply dll_app. split; [|split; [|exact I]].
    + cbn [hd_or]. eapply dll_ext; [|exact DA]. intros h Hh. apply FR.
      * intros ->. apply ND2. rewrite !in_app_iff. auto.
      * rewrite last_or_snoc. intros E. inversion E; subst. rewrite <- app_assoc in ND1. apply NoDup_remove_2 in ND1. apply ND1. rewrite in_app_iff. auto.
      * intros E. destruct b; cbn in E; [discriminate|]. inversion E; subst. apply NoDup_remove_2 in ND1. apply ND1. rewrite !in_app_iff. auto.
      * rewrite !in_app_iff. auto.
    + eapply HA; [reflexivity|exact DX].
  - destruct b as [|y b0]; [exact I|]. destruct DB as (DY & DB). split.
    + eapply HB; [reflexivity|exact DY].
    + eapply dll_ext; [|exact DB]. intros h Hh. apply FR.
      * intros ->. apply ND2. rewrite !in_app_iff. cbn. auto.
      * intros E. destruct a as [|x a0 _] using rev_ind; [discriminate|]. rewrite last_or_snoc in E. inversion E; subst.
        rewrite <- app_assoc in ND1. apply NoDup_remove_2 in ND1. apply ND1. rewrite !in_app_iff. cbn. auto.
      * cbn. intros E. inversion E; subst. apply NoDup_remove_2 in ND1. apply ND1. rewrite in_app_iff. auto.
      * rewrite !in_app_iff. cbn. auto.
Qed.
