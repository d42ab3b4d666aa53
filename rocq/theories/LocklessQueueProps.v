(* Property C41: the queue between one producer and one consumer is first in, first out. *)
From Coq Require Import List Arith Bool Lia.
From Verif Require Import Common LocklessQueue.
Import ListNotations.

(* ---------------------------------------------------- proofs ---------------------------------------------------- *)
Section Proofs.
Context {V : Type}.
Notation heap := (heap V).
(* each node of the list is allocated and points to the next one *)
Fixpoint linked (h : heap) (l : list nat) : Prop :=
  match l with
  | a :: ((b :: _) as l') => (exists n, h a = Some n /\ nxt n = Some b) /\ linked h l'
  | [a] => exists n, h a = Some n
  | [] => True
  end.
Fixpoint items (h : heap) (l : list nat) (vs : list V) : Prop :=
  match l, vs with
  | [], [] => True
  | a :: l, v :: vs => (exists n, h a = Some n /\ itm n = Some v) /\ items h l vs
  | _, _ => False
  end.
(* the value the producer has not published yet *)
Definition pending (p : ppc V) : list V := match p with PLoad v | PAlloc _ v | PCtor _ v => [v] | _ => [] end.
Definition prod_ok (s : lq V) (L : list nat) (p : ppc V) (pend : list V) : Prop :=
  match p with
  | PIdle | PGc => pend = []
  | PLoad v => pend = [v]
  | PAlloc l v => l = qlast s /\ pend = [v]
  | PCtor l v => l = qlast s /\ pend = [v] /\ exists n a m, hp s l = Some n /\ nxt n = Some a /\ ~ In a L /\ hp s a = Some m
  | PPub l => l = qlast s /\ exists n a v, hp s l = Some n /\ nxt n = Some a /\ ~ In a L /\ hp s a = Some (mkn None (Some v)) /\ pend = [v]
  | PNext => pend = [] /\ qfirst s <> qdiv s
  | PFree t => pend = [] /\ ~ In t L /\ exists n, hp s t = Some n
  end.
Definition cons_ok (s : lq V) (Q : list nat) (c : cpc V) (rest : list V) : Prop :=
  match c with
  | CIdle | CLoad => items (hp s) Q rest
  | CCmp d => d = qdiv s /\ items (hp s) Q rest
  | CTake d => d = qdiv s /\ Q <> [] /\ items (hp s) Q rest
  | CMove d b => d = qdiv s /\ hd_error Q = Some b /\ items (hp s) Q rest
  | CStore d v => d = qdiv s /\ exists b Q' rest', Q = b :: Q' /\ rest = v :: rest' /\ items (hp s) Q' rest'
  end.
Definition busy (p : ppc V) : nat := match p with PIdle => 0 | _ => 1 end.
Definition inv (s : lq V) (p : ppc V) (c : cpc V) : Prop :=
  exists G Q rest pend, let L := G ++ qdiv s :: Q in
  NoDup L /\ linked (hp s) L /\ hd_error L = Some (qfirst s) /\ last Q (qdiv s) = qlast s /\
  prod_ok s L p pend /\ cons_ok s Q c rest /\ pushed s = popped s ++ rest ++ pend /\ ndone s + busy p = length (pushed s).
Lemma put_eq (h : heap) a n : put h a n a = n.
Proof. unfold put. rewrite Nat.eqb_refl. reflexivity. Qed.
Lemma put_neq (h : heap) a n b : b <> a -> put h a n b = h b.
Proof. intros N. unfold put. destruct (Nat.eqb_spec b a); congruence. Qed.
Lemma linked_cons (h : heap) a b l : linked h (a :: b :: l) <-> (exists n, h a = Some n /\ nxt n = Some b) /\ linked h (b :: l).
Proof. reflexivity. Qed.
Lemma linked_tail (h : heap) a l : linked h (a :: l) -> linked h l.
Proof. destruct l as [|b l]; [intros; exact I|]. intros (_ & H). exact H. Qed.
Lemma linked_app (h : heap) l1 l2 : linked h (l1 ++ l2) -> linked h l2.
Proof. induction l1 as [|a l1 IH]; intros H; [exact H|]. apply IH. apply (linked_tail h a). exact H. Qed.
Lemma linked_in (h : heap) l a : linked h l -> In a l -> exists n, h a = Some n.
Proof.
  induction l as [|b l IH]; intros H Ha; [destruct Ha|]. destruct Ha as [->|Ha]; [|apply IH; [apply (linked_tail h b), H|exact Ha]]. destruct l as [|c l]; [exact H|]. destruct H as ((n & H & _) & _). eauto.
Qed.
(* changes that keep the links *)
Lemma linked_ext (h h' : heap) l : (forall a n, In a l -> h a = Some n -> exists n', h' a = Some n' /\ (a <> last l 0 -> nxt n' = nxt n)) -> NoDup l -> linked h l -> linked h' l.
Proof.
  induction l as [|a l IH]; intros E D H; [exact I|]. destruct l as [|b l].
  - destruct H as (n & H). destruct (E a n (or_introl eq_refl) H) as (n' & H' & _). exists n'. exact H'.
  - rewrite linked_cons in *. destruct H as ((n & H1 & H2) & H3). inversion D as [|? ? Na D']; subst. split.
    + destruct (E a n (or_introl eq_refl) H1) as (n' & A & B). exists n'. split; [exact A|]. rewrite B; [exact H2|]. intros Q. apply Na. rewrite Q. change (last (a :: b :: l) 0) with (last (b :: l) 0). clear. revert b. induction l as [|c l IH]; intros b; [left; reflexivity|]. right. apply IH.
    + apply IH; [|exact D'|exact H3]. intros c m Hc Hm. destruct (E c m (or_intror Hc) Hm) as (n' & A & B). exists n'. split; [exact A|]. intros Nc. apply B. exact Nc.
Qed.
Lemma items_ext (h h' : heap) l vs : (forall a n, In a l -> h a = Some n -> exists n', h' a = Some n' /\ itm n' = itm n) -> items h l vs -> items h' l vs.
Proof.
  revert vs. induction l as [|a l IH]; intros [|v vs] E H; try exact H. destruct H as ((n & A & B) & H). split.
  - destruct (E a n (or_introl eq_refl) A) as (n' & A' & B'). exists n'. split; [exact A'|congruence].
  - apply IH; [|exact H]. intros b m Hb. apply E. right. exact Hb.
Qed.
Lemma linked_snoc (h : heap) l a b m : linked h (l ++ [a]) -> (exists n, h a = Some n /\ nxt n = Some b) -> h b = Some m -> linked h ((l ++ [a]) ++ [b]).
Proof.
  intros H K Hm. induction l as [|c l IH].
  - cbn. split; [exact K|]. exists m. exact Hm.
  - destruct l as [|d l]; cbn [app] in *; rewrite linked_cons in *; destruct H as (H1 & H2); (split; [exact H1|apply IH; exact H2]).
Qed.
Lemma items_snoc (h : heap) l vs b v : items h l vs -> (exists n, h b = Some n /\ itm n = Some v) -> items h (l ++ [b]) (vs ++ [v]).
Proof. revert vs. induction l as [|a l IH]; intros [|w vs] H K; try destruct H; cbn; auto. Qed.
Lemma last_app_cons (G Q : list nat) d e : last (G ++ d :: Q) e = last Q d.
Proof.
  induction G as [|a G IH]; cbn [app].
  - revert d. induction Q as [|b Q IH]; intros d; [reflexivity|]. change (last (d :: b :: Q) e) with (last (b :: Q) e). rewrite IH. change (last (b :: Q) d) with (match Q with [] => b | _ => last Q d end). destruct Q as [|c Q]; [reflexivity|]. clear. revert c. induction Q as [|x Q IH]; intros c; [reflexivity|]. apply IH.
  - rewrite <- IH. destruct (G ++ d :: Q) as [|x l] eqn:E; [destruct G; discriminate E|]. reflexivity.
Qed.
Lemma snoc_split (G Q : list nat) d : exists l, G ++ d :: Q = l ++ [last Q d].
Proof. exists (removelast (G ++ d :: Q)). rewrite <- (last_app_cons G Q d 0). apply app_removelast_last. destruct G; discriminate. Qed.
Lemma last_in (G Q : list nat) d : In (last Q d) (G ++ d :: Q).
Proof. destruct (snoc_split G Q d) as (l & ->). apply in_or_app. right. left. reflexivity. Qed.
Lemma nodup_notin_app (l1 l2 : list nat) a : NoDup (l1 ++ a :: l2) -> ~ In a l1 /\ ~ In a l2.
Proof. intros D. apply NoDup_remove in D. destruct D as (_ & N). split; intros H; apply N, in_or_app; auto. Qed.
(* a change of the heap outside the list *)
Lemma outside_linked (h : heap) L a n : ~ In a L -> linked h L -> linked (put h a n) L.
Proof.
  intros N. induction L as [|b L IH]; intros H; [exact I|]. assert (Nb : b <> a) by (intros ->; apply N; left; reflexivity). destruct L as [|c L].
  - destruct H as (m & H). exists m. rewrite put_neq by exact Nb. exact H.
  - rewrite linked_cons in *. rewrite put_neq by exact Nb. destruct H as (H1 & H2). split; [exact H1|]. apply IH; [|exact H2]. intros Q. apply N. right. exact Q.
Qed.
Lemma outside_items (h : heap) L vs a n : ~ In a L -> items h L vs -> items (put h a n) L vs.
Proof. intros N. apply items_ext. intros b m Hb Hm. exists m. rewrite put_neq by (intros ->; exact (N Hb)). auto. Qed.
Lemma cons_heap (s s' : lq V) Q c rest : qdiv s' = qdiv s -> (forall vs, items (hp s) Q vs -> items (hp s') Q vs) -> (forall b Q' vs, Q = b :: Q' -> items (hp s) Q' vs -> items (hp s') Q' vs) -> cons_ok s Q c rest -> cons_ok s' Q c rest.
Proof.
  intros E H1 H2 K. destruct c as [| |d|d|d b|d v]; cbn in *; rewrite ?E; try (apply H1; exact K).
  - destruct K. auto.
  - destruct K as (? & ? & ?). auto.
  - destruct K as (? & ? & ?). auto.
  - destruct K as (? & b & Q' & r' & -> & -> & K). split; [assumption|]. exists b, Q', r'. split; [reflexivity|]. split; [reflexivity|]. apply (H2 b Q' r' eq_refl K).
Qed.
Lemma prod_step s p c a : inv s p c -> hp s a = None -> exists s' p', pstep s p a = Ok (s', p') /\ inv s' p' c.
Proof.
  intros (G & Q & rest & pend & D & LK & HF & HL & PO & CO & EP & ED) Ha.
  assert (Na : ~ In a (G ++ qdiv s :: Q)). { intros H. destruct (linked_in _ _ _ LK H) as (n & E). congruence. }
  assert (NQ : forall b, In b Q -> In b (G ++ qdiv s :: Q)) by (intros b Hb; apply in_or_app; right; right; exact Hb).
  destruct p as [|v|l v|l v|l| | |t]; cbn [pstep prod_ok] in *.
  - eexists _, _. split; [reflexivity|]. exists G, Q, rest, pend. cbn zeta. auto 10.
  - eexists _, _. split; [reflexivity|]. exists G, Q, rest, pend. cbn zeta. cbn [prod_ok busy] in *. auto 10.
  - destruct PO as (-> & ->). pose proof (last_in G Q (qdiv s)) as Hl. rewrite HL in Hl. destruct (linked_in _ _ _ LK Hl) as (n & En). unfold deref at 1. rewrite En. cbn [bind]. eexists _, _. split; [reflexivity|].
    assert (Nl : qlast s <> a) by (intros E; apply Na; rewrite <- E; exact Hl).
    exists G, Q, rest, [v]. cbn zeta. cbn [qfirst qdiv qlast hp pushed popped ndone]. split; [exact D|]. split.
    { apply (linked_ext (hp s)); [|exact D|exact LK]. intros b m Hb Hm. rewrite (last_app_cons G Q (qdiv s) 0), HL. destruct (Nat.eq_dec b (qlast s)) as [->|Nb].
      - rewrite put_eq. eexists. split; [reflexivity|]. congruence.
      - rewrite put_neq by exact Nb. rewrite put_neq by (intros ->; congruence). exists m. auto. }
    split; [exact HF|]. split; [exact HL|]. split.
    { cbn [prod_ok hp qlast]. split; [reflexivity|]. split; [reflexivity|]. rewrite put_eq. eexists _, a, _. split; [reflexivity|]. split; [reflexivity|]. split; [exact Na|]. rewrite put_neq by congruence. apply put_eq. }
    split; [|split; [exact EP|exact ED]].
    assert (IE : forall L vs, incl L Q -> items (hp s) L vs -> items (put (put (hp s) a (Some (mkn None None))) (qlast s) (Some (mkn (Some a) (itm n)))) L vs).
    { intros L vs HI. apply items_ext. intros b m Hb Hm. destruct (Nat.eq_dec b (qlast s)) as [->|Nb].
      - rewrite put_eq. eexists. split; [reflexivity|]. cbn. congruence.
      - rewrite put_neq by exact Nb. rewrite put_neq by (intros ->; congruence). exists m. auto. }
    eapply (cons_heap s); [reflexivity| | |exact CO]; cbn [hp].
    + intros vs. apply IE, incl_refl.
    + intros b Q' vs ->. apply IE. intros x Hx. right. exact Hx.
  - destruct PO as (-> & -> & n & b & m & En & Eb & Nb & Em). unfold deref. rewrite En. cbn [bind]. rewrite Eb. cbn [bind follow]. rewrite Em. cbn [bind]. eexists _, _. split; [reflexivity|].
    pose proof (last_in G Q (qdiv s)) as Hl. rewrite HL in Hl. assert (Nl : qlast s <> b) by (intros E; apply Nb; rewrite <- E; exact Hl).
    exists G, Q, rest, [v]. cbn zeta. cbn [qfirst qdiv qlast hp pushed popped ndone]. split; [exact D|]. split; [apply outside_linked; assumption|]. split; [exact HF|]. split; [exact HL|]. split.
    { cbn [prod_ok hp qlast]. split; [reflexivity|]. rewrite put_neq by exact Nl. exists n, b, v. rewrite put_eq. auto 10. }
    split; [|split; [exact EP|exact ED]]. eapply (cons_heap s); [reflexivity| | |exact CO]; cbn [hp].
    + intros vs. apply outside_items. intros H. apply Nb, NQ, H.
    + intros x Q' vs ->. apply outside_items. intros H. apply Nb, NQ. right. exact H.
  - destruct PO as (-> & n & b & v & En & Eb & Nb & Em & ->). unfold deref. rewrite En. cbn [bind]. rewrite Eb. cbn [bind follow]. eexists _, _. split; [reflexivity|].
    assert (EL : G ++ qdiv s :: (Q ++ [b]) = (G ++ qdiv s :: Q) ++ [b]) by (rewrite <- app_assoc; reflexivity).
    exists G, (Q ++ [b]), (rest ++ [v]), []. cbn zeta. cbn [qfirst qdiv qlast hp pushed popped ndone]. rewrite EL. split; [|split; [|split; [|split; [|split; [reflexivity|split; [|split]]]]]].
    + apply (Permutation.Permutation_NoDup (Permutation.Permutation_cons_append _ _)). constructor; assumption.
    + destruct (snoc_split G Q (qdiv s)) as (l & El). rewrite El in *. apply (linked_snoc _ _ _ _ (mkn None (Some v)) LK); [|exact Em]. rewrite HL. exists n. auto.
    + destruct (G ++ qdiv s :: Q) as [|x l] eqn:E; [destruct G; discriminate E|]. exact HF.
    + rewrite last_last. reflexivity.
    + assert (IB : exists m, hp s b = Some m /\ itm m = Some v) by (eexists; split; [exact Em|reflexivity]).
      destruct c as [| |d|d|d x|d x]; cbn in *; try (apply items_snoc; assumption).
      * destruct CO. split; [assumption|]. apply items_snoc; assumption.
      * destruct CO as (? & ? & ?). split; [assumption|]. split; [destruct Q; discriminate|]. apply items_snoc; assumption.
      * destruct CO as (? & ? & ?). split; [assumption|]. split; [destruct Q; [discriminate|assumption]|]. apply items_snoc; assumption.
      * destruct CO as (? & y & Q' & r' & -> & -> & K). split; [assumption|]. exists y, (Q' ++ [b]), (r' ++ [v]). split; [reflexivity|]. split; [reflexivity|]. apply items_snoc; assumption.
    + rewrite EP, app_nil_r. reflexivity.
    + exact ED.
  - destruct (Nat.eqb_spec (qfirst s) (qdiv s)) as [E|E].
    + eexists _, _. split; [reflexivity|]. exists G, Q, rest, pend. cbn zeta. cbn [qfirst qdiv qlast hp pushed popped ndone prod_ok busy] in *. split; [exact D|]. split; [exact LK|]. split; [exact HF|]. split; [exact HL|]. split; [exact PO|]. split; [exact CO|]. split; [exact EP|]. lia.
    + eexists _, _. split; [reflexivity|]. exists G, Q, rest, pend. cbn zeta. cbn [prod_ok busy] in *. auto 10.
  - destruct PO as (-> & NF). destruct G as [|g G]; [cbn in HF; congruence|]. cbn [app hd_error] in HF. injection HF as <-. unfold deref. assert (E : exists n b l, hp s g = Some n /\ nxt n = Some b /\ G ++ qdiv s :: Q = b :: l).
    { cbn [app] in LK. destruct (G ++ qdiv s :: Q) as [|b l] eqn:El; [destruct G; discriminate El|]. rewrite linked_cons in LK. destruct LK as ((n & A & B) & _). exists n, b, l. auto. }
    destruct E as (n & b & l & En & Eb & El). rewrite En. cbn [bind]. rewrite Eb. cbn [bind follow]. eexists _, _. split; [reflexivity|]. cbn [app] in *. inversion D as [|? ? Ng D']; subst.
    exists G, Q, rest, []. cbn zeta. cbn [qfirst qdiv qlast hp pushed popped ndone prod_ok]. split; [exact D'|]. split; [apply (linked_tail _ g), LK|]. split; [rewrite El; reflexivity|]. split; [exact HL|]. split; [|split; [exact CO|split; [exact EP|exact ED]]]. split; [reflexivity|]. split; [exact Ng|]. eauto.
  - destruct PO as (-> & Nt & n & En). unfold deref. rewrite En. cbn [bind]. eexists _, _. split; [reflexivity|].
    exists G, Q, rest, []. cbn zeta. cbn [qfirst qdiv qlast hp pushed popped ndone prod_ok]. split; [exact D|]. split; [apply outside_linked; assumption|]. split; [exact HF|]. split; [exact HL|]. split; [reflexivity|]. split; [|split; [exact EP|exact ED]].
    eapply (cons_heap s); [reflexivity| | |exact CO]; cbn [hp].
    + intros vs. apply outside_items. intros H. apply Nt, NQ, H.
    + intros x Q' vs ->. apply outside_items. intros H. apply Nt, NQ. right. exact H.
Qed.
Lemma cons_step s p c : inv s p c -> exists s' c' r, cstep s c = Ok (s', c', r) /\ inv s' p c'.
Proof.
  intros (G & Q & rest & pend & D & LK & HF & HL & PO & CO & EP & ED). pose proof (linked_app _ _ _ LK) as LQ.
  assert (KEEP : forall c', cons_ok s Q c' rest -> inv s p c') by (intros c' K; exists G, Q, rest, pend; cbn zeta; auto 10).
  destruct c as [| |d|d|d b|d v]; cbn [cstep cons_ok] in *.
  - eexists _, _, _. split; [reflexivity|]. apply KEEP. exact CO.
  - eexists _, _, _. split; [reflexivity|]. apply KEEP. cbn. auto.
  - destruct CO as (-> & CO). destruct (Nat.eqb_spec (qdiv s) (qlast s)) as [E|E]; eexists _, _, _; (split; [reflexivity|]); apply KEEP; cbn; [exact CO|]. split; [reflexivity|]. split; [|exact CO]. intros ->. cbn in HL. congruence.
  - destruct CO as (-> & NQ & CO). destruct Q as [|b Q]; [congruence|]. rewrite linked_cons in LQ. destruct LQ as ((n & En & Eb) & _). unfold deref. rewrite En. cbn [bind]. rewrite Eb. cbn [bind follow]. eexists _, _, _. split; [reflexivity|]. apply KEEP. cbn. auto.
  - destruct CO as (-> & HQ & CO). destruct Q as [|x Q]; [discriminate HQ|]. cbn in HQ. injection HQ as ->. destruct rest as [|v rest]; [destruct CO|]. destruct CO as ((n & En & Ev) & CO). unfold deref. rewrite En. cbn [bind]. rewrite Ev. eexists _, _, _. split; [reflexivity|].
    assert (Nb : ~ In b Q). { clear - D. replace (G ++ qdiv s :: b :: Q) with ((G ++ [qdiv s]) ++ b :: Q) in D by (rewrite <- app_assoc; reflexivity). apply nodup_notin_app in D. apply D. }
    assert (HB : In b (G ++ qdiv s :: b :: Q)) by (apply in_or_app; right; right; left; reflexivity).
    exists G, (b :: Q), (v :: rest), pend. cbn zeta. cbn [qfirst qdiv qlast hp pushed popped ndone]. split; [exact D|]. split.
    { apply (linked_ext (hp s)); [|exact D|exact LK]. intros a m Ha Hm. destruct (Nat.eq_dec a b) as [->|N]; [rewrite put_eq; eexists; split; [reflexivity|]; intros _; cbn; congruence|rewrite put_neq by exact N; exists m; auto]. }
    split; [exact HF|]. split; [exact HL|]. split.
    { assert (PN : forall l m, hp s l = Some m -> exists m', put (hp s) b (Some (mkn (nxt n) None)) l = Some m' /\ nxt m' = nxt m). { intros l m Hm. destruct (Nat.eq_dec l b) as [->|N]; [rewrite put_eq; eexists; split; [reflexivity|]; cbn; congruence|rewrite put_neq by exact N; exists m; auto]. }
      destruct p as [|w|l w|l w|l| | |t]; cbn [prod_ok hp qfirst qdiv qlast] in *; try exact PO.
      - destruct PO as (-> & -> & n1 & a & m & E1 & E2 & E3 & E4). split; [reflexivity|]. split; [reflexivity|]. destruct (PN _ _ E1) as (n1' & E1' & E2'). exists n1', a, m. split; [exact E1'|]. split; [congruence|]. split; [exact E3|]. rewrite put_neq by (intros ->; exact (E3 HB)). exact E4.
      - destruct PO as (-> & n1 & a & w & E1 & E2 & E3 & E4 & ->). split; [reflexivity|]. destruct (PN _ _ E1) as (n1' & E1' & E2'). exists n1', a, w. split; [exact E1'|]. split; [congruence|]. split; [exact E3|]. rewrite put_neq by (intros ->; exact (E3 HB)). auto.
      - destruct PO as (-> & Nt & m & Em). split; [reflexivity|]. split; [exact Nt|]. exists m. rewrite put_neq by (intros ->; exact (Nt HB)). exact Em. }
    split; [|split; [exact EP|exact ED]]. cbn. split; [reflexivity|]. exists b, Q, rest. split; [reflexivity|]. split; [reflexivity|]. apply outside_items; assumption.
  - destruct CO as (-> & b & Q' & r' & -> & -> & CO). rewrite linked_cons in LQ. destruct LQ as ((n & En & Eb) & _). unfold deref. rewrite En. cbn [bind]. rewrite Eb. cbn [bind follow]. eexists _, _, _. split; [reflexivity|].
    assert (EL : G ++ qdiv s :: b :: Q' = (G ++ [qdiv s]) ++ b :: Q') by (rewrite <- app_assoc; reflexivity).
    exists (G ++ [qdiv s]), Q', r', pend. cbn zeta. cbn [qfirst qdiv qlast hp pushed popped ndone]. rewrite <- EL. split; [exact D|]. split; [exact LK|]. split; [exact HF|]. split.
    { rewrite <- HL. change (last (b :: Q') (qdiv s)) with (match Q' with [] => b | _ => last Q' (qdiv s) end). destruct Q' as [|x l]; [reflexivity|]. clear. revert x. induction l as [|y l IH]; intros x; [reflexivity|]. apply IH. }
    split.
    { destruct p as [|w|l w|l w|l| | |t]; cbn [prod_ok hp qfirst qdiv qlast] in *; try exact PO. destruct PO as (-> & NF). split; [reflexivity|]. destruct G as [|g G]; cbn in HF; [injection HF as HF; congruence|]. injection HF as <-. cbn in D. inversion D as [|? ? N _]; subst. intros E. apply N. rewrite E. apply in_or_app. right. right. left. reflexivity. }
    split; [exact CO|]. split; [rewrite EP, <- !app_assoc; reflexivity|exact ED].
Qed.
Lemma step_ok s p c r : inv s p c -> step (s, p, c) r -> exists s' p' c', r = Ok (s', p', c') /\ inv s' p' c'.
Proof.
  intros I S. inversion S as [s0 c0 v|s0 p0|s0 p0 c0 a Ha|s0 p0 c0]; subst.
  - destruct I as (G & Q & rest & pend & D & LK & HF & HL & PO & CO & EP & ED). eexists _, _, _. split; [reflexivity|]. cbn in PO. subst pend. exists G, Q, rest, [v]. cbn zeta. cbn [qfirst qdiv qlast hp pushed popped ndone]. split; [exact D|]. split; [exact LK|]. split; [exact HF|]. split; [exact HL|]. split; [reflexivity|]. split.
    { eapply (cons_heap s); [reflexivity| | |exact CO]; cbn [hp]; auto. }
    split; [rewrite EP, app_nil_r, app_assoc; reflexivity|]. rewrite app_length. cbn in *. lia.
  - destruct I as (G & Q & rest & pend & D & LK & HF & HL & PO & CO & EP & ED). eexists _, _, _. split; [reflexivity|]. exists G, Q, rest, pend. cbn zeta. auto 10.
  - destruct (prod_step s p c a I Ha) as (s' & p' & E & I'). rewrite E. cbn [bind]. eauto.
  - destruct (cons_step s p c I) as (s' & c' & b & E & I'). rewrite E. cbn [bind]. eauto.
Qed.
Lemma runs_ok s p c : runs (s, p, c) -> inv s p c.
Proof.
  intros R. remember (s, p, c) as x eqn:Ex. revert s p c Ex. induction R as [a|x y R IH S]; intros s p c Ex.
  - injection Ex as <- <- <-. exists [], [], [], []. cbn. unfold put. rewrite Nat.eqb_refl. split; [constructor; [intros []|constructor]|]. split; [eauto|]. auto 10.
  - subst y. destruct x as [[s0 p0] c0]. destruct (step_ok s0 p0 c0 _ (IH _ _ _ eq_refl) S) as (s' & p' & c' & E & I). injection E as -> -> ->. exact I.
Qed.
End Proofs.

(* ---------------------------------------------------- theorems ---------------------------------------------------- *)
(* Under any interleaving of the two threads, the results of the successful Pops are a prefix of the values pushed. *)
Theorem C41_fifo {V} s (p : ppc V) c : runs (s, p, c) -> exists rest, pushed s = popped s ++ rest.
Proof. intros R. destruct (runs_ok s p c R) as (G & Q & rest & pend & _ & _ & _ & _ & _ & _ & EP & _). eauto. Qed.
Print Assumptions C41_fifo.
Lemma pend_len {V} (s : lq V) L p pend : prod_ok s L p pend -> length pend <= busy p.
Proof. destruct p; cbn; try (intros ->; cbn; lia); try (intros (? & ->); cbn; lia); try (intros (? & -> & ?); cbn; lia); try (intros (-> & ?); cbn; lia). intros (_ & n & a & v & _ & _ & _ & _ & ->). cbn. lia. Qed.
(* When Pop decides to report empty, every Push that has returned has been consumed (the values popped are as many). *)
Theorem C41_empty {V} s (p : ppc V) c s' c' : runs (s, p, c) -> cstep s c = Ok (s', c', Some false) -> ndone s <= length (popped s).
Proof.
  intros R E. destruct (runs_ok s p c R) as (G & Q & rest & pend & D & _ & _ & HL & PO & CO & EP & ED). destruct c as [| |d|d|d b|d v]; cbn [cstep] in E; try discriminate E.
  - destruct CO as (-> & CO). destruct (Nat.eqb_spec (qdiv s) (qlast s)) as [Eq|]; [|discriminate E]. rewrite <- Eq in HL. assert (Q0 : Q = []).
    { destruct Q as [|b Q]; [reflexivity|]. exfalso. apply nodup_notin_app in D. destruct D as (_ & D). apply D. rewrite <- HL at 1. apply (last_in [] Q b) || (change (last (b :: Q) (qdiv s)) with (last (b :: Q) (qdiv s))). clear. revert b. induction Q as [|x Q IH]; intros b; [left; reflexivity|]. right. apply IH. }
    subst Q. destruct rest as [|x rest]; [|destruct CO]. rewrite EP in ED. cbn [app] in ED. rewrite app_length in ED. pose proof (pend_len _ _ _ _ PO). lia.
  - destruct (deref (hp s) d) as [n| |]; try discriminate E. cbn [bind] in E. destruct (follow (nxt n)) as [x| |]; discriminate E.
  - destruct (deref (hp s) b) as [n| |]; try discriminate E. cbn [bind] in E. destruct (itm n) as [x|]; discriminate E.
  - destruct (deref (hp s) d) as [n| |]; try discriminate E. cbn [bind] in E. destruct (follow (nxt n)) as [x| |]; discriminate E.
Qed.
Print Assumptions C41_empty.
(* A Pop that succeeds returns the oldest value pushed and not yet popped. *)
Theorem C41_pop {V} s (p : ppc V) c s' c' : runs (s, p, c) -> cstep s c = Ok (s', c', Some true) -> exists v, popped s' = popped s ++ [v] /\ nth_error (pushed s) (length (popped s)) = Some v.
Proof.
  intros R E. destruct (runs_ok s p c R) as (G & Q & rest & pend & D & _ & _ & HL & PO & CO & EP & ED). destruct c as [| |d|d|d b|d v]; cbn [cstep] in E; try discriminate E.
  - destruct (d =? qlast s); discriminate E.
  - destruct (deref (hp s) d) as [n| |]; try discriminate E. cbn [bind] in E. destruct (follow (nxt n)) as [x| |]; discriminate E.
  - destruct (deref (hp s) b) as [n| |]; try discriminate E. cbn [bind] in E. destruct (itm n) as [x|]; discriminate E.
  - destruct (deref (hp s) d) as [n| |]; try discriminate E. cbn [bind] in E. destruct (follow (nxt n)) as [x| |]; try discriminate E. cbn [bind] in E. injection E as <- _. exists v. split; [reflexivity|]. destruct CO as (_ & b & Q' & r' & _ & -> & _). rewrite EP, nth_error_app2, Nat.sub_diag by lia. reflexivity.
Qed.
Print Assumptions C41_pop.
(* No step of either thread accesses a node that is not allocated (in particular one that has been recycled), follows a
   null pointer, or takes an item that has not been constructed or has already been taken. *)
Theorem C41_safe {V} s (p : ppc V) c r : runs (s, p, c) -> step (s, p, c) r -> exists x, r = Ok x.
Proof. intros R S. destruct (step_ok s p c r (runs_ok s p c R) S) as (s' & p' & c' & E & _). eauto. Qed.
Print Assumptions C41_safe.

(* ----------------------------------------------------- example ----------------------------------------------------- *)
(* a schedule: true is a step of the producer with the address the allocator returns, false a step of the consumer *)
Definition sched (x : res (lq nat * ppc nat * cpc nat)) (m : bool * nat) : res (lq nat * ppc nat * cpc nat) :=
  do (s, p, c) <- x;
  if fst m then match hp s (snd m) with Some _ => UB | None => do (s', p') <- pstep s p (snd m); Ok (s', p', c) end
  else do (s', c', _) <- cstep s c; Ok (s', p, c').
Lemma sched_runs x m y : runs x -> sched (Ok x) m = Ok y -> runs y.
Proof.
  destruct x as [[s p] c]. intros R E. eapply r_step; [exact R|]. rewrite <- E. unfold sched. cbn [bind]. destruct m as [[|] a]; cbn [fst snd].
  - destruct (hp s a) eqn:Ha; [unfold sched in E; cbn [bind fst snd] in E; rewrite Ha in E; discriminate E|]. apply s_prod. exact Ha.
  - apply s_cons.
Qed.
Lemma scheds_runs ms : forall x y, runs x -> fold_left sched ms (Ok x) = Ok y -> runs y.
Proof.
  induction ms as [|m ms IH]; intros x y R E; cbn [fold_left] in E; [injection E as <-; exact R|]. destruct (sched (Ok x) m) as [z| |] eqn:Ez.
  - apply (IH z y); [apply (sched_runs x m z R Ez)|exact E].
  - exfalso. revert E. clear. induction ms as [|m ms IH]; cbn; [discriminate|exact IH].
  - exfalso. revert E. clear. induction ms as [|m ms IH]; cbn; [discriminate|exact IH].
Qed.
(* Push 7; a Pop interleaved with Push 8, which recycles the node just consumed *)
Example C41_example : exists s, runs (s, PIdle, CIdle) /\ pushed s = [7; 8] /\ popped s = [7] /\ hp s 0 = None.
Proof.
  set (x0 := (new_lq 0, PIdle, CIdle) : lq nat * ppc nat * cpc nat). assert (R0 : runs x0) by apply r_new.
  set (x1 := (mklq 0 0 0 (hp (new_lq 0)) [7] [] 0, PLoad 7, CIdle) : lq nat * ppc nat * cpc nat). assert (R1 : runs x1) by (eapply r_step; [exact R0|]; apply (s_push (new_lq 0) CIdle 7)).
  destruct (fold_left sched [(true, 1); (true, 1); (true, 2); (true, 2); (true, 2)] (Ok x1)) as [[[s2 p2] c2]| |] eqn:E2; try (vm_compute in E2; discriminate E2). pose proof (scheds_runs _ _ _ R1 E2) as R2. vm_compute in E2. injection E2 as <- <- <-.
  eassert (R3 : runs _) by (eapply r_step; [exact R2|]; apply s_pop). 
  eassert (R4 : runs _) by (eapply r_step; [exact R3|]; apply (s_push _ _ 8)). cbn [qfirst qdiv qlast hp pushed popped ndone app] in R4.
  match type of R4 with runs ?x => set (x4 := x) in * end.
  destruct (fold_left sched [(false, 0); (true, 2); (false, 0); (true, 2); (false, 0); (true, 3); (false, 0); (true, 3); (false, 0); (true, 3); (true, 3); (true, 3); (true, 3)] (Ok x4)) as [[[s5 p5] c5]| |] eqn:E5; try (vm_compute in E5; discriminate E5). pose proof (scheds_runs _ _ _ R4 E5) as R5. vm_compute in E5. injection E5 as <- <- <-.
  eexists. split; [exact R5|]. vm_compute. auto.
Qed.
