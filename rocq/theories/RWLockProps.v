(* Property C40: the readers-writer lock excludes writers, and its word is zero when nobody uses it. *)
From Coq Require Import ZArith List Bool Lia.
From Coq Require Import ZifyBool ZifyNat.
From Verif Require Import Common RWLock.
Import ListNotations.
Open Scope Z_scope.

(* ------------------------------------------------ specification ------------------------------------------------ *)
(* a thread that has been granted the write lock and has not given it back *)
Definition writing (p : pc) : bool := match p with HoldW | AtUnlock | HoldWU | AtDowngrade => true | _ => false end.
(* a thread that has been granted the read lock and has not given it back; Upgrade gives it back if another writer is
   first; while it waits for the other readers to leave, the read lock is still held *)
Definition reading (p : pc) : bool := match p with HoldR | AtRUnlock | AtUpgrade | UpUnlock1 | AtAttemptUpgrade | UpFlush => true | _ => false end.

(* ---------------------------------------------------- proofs ---------------------------------------------------- *)
(* the threads counted in the word, and those that have set its flag *)
Definition counted (p : pc) : bool :=
  match p with HoldR | AtRUnlock | AtUpgrade | UpUnlock1 | AtAttemptUpgrade | UpFlush | HoldWU | AtDowngrade | RLockSub | AttemptRSub | UpRetry | UpUnlock2 => true | _ => false end.
Definition owner (p : pc) : bool := match p with Flush | HoldW | AtUnlock | UpFlush | HoldWU | AtDowngrade => true | _ => false end.
Definition cnt (f : pc -> bool) (ps : list pc) : Z := Z.of_nat (length (filter f ps)).
Definition b2z (b : bool) : Z := if b then 1 else 0.
Lemma cnt_upd f ps t p p' : nth_error ps t = Some p -> cnt f (upd ps t p') = cnt f ps - b2z (f p) + b2z (f p').
Proof.
  unfold cnt. revert t. induction ps as [|x ps IH]; intros [|t] H; try discriminate H; cbn [nth_error] in H.
  - injection H as ->. cbn [upd filter]. destruct (f p), (f p'); cbn [length b2z]; lia.
  - cbn [upd filter]. specialize (IH t H). destruct (f x); cbn [length]; lia.
Qed.
Lemma cnt_le f ps : 0 <= cnt f ps <= Z.of_nat (length ps).
Proof. unfold cnt. induction ps as [|x ps IH]; cbn [filter length]; [lia|]. destruct (f x); cbn [length]; lia. Qed.
Lemma cnt_in f ps t p : nth_error ps t = Some p -> f p = true -> 1 <= cnt f ps.
Proof.
  unfold cnt. revert t. induction ps as [|x ps IH]; intros [|t] H F; try discriminate H; cbn [nth_error filter] in *.
  - injection H as ->. rewrite F. cbn [length]. lia.
  - specialize (IH t H F). destruct (f x); cbn [length]; lia.
Qed.
Lemma cnt_two f ps t t' p p' : t <> t' -> nth_error ps t = Some p -> nth_error ps t' = Some p' -> f p = true -> f p' = true -> 2 <= cnt f ps.
Proof.
  unfold cnt. revert t t'. induction ps as [|x ps IH]; intros [|t] [|t'] N H H' F F'; try discriminate; try congruence; cbn [nth_error filter] in *.
  - injection H as ->. rewrite F. pose proof (cnt_in f ps t' p' H' F'). unfold cnt in *. cbn [length]. lia.
  - injection H' as ->. rewrite F'. pose proof (cnt_in f ps t p H F). unfold cnt in *. cbn [length]. lia.
  - assert (N' : t <> t') by congruence. specialize (IH t t' N' H H' F F'). destruct (f x); cbn [length]; lia.
Qed.
Lemma cnt_none f ps : cnt f ps = 0 -> forall t p, nth_error ps t = Some p -> f p = false.
Proof. intros Z0 t p H. destruct (f p) eqn:F; [|reflexivity]. pose proof (cnt_in f ps t p H F). lia. Qed.
Lemma cnt_ex f ps : 0 < cnt f ps -> exists t p, nth_error ps t = Some p /\ f p = true.
Proof.
  unfold cnt. induction ps as [|x ps IH]; cbn [filter length]; intros H; [lia|]. destruct (f x) eqn:F.
  - exists 0%nat, x. auto.
  - destruct (IH H) as (t & p & H1 & H2). exists (S t), p. auto.
Qed.
(* the word: the flag and the count *)
Definition word (f : bool) (c : Z) : Z := (if f then WFLAG else 0) + c.
Lemma readers_word f c : 0 <= c < 2 ^ 63 -> readers (word f c) = c.
Proof. intros H. unfold readers, WMASK, word, WFLAG. change (2 ^ 63 - 1) with (Z.ones 63). rewrite Z.land_ones by lia. destruct f; [rewrite Z.add_mod by lia; rewrite Z.mod_same, Z.add_0_l, Z.mod_mod by lia|rewrite Z.add_0_l]; apply Z.mod_small; exact H. Qed.
Lemma word_lor c : 0 <= c < 2 ^ 63 -> word true c = Z.lor c WFLAG.
Proof.
  intros H. unfold word, WFLAG. rewrite <- Z.lxor_lor, <- Z.add_nocarry_lxor; [lia| |]; apply Z.bits_inj'; intros i Hi; rewrite Z.land_spec, Z.bits_0, Z.pow2_bits_eqb by lia; destruct (Z.eqb_spec 63 i) as [<-|]; rewrite ?andb_false_r; try reflexivity; rewrite andb_true_r; apply Z.testbit_false; try lia; rewrite Z.div_small by exact H; reflexivity.
Qed.
Lemma bits63 c : 0 <= c < 2 ^ 63 -> Z.testbit c 63 = false.
Proof. intros H. apply Z.testbit_false; [lia|]. rewrite Z.div_small by exact H. reflexivity. Qed.
Lemma test_word f c : 0 <= c < 2 ^ 63 -> Z.testbit (word f c) WBIT = f.
Proof.
  intros H. destruct f; unfold WBIT.
  - rewrite (word_lor c H), Z.lor_spec, (bits63 c H). unfold WFLAG. apply Z.pow2_bits_true. lia.
  - unfold word. apply bits63. exact H.
Qed.
Lemma bts_word f c : 0 <= c < 2 ^ 63 -> bts (word f c) = (word true c, f).
Proof.
  intros H. unfold bts. rewrite (test_word f c H). f_equal. destruct f.
  - rewrite (word_lor c H), <- Z.lor_assoc, Z.lor_diag. reflexivity.
  - rewrite (word_lor c H). reflexivity.
Qed.
Lemma flagged_word f c : 0 <= c < 2 ^ 63 -> flagged (word f c) = f.
Proof.
  intros H. unfold flagged. assert (E : Z.land (word f c) WFLAG = if f then WFLAG else 0).
  { apply Z.bits_inj'. intros i Hi. rewrite Z.land_spec. pose proof (test_word f c H) as T. unfold WBIT in T. unfold WFLAG at 1. rewrite Z.pow2_bits_eqb by lia. destruct (Z.eqb_spec 63 i) as [<-|N].
    - rewrite T, andb_true_r. destruct f; [unfold WFLAG; symmetry; apply Z.pow2_bits_true; lia|rewrite Z.bits_0; reflexivity].
    - rewrite andb_false_r. destruct f; [unfold WFLAG; rewrite Z.pow2_bits_false by congruence; reflexivity|rewrite Z.bits_0; reflexivity]. }
  rewrite E. destruct f; reflexivity.
Qed.
Lemma mask_word f c : 0 <= c < 2 ^ 63 -> Z.land (word f c) WMASK = word false c.
Proof. intros H. change (Z.land (word f c) WMASK) with (readers (word f c)). rewrite (readers_word f c H). reflexivity. Qed.
Lemma incr_word f c : 0 <= c -> c + 1 < 2 ^ 63 -> incr (word f c) = word f (c + 1).
Proof. intros H1 H2. unfold incr, word, M64, WFLAG. change (2 ^ 64) with (2 * 2 ^ 63). rewrite Z.mod_small by (destruct f; lia). lia. Qed.
Lemma decr_word f c : 1 <= c < 2 ^ 63 -> decr (word f c) = word f (c - 1).
Proof. intros H. unfold decr, word, M64, WFLAG. change (2 ^ 64) with (2 * 2 ^ 63). rewrite Z.mod_small by (destruct f; lia). lia. Qed.
Lemma zero_word f c : 0 <= c < 2 ^ 63 -> word f c = 0 -> f = false /\ c = 0.
Proof. intros H E. unfold word, WFLAG in E. destruct f; [lia|]. split; [reflexivity|lia]. Qed.

Definition excl (ps : list pc) : Prop := forall t p t' p', nth_error ps t = Some p -> nth_error ps t' = Some p' -> writing p = true -> t' <> t -> writing p' = false /\ reading p' = false.
Definition inv (l : Z) (ps : list pc) : Prop :=
  Z.of_nat (length ps) < 2 ^ 63 /\ cnt owner ps <= 1 /\ l = word (0 <? cnt owner ps) (cnt counted ps) /\ excl ps.
Lemma excl_upd ps t p p' : excl ps -> nth_error ps t = Some p ->
  (writing p' = true -> forall t' q, t' <> t -> nth_error ps t' = Some q -> writing q = false /\ reading q = false) ->
  (reading p' = true \/ writing p' = true -> forall t' q, t' <> t -> nth_error ps t' = Some q -> writing q = false) -> excl (upd ps t p').
Proof.
  intros X H W1 W2 a pa b pb Ha Hb Wa N. pose proof (nth_error_lt _ _ _ H) as L. destruct (Nat.eq_dec a t) as [->|Na].
  - rewrite nth_error_upd_eq in Ha by exact L. injection Ha as <-. rewrite nth_error_upd_neq in Hb by congruence. apply (W1 Wa b pb N Hb).
  - rewrite nth_error_upd_neq in Ha by congruence. destruct (Nat.eq_dec b t) as [->|Nb].
    + rewrite nth_error_upd_eq in Hb by exact L. injection Hb as <-. split; [destruct (writing p') eqn:E|destruct (reading p') eqn:E]; try reflexivity.
      * pose proof (W2 (or_intror eq_refl) a pa Na Ha). congruence.
      * pose proof (W2 (or_introl eq_refl) a pa Na Ha). congruence.
    + rewrite nth_error_upd_neq in Hb by congruence. apply (X a pa b pb Ha Hb Wa N).
Qed.
Lemma writing_owner p : writing p = true -> owner p = true.
Proof. destruct p; cbn; congruence. Qed.
Lemma reading_counted p : reading p = true -> counted p = true.
Proof. destruct p; cbn; congruence. Qed.
Lemma no_owner ps : cnt owner ps = 0 -> forall t p, nth_error ps t = Some p -> writing p = false.
Proof. intros Z0 t p H. destruct (writing p) eqn:E; [|reflexivity]. apply writing_owner in E. rewrite (cnt_none owner ps Z0 t p H) in E. discriminate E. Qed.
Lemma begin_inv l ps t p c p' : inv l ps -> nth_error ps t = Some p -> begin p c = Some p' -> inv l (upd ps t p').
Proof.
  intros (I1 & I2 & I3 & I4) H B. assert (Q : owner p' = owner p /\ counted p' = counted p /\ writing p' = writing p /\ reading p' = reading p) by (destruct p, c; cbn in B; try discriminate B; injection B as <-; cbn; auto). destruct Q as (Q1 & Q2 & Q3 & Q4).
  split; [rewrite upd_length; exact I1|]. rewrite !(cnt_upd _ _ _ _ _ H), Q1, Q2. replace (cnt owner ps - b2z (owner p) + b2z (owner p)) with (cnt owner ps) by lia. replace (cnt counted ps - b2z (counted p) + b2z (counted p)) with (cnt counted ps) by lia. split; [exact I2|]. split; [exact I3|].
  apply (excl_upd ps t p p' I4 H); rewrite Q3, ?Q4.
  - intros Wp t' q N Hq. apply (I4 t p t' q H Hq Wp N).
  - intros O t' q N Hq. destruct (writing q) eqn:Wq; [|reflexivity]. assert (Nt : t <> t') by congruence. destruct (I4 t' q t p Hq H Wq Nt) as (A & B'). destruct O; congruence.
Qed.
Lemma exec_inv l ps t p l' p' : inv l ps -> nth_error ps t = Some p -> exec l p = Some (l', p') -> inv l' (upd ps t p').
Proof.
  intros (I1 & I2 & I3 & I4) H X. pose proof (cnt_le counted ps) as HC. pose proof (cnt_le owner ps) as HO. set (c := cnt counted ps) in *. set (o := cnt owner ps) in *. 
  assert (Hc : 0 <= c < 2 ^ 63) by lia.
  assert (Hin : counted p = true -> 1 <= c) by (intros F; apply (cnt_in counted ps t p H F)).
  assert (Hou : counted p = false -> c + 1 <= Z.of_nat (length ps)).
  { intros F. pose proof (cnt_upd counted ps t p HoldR H) as U. rewrite F in U. cbn [counted b2z] in U. pose proof (cnt_le counted (upd ps t HoldR)) as V. rewrite upd_length in V. unfold c. lia. }
  assert (Ho : owner p = true -> o = 1) by (intros F; pose proof (cnt_in owner ps t p H F); unfold o in *; lia).
  assert (Noth : o = 0 -> forall t' q, nth_error ps t' = Some q -> writing q = false) by (intros Z0; apply no_owner; exact Z0).
  assert (Own : owner p = true -> forall t' q, t' <> t -> nth_error ps t' = Some q -> writing q = false).
  { intros F t' q N Hq. destruct (writing q) eqn:Wq; [|reflexivity]. pose proof (cnt_two owner ps t t' p q (fun E => N (eq_sym E)) H Hq F (writing_owner q Wq)). unfold o in *. specialize (Ho F). lia. }
  assert (Keep : reading p = true -> forall t' q, t' <> t -> nth_error ps t' = Some q -> writing q = false).
  { intros F t' q N Hq. destruct (writing q) eqn:Wq; [|reflexivity]. assert (Nt : t <> t') by congruence. destruct (I4 t' q t p Hq H Wq Nt) as (_ & B). congruence. }
  assert (C0 : c = 0 -> forall t' q, nth_error ps t' = Some q -> reading q = false).
  { intros Z0 t' q Hq. destruct (reading q) eqn:R; [|reflexivity]. apply reading_counted in R. rewrite (cnt_none counted ps Z0 t' q Hq) in R. discriminate R. }
  assert (C1 : counted p = true -> c = 1 -> forall t' q, t' <> t -> nth_error ps t' = Some q -> reading q = false).
  { intros F Z1 t' q N Hq. destruct (reading q) eqn:R; [|reflexivity]. apply reading_counted in R. pose proof (cnt_two counted ps t t' p q (fun E => N (eq_sym E)) H Hq F R). unfold c in *. lia. }
  unfold inv. rewrite upd_length, !(cnt_upd _ _ _ _ _ H). fold c o.
  assert (G : forall l0 p0, l0 = word (0 <? o - b2z (owner p) + b2z (owner p0)) (c - b2z (counted p) + b2z (counted p0)) -> o - b2z (owner p) + b2z (owner p0) <= 1 ->
    (writing p0 = true -> forall t' q, t' <> t -> nth_error ps t' = Some q -> writing q = false /\ reading q = false) ->
    (reading p0 = true \/ writing p0 = true -> forall t' q, t' <> t -> nth_error ps t' = Some q -> writing q = false) ->
    Z.of_nat (length ps) < 2 ^ 63 /\ o - b2z (owner p) + b2z (owner p0) <= 1 /\ l0 = word (0 <? o - b2z (owner p) + b2z (owner p0)) (c - b2z (counted p) + b2z (counted p0)) /\ excl (upd ps t p0)).
  { intros l0 p0 A1 A2 A3 A4. split; [exact I1|]. split; [exact A2|]. split; [exact A1|]. apply (excl_upd ps t p p0 I4 H A3 A4). }
  assert (F0 : forall x y, x = y -> (0 <? x) = (0 <? y)) by (intros x y ->; reflexivity).
  destruct p; cbn [exec] in X; try discriminate X; rewrite ?I3, ?(bts_word _ c Hc), ?(flagged_word _ c Hc), ?(readers_word _ c Hc), ?(mask_word _ c Hc) in X; cbn [counted owner reading] in *.
  - (* AtLock *) destruct (Z.ltb_spec 0 o) as [P|P]; injection X as <- <-; apply G; cbn [owner counted writing reading b2z]; try (intros D; discriminate D); try lia; try (intros [D|D]; discriminate D).
    + rewrite (F0 _ o) by lia. assert ((0 <? o) = true) as -> by lia. f_equal. lia.
    + assert ((0 <? o - 0 + 1) = true) as -> by lia. f_equal. lia.
  - (* AtAttemptLock *) destruct (Z.ltb_spec 0 o) as [P|P]; injection X as <- <-; apply G; cbn [owner counted writing reading b2z]; try (intros D; discriminate D); try lia; try (intros [D|D]; discriminate D).
    + rewrite (F0 _ o) by lia. assert ((0 <? o) = true) as -> by lia. f_equal. lia.
    + assert ((0 <? o - 0 + 1) = true) as -> by lia. f_equal. lia.
  - (* Flush *) specialize (Ho eq_refl). destruct (Z.ltb_spec 0 c) as [P|P]; injection X as <- <-; apply G; cbn [owner counted writing reading b2z]; try (intros D; discriminate D); try lia; try (intros [D|D]; discriminate D).
    + rewrite (F0 (o - 1 + 1) o) by lia. f_equal. lia.
    + rewrite (F0 (o - 1 + 1) o) by lia. f_equal. lia.
    + intros _ t' q N Hq. split; [apply (Own eq_refl t' q N Hq)|]. apply (C0 ltac:(lia) t' q Hq).
    + intros _. apply (Own eq_refl).
  - (* AtStrict *) destruct (Z.eqb_spec (word (0 <? o) c) 0) as [P|P].
    + destruct (zero_word _ _ Hc P) as (P1 & P2). injection X as <- <-. assert (O0 : o = 0) by lia. apply G; cbn [owner counted writing reading b2z]; try lia.
      * rewrite O0, P2. reflexivity.
      * intros _ t' q N Hq. split; [apply (Noth O0 t' q Hq)|apply (C0 P2 t' q Hq)].
      * intros _ t' q N Hq. apply (Noth O0 t' q Hq).
    + injection X as <- <-. apply G; cbn [owner counted writing reading b2z]; try (intros D; discriminate D); try lia; try (intros [D|D]; discriminate D). rewrite (F0 (o - 0 + 0) o) by lia. f_equal. lia.
  - (* AtUnlock *) specialize (Ho eq_refl). injection X as <- <-. apply G; cbn [owner counted writing reading b2z]; try (intros D; discriminate D); try lia; try (intros [D|D]; discriminate D). rewrite Ho. unfold word; cbn; lia.
  - (* AtRLock *) rewrite incr_word in X by (specialize (Hou eq_refl); lia). destruct (Z.ltb_spec 0 o) as [P|P]; injection X as <- <-; apply G; cbn [owner counted writing reading b2z]; try (intros D; discriminate D); try lia; try (intros [D|D]; discriminate D).
    + rewrite (F0 (o - 0 + 0) o) by lia. f_equal; lia.
    + rewrite (F0 (o - 0 + 0) o) by lia. f_equal; lia.
    + intros _ t' q N Hq. apply (Noth ltac:(lia) t' q Hq).
  - (* RLockSub *) rewrite decr_word in X by (specialize (Hin eq_refl); lia). destruct (0 <? o) eqn:P; injection X as <- <-; apply G; cbn [owner counted writing reading b2z]; try (intros D; discriminate D); try lia; try (intros [D|D]; discriminate D); rewrite (F0 (o - 0 + 0) o), P by lia; f_equal; lia.
  - (* RLockWait *) destruct (0 <? o) eqn:P; injection X as <- <-; apply G; cbn [owner counted writing reading b2z]; try (intros D; discriminate D); try lia; try (intros [D|D]; discriminate D); rewrite (F0 (o - 0 + 0) o), P by lia; f_equal; lia.
  - (* AtAttemptRLock *) rewrite incr_word in X by (specialize (Hou eq_refl); lia). destruct (Z.ltb_spec 0 o) as [P|P]; injection X as <- <-; apply G; cbn [owner counted writing reading b2z]; try (intros D; discriminate D); try lia; try (intros [D|D]; discriminate D).
    + rewrite (F0 (o - 0 + 0) o) by lia. f_equal; lia.
    + rewrite (F0 (o - 0 + 0) o) by lia. f_equal; lia.
    + intros _ t' q N Hq. apply (Noth ltac:(lia) t' q Hq).
  - (* AttemptRSub *) rewrite decr_word in X by (specialize (Hin eq_refl); lia). injection X as <- <-; apply G; cbn [owner counted writing reading b2z]; try (intros D; discriminate D); try lia; try (intros [D|D]; discriminate D); rewrite (F0 (o - 0 + 0) o) by lia; f_equal; lia.
  - (* AtRUnlock *) rewrite decr_word in X by (specialize (Hin eq_refl); lia). injection X as <- <-; apply G; cbn [owner counted writing reading b2z]; try (intros D; discriminate D); try lia; try (intros [D|D]; discriminate D); rewrite (F0 (o - 0 + 0) o) by lia; f_equal; lia.
  - (* AtUpgrade *) destruct (Z.ltb_spec 0 o) as [P|P]; injection X as <- <-; apply G; cbn [owner counted writing reading b2z]; try (intros D; discriminate D); try lia.
    + rewrite (F0 _ o) by lia. assert ((0 <? o) = true) as -> by lia. f_equal. lia.
    + intros _. apply (Keep eq_refl).
    + assert ((0 <? o - 0 + 1) = true) as -> by lia. f_equal. lia.
    + intros _. apply (Keep eq_refl).
  - (* UpUnlock1 *) rewrite decr_word in X by (specialize (Hin eq_refl); lia). injection X as <- <-; apply G; cbn [owner counted writing reading b2z]; try (intros D; discriminate D); try lia; try (intros [D|D]; discriminate D); rewrite (F0 (o - 0 + 0) o) by lia; f_equal; lia.
  - (* UpWait *) destruct (0 <? o) eqn:P; injection X as <- <-; apply G; cbn [owner counted writing reading b2z]; try (intros D; discriminate D); try lia; try (intros [D|D]; discriminate D); rewrite (F0 (o - 0 + 0) o), P by lia; f_equal; lia.
  - (* UpAdd *) rewrite incr_word in X by (specialize (Hou eq_refl); lia). injection X as <- <-; apply G; cbn [owner counted writing reading b2z]; try (intros D; discriminate D); try lia; try (intros [D|D]; discriminate D); rewrite (F0 (o - 0 + 0) o) by lia; f_equal; lia.
  - (* UpRetry *) destruct (Z.ltb_spec 0 o) as [P|P]; injection X as <- <-; apply G; cbn [owner counted writing reading b2z]; try (intros D; discriminate D); try lia; try (intros [D|D]; discriminate D).
    + rewrite (F0 _ o) by lia. assert ((0 <? o) = true) as -> by lia. f_equal. lia.
    + assert ((0 <? o - 0 + 1) = true) as -> by lia. f_equal. lia.
    + intros _ t' q N Hq. apply (Noth ltac:(lia) t' q Hq).
  - (* UpUnlock2 *) rewrite decr_word in X by (specialize (Hin eq_refl); lia). injection X as <- <-; apply G; cbn [owner counted writing reading b2z]; try (intros D; discriminate D); try lia; try (intros [D|D]; discriminate D); rewrite (F0 (o - 0 + 0) o) by lia; f_equal; lia.
  - (* AtAttemptUpgrade *) destruct (Z.ltb_spec 0 o) as [P|P]; injection X as <- <-; apply G; cbn [owner counted writing reading b2z]; try (intros D; discriminate D); try lia.
    + rewrite (F0 _ o) by lia. assert ((0 <? o) = true) as -> by lia. f_equal. lia.
    + intros _. apply (Keep eq_refl).
    + assert ((0 <? o - 0 + 1) = true) as -> by lia. f_equal. lia.
    + intros _. apply (Keep eq_refl).
  - (* UpFlush *) specialize (Ho eq_refl). destruct (Z.ltb_spec 1 c) as [P|P]; injection X as <- <-; apply G; cbn [owner counted writing reading b2z]; try (intros D; discriminate D); try lia.
    + rewrite (F0 (o - 1 + 1) o) by lia. f_equal. lia.
    + intros _. apply (Keep eq_refl).
    + rewrite (F0 (o - 1 + 1) o) by lia. f_equal. lia.
    + intros _ t' q N Hq. split; [apply (Own eq_refl t' q N Hq)|]. specialize (Hin eq_refl). apply (C1 eq_refl ltac:(lia) t' q N Hq).
    + intros _. apply (Own eq_refl).
  - (* AtDowngrade *) specialize (Ho eq_refl). injection X as <- <-. apply G; cbn [owner counted writing reading b2z]; try (intros D; discriminate D); try lia.
    + rewrite Ho. unfold word; cbn; lia.
    + intros _. apply (Own eq_refl).
Qed.
Lemma start_inv n : Z.of_nat n < 2 ^ 63 -> inv 0 (repeat Idle n).
Proof.
  intros Hn. assert (K : forall f, f Idle = false -> cnt f (repeat Idle n) = 0). { intros f F. unfold cnt. clear Hn. induction n as [|n IH]; [reflexivity|]. cbn [repeat filter]. rewrite F. exact IH. }
  split; [rewrite repeat_length; exact Hn|]. rewrite !K by reflexivity. split; [lia|]. split; [reflexivity|]. intros t p t' p' H H' Wp. apply nth_error_In, repeat_spec in H. subst p. discriminate Wp.
Qed.
Lemma runs_inv n l ps : Z.of_nat n < 2 ^ 63 -> runs n (l, ps) -> inv l ps /\ length ps = n.
Proof.
  intros Hn R. remember (l, ps) as s eqn:Es. revert l ps Es. induction R as [|s s' R IH S]; intros l ps Es.
  - injection Es as <- <-. split; [apply start_inv; exact Hn|apply repeat_length].
  - subst s'. inversion S as [l0 ps0 t p c p' H B|l0 ps0 t p l' p' H X]; subst.
    + destruct (IH _ _ eq_refl) as (I & L). split; [eapply begin_inv; eassumption|rewrite upd_length; exact L].
    + destruct (IH _ _ eq_refl) as (I & L). split; [eapply exec_inv; eassumption|rewrite upd_length; exact L].
Qed.

(* --------------------------------------------------- theorems --------------------------------------------------- *)
(* For any number of threads (fewer than 2^63, so that the count cannot reach the flag) and any interleaving of their
   steps: while a thread writes, no other thread writes or reads. *)
Theorem C40_exclusion n l ps t p t' p' : Z.of_nat n < 2 ^ 63 -> runs n (l, ps) ->
  nth_error ps t = Some p -> nth_error ps t' = Some p' -> t' <> t -> writing p = true -> writing p' = false /\ reading p' = false.
Proof. intros Hn R H H' N Wp. destruct (runs_inv n l ps Hn R) as ((_ & _ & _ & X) & _). apply (X t p t' p' H H' Wp N). Qed.
(* when nobody holds the lock or is in a call, the word is zero *)
Theorem C40_word_zero n l ps : Z.of_nat n < 2 ^ 63 -> runs n (l, ps) -> (forall t p, nth_error ps t = Some p -> p = Idle) -> l = 0.
Proof.
  intros Hn R H. destruct (runs_inv n l ps Hn R) as ((_ & _ & -> & _) & _). assert (K : forall f, f Idle = false -> cnt f ps = 0).
  { intros f F. pose proof (cnt_le f ps). destruct (Z.eq_dec (cnt f ps) 0) as [|N]; [assumption|]. destruct (cnt_ex f ps ltac:(lia)) as (t & p & Hp & Fp). rewrite (H t p Hp) in Fp. congruence. }
  rewrite !K by reflexivity. reflexivity.
Qed.
(* when nobody is in a call, the word says how many threads read and whether one writes *)
Theorem C40_word n l ps : Z.of_nat n < 2 ^ 63 -> runs n (l, ps) -> (forall t p, nth_error ps t = Some p -> p = Idle \/ p = HoldR \/ p = HoldW \/ p = HoldWU) ->
  ReaderCount l = cnt (fun p => match p with HoldR | HoldWU => true | _ => false end) ps /\
  (flagged l = true <-> exists t p, nth_error ps t = Some p /\ writing p = true) /\
  (IsFree l = true <-> forall t p, nth_error ps t = Some p -> p = Idle).
Proof.
  intros Hn R H. destruct (runs_inv n l ps Hn R) as ((L & _ & -> & _) & _). pose proof (cnt_le counted ps) as HC. assert (Hc : 0 <= cnt counted ps < 2 ^ 63) by lia. 
  assert (K : forall f g, (forall p, p = Idle \/ p = HoldR \/ p = HoldW \/ p = HoldWU -> f p = g p) -> cnt f ps = cnt g ps).
  { intros f g E. unfold cnt. do 2 f_equal. apply filter_ext_in. intros p Hp. apply In_nth_error in Hp. destruct Hp as (t & Hp). apply E. apply (H t p Hp). }
  split; [|split].
  - unfold ReaderCount. rewrite readers_word by exact Hc. apply K. intros p [->|[->|[->| ->]]]; reflexivity.
  - rewrite flagged_word by exact Hc. split.
    + intros P. apply Z.ltb_lt in P. destruct (cnt_ex _ _ P) as (t & p & Hp & Fp). exists t, p. split; [exact Hp|]. destruct (H t p Hp) as [->|[->|[->| ->]]]; cbn in *; congruence.
    + intros (t & p & Hp & Wp). apply Z.ltb_lt. pose proof (cnt_in owner ps t p Hp (writing_owner p Wp)). lia.
  - unfold IsFree. rewrite Z.eqb_eq. split.
    + intros Z0. destruct (zero_word _ _ Hc Z0) as (P1 & P2). intros t p Hp. assert (cnt owner ps = 0) as P1' by (pose proof (cnt_le owner ps); lia). pose proof (cnt_none _ _ P1' t p Hp) as A. pose proof (cnt_none _ _ P2 t p Hp) as B. destruct (H t p Hp) as [->|[->|[->| ->]]]; cbn in *; congruence.
    + intros A. pose proof (C40_word_zero n _ ps Hn R A) as Z0. exact Z0.
Qed.
Print Assumptions C40_exclusion.
Print Assumptions C40_word_zero.
Print Assumptions C40_word.

(* a run of three threads: two read; one of them upgrades while the other leaves, and a third fails to get in *)
Definition ex_do (s : Z * list pc) (x : nat * option call) : option (Z * list pc) :=
  match nth_error (snd s) (fst x) with
  | None => None
  | Some p => match snd x with
              | Some c => match begin p c with Some p' => Some (fst s, upd (snd s) (fst x) p') | None => None end
              | None => match exec (fst s) p with Some (l', p') => Some (l', upd (snd s) (fst x) p') | None => None end
              end
  end.
Fixpoint ex_run (s : Z * list pc) (xs : list (nat * option call)) : option (Z * list pc) :=
  match xs with [] => Some s | x :: xs => match ex_do s x with Some s => ex_run s xs | None => None end end.
Lemma ex_run_runs n xs : forall s s', runs n s -> ex_run s xs = Some s' -> runs n s'.
Proof.
  induction xs as [|[t c] xs IH]; intros s s' R E; cbn [ex_run] in E; [injection E as <-; exact R|]. destruct (ex_do s (t, c)) as [s1|] eqn:D; [|discriminate E]. apply (IH s1 s'); [|exact E]. apply (r_step n s s1 R). destruct s as [l ps]. unfold ex_do in D. cbn [fst snd] in D. destruct (nth_error ps t) as [p|] eqn:Hp; [|discriminate D]. destruct c as [c|].
  - destruct (begin p c) as [p'|] eqn:B; [|discriminate D]. injection D as <-. eapply s_begin; eassumption.
  - destruct (exec l p) as [[l' p']|] eqn:X; [|discriminate D]. injection D as <-. eapply s_exec; eassumption.
Qed.
Example C40_example : exists l ps, runs 3 (l, ps) /\ nth_error ps 0 = Some HoldWU /\ nth_error ps 1 = Some Idle /\ nth_error ps 2 = Some RLockSub /\ l = WFLAG + 2.
Proof.
  assert (E : ex_run (start 3) [(0, Some CRLock); (0, None); (1, Some CRLock); (1, None); (0, Some CUpgrade); (0, None); (0, None); (1, Some CRUnlock); (1, None); (0, None); (2, Some CRLock); (2, None)]%nat = Some (WFLAG + 2, [HoldWU; Idle; RLockSub])) by (vm_compute; reflexivity).
  exists (WFLAG + 2), [HoldWU; Idle; RLockSub]. split; [|auto]. exact (ex_run_runs 3 _ _ _ (r_start 3) E).
Qed.
