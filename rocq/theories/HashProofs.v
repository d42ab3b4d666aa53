(* Proofs about the Hash model: probe sequence, table invariant, rehash. *)
From Coq Require Import List Arith ZArith Bool Lia Permutation.
From Coq Require Import ZifyBool ZifyNat.
From Verif Require Import Common BitUtil BitUtilSpec BitUtilProofs BitUtilProps Hash.
Import ListNotations.

(* --- the probe sequence --- *)
(* triangular numbers *)
Fixpoint tri (t : nat) : nat := match t with 0 => 0 | S t' => S t' + tri t' end.
Lemma tri_val t : 2 * tri t = t * (t + 1).
Proof. induction t as [|t IH]; cbn [tri]; [reflexivity|]. replace (S t * (S t + 1)) with (t * (t + 1) + 2 * S t) by ring. lia. Qed.
Definition idx (n h t : nat) : nat := (h + tri t) mod n.

Lemma land_mask k x : Nat.land x (2 ^ k - 1) = x mod 2 ^ k.
Proof. rewrite <- Nat.land_ones. f_equal. rewrite Nat.ones_equiv. apply Nat.sub_1_r. Qed.
Lemma pow2_pos k : 0 < 2 ^ k.
Proof. pose proof (Nat.pow_nonzero 2 k). lia. Qed.
Lemma idx_0 k h : Nat.land h (2 ^ k - 1) = idx (2 ^ k) h 0.
Proof. rewrite land_mask. unfold idx. cbn [tri]. rewrite Nat.add_0_r. reflexivity. Qed.
Lemma idx_S k h t : Nat.land (idx (2 ^ k) h t + S t) (2 ^ k - 1) = idx (2 ^ k) h (S t).
Proof.
  rewrite land_mask. unfold idx. pose proof (pow2_pos k). rewrite Nat.add_mod_idemp_l by lia. f_equal. cbn [tri]. lia.
Qed.
Lemma idx_lt k h t : idx (2 ^ k) h t < 2 ^ k.
Proof. apply Nat.mod_upper_bound. pose proof (pow2_pos k). lia. Qed.

(* 2^(k+1) dividing a product with an odd factor divides the other factor *)
Lemma div_odd k : forall a b, Nat.divide (2 ^ k) (a * b) -> Nat.odd a = true -> Nat.divide (2 ^ k) b.
Proof.
  intros a b D O. apply Nat.gauss with a; [exact D|].
  assert (G : Nat.gcd 2 a = 1).
  { apply Nat.odd_spec in O. destruct O as [m ->]. rewrite Nat.add_comm, Nat.mul_comm.
    rewrite Nat.gcd_comm. replace (1 + m * 2) with (1 + m * 2) by lia.
    assert (X := Nat.gcd_add_mult_diag_r 2 1 m). rewrite Nat.gcd_comm in X. rewrite X. reflexivity. }
  induction k as [|k IH]; [reflexivity|].
  cbn [Nat.pow]. change (2 ^ k + (2 ^ k + 0)) with (2 * 2 ^ k).
  assert (IHk : Nat.gcd (2 ^ k) a = 1). { apply IH. eapply Nat.divide_trans; [|exact D]. exists 2. reflexivity. }
  clear IH D.
  assert (R : Nat.divide (Nat.gcd (2 * 2 ^ k) a) 1); [|apply Nat.divide_1_r in R; exact R].
  set (g := Nat.gcd (2 * 2 ^ k) a).
  assert (Ga : Nat.divide g a) by apply Nat.gcd_divide_r.
  assert (G2 : Nat.divide g (2 * 2 ^ k)) by apply Nat.gcd_divide_l.
  assert (C : Nat.gcd g 2 = 1).
  { apply Nat.divide_1_r. assert (X : Nat.divide (Nat.gcd g 2) (Nat.gcd 2 a)); [|rewrite G in X; exact X]. apply Nat.gcd_greatest; [apply Nat.gcd_divide_r|eapply Nat.divide_trans; [apply Nat.gcd_divide_l|exact Ga]]. }
  assert (X : Nat.divide g (Nat.gcd (2 ^ k) a)); [|rewrite IHk in X; exact X]. apply Nat.gcd_greatest; [|exact Ga]. eapply Nat.gauss; [exact G2|exact C].
Qed.
Lemma tri_inj k s t : s < t -> t < 2 ^ k -> forall h, idx (2 ^ k) h s <> idx (2 ^ k) h t.
Proof.
  intros Hs Ht h E. unfold idx in E. pose proof (pow2_pos k) as P.
  (* 2^k divides tri t - tri s *)
  assert (Hle : tri s <= tri t) by (pose proof (tri_val s); pose proof (tri_val t); nia).
  assert (D : exists q, tri t - tri s = q * 2 ^ k).
  { pose proof (Nat.div_mod (h + tri s) (2 ^ k) ltac:(lia)) as D1. pose proof (Nat.div_mod (h + tri t) (2 ^ k) ltac:(lia)) as D2.
    rewrite E in D1. exists ((h + tri t) / 2 ^ k - (h + tri s) / 2 ^ k). rewrite Nat.mul_sub_distr_r. lia. }
  destruct D as [q D].
  assert (E2 : (t - s) * (t + s + 1) = q * 2 ^ S k).
  { cbn [Nat.pow]. replace ((t - s) * (t + s + 1)) with (t * (t + 1) - s * (s + 1)).
    - rewrite <- !tri_val. lia.
    - replace t with (s + (t - s)) at 1 2 4 by lia. generalize (t - s). intros d. nia. }
  assert (DV : Nat.divide (2 ^ S k) ((t - s) * (t + s + 1))) by (exists q; exact E2).
  destruct (Nat.odd (t - s)) eqn:O.
  - apply div_odd in DV; [|exact O]. apply Nat.divide_pos_le in DV; [|lia]. cbn [Nat.pow] in DV. lia.
  - assert (O2 : Nat.odd (t + s + 1) = true).
    { replace (t + s + 1) with ((t - s) + 1 + 2 * s) by lia. rewrite Nat.odd_add_mul_2, Nat.odd_add, O. reflexivity. }
    rewrite Nat.mul_comm in DV. apply div_odd in DV; [|exact O2]. apply Nat.divide_pos_le in DV; [|lia]. cbn [Nat.pow] in DV. lia.
Qed.
Lemma idx_inj k h s t : s < 2 ^ k -> t < 2 ^ k -> idx (2 ^ k) h s = idx (2 ^ k) h t -> s = t.
Proof.
  intros Hs Ht E. destruct (Nat.lt_trichotomy s t) as [X|[X|X]]; auto; exfalso.
  - exact (tri_inj k s t X Ht h E).
  - symmetry in E. exact (tri_inj k t s X Hs h E).
Qed.
Lemma nodup_map_in {A B} (f : A -> B) l : (forall x y, In x l -> In y l -> f x = f y -> x = y) -> NoDup l -> NoDup (map f l).
Proof.
  induction l as [|a l IH]; intros H N; cbn [map]; [constructor|]. inversion N; subst. constructor.
  - intros X. apply in_map_iff in X. destruct X as (b & E & Hb). apply H in E; [subst; contradiction|right; exact Hb|left; reflexivity].
  - apply IH; [|assumption]. intros x y Hx Hy. apply H; right; assumption.
Qed.
Lemma idx_perm k h : Permutation (map (idx (2 ^ k) h) (seq 0 (2 ^ k))) (seq 0 (2 ^ k)).
Proof.
  apply NoDup_Permutation_bis.
  - apply nodup_map_in; [|apply seq_NoDup]. intros s t Hs Ht E. apply in_seq in Hs, Ht. apply (idx_inj k h); [lia|lia|exact E].
  - rewrite map_length. lia.
  - intros x Hx. apply in_map_iff in Hx. destruct Hx as (t & <- & _). apply in_seq. pose proof (idx_lt k h t). lia.
Qed.
Lemma idx_surj k h i : i < 2 ^ k -> exists t, t < 2 ^ k /\ idx (2 ^ k) h t = i.
Proof.
  intros Hi. assert (X : In i (map (idx (2 ^ k) h) (seq 0 (2 ^ k)))).
  { eapply Permutation_in; [apply Permutation_sym, idx_perm|]. apply in_seq. lia. }
  apply in_map_iff in X. destruct X as (t & E & Ht). apply in_seq in Ht. exists t. split; [lia|exact E].
Qed.
Lemma probes_map k h : forall m s, probes m (2 ^ k) (idx (2 ^ k) h s) s = map (idx (2 ^ k) h) (seq s m).
Proof. induction m as [|m IH]; intros s; cbn [probes seq map]; [reflexivity|]. rewrite idx_S, IH. reflexivity. Qed.

(* --- sizes --- *)
Definition good_n (n : nat) : Prop := exists k, 2 <= k <= 31 /\ n = 2 ^ k.
Lemma good_n_ge n : good_n n -> 4 <= n.
Proof. intros (k & Hk & ->). replace k with (2 + (k - 2)) by lia. rewrite Nat.pow_add_r. pose proof (pow2_pos (k - 2)). change (2 ^ 2) with 4. lia. Qed.
Lemma ofnat_pow k : Z.of_nat (2 ^ k) = (2 ^ Z.of_nat k)%Z.
Proof. rewrite Nat2Z.inj_pow. reflexivity. Qed.
Lemma zpow_good m : (0 <= m <= 31)%Z -> (4 <= 2 ^ m)%Z -> good_n (Z.to_nat (2 ^ m)).
Proof.
  intros Hm H4. exists (Z.to_nat m). split.
  - assert (~ (m < 2)%Z); [|lia]. intros Hm2. assert (m = 0 \/ m = 1)%Z as [-> | ->] by lia; vm_compute in H4; apply H4; reflexivity.
  - apply Nat2Z.inj. rewrite ofnat_pow, !Z2Nat.id by lia. reflexivity.
Qed.
Lemma NextPow2_range c : (0 <= c < 2 ^ 32)%Z -> NextPow2_32 c = 0%Z \/ exists m, (0 <= m <= 31)%Z /\ NextPow2_32 c = (2 ^ m)%Z.
Proof.
  intros Hc. destruct (C02_NextPow2 32 NextPow2_32 ltac:(cbn; auto) c Hc) as [A B].
  destruct (Z.eq_dec c 0) as [->|N0]; [left; apply B; auto|].
  destruct (Z.le_gt_cases c (2 ^ (32 - 1))) as [Hle|Hgt]; [|left; apply B; auto].
  right. destruct A as ((m & Hm & E) & A2 & A3); [lia|]. exists m. split; [|exact E]. split; [lia|].
  destruct (Z.le_gt_cases m 31) as [|G]; [assumption|exfalso].
  assert (X : (NextPow2_32 c <= 2 ^ 31)%Z) by (apply A3; [lia|exact Hle]).
  rewrite E in X. assert (2 ^ 32 <= 2 ^ m)%Z by (apply Z.pow_le_mono_r; lia). lia.
Qed.

Lemma round_good c : (0 <= c < 2 ^ 32)%Z -> good_n (round_buckets c).
Proof.
  intros Hc. unfold round_buckets. destruct (NextPow2_range c Hc) as [E|(m & Hm & E)]; rewrite E.
  - exists 5. split; [lia|reflexivity].
  - destruct (Z.ltb_spec (2 ^ m) 4); [exists 5; split; [lia|reflexivity]|apply zpow_good; lia].
Qed.
Lemma round_ge c : (1 <= c <= 2 ^ 31)%Z -> (c <= Z.of_nat (round_buckets c))%Z.
Proof.
  intros Hc. destruct (C02_NextPow2 32 NextPow2_32 ltac:(cbn; auto) c ltac:(lia)) as [A _].
  destruct A as (_ & A & _); [lia|]. unfold round_buckets. destruct (Z.ltb_spec (NextPow2_32 c) 4); lia.
Qed.
Lemma round_same n : good_n n -> round_buckets (Z.of_nat n) = n /\ round_buckets (Z.of_nat n - 1) = n.
Proof.
  intros G. pose proof (good_n_ge n G) as G4. destruct G as (k & Hk & En).
  assert (P31 : (2 ^ Z.of_nat k <= 2 ^ 31)%Z) by (apply Z.pow_le_mono_r; lia).
  assert (EZ : Z.of_nat n = (2 ^ Z.of_nat k)%Z) by (rewrite En; apply ofnat_pow).
  assert (X : forall c, (Z.of_nat n - 1 <= c <= Z.of_nat n)%Z -> round_buckets c = n).
  { intros c Hc. destruct (C02_NextPow2 32 NextPow2_32 ltac:(cbn; auto) c ltac:(lia)) as [A _].
    destruct A as ((m & Hm & E) & A2 & A3); [lia|]. specialize (A3 (Z.of_nat k) ltac:(lia) ltac:(lia)).
    assert (Em : NextPow2_32 c = (2 ^ Z.of_nat k)%Z).
    { destruct (Z.lt_ge_cases m (Z.of_nat k)) as [L|L].
      - exfalso. assert (2 ^ m <= 2 ^ (Z.of_nat k - 1))%Z by (apply Z.pow_le_mono_r; lia).
        assert (2 ^ Z.of_nat k = 2 * 2 ^ (Z.of_nat k - 1))%Z by (rewrite <- Z.pow_succ_r by lia; f_equal; lia). lia.
      - assert (2 ^ Z.of_nat k <= 2 ^ m)%Z by (apply Z.pow_le_mono_r; lia). lia. }
    unfold round_buckets. rewrite Em, <- EZ. destruct (Z.ltb_spec (Z.of_nat n) 4); lia. }
  split; apply X; lia.
Qed.
Lemma round_next n : good_n n -> (Z.of_nat n <= 2 ^ 30)%Z -> 2 * n <= round_buckets (Z.of_nat n + 1).
Proof.
  intros G Hn. pose proof (round_ge (Z.of_nat n + 1) ltac:(lia)) as R. destruct (round_good (Z.of_nat n + 1) ltac:(lia)) as (m & Hm & Em).
  rewrite Em in *. destruct G as (k & Hk & ->). rewrite !ofnat_pow in R. 
  assert (L : k < m).
  { destruct (Nat.lt_ge_cases k m); [assumption|exfalso]. assert (2 ^ Z.of_nat m <= 2 ^ Z.of_nat k)%Z by (apply Z.pow_le_mono_r; lia). lia. }
  change (2 ^ S k <= 2 ^ m). apply Nat.pow_le_mono_r; lia.
Qed.
Lemma upper_lt n : 4 <= n -> upper n < n.
Proof. intros H. unfold upper. lia. Qed.
Lemma upper_half n s : 4 <= n -> 2 * s < n -> s < upper n.
Proof. intros H H2. unfold upper. lia. Qed.
Lemma upper_double n s m : 4 <= n -> s <= n -> 2 * n <= m -> s < upper m.
Proof. intros H H1 H2. unfold upper. lia. Qed.

Section Proofs.
Context {K V : Type} (hash : K -> nat) (eqb : K -> K -> bool).
Notation slot := (option (K * V)).
Notation table := (table K V).

(* the entries of the live buckets, in bucket order *)
Fixpoint entries (fl : list flag) (sl : list slot) : list (K * V) :=
  match fl, sl with
  | f :: fl, s :: sl => match f, s with FLive, Some e => e :: entries fl sl | _, _ => entries fl sl end
  | _, _ => []
  end.
Definition liveAt (fl : list flag) (sl : list slot) (i : nat) (e : K * V) : Prop :=
  nth_error fl i = Some FLive /\ nth_error sl i = Some (Some e).
Lemma in_entries fl : forall sl e, In e (entries fl sl) <-> exists i, liveAt fl sl i e.
Proof.
  unfold liveAt. induction fl as [|f fl IH]; intros [|s sl] e; cbn [entries]; [split; [intros []|intros ([|i] & A & B); discriminate]..|].
  assert (T : In e (entries fl sl) <-> exists i, nth_error (f :: fl) (S i) = Some FLive /\ nth_error (s :: sl) (S i) = Some (Some e)) by apply IH.
  destruct f, s as [e0|]; cbn [In]; rewrite T; clear T; (split; [intros H|intros ([|i] & A & B)]);
    try (destruct H as [H|H]); try (destruct H as (i & A & B)); try (now exists (S i); auto); try (now exists 0; subst; auto);
    cbn [nth_error] in *; try discriminate; try (now exists i; auto); try (now right; exists i; auto).
  - left. congruence.
Qed.
Lemma entries_drop fl : forall sl i e, liveAt fl sl i e -> forall f, f <> FLive -> Permutation (entries fl sl) (e :: entries (upd fl i f) sl).
Proof.
  unfold liveAt. induction fl as [|f0 fl IH]; intros [|s sl] [|i] e [A B] f Hf; try discriminate; cbn [nth_error upd entries] in *.
  - injection A as ->. injection B as ->. destruct f; [reflexivity|reflexivity|contradiction].
  - specialize (IH sl i e (conj A B) f Hf). destruct f0, s as [e0|]; auto.
    rewrite IH. apply perm_swap.
Qed.
Lemma entries_frame fl : forall sl i x, nth_error fl i <> Some FLive -> entries fl (upd sl i x) = entries fl sl.
Proof.
  induction fl as [|f fl IH]; intros [|s sl] [|i] x H; cbn [upd entries nth_error] in *; auto.
  - destruct f; auto; congruence.
  - rewrite IH by exact H. reflexivity.
Qed.
Lemma entries_flag fl : forall sl i f, nth_error fl i <> Some FLive -> f <> FLive -> entries (upd fl i f) sl = entries fl sl.
Proof.
  induction fl as [|f0 fl IH]; intros [|s sl] [|i] f H Hf; cbn [upd entries nth_error] in *; auto.
  - destruct f0, f; auto; congruence.
  - rewrite IH by auto. reflexivity.
Qed.
Lemma entries_add fl : forall sl i e, nth_error fl i <> Some FLive -> i < length fl -> i < length sl ->
  Permutation (entries (upd fl i FLive) (upd sl i (Some e))) (e :: entries fl sl).
Proof.
  induction fl as [|f fl IH]; intros [|s sl] [|i] e H Hf Hs; cbn [upd entries nth_error length] in *; try lia.
  - destruct f; auto. congruence.
  - specialize (IH sl i e H ltac:(lia) ltac:(lia)). destruct f, s as [e0|]; auto. rewrite IH. apply perm_swap.
Qed.
Lemma entries_set fl : forall sl i e e', liveAt fl sl i e ->
  exists r, Permutation (entries fl sl) (e :: r) /\ Permutation (entries fl (upd sl i (Some e'))) (e' :: r).
Proof.
  unfold liveAt. induction fl as [|f0 fl IH]; intros [|s sl] [|i] e e' [A B]; try discriminate; cbn [nth_error upd entries] in *.
  - injection A as ->. injection B as ->. exists (entries fl sl). split; reflexivity.
  - destruct (IH sl i e e' (conj A B)) as (r & P1 & P2). destruct f0, s as [e0|]; try (exists r; auto; fail).
    exists (e0 :: r). rewrite P1, P2. split; apply perm_swap.
Qed.
Lemma entries_none fl : (forall i, nth_error fl i <> Some FLive) -> forall sl, entries fl sl = [].
Proof.
  induction fl as [|f fl IH]; intros H [|s sl]; cbn [entries]; auto. 
  assert (f <> FLive) by (intros ->; apply (H 0); reflexivity).
  rewrite IH by (intros i; apply (H (S i))). destruct f; auto; congruence.
Qed.
Lemma entries_repeat n sl : entries (repeat FEmpty n) sl = [].
Proof. apply entries_none. intros i E. apply nth_error_In, repeat_spec in E. discriminate. Qed.
Lemma entries_app fl : forall sl x, length fl <= length sl -> entries fl (sl ++ x) = entries fl sl.
Proof. induction fl as [|f fl IH]; intros [|s sl] x H; cbn [entries app length] in *; auto; [lia|]. rewrite IH by lia. reflexivity. Qed.
Lemma entries_firstn fl : forall sl n, length fl <= n -> entries fl (firstn n sl) = entries fl sl.
Proof.
  induction fl as [|f fl IH]; intros sl n H; [destruct (firstn n sl), sl; reflexivity|]. destruct n as [|n]; cbn [length] in H; [lia|].
  destruct sl as [|s sl]; cbn [firstn entries]; [reflexivity|]. rewrite IH by lia. reflexivity.
Qed.
(* --- counting the non-empty flags --- *)
Fixpoint nonE (fl : list flag) : nat := match fl with [] => 0 | FEmpty :: r => nonE r | _ :: r => S (nonE r) end.
Lemma nonE_len fl : nonE fl <= length fl.
Proof. induction fl as [|[]]; cbn [nonE length]; lia. Qed.
Lemma nonE_free fl : nonE fl < length fl -> exists i, nth_error fl i = Some FEmpty.
Proof. induction fl as [|f fl IH]; cbn [nonE length]; [lia|]. destruct f; intros H; [exists 0; reflexivity|destruct IH as [i Hi]; [lia|exists (S i); exact Hi]..]. Qed.
Lemma nonE_take fl : forall i f, nth_error fl i = Some FEmpty -> f <> FEmpty -> nonE (upd fl i f) = S (nonE fl).
Proof.
  induction fl as [|f0 fl IH]; intros [|i] f H Hf; cbn [nth_error upd] in *; try discriminate.
  - injection H as ->. destruct f; cbn [nonE]; congruence.
  - specialize (IH i f H Hf). destruct f0; cbn [nonE]; lia.
Qed.
Lemma nonE_same fl : forall i f f0, nth_error fl i = Some f0 -> f0 <> FEmpty -> f <> FEmpty -> nonE (upd fl i f) = nonE fl.
Proof.
  induction fl as [|f1 fl IH]; intros [|i] f f0 H H0 Hf; cbn [nth_error upd] in *; try discriminate.
  - injection H as ->. destruct f, f0; cbn [nonE]; congruence.
  - specialize (IH i f f0 H H0 Hf). destruct f1; cbn [nonE]; lia.
Qed.
Lemma nonE_repeat n : nonE (repeat FEmpty n) = 0.
Proof. induction n; cbn [repeat nonE]; auto. Qed.
Lemma entries_le fl : forall sl, length (entries fl sl) <= nonE fl.
Proof. induction fl as [|f fl IH]; intros [|s sl]; cbn [entries nonE length]; try lia. specialize (IH sl). destruct f, s; cbn [length]; lia. Qed.
(* without deleted flags and unconstructed live slots the two agree *)
Lemma entries_full fl : forall sl, length fl <= length sl -> (forall i, nth_error fl i <> Some FDel) ->
  (forall i, nth_error fl i = Some FLive -> exists e, nth_error sl i = Some (Some e)) -> length (entries fl sl) = nonE fl.
Proof.
  induction fl as [|f fl IH]; intros [|s sl] L D E; cbn [entries nonE length] in *; try lia.
  assert (IH' := IH sl ltac:(lia) (fun i => D (S i)) (fun i => E (S i))).
  destruct f; [exact IH'|exfalso; apply (D 0); reflexivity|]. destruct (E 0 eq_refl) as [e He]. injection He as ->. cbn [length]. lia.
Qed.

(* --- probing --- *)
Definition reach (n : nat) (fl : list flag) (h i : nat) : Prop :=
  exists t, t < n /\ idx n h t = i /\ forall s, s < t -> nth_error fl (idx n h s) <> Some FEmpty.
Lemma reach_mono n fl fl' h i : (forall j, nth_error fl' j = Some FEmpty -> nth_error fl j = Some FEmpty) -> reach n fl h i -> reach n fl' h i.
Proof. intros H (t & A & B & C). exists t. split; [exact A|]. split; [exact B|]. intros s Hs X. apply (C s Hs), H, X. Qed.
Lemma upd_keep (fl : list flag) i f j : f <> FEmpty -> nth_error (upd fl i f) j = Some FEmpty -> nth_error fl j = Some FEmpty.
Proof. intros Hf. rewrite nth_error_upd. destruct ((i =? j) && (i <? length fl)); congruence. Qed.

Lemma find_empty_ok k fl h : length fl = 2 ^ k -> (exists i, nth_error fl i = Some FEmpty) ->
  exists i, find_empty (S (2 ^ k)) fl (2 ^ k - 1) (Nat.land h (2 ^ k - 1)) 0 = Ok i /\ nth_error fl i = Some FEmpty /\ reach (2 ^ k) fl h i.
Proof.
  intros L (i0 & Hi0). destruct (idx_surj k h i0) as (t0 & Ht0 & Et0); [rewrite <- L; eapply nth_error_lt; exact Hi0|].
  rewrite idx_0. 
  assert (X : forall fuel s, t0 - s < fuel -> s <= t0 -> (forall r, r < s -> nth_error fl (idx (2 ^ k) h r) <> Some FEmpty) ->
    exists i, find_empty fuel fl (2 ^ k - 1) (idx (2 ^ k) h s) s = Ok i /\ nth_error fl i = Some FEmpty /\ reach (2 ^ k) fl h i).
  { induction fuel as [|fuel IH]; intros s Hf Hs Hr; [lia|]. cbn [find_empty].
    destruct (get_ok fl (idx (2 ^ k) h s)) as (f & Eg & En); [rewrite L; apply idx_lt|]. rewrite Eg. cbn [bind].
    destruct (is_empty f) eqn:Ee.
    - exists (idx (2 ^ k) h s). destruct f; try discriminate. split; [reflexivity|]. split; [exact En|]. exists s. split; [lia|]. auto.
    - rewrite idx_S. assert (Hne : s <> t0) by (intros ->; rewrite Et0, Hi0 in En; injection En as <-; discriminate).
      apply IH; [lia|lia|]. intros r Hr'. destruct (Nat.eq_dec r s) as [->|]; [rewrite En; destruct f; discriminate|apply Hr; lia]. }
  apply X; [lia|lia|]. intros r Hr. lia.
Qed.

(* --- rehash --- *)
(* the old table during the rehash, the new flags, the slots *)
Definition rh (n k : nat) (fl nfl : list flag) (sl : list slot) : Prop :=
  length fl = n /\ length nfl = 2 ^ k /\ n <= length sl /\ 2 ^ k <= length sl /\
  (forall i, nth_error fl i = Some FLive -> exists e, nth_error sl i = Some (Some e)) /\
  (forall i, nth_error nfl i = Some FLive -> exists e, nth_error sl i = Some (Some e) /\ reach (2 ^ k) nfl (hash (fst e)) i) /\
  (forall i, nth_error nfl i <> Some FDel) /\
  (forall i, nth_error fl i = Some FLive -> nth_error nfl i <> Some FLive).
Definition lives (fl : list flag) (sl : list slot) : nat := length (entries fl sl).
Lemma kick_ok n k : forall fuel fl nfl sl e, rh n k fl nfl sl -> lives fl sl < fuel -> lives nfl sl + lives fl sl + 1 < 2 ^ k ->
  exists fl' nfl' sl', kick hash fuel n (2 ^ k) fl nfl sl e = Ok (fl', nfl', sl') /\ rh n k fl' nfl' sl' /\ length sl' = length sl /\
    Permutation (entries fl' sl' ++ entries nfl' sl') (e :: entries fl sl ++ entries nfl sl) /\
    (forall i, nth_error fl' i = Some FLive -> nth_error fl i = Some FLive).
Proof.
  unfold lives. induction fuel as [|fuel IH]; intros fl nfl sl e (L1 & L2 & L3 & L4 & HO & HN & HD & HX) Hf Hr; [lia|]. cbn [kick].
  destruct (find_empty_ok k nfl (hash (fst e)) L2) as (i & Ei & Hi & Ri).
  { apply nonE_free. rewrite <- (entries_full nfl sl) by (try lia; auto; intros j Hj; destruct (HN j Hj) as (x & Hx & _); eauto). lia. }
  rewrite Ei. cbn [bind]. pose proof (nth_error_lt _ _ _ Hi) as Li. rewrite (set_ok nfl) by exact Li. cbn [bind].
  assert (HN' : forall e0 j, nth_error (upd nfl i FLive) j = Some FLive -> (e0 = e) ->
    exists x, nth_error (upd sl i (Some e0)) j = Some (Some x) /\ reach (2 ^ k) (upd nfl i FLive) (hash (fst x)) j).
  { intros e0 j Hj ->. destruct (Nat.eq_dec i j) as [<-|Hne].
    - exists e. rewrite nth_error_upd_eq by lia. split; [reflexivity|]. eapply reach_mono; [|exact Ri]. intros z. apply upd_keep. discriminate.
    - rewrite nth_error_upd_neq in Hj by auto. destruct (HN j Hj) as (x & Hx & Rx). exists x. rewrite nth_error_upd_neq by auto. split; [exact Hx|].
      eapply reach_mono; [|exact Rx]. intros z. apply upd_keep. discriminate. }
  assert (HD' : forall j, nth_error (upd nfl i FLive) j <> Some FDel).
  { intros j. rewrite nth_error_upd. destruct ((i =? j) && (i <? length nfl)); [discriminate|apply HD]. }
  assert (PN : Permutation (entries (upd nfl i FLive) (upd sl i (Some e))) (e :: entries nfl sl)).
  { apply entries_add; [rewrite Hi; discriminate|lia|lia]. }
  assert (OLD : (exists e1, i < n /\ get fl i = Ok FLive /\ liveAt fl sl i e1) \/
                (nth_error fl i <> Some FLive /\ (if i <? n then do f <- get fl i; Ok (is_live f) else Ok false) = Ok false)).
  { destruct (Nat.ltb_spec i n) as [Hin|Hin].
    - destruct (get_ok fl i ltac:(lia)) as (f & Eg & En). destruct f.
      + right. rewrite Eg, En. split; [discriminate|reflexivity].
      + right. rewrite Eg, En. split; [discriminate|reflexivity].
      + left. destruct (HO i En) as (e1 & He1). exists e1. split; [exact Hin|]. split; [exact Eg|]. split; [exact En|exact He1].
    - right. split; [|reflexivity]. rewrite (proj2 (nth_error_None fl i)) by lia. discriminate. }
  destruct OLD as [(e1 & Hin & Eg & A1 & A2)|[A1 A2]].
  - destruct (Nat.ltb_spec i n); [|lia]. rewrite Eg. cbn [bind is_live]. unfold rd. rewrite (get_some _ _ _ A2). cbn [bind].
    rewrite set_ok by lia. cbn [bind]. rewrite set_ok by lia. cbn [bind].
    assert (P1 : Permutation (entries fl sl) (e1 :: entries (upd fl i FDel) sl)) by (apply entries_drop; [split; assumption|discriminate]).
    assert (Nl : nth_error (upd fl i FDel) i <> Some FLive) by (rewrite nth_error_upd_eq by lia; discriminate).
    assert (P2 : entries (upd fl i FDel) (upd sl i (Some e)) = entries (upd fl i FDel) sl) by (apply entries_frame; exact Nl).
    pose proof (Permutation_length P1) as Q1. pose proof (Permutation_length PN) as Q2. cbn [length] in Q1, Q2.
    destruct (IH (upd fl i FDel) (upd nfl i FLive) (upd sl i (Some e)) e1) as (fl' & nfl' & sl' & E & R' & Ls & P & M).
    + unfold rh. rewrite !upd_length. split; [lia|]. split; [lia|]. split; [lia|]. split; [lia|]. split; [|split; [|split]].
      * intros j Hj. destruct (Nat.eq_dec i j) as [<-|Hne]; [contradiction|]. rewrite nth_error_upd_neq in Hj by auto. rewrite nth_error_upd_neq by auto. auto.
      * intros j Hj. apply (HN' e); auto.
      * exact HD'.
      * intros j Hj. destruct (Nat.eq_dec i j) as [<-|Hne]; [contradiction|]. rewrite nth_error_upd_neq in Hj by auto. rewrite nth_error_upd_neq by auto. auto.
    + rewrite P2. lia.
    + rewrite P2. lia.
    + exists fl', nfl', sl'. split; [exact E|]. split; [exact R'|]. split; [rewrite Ls, upd_length; reflexivity|]. split.
      * rewrite P, P2, P1, PN. cbn [app]. rewrite <- Permutation_middle. apply perm_swap.
      * intros j Hj. apply M in Hj. destruct (Nat.eq_dec i j) as [<-|Hne]; [contradiction|]. rewrite nth_error_upd_neq in Hj by auto. exact Hj.
  - rewrite A2. cbn [bind]. rewrite set_ok by lia. cbn [bind]. do 3 eexists. split; [reflexivity|]. split; [|split; [apply upd_length|split; [|auto]]].
    + unfold rh. rewrite !upd_length. split; [lia|]. split; [lia|]. split; [lia|]. split; [lia|]. split; [|split; [|split]].
      * intros j Hj. destruct (Nat.eq_dec i j) as [<-|Hne]; [contradiction|]. rewrite nth_error_upd_neq by auto. auto.
      * intros j Hj. apply (HN' e); auto.
      * exact HD'.
      * intros j Hj. destruct (Nat.eq_dec i j) as [<-|Hne]; [contradiction|]. rewrite nth_error_upd_neq by auto. auto.
    + rewrite PN, entries_frame by exact A1. rewrite <- Permutation_middle. reflexivity.
Qed.
Lemma rehash_ok n k : forall todo j fl nfl sl, rh n k fl nfl sl -> todo + j = n -> lives nfl sl + lives fl sl < 2 ^ k ->
  (forall i, i < j -> nth_error fl i <> Some FLive) ->
  exists fl' nfl' sl', rehash hash todo j n (2 ^ k) fl nfl sl = Ok (fl', nfl', sl') /\ rh n k fl' nfl' sl' /\ length sl' = length sl /\
    Permutation (entries nfl' sl') (entries fl sl ++ entries nfl sl).
Proof.
  unfold lives. induction todo as [|todo IH]; intros j fl nfl sl R Hj Hc Hd; cbn [rehash].
  - do 3 eexists. split; [reflexivity|]. split; [exact R|]. split; [reflexivity|].
    rewrite (entries_none fl); [reflexivity|]. intros i. destruct (Nat.lt_ge_cases i j) as [Hi|Hi]; [auto|].
    destruct R as (L1 & _). rewrite (proj2 (nth_error_None fl i)) by lia. discriminate.
  - pose proof R as (L1 & L2 & L3 & L4 & HO & HN & HD & HX).
    destruct (get_ok fl j ltac:(lia)) as (f & Eg & En). rewrite Eg. cbn [bind]. destruct (is_live f) eqn:Ef.
    + destruct f; try discriminate. destruct (HO j En) as (e & He). unfold rd. rewrite (get_some _ _ _ He). cbn [bind].
      rewrite set_ok by lia. cbn [bind]. rewrite set_ok by lia. cbn [bind].
      assert (P1 : Permutation (entries fl sl) (e :: entries (upd fl j FDel) sl)) by (apply entries_drop; [split; assumption|discriminate]).
      assert (Nl : nth_error (upd fl j FDel) j <> Some FLive) by (rewrite nth_error_upd_eq by lia; discriminate).
      assert (P2 : entries (upd fl j FDel) (upd sl j None) = entries (upd fl j FDel) sl) by (apply entries_frame; exact Nl).
      assert (P3 : entries nfl (upd sl j None) = entries nfl sl) by (apply entries_frame; auto).
      pose proof (Permutation_length P1) as Q1. cbn [length] in Q1.
      destruct (kick_ok n k (S n) (upd fl j FDel) nfl (upd sl j None) e) as (fl2 & nfl2 & sl2 & E2 & R2 & Ls2 & Pm2 & M2).
      * unfold rh. rewrite !upd_length. split; [lia|]. split; [lia|]. split; [lia|]. split; [lia|]. split; [|split; [|split]].
        -- intros i Hi. destruct (Nat.eq_dec j i) as [<-|Hne]; [contradiction|]. rewrite nth_error_upd_neq in Hi by auto. rewrite nth_error_upd_neq by auto. auto.
        -- intros i Hi. assert (Hne : j <> i) by (intros <-; exact (HX _ En Hi)). rewrite nth_error_upd_neq by auto. auto.
        -- exact HD.
        -- intros i Hi. destruct (Nat.eq_dec j i) as [<-|Hne]; [contradiction|]. rewrite nth_error_upd_neq in Hi by auto. auto.
      * unfold lives. rewrite P2. pose proof (entries_le (upd fl j FDel) sl). pose proof (nonE_len (upd fl j FDel)). rewrite upd_length in *. lia.
      * unfold lives. rewrite P2, P3. lia.
      * rewrite E2. cbn [bind]. rewrite P2, P3 in Pm2. pose proof (Permutation_length Pm2) as Q2. cbn [length] in Q2. rewrite !app_length in Q2.
        destruct (IH (S j) fl2 nfl2 sl2 R2) as (fl' & nfl' & sl' & E & R' & Ls & P).
        -- lia.
        -- lia.
        -- intros i Hi Hl. apply M2 in Hl. destruct (Nat.eq_dec j i) as [<-|Hne]; [contradiction|]. rewrite nth_error_upd_neq in Hl by auto. revert Hl. apply Hd. lia.
        -- exists fl', nfl', sl'. split; [exact E|]. split; [exact R'|]. split; [rewrite Ls, Ls2, upd_length; reflexivity|]. rewrite P, Pm2, P1. reflexivity.
    + apply IH; auto; [lia|]. intros i Hi. destruct (Nat.eq_dec i j) as [->|]; [rewrite En; destruct f; discriminate|apply Hd; lia].
Qed.
End Proofs.
