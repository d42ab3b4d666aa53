(* Property C53: the alias table reproduces the requested distribution exactly. *)
From Coq Require Import List Arith Lia QArith Lqa Qfield Permutation.
From Verif Require Import Common AliasTable.
Import ListNotations.
Local Open Scope Q_scope.

(* --- specification --- *)
Fixpoint qsum {A} (f : A -> Q) (l : list A) : Q := match l with [] => 0 | x :: l => f x + qsum f l end.
(* p is a distribution *)
Definition distribution (p : list Q) : Prop := (forall x, In x p -> 0 <= x) /\ qsum (fun x => x) p == 1.
(* the weight index j gets in column c: the stored probability q if j = c, and 1 - q if j is the alias of c *)
Definition chance (t : table) (c j : nat) : Q :=
  match nth_error (prob t) c with
  | Some (Some q) => (if c =? j then q else 0) + (match nth_error (alias t) c with Some (Some a) => if a =? j then 1 - q else 0 | _ => 0 end)
  | _ => 0
  end.
(* every column is drawn with the same weight *)
Definition weight (t : table) (n j : nat) : Q := qsum (fun c => average n * chance t c j) (seq 0 n).

(* --- proofs --- *)
Lemma qsum_perm {A} (f : A -> Q) l l' : Permutation l l' -> qsum f l == qsum f l'.
Proof. induction 1; cbn [qsum]; lra. Qed.
Lemma qsum_ext {A} (f g : A -> Q) l : (forall x, In x l -> f x == g x) -> qsum f l == qsum g l.
Proof. induction l as [|a l IH]; intros H; cbn [qsum]; [reflexivity|]. rewrite (H a) by (left; reflexivity). rewrite IH; [reflexivity|]. intros x Hx. apply H. right. exact Hx. Qed.
Lemma qsum_change (f g : nat -> Q) l i : NoDup l -> In i l -> (forall x, In x l -> x <> i -> f x == g x) -> qsum f l == qsum g l + (f i - g i).
Proof.
  induction l as [|a l IH]; intros ND Hi H; [destruct Hi|]. cbn [qsum]. apply NoDup_cons_iff in ND. destruct ND as [Na ND]. destruct (Nat.eq_dec a i) as [->|N].
  - rewrite (qsum_ext f g l); [lra|]. intros x Hx. apply H; [right; exact Hx|]. intros ->. exact (Na Hx).
  - destruct Hi as [->|Hi]; [congruence|]. rewrite (H a) by (auto; left; reflexivity). rewrite IH by (auto; intros x Hx; apply H; right; exact Hx). lra.
Qed.
Lemma qsum_const_le (f : nat -> Q) a l : (forall x, In x l -> a <= f x) -> inject_Z (Z.of_nat (length l)) * a <= qsum f l.
Proof.
  induction l as [|x l IH]; intros H; [cbn [qsum length]; change (inject_Z (Z.of_nat 0)) with 0; lra|]. cbn [qsum length]. rewrite Nat2Z.inj_succ. unfold Z.succ. rewrite inject_Z_plus. pose proof (H x (or_introl eq_refl)). assert (inject_Z (Z.of_nat (length l)) * a <= qsum f l) by (apply IH; intros y Hy; apply H; right; exact Hy).
  change (inject_Z 1) with 1. lra.
Qed.
Lemma qsum_const_eq (f : nat -> Q) a l : (forall x, In x l -> a <= f x) -> qsum f l == inject_Z (Z.of_nat (length l)) * a -> forall x, In x l -> f x == a.
Proof.
  induction l as [|y l IH]; intros H E x Hx; [destruct Hx|]. cbn [qsum length] in E. rewrite Nat2Z.inj_succ in E. unfold Z.succ in E. rewrite inject_Z_plus in E. change (inject_Z 1) with 1 in E.
  assert (H1 : forall x, In x l -> a <= f x) by (intros z Hz; apply H; right; exact Hz). pose proof (qsum_const_le f a l H1) as L. pose proof (H y (or_introl eq_refl)).
  destruct Hx as [->|Hx]; [lra|]. apply IH; auto. lra.
Qed.
Lemma qsum_const_lt (f : nat -> Q) a l : (forall x, In x l -> f x < a) -> qsum f l == inject_Z (Z.of_nat (length l)) * a -> l = [].
Proof.
  intros H E. assert (L : forall l, (forall x, In x l -> f x < a) -> qsum f l <= inject_Z (Z.of_nat (length l)) * a).
  { clear. induction l as [|x l IH]; intros H; [cbn [qsum length]; change (inject_Z (Z.of_nat 0)) with 0; lra|]. cbn [qsum length]. rewrite Nat2Z.inj_succ. unfold Z.succ. rewrite inject_Z_plus. pose proof (H x (or_introl eq_refl)). assert (qsum f l <= inject_Z (Z.of_nat (length l)) * a) by (apply IH; intros y Hy; apply H; right; exact Hy).
    change (inject_Z 1) with 1. lra. }
  destruct l as [|x l]; [reflexivity|]. exfalso. cbn [qsum length] in E. rewrite Nat2Z.inj_succ in E. unfold Z.succ in E. rewrite inject_Z_plus in E. change (inject_Z 1) with 1 in E.
  pose proof (H x (or_introl eq_refl)). assert (qsum f l <= inject_Z (Z.of_nat (length l)) * a) by (apply L; intros y Hy; apply H; right; exact Hy). lra.
Qed.
Lemma qsum_nth (p : list Q) : forall k, qsum (fun i => nth (i - k) p 0) (seq k (length p)) == qsum (fun x => x) p.
Proof.
  induction p as [|x p IH]; intros k; cbn [length seq qsum]; [reflexivity|]. rewrite Nat.sub_diag. cbn [nth]. rewrite <- (IH (S k)). apply Qplus_comp; [reflexivity|]. apply qsum_ext. intros i Hi. apply in_seq in Hi. replace (i - k)%nat with (S (i - S k)) by lia. reflexivity.
Qed.
Lemma nth_upd_eq {A} (l : list A) i x d : (i < length l)%nat -> nth i (upd l i x) d = x.
Proof. intros H. apply nth_error_nth. apply nth_error_upd_eq. exact H. Qed.
Lemma nth_upd_neq {A} (l : list A) i j x d : i <> j -> nth j (upd l i x) d = nth j l d.
Proof. revert i j. induction l as [|y l IH]; intros [|i] [|j] H; cbn [upd nth]; try reflexivity; try congruence. apply IH. congruence. Qed.

Definition active (A : list nat) (pc : list Q) (j : nat) : Q := if in_dec Nat.eq_dec j A then nth j pc 0 else 0.
(* the state of the construction, A being the indices on either stack *)
Record core (p pc : list Q) (t : table) (A : list nat) : Prop := {
  c_pc : length pc = length p; c_pr : length (prob t) = length p; c_al : length (alias t) = length p;
  c_nd : NoDup A; c_lt : forall i, In i A -> (i < length p)%nat;
  c_act : forall i, In i A -> nth_error (prob t) i = Some None;
  c_done : forall i, (i < length p)%nat -> ~ In i A -> exists q g, nth_error (prob t) i = Some (Some q) /\ 0 <= q <= 1 /\ nth_error (alias t) i = Some (Some g) /\ (g < length p)%nat;
  c_w : forall j, (j < length p)%nat -> weight t (length p) j + active A pc j == nth j p 0;
  c_sum : qsum (fun i => nth i pc 0) A == inject_Z (Z.of_nat (length A)) * average (length p) }.
Lemma core_perm p pc t A B : Permutation A B -> core p pc t A -> core p pc t B.
Proof.
  intros P [C1 C2 C3 C4 C5 C6 C7 C8 C9]. constructor; auto.
  - rewrite <- P. exact C4.
  - intros i Hi. apply C5. rewrite P. exact Hi.
  - intros i Hi. apply C6. rewrite P. exact Hi.
  - intros i Hi Hn. apply C7; [exact Hi|]. rewrite P. exact Hn.
  - intros j Hj. rewrite <- (C8 j Hj). unfold active. destruct (in_dec Nat.eq_dec j B) as [I|I], (in_dec Nat.eq_dec j A) as [I'|I']; try reflexivity; rewrite P in I'; contradiction.
  - rewrite <- (qsum_perm _ _ _ P), <- (Permutation_length P). exact C9.
Qed.
Lemma avg_pos n : (0 < n)%nat -> 0 < average n /\ inject_Z (Z.of_nat n) * average n == 1.
Proof.
  intros H. assert (0 < inject_Z (Z.of_nat n)) by (change 0 with (inject_Z 0); rewrite <- Zlt_Qlt; lia). unfold average. split; [|field; lra].
  apply Qlt_shift_div_l; [assumption|lra].
Qed.
Lemma weight_set p pc t A l pr al (d : nat -> Q) : core p pc t A -> In l A ->
  (forall i j, i <> l -> chance (mkt pr al) i j = chance t i j) -> (forall j, chance (mkt pr al) l j == d j) ->
  forall j, weight (mkt pr al) (length p) j == weight t (length p) j + average (length p) * d j.
Proof.
  intros C Hl Ho Hd j. pose proof (c_lt _ _ _ _ C l Hl) as L. unfold weight. rewrite (qsum_change _ (fun c => average (length p) * chance t c j) _ l).
  - rewrite Hd. assert (E : chance t l j = 0) by (unfold chance; rewrite (c_act _ _ _ _ C l Hl); reflexivity). rewrite E. lra.
  - apply seq_NoDup.
  - apply in_seq. lia.
  - intros x _ Hx. rewrite (Ho x j Hx). reflexivity.
Qed.
Lemma core_step p pc t l g A : (0 < length p)%nat -> core p pc t (l :: g :: A) -> 0 <= nth l pc 0 -> nth l pc 0 < average (length p) ->
  core p (upd pc g (nth g pc 0 + nth l pc 0 - average (length p)))
    (mkt (upd (prob t) l (Some (nth l pc 0 * inject_Z (Z.of_nat (length p))))) (upd (alias t) l (Some g))) (g :: A).
Proof.
  intros Hn C Hl0 Hl1. pose proof C as [C1 C2 C3 C4 C5 C6 C7 C8 C9]. destruct (avg_pos _ Hn) as [Ha Hna]. set (avg := average (length p)) in *. set (nn := inject_Z (Z.of_nat (length p))) in *.
  assert (Ll : (l < length p)%nat) by (apply C5; left; reflexivity). assert (Lg : (g < length p)%nat) by (apply C5; right; left; reflexivity).
  apply NoDup_cons_iff in C4. destruct C4 as [Nl ND]. assert (Nlg : l <> g) by (intros ->; apply Nl; left; reflexivity). pose proof ND as ND'. apply NoDup_cons_iff in ND'. destruct ND' as [Ng NDA].
  assert (W := weight_set p pc t _ l (upd (prob t) l (Some (nth l pc 0 * nn))) (upd (alias t) l (Some g)) (fun j => (if l =? j then nth l pc 0 * nn else 0) + (if g =? j then 1 - nth l pc 0 * nn else 0)) C (or_introl eq_refl)).
  assert (Hq : 0 <= nth l pc 0 * nn <= 1).
  { set (x := nth l pc 0) in *. assert (Hnn : 0 < nn) by (unfold nn; change 0 with (inject_Z 0); rewrite <- Zlt_Qlt; lia). split; [apply Qmult_le_0_compat; lra|].
    setoid_replace 1 with (avg * nn) by lra. apply Qmult_le_compat_r; lra. }
  constructor; cbn [prob alias]; rewrite ?upd_length; auto.
  - intros i Hi. apply C5. right. exact Hi.
  - intros i Hi. rewrite nth_error_upd_neq by (intros ->; exact (Nl Hi)). apply C6. right. exact Hi.
  - intros i Hi Hn'. destruct (Nat.eq_dec i l) as [->|N].
    + exists (nth l pc 0 * nn), g. rewrite !nth_error_upd_eq by lia. auto.
    + rewrite !nth_error_upd_neq by congruence. apply C7; [exact Hi|]. intros [E|Hi']; [congruence|exact (Hn' Hi')].
  - intros j Hj. rewrite W.
    2:{ intros i k N. unfold chance. cbn [prob alias]. rewrite !nth_error_upd_neq by congruence. reflexivity. }
    2:{ intros k. unfold chance. cbn [prob alias]. rewrite !nth_error_upd_eq by lia. reflexivity. }
    rewrite <- (C8 j Hj). unfold active. fold avg. destruct (Nat.eqb_spec l j) as [<-|Nj].
    + destruct (Nat.eqb_spec g l) as [|_]; [congruence|]. destruct (in_dec Nat.eq_dec l (g :: A)) as [I|_]; [contradiction|]. destruct (in_dec Nat.eq_dec l (l :: g :: A)) as [_|I]; [|exfalso; apply I; left; reflexivity].
      setoid_replace (avg * (nth l pc 0 * nn + 0)) with (nth l pc 0 * (nn * avg)) by ring. rewrite Hna. ring.
    + destruct (Nat.eqb_spec g j) as [<-|Nj'].
      * destruct (in_dec Nat.eq_dec g (g :: A)) as [_|I]; [|exfalso; apply I; left; reflexivity]. destruct (in_dec Nat.eq_dec g (l :: g :: A)) as [_|I]; [|exfalso; apply I; right; left; reflexivity].
        rewrite nth_upd_eq by lia. setoid_replace (avg * (0 + (1 - nth l pc 0 * nn))) with (avg - nth l pc 0 * (nn * avg)) by ring. rewrite Hna. ring.
      * rewrite nth_upd_neq by exact Nj'. destruct (in_dec Nat.eq_dec j (g :: A)) as [I|I], (in_dec Nat.eq_dec j (l :: g :: A)) as [I'|I']; try ring; exfalso.
        -- apply I'. right. exact I.
        -- apply I. destruct I' as [|I']; [congruence|exact I'].
  - cbn [qsum length] in *. rewrite nth_upd_eq by lia. fold avg. rewrite (qsum_ext _ (fun i => nth i pc 0)).
    2:{ intros x Hx. rewrite nth_upd_neq; [reflexivity|]. intros ->. exact (Ng Hx). }
    rewrite (Nat2Z.inj_succ (S _)) in C9. unfold Z.succ in C9. rewrite inject_Z_plus in C9. change (inject_Z 1) with 1 in C9. set (z := inject_Z (Z.of_nat (S (length A)))) in *. lra.
Qed.
Lemma push_ok n s i : (length s < n)%nat -> push n s i = Ok (i :: s).
Proof. intros H. unfold push. destruct (Nat.ltb_spec (length s) n); [reflexivity|lia]. Qed.
Lemma nodup_bound n (l : list nat) : NoDup l -> (forall i, In i l -> (i < n)%nat) -> (length l <= n)%nat.
Proof. intros ND H. rewrite <- (seq_length n 0). apply NoDup_incl_length; [exact ND|]. intros i Hi. apply in_seq. specialize (H i Hi). lia. Qed.
Definition classed (n : nat) (pc : list Q) (small large : list nat) : Prop :=
  (forall i, In i small -> 0 <= nth i pc 0 /\ nth i pc 0 < average n) /\ (forall i, In i large -> average n <= nth i pc 0).
Lemma pair_up_ok p : (0 < length p)%nat -> forall fuel pc t small large, (length small + length large <= fuel)%nat -> core p pc t (small ++ large) -> classed (length p) pc small large ->
  exists t' pc' small' large', pair_up fuel (length p) pc t small large = Ok (t', small', large') /\ core p pc' t' (small' ++ large') /\ classed (length p) pc' small' large' /\ (small' = [] \/ large' = []).
Proof.
  intros Hn. induction fuel as [|fuel IH]; intros pc t small large Hf C [Hs Hl]; (destruct small as [|l small]; [exists t, pc, [], large; split; [reflexivity|]; split; [exact C|]; split; [split; assumption|left; reflexivity]|]);
    (destruct large as [|g large]; [exists t, pc, (l :: small), []; split; [reflexivity|]; split; [exact C|]; split; [split; assumption|right; reflexivity]|]).
  - cbn in Hf. lia.
  - cbn [pair_up]. pose proof C as [C1 C2 C3 C4 C5 C6 C7 C8 C9]. cbn [length] in Hf.
    assert (P : Permutation ((l :: small) ++ g :: large) (l :: g :: small ++ large)) by (cbn [app]; apply perm_skip; symmetry; apply Permutation_middle).
    pose proof (core_perm _ _ _ _ _ P C) as C'. assert (Ll : (l < length p)%nat) by (apply C5; left; reflexivity). assert (Lg : (g < length p)%nat) by (apply C5; apply in_or_app; right; left; reflexivity).
    destruct (Hs l (or_introl eq_refl)) as [Hl0 Hl1]. pose proof (core_step _ _ _ _ _ _ Hn C' Hl0 Hl1) as D.
    rewrite (get_some pc l (nth l pc 0)) by (apply nth_error_nth'; lia). cbn [bind]. rewrite set_ok by lia. cbn [bind]. rewrite set_ok by lia. cbn [bind]. rewrite (get_some pc g (nth g pc 0)) by (apply nth_error_nth'; lia). cbn [bind].
    rewrite set_ok by lia. cbn [bind]. set (pg := nth g pc 0 + nth l pc 0 - average (length p)) in *. set (pc1 := upd pc g pg) in *.
    set (t1 := mkt (upd (prob t) l (Some (nth l pc 0 * inject_Z (Z.of_nat (length p))))) (upd (alias t) l (Some g))) in *.
    pose proof (c_nd _ _ _ _ D) as ND. pose proof (nodup_bound _ _ ND (c_lt _ _ _ _ D)) as B. cbn [length] in B. rewrite app_length in B.
    apply NoDup_cons_iff in ND. destruct ND as [Ng _]. assert (Ev : nth g pc1 0 = pg) by (apply nth_upd_eq; lia).
    assert (Ek : forall i, In i (small ++ large) -> nth i pc1 0 = nth i pc 0) by (intros i Hi; apply nth_upd_neq; intros ->; exact (Ng Hi)).
    assert (Hg0 : 0 <= pg) by (pose proof (Hl g (or_introl eq_refl)); unfold pg; lra).
    assert (Hs1 : forall i, In i small -> 0 <= nth i pc1 0 /\ nth i pc1 0 < average (length p)) by (intros i Hi; rewrite Ek by (apply in_or_app; left; exact Hi); apply Hs; right; exact Hi).
    assert (Hl1' : forall i, In i large -> average (length p) <= nth i pc1 0) by (intros i Hi; rewrite Ek by (apply in_or_app; right; exact Hi); apply Hl; right; exact Hi).
    destruct (Qle_bool (average (length p)) pg) eqn:Eb; rewrite push_ok by lia; cbn [bind].
    + apply (IH pc1 t1 small (g :: large)); [cbn [length]; lia| |].
      * apply (core_perm _ _ _ _ _ (Permutation_middle small large g)). exact D.
      * split; [exact Hs1|]. intros i [<-|Hi]; [rewrite Ev; apply Qle_bool_iff; exact Eb|apply Hl1'; exact Hi].
    + apply (IH pc1 t1 (g :: small) large); [cbn [length]; lia|exact D|].
      split; [|exact Hl1']. intros i [<-|Hi]; [rewrite Ev; split; [exact Hg0|]|apply Hs1; exact Hi]. apply Qnot_le_lt. intros X. apply Qle_bool_iff in X. congruence.
Qed.
Lemma fill_ok n pc0 : forall pc i small large, (forall k, nth k pc 0 = nth (i + k) pc0 0) -> (i + length pc = n)%nat ->
  (forall x, In x pc -> 0 <= x) -> NoDup (small ++ large) -> (forall k, In k (small ++ large) <-> (k < i)%nat) -> classed n pc0 small large ->
  exists small' large', fill n pc i small large = Ok (small', large') /\ NoDup (small' ++ large') /\ (forall k, In k (small' ++ large') <-> (k < n)%nat) /\ classed n pc0 small' large'.
Proof.
  induction pc as [|x pc IH]; intros i small large Hv Hl Hp ND Hk [Hs Hg]; cbn [fill].
  - exists small, large. cbn [length] in Hl. replace n with i by lia. split; [reflexivity|]. split; [exact ND|]. split; [exact Hk|]. replace n with i in * by lia. split; assumption.
  - cbn [length] in Hl. assert (Ex : nth i pc0 0 = x) by (rewrite <- (Nat.add_0_r i), <- Hv; reflexivity).
    assert (Hv' : forall k, nth k pc 0 = nth (S i + k) pc0 0) by (intros k; replace (S i + k)%nat with (i + S k)%nat by lia; rewrite <- Hv; reflexivity).
    assert (Hp' : forall x, In x pc -> 0 <= x) by (intros y Hy; apply Hp; right; exact Hy).
    assert (B : (length (small ++ large) <= i)%nat) by (apply nodup_bound; [exact ND|intros k; apply Hk]). rewrite app_length in B.
    assert (Ni : ~ In i (small ++ large)) by (rewrite Hk; lia).
    destruct (Qle_bool (average n) x) eqn:Eb; rewrite push_ok by lia; cbn [bind]; apply IH; auto; try lia.
    + apply (Permutation_NoDup (Permutation_middle small large i)). constructor; assumption.
    + intros k. rewrite in_app_iff. cbn [In]. specialize (Hk k). rewrite in_app_iff in Hk. split; [intros [H|[H|H]]; [|lia|]; assert (k < i)%nat by (apply Hk; auto); lia|]. intros H. destruct (Nat.eq_dec k i) as [->|]; [auto|]. destruct Hk as [_ Hk]. destruct Hk as [H1|H1]; [lia|auto..].
    + split; [exact Hs|]. intros k [<-|Hk']; [rewrite Ex; apply Qle_bool_iff; exact Eb|apply Hg; exact Hk'].
    + cbn [app]. constructor; assumption.
    + intros k. cbn [app In]. rewrite Hk. lia.
    + split; [|exact Hg]. intros k [<-|Hk']; [|apply Hs; exact Hk']. rewrite Ex. split; [apply Hp; left; reflexivity|]. apply Qnot_le_lt. intros X. apply Qle_bool_iff in X. congruence.
Qed.
(* setting the remaining columns to 1 *)
Lemma ones_ok p pc t : (0 < length p)%nat -> forall A, core p pc t A -> (forall i, In i A -> nth i pc 0 == average (length p)) ->
  exists pr, ones (prob t) A = Ok pr /\ length pr = length p /\ (forall j, (j < length p)%nat -> weight (mkt pr (alias t)) (length p) j == nth j p 0) /\
  (forall i, (i < length p)%nat -> exists q, nth_error pr i = Some (Some q) /\ 0 <= q <= 1 /\ (q == 1 \/ exists g, nth_error (alias t) i = Some (Some g) /\ (g < length p)%nat)).
Proof.
  intros Hn A. assert (G : forall A pr D, length pr = length p -> NoDup A -> (forall i, In i A -> (i < length p)%nat) -> (forall i, In i A -> nth_error pr i = Some None) -> (forall i, In i A -> In i D) ->
    (forall j, (j < length p)%nat -> weight (mkt pr (alias t)) (length p) j + (if in_dec Nat.eq_dec j A then average (length p) else 0) == nth j p 0) ->
    (forall i, (i < length p)%nat -> ~ In i A -> exists q, nth_error pr i = Some (Some q) /\ 0 <= q <= 1 /\ (q == 1 \/ exists g, nth_error (alias t) i = Some (Some g) /\ (g < length p)%nat)) ->
    exists pr', ones pr A = Ok pr' /\ length pr' = length p /\ (forall j, (j < length p)%nat -> weight (mkt pr' (alias t)) (length p) j == nth j p 0) /\
    (forall i, (i < length p)%nat -> exists q, nth_error pr' i = Some (Some q) /\ 0 <= q <= 1 /\ (q == 1 \/ exists g, nth_error (alias t) i = Some (Some g) /\ (g < length p)%nat))).
  { clear A. induction A as [|a A IH]; intros pr D Lp ND Hlt Hnone HD Hw Hd; cbn [ones].
    - exists pr. split; [reflexivity|]. split; [exact Lp|]. split; [|intros i Hi; apply Hd; auto]. intros j Hj. rewrite <- (Hw j Hj). cbn. lra.
    - assert (La : (a < length p)%nat) by (apply Hlt; left; reflexivity). rewrite set_ok by lia. cbn [bind]. apply NoDup_cons_iff in ND. destruct ND as [Na ND]. apply (IH _ D).
      + rewrite upd_length. exact Lp.
      + exact ND.
      + intros i Hi. apply Hlt. right. exact Hi.
      + intros i Hi. rewrite nth_error_upd_neq by (intros ->; exact (Na Hi)). apply Hnone. right. exact Hi.
      + intros i Hi. apply HD. right. exact Hi.
      + intros j Hj. rewrite <- (Hw j Hj). unfold weight. rewrite (qsum_change _ (fun c => average (length p) * chance (mkt pr (alias t)) c j) _ a).
        2: apply seq_NoDup.
        2: apply in_seq; lia.
        2:{ intros x _ Hx. unfold chance. cbn [prob alias]. rewrite nth_error_upd_neq by congruence. reflexivity. }
        assert (E0 : chance (mkt pr (alias t)) a j = 0) by (unfold chance; cbn [prob]; rewrite (Hnone a (or_introl eq_refl)); reflexivity).
        assert (E1 : chance (mkt (upd pr a (Some 1)) (alias t)) a j == if a =? j then 1 else 0).
        { unfold chance. cbn [prob alias]. rewrite nth_error_upd_eq by lia. destruct (nth_error (alias t) a) as [[g|]|]; [destruct (g =? j)|..]; lra. }
        rewrite E0, E1. destruct (Nat.eqb_spec a j) as [<-|N].
        * destruct (in_dec Nat.eq_dec a A) as [I|_]; [contradiction|]. destruct (in_dec Nat.eq_dec a (a :: A)) as [_|I]; [lra|exfalso; apply I; left; reflexivity].
        * destruct (in_dec Nat.eq_dec j A) as [I|I], (in_dec Nat.eq_dec j (a :: A)) as [I'|I']; try lra; exfalso; [apply I'; right; exact I|destruct I' as [|I']; [congruence|contradiction]].
      + intros i Hi Hn'. destruct (Nat.eq_dec i a) as [->|N].
        * exists 1. rewrite nth_error_upd_eq by lia. split; [reflexivity|]. split; [lra|]. left. reflexivity.
        * rewrite nth_error_upd_neq by congruence. apply Hd; [exact Hi|]. intros [->|Hi']; [congruence|contradiction]. }
  intros C E. apply (G A (prob t) A).
  - apply (c_pr _ _ _ _ C).
  - apply (c_nd _ _ _ _ C).
  - apply (c_lt _ _ _ _ C).
  - apply (c_act _ _ _ _ C).
  - auto.
  - intros j Hj. rewrite <- (c_w _ _ _ _ C j Hj). destruct t as [pr al]. cbn [prob alias]. unfold active. destruct (in_dec Nat.eq_dec j A) as [I|I]; [rewrite (E j I)|]; reflexivity.
  - intros i Hi Hn'. destruct (c_done _ _ _ _ C i Hi Hn') as (q & g & E1 & E2 & E3 & E4). exists q. split; [exact E1|]. split; [exact E2|]. right. exists g. auto.
Qed.
(* C53: for every distribution p the constructor finishes within its arrays; column c keeps itself with a stored
   probability in [0, 1], has a valid alias whenever that probability is below 1, and every index j has total weight
   exactly p[j].  Get, for every draw c < count and u in [0, 1], returns c or its alias accordingly, a valid index. *)
Theorem C53_AliasTable : forall p, distribution p -> exists t, construct p = Ok t /\
  (forall j, (j < length p)%nat -> weight t (length p) j == nth j p 0) /\
  (forall c, (c < length p)%nat -> exists q, nth_error (prob t) c = Some (Some q) /\ 0 <= q <= 1 /\
     (forall u, 0 <= u <= 1 -> u <= q -> Get t c u = Ok c) /\
     (q < 1 -> exists a, nth_error (alias t) c = Some (Some a) /\ (a < length p)%nat /\ forall u, 0 <= u <= 1 -> q < u -> Get t c u = Ok a)).
Proof.
  intros p [Hp Hs]. assert (Hn : (0 < length p)%nat) by (destruct p; [cbn in Hs; discriminate|cbn; lia]). unfold construct. destruct (Nat.eqb_spec (length p) 0) as [|_]; [lia|].
  destruct (avg_pos _ Hn) as [Ha Hna].
  destruct (fill_ok (length p) p p 0 [] []) as (small & large & Ef & ND & Hin & Hcl); auto; [constructor|intros k; cbn; lia|split; intros i []|].
  rewrite Ef. cbn [bind].
  assert (C : core p p (mkt (repeat None (length p)) (repeat None (length p))) (small ++ large)).
  { assert (P : Permutation (small ++ large) (seq 0 (length p))) by (apply NoDup_Permutation; [exact ND|apply seq_NoDup|intros k; rewrite Hin, in_seq; lia]).
    constructor; cbn [prob alias]; rewrite ?repeat_length; auto.
    - intros i Hi. apply Hin. exact Hi.
    - intros i Hi. apply nth_error_repeat. apply Hin. exact Hi.
    - intros i Hi Hn'. exfalso. apply Hn'. apply Hin. exact Hi.
    - intros j Hj. unfold active. destruct (in_dec Nat.eq_dec j (small ++ large)) as [_|I]; [|exfalso; apply I, Hin; exact Hj].
      assert (Z : weight (mkt (repeat None (length p)) (repeat None (length p))) (length p) j == 0); [|lra].
      unfold weight. rewrite (qsum_ext _ (fun _ => 0)); [generalize (seq 0 (length p)); induction l; cbn [qsum]; lra|].
      intros c Hc. apply in_seq in Hc. unfold chance. cbn [prob]. rewrite nth_error_repeat by lia. lra.
    - rewrite (qsum_perm _ _ _ P), (Permutation_length P), seq_length, Hna, <- Hs, <- (qsum_nth p 0). apply qsum_ext. intros i _. rewrite Nat.sub_0_r. reflexivity. }
  assert (Lf : (length small + length large <= length p)%nat) by (rewrite <- app_length; apply nodup_bound; [exact ND|intros i; apply Hin]).
  destruct (pair_up_ok p Hn (length p) p _ small large Lf C Hcl) as (t & pc & sm & lg & Ep & C' & [Hs' Hl'] & Hend).
  rewrite Ep. cbn [bind].
  assert (Esm : sm = []).
  { destruct Hend as [E|E]; [exact E|]. subst lg. rewrite app_nil_r in C'. apply (qsum_const_lt (fun i => nth i pc 0) (average (length p))); [apply Hs'|apply (c_sum _ _ _ _ C')]. }
  subst sm. cbn [app] in C'. destruct (ones_ok p pc t Hn lg C') as (pr & Eo & Lp & Hw & Hc).
  { apply (qsum_const_eq (fun i => nth i pc 0)); [exact Hl'|apply (c_sum _ _ _ _ C')]. }
  rewrite Eo. cbn [bind ones]. eexists. split; [reflexivity|]. split; [exact Hw|]. intros c Lc. destruct (Hc c Lc) as (q & Eq & Hq & Hor). exists q. cbn [prob alias].
  split; [exact Eq|]. split; [exact Hq|]. split.
  - intros u _ Hu. unfold Get. cbn [prob alias]. rewrite (get_some _ _ _ Eq). cbn [bind]. apply Qle_bool_iff in Hu. rewrite Hu. cbn [bind]. rewrite Lp. destruct (Nat.ltb_spec c (length p)); [reflexivity|lia].
  - intros Hq1. destruct Hor as [E1|(g & Eg & Lg)]; [lra|]. exists g. split; [exact Eg|]. split; [exact Lg|]. intros u _ Hu. unfold Get. cbn [prob alias]. rewrite (get_some _ _ _ Eq). cbn [bind].
    destruct (Qle_bool u q) eqn:Eb; [apply Qle_bool_iff in Eb; lra|]. rewrite (get_some _ _ _ Eg). cbn [bind]. rewrite Lp. destruct (Nat.ltb_spec g (length p)); [reflexivity|lia].
Qed.
Print Assumptions C53_AliasTable.
Example C53_example : distribution [1#2; 1#8; 3#8; 0] /\ exists t, construct [1#2; 1#8; 3#8; 0] = Ok t /\
  alias t = [None; Some 0%nat; Some 0%nat; Some 2%nat] /\ weight t 4 0 == 1#2 /\ weight t 4 1 == 1#8.
Proof.
  split; [split; [intros x Hx; repeat (destruct Hx as [<-|Hx]; [discriminate|]); destruct Hx|vm_compute; reflexivity]|].
  eexists. split; [vm_compute; reflexivity|]. repeat split; vm_compute; reflexivity.
Qed.
