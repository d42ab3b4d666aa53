(* Properties C111 to C114: smooth tracks, intervals, and the length of an animation. *)
From Coq Require Import ZArith List Bool Sorted Permutation Lia Reals Lra.
From Coq Require Import ZifyBool ZifyNat.
From Verif Require Import Common OrderSpec OrderProofs ArraySort ArraySortProofs Heap HeapSpec HeapProofs HeapOpsProofs Animation AnimationSpec AnimationSpec2 AnimationProofs AnimationProps.
Import ListNotations.
Local Open Scope Z_scope.

(* ================= C111 ================= *)
Section Smooth.
Context {V : Type}.
Implicit Types fs : list (frame V).

(* the last frame up to t splits the list *)
Lemma split_at (t : Z) fs : in_order fs -> exists p q, fs = p ++ q /\ length p = le_count t fs /\ p = filter (fun f => ftime f <=? t) fs /\
  (forall f, In f p -> ftime f <= t) /\ (forall f, In f q -> t < ftime f).
Proof.
  intros O. exists (firstn (le_count t fs) fs), (skipn (le_count t fs) fs). split; [now rewrite firstn_skipn|].
  rewrite skip_le by auto.
  assert (E : firstn (le_count t fs) fs = filter (fun f => ftime f <=? t) fs).
  { clear -O. induction fs as [|f fs IH]; auto. apply in_order_cons in O as [O1 O2]. unfold le_count in *. cbn.
    destruct (ftime f <=? t) eqn:E; cbn; [f_equal; auto|]. rewrite filter_none; auto. intros x Hx. specialize (O2 x Hx). lia. }
  rewrite E. split; auto. split; auto. split; intros f Hf; apply filter_In in Hf as [_ Hf]; lia.
Qed.
Lemma get_mid (p : list (frame V)) f q : get (p ++ f :: q) (length p) = Ok f.
Proof. unfold get. rewrite nth_error_app2 by lia. now rewrite Nat.sub_diag. Qed.
Lemma shown_curve mix init fs t : in_order fs -> (2 <= length fs)%nat ->
  exists v, shown fs (LerpInterpolate mix) init t = [SetTo v] /\ curve mix init fs t v.
Proof.
  intros O L. unfold shown. cbn [track_interpolate].
  pose proof (advance_seen fs (Some t) t O ltac:(intros u Hu; inversion Hu; lia)) as E. cbn [pos] in E. rewrite E. clear E.
  destruct (split_at t fs O) as (p & q & Efs & Lp & _ & Hp & Hq).
  destruct q as [|g q].
  - rewrite app_nil_r in Efs. subst p. replace (length fs <=? le_count t fs)%nat with true by lia. replace (1 <? length fs)%nat with true by lia.
    destruct (exists_last (l := fs) ltac:(destruct fs; [cbn in L; lia|discriminate])) as (p1 & g & E1).
    destruct (exists_last (l := p1) ltac:(subst fs; destruct p1; [cbn in L; lia|discriminate])) as (p2 & f & E2).
    assert (Ef : fs = p2 ++ [f; g]) by (subst; now rewrite <- app_assoc).
    unfold LerpInterpolate. replace (length fs - 1)%nat with (S (length p2)) by (subst; rewrite !app_length; cbn; lia).
    assert (G1 : get fs (length p2) = Ok f) by (rewrite Ef; apply get_mid).
    assert (G2 : get fs (S (length p2)) = Ok g) by (rewrite E1, E2; replace (S (length p2)) with (length (p2 ++ [f])) by (rewrite app_length; cbn; lia); apply get_mid).
    rewrite G1, G2. cbn. eexists. split; [reflexivity|]. eapply curve_after; eauto. apply Hp. subst; apply in_or_app; right; now left.
  - assert (Lf : length fs = (length p + S (length q))%nat) by (subst; rewrite app_length; cbn; lia).
    replace (length fs <=? le_count t fs)%nat with false by lia. rewrite <- Lp.
    assert (G : get fs (length p) = Ok g) by (rewrite Efs; apply get_mid). rewrite G.
    assert (Dp : p = [] \/ exists p1 f, p = p1 ++ [f]) by (destruct p as [|f0 p0]; [now left|right]; destruct (exists_last (l := f0 :: p0)) as (p1 & f & E1); [discriminate|eauto]).
    destruct Dp as [->|(p1 & f & ->)].
    + cbn [length Nat.eqb bind]. unfold LerpInterpolate. cbn [length] in G. cbn [bind]. rewrite G. cbn [bind]. eexists. split; [reflexivity|].
      rewrite !Z.sub_0_r. eapply curve_before; [exact Efs|]. apply Hq. now left.
    + rewrite app_length in *. cbn [length] in *. rewrite Nat.add_1_r in *. cbn [Nat.eqb]. rewrite Nat.sub_succ, Nat.sub_0_r.
      assert (G1 : get fs (length p1) = Ok f) by (rewrite Efs, <- app_assoc; apply get_mid). rewrite G1. cbn [bind].
      unfold LerpInterpolate. rewrite G1. cbn [bind]. rewrite G. cbn [bind]. eexists. split; [reflexivity|].
      eapply curve_between. { rewrite Efs, <- app_assoc. reflexivity. }
      split; [apply Hp; apply in_or_app; right; now left|apply Hq; now left].
Qed.
Lemma shows_curve mix init fs acts : in_order fs -> (2 <= length fs)%nat ->
  exists vs, shows fs (LerpInterpolate mix) init acts = map SetTo vs /\ Forall2 (curve mix init fs) (moments acts) vs.
Proof.
  intros O L. induction acts as [|[t|] acts (vs & E & F)]; cbn.
  - exists []. auto.
  - destruct (shown_curve mix init fs t O L) as (v & Ev & Cv). exists (v :: vs). rewrite Ev, E. cbn. auto.
  - exists vs. auto.
Qed.
(* with one frame, the way to the frame is shown, and nothing once it is passed; without frames nothing *)
Lemma shown_one mix init (f : frame V) t :
  shown [f] (LerpInterpolate mix) init t = if t <? ftime f then [SetTo (mix init (fvalue f) t (ftime f))] else [].
Proof.
  unfold shown. cbn [track_interpolate]. unfold le_count. cbn [filter].
  destruct (Z.leb_spec (ftime f) t); cbn; [now replace (t <? ftime f) with false by lia|].
  replace (t <? ftime f) with true by lia. replace (ftime f <=? t) with false by lia. cbn. now rewrite !Z.sub_0_r.
Qed.

Lemma smooth_events (trs : list (track V)) len loop ops :
  Forall playable trs -> loops_inside len loop -> forward ops ->
  exists s ev, run len loop (St trs 0 0) ops = Ok (s, ev) /\
    forall j fs f init, nth_error trs j = Some (Smooth fs f init 0) -> in_order fs /\ events_of j ev = shows fs f init (snd (clocks len loop 0 ops)).
Proof.
  intros HP HL HF. destruct (run_playable trs len loop ops HP HL HF) as (s & ev & E & I & T & A).
  exists s, ev. split; auto. intros j fs f init Hj. destruct A as (_ & _ & A). destruct (A j _ Hj) as (tr' & _ & K).
  assert (O : in_order fs). { rewrite Forall_forall in HP. apply nth_error_In in Hj. apply (HP _ Hj). }
  split; auto. eapply (smooth_acts fs f init O); [apply monotone_ops; auto|exact K].
Qed.
(* at every moment shown, a smooth track sets the value of the curve at this moment *)
Theorem C111_Animation_smooth (trs : list (track V)) len loop ops :
  Forall playable trs -> loops_inside len loop -> forward ops ->
  exists s ev, run len loop (St trs 0 0) ops = Ok (s, ev) /\
    forall j fs mix init, nth_error trs j = Some (Smooth fs (LerpInterpolate mix) init 0) ->
      ((2 <= length fs)%nat -> exists vs, events_of j ev = map SetTo vs /\ Forall2 (curve mix init fs) (moments (snd (clocks len loop 0 ops))) vs) /\
      (forall f, fs = [f] -> events_of j ev = map (fun t => SetTo (mix init (fvalue f) t (ftime f))) (filter (fun t => t <? ftime f) (moments (snd (clocks len loop 0 ops))))) /\
      (fs = [] -> events_of j ev = []).
Proof.
  intros HP HL HF. destruct (smooth_events trs len loop ops HP HL HF) as (s & ev & E & S). exists s, ev. split; auto.
  intros j fs mix init Hj. destruct (S _ _ _ _ Hj) as [O Ev]. rewrite Ev. clear -O. split; [|split].
  - intros L. now apply shows_curve.
  - intros f ->. induction (snd (clocks len loop 0 ops)) as [|[t|] a IH]; cbn; auto. rewrite shown_one, IH. now destruct (t <? ftime f).
  - intros ->. induction (snd (clocks len loop 0 ops)) as [|[t|] a IH]; cbn; auto.
Qed.

(* without interpolation, the value of the last frame up to the moment is set *)
Lemma filter_count t fs : in_order fs -> filter (fun f => ftime f <=? t) fs = firstn (le_count t fs) fs.
Proof.
  intros O. destruct (split_at t fs O) as (p & q & E & L & P & _). rewrite <- P, <- L. rewrite E. rewrite firstn_app, Nat.sub_diag, firstn_all, app_nil_r. reflexivity.
Qed.
Lemma shown_latest init fs t : in_order fs -> (2 <= length fs)%nat -> shown fs NoInterpolate init t = [SetTo (latest init fs t)].
Proof.
  intros O L. unfold shown. cbn [track_interpolate].
  pose proof (advance_seen fs (Some t) t O ltac:(intros u Hu; inversion Hu; lia)) as E. cbn [pos] in E. rewrite E. clear E.
  destruct (split_at t fs O) as (p & q & Efs & Lp & Fp & Hp & Hq). unfold latest. rewrite <- Fp.
  assert (Dp : p = [] \/ exists p1 f, p = p1 ++ [f]) by (destruct p as [|f0 p0]; [now left|right]; destruct (exists_last (l := f0 :: p0)) as (p1 & f & E1); [discriminate|eauto]).
  assert (Lst : forall p1 f, p = p1 ++ [f] -> last (map fvalue p) init = fvalue f) by (intros p1 f ->; rewrite map_app; apply last_last).
  destruct q as [|g q].
  - rewrite app_nil_r in Efs. subst p. replace (length fs <=? le_count t fs)%nat with true by lia. replace (1 <? length fs)%nat with true by lia.
    destruct Dp as [->|(p1 & f & Ef)]; [cbn in L; lia|].
    unfold NoInterpolate. cbn [Z.eqb Pos.eqb]. replace (length fs - 1)%nat with (length p1) by (rewrite Ef, app_length; cbn; lia).
    rewrite (Lst _ _ Ef). assert (G : get fs (length p1) = Ok f) by (rewrite Ef; apply get_mid). rewrite G. reflexivity.
  - assert (Lf : length fs = (length p + S (length q))%nat) by (subst; rewrite app_length; cbn; lia).
    replace (length fs <=? le_count t fs)%nat with false by lia. rewrite <- Lp.
    assert (G : get fs (length p) = Ok g) by (rewrite Efs; apply get_mid). rewrite G.
    assert (Hg : t < ftime g) by (apply Hq; now left).
    destruct Dp as [->|(p1 & f & Ef)].
    + cbn [length Nat.eqb bind]. unfold NoInterpolate. rewrite !Z.sub_0_r. replace (t =? ftime g) with false by lia. reflexivity.
    + rewrite (Lst _ _ Ef). replace (length p) with (S (length p1)) by (rewrite Ef, app_length; cbn; lia). cbn [Nat.eqb]. rewrite Nat.sub_succ, Nat.sub_0_r.
      assert (G1 : get fs (length p1) = Ok f) by (rewrite Efs, Ef, <- app_assoc; apply get_mid). rewrite G1. cbn [bind].
      unfold NoInterpolate. replace (t - ftime f =? ftime g - ftime f) with false by lia. rewrite G1. reflexivity.
Qed.
Theorem C111_Animation_steps (trs : list (track V)) len loop ops :
  Forall playable trs -> loops_inside len loop -> forward ops ->
  exists s ev, run len loop (St trs 0 0) ops = Ok (s, ev) /\
    forall j fs init, nth_error trs j = Some (Smooth fs NoInterpolate init 0) -> (2 <= length fs)%nat ->
      events_of j ev = map (fun t => SetTo (latest init fs t)) (moments (snd (clocks len loop 0 ops))).
Proof.
  intros HP HL HF. destruct (smooth_events trs len loop ops HP HL HF) as (s & ev & E & S). exists s, ev. split; auto.
  intros j fs init Hj L. destruct (S _ _ _ _ Hj) as [O Ev]. rewrite Ev. clear -O L.
  induction (snd (clocks len loop 0 ops)) as [|[t|] a IH]; cbn; auto. rewrite shown_latest, IH by auto. reflexivity.
Qed.
End Smooth.

(* on straight lines: between two frames the value is between theirs, at the moment of a frame it is the value of the
   frame (of the last one at this moment), and from the last frame on it is the value of that *)
Lemma line_part a b n d : 0 <= n -> n < d -> (Rmin a b <= line a b n d <= Rmax a b)%R.
Proof.
  intros H1 H2. unfold line. apply IZR_le in H1. apply IZR_lt in H2. set (x := (IZR n / IZR d)%R).
  assert (X : (0 <= x <= 1)%R).
  { unfold x. split; [apply Rmult_le_pos; [lra|left; apply Rinv_0_lt_compat; lra]|].
    apply (Rmult_le_reg_r (IZR d)); [lra|]. unfold Rdiv. rewrite Rmult_assoc, Rinv_l by lra. lra. }
  unfold Rmin, Rmax. destruct (Rle_dec a b); nra.
Qed.
Theorem C111_Animation_line init (fs : list (frame R)) t v : in_order fs -> curve line init fs t v ->
  (forall p f g r, fs = p ++ f :: g :: r -> ftime f <= t < ftime g -> (Rmin (fvalue f) (fvalue g) <= v <= Rmax (fvalue f) (fvalue g))%R) /\
  (forall p f r, fs = p ++ f :: r -> t = ftime f -> (forall g, In g r -> t < ftime g) -> v = fvalue f) /\
  (forall p f, fs = p ++ [f] -> ftime f <= t -> v = fvalue f).
Proof.
  intros O H.
  (* the last frame up to t, and what is after it, are determined *)
  assert (U : forall p f r p' f' r', fs = p ++ f :: r -> fs = p' ++ f' :: r' -> ftime f <= t -> ftime f' <= t ->
    (forall g, In g r -> t < ftime g) -> (forall g, In g r' -> t < ftime g) -> f = f' /\ r = r').
  { intros p f r p' f' r' E E' Hf Hf' Hr Hr'. rewrite E in E'. clear -E' Hf Hf' Hr Hr'. revert p' E'.
    induction p as [|a p IH]; intros [|a' p'] E; cbn in E; inversion E; subst; eauto.
    - exfalso. specialize (Hr f' ltac:(apply in_or_app; right; now left)). lia.
    - exfalso. specialize (Hr' f ltac:(apply in_or_app; right; now left)). lia. }
  assert (LT : forall p g r, fs = p ++ g :: r -> t < ftime g -> forall x, In x (g :: r) -> t < ftime x).
  { intros p g r E Hg. rewrite E in O. clear -O Hg. induction p as [|a p IH]; cbn in O.
    - apply in_order_cons in O as [_ O]. intros x [->|Hx]; auto. specialize (O x Hx). lia.
    - apply in_order_cons in O as [O _]. auto. }
  assert (LE : forall p g r, fs = p ++ g :: r -> forall x, In x p -> ftime x <= ftime g).
  { intros p g r E. rewrite E in O. clear -O. induction p as [|a p IH]; cbn in O; [intros x []|].
    apply in_order_cons in O as [O1 O2]. intros x [<-|Hx]; auto. apply O2. apply in_or_app; right; now left. }
  destruct H as [f r E Ht|p f g r E Ht|p f g E Ht].
  - assert (Q : forall x, In x fs -> t < ftime x) by (rewrite E; apply (LT [] f r); auto).
    split; [|split].
    + intros p f' g r' E' Hf'. specialize (Q f' ltac:(rewrite E'; apply in_or_app; right; now left)). lia.
    + intros p f' r' E' Hf' _. specialize (Q f' ltac:(rewrite E'; apply in_or_app; right; now left)). lia.
    + intros p f' E' Hf'. specialize (Q f' ltac:(rewrite E'; apply in_or_app; right; now left)). lia.
  - assert (Hr : forall x, In x (g :: r) -> t < ftime x) by (apply (LT (p ++ [f])); [rewrite <- app_assoc; auto|lia]).
    split; [|split].
    + intros p' f' g' r' E' Hf'.
      assert (Hr' : forall x, In x (g' :: r') -> t < ftime x) by (apply (LT (p' ++ [f'])); [rewrite <- app_assoc; auto|lia]).
      destruct (U _ _ _ _ _ _ E E') as [-> Eq]; try lia; auto. inversion Eq; subst g' r'. apply line_part; lia.
    + intros p' f' r' E' Hf' Hr'. destruct (U _ _ _ _ _ _ E E') as [-> Eq]; try lia; auto. rewrite Hf', Z.sub_diag. unfold line, Rdiv. rewrite Rmult_0_l. lra.
    + intros p' f' E' Hf'. destruct (U _ _ _ _ _ _ E E') as [-> Eq]; try lia; auto; [intros ? []|discriminate].
  - assert (V : line (fvalue f) (fvalue g) 1 1 = fvalue g) by (unfold line; lra).
    assert (E1 : fs = (p ++ [f]) ++ [g]) by (rewrite <- app_assoc; auto).
    split; [|split].
    + intros p' f' g' r' E' Hf'. exfalso.
      assert (Hg : In g' fs) by (rewrite E'; apply in_or_app; right; right; now left).
      rewrite E1 in Hg. apply in_app_or in Hg as [Hg|[<-|[]]]; [|lia]. specialize (LE _ _ _ E1 _ Hg). lia.
    + intros p' f' r' E' Hf' Hr'. rewrite V. destruct (U _ _ _ _ _ _ E1 E') as [-> Eq]; try lia; auto. intros ? [].
    + intros p' f' E' Hf'. rewrite V. destruct (U _ _ _ _ _ _ E1 E') as [-> Eq]; try lia; auto; intros ? [].
Qed.

(* ================= C112, C113 ================= *)
Section Intervals.
Context {V : Type}.
Implicit Types (fs : list (frame V)) (e : list (event V)).

Lemma existsb_in h (l : list nat) : existsb (Nat.eqb h) l = true <-> In h l.
Proof. rewrite existsb_exists. split; [intros (x & Hx & E); apply Nat.eqb_eq in E; now subst|intros H; exists h; split; auto; apply Nat.eqb_refl]. Qed.
Lemma existsb_notin h (l : list nat) : ~ In h l -> existsb (Nat.eqb h) l = false.
Proof. intros H. destruct (existsb (Nat.eqb h) l) eqn:E; auto. apply existsb_in in E. contradiction. Qed.
Lemma remove_one_perm h (l : list nat) : In h l -> Permutation l (h :: remove_one h l).
Proof.
  induction l as [|x l IH]; intros H; [destruct H|]. cbn. destruct (Nat.eqb_spec h x); [subst; auto|].
  destruct H as [->|H]; [congruence|]. rewrite (IH H) at 1. constructor.
Qed.
Lemma active_app open e e' : active open (e ++ e') = match active open e with Some o => active o e' | None => None end.
Proof.
  revert open. induction e as [|[v|v|v h|h] e IH]; intros open; cbn; auto.
  - destruct (existsb (Nat.eqb h) open); auto.
  - destruct (existsb (Nat.eqb h) open); auto.
Qed.
Lemma begun_app e e' : begun (e ++ e') = begun e ++ begun e'.
Proof. induction e as [|[v|v|v h|h] e IH]; cbn; auto. now rewrite IH. Qed.
Definition begins (p : list (frame V)) (h : nat) : list (event V) := map (fun x => Begin (fvalue (fst x)) (snd x)) (combine p (seq h (length p))).
Definition finishes (out : list (Z * nat)) : list (event V) := map (fun x => Finish (snd x)) out.
Lemma active_begins p : forall h open, Forall (fun x => (x < h)%nat) open -> active open (begins p h) = Some (rev (seq h (length p)) ++ open).
Proof.
  induction p as [|f p IH]; intros h open F; auto. unfold begins in *. cbn [length seq combine map active fst snd].
  rewrite existsb_notin. 2:{ intros Hh. rewrite Forall_forall in F. specialize (F h Hh). lia. }
  rewrite IH. { cbn [rev]. now rewrite <- app_assoc. }
  constructor; [lia|]. eapply Forall_impl; [|exact F]. cbn. lia.
Qed.
Lemma active_finishes out : forall open rest, Permutation open (map snd out ++ rest) -> exists o, active open (finishes out) = Some o /\ Permutation o rest.
Proof.
  induction out as [|[d h] out IH]; intros open rest P; cbn in *; [eauto|].
  assert (Hh : In h open) by (rewrite P; now left).
  replace (existsb (Nat.eqb h) open) with true by (symmetry; now apply existsb_in).
  apply IH. apply (Permutation_cons_inv (a := h)). rewrite <- P. symmetry. now apply remove_one_perm.
Qed.
Lemma begun_begins p : forall h, begun (begins p h) = combine (map fvalue p) (seq h (length p)).
Proof. induction p as [|f p IH]; intros h; auto. unfold begins in *. cbn. now rewrite IH. Qed.
Lemma begun_finishes out : begun (finishes out) = [].
Proof. induction out; auto. Qed.
Lemma map_fst_combine {A B} (l : list A) (l' : list B) : length l = length l' -> map fst (combine l l') = l.
Proof. revert l'. induction l; intros [|b l'] H; cbn in *; try lia; auto. f_equal. apply IHl. lia. Qed.
Lemma map_snd_combine {A B} (l : list A) (l' : list B) : length l = length l' -> map snd (combine l l') = l'.
Proof. revert l'. induction l; intros [|b l'] H; cbn in *; try lia; auto. f_equal. apply IHl. lia. Qed.
Lemma combine_app {A B} (a a' : list A) (b b' : list B) : length a = length b -> combine (a ++ a') (b ++ b') = combine a b ++ combine a' b'.
Proof. revert b. induction a; intros [|y b] H; cbn in *; try lia; auto. f_equal. apply IHa. lia. Qed.

Lemma in_combine_some {A B} (l : list A) (l' : list B) x : length l = length l' -> In x l -> exists y, In (x, y) (combine l l').
Proof. revert l'. induction l; intros [|b l'] H Hx; cbn in *; try lia. destruct Hx as [->|Hx]; [eauto|]. destruct (IHl l' ltac:(lia) Hx) as [y Hy]. eauto. Qed.
(* the root is the largest: when one element is beyond t, nothing is popped *)
Lemma pop_all_none fuel q t : heap_ordered cmp_first q -> (exists x, In x q /\ t < fst x) -> @pop_all V (S fuel) q (Some t) = Ok (q, []).
Proof.
  intros H (x & Hx & Ht). cbn. destruct q as [|top q]; auto.
  destruct (root_is_max cmp_first cmp_first_tp (0, O) (top :: q) H ltac:(discriminate)) as (r0 & R0 & M0). cbn in R0. inversion R0; subst r0.
  destruct M0 as [_ M0]. specialize (M0 x Hx). unfold cmp_first in M0.
  replace (fst top <=? t) with false; auto. destruct (Z.ltb_spec (fst x) (fst top)), (Z.ltb_spec (fst top) (fst x)); lia.
Qed.

(* what is known of an interval track: the queue, the open handles, and the frames of all handles handed out *)
Record known (h : nat) (q : list (Z * nat)) (open : list nat) (B : list (nat * frame V)) : Prop := {
  k_heap : heap_ordered cmp_first q;
  k_open : Permutation (map snd q) open;
  k_nodup : NoDup open;
  k_below : Forall (fun x => (x < h)%nat) open;
  k_names : NoDup (map fst B);
  k_old : Forall (fun x => (x < h)%nat) (map fst B);
  k_data : forall x, In x q -> exists f, In (snd x, f) B /\ fdata f = fst x
}.
Lemma known_weaken h h' q open B : (h <= h')%nat -> known h q open B -> known h' q open B.
Proof. intros L []. constructor; auto; eapply Forall_impl; eauto; cbn; lia. Qed.
Lemma known_perm h q open open' B : Permutation open open' -> known h q open B -> known h q open' B.
Proof.
  intros P []. constructor; auto; [now rewrite <- P|now rewrite <- P|now rewrite <- P].
Qed.
Lemma forall_seq_below h n (l : list nat) : Forall (fun x => (x < h)%nat) l -> Forall (fun x => (x < h + n)%nat) (seq h n ++ l).
Proof.
  intros F. apply Forall_app. split.
  - rewrite Forall_forall. intros x Hx. apply in_seq in Hx. lia.
  - eapply Forall_impl; [|exact F]. cbn. lia.
Qed.
Lemma nodup_seq_app h n (l : list nat) : Forall (fun x => (x < h)%nat) l -> NoDup l -> NoDup (seq h n ++ l).
Proof.
  revert h. induction n as [|n IH]; intros h F N; cbn; auto. constructor.
  - rewrite in_app_iff, in_seq. intros [H|H]; [lia|]. rewrite Forall_forall in F. specialize (F h H). lia.
  - apply IH; auto. eapply Forall_impl; [|exact F]. cbn. lia.
Qed.

Lemma interval_step fs seen q open B h t tr1 h1 e :
  in_order fs -> (forall u, seen = Some u -> u <= t) -> known h q open B ->
  track_interpolate t (Interval fs (pos seen fs) q) h = Ok (tr1, h1, e) ->
  let p := filter (due seen t) fs in
  let B' := B ++ combine (seq h (length p)) p in
  exists q' out open', tr1 = Interval fs (pos (Some t) fs) q' /\ e = begins p h ++ finishes out /\ h1 = (h + length p)%nat /\
    active open e = Some open' /\ known h1 q' open' B' /\
    known h1 q' open' B' /\
    ((forall hd f, In hd (rev (seq h (length p)) ++ open) -> In (hd, f) B' -> fdata f <= t) -> open' = []) /\
    ((exists hd f, In hd (rev (seq h (length p)) ++ open) /\ In (hd, f) B' /\ t < fdata f) -> out = []).
Proof.
  intros O Hs K E p B'. cbn [track_interpolate] in E. rewrite advance_seen in E by auto. fold p in E.
  destruct (add_all_ok p q h (k_heap _ _ _ _ K)) as (q1 & E1 & Q1 & P1). rewrite E1 in E. cbn [bind] in E. clear E1.
  destruct (pop_all_ok (V := V) (S (length q1)) q1 (Some t) Q1 ltac:(lia)) as (q2 & out & E2 & Q2 & P2 & C2 & C3).
  rewrite E2 in E. cbn [bind] in E. inversion E; subst tr1 h1 e. clear E.
  change (map (fun x => Begin (fvalue (fst x)) (snd x)) (combine p (seq h (length p)))) with (begins p h) in *.
  change (map (fun x => Finish (snd x)) out) with (finishes out) in *.
  set (all := rev (seq h (length p)) ++ open) in *.
  assert (Pall : Permutation (map snd q1) all).
  { rewrite P1, map_app, map_map. cbn [snd]. unfold all. rewrite <- Permutation_rev. apply Permutation_app; [|apply K].
    change (fun x : frame V * nat => snd x) with (@snd (frame V) nat). rewrite map_snd_combine; [auto|now rewrite seq_length]. }
  assert (Po : Permutation all (map snd out ++ map snd q2)) by (rewrite <- Pall, <- map_app; now apply Permutation_map).
  destruct (active_finishes out all (map snd q2) Po) as (o & Ao & Pq).
  assert (Nall : NoDup all).
  { unfold all. rewrite <- Permutation_rev. apply nodup_seq_app; apply K. }
  assert (Fall : Forall (fun x => (x < h + length p)%nat) all).
  { unfold all. rewrite <- Permutation_rev. apply forall_seq_below, K. }
  assert (NB : NoDup (map fst B')).
  { unfold B'. rewrite map_app, map_fst_combine by now rewrite seq_length. rewrite Permutation_app_comm. apply nodup_seq_app; apply K. }
  assert (FB : Forall (fun x => (x < h + length p)%nat) (map fst B')).
  { unfold B'. rewrite map_app, map_fst_combine by now rewrite seq_length. rewrite Permutation_app_comm. apply forall_seq_below, K. }
  assert (D1 : forall x, In x q1 -> exists f, In (snd x, f) B' /\ fdata f = fst x).
  { intros x Hx. rewrite P1 in Hx. apply in_app_or in Hx as [Hx|Hx].
    - apply in_map_iff in Hx as ([f hd] & <- & Hin). cbn. exists f. split; auto. unfold B'. apply in_or_app. right.
      clear -Hin. revert Hin. generalize (seq h (length p)). induction p as [|g p IH]; intros [|n l] H; cbn in *; try tauto.
      destruct H as [H|H]; [inversion H; auto|right; auto].
    - destruct (k_data _ _ _ _ K x Hx) as (f & Hf & Ef). exists f. split; auto. unfold B'. apply in_or_app. now left. }
  assert (KN : known (h + length p) q2 o B').
  { constructor; auto.
    - now rewrite Pq.
    - rewrite Pq. rewrite Po in Nall. clear -Nall. induction (map snd out) as [|a l IH]; auto. inversion Nall; auto.
    - rewrite Pq. rewrite Po in Fall. apply Forall_app in Fall. tauto.
    - intros x Hx. apply D1. rewrite P2. apply in_or_app. now right. }
  exists q2, out, o. split; [reflexivity|]. split; auto. split; auto. split.
  { rewrite active_app, active_begins by apply K. exact Ao. }
  split; auto. split; auto. split.
  - intros Hall. assert (q2 = []); [|subst q2; cbn in Pq; now apply Permutation_sym, Permutation_nil in Pq].
    destruct C3 as [->|(x & Hx & Ht)]; auto. exfalso.
    assert (Hx1 : In x q1) by (rewrite P2; apply in_or_app; now right).
    destruct (D1 x Hx1) as (f & Hf & Ef). specialize (Hall (snd x) f). rewrite Ef in Hall.
    assert (fst x <= t); [|lia]. apply Hall; auto. rewrite <- Pall. now apply in_map.
  - intros (hd & f & Hin & Hf & Ht). rewrite <- Pall in Hin. apply in_map_iff in Hin as (x & <- & Hx).
    destruct (D1 x Hx) as (f' & Hf' & Ef').
    assert (f = f'). { clear -NB Hf Hf'. induction B' as [|[a b] l IH]; [destruct Hf|]. cbn in NB. inversion NB; subst.
      destruct Hf as [Hf|Hf], Hf' as [Hf'|Hf']; try congruence; auto;
        [inversion Hf; subst|inversion Hf'; subst]; exfalso; match goal with H : ~ In _ _ |- _ => apply H end; now apply (in_map fst) in Hf || now apply (in_map fst) in Hf'. }
    subst f'. rewrite pop_all_none in E2; [|auto|exists x; split; auto; lia]. inversion E2; subst. destruct out; auto. discriminate.
Qed.

Fixpoint seen_after (seen : option Z) (acts : list action) : option Z :=
  match acts with [] => seen | Show t :: acts => seen_after (Some t) acts | Rewind :: acts => seen_after None acts end.
Lemma interval_acts fs : in_order fs -> forall acts seen h q open B e tr' h',
  monotone seen acts -> known h q open B -> track_acts h (Interval fs (pos seen fs) q) acts e tr' h' ->
  exists q' open', tr' = Interval fs (pos (seen_after seen acts) fs) q' /\ active open e = Some open' /\
    known h' q' open' (B ++ combine (map snd (begun e)) (play fs seen acts)) /\
    map fst (begun e) = map fvalue (play fs seen acts) /\
    (forall a, acts = a ++ [Rewind] -> open' = []).
Proof.
  intros O. induction acts as [|[t|] acts IH]; intros seen h q open B e tr' h' M K H; inversion H; subst; clear H; cbn [seen_after play].
  - exists q, open. cbn. rewrite app_nil_r. split; auto. split; auto. split; [eapply known_weaken; eauto|]. split; auto.
    intros a Ha. destruct a; discriminate.
  - match goal with E : track_interpolate _ _ _ = _ |- _ => rename E into E4 end.
    match goal with T : track_acts _ _ _ _ _ _ |- _ => rename T into E8 end.
    match type of E4 with track_interpolate _ _ ?x = Ok (?y, ?z, ?w) => rename x into h0, y into tr1, z into h1, w into e0 end.
    match goal with L : (h <= h0)%nat |- _ => pose proof (known_weaken _ _ _ _ _ L K) as K0 end.
    destruct M as [M1 M2].
    destruct (interval_step fs seen q open B h0 t tr1 h1 e0 O M1 K0 E4) as (q1 & out & o1 & Etr & Ee & Eh & A1 & K1 & _).
    subst tr1. destruct (IH _ _ _ _ _ _ _ _ M2 K1 E8) as (q' & o' & Etr' & A' & K' & N' & Z').
    set (p := filter (due seen t) fs) in *.
    assert (Bg : begun e0 = combine (map fvalue p) (seq h0 (length p))) by (subst e0; rewrite begun_app, begun_begins, begun_finishes; apply app_nil_r).
    exists q', o'. split; auto. split; [rewrite active_app, A1; auto|]. split; [|split].
    + rewrite begun_app, map_app, Bg, map_snd_combine by (rewrite map_length, seq_length; auto).
      rewrite combine_app by (rewrite seq_length; auto). now rewrite app_assoc.
    + rewrite begun_app, map_app, Bg, map_fst_combine by (rewrite map_length, seq_length; auto). rewrite N'. now rewrite map_app.
    + intros a Ha. destruct a as [|x a]; [discriminate|]. inversion Ha; subst. eapply Z'. reflexivity.
  - match goal with E : track_reset _ = _ |- _ => rename E into E2 end.
    match goal with T : track_acts _ _ _ _ _ _ |- _ => rename T into E6 end.
    match type of E2 with _ = Ok (?y, ?w) => rename y into tr1, w into e0 end. cbn [track_reset] in E2. destruct (pop_all_ok (V := V) (S (length q)) q None (k_heap _ _ _ _ K) ltac:(lia)) as (q2 & out & Ep & Q2 & P2 & C2).
    subst q2. rewrite Ep in E2. cbn [bind] in E2. inversion E2; subst tr1 e0. clear E2.
    change (map (fun x => Finish (snd x)) out) with (finishes out) in *.
    assert (Po : Permutation open (map snd out ++ [])) by (rewrite <- (k_open _ _ _ _ K); rewrite app_nil_r in *; now apply Permutation_map).
    destruct (active_finishes out open [] Po) as (o & Ao & Pn). apply Permutation_sym, Permutation_nil in Pn. subst o.
    assert (K0 : known h [] [] B) by (constructor; auto; try apply K; [constructor|intros x []]).
    destruct (IH None h [] [] B _ _ _ M K0 E6) as (q' & o' & Etr' & A' & K' & N' & Z').
    exists q', o'. split; auto. split; [rewrite active_app, Ao; auto|]. rewrite begun_app, begun_finishes. cbn [app]. split; auto. split; auto.
    intros a Ha. destruct a as [|x a].
    + inversion Ha; subst. inversion E6; subst. cbn in A'. congruence.
    + inversion Ha; subst. eapply Z'. reflexivity.
Qed.
Lemma known_new : known 0 [] [] [].
Proof. constructor; cbn; auto; try constructor. - intros [|i] p c Hp; discriminate. - intros x []. Qed.

(* the calls of an interval track fit together: no handle is begun twice, only open handles are finished, the intervals
   begun are those of the frames due, in order, and after a Reset none is open *)
Theorem C112_Animation_intervals (trs : list (track V)) len loop ops :
  Forall playable trs -> loops_inside len loop -> forward ops ->
  exists s ev, run len loop (St trs 0 0) ops = Ok (s, ev) /\
    forall j fs, nth_error trs j = Some (Interval fs 0 []) ->
      map fst (begun (events_of j ev)) = map fvalue (play fs None (snd (clocks len loop 0 ops))) /\
      NoDup (map snd (begun (events_of j ev))) /\
      exists open, active [] (events_of j ev) = Some open /\ (forall ops', ops = ops' ++ [Reset] -> open = []).
Proof.
  intros HP HL HF. destruct (run_playable trs len loop ops HP HL HF) as (s & ev & E & I & T & A).
  exists s, ev. split; auto. intros j fs Hj. destruct A as (_ & _ & A). destruct (A j _ Hj) as (tr' & _ & K).
  assert (O : in_order fs). { rewrite Forall_forall in HP. apply nth_error_In in Hj. apply (HP _ Hj). }
  destruct (interval_acts fs O _ None _ [] [] [] _ _ _ (monotone_ops _ _ _ HL HF) known_new K) as (q' & o' & _ & A' & K' & N' & Z').
  split; auto. split.
  - pose proof (k_names _ _ _ _ K') as N. cbn [app] in N. rewrite map_fst_combine in N; auto.
    apply (f_equal (@length _)) in N'. rewrite !map_length in *. auto.
  - exists o'. split; auto. intros ops' ->. 
    assert (G : forall now, exists a, snd (clocks len loop now (ops' ++ [Reset])) = a ++ [Rewind]).
    { clear. induction ops' as [|o ops' IH]; intros now; cbn [app clocks clock]; [exists []; auto|].
      destruct (clock len loop now o) as [t a]. destruct (IH t) as [a' Ea]. destruct (clocks len loop t (ops' ++ [Reset])). cbn in *. subst.
      exists (a ++ a'). now rewrite app_assoc. }
    destruct (G 0) as [a Ea]. eapply Z'. exact Ea.
Qed.

Lemma play_app fs acts acts' : forall seen, play fs seen (acts ++ acts') = play fs seen acts ++ play fs (seen_after seen acts) acts'.
Proof. induction acts as [|[t|] acts IH]; intros seen; cbn; auto. now rewrite IH, app_assoc. Qed.
Lemma monotone_app acts acts' : forall seen, monotone seen (acts ++ acts') -> monotone seen acts /\ monotone (seen_after seen acts) acts'.
Proof. induction acts as [|[t|] acts IH]; intros seen; cbn; auto. intros [H1 H2]. apply IH in H2. tauto. Qed.
Lemma clocks_app len loop ops ops' : forall now, snd (clocks len loop now (ops ++ ops')) = snd (clocks len loop now ops) ++ snd (clocks len loop (fst (clocks len loop now ops)) ops').
Proof.
  induction ops as [|o ops IH]; intros now; cbn [app clocks]; auto. destruct (clock len loop now o) as [t a]. specialize (IH t).
  destruct (clocks len loop t (ops ++ ops')), (clocks len loop t ops). cbn [fst snd] in *. subst. now rewrite app_assoc.
Qed.
Lemma run_app len loop (l : list op) ops : forall (s0 s : state V) ev, run len loop s0 ops = Ok (s, ev) ->
  run len loop s0 (ops ++ l) = (do (s', ev') <- run len loop s l; Ok (s', ev ++ ev')).
Proof.
  induction ops as [|o ops IH]; intros s0 s ev H; cbn [run app] in *.
  - inversion H; subst. destruct (run len loop s l) as [[? ?]| |]; reflexivity.
  - destruct (step len loop s0 o) as [[s1 e1]| |]; try discriminate. cbn [bind] in *.
    destruct (run len loop s1 ops) as [[s2 e2]| |] eqn:E2; try discriminate. cbn [bind] in H. inversion H; subst.
    rewrite (IH _ _ _ E2). destruct (run len loop s l) as [[s3 e3]| |]; cbn [bind]; auto. now rewrite <- app_assoc.
Qed.

(* partial: what the code does instead.  When a moment t is shown, the intervals due begin.  Then all open intervals end
   when the data of all of them is at most t, otherwise none ends.  Missing: that an interval ends when its time and its
   length are over; see the refutation *)
Theorem C113_Animation_interval_ends_partial (trs : list (track V)) len loop ops d :
  Forall playable trs -> loops_inside len loop -> forward ops -> 0 <= d ->
  exists s ev s' ev', run len loop (St trs 0 0) ops = Ok (s, ev) /\ run len loop (St trs 0 0) (ops ++ [Interpolate d]) = Ok (s', ev ++ ev') /\
    (time s + d < len \/ time s < len /\ loop < 0 ->
     forall j fs, nth_error trs j = Some (Interval fs 0 []) ->
     exists bs fin open,
       events_of j ev' = bs ++ fin /\ forallb is_finish fin = true /\ existsb is_finish bs = false /\
       active [] (events_of j ev ++ bs) = Some open /\
       let frame_of h f := In (h, f) (combine (map snd (begun (events_of j (ev ++ ev')))) (play fs None (snd (clocks len loop 0 (ops ++ [Interpolate d]))))) in
       (forall h, In h open -> exists f, frame_of h f) /\
       ((forall h f, In h open -> frame_of h f -> fdata f <= time s + d) -> active open fin = Some []) /\
       ((exists h f, In h open /\ frame_of h f /\ time s + d < fdata f) -> fin = [])).
Proof.
  intros HP HL HF Hd. destruct (run_playable trs len loop ops HP HL HF) as (s & ev & E & I & T & A).
  destruct (step_ok len loop s (Interpolate d) I ltac:(intros x Hx; inversion Hx; lia) HL) as (s' & ev' & E' & I' & T' & A').
  exists s, ev, s', ev'. split; auto. split.
  { rewrite (run_app _ _ _ _ _ _ _ E). cbn [run]. rewrite E'. cbn. now rewrite app_nil_r. }
  intros Hw j fs Hj. rewrite clocks_app, <- T. cbn [clocks]. 
  assert (Ec : clock len loop (time s) (Interpolate d) = (time s + d, [Show (time s + d)])).
  { cbn. replace ((len <=? time s) && (loop <? 0)) with false by lia. replace ((len <=? time s + d) && (0 <=? loop)) with false by lia. auto. }
  rewrite Ec in *. cbn [snd fst app] in *. set (t := time s + d) in *.
  assert (O : in_order fs). { rewrite Forall_forall in HP. apply nth_error_In in Hj. apply (HP _ Hj). }
  assert (M : monotone None (snd (clocks len loop 0 (ops ++ [Interpolate d])))).
  { apply monotone_ops; auto. intros x Hx. apply in_app_or in Hx as [Hx|[Hx|[]]]; [auto|inversion Hx; subst; auto]. }
  rewrite clocks_app, <- T in M. cbn [clocks] in M. rewrite Ec in M. cbn [snd app] in M. apply monotone_app in M as [M1 [M2 _]].
  destruct A as (_ & _ & A). destruct (A j _ Hj) as (tr' & Htr & K). clear A.
  destruct A' as (_ & _ & A'). destruct (A' j _ Htr) as (tr'' & _ & K'). clear A'.
  destruct (interval_acts fs O _ None _ [] [] [] _ _ _ M1 known_new K) as (q1 & o1 & Etr & A1 & K1 & N1 & _). subst tr'. cbn [app] in K1.
  inversion K'; subst; clear K'.
  match goal with H : track_acts _ _ [] _ _ _ |- _ => inversion H; subst; clear H end. rewrite app_nil_r in *.
  match goal with E : track_interpolate _ _ _ = _ |- _ => rename E into E4 end.
  match type of E4 with track_interpolate _ _ ?x = _ => rename x into h0 end.
  match goal with L : (next s <= h0)%nat |- _ => pose proof (known_weaken _ _ _ _ _ L K1) as K2 end.
  destruct (interval_step _ _ _ _ _ _ _ _ _ _ O M2 K2 E4) as (q2 & out & o2 & _ & Ee & _ & A2 & K3 & _ & C1 & C2).
  set (p := filter (due (seen_after None (snd (clocks len loop 0 ops))) t) fs) in *.
  exists (begins p h0), (finishes out), (rev (seq h0 (length p)) ++ o1).
  split; [exact Ee|]. split; [clear; induction out; auto|]. split; [unfold begins; clear; induction (combine p (seq h0 (length p))); auto|].
  split; [rewrite active_app, A1; apply active_begins, K2|].
  rewrite events_of_app, begun_app, map_app, play_app. cbn [play]. rewrite app_nil_r. fold p.
  rewrite combine_app by (apply (f_equal (@length _)) in N1; rewrite !map_length in *; auto).
  match goal with H : e = events_of j ev' |- _ => rewrite <- H end. rewrite Ee. rewrite begun_app, begun_finishes, app_nil_r, begun_begins, map_snd_combine by (rewrite map_length, seq_length; auto).
  rewrite Ee, active_app, active_begins in A2 by apply K2.
  set (B := combine (map snd (begun (events_of j ev))) (play fs None (snd (clocks len loop 0 ops)))) in *. cbv zeta.
  split.
  - intros h Hh. apply in_app_or in Hh as [Hh|Hh].
    + apply in_rev in Hh. destruct (in_combine_some (seq h0 (length p)) p h ltac:(apply seq_length) Hh) as [f Hf]. exists f. apply in_or_app. now right.
    + rewrite <- (k_open _ _ _ _ K2) in Hh. apply in_map_iff in Hh as (x & <- & Hx). destruct (k_data _ _ _ _ K2 x Hx) as (f & Hf & _). exists f. apply in_or_app. now left.
  - split; [|intros X; now rewrite (C2 X)]. intros X. rewrite A2. f_equal. apply C1. exact X.
Qed.
End Intervals.
Print Assumptions C111_Animation_smooth.
Print Assumptions C111_Animation_steps.
Print Assumptions C111_Animation_line.
Print Assumptions C112_Animation_intervals.
Print Assumptions C113_Animation_interval_ends_partial.

(* an interval from 1 for 10 and one from 2 for 5: at 8 the second is over, and still open; at 10 both end, though the
   first lasts until 11 *)
Definition ex_intervals : list (frame Z) := [Frame 1 100 10; Frame 2 200 5].
Theorem C113_Animation_interval_ends_refuted :
  playable (Interval ex_intervals 0 []) /\
  (exists s ev f, run 20 (-1) (St [Interval ex_intervals 0 []] 0 0) [Interpolate 8] = Ok (s, ev) /\
    In f ex_intervals /\ ftime f + fdata f < time s /\ begun (events_of 0 ev) = [(100, 0%nat); (200, 1%nat)] /\
    fvalue f = 200 /\ exists open, active [] (events_of 0 ev) = Some open /\ In 1%nat open) /\
  (exists s ev f, run 20 (-1) (St [Interval ex_intervals 0 []] 0 0) [Interpolate 10] = Ok (s, ev) /\
    In f ex_intervals /\ ftime f <= time s < ftime f + fdata f /\ begun (events_of 0 ev) = [(100, 0%nat); (200, 1%nat)] /\
    fvalue f = 100 /\ active [] (events_of 0 ev) = Some []).
Proof.
  split; [cbn; split; auto; unfold in_order; cbn; repeat constructor; lia|]. split.
  - do 2 eexists. exists (Frame 2 200 5). split; [vm_compute; reflexivity|]. split; [right; now left|]. split; [cbn; lia|].
    split; [reflexivity|]. split; [reflexivity|]. eexists. split; [reflexivity|]. now left.
  - do 2 eexists. exists (Frame 1 100 10). split; [vm_compute; reflexivity|]. split; [now left|]. split; [cbn; lia|].
    split; [reflexivity|]. split; reflexivity.
Qed.
Print Assumptions C113_Animation_interval_ends_refuted.

Example C111_example :
  Forall playable [Smooth [Frame 2 10 0; Frame 4 30 0; Frame 8 0 0] (LerpInterpolate (fun a b n d => a + (b - a) * n / d)) 0 0;
                   Smooth [Frame 2 10 0; Frame 4 30 0; Frame 8 0 0] NoInterpolate 7 0] /\
  match run 8 (-1) (St [Smooth [Frame 2 10 0; Frame 4 30 0; Frame 8 0 0] (LerpInterpolate (fun a b n d => a + (b - a) * n / d)) 0 0;
                        Smooth [Frame 2 10 0; Frame 4 30 0; Frame 8 0 0] NoInterpolate 7 0] 0 0)
    [Interpolate 1; Interpolate 2; Interpolate 1; Interpolate 2; Interpolate 9] with
  | Ok (_, ev) => events_of 0 ev = map SetTo [5; 20; 30; 15; 0] /\ events_of 1 ev = map SetTo [7; 10; 30; 30; 0]
  | _ => False
  end.
Proof.
  split; [|vm_compute; auto].
  assert (in_order [Frame 2 10 0; Frame 4 30 0; Frame 8 0 0]) by (unfold in_order; cbn; repeat constructor; lia).
  constructor; [|constructor; [|constructor]]; cbn; (split; [auto|split; [auto|]]); intros fs cur n d init L.
  - unfold LerpInterpolate, get. destruct (nth_error fs cur) as [f|] eqn:E; [|apply nth_error_None in E; lia].
    destruct cur as [|c]; [cbn; eauto|]. destruct (nth_error fs c) as [g|] eqn:E1; [cbn; eauto|apply nth_error_None in E1; lia].
  - unfold NoInterpolate, get. destruct (n =? d).
    + destruct (nth_error fs cur) eqn:E; [cbn; eauto|apply nth_error_None in E; lia].
    + destruct cur as [|c]; eauto. destruct (nth_error fs c) eqn:E; [cbn; eauto|apply nth_error_None in E; lia].
Qed.
Example C111_line_example : curve line 0%R [Frame 2 10%R 0; Frame 4 30%R 0] 3 (line 10 30 1 2) /\ line 10 30 1 2 = 20%R.
Proof.
  split; [|unfold line; lra].
  apply (curve_between line 0%R [Frame 2 10%R 0; Frame 4 30%R 0] 3 [] (Frame 2 10%R 0) (Frame 4 30%R 0) []); [reflexivity|cbn; lia].
Qed.
Example C112_example :
  match run 20 (-1) (St [Interval ex_intervals 0 []] 0 0) [Interpolate 1; Interpolate 3; SetTime 0; Interpolate 4; Reset] with
  | Ok (_, ev) => events_of 0 ev = [Begin 100 0; Begin 200 1; Finish 0; Finish 1; Begin 100 2; Begin 200 3; Finish 2; Finish 3] /\ active [] (events_of 0 ev) = Some []
  | _ => False
  end.
Proof. vm_compute. auto. Qed.
Example C113_example :
  match run 20 (-1) (St [Interval ex_intervals 0 []] 0 0) [Interpolate 4; Interpolate 6] with
  | Ok (_, ev) => events_of 0 ev = [Begin 100 0; Begin 200 1] ++ [Finish 0; Finish 1]
  | _ => False
  end.
Proof. vm_compute. auto. Qed.

(* ================= C114 ================= *)
Section Length.
Context {V : Type}.

Lemma CompAniFrame_tp : total_preorder (@CompAniFrame V).
Proof. constructor; unfold CompAniFrame; intros a b; try intros c; repeat match goal with |- context [?a <? ?b] => destruct (Z.ltb_spec a b) end; lia. Qed.

(* a frame that is added does not lie before 0, nor does the end of its interval *)
Definition nonneg (o : aop V) : Prop := match o with AAdd _ f => 0 <= ftime f /\ 0 <= fdata f | _ => True end.

Lemma in_ends (d : anidata V) x : In x (ends d) <-> exists f, In f (frames d) /\ x = match akind d with KPlain => ftime f | KInterval => ftime f + fdata f end.
Proof. unfold ends. rewrite in_map_iff. split; intros (f & H1 & H2); eauto. Qed.
Lemma ascending_last (l : list (frame V)) : ascending CompAniFrame l -> forall f, In f l -> ftime f <= last (map ftime l) 0.
Proof.
  intros A f Hf. destruct (exists_last (l := l)) as (p & g & ->); [intros ->; destruct Hf|].
  rewrite map_app; cbn [map]; rewrite last_last. apply in_app_or in Hf as [Hf|[<-|[]]]; [|lia].
  apply In_nth_error in Hf as [i Hi].
  assert (L : (i < length p)%nat) by (apply nth_error_Some; congruence).
  specialize (A i (length p) f g L ltac:(rewrite nth_error_app1; auto) ltac:(rewrite nth_error_app2, Nat.sub_diag; auto)).
  unfold CompAniFrame in A. destruct (Z.ltb_spec (ftime g) (ftime f)); lia.
Qed.
Definition good (d : anidata V) : Prop :=
  ascending CompAniFrame (frames d) /\ (forall f, In f (frames d) -> 0 <= ftime f /\ 0 <= fdata f) /\ latest_end [d] (End d) /\ 0 <= End d.
Definition good_ani (a : animation V) : Prop := Forall good (datas a) /\ latest_end (datas a) (calc a) /\ 0 <= calc a.

Lemma check_all (l : list (frame V)) : forall e, let r := fold_left check_frame l e in
  e <= r /\ (forall f, In f l -> ftime f + fdata f <= r) /\ (r = e \/ exists f, In f l /\ r = ftime f + fdata f).
Proof.
  induction l as [|f l IH]; intros e; cbn zeta; cbn [fold_left]; [split; [lia|split; [intros f []|auto]]|].
  destruct (IH (check_frame e f)) as (H1 & H2 & H3).
  assert (Q : e <= check_frame e f /\ ftime f + fdata f <= check_frame e f /\ (check_frame e f = e \/ check_frame e f = ftime f + fdata f))
    by (unfold check_frame; destruct (Z.ltb_spec e (ftime f + fdata f)); lia).
  set (r := fold_left check_frame l (check_frame e f)) in *.
  split; [lia|]. split.
  - intros g [<-|Hg]; [lia|auto].
  - destruct H3 as [H3|(g & Hg & H3)]; [|right; exists g; split; [now right|auto]].
    destruct Q as (_ & _ & [Q|Q]); [left; lia|right]. exists f. split; [now left|lia].
Qed.
Lemma latest_one (d : anidata V) e : latest_end [d] e <-> (forall x, In x (ends d) -> x <= e) /\ (e = 0 \/ In e (ends d)).
Proof.
  unfold latest_end. split; intros [H1 H2]; (split; [intros; first [eapply H1; [now left|auto]|idtac]|]).
  - destruct H2 as [H2|(d' & [<-|[]] & H2)]; auto.
  - match goal with H : In _ [d] |- _ => destruct H as [<-|[]] end. auto.
  - destruct H2 as [H2|H2]; auto. right. exists d. split; auto. now left.
Qed.
Lemma good_plain (l : list (frame V)) e : ascending CompAniFrame l -> (forall f, In f l -> 0 <= ftime f /\ 0 <= fdata f) -> good (AD KPlain l e).
Proof.
  intros A N. assert (L : forall f, In f l -> ftime f <= End (AD KPlain l e)).
  { intros f Hf. unfold End. cbn. destruct l as [|g l]; [destruct Hf|]. now apply ascending_last. }
  assert (M : End (AD KPlain l e) = 0 \/ exists f, In f l /\ End (AD KPlain l e) = ftime f).
  { unfold End. cbn. destruct l as [|g l]; auto. right. destruct (exists_last (l := g :: l)) as (p & f & E); [discriminate|]. rewrite E.
    rewrite map_app; cbn [map]; rewrite last_last. exists f. split; auto. apply in_or_app. right. now left. }
  split; [exact A|]. split; [exact N|]. split.
  - apply latest_one. split.
    + intros x Hx. apply in_ends in Hx as (f & Hf & ->). cbn in *. now apply L.
    + destruct M as [M|(f & Hf & M)]; auto. right. apply in_ends. exists f. auto.
  - destruct M as [->|(f & Hf & ->)]; [lia|]. apply N. auto.
Qed.
Lemma good_interval (l : list (frame V)) e : ascending CompAniFrame l -> (forall f, In f l -> 0 <= ftime f /\ 0 <= fdata f) ->
  (forall f, In f l -> ftime f + fdata f <= e) -> (e = 0 \/ exists f, In f l /\ e = ftime f + fdata f) -> good (AD KInterval l e).
Proof.
  intros A N L M. split; [exact A|]. split; [exact N|]. unfold End. cbn. split.
  - apply latest_one. split.
    + intros x Hx. apply in_ends in Hx as (f & Hf & ->). cbn in *. now apply L.
    + destruct M as [M|(f & Hf & M)]; auto. right. apply in_ends. exists f. auto.
  - destruct M as [->|(f & Hf & ->)]; [lia|]. apply N in Hf. lia.
Qed.
Lemma ad_add_ok (d : anidata V) f : good d -> 0 <= ftime f -> 0 <= fdata f ->
  exists d', ad_add d f = Ok d' /\ good d' /\ akind d' = akind d /\ (forall g, In g (frames d') <-> g = f \/ In g (frames d)).
Proof.
  intros (A & N & L & P) H1 H2. destruct d as [k l e]. cbn in A, N. unfold ad_add. cbn [frames akind aend].
  destruct (as_Insert_ok CompAniFrame CompAniFrame_tp l f A) as (p & q & -> & E & A'). rewrite E. cbn [bind].
  assert (I : forall g, In g (p ++ f :: q) <-> g = f \/ In g (p ++ q)) by (intros g; rewrite !in_app_iff; cbn; intuition congruence).
  assert (N' : forall g, In g (p ++ f :: q) -> 0 <= ftime g /\ 0 <= fdata g) by (intros g Hg; apply I in Hg as [->|Hg]; auto).
  destruct k.
  - eexists. split; [reflexivity|]. split; [now apply good_plain|]. split; auto.
  - unfold get. rewrite nth_error_app2, Nat.sub_diag by lia. cbn [nth_error bind].
    eexists. split; [reflexivity|]. split; [|split; auto]. apply latest_one in L as [L1 L2]. unfold End in L1, L2, P. cbn in L1, L2, P.
    assert (Q : e <= check_frame e f /\ ftime f + fdata f <= check_frame e f /\ (check_frame e f = e \/ check_frame e f = ftime f + fdata f))
      by (unfold check_frame; destruct (Z.ltb_spec e (ftime f + fdata f)); lia).
    apply good_interval; auto.
    + intros g Hg. apply I in Hg as [->|Hg]; [lia|]. specialize (L1 (ftime g + fdata g) ltac:(apply in_map_iff; exists g; auto)). lia.
    + destruct Q as (_ & _ & [Q|Q]); rewrite Q; [|right; exists f; split; auto; apply I; auto].
      destruct L2 as [L2|L2]; auto. right. apply in_map_iff in L2 as (g & L2 & Hg). exists g. split; auto. apply I. auto.
Qed.
Lemma ad_remove_ok (d : anidata V) j : good d ->
  (ad_remove d j = Ok (false, d)) \/ exists d', ad_remove d j = Ok (true, d') /\ good d' /\ akind d' = akind d.
Proof.
  intros (A & N & L & P). destruct d as [k l e]. cbn in A, N. unfold ad_remove. cbn [frames akind aend].
  destruct (as_Remove_ok CompAniFrame l j A) as [[_ E]|(p & x & q & -> & _ & E & A')]; rewrite E; cbn [bind negb]; [left; auto|right].
  assert (N' : forall g, In g (p ++ q) -> 0 <= ftime g /\ 0 <= fdata g) by (intros g Hg; apply N; rewrite in_app_iff in *; cbn; tauto).
  eexists. split; [reflexivity|]. split; auto. destruct k; [now apply good_plain|].
  destruct (check_all (p ++ q) 0) as (C1 & C2 & C3). apply good_interval; auto.
Qed.
Lemma upd_split {A} (l : list A) i d : get l i = Ok d -> exists p q, l = p ++ d :: q /\ forall d', upd l i d' = p ++ d' :: q.
Proof.
  unfold get. revert i. induction l as [|a l IH]; intros [|i] H; cbn in *; try discriminate.
  - inversion H; subst. exists [], l. auto.
  - destruct (IH i H) as (p & q & -> & U). exists (a :: p), q. split; auto. intros d'. cbn. now rewrite U.
Qed.
Lemma calclength_ok (l : list (anidata V)) : Forall good l -> latest_end l (calclength l) /\ 0 <= calclength l.
Proof.
  intros F. unfold calclength.
  assert (G : forall r e l0, Forall good r -> latest_end l0 e -> 0 <= e ->
    latest_end (l0 ++ r) (fold_left Z.max (map End r) e) /\ 0 <= fold_left Z.max (map End r) e).
  { induction r as [|d r IH]; intros e l0 Fr L P; cbn; [rewrite app_nil_r; auto|]. inversion Fr; subst.
    replace (l0 ++ d :: r) with ((l0 ++ [d]) ++ r) by now rewrite <- app_assoc.
    destruct H1 as (_ & _ & L' & P'). apply latest_one in L' as [L1 L2]. apply IH; auto; [|lia]. destruct L as [L3 L4]. split.
    - intros d0 x Hd Hx. apply in_app_or in Hd as [Hd|[<-|[]]]; [specialize (L3 d0 x Hd Hx); lia|specialize (L1 x Hx); lia].
    - destruct (Z.max_spec e (End d)) as [[_ ->]|[_ ->]].
      + destruct L2; auto. right. exists d. split; auto. apply in_or_app. right. now left.
      + destruct L4 as [L4|(d0 & Hd & L4)]; auto. right. exists d0. split; auto. apply in_or_app. now left. }
  destruct l as [|d l]; cbn [map].
  - split; [|lia]. split; [intros d x []|auto].
  - inversion F; subst. apply (G l (End d) [d]); auto; apply H1.
Qed.
Lemma calc_add (p q : list (anidata V)) d d' c :
  latest_end (p ++ d :: q) c -> 0 <= c -> good d' -> (forall x, In x (ends d) -> In x (ends d')) ->
  latest_end (p ++ d' :: q) (Z.max c (End d')).
Proof.
  intros [L1 L2] P (_ & _ & L' & P') S. apply latest_one in L' as [L3 L4]. split.
  - intros d0 x Hd Hx. rewrite in_app_iff in Hd. cbn in Hd. destruct Hd as [Hd|[<-|Hd]].
    + specialize (L1 d0 x ltac:(rewrite in_app_iff; cbn; auto) Hx). lia.
    + specialize (L3 x Hx). lia.
    + specialize (L1 d0 x ltac:(rewrite in_app_iff; cbn; auto) Hx). lia.
  - destruct (Z.max_spec c (End d')) as [[_ ->]|[_ ->]].
    + destruct L4; auto. right. exists d'. split; auto. apply in_or_app. right. now left.
    + destruct L2 as [L2|(d0 & Hd & L2)]; auto. right. rewrite in_app_iff in Hd. cbn in Hd. destruct Hd as [Hd|[<-|Hd]].
      * exists d0. split; auto. rewrite in_app_iff. cbn. auto.
      * exists d'. split; auto. rewrite in_app_iff. cbn. auto.
      * exists d0. split; auto. rewrite in_app_iff. cbn. auto.
Qed.
Definition in_range (n : nat) (o : aop V) : Prop := match o with AAdd i _ | ARemove i _ => (i < n)%nat | ASetLength _ => True end.
Lemma get_lt {A} (l : list A) i : (i < length l)%nat -> exists x, get l i = Ok x.
Proof. intros H. unfold get. destruct (nth_error l i) eqn:E; eauto. apply nth_error_None in E. lia. Qed.
Lemma astep_ok (a : animation V) o : good_ani a -> nonneg o -> in_range (length (datas a)) o ->
  exists a', astep a o = Ok a' /\ good_ani a' /\ map akind (datas a') = map akind (datas a) /\
    len a' = (match o with ASetLength l => l | _ => len a end).
Proof.
  intros (F & L & P) N R. destruct o as [i f|i j|l]; cbn [astep].
  - unfold Add. destruct (get_lt (datas a) i R) as [d Ed]. rewrite Ed. cbn [bind]. destruct (upd_split _ _ _ Ed) as (p & q & E & U).
    rewrite E in *. apply Forall_app in F as [F1 F2]. inversion F2; subst. destruct N as [N1 N2].
    destruct (ad_add_ok d f H1 N1 N2) as (d' & Ea & G & Ek & Ef). rewrite Ea. cbn [bind]. eexists. split; [reflexivity|]. rewrite U. cbn [datas len calc].
    split; [|split; auto; rewrite !map_app; cbn; congruence]. split; [apply Forall_app; split; auto; constructor; auto|]. cbn [datas calc]. split; [|lia].
    eapply calc_add; eauto. intros x Hx. apply in_ends in Hx as (g & Hg & ->). apply in_ends. rewrite Ek. exists g. split; auto. apply Ef. auto.
  - unfold Remove. destruct (get_lt (datas a) i R) as [d Ed]. rewrite Ed. cbn [bind]. destruct (upd_split _ _ _ Ed) as (p & q & E & U).
    rewrite E in *. pose proof F as F0. apply Forall_app in F as [F1 F2]. inversion F2; subst.
    destruct (ad_remove_ok d j H1) as [Er|(d' & Er & G & Ek)]; rewrite Er; cbn [bind negb]; rewrite U.
    + eexists. split; [reflexivity|]. cbn [datas len calc]. repeat split; auto; apply L.
    + eexists. split; [reflexivity|]. cbn [datas len calc]. split; [|split; auto; rewrite !map_app; cbn; congruence].
      assert (F' : Forall good (p ++ d' :: q)) by (apply Forall_app; split; auto).
      destruct (calclength_ok _ F'). repeat split; auto; apply H.
  - eexists. split; [reflexivity|]. unfold SetLength. cbn [datas len calc]. destruct (calclength_ok _ F). repeat split; auto; apply H.
Qed.
(* the length that was set last; negative: none *)
Fixpoint length_set (l : Z) (ops : list (aop V)) : Z :=
  match ops with [] => l | ASetLength l' :: ops => length_set l' ops | _ :: ops => length_set l ops end.

(* after any calls, the length is the one that was set, or else the latest end of all frames there are *)
Theorem C114_Animation_length (ks : list kind) (ops : list (aop V)) :
  (forall o, In o ops -> nonneg o /\ in_range (length ks) o) ->
  exists a, arun (new_animation ks) ops = Ok a /\ map akind (datas a) = ks /\
    (0 <= length_set (-1) ops -> GetLength a = length_set (-1) ops) /\
    (length_set (-1) ops < 0 -> latest_end (datas a) (GetLength a)).
Proof.
  intros H. 
  assert (G : forall ops a, good_ani a -> map akind (datas a) = ks -> (forall o, In o ops -> nonneg o /\ in_range (length ks) o) ->
    exists a', arun a ops = Ok a' /\ good_ani a' /\ map akind (datas a') = ks /\ len a' = length_set (len a) ops).
  { clear. induction ops as [|o ops IH]; intros a Ga La H; cbn [arun length_set]; [eauto|].
    destruct (H o (or_introl eq_refl)) as [N R]. rewrite <- La, map_length in R. destruct (astep_ok a o Ga N R) as (a1 & E1 & G1 & L1 & S1). rewrite E1. cbn [bind].
    destruct (IH a1 G1) as (a2 & E2 & G2 & K2 & S2); [congruence|intros; apply H; now right|]. exists a2. split; auto. split; auto. split; auto.
    rewrite S2, S1. destruct o; auto. }
  destruct (G ops (@new_animation V ks)) as (a & E & (F & L & P) & K & S); auto.
  - unfold new_animation. split; [|split]; cbn [datas calc]; [|split; [|auto]|lia].
    + rewrite Forall_forall. intros d Hd. apply in_map_iff in Hd as (k & <- & _).
      assert (A0 : ascending (@CompAniFrame V) []) by (intros i j x y _ Hx; destruct i; discriminate).
      destruct k; [apply good_plain|apply good_interval]; auto; intros f [].
    + intros d x Hd Hx. apply in_map_iff in Hd as (k & <- & _). destruct Hx.
  - unfold new_animation. cbn. rewrite map_map. cbn. apply map_id.
  - exists a. split; auto. split; auto. cbn in S. unfold GetLength. rewrite S. split; intros Hl.
    + now replace (length_set (-1) ops <? 0) with false by lia.
    + now replace (length_set (-1) ops <? 0) with true by lia.
Qed.
End Length.
Print Assumptions C114_Animation_length.
Example C114_example :
  match arun (new_animation [KPlain; KInterval]) [AAdd 0 (Frame 7 1 0); AAdd 1 (Frame 3 2 9); AAdd 0 (Frame 5 3 0); ASetLength 4; ASetLength (-2); ARemove 1 0] with
  | Ok a => GetLength a = 7 /\ latest_end (datas a) 7
  | _ => False
  end.
Proof.
  vm_compute. split; auto. split.
  - intros d x [<-|[<-|[]]]; cbn; intros H; repeat (destruct H as [<-|H]; [discriminate|]); destruct H.
  - right. eexists. split; [now left|]. cbn. auto.
Qed.
