(* Properties C108 to C114: playing animations, and the length of an animation.  The vocabulary is in AnimationSpec.v. *)
From Coq Require Import ZArith List Bool Sorted Permutation Lia.
From Coq Require Import ZifyBool ZifyNat.
From Verif Require Import Common OrderSpec OrderProofs ArraySort ArraySortProofs HeapSpec Animation AnimationSpec AnimationProofs.
Import ListNotations.
Local Open Scope Z_scope.

(* a new state of each kind, on frames in the order of their times; an interpolation function has a result wherever the
   code calls it *)
Definition playable {V} (tr : track V) : Prop :=
  match tr with
  | Discrete fs cur => in_order fs /\ cur = O
  | Smooth fs f _ cur => in_order fs /\ cur = O /\ forall fs cur n d init, (cur < length fs)%nat -> exists v, f fs cur n d init = Ok v
  | Interval fs cur q => in_order fs /\ cur = O /\ q = []
  end.

Section Props.
Context {V : Type}.
Lemma playable_inv (tr : track V) : playable tr -> track_inv None tr.
Proof.
  destruct tr; cbn; try tauto. intros (H & H1 & ->). repeat split; auto. intros [|i] p c Hp; discriminate.
Qed.
Lemma run_playable (trs : list (track V)) len loop ops : Forall playable trs -> loops_inside len loop -> forward ops ->
  exists s ev, run len loop (St trs 0 0) ops = Ok (s, ev) /\ inv s /\ time s = fst (clocks len loop 0 ops) /\
    tracks_acts 0 trs (snd (clocks len loop 0 ops)) ev (tracks s) (next s).
Proof.
  intros HP HL HF. destruct (run_ok len loop ops HL (St trs 0 0)) as (s & ev & E & I & T & A); auto.
  { exists None. cbn. split; [|intros; discriminate]. eapply Forall_impl; [|exact HP]. intros a. apply playable_inv. }
  exists s, ev. auto.
Qed.
Lemma monotone_ops len loop ops : loops_inside len loop -> forward ops -> monotone None (snd (clocks len loop 0 ops)).
Proof. intros HL HF. eapply monotone_weaken; [|apply clocks_monotone; auto]. intros; discriminate. Qed.

(* ================= C108 ================= *)
(* every history of calls succeeds, and each discrete track hands out exactly the frames that are due, in order *)
Theorem C108_Animation_discrete (trs : list (track V)) len loop ops :
  Forall playable trs -> loops_inside len loop -> forward ops ->
  exists s ev, run len loop (St trs 0 0) ops = Ok (s, ev) /\ time s = fst (clocks len loop 0 ops) /\
    forall j fs, nth_error trs j = Some (Discrete fs 0) ->
      events_of j ev = map (fun f => Call (fvalue f)) (play fs None (snd (clocks len loop 0 ops))).
Proof.
  intros HP HL HF. destruct (run_playable trs len loop ops HP HL HF) as (s & ev & E & I & T & A).
  exists s, ev. split; auto. split; auto. intros j fs Hj. destruct A as (_ & _ & A). destruct (A j _ Hj) as (tr' & _ & K).
  eapply (discrete_acts fs); [|apply monotone_ops; auto|exact K].
  rewrite Forall_forall in HP. apply nth_error_In in Hj. apply (HP _ Hj).
Qed.

Lemma due_split (fs : list (frame V)) seen u t : in_order fs -> u <= t ->
  filter (due seen u) fs ++ filter (due (Some u) t) fs = filter (due (match seen with Some v => Some v | None => None end) t) fs \/ (exists v, seen = Some v /\ u < v).
Proof.
  intros O L. assert (D : (exists v, seen = Some v /\ u < v) \/ forall v, seen = Some v -> v <= u).
  { destruct seen as [v|]; [|right; intros; discriminate]. destruct (Z.ltb_spec u v); [left; eauto|right]. intros w Hw. inversion Hw; subst. lia. }
  destruct D as [D|D]; auto. left. induction fs as [|f fs IH]; cbn; auto. apply in_order_cons in O as [O1 O2].
  assert (R : due seen t f = due seen u f || due (Some u) t f).
  { unfold due. destruct seen as [v|]; [specialize (D v eq_refl)|]; lia. }
  replace (match seen with Some v => Some v | None => None end) with seen in * by (destruct seen; auto).
  rewrite R. destruct (Z.leb_spec (ftime f) u).
  - assert (Q : due (Some u) t f = false) by (unfold due; lia). rewrite Q, orb_false_r.
    destruct (due seen u f); cbn; [f_equal|]; apply IH; auto.
  - assert (Q : forall g, In g (f :: fs) -> due seen u g = false).
    { intros g [->|Hg]; unfold due; [lia|]. specialize (O2 g Hg). lia. }
    rewrite (Q f) by now left. cbn [orb]. rewrite <- IH by auto. rewrite (filter_none (due seen u) fs); [|intros g Hg; apply Q; now right].
    cbn. destruct (due (Some u) t f); auto.
Qed.
Lemma steps_filter (fs : list (frame V)) len loop : in_order fs -> loop < 0 -> (forall f, In f fs -> ftime f <= len) ->
  forall ds now seen, (forall d, In d ds -> 0 <= d) -> (forall u, seen = Some u -> u <= now) ->
  (ds <> [] /\ now < len \/ seen = Some now) ->
  match seen with Some v => filter (due None v) fs | None => [] end ++ play fs seen (snd (clocks len loop now (map Interpolate ds))) =
  filter (due None (now + fold_right Z.add 0 ds)) fs.
Proof.
  intros O HL Hlen. induction ds as [|d ds IH]; intros now seen Hd Hs Hc.
  - destruct Hc as [[Hc _]|Hc]; [congruence|]. subst. cbn. rewrite app_nil_r. now replace (now + 0) with now by lia.
  - cbn [map clocks clock fold_right]. replace (loop <? 0) with true by lia. rewrite andb_true_r.
    assert (Hsum : forall l, (forall x, In x l -> 0 <= x) -> 0 <= fold_right Z.add 0 l).
    { induction l; cbn; [lia|]. intros Hx. specialize (IHl ltac:(intros; apply Hx; now right)). specialize (Hx a (or_introl eq_refl)). lia. }
    assert (Hds : forall x, In x ds -> 0 <= x) by (intros; apply Hd; now right).
    assert (Hd0 : 0 <= d) by (apply Hd; now left).
    destruct (Z.leb_spec len now).
    + destruct Hc as [[_ Hc]|Hc]; [lia|]. subst seen.
      specialize (IH now (Some now) Hds Hs (or_intror eq_refl)).
      destruct (clocks len loop now (map Interpolate ds)). cbn [snd app] in *. rewrite IH.
      apply filter_ext_in. intros f Hf. specialize (Hlen f Hf). specialize (Hsum ds Hds). unfold due. lia.
    + replace (0 <=? loop) with false by lia. rewrite andb_false_r.
      specialize (IH (now + d) (Some (now + d)) Hds ltac:(intros u Hu; inversion Hu; lia) (or_intror eq_refl)).
      destruct (clocks len loop (now + d) (map Interpolate ds)) as [t a]. cbn [snd app] in *. cbn [play].
      replace (now + (d + fold_right Z.add 0 ds)) with (now + d + fold_right Z.add 0 ds) by lia. rewrite <- IH. rewrite app_assoc. f_equal.
      destruct seen as [v|]; [|reflexivity].
      destruct (due_split fs None v (now + d) O) as [K|(w & Hw & _)]; [specialize (Hs v eq_refl); lia| |discriminate]. exact K.
Qed.
(* it does not matter how the time is cut into steps: an animation that does not loop has, after any steps, handed out
   exactly the frames up to the sum of the steps *)
Theorem C108_Animation_steps (trs : list (track V)) len loop ds :
  Forall playable trs -> loop < 0 -> 0 < len -> ds <> [] -> (forall d, In d ds -> 0 <= d) ->
  exists s ev, run len loop (St trs 0 0) (map Interpolate ds) = Ok (s, ev) /\
    forall j fs, nth_error trs j = Some (Discrete fs 0) -> (forall f, In f fs -> ftime f <= len) ->
      events_of j ev = map (fun f => Call (fvalue f)) (filter (fun f => ftime f <=? fold_right Z.add 0 ds) fs).
Proof.
  intros HP HL Hlen Hne Hd. destruct (C108_Animation_discrete trs len loop (map Interpolate ds) HP) as (s & ev & E & _ & D).
  { intros H. lia. }
  { intros d H. apply in_map_iff in H as (x & Hx & Hin). inversion Hx; subst. auto. }
  exists s, ev. split; auto. intros j fs Hj Hfs. rewrite (D j fs Hj). f_equal.
  assert (O : in_order fs). { rewrite Forall_forall in HP. apply nth_error_In in Hj. apply (HP _ Hj). }
  pose proof (steps_filter fs len loop O HL Hfs ds 0 None Hd ltac:(intros; discriminate) (or_introl (conj Hne Hlen))) as K.
  cbn [app] in K. rewrite K. apply filter_ext. intros f. unfold due. rewrite andb_true_r. reflexivity.
Qed.

(* ================= C109 ================= *)
(* the time and the result of Interpolate, in every state that can be reached: without a loop the time grows by the step
   until the end is reached; with a loop it stays below the end, whole turns are taken off, and after a turn it is not
   before the loop point *)
Theorem C109_Animation_time (trs : list (track V)) len loop ops d :
  Forall playable trs -> loops_inside len loop -> forward ops -> 0 <= d ->
  exists s ev, run len loop (St trs 0 0) ops = Ok (s, ev) /\
  exists r s' ev', interpolate 2 len loop s d = Ok (r, s', ev') /\
    (loop < 0 -> time s' = (if time s <? len then time s + d else time s) /\ r = (time s' <? len)) /\
    (0 <= loop -> r = true /\ time s' < len /\ exists k, 0 <= k /\ time s + d = time s' + k * (len - loop) /\ (k = 0 \/ loop <= time s')).
Proof.
  intros HP HL HF Hd. destruct (run_playable trs len loop ops HP HL HF) as (s & ev & E & I & T & A).
  exists s, ev. split; auto. destruct (interpolate_ok len loop s d I Hd HL) as (r & s' & ev' & E' & I' & T' & A' & R).
  exists r, s', ev'. split; auto. rewrite T'. cbn [clock]. rewrite R, T'. cbn [clock]. split; intros Hl.
  - replace (loop <? 0) with true by lia. replace (0 <=? loop) with false by lia. rewrite andb_true_r, andb_false_r.
    destruct (Z.leb_spec len (time s)), (Z.ltb_spec (time s) len); cbn; try lia; auto.
  - replace (loop <? 0) with false by lia. replace (0 <=? loop) with true by lia. rewrite andb_true_r, andb_false_r. split; auto.
    assert (loop < len) by (apply HL; lia).
    destruct (Z.leb_spec len (time s + d)); cbn.
    + pose proof (Z.mod_pos_bound (time s + d - len) (len - loop) ltac:(lia)).
      pose proof (Z.div_mod (time s + d - len) (len - loop) ltac:(lia)).
      pose proof (Z.div_pos (time s + d - len) (len - loop) ltac:(lia) ltac:(lia)).
      split; [lia|]. exists ((time s + d - len) / (len - loop) + 1). split; [lia|]. split; [nia|]. right. lia.
    + split; [lia|]. exists 0. lia.
Qed.

(* ================= C110 ================= *)
(* partial: when no frame is before the loop point, a turn hands out the frames left up to the end of the animation and
   then the frames from the loop point to the new time.  Missing: frames before the loop point, which are handed out again *)
Theorem C110_Animation_loop_partial (trs : list (track V)) len loop ops d :
  Forall playable trs -> 0 <= loop < len -> forward ops -> 0 <= d ->
  exists s ev, run len loop (St trs 0 0) ops = Ok (s, ev) /\
  exists s' ev', run len loop (St trs 0 0) (ops ++ [Interpolate d]) = Ok (s', ev ++ ev') /\
  (len <= time s + d ->
   forall j fs, nth_error trs j = Some (Discrete fs 0) -> (forall f, In f fs -> loop <= ftime f) ->
   exists seen, events_of j ev' = map (fun f => Call (fvalue f))
     (filter (due seen (time s + d)) fs ++ filter (fun f => (loop <=? ftime f) && (ftime f <=? time s')) fs)).
Proof.
  intros HP HL HF Hd. assert (HLi : loops_inside len loop) by (intros ?; lia).
  destruct (run_playable trs len loop ops HP HLi HF) as (s & ev & E & I & T & A).
  exists s, ev. split; auto. destruct (interpolate_ok len loop s d I Hd HLi) as (r & s' & ev' & E' & I' & T' & A' & R).
  exists s', ev'. split.
  - assert (G : forall ops (s0 s : state V) ev, run len loop s0 ops = Ok (s, ev) -> run len loop s0 (ops ++ [Interpolate d]) = (do (s', ev') <- run len loop s [Interpolate d]; Ok (s', ev ++ ev'))).
    { clear. generalize [Interpolate d]. intros l. induction ops as [|o ops IH]; intros s0 s ev H; cbn [run app] in *.
      - inversion H; subst. destruct (run len loop s l) as [[? ?]| |]; reflexivity.
      - destruct (step len loop s0 o) as [[s1 e1]| |]; try discriminate. cbn [bind] in *.
        destruct (run len loop s1 ops) as [[s2 e2]| |] eqn:E2; try discriminate. cbn [bind] in H. inversion H; subst.
        rewrite (IH _ _ _ E2). destruct (run len loop s l) as [[s3 e3]| |]; cbn [bind]; auto. now rewrite <- app_assoc. }
    rewrite (G _ _ _ _ E). cbn [run step]. rewrite E'. cbn. now rewrite app_nil_r.
  - intros Hw j fs Hj Hfs. destruct A as (_ & _ & A). destruct (A j _ Hj) as (tr' & Htr & K).
    rewrite Forall_forall in HP. pose proof (HP _ (nth_error_In _ _ Hj)) as HPj. cbn in HPj. destruct HPj as [O _].
    destruct A' as (_ & _ & A'). destruct (A' j _ Htr) as (tr'' & _ & K').
    cbn [clock] in K', T'. replace (loop <? 0) with false in K', T' by lia. replace (0 <=? loop) with true in K', T' by lia.
    rewrite andb_false_r in K', T'. rewrite andb_true_r in K', T'. replace (len <=? time s + d) with true in K', T' by lia. cbn [fst snd] in K', T'.
    destruct I as (seen & FI & Hs). rewrite Forall_forall in FI. pose proof (FI _ (nth_error_In _ _ Htr)) as Q.
    assert (Etr : exists c, tr' = Discrete fs c).
    { clear -K. remember (Discrete fs 0) as tr0 eqn:E0. assert (H : exists c, tr0 = Discrete fs c) by (subst; eauto). clear E0.
      induction K; auto.
      - destruct H as [c ->]. apply IHK. cbn in H1. destruct (advance (skipn c fs) c t). inversion H1; subst. eauto.
      - destruct H as [c ->]. apply IHK. cbn in H0. inversion H0; subst. eauto. }
    destruct Etr as [c ->]. cbn in Q. destruct Q as [_ ->]. exists seen.
    rewrite (fun M => discrete_acts fs O _ seen _ _ _ _ M K') by (cbn; split; [intros u Hu; specialize (Hs u Hu); lia|split; [intros; discriminate|auto]]).
    cbn [play]. rewrite app_nil_r. f_equal. f_equal. rewrite <- T'. apply filter_ext_in. intros f Hf. specialize (Hfs f Hf). unfold due. lia.
Qed.
End Props.
Print Assumptions C108_Animation_discrete.
Print Assumptions C108_Animation_steps.
Print Assumptions C109_Animation_time.
Print Assumptions C110_Animation_loop_partial.

(* three frames; the steps 1, 0, 4, 30 pass two of them, then the third *)
Definition ex_frames : list (frame Z) := [Frame 0 100 0; Frame 3 200 0; Frame 10 300 0].
Definition calls_of (r : res (state Z * list (nat * event Z))) : list (nat * event Z) := match r with Ok (_, ev) => ev | _ => [] end.
Example C108_example :
  playable (Discrete ex_frames 0) /\
  calls_of (run 10 (-1) (St [Discrete ex_frames 0] 0 0) [Interpolate 1; Interpolate 4]) = [(0%nat, Call 100); (0%nat, Call 200)] /\
  calls_of (run 10 (-1) (St [Discrete ex_frames 0] 0 0) [Interpolate 1; Interpolate 4; SetTime 2; Interpolate 30; Interpolate 1; Reset; Interpolate 3]) =
    map (pair 0%nat) [Call 100; Call 200; Call 100; Call 200; Call 300; Call 100; Call 200] /\
  map fvalue (play ex_frames None (snd (clocks 10 (-1) 0 [Interpolate 1; Interpolate 4; SetTime 2; Interpolate 30; Interpolate 1; Reset; Interpolate 3]))) =
    [100; 200; 100; 200; 300; 100; 200].
Proof.
  split; [|vm_compute; auto]. cbn. split; auto. unfold in_order. cbn. repeat constructor; lia.
Qed.
Example C108_steps_example :
  calls_of (run 10 (-1) (St [Discrete ex_frames 0] 0 0) (map Interpolate [2; 0; 3; 1])) = calls_of (run 10 (-1) (St [Discrete ex_frames 0] 0 0) (map Interpolate [6])).
Proof. reflexivity. Qed.
(* length 10, loop point 4: from 9, a step of 15 ends at 4 + (24 - 10) mod 6 = 6 *)
Example C109_example :
  match run 10 4 (St [Discrete ex_frames 0] 0 0) [Interpolate 9; Interpolate 15] with Ok (s, _) => time s = 6 | _ => False end.
Proof. reflexivity. Qed.
Example C110_example :
  match run 10 3 (St [Discrete [Frame 3 200 0; Frame 10 300 0] 0] 0 0) [Interpolate 9; Interpolate 2] with
  | Ok (s, ev) => time s = 4 /\ ev = map (pair 0%nat) [Call 200; Call 300; Call 200]
  | _ => False
  end.
Proof. vm_compute. auto. Qed.

(* the frame at time 0 is before the loop point 3 and is handed out again after the turn *)
Theorem C110_Animation_loop_refuted :
  exists (fs : list (frame Z)) len loop d, playable (Discrete fs 0) /\ 0 <= loop < len /\ 0 <= d /\
    exists s ev, run len loop (St [Discrete fs 0] 0 0) [Interpolate d] = Ok (s, ev) /\ len <= d /\
    exists f, In f fs /\ ftime f < loop /\ (count_occ (fun a b => Z.eq_dec a b) (flat_map (fun x => match snd x with Call v => [v] | _ => [] end) ev) (fvalue f) = 2)%nat.
Proof.
  exists ex_frames, 10, 3, 11. split; [cbn; split; auto; unfold in_order; cbn; repeat constructor; lia|]. split; [lia|]. split; [lia|].
  do 2 eexists. split; [vm_compute; reflexivity|]. split; [lia|]. exists (Frame 0 100 0). split; [now left|]. split; [cbn; lia|]. reflexivity.
Qed.
Print Assumptions C110_Animation_loop_refuted.
