From Coq Require Import ZArith List Bool QArith Qcanon Qround Lia ZifyBool.
From Verif Require Import Common Profiler ProfilerProps Timer.
Import ListNotations.
Local Open Scope Z_scope.

(** Specification *)
(** the time is the sum of the increments that were reported after each operation since the last ResetTime *)
Fixpoint reported (s : timer) (l : list top) (sum : Z) : Z :=
  match l with
  | [] => sum
  | o :: r => let s' := tstep s o in
      reported s' r (match o with TResetTime => 0 | TResetDelta _ => sum | _ => sum + nsDelta s' end)
  end.
(** the latest of some readings of the clock *)
Definition latest (now : Z) (l : list Z) : Z := fold_left Z.max l now.

(** Proofs *)
Theorem C132_time : forall now l, let s := trun now l in
  nsTime s = (reported (timer_init now) l 0) mod 2 ^ 64 /\ time s = (Qcz (nsTime s) / Qcz 1000000)%Qc.
Proof.
  intros now l. unfold trun.
  assert (forall l s sum, nsTime s = sum mod 2 ^ 64 -> time s = (Qcz (nsTime s) / Qcz 1000000)%Qc ->
    nsTime (fold_left tstep l s) = (reported s l sum) mod 2 ^ 64 /\ time (fold_left tstep l s) = (Qcz (nsTime (fold_left tstep l s)) / Qcz 1000000)%Qc) as G.
  { clear. induction l as [|o l IH]; intros s sum H1 H2; [split; assumption |]. cbn [fold_left reported]. cbv zeta.
    assert (forall d now ns, nsTime (advance d now ns s) = (sum + nsDelta (advance d now ns s)) mod 2 ^ 64 /\
       time (advance d now ns s) = (Qcz (nsTime (advance d now ns s)) / Qcz 1000000)%Qc) as A.
    { intros d now ns. unfold advance. cbn [nsTime time nsDelta]. split; [| reflexivity]. rewrite H1. unfold wrap. apply Zplus_mod_idemp_l. }
    destruct o as [now | w now | ns now | d now | | now]; apply IH; cbn [tstep].
    all: try (apply A).
    - unfold UpdateWarp. destruct (Qc_eq_dec w (Qcz 1)); apply A.
    - unfold UpdateWarp. destruct (Qc_eq_dec w (Qcz 1)); apply A.
    - reflexivity.
    - unfold ResetTime. cbn [time nsTime]. apply Qc_is_canon. reflexivity.
    - exact H1.
    - exact H2. }
  apply G; [reflexivity |]. apply Qc_is_canon. reflexivity.
Qed.
Print Assumptions C132_time.
(** updates at any readings of the clock, also ones that go back: the time is that from the start to the latest reading, no
    increment is negative, and both units agree *)
Theorem C132_updates : forall now l, 0 <= now < 2 ^ 64 -> Forall (fun t => 0 <= t < 2 ^ 64) l ->
  let s := trun now (map TUpdate l) in
  nsTime s = latest now l - now /\ curTime s = latest now l /\
  forall t, 0 <= t < 2 ^ 64 -> let s' := Update t s in
    nsDelta s' = Z.max t (curTime s) - curTime s /\ delta s' = (Qcz (nsDelta s') / Qcz 1000000)%Qc.
Proof.
  intros now l B F. unfold trun.
  assert (forall l s, Forall (fun t => 0 <= t < 2 ^ 64) l -> now <= curTime s < 2 ^ 64 -> nsTime s = curTime s - now ->
    let s' := fold_left tstep (map TUpdate l) s in nsTime s' = latest (curTime s) l - now /\ curTime s' = latest (curTime s) l /\ now <= curTime s' < 2 ^ 64) as G.
  { clear l F. induction l as [|t l IH]; intros s F C N; cbn [map fold_left]; [cbv zeta; unfold latest; cbn [fold_left]; split; [exact N | split; [reflexivity | exact C]] |].
    inversion F as [|? ? Bt F']; subst. cbn [tstep]. assert (curTime (Update t s) = Z.max (curTime s) t) as E1.
    { unfold Update, advance. cbn [curTime]. destruct (Z.ltb_spec t (curTime s)); lia. }
    assert (nsTime (Update t s) = curTime (Update t s) - now) as E2.
    { rewrite E1. unfold Update, advance. cbn [nsTime]. rewrite N. unfold wrap. rewrite Zplus_mod_idemp_r. destruct (Z.ltb_spec t (curTime s)); rewrite Z.mod_small; lia. }
    pose proof (IH (Update t s) F' ltac:(rewrite E1; lia) E2) as X. cbv zeta in *. unfold latest in *. cbn [fold_left]. rewrite E1 in X. exact X. }
  destruct (G l (timer_init now) F) as (X & Y & W); [cbn; lia | cbn; lia |]. cbn [timer_init ResetDelta curTime] in X, Y.
  split; [exact X | split; [exact Y |]]. intros t Bt. cbv zeta. unfold Update, advance. cbn [nsDelta delta]. split; [| reflexivity].
  unfold wrap. destruct (Z.ltb_spec t (curTime (fold_left tstep (map TUpdate l) (timer_init now)))); rewrite Z.mod_small by lia; lia.
Qed.
Print Assumptions C132_updates.
Theorem C132_override : forall s ns now, delta (OverrideNS ns now s) = (Qcz ns / Qcz 1000000)%Qc /\ nsDelta (OverrideNS ns now s) = ns /\
  forall d, let s' := OverrideMS d now s in delta s' = d /\ (Qcz (nsDelta s') <= d * Qcz 1000000)%Qc /\ (d * Qcz 1000000 < Qcz (nsDelta s' + 1))%Qc.
Proof.
  intros s ns now. split; [reflexivity | split; [reflexivity |]]. intros d s'. split; [reflexivity |].
  assert (nsDelta s' = Qfloor (this (d * Qcz 1000000)%Qc)) as E by reflexivity. rewrite E.
  assert (forall z, this (Qcz z) == inject_Z z)%Q as T. { intros z. unfold Qcz. cbn [this Q2Qc]. apply Qred_correct. }
  split.
  - unfold Qcle. rewrite T. apply Qfloor_le.
  - unfold Qclt. rewrite T. apply Qlt_floor.
Qed.
Print Assumptions C132_override.
(** with a time warp the two units disagree: the milliseconds are divided by it, the nanoseconds multiplied *)
Theorem C132_warp_refuted : exists s, delta (UpdateWarp (Qcz 2) 4000000 s) = Qcz 2 /\ nsDelta (UpdateWarp (Qcz 2) 4000000 s) = 8000000.
Proof. exists (timer_init 0). split; [apply Qc_is_canon; vm_compute; reflexivity | vm_compute; reflexivity]. Qed.
Print Assumptions C132_warp_refuted.
Example C132_example : nsTime (trun 100 (map TUpdate [150; 120; 400])) = 300 /\ latest 100 [150; 120; 400] = 400 /\
  reported (timer_init 100) [TUpdate 150; TResetTime; TOverrideNS 7 200; TResetDelta 300; TUpdate 310] 0 = 17.
Proof. split; [vm_compute; reflexivity | split; vm_compute; reflexivity]. Qed.
