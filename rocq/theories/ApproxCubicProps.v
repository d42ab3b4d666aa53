(* Property C73: ApproxCubic replaces a cubic by a chain of quadratics within the error bound. *)
From Coq Require Import Reals Lra Lia List.
From Verif Require Import Curves CurvesProps.
Import ListNotations.
Local Open Scope R_scope.

(* ---------------- specification ---------------- *)

(* [covers curve e u pieces v]: the quadratics (start, control point, end) form a chain whose joints are the points of the
   curve at increasing parameters from u to v, and each piece stays within e of its arc of the curve *)
Inductive covers (curve : R -> point) (e : R) : R -> list (point * point * point) -> R -> Prop :=
| covers_nil u : covers curve e u [] u
| covers_cons u w v A C B ps :
    u <= w -> same A (curve u) -> same B (curve w) ->
    (forall s, 0 <= s <= 1 -> dist2 (bezier2 A C B s) (curve (u + s * (w - u))) <= e) ->
    covers curve e w ps v ->
    covers curve e u ((A, C, B) :: ps) v.

(* the end of each piece is the start of the next *)
Fixpoint connected (from : point) (ps : list (point * point * point)) (to : point) : Prop :=
  match ps with
  | [] => from = to
  | (A, C, B) :: ps => A = from /\ connected B ps to
  end.

(* FastSqrt has a relative error of at most one half on non-negative numbers *)
Definition rough_sqrt (fs : R -> option R) : Prop :=
  forall x, 0 <= x -> exists y, fs x = Some y /\ Rabs (y - sqrt x) <= sqrt x / 2.

(* ---------------- the error of one piece ---------------- *)

Definition third (P0 P1 P2 P3 : point) : R :=
  let M i := 3 * P1 i - 3 * P2 i - P0 i + P3 i in sqrt (M 0%nat * M 0%nat + M 1%nat * M 1%nat).

Lemma third_pos P0 P1 P2 P3 : 0 <= third P0 P1 P2 P3.
Proof. apply sqrt_pos. Qed.

Lemma sumsq_pos x y : 0 <= x * x + y * y.
Proof. pose proof (Rle_0_sqr x). pose proof (Rle_0_sqr y). unfold Rsqr in *. lra. Qed.

Lemma sqrt_scale k x y : 0 <= k ->
  sqrt ((k * x) * (k * x) + (k * y) * (k * y)) = k * sqrt (x * x + y * y).
Proof.
  intros K. replace ((k * x) * (k * x) + (k * y) * (k * y)) with ((k * k) * (x * x + y * y)) by ring.
  rewrite sqrt_mult; [|apply Rmult_le_pos; auto|apply sumsq_pos]. f_equal. apply sqrt_square. auto.
Qed.

Lemma error_spec fs P0 P1 P2 P3 : rough_sqrt fs ->
  exists e, ApproxCubicError fs P0 P1 P2 P3 = Some e /\
    1 / 10 * third P0 P1 P2 P3 <= e <= third P0 P1 P2 P3.
Proof.
  intros H. unfold ApproxCubicError. cbv beta zeta.
  set (M := fun i => 3 * P1 i - 3 * P2 i - P0 i + P3 i).
  destruct (H (0 + M 0%nat * M 0%nat + M 1%nat * M 1%nat)) as (y & E & B).
  { pose proof (sumsq_pos (M 0%nat) (M 1%nat)). lra. }
  unfold M in E. cbv beta in E. rewrite E. eexists. split; [reflexivity|].
  assert (T : third P0 P1 P2 P3 = sqrt (0 + M 0%nat * M 0%nat + M 1%nat * M 1%nat)).
  { unfold third, M. f_equal. ring. }
  rewrite <- T in B. pose proof (third_pos P0 P1 P2 P3) as TP.
  set (x := third P0 P1 P2 P3) in *.
  assert (B1 : x / 2 <= y <= 3 * x / 2).
  { pose proof (Rle_abs (y - x)). pose proof (Rle_abs (- (y - x))). rewrite Rabs_Ropp in H1. lra. }
  cbn [pow]. lra.
Qed.

(* s (1 - s) (1 - 2 s) is at most 1/5 *)
Lemma bump s : 0 <= s <= 1 -> Rabs (s * (1 - s) * (1 - 2 * s)) <= 1 / 5.
Proof.
  intros [S0 S1].
  assert (A : 0 <= s * (1 - s) <= 1 / 4).
  { split; [apply Rmult_le_pos; lra|]. pose proof (Rle_0_sqr (s - 1 / 2)). unfold Rsqr in *. lra. }
  (* (s(1-s))^2 (1-2s)^2 = q^2 (1 - 4 q) <= 1/25 for q in [0, 1/4] *)
  set (q := s * (1 - s)) in *.
  assert (E : (q * (1 - 2 * s)) * (q * (1 - 2 * s)) = q * q * (1 - 4 * q)) by (unfold q; ring).
  apply Rabs_le.
  assert (Q2 : q * q <= 1 / 4 * q).
  { apply Rmult_le_compat_r; lra. }
  assert (Q : q * q * (1 - 4 * q) <= 1 / 5 * (1 / 5)).
  { assert (0 <= q * (1 - 4 * q)) by (apply Rmult_le_pos; lra).
    assert (q * (1 - 4 * q) <= 1 / 16).
    { pose proof (Rle_0_sqr (q - 1 / 8)). unfold Rsqr in *. lra. }
    replace (q * q * (1 - 4 * q)) with (q * (q * (1 - 4 * q))) by ring.
    apply Rle_trans with (1 / 4 * (1 / 16)); [|lra]. apply Rmult_le_compat; lra. }
  rewrite <- E in Q.
  set (z := q * (1 - 2 * s)) in *. clearbody z.
  split.
  - destruct (Rle_lt_dec (- (1 / 5)) z); auto. exfalso.
    assert (0 < (- z - 1 / 5) * (- z + 1 / 5)) by (apply Rmult_lt_0_compat; lra). lra.
  - destruct (Rle_lt_dec z (1 / 5)); auto. exfalso.
    assert (0 < (z - 1 / 5) * (z + 1 / 5)) by (apply Rmult_lt_0_compat; lra). lra.
Qed.

Lemma piece_error P0 P1 P2 P3 s : 0 <= s <= 1 ->
  dist2 (bezier2 P0 (control P0 P1 P2 P3) P3 s) (bezier3 P0 P1 P2 P3 s) <= 1 / 10 * third P0 P1 P2 P3.
Proof.
  intros H. pose proof (bump s H) as B.
  set (k := s * (1 - s) * (1 - 2 * s) / 2) in *.
  assert (D : forall i, bezier2 P0 (control P0 P1 P2 P3) P3 s i - bezier3 P0 P1 P2 P3 s i =
                        - k * (3 * P1 i - 3 * P2 i - P0 i + P3 i)).
  { intros i. unfold bezier2, bezier3, control, k. field. }
  unfold dist2, third. rewrite !D.
  set (x := 3 * P1 0%nat - 3 * P2 0%nat - P0 0%nat + P3 0%nat).
  set (y := 3 * P1 1%nat - 3 * P2 1%nat - P0 1%nat + P3 1%nat).
  replace ((- k * x) ^ 2 + (- k * y) ^ 2) with ((Rabs k * x) * (Rabs k * x) + (Rabs k * y) * (Rabs k * y)).
  - rewrite sqrt_scale by apply Rabs_pos. apply Rmult_le_compat_r; [apply sqrt_pos|].
    unfold k. unfold Rdiv. rewrite Rabs_mult, (Rabs_right (/ 2)) by lra. lra.
  - replace ((Rabs k * x) * (Rabs k * x) + (Rabs k * y) * (Rabs k * y)) with ((Rabs k * Rabs k) * (x * x + y * y)) by ring.
    rewrite <- Rabs_mult, Rabs_right by (apply Rle_ge; apply (Rle_0_sqr k)). ring.
Qed.

Lemma dist2_same a b a' b' : same a a' -> same b b' -> dist2 a b = dist2 a' b'.
Proof. intros H1 H2. unfold dist2. rewrite !H1, !H2. reflexivity. Qed.

Lemma covers_app curve e u v w l1 l2 :
  covers curve e u l1 v -> covers curve e v l2 w -> covers curve e u (l1 ++ l2) w.
Proof. induction 1; cbn; auto. intros. econstructor; eauto. Qed.

Lemma connected_app : forall l1 a b c l2, connected a l1 b -> connected b l2 c -> connected a (l1 ++ l2) c.
Proof.
  induction l1 as [|((A, C), B) l1 IH]; cbn; intros a b c l2 H1 H2; [subst; auto|].
  destruct H1. split; auto. eapply IH; eauto.
Qed.

(* the control points are those of the arc of the curve from u to v *)
Definition arc (curve : R -> point) (u v : R) (P0 P1 P2 P3 : point) : Prop :=
  forall s, same (bezier3 P0 P1 P2 P3 s) (curve (u + s * (v - u))).

Lemma arc_start curve u v P0 P1 P2 P3 : arc curve u v P0 P1 P2 P3 -> same P0 (curve u).
Proof.
  intros H i. specialize (H 0 i). replace (u + 0 * (v - u)) with u in H by ring. rewrite <- H.
  unfold bezier3. ring.
Qed.

Lemma arc_end curve u v P0 P1 P2 P3 : arc curve u v P0 P1 P2 P3 -> same P3 (curve v).
Proof.
  intros H i. specialize (H 1 i). replace (u + 1 * (v - u)) with v in H by ring. rewrite <- H.
  unfold bezier3. ring.
Qed.

Lemma arc_split curve u v t P0 P1 P2 P3 N1 N2 N3 R1 R2 :
  arc curve u v P0 P1 P2 P3 -> SplitCubic t P0 P1 P2 P3 = (N1, N2, N3, R1, R2) ->
  arc curve u (u + t * (v - u)) P0 N1 N2 N3 /\ arc curve (u + t * (v - u)) v N3 R1 R2 P3.
Proof.
  intros H E. split; intros s i; destruct (C72_SplitCubic _ _ _ _ _ _ _ _ _ _ E s) as [E1 E2].
  - rewrite E1, H. f_equal. ring.
  - rewrite E2, H. f_equal. ring.
Qed.

Lemma single curve e u v fs P0 P1 P2 P3 : rough_sqrt fs -> u <= v -> arc curve u v P0 P1 P2 P3 ->
  above (ApproxCubicError fs P0 P1 P2 P3) e = false ->
  covers curve e u [(P0, control P0 P1 P2 P3, P3)] v.
Proof.
  intros F U H A. econstructor; eauto using arc_start, arc_end; [|constructor].
  intros s S. destruct (error_spec fs P0 P1 P2 P3 F) as (x & E & [B _]). rewrite E in A. cbn in A.
  destruct (Rgt_dec x e); [discriminate|].
  rewrite (dist2_same _ _ (bezier2 P0 (control P0 P1 P2 P3) P3 s) (bezier3 P0 P1 P2 P3 s)).
  - pose proof (piece_error P0 P1 P2 P3 s S). lra.
  - intros i. reflexivity.
  - intros i. symmetry. apply H.
Qed.

Lemma ApproxCubicR_sound fs curve e : rough_sqrt fs ->
  forall fuel t0 t1 t2 P0 P1 P2 P3 u v ps,
  0 <= t0 -> t0 <= t1 -> t1 <= t2 -> t2 <= 1 -> u <= v ->
  arc curve u v P0 P1 P2 P3 ->
  ApproxCubicR fs fuel t0 t1 t2 P0 P1 P2 P3 e = Some ps ->
  covers curve e u ps v /\ connected P0 ps P3.
Proof.
  intros F. induction fuel as [|fuel IH]; intros t0 t1 t2 P0 P1 P2 P3 u v ps T0 T1 T2 T3 U H E; [discriminate|].
  cbn [ApproxCubicR] in E.
  destruct (SplitCubic t1 P0 P1 P2 P3) as [[[[N1 N2] N3] R1] R2] eqn:S.
  destruct (arc_split _ _ _ _ _ _ _ _ _ _ _ _ _ H S) as [HL HR].
  assert (U1 : u <= u + t1 * (v - u)).
  { assert (0 <= t1 * (v - u)) by (apply Rmult_le_pos; lra). lra. }
  assert (U2 : u + t1 * (v - u) <= v).
  { assert (0 <= (1 - t1) * (v - u)) by (apply Rmult_le_pos; lra). lra. }
  destruct (if above (ApproxCubicError fs P0 N1 N2 N3) e then _ else _) as [l|] eqn:EL; [|discriminate].
  destruct (if above (ApproxCubicError fs N3 R1 R2 P3) e then _ else _) as [r|] eqn:ER; [|discriminate].
  injection E as <-.
  assert (GL : covers curve e u l (u + t1 * (v - u)) /\ connected P0 l N3).
  { destruct (above (ApproxCubicError fs P0 N1 N2 N3) e) eqn:A.
    - eapply IH in EL; eauto; lra.
    - injection EL as <-. split; [eapply single; eauto|]. cbn. auto. }
  assert (GR : covers curve e (u + t1 * (v - u)) r v /\ connected N3 r P3).
  { destruct (above (ApproxCubicError fs N3 R1 R2 P3) e) eqn:A.
    - eapply IH in ER; eauto; lra.
    - injection ER as <-. split; [eapply single; eauto|]. cbn. auto. }
  destruct GL, GR. split; [eapply covers_app; eauto|eapply connected_app; eauto].
Qed.

(* ---------------- termination ---------------- *)

Lemma third_split t P0 P1 P2 P3 N1 N2 N3 R1 R2 : 0 <= t <= 1 ->
  SplitCubic t P0 P1 P2 P3 = (N1, N2, N3, R1, R2) ->
  third P0 N1 N2 N3 = t ^ 3 * third P0 P1 P2 P3 /\ third N3 R1 R2 P3 = (1 - t) ^ 3 * third P0 P1 P2 P3.
Proof.
  intros [T0 T1] E. injection E as <- <- <- <- <-. unfold third, lerp.
  assert (0 <= t ^ 3) by (apply pow_le; auto). assert (0 <= (1 - t) ^ 3) by (apply pow_le; lra).
  split; rewrite <- sqrt_scale by auto; f_equal; ring.
Qed.

Section Stops.
Context (fs : R -> option R) (F : rough_sqrt fs) (e : R) (E : 0 < e).

Definition stops t0 t1 t2 P0 P1 P2 P3 : Prop :=
  exists n0, forall n, (n0 <= n)%nat -> exists ps, ApproxCubicR fs n t0 t1 t2 P0 P1 P2 P3 e = Some ps.

Lemma small_stops P0 P1 P2 P3 : third P0 P1 P2 P3 <= e -> above (ApproxCubicError fs P0 P1 P2 P3) e = false.
Proof.
  intros H. destruct (error_spec fs P0 P1 P2 P3 F) as (x & -> & [_ B]). cbn.
  destruct (Rgt_dec x e); auto. lra.
Qed.

Lemma stops_step t0 t1 t2 P0 P1 P2 P3 : 0 <= t1 <= 1 ->
  (forall N1 N2 N3 : point, third P0 N1 N2 N3 = t1 ^ 3 * third P0 P1 P2 P3 ->
     third P0 N1 N2 N3 <= e \/ stops t0 ((t1 + t0) / 2) t1 P0 N1 N2 N3) ->
  (forall N3 R1 R2 : point, third N3 R1 R2 P3 = (1 - t1) ^ 3 * third P0 P1 P2 P3 ->
     third N3 R1 R2 P3 <= e \/ stops t1 ((t2 + t1) / 2) t2 N3 R1 R2 P3) ->
  stops t0 t1 t2 P0 P1 P2 P3.
Proof.
  intros T HL HR.
  destruct (SplitCubic t1 P0 P1 P2 P3) as [[[[N1 N2] N3] R1] R2] eqn:SP.
  destruct (third_split _ _ _ _ _ _ _ _ _ _ T SP) as [EL ER].
  assert (GL : exists n0, forall n, (n0 <= n)%nat -> exists l,
    (if above (ApproxCubicError fs P0 N1 N2 N3) e then
       ApproxCubicR fs n t0 ((t1 + t0) / 2) t1 P0 N1 N2 N3 e
     else Some [(P0, control P0 N1 N2 N3, N3)]) = Some l).
  { destruct (HL N1 N2 N3 EL) as [Q|[n0 Q]].
    - exists 0%nat. intros n _. rewrite small_stops by auto. eauto.
    - exists n0. intros n Hn. destruct (above (ApproxCubicError fs P0 N1 N2 N3) e); [apply Q; auto|eauto]. }
  assert (GR : exists n0, forall n, (n0 <= n)%nat -> exists l,
    (if above (ApproxCubicError fs N3 R1 R2 P3) e then
       ApproxCubicR fs n t1 ((t2 + t1) / 2) t2 N3 R1 R2 P3 e
     else Some [(N3, control N3 R1 R2 P3, P3)]) = Some l).
  { destruct (HR N3 R1 R2 ER) as [Q|[n0 Q]].
    - exists 0%nat. intros n _. rewrite small_stops by auto. eauto.
    - exists n0. intros n Hn. destruct (above (ApproxCubicError fs N3 R1 R2 P3) e); [apply Q; auto|eauto]. }
  destruct GL as [n1 GL], GR as [n2 GR]. exists (S (n1 + n2)). intros [|n] Hn; [lia|].
  cbn [ApproxCubicR]. rewrite SP.
  destruct (GL n ltac:(lia)) as [l ->]. destruct (GR n ltac:(lia)) as [r ->]. eauto.
Qed.

Lemma cube_le x c : 0 <= x -> x <= c -> c <= 1 -> x ^ 3 <= c.
Proof.
  intros H0 H1 H2. apply Rle_trans with x; auto.
  replace (x ^ 3) with (x * (x * x)) by ring. rewrite <- (Rmult_1_r x) at 4.
  apply Rmult_le_compat_l; auto. rewrite <- (Rmult_1_r 1). apply Rmult_le_compat; lra.
Qed.

Lemma interior_stops eps : 0 < eps -> forall k t0 t1 t2 P0 P1 P2 P3,
  eps <= t0 -> t0 <= t1 -> t1 <= t2 -> t2 <= 1 - eps ->
  (1 - eps) ^ k * third P0 P1 P2 P3 <= e -> stops t0 t1 t2 P0 P1 P2 P3.
Proof.
  intros He. induction k as [|k IH]; intros t0 t1 t2 P0 P1 P2 P3 T0 T1 T2 T3 H.
  - cbn [pow] in H. pose proof (third_pos P0 P1 P2 P3) as TP.
    apply stops_step; [lra| |]; intros; left; rewrite H0.
    + apply Rle_trans with (1 * third P0 P1 P2 P3); [|lra]. apply Rmult_le_compat_r; auto. apply cube_le; lra.
    + apply Rle_trans with (1 * third P0 P1 P2 P3); [|lra]. apply Rmult_le_compat_r; auto. apply cube_le; lra.
  - pose proof (third_pos P0 P1 P2 P3) as TP. cbn [pow] in H.
    assert (K : 0 <= (1 - eps) ^ k) by (apply pow_le; lra).
    apply stops_step; [lra| |]; intros ? ? ? HS; right; (apply IH; [lra ..|]); rewrite HS.
    + apply Rle_trans with ((1 - eps) ^ k * ((1 - eps) * third P0 P1 P2 P3)); [|lra].
      apply Rmult_le_compat_l; auto. apply Rmult_le_compat_r; auto. apply cube_le; lra.
    + apply Rle_trans with ((1 - eps) ^ k * ((1 - eps) * third P0 P1 P2 P3)); [|lra].
      apply Rmult_le_compat_l; auto. apply Rmult_le_compat_r; auto. apply cube_le; lra.
Qed.

Lemma pow_small c x : 0 <= c < 1 -> 0 <= x -> exists k, c ^ k * x <= e.
Proof.
  intros [C0 C1] X.
  destruct (pow_lt_1_zero c) with (y := e / (x + 1)) as [k Hk].
  - rewrite Rabs_right; lra.
  - apply Rdiv_lt_0_compat; lra.
  - exists k. specialize (Hk k (Nat.le_refl k)).
    rewrite Rabs_right in Hk by (apply Rle_ge, pow_le; auto).
    apply Rle_trans with (e / (x + 1) * x).
    + apply Rmult_le_compat_r; lra.
    + unfold Rdiv. rewrite Rmult_assoc. rewrite <- (Rmult_1_r e) at 2. apply Rmult_le_compat_l; [lra|].
      apply (Rmult_le_reg_r (x + 1)); [lra|]. replace (/ (x + 1) * x * (x + 1)) with x; [lra|field; lra].
Qed.

Lemma inside_stops t0 t1 t2 P0 P1 P2 P3 :
  0 < t0 -> t0 <= t1 -> t1 <= t2 -> t2 < 1 -> stops t0 t1 t2 P0 P1 P2 P3.
Proof.
  intros T0 T1 T2 T3. set (eps := Rmin t0 (1 - t2)).
  assert (0 < eps) by (unfold eps; apply Rmin_glb_lt; lra).
  pose proof (Rmin_l t0 (1 - t2)) as L1. pose proof (Rmin_r t0 (1 - t2)) as L2. fold eps in L1, L2.
  destruct (pow_small (1 - eps) (third P0 P1 P2 P3)) as [k Hk]; [lra|apply third_pos|].
  apply interior_stops with eps k; auto; lra.
Qed.

Lemma left_stops : forall k b P0 P1 P2 P3, 0 < b < 1 ->
  (1 / 2) ^ k * third P0 P1 P2 P3 <= e -> stops 0 (b / 2) b P0 P1 P2 P3.
Proof.
  induction k as [|k IH]; intros b P0 P1 P2 P3 B H; pose proof (third_pos P0 P1 P2 P3) as TP; cbn [pow] in H.
  - apply stops_step; [lra| |]; intros; left; rewrite H0.
    + apply Rle_trans with (1 * third P0 P1 P2 P3); [|lra]. apply Rmult_le_compat_r; auto. apply cube_le; lra.
    + apply Rle_trans with (1 * third P0 P1 P2 P3); [|lra]. apply Rmult_le_compat_r; auto. apply cube_le; lra.
  - apply stops_step; [lra| |]; intros ? ? ? HS; right.
    + replace ((b / 2 + 0) / 2) with (b / 2 / 2) by lra. apply IH; [lra|]. rewrite HS.
      apply Rle_trans with ((1 / 2) ^ k * (1 / 2 * third P0 P1 P2 P3)); [|lra].
      apply Rmult_le_compat_l; [apply pow_le; lra|]. apply Rmult_le_compat_r; auto. apply cube_le; lra.
    + apply inside_stops; lra.
Qed.

Lemma right_stops : forall k a P0 P1 P2 P3, 0 < a < 1 ->
  (1 / 2) ^ k * third P0 P1 P2 P3 <= e -> stops a ((1 + a) / 2) 1 P0 P1 P2 P3.
Proof.
  induction k as [|k IH]; intros a P0 P1 P2 P3 A H; pose proof (third_pos P0 P1 P2 P3) as TP; cbn [pow] in H.
  - apply stops_step; [lra| |]; intros; left; rewrite H0.
    + apply Rle_trans with (1 * third P0 P1 P2 P3); [|lra]. apply Rmult_le_compat_r; auto. apply cube_le; lra.
    + apply Rle_trans with (1 * third P0 P1 P2 P3); [|lra]. apply Rmult_le_compat_r; auto. apply cube_le; lra.
  - apply stops_step; [lra| |]; intros ? ? ? HS; right.
    + apply inside_stops; lra.
    + apply IH; [lra|]. rewrite HS.
      apply Rle_trans with ((1 / 2) ^ k * (1 / 2 * third P0 P1 P2 P3)); [|lra].
      apply Rmult_le_compat_l; [apply pow_le; lra|]. apply Rmult_le_compat_r; auto. apply cube_le; lra.
Qed.

Lemma half_small P0 P1 P2 P3 : exists k, (1 / 2) ^ k * third P0 P1 P2 P3 <= e.
Proof. apply pow_small; [lra|apply third_pos]. Qed.

Lemma proper_stops t P0 P1 P2 P3 : 0 < t < 1 -> stops 0 t 1 P0 P1 P2 P3.
Proof.
  intros T. apply stops_step; [lra| |]; intros A B C _; right.
  - destruct (half_small P0 A B C) as [k Hk]. replace ((t + 0) / 2) with (t / 2) by lra.
    apply left_stops with k; auto.
  - destruct (half_small A B C P3) as [k Hk]. apply right_stops with k; auto.
Qed.

Lemma root_stops t P0 P1 P2 P3 : 0 <= t <= 1 -> stops 0 t 1 P0 P1 P2 P3.
Proof.
  intros T. destruct (Req_EM_T t 0) as [->|T0]; [|destruct (Req_EM_T t 1) as [->|T1]].
  - apply stops_step; [lra| |]; intros A B C HS.
    + left. rewrite HS. cbn [pow]. lra.
    + right. apply proper_stops. lra.
  - apply stops_step; [lra| |]; intros A B C HS.
    + right. apply proper_stops. lra.
    + left. rewrite HS. cbn [pow]. lra.
  - apply proper_stops. lra.
Qed.

End Stops.

(* ---------------- C73 ---------------- *)

(* Whatever the control points and for every positive error bound, ApproxCubic comes back, and the quadratics it reports
   form a connected chain from P0 to P3 along the cubic, no point of which is farther than the bound from the
   corresponding point of the cubic. *)
Theorem C73_ApproxCubic fs P0 P1 P2 P3 e :
  rough_sqrt fs -> 0 < e ->
  exists n0, forall n, (n0 <= n)%nat -> exists ps,
    ApproxCubic fs n P0 P1 P2 P3 e = Some ps /\
    covers (bezier3 P0 P1 P2 P3) e 0 ps 1 /\ connected P0 ps P3.
Proof.
  intros F E. unfold ApproxCubic.
  destruct (CubicInflectionPoints fs P0 P1 P2 P3) as [r0 r1].
  set (t := match in_unit r0 with Some x => x | None => match in_unit r1 with Some x => x | None => 1 / 2 end end).
  assert (U : forall r x, in_unit r = Some x -> 0 <= x <= 1).
  { intros [y|] x; cbn; [|discriminate]. destruct (Rle_dec 0 y); [|discriminate].
    destruct (Rle_dec y 1); [|discriminate]. intros H. injection H as <-. lra. }
  assert (T : 0 <= t <= 1).
  { unfold t. destruct (in_unit r0) eqn:E0; eauto. destruct (in_unit r1) eqn:E1; eauto. lra. }
  destruct (root_stops fs F e E t P0 P1 P2 P3 T) as [n0 H]. exists n0. intros n Hn.
  destruct (H n Hn) as [ps Hps]. exists ps. split; auto.
  eapply ApproxCubicR_sound; eauto; try lra.
  intros s i. f_equal. ring.
Qed.
Print Assumptions C73_ApproxCubic.

(* the exact square root is one of the functions allowed, and a cubic whose third difference is 300 is not reported as
   one or two pieces *)
Example C73_example :
  rough_sqrt (fun x => Some (sqrt x)) /\
  third (fun _ => 0) (fun i => match i with O => 100 | _ => 0 end) (fun _ => 0) (fun _ => 0) = 300.
Proof.
  split.
  - intros x X. exists (sqrt x). split; auto. replace (sqrt x - sqrt x) with 0 by ring.
    rewrite Rabs_R0. pose proof (sqrt_pos x). lra.
  - unfold third. replace (_ + _) with (300 * 300) by ring. apply sqrt_square. lra.
Qed.
