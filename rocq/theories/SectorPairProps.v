(* C161: two circle sectors. *)
From Coq Require Import Reals List Arith ZArith Lia Lra Psatz Bool.
From Verif Require Import Collision SphereProps CircleProps LineProps AngleProps Sector SectorProps SectorLineProps.
Import ListNotations.
Local Open Scope R_scope.

(** The call for the other sector given as a sector. *)
Definition collide (eps : R) (s o : sector) : bool :=
  sectorSectorCollide eps s (s_x o) (s_y o) (s_inner o) (s_outer o) (s_min o) (s_range o).

Lemma at_region s u v : proper s -> region s u v -> in_sector s (s_x s + u, s_y s + v).
Proof.
  intros PS G. apply in_sector_local; [exact PS|]. cbn [fst snd]. replace (s_x s + u - s_x s) with u by ring.
  replace (s_y s + v - s_y s) with v by ring. exact G.
Qed.
Lemma at_polar s d a : s_inner s <= d <= s_outer s -> s_min s <= a <= s_min s + s_range s -> in_sector s (s_x s + d * cos a, s_y s + - (d * sin a)).
Proof. intros D A. exists d, a. split; [exact D|]. split; [exact A|]. f_equal. Qed.

(** A point at a given distance and in the range of angles. *)
Lemma at_arc s u v rad : proper s -> s_inner s <= rad <= s_outer s -> 0 < rad -> u * u + v * v = rad * rad ->
  RadiusSectorContainsPointAngle u v (s_min s) (s_range s) = true -> in_sector s (s_x s + u, s_y s + v).
Proof.
  intros PS B RP E T. apply at_region; [exact PS|]. destruct PS as [IO R0]. split; [rewrite E; split; nra|].
  apply angle_test in T; [exact T|exact R0|]. destruct (Req_dec u 0) as [Z|Z]; [right; rewrite Z in E; nra|left; exact Z].
Qed.

Section Two.
Context (s o : sector) (PS : proper s) (PO : proper o).
Let X := s_x o - s_x s.
Let Y := s_y o - s_y s.
Let found : Prop := meet (in_sector s) (in_sector o).

Lemma both_here u v : in_sector s (s_x s + u, s_y s + v) -> in_sector o (s_x o + (u - X), s_y o + (v - Y)) -> found.
Proof.
  intros A B. exists (s_x s + u, s_y s + v). split; [exact A|]. replace (s_x s + u) with (s_x o + (u - X)) by (unfold X; ring).
  replace (s_y s + v) with (s_y o + (v - Y)) by (unfold Y; ring). exact B.
Qed.

Lemma arcs rad Rad : (X <> 0 \/ Y <> 0) -> s_inner s <= rad <= s_outer s -> 0 < rad -> s_inner o <= Rad <= s_outer o -> 0 < Rad ->
  checkBothAngles X Y (CircleRadiusIntersect rad X Y Rad) (s_min s) (s_range s) (s_min o) (s_range o) = true -> found.
Proof.
  intros N B B0 C C0 T. unfold checkBothAngles in T. apply existsb_exists in T. destruct T as [[u v] [I T]]. cbn [fst snd] in T.
  apply andb_true_iff in T. destruct T as [T1 T2]. apply circle_points in I; [|lra|lra|exact N]. destruct I as [I1 I2].
  apply (both_here u v); [apply (at_arc s u v rad)|apply (at_arc o (u - X) (v - Y) Rad)]; assumption.
Qed.

Lemma rays A a : s_min o <= A <= s_min o + s_range o -> s_min s <= a <= s_min s + s_range s ->
  rayRayIntersect X Y (s_inner o) (s_outer o) A (s_inner s) (s_outer s) a = true -> found.
Proof.
  intros BA Ba T. unfold rayRayIntersect, lineRayIntersect in T. destruct PO as [IO _]. destruct PS as [IS _].
  match type of T with LineSegmentLineSegmentCollide ?a1 ?a2 ?a3 ?a4 ?b1 ?b2 ?b3 ?b4 = _ =>
    destruct (C91_LineSegmentLineSegmentCollide_partial a1 a2 a3 a4 b1 b2 b3 b4) as [C N] end.
  match type of C with crossing ?a1 ?a2 ?a3 ?a4 ?b1 ?b2 ?b3 ?b4 -> _ => destruct (Req_dec ((a3 - a1) * (b4 - b2)) ((b3 - b1) * (a4 - a2))) as [E|E] end.
  { rewrite N in T; [discriminate|]. unfold crossing. tauto. }
  apply (C E) in T. destruct T as [p [[w [W P1]] [t [T P2]]]]. unfold line_at in P1, P2. rewrite P1 in P2. injection P2 as Q1 Q2.
  set (d := s_inner s + w * (s_outer s - s_inner s)). set (D := s_inner o + t * (s_outer o - s_inner o)).
  apply (both_here (d * cos a) (- (d * sin a))); [apply at_polar; [unfold d; nra|exact Ba]|].
  replace (d * cos a - X) with (D * cos A) by (unfold d, D; lra). replace (- (d * sin a) - Y) with (- (D * sin A)) by (unfold d, D; lra).
  apply at_polar; [unfold D; nra|exact BA].
Qed.
End Two.

(** An edge of [s], in the direction [a], and an arc of [o]. *)
Lemma ray_arc s o a rad : proper s -> proper o -> s_min s <= a <= s_min s + s_range s -> s_inner o <= rad <= s_outer o -> 0 < rad ->
  intersectRayCircle (s_x o - s_x s) (s_y o - s_y s) rad (s_inner s) (s_outer s) a (s_min o) (s_range o) = true ->
  meet (in_sector s) (in_sector o).
Proof.
  intros PS PO Ba B B0 T. unfold intersectRayCircle, checkAngles in T. apply existsb_exists in T. destruct T as [p [I T]].
  assert (IS : 0 <= s_inner s < s_outer s) by apply PS.
  apply C89_intersections in I.
  2: { pose proof (sq_cs a) as Q. destruct (Req_dec (cos a) 0) as [Z|Z].
       - right. intros E. assert (F : sin a * (s_outer s - s_inner s) = 0) by lra. apply Rmult_integral in F. destruct F as [F|F]; [rewrite Z, F in Q|]; lra.
       - left. intros E. assert (F : cos a * (s_outer s - s_inner s) = 0) by lra. apply Rmult_integral in F. lra. }
  destruct I as [[w [W ->]] C]. unfold line_at in *. cbn [fst snd] in *. unfold on_circle in C. cbn [fst snd] in C. rewrite !Rminus_0_r in C.
  set (d := s_inner s + w * (s_outer s - s_inner s)).
  apply (both_here s o (d * cos a) (- (d * sin a))); [apply at_polar; [unfold d; nra|exact Ba]|].
  apply (at_arc o _ _ rad PO B B0).
  - rewrite <- C. unfold d. f_equal; f_equal; ring.
  - rewrite <- T. unfold d. f_equal; ring.
Qed.

Lemma meet_sym (A B : point -> Prop) : meet A B -> meet B A.
Proof. intros [p [U V]]. exists p. auto. Qed.

(** The two circles that the third check compares by mistake: the inner circle of the other sector moved to the centre of
    this one, and the outer circle of this one moved to the centre of the other. *)
Definition exchanged_cross (s o : sector) : Prop :=
  exists u v, u * u + v * v = s_inner o * s_inner o /\
    (u - (s_x o - s_x s)) * (u - (s_x o - s_x s)) + (v - (s_y o - s_y s)) * (v - (s_y o - s_y s)) = s_outer s * s_outer s.

(** When the other sector has no hole or these two circles do not cross, and the centres are the same or told apart, a
    pair reported has a point in common. *)
Theorem C161_sound_partial : forall eps s o, proper s -> proper o -> s_inner o = 0 \/ ~ exchanged_cross s o -> 0 <= eps ->
  (s_x o = s_x s /\ s_y o = s_y s) \/ ~ (Rabs (s_x o - s_x s) <= eps /\ Rabs (s_y o - s_y s) <= eps) ->
  collide eps s o = true -> meet (in_sector s) (in_sector o).
Proof.
  intros eps s o PS PO I0 E0 CE T. unfold collide, sectorSectorCollide in T.
  assert (IS : 0 <= s_inner s < s_outer s) by apply PS. assert (IO : 0 <= s_inner o < s_outer o) by apply PO.
  assert (RS : 0 <= s_range s) by apply PS. assert (RO : 0 <= s_range o) by apply PO.
  set (X := s_x o - s_x s) in *. set (Y := s_y o - s_y s) in *.
  destruct (rlt ((s_outer o + s_outer s) * (s_outer o + s_outer s)) (X * X + Y * Y)); [discriminate|].
  destruct (RadiusSectorContainsPoint (X + cos (s_min o) * s_inner o) (Y - sin (s_min o) * s_inner o) (s_inner s) (s_outer s) (s_min s) (s_range s)) eqn:T1.
  { exists (s_x o + s_inner o * cos (s_min o), s_y o + - (s_inner o * sin (s_min o))). split; [|apply at_polar; lra].
    apply contains_true; [exact PS|]. unfold sectorContainsPoint. rewrite <- T1. f_equal; unfold X, Y; ring. }
  destruct (RadiusSectorContainsPoint (- X + cos (s_min s) * s_inner s) (- Y - sin (s_min s) * s_inner s) (s_inner o) (s_outer o) (s_min o) (s_range o)) eqn:T2.
  { exists (s_x s + s_inner s * cos (s_min s), s_y s + - (s_inner s * sin (s_min s))). split; [apply at_polar; lra|].
    apply contains_true; [exact PO|]. unfold sectorContainsPoint. rewrite <- T2. f_equal; unfold X, Y; ring. }
  clear T1 T2. destruct (rle (Rabs X) eps && rle (Rabs Y) eps) eqn:SM.
  { rewrite andb_true_iff, !rle_true in SM. destruct CE as [[CX CY]|CE]; [|contradiction]. rewrite !andb_true_iff, !rle_true in T.
    destruct T as [[[T1 T2] T3] T4].
    set (d := Rmax (s_inner s) (s_inner o)). set (a := Rmax (s_min s) (s_min o)).
    exists (s_x s + d * cos a, s_y s + - (d * sin a)). split.
    - apply at_polar; [unfold d, Rmax; destruct (Rle_dec (s_inner s) (s_inner o)); lra|unfold a, Rmax; destruct (Rle_dec (s_min s) (s_min o)); lra].
    - rewrite <- CX, <- CY. apply at_polar; [unfold d, Rmax; destruct (Rle_dec (s_inner s) (s_inner o)); lra|unfold a, Rmax; destruct (Rle_dec (s_min s) (s_min o)); lra]. }
  assert (N : X <> 0 \/ Y <> 0).
  { destruct (Req_dec X 0) as [ZX|ZX]; [|left; exact ZX]. destruct (Req_dec Y 0) as [ZY|ZY]; [|right; exact ZY].
    rewrite ZX, ZY, Rabs_R0, (proj2 (rle_true 0 eps)) in SM by exact E0. discriminate. }
  clear SM.
  destruct (checkBothAngles X Y (CircleRadiusIntersect (s_outer s) X Y (s_outer o)) (s_min s) (s_range s) (s_min o) (s_range o)) eqn:T1.
  { eapply (arcs s o PS PO (s_outer s) (s_outer o)); try eassumption; lra. }
  destruct (rlt 0 (s_inner s) && checkBothAngles X Y (CircleRadiusIntersect (s_inner s) X Y (s_outer o)) (s_min s) (s_range s) (s_min o) (s_range o)) eqn:T2.
  { apply andb_true_iff in T2. destruct T2 as [P T2]. apply rlt_true in P. eapply (arcs s o PS PO (s_inner s) (s_outer o)); try eassumption; lra. }
  destruct (rlt 0 (s_inner o) && checkBothAngles X Y (CircleRadiusIntersect (s_inner o) X Y (s_outer s)) (s_min s) (s_range s) (s_min o) (s_range o)) eqn:T3.
  { apply andb_true_iff in T3. destruct T3 as [P T3]. apply rlt_true in P. destruct I0 as [I0|I0]; [lra|]. destruct I0.
    unfold checkBothAngles in T3. apply existsb_exists in T3. destruct T3 as [[u v] [I _]]. apply circle_points in I; [|lra|lra|exact N].
    exists u, v. exact I. }
  destruct (rlt 0 (s_inner s) && rlt 0 (s_inner o) && checkBothAngles X Y (CircleRadiusIntersect (s_inner s) X Y (s_inner o)) (s_min s) (s_range s) (s_min o) (s_range o)) eqn:T4.
  { apply andb_true_iff in T4. destruct T4 as [P T4]. apply andb_true_iff in P. rewrite !rlt_true in P. eapply (arcs s o PS PO (s_inner s) (s_inner o)); try eassumption; lra. }
  clear T1 T2 T3 T4. destruct (rlt (s_range o) (2 * PI) || rlt (s_range s) (2 * PI)); [|discriminate].
  repeat match type of T with (if rayRayIntersect X Y _ _ ?A _ _ ?a then true else _) = true =>
    let Q := fresh "Q" in destruct (rayRayIntersect X Y (s_inner o) (s_outer o) A (s_inner s) (s_outer s) a) eqn:Q; [apply (rays s o PS PO A a); [lra|lra|exact Q]|clear Q] end.
  repeat match type of T with (if intersectRayCircle X Y ?rad _ _ ?a _ _ then true else _) = true =>
    let Q := fresh "Q" in destruct (intersectRayCircle X Y rad (s_inner s) (s_outer s) a (s_min o) (s_range o)) eqn:Q; [apply (ray_arc s o a rad PS PO); [lra|lra|lra|exact Q]|clear Q] end.
  assert (NX : - X = s_x s - s_x o) by (unfold X; ring). assert (NY : - Y = s_y s - s_y o) by (unfold Y; ring). rewrite NX, NY in T.
  repeat match type of T with (if intersectRayCircle ?U ?V ?rad _ _ ?a _ _ then true else _) = true =>
    let Q := fresh "Q" in destruct (intersectRayCircle U V rad (s_inner o) (s_outer o) a (s_min s) (s_range s)) eqn:Q; [apply meet_sym; apply (ray_arc o s a rad PO PS); [lra|lra|lra|exact Q]|clear Q] end.
  repeat match type of T with (if rlt 0 ?rad && intersectRayCircle X Y ?rad _ _ ?a _ _ then true else _) = true =>
    let Q := fresh "Q" in let P := fresh "P" in
    destruct (rlt 0 rad && intersectRayCircle X Y rad (s_inner s) (s_outer s) a (s_min o) (s_range o)) eqn:Q;
      [apply andb_true_iff in Q; destruct Q as [P Q]; apply rlt_true in P; apply (ray_arc s o a rad PS PO); [lra|lra|lra|exact Q]|clear Q] end.
  repeat match type of T with (if rlt 0 ?rad && intersectRayCircle ?U ?V ?rad _ _ ?a _ _ then true else _) = true =>
    let Q := fresh "Q" in let P := fresh "P" in
    destruct (rlt 0 rad && intersectRayCircle U V rad (s_inner o) (s_outer o) a (s_min s) (s_range s)) eqn:Q;
      [apply andb_true_iff in Q; destruct Q as [P Q]; apply rlt_true in P; apply meet_sym; apply (ray_arc o s a rad PO PS); [lra|lra|lra|exact Q]|clear Q] end.
  discriminate.
Qed.
Print Assumptions C161_sound_partial.

(** Two arcs about the same centre, the second over the angle zero: the point at distance 2 and angle PI/4 is in both. *)
Theorem C161_complete_refuted :
  ~ (forall eps s o, proper s -> proper o -> 0 <= s_min s < 2 * PI -> 0 <= s_min o < 2 * PI -> 0 < eps ->
       meet (in_sector s) (in_sector o) -> collide eps s o = true).
Proof.
  intros A. pose proof PI_RGT_0 as P. set (s := mkSector 0 0 1 3 (PI / 4) (PI / 4)). set (o := mkSector 0 0 2 3 (7 * PI / 4) PI).
  assert (PS : proper s) by (split; cbn; lra). assert (PO : proper o) by (split; cbn; lra).
  assert (M : meet (in_sector s) (in_sector o)).
  { exists (0 + 2 * cos (PI / 4), 0 - 2 * sin (PI / 4)). split; [exists 2, (PI / 4); cbn; repeat split; lra|].
    exists 2, (PI / 4 + 2 * PI * IZR 1). destruct (cos_turns (PI / 4) 1) as [-> ->]. cbn. repeat split; lra. }
  specialize (A 1 s o PS PO ltac:(cbn; lra) ltac:(cbn; lra) ltac:(lra) M). unfold collide, sectorSectorCollide in A.
  cbn [s_x s_y s_inner s_outer s_min s_range s o] in A. rewrite (proj2 (rlt_false _ _)) in A by lra.
  match type of A with (if ?b then _ else _) = _ => destruct b eqn:T1 end.
  - assert (I : in_sector s (0 + 2 * cos (7 * PI / 4), 0 + - (2 * sin (7 * PI / 4)))).
    { apply contains_true; [exact PS|]. rewrite <- T1. unfold sectorContainsPoint. cbn [s_x s_y s_inner s_outer s_min s_range s]. f_equal; ring. }
    apply in_sector_local in I; [|exact PS]. cbn [fst snd s_x s_y s_min s_range s] in I. destruct I as [_ W].
    rewrite !Rplus_0_l, !Rminus_0_r in W. apply wedge_low in W; [|lra]. rewrite !side_polar in W.
    replace (7 * PI / 4 - PI / 4) with (3 * (PI / 2)) in W by field. rewrite sin_3PI2 in W. lra.
  - match type of A with (if ?b then _ else _) = _ => destruct b eqn:T2 end.
    + assert (I : in_sector o (0 + 1 * cos (PI / 4), 0 + - (1 * sin (PI / 4)))).
      { apply contains_true; [exact PO|]. rewrite <- T2. unfold sectorContainsPoint. cbn [s_x s_y s_inner s_outer s_min s_range o]. f_equal; ring. }
      apply in_sector_local in I; [|exact PO]. cbn [fst snd s_x s_y s_inner s_outer o] in I. destruct I as [B _].
      rewrite !Rplus_0_l, !Rminus_0_r, polar_norm in B. lra.
    + rewrite !Rminus_0_r, Rabs_R0, (proj2 (rle_true 0 1)) in A by lra. cbn [andb] in A.
      rewrite !andb_true_iff, !rle_true in A. lra.
Qed.
Print Assumptions C161_complete_refuted.

(** The circles of the third check are exchanged: its points are in neither sector.  Here the first sector is to the left
    of its centre and the second to the right of it, but they are reported. *)
Theorem C161_sound_refuted :
  ~ (forall eps s o, proper s -> proper o -> 0 < eps < 1 -> ~ (Rabs (s_x o - s_x s) <= eps /\ Rabs (s_y o - s_y s) <= eps) ->
       collide eps s o = true -> meet (in_sector s) (in_sector o)).
Proof.
  intros A. pose proof PI_RGT_0 as P. set (s := mkSector 0 0 4 5 (PI / 2) (PI / 4)). set (o := mkSector 4 0 3 (31 / 10) (PI / 2) (PI / 2)).
  assert (PS : proper s) by (split; cbn; lra). assert (PO : proper o) by (split; cbn; lra).
  assert (T : collide (/ 2) s o = true).
  { unfold collide, sectorSectorCollide. cbn [s_x s_y s_inner s_outer s_min s_range s o]. rewrite !Rminus_0_r.
    rewrite (proj2 (rlt_false _ _)) by lra.
    match goal with |- (if ?b then _ else _) = _ => destruct b; [reflexivity|] end.
    match goal with |- (if ?b then _ else _) = _ => destruct b; [reflexivity|] end.
    rewrite (Rabs_right 4), (proj2 (rle_false _ _)) by lra. cbn [andb].
    match goal with |- (if ?b then _ else _) = _ => destruct b; [reflexivity|] end.
    match goal with |- (if ?b then _ else _) = _ => destruct b; [reflexivity|] end.
    rewrite (proj2 (rlt_true 0 3)) by lra. cbn [andb].
    assert (C : checkBothAngles 4 0 (CircleRadiusIntersect 3 4 0 5) (PI / 2) (PI / 4) (PI / 2) (PI / 2) = true); [|rewrite C; reflexivity].
    unfold checkBothAngles. apply existsb_exists. exists (0, -3). split.
    - apply circle_points; lra.
    - cbn [fst snd]. apply andb_true_iff. split; (apply angle_test; [lra| |]).
      + right. lra.
      + exists 3, (PI / 2). rewrite cos_PI2, sin_PI2. repeat split; lra.
      + left. lra.
      + apply wedge_low; [lra|]. unfold side_of. replace (PI / 2 + PI / 2) with PI by field. rewrite cos_PI2, sin_PI2, cos_PI, sin_PI. lra. }
  apply (A (/ 2) s o PS PO) in T; [|lra|cbn; rewrite Rminus_0_r, (Rabs_right 4) by lra; lra].
  destruct T as [p [[d [a [D [Aa ->]]]] [d' [a' [D' [Aa' E]]]]]]. cbn [s_x s_y s_inner s_outer s_min s_range s o] in *. injection E as E _.
  assert (cos a <= 0) by (apply cos_le_0; lra). pose proof (COS_bound a') as B. nra.
Qed.
Print Assumptions C161_sound_refuted.

(** A quarter disc that reaches into the ring next to it. *)
Example C161_example : meet (in_sector (mkSector 0 0 1 3 0 (PI / 2))) (in_sector (mkSector 2 0 0 1 0 PI)).
Proof.
  pose proof PI_RGT_0 as P. apply (C161_sound_partial (/ 2)); [split; cbn; lra|split; cbn; lra|left; reflexivity|lra| |].
  - right. cbn. rewrite Rminus_0_r, (Rabs_right 2) by lra. lra.
  - unfold collide, sectorSectorCollide. cbn [s_x s_y s_inner s_outer s_min s_range]. rewrite !Rminus_0_r, cos_0, sin_0.
    rewrite (proj2 (rlt_false _ _)) by lra.
    assert (C : RadiusSectorContainsPoint (2 + 1 * 0) (0 - 0 * 0) 1 3 0 (PI / 2) = true); [|rewrite C; reflexivity].
    set (q := mkSector 0 0 1 3 0 (PI / 2)). change 1 with (s_inner q) at 2. change 3 with (s_outer q).
    assert (S : sectorContainsPoint q 2 0 = true).
    { apply C160_contains_partial; [split; cbn; lra|left; cbn; lra|]. exists 2, 0. cbn. rewrite cos_0, sin_0. repeat split; try lra. f_equal; lra. }
    unfold sectorContainsPoint in S. cbn in S. cbn. rewrite <- S. f_equal; ring.
Qed.
