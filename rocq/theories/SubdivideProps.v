(* Properties of StochasticSubdivider: the rects it gives tile the rect it is given. *)
From Coq Require Import ZArith QArith List Bool Arith Lia Lqa.
From Verif Require Import Common Subdivide.
Import ListNotations.
Local Open Scope Q_scope.

(** A point lies in a rect without its right and lower border. *)
Definition inside (x y : Q) (r : rect (T := Q)) : bool :=
  let '(a0, a1, a2, a3) := r in Qle_bool a0 x && negb (Qle_bool a2 x) && (Qle_bool a1 y && negb (Qle_bool a3 y)).
(** Left is not right of right, top not below bottom. *)
Definition proper (r : rect (T := Q)) : Prop := let '(a0, a1, a2, a3) := r in a0 <= a2 /\ a1 <= a3.
Definition area (r : rect (T := Q)) : Q := let '(a0, a1, a2, a3) := r in (a2 - a0) * (a3 - a1).
Definition total (l : list (rect (T := Q))) : Q := fold_right (fun r s => area r + s) 0 l.
(** The rects tile r: each point of r is in exactly one of them and every other point in none, they are proper, and together have the same area. *)
Definition tiles (r : rect (T := Q)) (l : list (rect (T := Q))) : Prop :=
  (forall x y, length (filter (inside x y) l) = if inside x y r then 1%nat else 0%nat) /\ Forall proper l /\ total l == area r.

Lemma total_app l m : total (l ++ m) == total l + total m.
Proof. induction l as [|r l IH]; [change (total m == 0 + total m); ring|]. change (area r + total (l ++ m) == (area r + total l) + total m). rewrite IH. ring. Qed.
Lemma lerp_between a b t : a <= b -> 0 <= t -> t <= 1 -> a <= lerpQ a b t /\ lerpQ a b t <= b.
Proof. intros. unfold lerpQ. split; nra. Qed.
Lemma qle_false a b : Qle_bool a b = false <-> b < a.
Proof. split; intros H; [apply Qnot_le_lt; intros X; apply Qle_bool_iff in X; congruence|]. destruct (Qle_bool a b) eqn:E; [|reflexivity]. apply Qle_bool_iff in E. lra. Qed.
Ltac qb := repeat match goal with |- context[Qle_bool ?a ?b] => let E := fresh in destruct (Qle_bool a b) eqn:E; [apply Qle_bool_iff in E|apply qle_false in E] end.

Section P.
Context {W : Type} (rand : W -> Q * W) (f1 : nat -> rect (T := Q) -> W -> Q * W) (f2 : rect (T := Q) -> W -> W) (f3 : nat -> rect (T := Q) -> W -> Q * W).
(** For every random engine and all functions: if the place to divide is a number from 0 to 1, and the function ends, the rects given tile the rect. *)
Theorem C185_tiles_partial : (forall n r w, 0 <= fst (f3 n r w) /\ fst (f3 n r w) <= 1) ->
  forall fuel r depth w w' out, proper r -> subdivide lerpQ rand f1 f2 f3 fuel r depth w [] = Ok (w', out) -> tiles r out.
Proof.
  intros H3.
  assert (G : forall fuel r depth w out w' out', proper r -> subdivide lerpQ rand f1 f2 f3 fuel r depth w out = Ok (w', out') -> exists l, out' = out ++ l /\ tiles r l).
  { induction fuel as [|fuel IH]; intros r depth w out w' out' P E; [discriminate|]. cbn [subdivide] in E. destruct (rand w) as [x w1]. destruct (f1 depth r w1) as [p w2].
    destruct (Qle_bool p x); cbn [negb] in E.
    - destruct r as [[[a0 a1] a2] a3]. pose proof (H3 depth (a0, a1, a2, a3) w2) as Ht. destruct (f3 depth (a0, a1, a2, a3) w2) as [t w3]. cbn [fst] in Ht. destruct P as [P0 P1].
      set (r1 := if Nat.eqb (depth mod 2) 0 then _ else _) in E. set (r2 := if Nat.eqb (depth mod 2) 0 then (a0, a1, _, a3) else _) in E.
      destruct (subdivide lerpQ rand f1 f2 f3 fuel r1 (S depth) w3 out) as [[w4 out1]| |] eqn:E1; try discriminate. cbn [bind] in E.
      pose proof (lerp_between a0 a2 t P0 (proj1 Ht) (proj2 Ht)) as [B0 B2]. pose proof (lerp_between a1 a3 t P1 (proj1 Ht) (proj2 Ht)) as [B1 B3].
      assert (Q1 : proper r1 /\ proper r2) by (unfold r1, r2; destruct (Nat.eqb _ _); repeat split; assumption).
      destruct (IH _ _ _ _ _ _ (proj1 Q1) E1) as (l1 & -> & (I1 & F1 & A1)). destruct (IH _ _ _ _ _ _ (proj2 Q1) E) as (l2 & -> & (I2 & F2 & A2)).
      exists (l1 ++ l2). split; [symmetry; apply app_assoc|]. split; [|split].
      + intros u v. rewrite filter_app, app_length, I1, I2. unfold r1, r2, inside. clear -P0 P1 B0 B1 B2 B3. destruct (Nat.eqb _ _).
        * generalize dependent (lerpQ a0 a2 t). intros d ? ?. qb; cbn [andb negb]; try reflexivity; exfalso; lra.
        * generalize dependent (lerpQ a1 a3 t). intros d ? ?. qb; cbn [andb negb]; try reflexivity; exfalso; lra.
      + apply Forall_app. split; assumption.
      + rewrite total_app, A1, A2. unfold r1, r2, area. destruct (Nat.eqb _ _); ring.
    - injection E as <- <-. exists [r]. split; [reflexivity|]. split; [|split].
      + intros u v. cbn [filter]. destruct (inside u v r); reflexivity.
      + constructor; [exact P|constructor].
      + cbn [total fold_right]. ring. }
  intros fuel r depth w w' out P E. destruct (G fuel r depth w [] w' out P E) as (l & -> & Tl). exact Tl.
Qed.
(** It ends when from some depth on the likeliness is above every random number. *)
Theorem C185_ends : forall D, (forall n r w, (D <= n)%nat -> fst (rand w) < fst (f1 n r (snd (rand w)))) ->
  forall depth fuel r w, (D - depth < fuel)%nat -> exists w' out, subdivide lerpQ rand f1 f2 f3 fuel r depth w [] = Ok (w', out) /\ (length out <= 2 ^ (D - depth))%nat.
Proof.
  intros D H depth fuel r w F.
  assert (G : forall k depth fuel r w out, (D - depth <= k)%nat -> (k < fuel)%nat -> exists w' l, subdivide lerpQ rand f1 f2 f3 fuel r depth w out = Ok (w', out ++ l) /\ (length l <= 2 ^ k)%nat).
  { clear depth fuel r w F. induction k as [|k IH]; intros depth fuel r w out K F; (destruct fuel as [|fuel]; [lia|]); cbn [subdivide].
    - pose proof (H depth r w ltac:(lia)) as L. destruct (rand w) as [x w1]. cbn [fst snd] in L. destruct (f1 depth r w1) as [p w2]. cbn [fst] in L. apply qle_false in L. rewrite L. cbn [negb].
      exists (f2 r w2), [r]. split; [reflexivity|cbn; lia].
    - destruct (rand w) as [x w1]. destruct (f1 depth r w1) as [p w2]. destruct (Qle_bool p x); cbn [negb].
      + destruct r as [[[a0 a1] a2] a3]. destruct (f3 depth (a0, a1, a2, a3) w2) as [t w3].
        edestruct (IH (S depth) fuel) as (w4 & l1 & E1 & L1); [lia|lia|]. rewrite E1. cbn [bind].
        edestruct (IH (S depth) fuel) as (w5 & l2 & E2 & L2); [lia|lia|]. rewrite E2. exists w5, (l1 ++ l2). split; [now rewrite app_assoc|]. rewrite app_length. cbn [Nat.pow]. lia.
      + exists (f2 r w2), [r]. split; [reflexivity|]. cbn [length]. assert (0 < 2 ^ S k)%nat by (apply Nat.neq_0_lt_0, Nat.pow_nonzero; lia). lia. }
  destruct (G (D - depth)%nat depth fuel r w [] (le_n _) F) as (w' & l & E & L). exists w', l. auto.
Qed.
End P.
Print Assumptions C185_tiles_partial.
Print Assumptions C185_ends.

(** With integers a rect of one column at any a > 0 can be divided so that a rect reaches left of it. *)
Definition zinside (x y : Z) (r : rect (T := Z)) : bool :=
  let '(a0, a1, a2, a3) := r in ((a0 <=? x) && (x <? a2) && ((a1 <=? y) && (y <? a3)))%Z.
Theorem C185_integers_refuted : forall a : Z, (0 < a)%Z -> exists t, 0 <= t /\ t <= 1 /\ exists out,
  subdivide lerpZ (fun w : unit => (1 # 2, w)) (fun n _ w => (if Nat.eqb n 0 then 0 else 1, w)) (fun _ w => w) (fun _ _ w => (t, w)) 2 (a, 0, a + 1, 1)%Z 0 tt []
    = Ok (tt, out) /\
  zinside (a - 1) 0 (a, 0, a + 1, 1)%Z = false /\ length (filter (zinside (a - 1) 0) out) = 1%nat.
Proof.
  intros a A. exists (1 # Z.to_pos (2 * (a + 1))). split; [unfold Qle; cbn; lia|]. split; [unfold Qle; cbn; lia|]. eexists. split; [reflexivity|].
  assert (E : lerpZ a (a + 1) (1 # Z.to_pos (2 * (a + 1))) = (a - 1)%Z).
  { unfold lerpZ, truncQ. cbn [Qnum Qden Qmult Qminus Qplus Qopp inject_Z]. rewrite !Pos.mul_1_r, !Z.mul_1_l. 
    rewrite !Pos.mul_1_l, Z2Pos.id by lia.
    replace (2 * (a + 1) + - (1) * 1)%Z with (2 * a + 1)%Z by lia.
    replace ((2 * a + 1) * a ÷ (2 * (a + 1)))%Z with (a - 1)%Z; [replace ((a + 1) ÷ (2 * (a + 1)))%Z with 0%Z; [lia|]|].
    - symmetry. apply Z.quot_small. lia.
    - apply Z.quot_unique with (a + 2)%Z; nia. }
  split.
  - unfold zinside. replace (a <=? a - 1)%Z with false by lia. reflexivity.
  - change (Nat.eqb (0 mod 2) 0) with true. cbv iota. rewrite E. cbn [app filter zinside]. replace (a - 1 <=? a - 1)%Z with true by lia. replace (a - 1 <? a + 1)%Z with true by lia.
    replace (a <=? a - 1)%Z with false by lia. reflexivity.
Qed.
Print Assumptions C185_integers_refuted.

Example C185_example : exists w out, subdivide lerpQ (fun w : nat => (1 # 2, S w)) (fun n _ w => (if Nat.eqb n 2 then 1 else 0, w)) (fun _ w => w) (fun n _ w => (1 # 4, w)) 3
  (0, 0, 8, 4) 0 0%nat [] = Ok (w, out) /\ length out = 4%nat /\ length (filter (inside 1 1) out) = 1%nat /\ proper (0, 0, 8, 4).
Proof. eexists _, _. split; [vm_compute; reflexivity|]. split; [reflexivity|]. split; [reflexivity|]. split; unfold Qle; cbn; lia. Qed.
