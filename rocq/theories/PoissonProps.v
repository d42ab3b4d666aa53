(* C176: the points of PoissonDiskSample. *)
From Coq Require Import Reals List Arith ZArith Lia Lra Psatz Bool Permutation.
From Flocq Require Import Core.Raux.
From Verif Require Import Common Collision SphereProps Shuffle ShuffleProps Poisson.
Import ListNotations.
Local Open Scope R_scope.

(** The square of the distance of two points. *)
Definition dist2 (p q : R * R) : R := (fst p - fst q) * (fst p - fst q) + (snd p - snd q) * (snd p - snd q).
Definition in_rect (c : setup) (p : R * R) : Prop := x0 c <= fst p < x1 c /\ y0 c <= snd p < y1 c.
(** No two points of the list are nearer to each other than [m]. *)
Definition apart (m : R) (l : list (R * R)) : Prop :=
  forall i j p q, (i < j)%nat -> nth_error l i = Some p -> nth_error l j = Some q -> m * m <= dist2 p q.
(** Every point after the first is at less than twice [m] from an earlier one. *)
Definition spread (m : R) (l : list (R * R)) : Prop :=
  forall j q, (0 < j)%nat -> nth_error l j = Some q ->
    exists i p, (i < j)%nat /\ nth_error l i = Some p /\ dist2 q p < (2 * m) * (2 * m).
(** A rectangle with a positive width and height, a positive distance. *)
Definition sensible (c : setup) : Prop := x0 c < x1 c /\ y0 c < y1 c /\ 0 < mindist c.
(** The random numbers. *)
Definition canonical (rng : nat -> R) : Prop := forall k, 0 <= rng k < 1.

Lemma dist2_sym p q : dist2 p q = dist2 q p.
Proof. unfold dist2. ring. Qed.

Lemma floor_gap a b : IZR (Zfloor a - Zfloor b) - 1 < a - b < IZR (Zfloor a - Zfloor b) + 1.
Proof. rewrite minus_IZR. pose proof (Zfloor_lb a). pose proof (Zfloor_ub a). pose proof (Zfloor_lb b). pose proof (Zfloor_ub b). lra. Qed.

Lemma any_ok l : Forall (fun t => exists b : bool, t = Ok b) l -> exists b, any l = Ok b /\ (b = false -> Forall (fun t => t = Ok false) l).
Proof.
  induction 1 as [|t l [b ->] _ IH]; [exists false; split; [reflexivity|constructor]|]. cbn [any bind]. destruct b.
  - exists true. split; [reflexivity|discriminate].
  - destruct IH as [b [-> IH]]. exists b. split; [reflexivity|]. intros E. constructor; [reflexivity|apply IH, E].
Qed.

Section P.
Context (c : setup) (rng : nat -> R) (SE : sensible c) (S1 : stride c = 1%Z) (CA : canonical rng).
Let m := mindist c.
Let col (p : R * R) := Zfloor ((fst p - x0 c) / cell c).
Let row (p : R * R) := Zfloor ((snd p - y0 c) / cell c).
Let N := Z.to_nat (gw c * gh c).

Lemma sqrt2 : 0 < sqrt 2 /\ sqrt 2 * sqrt 2 = 2.
Proof. split; [apply sqrt_lt_R0; lra|apply sqrt_sqrt; lra]. Qed.
Lemma cell_pos : 0 < cell c.
Proof. unfold cell. apply Rdiv_lt_0_compat; [apply SE|apply sqrt2]. Qed.
Lemma cell_sq : 2 * (cell c * cell c) = m * m.
Proof. unfold cell, m. destruct sqrt2 as [P E]. transitivity (2 * (mindist c * mindist c) / (sqrt 2 * sqrt 2)); [field; lra|]. rewrite E. field. Qed.

Lemma floor_range a b : 0 <= a < b -> (0 <= Zfloor (a / cell c) < Zceil (b / cell c))%Z.
Proof.
  intros B. pose proof cell_pos as P. assert (0 <= a / cell c) by (apply Rmult_le_pos; [lra|left; apply Rinv_0_lt_compat; exact P]). split.
  - apply Zfloor_lub. exact H.
  - apply lt_IZR. assert (a / cell c < b / cell c) by (apply Rmult_lt_compat_r; [apply Rinv_0_lt_compat; exact P|lra]).
    pose proof (Zfloor_lb (a / cell c)). pose proof (Zceil_ub (b / cell c)). lra.
Qed.
Lemma col_range p : in_rect c p -> (0 <= col p <= gw c - 5)%Z /\ (0 <= row p <= gh c - 5)%Z.
Proof.
  intros [X Y]. unfold gw, gh, col, row. pose proof (floor_range (fst p - x0 c) (x1 c - x0 c) ltac:(lra)). pose proof (floor_range (snd p - y0 c) (y1 c - y0 c) ltac:(lra)). lia.
Qed.
Lemma idx_eq p : imageToGrid c p = (col p + gw c * row p + 2 + 2 * gw c)%Z.
Proof. unfold imageToGrid, col, row. ring. Qed.
Lemma idx_bounds p : in_rect c p -> (2 + 2 * gw c <= imageToGrid c p /\ imageToGrid c p + 2 * gw c + 2 < gw c * gh c /\ 5 <= gw c)%Z.
Proof.
  intros I. apply col_range in I. destruct I as [C R]. rewrite idx_eq. assert (5 <= gw c)%Z by lia. assert (5 <= gh c)%Z by lia.
  assert (0 <= gw c * row p <= gw c * (gh c - 5))%Z by nia. lia.
Qed.

(** The distance of points whose cells are far from each other. *)
Lemma far_cells p q : (3 <= Z.abs (col p - col q) \/ 3 <= Z.abs (row p - row q) \/ (Z.abs (col p - col q) = 2 /\ Z.abs (row p - row q) = 2))%Z -> m * m <= dist2 p q.
Proof.
  intros H. pose proof cell_pos as P. rewrite <- cell_sq. unfold dist2.
  set (a := (fst p - x0 c) / cell c). set (b := (fst q - x0 c) / cell c). set (a' := (snd p - y0 c) / cell c). set (b' := (snd q - y0 c) / cell c).
  replace (fst p - fst q) with (cell c * (a - b)) by (unfold a, b; field; lra).
  replace (snd p - snd q) with (cell c * (a' - b')) by (unfold a', b'; field; lra).
  pose proof (floor_gap a b) as G. pose proof (floor_gap a' b') as G'. fold (col p) (col q) in H. change (Zfloor a) with (col p) in G. change (Zfloor b) with (col q) in G.
  change (Zfloor a') with (row p) in G'. change (Zfloor b') with (row q) in G'.
  set (d := (col p - col q)%Z) in *. set (e := (row p - row q)%Z) in *. clearbody d e.
  assert (Q : forall x (n k : Z), IZR n - 1 < x < IZR n + 1 -> (0 <= k < Z.abs n)%Z -> IZR k * IZR k <= x * x).
  { intros x n k B K. assert (0 <= IZR k) by (apply IZR_le; lia). destruct (Z_lt_le_dec n 0).
    - assert (IZR n + 1 <= - IZR k). { rewrite <- opp_IZR, <- plus_IZR. apply IZR_le. lia. } nra.
    - assert (IZR k <= IZR n - 1). { rewrite <- minus_IZR. apply IZR_le. lia. } nra. }
  assert (CC : 0 < cell c * cell c) by (apply Rmult_lt_0_compat; exact P).
  replace (cell c * (a - b) * (cell c * (a - b)) + cell c * (a' - b') * (cell c * (a' - b'))) with (cell c * cell c * ((a - b) * (a - b) + (a' - b') * (a' - b'))) by ring.
  rewrite (Rmult_comm 2). apply Rmult_le_compat_l; [lra|].
  pose proof (Rle_0_sqr (a - b)) as N1. pose proof (Rle_0_sqr (a' - b')) as N2. unfold Rsqr in N1, N2.
  destruct H as [H|[H|[H H']]].
  - pose proof (Q (a - b) d 2%Z G ltac:(lia)). lra.
  - pose proof (Q (a' - b') e 2%Z G' ltac:(lia)). lra.
  - pose proof (Q (a - b) d 1%Z G ltac:(lia)). pose proof (Q (a' - b') e 1%Z G' ltac:(lia)). lra.
Qed.

Lemma marked_ok g k : length g = N -> (0 <= k < gw c * gh c)%Z -> exists x, nth_error g (Z.to_nat k) = Some x /\ cell_at g k = Ok x /\ marked c g k = Ok (match x with Some _ => true | None => false end).
Proof.
  intros L K. destruct (nth_error_ex g (Z.to_nat k) ltac:(unfold N in L; lia)) as [x E]. exists x. split; [exact E|].
  assert (A : cell_at g k = Ok x). { unfold cell_at. destruct (Z.ltb_spec k 0); [lia|]. apply get_some, E. }
  split; [exact A|]. unfold marked. rewrite S1, Z.div_1_r, A. reflexivity.
Qed.
Lemma check_ok g pt k : length g = N -> (0 <= k < gw c * gh c)%Z -> exists b, check c g pt k = Ok b.
Proof. intros L K. destruct (marked_ok g k L K) as [x [_ [A B]]]. unfold check. rewrite B. cbn [bind]. destruct x; [rewrite A|]; eexists; reflexivity. Qed.
Lemma check_false g pt k q : length g = N -> (0 <= k < gw c * gh c)%Z -> check c g pt k = Ok false -> nth_error g (Z.to_nat k) = Some (Some q) -> m * m <= dist2 pt q.
Proof.
  intros L K T E. destruct (marked_ok g k L K) as [x [E' [A B]]]. rewrite E in E'. injection E' as <-. unfold check in T. rewrite B in T. cbn [bind] in T.
  rewrite A in T. cbn [bind] in T. injection T as T. apply rlt_false in T. unfold mindistsq in T. exact T.
Qed.
Lemma blocked_ok g k : length g = N -> (1 <= k)%Z -> (k + 1 < gw c * gh c)%Z -> exists b, blocked c g k = Ok b.
Proof.
  intros L K K'. unfold blocked. destruct (marked_ok g (k - 1)%Z L ltac:(lia)) as [x [_ [_ ->]]]. cbn [bind]. destruct (marked_ok g k L ltac:(lia)) as [y [_ [_ ->]]]. cbn [bind].
  destruct (marked_ok g (k + 1)%Z L ltac:(lia)) as [z [_ [_ ->]]]. eexists. reflexivity.
Qed.
Lemma blocked_false g k d : length g = N -> (1 <= k)%Z -> (k + 1 < gw c * gh c)%Z -> blocked c g k = Ok false -> (-1 <= d <= 1)%Z -> nth_error g (Z.to_nat (k + d)) = Some None.
Proof.
  intros L K K' T D. unfold blocked in T. destruct (marked_ok g (k - 1)%Z L ltac:(lia)) as [x [E1 [_ X]]]. destruct (marked_ok g k L ltac:(lia)) as [y [E2 [_ Y]]].
  destruct (marked_ok g (k + 1)%Z L ltac:(lia)) as [z [E3 [_ Z]]]. rewrite X, Y, Z in T. cbn [bind] in T.
  destruct x, y, z; try discriminate. assert (C : (d = -1 \/ d = 0 \/ d = 1)%Z) by lia. destruct C as [->|[->| ->]]; [exact E1|rewrite Z.add_0_r; exact E2|exact E3].
Qed.

(** What holds between two attempts. *)
Record good (s : state) : Prop := {
  g_len : length (grid s) = N;
  g_here : forall p, In p (out s) -> nth_error (grid s) (Z.to_nat (imageToGrid c p)) = Some (Some p);
  g_rect : forall p, In p (out s) -> in_rect c p;
  g_apart : apart m (out s);
  g_spread : spread m (out s);
  g_cells : NoDup (map (fun p => Z.to_nat (imageToGrid c p)) (out s));
  g_queue : inv (todo s);
  g_incl : incl (elements (todo s)) (out s) }.

Lemma crowded_ok s pt : good s -> in_rect c pt -> exists b, crowded c (grid s) pt = Ok b /\
  (b = false -> nth_error (grid s) (Z.to_nat (imageToGrid c pt)) = Some None /\ forall q, In q (out s) -> m * m <= dist2 pt q).
Proof.
  intros G I. pose proof (g_len s G) as L. pose proof (idx_bounds pt I) as [B1 [B2 B3]]. unfold crowded.
  destruct (Z.leb_spec (imageToGrid c pt - gw c - gw c) 0); [lia|].
  assert (F : Forall (fun t => exists b : bool, t = Ok b)
    (let g := grid s in let e1 := (imageToGrid c pt - gw c - gw c)%Z in let e2 := (e1 + gw c)%Z in let e3 := (e2 + gw c)%Z in let e4 := (e3 + gw c)%Z in let e5 := (e4 + gw c)%Z in
     [check c g pt (e1 - 1)%Z; check c g pt e1; check c g pt (e1 + 1)%Z; blocked c g e2; check c g pt (e2 - 2)%Z; check c g pt (e2 + 2)%Z;
      blocked c g e3; check c g pt (e3 - 2)%Z; check c g pt (e3 + 2)%Z; blocked c g e4; check c g pt (e4 - 2)%Z; check c g pt (e4 + 2)%Z;
      check c g pt (e5 - 1)%Z; check c g pt e5; check c g pt (e5 + 1)%Z])).
  { cbv zeta. repeat constructor; first [apply check_ok|apply blocked_ok]; try exact L; lia. }
  apply any_ok in F. cbv zeta in F. destruct F as [b [E F]]. exists b. split; [exact E|]. intros Eb. specialize (F Eb). clear E Eb.
  repeat match type of F with Forall _ (_ :: _) => let h := fresh "T" in apply Forall_cons_iff in F; destruct F as [h F] end. clear F.
  split.
  - match goal with T : blocked c _ ?e = _ |- _ => replace (imageToGrid c pt) with (e + 0)%Z by lia; match e with (_ + gw c + gw c)%Z => idtac end; apply (blocked_false (grid s) e); [exact L|lia|lia|exact T|lia] end.
  - intros q Iq. pose proof (g_here s G q Iq) as Hq. pose proof (g_rect s G q Iq) as Rq.
    destruct (Z_le_gt_dec 3 (Z.abs (col pt - col q))) as [D|D]; [apply far_cells; auto|].
    destruct (Z_le_gt_dec 3 (Z.abs (row pt - row q))) as [D'|D']; [apply far_cells; auto|].
    assert (E : (imageToGrid c q = imageToGrid c pt - (col pt - col q) - gw c * (row pt - row q))%Z) by (rewrite !idx_eq; ring).
    destruct (Z.eq_dec (Z.abs (col pt - col q)) 2) as [U|U]; [destruct (Z.eq_dec (Z.abs (row pt - row q)) 2) as [V|V]; [apply far_cells; auto|]|].
    all: set (d := (col pt - col q)%Z) in *; set (e := (row pt - row q)%Z) in *.
    all: assert (De : (e = -2 \/ e = -1 \/ e = 0 \/ e = 1 \/ e = 2)%Z) by lia.
    all: assert (Dd : (d = -2 \/ d = -1 \/ d = 0 \/ d = 1 \/ d = 2)%Z) by lia.
    all: clearbody d e; rewrite E in Hq.
    all: destruct De as [->|[->|[->|[->| ->]]]]; try lia; destruct Dd as [->|[->|[->|[->| ->]]]]; try lia.
    all: first
      [ match goal with T : check c _ _ ?k = Ok false |- _ => apply (check_false (grid s) pt k q L); [lia|exact T|]; match type of Hq with nth_error _ (Z.to_nat ?x) = _ => replace k with x by lia end; exact Hq end
      | exfalso; match goal with T : blocked c _ ?k = Ok false |- _ =>
          match type of Hq with nth_error _ (Z.to_nat ?x) = _ =>
            let h := fresh in assert (h : (-1 <= x - k <= 1)%Z) by lia; apply (blocked_false (grid s) k (x - k)%Z L ltac:(lia) ltac:(lia) T) in h;
            replace (k + (x - k))%Z with x in h by lia; rewrite Hq in h; discriminate h end end ].
Qed.

Lemma push_len q (x : R * R) : len (Push q x) = S (len q).
Proof. unfold Push. destruct (len q <? length (arr q))%nat; reflexivity. Qed.

Lemma apart_snoc l pt : apart m l -> (forall q, In q l -> m * m <= dist2 pt q) -> apart m (l ++ [pt]).
Proof.
  intros A F i j p q IJ Hi Hj. pose proof (nth_error_lt _ _ _ Hj) as Lj. rewrite app_length in Lj. cbn in Lj.
  rewrite nth_error_app1 in Hi by lia. destruct (Nat.eq_dec j (length l)) as [->|NE].
  - rewrite nth_error_app2, Nat.sub_diag in Hj by lia. injection Hj as <-. rewrite dist2_sym. apply F. eapply nth_error_In; eauto.
  - rewrite nth_error_app1 in Hj by lia. exact (A i j p q IJ Hi Hj).
Qed.
Lemma spread_snoc l pt : spread m l -> (l = [] \/ exists p, In p l /\ dist2 pt p < 2 * m * (2 * m)) -> spread m (l ++ [pt]).
Proof.
  intros A F j q J Hj. pose proof (nth_error_lt _ _ _ Hj) as Lj. rewrite app_length in Lj. cbn in Lj. destruct (Nat.eq_dec j (length l)) as [->|NE].
  - rewrite nth_error_app2, Nat.sub_diag in Hj by lia. injection Hj as <-. destruct F as [->|[p [I D]]]; [cbn in J; lia|].
    apply In_nth_error in I. destruct I as [i I]. exists i, p. split; [eapply nth_error_lt; eauto|]. split; [|exact D]. rewrite nth_error_app1; [exact I|eapply nth_error_lt; eauto].
  - rewrite nth_error_app1 in Hj by lia. destruct (A j q J Hj) as [i [p [L [H D]]]]. exists i, p. split; [exact L|]. split; [|exact D]. rewrite nth_error_app1; [exact H|lia].
Qed.

Lemma accept_ok s pt : good s -> in_rect c pt -> nth_error (grid s) (Z.to_nat (imageToGrid c pt)) = Some None ->
  (forall q, In q (out s) -> m * m <= dist2 pt q) -> (out s = [] \/ exists p, In p (out s) /\ dist2 pt p < 2 * m * (2 * m)) ->
  exists s', accept c s pt = Ok s' /\ good s' /\ out s' = out s ++ [pt] /\ len (todo s') = S (len (todo s)).
Proof.
  intros G I E F SP. unfold accept, cell_set. pose proof (idx_bounds pt I) as [B1 [B2 B3]]. destruct (Z.ltb_spec (imageToGrid c pt) 0); [lia|].
  pose proof (nth_error_lt _ _ _ E) as LT. rewrite set_ok by exact LT. cbn [bind]. eexists. split; [reflexivity|]. cbn [grid todo out used].
  split; [|split; [reflexivity|apply push_len]].
  destruct (step_ok (todo s) (OPush pt) (g_queue s G) Logic.I) as (q' & r & E1 & I1 & _ & E2). cbn [step] in E1. injection E1 as <- <-.
  assert (NE : forall p, In p (out s) -> Z.to_nat (imageToGrid c p) <> Z.to_nat (imageToGrid c pt)).
  { intros p Hp Q. pose proof (g_here s G p Hp) as H'. rewrite Q, E in H'. discriminate. }
  split; cbn [grid todo out used].
  - rewrite upd_length. apply G.
  - intros p Hp. apply in_app_or in Hp. destruct Hp as [Hp|[<-|[]]].
    + rewrite nth_error_upd_neq by (apply not_eq_sym, NE, Hp). apply G, Hp.
    + apply nth_error_upd_eq, LT.
  - intros p Hp. apply in_app_or in Hp. destruct Hp as [Hp|[<-|[]]]; [apply G, Hp|exact I].
  - apply apart_snoc; [apply G|exact F].
  - apply spread_snoc; [apply G|exact SP].
  - rewrite map_app. cbn [map]. apply (Permutation_NoDup (Permutation_cons_append _ _)). constructor; [|apply G].
    intros Hin. apply in_map_iff in Hin. destruct Hin as [p [Q Hp]]. exact (NE p Hp Q).
  - exact I1.
  - rewrite E2. intros p Hp. apply in_app_or in Hp. apply in_or_app. destruct Hp as [Hp|Hp]; [left; apply (g_incl s G p Hp)|right; exact Hp].
Qed.

Lemma attempt_ok s p : good s -> In p (out s) -> exists s', attempt c rng s p = Ok s' /\ good s' /\ incl (out s) (out s') /\
  (length (out s') + len (todo s) = length (out s) + len (todo s'))%nat.
Proof.
  intros G Ip. unfold attempt. set (radius := mindist c * randReal 1 2 (rng (used s))). set (angle := randReal 0 (2 * PI) (rng (S (used s)))).
  set (pt := (fst p + radius * cos angle, snd p + radius * sin angle)). set (s1 := mkState (grid s) (todo s) (out s) (S (S (used s)))).
  assert (G1 : good s1) by (destruct G; split; assumption).
  destruct (inside c pt) eqn:T; [|exists s1; split; [reflexivity|]; split; [exact G1|]; split; [apply incl_refl|reflexivity]].
  assert (I : in_rect c pt). { unfold inside in T. rewrite !andb_true_iff, !rlt_true in T. unfold in_rect. lra. }
  destruct (crowded_ok s1 pt G1 I) as [b [E F]]. rewrite E. cbn [bind]. destruct b; [exists s1; split; [reflexivity|]; split; [exact G1|]; split; [apply incl_refl|reflexivity]|].
  destruct (F eq_refl) as [F1 F2]. destruct (accept_ok s1 pt G1 I F1 F2) as (s' & E' & G' & O' & L').
  - right. exists p. split; [exact Ip|]. unfold dist2, pt. cbn [fst snd].
    replace ((fst p + radius * cos angle - fst p) * (fst p + radius * cos angle - fst p) + (snd p + radius * sin angle - snd p) * (snd p + radius * sin angle - snd p)) with (radius * radius * (Rsqr (sin angle) + Rsqr (cos angle))) by (unfold Rsqr; ring).
    rewrite sin2_cos2, Rmult_1_r. pose proof (CA (used s)) as U. assert (M : 0 < m) by apply SE. unfold radius, randReal. fold m.
    assert (0 <= m * (1 + rng (used s) * (2 - 1)) < 2 * m) by nra. nra.
  - exists s'. split; [exact E'|]. split; [exact G'|]. rewrite O'. split; [apply incl_appl, incl_refl|]. rewrite app_length, L'. cbn. lia.
Qed.
Lemma attempts_ok n : forall s p, good s -> In p (out s) -> exists s', attempts c rng n s p = Ok s' /\ good s' /\ incl (out s) (out s') /\
  (length (out s') + len (todo s) = length (out s) + len (todo s'))%nat.
Proof.
  induction n as [|n IH]; intros s p G I; cbn [attempts].
  - exists s. split; [reflexivity|]. split; [exact G|]. split; [apply incl_refl|reflexivity].
  - destruct (attempt_ok s p G I) as (s1 & -> & G1 & I1 & L1). cbn [bind]. destruct (IH s1 p G1 (I1 p I)) as (s2 & E2 & G2 & I2 & L2).
    exists s2. split; [exact E2|]. split; [exact G2|]. split; [eapply incl_tran; eauto|lia].
Qed.

Lemma chosen_lt u n : 0 <= u < 1 -> (0 < n)%nat -> (chosen u n < n)%nat.
Proof.
  intros U P. unfold chosen. assert (Q : 0 < INR n) by (apply lt_0_INR; exact P). assert (Zfloor (u * INR n) < Z.of_nat n)%Z; [|lia].
  apply lt_IZR. rewrite <- INR_IZR_INZ. pose proof (Zfloor_lb (u * INR n)). nra.
Qed.
Lemma out_bound s : good s -> (length (out s) <= N)%nat.
Proof.
  intros G. pose proof (g_cells s G) as D. rewrite <- (map_length (fun p => Z.to_nat (imageToGrid c p))). rewrite <- (seq_length N 0). apply NoDup_incl_length; [exact D|].
  intros k Hk. apply in_map_iff in Hk. destruct Hk as [p [<- Hp]]. apply in_seq. pose proof (g_here s G p Hp) as H. apply nth_error_lt in H. rewrite (g_len s G) in H. lia.
Qed.

Lemma sample_ok : forall fuel s, good s -> (len (todo s) <= length (out s))%nat -> (N <= fuel + (length (out s) - len (todo s)))%nat ->
  exists s', sample c rng fuel s = Ok s' /\ good s' /\ incl (out s) (out s').
Proof.
  induction fuel as [|fuel IH]; intros s G LE H; cbn [sample]; unfold Empty; destruct (Nat.eqb_spec (len (todo s)) 0) as [Z|Z];
    try (exists s; split; [reflexivity|]; split; [exact G|apply incl_refl]).
  - pose proof (out_bound s G). lia.
  - pose proof (chosen_lt (rng (used s)) (len (todo s)) (CA _) ltac:(lia)) as CH.
    destruct (step_ok (todo s) (OPop (chosen (rng (used s)) (len (todo s)))) (g_queue s G) CH) as (q' & r & E1 & I1 & x & X1 & X2 & X3).
    cbn [step] in E1. apply bind_ok in E1. destruct E1 as [[q x'] [E1 E2]]. injection E2 as <- E2. rewrite <- E2 in X2. injection X2 as ->.
    rewrite E1. cbn [bind].
    assert (LQ : len (todo s) = S (len q)).
    { pose proof (g_queue s G) as QI. assert (K : forall q, inv q -> @length (R * R) (elements q) = len q) by (intros q0 K; unfold elements, inv in *; rewrite firstn_length; lia).
      apply Permutation_length in X3. cbn in X3. rewrite !K in X3 by assumption. exact X3. }
    set (s1 := mkState (grid s) q (out s) (S (used s))).
    assert (IX : incl (x :: elements q) (out s)). { intros y Hy. apply (g_incl s G). eapply Permutation_in; [symmetry; exact X3|exact Hy]. }
    assert (G1 : good s1). { destruct G; split; try assumption. intros y Hy. apply IX. right. exact Hy. }
    destruct (attempts_ok (perIteration c) s1 x G1 (IX x (or_introl eq_refl))) as (s2 & E3 & G2 & I2 & L2). rewrite E3. cbn [bind].
    cbn [out todo s1] in *. destruct (IH s2 G2) as (s3 & E4 & G3 & I3); [lia|lia|].
    exists s3. split; [exact E4|]. split; [exact G3|]. eapply incl_tran; eauto.
Qed.
End P.

(** With cells of 8 bytes (T is float), for every sequence of random numbers: the sampling ends after at most as many turns
    as the grid has cells and touches no memory beside the grid; there is at least one point, all points are in the
    rectangle, no two are nearer to each other than the given distance, and each but the first is at less than twice this
    distance from an earlier one. *)
Theorem C176_poisson_partial : forall c rng, sensible c -> canonical rng -> stride c = 1%Z ->
  exists l, (forall fuel, (Z.to_nat (gw c * gh c) <= fuel)%nat -> PoissonDiskSample c rng fuel = Ok l) /\
    l <> [] /\ (forall p, In p l -> in_rect c p) /\ apart (mindist c) l /\ spread (mindist c) l.
Proof.
  intros c rng SE CA S1. set (N := Z.to_nat (gw c * gh c)).
  set (pt := (randReal (x0 c) (x1 c) (rng 0%nat), randReal (y0 c) (y1 c) (rng 1%nat))). set (s0 := mkState (repeat None N) new [] 2).
  assert (G0 : good c s0).
  { split; cbn [grid todo out s0].
    - apply repeat_length.
    - intros p [].
    - intros p [].
    - intros i j p q _ H. destruct i; discriminate.
    - intros j q _ H. destruct j; discriminate.
    - constructor.
    - apply Nat.le_0_l.
    - intros p []. }
  assert (I : in_rect c pt).
  { unfold pt, in_rect, randReal. cbn [fst snd]. pose proof (CA 0%nat). pose proof (CA 1%nat). destruct SE as [U [V _]]. split; nra. }
  assert (E : nth_error (grid s0) (Z.to_nat (imageToGrid c pt)) = Some None).
  { apply nth_error_repeat. pose proof (idx_bounds c SE pt I). unfold N. lia. }
  destruct (accept_ok c SE s0 pt G0 I E) as (s1 & E1 & G1 & O1 & L1); [intros q []|left; reflexivity|].
  cbn [s0 out todo app] in O1, L1. change (len (@new (R * R))) with 0%nat in L1.
  destruct (sample_ok c rng SE S1 CA N s1 G1) as (s2 & E2 & G2 & I2); [rewrite O1, L1; cbn; lia|fold N; lia|].
  exists (out s2). split.
  - intros fuel HF. unfold PoissonDiskSample. fold N. fold pt. fold s0. rewrite E1. cbn [bind].
    assert (MONO : forall a b s s', (a <= b)%nat -> sample c rng a s = Ok s' -> sample c rng b s = Ok s').
    { clear. intros a. induction a as [|a IH]; intros b s s' AB; destruct b as [|b]; try lia; cbn [sample]; destruct (Empty (todo s)); try discriminate; auto.
      intros H. apply bind_ok in H. destruct H as [[q p] [H1 H2]]. rewrite H1. cbn [bind]. apply bind_ok in H2. destruct H2 as [t [H2 H3]]. rewrite H2. cbn [bind]. apply (IH b t s'); [lia|exact H3]. }
    rewrite (MONO _ _ _ _ HF E2). reflexivity.
  - split; [|split; [apply G2|split; apply G2]]. intros Z. specialize (I2 pt). rewrite O1, Z in I2. apply I2. left. reflexivity.
Qed.
Print Assumptions C176_poisson_partial.

(* --- a run in which the generator gives zero except for the first two numbers --- *)
Definition zeros (k : nat) : R := match k with 0%nat => 9 / 25 | 1%nat => / 2 | _ => 0 end.
Definition narrow (w : Z) : setup := mkSetup 0 0 (5 / 2) 1 (sqrt 2) 2 w.
Definition first_point : R * R := (9 / 10, / 2).
Definition second_point : R * R := (9 / 10 + sqrt 2, / 2).

Lemma zeros_canonical : canonical zeros.
Proof. intros k. unfold zeros. destruct k as [|[|k]]; lra. Qed.
Lemma root2 : 6 / 5 < sqrt 2 < 3 / 2.
Proof. pose proof (sqrt_lt_R0 2 ltac:(lra)). pose proof (sqrt_sqrt 2 ltac:(lra)). nra. Qed.
Lemma narrow_sensible w : sensible (narrow w).
Proof. pose proof root2. unfold sensible, narrow. cbn. lra. Qed.
Lemma narrow_cell w : cell (narrow w) = 1.
Proof. pose proof root2. unfold cell, narrow. cbn [mindist]. field. lra. Qed.
Lemma narrow_gw w : gw (narrow w) = 7%Z.
Proof. unfold gw. rewrite narrow_cell. cbn [x0 x1 narrow]. rewrite (Zceil_imp 3); [reflexivity|]. cbn. lra. Qed.
Lemma narrow_gh w : gh (narrow w) = 5%Z.
Proof. unfold gh. rewrite narrow_cell. cbn [y0 y1 narrow]. rewrite (Zceil_imp 1); [reflexivity|]. cbn. lra. Qed.
Lemma narrow_first w : imageToGrid (narrow w) first_point = 16%Z.
Proof.
  unfold imageToGrid. rewrite narrow_cell, narrow_gw. cbn [x0 y0 narrow first_point fst snd]. rewrite (Zfloor_imp 0), (Zfloor_imp 0); [reflexivity| |]; cbn; lra.
Qed.
Lemma narrow_second w : imageToGrid (narrow w) second_point = 18%Z.
Proof.
  pose proof root2. unfold imageToGrid. rewrite narrow_cell, narrow_gw. cbn [x0 y0 narrow second_point fst snd]. rewrite (Zfloor_imp 2), (Zfloor_imp 0); [reflexivity| |]; cbn; lra.
Qed.
Lemma chosen_0 n : chosen 0 n = 0%nat.
Proof. unfold chosen. rewrite Rmult_0_l. rewrite (Zfloor_IZR 0). reflexivity. Qed.

(** All attempts go to the right by the distance. *)
Lemma narrow_attempt w g q o k p : attempt (narrow w) zeros (mkState g q o (S (S k))) p =
  (let pt := (fst p + sqrt 2, snd p) in let s := mkState g q o (S (S (S (S k)))) in
   if inside (narrow w) pt then do b <- crowded (narrow w) g pt; if b then Ok s else accept (narrow w) s pt else Ok s).
Proof.
  unfold attempt. cbn [used grid todo out]. cbn [zeros mindist narrow]. unfold randReal. rewrite !Rmult_0_l, !Rplus_0_r, cos_0, sin_0, !Rmult_1_r, Rmult_0_r, Rplus_0_r. reflexivity.
Qed.
Lemma narrow_attempt_first w g q o k : attempt (narrow w) zeros (mkState g q o (S (S k))) first_point =
  (let s := mkState g q o (S (S (S (S k)))) in do b <- crowded (narrow w) g second_point; if b then Ok s else accept (narrow w) s second_point).
Proof.
  pose proof root2. rewrite narrow_attempt. replace (fst first_point + sqrt 2, snd first_point) with second_point by (unfold second_point, first_point; cbn; f_equal; lra). cbv zeta.
  replace (inside (narrow w) second_point) with true; [reflexivity|]. symmetry. unfold inside. rewrite !andb_true_iff, !rlt_true. cbn. lra.
Qed.
Lemma narrow_attempt_second w g q o k : attempt (narrow w) zeros (mkState g q o (S (S k))) second_point = Ok (mkState g q o (S (S (S (S k))))).
Proof.
  pose proof root2. rewrite narrow_attempt. cbv zeta. replace (inside (narrow w) _) with false; [reflexivity|]. symmetry. unfold inside. apply andb_false_iff. left. apply andb_false_iff. left.
  apply andb_false_iff. right. apply rlt_false. cbn. lra.
Qed.
Lemma accept_second w g q o k : length g = 35%nat -> accept (narrow w) (mkState g q o k) second_point = Ok (mkState (upd g 18 (Some second_point)) (Push q second_point) (o ++ [second_point]) k).
Proof. intros L. unfold accept, cell_set. rewrite narrow_second. cbn [Z.ltb Z.compare grid todo out used]. rewrite set_ok by (rewrite L; cbn; lia). reflexivity. Qed.

Definition grid1 : list (option (R * R)) := upd (repeat None 35) 16 (Some first_point).
Definition grid2 : list (option (R * R)) := upd grid1 18 (Some second_point).

Lemma crowded_doubles g : g = grid1 \/ g = grid2 -> crowded (narrow 2) g second_point = Ok false.
Proof.
  intros G. unfold crowded. rewrite narrow_second, narrow_gw. unfold check, blocked, marked, grid2, grid1 in *.
  change (stride (narrow 2)) with 2%Z. generalize dependent second_point. generalize first_point. intros A B G. 
  destruct G as [->| ->]; lazy -[rlt mindistsq]; reflexivity.
Qed.
Lemma crowded_floats : crowded (narrow 1) grid1 second_point = Ok false /\ crowded (narrow 1) grid2 second_point = Ok true.
Proof.
  assert (D : rlt ((fst second_point - fst first_point) * (fst second_point - fst first_point) + (snd second_point - snd first_point) * (snd second_point - snd first_point)) (mindistsq (narrow 1)) = false).
  { apply rlt_false. unfold mindistsq. cbn. pose proof (sqrt_sqrt 2 ltac:(lra)). nra. }
  unfold crowded. rewrite narrow_second, narrow_gw. unfold check, blocked, marked, grid2, grid1.
  change (stride (narrow 1)) with 1%Z. revert D. generalize (mindistsq (narrow 1)) as ms, second_point, first_point. intros ms [u v] [x y] D. cbn [fst snd] in D.
  split; lazy -[rlt Rmult Rplus Rminus]; [rewrite D|]; reflexivity.
Qed.

Lemma narrow_start w : PoissonDiskSample (narrow w) zeros 35 =
  (do s <- sample (narrow w) zeros 35 (mkState grid1 (mk [first_point] 1) [first_point] 2); Ok (out s)).
Proof.
  unfold PoissonDiskSample. rewrite narrow_gw, narrow_gh. change (Z.to_nat (7 * 5)) with 35%nat.
  replace (randReal (x0 (narrow w)) (x1 (narrow w)) (zeros 0), randReal (y0 (narrow w)) (y1 (narrow w)) (zeros 1)) with first_point
    by (unfold first_point, randReal; cbn [x0 x1 y0 y1 narrow zeros]; f_equal; field).
  unfold accept at 1. unfold cell_set. rewrite narrow_first. reflexivity.
Qed.

Lemma sample_turn w fuel g q o k q' p : Empty q = false -> Pop q 0 = Ok (q', p) ->
  sample (narrow w) zeros (S fuel) (mkState g q o (S (S k))) = (do s <- attempts (narrow w) zeros 2 (mkState g q' o (S (S (S k)))) p; sample (narrow w) zeros fuel s).
Proof. intros E P. cbn [sample todo used grid out zeros perIteration narrow]. rewrite E, chosen_0, P. reflexivity. Qed.
Lemma sample_second w fuel g q o k q' : Empty q = false -> Pop q 0 = Ok (q', second_point) ->
  sample (narrow w) zeros (S fuel) (mkState g q o (S (S k))) = sample (narrow w) zeros fuel (mkState g q' o (S (S (S (S (S (S (S k)))))))).
Proof. intros E P. rewrite (sample_turn w fuel g q o k q' _ E P). cbn [attempts]. rewrite narrow_attempt_second. cbn [bind]. rewrite narrow_attempt_second. reflexivity. Qed.
Lemma sample_end w fuel g q o k : Empty q = true -> sample (narrow w) zeros fuel (mkState g q o k) = Ok (mkState g q o k).
Proof. intros E. destruct fuel; cbn [sample todo]; rewrite E; reflexivity. Qed.

(** With cells of 16 bytes (T is double) the test whether a cell was written looks at the wrong cell: here the second
    attempt finds the point of the first one, and it is given out again. *)
Theorem C176_poisson_refuted :
  ~ (forall c rng fuel l, sensible c -> canonical rng -> stride c = 1%Z \/ stride c = 2%Z -> PoissonDiskSample c rng fuel = Ok l -> apart (mindist c) l).
Proof.
  intros H. specialize (H (narrow 2) zeros 35%nat [first_point; second_point; second_point] (narrow_sensible 2) zeros_canonical (or_intror eq_refl)).
  assert (E : PoissonDiskSample (narrow 2) zeros 35 = Ok [first_point; second_point; second_point]).
  { rewrite narrow_start. erewrite sample_turn; [|reflexivity|reflexivity]. cbn [attempts].
    rewrite narrow_attempt_first. cbv zeta. rewrite crowded_doubles by auto. cbn [bind]. rewrite accept_second by reflexivity. cbn [bind].
    rewrite narrow_attempt_first. cbv zeta. rewrite crowded_doubles by auto. cbn [bind]. rewrite accept_second by reflexivity. cbn [bind].
    erewrite sample_second; [|reflexivity|reflexivity]. erewrite sample_second; [|reflexivity|reflexivity]. rewrite sample_end by reflexivity. reflexivity. }
  apply H in E. specialize (E 1%nat 2%nat second_point second_point ltac:(lia) eq_refl eq_refl). unfold dist2 in E. cbn [mindist narrow] in E.
  rewrite (sqrt_sqrt 2) in E by lra. lra.
Qed.
Print Assumptions C176_poisson_refuted.

(** The same run with cells of 8 bytes. *)
Example C176_example : sensible (narrow 1) /\ canonical zeros /\ stride (narrow 1) = 1%Z /\ Z.to_nat (gw (narrow 1) * gh (narrow 1)) = 35%nat /\
  PoissonDiskSample (narrow 1) zeros 35 = Ok [first_point; second_point].
Proof.
  split; [apply narrow_sensible|]. split; [apply zeros_canonical|]. split; [reflexivity|]. split; [rewrite narrow_gw, narrow_gh; reflexivity|].
  rewrite narrow_start. erewrite sample_turn; [|reflexivity|reflexivity]. cbn [attempts]. destruct crowded_floats as [C1 C2].
  rewrite narrow_attempt_first. cbv zeta. rewrite C1. cbn [bind]. rewrite accept_second by reflexivity. cbn [bind].
  rewrite narrow_attempt_first. cbv zeta. fold grid2. rewrite C2. cbn [bind].
  erewrite sample_second; [|reflexivity|reflexivity]. rewrite sample_end by reflexivity. reflexivity.
Qed.
