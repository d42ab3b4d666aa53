(* Property C38: DisjointSet computes the classes of the performed unions. *)
From Coq Require Import List Arith ZArith Bool Lia Permutation Relations.
From Coq Require Import ZifyBool ZifyNat.
From Verif Require Import Common DisjointSet.
Import ListNotations.

(* --- specification --- *)
(* x and y are connected by the pairs us *)
Definition connected (us : list (nat * nat)) : nat -> nat -> Prop := clos_refl_sym_trans nat (fun a b => In (a, b) us).
(* c is the number of classes of the elements below n *)
Definition class_count (n : nat) (us : list (nat * nat)) (c : Z) : Prop :=
  exists reps, NoDup reps /\ (forall r, In r reps -> r < n) /\
    (forall x, x < n -> exists r, In r reps /\ connected us x r) /\
    (forall r r', In r reps -> In r' reps -> connected us r r' -> r = r') /\ c = Z.of_nat (length reps).
(* l lists the class of x among the elements below n *)
Definition class_of (n : nat) (us : list (nat * nat)) (x : nat) (l : list nat) : Prop :=
  NoDup l /\ forall y, In y l <-> y < n /\ connected us x y.
(* The states after a sequence of calls, with the unions performed so far. Union is only called with different arguments
   (Union(x, x) is refuted below); if one of them is no set name it is refused and nothing happens. *)
Inductive reachable (n : nat) : dset -> list (nat * nat) -> Prop :=
| r_new : reachable n (new_dset n) []
| r_reset s us : reachable n s us -> reachable n (Reset s) []
| r_union s us a b s' : reachable n s us -> a <> b -> Union s a b = Ok (s', true) -> reachable n s' ((a, b) :: us)
| r_refused s us a b s' : reachable n s us -> a <> b -> Union s a b = Ok (s', false) -> reachable n s' us
| r_find s us x s' r : reachable n s us -> Find s x = Ok (s', r) -> reachable n s' us
| r_num s us x s' r : reachable n s us -> NumElements s x = Ok (s', r) -> reachable n s' us
| r_elems s us x s' l : reachable n s us -> GetElements s x = Ok (s', l) -> reachable n s' us.

(* --- connected --- *)
Lemma conn_refl us x : connected us x x.
Proof. apply rst_refl. Qed.
Lemma conn_sym us x y : connected us x y -> connected us y x.
Proof. apply rst_sym. Qed.
Lemma conn_trans us x y z : connected us x y -> connected us y z -> connected us x z.
Proof. apply rst_trans. Qed.
Lemma conn_step us x y : In (x, y) us -> connected us x y.
Proof. intros. apply rst_step. assumption. Qed.
Lemma conn_least us (E : nat -> nat -> Prop) : (forall x, E x x) -> (forall x y, E x y -> E y x) -> (forall x y z, E x y -> E y z -> E x z) ->
  (forall x y, In (x, y) us -> E x y) -> forall x y, connected us x y -> E x y.
Proof. intros R S T I x y H. induction H; eauto. Qed.
Lemma conn_incl us vs : (forall x y, In (x, y) us -> connected vs x y) -> forall x y, connected us x y -> connected vs x y.
Proof. intros H. apply conn_least; auto using conn_refl, conn_sym. intros; eapply conn_trans; eauto. Qed.
(* adding one pair *)
Lemma conn_add us a b x y : connected ((a, b) :: us) x y <->
  connected us x y \/ (connected us x a /\ connected us y b) \/ (connected us x b /\ connected us y a).
Proof.
  split.
  - revert x y. apply conn_least.
    + intros x. left. apply conn_refl.
    + intros x y [H|[[H1 H2]|[H1 H2]]]; auto. left. apply conn_sym. exact H.
    + intros x y z [H|[[H1 H2]|[H1 H2]]] [G|[[G1 G2]|[G1 G2]]]; eauto 6 using conn_trans, conn_sym.
    + intros x y [E|H]; [injection E as <- <-; right; left; split; apply conn_refl|left; apply conn_step; exact H].
  - assert (M : forall p q, connected us p q -> connected ((a, b) :: us) p q) by (apply conn_incl; intros p q Hpq; apply conn_step; right; exact Hpq).
    assert (AB : connected ((a, b) :: us) a b) by (apply conn_step; left; reflexivity).
    intros [H|[[H1 H2]|[H1 H2]]]; [auto|..].
    + apply conn_trans with a; [auto|]. apply conn_trans with b; [exact AB|]. apply conn_sym. auto.
    + apply conn_trans with b; [auto|]. apply conn_trans with a; [apply conn_sym; exact AB|]. apply conn_sym. auto.
Qed.

(* --- forests --- *)
Inductive root (a : list Z) : nat -> nat -> nat -> Prop :=   (* root a x r d: from x in d steps to the root r *)
| root_0 x w : nth_error a x = Some w -> (w < 0)%Z -> root a x x 0
| root_S x p r d : nth_error a x = Some p -> (0 <= p)%Z -> root a (Z.to_nat p) r d -> root a x r (S d).
Lemma root_fun a x r d : root a x r d -> forall r' d', root a x r' d' -> r = r' /\ d = d'.
Proof.
  induction 1 as [x w E W|x p r d E P _ IH]; intros r' d' H; inversion H as [x' w' E' W' |x' p' r1 d1 E' P' H']; subst; rewrite E in E'; injection E' as <-; try lia; auto.
  destruct (IH _ _ H') as [-> ->]. auto.
Qed.
Lemma root_neg a x r d : root a x r d -> exists w, nth_error a r = Some w /\ (w < 0)%Z.
Proof. induction 1; eauto. Qed.
Lemma root_self a r w : nth_error a r = Some w -> (w < 0)%Z -> root a r r 0.
Proof. intros. eapply root_0; eauto. Qed.
(* the nodes on the way to the root are different, so the way is short *)
Lemma root_path a x r d : root a x r d -> exists l, length l = S d /\ NoDup l /\ (forall y, In y l -> y < length a /\ exists dy, dy <= d /\ root a y r dy).
Proof.
  induction 1 as [x w E W|x p r d E P H IH].
  - exists [x]. split; [reflexivity|]. split; [constructor; [intros []|constructor]|]. intros y [<-|[]]. split; [eapply nth_error_lt; exact E|]. exists 0. split; [lia|]. eapply root_0; eauto.
  - destruct IH as (l & L & N & I). exists (x :: l). split; [cbn; lia|]. split.
    + constructor; [|exact N]. intros Hx. destruct (I x Hx) as (_ & dy & Hd & R). destruct (root_fun _ _ _ _ R _ _ (root_S _ _ _ _ _ E P H)) as [_ X]. lia.
    + intros y [<-|Hy].
      * split; [eapply nth_error_lt; exact E|]. exists (S d). split; [lia|]. eapply root_S; eauto.
      * destruct (I y Hy) as (A & dy & B & R). split; [exact A|]. exists dy. split; [lia|exact R].
Qed.
Lemma root_depth a x r d : root a x r d -> d < length a.
Proof.
  intros H. destruct (root_path _ _ _ _ H) as (l & L & N & I). assert (X : length l <= length (seq 0 (length a))).
  { apply NoDup_incl_length; [exact N|]. intros y Hy. apply in_seq. destruct (I y Hy). lia. } rewrite seq_length in X. lia.
Qed.
Definition rooted (a : list Z) (x r : nat) : Prop := exists d, root a x r d.
Lemma rooted_fun a x r r' : rooted a x r -> rooted a x r' -> r = r'.
Proof. intros [d H] [d' H']. destruct (root_fun _ _ _ _ H _ _ H'). assumption. Qed.

Lemma climb_ok a r : forall d fuel x, root a x r d -> d < fuel -> climb fuel a x = Ok r.
Proof.
  induction d as [|d IH]; intros [|fuel] x H Hf; try lia; inversion H as [x' w' E' W' |x' p' r1 d1 E' P' H']; subst; cbn [climb]; rewrite (get_some _ _ _ E'); cbn [bind].
  - destruct (Z.leb_spec 0 w'); [lia|reflexivity].
  - destruct (Z.leb_spec 0 p'); [|lia]. apply IH; [assumption|lia].
Qed.
(* pointing a node directly at its root changes no root *)
Lemma root_shortcut a x r d : root a x r d -> x <> r -> forall y r' d', root a y r' d' -> exists d'', d'' <= d' /\ root (upd a x (Z.of_nat r)) y r' d''.
Proof.
  intros H Hne. destruct (root_neg _ _ _ _ H) as (wr & Er & Wr). 
  assert (Rr : root (upd a x (Z.of_nat r)) r r 0) by (eapply root_0; [rewrite nth_error_upd_neq by auto; exact Er|exact Wr]).
  induction 1 as [y w E W|y p r' d' E P H' IH].
  - exists 0. split; [lia|]. destruct (Nat.eq_dec x y) as [<-|N]; [|eapply root_0; [rewrite nth_error_upd_neq by auto; exact E|exact W]].
    exfalso. destruct (root_fun _ _ _ _ H _ _ (root_0 _ _ _ E W)) as [X _]. congruence.
  - destruct IH as (d2 & Hd & R2). destruct (Nat.eq_dec x y) as [<-|N].
    + destruct (root_fun _ _ _ _ H _ _ (root_S _ _ _ _ _ E P H')) as [<- ->]. exists 1. split; [lia|].
      eapply root_S; [rewrite nth_error_upd_eq by (eapply nth_error_lt; exact E); reflexivity|lia|]. rewrite Nat2Z.id. exact Rr.
    + exists (S d2). split; [lia|]. eapply root_S; [rewrite nth_error_upd_neq by auto; exact E|exact P|exact R2].
Qed.
Definition same_roots (a a' : list Z) : Prop := length a' = length a /\ (forall y r, rooted a y r -> rooted a' y r) /\
  (forall r w, (w < 0)%Z -> nth_error a r = Some w <-> nth_error a' r = Some w).
Lemma same_refl a : same_roots a a.
Proof. split; [reflexivity|]. split; [auto|tauto]. Qed.
Lemma same_trans a b c : same_roots a b -> same_roots b c -> same_roots a c.
Proof. intros (A1 & A2 & A3) (B1 & B2 & B3). split; [congruence|]. split; [auto|]. intros r w Hw. rewrite A3, B3 by exact Hw. tauto. Qed.
Lemma compress_ok r : forall d fuel a x t, root a x r (S d) -> nth_error a x = Some t -> d < fuel -> exists a', compress fuel a r x t = Ok a' /\ same_roots a a'.
Proof.
  induction d as [d IH] using lt_wf_ind. intros [|fuel] a x t H E Hf; [lia|]. cbn [compress].
  inversion H as [|x' p' r1 d1 E' P' H']; subst. rewrite E in E'. injection E' as <-.
  destruct (Z.eqb_spec t (Z.of_nat r)) as [->|Ht]; [exists a; split; [reflexivity|apply same_refl]|].
  assert (Hxr : x <> r).
  { intros ->. destruct (root_neg _ _ _ _ H) as (w & Ew & Ww). rewrite E in Ew. injection Ew as ->. lia. }
  assert (Hx : x < length a) by (eapply nth_error_lt; exact E).
  rewrite set_ok by exact Hx. cbn [bind]. destruct (Z.ltb_spec t 0); [lia|].
  assert (S1 : same_roots a (upd a x (Z.of_nat r))).
  { split; [apply upd_length|]. split.
    - intros y r' [dy Hy]. destruct (root_shortcut _ _ _ _ H Hxr _ _ _ Hy) as (d2 & _ & R2). exists d2. exact R2.
    - intros q w Hw. rewrite nth_error_upd. destruct (Nat.eqb_spec x q) as [<-|]; cbn [andb]; [|tauto]. destruct (Nat.ltb_spec x (length a)); [|lia].
      split; intros X; [rewrite E in X; injection X as ->; lia|injection X as X; lia]. }
  (* t is not the root, so it has a parent, at distance one less *)
  inversion H' as [y w Ey Wy|y p r2 d2 Ey Py H2]; subst.
  { exfalso. apply Ht. lia. }
  assert (Nx : x <> Z.to_nat t).
  { intros Ex. rewrite <- Ex in H'. destruct (root_fun _ _ _ _ H _ _ H') as [_ X]. lia. }
  unfold get. rewrite nth_error_upd_neq by exact Nx. rewrite Ey. cbn [bind].
  assert (Er2 : root a (Z.to_nat t) r (S d2)) by exact H'.
  destruct (root_shortcut _ _ _ _ H Hxr _ _ _ Er2) as (d3 & Hd3 & R3).
  destruct d3 as [|d3].
  - exfalso. inversion R3; subst. apply Ht. lia.
  - destruct (IH d3 ltac:(lia) fuel (upd a x (Z.of_nat r)) (Z.to_nat t) p R3) as (a' & Ea & Sa).
    + rewrite nth_error_upd_neq by exact Nx. exact Ey.
    + lia.
    + exists a'. split; [exact Ea|]. eapply same_trans; eassumption.
Qed.

(* --- the invariant --- *)
Record inv (n : nat) (s : dset) (us : list (nat * nat)) : Prop := {
  i_len : length (arr s) = n;
  i_root : forall x, x < n -> exists r, r < n /\ rooted (arr s) x r;
  i_conn : forall x y, x < n -> y < n -> (connected us x y <-> exists r, rooted (arr s) x r /\ rooted (arr s) y r);
  i_us : forall x y, In (x, y) us -> x < n /\ y < n;
  i_weight : forall r w, nth_error (arr s) r = Some w -> (w < 0)%Z -> exists l, class_of n us r l /\ (- w)%Z = Z.of_nat (length l);
  i_sets : exists reps, NoDup reps /\ (forall r, In r reps <-> exists w, nth_error (arr s) r = Some w /\ (w < 0)%Z) /\ numsets s = Z.of_nat (length reps) }.

Lemma rooted_lt a x r : rooted a x r -> r < length a.
Proof. intros [d H]. destruct (root_neg _ _ _ _ H) as (w & E & _). eapply nth_error_lt; exact E. Qed.
Lemma inv_same n s us a' : inv n s us -> same_roots (arr s) a' -> inv n (mk a' (numsets s)) us.
Proof.
  intros [I1 I2 I3 I4 I5 I6] (S1 & S2 & S3).
  assert (RB : forall x r, x < n -> rooted a' x r -> rooted (arr s) x r).
  { intros x r Hx R. destruct (I2 x Hx) as (r0 & _ & R0). rewrite <- (rooted_fun a' x r0 r); auto. }
  constructor; cbn [arr numsets].
  - lia.
  - intros x Hx. destruct (I2 x Hx) as (r & Hr & R). exists r. auto.
  - intros x y Hx Hy. rewrite I3 by assumption. split; intros (r & R1 & R2); exists r; auto.
  - exact I4.
  - intros r w E W. apply S3 in E; [|exact W]. eauto.
  - destruct I6 as (reps & N & Hr & Hn). exists reps. split; [exact N|]. split; [|exact Hn]. intros r. rewrite Hr. split; intros (w & E & W); exists w; (split; [|exact W]); apply (S3 r w W); exact E.
Qed.
Lemma Find_ok n s us x : inv n s us -> x < n -> exists s' r, Find s x = Ok (s', r) /\ inv n s' us /\ rooted (arr s) x r /\ same_roots (arr s) (arr s').
Proof.
  intros I Hx. destruct (i_root n s us I x Hx) as (r & Hr & d & R). unfold Find.
  pose proof (root_depth _ _ _ _ R) as Hd. rewrite (climb_ok _ r d) by (auto; lia). cbn [bind].
  destruct (Nat.eqb_spec x r) as [->|Hne]; [exists s, r; split; [reflexivity|]; split; [exact I|]; split; [exists d; exact R|apply same_refl]|].
  destruct d as [|d]; [inversion R; subst; contradiction|]. inversion R as [|x' p' r1 d1 E' P' H']; subst. rewrite (get_some _ _ _ E'). cbn [bind].
  destruct (compress_ok r d (S (length (arr s))) (arr s) x p' R E' ltac:(lia)) as (a' & Ea & Sa). rewrite Ea. cbn [bind].
  do 2 eexists. split; [reflexivity|]. split; [apply inv_same; assumption|]. split; [exists (S d); exact R|exact Sa].
Qed.
Lemma inv_new n : inv n (new_dset n) [].
Proof.
  unfold new_dset. assert (X : forall x w, nth_error (repeat (-1)%Z n) x = Some w -> w = (-1)%Z) by (intros x w E; apply nth_error_In, repeat_spec in E; exact E).
  assert (Y : forall x, x < n -> nth_error (repeat (-1)%Z n) x = Some (-1)%Z).
  { intros x Hx. destruct (nth_error_ex (repeat (-1)%Z n) x) as [w E]; [rewrite repeat_length; exact Hx|]. rewrite E. f_equal. eauto. }
  assert (R : forall x r, x < n -> rooted (repeat (-1)%Z n) x r <-> x = r).
  { intros x r Hx. split; [|intros <-; exists 0; eapply root_0; [apply Y; exact Hx|lia]].
    intros [d H]. assert (H0 : root (repeat (-1)%Z n) x x 0) by (eapply root_0; [apply Y; exact Hx|lia]). destruct (root_fun _ _ _ _ H0 _ _ H). assumption. }
  assert (N : forall x y, connected [] x y <-> x = y).
  { intros x y. split; [|intros ->; apply conn_refl]. revert x y. apply conn_least; intros; try congruence. contradiction. }
  constructor; cbn [arr numsets].
  - apply repeat_length.
  - intros x Hx. exists x. split; [exact Hx|]. apply R; auto.
  - intros x y Hx Hy. rewrite N. split; [intros ->; exists y; split; apply R; auto|]. intros (r & R1 & R2). apply R in R1, R2; auto. congruence.
  - intros x y [].
  - intros r w E W. apply nth_error_lt in E as Hr. rewrite repeat_length in Hr. exists [r]. split; [|rewrite (X _ _ E); reflexivity].
    split; [constructor; [intros []|constructor]|]. intros y. rewrite N. cbn [In]. split; [intros [<-|[]]; auto|intros [_ ->]; auto].
  - exists (seq 0 n). split; [apply seq_NoDup|]. split; [|rewrite seq_length; reflexivity]. intros r. rewrite in_seq. split.
    + intros Hr. exists (-1)%Z. split; [apply Y; lia|lia].
    + intros (w & E & _). apply nth_error_lt in E. rewrite repeat_length in E. lia.
Qed.
(* hanging the set name x below the set name y; wx + wy is the new weight *)
Lemma link_ok n s us x y wx wy p : inv n s us -> nth_error (arr s) x = Some wx -> (wx < 0)%Z -> nth_error (arr s) y = Some wy -> (wy < 0)%Z -> x <> y ->
  p = (x, y) \/ p = (y, x) ->
  inv n (mk (upd (upd (arr s) y (wy + wx)%Z) x (Z.of_nat y)) (numsets s - 1)) (p :: us).
Proof.
  intros I Ex Wx Ey Wy Hne Hp. destruct I as [I1 I2 I3 I4 I5 I6]. set (a := arr s) in *. set (a' := upd (upd a y (wy + wx)%Z) x (Z.of_nat y)).
  pose proof (nth_error_lt _ _ _ Ex) as Lx. pose proof (nth_error_lt _ _ _ Ey) as Ly.
  assert (Gx : nth_error a' x = Some (Z.of_nat y)) by (unfold a'; rewrite nth_error_upd_eq by (rewrite upd_length; exact Lx); reflexivity).
  assert (Gy : nth_error a' y = Some (wy + wx)%Z) by (unfold a'; rewrite nth_error_upd_neq by exact Hne; rewrite nth_error_upd_eq by exact Ly; reflexivity).
  assert (Go : forall i, i <> x -> i <> y -> nth_error a' i = nth_error a i) by (intros i H1 H2; unfold a'; rewrite !nth_error_upd_neq by auto; reflexivity).
  assert (Ry : root a' y y 0) by (eapply root_0; [exact Gy|lia]).
  assert (RR : forall z r, rooted a z r -> rooted a' z (if r =? x then y else r)).
  { intros z r [d H]. induction H as [z w E W|z q r d E Q H IH].
    - destruct (Nat.eqb_spec z x) as [->|N1]; [exists 1; eapply root_S; [exact Gx|lia|rewrite Nat2Z.id; exact Ry]|].
      destruct (Nat.eq_dec z y) as [->|N2]; [exists 0; exact Ry|]. exists 0. eapply root_0; [rewrite Go by assumption; exact E|exact W].
    - destruct IH as [d' IH]. exists (S d'). eapply root_S; [|exact Q|exact IH]. rewrite Go; [exact E| |]; intros ->; [rewrite Ex in E|rewrite Ey in E]; injection E as ->; lia. }
  assert (RX : rooted a x x) by (exists 0; eapply root_0; eauto). assert (RY : rooted a y y) by (exists 0; eapply root_0; eauto).
  assert (CA : forall u v, connected (p :: us) u v <-> connected us u v \/ (connected us u x /\ connected us v y) \/ (connected us u y /\ connected us v x)).
  { intros u v. destruct Hp as [-> | ->]; rewrite conn_add; tauto. }
  assert (CR : forall u, u < n -> forall r, rooted a u r -> (connected us u x <-> r = x) /\ (connected us u y <-> r = y)).
  { intros u Hu r R. split; rewrite I3 by lia; split.
    - intros (q & Q1 & Q2). rewrite (rooted_fun _ _ _ _ R Q1). eapply rooted_fun; eauto.
    - intros ->. exists x. auto.
    - intros (q & Q1 & Q2). rewrite (rooted_fun _ _ _ _ R Q1). eapply rooted_fun; eauto.
    - intros ->. exists y. auto. }
  constructor; cbn [arr numsets]; fold a a'.
  - unfold a'. rewrite !upd_length. exact I1.
  - intros z Hz. destruct (I2 z Hz) as (r & Hr & R). exists (if r =? x then y else r). split; [destruct (r =? x); lia|]. apply RR. exact R.
  - intros u v Hu Hv. rewrite CA. destruct (I2 u Hu) as (ru & Hru & Ru). destruct (I2 v Hv) as (rv & Hrv & Rv).
    rewrite (proj1 (CR u Hu ru Ru)), (proj2 (CR u Hu ru Ru)), (proj1 (CR v Hv rv Rv)), (proj2 (CR v Hv rv Rv)). rewrite I3 by assumption.
    assert (SU : (exists r, rooted a u r /\ rooted a v r) <-> ru = rv).
    { split; [intros (r & R1 & R2); rewrite (rooted_fun _ _ _ _ Ru R1); eapply rooted_fun; eauto|intros ->; exists rv; auto]. }
    rewrite SU. apply RR in Ru, Rv.
    assert (SU' : (exists r, rooted a' u r /\ rooted a' v r) <-> (if ru =? x then y else ru) = (if rv =? x then y else rv)).
    { split; [intros (r & R1 & R2); rewrite (rooted_fun _ _ _ _ Ru R1); eapply rooted_fun; eauto|intros E; eexists; split; [exact Ru|rewrite E; exact Rv]]. }
    rewrite SU'. destruct (Nat.eqb_spec ru x), (Nat.eqb_spec rv x); subst; intuition lia.
  - intros u v [E|Hin]; [|auto]. destruct Hp as [-> | ->]; injection E as <- <-; lia.
  - intros r w E W. destruct (Nat.eq_dec r x) as [->|N1]; [rewrite Gx in E; injection E as <-; lia|]. destruct (Nat.eq_dec r y) as [->|N2].
    + rewrite Gy in E. injection E as <-. destruct (I5 x wx Ex Wx) as (lx & [Nx Cx] & Lnx). destruct (I5 y wy Ey Wy) as (ly & [Ny Cy] & Lny).
      exists (ly ++ lx). split; [|rewrite app_length; lia]. split.
      * assert (D : forall z, In z ly -> ~ In z lx).
        { intros z H1 H2. apply Cy in H1. apply Cx in H2. destruct H1 as [Hz H1]. destruct H2 as [_ H2]. destruct (I2 z Hz) as (r & Hr & R).
          apply conn_sym in H1, H2. apply (CR z Hz r R) in H1, H2. congruence. }
        clear Cx Cy Lnx Lny. induction ly as [|z l IH]; [exact Nx|]. inversion Ny; subst. cbn [app]. constructor.
        -- rewrite in_app_iff. intros [Z|Z]; [contradiction|]. apply (D z); [left; reflexivity|exact Z].
        -- apply IH; [assumption|]. intros q Hq. apply D. right. exact Hq.
      * intros z. rewrite in_app_iff, Cx, Cy, CA. split.
        -- intros [[Hz H]|[Hz H]]; (split; [exact Hz|]); [left; exact H|right; right; split; [apply conn_refl|apply conn_sym; exact H]].
        -- intros [Hz [H|[[H1 H2]|[H1 H2]]]].
           ++ left. auto.
           ++ exfalso. apply (CR y ltac:(lia) y RY) in H1. congruence.
           ++ right. split; [exact Hz|]. apply conn_sym. exact H2.
    + rewrite Go in E by assumption. destruct (I5 r w E W) as (l & [Nl Cl] & Ll). exists l. split; [|exact Ll]. split; [exact Nl|].
      intros z. rewrite Cl, CA. split; [tauto|]. intros [Hz [H|[[H1 H2]|[H1 H2]]]]; [auto|exfalso..].
      * assert (RRr : rooted a r r) by (exists 0; eapply root_0; eauto). apply nth_error_lt in E. apply (CR r ltac:(lia) r RRr) in H1. congruence.
      * assert (RRr : rooted a r r) by (exists 0; eapply root_0; eauto). apply nth_error_lt in E. apply (CR r ltac:(lia) r RRr) in H1. congruence.
  - destruct I6 as (reps & N & Hr & Hn). assert (Hx : In x reps) by (apply Hr; eauto). apply in_split in Hx. destruct Hx as (r1 & r2 & ->).
    pose proof (NoDup_remove_1 _ _ _ N) as N1. pose proof (NoDup_remove_2 _ _ _ N) as N2.
    exists (r1 ++ r2). split; [exact N1|]. split; [|rewrite app_length in *; cbn [length] in Hn; lia].
    intros r. assert (X : In r (r1 ++ x :: r2) <-> r = x \/ In r (r1 ++ r2)) by (rewrite !in_app_iff; cbn [In]; intuition congruence).
    split.
    + intros Hin. assert (Nrx : r <> x) by (intros ->; contradiction). destruct (proj1 (Hr r) (proj2 X (or_intror Hin))) as (w & E & W).
      destruct (Nat.eq_dec r y) as [->|Nry]; [exists (wy + wx)%Z; split; [exact Gy|lia]|]. exists w. rewrite Go by assumption. auto.
    + intros (w & E & W). destruct (Nat.eq_dec r x) as [->|Nrx]; [rewrite Gx in E; injection E as <-; lia|].
      assert (H0 : In r (r1 ++ x :: r2)).
      { apply Hr. destruct (Nat.eq_dec r y) as [->|Nry]; [eauto|]. exists w. rewrite <- Go by assumption. auto. }
      apply X in H0. destruct H0; [contradiction|assumption].
Qed.
Lemma invalid_ok n s us x : inv n s us -> exists b, invalidIndex s x = Ok b /\ (b = false <-> exists w, nth_error (arr s) x = Some w /\ (w < 0)%Z).
Proof.
  intros I. unfold invalidIndex. destruct (Nat.leb_spec (length (arr s)) x) as [H|H].
  - exists true. split; [reflexivity|]. split; [discriminate|]. intros (w & E & _). apply nth_error_lt in E. lia.
  - destruct (get_ok (arr s) x H) as (w & Eg & En). rewrite Eg. cbn [bind]. eexists. split; [reflexivity|]. split.
    + intros L. exists w. split; [exact En|]. lia.
    + intros (w' & E & W). rewrite En in E. injection E as ->. lia.
Qed.
Lemma Union_ok n s us x y : inv n s us -> x <> y ->
  exists s' b, Union s x y = Ok (s', b) /\ inv n s' (if b then (x, y) :: us else us) /\
  (b = true <-> (exists w, nth_error (arr s) x = Some w /\ (w < 0)%Z) /\ (exists w, nth_error (arr s) y = Some w /\ (w < 0)%Z)) /\ (b = false -> s' = s).
Proof.
  intros I Hne. unfold Union. destruct (invalid_ok n s us x I) as (b1 & E1 & H1). rewrite E1. cbn [bind].
  destruct b1; [exists s, false; split; [reflexivity|]; split; [exact I|]; split; [|auto]; split; [discriminate|]; intros [X _]; apply H1 in X; discriminate|].
  destruct (invalid_ok n s us y I) as (b2 & E2 & H2). rewrite E2. cbn [bind].
  destruct b2; [exists s, false; split; [reflexivity|]; split; [exact I|]; split; [|auto]; split; [discriminate|]; intros [_ X]; apply H2 in X; discriminate|].
  destruct (proj1 H1 eq_refl) as (w1 & N1 & W1). destruct (proj1 H2 eq_refl) as (w2 & N2 & W2).
  rewrite (get_some _ _ _ N1), (get_some _ _ _ N2). cbn [bind]. pose proof (nth_error_lt _ _ _ N1). pose proof (nth_error_lt _ _ _ N2).
  destruct (w1 >? w2)%Z.
  - cbn [bind]. rewrite set_ok by assumption. cbn [bind]. rewrite set_ok by (rewrite upd_length; assumption). cbn [bind].
    do 2 eexists. split; [reflexivity|]. split; [apply (link_ok n s us x y w1 w2); auto|]. split; [|discriminate]. split; [intros _; split; eauto|reflexivity].
  - cbn [bind]. rewrite set_ok by assumption. cbn [bind]. rewrite set_ok by (rewrite upd_length; assumption). cbn [bind].
    do 2 eexists. split; [reflexivity|]. split; [apply (link_ok n s us y x w2 w1); auto|]. split; [|discriminate]. split; [intros _; split; eauto|reflexivity].
Qed.
Lemma rooted_conn n s us x y r : inv n s us -> x < n -> y < n -> rooted (arr s) x r -> (connected us x y <-> rooted (arr s) y r).
Proof.
  intros I Hx Hy R. rewrite (i_conn n s us I) by assumption. split.
  - intros (q & Q1 & Q2). rewrite (rooted_fun _ _ _ _ R Q1). exact Q2.
  - intros H. exists r. auto.
Qed.
Lemma class_length n us x l l' : class_of n us x l -> class_of n us x l' -> length l = length l'.
Proof. intros [N H] [N' H']. apply Permutation_length, NoDup_Permutation; auto. intros y. rewrite H, H'. tauto. Qed.
Lemma NumElements_ok n s us x : inv n s us -> x < n -> exists s' c, NumElements s x = Ok (s', c) /\ inv n s' us /\ exists l, class_of n us x l /\ c = Z.of_nat (length l).
Proof.
  intros I Hx. unfold NumElements. destruct (Nat.leb_spec (length (arr s)) x) as [H|_]; [rewrite (i_len n s us I) in H; lia|].
  destruct (Find_ok n s us x I Hx) as (s1 & r & E & I1 & R & (S1 & S2 & S3)). rewrite E. cbn [bind].
  assert (Hr : r < n) by (rewrite <- (i_len n s us I); eapply rooted_lt; exact R).
  destruct R as [d R]. destruct (root_neg _ _ _ _ R) as (w & Ew & Ww). apply S3 in Ew; [|exact Ww]. rewrite (get_some _ _ _ Ew). cbn [bind].
  destruct (i_weight n s1 us I1 r w Ew Ww) as (l & Cl & Ll). do 2 eexists. split; [reflexivity|]. split; [exact I1|]. exists l. split; [|exact Ll].
  assert (C : connected us x r). { apply (rooted_conn n s us x r r I); auto; [exists d; exact R|]. destruct (root_neg _ _ _ _ R) as (w' & E' & W'). exists 0. eapply root_0; eauto. }
  destruct Cl as [Nl Cl]. split; [exact Nl|]. intros y. rewrite Cl. split; intros [A B]; (split; [exact A|]); [eapply conn_trans; [exact C|exact B]|eapply conn_trans; [apply conn_sym; exact C|exact B]].
Qed.
Lemma collect_ok n us r : forall todo i s, inv n s us -> todo + i = n -> r < n -> rooted (arr s) r r ->
  exists s' l, collect todo i s r = Ok (s', l) /\ inv n s' us /\ NoDup l /\ (forall y, In y l <-> i <= y < n /\ connected us r y).
Proof.
  induction todo as [|todo IH]; intros i s I Hi Hr R; cbn [collect].
  - do 2 eexists. split; [reflexivity|]. split; [exact I|]. split; [constructor|]. intros y. split; [intros []|lia].
  - destruct (Find_ok n s us i I ltac:(lia)) as (s1 & q & E & I1 & Rq & (S1 & S2 & S3)). rewrite E. cbn [bind].
    destruct (IH (S i) s1 I1 ltac:(lia) Hr (S2 _ _ R)) as (s2 & l & E2 & I2 & Nl & Cl). rewrite E2. cbn [bind].
    assert (Q : connected us r i <-> q = r).
    { rewrite (rooted_conn n s us r i r I) by (auto; lia). split; [intros X; eapply rooted_fun; eauto|intros <-; exact Rq]. }
    do 2 eexists. split; [reflexivity|]. split; [exact I2|]. destruct (Nat.eqb_spec q r) as [Eq|Nq].
    + split; [constructor; [rewrite Cl; lia|exact Nl]|]. intros y. cbn [In]. rewrite Cl. split.
      * intros [<-|[A B]]; [split; [lia|apply Q; exact Eq]|split; [lia|exact B]].
      * intros [A B]. destruct (Nat.eq_dec i y); [auto|right; split; [lia|exact B]].
    + split; [exact Nl|]. intros y. rewrite Cl. split; [intros [A B]; split; [lia|exact B]|]. intros [A B]. split; [|exact B].
      destruct (Nat.eq_dec i y) as [<-|]; [|lia]. apply Q in B. contradiction.
Qed.
Lemma GetElements_ok n s us x : inv n s us -> x < n -> exists s' l, GetElements s x = Ok (s', l) /\ inv n s' us /\ class_of n us x l.
Proof.
  intros I Hx. unfold GetElements. destruct (NumElements_ok n s us x I Hx) as (s1 & c & E1 & I1 & l0 & C0 & L0). rewrite E1. cbn [bind].
  destruct (Find_ok n s1 us x I1 Hx) as (s2 & r & E2 & I2 & R & (S1 & S2 & S3)). rewrite E2. cbn [bind]. rewrite (i_len n s2 us I2).
  pose proof (rooted_lt _ _ _ R) as Hr. rewrite (i_len n s1 us I1) in Hr.
  assert (Rr : rooted (arr s1) r r) by (destruct R as [d R]; destruct (root_neg _ _ _ _ R) as (w & Ew & Ww); exists 0; eapply root_0; eauto).
  destruct (collect_ok n us r n 0 s2 I2 ltac:(lia) Hr (S2 _ _ Rr)) as (s3 & l & E3 & I3 & Nl & Cl). rewrite E3. cbn [bind].
  assert (C : connected us x r) by (apply (rooted_conn n s1 us x r r I1); auto).
  assert (CL : class_of n us x l).
  { split; [exact Nl|]. intros y. rewrite Cl. split; intros [A B]; (split; [lia|]); [eapply conn_trans; [exact C|exact B]|eapply conn_trans; [apply conn_sym; exact C|exact B]]. }
  rewrite L0, (class_length n us x l0 l C0 CL). rewrite Z.leb_refl. eauto.
Qed.
Lemma reachable_inv n s us : reachable n s us -> inv n s us.
Proof.
  induction 1 as [|s us _ I|s us a b s' _ I Hne E|s us a b s' _ I Hne E|s us x s' r _ I E|s us x s' r _ I E|s us x s' l _ I E].
  - apply inv_new.
  - unfold Reset. rewrite (i_len n s us I). apply inv_new.
  - destruct (Union_ok n s us a b I Hne) as (s1 & b1 & E1 & I1 & _). rewrite E in E1. injection E1 as <- <-. exact I1.
  - destruct (Union_ok n s us a b I Hne) as (s1 & b1 & E1 & I1 & _). rewrite E in E1. injection E1 as <- <-. exact I1.
  - destruct (Nat.lt_ge_cases x n) as [Hx|Hx].
    + destruct (Find_ok n s us x I Hx) as (s1 & r1 & E1 & I1 & _). rewrite E in E1. injection E1 as <- <-. exact I1.
    + exfalso. unfold Find in E. cbn [climb] in E. unfold get in E at 1. rewrite (proj2 (nth_error_None (arr s) x)) in E by (rewrite (i_len n s us I); exact Hx). discriminate.
  - destruct (Nat.lt_ge_cases x n) as [Hx|Hx].
    + destruct (NumElements_ok n s us x I Hx) as (s1 & r1 & E1 & I1 & _). rewrite E in E1. injection E1 as <- <-. exact I1.
    + unfold NumElements in E. rewrite (i_len n s us I) in E. destruct (Nat.leb_spec n x); [|lia]. injection E as <- _. exact I.
  - destruct (Nat.lt_ge_cases x n) as [Hx|Hx].
    + destruct (GetElements_ok n s us x I Hx) as (s1 & r1 & E1 & I1 & _). rewrite E in E1. injection E1 as <- <-. exact I1.
    + exfalso. unfold GetElements, NumElements in E. rewrite (i_len n s us I) in E. destruct (Nat.leb_spec n x); [|lia]. cbn [bind] in E.
      unfold Find in E. cbn [climb] in E. unfold get in E at 1. rewrite (proj2 (nth_error_None (arr s) x)) in E by (rewrite (i_len n s us I); exact Hx). discriminate.
Qed.

(* C38: in every reachable state, with the unions us performed so far: two elements have the same Find iff they are
   connected by us (Find always terminates, and the state it leaves is again such a state with the same us); Union of
   two different set names, e.g. the results of Find, is performed and adds the pair; NumSets, NumElements and
   GetElements describe the classes. *)
Theorem C38_DisjointSet : forall n s us, reachable n s us ->
  (forall x y, x < n -> y < n -> exists s1 rx s2 ry, Find s x = Ok (s1, rx) /\ Find s1 y = Ok (s2, ry) /\
     (rx = ry <-> connected us x y) /\ connected us x rx /\ reachable n s1 us /\ reachable n s2 us /\
     (rx <> ry -> exists s3, Union s2 rx ry = Ok (s3, true) /\ reachable n s3 ((rx, ry) :: us))) /\
  class_count n us (NumSets s) /\
  (forall x, x < n -> exists s1 c l, NumElements s x = Ok (s1, c) /\ class_of n us x l /\ c = Z.of_nat (length l)) /\
  (forall x, x < n -> exists s1 l, GetElements s x = Ok (s1, l) /\ class_of n us x l) /\
  (forall x y, x <> y -> exists s1 b, Union s x y = Ok (s1, b)).
Proof.
  intros n s us Rs. pose proof (reachable_inv n s us Rs) as I. split; [|split; [|split; [|split]]].
  - intros x y Hx Hy. destruct (Find_ok n s us x I Hx) as (s1 & rx & E1 & I1 & R1 & S1 & S2 & S3).
    destruct (Find_ok n s1 us y I1 Hy) as (s2 & ry & E2 & I2 & R2 & T1 & T2 & T3).
    pose proof (r_find n _ _ _ _ _ Rs E1) as Q1. pose proof (r_find n _ _ _ _ _ Q1 E2) as Q2.
    pose proof (rooted_lt _ _ _ R1) as Hrx. rewrite (i_len n s us I) in Hrx.
    assert (N1 : exists w, nth_error (arr s2) rx = Some w /\ (w < 0)%Z).
    { destruct R1 as [d R1]. destruct (root_neg _ _ _ _ R1) as (w & Ew & Ww). exists w. split; [|exact Ww]. apply (T3 rx w Ww), (S3 rx w Ww). exact Ew. }
    assert (N2 : exists w, nth_error (arr s2) ry = Some w /\ (w < 0)%Z).
    { destruct R2 as [d R2]. destruct (root_neg _ _ _ _ R2) as (w & Ew & Ww). exists w. split; [|exact Ww]. apply (T3 ry w Ww). exact Ew. }
    exists s1, rx, s2, ry. split; [exact E1|]. split; [exact E2|]. split; [|split; [|split; [exact Q1|split; [exact Q2|]]]].
    + rewrite (rooted_conn n s1 us x y rx I1 Hx Hy (S2 _ _ R1)). split; [intros ->; exact R2|intros R; eapply rooted_fun; eauto].
    + apply (rooted_conn n s us x rx rx I Hx Hrx R1). destruct R1 as [d R1]. destruct (root_neg _ _ _ _ R1) as (w & Ew & Ww). exists 0. eapply root_0; eauto.
    + intros Hne. destruct (Union_ok n s2 us rx ry I2 Hne) as (s3 & b & E3 & _ & Hb & _). rewrite (proj2 Hb (conj N1 N2)) in *. exists s3. split; [exact E3|].
      eapply r_union; eauto.
  - destruct (i_sets n s us I) as (reps & N & Hr & Hn).
    assert (RL : forall r, In r reps -> r < n /\ rooted (arr s) r r).
    { intros r H. apply Hr in H. destruct H as (w & E & W). split; [rewrite <- (i_len n s us I); eapply nth_error_lt; exact E|]. exists 0. eapply root_0; eauto. }
    exists reps. split; [exact N|]. split; [intros r H; apply RL; exact H|]. split; [|split].
    + intros x Hx. destruct (i_root n s us I x Hx) as (r & Hrn & R). exists r. split; [apply Hr; destruct R as [d R]; apply (root_neg _ _ _ _ R)|].
      apply (rooted_conn n s us x r r I); auto. destruct R as [d R]. destruct (root_neg _ _ _ _ R) as (w & Ew & Ww). exists 0. eapply root_0; eauto.
    + intros r r' H1 H2 C. destruct (RL r H1) as [L1 R1]. destruct (RL r' H2) as [L2 R2]. apply (rooted_conn n s us r r' r I) in C; auto. apply (rooted_fun (arr s) r'); assumption.
    + exact Hn.
  - intros x Hx. destruct (NumElements_ok n s us x I Hx) as (s1 & c & E & _ & l & Cl & Ll). eauto 6.
  - intros x Hx. destruct (GetElements_ok n s us x I Hx) as (s1 & l & E & _ & Cl). eauto.
  - intros x y Hne. destruct (Union_ok n s us x y I Hne) as (s1 & b & E & _). eauto.
Qed.
Print Assumptions C38_DisjointSet.

(* Union(x, x) on a set name makes the element its own parent: Find does not terminate any more. *)
Theorem C38_Union_self_refuted : exists s, Union (new_dset 3) 1 1 = Ok (s, true) /\ forall fuel, climb fuel (arr s) 1 = OutOfFuel.
Proof. eexists. split; [reflexivity|]. induction fuel as [|fuel IH]; [reflexivity|]. cbn in *. exact IH. Qed.
Print Assumptions C38_Union_self_refuted.
(* AddSets adds classes without counting them in NumSets. *)
Theorem C38_AddSets_refuted : NumSets (AddSets (new_dset 2) 3) = 2%Z /\ arr (AddSets (new_dset 2) 3) = arr (new_dset 5) /\ NumSets (new_dset 5) = 5%Z.
Proof. repeat split. Qed.
Print Assumptions C38_AddSets_refuted.

Example C38_example : exists s1 s2 s3 s4,
  Union (new_dset 6) 0 1 = Ok (s1, true) /\ Union s1 3 2 = Ok (s2, true) /\ Union s2 0 3 = Ok (s3, true) /\ reachable 6 s3 [(0, 3); (3, 2); (0, 1)] /\
  Find s3 2 = Ok (s4, 0) /\ NumSets s4 = 3%Z /\ arr s4 <> arr s3 /\ GetElements s4 1 = Ok (s4, [0; 1; 2; 3]) /\ Union s4 2 5 = Ok (s4, false).
Proof.
  eexists _, _, _, _. split; [vm_compute; reflexivity|]. split; [vm_compute; reflexivity|]. split; [vm_compute; reflexivity|]. split.
  - eapply r_union; [eapply r_union; [eapply r_union; [apply r_new| |]| |]| |]; try (vm_compute; reflexivity); lia.
  - split; [vm_compute; reflexivity|]. split; [reflexivity|]. split; [discriminate|]. split; vm_compute; reflexivity.
Qed.
