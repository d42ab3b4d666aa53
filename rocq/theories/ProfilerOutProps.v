From Coq Require Import ZArith List Bool QArith Qcanon Lia ZifyBool ZifyNat Permutation Sorted.
From Verif Require Import Common Profiler ProfilerProps.
Import ListNotations.
Local Open Scope Z_scope.

(** Specification *)
(** the order of the report: a stack before those that continue it, and by the first id that differs *)
Inductive stack_lt : list Z -> list Z -> Prop :=
| lt_nil : forall y t, stack_lt [] (y :: t)
| lt_head : forall x y s t, x < y -> stack_lt (x :: s) (y :: t)
| lt_tail : forall x s t, stack_lt s t -> stack_lt (x :: s) (x :: t).
(** ids of one hexadecimal digit *)
Definition onedigit (zs : list zone) : Prop := forall v, In v (visits [] zs) -> Forall (fun i => 1 <= i <= 15) (stack v).
Definition mean_whole (vs : list visit) : Qc := mean (map (fun v => Qcz (whole v)) vs).
Definition mean_self (vs : list visit) : Qc := mean (map (fun v => Qcz (self v)) vs).
(** the line of a stack: indented by the zones around it, named by the innermost id, with mean time and number of visits *)
Definition line_of (zs : list zone) (st : list Z) : tline :=
  mkt (wrap 64 (Z.of_nat (length st) - 1)) (last st 0) (mean_whole (visits_of st zs)) (Z.of_nat (length (visits_of st zs))).

(** Proofs *)
Definition ids15 : list Z := [1; 2; 3; 4; 5; 6; 7; 8; 9; 10; 11; 12; 13; 14; 15; 16].
Definition small (st : list Z) : Prop := Forall (fun i => 1 <= i <= 15) st.
Lemma small_in : forall st, small st -> Forall (fun i => In i ids15) st.
Proof. intros st. apply Forall_impl. intros i Hi. cbn [In ids15]. lia. Qed.
Lemma digits_small : forall i, 1 <= i <= 15 -> digits i = [Z.to_nat i].
Proof.
  intros i H. unfold digits. cbn [hexdigits]. rewrite (proj2 (Z.leb_gt i 0)) by lia. rewrite Z.mod_small by lia.
  rewrite Z.div_small by lia. reflexivity.
Qed.
Lemma code_small : forall st, small st -> code st = map Z.to_nat st.
Proof.
  induction st as [|i st IH]; intros H; [reflexivity |]. inversion H as [|? ? Hi Hs]; subst.
  unfold code in *. cbn [flat_map map]. rewrite (digits_small i Hi), (IH Hs). reflexivity.
Qed.
Lemma execution_visits : forall lo zs hi, execution lo zs hi -> forall pre v, In v (visits pre zs) ->
  exists x, stack v = pre ++ x /\ forall y z, x = y ++ z -> y <> [] -> exists w, In w (visits pre zs) /\ stack w = pre ++ y.
Proof.
  intros lo zs hi E. induction E as [lo hi H | lo id t0 body t1 rest hi H1 B E1 IH1 E2 IH2]; intros pre v Hv.
  - destruct Hv.
  - rewrite visits_cons in Hv |- *. apply in_app_or in Hv. destruct Hv as [Hv|Hv]; [| apply in_app_or in Hv; destruct Hv as [[Hv|[]]|Hv]].
    + destruct (IH1 _ _ Hv) as (x & X & Y). exists (id :: x). split; [rewrite X, <- app_assoc; reflexivity |].
      intros y z Exy Ny. destruct y as [|d y]; [contradiction |]. cbn [app] in Exy. assert (id = d) by congruence. subst d. assert (x = y ++ z) as Ex by congruence.
      destruct y as [|e y].
      * exists (mkv (pre ++ [id]) (t1 - t0) (t1 - t0 - durations body)). split; [apply in_or_app; right; apply in_or_app; left; left; reflexivity | reflexivity].
      * destruct (Y _ _ Ex ltac:(discriminate)) as (w & W1 & W2). exists w. split; [apply in_or_app; left; exact W1 |]. rewrite W2, <- app_assoc. reflexivity.
    + subst v. cbn [stack]. exists [id]. split; [reflexivity |]. intros y z Exy Ny. destruct y as [|d y]; [contradiction |]. destruct y as [|e y]; [| discriminate].
      assert (id = d) by (cbn [app] in Exy; congruence). subst d.
      exists (mkv (pre ++ [id]) (t1 - t0) (t1 - t0 - durations body)). split; [apply in_or_app; right; apply in_or_app; left; left; reflexivity | reflexivity].
    + destruct (IH2 _ _ Hv) as (x & X & Y). exists x. split; [exact X |]. intros y z Exy Ny. destruct (Y _ _ Exy Ny) as (w & W1 & W2).
      exists w. split; [| exact W2]. apply in_or_app. right. apply in_or_app. right. exact W1.
Qed.
Lemma visits_of_in : forall st zs, visits_of st zs <> [] <-> exists w, In w (visits [] zs) /\ stack w = st.
Proof.
  intros st zs. unfold visits_of. split.
  - intros H. destruct (filter (fun v => stack_eqb (stack v) st) (visits [] zs)) as [|w r] eqn:E; [contradiction |].
    assert (In w (filter (fun v => stack_eqb (stack v) st) (visits [] zs))) as I by (rewrite E; left; reflexivity).
    apply filter_In in I. destruct I as [I1 I2]. exists w. split; [exact I1 | apply stack_eqb_spec; exact I2].
  - intros (w & W1 & W2) E. assert (In w []) as []. rewrite <- E. apply filter_In. split; [exact W1 | apply stack_eqb_spec; exact W2].
Qed.
Lemma execution_nonempty : forall lo zs hi, execution lo zs hi -> visits_of [] zs = [].
Proof.
  intros lo zs hi E. destruct (visits_of [] zs) as [|w r] eqn:X; [reflexivity |].
  destruct (proj1 (visits_of_in [] zs)) as (v & V1 & V2); [congruence |].
  assert (forall lo zs hi, execution lo zs hi -> forall pre v, In v (visits pre zs) -> (length pre < length (stack v))%nat) as L.
  { clear. intros lo zs hi E. induction E as [lo hi H | lo id t0 body t1 rest hi H1 B E1 IH1 E2 IH2]; intros pre v Hv; [destruct Hv |].
    rewrite visits_cons in Hv. apply in_app_or in Hv. destruct Hv as [Hv|Hv]; [| apply in_app_or in Hv; destruct Hv as [[Hv|[]]|Hv]].
    - pose proof (IH1 _ _ Hv) as Q. rewrite app_length in Q. cbn [length] in Q. lia.
    - subst v. cbn [stack]. rewrite app_length. cbn [length]. lia.
    - exact (IH2 _ _ Hv). }
  pose proof (L _ _ _ E _ _ V1) as Q. rewrite V2 in Q. cbn in Q. lia.
Qed.
(** after a run with ids of one digit the nodes are the root and the stacks that were visited *)
Record tree (zs : list zone) (s : prof) (paths : list (list nat)) : Prop := mkt_ {
  t_inv : inv (arena s) paths (visits [] zs) [];
  t_in : forall p, In p paths <-> p = [] \/ exists st, small st /\ p = map Z.to_nat st /\ visits_of st zs <> [];
  t_root : visits_of [] zs = [];
  t_prefix : forall x y, visits_of (x ++ y) zs <> [] -> x <> [] -> visits_of x zs <> [];
  t_small : forall st, visits_of st zs <> [] -> small st
}.
Lemma tree_ok : forall zs hi, execution 0 zs hi -> hi < 2 ^ 64 -> onedigit zs -> exists s paths, run_zones zs prof_init = Ok s /\ tree zs s paths.
Proof.
  intros zs hi E B D. destruct (run_init _ _ E B) as (s & paths & R & C & I & U). exists s, paths. split; [exact R |].
  constructor; [exact I | | exact (execution_nonempty _ _ _ E) | |].
  2: { intros x y V N. apply visits_of_in in V. destruct V as (v & V1 & V2). destruct (execution_visits _ _ _ E [] v V1) as (x' & X & Y).
       cbn [app] in X. destruct (Y x y ltac:(congruence) N) as (w & W1 & W2). apply visits_of_in. exists w. split; assumption. }
  2: { intros st V. apply visits_of_in in V. destruct V as (v & V1 & V2). rewrite <- V2. exact (D _ V1). }
  intros p. split; intros H.
  - destruct (U _ H) as [X|(q & r & O & Q)]; [left; exact X |]. destruct p as [|d p]; [left; reflexivity | right].
    rewrite openb_at in O. destruct (at_path q (visits [] zs)) as [|v l] eqn:A; [discriminate |].
    assert (In v (at_path q (visits [] zs))) as Iv by (rewrite A; left; reflexivity). unfold at_path in Iv. apply filter_In in Iv. destruct Iv as [Iv Cv].
    apply path_eqb_spec in Cv. rewrite (code_small _ (D _ Iv)) in Cv.
    destruct (execution_visits _ _ _ E [] v Iv) as (x & X & Y). cbn [app] in X. rewrite X in Cv.
    assert (small x) as Sx by (rewrite <- X; exact (D _ Iv)).
    rewrite Q in Cv. apply map_eq_app in Cv. destruct Cv as (y & z & E1 & E2 & E3).
    exists y. split; [| split; [symmetry; exact E2 |]].
    + unfold small in *. rewrite E1 in Sx. apply Forall_app in Sx. apply Sx.
    + destruct (Y _ _ E1) as (w & W1 & W2); [intros Z0; subst y; discriminate |]. apply visits_of_in. exists w. split; assumption.
  - destruct H as [->|(st & Sm & -> & V)]; [eapply nth_error_In; apply (i_root _ _ _ _ I) |].
    apply (i_log _ _ _ _ I). rewrite openb_at. rewrite <- (code_small _ Sm), (at_path_visits ids15 zs st small_unambiguous).
    + destruct (visits_of st zs); [contradiction | reflexivity].
    + intros v Hv. apply small_in. exact (D _ Hv).
    + exact (small_in _ Sm).
Qed.

Lemma to_nat_inj : forall x y, small x -> small y -> map Z.to_nat x = map Z.to_nat y -> x = y.
Proof.
  induction x as [|a x IH]; intros [|b y] Hx Hy E; cbn [map] in E; try discriminate; [reflexivity |].
  inversion Hx; inversion Hy; subst. assert (Z.to_nat a = Z.to_nat b) by congruence. f_equal; [lia |]. apply IH; try assumption. congruence.
Qed.
Definition visited (zs : list zone) (st : list Z) : bool := match visits_of st zs with [] => false | _ => true end.
Lemma visited_spec : forall zs st, visited zs st = true <-> visits_of st zs <> [].
Proof. intros zs st. unfold visited. destruct (visits_of st zs); split; congruence. Qed.
Lemma t_node : forall zs s paths, tree zs s paths -> forall n st, small st -> nth_error paths n = Some (map Z.to_nat st) ->
  exists nd, nth_error (arena s) n = Some nd /\ length (kids nd) = 16%nat /\
    total nd = (if visited zs st then Some (Z.of_nat (length (visits_of st zs))) else None) /\ visited zs st = negb (match st with [] => true | _ => false end) /\
    avg nd = mean_whole (visits_of st zs) /\ codeavg nd = mean_self (visits_of st zs) /\
    (forall d m, nth_error (kids nd) d = Some (Some m) -> (n < m)%nat /\ visited zs (st ++ [Z.of_nat d]) = true /\ small (st ++ [Z.of_nat d]) /\
        nth_error paths m = Some (map Z.to_nat (st ++ [Z.of_nat d]))) /\
    (forall d, nth_error (kids nd) d = Some None -> visited zs (st ++ [Z.of_nat d]) = false).
Proof.
  intros zs s paths T n st Sm P. pose proof (t_inv _ _ _ T) as I.
  assert (uses ids15 zs) as Us. { intros v Hv. apply small_in. apply (t_small _ _ _ T). apply visits_of_in. exists v. split; [exact Hv | reflexivity]. }
  assert (n < length (arena s))%nat as Ln. { rewrite <- (i_len _ _ _ _ I). apply nth_error_lt in P. exact P. }
  destruct (nth_error (arena s) n) as [nd|] eqn:A; [| apply nth_error_None in A; lia].
  exists nd. split; [reflexivity |]. split; [exact (i_16 _ _ _ _ I _ _ A) |].
  destruct (i_stat _ _ _ _ I _ _ _ A P) as (To & Av & Cv).
  rewrite <- (code_small _ Sm) in To, Av, Cv. rewrite openb_at in To. rewrite (at_path_visits ids15 zs st small_unambiguous Us (small_in _ Sm)) in To, Av, Cv.
  assert (visited zs st = negb (match st with [] => true | _ => false end)) as Vs.
  { destruct st as [|i st]; [unfold visited; rewrite (t_root _ _ _ T); reflexivity |]. apply visited_spec.
    assert (In (map Z.to_nat (i :: st)) paths) as Ip by (eapply nth_error_In; exact P).
    apply (t_in _ _ _ T) in Ip. destruct Ip as [X|(st' & S' & X & V)]; [discriminate |]. apply to_nat_inj in X; [| exact Sm | exact S']. rewrite X. exact V. }
  split; [unfold visited; rewrite To; destruct (visits_of st zs); reflexivity |]. split; [exact Vs |].
  split; [exact Av | split; [exact Cv | split]].
  - intros d m K. destruct (i_kid _ _ _ _ I _ _ _ _ A K) as (Lt & p & P1 & P2). assert (p = map Z.to_nat st) by congruence. subst p.
    assert (In (map Z.to_nat st ++ [d]) paths) as Ip by (eapply nth_error_In; exact P2).
    apply (t_in _ _ _ T) in Ip. destruct Ip as [X|(st' & S' & X & V)]; [destruct st; discriminate |].
    symmetry in X. apply map_eq_app in X. destruct X as (y & z & E1 & E2 & E3). destruct z as [|e z]; [discriminate |]. destruct z; [| discriminate].
    unfold small in S'. rewrite E1 in S'. apply Forall_app in S'. destruct S' as [Sy Se]. apply to_nat_inj in E2; [| exact Sy | exact Sm]. subst y.
    inversion Se; subst. cbn [map] in E3. assert (d = Z.to_nat e) by congruence. subst d. rewrite Z2Nat.id by lia.
    split; [exact Lt | split; [apply visited_spec; exact V | split; [apply Forall_app; split; [exact Sm | repeat constructor; lia] |]]].
    rewrite P2, map_app. reflexivity.
  - intros d K. destruct (visited zs (st ++ [Z.of_nat d])) eqn:V; [| reflexivity]. exfalso. apply visited_spec in V.
    assert (In (map Z.to_nat (st ++ [Z.of_nat d])) paths) as Ip.
    { apply (t_in _ _ _ T). right. exists (st ++ [Z.of_nat d]). split; [exact (t_small _ _ _ T _ V) | split; [reflexivity | exact V]]. }
    rewrite map_app in Ip. cbn [map] in Ip. rewrite Nat2Z.id in Ip. apply In_nth_error in Ip. destruct Ip as [m Hm].
    destruct (i_par _ _ _ _ I _ _ _ Hm) as (n' & nd' & P1 & A1 & K1). rewrite (i_inj _ _ _ _ I _ _ _ P1 P) in A1. congruence.
Qed.

(** the visited stacks that continue a stack, in order *)
Definition upto16 : list Z := map Z.of_nat (seq 0 16).
Fixpoint below (f : nat) (zs : list zone) (st : list Z) : list (list Z) :=
  match f with
  | O => []
  | S f => flat_map (fun i => if visited zs (st ++ [i]) then (st ++ [i]) :: below f zs (st ++ [i]) else []) upto16
  end.
Definition kloop {A} (F : Z -> option nat -> res (list A)) :=
  fix go (k : nat) (i : Z) (l : list (option nat)) : res (list A) :=
    match k with
    | O => Ok []
    | S k' => do c <- (match l with c :: _ => Ok c | [] => UB end); do x <- F i c; do y <- go k' (i + 1) (tl l); Ok (x ++ y)
    end.
Lemma kloop_ok : forall (A : Type) F (G : Z -> list A) k j l, length l = k ->
  (forall d c, nth_error l d = Some c -> F (Z.of_nat (j + d)) c = Ok (G (Z.of_nat (j + d)))) ->
  kloop F k (Z.of_nat j) l = Ok (flat_map G (map Z.of_nat (seq j k))).
Proof.
  intros A F G. induction k as [|k IH]; intros j l Ln H; [reflexivity |].
  destruct l as [|c l]; [discriminate |]. cbn [kloop bind seq map flat_map]. fold (@kloop A F).
  pose proof (H 0%nat c eq_refl) as H0. rewrite Nat.add_0_r in H0. rewrite H0. cbn [bind tl].
  replace (Z.of_nat j + 1) with (Z.of_nat (S j)) by lia. rewrite IH.
  - reflexivity.
  - cbn [length] in Ln. lia.
  - intros d c' X. replace (S j + d)%nat with (j + S d)%nat by lia. apply H. exact X.
Qed.
Lemma lor0 : forall i, 0 <= i < 16 -> Z.lor 0 (wrap 16 (Z.shiftl i (4 * 0))) = i.
Proof. intros i H. rewrite Z.lor_0_l. change (4 * 0) with 0. rewrite Z.shiftl_0_r. unfold wrap. apply Z.mod_small. lia. Qed.
Lemma flat_map_map : forall (A B C : Type) (g : B -> C) (f : A -> list B) l, map g (flat_map f l) = flat_map (fun x => map g (f x)) l.
Proof. induction l as [|x l IH]; [reflexivity |]. cbn [flat_map]. rewrite map_app, IH. reflexivity. Qed.
Lemma tree_out_ok : forall zs s paths, tree zs s paths -> forall f n st idl, small st -> nth_error paths n = Some (map Z.to_nat st) ->
  (length (arena s) < f + n)%nat -> (st = [] -> idl = 0) ->
  tree_out f (arena s) (Some n) (last st 0) (wrap 64 (Z.of_nat (length st) - 1)) idl =
  Ok (map (line_of zs) ((match st with [] => [] | _ => [st] end) ++ below f zs st)).
Proof.
  intros zs s paths T. induction f as [|f IH]; intros n st idl Sm P Lf Hidl.
  - assert (n < length (arena s))%nat. { rewrite <- (i_len _ _ _ _ (t_inv _ _ _ T)). apply nth_error_lt in P. exact P. } lia.
  - destruct (t_node _ _ _ T _ _ Sm P) as (nd & A & L16 & To & Vs & Av & Cv & Ks & Kn).
    cbn [tree_out]. rewrite (get_some _ _ _ A). cbn [bind].
    set (id' := match total nd with Some _ => 0 | None => last st 0 end). set (idl' := match total nd with Some _ => 0 | None => idl end).
    assert (id' = 0 /\ idl' = 0) as [Ei El].
    { subst id' idl'. rewrite To. destruct st as [|x st]; [rewrite Vs; cbn [negb]; split; [reflexivity | apply Hidl; reflexivity] | rewrite Vs; split; reflexivity]. }
    rewrite Ei, El.
    set (F := fun i c => tree_out f (arena s) c (Z.lor 0 (wrap 16 (Z.shiftl i (4 * 0)))) (wrap 64 (wrap 64 (Z.of_nat (length st) - 1) + (if 0 =? 0 then 1 else 0))) (0 + 1)).
    set (G := fun i => if visited zs (st ++ [i]) then map (line_of zs) ((st ++ [i]) :: below f zs (st ++ [i])) else []).
    match goal with |- bind ?E _ = _ => assert (E = Ok (flat_map G (map Z.of_nat (seq 0 16)))) as EE end.
    { change (kloop F 16 (Z.of_nat 0) (kids nd) = Ok (flat_map G (map Z.of_nat (seq 0 16)))). apply kloop_ok; [exact L16 |].
      intros d c K. cbn [Nat.add]. assert (d < 16)%nat as Ld by (rewrite <- L16; apply nth_error_lt in K; exact K).
      unfold F, G. rewrite lor0 by lia. destruct c as [m|].
      * destruct (Ks _ _ K) as (Lt & V & Sd & Pm). rewrite V.
        assert (wrap 64 (wrap 64 (Z.of_nat (length st) - 1) + (if 0 =? 0 then 1 else 0)) = wrap 64 (Z.of_nat (length (st ++ [Z.of_nat d])) - 1)) as Ew.
        { cbn [Z.eqb]. unfold wrap. rewrite Zplus_mod_idemp_l. rewrite app_length. cbn [length]. f_equal. lia. }
        rewrite Ew. replace (Z.of_nat d) with (last (st ++ [Z.of_nat d]) 0) at 1 by apply last_last.
        rewrite (IH m _ _ Sd Pm); [| lia | intros X; destruct st; discriminate].
        destruct (st ++ [Z.of_nat d]) eqn:X; [destruct st; discriminate |]. reflexivity.
      * rewrite (Kn _ K). destruct f; [| reflexivity]. exfalso.
        assert (n < length (arena s))%nat. { apply nth_error_lt in A. exact A. } lia. }
    rewrite EE. cbn [bind]. f_equal. rewrite map_app. f_equal.
    + rewrite To, Vs. destruct st as [|x st]; [reflexivity |]. cbn [negb map]. unfold line_of. rewrite Av. reflexivity.
    + cbn [below]. fold upto16. rewrite flat_map_map. apply flat_map_ext. intros i. unfold G. destruct (visited zs (st ++ [i])); reflexivity.
Qed.
Lemma stack_lt_app : forall p x y, stack_lt x y -> stack_lt (p ++ x) (p ++ y).
Proof. induction p as [|a p IH]; intros x y H; [exact H |]. cbn [app]. apply lt_tail. apply IH. exact H. Qed.
Lemma below_shape : forall f zs st q, In q (below f zs st) -> exists i x, q = st ++ i :: x /\ In i upto16 /\ visits_of q zs <> [].
Proof.
  induction f as [|f IH]; intros zs st q H; [destruct H |]. cbn [below] in H. apply in_flat_map in H. destruct H as (i & Hi & H).
  destruct (visited zs (st ++ [i])) eqn:V; [| destruct H]. destruct H as [H|H].
  - subst q. exists i, []. split; [reflexivity | split; [exact Hi | apply visited_spec; exact V]].
  - destruct (IH _ _ _ H) as (j & x & X & _ & Y). exists i, (j :: x). rewrite <- app_assoc in X. split; [exact X | split; [exact Hi | exact Y]].
Qed.
Lemma SSorted_app : forall (A : Type) (R : A -> A -> Prop) x y, StronglySorted R x -> StronglySorted R y ->
  (forall a b, In a x -> In b y -> R a b) -> StronglySorted R (x ++ y).
Proof.
  induction x as [|a x IH]; intros y Sx Sy H; [exact Sy |]. inversion Sx as [|? ? S1 F1]; subst. cbn [app]. constructor.
  - apply IH; [exact S1 | exact Sy |]. intros b c Hb Hc. apply H; [right; exact Hb | exact Hc].
  - apply Forall_app. split; [exact F1 |]. apply Forall_forall. intros c Hc. apply H; [left; reflexivity | exact Hc].
Qed.
Lemma SSorted_flat_map : forall (A : Type) (R : A -> A -> Prop) (G : Z -> list A) k j,
  (forall i, StronglySorted R (G i)) -> (forall i i' a b, i < i' -> In a (G i) -> In b (G i') -> R a b) ->
  StronglySorted R (flat_map G (map Z.of_nat (seq j k))).
Proof.
  intros A R G. induction k as [|k IH]; intros j H1 H2; [constructor |]. cbn [seq map flat_map]. apply SSorted_app; [apply H1 | apply IH; assumption |].
  intros a b Ha Hb. apply in_flat_map in Hb. destruct Hb as (i & Hi & Hb). apply in_map_iff in Hi. destruct Hi as (m & <- & Hm). apply in_seq in Hm.
  apply (H2 (Z.of_nat j) (Z.of_nat m)); [lia | exact Ha | exact Hb].
Qed.
Lemma below_sorted : forall f zs st, StronglySorted stack_lt (below f zs st).
Proof.
  induction f as [|f IH]; intros zs st; [constructor |]. cbn [below]. apply SSorted_flat_map.
  - intros i. destruct (visited zs (st ++ [i])); [| constructor]. constructor; [apply IH |]. apply Forall_forall. intros q Hq.
    destruct (below_shape _ _ _ _ Hq) as (j & x & -> & _). rewrite <- (app_nil_r (st ++ [i])) at 1. apply stack_lt_app. apply lt_nil.
  - intros i i' a b Lt Ha Hb.
    assert (forall i a, In a (if visited zs (st ++ [i]) then (st ++ [i]) :: below f zs (st ++ [i]) else []) -> exists x, a = st ++ i :: x) as Sh.
    { clear. intros i a H. destruct (visited zs (st ++ [i])); [| destruct H]. destruct H as [<-|H]; [exists []; reflexivity |].
      destruct (below_shape _ _ _ _ H) as (j & x & -> & _). exists (j :: x). rewrite <- app_assoc. reflexivity. }
    destruct (Sh _ _ Ha) as (x & ->). destruct (Sh _ _ Hb) as (y & ->). apply stack_lt_app. apply lt_head. exact Lt.
Qed.
Lemma below_all : forall zs s paths, tree zs s paths -> forall f n st x, small st -> nth_error paths n = Some (map Z.to_nat st) ->
  (length (arena s) < f + n)%nat -> x <> [] -> visits_of (st ++ x) zs <> [] -> In (st ++ x) (below f zs st).
Proof.
  intros zs s paths T. induction f as [|f IH]; intros n st x Sm P Lf Nx V.
  - assert (n < length (arena s))%nat. { rewrite <- (i_len _ _ _ _ (t_inv _ _ _ T)). apply nth_error_lt in P. exact P. } lia.
  - destruct x as [|i x]; [contradiction |]. cbn [below].
    assert (visits_of (st ++ [i]) zs <> []) as Vi.
    { apply (t_prefix _ _ _ T (st ++ [i]) x); [rewrite <- app_assoc; exact V | destruct st; discriminate]. }
    assert (1 <= i <= 15) as Bi. { pose proof (t_small _ _ _ T _ Vi) as Q. apply Forall_app in Q. destruct Q as [_ Q]. inversion Q; assumption. }
    apply in_flat_map. exists i. split.
    + unfold upto16. replace i with (Z.of_nat (Z.to_nat i)) by lia. apply in_map. apply in_seq. lia.
    + rewrite (proj2 (visited_spec _ _) Vi). destruct x as [|j x]; [left; reflexivity | right].
      destruct (t_node _ _ _ T _ _ Sm P) as (nd & A & L16 & To & Vs & Av & Cv & Ks & Kn).
      destruct (nth_error (kids nd) (Z.to_nat i)) as [[m|]|] eqn:K.
      * destruct (Ks _ _ K) as (Lt & Vk & Sd & Pm). rewrite Z2Nat.id in Vk, Sd, Pm by lia.
        replace (st ++ i :: j :: x) with ((st ++ [i]) ++ j :: x) in * by (rewrite <- app_assoc; reflexivity).
        apply (IH m); [exact Sd | exact Pm | lia | discriminate | exact V].
      * pose proof (Kn _ K) as Q. rewrite Z2Nat.id in Q by lia. apply visited_spec in Vi. congruence.
      * apply nth_error_None in K. lia.
Qed.
Definition all_stacks (zs : list zone) (s : prof) : list (list Z) := below (S (S (length (arena s)))) zs [].
Lemma all_stacks_in : forall zs s paths, tree zs s paths -> forall st, In st (all_stacks zs s) <-> visits_of st zs <> [].
Proof.
  intros zs s paths T st. unfold all_stacks. split; intros H.
  - destruct (below_shape _ _ _ _ H) as (i & x & _ & _ & V). exact V.
  - apply (below_all _ _ _ T _ 0%nat [] st); [constructor | apply (i_root _ _ _ _ (t_inv _ _ _ T)) | lia | | exact H].
    intros ->. apply H. exact (t_root _ _ _ T).
Qed.
(** the tree report of a program whose ids have one digit *)
Theorem C129_tree_partial : forall zs hi, execution 0 zs hi -> hi < 2 ^ 64 -> onedigit zs ->
  exists s sts, run_zones zs prof_init = Ok s /\ TreeOutput s = Ok (map (line_of zs) sts) /\
    StronglySorted stack_lt sts /\ forall st, In st sts <-> visits_of st zs <> [].
Proof.
  intros zs hi E B D. destruct (tree_ok _ _ E B D) as (s & paths & R & T). exists s, (all_stacks zs s). split; [exact R | split; [| split]].
  - unfold TreeOutput. pose proof (tree_out_ok _ _ _ T (S (S (length (arena s)))) 0%nat [] 0 (Forall_nil _) (i_root _ _ _ _ (t_inv _ _ _ T)) ltac:(lia) ltac:(reflexivity)) as Q.
    cbn [last length] in Q. change (wrap 64 (Z.of_nat 0 - 1)) with (2 ^ 64 - 1) in Q. exact Q.
  - apply below_sorted.
  - exact (all_stacks_in _ _ _ T).
Qed.
Print Assumptions C129_tree_partial.
(** zone 16 at the outermost level is indented as if it were inside another *)
Theorem C129_tree_refuted :
  ~ (forall zs hi, execution 0 zs hi -> hi < 2 ^ 64 -> exists s sts, run_zones zs prof_init = Ok s /\ TreeOutput s = Ok (map (line_of zs) sts) /\
    forall st, In st sts <-> visits_of st zs <> []).
Proof.
  intros H. destruct (H [Zone 16 0 [] 5] 5) as (s & sts & R & O & I).
  - repeat (constructor; try lia).
  - lia.
  - assert (match run_zones [Zone 16 0 [] 5] prof_init with Ok s => match TreeOutput s with Ok l => map tlevel l | _ => [] end | _ => [] end = [1]) as Q by (vm_compute; reflexivity).
    rewrite R, O in Q. rewrite map_map in Q. destruct sts as [|st [|st2 sts]]; try discriminate. cbn [map tlevel line_of] in Q.
    assert (visits_of st [Zone 16 0 [] 5] <> []) as V by (apply I; left; reflexivity). apply visits_of_in in V. destruct V as (w & [W|[]] & Ws). subst w. cbn in Ws. subst st.
    vm_compute in Q. discriminate.
Qed.
Print Assumptions C129_tree_refuted.
Example C129_example : let zs := [Zone 1 0 [Zone 2 1 [] 3; Zone 2 3 [] 9] 12; Zone 2 20 [] 24] in
  execution 0 zs 30 /\ onedigit zs /\
  match run_zones zs prof_init with
  | Ok s => match TreeOutput s with Ok l => map (fun t => (tlevel t, tid t, ttotal t, this (tavg t))) l = [(0, 1, 1, 12%Q); (1, 2, 2, 4%Q); (0, 2, 1, 4%Q)] | _ => False end
  | _ => False end.
Proof.
  cbv zeta. split; [repeat (constructor; try lia) | split].
  - intros v H. vm_compute in H. decompose [or] H; try contradiction; subst v; cbn [stack]; repeat constructor; lia.
  - vm_compute. reflexivity.
Qed.
