(* Property C55: Shuffle and RandomQueue permute without loss. *)
From Coq Require Import List Arith Lia Permutation.
From Verif Require Import Common Shuffle.
Import ListNotations.

(* a random source: the outcome of bssrand(0, i) is below i *)
Definition source (n : nat) (rand : nat -> nat) : Prop := forall i, 0 < i <= n -> rand i < i.

Lemma loop_perm {A} rand : forall i (p : list A), i <= length p -> source i rand -> exists p', shuffle_loop rand i p = Ok p' /\ Permutation p p'.
Proof.
  induction i as [|j IH]; intros p Hi Hr; cbn [shuffle_loop]; [eauto|].
  assert (Hj : rand (S j) < S j) by (apply Hr; lia). destruct (nth_error_ex p j ltac:(lia)) as [x Ex]. destruct (nth_error_ex p (rand (S j)) ltac:(lia)) as [y Ey].
  rewrite (swap_ok _ _ _ _ _ Ex Ey). cbn [bind]. pose proof (upd_perm_swap p j (rand (S j)) x y Ex Ey) as P.
  destruct (IH (upd (upd p j y) (rand (S j)) x)) as (p' & E & P'); [rewrite !upd_length; lia|intros k Hk; apply Hr; lia|]. exists p'. split; [exact E|]. rewrite <- P'. symmetry. exact P.
Qed.
Lemma loop_ext {A} r r' : forall i (p : list A), (forall k, 0 < k <= i -> r k = r' k) -> shuffle_loop r i p = shuffle_loop r' i p.
Proof.
  induction i as [|j IH]; intros p H; [reflexivity|]. cbn [shuffle_loop]. rewrite (H (S j)) by lia. destruct (swap p j (r' (S j))); cbn [bind]; [|reflexivity..]. apply IH. intros k Hk. apply H. lia.
Qed.
Lemma split_last {A} (l : list A) j x : length l = S j -> nth_error l j = Some x -> l = firstn j l ++ [x].
Proof.
  intros L E. rewrite <- (firstn_skipn j l) at 1. f_equal. rewrite (skipn_cons _ _ _ E). f_equal. apply length_zero_iff_nil. rewrite skipn_length. lia.
Qed.
Lemma loop_all {A} : forall i (a b a' : list A), length a = i -> Permutation a a' -> exists rand, source i rand /\ shuffle_loop rand i (a ++ b) = Ok (a' ++ b).
Proof.
  induction i as [|j IH]; intros a b a' La P.
  - destruct a; [|discriminate]. apply Permutation_nil in P. subst a'. exists (fun _ => 0). split; [intros k; lia|reflexivity].
  - assert (La' : length a' = S j) by (rewrite <- (Permutation_length P); exact La).
    destruct (nth_error_ex a' j ltac:(lia)) as [x Ex]. pose proof (split_last a' j x La' Ex) as Sp.
    assert (Hin : In x a) by (apply (Permutation_in x (Permutation_sym P)); eapply nth_error_In; exact Ex).
    apply In_nth_error in Hin. destruct Hin as [r Er]. pose proof (nth_error_lt _ _ _ Er) as Hr. destruct (nth_error_ex a j ltac:(lia)) as [y Ey].
    set (c := upd (upd a j x) r y). pose proof (upd_perm_swap a j r y x Ey Er) as Pc. fold c in Pc.
    assert (Lc : length c = S j) by (unfold c; rewrite !upd_length; exact La).
    assert (Ec : nth_error c j = Some x).
    { unfold c. destruct (Nat.eq_dec r j) as [->|N]; [rewrite nth_error_upd_eq by (rewrite upd_length; lia); congruence|rewrite nth_error_upd_neq by exact N; apply nth_error_upd_eq; lia]. }
    pose proof (split_last c j x Lc Ec) as Spc.
    assert (P' : Permutation (firstn j c) (firstn j a')).
    { apply (Permutation_app_inv_r [x]). rewrite <- Spc, <- Sp. rewrite Pc. exact P. }
    destruct (IH (firstn j c) ([x] ++ b) (firstn j a')) as (rand & Hs & E); [rewrite firstn_length; lia|exact P'|].
    exists (fun k => if k =? S j then r else rand k). split.
    + intros k Hk. destruct (Nat.eqb_spec k (S j)) as [->|]; [lia|]. apply Hs. lia.
    + cbn [shuffle_loop]. rewrite Nat.eqb_refl. rewrite (swap_ok (a ++ b) j r y x) by (rewrite nth_error_app1 by lia; assumption). cbn [bind].
      rewrite upd_app_l by lia. rewrite upd_app_l by (rewrite upd_length; lia). fold c. rewrite Spc, <- app_assoc.
      rewrite (loop_ext _ rand); [rewrite E; rewrite app_assoc, <- Sp; reflexivity|]. intros k Hk. destruct (Nat.eqb_spec k (S j)); [lia|reflexivity].
Qed.
(* C55: whatever the random source, Shuffle leaves a permutation of the array; and every permutation is the result for
   some outcomes of the random source. *)
Theorem C55_Shuffle : forall A (l : list A),
  (forall rand, source (length l) rand -> exists l', Shuffle rand l = Ok l' /\ Permutation l l') /\
  (forall l', Permutation l l' -> exists rand, source (length l) rand /\ Shuffle rand l = Ok l').
Proof.
  intros A l. split.
  - intros rand H. apply loop_perm; auto.
  - intros l' P. destruct (loop_all (length l) l [] l' eq_refl P) as (rand & H & E). exists rand. split; [exact H|]. unfold Shuffle. rewrite !app_nil_r in E. exact E.
Qed.
Print Assumptions C55_Shuffle.

(* --- RandomQueue --- *)
Inductive op (A : Type) := OPush (x : A) | OPop (i : nat) | ORemove (i : nat) | OClear.
Arguments OPush {A}. Arguments OPop {A}. Arguments ORemove {A}. Arguments OClear {A}.
Definition step {A} (q : rqueue A) (o : op A) : res (rqueue A * option A) :=
  match o with
  | OPush x => Ok (Push q x, None)
  | OPop i => do (q, r) <- Pop q i; Ok (q, Some r)
  | ORemove i => do q <- Remove q i; Ok (q, None)
  | OClear => Ok (Clear q, None)
  end.
(* Pop's outcome and Remove's argument are below the length *)
Definition valid {A} (q : rqueue A) (o : op A) : Prop := match o with OPop i | ORemove i => i < len q | _ => True end.
Inductive reachable {A} : rqueue A -> Prop :=
| r_new : reachable new
| r_step q o q' r : reachable q -> valid q o -> step q o = Ok (q', r) -> reachable q'.
Definition effect {A} (o : op A) (l l' : list A) (r : option A) : Prop :=
  match o with
  | OPush x => r = None /\ l' = l ++ [x]
  | OPop i => exists x, nth_error l i = Some x /\ r = Some x /\ Permutation l (x :: l')   (* one element, returned *)
  | ORemove i => exists x, nth_error l i = Some x /\ r = None /\ Permutation l (x :: l')
  | OClear => r = None /\ l' = []
  end.
Definition inv {A} (q : rqueue A) : Prop := len q <= length (arr q).
Lemma firstn_upd {A} (a : list A) : forall n i z, firstn n (upd a i z) = upd (firstn n a) i z.
Proof. induction a as [|x a IH]; intros [|n] [|i] z; cbn [upd firstn]; try reflexivity. f_equal. apply IH. Qed.
Lemma remove_ok {A} (q : rqueue A) i : inv q -> i < len q -> exists q' x, Remove q i = Ok q' /\ inv q' /\ nth_error (arr q) i = Some x /\ Permutation (elements q) (x :: elements q') /\ len q = S (len q').
Proof.
  destruct q as [a n]. unfold inv, Remove, elements. cbn [arr len]. intros I H. destruct n as [|n]; [lia|].
  destruct (nth_error_ex a n ltac:(lia)) as [z Ez]. destruct (nth_error_ex a i ltac:(lia)) as [x Ex]. rewrite (get_some _ _ _ Ez). cbn [bind]. rewrite set_ok by lia. cbn [bind].
  exists (mk (upd a i z) n), x. split; [reflexivity|]. cbn [arr len]. split; [rewrite upd_length; lia|]. split; [exact Ex|]. split; [|reflexivity].
  pose proof (upd_perm_swap (firstn (S n) a) n i z x) as P. rewrite !nth_error_firstn in P. destruct (Nat.ltb_spec n (S n)); [|lia]. destruct (Nat.ltb_spec i (S n)); [|lia]. specialize (P Ez Ex).
  set (c := upd (upd (firstn (S n) a) n x) i z) in *. assert (Lc : length c = S n) by (unfold c; rewrite !upd_length, firstn_length; lia).
  assert (Lf : length (firstn (S n) a) = S n) by (rewrite firstn_length; lia).
  rewrite (firstn_snoc a n z Ez) at 1. symmetry.
  destruct (Nat.eq_dec i n) as [->|N].
  - assert (x = z) by congruence. subst x. rewrite firstn_upd_ge by lia. apply Permutation_cons_append.
  - assert (Ei : nth_error (firstn n a) i = Some x) by (rewrite nth_error_firstn; destruct (Nat.ltb_spec i n); [exact Ex|lia]).
    rewrite firstn_upd.
    apply nth_error_split in Ei. destruct Ei as (l1 & l2 & El & L1). rewrite El. subst i. rewrite upd_app_r by lia. rewrite Nat.sub_diag. cbn [upd].
    transitivity (x :: z :: l1 ++ l2); [apply perm_skip; symmetry; apply Permutation_middle|]. transitivity (z :: x :: l1 ++ l2); [apply perm_swap|].
    rewrite <- Permutation_cons_append. apply perm_skip. apply Permutation_middle.
Qed.
Lemma step_ok {A} (q : rqueue A) o : inv q -> valid q o -> exists q' r, step q o = Ok (q', r) /\ inv q' /\ effect o (elements q) (elements q') r.
Proof.
  intros I V. destruct o as [x|i|i|]; cbn [step valid effect] in *.
  - do 2 eexists. split; [reflexivity|]. destruct q as [a n]. unfold Push, inv, elements in *. cbn [arr len] in *. destruct (Nat.ltb_spec n (length a)) as [H|H]; cbn [arr len].
    + split; [rewrite upd_length; lia|]. split; [reflexivity|]. rewrite (firstn_snoc _ n x) by (apply nth_error_upd_eq; exact H). rewrite firstn_upd_ge by lia. reflexivity.
    + split; [rewrite app_length, firstn_length; cbn; lia|]. split; [reflexivity|]. rewrite firstn_all2; [reflexivity|rewrite app_length, firstn_length; cbn; lia].
  - destruct (remove_ok q i I V) as (q' & x & E & I' & Ex & P & _). unfold Pop. rewrite (get_some _ _ _ Ex). cbn [bind]. rewrite E. cbn [bind]. do 2 eexists. split; [reflexivity|]. split; [exact I'|].
    exists x. split; [|auto]. unfold elements. rewrite nth_error_firstn. destruct (Nat.ltb_spec i (len q)); [exact Ex|lia].
  - destruct (remove_ok q i I V) as (q' & x & E & I' & Ex & P & _). rewrite E. cbn [bind]. do 2 eexists. split; [reflexivity|]. split; [exact I'|].
    exists x. split; [|auto]. unfold elements. rewrite nth_error_firstn. destruct (Nat.ltb_spec i (len q)); [exact Ex|lia].
  - do 2 eexists. split; [reflexivity|]. split; [apply Nat.le_0_l|]. split; reflexivity.
Qed.
Lemma reachable_inv {A} (q : rqueue A) : reachable q -> inv q.
Proof. induction 1 as [|q o q' r _ I V E]; [apply Nat.le_0_l|]. destruct (step_ok q o I V) as (q1 & r1 & E1 & I1 & _). rewrite E in E1. injection E1 as <- <-. exact I1. Qed.
(* C55: in every reachable RandomQueue, whatever the random outcome, Pop removes exactly one of the stored elements and
   returns it (the rest is kept, possibly in another order); Empty tells whether there are elements. *)
Theorem C55_RandomQueue : forall A (q : rqueue A), reachable q ->
  length (elements q) = len q /\ (Empty q = true <-> elements q = []) /\
  forall o, valid q o -> exists q' r, step q o = Ok (q', r) /\ reachable q' /\ effect o (elements q) (elements q') r.
Proof.
  intros A q R. pose proof (reachable_inv q R) as I. assert (L : length (elements q) = len q) by (unfold elements; rewrite firstn_length; unfold inv in I; lia).
  split; [exact L|]. split.
  - unfold Empty. rewrite Nat.eqb_eq, <- L. apply length_zero_iff_nil.
  - intros o V. destruct (step_ok q o I V) as (q' & r & E & _ & Ef). exists q', r. split; [exact E|]. split; [econstructor; eauto|exact Ef].
Qed.
Print Assumptions C55_RandomQueue.

Example C55_example : source 5 (fun i => i / 2) /\ Shuffle (fun i => i / 2) [1; 2; 3; 4; 5] = Ok [1; 4; 2; 5; 3].
Proof. split; [intros i Hi; apply Nat.div_lt; lia|vm_compute; reflexivity]. Qed.
Example C55_example_queue : exists q, reachable q /\ elements q = [7; 9; 8] /\ valid q (OPop 0) /\ step q (OPop 0) = Ok (mk [8; 9; 8] 2, Some 7).
Proof.
  pose proof (r_step new (OPush 7) _ _ r_new Logic.I eq_refl) as H1. pose proof (r_step _ (OPush 9) _ _ H1 Logic.I eq_refl) as H2. pose proof (r_step _ (OPush 8) _ _ H2 Logic.I eq_refl) as H3.
  eexists. split; [exact H3|]. split; [reflexivity|]. split; [cbn; lia|reflexivity].
Qed.
