(* Properties C99 and C100: the ring allocator hands out pieces that do not overlap, and uses memory given back again. *)
From Coq Require Import List Arith Bool Lia Permutation.
From Verif Require Import Common Growth Threads RingAlloc RingAllocProofs.
Import ListNotations.

(* ------------------------------------------------ specification ------------------------------------------------ *)
(* Alloc is called with allowed sizes only, and calloc returns memory that is not in use *)
Definition act_ok (allowed : nat -> Prop) (x : sh * list pc) (c : act) : Prop :=
  match c with
  | Alloc _ num => allowed num
  | Dealloc _ _ => True
  | Exec t a => forall n, nth_error (snd x) t = Some (AGen n) ->
      forall m l tg, take_bucket (bk (fst x)) n (gc (fst x)) (tag (fst x)) = Ok (m, l, tg, None) -> m a = None
  end.
(* the states n threads can bring a new allocator into *)
Inductive runs (n : nat) (allowed : nat -> Prop) : sh * list pc -> Prop :=
| runs_new size a : runs n allowed (new_ring size a, repeat Idle n)
| runs_step x c y : runs n allowed x -> act_ok allowed x c -> step x c = Ok y -> runs n allowed y.
(* two pieces have no byte in common *)
Definition disjoint (p q : piece) : Prop :=
  let '(b, r, n) := p in let '(b', r', n') := q in b <> b' \/ r + n <= r' \/ r' + n' <= r.
(* the piece lies in a bucket in use *)
Definition within (s : sh) (p : piece) : Prop := let '(b, r, n) := p in exists x, bk s b = Some x /\ r + n <= sz x.
(* the thread does not touch what the lock of the allocator protects *)
Definition outside (p : pc) : Prop :=
  match p with Idle | ARLock _ | ARSub _ | ARet _ _ _ | DRLock _ | DRSub _ => True | _ => False end.
Fixpoint run (x : sh * list pc) (l : list act) : res (sh * list pc) :=
  match l with [] => Ok x | c :: l => do y <- step x c; run y l end.
Definition all_idle (ts : list pc) : Prop := forall p, In p ts -> p = Idle.

(* ---------------------------------------------------- proofs ---------------------------------------------------- *)
Section Proofs.
Context (nt : nat) (allowed : nat -> Prop) (MODE : nt = 1 \/ forall m n, allowed m -> allowed n -> m = n).
Definition size_ok (n : nat) : Prop := exists num, allowed num /\ n = num + NODE.
Definition inv (s : sh) (ts : list pc) : Prop :=
  length ts = nt /\ lock_ok (lk s) ts /\ (forall b, bucket_ok s ts b) /\ cur_ok s ts /\
  (forall p n, In p ts -> asks p = Some n -> size_ok n) /\ (forall b r n, In (b, r, n) (live s) -> size_ok n).

Lemma flat_map_repeat {A B} (f : A -> list B) x n : f x = [] -> flat_map f (repeat x n) = [].
Proof. intros E. apply flat_map_nil. intros y Hy. apply repeat_spec in Hy. subst. exact E. Qed.
Lemma inv_new size a : inv (new_ring size a) (repeat Idle nt).
Proof.
  unfold inv, lock_ok, cur_ok. split; [apply repeat_length|]. repeat match goal with |- _ /\ _ => split end.
  - symmetry; apply count_repeat; reflexivity.
  - rewrite count_repeat; reflexivity.
  - rewrite !count_repeat by reflexivity. lia.
  - intros b. unfold bucket_ok, new_ring. cbn [bk cur gc live]. rewrite !flat_map_repeat by reflexivity. rewrite !count_repeat by reflexivity.
    cbn [flat_map app count_occ]. rewrite (Nat.eqb_sym a b). destruct (b =? a); cbn; [|auto].
    repeat split; try lia; try discriminate. exists 0. repeat split; try lia; try constructor; intros ? [].
  - intros p Hp. apply repeat_spec in Hp. subst. exact I.
  - intros x. cbn [new_ring bk cur]. rewrite Nat.eqb_refl. intros E. injection E as <-. discriminate.
  - intros p n Hp. apply repeat_spec in Hp. subst. discriminate.
  - intros b r n [].
Qed.

Lemma inv_perm s ts ts' : Permutation ts ts' -> inv s ts -> inv s ts'.
Proof.
  intros P (L & K & V & C & A & B). split; [rewrite <- (Permutation_length P); exact L|]. split; [eapply lock_ok_perm; eassumption|].
  split; [intros b; eapply bucket_ok_perm; [exact P|apply V]|]. split; [eapply cur_ok_perm; eassumption|]. split; [|exact B].
  intros p n Hp. apply A. eapply Permutation_in; [symmetry; exact P|exact Hp].
Qed.
Lemma excl_alone l p l' : lock_ok l (p :: l') -> excl p = true -> inside p = true -> count inside l' = 0.
Proof. intros (_ & _ & X) E I. rewrite !count_cons, E, I in X. cbn [Nat.b2n] in X. lia. Qed.
Lemma inv_exec s p a s' p' l : exec s p a = Ok (s', p') -> inv s (p :: l) ->
  (forall n, p = AGen n -> forall m k t, take_bucket (bk s) n (gc s) (tag s) = Ok (m, k, t, None) -> m a = None) -> inv s' (p' :: l).
Proof.
  intros H (L & K & V & C & A & B) F. split; [exact L|]. split; [eapply lock_step; eassumption|].
  assert (T : (forall b, bucket_ok s' (p' :: l) b) /\ cur_ok s' (p' :: l)).
  { destruct p as [| | | | | | | | | | | |m| | | | | | | | | | | | | | | | | |] eqn:EP.
    13:{ cbn [exec] in H. destruct (gen_bucket s m a) as [s1| |] eqn:G; cbn [bind] in H; try discriminate H. injection H as <- <-.
      assert (Z : count inside l = 0) by (eapply excl_alone; [exact K|reflexivity|reflexivity]).
      destruct (gen_bucket_ok s m a s1 l G (F m eq_refl) Z V) as (V' & x & E & W & _). split; [exact V'|]. split.
      - intros q [<-|Hq]; [exact I|]. apply near_outside, (count_none _ _ Z), Hq.
      - intros x' E'. rewrite E in E'. injection E' as <-. rewrite W. discriminate. }
    all: rewrite <- EP in *; split; [|eapply cur_step; try eassumption; intros ?; congruence].
    all: eapply bucket_step; try eassumption; [intros ?; congruence|].
    all: intros n0 c E m0 Hm; subst p; try discriminate E.
    injection E as -> ->. apply in_flat_map in Hm. destruct Hm as (q & Hq & Hm). destruct q; try destruct Hm. cbn [pend] in Hm.
    destruct (b =? c) in Hm; [|destruct Hm]. destruct Hm as [->|[]]. destruct MODE as [M|M].
    - destruct l; [destruct Hq|]. cbn in L. lia.
    - destruct (A _ m0 (or_intror Hq) eq_refl) as (u & Au & ->). destruct (A _ n0 (or_introl eq_refl) eq_refl) as (v & Av & ->). rewrite (M u v Au Av). reflexivity. }
  destruct T as (T1 & T2). split; [exact T1|]. split; [exact T2|]. destruct (asks_step _ _ _ _ _ H) as (Q & R). split.
  - intros q n [<-|Hq]; [|apply A; right; exact Hq]. intros E. destruct Q as [Q|Q]; [|congruence]. apply (A p); [left; reflexivity|congruence].
  - destruct R as [->|(b & r & n & -> & ->)]; [exact B|]. intros b' r' n' [E|Hin]; [|apply (B _ _ _ Hin)]. injection E as <- <- <-.
    apply (A (ARet n b r)); [left; reflexivity|reflexivity].
Qed.
Lemma live_perm (l : list piece) i p : nth_error l i = Some p -> Permutation l (p :: firstn i l ++ skipn (S i) l).
Proof.
  revert i. induction l as [|x l IH]; intros [|i] H; try discriminate H; cbn [nth_error] in H.
  - injection H as ->. reflexivity.
  - rewrite (IH i H) at 1. cbn [firstn skipn app]. apply perm_swap.
Qed.
Lemma step_ok s ts c : inv s ts -> act_ok allowed (s, ts) c -> exists s' ts', step (s, ts) c = Ok (s', ts') /\ inv s' ts'.
Proof.
  intros J AO. destruct c as [t num|t i|t a]; cbn [step].
  - destruct (nth_error ts t) as [p|] eqn:E; [|exists s, ts; auto]. destruct p; try (exists s, ts; split; [reflexivity|exact J]).
    eexists _, _. split; [reflexivity|]. destruct (upd_perm ts t Idle E) as (l & P & Q). apply (inv_perm _ (ARLock (num + NODE) :: l)); [symmetry; apply Q|].
    apply (inv_perm _ _ _ P) in J. destruct J as (L & K & V & (C1 & C2) & A & B). split; [exact L|]. split; [exact K|]. split; [exact V|]. split; [|split; [|exact B]].
    + split; [|exact C2]. intros p [<-|Hp]; [exact I|]. apply C1. right. exact Hp.
    + intros p n [<-|Hp]; [|apply A; right; exact Hp]. intros E'. injection E' as <-. exists num. split; [exact AO|reflexivity].
  - destruct (nth_error ts t) as [p|] eqn:E; [|exists s, ts; auto]. destruct p; try (exists s, ts; split; [reflexivity|exact J]).
    destruct (nth_error (live s) i) as [p|] eqn:EL; [|exists s, ts; auto].
    eexists _, _. split; [reflexivity|]. destruct (upd_perm ts t Idle E) as (l & P & Q). apply (inv_perm _ (DRLock p :: l)); [symmetry; apply Q|].
    apply (inv_perm _ _ _ P) in J. destruct J as (L & K & V & (C1 & C2) & A & B). pose proof (live_perm _ _ _ EL) as LP.
    split; [exact L|]. split; [exact K|]. split; [|split; [|split]].
    + intros b. specialize (V b). unfold bucket_ok in *. cbn [bk cur gc set_live live].
      eapply view_perm; [|reflexivity|exact V]. cbn [flat_map own app]. rewrite (flat_map_perm (at_ b) _ _ LP). cbn [flat_map].
      rewrite <- app_assoc. apply Permutation_app_swap_app.
    + split; [|exact C2]. intros q [<-|Hp]; [exact I|]. apply C1. right. exact Hp.
    + intros q n [<-|Hp]; [discriminate|]. apply A. right. exact Hp.
    + intros b r n Hin. apply (B b r n). eapply Permutation_in; [symmetry; exact LP|]. right. exact Hin.
  - destruct (nth_error ts t) as [p|] eqn:E; [|exists s, ts; auto]. destruct (upd_perm ts t p E) as (l & P & Q). apply (inv_perm _ _ _ P) in J.
    destruct (exec_def s p a l) as ([s' p'] & X); [apply J|]. rewrite X. cbn [bind]. eexists _, _. split; [reflexivity|].
    apply (inv_perm _ (p' :: l)); [symmetry; apply Q|]. eapply inv_exec; [exact X|exact J|]. intros n ->. apply AO. exact E.
Qed.
Lemma inv_runs x : runs nt allowed x -> inv (fst x) (snd x).
Proof.
  induction 1 as [size a|[s ts] c y _ IH AO E]; [apply inv_new|].
  destruct (step_ok s ts c IH AO) as (s' & ts' & E' & J). rewrite E' in E. injection E as <-. exact J.
Qed.

Lemma nodup_app_r {A} (l l' : list A) : NoDup (l ++ l') -> NoDup l'.
Proof. induction l as [|x l IH]; [exact (fun D => D)|]. cbn [app]. intros D. inversion D; subst. apply IH. assumption. Qed.
Lemma at_pair b p q : In (snd (fst p), snd p) (at_ b p) -> In (snd (fst q), snd q) (at_ b q) -> forall l : list piece,
  (exists i j, i <> j /\ nth_error l i = Some p /\ nth_error l j = Some q) -> forall O, NoDup (flat_map cells (flat_map (at_ b) l ++ O)) ->
  forall k, In k (cells (snd (fst p), snd p)) -> In k (cells (snd (fst q), snd q)) -> False.
Proof.
  intros P Q l (i & j & N & Hi & Hj) O D k Kp Kq.
  assert (W : forall i j p q, i < j -> nth_error l i = Some p -> nth_error l j = Some q -> In (snd (fst p), snd p) (at_ b p) -> In (snd (fst q), snd q) (at_ b q) ->
    In k (cells (snd (fst p), snd p)) -> In k (cells (snd (fst q), snd q)) -> False).
  { clear - D. revert D. induction l as [|x l IH]; intros D [|i] [|j] p q L Hi Hj P Q Kp Kq; try discriminate; try lia; cbn [nth_error] in *.
    - injection Hi as ->. cbn [flat_map] in D. rewrite <- app_assoc, flat_map_app in D.
      assert (DD : forall c, In c (flat_map cells (at_ b p)) -> In c (flat_map cells (flat_map (at_ b) l ++ O)) -> False).
      { clear - D. induction (flat_map cells (at_ b p)) as [|c k IH]; [intros ? []|]. cbn [app] in D. inversion D as [|? ? Nc D']; subst. intros c' [->|H1] H2; [apply Nc, in_or_app; right; exact H2|apply (IH D' c' H1 H2)]. }
      apply (DD k).
      + apply in_flat_map. eexists. split; [exact P|exact Kp].
      + apply in_flat_map. eexists. split; [apply in_or_app; left; apply in_flat_map; exists q; split; [eapply nth_error_In; exact Hj|exact Q]|exact Kq].
    - cbn [flat_map] in D. rewrite <- app_assoc, flat_map_app in D. apply nodup_app_r in D. apply (IH D i j p q); try assumption; try lia. }
  destruct (Nat.lt_total i j) as [L|[L|L]]; [apply (W i j p q L Hi Hj P Q Kp Kq)|contradiction|apply (W j i q p L Hj Hi Q P Kq Kp)].
Qed.
Lemma inv_disjoint s ts i j p q : inv s ts -> i <> j -> nth_error (live s) i = Some p -> nth_error (live s) j = Some q -> disjoint p q.
Proof.
  intros (_ & _ & V & _ & _ & Z) N Hi Hj. destruct p as [[b r] n], q as [[b' r'] n']. unfold disjoint.
  destruct (Nat.eq_dec b b') as [<-|NB]; [|left; exact NB]. right.
  destruct (le_lt_dec (r + n) r') as [L1|L1]; [left; exact L1|]. destruct (le_lt_dec (r' + n') r) as [L2|L2]; [right; exact L2|]. exfalso.
  destruct (Z b r n (nth_error_In _ _ Hi)) as (u & _ & Eu). destruct (Z b r' n' (nth_error_In _ _ Hj)) as (v & _ & Ev). unfold NODE in *.
  specialize (V b). unfold bucket_ok in V. destruct (bk s b) as [x|].
  - destruct V as (_ & _ & _ & _ & S & _ & _ & _ & D & _).
    apply (at_pair b (b, r, n) (b, r', n') (at_self b r n) (at_self b r' n') (live s) (ex_intro _ i (ex_intro _ j (conj N (conj Hi Hj)))) _ D (Nat.max r r')); apply in_seq; cbn [fst snd]; lia.
  - destruct V as (V & _). apply app_eq_nil in V. destruct V as (V & _).
    assert (Q : In (r, n) (flat_map (at_ b) (live s))) by (apply in_flat_map; exists (b, r, n); split; [eapply nth_error_In; exact Hi|apply at_self]). rewrite V in Q. destruct Q.
Qed.
Lemma inv_within s ts p : inv s ts -> In p (live s) -> within s p.
Proof.
  intros (_ & _ & V & _) Hp. destruct p as [[b r] n]. unfold within. specialize (V b). unfold bucket_ok in V.
  assert (Q : In (r, n) (flat_map (at_ b) (live s) ++ flat_map (own b) ts)) by (apply in_or_app; left; apply in_flat_map; exists (b, r, n); split; [exact Hp|apply at_self]).
  destruct (bk s b) as [x|].
  - destruct V as (_ & _ & _ & _ & S & _ & L & _ & _ & B). exists x. split; [reflexivity|]. specialize (B _ _ Q). lia.
  - destruct V as (Z & _). rewrite Z in Q. destruct Q.
Qed.
Lemma inv_alone s ts t n : inv s ts -> nth_error ts t = Some (AGen n) -> forall u q, u <> t -> nth_error ts u = Some q -> outside q.
Proof.
  intros (_ & K & _) E u q N Hu.
  assert (Z : inside q = false).
  { destruct K as (_ & _ & X). pose proof (count_in excl ts t _ E eq_refl) as C. specialize (X ltac:(lia)).
    destruct (inside q) eqn:Iq; [|reflexivity]. pose proof (count_two inside ts u t q (AGen n) N Hu E Iq eq_refl). lia. }
  destruct q; try discriminate Z; exact I.
Qed.

(* ---------------- one thread moves while the others are idle ---------------- *)
Definition is_gen (p : pc) : bool := match p with AGen _ => true | _ => false end.
Fixpoint iter (k : nat) (a : nat) (s : sh) (p : pc) : res (sh * pc) :=
  match k with 0 => Ok (s, p) | S k => if is_gen p then UB else do (s', p') <- exec s p a; iter k a s' p' end.
Ltac ev := repeat (progress (unfold with_bucket, set_bk, set_lk, set_live; cbn [iter exec is_gen bind wr rd lk free_lock add_reader sub_reader set_writer bk cur live blk sz reserved set_blk set_reserved gc tag lastsize return_to Nat.add negb andb]; rewrite ?Nat.eqb_refl; change (1 <? 1) with false; change (0 =? 0) with true)).
Lemma iter_app a k k' s p s' p' : iter k a s p = Ok (s', p') -> iter (k + k') a s p = iter k' a s' p'.
Proof.
  revert s p. induction k as [|k IH]; intros s p H; cbn [iter Nat.add] in *; [injection H as -> ->; reflexivity|].
  destruct (is_gen p); [discriminate H|]. destruct (exec s p a) as [[s1 p1]| |]; cbn [bind] in *; try discriminate H. apply IH, H.
Qed.
Lemma upd_same {A} (ts : list A) t (p : A) : t < length ts -> nth_error (upd ts t p) t = Some p.
Proof. revert t. induction ts as [|x ts IH]; intros [|t] L; cbn in *; try lia; [reflexivity|]. apply IH. lia. Qed.
Lemma upd_upd {A} (ts : list A) t (p q : A) : upd (upd ts t p) t q = upd ts t q.
Proof. revert t. induction ts as [|x ts IH]; intros [|t]; cbn; try reflexivity. rewrite IH. reflexivity. Qed.
Lemma run_iter a t ts k s p s' p' : t < length ts -> iter k a s p = Ok (s', p') -> run (s, upd ts t p) (repeat (Exec t a) k) = Ok (s', upd ts t p').
Proof.
  intros L. revert s p. induction k as [|k IH]; intros s p H; cbn [iter repeat run] in *; [injection H as -> ->; reflexivity|].
  cbn [step]. rewrite upd_same by exact L. destruct (is_gen p); [discriminate H|]. destruct (exec s p a) as [[s1 p1]| |]; cbn [bind] in *; try discriminate H. rewrite upd_upd. apply IH, H.
Qed.
Lemma idle_perm ts t : all_idle ts -> nth_error ts t = Some Idle -> exists l, all_idle l /\ forall p, Permutation (upd ts t p) (p :: l).
Proof.
  intros A E. destruct (upd_perm ts t Idle E) as (l & P & Q). exists l. split; [|exact Q]. intros q Hq. apply A. eapply Permutation_in; [symmetry; exact P|]. right. exact Hq.
Qed.
Lemma idle_counts l (f : pc -> bool) : all_idle l -> f Idle = false -> count f l = 0.
Proof.
  intros A F. induction l as [|p l IH]; [reflexivity|]. rewrite count_cons, (A p) by (left; reflexivity). rewrite F. cbn [Nat.b2n Nat.add]. apply IH. intros q Hq. apply A. right. exact Hq.
Qed.
Lemma idle_maps {B} l (f : pc -> list B) : all_idle l -> f Idle = [] -> flat_map f l = [].
Proof. intros A F. apply flat_map_nil. intros p Hp. rewrite (A p Hp). exact F. Qed.
(* the state when all threads are idle *)
Lemma idle_lock s ts : inv s ts -> all_idle ts -> lk s = free_lock.
Proof.
  intros (_ & (R & W & _) & _) A. rewrite idle_counts in R, W by (auto; reflexivity). destruct (lk s) as [w r]. cbn in *. subst r. destruct w; [discriminate W|reflexivity].
Qed.
Lemma idle_cur s ts : inv s ts -> all_idle ts -> exists x, bk s (cur s) = Some x /\ wr (blk x) = false.
Proof.
  intros (_ & _ & V & (_ & C) & _) A. specialize (V (cur s)). unfold bucket_ok in V. destruct (bk s (cur s)) as [x|] eqn:E.
  - exists x. split; [reflexivity|]. destruct (wr (blk x)) eqn:W; [|reflexivity]. specialize (C x eq_refl W). rewrite idle_counts in C by (auto; reflexivity). lia.
  - destruct V as (_ & _ & _ & Z). rewrite Nat.eqb_refl in Z. discriminate Z.
Qed.

(* a piece that fits in the current bucket *)
Lemma alloc_fits a s n x : lk s = free_lock -> bk s (cur s) = Some x -> wr (blk x) = false -> reserved x + n <= sz x ->
  exists s', iter 6 a s (ARLock n) = Ok (s', Idle) /\ live s' = (cur s, reserved x, n) :: live s.
Proof.
  intros K E W L. ev. rewrite K. ev. rewrite E. ev. rewrite W. ev.
  destruct (Nat.ltb_spec (sz x) (reserved x + n)) as [Q|_]; [lia|]. ev.
  apply Nat.leb_le in L. rewrite L. ev. eexists. split; reflexivity.
Qed.
(* a piece that does not *)
Lemma alloc_over a s n x : lk s = free_lock -> bk s (cur s) = Some x -> wr (blk x) = false -> sz x < reserved x + n ->
  exists k s', iter k a s (ARLock n) = Ok (s', AGen n) /\ live s' = live s /\ (bk s a = None -> bk s' a = None).
Proof.
  intros K E W L. assert (NA : bk s a = None -> (a =? cur s) = false) by (intros Z; apply Nat.eqb_neq; intros ->; congruence).
  destruct x as [xs xr [xw xd]]. cbn [wr blk sz reserved] in *. subst xw.
  assert (P : exists s1, iter 6 a s (ARLock n) = Ok (s1, if xr =? 0 then CStrict (cur s) (KAlloc n) else AUp n) /\ lk s1 = mklock false 1 /\ cur s1 = cur s /\ live s1 = live s /\
     bk s1 (cur s) = Some (mkbucket xs xr (mklock false xd)) /\ (bk s a = None -> bk s1 a = None)).
  { ev. rewrite K. ev. rewrite E. ev. destruct (Nat.ltb_spec xs (xr + n)) as [_|Q]; [|lia]. ev.
    eexists. split; [reflexivity|]. ev. repeat (split; [reflexivity|]). split.
    - unfold set_blk, set_reserved, sub_reader, add_reader. cbn [rd wr sz reserved blk]. replace (xr + n - n) with xr by lia. replace (xd + 1 - 1) with xd by lia. reflexivity.
    - intros Z. rewrite (NA Z). exact Z. }
  destruct P as (s1 & P & K1 & C1 & L1 & E1 & N1).
  assert (UP : forall s2, lk s2 = mklock false 1 -> iter 2 a s2 (AUp n) = Ok (set_lk s2 (mklock true 1), AGen n)).
  { intros s2 K2. ev. rewrite K2. ev. reflexivity. }
  destruct (Nat.eqb_spec xr 0) as [->|NZ].
  - destruct (Nat.eqb_spec xd 0) as [->|ND].
    + (* the bucket is reset *)
      assert (R : exists s2, iter 8 a s1 (CStrict (cur s) (KAlloc n)) = Ok (s2, AUp n) /\ lk s2 = mklock false 1 /\ live s2 = live s /\ (bk s a = None -> bk s2 a = None)).
      { ev. rewrite E1. ev. rewrite C1. ev. rewrite K1. ev. eexists. split; [reflexivity|]. ev.
        split; [reflexivity|]. split; [exact L1|]. intros Z. rewrite (NA Z). apply N1, Z. }
      destruct R as (s2 & R & K2 & L2 & N2). exists (6 + (8 + 2)). exists (set_lk s2 (mklock true 1)).
      split; [rewrite (iter_app _ _ _ _ _ _ _ P), (iter_app _ _ _ _ _ _ _ R); apply UP, K2|]. split; [exact L2|exact N2].
    + exists (6 + (1 + 2)). exists (set_lk s1 (mklock true 1)).
      assert (R : iter 1 a s1 (CStrict (cur s) (KAlloc n)) = Ok (s1, AUp n)).
      { ev. rewrite E1. ev. destruct (Nat.eqb_spec xd 0); [contradiction|]. reflexivity. }
      split; [rewrite (iter_app _ _ _ _ _ _ _ P), (iter_app _ _ _ _ _ _ _ R); apply UP, K1|]. split; [exact L1|exact N1].
  - exists (6 + 2). exists (set_lk s1 (mklock true 1)). split; [rewrite (iter_app _ _ _ _ _ _ _ P); apply UP, K1|]. split; [exact L1|exact N1].
Qed.
Lemma take_none m num l t m' l' t' h a : take_bucket m num l t = Ok (m', l', t', h) -> m a = None -> m' a = None.
Proof.
  revert m t. induction l as [|c l IH]; intros m t H N; cbn [take_bucket] in H; [injection H as <- _ _ _; exact N|].
  destruct (m c) as [x|]; [|discriminate H]. destruct (sz x <? num); [|injection H as <- _ _ _; exact N].
  apply (IH _ _ H). destruct (a =? c); [reflexivity|exact N].
Qed.
Lemma inv_iter a t ts k : t < length ts -> forall s p s' p', iter k a s p = Ok (s', p') -> inv s (upd ts t p) -> inv s' (upd ts t p').
Proof.
  intros L. induction k as [|k IH]; intros s p s' p' H J; cbn [iter] in H; [injection H as <- <-; exact J|].
  destruct (is_gen p) eqn:G; [discriminate H|]. destruct (exec s p a) as [[s1 p1]| |] eqn:X; cbn [bind] in H; try discriminate H.
  destruct (step_ok s (upd ts t p) (Exec t a) J) as (s2 & ts2 & E & J2).
  - intros n En. cbn [snd] in En. rewrite upd_same in En by exact L. injection En as ->. discriminate G.
  - cbn [step] in E. rewrite upd_same in E by exact L. rewrite X in E. cbn [bind] in E. injection E as <- <-. rewrite upd_upd in J2.
    apply (IH _ _ _ _ H J2).
Qed.

Lemma nth_lt {A} (ts : list A) t : t < length ts -> exists p, nth_error ts t = Some p.
Proof. intros L. destruct (nth_error ts t) as [p|] eqn:E; [exists p; reflexivity|]. apply nth_error_None in E. lia. Qed.
Lemma upd_idle ts t : all_idle ts -> t < length ts -> all_idle (upd ts t Idle).
Proof.
  intros A L. destruct (nth_lt ts t L) as (p & E). pose proof (A p (nth_error_In _ _ E)) as ->. destruct (idle_perm ts t A E) as (l & Al & P).
  intros q Hq. apply (Permutation_in _ (P Idle)) in Hq. destruct Hq as [<-|Hq]; [reflexivity|apply Al, Hq].
Qed.
Lemma run_app l1 l2 x y : run x l1 = Ok y -> run x (l1 ++ l2) = run y l2.
Proof.
  revert x. induction l1 as [|c l IH]; intros x H; cbn [run app] in *; [injection H as ->; reflexivity|].
  destruct (step x c) as [z| |]; cbn [bind] in *; try discriminate H. apply IH, H.
Qed.
Lemma alloc_alone s ts t num a : inv s ts -> all_idle ts -> t < length ts -> allowed num -> bk s a = None ->
  exists k s' ts' b r, run (s, ts) (Alloc t num :: repeat (Exec t a) k) = Ok (s', ts') /\ all_idle ts' /\ live s' = (b, r, num + NODE) :: live s.
Proof.
  intros J A L AL N. destruct (nth_lt ts t L) as (p & Et). pose proof (A p (nth_error_In _ _ Et)) as ->.
  destruct (step_ok s ts (Alloc t num) J AL) as (s0 & ts0 & E0 & J0). cbn [run]. rewrite E0. cbn [bind]. cbn [step] in E0. rewrite Et in E0. injection E0 as <- <-.
  destruct (idle_cur _ _ J A) as (x & E & W). pose proof (idle_lock _ _ J A) as K. set (n := num + NODE) in *.
  destruct (le_lt_dec (reserved x + n) (sz x)) as [F|F].
  - destruct (alloc_fits a s n x K E W F) as (s' & R & LV). exists 6, s', (upd ts t Idle), (cur s), (reserved x).
    split; [apply run_iter; assumption|]. split; [apply upd_idle; assumption|exact LV].
  - destruct (alloc_over a s n x K E W F) as (k & s1 & R & LV & N1). specialize (N1 N).
    pose proof (inv_iter a t ts k L _ _ _ _ R J0) as J1. destruct (idle_perm ts t A Et) as (l & Al & P).
    pose proof (inv_perm _ _ _ (P (AGen n)) J1) as (_ & K1 & V1 & _).
    destruct (exec_def s1 (AGen n) a l V1) as ([s2 p2] & X). cbn [exec] in X. destruct (gen_bucket s1 n a) as [s3| |] eqn:G; cbn [bind] in X; try discriminate X. injection X as <- <-.
    destruct (gen_bucket_ok s1 n a s3 l G) as (_ & x3 & E3 & W3 & R3 & F3).
    { intros m g tg T. apply (take_none _ _ _ _ _ _ _ _ _ T N1). }
    { apply idle_counts; [exact Al|reflexivity]. }
    { exact V1. }
    pose proof (gen_bucket_lk _ _ _ _ G) as K3. assert (K1' : lk s1 = mklock true 1).
    { destruct K1 as (Q1 & Q2 & _). rewrite !count_cons in Q1, Q2. rewrite idle_counts in Q1, Q2 by (auto; reflexivity). destruct (lk s1) as [w r]. cbn in Q1, Q2. subst r. destruct w; [reflexivity|discriminate Q2]. }
    assert (L3 : live s3 = live s1).
    { destruct (asks_step s1 (AGen n) a s3 (ADown n)) as (_ & [Q|(b & r & m & Q & _)]); [cbn [exec]; rewrite G; reflexivity|exact Q|discriminate Q]. }
    assert (D : iter 2 a s3 (ADown n) = Ok (set_lk s3 free_lock, ARLock n)).
    { ev. rewrite K3, K1'. ev. reflexivity. }
    destruct (alloc_fits a (set_lk s3 free_lock) n x3 eq_refl E3 W3 ltac:(lia)) as (s4 & R4 & LV4).
    assert (R5 : iter (2 + 6) a s3 (ADown n) = Ok (s4, Idle)) by (rewrite (iter_app _ _ _ _ _ _ _ D); exact R4).
    exists (k + (1 + (2 + 6))), s4, (upd ts t Idle), (cur s3), (reserved x3).
    split; [|split; [apply upd_idle; assumption|cbn [live set_lk cur] in LV4; rewrite LV4; congruence]].
    rewrite repeat_app. rewrite (run_app _ _ _ _ (run_iter a t ts k _ _ _ _ L R)).
    rewrite repeat_app. rewrite (run_app (repeat (Exec t a) 1) _ _ (s3, upd ts t (ADown n))).
    + apply (run_iter a t ts (2 + 6) _ _ _ _ L R5).
    + cbn [repeat run step bind]. rewrite upd_same by exact L. cbn [exec bind]. rewrite G. cbn [bind]. rewrite upd_upd. reflexivity.
Qed.
Lemma flat_at_none b l : (forall r n, ~ In (b, r, n) l) -> flat_map (at_ b) l = [].
Proof. intros H. apply flat_map_nil. intros [[c r] n] Hin. cbn. destruct (Nat.eqb_spec c b) as [->|]; [destruct (H r n Hin)|reflexivity]. Qed.
Lemma dealloc_alone s ts t i b r n a : inv s ts -> all_idle ts -> t < length ts -> nth_error (live s) i = Some (b, r, n) ->
  (forall j r' n', nth_error (live s) j = Some (b, r', n') -> j = i) ->
  exists k s' ts', run (s, ts) (Dealloc t i :: repeat (Exec t a) k) = Ok (s', ts') /\ all_idle ts' /\ live s' = firstn i (live s) ++ skipn (S i) (live s) /\
    exists x, bk s' b = Some x /\ rd (blk x) = 0 /\ ((cur s' = b /\ reserved x = 0 /\ wr (blk x) = false) \/ In b (gc s')).
Proof.
  intros J A L EL U. destruct (nth_lt ts t L) as (p & Et). pose proof (A p (nth_error_In _ _ Et)) as ->.
  assert (Q : exists x, bk s b = Some x /\ wr (blk x) = false /\ rd (blk x) = 1).
  { destruct J as (_ & _ & V & _). specialize (V b). unfold bucket_ok in V. rewrite !idle_counts in V by (auto; reflexivity). rewrite !idle_maps in V by (auto; reflexivity).
    rewrite app_nil_r in V.
    assert (LN : Permutation (flat_map (at_ b) (live s)) [(r, n)]).
    { rewrite (flat_map_perm _ _ _ (live_perm _ _ _ EL)). cbn [flat_map at_]. rewrite Nat.eqb_refl. rewrite flat_at_none; [reflexivity|]. intros r' n' Hin.
      apply in_app_or in Hin. destruct Hin as [Hin|Hin].
      - apply In_nth_error in Hin. destruct Hin as (j & Hj). assert (Lj : j < i).
        { assert (j < length (firstn i (live s))) by (apply nth_error_Some; congruence). rewrite firstn_length in *. lia. }
        assert (Hj' : nth_error (live s) j = Some (b, r', n')).
        { rewrite <- (firstn_skipn i (live s)). rewrite nth_error_app1; [exact Hj|]. apply nth_error_Some. congruence. }
        specialize (U j r' n' Hj'). lia.
      - apply In_nth_error in Hin. destruct Hin as (j & Hj). assert (Hj' : nth_error (live s) (S i + j) = Some (b, r', n')).
        { etransitivity; [|exact Hj]. clear. revert i. induction (live s) as [|y l IH]; intros [|i]; cbn; try reflexivity; [destruct j; reflexivity|destruct j; reflexivity|apply IH]. }
        specialize (U _ _ _ Hj'). lia. }
    destruct (bk s b) as [x|].
    - exists x. split; [reflexivity|]. destruct V as (V1 & _ & V3 & _). rewrite (Permutation_length LN) in V1. cbn in V1. split; [|lia].
      destruct (wr (blk x)); [|reflexivity]. destruct (V3 eq_refl) as (Z & _). rewrite Z in LN. apply Permutation_nil in LN. discriminate LN.
    - destruct V as (Z & _). rewrite Z in LN. apply Permutation_nil in LN. discriminate LN. }
  destruct Q as (x & E & W & R). pose proof (idle_lock _ _ J A) as K. cbn [run step]. rewrite Et, EL. cbn [bind].
  set (lv := firstn i (live s) ++ skipn (S i) (live s)).
  destruct x as [xs xr [xw xd]]. cbn [blk wr rd] in *. subst xw xd.
  destruct (Nat.eq_dec b (cur s)) as [EC|NC].
  - assert (X : exists s', iter 11 a (set_live s lv) (DRLock (b, r, n)) = Ok (s', Idle) /\ live s' = lv /\ cur s' = b /\ bk s' b = Some (mkbucket xs 0 (mklock false 0))).
    { subst b. ev. rewrite K. ev. rewrite E. ev. eexists. split; [reflexivity|]. ev. repeat split. }
    destruct X as (s' & X & L1 & C1 & B1). exists 11, s', (upd ts t Idle). split; [apply run_iter; assumption|]. split; [apply upd_idle; assumption|]. split; [exact L1|].
    eexists. split; [exact B1|]. split; [reflexivity|]. left. auto.
  - assert (X : exists s', iter 7 a (set_live s lv) (DRLock (b, r, n)) = Ok (s', Idle) /\ live s' = lv /\ In b (gc s') /\ exists x, bk s' b = Some x /\ rd (blk x) = 0).
    { assert (NE : (b =? cur s) = false) by (apply Nat.eqb_neq; exact NC). ev. rewrite K. ev. rewrite E. ev. rewrite NE. ev. eexists. split; [reflexivity|]. ev. split; [reflexivity|]. split; [left; reflexivity|].
      eexists. split; [reflexivity|]. reflexivity. }
    destruct X as (s' & X & L1 & C1 & x & B1 & B2). exists 7, s', (upd ts t Idle). split; [apply run_iter; assumption|]. split; [apply upd_idle; assumption|]. split; [exact L1|].
    exists x. split; [exact B1|]. split; [exact B2|]. right. exact C1.
Qed.
End Proofs.

(* ---------------------------------------------------- theorems ---------------------------------------------------- *)
(* C99.  The full statement has no condition on the number of threads and the sizes; see the refutation below. *)
Theorem C99_RingAlloc_partial : forall (nt : nat) (allowed : nat -> Prop) (s : sh) (ts : list pc),
  (nt = 1 \/ forall m n, allowed m -> allowed n -> m = n) -> runs nt allowed (s, ts) ->
  (* no step has undefined behaviour *)
  (forall c, act_ok allowed (s, ts) c -> exists y, step (s, ts) c = Ok y) /\
  (* two pieces handed out have no byte in common *)
  (forall i j p q, i <> j -> nth_error (live s) i = Some p -> nth_error (live s) j = Some q -> disjoint p q) /\
  (* every piece lies in a bucket in use, and has the size asked for *)
  (forall p, In p (live s) -> within s p) /\
  (forall b r n, In (b, r, n) (live s) -> exists num, allowed num /\ n = num + NODE) /\
  (* no other thread is inside while _genBucket runs *)
  (forall t n, nth_error ts t = Some (AGen n) -> forall u q, u <> t -> nth_error ts u = Some q -> outside q).
Proof.
  intros nt allowed s ts M R. pose proof (inv_runs nt allowed M _ R) as J. cbn [fst snd] in J. split; [|split; [|split; [|split]]].
  - intros c AO. destruct (step_ok nt allowed M s ts c J AO) as (s' & ts' & E & _). exists (s', ts'). exact E.
  - intros i j p q N Hi Hj. eapply inv_disjoint; eassumption.
  - intros p Hp. eapply inv_within; eassumption.
  - apply J.
  - intros t n E u q N Hu. eapply inv_alone; eassumption.
Qed.
Print Assumptions C99_RingAlloc_partial.

(* a list of actions, checked *)
Definition fresh (x : sh * list pc) (c : act) : bool :=
  match c with
  | Exec t a =>
    match nth_error (snd x) t with
    | Some (AGen n) => match take_bucket (bk (fst x)) n (gc (fst x)) (tag (fst x)) with Ok (m, _, _, None) => match m a with None => true | Some _ => false end | _ => true end
    | _ => true
    end
  | _ => true
  end.
Fixpoint checked (x : sh * list pc) (l : list act) : option (sh * list pc) :=
  match l with [] => Some x | c :: l => if fresh x c then match step x c with Ok y => checked y l | _ => None end else None end.
Lemma checked_runs nt (allowed : nat -> Prop) l x y : runs nt allowed x -> (forall t num, In (Alloc t num) l -> allowed num) -> checked x l = Some y -> runs nt allowed y.
Proof.
  revert x. induction l as [|c l IH]; intros x R A H; cbn [checked] in H; [injection H as <-; exact R|].
  destruct (fresh x c) eqn:F; [|discriminate H]. destruct (step x c) as [z| |] eqn:E; try discriminate H. apply (IH z); [|intros t num Hin; apply (A t num); right; exact Hin|exact H].
  apply (runs_step _ _ x c z R); [|exact E]. destruct c as [t num|t i|t a]; cbn [act_ok]; [apply (A t num); left; reflexivity|exact I|].
  intros n En m k tg T. unfold fresh in F. rewrite En, T in F. destruct (m a); [discriminate F|reflexivity].
Qed.

(* with several threads and different sizes, two pieces handed out can overlap *)
Definition overlap_trace : list act :=
  [Alloc 0 1000; Exec 0 9; Exec 0 9; Exec 0 9; Exec 0 9;      (* reserved = 1016, too much *)
   Alloc 1 4; Exec 1 9; Exec 1 9; Exec 1 9; Exec 1 9;         (* reserved = 1036, too much *)
   Exec 0 9;                                                  (* reserved = 20 *)
   Alloc 2 4; Exec 2 9; Exec 2 9; Exec 2 9; Exec 2 9; Exec 2 9; Exec 2 9;   (* the piece from 20 to 40 *)
   Exec 1 9;                                                  (* reserved = 20 *)
   Alloc 2 4; Exec 2 9; Exec 2 9; Exec 2 9; Exec 2 9; Exec 2 9; Exec 2 9].  (* the piece from 20 to 40 *)
Theorem C99_RingAlloc_refuted : exists s ts p, runs 3 (fun _ => True) (s, ts) /\ live s = [p; p] /\ ~ disjoint p p.
Proof.
  destruct (checked (new_ring 70 5, repeat Idle 3) overlap_trace) as [[s ts]|] eqn:E; [|vm_compute in E; discriminate E].
  exists s, ts, (5, 20, 20). split; [|split].
  - apply (checked_runs _ _ overlap_trace (new_ring 70 5, repeat Idle 3)); [constructor|exact (fun _ _ _ => I)|exact E].
  - vm_compute in E. injection E as <- _. reflexivity.
  - cbn [disjoint]. lia.
Qed.
Print Assumptions C99_RingAlloc_refuted.

(* two threads, pieces of one size: the first bucket has room for three, the fourth is from a new bucket *)
Definition alloc_acts (t num k : nat) : list act := Alloc t num :: repeat (Exec t 9) k.
Definition sample_trace : list act :=
  alloc_acts 0 20 6 ++ [Alloc 1 20; Exec 1 9; Exec 1 9; Exec 1 9] ++ alloc_acts 0 20 6 ++ repeat (Exec 1 9) 3 ++ alloc_acts 1 20 30.
Example C99_example : exists s ts, runs 2 (fun num => num = 20) (s, ts) /\ live s = [(9, 0, 36); (5, 72, 36); (5, 36, 36); (5, 0, 36)] /\ all_idle ts.
Proof.
  destruct (checked (new_ring 70 5, repeat Idle 2) sample_trace) as [[s ts]|] eqn:E; [|vm_compute in E; discriminate E].
  exists s, ts. split; [|split].
  - apply (checked_runs _ _ sample_trace (new_ring 70 5, repeat Idle 2)); [constructor| |exact E]. intros t num Hin.
    repeat (destruct Hin as [Q|Hin]; [try discriminate Q; try (injection Q as _ <-; reflexivity)|]). destruct Hin.
  - vm_compute in E. injection E as <- _. reflexivity.
  - vm_compute in E. injection E as _ <-. intros p [<-|[<-|[]]]; reflexivity.
Qed.

(* C100.  The full statement says that a bucket none of whose pieces is in use any more is always used again; see the
   refutations below. *)
Theorem C100_RingAlloc_reuse_partial : forall (nt : nat) (allowed : nat -> Prop) (s : sh) (ts : list pc),
  (nt = 1 \/ forall m n, allowed m -> allowed n -> m = n) -> runs nt allowed (s, ts) -> all_idle ts -> forall t a, t < nt ->
  (* with no other thread inside a call, Alloc returns a piece *)
  (forall num, allowed num -> bk s a = None ->
     exists k s' ts' b r, run (s, ts) (Alloc t num :: repeat (Exec t a) k) = Ok (s', ts') /\ all_idle ts' /\ live s' = (b, r, num + NODE) :: live s) /\
  (* and Dealloc of the last piece of a bucket leaves it the current bucket, with nothing reserved, or in the list of buckets to be used again *)
  (forall i b r n, nth_error (live s) i = Some (b, r, n) -> (forall j r' n', nth_error (live s) j = Some (b, r', n') -> j = i) ->
     exists k s' ts', run (s, ts) (Dealloc t i :: repeat (Exec t a) k) = Ok (s', ts') /\ all_idle ts' /\ live s' = firstn i (live s) ++ skipn (S i) (live s) /\
       exists x, bk s' b = Some x /\ rd (blk x) = 0 /\ ((cur s' = b /\ reserved x = 0 /\ wr (blk x) = false) \/ In b (gc s'))).
Proof.
  intros nt allowed s ts M R A t a L. pose proof (inv_runs nt allowed M _ R) as J. cbn [fst snd] in J. assert (L' : t < length ts) by (destruct J as (-> & _); exact L). split.
  - intros num AL N. apply (alloc_alone nt allowed M s ts t num a J A L' AL N).
  - intros i b r n Hi U. eapply dealloc_alone; eassumption.
Qed.
Print Assumptions C100_RingAlloc_reuse_partial.

(* neither the current bucket nor in the list of buckets to be used again, though no piece of it is in use *)
Definition lost (s : sh) (b : nat) : Prop :=
  bk s b <> None /\ cur s <> b /\ ~ In b (gc s) /\ forall r n, ~ In (b, r, n) (live s).
(* the first bucket, when the first piece is too large for it *)
Theorem C100_RingAlloc_first_refuted : exists s ts, runs 1 (fun _ => True) (s, ts) /\ all_idle ts /\ lost s 5.
Proof.
  destruct (checked (new_ring 70 5, repeat Idle 1) (alloc_acts 0 1000 40)) as [[s ts]|] eqn:E; [|vm_compute in E; discriminate E].
  exists s, ts. split; [|split].
  - apply (checked_runs _ _ (alloc_acts 0 1000 40) (new_ring 70 5, repeat Idle 1)); [constructor|exact (fun _ _ _ => I)|exact E].
  - vm_compute in E. injection E as _ <-. intros p [<-|[]]. reflexivity.
  - vm_compute in E. injection E as <- _. split; [discriminate|]. split; [discriminate|]. split; [intros []|]. intros r n [Q|[]]. discriminate Q.
Qed.
Print Assumptions C100_RingAlloc_first_refuted.
(* a bucket whose last piece is given back while another thread is between the addition to reserved and its reversal *)
Definition lost_trace : list act :=
  alloc_acts 0 20 6 ++ alloc_acts 0 20 6 ++ alloc_acts 0 20 6 ++ [Alloc 1 20; Exec 1 9; Exec 1 9; Exec 1 9; Exec 1 9]
  ++ [Dealloc 0 0] ++ repeat (Exec 0 9) 4 ++ [Dealloc 0 0] ++ repeat (Exec 0 9) 4 ++ [Dealloc 0 0] ++ repeat (Exec 0 9) 4 ++ repeat (Exec 1 9) 30.
Theorem C100_RingAlloc_race_refuted : exists s ts, runs 2 (fun num => num = 20) (s, ts) /\ all_idle ts /\ lost s 5.
Proof.
  destruct (checked (new_ring 70 5, repeat Idle 2) lost_trace) as [[s ts]|] eqn:E; [|vm_compute in E; discriminate E].
  exists s, ts. split; [|split].
  - apply (checked_runs _ _ lost_trace (new_ring 70 5, repeat Idle 2)); [constructor| |exact E]. intros t num Hin.
    repeat (destruct Hin as [Q|Hin]; [try discriminate Q; try (injection Q as _ <-; reflexivity)|]). destruct Hin.
  - vm_compute in E. injection E as _ <-. intros p [<-|[<-|[]]]; reflexivity.
  - vm_compute in E. injection E as <- _. split; [discriminate|]. split; [discriminate|]. split; [intros []|]. intros r n [Q|[]]. discriminate Q.
Qed.
Print Assumptions C100_RingAlloc_race_refuted.

(* a state with all threads idle and the last piece of a bucket that is not the current one *)
Example C100_example : exists s ts, runs 2 (fun num => num = 20) (s, ts) /\ all_idle ts /\ live s = [(9, 0, 36); (5, 0, 36)] /\ cur s = 9 /\ bk s 11 = None.
Proof.
  destruct (checked (new_ring 70 5, repeat Idle 2) (sample_trace ++ [Dealloc 1 1] ++ repeat (Exec 1 9) 20 ++ [Dealloc 0 1] ++ repeat (Exec 0 9) 20)) as [[s ts]|] eqn:E; [|vm_compute in E; discriminate E].
  exists s, ts. split; [|split; [|split; [|split]]].
  - eapply (checked_runs _ _ _ (new_ring 70 5, repeat Idle 2)); [constructor| |exact E]. intros t num Hin.
    repeat (destruct Hin as [Q|Hin]; [try discriminate Q; try (injection Q as _ <-; reflexivity)|]). destruct Hin.
  - vm_compute in E. injection E as _ <-. intros p [<-|[<-|[]]]; reflexivity.
  - vm_compute in E. injection E as <- _. reflexivity.
  - vm_compute in E. injection E as <- _. reflexivity.
  - vm_compute in E. injection E as <- _. reflexivity.
Qed.
