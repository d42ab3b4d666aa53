(* Proofs about the ring allocator (RingAlloc.v). *)
From Coq Require Import List Arith Bool Lia Permutation.
From Verif Require Import Common Growth Threads RingAlloc.
Import ListNotations.

(* ------------------------------------------------ roles of a thread ------------------------------------------------ *)
(* counted among the readers of _lock *)
Definition reader (p : pc) : bool := match p with Idle | ARLock _ | ARet _ _ _ | DRLock _ => false | _ => true end.
(* between RLock and RUnlock of _lock *)
Definition inside (p : pc) : bool := reader p && match p with ARSub _ | DRSub _ => false | _ => true end.
(* has set the writer flag of _lock *)
Definition writer (p : pc) : bool :=
  match p with AFlush _ | AGen _ | ADown _ | CFlush _ _ | CCur2 _ _ | CReset _ _ | CUnlock _ _ | CDown _ | CDown2 _ _ => true | _ => false end.
(* and has waited for the readers *)
Definition excl (p : pc) : bool := writer p && match p with AFlush _ | CFlush _ _ => false | _ => true end.
(* counted among the readers of bucket b, without having a piece of it *)
Definition hold (b : nat) (p : pc) : bool :=
  match p with ABSub _ c | AAdd _ c | ASub _ c _ | ABUn _ c _ => c =? b | _ => false end.
Definition busy (b : nat) (p : pc) : bool := match p with AAdd _ c | ASub _ c _ | ABUn _ c _ => c =? b | _ => false end.
(* has the writer flag of bucket b *)
Definition strict (b : nat) (p : pc) : bool :=
  match p with CCur c _ | CUp c _ | CFlush c _ | CCur2 c _ | CReset c _ | CUnlock c _ | CDown2 c _ | RLoad c _ | RCas c _ _ => c =? b | _ => false end.
(* has a pointer to bucket b *)
Definition names (b : nat) (p : pc) : bool :=
  hold b p || strict b p || match p with ABLock _ c | CStrict c _ => c =? b | _ => false end.
(* the pieces of bucket b the thread has *)
Definition at_ (b : nat) (p : piece) : list (nat * nat) := let '(c, r, n) := p in if c =? b then [(r, n)] else [].
Definition own (b : nat) (p : pc) : list (nat * nat) :=
  match p with AUn n c r | ARet n c r => at_ b (c, r, n) | DRLock q | DRSub q | DBUn q => at_ b q | _ => [] end.
(* what the thread has added to reserved in excess *)
Definition pend (b : nat) (p : pc) : list nat := match p with ASub n c _ => if c =? b then [n] else [] | _ => [] end.
(* the size the thread asks for *)
Definition asks (p : pc) : option nat :=
  match p with
  | ARLock n | ARSub n | ALoad n | ABLock n _ | ABSub n _ | AAgain n | AAdd n _ | ASub n _ _ | ABUn n _ _ | AUp n | AFlush n | AGen n | ADown n | AUn n _ _ | ARet n _ _ => Some n
  | CStrict _ (KAlloc n) | CCur _ (KAlloc n) | CUp _ (KAlloc n) | CFlush _ (KAlloc n) | CCur2 _ (KAlloc n) | CReset _ (KAlloc n)
  | CUnlock _ (KAlloc n) | CDown (KAlloc n) | CDown2 _ (KAlloc n) | RLoad _ (KAlloc n) | RCas _ (KAlloc n) _ => Some n
  | _ => None
  end.

Lemma count_cons {A} (f : A -> bool) x l : count f (x :: l) = Nat.b2n (f x) + count f l.
Proof. unfold count. cbn [filter]. destruct (f x); reflexivity. Qed.
Lemma count_perm {A} (f : A -> bool) l l' : Permutation l l' -> count f l = count f l'.
Proof. induction 1 as [|x l l' _ IH|x y l|l l' l'' _ IH1 _ IH2]; rewrite ?count_cons; try lia. Qed.
Lemma count_le {A} (f g : A -> bool) l : (forall x, f x = true -> g x = true) -> count f l <= count g l.
Proof. intros H. induction l as [|x l IH]; [apply Nat.le_refl|]. rewrite !count_cons. specialize (H x). destruct (f x), (g x); cbn [Nat.b2n]; try lia. Qed.
Lemma count_none {A} (f : A -> bool) l : count f l = 0 -> forall x, In x l -> f x = false.
Proof. intros Z x H. apply In_nth_error in H. destruct H as [t H]. apply (count_zero f l Z t x H). Qed.
Lemma flat_map_perm {A B} (f : A -> list B) l l' : Permutation l l' -> Permutation (flat_map f l) (flat_map f l').
Proof. intros P. apply Permutation_flat_map. exact P. Qed.
Lemma flat_map_nil {A B} (f : A -> list B) l : (forall x, In x l -> f x = []) -> flat_map f l = [].
Proof. induction l as [|x l IH]; intros H; [reflexivity|]. cbn [flat_map]. rewrite H by (left; reflexivity). apply IH. intros y Hy. apply H. right. exact Hy. Qed.
Lemma upd_perm {A} (ts : list A) t p : nth_error ts t = Some p -> exists l, Permutation ts (p :: l) /\ forall p', Permutation (upd ts t p') (p' :: l).
Proof.
  revert t. induction ts as [|y ts IH]; intros [|t] H; try discriminate H; cbn [nth_error upd] in *.
  - injection H as ->. exists ts. split; [reflexivity|]. intros p'. reflexivity.
  - destruct (IH t H) as (l & P & Q). exists (y :: l). split.
    + rewrite P. apply perm_swap.
    + intros p'. rewrite (Q p'). apply perm_swap.
Qed.

(* ------------------------------------------------ the lock of the allocator ------------------------------------------------ *)
Definition lock_ok (l : lock) (ts : list pc) : Prop :=
  rd l = count reader ts /\ Nat.b2n (wr l) = count writer ts /\ (0 < count excl ts -> count inside ts <= 1).
Lemma lock_ok_perm l ts ts' : Permutation ts ts' -> lock_ok l ts -> lock_ok l ts'.
Proof. intros P. unfold lock_ok. rewrite !(count_perm _ _ _ P). exact (fun H => H). Qed.
Lemma inside_reader l : count inside l <= count reader l.
Proof. apply count_le. intros p H. apply andb_prop in H. apply H. Qed.
Lemma excl_writer l : count excl l <= count writer l.
Proof. apply count_le. intros p H. apply andb_prop in H. apply H. Qed.
Lemma writer_inside l : count writer l <= count inside l.
Proof. apply count_le. intros p H. destruct p; try discriminate H; reflexivity. Qed.

Lemma gen_bucket_lk s n a s' : gen_bucket s n a = Ok s' -> lk s' = lk s.
Proof.
  unfold gen_bucket. destruct (take_bucket (bk s) n (gc s) (tag s)) as [[[[m l] t] h]| |]; cbn [bind]; try discriminate.
  destruct h as [b|].
  - destruct (m b); [|discriminate]. intros H. injection H as <-. reflexivity.
  - intros H. injection H as <-. reflexivity.
Qed.

Lemma lock_step s p a s' p' l : exec s p a = Ok (s', p') -> lock_ok (lk s) (p :: l) -> lock_ok (lk s') (p' :: l).
Proof.
  intros H (R & W & X). rewrite !count_cons in *.
  pose proof (inside_reader l) as L1. pose proof (excl_writer l) as L2. pose proof (writer_inside l) as L3.
  assert (K : forall k, reader (return_to k) = true /\ inside (return_to k) = true /\ writer (return_to k) = false /\ excl (return_to k) = false) by (intros []; auto).
  unfold lock_ok. rewrite !count_cons.
  destruct p; unfold exec, with_bucket in H; cbn [bind] in H.
  all: repeat match type of H with
    | (let (_, _) := ?x in _) = _ => destruct x
    | match ?x with Some _ => _ | None => _ end = _ => destruct x as [x0|] eqn:?; [|discriminate H]
    | (if ?c then _ else _) = Ok _ => destruct c eqn:?
    | (do _ <- ?m; _) = _ => destruct m eqn:?; cbn [bind] in H; try discriminate H
    | UB = Ok _ => discriminate H
    end.
  all: try (injection H as <- <-).
  all: try match goal with E : gen_bucket _ _ _ = Ok _ |- _ => rewrite (gen_bucket_lk _ _ _ _ E) end.
  all: cbn [lk set_lk set_bk set_live add_reader sub_reader set_writer rd wr] in *.
  all: try match goal with |- context [return_to ?k] => destruct (K k) as (-> & -> & -> & ->) end.
  all: repeat match goal with |- context [if ?c then _ else _] => destruct c eqn:? end.
  all: cbn [reader inside writer excl andb Nat.b2n] in *.
  all: repeat match goal with E : wr _ = _ |- _ => rewrite E in *; clear E end.
  all: cbn [Nat.b2n] in *.
  all: repeat match goal with E : (_ <? _) = _ |- _ => first [apply Nat.ltb_lt in E | apply Nat.ltb_ge in E] end.
  all: try (repeat split; lia).
Qed.

(* ------------------------------------------------ the buckets ------------------------------------------------ *)
Definition cells (q : nat * nat) : list nat := seq (fst q) (snd q).
Definition view_ok (x : option bucket) (current : bool) (g : nat) (O : list (nat * nat)) (P : list nat) (h st us nm : nat) : Prop :=
  match x with
  | None => O = [] /\ nm = 0 /\ g = 0 /\ current = false
  | Some x =>
    rd (blk x) = length O + h /\ Nat.b2n (wr (blk x)) = st + g /\ (wr (blk x) = true -> O = [] /\ us = 0) /\
    length P <= us /\
    exists S, reserved x = S + list_sum P /\ S <= sz x /\ (forall n, In n P -> sz x < S + n) /\
      NoDup (flat_map cells O) /\ (forall r n, In (r, n) O -> r + n <= S)
  end.
Definition bucket_ok (s : sh) (ts : list pc) (b : nat) : Prop :=
  view_ok (bk s b) (cur s =? b) (count_occ Nat.eq_dec (gc s) b) (flat_map (at_ b) (live s) ++ flat_map (own b) ts) (flat_map (pend b) ts)
    (count (hold b) ts) (count (strict b) ts) (count (busy b) ts) (count (names b) ts).
Lemma list_sum_perm l l' : Permutation l l' -> list_sum l = list_sum l'.
Proof. induction 1; unfold list_sum in *; cbn [fold_right] in *; lia. Qed.
Lemma view_perm x c g O O' P P' h st us nm : Permutation O O' -> Permutation P P' -> view_ok x c g O P h st us nm -> view_ok x c g O' P' h st us nm.
Proof.
  intros PO PP. unfold view_ok. destruct x as [x|].
  - intros (A & B & C & L & S & D & E & F & G & H). rewrite <- (Permutation_length PO), <- (Permutation_length PP), <- (list_sum_perm _ _ PP).
    repeat (split; [assumption|]). split; [|split; [exact L|]].
    + intros W. destruct (C W) as (-> & U). split; [|exact U]. apply Permutation_nil in PO. exact PO.
    + exists S. split; [exact D|]. split; [exact E|]. split; [intros n Hn; apply F; eapply Permutation_in; [symmetry; exact PP|exact Hn]|].
      split; [eapply Permutation_NoDup; [apply flat_map_perm; exact PO|exact G]|].
      intros r n Hn. apply H. eapply Permutation_in; [symmetry; exact PO|exact Hn].
  - intros (-> & N). split; [apply Permutation_nil in PO; exact PO|exact N].
Qed.
Lemma bucket_ok_perm s ts ts' b : Permutation ts ts' -> bucket_ok s ts b -> bucket_ok s ts' b.
Proof.
  intros P. unfold bucket_ok. rewrite !(count_perm _ _ _ P). apply view_perm.
  - apply Permutation_app_head, flat_map_perm, P.
  - apply flat_map_perm, P.
Qed.

(* _genBucket, when no other thread is inside *)
Lemma names_inside b p : names b p = true -> inside p = true.
Proof. destruct p; try discriminate; reflexivity. Qed.
Lemma outside_view b l : count inside l = 0 -> flat_map (pend b) l = [] /\ count (hold b) l = 0 /\ count (strict b) l = 0 /\ count (busy b) l = 0 /\ count (names b) l = 0.
Proof.
  intros Z. pose proof (count_none _ _ Z) as N.
  assert (Q : count (names b) l = 0) by (pose proof (count_le (names b) inside l (names_inside b)); lia).
  split; [|split; [|split; [|split; [|exact Q]]]].
  - apply flat_map_nil. intros p Hp. specialize (N p Hp). destruct p; try reflexivity; discriminate N.
  - assert (K : count (hold b) l <= count (names b) l) by (apply count_le; intros q E; unfold names; rewrite E; reflexivity). lia.
  - assert (K : count (strict b) l <= count (names b) l) by (apply count_le; intros q E; unfold names; rewrite E, orb_true_r; reflexivity). lia.
  - assert (K : count (busy b) l <= count (names b) l) by (apply count_le; intros q E; destruct q; try discriminate E; unfold names; cbn [hold busy] in *; rewrite E; reflexivity). lia.
Qed.
Lemma take_bucket_ok m num l t m' l' t' hold : take_bucket m num l t = Ok (m', l', t', hold) ->
  forall O b, (forall b, view_ok (m b) false (count_occ Nat.eq_dec l b) (O b) [] 0 0 0 0) ->
  match hold with
  | None => view_ok (m' b) false (count_occ Nat.eq_dec l' b) (O b) [] 0 0 0 0 /\ l' = []
  | Some c => view_ok (m' b) false (count_occ Nat.eq_dec (c :: l') b) (O b) [] 0 0 0 0 /\ exists x, m' c = Some x /\ num <= sz x
  end.
Proof.
  revert m t. induction l as [|c l IH]; intros m t H O b V; cbn [take_bucket] in H.
  - injection H as <- <- <- <-. split; [apply V|reflexivity].
  - destruct (m c) as [x|] eqn:E; [|discriminate H]. destruct (Nat.ltb_spec (sz x) num) as [L|L].
    + apply (IH _ _ H O b). intros d. specialize (V d). cbn [count_occ] in V. destruct (Nat.eq_dec c d) as [<-|N].
      * rewrite Nat.eqb_refl. rewrite E in V. destruct V as (A & B & C & _). destruct (wr (blk x)); cbn [Nat.b2n] in B; [|lia].
        destruct (C eq_refl) as (-> & _). repeat split; lia.
      * destruct (Nat.eqb_spec d c); [congruence|]. exact V.
    + injection H as <- <- <- <-. split; [apply V|]. exists x. split; [exact E|exact L].
Qed.
Lemma take_bucket_def m num l t : (forall b, In b l -> m b <> None) -> NoDup l -> exists y, take_bucket m num l t = Ok y.
Proof.
  revert m t. induction l as [|c l IH]; intros m t D N; cbn [take_bucket]; [eexists; reflexivity|].
  destruct (m c) as [x|] eqn:E; [|destruct (D c); [left; reflexivity|exact E]]. inversion N as [|? ? Nc N']; subst.
  destruct (sz x <? num); [|eexists; reflexivity]. apply IH; [|exact N'].
  intros b Hb. destruct (Nat.eqb_spec b c) as [->|Q]; [contradiction|]. apply D. right. exact Hb.
Qed.
Lemma gc_nodup s ts : (forall b, bucket_ok s ts b) -> NoDup (gc s) /\ forall b, In b (gc s) -> bk s b <> None.
Proof.
  intros B. assert (Q : forall b, In b (gc s) -> bk s b <> None /\ count_occ Nat.eq_dec (gc s) b <= 1).
  { intros b Hb. specialize (B b). unfold bucket_ok, view_ok in B. apply (count_occ_In Nat.eq_dec) in Hb.
    destruct (bk s b) as [x|]; [|lia]. split; [discriminate|]. destruct B as (_ & B & _). destruct (wr (blk x)); cbn [Nat.b2n] in B; lia. }
  split; [|intros b Hb; apply Q, Hb]. apply (NoDup_count_occ Nat.eq_dec). intros b.
  destruct (in_dec Nat.eq_dec b (gc s)) as [I|I]; [apply Q, I|]. apply (count_occ_not_In Nat.eq_dec) in I. lia.
Qed.
Lemma gen_bucket_ok s n a s' l : gen_bucket s n a = Ok s' ->
  (forall m l t, take_bucket (bk s) n (gc s) (tag s) = Ok (m, l, t, None) -> m a = None) ->
  count inside l = 0 -> (forall b, bucket_ok s (AGen n :: l) b) ->
  (forall b, bucket_ok s' (ADown n :: l) b) /\ exists x, bk s' (cur s') = Some x /\ wr (blk x) = false /\ reserved x = 0 /\ n <= sz x.
Proof.
  intros H F Z V. unfold gen_bucket in H.
  destruct (take_bucket (bk s) n (gc s) (tag s)) as [[[[m g] t] h]| |] eqn:T; cbn [bind] in H; try discriminate H.
  set (O := fun b => flat_map (at_ b) (live s) ++ flat_map (own b) l).
  assert (V' : forall b, view_ok (bk s b) false (count_occ Nat.eq_dec (gc s) b) (O b) [] 0 0 0 0).
  { intros b. specialize (V b). unfold bucket_ok in V. rewrite !count_cons in V. cbn [hold strict busy names orb Nat.b2n flat_map own pend app] in V.
    destruct (outside_view b l Z) as (E1 & E2 & E3 & E4 & E5). rewrite E1, E2, E3, E4, E5 in V.
    unfold view_ok in *. destruct (bk s b); [exact V|]. destruct V as (A & B & C & D). auto. }
  pose proof (fun b => take_bucket_ok _ _ _ _ _ _ _ _ T O b V') as R.
  assert (FIN : forall sn, live sn = live s -> (forall b, view_ok (bk sn b) (cur sn =? b) (count_occ Nat.eq_dec (gc sn) b) (O b) [] 0 0 0 0) -> forall b, bucket_ok sn (ADown n :: l) b).
  { intros sn EL Q b. specialize (Q b). unfold bucket_ok. rewrite !count_cons. cbn [hold strict busy names orb Nat.b2n flat_map own pend app]. rewrite EL.
    destruct (outside_view b l Z) as (-> & -> & -> & -> & ->). exact Q. }
  assert (CUR : forall (x : bucket) b0 b, b <> b0 -> forall y g O, view_ok y false g O [] 0 0 0 0 -> view_ok y (b0 =? b) g O [] 0 0 0 0).
  { intros x b0 b N y g0 O0. destruct (Nat.eqb_spec b0 b); [congruence|]. exact (fun W => W). }
  destruct h as [c|].
  - destruct (m c) as [x|] eqn:E; [|discriminate H]. injection H as <-. split.
    + apply FIN; [reflexivity|]. intros b. cbn [bk cur gc]. destruct (R b) as (R1 & _). cbn [count_occ] in R1. destruct (Nat.eqb_spec b c) as [->|N].
      * destruct (Nat.eq_dec c c) as [_|]; [|congruence]. rewrite E in R1. destruct R1 as (A & B & C & D & S & _). rewrite Nat.eqb_refl.
        destruct (wr (blk x)); cbn [Nat.b2n] in B; [|lia]. destruct (C eq_refl) as (OC & _). rewrite OC in *. cbn [set_writer blk rd wr Nat.b2n length sz reserved] in *.
        split; [exact A|]. split; [cbn; lia|]. split; [intros Q; discriminate Q|]. split; [exact D|]. exists 0. split; [reflexivity|]. split; [lia|]. split; [intros ? []|]. split; [constructor|]. intros ? ? [].
      * destruct (Nat.eq_dec c b) as [|_]; [congruence|]. apply (CUR x); [exact N|exact R1].
    + destruct (R c) as (_ & x' & E' & L). injection E' as <-. cbn [bk cur]. rewrite Nat.eqb_refl. eexists. split; [reflexivity|]. cbn. auto.
  - injection H as <-. split.
    + apply FIN; [reflexivity|]. intros b. cbn [bk cur gc]. destruct (R b) as (R1 & ->). destruct (Nat.eqb_spec b a) as [->|N].
      * rewrite (F _ _ _ eq_refl) in R1. destruct R1 as (-> & _). rewrite Nat.eqb_refl. cbn. repeat split; try lia; try discriminate.
        exists 0. repeat split; try lia; try constructor; intros ? [].
      * apply (CUR (mkbucket 0 0 free_lock)); [exact N|exact R1].
    + cbn [bk cur]. rewrite Nat.eqb_refl. eexists. split; [reflexivity|]. cbn [blk wr free_lock reserved sz]. repeat split.
      pose proof (fbnext_nat_gt (Nat.max (lastsize s) n)). lia.
Qed.

Lemma nodup_app {A} (l1 l2 : list A) : NoDup l1 -> NoDup l2 -> (forall a, In a l1 -> In a l2 -> False) -> NoDup (l1 ++ l2).
Proof.
  induction l1 as [|a l1 IH]; intros D1 D2 N; [exact D2|]. inversion D1 as [|? ? Na D]; subst. cbn [app]. constructor.
  - intros H. apply in_app_or in H. destruct H as [H|H]; [contradiction|]. apply (N a); [left; reflexivity|exact H].
  - apply IH; [exact D|exact D2|]. intros c H1 H2. apply (N c); [right; exact H1|exact H2].
Qed.
Lemma seq_cells S r n O : NoDup (flat_map cells O) -> (forall r n, In (r, n) O -> r + n <= S) -> S <= r -> NoDup (flat_map cells ((r, n) :: O)).
Proof.
  intros D B L. cbn [flat_map]. apply nodup_app; [apply seq_NoDup|exact D|]. intros c H1 H2. apply in_seq in H1. apply in_flat_map in H2.
  destruct H2 as ([r' n'] & H2 & H3). apply in_seq in H3. specialize (B _ _ H2). cbn [fst snd] in *. lia.
Qed.
Lemma return_view b k : hold b (return_to k) = false /\ strict b (return_to k) = false /\ busy b (return_to k) = false /\ names b (return_to k) = false /\ own b (return_to k) = [] /\ pend b (return_to k) = [].
Proof. destruct k; auto 10. Qed.
Lemma view_names x c g O P h st us nm nm' : view_ok x c g O P h st us nm -> (x = None -> nm' = 0) -> view_ok x c g O P h st us nm'.
Proof. unfold view_ok. destruct x; [auto|]. intros (A & _ & B) N. auto. Qed.
Lemma in_view_app {A} (x : A) l1 l2 : Permutation (l1 ++ x :: l2) (x :: l1 ++ l2).
Proof. symmetry. apply Permutation_middle. Qed.

Lemma pend_busy b l : length (flat_map (pend b) l) <= count (busy b) l.
Proof.
  induction l as [|p l IH]; [apply Nat.le_refl|]. cbn [flat_map]. rewrite count_cons, app_length.
  assert (length (pend b p) <= Nat.b2n (busy b p)); [|lia]. destruct p; cbn; try lia. destruct (b0 =? b); cbn; lia.
Qed.
Ltac split_bucket b s Vb :=
  repeat match goal with |- context [?x =? b] => lazymatch x with cur s => fail | _ => rewrite (Nat.eqb_sym x b) in * end end;
  repeat match type of Vb with context [?x =? b] => lazymatch x with cur s => fail | _ => rewrite (Nat.eqb_sym x b) in * end end;
  match goal with |- context [b =? ?c] => destruct (Nat.eqb_spec b c) as [->|NE] | _ => idtac end; cbn [Nat.b2n app] in *; rewrite ?Nat.add_0_l in *;
  try exact Vb;
  try (match goal with E : bk s _ = Some _ |- _ => rewrite E in * end; destruct Vb as (A & B & C & L & S & D & E' & F & G & I); cbn [view_ok set_blk set_reserved add_reader sub_reader set_writer rd wr blk sz reserved list_sum fold_right] in * ).
Lemma bucket_step s p a s' p' l : exec s p a = Ok (s', p') -> (forall n, p <> AGen n) ->
  (forall n c, p = AAdd n c -> forall m, In m (flat_map (pend c) l) -> m = n) ->
  (forall b, bucket_ok s (p :: l) b) -> forall b, bucket_ok s' (p' :: l) b.
Proof.
  intros H NG U V b. pose proof (V b) as Vb. clear V. unfold bucket_ok in *. rewrite !count_cons in *. cbn [flat_map] in *.
  pose proof (return_view b) as K.
  assert (U' : forall n c, p = AAdd n c -> c = b -> forall m, In m (flat_map (pend b) l) -> m = n) by (intros n c E <-; apply (U n c E)).
  clear U. rename U' into U.
  destruct p; unfold exec, with_bucket in H; cbn [bind] in H; try (destruct (NG n eq_refl)).
  all: repeat match type of H with
    | (let (_, _) := ?x in _) = _ => destruct x
    | match ?x with Some _ => _ | None => _ end = _ => destruct x as [x0|] eqn:?; [|discriminate H]
    | (if ?c then _ else _) = Ok _ => destruct c eqn:?
    | UB = Ok _ => discriminate H
    end.
  all: injection H as <- <-.
  all: cbn [bk gc cur live set_lk set_bk set_live flat_map] in *.
  all: try match goal with |- context [return_to ?k] => destruct (K k) as (-> & -> & -> & -> & -> & ->) end.
  all: repeat match goal with |- context [match (if ?c then _ else _) with _ => _ end] => destruct c eqn:? | |- context [own _ (if ?c then _ else _)] => destruct c eqn:? end.
  all: unfold names in *; cbn [hold strict busy own pend orb Nat.b2n app] in *.
  all: try exact Vb.
  all: match type of Vb with view_ok _ _ _ (?o ++ _) (_ ++ ?q) (_ + ?h) (_ + ?st) (_ + ?us) (_ + ?nm) => set (O1 := o) in *; set (P0 := q) in *; set (h0 := h) in *; set (st0 := st) in *; set (us0 := us) in *; set (nm0 := nm) in * end || match type of Vb with view_ok _ _ _ (?o ++ _) ?q (_ + ?h) (_ + ?st) (_ + ?us) (_ + ?nm) => set (O1 := o) in *; set (P0 := q) in *; set (h0 := h) in *; set (st0 := st) in *; set (us0 := us) in *; set (nm0 := nm) in * end.
  all: set (O2 := flat_map (own b) l) in *.
  all: assert (PB : length P0 <= us0) by (unfold P0, us0; apply pend_busy).
  all: assert (UH : us0 <= h0) by (unfold h0, us0; apply count_le; intros [] Q; try discriminate Q; exact Q).
  all: clearbody P0 h0 st0 us0 nm0 O1 O2.
  all: repeat rewrite ?orb_false_r, ?orb_false_l in *; unfold at_ in *.
  all: split_bucket b s Vb.
  (* nothing but the number of threads that name the bucket has changed *)
  all: try (apply (view_names _ _ _ _ _ _ _ _ _ _ Vb); intros Q; rewrite Q in Vb; destruct Vb as (_ & Vn & _ & Vc); try rewrite Vc in *; cbn [Nat.b2n] in *; lia).
  (* only the reader and writer counts of the bucket have changed *)
  all: try (split; [lia|]; split; [exact B|]; split; [first [exact C | intros W; destruct (C W) as (? & ?); lia | intros W; destruct (C W) as (? & ?); split; [assumption|lia] | intros W; congruence]|]; split; [lia|]; exists S; auto; fail).
  - (* AAdd, over the limit *)
    assert (WF : wr (blk x0) = false) by (destruct (wr (blk x0)); [destruct (C eq_refl); lia|reflexivity]).
    split; [lia|]. split; [exact B|]. split; [intros W; congruence|]. split; [cbn [length]; lia|].
    exists S. unfold list_sum in *. split; [lia|]. split; [exact E'|]. split; [|split; [exact G|exact I]].
    apply Nat.ltb_lt in Heqb1. intros m [<-|Hm]; [|apply F, Hm]. destruct P0 as [|q P0].
    + cbn in D. lia.
    + pose proof (U n b0 eq_refl eq_refl q (or_introl eq_refl)) as ->. apply F. left. reflexivity.
  - (* AAdd, within the limit *)
    assert (WF : wr (blk x0) = false) by (destruct (wr (blk x0)); [destruct (C eq_refl); lia|reflexivity]).
    apply Nat.ltb_ge in Heqb1. destruct P0 as [|q P0].
    2: { pose proof (U n b0 eq_refl eq_refl q (or_introl eq_refl)) as ->. specialize (F n (or_introl eq_refl)). lia. }
    cbn in D. split; [rewrite app_length in *; cbn [length]; lia|]. split; [exact B|]. split; [intros W; congruence|]. split; [cbn; lia|].
    exists (S + n). split; [cbn; lia|]. split; [lia|]. split; [intros ? []|]. split.
    + eapply Permutation_NoDup; [apply flat_map_perm, Permutation_middle|]. apply (seq_cells S); [exact G|exact I|lia].
    + intros r m Hm. apply (Permutation_in _ (in_view_app _ _ _)) in Hm. destruct Hm as [Hm|Hm]; [injection Hm as <- <-; lia|]. specialize (I r m Hm). lia.
  - (* ASub *)
    assert (WF : wr (blk x0) = false) by (destruct (wr (blk x0)); [destruct (C eq_refl); lia|reflexivity]).
    split; [lia|]. split; [exact B|]. split; [intros W; congruence|]. split; [lia|].
    exists S. unfold list_sum in *. split; [lia|]. split; [exact E'|]. split; [|split; [exact G|exact I]]. intros m Hm. apply F. right. exact Hm.
  - (* ARet *)
    apply (view_perm (Some x0) false _ (O1 ++ (r, n) :: O2) ((r, n) :: O1 ++ O2) P0 P0 h0 st0 us0 0); [symmetry; apply Permutation_middle|reflexivity|].
    repeat (split; [assumption|]). exists S. auto.
  - (* DBUn *)
    rewrite app_length in *. cbn [length] in A.
    assert (WF : wr (blk x0) = false) by (destruct (wr (blk x0)); [destruct (C eq_refl) as (Q & _); destruct O1; discriminate Q|reflexivity]).
    split; [lia|]. split; [exact B|]. split; [intros W; congruence|]. split; [exact L|].
    exists S. split; [exact D|]. split; [exact E'|]. split; [exact F|]. split.
    + apply (Permutation_NoDup (flat_map_perm cells _ _ (in_view_app _ _ _))) in G. cbn [flat_map] in G. clear - G.
      match type of G with NoDup (?cs ++ _) => induction cs as [|c k IH] end; [exact G|]. apply IH. cbn [app] in G. inversion G; assumption.
    + intros r m Hm. apply I. apply in_app_or in Hm. apply in_or_app. destruct Hm; [left|right; right]; assumption.
  - (* CStrict *)
    apply andb_prop in Heqb1. destruct Heqb1 as (W & R). apply negb_true_iff in W. apply Nat.eqb_eq in R. rewrite W in *. cbn [Nat.b2n] in *.
    assert (LO : length (O1 ++ O2) = 0) by lia. split; [lia|]. split; [lia|]. split; [intros _; split; [apply length_zero_iff_nil, LO|lia]|]. split; [exact L|]. exists S. auto.
  - (* CReset *)
    destruct (wr (blk x0)) eqn:W; cbn [Nat.b2n] in *; [|lia]. destruct (C eq_refl) as (OE & UE). assert (P0 = []) as -> by (apply length_zero_iff_nil; lia).
    split; [exact A|]. split; [exact B|]. split; [exact C|]. split; [exact L|]. exists 0. rewrite OE. split; [reflexivity|]. split; [lia|]. split; [intros ? []|]. split; [constructor|intros ? ? []].
  - (* CUnlock *)
    destruct (wr (blk x0)) eqn:W; cbn [Nat.b2n] in *; [|lia]. split; [exact A|]. split; [lia|]. split; [intros Q; discriminate Q|]. split; [exact L|]. exists S. auto.
  - (* RCas *)
    cbn [count_occ]. destruct (Nat.eq_dec b0 b) as [->|N].
    + rewrite Nat.eqb_refl in Vb. match goal with E : bk s b = Some _ |- _ => rewrite E in * end. destruct Vb as (A & B & C & D). cbn [Nat.b2n] in *. split; [exact A|]. split; [lia|]. split; [exact C|exact D].
    + destruct (Nat.eqb_spec b b0) as [|_]; [congruence|]. exact Vb.
Qed.

(* ------------------------------------------------ the current bucket ------------------------------------------------ *)
Definition near (c : nat) (p : pc) : Prop :=
  match p with CUp b _ | CFlush b _ | CCur2 b _ | CReset b _ | CUnlock b _ => b = c | CDown2 _ _ => False | _ => True end.
(* will unlock or replace the current bucket *)
Definition fixer (c : nat) (p : pc) : bool :=
  match p with CCur b _ | CUp b _ | CFlush b _ | CCur2 b _ | CReset b _ | CUnlock b _ => b =? c | AFlush _ | AGen _ => true | _ => false end.
Definition cur_ok (s : sh) (ts : list pc) : Prop :=
  (forall p, In p ts -> near (cur s) p) /\
  (forall x, bk s (cur s) = Some x -> wr (blk x) = true -> 0 < count (fixer (cur s)) ts).
Lemma cur_ok_perm s ts ts' : Permutation ts ts' -> cur_ok s ts -> cur_ok s ts'.
Proof.
  intros P (A & B). split.
  - intros p Hp. apply A. eapply Permutation_in; [symmetry; exact P|exact Hp].
  - intros x. rewrite <- (count_perm _ _ _ P). apply B.
Qed.
Lemma near_outside c p : inside p = false -> near c p.
Proof. destruct p; try discriminate; exact (fun _ => I). Qed.
Lemma near_return c k : near c (return_to k).
Proof. destruct k; exact I. Qed.
Lemma count_pos {A} (f : A -> bool) l : 0 < count f l -> exists x, In x l /\ f x = true.
Proof.
  induction l as [|x l IH]; [intros H; inversion H|]. rewrite count_cons. destruct (f x) eqn:E; [exists x; split; [left; reflexivity|exact E]|].
  intros H. destruct (IH H) as (y & Hy & Ey). exists y. split; [right; exact Hy|exact Ey].
Qed.
Lemma count_ge {A} (f : A -> bool) l x : In x l -> f x = true -> 1 <= count f l.
Proof. intros H E. apply In_nth_error in H. destruct H as [t H]. apply (count_in f l t x H E). Qed.

Ltac same_bucket SAME W' s c :=
  apply SAME; [eexists; split; [first [eassumption | match goal with E : bk s ?d = Some _ |- _ => replace c with d by (symmetry; first [assumption | apply Nat.eqb_eq; assumption]); exact E end]|exact W']|];
  cbn [fixer] in *; try (right; reflexivity); try (left; reflexivity); tauto.
Lemma cur_step s p a s' p' l : exec s p a = Ok (s', p') -> (forall n, p <> AGen n) -> lock_ok (lk s) (p :: l) ->
  (forall b, bucket_ok s (p :: l) b) -> cur_ok s (p :: l) -> cur_ok s' (p' :: l).
Proof.
  intros H NG LK V (N & W).
  assert (CS : cur s' = cur s).
  { destruct p; unfold exec, with_bucket in H; try (destruct (NG n eq_refl)).
    all: repeat match type of H with
    | (let (_, _) := ?x in _) = _ => destruct x
    | match ?x with Some _ => _ | None => _ end = _ => destruct x as [x0|] eqn:?; [|discriminate H]
    | (if ?c then _ else _) = Ok _ => destruct c eqn:?
    | UB = Ok _ => discriminate H
    end; injection H as <- <-; reflexivity. }
  pose proof (N p (or_introl eq_refl)) as Np.
  assert (NO : forall q, In q l -> near (cur s) q) by (intros q Hq; apply N; right; exact Hq).
  unfold cur_ok. rewrite CS. rewrite count_cons in W.
  (* it is enough to look at the thread that moves *)
  assert (RED : near (cur s) p' -> 
     (forall x', bk s' (cur s) = Some x' -> wr (blk x') = true -> fixer (cur s) p' = true \/ 0 < count (fixer (cur s)) l \/
        (fixer (cur s) p = false /\ exists x, bk s (cur s) = Some x /\ wr (blk x) = true)) ->
     (forall q, In q (p' :: l) -> near (cur s) q) /\
     (forall x, bk s' (cur s) = Some x -> wr (blk x) = true -> 0 < count (fixer (cur s)) (p' :: l))).
  { intros N1 Q. split.
    - intros q [<-|Hq]; [exact N1|apply NO, Hq].
    - intros x' E' W'. rewrite count_cons. destruct (Q x' E' W') as [->|[G|(F & x & E & Wx)]]; [cbn [Nat.b2n]; lia|lia|].
      specialize (W x E Wx). rewrite F in W. cbn [Nat.b2n] in W. lia. }
  apply RED; clear RED.
  - (* near *)
    destruct p; unfold exec, with_bucket in H; try (destruct (NG n eq_refl)).
    all: repeat match type of H with
      | (let (_, _) := ?x in _) = _ => destruct x
      | match ?x with Some _ => _ | None => _ end = _ => destruct x as [x0|] eqn:?; [|discriminate H]
      | (if ?c then _ else _) = Ok _ => destruct c eqn:?
      | UB = Ok _ => discriminate H
      end.
    all: injection H as <- <-; try apply near_return; try exact I.
    all: repeat match goal with |- near _ (if ?c then _ else _) => destruct c eqn:? end; try exact I; cbn [near] in *; try assumption.
    + apply Nat.eqb_eq. assumption.
    + subst b. rewrite Nat.eqb_refl in *. discriminate.
  - intros x' E' W'. set (c := cur s) in *.
    assert (SAME : (exists x, bk s c = Some x /\ wr (blk x) = true) -> fixer c p' = true \/ fixer c p = false -> fixer c p' = true \/ 0 < count (fixer c) l \/ (fixer c p = false /\ exists x, bk s c = Some x /\ wr (blk x) = true)) by tauto.
    destruct p; unfold exec, with_bucket in H; try (destruct (NG n eq_refl)).
    all: repeat match type of H with
      | (let (_, _) := ?x in _) = _ => destruct x
      | match ?x with Some _ => _ | None => _ end = _ => destruct x as [x0|] eqn:?; [|discriminate H]
      | (if ?c then _ else _) = Ok _ => destruct c eqn:?
      | UB = Ok _ => discriminate H
      end.
    all: injection H as <- <-; cbn [bk set_bk set_lk set_live] in E'.
    all: try (destruct (Nat.eqb_spec c b) as [QB|QB]).
    all: try (injection E' as <-; cbn [blk set_blk set_reserved wr set_writer add_reader sub_reader] in W').
    all: try discriminate W'.
    all: try (same_bucket SAME W' s c).
    all: cbn [fixer near] in *.
    all: change (cur s) with c.
    all: try (destruct (1 <? rd (lk s)); left; reflexivity).
    all: try (left; apply Nat.eqb_eq; symmetry; exact QB).
    all: try (destruct (Nat.eqb_spec b c) as [QC|QC]; [try (left; cbn [fixer]; apply Nat.eqb_eq; exact QC)|right; right; split; [reflexivity|eexists; split; [exact E'|exact W']]]).
    all: try (destruct (1 <? rd (lk s)); left; cbn [fixer]; apply Nat.eqb_eq; congruence).
    all: try (right; right; split; [reflexivity|eexists; split; [eassumption|eassumption]]).
    all: try (left; reflexivity).
    all: try (exfalso; apply QB; symmetry; assumption).
    { right. right. split; [reflexivity|]. match type of E' with (if ?d then _ else _) = _ => destruct d eqn:Q end.
      - injection E' as <-. cbn [blk set_blk wr sub_reader] in W'. apply Nat.eqb_eq in Q. eexists. split; [rewrite Q; eassumption|exact W'].
      - exists x'. split; assumption. }
    (* another thread has the writer flag *)
    all: right; left.
    all: destruct LK as (_ & W2 & X); rewrite !count_cons in *; cbn [writer inside excl reader andb Nat.b2n] in *.
    all: rewrite Heqb0 in W2; cbn [Nat.b2n] in W2.
    all: destruct (count_pos writer l ltac:(lia)) as (q & Hq & Wq).
    all: destruct (fixer c q) eqn:Fq; [apply (count_ge _ _ _ Hq Fq)|exfalso].
    all: pose proof (NO q Hq) as Nq; pose proof (count_ge inside l q Hq) as Iq; pose proof (count_ge excl l q Hq) as Xq.
    all: destruct q; try discriminate Wq; try discriminate Fq; cbn [near fixer inside excl reader writer andb] in *; try (specialize (Iq eq_refl); specialize (Xq eq_refl); lia).
    all: subst; rewrite Nat.eqb_refl in Fq; discriminate.
Qed.

(* ------------------------------------------------ nothing undefined ------------------------------------------------ *)
Lemma names_def s p l b : bucket_ok s (p :: l) b -> names b p = true -> exists x, bk s b = Some x.
Proof.
  unfold bucket_ok. rewrite !count_cons. intros V N. rewrite N in V. destruct (bk s b) as [x|]; [exists x; reflexivity|].
  destruct V as (_ & Z & _). cbn [Nat.b2n] in Z. lia.
Qed.
Lemma own_def s p l b r n : bucket_ok s (p :: l) b -> In (r, n) (own b p) -> exists x, bk s b = Some x /\ r + n <= sz x.
Proof.
  unfold bucket_ok. cbn [flat_map]. intros V I.
  assert (J : In (r, n) (flat_map (at_ b) (live s) ++ own b p ++ flat_map (own b) l)) by (apply in_or_app; right; apply in_or_app; left; exact I).
  destruct (bk s b) as [x|].
  - exists x. split; [reflexivity|]. destruct V as (_ & _ & _ & _ & S & _ & L & _ & _ & Q). specialize (Q _ _ J). lia.
  - destruct V as (Z & _). rewrite Z in J. destruct J.
Qed.
Lemma at_self b r n : In (r, n) (at_ b (b, r, n)).
Proof. cbn. rewrite Nat.eqb_refl. left. reflexivity. Qed.
Ltac named_bucket s l V :=
  match goal with |- exists y, match bk s ?b with _ => _ end = _ => destruct (names_def s _ l b (V b)) as (x & E); [unfold names; cbn [hold strict]; rewrite ?Nat.eqb_refl, ?orb_true_r; reflexivity|rewrite E] end.
Lemma exec_def s p a l : (forall b, bucket_ok s (p :: l) b) -> exists y, exec s p a = Ok y.
Proof.
  intros V. destruct p; unfold exec, with_bucket.
  all: try (named_bucket s l V).
  all: repeat match goal with |- exists y, (if ?c then _ else _) = _ => destruct c end.
  all: try (eexists; reflexivity).
  - unfold gen_bucket. destruct (gc_nodup _ _ V) as (ND & D).
    destruct (take_bucket_def (bk s) n (gc s) (tag s) D ND) as ([[[m g] t] h] & T). rewrite T. cbn [bind].
    destruct h as [c|]; [|eexists; reflexivity].
    assert (Q : exists x, m c = Some x).
    { clear V D ND. revert T. generalize (bk s) (tag s). induction (gc s) as [|d k IH]; intros f tg T; cbn [take_bucket] in T; [discriminate T|].
      destruct (f d) as [x|] eqn:E; [|discriminate T]. destruct (sz x <? n); [apply (IH _ _ T)|]. injection T as <- _ _ <-. exists x. exact E. }
    destruct Q as (x & ->). eexists. reflexivity.
  - destruct (own_def s (ARet n b r) l b r n (V b) (at_self b r n)) as (x & -> & L). apply Nat.leb_le in L. rewrite L. eexists. reflexivity.
  - destruct p as [[b r] n]. destruct (own_def s (DBUn (b, r, n)) l b r n (V b) (at_self b r n)) as (x & -> & L). eexists. reflexivity.
Qed.

Lemma asks_step s p a s' p' : exec s p a = Ok (s', p') -> (asks p' = asks p \/ asks p' = None) /\
  (live s' = live s \/ exists b r n, p = ARet n b r /\ live s' = (b, r, n) :: live s).
Proof.
  intros H. destruct p; unfold exec, with_bucket in H; cbn [bind] in H.
  all: repeat match type of H with
    | (let (_, _) := ?x in _) = _ => destruct x
    | match ?x with Some _ => _ | None => _ end = _ => destruct x as [x0|] eqn:?; [|discriminate H]
    | (if ?c then _ else _) = Ok _ => destruct c eqn:?
    | (do _ <- ?m; _) = _ => destruct m eqn:?; cbn [bind] in H; try discriminate H
    | UB = Ok _ => discriminate H
    end.
  all: injection H as <- <-.
  all: repeat match goal with |- context [if ?c then _ else _] => destruct c end.
  all: try (match goal with k : caller |- _ => destruct k end).
  all: split; try (left; reflexivity); try (right; reflexivity); try (right; eexists _, _, _; split; reflexivity).
  left. match goal with E : gen_bucket _ _ _ = Ok _ |- _ => revert E end. unfold gen_bucket. destruct (take_bucket (bk s) n (gc s) (tag s)) as [[[[m g] t] h]| |]; cbn [bind]; try discriminate.
  destruct h as [c|]; [destruct (m c); [|discriminate]|]; intros E; injection E as <-; reflexivity.
Qed.
