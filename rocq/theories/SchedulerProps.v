(* Property C57: the scheduler calls the events that are due, in time order, and keeps the others. *)
From Coq Require Import List ZArith Bool Permutation Lia.
From Coq Require Import ZifyBool ZifyNat.
From Verif Require Import Common OrderSpec OrderProofs Heap HeapSpec HeapProofs HeapOpsProofs HeapProps Scheduler.
Import ListNotations.
Local Open Scope Z_scope.

(* ------------------------------------------------ specification ------------------------------------------------ *)
Section Spec.
Context {F W : Type} (call : F -> W -> Z * W).
Definition due (now : Z) (e : Z * F) : bool := fst e <=? now.
Definition in_time_order (es : list (Z * F)) : Prop := forall i j a b, (i < j)%nat -> nth_error es i = Some a -> nth_error es j = Some b -> fst a <= fst b.
(* calling the events one after the other: an event that returns r <> 0 is to happen again r after now, one that returns 0
   is forgotten *)
Fixpoint fire (now : Z) (es : list (Z * F)) (w : W) : list (Z * F) * W :=
  match es with
  | [] => ([], w)
  | (_, f) :: es =>
      let (r, w) := call f w in
      let (kept, w) := fire now es w in
      (if r =? 0 then kept else (r + now, f) :: kept, w)
  end.
(* the pending events, the clock and the world before and after a call; the world changes by the events only *)
Inductive op := OAdd (t : Z) (f : F) | OUpdate (d : Z).
(* an update at time now turns pending into pending' and w into w' *)
Definition updates (now : Z) (pending pending' : list (Z * F)) (w w' : W) : Prop :=
  exists order, Permutation order (filter (due now) pending) /\ in_time_order order /\
    pending' = filter (fun e => negb (due now e)) pending ++ fst (fire now order w) /\ w' = snd (fire now order w).
Inductive spec_run : list op -> Z -> list (Z * F) -> W -> Z -> list (Z * F) -> W -> Prop :=
| sr_nil t p w : spec_run [] t p w t p w
| sr_add ops t p w dt f t' p' w' : spec_run ops t ((dt + t, f) :: p) w t' p' w' -> spec_run (OAdd dt f :: ops) t p w t' p' w'
| sr_update ops t p w d p1 w1 t' p' w' : updates (t + d) p p1 w w1 -> p1 <> [] -> spec_run ops (t + d) p1 w1 t' p' w' -> spec_run (OUpdate d :: ops) t p w t' p' w'.
(* a run that comes to an update that leaves nothing pending *)
Inductive spec_drained : list op -> Z -> list (Z * F) -> W -> Prop :=
| sd_add ops t p w dt f : spec_drained ops t ((dt + t, f) :: p) w -> spec_drained (OAdd dt f :: ops) t p w
| sd_here ops t p w d w1 : updates (t + d) p [] w w1 -> spec_drained (OUpdate d :: ops) t p w
| sd_update ops t p w d p1 w1 : updates (t + d) p p1 w w1 -> p1 <> [] -> spec_drained ops (t + d) p1 w1 -> spec_drained (OUpdate d :: ops) t p w.
(* a run of the scheduler; each Update may take as many turns as it likes up to fuel *)
Definition step (fuel : nat) (dflt : Z * F) (sw : sched * W) (o : op) : res (sched * W) :=
  match o with
  | OAdd t f => do s <- Add dflt (fst sw) t f; Ok (s, snd sw)
  | OUpdate d => Update call fuel dflt (fst sw) d (snd sw)
  end.
End Spec.

(* ---------------------------------------------------- proofs ---------------------------------------------------- *)
Section Proofs.
Context {F W : Type} (call : F -> W -> Z * W) (pos : forall f w, 0 <= fst (call f w)) (dflt : Z * F).
Notation cmp := (@CompTime F).
Lemma zcmp_le x y : zcmp x y <= 0 <-> x <= y.
Proof. unfold zcmp. destruct (Z.compare_spec x y); lia. Qed.
Lemma ctp : total_preorder cmp.
Proof.
  constructor; unfold CompTime.
  - intros x y. unfold zcmp. destruct (fst y ?= fst x); auto.
  - intros x y. unfold zcmp. rewrite (Z.compare_antisym (fst y) (fst x)). destruct (fst y ?= fst x); reflexivity.
  - intros x y z H1 H2. rewrite zcmp_le in *. lia.
Qed.
Lemma filter_perm {A} (p : A -> bool) l l' : Permutation l l' -> Permutation (filter p l) (filter p l').
Proof. induction 1; cbn [filter]; repeat match goal with |- context[p ?x] => destruct (p x) end; eauto using Permutation, perm_swap. Qed.
Lemma root_min e h : heap_ordered cmp (e :: h) -> forall x, In x (e :: h) -> fst e <= fst x.
Proof.
  intros H x Hx. destruct (root_is_max cmp ctp dflt (e :: h) H) as (r & Er & _ & Hm); [discriminate|]. injection Er as <-. specialize (Hm x Hx). unfold CompTime in Hm. rewrite zcmp_le in Hm. exact Hm.
Qed.
Lemma order_cons (e : Z * F) es : in_time_order es -> (forall x, In x es -> fst e <= fst x) -> in_time_order (e :: es).
Proof.
  intros H1 H2 [|i] [|j] a b L Ea Eb; try lia; cbn [nth_error] in *.
  - injection Ea as <-. apply H2. eapply nth_error_In; exact Eb.
  - apply (H1 i j); auto; lia.
Qed.
(* the loop, from a heap whose due events number at most fuel; the ones kept so far are already in the heap *)
Lemma loop_ok now : forall fuel h w, heap_ordered cmp h -> (length (filter (due now) h) <= fuel)%nat ->
  exists order, Permutation order (filter (due now) h) /\ in_time_order order /\
    let p := filter (fun e => negb (due now e)) h ++ fst (fire call now order w) in
    let w' := snd (fire call now order w) in
    (p = [] -> update_loop call fuel dflt now h w = UB) /\
    (p <> [] -> exists h', update_loop call fuel dflt now h w = Ok (h', w') /\ heap_ordered cmp h' /\ Permutation h' p).
Proof.
  induction fuel as [|fuel IH]; intros h w Ho Hl.
  - destruct (filter (due now) h) as [|x l] eqn:Ef; [|cbn in Hl; lia]. exists []. split; [constructor|]. split; [intros i j a b _ Ea; destruct i; discriminate|]. cbn [fire fst snd]. rewrite app_nil_r.
    destruct h as [|e h].
    + split; [reflexivity|]. intros X. exfalso. apply X. reflexivity.
    + cbn [filter] in Ef |- *. destruct (due now e) eqn:De; [discriminate|]. cbn [negb]. split; [discriminate|]. intros _. exists (e :: h). cbn [update_loop get nth_error bind]. unfold due in De. rewrite De. split; [reflexivity|]. split; [exact Ho|].
      apply perm_skip. assert (filter (fun e0 => negb (due now e0)) h = h) as ->; [|reflexivity]. clear - Ef. induction h as [|x h IH]; [reflexivity|]. cbn [filter] in *. destruct (due now x); [discriminate|]. cbn [negb]. f_equal. apply IH. exact Ef.
  - destruct h as [|e h].
    + exists []. split; [constructor|]. split; [intros i j a b _ Ea; destruct i; discriminate|]. cbn. split; [reflexivity|]. intros X. exfalso. apply X. reflexivity.
    + pose proof (root_min e h Ho) as Hmin. destruct (due now e) eqn:De.
      * (* the first event is called *)
        destruct e as [te f]. destruct (call f w) as [r w1] eqn:Ec. pose proof (pos f w) as Hr. rewrite Ec in Hr. cbn [fst] in Hr.
        assert (Nx : exists h1, (if r =? 0 then heap_step cmp dflt ((te, f) :: h) (HRemove 0) else heap_step cmp dflt ((te, f) :: h) (HSet 0 (r + now, f))) = Ok h1 /\ heap_ordered cmp h1 /\
          Permutation h1 ((if r =? 0 then [] else [(r + now, f)]) ++ h)).
        { destruct (Z.eqb_spec r 0).
          - destruct (heap_step_ok cmp dflt ctp ((te, f) :: h) (HRemove 0) Ho) as (h1 & E1 & O1 & P1); [discriminate|congruence|]. exists h1. split; [exact E1|]. split; [exact O1|]. cbn [heap_effect nth_error] in P1. apply Permutation_cons_inv in P1. exact P1.
          - destruct (heap_step_ok cmp dflt ctp ((te, f) :: h) (HSet 0 (r + now, f)) Ho) as (h1 & E1 & O1 & P1); [discriminate|discriminate|]. exists h1. split; [exact E1|]. split; [exact O1|]. cbn [heap_effect nth_error] in P1. cbn [app]. apply (Permutation_cons_inv (a := (te, f))). rewrite P1. apply perm_swap. }
        destruct Nx as (h1 & E1 & O1 & P1).
        assert (Pd : Permutation (filter (due now) h1) (filter (due now) h)).
        { rewrite (filter_perm _ _ _ P1). destruct (Z.eqb_spec r 0); [reflexivity|]. cbn [app filter due fst]. unfold due at 1. cbn [fst]. destruct (Z.leb_spec (r + now) now); [lia|reflexivity]. }
        assert (Pn : Permutation (filter (fun e => negb (due now e)) h1) ((if r =? 0 then [] else [(r + now, f)]) ++ filter (fun e => negb (due now e)) h)).
        { rewrite (filter_perm _ _ _ P1). destruct (Z.eqb_spec r 0); [reflexivity|]. cbn [app filter]. unfold due at 1. cbn [fst]. destruct (Z.leb_spec (r + now) now); [lia|reflexivity]. }
        destruct (IH h1 w1 O1) as (order & Po & To & Hu & Hk).
        { cbn [filter] in Hl. rewrite De in Hl. cbn [length] in Hl. rewrite (Permutation_length Pd). lia. }
        exists ((te, f) :: order). split; [cbn [filter]; rewrite De; apply perm_skip; rewrite Po; exact Pd|]. split.
        { apply order_cons; [exact To|]. intros x Hx. apply Hmin. right. apply (Permutation_in x Po) in Hx. apply (Permutation_in x Pd) in Hx. apply filter_In in Hx. tauto. }
        cbn [filter]. rewrite De. cbn [negb]. cbn [fire]. rewrite Ec. destruct (fire call now order w1) as [kept w2] eqn:Ef. cbn [fst snd] in *.
        assert (El : update_loop call (S fuel) dflt now ((te, f) :: h) w = update_loop call fuel dflt now h1 w1).
        { cbn [update_loop get nth_error bind]. unfold due in De. rewrite De. cbn [snd]. rewrite Ec. cbn [get nth_error bind snd]. rewrite E1. reflexivity. }
        cbv zeta in *. unfold event in *. rewrite El.
        assert (Pq : Permutation (filter (fun e => negb (due now e)) h1 ++ kept) (filter (fun e => negb (due now e)) h ++ (if r =? 0 then kept else (r + now, f) :: kept))).
        { rewrite Pn. destruct (r =? 0); [reflexivity|]. cbn [app]. apply Permutation_middle. }
        split.
        { intros X. apply Hu. rewrite X in Pq. apply Permutation_sym in Pq. apply Permutation_nil in Pq. exact Pq. }
        { intros X. destruct Hk as (h' & Eh & Oh & Ph). { intros Y. apply X. rewrite Y in Pq. apply Permutation_nil in Pq. exact Pq. } exists h'. split; [exact Eh|]. split; [exact Oh|]. rewrite Ph. exact Pq. }
      * (* nothing is due *)
        assert (Nd : forall x, In x (e :: h) -> due now x = false). { intros x Hx. specialize (Hmin x Hx). unfold due in *. lia. }
        assert (E1 : filter (due now) (e :: h) = []). { clear - Nd. induction (e :: h) as [|x l IH]; [reflexivity|]. cbn [filter]. rewrite (Nd x (or_introl eq_refl)). apply IH. intros y Hy. apply Nd. right. exact Hy. }
        assert (E2 : filter (fun e => negb (due now e)) (e :: h) = e :: h). { clear - Nd. induction (e :: h) as [|x l IH]; [reflexivity|]. cbn [filter]. rewrite (Nd x (or_introl eq_refl)). cbn [negb]. f_equal. apply IH. intros y Hy. apply Nd. right. exact Hy. }
        exists []. rewrite E1, E2. split; [constructor|]. split; [intros i j a b _ Ea; destruct i; discriminate|]. cbn [fire fst snd]. rewrite app_nil_r. split; [discriminate|]. intros _. exists (e :: h). split; [|split; [exact Ho|reflexivity]]. cbn [update_loop get nth_error bind]. unfold due in De. rewrite De. reflexivity.
Qed.
Lemma filter_len {A} (p : A -> bool) l : (length (filter p l) <= length l)%nat.
Proof. induction l as [|x l IH]; [reflexivity|]. cbn [filter length]. destruct (p x); cbn [length]; lia. Qed.
Lemma update_ok fuel s p w d : heap_ordered cmp (heap s) -> Permutation (heap s) p -> (length p <= fuel)%nat ->
  exists p' w', updates call (time s + d) p p' w w' /\
    (p' = [] -> Update call fuel dflt s d w = UB) /\
    (p' <> [] -> exists s', Update call fuel dflt s d w = Ok (s', w') /\ time s' = time s + d /\ heap_ordered cmp (heap s') /\ Permutation (heap s') p').
Proof.
  intros Ho Pp Hl. set (now := time s + d).
  destruct (loop_ok now fuel (heap s) w Ho) as (order & Po & To & Hu & Hk).
  { pose proof (filter_len (due now) (heap s)) as X. unfold event in *. rewrite (Permutation_length Pp) in X. lia. }
  exists (filter (fun e => negb (due now e)) p ++ fst (fire call now order w)), (snd (fire call now order w)).
  assert (Pq : Permutation (filter (fun e => negb (due now e)) (heap s) ++ fst (fire call now order w)) (filter (fun e => negb (due now e)) p ++ fst (fire call now order w))) by (apply Permutation_app_tail; apply filter_perm; exact Pp).
  split; [|split].
  - exists order. split; [rewrite Po; apply filter_perm; exact Pp|]. auto.
  - intros X. unfold Update. fold now. rewrite Hu; [reflexivity|]. rewrite X in Pq. apply Permutation_sym, Permutation_nil in Pq. exact Pq.
  - intros X. destruct Hk as (h' & Eh & Oh & Ph). { intros Y. apply X. cbv zeta in Y. unfold event in *. rewrite Y in Pq. apply Permutation_nil in Pq. exact Pq. }
    exists (mks now h'). unfold Update. fold now. rewrite Eh. cbn [bind]. split; [reflexivity|]. split; [reflexivity|]. split; [exact Oh|]. cbn [heap]. rewrite Ph. exact Pq.
Qed.
Lemma fire_length now : forall es w, (length (fst (fire call now es w)) <= length es)%nat.
Proof. induction es as [|[t f] es IH]; intros w; cbn [fire]; [cbn; lia|]. destruct (call f w) as [r w1]. specialize (IH w1). destruct (fire call now es w1) as [k w2]. cbn [fst] in *. destruct (r =? 0); cbn [length]; lia. Qed.
Lemma updates_length now p p' w w' : updates call now p p' w w' -> (length p' <= length p)%nat.
Proof.
  intros (order & Po & _ & -> & _). rewrite app_length. pose proof (fire_length now order w) as H. rewrite (Permutation_length Po) in H.
  assert (length (filter (due now) p) + length (filter (fun e => negb (due now e)) p) = length p)%nat by (clear; induction p as [|x p IH]; [reflexivity|]; cbn [filter]; destruct (due now x); cbn [negb length]; lia). lia.
Qed.
Lemma run_ok fuel : forall ops s p w, heap_ordered cmp (heap s) -> Permutation (heap s) p -> (length p + length ops <= fuel)%nat ->
  (exists s' w' p', run (step call fuel dflt) (s, w) ops = Ok (s', w') /\ spec_run call ops (time s) p w (time s') p' w' /\ Permutation (heap s') p') \/
  (run (step call fuel dflt) (s, w) ops = UB /\ spec_drained call ops (time s) p w).
Proof.
  induction ops as [|o ops IH]; intros s p w Ho Pp Hl.
  - left. exists s, w, p. split; [reflexivity|]. split; [constructor|exact Pp].
  - cbn [run]. cbn [length] in Hl. destruct o as [dt f|d]; cbn [step fst snd].
    + unfold Add. destruct (heap_step_ok cmp dflt ctp (heap s) (HInsert (dt + time s, f)) Ho) as (h1 & E1 & O1 & P1); [discriminate|discriminate|]. rewrite E1. cbn [bind]. cbn [heap_effect] in P1.
      destruct (IH (mks (time s) h1) ((dt + time s, f) :: p) w O1) as [(s' & w' & p' & E & R & P)|[E R]].
      * cbn [heap]. rewrite P1. apply perm_skip. exact Pp.
      * cbn [length]. lia.
      * left. exists s', w', p'. split; [exact E|]. split; [constructor; exact R|exact P].
      * right. split; [exact E|constructor; exact R].
    + destruct (update_ok fuel s p w d Ho Pp) as (p1 & w1 & U & Hu & Hk); [lia|]. destruct p1 as [|x p1].
      * right. rewrite (Hu eq_refl). split; [reflexivity|]. eapply sd_here. exact U.
      * destruct Hk as (s1 & E1 & T1 & O1 & P1); [discriminate|]. rewrite E1. cbn [bind].
        destruct (IH s1 (x :: p1) w1 O1 P1) as [(s' & w' & p' & E & R & P)|[E R]].
        -- pose proof (updates_length _ _ _ _ _ U). unfold event in *. cbn [length] in *. lia.
        -- left. exists s', w', p'. split; [exact E|]. split; [|exact P]. rewrite T1 in R. eapply sr_update; [exact U|discriminate|exact R].
        -- right. split; [exact E|]. rewrite T1 in R. eapply sd_update; [exact U|discriminate|exact R].
Qed.
End Proofs.

(* C57, for events that return 0 or a positive delay: any sequence of Add and Update does what is specified (each Update
   calls exactly the due events, in time order, and leaves the others, plus the ones that ask to be called again), for as
   long as no Update leaves the scheduler without events; at the first Update that does, Peek reads an empty array.
   Missing: that last case (refuted below); events returning a negative number (refuted below). *)
Theorem C57_Scheduler_partial : forall {F W : Type} (call : F -> W -> Z * W) (dflt : Z * F) (ops : list op) (w : W),
  (forall f w, 0 <= fst (call f w)) ->
  (exists s' w' p', run (step call (length ops) dflt) (empty, w) ops = Ok (s', w') /\ spec_run call ops 0 [] w (time s') p' w' /\ Permutation (heap s') p' /\ Length s' = length p') \/
  (run (step call (length ops) dflt) (empty, w) ops = UB /\ spec_drained call ops 0 [] w).
Proof.
  intros F W call dflt ops w pos. destruct (run_ok call pos dflt (length ops) ops empty [] w) as [(s' & w' & p' & E & R & P)|R].
  - intros [|i] a b; discriminate.
  - constructor.
  - reflexivity.
  - left. exists s', w', p'. split; [exact E|]. split; [exact R|]. split; [exact P|]. apply Permutation_length. exact P.
  - right. exact R.
Qed.
Print Assumptions C57_Scheduler_partial.
(* a log of the calls made shows their order: with the world a list to which each event appends itself, an update appends
   the due events by time *)
Theorem C57_calls_in_time_order : forall {F : Type} (ret : F -> Z) (now : Z) p p' (log log' : list F),
  updates (fun f log => (ret f, log ++ [f])) now p p' log log' ->
  exists order, Permutation order (filter (due now) p) /\ in_time_order order /\ log' = log ++ map snd order.
Proof.
  intros F ret now p p' log log' (order & Po & To & _ & E). exists order. split; [exact Po|]. split; [exact To|]. rewrite E. clear.
  revert log. induction order as [|[t f] order IH]; intros log; cbn [fire map snd]; [symmetry; apply app_nil_r|]. specialize (IH (log ++ [f])). destruct (fire (fun f log => (ret f, log ++ [f])) now order (log ++ [f])) as [k w]. cbn [snd] in *. rewrite IH, <- app_assoc. reflexivity.
Qed.
Print Assumptions C57_calls_in_time_order.
(* The full statement fails: an update that calls the only event, which then asks to be forgotten, reads past the end *)
Theorem C57_last_event_refuted : exists ops, run (step (fun (_ : unit) (n : nat) => (0, S n)) (length ops) (0, tt)) (empty, O) ops = UB.
Proof. exists [OAdd 5 tt; OUpdate 6]. reflexivity. Qed.
Print Assumptions C57_last_event_refuted.
(* and an event that returns a negative number is called again and again by the same update *)
Theorem C57_negative_refuted : forall fuel, run (step (fun (_ : unit) (n : nat) => (-1, S n)) fuel (0, tt)) (empty, O) [OAdd 5 tt; OUpdate 6] = OutOfFuel.
Proof.
  intros fuel. change (run (step (fun (_ : unit) (n : nat) => (-1, S n)) fuel (0, tt)) (mks 0 [(5, tt)], O) [OUpdate 6] = OutOfFuel). cbn [run step fst snd]. unfold Update. cbn [time heap]. change (0 + 6) with 6.
  assert (H : forall fuel t n, t <= 6 -> update_loop (fun (_ : unit) (n : nat) => (-1, S n)) fuel (0, tt) 6 [(t, tt)] n = OutOfFuel).
  { clear. induction fuel as [|fuel IH]; intros t n Ht; cbn [update_loop get nth_error bind fst snd]; destruct (Z.leb_spec t 6); try lia; [reflexivity|].
    change (-1 =? 0) with false. assert (heap_step CompTime (0, tt) [(t, tt)] (HSet 0 (-1 + 6, tt)) = Ok [(5, tt)]) as E.
    { cbn [heap_step]. unfold heap_Set. cbn [length Nat.leb get nth_error bind]. destruct (CompTime (t, tt) (-1 + 6, tt) <=? 0); reflexivity. }
    unfold event in *. rewrite E. cbn [bind]. apply IH. lia. }
  rewrite H by lia. reflexivity.
Qed.
Print Assumptions C57_negative_refuted.
(* events 1 to 4, due at 10, 30, 20 and 25; at 27 three of them are due, 1 returns 100, the others nothing *)
Example C57_example :
  let call := fun (f : nat) (log : list nat) => ((if (f =? 1)%nat then 100 else 0), log ++ [f]) in
  run (step call 9 (0, 0%nat)) (empty, []) [OAdd 10 1%nat; OAdd 30 2%nat; OAdd 20 3%nat; OUpdate 5; OAdd 20 4%nat; OUpdate 22] = Ok (mks 27 [(30, 2%nat); (127, 1%nat)], [1; 3; 4]%nat) /\
  (forall f w, 0 <= fst (call f w)).
Proof. split; [vm_compute; reflexivity|]. intros f w. cbn [fst]. destruct (f =? 1)%nat; lia. Qed.
