(* Property C45: the greedy allocators return disjoint, aligned regions inside their chunks. *)
From Coq Require Import ZArith List Arith Bool Lia.
From Coq Require Import ZifyBool ZifyNat.
From Verif Require Import Common Growth BlockAlloc GreedyAlloc.
From Verif Require RWLock RWLockProps BlockAllocProps.
Import ListNotations.

(* ------------------------------------------------ specification ------------------------------------------------ *)
Definition disjoint (a n b m : nat) : Prop := a + n <= b \/ b + m <= a.
(* no two of the regions (address and size) overlap *)
Definition pairwise (l : list (nat * nat)) : Prop := ForallOrdPairs (fun x y => disjoint (fst x) (snd x) (fst y) (snd y)) l.
(* a region inside the memory of a chunk, which starts h bytes after the address of the chunk *)
Definition inside (h : nat) (cs : list (nat * nat)) (x : nat * nat) : Prop := exists c k, In (c, k) cs /\ c + h <= fst x /\ fst x + snd x <= c + h + k.

(* ------------------------------------------- GreedyBlockPolicy, one thread ------------------------------------------- *)
Section Block.
Context (tsz tal : nat).
Definition gb_honest (used : list (nat * nat)) (sys : nat -> nat) : Prop :=
  forall h n, node_size tal = Ok h -> sys n mod tal = 0 /\ forall c k, In (c, k) used -> disjoint (sys n) n c (h + k).
(* the states with the regions (address and size in bytes) returned since construction or Clear *)
Inductive gb_reachable : gb -> list (nat * nat) -> Prop :=
| gr_new sys init s : gb_honest [] sys -> gb_new tsz tal sys init = Ok s -> gb_reachable s []
| gr_allocate s l sys k s' p : gb_reachable s l -> gb_honest (gchunks s) sys -> gb_allocate tsz tal sys s k = Ok (s', p) -> gb_reachable s' ((p, k * tsz) :: l)
| gr_clear s l sys s' : gb_reachable s l -> gb_honest [] sys -> gb_Clear tsz tal sys s = Ok s' -> gb_reachable s' [].
Context (Hts : 0 < tsz) (Hta : 0 < tal).
Definition chunks_ok (h : nat) (cs : list (nat * nat)) : Prop := (forall c k, In (c, k) cs -> c mod tal = 0) /\ ForallOrdPairs (fun x y => disjoint (fst x) (h + snd x) (fst y) (h + snd y)) cs.
Definition gb_inv (h : nat) (s : gb) (l : list (nat * nat)) : Prop :=
  node_size tal = Ok h /\ NODE <= h /\ h mod tal = 0 /\ chunks_ok h (gchunks s) /\ gpos s mod tal = 0 /\ pairwise l /\
  (forall p n, In (p, n) l -> p mod tal = 0 /\ inside h (gchunks s) (p, n)) /\
  exists c k rest, gchunks s = (c, k) :: rest /\ gpos s <= k /\ forall p n, In (p, n) l -> p + n <= c + h + gpos s \/ p + n <= c \/ c + h + k <= p.
Lemma head_ok : exists h, node_size tal = Ok h /\ NODE <= h /\ h mod tal = 0.
Proof. unfold node_size. destruct (BlockAllocProps.align_ok NODE tal Hta) as (h & E & A & B). eauto. Qed.
Lemma chunk_alloc h sys s nsize : node_size tal = Ok h -> chunks_ok h (gchunks s) -> gb_honest (gchunks s) sys ->
  exists a n, gb_allocChunk tsz tal sys s nsize = Ok (mkgb ((a, n) :: gchunks s) (gpos s)) /\ nsize <= n /\ chunks_ok h ((a, n) :: gchunks s) /\ forall c k, In (c, k) (gchunks s) -> disjoint a (h + n) c (h + k).
Proof.
  intros Eh (C1 & C2) HS. unfold gb_allocChunk. destruct (BlockAllocProps.align_ok nsize tsz Hts) as (n1 & -> & A1 & B1). cbn [bind]. destruct (BlockAllocProps.align_ok n1 tal Hta) as (n & -> & A2 & B2). cbn [bind]. rewrite Eh. cbn [bind].
  destruct (HS h (h + n) Eh) as (S1 & S2). eexists _, n. split; [reflexivity|]. split; [lia|]. split; [|exact S2]. split.
  - intros c k [H|H]; [injection H as <- <-; exact S1|apply (C1 c k H)].
  - constructor; [|exact C2]. apply Forall_forall. intros [c k] Hc. cbn [fst snd]. apply S2. exact Hc.
Qed.
Lemma add_mod3 a b c m : m <> 0 -> a mod m = 0 -> b mod m = 0 -> c mod m = 0 -> (a + b + c) mod m = 0.
Proof. intros Hm A B C. rewrite Nat.add_mod, (Nat.add_mod a), A, B, C by exact Hm. rewrite Nat.add_0_l, Nat.mod_0_l by exact Hm. apply Nat.mod_0_l. exact Hm. Qed.
Lemma inside_cons h c cs x : inside h cs x -> inside h (c :: cs) x.
Proof. intros (a & k & H & A & B). exists a, k. split; [right; exact H|]. auto. Qed.
Lemma new_ok sys init : gb_honest [] sys -> exists s h, gb_new tsz tal sys init = Ok s /\ gb_inv h s [].
Proof.
  intros HS. destruct head_ok as (h & Eh & A & B). unfold gb_new. destruct (chunk_alloc h sys (mkgb [] 0) init Eh) as (a & n & E & Ln & CO & _); [split; [intros c k []|constructor]|exact HS|]. rewrite E. eexists _, h. split; [reflexivity|]. cbn [gchunks gpos] in *.
  split; [exact Eh|]. split; [exact A|]. split; [exact B|]. split; [exact CO|]. split; [apply Nat.mod_0_l; lia|]. split; [constructor|]. split; [intros p m []|]. exists a, n, []. split; [reflexivity|]. cbn [gpos]. split; [lia|]. intros p m [].
Qed.
Lemma allocate_ok h s l sys k : gb_inv h s l -> gb_honest (gchunks s) sys -> exists s' p, gb_allocate tsz tal sys s k = Ok (s', p) /\ gb_inv h s' ((p, k * tsz) :: l).
Proof.
  intros (Eh & I1 & I2 & I3 & I4 & I5 & I6 & c & size & rest & Ec & Lp & I7) HS. unfold gb_allocate. destruct (BlockAllocProps.align_ok (k * tsz) tal Hta) as (n & -> & A & B). cbn [bind]. rewrite Eh. cbn [bind]. rewrite Ec. destruct (Nat.ltb_spec size (gpos s + n)) as [Q|Q].
  - destruct (chunk_alloc h sys s (fbnext_nat (gpos s + n)) Eh I3 HS) as (a & m & E & Lm & CO & D). rewrite E. cbn [bind gchunks]. eexists _, _. split; [reflexivity|]. pose proof (fbnext_nat_gt (gpos s + n)) as G. set (f := fbnext_nat (gpos s + n)) in *. clearbody f.
    assert (F : forall p q, In (p, q) l -> p + q <= a \/ a + h + m <= p). { intros p q Hp. destruct (I6 p q Hp) as (_ & c' & k' & Hc & X & Y). cbn [fst snd] in *. specialize (D c' k' Hc). unfold disjoint in D. lia. }
    split; [exact Eh|]. split; [exact I1|]. split; [exact I2|]. cbn [gchunks gpos]. split; [exact CO|]. split; [exact B|]. split.
    { constructor; [|exact I5]. apply Forall_forall. intros [p q] Hp. cbn [fst snd]. specialize (F p q Hp). unfold disjoint. lia. }
    split.
    { intros p q [H|H]; [injection H as <- <-|].
      - split; [destruct CO as (C1 & _); apply add_mod3; [lia|apply (C1 a m); left; reflexivity|exact I2|apply Nat.mod_0_l; lia]|]. exists a, m. cbn [fst snd]. split; [left; reflexivity|]. lia.
      - destruct (I6 p q H) as (X & Y). split; [exact X|]. apply inside_cons. exact Y. }
    exists a, m, (gchunks s). split; [reflexivity|]. split; [lia|]. intros p q [H|H]; [injection H as <- <-; left; lia|]. specialize (F p q H). lia.
  - eexists _, _. split; [reflexivity|]. split; [exact Eh|]. split; [exact I1|]. split; [exact I2|]. cbn [gchunks gpos]. rewrite <- Ec. split; [exact I3|]. split; [rewrite Nat.add_mod, I4, B by lia; rewrite Nat.add_0_l; apply Nat.mod_0_l; lia|]. split.
    { constructor; [|exact I5]. apply Forall_forall. intros [p q] Hp. cbn [fst snd]. specialize (I7 p q Hp). unfold disjoint. lia. }
    split.
    { intros p q [H|H]; [injection H as <- <-|apply I6; exact H]. split.
      - destruct I3 as (C1 & _). apply add_mod3; [lia| |exact I2|exact I4]. apply (C1 c size). rewrite Ec. left. reflexivity.
      - exists c, size. cbn [fst snd]. rewrite Ec. split; [left; reflexivity|]. lia. }
    exists c, size, rest. split; [exact Ec|]. split; [lia|]. intros p q [H|H]; [injection H as <- <-; left; lia|]. specialize (I7 p q H). lia.
Qed.
Lemma clear_ok h s l sys : gb_inv h s l -> gb_honest [] sys -> exists s', gb_Clear tsz tal sys s = Ok s' /\ gb_inv h s' [].
Proof.
  intros (Eh & I1 & I2 & I3 & I4 & I5 & I6 & c & size & rest & Ec & Lp & I7) HS. unfold gb_Clear. rewrite Ec. destruct rest as [|c2 rest].
  - eexists. split; [reflexivity|]. split; [exact Eh|]. split; [exact I1|]. split; [exact I2|]. cbn [gchunks gpos]. rewrite <- Ec. split; [exact I3|]. split; [apply Nat.mod_0_l; lia|]. split; [constructor|]. split; [intros p m []|]. exists c, size, []. split; [exact Ec|]. split; [lia|]. intros p m [].
  - destruct (chunk_alloc h sys (mkgb [] 0) (fold_left (fun n c => n + snd c) ((c, size) :: c2 :: rest) 0) Eh) as (a & n & E & Ln & CO & _); [split; [intros x y []|constructor]|exact HS|]. rewrite E. eexists. split; [reflexivity|].
    split; [exact Eh|]. split; [exact I1|]. split; [exact I2|]. cbn [gchunks gpos] in *. split; [exact CO|]. split; [apply Nat.mod_0_l; lia|]. split; [constructor|]. split; [intros p m []|]. exists a, n, []. split; [reflexivity|]. split; [lia|]. intros p m [].
Qed.
Lemma gb_reachable_inv s l : gb_reachable s l -> exists h, gb_inv h s l.
Proof.
  intros R. induction R as [sys init s HS E|s l sys k s' p R (h & I) HS E|s l sys s' R (h & I) HS E].
  - destruct (new_ok sys init HS) as (s0 & h & E0 & I). rewrite E0 in E. injection E as <-. eauto.
  - destruct (allocate_ok h s l sys k I HS) as (s1 & p1 & E1 & I1). rewrite E1 in E. injection E as <- <-. eauto.
  - destruct (clear_ok h s l sys I HS) as (s1 & E1 & I1). rewrite E1 in E. injection E as <-. eauto.
Qed.
End Block.

(* Every sequence of allocate and Clear on a GreedyBlockPolicy, whatever memory the system allocator returns: the regions
   returned since the last Clear do not overlap, are aligned and lie inside chunks still allocated; allocate and Clear
   always succeed. *)
Theorem C45_GreedyBlockPolicy tsz tal s l : 0 < tsz -> 0 < tal -> gb_reachable tsz tal s l ->
  exists h, node_size tal = Ok h /\ pairwise l /\ (forall p n, In (p, n) l -> p mod tal = 0 /\ inside h (gchunks s) (p, n)) /\
    (forall sys k, gb_honest tal (gchunks s) sys -> exists s' p, gb_allocate tsz tal sys s k = Ok (s', p)) /\
    (forall sys, gb_honest tal [] sys -> exists s', gb_Clear tsz tal sys s = Ok s').
Proof.
  intros Hs Ha R. destruct (gb_reachable_inv tsz tal Hs Ha s l R) as (h & I). exists h. pose proof I as (Eh & I1 & I2 & I3 & I4 & I5 & I6 & _). split; [exact Eh|]. split; [exact I5|]. split; [exact I6|]. split.
  - intros sys k HS. destruct (allocate_ok tsz tal Hs Ha h s l sys k I HS) as (s' & p & E & _). eauto.
  - intros sys HS. destruct (clear_ok tsz tal Hs Ha h s l sys I HS) as (s' & E & _). eauto.
Qed.
Print Assumptions C45_GreedyBlockPolicy.

(* ----------------------------------------------- GreedyAlloc, many threads ----------------------------------------------- *)
Section Greedy.
Context (al asz : nat) (Hal : 0 < al) (Hasz : asz mod al = 0).
Definition shape (x : thread) : Prop :=
  match ap x with
  | Out => lp x = RWLock.Idle
  | Enter n => n mod al = 0 /\ match lp x with RWLock.AtRLock | RWLock.RLockSub | RWLock.RLockWait | RWLock.HoldR => True | _ => False end
  | Got n r => n mod al = 0 /\ r mod al = 0 /\ lp x = RWLock.HoldR
  | Upg n r => n mod al = 0 /\ match lp x with RWLock.AtAttemptUpgrade | RWLock.HoldR | RWLock.UpFlush | RWLock.HoldWU => True | _ => False end
  | Grow n r => n mod al = 0 /\ lp x = RWLock.HoldWU
  | Reset n => n mod al = 0 /\ lp x = RWLock.HoldWU
  | Down n => n mod al = 0 /\ match lp x with RWLock.AtDowngrade | RWLock.HoldR => True | _ => False end
  | Again n => n mod al = 0 /\ match lp x with RWLock.AtRUnlock | RWLock.Idle => True | _ => False end
  | Ret p n => match lp x with RWLock.AtRUnlock | RWLock.Idle => True | _ => False end
  | ClrLock => match lp x with RWLock.AtLock | RWLock.Flush | RWLock.HoldW => True | _ => False end
  | ClrFree => lp x = RWLock.HoldW
  | ClrEnd => match lp x with RWLock.AtUnlock | RWLock.Idle => True | _ => False end
  end.
Definition ch_ok (cs : list (nat * nat)) : Prop := (forall c k, In (c, k) cs -> c mod al = 0) /\ ForallOrdPairs (fun x y => disjoint (fst x) (asz + snd x) (fst y) (asz + snd y)) cs.
(* a thread that has reserved n bytes at r but not yet looked at the chunk *)
Definition reserved (ts : list thread) (t n r : nat) : Prop := exists p, nth_error ts t = Some (mkt p (Got n r)).
Definition res_ok (cur : nat) (c k : nat) (ts : list thread) (rg : list (nat * nat)) : Prop :=
  (forall t n r, reserved ts t n r -> r + n <= cur /\ forall p m, In (p, m) rg -> r + n <= k -> disjoint (c + asz + r) n p m) /\
  (forall t t' n r n' r', t <> t' -> reserved ts t n r -> reserved ts t' n' r' -> disjoint r n r' n').
Definition regs_ok (cs rg : list (nat * nat)) : Prop := pairwise rg /\ forall p n, In (p, n) rg -> p mod al = 0 /\ n mod al = 0 /\ inside asz cs (p, n).
Definition INV (w : Z) (cur : nat) (cs : list (nat * nat)) (ts : list thread) (rg : list (nat * nat)) : Prop :=
  RWLockProps.inv w (map lp ts) /\ (forall t x, nth_error ts t = Some x -> shape x) /\ ch_ok cs /\ cur mod al = 0 /\ regs_ok cs rg /\
  (forall t p, nth_error ts t = Some (mkt p ClrFree) -> rg = []) /\
  exists c k rest, cs = (c, k) :: rest /\ res_ok cur c k ts rg /\
    (forall p n, In (p, n) rg -> p + n <= c + asz + cur \/ p + n <= c \/ c + asz + k <= p) /\
    (forall t p n, nth_error ts t = Some (mkt p (Reset n)) -> forall q m, In (q, m) rg -> q + m <= c \/ c + asz + k <= q).
Lemma map_upd ts t x : map lp (upd ts t x) = upd (map lp ts) t (lp x).
Proof. revert t. induction ts as [|y ts IH]; intros [|t]; cbn [upd map]; try reflexivity. rewrite IH. reflexivity. Qed.
Lemma lp_nth ts t x : nth_error ts t = Some x -> nth_error (map lp ts) t = Some (lp x).
Proof. apply map_nth_error. Qed.
Definition plain (a : apc) : Prop := match a with Got _ _ | Reset _ | ClrFree => False | _ => True end.
Lemma upd_cases (ts : list thread) t x' t' y : nth_error (upd ts t x') t' = Some y -> (t' = t /\ y = x') \/ (t' <> t /\ nth_error ts t' = Some y).
Proof.
  destruct (Nat.eq_dec t' t) as [->|N].
  - intros H. left. split; [reflexivity|]. assert (L : t < length ts) by (rewrite <- (upd_length ts t x'); eapply nth_error_lt; exact H). rewrite nth_error_upd_eq in H by exact L. congruence.
  - rewrite nth_error_upd_neq by congruence. auto.
Qed.
Lemma reserved_upd ts t x' t' n r : reserved (upd ts t x') t' n r -> (t' = t /\ ap x' = Got n r) \/ (t' <> t /\ reserved ts t' n r).
Proof. intros (p & H). apply upd_cases in H. destruct H as [(-> & <-)|(N & H)]; [left; auto|right; split; [exact N|exists p; exact H]]. Qed.
Lemma shapes_upd ts t x' : (forall t x, nth_error ts t = Some x -> shape x) -> shape x' -> forall t' x, nth_error (upd ts t x') t' = Some x -> shape x.
Proof. intros H S t' x Hx. apply upd_cases in Hx. destruct Hx as [(_ & ->)|(_ & Hx)]; [exact S|apply (H t' x Hx)]. Qed.
Lemma quiet w w' cur cs ts rg t x x' : INV w cur cs ts rg -> nth_error ts t = Some x -> RWLockProps.inv w' (map lp (upd ts t x')) -> shape x' -> plain (ap x') -> INV w' cur cs (upd ts t x') rg.
Proof.
  intros (I1 & I2 & I3 & I4 & I5 & I6 & c & k & rest & Ec & (R1 & R2) & I7 & I8) Hx L S P. 
  split; [exact L|]. split; [apply shapes_upd; assumption|]. split; [exact I3|]. split; [exact I4|]. split; [exact I5|]. split.
  { intros t' p H. apply upd_cases in H. destruct H as [(_ & H)|(_ & H)]; [subst x'; destruct P|apply (I6 t' p H)]. }
  exists c, k, rest. split; [exact Ec|]. split; [split|split; [exact I7|]].
  - intros t' n r H. apply reserved_upd in H. destruct H as [(_ & H)|(_ & H)]; [rewrite H in P; destruct P|apply (R1 t' n r H)].
  - intros t1 t2 n r n' r' N H H'. apply reserved_upd in H, H'. destruct H as [(_ & H)|(_ & H)]; [rewrite H in P; destruct P|]. destruct H' as [(_ & H')|(_ & H')]; [rewrite H' in P; destruct P|]. apply (R2 t1 t2 n r n' r' N H H').
  - intros t' p n H. apply upd_cases in H. destruct H as [(_ & H)|(_ & H)]; [subst x'; destruct P|apply (I8 t' p n H)].
Qed.
(* while a thread writes, no other thread reads or writes *)
Lemma alone w cur cs ts rg t x : INV w cur cs ts rg -> nth_error ts t = Some x -> RWLockProps.writing (lp x) = true -> forall t' y, t' <> t -> nth_error ts t' = Some y -> RWLockProps.writing (lp y) = false /\ RWLockProps.reading (lp y) = false.
Proof. intros ((_ & _ & _ & X) & _) Hx W t' y N Hy. apply (X t (lp x) t' (lp y) (lp_nth _ _ _ Hx) (lp_nth _ _ _ Hy) W N). Qed.
Lemma alone_r w cur cs ts rg t x : INV w cur cs ts rg -> nth_error ts t = Some x -> RWLockProps.reading (lp x) = true -> forall t' y, t' <> t -> nth_error ts t' = Some y -> RWLockProps.writing (lp y) = false.
Proof. intros ((_ & _ & _ & X) & _) Hx W t' y N Hy. destruct (RWLockProps.writing (lp y)) eqn:E; [|reflexivity]. assert (N' : t <> t') by congruence. destruct (X t' (lp y) t (lp x) (lp_nth _ _ _ Hy) (lp_nth _ _ _ Hx) E N') as (_ & B). congruence. Qed.
Lemma lock_begin w ts t x p' c : RWLockProps.inv w (map lp ts) -> nth_error ts t = Some x -> RWLock.begin (lp x) c = Some p' -> forall x', lp x' = p' -> RWLockProps.inv w (map lp (upd ts t x')).
Proof. intros I Hx B x' <-. rewrite map_upd. eapply RWLockProps.begin_inv; [exact I|apply lp_nth; exact Hx|exact B]. Qed.
Lemma lock_same w ts t x x' : RWLockProps.inv w (map lp ts) -> nth_error ts t = Some x -> lp x' = lp x -> RWLockProps.inv w (map lp (upd ts t x')).
Proof. intros I Hx E. rewrite map_upd, E, upd_same; [exact I|apply lp_nth; exact Hx]. Qed.
Lemma step_inv s s' : INV (word s) (curpos s) (chunks s) (thr s) (regs s) -> step al asz s s' -> INV (word s') (curpos s') (chunks s') (thr s') (regs s').
Proof.
  intros I S. inversion S as [s0 t x x' s1 Hx A]; subst s0 s'. unfold set_thr. cbn [word curpos chunks thr regs]. pose proof I as (I1 & I2 & I3 & I4 & I5 & I6 & c & k & rest & Ec & (R1 & R2) & I7 & I8). pose proof (I2 t x Hx) as Sx.
  inversion A; subst; cbn [word curpos chunks thr regs lp ap] in *; unfold shape in Sx; cbn [lp ap] in Sx.
  - (* alloc *) eapply quiet; [exact I|exact Hx|eapply (lock_begin _ _ _ _ _ RWLock.CRLock I1 Hx); reflexivity| |exact Logic.I]. unfold shape. cbn [ap lp]. split; [|exact Logic.I]. destruct (BlockAllocProps.align_ok sz al Hal) as (n' & E & _ & B). rewrite E in H. injection H as <-. exact B.
  - (* clear *) eapply quiet; [exact I|exact Hx|eapply (lock_begin _ _ _ _ _ RWLock.CLock I1 Hx); reflexivity| |exact Logic.I]. exact Logic.I.
  - (* lock *) assert (L : RWLockProps.inv l' (map lp (upd (thr s) t (mkt p' a)))). { rewrite map_upd. eapply RWLockProps.exec_inv; [exact I1|apply (lp_nth _ _ _ Hx)|exact H0]. }
    eapply quiet; [exact I|exact Hx|exact L| |].
    + unfold shape. cbn [lp ap]. revert Sx H0. clear. generalize (word s). intros w Sx H0. destruct p; cbn in H0; try discriminate H0; repeat (match type of H0 with context [RWLock.bts w] => destruct (RWLock.bts w) as [? []] | context [if ?b then _ else _] => destruct b end); try discriminate H0; injection H0 as <- <-; destruct a; cbn in Sx |- *; intuition discriminate.
    + cbn [ap]. destruct a; try exact Logic.I; cbn in Sx; exfalso; destruct p; cbn in H0; try discriminate H0; intuition discriminate.
  - (* fetch_add *) destruct Sx as (Sn & _). split; [apply (lock_same _ _ _ _ _ I1 Hx); reflexivity|]. split; [apply shapes_upd; [exact I2|]; unfold shape; cbn; auto|]. split; [exact I3|]. split; [rewrite Nat.add_mod, I4, Sn by lia; apply Nat.mod_0_l; lia|]. split; [exact I5|]. split.
    { intros t' p H. apply upd_cases in H. destruct H as [(_ & H)|(_ & H)]; [discriminate H|apply (I6 t' p H)]. }
    exists c, k, rest. split; [exact Ec|]. split; [split|split].
    + intros t' n' r' H. apply reserved_upd in H. destruct H as [(_ & H)|(_ & H)].
      * cbn [ap] in H. injection H as <- <-. split; [lia|]. intros p m Hp Hk. specialize (I7 p m Hp). unfold disjoint. lia.
      * destruct (R1 t' n' r' H) as (X & Y). split; [lia|exact Y].
    + intros t1 t2 n1 r1 n2 r2 N H H'. apply reserved_upd in H, H'. destruct H as [(E & H)|(_ & H)], H' as [(E' & H')|(_ & H')]; cbn [ap] in *.
      * congruence.
      * injection H as <- <-. destruct (R1 t2 n2 r2 H') as (X & _). unfold disjoint. lia.
      * injection H' as <- <-. destruct (R1 t1 n1 r1 H) as (X & _). unfold disjoint. lia.
      * apply (R2 t1 t2 n1 r1 n2 r2 N H H').
    + intros p m Hp. specialize (I7 p m Hp). lia.
    + intros t' p m H. apply upd_cases in H. destruct H as [(_ & H)|(_ & H)]; [discriminate H|apply (I8 t' p m H)].
  - (* full *) eapply quiet; [exact I|exact Hx|eapply (lock_begin _ _ _ _ _ RWLock.CAttemptUpgrade I1 Hx); reflexivity| |exact Logic.I]. unfold shape. cbn. tauto.
  - (* take *) rewrite Ec in H. injection H as <- <- <-. destruct Sx as (Sn & Sr & _). assert (Rs : reserved (thr s) t n r) by (exists RWLock.HoldR; exact Hx). destruct (R1 t n r Rs) as (X & Y).
    split; [eapply (lock_begin _ _ _ _ _ RWLock.CRUnlock I1 Hx); reflexivity|]. split; [apply shapes_upd; [exact I2|exact Logic.I]|]. split; [exact I3|]. split; [exact I4|].
    assert (Cm : c mod al = 0) by (apply (proj1 I3 c k); rewrite Ec; left; reflexivity).
    split.
    { destruct I5 as (P1 & P2). split.
      - constructor; [|exact P1]. apply Forall_forall. intros [p m] Hp. cbn [fst snd]. apply Y; [exact Hp|lia].
      - intros p m [Hp|Hp]; [injection Hp as <- <-|apply (P2 p m Hp)]. split; [apply add_mod3; [lia|assumption|assumption|assumption]|]. split; [exact Sn|]. exists c, k. rewrite Ec. cbn [fst snd]. split; [left; reflexivity|]. lia. }
    split.
    { intros t' p H. exfalso. apply upd_cases in H. destruct H as [(_ & H)|(N & H)]; [discriminate H|]. pose proof (I2 t' _ H) as Sy. cbn in Sy. subst p. pose proof (alone_r _ _ _ _ _ t _ I Hx eq_refl t' _ N H) as Z. discriminate Z. }
    exists c, k, rest. split; [exact Ec|]. split; [split|split].
    + intros t' n' r' H. apply reserved_upd in H. destruct H as [(_ & H)|(N & H)]; [discriminate H|]. destruct (R1 t' n' r' H) as (X' & Y'). split; [exact X'|]. intros p m [Hp|Hp] Hk; [injection Hp as <- <-|apply Y'; assumption]. pose proof (R2 t' t n' r' n r N H Rs) as D. unfold disjoint in *. lia.
    + intros t1 t2 n1 r1 n2 r2 N H H'. apply reserved_upd in H, H'. destruct H as [(_ & H)|(_ & H)]; [discriminate H|]. destruct H' as [(_ & H')|(_ & H')]; [discriminate H'|]. apply (R2 t1 t2 n1 r1 n2 r2 N H H').
    + intros p m [Hp|Hp]; [injection Hp as <- <-; left; lia|apply (I7 p m Hp)].
    + intros t' p m H. exfalso. apply upd_cases in H. destruct H as [(_ & H)|(N & H)]; [discriminate H|]. pose proof (I2 t' _ H) as Sy. cbn in Sy. destruct Sy as (_ & ->). pose proof (alone_r _ _ _ _ _ t _ I Hx eq_refl t' _ N H) as Z. discriminate Z.
  - (* fail *) eapply quiet; [exact I|exact Hx|eapply (lock_begin _ _ _ _ _ RWLock.CRUnlock I1 Hx); reflexivity| |exact Logic.I]. unfold shape. cbn. tauto.
  - (* still *) eapply quiet; [exact I|exact Hx|apply (lock_same _ _ _ _ _ I1 Hx); reflexivity| |exact Logic.I]. unfold shape. cbn. tauto.
  - (* other *) eapply quiet; [exact I|exact Hx|eapply (lock_begin _ _ _ _ _ RWLock.CDowngrade I1 Hx); reflexivity| |exact Logic.I]. unfold shape. cbn. tauto.
  - (* grow *) destruct Sx as (Sn & _). destruct H as (F1 & F2). set (f := fbnext_nat (r + n)) in *.
    assert (NR : forall t' n' r', ~ reserved (upd (thr s) t (mkt RWLock.HoldWU (Reset n))) t' n' r'). { intros t' n' r' H. apply reserved_upd in H. destruct H as [(_ & H)|(N & (p & H))]; [discriminate H|]. pose proof (I2 t' _ H) as Sy. cbn in Sy. destruct Sy as (_ & _ & ->). destruct (alone _ _ _ _ _ t _ I Hx eq_refl t' _ N H) as (_ & Z). discriminate Z. }
    assert (F : forall p q, In (p, q) (regs s) -> p + q <= a \/ a + asz + f <= p). { intros p q Hp. destruct I5 as (_ & P2). destruct (P2 p q Hp) as (_ & _ & c' & k' & Hc & X & Y). cbn [fst snd] in *. specialize (F2 c' k' Hc). lia. }
    split; [apply (lock_same _ _ _ _ _ I1 Hx); reflexivity|]. split; [apply shapes_upd; [exact I2|]; unfold shape; cbn; auto|]. split.
    { destruct I3 as (C1 & C2). split.
      - intros c' k' [Q|Q]; [injection Q as <- <-; exact F1|apply (C1 c' k' Q)].
      - constructor; [|exact C2]. apply Forall_forall. intros [c' k'] Hc. cbn [fst snd]. apply F2. exact Hc. }
    split; [exact I4|]. split.
    { destruct I5 as (P1 & P2). split; [exact P1|]. intros p m Hp. destruct (P2 p m Hp) as (X & Y & Z). split; [exact X|]. split; [exact Y|]. apply inside_cons. exact Z. }
    split.
    { intros t' p H. apply upd_cases in H. destruct H as [(_ & H)|(_ & H)]; [discriminate H|apply (I6 t' p H)]. }
    exists a, f, (chunks s). split; [reflexivity|]. split; [split|split].
    + intros t' n' r' H. destruct (NR _ _ _ H).
    + intros t1 t2 n1 r1 n2 r2 N H H'. destruct (NR _ _ _ H).
    + intros p m Hp. specialize (F p m Hp). lia.
    + intros t' p m H q j Hq. apply (F q j Hq).
  - (* reset *) destruct Sx as (Sn & _).
    assert (NR : forall t' n' r', ~ reserved (upd (thr s) t (mkt RWLock.AtDowngrade (Down n))) t' n' r'). { intros t' n' r' H. apply reserved_upd in H. destruct H as [(_ & H)|(N & (p & H))]; [discriminate H|]. pose proof (I2 t' _ H) as Sy. cbn in Sy. destruct Sy as (_ & _ & ->). destruct (alone _ _ _ _ _ t _ I Hx eq_refl t' _ N H) as (_ & Z). discriminate Z. }
    split; [eapply (lock_begin _ _ _ _ _ RWLock.CDowngrade I1 Hx); reflexivity|]. split; [apply shapes_upd; [exact I2|]; unfold shape; cbn; auto|]. split; [exact I3|]. split; [apply Nat.mod_0_l; lia|]. split; [exact I5|]. split.
    { intros t' p H. apply upd_cases in H. destruct H as [(_ & H)|(_ & H)]; [discriminate H|apply (I6 t' p H)]. }
    exists c, k, rest. split; [exact Ec|]. split; [split|split].
    + intros t' n' r' H. destruct (NR _ _ _ H).
    + intros t1 t2 n1 r1 n2 r2 N H H'. destruct (NR _ _ _ H).
    + intros p m Hp. right. apply (I8 t _ n Hx p m Hp).
    + intros t' p m H. apply upd_cases in H. destruct H as [(_ & H)|(_ & H)]; [discriminate H|apply (I8 t' p m H)].
  - (* down *) eapply quiet; [exact I|exact Hx|eapply (lock_begin _ _ _ _ _ RWLock.CRUnlock I1 Hx); reflexivity| |exact Logic.I]. unfold shape. cbn. tauto.
  - (* again *) eapply quiet; [exact I|exact Hx|eapply (lock_begin _ _ _ _ _ RWLock.CRLock I1 Hx); reflexivity| |exact Logic.I]. unfold shape. cbn. tauto.
  - (* ret *) eapply quiet; [exact I|exact Hx|apply (lock_same _ _ _ _ _ I1 Hx); reflexivity| |exact Logic.I]. reflexivity.
  - (* clear0 *)
    assert (NR : forall t' n' r', ~ reserved (upd (thr s) t (mkt RWLock.HoldW ClrFree)) t' n' r'). { intros t' n' r' H. apply reserved_upd in H. destruct H as [(_ & H)|(N & (p & H))]; [discriminate H|]. pose proof (I2 t' _ H) as Sy. cbn in Sy. destruct Sy as (_ & _ & ->). destruct (alone _ _ _ _ _ t _ I Hx eq_refl t' _ N H) as (_ & Z). discriminate Z. }
    split; [apply (lock_same _ _ _ _ _ I1 Hx); reflexivity|]. split; [apply shapes_upd; [exact I2|]; reflexivity|]. split; [exact I3|]. split; [apply Nat.mod_0_l; lia|]. split; [split; [constructor|intros p m []]|]. split; [reflexivity|].
    exists c, k, rest. split; [exact Ec|]. split; [split|split].
    + intros t' n' r' H. destruct (NR _ _ _ H).
    + intros t1 t2 n1 r1 n2 r2 N H H'. destruct (NR _ _ _ H).
    + intros p m [].
    + intros t' p m H q j [].
  - (* clear1 *) eapply quiet; [exact I|exact Hx|eapply (lock_begin _ _ _ _ _ RWLock.CUnlock I1 Hx); reflexivity| |exact Logic.I]. exact Logic.I.
  - (* clear2 *) pose proof (I6 t _ Hx) as R0. rewrite R0 in *.
    assert (NR : forall t' n' r', ~ reserved (upd (thr s) t (mkt RWLock.AtUnlock ClrEnd)) t' n' r'). { intros t' n' r' Hr. apply reserved_upd in Hr. destruct Hr as [(_ & Hr)|(N & (p & Hr))]; [discriminate Hr|]. pose proof (I2 t' _ Hr) as Sy. cbn in Sy. destruct Sy as (_ & _ & ->). destruct (alone _ _ _ _ _ t _ I Hx eq_refl t' _ N Hr) as (_ & Z). discriminate Z. }
    destruct H1 as (F1 & _). split; [eapply (lock_begin _ _ _ _ _ RWLock.CUnlock I1 Hx); reflexivity|]. split; [apply shapes_upd; [exact I2|exact Logic.I]|]. split.
    { split; [intros c' k' [Q|[]]; injection Q as <- <-; exact F1|]. constructor; [constructor|constructor]. }
    split; [exact I4|]. split; [split; [constructor|intros p m []]|]. split; [reflexivity|]. eexists a, _, []. split; [reflexivity|]. split; [split|split].
    + intros t' n' r' Hr. destruct (NR _ _ _ Hr).
    + intros t1 t2 n1 r1 n2 r2 N Hr. destruct (NR _ _ _ Hr).
    + intros p m [].
    + intros t' p m Hr q j [].
  - (* end *) eapply quiet; [exact I|exact Hx|apply (lock_same _ _ _ _ _ I1 Hx); reflexivity| |exact Logic.I]. reflexivity.
Qed.
Lemma start_ok N init a : (Z.of_nat N < 2 ^ 63)%Z -> fresh_mem al asz [] a init -> INV 0 0 [(a, init)] (repeat (mkt RWLock.Idle Out) N) [].
Proof.
  intros HN (F & _). assert (T : forall t x, nth_error (repeat (mkt RWLock.Idle Out) N) t = Some x -> x = mkt RWLock.Idle Out). { intros t x H. apply nth_error_In, repeat_spec in H. exact H. }
  split; [|split; [|split; [|split; [|split; [|split]]]]].
  - replace (map lp (repeat (mkt RWLock.Idle Out) N)) with (repeat RWLock.Idle N); [apply (RWLockProps.start_inv N HN)|]. clear. induction N as [|N IH]; cbn; [reflexivity|rewrite IH; reflexivity].
  - intros t x H. rewrite (T t x H). reflexivity.
  - split; [intros c k [H|[]]; injection H as <- <-; exact F|constructor; constructor].
  - apply Nat.mod_0_l. lia.
  - split; [constructor|intros p n []].
  - reflexivity.
  - exists a, init, []. split; [reflexivity|]. split; [split|split].
    + intros t n r (p & H). apply T in H. discriminate H.
    + intros t t' n r n' r' _ (p & H). apply T in H. discriminate H.
    + intros p n [].
    + intros t p n H. apply T in H. discriminate H.
Qed.
Lemma runs_ok N s : (Z.of_nat N < 2 ^ 63)%Z -> runs al asz N s -> INV (word s) (curpos s) (chunks s) (thr s) (regs s).
Proof. intros HN R. induction R as [init a F|s s' R IH St]; [apply (start_ok N init a HN F)|apply (step_inv s s' IH St)]. Qed.
(* the regions that are about to be returned *)
Definition J (s : ga) : Prop := forall t p n, nth_error (thr s) t = Some (mkt RWLock.AtRUnlock (Ret p n)) -> In (p, n) (regs s).
Lemma step_J s s' : INV (word s) (curpos s) (chunks s) (thr s) (regs s) -> J s -> step al asz s s' -> J s'.
Proof.
  intros I HJ S. inversion S as [s0 t x x' s1 Hx A]; subst s0 s'. intros t' p n H. unfold set_thr in *. cbn [thr regs] in *. apply upd_cases in H.
  destruct H as [(-> & <-)|(N & H)].
  - inversion A; subst; cbn [regs]; try (left; reflexivity). pose proof (proj1 (proj2 I) t _ Hx) as Sx. unfold shape in Sx. cbn [ap lp] in Sx. destruct p0; try destruct Sx; cbn in *; discriminate.
  - specialize (HJ t' p n H). inversion A; subst; cbn [regs]; try exact HJ; [right; exact HJ|]. destruct (alone _ _ _ _ _ t _ I Hx eq_refl t' _ N H) as (_ & Z). discriminate Z.
Qed.
End Greedy.

(* Any number of threads, any interleaving of Alloc and Clear, any memory from the system allocator: the regions chosen by
   Alloc since the last Clear do not overlap, and each is aligned and lies inside a chunk that is still allocated; what an
   Alloc is about to return, while it still holds the lock, is one of them. *)
Theorem C45_GreedyAlloc al asz N s : 0 < al -> asz mod al = 0 -> (Z.of_nat N < 2 ^ 63)%Z -> runs al asz N s ->
  pairwise (regs s) /\ (forall p n, In (p, n) (regs s) -> p mod al = 0 /\ inside asz (chunks s) (p, n)) /\
  (forall t p n, nth_error (thr s) t = Some (mkt RWLock.AtRUnlock (Ret p n)) -> In (p, n) (regs s)).
Proof.
  intros Ha Hz HN R. pose proof (runs_ok al asz Ha Hz N s HN R) as (I1 & I2 & I3 & I4 & (P1 & P2) & _). split; [exact P1|]. split; [intros p n H; destruct (P2 p n H) as (X & _ & Y); auto|].
  clear - Ha Hz HN R. induction R as [init a F|s s' R IH St].
  - intros t p n H. cbn [thr] in H. apply nth_error_In, repeat_spec in H. discriminate H.
  - apply (step_J al asz s s' (runs_ok al asz Ha Hz N s HN R) IH St).
Qed.
Print Assumptions C45_GreedyAlloc.
(* the region has at least the size asked for *)
Theorem C45_GreedyAlloc_size al sz : 0 < al -> exists n, align_up sz al = Ok n /\ sz <= n.
Proof. intros Ha. destruct (BlockAllocProps.align_ok sz al Ha) as (n & E & L & _). eauto. Qed.
Print Assumptions C45_GreedyAlloc_size.

(* ----------------------------------------------------- examples ----------------------------------------------------- *)
(* three allocations by one thread, the last of which needs a second chunk *)
Example C45_block_example : exists s l, gb_reachable 8 8 s l /\ l = [(2016, 160); (1064, 24); (1016, 48)] /\ length (gchunks s) = 2.
Proof.
  eexists _, _. split; [|split; [reflexivity|]].
  - eapply (gr_allocate 8 8 _ _ (fun _ => 2000) 20); [eapply (gr_allocate 8 8 _ _ (fun _ => 2000) 3); [eapply (gr_allocate 8 8 _ _ (fun _ => 2000) 6); [eapply (gr_new 8 8 (fun _ => 1000) 80); [|vm_compute; reflexivity]| |vm_compute; reflexivity]| |vm_compute; reflexivity]| |vm_compute; reflexivity].
    all: intros h n E; vm_compute in E; injection E as <-; (split; [reflexivity|]); intros c k H; cbn [In gchunks] in H; (destruct H as [H|[]] || destruct H).
    all: injection H as <- <-; right; apply Nat.leb_le; vm_compute; reflexivity.
  - reflexivity.
Qed.
(* two threads; both reserve bytes before either looks at the chunk *)
Example C45_example : exists s, runs 2 2 2 s /\ regs s = [(4, 2); (6, 4)].
Proof.
  set (R := fun w cur a b rg => runs 2 2 2 (mkga w cur [(2, 10)] [a; b] rg)).
  assert (H0 : R 0%Z 0 (mkt RWLock.Idle Out) (mkt RWLock.Idle Out) []) by (apply (r_new 2 2 2 10 2); split; [reflexivity|intros c k []]).
  assert (St : forall w cur x y rg x' w' cur' rg', R w cur x y rg -> act 2 2 (mkga w cur [(2, 10)] [x; y] rg) x x' (mkga w' cur' [(2, 10)] [x; y] rg') -> R w' cur' x' y rg'). { intros w cur x y rg x' w' cur' rg' H A. eapply r_step; [exact H|]. refine (s_act 2 2 _ 0 x x' _ _ A). reflexivity. }
  assert (Su : forall w cur x y rg x' w' cur' rg', R w cur x y rg -> act 2 2 (mkga w cur [(2, 10)] [x; y] rg) y x' (mkga w' cur' [(2, 10)] [x; y] rg') -> R w' cur' x x' rg'). { intros w cur x y rg x' w' cur' rg' H A. eapply r_step; [exact H|]. refine (s_act 2 2 _ 1 y x' _ _ A). reflexivity. }
  assert (H1 : R 0%Z 0 (mkt RWLock.AtRLock (Enter 2)) (mkt RWLock.Idle Out) []) by (eapply St; [exact H0|apply (a_alloc _ _ _ 1 2); reflexivity]).
  assert (H2 : R 0%Z 0 (mkt RWLock.AtRLock (Enter 2)) (mkt RWLock.AtRLock (Enter 4)) []) by (eapply Su; [exact H1|apply (a_alloc _ _ _ 4 4); reflexivity]).
  assert (H3 : R 1%Z 0 (mkt RWLock.AtRLock (Enter 2)) (mkt RWLock.HoldR (Enter 4)) []) by (eapply Su; [exact H2|apply (a_lock 2 2 (mkga 0 0 [(2, 10)] _ []) 0%Z RWLock.AtRLock (Enter 4) 1%Z RWLock.HoldR); reflexivity]).
  assert (H4 : R 2%Z 0 (mkt RWLock.HoldR (Enter 2)) (mkt RWLock.HoldR (Enter 4)) []) by (eapply St; [exact H3|apply (a_lock 2 2 (mkga 1 0 [(2, 10)] _ []) 1%Z RWLock.AtRLock (Enter 2) 2%Z RWLock.HoldR); reflexivity]).
  assert (H5 : R 2%Z 2 (mkt RWLock.HoldR (Got 2 0)) (mkt RWLock.HoldR (Enter 4)) []) by (eapply St; [exact H4|apply (a_add 2 2 (mkga 2 0 [(2, 10)] _ []) 2)]).
  assert (H6 : R 2%Z 6 (mkt RWLock.HoldR (Got 2 0)) (mkt RWLock.HoldR (Got 4 2)) []) by (eapply Su; [exact H5|apply (a_add 2 2 (mkga 2 2 [(2, 10)] _ []) 4)]).
  assert (H7 : R 2%Z 6 (mkt RWLock.HoldR (Got 2 0)) (mkt RWLock.AtRUnlock (Ret 6 4)) [(6, 4)]) by (eapply Su; [exact H6|apply (a_take 2 2 (mkga 2 6 [(2, 10)] _ []) 4 2 2 10 []); [reflexivity|lia]]).
  assert (H8 : R 2%Z 6 (mkt RWLock.AtRUnlock (Ret 4 2)) (mkt RWLock.AtRUnlock (Ret 6 4)) [(4, 2); (6, 4)]) by (eapply St; [exact H7|apply (a_take 2 2 (mkga 2 6 [(2, 10)] _ [(6, 4)]) 2 0 2 10 []); [reflexivity|lia]]).
  eexists. split; [exact H8|reflexivity].
Qed.
