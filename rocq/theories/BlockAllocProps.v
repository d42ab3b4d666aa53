(* Property C44: BlockAlloc hands out disjoint aligned blocks and recycles exactly the freed ones. *)
From Coq Require Import List Arith Bool Lia Permutation.
From Coq Require Import ZifyBool ZifyNat.
From Verif Require Import Common Dll BlockAlloc.
Import ListNotations.

(* ------------------------------------------------ specification ------------------------------------------------ *)
Definition disjoint (a n b m : nat) : Prop := a + n <= b \/ b + m <= a.
(* the system allocator returns aligned memory that overlaps none of the chunks in use *)
Definition honest (s : ba) (used : list (nat * nat)) (sys : nat -> option nat) : Prop :=
  forall n a, sys n = Some a -> a mod align s = 0 /\ forall c k, In (c, k) used -> disjoint a n c (alignsize s + k).
(* a block of a chunk: at a multiple of the block size from where the memory of the chunk starts, and inside it *)
Definition block_of (s : ba) (c : nat * nat) (p : nat) : Prop := exists k, p = fst c + alignsize s + k * sz s /\ (k + 1) * sz s <= snd c.
(* the free list, read from memory *)
Fixpoint linked (m : nat -> option ptr) (p : ptr) (l : list nat) : Prop :=
  match l with [] => p = None | x :: l => p = Some x /\ exists n, m x = Some n /\ linked m n l end.
(* what the owner of the block at p may do to memory *)
Definition scribble (s : ba) (p : nat) (f : nat -> option ptr) : ba :=
  mkba (fun q => if (q <? p + sz s) && (p <? q + W) then f q else mem s q) (chunks s) (freelist s) (sz s) (align s) (alignsize s).
(* states with the blocks handed out and not yet returned *)
Inductive reachable : ba -> list nat -> Prop :=
| r_new m sys size init al s : W <= size -> 0 < al -> (forall n a, sys n = Some a -> a mod al = 0) -> (forall n, sys n <> None) -> new_ba m sys size init al = Ok s -> reachable s []
| r_alloc s live sys s' p : reachable s live -> honest s (chunks s) sys -> Alloc sys s = Ok (s', Some p) -> reachable s' (p :: live)
| r_fail s live sys s' : reachable s live -> honest s (chunks s) sys -> Alloc sys s = Ok (s', None) -> reachable s' live
| r_dealloc s live p : reachable s live -> In p live -> reachable (Dealloc s p) (filter (fun q => negb (q =? p)) live)
| r_write s live p f : reachable s live -> In p live -> reachable (scribble s p f) live
| r_clear s live sys s' : reachable s live -> honest s [] sys -> (forall n, sys n <> None) -> Clear sys s = Ok s' -> reachable s' [].
Definition capacity (s : ba) : nat := fold_right (fun c n => snd c / sz s + n) 0 (chunks s).

(* ---------------------------------------------------- proofs ---------------------------------------------------- *)
Definition blocks (asz z : nat) (c : nat * nat) : list nat := map (fun k => fst c + asz + k * z) (seq 0 (snd c / z)).
Definition all_blocks (s : ba) : list nat := flat_map (blocks (alignsize s) (sz s)) (chunks s).
Definition chunks_ok (asz z al : nat) (cs : list (nat * nat)) : Prop :=
  (forall c k, In (c, k) cs -> k mod z = 0 /\ c mod al = 0) /\
  ForallOrdPairs (fun x y => disjoint (fst x) (asz + snd x) (fst y) (asz + snd y)) cs.
Definition inv (s : ba) (live free : list nat) : Prop :=
  W <= sz s /\ 0 < align s /\ sz s mod align s = 0 /\ alignsize s mod align s = 0 /\ chunks_ok (alignsize s) (sz s) (align s) (chunks s) /\ chunks s <> [] /\
  linked (mem s) (freelist s) free /\ Permutation (live ++ free) (all_blocks s).

Lemma in_blocks asz z c p : 0 < z -> In p (blocks asz z c) <-> exists k, p = fst c + asz + k * z /\ (k + 1) * z <= snd c.
Proof.
  intros Hz. unfold blocks. rewrite in_map_iff. split.
  - intros (k & <- & Hk). apply in_seq in Hk. exists k. split; [reflexivity|]. transitivity (snd c / z * z). { apply Nat.mul_le_mono_r. lia. } rewrite Nat.mul_comm. apply Nat.mul_div_le. lia.
  - intros (k & -> & Hk). exists k. split; [reflexivity|]. apply in_seq. cbn [Nat.add]. assert (k + 1 <= snd c / z) by (apply Nat.div_le_lower_bound; lia). lia.
Qed.
Lemma same_chunk z k k' : k <> k' -> k * z + z <= k' * z \/ k' * z + z <= k * z.
Proof. intros N. destruct (Nat.lt_ge_cases k k') as [H|H]; [left|right]; [replace (k * z + z) with ((k + 1) * z) by lia|replace (k' * z + z) with ((k' + 1) * z) by lia]; apply Nat.mul_le_mono_r; lia. Qed.
Lemma blocks_nodup asz z c : 0 < z -> NoDup (blocks asz z c).
Proof.
  intros Hz. unfold blocks. apply FinFun.Injective_map_NoDup; [|apply seq_NoDup]. intros k k' H. destruct (Nat.eq_dec k k') as [|N]; [assumption|]. destruct (same_chunk z k k' N); lia.
Qed.
Lemma fop_in {A} (R : A -> A -> Prop) l x y : ForallOrdPairs R l -> In x l -> In y l -> x = y \/ R x y \/ R y x.
Proof.
  intros F. induction F as [|a l Fa F IH]; intros Hx Hy; [destruct Hx|]. rewrite Forall_forall in Fa. destruct Hx as [->|Hx], Hy as [->|Hy]; auto.
Qed.
Lemma blocks_spaced asz z al cs p q : 0 < z -> chunks_ok asz z al cs -> In p (flat_map (blocks asz z) cs) -> In q (flat_map (blocks asz z) cs) -> p <> q -> p + z <= q \/ q + z <= p.
Proof.
  intros Hz (_ & F) Hp Hq N. apply in_flat_map in Hp, Hq. destruct Hp as (c & Hc & Hp), Hq as (d & Hd & Hq). apply (in_blocks asz z c p Hz) in Hp. apply (in_blocks asz z d q Hz) in Hq. destruct Hp as (k & -> & Hk), Hq as (k' & -> & Hk').
  destruct (fop_in _ _ c d F Hc Hd) as [->|H].
  - assert (Nk : k <> k') by (intros ->; apply N; reflexivity). destruct (same_chunk z k k' Nk); lia.
  - unfold disjoint in H. lia.
Qed.
Lemma NoDup_app_intro {A} (a b : list A) : NoDup a -> NoDup b -> (forall x, In x a -> In x b -> False) -> NoDup (a ++ b).
Proof.
  intros Na Nb H. induction Na as [|x a Hx Na IH]; [exact Nb|]. cbn [app]. constructor.
  - rewrite in_app_iff. intros [X|X]; [contradiction|]. apply (H x); [left; reflexivity|exact X].
  - apply IH. intros y Hy. apply H. right. exact Hy.
Qed.
Lemma all_nodup asz z al cs : 0 < z -> chunks_ok asz z al cs -> NoDup (flat_map (blocks asz z) cs).
Proof.
  intros Hz (H1 & F). clear H1. induction F as [|c cs Fc F IH]; [constructor|]. cbn [flat_map]. apply NoDup_app_intro.
  - apply blocks_nodup. exact Hz.
  - exact IH.
  - intros p Hp Hq. apply in_flat_map in Hq. destruct Hq as (d & Hd & Hq). rewrite Forall_forall in Fc. specialize (Fc d Hd). unfold disjoint in Fc. apply (in_blocks asz z c p Hz) in Hp. apply (in_blocks asz z d p Hz) in Hq. destruct Hp as (k & -> & Hk), Hq as (k' & E & Hk'). lia.
Qed.

Lemma linked_ext m m' l : (forall x, In x l -> m' x = m x) -> forall p, linked m p l -> linked m' p l.
Proof.
  induction l as [|x l IH]; intros H p L; [exact L|]. cbn [linked] in *. destruct L as (E & n & Hn & L). split; [exact E|]. exists n. split; [rewrite H; [exact Hn|left; reflexivity]|]. apply IH; [|exact L]. intros y Hy. apply H. right. exact Hy.
Qed.
Lemma wr_other m p v q : p + W <= q \/ q + W <= p -> wr_ptr m p v q = m q.
Proof. intros H. unfold wr_ptr. assert (q =? p = false) as -> by (apply Nat.eqb_neq; unfold W in *; lia). assert ((q <? p + W) && (p <? q + W) = false) as -> by lia. reflexivity. Qed.
Lemma wr_same m p v : wr_ptr m p v p = Some v.
Proof. unfold wr_ptr. rewrite Nat.eqb_refl. reflexivity. Qed.
Lemma init_ok z : W <= z -> forall n fuel m fl ref free, n <= fuel -> linked m fl free -> (forall x, In x free -> x + W <= ref \/ ref + n * z <= x) ->
  exists m' fl', init_loop fuel z m fl ref (ref + n * z) = Ok (m', fl') /\ linked m' fl' (rev (map (fun k => ref + k * z) (seq 0 n)) ++ free).
Proof.
  intros Hz. induction n as [|n IH]; intros fuel m fl ref free Hf L HF.
  - exists m, fl. split; [|exact L]. rewrite Nat.mul_0_l, Nat.add_0_r. destruct fuel; cbn [init_loop]; rewrite Nat.ltb_irrefl; reflexivity.
  - destruct fuel as [|fuel]; [lia|]. cbn [init_loop]. assert (ref <? ref + S n * z = true) as -> by (unfold W in *; lia).
    replace (ref + S n * z) with ((ref + z) + n * z) by lia.
    destruct (IH fuel (wr_ptr m ref fl) (Some ref) (ref + z) (ref :: free)) as (m' & fl' & E & L').
    + lia.
    + cbn [linked]. split; [reflexivity|]. exists fl. split; [apply wr_same|]. apply (linked_ext m); [|exact L]. intros x Hx. apply wr_other. destruct (HF x Hx) as [H|H]; [right; exact H|left; lia].
    + intros x [<-|Hx]; [left; lia|]. destruct (HF x Hx); [left|right]; lia.
    + exists m', fl'. split; [exact E|]. cbn [seq map rev]. rewrite <- app_assoc. cbn [app]. rewrite Nat.mul_0_l, Nat.add_0_r.
      rewrite <- seq_shift, map_map. erewrite map_ext; [exact L'|]. intros k. cbn beta. lia.
Qed.
Lemma mul_mod z n : z <> 0 -> (n * z) mod z = 0.
Proof. apply Nat.mod_mul. Qed.
Lemma chunk_ok s live free nsize sys : W <= sz s -> 0 < align s -> sz s mod align s = 0 -> alignsize s mod align s = 0 -> chunks_ok (alignsize s) (sz s) (align s) (chunks s) ->
  linked (mem s) (freelist s) free -> Permutation (live ++ free) (all_blocks s) -> nsize mod sz s = 0 -> honest s (chunks s) sys ->
  match sys (alignsize s + nsize) with
  | None => allocChunk sys s nsize = Ok s
  | Some a => exists s', allocChunk sys s nsize = Ok s' /\ chunks s' = (a, nsize) :: chunks s /\ sz s' = sz s /\ align s' = align s /\ alignsize s' = alignsize s /\
      inv s' live (rev (blocks (alignsize s) (sz s) (a, nsize)) ++ free)
  end.
Proof.
  intros Hz Ha Hm1 Hm2 CO L P Hn HS. unfold allocChunk. destruct (sys (alignsize s + nsize)) as [a|] eqn:Es; [|reflexivity]. destruct (HS _ _ Es) as (A1 & A2).
  assert (Hz0 : 0 < sz s) by (unfold W in Hz; lia).
  assert (En : nsize = (nsize / sz s) * sz s). { rewrite Nat.mul_comm. apply Nat.div_exact; lia. }
  destruct (init_ok (sz s) Hz (nsize / sz s) nsize (mem s) (freelist s) (a + alignsize s) free) as (m' & fl' & E & L').
  - apply Nat.div_le_upper_bound; [lia|]. rewrite <- (Nat.mul_1_l nsize) at 1. apply Nat.mul_le_mono_r. lia.
  - exact L.
  - intros x Hx. assert (X : In x (all_blocks s)) by (eapply Permutation_in; [exact P|]; apply in_or_app; right; exact Hx). unfold all_blocks in X. apply in_flat_map in X. destruct X as ([c k] & Hc & X). apply (in_blocks _ _ _ _ Hz0) in X. destruct X as (j & -> & Hj). cbn [fst snd] in *. specialize (A2 c k Hc). unfold disjoint in A2. lia.
  - rewrite <- En in E. rewrite E. cbn [bind]. eexists. split; [reflexivity|]. do 4 (split; [reflexivity|]). unfold inv, all_blocks in *. cbn [sz align alignsize chunks mem freelist flat_map].
    split; [exact Hz|]. split; [exact Ha|]. split; [exact Hm1|]. split; [exact Hm2|]. split.
    { destruct CO as (C1 & C2). split.
      - intros c k [H|H]; [injection H as <- <-; auto|apply (C1 c k H)].
      - constructor; [|exact C2]. apply Forall_forall. intros [c k] Hc. cbn [fst snd]. apply A2. exact Hc. }
    split; [discriminate|]. split; [exact L'|]. fold (all_blocks s) in *. eapply Permutation_trans; [apply Permutation_app_swap_app|]. apply Permutation_app; [apply Permutation_sym, Permutation_rev|exact P].
Qed.
Lemma align_ok z al : 0 < al -> exists n, align_up z al = Ok n /\ z <= n /\ n mod al = 0.
Proof.
  intros Ha. unfold align_up. destruct al as [|al]; [lia|]. eexists. split; [reflexivity|]. split; [|apply Nat.mod_mul; lia].
  pose proof (Nat.div_mod z (S al) ltac:(lia)). pose proof (Nat.mod_upper_bound z (S al) ltac:(lia)). rewrite Nat.mul_add_distr_r. destruct (Nat.eqb_spec (z mod S al) 0); rewrite (Nat.mul_comm (z / S al)); lia.
Qed.
Lemma new_inv m sys size init al : W <= size -> 0 < al -> (forall n a, sys n = Some a -> a mod al = 0) -> (forall n, sys n <> None) -> exists s free, new_ba m sys size init al = Ok s /\ inv s [] free /\ exists a, chunks s = [(a, init * sz s)].
Proof.
  intros Hw Ha HS HN. unfold new_ba. destruct (align_ok size al Ha) as (z & -> & Z1 & Z2). cbn [bind]. destruct (align_ok NODE al Ha) as (w & -> & W1 & W2). cbn [bind].
  pose proof (chunk_ok (mkba m [] None z al w) [] [] (init * z) sys) as C. cbn [sz align alignsize chunks mem freelist] in C. destruct (sys (w + init * z)) as [a|] eqn:Es; [|destruct (HN _ Es)].
  destruct C as (s & E & Q1 & Q2 & Q3 & Q4 & I).
  - lia.
  - exact Ha.
  - exact Z2.
  - exact W2.
  - split; [intros c k []|constructor].
  - reflexivity.
  - constructor.
  - apply Nat.mod_mul. unfold W in Hw. lia.
  - intros n b Hb. split; [apply (HS n b Hb)|intros c k []].
  - rewrite E. exists s. eexists. split; [reflexivity|]. split; [exact I|]. exists a. rewrite Q1, Q2. reflexivity.
Qed.
Lemma sum_fold l n : fold_left (fun n (c : nat * nat) => n + snd c) l n = n + fold_right (fun c n => snd c + n) 0 l.
Proof. revert n. induction l as [|c l IH]; intros n; cbn [fold_left fold_right]; [lia|]. rewrite IH. lia. Qed.
Lemma sum_mod z (l : list (nat * nat)) : z <> 0 -> (forall c k, In (c, k) l -> k mod z = 0) -> fold_right (fun c n => snd c + n) 0 l mod z = 0.
Proof. intros Hz. induction l as [|[c k] l IH]; intros H; [apply Nat.mod_0_l; exact Hz|]. cbn [fold_right snd]. rewrite Nat.add_mod by exact Hz. rewrite (H c k (or_introl eq_refl)), IH; [rewrite Nat.add_0_l; apply Nat.mod_0_l; exact Hz|]. intros c' k' Hc. apply (H c' k'). right. exact Hc. Qed.
Lemma clear_inv s live free sys : inv s live free -> honest s [] sys -> (forall n, sys n <> None) -> exists s' free', Clear sys s = Ok s' /\ inv s' [] free' /\ sz s' = sz s /\ exists a, chunks s' = [(a, fold_right (fun c n => snd c + n) 0 (chunks s))].
Proof.
  intros (I1 & I2 & I3 & I4 & (I5 & _) & _) HS HN. unfold Clear. rewrite sum_fold, Nat.add_0_l. set (n := fold_right _ 0 (chunks s)).
  pose proof (chunk_ok (mkba (mem s) [] None (sz s) (align s) (alignsize s)) [] [] n sys) as C. cbn [sz align alignsize chunks mem freelist] in C. destruct (sys (alignsize s + n)) as [a|] eqn:Es; [|destruct (HN _ Es)].
  destruct C as (s' & E & Q1 & Q2 & Q3 & Q4 & I).
  - exact I1.
  - exact I2.
  - exact I3.
  - exact I4.
  - split; [intros c k []|constructor].
  - reflexivity.
  - constructor.
  - apply sum_mod; [unfold W in I1; lia|]. intros c k H. apply (I5 c k H).
  - intros m b Hb. destruct (HS m b Hb) as (H & _). split; [exact H|intros c k []].
  - rewrite E. exists s'. eexists. split; [reflexivity|]. split; [exact I|]. split; [exact Q2|]. exists a. rewrite Q1. reflexivity.
Qed.
Lemma live_in s live free p : inv s live free -> In p live -> In p (all_blocks s).
Proof. intros I H. eapply Permutation_in; [apply I|]. apply in_or_app. auto. Qed.
Lemma free_in s live free p : inv s live free -> In p free -> In p (all_blocks s).
Proof. intros I H. eapply Permutation_in; [apply I|]. apply in_or_app. auto. Qed.
Lemma inv_nodup s live free : inv s live free -> NoDup (live ++ free).
Proof. intros (I1 & _ & _ & _ & I5 & _ & _ & P). eapply Permutation_NoDup; [apply Permutation_sym; exact P|]. eapply all_nodup; [|exact I5]. unfold W in I1. lia. Qed.
Lemma inv_disj s live free p : inv s live free -> In p live -> In p free -> False.
Proof. intros I. pose proof (inv_nodup _ _ _ I) as N. clear I. intros H1 H2. induction live as [|x live IH]; [destruct H1|]. cbn [app] in N. inversion N as [|? ? N1 N2]; subst. destruct H1 as [->|H1]; [apply N1; apply in_or_app; auto|]. auto. Qed.
Lemma inv_spaced s live free p q : inv s live free -> In p (live ++ free) -> In q (live ++ free) -> p <> q -> p + sz s <= q \/ q + sz s <= p.
Proof. intros I Hp Hq. pose proof I as (I1 & _ & _ & _ & I5 & _ & _ & P). eapply blocks_spaced; [unfold W in I1; lia|exact I5| |]; eapply Permutation_in; eassumption. Qed.
Lemma perm_remove (p : nat) l : NoDup l -> In p l -> Permutation l (p :: filter (fun q => negb (q =? p)) l).
Proof.
  intros N H. induction N as [|x l Hx N IH]; [destruct H|]. cbn [filter]. destruct (Nat.eqb_spec x p) as [->|Nx]; cbn [negb].
  - apply perm_skip. clear IH N H. induction l as [|y l IH]; [constructor|]. cbn [filter]. destruct (Nat.eqb_spec y p) as [->|]; [exfalso; apply Hx; left; reflexivity|]. cbn [negb]. apply perm_skip. apply IH. intros X. apply Hx. right. exact X.
  - destruct H as [H|H]; [contradiction|]. eapply Permutation_trans; [apply perm_skip; apply IH; exact H|]. apply perm_swap.
Qed.
Lemma dealloc_inv s live free p : inv s live free -> In p live -> inv (Dealloc s p) (filter (fun q => negb (q =? p)) live) (p :: free).
Proof.
  intros I Hp. pose proof I as (I1 & I2 & I3 & I4 & I5 & I6 & I7 & P). unfold inv, all_blocks, Dealloc. cbn [sz align alignsize chunks mem freelist]. do 6 (split; [assumption|]). split.
  - split; [reflexivity|]. exists (freelist s). split; [apply wr_same|]. apply (linked_ext (mem s)); [|exact I7]. intros x Hx. apply wr_other. assert (p <> x) by (intros ->; eapply inv_disj; eassumption). destruct (inv_spaced s live free p x I) as [X|X]; [apply in_or_app; auto|apply in_or_app; auto|assumption|left|right]; lia.
  - fold (all_blocks s). eapply Permutation_trans; [|exact P]. eapply Permutation_trans; [apply Permutation_sym, Permutation_middle|]. rewrite app_comm_cons. apply Permutation_app_tail. apply Permutation_sym, perm_remove; [|exact Hp]. pose proof (inv_nodup _ _ _ I) as N. clear -N. induction live as [|x live IH]; [constructor|]. cbn [app] in N. inversion N as [|? ? N1 N2]; subst. constructor; [|auto]. intros X. apply N1. apply in_or_app. auto.
Qed.
Lemma scribble_inv s live free p f : inv s live free -> In p live -> inv (scribble s p f) live free.
Proof.
  intros I Hp. pose proof I as (I1 & I2 & I3 & I4 & I5 & I6 & I7 & P). unfold inv, all_blocks, scribble. cbn [sz align alignsize chunks mem freelist]. do 6 (split; [assumption|]). split; [|exact P].
  apply (linked_ext (mem s)); [|exact I7]. intros x Hx. cbn beta. assert (p <> x) by (intros ->; eapply inv_disj; eassumption). assert ((x <? p + sz s) && (p <? x + W) = false) as ->; [|reflexivity]. destruct (inv_spaced s live free p x I) as [X|X]; [apply in_or_app; auto|apply in_or_app; auto|assumption| |]; lia.
Qed.
(* taking the first free block *)
Lemma pop_inv s live free p : inv s live (p :: free) -> exists n, freelist s = Some p /\ mem s p = Some n /\ inv (mkba (mem s) (chunks s) n (sz s) (align s) (alignsize s)) (p :: live) free.
Proof.
  intros (I1 & I2 & I3 & I4 & I5 & I6 & (E & n & Hn & L) & P). exists n. split; [exact E|]. split; [exact Hn|]. unfold inv, all_blocks. cbn [sz align alignsize chunks mem freelist]. do 6 (split; [assumption|]). split; [exact L|]. fold (all_blocks s). eapply Permutation_trans; [|exact P]. cbn [app]. apply Permutation_middle.
Qed.
Lemma alloc_inv s live free sys : inv s live free -> honest s (chunks s) sys ->
  match free with
  | p :: free' => exists s', Alloc sys s = Ok (s', Some p) /\ inv s' (p :: live) free' /\ chunks s' = chunks s /\ sz s' = sz s
  | [] => (exists c0 k0 rest, chunks s = (c0, k0) :: rest /\ sys (alignsize s + Growth.fbnext_nat (k0 / sz s) * sz s) = None /\ Alloc sys s = Ok (s, None)) \/
          (exists s' a n p free', Alloc sys s = Ok (s', Some p) /\ inv s' (p :: live) free' /\ chunks s' = (a, n) :: chunks s /\ In p (blocks (alignsize s) (sz s) (a, n)) /\ sz s' = sz s /\ alignsize s' = alignsize s)
  end.
Proof.
  intros I HS. unfold Alloc. destruct free as [|p free].
  - pose proof I as (I1 & I2 & I3 & I4 & I5 & I6 & I7 & P). cbn [linked] in I7. rewrite I7. unfold grow. destruct (chunks s) as [|[c0 k0] rest] eqn:Ec; [congruence|]. assert (Hz : exists z, sz s = S z) by (exists (sz s - 1); unfold W in I1; lia). destruct Hz as (z & Hz). set (n := Growth.fbnext_nat (k0 / sz s) * sz s).
    assert (E0 : match sz s with 0 => UB | S _ => allocChunk sys s n end = allocChunk sys s n) by (rewrite Hz; reflexivity). rewrite E0. clear E0. rewrite <- Ec in *.
    pose proof (chunk_ok s live [] n sys I1 I2 I3 I4 I5) as C. rewrite I7 in C. specialize (C eq_refl P). specialize (C ltac:(apply Nat.mod_mul; lia) HS). destruct (sys (alignsize s + n)) as [a|] eqn:Es.
    + destruct C as (s' & E & Q1 & Q2 & Q3 & Q4 & I'). rewrite E. cbn [bind]. right. rewrite app_nil_r in I'.
      assert (Nb : rev (blocks (alignsize s) (sz s) (a, n)) <> []). { intros Q. apply (f_equal (@length _)) in Q. rewrite rev_length in Q. unfold blocks in Q. rewrite map_length, seq_length in Q. cbn [snd length] in Q. unfold n in Q. rewrite Nat.div_mul in Q by lia. pose proof (Growth.fbnext_nat_gt (k0 / sz s)) as X. rewrite Q in X. exact (Nat.nlt_0_r _ X). }
      destruct (rev (blocks (alignsize s) (sz s) (a, n))) as [|p free'] eqn:Er; [congruence|]. destruct (pop_inv _ _ _ _ I') as (x & -> & -> & I''). eexists _, a, n, p, free'. split; [reflexivity|]. split; [exact I''|]. cbn [chunks sz alignsize]. split; [exact Q1|]. split; [|split; [exact Q2|exact Q4]]. apply in_rev. rewrite Er. left. reflexivity.
    + rewrite C. cbn [bind]. rewrite I7. left. exists c0, k0, rest. auto.
  - destruct (pop_inv _ _ _ _ I) as (x & E1 & E2 & I'). rewrite E1. cbn [bind]. rewrite E1, E2. eexists. split; [reflexivity|]. split; [exact I'|]. auto.
Qed.
Lemma reachable_inv s live : reachable s live -> exists free, inv s live free.
Proof.
  intros R. induction R as [m sys size init al s H1 H2 H3 H4 E|s live sys s' p R (free & I) HS E|s live sys s' R (free & I) HS E|s live p R (free & I) Hp|s live p f R (free & I) Hp|s live sys s' R (free & I) HS HN E].
  - destruct (new_inv m sys size init al H1 H2 H3 H4) as (s0 & free & E0 & I0 & _). rewrite E0 in E. injection E as <-. eauto.
  - pose proof (alloc_inv s live free sys I HS) as A. destruct free as [|q free]; [destruct A as [(c0 & k0 & rest & _ & _ & A)|(s1 & a & n & q & free' & A & I' & _)]|destruct A as (s1 & A & I' & _)]; rewrite A in E; try discriminate E; injection E as <- <-; eauto.
  - pose proof (alloc_inv s live free sys I HS) as A. destruct free as [|q free]; [destruct A as [(c0 & k0 & rest & _ & _ & A)|(s1 & a & n & q & free' & A & I' & _)]|destruct A as (s1 & A & I' & _)]; rewrite A in E; try discriminate E; injection E as <-; eauto.
  - exists (p :: free). apply dealloc_inv; assumption.
  - exists free. apply scribble_inv; assumption.
  - destruct (clear_inv s live free sys I HS HN) as (s1 & free' & E1 & I1 & _). rewrite E1 in E. injection E as <-. eauto.
Qed.
Lemma linked_fun m l l' : forall p, linked m p l -> linked m p l' -> l = l'.
Proof.
  revert l'. induction l as [|x l IH]; intros [|y l'] p H H'; cbn [linked] in *; [reflexivity|destruct H' as (H' & _); congruence|destruct H as (H & _); congruence|].
  destruct H as (E & n & Hn & L), H' as (E' & n' & Hn' & L'). assert (x = y) by congruence. subst y. assert (n = n') by congruence. subst n'. f_equal. eapply IH; eassumption.
Qed.
Lemma all_length s : length (all_blocks s) = capacity s.
Proof. unfold all_blocks, capacity. induction (chunks s) as [|c cs IH]; [reflexivity|]. cbn [flat_map fold_right]. rewrite app_length, IH. unfold blocks. rewrite map_length, seq_length. reflexivity. Qed.

(* --------------------------------------------------- theorems --------------------------------------------------- *)
(* At every moment: the blocks handed out are distinct, do not overlap, and are aligned blocks of the chunks; the free list
   is intact, its blocks are blocks of the chunks none of which is handed out, and together they are all the blocks. *)
Theorem C44_blocks s live : reachable s live ->
  NoDup live /\ (forall p q, In p live -> In q live -> p <> q -> disjoint p (sz s) q (sz s)) /\
  (forall p, In p live -> p mod align s = 0 /\ exists c, In c (chunks s) /\ block_of s c p) /\
  exists free, linked (mem s) (freelist s) free /\ NoDup free /\ (forall p, In p free -> ~ In p live /\ exists c, In c (chunks s) /\ block_of s c p) /\
    (forall c p, In c (chunks s) -> block_of s c p -> In p live \/ In p free) /\
    length live + length free = capacity s.
Proof.
  intros R. destruct (reachable_inv s live R) as (free & I). pose proof (inv_nodup _ _ _ I) as N. pose proof I as (I1 & I2 & I3 & I4 & (I5 & I5') & I6 & I7 & P). assert (Hz : 0 < sz s) by (unfold W in I1; lia).
  assert (B : forall p, In p (all_blocks s) -> exists c, In c (chunks s) /\ block_of s c p). { intros p H. unfold all_blocks in H. apply in_flat_map in H. destruct H as (c & Hc & H). exists c. split; [exact Hc|]. apply (in_blocks _ _ _ _ Hz) in H. exact H. }
  split; [|split; [|split]].
  - clear -N. induction live as [|x live IH]; [constructor|]. cbn [app] in N. inversion N as [|? ? N1 N2]; subst. constructor; [|auto]. intros X. apply N1. apply in_or_app. auto.
  - intros p q Hp Hq Npq. apply (inv_spaced s live free); [exact I|apply in_or_app; auto|apply in_or_app; auto|exact Npq].
  - intros p Hp. destruct (B p (live_in _ _ _ _ I Hp)) as ([c k] & Hc & Hb). split; [|exists (c, k); auto]. destruct Hb as (j & -> & _). cbn [fst]. destruct (I5 c k Hc) as (_ & A). assert (align s <> 0) by lia.
    rewrite Nat.add_mod, (Nat.add_mod c), A, I4 by assumption. rewrite Nat.add_0_l, Nat.mod_0_l, Nat.add_0_l, Nat.mod_mod by assumption. rewrite Nat.mul_mod, I3 by assumption. rewrite Nat.mul_0_r. apply Nat.mod_0_l. assumption.
  - exists free. split; [exact I7|]. split; [|split; [|split]].
    + clear -N. induction live as [|x live IH]; [exact N|]. cbn [app] in N. inversion N; auto.
    + intros p Hp. split; [intros X; eapply inv_disj; eassumption|]. apply B. eapply free_in; eassumption.
    + intros c p Hc Hb. apply in_app_or. eapply Permutation_in; [apply Permutation_sym; exact P|]. unfold all_blocks. apply in_flat_map. exists c. split; [exact Hc|]. apply (in_blocks _ _ _ _ Hz). exact Hb.
    + rewrite <- all_length, <- (Permutation_length P), app_length. reflexivity.
Qed.
(* Alloc always answers.  While the free list is not empty it takes its first block, without asking the system for memory;
   otherwise it takes a block of a new chunk, and only fails if the system does. *)
Theorem C44_Alloc s live sys : reachable s live -> honest s (chunks s) sys ->
  exists s' r, Alloc sys s = Ok (s', r) /\
    match freelist s, r with
    | Some p, _ => r = Some p /\ chunks s' = chunks s
    | None, Some p => ~ In p live /\ exists a n, chunks s' = (a, n) :: chunks s /\ block_of s' (a, n) p
    | None, None => s' = s /\ length live = capacity s /\ exists n, sys n = None
    end.
Proof.
  intros R HS. destruct (reachable_inv s live R) as (free & I). pose proof (alloc_inv s live free sys I HS) as A. pose proof I as (I1 & I2 & I3 & I4 & I5 & I6 & I7 & P). destruct free as [|p free].
  - cbn [linked] in I7. rewrite I7. destruct A as [(c0 & k0 & rest & Ec & Es & A)|(s1 & a & n & q & free' & A & I' & Q1 & Q2 & Q3 & Q4)]; eexists _, _; (split; [exact A|]).
    + split; [reflexivity|]. split; [|eexists; exact Es]. rewrite <- all_length, <- (Permutation_length P), app_nil_r. reflexivity.
    + split; [pose proof (inv_nodup _ _ _ I') as N; cbn [app] in N; inversion N as [|? ? N1 N2]; subst; intros X; apply N1; apply in_or_app; auto|]. exists a, n. split; [exact Q1|]. unfold block_of. rewrite Q3, Q4. assert (Hz : 0 < sz s) by (unfold W in I1; lia). apply (in_blocks _ _ _ _ Hz) in Q2. exact Q2.
  - destruct I7 as (E & _). rewrite E. destruct A as (s1 & A & _ & Q1 & _). exists s1, (Some p). auto.
Qed.
(* a block that was just returned is handed out next; nobody else's block is touched *)
Theorem C44_recycle s live p sys : reachable s live -> In p live -> exists s', Alloc sys (Dealloc s p) = Ok (s', Some p) /\ freelist s' = freelist s /\ chunks s' = chunks s.
Proof. intros R Hp. unfold Alloc, Dealloc. cbn [freelist bind mem chunks]. rewrite wr_same. eexists. split; [reflexivity|]. auto. Qed.
(* Clear makes all blocks free again, in one chunk *)
Theorem C44_Clear s live sys : reachable s live -> honest s [] sys -> (forall n, sys n <> None) ->
  exists s' free, Clear sys s = Ok s' /\ linked (mem s') (freelist s') free /\ length free = capacity s' /\ capacity s' = capacity s /\ length (chunks s') = 1.
Proof.
  intros R HS HN. destruct (reachable_inv s live R) as (free0 & I). destruct (clear_inv s live free0 sys I HS HN) as (s' & free & E & I' & Qz & a & Qc). exists s', free. split; [exact E|]. destruct I' as (_ & _ & _ & _ & _ & _ & L & P). split; [exact L|]. split; [rewrite <- all_length, <- (Permutation_length P); reflexivity|]. split; [|rewrite Qc; reflexivity].
  unfold capacity. rewrite Qc, Qz. cbn [fold_right snd]. rewrite Nat.add_0_r. destruct I as (I1 & _ & _ & _ & (I5 & _) & _). assert (Hz : sz s <> 0) by (unfold W in I1; lia). clear -I5 Hz. induction (chunks s) as [|[c k] cs IH]; [apply Nat.div_0_l; exact Hz|]. cbn [fold_right snd]. rewrite <- IH by (intros c' k' H; apply (I5 c' k'); right; exact H).
  destruct (I5 c k (or_introl eq_refl)) as (Hk & _). apply Nat.div_exact in Hk; [|exact Hz]. rewrite Hk at 1. rewrite Nat.mul_comm, Nat.div_add_l by exact Hz. reflexivity.
Qed.
Print Assumptions C44_blocks.
Print Assumptions C44_Alloc.
Print Assumptions C44_recycle.
Print Assumptions C44_Clear.

(* what the theorems leave out: if the system has no memory for Clear, the next Alloc reads through the null pointer _root *)
Theorem C44_clear_without_memory_refuted : exists m sys s s', new_ba m sys 8 2 8 = Ok s /\ Clear (fun _ => None) s = Ok s' /\ Alloc sys s' = UB.
Proof. exists (fun _ => None), (fun _ => Some 64). do 2 eexists. split; [reflexivity|]. split; reflexivity. Qed.

Definition ex_sys (a n : nat) : option nat := Some a.
Lemma honest_none s l : honest s l (fun _ => None).
Proof. intros n a H. discriminate H. Qed.
Example C44_example : exists s live, reachable s live /\ length live = 3 /\ capacity s = 6 /\ length (chunks s) = 2 /\ NoDup live.
Proof.
  assert (X : exists s, new_ba (fun _ => None) (ex_sys 0) 8 2 1 = Ok s /\ chunks s = [(0, 16)] /\ align s = 1 /\ sz s = 8 /\ alignsize s = 16) by (eexists; vm_compute; repeat split).
  destruct X as (s & E & Q1 & Q2 & Q3 & Q4).
  pose proof (r_new (fun _ => None) (ex_sys 0) 8 2 1 s ltac:(unfold W; lia) ltac:(lia) ltac:(intros n a H; injection H as <-; reflexivity) ltac:(discriminate) E) as R.
  destruct (new_inv (fun _ => None) (ex_sys 0) 8 2 1 ltac:(unfold W; lia) ltac:(lia) ltac:(intros n a H; injection H as <-; reflexivity) ltac:(discriminate)) as (s0 & free & E0 & I & _). rewrite E in E0. injection E0 as <-.
  assert (L : length free = 2). { destruct I as (_ & _ & _ & _ & _ & _ & _ & P). apply Permutation_length in P. rewrite all_length in P. unfold capacity in P. rewrite Q1, Q3 in P. exact P. }
  destruct free as [|p [|q [|? ?]]]; try discriminate L. clear L E.
  destruct (alloc_inv s [] (p :: [q]) (fun _ => None) I (honest_none _ _)) as (s1 & E1 & I1 & C1 & Z1). pose proof (r_alloc _ _ _ _ _ R (honest_none _ _) E1) as R1.
  destruct (alloc_inv s1 [p] [q] (fun _ => None) I1 (honest_none _ _)) as (s2 & E2 & I2 & C2 & Z2). pose proof (r_alloc _ _ _ _ _ R1 (honest_none _ _) E2) as R2.
  pose proof (r_write _ _ p (fun _ => Some (Some 5)) R2 ltac:(cbn; tauto)) as R3. pose proof (scribble_inv _ _ _ p (fun _ => Some (Some 5)) I2 ltac:(cbn; tauto)) as I3.
  set (s3 := scribble s2 p (fun _ => Some (Some 5))) in *.
  assert (A3 : align s3 = 1). { assert (align s1 = align s /\ align s2 = align s1) as (T1 & T2); [|unfold s3; cbn [scribble align]; congruence]. split; [clear -E1|clear -E2]; unfold Alloc, grow in *; [destruct (freelist s) eqn:F|destruct (freelist s1) eqn:F]; cbn [bind] in *; try (rewrite F in *; destruct (mem _ _) in *; [|discriminate]; injection E1 as <- || injection E2 as <-; reflexivity); [destruct (chunks s) as [|[? ?] ?]|destruct (chunks s1) as [|[? ?] ?]]; try discriminate; [destruct (sz s)|destruct (sz s1)]; try discriminate; cbn in *; rewrite F in *; discriminate. }
  assert (Hs : honest s3 (chunks s3) (ex_sys 64)). { intros n a H. injection H as <-. rewrite A3. split; [reflexivity|]. intros c k Hc. change (chunks s3) with (chunks s2) in Hc. rewrite C2, C1, Q1 in Hc. destruct Hc as [Hc|[]]. injection Hc as <- <-. right.
    change (alignsize s3) with (alignsize s2). assert (alignsize s1 = alignsize s /\ alignsize s2 = alignsize s1) as (T1 & T2); [|lia]. split; [clear -E1|clear -E2]; unfold Alloc, grow in *; [destruct (freelist s) eqn:F|destruct (freelist s1) eqn:F]; cbn [bind] in *; try (rewrite F in *; destruct (mem _ _) in *; [|discriminate]; injection E1 as <- || injection E2 as <-; reflexivity); [destruct (chunks s) as [|[? ?] ?]|destruct (chunks s1) as [|[? ?] ?]]; try discriminate; [destruct (sz s)|destruct (sz s1)]; try discriminate; cbn in *; rewrite F in *; discriminate. }
  destruct (C44_Alloc s3 _ _ R3 Hs) as (s4 & r & E4 & X4).
  assert (F3 : freelist s3 = None) by (destruct I3 as (_ & _ & _ & _ & _ & _ & L3 & _); exact L3). rewrite F3 in X4.
  destruct r as [x|]; [|destruct X4 as (_ & _ & n & X4); discriminate X4]. pose proof (r_alloc _ _ _ _ _ R3 Hs E4) as R4.
  pose proof (alloc_inv s3 _ [] (ex_sys 64) I3 Hs) as A4. destruct A4 as [(c0 & k0 & rest & _ & A4 & _)|(s4' & a & n & x' & free' & E4' & _ & C4 & _ & Z4 & _)]; [discriminate A4|]. rewrite E4 in E4'. injection E4' as <- <-.
  exists s4, (x :: [q; p]). split; [exact R4|]. split; [reflexivity|].
  assert (C4' : chunks s4 = (64, 32) :: chunks s3). { revert E4. unfold Alloc. rewrite F3. unfold grow. change (chunks s3) with (chunks s2). change (sz s3) with (sz s2). rewrite C2, C1, Q1, Z2, Z1, Q3. unfold allocChunk at 1. cbn [ex_sys].
    destruct (init_loop _ _ _ _ _ _) as [[m fl]| |]; cbn [bind]; [|discriminate|discriminate]. cbn [freelist mem chunks]. destruct fl as [y|]; [|discriminate]. destruct (m y); [|discriminate]. intros H. injection H as <- <-. cbn [chunks]. change (chunks s3) with (chunks s2). rewrite C2, C1, Q1. reflexivity. }
  split; [|split; [rewrite C4'; change (chunks s3) with (chunks s2); rewrite C2, C1, Q1; reflexivity|apply (C44_blocks _ _ R4)]].
  unfold capacity. rewrite C4', Z4. change (chunks s3) with (chunks s2). change (sz s3) with (sz s2). rewrite C2, C1, Q1, Z2, Z1, Q3. reflexivity.
Qed.
