(* Property C43: the lock-free block allocator never hands out a live block twice. *)
From Coq Require Import List Arith Bool Lia Permutation.
From Verif Require Import Common Growth Threads LocklessBlock.
Import ListNotations.

(* ------------------------------------------------ specification ------------------------------------------------ *)
(* the blocks reachable from p by following the first word of each *)
Fixpoint chain (m : nat -> option nat) (p : option nat) (l : list nat) : Prop :=
  match l with [] => p = None | a :: l => p = Some a /\ chain m (m a) l end.
(* the blocks a thread is about to put into the free list *)
Definition in_transit (p : pc) : list nat := match p with FLoad _ _ _ g | FWrite _ _ _ g _ | FCas _ _ _ g _ => g | _ => [] end.
(* the thread holds _flag *)
Definition growing (p : pc) : bool := match p with ALocked | AGrow | AClear | FLoad Growing _ _ _ | FWrite Growing _ _ _ _ | FCas Growing _ _ _ _ => true | _ => false end.

(* ---------------------------------------------------- proofs ---------------------------------------------------- *)
Section Proofs.
Context (tsz : nat) (Htsz : 0 < tsz).
Notation blocks := (blocks tsz).
Notation blocks_of := (blocks_of tsz).
Fixpoint seg (m : nat -> option nat) (g : list nat) : Prop :=
  match g with a :: ((b :: _) as g') => m a = Some b /\ seg m g' | _ => True end.
Definition held (s : sh) (x : option nat * nat) : Prop := snd x <= snd (fl s) /\ (snd x = snd (fl s) -> x = fl s) /\ forall a, fst x = Some a -> In a (blocks s).
Definition tr (s : sh) (p : option nat) (t : nat) (g : list nat) : Prop := g <> [] /\ hd_error g = p /\ last g 0 = t /\ seg (mem s) g.
Definition pc_ok (s : sh) (p : pc) : Prop :=
  match p with
  | AHave x => held s x
  | ACas q tag v => held s (Some q, tag) /\ (tag = snd (fl s) -> mem s q = v)
  | FLoad _ q t g => tr s q t g
  | FWrite _ q t g prev => tr s q t g /\ held s prev
  | FCas _ q t g prev => tr s q t g /\ held s prev /\ mem s t = fst prev
  | _ => True
  end.
Definition inv (s : sh) (ts : list pc) : Prop :=
  (exists F, chain (mem s) (fst (fl s)) F /\ Permutation (F ++ live s ++ flat_map in_transit ts) (blocks s)) /\
  NoDup (blocks s) /\ chunks s <> [] /\ (forall t p, nth_error ts t = Some p -> pc_ok s p) /\ count growing ts = Nat.b2n (flag s).
Lemma pt_eqb_ok x y : pt_eqb x y = true -> x = y.
Proof.
  destruct x as [[a|] n], y as [[b|] m]; unfold pt_eqb; cbn; intros H; try discriminate H.
  - apply andb_prop in H. destruct H as (H1 & H2). apply Nat.eqb_eq in H1, H2. congruence.
  - apply Nat.eqb_eq in H. congruence.
Qed.
Lemma wrm_neq m p v q : q <> p -> wrm m p v q = m q.
Proof. intros N. unfold wrm. destruct (Nat.eqb_spec q p); congruence. Qed.
Lemma wrm_eq m p v : wrm m p v p = v.
Proof. unfold wrm. rewrite Nat.eqb_refl. reflexivity. Qed.
Lemma chain_ext m m' p l : (forall a, In a l -> m' a = m a) -> chain m p l -> chain m' p l.
Proof. revert p. induction l as [|a l IH]; intros p E H; [exact H|]. destruct H as (-> & H). split; [reflexivity|]. rewrite E by (left; reflexivity). apply IH; [|exact H]. intros b Hb. apply E. right. exact Hb. Qed.
Lemma seg_cons m a b g : seg m (a :: b :: g) <-> m a = Some b /\ seg m (b :: g).
Proof. reflexivity. Qed.
Lemma last_cons2 (a b : nat) g d : last (a :: b :: g) d = last (b :: g) d.
Proof. reflexivity. Qed.
(* the last block of a segment does not matter to it *)
Lemma seg_ext m m' g : NoDup g -> (forall a, In a g -> a <> last g 0 -> m' a = m a) -> seg m g -> seg m' g.
Proof.
  induction g as [|a g IH]; intros D E H; [exact H|]. destruct g as [|b g]; [exact H|]. rewrite seg_cons in *. destruct H as (H1 & H2). inversion D as [|? ? Na D']; subst. split.
  - rewrite E; [exact H1|left; reflexivity|]. intros Q. apply Na. rewrite Q, last_cons2. clear. revert b. induction g as [|c g IH]; intros b; [left; reflexivity|]. right. apply IH.
  - apply IH; [exact D'| |exact H2]. intros c Hc Nc. apply E; [right; exact Hc|]. rewrite last_cons2. exact Nc.
Qed.
Lemma last_in (g : list nat) d : g <> [] -> In (last g d) g.
Proof. destruct g as [|a g]; [congruence|]. intros _. revert a. induction g as [|c g IH]; intros a; [left; reflexivity|]. right. apply IH. Qed.
Lemma chain_seg m g p F : g <> [] -> hd_error g = p -> seg m g -> chain m (m (last g 0)) F -> chain m p (g ++ F).
Proof.
  intros Ng <- S C. destruct g as [|a g]; [congruence|]. clear Ng. revert a S C. induction g as [|b g IH]; intros a S C; [split; [reflexivity|exact C]|]. rewrite seg_cons in S. destruct S as (S1 & S2). cbn [app hd_error]. split; [reflexivity|]. rewrite S1. apply (IH b S2 C).
Qed.
Lemma pc_ok_mem s m' p :
  pc_ok s p -> NoDup (in_transit p) ->
  (forall a, fst (fl s) = Some a -> m' a = mem s a) -> (forall a, In a (in_transit p) -> m' a = mem s a) ->
  pc_ok (mksh (fl s) (flag s) (chunks s) m' (live s)) p.
Proof.
  intros H D HF HT. destruct p as [| |x|q tag v| | | | |c q t g|c q t g prev|c q t g prev]; cbn in *; try exact H.
  - destruct H as (A & B). split; [exact A|]. intros E. rewrite <- (B E). apply HF. destruct A as (_ & A & _). rewrite <- (A E). reflexivity.
  - destruct H as (A & B & C & S). repeat (split; [assumption|]). apply (seg_ext (mem s)); auto.
  - destruct H as ((A & B & C & S) & H). split; [|exact H]. repeat (split; [assumption|]). apply (seg_ext (mem s)); auto.
  - destruct H as ((A & B & C & S) & H & E). split; [|split; [exact H|]].
    + repeat (split; [assumption|]). apply (seg_ext (mem s)); auto.
    + rewrite HT; [exact E|]. subst t. apply last_in. exact A.
Qed.
(* changes of the other fields *)
Lemma held_mono s s' x : held s x -> snd (fl s) <= snd (fl s') -> (snd (fl s') = snd (fl s) -> fl s' = fl s) -> incl (blocks s) (blocks s') -> held s' x.
Proof.
  intros (A & B & C) L E I. split; [lia|]. split; [|intros a Ha; apply I, (C a Ha)]. intros Q. assert (Q1 : snd (fl s') = snd (fl s)) by lia. rewrite (E Q1). apply B. lia.
Qed.
Lemma pc_ok_mono s s' p : pc_ok s p -> mem s' = mem s -> snd (fl s) <= snd (fl s') -> (snd (fl s') = snd (fl s) -> fl s' = fl s) -> incl (blocks s) (blocks s') -> pc_ok s' p.
Proof.
  intros H EM L E I. assert (HH : forall x, held s x -> held s' x) by (intros x Hx; apply (held_mono s s' x Hx L E I)).
  destruct p as [| |x|q tag v| | | | |c q t g|c q t g prev|c q t g prev]; cbn in *; try exact H; unfold tr in *; rewrite ?EM; auto.
  - destruct H as (A & B). split; [apply HH, A|]. intros Q. apply B. destruct A as (A & _). cbn in A. lia.
  - destruct H as (A & B). auto.
  - destruct H as (A & B & C). auto.
Qed.
Lemma nodup_app_l {A} (l1 l2 : list A) : NoDup (l1 ++ l2) -> NoDup l1.
Proof. induction l1 as [|a l1 IH]; intros H; [constructor|]. cbn in H. inversion H as [|? ? N D]; subst. constructor; [intros Q; apply N, in_or_app; left; exact Q|apply IH, D]. Qed.
Lemma nodup_app_r {A} (l1 l2 : list A) : NoDup (l1 ++ l2) -> NoDup l2.
Proof. induction l1 as [|a l1 IH]; intros H; [exact H|]. cbn in H. inversion H; subst. apply IH. assumption. Qed.
Lemma nodup_app_not {A} (l1 l2 : list A) a : NoDup (l1 ++ l2) -> In a l1 -> In a l2 -> False.
Proof. induction l1 as [|b l1 IH]; intros H H1 H2; [destruct H1|]. cbn in H. inversion H as [|? ? N D]; subst. destruct H1 as [->|H1]; [apply N, in_or_app; right; exact H2|apply (IH D H1 H2)]. Qed.
Lemma transit_nodup ts t p : NoDup (flat_map in_transit ts) -> nth_error ts t = Some p -> NoDup (in_transit p).
Proof.
  revert t. induction ts as [|y ts IH]; intros [|t] D H; try discriminate H; cbn [nth_error flat_map] in *.
  - injection H as ->. apply (nodup_app_l _ _ D).
  - apply (IH t); [apply (nodup_app_r _ _ D)|exact H].
Qed.
(* --- the blocks of a new chunk --- *)
Lemma blocks_of_nodup c : NoDup (blocks_of c).
Proof. unfold LocklessBlock.blocks_of. apply FinFun.Injective_map_NoDup; [|apply seq_NoDup]. intros i j E. nia. Qed.
Lemma blocks_of_in c b : In b (blocks_of c) -> fst c + HDR <= b /\ b < fst c + HDR + snd c * tsz.
Proof. unfold LocklessBlock.blocks_of. intros H. apply in_map_iff in H. destruct H as (i & <- & H). apply in_seq in H. nia. Qed.
Lemma blocks_of_cons a k : blocks_of (a, S k) = a + HDR :: map (fun i => a + HDR + i * tsz) (seq 1 k).
Proof. unfold LocklessBlock.blocks_of. cbn [fst snd seq map]. f_equal. lia. Qed.
Lemma fresh_not s a k b : fresh_chunk tsz s a k -> In b (blocks_of (a, k)) -> In b (blocks s) -> False.
Proof.
  intros F H1 H2. unfold LocklessBlock.blocks in H2. apply in_flat_map in H2. destruct H2 as ([c j] & Hc & H2). apply blocks_of_in in H1, H2. cbn [fst snd] in *. specialize (F c j Hc). lia.
Qed.
(* what the loop of _initChunk leaves *)
Lemma init_links_ok bs m h : NoDup bs -> forall m' h', init_links m h bs = (m', h') -> 
  (forall b, ~ In b bs -> m' b = m b) /\ h' = hd_error (rev bs ++ match h with Some x => [x] | None => [] end) /\
  (forall b, hd_error bs = Some b -> m' b = h) /\ seg m' (rev bs).
Proof.
  revert m h. induction bs as [|b bs IH]; intros m h D m' h' E; cbn [init_links] in E.
  - injection E as <- <-. split; [reflexivity|]. split; [destruct h; reflexivity|]. split; [intros b Hb; discriminate Hb|exact I].
  - inversion D as [|? ? Nb D']; subst. destruct (IH _ _ D' _ _ E) as (A & B & C & S). split; [|split; [|split]].
    + intros c Hc. rewrite A by (intros Q; apply Hc; right; exact Q). apply wrm_neq. intros ->. apply Hc. left. reflexivity.
    + rewrite B. cbn [rev]. rewrite <- app_assoc. cbn [app]. destruct (rev bs); reflexivity.
    + intros c Hc. injection Hc as <-. rewrite A by exact Nb. apply wrm_eq.
    + cbn [rev]. destruct bs as [|c bs]; [exact Logic.I|]. specialize (C c eq_refl). cbn [rev] in S |- *. clear - S C. revert S. induction (rev bs) as [|x l IHl]; intros S.
      * cbn in *. split; [exact C|exact Logic.I].
      * cbn [app] in S |- *. destruct l as [|y l]; cbn [app] in *; destruct S as (S1 & S2); (split; [exact S1|apply IHl, S2]).
Qed.
Lemma fl_held s ts : inv s ts -> held s (fl s).
Proof.
  intros ((F & C & P) & _). split; [lia|]. split; [reflexivity|]. intros a Ha. destruct F as [|b F]; [rewrite C in Ha; discriminate Ha|]. destruct C as (C & _). rewrite C in Ha. injection Ha as <-. apply (Permutation_in _ P). left. reflexivity.
Qed.
Lemma perm_nodup s ts F : NoDup (blocks s) -> Permutation (F ++ live s ++ flat_map in_transit ts) (blocks s) -> NoDup (F ++ live s ++ flat_map in_transit ts).
Proof. intros D P. apply (Permutation_NoDup (Permutation_sym P) D). Qed.
Lemma quiet s b ts t p p' : inv s ts -> nth_error ts t = Some p -> in_transit p' = in_transit p -> pc_ok s p' -> Nat.b2n (growing p') + Nat.b2n (flag s) = Nat.b2n (growing p) + Nat.b2n b -> inv (set_flag s b) (upd ts t p').
Proof.
  intros ((F & C & P) & D & N & K & G) H ET HP EG. split; [|split; [exact D|split; [exact N|split]]].
  - exists F. split; [exact C|]. cbn [live set_flag]. change (blocks (set_flag s b)) with (blocks s). rewrite <- P. apply Permutation_app_head, Permutation_app_head. destruct (held_upd in_transit ts t p p' H) as (l & -> & ->). rewrite ET. reflexivity.
  - intros t' q Hq. apply upd_nth in Hq. destruct Hq as [(_ & ->)|(_ & Hq)]; [|apply K in Hq].
    + apply (pc_ok_mono s); [exact HP|reflexivity|cbn; lia|reflexivity|apply incl_refl].
    + apply (pc_ok_mono s); [exact Hq|reflexivity|cbn; lia|reflexivity|apply incl_refl].
  - pose proof (count_upd growing ts t p p' H) as Q. cbn [flag set_flag]. lia.
Qed.
Lemma quiet0 s ts t p p' : inv s ts -> nth_error ts t = Some p -> in_transit p' = in_transit p -> pc_ok s p' -> growing p' = growing p -> inv s (upd ts t p').
Proof. intros I H ET HP EG. destruct s as [f b cs m lv]. apply (quiet _ b ts t p p' I H ET HP). rewrite EG. reflexivity. Qed.
Lemma take_ok s ts t q v : inv s ts -> nth_error ts t = Some (ACas q (snd (fl s)) v) -> fst (fl s) = Some q ->
  inv (mksh (v, snd (fl s) + 1) (flag s) (chunks s) (mem s) (q :: live s)) (upd ts t Idle).
Proof.
  intros ((F & C & P) & D & N & K & G) H E. pose proof (K t _ H) as (_ & Kv). specialize (Kv eq_refl). destruct F as [|b F]; [rewrite C in E; discriminate E|]. destruct C as (C1 & C2). rewrite E in C1. injection C1 as <-. split; [|split; [exact D|split; [exact N|split]]].
  - exists F. cbn [fl fst mem live]. split; [rewrite <- Kv; exact C2|]. change (blocks (mksh _ _ (chunks s) _ _)) with (blocks s). rewrite <- P. destruct (held_upd in_transit ts t _ Idle H) as (l & -> & ->). cbn [in_transit app]. symmetry. apply Permutation_middle.
  - intros t' x Hx. apply upd_nth in Hx. destruct Hx as [(_ & ->)|(_ & Hx)]; [exact Logic.I|]. apply (pc_ok_mono s); [apply (K t' x Hx)|reflexivity|cbn; lia|cbn; lia|apply incl_refl].
  - pose proof (count_upd growing ts t _ Idle H) as Q. cbn in *. lia.
Qed.
Lemma put_ok s ts t c q tg g : inv s ts -> nth_error ts t = Some (FCas c q tg g (fl s)) ->
  inv (set_fl s (q, snd (fl s) + 1)) (upd ts t (match c with Freeing => Idle | Growing => AClear end)).
Proof.
  intros ((F & C & P) & D & N & K & G) H. pose proof (K t _ H) as ((T1 & T2 & T3 & T4) & _ & Kv). split; [|split; [exact D|split; [exact N|split]]].
  - exists (g ++ F). cbn [fl set_fl fst mem live]. split; [apply chain_seg; [exact T1|exact T2|exact T4|rewrite T3, Kv; exact C]|]. change (blocks (set_fl s (q, snd (fl s) + 1))) with (blocks s). rewrite <- P.
    destruct (held_upd in_transit ts t _ (match c with Freeing => Idle | Growing => AClear end) H) as (l & -> & ->). cbn [in_transit]. replace (in_transit _) with (@nil nat) by (destruct c; reflexivity). cbn [app].
    rewrite <- app_assoc. rewrite (Permutation_app_comm g). rewrite <- !app_assoc. apply Permutation_app_head, Permutation_app_head. apply Permutation_app_comm.
  - intros t' x Hx. apply upd_nth in Hx. destruct Hx as [(_ & ->)|(_ & Hx)]; [destruct c; exact Logic.I|]. apply (pc_ok_mono s); [apply (K t' x Hx)|reflexivity|cbn; lia|cbn; lia|apply incl_refl].
  - pose proof (count_upd growing ts t _ (match c with Freeing => Idle | Growing => AClear end) H) as Q. destruct c; cbn in *; lia.
Qed.
Lemma write_ok s ts t c q tg g prev : inv s ts -> nth_error ts t = Some (FWrite c q tg g prev) ->
  In tg (blocks s) /\ inv (mksh (fl s) (flag s) (chunks s) (wrm (mem s) tg (fst prev)) (live s)) (upd ts t (FCas c q tg g prev)).
Proof.
  intros ((F & C & P) & D & N & K & G) H. pose proof (K t _ H) as ((T1 & T2 & T3 & T4) & Kh). pose proof (perm_nodup s ts F D P) as DD.
  assert (Hg : In tg g) by (rewrite <- T3; apply last_in; exact T1). pose proof (held_in in_transit ts t _ tg H Hg) as Ht.
  assert (NF : forall a, In a F -> a <> tg). { intros a Ha ->. apply (nodup_app_not _ _ tg DD Ha). apply in_or_app. right. exact Ht. }
  assert (DT : NoDup (flat_map in_transit ts)) by (apply nodup_app_r, nodup_app_r in DD; exact DD).
  split; [apply (Permutation_in _ P), in_or_app; right; apply in_or_app; right; exact Ht|]. split; [|split; [exact D|split; [exact N|split]]].
  - exists F. cbn [fl mem live]. split; [apply (chain_ext (mem s)); [intros a Ha; apply wrm_neq, NF, Ha|exact C]|]. change (blocks (mksh _ _ (chunks s) _ _)) with (blocks s). rewrite <- P. apply Permutation_app_head, Permutation_app_head. destruct (held_upd in_transit ts t _ (FCas c q tg g prev) H) as (l & -> & ->). reflexivity.
  - intros t' x Hx. apply upd_nth in Hx. destruct Hx as [(_ & ->)|(Nt & Hx)].
    + cbn [pc_ok]. split; [|split; [apply (held_mono s); [exact Kh|cbn; lia|reflexivity|apply incl_refl]|cbn [mem]; apply wrm_eq]].
      repeat (split; [assumption|]). cbn [mem]. apply (seg_ext (mem s)); [apply (transit_nodup ts t _ DT H)| |exact T4]. intros a _ Na. apply wrm_neq. congruence.
    + apply pc_ok_mem; [apply (K t' x Hx)|apply (transit_nodup ts t' x DT Hx)| |].
      * intros a Ha. apply wrm_neq. destruct F as [|b F]; [rewrite C in Ha; discriminate Ha|]. destruct C as (C & _). rewrite C in Ha. injection Ha as <-. apply NF. left. reflexivity.
      * intros a Ha. apply wrm_neq. intros ->. apply (held_two in_transit ts t t' _ x tg DT (not_eq_sym Nt) H Hx Hg Ha).
  - pose proof (count_upd growing ts t _ (FCas c q tg g prev) H) as Q. destruct c; cbn in *; lia.
Qed.
Lemma grow_ok s ts t a c k rest : inv s ts -> nth_error ts t = Some AGrow -> chunks s = (c, k) :: rest -> fresh_chunk tsz s a (fbnext_nat k) ->
  forall m h, init_links (mem s) None (blocks_of (a, fbnext_nat k)) = (m, h) ->
  inv (mksh (fl s) (flag s) ((a, fbnext_nat k) :: chunks s) m (live s)) (upd ts t (FLoad Growing h (a + HDR) (rev (blocks_of (a, fbnext_nat k))))).
Proof.
  intros ((F & C & P) & D & N & K & G) H Ec FR m h E. pose proof (fbnext_nat_gt k) as Lk. set (j := fbnext_nat k) in *. clearbody j. pose proof (perm_nodup s ts F D P) as DD. pose proof (blocks_of_nodup (a, j)) as Dn.
  destruct (init_links_ok _ _ _ Dn _ _ E) as (A & B & Cl & S). rewrite app_nil_r in B.
  assert (EB : forall m' lv, blocks (mksh (fl s) (flag s) ((a, j) :: chunks s) m' lv) = blocks_of (a, j) ++ blocks s) by reflexivity.
  assert (ME : forall b, In b (blocks s) -> m b = mem s b). { intros b Hb. apply A. intros Q. apply (fresh_not s a j b FR Q Hb). }
  assert (DT : NoDup (flat_map in_transit ts)) by (apply nodup_app_r, nodup_app_r in DD; exact DD).
  split; [|split; [|split; [discriminate|split]]].
  - exists F. cbn [fl mem live]. split; [apply (chain_ext (mem s)); [|exact C]; intros b Hb; apply ME, (Permutation_in _ P), in_or_app; left; exact Hb|]. rewrite EB. rewrite <- P.
    destruct (held_upd in_transit ts t _ (FLoad Growing h (a + HDR) (rev (blocks_of (a, j)))) H) as (l & -> & ->). cbn [in_transit app]. rewrite <- Permutation_rev. rewrite !app_assoc. rewrite (Permutation_app_comm (F ++ live s)). rewrite <- !app_assoc. reflexivity.
  - rewrite EB. clear - Dn D FR Htsz. revert Dn. assert (X : forall b, In b (blocks_of (a, j)) -> ~ In b (blocks s)) by (intros b Hb Q; apply (fresh_not s a j b FR Hb Q)). revert X. induction (blocks_of (a, j)) as [|b l IH]; intros X Dn; [exact D|]. cbn [app]. inversion Dn as [|? ? Nb D']; subst. constructor; [|apply IH; [intros y Hy; apply X; right; exact Hy|exact D']]. intros Q. apply in_app_or in Q. destruct Q as [Q|Q]; [exact (Nb Q)|]. apply (X b); [left; reflexivity|exact Q].
  - intros t' x Hx. apply upd_nth in Hx. destruct Hx as [(_ & ->)|(Nt & Hx)].
    + cbn [pc_ok]. destruct j as [|j]; [lia|]. split; [|split; [exact (eq_sym B)|split; [|exact S]]].
      * rewrite blocks_of_cons. cbn [rev]. intros Q. apply app_eq_nil in Q. destruct Q. discriminate.
      * rewrite blocks_of_cons. cbn [rev]. apply last_last.
    + pose proof (K t' x Hx) as Kx. 
      assert (X : pc_ok (mksh (fl s) (flag s) (chunks s) m (live s)) x).
      { apply pc_ok_mem; [exact Kx|apply (transit_nodup ts t' x DT Hx)| |].
        - intros b Hb. apply ME. apply (Permutation_in _ P). apply in_or_app. left. destruct F as [|b' F]; [rewrite C in Hb; discriminate Hb|]. destruct C as (C & _). rewrite C in Hb. injection Hb as <-. left. reflexivity.
        - intros b Hb. apply ME. apply (Permutation_in _ P). apply in_or_app. right. apply in_or_app. right. apply (held_in in_transit ts t' x b Hx Hb). }
      eapply (pc_ok_mono _ _ x X); [reflexivity|cbn; lia|reflexivity|]. rewrite EB. intros b Hb. apply in_or_app. right. exact Hb.
  - pose proof (count_upd growing ts t _ (FLoad Growing h (a + HDR) (rev (blocks_of (a, j)))) H) as Q. cbn in *. lia.
Qed.
Lemma exec_ok s ts t p a : inv s ts -> nth_error ts t = Some p -> (p = AGrow -> forall c k rest, chunks s = (c, k) :: rest -> fresh_chunk tsz s a (fbnext_nat k)) ->
  exists s' p', exec tsz s p a = Ok (s', p') /\ inv s' (upd ts t p').
Proof.
  intros I H HF. pose proof I as ((F & C & P) & D & N & K & G). pose proof (K t p H) as Kp. pose proof (fl_held s ts I) as HFl.
  destruct p as [| |[[q|] tag]|q tag v| | | | |c q tg g|c q tg g prev|c q tg g prev]; cbn [exec].
  - eexists _, _. split; [reflexivity|]. apply (quiet0 s ts t _ _ I H); (reflexivity || exact Logic.I).
  - eexists _, _. split; [reflexivity|]. apply (quiet0 s ts t _ _ I H); (reflexivity || exact HFl).
  - cbn in Kp. unfold rd. destruct (in_dec Nat.eq_dec q (blocks s)) as [Q|Q]; [|destruct Kp as (_ & _ & Kp); destruct (Q (Kp q eq_refl))]. cbn [bind]. eexists _, _. split; [reflexivity|]. apply (quiet0 s ts t _ _ I H); try reflexivity. cbn. auto.
  - eexists _, _. split; [reflexivity|]. apply (quiet0 s ts t _ _ I H); (reflexivity || exact Logic.I).
  - destruct (pt_eqb (fl s) (Some q, tag)) eqn:E.
    + apply pt_eqb_ok in E. eexists _, _. split; [reflexivity|]. assert (E1 : tag = snd (fl s)) by (rewrite E; reflexivity). rewrite E1. apply (take_ok s ts t q v I); [rewrite <- E1; exact H|rewrite E; reflexivity].
    + eexists _, _. split; [reflexivity|]. apply (quiet0 s ts t _ _ I H); (reflexivity || exact HFl).
  - destruct (flag s) eqn:Ef.
    + eexists _, _. split; [reflexivity|]. apply (quiet0 s ts t _ _ I H); (reflexivity || exact Logic.I).
    + eexists _, _. split; [reflexivity|]. apply (quiet s true ts t _ _ I H); [reflexivity|exact Logic.I|]. rewrite Ef. reflexivity.
  - eexists _, _. split; [reflexivity|]. destruct (fst (fl s)); apply (quiet0 s ts t _ _ I H); (reflexivity || exact Logic.I).
  - destruct (chunks s) as [|[c k] rest] eqn:Ec; [congruence|]. destruct (init_links (mem s) None (blocks_of (a, fbnext_nat k))) as [m h] eqn:Ei. eexists _, _. split; [reflexivity|]. rewrite <- Ec. eapply grow_ok; [exact I|exact H|exact Ec|apply (HF eq_refl _ _ _ eq_refl)|exact Ei].
  - eexists _, _. split; [reflexivity|]. apply (quiet s false ts t _ _ I H); [reflexivity|exact Logic.I|]. pose proof (count_in growing ts t _ H eq_refl) as Q. destruct (flag s); cbn in *; lia.
  - eexists _, _. split; [reflexivity|]. apply (quiet0 s ts t _ _ I H); try reflexivity. cbn. auto.
  - destruct (write_ok s ts t c q tg g prev I H) as (W1 & W2). unfold wr. destruct (in_dec Nat.eq_dec tg (blocks s)) as [_|Q]; [|destruct (Q W1)]. cbn [bind]. eauto.
  - destruct (pt_eqb (fl s) prev) eqn:E.
    + apply pt_eqb_ok in E. subst prev. eexists _, _. split; [reflexivity|]. apply (put_ok s ts t c q tg g I H).
    + eexists _, _. split; [reflexivity|]. apply (quiet0 s ts t _ _ I H); try reflexivity. cbn in *. tauto.
Qed.
Lemma step_ok s ts r : inv s ts -> step tsz (s, ts) r -> exists s' ts', r = Ok (s', ts') /\ inv s' ts'.
Proof.
  intros I S. inversion S as [s0 ts0 t H|s0 ts0 t p l1 l2 H EL|s0 ts0 t p a H HF|s0 ts0 p v HL]; subst.
  - eexists _, _. split; [reflexivity|]. apply (quiet0 s ts t _ _ I H); (reflexivity || exact Logic.I).
  - eexists _, _. split; [reflexivity|]. pose proof I as ((F & C & P) & D & N & K & G). split; [|split; [exact D|split; [exact N|split]]].
    + exists F. cbn [fl mem live]. split; [exact C|]. change (blocks (mksh _ _ (chunks s) _ _)) with (blocks s). rewrite <- P, EL. destruct (held_upd in_transit ts t _ (FLoad Freeing (Some p) p [p]) H) as (l & -> & ->). cbn [in_transit app]. apply Permutation_app_head. rewrite <- !app_assoc. apply Permutation_app_head. cbn [app]. symmetry. apply Permutation_middle.
    + intros t' x Hx. apply upd_nth in Hx. destruct Hx as [(_ & ->)|(_ & Hx)]; [|apply (pc_ok_mono s); [apply (K t' x Hx)|reflexivity|cbn; lia|reflexivity|apply incl_refl]]. cbn. split; [discriminate|]. split; [reflexivity|]. split; [reflexivity|exact Logic.I].
    + pose proof (count_upd growing ts t _ (FLoad Freeing (Some p) p [p]) H) as Q. cbn in *. lia.
  - destruct (exec_ok s ts t p a I H HF) as (s' & p' & E & I'). rewrite E. cbn [bind]. eauto.
  - pose proof I as ((F & C & P) & D & N & K & G). pose proof (perm_nodup s ts F D P) as DD. unfold wr. destruct (in_dec Nat.eq_dec p (blocks s)) as [_|Q]; [|destruct Q; apply (Permutation_in _ P), in_or_app; right; apply in_or_app; left; exact HL]. cbn [bind]. eexists _, _. split; [reflexivity|].
    assert (NF : forall a, In a F -> a <> p). { intros a Ha ->. apply (nodup_app_not _ _ p DD Ha). apply in_or_app. left. exact HL. }
    assert (DT : NoDup (flat_map in_transit ts)) by (apply nodup_app_r, nodup_app_r in DD; exact DD).
    split; [|split; [exact D|split; [exact N|split; [|exact G]]]].
    + exists F. cbn [fl mem live]. split; [apply (chain_ext (mem s)); [intros a Ha; apply wrm_neq, NF, Ha|exact C]|exact P].
    + intros t' x Hx. apply pc_ok_mem; [apply (K t' x Hx)|apply (transit_nodup ts t' x DT Hx)| |].
      * intros a Ha. apply wrm_neq. destruct F as [|b F]; [rewrite C in Ha; discriminate Ha|]. destruct C as (C & _). rewrite C in Ha. injection Ha as <-. apply NF. left. reflexivity.
      * intros a Ha. apply wrm_neq. intros ->. apply nodup_app_r in DD. apply (nodup_app_not _ _ p DD HL). apply (held_in in_transit ts t' x p Hx Ha).
Qed.
Lemma new_ok n init a s : new_lb tsz init a = Ok s -> inv s (repeat Idle n).
Proof.
  unfold new_lb. destruct (init_links (fun _ => None) None (blocks_of (a, init))) as [m h] eqn:E. unfold wr. destruct (in_dec _ _ _) as [Hi|]; [|discriminate]. cbn [bind]. intros Q. injection Q as <-. cbn in Hi. rewrite app_nil_r in Hi.
  destruct init as [|j]; [destruct Hi|]. destruct (init_links_ok _ _ _ (blocks_of_nodup (a, S j)) _ _ E) as (A & B & Cl & Sg). rewrite app_nil_r in B. assert (Cm : m (a + HDR) = None) by (apply Cl; rewrite blocks_of_cons; reflexivity).
  assert (T : flat_map in_transit (repeat Idle n) = []) by (clear; induction n as [|n IH]; [reflexivity|exact IH]).
  split; [|split; [|split; [discriminate|split]]].
  - exists (rev (blocks_of (a, S j))). cbn [fl set_fl fst mem live]. split.
    + rewrite <- (app_nil_r (rev _)). apply chain_seg.
      * rewrite blocks_of_cons. cbn [rev]. intros Q. apply app_eq_nil in Q. destruct Q. discriminate.
      * exact (eq_sym B).
      * apply (seg_ext m); [apply NoDup_rev, blocks_of_nodup| |exact Sg]. intros b _ Nb. apply wrm_neq. rewrite blocks_of_cons in Nb. cbn [rev] in Nb. rewrite last_last in Nb. exact Nb.
      * rewrite blocks_of_cons. cbn [rev]. rewrite last_last. cbn [chain]. apply wrm_eq.
    + rewrite T, app_nil_r. unfold LocklessBlock.blocks. cbn [chunks set_fl flat_map live]. rewrite !app_nil_r. symmetry. apply Permutation_rev.
  - unfold LocklessBlock.blocks. cbn [chunks set_fl flat_map]. rewrite app_nil_r. apply blocks_of_nodup.
  - intros t p H. apply nth_error_In, repeat_spec in H. subst p. exact Logic.I.
  - apply count_repeat. reflexivity.
Qed.
Lemma runs_ok n s ts : runs tsz n (s, ts) -> inv s ts.
Proof.
  intros R. remember (s, ts) as x eqn:Ex. revert s ts Ex. induction R as [init a s0 E|x y R IH S]; intros s ts Ex.
  - injection Ex as <- <-. apply (new_ok n init a s0 E).
  - subst y. destruct x as [s0 ts0]. destruct (step_ok s0 ts0 _ (IH _ _ eq_refl) S) as (s' & ts' & E & I). injection E as -> ->. exact I.
Qed.
End Proofs.

(* ---------------------------------------------------- theorems ---------------------------------------------------- *)
(* Any number of threads, any interleaving, live blocks written to at any time: every block of every chunk is in exactly
   one place: in the free list, handed out, or held by a call that is putting it into the free list. *)
Theorem C43_partition tsz n s ts : 0 < tsz -> runs tsz n (s, ts) ->
  exists F, chain (mem s) (fst (fl s)) F /\ Permutation (F ++ live s ++ flat_map in_transit ts) (blocks tsz s) /\ NoDup (blocks tsz s).
Proof. intros Ht R. destruct (runs_ok tsz Ht n s ts R) as ((F & C & P) & D & _). eauto. Qed.
Print Assumptions C43_partition.
(* Two blocks that are live at the same time are distinct, and each is a block of a chunk. *)
Theorem C43_live tsz n s ts : 0 < tsz -> runs tsz n (s, ts) -> NoDup (live s) /\ forall p, In p (live s) -> In p (blocks tsz s).
Proof.
  intros Ht R. destruct (C43_partition tsz n s ts Ht R) as (F & _ & P & D). pose proof (Permutation_NoDup (Permutation_sym P) D) as DD. split; [apply nodup_app_r, nodup_app_l in DD; exact DD|]. intros p Hp. apply (Permutation_in _ P), in_or_app. right. apply in_or_app. left. exact Hp.
Qed.
Print Assumptions C43_live.
(* What an allocate returns was not live before, and is live afterwards. *)
Theorem C43_allocate tsz n s ts t q tag v a s' : 0 < tsz -> runs tsz n (s, ts) -> nth_error ts t = Some (ACas q tag v) -> exec tsz s (ACas q tag v) a = Ok (s', Idle) ->
  ~ In q (live s) /\ live s' = q :: live s.
Proof.
  intros Ht R H E. cbn [exec] in E. destruct (pt_eqb (fl s) (Some q, tag)) eqn:Eq; [|discriminate E]. injection E as <-. split; [|reflexivity]. intros Q. apply pt_eqb_ok in Eq. destruct (C43_partition tsz n s ts Ht R) as (F & C & P & D). pose proof (Permutation_NoDup (Permutation_sym P) D) as DD.
  destruct F as [|b F]; [rewrite Eq in C; discriminate C|]. destruct C as (C & _). rewrite Eq in C. injection C as <-. apply (nodup_app_not _ _ q DD); [left; reflexivity|apply in_or_app; left; exact Q].
Qed.
Print Assumptions C43_allocate.
(* When no call is in progress no block is lost: the free list holds exactly the blocks that are not live. *)
Theorem C43_none_lost tsz n s ts : 0 < tsz -> runs tsz n (s, ts) -> (forall t p, nth_error ts t = Some p -> p = Idle) ->
  exists F, chain (mem s) (fst (fl s)) F /\ Permutation (F ++ live s) (blocks tsz s).
Proof.
  intros Ht R H. destruct (C43_partition tsz n s ts Ht R) as (F & C & P & _). exists F. split; [exact C|]. replace (flat_map in_transit ts) with (@nil nat) in P; [rewrite app_nil_r in P; exact P|]. clear - H. induction ts as [|p ts IH]; [reflexivity|]. cbn [flat_map]. rewrite (H 0 p eq_refl). cbn [in_transit app]. apply IH. intros t q Hq. apply (H (S t) q Hq).
Qed.
Print Assumptions C43_none_lost.
(* No step reads or writes outside the blocks, and at most one thread at a time allocates a chunk. *)
Theorem C43_safe tsz n s ts : 0 < tsz -> runs tsz n (s, ts) -> (forall r, step tsz (s, ts) r -> exists s' ts', r = Ok (s', ts')) /\ count growing ts <= 1.
Proof.
  intros Ht R. pose proof (runs_ok tsz Ht n s ts R) as I. split.
  - intros r S. destruct (step_ok tsz Ht s ts r I S) as (s' & ts' & E & _). eauto.
  - destruct I as (_ & _ & _ & _ & G). rewrite G. destruct (flag s); cbn; lia.
Qed.
Print Assumptions C43_safe.
(* The constructor with no block writes past the end of its chunk. *)
Theorem C43_empty_refuted tsz a : new_lb tsz 0 a = UB.
Proof. reflexivity. Qed.
Print Assumptions C43_empty_refuted.

(* ----------------------------------------------------- example ----------------------------------------------------- *)
(* a schedule as data: (thread, what it does) *)
Inductive move := MAlloc (t : nat) | MFree (t p : nat) | MExec (t : nat).
Definition remove1 (p : nat) (l : list nat) : list nat := let '(a, b) := (fix f l := match l with [] => ([], []) | x :: l => if x =? p then ([], l) else let '(a, b) := f l in (x :: a, b) end) l in a ++ b.
Definition play (x : res (sh * list pc)) (m : move) : res (sh * list pc) :=
  do (s, ts) <- x;
  match m with
  | MAlloc t => Ok (s, upd ts t ALoad)
  | MFree t p => Ok (mksh (fl s) (flag s) (chunks s) (mem s) (remove1 p (live s)), upd ts t (FLoad Freeing (Some p) p [p]))
  | MExec t => do (s', p') <- exec 8 s (nth t ts Idle) 0; Ok (s', upd ts t p')
  end.
Definition ok_move (x : sh * list pc) (m : move) : bool :=
  match m with
  | MAlloc t => match nth_error (snd x) t with Some Idle => true | _ => false end
  | MFree t p => match nth_error (snd x) t with Some Idle => existsb (Nat.eqb p) (live (fst x)) | _ => false end
  | MExec t => match nth_error (snd x) t with Some AGrow => false | Some _ => true | None => false end
  end.
Lemma remove1_split p l : existsb (Nat.eqb p) l = true -> exists l1 l2, l = l1 ++ p :: l2 /\ remove1 p l = l1 ++ l2.
Proof.
  unfold remove1. induction l as [|x l IH]; intros H; [discriminate H|]. cbn [existsb] in H. destruct (Nat.eqb_spec x p) as [->|N]; [exists [], l; auto|].
  destruct (Nat.eqb_spec p x) as [E|_]; [congruence|]. destruct (IH H) as (l1 & l2 & E1 & E2). exists (x :: l1), l2. split; [rewrite E1; reflexivity|]. destruct (_ l) as [a b]. cbn [app]. rewrite <- E2. reflexivity.
Qed.
Lemma play_runs n x m y : runs 8 n x -> ok_move x m = true -> play (Ok x) m = Ok y -> runs 8 n y.
Proof.
  intros R K E. destruct x as [s ts]. eapply r_step; [exact R|]. rewrite <- E. destruct m as [t|t p|t]; cbn [play bind ok_move fst snd] in *.
  - apply s_allocate. destruct (nth_error ts t) as [[]|]; try discriminate K. reflexivity.
  - destruct (nth_error ts t) as [[]|] eqn:Et; try discriminate K. destruct (remove1_split p (live s) K) as (l1 & l2 & E1 & E2). rewrite E2. apply s_deallocate; [exact Et|exact E1].
  - destruct (nth_error ts t) as [q|] eqn:Et; [|discriminate K]. rewrite (nth_error_nth ts t Idle Et). apply (s_exec 8 s ts t q 0 Et). intros ->. discriminate K.
Qed.
Fixpoint plays (x : res (sh * list pc)) (ms : list move) : res (sh * list pc) :=
  match ms with [] => x | m :: ms => match x with Ok y => if ok_move y m then plays (play x m) ms else UB | _ => UB end end.
Lemma plays_runs n ms : forall x y, runs 8 n x -> plays (Ok x) ms = Ok y -> runs 8 n y.
Proof.
  induction ms as [|m ms IH]; intros x y R E; cbn [plays] in E; [injection E as <-; exact R|]. destruct (ok_move x m) eqn:K; [|discriminate E]. destruct (play (Ok x) m) as [z| |] eqn:Ez; [|destruct ms; discriminate E|destruct ms; discriminate E]. apply (IH z y); [apply (play_runs n x m z R K Ez)|exact E].
Qed.
(* the ABA schedule: thread 0 reads head 24 and its successor 16 and stops before its compare-and-swap; thread 1 allocates
   24 and 16 and gives 24 back, so that the head is 24 again but 16 is live; the compare-and-swap of thread 0 fails, it
   starts again and gets 24, not 16 *)
Definition aba : list move :=
  [MAlloc 0; MExec 0; MExec 0] ++ [MAlloc 1; MExec 1; MExec 1; MExec 1] ++ [MAlloc 1; MExec 1; MExec 1; MExec 1] ++ [MFree 1 24; MExec 1; MExec 1; MExec 1] ++ [MExec 0; MExec 0; MExec 0].
Example C43_example : exists s ts, runs 8 2 (s, ts) /\ live s = [24; 16] /\ ts = [Idle; Idle].
Proof.
  destruct (new_lb 8 2 0) as [s0| |] eqn:E0; try discriminate E0. pose proof (r_new 8 2 2 0 s0 E0) as R. destruct (plays (Ok (s0, repeat Idle 2)) aba) as [[s ts]| |] eqn:E.
  - exists s, ts. split; [apply (plays_runs 2 aba _ _ R E)|]. vm_compute in E0. injection E0 as <-. vm_compute in E. injection E as <- <-. split; reflexivity.
  - vm_compute in E0. injection E0 as <-. vm_compute in E. discriminate E.
  - vm_compute in E0. injection E0 as <-. vm_compute in E. discriminate E.
Qed.
