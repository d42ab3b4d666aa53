(* Property C39: MinSpanningTree returns a minimum spanning forest. *)
From Coq Require Import List Arith ZArith Bool Lia Permutation Relations Sorting.Sorted.
From Coq Require Import ZifyBool ZifyNat.
From Verif Require Import Common DisjointSet DisjointSetProps.
Import ListNotations.

(* --- specification --- *)
Definition edge := ((nat * nat) * Z)%type.   (* the two ends and the weight *)
(* x and y are connected by edges of F *)
Definition joined (F : list edge) (x y : nat) : Prop := connected (map fst F) x y.
(* no edge of F joins vertices that the other edges of F connect already *)
Definition acyclic (F : list edge) : Prop :=
  forall a e b, F = a ++ e :: b -> ~ joined (a ++ b) (fst (fst e)) (snd (fst e)).
Definition weight (F : list edge) : Z := fold_right Z.add 0%Z (map snd F).
(* T is an acyclic subset of the edges es that connects exactly what es connects *)
Definition spanning (es T : list edge) : Prop :=
  acyclic T /\ incl T es /\ forall x y, joined T x y <-> joined es x y.
Definition by_weight (e f : edge) : Prop := (snd e <= snd f)%Z.

(* --- forests, built edge by edge --- *)
Fixpoint forest (F : list edge) : Prop :=
  match F with [] => True | e :: F => ~ joined F (fst (fst e)) (snd (fst e)) /\ forest F end.
Lemma joined_incl F G : incl F G -> forall x y, joined F x y -> joined G x y.
Proof.
  intros H. apply conn_incl. intros x y Hin. apply conn_step. apply in_map_iff in Hin. destruct Hin as (e & <- & He). apply in_map. auto.
Qed.
Lemma joined_of F G : (forall e, In e F -> joined G (fst (fst e)) (snd (fst e))) -> forall x y, joined F x y -> joined G x y.
Proof.
  intros H. apply conn_incl. intros x y Hin. apply in_map_iff in Hin. destruct Hin as (e & E & He). specialize (H e He). rewrite E in H. exact H.
Qed.
Lemma joined_in F e : In e F -> joined F (fst (fst e)) (snd (fst e)).
Proof. intros H. apply conn_step. rewrite <- surjective_pairing. apply in_map. exact H. Qed.
Lemma acyclic_forest F : acyclic F -> forest F.
Proof.
  induction F as [|e F IH]; intros A; cbn [forest]; [exact Logic.I|]. split; [apply (A [] e F); reflexivity|].
  apply IH. intros a f b E H. apply (A (e :: a) f b); [cbn; rewrite E; reflexivity|]. revert H. apply joined_incl. intros z Hz. right. exact Hz.
Qed.
Lemma forest_filter p F : forest F -> forest (filter p F).
Proof.
  induction F as [|e F IH]; cbn [forest filter]; [auto|]. intros [H1 H2]. destruct (p e); [|auto]. cbn [forest]. split; [|auto].
  intros X. apply H1. revert X. apply joined_incl. intros z Hz. apply filter_In in Hz. tauto.
Qed.
Definition bounded (n : nat) (F : list edge) : Prop := forall e, In e F -> fst (fst e) < n /\ snd (fst e) < n.
Lemma bounded_incl n F G : incl F G -> bounded n G -> bounded n F.
Proof. intros H B e He. apply B, H, He. Qed.
(* a forest of k edges has n - k classes *)
Lemma forest_rank n F : bounded n F -> forest F -> class_count n (map fst F) (Z.of_nat n - Z.of_nat (length F)).
Proof.
  induction F as [|[[u v] w] F IH]; intros B H.
  - exists (seq 0 n). split; [apply seq_NoDup|]. split; [intros r Hr; apply in_seq in Hr; lia|]. split; [intros x Hx; exists x; split; [apply in_seq; lia|apply conn_refl]|].
    split; [|rewrite seq_length; cbn; lia]. intros r r' _ _ C. revert r r' C. apply conn_least; intros; try congruence. contradiction.
  - destruct H as [H1 H2]. destruct (IH (bounded_incl n F _ (incl_tl _ (incl_refl F)) B) H2) as (reps & N & L & C & U & E).
    destruct (B _ (or_introl eq_refl)) as [Bu Bv]. cbn [fst snd] in *. destruct (C u Bu) as (ru & Iu & Cu). destruct (C v Bv) as (rv & Iv & Cv).
    assert (Hne : ru <> rv) by (intros ->; apply H1; eapply conn_trans; [exact Cu|apply conn_sym; exact Cv]).
    pose proof Iu as Iu'. apply in_split in Iu'. destruct Iu' as (r1 & r2 & Er). subst reps.
    pose proof (NoDup_remove_1 _ _ _ N) as N1. pose proof (NoDup_remove_2 _ _ _ N) as N2.
    assert (X : forall r, In r (r1 ++ ru :: r2) <-> r = ru \/ In r (r1 ++ r2)) by (intros r; rewrite !in_app_iff; cbn [In]; intuition congruence).
    assert (Iv' : In rv (r1 ++ r2)) by (apply X in Iv; destruct Iv; [congruence|assumption]).
    exists (r1 ++ r2). split; [exact N1|]. split; [intros r Hr; apply L, X; auto|]. cbn [map fst].
    assert (M : forall x y, connected (map fst F) x y -> connected ((u, v) :: map fst F) x y) by (intros x y Hxy; apply conn_add; auto).
    split; [|split].
    + intros x Hx. destruct (C x Hx) as (r & Ir & Cr). apply X in Ir. destruct Ir as [->|Ir]; [|exists r; auto].
      exists rv. split; [exact Iv'|]. apply conn_add. right. left. split; [eapply conn_trans; [exact Cr|apply conn_sym; exact Cu]|apply conn_sym; exact Cv].
    + intros r r' Hr Hr' HC. apply conn_add in HC. destruct HC as [HC|[[G1 G2]|[G1 G2]]]; [apply U; auto; apply X; auto|exfalso..].
      * assert (r = ru) by (apply U; [apply X; auto|apply X; auto|eapply conn_trans; eauto]). subst. contradiction.
      * assert (r' = ru) by (apply U; [apply X; auto|apply X; auto|eapply conn_trans; eauto]). subst. contradiction.
    + rewrite app_length in *. cbn [length] in *. lia.
Qed.
Lemma class_count_le n us vs c c' : class_count n us c -> class_count n vs c' -> (forall x y, connected us x y -> connected vs x y) -> (c' <= c)%Z.
Proof.
  intros (reps & N & L & C & U & ->) (reps' & N' & L' & C' & U' & ->) M.
  assert (X : forall l, NoDup l -> incl l reps' -> exists l', Forall2 (fun r' r => In r reps /\ connected us r' r) l l').
  { induction l as [|r' l IH]; intros Nl Il; [exists []; constructor|]. inversion Nl; subst. destruct IH as (l' & F); [assumption|intros z Hz; apply Il; right; exact Hz|].
    destruct (C r') as (r & Ir & Cr); [apply L', Il; left; reflexivity|]. exists (r :: l'). constructor; auto. }
  destruct (X reps' N' (fun z H => H)) as (l' & F).
  assert (Y : forall l l', Forall2 (fun r' r => In r reps /\ connected us r' r) l l' -> NoDup l -> incl l reps' -> NoDup l' /\ incl l' reps /\ length l' = length l /\
      forall r, In r l' -> exists r', In r' l /\ connected us r' r).
  { induction 1 as [|r' r l l2 [H1 H2] _ IH]; intros Nl Il; [split; [constructor|]; split; [intros z []|]; split; [reflexivity|intros z []]|].
    inversion Nl; subst. destruct IH as (I1 & I2 & I3 & I4); [assumption|intros z Hz; apply Il; right; exact Hz|]. split; [|split; [|split]].
    - constructor; [|exact I1]. intros Hin. destruct (I4 r Hin) as (q & Hq & Cq). assert (q = r').
      { apply U'; [apply Il; right; exact Hq|apply Il; left; reflexivity|]. apply M. eapply conn_trans; [exact Cq|apply conn_sym; exact H2]. } subst. contradiction.
    - intros z [<-|Hz]; auto.
    - cbn. lia.
    - intros z [<-|Hz]; [exists r'; split; [left; reflexivity|exact H2]|]. destruct (I4 z Hz) as (q & Hq & Cq). exists q. split; [right; exact Hq|exact Cq]. }
  destruct (Y _ _ F N' (fun z H => H)) as (I1 & I2 & I3 & _). pose proof (NoDup_incl_length I1 I2). lia.
Qed.
Lemma forest_le n F G : bounded n F -> bounded n G -> forest F -> forest G -> (forall x y, joined F x y -> joined G x y) -> length F <= length G.
Proof. intros BF BG HF HG M. pose proof (class_count_le n _ _ _ _ (forest_rank n F BF HF) (forest_rank n G BG HG) M). lia. Qed.

(* --- the edges the loop takes --- *)
Inductive greedy : list (nat * nat) -> list edge -> list edge -> Prop :=
| g_nil us : greedy us [] []
| g_skip us e es sel : connected us (fst (fst e)) (snd (fst e)) -> greedy us es sel -> greedy us (e :: es) sel
| g_take us e es sel : ~ connected us (fst (fst e)) (snd (fst e)) -> greedy (fst e :: us) es sel -> greedy us (e :: es) (e :: sel).
Definition same (us vs : list (nat * nat)) : Prop := forall x y, connected us x y <-> connected vs x y.
Lemma same_cons us vs p : same us vs -> same (p :: us) (p :: vs).
Proof. intros H x y. destruct p as [a b]. rewrite !conn_add. rewrite (H x y), (H x a), (H y b), (H x b), (H y a). tauto. Qed.
Lemma greedy_same us es sel : greedy us es sel -> forall vs, same us vs -> greedy vs es sel.
Proof.
  induction 1 as [us|us e es sel C H IH|us e es sel C H IH]; intros vs S; [constructor|apply g_skip; [apply S; exact C|auto]|].
  apply g_take; [intros X; apply C, S, X|]. apply IH, same_cons, S.
Qed.
Lemma mst_greedy n : forall es s us, reachable n s us -> bounded n es -> exists sel, mst_loop s (map fst es) = Ok (map fst sel) /\ greedy us es sel.
Proof.
  induction es as [|e es IH]; intros s us R B; [exists []; split; [reflexivity|constructor]|]. cbn [map mst_loop].
  destruct (B e (or_introl eq_refl)) as [Bu Bv]. pose proof (bounded_incl n es _ (incl_tl _ (incl_refl es)) B) as B'.
  destruct (C38_DisjointSet n s us R) as [F _]. destruct (F _ _ Bu Bv) as (s1 & ru & s2 & rv & E1 & E2 & Eq & Cu & R1 & R2 & Un).
  rewrite E1. cbn [bind]. rewrite E2. cbn [bind]. destruct (Nat.eqb_spec ru rv) as [H|H].
  - destruct (IH s2 us R2 B') as (sel & Es & G). exists sel. split; [exact Es|]. apply g_skip; [apply Eq; exact H|exact G].
  - destruct (Un H) as (s3 & E3 & R3). rewrite E3. cbn [bind]. destruct (IH s3 _ R3 B') as (sel & Es & G). rewrite Es. cbn [bind].
    exists (e :: sel). split; [reflexivity|]. apply g_take; [intros X; apply H, Eq, X|].
    assert (Cv : connected us (snd (fst e)) rv).
    { destruct (C38_DisjointSet n s1 us R1) as [F1 _]. destruct (F1 _ _ Bv Bv) as (t1 & r1 & t2 & r2 & G1 & _ & _ & Cr & _). rewrite E2 in G1. injection G1 as <- <-. exact Cr. }
    revert G. intros G. eapply greedy_same; [exact G|]. intros x y. destruct (fst e) as [u v]. cbn [fst snd] in *. rewrite !conn_add.
    split; (intros [X|[[X Y]|[X Y]]]; [auto|right; left|right; right]); split; eauto using conn_trans, conn_sym.
Qed.
Lemma greedy_incl us es sel : greedy us es sel -> incl sel es.
Proof. induction 1; intros z Hz; [assumption|right; auto|destruct Hz as [<-|Hz]; [left; reflexivity|right; auto]]. Qed.
Lemma greedy_joins us es sel : greedy us es sel -> StronglySorted by_weight es ->
  forall e, In e es -> connected (map fst (filter (fun f => snd f <=? snd e)%Z sel) ++ us) (fst (fst e)) (snd (fst e)).
Proof.
  induction 1 as [us|us e es sel C H IH|us e es sel C H IH]; intros S f Hf; [destruct Hf| |]; inversion S as [|? ? S' Fa]; subst.
  - destruct Hf as [<-|Hf]; [|auto]. revert C. apply conn_incl. intros x y Hin. apply conn_step, in_or_app. auto.
  - destruct Hf as [<-|Hf].
    + cbn [filter]. rewrite Z.leb_refl. apply conn_step. left. apply surjective_pairing.
    + rewrite Forall_forall in Fa. specialize (Fa f Hf). unfold by_weight in Fa. cbn [filter]. destruct (Z.leb_spec (snd e) (snd f)); [|lia].
      specialize (IH S' f Hf). revert IH. apply conn_incl. intros x y Hin. apply conn_step. apply in_app_or in Hin. cbn [map app]. destruct Hin as [Hin|[Hin|Hin]].
      * right. apply in_or_app. auto.
      * left. exact Hin.
      * right. apply in_or_app. auto.
Qed.
Lemma exchange us p q : ~ connected us (fst p) (snd p) -> ~ connected (p :: us) (fst q) (snd q) -> ~ connected (q :: us) (fst p) (snd p).
Proof.
  destruct p as [a b]. destruct q as [c d]. cbn [fst snd]. intros H1 H2 H3. apply conn_add in H3. rewrite conn_add in H2. destruct H3 as [X|[[X Y]|[X Y]]]; [auto|..]; apply H2.
  - right. left. split; apply conn_sym; assumption.
  - right. right. split; apply conn_sym; assumption.
Qed.
Lemma same_swap us p q : same (p :: q :: us) (q :: p :: us).
Proof. intros x y. split; apply conn_incl; intros u v [E|[E|E]]; apply conn_step; cbn [In]; auto. Qed.
Lemma greedy_back us es sel : greedy us es sel -> forall p vs, same us (p :: vs) -> ~ connected vs (fst p) (snd p) -> ~ connected (map fst sel ++ vs) (fst p) (snd p).
Proof.
  induction 1 as [us|us e es sel C H IH|us e es sel C H IH]; intros p vs S N; [exact N|apply IH; assumption|].
  assert (N2 : ~ connected (fst e :: vs) (fst p) (snd p)) by (apply exchange; [exact N|]; intros X; apply C, S, X).
  assert (S2 : same (fst e :: us) (p :: fst e :: vs)).
  { intros x y. rewrite (same_cons us (p :: vs) (fst e) S x y). apply same_swap. }
  specialize (IH p (fst e :: vs) S2 N2). intros X. apply IH. revert X. apply conn_incl. intros x y Hin. apply conn_step. cbn [map app In] in Hin. apply in_or_app.
  destruct Hin as [Hin|Hin]; [right; left; exact Hin|]. apply in_app_or in Hin. destruct Hin; [auto|right; right; assumption].
Qed.
Lemma greedy_acyclic us es sel : greedy us es sel -> forall a e b, sel = a ++ e :: b -> ~ connected (map fst (a ++ b) ++ us) (fst (fst e)) (snd (fst e)).
Proof.
  induction 1 as [us|us e es sel C H IH|us e es sel C H IH]; intros a f b E; [destruct a; discriminate|eauto|].
  destruct a as [|f' a]; injection E as E1 E2.
  - subst f sel. cbn [app]. apply (greedy_back _ _ _ H (fst e) us); [intros x y; tauto|exact C].
  - subst f'. specialize (IH a f b E2). intros X. apply IH. revert X. apply conn_incl. intros x y Hin. apply conn_step. cbn [map app In] in Hin. apply in_or_app.
    destruct Hin as [Hin|Hin]; [right; left; exact Hin|]. apply in_app_or in Hin. destruct Hin; [auto|right; right; assumption].
Qed.

(* --- comparing sums through the numbers of small elements --- *)
Definition small (w : Z) (l : list Z) : nat := length (filter (fun x => x <=? w)%Z l).
Definition total (l : list Z) : Z := fold_right Z.add 0%Z l.
Lemma small_perm w l l' : Permutation l l' -> small w l = small w l'.
Proof. unfold small. induction 1; cbn; repeat destruct (_ <=? _)%Z; cbn; lia. Qed.
Lemma total_perm l l' : Permutation l l' -> total l = total l'.
Proof. unfold total. induction 1; cbn; lia. Qed.
Lemma small_le w l : small w l <= length l.
Proof. unfold small. induction l as [|x l IH]; cbn; [lia|]. destruct (_ <=? _)%Z; cbn; lia. Qed.
Lemma small_all w l : (forall x, In x l -> (x <= w)%Z) -> small w l = length l.
Proof. unfold small. induction l as [|x l IH]; intros H; cbn; [reflexivity|]. destruct (Z.leb_spec x w); cbn; [rewrite IH by (intros; apply H; right; assumption); reflexivity|]. specialize (H x (or_introl eq_refl)). lia. Qed.
Lemma all_small w l : small w l = length l -> forall x, In x l -> (x <= w)%Z.
Proof.
  induction l as [|y l IH]; intros H x Hx; [destruct Hx|]. pose proof (small_le w l) as L. unfold small in *. cbn [filter length] in H. destruct (Z.leb_spec y w); cbn [length] in H; [|lia].
  destruct Hx as [<-|Hx]; [assumption|]. apply IH; [lia|exact Hx].
Qed.
Lemma take_max x l : exists m l', Permutation (x :: l) (m :: l') /\ forall y, In y l' -> (y <= m)%Z.
Proof.
  revert x. induction l as [|z l IH]; intros x; [exists x, []; split; [reflexivity|intros y []]|].
  destruct (IH z) as (m & l' & P & H). destruct (Z_le_gt_dec x m).
  - exists m, (x :: l'). split; [rewrite P; apply perm_swap|]. intros y [<-|Hy]; auto.
  - exists x, (m :: l'). split; [rewrite P; reflexivity|]. intros y [<-|Hy]; [lia|]. specialize (H y Hy). lia.
Qed.
Lemma total_le n : forall A B, length A = n -> length B = n -> (forall w, small w B <= small w A) -> (total A <= total B)%Z.
Proof.
  induction n as [|n IH]; intros A B LA LB H; [destruct A; [|discriminate]; destruct B; [|discriminate]; cbn; lia|].
  destruct A as [|a0 A]; [discriminate|]. destruct B as [|b0 B]; [discriminate|].
  destruct (take_max a0 A) as (a & A' & PA & HA). destruct (take_max b0 B) as (b & B' & PB & HB).
  assert (H' : forall w, small w (b :: B') <= small w (a :: A')) by (intros w; rewrite <- (small_perm w _ _ PA), <- (small_perm w _ _ PB); apply H).
  rewrite (total_perm _ _ PA), (total_perm _ _ PB). apply Permutation_length in PA, PB. cbn [length] in *.
  assert (Hab : (a <= b)%Z).
  { apply (all_small b (a :: A')); [|left; reflexivity]. pose proof (H' b) as X. rewrite (small_all b (b :: B')) in X by (intros y [<-|Hy]; [lia|auto]).
    pose proof (small_le b (a :: A')). cbn [length] in *. lia. }
  assert (T : (total A' <= total B')%Z).
  { apply IH; [lia|lia|]. intros w. specialize (H' w). pose proof (small_le w B') as LB'. unfold small in *. cbn [filter] in H'.
    destruct (Z.leb_spec a w); destruct (Z.leb_spec b w); cbn [length] in H'; try lia.
    fold (small w A') in *. rewrite (small_all w A') by (intros y Hy; specialize (HA y Hy); lia). lia. }
  unfold total in *. cbn [fold_right]. lia.
Qed.
Lemma small_map w (F : list edge) : small w (map snd F) = length (filter (fun f => snd f <=? w)%Z F).
Proof. unfold small. induction F as [|e F IH]; cbn; [reflexivity|]. destruct (_ <=? _)%Z; cbn; lia. Qed.

(* C39: for every list of weighted edges between vertices below n, sorted by weight, MinSpanningTree succeeds; the
   pairs it returns are the ends of some of the edges, which form an acyclic subset connecting exactly what the edges
   connect, and whose total weight is at most that of every other such subset. *)
Theorem C39_MinSpanningTree : forall n (es : list edge),
  (forall e, In e es -> fst (fst e) < n /\ snd (fst e) < n) -> Sorted by_weight es ->
  exists sel, MinSpanningTree n (map fst es) = Ok (map fst sel) /\ spanning es sel /\
    forall T, spanning es T -> (weight sel <= weight T)%Z.
Proof.
  intros n es B S. apply Sorted_StronglySorted in S; [|intros e f g; unfold by_weight; lia].
  destruct (mst_greedy n es (new_dset n) [] (r_new n) B) as (sel & E & G).
  assert (A : acyclic sel) by (intros a e b Eq; pose proof (greedy_acyclic _ _ _ G a e b Eq) as X; rewrite app_nil_r in X; exact X).
  pose proof (greedy_incl _ _ _ G) as In1. pose proof (acyclic_forest sel A) as Fs. pose proof (bounded_incl n sel es In1 B) as Bs.
  assert (J : forall e w, In e es -> (snd e <= w)%Z -> joined (filter (fun f => snd f <=? w)%Z sel) (fst (fst e)) (snd (fst e))).
  { intros e w He Hw. pose proof (greedy_joins _ _ _ G S e He) as X. rewrite app_nil_r in X. revert X. apply joined_incl.
    intros f Hf. apply filter_In in Hf. apply filter_In. split; [tauto|]. lia. }
  assert (Sp : spanning es sel).
  { split; [exact A|]. split; [exact In1|]. intros x y. split; [apply joined_incl; exact In1|]. apply joined_of. intros e He.
    generalize (J e (snd e) He ltac:(lia)). apply joined_incl. intros f Hf. apply filter_In in Hf. tauto. }
  exists sel. split; [|split; [exact Sp|]].
  - unfold MinSpanningTree. rewrite E. cbn [bind]. rewrite map_length. destruct (Nat.leb_spec (length sel) (n - 1)) as [|Hl]; [reflexivity|exfalso].
    destruct sel as [|e0 sel0]; [cbn in Hl; lia|]. destruct (Bs e0 (or_introl eq_refl)) as [B0 _].
    destruct (forest_rank n _ Bs Fs) as (reps & _ & _ & C & _ & L). destruct (C _ B0) as (r & Hr & _). destruct reps; [destruct Hr|]. cbn [length] in *. unfold edge in *. lia.
  - intros T (AT & IT & JT). pose proof (acyclic_forest T AT) as FT. pose proof (bounded_incl n T es IT B) as BT.
    assert (Len : length sel = length T).
    { apply Nat.le_antisymm; apply (forest_le n); auto; intros x y H; [apply JT, Sp, H|apply Sp, JT, H]. }
    unfold weight. apply (total_le (length T)); rewrite ?map_length; auto. intros w. rewrite !small_map. apply (forest_le n).
    + eapply bounded_incl; [|exact BT]. intros z Hz. apply filter_In in Hz. tauto.
    + eapply bounded_incl; [|exact Bs]. intros z Hz. apply filter_In in Hz. tauto.
    + apply forest_filter. exact FT.
    + apply forest_filter. exact Fs.
    + apply joined_of. intros e He. apply filter_In in He. destruct He as [He Hw]. apply J; [apply IT; exact He|]. lia.
Qed.
Print Assumptions C39_MinSpanningTree.

Example C39_example :
  let es := [((0, 1), 1%Z); ((1, 2), 1%Z); ((0, 2), 2%Z); ((3, 4), 2%Z); ((2, 3), 5%Z); ((0, 4), 7%Z)] in
  (forall e, In e es -> fst (fst e) < 6 /\ snd (fst e) < 6) /\ Sorted by_weight es /\
  MinSpanningTree 6 (map fst es) = Ok [(0, 1); (1, 2); (3, 4); (2, 3)].
Proof.
  intros es. split; [|split; [|vm_compute; reflexivity]].
  - intros e He. unfold es in He. cbn [In] in He. repeat (destruct He as [<-|He]; [cbn; lia|]). destruct He.
  - unfold es. repeat constructor; unfold by_weight; cbn; lia.
Qed.
