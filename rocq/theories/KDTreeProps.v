(** C56: kd-tree queries report exactly the overlapping items. *)
From Coq Require Import List ZArith QArith Lia Bool Permutation.
From Coq Require Import ZifyBool ZifyNat.
From Verif Require Import Common KDTree.
Import ListNotations.
Open Scope Z_scope.

(* ------------------------------------------------------------------ *)
(** * Specification *)

(** Two closed rectangles (left, top, right, bottom) have a common point
    (when neither is inverted). *)
Definition overlap (q : four Q) (i : item) : Prop :=
  (f0 (rect i) <= f2 q)%Q /\ (f0 q <= f2 (rect i))%Q /\
  (f1 (rect i) <= f3 q)%Q /\ (f1 q <= f3 (rect i))%Q.

(** Histories: which items are stored after some calls, and whether a call
    has rebalanced the tree.  An item is inserted when it is not stored and
    removed when it is. *)
Inductive history (rnd : Q -> Q) (thr : Z) : state -> list item -> bool -> Prop :=
| h_init : history rnd thr init [] false
| h_insert s l b i s' b' :
    history rnd thr s l b -> ~ In (id i) (map id l) ->
    step rnd thr s (Insert i) = Ok (s', b') ->
    history rnd thr s' (i :: l) (b || b')
| h_remove s l b i s' b' :
    history rnd thr s l b -> In i l ->
    step rnd thr s (Remove i) = Ok (s', b') ->
    history rnd thr s' (filter (fun x => negb (Nat.eqb (id x) (id i))) l) (b || b').

(** The items of every node: what [TraverseAll] (KDTree.h 51, 278-285)
    reaches. *)
Fixpoint all (t : tree) : list item :=
  match t with
  | Leaf => []
  | Node its _ _ _ _ _ _ l r => its ++ all l ++ all r
  end.

(* ------------------------------------------------------------------ *)
(** * Proofs *)

Definition Q_eq_dec : forall x y : Q, {x = y} + {x <> y}.
Proof. decide equality; [apply Pos.eq_dec|apply Z.eq_dec]. Defined.
Definition item_eq_dec : forall x y : item, {x = y} + {x <> y}.
Proof.
  decide equality; [|apply Nat.eq_dec]. decide equality; apply Q_eq_dec.
Defined.

Notation cnt := (count_occ item_eq_dec).

Lemma perm_cnt l l' : Permutation l l' <-> forall x, cnt l x = cnt l' x.
Proof. apply Permutation_count_occ. Qed.

Lemma cnt_cons a l x : cnt (a :: l) x = (cnt [a] x + cnt l x)%nat.
Proof. cbn. destruct (item_eq_dec a x); lia. Qed.

Fixpoint counts (t : tree) : Prop :=
  match t with
  | Leaf => True
  | Node its num _ _ _ _ _ l r =>
      num = Z.of_nat (length its + length (all l) + length (all r)) /\ counts l /\ counts r
  end.

Lemma counts_tnum t : counts t -> tnum t = Z.of_nat (length (all t)).
Proof.
  destruct t; cbn; [reflexivity|]. rewrite !app_length. intros (-> & _). f_equal; lia.
Qed.

Fixpoint loc (f : nat -> option path) (a : path) (t : tree) : Prop :=
  match t with
  | Leaf => True
  | Node its _ _ _ _ _ _ l r =>
      Forall (fun i => f (id i) = Some a) its /\ loc f (a ++ [false]) l /\ loc f (a ++ [true]) r
  end.

Fixpoint cuts (t : tree) (axis : bool) : Prop :=
  match t with
  | Leaf => True
  | Node its _ div _ _ _ _ l r =>
      Forall (fun i => ltb (high (rect i) axis) div = true) (all l) /\
      Forall (fun i => ltb div (low (rect i) axis) = true) (all r) /\
      cuts l (negb axis) /\ cuts r (negb axis)
  end.

Fixpoint has (t : tree) (p : path) : Prop :=
  match p with
  | [] => True
  | b :: p => match t with
              | Leaf => False
              | Node _ _ _ _ _ _ _ l r => has (if b then r else l) p
              end
  end.

Lemma loc_ext f g a t : (forall i, In i (all t) -> f (id i) = g (id i)) ->
  loc f a t -> loc g a t.
Proof.
  revert a; induction t as [|its num div t0 t1 bal ax l IHl r IHr]; cbn; intros a E; [auto|].
  intros (H & Hl & Hr). split; [|split].
  - rewrite Forall_forall in *. intros i Hi. rewrite <- E; [auto|].
    apply in_app_iff; auto.
  - apply IHl; auto. intros i Hi. apply E. rewrite !in_app_iff; auto.
  - apply IHr; auto. intros i Hi. apply E. rewrite !in_app_iff; auto.
Qed.

Lemma loc_in f a t i : loc f a t -> In i (all t) ->
  exists p, f (id i) = Some (a ++ p).
Proof.
  revert a; induction t as [|its num div t0 t1 bal ax l IHl r IHr]; cbn; intros a H Hi; [easy|].
  destruct H as (H & Hl & Hr). rewrite !in_app_iff in Hi. destruct Hi as [Hi|[Hi|Hi]].
  - rewrite Forall_forall in H. exists []. rewrite app_nil_r. auto.
  - destruct (IHl _ Hl Hi) as (p & E). exists (false :: p). rewrite E, <- app_assoc. reflexivity.
  - destruct (IHr _ Hr Hi) as (p & E). exists (true :: p). rewrite E, <- app_assoc. reflexivity.
Qed.

Lemma nodup_disj (a b : list item) x y :
  NoDup (map id (a ++ b)) -> In x a -> In y b -> id x <> id y.
Proof.
  induction a as [|c a IH]; cbn; intros N Hx Hy; [easy|].
  inversion N as [|? ? Hn N']; subst. destruct Hx as [->|Hx]; [|auto].
  intros E. apply Hn. rewrite E. apply in_map. apply in_app_iff; auto.
Qed.

Lemma nodup_app_l (a b : list item) : NoDup (map id (a ++ b)) -> NoDup (map id a).
Proof.
  rewrite map_app. induction (map id a) as [|x l IH]; cbn; intros N; [constructor|].
  inversion N; subst. constructor; auto. rewrite in_app_iff in *. tauto.
Qed.
Lemma nodup_app_r (a b : list item) : NoDup (map id (a ++ b)) -> NoDup (map id b).
Proof.
  rewrite map_app. induction (map id a) as [|x l IH]; cbn; intros N; [auto|].
  inversion N; auto.
Qed.

Lemma nodup_perm (a b : list item) : Permutation a b -> NoDup (map id a) -> NoDup (map id b).
Proof. intros P. apply Permutation_NoDup, Permutation_map, P. Qed.

(** ** Insertion *)
Lemma ins_ok rnd thr i : forall t ax a t' p rb, ins rnd thr t ax a i = (t', p, rb) ->
  Permutation (all t') (i :: all t) /\ (counts t -> counts t') /\ (cuts t ax -> cuts t' ax) /\
  (forall f, loc f a t -> ~ In (id i) (map id (all t)) ->
     loc (set_node f (id i) (Some p)) a t') /\
  (forall q, rb = Some q -> exists q', q = a ++ q' /\ has t' q').
Proof.
  induction t as [|its num div t0 t1 bal nax l IHl r IHr]; intros ax a t' p rb E.
  - cbn [ins] in E. inversion E; subst; clear E.
    split; [|split; [|split; [|split]]].
    + reflexivity.
    + intros _. cbn. auto.
    + intros _. cbn. auto.
    + intros f _ _. cbn. split; [|auto]. constructor; [|constructor].
      unfold set_node. rewrite Nat.eqb_refl. reflexivity.
    + discriminate.
  - cbn [ins] in E. destruct (ltb (high (rect i) ax) div) eqn:EL;
      [|destruct (ltb div (low (rect i) ax)) eqn:ER].
    + destruct (ins rnd thr l (negb ax) (a ++ [false]) i) as ((l', p'), rb') eqn:EI.
      destruct (IHl _ _ _ _ _ EI) as (P & C & K & L & R). inversion E; subst; clear E.
      split; [|split; [|split; [|split]]].
      * cbn [all]. rewrite P. apply Permutation_sym. cbn. apply Permutation_middle.
      * cbn [counts]. intros (-> & Cl & Cr). split; [|auto].
        rewrite (Permutation_length P). cbn [length]. lia.
      * cbn [cuts]. intros (K1 & K2 & K3 & K4). split; [|auto].
        apply Forall_forall. intros x Hx. apply (Permutation_in _ P) in Hx.
        destruct Hx as [<-|Hx]; [auto|]. rewrite Forall_forall in K1; auto.
      * cbn [loc]. intros f (L1 & L2 & L3) Hn. cbn [all] in Hn.
        rewrite !map_app, !in_app_iff in Hn. split; [|split].
        -- rewrite Forall_forall in *. intros x Hx. unfold set_node.
           destruct (Nat.eqb_spec (id x) (id i)) as [E|E]; [|auto].
           exfalso. apply Hn. left. rewrite <- E. apply in_map; auto.
        -- apply L; auto.
        -- eapply loc_ext; [|exact L3]. intros x Hx. unfold set_node.
           destruct (Nat.eqb_spec (id x) (id i)) as [E|E]; [|auto].
           exfalso. apply Hn. right; right. rewrite <- E. apply in_map; auto.
      * intros q Hq. destruct (unbalanced _ _ _).
        -- inversion Hq; subst. exists []. rewrite app_nil_r. cbn. auto.
        -- destruct (R _ Hq) as (q' & -> & H'). exists (false :: q').
           rewrite <- app_assoc. cbn. auto.
    + destruct (ins rnd thr r (negb ax) (a ++ [true]) i) as ((r', p'), rb') eqn:EI.
      destruct (IHr _ _ _ _ _ EI) as (P & C & K & L & R). inversion E; subst; clear E.
      split; [|split; [|split; [|split]]].
      * cbn [all]. rewrite P. apply Permutation_sym.
        apply perm_cnt. intros x. rewrite (cnt_cons i (its ++ _)), !count_occ_app, (cnt_cons i (all r)). lia.
      * cbn [counts]. intros (-> & Cl & Cr). split; [|auto].
        rewrite (Permutation_length P). cbn [length]. lia.
      * cbn [cuts]. intros (K1 & K2 & K3 & K4). split; [auto|]. split; [|auto].
        apply Forall_forall. intros x Hx. apply (Permutation_in _ P) in Hx.
        destruct Hx as [<-|Hx]; [auto|]. rewrite Forall_forall in K2; auto.
      * cbn [loc]. intros f (L1 & L2 & L3) Hn. cbn [all] in Hn.
        rewrite !map_app, !in_app_iff in Hn. split; [|split].
        -- rewrite Forall_forall in *. intros x Hx. unfold set_node.
           destruct (Nat.eqb_spec (id x) (id i)) as [E|E]; [|auto].
           exfalso. apply Hn. left. rewrite <- E. apply in_map; auto.
        -- eapply loc_ext; [|exact L2]. intros x Hx. unfold set_node.
           destruct (Nat.eqb_spec (id x) (id i)) as [E|E]; [|auto].
           exfalso. apply Hn. right; left. rewrite <- E. apply in_map; auto.
        -- apply L; auto.
      * intros q Hq. destruct (unbalanced _ _ _).
        -- inversion Hq; subst. exists []. rewrite app_nil_r. cbn. auto.
        -- destruct (R _ Hq) as (q' & -> & H'). exists (true :: q').
           rewrite <- app_assoc. cbn. auto.
    + inversion E; subst; clear E. split; [|split; [|split; [|split]]].
      * reflexivity.
      * cbn [counts length]. intros (-> & Cl & Cr). split; [|auto]. lia.
      * auto.
      * cbn [loc]. intros f (L1 & L2 & L3) Hn. cbn [all] in Hn.
        rewrite !map_app, !in_app_iff in Hn. split; [|split].
        -- constructor; [unfold set_node; rewrite Nat.eqb_refl; auto|].
           rewrite Forall_forall in *. intros x Hx. unfold set_node.
           destruct (Nat.eqb_spec (id x) (id i)) as [E|E]; [|auto].
           exfalso. apply Hn. left. rewrite <- E. apply in_map; auto.
        -- eapply loc_ext; [|exact L2]. intros x Hx. unfold set_node.
           destruct (Nat.eqb_spec (id x) (id i)) as [E|E]; [|auto].
           exfalso. apply Hn. right; left. rewrite <- E. apply in_map; auto.
        -- eapply loc_ext; [|exact L3]. intros x Hx. unfold set_node.
           destruct (Nat.eqb_spec (id x) (id i)) as [E|E]; [|auto].
           exfalso. apply Hn. right; right. rewrite <- E. apply in_map; auto.
      * discriminate.
Qed.

(** ** Removal *)
Lemma filter_id (l : list item) i : ~ In (id i) (map id l) ->
  filter (fun x => negb (Nat.eqb (id x) (id i))) l = l.
Proof.
  induction l as [|x l IH]; cbn; intros H; [auto|].
  destruct (Nat.eqb_spec (id x) (id i)); cbn; [tauto|]. rewrite IH; tauto.
Qed.

Lemma filter_perm (l : list item) i : NoDup (map id l) -> In i l ->
  Permutation l (i :: filter (fun x => negb (Nat.eqb (id x) (id i))) l).
Proof.
  induction l as [|x l IH]; cbn; intros N H; [easy|]. inversion N; subst.
  destruct H as [->|H].
  - rewrite Nat.eqb_refl. cbn. rewrite filter_id; auto.
  - destruct (Nat.eqb_spec (id x) (id i)) as [E|E]; cbn.
    + exfalso. rewrite E in *. apply H2. apply in_map; auto.
    + rewrite perm_swap. constructor. auto.
Qed.

Lemma unlink_ok l i : NoDup (map id l) -> In i l ->
  exists l', unlink l i = Ok l' /\ Permutation l (i :: l').
Proof.
  intros N H. unfold unlink.
  replace (existsb _ _) with true.
  2:{ symmetry. apply existsb_exists. exists i. rewrite Nat.eqb_refl. auto. }
  eexists; split; [reflexivity|]. apply filter_perm; auto.
Qed.

Lemma Forall_perm_cons {A} (P : A -> Prop) l i l' :
  Permutation l (i :: l') -> Forall P l -> Forall P l'.
Proof. intros E H. rewrite E in H. inversion H; auto. Qed.

Lemma rem_ok thr f i : forall t ax a p,
  counts t -> loc f a t -> NoDup (map id (all t)) -> In i (all t) -> f (id i) = Some (a ++ p) ->
  exists t' rb, rem thr t p a i = Ok (t', rb) /\ Permutation (all t) (i :: all t') /\
    counts t' /\ loc f a t' /\ (cuts t ax -> cuts t' ax) /\
    (forall q, rb = Some q -> exists q', q = a ++ q' /\ has t' q').
Proof.
  induction t as [|its num div t0 t1 bal nax l IHl r IHr]; intros ax a p C L N Hi E; [easy|].
  cbn [counts loc all] in *. destruct C as (-> & Cl & Cr). destruct L as (L1 & L2 & L3).
  pose proof (nodup_app_l _ _ N) as N1. pose proof (nodup_app_r _ _ N) as N23.
  pose proof (nodup_app_l _ _ N23) as N2. pose proof (nodup_app_r _ _ N23) as N3.
  rewrite !in_app_iff in Hi. cbn [rem]. destruct Hi as [Hi|[Hi|Hi]].
  - rewrite Forall_forall in L1. rewrite (L1 _ Hi) in E. injection E as E'.
    assert (p = []) as ->.
    { destruct p; [auto|]. apply (f_equal (@length bool)) in E'.
      rewrite app_length in E'. cbn in E'. lia. }
    destruct (unlink_ok _ _ N1 Hi) as (its' & EU & P). rewrite EU. cbn [bind].
    eexists _, _. split; [reflexivity|]. cbn [all counts loc cuts].
    split; [|split; [|split; [|split]]].
    + rewrite P. reflexivity.
    + split; [|auto]. rewrite (Permutation_length P). cbn [length]. lia.
    + split; [|auto]. apply (Forall_perm_cons _ _ _ _ P). apply Forall_forall. exact L1.
    + auto.
    + intros q Hq. destruct (_ && _); [|discriminate]. inversion Hq; subst.
      exists []. rewrite app_nil_r. cbn; auto.
  - destruct (loc_in _ _ _ _ L2 Hi) as (p' & E2). rewrite E2 in E. injection E as E'.
    rewrite <- app_assoc in E'. apply app_inv_head in E'. subst p. cbn [app].
    destruct (IHl (negb ax) _ p' Cl L2 N2 Hi E2) as (l' & rb & ER & P & C' & L' & K' & R').
    rewrite ER. cbn [bind]. eexists _, _. split; [reflexivity|].
    cbn [all counts loc cuts]. split; [|split; [|split; [|split]]].
    + rewrite P. apply Permutation_sym. cbn. apply Permutation_middle.
    + split; [|auto]. rewrite (Permutation_length P). cbn [length]. lia.
    + auto.
    + intros (K1 & K2 & K3 & K4). split; [eapply Forall_perm_cons; eauto|]. auto.
    + intros q Hq. destruct (_ && _).
      * inversion Hq; subst. exists []. rewrite app_nil_r. cbn; auto.
      * destruct (R' _ Hq) as (q' & -> & H'). exists (false :: q'). rewrite <- app_assoc. cbn; auto.
  - destruct (loc_in _ _ _ _ L3 Hi) as (p' & E2). rewrite E2 in E. injection E as E'.
    rewrite <- app_assoc in E'. apply app_inv_head in E'. subst p. cbn [app].
    destruct (IHr (negb ax) _ p' Cr L3 N3 Hi E2) as (r' & rb & ER & P & C' & L' & K' & R').
    rewrite ER. cbn [bind]. eexists _, _. split; [reflexivity|].
    cbn [all counts loc cuts]. split; [|split; [|split; [|split]]].
    + rewrite P. apply perm_cnt. intros x.
      rewrite (cnt_cons i (its ++ _)), !count_occ_app, (cnt_cons i (all r')). lia.
    + split; [|auto]. rewrite (Permutation_length P). cbn [length]. lia.
    + auto.
    + intros (K1 & K2 & K3 & K4). split; [auto|]. split; [eapply Forall_perm_cons; eauto|]. auto.
    + intros q Hq. destruct (_ && _).
      * inversion Hq; subst. exists []. rewrite app_nil_r. cbn; auto.
      * destruct (R' _ Hq) as (q' & -> & H'). exists (true :: q'). rewrite <- app_assoc. cbn; auto.
Qed.

(** ** Rebalancing *)
Lemma mine_others a ups :
  Permutation (map snd ups) (mine a ups ++ map snd (others a ups)).
Proof.
  unfold mine, others. induction ups as [|x ups IH]; cbn; [auto|].
  destruct (path_eqb (fst x) a); cbn.
  - constructor; auto.
  - rewrite IH. apply Permutation_middle.
Qed.

Lemma mine_in a ups i : In i (mine a ups) -> In (a, i) ups.
Proof.
  unfold mine. intros H. apply in_map_iff in H. destruct H as ([q j] & E & H).
  apply filter_In in H. cbn in *. destruct H as [H E2]. subst.
  unfold path_eqb in E2. destruct (list_eq_dec _ _ _); [subst; auto|discriminate].
Qed.

Lemma others_in a ups x : In x (others a ups) -> In x ups /\ fst x <> a.
Proof.
  unfold others. intros H. apply filter_In in H. destruct H as [H E]. split; [auto|].
  unfold path_eqb in E. destruct (list_eq_dec _ _ _); [discriminate|auto].
Qed.

Lemma push_all_perm new its : Permutation (push_all new its) (new ++ its).
Proof.
  unfold push_all. revert its. induction new as [|x new IH]; cbn; intros its; [auto|].
  rewrite IH. apply Permutation_sym, Permutation_middle.
Qed.

Lemma sift_ok r p its : (f3 r <> None -> f3 p <> None) ->
  exists k m, sift r p its = Ok (k, m) /\ Permutation its (map snd m ++ k) /\
    Forall (fun x => f3 p = Some (fst x)) m.
Proof.
  intros A. induction its as [|i its (k & m & E & P & F)]; cbn [sift].
  - exists [], []. split; [reflexivity|]. split; auto.
  - unfold violation. destruct (f3 r) as [b|].
    + destruct (ltb b _).
      * destruct (f3 p) as [q|] eqn:Ep; [|exfalso; apply A; congruence].
        rewrite E. cbn [bind]. exists k, ((q, i) :: m). split; [reflexivity|].
        split; [cbn; constructor; auto|]. constructor; [reflexivity|auto].
      * rewrite E. cbn [bind]. exists (i :: k), m. split; [reflexivity|].
        split; [rewrite P; apply Permutation_middle|auto].
    + rewrite E. cbn [bind]. exists (i :: k), m. split; [reflexivity|].
      split; [rewrite P; apply Permutation_middle|auto].
Qed.

Lemma apply_log_app a b f : apply_log (a ++ b) f = apply_log b (apply_log a f).
Proof. apply fold_left_app. Qed.

Lemma apply_log_other log : forall f k, (forall x, In x log -> id (snd x) <> k) ->
  apply_log log f k = f k.
Proof.
  unfold apply_log. induction log as [|x log IH]; cbn; intros f k H; [auto|].
  rewrite IH by auto. unfold set_node. destruct (Nat.eqb_spec k (id (snd x))); [|auto].
  exfalso. apply (H x); auto.
Qed.

Lemma apply_log_const q log : forall f x, Forall (fun x => q = Some (fst x)) log -> In x log ->
  apply_log log f (id (snd x)) = Some (fst x).
Proof.
  induction log as [|y log IH]; intros f x F Hx; [easy|].
  inversion F as [|? ? F1 F2]; subst.
  destruct (in_dec Nat.eq_dec (id (snd x)) (map (fun z => id (snd z)) log)) as [Hi|Hi].
  - apply in_map_iff in Hi. destruct Hi as (z & Ez & Hz).
    assert (fst z = fst x) as <-.
    { rewrite Forall_forall in F2. destruct Hx as [->|Hx].
      - specialize (F2 _ Hz). congruence.
      - pose proof (F2 _ Hz). pose proof (F2 _ Hx). congruence. }
    rewrite <- Ez. change (apply_log (y :: log) f) with (apply_log log (set_node f (id (snd y)) (Some (fst y)))).
    apply IH; auto.
  - destruct Hx as [->|Hx].
    + change (apply_log (x :: log) f) with (apply_log log (set_node f (id (snd x)) (Some (fst x)))).
      rewrite apply_log_other.
      * unfold set_node. rewrite Nat.eqb_refl. reflexivity.
      * intros z Hz E. apply Hi. rewrite <- E. apply (in_map (fun z => id (snd z))); auto.
    + exfalso. apply Hi. apply (in_map (fun z => id (snd z))); auto.
Qed.

Lemma check_destroy_all t : counts t -> all (check_destroy t) = all t /\ counts (check_destroy t).
Proof.
  intros C. unfold check_destroy. destruct (Z.eqb_spec (tnum t) 0) as [E|E]; [|auto].
  rewrite counts_tnum in E by auto. split; [|exact Logic.I].
  destruct (all t); [reflexivity|cbn in E; lia].
Qed.

Lemma check_destroy_loc f a t : loc f a t -> loc f a (check_destroy t).
Proof. unfold check_destroy. destruct (_ =? _); cbn; auto. Qed.

Lemma rebalance_ok rnd : forall t a r p f,
  counts t -> NoDup (map id (all t)) -> loc f a t -> (f3 r <> None -> f3 p <> None) ->
  exists t' ups log, rebalance rnd t a r p = Ok (t', ups, log) /\
    counts t' /\ Permutation (all t) (map snd ups ++ all t') /\
    Forall (fun x => f3 p = Some (fst x)) ups /\
    loc (apply_log log f) a t' /\
    Forall (fun x => apply_log log f (id (snd x)) = Some (fst x)) ups /\
    (forall x, In x log -> In (snd x) (all t)).
Proof.
  induction t as [|its num div t0 t1 bal ax l IHl rt IHr]; intros a r p f C N L A.
  - cbn [rebalance]. exists Leaf, [], []. cbn. split; [reflexivity|]. split; [auto|].
    split; [auto|]. split; [auto|]. split; [auto|]. split; [auto|]. easy.
  - cbn [counts loc all] in C, N, L. destruct C as (-> & Cl & Cr). destruct L as (L1 & L2 & L3).
    pose proof (nodup_app_l _ _ N) as N1. pose proof (nodup_app_r _ _ N) as N23.
    pose proof (nodup_app_l _ _ N23) as N2. pose proof (nodup_app_r _ _ N23) as N3.
    cbn [rebalance]. set (num := Z.of_nat _).
    set (dv := rnd _).
    destruct (IHl (a ++ [false]) (set_high r ax (Some dv)) (set_high p ax (Some a)) f Cl N2 L2)
      as (l' & lu & lg & El & Cl' & Pl & Fl & Ll & Ul & Gl).
    { destruct ax; cbn; auto. congruence. }
    rewrite El. cbn [bind].
    destruct (IHr (a ++ [true]) (set_low r ax (Some dv)) (set_low p ax (Some a)) (apply_log lg f) Cr N3)
      as (r' & ru & rg & Er & Cr' & Pr & Fr & Lr & Ur & Gr).
    { eapply loc_ext; [|exact L3]. intros x Hx. symmetry. apply apply_log_other.
      intros y Hy. apply (nodup_disj _ _ _ _ N23); auto. }
    { destruct ax; cbn; auto. }
    rewrite Er. cbn [bind].
    set (lm := mine a lu) in *. set (rm := mine a ru) in *.
    destruct (sift_ok r p (push_all rm (push_all lm its)) A) as (keep & out & Es & Ps & Fs).
    rewrite Es. cbn [bind].
    set (f1 := apply_log lg f) in *. set (f2 := apply_log rg f1) in *.
    assert (Ps' : Permutation (rm ++ lm ++ its) (map snd out ++ keep)).
    { rewrite <- Ps, push_all_perm. apply Permutation_app_head. symmetry. apply push_all_perm. }
    assert (Pl' : Permutation (all l) (lm ++ map snd (others a lu) ++ all l')).
    { rewrite Pl, (mine_others a lu), <- app_assoc. reflexivity. }
    assert (Pr' : Permutation (all rt) (rm ++ map snd (others a ru) ++ all r')).
    { rewrite Pr, (mine_others a ru), <- app_assoc. reflexivity. }
    destruct (check_destroy_all _ Cl') as [Al Kl]. destruct (check_destroy_all _ Cr') as [Ar Kr].
    assert (PA : Permutation (its ++ all l ++ all rt)
       (map snd out ++ keep ++ map snd (others a lu) ++ map snd (others a ru) ++ all l' ++ all r')).
    { apply perm_cnt. intros x.
      pose proof (proj1 (perm_cnt _ _) Ps' x) as H1.
      pose proof (proj1 (perm_cnt _ _) Pl' x) as H2.
      pose proof (proj1 (perm_cnt _ _) Pr' x) as H3.
      rewrite !count_occ_app in *. lia. }
    pose proof (nodup_perm _ _ PA N) as NA.
    assert (InOut : forall x, In x out -> In (snd x) (rm ++ lm ++ its)).
    { intros x Hx. apply (Permutation_in _ (Permutation_sym Ps')). apply in_app_iff. left.
      apply in_map; auto. }
    assert (InLm : forall x, In x lm -> In x (all l)).
    { intros x Hx. apply (Permutation_in _ (Permutation_sym Pl')). apply in_app_iff; auto. }
    assert (InRm : forall x, In x rm -> In x (all rt)).
    { intros x Hx. apply (Permutation_in _ (Permutation_sym Pr')). apply in_app_iff; auto. }
    assert (Eit : forall x, In x its -> f2 (id x) = f (id x)).
    { intros x Hx. unfold f2. rewrite apply_log_other.
      - unfold f1. apply apply_log_other. intros y Hy E. revert E. apply not_eq_sym.
        apply (nodup_disj _ _ _ _ N); auto. apply in_app_iff; auto.
      - intros y Hy E. revert E. apply not_eq_sym.
        apply (nodup_disj _ _ _ _ N); auto. apply in_app_iff; auto. }
    assert (Eal : forall x, In x (all l) -> f2 (id x) = f1 (id x)).
    { intros x Hx. unfold f2. apply apply_log_other. intros y Hy E. revert E. apply not_eq_sym.
      apply (nodup_disj _ _ _ _ N23); auto. }
    assert (Here : forall x, In x (rm ++ lm ++ its) -> f2 (id x) = Some a).
    { intros x Hx. rewrite !in_app_iff in Hx. destruct Hx as [Hx|[Hx|Hx]].
      - apply mine_in in Hx. rewrite Forall_forall in Ur. apply (Ur _ Hx).
      - rewrite Eal by auto. apply mine_in in Hx. rewrite Forall_forall in Ul. apply (Ul _ Hx).
      - rewrite Eit by auto. rewrite Forall_forall in L1. auto. }
    assert (Skip : forall x, In x (keep ++ map snd (others a lu) ++ map snd (others a ru) ++ all l' ++ all r') ->
        apply_log out f2 (id x) = f2 (id x)).
    { intros x Hx. apply apply_log_other. intros y Hy.
      apply (nodup_disj _ _ _ _ NA); auto. apply in_map; auto. }
    eexists _, _, _. split; [reflexivity|].
    rewrite !apply_log_app. fold f1. fold f2.
    split; [|split; [|split; [|split; [|split]]]].
    + cbn [counts]. rewrite Al, Ar. split; [|auto]. rewrite map_length.
      rewrite !counts_tnum by auto. unfold num.
      pose proof (Permutation_length Ps') as H1. pose proof (Permutation_length Pl') as H2.
      pose proof (Permutation_length Pr') as H3.
      rewrite !app_length, ?map_length in *. lia.
    + cbn [all]. rewrite Al, Ar, PA. rewrite !map_app. apply perm_cnt. intros x.
      rewrite !count_occ_app. lia.
    + apply Forall_app; split; [|apply Forall_app; split; [|exact Fs]].
      * apply Forall_forall. intros x Hx. apply others_in in Hx. destruct Hx as [Hx Hne].
        rewrite Forall_forall in Fl. specialize (Fl _ Hx). destruct ax; cbn in Fl; [congruence|auto].
      * apply Forall_forall. intros x Hx. apply others_in in Hx. destruct Hx as [Hx Hne].
        rewrite Forall_forall in Fr. specialize (Fr _ Hx). destruct ax; cbn in Fr; auto.
    + cbn [loc]. split; [|split].
      * apply Forall_forall. intros x Hx. rewrite Skip by (apply in_app_iff; auto).
        apply Here. apply (Permutation_in _ (Permutation_sym Ps')). apply in_app_iff; auto.
      * apply check_destroy_loc. eapply loc_ext; [|exact Ll]. intros x Hx.
        rewrite Skip by (rewrite !in_app_iff; auto).
        symmetry. apply Eal. apply (Permutation_in _ (Permutation_sym Pl')). rewrite !in_app_iff; auto.
      * apply check_destroy_loc. eapply loc_ext; [|exact Lr]. intros x Hx.
        rewrite Skip by (rewrite !in_app_iff; auto). reflexivity.
    + apply Forall_app; split; [|apply Forall_app; split].
      * apply Forall_forall. intros x Hx.
        rewrite Skip by (rewrite !in_app_iff; right; left; apply in_map; auto).
        pose proof (others_in _ _ _ Hx) as [Hx' _]. rewrite Forall_forall in Ul.
        rewrite Eal; [apply Ul; auto|]. apply (Permutation_in _ (Permutation_sym Pl)).
        apply in_app_iff; left; apply in_map; auto.
      * apply Forall_forall. intros x Hx.
        rewrite Skip by (rewrite !in_app_iff; right; right; left; apply in_map; auto).
        pose proof (others_in _ _ _ Hx) as [Hx' _]. rewrite Forall_forall in Ur. apply Ur; auto.
      * apply Forall_forall. intros x Hx. eapply apply_log_const; eauto.
    + cbn [all]. intros x Hx. rewrite !in_app_iff in *. destruct Hx as [Hx|[Hx|Hx]]; auto.
      specialize (InOut _ Hx). rewrite !in_app_iff in InOut.
      destruct InOut as [H|[H|H]]; auto.
Qed.

Lemma rebalance_at_ok rnd : forall p t a f,
  counts t -> NoDup (map id (all t)) -> loc f a t -> has t p ->
  exists t' log, rebalance_at rnd t p a = Ok (t', log) /\
    counts t' /\ Permutation (all t) (all t') /\ loc (apply_log log f) a t' /\
    (forall x, In x log -> In (snd x) (all t)).
Proof.
  induction p as [|b p IH]; intros t a f C N L H.
  - cbn [rebalance_at].
    destruct (rebalance_ok rnd t a (Four None None None None) (Four None None None None) f C N L)
      as (t' & ups & log & E & C' & P & F & L' & _ & G); [auto|].
    rewrite E. cbn [bind fst]. exists t', log. split; [reflexivity|]. split; [auto|].
    assert (ups = []) as ->.
    { destruct ups; [auto|]. inversion F as [|? ? F1 ?]; subst. cbn in F1. discriminate. }
    auto.
  - destruct t as [|its num div t0 t1 bal ax l r]; [destruct H|]. cbn [has] in H.
    cbn [counts loc all] in C, N, L. destruct C as (-> & Cl & Cr). destruct L as (L1 & L2 & L3).
    pose proof (nodup_app_l _ _ N) as N1. pose proof (nodup_app_r _ _ N) as N23.
    pose proof (nodup_app_l _ _ N23) as N2. pose proof (nodup_app_r _ _ N23) as N3.
    cbn [rebalance_at]. destruct b.
    + destruct (IH r (a ++ [true]) f Cr N3 L3 H) as (r' & log & E & C' & P & L' & G).
      rewrite E. cbn [bind]. eexists _, _. split; [reflexivity|]. cbn [counts all loc].
      split; [|split; [|split]].
      * rewrite (Permutation_length P). auto.
      * rewrite P. reflexivity.
      * split; [|split; [|auto]].
        -- apply Forall_forall. intros x Hx. rewrite apply_log_other.
           ++ rewrite Forall_forall in L1; auto.
           ++ intros y Hy E'. revert E'. apply not_eq_sym. apply (nodup_disj _ _ _ _ N); auto.
              apply in_app_iff; auto.
        -- eapply loc_ext; [|exact L2]. intros x Hx. symmetry. apply apply_log_other.
           intros y Hy E'. revert E'. apply not_eq_sym. apply (nodup_disj _ _ _ _ N23); auto.
      * intros x Hx. rewrite !in_app_iff. auto.
    + destruct (IH l (a ++ [false]) f Cl N2 L2 H) as (l' & log & E & C' & P & L' & G).
      rewrite E. cbn [bind]. eexists _, _. split; [reflexivity|]. cbn [counts all loc].
      split; [|split; [|split]].
      * rewrite (Permutation_length P). auto.
      * rewrite P. reflexivity.
      * split; [|split; [auto|]].
        -- apply Forall_forall. intros x Hx. rewrite apply_log_other.
           ++ rewrite Forall_forall in L1; auto.
           ++ intros y Hy E'. revert E'. apply not_eq_sym. apply (nodup_disj _ _ _ _ N); auto.
              apply in_app_iff; auto.
        -- eapply loc_ext; [|exact L3]. intros x Hx. symmetry. apply apply_log_other.
           intros y Hy. apply (nodup_disj _ _ _ _ N23); auto.
      * intros x Hx. rewrite !in_app_iff. auto.
Qed.

(** ** Histories *)
Definition inv (s : state) (l : list item) : Prop :=
  Permutation (all (root s)) l /\ NoDup (map id l) /\ counts (root s) /\
  loc (fnode s) [] (root s).

Lemma finish_ok rnd t f rb l :
  Permutation (all t) l -> NoDup (map id l) -> counts t -> loc f [] t ->
  (forall q, rb = Some q -> exists q', q = [] ++ q' /\ has t q') ->
  exists s' b', finish rnd t f rb = Ok (s', b') /\ inv s' l /\ (b' = false -> root s' = t).
Proof.
  intros P N C L R. unfold finish. destruct rb as [q|].
  - destruct (R q eq_refl) as (q' & -> & H). cbn [app].
    destruct (rebalance_at_ok rnd q' t [] f C) as (t' & log & E & C' & P' & L' & _); auto.
    { apply (nodup_perm _ _ (Permutation_sym P)); auto. }
    rewrite E. cbn [bind]. eexists _, _. split; [reflexivity|]. split; [|discriminate].
    split; [cbn [root]; rewrite <- P'; auto|]. auto.
  - eexists _, _. split; [reflexivity|]. split; [split; auto|]. auto.
Qed.

Lemma insert_ok rnd thr s l i : inv s l -> ~ In (id i) (map id l) ->
  exists s' b', step rnd thr s (Insert i) = Ok (s', b') /\ inv s' (i :: l) /\
    (b' = false -> cuts (root s) false -> cuts (root s') false).
Proof.
  intros (P & N & C & L) Hn. cbn [step].
  destruct (ins rnd thr (root s) false [] i) as ((t', p), rb) eqn:E.
  destruct (ins_ok _ _ _ _ _ _ _ _ _ E) as (P' & C' & K' & L' & R').
  destruct (finish_ok rnd t' (set_node (fnode s) (id i) (Some p)) rb (i :: l)) as (s' & b' & E' & I' & F').
  - rewrite P', P. reflexivity.
  - cbn. constructor; auto.
  - auto.
  - apply L'; auto. intros H. apply Hn. apply (Permutation_in _ (Permutation_map id P)); auto.
  - exact R'.
  - exists s', b'. split; [exact E'|]. split; [exact I'|]. intros Hb K. rewrite F' by auto. auto.
Qed.

Lemma remove_ok rnd thr s l i : inv s l -> In i l ->
  exists s' b', step rnd thr s (Remove i) = Ok (s', b') /\
    inv s' (filter (fun x => negb (Nat.eqb (id x) (id i))) l) /\
    (b' = false -> cuts (root s) false -> cuts (root s') false).
Proof.
  intros (P & N & C & L) Hi. cbn [step].
  assert (Hr : In i (all (root s))) by (apply (Permutation_in _ (Permutation_sym P)); auto).
  assert (Nr : NoDup (map id (all (root s)))) by (apply (nodup_perm _ _ (Permutation_sym P)); auto).
  destruct (loc_in _ _ _ _ L Hr) as (p & Ep). rewrite Ep. cbn [app].
  destruct (rem_ok thr (fnode s) i (root s) false [] p C L Nr Hr Ep)
    as (t' & rb & E & P' & C' & L' & K' & R').
  rewrite E. cbn [bind].
  pose proof (filter_perm _ _ N Hi) as PF.
  set (l' := filter _ l) in *.
  assert (Pt : Permutation (all t') l').
  { apply Permutation_cons_inv with (a := i). rewrite <- P', <- PF. exact P. }
  assert (N' : NoDup (map id (i :: l'))) by (apply (nodup_perm _ _ PF); auto).
  cbn [map] in N'. inversion N' as [|? ? Hn N'']; subst.
  destruct (finish_ok rnd t' (set_node (fnode s) (id i) None) rb l') as (s' & b' & E' & I' & F'); auto.
  - eapply loc_ext; [|exact L']. intros x Hx. unfold set_node.
    destruct (Nat.eqb_spec (id x) (id i)) as [Ei|Ei]; [|auto].
    exfalso. apply Hn. rewrite <- Ei. apply in_map. apply (Permutation_in _ Pt); auto.
  - exists s', b'. split; [exact E'|]. split; [exact I'|]. intros Hb K. rewrite F' by auto. auto.
Qed.

Lemma history_inv rnd thr s l b : history rnd thr s l b ->
  inv s l /\ (b = false -> cuts (root s) false).
Proof.
  induction 1 as [|s l b i s' b' H [IH K] Hn E|s l b i s' b' H [IH K] Hi E].
  - split; [|cbn; auto]. split; [reflexivity|]. split; [constructor|]. cbn; auto.
  - destruct (insert_ok rnd thr s l i IH Hn) as (s2 & b2 & E2 & I2 & K2).
    rewrite E in E2. inversion E2; subst. split; [auto|]. intros Hb.
    apply orb_false_iff in Hb. destruct Hb; auto.
  - destruct (remove_ok rnd thr s l i IH Hi) as (s2 & b2 & E2 & I2 & K2).
    rewrite E in E2. inversion E2; subst. split; [auto|]. intros Hb.
    apply orb_false_iff in Hb. destruct Hb; auto.
Qed.

(** ** Queries *)
Lemma hits_overlap q i : hits q i = true <-> overlap q i.
Proof.
  unfold hits, overlap. rewrite !andb_true_iff, !Qle_bool_iff. tauto.
Qed.

Lemma ltb_lt a b : ltb a b = true <-> (a < b)%Q.
Proof.
  unfold ltb. rewrite negb_true_iff. split; intros H.
  - apply Qnot_le_lt. intros H2. apply Qle_bool_iff in H2. congruence.
  - apply not_true_is_false. intros H2. apply Qle_bool_iff in H2.
    apply Qlt_not_le in H. auto.
Qed.

Lemma filter_none {A} (f : A -> bool) l : Forall (fun x => f x = false) l -> filter f l = [].
Proof. induction 1 as [|x l H _ IH]; cbn; [auto|]. rewrite H. auto. Qed.

Lemma traverse_cuts q : forall t ax, cuts t ax -> traverse ax t q = filter (hits q) (all t).
Proof.
  induction t as [|its num div t0 t1 bal nax l IHl r IHr]; intros ax K; [reflexivity|].
  cbn [cuts] in K. destruct K as (K1 & K2 & K3 & K4). cbn [traverse all].
  rewrite !filter_app, IHl, IHr by auto. f_equal. f_equal.
  - destruct (Qle_bool (low q ax) div) eqn:E; [auto|]. symmetry. apply filter_none.
    eapply Forall_impl; [|exact K1]. cbn. intros i Hi. apply not_true_is_false. intros Hh.
    apply hits_overlap in Hh. apply ltb_lt in Hi.
    assert (Hq : (low q ax <= high (rect i) ax)%Q)
      by (unfold overlap in Hh; destruct ax; cbn; tauto).
    assert (low q ax <= div)%Q by (apply Qlt_le_weak; eapply Qle_lt_trans; eauto).
    apply Qle_bool_iff in H. congruence.
  - destruct (Qle_bool div (high q ax)) eqn:E; [auto|]. symmetry. apply filter_none.
    eapply Forall_impl; [|exact K2]. cbn. intros i Hi. apply not_true_is_false. intros Hh.
    apply hits_overlap in Hh. apply ltb_lt in Hi.
    assert (Hq : (low (rect i) ax <= high q ax)%Q)
      by (unfold overlap in Hh; destruct ax; cbn; tauto).
    assert (div <= high q ax)%Q by (apply Qlt_le_weak; eapply Qlt_le_trans; eauto).
    apply Qle_bool_iff in H. congruence.
Qed.

Lemma traverse_sub q : forall t ax, exists rest,
  Permutation (traverse ax t q ++ rest) (filter (hits q) (all t)).
Proof.
  induction t as [|its num div t0 t1 bal nax l IHl r IHr]; intros ax; [exists []; reflexivity|].
  cbn [traverse all]. rewrite !filter_app.
  assert (Hl : exists x, Permutation
    ((if Qle_bool (low q ax) div then traverse (negb ax) l q else []) ++ x) (filter (hits q) (all l))).
  { destruct (Qle_bool _ _); [apply IHl|]. eexists; cbn [app]; reflexivity. }
  assert (Hr : exists x, Permutation
    ((if Qle_bool div (high q ax) then traverse (negb ax) r q else []) ++ x) (filter (hits q) (all r))).
  { destruct (Qle_bool div _); [apply IHr|]. eexists; cbn [app]; reflexivity. }
  destruct Hl as (x & Hl), Hr as (y & Hr). exists (x ++ y). rewrite <- Hl, <- Hr.
  apply perm_cnt. intros z. rewrite !count_occ_app. lia.
Qed.

Lemma nodup_filter (f : item -> bool) l : NoDup (map id l) -> NoDup (map id (filter f l)).
Proof.
  induction l as [|x l IH]; cbn; intros N; [auto|]. inversion N; subst.
  destruct (f x); cbn; [|auto]. constructor; [|auto]. intros H. apply H1.
  apply in_map_iff in H. destruct H as (y & E & Hy). apply filter_In in Hy.
  rewrite <- E. apply in_map; tauto.
Qed.

(* ------------------------------------------------------------------ *)
(** * Theorems *)

(** As long as no call has rebalanced the tree, a query visits exactly the
    stored items that overlap the rectangle, each once. *)
Theorem C56_query :
  forall rnd thr s l, history rnd thr s l false ->
  forall q,
    NoDup (map id (query s q)) /\
    forall i, In i (query s q) <-> In i l /\ overlap q i.
Proof.
  intros rnd thr s l H q. destruct (history_inv _ _ _ _ _ H) as [(P & N & _) K].
  specialize (K eq_refl). unfold query. rewrite traverse_cuts by auto.
  pose proof (nodup_perm _ _ (Permutation_sym P) N) as Nr. split.
  - apply nodup_filter; auto.
  - intros i. rewrite filter_In, hits_overlap. split; intros [Hi Ho]; split; auto.
    + apply (Permutation_in _ P); auto.
    + apply (Permutation_in _ (Permutation_sym P)); auto.
Qed.
Print Assumptions C56_query.

(** With or without rebalancing: no call on a stored (to remove) or absent
    (to insert) item does anything undefined. *)
Theorem C56_safe :
  forall rnd thr s l b, history rnd thr s l b ->
    (forall i, ~ In (id i) (map id l) -> exists s' b', step rnd thr s (Insert i) = Ok (s', b')) /\
    (forall i, In i l -> exists s' b', step rnd thr s (Remove i) = Ok (s', b')).
Proof.
  intros rnd thr s l b H. destruct (history_inv _ _ _ _ _ H) as [I _]. split; intros i Hi.
  - destruct (insert_ok rnd thr s l i I Hi) as (s' & b' & E & _). eauto.
  - destruct (remove_ok rnd thr s l i I Hi) as (s' & b' & E & _). eauto.
Qed.
Print Assumptions C56_safe.

(** With or without rebalancing: the nodes hold exactly the stored items,
    each once, and a query visits only stored items that overlap the
    rectangle, none twice. *)
Theorem C56_sound :
  forall rnd thr s l b, history rnd thr s l b ->
    NoDup (map id (all (root s))) /\ (forall i, In i (all (root s)) <-> In i l) /\
    forall q,
      NoDup (map id (query s q)) /\
      forall i, In i (query s q) -> In i l /\ overlap q i.
Proof.
  intros rnd thr s l b H. destruct (history_inv _ _ _ _ _ H) as [(P & N & _) _].
  pose proof (nodup_perm _ _ (Permutation_sym P) N) as Nr.
  split; [auto|]. split.
  { intros i; split; apply Permutation_in; [|apply Permutation_sym]; auto. }
  intros q. unfold query. destruct (traverse_sub q (root s) false) as (rest & R). split.
  - eapply nodup_app_l, nodup_perm; [apply Permutation_sym; exact R|]. apply nodup_filter; auto.
  - intros i Hi. assert (Hf : In i (filter (hits q) (all (root s)))).
    { apply (Permutation_in _ R), in_app_iff; auto. }
    apply filter_In in Hf. rewrite hits_overlap in Hf. destruct Hf as [Hf Ho].
    split; [apply (Permutation_in _ P)|]; auto.
Qed.
Print Assumptions C56_sound.

(** With a threshold of 100 or more, insertions never rebalance, so that
    C56_query covers every tree built by insertions. *)
Inductive inserts (rnd : Q -> Q) (thr : Z) : state -> list item -> Prop :=
| i_init : inserts rnd thr init []
| i_insert s l i s' b' :
    inserts rnd thr s l -> ~ In (id i) (map id l) ->
    step rnd thr s (Insert i) = Ok (s', b') -> inserts rnd thr s' (i :: l).

Fixpoint bals (t : tree) : Prop :=
  match t with
  | Leaf => True
  | Node _ num _ _ _ bal _ l r => 0 < num /\ Z.abs bal <= num /\ bals l /\ bals r
  end.

Lemma short_abs z : Z.abs (short z) <= Z.abs z.
Proof.
  unfold short, sgn. change (2 ^ 16) with 65536. change (2 ^ (16 - 1)) with 32768.
  pose proof (Z.mod_pos_bound z 65536 ltac:(lia)). pose proof (Z.div_mod z 65536 ltac:(lia)).
  destruct (_ <? _) eqn:E; lia.
Qed.

Lemma balanced thr bal num : 100 <= thr -> 0 < num -> Z.abs bal <= num ->
  unbalanced thr bal num = false.
Proof.
  intros Ht Hn Hb. unfold unbalanced. rewrite Z.gtb_ltb. apply Z.ltb_ge.
  apply Z.le_trans with 100; [|auto]. apply Z.div_le_upper_bound; lia.
Qed.

Lemma ins_bals rnd thr i : 100 <= thr -> forall t ax a t' p rb,
  ins rnd thr t ax a i = (t', p, rb) -> bals t -> bals t' /\ rb = None.
Proof.
  intros Ht. induction t as [|its num div t0 t1 bal nax l IHl r IHr]; intros ax a t' p rb E B;
    cbn [ins] in E.
  - inversion E; subst. cbn. split; [|auto]. lia.
  - cbn [bals] in B. destruct B as (B1 & B2 & B3 & B4).
    pose proof (short_abs (bal - 1)). pose proof (short_abs (bal + 1)).
    destruct (ltb _ _); [|destruct (ltb _ _)].
    + destruct (ins rnd thr l _ _ i) as ((l', p'), rb') eqn:EI.
      destruct (IHl _ _ _ _ _ EI B3) as [B' ->]. rewrite balanced in E by lia.
      inversion E; subst. cbn [bals]. split; [|auto]. split; [lia|]. split; [lia|auto].
    + destruct (ins rnd thr r _ _ i) as ((r', p'), rb') eqn:EI.
      destruct (IHr _ _ _ _ _ EI B4) as [B' ->]. rewrite balanced in E by lia.
      inversion E; subst. cbn [bals]. split; [|auto]. split; [lia|]. split; [lia|auto].
    + inversion E; subst. cbn [bals]. split; [|auto]. split; [lia|]. split; [lia|auto].
Qed.

Theorem C56_inserts :
  forall rnd thr s l, 100 <= thr -> inserts rnd thr s l -> history rnd thr s l false.
Proof.
  intros rnd thr s l Ht H.
  assert (G : history rnd thr s l false /\ bals (root s)); [|tauto].
  induction H as [|s l i s' b' H [IH B] Hn E].
  - split; [constructor|exact Logic.I].
  - assert (E0 := E). cbn [step] in E.
    destruct (ins rnd thr (root s) false [] i) as ((t', p), rb) eqn:EI.
    destruct (ins_bals _ _ _ Ht _ _ _ _ _ _ EI B) as [B' ->]. cbn [finish] in E.
    inversion E; subst. split; [|auto].
    apply (h_insert rnd thr s l false i _ false IH Hn E0).
Qed.
Print Assumptions C56_inserts.

(** Runs of calls, for the examples. *)
Fixpoint run (thr : Z) (s : state) (b : bool) (l : list item) (ops : list op)
  : res (state * list item * bool) :=
  match ops with
  | [] => Ok (s, l, b)
  | o :: ops =>
      do (s', b') <- step (fun x => x) thr s o;
      match o with
      | Insert i =>
          if existsb (fun x => Nat.eqb (id x) (id i)) l then UB
          else run thr s' (b || b') (i :: l) ops
      | Remove i =>
          if in_dec item_eq_dec i l
          then run thr s' (b || b') (filter (fun x => negb (Nat.eqb (id x) (id i))) l) ops
          else UB
      end
  end.

Lemma run_history thr ops : forall s b l s' l' b', history (fun x => x) thr s l b ->
  run thr s b l ops = Ok (s', l', b') -> history (fun x => x) thr s' l' b'.
Proof.
  induction ops as [|o ops IH]; intros s b l s' l' b' H E; cbn [run] in E.
  - inversion E; subst; auto.
  - destruct (step _ thr s o) as [[s1 b1]| |] eqn:Es; try discriminate. cbn [bind] in E.
    destruct o as [i|i].
    + destruct (existsb _ l) eqn:Ex; [discriminate|]. eapply IH; [|exact E].
      eapply h_insert; eauto. intros Hi. apply in_map_iff in Hi. destruct Hi as (x & Ei & Hx).
      assert (existsb (fun x => Nat.eqb (id x) (id i)) l = true); [|congruence].
      apply existsb_exists. exists x. split; [auto|]. apply Nat.eqb_eq; auto.
    + destruct (in_dec _ _ _); [|discriminate]. eapply IH; [|exact E].
      eapply h_remove; eauto.
Qed.

(** A point at (x, 0). *)
Definition pt (k : nat) (x : Z) : item := Item k (Four (inject_Z x) 0 (inject_Z x) 0)%Q.

(** The rest fails after a rebalance: of four points inserted with the
    default threshold of 20, the second is stored but a query at its place
    does not report it. *)
Theorem C56_rebalance_refuted :
  exists s l, history (fun x => x) 20 s l true /\
    In (pt 1 10) l /\ overlap (Four 10 0 10 0)%Q (pt 1 10) /\
    query s (Four 10 0 10 0)%Q = [].
Proof.
  destruct (run 20 init false [] [Insert (pt 0 0); Insert (pt 1 10); Insert (pt 2 20); Insert (pt 3 100)])
    as [[[s l] b]| |] eqn:E; [|vm_compute in E; discriminate|vm_compute in E; discriminate].
  pose proof (run_history _ _ _ _ _ _ _ _ (h_init _ _) E) as H.
  vm_compute in E. inversion E; subst; clear E.
  eexists _, _. split; [exact H|]. split; [right; right; left; reflexivity|]. split.
  - unfold overlap. cbn. repeat split; apply Qle_refl.
  - vm_compute. reflexivity.
Qed.
Print Assumptions C56_rebalance_refuted.

(** A history without rebalancing, with boxes on both sides of both axes and
    a removal. *)
Definition bx (k : nat) (a b c d : Z) : item :=
  Item k (Four (inject_Z a) (inject_Z b) (inject_Z c) (inject_Z d)).

Example C56_example :
  exists s l, history (fun x => x) 100 s l false /\ length l = 5%nat /\
    map id (query s (Four 2 2 25 40)%Q) = [4; 2; 5]%nat.
Proof.
  destruct (run 100 init false []
    [Insert (bx 0 0 0 20 20); Insert (bx 1 30 0 40 5); Insert (bx 2 (-5) 1 5 3);
     Insert (bx 3 31 50 32 60); Insert (bx 4 10 10 10 10); Remove (bx 0 0 0 20 20);
     Insert (bx 5 0 30 4 32)])
    as [[[s l] b]| |] eqn:E; [|vm_compute in E; discriminate|vm_compute in E; discriminate].
  pose proof (run_history _ _ _ _ _ _ _ _ (h_init _ _) E) as H.
  vm_compute in E. inversion E; subst; clear E.
  eexists _, _. split; [exact H|]. split; reflexivity.
Qed.
