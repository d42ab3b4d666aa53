(* Properties of bss::Variant (Variant.h) and bss::Singleton (Singleton.h): C149-C151. *)
From Coq Require Import List Arith ZArith Lia Bool.
From Coq Require Import ZifyBool ZifyNat.
From Verif Require Import Common Variant.
Import ListNotations.
Local Open Scope Z_scope.

Section Spec.
Context {val : Type} (dflt : nat -> val) (moved : nat -> val -> val).
Context (ts : list nat).
(** Specification: a variant holds nothing or a value of one of the types. *)
Local Notation content := (option (nat * val)).
Definition movedc (c : content) : content := match c with Some (T, v) => Some (T, moved T v) | None => None end.
(** what each operation of a program makes of the contents; None for a program that uses a variant that does not exist or
    a type that is not one of the types *)
Definition spec_step (a : list (option content)) (o : @op val) : option (list (option content)) :=
  match o with
  | New i => match nth_error a i with Some None => Some (upd a i (Some None)) | _ => None end
  | NewFrom mv i j =>
      match nth_error a i, nth_error a j with
      | Some None, Some (Some c) => Some (upd (upd a j (Some (if mv then movedc c else c))) i (Some c))
      | _, _ => None
      end
  | NewVal i T v => if in_dec Nat.eq_dec T ts then match nth_error a i with Some None => Some (upd a i (Some (Some (T, v)))) | _ => None end else None
  | Assign mv i j =>
      match nth_error a i, nth_error a j with
      | Some (Some _), Some (Some c) => Some (upd (upd a j (Some (if mv then movedc c else c))) i (Some c))
      | _, _ => None
      end
  | Put i T v => if in_dec Nat.eq_dec T ts then match nth_error a i with Some (Some _) => Some (upd a i (Some (Some (T, v)))) | _ => None end else None
  | Typeset i T => if in_dec Nat.eq_dec T ts then match nth_error a i with Some (Some _) => Some (upd a i (Some (Some (T, dflt T)))) | _ => None end else None
  | Kill i => match nth_error a i with Some (Some _) => Some (upd a i None) | _ => None end
  | Parse _ _ => None
  end.
Fixpoint spec_run (a : list (option content)) (l : list (@op val)) : option (list (option content)) :=
  match l with [] => Some a | o :: r => match spec_step a o with Some a => spec_run a r | None => None end end.
(** the operation assigns an empty variant to an empty variant *)
Definition empty_to_empty (a : list (option content)) (o : @op val) : Prop :=
  match o with Assign _ i j => nth_error a i = Some (Some None) /\ nth_error a j = Some (Some None) | _ => False end.
Fixpoint never_empty (a : list (option content)) (l : list (@op val)) : Prop :=
  match l with [] => True | o :: r => ~ empty_to_empty a o /\ match spec_step a o with Some a => never_empty a r | None => True end end.
End Spec.

Lemma getpos_in x l : In x l -> 0 <= getpos x l /\ nth_error l (Z.to_nat (getpos x l)) = Some x.
Proof.
  induction l as [|t r IH]; [easy|]. intros H. cbn [getpos]. destruct (Nat.eqb_spec x t) as [->|Hne]; [auto with zarith|].
  destruct H as [->|H]; [easy|]. destruct (IH H) as [A B]. destruct (Z.eqb_spec (getpos x r) (-1)); [lia|]. cbn [negb]. split; [lia|].
  replace (Z.to_nat (getpos x r + 1)) with (S (Z.to_nat (getpos x r))) by lia. exact B.
Qed.
Lemma getpos_notin x l : ~ In x l -> getpos x l = -1.
Proof.
  induction l as [|t r IH]; auto. intros H. cbn [getpos]. destruct (Nat.eqb_spec x t) as [->|Hne]; [exfalso; apply H; left; auto|].
  rewrite IH; auto. intros ?; apply H; right; auto.
Qed.
Lemma getpos_inj x y l : In x l -> In y l -> getpos x l = getpos y l -> x = y.
Proof. intros Hx Hy E. apply getpos_in in Hx as [_ Hx]. apply getpos_in in Hy as [_ Hy]. rewrite E in Hx. congruence. Qed.

Lemma pos_ne ts T : In T ts -> (-1 =? getpos T ts) = false.
Proof. intros H. apply getpos_in in H. lia. Qed.
Lemma pos_eq ts T U : In T ts -> In U ts -> (getpos T ts =? getpos U ts) = Nat.eqb T U.
Proof.
  intros HT HU. destruct (Nat.eqb_spec T U) as [->|N]; [apply Z.eqb_refl|]. apply Z.eqb_neq. intros E. apply N. eapply getpos_inj; eauto.
Qed.

Section Proofs.
Context {val : Type} (dflt : nat -> val) (moved : nat -> val -> val) (ts : list nat) (NE : ts <> []).

Local Notation content := (option (nat * val)).
Definition rel (x : @var val) (c : content) : Prop :=
  match c with None => x = mkv (-1) None | Some (T, v) => In T ts /\ x = mkv (getpos T ts) (Some (T, v)) end.
Definition relo (x : option (@var val)) (c : option content) : Prop :=
  match x, c with None, None => True | Some x, Some c => rel x c | _, _ => False end.

(** the walk over the types reaches the one of the object *)
Lemma destroy_ok l x c : l <> [] -> incl l ts -> rel x c -> (forall T v, c = Some (T, v) -> In T l) -> destroy ts (vtag x) (store x) l = Ok None.
Proof.
  induction l as [|H r IH]; [easy|]. intros _ Hl Hx Hc. cbn [destroy]. assert (HH : In H ts) by (apply Hl; left; auto).
  destruct c as [[T v]|].
  - destruct Hx as [HT ->]. cbn [vtag store]. rewrite pos_eq by auto. destruct (Nat.eqb_spec T H) as [->|N].
    + cbn [object]. rewrite Nat.eqb_refl. auto.
    + destruct (Hc _ _ eq_refl) as [->|Ir]; [easy|]. destruct r as [|y r]; [easy|]. apply (IH ltac:(easy)) in Hc || (specialize (IH ltac:(easy) (fun a Ha => Hl a (or_intror Ha)) (conj HT eq_refl))).
      apply IH. intros T' v' E. injection E as <- <-. auto.
  - cbn in Hx. subst x. cbn [vtag store]. rewrite pos_ne by auto. destruct r as [|y r]; [auto|]. apply (IH ltac:(easy) (fun a Ha => Hl a (or_intror Ha)) eq_refl). easy.
Qed.
Lemma destruct_ok x c : rel x c -> destruct_ ts x = Ok None.
Proof. intros H. eapply destroy_ok; eauto; [apply incl_refl|]. intros T v ->. apply H. Qed.
Lemma constructU_ok l (mv : bool) y c : l <> [] -> incl l ts -> rel y c -> (forall T v, c = Some (T, v) -> In T l) ->
  constructU moved ts mv (vtag y) (store y) l = Ok (c, if mv then movedc moved c else c).
Proof.
  induction l as [|H r IH]; [easy|]. intros _ Hl Hx Hc. cbn [constructU]. assert (HH : In H ts) by (apply Hl; left; auto).
  destruct c as [[T v]|].
  - destruct Hx as [HT ->]. cbn [vtag store]. rewrite pos_eq by auto. destruct (Nat.eqb_spec T H) as [->|N].
    + cbn [object]. rewrite Nat.eqb_refl. cbn [bind movedc]. auto.
    + destruct (Hc _ _ eq_refl) as [->|Ir]; [easy|]. destruct r as [|z r]; [easy|].
      apply (IH ltac:(easy) (fun a Ha => Hl a (or_intror Ha)) (conj HT eq_refl)). intros T' v' E. injection E as <- <-. auto.
  - cbn in Hx. subst y. cbn [vtag store]. rewrite pos_ne by auto. destruct r as [|z r]; [cbn; destruct mv; auto|].
    apply (IH ltac:(easy) (fun a Ha => Hl a (or_intror Ha)) eq_refl). easy.
Qed.
Lemma assignU_ok l (mv : bool) T u v : In T ts -> incl l ts -> In T l ->
  assignU moved ts mv (getpos T ts) (Some (T, u)) (Some (T, v)) l = Ok (Some (T, v), if mv then Some (T, moved T v) else Some (T, v)).
Proof.
  intros HT. induction l as [|H r IH]; [easy|]. intros Hl HI. cbn [assignU]. rewrite pos_eq by (auto; apply Hl; left; auto). destruct (Nat.eqb_spec T H) as [->|N].
  - cbn [object]. rewrite Nat.eqb_refl. auto.
  - destruct HI as [->|HI]; [easy|]. destruct r as [|z r]; [easy|]. apply IH; auto. intros a Ha; apply Hl; right; auto.
Qed.
Lemma convertU_ok cast l U T (v : val) : In T ts -> incl l ts -> In T l -> convertU cast ts U (getpos T ts) (Some (T, v)) l = Ok (cast T U v).
Proof.
  intros HT. induction l as [|H r IH]; [easy|]. intros Hl HI. cbn [convertU]. rewrite pos_eq by (auto; apply Hl; left; auto). destruct (Nat.eqb_spec T H) as [->|N].
  - cbn [object]. rewrite Nat.eqb_refl. auto.
  - destruct HI as [->|HI]; [easy|]. destruct r as [|z r]; [easy|]. apply IH; auto. intros a Ha; apply Hl; right; auto.
Qed.

Definition srel (s : state) (a : list (option content)) : Prop :=
  lost s = [] /\ length (vars s) = length a /\ forall i x c, nth_error (vars s) i = Some x -> nth_error a i = Some c -> relo x c.
Lemma srel_upd s a i x c : srel s a -> (i < length a)%nat -> relo x c -> exists s', put s i x [] = Ok s' /\ srel s' (upd a i c).
Proof.
  intros (L & E & H) Hi Hx. unfold put. rewrite set_ok by lia. cbn [bind]. eexists. split; [reflexivity|].
  split; [cbn; now rewrite app_nil_r|]. split; [cbn; now rewrite !upd_length|]. cbn [vars]. intros j y d. rewrite !nth_error_upd, E.
  destruct ((i =? j)%nat && (i <? length a)%nat) eqn:B.
  - intros H1 H2. injection H1 as <-. injection H2 as <-. auto.
  - eauto.
Qed.
Lemma srel_at s a i c : srel s a -> nth_error a i = Some (Some c) -> exists x, var_at s i = Ok x /\ rel x c.
Proof.
  intros (_ & E & H) Ha. destruct (nth_error_ex (vars s) i) as [x Ex]; [rewrite E; eapply nth_error_lt; eauto|].
  specialize (H _ _ _ Ex Ha). unfold var_at. rewrite (get_some _ _ _ Ex). cbn [bind]. destruct x as [x|]; [|easy]. eauto.
Qed.
Lemma srel_fresh s a i : srel s a -> nth_error a i = Some None -> fresh s i = Ok tt.
Proof.
  intros (_ & E & H) Ha. destruct (nth_error_ex (vars s) i) as [x Ex]; [rewrite E; eapply nth_error_lt; eauto|].
  specialize (H _ _ _ Ex Ha). unfold fresh. rewrite (get_some _ _ _ Ex). cbn [bind]. destruct x as [x|]; [easy|]. auto.
Qed.
Lemma rel_tag x c : rel x c -> vtag x = match c with Some (T, _) => getpos T ts | None => -1 end /\ store x = c.
Proof. destruct c as [[T v]|]; [intros [_ ->]|intros ->]; auto. Qed.
Lemma rel_mk c : (forall T v, c = Some (T, v) -> In T ts) -> rel (mkv (match c with Some (T, _) => getpos T ts | None => -1 end) c) c.
Proof. destruct c as [[T v]|]; cbn; intros H; [split; eauto|auto]. Qed.
Lemma rel_in x T v : rel x (Some (T, v)) -> In T ts. Proof. intros [H _]. auto. Qed.
Lemma movedc_tag c : match movedc moved c with Some (T, _) => getpos T ts | None => -1 end = match c with Some (T, _) => getpos T ts | None => -1 end.
Proof. destruct c as [[T v]|]; auto. Qed.
Lemma rel_src (mv : bool) x c : rel x c -> rel (mkv (vtag x) (if mv then movedc moved c else c)) (if mv then movedc moved c else c).
Proof.
  intros H. destruct (rel_tag _ _ H) as [-> _]. destruct c as [[T v]|]; [|destruct mv; reflexivity]. apply rel_in in H. destruct mv; cbn; auto.
Qed.

Lemma step_ok s a o a' : srel s a -> spec_step dflt moved ts a o = Some a' -> ~ empty_to_empty a o -> exists s', step dflt moved ts s o = Ok s' /\ srel s' a'.
Proof.
  intros HR HS HE. destruct o as [i|mv i j|i T v|mv i j|i T v|i T|i|i d]; cbn [spec_step step] in *.
  - destruct (nth_error a i) as [[c|]|] eqn:Ei; try discriminate. injection HS as <-. rewrite (srel_fresh _ _ _ HR Ei). cbn [bind]. apply srel_upd; auto; [eapply nth_error_lt; eauto|reflexivity].
  - destruct (nth_error a i) as [[c0|]|] eqn:Ei; try discriminate. destruct (nth_error a j) as [[c|]|] eqn:Ej; try discriminate. injection HS as <-.
    rewrite (srel_fresh _ _ _ HR Ei). cbn [bind]. destruct (srel_at _ _ _ _ HR Ej) as (y & -> & Hy). cbn [bind].
    rewrite (constructU_ok ts mv y c NE (incl_refl _) Hy) by (intros T v ->; eapply rel_in; eauto). cbn [bind].
    destruct (srel_upd s a j (Some (mkv (vtag y) (if mv then movedc moved c else c))) (Some (if mv then movedc moved c else c)) HR (nth_error_lt _ _ _ Ej) (rel_src mv y c Hy)) as (s1 & E1 & R1).
    assert (exists s', put s1 i (Some (mkv (vtag y) c)) [] = Ok s' /\ srel s' (upd (upd a j (Some (if mv then movedc moved c else c))) i (Some c))) as (s2 & E2 & R2).
    { apply srel_upd; auto; [rewrite upd_length; eapply nth_error_lt; eauto|]. exact (rel_src false y c Hy). }
    exists s2. split; auto. destruct c as [o|]; cbn [place reuse]; rewrite E1; cbn [bind]; auto.
  - destruct (in_dec Nat.eq_dec T ts); [|discriminate]. destruct (nth_error a i) as [[c|]|] eqn:Ei; try discriminate. injection HS as <-. rewrite (srel_fresh _ _ _ HR Ei). cbn [bind].
    apply srel_upd; auto; [eapply nth_error_lt; eauto|]. cbn. auto.
  - destruct (nth_error a i) as [[c0|]|] eqn:Ei; try discriminate. destruct (nth_error a j) as [[c|]|] eqn:Ej; try discriminate. injection HS as <-.
    destruct (srel_at _ _ _ _ HR Ei) as (x & -> & Hx). cbn [bind]. destruct (srel_at _ _ _ _ HR Ej) as (y & -> & Hy). cbn [bind].
    destruct (srel_upd s a j (Some (mkv (vtag y) (if mv then movedc moved c else c))) (Some (if mv then movedc moved c else c)) HR (nth_error_lt _ _ _ Ej) (rel_src mv y c Hy)) as (s1 & E1 & R1).
    assert (exists s', put s1 i (Some (mkv (vtag y) c)) [] = Ok s' /\ srel s' (upd (upd a j (Some (if mv then movedc moved c else c))) i (Some c))) as (s2 & E2 & R2).
    { apply srel_upd; auto; [rewrite upd_length; eapply nth_error_lt; eauto|]. exact (rel_src false y c Hy). }
    exists s2. split; auto. destruct (Z.eqb_spec (vtag x) (vtag y)) as [Et|Et].
    + destruct (rel_tag _ _ Hx) as [Tx Sx]. destruct (rel_tag _ _ Hy) as [Ty Sy]. destruct c as [[T v]|].
      * destruct c0 as [[T0 v0]|]; [|exfalso; destruct (getpos_in T ts (rel_in _ _ _ Hy)); lia].
        assert (T0 = T) by (apply (getpos_inj _ _ ts); [eapply rel_in; eauto|eapply rel_in; eauto|congruence]). subst T0.
        rewrite Sx, Sy, Tx. rewrite assignU_ok by (try apply incl_refl; eapply rel_in; eauto). cbn [bind].
        replace (if mv then Some (T, moved T v) else Some (T, v)) with (if mv then movedc moved (Some (T, v)) else Some (T, v)) by (destruct mv; auto). rewrite E1. cbn [bind]. rewrite <- Tx, Et. exact E2.
      * exfalso. destruct c0 as [[T0 v0]|]; [destruct (getpos_in T0 ts (rel_in _ _ _ Hx)); lia|]. apply HE. cbn. auto.
    + rewrite (destruct_ok _ _ Hx). cbn [bind]. rewrite (constructU_ok ts mv y c NE (incl_refl _) Hy) by (intros T v ->; eapply rel_in; eauto). cbn [bind].
      destruct c as [o|]; cbn [place reuse]; rewrite E1; cbn [bind]; auto.
  - destruct (in_dec Nat.eq_dec T ts) as [HT|]; [|discriminate]. destruct (nth_error a i) as [[c|]|] eqn:Ei; try discriminate. injection HS as <-.
    destruct (srel_at _ _ _ _ HR Ei) as (x & -> & Hx). cbn [bind]. destruct (rel_tag _ _ Hx) as [Tx Sx].
    assert (P : exists s', put s i (Some (mkv (getpos T ts) (Some (T, v)))) [] = Ok s' /\ srel s' (upd a i (Some (Some (T, v))))).
    { apply srel_upd; auto; [eapply nth_error_lt; eauto|]. cbn; auto. }
    destruct (Z.eqb_spec (vtag x) (getpos T ts)) as [E|E].
    + destruct c as [[T0 v0]|]; [|destruct (getpos_in T ts HT); lia]. assert (T0 = T) by (apply (getpos_inj _ _ ts); [eapply rel_in; eauto|auto|congruence]). subst T0.
      rewrite Sx, E. cbn [object]. rewrite Nat.eqb_refl. cbn [bind]. exact P.
    + rewrite (destruct_ok _ _ Hx). cbn [bind place reuse]. exact P.
  - destruct (in_dec Nat.eq_dec T ts) as [HT|]; [|discriminate]. destruct (nth_error a i) as [[c|]|] eqn:Ei; try discriminate. injection HS as <-.
    destruct (srel_at _ _ _ _ HR Ei) as (x & -> & Hx). cbn [bind]. rewrite (destruct_ok _ _ Hx). cbn [bind place reuse].
    apply srel_upd; auto; [eapply nth_error_lt; eauto|]. cbn; auto.
  - destruct (nth_error a i) as [[c|]|] eqn:Ei; try discriminate. injection HS as <-.
    destruct (srel_at _ _ _ _ HR Ei) as (x & -> & Hx). cbn [bind]. rewrite (destruct_ok _ _ Hx). cbn [bind reuse]. apply srel_upd; auto; [eapply nth_error_lt; eauto|]. exact Logic.I.
  - discriminate.
Qed.
Lemma run_ok l : forall s a a', srel s a -> spec_run dflt moved ts a l = Some a' -> never_empty dflt moved ts a l -> exists s', run dflt moved ts s l = Ok s' /\ srel s' a'.
Proof.
  induction l as [|o l IH]; cbn [spec_run run never_empty]; intros s a a' HR HS HN; [injection HS as <-; eauto|].
  destruct HN as [HE HN]. destruct (spec_step dflt moved ts a o) as [a1|] eqn:E1; [|discriminate].
  destruct (step_ok s a o a1 HR E1 HE) as (s1 & -> & R1). cbn [bind]. eauto.
Qed.
Lemma srel_init n : srel (mkst (repeat None n) []) (repeat None n).
Proof.
  split; auto. split; [cbn; now rewrite !repeat_length|]. cbn. intros i x c Hx Hc. apply nth_error_In, repeat_spec in Hx, Hc. subst. exact Logic.I.
Qed.
Lemma ser_o_ok l x c : l <> [] -> incl l ts -> rel x c -> (forall T v, c = Some (T, v) -> In T l) ->
  ser_o ts x l = Ok (match c with Some (T, v) => [FO (fun _ => v)] | None => [] end).
Proof.
  induction l as [|H r IH]; [easy|]. intros _ Hl Hx Hc. cbn [ser_o]. assert (HH : In H ts) by (apply Hl; left; auto).
  destruct c as [[T v]|].
  - pose proof Hx as [HT Ex]. destruct (rel_tag _ _ Hx) as [Tx Sx]. rewrite Tx, Sx. rewrite pos_eq by auto. destruct (Nat.eqb_spec T H) as [->|N].
    + cbn [object]. rewrite Nat.eqb_refl. auto.
    + destruct (Hc _ _ eq_refl) as [->|Ir]; [easy|]. destruct r as [|z r]; [easy|].
      apply (IH ltac:(easy) (fun a Ha => Hl a (or_intror Ha)) Hx). intros T' v' E. injection E as <- <-. auto.
  - destruct (rel_tag _ _ Hx) as [Tx Sx]. rewrite Tx. rewrite pos_ne by auto. destruct r as [|z r]; [auto|]. apply (IH ltac:(easy) (fun a Ha => Hl a (or_intror Ha)) Hx). easy.
Qed.
Lemma parse_o_ok l T (p : nat -> val) : In T ts -> incl l ts -> In T l ->
  parse_o dflt ts (mkv (getpos T ts) None) p l = Ok (mkv (getpos T ts) (Some (T, p T)), []).
Proof.
  intros HT. induction l as [|H r IH]; [easy|]. intros Hl HI. cbn [parse_o vtag]. rewrite pos_eq by (auto; apply Hl; left; auto). destruct (Nat.eqb_spec T H) as [->|N].
  - rewrite (destruct_ok (mkv (-1) None) None eq_refl). cbn [bind place reuse object]. rewrite Nat.eqb_refl. cbn [bind store reuse app]. auto.
  - destruct HI as [->|HI]; [easy|]. apply IH; auto. intros a Ha; apply Hl; right; auto.
Qed.
Lemma parse_o_none l (p : nat -> val) : incl l ts -> parse_o dflt ts (mkv (-1) None) p l = Ok (mkv (-1) None, []).
Proof.
  induction l as [|H r IH]; intros Hl; auto. cbn [parse_o vtag]. rewrite pos_ne by (apply Hl; left; auto). apply IH. intros a Ha; apply Hl; right; auto.
Qed.
End Proofs.

(** what tag, is, get and convert tell of a variant with the content c *)
Definition tells {val} (cast : nat -> nat -> val -> val) (ts : list nat) (s : @state val) (i : nat) (c : option (nat * val)) : Prop :=
  match c with
  | None => Tag s i = Ok (-1) /\ forall U, In U ts -> Is ts s i U = Ok false
  | Some (T, v) =>
      (exists k, Tag s i = Ok (Z.of_nat k) /\ nth_error ts k = Some T) /\
      (forall U, In U ts -> Is ts s i U = Ok (Nat.eqb U T)) /\ Get ts s i T = Ok v /\ forall U, Convert cast ts s i U = Ok (cast T U v)
  end.
Lemma tells_ok {val} cast ts (s : @state val) a i c : srel ts s a -> nth_error a i = Some (Some c) -> tells cast ts s i c.
Proof.
  intros HR Ei. destruct (srel_at _ _ _ _ _ HR Ei) as (x & Ex & Hx). unfold tells, Tag, Is, Get, Convert. rewrite Ex. cbn [bind].
  destruct (rel_tag _ _ _ Hx) as [Tx Sx]. destruct c as [[T v]|].
  - pose proof (rel_in _ _ _ _ Hx) as HT. destruct (getpos_in T ts HT) as [P0 P1]. rewrite Tx, Sx. split; [|split; [|split]].
    + exists (Z.to_nat (getpos T ts)). rewrite Z2Nat.id by lia. auto.
    + intros U HU. f_equal. now apply pos_eq.
    + rewrite Z.eqb_refl. cbn. now rewrite Nat.eqb_refl.
    + intros U. apply convertU_ok; auto. apply incl_refl.
  - rewrite Tx. split; auto. intros U HU. f_equal. rewrite Z.eqb_sym. now apply pos_ne.
Qed.

(** C149: for every list of types and every program of constructions, copies, moves, assignments, typeset and destructions
    that does not assign an empty variant to an empty one: no access goes to an object that does not live or as a wrong type
    (in particular nothing is destroyed twice), no object is lost without its destructor, and tag, is, get and convert tell
    the content of every variant, which is the value it was last given.
    Missing, because false (C149_variant_refuted): the assignment of an empty variant to an empty one, and parsing. *)
Theorem C149_variant_partial : forall (val : Type) (dflt : nat -> val) moved cast ts n ops a, ts <> [] ->
  spec_run dflt moved ts (repeat None n) ops = Some a -> never_empty dflt moved ts (repeat None n) ops ->
  exists s, run dflt moved ts (mkst (repeat None n) []) ops = Ok s /\ lost s = [] /\
    forall i c, nth_error a i = Some (Some c) -> tells cast ts s i c.
Proof.
  intros val dflt moved cast ts n ops a NE HS HN. destruct (run_ok dflt moved ts NE ops _ _ _ (srel_init ts n) HS HN) as (s & E & R).
  exists s. split; auto. split; [apply R|]. intros i c Hc. eapply tells_ok; eauto.
Qed.
Print Assumptions C149_variant_partial.

(** what is written of a variant (after any such program) and parsed into an empty one gives it the same content *)
Theorem C149_serialize_partial : forall (val : Type) (dflt : nat -> val) moved cast ts n ops a i j c, ts <> [] ->
  spec_run dflt moved ts (repeat None n) ops = Some a -> never_empty dflt moved ts (repeat None n) ops ->
  nth_error a i = Some (Some c) -> nth_error a j = Some (Some None) ->
  exists s d s', run dflt moved ts (mkst (repeat None n) []) ops = Ok s /\ Ser ts s i = Ok d /\
    step dflt moved ts s (Parse j d) = Ok s' /\ lost s' = [] /\ tells cast ts s' j c.
Proof.
  intros val dflt moved cast ts n ops a i j c NE HS HN Hi Hj. destruct (run_ok dflt moved ts NE ops _ _ _ (srel_init ts n) HS HN) as (s & E & R).
  destruct (srel_at _ _ _ _ _ R Hi) as (x & Ex & Hx). destruct (srel_at _ _ _ _ _ R Hj) as (y & Ey & Hy). cbn in Hy. subst y.
  exists s. unfold Ser. rewrite Ex. cbn [bind]. rewrite (ser_o_ok ts ts x c NE (incl_refl _) Hx) by (intros T v ->; eapply rel_in; eauto). cbn [bind].
  cbn [step]. rewrite Ey. cbn [bind]. destruct (rel_tag _ _ _ Hx) as [Tx _].
  assert (P : exists s', put s j (Some (mkv (vtag x) c)) [] = Ok s' /\ srel ts s' (upd a j (Some c))).
  { apply srel_upd; auto; [eapply nth_error_lt; eauto|]. rewrite Tx. apply rel_mk. intros T v ->. eapply rel_in; eauto. }
  destruct P as (s' & EP & RP). exists (FT (vtag x) :: match c with Some (T, v) => [FO (fun _ => v)] | None => [] end), s'.
  split; auto. split; auto. split; [|split; [apply RP|eapply tells_ok; eauto; apply nth_error_upd_eq; eapply nth_error_lt; eauto]].
  cbn [parse_doc store]. destruct c as [[T v]|]; cbn [parse_doc]; [|exact EP]. rewrite Tx in *. rewrite parse_o_ok; [cbn [bind parse_doc app]; exact EP| | |apply incl_refl|]; auto; eapply rel_in; eauto.
Qed.
Print Assumptions C149_serialize_partial.

(** Two empty variants assigned: the assertion fails.  Parsing into a variant that holds something loses the object; a
    document with only the tag makes it an object of another type, and its destructor is the wrong one. *)
Theorem C149_variant_refuted :
  (exists ops, spec_run (fun _ => 0) (fun _ v => v) [1; 2]%nat [None; None] ops <> None /\ run (fun _ => 0) (fun _ v => v) [1; 2]%nat (mkst [None; None] []) ops = UB) /\
  (exists s, run (fun _ => 0) (fun _ v => v) [1; 2]%nat (mkst [None] []) [NewVal 0 1 5; Parse 0 [FT 1; FO (fun _ => 7)]] = Ok s /\ lost s = [(1%nat, 5)]) /\
  run (fun _ => 0) (fun _ v => v) [1; 2]%nat (mkst [None] []) [NewVal 0 1 5; Parse 0 [FT 1]; Kill 0] = UB.
Proof.
  split; [|split].
  - exists [New 0; New 1; Assign false 0 1]. split; [vm_compute; discriminate|vm_compute; reflexivity].
  - eexists. split; vm_compute; reflexivity.
  - vm_compute. reflexivity.
Qed.
Print Assumptions C149_variant_refuted.

Example C149_example :
  let ops := [NewVal 0 2 5; NewFrom true 1 0; New 2; Assign false 2 1; Put 2 1 9; Typeset 0 1; Assign true 1 2; Kill 0; New 0] in
  let dflt := fun _ : nat => 0 in let moved := fun (_ : nat) (_ : Z) => -7 in
  spec_run dflt moved [1; 2]%nat [None; None; None] ops = Some [Some None; Some (Some (1%nat, 9)); Some (Some (1%nat, -7))] /\
  never_empty dflt moved [1; 2]%nat [None; None; None] ops.
Proof. split; [vm_compute; reflexivity|]. cbn. repeat split; intros H; try easy; destruct H; discriminate. Qed.

(* ------------------------------------------------------------------ *)
(** C150: the storage of a Variant is large enough for every type; an object of a type is placed at a multiple of its
    alignment, for a single type or when no type needs more than 4 bytes.  (The size of a type is positive, its alignment a
    power of two.)  Missing, because false (C150_layout_refuted): other types with larger alignment. *)
Definition is_type (t : Z * Z) : Prop := 0 < fst t /\ exists k, 0 <= k /\ snd t = 2 ^ k.
Lemma max_sizeof_ge l t : In t l -> fst t <= max_sizeof l.
Proof.
  induction l as [|a r IH]; [easy|]. intros H. destruct r as [|b r]; [destruct H as [->|[]]; cbn; lia|].
  change (fst t <= (if max_sizeof (b :: r) >? fst a then max_sizeof (b :: r) else fst a)).
  destruct (Z.gtb_spec (max_sizeof (b :: r)) (fst a)); destruct H as [->|H]; try lia; specialize (IH H); lia.
Qed.
Lemma align_up_mult n a : 0 < a -> align_up n a mod a = 0.
Proof. intros H. unfold align_up. apply Z.mod_mul. lia. Qed.
Lemma max_divides k : 0 <= k -> exists q, Z.max 4 (2 ^ k) = q * 2 ^ k.
Proof.
  intros Hk. destruct (Z.le_gt_cases 2 k) as [C|C].
  - exists 1. assert (2 ^ 2 <= 2 ^ k) by (apply Z.pow_le_mono_r; lia). change (2 ^ 2) with 4 in *. lia.
  - assert (k = 0 \/ k = 1) as [->| ->] by lia; [exists 4|exists 2]; reflexivity.
Qed.
Theorem C150_layout_partial : forall l addr t, Forall is_type l -> In t l -> addr mod variant_align l = 0 ->
  fst t <= store_size l /\
  (length l = 1%nat \/ Forall (fun u => snd u <= 4) l -> (addr + store_offset l) mod snd t = 0).
Proof.
  intros l addr t HL HI Ha. split; [now apply max_sizeof_ge|]. pose proof (proj1 (Forall_forall _ _) HL t HI) as (_ & k & Hk & Ek).
  assert (P : 0 < 2 ^ k) by (apply Z.pow_pos_nonneg; lia).
  intros [H|H].
  - destruct l as [|a [|b r]]; try discriminate. destruct HI as [->|[]]. unfold variant_align, store_offset, union_align, max_alignof_type in *. rewrite Ek in *.
    replace (Z.max 1 (2 ^ k)) with (2 ^ k) in * by lia. destruct (max_divides k Hk) as [q Eq]. rewrite Eq in Ha.
    rewrite Z.add_mod, align_up_mult by lia. apply Z.mod_divide in Ha; [|lia]. destruct Ha as [z ->]. rewrite Z.mul_assoc, Z.mod_mul by lia. now rewrite Z.mod_0_l by lia.
  - assert (H4 : snd t <= 4) by exact (proj1 (Forall_forall _ _) H t HI).
    assert (HK : k = 0 \/ k = 1 \/ k = 2).
    { destruct (Z.le_gt_cases k 2); [lia|]. assert (2 ^ 3 <= 2 ^ k) by (apply Z.pow_le_mono_r; lia). change (2 ^ 3) with 8 in *. lia. }
    assert (V : variant_align l mod 4 = 0 /\ store_offset l mod 4 = 0).
    { destruct l as [|a [|b r]]; [easy| |split; reflexivity]. destruct HI as [->|[]]. unfold variant_align, store_offset, union_align, max_alignof_type. rewrite Ek.
      destruct HK as [->|[->| ->]]; split; reflexivity. }
    destruct V as [V1 V2]. assert (V0 : variant_align l > 0) by (unfold variant_align; lia).
    apply Z.mod_divide in V1; [|lia]. apply Z.mod_divide in V2; [|lia]. apply Z.mod_divide in Ha; [|lia].
    destruct V1 as [z1 E1], V2 as [z2 E2], Ha as [z E3]. rewrite E3, E1, E2, Ek. replace (z * (z1 * 4) + z2 * 4) with ((z * z1 + z2) * 4) by ring.
    destruct HK as [->|[->| ->]]; [apply Z.mod_1_r| |apply Z.mod_mul; lia]. replace ((z * z1 + z2) * 4) with ((z * z1 + z2) * 2 * 2) by ring. apply Z.mod_mul. lia.
Qed.
Print Assumptions C150_layout_partial.
(** an int and a double: the double is at an odd multiple of 4, wherever a Variant at a multiple of 8 is *)
Theorem C150_layout_refuted : let l := [(4, 4); (8, 8)] in Forall is_type l /\ 64 mod variant_align l = 0 /\ (64 + store_offset l) mod 8 = 4.
Proof.
  cbv zeta. split; [|split; vm_compute; reflexivity]. repeat constructor; try (cbn; lia); [exists 2|exists 3]; split; vm_compute; congruence.
Qed.
Print Assumptions C150_layout_refuted.
Example C150_example : let l := [(4, 4); (6, 2); (1, 1)] in Forall is_type l /\ Forall (fun u => snd u <= 4) l /\ 12 mod variant_align l = 0 /\ store_size l = 6.
Proof.
  cbv zeta. split; [|split; [repeat constructor; cbn; lia|split; vm_compute; reflexivity]].
  repeat constructor; try (cbn; lia); [exists 2|exists 1|exists 0]; split; vm_compute; congruence.
Qed.

(* ------------------------------------------------------------------ *)
(** C151: the instance of a Singleton is never dangling: after every program it is null or an object that lives.  It is the
    object made last by the plain constructor, or the one that was moved into, until that object is destroyed. *)
(** the object that carries the role of the instance: given to each object constructed, handed over by moves, gone when its
    holder is destroyed *)
Inductive holds : list sop -> nat -> Prop :=
| h_new l a : holds (l ++ [SNew a]) a
| h_move l a b : holds l b -> holds (l ++ [SMove a b]) a
| h_assign l a b : holds l b -> holds (l ++ [SAssign a b]) a
| h_stay_move l a b x : holds l x -> x <> b -> holds (l ++ [SMove a b]) x
| h_stay_assign l a b x : holds l x -> x <> b -> holds (l ++ [SAssign a b]) x
| h_stay_kill l a x : holds l x -> x <> a -> holds (l ++ [SKill a]) x.
Lemma srun_app s l1 l2 : srun s (l1 ++ l2) = do s <- srun s l1; srun s l2.
Proof. revert s. induction l1 as [|o l IH]; intros s; auto. cbn [app srun]. destruct (sstep s o); cbn [bind]; auto. Qed.
Lemma has_in s a : has s a = true <-> In a (live s).
Proof. unfold has. rewrite existsb_exists. split; [intros (x & I & E); apply Nat.eqb_eq in E; now subst|intros I; exists a; split; auto; apply Nat.eqb_refl]. Qed.
Lemma is_inst_spec s a : is_inst s a = true <-> inst s = Some a.
Proof. unfold is_inst. destruct (inst s) as [x|]; [|easy]. rewrite Nat.eqb_eq. split; congruence. Qed.
Theorem C151_singleton : forall ops s, srun (mksing [] None) ops = Ok s ->
  (forall a, inst s = Some a -> In a (live s)) /\ (forall a, inst s = Some a <-> holds ops a).
Proof.
  induction ops as [|o ops IH] using rev_ind; intros s H.
  - injection H as <-. split; [discriminate|]. intros a. split; [discriminate|]. intros X. inversion X; destruct l; discriminate.
  - rewrite srun_app in H. destruct (srun (mksing [] None) ops) as [s0| |] eqn:E0; try discriminate. cbn [bind srun] in H.
    destruct (IH s0 eq_refl) as [IL IHd]. destruct (sstep s0 o) as [s1| |] eqn:E1; try discriminate. cbn [bind] in H. injection H as <-.
    assert (INV : forall x, holds (ops ++ [o]) x -> match o with SNew a => x = a | SMove a b | SAssign a b => (holds ops b /\ x = a) \/ (holds ops x /\ x <> b) | SKill a => holds ops x /\ x <> a end).
    { intros x X. inversion X as [l a E|l a b Hb E|l a b Hb E|l a b y Hb Hn E|l a b y Hb Hn E|l a y Hb Hn E]; subst; apply app_inj_tail in E as [<- <-]; auto. }
    destruct o as [a|a b|a b|a]; cbn [sstep] in E1.
    + destruct (has s0 a) eqn:Ha; [discriminate|]. injection E1 as <-. cbn [inst live]. split; [intros x E; injection E as <-; left; auto|].
      intros x. split; [intros E; injection E as <-; constructor|]. intros X. apply INV in X. congruence.
    + destruct (has s0 a || negb (has s0 b)) eqn:Hb; [discriminate|]. injection E1 as <-. cbn [inst live]. destruct (is_inst s0 b) eqn:Eb.
      * apply is_inst_spec in Eb. split; [intros x E; injection E as <-; left; auto|]. intros x. split; [intros E; injection E as <-; apply h_move, IHd; auto|].
        intros X. apply INV in X as [[_ ->]|[X N]]; auto. apply IHd in X. congruence.
      * split; [intros x E; right; auto|]. intros x. split.
        -- intros E. apply h_stay_move; [apply IHd; auto|]. intros ->. apply is_inst_spec in E. congruence.
        -- intros X. apply INV in X as [[X ->]|[X N]]; [apply IHd, is_inst_spec in X; congruence|]. now apply IHd.
    + destruct (negb (has s0 a) || negb (has s0 b)) eqn:Hb; [discriminate|]. injection E1 as <-. cbn [inst live]. apply orb_false_iff in Hb as [Ha _]. apply negb_false_iff, has_in in Ha.
      destruct (is_inst s0 b) eqn:Eb.
      * apply is_inst_spec in Eb. split; [intros x E; injection E as <-; auto|]. intros x. split; [intros E; injection E as <-; apply h_assign, IHd; auto|].
        intros X. apply INV in X as [[_ ->]|[X N]]; auto. apply IHd in X. congruence.
      * split; [auto|]. intros x. split.
        -- intros E. apply h_stay_assign; [apply IHd; auto|]. intros ->. apply is_inst_spec in E. congruence.
        -- intros X. apply INV in X as [[X ->]|[X N]]; [apply IHd, is_inst_spec in X; congruence|]. now apply IHd.
    + destruct (negb (has s0 a)) eqn:Ha; [discriminate|]. injection E1 as <-. cbn [inst live]. destruct (is_inst s0 a) eqn:Ea.
      * split; [discriminate|]. intros x. split; [discriminate|]. intros X. apply INV in X as [X N]. apply IHd in X. apply is_inst_spec in Ea. congruence.
      * assert (N : forall x, inst s0 = Some x -> x <> a) by (intros x E ->; apply is_inst_spec in E; congruence). split.
        -- intros x E. apply filter_In. split; auto. apply negb_true_iff, Nat.eqb_neq. auto.
        -- intros x. split; [intros E; apply h_stay_kill; [apply IHd; auto|auto]|]. intros X. apply INV in X as [X _]. now apply IHd.
Qed.
Print Assumptions C151_singleton.
Example C151_example : exists s, srun (mksing [] None) [SNew 1; SMove 2 1; SKill 1; SNew 3; SAssign 2 3; SKill 3] = Ok s /\ inst s = Some 2%nat /\ live s = [2%nat].
Proof. eexists. split; vm_compute; auto. Qed.
