(* Properties of CacheAlloc (include/bss-util/CacheAlloc.h): C152, C153. *)
From Coq Require Import List Arith Lia Bool.
From Coq Require Import ZifyBool ZifyNat.
From Verif Require Import Common CacheAlloc.
Import ListNotations.

(** who has a region *)
Inductive owner := Live | Free (sz : nat) | Transit (t : nat) | Lost.
(** the block a thread gives back *)
Definition carries (p : pc) : option (nat * nat) :=
  match p with DEnter p sz | DLook p sz | FLoad p sz | FWrite p sz _ | FCas p sz _ => Some (p, sz) | _ => None end.
(** the size a thread asks for *)
Definition wants (p : pc) : option nat :=
  match p with AEnter sz | ALook sz | AUp sz | AIns sz | ALoad sz | AHave sz _ | ACas sz _ _ _ => Some sz | _ => None end.
(** the list linked from h *)
Inductive chain (m : nat -> option nat) : option nat -> list nat -> Prop :=
| ch_nil : chain m None []
| ch_cons p l : chain m (m p) l -> chain m (Some p) (p :: l).
(** there is a region at p of at least n bytes, and room for a pointer *)
Definition room (s : sh) (p n : nat) : Prop := exists k, In (p, k) (regs s) /\ n <= k /\ PTR <= k.

(** what a thread inside Alloc or Dealloc relies on *)
Definition tinv (N : nat) (s : sh) (p : pc) : Prop :=
  match p with
  | ALoad sz => cache s sz <> None
  | AUp sz | AIns sz => N = 1 -> cache s sz = None
  | AHave sz (h, tag) => exists h' tag', cache s sz = Some (h', tag') /\ tag <= tag' /\ (tag = tag' -> h = h') /\ forall q, h = Some q -> room s q sz
  | ACas sz q tag v => exists h' tag', cache s sz = Some (h', tag') /\ tag <= tag' /\ (tag = tag' -> h' = Some q /\ mem s q = v)
  | DEnter p sz | DLook p sz | FLoad p sz | FWrite p sz _ => cache s sz <> None /\ room s p sz
  | FCas p sz prev => cache s sz <> None /\ room s p sz /\ mem s p = fst prev
  | _ => True
  end.

Section Proofs.
Context (maxsize N : nat).
(** the state and who owns what *)
Record sinv (s : sh) (own : nat -> option owner) : Prop := {
  i_regs : forall x y, In x (regs s) -> In y (regs s) -> x = y \/ apart x y;
  i_size : forall p k, In (p, k) (regs s) -> PTR <= k;
  i_own : forall p, own p <> None <-> exists k, In (p, k) (regs s);
  i_nodup : NoDup (map fst (live s));
  i_live : forall p sz, In (p, sz) (live s) -> sz <= maxsize -> own p = Some Live /\ room s p sz /\ cache s sz <> None;
  i_big : forall p sz, In (p, sz) (live s) -> maxsize < sz -> forall x, In x (regs s) -> apart (p, sz) x;
  i_bigs : forall x y, In x (live s) -> In y (live s) -> maxsize < snd x -> maxsize < snd y -> x = y \/ apart x y;
  i_own_live : forall p, own p = Some Live -> exists sz, In (p, sz) (live s) /\ sz <= maxsize;
  i_free : forall sz h tag, cache s sz = Some (h, tag) -> exists l, chain (mem s) h l /\ NoDup l /\ (forall p, In p l -> own p = Some (Free sz) /\ room s p sz) /\ forall p, own p = Some (Free sz) -> In p l;
  i_own_free : forall p sz, own p = Some (Free sz) -> cache s sz <> None;
  i_lost : forall p, own p = Some Lost -> N <> 1 }.
(** the threads *)
Record inv (s : sh) (ts : list pc) (own : nat -> option owner) : Prop := {
  i_len : length ts = N;
  i_state : sinv s own;
  i_transit : forall t q p sz, nth_error ts t = Some q -> carries q = Some (p, sz) -> own p = Some (Transit t);
  i_own_transit : forall t p, own p = Some (Transit t) -> exists q sz, nth_error ts t = Some q /\ carries q = Some (p, sz);
  i_thr : forall t q, nth_error ts t = Some q -> tinv N s q;
  i_wants : forall t q n, nth_error ts t = Some q -> wants q = Some n -> n <= maxsize;
  i_lock : forall t q, nth_error ts t = Some q -> writesl q = true -> forall t' q', t' <> t -> nth_error ts t' = Some q' -> readsl q' = false /\ writesl q' = false }.

Lemma chain_ext m m' h l : chain m h l -> (forall p, In p l -> m' p = m p) -> chain m' h l.
Proof.
  induction 1 as [|p l H IH]; intros E; constructor. rewrite E by (left; auto). apply IH. intros q Hq. apply E. right; auto.
Qed.
Lemma room_known s p n : room s p n -> known s p = true.
Proof. intros (k & H & _). apply existsb_exists. exists (p, k). split; auto. apply Nat.eqb_refl. Qed.
Lemma room_own s own p n : sinv s own -> room s p n -> own p <> None.
Proof. intros H (k & Hk & _). apply (i_own _ _ H). eauto. Qed.
Lemma apart_sym x y : apart x y -> apart y x.
Proof. unfold apart. tauto. Qed.
Lemma two u t ts (q p : pc) : length ts = N -> u <> t -> nth_error ts u = Some q -> nth_error ts t = Some p -> N <> 1.
Proof. intros L Hne Hu Ht. apply nth_error_lt in Hu, Ht. lia. Qed.

(** a step of thread t *)
Lemma inv_step s ts own t p s' p' own' : inv s ts own -> nth_error ts t = Some p -> sinv s' own' ->
  (forall a u, u <> t -> own a = Some (Transit u) <-> own' a = Some (Transit u)) ->
  (forall a, own' a = Some (Transit t) <-> exists sz, carries p' = Some (a, sz)) ->
  tinv N s' p' -> (forall n, wants p' = Some n -> n <= maxsize) ->
  (forall u q, u <> t -> nth_error ts u = Some q -> tinv N s q -> tinv N s' q) ->
  (forall u q, u <> t -> nth_error ts u = Some q -> writesl q = true -> readsl p' = false /\ writesl p' = false) ->
  (writesl p' = true -> forall u q, u <> t -> nth_error ts u = Some q -> readsl q = false /\ writesl q = false) ->
  inv s' (upd ts t p') own'.
Proof.
  intros H Ht HS HO HT HP HW HQ Hl1 Hl2. pose proof (nth_error_lt _ _ _ Ht) as Lt.
  assert (UP : forall u q, nth_error (upd ts t p') u = Some q -> (u = t /\ q = p') \/ (u <> t /\ nth_error ts u = Some q)).
  { intros u q Hu. rewrite nth_error_upd in Hu. destruct (Nat.eqb_spec t u) as [<-|Hne]; cbn [andb] in Hu; [|auto].
    destruct (Nat.ltb_spec t (length ts)); [|lia]. injection Hu as <-. auto. }
  constructor; auto.
  - rewrite upd_length. apply H.
  - intros u q a sz Hu Ha. apply UP in Hu as [[-> ->]|[Hne Hu]]; [apply HT; eauto|]. apply HO; auto. eapply i_transit; eauto.
  - intros u a Ha. destruct (Nat.eq_dec u t) as [->|Hne].
    + apply HT in Ha as [sz Ha]. exists p', sz. rewrite nth_error_upd_eq by auto. auto.
    + apply HO in Ha; auto. rewrite nth_error_upd_neq by auto. eapply i_own_transit; eauto.
  - intros u q Hu. apply UP in Hu as [[-> ->]|[Hne Hu]]; auto. eapply HQ; eauto. eapply i_thr; eauto.
  - intros u q n Hu. apply UP in Hu as [[-> ->]|[Hne Hu]]; auto. eapply i_wants; eauto.
  - intros u q Hu Hw u' q' Hne Hu'. apply UP in Hu as [[-> ->]|[Hnt Hu]]; apply UP in Hu' as [[-> ->]|[Hnt' Hu']]; try lia; eauto. apply (i_lock _ _ _ H u q Hu Hw u' q' Hne Hu').
Qed.
(** a step that changes nothing but where the thread is *)
Lemma inv_move s ts own t p p' : inv s ts own -> nth_error ts t = Some p -> carries p' = carries p -> tinv N s p' -> (forall n, wants p' = Some n -> n <= maxsize) ->
  (forall u q, u <> t -> nth_error ts u = Some q -> writesl q = true -> readsl p' = false /\ writesl p' = false) ->
  (writesl p' = true -> forall u q, u <> t -> nth_error ts u = Some q -> readsl q = false /\ writesl q = false) ->
  inv s (upd ts t p') own.
Proof.
  intros H Ht Hc Hp HW Hl1 Hl2. eapply inv_step; eauto; [apply H|tauto|]. intros a. rewrite Hc. split.
  - intros Ha. destruct (i_own_transit _ _ _ H t a Ha) as (q & sz & Hq & Hs). exists sz. congruence.
  - intros (sz & Ha). eapply i_transit; eauto.
Qed.
Lemma held s ts own t p : inv s ts own -> nth_error ts t = Some p -> readsl p = true -> forall u q, u <> t -> nth_error ts u = Some q -> writesl q = true -> False.
Proof. intros H Ht Hr u q Hne Hu Hw. destruct (i_lock _ _ _ H u q Hu Hw t p) as [E _]; auto. congruence. Qed.

(** what other threads rely on survives *)
Lemma tinv_keep s s' q : tinv N s q -> N <> 1 ->
  (forall n, cache s n <> None -> cache s' n <> None) -> (forall p k, In (p, k) (regs s) -> In (p, k) (regs s')) ->
  (readsl q = true -> forall n h tg, cache s n = Some (h, tg) -> cache s' n = Some (h, tg) \/ exists h' tg', cache s' n = Some (h', tg') /\ tg < tg') ->
  (forall sz p tg v, q = ACas sz p tg v -> cache s sz = Some (Some p, tg) -> mem s' p = mem s p) ->
  (forall p sz prev, q = FCas p sz prev -> mem s' p = mem s p) -> tinv N s' q.
Proof.
  intros H HN HC HR HT HA HF. assert (RM : forall p n, room s p n -> room s' p n) by (intros p n (k & Hk & Hr); exists k; auto).
  destruct q as [|sz|sz|sz|sz|sz|sz [h tag]|sz q tag v| |p sz|p sz|p sz|p sz prev|p sz prev]; cbn [tinv readsl] in *; auto; try lia.
  - destruct H as (h' & tag' & Ec & Hl & Hh & Hr). destruct (HT eq_refl _ _ _ Ec) as [E|(h2 & t2 & E & L)].
    + exists h', tag'. repeat split; auto.
    + exists h2, t2. repeat split; auto; lia.
  - destruct H as (h' & tag' & Ec & Hl & Hh). destruct (HT eq_refl _ _ _ Ec) as [E|(h2 & t2 & E & L)].
    + exists h', tag'. split; auto. split; auto. intros Et. destruct (Hh Et) as [E1 E2]. split; auto. rewrite (HA sz q tag v); auto. congruence.
    + exists h2, t2. split; auto. split; [lia|]. intros; lia.
  - destruct H; split; auto.
  - destruct H; split; auto.
  - destruct H; split; auto.
  - destruct H; split; auto.
  - destruct H as (? & ? & ?). split; auto. split; auto. erewrite HF; eauto.
Qed.
Lemma pt_eqb_eq x y : pt_eqb x y = true -> x = y.
Proof.
  destruct x as [x n], y as [y m]. unfold pt_eqb. cbn [fst snd]. intros H. apply andb_true_iff in H as [H1 H2]. apply Nat.eqb_eq in H2.
  destruct x, y; try discriminate; try apply Nat.eqb_eq in H1; congruence.
Qed.
Lemma set_cache_eq s sz v : cache (set_cache s sz v) sz = Some v.
Proof. cbn. now rewrite Nat.eqb_refl. Qed.
Lemma set_cache_neq s sz v n : n <> sz -> cache (set_cache s sz v) n = cache s n.
Proof. cbn. intros H. destruct (Nat.eqb_spec n sz); [easy|]. auto. Qed.
Lemma set_cache_some s sz v n : cache s n <> None -> cache (set_cache s sz v) n <> None.
Proof. cbn. destruct (n =? sz); [discriminate|auto]. Qed.

(** the lists: the head of a list and what is behind it *)
Lemma free_head s own sz q tag : sinv s own -> cache s sz = Some (Some q, tag) -> own q = Some (Free sz) /\ room s q sz.
Proof. intros H E. destruct (i_free _ _ H _ _ _ E) as (l & Hc & _ & Hl & _). inversion Hc; subst. apply Hl. left; auto. Qed.

Definition put_own (own : nat -> option owner) (p : nat) (o : owner) : nat -> option owner := fun q => if q =? p then Some o else own q.
Lemma put_own_eq own p o : put_own own p o p = Some o. Proof. unfold put_own. now rewrite Nat.eqb_refl. Qed.
Lemma put_own_neq own p o q : q <> p -> put_own own p o q = own q. Proof. unfold put_own. intros H. destruct (Nat.eqb_spec q p); [easy|]. auto. Qed.
Lemma put_own_none s own p o : sinv s own -> own p <> None -> forall q, put_own own p o q <> None <-> exists k, In (q, k) (regs s).
Proof.
  intros H Hp q. unfold put_own. destruct (Nat.eqb_spec q p) as [->|]; [|apply (i_own _ _ H)]. split; [intros _; now apply (i_own _ _ H)|discriminate].
Qed.

(** (a) Insert *)
Lemma sinv_insert s own sz : sinv s own -> (N = 1 -> cache s sz = None) ->
  sinv (set_cache s sz (None, 0)) (fun p => match own p with Some (Free n) => if n =? sz then Some Lost else own p | o => o end).
Proof.
  intros H HN. constructor; try apply H.
  - intros p. rewrite <- (i_own _ _ H p). destruct (own p) as [[|n| |]|]; try tauto. destruct (n =? sz); split; congruence.
  - intros p n Hp Hn. destruct (i_live _ _ H p n Hp Hn) as (A & B & C). rewrite A. split; auto. split; auto. now apply set_cache_some.
  - intros p. destruct (own p) as [[|n| |]|] eqn:E; try discriminate; [intros _; now apply (i_own_live _ _ H)|destruct (n =? sz); discriminate].
  - intros n h tag. destruct (Nat.eq_dec n sz) as [->|Hne].
    + rewrite set_cache_eq. intros E. injection E as <- <-. exists []. split; [constructor|]. split; [constructor|]. split; [easy|].
      intros p. destruct (own p) as [[|n| |]|] eqn:E; try discriminate. destruct (Nat.eqb_spec n sz); [discriminate|]. congruence.
    + rewrite set_cache_neq by auto. intros E. destruct (i_free _ _ H _ _ _ E) as (l & Hc & Hd & Hl & Ho). exists l. split; auto. split; auto. split.
      * intros p Hp. destruct (Hl p Hp) as [E1 E2]. rewrite E1. destruct (Nat.eqb_spec n sz); [easy|]. auto.
      * intros p. destruct (own p) as [[|m| |]|] eqn:Ep; try discriminate. destruct (Nat.eqb_spec m sz); [discriminate|]. intros Em. apply Ho. congruence.
  - intros p n. destruct (own p) as [[|m| |]|] eqn:Ep; try discriminate. destruct (Nat.eqb_spec m sz); [discriminate|]. intros Em. apply set_cache_some. apply (i_own_free _ _ H p). congruence.
  - intros p. destruct (own p) as [[|m| |]|] eqn:Ep; try discriminate; [|intros _; eapply (i_lost _ _ H); eauto].
    destruct (Nat.eqb_spec m sz) as [->|]; [|discriminate]. intros _ E1. apply (i_own_free _ _ H) in Ep. auto.
Qed.
(** (b) new memory *)
Lemma sinv_carve s own a sz : sinv s own -> sz <= maxsize -> fresh maxsize s (a, Nat.max sz PTR) -> cache s sz <> None ->
  own a = None /\ sinv (mksh (cache s) (mem s) ((a, Nat.max sz PTR) :: regs s) ((a, sz) :: live s)) (put_own own a Live).
Proof.
  intros H Hsz [F1 F2] Hc. assert (Na : own a = None).
  { destruct (own a) eqn:E; auto. destruct (proj1 (i_own _ _ H a)) as [k Hk]; [congruence|]. pose proof (i_size _ _ H _ _ Hk). specialize (F1 _ Hk). unfold apart, PTR in *. cbn in *. lia. }
  assert (RM : forall p n, room s p n -> room (mksh (cache s) (mem s) ((a, Nat.max sz PTR) :: regs s) ((a, sz) :: live s)) p n) by (intros p n (k & Hk & ?); exists k; split; auto; right; auto).
  assert (Ne : forall p, own p <> None -> p <> a) by (intros p Hp ->; auto).
  split; auto. constructor; cbn [regs live cache mem].
  - intros x y [Ex|Hx] [Ey|Hy]; [left; congruence|subst; auto|subst; right; apply apart_sym; auto|now apply (i_regs _ _ H)].
  - intros p k [E|Hk]; [injection E as <- <-; lia|eapply i_size; eauto].
  - intros p. unfold put_own. destruct (Nat.eqb_spec p a) as [->|Hne]; [split; [intros _; eexists; left; reflexivity|discriminate]|]. pose proof (i_own _ _ H p) as Ip. split; [intros Hq; apply Ip in Hq as [k Hk]; exists k; right; auto|intros (k & [E|Hk]); [congruence|apply Ip; eauto]].
  - cbn. constructor; [|apply (i_nodup _ _ H)]. intros I. apply in_map_iff in I as ([p n] & <- & I). cbn in *. destruct (Nat.le_gt_cases n maxsize) as [C|C].
    + destruct (i_live _ _ H _ _ I C). congruence.
    + specialize (F2 _ I C). unfold apart in F2. cbn in F2. unfold PTR in F2. lia.
  - intros p n [E|Hp] Hn.
    + injection E as <- <-. rewrite put_own_eq. split; auto. split; auto. exists (Nat.max sz PTR). split; [left; auto|lia].
    + destruct (i_live _ _ H p n Hp Hn) as (A & B & C). rewrite put_own_neq by (apply Ne; congruence). auto.
  - intros p n [E|Hp] Hn x Hx; [injection E as <- <-; lia|]. destruct Hx as [<-|Hx]; [|eapply i_big; eauto]. apply apart_sym. auto.
  - intros x y [<-|Hx] [<-|Hy] Bx By; auto; cbn in *; try lia. now apply (i_bigs _ _ H).
  - intros p. unfold put_own. destruct (Nat.eqb_spec p a) as [->|Hne]; [intros _; exists sz; split; auto; left; auto|]. intros Hp. destruct (i_own_live _ _ H p Hp) as (n & Hn & Hm). exists n. split; auto. right; auto.
  - intros n h tag E. destruct (i_free _ _ H _ _ _ E) as (l & Hch & Hd & Hl & Ho). exists l. split; auto. split; auto. split.
    + intros p Hp. destruct (Hl p Hp) as [E1 E2]. rewrite put_own_neq by (apply Ne; congruence). auto.
    + intros p. unfold put_own. destruct (Nat.eqb_spec p a); [discriminate|]. auto.
  - intros p n. unfold put_own. destruct (Nat.eqb_spec p a); [discriminate|]. apply (i_own_free _ _ H).
  - intros p. unfold put_own. destruct (Nat.eqb_spec p a); [discriminate|]. apply (i_lost _ _ H).
Qed.
(** (c) a block taken from a list *)
Lemma sinv_pop s own sz q tag v : sinv s own -> sz <= maxsize -> cache s sz = Some (Some q, tag) -> mem s q = v ->
  sinv (hand_out (set_cache s sz (v, tag + 1)) q sz) (put_own own q Live).
Proof.
  intros H Hsz Ec Ev. destruct (free_head _ _ _ _ _ H Ec) as [Oq Rq].
  constructor; cbn [hand_out set_cache regs live cache mem]; try apply H.
  - apply (put_own_none s); auto. congruence.
  - cbn. constructor; [|apply (i_nodup _ _ H)]. intros I. apply in_map_iff in I as ([p n] & <- & I). cbn in *. destruct (Nat.le_gt_cases n maxsize) as [C|C].
    + destruct (i_live _ _ H _ _ I C). congruence.
    + destruct Rq as (k & Hk & Hk1 & Hk2). pose proof (i_big _ _ H _ _ I C _ Hk) as A. unfold apart, PTR in *. cbn in A. lia.
  - intros p n [E|Hp] Hn.
    + injection E as <- <-. rewrite put_own_eq, Nat.eqb_refl. split; auto. split; auto. discriminate.
    + destruct (i_live _ _ H p n Hp Hn) as (A & B & C). rewrite put_own_neq by (intros ->; congruence). split; auto. split; auto. now apply (set_cache_some s sz (v, tag + 1)).
  - intros p n [E|Hp] Hn x Hx; [injection E as <- <-; lia|]. eapply i_big; eauto.
  - intros x y [<-|Hx] [<-|Hy] Bx By; auto; cbn in *; try lia. now apply (i_bigs _ _ H).
  - intros p. unfold put_own. destruct (Nat.eqb_spec p q) as [->|Hne]; [intros _; exists sz; split; auto; left; auto|]. intros Hp. destruct (i_own_live _ _ H p Hp) as (n & Hn & Hm). exists n. split; auto. right; auto.
  - intros n h tg. destruct (Nat.eqb_spec n sz) as [->|Hne].
    + intros E. injection E as <- <-. destruct (i_free _ _ H _ _ _ Ec) as (l & Hch & Hd & Hl & Ho). inversion Hch as [|? l' Hch']; subst. inversion Hd as [|? ? Nq Hd']; subst.
      exists l'. split; auto. split; auto. split.
      * intros p Hp. rewrite put_own_neq by (intros ->; auto). apply Hl. right; auto.
      * intros p. unfold put_own. destruct (Nat.eqb_spec p q) as [->|Hne]; [discriminate|]. intros Hp. destruct (Ho p Hp); [congruence|auto].
    + intros E. destruct (i_free _ _ H _ _ _ E) as (l & Hch & Hd & Hl & Ho). exists l. split; auto. split; auto. split.
      * intros p Hp. destruct (Hl p Hp) as [E1 E2]. rewrite put_own_neq by (intros ->; congruence). auto.
      * intros p. unfold put_own. destruct (Nat.eqb_spec p q); [discriminate|]. auto.
  - intros p n. unfold put_own. destruct (Nat.eqb_spec p q); [discriminate|]. intros Hp. apply (set_cache_some s sz (v, tag + 1)). eapply i_own_free; eauto.
  - intros p. unfold put_own. destruct (Nat.eqb_spec p q); [discriminate|]. apply (i_lost _ _ H).
Qed.
(** (d) the first word of a block that is in no list is written *)
Lemma sinv_write s own p v : sinv s own -> (forall n, own p <> Some (Free n)) -> sinv (mksh (cache s) (fun q => if q =? p then v else mem s q) (regs s) (live s)) own.
Proof.
  intros H Hp. constructor; try apply H. cbn [cache mem]. intros n h tg E. destruct (i_free _ _ H _ _ _ E) as (l & Hch & Hd & Hl & Ho). exists l. split; [|auto].
  eapply chain_ext; eauto. intros q Hq. cbn. destruct (Nat.eqb_spec q p) as [->|]; auto. destruct (Hl p Hq) as [E1 _]. destruct (Hp n). auto.
Qed.
(** (e) a block put on a list *)
Lemma sinv_push s own sz p prev t : sinv s own -> own p = Some (Transit t) -> room s p sz -> cache s sz = Some prev -> mem s p = fst prev ->
  sinv (set_cache s sz (Some p, snd prev + 1)) (put_own own p (Free sz)).
Proof.
  intros H Op Rp Ec Em. constructor; cbn [set_cache regs live cache mem]; try apply H.
  - apply (put_own_none s); auto. congruence.
  - intros q n Hq Hn. destruct (i_live _ _ H q n Hq Hn) as (A & B & C). rewrite put_own_neq by (intros ->; congruence). split; auto. split; auto. now apply (set_cache_some s sz (Some p, snd prev + 1)).
  - intros q. unfold put_own. destruct (Nat.eqb_spec q p); [discriminate|]. apply (i_own_live _ _ H).
  - intros n h tg. destruct (Nat.eqb_spec n sz) as [->|Hne].
    + intros E. injection E as <- <-. destruct prev as [h tag]. destruct (i_free _ _ H _ _ _ Ec) as (l & Hch & Hd & Hl & Ho). exists (p :: l). split; [constructor; rewrite Em; auto|].
      assert (Np : ~ In p l) by (intros I; apply Hl in I as [E _]; congruence). split; [constructor; auto|]. split.
      * intros q [<-|Hq]; [rewrite put_own_eq; exact (conj eq_refl Rp)|]. rewrite put_own_neq by (intros ->; auto). exact (Hl q Hq).
      * intros q. unfold put_own. destruct (Nat.eqb_spec q p) as [->|]; [left; auto|]. right. auto.
    + intros E. destruct (i_free _ _ H _ _ _ E) as (l & Hch & Hd & Hl & Ho). exists l. split; auto. split; auto. split.
      * intros q Hq. destruct (Hl q Hq) as [E1 E2]. rewrite put_own_neq by (intros ->; congruence). auto.
      * intros q. unfold put_own. destruct (Nat.eqb_spec q p); [congruence|]. auto.
  - intros q n. unfold put_own. destruct (Nat.eqb_spec q p) as [->|]; [intros E; injection E as <-; rewrite Nat.eqb_refl; discriminate|]. intros Hp. apply (set_cache_some s sz (Some p, snd prev + 1)). eapply i_own_free; eauto.
  - intros q. unfold put_own. destruct (Nat.eqb_spec q p); [discriminate|]. apply (i_lost _ _ H).
Qed.
(** removing a block from the list of live ones *)
Lemma live_remove s own p sz l1 l2 : sinv s own -> live s = l1 ++ (p, sz) :: l2 ->
  NoDup (map fst (l1 ++ l2)) /\ (forall q n, In (q, n) (l1 ++ l2) <-> In (q, n) (live s) /\ q <> p) /\ In (p, sz) (live s).
Proof.
  intros H E. pose proof (i_nodup _ _ H) as D. rewrite E, map_app in D. cbn in D. apply NoDup_remove in D as [D1 D2]. rewrite <- map_app in D1, D2.
  split; auto. split; [|rewrite E, in_app_iff; cbn; auto]. intros q n. rewrite E, !in_app_iff. cbn. split.
  - intros Hq. split; [tauto|]. intros ->. apply D2. apply in_map_iff. exists (p, n). rewrite in_app_iff. auto.
  - intros [[Hq|[Hq|Hq]] Hne]; auto. congruence.
Qed.
(** (g) a block given back *)
Lemma sinv_take s own p sz l1 l2 t : sinv s own -> live s = l1 ++ (p, sz) :: l2 -> sz <= maxsize ->
  sinv (mksh (cache s) (mem s) (regs s) (l1 ++ l2)) (put_own own p (Transit t)).
Proof.
  intros H El Hsz. destruct (live_remove _ _ _ _ _ _ H El) as (D & L & I0). destruct (i_live _ _ H _ _ I0 Hsz) as (Op & Rp & Cp).
  constructor; cbn [regs live cache mem]; try apply H; auto.
  - apply (put_own_none s); auto. congruence.
  - intros q n Hq Hn. apply L in Hq as [Hq Hne]. rewrite put_own_neq by auto. now apply (i_live _ _ H).
  - intros q n Hq. apply L in Hq as [Hq _]. now apply (i_big _ _ H).
  - intros [q n] [q' n'] Hx Hy. apply L in Hx as [Hx _]. apply L in Hy as [Hy _]. now apply (i_bigs _ _ H).
  - intros q. unfold put_own. destruct (Nat.eqb_spec q p); [discriminate|]. intros Hq. destruct (i_own_live _ _ H q Hq) as (m & Hm & Hs). exists m. rewrite L. auto.
  - intros n h tg E. destruct (i_free _ _ H _ _ _ E) as (l & Hch & Hd & Hl & Ho). exists l. split; auto. split; auto. split.
    + intros q Hq. destruct (Hl q Hq) as [E1 E2]. rewrite put_own_neq by (intros ->; congruence). auto.
    + intros q. unfold put_own. destruct (Nat.eqb_spec q p); [discriminate|]. auto.
  - intros q n. unfold put_own. destruct (Nat.eqb_spec q p); [discriminate|]. apply (i_own_free _ _ H).
  - intros q. unfold put_own. destruct (Nat.eqb_spec q p); [discriminate|]. apply (i_lost _ _ H).
Qed.
(** (h) a block of malloc given back *)
Lemma sinv_freebig s own p sz l1 l2 : sinv s own -> live s = l1 ++ (p, sz) :: l2 -> maxsize < sz -> sinv (mksh (cache s) (mem s) (regs s) (l1 ++ l2)) own.
Proof.
  intros H El Hsz. destruct (live_remove _ _ _ _ _ _ H El) as (D & L & I0).
  constructor; cbn [regs live cache mem]; try apply H; auto.
  - intros q n Hq Hn. apply L in Hq as [Hq Hne]. now apply (i_live _ _ H).
  - intros q n Hq. apply L in Hq as [Hq _]. now apply (i_big _ _ H).
  - intros [q n] [q' n'] Hx Hy. apply L in Hx as [Hx _]. apply L in Hy as [Hy _]. now apply (i_bigs _ _ H).
  - intros q Hq. destruct (i_own_live _ _ H q Hq) as (m & Hm & Hs). exists m. rewrite L. split; auto. split; auto. intros ->.
    assert (E : m = sz); [|lia]. clear - Hm I0 H. pose proof (i_nodup _ _ H) as D. revert D Hm I0. induction (live s) as [|[a b] r IH]; [easy|]. cbn. intros D. inversion D as [|? ? Na D']; subst.
    intros [E|Hm] [E'|I0]; [congruence| | |auto].
    + injection E as -> ->. exfalso. apply Na. apply in_map_iff. exists (p, sz). auto.
    + injection E' as -> ->. exfalso. apply Na. apply in_map_iff. exists (p, m). auto.
Qed.
(** (i) a block of malloc given back as a small one *)
Lemma sinv_shrinkbig s own p sz l1 l2 t : PTR <= maxsize -> sinv s own -> live s = l1 ++ (p, sz) :: l2 -> maxsize < sz ->
  own p = None /\ sinv (mksh (cache s) (mem s) ((p, sz) :: regs s) (l1 ++ l2)) (put_own own p (Transit t)).
Proof.
  intros MX H El Hsz. pose proof (sinv_freebig _ _ _ _ _ _ H El Hsz) as H'. destruct (live_remove _ _ _ _ _ _ H El) as (D & L & I0).
  assert (F : forall x, In x (regs s) -> apart (p, sz) x) by (intros x Hx; exact (i_big _ _ H p sz I0 Hsz x Hx)).
  assert (Na : own p = None).
  { destruct (own p) eqn:E; auto. destruct (proj1 (i_own _ _ H p)) as [k Hk]; [congruence|]. pose proof (i_size _ _ H _ _ Hk). specialize (F _ Hk). unfold apart, PTR in *. cbn in *. lia. }
  assert (Ne : forall q, own q <> None -> q <> p) by (intros q Hq ->; auto).
  assert (RM : forall q n, room s q n -> room (mksh (cache s) (mem s) ((p, sz) :: regs s) (l1 ++ l2)) q n) by (intros q n (k & Hk & ?); exists k; split; auto; right; auto).
  split; auto. constructor; cbn [regs live cache mem]; try apply H'.
  - intros x y [Ex|Hx] [Ey|Hy]; [left; congruence|subst; auto|subst; right; apply apart_sym; auto|now apply (i_regs _ _ H)].
  - intros q k [E|Hk]; [injection E as <- <-; lia|eapply i_size; eauto].
  - intros q. unfold put_own. destruct (Nat.eqb_spec q p) as [->|Hne]; [split; [intros _; eexists; left; reflexivity|discriminate]|]. pose proof (i_own _ _ H q) as Ip. split; [intros Hq; apply Ip in Hq as [k Hk]; exists k; right; auto|intros (k & [E|Hk]); [congruence|apply Ip; eauto]].
  - intros q n Hq Hn. destruct (i_live _ _ H' q n Hq Hn) as (A & B & C). rewrite put_own_neq by (apply Ne; congruence). split; [auto|]. split; [apply RM; exact B|exact C].
  - intros q n Hq Hn x [<-|Hx]; [|now apply (i_big _ _ H' q n)]. apply L in Hq as [Hq Hne]. destruct (i_bigs _ _ H (q, n) (p, sz)) as [E|]; auto. congruence.
  - intros q. unfold put_own. destruct (Nat.eqb_spec q p); [discriminate|]. apply (i_own_live _ _ H').
  - intros n h tg E. destruct (i_free _ _ H _ _ _ E) as (l & Hch & Hd & Hl & Ho). exists l. split; auto. split; auto. split.
    + intros q Hq. destruct (Hl q Hq) as [E1 E2]. rewrite put_own_neq by (apply Ne; congruence). auto.
    + intros q. unfold put_own. destruct (Nat.eqb_spec q p); [discriminate|]. auto.
  - intros q n. unfold put_own. destruct (Nat.eqb_spec q p); [discriminate|]. apply (i_own_free _ _ H).
  - intros q. unfold put_own. destruct (Nat.eqb_spec q p); [discriminate|]. apply (i_lost _ _ H).
Qed.
(** (f) a block of malloc *)
Lemma sinv_malloc s own a sz : sinv s own -> maxsize < sz -> fresh maxsize s (a, sz) -> sinv (hand_out s a sz) own.
Proof.
  intros H Hsz [F1 F2]. constructor; cbn [hand_out regs live cache mem]; try apply H.
  - cbn. constructor; [|apply (i_nodup _ _ H)]. intros I. apply in_map_iff in I as ([p n] & <- & I). cbn in *. destruct (Nat.le_gt_cases n maxsize) as [C|C].
    + destruct (i_live _ _ H _ _ I C) as (_ & (k & Hk & Hk1 & Hk2) & _). specialize (F1 _ Hk). unfold apart, PTR in *. cbn in F1. lia.
    + specialize (F2 _ I C). unfold apart in F2. cbn in F2. lia.
  - intros p n [E|Hp] Hn; [injection E as <- <-; lia|]. now apply (i_live _ _ H).
  - intros p n [E|Hp] Hn x Hx; [injection E as <- <-; auto|]. eapply i_big; eauto.
  - intros x y [Ex|Hx] [Ey|Hy] Bx By; [left; congruence|subst; auto|subst; right; apply apart_sym; auto|now apply (i_bigs _ _ H)].
  - intros p Hp. destruct (i_own_live _ _ H p Hp) as (n & Hn & Hm). exists n. split; auto. right; auto.
Qed.

(** every step of a call *)
Lemma inv_exec s ts own t p a : inv s ts own -> nth_error ts t = Some p -> guard ts t p -> (forall sz tag, p = AHave sz (None, tag) -> fresh maxsize s (a, Nat.max sz PTR)) ->
  exists s' p' own', exec s p a = Ok (s', p') /\ inv s' (upd ts t p') own'.
Proof.
  intros H Ht G F. pose proof (i_thr _ _ _ H _ _ Ht) as HP. pose proof (i_state _ _ _ H) as HS. pose proof (fun n => i_wants _ _ _ H t p n Ht) as HW. pose proof (held _ _ _ _ _ H Ht) as HH.
  pose proof (i_own_transit _ _ _ H t) as HOT.
  assert (NC : carries p = None -> forall b, own b <> Some (Transit t)) by (intros Hc b Hb; destruct (HOT b Hb) as (q & n & Hq & Hs); congruence).
  destruct p as [|sz|sz|sz|sz|sz|sz [[h|] tag]|sz q tag v| |p sz|p sz|p sz|p sz prev|p sz prev]; cbn [exec tinv wants guard readsl carries] in *.
  - exists s, Idle, own. split; auto. eapply inv_move; eauto; cbn; easy.
  - exists s, (ALook sz), own. split; auto. eapply inv_move; eauto; cbn; try easy; intros u q Hne Hu Hw; rewrite (G u q) in Hw by auto; discriminate.
  - exists s, (match cache s sz with Some _ => ALoad sz | None => AUp sz end), own. split; auto. destruct (cache s sz) eqn:E; eapply inv_move; eauto; cbn; try easy; try congruence; intros; exfalso; eauto.
  - exists s, (AIns sz), own. split; auto. eapply inv_move; eauto; cbn; try easy; intros u q Hne Hu Hw; destruct (G u q); auto; congruence.
  - exists (set_cache s sz (None, 0)), (ALoad sz), (fun p => match own p with Some (Free n) => if n =? sz then Some Lost else own p | o => o end). split; auto.
    pose proof (i_lock _ _ _ H t _ Ht eq_refl) as HL. eapply inv_step; eauto.
    + apply sinv_insert; auto.
    + intros b u Hne. destruct (own b) as [[|n| |]|]; try tauto. destruct (n =? sz); split; congruence.
    + intros b. specialize (NC eq_refl b). cbn. split; [|intros (? & ?); discriminate]. destruct (own b) as [[|n| |]|] eqn:Eb; try congruence; try (destruct (n =? sz); congruence).
    + cbn [tinv]. rewrite set_cache_eq. discriminate.
    + intros u q Hne Hu HQ. destruct (HL u q Hne Hu) as [R _]. apply tinv_keep with (s := s); auto.
      * eapply two; eauto; apply H.
      * intros n. apply set_cache_some.
      * congruence.
    + intros u q Hne Hu Hw. destruct (HL u q Hne Hu). congruence.
  - destruct (cache s sz) as [[h tag]|] eqn:E; [|easy]. exists s, (AHave sz (h, tag)), own. split; auto. eapply inv_move; eauto; cbn; try easy.
    + exists h, tag. repeat split; auto. intros q ->. eapply free_head; eauto.
    + intros; exfalso; eauto.
  - destruct HP as (h' & tag' & Ec & Hl & Hh & Hr). unfold rd. rewrite (room_known s h sz) by auto. cbn. exists s, (ACas sz h tag (mem s h)), own. split; auto. eapply inv_move; eauto; cbn; try easy.
    + exists h', tag'. split; auto. split; auto. intros E. split; auto. symmetry; auto.
    + intros; exfalso; eauto.
  - destruct HP as (h' & tag' & Ec & Hl & Hh & Hr). specialize (F _ _ eq_refl). destruct (sinv_carve s own a sz) as [Na HS']; auto; [congruence|].
    eexists _, AOut, (put_own own a Live). split; [reflexivity|]. eapply inv_step; eauto; cbn; try easy.
    + intros b u Hne. unfold put_own. destruct (Nat.eqb_spec b a) as [->|]; [|tauto]. rewrite Na. split; discriminate.
    + intros b. split; [|intros (? & ?); discriminate]. unfold put_own. destruct (b =? a); [discriminate|]. intros Hb. destruct (NC eq_refl b Hb).
    + intros u q Hne Hu HQ. apply tinv_keep with (s := s); auto; [eapply two; eauto; apply H|right; auto].
    + intros; exfalso; eauto.
  - destruct HP as (h' & tag' & Ec & Hl & Hh). rewrite Ec. destruct (pt_eqb (h', tag') (Some q, tag)) eqn:B.
    + apply pt_eqb_eq in B. injection B as -> ->. destruct (Hh eq_refl) as [_ Hm]. destruct (free_head _ _ _ _ _ HS Ec) as [Oq _].
      eexists _, AOut, (put_own own q Live). split; [reflexivity|]. eapply inv_step; eauto; try easy.
      * apply sinv_pop; auto.
      * intros b u Hne. unfold put_own. destruct (Nat.eqb_spec b q) as [->|]; [|tauto]. rewrite Oq. split; discriminate.
      * intros b. cbn. split; [|intros (? & ?); discriminate]. unfold put_own. destruct (b =? q); [discriminate|]. intros Hb. destruct (NC eq_refl b Hb).
      * intros u r Hne Hu HQ. apply tinv_keep with (s := s); auto; [eapply two; eauto; apply H|intros n; apply (set_cache_some s)|].
        intros _ n h tg En. destruct (Nat.eq_dec n sz) as [->|Hns].
        -- right. exists v, (tag + 1). split; [apply (set_cache_eq s)|]. rewrite Ec in En. injection En as <- <-. lia.
        -- left. rewrite <- En. now apply (set_cache_neq s).
      * cbn. intros; exfalso; eauto.
    + exists s, (AHave sz (h', tag')), own. split; auto. eapply inv_move; eauto; cbn; try easy.
      * exists h', tag'. repeat split; auto. intros r ->. eapply free_head; eauto.
      * intros; exfalso; eauto.
  - exists s, Idle, own. split; auto. eapply inv_move; eauto; cbn; easy.
  - exists s, (DLook p sz), own. split; auto. eapply inv_move; eauto; cbn; try easy; intros u q Hne Hu Hw; rewrite (G u q) in Hw by auto; discriminate.
  - destruct HP as [Hc Hr]. destruct (cache s sz) as [c|] eqn:E; [|easy]. exists s, (FLoad p sz), own. split; auto. eapply inv_move; eauto; cbn; try easy; [split; congruence|]. intros; exfalso; eauto.
  - destruct HP as [Hc Hr]. destruct (cache s sz) as [c|] eqn:E; [|easy]. exists s, (FWrite p sz c), own. split; auto. eapply inv_move; eauto; cbn; try easy; [split; congruence|]. intros; exfalso; eauto.
  - destruct HP as [Hc Hr]. unfold wr. rewrite (room_known s p sz) by auto. cbn. pose proof (i_transit _ _ _ H t _ p sz Ht eq_refl) as Op.
    eexists _, (FCas p sz prev), own. split; [reflexivity|]. eapply inv_step; eauto; cbn; try easy.
    + apply sinv_write; auto. congruence.
    + intros b. split.
      * intros Hb. destruct (HOT b Hb) as (q & n & Hq & Hs). rewrite Ht in Hq. injection Hq as <-. cbn in Hs. eauto.
      * intros (n & E). injection E as <- <-. auto.
    + rewrite Nat.eqb_refl. auto.
    + intros u q Hne Hu HQ. apply tinv_keep with (s := s); auto; cbn; [eapply two; eauto; apply H| |].
      * intros n r tg v -> En. destruct (Nat.eqb_spec r p) as [->|]; auto. destruct (free_head _ _ _ _ _ HS En). congruence.
      * intros r n pv ->. destruct (Nat.eqb_spec r p) as [->|]; auto. rewrite (i_transit _ _ _ H u _ p n Hu eq_refl) in Op. congruence.
    + intros; exfalso; eauto.
  - destruct HP as (Hc & Hr & Hm). destruct (cache s sz) as [c|] eqn:E; [|easy]. pose proof (i_transit _ _ _ H t _ p sz Ht eq_refl) as Op. destruct (pt_eqb c prev) eqn:B.
    + apply pt_eqb_eq in B as ->. eexists _, AOut, (put_own own p (Free sz)). split; [reflexivity|]. eapply inv_step; eauto; try easy.
      * eapply sinv_push; eauto.
      * intros b u Hne. unfold put_own. destruct (Nat.eqb_spec b p) as [->|]; [|tauto]. rewrite Op. split; congruence.
      * intros b. cbn. split; [|intros (? & ?); discriminate]. unfold put_own. destruct (Nat.eqb_spec b p) as [->|Hne]; [discriminate|]. intros Hb.
        destruct (HOT b Hb) as (q & n & Hq & Hs). rewrite Ht in Hq. injection Hq as <-. cbn in Hs. congruence.
      * intros u r Hne Hu HQ. apply tinv_keep with (s := s); auto; [eapply two; eauto; apply H|intros n; apply (set_cache_some s)|].
        intros _ n h tg En. destruct (Nat.eq_dec n sz) as [->|Hns].
        -- right. exists (Some p), (snd prev + 1). split; [apply (set_cache_eq s)|]. rewrite E in En. injection En as ->. cbn. lia.
        -- left. rewrite <- En. now apply (set_cache_neq s).
      * cbn. intros; exfalso; eauto.
    + exists s, (FWrite p sz c), own. split; auto. eapply inv_move; eauto; cbn; try easy; [split; congruence|]. intros; exfalso; eauto.
Qed.
Lemma inv_runs : PTR <= maxsize -> forall x, runs maxsize N x -> exists own, inv (fst x) (snd x) own.
Proof.
  intros MX x R. induction R as [m|x y R [own H] S].
  - exists (fun _ => None). assert (RP : forall t q, nth_error (repeat Idle N) t = Some q -> q = Idle) by (intros t q Hq; eapply repeat_spec; eapply nth_error_In; eauto).
    constructor; cbn [fst snd].
    + apply repeat_length.
    + constructor; cbn; try easy; [intros p; split; [easy|intros (? & [])]|constructor].
    + intros t q p sz Hq. rewrite (RP _ _ Hq). discriminate.
    + discriminate.
    + intros t q Hq. rewrite (RP _ _ Hq). exact I.
    + intros t q n Hq. rewrite (RP _ _ Hq). discriminate.
    + intros t q Hq. rewrite (RP _ _ Hq). discriminate.
  - cbn [fst snd] in *. remember (Ok y) as r eqn:Er. destruct S as [s ts t sz Ht Hs|s ts t sz a Ht Hs F|s ts t p sz l1 l2 Ht El Hs|s ts t p sz l1 l2 Ht El Hs|s ts t p sz sz' l1 l2 Ht El Hlt Hs Hc|s ts p sz v Hp|s ts t p a Ht G F]; try (injection Er as <-); cbn [fst snd] in *; pose proof (i_state _ _ _ H) as HS.
    + exists own. eapply inv_move; eauto; cbn; try easy. intros n E. injection E as <-. auto.
    + exists own. destruct H as [A B C D E1 E2 E3]. constructor; auto. apply sinv_malloc; auto.
    + exists (put_own own p (Transit t)). destruct (live_remove _ _ _ _ _ _ HS El) as (_ & _ & I0). destruct (i_live _ _ HS _ _ I0 Hs) as (Op & Rp & Cp).
      eapply inv_step; eauto; cbn; try easy.
      * eapply sinv_take; eauto.
      * intros b u Hne. unfold put_own. destruct (Nat.eqb_spec b p) as [->|]; [|tauto]. rewrite Op. split; congruence.
      * intros b. unfold put_own. destruct (Nat.eqb_spec b p) as [->|Hne]; [split; eauto|]. split; [|intros (n & E); congruence]. intros Hb. destruct (i_own_transit _ _ _ H t b Hb) as (q & n & Hq & Hn). rewrite Ht in Hq. injection Hq as <-. discriminate.
    + exists own. destruct H as [A B C D E1 E2 E3]. constructor; auto. eapply sinv_freebig; eauto.
    + exists (put_own own p (Transit t)). destruct (live_remove _ _ _ _ _ _ HS El) as (_ & _ & I0).
      assert (NT : forall u, own p <> Some (Transit u)).
      { intros u Hu. destruct (Nat.le_gt_cases sz maxsize) as [C|C]; [destruct (i_live _ _ HS _ _ I0 C); congruence|]. destruct (sinv_shrinkbig _ _ _ _ _ _ 0 MX HS El C). congruence. }
      assert (HN : forall b u, u <> t -> own b = Some (Transit u) <-> put_own own p (Transit t) b = Some (Transit u)).
      { intros b u Hne. unfold put_own. destruct (Nat.eqb_spec b p) as [->|]; [|tauto]. split; [intros Hu; destruct (NT u Hu)|congruence]. }
      assert (HT : forall b, put_own own p (Transit t) b = Some (Transit t) <-> exists n, carries (DEnter p sz') = Some (b, n)).
      { intros b. cbn. unfold put_own. destruct (Nat.eqb_spec b p) as [->|Hne]; [split; eauto|]. split; [|intros (n & E); congruence]. intros Hb. destruct (i_own_transit _ _ _ H t b Hb) as (q & n & Hq & Hn). rewrite Ht in Hq. injection Hq as <-. discriminate. }
      destruct (Nat.ltb_spec maxsize sz) as [C|C].
      * destruct (sinv_shrinkbig _ _ _ _ _ _ t MX HS El C) as [Na HS']. eapply inv_step; eauto; cbn [tinv wants readsl writesl]; try easy.
        -- split; auto. exists sz. split; [left; auto|]. unfold PTR in *. lia.
        -- intros u q Hne Hu HQ. apply tinv_keep with (s := s); auto; [eapply two; eauto; apply H|right; auto].
      * destruct (i_live _ _ HS _ _ I0 C) as (Op & (k & Hk & Hk1 & Hk2) & Cp). eapply inv_step; eauto; cbn [tinv wants readsl writesl]; try easy.
        -- eapply sinv_take; eauto.
        -- split; auto. exists k. split; auto. lia.
    + exists own. assert (Op : forall n, own p <> Some (Free n) /\ own p <> Some (Transit n)).
      { intros n. destruct (Nat.le_gt_cases sz maxsize) as [C|C]; [destruct (i_live _ _ HS _ _ Hp C); split; congruence|].
        assert (own p = None); [|split; congruence]. destruct (own p) eqn:E; auto. destruct (proj1 (i_own _ _ HS p)) as [k Hk]; [congruence|]. pose proof (i_size _ _ HS _ _ Hk). pose proof (i_big _ _ HS p sz Hp C _ Hk). unfold apart, PTR in *. cbn in *. lia. }
      destruct H as [A B C D E1 E2 E3]. constructor; auto; [apply sinv_write; auto; apply Op|]. intros t q Hq. pose proof (E1 t q Hq) as HQ.
      destruct q as [|n|n|n|n|n|n [h tag]|n q tag w| |b n|b n|b n|b n prev|b n prev]; cbn [tinv cache mem regs] in *; auto.
      * destruct HQ as (h' & tag' & Ec & Hl & Hh). exists h', tag'. split; auto. split; auto. intros Et. destruct (Hh Et) as [X1 X2]. split; auto. destruct (Nat.eqb_spec q p) as [->|]; auto. subst h'. destruct (free_head _ _ _ _ _ HS Ec) as [O _]. destruct (Op n). congruence.
      * destruct HQ as (X1 & X2 & X3). split; auto. split; auto. destruct (Nat.eqb_spec b p) as [->|]; auto. pose proof (C t _ p n Hq eq_refl). destruct (Op t). congruence.
    + destruct (inv_exec _ _ _ _ _ a H Ht G F) as (s' & p' & own' & E & H'). rewrite E in Er. cbn in Er. injection Er as <-. exists own'. exact H'.
Qed.
End Proofs.

(** C152: whatever any number of threads do with the allocator, two blocks in use never overlap, each small one lies in
    memory obtained from the greedy allocator, no step of a call goes wrong, no step of a call writes to a block in use
    (the allocator writes only to the first word of a block, mem), and what Alloc hands out has the size asked for. *)
Theorem C152_cache maxsize N s ts : PTR <= maxsize -> runs maxsize N (s, ts) ->
  (forall i j x y, i <> j -> nth_error (live s) i = Some x -> nth_error (live s) j = Some y -> apart x y) /\
  (forall p sz, In (p, sz) (live s) -> sz <= maxsize -> exists k, In (p, k) (regs s) /\ sz <= k) /\
  (forall t p a, nth_error ts t = Some p -> guard ts t p -> (forall sz tag, p = AHave sz (None, tag) -> fresh maxsize s (a, Nat.max sz PTR)) ->
     exists s' p', exec s p a = Ok (s', p') /\ (forall q n, In (q, n) (live s) -> mem s' q = mem s q) /\
       (live s' = live s \/ exists q sz, wants p = Some sz /\ p' = AOut /\ live s' = (q, sz) :: live s)).
Proof.
  intros MX R. destruct (inv_runs maxsize N MX _ R) as [own H]. cbn [fst snd] in H. pose proof (i_state _ _ _ _ _ H) as HS. split; [|split].
  - intros i j [p n] [q m] Hij Hi Hj.
    assert (Hpq : p <> q).
    { intros ->. apply Hij. pose proof (i_nodup _ _ _ _ HS) as D. rewrite NoDup_nth_error in D. apply D.
      - rewrite map_length. eapply nth_error_lt; eauto.
      - rewrite !nth_error_map, Hi, Hj. reflexivity. }
    apply nth_error_In in Hi, Hj. destruct (Nat.le_gt_cases n maxsize) as [Cn|Cn], (Nat.le_gt_cases m maxsize) as [Cm|Cm].
    + destruct (i_live _ _ _ _ HS _ _ Hi Cn) as (_ & (k & Hk & ? & _) & _), (i_live _ _ _ _ HS _ _ Hj Cm) as (_ & (k' & Hk' & ? & _) & _).
      destruct (i_regs _ _ _ _ HS _ _ Hk Hk') as [E|A]; [congruence|]. unfold apart in *. cbn in *. lia.
    + destruct (i_live _ _ _ _ HS _ _ Hi Cn) as (_ & (k & Hk & ? & _) & _). pose proof (i_big _ _ _ _ HS _ _ Hj Cm _ Hk) as A. unfold apart in *. cbn in *. lia.
    + destruct (i_live _ _ _ _ HS _ _ Hj Cm) as (_ & (k & Hk & ? & _) & _). pose proof (i_big _ _ _ _ HS _ _ Hi Cn _ Hk) as A. unfold apart in *. cbn in *. lia.
    + destruct (i_bigs _ _ _ _ HS _ _ Hi Hj Cn Cm) as [E|A]; auto. congruence.
  - intros p sz Hp Hs. destruct (i_live _ _ _ _ HS _ _ Hp Hs) as (_ & (k & Hk & ? & _) & _). eauto.
  - intros t p a Ht G F. destruct (inv_exec _ _ _ _ _ _ _ a H Ht G F) as (s' & p' & own' & E & _). exists s', p'. split; auto. clear R. split.
    + intros q n Hq. destruct p as [|sz|sz|sz|sz|sz|sz [[h|] tag]|sz b tag v| |b sz|b sz|b sz|b sz prev|b sz prev]; cbn [exec] in E; try (injection E as <- _; reflexivity).
      * destruct (cache s sz); [injection E as <- _|discriminate]. reflexivity.
      * destruct (rd s h); try discriminate. injection E as <- _. reflexivity.
      * destruct (cache s sz); [|discriminate]. destruct (pt_eqb p (Some b, tag)); injection E as <- _; reflexivity.
      * destruct (cache s sz); [injection E as <- _|discriminate]. reflexivity.
      * destruct (cache s sz); [injection E as <- _|discriminate]. reflexivity.
      * unfold wr in E. destruct (known s b); [|discriminate]. injection E as <- _. cbn. destruct (Nat.eqb_spec q b) as [->|]; auto. exfalso.
        pose proof (i_transit _ _ _ _ _ H t _ b sz Ht eq_refl) as Ob. pose proof (i_thr _ _ _ _ _ H t _ Ht) as (_ & k & Hk & _). pose proof (i_size _ _ _ _ HS _ _ Hk).
        destruct (Nat.le_gt_cases n maxsize) as [C|C]; [destruct (i_live _ _ _ _ HS _ _ Hq C); congruence|]. pose proof (i_big _ _ _ _ HS _ _ Hq C _ Hk) as A. unfold apart, PTR in *. cbn in A. lia.
      * destruct (cache s sz); [|discriminate]. destruct (pt_eqb p prev); injection E as <- _; reflexivity.
    + destruct p as [|sz|sz|sz|sz|sz|sz [[h|] tag]|sz b tag v| |b sz|b sz|b sz|b sz prev|b sz prev]; cbn [exec wants] in *; try (injection E as <- _; left; reflexivity).
      * destruct (cache s sz); [injection E as <- _|discriminate]. auto.
      * destruct (rd s h); try discriminate. injection E as <- _. auto.
      * injection E as <- <-. right. exists a, sz. auto.
      * destruct (cache s sz); [|discriminate]. destruct (pt_eqb p (Some b, tag)); injection E as <- <-; auto. right. exists b, sz. auto.
      * destruct (cache s sz); [injection E as <- _|discriminate]. auto.
      * destruct (cache s sz); [injection E as <- _|discriminate]. auto.
      * unfold wr in E. destruct (known s b); [|discriminate]. injection E as <- _. auto.
      * destruct (cache s sz); [|discriminate]. destruct (pt_eqb p prev); injection E as <- <-; auto.
Qed.
Print Assumptions C152_cache.

(** a call of a thread that nobody interrupts *)
Fixpoint finish (fuel : nat) (s : sh) (p : pc) (a : nat) : res sh :=
  match p, fuel with
  | Idle, _ => Ok s
  | _, 0 => OutOfFuel
  | _, S f => do (s', p') <- exec s p a; finish f s' p' a
  end.
Lemma finish_S f s p a s' p' : exec s p a = Ok (s', p') -> p <> Idle -> finish (S f) s p a = finish f s' p' a.
Proof. intros E Hn. destruct p; [easy|..]; cbn [finish]; now rewrite E. Qed.
(** a step of a call, for building runs *)
Lemma go maxsize N s ts t p a s' p' : runs maxsize N (s, ts) -> nth_error ts t = Some p -> exec s p a = Ok (s', p') -> guard ts t p ->
  (forall sz tag, p = AHave sz (None, tag) -> fresh maxsize s (a, Nat.max sz PTR)) -> runs maxsize N (s', upd ts t p').
Proof. intros R Ht E G F. apply r_step with (x := (s, ts)); auto. pose proof (s_exec maxsize s ts t p a Ht G F) as S. rewrite E in S. exact S. Qed.

(** p waits in the list of some size *)
Definition waiting (s : sh) (p : nat) : Prop := exists sz h tag l, cache s sz = Some (h, tag) /\ chain (mem s) h l /\ In p l.
(** C153: memory given back is used again.  A block given back, if no other thread interferes, is the one the next request
    for its size gets, and no memory is obtained for it. *)
Theorem C153_reuse_partial maxsize N s ts p sz l1 l2 a : PTR <= maxsize -> runs maxsize N (s, ts) -> live s = l1 ++ (p, sz) :: l2 -> sz <= maxsize ->
  exists s1 s2, finish 6 (mksh (cache s) (mem s) (regs s) (l1 ++ l2)) (DEnter p sz) a = Ok s1 /\ live s1 = l1 ++ l2 /\
    finish 6 s1 (AEnter sz) a = Ok s2 /\ live s2 = (p, sz) :: l1 ++ l2 /\ regs s2 = regs s.
Proof.
  intros MX R El Hsz. destruct (inv_runs maxsize N MX _ R) as [own H]. cbn [fst snd] in H. pose proof (i_state _ _ _ _ _ H) as HS.
  assert (Hp : In (p, sz) (live s)) by (rewrite El, in_app_iff; cbn; auto). destruct (i_live _ _ _ _ HS _ _ Hp Hsz) as (_ & Rp & Cp). apply room_known in Rp.
  destruct (cache s sz) as [[h tag]|] eqn:Ec; [|easy].
  assert (EQ : forall x, pt_eqb x x = true) by (intros [[x|] n]; unfold pt_eqb; cbn; now rewrite ?Nat.eqb_refl).
  assert (K : known (mksh (cache s) (mem s) (regs s) (l1 ++ l2)) p = true) by exact Rp.
  pose (s1 := mksh (fun n => if n =? sz then Some (Some p, tag + 1) else cache s n) (fun q => if q =? p then h else mem s q) (regs s) (l1 ++ l2)).
  assert (K' : known s1 p = true) by exact Rp.
  exists s1, (mksh (fun n => if n =? sz then Some (h, tag + 1 + 1) else if n =? sz then Some (Some p, tag + 1) else cache s n) (mem s1) (regs s) ((p, sz) :: l1 ++ l2)).
  split; [|split; [reflexivity|split; [|split; reflexivity]]].
  - rewrite (finish_S 5 _ _ _ (mksh (cache s) (mem s) (regs s) (l1 ++ l2)) (DLook p sz)) by easy.
    rewrite (finish_S 4 _ _ _ (mksh (cache s) (mem s) (regs s) (l1 ++ l2)) (FLoad p sz)) by (try easy; cbn [exec cache]; now rewrite Ec).
    rewrite (finish_S 3 _ _ _ (mksh (cache s) (mem s) (regs s) (l1 ++ l2)) (FWrite p sz (h, tag))) by (try easy; cbn [exec cache]; now rewrite Ec).
    rewrite (finish_S 2 _ _ _ (mksh (cache s) (fun q => if q =? p then h else mem s q) (regs s) (l1 ++ l2)) (FCas p sz (h, tag))) by (try easy; cbn [exec]; unfold wr; now rewrite K).
    rewrite (finish_S 1 _ _ _ s1 AOut) by (try easy; cbn [exec cache]; now rewrite Ec, EQ). reflexivity.
  - assert (E1 : cache s1 sz = Some (Some p, tag + 1)) by (cbn; now rewrite Nat.eqb_refl).
    rewrite (finish_S 5 _ _ _ s1 (ALook sz)) by easy. rewrite (finish_S 4 _ _ _ s1 (ALoad sz)) by (try easy; cbn [exec]; now rewrite E1).
    rewrite (finish_S 3 _ _ _ s1 (AHave sz (Some p, tag + 1))) by (try easy; cbn [exec]; now rewrite E1).
    rewrite (finish_S 2 _ _ _ s1 (ACas sz p (tag + 1) h)) by (try easy; cbn [exec]; unfold rd; rewrite K'; cbn; now rewrite Nat.eqb_refl).
    rewrite (finish_S 1 _ _ _ (hand_out (set_cache s1 sz (h, tag + 1 + 1)) p sz) AOut) by (try easy; cbn [exec]; now rewrite E1, EQ). reflexivity.
Qed.
Print Assumptions C153_reuse_partial.
(** With one thread nothing is ever lost: when no call is under way, all memory obtained is in use or in a list. *)
Theorem C153_kept_partial maxsize s : PTR <= maxsize -> runs maxsize 1 (s, [Idle]) -> forall p k, In (p, k) (regs s) -> (exists sz, In (p, sz) (live s)) \/ waiting s p.
Proof.
  intros MX R p k Hp. destruct (inv_runs maxsize 1 MX _ R) as [own H]. cbn [fst snd] in H. pose proof (i_state _ _ _ _ _ H) as HS.
  assert (O : own p <> None) by (apply (i_own _ _ _ _ HS); eauto). destruct (own p) as [[|sz|t|]|] eqn:E; [| | | |easy].
  - destruct (i_own_live _ _ _ _ HS _ E) as (sz & Hs & _). eauto.
  - right. destruct (cache s sz) as [[h tag]|] eqn:Ec; [|destruct (i_own_free _ _ _ _ HS _ _ E Ec)]. destruct (i_free _ _ _ _ HS _ _ _ Ec) as (l & Hch & _ & _ & Ho). exists sz, h, tag, l. auto.
  - destruct (i_own_transit _ _ _ _ _ H t p E) as (q & n & Hq & Hc). destruct t as [|[|t]]; cbn in Hq; try discriminate. injection Hq as <-. discriminate.
  - destruct (i_lost _ _ _ _ HS _ E). reflexivity.
Qed.
Print Assumptions C153_kept_partial.

(** the state after two threads found no list for 16 bytes and the first of them made one and got 100 *)
Definition two_in (m : nat -> option nat) : sh := mksh (fun n => if n =? 16 then Some (None, 0) else None) m [(100, 16)] [(100, 16)].
Lemma two_runs m : runs 64 2 (two_in m, [Idle; AUp 16]).
Proof.
  assert (R : runs 64 2 (mksh (fun _ => None) m [] [], [AUp 16; AUp 16])).
  { change [AUp 16; AUp 16] with (upd (upd (upd (upd (upd (upd (repeat Idle 2) 0 (AEnter 16)) 1 (AEnter 16)) 0 (ALook 16)) 1 (ALook 16)) 0 (AUp 16)) 1 (AUp 16)).
    pose (s0 := mksh (fun _ => None) m [] []).
    eapply (go _ _ s0 _ 1 (ALook 16) 0); [|reflexivity|reflexivity|exact I|discriminate].
    eapply (go _ _ s0 _ 0 (ALook 16) 0); [|reflexivity|reflexivity|exact I|discriminate].
    eapply (go _ _ s0 _ 1 (AEnter 16) 0); [|reflexivity|reflexivity| |discriminate].
    2: { intros [|[|[|t']]] q Hn Hq; cbn in Hq; try discriminate; try easy; injection Hq as <-; auto. }
    eapply (go _ _ s0 _ 0 (AEnter 16) 0); [|reflexivity|reflexivity| |discriminate].
    2: { intros [|[|[|t']]] q Hn Hq; cbn in Hq; try discriminate; try easy; injection Hq as <-; auto. }
    eapply r_step; [|apply s_alloc; [reflexivity|lia]]. eapply r_step; [|apply s_alloc; [reflexivity|lia]]. apply r_new. }
  change [Idle; AUp 16] with (upd (upd (upd (upd (upd [AUp 16; AUp 16] 0 (AIns 16)) 0 (ALoad 16)) 0 (AHave 16 (None, 0))) 0 AOut) 0 Idle).
  eapply (go _ _ (two_in m) _ 0 AOut 0); [|reflexivity|reflexivity|exact I|discriminate].
  eapply (go _ _ (mksh (cache (two_in m)) m [] []) _ 0 (AHave 16 (None, 0)) 100); [|reflexivity|reflexivity|exact I|intros; split; intros x []].
  eapply (go _ _ (mksh (cache (two_in m)) m [] []) _ 0 (ALoad 16) 0); [|reflexivity|reflexivity|exact I|discriminate].
  eapply (go _ _ (mksh (fun _ => None) m [] []) _ 0 (AIns 16) 0); [|reflexivity|reflexivity|exact I|discriminate].
  eapply (go _ _ (mksh (fun _ => None) m [] []) _ 0 (AUp 16) 0); [exact R|reflexivity|reflexivity| |discriminate].
  intros [|[|[|t']]] q Hn Hq; cbn in Hq; try discriminate; try easy; injection Hq as <-; auto.
Qed.
(** the first thread gives 100 back, and the second makes the list once more: 100 is lost *)
Definition lost_in (m : nat -> option nat) : sh := mksh (fun n => if n =? 16 then Some (None, 0) else if n =? 16 then Some (Some 100, 1) else if n =? 16 then Some (None, 0) else None) (fun q => if q =? 100 then None else m q) [(100, 16)] [].
Lemma lost_runs m : runs 64 2 (lost_in m, [Idle; ALoad 16]).
Proof.
  pose (s1 := mksh (cache (two_in m)) m [(100, 16)] []).
  pose (s2 := mksh (cache (two_in m)) (fun q => if q =? 100 then None else m q) [(100, 16)] []).
  change [Idle; ALoad 16] with (upd (upd (upd (upd (upd (upd (upd (upd (upd [Idle; AUp 16] 0 (DEnter 100 16)) 0 (DLook 100 16)) 0 (FLoad 100 16)) 0 (FWrite 100 16 (None, 0))) 0 (FCas 100 16 (None, 0))) 0 AOut) 0 Idle) 1 (AIns 16)) 1 (ALoad 16)).
  eapply (go _ _ (set_cache s2 16 (Some 100, 1)) _ 1 (AIns 16) 0); [|reflexivity|reflexivity|exact I|discriminate].
  eapply (go _ _ (set_cache s2 16 (Some 100, 1)) _ 1 (AUp 16) 0); [|reflexivity|reflexivity| |discriminate].
  2: { intros [|[|[|t']]] q Hn Hq; cbn in Hq; try discriminate; try easy; injection Hq as <-; auto. }
  eapply (go _ _ (set_cache s2 16 (Some 100, 1)) _ 0 AOut 0); [|reflexivity|reflexivity|exact I|discriminate].
  eapply (go _ _ s2 _ 0 (FCas 100 16 (None, 0)) 0); [|reflexivity|reflexivity|exact I|discriminate].
  eapply (go _ _ s1 _ 0 (FWrite 100 16 (None, 0)) 0); [|reflexivity|reflexivity|exact I|discriminate].
  eapply (go _ _ s1 _ 0 (FLoad 100 16) 0); [|reflexivity|reflexivity|exact I|discriminate].
  eapply (go _ _ s1 _ 0 (DLook 100 16) 0); [|reflexivity|reflexivity|exact I|discriminate].
  eapply (go _ _ s1 _ 0 (DEnter 100 16) 0); [|reflexivity|reflexivity| |discriminate].
  2: { intros [|[|[|t']]] q Hn Hq; cbn in Hq; try discriminate; try easy; injection Hq as <-; auto. }
  eapply r_step; [apply (two_runs m)|]. apply (s_dealloc 64 (two_in m) [Idle; AUp 16] 0 100 16 [] []); [reflexivity|reflexivity|lia].
Qed.
(** With two threads memory can be lost for good: it is neither in use, nor on its way, nor in any list. *)
Theorem C153_kept_refuted : exists s ts, runs 64 2 (s, ts) /\ In (100, 16) (regs s) /\ ~ (exists sz, In (100, sz) (live s)) /\ ~ waiting s 100 /\
  forall t q sz, nth_error ts t = Some q -> carries q <> Some (100, sz).
Proof.
  exists (lost_in (fun _ => None)), [Idle; ALoad 16]. split; [apply lost_runs|]. split; [left; reflexivity|]. split; [intros (sz & [])|]. split.
  - intros (sz & h & tag & l & Ec & Hc & Hi). cbn in Ec. destruct (sz =? 16); [|discriminate]. injection Ec as <- <-. inversion Hc; subst. destruct Hi.
  - intros [|[|[|t]]] q sz Hq; cbn in Hq; try discriminate; injection Hq as <-; discriminate.
Qed.
Print Assumptions C153_kept_refuted.

(** a reachable state with two blocks in use, one small and one large, while a second thread waits for the lock *)
Example C152_example : runs 64 2 (hand_out (two_in (fun _ => None)) 1000 80, [Idle; AUp 16]).
Proof.
  eapply r_step; [apply (two_runs (fun _ => None))|]. apply (s_malloc 64 (two_in (fun _ => None)) [Idle; AUp 16] 0 80 1000); [reflexivity|lia|].
  split; cbn; intros x [<-|[]]; cbn; [unfold apart; cbn; lia|lia].
Qed.
Example C153_example : exists s, runs 64 1 (s, [Idle]) /\ regs s = [(100, 16)] /\ live s = [(100, 16)].
Proof.
  pose (s0 := mksh (fun _ => None) (fun _ => None) [] []).
  exists (mksh (fun n => if n =? 16 then Some (None, 0) else None) (fun _ => None) [(100, 16)] [(100, 16)]). split; [|auto].
  change [Idle] with (upd (upd (upd (upd (upd (upd (upd (upd [Idle] 0 (AEnter 16)) 0 (ALook 16)) 0 (AUp 16)) 0 (AIns 16)) 0 (ALoad 16)) 0 (AHave 16 (None, 0))) 0 AOut) 0 Idle).
  eapply (go _ _ (mksh (fun n => if n =? 16 then Some (None, 0) else None) (fun _ => None) [(100, 16)] [(100, 16)]) _ 0 AOut 0); [|reflexivity|reflexivity|exact I|discriminate].
  eapply (go _ _ (set_cache s0 16 (None, 0)) _ 0 (AHave 16 (None, 0)) 100); [|reflexivity|reflexivity|exact I|intros; split; intros x []].
  eapply (go _ _ (set_cache s0 16 (None, 0)) _ 0 (ALoad 16) 0); [|reflexivity|reflexivity|exact I|discriminate].
  eapply (go _ _ s0 _ 0 (AIns 16) 0); [|reflexivity|reflexivity|exact I|discriminate].
  eapply (go _ _ s0 _ 0 (AUp 16) 0); [|reflexivity|reflexivity| |discriminate].
  2: { intros [|[|t']] q Hn Hq; cbn in Hq; try discriminate; easy. }
  eapply (go _ _ s0 _ 0 (ALook 16) 0); [|reflexivity|reflexivity|exact I|discriminate].
  eapply (go _ _ s0 _ 0 (AEnter 16) 0); [|reflexivity|reflexivity| |discriminate].
  2: { intros [|[|t']] q Hn Hq; cbn in Hq; try discriminate; easy. }
  eapply r_step; [apply r_new|]. apply (s_alloc 64 s0 [Idle] 0 16); [reflexivity|lia].
Qed.
