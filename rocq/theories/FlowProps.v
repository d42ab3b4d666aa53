(* Properties of the flow algorithms (include/bss-util/Graph.h 188-397): C145 to C147. *)
From Coq Require Import List Arith ZArith Lia Bool.
From Coq Require Import ZifyBool ZifyNat.
From Verif Require Import Common Flow.
Import ListNotations.
Open Scope Z_scope.

(* ------------------------------------------------------------------ *)
(** Specification: what flows into and out of a vertex *)
Definition sum_over (p : fedge -> bool) (es : list fedge) (f : list Z) : Z :=
  fold_right (fun ef acc => (if p (fst ef) then snd ef else 0) + acc) 0 (combine es f).
Definition inflow (g : net) (f : list Z) (v : nat) : Z := sum_over (fun x => Nat.eqb (fto x) v) (edges g) f.
Definition outflow (g : net) (f : list Z) (v : nat) : Z := sum_over (fun x => Nat.eqb (ffrom x) v) (edges g) f.
(** no edge carries less than nothing or more than its capacity *)
Definition within (g : net) (f : list Z) : Prop :=
  length f = length (edges g) /\
  forall e x fl, nth_error (edges g) e = Some x -> nth_error f e = Some fl -> 0 <= fl <= fcap x.
(** a flow from s to t *)
Definition is_flow (g : net) (s t : nat) (f : list Z) : Prop :=
  within g f /\ forall v, In v (order g) -> v <> s -> v <> t -> inflow g f v = outflow g f v.
(** a graph with its source and its sink and at least one vertex besides *)
Record network (g : net) (s t : nat) : Prop := {
  nw_nodup : NoDup (order g);
  nw_index : forall i, In i (order g) -> (i < ncap g)%nat;
  nw_s : In s (order g); nw_t : In t (order g); nw_st : s <> t;
  nw_more : (3 <= length (order g))%nat;
  nw_edges : forall e x, nth_error (edges g) e = Some x -> In (ffrom x) (order g) /\ In (fto x) (order g) /\ 0 <= fcap x }.
(** no two edges lead from the source to the same vertex *)
Definition simple_source (g : net) (s : nat) : Prop :=
  forall e1 e2 x1 x2, nth_error (edges g) e1 = Some x1 -> nth_error (edges g) e2 = Some x2 ->
    ffrom x1 = s -> ffrom x2 = s -> fto x1 = fto x2 -> e1 = e2.
Definition no_flow (g : net) : list Z := repeat 0 (length (edges g)).

(* ------------------------------------------------------------------ *)
Lemma sum_upd p es : forall f e x fl d, length f = length es -> nth_error es e = Some x -> nth_error f e = Some fl ->
  sum_over p es (upd f e (fl + d)) = sum_over p es f + (if p x then d else 0).
Proof.
  unfold sum_over. induction es as [|y es IH]; intros f e x fl d L Ex Ef; [destruct e; discriminate|].
  destruct f as [|z f]; [discriminate|]. cbn in L. destruct e as [|e]; cbn in Ex, Ef; cbn [upd combine fold_right fst snd].
  - injection Ex as ->. injection Ef as ->. destruct (p x); lia.
  - rewrite (IH f e x fl d) by (auto; lia). lia.
Qed.
Lemma sum_repeat p es : sum_over p es (repeat 0 (length es)) = 0.
Proof. unfold sum_over. induction es as [|y es IH]; cbn; [reflexivity|]. destruct (p y); lia. Qed.

Lemma outs_in g i e : In e (outs g i) <-> exists x, nth_error (edges g) e = Some x /\ ffrom x = i.
Proof.
  unfold outs. rewrite filter_In, <- in_rev, in_seq. split.
  - intros [? H]. destruct (nth_error (edges g) e) as [x|]; [|discriminate]. exists x. split; auto. now apply Nat.eqb_eq.
  - intros (x & E & <-). rewrite E. split; [|apply Nat.eqb_refl]. apply nth_error_lt in E. lia.
Qed.
Lemma ins_in g i e : In e (ins g i) <-> exists x, nth_error (edges g) e = Some x /\ fto x = i.
Proof.
  unfold ins. rewrite filter_In, <- in_rev, in_seq. split.
  - intros [? H]. destruct (nth_error (edges g) e) as [x|]; [|discriminate]. exists x. split; auto. now apply Nat.eqb_eq.
  - intros (x & E & <-). rewrite E. split; [|apply Nat.eqb_refl]. apply nth_error_lt in E. lia.
Qed.
Lemma outs_nodup g i : NoDup (outs g i).
Proof. unfold outs. apply NoDup_filter, NoDup_rev, seq_NoDup. Qed.
Lemma hd_in {A} (l : list A) x : hd_error l = Some x -> In x l.
Proof. destruct l; cbn; intros H; inversion H; auto. Qed.
Lemma after_in e l x : after e l = Some x -> In x l.
Proof.
  induction l as [|y r IH]; cbn; [discriminate|]. destruct (Nat.eqb y e); intros H; right; auto. now apply hd_in.
Qed.

Section Preflow.
Context (w : Z) (g : net) (s t : nat).
Context (Hw : 0 <= w) (N : network g s t).
Let m := (length (order g) - 2)%nat.

Lemma order_le : (length (order g) <= ncap g)%nat.
Proof.
  pose proof (nw_nodup _ _ _ N) as D. pose proof (nw_index _ _ _ N) as H.
  rewrite <- (seq_length (ncap g) 0). apply NoDup_incl_length; auto.
  intros i Hi. apply in_seq. specialize (H i Hi). lia.
Qed.

Definition inner (i : nat) : bool := negb (Nat.eqb i s) && negb (Nat.eqb i t).
Lemma filter_one (P : nat -> bool) a l : NoDup l -> In a l -> P a = true ->
  (length (filter P l) = 1 + length (filter (fun i => P i && negb (Nat.eqb i a)) l))%nat.
Proof.
  induction l as [|y l IH]; intros D Hi Pa; [easy|]. inversion D as [|? ? NI D']; subst. destruct Hi as [->|Hi].
  - cbn. rewrite Pa, Nat.eqb_refl. cbn. f_equal. f_equal. apply filter_ext_in. intros z Hz.
    rewrite (proj2 (Nat.eqb_neq z a)); [now rewrite andb_true_r|]. intros ->. auto.
  - cbn. assert (y <> a) by (intros ->; auto). rewrite (proj2 (Nat.eqb_neq y a)) by auto. rewrite andb_true_r.
    destruct (P y); cbn; rewrite IH; auto.
Qed.
Lemma filter_true {A} (l : list A) : filter (fun _ => true) l = l.
Proof. induction l; cbn; congruence. Qed.
Lemma inner_count : length (filter inner (order g)) = m.
Proof.
  destruct N as [D _ Hs Ht st _ _].
  assert (length (order g) = 1 + length (filter (fun i => true && negb (Nat.eqb i s)) (order g)))%nat.
  { rewrite <- (filter_true (order g)) at 1. now apply filter_one. }
  assert (length (filter (fun i => true && negb (Nat.eqb i s)) (order g)) = 1 + length (filter inner (order g)))%nat.
  { rewrite (filter_one (fun i => true && negb (Nat.eqb i s)) t); auto. cbn. now rewrite (proj2 (Nat.eqb_neq t s)) by auto. }
  unfold m. lia.
Qed.

(** the invariant of the loops *)
Definition vl_ok (v : list (nat * option nat)) : Prop := length v = m /\
  forall c p, nth_error v c = Some p -> In (fst p) (order g) /\ fst p <> s /\ fst p <> t /\ forall d, snd p = Some d -> (d < m)%nat.
Definition seen_ok (h : list Z) (sn : list (option nat)) : Prop := length sn = ncap g /\
  forall k e, nth_error sn k = Some (Some e) -> (e < length (edges g))%nat /\
    (k = s \/ nth_error h k = Some 0 \/ In e (outs g k) \/ In e (ins g k)).
Definition h_ok (h : list Z) : Prop := length h = ncap g /\ Forall (fun z => 0 <= z) h.
Definition ex_ok (f ex : list Z) : Prop := length ex = ncap g /\
  forall v ev, v <> s -> nth_error ex v = Some ev -> ev = inflow g f v - outflow g f v /\ 0 <= ev.
Definition inv (x : st) : Prop :=
  within g (flow x) /\ ex_ok (flow x) (excess x) /\ h_ok (height x) /\ seen_ok (height x) (seen x) /\ vl_ok (vl x) /\
  (forall c, root x = Some c -> (c < m)%nat) /\ (forall c, last x = Some c -> (c < m)%nat).

Lemma edge_ex e : (e < length (edges g))%nat -> exists x, nth_error (edges g) e = Some x /\ In (ffrom x) (order g) /\ In (fto x) (order g) /\ 0 <= fcap x.
Proof. intros H. destruct (nth_error_ex _ _ H) as [x E]. exists x. split; auto. eapply nw_edges; eauto. Qed.

Lemma wrap_nonneg x : 0 <= wrap w x.
Proof. unfold wrap. apply Z.mod_pos_bound. apply Z.pow_pos_nonneg; lia. Qed.
Lemma h_set h k z : h_ok h -> (k < ncap g)%nat -> 0 <= z -> set h k z = Ok (upd h k z) /\ h_ok (upd h k z).
Proof.
  intros [L F] Hk Hz. split; [unfold set; destruct (Nat.ltb_spec k (length h)); auto; lia|].
  split; [now rewrite upd_length|]. apply Forall_forall. intros y Hy. apply In_nth_error in Hy as [j Ej].
  rewrite nth_error_upd in Ej. destruct ((k =? j)%nat && (k <? length h)%nat); [inversion Ej; subst; auto|].
  rewrite Forall_forall in F. apply F. eapply nth_error_In; eauto.
Qed.

Lemma relabel_to_ok k l f : (k < ncap g)%nat -> within g f -> forall h send, h_ok h -> (forall e, In e l -> (e < length (edges g))%nat) -> 0 <= send ->
  exists h' send', relabel_to w g k l f h send = Ok (h', send') /\ h_ok h' /\ 0 <= send' /\ forall j, j <> k -> nth_error h' j = nth_error h j.
Proof.
  intros Hk Wf. induction l as [|e l IH]; intros h send Hh Hl Hs.
  - exists h, send. repeat split; auto; apply Hh.
  - cbn [relabel_to]. destruct (edge_ex e) as (x & Ex & _ & Ht & _); [apply Hl; left; auto|]. rewrite (get_some _ _ _ Ex).
    destruct (nth_error_ex f e) as [fl Ef]; [destruct Wf as [-> _]; apply Hl; left; auto|]. rewrite (get_some _ _ _ Ef). cbn [bind].
    destruct (fcap x - fl >? 0).
    + destruct (nth_error_ex h (fto x)) as [ht Eh]; [destruct Hh as [-> _]; eapply nw_index; eauto|]. rewrite (get_some _ _ _ Eh). cbn [bind].
      assert (0 <= ht). { destruct Hh as [_ F]. rewrite Forall_forall in F. apply F. eapply nth_error_In; eauto. }
      destruct (h_set h k (wrap w ((if ht <? send then ht else send) + 1)) Hh Hk (wrap_nonneg _)) as [-> Hh']. cbn [bind].
      destruct (IH _ (if ht <? send then ht else send) Hh') as (h' & s' & -> & Hh'' & Hs' & R).
      { intros; apply Hl; right; auto. } { destruct (ht <? send); lia. }
      exists h', s'. split; auto. split; auto. split; auto. intros j Hj. rewrite R by auto. now rewrite nth_error_upd_neq by auto.
    + apply IH; auto. intros; apply Hl; right; auto.
Qed.
Lemma relabel_from_ok k l f : (k < ncap g)%nat -> within g f -> forall h send, h_ok h -> (forall e, In e l -> (e < length (edges g))%nat) -> 0 <= send ->
  exists h' send', relabel_from w g k l f h send = Ok (h', send') /\ h_ok h' /\ 0 <= send' /\ forall j, j <> k -> nth_error h' j = nth_error h j.
Proof.
  intros Hk Wf. induction l as [|e l IH]; intros h send Hh Hl Hs.
  - exists h, send. repeat split; auto; apply Hh.
  - cbn [relabel_from]. destruct (edge_ex e) as (x & Ex & Ht & _ & _); [apply Hl; left; auto|]. rewrite (get_some _ _ _ Ex).
    destruct (nth_error_ex f e) as [fl Ef]; [destruct Wf as [-> _]; apply Hl; left; auto|]. rewrite (get_some _ _ _ Ef). cbn [bind].
    destruct (fl >? 0).
    + destruct (nth_error_ex h (ffrom x)) as [ht Eh]; [destruct Hh as [-> _]; eapply nw_index; eauto|]. rewrite (get_some _ _ _ Eh). cbn [bind].
      assert (0 <= ht). { destruct Hh as [_ F]. rewrite Forall_forall in F. apply F. eapply nth_error_In; eauto. }
      destruct (h_set h k (wrap w ((if ht <? send then ht else send) + 1)) Hh Hk (wrap_nonneg _)) as [-> Hh']. cbn [bind].
      destruct (IH _ (if ht <? send then ht else send) Hh') as (h' & s' & -> & Hh'' & Hs' & R).
      { intros; apply Hl; right; auto. } { destruct (ht <? send); lia. }
      exists h', s'. split; auto. split; auto. split; auto. intros j Hj. rewrite R by auto. now rewrite nth_error_upd_neq by auto.
    + apply IH; auto. intros; apply Hl; right; auto.
Qed.

Lemma outs_lt k e : In e (outs g k) -> (e < length (edges g))%nat.
Proof. rewrite outs_in. intros (x & E & _). eapply nth_error_lt; eauto. Qed.
Lemma ins_lt k e : In e (ins g k) -> (e < length (edges g))%nat.
Proof. rewrite ins_in. intros (x & E & _). eapply nth_error_lt; eauto. Qed.

(** a new edge at seen[k], and heights that changed at k only *)
Lemma seen_set h h' sn k a : seen_ok h sn -> (k < ncap g)%nat -> (forall j, j <> k -> nth_error h' j = nth_error h j) ->
  (forall e, a = Some e -> (e < length (edges g))%nat /\ (nth_error h' k = Some 0 \/ In e (outs g k) \/ In e (ins g k))) ->
  set sn k a = Ok (upd sn k a) /\ seen_ok h' (upd sn k a).
Proof.
  intros [L H] Hk Hh Ha. split; [unfold set; destruct (Nat.ltb_spec k (length sn)); auto; lia|].
  split; [now rewrite upd_length|]. intros j e Ej. rewrite nth_error_upd in Ej.
  destruct (Nat.eqb_spec k j) as [<-|Hne]; cbn [andb] in Ej.
  - destruct (Nat.ltb_spec k (length sn)); [|lia]. injection Ej as ->. destruct (Ha e eq_refl). auto.
  - destruct (H j e Ej) as [? [?|[E|?]]]; split; auto. right; left. rewrite Hh by auto. auto.
Qed.

Lemma relabel_ok k x : inv x -> In k (order g) -> exists x', relabel w g k x = Ok x' /\ inv x' /\ vl x' = vl x.
Proof.
  intros (Wf & EX & Hh & HS & V & Rt & La) Hk. pose proof (nw_index _ _ _ N k Hk) as Lk. unfold relabel.
  destruct (relabel_to_ok k (outs g k) (flow x) Lk Wf (height x) INT_MAX Hh (outs_lt k)) as (h & sd & -> & Hh1 & Hsd & R1); [unfold INT_MAX; lia|].
  cbn [bind]. destruct (sd =? INT_MAX).
  - destruct (relabel_from_ok k (ins g k) (flow x) Lk Wf h sd Hh1 (ins_lt k) Hsd) as (h2 & sd2 & -> & Hh2 & _ & R2). cbn [bind].
    destruct (seen_set (height x) h2 (seen x) k (hd_error (ins g k)) HS Lk) as [-> HS'].
    { intros j Hj. now rewrite R2, R1. } { intros e He. apply hd_in in He. split; auto. eapply ins_lt; eauto. }
    cbn [bind]. eexists. split; [reflexivity|]. cbn. split; auto. repeat (split; cbn; auto).
    all: try apply Wf; try apply EX; try apply Hh2; try apply HS'; try apply V.
  - destruct (seen_set (height x) h (seen x) k (hd_error (outs g k)) HS Lk R1) as [-> HS'].
    { intros e He. apply hd_in in He. split; auto. eapply outs_lt; eauto. }
    cbn [bind]. eexists. split; [reflexivity|]. cbn. split; auto. repeat (split; cbn; auto).
    all: try apply Wf; try apply EX; try apply Hh1; try apply HS'; try apply V.
Qed.

(** what changes when d more flows along an edge *)
Lemma flow_add f e x fl d : within g f -> nth_error (edges g) e = Some x -> nth_error f e = Some fl -> 0 <= fl + d <= fcap x ->
  set f e (fl + d) = Ok (upd f e (fl + d)) /\ within g (upd f e (fl + d)) /\
  forall v, inflow g (upd f e (fl + d)) v - outflow g (upd f e (fl + d)) v =
    inflow g f v - outflow g f v + (if Nat.eqb (fto x) v then d else 0) - (if Nat.eqb (ffrom x) v then d else 0).
Proof.
  intros [L B] Ex Ef Bd. split; [|split].
  - unfold set. apply nth_error_lt in Ef. destruct (Nat.ltb_spec e (length f)); auto; lia.
  - split; [now rewrite upd_length|]. intros e' x' fl' Ex' Ef'. rewrite nth_error_upd in Ef'.
    destruct (Nat.eqb_spec e e') as [<-|]; cbn [andb] in Ef'; [|eauto].
    apply nth_error_lt in Ef. destruct (Nat.ltb_spec e (length f)); [|lia]. injection Ef' as <-. congruence.
  - intros v. unfold inflow, outflow. rewrite !(sum_upd _ _ _ _ _ _ _ L Ex Ef). lia.
Qed.

Lemma push_ok k e x ek : inv x -> In k (order g) -> k <> s -> nth_error (excess x) k = Some ek -> ek > 0 -> nth_error (seen x) k = Some (Some e) ->
  exists x', push g k e x = Ok x' /\ inv x' /\ vl x' = vl x.
Proof.
  intros (Wf & EX & Hh & HS & V & Rt & La) Hk Ks Eek Pek Esn. pose proof (nw_index _ _ _ N k Hk) as Lk. unfold push.
  destruct (proj2 HS _ _ Esn) as [He Hinc]. destruct (edge_ex e He) as (ed & Ex & Hf & Ht & Hc). rewrite (get_some _ _ _ Ex).
  destruct (nth_error_ex (flow x) e) as [fl Ef]; [destruct Wf as [-> _]; auto|]. rewrite (get_some _ _ _ Ef). cbn [bind].
  pose proof (proj2 Wf _ _ _ Ex Ef) as Bf.
  set (fwd := Nat.eqb (ffrom ed) k). set (tg := if fwd then fto ed else ffrom ed).
  assert (Htg : In tg (order g)) by (unfold tg; destruct fwd; auto). pose proof (nw_index _ _ _ N _ Htg) as Ltg.
  destruct (nth_error_ex (height x) k) as [hk Ehk]; [destruct Hh as [-> _]; auto|]. rewrite (get_some _ _ _ Ehk).
  destruct (nth_error_ex (height x) tg) as [ht Eht]; [destruct Hh as [-> _]; auto|]. rewrite (get_some _ _ _ Eht). cbn [bind].
  set (adv := if fwd then after e (outs g (ffrom ed)) else after e (ins g (fto ed))).
  assert (Hinc' : hk <> 0 -> fwd = false -> fto ed = k).
  { intros H0 Fw. unfold fwd in Fw. apply Nat.eqb_neq in Fw. destruct Hinc as [?|[?|[?|?]]]; [congruence|congruence| |].
    - apply outs_in in H as (y & Ey & <-). congruence.
    - apply ins_in in H as (y & Ey & <-). congruence. }
  destruct (seen_set (height x) (height x) (seen x) k adv HS Lk ltac:(auto)) as [ES HS'].
  { intros e' Ha. unfold adv in Ha. destruct fwd eqn:Fw.
    - unfold fwd in Fw. apply Nat.eqb_eq in Fw. apply after_in in Ha. rewrite Fw in Ha. split; auto. eapply outs_lt; eauto.
    - apply after_in in Ha. split; [eapply ins_lt; eauto|]. destruct (Z.eq_dec hk 0) as [->|H0]; auto.
      rewrite (Hinc' H0 eq_refl) in Ha. auto. }
  rewrite ES. cbn [bind].
  set (snd := if fwd then fcap ed - fl else fl).
  destruct ((hk >? ht) && (snd >? 0)) eqn:C.
  2: { eexists. split; [reflexivity|]. cbn. split; auto. repeat (split; cbn; auto).
       all: try apply Wf; try apply EX; try apply Hh; try apply HS'; try apply V. }
  assert (0 <= ht). { destruct Hh as [_ F]. rewrite Forall_forall in F. apply F. eapply nth_error_In; eauto. }
  assert (H0 : hk <> 0) by lia. assert (Sp : snd > 0) by lia. assert (Hkt : tg <> k) by (intros E; rewrite E in Eht; assert (ht = hk) by congruence; lia).
  rewrite (get_some _ _ _ Eek). cbn [bind]. set (sd := if ek <? snd then ek else snd).
  assert (Bsd : 0 < sd <= ek /\ sd <= snd) by (unfold sd; destruct (Z.ltb_spec ek snd); lia).
  assert (EQ : fl + (if fwd then sd else - sd) = fl + (if fwd then sd else - sd)) by auto.
  destruct (flow_add (flow x) e ed fl (if fwd then sd else - sd) Wf Ex Ef) as (-> & Wf' & Bal). { unfold snd in *. destruct fwd; lia. }
  cbn [bind]. destruct (nth_error_ex (excess x) tg) as [et Eet]; [destruct EX as [-> _]; auto|]. rewrite (get_some _ _ _ Eet). cbn [bind].
  destruct EX as [LX BX].
  assert (S1 : set (excess x) tg (et + sd) = Ok (upd (excess x) tg (et + sd))) by (unfold set; destruct (Nat.ltb_spec tg (length (excess x))); auto; lia).
  rewrite S1. cbn [bind]. assert (G1 : get (upd (excess x) tg (et + sd)) k = Ok ek) by (apply get_some; rewrite nth_error_upd_neq; auto).
  rewrite G1. cbn [bind].
  assert (S2 : set (upd (excess x) tg (et + sd)) k (ek - sd) = Ok (upd (upd (excess x) tg (et + sd)) k (ek - sd))) by (unfold set; rewrite upd_length; destruct (Nat.ltb_spec k (length (excess x))); auto; lia).
  rewrite S2. cbn [bind]. eexists. split; [reflexivity|]. split; [|reflexivity]. split; [exact Wf'|]. split.
  2: { cbn. repeat (split; cbn; auto); try apply Hh; try apply HS'; try apply V. }
  cbn [flow excess]. split; [now rewrite !upd_length|]. intros v ev Vs Ev. rewrite Bal. clear Bal.
  rewrite !nth_error_upd, upd_length in Ev. 
  assert (Ends : (fto ed = tg /\ ffrom ed = k /\ fwd = true) \/ (fto ed = k /\ ffrom ed = tg /\ fwd = false)).
  { unfold tg. unfold fwd in *. destruct (Nat.eqb_spec (ffrom ed) k); [left|right]; auto. }
  destruct (Nat.eqb_spec k v) as [->|Hkv].
  - cbn [andb] in Ev. destruct (Nat.ltb_spec v (length (excess x))); [|lia]. injection Ev as <-.
    destruct (BX v ek Vs Eek) as [<- ?]. destruct Ends as [(-> & -> & ->)|(-> & -> & ->)]; rewrite Nat.eqb_refl, (proj2 (Nat.eqb_neq tg v)) by auto; lia.
  - cbn [andb] in Ev. destruct (Nat.eqb_spec tg v) as [->|Htv]; cbn [andb] in Ev.
    + destruct (Nat.ltb_spec v (length (excess x))); [|lia]. injection Ev as <-. destruct (BX v et Vs Eet) as [<- ?].
      destruct Ends as [(-> & -> & ->)|(-> & -> & ->)]; rewrite Nat.eqb_refl, (proj2 (Nat.eqb_neq k v)) by auto; lia.
    + destruct (BX v ev Vs Ev) as [<- ?].
      destruct Ends as [(-> & -> & ->)|(-> & -> & ->)]; rewrite (proj2 (Nat.eqb_neq tg v)), (proj2 (Nat.eqb_neq k v)) by auto; lia.
Qed.

Lemma vl_set v c p q : vl_ok v -> nth_error v c = Some p -> (forall d, q = Some d -> (d < m)%nat) -> set v c (fst p, q) = Ok (upd v c (fst p, q)) /\ vl_ok (upd v c (fst p, q)).
Proof.
  intros [L H] Ep Hq. pose proof (nth_error_lt _ _ _ Ep). split; [unfold set; destruct (Nat.ltb_spec c (length v)); auto; lia|].
  split; [now rewrite upd_length|]. intros c' p' E. rewrite nth_error_upd in E. destruct (Nat.eqb_spec c c') as [<-|]; cbn [andb] in E; [|eauto].
  destruct (Nat.ltb_spec c (length v)); [|lia]. injection E as <-. cbn. destruct (H c p Ep) as (? & ? & ? & ?). auto.
Qed.

Lemma leave_ok c lh x : inv x -> (c < m)%nat -> exists x' c', leave c lh x = Ok (x', c') /\ inv x' /\ forall d, c' = Some d -> (d < m)%nat.
Proof.
  intros Iv Hc. destruct Iv as (Wf & EX & Hh & HS & V & Rt & La). unfold leave.
  destruct (nth_error_ex (vl x) c) as [p Ep]; [destruct V as [-> _]; auto|]. rewrite (get_some _ _ _ Ep). cbn [bind].
  destruct (proj2 V _ _ Ep) as (Hp & Ps & Pt & Pd).
  destruct (nth_error_ex (height x) (fst p)) as [hk Ehk]; [destruct Hh as [-> _]; eapply nw_index; eauto|]. rewrite (get_some _ _ _ Ehk). cbn [bind].
  destruct (negb (lh =? hk)).
  - destruct (last x) as [la|] eqn:El.
    + destruct (nth_error_ex (vl x) la) as [q Eq]; [destruct V as [-> _]; auto|]. rewrite (get_some _ _ _ Eq). cbn [bind].
      destruct (vl_set (vl x) la q (snd p) V Eq Pd) as [-> V1]. cbn [bind].
      destruct (nth_error_ex (upd (vl x) la (fst q, snd p)) c) as [p2 Ep2]; [rewrite upd_length; destruct V as [-> _]; auto|]. rewrite (get_some _ _ _ Ep2). cbn [bind].
      destruct (vl_set _ c p2 (root x) V1 Ep2 Rt) as [-> V2]. cbn [bind]. eexists _, _. split; [reflexivity|]. cbn [root].
      split; [|intros d E; injection E as <-; auto]. repeat (split; cbn; auto); try apply Wf; try apply EX; try apply Hh; try apply HS; try apply V2; intros ? E; injection E as <-; auto.
    + cbn [bind]. eexists _, _. split; [reflexivity|]. split; auto. split; auto. split; auto. split; auto. split; auto. split; auto. split; auto. now rewrite El.
  - eexists _, _. split; [reflexivity|]. split; auto.
    repeat (split; cbn; auto); try apply Wf; try apply EX; try apply Hh; try apply HS; try apply V. intros ? E; injection E as <-; auto.
Qed.

Definition mode_ok (o : mode) : Prop := match o with Outer (Some c) => (c < m)%nat | Outer None => True | Inner c _ => (c < m)%nat end.
Lemma step_ok x o : inv x -> mode_ok o -> exists x' o', step w g x o = Ok (x', o') /\ inv x' /\ forall o2, o' = Some o2 -> mode_ok o2.
Proof.
  intros Iv Ho. destruct o as [[c|]|c lh]; cbn [step mode_ok] in *.
  - pose proof Iv as (Wf & EX & Hh & HS & V & Rt & La).
    destruct (nth_error_ex (vl x) c) as [p Ep]; [destruct V as [-> _]; auto|]. rewrite (get_some _ _ _ Ep). cbn [bind].
    destruct (proj2 V _ _ Ep) as (Hp & Ps & Pt & Pd).
    destruct (nth_error_ex (height x) (fst p)) as [hk Ehk]; [destruct Hh as [-> _]; eapply nw_index; eauto|]. rewrite (get_some _ _ _ Ehk). cbn [bind].
    eexists _, _. split; [reflexivity|]. split; auto. intros o2 E. injection E as <-. auto.
  - eexists _, _. split; [reflexivity|]. split; auto. discriminate.
  - pose proof Iv as (Wf & EX & Hh & HS & V & Rt & La).
    destruct (nth_error_ex (vl x) c) as [p Ep]; [destruct V as [-> _]; auto|]. rewrite (get_some _ _ _ Ep). cbn [bind].
    destruct (proj2 V _ _ Ep) as (Hp & Ps & Pt & Pd). pose proof (nw_index _ _ _ N _ Hp) as Lk.
    destruct (nth_error_ex (excess x) (fst p)) as [ek Eek]; [destruct EX as [-> _]; auto|]. rewrite (get_some _ _ _ Eek). cbn [bind].
    destruct (Z.gtb_spec ek 0) as [G|G].
    + destruct (nth_error_ex (seen x) (fst p)) as [sk Esk]; [destruct HS as [-> _]; auto|]. rewrite (get_some _ _ _ Esk). cbn [bind].
      destruct sk as [e|].
      * destruct (push_ok (fst p) e x ek Iv Hp Ps Eek ltac:(lia) Esk) as (x' & -> & Iv' & _). cbn [bind].
        eexists _, _. split; [reflexivity|]. split; auto. intros o2 E. injection E as <-. auto.
      * destruct (relabel_ok (fst p) x Iv Hp) as (x' & -> & Iv' & _). cbn [bind].
        eexists _, _. split; [reflexivity|]. split; auto. intros o2 E. injection E as <-. auto.
    + destruct (leave_ok c lh x Iv Ho) as (x' & c' & -> & Iv' & Hc'). cbn [bind].
      eexists _, _. split; [reflexivity|]. split; auto. intros o2 E. injection E as <-. destruct c'; cbn; auto.
Qed.
Lemma run_ok fuel : forall x o, inv x -> mode_ok o -> run w fuel g x o = OutOfFuel \/ exists x', run w fuel g x o = Ok x' /\ inv x'.
Proof.
  induction fuel as [|fuel IH]; intros x o Iv Ho; cbn [run]; auto.
  destruct (step_ok x o Iv Ho) as (x' & o' & -> & Iv' & Ho'). cbn [bind]. destruct o' as [o2|]; eauto.
Qed.

Lemma build_ok ns : forall k plast sn v rt,
  (k + length (filter inner ns) = m)%nat -> incl ns (order g) ->
  length v = m -> (forall c p, nth_error v c = Some p -> ((c < k)%nat -> In (fst p) (order g) /\ fst p <> s /\ fst p <> t) /\ forall d, snd p = Some d -> (d < m)%nat) ->
  length sn = ncap g -> (forall j e, nth_error sn j = Some (Some e) -> (e < length (edges g))%nat) ->
  (forall j, plast = Some j -> (j < k)%nat) -> (plast = None -> k = 0%nat) ->
  match rt with None => k = 0%nat | Some r => exists c, r = Some c /\ (c < m)%nat end ->
  exists sn' v' rt', build g s t ns k plast sn v rt = Ok (sn', v', rt') /\ vl_ok v' /\
    length sn' = ncap g /\ (forall j e, nth_error sn' j = Some (Some e) -> (e < length (edges g))%nat) /\
    match rt' with None => m = 0%nat | Some r => exists c, r = Some c /\ (c < m)%nat end.
Proof.
  pose proof order_le as OL. pose proof (nw_more _ _ _ N) as NM.
  induction ns as [|i ns IH]; intros k plast sn v rt Hk Hi Lv Hv Ls Hs Hp Hp0 Hr; cbn [build filter] in *.
  - cbn in Hk. exists sn, v, rt. split; auto. split; [split; auto|].
    + intros c p E. destruct (Hv c p E) as [A B]. pose proof (nth_error_lt _ _ _ E). destruct A as (? & ? & ?); auto. lia.
    + split; auto. split; auto. destruct rt; auto. lia.
  - assert (Lk : (k < ncap g)%nat) by (unfold m in *; lia).
    assert (Es : set sn k (hd_error (outs g i)) = Ok (upd sn k (hd_error (outs g i)))) by (unfold set; destruct (Nat.ltb_spec k (length sn)); auto; lia).
    rewrite Es. cbn [bind].
    assert (Hs' : forall j e, nth_error (upd sn k (hd_error (outs g i))) j = Some (Some e) -> (e < length (edges g))%nat).
    { intros j e E. rewrite nth_error_upd in E. destruct ((k =? j)%nat && (k <? length sn)%nat); [|eauto]. injection E as E. apply hd_in in E. eapply outs_lt; eauto. }
    fold (inner i). destruct (inner i) eqn:In_i.
    2: { apply IH; auto; [intros a Ha; apply Hi; right; auto|now rewrite upd_length]. }
    cbn [length] in Hk. assert (Km : (k < m)%nat) by lia.
    assert (Ii : In i (order g) /\ i <> s /\ i <> t).
    { split; [apply Hi; left; auto|]. unfold inner in In_i. apply andb_prop in In_i as [A B]. rewrite negb_true_iff, Nat.eqb_neq in A, B. auto. }
    assert (LINK : exists v1 rt1, match plast with None => Ok (v, Some (Some k)) | Some j => do p <- get v j; do v0 <- set v j (fst p, Some k); Ok (v0, rt) end = Ok (v1, rt1) /\
      length v1 = m /\ (forall c p, nth_error v1 c = Some p -> ((c < k)%nat -> In (fst p) (order g) /\ fst p <> s /\ fst p <> t) /\ forall d, snd p = Some d -> (d < m)%nat) /\
      exists c, rt1 = Some (Some c) /\ (c < m)%nat).
    { destruct plast as [j|].
      - specialize (Hp j eq_refl). destruct (nth_error_ex v j) as [p Ep]; [lia|]. rewrite (get_some _ _ _ Ep). cbn [bind].
        unfold set. destruct (Nat.ltb_spec j (length v)); [|lia]. cbn [bind]. eexists _, _. split; [reflexivity|]. split; [now rewrite upd_length|]. split.
        + intros c q E. rewrite nth_error_upd in E. destruct (Nat.eqb_spec j c) as [<-|]; cbn [andb] in E; [|eauto].
          destruct (Nat.ltb_spec j (length v)); [|lia]. injection E as <-. cbn. split; [intros _; apply (Hv j p Ep); auto|intros d E; injection E as <-; auto].
        + destruct rt as [r|]; [destruct Hr as (c & -> & ?); eauto|lia].
      - eexists _, _. split; [reflexivity|]. split; auto. split; auto. eauto. }
    destruct LINK as (v1 & rt1 & -> & Lv1 & Hv1 & (c1 & -> & Hc1)). cbn [bind].
    destruct (nth_error_ex v1 k) as [p Ep]; [lia|]. rewrite (get_some _ _ _ Ep). cbn [bind].
    unfold set at 1. destruct (Nat.ltb_spec k (length v1)); [|lia]. cbn [bind]. apply IH; auto.
    + lia.
    + intros a Ha; apply Hi; right; auto.
    + now rewrite upd_length.
    + intros c q E. rewrite nth_error_upd in E. destruct (Nat.eqb_spec k c) as [<-|]; cbn [andb] in E.
      * destruct (Nat.ltb_spec k (length v1)); [|lia]. injection E as <-. cbn. split; auto. intros d. apply (Hv1 k p Ep).
      * destruct (Hv1 c q E) as [A B]. split; auto. intros ?. apply A. lia.
    + now rewrite upd_length.
    + intros j E. injection E as <-. lia.
    + discriminate.
    + eauto.
Qed.

Lemma init_push_ok : simple_source g s -> forall l f ex, NoDup l -> incl l (outs g s) -> within g f -> ex_ok f ex ->
  (forall e, In e l -> nth_error f e = Some 0) ->
  (forall e x, In e l -> nth_error (edges g) e = Some x -> fto x = s \/ nth_error ex (fto x) = Some 0) ->
  exists f' ex', init_push g l f ex = Ok (f', ex') /\ within g f' /\ ex_ok f' ex'.
Proof.
  intros SS. induction l as [|e l IH]; intros f ex D Hl Wf EX F0 E0; cbn [init_push].
  - eauto.
  - inversion D as [|? ? NI D']; subst. assert (He : In e (outs g s)) by (apply Hl; left; auto).
    pose proof (outs_lt _ _ He) as Le. destruct (edge_ex e Le) as (x & Ex & Hf & Ht & Hc). rewrite (get_some _ _ _ Ex). cbn [bind].
    assert (Fs : ffrom x = s) by (apply outs_in in He as (y & Ey & <-); congruence).
    destruct (flow_add f e x 0 (fcap x) Wf Ex (F0 e (or_introl eq_refl))) as (E1 & Wf' & Bal); [lia|]. rewrite Z.add_0_l in *. rewrite E1. cbn [bind].
    pose proof (nw_index _ _ _ N _ Ht) as Lt. destruct EX as [LX BX].
    unfold set at 1. destruct (Nat.ltb_spec (fto x) (length ex)); [|lia]. cbn [bind]. apply IH; auto.
    + intros a Ha; apply Hl; right; auto.
    + split; [now rewrite upd_length|]. intros v ev Vs Ev. rewrite Bal. rewrite Fs, (proj2 (Nat.eqb_neq s v)) by auto.
      rewrite nth_error_upd in Ev. destruct (Nat.eqb_spec (fto x) v) as [<-|Hne]; cbn [andb] in Ev.
      * destruct (Nat.ltb_spec (fto x) (length ex)); [|lia]. injection Ev as <-. destruct (E0 e x (or_introl eq_refl) Ex) as [?|Z0]; [congruence|].
        destruct (BX _ _ Vs Z0) as [<- _]. lia.
      * destruct (BX v ev Vs Ev) as [<- ?]. lia.
    + intros a Ha. rewrite nth_error_upd_neq; [apply F0; right; auto|]. intros ->. auto.
    + intros a y Ha Ey. destruct (E0 a y (or_intror Ha) Ey) as [?|Z0]; auto. right. rewrite nth_error_upd_neq; auto. intros Eq.
      assert (ffrom y = s). { assert (Ha' : In a (outs g s)) by (apply Hl; right; auto). apply outs_in in Ha' as (z & Ez & <-). congruence. }
      assert (e = a) by (eapply SS; eauto). subst. auto.
Qed.

Lemma setup_ok : simple_source g s -> exists x, setup w g s t (no_flow g) = Ok x /\ inv x.
Proof.
  intros SS. unfold setup. pose proof (nw_index _ _ _ N _ (nw_s _ _ _ N)) as Ls.
  assert (HR : h_ok (repeat 0 (ncap g))). { split; [apply repeat_length|]. apply Forall_forall. intros z Hz. apply repeat_spec in Hz. lia. }
  destruct (h_set _ s (wrap w (Z.of_nat (length (order g)))) HR Ls (wrap_nonneg _)) as [-> Hh]. cbn [bind].
  unfold set at 1. rewrite repeat_length. destruct (Nat.ltb_spec s (ncap g)); [|lia]. cbn [bind].
  destruct (build_ok (order g) 0 None (repeat None (ncap g)) (repeat (0%nat, None) m) None) as (sn & v & rt & EB & V & Lsn & Hsn & Hrt); auto.
  { apply inner_count. } { apply incl_refl. } { apply repeat_length. }
  { intros c p E. apply nth_error_In, repeat_spec in E. subst p. split; [lia|]. cbn. discriminate. }
  { apply repeat_length. } { intros j e E. apply nth_error_In, repeat_spec in E. discriminate. } { discriminate. }
  fold m. rewrite EB. cbn [bind].
  assert (R0 : forall n i z, nth_error (repeat 0 n) i = Some z -> z = 0). { intros n i z E. apply nth_error_In, repeat_spec in E. auto. }
  destruct (init_push_ok SS (outs g s) (no_flow g) (upd (repeat 0 (ncap g)) s (INT_MAX / 2))) as (f & ex & -> & Wf & EX).
  { apply outs_nodup. } { apply incl_refl. }
  { split; [apply repeat_length|]. intros e x fl Ex Ef. apply R0 in Ef. subst. pose proof (nw_edges _ _ _ N _ _ Ex). lia. }
  { split; [now rewrite upd_length, repeat_length|]. intros v0 ev Vs Ev. rewrite nth_error_upd_neq in Ev by auto. apply R0 in Ev.
    unfold inflow, outflow, no_flow. rewrite !sum_repeat. lia. }
  { intros e He. apply outs_lt in He. destruct (nth_error_ex (no_flow g) e) as [z E]; [unfold no_flow; now rewrite repeat_length|].
    rewrite E. f_equal. eapply R0; eauto. }
  { intros e x He Ex. destruct (Nat.eq_dec (fto x) s); auto. right. rewrite nth_error_upd_neq by auto.
    destruct (nth_error_ex (repeat 0 (ncap g)) (fto x)) as [z E]; [rewrite repeat_length; eapply nw_index; eauto; eapply nw_edges; eauto|].
    rewrite E. f_equal. eapply R0; eauto. }
  cbn [bind]. pose proof (nw_more _ _ _ N). destruct rt as [r|]; [|unfold m in *; lia]. destruct Hrt as (c & -> & Hc).
  eexists. split; [reflexivity|]. split; [exact Wf|]. split; [exact EX|]. split; [exact Hh|]. split.
  - split; auto. cbn [seen height]. intros k e E. split; [eapply Hsn; eauto|]. destruct (Nat.eq_dec k s); auto. right; left.
    rewrite nth_error_upd_neq by auto. pose proof (nth_error_lt _ _ _ E).
    destruct (nth_error_ex (repeat 0 (ncap g)) k) as [z Ez]; [rewrite repeat_length; lia|]. rewrite Ez. f_equal. eapply R0; eauto.
  - split; auto. cbn [root last]. split; [intros ? E; injection E as <-; auto|discriminate].
Qed.
End Preflow.

(* ------------------------------------------------------------------ *)
(** C145, the part that holds: when MaxFlow_PushRelabel ends, the flow of every edge is between zero and its capacity and
    no vertex but the source sends more than it receives; it never touches memory outside its arrays.  Missing, because
    they are false (C145_maxflow_refuted): that it ends, that nothing is left over in a vertex between source and sink,
    and that the flow is a maximal one. *)
Theorem C145_preflow_partial : forall w fuel g s t, 0 <= w -> network g s t -> simple_source g s ->
  MaxFlow w fuel g s t (no_flow g) = OutOfFuel \/
  exists f, MaxFlow w fuel g s t (no_flow g) = Ok f /\ within g f /\
    forall v, In v (order g) -> v <> s -> outflow g f v <= inflow g f v.
Proof.
  intros w fuel g s t Hw N SS. unfold MaxFlow. destruct (setup_ok w g s t Hw N SS) as (x & -> & Iv). cbn [bind].
  destruct (run_ok w g s t Hw N fuel x (Outer (root x)) Iv) as [->|(x' & -> & Iv')]; auto.
  { destruct Iv as (_ & _ & _ & _ & _ & Rt & _). cbn. destruct (root x); auto. }
  cbn [bind]. right. eexists. split; [reflexivity|]. destruct Iv' as (Wf & [LX EX] & _). split; auto. intros v Hv Vs.
  destruct (nth_error_ex (excess x') v) as [ev E]; [rewrite LX; eapply nw_index; eauto|]. specialize (EX v ev Vs E). lia.
Qed.
Print Assumptions C145_preflow_partial.

(* ------------------------------------------------------------------ *)
(** The graphs of the counterexamples.  Vertex 1 of [g_deadend] receives 5 and can pass 1 to the sink; the rest goes back
    and forth between 1 and the dead end 2. *)
Definition g_deadend : net := mknet [0; 1; 2; 3]%nat 4 [mkf 0 1 5; mkf 1 2 5; mkf 1 3 1].

Fixpoint steps (n : nat) (w : Z) (g : net) (x : st) (o : mode) : option (st * mode) :=
  match n with
  | O => Some (x, o)
  | S n => match step w g x o with Ok (x, Some o) => steps n w g x o | _ => None end
  end.
Lemma steps_run n w g : forall x o x' o', steps n w g x o = Some (x', o') -> forall fuel,
  run w fuel g x o = if (fuel <=? n)%nat then OutOfFuel else run w (fuel - n) g x' o'.
Proof.
  induction n as [|n IH]; intros x o x' o' H fuel; cbn [steps] in H.
  - injection H as <- <-. destruct fuel; cbn; auto.
  - destruct fuel as [|fuel]; auto. cbn [run]. destruct (step w g x o) as [[x1 [o1|]]| |] eqn:E; try discriminate.
    cbn [bind]. rewrite (IH _ _ _ _ H fuel). reflexivity.
Qed.
(** a set of states none of which is final and from each of which another one of the set is reached *)
Lemma never_ends w g (X : st -> mode -> Prop) :
  (forall x o, X x o -> exists n x' o', steps (S n) w g x o = Some (x', o') /\ X x' o') ->
  forall fuel x o, X x o -> run w fuel g x o = OutOfFuel.
Proof.
  intros H fuel. induction fuel as [fuel IH] using lt_wf_ind. intros x o Hx. destruct (H x o Hx) as (n & x' & o' & E & Hx').
  rewrite (steps_run _ _ _ _ _ _ _ E fuel). destruct (Nat.leb_spec fuel (S n)); auto. apply IH; auto. lia.
Qed.

Section Deadend.
Context (w : Z) (Hw : 1 <= w <= 16).
Let top := INT_MAX / 2.
Definition v01 : list (nat * option nat) := [(1%nat, Some 1%nat); (2%nat, None)].
Definition v10 : list (nat * option nat) := [(1%nat, None); (2%nat, Some 0%nat)].
(** 1 has pushed to 2, which is about to be relabelled; then 2 stuck at height 0; then 1 stuck at height 0 *)
Inductive circle : st -> mode -> Prop :=
| ci_go a h : 1 <= h < 2 ^ w -> circle (mks [5; 4; 1] [top; 0; 4; 1] [a; h; h - 1; 0] [Some 2%nat; None; None; None] v01 (Some 0%nat) (Some 0%nat)) (Inner 1 (h - 1))
| ci_two a h : 1 <= h -> h + 1 = 2 ^ w -> circle (mks [5; 4; 1] [top; 0; 4; 1] [a; h; 0; 0] [Some 2%nat; None; Some 1%nat; None] v01 (Some 0%nat) (Some 0%nat)) (Inner 1 (h - 1))
| ci_one a h : 1 <= h -> h + 2 = 2 ^ w -> circle (mks [5; 0; 1] [top; 4; 0; 1] [a; 0; h + 1; 0] [Some 2%nat; Some 2%nat; None; None] v10 (Some 1%nat) (Some 1%nat)) (Inner 0 h).

Lemma pow_le : 2 ^ w <= 65536.
Proof. change 65536 with (2 ^ 16). apply Z.pow_le_mono_r; lia. Qed.
Lemma wrap_same z : 0 <= z < 2 ^ w -> wrap w z = z.
Proof. intros. unfold wrap. now apply Z.mod_small. Qed.
Lemma wrap_top : wrap w (2 ^ w) = 0.
Proof. unfold wrap. apply Z.mod_same. assert (0 < 2 ^ w) by (apply Z.pow_pos_nonneg; lia). lia. Qed.

Lemma outs1 : outs g_deadend 1 = [2; 1]%nat. Proof. reflexivity. Qed.
Lemma outs2 : outs g_deadend 2 = []. Proof. reflexivity. Qed.
Lemma ins1 : ins g_deadend 1 = [0]%nat. Proof. reflexivity. Qed.
Lemma ins2 : ins g_deadend 2 = [1]%nat. Proof. reflexivity. Qed.
Lemma edges1 : edges g_deadend = [mkf 0 1 5; mkf 1 2 5; mkf 1 3 1]. Proof. reflexivity. Qed.


Ltac decide_tests := repeat match goal with
  | |- context [Z.gtb ?a ?b] => first [replace (Z.gtb a b) with true by lia | replace (Z.gtb a b) with false by lia]
  | |- context [Z.ltb ?a ?b] => first [replace (Z.ltb a b) with true by lia | replace (Z.ltb a b) with false by lia]
  | |- context [Z.eqb ?a ?b] => first [replace (Z.eqb a b) with true by lia | replace (Z.eqb a b) with false by lia]
  end.
Ltac look := cbn [v01 v10 nth_error bind fst snd vl excess seen height flow root last upd length Nat.ltb Nat.leb Nat.eqb negb andb ffrom fto fcap hd_error after].
Ltac one_step := unfold step, relabel, push, leave, get, set; look; rewrite ?outs1, ?outs2, ?ins1, ?ins2, ?edges1;
  cbn [relabel_to relabel_from]; unfold get, set; rewrite ?edges1; look; decide_tests; look; decide_tests; look.


Definition reach x o := exists n x' o', steps n w g_deadend x o = Some (x', o') /\ circle x' o'.
Lemma reach_here x o x' o' : circle x' o' -> x = x' -> o = o' -> reach x o.
Proof. intros H -> ->. now exists 0%nat, x', o'. Qed.
Lemma reach_step x o x1 o1 : step w g_deadend x o = Ok (x1, Some o1) -> reach x1 o1 -> reach x o.
Proof. intros E (n & x' & o' & E2 & C). exists (S n), x', o'. cbn [steps]. now rewrite E. Qed.
Ltac go := eapply reach_step; [one_step; reflexivity|].
Ltac same := repeat (f_equal; try lia).

Lemma circle_ok x o : circle x o -> exists n x' o', steps (S n) w g_deadend x o = Some (x', o') /\ circle x' o'.
Proof.
  pose proof pow_le as PL. assert (IM : INT_MAX = 2147483647) by reflexivity.
  assert (F : forall x1 o1, step w g_deadend x o = Ok (x1, Some o1) -> reach x1 o1 -> exists n x' o', steps (S n) w g_deadend x o = Some (x', o') /\ circle x' o').
  { intros x1 o1 E (n & x' & o' & E2 & C). exists n, x', o'. cbn [steps]. now rewrite E. }
  intros H. destruct H as [a h Hh|a h H1 H2|a h H1 H2].
  - destruct (Z.eq_dec (h + 1) (2 ^ w)) as [Et|Et].
    + eapply F; [one_step; rewrite Et, wrap_top; reflexivity|]. eapply reach_here; [apply (ci_two a h); lia|reflexivity|reflexivity].
    + eapply F; [one_step; rewrite wrap_same by lia; reflexivity|]. do 5 go.
      destruct (Z.eq_dec (h + 2) (2 ^ w)) as [Et2|Et2].
      * eapply reach_step; [one_step; replace (h + 1 + 1) with (2 ^ w) by lia; rewrite wrap_top; reflexivity|].
        eapply reach_here; [apply (ci_one a h); lia| |]; same.
      * eapply reach_step; [one_step; rewrite wrap_same by lia; reflexivity|]. do 6 go.
        eapply reach_here; [apply (ci_go a (h + 2)); lia| |]; same.
  - eapply F; [one_step; reflexivity|]. eapply reach_step; [one_step; rewrite H2, wrap_top; reflexivity|].
    eapply reach_here; [apply (ci_two a h); lia| |]; same.
  - eapply F; [one_step; reflexivity|]. go. eapply reach_step; [one_step; replace (h + 1 + 1) with (2 ^ w) by lia; rewrite wrap_top; reflexivity|].
    eapply reach_here; [apply (ci_one a h); lia| |]; same.
Qed.

Lemma deadend_loops fuel : MaxFlow w fuel g_deadend 0 3 (no_flow g_deadend) = OutOfFuel.
Proof.
  pose proof pow_le as PL. assert (IM : INT_MAX = 2147483647) by reflexivity. assert (2 <= 2 ^ w) by (change 2 with (2 ^ 1) at 1; apply Z.pow_le_mono_r; lia).
  unfold MaxFlow.
  assert (E : setup w g_deadend 0 3 (no_flow g_deadend) =
    Ok (mks [5; 0; 0] [top; 5; 0; 0] [wrap w 4; 0; 0; 0] [Some 2%nat; None; None; None] v01 (Some 0%nat) None)) by reflexivity.
  rewrite E. cbn [bind root]. 
  assert (R : reach (mks [5; 0; 0] [top; 5; 0; 0] [wrap w 4; 0; 0; 0] [Some 2%nat; None; None; None] v01 (Some 0%nat) None) (Outer (Some 0%nat))).
  { go. eapply reach_step; [one_step; rewrite ?(wrap_same (0 + 1)) by lia; reflexivity|]. do 6 go. eapply reach_here; [apply (ci_go (wrap w 4) 1); lia| |]; same. }
  destruct R as (n & x' & o' & Es & C). rewrite (steps_run _ _ _ _ _ _ _ Es fuel). destruct (fuel <=? n)%nat; auto.
  now rewrite (never_ends w g_deadend circle circle_ok).
Qed.
End Deadend.

(** 3 is left with more than it sends on *)
Definition g_left : net := mknet [0; 1; 2; 3; 4]%nat 5 [mkf 3 1 1; mkf 0 1 3; mkf 1 3 2].
(** one unit could go from 0 by 3 and 1 to 4 *)
Definition g_less : net := mknet [0; 1; 2; 3; 4]%nat 5 [mkf 2 3 2; mkf 3 1 1; mkf 0 3 1; mkf 1 4 1; mkf 1 2 1].
(** two edges from the source to vertex 1 *)
Definition g_twice : net := mknet [0; 1; 2]%nat 3 [mkf 0 1 1; mkf 0 1 1; mkf 1 2 2].
(** source and sink only *)
Definition g_pair : net := mknet [0; 1]%nat 2 [mkf 0 1 1].

Ltac by_cases := cbn [In order] in *; repeat match goal with H : _ \/ _ |- _ => destruct H as [H|H] | H : False |- _ => destruct H end.
Ltac net_tac := constructor; [repeat constructor; cbn; intuition discriminate|cbn; intros; by_cases; subst; try lia|cbn; auto 10|cbn; auto 10|discriminate|cbn; lia|
  let e := fresh in let E := fresh in intros e ? E; repeat (destruct e as [|e]; [injection E as <-; cbn; repeat split; auto 10; lia|]); destruct e; discriminate E].
Lemma deadend_net : network g_deadend 0 3. Proof. net_tac. Qed.
Lemma left_net : network g_left 0 4. Proof. net_tac. Qed.
Lemma less_net : network g_less 0 4. Proof. net_tac. Qed.
Lemma twice_net : network g_twice 0 2. Proof. net_tac. Qed.
(** the hypotheses of the examples, decided *)
Lemma simple_by g s : forallb (fun e1 => forallb (fun e2 => match nth_error (edges g) e1, nth_error (edges g) e2 with
    | Some x1, Some x2 => negb (Nat.eqb (ffrom x1) s && Nat.eqb (ffrom x2) s && Nat.eqb (fto x1) (fto x2)) || Nat.eqb e1 e2 | _, _ => false end)
    (seq 0 (length (edges g)))) (seq 0 (length (edges g))) = true -> simple_source g s.
Proof.
  intros H e1 e2 x1 x2 E1 E2 F1 F2 T. rewrite forallb_forall in H. specialize (H e1).
  rewrite in_seq in H. pose proof (nth_error_lt _ _ _ E1). pose proof (nth_error_lt _ _ _ E2). specialize (H ltac:(lia)). rewrite forallb_forall in H.
  specialize (H e2). rewrite in_seq, E1, E2, F1, F2, T, !Nat.eqb_refl in H. cbn in H. apply Nat.eqb_eq, H. lia.
Qed.
Lemma within_by g f : (Nat.eqb (length f) (length (edges g)) && forallb (fun xf => (0 <=? snd xf) && (snd xf <=? fcap (fst xf))) (combine (edges g) f)) = true -> within g f.
Proof.
  intros H. apply andb_prop in H as [L H]. apply Nat.eqb_eq in L. split; auto. intros e x fl Ex Ef. rewrite forallb_forall in H.
  specialize (H (x, fl)). cbn in H. assert (In (x, fl) (combine (edges g) f)).
  { clear H. revert f e L Ex Ef. induction (edges g) as [|y l IH]; intros f [|e] L Ex Ef; destruct f; cbn in *; try discriminate.
    - left; congruence. - right. eapply (IH f e); auto. }
  specialize (H H0). lia.
Qed.
(** C145, the rest of the claim is false: on [g_deadend] the loop never ends, whatever the width of CT; on [g_left] vertex 3
    keeps what it should have sent on or back; on [g_less] nothing reaches the sink although one unit could; with two
    edges from the source to the same vertex [g_twice] one of them is forgotten; with source and sink alone [g_pair] the
    head of the list is read without ever having been written. *)
Theorem C145_maxflow_refuted :
  (network g_deadend 0 3 /\ simple_source g_deadend 0 /\ forall w, 1 <= w <= 16 -> forall fuel, MaxFlow w fuel g_deadend 0 3 (no_flow g_deadend) = OutOfFuel) /\
  (network g_left 0 4 /\ simple_source g_left 0 /\ exists fuel f, MaxFlow 16 fuel g_left 0 4 (no_flow g_left) = Ok f /\ ~ is_flow g_left 0 4 f) /\
  (network g_less 0 4 /\ simple_source g_less 0 /\ exists fuel f f2, MaxFlow 16 fuel g_less 0 4 (no_flow g_less) = Ok f /\ is_flow g_less 0 4 f /\
     is_flow g_less 0 4 f2 /\ inflow g_less f 4 - outflow g_less f 4 < inflow g_less f2 4 - outflow g_less f2 4) /\
  (network g_twice 0 2 /\ exists fuel f, MaxFlow 16 fuel g_twice 0 2 (no_flow g_twice) = Ok f /\ ~ is_flow g_twice 0 2 f) /\
  (forall w fuel, MaxFlow w fuel g_pair 0 1 (no_flow g_pair) = UB).
Proof.
  split; [|split; [|split; [|split]]].
  - split; [apply deadend_net|]. split; [now apply simple_by|]. intros w Hw fuel. now apply deadend_loops.
  - split; [apply left_net|]. split; [now apply simple_by|]. exists 200%nat, [1; 1; 2]. split; [vm_compute; reflexivity|]. intros [_ H].
    specialize (H 3%nat). cbn in H. assert (2 + 0 = 1 + 0) by (apply H; auto; lia). lia.
  - split; [apply less_net|]. split; [now apply simple_by|]. exists 200%nat, [1; 1; 0; 0; 1], [0; 1; 1; 1; 0]. split; [vm_compute; reflexivity|].
    split; [|split; [|vm_compute; reflexivity]].
    + split; [now apply within_by|]. cbn. intros v Hv. cbn in Hv. by_cases; subst; intros; first [vm_compute; reflexivity | exfalso; auto].
    + split; [now apply within_by|]. cbn. intros v Hv. cbn in Hv. by_cases; subst; intros; first [vm_compute; reflexivity | exfalso; auto].
  - split; [apply twice_net|]. exists 200%nat, [1; 1; 1]. split; [vm_compute; reflexivity|]. intros [_ H].
    specialize (H 1%nat). cbn in H. assert (1 + (1 + 0) = 1 + 0) by (apply H; auto; lia). lia.
  - intros w fuel. reflexivity.
Qed.
Print Assumptions C145_maxflow_refuted.

(** 5 and 3 leave the source, 8 reach the sink: the partial theorem applies and the run ends *)
Definition g_ok : net := mknet [0; 1; 2; 3]%nat 4 [mkf 0 1 5; mkf 0 2 3; mkf 1 2 5; mkf 1 3 4; mkf 2 3 4].
Example C145_example : network g_ok 0 3 /\ simple_source g_ok 0 /\ MaxFlow 16 100 g_ok 0 3 (no_flow g_ok) = Ok [5; 3; 1; 4; 4] /\
  inflow g_ok [5; 3; 1; 4; 4] 3 = 8 /\ is_flow g_ok 0 3 [5; 3; 1; 4; 4].
Proof.
  split; [net_tac|]. split; [now apply simple_by|]. split; [vm_compute; reflexivity|]. split; [reflexivity|]. split; [now apply within_by|].
  intros v Hv. cbn in Hv. by_cases; subst; intros; first [vm_compute; reflexivity | exfalso; auto].
Qed.

(* ------------------------------------------------------------------ *)
(** Specification of the circulation problem: every vertex receives its demand more than it sends *)
Definition circulation (g : net) (dem : list Z) (f : list Z) : Prop :=
  within g f /\ forall v d, In v (order g) -> nth_error dem v = Some d -> inflow g f v - outflow g f v = d.
(** every edge that leaves s or enters t carries as much as it can *)
Definition saturated (g : net) (s t : nat) (f : list Z) : Prop :=
  forall e x fl, nth_error (edges g) e = Some x -> nth_error f e = Some fl -> ffrom x = s \/ fto x = t -> fl = fcap x.
(** a graph with a demand for every vertex *)
Record demands (g : net) (dem : list Z) : Prop := {
  dm_nodup : NoDup (order g);
  dm_len : forall i, In i (order g) -> (i < length dem)%nat;
  dm_edges : forall e x, nth_error (edges g) e = Some x -> In (ffrom x) (order g) /\ In (fto x) (order g) /\ 0 <= fcap x }.
Definition sumZ (l : list Z) : Z := fold_right Z.add 0 l.
Definition dem_of (dem : list Z) (i : nat) : Z := nth i dem 0.

Lemma sum_app p a : forall fa b fb, length fa = length a -> sum_over p (a ++ b) (fa ++ fb) = sum_over p a fa + sum_over p b fb.
Proof.
  unfold sum_over. induction a as [|x a IH]; intros fa b fb L; destruct fa as [|z fa]; try discriminate; cbn [app combine fold_right]; auto.
  cbn in L. rewrite IH by lia. lia.
Qed.

Section Circ.
Context (g : net) (dem : list Z) (ss tt : nat).
Context (D : demands g dem) (Hs : ~ In ss (order g)) (Ht : ~ In tt (order g)) (Hst : ss <> tt).
(** the edge added for vertex i *)
Definition extra (i : nat) : list fedge :=
  let d := dem_of dem i in if d <? 0 then [mkf ss i (- d)] else if d >? 0 then [mkf i tt d] else [].
Lemma circ_loop_app ns ms : (forall i, In i ns -> In i (order g)) -> forall ed total,
  circ_loop (ns ++ ms) ss tt dem ed total = circ_loop ms ss tt dem (ed ++ flat_map extra ns) (total + sumZ (map (dem_of dem) ns)).
Proof.
  induction ns as [|i ns IH]; intros Hi ed total; cbn [app flat_map map sumZ fold_right].
  - now rewrite app_nil_r, Z.add_0_r.
  - assert (Ii : In i (order g)) by (apply Hi; left; auto). cbn [circ_loop].
    rewrite (proj2 (Nat.eqb_neq i ss)), (proj2 (Nat.eqb_neq i tt)) by (intros ->; auto). cbn [negb andb].
    pose proof (dm_len _ _ D _ Ii) as Li. rewrite (get_some dem i (dem_of dem i)) by (unfold dem_of; now apply nth_error_nth').
    cbn [bind]. rewrite IH by (intros; apply Hi; right; auto). f_equal; [|unfold sumZ; lia].
    unfold extra at 2. cbv zeta. destruct (dem_of dem i <? 0); [now rewrite <- app_assoc|]. destruct (dem_of dem i >? 0); [now rewrite <- app_assoc|]. reflexivity.
Qed.
Lemma circ_ok : Circulation_MaxFlow g dem ss tt =
  Ok (mknet (order g ++ [ss; tt]) (Nat.max (ncap g) (S (Nat.max ss tt))) (edges g ++ flat_map extra (order g)), sumZ (map (dem_of dem) (order g))).
Proof.
  unfold Circulation_MaxFlow. rewrite circ_loop_app by auto. cbn [circ_loop]. rewrite !Nat.eqb_refl, (proj2 (Nat.eqb_neq tt ss)) by auto.
  cbn [negb andb bind]. reflexivity.
Qed.

(** what the added edges carry when they are full *)
Lemma extra_in v ns : NoDup ns -> v <> ss -> v <> tt ->
  sum_over (fun x => Nat.eqb (fto x) v) (flat_map extra ns) (map fcap (flat_map extra ns)) -
  sum_over (fun x => Nat.eqb (ffrom x) v) (flat_map extra ns) (map fcap (flat_map extra ns)) = if in_dec Nat.eq_dec v ns then - dem_of dem v else 0.
Proof.
  clear D Hs Ht Hst. intros ND Vs Vt. induction ns as [|i ns IH]; cbn [flat_map]; [reflexivity|]. inversion ND as [|? ? NI ND']; subst. specialize (IH ND').
  rewrite map_app, !sum_app by apply map_length.
  assert (E : sum_over (fun x => Nat.eqb (fto x) v) (extra i) (map fcap (extra i)) - sum_over (fun x => Nat.eqb (ffrom x) v) (extra i) (map fcap (extra i)) = if Nat.eq_dec i v then - dem_of dem i else 0).
  { unfold extra. cbv zeta. destruct (Z.ltb_spec (dem_of dem i) 0); [|destruct (Z.gtb_spec (dem_of dem i) 0)].
    - unfold sum_over. cbn [map combine fold_right fst snd fto ffrom fcap]. rewrite (proj2 (Nat.eqb_neq ss v)) by auto.
      destruct (Nat.eqb_spec i v), (Nat.eq_dec i v); try congruence; lia.
    - unfold sum_over. cbn [map combine fold_right fst snd fto ffrom fcap]. rewrite (proj2 (Nat.eqb_neq tt v)) by auto.
      destruct (Nat.eqb_spec i v), (Nat.eq_dec i v); try congruence; lia.
    - cbn. destruct (Nat.eq_dec i v); lia. }
  destruct (in_dec Nat.eq_dec v ns) as [Iv|Iv], (in_dec Nat.eq_dec v (i :: ns)) as [Jv|Jv]; cbn in Jv;
    destruct (Nat.eq_dec i v) as [Ei|Ei]; try (subst; tauto); try (exfalso; tauto); subst; lia.
Qed.
Lemma extra_edges x : In x (flat_map extra (order g)) -> (ffrom x = ss \/ fto x = tt) /\ 0 <= fcap x.
Proof.
  clear D Hs Ht Hst. rewrite in_flat_map. intros (i & _ & H). unfold extra in H. cbv zeta in H.
  destruct (Z.ltb_spec (dem_of dem i) 0); [|destruct (Z.gtb_spec (dem_of dem i) 0)]; cbn in H; intuition (subst; cbn; auto; lia).
Qed.
End Circ.

(** the sum over all vertices of what they receive is the sum over all edges *)
Lemma sum_vertices (sel : fedge -> nat) ns es : NoDup ns -> (forall x, In x es -> In (sel x) ns) -> forall f,
  sumZ (map (fun v => sum_over (fun x => Nat.eqb (sel x) v) es f) ns) = sum_over (fun _ => true) es f.
Proof.
  intros ND. induction es as [|x es IH]; intros Hx f.
  - unfold sum_over. cbn. clear. induction ns; cbn in *; auto.
  - destruct f as [|z f].
    { unfold sum_over. cbn. clear. induction ns; cbn in *; auto. }
    specialize (IH (fun y Hy => Hx y (or_intror Hy)) f). unfold sum_over in *. cbn [combine fold_right fst snd]. rewrite <- IH.
    assert (Ix : In (sel x) ns) by (apply Hx; left; auto). clear IH Hx. 
    transitivity (sumZ (map (fun v => if Nat.eqb (sel x) v then z else 0) ns) + sumZ (map (fun v => fold_right (fun ef acc => (if Nat.eqb (sel (fst ef)) v then snd ef else 0) + acc) 0 (combine es f)) ns)).
    { clear. induction ns as [|v ns IH]; cbn [map sumZ fold_right] in *; auto. unfold sumZ in *. rewrite IH. lia. }
    f_equal. clear - ND Ix. induction ns as [|v ns IH]; [easy|]. inversion ND as [|? ? NI ND']; subst. cbn [map sumZ fold_right]. destruct Ix as [->|Ix].
    + rewrite Nat.eqb_refl. assert (E : fold_right Z.add 0 (map (fun v => if Nat.eqb (sel x) v then z else 0) ns) = 0).
      { clear - NI. induction ns as [|u ns IH]; cbn; auto. rewrite (proj2 (Nat.eqb_neq (sel x) u)) by (intros E; apply NI; left; auto). rewrite IH; auto. intros ?; apply NI; right; auto. }
      rewrite E. lia.
    + rewrite (proj2 (Nat.eqb_neq (sel x) v)) by (intros E; apply NI; now rewrite <- E). apply IH; auto.
Qed.

(** C146: the graph Circulation_MaxFlow leaves behind has a flow from ss to st that fills every edge that leaves ss or
    enters st exactly when there is a circulation; the circulations are what such flows put on the old edges; the number
    returned is the sum of the demands, and when it is not zero there is no circulation. *)
Theorem C146_circulation : forall g dem ss tt, demands g dem -> ~ In ss (order g) -> ~ In tt (order g) -> ss <> tt ->
  exists g' total, Circulation_MaxFlow g dem ss tt = Ok (g', total) /\
    order g' = order g ++ [ss; tt] /\ firstn (length (edges g)) (edges g') = edges g /\
    total = sumZ (map (fun i => nth i dem 0) (order g)) /\
    (forall f, circulation g dem f -> total = 0 /\ exists f', is_flow g' ss tt f' /\ saturated g' ss tt f' /\ firstn (length (edges g)) f' = f) /\
    (forall f', is_flow g' ss tt f' -> saturated g' ss tt f' -> circulation g dem (firstn (length (edges g)) f')).
Proof.
  intros g dem ss tt D Hs Ht Hst. rewrite (circ_ok g dem ss tt D Hs Ht Hst). eexists _, _. split; [reflexivity|]. cbn [order edges].
  split; auto. split; [now rewrite firstn_app, Nat.sub_diag, firstn_all, app_nil_r|]. split; auto.
  set (ex := flat_map (extra dem ss tt) (order g)). 
  assert (DV : forall v d, In v (order g) -> nth_error dem v = Some d -> d = dem_of dem v).
  { intros v d _ E. unfold dem_of. symmetry. now apply nth_error_nth. }
  assert (BAL : forall f v, length f = length (edges g) -> In v (order g) ->
    inflow (mknet (order g ++ [ss; tt]) (Nat.max (ncap g) (S (Nat.max ss tt))) (edges g ++ ex)) (f ++ map fcap ex) v -
    outflow (mknet (order g ++ [ss; tt]) (Nat.max (ncap g) (S (Nat.max ss tt))) (edges g ++ ex)) (f ++ map fcap ex) v =
    inflow g f v - outflow g f v - dem_of dem v).
  { intros f v L Iv. unfold inflow, outflow. cbn [edges]. rewrite !sum_app by auto.
    assert (Vs : v <> ss) by (intros ->; auto). assert (Vt : v <> tt) by (intros ->; auto).
    pose proof (extra_in dem ss tt v (order g) (dm_nodup _ _ D) Vs Vt) as E. fold ex in E.
    destruct (in_dec Nat.eq_dec v (order g)); [lia|tauto]. }
  split.
  - intros f [Wf B]. split.
    + transitivity (sumZ (map (fun v => inflow g f v) (order g)) - sumZ (map (fun v => outflow g f v) (order g))).
      * assert (E : forall v, In v (order g) -> dem_of dem v = inflow g f v - outflow g f v).
        { intros v Iv. symmetry. apply B; auto. unfold dem_of. apply nth_error_nth'. now apply (dm_len _ _ D). }
        clear - E. induction (order g) as [|v ns IH]; cbn [map sumZ fold_right]; auto. unfold sumZ in *.
        rewrite IH, (E v (or_introl eq_refl)) by (intros; apply E; right; auto). lia.
      * unfold inflow, outflow. rewrite !sum_vertices; try apply (dm_nodup _ _ D); [lia| |];
          intros x Hx; apply In_nth_error in Hx as [e Ex]; apply (dm_edges _ _ D _ _ Ex).
    + exists (f ++ map fcap ex). destruct Wf as [Lf Wf]. split; [|split].
      * split.
        -- split; [cbn [edges]; now rewrite !app_length, map_length, Lf|]. cbn [edges]. intros e x fl Ex Ef.
           destruct (Nat.lt_ge_cases e (length f)) as [Le|Le].
           ++ rewrite nth_error_app1 in Ex by lia. rewrite nth_error_app1 in Ef by lia. eauto.
           ++ rewrite nth_error_app2 in Ex by lia. rewrite nth_error_app2 in Ef by lia. rewrite Lf in Ef. rewrite nth_error_map, Ex in Ef. injection Ef as <-.
              apply nth_error_In, extra_edges in Ex as [_ ?]. lia.
        -- cbn [order]. intros v Iv Vs Vt. apply in_app_iff in Iv as [Iv|[?|[?|[]]]]; try congruence.
           specialize (BAL f v Lf Iv). assert (inflow g f v - outflow g f v = dem_of dem v).
           { apply B; auto. unfold dem_of. apply nth_error_nth'. now apply (dm_len _ _ D). } lia.
      * intros e x fl Ex Ef Hx. cbn [edges] in Ex. destruct (Nat.lt_ge_cases e (length f)) as [Le|Le].
        -- rewrite nth_error_app1 in Ex by lia. destruct (dm_edges _ _ D _ _ Ex) as (A & A' & _). destruct Hx as [<-|<-]; tauto.
        -- rewrite nth_error_app2 in Ex by lia. rewrite nth_error_app2 in Ef by lia. rewrite Lf in Ef. rewrite nth_error_map, Ex in Ef. now injection Ef as <-.
      * rewrite firstn_app, <- Lf, Nat.sub_diag, firstn_all. cbn. now rewrite app_nil_r.
  - intros f' [[Lf Wf] B] Sat. cbn [edges] in *. set (n := length (edges g)) in *.
    assert (EF : f' = firstn n f' ++ map fcap ex).
    { rewrite <- (firstn_skipn n f') at 1. f_equal. apply nth_error_ext. intros j. rewrite nth_error_skipn, nth_error_map.
      destruct (nth_error ex j) as [x|] eqn:Ex.
      - assert (Ex' : nth_error (edges g ++ ex) (n + j) = Some x) by (rewrite nth_error_app2 by (unfold n; lia); replace (n + j - length (edges g))%nat with j by (unfold n; lia); auto).
        destruct (nth_error_ex f' (n + j)) as [fl Ef]; [rewrite Lf; eapply nth_error_lt; eauto|]. rewrite Ef. cbn. f_equal.
        eapply Sat; eauto. apply nth_error_In, extra_edges in Ex as [? _]. auto.
      - cbn. apply nth_error_None. apply nth_error_None in Ex. rewrite Lf, app_length. fold n. lia. }
    assert (L1 : length (firstn n f') = n) by (rewrite firstn_length, Lf, app_length; fold n; lia).
    split; [split; auto|].
    + intros e x fl Ex Ef. apply (Wf e x fl); [rewrite nth_error_app1; auto; eapply nth_error_lt; eauto|].
      rewrite EF, nth_error_app1; auto. eapply nth_error_lt; eauto.
    + intros v d Iv Ed. rewrite (DV v d Iv Ed). specialize (BAL (firstn n f') v L1 Iv). rewrite <- EF in BAL.
      rewrite (B v) in BAL; [lia| | |]; [apply in_app_iff; auto|intros ->; auto|intros ->; auto].
Qed.
Print Assumptions C146_circulation.

Definition g_circ : net := mknet [0; 1; 2]%nat 3 [mkf 0 1 4; mkf 1 2 2; mkf 0 2 3].
Example C146_example : demands g_circ [-5; 2; 3] /\ circulation g_circ [-5; 2; 3] [3; 1; 2] /\
  Circulation_MaxFlow g_circ [-5; 2; 3] 3 4 =
    Ok (mknet [0; 1; 2; 3; 4]%nat 5 [mkf 0 1 4; mkf 1 2 2; mkf 0 2 3; mkf 3 0 5; mkf 1 4 2; mkf 2 4 3], 0).
Proof.
  split; [|split; [|reflexivity]].
  - constructor; [repeat constructor; cbn; intuition discriminate|cbn; intros; by_cases; subst; lia|].
    intros e x E. do 3 (destruct e as [|e]; [injection E as <-; cbn; repeat split; auto; lia|]). destruct e; discriminate E.
  - split; [now apply within_by|].
    intros v d Hv E. cbn in Hv. by_cases; subst; cbn in E; injection E as <-; reflexivity.
Qed.

(* ------------------------------------------------------------------ *)
(** Specification: a circulation between lower bounds and capacities *)
Definition bounded_circulation (g : net) (cp lo dem f : list Z) : Prop :=
  length f = length (edges g) /\
  (forall e c l fl, nth_error cp e = Some c -> nth_error lo e = Some l -> nth_error f e = Some fl -> l <= fl <= c) /\
  forall v d, In v (order g) -> nth_error dem v = Some d -> inflow g f v - outflow g f v = d.
(** the flow above the lower bounds *)
Definition above (f lo : list Z) : list Z := map (fun xy => fst xy - snd xy) (combine f lo).

Section Lower.
Context (g : net) (nd : nat).
Context (Hi : forall i, In i (order g) -> (i < nd)%nat).
Context (He : forall e x, nth_error (edges g) e = Some x -> In (ffrom x) (order g) /\ In (fto x) (order g)).
Let n := length (edges g).
(** what one step leaves alone: capacity less lower bound, demand and lower bounds together *)
Definition same (x y : list Z * list Z * list Z) : Prop :=
  let '(cp, lo, dem) := x in let '(cp', lo', dem') := y in
  length cp' = n /\ length lo' = n /\ length dem' = nd /\
  (forall e c l c' l', nth_error cp e = Some c -> nth_error lo e = Some l -> nth_error cp' e = Some c' -> nth_error lo' e = Some l' -> c' - l' = c - l) /\
  (forall v d d', nth_error dem v = Some d -> nth_error dem' v = Some d' -> d' - inflow g lo' v + outflow g lo' v = d - inflow g lo v + outflow g lo v) /\
  forall e, nth_error lo e = Some 0 -> nth_error lo' e = Some 0.
Definition good (x : list Z * list Z * list Z) : Prop := let '(cp, lo, dem) := x in length cp = n /\ length lo = n /\ length dem = nd.
Lemma same_refl x : good x -> same x x.
Proof. destruct x as [[cp lo] dem]. intros (A & B & C). cbn. repeat split; auto; intros; congruence. Qed.
Lemma same_good x y : same x y -> good y.
Proof. destruct x as [[cp lo] dem], y as [[cp' lo'] dem']. cbn. tauto. Qed.
Lemma same_trans x y z : good x -> same x y -> same y z -> same x z.
Proof.
  destruct x as [[cp lo] dem], y as [[cp1 lo1] dem1], z as [[cp2 lo2] dem2]. cbn. intros (G1 & G2 & G3) (A1 & A2 & A3 & A4 & A5 & A6) (B1 & B2 & B3 & B4 & B5 & B6).
  repeat split; auto.
  - intros e c l c2 l2 E1 E2 E3 E4. destruct (nth_error_ex cp1 e) as [c1 F1]; [apply nth_error_lt in E1; lia|].
    destruct (nth_error_ex lo1 e) as [l1 F2]; [apply nth_error_lt in E2; lia|]. specialize (A4 _ _ _ _ _ E1 E2 F1 F2). specialize (B4 _ _ _ _ _ F1 F2 E3 E4). lia.
  - intros v d d2 E1 E2. destruct (nth_error_ex dem1 v) as [d1 F1]; [apply nth_error_lt in E1; lia|]. specialize (A5 _ _ _ E1 F1). specialize (B5 _ _ _ F1 E2). lia.
Qed.
Lemma lower_edge_ok i e x : In e (outs g i) -> good x -> exists cp lo dem, lower_edge g i e x = Ok (cp, lo, dem) /\ same x (cp, lo, dem) /\ nth_error lo e = Some 0.
Proof.
  destruct x as [[cp lo] dem]. intros Ho (Lc & Ll & Ld). apply outs_in in Ho as (ed & Ed & Fi). destruct (He _ _ Ed) as [If It].
  rewrite Fi in If. pose proof (Hi _ If) as Li. pose proof (Hi _ It) as Lt. pose proof (nth_error_lt _ _ _ Ed) as Le. fold n in Le.
  unfold lower_edge. rewrite (get_some _ _ _ Ed). cbn [bind]. destruct (nth_error_ex lo e) as [l El]; [lia|]. rewrite (get_some _ _ _ El). cbn [bind].
  destruct (nth_error_ex cp e) as [c Ec]; [lia|]. rewrite (get_some _ _ _ Ec). cbn [bind]. rewrite set_ok by lia. cbn [bind].
  destruct (nth_error_ex dem i) as [d Edi]; [lia|]. rewrite (get_some _ _ _ Edi). cbn [bind]. rewrite set_ok by lia. cbn [bind].
  destruct (nth_error_ex (upd dem i (d + l)) (fto ed)) as [d2 Ed2]; [rewrite upd_length; lia|]. rewrite (get_some _ _ _ Ed2). cbn [bind].
  rewrite set_ok by (rewrite upd_length; lia). cbn [bind]. rewrite set_ok by lia. cbn [bind].
  eexists _, _, _. split; [reflexivity|]. split; [|apply nth_error_upd_eq; lia]. cbn. rewrite !upd_length. repeat split; auto.
  - intros e' c1 l1 c2 l2 E1 E2 E3 E4. rewrite nth_error_upd in E3, E4. destruct (Nat.eqb_spec e e') as [<-|]; cbn [andb] in E3, E4.
    + destruct (Nat.ltb_spec e (length cp)), (Nat.ltb_spec e (length lo)); try lia. injection E3 as <-. injection E4 as <-. assert (c1 = c) by congruence. assert (l1 = l) by congruence. lia.
    + congruence.
  - intros v dv dv' E1 E2. unfold inflow, outflow. replace (upd lo e 0) with (upd lo e (l + - l)) by (f_equal; lia).
    rewrite !(sum_upd _ (edges g) lo e ed l (- l) ltac:(unfold n in *; lia) Ed El). cbv beta. rewrite Fi.
    rewrite nth_error_upd, upd_length in E2. rewrite nth_error_upd in Ed2. rewrite nth_error_upd in E2.
    destruct (Nat.ltb_spec (fto ed) (length dem)); [|lia]. destruct (Nat.ltb_spec i (length dem)); [|lia]. rewrite !andb_true_r in *.
    destruct (Nat.eqb_spec (fto ed) v) as [E|E], (Nat.eqb_spec i v) as [E'|E']; destruct (Nat.eqb_spec i (fto ed)) as [E''|E'']; try lia; try congruence.
    all: subst; repeat match goal with H : Some _ = Some _ |- _ => injection H as H end; rewrite ?E1 in *;
      repeat match goal with H : Some _ = Some _ |- _ => injection H as H end; try (rewrite Ed2 in E1; injection E1 as E1); try lia.
    rewrite E' in Edi. assert (dv = d) by congruence. lia.
  - intros e' E. rewrite nth_error_upd. destruct ((e =? e')%nat && (e <? length lo)%nat); auto.
Qed.
Lemma lower_edges_ok i l : incl l (outs g i) -> forall x, good x -> exists cp lo dem, lower_edges g i l x = Ok (cp, lo, dem) /\ same x (cp, lo, dem) /\ forall e, In e l -> nth_error lo e = Some 0.
Proof.
  induction l as [|e l IH]; intros Hl x Gx; cbn [lower_edges].
  - destruct x as [[cp lo] dem]. exists cp, lo, dem. split; auto. split; [now apply same_refl|easy].
  - destruct (lower_edge_ok i e x) as (cp & lo & dem & -> & S1 & Z1); auto; [apply Hl; left; auto|]. cbn [bind].
    destruct (IH (fun a Ha => Hl a (or_intror Ha)) (cp, lo, dem) (same_good _ _ S1)) as (cp2 & lo2 & dem2 & -> & S2 & Z2).
    exists cp2, lo2, dem2. split; auto. split; [eapply same_trans; eauto|]. intros e' [<-|H]; auto. cbn in S2. apply S2; auto.
Qed.
Lemma lower_nodes_ok ns : incl ns (order g) -> forall x, good x -> exists cp lo dem, lower_nodes g ns x = Ok (cp, lo, dem) /\ same x (cp, lo, dem) /\ forall i e, In i ns -> In e (outs g i) -> nth_error lo e = Some 0.
Proof.
  induction ns as [|i ns IH]; intros Hl x Gx; cbn [lower_nodes].
  - destruct x as [[cp lo] dem]. exists cp, lo, dem. split; auto. split; [now apply same_refl|easy].
  - destruct (lower_edges_ok i (outs g i) (incl_refl _) x Gx) as (cp & lo & dem & -> & S1 & Z1). cbn [bind].
    destruct (IH (fun a Ha => Hl a (or_intror Ha)) (cp, lo, dem) (same_good _ _ S1)) as (cp2 & lo2 & dem2 & -> & S2 & Z2).
    exists cp2, lo2, dem2. split; auto. split; [eapply same_trans; eauto|]. intros j e [<-|H] Ho; [|eauto]. cbn in S2. apply S2; auto.
Qed.
End Lower.

Lemma above_sum p es : forall f lo, length f = length es -> length lo = length es -> sum_over p es (above f lo) = sum_over p es f - sum_over p es lo.
Proof.
  unfold sum_over, above. induction es as [|x es IH]; intros f lo Lf Ll; destruct f as [|a f], lo as [|b lo]; try discriminate; auto.
  cbn in Lf, Ll. cbn [combine map fold_right fst snd]. rewrite IH by lia. destruct (p x); lia.
Qed.
Lemma above_nth f lo e : nth_error (above f lo) e = match nth_error f e, nth_error lo e with Some a, Some b => Some (a - b) | _, _ => None end.
Proof.
  unfold above. rewrite nth_error_map. revert lo e. induction f as [|a f IH]; intros [|b lo] [|e]; cbn; auto. now destruct (nth_error f e).
Qed.

(** C147: LowerBound_Circulation removes the lower bounds: the circulations of the graph it leaves behind are those of the
    graph before, less the lower bounds. *)
Theorem C147_lower : forall g cp lo dem,
  (forall i, In i (order g) -> (i < length dem)%nat) ->
  (forall e x, nth_error (edges g) e = Some x -> In (ffrom x) (order g) /\ In (fto x) (order g)) ->
  length cp = length (edges g) -> length lo = length (edges g) ->
  exists cp' lo' dem', LowerBound_Circulation g cp lo dem = Ok (cp', lo', dem') /\ lo' = no_flow g /\
    length cp' = length cp /\ length dem' = length dem /\
    forall f, length f = length (edges g) -> bounded_circulation g cp lo dem f <-> bounded_circulation g cp' lo' dem' (above f lo).
Proof.
  intros g cp lo dem Hi He Lc Ll. unfold LowerBound_Circulation.
  destruct (lower_nodes_ok g (length dem) Hi He (order g) (incl_refl _) (cp, lo, dem)) as (cp' & lo' & dem' & -> & (L1 & L2 & L3 & HC & HD & _) & HZ); [cbn; auto|].
  exists cp', lo', dem'. split; auto.
  assert (EZ : lo' = no_flow g).
  { apply nth_error_ext. intros e. unfold no_flow. destruct (Nat.lt_ge_cases e (length (edges g))) as [Le|Le].
    - destruct (nth_error_ex _ _ Le) as [x Ex]. destruct (He _ _ Ex) as [If _]. rewrite (HZ (ffrom x) e If) by (apply outs_in; eauto).
      symmetry. now apply nth_error_repeat.
    - rewrite !(proj2 (nth_error_None _ _)); auto; [rewrite repeat_length; lia|lia]. }
  split; auto. split; [lia|]. split; [lia|]. intros f Lf. unfold bounded_circulation.
  assert (LA : length (above f lo) = length (edges g)) by (unfold above; rewrite map_length, combine_length; lia).
  assert (Z0 : forall v, inflow g lo' v = 0 /\ outflow g lo' v = 0) by (intros v; rewrite EZ; unfold inflow, outflow, no_flow; now rewrite !sum_repeat).
  split; intros (_ & B & C); (split; [auto|split]).
  - intros e c l fl Ec El Ef. rewrite above_nth in Ef. destruct (nth_error f e) as [a|] eqn:Ea; [|discriminate]. destruct (nth_error lo e) as [b|] eqn:Eb; [|discriminate].
    injection Ef as <-. destruct (nth_error_ex cp e) as [c0 E0]; [apply nth_error_lt in Ec; lia|]. specialize (HC _ _ _ _ _ E0 Eb Ec El). specialize (B _ _ _ _ E0 Eb Ea).
    rewrite EZ in El. unfold no_flow in El. apply nth_error_In, repeat_spec in El. lia.
  - intros v d Iv Ed. destruct (nth_error_ex dem v) as [d0 E0]; [apply nth_error_lt in Ed; lia|]. specialize (HD _ _ _ E0 Ed). specialize (C _ _ Iv E0).
    unfold inflow, outflow in *. rewrite !above_sum by auto. destruct (Z0 v) as [Z1 Z2]. unfold inflow, outflow in Z1, Z2. lia.
  - intros e c l fl Ec El Ef. destruct (nth_error_ex cp' e) as [c' E']; [apply nth_error_lt in Ec; lia|]. destruct (nth_error_ex lo' e) as [l' F']; [apply nth_error_lt in Ec; lia|].
    specialize (HC _ _ _ _ _ Ec El E' F'). specialize (B e c' l' (fl - l) E' F'). rewrite above_nth, Ef, El in B. specialize (B eq_refl).
    rewrite EZ in F'. unfold no_flow in F'. apply nth_error_In, repeat_spec in F'. lia.
  - intros v d Iv Ed. destruct (nth_error_ex dem' v) as [d' E']; [apply nth_error_lt in Ed; lia|]. specialize (HD _ _ _ Ed E'). specialize (C _ _ Iv E').
    unfold inflow, outflow in *. rewrite !above_sum in C by auto. destruct (Z0 v) as [Z1 Z2]. lia.
Qed.
Print Assumptions C147_lower.

Example C147_example : LowerBound_Circulation g_circ [4; 2; 3] [1; 0; 2] [-5; 2; 3] = Ok ([3; 2; 1], [0; 0; 0], [-2; 1; 1]) /\
  bounded_circulation g_circ [4; 2; 3] [1; 0; 2] [-5; 2; 3] [3; 1; 2] /\ above [3; 1; 2] [1; 0; 2] = [2; 1; 0].
Proof.
  split; [reflexivity|]. split; [|reflexivity]. split; [reflexivity|]. split.
  - intros e c l fl E1 E2 E3. do 3 (destruct e as [|e]; [injection E1 as <-; injection E2 as <-; injection E3 as <-; lia|]). destruct e; discriminate E1.
  - intros v d Hv E. cbn in Hv. by_cases; subst; cbn in E; injection E as <-; reflexivity.
Qed.
