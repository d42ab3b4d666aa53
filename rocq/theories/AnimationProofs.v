(* Proofs about Animation.v *)
From Coq Require Import ZArith List Bool Sorted Permutation Lia.
From Coq Require Import ZifyBool ZifyNat.
From Verif Require Import Common OrderSpec OrderProofs ArraySort ArraySortProofs Heap HeapSpec HeapProofs HeapOpsProofs Animation AnimationSpec.
Import ListNotations.
Local Open Scope Z_scope.

Section P.
Context {V : Type}.
Implicit Types (fs : list (frame V)) (tr : track V) (e : list (event V)) (ev : list (nat * event V)).

(* ------------------------------------------------------------------ frames *)
Definition le_count (t : Z) fs : nat := length (filter (fun f => ftime f <=? t) fs).
Definition pos (seen : option Z) fs : nat := match seen with Some u => le_count u fs | None => O end.

Lemma in_order_cons f fs : in_order (f :: fs) -> in_order fs /\ forall g, In g fs -> ftime f <= ftime g.
Proof.
  unfold in_order. cbn. intros H. apply StronglySorted_inv in H as [H1 H2]. split; auto. intros g Hg.
  rewrite Forall_forall in H2. apply H2. now apply in_map.
Qed.
Lemma filter_none {A} (p : A -> bool) (l : list A) : (forall x, In x l -> p x = false) -> filter p l = [].
Proof. induction l; cbn; auto. intros H. rewrite H by auto. auto. Qed.
Lemma advance_all fs k t : in_order fs -> advance fs k t = ((k + le_count t fs)%nat, filter (fun f => ftime f <=? t) fs).
Proof.
  revert k. induction fs as [|f fs IH]; intros k H; cbn.
  - f_equal. unfold le_count. cbn. lia.
  - apply in_order_cons in H as [H1 H2]. unfold le_count in *. cbn. destruct (ftime f <=? t) eqn:E.
    + rewrite (IH (S k) H1). cbn. f_equal. lia.
    + rewrite filter_none. { cbn. f_equal. lia. }
      intros x Hx. specialize (H2 x Hx). lia.
Qed.
Lemma skip_le fs u : in_order fs -> skipn (le_count u fs) fs = filter (fun f => u <? ftime f) fs.
Proof.
  induction fs as [|f fs IH]; intros H; [auto|]. apply in_order_cons in H as [H1 H2]. unfold le_count in *. cbn.
  destruct (Z.leb_spec (ftime f) u).
  - cbn. rewrite (IH H1). now replace (u <? ftime f) with false by lia.
  - rewrite (filter_none (fun f => ftime f <=? u) fs). 2:{ intros x Hx. specialize (H2 x Hx). lia. } cbn.
    replace (u <? ftime f) with true by lia. f_equal. symmetry.
    clear IH H1. induction fs as [|g fs IH]; [auto|]. cbn. replace (u <? ftime g) with true by (specialize (H2 g (or_introl eq_refl)); lia).
    f_equal. apply IH. intros x Hx. apply H2. now right.
Qed.
Lemma in_order_filter (p : frame V -> bool) fs : in_order fs -> in_order (filter p fs).
Proof.
  induction fs as [|f fs IH]; intros H; auto. apply in_order_cons in H as [H1 H2]. cbn. destruct (p f); auto.
  unfold in_order. cbn. constructor. { apply IH; auto. } rewrite Forall_forall. intros z Hz. apply in_map_iff in Hz as (g & <- & Hg).
  apply filter_In in Hg. apply H2, Hg.
Qed.
Lemma filter_filter {A} (p q : A -> bool) (l : list A) : filter p (filter q l) = filter (fun x => q x && p x) l.
Proof. induction l as [|x l IH]; cbn; auto. destruct (q x); cbn; [destruct (p x)|]; now rewrite IH. Qed.
Lemma count_split u t fs : u <= t -> (le_count u fs + length (filter (due (Some u) t) fs) = le_count t fs)%nat.
Proof.
  intros H. unfold le_count, due. induction fs as [|f fs IH]; cbn; auto.
  destruct (Z.leb_spec (ftime f) u), (Z.leb_spec (ftime f) t), (Z.ltb_spec u (ftime f)); cbn; lia.
Qed.
Lemma advance_seen fs seen t : in_order fs -> (forall u, seen = Some u -> u <= t) ->
  advance (skipn (pos seen fs) fs) (pos seen fs) t = (le_count t fs, filter (due seen t) fs).
Proof.
  intros H Hs. destruct seen as [u|]; cbn [pos].
  - rewrite skip_le by auto. rewrite advance_all by now apply in_order_filter. unfold le_count at 2.
    rewrite filter_filter. specialize (Hs u eq_refl).
    rewrite (filter_ext (fun x => (u <? ftime x) && (ftime x <=? t)) (due (Some u) t)).
    2:{ intros f. unfold due. now rewrite andb_comm. }
    f_equal. now apply count_split.
  - cbn. rewrite advance_all by auto. f_equal. unfold due. apply filter_ext. intros f. now rewrite andb_true_r.
Qed.

(* ------------------------------------------------------------------ the queue *)
Lemma cmp_first_tp : total_preorder cmp_first.
Proof. constructor; unfold cmp_first; intros [a x] [b y]; try intros [c z]; cbn;
    repeat match goal with |- context [?a <? ?b] => destruct (Z.ltb_spec a b) end; lia. Qed.
Lemma add_all_ok (p : list (frame V)) : forall q h, heap_ordered cmp_first q ->
  exists q', add_all p q h = Ok (q', (h + length p)%nat, map (fun x => Begin (fvalue (fst x)) (snd x)) (combine p (seq h (length p)))) /\
    heap_ordered cmp_first q' /\ Permutation q' (map (fun x => (fdata (fst x), snd x)) (combine p (seq h (length p))) ++ q).
Proof.
  induction p as [|f p IH]; intros q h Hq; cbn.
  - rewrite Nat.add_0_r. eauto.
  - destruct (heap_insert_ok cmp_first cmp_first_tp (0, O) q (fdata f, h) Hq) as (a & E & Ha & P). rewrite E. cbn.
    destruct (IH a (S h) Ha) as (q' & E' & H' & P'). rewrite E'. cbn. exists q'.
    replace (S (h + length p)) with (h + S (length p))%nat by lia. split; [reflexivity|]. split; auto.
    rewrite P', P. symmetry. apply Permutation_middle.
Qed.
(* what was popped, and that the rest has an element beyond t or is empty *)
Lemma pop_all_ok fuel : forall q t, heap_ordered cmp_first q -> (length q < fuel)%nat ->
  exists q' out, @pop_all V fuel q t = Ok (q', map (fun x => Finish (snd x)) out) /\ heap_ordered cmp_first q' /\ Permutation q (out ++ q') /\
    match t with
    | None => q' = []
    | Some t => Forall (fun x => fst x <= t) out /\ (q' = [] \/ exists x, In x q' /\ t < fst x)
    end.
Proof.
  induction fuel as [|fuel IH]; intros q t Hq Hl; [lia|]. cbn [pop_all]. destruct q as [|top q0] eqn:Eq.
  - exists [], []. split; [reflexivity|]. repeat split; auto. destruct t; auto.
  - set (c := match t with Some t => fst top <=? t | None => true end). destruct c eqn:Ec; subst c.
    + destruct (heap_Pop_ok cmp_first cmp_first_tp (0, O) (top :: q0) Hq ltac:(discriminate)) as (a & r & E & Ha & P & M).
      rewrite E. cbn.
      assert (La : (length a < fuel)%nat) by (apply Permutation_length in P; cbn in P, Hl; lia).
      destruct (IH a t Ha La) as (q' & out & E' & H' & P' & C'). rewrite E'. cbn.
      exists q', (r :: out). split; [reflexivity|]. split; auto. split.
      * rewrite <- P. cbn. now rewrite P'.
      * destruct t as [t|]; auto. destruct C' as [C1 C2]. split; auto. constructor; auto.
        destruct (root_is_max cmp_first cmp_first_tp (0, O) (top :: q0) Hq ltac:(discriminate)) as (r0 & R0 & M0). cbn in R0. inversion R0; subst r0.
        assert (I : In r (top :: q0)) by (rewrite <- P; now left).
        destruct M0 as [_ M0]. specialize (M0 r I). unfold cmp_first in M0. destruct top as [a1 b1], r as [a2 b2]. cbn in *.
        destruct (Z.ltb_spec a2 a1), (Z.ltb_spec a1 a2); lia.
    + exists (top :: q0), []. cbn. split; [reflexivity|]. repeat split; auto.
      destruct t as [t|]; [|discriminate]. split; auto. right. exists top. split; [now left|]. lia.
Qed.

(* ------------------------------------------------------------------ one track *)
Definition total_interp (f : interp V) : Prop := forall fs cur n d init, (cur < length fs)%nat -> exists v, f fs cur n d init = Ok v.
Definition track_inv (seen : option Z) tr : Prop :=
  match tr with
  | Discrete fs cur => in_order fs /\ cur = pos seen fs
  | Smooth fs f _ cur => in_order fs /\ cur = pos seen fs /\ total_interp f
  | Interval fs cur q => in_order fs /\ cur = pos seen fs /\ heap_ordered cmp_first q
  end.
Lemma track_interpolate_ok seen tr t h : track_inv seen tr -> (forall u, seen = Some u -> u <= t) ->
  exists tr' h' e, track_interpolate t tr h = Ok (tr', h', e) /\ track_inv (Some t) tr' /\ (h <= h')%nat.
Proof.
  intros I Hs. destruct tr as [fs cur|fs f init cur|fs cur q]; cbn [track_inv] in I.
  - destruct I as [I ->]. cbn. rewrite advance_seen by auto. do 3 eexists. split; [reflexivity|]. cbn. auto.
  - destruct I as (I & -> & T). cbn [track_interpolate]. rewrite advance_seen by auto.
    destruct (Nat.leb_spec (length fs) (le_count t fs)).
    + destruct (Nat.ltb_spec 1 (length fs)).
      * destruct (T fs (length fs - 1)%nat 1 1 init ltac:(lia)) as [v Ev]. rewrite Ev. cbn. do 3 eexists. split; [reflexivity|]. cbn. auto.
      * do 3 eexists. split; [reflexivity|]. cbn. auto.
    + assert (G : exists hold, (if (le_count t fs =? 0)%nat then Ok 0 else do g <- get fs (le_count t fs - 1); Ok (ftime g)) = Ok hold).
      { destruct (Nat.eqb_spec (le_count t fs) 0); [eauto|]. unfold get.
        destruct (nth_error fs (le_count t fs - 1)) eqn:E; [cbn; eauto|]. apply nth_error_None in E. lia. }
      destruct G as [hold Gh]. rewrite Gh. cbn [bind]. unfold get at 1.
      destruct (nth_error fs (le_count t fs)) eqn:E; [|apply nth_error_None in E; lia]. cbn [bind].
      destruct (T fs (le_count t fs) (t - hold) (ftime f0 - hold) init H) as [v Ev]. rewrite Ev. cbn. do 3 eexists. split; [reflexivity|]. cbn. auto.
  - destruct I as (I & -> & Q). cbn [track_interpolate]. rewrite advance_seen by auto.
    destruct (add_all_ok (filter (due seen t) fs) q h Q) as (q' & E & Q' & _). rewrite E. cbn [bind].
    destruct (pop_all_ok (S (length q')) q' (Some t) Q' ltac:(lia)) as (q'' & out & E' & Q'' & _). rewrite E'. cbn [bind].
    do 3 eexists. split; [reflexivity|]. cbn. split; auto. lia.
Qed.
Lemma track_reset_ok seen tr : track_inv seen tr -> exists tr' e, track_reset tr = Ok (tr', e) /\ track_inv None tr'.
Proof.
  destruct tr as [fs cur|fs f init cur|fs cur q]; cbn; intros I.
  - do 2 eexists. split; [reflexivity|]. cbn. tauto.
  - do 2 eexists. split; [reflexivity|]. cbn. tauto.
  - destruct I as (I & _ & Q). destruct (pop_all_ok (S (length q)) q None Q ltac:(lia)) as (q'' & out & E' & Q'' & _).
    cbn in E'. rewrite E'. cbn. do 2 eexists. split; [reflexivity|]. cbn. auto.
Qed.

(* a track reacts to actions; handles run from h to h' *)
Inductive track_acts : nat -> track V -> list action -> list (event V) -> track V -> nat -> Prop :=
| ta_nil h h' tr : (h <= h')%nat -> track_acts h tr [] [] tr h'
| ta_show h h0 h1 h' t tr tr1 tr2 e e' acts : (h <= h0)%nat -> track_interpolate t tr h0 = Ok (tr1, h1, e) -> (h0 <= h1)%nat ->
    track_acts h1 tr1 acts e' tr2 h' -> track_acts h tr (Show t :: acts) (e ++ e') tr2 h'
| ta_rewind h h' tr tr1 tr2 e e' acts : track_reset tr = Ok (tr1, e) ->
    track_acts h tr1 acts e' tr2 h' -> track_acts h tr (Rewind :: acts) (e ++ e') tr2 h'.
Lemma track_acts_weaken h0 tr a e tr' h' : track_acts h0 tr a e tr' h' -> forall h, (h <= h0)%nat -> track_acts h tr a e tr' h'.
Proof.
  induction 1; intros hh L.
  - constructor. lia.
  - eapply ta_show; [|eassumption|eassumption|eassumption]; lia.
  - eapply ta_rewind; eauto.
Qed.
Lemma track_acts_app h tr a e tr' h' a' e' tr'' h'' :
  track_acts h tr a e tr' h' -> track_acts h' tr' a' e' tr'' h'' -> track_acts h tr (a ++ a') (e ++ e') tr'' h''.
Proof.
  intros H. revert a' e' tr'' h''. induction H; intros a' e0 tr'' h'' K; cbn.
  - eapply track_acts_weaken; eauto.
  - rewrite <- app_assoc. eapply ta_show; eauto.
  - rewrite <- app_assoc. eapply ta_rewind; eauto.
Qed.

(* ------------------------------------------------------------------ all tracks *)
Definition tracks_acts (h : nat) (l : list (track V)) (a : list action) ev (l' : list (track V)) (h' : nat) : Prop :=
  length l' = length l /\ (h <= h')%nat /\
  forall j tr, nth_error l j = Some tr -> exists tr', nth_error l' j = Some tr' /\ track_acts h tr a (events_of j ev) tr' h'.
Lemma events_of_app j ev ev' : events_of j (ev ++ ev') = events_of j ev ++ events_of j ev'.
Proof. unfold events_of. now rewrite filter_app, map_app. Qed.
Lemma tracks_acts_app h l a ev l' h' a' ev' l'' h'' :
  tracks_acts h l a ev l' h' -> tracks_acts h' l' a' ev' l'' h'' -> tracks_acts h l (a ++ a') (ev ++ ev') l'' h''.
Proof.
  intros (L & H & T) (L' & H' & T'). split; [congruence|]. split; [lia|]. intros j tr Hj.
  destruct (T j tr Hj) as (tr1 & H1 & A1). destruct (T' j tr1 H1) as (tr2 & H2 & A2).
  exists tr2. split; auto. rewrite events_of_app. eapply track_acts_app; eauto.
Qed.
Lemma events_of_pair_same i (e : list (event V)) : events_of i (map (pair i) e) = e.
Proof. unfold events_of. induction e as [|x e IH]; cbn; auto. rewrite Nat.eqb_refl. cbn. now rewrite IH. Qed.
Lemma events_of_pair_other i j (e : list (event V)) : i <> j -> events_of j (map (pair i) e) = [].
Proof. intros H. unfold events_of. induction e as [|x e IH]; cbn; auto. replace (Nat.eqb i j) with false by lia. auto. Qed.

Lemma interpolate_all_ok seen t l : Forall (track_inv seen) l -> (forall u, seen = Some u -> u <= t) ->
  forall i h, exists l' h' ev, interpolate_all i l t h = Ok (l', h', ev) /\ Forall (track_inv (Some t)) l' /\ length l' = length l /\ (h <= h')%nat /\
    (forall j, (j < i)%nat -> events_of j ev = []) /\
    forall j tr, nth_error l j = Some tr -> exists tr' h0 h1, nth_error l' j = Some tr' /\ (h <= h0)%nat /\ (h0 <= h1 <= h')%nat /\
      track_interpolate t tr h0 = Ok (tr', h1, events_of (i + j) ev).
Proof.
  intros HF Hs. induction HF as [|tr l H HF IH]; intros i h; cbn.
  - do 3 eexists. split; [reflexivity|]. repeat split; auto. intros [|j] tr Hj; discriminate.
  - destruct (track_interpolate_ok seen tr t h H Hs) as (tr' & h1 & e & E & I1 & L1). rewrite E. cbn [bind].
    destruct (IH (S i) h1) as (l' & h' & ev & E' & I' & L' & M' & Z' & T'). rewrite E'. cbn [bind].
    do 3 eexists. split; [reflexivity|]. split; [constructor; auto|]. split; [cbn; lia|]. split; [lia|]. split.
    + intros j Hj. rewrite events_of_app, events_of_pair_other by lia. cbn. apply Z'. lia.
    + intros [|j] tr0 Hj; cbn in Hj.
      * inversion Hj; subst tr0. exists tr', h, h1. cbn. repeat split; auto. rewrite Nat.add_0_r.
        rewrite events_of_app, events_of_pair_same, Z' by lia. now rewrite app_nil_r.
      * destruct (T' j tr0 Hj) as (tr1 & h2 & h3 & A & B & C & D). exists tr1, h2, h3. cbn. split; [auto|]. split; [lia|]. split; [lia|].
        rewrite D. rewrite events_of_app, events_of_pair_other by lia. cbn. now replace (i + S j)%nat with (S (i + j)) by lia.
Qed.
Lemma reset_all_ok seen l : Forall (track_inv seen) l ->
  forall i, exists l' ev, reset_all i l = Ok (l', ev) /\ Forall (track_inv None) l' /\ length l' = length l /\
    (forall j, (j < i)%nat -> events_of j ev = []) /\
    forall j tr, nth_error l j = Some tr -> exists tr', nth_error l' j = Some tr' /\ track_reset tr = Ok (tr', events_of (i + j) ev).
Proof.
  intros HF. induction HF as [|tr l H HF IH]; intros i; cbn.
  - do 2 eexists. split; [reflexivity|]. repeat split; auto. intros [|j] tr Hj; discriminate.
  - destruct (track_reset_ok seen tr H) as (tr' & e & E & I1). rewrite E. cbn [bind].
    destruct (IH (S i)) as (l' & ev & E' & I' & L' & Z' & T'). rewrite E'. cbn [bind].
    do 2 eexists. split; [reflexivity|]. split; [constructor; auto|]. split; [cbn; lia|]. split.
    + intros j Hj. rewrite events_of_app, events_of_pair_other by lia. cbn. apply Z'. lia.
    + intros [|j] tr0 Hj; cbn in Hj.
      * inversion Hj; subst tr0. exists tr'. cbn. split; auto. rewrite Nat.add_0_r.
        rewrite events_of_app, events_of_pair_same, Z' by lia. now rewrite app_nil_r.
      * destruct (T' j tr0 Hj) as (tr1 & A & D). exists tr1. cbn. split; [auto|].
        rewrite D. rewrite events_of_app, events_of_pair_other by lia. cbn. now replace (i + S j)%nat with (S (i + j)) by lia.
Qed.
Lemma show_all seen t l h : Forall (track_inv seen) l -> (forall u, seen = Some u -> u <= t) ->
  exists l' h' ev, interpolate_all 0 l t h = Ok (l', h', ev) /\ Forall (track_inv (Some t)) l' /\ tracks_acts h l [Show t] ev l' h'.
Proof.
  intros HF Hs. destruct (interpolate_all_ok seen t l HF Hs 0 h) as (l' & h' & ev & E & I & L & M & _ & T).
  exists l', h', ev. split; auto. split; auto. split; auto. split; auto. intros j tr Hj.
  destruct (T j tr Hj) as (tr' & h0 & h1 & A & B & C & D). exists tr'. split; auto.
  rewrite <- (app_nil_r (events_of j ev)). cbn in D. eapply ta_show; eauto; try lia. constructor. lia.
Qed.
Lemma rewind_all seen l h : Forall (track_inv seen) l ->
  exists l' ev, reset_all 0 l = Ok (l', ev) /\ Forall (track_inv None) l' /\ tracks_acts h l [Rewind] ev l' h.
Proof.
  intros HF. destruct (reset_all_ok seen l HF 0) as (l' & ev & E & I & L & _ & T).
  exists l', ev. split; auto. split; auto. split; auto. split; auto. intros j tr Hj.
  destruct (T j tr Hj) as (tr' & A & D). exists tr'. split; auto.
  rewrite <- (app_nil_r (events_of j ev)). cbn in D. eapply ta_rewind; eauto. constructor. lia.
Qed.

(* ------------------------------------------------------------------ calls *)
(* what is known between calls *)
Definition inv (s : state V) : Prop := exists seen, Forall (track_inv seen) (tracks s) /\ (forall u, seen = Some u -> u <= time s).
Lemma interpolate_ok len loop s d : inv s -> 0 <= d -> loops_inside len loop ->
  exists r s' ev, interpolate 2 len loop s d = Ok (r, s', ev) /\ inv s' /\ time s' = fst (clock len loop (time s) (Interpolate d)) /\
    tracks_acts (next s) (tracks s) (snd (clock len loop (time s) (Interpolate d))) ev (tracks s') (next s') /\
    r = ((0 <=? loop) || (time s' <? len)).
Proof.
  intros (seen & F & Hs) Hd HL. cbn [clock]. cbn [interpolate].
  destruct ((len <=? time s) && (loop <? 0)) eqn:E0.
  - exists false, s, []. split; [reflexivity|]. split; [exists seen; auto|]. split; auto. split.
    + split; auto. split; auto. intros j tr Hj. exists tr. split; auto. unfold events_of. cbn. constructor. lia.
    + lia.
  - destruct (show_all seen (time s + d) (tracks s) (next s) F) as (l1 & h1 & ev1 & E1 & I1 & T1).
    { intros u Hu. specialize (Hs u Hu). lia. }
    rewrite E1. cbn [bind]. destruct ((len <=? time s + d) && (0 <=? loop)) eqn:E2.
    + assert (Hloop : loop < len) by (apply HL; lia).
      destruct (rewind_all _ l1 h1 I1) as (l2 & ev2 & E3 & I2 & T2). rewrite E3. cbn [bind].
      replace (len - loop =? 0) with false by lia. cbn [time tracks next].
      rewrite Z.rem_mod_nonneg by lia. set (m := (time s + d - len) mod (len - loop)).
      assert (Hm : 0 <= m < len - loop) by (apply Z.mod_pos_bound; lia).
      replace ((len <=? m) && (loop <? 0)) with false by lia.
      destruct (show_all None (m + loop) l2 h1 I2) as (l3 & h3 & ev3 & E4 & I3 & T3). { intros u Hu. discriminate. }
      rewrite E4. cbn [bind]. replace ((len <=? m + loop) && (0 <=? loop)) with false by lia. cbn [bind].
      do 3 eexists. split; [reflexivity|]. cbn [time tracks next fst snd].
      replace (loop + m) with (m + loop) by lia. split.
      { exists (Some (m + loop)). split; auto. intros u Hu. cbn. inversion Hu. lia. }
      split; auto. split.
      * change [Show (time s + d); Rewind; Show (m + loop)] with ([Show (time s + d)] ++ [Rewind] ++ [Show (m + loop)]).
        eapply tracks_acts_app; eauto. eapply tracks_acts_app; eauto.
      * lia.
    + cbn [bind]. do 3 eexists. split; [reflexivity|]. cbn [time tracks next fst snd]. split.
      { exists (Some (time s + d)). split; auto. intros u Hu. cbn. inversion Hu. lia. }
      split; auto. split; auto. lia.
Qed.
Lemma step_ok len loop s o : inv s -> (forall d, o = Interpolate d -> 0 <= d) -> loops_inside len loop ->
  exists s' ev, step len loop s o = Ok (s', ev) /\ inv s' /\ time s' = fst (clock len loop (time s) o) /\
    tracks_acts (next s) (tracks s) (snd (clock len loop (time s) o)) ev (tracks s') (next s').
Proof.
  intros I Hd HL. destruct o as [d|t|].
  - destruct (interpolate_ok len loop s d I (Hd d eq_refl) HL) as (r & s' & ev & E & I' & T & A & _).
    exists s', ev. cbn [step]. rewrite E. cbn. auto.
  - destruct I as (seen & F & Hs). cbn [step set_time clock]. unfold set_time. destruct (Z.ltb_spec t (time s)).
    + destruct (rewind_all _ _ (next s) F) as (l2 & ev2 & E3 & I2 & T2). unfold reset. rewrite E3. cbn.
      do 2 eexists. split; [reflexivity|]. split; [exists None; split; auto; intros; discriminate|]. split; auto.
    + cbn. do 2 eexists. split; [reflexivity|]. split; [exists seen; split; auto; intros u Hu; specialize (Hs u Hu); cbn; lia|]. split; auto.
      split; auto. split; auto. intros j tr Hj. exists tr. split; auto. unfold events_of. cbn. constructor. lia.
  - destruct I as (seen & F & Hs). cbn [step clock]. unfold reset.
    destruct (rewind_all _ _ (next s) F) as (l2 & ev2 & E3 & I2 & T2). rewrite E3. cbn.
    do 2 eexists. split; [reflexivity|]. split; [exists None; split; auto; intros; discriminate|]. split; auto.
Qed.
Lemma run_ok len loop ops : loops_inside len loop -> forall s, inv s -> forward ops ->
  exists s' ev, run len loop s ops = Ok (s', ev) /\ inv s' /\ time s' = fst (clocks len loop (time s) ops) /\
    tracks_acts (next s) (tracks s) (snd (clocks len loop (time s) ops)) ev (tracks s') (next s').
Proof.
  intros HL. induction ops as [|o ops IH]; intros s I HF; cbn.
  - exists s, []. split; [reflexivity|]. split; auto. split; auto. split; auto. split; auto.
    intros j tr Hj. exists tr. split; auto. unfold events_of. cbn. constructor. lia.
  - destruct (step_ok len loop s o I) as (s1 & ev1 & E1 & I1 & T1 & A1); auto.
    { intros d ->. apply HF. now left. }
    destruct (IH s1 I1) as (s2 & ev2 & E2 & I2 & T2 & A2). { intros d Hd. apply HF. now right. }
    rewrite E1. cbn [bind]. rewrite E2. cbn [bind]. exists s2, (ev1 ++ ev2). split; [reflexivity|]. split; auto.
    rewrite T1 in T2, A2. destruct (clock len loop (time s) o) as [t a]. cbn [fst snd] in *.
    destruct (clocks len loop t ops) as [t' a']. cbn [fst snd] in *. split; auto. eapply tracks_acts_app; eauto.
Qed.

(* ------------------------------------------------------------------ the actions move forward *)
Fixpoint monotone (seen : option Z) (acts : list action) : Prop :=
  match acts with
  | [] => True
  | Show t :: acts => (forall u, seen = Some u -> u <= t) /\ monotone (Some t) acts
  | Rewind :: acts => monotone None acts
  end.
Lemma monotone_weaken acts : forall s1 s2, (forall u, s1 = Some u -> exists v, s2 = Some v /\ u <= v) -> monotone s2 acts -> monotone s1 acts.
Proof.
  destruct acts as [|[t|] acts]; cbn; auto. intros s1 s2 H [H1 H2]. split; auto. intros u Hu.
  destruct (H u Hu) as (v & Hv & Hl). specialize (H1 v Hv). lia.
Qed.
Lemma clocks_monotone len loop ops : loops_inside len loop -> forward ops -> forall now, monotone (Some now) (snd (clocks len loop now ops)).
Proof.
  intros HL. induction ops as [|o ops IH]; intros HF now; cbn; auto.
  assert (HF' : forward ops) by (intros d Hd; apply HF; now right).
  destruct o as [d|t|]; cbn [clock].
  - assert (Hd : 0 <= d) by (apply HF; now left).
    destruct ((len <=? now) && (loop <? 0)).
    + specialize (IH HF' now). destruct (clocks len loop now ops). exact IH.
    + destruct ((len <=? now + d) && (0 <=? loop)).
      * set (t := loop + (now + d - len) mod (len - loop)). specialize (IH HF' t). destruct (clocks len loop t ops). cbn in *.
        split. { intros u Hu. inversion Hu. lia. } split; auto. intros u Hu. discriminate.
      * specialize (IH HF' (now + d)). destruct (clocks len loop (now + d) ops). cbn in *. split; auto. intros u Hu. inversion Hu. lia.
  - specialize (IH HF' t). destruct (clocks len loop t ops). destruct (Z.ltb_spec t now); cbn in *.
    + eapply monotone_weaken; [|exact IH]. intros u Hu. discriminate.
    + eapply monotone_weaken; [|exact IH]. intros u Hu. inversion Hu; subst. eauto.
  - specialize (IH HF' 0). destruct (clocks len loop 0 ops). cbn in *. eapply monotone_weaken; [|exact IH]. intros u Hu. discriminate.
Qed.

(* ------------------------------------------------------------------ discrete tracks *)
Lemma discrete_acts fs : in_order fs -> forall acts seen h e tr' h', monotone seen acts ->
  track_acts h (Discrete fs (pos seen fs)) acts e tr' h' -> e = map (fun f => Call (fvalue f)) (play fs seen acts).
Proof.
  intros O. induction acts as [|[t|] acts IH]; intros seen h e tr' h' M H; inversion H; subst; clear H; cbn; auto.
  - match goal with E : track_interpolate _ _ _ = _ |- _ => rename E into E4 end.
    match goal with K : track_acts _ _ _ _ _ _ |- _ => rename K into E8 end.
    destruct M as [M1 M2]. rewrite map_app. cbn in E4. rewrite advance_seen in E4 by auto. inversion E4; subst. f_equal.
    eapply IH; [exact M2|]. exact E8.
  - match goal with E : track_reset _ = _ |- _ => rename E into E2 end.
    match goal with K : track_acts _ _ _ _ _ _ |- _ => rename K into E6 end.
    cbn in E2. inversion E2; subst. cbn. eapply IH; [exact M|]. exact E6.
Qed.
(* ------------------------------------------------------------------ smooth tracks *)
Definition shown (fs : list (frame V)) (f : interp V) (init : V) (t : Z) : list (event V) :=
  match track_interpolate t (Smooth fs f init (le_count t fs)) 0 with Ok (_, _, e) => e | _ => [] end.
Fixpoint shows (fs : list (frame V)) (f : interp V) (init : V) (acts : list action) : list (event V) :=
  match acts with [] => [] | Show t :: acts => shown fs f init t ++ shows fs f init acts | Rewind :: acts => shows fs f init acts end.
Lemma smooth_acts fs f init : in_order fs -> forall acts seen h e tr' h', monotone seen acts ->
  track_acts h (Smooth fs f init (pos seen fs)) acts e tr' h' -> e = shows fs f init acts.
Proof.
  intros O. induction acts as [|[t|] acts IH]; intros seen h e tr' h' M H; inversion H; subst; clear H; cbn [shows]; auto.
  - match goal with E : track_interpolate _ _ _ = _ |- _ => rename E into E4 end.
    match goal with K : track_acts _ _ _ _ _ _ |- _ => rename K into E8 end.
    destruct M as [M1 M2]. cbn [track_interpolate] in E4. rewrite advance_seen in E4 by auto.
    assert (K : tr1 = Smooth fs f init (le_count t fs) /\ e0 = shown fs f init t).
    { unfold shown. cbn [track_interpolate].
      pose proof (advance_seen fs (Some t) t O ltac:(intros u Hu; inversion Hu; lia)) as E. cbn [pos] in E. rewrite E. clear E.
      destruct (length fs <=? le_count t fs)%nat.
      - destruct (1 <? length fs)%nat.
        + destruct (f fs (length fs - 1)%nat 1 1 init); cbn in E4; inversion E4; subst; auto.
        + inversion E4; subst; auto.
      - destruct (if (le_count t fs =? 0)%nat then Ok 0 else do g <- get fs (le_count t fs - 1); Ok (ftime g)) as [hold| |]; cbn [bind] in E4 |- *; try discriminate.
        destruct (get fs (le_count t fs)) as [g| |]; cbn [bind] in E4 |- *; try discriminate.
        destruct (f fs (le_count t fs) (t - hold) (ftime g - hold) init); cbn in E4; inversion E4; subst; auto. }
    destruct K as [-> ->]. f_equal. eapply IH; [exact M2|]. exact E8.
  - match goal with E : track_reset _ = _ |- _ => rename E into E2 end.
    match goal with K : track_acts _ _ _ _ _ _ |- _ => rename K into E6 end.
    cbn in E2. inversion E2; subst. cbn. eapply IH; [exact M|]. exact E6.
Qed.
End P.
