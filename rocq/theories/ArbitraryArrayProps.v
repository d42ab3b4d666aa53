(* C194: arrays whose elements have a size chosen at run time. *)
From Coq Require Import List Arith ZArith Lia Bool.
From Verif Require Import Common ArbitraryArray.
Import ListNotations.

(* --- specification: the list of elements, each a list of bytes --- *)
Notation elem := (list (option Z)).
Definition elems (l : arb) : nat -> elem := fun i => firstn (el l) (skipn (i * el l) (bytes l)).
Definition view (s : arb) : list elem := map (elems s) (seq 0 (len s)).
(** the element number i of n elements of e bytes that lie one after another *)
Fixpoint chunks (n e : nat) (src : list (option Z)) : list elem :=
  match n with 0 => [] | S n => firstn e src :: chunks n e (skipn e src) end.
(** cut to e bytes, or filled up with zeros *)
Definition resize (e : nat) (x : elem) : elem := firstn e x ++ repeat (Some 0%Z) (e - length x).
Fixpoint remove_nth {A} (l : list A) (i : nat) : list A :=
  match l, i with [], _ => [] | _ :: t, 0 => t | x :: t, S i => x :: remove_nth t i end.
(** what an operation does to the list of elements; bytes that are not written may be anything *)
Definition means (o : op) (e : nat) (v v' : list elem) (e' : nat) : Prop :=
  match o with
  | OpAdd item => e' = e /\ exists x, v' = v ++ [x] /\ length x = e /\ firstn (length item) x = firstn e item
  | OpRemove i => e' = e /\ v' = remove_nth v i
  | OpRemoveLast => e' = e /\ v' = removelast v
  | OpData src ne n => e' = ne /\ v' = chunks n ne src
  | OpElement ne => e' = ne /\ v' = map (resize ne) v
  | OpClear => e' = e /\ v' = []
  | OpLength n => e' = e /\ length v' = n /\ firstn (length v) v' = firstn n v
  | OpCopy | OpAssign _ => e' = e /\ v' = v
  end.
(** elements of a positive size, and a memory that is a whole number of elements *)
Definition even (s : arb) : Prop := 0 < el s /\ exists k, cap s = k * el s /\ len s <= k.
(** calls that respect the bounds; the last condition of OpData is the one that is missing in the code *)
Definition allowed (s : arb) (o : op) : Prop :=
  match o with
  | OpAdd _ | OpClear | OpLength _ | OpCopy | OpAssign _ => True
  | OpRemove i => i < len s
  | OpRemoveLast => 0 < len s
  | OpData src e n => 0 < e /\ n * e <= length src /\ (cap s < n * e \/ exists k, cap s = k * e)
  | OpElement e => 0 < e
  end.

(* --- lemmas --- *)
Lemma nth_error_ext' {A} (l l' : list A) : (forall i, nth_error l i = nth_error l' i) -> l = l'.
Proof.
  revert l'. induction l as [|a l IH]; intros [|b l'] H; [reflexivity| | |].
  - specialize (H 0). discriminate.
  - specialize (H 0). discriminate.
  - pose proof (H 0) as E. injection E as ->. f_equal. apply IH. intros i. exact (H (S i)).
Qed.
Lemma nth_firstn {A} (l : list A) n i : nth_error (firstn n l) i = if i <? n then nth_error l i else None.
Proof.
  revert l i. induction n as [|n IH]; intros l i; [destruct i; reflexivity|].
  destruct l as [|a l]; cbn [firstn].
  - destruct i; cbn [nth_error]; destruct (_ <? _); reflexivity.
  - destruct i as [|i]; cbn [nth_error]; [reflexivity|]. rewrite IH. reflexivity.
Qed.
Lemma nth_skipn {A} (l : list A) n i : nth_error (skipn n l) i = nth_error l (n + i).
Proof. revert l. induction n as [|n IH]; intros [|a l]; cbn [skipn nth_error Nat.add]; try reflexivity; [destruct i; reflexivity|apply IH]. Qed.
Lemma nth_app {A} (l l' : list A) i : nth_error (l ++ l') i = if i <? length l then nth_error l i else nth_error l' (i - length l).
Proof. destruct (Nat.ltb_spec i (length l)); [now apply nth_error_app1|now apply nth_error_app2]. Qed.
Lemma nth_repeat {A} (a : A) n i : nth_error (repeat a n) i = if i <? n then Some a else None.
Proof. revert i. induction n as [|n IH]; intros [|i]; cbn [repeat nth_error]; try reflexivity. rewrite IH. reflexivity. Qed.

Lemma copy_to_ok d o src : o + length src <= length d ->
  exists d', copy_to d o src = Ok d' /\ length d' = length d /\
    forall i, nth_error d' i = if (o <=? i) && (i <? o + length src) then nth_error src (i - o) else nth_error d i.
Proof.
  intros H. unfold copy_to. rewrite (proj2 (Nat.leb_le _ _) H). eexists. split; [reflexivity|]. split.
  - rewrite !app_length, firstn_length, skipn_length. lia.
  - intros i. rewrite nth_app, nth_app, firstn_length, nth_firstn, nth_skipn.
    destruct (Nat.ltb_spec i (min o (length d))).
    + destruct (Nat.leb_spec o i); [lia|]. cbn [andb]. destruct (Nat.ltb_spec i o); [reflexivity|lia].
    + destruct (Nat.leb_spec o i); [|lia]. cbn [andb]. replace (min o (length d)) with o by lia.
      destruct (Nat.ltb_spec (i - o) (length src)); destruct (Nat.ltb_spec i (o + length src)); try lia; [reflexivity|].
      f_equal. lia.
Qed.
Lemma copy_from_ok d o n : o + n <= length d -> exists t, copy_from d o n = Ok t /\ length t = n /\ forall i, nth_error t i = if i <? n then nth_error d (o + i) else None.
Proof.
  intros H. unfold copy_from. rewrite (proj2 (Nat.leb_le _ _) H). eexists. split; [reflexivity|]. split.
  - rewrite firstn_length, skipn_length. lia.
  - intros i. rewrite nth_firstn, nth_skipn. reflexivity.
Qed.
Lemma view_length s : length (view s) = len s.
Proof. unfold view. now rewrite map_length, seq_length. Qed.
Lemma view_nth s i : nth_error (view s) i = if i <? len s then Some (elems s i) else None.
Proof.
  unfold view. rewrite nth_error_map. destruct (Nat.ltb_spec i (len s)) as [H|H].
  - rewrite (nth_error_nth' _ 0) by (rewrite seq_length; lia). rewrite seq_nth by lia. reflexivity.
  - rewrite (proj2 (nth_error_None _ _)) by (rewrite seq_length; lia). reflexivity.
Qed.
Lemma elems_nth s i j : nth_error (elems s i) j = if j <? el s then nth_error (bytes s) (i * el s + j) else None.
Proof. unfold elems. rewrite nth_firstn, nth_skipn. reflexivity. Qed.
Lemma elems_length s i : (i + 1) * el s <= cap s -> length (elems s i) = el s.
Proof. intros H. unfold elems, cap in *. rewrite firstn_length, skipn_length. lia. Qed.
Lemma elems_eq s s' i i' : el s = el s' -> (forall j, j < el s -> nth_error (bytes s) (i * el s + j) = nth_error (bytes s') (i' * el s' + j)) -> elems s i = elems s' i'.
Proof.
  intros E H. apply nth_error_ext'. intros j. rewrite !elems_nth, <- E. destruct (Nat.ltb_spec j (el s)); [|reflexivity].
  rewrite E at 2. apply H. lia.
Qed.
Lemma fbnext_more x : x < fbnext x.
Proof.
  unfold fbnext. assert (x / 128 <= x / 8) by (apply Nat.div_le_compat_l; lia). lia.
Qed.
Lemma set_cap_length d c : length (set_capacity d c) = c.
Proof. unfold set_capacity. rewrite app_length, firstn_length, repeat_length. lia. Qed.
Lemma set_cap_nth d c i : i < length d -> i < c -> nth_error (set_capacity d c) i = nth_error d i.
Proof.
  intros H H'. unfold set_capacity. rewrite nth_app, firstn_length, nth_firstn.
  rewrite (proj2 (Nat.ltb_lt i _)) by lia. now rewrite (proj2 (Nat.ltb_lt i c)) by lia.
Qed.
Lemma remove_nth_nth {A} (l : list A) i j : nth_error (remove_nth l i) j = if j <? i then nth_error l j else nth_error l (S j).
Proof.
  revert i j. induction l as [|a l IH]; intros i j; [destruct (j <? i); destruct i, j; reflexivity|].
  destruct i as [|i]; cbn [remove_nth]; [reflexivity|]. destruct j as [|j]; cbn [nth_error]; [reflexivity|]. rewrite IH. reflexivity.
Qed.
Lemma chunks_length n e l : length (chunks n e l) = n.
Proof. revert l. induction n as [|n IH]; intros l; cbn [chunks length]; [reflexivity|now rewrite IH]. Qed.
Lemma chunks_nth n e l i : nth_error (chunks n e l) i = if i <? n then Some (firstn e (skipn (i * e) l)) else None.
Proof.
  revert l i. induction n as [|n IH]; intros l i; cbn [chunks]; [destruct i; reflexivity|].
  destruct i as [|i]; cbn [nth_error]; [reflexivity|]. rewrite IH.
  change (S i <? S n) with (i <? n). destruct (i <? n); [|reflexivity]. do 2 f_equal.
  apply nth_error_ext'. intros j. rewrite !nth_skipn. f_equal. lia.
Qed.
Lemma mul_lt_add i n e j : i < n -> j < e -> i * e + j < n * e.
Proof. intros H H'. assert ((i + 1) * e <= n * e) by (apply Nat.mul_le_mono_r; lia). lia. Qed.
Lemma even_cap s : even s -> len s * el s <= cap s.
Proof. intros [_ [k [E H]]]. rewrite E. apply Nat.mul_le_mono_r. exact H. Qed.

Lemma add_ok s item : even s -> exists s', Add s item = Ok s' /\ even s' /\ means (OpAdd item) (el s) (view s) (view s') (el s').
Proof.
  intros EV. pose proof (even_cap s EV) as C. destruct EV as [P [k [E H]]]. unfold Add.
  set (d := if cap s <=? len s * el s then set_capacity (bytes s) (fbnext (len s) * el s) else bytes s).
  assert (D : (exists k', length d = k' * el s /\ len s < k') /\ forall i, i < len s * el s -> nth_error d i = nth_error (bytes s) i).
  { unfold d. destruct (Nat.leb_spec (cap s) (len s * el s)) as [L|L].
    - pose proof (fbnext_more (len s)) as F. split; [exists (fbnext (len s)); split; [apply set_cap_length|exact F]|].
      intros i I. apply set_cap_nth; [unfold cap in *; lia|]. assert (len s * el s < fbnext (len s) * el s) by (apply Nat.mul_lt_mono_pos_r; lia). lia.
    - split; [exists k; split; [exact E|]|reflexivity]. rewrite E in L. now apply Nat.mul_lt_mono_pos_r in L. }
  destruct D as [[k' [DL K']] DN]. clearbody d.
  assert (Q : (len s + 1) * el s <= length d) by (rewrite DL; apply Nat.mul_le_mono_r; lia).
  destruct (copy_to_ok d (len s * el s) (firstn (el s) item)) as [d' [-> [L' N']]]; [rewrite firstn_length; lia|].
  cbn [bind]. eexists. split; [reflexivity|].
  split; [split; [exact P|exists k'; unfold cap; cbn [bytes el len]; split; lia]|].
  cbn [means el]. split; [reflexivity|]. exists (elems (Arb d' (len s + 1) (el s)) (len s)).
  split; [|split].
  - apply nth_error_ext'. intros i. rewrite nth_app, view_length, !view_nth. cbn [len].
    destruct (Nat.ltb_spec i (len s)) as [I|I].
    + rewrite (proj2 (Nat.ltb_lt i _)) by lia. f_equal. apply elems_eq; [reflexivity|]. cbn [el bytes]. intros j J. rewrite N'.
      pose proof (mul_lt_add i (len s) (el s) j I J). destruct (Nat.leb_spec (len s * el s) (i * el s + j)); [lia|]. cbn [andb]. apply DN. lia.
    + destruct (Nat.ltb_spec i (len s + 1)).
      * replace i with (len s) by lia. rewrite Nat.sub_diag. reflexivity.
      * destruct (i - len s) as [|x] eqn:X; [lia|]. cbn [nth_error]. now destruct x.
  - refine (elems_length (Arb d' (len s + 1) (el s)) (len s) _). unfold cap. cbn [bytes el]. lia.
  - apply nth_error_ext'. intros j. rewrite !nth_firstn, elems_nth. cbn [el bytes]. rewrite N', firstn_length, nth_firstn.
    destruct (Nat.ltb_spec j (length item)) as [J|J].
    + destruct (Nat.ltb_spec j (el s)) as [J'|J']; [|reflexivity].
      rewrite (proj2 (Nat.leb_le _ _)) by lia. rewrite (proj2 (Nat.ltb_lt _ _)) by lia. cbn [andb].
      replace (len s * el s + j - len s * el s) with j by lia. now rewrite (proj2 (Nat.ltb_lt j _)) by lia.
    + rewrite (proj2 (nth_error_None item j)) by lia. now destruct (_ <? _).
Qed.
Lemma remove_ok s i : even s -> i < len s -> exists s', Remove s i = Ok s' /\ even s' /\ means (OpRemove i) (el s) (view s) (view s') (el s').
Proof.
  intros EV I. destruct EV as [P [k [E H]]]. unfold Remove.
  assert (Q : (i + 1) * el s <= cap s) by (rewrite E; apply Nat.mul_le_mono_r; lia).
  rewrite (proj2 (Nat.ltb_ge (cap s) _)) by lia. rewrite (proj2 (Nat.eqb_neq (len s) 0)) by lia. cbn [orb].
  destruct (copy_from_ok (bytes s) (i * el s + el s) (cap s - i * el s - el s)) as [t [-> [TL TN]]]; [unfold cap in *; lia|]. cbn [bind].
  destruct (copy_to_ok (bytes s) (i * el s) t) as [d [-> [DL DN]]]; [unfold cap in *; lia|]. cbn [bind].
  eexists. split; [reflexivity|]. split; [split; [exact P|exists k; unfold cap in *; cbn [bytes el len]; split; lia]|].
  cbn [means el]. split; [reflexivity|]. apply nth_error_ext'. intros x. rewrite remove_nth_nth, !view_nth. cbn [len].
  destruct (Nat.ltb_spec x i) as [X|X].
  - rewrite (proj2 (Nat.ltb_lt x _)) by lia. rewrite (proj2 (Nat.ltb_lt x (len s))) by lia. f_equal. apply elems_eq; [reflexivity|]. cbn [el bytes]. intros j J.
    rewrite DN. pose proof (mul_lt_add x i (el s) j X J). now destruct (Nat.leb_spec (i * el s) (x * el s + j)); [lia|].
  - destruct (Nat.ltb_spec x (len s - 1)) as [X'|X']; [rewrite (proj2 (Nat.ltb_lt (S x) _)) by lia|rewrite (proj2 (Nat.ltb_ge (S x) _)) by lia; reflexivity].
    f_equal. apply elems_eq; [reflexivity|]. cbn [el bytes]. intros j J. rewrite DN, TN, TL.
    assert (i * el s <= x * el s) by (apply Nat.mul_le_mono_r; lia).
    assert (S x * el s + j < cap s). { rewrite E. apply mul_lt_add; lia. }
    cbn [Nat.mul] in *. rewrite (proj2 (Nat.leb_le _ _)) by lia. rewrite !(proj2 (Nat.ltb_lt _ _)) by lia. cbn [andb]. f_equal. lia.
Qed.
Lemma data_ok s src e n : allowed s (OpData src e n) -> exists s', SetData s src e n = Ok s' /\ even s' /\ means (OpData src e n) (el s) (view s) (view s') (el s').
Proof.
  intros [P [L D]]. unfold SetData.
  set (d := if cap s <? n * e then set_capacity_discard (n * e) else bytes s).
  assert (DD : exists k, length d = k * e /\ n <= k).
  { unfold d. destruct (Nat.ltb_spec (cap s) (n * e)) as [C|C].
    - exists n. unfold set_capacity_discard. rewrite repeat_length. split; lia.
    - destruct D as [D|[k D]]; [lia|]. exists k. split; [exact D|]. rewrite D in C. now apply Nat.mul_le_mono_pos_r in C. }
  destruct DD as [k [DL NK]]. clearbody d.
  assert (LE : n * e <= length d) by (rewrite DL; now apply Nat.mul_le_mono_r).
  destruct d as [|a d].
  - cbn [length] in *. assert (n = 0) by (destruct n; [reflexivity|cbn [Nat.mul] in LE; lia]). subst n.
    eexists. split; [reflexivity|]. split; [split; [exact P|exists 0; unfold cap; cbn [bytes el len length]; split; lia]|]. split; reflexivity.
  - destruct (copy_from_ok src 0 (e * n)) as [t [-> [TL TN]]]; [lia|]. cbn [bind].
    destruct (copy_to_ok (a :: d) 0 t) as [d' [-> [DL' DN]]]; [lia|]. cbn [bind]. eexists. split; [reflexivity|].
    split; [split; [exact P|exists k; unfold cap; cbn [bytes el len]; split; lia]|]. cbn [means el]. split; [reflexivity|].
    apply nth_error_ext'. intros i. rewrite view_nth, chunks_nth. cbn [len]. destruct (Nat.ltb_spec i n) as [I|I]; [|reflexivity]. f_equal.
    apply nth_error_ext'. intros j. rewrite elems_nth, nth_firstn, nth_skipn. cbn [el bytes]. destruct (Nat.ltb_spec j e) as [J|J]; [|reflexivity].
    pose proof (mul_lt_add i n e j I J). rewrite DN, TN, TL. cbn [Nat.add Nat.leb andb].
    rewrite (proj2 (Nat.ltb_lt _ _)) by lia. rewrite Nat.sub_0_r. now rewrite (proj2 (Nat.ltb_lt _ _)) by lia.
Qed.
Lemma restride_ok src oe ne m total : m <= oe -> m <= ne -> total * oe <= length src ->
  forall n i d, i + n <= total -> total * ne <= length d ->
  exists d', restride n src oe ne m i d = Ok d' /\ length d' = length d /\
    forall x j, x < total -> j < ne -> nth_error d' (x * ne + j) = if (i <=? x) && (x <? i + n) && (j <? m) then nth_error src (x * oe + j) else nth_error d (x * ne + j).
Proof.
  intros MO MN SL. induction n as [|n IH]; intros i d B DL; cbn [restride].
  - exists d. split; [reflexivity|]. split; [reflexivity|]. intros x j X J. destruct (Nat.leb_spec i x), (Nat.ltb_spec x (i + 0)); cbn [andb]; try reflexivity. lia.
  - assert ((i + 1) * oe <= total * oe) by (apply Nat.mul_le_mono_r; lia). assert ((i + 1) * ne <= total * ne) by (apply Nat.mul_le_mono_r; lia).
    destruct (copy_from_ok src (i * oe) m) as [t [-> [TL TN]]]; [lia|]. cbn [bind].
    destruct (copy_to_ok d (i * ne) t) as [d' [-> [DL' DN]]]; [lia|]. cbn [bind].
    destruct (IH (S i) d') as [d'' [-> [DL'' DN'']]]; [lia|lia|]. exists d''. split; [reflexivity|]. split; [lia|].
    intros x j X J. rewrite DN'' by assumption. rewrite DN, TN, TL.
    destruct (lt_eq_lt_dec x i) as [[C|C]|C].
    + pose proof (mul_lt_add x i ne j C J). destruct (Nat.leb_spec (S i) x); [lia|]. destruct (Nat.leb_spec i x); [lia|].
      destruct (Nat.leb_spec (i * ne) (x * ne + j)); [lia|]. reflexivity.
    + subst x. destruct (Nat.leb_spec (S i) i); [lia|]. rewrite (proj2 (Nat.leb_le i i)) by lia. rewrite (proj2 (Nat.ltb_lt i (i + S n))) by lia.
      rewrite (proj2 (Nat.leb_le (i * ne) _)) by lia. cbn [andb]. replace (i * ne + j - i * ne) with j by lia.
      destruct (Nat.ltb_spec j m), (Nat.ltb_spec (i * ne + j) (i * ne + m)); try lia; reflexivity.
    + assert ((i + 1) * ne <= x * ne) by (apply Nat.mul_le_mono_r; lia).
      rewrite (proj2 (Nat.leb_le (S i) x)) by lia. rewrite (proj2 (Nat.leb_le i x)) by lia. cbn [andb].
      replace (S i + n) with (i + S n) by lia. destruct (Nat.ltb_spec (x * ne + j) (i * ne + m)); [lia|]. rewrite Bool.andb_false_r. reflexivity.
Qed.
Lemma element_ok s e : even s -> 0 < e -> exists s', SetElement s e = Ok s' /\ even s' /\ means (OpElement e) (el s) (view s) (view s') (el s').
Proof.
  intros EV P. pose proof (even_cap s EV) as C.
  assert (VL : forall i, i < len s -> length (elems s i) = el s).
  { intros i I. apply elems_length. assert ((i + 1) * el s <= len s * el s) by (apply Nat.mul_le_mono_r; lia). lia. }
  unfold SetElement. destruct (Nat.eqb_spec e (el s)) as [->|NE].
  - exists s. split; [reflexivity|]. split; [exact EV|]. split; [reflexivity|]. apply nth_error_ext'. intros i. rewrite nth_error_map, view_nth.
    destruct (Nat.ltb_spec i (len s)) as [I|I]; [|reflexivity]. cbn [option_map]. f_equal. unfold resize. rewrite VL by assumption. rewrite Nat.sub_diag, app_nil_r.
    rewrite <- (VL i I). now rewrite firstn_all.
  - destruct (restride_ok (bytes s) (el s) e (min e (el s)) (len s) ltac:(lia) ltac:(lia) C (len s) 0 (repeat (Some 0%Z) (e * len s))) as [d [-> [DL DN]]]; [lia|rewrite repeat_length; lia|].
    rewrite repeat_length in DL. cbn [bind]. eexists. split; [reflexivity|].
    split; [split; [exact P|exists (len s); unfold cap; cbn [bytes el len]; split; lia]|]. split; [reflexivity|].
    apply nth_error_ext'. intros i. rewrite nth_error_map, !view_nth. cbn [len]. destruct (Nat.ltb_spec i (len s)) as [I|I]; [|reflexivity].
    cbn [option_map]. f_equal. apply nth_error_ext'. intros j. unfold resize. rewrite elems_nth, nth_app, firstn_length, nth_firstn, nth_repeat, elems_nth, (VL i I).
    cbn [el bytes]. destruct (Nat.ltb_spec j e) as [J|J].
    + rewrite DN by assumption. cbn [Nat.leb Nat.add]. rewrite (proj2 (Nat.ltb_lt i _)) by lia. cbn [andb].
      destruct (Nat.ltb_spec j (min e (el s))) as [M|M].
      * rewrite (proj2 (Nat.ltb_lt j (el s))) by lia. reflexivity.
      * rewrite nth_repeat. pose proof (mul_lt_add i (len s) e j I J). rewrite (proj2 (Nat.ltb_lt (i * e + j) _)) by lia.
        now rewrite (proj2 (Nat.ltb_lt _ _)) by lia.
    + rewrite (proj2 (Nat.ltb_ge j _)) by lia. rewrite (proj2 (Nat.ltb_ge _ _)) by lia. reflexivity.
Qed.
Lemma length_ok s n : even s -> even (SetLength s n) /\ means (OpLength n) (el s) (view s) (view (SetLength s n)) (el (SetLength s n)).
Proof.
  intros EV. pose proof (even_cap s EV) as C. destruct EV as [P [k [E H]]]. split.
  - split; [exact P|]. unfold SetLength, cap at 1. cbn [bytes len el]. destruct (Nat.ltb_spec (cap s) (n * el s)) as [L|L].
    + exists n. rewrite set_cap_length. split; lia.
    + exists k. split; [exact E|]. rewrite E in L. now apply Nat.mul_le_mono_pos_r in L.
  - split; [reflexivity|]. split; [apply view_length|]. apply nth_error_ext'. intros i. rewrite !nth_firstn, !view_nth, view_length. cbn [SetLength len].
    destruct (Nat.ltb_spec i (len s)) as [I|I], (Nat.ltb_spec i n) as [I'|I']; try reflexivity. f_equal. apply elems_eq; [reflexivity|]. cbn [SetLength el bytes]. intros j J.
    destruct (Nat.ltb_spec (cap s) (n * el s)) as [L|L]; [|reflexivity].
    pose proof (mul_lt_add i (len s) (el s) j I J). apply set_cap_nth; unfold cap in *; lia.
Qed.
Lemma copy_ok s n : even s -> len s * el s <= n -> n <= cap s ->
  exists s', (do t <- copy_from (bytes s) 0 n; do d <- copy_to (set_capacity_discard (cap s)) 0 t; Ok (Arb d (len s) (el s))) = Ok s' /\ even s' /\ el s' = el s /\ view s' = view s.
Proof.
  intros [P [k [E H]]] L L'. unfold set_capacity_discard. destruct (copy_from_ok (bytes s) 0 n) as [t [-> [TL TN]]]; [exact L'|]. cbn [bind].
  destruct (copy_to_ok (repeat None (cap s)) 0 t) as [d [-> [DL DN]]]; [rewrite repeat_length; lia|]. cbn [bind]. rewrite repeat_length in DL.
  eexists. split; [reflexivity|]. split; [split; [exact P|exists k; unfold cap in *; cbn [bytes el len]; split; lia]|]. split; [reflexivity|].
  apply nth_error_ext'. intros i. rewrite !view_nth. cbn [len]. destruct (Nat.ltb_spec i (len s)) as [I|I]; [|reflexivity]. f_equal.
  apply elems_eq; [reflexivity|]. cbn [el bytes]. intros j J. pose proof (mul_lt_add i (len s) (el s) j I J).
  rewrite DN, TN, TL. cbn [Nat.leb Nat.add andb]. rewrite Nat.sub_0_r, !(proj2 (Nat.ltb_lt _ _)) by lia. reflexivity.
Qed.

(** Every array starts without elements, and every call within the bounds succeeds and does to the list of elements what it says;
    Get reads them.  What is missing: giving the array data whose elements fit the old memory but do not divide it *)
Theorem C194_operations_partial :
  (forall size element, 0 < element -> even (new size element) /\ view (new size element) = []) /\
  (forall s o, even s -> allowed s o -> exists s', step s o = Ok s' /\ even s' /\ means o (el s) (view s) (view s') (el s')) /\
  (forall s i, even s -> i < len s -> exists x, Get s i = Ok x /\ nth_error (view s) i = Some x /\ length x = el s) /\
  (forall s, length (view s) = len s).
Proof.
  split; [|split; [|split; [|exact view_length]]].
  - intros size element P. split; [|reflexivity]. split; [exact P|]. exists size. unfold cap, new, set_capacity_discard. cbn [bytes el len]. rewrite repeat_length. split; lia.
  - intros s o EV A. pose proof (even_cap s EV) as C. destruct o as [item|i| |src e n|e| |n| |dst]; cbn [step].
    + now apply add_ok.
    + now apply remove_ok.
    + cbn [allowed] in A. unfold RemoveLast. rewrite (proj2 (Nat.eqb_neq (len s) 0)) by lia. eexists. split; [reflexivity|]. destruct EV as [P [k [E H]]].
      split; [split; [exact P|exists k; split; [exact E|cbn [len]; lia]]|]. split; [reflexivity|].
      unfold view. cbn [len]. destruct (len s) as [|n]; [lia|]. rewrite seq_S, map_app. cbn [map]. rewrite removelast_last. now replace (S n - 1) with n by lia.
    + now apply data_ok.
    + now apply element_ok.
    + eexists. split; [reflexivity|]. destruct EV as [P [k [E H]]]. split; [split; [exact P|exists k; split; [exact E|cbn [Clear len]; lia]]|]. split; reflexivity.
    + destruct (length_ok s n EV). eexists. split; [reflexivity|]. split; assumption.
    + exact (copy_ok s (len s * el s) EV (le_n _) C).
    + exact (copy_ok s (cap s) EV C (le_n _)).
  - intros s i EV I. pose proof (even_cap s EV) as C. assert ((i + 1) * el s <= len s * el s) by (apply Nat.mul_le_mono_r; lia).
    exists (elems s i). unfold Get, copy_from. rewrite (proj2 (Nat.ltb_lt _ _) I). rewrite (proj2 (Nat.leb_le _ _)) by (unfold cap in *; lia).
    split; [reflexivity|]. split; [rewrite view_nth, (proj2 (Nat.ltb_lt _ _) I); reflexivity|]. apply elems_length. lia.
Qed.
Print Assumptions C194_operations_partial.
(** so that any sequence of such calls from a new array is defined *)
Fixpoint allowed_all (s : arb) (l : list op) : Prop :=
  match l with [] => True | o :: l => allowed s o /\ forall s', step s o = Ok s' -> allowed_all s' l end.
Theorem C194_runs_partial size element l : 0 < element -> allowed_all (new size element) l -> exists s, run (new size element) l = Ok s /\ even s.
Proof.
  intros P. pose proof (proj1 (proj1 C194_operations_partial size element P)) as EV. revert EV. generalize (new size element).
  induction l as [|o l IH]; intros s EV A; [now exists s|]. destruct A as [A B]. cbn [run].
  destruct (proj1 (proj2 C194_operations_partial) s o EV A) as [s' [E [EV' _]]]. rewrite E. cbn [bind]. apply IH; [exact EV'|]. exact (B s' E).
Qed.
Print Assumptions C194_runs_partial.

(** Refuted: if there is room for a part of an element behind the last one, Add writes past the end of the memory; SetElement with data
    gets there from any array with memory left *)
Theorem C194_Add_refuted :
  (forall s item, len s * el s < cap s -> cap s < (len s + 1) * el s -> el s <= length item -> Add s item = UB) /\
  (forall s src e n item, n * e < cap s -> cap s < (n + 1) * e -> n * e <= length src -> e <= length item -> run s [OpData src e n; OpAdd item] = UB).
Proof.
  assert (A : forall s item, len s * el s < cap s -> cap s < (len s + 1) * el s -> el s <= length item -> Add s item = UB).
  { intros s item H1 H2 H3. unfold Add. rewrite (proj2 (Nat.leb_gt _ _) H1). unfold copy_to. rewrite firstn_length.
    rewrite (proj2 (Nat.leb_gt _ _)) by (unfold cap in *; lia). reflexivity. }
  split; [exact A|]. intros s src e n item H1 H2 H3 H4. cbn [run step]. unfold SetData.
  rewrite (proj2 (Nat.ltb_ge (cap s) _)) by lia. destruct (bytes s) as [|a d] eqn:B; [unfold cap in H1; rewrite B in H1; cbn [length] in H1; lia|].
  destruct (copy_from_ok src 0 (e * n)) as [t [-> [TL TN]]]; [lia|]. cbn [bind].
  assert (CP : cap s = length (a :: d)) by (unfold cap; now rewrite B).
  destruct (copy_to_ok (a :: d) 0 t) as [d' [-> [DL DN]]]; [lia|]. cbn [bind].
  rewrite A; [reflexivity| | |exact H4]; unfold cap; cbn [len el bytes]; lia.
Qed.
Print Assumptions C194_Add_refuted.
(** Refuted: an array assigned to itself loses its elements; a source that was moved from still has its length but no elements to read *)
Theorem C194_assign_refuted s :
  even s -> 0 < len s ->
  (forall i, i < len s -> Get (self_assign s) i = Ok (repeat None (el s))) /\
  fst (move s) = s /\ len (snd (move s)) = len s /\ (forall i, Get (snd (move s)) i = UB).
Proof.
  intros EV H. pose proof (even_cap s EV) as C. destruct EV as [P _]. split; [|split; [reflexivity|split; [reflexivity|]]].
  - intros i I. assert ((i + 1) * el s <= len s * el s) by (apply Nat.mul_le_mono_r; lia). unfold Get, self_assign, set_capacity_discard. cbn [len el bytes].
    rewrite (proj2 (Nat.ltb_lt _ _) I). destruct (copy_from_ok (repeat (@None Z) (cap s)) (i * el s) (el s)) as [t [-> [TL TN]]]; [rewrite repeat_length; lia|].
    f_equal. apply nth_error_ext'. intros j. rewrite TN, !nth_repeat. destruct (Nat.ltb_spec j (el s)); [|reflexivity]. now rewrite (proj2 (Nat.ltb_lt _ _)) by lia.
  - intros i. unfold Get, move, copy_from. cbn [snd len el bytes length]. destruct (i <? len s); [|reflexivity]. rewrite (proj2 (Nat.leb_gt _ _)) by lia. reflexivity.
Qed.
Print Assumptions C194_assign_refuted.

Definition b (l : list Z) : list (option Z) := map Some l.
(** two elements of 2 bytes, made 3 bytes wide, one added, the first removed *)
Example C194_example :
  let ops := [OpAdd (b [1; 2; 9]); OpAdd (b [3; 4])%Z; OpElement 3; OpAdd (b [5; 6; 7]); OpRemove 0]%Z in
  allowed_all (new 0 2) ops /\ exists s, run (new 0 2) ops = Ok s /\ view s = [b [3; 4; 0]; b [5; 6; 7]]%Z.
Proof.
  assert (E : forall P : arb -> Prop, forall a s', Ok a = Ok s' -> P a -> P s') by (intros P a s' Q; now injection Q as <-).
  split; [|eexists; split; vm_compute; reflexivity].
  repeat (split; [vm_compute; first [exact I | repeat constructor]|intros s' H; vm_compute in H; refine (E (fun s' => allowed_all s' _) _ s' H _); clear s' H]). exact I.
Qed.
(** 10 bytes hold 10 elements of one byte; 3 elements of 3 bytes fit; adding a fourth writes 2 bytes too many *)
Example C194_refuted_example :
  run (new 10 1) [OpData (b [1; 2; 3; 4; 5; 6; 7; 8; 9]) 3 3; OpAdd (b [1; 2; 3])]%Z = UB.
Proof. vm_compute. reflexivity. Qed.
