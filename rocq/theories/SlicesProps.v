(* Properties C166, C167 and C168: multidimensional references, slices and range helpers. *)
From Coq Require Import List ZArith Bool Lia.
From Coq Require Import ZifyBool ZifyNat.
From Verif Require Import Common BitUtil BitUtilProofs Slices.
Import ListNotations.
Local Open Scope Z_scope.

(* ---- C166 ---- *)
(* an index tuple for the given sizes *)
Definition in_range (sizes args : list Z) : Prop := Forall2 (fun n a => 0 <= a < n) sizes args.
Definition volume (sizes : list Z) : Z := fold_right Z.mul 1 sizes.

Lemma volume_pos sizes : Forall (fun n => 0 < n) sizes -> 0 < volume sizes.
Proof. induction 1; unfold volume in *; cbn [fold_right]; nia. Qed.
Lemma range_pos sizes args : in_range sizes args -> Forall (fun n => 0 < n) sizes.
Proof. induction 1; constructor; auto. lia. Qed.

Lemma getIndice_ok : forall sizes args i, in_range sizes args -> 0 <= i -> (i + 1) * volume sizes <= 2 ^ 63 ->
  exists k, getIndice i sizes args = Ok k /\ i * volume sizes <= k < (i + 1) * volume sizes.
Proof.
  induction sizes as [|n sizes IH]; intros args i R I L; inversion R as [|? a ? args' Ra R']; subst; cbn [getIndice].
  - exists i. split; auto. unfold volume. cbn. lia.
  - pose proof (volume_pos _ (range_pos _ _ R')) as P. unfold volume in L |- *. cbn [fold_right] in L |- *. fold (volume sizes) in *.
    assert (B : n * i + n <= 2 ^ 63) by nia.
    rewrite sarith_ok by (change (64 - 1) with 63; nia). cbn [bind]. rewrite sarith_ok by (change (64 - 1) with 63; nia). cbn [bind].
    destruct (IH args' (a + n * i) R') as (k & E & K); [nia| |].
    + apply Z.le_trans with ((i + 1) * (n * volume sizes)); auto. nia.
    + exists k. split; auto. nia.
Qed.

Lemma getIndice_inj : forall sizes args args' i i' k, in_range sizes args -> in_range sizes args' ->
  getIndice i sizes args = Ok k -> getIndice i' sizes args' = Ok k -> i = i' /\ args = args'.
Proof.
  induction sizes as [|n sizes IH]; intros args args' i i' k R R' E E'; inversion R as [|? a ? t Ra Rt]; inversion R' as [|? a' ? t' Ra' Rt']; subst; cbn [getIndice] in *.
  - split; congruence.
  - unfold sarith in E, E'. destruct (in_signed 64 (n * i)); cbn [bind] in E; [|discriminate]. destruct (in_signed 64 (a + n * i)); cbn [bind] in E; [|discriminate].
    destruct (in_signed 64 (n * i')); cbn [bind] in E'; [|discriminate]. destruct (in_signed 64 (a' + n * i')); cbn [bind] in E'; [|discriminate].
    destruct (IH _ _ _ _ _ Rt Rt' E E') as [H ->]. assert (i = i') by nia. subst. split; auto. f_equal. lia.
Qed.

Lemma getIndice_onto : forall sizes i k, Forall (fun n => 0 < n) sizes -> 0 <= i -> (i + 1) * volume sizes <= 2 ^ 63 ->
  i * volume sizes <= k < (i + 1) * volume sizes -> exists args, in_range sizes args /\ getIndice i sizes args = Ok k.
Proof.
  induction sizes as [|n sizes IH]; intros i k P I L K.
  - exists []. split; [constructor|]. unfold volume in K. cbn in K |- *. f_equal. lia.
  - inversion P as [|? ? Pn Ps]; subst. pose proof (volume_pos _ Ps) as V. unfold volume in L, K. cbn [fold_right] in L, K. fold (volume sizes) in *.
    pose proof (Z.div_mod (k - i * (n * volume sizes)) (volume sizes) ltac:(lia)) as D.
    pose proof (Z.mod_pos_bound (k - i * (n * volume sizes)) (volume sizes) V) as M.
    set (a := (k - i * (n * volume sizes)) / volume sizes) in *.
    assert (A : 0 <= a < n) by (split; [apply Z.div_pos; lia|apply Z.div_lt_upper_bound; nia]).
    destruct (IH (a + n * i) k Ps) as (args & R & E); [nia| |nia|].
    { apply Z.le_trans with ((i + 1) * (n * volume sizes)); auto. nia. }
    exists (a :: args). split; [constructor; auto|]. cbn [getIndice]. assert (B : n * i + n <= 2 ^ 63) by nia.
    rewrite sarith_ok by (change (64 - 1) with 63; nia). cbn [bind]. rewrite sarith_ok by (change (64 - 1) with 63; nia). exact E.
Qed.

Lemma vol_cons n sizes : volume (n :: sizes) = n * volume sizes.
Proof. reflexivity. Qed.

(* The index tuples and the elements of the array correspond one to one: the offset lies inside the array,
   different tuples give different offsets and every offset has its tuple. *)
Theorem C166_bijection :
  forall sizes : list Z, sizes <> [] -> Forall (fun n => 0 < n) sizes -> volume sizes <= 2 ^ 63 ->
  (forall args, in_range sizes args -> exists k, GetIndice sizes args = Ok k /\ 0 <= k < volume sizes) /\
  (forall args args' k, in_range sizes args -> in_range sizes args' -> GetIndice sizes args = Ok k -> GetIndice sizes args' = Ok k -> args = args') /\
  (forall k, 0 <= k < volume sizes -> exists args, in_range sizes args /\ GetIndice sizes args = Ok k).
Proof.
  intros sizes N P L. destruct sizes as [|n sizes]; [congruence|]. rewrite vol_cons in *. inversion P as [|? ? Pn Ps]; subst.
  pose proof (volume_pos _ Ps) as V. split; [|split].
  - intros args R. inversion R as [|? a ? t Ra Rt]; subst. cbn [GetIndice]. destruct (getIndice_ok sizes t a Rt) as (k & E & K); [lia|nia|].
    exists k. split; auto. nia.
  - intros args args' k R R' E E'. inversion R as [|? a ? t Ra Rt]; inversion R' as [|? a' ? t' Ra' Rt']; subst. cbn [GetIndice] in *.
    destruct (getIndice_inj _ _ _ _ _ _ Rt Rt' E E') as [-> ->]. reflexivity.
  - intros k K. pose proof (Z.div_mod k (volume sizes) ltac:(lia)) as D. pose proof (Z.mod_pos_bound k (volume sizes) V) as M.
    assert (A : 0 <= k / volume sizes < n) by (split; [apply Z.div_pos; lia|apply Z.div_lt_upper_bound; nia]).
    destruct (getIndice_onto sizes (k / volume sizes) k Ps) as (args & R & E); [lia|nia|nia|].
    exists (k / volume sizes :: args). split; [constructor; auto|exact E].
Qed.
Print Assumptions C166_bijection.

Lemma getIndice_last : forall sizes args i a b k, getIndice i sizes (args ++ [a]) = Ok k ->
  in_signed 64 (k - a + b) = true -> getIndice i sizes (args ++ [b]) = Ok (k - a + b).
Proof.
  induction sizes as [|n sizes IH]; intros args i a b k E S; [destruct args; discriminate|].
  destruct args as [|x args]; cbn [app getIndice] in *.
  - unfold sarith in *. destruct (in_signed 64 (n * i)) eqn:A; cbn [bind] in *; [|discriminate].
    destruct (in_signed 64 (a + n * i)); cbn [bind] in E; [|discriminate]. destruct sizes; [|discriminate]. cbn [getIndice] in *. injection E as <-.
    replace (a + n * i - a + b) with (b + n * i) in * by lia. now rewrite S.
  - unfold sarith in *. destruct (in_signed 64 (n * i)); cbn [bind] in *; [|discriminate].
    destruct (in_signed 64 (x + n * i)); cbn [bind] in *; [|discriminate]. now apply IH.
Qed.

(* the last axis is contiguous *)
Theorem C166_contiguous :
  forall sizes args a k, (2 <= length sizes)%nat -> volume sizes <= 2 ^ 63 ->
  in_range sizes (args ++ [a]) -> in_range sizes (args ++ [a + 1]) ->
  GetIndice sizes (args ++ [a]) = Ok k -> GetIndice sizes (args ++ [a + 1]) = Ok (k + 1).
Proof.
  intros sizes args a k N L R R' E. assert (NE : sizes <> []) by (destruct sizes; cbn in N; [lia|discriminate]).
  destruct (C166_bijection sizes NE (range_pos _ _ R) L) as (B & _ & _).
  destruct (B _ R) as (k1 & E1 & K1). rewrite E in E1. injection E1 as <-.
  destruct sizes as [|n sizes]; [congruence|]. destruct args as [|x args].
  { inversion R as [|? ? ? ? _ Rt]; subst. cbn in N. inversion Rt; subst. cbn in N. lia. }
  cbn [app GetIndice] in *. replace (k + 1) with (k - a + (a + 1)) by lia. apply getIndice_last; auto. apply in_signed_spec.
  change (64 - 1) with 63. split; [lia|]. replace (k - a + (a + 1)) with (k + 1) by lia.
  destruct (B _ R') as (k2 & E2 & K2). destruct (Z_lt_le_dec (k + 1) (2 ^ 63)) as [|C]; auto. exfalso.
  (* the offset after the last one belongs to no tuple *)
  assert (K3 : k = 2 ^ 63 - 1) by lia. assert (D : k + 1 = volume (n :: sizes)) by lia.
  (* compare with the offset of the tuple ending in a + 1 *)
  clear B.
  assert (X : forall sizes args i a k k2, getIndice i sizes (args ++ [a]) = Ok k -> getIndice i sizes (args ++ [a + 1]) = Ok k2 -> k2 = k + 1).
  { clear. induction sizes as [|n sizes IH]; intros args i a k k2 E E2; [destruct args; discriminate|]. destruct args as [|x args]; cbn [app getIndice] in *.
    - unfold sarith in *. destruct (in_signed 64 (n * i)); cbn [bind] in *; [|discriminate]. destruct (in_signed 64 (a + n * i)); cbn [bind] in E; [|discriminate].
      destruct (in_signed 64 (a + 1 + n * i)); cbn [bind] in E2; [|discriminate]. destruct sizes; [|discriminate]. cbn [getIndice] in *. injection E as <-. injection E2 as <-. lia.
    - unfold sarith in *. destruct (in_signed 64 (n * i)); cbn [bind] in *; [|discriminate]. destruct (in_signed 64 (x + n * i)); cbn [bind] in *; [|discriminate]. eauto. }
  specialize (X _ _ _ _ _ _ E E2). lia.
Qed.
Print Assumptions C166_contiguous.

Example C166_example : GetIndice [4; 3; 5] [2; 1; 4] = Ok 39 /\ GetIndice [4; 3; 5] [3; 2; 4] = Ok 59 /\
  in_range [4; 3; 5] [2; 1; 4] /\ volume [4; 3; 5] = 60 /\ volume [4; 3; 5] <= 2 ^ 63.
Proof. repeat split; try (vm_compute; congruence). repeat (constructor; [lia|]). constructor. Qed.

(* ---- C167 ---- *)
(* the elements a slice denotes, and the position a possibly negative argument denotes *)
Definition elems {A} (buf : list A) (s : slice) : list A := firstn (Z.to_nat (sl_len s)) (skipn (Z.to_nat (sl_start s)) buf).
Definition inside {A} (buf : list A) (s : slice) : Prop := 0 <= sl_start s /\ 0 <= sl_len s /\ sl_start s + sl_len s <= Z.of_nat (length buf).
Definition position (len x : Z) : Z := if x <? 0 then len + x else x.

Lemma skipn_skipn_ {A} : forall a b (l : list A), skipn a (skipn b l) = skipn (b + a) l.
Proof. intros a b. induction b as [|b IH]; intros [|x l]; cbn [skipn Nat.add]; auto. now rewrite skipn_nil. Qed.

Lemma elems_sub {A} (buf : list A) s b l : inside buf s -> 0 <= b -> 0 <= l -> b + l <= sl_len s ->
  elems buf {| sl_start := sl_start s + b; sl_len := l |} = firstn (Z.to_nat l) (skipn (Z.to_nat b) (elems buf s)) /\
  inside buf {| sl_start := sl_start s + b; sl_len := l |}.
Proof.
  intros I B L K. unfold inside, elems in *. cbn [sl_start sl_len]. split; [|lia].
  rewrite skipn_firstn_comm, firstn_firstn, skipn_skipn_. f_equal; [lia|]. f_equal. lia.
Qed.

(* a part of a slice, from a possibly negative position up to a position given from the front *)
Theorem C167_sub_partial :
  forall (A : Type) (buf : list A) (w : Z) (s : slice) (b e : Z), 1 < w -> inside buf s -> sl_len s < 2 ^ (w - 1) ->
  - sl_len s < b < sl_len s -> 0 <= e <= sl_len s ->
  let last := if e =? 0 then sl_len s else e in
  position (sl_len s) b <= last ->
  exists r, slice_sub w s b e = Ok r /\ inside buf r /\
    elems buf r = firstn (Z.to_nat (last - position (sl_len s) b)) (skipn (Z.to_nat (position (sl_len s) b)) (elems buf s)).
Proof.
  intros A buf w s b e W I L B E last Q. unfold slice_sub.
  destruct (Z.ltb_spec (Z.abs b) (sl_len s)); [|lia]. destruct (Z.leb_spec e (sl_len s)); [|lia]. cbn [andb negb].
  pose proof I as (I1 & I2 & I3). rewrite bssMod_ok by lia. cbn [bind].
  assert (M : b mod sl_len s = position (sl_len s) b).
  { unfold position. destruct (Z.ltb_spec b 0); [|apply Z.mod_small; lia]. symmetry. apply Z.mod_unique with (-1); lia. }
  rewrite M. assert (PP : 0 <= position (sl_len s) b) by (unfold position; destruct (Z.ltb_spec b 0); lia).
  assert (EE : (if e <=? 0 then sarith w (sl_len s - e) else Ok e) = Ok last).
  { unfold last. destruct (Z.leb_spec e 0); destruct (Z.eqb_spec e 0); try lia; auto. subst. rewrite Z.sub_0_r. apply sarith_ok. lia. }
  rewrite EE. cbn [bind]. assert (LL : last <= sl_len s) by (unfold last; destruct (Z.eqb_spec e 0); lia).
  rewrite sarith_ok by lia. cbn [bind]. eexists. split; [reflexivity|].
  destruct (elems_sub buf s (position (sl_len s) b) (last - position (sl_len s) b) I) as [X Y]; try lia. auto.
Qed.
Print Assumptions C167_sub_partial.

(* operator()(begin), the iteration step and element access *)
Theorem C167_access :
  forall (A : Type) (buf : list A) (w : Z) (s : slice), 1 < w -> inside buf s -> sl_len s < 2 ^ (w - 1) ->
  (forall b, - sl_len s < b < sl_len s -> exists r, slice_from w s b = Ok r /\ inside buf r /\ elems buf r = skipn (Z.to_nat (position (sl_len s) b)) (elems buf s)) /\
  (0 < sl_len s -> exists r, slice_inc s = Ok r /\ slice_post_inc s = Ok (s, r) /\ inside buf r /\ exists x, elems buf s = x :: elems buf r) /\
  (forall i, 0 <= i < sl_len s -> exists x, slice_at buf s i = Ok x /\ nth_error (elems buf s) (Z.to_nat i) = Some x) /\
  (0 < sl_len s -> exists x y, slice_front buf s = Ok x /\ nth_error (elems buf s) 0 = Some x /\
     slice_back buf s = Ok y /\ nth_error (elems buf s) (length (elems buf s) - 1) = Some y).
Proof.
  intros A buf w s W I L. pose proof I as (I1 & I2 & I3).
  assert (LE : length (elems buf s) = Z.to_nat (sl_len s)) by (unfold elems; rewrite firstn_length, skipn_length; lia).
  assert (AT : forall i, 0 <= i < sl_len s -> exists x, slice_at buf s i = Ok x /\ nth_error (elems buf s) (Z.to_nat i) = Some x).
  { intros i Hi. unfold slice_at. destruct (Z.leb_spec 0 i); [|lia]. destruct (Z.ltb_spec i (sl_len s)); [|lia]. destruct (Z.leb_spec 0 (sl_start s + i)); [|lia]. cbn [andb].
    unfold get. destruct (nth_error buf (Z.to_nat (sl_start s + i))) as [x|] eqn:E.
    - exists x. split; auto. unfold elems.
      assert (X : nth_error (skipn (Z.to_nat (sl_start s)) buf) (Z.to_nat i) = Some x).
      { rewrite <- E. replace (Z.to_nat (sl_start s + i)) with (Z.to_nat (sl_start s) + Z.to_nat i)%nat by lia.
        rewrite <- (firstn_skipn (Z.to_nat (sl_start s)) buf) at 2. rewrite nth_error_app2; rewrite firstn_length; [|lia]. f_equal. lia. }
      rewrite <- X. clear -Hi. revert Hi. generalize (skipn (Z.to_nat (sl_start s)) buf) as l. intros l Hi.
      assert (K : (Z.to_nat i < Z.to_nat (sl_len s))%nat) by lia. revert K. generalize (Z.to_nat i) (Z.to_nat (sl_len s)). clear.
      intros n m. revert m l. induction n as [|n IH]; intros [|m] [|x l] K; cbn; auto; try lia. apply IH. lia.
    - apply nth_error_None in E. lia. }
  split; [|split; [|split; [exact AT|]]].
  - intros b B. unfold slice_from. destruct (C167_sub_partial A buf w s b (sl_len s)) as (r & E & Ir & X); auto; try lia.
    + destruct (Z.eqb_spec (sl_len s) 0); [lia|]. unfold position. destruct (Z.ltb_spec b 0); lia.
    + exists r. split; auto. split; auto. rewrite X. destruct (Z.eqb_spec (sl_len s) 0); [lia|]. apply firstn_all2. rewrite skipn_length, LE. unfold position. destruct (Z.ltb_spec b 0); lia.
  - intros P. unfold slice_post_inc, slice_inc. destruct (Z.ltb_spec 0 (sl_len s)); [|lia]. cbn [bind]. eexists. split; [reflexivity|]. split; [reflexivity|].
    destruct (elems_sub buf s 1 (sl_len s - 1) I) as [X Y]; try lia. split; auto. rewrite X. change (Z.to_nat 1) with 1%nat.
    destruct (elems buf s) as [|x t] eqn:E; [cbn in LE; lia|]. exists x. cbn [skipn]. rewrite firstn_all2; auto. cbn in LE. lia.
  - intros P. destruct (AT 0 ltac:(lia)) as (x & X1 & X2). destruct (AT (sl_len s - 1) ltac:(lia)) as (y & Y1 & Y2). exists x, y.
    split; auto. split; auto. split; auto. rewrite LE. replace (Z.to_nat (sl_len s) - 1)%nat with (Z.to_nat (sl_len s - 1)) by lia. auto.
Qed.
Print Assumptions C167_access.

(* a negative end does not count from the back: the result reaches behind the slice *)
Theorem C167_sub_refuted :
  forall (A : Type) (buf : list A) (w : Z) (s : slice) (e : Z), 1 < w -> inside buf s -> 0 < sl_len s -> - sl_len s < e < 0 ->
  sl_start s + sl_len s = Z.of_nat (length buf) -> sl_len s - e < 2 ^ (w - 1) ->
  exists r, slice_sub w s 0 e = Ok r /\ sl_len r = sl_len s - e /\ ~ inside buf r.
Proof.
  intros A buf w s e W I P E T O. unfold slice_sub. pose proof I as (I1 & I2 & I3).
  destruct (Z.ltb_spec (Z.abs 0) (sl_len s)); [|lia]. destruct (Z.leb_spec e (sl_len s)); [|lia]. cbn [andb negb].
  rewrite bssMod_ok by lia. cbn [bind]. rewrite Z.mod_0_l by lia. destruct (Z.leb_spec e 0); [|lia]. rewrite sarith_ok by lia. cbn [bind].
  rewrite sarith_ok by lia. cbn [bind]. eexists. split; [reflexivity|]. cbn [sl_len]. split; [lia|]. unfold inside. cbn [sl_start sl_len]. lia.
Qed.
Print Assumptions C167_sub_refuted.

(* taking a part of a const slice never returns *)
Theorem C167_const_refuted : forall fuel s b e, slice_sub_const fuel s b e = OutOfFuel /\ slice_from_const fuel s b = OutOfFuel.
Proof.
  assert (H : forall fuel s b e, slice_sub_const fuel s b e = OutOfFuel) by (induction fuel; intros; cbn; auto).
  intros. split; auto. apply H.
Qed.
Print Assumptions C167_const_refuted.

Example C167_example :
  let buf := [10; 11; 12; 13; 14; 15] in let s := {| sl_start := 1; sl_len := 4 |} in
  inside buf s /\ elems buf s = [11; 12; 13; 14] /\
  (exists r, slice_sub 32 s (-3) 4 = Ok r /\ elems buf r = [12; 13; 14]) /\
  (exists r, slice_sub 32 s 1 3 = Ok r /\ elems buf r = [12; 13]) /\
  (exists r, slice_sub 32 s 0 (-1) = Ok r /\ elems buf r = [11; 12; 13; 14; 15]).
Proof. unfold inside. cbn [sl_start sl_len length]. repeat split; try lia; eexists; (split; [vm_compute; reflexivity|vm_compute; reflexivity]). Qed.

(* ---- C168 ---- *)
Section Range.
Local Open Scope nat_scope.

(* len values of the buffer are in use; the rest is room *)
Theorem C168_insert_range :
  forall (A : Type) (dest : list A) (len index : nat) (src : list A),
  index <= len -> len + length src <= length dest ->
  exists dest', InsertRangeSimple dest len index src = Ok dest' /\ length dest' = length dest /\
    firstn (len + length src) dest' = firstn index dest ++ src ++ firstn (len - index) (skipn index dest) /\
    skipn (len + length src) dest' = skipn (len + length src) dest.
Proof.
  intros A dest len index src I L. unfold InsertRangeSimple. destruct (Nat.leb_spec index len); [|lia]. unfold move_values.
  replace ((index + length src + (len - index) <=? length dest) && (index + (len - index) <=? length dest)) with true by lia. cbn [bind].
  set (d1 := firstn (index + length src) dest ++ firstn (len - index) (skipn index dest) ++ skipn (index + length src + (len - index)) dest).
  assert (L1 : length d1 = length dest) by (unfold d1; rewrite !app_length, !firstn_length, !skipn_length; lia).
  unfold copy_values. destruct (Nat.leb_spec (index + length src) (length d1)); [|lia].
  assert (F1 : firstn index d1 = firstn index dest).
  { unfold d1. rewrite firstn_app, firstn_firstn, firstn_length. replace (index - Nat.min (index + length src) (length dest)) with 0 by lia. rewrite app_nil_r. f_equal. lia. }
  assert (S1 : skipn (index + length src) d1 = firstn (len - index) (skipn index dest) ++ skipn (index + length src + (len - index)) dest).
  { unfold d1. rewrite skipn_app, firstn_length. rewrite skipn_all2 by (rewrite firstn_length; lia).
    replace (index + length src - Nat.min (index + length src) (length dest)) with 0 by lia. reflexivity. }
  rewrite F1, S1. eexists. split; [reflexivity|].
  assert (E : firstn index dest ++ src ++ firstn (len - index) (skipn index dest) ++ skipn (index + length src + (len - index)) dest =
    (firstn index dest ++ src ++ firstn (len - index) (skipn index dest)) ++ skipn (len + length src) dest).
  { rewrite <- !app_assoc. do 4 f_equal. lia. }
  assert (K : length (firstn index dest ++ src ++ firstn (len - index) (skipn index dest)) = len + length src) by (rewrite !app_length, !firstn_length, skipn_length; lia).
  rewrite E. split; [rewrite app_length, K, skipn_length; lia|]. rewrite <- K at 1 3.
  split; [rewrite firstn_app, Nat.sub_diag, firstn_all; cbn; apply app_nil_r|rewrite skipn_app, Nat.sub_diag, skipn_all; reflexivity].
Qed.

Theorem C168_remove_range :
  forall (A : Type) (dest : list A) (len index range : nat),
  index < len -> index + range <= len -> len <= length dest ->
  exists dest', RemoveRangeSimple dest len index range = Ok dest' /\ length dest' = length dest /\
    firstn (len - range) dest' = firstn index dest ++ firstn (len - index - range) (skipn (index + range) dest).
Proof.
  intros A dest len index range I R L. unfold RemoveRangeSimple. destruct (Nat.ltb_spec index len); [|lia]. destruct (Nat.leb_spec (index + range) len); [|lia]. cbn [andb].
  unfold move_values. replace ((index + (len - index - range) <=? length dest) && (index + range + (len - index - range) <=? length dest)) with true by lia.
  eexists. split; [reflexivity|]. split; [rewrite !app_length, !firstn_length, !skipn_length; lia|].
  set (u := firstn index dest ++ firstn (len - index - range) (skipn (index + range) dest)). rewrite app_assoc. fold u.
  assert (K : length u = len - range) by (unfold u; rewrite app_length, !firstn_length, skipn_length; lia).
  rewrite <- K, firstn_app, Nat.sub_diag, firstn_all. cbn. apply app_nil_r.
Qed.
End Range.
Print Assumptions C168_insert_range.
Print Assumptions C168_remove_range.

Example C168_example : InsertRangeSimple [1; 2; 3; 4; 0; 0; 9] 4 1 [7; 8] = Ok [1; 7; 8; 2; 3; 4; 9] /\
  RemoveRangeSimple [1; 7; 8; 2; 3; 4; 9] 6 1 2 = Ok [1; 2; 3; 4; 3; 4; 9].
Proof. split; reflexivity. Qed.
