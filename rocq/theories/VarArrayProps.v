(* C211: arrays of variable length *)
From Coq Require Import List ZArith Bool Lia.
From Verif Require Import Common VarArray.
Open Scope Z_scope.

Lemma mask_land x : Z.land x HEAPMASK = x mod 2 ^ 63.
Proof. change HEAPMASK with (Z.ones 63). apply Z.land_ones. lia. Qed.
Lemma length_of (f : bool) n : 0 <= n -> Z.land (Z.lor (if f then HEAPFLAG else 0) (Z.land n HEAPMASK)) HEAPMASK = n mod 2 ^ 63.
Proof.
  intros N. rewrite Z.land_lor_distr_l. replace (Z.land (if f then HEAPFLAG else 0) HEAPMASK) with 0 by (destruct f; reflexivity). rewrite Z.lor_0_l, !mask_land. apply Z.mod_mod. discriminate.
Qed.
Lemma flag_of (f : bool) n : 0 <= n -> (Z.land (Z.lor (if f then HEAPFLAG else 0) (Z.land n HEAPMASK)) HEAPFLAG =? 0) = negb f.
Proof.
  intros N. rewrite Z.land_lor_distr_l. rewrite <- Z.land_assoc. replace (Z.land HEAPMASK HEAPFLAG) with 0 by reflexivity. rewrite Z.land_0_r, Z.lor_0_r. destruct f; reflexivity.
Qed.
Lemma construct_ok size : forall k i b, 0 < size -> (i + Z.of_nat k) * size <= bytes b ->
  exists b', construct size k i b = Ok b' /\ bytes b' = bytes b /\ on_heap b' = on_heap b /\ forall x, live b' x = ((i <=? x) && (x <? i + Z.of_nat k)) || live b x.
Proof.
  induction k as [|k IH]; intros i b SZ F; cbn [construct].
  - exists b. repeat split. intros x. replace ((i <=? x) && (x <? i + Z.of_nat 0)) with false by lia. reflexivity.
  - destruct (Z.leb_spec ((i + 1) * size) (bytes b)) as [_|Q]; [|nia]. destruct (IH (i + 1) (set b i true) SZ) as (b' & E & B & O & L); [cbn [bytes set]; nia|]. exists b'. repeat split; try assumption.
    intros x. rewrite L. cbn [live set]. destruct (Z.eqb_spec x i); destruct (live b x); lia.
Qed.
Lemma construct_out size : forall k i b, 0 < size -> 0 <= i -> (0 < k)%nat -> bytes b < (i + Z.of_nat k) * size -> construct size k i b = UB.
Proof.
  induction k as [|k IH]; intros i b SZ I K F; [lia|]. cbn [construct]. destruct (Z.leb_spec ((i + 1) * size) (bytes b)) as [Q|_]; [|reflexivity].
  apply IH; [lia|lia|destruct k; [exfalso; cbn in F; nia|lia]|cbn [bytes set]; nia].
Qed.
Lemma destroy_ok : forall k i b, (forall x, i <= x < i + Z.of_nat k -> live b x = true) ->
  exists b', destroy k i b = Ok b' /\ bytes b' = bytes b /\ on_heap b' = on_heap b /\ forall x, live b' x = negb ((i <=? x) && (x <? i + Z.of_nat k)) && live b x.
Proof.
  induction k as [|k IH]; intros i b F; cbn [destroy].
  - exists b. repeat split. intros x. replace ((i <=? x) && (x <? i + Z.of_nat 0)) with false by lia. reflexivity.
  - rewrite (F i) by lia. destruct (IH (i + 1) (set b i false)) as (b' & E & B & O & L).
    { intros x X. cbn [live set]. destruct (Z.eqb_spec x i); [lia|]. apply F. lia. }
    exists b'. repeat split; try assumption. intros x. rewrite L. cbn [live set]. destruct (Z.eqb_spec x i); destruct (live b x); lia.
Qed.

(** An array whose size in bytes is below 2^63 has the length asked for; all its elements lie in its block, and those and no others are constructed.  It is on the heap exactly if it takes more
    than 65535 bytes.  Its destructor destroys every element once and frees the block exactly if it is on the heap.  Missing: larger sizes, and a malloc that fails. *)
Theorem C211_lifetime_partial size tc td n : 0 < size -> (tc = true -> td = true) -> 0 <= n -> n * size < 2 ^ 63 ->
  exists b h, let v := VA (Some b) h in VARARRAY size tc true n = Ok v /\
    Length v = n /\ begin_ v = 0 /\ end_ v = n /\ (forall i, 0 <= i < n -> (i + 1) * size <= bytes b) /\ (forall i, live b i = negb tc && (0 <=? i) && (i <? n)) /\ on_heap b = (65535 <? n * size) /\
    exists b', dtor td v = Ok (Some b', on_heap b) /\ forall i, live b' i = td && live b i.
Proof.
  intros SZ TT N F. assert (NB : 0 <= n < 2 ^ 63) by nia. assert (W : word (n * size) = n * size) by (unfold word; apply Z.mod_small; nia). unfold VARARRAY. rewrite W.
  set (hp := 65535 <? n * size).
  assert (C : forall p, p = (if hp then None else Some (raw (n * size) false)) -> exists b, (forall i, live b i = negb tc && (0 <=? i) && (i <? n)) /\ bytes b = n * size /\ on_heap b = hp /\
     ctor size tc true n p = Ok (VA (Some b) (Z.lor (if hp then HEAPFLAG else 0) (Z.land n HEAPMASK)))).
  { intros p ->. unfold ctor. rewrite W. set (b0 := raw (n * size) hp).
    assert (Q : (match (if hp then None else Some (raw (n * size) false)) with Some b => Some b | None => Some (raw (n * size) true) end) = Some b0) by (unfold b0; now destruct hp). rewrite Q.
    assert (Q2 : (match (if hp then None else Some (raw (n * size) false)) with None => HEAPFLAG | Some _ => 0 end) = (if hp then HEAPFLAG else 0)) by now destruct hp. rewrite Q2.
    destruct tc; [exists b0; now repeat split|]. destruct (construct_ok size (Z.to_nat n) 0 b0 SZ) as (b & E & B & O & L); [cbn [b0 raw bytes]; rewrite Z2Nat.id by lia; lia|].
    exists b. rewrite E. cbn [bind]. split; [|now repeat split]. intros i. rewrite L. cbn [b0 raw live]. rewrite Z2Nat.id by lia. rewrite orb_false_r. reflexivity. }
  destruct (C _ eq_refl) as (b & L & B & O & E). exists b, (Z.lor (if hp then HEAPFLAG else 0) (Z.land n HEAPMASK)). cbv zeta. split; [exact E|].
  assert (LN : Length (VA (Some b) (Z.lor (if hp then HEAPFLAG else 0) (Z.land n HEAPMASK))) = n) by (unfold Length; cbn [_heap]; rewrite length_of by lia; apply Z.mod_small; lia).
  split; [exact LN|]. split; [reflexivity|]. split; [exact LN|]. split; [intros i I; rewrite B; nia|]. split; [exact L|]. split; [exact O|]. unfold dtor. rewrite LN. cbn [_p _heap]. rewrite flag_of by lia. destruct td.
  - exists b. split; [|reflexivity]. cbn [bind]. rewrite O. now destruct hp.
  - destruct tc; [discriminate (TT eq_refl)|]. destruct (destroy_ok (Z.to_nat n) 0 b) as (b' & E' & B' & O' & L'); [intros x X; rewrite L; lia|].
    exists b'. rewrite E'. cbn [bind]. split; [rewrite O', O; now destruct hp|]. intros i. rewrite L', L. cbn [negb andb]. lia.
Qed.
Print Assumptions C211_lifetime_partial.
(** Refuted: an array whose size in bytes does not fit in 64 bits is not refused.  Constructing its elements writes outside of its block; with nothing to construct, it has the length asked for
    and elements outside of its block *)
Theorem C211_overflow_refuted size n : 0 < size -> 0 <= n < 2 ^ 63 -> 2 ^ 64 <= n * size ->
  VARARRAY size false true n = UB /\ exists b h, VARARRAY size true true n = Ok (VA (Some b) h) /\ Length (VA (Some b) h) = n /\ bytes b < n * size /\ exists r, dtor true (VA (Some b) h) = Ok r.
Proof.
  intros SZ N F. assert (W : word (n * size) < n * size) by (unfold word; pose proof (Z.mod_pos_bound (n * size) (2 ^ 64) ltac:(lia)); lia). assert (NP : 0 < n) by nia. unfold VARARRAY, ctor.
  set (w := word (n * size)) in *. clearbody w. split.
  - assert (Q : forall h, construct size (Z.to_nat n) 0 (raw w h) = UB) by (intros h; apply construct_out; cbn [raw bytes]; lia). destruct (65535 <? w); rewrite Q; reflexivity.
  - exists (raw w (65535 <? w)), (Z.lor (if 65535 <? w then HEAPFLAG else 0) (Z.land n HEAPMASK)). split; [now destruct (65535 <? w)|]. split; [unfold Length; cbn [_heap]; rewrite length_of by lia; apply Z.mod_small; lia|].
    split; [exact W|]. unfold dtor. cbn [bind _p _heap]. rewrite flag_of by lia. destruct (65535 <? w); eexists; reflexivity.
Qed.
Print Assumptions C211_overflow_refuted.
(** Refuted: when malloc fails for a large array, the constructor writes through null; with nothing to construct the array has the length asked for and no memory *)
Theorem C211_malloc_refuted size n : 0 < size -> 0 <= n -> n * size < 2 ^ 63 -> 65535 < n * size ->
  VARARRAY size false false n = UB /\ exists h, VARARRAY size true false n = Ok (VA None h) /\ Length (VA None h) = n.
Proof.
  intros SZ N F L. assert (W : word (n * size) = n * size) by (unfold word; apply Z.mod_small; nia). unfold VARARRAY, ctor. rewrite W. destruct (Z.ltb_spec 65535 (n * size)) as [_|Q]; [|lia].
  destruct (Z.eqb_spec n 0) as [Q|_]; [lia|]. split; [reflexivity|]. eexists. split; [reflexivity|]. unfold Length. cbn [_heap]. rewrite (length_of true n N). apply Z.mod_small. nia.
Qed.
Print Assumptions C211_malloc_refuted.

(** three items of 24 bytes on the stack, constructed and destroyed; 2^60 + 1 items of 16 bytes get 16 bytes of the stack *)
Example C211_example : (exists b h, VARARRAY 24 false true 3 = Ok (VA (Some b) h) /\ bytes b = 72 /\ live b 2 = true /\ live b 3 = false /\ Length (VA (Some b) h) = 3 /\
    exists b', dtor false (VA (Some b) h) = Ok (Some b', false) /\ live b' 2 = false) /\
  (exists b h, VARARRAY 16 true true 10000 = Ok (VA (Some b) h) /\ on_heap b = true /\ Length (VA (Some b) h) = 10000) /\
  (exists b h, VARARRAY 16 true true (2 ^ 60 + 1) = Ok (VA (Some b) h) /\ bytes b = 16 /\ on_heap b = false /\ Length (VA (Some b) h) = 2 ^ 60 + 1) /\ VARARRAY 16 false true (2 ^ 60 + 1) = UB.
Proof.
  split; [do 2 eexists; split; [reflexivity|]; do 4 (split; [reflexivity|]); eexists; split; reflexivity|]. split; [do 2 eexists; repeat split|]. split; [do 2 eexists; repeat split|].
  apply (C211_overflow_refuted 16 (2 ^ 60 + 1)); lia.
Qed.
