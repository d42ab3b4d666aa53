(* Property C172: handing a BitStream from one object to another. *)
From Coq Require Import List ZArith Bool Lia Arith.
From Coq Require Import ZifyBool ZifyNat.
From Verif Require Import Common BitStreamSpec BitStream BitStreamProofs BitStreamProps BitHandover.
Import ListNotations.
Local Open Scope Z_scope.

(* a program writes [l] *)
Fixpoint writes (out : list Z) (b : bstream) (l : list (list Z * nat)) : res (list Z * bstream) :=
  match l with
  | [] => Ok (out, b)
  | (d, n) :: t => do r <- bs_write out b d n; writes (fst r) (snd r) t
  end.
(* one object that is destroyed after writing *)
Definition one_object (l : list (list Z * nat)) : res (list Z) :=
  do r <- writes [] bs_new l; Ok (bs_destroy (fst r) (snd r)).

(* The ways of going on with a second object after [l1]: the second object is made from the first, writes [l2],
   and the two are destroyed, the younger first. *)
Inductive way := ByMove | ByCopy | ByAssign | ByMoveAssign.
Definition hand_over (k : way) (first : bstream) : bstream * bstream :=
  match k with
  | ByMove => bs_move first
  | ByCopy => (bs_copy first, first)
  | ByAssign => (bs_assign bs_new first, first)
  | ByMoveAssign => bs_move_assign bs_new first
  end.
Definition two_objects (k : way) (l1 l2 : list (list Z * nat)) : res (list Z) :=
  do r1 <- writes [] bs_new l1;
  let (second, first) := hand_over k (snd r1) in
  do r2 <- writes (fst r1) second l2;
  Ok (bs_destroy (bs_destroy (fst r2) (snd r2)) first).
(* one object flushed in between, and at the end *)
Definition flushed (l1 l2 : list (list Z * nat)) : res (list Z) :=
  do r1 <- writes [] bs_new l1;
  do r2 <- writes (bs_flush (fst r1) (snd r1)) (snd r1) l2;
  Ok (bs_destroy (fst r2) (snd r2)).

Definition total (l : list (list Z * nat)) : nat := list_sum (map snd l).

(* ---------- proofs ---------- *)
Definition wof (out : list Z) (b : bstream) : writer := {| wbase := out; wbuf := b_buf b; woff := b_woff b |}.

Lemma write_all_writes : forall l out b, b_base b = true -> Forall good_write l -> winv (wof out b) ->
  exists out' b', writes out b l = Ok (out', b') /\ b_base b' = true /\ winv (wof out' b') /\
    content (wof out' b') = content (wof out b) ++ flat_map written l.
Proof.
  induction l as [|[d n] l IH]; intros out b B G W; cbn [writes].
  - exists out, b. cbn [flat_map]. rewrite app_nil_r. auto.
  - inversion G as [|? ? [H1 H2] G']; subst. cbn [fst snd] in *. unfold bs_write. rewrite B.
    destruct (Write_ok (wof out b) d n W H1 H2) as (s & E & I & C). unfold wof in E. rewrite E. cbn [bind fst snd].
    destruct (IH (wbase s) {| b_base := true; b_buf := wbuf s; b_roff := b_roff b; b_woff := woff s |}) as (o' & b' & E' & B' & W' & C'); auto.
    exists o', b'. repeat split; auto; try apply W'. rewrite C'. cbn [flat_map]. rewrite app_assoc. f_equal. destruct s; exact C.
Qed.

Lemma winv_new : winv (wof [] bs_new).
Proof. repeat split; cbn; try lia. constructor. Qed.
Lemma content_new : content (wof [] bs_new) = [].
Proof. reflexivity. Qed.

Lemma written_length p : good_write p -> length (written p) = snd p.
Proof. intros [_ H]. unfold written. rewrite firstn_length, mem_bits_length. lia. Qed.
Lemma flat_written l : Forall good_write l -> length (flat_map written l) = total l.
Proof. induction 1 as [|p l G F IH]; [reflexivity|]. cbn [flat_map]. rewrite app_length, written_length, IH by auto. reflexivity. Qed.

(* after writing [l] from the start *)
Lemma start l : Forall good_write l -> exists out b, writes [] bs_new l = Ok (out, b) /\ b_base b = true /\ winv (wof out b) /\
  content (wof out b) = flat_map written l /\ b_woff b = Z.of_nat (total l mod 8) /\ (length out = total l / 8)%nat.
Proof.
  intros G. destruct (write_all_writes l [] bs_new eq_refl G winv_new) as (out & b & E & B & W & C). rewrite content_new in C. cbn [app] in C.
  exists out, b. repeat split; auto; try apply W.
  all: pose proof (f_equal (@length bool) C) as L; rewrite flat_written in L by auto; unfold content in L; cbn [wbase woff wof] in L; rewrite app_length, mem_bits_length, bits_length in L; destruct W as (W1 & _); cbn [woff wof] in W1; rewrite <- L.
  - rewrite (Nat.mul_comm 8), Nat.add_comm, Nat.mod_add, Nat.mod_small by lia. lia.
  - rewrite (Nat.mul_comm 8), Nat.add_comm, Nat.div_add, Nat.div_small by lia. lia.
Qed.

Lemma aligned_buf out b : winv (wof out b) -> b_woff b = 0 -> b_buf b = 0.
Proof. intros (_ & H & _) E. cbn in H. rewrite E in H. cbn in H. lia. Qed.

Lemma writes_roff : forall l out b b2, b_base b = b_base b2 -> b_buf b = b_buf b2 -> b_woff b = b_woff b2 ->
  match writes out b l, writes out b2 l with
  | Ok (o, x), Ok (o2, y) => o = o2 /\ b_base x = b_base y /\ b_buf x = b_buf y /\ b_woff x = b_woff y
  | UB, UB => True | OutOfFuel, OutOfFuel => True | _, _ => False end.
Proof.
  induction l as [|[d n] l IH]; intros out b b2 E1 E2 E3; cbn [writes]; auto.
  unfold bs_write. rewrite <- E1, <- E2, <- E3. destruct (b_base b); cbn [bind]; auto. destruct (Write _ d n); cbn [bind fst snd]; auto; try (apply IH; reflexivity).
Qed.

Lemma one_object_split l1 l2 out b : writes [] bs_new l1 = Ok (out, b) -> 
  one_object (l1 ++ l2) = do r <- writes out b l2; Ok (bs_destroy (fst r) (snd r)).
Proof.
  intros E. unfold one_object. assert (H : forall l1 out b, (do r <- writes out b (l1 ++ l2); Ok (bs_destroy (fst r) (snd r))) =
    do q <- writes out b l1; do r <- writes (fst q) (snd q) l2; Ok (bs_destroy (fst r) (snd r))).
  { clear. induction l1 as [|[d n] l1 IH]; intros out b; [reflexivity|]. cbn [app writes]. destruct (bs_write out b d n); auto. cbn [bind]. apply IH. }
  rewrite H, E. reflexivity.
Qed.

(* A moved-to object continues exactly where the old one stopped.  The other ways do so if the first object
   stopped at the end of a byte.  What is missing is refuted below. *)
Theorem C172_handover_partial : forall l1 l2, Forall good_write l1 -> Forall good_write l2 ->
  two_objects ByMove l1 l2 = one_object (l1 ++ l2) /\
  ((total l1 mod 8 = 0)%nat -> forall k, two_objects k l1 l2 = one_object (l1 ++ l2)) /\
  ((total l1 mod 8 = 0)%nat -> flushed l1 l2 = one_object (l1 ++ l2)).
Proof.
  intros l1 l2 G1 G2. destruct (start l1 G1) as (out & b & E & B & W & _ & O & _).
  rewrite (one_object_split l1 l2 out b E). unfold two_objects, flushed. rewrite E. cbn [bind fst snd].
  assert (A : forall b2, b_base b2 = b_base b -> b_buf b2 = b_buf b -> b_woff b2 = b_woff b -> forall f, (f = b /\ b_woff b = 0) \/ b_base f = false ->
    (do r2 <- writes out b2 l2; Ok (bs_destroy (bs_destroy (fst r2) (snd r2)) f)) = do r <- writes out b l2; Ok (bs_destroy (fst r) (snd r))).
  { intros b2 E1 E2 E3 f F. pose proof (writes_roff l2 out b2 b E1 E2 E3) as R. destruct (writes out b2 l2) as [[o x]| |], (writes out b l2) as [[o2 y]| |]; try contradiction; auto.
    destruct R as (-> & Q1 & Q2 & Q3). cbn [bind fst snd]. f_equal. replace (bs_destroy o2 x) with (bs_destroy o2 y) by (unfold bs_destroy, bs_flush; rewrite Q1, Q2, Q3; reflexivity).
    unfold bs_destroy at 1. destruct F as [[-> Z]|F]; [|now rewrite F]. rewrite B. unfold bs_flush. rewrite Z. reflexivity. }
  split; [|split].
  - cbn [hand_over bs_move]. apply A; auto.
  - intros T. assert (Z : b_woff b = 0) by lia. pose proof (aligned_buf _ _ W Z) as Y.
    intros [| | |]; cbn [hand_over bs_move bs_move_assign]; apply A; cbn; auto; try congruence.
  - intros T. assert (Z : b_woff b = 0) by lia. unfold bs_flush. rewrite Z. reflexivity.
Qed.
Print Assumptions C172_handover_partial.

(* In the middle of a byte the others always go wrong: a copy, an assignment or a Flush writes too many bytes,
   a moving assignment loses the bits that were waiting. *)
Theorem C172_handover_refuted : forall l1, Forall good_write l1 -> (total l1 mod 8 <> 0)%nat ->
  (exists good bad, one_object (l1 ++ []) = Ok good /\ two_objects ByCopy l1 [] = Ok bad /\ length bad = S (length good)) /\
  (exists good bad, one_object (l1 ++ []) = Ok good /\ two_objects ByMoveAssign l1 [] = Ok bad /\ length bad = (length good - 1)%nat /\ length good <> 0%nat) /\
  (exists good bad, one_object (l1 ++ []) = Ok good /\ flushed l1 [] = Ok bad /\ length bad = S (length good)) /\
  (exists l2 good bad, Forall good_write l2 /\ one_object (l1 ++ l2) = Ok good /\ two_objects ByAssign l1 l2 = Ok bad /\ bad <> good).
Proof.
  intros l1 G1 T. destruct (start l1 G1) as (out & b & E & B & W & C & O & L).
  assert (NZ : (b_woff b =? 0) = false) by lia.
  assert (ONE : one_object (l1 ++ []) = Ok (out ++ [b_buf b])).
  { rewrite (one_object_split l1 [] out b E). cbn [writes bind fst snd]. unfold bs_destroy, bs_flush. rewrite B, NZ. reflexivity. }
  repeat split.
  - exists (out ++ [b_buf b]), ((out ++ [b_buf b]) ++ [b_buf b]). split; auto. split; [|rewrite (app_length (out ++ _)); cbn; lia].
    unfold two_objects. rewrite E. cbn [bind fst snd hand_over writes]. unfold bs_destroy, bs_flush, bs_copy. cbn [b_base b_woff b_buf]. rewrite B, NZ. reflexivity.
  - exists (out ++ [b_buf b]), out. split; auto. split; [|rewrite app_length; cbn; lia].
    unfold two_objects. rewrite E. cbn [bind fst snd hand_over writes bs_move_assign]. unfold bs_destroy, bs_flush. cbn [b_base b_woff b_buf bs_new]. destruct (b_base b); reflexivity.
  - exists (out ++ [b_buf b]), ((out ++ [b_buf b]) ++ [b_buf b]). split; auto. split; [|rewrite (app_length (out ++ _)); cbn; lia].
    unfold flushed. rewrite E. cbn [bind fst snd writes]. unfold bs_destroy, bs_flush. rewrite B, NZ. reflexivity.
  - pose proof (Nat.mod_upper_bound (total l1) 8).
    (* one byte [x] through the second object *)
    assert (H2 : forall x, byte x -> let l2 := [([x], 8%nat)] in Forall good_write l2 /\
      one_object (l1 ++ l2) = Ok (out ++ [wrap 8 (Z.lor (b_buf b) (Z.shiftl x (b_woff b)))] ++ [wrap 8 (Z.shiftr x (8 - b_woff b))]) /\
      two_objects ByAssign l1 l2 = Ok (out ++ [x] ++ [b_buf b])).
    { intros x X l2. split; [|split].
      - constructor; [|constructor]. split; [constructor; [exact X|constructor]|cbn; lia].
      - rewrite (one_object_split l1 l2 out b E). unfold l2. cbn [writes]. unfold bs_write. rewrite B. unfold Write. change (8 / 8)%nat with 1%nat. change (8 mod 8)%nat with 0%nat.
        cbn [write_loop get nth_error bind wbase wbuf woff Z.of_nat Z.eqb fst snd]. unfold bs_destroy, bs_flush. cbn [b_base b_woff b_buf]. rewrite NZ. rewrite <- app_assoc. reflexivity.
      - unfold two_objects. rewrite E. cbn [bind fst snd hand_over]. unfold l2. cbn [writes]. unfold bs_write, bs_assign, bs_new. cbn [b_base b_buf b_woff b_roff]. rewrite B. unfold Write. change (8 / 8)%nat with 1%nat. change (8 mod 8)%nat with 0%nat.
        cbn [write_loop get nth_error bind wbase wbuf woff Z.of_nat Z.eqb fst snd]. unfold bs_destroy, bs_flush. cbn [b_base b_woff b_buf]. rewrite B, NZ. cbn [Z.eqb]. rewrite <- app_assoc.
        rewrite Z.shiftl_0_r, Z.lor_0_l. unfold wrap. rewrite Z.mod_small by exact X. reflexivity. }
    destruct (Z.eq_dec (b_buf b) 0) as [Q|Q].
    + destruct (H2 255) as (G & A1 & A2); [split; lia|]. eexists _, _, _. split; [exact G|]. split; [exact A1|]. split; [exact A2|].
      intros EQ. apply app_inv_head in EQ. cbn [app] in EQ. injection EQ as E1 _. rewrite Q, Z.lor_0_l in E1.
      assert (TB : Z.testbit 255 0 = Z.testbit (wrap 8 (Z.shiftl 255 (b_woff b))) 0) by (f_equal; exact E1).
      unfold wrap in TB. rewrite Z.mod_pow2_bits_low, Z.shiftl_spec, (Z.testbit_neg_r 255 (0 - b_woff b)) in TB by lia. discriminate TB.
    + destruct (H2 0) as (G & A1 & A2); [split; lia|]. eexists _, _, _. split; [exact G|]. split; [exact A1|]. split; [exact A2|].
      intros EQ. apply app_inv_head in EQ. cbn [app] in EQ. injection EQ as _ E2. rewrite Z.shiftr_0_l in E2. unfold wrap in E2. rewrite Z.mod_0_l in E2 by lia. contradiction.
Qed.
Print Assumptions C172_handover_refuted.

Example C172_example :
  let l1 := [([5], 3%nat)] in let l2 := [([255; 1], 9%nat)] in
  Forall good_write l1 /\ Forall good_write l2 /\ (total l1 mod 8 <> 0)%nat /\
  one_object (l1 ++ l2) = Ok [253; 15] /\ two_objects ByMove l1 l2 = Ok [253; 15] /\
  two_objects ByCopy l1 l2 = Ok [253; 15; 5] /\ two_objects ByMoveAssign l1 l2 = Ok [255; 1] /\ flushed l1 l2 = Ok [5; 253; 15].
Proof. cbv zeta. repeat split; try (repeat constructor; cbn; lia); vm_compute; congruence. Qed.
