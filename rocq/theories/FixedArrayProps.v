(* Properties C162 and C163: Array behaves as a list. *)
From Coq Require Import List Arith Bool Lia.
From Coq Require Import ZifyBool ZifyNat.
From Verif Require Import Common Growth DynArray DynArrayProps FixedArray.
Import ListNotations.

Section Spec.
Context {T : Type} (dflt : T) (m : mode).

(* new elements are default constructed, or indeterminate for plain data *)
Definition fresh (ext : list (cell T)) (n : nat) : Prop :=
  length ext = n /\ (m <> SIMPLE -> Forall (fun c => c = Val dflt) ext).

(* the effect of an operation on a list *)
Definition arr_effect (o : arr_op T) (l l' : list (cell T)) : Prop :=
  match o with
  | AAdd v => l' = l ++ [Val v]
  | AInsert v i => l' = firstn i l ++ [Val v] ++ skipn i l
  | ARemove i => l' = firstn i l ++ skipn (S i) l
  | ARemoveLast => l' = removelast l
  | ASetCapacity n => exists ext, l' = firstn n l ++ ext /\ fresh ext (n - length l)
  | ASetCapacityDiscard n => if n =? length l then l' = l else fresh l' n
  | AClear => l' = []
  | APut i v => l' = firstn i l ++ [Val v] ++ skipn (S i) l
  | ASet src => l' = map Val src
  | AAssign other => l' = other
  | AMoveAssign other => l' = other
  | AAppend other => l' = l ++ other
  end.

(* the arguments an operation accepts; copying is not available to move-only elements *)
Definition arr_valid (o : arr_op T) (l : list (cell T)) : Prop :=
  match o with
  | AInsert _ i => i <= length l
  | ARemove i | APut i _ => i < length l
  | ARemoveLast => l <> []
  | ASet _ | AAssign _ | AAppend _ => m <> MOVE
  | _ => True
  end.

(* the arrays a client can make *)
Inductive arr_reach : arr T -> Prop :=
| ar_new n s : arr_new dflt m n = Ok s -> arr_reach s
| ar_list l s : m <> MOVE -> arr_list m l = Ok s -> arr_reach s
| ar_copy t s : arr_reach t -> m <> MOVE -> arr_copy m t = Ok s -> arr_reach s
| ar_plus t u s : arr_reach t -> arr_reach u -> m <> MOVE -> arr_plus m t u = Ok s -> arr_reach s
| ar_step s o s' : arr_reach s -> arr_valid o s ->
    (forall other, o = AAssign other \/ o = AMoveAssign other \/ o = AAppend other -> arr_reach other) ->
    arr_step dflt m s o = Ok s' -> arr_reach s'.
End Spec.

Section Proofs.
Context {T : Type} (dflt : T) (m : mode).
Notation cell := (cell T).

Implicit Types (con rest src : list cell).

(* every element is a living object *)
Definition live (l : list cell) : Prop := is_simple m = false -> Forall isval l.

Lemma live_good l rest : live l -> (is_simple m = false -> Forall israw rest) -> good m l rest.
Proof. intros A B H. auto. Qed.
Lemma live_app a b : live a -> live b -> live (a ++ b).
Proof. intros A B H. apply Forall_app. auto. Qed.
Lemma live_firstn n a : live a -> live (firstn n a).
Proof. intros A H. specialize (A H). rewrite <- (firstn_skipn n a) in A. now apply Forall_app in A. Qed.
Lemma live_skipn n a : live a -> live (skipn n a).
Proof. intros A H. specialize (A H). rewrite <- (firstn_skipn n a) in A. now apply Forall_app in A. Qed.
Lemma live_map l : live (map Val l).
Proof. intros _. apply Forall_forall. intros c H. apply in_map_iff in H. destruct H as (v & <- & _). exists v. auto. Qed.
Lemma fresh_live ext n : fresh dflt m ext n -> live ext.
Proof. intros [_ F] H. assert (N : m <> SIMPLE) by (destruct m; discriminate). specialize (F N). revert F. apply Forall_impl. intros c ->. exists dflt. auto. Qed.

Lemma setCapacity_min (l : list cell) cap n : cap <= n -> setCapacity m l cap n = setCapacity m l cap cap.
Proof. intros H. unfold setCapacity. rewrite Nat.min_r, Nat.min_id by lia. reflexivity. Qed.

(* fitting the storage to the contents exactly *)
Lemma shrink con rest n : good m con rest -> length con <= n -> setCapacity m (con ++ rest) (length con) n = Ok con.
Proof.
  intros G H. rewrite setCapacity_min by lia. destruct (setCapacity_ok m con rest (length con) G) as (r & E & L & _); [lia|].
  rewrite app_length in L. destruct r; [|cbn in L; lia]. now rewrite app_nil_r in E.
Qed.

Lemma grow1 con : live con -> exists c, setCapacity m con (length con + 1) (length con) = Ok (con ++ [c]) /\ good m con [c].
Proof.
  intros A. destruct (setCapacity_ok m con [] (length con + 1)) as (r & E & L & G); [apply live_good; auto|lia|].
  rewrite app_nil_r in E. rewrite app_length in L. destruct r as [|c [|]]; cbn in L; try lia. eauto.
Qed.

Lemma insert_ok con v i : live con -> i <= length con -> arr_insert m con v i = Ok (firstn i con ++ [Val v] ++ skipn i con).
Proof.
  intros A H. unfold arr_insert. destruct (grow1 con A) as (c & -> & G). cbn [bind]. rewrite base_insert_ok by auto. now rewrite app_nil_r.
Qed.

Lemma remove_ok con i : live con -> i < length con -> arr_remove m con i = Ok (firstn i con ++ skipn (S i) con).
Proof.
  intros A H. unfold arr_remove. destruct (base_remove_ok m con [] i) as (c & Hc & E); [apply live_good; auto|auto|].
  rewrite app_nil_r in E. rewrite E. cbn [bind].
  assert (L : length con - 1 = length (firstn i con ++ skipn (S i) con)) by (rewrite app_length, firstn_length, skipn_length; lia).
  rewrite L at 1. apply shrink; [|lia]. apply live_good; [apply live_app; auto using live_firstn, live_skipn|]. intros S0. constructor; auto.
Qed.

Lemma clear_ok con : live con -> exists r, base_setLength dflt m con (length con) 0 = Ok r /\ (is_simple m = true \/ Forall israw r).
Proof.
  intros A. destruct (setLength_shrink dflt m con [] 0) as (r & E & _ & G); [apply live_good; auto|lia|].
  rewrite app_nil_r in E. cbn [firstn app] in *. exists r. split; auto. destruct (simple_dec m _ _ G) as [|(_ & _ & ?)]; auto.
Qed.

Lemma fill n : exists s, base_setLength dflt m (repeat Raw n) 0 n = Ok s /\ fresh dflt m s n.
Proof.
  destruct n as [|n].
  - exists []. unfold base_setLength. destruct (is_simple m); cbn; repeat split; auto.
  - destruct (setLength_grow dflt m [] (repeat Raw (S n)) (S n)) as (ext & r & E & L & L2 & F & G).
    + apply good_nil.
    + cbn [length]. lia.
    + cbn [app]. rewrite repeat_length. lia.
    + cbn [app length] in E, L. rewrite app_length, repeat_length in L2. destruct r; [|cbn [length] in L2; lia]. rewrite app_nil_r in E.
      exists ext. split; auto. split; [lia|]. intros N. apply F. destruct m; congruence || auto.
Qed.

Lemma copy_ok src : m <> MOVE -> live src -> base_copy m (repeat Raw (length src)) 0 src = Ok src.
Proof.
  intros N A. destruct (base_copy_ok m [] (repeat Raw (length src)) src) as (r & E & L & _); auto using good_nil; [rewrite repeat_length; lia|].
  cbn [app length] in *. rewrite app_length, repeat_length in L. destruct r; [|cbn in L; lia]. now rewrite app_nil_r in E.
Qed.

Lemma set_ok_ con src : m <> MOVE -> live con -> live src -> arr_set dflt m con src = Ok src.
Proof.
  intros N A B. unfold arr_set. destruct (clear_ok con A) as (r & -> & R). cbn [bind]. rewrite setCapacityDiscard_ok by auto. cbn [bind]. auto using copy_ok.
Qed.

Lemma append_ok con src : m <> MOVE -> live con -> live src -> arr_append m con src = Ok (con ++ src).
Proof.
  intros N A B. unfold arr_append. destruct (setCapacity_ok m con [] (length con + length src)) as (r & E & L & G); [apply live_good; auto|lia|].
  rewrite app_nil_r in E. rewrite E. cbn [bind]. rewrite app_length in L.
  destruct (base_copy_ok m con r src) as (r2 & -> & L2 & _); auto; [lia|]. rewrite !app_length in L2. destruct r2; [|cbn in L2; lia]. now rewrite app_nil_r.
Qed.

Lemma setCap_ok con n : live con -> exists ext, arr_setCapacity dflt m con n = Ok (firstn n con ++ ext) /\ fresh dflt m ext (n - length con).
Proof.
  intros A. unfold arr_setCapacity. destruct (Nat.eqb_spec n (length con)) as [->|Ne].
  { exists []. rewrite firstn_all, app_nil_r, Nat.sub_diag. split; auto. split; auto. }
  destruct (Nat.ltb_spec n (length con)).
  - destruct (Nat.ltb_spec (length con) n); [lia|]. destruct (setLength_shrink dflt m con [] n) as (r & E & L & G); [apply live_good; auto|lia|].
    rewrite app_nil_r in E. rewrite E. cbn [bind]. exists []. rewrite app_nil_r.
    assert (Ln : n = length (firstn n con)) by (rewrite firstn_length; lia). rewrite Ln at 2. rewrite shrink by (auto; lia). cbn [bind].
    split; auto. replace (n - length con) with 0 by lia. split; auto.
  - destruct (Nat.ltb_spec (length con) n); [|lia]. cbn [bind].
    destruct (setCapacity_ok m con [] n) as (r & E & L & G); [apply live_good; auto|lia|]. rewrite app_nil_r in E. rewrite E. cbn [bind].
    destruct (setLength_grow dflt m con r n G) as (ext & r2 & E2 & L2 & L3 & F & G2); [lia|lia|]. rewrite E2.
    rewrite !app_length in *. destruct r2; [|cbn in L3; lia]. rewrite app_nil_r. exists ext. rewrite firstn_all2 by lia. split; auto. split; auto.
    intros N. apply F. destruct m; congruence || auto.
Qed.

Lemma put_ok con i v : live con -> i < length con -> arr_put m con i v = Ok (firstn i con ++ [Val v] ++ skipn (S i) con).
Proof.
  intros A H. destruct (Put_ok m {| cells := con; len := length con |} con [] i v) as (s' & E & (E1 & _ & _)); auto.
  { split; [cbn; now rewrite app_nil_r|]. split; auto. apply live_good; auto. }
  unfold Put in E. cbn [cells len] in E. destruct (Nat.ltb_spec i (length con)); [|lia].
  change (if is_simple m then set con i (Val v) else assign con i v) with (arr_put m con i v) in E.
  destruct (arr_put m con i v); cbn [bind] in E; try discriminate. injection E as <-. cbn [cells] in E1. rewrite app_nil_r in E1. now rewrite E1.
Qed.

Lemma put_live con i v : live con -> live (firstn i con ++ [Val v] ++ skipn (S i) con).
Proof. intros A. apply live_app; [now apply live_firstn|]. apply live_app; [apply (live_map [v])|now apply live_skipn]. Qed.

Lemma arr_step_ok s o : live s -> arr_valid m o s ->
  (forall other, o = AAssign other \/ o = AMoveAssign other \/ o = AAppend other -> live other) ->
  exists s', arr_step dflt m s o = Ok s' /\ arr_effect dflt m o s s' /\ live s'.
Proof.
  intros A V O. destruct o as [v|v i|i| |n|n| |i v|src|other|other|other]; cbn [arr_step arr_effect arr_valid] in *.
  - unfold arr_add. rewrite insert_ok by auto. cbn [bind fst]. rewrite firstn_all, skipn_all. eexists. split; [reflexivity|]. split; auto.
    apply live_app; auto. apply (live_map [v]).
  - rewrite insert_ok by auto. eexists. split; [reflexivity|]. split; auto. apply live_app; [now apply live_firstn|]. apply live_app; [apply (live_map [v])|now apply live_skipn].
  - rewrite remove_ok by auto. eexists. split; [reflexivity|]. split; auto. apply live_app; auto using live_firstn, live_skipn.
  - unfold arr_removeLast. assert (0 < length s) by (destruct s; [congruence|cbn; lia]). destruct (Nat.eqb_spec (length s) 0); [lia|].
    rewrite remove_ok by (auto; lia). eexists. split; [reflexivity|]. rewrite skipn_all2, app_nil_r by lia.
    replace (length s - 1) with (pred (length s)) by lia. rewrite <- removelast_firstn_len. split; auto. rewrite removelast_firstn_len. now apply live_firstn.
  - destruct (setCap_ok s n A) as (ext & -> & F). eexists. split; [reflexivity|]. split; [eauto|]. apply live_app; [now apply live_firstn|]. eapply fresh_live; eauto.
  - unfold arr_setCapacityDiscard. destruct (Nat.eqb_spec n (length s)); [exists s; split; [reflexivity|]; split; [reflexivity|exact A]|]. destruct (clear_ok s A) as (r & -> & R). cbn [bind].
    rewrite setCapacityDiscard_ok by auto. cbn [bind]. destruct (fill n) as (t & -> & F). exists t. split; auto. split; auto. eapply fresh_live; eauto.
  - destruct (setCap_ok s 0 A) as (ext & -> & F). cbn [firstn app]. exists ext. destruct F as [F1 F2]. cbn in F1. destruct ext; [|cbn in F1; lia].
    split; auto. split; auto. intros _. constructor.
  - rewrite put_ok by auto. eexists. split; [reflexivity|]. split; auto using put_live.
  - rewrite set_ok_ by auto using live_map. eexists. split; [reflexivity|]. split; auto using live_map.
  - change (arr_assign dflt m s other) with (arr_set dflt m s other). rewrite set_ok_ by auto. exists other. split; [reflexivity|]. split; [reflexivity|auto].
  - unfold arr_moveAssign. destruct (clear_ok s A) as (r & -> & R). cbn [bind]. rewrite release_raw by auto. cbn [bind fst]. exists other. split; [reflexivity|]. split; [reflexivity|auto].
  - rewrite append_ok by auto. eexists. split; [reflexivity|]. split; auto using live_app.
Qed.

Lemma list_ok (l : list T) : arr_list m l = Ok (map Val l).
Proof.
  unfold arr_list. pose proof (copy_construct_ok m (map Val l) [] (repeat Raw (length l))) as E. cbn [app length] in E.
  rewrite E, map_length, skipn_all2, app_nil_r; try rewrite repeat_length; try rewrite map_length; auto.
  - cbn [bind]. pose proof (shrink (map Val l) [] (length l)) as F. rewrite map_length, app_nil_r in F. apply F; auto. apply live_good; auto using live_map.
  - apply Forall_forall. intros c H. apply in_map_iff in H. destruct H as (v & <- & _). exists v. auto.
  - right. apply raw_repeat.
Qed.

Lemma reach_live s : arr_reach dflt m s -> live s.
Proof.
  induction 1 as [n s E|l s N E|t s R IH N E|t u s R IH R' IH' N E|s o s' R IH V O IO E].
  - destruct (fill n) as (s2 & E2 & F). unfold arr_new in E. rewrite E in E2. injection E2 as <-. eapply fresh_live; eauto.
  - rewrite list_ok in E. injection E as <-. apply live_map.
  - unfold arr_copy in E. rewrite copy_ok in E by auto. injection E as <-. auto.
  - unfold arr_plus, arr_copy in E. rewrite copy_ok in E by auto. cbn [bind] in E. rewrite append_ok in E by auto. injection E as <-. auto using live_app.
  - destruct (arr_step_ok s o IH V IO) as (s2 & E2 & _ & L). rewrite E in E2. injection E2 as <-. auto.
Qed.
End Proofs.

(* Every valid call on every array a client can make succeeds (only slots inside the storage are touched,
   only raw slots are constructed and only objects destroyed) and has the effect of the list operation. *)
Theorem C162_Array_list :
  forall (T : Type) (dflt : T) (m : mode) (s : arr T) (o : arr_op T),
  arr_reach dflt m s -> arr_valid m o s ->
  (forall other, o = AAssign other \/ o = AMoveAssign other \/ o = AAppend other -> arr_reach dflt m other) ->
  exists s', arr_step dflt m s o = Ok s' /\ arr_effect dflt m o s s'.
Proof.
  intros T dflt m s o R V O. destruct (arr_step_ok dflt m s o (reach_live dflt m s R) V) as (s' & E & F & _); eauto.
  intros other H. apply (reach_live dflt m). auto.
Qed.
Print Assumptions C162_Array_list.

(* constructors, the copy, the sum, the index that Add returns, and the destructor, which leaves nothing *)
Theorem C162_Array_life :
  forall (T : Type) (dflt : T) (m : mode) (s t : arr T), arr_reach dflt m s -> arr_reach dflt m t ->
  (forall n, exists r, arr_new dflt m n = Ok r /\ length r = n /\ (m <> SIMPLE -> Forall (fun c => c = Val dflt) r)) /\
  (forall l : list T, arr_list m l = Ok (map Val l)) /\
  (m <> MOVE -> arr_copy m s = Ok s) /\
  (m <> MOVE -> arr_plus m s t = Ok (s ++ t)) /\
  (forall v, arr_add m s v = Ok (s ++ [Val v], length s)) /\
  (forall o, arr_moveAssign dflt m s t = Ok o -> o = (t, [])) /\
  (m <> SIMPLE -> Forall (fun c => exists v, c = Val v) s) /\
  arr_destroy dflt m s = Ok tt.
Proof.
  intros T dflt m s t R R'. pose proof (reach_live dflt m s R) as A. pose proof (reach_live dflt m t R') as B.
  split; [|split; [|split; [|split; [|split; [|split; [|split]]]]]].
  - intros n. destruct (fill dflt m n) as (r & E & F & G). exists r. auto.
  - intros l. apply list_ok.
  - intros N. unfold arr_copy. now rewrite copy_ok.
  - intros N. unfold arr_plus, arr_copy. rewrite copy_ok by auto. cbn [bind]. now apply append_ok.
  - intros v. unfold arr_add. rewrite insert_ok by auto. cbn [bind]. rewrite firstn_all, skipn_all. cbn [app]. rewrite app_length. cbn [length].
    do 2 f_equal. lia.
  - intros o E. unfold arr_moveAssign in E. destruct (clear_ok dflt m s A) as (r & E1 & Q). rewrite E1 in E. cbn [bind] in E. rewrite release_raw in E by auto. cbn [bind] in E. congruence.
  - intros N. apply A. destruct m; congruence || auto.
  - unfold arr_destroy. destruct (clear_ok dflt m s A) as (r & -> & Q). cbn [bind]. now apply release_raw.
Qed.
Print Assumptions C162_Array_life.

Example C162_example : exists s, arr_reach 0 SAFE s /\ s = map Val [9; 7; 3; 0; 0; 5; 6] /\ arr_valid SAFE (ARemove 6) s.
Proof.
  eexists. split.
  - eapply ar_step with (o := AAppend (map Val [5; 6])).
    + eapply ar_step with (o := ASetCapacity 5); [|exact I| |].
      * eapply ar_step with (s := map Val [9; 3]) (o := AInsert 7 1); [|cbn; lia| |].
        -- apply (ar_list 0 SAFE [9; 3]); [discriminate|]. vm_compute. reflexivity.
        -- intros ? [|[|]]; discriminate.
        -- vm_compute. reflexivity.
      * intros ? [|[|]]; discriminate.
      * vm_compute. reflexivity.
    + discriminate.
    + intros ? [|[|H]]; try discriminate. injection H as <-. apply (ar_list _ _ [5; 6]); [discriminate|]. vm_compute. reflexivity.
    + vm_compute. reflexivity.
  - split; [reflexivity|]. cbn. lia.
Qed.

(* ---- C163: the array itself as argument ---- *)

(* a + a is the list twice; moving an array into itself only empties it *)
Theorem C163_own_argument_partial :
  forall (T : Type) (dflt : T) (m : mode) (s : arr T), arr_reach dflt m s ->
  (m <> MOVE -> arr_plus m s s = Ok (s ++ s)) /\
  arr_moveAssignSelf dflt m s = Ok [] /\
  (s = [] -> m <> MOVE -> arr_assignSelf dflt m s = Ok s /\ arr_appendSelf m s = Ok (s ++ s)).
Proof.
  intros T dflt m s R. pose proof (reach_live dflt m s R) as A. split; [|split].
  - intros N. unfold arr_plus, arr_copy. rewrite copy_ok by auto. cbn [bind]. now apply append_ok.
  - unfold arr_moveAssignSelf. destruct (clear_ok dflt m s A) as (r & -> & Q). cbn [bind]. now rewrite release_raw.
  - intros -> N. unfold arr_assignSelf, arr_appendSelf. destruct m; cbn; auto; congruence.
Qed.
Print Assumptions C163_own_argument_partial.

Lemma copy_within_bound {T} m : forall n (c : arr T) at_ i r, copy_within m c at_ i n = Ok r -> n = 0 \/ at_ + n <= length c.
Proof.
  induction n as [|n IH]; intros c at_ i r E; [auto|]. right. cbn [copy_within] in E. destruct (get c i) as [x| |]; cbn [bind] in E; try discriminate.
  destruct x; try discriminate. unfold construct in E. destruct (get c at_) as [y| |] eqn:G; cbn [bind] in E; try discriminate.
  destruct (is_simple m || is_raw y); try discriminate. destruct (set c at_ (Val v)) as [c1| |] eqn:S1; cbn [bind] in E; try discriminate.
  apply set_inv in S1. destruct S1 as (L1 & ->). apply IH in E. rewrite upd_length in E. lia.
Qed.

(* a = a and a += a fail for every non-empty array: the one copies what was just destroyed, the other writes
   behind the storage *)
Theorem C163_own_argument_refuted :
  forall (T : Type) (dflt : T) (m : mode) (s : arr T), arr_reach dflt m s -> s <> [] ->
  (forall r, arr_assignSelf dflt m s <> Ok r) /\ (forall r, arr_appendSelf m s <> Ok r).
Proof.
  intros T dflt m s R N. assert (L : 0 < length s) by (destruct s; [congruence|cbn; lia]). split; intros r E.
  - unfold arr_assignSelf in E. destruct (base_setLength dflt m s (length s) 0) as [x| |]; cbn [bind] in E; try discriminate.
    destruct (setCapacityDiscard m x (length s)); cbn [bind] in E; try discriminate. destruct (Nat.eqb_spec (length s) 0); [lia|discriminate].
  - pose proof (reach_live dflt m s R) as A. unfold arr_appendSelf in E.
    destruct (setCapacity_ok m s [] (length s + length s)) as (r1 & E1 & L1 & _); [apply live_good; auto|lia|]. rewrite app_nil_r in E1. rewrite E1 in E. cbn [bind] in E.
    rewrite L1 in E. destruct (Nat.eqb_spec (length s + length s) 0); [lia|].
    destruct m; try discriminate.
    + destruct (Nat.leb_spec (length s + (length s + length s)) (length s + length s)); [lia|discriminate].
    + apply copy_within_bound in E. lia.
    + apply copy_within_bound in E. lia.
Qed.
Print Assumptions C163_own_argument_refuted.

Example C163_example : exists s, arr_reach 0 CONSTRUCT s /\ s = map Val [4; 5] /\ arr_plus CONSTRUCT s s = Ok (map Val [4; 5; 4; 5]).
Proof.
  exists (map Val [4; 5]). split; [|split; [reflexivity|vm_compute; reflexivity]].
  apply (ar_list _ _ [4; 5]); [discriminate|]. vm_compute. reflexivity.
Qed.
