(* Property C28: CompactArray behaves as a list, inline, on the heap and across the switch. *)
From Coq Require Import List Arith Bool Lia.
From Coq Require Import ZifyBool ZifyNat.
From Verif Require Import Common Growth CompactArray.
Import ListNotations.

Section Spec.
Context {T : Type} (I : nat).

(* what the array shows: element i is At i *)
Definition shows (s : compact T) (l : list (option T)) : Prop :=
  len s = length l /\ forall i x, nth_error l i = Some x -> At s i = Ok x.
Definition valid (o : c_op T) (l : list (option T)) : Prop :=
  match o with
  | OInsert _ i => i <= length l
  | ORemove i | OPut i _ => i < length l
  | _ => True
  end.
(* elements added by SetLength are unspecified *)
Definition effect (o : c_op T) (l l' : list (option T)) : Prop :=
  match o with
  | OAdd v => l' = l ++ [Some v]
  | OInsert v i => l' = firstn i l ++ [Some v] ++ skipn i l
  | ORemove i => l' = firstn i l ++ skipn (S i) l
  | OSetLength n => exists ext, l' = firstn n l ++ ext /\ length ext = n - length l
  | OClear => l' = []
  | OSet p => l' = map Some p
  | OPut i v => l' = firstn i l ++ [Some v] ++ skipn (S i) l
  | OAssign o | OMoveAssign o => shows o l'
  end.
Inductive reachable : compact T -> Prop :=
| r_new : reachable (new_compact I)
| r_step s o s' l : reachable s -> shows s l -> valid o l -> (forall x, o = OAssign x \/ o = OMoveAssign x -> reachable x) ->
    c_step I s o = Ok s' -> reachable s'.
End Spec.

Section Proofs.
Context {T : Type} (I : nat).
Notation cell := (option T).

Definition inv (s : compact T) (l : list cell) : Prop :=
  len s = length l /\ exists rest, begin s = l ++ rest /\
  match st s with Inline a => length a = I | Heap a => I < length a end.

Lemma inv_shows s l : inv s l -> shows s l.
Proof.
  intros (L & rest & B & _). split; auto. intros i x E. pose proof (nth_error_lt _ _ _ E). unfold At. replace (i <? len s) with true by lia.
  apply get_some. now rewrite B, nth_error_app1.
Qed.
Lemma shows_fun (s : compact T) l l' : shows s l -> shows s l' -> l = l'.
Proof.
  intros (A1 & A2) (B1 & B2). apply nth_error_ext_lt; [lia|]. intros i Hi.
  destruct (nth_error_ex l i) as (x & X); [lia|]. destruct (nth_error_ex l' i) as (y & Y); [lia|]. rewrite X, Y.
  pose proof (A2 _ _ X). pose proof (B2 _ _ Y). congruence.
Qed.
Lemma inv_new : inv (new_compact I) [].
Proof. split; [reflexivity|]. exists (repeat None I). split; [reflexivity|]. cbn. apply repeat_length. Qed.

Lemma setcap_ok s l cap : inv s l -> exists s', setCapacity I s cap = Ok s' /\ 
  (length l <= cap -> inv s' l /\ cap <= length (begin s')) /\
  (cap <= length l -> inv {| st := st s'; len := cap |} (firstn cap l)).
Proof.
  intros (L & rest & B & K). unfold setCapacity. destruct (Nat.ltb_spec I cap) as [H|H].
  - pose proof (fbnext_nat_gt cap) as G. set (c := fbnext_nat cap) in *. clearbody c.
    unfold begin in B. destruct (st s) as [a|a] eqn:S.
    + subst a. rewrite L. unfold slice. rewrite app_length in K. replace (0 + length l <=? length (l ++ rest)) with true by (rewrite app_length; lia).
      cbn [skipn bind]. rewrite firstn_app, firstn_all2, Nat.sub_diag by lia. cbn [firstn]. rewrite app_nil_r.
      unfold blit. rewrite repeat_length. cbn [Nat.add firstn app]. replace (length l <=? c) with true by lia. cbn [bind].
      eexists. split; [reflexivity|]. unfold inv, begin. cbn [st len].
      assert (LS : length (skipn (length l) (repeat (@None T) c)) = c - length l) by (rewrite skipn_length, repeat_length; lia).
      split; intros Hc.
      * split; [|rewrite app_length; lia]. split; auto. eexists. split; [reflexivity|]. rewrite app_length. lia.
      * split; [rewrite firstn_length; lia|]. exists (skipn cap l ++ skipn (length l) (repeat None c)).
        rewrite app_assoc, firstn_skipn. split; auto. rewrite app_length. lia.
    + eexists. split; [reflexivity|]. unfold inv, begin. cbn [st len]. split; intros Hc.
      * split; [|rewrite app_length, firstn_length, repeat_length; lia]. split; auto.
        exists (firstn (c - length l) rest ++ repeat None (c - length a)). rewrite B at 1. rewrite firstn_app, firstn_all2 by lia. rewrite <- app_assoc.
        split; auto. rewrite app_length, firstn_length, repeat_length. lia.
      * split; [rewrite firstn_length; lia|]. exists (skipn cap (firstn c a) ++ repeat None (c - length a)).
        split; [|rewrite app_length, firstn_length, repeat_length; lia].
        rewrite app_assoc. f_equal. rewrite <- (firstn_skipn cap (firstn c a)) at 1. f_equal. rewrite firstn_firstn, B.
        replace (Nat.min cap c) with cap by lia. rewrite firstn_app. replace (cap - length l) with 0 by lia. cbn [firstn]. now rewrite app_nil_r.
  - eexists. split; [reflexivity|]. split; intros Hc.
    + split; [split; eauto|]. unfold begin in *. destruct (st s); lia.
    + split; [cbn; rewrite firstn_length; lia|]. exists (skipn cap l ++ rest). unfold begin in *. cbn [st]. rewrite app_assoc, firstn_skipn. auto.
Qed.

Lemma blit_ok (a b c d : list cell) n : n = length a -> length b = length c -> blit (a ++ b ++ d) n c = Ok (a ++ c ++ d).
Proof.
  intros -> H. unfold blit. replace (length a + length c <=? length (a ++ b ++ d)) with true by (rewrite !app_length; lia).
  f_equal. rewrite firstn_app, firstn_all2, Nat.sub_diag by lia. cbn [firstn]. rewrite app_nil_r. f_equal. f_equal.
  rewrite app_assoc, skipn_app, skipn_all2 by (rewrite app_length; lia). rewrite app_length. replace (length a + length c - (length a + length b)) with 0 by lia. reflexivity.
Qed.
Lemma slice_ok (a b c : list cell) i n : i = length a -> n = length b -> slice (a ++ b ++ c) i n = Ok b.
Proof.
  intros -> ->. unfold slice. replace (length a + length b <=? length (a ++ b ++ c)) with true by (rewrite !app_length; lia). f_equal.
  rewrite skipn_app, skipn_all2, Nat.sub_diag by lia. cbn [skipn app]. rewrite firstn_app, firstn_all2, Nat.sub_diag by lia. cbn [firstn]. apply app_nil_r.
Qed.
Lemma begin_with (s : compact T) a n : begin (with_cells s a n) = a.
Proof. unfold begin, with_cells. cbn. now destruct (st s). Qed.
Lemma with_kind s (l : list cell) rest a n : begin s = l ++ rest -> length a = length (l ++ rest) ->
  match st s with Inline a => length a = I | Heap a => I < length a end ->
  match st (with_cells s a n) with Inline a => length a = I | Heap a => I < length a end.
Proof. unfold begin, with_cells. cbn. destruct (st s); intros -> H K; lia. Qed.

Lemma split3 {A} (l : list A) i : i < length l -> exists a x b, l = a ++ x :: b /\ length a = i.
Proof.
  intros H. destruct (nth_error_ex l i H) as (x & E). exists (firstn i l), x, (skipn (S i) l).
  split; [|rewrite firstn_length; lia]. rewrite <- (firstn_skipn i l) at 1. f_equal. now apply skipn_cons.
Qed.
Lemma firstn_len_app {A} (a b : list A) i : length a = i -> firstn i (a ++ b) = a.
Proof. intros <-. rewrite firstn_app, firstn_all, Nat.sub_diag. cbn. apply app_nil_r. Qed.
Lemma skipn_len_app {A} (a b : list A) i : length a = i -> skipn i (a ++ b) = b.
Proof. intros <-. rewrite skipn_app, skipn_all, Nat.sub_diag. reflexivity. Qed.

Definition done (s : compact T) (o : c_op T) (l : list cell) : Prop := exists s' l', c_step I s o = Ok s' /\ inv s' l' /\ effect o l l'.

Lemma add_ok s l v : inv s l -> done s (OAdd v) l.
Proof.
  intros J. unfold done. cbn [c_step effect]. unfold Add. destruct (setcap_ok s l (len s + 1) J) as (s1 & -> & P & _). cbn [bind].
  destruct J as (L & _). destruct P as ((L1 & rest & B & K) & C); [lia|]. rewrite L1. rewrite B in C |- *. rewrite app_length in C.
  destruct rest as [|r rest]; [cbn in C; lia|]. rewrite set_ok by (rewrite app_length; cbn; lia). cbn [bind].
  rewrite upd_app_r, Nat.sub_diag by lia. cbn [upd]. eexists _, _. split; [reflexivity|]. split; [|reflexivity].
  split; [cbn; rewrite app_length; cbn; lia|]. exists rest. rewrite begin_with, <- app_assoc. split; [reflexivity|].
  eapply with_kind; eauto. rewrite !app_length. reflexivity.
Qed.
Lemma remove_ok s l i : inv s l -> i < length l -> done s (ORemove i) l.
Proof.
  intros (L & rest & B & K) H. unfold done. cbn [c_step effect]. unfold Remove. replace (i <? len s) with true by lia. cbn [negb].
  destruct (split3 l i H) as (a & x & b & -> & LA). rewrite B. rewrite app_length in L. cbn [length] in L.
  replace ((a ++ x :: b) ++ rest) with ((a ++ [x]) ++ b ++ rest) by (rewrite <- !app_assoc; reflexivity).
  rewrite slice_ok by (rewrite ?app_length; cbn; lia). cbn [bind].
  (* the bytes of x :: b are overwritten by b, leaving the last slot stale *)
  assert (E : exists z, blit ((a ++ [x]) ++ b ++ rest) i b = Ok (a ++ b ++ z :: rest)).
  { destruct b as [|y b] using rev_ind.
    - exists x. rewrite <- app_assoc. apply (blit_ok a [] [] ([x] ++ rest)); auto.
    - exists y. clear IHb. replace ((a ++ [x]) ++ (b ++ [y]) ++ rest) with (a ++ (x :: b) ++ (y :: rest)) by (rewrite <- !app_assoc; reflexivity).
      rewrite (blit_ok a (x :: b) (b ++ [y]) (y :: rest)); auto; rewrite ?app_length; cbn; try lia. }
  destruct E as (z & E). rewrite E. cbn [bind]. eexists _, _. split; [reflexivity|]. split; [|reflexivity].
  rewrite firstn_len_app by auto. replace (skipn (S i) (a ++ x :: b)) with b.
  2:{ replace (a ++ x :: b) with ((a ++ [x]) ++ b) by now rewrite <- app_assoc. symmetry. apply skipn_len_app. rewrite app_length. cbn. lia. }
  split; [cbn; rewrite app_length; lia|]. exists (z :: rest). rewrite begin_with, <- app_assoc. split; [reflexivity|].
  eapply with_kind; eauto. rewrite !app_length. cbn. rewrite ?app_length. cbn. lia.
Qed.
Lemma insert_ok s l v i : inv s l -> i <= length l -> done s (OInsert v i) l.
Proof.
  intros J H. unfold done. cbn [c_step effect]. unfold Insert. destruct (setcap_ok s l (len s + 1) J) as (s1 & -> & P & _). cbn [bind].
  destruct J as (L & _). destruct P as ((L1 & rest & B & K) & C); [lia|]. replace (i <=? len s1) with true by lia. cbn [negb]. rewrite B in C |- *. rewrite app_length in C.
  destruct rest as [|r rest]; [cbn in C; lia|].
  pose proof (firstn_skipn i l) as SP. set (a := firstn i l) in *. set (b := skipn i l) in *.
  assert (LA : length a = i) by (subst a; rewrite firstn_length; lia). assert (LB : length b = length l - i) by (subst b; rewrite skipn_length; lia).
  replace (l ++ r :: rest) with (a ++ b ++ r :: rest) by (rewrite <- SP, <- app_assoc; reflexivity). rewrite slice_ok by lia. cbn [bind].
  assert (E : exists z, blit (a ++ b ++ r :: rest) (i + 1) b = Ok (a ++ [z] ++ b ++ rest)).
  { destruct b as [|y b].
    - exists r. cbn [app]. replace (a ++ r :: rest) with ((a ++ [r]) ++ [] ++ rest) by (rewrite <- app_assoc; reflexivity).
      rewrite (blit_ok (a ++ [r]) [] [] rest); rewrite ?app_length; cbn; auto; try lia.
    - exists y. replace (a ++ (y :: b) ++ r :: rest) with ((a ++ [y]) ++ (b ++ [r]) ++ rest) by (rewrite <- !app_assoc; reflexivity).
      rewrite (blit_ok (a ++ [y]) (b ++ [r]) (y :: b) rest); rewrite ?app_length; cbn; auto; try lia. now rewrite <- app_assoc. }
  destruct E as (z & E). rewrite E. cbn [bind]. rewrite (blit_ok a [z] [Some v] (b ++ rest)) by (cbn; auto). cbn [bind].
  eexists _, _. split; [reflexivity|]. split; [|reflexivity].
  split. { cbn [len with_cells]. rewrite !app_length. cbn [length]. lia. }
  exists rest. rewrite begin_with, <- !app_assoc. split; [reflexivity|].
  eapply with_kind; eauto. rewrite !app_length. cbn. rewrite ?app_length. cbn. lia.
Qed.
Lemma setlength_ok s l n : inv s l -> exists s' ext, SetLength I s n = Ok s' /\ length ext = n - length l /\ inv s' (firstn n l ++ ext).
Proof.
  intros J. unfold SetLength. destruct (setcap_ok s l n J) as (s1 & -> & P & Q). cbn [bind].
  destruct (Nat.le_gt_cases n (length l)) as [H|H].
  - exists {| st := st s1; len := n |}, []. split; [reflexivity|]. split; [cbn; lia|]. rewrite app_nil_r. auto.
  - destruct P as ((L & rest & B & K) & C); [lia|]. rewrite B, app_length in C.
    eexists _, (firstn (n - length l) rest). split; [reflexivity|]. rewrite firstn_length. split; [lia|].
    rewrite firstn_all2 by lia. split; [cbn; rewrite app_length, firstn_length; lia|].
    exists (skipn (n - length l) rest). rewrite <- app_assoc, firstn_skipn. auto.
Qed.
(* overwriting the whole contents *)
Lemma fill_ok s l c : inv s l -> length c = length l -> exists a, blit (begin s) 0 c = Ok a /\ inv (with_cells s a (len s)) c.
Proof.
  intros (L & rest & B & K) H. rewrite B. change (l ++ rest) with ([] ++ l ++ rest). rewrite (blit_ok [] l c rest) by auto.
  eexists. split; [reflexivity|]. split; [cbn; lia|]. exists rest. rewrite begin_with. split; [reflexivity|]. cbn [app].
  eapply with_kind; eauto. rewrite !app_length. lia.
Qed.
Lemma step_ok s l o : inv s l -> valid o l -> (forall x, o = OAssign x \/ o = OMoveAssign x -> exists lx, inv x lx) -> done s o l.
Proof.
  intros J V X. destruct o as [v|v i|i|n| |p|i v|o|o]; cbn [valid] in V.
  - now apply add_ok.
  - now apply insert_ok.
  - now apply remove_ok.
  - destruct (setlength_ok s l n J) as (s' & ext & E & E1 & E2). exists s', (firstn n l ++ ext). cbn. eauto.
  - exists {| st := st s; len := 0 |}, []. split; [reflexivity|]. split; [|reflexivity]. split; [reflexivity|].
    destruct J as (_ & rest & B & K). exists (l ++ rest). auto.
  - unfold done. cbn [c_step effect]. unfold Set_. destruct (setlength_ok s l (length p) J) as (s' & ext & E & E1 & E2). rewrite E. cbn [bind].
    destruct (fill_ok s' _ (map Some p) E2) as (a & F & F1); [rewrite map_length, app_length, firstn_length; lia|]. rewrite F. cbn [bind]. eauto.
  - unfold done. cbn [c_step effect]. unfold Put. destruct J as (L & rest & B & K). replace (i <? len s) with true by lia. cbn [negb].
    rewrite set_ok by (rewrite B, app_length; lia). cbn [bind]. eexists _, (upd l i (Some v)). split; [reflexivity|]. split; [|apply upd_split; auto].
    split; [cbn; now rewrite upd_length|]. exists rest. rewrite begin_with, B, upd_app_l by auto. split; [reflexivity|].
    eapply with_kind; eauto. now rewrite !app_length, upd_length.
  - destruct (X o) as (lx & JX); auto. unfold done. cbn [c_step effect]. unfold Assign. pose proof (inv_shows _ _ JX) as SX. destruct JX as (LX & rx & BX & _).
    destruct (setlength_ok s l (len o) J) as (s' & ext & E & E1 & E2). rewrite E. cbn [bind]. rewrite BX.
    change (lx ++ rx) with ([] ++ lx ++ rx). rewrite slice_ok by auto. cbn [bind].
    destruct (fill_ok s' _ lx E2) as (a & F & F1); [rewrite app_length, firstn_length; lia|]. rewrite F. cbn [bind]. eauto.
  - destruct (X o) as (lx & JX); auto. exists o, lx. split; [reflexivity|]. split; auto. now apply inv_shows.
Qed.
Lemma reachable_inv s : reachable I s -> exists l, inv s l.
Proof.
  induction 1 as [|s o s' l R IH H V X IX E]; [exists []; apply inv_new|]. destruct IH as (l0 & J).
  rewrite (shows_fun _ _ _ H (inv_shows _ _ J)) in *. destruct (step_ok s l0 o J V IX) as (s2 & l' & E' & J' & _). exists l'. congruence.
Qed.
End Proofs.

(* ---- C28 ---- *)
(** Every array obtained by valid calls shows some list; every valid call succeeds, and what the array then shows is
    that list changed as the call says.  Any inline size I; copy and move assignment included. *)
Theorem C28_CompactArray_list {T} (I : nat) (s : compact T) : reachable I s ->
  (exists l, shows s l) /\
  forall l o, shows s l -> valid o l -> (forall x, o = OAssign x \/ o = OMoveAssign x -> reachable I x) ->
    exists s' l', c_step I s o = Ok s' /\ shows s' l' /\ effect o l l'.
Proof.
  intros R. destruct (reachable_inv I s R) as (l & J). split; [exists l; now apply (inv_shows I)|].
  intros l0 o H V X. rewrite (shows_fun I _ _ _ H (inv_shows I _ _ J)) in *.
  destruct (step_ok I s l o J V) as (s' & l' & E & J' & F); [intros x Hx; apply reachable_inv; auto|].
  exists s', l'. split; auto. split; auto. now apply (inv_shows I).
Qed.
Print Assumptions C28_CompactArray_list.

(** Construction from an initializer list writes through the heap pointer even when the elements are stored inline:
    undefined for every non-empty list that fits inline. *)
Theorem C28_initializer_list_refuted {T} (I : nat) (l : list T) : l <> [] -> length l <= I -> from_list I l = UB.
Proof.
  intros N H. unfold from_list, SetLength, setCapacity. replace (I <? length l) with false by lia. cbn [bind].
  destruct l; [congruence|reflexivity].
Qed.
Print Assumptions C28_initializer_list_refuted.

(** SetCapacity below the length releases elements that are still counted. *)
Theorem C28_SetCapacity_refuted : exists (s s' : compact nat) l, reachable 2 s /\ shows s l /\ setCapacity 2 s 3 = Ok s' /\
  nth_error l 19 = Some (Some 19) /\ At s' 19 = UB.
Proof.
  set (l := seq 0 20).
  destruct (c_step 2 (new_compact 2) (OSet l)) as [s| |] eqn:E; [|vm_compute in E; discriminate|vm_compute in E; discriminate].
  assert (R : reachable 2 s). { apply (r_step 2 (new_compact 2) (OSet l) s []); auto; [constructor|apply (inv_shows 2), inv_new|cbn; auto|intros x [|]; discriminate]. }
  exists s. vm_compute in E. injection E as <-.
  eexists _, (map Some l). split; auto. split.
  - split; [reflexivity|]. intros i x. do 20 (destruct i as [|i]; [intros H; injection H as <-; reflexivity|]). destruct i; discriminate.
  - split; [vm_compute; reflexivity|]. split; reflexivity.
Qed.
Print Assumptions C28_SetCapacity_refuted.

(* Four adds cross from two inline slots to the heap; then an insertion and a removal. *)
Fixpoint crun {T} (I : nat) (s : compact T) (ops : list (c_op T)) : res (compact T) :=
  match ops with [] => Ok s | o :: t => do s1 <- c_step I s o; crun I s1 t end.
Example C28_example :
  (exists s, crun 2 (new_compact 2) [OAdd 1; OAdd 2; OAdd 3; OInsert 9 1; ORemove 0] = Ok s /\ firstn (len s) (begin s) = [Some 9; Some 2; Some 3]) /\
  reachable 2 (new_compact (T := nat) 2) /\ shows (new_compact (T := nat) 2) [] /\ valid (OInsert 5 0) (@nil (option nat)) /\
  ([1; 2] <> [] /\ length [1; 2] <= 2).
Proof.
  split; [|split; [|split; [|split]]].
  - eexists. split; [vm_compute; reflexivity|reflexivity].
  - constructor.
  - apply (inv_shows 2), inv_new.
  - cbn. lia.
  - split; [discriminate|cbn; lia].
Qed.
