(* Property C25: DynArray behaves as a list. *)
From Coq Require Import List Arith Bool Lia.
From Coq Require Import ZifyBool ZifyNat.
From Verif Require Import Common Growth DynArray.
Import ListNotations.

Section Spec.
Context {T : Type} (dflt : T) (m : mode).

(* what the array holds *)
Definition contents (s : dyn T) : list (cell T) := firstn (len s) (cells s).

(* the effect of an operation on a list *)
Definition effect (o : da_op T) (l l' : list (cell T)) : Prop :=
  match o with
  | OAdd v => l' = l ++ [Val v]
  | OInsert v i => l' = firstn i l ++ [Val v] ++ skipn i l
  | ORemove i => l' = firstn i l ++ skipn (S i) l
  | ORemoveLast => l' = removelast l
  | OSetLength n =>
      if n <=? length l then l' = firstn n l
      else exists ext, l' = l ++ ext /\ length ext = n - length l /\ (m <> SIMPLE -> Forall (fun c => c = Val dflt) ext)
  | OSetCapacity n => l' = l
  | OClear => l' = []
  | OPut i v => l' = firstn i l ++ [Val v] ++ skipn (S i) l
  | OSet src => l' = map Val src
  | OAssign other => l' = contents other
  | OMoveAssign other => l' = contents other
  | OAppend other => l' = l ++ contents other
  | OAppendSelf => l' = l ++ l
  end.

(* the arguments an operation accepts on a list; copying is not available to move-only elements *)
Definition valid (o : da_op T) (l : list (cell T)) : Prop :=
  match o with
  | OInsert _ i => i <= length l
  | ORemove i | OPut i _ => i < length l
  | ORemoveLast => l <> []
  | OSet _ | OAssign _ | OAppend _ | OAppendSelf => m <> MOVE
  | _ => True
  end.

(* the array objects a client can produce by valid calls; every array argument is one of them *)
Inductive reachable : dyn T -> Prop :=
| r_new c : reachable (da_new c)
| r_step s o s' : reachable s -> valid o (contents s) ->
    (forall other, o = OAssign other \/ o = OMoveAssign other \/ o = OAppend other -> reachable other) ->
    da_step dflt m s o = Ok s' -> reachable s'
| r_plus s t s' : reachable s -> reachable t -> m <> MOVE -> Plus m s t = Ok s' -> reachable s'
| r_copy t s' : reachable t -> m <> MOVE -> Copy m t = Ok s' -> reachable s'.
End Spec.

Section Proofs.
Context {T : Type} (dflt : T) (m : mode).
Notation cell := (cell T).
Implicit Types (con rest pre post : list cell).

Definition isval (c : cell) : Prop := exists v, c = Val v.
Definition israw (c : cell) : Prop := c = Raw.
Definition good con rest : Prop := is_simple m = false -> Forall isval con /\ Forall israw rest.

Lemma get_at pre x post : get (pre ++ x :: post) (length pre) = Ok x.
Proof. unfold get. rewrite nth_error_app2, Nat.sub_diag by lia. reflexivity. Qed.
Lemma set_at pre x post y : set (pre ++ x :: post) (length pre) y = Ok (pre ++ y :: post).
Proof. rewrite set_ok by (rewrite app_length; cbn; lia). rewrite upd_app_r, Nat.sub_diag by lia. reflexivity. Qed.

Lemma construct_at pre c post v : is_simple m = true \/ israw c ->
  construct m (pre ++ c :: post) (length pre) v = Ok (pre ++ Val v :: post).
Proof.
  intros H. unfold construct. rewrite get_at. cbn [bind].
  replace (is_simple m || is_raw c) with true by (destruct H as [->| ->]; [reflexivity|now rewrite orb_true_r]).
  apply set_at.
Qed.
Lemma destroy_at pre c post : c <> Raw -> destroy (pre ++ c :: post) (length pre) = Ok (pre ++ Raw :: post).
Proof. intros H. unfold destroy. rewrite get_at. cbn [bind]. destruct c; cbn [is_raw]; try congruence; apply set_at. Qed.
Lemma assign_at pre c post v : c <> Raw -> assign (pre ++ c :: post) (length pre) v = Ok (pre ++ Val v :: post).
Proof. intros H. unfold assign. rewrite get_at. cbn [bind]. destruct c; cbn [is_raw]; try congruence; apply set_at. Qed.
Lemma move_out_at pre v post : move_out (pre ++ Val v :: post) (length pre) = Ok (v, pre ++ Husk :: post).
Proof. unfold move_out. rewrite get_at. cbn [bind]. rewrite set_at. reflexivity. Qed.

Lemma set_at' pre x post y n : length pre = n -> set (pre ++ x :: post) n y = Ok (pre ++ y :: post).
Proof. intros <-. apply set_at. Qed.
Lemma construct_at' pre c post v n : length pre = n -> is_simple m = true \/ israw c ->
  construct m (pre ++ c :: post) n v = Ok (pre ++ Val v :: post).
Proof. intros <-. apply construct_at. Qed.
Lemma assign_at' pre c post v n : length pre = n -> c <> Raw -> assign (pre ++ c :: post) n v = Ok (pre ++ Val v :: post).
Proof. intros <-. apply assign_at. Qed.
Lemma destroy_at' pre c post n : length pre = n -> c <> Raw -> destroy (pre ++ c :: post) n = Ok (pre ++ Raw :: post).
Proof. intros <-. apply destroy_at. Qed.

Lemma snoc_app {A} (pre : list A) x (post : list A) : pre ++ x :: post = (pre ++ [x]) ++ post.
Proof. rewrite <- app_assoc. reflexivity. Qed.
Lemma snoc_len {A} (pre : list A) x : S (length pre) = length (pre ++ [x]).
Proof. rewrite app_length. cbn. lia. Qed.

Lemma destroy_range_ok mid : forall pre post, Forall (fun c => c <> Raw) mid ->
  destroy_range (pre ++ mid ++ post) (length pre) (length mid) = Ok (pre ++ repeat Raw (length mid) ++ post).
Proof.
  induction mid as [|c mid IH]; intros pre post H; cbn [destroy_range length app repeat]; auto.
  inversion H; subst. rewrite destroy_at by auto. cbn [bind]. rewrite (snoc_app pre), (snoc_len pre Raw), IH by auto.
  now rewrite <- app_assoc.
Qed.
Lemma construct_range_ok : forall n pre mid post, is_simple m = true \/ Forall israw mid -> length mid = n ->
  construct_range dflt m (pre ++ mid ++ post) (length pre) n = Ok (pre ++ repeat (Val dflt) n ++ post).
Proof.
  induction n as [|n IH]; intros pre mid post H L; destruct mid as [|c mid]; cbn [length] in L; try lia; cbn [construct_range app repeat]; auto.
  rewrite construct_at by (destruct H as [H|H]; [auto|inversion H; auto]). cbn [bind].
  rewrite (snoc_app pre), (snoc_len pre (Val dflt)), IH; [now rewrite <- app_assoc| |lia]. destruct H as [H|H]; [auto|inversion H; auto].
Qed.
Lemma isval_nraw con : Forall isval con -> Forall (fun c => c <> Raw) con.
Proof. apply Forall_impl. intros c [v ->]. discriminate. Qed.

Lemma move_construct_ok : forall vals pre raws post pre' post', Forall isval vals -> Forall israw raws -> length raws = length vals -> length pre = length pre' ->
  move_construct m (pre ++ raws ++ post) (pre' ++ vals ++ post') (length pre) (length vals) =
  Ok (pre ++ vals ++ post, pre' ++ repeat Husk (length vals) ++ post').
Proof.
  induction vals as [|c vals IH]; intros pre raws post pre' post' Hv Hr L Lp; destruct raws as [|r raws]; cbn [length] in L; try lia;
    cbn [move_construct length app repeat]; auto.
  inversion Hv as [|? ? [v ->] Hv']; inversion Hr; subst. rewrite Lp, move_out_at. cbn [bind]. rewrite <- Lp, construct_at by auto. cbn [bind].
  rewrite (snoc_app pre), (snoc_app pre'), (snoc_len pre (Val v)), IH; auto; [|rewrite !app_length; cbn; lia].
  now rewrite <- !app_assoc.
Qed.

Lemma release_raw l : is_simple m = true \/ Forall israw l -> release m l = Ok tt.
Proof.
  intros H. unfold release. replace (is_simple m || forallb is_raw l) with true; auto. destruct H as [->|H]; auto.
  symmetry. apply orb_true_iff. right. apply forallb_forall. intros c Hc. rewrite Forall_forall in H. now rewrite (H c Hc).
Qed.
Lemma raw_repeat n : Forall israw (repeat Raw n).
Proof. apply Forall_forall. intros c H. apply repeat_spec in H. exact H. Qed.
Lemma simple_dec con rest : good con rest -> is_simple m = true \/ is_simple m = false /\ Forall isval con /\ Forall israw rest.
Proof. unfold good. destruct (is_simple m); auto. Qed.

(* growing or shrinking the storage while keeping the contents *)
Lemma setCapacity_ok con rest cap : good con rest -> length con <= cap ->
  exists rest', setCapacity m (con ++ rest) cap (length con) = Ok (con ++ rest') /\ length (con ++ rest') = cap /\ good con rest'.
Proof.
  intros G Hc. unfold setCapacity.
  assert (A : forall b, is_simple m = b -> release m (skipn cap (con ++ rest)) = Ok tt).
  { intros b Hb. apply release_raw. destruct (simple_dec _ _ G) as [|(H & _ & H2)]; auto. right.
    rewrite skipn_app, (skipn_all2 con) by lia. cbn. rewrite <- (firstn_skipn (cap - length con) rest) in H2. now apply Forall_app in H2. }
  assert (B : exists rest', firstn cap (con ++ rest) ++ repeat Raw (cap - length (con ++ rest)) = con ++ rest' /\ length (con ++ rest') = cap /\ good con rest').
  { exists (firstn (cap - length con) rest ++ repeat Raw (cap - length (con ++ rest))).
    rewrite firstn_app, (firstn_all2 con) by lia. rewrite <- app_assoc. split; auto. split.
    - rewrite !app_length, firstn_length, repeat_length. lia.
    - intros H. destruct (G H) as [G1 G2]. split; auto. apply Forall_app. split; [|apply raw_repeat].
      rewrite <- (firstn_skipn (cap - length con) rest) in G2. now apply Forall_app in G2. }
  assert (C : is_simple m = false -> exists rest', (if cap =? 0 then do _ <- release m (con ++ rest); Ok (repeat Raw cap) else
     do (n1, old1) <- move_construct m (repeat Raw cap) (con ++ rest) 0 (Nat.min (length con) cap);
     do old2 <- destroy_range old1 0 (Nat.min (length con) cap); do _ <- release m old2; Ok n1) = Ok (con ++ rest') /\ length (con ++ rest') = cap /\ good con rest').
  { intros Hs. destruct (G Hs) as [G1 G2]. destruct (Nat.eqb_spec cap 0).
    - exists []. subst. assert (length con = 0) by lia. destruct con; [|cbn in *; lia]. cbn [app]. rewrite release_raw by auto. cbn. repeat split; auto.
    - rewrite Nat.min_l by lia. exists (repeat Raw (cap - length con)).
      replace cap with (length con + (cap - length con)) at 1 by lia. rewrite repeat_app.
      pose proof (move_construct_ok con [] (repeat Raw (length con)) (repeat Raw (cap - length con)) [] rest G1 (raw_repeat _)) as E.
      rewrite repeat_length in E. cbn [length app] in E. rewrite E by auto. cbn [bind].
      pose proof (destroy_range_ok (repeat Husk (length con)) [] rest) as E2. rewrite repeat_length in E2. cbn [length app] in E2.
      rewrite E2. 2:{ apply Forall_forall. intros c Hc'. apply repeat_spec in Hc'. subst. discriminate. }
      cbn [bind]. rewrite release_raw. 2:{ right. apply Forall_app. split; [apply raw_repeat|auto]. }
      cbn [bind]. split; auto. split; [rewrite app_length, repeat_length; lia|]. intros _. split; [auto|apply raw_repeat]. }
  unfold good in *. destruct m; cbn [is_simple] in *.
  - rewrite (A true) by auto. cbn [bind]. destruct B as (r & -> & B). eauto.
  - rewrite (A false) by auto. cbn [bind]. destruct B as (r & -> & B). eauto.
  - apply C. auto.
  - apply C. auto.
Qed.

Lemma setCapacityDiscard_ok l cap : is_simple m = true \/ Forall israw l -> setCapacityDiscard m l cap = Ok (repeat Raw cap).
Proof. intros H. unfold setCapacityDiscard. rewrite release_raw by auto. reflexivity. Qed.

(* shrinking _setLength *)
Lemma setLength_shrink con rest n : good con rest -> n <= length con ->
  exists rest', base_setLength dflt m (con ++ rest) (length con) n = Ok (firstn n con ++ rest') /\
    length (firstn n con ++ rest') = length (con ++ rest) /\ good (firstn n con) rest'.
Proof.
  intros G Hn. unfold base_setLength. destruct (simple_dec _ _ G) as [H|(H & G1 & G2)]; rewrite H.
  - exists (skipn n con ++ rest). rewrite app_assoc, firstn_skipn. repeat split; auto; intros; congruence.
  - exists (repeat Raw (length con - n) ++ rest).
    assert (E : con ++ rest = firstn n con ++ skipn n con ++ rest) by (rewrite app_assoc, firstn_skipn; auto).
    pose proof (destroy_range_ok (skipn n con) (firstn n con) rest) as E2.
    rewrite skipn_length, firstn_length, Nat.min_l in E2 by lia. rewrite E, E2.
    2:{ apply isval_nraw. rewrite <- (firstn_skipn n con) in G1. now apply Forall_app in G1. }
    cbn [bind]. replace (n - length con) with 0 by lia. cbn [construct_range]. split; auto. split.
    + rewrite !app_length, repeat_length, skipn_length. lia.
    + intros _. split; [rewrite <- (firstn_skipn n con) in G1; now apply Forall_app in G1|]. apply Forall_app. split; auto. apply raw_repeat.
Qed.

Lemma setLength_grow con rest n : good con rest -> length con < n -> n <= length (con ++ rest) ->
  exists ext rest', base_setLength dflt m (con ++ rest) (length con) n = Ok (con ++ ext ++ rest') /\
    length ext = n - length con /\ length (ext ++ rest') = length rest /\
    (is_simple m = false -> Forall (fun c => c = Val dflt) ext) /\ good (con ++ ext) rest'.
Proof.
  intros G Hn Hl. rewrite app_length in Hl. unfold base_setLength. destruct (simple_dec _ _ G) as [H|(H & G1 & G2)]; rewrite H.
  - exists (firstn (n - length con) rest), (skipn (n - length con) rest). rewrite firstn_skipn, firstn_length. repeat split; auto; intros; try congruence. lia.
  - exists (repeat (Val dflt) (n - length con)), (skipn (n - length con) rest).
    replace (length con - n) with 0 by lia. cbn [destroy_range bind].
    assert (R : Forall israw (firstn (n - length con) rest) /\ Forall israw (skipn (n - length con) rest)).
    { apply Forall_app. now rewrite firstn_skipn. } destruct R as [R1 R2].
    pose proof (construct_range_ok (n - length con) con (firstn (n - length con) rest) (skipn (n - length con) rest) (or_intror R1)) as E.
    rewrite firstn_skipn, firstn_length in E. rewrite E by lia. split; auto. rewrite app_length, repeat_length, skipn_length. split; auto. split; [lia|].
    split; [intros _; apply Forall_forall; intros c Hc; apply repeat_spec in Hc; auto|].
    intros _. split; auto. apply Forall_app. split; auto. apply Forall_forall. intros c Hc. apply repeat_spec in Hc. exists dflt. auto.
Qed.

(* copying objects of another array behind the contents *)
Lemma copy_construct_ok : forall src pre raws, Forall isval src -> is_simple m = true \/ Forall israw raws -> length src <= length raws ->
  copy_construct m (pre ++ raws) (length pre) src = Ok (pre ++ src ++ skipn (length src) raws).
Proof.
  induction src as [|c src IH]; intros pre raws Hs Hr L; cbn [copy_construct length app]; auto.
  destruct raws as [|r raws]; cbn [length] in L; [lia|]. inversion Hs as [|? ? [v ->] Hs']; subst. cbn [skipn].
  rewrite construct_at by (destruct Hr as [H|H]; [auto|inversion H; auto]). cbn [bind].
  rewrite (snoc_app pre), (snoc_len pre (Val v)), IH; auto; [now rewrite <- app_assoc| |lia]. destruct Hr as [H|H]; [auto|inversion H; auto].
Qed.

Lemma base_copy_ok con rest src : m <> MOVE \/ src = [] -> good con rest -> (is_simple m = false -> Forall isval src) -> length src <= length rest ->
  exists rest', base_copy m (con ++ rest) (length con) src = Ok ((con ++ src) ++ rest') /\
    length ((con ++ src) ++ rest') = length (con ++ rest) /\ good (con ++ src) rest'.
Proof.
  intros Hm G Hs L. unfold base_copy. destruct src as [|c src'] eqn:E.
  { exists rest. rewrite !app_nil_r. auto. }
  assert (Hne : src <> []) by (rewrite E; discriminate). rewrite <- E in *. clear E src' c. exists (skipn (length src) rest).
  assert (LL : length ((con ++ src) ++ skipn (length src) rest) = length (con ++ rest)) by (rewrite !app_length, skipn_length; lia).
  assert (GG : good (con ++ src) (skipn (length src) rest)).
  { intros H. destruct (G H) as [G1 G2]. split; [apply Forall_app; auto|]. rewrite <- (firstn_skipn (length src) rest) in G2. now apply Forall_app in G2. }
  assert (CC : is_simple m = false -> copy_construct m (con ++ rest) (length con) src = Ok ((con ++ src) ++ skipn (length src) rest)).
  { intros H. destruct (G H) as [G1 G2]. rewrite copy_construct_ok; auto. now rewrite <- app_assoc. }
  destruct m; cbn [is_simple] in *.
  - rewrite app_length. destruct (Nat.leb_spec (length con + length src) (length con + length rest)); [|lia].
    rewrite firstn_app, Nat.sub_diag, firstn_all. cbn [firstn]. rewrite app_nil_r.
    rewrite skipn_app, (skipn_all2 con) by lia. replace (length con + length src - length con) with (length src) by lia.
    cbn [app]. split; [now rewrite <- app_assoc|]. split; auto. rewrite LL. apply app_length.
  - rewrite CC by auto. auto.
  - rewrite CC by auto. auto.
  - destruct Hm as [Hm|Hm]; congruence.
Qed.

Lemma move_backward_ok : forall vals pre post, Forall isval vals ->
  move_backward (pre ++ vals ++ Husk :: post) (length pre) (length pre + length vals) = Ok (pre ++ Husk :: vals ++ post).
Proof.
  intros vals. induction vals as [|c vals IH] using rev_ind; intros pre post Hv.
  - cbn [length app]. rewrite Nat.add_0_r. destruct (length pre) eqn:E; cbn [move_backward]; auto.
    destruct (Nat.ltb_spec (S n) (S n)); [lia|]. auto.
  - apply Forall_app in Hv. destruct Hv as [Hv Hc]. inversion Hc as [|? ? [v ->] _]; subst. rewrite app_length. cbn [length].
    replace (length pre + (length vals + 1)) with (S (length pre + length vals)) by lia. cbn [move_backward].
    destruct (Nat.ltb_spec (length pre) (S (length pre + length vals))); [|lia].
    rewrite <- app_assoc. cbn [app].
    replace (pre ++ vals ++ Val v :: Husk :: post) with ((pre ++ vals) ++ Val v :: Husk :: post) by (rewrite <- app_assoc; auto).
    replace (length pre + length vals) with (length (pre ++ vals)) by (rewrite app_length; auto).
    rewrite move_out_at. cbn [bind]. rewrite (snoc_app (pre ++ vals)), (snoc_len (pre ++ vals) Husk).
    rewrite assign_at by discriminate. cbn [bind]. rewrite <- !app_assoc. cbn [app].
    rewrite app_length, IH by auto. reflexivity.
Qed.

Lemma move_forward_ok : forall vals pre c post, Forall isval vals -> c <> Raw ->
  exists c', c' <> Raw /\ move_forward (pre ++ c :: vals ++ post) (length pre + 1) (length vals) = Ok (pre ++ vals ++ c' :: post).
Proof.
  induction vals as [|x vals IH]; intros pre c post Hv Hc; cbn [move_forward length app].
  - exists c. auto.
  - inversion Hv as [|? ? [v ->] Hv']; subst.
    rewrite (snoc_app pre c), Nat.add_1_r, (snoc_len pre c), move_out_at. cbn [bind]. rewrite <- snoc_len, Nat.sub_succ, Nat.sub_0_r.
    rewrite <- app_assoc. cbn [app]. rewrite assign_at by auto. cbn [bind].
    destruct (IH (pre ++ [Val v]) Husk post Hv') as (c' & Hc' & E); [discriminate|]. exists c'. split; auto.
    rewrite (snoc_app pre (Val v)). replace (S (S (length pre))) with (length (pre ++ [Val v]) + 1) by (rewrite app_length; cbn; lia).
    rewrite E, <- app_assoc. reflexivity.
Qed.

Lemma firstn_app_exact {A} (a b : list A) : firstn (length a) (a ++ b) = a.
Proof. rewrite firstn_app, Nat.sub_diag, firstn_all. cbn. apply app_nil_r. Qed.
Lemma skipn_app_exact {A} (a b : list A) : skipn (length a) (a ++ b) = b.
Proof. rewrite skipn_app, Nat.sub_diag, skipn_all. reflexivity. Qed.

Lemma memmove_up pre mid c post : memmove (pre ++ mid ++ c :: post) (length pre + 1) (length pre) (length mid) =
  Ok (firstn (length pre + 1) (pre ++ mid ++ c :: post) ++ mid ++ post).
Proof.
  unfold memmove. rewrite !app_length. cbn [length].
  destruct (Nat.leb_spec (length pre + 1 + length mid) (length pre + (length mid + S (length post)))); [|lia].
  destruct (Nat.leb_spec (length pre + length mid) (length pre + (length mid + S (length post)))); [|lia]. cbn [andb].
  rewrite skipn_app_exact, firstn_app_exact. do 3 f_equal.
  replace (pre ++ mid ++ c :: post) with ((pre ++ mid ++ [c]) ++ post) by (rewrite <- !app_assoc; auto).
  replace (length pre + 1 + length mid) with (length (pre ++ mid ++ [c])) by (rewrite !app_length; cbn; lia). apply skipn_app_exact.
Qed.

Lemma base_insert_ok con c rest i v : good con (c :: rest) -> i <= length con ->
  base_insert m (con ++ c :: rest) (length con) i v = Ok (firstn i con ++ [Val v] ++ skipn i con ++ rest).
Proof.
  intros G Hi. unfold base_insert. destruct (Nat.leb_spec i (length con)); [|lia]. cbn [negb].
  assert (Lf : length (firstn i con) = i) by (rewrite firstn_length; lia).
  assert (Ec : con = firstn i con ++ skipn i con) by (now rewrite firstn_skipn).
  assert (MM : is_simple m = true \/ israw c ->
     (do top <- get (con ++ c :: rest) (length con); if negb (is_simple m || is_raw top) then UB else
       do c1 <- memmove (con ++ c :: rest) (i + 1) i (length con - i); do c2 <- (if is_simple m then Ok c1 else set c1 i Raw); construct m c2 i v) =
     Ok (firstn i con ++ [Val v] ++ skipn i con ++ rest)).
  { intros Hr. rewrite get_at. cbn [bind]. replace (is_simple m || is_raw c) with true by (destruct Hr as [->| ->]; [auto|now rewrite orb_true_r]).
    cbn [negb]. pose proof (memmove_up (firstn i con) (skipn i con) c rest) as E. rewrite Lf, skipn_length in E.
    rewrite app_assoc, <- Ec in E. rewrite E. cbn [bind].
    assert (exists x, firstn (i + 1) (con ++ c :: rest) = firstn i con ++ [x]) as [x Ex].
    { destruct (nth_error (con ++ c :: rest) i) as [x|] eqn:En.
      - exists x. rewrite Nat.add_1_r, (firstn_snoc _ _ _ En). f_equal. rewrite firstn_app. replace (i - length con) with 0 by lia. apply app_nil_r.
      - apply nth_error_None in En. rewrite app_length in En. cbn in En. lia. }
    rewrite Ex, <- app_assoc. cbn [app].
    assert (E2 : (if is_simple m then Ok (firstn i con ++ x :: skipn i con ++ rest) else set (firstn i con ++ x :: skipn i con ++ rest) i Raw) =
      Ok (firstn i con ++ (if is_simple m then x else Raw) :: skipn i con ++ rest)).
    { destruct (is_simple m); auto. now apply set_at'. }
    rewrite E2. cbn [bind]. rewrite construct_at'; auto. destruct (is_simple m); [auto|right; reflexivity]. }
  assert (SS : is_simple m = false -> 
    (if i <? length con then do (v0, c1) <- move_out (con ++ c :: rest) (length con - 1); do c2 <- construct m c1 (length con) v0;
      do c3 <- move_backward c2 i (length con - 1); assign c3 i v else construct m (con ++ c :: rest) i v) =
    Ok (firstn i con ++ [Val v] ++ skipn i con ++ rest)).
  { intros Hs. destruct (G Hs) as [G1 G2]. inversion G2; subst. destruct (Nat.ltb_spec i (length con)).
    - assert (Hne : skipn i con <> []) by (intros E; apply (f_equal (@length _)) in E; rewrite skipn_length in E; cbn in E; lia).
      destruct (exists_last Hne) as (vals & x & Ev). rewrite Ec in G1. apply Forall_app in G1. destruct G1 as [Ga Gb]. rewrite Ev in Gb.
      apply Forall_app in Gb. destruct Gb as [Gb Gc]. inversion Gc as [|? ? [y ->] _]; subst.
      assert (Lv : length con = i + length vals + 1) by (rewrite Ec, app_length, Lf, Ev, app_length; cbn; lia).
      rewrite Ev. set (p := firstn i con) in *. rewrite Ec, Ev. 
      replace ((p ++ vals ++ [Val y]) ++ c :: rest) with ((p ++ vals) ++ Val y :: c :: rest) by (rewrite <- !app_assoc; reflexivity).
      replace (length (p ++ vals ++ [Val y])) with (S (length (p ++ vals))) by (rewrite !app_length; cbn; lia).
      rewrite Nat.sub_succ, Nat.sub_0_r, move_out_at. cbn [bind].
      rewrite (snoc_app (p ++ vals) Husk), (snoc_len (p ++ vals) Husk), construct_at by auto. cbn [bind].
      replace (((p ++ vals) ++ [Husk]) ++ Val y :: rest) with (p ++ vals ++ Husk :: Val y :: rest) by (rewrite <- !app_assoc; reflexivity).
      pose proof (move_backward_ok vals p (Val y :: rest) Gb) as E. rewrite Lf in E. rewrite app_length, Lf, E. cbn [bind].
      rewrite assign_at' by (auto; discriminate). rewrite <- !app_assoc. reflexivity.
    - assert (i = length con) by lia. subst i. rewrite construct_at by auto. rewrite firstn_all, skipn_all. reflexivity. }
  assert (Hr : is_simple m = true \/ israw c). { destruct (simple_dec _ _ G) as [|(_ & _ & H2)]; auto. right. now inversion H2. }
  destruct m; cbn [is_simple] in *; auto.
Qed.

Lemma memmove_down pre x mid post : memmove (pre ++ x :: mid ++ post) (length pre) (length pre + 1) (length mid) =
  Ok (pre ++ mid ++ skipn (length mid) (x :: mid ++ post)).
Proof.
  unfold memmove. rewrite !app_length. cbn [length]. rewrite !app_length.
  destruct (Nat.leb_spec (length pre + length mid) (length pre + S (length mid + length post))); [|lia].
  destruct (Nat.leb_spec (length pre + 1 + length mid) (length pre + S (length mid + length post))); [|lia]. cbn [andb].
  rewrite firstn_app_exact. rewrite (snoc_app pre x (mid ++ post)). replace (length pre + 1) with (length (pre ++ [x])) by (rewrite app_length; auto).
  rewrite skipn_app_exact, firstn_app_exact, <- snoc_app. do 3 f_equal. rewrite skipn_app, (skipn_all2 pre) by lia.
  replace (length pre + length mid - length pre) with (length mid) by lia. reflexivity.
Qed.

Lemma base_remove_ok con rest i : good con rest -> i < length con ->
  exists c, (is_simple m = false -> israw c) /\
  base_remove m (con ++ rest) (length con) i = Ok ((firstn i con ++ skipn (S i) con) ++ c :: rest).
Proof.
  intros G Hi. unfold base_remove. destruct (Nat.ltb_spec i (length con)); [|lia]. cbn [negb].
  assert (Lf : length (firstn i con) = i) by (rewrite firstn_length; lia).
  destruct (nth_error_ex con i Hi) as [x Hx].
  assert (Ec : con = firstn i con ++ x :: skipn (S i) con) by (rewrite <- (skipn_cons con i x Hx), firstn_skipn; auto).
  set (p := firstn i con) in *. set (mid := skipn (S i) con) in *.
  assert (Lm : length con = i + 1 + length mid) by (rewrite Ec, app_length, Lf; cbn; lia).
  rewrite Ec. rewrite <- app_assoc. cbn [app]. rewrite <- Ec, Lm.
  assert (G' : is_simple m = false -> Forall isval p /\ isval x /\ Forall isval mid).
  { intros H1. destruct (G H1) as [G1 _]. rewrite Ec in G1. apply Forall_app in G1. destruct G1 as [Ga Gb]. inversion Gb; auto. }
  assert (SS : is_simple m = false -> exists c, (is_simple m = false -> israw c) /\
    (do c1 <- move_forward (p ++ x :: mid ++ rest) (i + 1) (i + 1 + length mid - (i + 1)); destroy c1 (i + 1 + length mid - 1)) = Ok ((p ++ mid) ++ c :: rest)).
  { intros Hs. destruct (G' Hs) as (Ga & [y ->] & Gb). destruct (move_forward_ok mid p (Val y) rest Gb) as (c' & Hc' & E); [discriminate|].
    rewrite Lf in E. replace (i + 1 + length mid - (i + 1)) with (length mid) by lia. rewrite E. cbn [bind]. exists Raw. split; [reflexivity|].
    rewrite app_assoc. replace (i + 1 + length mid - 1) with (length (p ++ mid)) by (rewrite app_length; lia). now apply destroy_at. }
  assert (DD : forall y, memmove (p ++ y :: mid ++ rest) i (i + 1) (i + 1 + length mid - i - 1) = Ok (p ++ mid ++ skipn (length mid) (y :: mid ++ rest))).
  { intros y. pose proof (memmove_down p y mid rest) as E. rewrite Lf in E. replace (i + 1 + length mid - i - 1) with (length mid) by lia. exact E. }
  assert (KK : forall y, exists z, skipn (length mid) (y :: mid ++ rest) = z :: rest).
  { intros y. destruct mid as [|a mid'] eqn:Em; [exists y; reflexivity|]. 
    assert (Hne : a :: mid' <> []) by discriminate. destruct (exists_last Hne) as (q & z & Eq). exists z. rewrite Eq, app_length. cbn [length].
    rewrite Nat.add_1_r. cbn [skipn]. rewrite <- app_assoc. apply skipn_app_exact. }
  destruct m; cbn [is_simple] in *; try now apply SS.
  - rewrite DD. destruct (KK x) as [z ->]. exists z. split; [discriminate|]. now rewrite app_assoc.
  - destruct (G' eq_refl) as (Ga & [y ->] & Gb). rewrite destroy_at' by (auto; discriminate). cbn [bind]. rewrite DD.
    destruct (KK Raw) as [z ->]. cbn [bind]. exists Raw. split; [reflexivity|]. rewrite app_assoc.
    replace (i + 1 + length mid - 1) with (length (p ++ mid)) by (rewrite app_length; lia). apply set_at.
Qed.

(* ---- operations on a represented array ---- *)
Definition rep (s : dyn T) con rest : Prop := cells s = con ++ rest /\ len s = length con /\ good con rest.

Lemma rep_contents s con rest : rep s con rest -> contents s = con.
Proof. intros (E & L & _). unfold contents. rewrite E, L. apply firstn_app_exact. Qed.

Lemma checkSize_ok s con rest : rep s con rest -> exists s' c rest', checkSize m s = Ok s' /\ rep s' con (c :: rest').
Proof.
  intros (E & L & G). unfold checkSize. destruct (Nat.leb_spec (length (cells s)) (len s)).
  - rewrite E, L in *. destruct (setCapacity_ok con rest (fbnext_nat (length (con ++ rest))) G) as (r & E' & L' & G').
    { pose proof (fbnext_nat_gt (length (con ++ rest))). rewrite app_length in *. lia. }
    rewrite E'. cbn [bind]. destruct r as [|c r].
    + exfalso. pose proof (fbnext_nat_gt (length (con ++ rest))). rewrite app_nil_r in L'. rewrite app_length in *. lia.
    + eexists _, c, r. split; [reflexivity|]. repeat split; auto; apply G'; auto.
  - rewrite E, L, app_length in H. destruct rest as [|c rest]; [cbn in H; lia|]. exists s, c, rest. split; auto. repeat split; auto; apply G; auto.
Qed.

Lemma good_add con c rest v : good con (c :: rest) -> good (con ++ [Val v]) rest.
Proof. intros G H. destruct (G H) as [G1 G2]. inversion G2; subst. split; auto. apply Forall_app. split; auto. constructor; [|constructor]. exists v; auto. Qed.

Lemma Add_ok s con rest v : rep s con rest -> exists s' rest', Add m s v = Ok (s', length con) /\ rep s' (con ++ [Val v]) rest'.
Proof.
  intros R. destruct (checkSize_ok s con rest R) as (s1 & c & r & E1 & (E & L & G)). unfold Add. rewrite E1. cbn [bind]. rewrite E, L.
  rewrite construct_at. 2:{ destruct (simple_dec _ _ G) as [|(_ & _ & H)]; auto. right. now inversion H. }
  cbn [bind]. eexists _, r. split; [reflexivity|]. split; [cbn [cells]; now rewrite <- app_assoc|]. split; [cbn [len]; now rewrite app_length|].
  eapply good_add; eauto.
Qed.

Lemma good_mid con c rest i v : good con (c :: rest) -> good (firstn i con ++ [Val v] ++ skipn i con) rest.
Proof.
  intros G H. destruct (G H) as [G1 G2]. inversion G2; subst. split; auto. rewrite <- (firstn_skipn i con) in G1. apply Forall_app in G1. destruct G1.
  apply Forall_app. split; auto. apply Forall_app. split; auto. constructor; [|constructor]. exists v; auto.
Qed.

Lemma Insert_ok s con rest v i : rep s con rest -> i <= length con -> exists s' rest', Insert m s v i = Ok s' /\ rep s' (firstn i con ++ [Val v] ++ skipn i con) rest'.
Proof.
  intros R Hi. destruct (checkSize_ok s con rest R) as (s1 & c & r & E1 & (E & L & G)). unfold Insert. rewrite E1. cbn [bind]. rewrite E, L.
  rewrite base_insert_ok by auto. cbn [bind]. eexists _, r. split; [reflexivity|]. split; [cbn [cells]; now rewrite <- !app_assoc|].
  split; [cbn [len]; rewrite !app_length, firstn_length, skipn_length; cbn; lia|]. eapply good_mid; eauto.
Qed.

Lemma Remove_ok s con rest i : rep s con rest -> i < length con -> exists s' rest', Remove m s i = Ok s' /\ rep s' (firstn i con ++ skipn (S i) con) rest'.
Proof.
  intros (E & L & G) Hi. unfold Remove. rewrite E, L. destruct (base_remove_ok con rest i G Hi) as (c & Hc & ->). cbn [bind].
  eexists _, _. split; [reflexivity|]. split; [reflexivity|]. split; [cbn [len]; rewrite app_length, firstn_length, skipn_length; lia|].
  intros H. destruct (G H) as [G1 G2]. split; [|constructor; auto].
  apply Forall_app. split; [rewrite <- (firstn_skipn i con) in G1|rewrite <- (firstn_skipn (S i) con) in G1]; now apply Forall_app in G1.
Qed.

Lemma SetLength_ok s con rest n : rep s con rest -> exists s' con' rest', SetLength dflt m s n = Ok s' /\ rep s' con' rest' /\
  (if n <=? length con then con' = firstn n con
   else exists ext, con' = con ++ ext /\ length ext = n - length con /\ (m <> SIMPLE -> Forall (fun c => c = Val dflt) ext)).
Proof.
  intros (E & L & G). unfold SetLength. rewrite E, L. destruct (Nat.leb_spec n (length con)).
  - destruct (Nat.ltb_spec (length con) n); [lia|]. destruct (Nat.ltb_spec n (length con)).
    + destruct (setLength_shrink con rest n G) as (r & E1 & L1 & G1); [lia|]. rewrite E1. cbn [bind].
      destruct (Nat.ltb_spec (length (firstn n con ++ r)) n); [rewrite app_length, firstn_length in *; lia|]. cbn [bind].
      eexists _, _, r. split; [reflexivity|]. repeat split; auto; try apply G1; auto. cbn [len]. rewrite firstn_length. lia.
    + assert (n = length con) by lia. subst n. cbn [bind]. destruct (Nat.ltb_spec (length (con ++ rest)) (length con)); [rewrite app_length in *; lia|].
      cbn [bind]. eexists _, _, _. split; [reflexivity|]. split; [split; [reflexivity|]|]; auto. now rewrite firstn_all.
  - destruct (Nat.ltb_spec n (length con)); [lia|]. destruct (Nat.ltb_spec (length con) n); [|lia]. cbn [bind].
    assert (exists r, (if length (con ++ rest) <? n then setCapacity m (con ++ rest) n (length con) else Ok (con ++ rest)) = Ok (con ++ r) /\ n <= length (con ++ r) /\ good con r) as (r & E1 & L1 & G1).
    { destruct (Nat.ltb_spec (length (con ++ rest)) n).
      - destruct (setCapacity_ok con rest n G) as (r & E1 & L1 & G1); [lia|]. exists r. repeat split; auto; try apply G1; auto. lia.
      - exists rest. auto. }
    rewrite E1. cbn [bind]. destruct (setLength_grow con r n G1) as (ext & r' & E2 & L2 & L3 & X & G2); [lia|lia|]. rewrite E2. cbn [bind].
    eexists _, (con ++ ext), r'. split; [reflexivity|]. split.
    + split; [cbn [cells]; now rewrite app_assoc|]. split; auto. cbn [len]. rewrite app_length. lia.
    + exists ext. repeat split; auto. intros Hm. apply X. destruct m; congruence || auto.
Qed.

Lemma SetCapacity_ok s con rest n : rep s con rest -> exists s' rest', SetCapacity m s n = Ok s' /\ rep s' con rest' /\ n <= length (cells s').
Proof.
  intros (E & L & G). unfold SetCapacity. rewrite E, L. destruct (Nat.ltb_spec (length (con ++ rest)) n).
  - destruct (setCapacity_ok con rest n G) as (r & E1 & L1 & G1); [rewrite app_length in *; lia|]. rewrite E1. cbn [bind].
    eexists _, r. split; [reflexivity|]. split; [split; auto|]. cbn [cells]. lia.
  - exists s, rest. split; [reflexivity|]. split; [split; auto|]. rewrite E. lia.
Qed.

Lemma good_nil n : good [] (repeat Raw n).
Proof. intros _. split; [constructor|apply raw_repeat]. Qed.

Lemma src_ok s con rest : rep s con rest -> firstn (len s) (cells s) = con /\ (is_simple m = false -> Forall isval con).
Proof. intros R. split; [apply (rep_contents _ _ _ R)|]. intros H. now apply R. Qed.

(* replacing the contents by those of a source *)
Lemma refill s con rest src cap : rep s con rest -> m <> MOVE \/ src = [] -> (is_simple m = false -> Forall isval src) -> length src <= cap ->
  exists c3 rest', (do c1 <- base_setLength dflt m (cells s) (len s) 0;
    do c2 <- (if length c1 <? length src then setCapacityDiscard m c1 cap else Ok c1);
    base_copy m c2 0 src) = Ok (src ++ rest') /\ c3 = src ++ rest' /\ good src rest'.
Proof.
  intros (E & L & G) Hm Hs Hc. rewrite E, L. destruct (setLength_shrink con rest 0 G) as (r & -> & L1 & G1); [lia|]. cbn [bind firstn app] in *.
  assert (exists r2, (if length r <? length src then setCapacityDiscard m r cap else Ok r) = Ok r2 /\ length src <= length r2 /\ good [] r2) as (r2 & -> & L2 & G2).
  { destruct (Nat.ltb_spec (length r) (length src)); [|exists r; auto]. exists (repeat Raw cap). rewrite setCapacityDiscard_ok, repeat_length.
    - repeat split; auto using good_nil; apply good_nil; auto.
    - destruct (simple_dec _ _ G1) as [|(_ & _ & ?)]; auto. }
  cbn [bind]. destruct (base_copy_ok [] r2 src Hm G2 Hs L2) as (r3 & E3 & _ & G3). cbn [app length] in *. rewrite E3. eauto.
Qed.

Lemma Set_ok s con rest (src : list T) : rep s con rest -> m <> MOVE -> exists s' rest', Set_ dflt m s (map Val src) = Ok s' /\ rep s' (map Val src) rest'.
Proof.
  intros R Hm. destruct (refill s con rest (map Val src) (length (map Val src)) R) as (c3 & r & E & -> & G); auto.
  { intros _. apply Forall_forall. intros c Hc. apply in_map_iff in Hc. destruct Hc as (v & <- & _). exists v. auto. }
  unfold Set_. destruct (base_setLength dflt m (cells s) (len s) 0) as [c1| |]; cbn [bind] in *; try discriminate.
  destruct (if length c1 <? length (map Val src) then _ else _) as [c2| |]; cbn [bind] in *; try discriminate. rewrite E. cbn [bind].
  eexists _, r. split; [reflexivity|]. split; auto.
Qed.

Lemma Assign_ok s con rest t con' rest' : rep s con rest -> rep t con' rest' -> m <> MOVE -> exists s' r, Assign dflt m s t = Ok s' /\ rep s' con' r.
Proof.
  intros R R' Hm. destruct (src_ok _ _ _ R') as [Es Hs].
  destruct (refill s con rest con' (length (cells t)) R) as (c3 & r & E & -> & G); auto.
  { destruct R' as (-> & _). rewrite app_length. lia. }
  unfold Assign. rewrite Es. destruct R' as (_ & -> & _). destruct (base_setLength dflt m (cells s) (len s) 0) as [c1| |]; cbn [bind] in *; try discriminate.
  destruct (if length c1 <? length con' then _ else _) as [c2| |]; cbn [bind] in *; try discriminate. rewrite E. cbn [bind].
  eexists _, r. split; [reflexivity|]. split; auto.
Qed.

Lemma MoveAssign_ok s con rest t : rep s con rest -> MoveAssign dflt m s t = Ok (t, da_new 0).
Proof.
  intros (E & L & G). unfold MoveAssign. rewrite E, L. destruct (setLength_shrink con rest 0 G) as (r & -> & L1 & G1); [lia|]. cbn [bind firstn app] in *.
  rewrite release_raw; [reflexivity|]. destruct (simple_dec _ _ G1) as [|(_ & _ & ?)]; auto.
Qed.

Lemma Append_ok s con rest t con' rest' : rep s con rest -> rep t con' rest' -> m <> MOVE -> exists s' r, Append m s t = Ok s' /\ rep s' (con ++ con') r.
Proof.
  intros (E & L & G) R' Hm. destruct (src_ok _ _ _ R') as [Es Hs]. unfold Append. rewrite Es, E, L. destruct R' as (_ & -> & _).
  destruct (setCapacity_ok con rest (length con + length con') G) as (r & -> & L1 & G1); [lia|]. cbn [bind]. rewrite app_length in L1.
  destruct (base_copy_ok con r con') as (r2 & -> & _ & G2); auto; [lia|]. cbn [bind]. eexists _, r2. split; [reflexivity|]. split; [reflexivity|].
  split; auto. cbn [len]. now rewrite app_length.
Qed.

Lemma AppendSelf_ok s con rest : rep s con rest -> m <> MOVE -> exists s' r, AppendSelf m s = Ok s' /\ rep s' (con ++ con) r.
Proof.
  intros (E & L & G) Hm. unfold AppendSelf. rewrite E, L.
  destruct (setCapacity_ok con rest (length con + length con) G) as (r & -> & L1 & G1); [lia|]. cbn [bind]. rewrite app_length in L1. rewrite firstn_app_exact.
  destruct (base_copy_ok con r con) as (r2 & -> & _ & G2); auto; [intros H; apply G; auto|lia|]. cbn [bind]. eexists _, r2. split; [reflexivity|]. split; [reflexivity|].
  split; auto. cbn [len]. now rewrite app_length.
Qed.

Lemma Plus_ok s con rest t con' rest' : rep s con rest -> rep t con' rest' -> m <> MOVE -> exists s' r, Plus m s t = Ok s' /\ rep s' (con ++ con') r.
Proof.
  intros R R' Hm. destruct (src_ok _ _ _ R) as [Es Hs]. destruct (src_ok _ _ _ R') as [Es' Hs']. unfold Plus. rewrite Es, Es'.
  destruct R as (_ & -> & _). destruct R' as (_ & -> & _).
  destruct (base_copy_ok [] (repeat Raw (length con + length con')) con) as (r & E & L1 & G1); auto using good_nil; [rewrite repeat_length; lia|].
  cbn [app length] in *. rewrite E. cbn [bind]. rewrite app_length, repeat_length in L1.
  destruct (base_copy_ok con r con') as (r2 & -> & _ & G2); auto; [lia|]. cbn [bind]. eexists _, r2. split; [reflexivity|]. split; [reflexivity|].
  split; auto. cbn [len]. now rewrite app_length.
Qed.

Lemma Copy_ok t con' rest' : rep t con' rest' -> m <> MOVE -> exists s' r, Copy m t = Ok s' /\ rep s' con' r.
Proof.
  intros R' Hm. destruct (src_ok _ _ _ R') as [Es' Hs']. unfold Copy. rewrite Es'. destruct R' as (-> & -> & _).
  destruct (base_copy_ok [] (repeat Raw (length (con' ++ rest'))) con') as (r & E & L1 & G1); auto using good_nil; [rewrite repeat_length, app_length; lia|].
  cbn [app length] in *. rewrite E. cbn [bind]. eexists _, r. split; [reflexivity|]. split; auto.
Qed.

(* copying in MOVE mode succeeds only for an empty source *)
Lemma copy_move_mode con rest src c : m = MOVE -> base_copy m (con ++ rest) (length con) src = Ok c -> src = [].
Proof. intros -> H. destruct src; auto. discriminate. Qed.

Lemma Put_ok s con rest i v : rep s con rest -> i < length con -> exists s', Put m s i v = Ok s' /\ rep s' (firstn i con ++ [Val v] ++ skipn (S i) con) rest.
Proof.
  intros (E & L & G) Hi. unfold Put. rewrite E, L. destruct (Nat.ltb_spec i (length con)); [|lia].
  destruct (nth_error_ex con i Hi) as [x Hx].
  assert (Ec : con = firstn i con ++ x :: skipn (S i) con) by (rewrite <- (skipn_cons con i x Hx), firstn_skipn; auto).
  assert (Lf : length (firstn i con) = i) by (rewrite firstn_length; lia).
  assert (E2 : (if is_simple m then set (con ++ rest) i (Val v) else assign (con ++ rest) i v) = Ok ((firstn i con ++ [Val v] ++ skipn (S i) con) ++ rest)).
  { assert (Ec2 : con ++ rest = firstn i con ++ x :: skipn (S i) con ++ rest) by (rewrite Ec at 1; rewrite <- app_assoc; reflexivity). rewrite Ec2.
    destruct (simple_dec _ _ G) as [H0|(H0 & G1 & _)]; rewrite H0.
    - rewrite set_at' by auto. now rewrite <- app_assoc.
    - rewrite assign_at'; [now rewrite <- app_assoc|auto|]. rewrite Forall_forall in G1. destruct (G1 x (nth_error_In _ _ Hx)) as [y ->]. discriminate. }
  rewrite E2. cbn [bind]. eexists. split; [reflexivity|]. split; [reflexivity|]. split.
  - cbn [len]. rewrite !app_length, firstn_length, skipn_length. cbn. lia.
  - intros H1. destruct (G H1) as [G1 G2]. split; auto. rewrite Ec in G1. apply Forall_app in G1. destruct G1 as [Ga Gb]. inversion Gb; subst.
    apply Forall_app. split; auto. apply Forall_app. split; auto. constructor; [|constructor]. exists v; auto.
Qed.

Lemma step_ok s con rest o : rep s con rest -> valid m o con ->
  (forall other, o = OAssign other \/ o = OMoveAssign other \/ o = OAppend other -> exists c r, rep other c r) ->
  exists s' con' rest', da_step dflt m s o = Ok s' /\ rep s' con' rest' /\ effect dflt m o con con'.
Proof.
  intros R V A. destruct o as [v|v i|i| |n|n| |i v|src|other|other|other| ]; cbn [da_step effect valid] in *.
  - destruct (Add_ok s con rest v R) as (s' & r & -> & R'). cbn. eauto 6.
  - destruct (Insert_ok s con rest v i R V) as (s' & r & -> & R'). eauto 6.
  - destruct (Remove_ok s con rest i R V) as (s' & r & -> & R'). eauto 6.
  - unfold RemoveLast. assert (0 < length con) by (destruct con; [congruence|cbn; lia]).
    pose proof R as (_ & L & _). destruct (Nat.eqb_spec (len s) 0); [lia|].
    destruct (Remove_ok s con rest (len s - 1) R) as (s' & r & -> & R'); [lia|]. eexists _, _, _. split; [reflexivity|]. split; [exact R'|].
    rewrite L, skipn_all2, app_nil_r by lia. replace (length con - 1) with (pred (length con)) by lia. symmetry. apply removelast_firstn_len.
  - destruct (SetLength_ok s con rest n R) as (s' & c' & r & -> & R' & E). eauto 6.
  - destruct (SetCapacity_ok s con rest n R) as (s' & r & -> & R' & _). eauto 6.
  - destruct (SetLength_ok s con rest 0 R) as (s' & c' & r & -> & R' & E). cbn in E. eauto 6.
  - destruct (Put_ok s con rest i v R V) as (s' & -> & R'). eauto 6.
  - destruct (Set_ok s con rest src R V) as (s' & r & -> & R'). eauto 6.
  - destruct (A other) as (c & r & Ro); auto. destruct (Assign_ok s con rest other c r R Ro V) as (s' & r' & -> & R').
    rewrite (rep_contents _ _ _ Ro). eauto 6.
  - destruct (A other) as (c & r & Ro); auto. rewrite (MoveAssign_ok s con rest other R). cbn [bind fst].
    rewrite (rep_contents _ _ _ Ro). eauto 6.
  - destruct (A other) as (c & r & Ro); auto. destruct (Append_ok s con rest other c r R Ro V) as (s' & r' & -> & R').
    rewrite (rep_contents _ _ _ Ro). eauto 6.
  - destruct (AppendSelf_ok s con rest R V) as (s' & r' & -> & R'). eauto 6.
Qed.

Lemma reachable_rep s : reachable dflt m s -> exists con rest, rep s con rest.
Proof.
  induction 1 as [c|s o s' R (con & rest & IH) V A IA E|s t s' R (c & r & IH) R' (c' & r' & IH') Hm E|t s' R (c & r & IH) Hm E].
  - exists [], (repeat Raw c). repeat split; auto using raw_repeat.
  - rewrite (rep_contents _ _ _ IH) in V. destruct (step_ok s con rest o IH V) as (s2 & con' & rest' & E2 & R2 & _); auto.
    rewrite E in E2. injection E2 as <-. eauto.
  - destruct (Plus_ok _ _ _ _ _ _ IH IH' Hm) as (s2 & r2 & E2 & R2). rewrite E in E2. injection E2 as <-. eauto.
  - destruct (Copy_ok _ _ _ IH Hm) as (s2 & r2 & E2 & R2). rewrite E in E2. injection E2 as <-. eauto.
Qed.
End Proofs.

(* Every valid call on every reachable array succeeds (touching only storage inside the capacity,
   constructing only raw slots, destroying only objects) and has the effect of the list operation. *)
Theorem C25_DynArray_list :
  forall (T : Type) (dflt : T) (m : mode) (s : dyn T) (o : da_op T),
  reachable dflt m s -> valid m o (contents s) ->
  (forall other, o = OAssign other \/ o = OMoveAssign other \/ o = OAppend other -> reachable dflt m other) ->
  exists s', da_step dflt m s o = Ok s' /\ effect dflt m o (contents s) (contents s').
Proof.
  intros T dflt m s o R V A. destruct (reachable_rep dflt m s R) as (con & rest & P).
  rewrite (rep_contents m _ _ _ P) in *. destruct (step_ok dflt m s con rest o P V) as (s' & con' & rest' & E & R' & F).
  { intros other H. apply (reachable_rep dflt m). auto. }
  exists s'. rewrite (rep_contents m _ _ _ R'). auto.
Qed.
Print Assumptions C25_DynArray_list.

(* length and capacity; indices below the length denote the contents, objects all, unless plain data *)
Theorem C25_DynArray_access :
  forall (T : Type) (dflt : T) (m : mode) (s : dyn T), reachable dflt m s ->
  len s = length (contents s) /\ len s <= length (cells s) /\
  (forall i, i < len s -> exists c, At s i = Ok c /\ nth_error (contents s) i = Some c /\ (m <> SIMPLE -> exists v, c = Val v)).
Proof.
  intros T dflt m s R. destruct (reachable_rep dflt m s R) as (con & rest & P). rewrite (rep_contents m _ _ _ P).
  destruct P as (E & L & G). split; auto. split; [rewrite E, app_length; lia|]. intros i Hi. unfold At.
  destruct (Nat.ltb_spec i (len s)); [|lia]. destruct (nth_error_ex con i) as [c Hc]; [lia|]. exists c.
  rewrite E. unfold get. rewrite nth_error_app1, Hc by lia. split; auto. split; auto.
  intros Hm. assert (H' : is_simple m = false) by (destruct m; congruence || auto). destruct (G H') as [G1 _].
  rewrite Forall_forall in G1. apply (G1 c (nth_error_In _ _ Hc)).
Qed.
Print Assumptions C25_DynArray_access.

(* Add reports the index of the new element *)
Theorem C25_DynArray_Add_index :
  forall (T : Type) (dflt : T) (m : mode) (s : dyn T) v s' i, reachable dflt m s -> Add m s v = Ok (s', i) -> i = length (contents s).
Proof.
  intros T dflt m s v s' i R E. destruct (reachable_rep dflt m s R) as (con & rest & P). rewrite (rep_contents m _ _ _ P).
  destruct (Add_ok m s con rest v P) as (s2 & r & E2 & _). congruence.
Qed.

(* operator+, the copy constructor and the destructor; the destructor destroys every element and
   nothing else, so no element is leaked or destroyed twice *)
Theorem C25_DynArray_plus_copy_destroy :
  forall (T : Type) (dflt : T) (m : mode) (s t : dyn T), reachable dflt m s -> reachable dflt m t ->
  (m <> MOVE -> exists r, Plus m s t = Ok r /\ contents r = contents s ++ contents t) /\
  (m <> MOVE -> exists r, Copy m s = Ok r /\ contents r = contents s) /\
  Destroy dflt m s = Ok tt.
Proof.
  intros T dflt m s t R R'. destruct (reachable_rep dflt m s R) as (con & rest & P). destruct (reachable_rep dflt m t R') as (con' & rest' & P').
  rewrite (rep_contents m _ _ _ P), (rep_contents m _ _ _ P'). split; [|split].
  - intros Hm. destruct (Plus_ok m _ _ _ _ _ _ P P' Hm) as (r & x & E & Q). exists r. split; auto. eapply rep_contents; eauto.
  - intros Hm. destruct (Copy_ok m _ _ _ P Hm) as (r & x & E & Q). exists r. split; auto. eapply rep_contents; eauto.
  - destruct P as (E & L & G). unfold Destroy. rewrite E, L. destruct (setLength_shrink dflt m con rest 0 G) as (r & -> & _ & G1); [lia|].
    cbn [bind firstn app] in *. apply release_raw. destruct (simple_dec m _ _ G1) as [|(_ & _ & ?)]; auto.
Qed.
Print Assumptions C25_DynArray_plus_copy_destroy.

(* an array grown past its capacity twice, with elements inserted and removed in the middle *)
Fixpoint run_da {T} (dflt : T) (m : mode) (s : dyn T) (l : list (da_op T)) : res (dyn T) :=
  match l with [] => Ok s | o :: t => do s1 <- da_step dflt m s o; run_da dflt m s1 t end.
Example C25_example :
  exists s, run_da 0 SAFE (da_new 0) [OAdd 1; OAdd 2; OInsert 9 1; OAdd 3; ORemove 0; OSetLength 5; OInsert 7 5; OAppendSelf; ORemoveLast] = Ok s /\
    contents s = map Val [9; 2; 3; 0; 0; 7; 9; 2; 3; 0; 0] /\ length (cells s) = 12 /\ valid SAFE (OInsert 4 11) (contents s).
Proof. eexists. split; [vm_compute; reflexivity|]. repeat split; vm_compute; auto. Qed.
