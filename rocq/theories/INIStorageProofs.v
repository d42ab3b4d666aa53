(* The sections and entries in memory against a document. *)
From Coq Require Import List Arith ZArith Bool Lia ZifyBool ZifyNat.
From Verif Require Import Common INIParser INIParserProps INIChain INIChainProofs INIStorage INIDoc.
Import ListNotations.
Local Open Scope nat_scope.

Section Named.
Context {A : Type}.
Implicit Types d : list (list Z * A).
Lemma nth_of_split : forall d n i x, nth_of d n i = Some x -> exists d1 n' d2, d = d1 ++ (n', x) :: d2 /\ same n' n = true /\ many d1 n = i /\
  remove_nth d n i = d1 ++ d2 /\ forall f, change_nth d n i f = d1 ++ (n', f x) :: d2.
Proof.
  unfold nth_of, many, those. induction d as [|[m y] d IH]; intros n i x E; cbn [filter map fst] in E; [destruct i; discriminate|].
  cbn [remove_nth change_nth fst snd]. destruct (same m n) eqn:S.
  - destruct i as [|i]; cbn in E.
    + injection E as ->. exists [], m, d. auto.
    + destruct (IH _ _ _ E) as (d1 & n' & d2 & -> & B & C & D & F). exists ((m, y) :: d1), n', d2. split; auto. split; auto. cbn [filter fst]. rewrite S. cbn. rewrite C, D. split; auto. split; auto. intros f. now rewrite F.
  - destruct (IH _ _ _ E) as (d1 & n' & d2 & -> & B & C & D & F). exists ((m, y) :: d1), n', d2. split; auto. split; auto. cbn [filter fst]. rewrite S. cbn. rewrite D. split; auto. split; auto. intros f. now rewrite F.
Qed.
Lemma nth_of_none d n i : nth_of d n i = None <-> many d n <= i.
Proof. unfold nth_of, many. rewrite nth_error_None, map_length. lia. Qed.
Lemma those_app d1 d2 n : those (d1 ++ d2) n = those d1 n ++ those d2 n.
Proof. apply filter_app. Qed.
Lemma those_same d n n' : same n n' = true -> those d n' = those d n.
Proof. intros H. apply filter_ext. intros x. rewrite (same_sym (fst x) n'), (same_sym (fst x) n). symmetry. now apply same_trans. Qed.
Lemma those_cons m x d n : those ((m, x) :: d) n = if same m n then (m, x) :: those d n else those d n.
Proof. reflexivity. Qed.
End Named.

Definition ent (p : list Z * list Z) : entry := Ent (fst p) (snd p).
Definition mem_entries (c : chain entry) (ps : list (list Z * list Z)) : Prop :=
  exists es, chain_ok c es /\ forall k, map snd (grp es k) = map ent (those ps k).
Definition mem_sec (s : section) (n : list Z) (i : nat) (ps : list (list Z * list Z)) : Prop := sname s = n /\ index s = i /\ mem_entries (entries s) ps.
Fixpoint secs_ok (i : nat) (l : list section) (m : list (list Z * list (list Z * list Z))) : Prop :=
  match l, m with
  | [], [] => True
  | s :: l, x :: m => mem_sec s (fst x) i (snd x) /\ secs_ok (S i) l m
  | _, _ => False
  end.
Definition mem (c : chain section) (d : list (list Z * list (list Z * list Z))) : Prop := exists gs, chain_ok c gs /\ forall n, secs_ok 0 (map snd (grp gs n)) (those d n).

Lemma secs_len i l m : secs_ok i l m -> length l = length m.
Proof. revert i m. induction l as [|s l IH]; intros i [|x m] H; cbn in *; try tauto. f_equal. eapply IH, H. Qed.
Lemma secs_app : forall l m l' m' i, secs_ok i l m -> secs_ok (i + length l) l' m' -> secs_ok i (l ++ l') (m ++ m').
Proof.
  induction l as [|s l IH]; intros [|x m] l' m' i H H'; cbn in *; try tauto; [now rewrite Nat.add_0_r in H'|]. split; [tauto|]. apply IH; [tauto|]. now rewrite Nat.add_succ_r in H'.
Qed.
Lemma secs_split : forall l1 l2 m1 m2 i, length l1 = length m1 -> secs_ok i (l1 ++ l2) (m1 ++ m2) -> secs_ok i l1 m1 /\ secs_ok (i + length l1) l2 m2.
Proof.
  induction l1 as [|s l IH]; intros l2 [|x m] m2 i L H; cbn in *; try discriminate; [rewrite Nat.add_0_r; auto|]. destruct H as [H1 H2]. apply IH in H2 as [H2 H3]; [|lia]. rewrite Nat.add_succ_r. auto.
Qed.
Lemma secs_down : forall l m i, secs_ok (S i) l m -> secs_ok i (map dec_index l) m.
Proof. induction l as [|s l IH]; intros [|x m] i H; cbn in *; try tauto. destruct H as [(A & B & C) H]. split; [|apply IH; auto]. split; auto. split; auto. cbn. lia. Qed.
Lemma secs_nth i l m j s x : secs_ok i l m -> nth_error l j = Some s -> nth_error m j = Some x -> mem_sec s (fst x) (i + j) (snd x).
Proof.
  revert l m i. induction j as [|j IH]; intros [|s0 l] [|x0 m] i H E1 E2; cbn in *; try discriminate.
  - injection E1 as <-. injection E2 as <-. rewrite Nat.add_0_r. tauto.
  - rewrite Nat.add_succ_r. apply (IH l m (S i)); tauto.
Qed.

Lemma mem_empty : mem empty [].
Proof. exists []. split; [apply empty_ok|]. intros n. cbn. exact I. Qed.
Lemma entries_empty : mem_entries empty [].
Proof. exists []. split; [apply empty_ok|]. intros n. reflexivity. Qed.

Lemma those_snoc {A} (d : list (list Z * A)) m x n : those (d ++ [(m, x)]) n = those d n ++ (if same m n then [(m, x)] else []).
Proof. rewrite those_app. cbn. now destruct (same m n). Qed.

(* adding *)
Lemma mem_add c d name : mem c d -> exists c', add c name (fun i => Sec name i empty) = Ok (c', fresh c) /\ mem c' (d ++ [(name, [])]) /\ node c' name (many d name) = Some (fresh c) /\
  exists s, val c' (fresh c) = Some s /\ index s = many d name.
Proof.
  intros (gs & H & M). destruct (add_ok c gs name (fun i => Sec name i empty) H) as (c' & gs' & E & H' & G). exists c'. split; auto.
  assert (L : length (grp gs name) = many d name) by (pose proof (secs_len _ _ _ (M name)) as L; now rewrite map_length in L).
  split; [|split].
  - exists gs'. split; auto. intros n. rewrite G, those_snoc. destruct (same name n) eqn:S; [|rewrite app_nil_r; apply M]. rewrite map_app. apply secs_app; [apply M|]. cbn. split; auto. split; auto. split; [now rewrite map_length|]. apply entries_empty.
  - rewrite (node_ok c' gs') by auto. rewrite G, same_refl, map_app, <- L, nth_error_app2 by (rewrite map_length; lia). now rewrite map_length, Nat.sub_diag.
  - exists (Sec name (length (grp gs name)) empty). split; [|exact L]. destruct H' as (_ & _ & _ & _ & _ & _ & VV & _). apply VV. apply (grp_in gs' name). rewrite G, same_refl. apply in_or_app. right. now left.
Qed.
Lemma entries_add c ps k v : mem_entries c ps -> exists c', add c k (fun _ => Ent k v) = Ok (c', fresh c) /\ mem_entries c' (ps ++ [(k, v)]).
Proof.
  intros (es & H & M). destruct (add_ok c es k (fun _ => Ent k v) H) as (c' & es' & E & H' & G). exists c'. split; auto. exists es'. split; auto. intros n. rewrite G, those_snoc. destruct (same k n); [|rewrite app_nil_r; apply M]. rewrite !map_app, M. reflexivity.
Qed.

(* removing *)
Lemma those_removed {A} (d1 d2 : list (list Z * A)) n' x name n : same n' name = true ->
  those (d1 ++ d2) n = if same name n then firstn (many d1 name) (those (d1 ++ (n', x) :: d2) n) ++ skipn (S (many d1 name)) (those (d1 ++ (n', x) :: d2) n) else those (d1 ++ (n', x) :: d2) n.
Proof.
  intros H. rewrite !those_app, those_cons. rewrite (same_trans n' name n H). destruct (same name n) eqn:S; auto.
  unfold many. rewrite <- (those_same d1 name n) by auto. rewrite firstn_app, firstn_all, Nat.sub_diag, app_nil_r. rewrite skipn_app, skipn_all2 by lia. replace (_ - _) with 1 by lia. reflexivity.
Qed.
Lemma skipn_next {A} (l : list A) : forall i x r, skipn i l = x :: r -> skipn (S i) l = r.
Proof. induction l as [|y l IH]; intros [|i] x r E; try discriminate; [now injection E|]. cbn [skipn] in *. eapply IH, E. Qed.
Lemma secs_drop l m i : secs_ok 0 l m -> i < length l -> secs_ok 0 (drop zero_index dec_index i l) (firstn i m ++ skipn (S i) m).
Proof.
  intros H L. pose proof (secs_len _ _ _ H) as LE. destruct i as [|i]; cbn [drop].
  - destruct l as [|s0 l]; [cbn in L; lia|]. destruct m as [|m0 m]; [discriminate|]. cbn [tl firstn skipn app]. destruct H as [_ H]. destruct l as [|s1 l], m as [|m1 m]; cbn in H; try tauto. cbn. destruct H as [(A & B & C) H]. split; [|apply secs_down; auto]. split; auto.
  - rewrite <- (firstn_skipn (S i) l), <- (firstn_skipn (S i) m) in H. apply secs_split in H as [H1 H2]; [|rewrite !firstn_length; lia]. apply secs_app; auto.
    rewrite firstn_length, Nat.min_l in H2 |- * by lia. destruct (skipn (S i) l) as [|s r] eqn:El; [apply (f_equal (@length _)) in El; rewrite skipn_length in El; cbn in El; lia|]. destruct (skipn (S i) m) as [|y q] eqn:Em; [apply (f_equal (@length _)) in Em; rewrite skipn_length in Em; cbn in Em; lia|].
    pose proof (skipn_next _ _ _ _ El) as E1. pose proof (skipn_next _ _ _ _ Em) as E2.
    rewrite E1, E2. destruct H2 as [_ H2]. apply secs_down. exact H2.
Qed.
Lemma mem_remove c d name i : mem c d -> i < many d name -> exists c', remove c name i zero_index dec_index = Ok (Some c') /\ mem c' (remove_nth d name i).
Proof.
  intros (gs & H & M) L. assert (LL : length (grp gs name) = many d name) by (pose proof (secs_len _ _ _ (M name)) as LL; now rewrite map_length in LL).
  destruct (remove_ok c gs name i zero_index dec_index H) as (c' & gs' & E & H' & G); [lia|]. exists c'. split; auto. exists gs'. split; auto. intros n.
  destruct (nth_of d name i) as [x|] eqn:En; [|apply nth_of_none in En; lia]. destruct (nth_of_split d name i x En) as (d1 & n' & d2 & Ed & S & C & R & _). rewrite R, (those_removed d1 d2 n' x name n S), <- Ed, C, G. destruct (same name n) eqn:S'; [|apply M].
  apply secs_drop; [apply M|]. rewrite map_length. replace (grp gs n) with (grp gs name); [lia|]. unfold grp. f_equal. apply filter_ext. intros g. rewrite (same_sym (fst g) name), (same_sym (fst g) n). now apply same_trans.
Qed.
Lemma entries_remove c ps k i : mem_entries c ps -> i < many ps k -> exists c', remove c k i (fun x => x) (fun x => x) = Ok (Some c') /\ mem_entries c' (remove_nth ps k i).
Proof.
  intros (es & H & M) L. assert (LL : length (grp es k) = many ps k) by (pose proof (f_equal (@length _) (M k)) as LL; now rewrite !map_length in LL).
  destruct (remove_ok c es k i (fun x => x) (fun x => x) H) as (c' & es' & E & H' & G); [lia|]. exists c'. split; auto. exists es'. split; auto. intros n.
  destruct (nth_of ps k i) as [x|] eqn:En; [|apply nth_of_none in En; lia]. destruct (nth_of_split ps k i x En) as (d1 & n' & d2 & Ed & S & C & R & _). rewrite R, (those_removed d1 d2 n' x k n S), <- Ed, C, G. destruct (same k n) eqn:S'; [|apply M].
  rewrite M. rewrite map_app, <- firstn_map, <- skipn_map. set (l := map ent (those ps n)). destruct i as [|i]; unfold drop.
  - destruct l as [|l0 l]; auto. cbn [tl firstn skipn app]. destruct l; auto. now rewrite map_id.
  - now rewrite map_id.
Qed.

(* changing *)
Lemma those_changed {A} (d1 d2 : list (list Z * A)) n' x y name n : same n' name = true ->
  those (d1 ++ (n', y) :: d2) n = if same name n then firstn (many d1 name) (those (d1 ++ (n', x) :: d2) n) ++ [(n', y)] ++ skipn (S (many d1 name)) (those (d1 ++ (n', x) :: d2) n) else those (d1 ++ (n', x) :: d2) n.
Proof.
  intros H. rewrite !those_app, !those_cons. rewrite (same_trans n' name n H). destruct (same name n) eqn:S; auto.
  unfold many. rewrite <- (those_same d1 name n) by auto. rewrite firstn_app, firstn_all, Nat.sub_diag, app_nil_r. rewrite skipn_app, skipn_all2 by lia. replace (_ - _) with 1 by lia. reflexivity.
Qed.
Lemma upd_map_snd {V} i (x : V) (l : list (nat * V)) : i < length l -> map snd (upd_at i x l) = firstn i (map snd l) ++ [x] ++ skipn (S i) (map snd l).
Proof.
  intros L. unfold upd_at. destruct (nth_error l i) as [[a v]|] eqn:E; [|apply nth_error_None in E; lia]. now rewrite !map_app, <- firstn_map, <- skipn_map.
Qed.
Lemma those_nth {A} (d1 d2 : list (list Z * A)) n' x name : same n' name = true -> nth_error (those (d1 ++ (n', x) :: d2) name) (many d1 name) = Some (n', x).
Proof. intros H. rewrite those_app, those_cons, H. unfold many. now rewrite nth_error_app2, Nat.sub_diag by lia. Qed.
Lemma node_at c d name i ps : mem c d -> nth_of d name i = Some ps -> exists a s n', node c name i = Some a /\ val c a = Some s /\ mem_sec s n' i ps.
Proof.
  intros (gs & H & M) E. destruct (nth_of_split d name i ps E) as (d1 & n' & d2 & Ed & S & C & _). pose proof (secs_len _ _ _ (M name)) as LL. rewrite map_length in LL.
  assert (L : i < length (grp gs name)). { rewrite LL. assert (K : nth_error (those d name) i <> None) by (rewrite Ed, <- C, those_nth by auto; discriminate). now apply nth_error_Some in K. }
  destruct (nth_error (grp gs name) i) as [[a s]|] eqn:En; [|apply nth_error_None in En; lia]. exists a, s, n'. split; [rewrite (node_ok c gs) by auto; now rewrite nth_error_map, En|]. split.
  - destruct H as (_ & _ & _ & _ & _ & _ & VV & _). eapply VV, grp_in, nth_error_In, En.
  - apply (secs_nth 0 _ _ i s (n', ps) (M name)); [now rewrite nth_error_map, En|]. rewrite Ed, <- C. now apply those_nth.
Qed.
Lemma cut_mid {A} (l1 l2 : list A) x i : length l1 = i -> forall y, firstn i (l1 ++ x :: l2) ++ y ++ skipn (S i) (l1 ++ x :: l2) = l1 ++ y ++ l2.
Proof. intros <- y. rewrite firstn_app_len. replace (l1 ++ x :: l2) with ((l1 ++ [x]) ++ l2) by (rewrite <- app_assoc; reflexivity). replace (S (length l1)) with (length (l1 ++ [x])) by (rewrite app_length; cbn; lia). now rewrite skipn_app_len. Qed.
Lemma mem_change c d name i a s ps ps' : mem c d -> nth_of d name i = Some ps -> node c name i = Some a ->
  (forall s0, val c a = Some s0 -> sname s = sname s0 /\ index s = index s0) -> mem_entries (entries s) ps' -> mem (set_value c a s) (change_nth d name i (fun _ => ps')).
Proof.
  intros HM E En Hs He. destruct (node_at c d name i ps HM E) as (a' & s0 & n0 & En' & Ev & (A & B & _)). rewrite En in En'. injection En' as <-. destruct (Hs s0 Ev) as [S1 S2].
  destruct HM as (gs & H & M). destruct (set_value_ok c gs name i a s H En) as (gs' & H' & G). exists gs'. split; auto. intros n.
  destruct (nth_of_split d name i ps E) as (d1 & m & d2 & Ed & S & C & _ & F). rewrite F, (those_changed d1 d2 m ps ps' name n S), <- Ed, C, G. destruct (same name n) eqn:S'; [|apply M].
  assert (Gn : grp gs n = grp gs name). { unfold grp. f_equal. apply filter_ext. intros g. rewrite (same_sym (fst g) name), (same_sym (fst g) n). symmetry. now apply same_trans. }
  assert (L : i < length (grp gs n)). { pose proof (secs_len _ _ _ (M n)) as LL. rewrite map_length in LL. rewrite LL, (those_same d name n S'). assert (K : nth_error (those d name) i <> None) by (rewrite Ed, <- C, those_nth by auto; discriminate). now apply nth_error_Some in K. }
  rewrite upd_map_snd by auto. set (l := map snd (grp gs n)) in *. set (t := those d n) in *. assert (Ll : i < length l) by (unfold l; now rewrite map_length). pose proof (M n) as Q. fold l t in Q. pose proof (secs_len _ _ _ Q) as LE.
  destruct (nth_error l i) as [sl|] eqn:El; [|apply nth_error_None in El; lia]. destruct (nth_error t i) as [xt|] eqn:Et; [|apply nth_error_None in Et; lia].
  destruct (nth_error_split _ _ El) as (l1 & l2 & Ell & L1). destruct (nth_error_split _ _ Et) as (t1 & t2 & Ett & T1). rewrite Ell, Ett in Q |- *. apply secs_split in Q as [Q1 Q2]; [|lia]. destruct Q2 as [Q2 Q3].
  rewrite (cut_mid l1 l2 _ i L1), (cut_mid t1 t2 _ i T1). cbn [app]. apply secs_app; auto. cbn [secs_ok fst snd]. split; [|exact Q3].
  destruct Q2 as (A' & B' & _). assert (Exm : xt = (m, ps)). { unfold t in Et. rewrite (those_same d name n S'), Ed, <- C, those_nth in Et by auto. congruence. }
  assert (Esl : sl = s0). { unfold l in El. rewrite nth_error_map, Gn in El. rewrite (node_ok c gs) in En by auto. rewrite nth_error_map in En. destruct (nth_error (grp gs name) i) as [[a1 s1]|] eqn:Eg; [|discriminate]. cbn in En, El. injection En as ->. injection El as <-. destruct H as (_ & _ & _ & _ & _ & _ & VV & _). rewrite (VV a s1) in Ev by (eapply grp_in, nth_error_In, Eg). congruence. }
  subst xt sl. cbn [fst] in A'. split; [congruence|]. split; [rewrite S2, B; lia|exact He].
Qed.
Lemma entry_at c ps k i v : mem_entries c ps -> nth_of ps k i = Some v -> exists a k', node c k i = Some a /\ val c a = Some (Ent k' v).
Proof.
  intros (es & H & M) E. destruct (nth_of_split ps k i v E) as (d1 & n' & d2 & Ed & S & C & _). pose proof (M k) as Mk.
  assert (K : nth_error (map snd (grp es k)) i = Some (Ent n' v)). { rewrite Mk, nth_error_map, Ed, <- C, those_nth by auto. reflexivity. }
  rewrite nth_error_map in K. destruct (nth_error (grp es k) i) as [[a e]|] eqn:En; [|discriminate]. cbn in K. injection K as ->. exists a, n'. split; [rewrite (node_ok c es) by auto; now rewrite nth_error_map, En|]. destruct H as (_ & _ & _ & _ & _ & _ & VV & _). eapply VV, grp_in, nth_error_In, En.
Qed.
Lemma entries_change c ps k i v v' a : mem_entries c ps -> nth_of ps k i = Some v -> node c k i = Some a -> forall k', val c a = Some (Ent k' v) -> mem_entries (set_value c a (Ent k' v')) (change_nth ps k i (fun _ => v')).
Proof.
  intros HM E En k' Ev. destruct HM as (es & H & M). destruct (set_value_ok c es k i a (Ent k' v') H En) as (es' & H' & G). exists es'. split; auto. intros n.
  destruct (nth_of_split ps k i v E) as (d1 & m & d2 & Ed & S & C & _ & F). rewrite F, (those_changed d1 d2 m v v' k n S), <- Ed, C, G. destruct (same k n) eqn:S'; [|apply M].
  assert (Gn : grp es n = grp es k). { unfold grp. f_equal. apply filter_ext. intros g. rewrite (same_sym (fst g) k), (same_sym (fst g) n). symmetry. now apply same_trans. }
  rewrite (node_ok c es) in En by auto. rewrite nth_error_map in En. destruct (nth_error (grp es k) i) as [[a1 e1]|] eqn:Eg; [|discriminate]. cbn in En. injection En as ->.
  assert (Em : m = k'). { pose proof (M k) as Mk. apply (f_equal (fun l => nth_error l i)) in Mk. rewrite !nth_error_map, Eg in Mk. rewrite Ed, <- C, those_nth in Mk by auto. cbn in Mk. destruct H as (_ & _ & _ & _ & _ & _ & VV & _). rewrite (VV a e1) in Ev by (eapply grp_in, nth_error_In, Eg). unfold ent in Mk. cbn in Mk. congruence. }
  subst m. rewrite upd_map_snd by (rewrite Gn; apply nth_error_Some; congruence). rewrite M. now rewrite !map_app, <- firstn_map, <- skipn_map.
Qed.
