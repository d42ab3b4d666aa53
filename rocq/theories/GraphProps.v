(* Property C58: the graph has exactly the edges added and not removed; adjacency matrices convert back and forth. *)
From Coq Require Import List Arith Bool Lia Permutation.
From Coq Require Import ZifyBool ZifyNat.
From Verif Require Import Common Dll Graph.
From Verif Require LLBase LLBaseProps LinkedArray LinkedArrayProps.
Import ListNotations.

(* ------------------------------------------------ specification ------------------------------------------------ *)
Section Spec.
Context {E V : Type}.
(* an edge and the address it has *)
Notation aedge := (nat * edge E)%type.
Definition from_is (i : nat) (x : aedge) : bool := efrom (snd x) =? i.
Definition to_is (i : nat) (x : aedge) : bool := eto (snd x) =? i.
(* what the graph shows: l lists the nodes (index and data) in order, es the edges, the newest first.  The nodes are those
   of the LinkedArray; the list that starts at the field to of a node consists of the edges from it, the list that starts
   at from of the edges to it, both in the order of es; the fields of each edge are as in es; no address occurs twice. *)
Definition shows (g : graph E V) (l : list (nat * V)) (es : list aedge) : Prop :=
  (exists nl, LinkedArrayProps.shows (gn g) nl /\ map (fun x => (fst x, gdata (snd x))) nl = l /\
     forall i nd, In (i, nd) nl ->
       (exists last, LLBaseProps.list_at (nxt g) (gto nd) last (map fst (filter (from_is i) es))) /\
       (exists last, LLBaseProps.list_at (alt g) (gfrom nd) last (map fst (filter (to_is i) es)))) /\
  (forall p e, einfo g p = Some e <-> In (p, e) es) /\ NoDup (map fst es) /\
  (forall p e, In (p, e) es -> In (efrom e) (map fst l) /\ In (eto e) (map fst l)) /\
  NumEdges g = length es /\ NumNodes g = length l.
Inductive op := OAddNode (v : V) | OAddEdge (p from to : nat) (d : E) | ORemoveEdge (p : nat) | ORemoveNode (i : nat).
Definition step (fresh : LinkedArray.lnode (gnode V)) (g : graph E V) (o : op) : res (graph E V) :=
  match o with
  | OAddNode v => do (g, _) <- AddNode fresh g v; Ok g
  | OAddEdge p from to d => AddEdge g p from to d
  | ORemoveEdge p => RemoveEdge g p
  | ORemoveNode i => RemoveNode g i
  end.
(* nodes given to the operations exist, an edge given to RemoveEdge too; the allocator returns an unused address *)
Definition valid (o : op) (l : list (nat * V)) (es : list aedge) : Prop :=
  match o with
  | OAddNode _ => True
  | OAddEdge p from to _ => ~ In p (map fst es) /\ In from (map fst l) /\ In to (map fst l)
  | ORemoveEdge p => In p (map fst es)
  | ORemoveNode i => In i (map fst l)
  end.
Definition effect (o : op) (l l' : list (nat * V)) (es es' : list aedge) : Prop :=
  match o with
  | OAddNode v => (exists i, ~ In i (map fst l) /\ l' = l ++ [(i, v)]) /\ es' = es
  | OAddEdge p from to d => l' = l /\ es' = (p, mke to from d) :: es
  | ORemoveEdge p => l' = l /\ es' = filter (fun x => negb (fst x =? p)) es
  | ORemoveNode i => l' = filter (fun x => negb (fst x =? i)) l /\ es' = filter (fun x => negb (from_is i x || to_is i x)) es
  end.
Inductive reachable (fresh : LinkedArray.lnode (gnode V)) : graph E V -> Prop :=
| r_new n g : new_graph fresh n = Ok g -> reachable fresh g
| r_step g o l es g' : reachable fresh g -> shows g l es -> valid o l es -> step fresh g o = Ok g' -> reachable fresh g'.
(* the entries of the matrix M with n columns that are edges, row by row: row, column and entry *)
Definition entries (isedge : E -> bool) (M : list E) (n : nat) (cells : list (nat * nat)) : list (nat * nat * E) :=
  flat_map (fun ij => match nth_error M (fst ij * n + snd ij) with Some d => if isedge d then [(ij, d)] else [] | None => [] end) cells.
Definition matrix_entries (isedge : E -> bool) (M : list E) (n : nat) : list (nat * nat * E) := entries isedge M n (list_prod (seq 0 n) (seq 0 n)).
(* the edge of such an entry; ks are the indices of the nodes *)
Definition edge_of (ks : list nat) (c : nat * nat * E) : edge E := mke (nth (snd (fst c)) ks 0) (nth (fst (fst c)) ks 0) (snd c).
End Spec.

(* ---------------------------------------------------- proofs ---------------------------------------------------- *)
Section Proofs.
Context {E V : Type} (fresh : LinkedArray.lnode (gnode V)).
Notation aedge := (nat * edge E)%type.
Definition outs (es : list aedge) (i : nat) : list nat := map fst (filter (from_is i) es).
Definition ins (es : list aedge) (i : nat) : list nat := map fst (filter (to_is i) es).
Definition view (es : list aedge) (i : nat) (v : V) : gnode V := mkg (hd_or (outs es i) None) (hd_or (ins es i) None) v.
Definition viewl (G : nat -> V -> gnode V) (l : list (nat * V)) : list (nat * gnode V) := map (fun x => (fst x, G (fst x) (snd x))) l.
Definition inv (g : graph E V) (l : list (nat * V)) (es : list aedge) : Prop :=
  LinkedArrayProps.inv (gn g) (viewl (view es) l) /\
  (forall i, dll (nxt g) None (outs es i) None) /\ (forall i, dll (alt g) None (ins es i) None) /\
  (forall p e, einfo g p = Some e <-> In (p, e) es) /\ NoDup (map fst es) /\
  (forall p e, In (p, e) es -> In (efrom e) (map fst l) /\ In (eto e) (map fst l)) /\
  nedges g = length es.
Lemma viewl_fst G l : map fst (viewl G l) = map fst l.
Proof. unfold viewl. rewrite map_map. reflexivity. Qed.
Lemma viewl_ext G G' l : (forall i v, In (i, v) l -> G i v = G' i v) -> viewl G l = viewl G' l.
Proof. intros H. apply map_ext_in. intros [i v] Hi. cbn [fst snd]. rewrite (H i v Hi). reflexivity. Qed.
Lemma inv_shows g l es : inv g l es -> shows g l es.
Proof.
  intros (I & D1 & D2 & EI & ND & EP & NE). pose proof (LinkedArrayProps.inv_shows _ _ I) as SH.
  split; [|split; [exact EI|split; [exact ND|split; [exact EP|split; [exact NE|]]]]].
  - exists (viewl (view es) l). split; [exact SH|]. split.
    + unfold viewl. rewrite map_map. cbn [fst snd]. unfold view. cbn [gdata]. rewrite <- (map_id l) at 2. apply map_ext. intros [i v]. reflexivity.
    + intros i nd Hi. apply in_map_iff in Hi. destruct Hi as ([j v] & Q & Hi). injection Q as <- <-. unfold view. cbn [gto gfrom fst snd]. split.
      * eexists. apply LLBaseProps.list_at_dll. split; [reflexivity|]. split; [reflexivity|]. apply D1.
      * eexists. apply LLBaseProps.list_at_dll. split; [reflexivity|]. split; [reflexivity|]. apply D2.
  - destruct SH as (L & _). unfold NumNodes. rewrite L. unfold viewl. apply map_length.
Qed.
Lemma nodup_ids s l : LinkedArrayProps.inv s l -> NoDup (map (@fst nat (gnode V)) l).
Proof. intros I. apply LinkedArrayProps.inv_shows in I. destruct I as (_ & ND & _). exact ND. Qed.
Lemma get_view s G l i v : LinkedArrayProps.inv s (viewl G l) -> In (i, v) l -> LinkedArray.GetItem s i = Ok (G i v).
Proof.
  intros I Hi. apply LinkedArrayProps.inv_shows in I. destruct I as (_ & _ & _ & _ & H). apply In_nth_error in Hi. destruct Hi as [k Hk].
  destruct (H k i (G i v)) as (Q & _); [|exact Q]. unfold viewl. rewrite (map_nth_error _ _ _ Hk). reflexivity.
Qed.
Lemma put_view s G l i v w : LinkedArrayProps.inv s (viewl G l) -> In (i, v) l -> exists s', LinkedArray.Put s i w = Ok s' /\ LinkedArrayProps.inv s' (viewl (fun j x => if j =? i then w else G j x) l).
Proof.
  intros I Hi. pose proof (nodup_ids _ _ I) as ND. rewrite viewl_fst in ND. apply in_split in Hi. destruct Hi as (a & b & ->). unfold viewl in *. rewrite map_app in I. cbn [map fst snd] in I.
  destruct (LinkedArrayProps.put_ok _ _ _ _ _ w I) as (s' & Ep & I'). exists s'. split; [exact Ep|]. rewrite map_app. cbn [map fst snd]. rewrite Nat.eqb_refl. rewrite map_app in ND. cbn [map fst] in ND. apply NoDup_remove_2 in ND.
  replace (map (fun x => (fst x, if fst x =? i then w else G (fst x) (snd x))) a) with (map (fun x => (fst x, G (fst x) (snd x))) a); [replace (map (fun x => (fst x, if fst x =? i then w else G (fst x) (snd x))) b) with (map (fun x => (fst x, G (fst x) (snd x))) b); [exact I'|]|].
  - apply map_ext_in. intros [j x] Hj. cbn [fst snd]. destruct (Nat.eqb_spec j i) as [->|]; [|reflexivity]. exfalso. apply ND. apply in_or_app. right. apply in_map_iff. exists (i, x). auto.
  - apply map_ext_in. intros [j x] Hj. cbn [fst snd]. destruct (Nat.eqb_spec j i) as [->|]; [|reflexivity]. exfalso. apply ND. apply in_or_app. left. apply in_map_iff. exists (i, x). auto.
Qed.
Lemma in_fst {A B} (l : list (A * B)) i : In i (map fst l) -> exists v, In (i, v) l.
Proof. intros H. apply in_map_iff in H. destruct H as ([j v] & <- & H). eauto. Qed.
Lemma fst_in {A B} (l : list (A * B)) i v : In (i, v) l -> In i (map fst l).
Proof. intros H. apply in_map_iff. exists (i, v). auto. Qed.
Lemma outs_in es i p : In p (outs es i) <-> exists e, In (p, e) es /\ efrom e = i.
Proof.
  unfold outs. rewrite in_map_iff. split.
  - intros ([q e] & <- & H). apply filter_In in H. destruct H as (H & Q). exists e. split; [exact H|]. unfold from_is in Q. cbn [snd] in Q. lia.
  - intros (e & H & <-). exists (p, e). split; [reflexivity|]. apply filter_In. split; [exact H|]. unfold from_is. cbn [snd]. apply Nat.eqb_refl.
Qed.
Lemma ins_in es i p : In p (ins es i) <-> exists e, In (p, e) es /\ eto e = i.
Proof.
  unfold ins. rewrite in_map_iff. split.
  - intros ([q e] & <- & H). apply filter_In in H. destruct H as (H & Q). exists e. split; [exact H|]. unfold to_is in Q. cbn [snd] in Q. lia.
  - intros (e & H & <-). exists (p, e). split; [reflexivity|]. apply filter_In. split; [exact H|]. unfold to_is. cbn [snd]. apply Nat.eqb_refl.
Qed.
Lemma nodup_fun (es : list aedge) p e e' : NoDup (map fst es) -> In (p, e) es -> In (p, e') es -> e = e'.
Proof.
  induction es as [|[q x] es IH]; intros N H H'; [destruct H|]. cbn [map fst] in N. inversion N as [|? ? N1 N2]; subst. destruct H as [H|H], H' as [H'|H'].
  - congruence.
  - injection H as -> ->. exfalso. apply N1. eapply fst_in; eassumption.
  - injection H' as -> ->. exfalso. apply N1. eapply fst_in; eassumption.
  - apply IH; assumption.
Qed.

(* --- one list of a family of disjoint lists changes --- *)
Lemma family_add h c f0 (Ls Ls' : nat -> list nat) : (forall i, dll h None (Ls i) None) -> (forall i, ~ In c (Ls i)) -> (forall i j x, In x (Ls i) -> In x (Ls j) -> i = j) -> Ls' f0 = c :: Ls f0 -> (forall i, i <> f0 -> Ls' i = Ls i) ->
  exists h', LLBase.LLAdd (put h c (Some (None, None))) (Some c) (hd_or (Ls f0) None) = Ok (h', Some c) /\ forall i, dll h' None (Ls' i) None.
Proof.
  intros D NI DJ E1 E2. assert (D' : forall i, dll (put h c (Some (None, None))) None (Ls i) None). { intros i. apply (dll_ext h); [|apply D]. intros x Hx. unfold put. destruct (Nat.eqb_spec x c) as [->|]; [|reflexivity]. exfalso. apply (NI i Hx). }
  destruct (LLBaseProps.add_ok (put h c (Some (None, None))) c (Ls f0) (D' f0) (NI f0)) as (h' & A & S & _). { unfold put. rewrite Nat.eqb_refl. discriminate. }
  exists h'. split; [exact A|]. destruct (LLBaseProps.spliced_in_list _ [] c (Ls f0) h' (D' f0) (NI f0) S) as (D1 & OC). intros i. destruct (Nat.eq_dec i f0) as [->|N]; [rewrite E1; exact D1|]. rewrite (E2 i N). apply (dll_ext (put h c (Some (None, None)))); [|apply D'].
  intros x Hx. apply OC. cbn [app]. intros [<-|Hx']; [exact (NI i Hx)|]. apply N. exact (DJ i f0 x Hx Hx').
Qed.
Lemma family_remove h c f0 (Ls Ls' : nat -> list nat) a b : (forall i, dll h None (Ls i) None) -> (forall i j x, In x (Ls i) -> In x (Ls j) -> i = j) -> Ls f0 = a ++ c :: b -> Ls' f0 = a ++ b -> (forall i, i <> f0 -> Ls' i = Ls i) ->
  exists h', LLBase.LLRemove2 h (Some c) (hd_or (Ls f0) None) = Ok (h', hd_or (Ls' f0) None) /\ forall i, dll (put h' c None) None (Ls' i) None.
Proof.
  intros D DJ E1 E2 E3. pose proof (D f0) as D0. rewrite E1 in D0. destruct (LLBaseProps.remove_ok h a c b D0) as (h' & _ & S & R & _). exists h'. rewrite E1, E2. split; [exact R|].
  destruct (LLBaseProps.spliced_out_list _ _ _ _ _ D0 S) as (D1 & OC). pose proof (dll_nodup _ _ _ D0) as ND. apply NoDup_remove_2 in ND.
  intros i. apply (dll_ext h').
  - intros x Hx. unfold put. destruct (Nat.eqb_spec x c) as [->|]; [|reflexivity]. exfalso. destruct (Nat.eq_dec i f0) as [->|N]; [rewrite E2 in Hx; contradiction|]. rewrite (E3 i N) in Hx. apply N. apply (DJ i f0 c Hx). rewrite E1. apply in_or_app. right. left. reflexivity.
  - destruct (Nat.eq_dec i f0) as [->|N]; [rewrite E2; exact D1|]. rewrite (E3 i N). apply (dll_ext h); [|apply D]. intros x Hx. apply OC. intros Hx'. apply N. apply (DJ i f0 x Hx). rewrite E1. apply in_app_or in Hx'. apply in_or_app. cbn [In]. tauto.
Qed.
Lemma outs_disj es : NoDup (map fst es) -> forall i j x, In x (outs es i) -> In x (outs es j) -> i = j.
Proof. intros N i j x H1 H2. apply outs_in in H1, H2. destruct H1 as (e & H1 & <-), H2 as (e' & H2 & <-). rewrite (nodup_fun _ _ _ _ N H1 H2). reflexivity. Qed.
Lemma ins_disj es : NoDup (map fst es) -> forall i j x, In x (ins es i) -> In x (ins es j) -> i = j.
Proof. intros N i j x H1 H2. apply ins_in in H1, H2. destruct H1 as (e & H1 & <-), H2 as (e' & H2 & <-). rewrite (nodup_fun _ _ _ _ N H1 H2). reflexivity. Qed.

Lemma add_edge_ok g l es p from to d : inv g l es -> ~ In p (map fst es) -> In from (map fst l) -> In to (map fst l) -> exists g', AddEdge g p from to d = Ok g' /\ inv g' l ((p, mke to from d) :: es).
Proof.
  intros (I & D1 & D2 & EI & ND & EP & NE) NP HF HT. unfold AddEdge. destruct (einfo g p) as [e|] eqn:Ee; [exfalso; apply NP; apply EI in Ee; eapply fst_in; exact Ee|].
  apply in_fst in HF, HT. destruct HF as (vf & HF), HT as (vt & HT). rewrite (get_view _ _ _ _ _ I HF). cbn [bind]. unfold view at 1. cbn [gto].
  set (es' := (p, mke to from d) :: es).
  destruct (family_add (nxt g) p from (outs es) (outs es') D1) as (h1 & A1 & D1').
  { intros i Hi. apply outs_in in Hi. destruct Hi as (e & Hi & _). apply NP. eapply fst_in; exact Hi. }
  { apply outs_disj. exact ND. }
  { unfold outs, es'. cbn [filter]. unfold from_is at 1. cbn [snd efrom]. rewrite Nat.eqb_refl. reflexivity. }
  { intros i Ni. unfold outs, es'. cbn [filter]. unfold from_is at 1. cbn [snd efrom]. destruct (Nat.eqb_spec from i); [congruence|reflexivity]. }
  rewrite A1. cbn [bind].
  destruct (put_view _ _ _ _ _ (mkg (Some p) (gfrom (view es from vf)) (gdata (view es from vf))) I HF) as (a & Ea & Ia). rewrite Ea. cbn [bind].
  rewrite (get_view _ _ _ _ _ Ia HT). cbn [bind].
  set (ndt := if to =? from then mkg (Some p) (gfrom (view es from vf)) (gdata (view es from vf)) else view es to vt).
  assert (vft : to = from -> vt = vf). { intros ->. pose proof (nodup_ids _ _ I) as N. rewrite viewl_fst in N. clear - N HF HT. induction l as [|[q x] l IH]; [destruct HF|]. cbn [map fst] in N. inversion N as [|? ? N1 N2]; subst. destruct HF as [H|H], HT as [H'|H']; [congruence| | |apply IH; assumption]; [injection H as -> ->|injection H' as -> ->]; exfalso; apply N1; eapply fst_in; eassumption. }
  assert (Gf : gfrom ndt = hd_or (ins es to) None). { unfold ndt. destruct (Nat.eqb_spec to from) as [->|]; reflexivity. }
  rewrite Gf. unfold LLBase.AltLLAdd.
  destruct (family_add (alt g) p to (ins es) (ins es') D2) as (h2 & A2 & D2').
  { intros i Hi. apply ins_in in Hi. destruct Hi as (e & Hi & _). apply NP. eapply fst_in; exact Hi. }
  { apply ins_disj. exact ND. }
  { unfold ins, es'. cbn [filter]. unfold to_is at 1. cbn [snd eto]. rewrite Nat.eqb_refl. reflexivity. }
  { intros i Ni. unfold ins, es'. cbn [filter]. unfold to_is at 1. cbn [snd eto]. destruct (Nat.eqb_spec to i); [congruence|reflexivity]. }
  rewrite A2. cbn [bind].
  destruct (put_view _ _ _ _ _ (mkg (gto ndt) (Some p) (gdata ndt)) Ia HT) as (a' & Ea' & Ia'). rewrite Ea'. cbn [bind]. eexists. split; [reflexivity|].
  split; [|split; [exact D1'|split; [exact D2'|split; [|split; [|split]]]]]; cbn [gn einfo nedges].
  - rewrite (viewl_ext (view es') (fun j x => if j =? to then mkg (gto ndt) (Some p) (gdata ndt) else if j =? from then mkg (Some p) (gfrom (view es from vf)) (gdata (view es from vf)) else view es j x)); [exact Ia'|].
    intros i v Hi. unfold view, es', outs, ins. cbn [filter]. unfold from_is at 1, to_is at 1. cbn [snd efrom eto].
    assert (Vi : forall j w, In (j, w) l -> i = j -> v = w). { intros j w Hj ->. pose proof (nodup_ids _ _ I) as N. rewrite viewl_fst in N. clear - N Hi Hj. induction l as [|[q x] l IH]; [destruct Hi|]. cbn [map fst] in N. inversion N as [|? ? N1 N2]; subst. destruct Hi as [H|H], Hj as [H'|H']; [congruence| | |apply IH; assumption]; [injection H as -> ->|injection H' as -> ->]; exfalso; apply N1; eapply fst_in; eassumption. }
    destruct (Nat.eqb_spec i to) as [->|N1].
    + rewrite Nat.eqb_refl. cbn [map fst hd_or]. rewrite (Vi to vt HT eq_refl). unfold ndt. destruct (Nat.eqb_spec to from) as [Q|N2].
      * subst from. rewrite Nat.eqb_refl. cbn [gto gdata map fst hd_or view]. rewrite (vft eq_refl). reflexivity.
      * destruct (Nat.eqb_spec from to); [congruence|]. reflexivity.
    + destruct (Nat.eqb_spec to i); [congruence|]. destruct (Nat.eqb_spec i from) as [->|N2].
      * rewrite Nat.eqb_refl. cbn [map fst hd_or gfrom gdata view]. rewrite (Vi from vf HF eq_refl). reflexivity.
      * destruct (Nat.eqb_spec from i); [congruence|]. reflexivity.
  - intros q e. unfold put, es'. cbn [In]. destruct (Nat.eqb_spec q p) as [->|N].
    + split; [intros Q; injection Q as <-; left; reflexivity|]. intros [Q|Q]; [congruence|]. exfalso. apply NP. eapply fst_in; exact Q.
    + rewrite EI. split; [auto|]. intros [Q|Q]; [congruence|exact Q].
  - unfold es'. cbn [map fst]. constructor; assumption.
  - intros q e [Q|Q]; [injection Q as <- <-; cbn [efrom eto]; split; eapply fst_in; eassumption|apply (EP q e Q)].
  - unfold es'. cbn [length]. lia.
Qed.

Definition without (p : nat) (es : list aedge) : list aedge := filter (fun x => negb (fst x =? p)) es.
Lemma filter_filter {A} (f g : A -> bool) l : filter f (filter g l) = filter (fun x => g x && f x) l.
Proof. induction l as [|x l IH]; [reflexivity|]. cbn [filter]. destruct (g x); cbn [andb filter]; rewrite IH; reflexivity. Qed.
Lemma filter_ext2 {A} (f g : A -> bool) l : (forall x, In x l -> f x = g x) -> filter f l = filter g l.
Proof. intros H. induction l as [|x l IH]; [reflexivity|]. cbn [filter]. rewrite (H x (or_introl eq_refl)). rewrite IH; [reflexivity|]. intros y Hy. apply H. right. exact Hy. Qed.
Lemma filter_id {A} (f : A -> bool) l : (forall x, In x l -> f x = true) -> filter f l = l.
Proof. intros H. induction l as [|x l IH]; [reflexivity|]. cbn [filter]. rewrite (H x (or_introl eq_refl)). f_equal. apply IH. intros y Hy. apply H. right. exact Hy. Qed.
Lemma filter_map_fst (k : nat -> bool) (es : list aedge) : map fst (filter (fun x => k (fst x)) es) = filter k (map fst es).
Proof. induction es as [|[q x] es IH]; [reflexivity|]. cbn [map filter fst]. destruct (k q); cbn [map fst]; rewrite IH; reflexivity. Qed.
Lemma without_family (sel : aedge -> bool) p es : map fst (filter sel (without p es)) = filter (fun q => negb (q =? p)) (map fst (filter sel es)).
Proof. rewrite <- (filter_map_fst (fun q => negb (q =? p))). unfold without. rewrite !filter_filter. f_equal. apply filter_ext2. intros x _. apply andb_comm. Qed.
Lemma filter_mid a c b : NoDup (a ++ c :: b) -> filter (fun q => negb (q =? c)) (a ++ c :: b) = a ++ b.
Proof.
  intros N. apply NoDup_remove_2 in N. rewrite filter_app. cbn [filter]. rewrite Nat.eqb_refl. cbn [negb]. f_equal; apply filter_id; intros x Hx; destruct (Nat.eqb_spec x c) as [->|]; [|reflexivity| |reflexivity]; exfalso; apply N; apply in_or_app; auto.
Qed.
Lemma filter_notin c l : ~ In c l -> filter (fun q => negb (q =? c)) l = l.
Proof. intros N. apply filter_id. intros x Hx. destruct (Nat.eqb_spec x c) as [->|]; [contradiction|reflexivity]. Qed.
Lemma without_nodup p es : NoDup (map fst es) -> NoDup (map fst (without p es)).
Proof. intros N. unfold without. rewrite (filter_map_fst (fun q => negb (q =? p))). apply NoDup_filter. exact N. Qed.
Lemma without_length p es : NoDup (map fst es) -> In p (map fst es) -> length (without p es) = length es - 1.
Proof.
  intros N H. rewrite <- (map_length fst), <- (map_length fst es). unfold without. rewrite (filter_map_fst (fun q => negb (q =? p))). apply in_split in H. destruct H as (a & b & Q). rewrite Q in *. rewrite (filter_mid _ _ _ N). rewrite !app_length. cbn [length]. lia.
Qed.
Lemma view_fun s G (l : list (nat * V)) i v w : LinkedArrayProps.inv s (viewl G l) -> In (i, v) l -> In (i, w) l -> v = w.
Proof.
  intros I H H'. pose proof (nodup_ids _ _ I) as N. rewrite viewl_fst in N. clear I. induction l as [|[q x] l IH]; [destruct H|]. cbn [map fst] in N. inversion N as [|? ? N1 N2]; subst. destruct H as [H|H], H' as [H'|H']; [congruence| | |apply IH; assumption]; [injection H as -> ->|injection H' as -> ->]; exfalso; apply N1; eapply fst_in; eassumption.
Qed.
Lemma remove_edge_ok g l es p : inv g l es -> In p (map fst es) -> exists g', RemoveEdge g p = Ok g' /\ inv g' l (without p es).
Proof.
  intros (I & D1 & D2 & EI & ND & EP & NE) HP. unfold RemoveEdge. destruct (in_fst _ _ HP) as (e & He). rewrite (proj2 (EI p e) He). destruct (EP p e He) as (HF & HT).
  apply in_fst in HF, HT. destruct HF as (vf & HF), HT as (vt & HT). set (from := efrom e) in *. set (to := eto e) in *. rewrite (get_view _ _ _ _ _ I HF). cbn [bind]. unfold view at 1. cbn [gto].
  set (es' := without p es).
  assert (O1 : In p (outs es from)) by (apply outs_in; exists e; auto). assert (O2 : In p (ins es to)) by (apply ins_in; exists e; auto).
  assert (Ow : forall i, outs es' i = filter (fun q => negb (q =? p)) (outs es i)) by (intros i; apply without_family).
  assert (Iw : forall i, ins es' i = filter (fun q => negb (q =? p)) (ins es i)) by (intros i; apply without_family).
  assert (Oo : forall i, i <> from -> outs es' i = outs es i). { intros i Ni. rewrite Ow. apply filter_notin. intros H. apply Ni. exact (outs_disj es ND i from p H O1). }
  assert (Io : forall i, i <> to -> ins es' i = ins es i). { intros i Ni. rewrite Iw. apply filter_notin. intros H. apply Ni. exact (ins_disj es ND i to p H O2). }
  destruct (in_split _ _ O1) as (a1 & b1 & Q1). destruct (in_split _ _ O2) as (a2 & b2 & Q2).
  destruct (family_remove (nxt g) p from (outs es) (outs es') a1 b1 D1 (outs_disj es ND) Q1) as (h1 & A1 & D1').
  { rewrite Ow, Q1. apply filter_mid. rewrite <- Q1. apply (dll_nodup _ _ _ (D1 from)). }
  { exact Oo. }
  rewrite A1. cbn [bind].
  destruct (put_view _ _ _ _ _ (mkg (hd_or (outs es' from) None) (gfrom (view es from vf)) (gdata (view es from vf))) I HF) as (a & Ea & Ia). rewrite Ea. cbn [bind].
  rewrite (get_view _ _ _ _ _ Ia HT). cbn [bind].
  set (ndt := if to =? from then mkg (hd_or (outs es' from) None) (gfrom (view es from vf)) (gdata (view es from vf)) else view es to vt).
  assert (vft : to = from -> vt = vf). { intros Q. rewrite Q in HT. exact (view_fun _ _ _ _ _ _ I HT HF). }
  assert (Gf : gfrom ndt = hd_or (ins es to) None). { unfold ndt. destruct (Nat.eqb_spec to from) as [Q|]; [rewrite Q|]; reflexivity. }
  rewrite Gf.
  destruct (family_remove (alt g) p to (ins es) (ins es') a2 b2 D2 (ins_disj es ND) Q2) as (h2 & A2 & D2').
  { rewrite Iw, Q2. apply filter_mid. rewrite <- Q2. apply (dll_nodup _ _ _ (D2 to)). }
  { exact Io. }
  rewrite A2. cbn [bind].
  destruct (put_view _ _ _ _ _ (mkg (gto ndt) (hd_or (ins es' to) None) (gdata ndt)) Ia HT) as (a' & Ea' & Ia'). rewrite Ea'. cbn [bind]. eexists. split; [reflexivity|].
  split; [|split; [exact D1'|split; [exact D2'|split; [|split; [|split]]]]]; cbn [gn einfo nedges].
  - rewrite (viewl_ext (view es') (fun j x => if j =? to then mkg (gto ndt) (hd_or (ins es' to) None) (gdata ndt) else if j =? from then mkg (hd_or (outs es' from) None) (gfrom (view es from vf)) (gdata (view es from vf)) else view es j x)); [exact Ia'|].
    intros i v Hi. unfold view at 1. destruct (Nat.eqb_spec i to) as [Qt|N1].
    + rewrite Qt in *. assert (v = vt) by exact (view_fun _ _ _ _ _ _ I Hi HT). subst v. unfold ndt. destruct (Nat.eqb_spec to from) as [Q|N2].
      * cbn [gto gdata]. unfold view. cbn [gdata]. rewrite (vft Q). rewrite Q at 1. reflexivity.
      * cbn [gto gdata]. unfold view. cbn [gto gdata]. rewrite (Oo to N2). reflexivity.
    + destruct (Nat.eqb_spec i from) as [Qf|N2].
      * rewrite Qf in *. assert (v = vf) by exact (view_fun _ _ _ _ _ _ I Hi HF). subst v. unfold view. cbn [gfrom gdata]. rewrite (Io from N1). reflexivity.
      * unfold view. rewrite (Oo i N2), (Io i N1). reflexivity.
  - intros q e'. unfold put, es', without. rewrite filter_In. cbn [fst]. destruct (Nat.eqb_spec q p) as [->|N].
    + split; [discriminate|]. intros (_ & X). discriminate X.
    + rewrite EI. cbn [negb]. tauto.
  - apply without_nodup. exact ND.
  - intros q e' H. unfold es', without in H. apply filter_In in H. apply (EP q e'). tauto.
  - unfold es'. rewrite without_length by assumption. lia.
Qed.
Lemma filter_without (sel : aedge -> bool) p e es : NoDup (map fst es) -> In (p, e) es -> sel (p, e) = false -> filter sel (without p es) = filter sel es.
Proof.
  intros N H S. unfold without. rewrite filter_filter. apply filter_ext2. intros [q e'] Hq. cbn [fst]. destruct (Nat.eqb_spec q p) as [->|]; [|reflexivity]. rewrite (nodup_fun _ _ _ _ N Hq H), S. reflexivity.
Qed.
Lemma drain_to_ok i : forall fuel g l es, inv g l es -> In i (map fst l) -> length (outs es i) <= fuel -> exists g', drain_to fuel g i = Ok g' /\ inv g' l (filter (fun x => negb (from_is i x)) es).
Proof.
  induction fuel as [|fuel IH]; intros g l es I Hi Hl; pose proof I as (Ia & _ & _ & _ & ND & _ & _); destruct (in_fst _ _ Hi) as (v & Hv); cbn [drain_to]; rewrite (get_view _ _ _ _ _ Ia Hv); cbn [bind]; unfold view; cbn [gto]; destruct (outs es i) as [|p os] eqn:Eo; cbn [hd_or].
  - exists g. split; [reflexivity|]. rewrite filter_id; [exact I|]. intros [q e] Hq. unfold from_is. cbn [snd]. destruct (Nat.eqb_spec (efrom e) i) as [Q|]; [|reflexivity]. exfalso. assert (X : In q (outs es i)) by (apply outs_in; eauto). rewrite Eo in X. destruct X.
  - cbn [length] in Hl. lia.
  - exists g. split; [reflexivity|]. rewrite filter_id; [exact I|]. intros [q e] Hq. unfold from_is. cbn [snd]. destruct (Nat.eqb_spec (efrom e) i) as [Q|]; [|reflexivity]. exfalso. assert (X : In q (outs es i)) by (apply outs_in; eauto). rewrite Eo in X. destruct X.
  - assert (Hp : In p (outs es i)) by (rewrite Eo; left; reflexivity). apply outs_in in Hp. destruct Hp as (e & Hp & Qe). destruct (remove_edge_ok g l es p I) as (g1 & E1 & I1); [eapply fst_in; exact Hp|]. rewrite E1. cbn [bind].
    destruct (IH g1 l (without p es) I1 Hi) as (g2 & E2 & I2).
    + unfold outs. rewrite without_family. fold (outs es i). rewrite Eo. change (p :: os) with ([] ++ p :: os). rewrite (filter_mid [] p os). { cbn [app length] in *. lia. } cbn [app]. rewrite <- Eo. destruct I as (_ & D1 & _). apply (dll_nodup _ _ _ (D1 i)).
    + exists g2. split; [exact E2|]. rewrite (filter_without _ p e) in I2; [exact I2|exact ND|exact Hp|]. unfold from_is. cbn [snd]. rewrite Qe, Nat.eqb_refl. reflexivity.
Qed.
Lemma drain_from_ok i : forall fuel g l es, inv g l es -> In i (map fst l) -> length (ins es i) <= fuel -> exists g', drain_from fuel g i = Ok g' /\ inv g' l (filter (fun x => negb (to_is i x)) es).
Proof.
  induction fuel as [|fuel IH]; intros g l es I Hi Hl; pose proof I as (Ia & _ & _ & _ & ND & _ & _); destruct (in_fst _ _ Hi) as (v & Hv); cbn [drain_from]; rewrite (get_view _ _ _ _ _ Ia Hv); cbn [bind]; unfold view; cbn [gfrom]; destruct (ins es i) as [|p os] eqn:Eo; cbn [hd_or].
  - exists g. split; [reflexivity|]. rewrite filter_id; [exact I|]. intros [q e] Hq. unfold to_is. cbn [snd]. destruct (Nat.eqb_spec (eto e) i) as [Q|]; [|reflexivity]. exfalso. assert (X : In q (ins es i)) by (apply ins_in; eauto). rewrite Eo in X. destruct X.
  - cbn [length] in Hl. lia.
  - exists g. split; [reflexivity|]. rewrite filter_id; [exact I|]. intros [q e] Hq. unfold to_is. cbn [snd]. destruct (Nat.eqb_spec (eto e) i) as [Q|]; [|reflexivity]. exfalso. assert (X : In q (ins es i)) by (apply ins_in; eauto). rewrite Eo in X. destruct X.
  - assert (Hp : In p (ins es i)) by (rewrite Eo; left; reflexivity). apply ins_in in Hp. destruct Hp as (e & Hp & Qe). destruct (remove_edge_ok g l es p I) as (g1 & E1 & I1); [eapply fst_in; exact Hp|]. rewrite E1. cbn [bind].
    destruct (IH g1 l (without p es) I1 Hi) as (g2 & E2 & I2).
    + unfold ins. rewrite without_family. fold (ins es i). rewrite Eo. change (p :: os) with ([] ++ p :: os). rewrite (filter_mid [] p os). { cbn [app length] in *. lia. } cbn [app]. rewrite <- Eo. destruct I as (_ & _ & D2 & _). apply (dll_nodup _ _ _ (D2 i)).
    + exists g2. split; [exact E2|]. rewrite (filter_without _ p e) in I2; [exact I2|exact ND|exact Hp|]. unfold to_is. cbn [snd]. rewrite Qe, Nat.eqb_refl. reflexivity.
Qed.
Lemma sel_length (sel : aedge -> bool) es : length (map fst (filter sel es)) <= length es.
Proof. rewrite map_length. induction es as [|x es IH]; [reflexivity|]. cbn [filter length]. destruct (sel x); cbn [length]; lia. Qed.
Lemma remove_node_ok g l es i : inv g l es -> In i (map fst l) -> exists g', RemoveNode g i = Ok g' /\ inv g' (filter (fun x => negb (fst x =? i)) l) (filter (fun x => negb (from_is i x || to_is i x)) es).
Proof.
  intros I Hi. unfold RemoveNode. destruct (drain_to_ok i (nedges g) g l es I Hi) as (g1 & E1 & I1). { destruct I as (_ & _ & _ & _ & _ & _ & ->). apply sel_length. }
  rewrite E1. cbn [bind]. destruct (drain_from_ok i (nedges g1) g1 l _ I1 Hi) as (g2 & E2 & I2). { destruct I1 as (_ & _ & _ & _ & _ & _ & ->). apply sel_length. }
  rewrite E2. cbn [bind]. rewrite filter_filter in I2. set (es' := filter _ es) in I2.
  assert (Ee : filter (fun x => negb (from_is i x || to_is i x)) es = es') by (apply filter_ext2; intros x _; rewrite negb_orb; reflexivity). rewrite Ee. clear Ee.
  destruct I2 as (Ia & D1 & D2 & EI & ND & EP & NE). destruct (in_fst _ _ Hi) as (v & Hv). apply in_split in Hv. destruct Hv as (la & lb & ->).
  assert (Na : ~ In i (map fst la ++ map fst lb)). { pose proof (nodup_ids _ _ Ia) as N. rewrite viewl_fst, map_app in N. cbn [map fst] in N. apply NoDup_remove_2 in N. exact N. }
  assert (Fl : filter (fun x => negb (fst x =? i)) (la ++ (i, v) :: lb) = la ++ lb).
  { rewrite filter_app. cbn [filter fst]. rewrite Nat.eqb_refl. cbn [negb]. f_equal; apply filter_id; intros [j x] Hj; cbn [fst]; destruct (Nat.eqb_spec j i) as [->|]; [|reflexivity| |reflexivity]; exfalso; apply Na; apply in_or_app; [left|right]; eapply fst_in; exact Hj. }
  rewrite Fl. unfold viewl in Ia. rewrite map_app in Ia. cbn [map fst snd] in Ia. destruct (LinkedArrayProps.remove_ok fresh _ _ _ _ _ Ia) as (a & Ea & Ia'). rewrite Ea. cbn [bind]. eexists. split; [reflexivity|].
  split; [|split; [exact D1|split; [exact D2|split; [exact EI|split; [exact ND|split; [|exact NE]]]]]]; cbn [gn].
  - unfold viewl. rewrite map_app. exact Ia'.
  - intros p e H. destruct (EP p e H) as (H1 & H2). unfold es' in H. apply filter_In in H. destruct H as (_ & H). unfold from_is, to_is in H. cbn [snd] in H. rewrite !map_app in *. cbn [map fst] in *. rewrite !in_app_iff in *. cbn [In] in *.
    split; [destruct H1 as [H1|[H1|H1]]|destruct H2 as [H2|[H2|H2]]]; try tauto; exfalso; lia.
Qed.
Lemma add_node_ok g l es v : inv g l es -> exists g' i, AddNode fresh g v = Ok (g', Some i) /\ ~ In i (map fst l) /\ inv g' (l ++ [(i, v)]) es /\
  exists f, chain (LinkedArrayProps.nx (LinkedArray.nodes (gn g'))) f None /\ LinkedArray.freelist (gn g') = hd_or f None /\ LinkedArrayProps.takes (gn g) i f.
Proof.
  intros (Ia & D1 & D2 & EI & ND & EP & NE). unfold AddNode, LinkedArray.Add.
  destruct (LinkedArrayProps.insert_after_strong fresh (gn g) (viewl (view es) l) (mkg None None v) (viewl (view es) l) [] (LinkedArray.end_ (gn g)) Ia) as (a & c & Ea & Nc & Ic & Fc).
  { symmetry. apply app_nil_r. }
  { destruct Ia as (_ & _ & EN & _). rewrite EN. destruct (last_or None _); reflexivity. }
  rewrite Ea. cbn [bind]. eexists _, c. split; [reflexivity|]. rewrite viewl_fst in Nc. split; [exact Nc|]. split; [|exact Fc].
  split; [|split; [exact D1|split; [exact D2|split; [exact EI|split; [exact ND|split; [|exact NE]]]]]]; cbn [gn].
  - unfold viewl. rewrite map_app. cbn [map fst snd]. replace (view es c v) with (@mkg V None None v); [exact Ic|]. unfold view.
    assert (outs es c = []) as ->. { destruct (outs es c) as [|p os] eqn:Q; [reflexivity|]. exfalso. assert (X : In p (outs es c)) by (rewrite Q; left; reflexivity). apply outs_in in X. destruct X as (e & X & <-). apply Nc. apply (EP p e X). }
    assert (ins es c = []) as ->. { destruct (ins es c) as [|p os] eqn:Q; [reflexivity|]. exfalso. assert (X : In p (ins es c)) by (rewrite Q; left; reflexivity). apply ins_in in X. destruct X as (e & X & <-). apply Nc. apply (EP p e X). }
    reflexivity.
  - intros p e H. destruct (EP p e H). rewrite map_app, !in_app_iff. auto.
Qed.
Lemma new_ok n : exists g, new_graph fresh n = Ok g /\ inv g [] [] /\ exists f, f = seq 0 n /\ chain (LinkedArrayProps.nx (LinkedArray.nodes (gn g))) f None /\ LinkedArray.freelist (gn g) = hd_or f None.
Proof.
  unfold new_graph. pose proof (LinkedArrayProps.setup_ok (repeat fresh n) None 0 n []) as S. destruct S as (nd & Es & L & C & _); [exact Logic.I|reflexivity|rewrite repeat_length; lia|intros x []|].
  destruct (LinkedArrayProps.inv_new fresh n) as (s & E1 & I1). rewrite E1. cbn [bind]. eexists. split; [reflexivity|]. split.
  - split; [exact I1|]. split; [intros i; exact Logic.I|]. split; [intros i; exact Logic.I|]. split; [intros p e; cbn; split; [discriminate|tauto]|]. split; [constructor|]. split; [intros p e []|reflexivity].
  - exists (seq 0 n). split; [reflexivity|]. unfold LinkedArray.new_larr in E1. rewrite Es in E1. cbn [bind] in E1. injection E1 as <-. rewrite app_nil_r in *. split; [exact C|reflexivity].
Qed.
Lemma step_ok g l es o : inv g l es -> valid o l es -> exists g' l' es', step fresh g o = Ok g' /\ inv g' l' es' /\ effect o l l' es es'.
Proof.
  intros I Hv. destruct o as [v|p from to d|p|i]; cbn [step valid effect] in *.
  - destruct (add_node_ok g l es v I) as (g' & i & E1 & N1 & I1 & _). rewrite E1. cbn [bind]. exists g', (l ++ [(i, v)]), es. split; [reflexivity|]. split; [exact I1|]. split; [|reflexivity]. exists i. auto.
  - destruct Hv as (H1 & H2 & H3). destruct (add_edge_ok g l es p from to d I H1 H2 H3) as (g' & E1 & I1). exists g', l, ((p, mke to from d) :: es). auto.
  - destruct (remove_edge_ok g l es p I Hv) as (g' & E1 & I1). exists g', l, (without p es). auto.
  - destruct (remove_node_ok g l es i I Hv) as (g' & E1 & I1). eexists g', _, _. split; [exact E1|]. split; [exact I1|]. auto.
Qed.

Lemma shows_inv g l es l0 es0 : inv g l0 es0 -> shows g l es -> l = l0 /\ inv g l es.
Proof.
  intros I ((nl & SH & M & LS) & EI & ND & EP & NE & NN). pose proof I as (Ia & D1 & D2 & EI0 & ND0 & EP0 & NE0). pose proof (LinkedArrayProps.inv_shows _ _ Ia) as SH0. pose proof (LinkedArrayProps.shows_fun _ _ _ SH SH0) as Q. subst nl.
  assert (l = l0) as ->. { rewrite <- M. unfold viewl. rewrite map_map. cbn [fst snd]. unfold view. cbn [gdata]. rewrite <- (map_id l0) at 2. apply map_ext. intros [i v]. reflexivity. }
  split; [reflexivity|]. 
  assert (Q : forall i, outs es i = outs es0 i /\ ins es i = ins es0 i).
  { intros i. destruct (in_dec Nat.eq_dec i (map fst l0)) as [Hi|Hi].
    - destruct (in_fst _ _ Hi) as (v & Hv). destruct (LS i (view es0 i v)) as ((la & L1) & (lb & L2)). { apply in_map_iff. exists (i, v). auto. }
      split.
      + destruct (LLBaseProps.list_at_fun (nxt g) (gto (view es0 i v)) la (outs es i) (last_or None (outs es0 i)) (outs es0 i) L1) as (Q & _); [|exact Q]. apply LLBaseProps.list_at_dll. split; [reflexivity|]. split; [reflexivity|apply D1].
      + destruct (LLBaseProps.list_at_fun (alt g) (gfrom (view es0 i v)) lb (ins es i) (last_or None (ins es0 i)) (ins es0 i) L2) as (Q & _); [|exact Q]. apply LLBaseProps.list_at_dll. split; [reflexivity|]. split; [reflexivity|apply D2].
    - assert (Z : forall es', (forall p e, In (p, e) es' -> In (efrom e) (map fst l0) /\ In (eto e) (map fst l0)) -> outs es' i = [] /\ ins es' i = []).
      { intros es' H. split.
        - destruct (outs es' i) as [|p os] eqn:Q; [reflexivity|]. exfalso. assert (X : In p (outs es' i)) by (rewrite Q; left; reflexivity). apply outs_in in X. destruct X as (e & X & <-). apply Hi. apply (H p e X).
        - destruct (ins es' i) as [|p os] eqn:Q; [reflexivity|]. exfalso. assert (X : In p (ins es' i)) by (rewrite Q; left; reflexivity). apply ins_in in X. destruct X as (e & X & <-). apply Hi. apply (H p e X). }
      destruct (Z es EP) as (-> & ->). destruct (Z es0 EP0) as (-> & ->). auto. }
  split; [|split; [intros i; rewrite (proj1 (Q i)); apply D1|split; [intros i; rewrite (proj2 (Q i)); apply D2|split; [exact EI|split; [exact ND|split; [exact EP|exact NE]]]]]].
  rewrite (viewl_ext (view es) (view es0)); [exact Ia|]. intros i v _. unfold view. rewrite (proj1 (Q i)), (proj2 (Q i)). reflexivity.
Qed.
Lemma reachable_inv g : reachable fresh g -> exists l es, inv g l es.
Proof.
  intros R. induction R as [n g H|g o l es g' R IH S Hv Hs].
  - destruct (new_ok n) as (g0 & E0 & I0 & _). rewrite E0 in H. injection H as <-. eauto.
  - destruct IH as (l0 & es0 & I0). destruct (shows_inv _ _ _ _ _ I0 S) as (_ & I). destruct (step_ok g l es o I Hv) as (g1 & l' & es' & E1 & I1 & _). rewrite E1 in Hs. injection Hs as <-. eauto.
Qed.

(* ---- walking over the nodes ---- *)
Lemma walk_facts g l es : inv g l es -> LinkedArray.Front (gn g) = nth_error (map fst l) 0 /\ NumNodes g = length l /\
  forall k i v, nth_error l k = Some (i, v) -> LinkedArray.GetItem (gn g) i = Ok (view es i v) /\ LinkedArray.Next (gn g) i = Ok (nth_error (map fst l) (S k)).
Proof.
  intros (I & _). pose proof (LinkedArrayProps.inv_shows _ _ I) as SH. unfold LinkedArrayProps.shows in SH. cbv zeta in SH. rewrite viewl_fst in SH. destruct SH as (H1 & _ & H2 & _ & H3). split; [exact H2|]. split; [unfold NumNodes; rewrite H1; unfold viewl; apply map_length|].
  intros k i v H. destruct (H3 k i (view es i v)) as (A & B & _); [|auto]. unfold viewl. rewrite (map_nth_error _ _ _ H). reflexivity.
Qed.
Lemma destroy_loop_ok l : forall fuel g es k, inv g l es -> length l - k <= fuel ->
  exists g', destroy_loop fuel g (nth_error (map fst l) k) = Ok g' /\ inv g' l (filter (fun x => negb (existsb (fun i => from_is i x) (skipn k (map fst l)))) es).
Proof.
  induction fuel as [|fuel IH]; intros g es k I Hf.
  - rewrite (proj2 (nth_error_None _ _)) by (rewrite map_length; lia). exists g. split; [reflexivity|]. rewrite skipn_all2 by (rewrite map_length; lia). rewrite filter_id; [exact I|]. reflexivity.
  - destruct (nth_error l k) as [[i v]|] eqn:El.
    + rewrite (map_nth_error fst _ _ El). cbn [destroy_loop fst]. destruct (drain_to_ok i (nedges g) g l es I) as (g1 & E1 & I1). { apply in_map_iff. exists (i, v). split; [reflexivity|]. eapply nth_error_In; exact El. } { destruct I as (_ & _ & _ & _ & _ & _ & ->). apply sel_length. }
      rewrite E1. cbn [bind]. destruct (walk_facts _ _ _ I1) as (_ & _ & W). destruct (W k i v El) as (_ & ->). cbn [bind].
      destruct (IH g1 _ (S k) I1) as (g2 & E2 & I2); [lia|]. exists g2. split; [exact E2|]. rewrite filter_filter in I2.
      erewrite filter_ext2; [exact I2|]. intros x _. rewrite (skipn_cons (map fst l) k i) by (apply (map_nth_error fst _ _ El)). cbn [existsb]. apply negb_orb.
    + rewrite (proj2 (nth_error_None _ _)) by (rewrite map_length; apply nth_error_None; exact El). exists g. split; [reflexivity|]. rewrite skipn_all2 by (rewrite map_length; apply nth_error_None; exact El). rewrite filter_id; [exact I|]. reflexivity.
Qed.
Lemma destroy_ok g l es : inv g l es -> exists g', Destroy g = Ok g' /\ inv g' l [].
Proof.
  intros I. unfold Destroy. destruct (walk_facts _ _ _ I) as (-> & -> & _). destruct (destroy_loop_ok l (length l) g es 0 I) as (g' & E1 & I1); [lia|]. exists g'. split; [exact E1|]. cbn [skipn] in I1.
  replace (filter _ es) with (@nil aedge) in I1; [exact I1|]. symmetry. destruct I as (_ & _ & _ & _ & _ & EP & _). clear - EP. induction es as [|[p e] es IH]; [reflexivity|]. cbn [filter].
  assert (existsb (fun i => from_is i (p, e)) (map fst l) = true) as ->. { apply existsb_exists. exists (efrom e). split; [apply (EP p e); left; reflexivity|]. unfold from_is. cbn [snd]. apply Nat.eqb_refl. }
  cbn [negb]. apply IH. intros q e' H. apply (EP q e'). right. exact H.
Qed.

(* ---- ToMatrix ---- *)
Definition hashed (l : list (nat * V)) (n : nat) (hash : list nat) : Prop := forall k i, k < n -> nth_error (map fst l) k = Some i -> nth_error hash i = Some k.
Lemma ids_lt g l es i : inv g l es -> In i (map fst l) -> i < length (LinkedArray.nodes (gn g)).
Proof.
  intros (I & _) H. destruct I as (_ & _ & _ & f & C). apply (LinkedArrayProps.core_lt _ _ _ _ _ _ C). rewrite viewl_fst. cbn [app]. apply in_or_app. left. exact H.
Qed.
Lemma hash_ok g l es : inv g l es -> forall fuel k hash, length l - k <= fuel -> k <= length l -> length hash = length (LinkedArray.nodes (gn g)) -> hashed l k hash ->
  exists hash', hash_loop fuel g (nth_error (map fst l) k) k hash = Ok hash' /\ length hash' = length hash /\ hashed l (length l) hash'.
Proof.
  intros I. induction fuel as [|fuel IH]; intros k hash Hf Hk Hl HH.
  - assert (k = length l) as -> by lia. rewrite (proj2 (nth_error_None _ _)) by (rewrite map_length; lia). exists hash. auto.
  - destruct (nth_error l k) as [[i v]|] eqn:El.
    + pose proof (map_nth_error fst _ _ El) as Ei. rewrite Ei. cbn [hash_loop fst] in *. assert (Li : i < length hash) by (rewrite Hl; eapply ids_lt; [exact I|eapply nth_error_In; exact Ei]). rewrite set_ok by exact Li. cbn [bind].
      destruct (walk_facts _ _ _ I) as (_ & _ & W). destruct (W k i v El) as (_ & ->). cbn [bind]. replace (k + 1) with (S k) by lia. destruct (IH (S k) (upd hash i k)) as (h' & E' & L' & H').
      * lia.
      * apply nth_error_lt in El. lia.
      * rewrite upd_length. exact Hl.
      * intros k' j Hk' Hj. destruct (Nat.eq_dec k' k) as [->|N]. { rewrite Ei in Hj. injection Hj as <-. apply nth_error_upd_eq. exact Li. }
        rewrite nth_error_upd_neq; [apply (HH k' j); [lia|exact Hj]|]. intros Q. subst j. apply N. destruct I as (I & _). pose proof (nodup_ids _ _ I) as ND. rewrite viewl_fst in ND. eapply (proj1 (NoDup_nth_error _) ND); [eapply nth_error_lt; exact Hj|]. rewrite Hj, Ei. reflexivity.
      * exists h'. rewrite upd_length in L'. auto.
    + apply nth_error_None in El. assert (k = length l) as -> by lia. rewrite (proj2 (nth_error_None _ _)) by (rewrite map_length; lia). exists hash. auto.
Qed.
(* writes performed one after the other *)
Definition writes (ws : list (nat * E)) (m : list E) : list E := fold_left (fun m w => upd m (fst w) (snd w)) ws m.
Lemma writes_length ws : forall m, length (writes ws m) = length m.
Proof. induction ws as [|w ws IH]; intros m; [reflexivity|]. cbn [writes fold_left]. fold (writes ws (upd m (fst w) (snd w))). rewrite IH. apply upd_length. Qed.
Lemma writes_nth ws : forall m x, x < length m -> nth_error (writes ws m) x = match rev (filter (fun w => fst w =? x) ws) with [] => nth_error m x | w :: _ => Some (snd w) end.
Proof.
  induction ws as [|w ws IH]; intros m x Hx; [reflexivity|]. cbn [writes fold_left]. fold (writes ws (upd m (fst w) (snd w))). rewrite IH by (rewrite upd_length; exact Hx). cbn [filter]. destruct (Nat.eqb_spec (fst w) x) as [Q|N].
  - cbn [rev]. destruct (rev (filter (fun w0 => fst w0 =? x) ws)) as [|y r]; cbn [app]; [|reflexivity]. rewrite Q. apply nth_error_upd_eq. exact Hx.
  - destruct (rev (filter (fun w0 => fst w0 =? x) ws)) as [|y r]; [|reflexivity]. apply nth_error_upd_neq. lia.
Qed.
Definition pos (hash : list nat) (i : nat) : nat := nth i hash 0.
Definition write_of (len : nat) (hash : list nat) (x : aedge) : nat * E := (pos hash (efrom (snd x)) * len + pos hash (eto (snd x)), edata (snd x)).
Lemma pos_ok l n hash k i : hashed l n hash -> k < n -> nth_error (map fst l) k = Some i -> pos hash i = k.
Proof. intros H Hk Hi. unfold pos. apply nth_error_nth. exact (H k i Hk Hi). Qed.
Lemma pos_in l hash i : hashed l (length l) hash -> In i (map fst l) -> nth_error hash i = Some (pos hash i) /\ pos hash i < length l /\ nth_error (map fst l) (pos hash i) = Some i.
Proof.
  intros H Hi. apply In_nth_error in Hi. destruct Hi as (k & Hk). assert (Lk : k < length l) by (rewrite <- (map_length fst); eapply nth_error_lt; exact Hk). rewrite (pos_ok _ _ _ _ _ H Lk Hk). split; [apply (H k i Lk Hk)|]. auto.
Qed.
Lemma row_ok g l es hash i : inv g l es -> hashed l (length l) hash -> forall fuel c d m, In i (map fst l) -> length l * length l <= length m -> filter (from_is i) es = c ++ d -> length d <= fuel ->
  row_loop fuel g (length l) hash i (hd_or (map fst d) None) m = Ok (writes (map (write_of (length l) hash) d) m).
Proof.
  intros I HH. pose proof I as (_ & D1 & _ & EI & ND & EP & _). destruct (walk_facts _ _ _ I) as (_ & _ & _). induction fuel as [|fuel IH]; intros c d m Hi Hm Q Hf; destruct d as [|[p e] d]; cbn [length] in Hf; try lia; [reflexivity|reflexivity|].
  cbn [map hd_or fst row_loop]. assert (Hp : In (p, e) (filter (from_is i) es)) by (rewrite Q; apply in_or_app; right; left; reflexivity). apply filter_In in Hp. destruct Hp as (Hp & Fe). unfold from_is in Fe. cbn [snd] in Fe. apply Nat.eqb_eq in Fe. rewrite (proj2 (EI p e) Hp). destruct (EP p e Hp) as (H1 & H2).
  destruct (pos_in _ _ _ HH Hi) as (P1 & P2 & _). destruct (pos_in _ _ _ HH H2) as (P3 & P4 & _). rewrite (get_some hash i _ P1). cbn [bind]. rewrite (get_some hash (eto e) _ P3). cbn [bind].
  assert (Lx : pos hash i * length l + pos hash (eto e) < length m). { assert (pos hash i * length l <= (length l - 1) * length l) by (apply Nat.mul_le_mono_r; lia). rewrite Nat.mul_sub_distr_r in H. assert (length l <= length l * length l) by (rewrite <- (Nat.mul_1_r (length l)) at 1; apply Nat.mul_le_mono_l; lia). lia. }
  rewrite set_ok by exact Lx. cbn [bind].
  assert (Nx : LLBase.rd_next (nxt g) (Some p) = Ok (hd_or (map fst d) None)).
  { specialize (D1 i). unfold outs in D1. rewrite Q, map_app in D1. cbn [map fst] in D1. apply dll_app in D1. destruct D1 as (_ & D1). cbn [dll] in D1. destruct D1 as (D1 & _). unfold LLBase.rd_next, LLBase.rd. rewrite D1. reflexivity. }
  rewrite Nx. cbn [bind]. rewrite (IH (c ++ [(p, e)]) d).
  - cbn [map writes fold_left]. unfold write_of at 3. cbn [fst snd]. rewrite Fe. reflexivity.
  - exact Hi.
  - rewrite upd_length. exact Hm.
  - rewrite <- app_assoc. exact Q.
  - lia.
Qed.
Definition vwrite (vs : list V) (l : list (nat * V)) : list V := fold_left (fun vs x => upd vs (fst x) (snd x)) l vs.
Lemma vwrite_length l : forall vs, length (vwrite vs l) = length vs.
Proof. induction l as [|x l IH]; intros vs; [reflexivity|]. cbn [vwrite fold_left]. fold (vwrite (upd vs (fst x) (snd x)) l). rewrite IH. apply upd_length. Qed.
Lemma vwrite_out l : forall vs j, ~ In j (map fst l) -> nth_error (vwrite vs l) j = nth_error vs j.
Proof. induction l as [|x l IH]; intros vs j H; [reflexivity|]. cbn [vwrite fold_left]. fold (vwrite (upd vs (fst x) (snd x)) l). cbn [map In] in H. rewrite IH by tauto. apply nth_error_upd_neq. intros Q. apply H. left. congruence. Qed.
Lemma vwrite_in l : forall vs i v, NoDup (map fst l) -> In (i, v) l -> i < length vs -> nth_error (vwrite vs l) i = Some v.
Proof.
  induction l as [|x l IH]; intros vs i v N H L; [destruct H|]. cbn [map] in N. inversion N as [|? ? N1 N2]; subst. cbn [vwrite fold_left]. fold (vwrite (upd vs (fst x) (snd x)) l). destruct H as [->|H].
  - cbn [fst snd] in *. rewrite vwrite_out by exact N1. apply nth_error_upd_eq. exact L.
  - apply IH; [exact N2|exact H|]. rewrite upd_length. exact L.
Qed.
Lemma matrix_ok g l es hash : inv g l es -> hashed l (length l) hash -> forall fuel k m vs, length l - k <= fuel -> length l * length l <= length m -> (match vs with None => True | Some vs => forall i, In i (map fst l) -> i < length vs end) ->
  matrix_loop fuel g (length l) hash (nth_error (map fst l) k) m vs =
    Ok (writes (flat_map (fun i => map (write_of (length l) hash) (filter (from_is i) es)) (skipn k (map fst l))) m, match vs with None => None | Some vs => Some (vwrite vs (skipn k l)) end).
Proof.
  intros I HH. destruct (walk_facts _ _ _ I) as (_ & _ & W). induction fuel as [|fuel IH]; intros k m vs Hf Hm Hv.
  - rewrite (proj2 (nth_error_None _ _)) by (rewrite map_length; lia). rewrite !skipn_all2 by (rewrite ?map_length; lia). cbn [flat_map writes fold_left matrix_loop vwrite]. destruct vs; reflexivity.
  - destruct (nth_error l k) as [[i v]|] eqn:El.
    + pose proof (map_nth_error fst _ _ El) as Ei. rewrite Ei. cbn [matrix_loop fst] in *. destruct (W k i v El) as (-> & ->). cbn [bind]. unfold view at 1. cbn [gdata].
      pose proof (nth_error_In _ _ Ei) as Hi.
      assert (Ev : (do vs <- match vs with None => Ok None | Some vs => do vs <- set vs i (gdata (view es i v)); Ok (Some vs) end; Ok vs) = Ok (match vs with None => None | Some vs => Some (upd vs i v) end)).
      { destruct vs as [vs|]; [|reflexivity]. rewrite set_ok by (apply Hv; exact Hi). reflexivity. }
      destruct vs as [vs|].
      * rewrite set_ok by (apply Hv; exact Hi). cbn [bind]. unfold view at 1. cbn [gto]. unfold outs. rewrite (row_ok g l es hash i I HH (nedges g) [] (filter (from_is i) es) m Hi Hm eq_refl). 2:{ destruct I as (_ & _ & _ & _ & _ & _ & ->). rewrite <- (map_length fst). apply sel_length. }
        cbn [bind]. rewrite (IH (S k) _ (Some (upd vs i v))); [|lia|rewrite writes_length; exact Hm|intros j Hj; rewrite upd_length; apply Hv; exact Hj].
        rewrite (skipn_cons _ _ _ Ei), (skipn_cons _ _ _ El). cbn [flat_map]. unfold writes. rewrite fold_left_app. reflexivity.
      * cbn [bind]. unfold view at 1. cbn [gto]. unfold outs. rewrite (row_ok g l es hash i I HH (nedges g) [] (filter (from_is i) es) m Hi Hm eq_refl). 2:{ destruct I as (_ & _ & _ & _ & _ & _ & ->). rewrite <- (map_length fst). apply sel_length. }
        cbn [bind]. rewrite (IH (S k) _ None); [|lia|rewrite writes_length; exact Hm|exact Logic.I].
        rewrite (skipn_cons _ _ _ Ei). cbn [flat_map]. unfold writes. rewrite fold_left_app. reflexivity.
    + apply nth_error_None in El. rewrite (proj2 (nth_error_None _ _)) by (rewrite map_length; lia). rewrite !skipn_all2 by (rewrite ?map_length; lia). cbn [flat_map writes fold_left matrix_loop vwrite]. destruct vs; reflexivity.
Qed.
Lemma cell_inj n a b a' b' : b < n -> b' < n -> a * n + b = a' * n + b' -> a = a' /\ b = b'.
Proof. intros H H' Q. rewrite !(Nat.mul_comm _ n) in Q. destruct (Nat.div_mod_unique n a a' b b' H H' Q). auto. Qed.
Lemma filter_map_comm {A B} (f : B -> bool) (h : A -> B) l : filter f (map h l) = map h (filter (fun x => f (h x)) l).
Proof. induction l as [|x l IH]; [reflexivity|]. cbn [map filter]. destruct (f (h x)); cbn [map]; rewrite IH; reflexivity. Qed.
Lemma flat_filter {A B} (f : B -> bool) (h : A -> list B) l : filter f (flat_map h l) = flat_map (fun x => filter f (h x)) l.
Proof. induction l as [|x l IH]; [reflexivity|]. cbn [flat_map]. rewrite filter_app, IH. reflexivity. Qed.
Lemma flat_one {A} (h : nat -> list A) l i : NoDup l -> In i l -> (forall j, In j l -> j <> i -> h j = []) -> flat_map h l = h i.
Proof.
  intros N Hi H. induction l as [|x l IH]; [destruct Hi|]. inversion N as [|? ? N1 N2]; subst. cbn [flat_map]. destruct (Nat.eq_dec x i) as [->|Nx].
  - rewrite <- (app_nil_r (h i)) at 2. f_equal. clear IH Hi. induction l as [|y l IHl]; [reflexivity|]. cbn [flat_map]. rewrite (H y); [|right; left; reflexivity|intros ->; apply N1; left; reflexivity]. cbn [app]. apply IHl.
    + intros j Hj. apply H. destruct Hj as [->|Hj]; [left; reflexivity|right; right; exact Hj].
    + inversion N2; subst. constructor; [|assumption]. intros X. apply N1. right. exact X.
    + intros X. apply N1. right. exact X.
    + inversion N2; assumption.
  - rewrite (H x (or_introl eq_refl) Nx). cbn [app]. destruct Hi as [Hi|Hi]; [contradiction|]. apply IH; [exact N2|exact Hi|]. intros j Hj. apply H. right. exact Hj.
Qed.
Lemma to_matrix_ok g l es m vs : inv g l es -> length l * length l <= length m -> (match vs with None => True | Some vs => forall i, In i (map fst l) -> i < length vs end) ->
  exists m', ToMatrix g m vs = Ok (length l, m', match vs with None => None | Some vs => Some (vwrite vs l) end) /\ length m' = length m /\
    forall a b i j, nth_error (map fst l) a = Some i -> nth_error (map fst l) b = Some j ->
      nth_error m' (a * length l + b) = match rev (filter (fun x => from_is i x && to_is j x) es) with [] => nth_error m (a * length l + b) | x :: _ => Some (edata (snd x)) end.
Proof.
  intros I Hm Hv. unfold ToMatrix. destruct (walk_facts _ _ _ I) as (-> & -> & _). destruct (hash_ok g l es I (length l) 0 (repeat 0 (length (LinkedArray.nodes (gn g))))) as (hash & -> & Lh & HH).
  { lia. } { lia. } { apply repeat_length. } { intros k i Hk. lia. }
  cbn [bind]. rewrite (matrix_ok g l es hash I HH (length l) 0 m vs) by (assumption || lia). cbn [bind]. cbn [skipn]. eexists. split; [reflexivity|]. split; [apply writes_length|].
  intros a b i j Ha Hb. assert (La : a < length l) by (rewrite <- (map_length fst); eapply nth_error_lt; exact Ha). assert (Lb : b < length l) by (rewrite <- (map_length fst); eapply nth_error_lt; exact Hb).
  assert (Lx : a * length l + b < length m). { assert (X : a * length l <= (length l - 1) * length l) by (apply Nat.mul_le_mono_r; lia). rewrite Nat.mul_sub_distr_r in X. assert (length l <= length l * length l) by (rewrite <- (Nat.mul_1_r (length l)) at 1; apply Nat.mul_le_mono_l; lia). lia. }
  rewrite writes_nth by exact Lx. rewrite flat_filter. pose proof I as (Ia & _ & _ & _ & _ & EP & _). pose proof (nodup_ids _ _ Ia) as ND. rewrite viewl_fst in ND.
  pose proof (pos_ok _ _ _ _ _ HH La Ha) as Pi. pose proof (pos_ok _ _ _ _ _ HH Lb Hb) as Pj.
  assert (K : forall i' x, In i' (map fst l) -> In x (filter (from_is i') es) -> (fst (write_of (length l) hash x) =? a * length l + b) = (i' =? i) && to_is j x).
  { intros i' [p e] Hi' Hx. apply filter_In in Hx. destruct Hx as (Hx & Fx). unfold from_is in Fx. cbn [snd] in Fx. apply Nat.eqb_eq in Fx. destruct (EP p e Hx) as (H1 & H2). unfold write_of, to_is. cbn [fst snd]. destruct (pos_in _ _ _ HH H1) as (_ & _ & P1). destruct (pos_in _ _ _ HH H2) as (_ & P2 & P3).
    destruct (Nat.eqb_spec i' i) as [Qi|Ni]; cbn [andb].
    - destruct (Nat.eqb_spec (eto e) j) as [Qj|Nj].
      + apply Nat.eqb_eq. rewrite Fx, Qi, Qj, Pi, Pj. reflexivity.
      + apply Nat.eqb_neq. intros Q. apply cell_inj in Q; [|exact P2|exact Lb]. destruct Q as (_ & Q). rewrite Q, Hb in P3. congruence.
    - apply Nat.eqb_neq. intros Q. apply cell_inj in Q; [|exact P2|exact Lb]. destruct Q as (Q & _). rewrite Q, Ha in P1. congruence. }
  rewrite (flat_one _ _ i ND).
  - rewrite filter_map_comm, filter_filter, <- map_rev. rewrite (filter_ext2 _ (fun x => from_is i x && to_is j x)).
    + destruct (rev _) as [|x r]; cbn [map]; reflexivity.
    + intros x Hx. destruct (from_is i x) eqn:Fx; [|reflexivity]. cbn [andb]. rewrite (K i x).
      * rewrite Nat.eqb_refl. reflexivity.
      * eapply nth_error_In; exact Ha.
      * apply filter_In. auto.
  - eapply nth_error_In; exact Ha.
  - intros j' Hj' Nj'. rewrite filter_map_comm. replace (filter _ _) with (@nil aedge); [reflexivity|]. symmetry. rewrite (filter_ext2 _ (fun _ => false)).
    + induction (filter (from_is j') es); auto.
    + intros x Hx. rewrite (K j' x Hj' Hx). apply Nat.eqb_neq in Nj'. rewrite Nj'. reflexivity.
Qed.

(* ---- building a graph ---- *)
Definition free_is (g : graph E V) (f : list nat) : Prop := chain (LinkedArrayProps.nx (LinkedArray.nodes (gn g))) f None /\ LinkedArray.freelist (gn g) = hd_or f None.
Lemma add_nodes_ok : forall vs g l es k, inv g l es -> exists g' ks, add_nodes fresh g vs k = Ok (g', k ++ ks) /\ length ks = length vs /\ inv g' (l ++ combine ks vs) es /\
  forall f, free_is g f -> length vs <= length f -> ks = firstn (length vs) f.
Proof.
  induction vs as [|v vs IH]; intros g l es k I; cbn [add_nodes].
  - exists g, []. rewrite !app_nil_r. auto.
  - destruct (add_node_ok g l es v I) as (g1 & i & E1 & N1 & I1 & f1 & F1 & F2 & TK). rewrite E1. cbn [bind]. destruct (IH g1 _ es (k ++ [i]) I1) as (g2 & ks & E2 & L2 & I2 & F). exists g2, (i :: ks). rewrite E2, <- app_assoc. split; [reflexivity|]. split; [cbn [length]; lia|]. split.
    + cbn [combine]. rewrite <- app_assoc in I2. exact I2.
    + intros f (C1 & C2) Lf. cbn [length] in *. assert (f = i :: f1) as -> by (apply TK; [exact C1|exact C2|intros ->; cbn in Lf; lia]). cbn [firstn length] in *. f_equal. apply F; [split; assumption|lia].
Qed.
Lemma combine_app {A B} (a1 a2 : list A) (b1 b2 : list B) : length a1 = length b1 -> combine (a1 ++ a2) (b1 ++ b2) = combine a1 b1 ++ combine a2 b2.
Proof. revert b1. induction a1 as [|x a1 IH]; intros [|y b1] H; cbn in *; try lia; [reflexivity|]. f_equal. apply IH. lia. Qed.
Lemma combine_fst {A B} (a : list A) (b : list B) : map fst (combine a b) = firstn (length b) a.
Proof. revert b. induction a as [|x a IH]; intros [|y b]; cbn; try reflexivity. f_equal. apply IH. Qed.
Lemma combine_firstn {A B} (a : list A) (b : list B) : combine (firstn (length b) a) b = combine a b.
Proof. revert b. induction a as [|x a IH]; intros [|y b]; cbn; try reflexivity. f_equal. apply IH. Qed.
Lemma entries_cons isedge M n c cs : @entries E isedge M n (c :: cs) = entries isedge M n [c] ++ entries isedge M n cs.
Proof. unfold entries. cbn [flat_map]. rewrite app_nil_r. reflexivity. Qed.
Lemma entries_app isedge M n c cs : @entries E isedge M n (c ++ cs) = entries isedge M n c ++ entries isedge M n cs.
Proof. unfold entries. apply flat_map_app. Qed.
Lemma in_firstn {A} (x : A) n l : In x (firstn n l) -> In x l.
Proof. rewrite <- (firstn_skipn n l) at 2. intros H. apply in_or_app. auto. Qed.
Lemma nodup_app_disj {A} (a b : list A) x : NoDup (a ++ b) -> In x a -> In x b -> False.
Proof. intros N Ha Hb. induction a as [|y a IH]; [destruct Ha|]. cbn [app] in N. inversion N as [|? ? N1 N2]; subst. destruct Ha as [->|Ha]; [|auto]. apply N1. apply in_or_app. auto. Qed.
Lemma add_row_ok isedge M n ks i : length ks = n -> n * n <= length M -> i < n -> forall js g l es ps,
  inv g l es -> (forall k, In k ks -> In k (map fst l)) -> (forall j, In j js -> j < n) -> NoDup (ps ++ map fst es) -> length (entries isedge M n (map (pair i) js)) <= length ps ->
  exists g', add_row isedge M n ks i js g ps = Ok (g', skipn (length (entries isedge M n (map (pair i) js))) ps) /\
    inv g' l (rev (combine ps (map (edge_of ks) (entries isedge M n (map (pair i) js)))) ++ es).
Proof.
  intros Lk LM Hi. induction js as [|j js IH]; intros g l es ps I Hk Hj NP HL; cbn [add_row map].
  - exists g. split; [reflexivity|]. cbn. destruct ps; exact I.
  - cbn [map] in HL. rewrite entries_cons in *. rewrite app_length in HL. assert (Lj : j < n) by (apply Hj; left; reflexivity).
    assert (Lx : i * n + j < length M). { assert (X : i * n <= (n - 1) * n) by (apply Nat.mul_le_mono_r; lia). rewrite Nat.mul_sub_distr_r in X. assert (n <= n * n) by (rewrite <- (Nat.mul_1_r n) at 1; apply Nat.mul_le_mono_l; lia). lia. }
    destruct (get_ok M (i * n + j) Lx) as (d & G1 & G2). rewrite G1. cbn [bind]. assert (Ec : entries isedge M n [(i, j)] = if isedge d then [(i, j, d)] else []). { unfold entries. cbn [flat_map fst snd]. rewrite G2. apply app_nil_r. } rewrite Ec in *. clear Ec. destruct (isedge d) eqn:Ed; cbn [app length] in *.
    + destruct ps as [|p ps]; [cbn [length] in HL; lia|]. cbn [length skipn] in *. destruct (get_ok ks i) as (ki & K1 & K2); [lia|]. destruct (get_ok ks j) as (kj & K3 & K4); [lia|]. rewrite K1, K3. cbn [bind].
      destruct (add_edge_ok g l es p ki kj d I) as (g1 & E1 & I1).
      { intros H. eapply (nodup_app_disj (p :: ps)); [exact NP|left; reflexivity|exact H]. } { apply Hk. eapply nth_error_In; exact K2. } { apply Hk. eapply nth_error_In; exact K4. }
      rewrite E1. cbn [bind]. destruct (IH g1 l _ ps I1 Hk) as (g2 & E2 & I2).
      { intros j' H. apply Hj. right. exact H. } { cbn [map fst]. eapply Permutation_NoDup; [|exact NP]. cbn [app]. apply Permutation_middle. } { lia. }
      exists g2. split; [exact E2|]. cbn [map combine rev]. rewrite <- app_assoc. cbn [app]. unfold edge_of at 2. cbn [fst snd]. rewrite (nth_error_nth _ _ 0 K2), (nth_error_nth _ _ 0 K4). exact I2.
    + destruct (IH g l es ps I Hk) as (g2 & E2 & I2); [intros j' H; apply Hj; right; exact H|exact NP|lia|]. exists g2. auto.
Qed.
Lemma skipn_twice {A} (a b : nat) (l : list A) : skipn a (skipn b l) = skipn (b + a) l.
Proof. revert l. induction b as [|b IH]; intros l; [reflexivity|]. destruct l as [|x l]; [destruct a; reflexivity|]. cbn [skipn Nat.add]. apply IH. Qed.
Lemma skipn_nodup {A} n (a b : list A) : NoDup (a ++ b) -> NoDup (skipn n a ++ b).
Proof. intros N. rewrite <- (firstn_skipn n a), <- app_assoc in N. clear -N. induction (firstn n a); [exact N|]. inversion N; auto. Qed.
Lemma combine_split {A B} (ps : list A) (x y : list B) : length x <= length ps -> combine ps (x ++ y) = combine ps x ++ combine (skipn (length x) ps) y.
Proof. revert ps. induction x as [|a x IH]; intros [|p ps] H; cbn in *; try lia; [reflexivity|reflexivity|]. f_equal. apply IH. lia. Qed.
Lemma add_rows_ok isedge M n ks : length ks = n -> n * n <= length M -> forall is g l es ps,
  inv g l es -> (forall k, In k ks -> In k (map fst l)) -> (forall i, In i is -> i < n) -> NoDup (ps ++ map fst es) -> length (entries isedge M n (list_prod is (seq 0 n))) <= length ps ->
  exists g', add_rows isedge M n ks is g ps = Ok (g', skipn (length (entries isedge M n (list_prod is (seq 0 n)))) ps) /\
    inv g' l (rev (combine ps (map (edge_of ks) (entries isedge M n (list_prod is (seq 0 n))))) ++ es).
Proof.
  intros Lk LM. induction is as [|i is IH]; intros g l es ps I Hk Hj NP HL; cbn [add_rows list_prod].
  - exists g. split; [reflexivity|]. cbn. destruct ps; exact I.
  - cbn [list_prod] in HL. change (map (fun y : nat => (i, y)) (seq 0 n)) with (map (pair i) (seq 0 n)) in *. rewrite entries_app in *. rewrite app_length in HL |- *.
    destruct (add_row_ok isedge M n ks i Lk LM (Hj i (or_introl eq_refl)) (seq 0 n) g l es ps I Hk) as (g1 & E1 & I1). { intros j H. apply in_seq in H. lia. } { exact NP. } { lia. }
    rewrite E1. cbn [bind]. set (x := entries isedge M n (map (pair i) (seq 0 n))) in *. set (y := entries isedge M n (list_prod is (seq 0 n))) in *.
    destruct (IH g1 l _ (skipn (length x) ps) I1 Hk) as (g2 & E2 & I2).
    + intros j H. apply Hj. right. exact H.
    + rewrite map_app, map_rev, combine_fst, map_length. rewrite <- (firstn_skipn (length x) ps) in NP at 1. rewrite <- app_assoc in NP. eapply Permutation_NoDup; [|exact NP]. rewrite !app_assoc. apply Permutation_app_tail. eapply Permutation_trans; [apply Permutation_app_comm|]. apply Permutation_app_head. apply Permutation_rev.
    + rewrite skipn_length. lia.
    + exists g2. rewrite E2. split.
      * rewrite skipn_twice. reflexivity.
      * rewrite map_app, combine_split by (rewrite map_length; lia). rewrite map_length, rev_app_distr, <- app_assoc. exact I2.
Qed.
Lemma construct_ok isedge M n vs ps g l es : inv g l es -> length vs = n -> n * n <= length M -> NoDup (ps ++ map fst es) -> length (matrix_entries isedge M n) <= length ps ->
  exists g' ks rest, construct fresh isedge g n M vs ps = Ok (g', rest) /\ length ks = n /\ inv g' (l ++ combine ks vs) (rev (combine ps (map (edge_of ks) (matrix_entries isedge M n))) ++ es) /\
    forall f, free_is g f -> n <= length f -> ks = firstn n f.
Proof.
  intros I Lv LM NP HL. unfold construct. destruct (add_nodes_ok vs g l es [] I) as (g1 & ks & E1 & L1 & I1 & F1). rewrite E1. cbn [bind app].
  destruct (add_rows_ok isedge M n ks ltac:(lia) LM (seq 0 n) g1 _ es ps I1) as (g2 & E2 & I2).
  - intros k H. rewrite map_app, combine_fst. apply in_or_app. right. rewrite firstn_all2 by lia. exact H.
  - intros i H. apply in_seq in H. lia.
  - exact NP.
  - exact HL.
  - eexists g2, ks, _. split; [exact E2|]. split; [lia|]. split; [exact I2|]. rewrite <- Lv. exact F1.
Qed.
End Proofs.

(* --------------------------------------------------- theorems --------------------------------------------------- *)
Section Theorems.
Context {E V : Type} (fresh : LinkedArray.lnode (gnode V)).
Notation aedge := (nat * edge E)%type.

(* Every graph made by the operations shows nodes and edges; the nodes are determined, the edges too up to the order of
   edges that share no end; and every operation has exactly the effect it should. *)
Theorem C58_operations (g : graph E V) : reachable fresh g ->
  (exists l es, shows g l es) /\
  (forall l es l' es', shows g l es -> shows g l' es' -> l = l' /\ Permutation es es') /\
  (forall l es o, shows g l es -> valid o l es -> exists g' l' es', step fresh g o = Ok g' /\ shows g' l' es' /\ effect o l l' es es') /\
  (forall l es, shows g l es -> exists g', Destroy g = Ok g' /\ shows g' l [] /\ forall p, einfo g' p = None).
Proof.
  intros R. destruct (reachable_inv fresh g R) as (l0 & es0 & I0). split; [|split; [|split]].
  - exists l0, es0. apply inv_shows. exact I0.
  - intros l es l' es' S1 S2. destruct (shows_inv _ _ _ _ _ I0 S1) as (-> & I1). destruct (shows_inv _ _ _ _ _ I0 S2) as (-> & I2). split; [reflexivity|].
    destruct I1 as (_ & _ & _ & E1 & N1 & _), I2 as (_ & _ & _ & E2 & N2 & _). apply NoDup_Permutation; [eapply NoDup_map_inv; exact N1|eapply NoDup_map_inv; exact N2|]. intros [p e]. rewrite <- E1, E2. reflexivity.
  - intros l es o S1 Hv. destruct (shows_inv _ _ _ _ _ I0 S1) as (_ & I1). destruct (step_ok fresh g l es o I1 Hv) as (g' & l' & es' & E1 & I' & Ef). exists g', l', es'. split; [exact E1|]. split; [apply inv_shows; exact I'|exact Ef].
  - intros l es S1. destruct (shows_inv _ _ _ _ _ I0 S1) as (_ & I1). destruct (destroy_ok g l es I1) as (g' & E1 & I'). exists g'. split; [exact E1|]. split; [apply inv_shows; exact I'|]. intros p. destruct I' as (_ & _ & _ & EI & _). destruct (einfo g' p) as [e|] eqn:Q; [|reflexivity]. apply EI in Q. destruct Q.
Qed.

(* ToMatrix: entry (a, b) is the data of the oldest edge from the a-th node to the b-th; without an edge the entry of the
   caller's array is left as it was.  The vertex array receives the data of a node at the index of the node. *)
Theorem C58_ToMatrix_partial (g : graph E V) l es m (vs : option (list V)) : reachable fresh g -> shows g l es -> length l * length l <= length m ->
  (match vs with None => True | Some vs => forall i, In i (map fst l) -> i < length vs end) ->
  exists m' vs', ToMatrix g m vs = Ok (length l, m', vs') /\ length m' = length m /\
    (forall a b i j, nth_error (map fst l) a = Some i -> nth_error (map fst l) b = Some j ->
      nth_error m' (a * length l + b) = match rev (filter (fun x => from_is i x && to_is j x) es) with [] => nth_error m (a * length l + b) | x :: _ => Some (edata (snd x)) end) /\
    (match vs, vs' with
     | None, None => True
     | Some vs, Some vs' => length vs' = length vs /\ (forall i v, In (i, v) l -> nth_error vs' i = Some v) /\ (forall i, ~ In i (map fst l) -> nth_error vs' i = nth_error vs i)
     | _, _ => False
     end).
Proof.
  intros R S1 Hm Hv. destruct (reachable_inv fresh g R) as (l0 & es0 & I0). destruct (shows_inv _ _ _ _ _ I0 S1) as (_ & I1). destruct (to_matrix_ok g l es m vs I1 Hm Hv) as (m' & E1 & L1 & H1). eexists m', _. split; [exact E1|]. split; [exact L1|]. split; [exact H1|]. destruct vs as [vs|]; [|exact Logic.I].
  split; [apply vwrite_length|]. split; [|intros i Hi; apply vwrite_out; exact Hi]. intros i v Hi. apply vwrite_in; [|exact Hi|].
  - destruct I1 as (Ia & _). pose proof (nodup_ids _ _ Ia) as N. rewrite viewl_fst in N. exact N.
  - apply Hv. apply in_map_iff. exists (i, v). auto.
Qed.

Lemma in_entries (isedge : E -> bool) M n cells i j d : In (i, j, d) (entries isedge M n cells) <-> In (i, j) cells /\ nth_error M (i * n + j) = Some d /\ isedge d = true.
Proof.
  unfold entries. rewrite in_flat_map. split.
  - intros ([a b] & H1 & H2). cbn [fst snd] in H2. destruct (nth_error M (a * n + b)) as [d'|] eqn:Q; [|destruct H2]. destruct (isedge d') eqn:Qd; [|destruct H2]. destruct H2 as [H2|[]]. injection H2 as -> -> ->. auto.
  - intros (H1 & H2 & H3). exists (i, j). split; [exact H1|]. cbn [fst snd]. rewrite H2, H3. left. reflexivity.
Qed.
Lemma in_combine_nth {A B} (a : list A) (b : list B) x y : In (x, y) (combine a b) -> exists k, nth_error a k = Some x /\ nth_error b k = Some y.
Proof. revert b. induction a as [|p a IH]; intros [|q b] H; cbn in H; try contradiction. destruct H as [H|H]; [injection H as -> ->; exists 0; auto|]. destruct (IH b H) as (k & H1 & H2). exists (S k). auto. Qed.
Lemma combine_has {A B} (a : list A) (b : list B) y : length b <= length a -> In y b -> exists x, In (x, y) (combine a b).
Proof. revert b. induction a as [|p a IH]; intros [|q b] L H; cbn in *; try lia; try contradiction. destruct H as [->|H]; [exists p; auto|]. destruct (IH b ltac:(lia) H) as (x & Hx). exists x. auto. Qed.

(* A graph made from a matrix (as the constructors do, or FromMatrix on a new graph with room for its nodes): node i has
   index i and the i-th data, the edges are the entries of the matrix that are edges, one each, NumEdges is their number,
   and ToMatrix writes every such entry back to its place; other entries it leaves alone. *)
Theorem C58_from_matrix_partial (isedge : E -> bool) (M : list E) (vs : list V) (ps : list nat) cap n :
  length vs = n -> n <= cap -> length M = n * n -> NoDup ps -> length (matrix_entries isedge M n) <= length ps ->
  exists g0 g rest, new_graph fresh cap = Ok g0 /\ construct fresh isedge g0 n M vs ps = Ok (g, rest) /\ reachable fresh g0 /\
    (exists es, shows g (combine (seq 0 n) vs) es /\ NumEdges g = length (matrix_entries isedge M n) /\
       Permutation (map snd es) (map (fun c => mke (snd (fst c)) (fst (fst c)) (snd c)) (matrix_entries isedge M n))) /\
    forall m w, n * n <= length m -> n <= length w -> exists m' w', ToMatrix g m (Some w) = Ok (n, m', Some w') /\
      (forall i j d, i < n -> j < n -> nth_error M (i * n + j) = Some d -> nth_error m' (i * n + j) = if isedge d then Some d else nth_error m (i * n + j)) /\
      (forall i, i < n -> nth_error w' i = nth_error vs i).
Proof.
  intros Lv Lc LM NP LP. destruct (@new_ok E V fresh cap) as (g0 & E0 & I0 & f & Ef & F1 & F2).
  destruct (construct_ok fresh isedge M n vs ps g0 [] [] I0 Lv ltac:(lia)) as (g & ks & rest & E1 & L1 & I1 & Hks). { rewrite app_nil_r. exact NP. } { exact LP. }
  assert (ks = seq 0 n) as ->. { rewrite (Hks f); [|split; assumption|subst f; rewrite seq_length; lia]. subst f. replace cap with (n + (cap - n)) by lia. rewrite seq_app. rewrite firstn_app, seq_length, Nat.sub_diag. cbn [firstn]. rewrite app_nil_r. apply firstn_all2. rewrite seq_length. lia. }
  cbn [app] in I1. rewrite app_nil_r in I1. set (en := matrix_entries isedge M n) in *. set (es := rev _) in I1.
  assert (Eo : forall c, In c en -> edge_of (seq 0 n) c = mke (snd (fst c)) (fst (fst c)) (snd c)).
  { intros [[i j] d] Hc. unfold en, matrix_entries in Hc. apply in_entries in Hc. destruct Hc as (Hc & _). apply in_prod_iff in Hc. rewrite !in_seq in Hc. unfold edge_of. cbn [fst snd]. rewrite !seq_nth by lia. reflexivity. }
  assert (Em : map (edge_of (seq 0 n)) en = map (fun c => mke (snd (fst c)) (fst (fst c)) (snd c)) en) by (apply map_ext_in; exact Eo).
  exists g0, g, rest. split; [exact E0|]. split; [exact E1|]. split; [eapply r_new; exact E0|].
  assert (Ls : map fst (combine (seq 0 n) vs) = seq 0 n) by (rewrite combine_fst, firstn_all2; [reflexivity|rewrite seq_length; lia]).
  assert (Ll : length (combine (seq 0 n) vs) = n) by (rewrite combine_length, seq_length; lia).
  split.
  - exists es. split; [apply inv_shows; exact I1|]. split.
    + unfold NumEdges. destruct I1 as (_ & _ & _ & _ & _ & _ & ->). unfold es. rewrite rev_length, combine_length, map_length. lia.
    + unfold es. rewrite map_rev. eapply Permutation_trans; [apply Permutation_sym, Permutation_rev|]. rewrite <- Em. clear - LP. rewrite <- (map_length (edge_of (seq 0 n))) in LP. revert LP. generalize (map (edge_of (seq 0 n)) en). intros b. revert b. induction ps as [|p ps IH]; intros [|y b] L; cbn in *; try lia; try constructor. apply IH. lia.
  - intros m w Hm Hw. destruct (to_matrix_ok g _ _ m (Some w) I1) as (m' & E2 & L2 & H2). { rewrite Ll. lia. } { intros i Hi. rewrite Ls in Hi. apply in_seq in Hi. lia. }
    rewrite Ll in *. eexists m', _. split; [exact E2|]. split.
    + intros i j d Hi Hj Hd. rewrite (H2 i j i j) by (rewrite Ls; rewrite nth_error_nth' with (d := 0) by (rewrite seq_length; lia); rewrite seq_nth by lia; reflexivity).
      assert (K : forall x, In x (filter (fun x => from_is i x && to_is j x) es) -> edata (snd x) = d /\ isedge d = true).
      { intros [p e] Hx. apply filter_In in Hx. destruct Hx as (Hx & Fx). unfold es in Hx. apply in_rev in Hx. apply in_combine_r in Hx. rewrite Em in Hx. apply in_map_iff in Hx. destruct Hx as ([[a b] d'] & Qe & Hx). subst e. unfold from_is, to_is in Fx. cbn [fst snd efrom eto edata] in *. unfold en, matrix_entries in Hx. apply in_entries in Hx. destruct Hx as (_ & Hx & Hd'). assert (a = i /\ b = j) as (-> & ->) by lia. rewrite Hd in Hx. injection Hx as <-. auto. }
      destruct (isedge d) eqn:Qd.
      * destruct (rev (filter (fun x => from_is i x && to_is j x) es)) as [|x r] eqn:Qr.
        -- exfalso. apply (f_equal (@rev _)) in Qr. rewrite rev_involutive in Qr. cbn in Qr. assert (He : In (mke j i d) (map (edge_of (seq 0 n)) en)). { rewrite Em. apply in_map_iff. exists (i, j, d). split; [reflexivity|]. apply in_entries. split; [apply in_prod; apply in_seq; lia|auto]. }
           apply (combine_has ps) in He; [|rewrite map_length; exact LP]. destruct He as (p & He). assert (X : In (p, mke j i d) (filter (fun x => from_is i x && to_is j x) es)). { apply filter_In. split; [apply -> in_rev; exact He|]. unfold from_is, to_is. cbn. rewrite !Nat.eqb_refl. reflexivity. } rewrite Qr in X. destruct X.
        -- destruct (K x) as (-> & _); [|reflexivity]. apply in_rev. rewrite Qr. left. reflexivity.
      * destruct (rev (filter (fun x => from_is i x && to_is j x) es)) as [|x r] eqn:Qr; [reflexivity|]. exfalso. destruct (K x) as (_ & X); [|discriminate X]. apply in_rev. rewrite Qr. left. reflexivity.
    + intros i Hi. destruct (nth_error_ex vs i) as (v & Hv); [lia|]. rewrite Hv. apply vwrite_in; [rewrite Ls; apply seq_NoDup| |lia]. assert (X : nth_error (combine (seq 0 n) vs) i = Some (i, v)).
      { clear - Hv Hi Lv. assert (G : forall s k i v (vs : list V), i < k -> nth_error vs i = Some v -> nth_error (combine (seq s k) vs) i = Some (s + i, v)). { intros s k. revert s. induction k as [|k IH]; intros s i0 v0 vs0 L H; [lia|]. destruct vs0 as [|y vs0]; [destruct i0; discriminate H|]. cbn [seq combine]. destruct i0 as [|i0]; cbn [nth_error] in *; [injection H as ->; rewrite Nat.add_0_r; reflexivity|]. rewrite (IH (S s) i0 v0 vs0) by (lia || assumption). f_equal. f_equal. lia. }
        apply (G 0 n i v vs Hi Hv). }
      eapply nth_error_In; exact X.
Qed.
(* so with an array that agrees with the matrix where it has no edge (for instance zero, if zero is no edge) ToMatrix
   reproduces the matrix *)
Theorem C58_round_trip_partial (isedge : E -> bool) (M m : list E) (vs w : list V) (ps : list nat) cap n :
  length vs = n -> n <= cap -> length M = n * n -> NoDup ps -> length (matrix_entries isedge M n) <= length ps -> length m = n * n -> length w = n ->
  (forall x d, nth_error M x = Some d -> isedge d = false -> nth_error m x = Some d) ->
  exists g0 g rest, new_graph fresh cap = Ok g0 /\ construct fresh isedge g0 n M vs ps = Ok (g, rest) /\ exists m' w', ToMatrix g m (Some w) = Ok (n, m', Some w') /\
    (forall i j, i < n -> j < n -> nth_error m' (i * n + j) = nth_error M (i * n + j)) /\ (forall i, i < n -> nth_error w' i = nth_error vs i).
Proof.
  intros Lv Lc LM NP LP Lm Lw Hz. destruct (C58_from_matrix_partial isedge M vs ps cap n Lv Lc LM NP LP) as (g0 & g & rest & E0 & E1 & _ & _ & H). destruct (H m w) as (m' & w' & E2 & H2 & H3); [lia|lia|]. exists g0, g, rest. split; [exact E0|]. split; [exact E1|]. exists m', w'. split; [exact E2|]. split; [|exact H3].
  intros i j Hi Hj. assert (Lx : i * n + j < length M). { assert (X : i * n <= (n - 1) * n) by (apply Nat.mul_le_mono_r; lia). rewrite Nat.mul_sub_distr_r in X. assert (n <= n * n) by (rewrite <- (Nat.mul_1_r n) at 1; apply Nat.mul_le_mono_l; lia). lia. }
  destruct (nth_error_ex M (i * n + j) Lx) as (d & Hd). rewrite (H2 i j d Hi Hj Hd), Hd. destruct (isedge d) eqn:Q; [reflexivity|]. apply Hz; assumption.
Qed.
End Theorems.
Print Assumptions C58_operations.
Print Assumptions C58_ToMatrix_partial.
Print Assumptions C58_from_matrix_partial.
Print Assumptions C58_round_trip_partial.

(* What is missing.  ToMatrix does not write the entries without an edge, so the matrix does not come back in an array that
   holds anything else; and it writes the data of a node at the index of the node rather than at its number, so after a
   node has been removed it writes past the end of an array with an element per node. *)
Definition ex_fresh : LinkedArray.lnode (gnode nat) := {| LinkedArray.val := mkg None None 0; LinkedArray.next := None; LinkedArray.prev := None |}.
Definition ex_isedge (d : nat) : bool := negb (d =? 0).
Definition built (M : list nat) (n : nat) (vs m w : list nat) : res (nat * list nat * option (list nat)) :=
  do g0 <- new_graph ex_fresh n; do (g, _) <- construct ex_fresh ex_isedge g0 n M vs (seq 100 (n * n)); ToMatrix g m (Some w).
Theorem C58_garbage_refuted : exists M m m' w, length m = length M /\ built M 2 [7; 8] m [0; 0] = Ok (2, m', w) /\ m' <> M.
Proof. exists [0; 5; 0; 0], [9; 9; 9; 9], [9; 5; 9; 9], (Some [7; 8]). split; [reflexivity|]. split; [vm_compute; reflexivity|discriminate]. Qed.
Definition run_ops (g : res (graph nat nat)) (os : list (@op nat nat)) : res (graph nat nat) := fold_left (fun g o => do g <- g; step ex_fresh g o) os g.
Theorem C58_vertices_refuted : exists os n,
  (do g <- run_ops (new_graph ex_fresh 2) os; Ok (NumNodes g)) = Ok n /\ (do g <- run_ops (new_graph ex_fresh 2) os; ToMatrix g (repeat 0 (n * n)) (Some (repeat 0 n))) = UB.
Proof. exists [OAddNode 7; OAddNode 8; ORemoveNode 0], 1. split; vm_compute; reflexivity. Qed.
Print Assumptions C58_garbage_refuted.
Print Assumptions C58_vertices_refuted.

Definition ex_ops : list (@op nat nat) := [OAddNode 70; OAddNode 71; OAddNode 72; OAddEdge 10 0 1 5; OAddEdge 11 1 0 6; OAddEdge 12 1 1 7; OAddEdge 13 0 2 8; OAddEdge 14 0 1 9; ORemoveEdge 13; OAddEdge 15 2 0 4].
Example C58_example_run : (do g <- run_ops (new_graph ex_fresh 2) ex_ops; do r <- ToMatrix g (repeat 0 9) (Some [0; 0; 0]); Ok (NumNodes g, NumEdges g, r)) = Ok (3, 5, (3, [0; 5; 0; 6; 7; 0; 4; 0; 0], Some [70; 71; 72])).
Proof. vm_compute. reflexivity. Qed.
Example C58_example_remove : (do g <- run_ops (new_graph ex_fresh 2) (ex_ops ++ [ORemoveNode 1]); do r <- ToMatrix g (repeat 0 4) (Some [0; 0; 0]); Ok (NumEdges g, r)) = Ok (1, (2, [0; 0; 4; 0], Some [70; 0; 72])).
Proof. vm_compute. reflexivity. Qed.
Example C58_example_matrix : built [1; 0; 2; 0; 0; 3; 4; 5; 0] 3 [20; 21; 22] (repeat 0 9) [0; 0; 0] = Ok (3, [1; 0; 2; 0; 0; 3; 4; 5; 0], Some [20; 21; 22]) /\
  length (matrix_entries ex_isedge [1; 0; 2; 0; 0; 3; 4; 5; 0] 3) = 5.
Proof. split; vm_compute; reflexivity. Qed.
(* a graph in the sense of the theorems: made step by step by valid operations *)
Example C58_example : exists g, reachable ex_fresh g /\ exists l es, shows g l es /\ length l = 2 /\ length es = 1 /\ exists i, @valid nat nat (ORemoveNode i) l es.
Proof.
  destruct (@new_ok nat nat ex_fresh 1) as (g0 & E0 & I0 & _). pose proof (r_new ex_fresh 1 g0 E0) as R0.
  destruct (step_ok ex_fresh g0 [] [] (OAddNode 7) I0 Logic.I) as (g1 & l1 & es1 & E1 & I1 & (i & _ & Q1) & Q1'). subst l1 es1. pose proof (r_step ex_fresh g0 (OAddNode 7) _ _ g1 R0 (inv_shows _ _ _ I0) Logic.I E1) as R1.
  destruct (step_ok ex_fresh g1 _ _ (OAddNode 8) I1 Logic.I) as (g2 & l2 & es2 & E2 & I2 & (j & _ & Q2) & Q2'). subst l2 es2. pose proof (r_step ex_fresh g1 (OAddNode 8) _ _ g2 R1 (inv_shows _ _ _ I1) Logic.I E2) as R2.
  assert (Hv : @valid nat nat (OAddEdge 5 i j 9) ([] ++ [(i, 7)] ++ [(j, 8)]) []). { cbn. tauto. }
  destruct (step_ok ex_fresh g2 _ _ (OAddEdge 5 i j 9) I2 Hv) as (g3 & l3 & es3 & E3 & I3 & Q3 & Q3'). subst l3 es3. pose proof (r_step ex_fresh g2 (OAddEdge 5 i j 9) _ _ g3 R2 (inv_shows _ _ _ I2) Hv E3) as R3.
  exists g3. split; [exact R3|]. eexists _, _. split; [apply inv_shows; exact I3|]. cbn. split; [reflexivity|]. split; [reflexivity|]. exists i. left. reflexivity.
Qed.
