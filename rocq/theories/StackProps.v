(* Property C173: Stack is a stack. *)
From Coq Require Import List Arith Bool Lia.
From Verif Require Import Common DynArray DynArrayProps Stack.
Import ListNotations.

(* what a program does *)
Inductive sop (T : Type) := SPush (v : T) | SPop | SPeek | SDiscard | SClear | SSetLength (n : nat) | SAt (i : nat).
Arguments SPush {T}. Arguments SPop {T}. Arguments SPeek {T}. Arguments SDiscard {T}. Arguments SClear {T}. Arguments SSetLength {T}. Arguments SAt {T}.

(* a pile, top first: what it answers and what is left.  None: the program is not allowed to do this *)
Definition pile_step {T} (o : sop T) (p : list T) : option (list T * list T) :=
  match o, p with
  | SPush v, _ => Some ([], v :: p)
  | SPop, v :: t => Some ([v], t)
  | SPeek, v :: t => Some ([v], p)
  | SDiscard, v :: t => Some ([], t)
  | SClear, _ => Some ([], [])
  | SSetLength n, _ => if n <=? length p then Some ([], skipn (length p - n) p) else None
  | SAt i, _ => match nth_error (rev p) i with Some v => Some ([v], p) | None => None end
  | _, _ => None
  end.
Fixpoint pile {T} (l : list (sop T)) (p : list T) : option (list T * list T) :=
  match l with
  | [] => Some ([], p)
  | o :: t => match pile_step o p with
              | None => None
              | Some (a, p') => match pile t p' with None => None | Some (b, q) => Some (a ++ b, q) end
              end
  end.

(* the same on a Stack *)
Section Run.
Context {T : Type} (dflt : T) (m : mode).
Definition value_of (c : cell T) : res T := match c with Val v => Ok v | _ => UB end.
Definition run_step (s : dyn T) (o : sop T) : res (list T * dyn T) :=
  match o with
  | SPush v => do s' <- Push m s v; Ok ([], s')
  | SPop => do vs <- Pop m s; Ok ([fst vs], snd vs)
  | SPeek => do c <- Peek s; do v <- value_of c; Ok ([v], s)
  | SDiscard => do s' <- Discard m s; Ok ([], s')
  | SClear => do s' <- st_Clear dflt m s; Ok ([], s')
  | SSetLength n => do s' <- st_SetLength dflt m s n; Ok ([], s')
  | SAt i => do c <- st_at s i; do v <- value_of c; Ok ([v], s)
  end.
Fixpoint run (l : list (sop T)) (s : dyn T) : res (list T * dyn T) :=
  match l with
  | [] => Ok ([], s)
  | o :: t => do r <- run_step s o; do q <- run t (snd r); Ok (fst r ++ fst q, snd q)
  end.

(* ---------- proofs ---------- *)
Definition holds (s : dyn T) (p : list T) : Prop := exists rest, rep m s (map Val (rev p)) rest.

Lemma holds_len s p : holds s p -> len s = length p.
Proof. intros (r & _ & L & _). rewrite L, map_length, rev_length. reflexivity. Qed.

Lemma At_holds s p i v : holds s p -> nth_error (rev p) i = Some v -> At s i = Ok (Val v).
Proof.
  intros (r & E & L & _) N. unfold At. rewrite L, E, map_length. pose proof (nth_error_lt _ _ _ N).
  destruct (Nat.ltb_spec i (length (rev p))); [|lia]. apply get_some. rewrite nth_error_app1 by (rewrite map_length; lia). now rewrite nth_error_map, N.
Qed.
Lemma top_nth (v : T) p : nth_error (rev (v :: p)) (length p) = Some v.
Proof. cbn [rev]. rewrite nth_error_app2 by (rewrite rev_length; lia). rewrite rev_length, Nat.sub_diag. reflexivity. Qed.

(* RemoveLast with any object on top, moved from or not *)
Lemma drop_top (s : dyn T) con c rest : cells s = con ++ c :: rest -> len s = S (length con) -> c <> Raw -> good m con rest ->
  exists s' rest', RemoveLast m s = Ok s' /\ rep m s' con rest'.
Proof.
  intros E L N G. unfold RemoveLast. rewrite L. cbn [Nat.eqb]. unfold Remove. rewrite E, L. unfold base_remove.
  replace (S (length con) - 1) with (length con) by lia. replace (length con <? S (length con)) with true by (symmetry; apply Nat.ltb_lt; lia). cbn [negb].
  replace (S (length con) - (length con + 1)) with 0 by lia. replace (S (length con) - length con - 1) with 0 by lia.
  assert (MM : forall l : list (cell T), length con + 1 <= length l -> memmove l (length con) (length con + 1) 0 = Ok l).
  { intros l H. unfold memmove. rewrite !Nat.add_0_r. destruct (Nat.leb_spec (length con) (length l)); [|lia]. destruct (Nat.leb_spec (length con + 1) (length l)); [|lia]. cbn [andb firstn app]. now rewrite firstn_skipn. }
  assert (LL : forall x : cell T, length con + 1 <= length (con ++ x :: rest)) by (intros; rewrite app_length; cbn; lia).
  assert (RR : forall x, x = c \/ x = Raw -> is_simple m = true \/ x = Raw -> rep m {| cells := con ++ x :: rest; len := length con |} con (x :: rest)).
  { intros x _ H. split; [reflexivity|]. split; [reflexivity|]. intros S. destruct (G S). split; auto. constructor; auto. destruct H as [H|H]; [congruence|exact H]. }
  cbn [move_forward bind]. destruct m.
  - rewrite MM by auto. cbn [bind]. eexists _, _. split; [reflexivity|]. apply RR; auto.
  - rewrite destroy_at by auto. cbn [bind]. rewrite MM by auto. cbn [bind]. rewrite set_at. cbn [bind]. eexists _, _. split; [reflexivity|]. apply RR; auto.
  - rewrite destroy_at by auto. cbn [bind]. eexists _, _. split; [reflexivity|]. apply RR; auto.
  - rewrite destroy_at by auto. cbn [bind]. eexists _, _. split; [reflexivity|]. apply RR; auto.
Qed.

Lemma good_less con (c : cell T) rest : good m (con ++ [c]) rest -> good m con rest.
Proof. intros G S. destruct (G S) as [A B]. apply Forall_app in A. split; [apply A|exact B]. Qed.

Lemma step_holds s o p a p' : holds s p -> pile_step o p = Some (a, p') -> exists s', run_step s o = Ok (a, s') /\ holds s' p'.
Proof.
  intros H E. destruct o as [v| | | | |n|i]; cbn [pile_step] in E.
  - injection E as <- <-. destruct H as (r & R). destruct (Add_ok m s _ r v R) as (s' & r' & A & R'). cbn [run_step]. unfold Push. rewrite A. cbn [bind fst].
    exists s'. split; auto. exists r'. cbn [rev]. rewrite map_app. exact R'.
  - destruct p as [|v p]; [discriminate|]. injection E as <- <-. pose proof (holds_len _ _ H) as L. destruct H as (r & C & L' & G).
    cbn [rev] in C, G. rewrite map_app in C, G. cbn [map] in C, G. pose proof (good_less _ _ _ G) as G'. rewrite <- app_assoc in C. cbn [app] in C.
    cbn [run_step]. unfold Pop, back. rewrite L. cbn [length Nat.eqb bind]. replace (S (length p) - 1) with (length (map (@Val T) (rev p))) by (rewrite map_length, rev_length; lia).
    unfold take. destruct (is_simple m) eqn:S.
    + rewrite C, get_at. cbn [bind fst snd]. destruct (drop_top s _ (Val v) r C) as (s' & r' & D & R'); auto; [rewrite L, map_length, rev_length; reflexivity|discriminate|].
      rewrite D. cbn [bind fst snd]. exists s'. split; auto. exists r'. exact R'.
    + rewrite C, move_out_at. cbn [bind fst snd].
      destruct (drop_top {| cells := map Val (rev p) ++ Husk :: r; len := len s |} (map Val (rev p)) Husk r) as (s' & r' & D & R'); auto; [cbn [len]; rewrite L, map_length, rev_length; reflexivity|discriminate|].
      rewrite D. cbn [bind fst snd]. exists s'. split; auto. exists r'. exact R'.
  - destruct p as [|v p]; [discriminate|]. injection E as <- <-. cbn [run_step]. unfold Peek, back. rewrite (holds_len _ _ H). cbn [length Nat.eqb bind]. replace (S (length p) - 1) with (length p) by lia.
    rewrite (At_holds s (v :: p) (length p) v H) by apply top_nth. cbn [bind value_of]. exists s. auto.
  - destruct p as [|v p]; [discriminate|]. injection E as <- <-. pose proof (holds_len _ _ H) as L. destruct H as (r & C & L' & G).
    cbn [rev] in C, G. rewrite map_app in C, G. cbn [map] in C, G. pose proof (good_less _ _ _ G) as G'. rewrite <- app_assoc in C. cbn [app] in C.
    cbn [run_step]. unfold Discard. destruct (drop_top s _ (Val v) r C) as (s' & r' & D & R'); auto; [rewrite L, map_length, rev_length; reflexivity|discriminate|].
    rewrite D. cbn [bind]. exists s'. split; auto. exists r'. exact R'.
  - injection E as <- <-. destruct H as (r & R). cbn [run_step]. unfold st_Clear. destruct (SetLength_ok dflt m s _ r 0 R) as (s' & con' & r' & D & R' & Q).
    rewrite D. cbn [bind]. exists s'. split; auto. exists r'. cbn [Nat.leb firstn] in Q. subst con'. exact R'.
  - destruct (Nat.leb_spec n (length p)); [|discriminate]. injection E as <- <-. destruct H as (r & R). cbn [run_step]. unfold st_SetLength.
    destruct (SetLength_ok dflt m s _ r n R) as (s' & con' & r' & D & R' & Q). rewrite D. cbn [bind]. exists s'. split; auto. exists r'.
    rewrite map_length, rev_length in Q. destruct (Nat.leb_spec n (length p)); [|lia]. subst con'. rewrite firstn_map, firstn_rev in R'. exact R'.
  - destruct (nth_error (rev p) i) as [v|] eqn:N; [|discriminate]. injection E as <- <-. cbn [run_step]. unfold st_at. rewrite (At_holds s p i v H N). cbn [bind value_of]. exists s. auto.
Qed.

Lemma run_holds : forall l s p a q, holds s p -> pile l p = Some (a, q) -> exists s', run l s = Ok (a, s') /\ holds s' q.
Proof.
  induction l as [|o l IH]; intros s p a q H E; cbn [pile] in E.
  - injection E as <- <-. exists s. auto.
  - destruct (pile_step o p) as [[a1 p1]|] eqn:E1; [|discriminate]. destruct (pile l p1) as [[a2 p2]|] eqn:E2; [|discriminate]. injection E as <- <-.
    destruct (step_holds s o p a1 p1 H E1) as (s1 & R1 & H1). destruct (IH s1 p1 a2 p2 H1 E2) as (s2 & R2 & H2).
    cbn [run]. rewrite R1. cbn [bind fst snd]. rewrite R2. cbn [bind fst snd]. exists s2. auto.
Qed.
End Run.

(* Whatever a program does that a pile allows, the Stack answers as the pile; the elements left are those of
   the pile, and destroying it destroys each of them once. *)
Theorem C173_Stack : forall (T : Type) (dflt : T) (m : mode) (init : nat) (l : list (sop T)) (answers left : list T),
  pile l [] = Some (answers, left) ->
  exists s, run dflt m l (st_new init) = Ok (answers, s) /\ firstn (len s) (cells s) = map Val (rev left) /\ st_destroy dflt m s = Ok tt.
Proof.
  intros T dflt m init l answers left P.
  assert (H0 : holds m (st_new init) (@nil T)) by (exists (repeat Raw init); split; [reflexivity|split; [reflexivity|apply good_nil]]).
  destruct (run_holds dflt m l _ _ _ _ H0 P) as (s & R & (rest & Q)). exists s. split; [exact R|]. split; [exact (rep_contents m _ _ _ Q)|].
  unfold st_destroy, Destroy. destruct Q as (E & L & G). rewrite E, L. destruct (setLength_shrink dflt m _ _ 0 G) as (r & -> & _ & G'); [lia|]. cbn [bind firstn app] in *.
  apply release_raw. destruct (simple_dec m _ _ G') as [|(_ & _ & ?)]; auto.
Qed.
Print Assumptions C173_Stack.

(* and a program that pops from an empty stack does what the documentation calls illegal *)
Theorem C173_empty : forall (T : Type) (m : mode) (s : dyn T), len s = 0 -> Pop m s = UB /\ Peek s = UB /\ Discard m s = UB.
Proof. intros T m s L. unfold Pop, Peek, Discard, RemoveLast, back. rewrite L. auto. Qed.
Print Assumptions C173_empty.

Example C173_example :
  pile [SPush 1; SPush 2; SPush 3; SPop; SPeek; SPush 4; SSetLength 2; SAt 0; SDiscard] [] = Some ([3; 2; 1], [1]) /\
  exists s, run 0 SAFE [SPush 1; SPush 2; SPush 3; SPop; SPeek; SPush 4; SSetLength 2; SAt 0; SDiscard] (st_new 1) = Ok ([3; 2; 1], s).
Proof. split; [reflexivity|]. eexists. vm_compute. reflexivity. Qed.
