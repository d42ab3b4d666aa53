(* C198: delegates and deferred calls. *)
From Coq Require Import List Arith Lia.
From Verif Require Import Common Delegate.
Import ListNotations.

Section Props.
Context {W A R : Type}.
Implicit Types (f : A -> W -> W * R) (g : nat -> A -> W -> W * R) (d : delegate W A R) (w : W) (a : A).

(* --- specification --- *)
(** the call of d is the call of h *)
Definition calls d (h : A -> W -> W * R) : Prop := forall a w, call d a w = Ok (h a w).
(** d can be called *)
Definition callable d : Prop := forall a w, exists r, call d a w = Ok r.
(** the effect of functions called one after another *)
Fixpoint in_turn (l : list (W -> W)) (w : W) : W := match l with [] => w | h :: l => in_turn l (h w) end.

(** A delegate calls the function it is made from, with its object and the arguments; so does a copy *)
Theorem C198_call :
  (forall f, calls (FromC f) f) /\ (forall p g, p <> 0 -> calls (From p g) (g p)) /\ (forall p g, calls (FromCObj p g) (g p)) /\
  (forall p g, p <> 0 -> calls (of_function p g) (g p)) /\ (forall d h, calls d h -> calls (copy d) h) /\
  (forall (f : A -> W -> W * R) a w, Call (StoreFunction f a) w = Ok (f a w)) /\ (forall d h a w, calls d h -> Call (StoreDelegate d a) w = Ok (h a w)).
Proof.
  split; [intros f a w; reflexivity|]. split; [intros p g P a w; unfold call, From; cbn [fn src]; now rewrite (proj2 (Nat.eqb_neq p 0) P)|].
  split; [intros p g a w; reflexivity|]. split; [intros p g P a w; unfold call, of_function; cbn [fn src]; now rewrite (proj2 (Nat.eqb_neq p 0) P)|].
  split; [intros [s k] h H a w; exact (H a w)|]. split; [reflexivity|]. intros d h a w H. exact (H a w).
Qed.

(** A delegate that is not empty can be called.  What is missing: the converse *)
Theorem C198_empty_partial :
  (forall d, IsEmpty d = false -> callable d) /\ IsEmpty (@empty W A R) = true /\ (forall a w, call (@empty W A R) a w = UB) /\
  (forall p g, IsEmpty (From p g) = true <-> p = 0) /\ (forall p g a w, p = 0 -> call (From p g) a w = UB).
Proof.
  split; [|split; [reflexivity|split; [reflexivity|split]]].
  - intros [s [k|]] H a w; unfold IsEmpty in H; cbn [src fn] in H; destruct (Nat.eqb_spec s 0); try discriminate.
    unfold call. cbn [fn src]. rewrite (proj2 (Nat.eqb_neq s 0)) by assumption. destruct k; eexists; reflexivity.
  - intros p g. unfold IsEmpty, From. cbn [src fn]. rewrite Bool.orb_false_r. apply Nat.eqb_eq.
  - intros p g a w ->. reflexivity.
Qed.
(** Refuted: every delegate of a function without an object can be called, and says that it is empty *)
Theorem C198_empty_refuted : forall f, callable (FromC f) /\ IsEmpty (FromC f) = true.
Proof. intros f. split; [|reflexivity]. intros a w. eexists. reflexivity. Qed.

(** At the end of a block the deferred calls are made once each, the last one first *)
Theorem C198_defer : forall (l : list (A * (A -> W -> W * R))) w,
  leave (map (fun x => StoreFunction (snd x) (fst x)) l) w = Ok (in_turn (rev (map (fun x w => fst (snd x (fst x) w)) l)) w).
Proof.
  assert (T : forall l h w, in_turn (l ++ [h]) w = h (in_turn l w)) by (intros l h; induction l as [|k l IH]; intros w; [reflexivity|exact (IH (k w))]).
  induction l as [|[a f] l IH]; intros w; cbn [map leave rev]; [reflexivity|]. rewrite IH. cbn [bind]. rewrite T. unfold Call, StoreFunction. cbn [target args fst snd].
  cbn [bind]. now destruct (f a _).
Qed.
(** Refuted for objects that are copied: the call is made twice *)
Theorem C198_defer_copy_refuted : forall f a w, leave_copied (StoreFunction f a) w = Ok (fst (f a (fst (f a w)))).
Proof. intros f a w. unfold leave_copied, leave, Call, StoreFunction. cbn [target args bind]. destruct (f a w) as [w' r]. cbn [bind fst]. now destruct (f a w'). Qed.
End Props.
Print Assumptions C198_call.
Print Assumptions C198_empty_partial.
Print Assumptions C198_empty_refuted.
Print Assumptions C198_defer.
Print Assumptions C198_defer_copy_refuted.

(** functions that write down what they are called with *)
Example C198_example :
  let note (p a : nat) (w : list nat) := (w ++ [p; a], a + p) in
  call (From 7 note) 3 [1] = Ok ([1; 7; 3], 10) /\ call (From 0 note) 3 [1] = UB /\ IsEmpty (From 7 note) = false /\
  leave [StoreFunction (note 1) 10; StoreFunction (note 2) 20] [] = Ok [2; 20; 1; 10].
Proof. repeat split. Qed.
