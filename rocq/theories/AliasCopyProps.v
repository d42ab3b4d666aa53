(* C195: copying, assigning and moving alias tables. *)
From Coq Require Import List Arith QArith Lia.
From Verif Require Import Common AliasTable AliasCopy.
Import ListNotations.
Local Open Scope nat_scope.

(* --- specification --- *)
(** a table of n entries, as the constructors leave it *)
Definition entries (t : table) (n : nat) : Prop := length (prob t) = n /\ length (alias t) = n.
(** two tables draw the same numbers *)
Definition same_draws (t t' : table) : Prop := forall c u, Get t c u = Get t' c u.

(* --- lemmas --- *)
Lemma copy_all {A} size (src : list (option A)) : 0 < size -> copy_bytes size (size * length src) src = Ok src.
Proof.
  intros H. unfold copy_bytes. rewrite Nat.ltb_irrefl, (Nat.mul_comm size), Nat.div_mul by lia. now rewrite firstn_all, Nat.sub_diag, app_nil_r.
Qed.
Lemma get_none {A} (l : list (option A)) k c : c < length l -> k <= c -> get (firstn k l ++ repeat None (length l - k)) c = Ok None.
Proof.
  intros H H'. unfold get. rewrite nth_error_app2 by (rewrite firstn_length; lia). rewrite firstn_length.
  rewrite (nth_error_nth' _ None) by (rewrite repeat_length; lia). now rewrite nth_repeat.
Qed.

(** If UINT and F have the same size, a copy draws the same numbers; what is missing: other sizes *)
Theorem C195_copy_partial size t n : 0 < size -> entries t n -> exists t', copy_assign size size t = Ok t' /\ entries t' n /\ same_draws t' t.
Proof.
  intros H [P A]. exists t. unfold copy_assign. rewrite P. rewrite <- A at 1. rewrite copy_all by exact H. cbn [bind].
  rewrite <- P at 1. rewrite copy_all by exact H. cbn [bind]. destruct t as [p a]. split; [reflexivity|]. split; [split; assumption|]. intros c u. reflexivity.
Qed.
Print Assumptions C195_copy_partial.
(** Refuted: if UINT is larger than F the copy reads and writes past the end of the arrays; if it is smaller, the entries from
    count * sizeof(UINT) / sizeof(F) on, at least the last one, are not copied, and drawing there reads memory that was not written *)
Theorem C195_copy_refuted su sf t n :
  0 < su -> 0 < sf -> entries t n -> 0 < n ->
  (sf < su -> copy_assign su sf t = UB) /\
  (su < sf -> exists t', copy_assign su sf t = Ok t' /\ forall c u, su * n / sf <= c -> c < n -> Get t' c u = UB) /\
  (su < sf -> su * n / sf <= n - 1).
Proof.
  intros U F [P A] N. unfold copy_assign. rewrite P.
  replace (copy_bytes su (su * n) (alias t)) with (Ok (alias t)) by (rewrite <- A; symmetry; now apply copy_all). cbn [bind]. unfold copy_bytes. rewrite P.
  split; [|split].
  - intros L. assert (sf * n < su * n) by (apply Nat.mul_lt_mono_pos_r; lia). now rewrite (proj2 (Nat.ltb_lt _ _)) by lia.
  - intros L. assert (su * n <= sf * n) by (apply Nat.mul_le_mono_r; lia). rewrite (proj2 (Nat.ltb_ge _ _)) by lia. cbn [bind]. eexists. split; [reflexivity|].
    intros c u C C'. unfold Get. cbn [prob]. rewrite <- P at 2. rewrite get_none by (rewrite ?P; lia). reflexivity.
  - intros L. assert (su * n / sf < n); [|lia]. apply Nat.div_lt_upper_bound; [lia|]. apply Nat.mul_lt_mono_pos_r; lia.
Qed.
Print Assumptions C195_copy_refuted.
(** Refuted: after an assignment to itself no draw is defined *)
Theorem C195_self_assign_refuted t n c u : entries t n -> Get (self_assign t) c u = UB.
Proof.
  intros [P A]. unfold Get, self_assign, get. cbn [prob alias]. destruct (Nat.lt_ge_cases c (length (prob t))) as [H|H].
  - rewrite (nth_error_nth' _ None) by (rewrite repeat_length; lia). now rewrite nth_repeat.
  - rewrite (proj2 (nth_error_None _ _)) by (rewrite repeat_length; lia). reflexivity.
Qed.
Print Assumptions C195_self_assign_refuted.
(** A move gives the target the table, with its count; what is missing: the source keeps its count, so that its draws are not defined *)
Theorem C195_move_partial t n : entries t n -> let '((t', n'), _) := move t in n' = n /\ entries t' n /\ same_draws t' t.
Proof. intros H. cbn [move]. destruct H as [P A]. split; [exact P|]. split; [split; assumption|]. intros c u. reflexivity. Qed.
Print Assumptions C195_move_partial.
Theorem C195_move_refuted t n : entries t n -> let '(_, (s, k)) := move t in k = n /\ forall c u, Get s c u = UB.
Proof. intros [P A]. cbn [move]. split; [exact P|]. intros c u. unfold Get, get. cbn [prob]. now destruct c. Qed.
Print Assumptions C195_move_refuted.

(** the table of three probabilities, copied as <uint32_t, float>, <uint32_t, double> and <size_t, float> *)
Example C195_example :
  exists t, construct [1 # 2; 1 # 4; 1 # 4]%Q = Ok t /\ entries t 3 /\ copy_assign 4 4 t = Ok t /\
    (exists t', copy_assign 4 8 t = Ok t' /\ Get t 2 (1 # 2)%Q = Ok 2 /\ Get t' 2 (1 # 2)%Q = UB) /\ copy_assign 8 4 t = UB.
Proof. eexists. split; [vm_compute; reflexivity|]. split; [split; reflexivity|]. split; [reflexivity|]. split; [|reflexivity]. eexists. split; [vm_compute; reflexivity|]. split; reflexivity. Qed.
