(* Property C171: what bssSerialize writes is what bssDeserialize reads. *)
From Coq Require Import ZArith List Bool Lia.
From Verif Require Import Common BitUtil BitUtilProofs Serialize.
Import ListNotations.
Local Open Scope Z_scope.

(* the values a program writes: n bytes of a number, or a text without NUL *)
Inductive value := Number (n : nat) (v : Z) | Text (s : list Z).
Definition proper (x : value) : Prop :=
  match x with
  | Number n v => 0 <= v < 256 ^ Z.of_nat n
  | Text s => Forall (fun c => 0 < c < 256) s /\ Z.of_nat (length s) < 2 ^ 63
  end.
(* a program that writes values in order, on a machine of the given byte order *)
Fixpoint write_values (big : bool) (l : list value) : res (list Z) :=
  match l with
  | [] => Ok []
  | x :: t =>
      do a <- (match x with Number n v => ser_fixed big n v | Text s => ser_text big (s ++ [0]) end);
      do b <- write_values big t; Ok (a ++ b)
  end.
(* a program that reads values of the same types into variables with arbitrary old values *)
Fixpoint read_values (big : bool) (old : Z) (l : list value) (s : list Z) : res (list value * list Z) :=
  match l with
  | [] => Ok ([], s)
  | x :: t =>
      do r <- (match x with
               | Number n _ => do q <- des_fixed big n old s; let '(v, s', good) := q in Ok (Number n v, s', good)
               | Text _ => do q <- des_text big s; let '(v, s', good) := q in Ok (Text v, s', good)
               end);
      let '(y, s', good) := r in
      if good : bool then do q <- read_values big old t s'; Ok (y :: fst q, snd q) else UB
  end.

Lemma to_le_length : forall n v, length (to_le n v) = n.
Proof. induction n; intros; cbn [to_le length]; auto. Qed.
Lemma of_to_le : forall n v, 0 <= v < 256 ^ Z.of_nat n -> of_le (to_le n v) = v.
Proof.
  induction n as [|n IH]; intros v V; cbn [to_le of_le]; [cbn in V; lia|].
  rewrite IH; [pose proof (Z.div_mod v 256); lia|]. rewrite Nat2Z.inj_succ, Z.pow_succ_r in V by lia.
  split; [apply Z.div_pos; lia|apply Z.div_lt_upper_bound; lia].
Qed.
Lemma store_length big n v : length (store big n v) = n.
Proof. destruct big; cbn [store]; [rewrite rev_length|]; apply to_le_length. Qed.

Lemma ser_fixed_ok big n v : ser_fixed big n v = Ok (to_le n v).
Proof.
  unfold ser_fixed. destruct big; [|reflexivity]. pose proof (FlipEndian_ok (store true n v)) as F. rewrite store_length in F. rewrite F. cbn [store]. now rewrite rev_involutive.
Qed.

Lemma is_read_exact mem a s : length mem = length a -> is_read mem (a ++ s) = (a, s, true).
Proof.
  intros L. unfold is_read. rewrite L. rewrite firstn_app, Nat.sub_diag, firstn_all. cbn [firstn]. rewrite app_nil_r.
  rewrite (skipn_all2 mem) by (rewrite app_length; lia). rewrite app_nil_r. rewrite skipn_app, skipn_all, Nat.sub_diag. cbn [skipn app].
  f_equal. apply Nat.leb_le. rewrite app_length. lia.
Qed.

Lemma des_fixed_ok big n old v s : 0 <= v < 256 ^ Z.of_nat n -> des_fixed big n old (to_le n v ++ s) = Ok (v, s, true).
Proof.
  intros V. unfold des_fixed. rewrite is_read_exact by (now rewrite store_length, to_le_length).
  destruct big.
  - pose proof (FlipEndian_ok (to_le n v)) as F. rewrite to_le_length in F. rewrite F. cbn [bind]. unfold load. rewrite rev_involutive. now rewrite of_to_le.
  - cbn [bind]. unfold load. now rewrite of_to_le.
Qed.

Lemma c_text_ok : forall s rest, Forall (fun c => 0 < c < 256) s -> c_text (s ++ 0 :: rest) = Ok s.
Proof. induction 1 as [|c s H F IH]; [reflexivity|]. cbn [app c_text]. destruct (Z.eqb_spec c 0); [lia|]. now rewrite IH. Qed.

Definition encoded (x : value) : list Z := match x with Number n v => to_le n v | Text s => to_le 8 (Z.of_nat (length s)) ++ s end.

Lemma des_text_ok big s rest : Z.of_nat (length s) < 2 ^ 63 -> des_text big ((to_le 8 (Z.of_nat (length s)) ++ s) ++ rest) = Ok (s, rest, true).
Proof.
  intros L. unfold des_text. rewrite <- app_assoc.
  assert (Q : (length (to_le 8 (Z.of_nat (length s)) ++ s ++ rest) <? 8)%nat = false) by (apply Nat.ltb_ge; rewrite app_length, to_le_length; lia).
  rewrite Q, des_fixed_ok by (change (256 ^ Z.of_nat 8) with (2 ^ 64); lia). cbn [bind].
  destruct (Z.leb_spec (2 ^ 63) (Z.of_nat (length s))); [lia|]. rewrite is_read_exact; [reflexivity|]. now rewrite repeat_length, Nat2Z.id.
Qed.

(* The bytes do not depend on the machine, and a machine of either byte order reads back the values and
   leaves what follows them, whatever its variables held before. *)
Theorem C171_serialize : forall (l : list value) (trailing : list Z), Forall proper l ->
  exists s, (forall big, write_values big l = Ok s) /\ (forall big old, read_values big old l (s ++ trailing) = Ok (l, trailing)).
Proof.
  intros l trailing F. exists (flat_map encoded l). split.
  - intros big. induction F as [|x l P F IH]; [reflexivity|]. cbn [write_values flat_map]. destruct x as [n v|s]; cbn [encoded].
    + rewrite ser_fixed_ok. cbn [bind]. rewrite IH. reflexivity.
    + unfold ser_text. rewrite c_text_ok by apply P. cbn [bind]. rewrite ser_fixed_ok. cbn [bind]. rewrite IH. reflexivity.
  - intros big old. induction F as [|x l P F IH]; [reflexivity|]. cbn [read_values flat_map]. rewrite <- app_assoc. destruct x as [n v|s]; cbn [encoded].
    + rewrite des_fixed_ok by exact P. cbn [bind]. rewrite IH. reflexivity.
    + rewrite des_text_ok by apply P. cbn [bind]. rewrite IH. reflexivity.
Qed.
Print Assumptions C171_serialize.

Example C171_example :
  let l := [Number 4 0x11223344; Text [104; 105]; Number 1 255] in
  Forall proper l /\ write_values true l = Ok [0x44; 0x33; 0x22; 0x11; 2; 0; 0; 0; 0; 0; 0; 0; 104; 105; 255].
Proof. split; [repeat constructor; cbn; lia|]. vm_compute. reflexivity. Qed.
