(* Model of bss-util/Dual.h, with T the real numbers: rounding, infinities and NaN are not modelled. *)
From Coq Require Import Reals ZArith.
Local Open Scope R_scope.

(** Dual.h:13-14, 50-51 and 55-78: [Dual<T, 0>] holds _x only; [Dual<T, O>] holds _x and _dx. *)
Fixpoint dual (n : nat) : Type := match n with O => R | S m => (R * dual m)%type end.

(** Dual.h:18, 59 [Dual(T x)]: the derivatives of a constant are 0. *)
Fixpoint con (n : nat) (x : R) : dual n := match n with O => x | S m => (x, con m 0) end.

(** Dual.h:18 [Dual(x, dx)] with dx = 1, the way an independent variable is created; on [Dual<T, 0>] the second argument
    is dropped (line 58). *)
Definition var (n : nat) (x : R) : dual n := match n with O => x | S m => (x, con m 1) end.

(** Dual.h:32, 69 [_low]: the same number with one order less (line 69's 0 is dropped by line 58). *)
Fixpoint low (n : nat) : dual (S n) -> dual n :=
  match n with
  | O => fun d => fst d
  | S m => fun d => (fst d, low m (snd d))
  end.

(** Dual.h:34, 68 [operator()(derivative)]; asking for more than the order holds fails the assertion of line 68: None. *)
Fixpoint nth_derivative (n : nat) : dual n -> nat -> option R :=
  match n with
  | O => fun d k => match k with O => Some d | S _ => None end
  | S m => fun d k => match k with O => Some (fst d) | S k' => nth_derivative m (snd d) k' end
  end.

(** Dual.h:24, 60 [operator+]. *)
Fixpoint dadd (n : nat) : dual n -> dual n -> dual n :=
  match n with
  | O => fun l r => l + r
  | S m => fun l r => (fst l + fst r, dadd m (snd l) (snd r))
  end.

(** Dual.h:25, 61 [operator-]. *)
Fixpoint dsub (n : nat) : dual n -> dual n -> dual n :=
  match n with
  | O => fun l r => l - r
  | S m => fun l r => (fst l - fst r, dsub m (snd l) (snd r))
  end.

(** Dual.h:30, 66 unary [operator-]. *)
Fixpoint dneg (n : nat) : dual n -> dual n :=
  match n with
  | O => fun d => - d
  | S m => fun d => (- fst d, dneg m (snd d))
  end.

(** Dual.h:26, 62 [operator*]. *)
Fixpoint dmul (n : nat) : dual n -> dual n -> dual n :=
  match n with
  | O => fun l r => l * r
  | S m => fun l r => (fst l * fst r, dadd m (dmul m (snd l) (low m r)) (dmul m (snd r) (low m l)))
  end.

(** Dual.h:27, 63 [operator/]. *)
Fixpoint ddiv (n : nat) : dual n -> dual n -> dual n :=
  match n with
  | O => fun l r => l / r
  | S m => fun l r =>
      (fst l / fst r, ddiv m (dsub m (dmul m (snd l) (low m r)) (dmul m (snd r) (low m l))) (dmul m (low m r) (low m r)))
  end.

(** std::pow (C library) in exact arithmetic: a positive base with any exponent, and any other base with an integral
    exponent; other arguments are domain errors and not modelled. *)
Definition cpow (x k : R) : R := if Rlt_dec 0 x then Rpower x k else powerRZ x (Int_part k).

(** Dual.h:28, 64 [operator^(double)]. *)
Fixpoint dpowc (n : nat) : dual n -> R -> dual n :=
  match n with
  | O => fun d k => cpow d k
  | S m => fun d k => (cpow (fst d) k, dmul m (dmul m (snd d) (con m k)) (dpowc m (low m d) (k - 1)))
  end.

(** Dual.h:42, 74 [log]. *)
Definition dlog (n : nat) : dual n -> dual n :=
  match n with
  | O => fun d => ln d
  | S m => fun d => (ln (fst d), ddiv m (snd d) (low m d))
  end.

(** Dual.h:29, 65 [operator^(Dual)]. *)
Fixpoint dpow (n : nat) : dual n -> dual n -> dual n :=
  match n with
  | O => fun l r => cpow l r
  | S m => fun l r =>
      (cpow (fst l) (fst r),
       dmul m (dpow m (low m l) (dsub m (low m r) (con m 1)))
              (dadd m (dmul m (low m r) (snd l)) (dmul m (dmul m (low m l) (snd r)) (dlog m (low m l)))))
  end.

(** compare.h:11 SGNCOMPARE(x, 0): -1, 0 or 1. *)
Definition sgncmp (x : R) : R := if Rlt_dec 0 x then 1 else if Rlt_dec x 0 then -1 else 0.

(** Dual.h:31 with line 22: [Abs] exists from order 1 on; at order 0 it stands for std::abs. *)
Definition dabs (n : nat) : dual n -> dual n :=
  match n with
  | O => fun d => Rabs d
  | S m => fun d => (Rabs (fst d), dmul m (snd d) (con m (sgncmp (fst d))))
  end.

(** Dual.h:39, 71 [sin] and Dual.h:40, 72 [cos]; flag true is sin. *)
Fixpoint dtrig (n : nat) : bool -> dual n -> dual n :=
  match n with
  | O => fun b d => if b then sin d else cos d
  | S m => fun b d =>
      if b then (sin (fst d), dmul m (snd d) (dtrig m false (low m d)))
      else (cos (fst d), dmul m (snd d) (dneg m (dtrig m true (low m d))))
  end.

(** Dual.h:41, 73 [exp]. *)
Fixpoint dexp (n : nat) : dual n -> dual n :=
  match n with
  | O => fun d => exp d
  | S m => fun d => (exp (fst d), dmul m (snd d) (dexp m (low m d)))
  end.

(** Dual.h:43, 75 [log10]. *)
Definition dlog10 (n : nat) : dual n -> dual n :=
  match n with
  | O => fun d => ln d / ln 10
  | S m => fun d => (ln (fst d) / ln 10, ddiv m (snd d) (dmul m (con m (ln 10)) (low m d)))
  end.
