(* Specification vocabulary for the integer helpers; independent of the model. *)
From Coq Require Import List ZArith Bool.
Import ListNotations.
Local Open Scope Z_scope.

(** Number of one bits among the w low bits of v. *)
Definition popcount (w : nat) (v : Z) : Z :=
  Z.of_nat (length (filter (fun i => Z.testbit v (Z.of_nat i)) (seq 0 w))).

(** The pattern f occurs in s at offset i. *)
Definition matches_at (s f : list Z) (i : nat) : Prop :=
  forall j, (j < length f)%nat -> nth_error s (i + j) = nth_error f j.

(** Proleptic Gregorian calendar. *)
Definition leap (y : Z) : bool :=
  (y mod 4 =? 0) && (negb (y mod 100 =? 0) || (y mod 400 =? 0)).
Definition month_len (y m : Z) : Z :=
  if m =? 2 then (if leap y then 29 else 28)
  else if (m =? 4) || (m =? 6) || (m =? 9) || (m =? 11) then 30 else 31.
Definition valid (dt : Z * Z * Z) : Prop :=
  let '(y, m, d) := dt in 1 <= m <= 12 /\ 1 <= d <= month_len y m.
(** The civil date after dt. *)
Definition next_day (dt : Z * Z * Z) : Z * Z * Z :=
  let '(y, m, d) := dt in
  if d <? month_len y m then (y, m, d + 1)
  else if m <? 12 then (y, m + 1, 1) else (y + 1, 1, 1).
(** Chronological order of civil dates. *)
Definition date_lt (a b : Z * Z * Z) : Prop :=
  let '(y1, m1, d1) := a in let '(y2, m2, d2) := b in
  y1 < y2 \/ (y1 = y2 /\ (m1 < m2 \/ (m1 = m2 /\ d1 < d2))).

(** p is the least power of two that is at least v. *)
Definition least_pow2_above (v p : Z) : Prop :=
  (exists k, 0 <= k /\ p = 2 ^ k) /\ v <= p /\ forall k, 0 <= k -> v <= 2 ^ k -> p <= 2 ^ k.

(** r is the least multiple of a that is at least x. *)
Definition least_multiple_above (a x r : Z) : Prop :=
  (a | r) /\ x <= r /\ forall q, x <= q * a -> r <= q * a.
