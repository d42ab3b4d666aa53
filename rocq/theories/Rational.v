(* Model of bss::Rational (Rational.h:13-151).
   Integers are unbounded (the property speaks about operations that do not overflow); / and % truncate as in C++
   (Z.quot, Z.rem) and dividing by zero is undefined. The comparisons between two Rationals and the floating point
   conversions (119-122, 132-133) go through double and are not modelled. *)
From Coq Require Import ZArith Bool.
From Verif Require Import Common.
Open Scope Z_scope.

(** Rational.h:149-150: numerator and denominator. *)
Record rat := mk { n_ : Z; d_ : Z }.

(** Integer division in C++, used in every line below that divides (e.g. Rational.h:34). *)
Definition divz (a b : Z) : res Z := if b =? 0 then UB else Ok (Z.quot a b).
(** Integer remainder in C++ (Rational.h:125, 144). *)
Definition modz (a b : Z) : res Z := if b =? 0 then UB else Ok (Z.rem a b).

(** Rational.h:144: [while(b > 1) { tmp = b; b = a % b; a = tmp; }]. *)
Fixpoint gcd_loop (fuel : nat) (a b : Z) : res (Z * Z) :=
  if b >? 1 then
    match fuel with
    | O => OutOfFuel
    | S fuel => do m <- modz a b; gcd_loop fuel b m
    end
  else Ok (a, b).
(** Rational.h:137-147 [GCD]. The fuel is the smaller argument plus one. *)
Definition GCD (a b : Z) : res Z :=
  let a := Z.abs a in
  let b := Z.abs b in
  let '(a, b) := if b >? a then (b, a) else (a, b) in
  do (a, b) <- gcd_loop (S (Z.to_nat b)) a b;
  if b =? 0 then Ok a else Ok b.
(** Rational.h:25-42 [Simplify]. *)
Definition Simplify (q : rat) : res rat :=
  if n_ q =? 0 then Ok (mk (n_ q) 1) else
  do gcd <- GCD (n_ q) (d_ q);
  do n <- divz (n_ q) gcd;
  do d <- divz (d_ q) gcd;
  if d <? 0 then Ok (mk (- n) (- d)) else Ok (mk n d).
(** Rational.h:19 [Rational(n)], 117 [operator=(n)]. *)
Definition of_int (n : Z) : rat := mk n 1.
(** Rational.h:20 [Rational(n, d)], 22 [SetFraction]. *)
Definition of_frac (n d : Z) : res rat := Simplify (mk n d).

(** Rational.h:52-65 [operator+=]. *)
Definition add (q r : rat) : res rat :=
  do g <- GCD (d_ q) (d_ r);
  do d <- divz (d_ q) g;
  do t <- divz (d_ r) g;
  let n := n_ q * t + n_ r * d in
  do g <- GCD n g;
  do n <- divz n g;
  do t <- divz (d_ r) g;
  Ok (mk n (d * t)).
(** Rational.h:66-79 [operator-=]. *)
Definition sub (q r : rat) : res rat :=
  do g <- GCD (d_ q) (d_ r);
  do d <- divz (d_ q) g;
  do t <- divz (d_ r) g;
  let n := n_ q * t - n_ r * d in
  do g <- GCD n g;
  do n <- divz n g;
  do t <- divz (d_ r) g;
  Ok (mk n (d * t)).
(** Rational.h:80-90 [operator*=]. *)
Definition mul (q r : rat) : res rat :=
  do g1 <- GCD (n_ q) (d_ r);
  do g2 <- GCD (n_ r) (d_ q);
  do a <- divz (n_ q) g1;
  do b <- divz (n_ r) g2;
  do c <- divz (d_ q) g2;
  do e <- divz (d_ r) g1;
  Ok (mk (a * b) (c * e)).
(** Rational.h:91-110 [operator/=]. *)
Definition div (q r : rat) : res rat :=
  if n_ q =? 0 then Ok q else
  do g1 <- GCD (n_ q) (n_ r);
  do g2 <- GCD (d_ r) (d_ q);
  do a <- divz (n_ q) g1;
  do b <- divz (d_ r) g2;
  do c <- divz (d_ q) g2;
  do e <- divz (n_ r) g1;
  let n := a * b in
  let d := c * e in
  if d <? 0 then Ok (mk (- n) (- d)) else Ok (mk n d).
(** Rational.h:111-112 [operator+=(T)], [operator-=(T)]. *)
Definition addi (q : rat) (i : Z) : rat := mk (n_ q + i * d_ q) (d_ q).
Definition subi (q : rat) (i : Z) : rat := mk (n_ q - i * d_ q) (d_ q).
(** Rational.h:113 [operator*=(T)]. *)
Definition muli (q : rat) (i : Z) : res rat :=
  do g <- GCD i (d_ q);
  do t <- divz i g;
  do d <- divz (d_ q) g;
  Ok (mk (n_ q * t) d).
(** Rational.h:114 [operator/=(T)]. *)
Definition divi (q : rat) (i : Z) : res rat :=
  if n_ q =? 0 then Ok q else
  do g <- GCD (n_ q) i;
  do n <- divz (n_ q) g;
  do t <- divz i g;
  let d := d_ q * t in
  if d <? 0 then Ok (mk (- n) (- d)) else Ok (mk n d).
(** Rational.h:115-116 [operator++], [operator--]. *)
Definition inc (q : rat) : rat := mk (n_ q + d_ q) (d_ q).
Definition dec (q : rat) : rat := mk (n_ q - d_ q) (d_ q).
(** Rational.h:131 [Abs]. *)
Definition Abs (q : rat) : res rat := of_frac (Z.abs (n_ q)) (d_ q).
(** Rational.h:134 [Truncate]. *)
Definition Truncate (q : rat) : res Z := divz (n_ q) (d_ q).
(** Rational.h:153-156: the operators with an integer on the left. *)
Definition iadd (l : Z) (r : rat) : rat := addi r l.
Definition isub (l : Z) (r : rat) : res rat := sub (of_int l) r.
Definition imul (l : Z) (r : rat) : res rat := muli r l.
Definition idiv (l : Z) (r : rat) : res rat := div (of_int l) r.

(** Rational.h:123 [operator==], 129 [operator==(T)]. *)
Definition eqr (q r : rat) : bool := (n_ q =? n_ r) && (d_ q =? d_ r).
Definition eqi (q : rat) (i : Z) : bool := (d_ q =? 1) && (i =? n_ q).
(** Rational.h:125: [while(r < 0) { r += _d; --q; }]. *)
Fixpoint lt_loop (fuel : nat) (d q r : Z) : res Z :=
  if r <? 0 then
    match fuel with
    | O => OutOfFuel
    | S fuel => lt_loop fuel d (q - 1) (r + d)
    end
  else Ok q.
(** Rational.h:125 [operator<(T)]. One turn of the loop is enough for a positive denominator. *)
Definition lti (x : rat) (i : Z) : res bool :=
  do q <- divz (n_ x) (d_ x);
  do r <- modz (n_ x) (d_ x);
  do q <- lt_loop 2 (d_ x) q r;
  Ok (q <? i).
(** Rational.h:126-128 [operator>(T)], [operator<=(T)], [operator>=(T)]. *)
Definition gti (x : rat) (i : Z) : res bool := if eqi x i then Ok false else do b <- lti x i; Ok (negb b).
Definition lei (x : rat) (i : Z) : res bool := if eqi x i then Ok true else do b <- gti x i; Ok (negb b).
Definition gei (x : rat) (i : Z) : res bool := if eqi x i then Ok true else do b <- lti x i; Ok (negb b).
(** Rational.h:157-160: the comparisons with an integer on the left. *)
Definition ilt (i : Z) (x : rat) : res bool := gti x i.
Definition igt (i : Z) (x : rat) : res bool := lti x i.
Definition ile (i : Z) (x : rat) : res bool := gei x i.
Definition ige (i : Z) (x : rat) : res bool := lei x i.
