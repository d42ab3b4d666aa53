(* Properties C49 and C50: Rational arithmetic is exact and in lowest terms; comparison with integers is exact. *)
From Coq Require Import ZArith QArith Bool Lia Znumtheory.
From Verif Require Import Common Rational.
Open Scope Z_scope.

(* --- specification --- *)
(* the number a Rational stands for (denominators are positive) *)
Definition value (q : rat) : Q := Qmake (n_ q) (Z.to_pos (d_ q)).
Definition lowest (q : rat) : Prop := 0 < d_ q /\ Z.gcd (n_ q) (d_ q) = 1.
(* everything that can be computed with the arithmetic operators *)
Inductive expr :=
| EInt (i : Z) | EFrac (n d : Z)
| EAdd (a b : expr) | ESub (a b : expr) | EMul (a b : expr) | EDiv (a b : expr)
| EAddI (a : expr) (i : Z) | ESubI (a : expr) (i : Z) | EMulI (a : expr) (i : Z) | EDivI (a : expr) (i : Z)
| EIAdd (i : Z) (a : expr) | EISub (i : Z) (a : expr) | EIMul (i : Z) (a : expr) | EIDiv (i : Z) (a : expr)
| EInc (a : expr) | EDec (a : expr) | EAbs (a : expr).
(* what the code computes *)
Fixpoint eval (e : expr) : res rat :=
  match e with
  | EInt i => Ok (of_int i) | EFrac n d => of_frac n d
  | EAdd a b => do x <- eval a; do y <- eval b; add x y
  | ESub a b => do x <- eval a; do y <- eval b; sub x y
  | EMul a b => do x <- eval a; do y <- eval b; mul x y
  | EDiv a b => do x <- eval a; do y <- eval b; div x y
  | EAddI a i => do x <- eval a; Ok (addi x i) | ESubI a i => do x <- eval a; Ok (subi x i)
  | EMulI a i => do x <- eval a; muli x i | EDivI a i => do x <- eval a; divi x i
  | EIAdd i a => do x <- eval a; Ok (iadd i x) | EISub i a => do x <- eval a; isub i x
  | EIMul i a => do x <- eval a; imul i x | EIDiv i a => do x <- eval a; idiv i x
  | EInc a => do x <- eval a; Ok (inc x) | EDec a => do x <- eval a; Ok (dec x) | EAbs a => do x <- eval a; Abs x
  end.
(* the same in the rational numbers of the standard library; [means e v] when e has the value v and divides by no zero *)
Inductive means : expr -> Q -> Prop :=
| m_int i : means (EInt i) (inject_Z i)
| m_frac n d : d <> 0 -> means (EFrac n d) (inject_Z n / inject_Z d)
| m_add a b x y : means a x -> means b y -> means (EAdd a b) (x + y)
| m_sub a b x y : means a x -> means b y -> means (ESub a b) (x - y)
| m_mul a b x y : means a x -> means b y -> means (EMul a b) (x * y)
| m_div a b x y : means a x -> means b y -> ~ y == 0 -> means (EDiv a b) (x / y)
| m_addi a x i : means a x -> means (EAddI a i) (x + inject_Z i)
| m_subi a x i : means a x -> means (ESubI a i) (x - inject_Z i)
| m_muli a x i : means a x -> means (EMulI a i) (x * inject_Z i)
| m_divi a x i : means a x -> i <> 0 -> means (EDivI a i) (x / inject_Z i)
| m_iadd a x i : means a x -> means (EIAdd i a) (inject_Z i + x)
| m_isub a x i : means a x -> means (EISub i a) (inject_Z i - x)
| m_imul a x i : means a x -> means (EIMul i a) (inject_Z i * x)
| m_idiv a x i : means a x -> ~ x == 0 -> means (EIDiv i a) (inject_Z i / x)
| m_inc a x : means a x -> means (EInc a) (x + 1)
| m_dec a x : means a x -> means (EDec a) (x - 1)
| m_abs a x y : means a x -> (0 <= x /\ y == x \/ x < 0 /\ y == - x)%Q -> means (EAbs a) y.

(* --- GCD --- *)
Lemma gcd_loop_ok : forall fuel a b, 0 <= b <= a -> b < Z.of_nat fuel -> exists a' b', gcd_loop fuel a b = Ok (a', b') /\ 0 <= b' <= 1 /\ b' <= a' /\ Z.gcd a b = Z.gcd a' b'.
Proof.
  induction fuel as [|fuel IH]; intros a b H Hf; cbn [gcd_loop]; destruct (Z.gtb_spec b 1) as [Hb|Hb]; try lia;
    try (exists a, b; split; [reflexivity|]; split; [lia|]; split; [lia|reflexivity]).
  unfold modz. destruct (Z.eqb_spec b 0); [lia|]. cbn [bind]. pose proof (Z.rem_bound_pos a b ltac:(lia) ltac:(lia)) as Hr.
  destruct (IH b (Z.rem a b) ltac:(lia) ltac:(lia)) as (a' & b' & E & H1 & H2 & G). exists a', b'. split; [exact E|]. split; [exact H1|]. split; [exact H2|].
  rewrite <- G. rewrite (Z.gcd_comm b). rewrite Z.rem_mod_nonneg by lia. rewrite Z.gcd_mod by lia. apply Z.gcd_comm.
Qed.
Lemma GCD_ok a b : GCD a b = Ok (Z.gcd a b).
Proof.
  unfold GCD. assert (X : forall a b, 0 <= b <= a -> (do (a0, b0) <- gcd_loop (S (Z.to_nat b)) a b; if b0 =? 0 then Ok a0 else Ok b0) = Ok (Z.gcd a b)).
  { clear. intros a b H. destruct (gcd_loop_ok (S (Z.to_nat b)) a b H ltac:(lia)) as (a' & b' & E & H1 & H2 & G). rewrite E. cbn [bind]. rewrite G.
    destruct (Z.eqb_spec b' 0) as [-> |N]; [rewrite Z.gcd_0_r, Z.abs_eq by lia; reflexivity|]. replace b' with 1 by lia. rewrite Z.gcd_1_r. reflexivity. }
  rewrite <- (Z.gcd_abs_l a b), <- (Z.gcd_abs_r (Z.abs a) b). destruct (Z.gtb_spec (Z.abs b) (Z.abs a)); rewrite X by lia; [rewrite Z.gcd_comm|]; reflexivity.
Qed.
Lemma divz_ok k g : g <> 0 -> divz (k * g) g = Ok k.
Proof. intros H. unfold divz. destruct (Z.eqb_spec g 0); [contradiction|]. rewrite Z.quot_mul by exact H. reflexivity. Qed.
Lemma gcd_split a b : (a <> 0 \/ b <> 0) -> exists g a' b', Z.gcd a b = g /\ 0 < g /\ a = a' * g /\ b = b' * g /\ Z.gcd a' b' = 1.
Proof.
  intros H. pose proof (Z.gcd_nonneg a b) as N. assert (Hg : Z.gcd a b <> 0) by (intros E; apply Z.gcd_eq_0 in E; lia).
  destruct (Z.gcd_divide_l a b) as [a' Ea]. destruct (Z.gcd_divide_r a b) as [b' Eb]. exists (Z.gcd a b), a', b'. split; [reflexivity|]. split; [lia|].
  split; [exact Ea|]. split; [exact Eb|]. pose proof (Z.gcd_div_gcd a b (Z.gcd a b) Hg eq_refl) as X.
  replace (a / Z.gcd a b) with a' in X by (apply Z.div_unique_exact; [exact Hg|rewrite Z.mul_comm; exact Ea]).
  replace (b / Z.gcd a b) with b' in X by (apply Z.div_unique_exact; [exact Hg|rewrite Z.mul_comm; exact Eb]). exact X.
Qed.
(* coprimality *)
Lemma cop_mul a b c : Z.gcd a b = 1 -> Z.gcd a c = 1 -> Z.gcd a (b * c) = 1.
Proof. rewrite !Zgcd_1_rel_prime. apply rel_prime_mult. Qed.
Lemma cop_sym a b : Z.gcd a b = 1 -> Z.gcd b a = 1.
Proof. rewrite Z.gcd_comm. auto. Qed.
Lemma cop_fac_l a b c : Z.gcd (a * b) c = 1 -> Z.gcd a c = 1 /\ Z.gcd b c = 1.
Proof.
  rewrite !Zgcd_1_rel_prime. intros H. split; apply (rel_prime_div (a * b)); auto; [exists b; ring|exists a; reflexivity].
Qed.
Lemma cop_fac_r a b c : Z.gcd c (a * b) = 1 -> Z.gcd c a = 1 /\ Z.gcd c b = 1.
Proof. intros H. apply cop_sym, cop_fac_l in H. destruct H. split; apply cop_sym; assumption. Qed.
Lemma cop_add x k d : Z.gcd x d = 1 -> Z.gcd (x + k * d) d = 1.
Proof. intros H. rewrite Z.gcd_comm, Z.gcd_add_mult_diag_r, Z.gcd_comm. exact H. Qed.
Lemma cop_opp a b : Z.gcd a b = 1 -> Z.gcd (- a) b = 1 /\ Z.gcd a (- b) = 1 /\ Z.gcd (- a) (- b) = 1.
Proof. rewrite !Z.gcd_opp_l, !Z.gcd_opp_r. auto. Qed.

(* --- the operations, by cross multiplication --- *)
Lemma Simplify_ok n d : d <> 0 -> exists q, Simplify (mk n d) = Ok q /\ lowest q /\ n_ q * d = n * d_ q.
Proof.
  intros H. unfold Simplify. cbn [n_ d_]. destruct (Z.eqb_spec n 0) as [-> |N].
  - eexists. split; [reflexivity|]. split; [split; cbn; lia|cbn; lia].
  - rewrite GCD_ok. cbn [bind]. destruct (gcd_split n d ltac:(auto)) as (g & a & b & Eg & Hg & Ea & Eb & C). rewrite Eg. subst n d.
    rewrite !divz_ok by lia. cbn [bind]. destruct (Z.ltb_spec b 0); eexists; (split; [reflexivity|]); cbn [n_ d_]; (split; [split; cbn [n_ d_]; [|]|ring]).
    + lia.
    + apply cop_opp; exact C.
    + assert (b <> 0) by (intros ->; lia). lia.
    + exact C.
Qed.
Lemma sum_ok q r s : lowest q -> lowest r -> s = 1 \/ s = -1 ->
  exists t, (do g <- GCD (d_ q) (d_ r); do d <- divz (d_ q) g; do t <- divz (d_ r) g; let n := n_ q * t + s * n_ r * d in
             do g <- GCD n g; do n <- divz n g; do t <- divz (d_ r) g; Ok (mk n (d * t))) = Ok t /\ lowest t /\
    n_ t * (d_ q * d_ r) = (n_ q * d_ r + s * n_ r * d_ q) * d_ t.
Proof.
  destruct q as [n1 d1]. destruct r as [n2 d2]. cbn [n_ d_]. intros [D1 C1] [D2 C2] Hs. cbn [n_ d_] in *. rewrite GCD_ok. cbn [bind].
  destruct (gcd_split d1 d2 ltac:(lia)) as (g & a & b & Eg & Hg & Ea & Eb & C). rewrite Eg. subst d1 d2. rewrite !divz_ok by lia. cbn [bind].
  set (N := n1 * b + s * n2 * a). rewrite GCD_ok. cbn [bind].
  destruct (gcd_split N g ltac:(lia)) as (h & m & k & Eh & Hh & Em & Ek & Cm). rewrite Eh.
  replace (divz N h) with (Ok m) by (rewrite Em, divz_ok by lia; reflexivity). cbn [bind].
  replace (b * g) with (b * k * h) by (rewrite Ek; ring). rewrite divz_ok by lia. cbn [bind].
  assert (Ha : 0 < a) by (destruct (Z.lt_trichotomy a 0) as [X|[X|X]]; [pose proof (Z.mul_neg_pos a g X Hg); lia|subst a; lia|exact X]).
  assert (Hb : 0 < b) by (destruct (Z.lt_trichotomy b 0) as [X|[X|X]]; [pose proof (Z.mul_neg_pos b g X Hg); lia|subst b; lia|exact X]).
  assert (Hk : 0 < k) by (destruct (Z.lt_trichotomy k 0) as [X|[X|X]]; [pose proof (Z.mul_neg_pos k h X Hh); lia|subst k; lia|exact X]).
  assert (Ss : Z.gcd s a = 1 /\ Z.gcd s b = 1) by (destruct Hs as [-> | ->]; split; change (-1) with (- (1)); rewrite ?Z.gcd_opp_l; apply Z.gcd_1_l).
  apply cop_fac_r in C1. destruct C1 as [C1a C1g]. apply cop_fac_r in C2. destruct C2 as [C2b C2g].
  assert (Na : Z.gcd N a = 1). { unfold N. apply cop_add. apply cop_sym, cop_mul; [apply cop_sym; exact C1a|exact C]. }
  assert (Nb : Z.gcd N b = 1). { unfold N. rewrite Z.add_comm. apply cop_add. apply cop_sym, cop_mul; [apply cop_mul; apply cop_sym; [apply Ss|exact C2b]|apply cop_sym; exact C]. }
  rewrite Em in Na, Nb. apply cop_fac_l in Na, Nb. destruct Na as [Na _]. destruct Nb as [Nb _].
  eexists. split; [reflexivity|]. cbn [n_ d_]. split.
  - split; cbn [n_ d_]; [repeat apply Z.mul_pos_pos; assumption|]. apply cop_mul; [exact Na|]. apply cop_mul; [exact Nb|exact Cm].
  - replace (n1 * (b * k * h) + s * n2 * (a * g)) with (N * g) by (unfold N; rewrite Ek; ring). rewrite Em, Ek. ring.
Qed.
Lemma add_ok q r : lowest q -> lowest r -> exists t, add q r = Ok t /\ lowest t /\ n_ t * (d_ q * d_ r) = (n_ q * d_ r + n_ r * d_ q) * d_ t.
Proof.
  intros Hq Hr. destruct (sum_ok q r 1 Hq Hr (or_introl eq_refl)) as (t & E & L & V). exists t. split; [|split; [exact L|rewrite V; f_equal; lia]].
  rewrite <- E. unfold add. rewrite GCD_ok. cbn [bind]. destruct (divz (d_ q) _) as [d| |]; cbn [bind]; try reflexivity. destruct (divz (d_ r) _) as [b| |]; cbn [bind]; try reflexivity.
  cbv zeta. replace (1 * n_ r * d) with (n_ r * d) by ring. reflexivity.
Qed.
Lemma sub_ok q r : lowest q -> lowest r -> exists t, sub q r = Ok t /\ lowest t /\ n_ t * (d_ q * d_ r) = (n_ q * d_ r - n_ r * d_ q) * d_ t.
Proof.
  intros Hq Hr. destruct (sum_ok q r (-1) Hq Hr (or_intror eq_refl)) as (t & E & L & V). exists t. split; [|split; [exact L|rewrite V; f_equal; lia]].
  rewrite <- E. unfold sub. rewrite GCD_ok. cbn [bind]. destruct (divz (d_ q) _) as [d| |]; cbn [bind]; try reflexivity. destruct (divz (d_ r) _) as [b| |]; cbn [bind]; try reflexivity.
  cbv zeta. replace (n_ q * b + -1 * n_ r * d) with (n_ q * b - n_ r * d) by ring. reflexivity.
Qed.
Lemma fac_pos a g : 0 < g -> 0 < a * g -> 0 < a.
Proof. intros Hg H. destruct (Z.lt_trichotomy a 0) as [X|[X|X]]; [pose proof (Z.mul_neg_pos a g X Hg); lia|subst a; lia|exact X]. Qed.
Lemma mul_ok q r : lowest q -> lowest r -> exists t, mul q r = Ok t /\ lowest t /\ n_ t * (d_ q * d_ r) = (n_ q * n_ r) * d_ t.
Proof.
  destruct q as [n1 d1]. destruct r as [n2 d2]. unfold mul. cbn [n_ d_]. intros [D1 C1] [D2 C2]. cbn [n_ d_] in *. rewrite !GCD_ok. cbn [bind].
  destruct (gcd_split n1 d2 ltac:(lia)) as (g & a & b & Eg & Hg & Ea & Eb & C). rewrite Eg.
  destruct (gcd_split n2 d1 ltac:(lia)) as (h & c & e & Eh & Hh & Ec & Ee & C'). rewrite Eh. subst n1 n2 d1 d2. rewrite !divz_ok by lia. cbn [bind].
  apply fac_pos in D1, D2; auto. eexists. split; [reflexivity|]. cbn [n_ d_]. split; [|ring]. split; cbn [n_ d_]; [apply Z.mul_pos_pos; assumption|].
  apply cop_fac_l in C1, C2. destruct C1 as [C1 _]. destruct C2 as [C2 _]. apply cop_fac_r in C1, C2.
  apply cop_sym, cop_mul; apply cop_sym; apply cop_mul; tauto.
Qed.
Lemma div_ok q r : lowest q -> lowest r -> n_ r <> 0 -> exists t, div q r = Ok t /\ lowest t /\ n_ t * (d_ q * n_ r) = (n_ q * d_ r) * d_ t.
Proof.
  destruct q as [n1 d1]. destruct r as [n2 d2]. unfold div. cbn [n_ d_]. intros [D1 C1] [D2 C2] Hn. cbn [n_ d_] in *.
  destruct (Z.eqb_spec n1 0) as [-> |N]; [eexists; split; [reflexivity|]; split; [split; assumption|cbn; ring]|]. rewrite !GCD_ok. cbn [bind].
  destruct (gcd_split n1 n2 ltac:(lia)) as (g & a & b & Eg & Hg & Ea & Eb & C). rewrite Eg.
  destruct (gcd_split d2 d1 ltac:(lia)) as (h & c & e & Eh & Hh & Ec & Ee & C'). rewrite Eh. subst n1 n2 d1 d2. rewrite !divz_ok by lia. cbn [bind].
  apply fac_pos in D1, D2; auto. apply cop_fac_l in C1, C2. destruct C1 as [C1 _]. destruct C2 as [C2 _]. apply cop_fac_r in C1, C2.
  assert (b <> 0) by (intros ->; lia).
  assert (K : Z.gcd (a * c) (e * b) = 1).
  { apply cop_sym, cop_mul; apply cop_sym; apply cop_mul; try tauto. apply cop_sym. tauto. }
  assert (Hd : e * b <> 0) by (apply Z.neq_mul_0; lia).
  destruct (Z.ltb_spec (e * b) 0); eexists; (split; [reflexivity|]); cbn [n_ d_]; (split; [split; cbn [n_ d_]|ring]); [lia|apply cop_opp; exact K|lia|exact K].
Qed.
Lemma addi_ok q i : lowest q -> lowest (addi q i) /\ n_ (addi q i) * d_ q = (n_ q + i * d_ q) * d_ (addi q i).
Proof. intros [D C]. split; [split; cbn [addi n_ d_]; [exact D|apply cop_add; exact C]|reflexivity]. Qed.
Lemma subi_ok q i : lowest q -> lowest (subi q i) /\ n_ (subi q i) * d_ q = (n_ q - i * d_ q) * d_ (subi q i).
Proof. intros [D C]. split; [split; cbn [subi n_ d_]; [exact D|]|reflexivity]. replace (n_ q - i * d_ q) with (n_ q + (- i) * d_ q) by ring. apply cop_add; exact C. Qed.
Lemma muli_ok q i : lowest q -> exists t, muli q i = Ok t /\ lowest t /\ n_ t * d_ q = (n_ q * i) * d_ t.
Proof.
  destruct q as [n1 d1]. unfold muli. cbn [n_ d_]. intros [D1 C1]. cbn [n_ d_] in *. rewrite GCD_ok. cbn [bind].
  destruct (gcd_split i d1 ltac:(lia)) as (g & a & b & Eg & Hg & Ea & Eb & C). rewrite Eg. subst i d1. rewrite !divz_ok by lia. cbn [bind].
  apply fac_pos in D1; auto. eexists. split; [reflexivity|]. cbn [n_ d_]. split; [|ring]. split; cbn [n_ d_]; [exact D1|].
  apply cop_fac_r in C1. apply cop_sym, cop_mul; apply cop_sym; tauto.
Qed.
Lemma divi_ok q i : lowest q -> i <> 0 -> exists t, divi q i = Ok t /\ lowest t /\ n_ t * (d_ q * i) = n_ q * d_ t.
Proof.
  destruct q as [n1 d1]. unfold divi. cbn [n_ d_]. intros [D1 C1] Hi. cbn [n_ d_] in *.
  destruct (Z.eqb_spec n1 0) as [-> |N]; [eexists; split; [reflexivity|]; split; [split; assumption|cbn; ring]|]. rewrite GCD_ok. cbn [bind].
  destruct (gcd_split n1 i ltac:(lia)) as (g & a & b & Eg & Hg & Ea & Eb & C). rewrite Eg. subst i n1. rewrite !divz_ok by lia. cbn [bind].
  assert (b <> 0) by (intros ->; lia). assert (Hd : d1 * b <> 0) by (apply Z.neq_mul_0; lia).
  assert (K : Z.gcd a (d1 * b) = 1) by (apply cop_fac_l in C1; apply cop_mul; tauto).
  destruct (Z.ltb_spec (d1 * b) 0); eexists; (split; [reflexivity|]); cbn [n_ d_]; (split; [split; cbn [n_ d_]|ring]); [lia|apply cop_opp; exact K|lia|exact K].
Qed.

(* --- values --- *)
Lemma value_eq q n d : 0 < d_ q -> d <> 0 -> n_ q * d = n * d_ q -> value q == inject_Z n / inject_Z d.
Proof.
  intros Hq Hd E. assert (X : ~ inject_Z d == 0) by (intros X; unfold Qeq in X; cbn in X; lia).
  apply (Qmult_inj_r _ _ (inject_Z d) X). unfold Qdiv. rewrite <- Qmult_assoc, (Qmult_comm (/ _)), Qmult_inv_r, Qmult_1_r by exact X.
  unfold value, Qeq. cbn [Qnum Qden Qmult inject_Z]. rewrite Pos.mul_1_r, Z2Pos.id by exact Hq. lia.
Qed.
Lemma value_split q : 0 < d_ q -> value q == inject_Z (n_ q) / inject_Z (d_ q).
Proof. intros H. apply value_eq; [exact H|lia|reflexivity]. Qed.
Lemma inj_nz z : z <> 0 -> ~ inject_Z z == 0.
Proof. intros H X. unfold Qeq in X. cbn in X. lia. Qed.
Lemma value_zero q : value q == 0 <-> n_ q = 0.
Proof. unfold value, Qeq. cbn. lia. Qed.
Lemma value_int i : value (of_int i) == inject_Z i.
Proof. reflexivity. Qed.
Lemma lowest_int i : lowest (of_int i).
Proof. split; cbn [of_int n_ d_]; [lia|apply Z.gcd_1_r]. Qed.

(* two Rationals in lowest terms are the same iff they stand for the same number *)
Lemma lowest_unique q r : lowest q -> lowest r -> value q == value r -> q = r.
Proof.
  destruct q as [n1 d1]. destruct r as [n2 d2]. intros [D1 C1] [D2 C2] V. cbn [n_ d_] in *. unfold value, Qeq in V. cbn [n_ d_ Qnum Qden] in V. rewrite !Z2Pos.id in V by assumption.
  assert (A : (d1 | d2)). { apply (Z.gauss d1 n1); [exists n2; lia|apply cop_sym; exact C1]. }
  assert (B : (d2 | d1)). { apply (Z.gauss d2 n2); [exists n1; lia|apply cop_sym; exact C2]. }
  assert (d1 = d2) by (apply Z.divide_antisym_nonneg; [lia|lia|assumption|assumption]). subst d2. f_equal. apply Z.mul_reg_r in V; lia.
Qed.

(* C49: every expression whose divisors are not zero is computed without undefined behaviour, to the exact rational
   number, in lowest terms with a positive denominator. *)
Theorem C49_exact : forall e v, means e v -> exists q, eval e = Ok q /\ lowest q /\ value q == v.
Proof.
  assert (PQ : forall q, lowest q -> ~ inject_Z (d_ q) == 0) by (intros q [D _]; apply inj_nz; lia).
  assert (ADD : forall q r x y, lowest q -> lowest r -> value q == x -> value r == y -> exists t, add q r = Ok t /\ lowest t /\ value t == x + y).
  { intros q r x y Lq Lr Vx Vy. destruct (add_ok q r Lq Lr) as (t & E & L & V). exists t. split; [exact E|]. split; [exact L|].
    pose proof Lq as [Dq _]. pose proof Lr as [Dr _]. pose proof L as [Dt _]. rewrite (value_eq t _ _ Dt (proj1 (Z.neq_mul_0 _ _) (conj (not_eq_sym (Z.lt_neq _ _ Dq)) (not_eq_sym (Z.lt_neq _ _ Dr)))) V).
    rewrite <- Vx, <- Vy. rewrite !value_split by assumption. rewrite inject_Z_plus, !inject_Z_mult. field. auto. }
  assert (SUB : forall q r x y, lowest q -> lowest r -> value q == x -> value r == y -> exists t, sub q r = Ok t /\ lowest t /\ value t == x - y).
  { intros q r x y Lq Lr Vx Vy. destruct (sub_ok q r Lq Lr) as (t & E & L & V). exists t. split; [exact E|]. split; [exact L|].
    pose proof Lq as [Dq _]. pose proof Lr as [Dr _]. pose proof L as [Dt _]. rewrite (value_eq t _ _ Dt (proj1 (Z.neq_mul_0 _ _) (conj (not_eq_sym (Z.lt_neq _ _ Dq)) (not_eq_sym (Z.lt_neq _ _ Dr)))) V).
    rewrite <- Vx, <- Vy. rewrite !value_split by assumption. unfold Z.sub. rewrite inject_Z_plus, inject_Z_opp, !inject_Z_mult. field. auto. }
  assert (DIV : forall q r x y, lowest q -> lowest r -> value q == x -> value r == y -> ~ y == 0 -> exists t, div q r = Ok t /\ lowest t /\ value t == x / y).
  { intros q r x y Lq Lr Vx Vy Hy. assert (Hn : n_ r <> 0) by (intros X; apply Hy; rewrite <- Vy; apply value_zero, X). destruct (div_ok q r Lq Lr Hn) as (t & E & L & V). exists t. split; [exact E|]. split; [exact L|].
    pose proof Lq as [Dq _]. pose proof Lr as [Dr _]. pose proof L as [Dt _]. rewrite (value_eq t _ _ Dt (proj1 (Z.neq_mul_0 _ _) (conj (not_eq_sym (Z.lt_neq _ _ Dq)) Hn)) V).
    rewrite <- Vx, <- Vy. rewrite !value_split by assumption. rewrite !inject_Z_mult. pose proof (inj_nz _ Hn). field. auto. }
  assert (ADDI : forall q x i, lowest q -> value q == x -> lowest (addi q i) /\ value (addi q i) == x + inject_Z i).
  { intros q x i Lq Vx. destruct (addi_ok q i Lq) as [L V]. split; [exact L|]. pose proof Lq as [Dq _]. pose proof L as [Dt _].
    rewrite (value_eq _ _ _ Dt (not_eq_sym (Z.lt_neq _ _ Dq)) V). rewrite <- Vx, value_split by assumption. rewrite inject_Z_plus, inject_Z_mult. field. auto. }
  assert (SUBI : forall q x i, lowest q -> value q == x -> lowest (subi q i) /\ value (subi q i) == x - inject_Z i).
  { intros q x i Lq Vx. destruct (subi_ok q i Lq) as [L V]. split; [exact L|]. pose proof Lq as [Dq _]. pose proof L as [Dt _].
    rewrite (value_eq _ _ _ Dt (not_eq_sym (Z.lt_neq _ _ Dq)) V). rewrite <- Vx, value_split by assumption. unfold Z.sub. rewrite inject_Z_plus, inject_Z_opp, inject_Z_mult. field. auto. }
  assert (MULI : forall q x i, lowest q -> value q == x -> exists t, muli q i = Ok t /\ lowest t /\ value t == x * inject_Z i).
  { intros q x i Lq Vx. destruct (muli_ok q i Lq) as (t & E & L & V). exists t. split; [exact E|]. split; [exact L|]. pose proof Lq as [Dq _]. pose proof L as [Dt _].
    rewrite (value_eq _ _ _ Dt (not_eq_sym (Z.lt_neq _ _ Dq)) V). rewrite <- Vx, value_split by assumption. rewrite inject_Z_mult. field. auto. }
  induction 1 as [i|n d Hd|a b x y _ (qa & Ea & La & Va) _ (qb & Eb & Lb & Vb)|a b x y _ (qa & Ea & La & Va) _ (qb & Eb & Lb & Vb)|a b x y _ (qa & Ea & La & Va) _ (qb & Eb & Lb & Vb)
    |a b x y _ (qa & Ea & La & Va) _ (qb & Eb & Lb & Vb) Hy|a x i _ (qa & Ea & La & Va)|a x i _ (qa & Ea & La & Va)|a x i _ (qa & Ea & La & Va)|a x i _ (qa & Ea & La & Va) Hi
    |a x i _ (qa & Ea & La & Va)|a x i _ (qa & Ea & La & Va)|a x i _ (qa & Ea & La & Va)|a x i _ (qa & Ea & La & Va) Hy|a x _ (qa & Ea & La & Va)|a x _ (qa & Ea & La & Va)|a x y _ (qa & Ea & La & Va) Hy];
    cbn [eval]; rewrite ?Ea, ?Eb; cbn [bind].
  - eexists. split; [reflexivity|]. split; [apply lowest_int|reflexivity].
  - destruct (Simplify_ok n d Hd) as (q & E & L & V). exists q. split; [exact E|]. split; [exact L|]. apply value_eq; [apply L|exact Hd|exact V].
  - apply ADD; assumption.
  - apply SUB; assumption.
  - destruct (mul_ok qa qb La Lb) as (t & E & L & V). exists t. split; [exact E|]. split; [exact L|]. rewrite <- Va, <- Vb.
    pose proof La as [Dq _]. pose proof Lb as [Dr _]. pose proof L as [Dt _]. rewrite (value_eq t _ _ Dt (proj1 (Z.neq_mul_0 _ _) (conj (not_eq_sym (Z.lt_neq _ _ Dq)) (not_eq_sym (Z.lt_neq _ _ Dr)))) V).
    rewrite !value_split by assumption. rewrite !inject_Z_mult. field. auto.
  - apply DIV; assumption.
  - eexists. split; [reflexivity|]. apply ADDI; assumption.
  - eexists. split; [reflexivity|]. apply SUBI; assumption.
  - apply MULI; assumption.
  - destruct (divi_ok qa i La Hi) as (t & E & L & V). exists t. split; [exact E|]. split; [exact L|]. rewrite <- Va.
    pose proof La as [Dq _]. pose proof L as [Dt _]. rewrite (value_eq t _ _ Dt (proj1 (Z.neq_mul_0 _ _) (conj (not_eq_sym (Z.lt_neq _ _ Dq)) Hi)) V).
    rewrite !value_split by assumption. rewrite !inject_Z_mult. pose proof (inj_nz _ Hi). field. auto.
  - eexists. split; [reflexivity|]. unfold iadd. destruct (ADDI qa x i La Va) as [L V]. split; [exact L|]. rewrite V. ring.
  - unfold isub. apply SUB; auto using lowest_int, value_int.
  - unfold imul. destruct (MULI qa x i La Va) as (t & E & L & V). exists t. split; [exact E|]. split; [exact L|]. rewrite V. ring.
  - unfold idiv. apply DIV; auto using lowest_int, value_int.
  - eexists. split; [reflexivity|]. destruct (ADDI qa x 1 La Va) as [L V]. unfold addi in *. rewrite Z.mul_1_l in *. split; [exact L|exact V].
  - eexists. split; [reflexivity|]. destruct (SUBI qa x 1 La Va) as [L V]. unfold subi in *. rewrite Z.mul_1_l in *. split; [exact L|exact V].
  - unfold Abs, of_frac. destruct La as [Da Ca]. destruct (Simplify_ok (Z.abs (n_ qa)) (d_ qa) ltac:(lia)) as (t & E & L & V). exists t. split; [exact E|]. split; [exact L|].
    pose proof L as [Dt _]. rewrite (value_eq t _ _ Dt (not_eq_sym (Z.lt_neq _ _ Da)) V).
    assert (Sg : (0 <= x)%Q <-> 0 <= n_ qa). { rewrite <- Va. unfold value, Qle. cbn. lia. }
    destruct Hy as [[H1 H2]|[H1 H2]]; rewrite H2.
    + rewrite Z.abs_eq by (apply Sg; exact H1). rewrite <- Va, value_split by exact Da. reflexivity.
    + assert (n_ qa < 0). { destruct (Z.lt_ge_cases (n_ qa) 0) as [|G]; [assumption|]. apply Sg in G. exfalso. apply (Qlt_not_le _ _ H1 G). }
      rewrite Z.abs_neq by lia. rewrite <- Va, value_split by exact Da. rewrite inject_Z_opp. field. apply inj_nz. lia.
Qed.
Print Assumptions C49_exact.
(* ... so == decides equality of the values. *)
Theorem C49_equality : forall e f v w q r, means e v -> means f w -> eval e = Ok q -> eval f = Ok r -> (eqr q r = true <-> v == w).
Proof.
  intros e f v w q r He Hf Eq Er. destruct (C49_exact e v He) as (q' & E1 & L1 & V1). destruct (C49_exact f w Hf) as (r' & E2 & L2 & V2).
  rewrite Eq in E1. injection E1 as <-. rewrite Er in E2. injection E2 as <-. unfold eqr. rewrite andb_true_iff, !Z.eqb_eq. split.
  - intros [A B]. rewrite <- V1, <- V2. unfold value. rewrite A, B. reflexivity.
  - intros H. assert (X : q = r) by (apply lowest_unique; auto; rewrite V1, V2; exact H). subst. auto.
Qed.
Print Assumptions C49_equality.

(* C50: the comparisons of a Rational in lowest terms with an integer, in both orders. *)
Theorem C50_compare : forall q i, lowest q ->
  exists lt gt le ge, lti q i = Ok lt /\ gti q i = Ok gt /\ lei q i = Ok le /\ gei q i = Ok ge /\
    igt i q = Ok lt /\ ilt i q = Ok gt /\ ige i q = Ok le /\ ile i q = Ok ge /\
    (lt = true <-> (value q < inject_Z i)%Q) /\ (gt = true <-> (inject_Z i < value q)%Q) /\
    (le = true <-> (value q <= inject_Z i)%Q) /\ (ge = true <-> (inject_Z i <= value q)%Q) /\
    (eqi q i = true <-> value q == inject_Z i).
Proof.
  intros [n d] i [D C]. cbn [n_ d_] in *. unfold igt, ilt, ige, ile, gei, lei, gti.
  assert (LT : exists lt, lti (mk n d) i = Ok lt /\ (lt = true <-> n < i * d)).
  { unfold lti. cbn [n_ d_]. unfold divz, modz. destruct (Z.eqb_spec d 0); [lia|]. cbn [bind].
    pose proof (Z.quot_rem' n d) as QR. assert (F : lt_loop 2 d (Z.quot n d) (Z.rem n d) = Ok (n / d)).
    { cbn [lt_loop]. destruct (Z.ltb_spec (Z.rem n d) 0) as [H|H].
      - destruct (Z.ltb_spec (Z.rem n d + d) 0) as [H2|H2].
        + pose proof (Z.rem_bound_abs n d ltac:(lia)). lia.
        + pose proof (Z.rem_bound_abs n d ltac:(lia)). f_equal. apply (Z.div_unique n d _ (Z.rem n d + d)); [left; lia|]. rewrite Z.mul_sub_distr_l. lia.
      - pose proof (Z.rem_bound_abs n d ltac:(lia)). f_equal. apply (Z.div_unique n d _ (Z.rem n d)); [left; lia|exact QR]. }
    rewrite F. cbn [bind]. eexists. split; [reflexivity|]. rewrite Z.ltb_lt. split; intros H.
    - pose proof (Z.mul_succ_div_gt n d D) as G. pose proof (Z.mul_le_mono_nonneg_l (Z.succ (n / d)) i d ltac:(lia) ltac:(lia)). lia.
    - apply Z.div_lt_upper_bound; lia. }
  destruct LT as (lt & Elt & Hlt). rewrite Elt.
  assert (EQ : eqi (mk n d) i = true <-> n = i * d).
  { unfold eqi. cbn [n_ d_]. rewrite andb_true_iff, !Z.eqb_eq. split; [intros [-> ->]; lia|]. intros ->. assert (d = 1).
    { rewrite Z.mul_comm, Z.gcd_comm, Z.gcd_mul_diag_l in C by lia. exact C. } subst. lia. }
  assert (V : ((value (mk n d) < inject_Z i)%Q <-> n < i * d) /\ ((inject_Z i < value (mk n d))%Q <-> i * d < n) /\ ((value (mk n d) <= inject_Z i)%Q <-> n <= i * d) /\
    ((inject_Z i <= value (mk n d))%Q <-> i * d <= n) /\ (value (mk n d) == inject_Z i <-> n = i * d)).
  { unfold value, Qlt, Qle, Qeq. cbn [n_ d_ Qnum Qden inject_Z]. rewrite Z2Pos.id by exact D. rewrite !Z.mul_1_r. tauto. }
  destruct V as (V1 & V2 & V3 & V4 & V5). destruct (eqi (mk n d) i) eqn:E.
  - exists lt, false, true, true. repeat (split; [reflexivity|]). rewrite V1, V2, V3, V4, V5, Hlt. pose proof (proj1 EQ eq_refl). split; [tauto|]. split; [split; [discriminate|lia]|]. split; [split; [lia|reflexivity]|]. split; [split; [lia|reflexivity]|]. tauto.
  - assert (NE : n <> i * d) by (intros X; apply EQ in X; discriminate). cbn [bind]. exists lt, (negb lt), (negb (negb lt)), (negb lt). repeat (split; [reflexivity|]).
    rewrite V1, V2, V3, V4, V5. destruct lt; cbn [negb]; (split; [tauto|]).
    + pose proof (proj1 Hlt eq_refl). split; [split; [discriminate|lia]|]. split; [split; [lia|reflexivity]|]. split; [split; [discriminate|lia]|]. split; [discriminate|lia].
    + assert (G : ~ n < i * d) by (intros X; apply Hlt in X; discriminate). split; [split; [lia|reflexivity]|]. split; [split; [discriminate|lia]|]. split; [split; [lia|reflexivity]|]. split; [discriminate|lia].
Qed.
Print Assumptions C50_compare.

Example C49_example :
  let e := EDiv (EAdd (EFrac 5 (-6)) (EFrac 3 4)) (EMulI (ESub (EInt 2) (EFrac 7 3)) 10) in
  exists v, means e v /\ eval e = Ok (mk 1 40).
Proof.
  intros e. eexists. split; [|vm_compute; reflexivity]. unfold e. apply m_div; [apply m_add; apply m_frac; lia|apply m_muli, m_sub; [apply m_int|apply m_frac; lia]|].
  vm_compute. discriminate.
Qed.
Example C50_example : lowest (mk (-7) 2) /\ lti (mk (-7) 2) (-3) = Ok true /\ lti (mk (-7) 2) (-4) = Ok false /\ gti (mk (-7) 2) (-4) = Ok true /\ lei (mk (-8) 1) (-8) = Ok true.
Proof. repeat split. Qed.
