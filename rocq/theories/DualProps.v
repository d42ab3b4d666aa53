(* Property C66: dual numbers carry the derivatives. *)
From Coq Require Import Reals Lra Lia ZArith List.
From Verif Require Import Dual.
Import ListNotations.
Local Open Scope R_scope.

(* ---------------- specification ---------------- *)
(* v is the k-th derivative of f at a: f has, in a neighbourhood of a, a derivative whose (k-1)-st derivative at a is v *)
Inductive derivative : nat -> (R -> R) -> R -> R -> Prop :=
| d_zero f a : derivative 0 f a (f a)
| d_succ k f f' a v eps : 0 < eps -> (forall y, Rabs (y - a) < eps -> derivable_pt_lim f y (f' y)) -> derivative k f' a v -> derivative (S k) f a v.

(* expressions in one variable, and the functions they stand for *)
Inductive expr :=
| EVar | ECon (c : R) | EAdd (l r : expr) | ESub (l r : expr) | EMul (l r : expr) | EDiv (l r : expr) | ENeg (e : expr)
| EPowC (e : expr) (k : R) | EPowZ (e : expr) (z : Z) | EPow (l r : expr) | EAbs (e : expr) | ESin (e : expr) | ECos (e : expr) | EExp (e : expr) | ELog (e : expr) | ELog10 (e : expr).

(* integer powers of a real, [powerRZ] is the library's x^z; real powers of a positive real, [Rpower] *)
Fixpoint fn (e : expr) (x : R) : R :=
  match e with
  | EVar => x
  | ECon c => c
  | EAdd l r => fn l x + fn r x
  | ESub l r => fn l x - fn r x
  | EMul l r => fn l x * fn r x
  | EDiv l r => fn l x / fn r x
  | ENeg e => - fn e x
  | EPowC e k => Rpower (fn e x) k
  | EPowZ e z => powerRZ (fn e x) z
  | EPow l r => Rpower (fn l x) (fn r x)
  | EAbs e => Rabs (fn e x)
  | ESin e => sin (fn e x)
  | ECos e => cos (fn e x)
  | EExp e => exp (fn e x)
  | ELog e => ln (fn e x)
  | ELog10 e => ln (fn e x) / ln 10
  end.

(* where every operation is defined and differentiable *)
Fixpoint defined (e : expr) (x : R) : Prop :=
  match e with
  | EVar | ECon _ => True
  | EAdd l r | ESub l r | EMul l r => defined l x /\ defined r x
  | EDiv l r => defined l x /\ defined r x /\ fn r x <> 0
  | ENeg e | ESin e | ECos e | EExp e => defined e x
  | EPowC e _ => defined e x /\ 0 < fn e x
  | EPowZ e _ => defined e x /\ fn e x <> 0
  | EPow l r => defined l x /\ defined r x /\ 0 < fn l x
  | EAbs e => defined e x /\ fn e x <> 0
  | ELog e | ELog10 e => defined e x /\ 0 < fn e x
  end.

(* the same expression computed with the operators of Dual<T, n> *)
Fixpoint compute (n : nat) (e : expr) (x : dual n) : dual n :=
  match e with
  | EVar => x
  | ECon c => con n c
  | EAdd l r => dadd n (compute n l x) (compute n r x)
  | ESub l r => dsub n (compute n l x) (compute n r x)
  | EMul l r => dmul n (compute n l x) (compute n r x)
  | EDiv l r => ddiv n (compute n l x) (compute n r x)
  | ENeg e => dneg n (compute n e x)
  | EPowC e k => dpowc n (compute n e x) k
  | EPowZ e z => dpowc n (compute n e x) (IZR z)
  | EPow l r => dpow n (compute n l x) (compute n r x)
  | EAbs e => dabs n (compute n e x)
  | ESin e => dtrig n true (compute n e x)
  | ECos e => dtrig n false (compute n e x)
  | EExp e => dexp n (compute n e x)
  | ELog e => dlog n (compute n e x)
  | ELog10 e => dlog10 n (compute n e x)
  end.

(* ---------------- proofs ---------------- *)
Definition near (a : R) (P : R -> Prop) : Prop := exists eps, 0 < eps /\ forall y, Rabs (y - a) < eps -> P y.

Lemma near_here a P : near a P -> P a.
Proof. intros (e & He & H). apply H. rewrite Rminus_diag_eq by reflexivity. now rewrite Rabs_R0. Qed.

Lemma near_and a P Q : near a P -> near a Q -> near a (fun y => P y /\ Q y).
Proof.
  intros (e & He & H) (e' & He' & H'). exists (Rmin e e'). split; [now apply Rmin_pos|].
  intros y Hy. split; [apply H|apply H']; eapply Rlt_le_trans; eauto; [apply Rmin_l|apply Rmin_r].
Qed.

Lemma near_impl a (P Q : R -> Prop) : near a P -> (forall y, P y -> Q y) -> near a Q.
Proof. intros (e & He & H) HQ. exists e. auto. Qed.

Lemma near_all a (P : R -> Prop) : (forall y, P y) -> near a P.
Proof. intros H. exists 1. split; [lra|auto]. Qed.

(* a property that holds near every point near a *)
Lemma near_near a P : near a P -> near a (fun y => near y P).
Proof.
  intros (e & He & H). exists (e / 2). split; [lra|]. intros y Hy. exists (e / 2). split; [lra|].
  intros z Hz. apply H. replace (z - a) with ((z - y) + (y - a)) by ring. eapply Rle_lt_trans; [apply Rabs_triang|]. lra.
Qed.

Lemma lim_ext f g y l : near y (fun z => f z = g z) -> derivable_pt_lim f y l -> derivable_pt_lim g y l.
Proof.
  intros (e & He & E) D eps Heps. destruct (D eps Heps) as [d Hd].
  assert (Hm : 0 < Rmin d e) by (apply Rmin_pos; [apply cond_pos|auto]).
  exists (mkposreal _ Hm). intros h Hh Hlt. cbn in Hlt. rewrite <- !E.
  - apply Hd; auto. eapply Rlt_le_trans; [exact Hlt|apply Rmin_l].
  - rewrite Rminus_diag_eq by reflexivity. now rewrite Rabs_R0.
  - replace (y + h - y) with h by ring. eapply Rlt_le_trans; [exact Hlt|apply Rmin_r].
Qed.

Lemma lim_cont f y l : derivable_pt_lim f y l -> continuity_pt f y.
Proof. intros H. apply derivable_continuous_pt. exists l. exact H. Qed.

Lemma cont_near f a c : continuity_pt f a -> 0 < c -> near a (fun y => Rabs (f y - f a) < c).
Proof.
  intros H Hc. destruct (H c Hc) as (d & Hd & Hy). exists d. split; auto. intros y Hlt.
  destruct (Req_dec y a) as [->|Hne]; [rewrite Rminus_diag_eq by reflexivity; now rewrite Rabs_R0|].
  apply Hy. split; [split; [exact Logic.I|congruence]|exact Hlt].
Qed.

Lemma cont_pos f a : continuity_pt f a -> 0 < f a -> near a (fun y => 0 < f y).
Proof. intros H Hc. apply (near_impl _ _ _ (cont_near f a (f a) H Hc)). intros y Hy. apply Rabs_def2 in Hy. lra. Qed.

Lemma cont_neg f a : continuity_pt f a -> f a < 0 -> near a (fun y => f y < 0).
Proof. intros H Hc. apply (near_impl _ _ _ (cont_near f a (- f a) H ltac:(lra))). intros y Hy. apply Rabs_def2 in Hy. lra. Qed.

Lemma cont_nz f a : continuity_pt f a -> f a <> 0 -> near a (fun y => f y <> 0).
Proof.
  intros H Hc. destruct (Rtotal_order (f a) 0) as [Hl|[He|Hg]]; [|lra|].
  - apply (near_impl _ _ _ (cont_neg f a H Hl)). intros; lra.
  - apply (near_impl _ _ _ (cont_pos f a H Hg)). intros; lra.
Qed.

(* d holds the value of f and of its first n derivatives at a *)
Fixpoint jet (n : nat) : dual n -> (R -> R) -> R -> Prop :=
  match n with
  | O => fun d f a => d = f a
  | S m => fun d f a => fst d = f a /\ exists f', near a (fun y => derivable_pt_lim f y (f' y)) /\ jet m (snd d) f' a
  end.

Lemma jet_ext n : forall d f g a, near a (fun y => f y = g y) -> jet n d f a -> jet n d g a.
Proof.
  destruct n as [|n]; cbn; intros d f g a E.
  - intros ->. now apply near_here in E.
  - intros [H (f' & Hd & Hj)]. split; [rewrite H; now apply near_here in E|]. exists f'. split; auto.
    apply near_near in E. apply (near_impl _ _ _ (near_and _ _ _ E Hd)). intros y [E1 D]. eapply lim_ext; eauto.
Qed.

Lemma jet_low n : forall d f a, jet (S n) d f a -> jet n (low n d) f a.
Proof.
  induction n as [|n IH]; intros d f a.
  - intros [H _]. exact H.
  - intros [H (f' & Hd & Hj)]. cbn [low]. split; auto. exists f'. split; [exact Hd|exact (IH _ _ _ Hj)].
Qed.

Lemma jet_con n : forall c a, jet n (con n c) (fun _ => c) a.
Proof.
  induction n as [|n IH]; intros c a; [reflexivity|]. split; auto. exists (fun _ => 0). split; [|apply IH].
  apply near_all. intros y. apply derivable_pt_lim_const.
Qed.

Lemma jet_var n a : jet n (var n a) (fun x => x) a.
Proof.
  destruct n as [|n]; [reflexivity|]. split; auto. exists (fun _ => 1). split; [|apply jet_con].
  apply near_all. intros y. apply derivable_pt_lim_id.
Qed.

Lemma jet_add n : forall d e f g a, jet n d f a -> jet n e g a -> jet n (dadd n d e) (fun x => f x + g x) a.
Proof.
  induction n as [|n IH]; intros d e f g a; cbn; [intros -> ->; auto|].
  intros [H1 (f' & D1 & J1)] [H2 (g' & D2 & J2)]. split; [now rewrite H1, H2|]. exists (fun x => f' x + g' x). split; [|now apply IH].
  apply (near_impl _ _ _ (near_and _ _ _ D1 D2)). intros y [A B]. now apply (derivable_pt_lim_plus f g).
Qed.

Lemma jet_sub n : forall d e f g a, jet n d f a -> jet n e g a -> jet n (dsub n d e) (fun x => f x - g x) a.
Proof.
  induction n as [|n IH]; intros d e f g a; cbn; [intros -> ->; auto|].
  intros [H1 (f' & D1 & J1)] [H2 (g' & D2 & J2)]. split; [now rewrite H1, H2|]. exists (fun x => f' x - g' x). split; [|now apply IH].
  apply (near_impl _ _ _ (near_and _ _ _ D1 D2)). intros y [A B]. now apply (derivable_pt_lim_minus f g).
Qed.

Lemma jet_neg n : forall d f a, jet n d f a -> jet n (dneg n d) (fun x => - f x) a.
Proof.
  induction n as [|n IH]; intros d f a; cbn; [intros ->; auto|].
  intros [H1 (f' & D1 & J1)]. split; [now rewrite H1|]. exists (fun x => - f' x). split; [|now apply IH].
  apply (near_impl _ _ _ D1). intros y A. now apply (derivable_pt_lim_opp f).
Qed.

Lemma jet_mul n : forall d e f g a, jet n d f a -> jet n e g a -> jet n (dmul n d e) (fun x => f x * g x) a.
Proof.
  induction n as [|n IH]; intros d e f g a; cbn; [intros -> ->; auto|].
  intros J J'. pose proof (jet_low _ _ _ _ J) as L. pose proof (jet_low _ _ _ _ J') as L'.
  destruct J as [H1 (f' & D1 & J1)], J' as [H2 (g' & D2 & J2)]. split; [now rewrite H1, H2|].
  exists (fun x => f' x * g x + g' x * f x). split; [|apply jet_add; now apply IH].
  apply (near_impl _ _ _ (near_and _ _ _ D1 D2)). intros y [A B]. pose proof (derivable_pt_lim_mult f g y _ _ A B) as M.
  replace (f' y * g y + g' y * f y) with (f' y * g y + f y * g' y) by ring. exact M.
Qed.

Lemma jet_cont n d f a : jet (S n) d f a -> continuity_pt f a.
Proof. intros [_ (f' & D & _)]. apply near_here in D. eapply lim_cont; eauto. Qed.

Lemma jet_div n : forall d e f g a, jet n d f a -> jet n e g a -> g a <> 0 -> jet n (ddiv n d e) (fun x => f x / g x) a.
Proof.
  induction n as [|n IH]; intros d e f g a; cbn; [intros -> ->; auto|].
  intros J J' Hz. pose proof (jet_low _ _ _ _ J) as L. pose proof (jet_low _ _ _ _ J') as L'. pose proof (jet_cont _ _ _ _ J') as C.
  destruct J as [H1 (f' & D1 & J1)], J' as [H2 (g' & D2 & J2)]. split; [now rewrite H1, H2|].
  exists (fun x => (f' x * g x - g' x * f x) / (g x * g x)). split.
  - pose proof (cont_nz g a C Hz) as Nz.
    apply (near_impl _ _ _ (near_and _ _ _ Nz (near_and _ _ _ D1 D2))). intros y (Z & A & B).
    pose proof (derivable_pt_lim_div f g y _ _ A B Z) as M. unfold Rsqr in M. exact M.
  - apply IH; [apply jet_sub; now apply jet_mul|now apply jet_mul|]. now apply Rmult_integral_contrapositive_currified.
Qed.

Lemma jet_log n d f a : jet n d f a -> 0 < f a -> jet n (dlog n d) (fun x => ln (f x)) a.
Proof.
  destruct n as [|n]; cbn; [intros ->; auto|]. intros J Hp. pose proof (jet_low _ _ _ _ J) as L. pose proof (jet_cont _ _ _ _ J) as C.
  destruct J as [H1 (f' & D1 & J1)]. split; [now rewrite H1|]. exists (fun x => f' x / f x). split; [|apply jet_div; auto; lra].
  apply (near_impl _ _ _ (near_and _ _ _ (cont_pos f a C Hp) D1)). intros y (P & A).
  pose proof (derivable_pt_lim_comp f ln y _ _ A (derivable_pt_lim_ln _ P)) as M. unfold comp in M.
  replace (f' y / f y) with (/ f y * f' y) by (unfold Rdiv; ring). exact M.
Qed.

Lemma ln10 : ln 10 <> 0.
Proof. pose proof (ln_increasing 1 10 ltac:(lra) ltac:(lra)) as H. rewrite ln_1 in H. lra. Qed.

Lemma jet_log10 n d f a : jet n d f a -> 0 < f a -> jet n (dlog10 n d) (fun x => ln (f x) / ln 10) a.
Proof.
  pose proof ln10 as H10.
  destruct n as [|n]; cbn; [intros ->; auto|]. intros J Hp. pose proof (jet_low _ _ _ _ J) as L. pose proof (jet_cont _ _ _ _ J) as C.
  destruct J as [H1 (f' & D1 & J1)]. split; [now rewrite H1|]. exists (fun x => f' x / (ln 10 * f x)). split.
  - apply (near_impl _ _ _ (near_and _ _ _ (cont_pos f a C Hp) D1)). intros y (P & A).
    pose proof (derivable_pt_lim_comp f ln y _ _ A (derivable_pt_lim_ln _ P)) as M. unfold comp in M.
    pose proof (derivable_pt_lim_scal _ (/ ln 10) y _ M) as M2. unfold mult_real_fct in M2.
    replace (f' y / (ln 10 * f y)) with (/ ln 10 * (/ f y * f' y)) by (field; split; [lra|auto]).
    eapply lim_ext; [|exact M2]. apply near_all. intros z. unfold Rdiv. ring.
  - apply jet_div; auto; [apply (jet_mul n _ _ (fun _ => ln 10)); auto; apply jet_con|].
    apply Rmult_integral_contrapositive_currified; lra.
Qed.

Lemma jet_exp n : forall d f a, jet n d f a -> jet n (dexp n d) (fun x => exp (f x)) a.
Proof.
  induction n as [|n IH]; intros d f a; cbn; [intros ->; auto|]. intros J. pose proof (jet_low _ _ _ _ J) as L.
  destruct J as [H1 (f' & D1 & J1)]. split; [now rewrite H1|]. exists (fun x => f' x * exp (f x)). split; [|apply jet_mul; auto].
  apply (near_impl _ _ _ D1). intros y A. pose proof (derivable_pt_lim_comp f exp y _ _ A (derivable_pt_lim_exp _)) as M. unfold comp in M.
  rewrite Rmult_comm. exact M.
Qed.

Lemma jet_trig n : forall b d f a, jet n d f a -> jet n (dtrig n b d) (fun x => if b then sin (f x) else cos (f x)) a.
Proof.
  induction n as [|n IH]; intros b d f a; cbn; [intros ->; destruct b; auto|]. intros J. pose proof (jet_low _ _ _ _ J) as L.
  destruct J as [H1 (f' & D1 & J1)]. destruct b; cbn; (split; [now rewrite H1|]).
  - exists (fun x => f' x * cos (f x)). split; [|apply jet_mul; auto; apply (IH false); auto].
    apply (near_impl _ _ _ D1). intros y A. pose proof (derivable_pt_lim_comp f sin y _ _ A (derivable_pt_lim_sin _)) as M. unfold comp in M.
    rewrite Rmult_comm. exact M.
  - exists (fun x => f' x * - sin (f x)). split; [|apply jet_mul; auto; apply jet_neg; apply (IH true); auto].
    apply (near_impl _ _ _ D1). intros y A. pose proof (derivable_pt_lim_comp f cos y _ _ A (derivable_pt_lim_cos _)) as M. unfold comp in M.
    rewrite Rmult_comm. exact M.
Qed.

Lemma cpow_pos x k : 0 < x -> cpow x k = Rpower x k.
Proof. intros H. unfold cpow. destruct (Rlt_dec 0 x); [auto|lra]. Qed.

Lemma Int_part_IZR z : Int_part (IZR z) = z.
Proof.
  destruct (base_Int_part (IZR z)) as [H1 H2]. 
  assert (A : IZR (Int_part (IZR z)) <= IZR z) by lra. assert (B : IZR z < IZR (Int_part (IZR z) + 1)) by (rewrite plus_IZR; lra).
  apply le_IZR in A. apply lt_IZR in B. lia.
Qed.

Lemma powerRZ_Rpower x z : 0 < x -> powerRZ x z = Rpower x (IZR z).
Proof. intros H. apply powerRZ_Rpower. exact H. Qed.

Lemma cpow_int x z : cpow x (IZR z) = powerRZ x z.
Proof. unfold cpow. destruct (Rlt_dec 0 x); [now rewrite powerRZ_Rpower|now rewrite Int_part_IZR]. Qed.

Lemma jet_powc n : forall k d f a, jet n d f a -> 0 < f a -> jet n (dpowc n d k) (fun x => Rpower (f x) k) a.
Proof.
  induction n as [|n IH]; intros k d f a; cbn; [intros -> H; now apply cpow_pos|]. intros J Hp. pose proof (jet_low _ _ _ _ J) as L. pose proof (jet_cont _ _ _ _ J) as C.
  destruct J as [H1 (f' & D1 & J1)]. split; [rewrite H1; now apply cpow_pos|]. exists (fun x => f' x * k * Rpower (f x) (k - 1)). split.
  - apply (near_impl _ _ _ (near_and _ _ _ (cont_pos f a C Hp) D1)). intros y (P & A).
    pose proof (derivable_pt_lim_comp f (fun x => Rpower x k) y _ _ A (derivable_pt_lim_power _ k P)) as M. unfold comp in M.
    replace (f' y * k * Rpower (f y) (k - 1)) with (k * Rpower (f y) (k - 1) * f' y) by ring. exact M.
  - apply jet_mul; [|apply IH; auto]. apply (jet_mul n _ _ f' (fun _ => k)); auto. apply jet_con.
Qed.

Lemma lim_powerRZ z y : y <> 0 -> derivable_pt_lim (fun x => powerRZ x z) y (IZR z * powerRZ y (z - 1)).
Proof.
  intros H.
  assert (Pn : forall m, derivable_pt_lim (fun x => x ^ m) y (INR m * y ^ pred m)) by (intros; apply derivable_pt_lim_pow).
  destruct z as [|p|p].
  - cbn [powerRZ]. rewrite Rmult_0_l. apply derivable_pt_lim_const.
  - cbn [powerRZ]. specialize (Pn (Pos.to_nat p)).
    replace (IZR (Z.pos p) * powerRZ y (Z.pos p - 1)) with (INR (Pos.to_nat p) * y ^ pred (Pos.to_nat p)); auto.
    rewrite INR_IZR_INZ, positive_nat_Z. f_equal. rewrite pow_powerRZ. f_equal. lia.
  - cbn [powerRZ]. specialize (Pn (Pos.to_nat p)).
    assert (Nz : y ^ Pos.to_nat p <> 0) by (now apply pow_nonzero).
    pose proof (derivable_pt_lim_div (fct_cte 1) (fun x => x ^ Pos.to_nat p) y _ _ (derivable_pt_lim_const 1 y) Pn Nz) as M.
    eapply lim_ext with (f := div_fct (fct_cte 1) (fun x => x ^ Pos.to_nat p)).
    { apply near_all. intros x. unfold div_fct, fct_cte, Rdiv. ring. }
    replace (IZR (Z.neg p) * powerRZ y (Z.neg p - 1)) with ((0 * y ^ Pos.to_nat p - INR (Pos.to_nat p) * y ^ pred (Pos.to_nat p) * fct_cte 1 y) / (y ^ Pos.to_nat p)²); auto.
    unfold fct_cte, Rsqr. change (Z.neg p) with (- Z.pos p)%Z. rewrite opp_IZR, INR_IZR_INZ, positive_nat_Z.
    assert (E : powerRZ y (- Z.pos p - 1) = y ^ pred (Pos.to_nat p) / (y ^ Pos.to_nat p * y ^ Pos.to_nat p)).
    { rewrite !pow_powerRZ. replace (- Z.pos p - 1)%Z with (Z.of_nat (pred (Pos.to_nat p)) + (- Z.of_nat (Pos.to_nat p) + - Z.of_nat (Pos.to_nat p)))%Z by lia.
      rewrite !powerRZ_add by auto. rewrite !powerRZ_neg'. unfold Rdiv. rewrite Rinv_mult. reflexivity. }
    rewrite E. field. auto.
Qed.

Lemma jet_powz n : forall z d f a, jet n d f a -> f a <> 0 -> jet n (dpowc n d (IZR z)) (fun x => powerRZ (f x) z) a.
Proof.
  induction n as [|n IH]; intros z d f a; cbn; [intros -> H; apply cpow_int|]. intros J Hp. pose proof (jet_low _ _ _ _ J) as L. pose proof (jet_cont _ _ _ _ J) as C.
  destruct J as [H1 (f' & D1 & J1)]. split; [rewrite H1; apply cpow_int|]. exists (fun x => f' x * IZR z * powerRZ (f x) (z - 1)). split.
  - apply (near_impl _ _ _ (near_and _ _ _ (cont_nz f a C Hp) D1)). intros y (P & A).
    pose proof (derivable_pt_lim_comp f (fun x => powerRZ x z) y _ _ A (lim_powerRZ z (f y) P)) as M. unfold comp in M.
    replace (f' y * IZR z * powerRZ (f y) (z - 1)) with (IZR z * powerRZ (f y) (z - 1) * f' y) by ring. exact M.
  - replace (IZR z - 1) with (IZR (z - 1)) by (now rewrite minus_IZR).
    apply jet_mul; [|apply IH; auto]. apply (jet_mul n _ _ f' (fun _ => IZR z)); auto. apply jet_con.
Qed.

Lemma jet_pow n : forall d e f g a, jet n d f a -> jet n e g a -> 0 < f a -> jet n (dpow n d e) (fun x => Rpower (f x) (g x)) a.
Proof.
  induction n as [|n IH]; intros d e f g a; cbn; [intros -> -> H; now apply cpow_pos|].
  intros J J' Hp. pose proof (jet_low _ _ _ _ J) as L. pose proof (jet_low _ _ _ _ J') as L'. pose proof (jet_cont _ _ _ _ J) as C.
  destruct J as [H1 (f' & D1 & J1)], J' as [H2 (g' & D2 & J2)]. split; [rewrite H1, H2; now apply cpow_pos|].
  exists (fun x => Rpower (f x) (g x - 1) * (g x * f' x + f x * g' x * ln (f x))). split.
  - apply (near_impl _ _ _ (near_and _ _ _ (cont_pos f a C Hp) (near_and _ _ _ D1 D2))). intros y (P & A & B).
    pose proof (derivable_pt_lim_comp f ln y _ _ A (derivable_pt_lim_ln _ P)) as M.
    pose proof (derivable_pt_lim_mult g _ y _ _ B M) as M2.
    pose proof (derivable_pt_lim_comp _ exp y _ _ M2 (derivable_pt_lim_exp _)) as M3. unfold comp, mult_fct in M3.
    change (fun x => Rpower (f x) (g x)) with (fun x => exp (g x * ln (f x))).
    replace (Rpower (f y) (g y - 1) * (g y * f' y + f y * g' y * ln (f y))) with (exp (g y * ln (f y)) * (g' y * ln (f y) + g y * (/ f y * f' y))); auto.
    unfold Rminus. rewrite Rpower_plus, Rpower_Ropp, Rpower_1 by auto. unfold Rpower. field. lra.
  - apply jet_mul.
    + apply IH; auto. apply (jet_sub n _ _ g (fun _ => 1)); auto. apply jet_con.
    + apply jet_add; [now apply jet_mul|]. apply (jet_mul n _ _ (fun x => f x * g' x)); [now apply jet_mul|now apply jet_log].
Qed.

Lemma jet_abs n d f a : jet n d f a -> f a <> 0 -> jet n (dabs n d) (fun x => Rabs (f x)) a.
Proof.
  destruct n as [|n]; cbn; [intros ->; auto|]. intros J Hz. pose proof (jet_cont _ _ _ _ J) as C.
  destruct J as [H1 (f' & D1 & J1)]. split; [now rewrite H1|]. rewrite H1. exists (fun x => f' x * sgncmp (f a)). split.
  2: { apply (jet_mul n _ _ f' (fun _ => sgncmp (f a))); auto. apply jet_con. }
  unfold sgncmp. destruct (Rlt_dec 0 (f a)) as [Hp|Hp].
  - pose proof (near_near _ _ (cont_pos f a C Hp)) as P. apply (near_impl _ _ _ (near_and _ _ _ P D1)). intros y [Q A]. rewrite Rmult_1_r.
    eapply lim_ext; [|exact A]. apply (near_impl _ _ _ Q). intros z Z. rewrite Rabs_right; [auto|lra].
  - destruct (Rlt_dec (f a) 0) as [Hn|Hn]; [|lra].
    pose proof (near_near _ _ (cont_neg f a C Hn)) as P. apply (near_impl _ _ _ (near_and _ _ _ P D1)). intros y [Q A].
    replace (f' y * -1) with (- f' y) by ring. eapply lim_ext; [|apply (derivable_pt_lim_opp f); exact A].
    apply (near_impl _ _ _ Q). intros z Z. unfold opp_fct. rewrite Rabs_left; [auto|lra].
Qed.

Lemma compute_jet n e a : defined e a -> jet n (compute n e (var n a)) (fn e) a.
Proof.
  induction e; cbn [compute defined]; intros D.
  - exact (jet_var n a).
  - exact (jet_con n c a).
  - exact (jet_add n _ _ _ _ a (IHe1 (proj1 D)) (IHe2 (proj2 D))).
  - exact (jet_sub n _ _ _ _ a (IHe1 (proj1 D)) (IHe2 (proj2 D))).
  - exact (jet_mul n _ _ _ _ a (IHe1 (proj1 D)) (IHe2 (proj2 D))).
  - destruct D as (D1 & D2 & D3). exact (jet_div n _ _ _ _ a (IHe1 D1) (IHe2 D2) D3).
  - exact (jet_neg n _ _ a (IHe D)).
  - exact (jet_powc n k _ _ a (IHe (proj1 D)) (proj2 D)).
  - exact (jet_powz n z _ _ a (IHe (proj1 D)) (proj2 D)).
  - destruct D as (D1 & D2 & D3). exact (jet_pow n _ _ _ _ a (IHe1 D1) (IHe2 D2) D3).
  - exact (jet_abs n _ _ a (IHe (proj1 D)) (proj2 D)).
  - exact (jet_trig n true _ _ a (IHe D)).
  - exact (jet_trig n false _ _ a (IHe D)).
  - exact (jet_exp n _ _ a (IHe D)).
  - exact (jet_log n _ _ a (IHe (proj1 D)) (proj2 D)).
  - exact (jet_log10 n _ _ a (IHe (proj1 D)) (proj2 D)).
Qed.

Lemma jet_derivative n : forall d f a k, jet n d f a -> (k <= n)%nat -> exists v, nth_derivative n d k = Some v /\ derivative k f a v.
Proof.
  induction n as [|n IH]; intros d f a k J Hk.
  - assert (k = 0%nat) by lia. subst. cbn in *. subst. eexists. split; [reflexivity|constructor].
  - destruct J as [H (f' & (e & He & D) & J)]. destruct k as [|k].
    + cbn. rewrite H. eexists. split; [reflexivity|constructor].
    + destruct (IH _ _ _ k J ltac:(lia)) as (v & E & Dv). exists v. split; auto. eapply d_succ; eauto.
Qed.

(* The k-th derivative reported for any expression computed from the variable is the k-th derivative of the function. *)
Theorem C66_Dual_derivatives :
  forall n e a k, defined e a -> (k <= n)%nat ->
  exists v, nth_derivative n (compute n e (var n a)) k = Some v /\ derivative k (fn e) a v.
Proof. intros. apply jet_derivative; auto. now apply compute_jet. Qed.
Print Assumptions C66_Dual_derivatives.

(* derivatives are unique, so the reported number is the only possible one *)
Theorem C66_derivative_unique : forall k f a v w, derivative k f a v -> derivative k f a w -> v = w.
Proof.
  assert (G : forall k f g a v w, near a (fun y => f y = g y) -> derivative k f a v -> derivative k g a w -> v = w).
  { induction k as [|k IH]; intros f g a v w E H1 H2.
    - inversion H1; inversion H2; subst. now apply near_here in E.
    - inversion H1 as [|? ? f' ? ? e1 He1 D1 V1]; inversion H2 as [|? ? g' ? ? e2 He2 D2 V2]; subst. apply (IH f' g' a v w); auto.
      assert (N1 : near a (fun y => derivable_pt_lim f y (f' y))) by (exists e1; auto).
      assert (N2 : near a (fun y => derivable_pt_lim g y (g' y))) by (exists e2; auto).
      apply (near_impl _ _ _ (near_and _ _ _ (near_near _ _ E) (near_and _ _ _ N1 N2))). intros y (Q & A & B).
      apply (uniqueness_limite g y); auto. eapply lim_ext; eauto. }
  intros k f a v w. apply G. apply near_all. auto.
Qed.
Print Assumptions C66_derivative_unique.

(* the second derivative of x^3 / x at 2 is 2; of sin(x) * x it is 2 cos x - x sin x *)
Example C66_example :
  defined (EDiv (EPowZ EVar 3) EVar) 2 /\
  nth_derivative 2 (compute 2 (EMul (ESin EVar) EVar) (var 2 0)) 2 = Some 2.
Proof.
  split. { cbn. repeat split; lra. }
  cbn. f_equal. rewrite cos_0, sin_0. ring.
Qed.
