(* Property C159, continued: the area and the arc lengths of a sector, as integrals in polar coordinates. *)
From Coq Require Import Reals Lra.
From Coquelicot Require Import Coquelicot.
From Verif Require Import Sector.
Local Open Scope R_scope.

(* The integral over the angles of the sector of the integral of r over its radii, and the integral over its
   angles of the radius. *)
Theorem C159_measure : forall s : sector,
  ex_RInt (fun r : R => r) (s_inner s) (s_outer s) /\
  is_RInt (fun t : R => RInt (fun r : R => r) (s_inner s) (s_outer s)) (s_min s) (s_min s + s_range s) (sectorArea s) /\
  is_RInt (fun t : R => s_outer s) (s_min s) (s_min s + s_range s) (ArcLengthOuter s) /\
  is_RInt (fun t : R => s_inner s) (s_min s) (s_min s + s_range s) (ArcLengthInner s).
Proof.
  intros s.
  assert (A : is_RInt (fun r : R => r) (s_inner s) (s_outer s) ((s_outer s * s_outer s - s_inner s * s_inner s) / 2)).
  { replace ((s_outer s * s_outer s - s_inner s * s_inner s) / 2) with (minus (s_outer s * s_outer s / 2) (s_inner s * s_inner s / 2)) by (unfold minus, plus, opp; cbn; field).
    apply (is_RInt_derive (fun r => r * r / 2) (fun r => r)).
    - intros x _. auto_derive; [exact I|field].
    - intros x _. apply continuous_id. }
  assert (C : forall c v, v = s_range s * c -> is_RInt (fun _ : R => c) (s_min s) (s_min s + s_range s) v).
  { intros c v ->. replace (s_range s * c) with (scal (s_min s + s_range s - s_min s) c) by (unfold scal; cbn; unfold mult; cbn; ring). apply (@is_RInt_const R_NormedModule). }
  split; [eexists; exact A|]. split; [|split].
  - apply C. rewrite (is_RInt_unique _ _ _ _ A). unfold sectorArea. field.
  - apply C. reflexivity.
  - apply C. reflexivity.
Qed.
Print Assumptions C159_measure.

(* a quarter of an annulus *)
Example C159_measure_example : sectorArea (mkSector 0 0 1 3 0 (PI / 2)) = 2 * PI.
Proof. unfold sectorArea. cbn [s_outer s_inner s_range]. field. Qed.
