(** * Vocabulary for the static term as a limit *)
From Coq Require Import Reals ZArith List.
From Verif Require Import Base Thermo_Model Bessel_Model Scat_Model Trans_Model Trans_Spec RT_Model Run_Model Run_Spec.
Import ListNotations.
Open Scope R_scope.

(** the relative change of the partial sums at m = j, as mSumme measures it (new over old) and as mSumme_k0 does (old over new) *)
Definition change (f : nat -> R) (j : nat) : R := Rabs (Rabs (rsum f j / rsum f (j - 1)) - 1).
Definition change_k0 (f : nat -> R) (j : nat) : R := Rabs (Rabs (rsum f (j - 1) / rsum f j) - 1).
(** the m at which a loop with terms f stops, no comparison with a positive bound being a tie and no partial sum vanishing *)
Definition settled (precision : R) (lmax : nat) (f : nat -> R) (M : nat) : Prop :=
  (M <= lmax)%nat /\ (forall j, (j <= M)%nat -> rsum f j <> 0) /\ (forall j, (0 < j < M)%nat -> precision <= 0 \/ precision / 10 < change f j) /\
  ((M < lmax)%nat -> (0 < M)%nat /\ change f M < precision / 10).

(** what F_alle of a thermodynamics object returns for the wavenumbers [ks], whatever state its geometry is in *)
Definition f_alle_gives (mieb : list R -> nat -> Z -> res (list (list R) * list (list R))) (c : config) (precision conv : R) (ks v : list R) : Prop :=
  exists N, forall fuel, (N <= fuel)%nat -> forall unk garbage t, t_force t = false -> t_analytic t = true -> sound mieb c (t_geom t) ->
  exists t', sound mieb c (t_geom t') /\ F_alle (ops unk fuel mieb trans_bessels c precision conv false garbage) ks t = (t', Ok v).
