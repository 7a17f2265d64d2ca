(** * C88 — Matsubara sums with a separate zero-frequency term *)
From Coq Require Import Reals ZArith List.
From Verif Require Import Base Scat_Spec Run_Spec Conv_Spec.
Import ListNotations.
Open Scope R_scope.

(** T (g0/2 + sum_{j=1}^{nmax/i} g(j T)) for T = i dT *)
Definition matsubara_static (g0 : R) (g : R -> R) (dT : R) (nmax i : nat) : R := INR i * dT * (g0 / 2 + Rsum (map (fun j => g (INR j * (INR i * dT))) (seq 1 (nmax / i)))).
(** the bound of the zero-frequency term for all spheres that do not overlap *)
Definition total0 (ra rb L : R) : R := let q := ((ra + rb) / L) ^ 2 in 192 * (ra / L) * (rb / L) / (1 - q) ^ 2 * (q ^ 2 / (1 - q ^ 2)).
