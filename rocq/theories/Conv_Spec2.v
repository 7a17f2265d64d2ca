(** * Vocabulary for the convergence of complete calculations *)
From Coq Require Import Reals ZArith List.
From Verif Require Import Base Scat_Model Scat_Spec RT_Spec2 Run_Spec.
Import ListNotations.
Open Scope R_scope.

(** a solid body whose refractive index is larger (s = 1) or smaller (s = -1) than that of the medium; perfect reflectors count as denser *)
Definition sharp (s : R) (m : material) (e u : R -> R) (k : R) : Prop :=
  (s = 1 /\ m = PEC) \/ exists e1 u1, has m e1 u1 /\ ((s = 1 /\ u1 k <= u k /\ e k * u k < e1 k * u1 k) \/ (s = -1 /\ u k <= u1 k /\ e1 k * u1 k < e k * u k)).
(** T (g(k0)/2 + sum_{j=1}^{nmax/i} g(j T)) for T = i dT *)
Definition matsubara (g : R -> R) (k0 dT : R) (nmax i : nat) : R := INR i * dT * (g k0 / 2 + Rsum (map (fun j => g (INR j * (INR i * dT))) (seq 1 (nmax / i)))).
