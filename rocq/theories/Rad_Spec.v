(** * Vocabulary for the comparison of spheres *)
From Coq Require Import Reals ZArith List.
From Verif Require Import Base Mat_Model Mat_Spec Scat_Model Scat_Spec RT_Model RT_Spec RT_Spec2.
Open Scope R_scope.

(** at wavenumber k the material [m'] deviates from the medium at least as much as [m], on the side s of the medium; perfect reflectors deviate most *)
Definition stronger (s : R) (m' m : material) (k : R) : Prop :=
  m' = PEC \/ exists e u e' u', has m e u /\ has m' e' u' /\ ((s = 1 /\ denser e' u' e u k) \/ (s = -1 /\ denser e u e' u' k)).
(** other spheres at the same places *)
Definition with_spheres (c : config) (s1 s2 : sphere) : config :=
  {| c_1 := s1; c_2 := s2; c_med := c_med c; c_L := c_L c; c_lmax := c_lmax c; c_lssmax := c_lssmax c; c_ext := c_ext c; c_mat := c_mat c |}.
