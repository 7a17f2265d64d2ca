(** * Vocabulary for the symmetries of the round trip *)
From Coq Require Import Reals ZArith List.
From Verif Require Import Base Mat_Model Mat_Spec Scat_Model Scat_Spec RT_Model RT_Spec.
Open Scope R_scope.

(** the same two spheres, with the names (and the numbers of multipoles) exchanged *)
Definition exchange (c : config) : config :=
  {| c_1 := c_2 c; c_2 := c_1 c; c_med := c_med c; c_L := c_L c; c_lmax := c_lssmax c; c_lssmax := c_lmax c; c_ext := c_ext c; c_mat := c_mat c |}.
(** all lengths multiplied by [f] *)
Definition scale_sphere (f : R) (s : sphere) : sphere :=
  match s with Solid m r => Solid m (f * r) | Layered ms rs => Layered ms (map (Rmult f) rs) end.
Definition scale (f : R) (c : config) : config :=
  {| c_1 := scale_sphere f (c_1 c); c_2 := scale_sphere f (c_2 c); c_med := c_med c; c_L := f * c_L c; c_lmax := c_lmax c; c_lssmax := c_lssmax c; c_ext := c_ext c; c_mat := c_mat c |}.
(** at wavenumber k material 1 is optically denser than material 2, and not more magnetic *)
Definition denser (e1 u1 e2 u2 : R -> R) (k : R) : Prop := u1 k <= u2 k /\ e2 k * u2 k <= e1 k * u1 k.
(** a solid body that is denser (s = 1) or less dense (s = -1) than the medium; perfect reflectors are denser *)
Definition contrast (s : R) (m : material) (e u : R -> R) (k : R) : Prop :=
  (s = 1 /\ m = PEC) \/ exists e1 u1, has m e1 u1 /\ ((s = 1 /\ denser e1 u1 e u k) \/ (s = -1 /\ denser e u e1 u1 k)).
(** permittivity and permeability do not depend on the frequency; perfect reflectors count *)
Definition dispersionless (m : material) : Prop :=
  m = PEC \/ (is_pec m = false /\ exists e u, forall ks, (forall k, In k ks -> 0 < k) -> eps_of m ks = Val (map (fun _ => e) ks) /\ mu_of m ks = Val (map (fun _ => u) ks)).
(** every material of a sphere satisfies [P] *)
Definition made_of (c : config) (s : sphere) (P : material -> Prop) : Prop :=
  match s with Solid m _ => P m | Layered mats _ => forall i, In i mats -> P (c_mat c i) end.
(** the same spheres with their centres at distance [L]; the geometry is kept *)
Definition at_distance (c : config) (L : R) : config :=
  {| c_1 := c_1 c; c_2 := c_2 c; c_med := c_med c; c_L := L; c_lmax := c_lmax c; c_lssmax := c_lssmax c; c_ext := c_ext c; c_mat := c_mat c |}.
