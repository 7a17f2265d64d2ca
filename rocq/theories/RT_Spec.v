(** * Vocabulary for the composed round-trip matrices *)
From Coq Require Import Reals.
From Coquelicot Require Import Coquelicot.
From Coq Require Import ZArith List.
From Verif Require Import Base Mat_Model Mat_Spec Bessel_Model Scat_Model Scat_Spec Trans_Model Trans_Spec Lin_Model RT_Model.
Import ListNotations.
Open Scope R_scope.

(** materials for which mie_k0 is exact (C41) *)
Definition static_sphere (m : material) : Prop := m = PEC \/ (exists e b, insulator m e b) \/ (exists e b, drude m e b).

(** the scattering and translation coefficients of a configuration at one wavenumber, scale factors included;
    [mieb]: the Bessel functions used for the Mie coefficients *)
Definition rt_with (mieb : list R -> nat -> Z -> res (list (list R) * list (list R))) (c : config) (m : Z) (k : R) : roundtrip :=
  let A pick i := entry pick (mieA mieb c) (lmin m - 1 + i) k in
  let B pick s := entry pick (mieB mieb c) (lmin m - 1 + s) k in
  let V pick i s := coefficient pick trans_bessels (c_lmax c) (c_lssmax c) m (c_med c) (c_L c) (c_ext c) (lmin m + i) (lmin m + s) k in
  {| aTE := A TE; aTM := A TM; a2 := fun _ => 0; bTE := B TE; bTM := B TM; b2 := fun _ => 0;
     V0 := V v_EEab; V1 := V v_EEba; V2 := V v_EMab; V3 := V v_EMba; V4 := fun _ _ => 0 |}.
Definition rt_at : config -> Z -> R -> roundtrip := rt_with mie_bessels.

(** two solid spheres in an insulating medium *)
Definition two_spheres (c : config) (m1 m2 : material) (ra rb : R) (e : list osc) (b : bprops) : Prop :=
  c_1 c = Solid m1 ra /\ c_2 c = Solid m2 rb /\ insulator (c_med c) e b /\ 0 < ra /\ 0 < rb /\ 0 < c_L c.
(** a perfect reflector or a material with positive permittivity and permeability *)
Definition solid_ok (m : material) : Prop := m = PEC \/ exists e u, has m e u.
