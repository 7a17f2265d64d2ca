(** * Reference notion for complete calculations with stratified spheres *)
From Coq Require Import Reals ZArith List.
From Verif Require Import Base Mat_Model Mat_Spec Bessel_Model Scat_Model Scat_Spec RT_Model RT_Spec Layer_Spec.
Open Scope R_scope.

(** a solid sphere, or a core with shells; positive permittivities and permeabilities, or perfect reflectors *)
Definition object (c : config) (sp : sphere) : Prop :=
  match sp with Solid m r => 0 < r /\ solid_ok m | Layered mats rs => stacked (c_mat c) (c_med c) mats rs end.
(** two such bodies outside of each other, and the orders *)
Definition objects (c : config) (e u : R -> R) : Prop :=
  object c (c_1 c) /\ object c (c_2 c) /\ c_ext c = true /\ has (c_med c) e u /\ 0 < c_L c /\ (1 <= c_lmax c)%nat /\ (c_lmax c <= c_lssmax c)%nat.
