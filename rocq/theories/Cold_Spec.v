(** * Vocabulary for C94: materials whose response is continuous in the frequency *)
From Coq Require Import Reals.
From Verif Require Import Base Mat_Model Scat_Model Scat_Spec.
Open Scope R_scope.

(** permittivity and permeability, if the material has them, are continuous functions of the imaginary frequency *)
Definition steady (m : material) : Prop := forall e u, has m e u -> forall k, 0 < k -> continuity_pt e k /\ continuity_pt u k.
