(** * Reference notion for bodies that scatter at a frequency *)
From Coq Require Import Reals ZArith List.
From Verif Require Import Base Mat_Model Mat_Spec Bessel_Model Scat_Model Scat_Spec RT_Model RT_Spec2 Conv_Spec2 Layer_Spec.
Import ListNotations.
Open Scope R_scope.

(** a reflecting core, or a core or shell of positive thickness with a permittivity larger than that of the medium *)
Definition bright (c : config) (sp : sphere) (e u : R -> R) (k : R) : Prop :=
  match sp with
  | Solid m r => sharp 1 m e u k
  | Layered mats rs => c_mat c (hd 0%nat mats) = PEC \/
      exists i e1 u1, (i < length rs)%nat /\ nth i (0 :: rs) 0 < nth i rs 0 /\ has (c_mat c (nth i mats 0%nat)) e1 u1 /\ e k < e1 k
  end.
