(** * Reference notion for bodies that scatter at a frequency, on either side of the medium *)
From Coq Require Import Reals ZArith List.
From Verif Require Import Base Mat_Model Mat_Spec Bessel_Model Scat_Model Scat_Spec RT_Model RT_Spec2 Conv_Spec2 Layer_Spec Bodies_Spec2 Rep_Spec.
Import ListNotations.
Open Scope R_scope.

(** side 1: as [bright]; side -1: a core or shell of positive thickness with a permittivity smaller than that of the medium *)
Definition visible (c : config) (s : R) (sp : sphere) (e u : R -> R) (k : R) : Prop :=
  match sp with
  | Solid m r => sharp s m e u k
  | Layered mats rs => (s = 1 /\ bright c sp e u k) \/
      (s = -1 /\ exists i e1 u1, (i < length rs)%nat /\ nth i (0 :: rs) 0 < nth i rs 0 /\ has (c_mat c (nth i mats 0%nat)) e1 u1 /\ e1 k < e k)
  end.
