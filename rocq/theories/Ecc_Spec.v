(** * Vocabulary for round trips with an arbitrary table of translation functions *)
From Coq Require Import Reals ZArith List.
From Verif Require Import Base Bessel_Model Scat_Model Scat_Spec Trans_Model Trans_Spec Lin_Model RT_Model RT_Spec.
Open Scope R_scope.

(** RT_Spec.rt_with with [transb] in the place of the code's trans_bessels *)
Definition rt_gen (mieb : list R -> nat -> Z -> res (list (list R) * list (list R))) (transb : bessel_fun) (c : config) (m : Z) (k : R) : roundtrip :=
  let A pick i := entry pick (mieA mieb c) (lmin m - 1 + i) k in
  let B pick s := entry pick (mieB mieb c) (lmin m - 1 + s) k in
  let V pick i s := coefficient pick transb (c_lmax c) (c_lssmax c) m (c_med c) (c_L c) (c_ext c) (lmin m + i) (lmin m + s) k in
  {| aTE := A TE; aTM := A TM; a2 := fun _ => 0; bTE := B TE; bTM := B TM; b2 := fun _ => 0;
     V0 := V v_EEab; V1 := V v_EEba; V2 := V v_EMab; V3 := V v_EMba; V4 := fun _ _ => 0 |}.
