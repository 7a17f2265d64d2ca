(** * Vocabulary for the translation coefficients *)
From Coq Require Import Reals.
From Coquelicot Require Import Coquelicot.
From Coq Require Import ZArith List.
From Verif Require Import Base Bessel_Model Bessel_Spec Scat_Model Scat_Spec Gaunt_Spec Trans_Model.
Import ListNotations.
Open Scope R_scope.

(** trans_bessels with exact Bessel functions: logarithms of i_l (k_l in the exterior geometry) *)
Definition exact_trans : bessel_fun := fun x lmax ext =>
  match lmax with
  | NotInt => Err TypeError
  | AnInt z => Ok (map (fun l => map (fun t => ln (if ext then sph_k l t else sph_i l t)) x) (seq 0 (Z.to_nat z + 1)))
  end.

(** the translation coefficient itself (scale factor included) at one wavenumber *)
Definition coefficient (pick : vrow -> list R) (bessels : bessel_fun) (lmax lssmax : nat) (m : Z) (medium : material) (L : R) (ext : bool) (l1 l2 : nat) (k : R) : R :=
  match translation_init bessels lmax lssmax m medium L [k] ext false with
  | Val t => match get_vl1l2 t l1 l2 with
             | Val v => nth 0 (pick v) 0 * exp (nth 0 (v_skal v) 0)
             | _ => 0
             end
  | _ => 0
  end.
(** sign * exp(ln) of an entry of the static coefficients *)
Definition static_value (p : R * R) : R := fst p * exp (snd p).
