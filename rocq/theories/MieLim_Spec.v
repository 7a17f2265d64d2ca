(** * Reference notions for limits of Mie coefficients *)
From Coq Require Import Reals List.
From Verif Require Import Base Help_Spec Scat_Model Scat_Spec.
Open Scope R_scope.

(** an entry of a result (order index j, wavenumber index q) *)
Definition value (pick : coefs -> nat -> nat -> R) (x : out coefs) (j q : nat) : R := match x with Val c => pick c j q | _ => 0 end.
(** (2l+1) ((2l-1)!!)^2 (2l+1) (2l+3) *)
Definition weight (l : nat) : R := (2 * INR l + 1) * odd_dfact l ^ 2 * (2 * INR l + 1) * (2 * INR l + 3).
