(** * Vocabulary for C89: exact quadratures, perfectly reflecting plates *)
From Coq Require Import Reals.
From Coquelicot Require Import Coquelicot.
From Verif Require Import Base Scat_Model PFA_Model.
Open Scope R_scope.

(** a quadrature that returns the integral from [a] to infinity whenever it exists *)
Definition exact_quad (quad : quadrature) : Prop := forall (f : R -> out R) (g : R -> R) a v,
  (forall x, a <= x -> f x = Val (g x)) -> is_RInt_gen g (at_point a) (Rbar_locally p_infty) v -> quad f a PInf = Val v.

(** the sum of 1/n^3 *)
Definition zeta3 : R := Series (fun n => / INR (S n) ^ 3).
(** minus PI times the contribution of one frequency to the energy of two perfect reflectors at distance [L]; [kappa] is the
    frequency times the refractive index of the medium *)
Definition mirror_term (L kappa : R) : R :=
  Series (fun i => let n := INR (S i) in (kappa / (2 * n ^ 2 * L) + / (4 * n ^ 3 * L ^ 2)) * exp (- (2 * n * L * kappa))).
(** the integral of that function over all frequencies from [k] *)
Definition mirror_tail (L k : R) : R :=
  Series (fun i => let n := INR (S i) in (k / (4 * n ^ 3 * L ^ 2) + / (4 * n ^ 4 * L ^ 3)) * exp (- (2 * n * L * k))).
