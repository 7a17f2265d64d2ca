(** * Vocabulary for C91: the pressure between perfect reflectors *)
From Coq Require Import Reals.
From Coquelicot Require Import Coquelicot.
Open Scope R_scope.

(** minus PI times what the pressure integrand of PFA.py gives for one frequency; [kappa] is the frequency times the
    refractive index *)
Definition press_term (L kappa : R) : R :=
  Series (fun i => let a := 2 * INR (S i) * L in (kappa ^ 2 / a + 2 * kappa / a ^ 2 + 2 / a ^ 3) * exp (- (a * kappa))).
(** the integral of that function over all frequencies from [k] *)
Definition press_tail (L k : R) : R :=
  Series (fun i => let a := 2 * INR (S i) * L in (k ^ 2 / a ^ 2 + 4 * k / a ^ 3 + 6 / a ^ 4) * exp (- (a * k))).
