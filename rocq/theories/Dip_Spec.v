(** * Vocabulary for the dipole truncation (lmax = lssmax = 1) *)
From Coq Require Import Reals.
From Coquelicot Require Import Coquelicot.
From Coq Require Import ZArith List.
From Verif Require Import Base Mat_Model Mat_Spec Scat_Proofs Scat_Model Scat_Spec.
Import ListNotations.
Open Scope R_scope.

(** electric and magnetic dipole polarizability (in units of the radius cubed) of a sphere in an insulating medium at
    zero frequency, by Clausius and Mossotti *)
Inductive polarizability (e : list osc) (b : bprops) : material -> R -> R -> Prop :=
| pol_pec : polarizability e b PEC 1 (- / 2)
| pol_insulator m1 e1 b1 : insulator m1 e1 b1 ->
    polarizability e b m1 ((eps_spec e1 0 - eps_spec e 0) / (eps_spec e1 0 + 2 * eps_spec e 0)) ((mu_val b1 0 - mu_val b 0) / (mu_val b1 0 + 2 * mu_val b 0))
| pol_drude m1 e1 b1 : drude m1 e1 b1 -> polarizability e b m1 1 ((mu_val b1 0 - mu_val b 0) / (mu_val b1 0 + 2 * mu_val b 0)).

(** the interaction of two dipoles at distance x (in units of the wavelength / 2 pi) with s = pE pE' + pM pM' and
    t = pE pM' + pM pE': contributions of m = 0 and of m = 1 *)
Definition dip0 (s : R) (x : R) : R := 4 * s * (1 + x) ^ 2 * exp (- (2 * x)).
Definition dip1 (s t : R) (x : R) : R := (s * (1 + x + x ^ 2) ^ 2 - t * (x * (1 + x)) ^ 2) * exp (- (2 * x)).
Definition dip (s t : R) (x : R) : R := dip0 s x + 2 * dip1 s t x.
(** nu (D(0)/2 + D(nu) + ... + D(n nu)) *)
Definition dip_sum (D : R -> R) (nu : R) (n : nat) : R := nu * (D 0 / 2 + sum_f_R0 (fun j => if Nat.eqb j 0 then 0 else D (INR j * nu)) n).
(** the analytic result of tests/test_functional.py:42-51 without its prefactor *)
Definition far_analytic (nu : R) : R :=
  let g := nu / sinh nu in let c := cosh nu in
  let ftmtm0 := 2 * g * c + 2 * g ^ 2 + g ^ 3 * c in
  let ftmtm1 := g * c + g ^ 2 + 1.5 * g ^ 3 * c + 0.5 * g ^ 4 * (2 * c ^ 2 + 1) + 0.5 * g ^ 5 * c * (c ^ 2 + 2) in
  let ftmte1 := 0.25 * (g ^ 3 * c + g ^ 4 * (2 * c ^ 2 + 1) + g ^ 5 * c * (c ^ 2 + 2)) in
  1.25 * ftmtm0 + 1.25 * ftmtm1 + 2 * ftmte1.
(** its generalisation to all polarizabilities *)
Definition far_closed (s t nu : R) : R :=
  let g := nu / sinh nu in let c := cosh nu in
  3 * s * (g * c + g ^ 2) + (5 * s - t) / 2 * (g ^ 3 * c) + (s - t) / 2 * (g ^ 4 * (2 * c ^ 2 + 1) + g ^ 5 * c * (c ^ 2 + 2)).
(** the entropy of tests/test_functional.py:67-73 without its prefactor *)
Definition far_entropy (nu : R) : R :=
  let g := nu / sinh nu in let c := cosh nu in
  let stmtm0 := (2 * g * c + 2 * g ^ 2 - g ^ 3 * c - g ^ 4 * (2 * c ^ 2 + 1)) / nu in
  let stmtm1 := (g * c + g ^ 2 + 2.5 * g ^ 3 * c + 0.5 * g ^ 4 * (2 * c ^ 2 + 1) + 0.5 * g ^ 5 * c * (c ^ 2 + 2)
                 - 0.5 * g ^ 6 * (2 * c ^ 4 + 11 * c ^ 2 + 2)) / nu in
  let stmte1 := 0.25 * (3 * g ^ 3 * c + 3 * g ^ 4 * (2 * c ^ 2 + 1) + g ^ 5 * c * (c ^ 2 + 2) - g ^ 6 * (2 * c ^ 4 + 11 * c ^ 2 + 2)) / nu in
  1.25 * stmtm0 + 1.25 * stmtm1 + 2 * stmte1.
