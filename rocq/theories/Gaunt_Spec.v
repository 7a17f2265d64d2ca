(** * Vocabulary for Gaunt coefficients *)
From Coq Require Import Reals List ZArith.
From Coquelicot Require Import Coquelicot.
From Coq Require Import List.
Open Scope R_scope.

(** Legendre polynomials by Bonnet's recursion (n+2) P_(n+2) = (2n+3) x P_(n+1) - (n+1) P_n *)
Fixpoint legendre2 (n : nat) (x : R) : R * R :=
  match n with
  | O => (1, x)
  | S k => let '(a, b) := legendre2 k x in (b, ((2 * INR k + 3) * x * b - (INR k + 1) * a) / (INR k + 2))
  end.
Definition legendre (n : nat) (x : R) : R := fst (legendre2 n x).

(** normalised associated Legendre functions of order m >= 0 and -m,
    Y_lm(theta, 0) without the common azimuthal factor: N_lm P_l^m and N_l,-m P_l^-m with
    P_l^m = (-1)^m (1-x^2)^(m/2) d^m P_l / dx^m and P_l^-m = (-1)^m (l-m)!/(l+m)! P_l^m *)
Definition Pml (l m : nat) (x : R) : R := (-1) ^ m * sqrt (1 - x ^ 2) ^ m * Derive_n (legendre l) m x.
Definition Pml_neg (l m : nat) (x : R) : R := (-1) ^ m * (INR (fact (l - m)) / INR (fact (l + m))) * Pml l m x.
Definition Ylm (l : nat) (m : Z) (x : R) : R :=
  match m with
  | Zneg q => sqrt ((2 * INR l + 1) / (4 * PI) * (INR (fact (l + Pos.to_nat q)) / INR (fact (l - Pos.to_nat q)))) * Pml_neg l (Pos.to_nat q) x
  | _ => sqrt ((2 * INR l + 1) / (4 * PI) * (INR (fact (l - Z.to_nat m)) / INR (fact (l + Z.to_nat m)))) * Pml l (Z.to_nat m) x
  end.
