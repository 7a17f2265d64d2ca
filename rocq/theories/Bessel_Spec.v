(** * Modified spherical Bessel functions and continued fractions, independent of the code *)
From Coq Require Import Reals Factorial List.
From Coquelicot Require Import Coquelicot.
Import ListNotations.
Open Scope R_scope.

(** k_l(x) = (pi/2) e^-x / x * sum_{j<=l} (l+j)! / (j! (l-j)!) (2x)^-j *)
Definition sph_k (l : nat) (x : R) : R :=
  PI / 2 * exp (- x) / x *
  sum_f_R0 (fun j => INR (fact (l + j)) / (INR (fact j) * INR (fact (l - j))) / (2 * x) ^ j) l.

(** 1 * 3 * 5 * ... * (2n+1) *)
Fixpoint odd_fact (n : nat) : R :=
  match n with O => 1 | S k => (2 * INR n + 1) * odd_fact k end.

(** i_l(x) = x^l sum_k x^(2k) / (2^k k! (2(l+k)+1)!!) *)
Definition icoef (l k : nat) : R := / (2 ^ k * INR (fact k) * odd_fact (l + k)).
Definition sph_i (l : nat) (x : R) : R := x ^ l * PSeries (icoef l) (x ^ 2).

(** y solves the modified spherical Bessel equation of order l on x > 0 *)
Definition bessel_ode (l : nat) (y : R -> R) : Prop :=
  exists y1 y2 : R -> R, forall x, 0 < x ->
    is_derive y x (y1 x) /\ is_derive y1 x (y2 x) /\
    x ^ 2 * y2 x + 2 * x * y1 x - (x ^ 2 + INR l * (INR l + 1)) * y x = 0.

(** the continued fraction A(m) + 1/(A(m+1) + 1/(A(m+2) + ...)) with A(m) = (2m+1)/x, [n] terms *)
Fixpoint cfrac (x : R) (m n : nat) : R :=
  match n with
  | O => 0
  | 1%nat => (2 * INR m + 1) / x
  | S k => (2 * INR m + 1) / x + 1 / cfrac x (S m) k
  end.

(** ln i_l from the Wronskian i_l k_{l+1} + i_{l+1} k_l = pi/(2x^2) with i_l/i_{l+1} replaced by [f] *)
Definition ln_i_from_ratio (l : nat) (f x : R) : R :=
  ln (PI / (2 * x ^ 2) / (sph_k (S l) x + sph_k l x / f)).
