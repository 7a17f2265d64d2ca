(** * Specification vocabulary for materials.py *)
From Coq Require Import Reals List.
From Verif Require Import Base Mat_Model.
Import ListNotations.
Open Scope R_scope.

(** physically sensible oscillator: non-negative parameters *)
Definition physical (o : osc) : Prop := 0 <= o_wP o /\ 0 <= o_wR o /\ 0 <= o_g o.

(** textbook permittivity at imaginary wavenumber k (in 1/micron):
    1 + sum_j wP_j^2 / (wR_j^2 + k^2 + gamma_j k), frequencies in units of c/micron *)
Definition eps_spec (e : list osc) (k : R) : R :=
  1 + fold_right Rplus 0
        (map (fun o => (o_wP o / omega_norm) ^ 2 /
                       ((o_wR o / omega_norm) ^ 2 + k ^ 2 + o_g o / omega_norm * k)) e).

(** permeability 1 + (mu0 - 1)/(1 + k/wM) *)
Definition mu_spec (mu0 w k : R) : R := 1 + (mu0 - 1) / (1 + k / (w / omega_norm)).

(** 1 + wP^2 (k + 0.51 g) / (k (k + g)^2), same units *)
Definition smith_spec (o : osc) (k : R) : R :=
  1 + (o_wP o / omega_norm) ^ 2 / (k * (k + o_g o / omega_norm)) *
      ((k + 0.51 * (o_g o / omega_norm)) / (k + o_g o / omega_norm)).
