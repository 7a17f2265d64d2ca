(** * C87 — the bound of the sum over m for spheres that repel each other *)
From Coq Require Import Reals.
From Verif Require Import Base Scat_Spec Lin_Model RT_Model Conv_Spec.
Open Scope R_scope.

(** the bound of the trace without the power that depends on m *)
Definition height (th : R) (e u : R -> R) (k ra rb L : R) : R :=
  let x1 := size e u k ra in let x2 := size e u k rb in let x := way e k L in let q := rate th e u k ra rb L in
  4 * kfac th x1 x2 x * (x1 / x) * (x2 / x) / (1 - q) ^ 2.
(** the sum over all m of the bounds, m = 0 once and m > 0 twice *)
Definition total (th : R) (e u : R -> R) (k ra rb L : R) : R :=
  let q := rate th e u k ra rb L in 3 * height th e u k ra rb L * (q ^ 2 / (1 - q ^ 2)).
(** for centres more than two sums of radii apart: the factor and the decay of [total] (th = 1/2) in terms of the ratios of radii and distance *)
Definition decay (ra rb L : R) : R := (1 - 2 * ((ra + rb) / L)) / 2.
Definition factor (ra rb L : R) : R :=
  let q := (2 * ((ra + rb) / L)) ^ 2 in 192 * (4 / decay ra rb L) ^ 4 * (ra / L) * (rb / L) / (1 - q) ^ 2 * (q ^ 2 / (1 - q ^ 2)).
