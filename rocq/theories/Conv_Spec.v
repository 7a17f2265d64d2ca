(** * C80 — the rate at which truncated results converge *)
From Coq Require Import Reals.
From Verif Require Import Base Scat_Spec Lin_Model RT_Model.
Open Scope R_scope.

(** the arguments of the radial functions: two spheres and the translation over the distance L *)
Definition size (e u : R -> R) (k r : R) : R := refr e u k * k * r.
Definition way (e : R -> R) (k L : R) : R := k * L * sqrt (e k).
Definition kfac (th x1 x2 x : R) : R := 4 * (1 + x) ^ 2 * (2 + x1) * (2 + x2) * exp (2 * (x1 + x2) - 2 * ((1 - th) * x)).
(** the ratio of the geometric series; for th = 1 and permeability 1 it is the square of (ra + rb)/L *)
Definition rate (th : R) (e u : R -> R) (k ra rb L : R) : R := ((size e u k ra + size e u k rb) / (th * way e k L)) ^ 2.
(** the bound of the trace of the round trip for all largest orders *)
Definition reach (th : R) (e u : R -> R) (m : Z) (k ra rb L : R) : R :=
  let x1 := size e u k ra in let x2 := size e u k rb in let x := way e k L in let q := rate th e u k ra rb L in
  4 * kfac th x1 x2 x * (x1 / x) * (x2 / x) * q ^ (2 * lmin m) / (1 - q) ^ 2.
(** what the orders beyond the largest ones contribute, relative to [reach] *)
Definition rest (th : R) (e u : R -> R) (m : Z) (k ra rb L : R) (N M : nat) : R :=
  let q := rate th e u k ra rb L in q ^ (N + 1 - lmin m) + q ^ (M + 1 - lmin m).
