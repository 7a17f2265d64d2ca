(** * Specification vocabulary for num_derivative(interpolate=True) *)
From Coq Require Import Reals List.
From Verif Require Import Help_Spec.
Import ListNotations.
Open Scope R_scope.

(** equidistant positive nodes x0, x0+h, ... *)
Definition nodes (x0 h : R) (n : nat) : list R := on_grid (fun x => x) x0 h n.

(** exponent of the power law through (x, a) and (y, b) *)
Definition exponent (x a y b : R) : R := (ln b - ln a) / (ln y - ln x).

(** all values of one sign, none zero *)
Definition one_sign (f : list R) : Prop := (forall v, In v f -> 0 < v) \/ (forall v, In v f -> v < 0).
(** two values of different sign (zero counts as a sign of its own) *)
Definition mixed (f : list R) : Prop :=
  exists v w, In v f /\ In w f /\ (v <= 0 < w \/ v < 0 <= w).

(** smallest value *)
Definition is_min (m : R) (f : list R) : Prop := In m f /\ forall v, In v f -> m <= v.

(** slope at node i of the power laws left and right of it, for data g at equidistant nodes *)
Definition slope_right (g : list R) (x0 h : R) (i : nat) : R :=
  let x j := x0 + INR j * h in
  nth i g 0 / x i * exponent (x i) (Rabs (nth i g 0)) (x (S i)) (Rabs (nth (S i) g 0)).
Definition slope_left (g : list R) (x0 h : R) (i : nat) : R :=
  let x j := x0 + INR j * h in
  nth i g 0 / x i * exponent (x (i - 1)%nat) (Rabs (nth (i - 1) g 0)) (x i) (Rabs (nth i g 0)).

(** the power law through (x, a) and (y, b), for positive x, y, a, b *)
Definition power_law (x a y b t : R) : R := a * Rpower (t / x) (exponent x a y b).

(** values on the grid with M steps per segment that follow the power laws through neighbouring data *)
Definition refined (g : list R) (x0 h : R) (M : nat) (v : list R) : Prop :=
  let x j := x0 + INR j * h in
  length v = ((length g - 1) * M + 1)%nat /\
  forall i j, (S i < length g)%nat -> (j <= M)%nat ->
    nth (i * M + j) v 0 = power_law (x i) (nth i g 0) (x (S i)) (nth (S i) g 0) (x i + INR j * (h / INR M)).
