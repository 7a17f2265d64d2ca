(** * Specification vocabulary for the Misc area *)
From Coq Require Import Reals List.
Import ListNotations.
Open Scope R_scope.

(** physical meaning of the unit conversion: strength f and energy E (in eV) to plasma frequency
    sqrt(f) * omega and frequency omega = E * eV / hbar *)
Definition converted (l : list R) : list R :=
  match l with
  | f :: E :: rest => sqrt f * (E * (1.60218e-19 / 1.05457e-34)) :: E * (1.60218e-19 / 1.05457e-34) :: rest
  | _ => l
  end.
Definition convertible (l : list R) : Prop :=
  exists f E rest, l = f :: E :: rest /\ 0 <= f /\ 0 <= E.

(** [y] is the value at [x] of the piecewise linear curve through (xs_i, ys_i) *)
Definition on_polyline (xs ys : list R) (x y : R) : Prop :=
  exists i, (S i < length xs)%nat /\ nth i xs 0 <= x <= nth (S i) xs 0 /\
    y = nth i ys 0 + (nth (S i) ys 0 - nth i ys 0) * ((x - nth i xs 0) / (nth (S i) xs 0 - nth i xs 0)).

Definition drude (wp gamma w : R) : R := 1 + wp ^ 2 / (w * (w + gamma)).

(** value expected at frequency [w]: Drude law outside of the open data range, the polyline inside *)
Definition value_at (xs ys : list R) (d0 d1 wp gamma w v : R) : Prop :=
  ((w <= d0 \/ d1 <= w) /\ v = drude wp gamma w) \/ (d0 < w < d1 /\ on_polyline xs ys w v).

(** the shells from the inside out, as indexed by the documentation *)
Section Shells.
  Context {X : Type}.
  Context (coat : R -> R -> nat -> nat -> X -> X).
  Definition shells (rs : list R) (mats : list nat) (core : X) : X :=
    fold_left (fun x i => coat (nth (i - 1) rs 0) (nth i rs 0) (nth i mats O) (nth (S i) mats O) x)
      (seq 1 (length rs - 1)) core.
End Shells.
