(** * Specification vocabulary for helper_functions.py *)
From Coq Require Import Reals List.
Import ListNotations.
Open Scope R_scope.

(** n!! for odd n = 2x-1: 1 * 3 * ... * (2x-1) *)
Fixpoint odd_dfact (x : nat) : R :=
  match x with O => 1 | S y => (2 * INR x - 1) * odd_dfact y end.

(** polynomial with coefficient list (constant term first) and its derivative *)
Fixpoint peval (p : list R) (x : R) : R :=
  match p with [] => 0 | a :: q => a + x * peval q x end.
Fixpoint pderiv_from (n : nat) (p : list R) : list R :=
  match p with [] => [] | a :: q => INR n * a :: pderiv_from (S n) q end.
Definition pderiv (p : list R) : list R :=
  match p with [] => [] | _ :: q => pderiv_from 1 q end.

(** values of [f] on the grid x0, x0+h, ..., (n points) *)
Definition on_grid (f : R -> R) (x0 h : R) (n : nat) : list R :=
  map (fun i => f (x0 + INR i * h)) (seq 0 n).

(** five-point and central three-point difference quotients at index [i] *)
Definition st5 (f : list R) h i := (- nth (i + 2) f 0 + 8 * nth (i + 1) f 0 - 8 * nth (i - 1) f 0 + nth (i - 2) f 0) / (12 * h).
Definition st2 (f : list R) h i := (nth (i + 1) f 0 - nth (i - 1) f 0) / (2 * h).
