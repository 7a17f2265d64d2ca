(** * Model of CasimirRio/helper_functions.py *)
From Coq Require Import Bool Reals List ZArith Factorial.
From Verif Require Import Base.
Import ListNotations.
Open Scope R_scope.

(** scipy.special.gammaln at a positive integer: ln Gamma(n) = ln (n-1)! *)
Definition gammaln (n : nat) : R := ln (INR (fact (n - 1))).

(** helper_functions.py:10-15 *)
Definition ln_2dbl (x : nat) : R := gammaln (2 * x + 1) - INR x * ln 2 - gammaln (x + 1).

(** helper_functions.py:17-21 *)
Definition lfac (x : nat) : R := gammaln (x + 1).

(** numpy indexing of a 1-d array; negative indices do not occur (see num_derivative) *)
Definition get (f : list R) (i : nat) : res R :=
  match nth_error f i with Some v => Ok v | None => Err IndexError end.
Definition set (l : list R) (i : nat) (v : R) : res (list R) :=
  if Nat.ltb i (length l) then Ok (firstn i l ++ v :: skipn (S i) l) else Err IndexError.

(** helper_functions.py:46-47, the two stencils.  deriv_2nd_order is only called with i >= 1 and
    deriv_5th_order with i >= 2, so i-1, i-2 are never negative. *)
Definition deriv5 (f : list R) (h : R) (i : nat) : res R :=
  do a <- get f (i + 2) ; do b <- get f (i + 1) ; do c <- get f (i - 1) ; do d <- get f (i - 2) ;
  Ok ((- a + 8 * b - 8 * c + d) / (12 * h)).
Definition deriv2 (f : list R) (h : R) (i : nat) : res R :=
  do a <- get f (i + 1) ; do b <- get f (i - 1) ; Ok ((a - b) / (2 * h)).

(** helper_functions.py:48-49, for i in range(2, i_max-1) *)
Fixpoint deriv_loop (f : list R) (h : R) (is : list nat) (fp : list R) : res (list R) :=
  match is with
  | [] => Ok fp
  | i :: r => do v <- deriv5 f h i ; do fp' <- set fp i v ; deriv_loop f h r fp'
  end.

(** helper_functions.py:24-54 with interpolate=False.  i_max = len(f)-1; for len(f) < 3 the
    access f[2] in deriv_2nd_order(1) raises before a negative index could be used. *)
Definition num_derivative (f x : list R) : res (list R) :=
  do x1 <- get x 1 ; do x0 <- get x 0 ;
  let h := x1 - x0 in
  if negb (Rltb 0 h) then Err ValueError else
  let i_max := (length f - 1)%nat in
  let fp := map (fun _ => 0) f in
  do fp <- deriv_loop f h (seq 2 (i_max - 1 - 2)) fp ;
  do d1 <- deriv2 f h 1 ;
  do d2 <- deriv2 f h (i_max - 1) ;
  do fp <- set fp 1 d1 ;
  do fp <- set fp (i_max - 1) d2 ;
  do f1 <- get f 1 ; do f0 <- get f 0 ;
  do e1 <- get f i_max ; do e0 <- get f (i_max - 1) ;
  do fp <- set fp 0 ((f1 - f0) / h) ;
  do fp <- set fp i_max ((e1 - e0) / h) ;
  Ok fp.
