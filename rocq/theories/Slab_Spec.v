(** * Vocabulary for C90: signs of the products of reflection coefficients *)
From Coq Require Import Reals.
Open Scope R_scope.

(** reflection coefficients (TE, TM) of two plates as functions of wave vector and frequency *)
Definition same_sign (r1 r2 : R -> R -> R * R) : Prop := forall q k, 0 <= q -> 0 < k -> 0 <= fst (r1 q k) * fst (r2 q k) /\ 0 <= snd (r1 q k) * snd (r2 q k).
Definition other_sign (r1 r2 : R -> R -> R * R) : Prop := forall q k, 0 <= q -> 0 < k -> fst (r1 q k) * fst (r2 q k) <= 0 /\ snd (r1 q k) * snd (r2 q k) <= 0.
(** at frequency [k] both plates reflect waves of one polarization *)
Definition visible (r1 r2 : R -> R -> R * R) (k : R) : Prop := exists q, 0 < q /\ (fst (r1 q k) * fst (r2 q k) <> 0 \/ snd (r1 q k) * snd (r2 q k) <> 0).
