(** * Specification vocabulary for thermodynamics.py (independent of the model) *)
From Coq Require Import Reals List ZArith.
From Verif Require Import Base.
Import ListNotations.
Open Scope R_scope.

(** the [n] consecutive integers starting at [lo] *)
Definition consecutive (lo : Z) (n : nat) : list Z :=
  map (fun i => (lo + Z.of_nat i)%Z) (seq 0 n).

(** What numpy stores when the array [v] is assigned to a slice of [n] cells:
    [v] itself, or [n] copies of its only element. *)
Definition stored_as {A} (n : nat) (v w : list A) : Prop :=
  (length v = n /\ w = v) \/ (exists x, v = [x] /\ w = repeat x n).

(** Sequential evaluation of a stateful function on a list of chunks, with the
    concatenation of everything stored. *)
Inductive evaluates {S A} (func : list Z -> S -> S * res (list A))
  : S -> list (list Z) -> S -> list A -> Prop :=
| ev_nil s : evaluates func s [] s []
| ev_cons s c cs s1 v w s2 out :
    func c s = (s1, Ok v) -> stored_as (length c) v w ->
    evaluates func s1 cs s2 out ->
    evaluates func s (c :: cs) s2 (w ++ out).

(** Sum of the entries of [f] whose index is a multiple of [i]. *)
Definition sum_multiples (i : nat) (f : list R) : R :=
  Rsum (map (fun n => nth n f 0)
            (filter (fun n => Nat.eqb (n mod i) 0) (seq 0 (length f)))).

(** The primed Matsubara sum at temperature T, truncated at [N] terms:
    T * ( g0/2 + sum_{j=1}^{N} g (j*T) ). *)
Definition primed_sum (g0 : R) (g : R -> R) (T : R) (N : nat) : R :=
  T * (g0 / 2 + Rsum (map (fun j => g (INR j * T)) (seq 1 N))).

(** [func] could not be stored on chunk [c]: it raised, or returned an array that
    neither has the right length nor is a single element (numpy: ValueError). *)
Definition fails_on {S A} (func : list Z -> S -> S * res (list A))
           (c : list Z) (s s' : S) (e : exn) : Prop :=
  func c s = (s', Err e) \/
  (exists v, func c s = (s', Ok v) /\ (forall w, ~ stored_as (length c) v w) /\ e = ValueError).
