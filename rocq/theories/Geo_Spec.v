(** * Specification vocabulary for geometry.py (sums over m, caches) *)
From Coq Require Import Bool Reals List ZArith.
From Verif Require Import Base Thermo_Model Geo_Model.
Import ListNotations.
Open Scope R_scope.

(** Successive evaluation of a stateful, possibly failing [term] at m, m+1, ... *)
Inductive runs {S A} (term : nat -> S -> S * res A) : S -> nat -> S -> list A -> Prop :=
| runs_nil s m : runs term s m s []
| runs_cons s m s1 a s2 l :
    term m s = (s1, Ok a) -> runs term s1 (Datatypes.S m) s2 l ->
    runs term s m s2 (a :: l).

(** t0 + 2 t1 + 2 t2 + ... in this order *)
Definition weighted (t0 : xr) (ts : list xr) : xr :=
  fold_left (fun acc t => xadd acc (xmul (Fin 2) t)) ts t0.

(** [j] is the position of the entry that is largest in modulus: the first NaN if
    there is one, else the first largest |entry|. *)
Definition largest_at (l : list xr) (j : nat) : Prop :=
  (j < length l)%nat /\
  ((nth j l NaN = NaN /\ forall i, (i < j)%nat -> nth i l NaN <> NaN) \/
   ((forall i, (i < length l)%nat -> nth i l NaN <> NaN) /\
    (forall i, (i < length l)%nat -> xltb (xabs (nth j l NaN)) (xabs (nth i l NaN)) = false) /\
    (forall i, (i < j)%nat -> xltb (xabs (nth i l NaN)) (xabs (nth j l NaN)) = true))).

(** | |a/b| - 1 | < eps in IEEE semantics *)
Definition rel_close (a b : xr) (eps : R) : Prop :=
  xltb (xabs (xsub (xabs (xdiv a b)) (Fin 1))) (Fin eps) = true.

(** column [i] of a list of equally long arrays *)
Definition column (i : nat) (ts : list (list xr)) : list xr := map (fun t => nth i t NaN) ts.

(** partial sum after M terms, entry by entry *)
Definition partial (t0 : list xr) (ts : list (list xr)) (M : nat) : list xr :=
  map (fun i => weighted (nth i t0 NaN) (column i (firstn M ts))) (seq 0 (length t0)).

(** a finite, non-positive contribution *)
Definition nonpos (x : xr) : Prop := exists r, x = Fin r /\ r <= 0.

(** the gap between the surfaces: outside, or inside the larger sphere *)
Definition gap (r1 r2 L : R) : R := Rabs (Rmax r1 r2 - L) - Rmin r1 r2.

(** the object after a history of requests (m, k) resp. m *)
Definition after_requests {A B V} (mieA_of : list R -> list A) (mieB_of : list R -> list B) (trans : nat -> list R -> V)
  (h : list (nat * list R)) (s : mcache) : mcache :=
  fold_left (fun s q => fst (roundTrip_elements mieA_of mieB_of trans (fst q) (snd q) s)) h s.
Definition after_requests_k0 {A B V} (mieA0_of : nat -> list A) (mieB0_of : nat -> list B) (trans0 : nat -> V)
  (h : list nat) (s : zcache) : zcache :=
  fold_left (fun s m => fst (roundTrip_elements_k0 mieA0_of mieB0_of trans0 m s)) h s.
(** one entry per l in lmin..lmax *)
Definition per_l {A} (f : nat -> A) (lmax lmin : nat) : list A := map f (seq lmin (lmax + 1 - lmin)).
