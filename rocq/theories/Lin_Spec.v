(** * Vocabulary for the linear-algebra properties: MathComp matrices over R *)
From Coq Require Import Reals.
From mathcomp Require Import all_ssreflect ssralg matrix mxalgebra poly mxpoly.
From Verif Require Import Base RStruct Lin_Model.
Set Implicit Arguments.
Unset Strict Implicit.
Import GRing.Theory.
Local Open Scope ring_scope.

(** the p x q matrix held by a function of the indices *)
Definition rmx p q (A : mat) : 'M[R]_(p, q) := \matrix_(i < p, j < q) A i j.
Definition mx n (A : mat) : 'M[R]_n := rmx n n A.

(** a stack: [d] matrices of shape p x q, the k-th one is [f k] *)
Definition is_arr d p q (M : arr3) (f : nat -> 'M[R]_(p, q)) : Prop :=
  [/\ d3 M = d, r3 M = p, c3 M = q & forall k, (k < d)%N -> rmx p q (m3 M k) = f k].
Definition is_arr2 p q (M : arr2) (f : 'M[R]_(p, q)) : Prop :=
  [/\ r2 M = p, c2 M = q & rmx p q (m2 M) = f].

(** powers *)
Definition mxpow n (A : 'M[R]_n) (k : nat) : 'M[R]_n := iter k (mulmx A) 1%:M.

(** ln |det A|, minus infinity for a vanishing determinant *)
Definition ln_abs_det n (A : 'M[R]_n) : xr :=
  if \det A == 0 then NInf else Fin (ln (Rabs (\det A))).

(** similarity by a diagonal matrix of integer powers of two *)
Definition pow2_similar n (A B : 'M[R]_n) : Prop :=
  exists z : 'I_n -> Z,
    forall i j, B i j = A i j * powerRZ 2 (z j) * powerRZ 2 (- z i).

(** similarity *)
Definition similar n (A B : 'M[R]_n) : Prop :=
  exists P Q : 'M[R]_n, [/\ P *m Q = 1%:M, Q *m P = 1%:M & B = P *m A *m Q].

(** first N terms of the expansion of -ln det(1 - A) *)
Definition rt_partial n (A : 'M[R]_n) (N : nat) : R :=
  \sum_(1 <= j < N.+1) Rdiv (\tr (mxpow A j)) (INR j).

(** the round-trip operator T1 V12 T2 V21 in both polarizations; [e]: scaled Mie and translation
    coefficients together with the logarithms of their scales *)
Section RoundTrip.
Context (n ns : nat) (e : roundtrip).
Definition T1 : 'M[R]_(n + n) :=
  block_mx (diag_mx (\row_(i < n) (aTE e i * exp (a2 e i)))) 0 0 (diag_mx (\row_(i < n) (aTM e i * exp (a2 e i)))).
Definition T2 : 'M[R]_(ns + ns) :=
  block_mx (diag_mx (\row_(s < ns) (bTE e s * exp (b2 e s)))) 0 0 (diag_mx (\row_(s < ns) (bTM e s * exp (b2 e s)))).
Definition V12 : 'M[R]_(n + n, ns + ns) :=
  let same := \matrix_(i < n, s < ns) (V0 e i s * exp (V4 e i s)) in
  let mixed := \matrix_(i < n, s < ns) (V2 e i s * exp (V4 e i s)) in
  block_mx same mixed mixed same.
Definition V21 : 'M[R]_(ns + ns, n + n) :=
  let same := \matrix_(s < ns, i < n) (V1 e i s * exp (V4 e i s)) in
  let mixed := \matrix_(s < ns, i < n) (V3 e i s * exp (V4 e i s)) in
  block_mx same mixed mixed same.
Definition round_trip : 'M[R]_(n + n) := T1 *m V12 *m T2 *m V21.
End RoundTrip.

(** the coefficients at distance [L], when V0..V3 depend on L and everything else is kept fixed *)
Record vfuns := { w0 : R -> nat -> nat -> R; w1 : R -> nat -> nat -> R; w2 : R -> nat -> nat -> R; w3 : R -> nat -> nat -> R }.
Definition at_L (e : roundtrip) (v : vfuns) (L : R) : roundtrip :=
  {| aTE := aTE e; aTM := aTM e; a2 := a2 e; bTE := bTE e; bTM := bTM e; b2 := b2 e;
     V0 := w0 v L; V1 := w1 v L; V2 := w2 v L; V3 := w3 v L; V4 := V4 e |}.
(** [d] holds the derivatives of V0..V3 at L *)
Definition derivs_at (v : vfuns) (L : R) (d : vderiv) : Prop :=
  (forall i s, derivable_pt_lim (fun x => w0 v x i s) L (V5 d i s)) /\
  (forall i s, derivable_pt_lim (fun x => w1 v x i s) L (V6 d i s)) /\
  (forall i s, derivable_pt_lim (fun x => w2 v x i s) L (V7 d i s)) /\
  (forall i s, derivable_pt_lim (fun x => w3 v x i s) L (V8 d i s)).
Definition nonzero (v : nat -> nat -> R) : Prop := forall i s, v i s <> IZR 0.
(** the block entries at distance L *)
Definition EE (q : mat * mat * mat * mat) : mat := let '(a, _, _, _) := q in a.
Definition EM (q : mat * mat * mat * mat) : mat := let '(_, b, _, _) := q in b.
Definition ME (q : mat * mat * mat * mat) : mat := let '(_, _, c, _) := q in c.
Definition MM (q : mat * mat * mat * mat) : mat := let '(_, _, _, d) := q in d.
