(** * Vocabulary for the polarization channels of the round trip *)
From Coq Require Import Reals.
From mathcomp Require Import all_ssreflect ssralg matrix.
From Verif Require Import Base RStruct Lin_Model Lin_Spec Scat_Model.
Set Implicit Arguments.
Unset Strict Implicit.
Import GRing.Theory.
Local Open Scope ring_scope.

Inductive pol := E | M.
Definition same_pol (p q : pol) : bool := match p, q with E, E => true | M, M => true | _, _ => false end.

(** a round trip that leaves sphere 1 with polarization [p], meets sphere 2 with polarization [r] and arrives at
    sphere 1 with polarization [q] *)
Section Path.
Context (n ns : nat) (e : roundtrip).
Definition refl1 (p : pol) : 'M[R]_n :=
  diag_mx (\row_(i < n) ((match p with E => aTE | M => aTM end) e i * exp (a2 e i))).
Definition refl2 (r : pol) : 'M[R]_ns :=
  diag_mx (\row_(s < ns) ((match r with E => bTE | M => bTM end) e s * exp (b2 e s))).
Definition go (p r : pol) : 'M[R]_(n, ns) :=
  \matrix_(i < n, s < ns) ((if same_pol p r then V0 else V2) e i s * exp (V4 e i s)).
Definition back (r q : pol) : 'M[R]_(ns, n) :=
  \matrix_(s < ns, i < n) ((if same_pol r q then V1 else V3) e i s * exp (V4 e i s)).
Definition path (p r q : pol) : 'M[R]_n := refl1 p *m go p r *m refl2 r *m back r q.
End Path.

(** the positions of the channels in the returned list *)
Definition channel_list : list (pol * pol * pol) :=
  [:: (E, E, E); (E, M, E); (M, E, M); (M, M, M); (E, E, M); (E, M, M); (M, E, E); (M, M, E)].

(** entrywise sum of two stacks of the same shape *)
Definition sum_of (A B C : arr3) : Prop :=
  [/\ (d3 A, r3 A, c3 A) = (d3 C, r3 C, c3 C), (d3 B, r3 B, c3 B) = (d3 C, r3 C, c3 C) &
      forall k i j, m3 A k i j + m3 B k i j = m3 C k i j].
(** the eight arrays [l] add up to the four blocks *)
Definition adds_up (l : list arr3) (b : arr3 * arr3 * arr3 * arr3) : Prop :=
  match l, b with
  | [:: EE1; EE2; MM1; MM2; EM1; EM2; ME1; ME2], (EE, EM, ME, MM) =>
      [/\ sum_of EE1 EE2 EE, sum_of EM1 EM2 EM, sum_of ME1 ME2 ME & sum_of MM1 MM2 MM]
  | _, _ => False
  end.
(** both requests fail alike, or the results are related by [P] *)
Definition both {A B} (P : A -> B -> Prop) (x : out A) (y : out B) : Prop :=
  match x, y with
  | Val a, Val b => P a b
  | Exc u, Exc v => u = v
  | Unmodelled, Unmodelled => True
  | _, _ => False
  end.
