(** * Vocabulary for complete calculations *)
From Coq Require Import Reals.
From Coquelicot Require Import Coquelicot.
From Coq Require Import ZArith List.
From Verif Require Import Base Thermo_Model Geo_Model Geo_Spec Bessel_Model Scat_Model Scat_Spec RT_Model RT_Spec Run_Model.
Import ListNotations.
Open Scope R_scope.

(** the Bessel functions of an array of arguments are those of each argument on its own *)
Definition elementwise (mieb : list R -> nat -> Z -> res (list (list R) * list (list R))) (n : nat) (x : list R) : Prop :=
  exists iv kv, mieb x 0%nat (Z.of_nat n) = Ok (iv, kv) /\
  forall q, (q < length x)%nat -> exists iv1 kv1, mieb [nth q x 0] 0%nat (Z.of_nat n) = Ok (iv1, kv1) /\
    forall j, (j <= n)%nat -> cell iv j q = cell iv1 j 0 /\ cell kv j q = cell kv1 j 0.
(** the translation coefficients too: nothing to ask for in the exterior geometry *)
Definition trans_at (c : config) (ks : list R) : Prop :=
  c_ext c = true \/ forall e u, has (c_med c) e u -> elementwise mie_bessels (c_lmax c + c_lssmax c + 1) (map (fun k => k * c_L c * sqrt (e k)) ks).
(** all arrays of arguments n k r that occur in the Mie coefficients of two solid spheres, and n k L, are such arrays *)
Definition elementwise_at (mieb : list R -> nat -> Z -> res (list (list R) * list (list R))) (c : config) (ks : list R) : Prop :=
  (forall m r n e u, (c_1 c = Solid m r /\ n = c_lmax c) \/ (c_2 c = Solid m r /\ n = c_lssmax c) ->
    has m e u \/ has (c_med c) e u -> elementwise mieb n (xs (refr e u) r ks)) /\ trans_at c ks.
(** arrays that do not cross the switching points of the code's Bessel functions (C27) *)
Definition one_regime (x : list R) : Prop :=
  ((forall t, In t x -> 1e-3 <= t) \/ (forall t, In t x -> t < 1e-3)) /\ ((forall t, In t x -> t <= 100) \/ (forall t, In t x -> 100 < t)).

(** an object whose attributes belong together: no force flag, Mie coefficients of the wavenumbers K, static coefficients
    from l = 1 on *)
Definition sound (mieb : list R -> nat -> Z -> res (list (list R) * list (list R))) (c : config) (s : gstate) : Prop :=
  g_force s = false /\ (forall ks, g_K s = Some ks -> mieA mieb c ks = Val (g_A s) /\ mieB mieb c ks = Val (g_B s)) /\
  (forall m, g_0 s = Some m -> (m <= 1)%Z).

(** f 0 + 2 f 1 + ... + 2 f M *)
Definition msum (f : nat -> xr) (M : nat) : xr := weighted (f 0%nat) (map f (seq 1 M)).
Definition rsum (f : nat -> R) (M : nat) : R := f 0%nat + 2 * Rsum (map f (seq 1 M)).
(** the number M of terms at which the loop of mSumme stops (C09): terms [f m k], wavenumbers [ks] *)
Definition stops_at (precision : R) (lmax : nat) (f : nat -> R -> xr) (ks : list R) (M : nat) : Prop :=
  let P j := map (fun k => msum (fun m => f m k) j) ks in
  (M <= lmax)%nat /\
  (forall j, (j < M)%nat -> (exists i, (i < length ks)%nat /\ nth i (P j) NaN <> Fin 0) /\
     ((0 < j)%nat -> forall i, largest_at (P (j - 1)%nat) i -> ~ rel_close (nth i (P j) NaN) (nth i (P (j - 1)%nat) NaN) (precision / 10))) /\
  ((M < lmax)%nat -> (forall i, (i < length ks)%nat -> nth i (P M) NaN = Fin 0) \/
     ((0 < M)%nat /\ exists i, largest_at (P (M - 1)%nat) i /\ rel_close (nth i (P M) NaN) (nth i (P (M - 1)%nat) NaN) (precision / 10))).
(** the same for mSumme_k0 *)
Definition stops_at_k0 (precision : R) (lmax : nat) (f : nat -> xr) (M : nat) : Prop :=
  (M <= lmax)%nat /\
  (forall j, (0 < j < M)%nat -> ~ rel_close (msum f (j - 1)) (msum f j) (precision / 10)) /\
  ((M < lmax)%nat -> (0 < M)%nat /\ rel_close (msum f (M - 1)) (msum f M) (precision / 10)).

(** ** sums over the frequencies in slices of 50 *)
(** the positive Matsubara frequencies n dT with 50q <= n < 50q+50 and n <= nmax *)
Definition freqs (dT : R) (nmax q : nat) : list R :=
  map (fun n => dT * INR n) (filter (fun n => Nat.leb 1 n && Nat.leb n nmax)%bool (seq (50 * q) 50)).
(** T (g0/2 + sum_{j=1}^{nmax/i} g_q(j T)) for T = i dT, where q is the number of the slice of j T *)
Definition sliced_sum (g0 : R) (g : nat -> R -> R) (dT : R) (nmax i : nat) : R :=
  INR i * dT * (g0 / 2 + Rsum (map (fun j => g (i * j / 50)%nat (INR j * (INR i * dT))) (seq 1 (nmax / i)))).

(** two solid spheres (positive permittivities and permeabilities, or perfect reflectors) and the orders *)
Definition solids (c : config) (m1 m2 : material) (ra rb : R) (e u : R -> R) : Prop :=
  c_1 c = Solid m1 ra /\ c_2 c = Solid m2 rb /\ RT_Spec.solid_ok m1 /\ RT_Spec.solid_ok m2 /\ has (c_med c) e u /\ 0 < c_L c /\
  (1 <= c_lmax c)%nat /\ (c_lmax c <= c_lssmax c)%nat.
(** a finiteT object in its initial state, for a geometry object with matching attributes *)
Definition ready (mieb : list R -> nat -> Z -> res (list (list R) * list (list R))) (c : config) (t : finiteT gstate) (nmax : nat) : Prop :=
  t_nmax t = Z.of_nat nmax /\ t_nprocs t = 0%Z /\ t_force t = false /\ 0 < t_deltaT t /\ t_f t = None /\ sound mieb c (t_geom t).
