(** * Reference notions for scattering at spheres and plates *)
From Coq Require Import Reals.
From Coquelicot Require Import Coquelicot.
From Coq Require Import ZArith List.
From Verif Require Import Base Mat_Model Mat_Spec Bessel_Model Bessel_Spec Scat_Model.
Import ListNotations.
Open Scope R_scope.

(** mie_bessels with exact Bessel functions *)
Definition exact_bessels (x : list R) (lmin : nat) (lmax : Z) : res (list (list R) * list (list R)) :=
  if Z.ltb lmax (Z.of_nat lmin) then Err ValueError
  else let ls := seq lmin (S (Z.to_nat lmax) - lmin) in
       Ok (map (fun l => map (fun t => ln (sph_i l t)) x) ls, map (fun l => map (fun t => ln (sph_k l t)) x) ls).

(** the outgoing radial function: h_l(ix) i^-l = (-1)^(l+1) (2/pi) k_l(x) *)
Definition sph_h (l : nat) (x : R) : R := (-1) ^ (l + 1) * (2 / PI) * sph_k l x.

(** A sphere of radius [r] with parameters (p = mu for TE, epsilon for TM) [p_i] inside and [p_e] outside, refractive
    indices [n_i], [n_e], imaginary wavenumber [k]: the radial functions f of the tangential fields and (r f)'/p are
    continuous for a regular incident wave, scattered amplitude [a], interior amplitude [b]. *)
Definition matching_ext (l : nat) (p_i p_e n_i n_e k r a b : R) : Prop :=
  let inside s := b * sph_i l (n_i * k * s) in
  let outside s := sph_i l (n_e * k * s) + a * sph_h l (n_e * k * s) in
  inside r = outside r /\
  Derive (fun s => s * inside s) r / p_i = Derive (fun s => s * outside s) r / p_e.
(** the source inside the sphere: outgoing wave plus reflected regular wave inside, outgoing wave outside *)
Definition matching_int (l : nat) (p_i p_e n_i n_e k r a b : R) : Prop :=
  let inside s := sph_h l (n_i * k * s) + a * sph_i l (n_i * k * s) in
  let outside s := b * sph_h l (n_e * k * s) in
  inside r = outside r /\
  Derive (fun s => s * inside s) r / p_i = Derive (fun s => s * outside s) r / p_e.
(** a coated sphere: core radius [ri], shell [ri,ra] with amplitudes (c,d), medium outside *)
Definition matching_coated (l : nat) (p1 p2 p3 n1 n2 n3 k ri ra a b c d : R) : Prop :=
  let core s := b * sph_i l (n1 * k * s) in
  let shell s := c * sph_i l (n2 * k * s) + d * sph_h l (n2 * k * s) in
  let outside s := sph_i l (n3 * k * s) + a * sph_h l (n3 * k * s) in
  core ri = shell ri /\ Derive (fun s => s * core s) ri / p1 = Derive (fun s => s * shell s) ri / p2 /\
  shell ra = outside ra /\ Derive (fun s => s * shell s) ra / p2 = Derive (fun s => s * outside s) ra / p3.

(** entry (k-index q, order index j) of the coefficient arrays *)
Definition te_at (c : coefs) (j q : nat) : R := cell (fst (fst c)) j q.
Definition tm_at (c : coefs) (j q : nat) : R := cell (snd (fst c)) j q.
Definition scale_at (c : coefs) (j q : nat) : R := cell (snd c) j q.
(** with the scaling factor put back *)
Definition TE (c : coefs) (j q : nat) : R := te_at c j q * exp (scale_at c j q).
Definition TM (c : coefs) (j q : nat) : R := tm_at c j q * exp (scale_at c j q).

(** refractive index; the arguments n k r of the radial functions *)
Definition refr (e u : R -> R) (k : R) : R := sqrt (e k * u k).
Definition xs (n : R -> R) (r : R) (ks : list R) : list R := map (fun k => k * r * n k) ks.

(** a material with finite positive permittivity [e] and permeability [u] at all positive wavenumbers *)
Definition has (m : material) (e u : R -> R) : Prop :=
  (forall ks, (forall k, In k ks -> 0 < k) -> eps_of m ks = Val (map e ks) /\ mu_of m ks = Val (map u ks)) /\
  (forall k, 0 < k -> 0 < e k /\ 0 < u k) /\ is_pec m = false.

(** a perfectly conducting sphere: the tangential electric field vanishes; f = 0 for TE, (r f)' = 0 for TM *)
Definition pec_ext_TE (l : nat) (n k r a : R) : Prop := sph_i l (n * k * r) + a * sph_h l (n * k * r) = 0.
Definition pec_ext_TM (l : nat) (n k r a : R) : Prop := Derive (fun s => s * (sph_i l (n * k * s) + a * sph_h l (n * k * s))) r = 0.
(** a spherical cavity in a perfect conductor *)
Definition pec_int_TE (l : nat) (n k r a : R) : Prop := sph_h l (n * k * r) + a * sph_i l (n * k * r) = 0.
Definition pec_int_TM (l : nat) (n k r a : R) : Prop := Derive (fun s => s * (sph_h l (n * k * s) + a * sph_i l (n * k * s))) r = 0.

(** concentric shells: inside the innermost of the remaining interfaces the field is c*i_l + d*h_l in a medium (p, n);
    each layer is an interface radius with the parameters of the medium behind it; outside a unit regular wave comes
    in and the scattered amplitude is [a] *)
Fixpoint strat_match (l : nat) (k p n c d : R) (layers : list (R * R * R)) (a : R) : Prop :=
  match layers with
  | [] => c = 1 /\ d = a
  | (r, p', n') :: rest => exists c' d',
      let inside s := c * sph_i l (n * k * s) + d * sph_h l (n * k * s) in
      let outside s := c' * sph_i l (n' * k * s) + d' * sph_h l (n' * k * s) in
      inside r = outside r /\ Derive (fun s => s * inside s) r / p = Derive (fun s => s * outside s) r / p' /\
      strat_match l k p' n' c' d' rest a
  end.
(** the layers of a stratified sphere: interface radii with the media behind them (parameter p, index n) *)
Definition layers (pf nf : nat -> R) (rs : list R) (ms : list nat) : list (R * R * R) :=
  map (fun y => (fst y, pf (snd y), nf (snd y))) (combine rs ms).
Definition refr_of (ef uf : nat -> R -> R) (m : nat) (k : R) : R := refr (ef m) (uf m) k.
Definition lte (ef uf : nat -> R -> R) (k : R) := layers (fun m => uf m k) (fun m => refr_of ef uf m k).
Definition ltm (ef uf : nat -> R -> R) (k : R) := layers (fun m => ef m k) (fun m => refr_of ef uf m k).

(** ** zero frequency *)
(** the limit as the wavenumber tends to zero from above *)
Definition limit0 (f : R -> R) (v : R) : Prop := filterlim f (at_right 0) (locally v).
(** an entry of the coefficients at a single wavenumber *)
Definition entry (pick : coefs -> nat -> nat -> R) (F : list R -> out coefs) (j : nat) (k : R) : R :=
  match F [k] with Val c => pick c j 0%nat | _ => 0 end.
(** a finite static permittivity: no free charges *)
Definition insulator (m : material) (e : list osc) (b : bprops) : Prop :=
  m = Lorentz e b /\ Forall physical e /\ (forall o, In o e -> o_wR o <> 0) /\
  match b with None => True | Some (mu0, w) => 0 < mu0 /\ 0 < w end.
(** Drude-like: free charges, all of them damped *)
Definition drude (m : material) (e : list osc) (b : bprops) : Prop :=
  m = Lorentz e b /\ Forall physical e /\ (exists o, In o e /\ o_wP o <> 0 /\ o_wR o = 0) /\
  (forall o, In o e -> o_wP o <> 0 -> o_wR o = 0 -> 0 < o_g o) /\
  match b with None => True | Some (mu0, w) => 0 < mu0 /\ 0 < w end.
(** plasma: the first oscillator, and no other one, is free and undamped *)
Definition plasma (m : material) (o : osc) (e : list osc) (b : bprops) : Prop :=
  m = Lorentz (o :: e) b /\ Forall physical (o :: e) /\ 0 < o_wP o /\ o_wR o = 0 /\ o_g o = 0 /\
  (forall o', In o' e -> o_wR o' <> 0 \/ 0 < o_g o') /\
  match b with None => True | Some (mu0, w) => 0 < mu0 /\ 0 < w end.
(** one row of static coefficients (scaled by exp of the last row) holds the limits of T_l / (n k r)^(2l+1) for a
    sphere [m1] in a medium [m2] of index [n2], for the orders l0 < l <= lmax *)
Definition static_limits (pick : coefs -> nat -> nat -> R) (l0 lmax : nat) (r : R) (m1 m2 : material) (n2 : R -> R) (row cm : list R) : Prop :=
  length row = (lmax - l0)%nat /\ length cm = (lmax - l0)%nat /\
  forall j, (j < lmax - l0)%nat ->
    limit0 (fun k => entry pick (fun ks => mie exact_bessels ks l0 (Z.of_nat lmax) r m1 m2) j k / (k * r * n2 k) ^ (2 * S (l0 + j) + 1))
           (nth j row 0 * exp (nth j cm 0)).
(** the same for reflection inside a sphere [m1] in [m2]: limits of T_l (n k r)^(2l+1) *)
Definition static_limits_int (pick : coefs -> nat -> nat -> R) (l0 lmax : nat) (r : R) (m1 m2 : material) (n1 : R -> R) (row cm : list R) : Prop :=
  length row = (lmax - l0)%nat /\ length cm = (lmax - l0)%nat /\
  forall j, (j < lmax - l0)%nat ->
    limit0 (fun k => entry pick (fun ks => mie_internal exact_bessels ks l0 (Z.of_nat lmax) r m1 m2) j k * (k * r * n1 k) ^ (2 * S (l0 + j) + 1))
           (nth j row 0 * exp (nth j cm 0)).
(** static TE amplitudes at a plasma sphere resp. cavity with w = wP r / c: [f] stands for i_{l-1}/i_l (w), [f'] for
    the logarithmic derivative -l - w k_{l-1}/k_l (w) *)
Definition plasma_te (mu1 mu2 w : R) (l : nat) (f : R) : R :=
  (mu2 * (- INR l + w * f) - mu1 * (INR l + 1)) / (mu1 * INR l + mu2 * (- INR l + w * f)).
Definition plasma_te_int (mu1 mu2 : R) (l : nat) (f' : R) : R := - (mu2 * INR l + mu1 * f') / ((INR l + 1) * mu2 - mu1 * f').
