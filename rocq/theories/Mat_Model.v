(** * Model of CasimirRio/materials.py *)
From Coq Require Import Bool Reals List ZArith.
From Verif Require Import Base.
Import ListNotations.
Open Scope R_scope.

(** materials.py:13-14, Material().omega_norm *)
Definition omega_norm : R := 2.998e8 / 1e-6.

(** one oscillator (w_Pl, w_R, gamma), in rad/s *)
Record osc := Osc { o_wP : R; o_wR : R; o_g : R }.
(** b_properties: () or (mu0, w_M) *)
Definition bprops := option (R * R).

(** materials.py:43-62, is_sigma_finite: min() over the dissipation constants of the
    zero-frequency oscillators; min([]) raises ValueError, which yields True. *)
Definition zero_gammas (e : list osc) : list R :=
  map o_g (filter (fun o => Reqb (o_wR o) 0 && negb (Reqb (o_wP o) 0)) e).
Definition min_list (l : list R) : option R :=
  match l with [] => None | x :: r => Some (fold_left Rmin r x) end.
Definition is_sigma_finite (e : list osc) : bool :=
  match min_list (zero_gammas e) with
  | None => true
  | Some g => negb (Reqb g 0)
  end.

(** materials.py:64-81, is_dielectric *)
Fixpoint is_dielectric (e : list osc) : bool :=
  match e with
  | [] => true
  | o :: r => if negb (Reqb (o_wP o) 0) && Reqb (o_wR o) 0 then false else is_dielectric r
  end.

(** materials.py:83-99, is_magnetic: falls through to None if mu0 == 0 *)
Definition is_magnetic (b : bprops) : option bool :=
  match b with
  | None => Some false
  | Some (mu0, _) => if Reqb mu0 0 then None else Some true
  end.

(** materials.py:191-214, LorentzMaterial.epsilon, one array element (numpy division) *)
Definition lorentz (o : osc) (k : R) : xr :=
  let wP := o_wP o / omega_norm in
  let wR := o_wR o / omega_norm in
  let g := o_g o / omega_norm in
  xdiv (Fin (wP ^ 2)) (Fin (wR ^ 2 + k ^ 2 + g * k)).
Definition epsilon1 (e : list osc) (k : R) : xr :=
  fold_left (fun acc o => xadd acc (lorentz o k)) e (Fin 1).
(** the same for an ndarray k: ones(k.shape), then whole-array additions per oscillator *)
Definition epsilon (e : list osc) (ks : list R) : list xr :=
  fold_left (fun acc o => map (fun p => xadd (fst p) (snd p)) (combine acc (map (lorentz o) ks)))
            e (map (fun _ => Fin 1) ks).
(** for a Python float k: a vanishing denominator raises ZeroDivisionError *)
Definition epsilon_float (e : list osc) (k : R) : res R :=
  fold_left (fun acc o =>
    do a <- acc ;
    let wP := o_wP o / omega_norm in
    let wR := o_wR o / omega_norm in
    let g := o_g o / omega_norm in
    let d := wR ^ 2 + k ^ 2 + g * k in
    if Reqb d 0 then Err ZeroDivisionError else Ok (a + wP ^ 2 / d)) e (Ok 1).

(** materials.py:216-234, LorentzMaterial.mu, one array element *)
Definition mu1 (b : bprops) (k : R) : xr :=
  match b with
  | None => Fin 1
  | Some (mu0, w) =>
      let wM := w / omega_norm in
      xadd (Fin 1) (xdiv (Fin (mu0 - 1)) (xadd (Fin 1) (xdiv (Fin k) (Fin wM))))
  end.
Definition mu (b : bprops) (ks : list R) : list xr := map (mu1 b) ks.

(** materials.py:124-145, LorentzSmithMaterial.epsilon; the assert on the number of oscillators *)
Definition smith1 (o : osc) (k : R) : xr :=
  let wP := o_wP o / omega_norm in
  let g := o_g o / omega_norm in
  xmul (xdiv (Fin (wP ^ 2)) (Fin (k ^ 2 + g * k)))
       (xsub (Fin 1) (xdiv (Fin (0.49 * g)) (Fin (k + g)))).
Definition epsilon_smith (e : list osc) (ks : list R) : res (list xr) :=
  match e with
  | [o] => Ok (map (fun k => xadd (Fin 1) (smith1 o k)) ks)
  | _ => Err AssertionError
  end.

(** materials.py:147-165, LorentzSmithMaterial.mu: anything but a float or an array (e.g. an int)
    has no attribute shape *)
Inductive pyarg := AFloat (k : R) | AArray (ks : list R) | AInt (k : Z).
Definition mu_smith (b : bprops) (k : pyarg) : res (list xr) :=
  match k with
  | AFloat k => Ok [mu1 b k]
  | AArray ks => Ok (mu b ks)
  | AInt _ => Err AttributeError
  end.

(** materials.py:35-41: the perfect conductor; epsilon is inherited from Material and raises *)
Definition mu_pec (k : pyarg) : res (list xr) :=
  match k with
  | AArray ks => Ok (map (fun _ => Fin 1) ks)
  | _ => Err AttributeError
  end.
Definition epsilon_pec (k : pyarg) : res (list xr) := Err NotImplementedError.

(** materials.py:236-313, the parameter tables *)
Definition e_Gold := [Osc 1.37e16 0 5.77e13].
Definition e_Gold_Bimonte := [Osc 1.37e16 0 5.32e13].
Definition e_Silver := [Osc 1.46e16 0 3.46e13].
Definition e_Silver_plasma := [Osc 1.46e16 0 0].
Definition e_Gold_plasma := [Osc 1.37e16 0 0].
Definition e_Gold_plasma_wp1 := [Osc 1.37e16 0 0].
Definition e_Gold_plasma_wp01 := [Osc 1.37e15 0 0].
Definition e_Gold_plasma_wp10 := [Osc 1.37e17 0 0].
Definition b_Gold_magnetic : bprops := Some (4, 1e9).
Definition e_Mercury := [Osc 5.4e15 0 2.5e14].
Definition e_Mercury_plasma := [Osc 5.4e15 0 0].
Definition e_MercurySmith := [Osc 1.98e16 0 1.647e15].
Definition e_MercurySmith_plasma := [Osc 1.98e16 0 0].
Definition e_SiC := [Osc 7e14 0 1.5e14].
Definition e_SiC_plasma := [Osc 7e14 0 0].
Definition e_Water := [Osc 4.16e13 3.48e13 0; Osc 4.16e12 1.33e12 0; Osc 1.10e13 7.49e12 0;
  Osc 1.14e14 1.56e14 0; Osc 9.00e15 1.44e16 0; Osc 1.63e16 3.18e16 0; Osc 1.48e16 4.01e16 0].
Definition e_artificial := [Osc 1e18 0 0].
Definition e_modWater := Osc 8e11 1e11 0 :: e_Water.
Definition e_Ethanol := [Osc (sqrt 23.84 * 6.6e14) 6.6e14 0.1e13; Osc (sqrt 0.852 * 1.14e16) 1.14e16 0.1e13].
Definition e_AlternEth := [Osc 2.41e12 2.46e12 0; Osc 8.35e12 6.56e12 0; Osc 6.37e13 1.70e14 0;
  Osc 3.70e15 1.04e16 0; Osc 1.49e16 2.31e16 0; Osc 1.17e16 2.37e16 0; Osc 1.77e16 6.65e16 0].
Definition e_Ptfe := [Osc 4.40e10 4.56e11 0; Osc 1.56e12 1.15e13 0; Osc 3.15e13 8.46e13 0;
  Osc 6.41e13 1.91e14 0; Osc 4.50e15 1.02e16 0; Osc 1.87e16 2.83e16 0; Osc 2.08e16 6.40e16 0; Osc 2.32e16 1.18e17 0].
Definition e_Bromobenzene := [Osc 1.78e12 7.63e12 0; Osc 6.37e12 4.69e13 0; Osc 3.68e13 1.69e14 0;
  Osc 7.48e15 1.03e16 0; Osc 1.62e16 2.02e16 0; Osc 1.79e16 3.65e16 0; Osc 1.46e16 1.52e17 0].
Definition e_Altern2Ps := [Osc 3.17e13 1.79e14 0; Osc 1.48e11 1.37e12 0; Osc 2.66e12 1.81e13 0;
  Osc 2.27e14 2.37e15 0; Osc 5.03e15 9.30e15 0; Osc 1.24e16 1.53e16 0; Osc 1.98e16 3.07e16 0; Osc 1.52e16 1.04e17 0].
Definition e_Altern1Ps := [Osc 1.67e11 1.52e12 0; Osc 2.97e12 2.01e13 0; Osc 7.89e14 5.89e15 0;
  Osc 3.48e13 1.99e14 0; Osc 5.01e15 9.10e15 0; Osc 1.22e16 1.55e16 0; Osc 1.63e16 2.86e16 0; Osc 1.42e16 7.82e16 0].
Definition e_Polystyrene := [Osc (0.2 * 5.54e14) 5.54e14 0; Osc (1.56 * 1.35e16) 1.35e16 0].
Definition e_Silicon := [Osc 5.53e13 6.24e13 0; Osc 7.67e13 1.70e14 0; Osc 1.10e14 1.70e14 0;
  Osc 1.06e14 1.69e14 0; Osc 4.93e15 2.20e16 0; Osc 2.34e16 2.58e16 0; Osc 5.76e15 1.24e16 0; Osc 3.26e16 1.39e17 0].

(** materials.py:317-372: the predefined LorentzMaterial instances, grouped by what their name
    and comment promise *)
Definition drude_metals : list (list osc) :=
  [e_Gold; e_Gold_Bimonte; e_Silver; e_SiC; e_Mercury].
Definition plasma_metals : list (list osc) :=
  [e_Gold_plasma; e_Gold_plasma_wp1; e_Gold_plasma_wp01; e_Gold_plasma_wp10; e_Silver_plasma;
   e_SiC_plasma; e_Mercury_plasma; e_MercurySmith_plasma; e_artificial].
Definition dielectrics : list (list osc) :=
  [e_Water; e_modWater; e_Ethanol; e_AlternEth; e_Altern1Ps; e_Altern2Ps; e_Polystyrene;
   e_Bromobenzene; e_Ptfe; []; e_Silicon].
