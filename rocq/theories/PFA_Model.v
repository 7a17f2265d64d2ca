(** * Model of CasimirRio/PFA.py and CasimirRio/raw_PFA.py

    Scalars are arrays of length one (the materials accept both).  scipy.integrate.quad is a parameter
    [quadrature]: a function of the integrand (which may raise) and the limits.  Exact arithmetic.  math.log and
    math.sqrt raise ValueError outside their domains. *)
From Coq Require Import Bool Reals ZArith List.
From Verif Require Import Base Mat_Model Help_Model Bessel_Model Scat_Model.
Import ListNotations.
Open Scope R_scope.

Definition quadrature := (R -> out R) -> R -> xr -> out R.

Definition mlog (x : R) : out R := if Rltb 0 x then Val (ln x) else Exc ValueError.
Definition msqrt (x : R) : out R := if Rltb x 0 then Exc ValueError else Val (sqrt x).
Definition mdiv (x y : R) : out R := if Reqb y 0 then Exc ZeroDivisionError else Val (x / y).
(** division of numpy floats; infinities are not modelled *)
Definition ndiv (x y : R) : out R := if Reqb y 0 then Unmodelled else Val (x / y).

(** the attributes mat1, mat2, matMd (PFA.py:8-11) *)
Record pfa := { p_mat1 : material; p_mat2 : material; p_md : material }.

(** fresnel coefficients of one plate *)
Definition refl (m md : material) (q kn : R) : out (R * R) := let! r := fresnel m md [q] [kn] in Val (hd (0, 0) r).

(** PFA.py:14-21, common to all four functions: k, efactorTE, efactorTM *)
Definition efactors (p : pfa) (q kn L : R) : out (R * R * R) :=
  let! (rTE1, rTM1) := refl (p_mat1 p) (p_md p) q kn in
  let! (rTE2, rTM2) := refl (p_mat2 p) (p_md p) q kn in
  let! eps := eps_of (p_md p) [kn] in
  let! mu := mu_of (p_md p) [kn] in
  let! k := msqrt (q ^ 2 + hd0 eps * hd0 mu * kn ^ 2) in
  Val (k, rTE1 * rTE2 * exp (-2 * k * L), rTM1 * rTM2 * exp (-2 * k * L)).

(** PFA.py:13-22 *)
Definition roundTrips (p : pfa) (q kn L : R) : out (R * R) :=
  let! (k, eTE, eTM) := efactors p q kn L in
  let! a := mlog (1 - eTE) in
  let! b := mlog (1 - eTM) in
  Val (a, b).
(** PFA.py:24-33 *)
Definition roundTrip (p : pfa) (q kn L : R) : out R :=
  let! (k, eTE, eTM) := efactors p q kn L in
  mlog ((1 - eTE) * (1 - eTM)).
(** PFA.py:35-46 *)
Definition pressureRoundTrips (p : pfa) (q kn L : R) : out (R * R) :=
  let! (k, eTE, eTM) := efactors p q kn L in
  let! a := ndiv (- k * eTE) (1 - eTE) in
  let! b := ndiv (- k * eTM) (1 - eTM) in
  Val (a, b).
(** PFA.py:48-59 *)
Definition pressureRoundTrip (p : pfa) (q kn L : R) : out R :=
  let! (k, eTE, eTM) := efactors p q kn L in
  let! a := ndiv (- k * eTE) (1 - eTE) in
  let! b := ndiv (- k * eTM) (1 - eTM) in
  Val (a + b).

Definition ofst {A B} (x : out (A * B)) : out A := let! (a, _) := x in Val a.
Definition osnd {A B} (x : out (A * B)) : out B := let! (_, b) := x in Val b.
Fixpoint omapl {A B} (f : A -> out B) (l : list A) : out (list B) :=
  match l with
  | [] => Val []
  | a :: r => let! b := f a in let! bs := omapl f r in Val (b :: bs)
  end.
(** sum of an array *)
Definition asum (l : list R) : R := fold_right Rplus 0 l.
(** f[0] = x; IndexError for an empty array *)
Definition set0 (f : R -> R) (l : list R) : out (list R) :=
  match l with [] => Exc IndexError | a :: r => Val (f a :: r) end.

(** quad(lambda k_perp: k_perp/(2*pi)*f(k_perp), a, inf) *)
Definition kperp_integral (quad : quadrature) (f : R -> out R) (a : R) : out R :=
  quad (fun q => let! v := f q in Val (q / (2 * PI) * v)) a PInf.

(** np.append(np.array([k0]), np.arange(1, nmax+1)*T) *)
Definition matsubaras (k0 T : R) (nmax : Z) : list R := k0 :: map (fun n => INR n * T) (seq 1 (Z.to_nat nmax)).
(** nmax = int(c/(T*L)) *)
Definition terms (c T L : R) : out Z := let! x := mdiv c (T * L) in Val (trunc x).
(** T * np.array([integral(k) for k in matsubaras]), the first entry halved or, if shielded, zero *)
Definition weighted (I : R -> out R) (T : R) (ks : list R) (n0_shielding : bool) : out (list R) :=
  let! v := omapl I ks in
  let! f := set0 (fun x => 0.5 * x) (map (fun x => T * x) v) in
  if n0_shielding then set0 (fun _ => 0) f else Val f.

(** ** PFA.py *)
Section PFA.
  Context (quad : quadrature) (p : pfa).

  (** PFA.py:61-81, an array of length one; kn is the array [1e-20] *)
  Definition planeplaneFreeEnergyHT (L : R) (n0_shielding : bool) : out R :=
    let! te := kperp_integral quad (fun q => ofst (roundTrips p q 1e-20 L)) 0 in
    let! tm := kperp_integral quad (fun q => osnd (roundTrips p q 1e-20 L)) 0 in
    if n0_shielding then Val (0 + 0) else Val (0.5 * te + 0.5 * tm).
  (** PFA.py:106-119 *)
  Definition planeplane_e0 (L : R) : out R :=
    quad (fun kn => kperp_integral quad (fun q => roundTrip p q kn L) 0) 1e-20 PInf.
  (** PFA.py:83-104; T is a real number or np.inf *)
  Definition planeplaneFreeEnergy (T : xr) (L : R) (n0_shielding : bool) : out R :=
    match T with
    | Fin T =>
        if Reqb T 0 then planeplane_e0 L
        else
          let! nmax := terms 20 T L in
          let! f := weighted (fun kn => kperp_integral quad (fun q => roundTrip p q kn L) 0) T (matsubaras 1e-10 T nmax) n0_shielding in
          Val (asum f)
    | PInf => planeplaneFreeEnergyHT L n0_shielding
    | _ => Unmodelled
    end.
  (** PFA.py:122-142; [T] is not used *)
  Definition get_f_matsubaras (T L : R) (ks : list R) (n0_shielding : bool) : out (list R * list R) :=
    let! te := omapl (fun kn => kperp_integral quad (fun q => ofst (roundTrips p q kn L)) 0) ks in
    let! tm := omapl (fun kn => kperp_integral quad (fun q => osnd (roundTrips p q kn L)) 0) ks in
    let! te := set0 (fun x => 0.5 * x) te in
    let! tm := set0 (fun x => 0.5 * x) tm in
    if n0_shielding then
      let! te := set0 (fun _ => 0) te in let! tm := set0 (fun _ => 0) tm in Val (te, tm)
    else Val (te, tm).
  (** PFA.py:145-163, for real T *)
  Definition planeplanePressure (T L : R) (n0_shielding : bool) : out R :=
    let! nmax := terms 20 T L in
    let! f := weighted (fun kn => kperp_integral quad (fun q => pressureRoundTrip p q kn L) 0) T (matsubaras 1e-20 T nmax) n0_shielding in
    Val (asum f).
  (** PFA.py:189-201 *)
  Definition half_chord (r rho : R) : out R := let! a := mdiv rho r in let! s := msqrt (1 - a ^ 2) in Val (r * s).
  Definition distance (r1 r2 d rho : R) : out R :=
    if Rltb (r1 + r2) d then
      let! h1 := half_chord r1 rho in let! h2 := half_chord r2 rho in Val (d - h1 - h2)
    else
      let! h2 := half_chord r2 rho in let! h1 := half_chord r1 rho in Val (h2 - d - h1).
  (** PFA.py:166-175 *)
  Definition spheresphereEnergy (r1 r2 : R) (T : xr) (d : R) (n0_shielding : bool) : out R :=
    quad (fun rho => let! L := distance r1 r2 d rho in
                     let! f := planeplaneFreeEnergy T L n0_shielding in Val (2 * PI * rho * f)) 0 (Fin r1).
  (** PFA.py:177-187; n0_shielding is not passed on *)
  Definition spheresphereForce (r1 r2 : R) (T : xr) (d : R) (n0_shielding : bool) : out R :=
    let nenner := if Rltb d (r1 + r2) then Rmax r1 r2 - Rmin r1 r2 else r1 + r2 in
    let! pref := mdiv (2 * PI * r1 * r2) nenner in
    let! L := distance r1 r2 d 0 in
    let! f := planeplaneFreeEnergy T L false in
    Val (pref * f).
End PFA.

(** ** raw_PFA.py (a second class of the same name); roundTrips and pressureRoundTrips are those above *)
Section Raw.
  Context (quad : quadrature) (p : pfa).
  Definition intTE (lo L kn : R) : out R := kperp_integral quad (fun q => ofst (roundTrips p q kn L)) lo.
  Definition intTM (lo L kn : R) : out R := kperp_integral quad (fun q => osnd (roundTrips p q kn L)) lo.
  (** raw_PFA.py:37-57; the integral starts at 1e-10 *)
  Definition raw_HT (L : R) (n0_shielding : bool) : out R :=
    let! te := intTE 1e-10 L 1e-20 in
    let! tm := intTM 1e-10 L 1e-20 in
    if n0_shielding then Val (0 + 0) else Val (0.5 * te + 0.5 * tm).
  (** raw_PFA.py:84-100 *)
  Definition raw_e0 (L : R) : out R :=
    let! te := quad (intTE 0 L) 1e-20 PInf in
    let! tm := quad (intTM 0 L) 1e-20 PInf in
    Val (te + tm).
  (** raw_PFA.py:59-82; for T = inf: int(100/inf) = 0, and inf times the integral is not modelled *)
  Definition raw_free_energy (T : R) (L : R) (n0_shielding : bool) : out R :=
    if Reqb T 0 then raw_e0 L
    else
      let! nmax := terms 100 T L in
      let! te := weighted (intTE 0 L) T (matsubaras 1e-10 T nmax) n0_shielding in
      let! tm := weighted (intTM 0 L) T (matsubaras 1e-10 T nmax) n0_shielding in
      Val (asum te + asum tm).
  (** raw_PFA.py:103-125: the caller's array after the call, and the result *)
  Definition raw_get_f_matsubaras (L : R) (ks : list R) (n0_shielding : bool) : list R * out (list R) :=
    match ks with
    | [] => ([], Exc IndexError)
    | k0 :: r =>
        let ks' := (if Reqb k0 0 then 1e-20 else k0) :: r in
        (ks', let! te := omapl (intTE 0 L) ks' in
              let! tm := omapl (intTM 0 L) ks' in
              if n0_shielding then
                let! te := set0 (fun _ => 0) te in let! tm := set0 (fun _ => 0) tm in Val (vmap2 Rplus te tm)
              else Val (vmap2 Rplus te tm))
    end.
  (** raw_PFA.py:128-150 *)
  Definition raw_pressure (T L : R) (n0_shielding : bool) : out R :=
    let! nmax := terms 100 T L in
    let! te := weighted (fun kn => kperp_integral quad (fun q => ofst (pressureRoundTrips p q kn L)) 0) T (matsubaras 1e-20 T nmax) n0_shielding in
    let! tm := weighted (fun kn => kperp_integral quad (fun q => osnd (pressureRoundTrips p q kn L)) 0) T (matsubaras 1e-20 T nmax) n0_shielding in
    Val (asum te + asum tm).
  (** the case distinction of both functions below *)
  Definition raw_pp (T : xr) (L : R) (n0_shielding : bool) : out R :=
    match T with
    | Fin T => if Reqb T 0 then raw_e0 L else raw_free_energy T L n0_shielding
    | PInf => raw_HT L n0_shielding
    | _ => Unmodelled
    end.
  (** raw_PFA.py:152-165; the first prefactor is computed in any case *)
  Definition raw_force (r1 r2 : R) (T : xr) (L : R) (n0_shielding ext : bool) : out R :=
    let! pe := mdiv (2 * PI * (r1 * r2)) (r1 + r2) in
    let! pref := if ext then Val pe else mdiv (2 * PI * (r1 * r2)) (r2 - r1) in
    let! f := raw_pp T L n0_shielding in
    Val (pref * f).
  (** raw_PFA.py:167-182 *)
  Definition raw_energy (r1 r2 : R) (T : xr) (L : R) (n0_shielding ext : bool) : out R :=
    let! pe := mdiv (L * PI * r1 * r2) (r1 + r2) in
    let! pref := if ext then Val pe else mdiv (L * PI * r1 * r2) (r2 - r1) in
    let! f := raw_pp T L n0_shielding in
    Val (pref * f).
End Raw.
