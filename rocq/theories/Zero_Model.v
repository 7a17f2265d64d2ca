(** * Model of thermodynamics.py: e0, F_tempcorr, l_konvergenz

    scipy.integrate.quad is a parameter: a procedure that evaluates the integrand at finitely many points, each one chosen
    from the values so far, and ends with an integral and an error estimate. *)
From Coq Require Import Bool Reals ZArith List.
From Verif Require Import Base Thermo_Model Geo_Model Bessel_Model Scat_Model Trans_Model Lin_Model RT_Model Run_Model.
Import ListNotations.
Open Scope R_scope.

Inductive strategy := Done (value error : R) | Ask (x : R) (next : R -> strategy).
(** limits of integration; [NoneB]: the argument b=None of e0 *)
Inductive limit_arg := Finite (b : R) | Infinite | NoneB.

Section Zero.
  Context {G : Type} (ops : geo_ops G).
  Notation T := (finiteT G).
  (** run quad with an integrand that changes the state *)
  Fixpoint integrate (f : R -> M T R) (q : strategy) : M T (R * R) :=
    match q with
    | Done v e => ret (v, e)
    | Ask x next => y <~ f x ;; integrate f (next y)
    end.
  (** a one-element array is taken as a number; other arrays: TypeError *)
  Definition scalar (l : list R) : M T R := match l with [y] => ret y | _ => raise TypeError end.
  (** thermodynamics.py:105-115: the row [[integral, error]] *)
  Definition e0 (quad : R -> option R -> strategy) (a : R) (b : limit_arg) : M T (R * R) := fun t =>
    let b := match b with Finite b => Some b | Infinite => None | NoneB => Some (IZR (t_nmax t) * t_deltaT t) end in
    integrate (fun x => l <~ on_geom (g_mSumme ops [x]) ;; scalar l) (quad a b) t.

  (** thermodynamics.py:131-145: the integrand passes a float to mSumme, whose first action is to index its argument
      (geometry.py:496; geometry.py:288 for evaluation="trace").  Division by zero: deltaT = 0. *)
  Definition float_mSumme (x : R) : M T R := raise TypeError.
  Fixpoint tempcorr_loop (fuel : nat) (quad : R -> strategy) (beta : R) (n : nat) (w total : R) : M T (option R) :=
    match fuel with
    | O => ret None
    | S fuel =>
        df <~ integrate float_mSumme (quad w) ;;
        (let total := total + fst df / PI in
         let n := S n in
         if Rltb 1e-6 (Rabs (fst df / (PI * total))) then tempcorr_loop fuel quad beta n (INR n * beta) total
         else ret (Some total))
    end.
  Definition F_tempcorr (fuel : nat) (quad : R -> strategy) : M T (option R) := fun t =>
    if Reqb (t_deltaT t) 0 then (t, Err ZeroDivisionError)
    else tempcorr_loop fuel quad (1 / t_deltaT t) 1 1 0 t.

  (** thermodynamics.py:167-180: lssmax1, lssmax2 arrive as l_offset; there is no attribute F_zero_T *)
  Definition l_konvergenz (r1 r2 : radius) (L : R) (lssmax1 lssmax2 lmax1 lmax2 : Z) : M T (R * R) := fun t =>
    match sphere_init r1 r2 L (Given lmax1) lssmax1 Automatic 1e-4 false EvLndet, sphere_init r1 r2 L (Given lmax2) lssmax2 Automatic 1e-4 false EvLndet with
    | Ok _, Ok _ => (t, Err AttributeError)
    | Err e, _ => (t, Err e)
    | _, Err e => (t, Err e)
    end.
End Zero.
