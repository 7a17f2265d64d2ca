(** * Specification vocabulary for the script worker.py *)
From Coq Require Import Bool Reals ZArith String List.
From Verif Require Import Base Geo_Model Misc_Model Worker_Model.
Import ListNotations.
Open Scope R_scope.

(** the option [v] is the number [x] *)
Definition number (v : option cfgval) (x : R) : Prop := v = Some (CFloat x) \/ exists z, v = Some (CInt z) /\ x = IZR z.
Definition radius_is (v : option cfgval) (r : rad) : Prop :=
  (exists x, number v x /\ r = RFloat x) \/ (exists l, v = Some (CList l) /\ r = RList l).

(** option [o] of section [a] *)
Definition opt (s : sections) (a o : string) : option cfgval := match s a with Some f => f o | None => None end.

(** the file a run writes to *)
Definition target (fs : files) (f : string) : string := match fs f with Some _ => (f ++ "1")%string | None => f end.

(** an integer option that may be "automatic" (then at least [lo]) *)
Definition integer_or_auto (v : option cfgval) (z : Z) (lo : Z) : Prop :=
  v = Some (CInt z) \/ (v = Some CAuto /\ (lo <= z)%Z).

(** z/10000 is x to four decimals *)
Definition shown (z : Z) (x : R) : Prop := Rabs (IZR z / 10000 - x) <= 1 / 20000.

(** the header tells what was configured *)
Definition tells (to_float : string -> option R) (argv : list string) (s : sections) (h : header) : Prop :=
  nth_error argv 1 = Some (h_input h) /\
  radius_is (opt s "geometry" "ra") (h_r1 h) /\ radius_is (opt s "geometry" "rb") (h_r2 h) /\
  match nth_error argv 3 with Some a => to_float a = Some (h_L h) | None => number (opt s "geometry" "d") (h_L h) end /\
  opt s "materials" "mata" = Some (h_mat1 h) /\ opt s "materials" "matb" = Some (h_mat2 h) /\ opt s "materials" "matmd" = Some (h_mat3 h) /\
  integer_or_auto (opt s "geometry" "lmax") (h_lmax h) 1 /\
  (opt s "geometry" "lssmax" = Some (CInt (h_lssmax h)) \/ opt s "geometry" "lssmax" = Some CAuto) /\
  (opt s "geometry" "l_offset" = Some (CInt (h_offset h)) \/ (opt s "geometry" "l_offset" = None /\ h_offset h = 0%Z)) /\
  integer_or_auto (opt s "thermodynamics" "nmax") (h_nmax h) 1 /\
  (exists dT, number (opt s "thermodynamics" "Tmin") dT /\ shown (h_dT h) dT) /\
  (exists Tmax, number (opt s "thermodynamics" "Tmax") Tmax /\ shown (h_Tmax h) Tmax) /\
  opt s "thermodynamics" "quantity" = Some (h_quantity h) /\
  (if h_trace h then opt s "geometry" "evaluation" = Some (CStr "trace")
   else opt s "geometry" "evaluation" = Some (CStr "lndet") \/ opt s "geometry" "evaluation" = None) /\
  number (opt s "geometry" "precision") (h_precision h).

(** two configurations with the same sections that agree but for one option *)
Definition agree_but (s s' : sections) (a o : string) : Prop :=
  (forall b, s b = None <-> s' b = None) /\ forall b p, (b = a /\ p = o) \/ opt s b p = opt s' b p.

(** a complete job for two solid spheres *)
Record job := { j_ra : R; j_rb : R; j_L : R; j_precision : R; j_lmax : nat; j_lssmax : nat; j_nmax : nat; j_dT : R; j_Tmax : R;
                j_v1 : cfgval; j_v2 : cfgval; j_v3 : cfgval }.
Definition describes (to_float : string -> option R) (argv : list string) (s : sections) (j : job) (quantity : string) : Prop :=
  (List.length argv = 3 \/ List.length argv = 4)%nat /\
  number (opt s "geometry" "ra") (j_ra j) /\ number (opt s "geometry" "rb") (j_rb j) /\
  match nth_error argv 3 with Some a => to_float a = Some (j_L j) | None => number (opt s "geometry" "d") (j_L j) end /\
  number (opt s "geometry" "precision") (j_precision j) /\
  opt s "geometry" "lmax" = Some (CInt (Z.of_nat (j_lmax j))) /\ opt s "geometry" "lssmax" = Some (CInt (Z.of_nat (j_lssmax j))) /\
  (exists z, opt s "geometry" "l_offset" = Some (CInt z)) /\ opt s "geometry" "evaluation" = Some (CStr "lndet") /\
  opt s "geometry" "analytic_n0" <> None /\
  opt s "materials" "mata" = Some (j_v1 j) /\ opt s "materials" "matb" = Some (j_v2 j) /\ opt s "materials" "matmd" = Some (j_v3 j) /\
  number (opt s "thermodynamics" "Tmin") (j_dT j) /\ number (opt s "thermodynamics" "Tmax") (j_Tmax j) /\
  opt s "thermodynamics" "nmax" = Some (CInt (Z.of_nat (j_nmax j))) /\ opt s "thermodynamics" "quantity" = Some (CStr quantity).
