(** * Model of worker.py as a whole: from the command line and the parsed configuration to the result file

    return_geometry and do_calculation up to the constructors are those of Misc_Model; the calculation is that of
    Run_Model.  The configuration file is given as parsed by configparser (a missing file has no sections, the
    values of a [DEFAULT] section count as present in every section). *)
From Coq Require Import Bool Reals ZArith String List.
From Verif Require Import Base Thermo_Model Geo_Model Bessel_Model Scat_Model Misc_Model Lin_Model Trans_Model RT_Model Run_Model.
Import ListNotations.
Open Scope R_scope.

(** outcome of the script: configparser's NoSectionError is the only exception outside of [exn] *)
Inductive fault := Raised (e : exn) | NoSectionError.
Inductive outcome (A : Type) := Done (a : A) | Fails (e : fault).
Arguments Done {A} a.
Arguments Fails {A} e.
Definition then_ {A B} (x : outcome A) (f : A -> outcome B) : outcome B :=
  match x with Done a => f a | Fails e => Fails e end.
Notation "'step' x <- m ; f" := (then_ m (fun x => f)) (at level 200, x name, m at level 100, f at level 200).
Definition lifted {A} (x : res A) : outcome A := match x with Ok a => Done a | Err e => Fails (Raised e) end.

(** ** configuration with sections *)
Definition sections := string -> option (string -> option cfgval).
Definition options (s : sections) : Misc_Model.config := fun a o => match s a with Some f => f o | None => None end.
Definition section (s : sections) (a : string) : outcome unit :=
  match s a with Some _ => Done tt | None => Fails NoSectionError end.

(** ** materials, worker.py:84-90: eval of the option; a tuple becomes a list *)
Inductive matarg := OneMat (m : material) | ManyMats (l : list material).

(** an attribute that should be an integer: the script also passes on any other string *)
Inductive num := Int (z : Z) | Text.

Definition to_radius (r : rad) : radius := match r with RFloat x => RSolid x | RList l => RShells l end.

Record wgeom := {
  w_r1 : rad; w_r2 : rad; w_L : R; w_mat1 : matarg; w_mat2 : matarg; w_mat3 : matarg;
  w_lmax : num; w_lssmax : num; w_offset : Z; w_ext : bool; w_trace : bool; w_precision : R }.

(** the strings "lndet" and "trace" *)
Definition eval_kind (v : cfgval) : evaluation :=
  match v with CStr s => if String.eqb s "lndet" then EvLndet else if String.eqb s "trace" then EvTrace else EvOther | _ => EvOther end.

(** geometry.py:43-82 as called in worker.py:91-93 *)
Definition construct (g : geo_args) (m1 m2 m3 : matarg) : res wgeom :=
  do tr <- (match eval_kind (g_eval g) with EvLndet => Ok false | EvTrace => Ok true | EvOther => Err ValueError end) ;
  do o1 <- outer (to_radius (g_r1 g)) ;
  do o2 <- outer (to_radius (g_r2 g)) ;
  do lm <- (match g_lmax g with
            | AAutomatic => do z <- get_lmax o1 o2 (g_L g) (g_precision g) (g_offset g) ; Ok (Int z)
            | AInteger z => Ok (Int z)
            | AOther => Ok Text
            end) ;
  do ls <- (match g_lssmax g with
            | AAutomatic => if Reqb (Rmin o1 o2) 0 then Err ZeroDivisionError else
                            match lm with
                            | Int z => Ok (Int (trunc (Rmax o1 o2 / Rmin o1 o2 * IZR z)))
                            | Text => Err TypeError                 (* float times string *)
                            end
            | AInteger z => Ok (Int z)
            | AOther => Ok Text
            end) ;
  Ok {| w_r1 := g_r1 g; w_r2 := g_r2 g; w_L := g_L g; w_mat1 := m1; w_mat2 := m2; w_mat3 := m3; w_lmax := lm; w_lssmax := ls;
        w_offset := g_offset g; w_ext := Rltb (o1 + o2) (g_L g); w_trace := tr; w_precision := g_precision g |}.

Definition is_many (m : matarg) : bool := match m with ManyMats _ => true | OneMat _ => false end.

(** the finiteT object of worker.py:118 *)
Record wthermo := { v_dT : R; v_nmax : num; v_Tmax : R; v_analytic : bool }.

(** thermodynamics.py:26-71 as called in worker.py:118 *)
Definition construct_T (w : wgeom) (a : thermo_args) : res wthermo :=
  let analytic := if is_many (w_mat1 w) || is_many (w_mat2 w) then false else t_n0 a in
  do n <- (match t_nmax a with
           | AInteger z => Ok (Int z)
           | AOther => Ok Text
           | AAutomatic =>
               do r1 <- outer (to_radius (w_r1 w)) ; do r2 <- outer (to_radius (w_r2 w)) ;
               match w_lmax w with
               | Int z => do n <- auto_nmax r1 r2 (w_L w) (t_dT a) z ; Ok (Int n)
               | Text =>                                            (* c * geom.lmax *)
                   let rs := Rmin r1 r2 in let rg := Rmax r1 r2 in
                   let L := if Rltb (w_L w) (rs + rg) then rg - rs - w_L w else w_L w - rs - rg in
                   if Reqb rs 0 then Err ZeroDivisionError
                   else if Rleb (L / rs) 0.5 && Reqb L 0 then Err ZeroDivisionError else Err TypeError
               end
           end) ;
  if Reqb (t_dT a) 0 then Err ZeroDivisionError else
  Ok {| v_dT := t_dT a; v_nmax := n; v_Tmax := t_Tmax a; v_analytic := analytic |}.

(** ** the calculation *)
(** what eval("f.%s" % quantity) returns: a one-dimensional array or something else (a number, a method, ...) *)
Inductive value := Array (l : list R) | NotArray.

(** worker.py:125-145; deltaT and Tmax are printed with four decimals: multiples of 1/10000 *)
Record header := {
  h_input : string; h_r1 : rad; h_r2 : rad; h_L : R; h_mat1 : cfgval; h_mat2 : cfgval; h_mat3 : cfgval;
  h_lmax : Z; h_offset : Z; h_lssmax : Z; h_nmax : Z; h_dT : Z; h_Tmax : Z; h_quantity : cfgval; h_trace : bool;
  h_precision : R; h_trips : option (list (nat * nat)) }.
(** "%.4f" *)
Definition four_decimals (x : R) : Z := pyround (x * 10000).
(** "%i" *)
Definition percent_i (n : num) : res Z := match n with Int z => Ok z | Text => Err TypeError end.

(** a file: of other origin, or opened by the script, with header (if written) and numbers *)
Inductive file := Foreign (s : string) | Opened (h : option header) (rows : list R).
Definition files := string -> option file.
Definition write (fs : files) (name : string) (f : file) : files := fun g => if String.eqb g name then Some f else fs g.

(** a solid sphere; stratified spheres are not composed here *)
Definition sphere_of (m : matarg) (r : rad) : option sphere :=
  match m, r with OneMat m, RFloat r => Some (Solid m r) | _, _ => None end.
(** the configuration of Run_Model for solid spheres and integer orders *)
Definition composed (w : wgeom) : option RT_Model.config :=
  match sphere_of (w_mat1 w) (w_r1 w), sphere_of (w_mat2 w) (w_r2 w), w_mat3 w, w_lmax w, w_lssmax w with
  | Some s1, Some s2, OneMat med, Int n, Int n' =>
      if (0 <=? n)%Z && (0 <=? n')%Z then
        Some {| c_1 := s1; c_2 := s2; c_med := med; c_L := w_L w; c_lmax := Z.to_nat n; c_lssmax := Z.to_nat n';
                c_ext := w_ext w; c_mat := fun _ => med |}
      else None
  | _, _, _, _, _ => None
  end.

Section Worker.
  (** float(s) for the third argument; eval of a material; other quantities and geometries that are not composed; the
      dictionary roundTrip_dct after the calculation *)
  Context (to_float : string -> option R) (eval_mat : cfgval -> res matarg).
  Context (other : cfgval -> wgeom -> wthermo -> outcome value) (trips : list (nat * nat)).
  (** as in Run_Model *)
  Context (unk : exn) (fuel : nat) (garbage : nat -> mat) (empty : nat -> R).
  Context (mieb : list R -> nat -> Z -> res (list (list R) * list (list R))).

  (** worker.py:40-95 *)
  Definition worker_geometry (argv : list string) (s : sections) : outcome wgeom :=
    step _ <- section s "geometry" ;
    let arg3 := match nth_error argv 3 with
                | Some a => Some (match to_float a with Some x => Ok x | None => Err ValueError end)
                | None => None
                end in
    step g <- lifted (return_geometry (options s) arg3) ;
    step _ <- section s "materials" ;
    step v1 <- lifted (cget (options s) "materials" "mata") ; step m1 <- lifted (eval_mat v1) ;
    step v2 <- lifted (cget (options s) "materials" "matb") ; step m2 <- lifted (eval_mat v2) ;
    step v3 <- lifted (cget (options s) "materials" "matmd") ; step m3 <- lifted (eval_mat v3) ;
    lifted (construct g m1 m2 m3).

  (** the object f of worker.py:118 *)
  Definition object (v : wthermo) (n : Z) : finiteT gstate :=
    {| t_deltaT := v_dT v; Thermo_Model.t_nmax := n; Thermo_Model.t_Tmax := v_Tmax v; t_analytic := v_analytic v; t_nprocs := 0%Z;
       t_force := false; t_geom := fresh false; t_f := None; t_ff := None |}.
  (** self.conv of geometry.py:63 *)
  Definition conv09 : R := 0.9.
  Definition is_str (v : cfgval) (a : string) : bool := match v with CStr b => String.eqb a b | _ => false end.
  (** worker.py:120 *)
  Definition evaluate (q : cfgval) (w : wgeom) (v : wthermo) : outcome value :=
    match composed w, v_nmax v with
    | Some c, Int n =>
        let o := ops unk fuel mieb trans_bessels c (w_precision w) conv09 (w_trace w) garbage in
        let result r := match r with Ok l => Done (Array l) | Err e => Fails (Raised e) end in
        if is_str q "free_energy()" then result (snd (free_energy o empty (object v n)))
        else if is_str q "entropy()" then result (snd (entropy o empty (object v n)))
        else if is_str q "force()" then result (snd (force o empty (object v n)))
        else other q w v
    | _, _ => other q w v
    end.

  (** worker.py:97-123; line 122 reads the quantity before the calculation *)
  Definition worker_calculation (s : sections) (w : wgeom) : outcome (value * wthermo) :=
    step _ <- section s "thermodynamics" ;
    step q <- lifted (cget (options s) "thermodynamics" "quantity") ;
    let g := {| g_r1 := w_r1 w; g_r2 := w_r2 w; g_L := w_L w; g_precision := w_precision w; g_lmax := AOther;
                g_lssmax := AOther; g_offset := 0%Z; g_eval := CAuto |} in   (* only the radii are read *)
    step a <- lifted (do_calculation (options s) g) ;
    step v <- lifted (construct_T w a) ;
    step x <- evaluate q w v ;
    Done (x, v).

  (** worker.py:125-145 *)
  Definition job_infos (argv : list string) (s : sections) (w : wgeom) (v : wthermo) : res header :=
    do m1 <- cget (options s) "materials" "mata" ;
    do m2 <- cget (options s) "materials" "matb" ;
    do m3 <- cget (options s) "materials" "matmd" ;
    do lm <- percent_i (w_lmax w) ;
    do ls <- percent_i (w_lssmax w) ;
    do n <- percent_i (v_nmax v) ;
    do q <- cget (options s) "thermodynamics" "quantity" ;
    Ok {| h_input := nth 1 argv ""%string; h_r1 := w_r1 w; h_r2 := w_r2 w; h_L := w_L w; h_mat1 := m1; h_mat2 := m2; h_mat3 := m3;
          h_lmax := lm; h_offset := w_offset w; h_lssmax := ls; h_nmax := n; h_dT := four_decimals (v_dT v);
          h_Tmax := four_decimals (v_Tmax v); h_quantity := q; h_trace := w_trace w; h_precision := w_precision w;
          h_trips := if w_trace w then Some trips else None |}.

  (** worker.py:147-160: the file is opened (and emptied) before job_infos is called, and has its header before
      np.savetxt looks at the result *)
  Definition worker_save (fs : files) (foutput : string) (job : res header) (x : value) : files * outcome unit :=
    let name := match fs foutput with Some _ => (foutput ++ "1")%string | None => foutput end in
    match job with
    | Err e => (write fs name (Opened None []), Fails (Raised e))
    | Ok h => match x with
              | Array l => (write fs name (Opened (Some h) l), Done tt)
              | NotArray => (write fs name (Opened (Some h) []), Fails (Raised ValueError))
              end
    end.

  (** the script *)
  Definition worker (argv : list string) (s : sections) (fs : files) : files * outcome unit :=
    if Nat.eqb (List.length argv) 3 || Nat.eqb (List.length argv) 4 then
      match (step w <- worker_geometry argv s ; step r <- worker_calculation s w ; Done (w, r)) with
      | Fails e => (fs, Fails e)
      | Done (w, (x, v)) => worker_save fs (nth 2 argv ""%string) (job_infos argv s w v) x
      end
    else (fs, Fails (Raised ValueError)).
End Worker.
