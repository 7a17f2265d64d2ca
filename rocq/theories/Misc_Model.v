(** * Models of materials_converter.py, worker.py, data_inter_extrapolation.py and of the list
    handling of stratified_sphere_scattering.py *)
From Coq Require Import Bool Reals ZArith String List.
From Verif Require Import Base.
Import ListNotations.
Open Scope R_scope.

(** ** materials_converter.py *)

(** The heap: address -> content of a Python list of floats. *)
Definition heap := nat -> list R.
Definition upd (h : heap) (a : nat) (v : list R) : heap := fun b => if Nat.eqb b a then v else h b.

(** materials_converter.py:10-12 *)
Definition omega_eV : R := 1.60218e-19 / 1.05457e-34.

(** materials_converter.py:15-16 for the list object at address [a]: first [a][0] is stored, then
    [a][1].  math.sqrt raises ValueError for negative arguments. *)
Definition convert_cell (h : heap) (a : nat) : heap * res unit :=
  match h a with
  | x :: y :: rest =>
      let v := x * (y * omega_eV) ^ 2 in
      if Rltb v 0 then (h, Err ValueError)
      else (upd h a (sqrt v :: y * omega_eV :: rest), Ok tt)
  | _ => (h, Err IndexError)
  end.

(** materials_converter.py:5-17.  [params] is the outer list: the addresses of the inner lists.
    params.copy() copies only the outer list, so t_params[i] is the same object as params[i]. *)
Fixpoint convert_all (h : heap) (params : list nat) : heap * res unit :=
  match params with
  | [] => (h, Ok tt)
  | a :: r => match convert_cell h a with
              | (h', Ok _) => convert_all h' r
              | (h', Err e) => (h', Err e)
              end
  end.
Definition transform (h : heap) (params : list nat) : heap * res (list nat) :=
  match convert_all h params with
  | (h', Ok _) => (h', Ok params)
  | (h', Err e) => (h', Err e)
  end.

(** ** worker.py *)

(** worker.py:147-160, save_result; the file system maps names to contents.  [data] is what
    job_infos() and np.savetxt write. *)
Section Save.
  Context {data : Type}.
  Definition fsys := string -> option data.
  Definition save_result (fs : fsys) (foutput : string) (d : data) : fsys :=
    let name := match fs foutput with Some _ => (foutput ++ "1")%string | None => foutput end in
    fun f => if String.eqb f name then Some d else fs f.
End Save.

(** Values in the configuration file, by what the parsers make of them. *)
Inductive cfgval :=
| CInt (z : Z)            (* accepted by getint and getfloat *)
| CFloat (r : R)          (* accepted by getfloat only *)
| CList (l : list R)      (* "1, 2, 3" *)
| CAuto                   (* "automatic" *)
| CStr (s : string).      (* anything else *)
(** (section, option) -> value; all sections exist *)
Definition config := string -> string -> option cfgval.

Definition cget (c : config) (s o : string) : res cfgval :=
  match c s o with Some v => Ok v | None => Err NoOptionError end.
Definition getint (c : config) (s o : string) : res Z :=
  do v <- cget c s o ; match v with CInt z => Ok z | _ => Err ValueError end.
Definition getfloat (c : config) (s o : string) : res R :=
  do v <- cget c s o ;
  match v with CInt z => Ok (IZR z) | CFloat r => Ok r | _ => Err ValueError end.

(** worker.py:28-37, assign_radius; float("") and the like end in TypeError *)
Inductive rad := RFloat (r : R) | RList (l : list R).
Definition assign_radius (c : config) (o : string) : res rad :=
  match getfloat c "geometry" o with
  | Ok r => Ok (RFloat r)
  | Err ValueError | Err TypeError =>
      match c "geometry"%string o with Some (CList l) => Ok (RList l) | _ => Err TypeError end
  | Err e => Err e
  end.

(** an int argument, the string "automatic" or some other string *)
Inductive intarg := AInteger (z : Z) | AAutomatic | AOther.
Definition int_or_string (c : config) (s o : string) : res intarg :=
  match getint c s o with
  | Ok z => Ok (AInteger z)
  | Err ValueError => match cget c s o with
                      | Ok CAuto => Ok AAutomatic
                      | Ok _ => Ok AOther          (* a message is printed, nothing else *)
                      | Err e => Err e
                      end
  | Err e => Err e
  end.

Record geo_args := {
  g_r1 : rad; g_r2 : rad; g_L : R; g_precision : R;
  g_lmax : intarg; g_lssmax : intarg; g_offset : Z; g_eval : cfgval }.

(** worker.py:40-94, return_geometry up to the constructor call; the evaluation of the material names
    is left out.  [arg3] is the optional third command line argument. *)
Definition return_geometry (c : config) (arg3 : option (res R)) : res geo_args :=
  do r1 <- assign_radius c "ra" ;
  do r2 <- assign_radius c "rb" ;
  do L <- match arg3 with Some x => x | None => getfloat c "geometry" "d" end ;
  do precision <- match getfloat c "geometry" "precision" with
                  | Err ValueError => Err UnboundLocalError   (* "precision" is read before assignment *)
                  | x => x
                  end ;
  do lmax <- int_or_string c "geometry" "lmax" ;
  do _ <- match lmax with
          | AAutomatic => match getint c "geometry" "l_offset" with
                          | Err ValueError => Ok tt
                          | Err e => Err e
                          | Ok _ => Ok tt
                          end
          | _ => Ok tt
          end ;
  do lssmax <- int_or_string c "geometry" "lssmax" ;
  do offset <- match getint c "geometry" "l_offset" with
               | Err NoOptionError => Ok 0%Z
               | x => x
               end ;
  do ev <- match cget c "geometry" "evaluation" with
           | Err NoOptionError => Ok (CStr "lndet")
           | x => x
           end ;
  Ok {| g_r1 := r1; g_r2 := r2; g_L := L; g_precision := precision; g_lmax := lmax;
        g_lssmax := lssmax; g_offset := offset; g_eval := ev |}.

Record thermo_args := { t_dT : R; t_nmax : intarg; t_Tmax : R; t_n0 : bool }.
(** worker.py:97-121, do_calculation up to the constructor of finiteT *)
Definition do_calculation (c : config) (g : geo_args) : res thermo_args :=
  do dT <- getfloat c "thermodynamics" "Tmin" ;
  do nmax <- int_or_string c "thermodynamics" "nmax" ;
  do _ <- cget c "geometry" "analytic_n0" ;
  let analytic_n0 := match g_r1 g, g_r2 g with RFloat _, RFloat _ => true | _, _ => false end in
  do Tmax <- getfloat c "thermodynamics" "Tmax" ;
  Ok {| t_dT := dT; t_nmax := nmax; t_Tmax := Tmax; t_n0 := analytic_n0 |}.

(** ** data_inter_extrapolation.py *)

(** numpy boolean mask followed by [0] / [-1] *)
Definition first_of (l : list R) : res R := match l with x :: _ => Ok x | [] => Err IndexError end.
Fixpoint last_of (l : list R) : res R :=
  match l with [] => Err IndexError | [x] => Ok x | _ :: r => last_of r end.

(** scipy interp1d (linear): the segment whose right end is the first node >= x (the second node
    at least), outside of the nodes a ValueError *)
Fixpoint interp_seg (x0 y0 : R) (nodes : list (R * R)) (x : R) : res R :=
  match nodes with
  | [] => Err ValueError
  | (x1, y1) :: r =>
      if Rleb x x1 then Ok (y0 + (y1 - y0) / (x1 - x0) * (x - x0))
      else interp_seg x1 y1 r x
  end.
Definition interp1d (xs ys : list R) (x : R) : res R :=
  match combine xs ys with
  | (x0, y0) :: r => if Rltb x x0 then Err ValueError else interp_seg x0 y0 r x
  | [] => Err ValueError
  end.

Fixpoint map_res {A B} (f : A -> res B) (l : list A) : res (list B) :=
  match l with
  | [] => Ok []
  | x :: r => do y <- f x ; do ys <- map_res f r ; Ok (y :: ys)
  end.

Section Extrap.
  Context (xdata ydata : list R).
  (** parameters found by scipy's curve_fit; the same for both calls *)
  Context (fit_wp fit_gamma : R).

  (** data_inter_extrapolation.py:29-30, one element *)
  Definition epsilon_drude (omega wp gamma : R) : xr :=
    xadd (Fin 1) (xdiv (Fin (wp ^ 2)) (Fin (omega * gamma + omega ^ 2))).

  (** data_inter_extrapolation.py:17-27 *)
  Definition interpolate (x_new : list R) : res (list R * (R * R)) :=
    do d0 <- first_of xdata ;
    do x_l <- first_of (filter (fun x => Rltb d0 x) x_new) ;
    do d1 <- last_of xdata ;
    do x_u <- last_of (filter (fun x => Rltb x d1) x_new) ;
    let x_ip := filter (fun x => Rleb x_l x && Rleb x x_u) x_new in
    do ys <- map_res (interp1d xdata ydata) x_ip ;
    Ok (ys, (x_l, x_u)).

  (** data_inter_extrapolation.py:40-54; a float argument is wrapped into a one-element array *)
  Definition get_drude_data (omega : list R) : res (list xr) :=
    match omega with
    | [w] => Ok [epsilon_drude w (1.4e16 / 3e14) (5.3e13 / 3e14)]
    | _ =>
        do ip <- interpolate omega ;
        let '(data_2, (x_l, x_u)) := ip in
        let x_1 := filter (fun x => Rltb x x_l) omega in
        let x_3 := filter (fun x => Rltb x_u x) omega in
        Ok (map (fun w => epsilon_drude w fit_wp fit_gamma) x_1
            ++ map Fin data_2
            ++ map (fun w => epsilon_drude w fit_wp fit_gamma) x_3)
    end.
End Extrap.

(** ** stratified_sphere_scattering.py:37-53 *)
Section Strat.
  (** materials are compared with ==, i.e. by identity; here: natural numbers *)
  Context {X : Type}.
  Context (mie : nat -> nat -> R -> res X).                        (* scInnermost.mie(k, lmin, lmax, r) *)
  Context (mie_coated : R -> R -> nat -> nat -> X -> res X).       (* self.mie_coated(.., ri, ra, mat2, mat3, inner) *)

  (** the loop over the remaining shells (lines 49-53); [ri] the radius below *)
  Fixpoint coat_loop (ri : R) (rs : list R) (mats : list nat) (inner : X) : res X :=
    match rs, mats with
    | ra :: rs', m2 :: ((m3 :: _) as mats') =>
        do x <- mie_coated ri ra m2 m3 inner ; coat_loop ra rs' mats' x
    | [], _ => Ok inner
    | _, _ => Err IndexError
    end.

  (** self.mat_list and self.r_list are the caller's list objects: the state is their content.
      [fuel] bounds the recursion by the number of pops. *)
  Fixpoint mie_stratified (fuel : nat) (mats : list nat) (rs : list R) : (list nat * list R) * res X :=
    match fuel with
    | O => ((mats, rs), Err IndexError)
    | S fuel =>
        match mats, rs with
        | m0 :: m1 :: _, r0 :: rs' =>
            match mie m0 m1 r0 with
            | Err e => ((mats, rs), Err e)
            | Ok inner =>
                if Nat.eqb (last mats 0%nat) (last (removelast mats) 0%nat) && Nat.leb 3 (List.length mats)
                then mie_stratified fuel (removelast mats) (removelast rs)
                else ((mats, rs), coat_loop r0 rs' (tl mats) inner)
            end
        | _, _ => ((mats, rs), Err IndexError)
        end
    end.
  Definition mie_strat (mats : list nat) (rs : list R) := mie_stratified (List.length mats) mats rs.

  (** stratified_sphere_scattering.py:26-35, the constructor on two lists *)
  Definition strat_init (mats : list nat) (rs : list R) : res unit :=
    if Nat.eqb (List.length rs + 1) (List.length mats) then
      match mats with _ :: _ :: _ => Ok tt | _ => Err TypeError end
    else Err TypeError.
End Strat.
