(** * Model of CasimirRio/thermodynamics.py *)
From Coq Require Import Bool Reals List ZArith Lia.
From Verif Require Import Base.
Import ListNotations.
Open Scope R_scope.

(** A computation with an object state [S] that may raise. *)
Definition M (S A : Type) := S -> S * res A.
Definition ret {S A} (a : A) : M S A := fun s => (s, Ok a).
Definition raise {S A} (e : exn) : M S A := fun s => (s, Err e).
Definition mbind {S A B} (m : M S A) (f : A -> M S B) : M S B :=
  fun s => match m s with
           | (s', Ok a) => f a s'
           | (s', Err e) => (s', Err e)
           end.
Notation "x <~ m ;; f" := (mbind m (fun x => f)) (at level 61, m at next level, right associativity).

(** Arguments that Python code passes through [int(...)]. *)
Inductive pynum :=
| PyInt (z : Z)
| PyFloat (x : xr)
| PyStr (parsed : option Z)  (* a string and the integer it spells, if any *)
| PyNone.

(** Python's int(). *)
Definition py_int (p : pynum) : res Z :=
  match p with
  | PyInt z => Ok z
  | PyFloat (Fin r) => Ok (trunc r)
  | PyFloat NaN => Err ValueError
  | PyFloat _ => Err OverflowError
  | PyStr (Some z) => Ok z
  | PyStr None => Err ValueError
  | PyNone => Err TypeError
  end.

Section Slicewise.
  Context {S A : Type}.

  (** numpy slice assignment [result[a:b] = v] for 0 <= a <= b <= len(result):
      same length, or broadcasting of a one-element array, or ValueError. *)
  Definition slice_assign (result : list A) (a b : nat) (v : list A) : res (list A) :=
    let n := (b - a)%nat in
    let put w := Ok (firstn a result ++ w ++ skipn b result) in
    if Nat.eqb (length v) n then put v
    else match v with
         | [x] => put (repeat x n)
         | _ => Err ValueError
         end.

  (** thermodynamics.py:222-225, the while loop of slicewise_eval.
      [None] means out of fuel. *)
  Fixpoint slice_loop (fuel : nat) (func : list Z -> M S (list A))
           (noffset nmin nmax stepsize : Z) (result : list A) (s : S)
    : option (S * res (list A)) :=
    match fuel with
    | O => None
    | Datatypes.S fuel =>
        if (nmin <=? nmax)%Z then
          let nmax_sl := Z.min (nmin + stepsize - 1) nmax in
          match func (arange nmin (nmax_sl + 1)) s with
          | (s', Err e) => Some (s', Err e)
          | (s', Ok v) =>
              match slice_assign result (Z.to_nat (noffset + nmin))
                                 (Z.to_nat (noffset + nmax_sl + 1)) v with
              | Err e => Some (s', Err e)
              | Ok result' =>
                  slice_loop fuel func noffset (nmax_sl + 1) nmax stepsize result' s'
              end
          end
        else Some (s, Ok result)
    end.

  (** thermodynamics.py:206-226, slicewise_eval.  [garbage] is the arbitrary
      content of np.empty.  The fuel suffices for every input because each
      iteration handles at least one integer (proved: [slicewise_terminates]). *)
  Definition slicewise_eval (garbage : nat -> A) (func : list Z -> M S (list A))
             (nmin nmax : Z) (stepsize : pynum) (s : S)
    : option (S * res (list A)) :=
    match py_int stepsize with
    | Err e => Some (s, Err e)
    | Ok step =>
        if (step <=? 0)%Z then Some (s, Err ValueError)
        else if (nmax - nmin + 1 <? 0)%Z then Some (s, Err ValueError)  (* np.empty(negative) *)
        else slice_loop (Datatypes.S (Z.to_nat (nmax - nmin + 1))) func (- nmin) nmin nmax step
                        (map garbage (seq 0 (Z.to_nat (nmax - nmin + 1)))) s
    end.
End Slicewise.

(** ** The geometry object as seen by finiteT: three methods on an opaque state. *)
Record geo_ops (G : Type) := {
  g_mSumme : list R -> M G (list R);        (* geometry.py:491 (or 547 for "trace") *)
  g_mSumme_k0 : M G (list R);               (* geometry.py:463, flattened *)
  g_trace_dot : list R -> M G (list R);     (* geometry.py:593 *)
}.
Arguments g_mSumme {G}. Arguments g_mSumme_k0 {G}. Arguments g_trace_dot {G}.

(** The attributes of a finiteT object (thermodynamics.py:29-71). *)
Record finiteT (G : Type) := {
  t_deltaT : R; t_nmax : Z; t_Tmax : R; t_analytic : bool; t_nprocs : Z;
  t_force : bool;
  t_geom : G;
  t_f : option (list R);       (* self.f_matsubaras *)
  t_ff : option (list R);      (* self.force_matsubaras *)
}.
Arguments t_deltaT {G}. Arguments t_nmax {G}. Arguments t_Tmax {G}.
Arguments t_analytic {G}. Arguments t_nprocs {G}. Arguments t_force {G}.
Arguments t_geom {G}. Arguments t_f {G}. Arguments t_ff {G}.

Section FiniteT.
  Context {G : Type} (ops : geo_ops G) (garbage : nat -> R).
  Let T := finiteT G.

  Definition with_geom (t : T) (g : G) : T :=
    {| t_deltaT := t_deltaT t; t_nmax := t_nmax t; t_Tmax := t_Tmax t;
       t_analytic := t_analytic t; t_nprocs := t_nprocs t; t_force := t_force t;
       t_geom := g; t_f := t_f t; t_ff := t_ff t |}.
  Definition with_force (t : T) (b : bool) : T :=
    {| t_deltaT := t_deltaT t; t_nmax := t_nmax t; t_Tmax := t_Tmax t;
       t_analytic := t_analytic t; t_nprocs := t_nprocs t; t_force := b;
       t_geom := t_geom t; t_f := t_f t; t_ff := t_ff t |}.
  Definition with_f (t : T) (f : list R) : T :=
    {| t_deltaT := t_deltaT t; t_nmax := t_nmax t; t_Tmax := t_Tmax t;
       t_analytic := t_analytic t; t_nprocs := t_nprocs t; t_force := t_force t;
       t_geom := t_geom t; t_f := Some f; t_ff := t_ff t |}.
  Definition with_ff (t : T) (f : list R) : T :=
    {| t_deltaT := t_deltaT t; t_nmax := t_nmax t; t_Tmax := t_Tmax t;
       t_analytic := t_analytic t; t_nprocs := t_nprocs t; t_force := t_force t;
       t_geom := t_geom t; t_f := t_f t; t_ff := Some f |}.

  (** run a geometry method on the geometry stored in the object *)
  Definition on_geom {A} (m : M G A) : M T A :=
    fun t => let (g', r) := m (t_geom t) in (with_geom t g', r).

  Definition half (l : list R) : list R := map (fun x => 0.5 * x) l.

  (** thermodynamics.py:147-165, F_alle.  np.append flattens and concatenates. *)
  Definition F_alle (matsubaras : list R) : M T (list R) := fun t =>
    match matsubaras with
    | [] => (t, Err IndexError)                               (* matsubaras[0] *)
    | k0 :: rest =>
        if Reqb k0 0 then
          if negb (t_force t) && t_analytic t then
            (F0 <~ on_geom (g_mSumme_k0 ops) ;;
             match rest with
             | [] => ret (half F0)
             | _ => (Fa <~ on_geom (g_mSumme ops rest) ;; ret (half F0 ++ Fa))
             end) t
          else
            (F0 <~ on_geom (g_mSumme ops [1e-10]) ;;
             Fa <~ on_geom (g_mSumme ops rest) ;;
             ret (half F0 ++ Fa)) t
        else if t_force t then on_geom (g_trace_dot ops matsubaras) t
        else on_geom (g_mSumme ops matsubaras) t
    end.

  (** thermodynamics.py:117-129, get_f_matsubaras.  multiproc_slicewise_eval is
      not defined anywhere (the function is called multiproc_silcewise_eval). *)
  Definition get_f_matsubaras (nmin : Z) (schrittweite : pynum) : M T (list R) := fun t =>
    if (t_nprocs t =? 0)%Z then
      match slicewise_eval garbage
              (fun x => F_alle (map (fun n => t_deltaT t * IZR n) x))
              nmin (t_nmax t) schrittweite t with
      | Some r => r
      | None => (t, Err NameError)   (* unreachable: slicewise_terminates *)
      end
    else (t, Err NameError).

  (** thermodynamics.py:71, self.maxstep = int(round(self.Tmax / self.deltaT)) *)
  Definition maxstep (t : T) : Z := pyround (t_Tmax t / t_deltaT t).

  (** thermodynamics.py:79-82 / 91-94: Ts * [f[::i].sum() for i in 1..maxstep] *)
  Definition temperature_table (deltaT : R) (mstep : Z) (f : list R) : list R :=
    map (fun i => deltaT * IZR i * Rsum (stride (Z.to_nat i) f)) (arange 1 (mstep + 1)).

  (** thermodynamics.py:77-78 (= 100-101): fill self.f_matsubaras if it is None. *)
  Definition ensure_f : M T (list R) := fun t =>
    match t_f t with
    | Some f => (t, Ok f)
    | None => (f <~ get_f_matsubaras 0 (PyInt 50) ;; (fun t' => (with_f t' f, Ok f))) t
    end.

  (** thermodynamics.py:73-82, free_energy *)
  Definition free_energy : M T (list R) :=
    f <~ ensure_f ;;
    (fun t => (t, Ok (temperature_table (t_deltaT t) (maxstep t) f))).

  (** thermodynamics.py:84-94, force: sets self.forceFlag = 1 (for good). *)
  Definition force : M T (list R) := fun t0 =>
    let t := with_force t0 true in
    (f <~ match t_ff t with
          | Some f => ret f
          | None => g <~ get_f_matsubaras 0 (PyInt 50) ;; (fun t' => (with_ff t' g, Ok g))
          end ;;
     (fun t => (t, Ok (temperature_table (t_deltaT t) (maxstep t) f)))) t.

  (** numpy.gradient(f, h) for a one-dimensional array (edge_order = 1). *)
  Definition np_gradient (f : list R) (h : R) : res (list R) :=
    let n := length f in
    let at_ i := nth i f 0 in
    if (n <? 2)%nat then Err ValueError
    else Ok (map (fun i =>
               if (i =? 0)%nat then (at_ 1%nat - at_ 0%nat) / h
               else if (i =? n - 1)%nat then (at_ (n - 1)%nat - at_ (n - 2)%nat) / h
               else (at_ (i + 1)%nat - at_ (i - 1)%nat) / (2 * h)) (seq 0 n)).

  (** thermodynamics.py:96-103, entropy *)
  Definition entropy : M T (list R) :=
    _ <~ ensure_f ;;
    F <~ free_energy ;;
    (fun t => (t, match np_gradient F (t_deltaT t) with
                  | Ok g => Ok (map Ropp g)
                  | Err e => Err e
                  end)).
End FiniteT.

(** ** Constructor, thermodynamics.py:26-71 *)

(** a radius attribute: a number or the list of shell radii *)
Inductive radius := RSolid (r : R) | RShells (l : list R).

(** the geometry attributes read by the constructor *)
Record geo_attrs := {
  ga_r1 : radius; ga_r2 : radius; ga_L : R; ga_lmax : Z;
  ga_mat1_list : bool; ga_mat2_list : bool;   (* type(geom.mat1) == list *)
  ga_isinstance : bool;                       (* isinstance(geom, SphereSphere) *)
}.

Inductive nmax_arg := NmaxAuto | NmaxInt (n : Z).
Inductive nprocs_arg := NprocsInt (n : Z) | NprocsFloat (x : R).

(** thermodynamics.py:40-44: the outer radius *)
Definition outer (r : radius) : res R :=
  match r with
  | RSolid x => Ok x
  | RShells [] => Err IndexError
  | RShells (x :: l) => Ok (last l x)
  end.

(** thermodynamics.py:45-60.  Division by a zero Python float raises. *)
Definition auto_nmax (r1 r2 geomL deltaT : R) (lmax : Z) : res Z :=
  let rs := Rmin r1 r2 in
  let rg := Rmax r1 r2 in
  let L := if Rltb geomL (rs + rg) then rg - rs - geomL else geomL - rs - rg in
  if Reqb rs 0 then Err ZeroDivisionError else
  do c <- (if Rleb (L / rs) 0.5
           then if Reqb L 0 then Err ZeroDivisionError
                else Ok (0.1 + 2.21 * exp (- rs / L))
           else Ok 0.4) ;
  let LT := L * deltaT in
  let offset := if Rleb 7 LT then 1 else 5 in
  if Reqb LT 0 || (lmax =? 0)%Z then Err ZeroDivisionError else
  let e := exp (- 2 * LT) in
  Ok (Z.max (trunc (c * IZR lmax / LT * (e * (L + rs) / rs + 1 + LT / IZR lmax) + offset)) 1).

(** thermodynamics.py:26-71.  [Tmax/deltaT] with deltaT = 0 raises. *)
Definition finiteT_init {G} (deltaT : R) (nmax : nmax_arg) (Tmax : R)
           (ga : geo_attrs) (geom : G) (analytic_n0 : bool) (nprocs : nprocs_arg)
  : res (finiteT G) :=
  do np <- (match nprocs with
            | NprocsInt n => Ok n
            | NprocsFloat x => if Rleb 0 x then Err ValueError else Ok (-1)%Z
            end) ;
  let analytic := if ga_mat1_list ga || ga_mat2_list ga then false else analytic_n0 in
  do n <- (match nmax with
           | NmaxInt n => Ok n
           | NmaxAuto =>
               do r1 <- outer (ga_r1 ga) ; do r2 <- outer (ga_r2 ga) ;
               auto_nmax r1 r2 (ga_L ga) deltaT (ga_lmax ga)
           end) ;
  if ga_isinstance ga then
    if Reqb deltaT 0 then Err ZeroDivisionError else
    Ok {| t_deltaT := deltaT; t_nmax := n; t_Tmax := Tmax; t_analytic := analytic;
          t_nprocs := np; t_force := false; t_geom := geom; t_f := None; t_ff := None |}
  else Err TypeError.
