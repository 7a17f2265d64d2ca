(** * Model of complete calculations: SphereSphere with its caches and flag, composed with thermodynamics.py

    Composition of RT_Model (round-trip matrices), Geo_Model (sums over m) and Thermo_Model (sums over frequencies).
    [unk] is the outcome of a request that the model does not cover ([Unmodelled], or a loop that does not end within
    [fuel] steps); theorems hold for every value of it. *)
From Coq Require Import Bool Reals ZArith List.
From Verif Require Import Base Thermo_Model Geo_Model Bessel_Model Scat_Model Trans_Model Lin_Model RT_Model.
Import ListNotations.
Open Scope R_scope.

(** attributes that change: forceFlag, K, MieA, MieB; the zero-frequency coefficients MieA_k0, MieB_k0 are represented by
    the m of the request that stored them *)
Record gstate := { g_force : bool; g_K : option (list R); g_A : coefs; g_B : coefs; g_0 : option Z }.
Definition no_coefs : coefs := ([], [], []).
(** geometry.py:43-82 *)
Definition fresh (force : bool) : gstate := {| g_force := force; g_K := None; g_A := no_coefs; g_B := no_coefs; g_0 := None |}.
Definition set_flag (b : bool) (s : gstate) : gstate := {| g_force := b; g_K := g_K s; g_A := g_A s; g_B := g_B s; g_0 := g_0 s |}.
Definition set_A (A : coefs) (s : gstate) : gstate := {| g_force := g_force s; g_K := g_K s; g_A := A; g_B := g_B s; g_0 := g_0 s |}.
Definition set_B (B : coefs) (s : gstate) : gstate := {| g_force := g_force s; g_K := g_K s; g_A := g_A s; g_B := B; g_0 := g_0 s |}.
Definition set_K (ks : list R) (s : gstate) : gstate := {| g_force := g_force s; g_K := Some ks; g_A := g_A s; g_B := g_B s; g_0 := g_0 s |}.
Definition set_0 (m : Z) (s : gstate) : gstate := {| g_force := g_force s; g_K := g_K s; g_A := g_A s; g_B := g_B s; g_0 := Some m |}.

Definition get {S} : M S S := fun s => (s, Ok s).
Definition put {S} (f : S -> S) : M S unit := fun s => (f s, Ok tt).

Section Run.
  Context (unk : exn) (fuel : nat).
  (** bessel_sk.mie_bessels, bessel_sk.trans_bessels; the attributes precision and conv *)
  Context (mieb : list R -> nat -> Z -> res (list (list R) * list (list R))) (transb : bessel_fun).
  Context (c : config) (precision conv : R).

  Definition lift_res {A} (x : res A) : M gstate A := match x with Ok a => ret a | Err e => raise e end.
  Definition lift {A} (x : out A) : M gstate A := match x with Val a => ret a | Exc e => raise e | Unmodelled => raise unk end.
  Definition lift_opt {A} (x : option (res A)) : M gstate A := match x with Some r => lift_res r | None => raise unk end.

  (** ** finite frequencies *)
  (** geometry.py:95-110, 154-168: with forceFlag the coefficients are built a second time with forceFlag = 1 *)
  Definition s_trans (m : Z) (ks : list R) : M gstate (list (list vrow)) :=
    V <~ lift (trans transb c m ks) ;;
    s <~ get ;;
    if g_force s then
      t <~ lift (translation_init transb (c_lmax c) (c_lssmax c) m (c_med c) (c_L c) ks (c_ext c) true) ;;
      _ <~ lift (trans_ab t) ;;
      raise unk
    else ret V.
  Definition axes_fit (d n : nat) : bool := Nat.eqb d n || Nat.eqb d 1 || Nat.eqb n 1.
  (** geometry.py:84-169, and the broadcasting in geometry.py:296-307.  A request that misses the cache goes on with the
      coefficients of all orders from 1 on (C11): for m >= 2 they do not fit the translation coefficients, or are
      stretched to fit, which is not modelled. *)
  Definition s_elements (m : Z) (ks : list R) : M gstate (nat -> roundtrip) :=
    s <~ get ;;
    if match g_K s with Some k => same_ks k ks | None => false end then
      V <~ s_trans m ks ;;
      ret (pack m (g_A s) (g_B s) V)
    else
      A <~ lift (mieA mieb c ks) ;;
      _ <~ put (set_A A) ;;
      B <~ lift (mieB mieb c ks) ;;
      _ <~ put (set_B B) ;;
      _ <~ put (set_K ks) ;;
      V <~ s_trans m ks ;;
      if (m <=? 1)%Z then ret (pack m A B V)
      else if axes_fit (c_lmax c) (n1 c m) && axes_fit (c_lssmax c) (n2 c m) then raise unk
      else raise ValueError.
  (** geometry.py:282-331 without a leading zero frequency *)
  Definition s_blocks (m : Z) (ks : list R) : M gstate (arr3 * arr3 * arr3 * arr3) :=
    e <~ s_elements m ks ;;
    lift_res (blockmatrices (length ks) (n1 c m) (n2 c m) e).
  (** geometry.py:500-502 *)
  Definition s_lndet (m : nat) (ks : list R) : M gstate (list xr) :=
    Bs <~ s_blocks (Z.of_nat m) ks ;;
    (let '(A, B, C, D) := Bs in
     big <~ lift_res (matrix_append [A; B; C; D]) ;;
     lift_opt (balanced_slogdet fuel conv big)).

  (** ** zero frequency *)
  (** geometry.py:196-209 *)
  Definition static_coefs : out unit :=
    match c_1 c, c_2 c with
    | Solid mat1 ra, Solid mat2 rb =>
        let! A := mie_k0 mat1 (c_med c) 0 (c_lmax c) ra in
        let! B := if c_ext c then mie_k0 mat2 (c_med c) 0 (c_lssmax c) rb else mie_internal_k0 (c_med c) mat2 0 (c_lssmax c) rb in
        Val tt
    | _, _ => Exc NotImplementedError
    end.
  (** geometry.py:171-220; coefficients stored by a request with m >= 2 do not start at l = 1, and later requests use wrong
      ones (C12): not modelled *)
  Definition s_elements_k0 (m : Z) : M gstate unit :=
    s <~ get ;;
    _ <~ (match g_0 s with
          | Some m0 => if (m0 <=? 1)%Z then ret tt else raise unk
          | None => _ <~ lift static_coefs ;; put (set_0 m)
          end) ;;
    _ <~ lift (elements_k0 transb c m) ;;
    if g_force s then raise NotImplementedError else ret tt.
  (** geometry.py:222-280 *)
  Definition s_blocks_k0 (m : Z) : M gstate (arr2 * arr2) :=
    _ <~ s_elements_k0 m ;;
    lift (blockmatrices_k0 transb c m).
  (** geometry.py:458-461 *)
  Definition s_lndet_k0 (m : nat) : M gstate xr :=
    AB <~ s_blocks_k0 (Z.of_nat m) ;;
    (let '(A, B) := AB in lift_opt (sln_det_blockdiagonal fuel conv A B)).

  (** ** the sums over m *)
  (** geometry.py:463-473, 475-489, 491-516 *)
  Definition geo_mSumme_k0 : M gstate (list xr) := mSumme_k0 s_lndet_k0 (c_lmax c) precision.
  Definition geo_single_m : nat -> list R -> M gstate (list xr) := single_m s_lndet s_lndet_k0.
  Definition geo_mSumme : list R -> M gstate (list xr) := mSumme s_lndet s_lndet_k0 (c_lmax c) precision.

  (** geometry.py:282-331 *)
  Definition s_blocks_all (m : Z) (ks : list R) : M gstate (arr3 * arr3 * arr3 * arr3) :=
    match ks with
    | [] => raise IndexError
    | k :: rest =>
        if Reqb k 0 then
          Bs <~ s_blocks m rest ;;
          AB <~ s_blocks_k0 m ;;
          ret (let '(A, B, C, D) := Bs in let '(te, tm) := AB in
               (prepend (m2 te) A, prepend (fun _ _ => 0) B, prepend (fun _ _ => 0) C, prepend (m2 tm) D))
        else s_blocks m ks
    end.
  (** geometry.py:581-591 *)
  Definition s_super (m : nat) (ks : list R) (flag : bool) : M gstate arr3 :=
    _ <~ put (set_flag flag) ;;
    Bs <~ s_blocks_all (Z.of_nat m) ks ;;
    lift_res (supermatrix Bs).
  (** geometry.py:547-559, order = "automatic", forceFlag = 0 *)
  Definition s_trips (m : nat) (ks : list R) : M gstate (list xr) :=
    big <~ s_super m ks false ;;
    nl <~ lift_opt (arbitrary_roundtrips fuel precision big OAuto) ;;
    ret (map Fin (snd nl)).
  Definition geo_mSum_roundtrips : list R -> M gstate (list xr) := mSum_roundtrips (c_lmax c) precision s_trips.

  (** geometry.py:593-604; [garbage]: np.empty.  The test (…).all() < 1e-5 holds iff some entry is exactly zero. *)
  Definition s_dot (garbage : nat -> mat) (m : nat) (ks : list R) : M gstate (list R) :=
    big <~ s_super m ks false ;;
    big_force <~ s_super m ks true ;;
    lift_res (trace_dot_3d garbage big big_force).
  Definition unchanged (v w : R) : bool := xeqb (xabs (xsub (xabs (xdiv (Fin v) (Fin w))) (Fin 1))) (Fin 0).
  Fixpoint dloop (garbage : nat -> mat) (n m : nat) (ks : list R) (acc : list R) : M gstate (list R) :=
    match n with
    | O => ret acc
    | S n =>
        t <~ s_dot garbage m ks ;;
        (let new := map (fun p => fst p + 2 * snd p) (combine acc t) in
         if existsb (fun p => unchanged (fst p) (snd p)) (combine acc new) then ret new
         else dloop garbage n (S m) ks new)
    end.
  Definition geo_mSum_trace_dot (garbage : nat -> mat) (ks : list R) : M gstate (list R) :=
    t <~ s_dot garbage 0 ks ;; dloop garbage (c_lmax c) 1 ks t.

  (** ** single round trips *)
  (** geometry.py:519-545.  [xrange]: the name exists (Python 2); without it the call fails after the first matrix.
      [mmax]: round(log(precision)/log(0.5)) or the argument. *)
  Definition traces (Bs : arr3 * arr3 * arr3 * arr3) (nk : nat) : list R :=
    let '(A, B, C, D) := Bs in map (fun q => mtrace (r3 A) (madd (m3 A q) (m3 D q))) (seq 0 nk).
  Fixpoint oloop (mmax : Z) (n m : nat) (ks : list R) (acc : list R) : M gstate (list R) :=
    match n with
    | O => ret acc
    | S n =>
        Bs <~ s_blocks_all (Z.of_nat m) ks ;;
        (let new := map (fun p => fst p + 2 * snd p) (combine acc (traces Bs (length ks))) in
         if Nat.eqb (r3 (fst (fst (fst Bs)))) 1 then ret new
         else if (mmax <=? Z.of_nat m)%Z then ret new
         else oloop mmax n (S m) ks new)
    end.
  Inductive mmax_arg := MAuto | MGiven (n : Z) | MOther.
  Definition geo_mSum_oneRoundtrip (xrange : bool) (ks : list R) (mmax : mmax_arg) : M gstate (list R) :=
    Bs <~ s_blocks_all 0 ks ;;
    if xrange then
      if Rltb 0 precision then
        mm <~ (match mmax with
               | MAuto => ret (pyround (ln precision / ln 0.5))
               | MGiven n => if (n <=? Z.of_nat (c_lmax c))%Z then ret n else raise AssertionError
               | MOther => raise AssertionError
               end) ;;
        oloop mm (c_lmax c) 1 ks (traces Bs (length ks))
      else if Reqb precision 0 then raise OverflowError else raise ValueError
    else raise NameError.

  (** ** thermodynamics.py with such a geometry; [trace]: evaluation="trace" (geometry.py:50-53).
      Arrays with infinite or undefined entries: not modelled. *)
  Fixpoint finite (l : list xr) : option (list R) :=
    match l with
    | [] => Some []
    | Fin x :: r => match finite r with Some r => Some (x :: r) | None => None end
    | _ => None
    end.
  Definition s_finite (m : M gstate (list xr)) : M gstate (list R) :=
    l <~ m ;; match finite l with Some r => ret r | None => raise unk end.
  Definition ops (trace : bool) (garbage : nat -> mat) : geo_ops gstate :=
    {| g_mSumme := fun ks => s_finite ((if trace then geo_mSum_roundtrips else geo_mSumme) ks);
       g_mSumme_k0 := s_finite geo_mSumme_k0;
       g_trace_dot := geo_mSum_trace_dot garbage |}.

  (** thermodynamics.py:182-203: oneRoundtrip.F_alle; SphereSphere has no method mSum_trace_dot_oneRoundtrip *)
  Definition one_F_alle (xrange : bool) (garbage : nat -> mat) (ks : list R) : M (finiteT gstate) (list R) := fun t =>
    match ks with
    | [] => (t, Err IndexError)
    | k0 :: rest =>
        if Reqb k0 0 then
          if t_force t then (t, Err AttributeError)
          else (F0 <~ on_geom (geo_mSum_oneRoundtrip xrange [1e-10] MAuto) ;;
                Fa <~ on_geom (geo_mSum_oneRoundtrip xrange rest MAuto) ;;
                ret (half F0 ++ Fa)) t
        else if t_force t then on_geom (geo_mSum_trace_dot garbage ks) t
        else on_geom (geo_mSum_oneRoundtrip xrange ks MAuto) t
    end.
  (** thermodynamics.py:117-129 and 73-94 with that method *)
  Definition one_matsubaras (xrange : bool) (garbage : nat -> mat) (empty : nat -> R) : M (finiteT gstate) (list R) := fun t =>
    if (t_nprocs t =? 0)%Z then
      match slicewise_eval empty (fun x => one_F_alle xrange garbage (map (fun n => t_deltaT t * IZR n) x)) 0 (t_nmax t) (PyInt 50) t with
      | Some r => r
      | None => (t, Err unk)
      end
    else (t, Err NameError).
  Definition one_free_energy (xrange : bool) (garbage : nat -> mat) (empty : nat -> R) : M (finiteT gstate) (list R) :=
    t <~ get ;;
    f <~ (match t_f t with
          | Some f => ret f
          | None => f <~ one_matsubaras xrange garbage empty ;; _ <~ put (fun t => with_f t f) ;; ret f
          end) ;;
    t <~ get ;;
    ret (temperature_table (t_deltaT t) (maxstep t) f).
  Definition one_force (xrange : bool) (garbage : nat -> mat) (empty : nat -> R) : M (finiteT gstate) (list R) :=
    _ <~ put (fun t => with_force t true) ;;
    t <~ get ;;
    f <~ (match t_ff t with
          | Some f => ret f
          | None => f <~ one_matsubaras xrange garbage empty ;; _ <~ put (fun t => with_ff t f) ;; ret f
          end) ;;
    t <~ get ;;
    ret (temperature_table (t_deltaT t) (maxstep t) f).
End Run.
