(** * Model of geometry.py: CoatedSphereSphere (geometry.py:607-666)

    The class overrides roundTrip_elements only; everything else is inherited, with the coatings as the materials mat1, mat2
    and the outer radii r1, r2. *)
From Coq Require Import Bool Reals ZArith List.
From Verif Require Import Base Thermo_Model Geo_Model Bessel_Model Scat_Model Trans_Model Lin_Model RT_Model Run_Model.
Import ListNotations.
Open Scope R_scope.

Record coated := {
  k_r1i : R; k_r1a : R; k_core1 : material; k_coat1 : material;
  k_r2i : R; k_r2a : R; k_core2 : material; k_coat2 : material;
  k_L : R; k_med : material; k_lmax : nat; k_lssmax : Z; k_force : nat;
}.
(** geometry.py:608-611: attributes of the parent class; its parameters after lmax are l_offset, lssmax, precision, forceFlag, so
    that lssmax of the caller becomes l_offset and forceFlag becomes lssmax (C23) *)
Definition parent (k : coated) : config :=
  {| c_1 := Solid (k_coat1 k) (k_r1a k); c_2 := Solid (k_coat2 k) (k_r2a k); c_med := k_med k; c_L := k_L k; c_lmax := k_lmax k; c_lssmax := k_force k;
     c_ext := Rltb (k_r1a k + k_r2a k) (k_L k); c_mat := fun _ => k_coat1 k |}.
Definition coated_fresh : gstate := fresh false.

Section Coated.
  Context (unk : exn) (fuel : nat) (transb : bessel_fun) (k : coated) (precision conv : R).
  Let c := parent k.
  (** geometry.py:636-642: mie_coated(k, lmin, lmax, ri, ra) is called with four arguments.  A hit of the cache would go on
      with stored coefficients ([unk]). *)
  Definition coated_elements (m : Z) (ks : list R) : M gstate (nat -> roundtrip) :=
    s <~ get ;;
    if match g_K s with Some k => same_ks k ks | None => false end then raise unk else raise TypeError.
  (** geometry.py:282-331 *)
  Definition coated_blocks (m : Z) (ks : list R) : M gstate (arr3 * arr3 * arr3 * arr3) :=
    e <~ coated_elements m ks ;;
    lift_res (blockmatrices (length ks) (n1 c m) (n2 c m) e).
  (** geometry.py:500-502 *)
  Definition coated_lndet (m : nat) (ks : list R) : M gstate (list xr) :=
    Bs <~ coated_blocks (Z.of_nat m) ks ;;
    (let '(A, B, C, D) := Bs in
     big <~ lift_res (matrix_append [A; B; C; D]) ;;
     lift_opt unk (balanced_slogdet fuel conv big)).
  (** geometry.py:171-220, 463-473, 491-516 *)
  Definition coated_mSumme_k0 : M gstate (list xr) := geo_mSumme_k0 unk fuel transb c precision conv.
  Definition coated_mSumme : list R -> M gstate (list xr) := mSumme coated_lndet (s_lndet_k0 unk fuel transb c conv) (c_lmax c) precision.
  (** geometry.py:582-591, 593-604: supermatrix(m, matsubaras, 0) clears the flag and fails *)
  Definition coated_trace_dot (ks : list R) : M gstate (list R) :=
    _ <~ put (set_flag false) ;;
    _ <~ (match ks with [] => raise IndexError | x :: rest => if Reqb x 0 then coated_blocks 0 rest else coated_blocks 0 ks end) ;;
    raise unk.
  Definition coated_ops : geo_ops gstate :=
    {| g_mSumme := fun ks => s_finite unk (coated_mSumme ks); g_mSumme_k0 := s_finite unk coated_mSumme_k0; g_trace_dot := coated_trace_dot |}.
End Coated.
