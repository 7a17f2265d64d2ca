(** * Property C63: the interior geometry at zero frequency *)
From Coq Require Import Reals.
From Coq Require Import List Lia Lra ZArith.
From mathcomp Require Import all_ssreflect ssralg matrix mxalgebra poly mxpoly.
From Verif Require Import Base RStruct Mat_Model Mat_Spec Bessel_Model Scat_Model Scat_Spec Scat_Proofs Scat_Proofs7 Scat_Proofs9 Scat_Proofs10 Scat_Props2 Trans_Model Trans_Spec
  Lin_Model Lin_Spec Bal_Proofs Lin_Proofs Trip_Proofs Lin_Proofs2 RT_Model RT_Spec RT_Proofs RT_Proofs2 RT_Proofs3 RT_Proofs4 RT_Proofs5 RT_Props RT_Proofs13.
Set Implicit Arguments.
Unset Strict Implicit.
Import GRing.Theory.
Local Open Scope ring_scope.
Delimit Scope R_scope with Re.

(** for more than one pair of orders (l, lss) the zero-frequency term of an enclosed sphere is a TypeError *)
Theorem C63_interior_refuted : forall c m1 m2 ra rb e b m, two_spheres c m1 m2 ra rb e b -> static_sphere m1 -> static_sphere m2 -> c_ext c = false ->
  (n1 c m * n2 c m)%N <> 1%N ->
  blockmatrices_k0 trans_bessels c m = Exc TypeError /\
  (forall fuel conv, single_m_k0 trans_bessels c fuel conv m = Some (Exc TypeError)) /\
  forall ks B, rt_blocks mie_bessels trans_bessels c m ks = Val B -> rt_blocks_all mie_bessels trans_bessels c m (0%Re :: ks) = Exc TypeError.
Proof.
move=> c m1 m2 ra rb e b m HC S1 S2 hext hn.
have E := @int_type_error c m1 m2 ra rb e b HC S1 S2 hext m hn.
split; first exact: E; split; first by move=> fuel conv; rewrite /single_m_k0 E.
move=> ks [[[A B] C] D] h; rewrite /rt_blocks_all; case: Reqb_spec => //= _; by rewrite h /= E.
Qed.
Print Assumptions C63_interior_refuted.

(** for a single pair of orders the code returns the limit of the finite-frequency matrices, whatever the permeability *)
Theorem C63_single_order : forall c m1 m2 ra rb e b m, two_spheres c m1 m2 ra rb e b -> static_sphere m1 -> static_sphere m2 -> c_ext c = false ->
  (0 <= m)%Z -> n1 c m = 1%N -> n2 c m = 1%N ->
  exists A0 B0 TE0 TM0, [/\ blockmatrices_k0 trans_bessels c m = Val (A0, B0), @is_arr2 1 1 A0 TE0, @is_arr2 1 1 B0 TM0,
    forall z, limit0 (fun k => \det (z%:M - round_trip 1 1 (rt_at c m k))) (\det (z%:M - TE0) * \det (z%:M - TM0)) &
    limit0 (fun k => \tr (round_trip 1 1 (rt_at c m k))) (\tr TE0 + \tr TM0)].
Proof.
move=> c m1 m2 ra rb e b m HC S1 S2 hext hm e1 e2.
have [A0 [B0 [E [h1 [h2 [h3 h4]]]]]] := @int_blocks c m1 m2 ra rb e b HC S1 S2 hext m hm e1 e2.
exists (Arr2 1 1 A0), (Arr2 1 1 B0), (mx 1 A0), (mx 1 B0).
have RS k : round_trip 1 1 (rt_at c m k) = super 1 (blocks 1 (fun _ _ _ => 1%Re) (rt_at c m k)) by have := rt_super c m k; rewrite /rblocks e1 e2.
have VL i j : lim0 (fun k => round_trip 1 1 (rt_at c m k) i j) (block_mx (mx 1 A0) 0 0 (mx 1 B0) i j).
  pose q0 : mat * mat * mat * mat := (A0, fun _ _ => 0%Re, fun _ _ => 0%Re, B0).
  have -> : block_mx (mx 1 A0) 0 0 (mx 1 B0) = super 1 q0 by rewrite /super /q0 /=; congr block_mx; apply/matrixP => a d; rewrite !mxE.
  apply: (@lim0_ext (fun k => super 1 (blocks 1 (fun _ _ _ => 1%Re) (rt_at c m k)) i j)); first by move=> k _; rewrite RS.
  apply: lim0_super => a d ha hd; have -> : a = 0%N by lia. have -> : d = 0%N by lia.
  by split.
split=> //.
- by move=> z; rewrite RmultE -(@det_ud 1 z _ 0 0 _ erefl erefl); apply: lim0_zm => i j; apply: VL.
- by rewrite RplusE; have -> : \tr (mx 1 A0) + \tr (mx 1 B0) = \tr (block_mx (mx 1 A0) 0 0 (mx 1 B0)) by [rewrite mxtrace_block]; apply: lim0_tr => i j; apply: VL.
Qed.
Print Assumptions C63_single_order.

(** ** the hypotheses are met: a metal sphere of radius 1 in water inside a metal cavity of radius 4, centres 2 apart *)
Definition gold_in_cavity (l ls : nat) : config := {| c_1 := Solid (Lorentz e_Gold None) 1; c_2 := Solid (Lorentz e_Gold None) 4; c_med := Lorentz e_Water None; c_L := 2;
  c_lmax := l; c_lssmax := ls; c_ext := false; c_mat := fun=> PEC |}.
Example C63_gold : two_spheres (gold_in_cavity 3 4) (Lorentz e_Gold None) (Lorentz e_Gold None) 1 4 e_Water None /\ static_sphere (Lorentz e_Gold None) /\
  (n1 (gold_in_cavity 3 4) 1 * n2 (gold_in_cavity 3 4) 1)%N = 12%N /\ n1 (gold_in_cavity 3 3) 3 = 1%N /\ n2 (gold_in_cavity 3 3) 3 = 1%N /\
  sphere_sphere (fun=> PEC) (c_1 (gold_in_cavity 3 4)) (c_2 (gold_in_cavity 3 4)) (Lorentz e_Water None) 2 3 4 = Ok (gold_in_cavity 3 4).
Proof.
split; first by rewrite /two_spheres /=; split=> //; split=> //; split; [exact water_insulator|lra].
split; first by right; right; exists e_Gold, None; exact gold_drude.
do 3 split=> //; rewrite /sphere_sphere /=; case: Rltb_spec => //= h; lra.
Qed.
