(** * Property C72: free energies of a sphere inside a spherical cavity *)
From Coq Require Import Reals.
From Coq Require Import List Lia Lra ZArith.
From mathcomp Require Import all_ssreflect ssralg matrix mxalgebra poly mxpoly.
From Verif Require Import Base RStruct Mat_Model Mat_Spec Thermo_Model Thermo_Spec Thermo_Proofs Geo_Model Geo_Spec Bessel_Model Scat_Model Scat_Spec Scat_Proofs Scat_Proofs7 Scat_Proofs9 Scat_Proofs10 Scat_Props2 Trans_Model Trans_Spec
  Lin_Model Lin_Spec Lin_Proofs Lin_Proofs2 RT_Model RT_Spec RT_Spec2 RT_Proofs2 RT_Proofs3 RT_Proofs4 RT_Props RT_Props2 RT_Props3 RT_Props5 RT_Props7
  Run_Model Run_Spec Run_Proofs Run_Proofs2 Run_Proofs3 Run_Proofs4 Run_Proofs5 Run_Proofs6 Run_Proofs8 Run_Props Run_Props2 Run_Props3 Zero_Model Zero_Props.
Set Implicit Arguments.
Unset Strict Implicit.
Import GRing.Theory.
Local Open Scope ring_scope.
Delimit Scope R_scope with Re.

(** with more than one pair of orders every request that includes the frequency zero fails, whatever happened before *)
Theorem C72_static_refuted : forall mieb c m1 m2 ra rb e b precision conv, two_spheres c m1 m2 ra rb e b -> static_sphere m1 -> static_sphere m2 -> c_ext c = false ->
  (c_lmax c * c_lssmax c)%N <> 1%N -> forall unk fuel s, sound mieb c s -> exists s', [/\ sound mieb c s',
    geo_mSumme_k0 unk fuel trans_bessels c precision conv s = (s', Err TypeError) &
    forall rest, geo_mSumme unk fuel mieb trans_bessels c precision conv (0%Re :: rest) s = (s', Err TypeError)].
Proof.
move=> mieb c m1 m2 ra rb e b precision conv HC S1 S2 hx hn unk fuel s hs.
have [s' [E h]] := mSumme_k0_int c m1 m2 ra rb e b HC S1 S2 hx hn unk fuel mieb precision conv s hs.
exists s'; split=> // rest.
by rewrite /geo_mSumme /mSumme; case: Reqb_spec => // _; move: E; rewrite /geo_mSumme_k0 /mbind => ->.
Qed.
Print Assumptions C72_static_refuted.

(** finiteT with its default analytic_n0 = True never yields a free energy or an entropy *)
Theorem C72_analytic_refuted : forall mieb c m1 m2 ra rb e b precision conv t nmax, two_spheres c m1 m2 ra rb e b -> static_sphere m1 -> static_sphere m2 -> c_ext c = false ->
  (c_lmax c * c_lssmax c)%N <> 1%N -> ready mieb c t nmax -> t_analytic t = true ->
  forall unk fuel trace garbage empty, let o := ops unk fuel mieb trans_bessels c precision conv trace garbage in exists t',
    [/\ free_energy o empty t = (t', Err TypeError), entropy o empty t = (t', Err TypeError) & ready mieb c t' nmax].
Proof.
move=> mieb c m1 m2 ra rb e b precision conv t nmax HC S1 S2 hx hn [Hn [Hp [Hf [HT [Hnone Hs]]]]] hA unk fuel trace garbage empty o.
have [s' [E h]] := mSumme_k0_int c m1 m2 ra rb e b HC S1 S2 hx hn unk fuel mieb precision conv (t_geom t) Hs.
have [|e1 e2] := @energy_fails _ o empty t nmax TypeError s' Hn Hp Hnone; first by rewrite Hf hA /= /s_finite /mbind E.
by exists (with_geom t s'); split.
Qed.
Print Assumptions C72_analytic_refuted.

(** ** Non-vacuity: a bubble in water inside a perfectly reflecting cavity.  Without the analytic term the same calculation
    succeeds, with non-negative results (C66_repulsion) *)
Definition bubble_in_shell : config := {| c_1 := Solid (Lorentz [::] None) 1; c_2 := Solid PEC 4; c_med := Lorentz e_Water None; c_L := 1; c_lmax := 3; c_lssmax := 4; c_ext := false; c_mat := fun=> PEC |}.
Lemma shell_solids : solids bubble_in_shell (Lorentz [::] None) PEC 1 4 (eps_spec e_Water) (mu_val None).
Proof.
do 2 split=> //; split; first by right; exists (eps_spec [::]), (mu_val None); exact: vacuum_has.
split; first by left.
split; first exact: water_has.
by rewrite /=; split; [lra|split=> //; lia].
Qed.
Example C72_shell : yields exact_bessels bubble_in_shell 1e-4 1e-10 (task 1 3 15 false) (fun x => 0 <= x)%Re /\ Z.to_nat (pyround (3 / 1)) = 3%N /\
  forall unk fuel trace garbage empty, snd (free_energy (ops unk fuel exact_bessels trans_bessels bubble_in_shell 1e-4 1e-10 trace garbage) empty (task 1 3 15 true)) = Err TypeError.
Proof.
have d1 : (0 < 1)%Re by lra.
have i15 : INR 15 = 15%Re by rewrite INR_IZR_INZ.
split; last split.
- apply: (@C66_repulsion _ _ _ 1%Re 4%Re _ _ (-1)%Re _ _ _ 15%N shell_solids) => //; try lra; try by lia.
  + by move=> k hk; have [g1 [g2 _]] := C61_bubble hk.
  + move=> q hq; apply: water_regime => //; first exact: water_has.
    by move=> k hk; have := freqs_between 1 15 q k d1 hk; rewrite i15; lra.
- by rewrite /Rdiv Rinv_1 Rmult_1_r (pyround_IZR 3).
- move=> unk fuel trace garbage empty.
  have HC : two_spheres bubble_in_shell (Lorentz [::] None) PEC 1 4 e_Water None.
    by rewrite /two_spheres /=; split=> //; split=> //; split; [exact water_insulator|lra].
  have S1 : static_sphere (Lorentz [::] None) by right; left; exists [::], None; split.
  have S2 : static_sphere PEC by left.
  by have [//|t' [E _ _]] := @C72_analytic_refuted exact_bessels _ _ _ _ _ _ _ 1e-4%Re 1e-10%Re (task 1 3 15 true) 15 HC S1 S2 erefl _ (task_ready _ _ _ _ _ d1) erefl unk fuel trace garbage empty; rewrite ?E.
Qed.
