(** * The entropy in the far regime is the derivative of the free energy *)
From Coq Require Import Reals.
From Coquelicot Require Import Coquelicot.
From Coq Require Import Lia Lra ZArith List.
From Verif Require Import Base Dip_Spec Dip_Proofs5.
Import ListNotations.
Open Scope R_scope.

Lemma is_derive_g nu : 0 < nu -> is_derive (fun x => x / sinh x) nu ((sinh nu - nu * cosh nu) / (sinh nu) ^ 2).
Proof.
  intros H. assert (S := sinh_pos nu H). apply is_derive_ext with (fun x => x * / ((exp x - exp (- x)) / 2)); [intros x; reflexivity|].
  auto_derive; [unfold sinh in S; lra|]. unfold sinh, cosh in *. field. lra.
Qed.
Lemma is_derive_cosh nu : is_derive cosh nu (sinh nu).
Proof. apply is_derive_Reals. apply derivable_pt_lim_cosh. Qed.
Lemma far_entropy_derive nu : 0 < nu -> is_derive far_analytic nu (far_entropy nu).
Proof.
  intros H. assert (S := sinh_pos nu H). set (g := fun x => x / sinh x).
  assert (G : is_derive g nu ((g nu - g nu ^ 2 * cosh nu) / nu)).
  { replace ((g nu - g nu ^ 2 * cosh nu) / nu) with ((sinh nu - nu * cosh nu) / (sinh nu) ^ 2); [now apply is_derive_g|]. unfold g. field. lra. }
  assert (C := is_derive_cosh nu).
  apply is_derive_ext with (fun x => 5 / 4 * (2 * g x * cosh x + 2 * g x ^ 2 + g x ^ 3 * cosh x) + 5 / 4 * (g x * cosh x + g x ^ 2 + 3 / 2 * g x ^ 3 * cosh x + / 2 * g x ^ 4 * (2 * cosh x ^ 2 + 1) + / 2 * g x ^ 5 * cosh x * (cosh x ^ 2 + 2))
    + 2 * (/ 4 * (g x ^ 3 * cosh x + g x ^ 4 * (2 * cosh x ^ 2 + 1) + g x ^ 5 * cosh x * (cosh x ^ 2 + 2)))).
  { intros x. unfold far_analytic, g. cbv zeta. replace 1.25 with (5 / 4) by lra. replace 1.5 with (3 / 2) by lra. replace 0.5 with (/ 2) by lra. replace 0.25 with (/ 4) by lra. reflexivity. }
  auto_derive.
  - repeat split; try (exists ((g nu - g nu ^ 2 * cosh nu) / nu); exact G); exists (sinh nu); exact C.
  - change (fun x : R => g x) with g. rewrite (is_derive_unique _ _ _ G). assert (E : sinh nu = nu / g nu) by (unfold g; field; lra). assert (P : 0 < g nu) by (apply Rdiv_lt_0_compat; lra).
    assert (Q : cosh nu ^ 2 - (nu / g nu) ^ 2 = 1) by (rewrite <- E; unfold cosh, sinh; assert (X := exp_plus nu (- nu)); rewrite Rplus_opp_r, exp_0 in X; field_simplify; nra).
    rewrite E. unfold far_entropy. fold (g nu). cbv zeta. replace 1.25 with (5 / 4) by lra. replace 2.5 with (5 / 2) by lra. replace 0.5 with (/ 2) by lra. replace 0.25 with (/ 4) by lra.
    set (c := cosh nu) in *. set (h := g nu) in *.
    assert (N : nu ^ 2 = h ^ 2 * (c ^ 2 - 1)) by (replace (c ^ 2 - 1) with ((nu / h) ^ 2) by lra; field; lra).
    assert (V : nu / h = h * (c ^ 2 - 1) / nu) by (apply (Rmult_eq_reg_r (nu * h)); [field_simplify; [rewrite N; ring|lra|lra]|nra]).
    rewrite V. field. lra.
Qed.
