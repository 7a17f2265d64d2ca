(** * Property C95: the hypotheses are met *)
From Coq Require Import Reals.
From Coq Require Import List Lia Lra ZArith.
From mathcomp Require Import all_ssreflect ssralg fingroup perm matrix mxalgebra poly mxpoly.
From Verif Require Import Base RStruct Mat_Model Mat_Spec Thermo_Model Geo_Model Geo_Spec Bessel_Model Scat_Model Scat_Spec Trans_Model Trans_Spec Lin_Model Lin_Spec RT_Model RT_Spec RT_Spec2 RT_Props2
  Run_Model Run_Spec Run_Proofs4 Run_Props Run_Props2 Conv_Spec Conv_Spec2 Conv_Props Conv_Props2 Far_Proofs2 Dip_Spec Dip_Props Cut_Proofs RT_Props3 Scat_Props2  Half_Spec Half_Proofs Half_Props.
Set Implicit Arguments.
Unset Strict Implicit.
Import GRing.Theory.
Local Open Scope ring_scope.
Delimit Scope R_scope with Re.

(** two perfectly reflecting spheres in vacuum far apart, lmax = 1, the precision and Bessel functions of the code *)
Example C95_mirrors : exists L0, (0 < L0)%Re /\ forall L, (L0 <= L)%Re -> let c := at_distance functional_config L in
  exists v0 v k1, [/\ f_alle_gives mie_bessels c 1e-4 1e-10 [:: 0%Re] [:: v0], limit0 v (2 * v0)%Re, limit0 (fun k => v0 / v k)%Re (1 / 2)%Re, (0 < k1)%Re &
    forall k, (0 < k < k1)%Re -> f_alle_gives mie_bessels c 1e-4 1e-10 [:: k] [:: v k]].
Proof.
have [HC [P [hmu [he h0]]]] := C93_example.
have q3 : (0 < 1 / 10)%Re by lra.
have [L0 [p0 h]] := @C93_far_static mie_bessels functional_config _ _ _ _ _ _ _ _ _ _ (1 / 10)%Re (or_introl erefl) HC P P erefl hmu erefl erefl q3.
exists L0; split=> // L hL c; have hL0 : (0 < L)%Re by lra.
have [d0 hd] := @choose_upto R (fun m D => [/\ limit0 (fun k => \det (1%:M - trip mie_bessels (at_distance functional_config L) (Z.of_nat m) k)) D, (0 < D)%Re &
    (Rabs (ln D / (0.9 * 0.6 / L ^ 2) ^ 3 + (if m == 0%N then 4 else 1) * (1 * 1 + - / 2 * - / 2)) < 1 / 10)%Re]) 0%Re 1%N (h L hL).
pose q := ((0.9 * 0.6 / L ^ 2) ^ 3)%Re.
have q0 : (0 < q)%Re by apply: pow_lt; apply: Rdiv_lt_0_compat; [lra|apply: pow_lt].
have l0 : (- (51 / 10) * q < ln (d0 0%N) < - (49 / 10) * q)%Re.
  have [_ _] := hd 0%N (le_S _ _ (le_n _)); rewrite /= -/q => /Rabs_def2 [a1 a2].
  have E : (ln (d0 0%N) = ln (d0 0%N) / q * q)%Re by field; lra.
  move: E a1 a2; move: (ln (d0 0%N) / q)%Re => y -> a1 a2; split; apply: Rmult_lt_compat_r => //; lra.
have l1 : (- (135 / 100) * q < ln (d0 1%N) < - (115 / 100) * q)%Re.
  have [_ _] := hd 1%N (le_n _); rewrite /= -/q => /Rabs_def2 [a1 a2].
  have E : (ln (d0 1%N) = ln (d0 1%N) / q * q)%Re by field; lra.
  move: E a1 a2; move: (ln (d0 1%N) / q)%Re => y -> a1 a2; split; apply: Rmult_lt_compat_r => //; lra.
have r0 : rsum (fun m => ln (d0 m)) 0 = ln (d0 0%N) by rewrite /rsum /=; lra.
have r1 : rsum (fun m => ln (d0 m)) 1 = (ln (d0 0%N) + 2 * ln (d0 1%N))%Re by rewrite /rsum /=; lra.
have HC' : two_spheres c PEC PEC 0.9 0.6 [::] None by split=> //; split=> //; have [_ [_ [x1 [x2 [x3 _]]]]] := HC; split=> //.
have st : settled 1e-4 (c_lmax c) (fun m => ln (d0 m)) 1.
  split; first by []. split.
    move=> j hj; have : j = 0%N \/ j = 1%N by lia. by move=> [->|->]; rewrite ?r0 ?r1; lra.
  by split; [move=> j; lia|move=> /= hlt; lia].
have big : (1 / 10 < change (fun m => ln (d0 m)) 1)%Re /\ (1 / 10 < change_k0 (fun m => ln (d0 m)) 1)%Re.
  have -> : (change_k0 (fun m => ln (d0 m)) 1 = change (fun m => ln (d0 m)) 1 / (1 + change (fun m => ln (d0 m)) 1))%Re.
    apply: change_same_sign; [lia|right; rewrite (_ : (1 - 1)%coq_nat = 0%N) // r0 r1; lra].
  have : (4 / 10 < change (fun m => ln (d0 m)) 1)%Re.
    rewrite /change (_ : (1 - 1)%coq_nat = 0%N) // r0 r1.
    have E : ((ln (d0 0%N) + 2 * ln (d0 1%N)) / ln (d0 0%N) = 1 + 2 * (ln (d0 1%N) / ln (d0 0%N)))%Re by field; lra.
    have y1 : (2 / 10 < ln (d0 1%N) / ln (d0 0%N))%Re.
      apply: (Rmult_lt_reg_r (- ln (d0 0%N))); first lra.
      have -> : (ln (d0 1%N) / ln (d0 0%N) * - ln (d0 0%N) = - ln (d0 1%N))%Re by field; lra.
      lra.
    rewrite E (Rabs_pos_eq (1 + 2 * (ln (d0 1%N) / ln (d0 0%N))))%Re; last lra. rewrite Rabs_pos_eq; lra.
  move: (change _ _) => y hy; split; first lra.
  apply: (Rmult_lt_reg_r (1 + y)); first lra.
  have -> : (y / (1 + y) * (1 + y) = y)%Re by field; lra.
  lra.
have c1 : (1e-10 < 1)%Re by lra.
have hd' m : (m <= c_lmax c)%coq_nat -> limit0 (fun k => \det (1%:M - trip mie_bessels c (Z.of_nat m) k)) (d0 m) /\ (0 < d0 m)%Re by move=> /hd [z1 z2 _]; exact (conj z1 z2).
have SP : static_sphere PEC by left.
have lm : (1 <= c_lmax c)%coq_nat by []. have ls : (c_lmax c <= c_lssmax c)%coq_nat by [].
have [|v0 [v [b1 _ b2 b3 [k1 [b4 b5]]]]] := @C95_half mie_bessels c PEC PEC 0.9%Re 0.6%Re [::] None 1e-4%Re 1e-10%Re d0 1%N (or_introl erefl) HC' SP SP erefl hmu lm ls c1 hd' st.
  move=> j [j1 j2]; have -> : j = 1%N by lia. move: big => [x1 x2]; split=> y; lra.
by exists v0, v, k1.
Qed.
(** a gold sphere and a perfect reflector in vacuum at distance 20, all truncations *)
Example C95_gold : forall N, (1 <= N)%coq_nat -> let c := truncated (at_distance gold_in_vacuum 20) N N in
  exists v0 v, [/\ f_alle_gives exact_bessels c 0 1e-10 [:: 0%Re] [:: v0], limit0 v (2 * v0)%Re & forall k, (0 < k)%Re -> (v k < 0)%Re /\ f_alle_gives exact_bessels c 0 1e-10 [:: k] [:: v k]].
Proof.
move=> N hN c; have SP : static_sphere PEC by left.
have SG : static_sphere (Lorentz e_Gold None) by right; right; exists e_Gold, None; exact gold_drude.
apply: (@C95_attraction (at_distance gold_in_vacuum 20) (Lorentz e_Gold None) PEC 1%Re 2%Re [::] None 1%Re) => //; try (rewrite /=; lra).
- by do 2 split=> //; split; [split; [by []|split; [constructor|by []]]|rewrite /=; lra].
- by move=> k hk; split; [exact: gold_sharp|left].
Qed.
