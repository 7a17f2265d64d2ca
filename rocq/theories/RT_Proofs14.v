(** * The static blocks at large distances *)
From Coq Require Import Reals Lra Lia ZArith List.
From Verif Require Import Base Bessel_Model Scat_Model Trans_Model Trans_Spec Lin_Model RT_Model RT_Spec RT_Spec2 RT_Proofs2 RT_Proofs12.
Open Scope R_scope.

Definition G6 (L : R) : R := (/ L) ^ 6.
Lemma G6_01 L : 1 <= L -> 0 <= G6 L <= 1.
Proof.
  intros H. assert (H0 : 0 < / L) by (apply Rinv_0_lt_compat; lra). assert (H1 : / L <= 1) by (rewrite <- Rinv_1; apply Rinv_le_contravar; lra).
  unfold G6. split; [apply pow_le; lra|]. rewrite <- (pow1 6). apply pow_incr. lra.
Qed.
Lemma sblock_far c ra rb m al be i j : below (fun L => 1 <= L) G6 (fun L => sblock (at_distance c L) ra rb m 1 al be i j).
Proof.
  change (below (fun L => 1 <= L) G6 (fun L => sumn (n2 c m) (fun s => sgn2 (lmin m + s) (lmin m + j) * static_value (trans_k0_ext m (lmin m + i) (lmin m + s)) * static_value (trans_k0_ext m (lmin m + j) (lmin m + s))
    * al i * be s * (1 * (ra / L)) ^ (lmin m + i + (lmin m + j) + 1) * (1 * (rb / L)) ^ (2 * (lmin m + s) + 1)))).
  apply below_sumn. intros s _.
  set (K := sgn2 (lmin m + s) (lmin m + j) * static_value (trans_k0_ext m (lmin m + i) (lmin m + s)) * static_value (trans_k0_ext m (lmin m + j) (lmin m + s)) * al i * be s).
  assert (Hl : (1 <= lmin m)%nat) by (unfold lmin; lia).
  set (a := (lmin m + i + (lmin m + j) + 1)%nat). set (b := (2 * (lmin m + s) + 1)%nat).
  assert (Ha : (3 <= a)%nat) by (unfold a; lia). assert (Hb : (3 <= b)%nat) by (unfold b; lia).
  exists (Rabs (K * ra ^ a * rb ^ b)). split; [apply Rabs_pos|]. intros L HL.
  assert (H0 : 0 < / L) by (apply Rinv_0_lt_compat; lra). assert (H1 : / L <= 1) by (rewrite <- Rinv_1; apply Rinv_le_contravar; lra).
  replace (K * (1 * (ra / L)) ^ a * (1 * (rb / L)) ^ b) with ((K * ra ^ a * rb ^ b) * (/ L) ^ (a + b)).
  2:{ rewrite !Rmult_1_l. unfold Rdiv. rewrite !Rpow_mult_distr, pow_add. ring. }
  rewrite Rabs_mult. apply Rmult_le_compat_l; [apply Rabs_pos|]. rewrite Rabs_pos_eq by (apply pow_le; lra).
  replace (a + b)%nat with (6 + (a + b - 6))%nat by lia. rewrite pow_add. fold (G6 L). rewrite <- (Rmult_1_r (G6 L)) at 2.
  apply Rmult_le_compat_l; [now apply G6_01|]. rewrite <- (pow1 (a + b - 6)). apply pow_incr. lra.
Qed.
Lemma G6_div C L : 1 <= L -> 0 <= C -> C * G6 L <= (C + 1) / L ^ 6.
Proof.
  intros H HC. destruct (G6_01 L H) as [G0 _]. unfold Rdiv. replace (/ L ^ 6) with (G6 L); [apply Rmult_le_compat_r; lra|].
  unfold G6. rewrite pow_inv. reflexivity.
Qed.
