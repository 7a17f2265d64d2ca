(** * Upper bounds of the Mie coefficients of a perfect reflector *)
From Coq Require Import Reals.
From Coquelicot Require Import Coquelicot.
From Coq Require Import Bool ZArith List Lia Lra.
From Verif Require Import Base Mat_Model Mat_Spec Help_Spec Help_Proofs Bessel_Model Bessel_Spec Bessel_Proofs Bessel_Proofs2 Scat_Model Scat_Spec Scat_Proofs Scat_Proofs2 Scat_Proofs3 Scat_Proofs4 Scat_Proofs7 Scat_Proofs9 Scat_Proofs11
  Rad_Spec Rad_Proofs Rad_Proofs2.
Import ListNotations.
Open Scope R_scope.

Lemma dfact_fact l : INR (fact (2 * l)) = odd_dfact l * 2 ^ l * INR (fact l).
Proof.
  induction l as [|l IH]; [cbn; ring|]. replace (2 * S l)%nat with (S (S (2 * l))) by lia.
  change (fact (S (S (2 * l)))) with (S (S (2 * l)) * (S (2 * l) * fact (2 * l)))%nat. rewrite !mult_INR, IH. rewrite !S_INR, mult_INR. change (fact (S l)) with (S l * fact l)%nat. rewrite mult_INR. cbn [odd_dfact pow]. rewrite !S_INR. cbn [INR]. ring.
Qed.
Lemma sum_last (f : nat -> R) n : (forall i, 0 <= f i) -> f n <= sum_f_R0 f n.
Proof. intros H. destruct n as [|n]; [cbn; lra|]. cbn [sum_f_R0]. assert (0 <= sum_f_R0 f n) by now apply cond_pos_sum. lra. Qed.
Lemma sph_k_low l x : 0 < x -> PI / 2 * exp (- x) * odd_dfact l / x ^ (l + 1) <= sph_k l x.
Proof.
  intros Hx. unfold sph_k. assert (HP := PI_RGT_0). assert (HE := exp_pos (- x)). assert (Hl : 0 < x ^ l) by now apply pow_lt. assert (H2 : 0 < 2 ^ l) by (apply pow_lt; lra).
  assert (F := INR_fact_lt_0 l).
  replace (PI / 2 * exp (- x) * odd_dfact l / x ^ (l + 1)) with (PI / 2 * exp (- x) / x * (INR (fact (l + l)) / (INR (fact l) * INR (fact (l - l))) / (2 * x) ^ l)).
  - apply Rmult_le_compat_l; [apply Rmult_le_pos; [nra|left; now apply Rinv_0_lt_compat]|].
    apply (sum_last (fun j => INR (fact (l + j)) / (INR (fact j) * INR (fact (l - j))) / (2 * x) ^ j)).
    intros i. assert (0 < INR (fact i) * INR (fact (l - i))) by (apply Rmult_lt_0_compat; apply INR_fact_lt_0). assert (0 < (2 * x) ^ i) by (apply pow_lt; lra).
    left. apply Rdiv_lt_0_compat; [apply Rdiv_lt_0_compat; [apply INR_fact_lt_0|assumption]|assumption].
  - replace (l + l)%nat with (2 * l)%nat by lia. rewrite dfact_fact, Nat.sub_diag. cbn [fact INR]. rewrite Rpow_mult_distr, pow_add. cbn [pow]. field. repeat split; lra.
Qed.
Lemma QQ_up j x : 0 < x -> PI / 2 * QQ j x <= exp (2 * x) * x ^ (2 * j + 3) / ((2 * INR j + 3) * odd_dfact (S j) ^ 2).
Proof.
  intros Hx. unfold QQ. assert (HP := PI_RGT_0). assert (W := wronskian (S j) x Hx). assert (K1 := sph_k_pos (S j) x Hx). assert (K2 := sph_k_pos (S (S j)) x Hx).
  assert (I2 := sph_i_pos (S (S j)) x Hx). assert (I1 := sph_i_pos (S j) x Hx). assert (L1 := sph_k_low (S j) x Hx). assert (L2 := sph_k_low (S (S j)) x Hx).
  assert (D := odd_dfact_pos (S j)). assert (J := pos_INR j).
  set (A := PI / 2 * exp (- x) * odd_dfact (S j) / x ^ (S j + 1)) in *. set (B := PI / 2 * exp (- x) * odd_dfact (S (S j)) / x ^ (S (S j) + 1)) in *.
  assert (HE := exp_pos (- x)). assert (EE := exp_pos x).
  assert (X1 : 0 < x ^ (S j + 1)) by now apply pow_lt. assert (X2 : 0 < x ^ (S (S j) + 1)) by now apply pow_lt. assert (D2 := odd_dfact_pos (S (S j))).
  assert (PA : 0 < A). { apply Rdiv_lt_0_compat; [|assumption]. apply Rmult_lt_0_compat; [nra|assumption]. }
  assert (PB : 0 < B). { apply Rdiv_lt_0_compat; [|assumption]. apply Rmult_lt_0_compat; [nra|assumption]. }
  assert (M : A * B <= sph_k (S j) x * sph_k (S (S j)) x) by (apply Rmult_le_compat; lra).
  assert (MA : 0 < A * B) by now apply Rmult_lt_0_compat.
  assert (N : sph_i (S j) x * sph_k (S (S j)) x <= PI / (2 * x ^ 2)). { assert (0 < sph_i (S (S j)) x * sph_k (S j) x) by (now apply Rmult_lt_0_compat). lra. }
  assert (G : sph_i (S j) x / sph_k (S j) x <= PI / (2 * x ^ 2) / (A * B)).
  { replace (sph_i (S j) x / sph_k (S j) x) with (sph_i (S j) x * sph_k (S (S j)) x * / (sph_k (S j) x * sph_k (S (S j)) x)) by (field; lra).
    unfold Rdiv at 2. apply Rmult_le_compat; [left; now apply Rmult_lt_0_compat|left; apply Rinv_0_lt_compat; now apply Rmult_lt_0_compat|exact N|].
    now apply Rinv_le_contravar. }
  apply Rle_trans with (PI / 2 * (PI / (2 * x ^ 2) / (A * B))); [apply Rmult_le_compat_l; lra|]. right.
  assert (E2 : exp (2 * x) = exp x * exp x) by (rewrite <- exp_plus; f_equal; ring). rewrite E2.
  assert (EI : exp (- x) = / exp x) by apply exp_Ropp. unfold A, B. rewrite EI.
  replace (odd_dfact (S (S j))) with ((2 * INR j + 3) * odd_dfact (S j)) by (cbn [odd_dfact]; rewrite !S_INR; ring).
  replace (x ^ (2 * j + 3)) with (x ^ j * x ^ j * x ^ 3) by (rewrite <- !pow_add; f_equal; lia).
  replace (x ^ (S j + 1)) with (x ^ j * x ^ 2) by (rewrite <- pow_add; f_equal; lia). replace (x ^ (S (S j) + 1)) with (x ^ j * x ^ 3) by (rewrite <- pow_add; f_equal; lia).
  assert (0 < x ^ j) by now apply pow_lt. field. repeat split; lra.
Qed.
Lemma DI_up j x : 0 < x -> DI j x <= INR j + 2 + x.
Proof.
  intros Hx. rewrite DIE by assumption. rewrite S_INR.
  assert (H := sph_i_rec j x Hx). assert (H1 := sph_i_decr (S j) x Hx). assert (P := sph_i_pos (S j) x Hx). assert (P2 := sph_i_pos (S (S j)) x Hx).
  assert (E : x * (sph_i j x / sph_i (S j) x) <= 2 * INR j + 3 + x); [|lra].
  apply Rmult_le_reg_r with (sph_i (S j) x); [assumption|]. replace (x * (sph_i j x / sph_i (S j) x) * sph_i (S j) x) with (x * sph_i j x) by (field; lra).
  replace (x * sph_i j x) with ((2 * INR j + 3) * sph_i (S j) x + x * sph_i (S (S j)) x) by (rewrite H; field; lra). nra.
Qed.
Lemma PP_up j x : 0 < x -> PP j x <= (2 + x) * QQ j x.
Proof.
  intros Hx. unfold PP. assert (H1 := DI_up j x Hx). assert (H2 := DK_neg j x Hx). assert (H3 := DI_pos j x Hx). assert (J := pos_INR j).
  assert (Q : 0 < QQ j x) by (unfold QQ; apply Rdiv_lt_0_compat; [now apply sph_i_pos|now apply sph_k_pos]).
  apply Rmult_le_reg_r with (- DK j x); [lra|]. replace (QQ j x * DI j x / - DK j x * - DK j x) with (QQ j x * DI j x) by (field; lra).
  rewrite (Rmult_comm (2 + x)), Rmult_assoc. apply Rmult_le_compat_l; [lra|]. apply Rle_trans with ((2 + x) * (INR j + 1)); [nra|]. apply Rmult_le_compat_l; lra.
Qed.
