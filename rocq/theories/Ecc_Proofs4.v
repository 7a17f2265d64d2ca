(** * Small spheres scatter nothing *)
From Coq Require Import Reals.
From Coquelicot Require Import Coquelicot.
From Coq Require Import Bool ZArith List Lia Lra.
From Verif Require Import Base Mat_Model Mat_Spec Help_Proofs Bessel_Model Bessel_Spec Bessel_Proofs Bessel_Proofs2 Scat_Model Scat_Spec Scat_Proofs Scat_Proofs2 Scat_Proofs3 Scat_Proofs4 Scat_Proofs7 Scat_Proofs9 Scat_Proofs11
  Trans_Model Trans_Spec Lin_Model RT_Model RT_Spec RT_Spec2 RT_Proofs10 Rad_Spec Rad_Proofs Rad_Proofs2.
Import ListNotations.
Open Scope R_scope.

Lemma lim0_QQ j : lim0 (QQ j) 0.
Proof.
  apply (lim0_ext (fun x => (sph_i (S j) x / sph_k (S j) x / x ^ (2 * S j + 1)) * x ^ (2 * S j + 1))).
  { intros x Hx. unfold QQ. assert (x ^ (2 * S j + 1) <> 0) by (apply pow_nonzero; lra). assert (H2 := sph_k_pos (S j) x Hx). field. split; [lra|assumption]. }
  eapply lim0_eq; [|apply lim0_mult; [apply lim0_ratio|apply lim0_pow, lim0_id]]. rewrite (pow_i (2 * S j + 1)) by lia. ring.
Qed.
Lemma lim0_PP j : lim0 (PP j) 0.
Proof.
  unfold PP. eapply lim0_eq; [|apply lim0_div; [|apply lim0_mult; [apply lim0_QQ|apply lim0_DI]|apply lim0_opp, lim0_DK]].
  - unfold Rdiv. ring.
  - assert (H := pos_INR j). lra.
Qed.
Lemma to0_lin c : 0 < c -> to0 (fun r => c * r).
Proof.
  intros Hc. split; [intros k Hk; now apply Rmult_lt_0_compat|]. eapply lim0_eq; [|apply lim0_mult; [apply lim0_const|apply lim0_id]]. ring.
Qed.
Lemma small_pec lmax m e u k j : has m e u -> 0 < k -> (j < lmax)%nat ->
  lim0 (fun r => entry TE (fun ks => mie exact_bessels ks 0 (Z.of_nat lmax) r PEC m) j k) 0 /\ lim0 (fun r => entry TM (fun ks => mie exact_bessels ks 0 (Z.of_nat lmax) r PEC m) j k) 0.
Proof.
  intros Hm Hk Hj.
  assert (hc : 0 < refr e u k * k). { destruct Hm as [_ [P _]]. destruct (P k Hk). apply Rmult_lt_0_compat; [now apply refr_pos|assumption]. }
  split.
  - apply (lim0_ext (fun r => (-1) ^ (j + 1) * (PI * 0.5 * QQ j (refr e u k * k * r)))).
    { intros r Hr. destruct (sized_pec lmax m e u Hm k Hk j r Hr Hj) as [E _]. rewrite <- E. unfold sized.
      match goal with |- _ * (1 * _ * ?X) = _ => transitivity (((-1) ^ (j + 1) * (-1) ^ (j + 1)) * X) end; [ring|]. rewrite m1_sq. ring. }
    eapply lim0_eq; [|apply lim0_mult; [apply lim0_const|apply lim0_mult; [apply lim0_const|apply (lim0_sub (QQ j)); [now apply to0_lin|apply lim0_QQ]]]]. ring.
  - apply (lim0_ext (fun r => - (-1) ^ (j + 1) * (PI * 0.5 * PP j (refr e u k * k * r)))).
    { intros r Hr. destruct (sized_pec lmax m e u Hm k Hk j r Hr Hj) as [_ E]. rewrite <- E. unfold sized.
      match goal with |- _ * - (1 * _ * ?X) = _ => transitivity (((-1) ^ (j + 1) * (-1) ^ (j + 1)) * X) end; [ring|]. rewrite m1_sq. ring. }
    eapply lim0_eq; [|apply lim0_mult; [apply lim0_const|apply lim0_mult; [apply lim0_const|apply (lim0_sub (PP j)); [now apply to0_lin|apply lim0_PP]]]]. ring.
Qed.
Lemma lim0_near f eps : lim0 f 0 -> 0 < eps -> exists r0, 0 < r0 /\ forall r, 0 < r <= r0 -> f r < eps.
Proof.
  intros H He. destruct (H (fun v => v < eps)) as [d D].
  - exists (mkposreal eps He). intros y Hy. change (Rabs (y - 0) < eps) in Hy. apply Rabs_lt_between in Hy. lra.
  - exists (d / 2). assert (Hd := cond_pos d). split; [lra|]. intros r [H1 H2]. apply D; [|assumption]. change (Rabs (r - 0) < d). rewrite Rabs_pos_eq; lra.
Qed.
