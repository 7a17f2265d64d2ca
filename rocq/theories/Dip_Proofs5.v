(** * The Matsubara sum of the dipole interaction in closed form *)
From Coq Require Import Reals.
From Coquelicot Require Import Coquelicot.
From Coq Require Import Bool ZArith List Lia Lra Psatz.
From Verif Require Import Base Scat_Proofs7 Dip_Spec.
Import ListNotations.
Open Scope R_scope.

(** ** sum of n^p q^n *)
Section Geometric.
  Context (q : R) (Hq : 0 < q < 1).
  Definition npq (p n : nat) : R := INR n ^ p * q ^ n.
  Lemma shifted_ex : ex_series (fun n => (INR n + 1) ^ 4 * q ^ n).
  Proof.
    assert (P : forall n, 0 < (INR n + 1) ^ 4 * q ^ n). { intros n. apply Rmult_lt_0_compat; apply pow_lt; [generalize (pos_INR n); lra|lra]. }
    apply (ex_series_ext (fun n => Rabs ((INR n + 1) ^ 4 * q ^ n))). { intros n. apply Rabs_pos_eq. left. apply P. }
    apply (ex_series_DAlembert _ q); [lra|intros n; specialize (P n); lra|].
    apply (is_lim_seq_ext (fun n => (1 + / (INR n + 1)) ^ 4 * q)).
    { intros n. assert (N := pos_INR n). assert (0 < q ^ n) by (apply pow_lt; lra). rewrite S_INR. cbn [pow]. rewrite Rabs_pos_eq.
      - field. split; lra.
      - apply Rmult_le_pos; [|left; apply Rinv_0_lt_compat; specialize (P n); cbn [pow] in P; exact P]. left. specialize (P (S n)). rewrite S_INR in P. cbn [pow] in P. exact P. }
    assert (L : is_lim_seq (fun n => / (INR n + 1)) 0).
    { apply (is_lim_seq_ext (fun n => / INR (S n))); [intros n; now rewrite S_INR|]. apply (is_lim_seq_incr_1 (fun n => / INR n)).
      apply (is_lim_seq_inv INR p_infty); [apply is_lim_seq_INR|discriminate]. }
    assert (L1 : is_lim_seq (fun n => 1 + / (INR n + 1)) 1). { replace (Finite 1) with (Finite (1 + 0)) by (f_equal; ring). apply is_lim_seq_plus'; [apply is_lim_seq_const|exact L]. }
    replace (Finite q) with (Finite (1 * (1 * (1 * (1 * 1))) * q)) by (f_equal; ring). cbn [pow].
    repeat (apply is_lim_seq_mult'; [|apply is_lim_seq_const || exact L1]). 
    do 4 (apply is_lim_seq_mult'; [exact L1|]). apply is_lim_seq_const.
  Qed.
  Lemma npq_ex p : (p <= 4)%nat -> ex_series (npq p).
  Proof.
    intros Hp. apply (@ex_series_le R_AbsRing R_CompleteNormedModule _ (fun n => (INR n + 1) ^ 4 * q ^ n)); [|apply shifted_ex].
    intros n. change (Rabs (INR n ^ p * q ^ n) <= (INR n + 1) ^ 4 * q ^ n). assert (N := pos_INR n). assert (0 < q ^ n) by (apply pow_lt; lra).
    rewrite Rabs_pos_eq by (apply Rmult_le_pos; [now apply pow_le|lra]). apply Rmult_le_compat_r; [lra|].
    apply Rle_trans with ((INR n + 1) ^ p); [apply pow_incr; lra|]. apply Rle_pow; [lra|exact Hp].
  Qed.
  Lemma npq_0 : Series (npq 0) = / (1 - q).
  Proof. rewrite <- (Series_geom q) by (rewrite Rabs_pos_eq; lra). apply Series_ext. intros n. unfold npq. cbn [pow]. ring. Qed.
  Lemma npq_shift p : (1 <= p <= 4)%nat -> Series (npq p) = q * Series (fun n => (INR n + 1) ^ p * q ^ n).
  Proof.
    intros Hp. rewrite (Series_incr_1 (npq p)) by (apply npq_ex; lia). unfold npq at 1. cbn [INR]. rewrite pow_ne_zero by lia. rewrite <- Series_scal_l, Rmult_0_l, Rplus_0_l.
    apply Series_ext. intros n. unfold npq. rewrite S_INR. cbn [pow]. ring.
  Qed.
  Lemma npq_values : let d := 1 - q in
    Series (npq 0) = / d /\ Series (npq 1) = q / d ^ 2 /\ Series (npq 2) = q * (1 + q) / d ^ 3 /\ Series (npq 3) = q * (1 + 4 * q + q ^ 2) / d ^ 4 /\
    Series (npq 4) = q * (1 + 11 * q + 11 * q ^ 2 + q ^ 3) / d ^ 5.
  Proof.
    intros d. assert (D : 0 < d) by (unfold d; lra). assert (E0 := npq_0). fold d in E0. assert (Eq : q = 1 - d) by (unfold d; ring).
    assert (X := npq_ex). 
    assert (S1 : Series (npq 1) = q * (Series (npq 1) + Series (npq 0))).
    { rewrite (npq_shift 1) at 1 by lia. f_equal. rewrite <- Series_plus by (apply X; lia). apply Series_ext. intros n. unfold npq. ring. }
    assert (S2 : Series (npq 2) = q * (Series (npq 2) + (2 * Series (npq 1) + Series (npq 0)))).
    { rewrite (npq_shift 2) at 1 by lia. f_equal. rewrite <- Series_scal_l. rewrite <- !Series_plus; try (apply X; lia); try (apply @ex_series_scal; apply X; lia).
      - apply Series_ext. intros n. unfold npq. ring.
      - apply @ex_series_plus; [apply @ex_series_scal|]; apply X; lia. }
    assert (S3 : Series (npq 3) = q * (Series (npq 3) + (3 * Series (npq 2) + (3 * Series (npq 1) + Series (npq 0))))).
    { rewrite (npq_shift 3) at 1 by lia. f_equal. rewrite <- !Series_scal_l.
      assert (H1 : ex_series (fun n => 3 * npq 1 n)) by (apply (@ex_series_scal R_AbsRing); apply X; lia). assert (H2 : ex_series (fun n => 3 * npq 2 n)) by (apply (@ex_series_scal R_AbsRing); apply X; lia).
      assert (H3 : ex_series (fun n => 3 * npq 1 n + npq 0 n)) by (apply @ex_series_plus; [exact H1|apply X; lia]).
      assert (H4 : ex_series (fun n => 3 * npq 2 n + (3 * npq 1 n + npq 0 n))) by (apply @ex_series_plus; assumption).
      rewrite <- Series_plus by (assumption || apply X; lia). rewrite <- Series_plus by assumption. rewrite <- Series_plus by (assumption || apply X; lia). apply Series_ext. intros n. unfold npq. ring. }
    assert (S4 : Series (npq 4) = q * (Series (npq 4) + (4 * Series (npq 3) + (6 * Series (npq 2) + (4 * Series (npq 1) + Series (npq 0)))))).
    { rewrite (npq_shift 4) at 1 by lia. f_equal. rewrite <- !Series_scal_l.
      assert (H0 : ex_series (fun n => 4 * npq 3 n)) by (apply (@ex_series_scal R_AbsRing); apply X; lia).
      assert (H1 : ex_series (fun n => 4 * npq 1 n)) by (apply (@ex_series_scal R_AbsRing); apply X; lia). assert (H2 : ex_series (fun n => 6 * npq 2 n)) by (apply (@ex_series_scal R_AbsRing); apply X; lia).
      assert (H3 : ex_series (fun n => 4 * npq 1 n + npq 0 n)) by (apply @ex_series_plus; [exact H1|apply X; lia]).
      assert (H4 : ex_series (fun n => 6 * npq 2 n + (4 * npq 1 n + npq 0 n))) by (apply @ex_series_plus; assumption).
      assert (H5 : ex_series (fun n => 4 * npq 3 n + (6 * npq 2 n + (4 * npq 1 n + npq 0 n)))) by (apply @ex_series_plus; assumption).
      rewrite <- Series_plus by (assumption || apply X; lia). rewrite <- Series_plus by assumption. rewrite <- Series_plus by assumption. rewrite <- Series_plus by (assumption || apply X; lia). apply Series_ext. intros n. unfold npq. ring. }
    assert (solve : forall s r, s = q * (s + r) -> s = q * r / d). { intros s r h. apply (Rmult_eq_reg_r d); [|lra]. unfold Rdiv. rewrite Rmult_assoc, Rinv_l by lra. unfold d. lra. }
    apply solve in S1. rewrite E0 in S1. assert (F1 : Series (npq 1) = q / d ^ 2) by (rewrite S1; field; lra).
    apply solve in S2. rewrite F1, E0 in S2. assert (F2 : Series (npq 2) = q * (1 + q) / d ^ 3) by (rewrite S2, Eq; field; lra).
    apply solve in S3. rewrite F2, F1, E0 in S3. assert (F3 : Series (npq 3) = q * (1 + 4 * q + q ^ 2) / d ^ 4) by (rewrite S3, Eq; field; lra).
    apply solve in S4. rewrite F3, F2, F1, E0 in S4. assert (F4 : Series (npq 4) = q * (1 + 11 * q + 11 * q ^ 2 + q ^ 3) / d ^ 5) by (rewrite S4, Eq; field; lra).
    repeat split; assumption.
  Qed.
End Geometric.

(** ** the sum over the Matsubara frequencies *)
Lemma dip_npq s t nu j : dip s t (INR j * nu) =
  6 * s * npq (exp (- (2 * nu))) 0 j + (12 * s * nu * npq (exp (- (2 * nu))) 1 j + ((10 * s - 2 * t) * nu ^ 2 * npq (exp (- (2 * nu))) 2 j +
  ((4 * s - 4 * t) * nu ^ 3 * npq (exp (- (2 * nu))) 3 j + (2 * s - 2 * t) * nu ^ 4 * npq (exp (- (2 * nu))) 4 j))).
Proof.
  unfold dip, dip0, dip1, npq. replace (exp (- (2 * nu)) ^ j) with (exp (- (2 * (INR j * nu)))).
  - ring.
  - rewrite <- Rpower_pow by apply exp_pos. unfold Rpower. rewrite ln_exp. f_equal. ring.
Qed.
Lemma drop_first (f : nat -> R) n : sum_f_R0 (fun j => if Nat.eqb j 0 then 0 else f j) n = sum_f_R0 f n - f 0%nat.
Proof. induction n as [|n IH]; cbn [sum_f_R0 Nat.eqb]; [ring|]. rewrite IH. ring. Qed.
Lemma sinh_pos nu : 0 < nu -> 0 < sinh nu.
Proof. intros H. unfold sinh. assert (exp (- nu) < exp nu) by (apply exp_increasing; lra). lra. Qed.
Lemma dip_sum_limit s t nu : 0 < nu -> is_lim_seq (dip_sum (dip s t) nu) (far_closed s t nu).
Proof.
  intros Hn. set (q := exp (- (2 * nu))). assert (Hq : 0 < q < 1). { split; [apply exp_pos|]. rewrite <- exp_0. apply exp_increasing. lra. }
  assert (X := npq_ex q Hq). assert (V := npq_values q Hq). cbv zeta in V. destruct V as [V0 [V1 [V2 [V3 V4]]]].
  assert (IS : forall p c, (p <= 4)%nat -> is_series (fun j => c * npq q p j) (c * Series (npq q p))). { intros p c Hp. apply (@is_series_scal R_AbsRing R_NormedModule). apply Series_correct. now apply X. }
  assert (IF : is_series (fun j => dip s t (INR j * nu)) (6 * s * Series (npq q 0) + (12 * s * nu * Series (npq q 1) + ((10 * s - 2 * t) * nu ^ 2 * Series (npq q 2) + ((4 * s - 4 * t) * nu ^ 3 * Series (npq q 3) + (2 * s - 2 * t) * nu ^ 4 * Series (npq q 4)))))).
  { eapply is_series_ext; [intros j; symmetry; apply dip_npq|]. fold q. do 4 (apply (@is_series_plus R_AbsRing R_NormedModule); [apply IS; lia|]). apply IS. lia. }
  set (S := 6 * s * Series (npq q 0) + _) in IF.
  apply (is_lim_seq_ext (fun n => nu * (dip s t 0 / 2 - dip s t 0 + sum_f_R0 (fun j => dip s t (INR j * nu)) n))).
  { intros n. unfold dip_sum. rewrite (drop_first (fun j => dip s t (INR j * nu))). cbn [INR]. rewrite Rmult_0_l. ring. }
  replace (Finite (far_closed s t nu)) with (Finite (nu * (dip s t 0 / 2 - dip s t 0 + S))).
  - apply is_lim_seq_mult'; [apply is_lim_seq_const|]. apply is_lim_seq_plus'; [apply is_lim_seq_const|].
    apply (is_lim_seq_ext (sum_n (fun j => dip s t (INR j * nu)))); [intros n; apply sum_n_Reals|exact IF].
  - f_equal. unfold S. rewrite V0, V1, V2, V3, V4. replace (dip s t 0) with (6 * s) by (unfold dip, dip0, dip1; rewrite Rmult_0_r, Ropp_0, exp_0; ring).
    unfold far_closed. set (E := exp nu). assert (E1 : 1 < E). { unfold E. rewrite <- exp_0. apply exp_increasing. exact Hn. }
    assert (EI : exp (- nu) = / E) by (unfold E; apply exp_Ropp). assert (Eq : q = / E ^ 2). { unfold q. replace (- (2 * nu)) with (- nu + - nu) by ring. rewrite exp_plus, EI. field. lra. }
    unfold sinh, cosh. fold E. rewrite EI, Eq. assert (E ^ 2 - 1 <> 0) by nra. field. repeat split; try lra; try assumption; try nra.
Qed.
Lemma far_closed_mirrors nu : far_closed (5 / 4) (-1) nu = far_analytic nu.
Proof. unfold far_closed, far_analytic. cbv zeta. set (g := nu / sinh nu). set (c := cosh nu). clearbody g c. replace 1.25 with (5 / 4) by lra. replace 1.5 with (3 / 2) by lra. replace 0.5 with (1 / 2) by lra. replace 0.25 with (1 / 4) by lra. field. Qed.

(** ** low and high temperatures *)
Lemma lim0_g : lim0 (fun nu => nu / sinh nu) 1.
Proof.
  assert (D0 : forall x, is_derive sinh x (cosh x)). { intros x. unfold sinh, cosh. auto_derive; [exact Logic.I|]. field. }
  assert (D := D0 0).
  apply (lim0_ext (fun nu => / (sinh nu / nu))). { intros nu Hn. assert (H := sinh_pos nu Hn). field. split; lra. }
  apply lim0_eq with (/ 1); [field|]. apply lim0_inv; [lra|].
  assert (C : cosh 0 = 1) by (unfold cosh; rewrite Ropp_0, exp_0; field). rewrite C in D. apply is_derive_Reals in D.
  intros P [eps HP]. destruct (D eps (cond_pos eps)) as [del Hd]. exists del. intros y By Py. apply HP. change (Rabs (sinh y / y - 1) < eps).
  assert (Y : Rabs y < del). { change (Rabs (y - 0) < del) in By. now rewrite Rminus_0_r in By. }
  specialize (Hd y ltac:(lra) Y). rewrite Rplus_0_l in Hd. replace (sinh 0) with 0 in Hd by (unfold sinh; rewrite Ropp_0, exp_0; field). now rewrite Rminus_0_r in Hd.
Qed.
Lemma far_closed_zero s t : lim0 (far_closed s t) ((23 * s - 7 * t) / 2).
Proof.
  assert (G := lim0_g). assert (C : lim0 cosh 1). { apply lim0_eq with (cosh 0); [unfold cosh; rewrite Ropp_0, exp_0; field|]. apply (lim0_comp cosh (fun x => x)); [|apply lim0_id].
    apply continuity_pt_filterlim. apply (ex_derive_continuous cosh). unfold cosh. auto_derive. exact Logic.I. }
  unfold far_closed. apply lim0_eq with (3 * s * (1 * 1 + 1 ^ 2) + (5 * s - t) / 2 * (1 ^ 3 * 1) + (s - t) / 2 * (1 ^ 4 * (2 * 1 ^ 2 + 1) + 1 ^ 5 * 1 * (1 ^ 2 + 2))); [field|].
  apply lim0_plus; [apply lim0_plus|].
  - apply lim0_mult; [apply lim0_const|]. apply lim0_plus; [apply lim0_mult; [exact G|exact C]|apply lim0_pow; exact G].
  - apply lim0_mult; [apply lim0_const|]. apply lim0_mult; [apply lim0_pow; exact G|exact C].
  - apply lim0_mult; [apply lim0_const|]. apply lim0_plus.
    + apply lim0_mult; [apply lim0_pow; exact G|]. apply lim0_plus; [apply lim0_mult; [apply lim0_const|apply lim0_pow; exact C]|apply lim0_const].
    + apply lim0_mult; [apply lim0_mult; [apply lim0_pow; exact G|exact C]|]. apply lim0_plus; [apply lim0_pow; exact C|apply lim0_const].
Qed.
Lemma sinh_cubic nu : 0 <= nu -> nu ^ 3 / 6 <= sinh nu.
Proof.
  assert (S1 : forall x, 0 <= x -> x <= sinh x).
  { intros x Hx. destruct (Req_dec x 0) as [->|N]; [unfold sinh; rewrite Ropp_0, exp_0; lra|].
    destruct (MVT_gen (fun t => sinh t - t) 0 x (fun t => cosh t - 1)) as [c [Hc E]].
    - intros u _. unfold sinh, cosh. auto_derive; [exact Logic.I|]. field.
    - intros u _. apply continuity_pt_filterlim. apply (ex_derive_continuous (fun t => sinh t - t)). unfold sinh. auto_derive. exact Logic.I.
    - assert (1 <= cosh c). { unfold cosh. assert (H := exp_pos c). rewrite exp_Ropp. assert (HS := pow2_ge_0 (exp c - 1)). assert (2 * exp c <= exp c ^ 2 + 1) by lra. assert (exp c + / exp c = (exp c ^ 2 + 1) / exp c) by (field; lra). assert (2 <= (exp c ^ 2 + 1) / exp c). { apply (Rmult_le_reg_r (exp c)); [lra|]. unfold Rdiv. rewrite Rmult_assoc, Rinv_l by lra. lra. } lra. }
      replace (sinh 0) with 0 in E by (unfold sinh; rewrite Ropp_0, exp_0; field). assert (0 <= (cosh c - 1) * (x - 0)) by (apply Rmult_le_pos; lra). lra. }
  assert (C1 : forall x, 0 <= x -> 1 + x ^ 2 / 2 <= cosh x).
  { intros x Hx. destruct (Req_dec x 0) as [->|N]; [unfold cosh; rewrite Ropp_0, exp_0; lra|].
    destruct (MVT_gen (fun t => cosh t - (1 + t ^ 2 / 2)) 0 x (fun t => sinh t - t)) as [c [Hc E]].
    - intros u _. unfold sinh, cosh. auto_derive; [exact Logic.I|]. field.
    - intros u _. apply continuity_pt_filterlim. apply (ex_derive_continuous (fun t => cosh t - (1 + t ^ 2 / 2))). unfold cosh. auto_derive. exact Logic.I.
    - rewrite Rmin_left, Rmax_right in Hc by lra. replace (cosh 0) with 1 in E by (unfold cosh; rewrite Ropp_0, exp_0; field). assert (0 <= (sinh c - c) * (x - 0)) by (apply Rmult_le_pos; [assert (h := S1 c ltac:(lra)); lra|lra]). lra. }
  intros Hn. destruct (Req_dec nu 0) as [->|N]; [unfold sinh; rewrite Ropp_0, exp_0; lra|].
  destruct (MVT_gen (fun t => sinh t - (t + t ^ 3 / 6)) 0 nu (fun t => cosh t - (1 + t ^ 2 / 2))) as [c [Hc E]].
  - intros u _. unfold sinh, cosh. auto_derive; [exact Logic.I|]. field.
  - intros u _. apply continuity_pt_filterlim. apply (ex_derive_continuous (fun t => sinh t - (t + t ^ 3 / 6))). unfold sinh. auto_derive. exact Logic.I.
  - rewrite Rmin_left, Rmax_right in Hc by lra. replace (sinh 0) with 0 in E by (unfold sinh; rewrite Ropp_0, exp_0; field). assert (0 <= (cosh c - (1 + c ^ 2 / 2)) * (nu - 0)) by (apply Rmult_le_pos; [assert (h := C1 c ltac:(lra)); lra|lra]). lra.
Qed.
Lemma far_closed_hot s t : is_lim (fun nu => far_closed s t nu / nu) p_infty (3 * s).
Proof.
  assert (B : is_lim (fun nu => nu * (nu / sinh nu)) p_infty 0).
  { apply (is_lim_le_le_loc (fun _ => 0) (fun nu => 6 * / nu) _ p_infty 0).
    - exists 0. intros nu Hn. assert (S := sinh_pos nu Hn). split; [apply Rmult_le_pos; [lra|left; now apply Rdiv_lt_0_compat]|].
      assert (C := sinh_cubic nu ltac:(lra)). apply (Rmult_le_reg_r (sinh nu)); [lra|]. replace (nu * (nu / sinh nu) * sinh nu) with (nu ^ 2) by (field; lra).
      apply Rle_trans with (6 * / nu * (nu ^ 3 / 6)); [right; field; lra|]. apply Rmult_le_compat_l; [|exact C]. left. apply Rmult_lt_0_compat; [lra|now apply Rinv_0_lt_compat].
    - apply is_lim_const.
    - replace (Finite 0) with (Rbar_mult 6 (Rbar_inv p_infty)) by (cbn; f_equal; ring). apply is_lim_scal_l. apply is_lim_inv; [apply is_lim_id|discriminate]. }
  assert (G : is_lim (fun nu => nu / sinh nu) p_infty 0).
  { apply (is_lim_le_le_loc (fun _ => 0) (fun nu => nu * (nu / sinh nu)) _ p_infty 0); [|apply is_lim_const|exact B].
    exists 1. intros nu Hn. assert (S := sinh_pos nu ltac:(lra)). assert (0 < nu / sinh nu) by (apply Rdiv_lt_0_compat; lra). split; [lra|nra]. }
  assert (I : is_lim (fun nu => / sinh nu) p_infty 0).
  { apply (is_lim_le_le_loc (fun _ => 0) (fun nu => nu / sinh nu) _ p_infty 0); [|apply is_lim_const|exact G].
    exists 1. intros nu Hn. assert (S := sinh_pos nu ltac:(lra)). assert (0 < / sinh nu) by (now apply Rinv_0_lt_compat). unfold Rdiv. split; [lra|nra]. }
  assert (H : is_lim (fun nu => cosh nu / sinh nu) p_infty 1).
  { apply (is_lim_le_le_loc (fun _ => 1) (fun nu => 1 + / sinh nu) _ p_infty 1); [|apply is_lim_const|].
    - exists 0. intros nu Hn. assert (S := sinh_pos nu Hn). assert (E : cosh nu = sinh nu + exp (- nu)) by (unfold cosh, sinh; field). rewrite E.
      assert (0 < exp (- nu) <= 1). { split; [apply exp_pos|]. rewrite <- exp_0. left. apply exp_increasing. lra. }
      replace ((sinh nu + exp (- nu)) / sinh nu) with (1 + exp (- nu) * / sinh nu) by (field; lra). assert (0 < / sinh nu) by (now apply Rinv_0_lt_compat). split; nra.
    - replace (Finite 1) with (Finite (1 + 0)) by (f_equal; ring). apply is_lim_plus'; [apply is_lim_const|exact I]. }
  apply (is_lim_ext_loc (fun nu => 3 * s * (cosh nu / sinh nu + nu / sinh nu * / sinh nu) + (5 * s - t) / 2 * (nu / sinh nu * (nu / sinh nu) * (cosh nu / sinh nu)) +
     (s - t) / 2 * (nu * (nu / sinh nu) * (nu / sinh nu) * (2 * (cosh nu / sinh nu) * (cosh nu / sinh nu) + / sinh nu * / sinh nu) +
       nu * (nu / sinh nu) * (nu * (nu / sinh nu)) * (cosh nu / sinh nu) * (cosh nu / sinh nu * (cosh nu / sinh nu) + 2 * (/ sinh nu * / sinh nu))))).
  { exists 0. intros nu Hn. assert (S := sinh_pos nu Hn). unfold far_closed. field. split; lra. }
  replace (Finite (3 * s)) with (Finite (3 * s * (1 + 0 * 0) + (5 * s - t) / 2 * (0 * 0 * 1) + (s - t) / 2 * (0 * 0 * (2 * 1 * 1 + 0 * 0) + 0 * 0 * 1 * (1 * 1 + 2 * (0 * 0))))) by (f_equal; ring).
  assert (M : forall f g (a b : R), is_lim f p_infty a -> is_lim g p_infty b -> is_lim (fun x => f x * g x) p_infty (a * b)). { intros f g a b Hf Hg. exact (is_lim_mult f g p_infty a b Hf Hg Logic.I). }
  apply is_lim_plus'; [apply is_lim_plus'|].
  - apply M; [apply is_lim_const|]. apply is_lim_plus'; [exact H|apply M; [exact G|exact I]].
  - apply M; [apply is_lim_const|]. apply M; [apply M; exact G|exact H].
  - apply M; [apply is_lim_const|]. apply is_lim_plus'.
    + apply M; [apply M; [exact B|exact G]|]. apply is_lim_plus'; [apply M; [apply M; [apply is_lim_const|exact H]|exact H]|apply M; exact I].
    + apply M; [apply M; [apply M; exact B|exact H]|]. apply is_lim_plus'; [apply M; exact H|apply M; [apply is_lim_const|apply M; exact I]].
Qed.
