(** * Low-frequency limits of the translation coefficients *)
From Coq Require Import Reals.
From Coquelicot Require Import Coquelicot.
From Coq Require Import Bool ZArith List Lia Lra.
From Verif Require Import Base Mat_Model Help_Model Help_Spec Help_Proofs Bessel_Model Bessel_Spec Bessel_Proofs Bessel_Proofs2 Bessel_Proofs3 Bessel_Proofs4 Bessel_Proofs6
  Gaunt_Model Gaunt_Proofs Gaunt_Proofs7 Gaunt_Proofs8 Scat_Model Scat_Spec Scat_Proofs7 Trans_Model Trans_Spec Trans_Proofs Trans_Proofs2.
Import ListNotations.
Open Scope R_scope.

Lemma lim0_sumf (f : nat -> R -> R) (v : nat -> R) n : (forall i, (i <= n)%nat -> lim0 (f i) (v i)) -> lim0 (fun x => sum_f_R0 (fun i => f i x) n) (sum_f_R0 v n).
Proof.
  induction n as [|n IH]; intros H; cbn [sum_f_R0]; [apply H; lia|].
  apply lim0_plus; [apply IH; intros; apply H; lia|apply H; lia].
Qed.
Lemma sum_only_last f n : (forall i, (i < n)%nat -> f i = 0) -> sum_f_R0 f n = f n.
Proof.
  destruct n as [|n]; intros H; [reflexivity|]. cbn [sum_f_R0]. rewrite (sum_eq f (fun _ => 0)) by (intros; apply H; lia).
  assert (E : sum_f_R0 (fun _ => 0) n = 0) by (clear; induction n; cbn; lra). lra.
Qed.
Lemma sum_only_first f n : (forall i, (0 < i <= n)%nat -> f i = 0) -> sum_f_R0 f n = f 0%nat.
Proof.
  induction n as [|n IH]; intros H; [reflexivity|]. cbn [sum_f_R0]. rewrite IH by (intros; apply H; lia). rewrite (H (S n)) by lia. lra.
Qed.

Definition scales (F : nat -> R -> R -> R) : Prop := forall p b v c, F p (b * c) v = F p b v * c.
Lemma scales_1 F p b v : scales F -> F p b v = F p 1 v * b.
Proof. intros H. rewrite <- H. f_equal. ring. Qed.
Lemma scales_EE ext m l1 l2 : scales (EE_ab ext m l1 l2).
Proof. intros p b v c. unfold EE_ab, common_ab. ring. Qed.
Lemma scales_EM ext m l1 l2 x : scales (EM_ab ext m l1 l2 x).
Proof. intros p b v c. unfold EM_ab, common_ab. ring. Qed.

(** exterior: the term with the largest order dominates *)
Lemma ext_closed_limit F (s : nat -> R -> R) g l1 l2 : scales F -> (forall p, (p <= l1 + l2)%nat -> lim0 (fun x => s p x * x ^ (p + 1)) (PI / 2 * odd_dfact p)) ->
  lim0 (fun x => x ^ (l1 + l2 + 1) * closed F (fun p => s p x) g l1 l2) (F (l1 + l2)%nat (PI / 2 * odd_dfact (l1 + l2)) (nth (Nat.min l1 l2) g 0)).
Proof.
  intros HF Hs. set (p i := nth i (lpps l1 l2) 0%nat).
  assert (Hp : forall i, (i <= Nat.min l1 l2)%nat -> (p i + 2 * (Nat.min l1 l2 - i) = l1 + l2)%nat).
  { intros i Hi. unfold p. rewrite lpps_nth by assumption. lia. }
  apply (lim0_ext (fun x => sum_f_R0 (fun i => F (p i) 1 (nth i g 0) * (s (p i) x * x ^ (p i + 1)) * x ^ (2 * (Nat.min l1 l2 - i))) (Nat.min l1 l2))).
  { intros x Hx. unfold closed. rewrite scal_sum. apply sum_eq. intros i Hi. fold (p i). rewrite (scales_1 F (p i) (s (p i) x)) by assumption.
    replace (l1 + l2 + 1)%nat with (p i + 1 + 2 * (Nat.min l1 l2 - i))%nat by (rewrite <- (Hp i Hi); lia). rewrite (pow_add x (p i + 1)). ring. }
  apply lim0_eq with (sum_f_R0 (fun i => F (p i) 1 (nth i g 0) * (PI / 2 * odd_dfact (p i)) * 0 ^ (2 * (Nat.min l1 l2 - i))) (Nat.min l1 l2)).
  - rewrite sum_only_last.
    + rewrite Nat.sub_diag. assert (E := Hp (Nat.min l1 l2) (Nat.le_refl _)). rewrite Nat.sub_diag in E.
      replace (p (Nat.min l1 l2)) with (l1 + l2)%nat by lia. rewrite (scales_1 F (l1 + l2)%nat (PI / 2 * _)) by assumption. rewrite Nat.mul_0_r, pow_O. ring.
    + intros i Hi. rewrite pow_ne_zero by lia. ring.
  - apply lim0_sumf. intros i Hi. apply lim0_mult; [apply lim0_mult; [apply lim0_const|apply Hs; rewrite <- (Hp i Hi); lia]|apply lim0_pow, lim0_id].
Qed.
(** interior: the term with the smallest order dominates *)
Lemma int_closed_limit F (s : nat -> R -> R) g l1 l2 : scales F -> (forall p, (p <= l1 + l2)%nat -> lim0 (fun x => s p x / x ^ p) (/ odd_fact p)) ->
  let d := (Nat.max l1 l2 - Nat.min l1 l2)%nat in
  lim0 (fun x => closed F (fun p => s p x) g l1 l2 / x ^ d) (F d (/ odd_fact d) (nth 0 g 0)).
Proof.
  intros HF Hs d. set (p i := nth i (lpps l1 l2) 0%nat).
  assert (Hp : forall i, (i <= Nat.min l1 l2)%nat -> p i = (d + 2 * i)%nat).
  { intros i Hi. unfold p. now rewrite lpps_nth by assumption. }
  apply (lim0_ext (fun x => sum_f_R0 (fun i => F (p i) 1 (nth i g 0) * (s (p i) x / x ^ (p i)) * x ^ (2 * i)) (Nat.min l1 l2))).
  { intros x Hx. unfold closed. unfold Rdiv at 2. rewrite Rmult_comm, scal_sum. apply sum_eq. intros i Hi. fold (p i). rewrite (scales_1 F (p i) (s (p i) x)) by assumption.
    rewrite (Hp i Hi), pow_add. field. split; apply pow_nonzero; lra. }
  apply lim0_eq with (sum_f_R0 (fun i => F (p i) 1 (nth i g 0) * (/ odd_fact (p i)) * 0 ^ (2 * i)) (Nat.min l1 l2)).
  - rewrite sum_only_first.
    + rewrite (Hp 0%nat) by lia. rewrite Nat.mul_0_r, Nat.add_0_r. rewrite (scales_1 F d (/ _)) by assumption. cbn [pow]. ring.
    + intros i Hi. rewrite pow_ne_zero by lia. ring.
  - apply lim0_sumf. intros i Hi. apply lim0_mult; [apply lim0_mult; [apply lim0_const|apply Hs; rewrite (Hp i Hi); lia]|apply lim0_pow, lim0_id].
Qed.
Lemma closed_EM ext m l1 l2 x s g : closed (EM_ab ext m l1 l2 x) s g l1 l2 = x * closed (EM_ab ext m l1 l2 1) s g l1 l2.
Proof. unfold closed. rewrite scal_sum. apply sum_eq. intros i _. unfold EM_ab. ring. Qed.
Lemma closed_ba ext m l1 l2 s g : closed (EE_ba ext m l1 l2) s g l1 l2 = (-1) ^ (l1 + l2) * closed (EE_ab ext m l1 l2) s g l1 l2.
Proof. unfold closed. rewrite scal_sum. apply sum_eq. intros i Hi. unfold EE_ba. now rewrite lpp_parity. Qed.
Lemma closed_EMba ext m l1 l2 x s g : closed (EM_ba ext m l1 l2 x) s g l1 l2 = - (-1) ^ (l1 + l2) * closed (EM_ab ext m l1 l2 x) s g l1 l2.
Proof. unfold closed. rewrite scal_sum. apply sum_eq. intros i Hi. unfold EM_ba. rewrite lpp_parity by assumption. ring. Qed.

(** ** the limits are the static coefficients *)
Lemma ln_sqrt x : 0 < x -> ln (sqrt x) = ln x / 2.
Proof.
  intros H. assert (S := sqrt_lt_R0 x H). rewrite <- (sqrt_sqrt x) at 2 by lra. rewrite ln_mult by assumption. lra.
Qed.
Lemma ln_quot a b : 0 < a -> 0 < b -> ln (a / b) = ln a - ln b.
Proof. intros Ha Hb. unfold Rdiv. rewrite ln_mult, ln_Rinv; [ring|assumption|assumption|now apply Rinv_0_lt_compat]. Qed.
Ltac pos := repeat first [assumption | apply Rmult_lt_0_compat | apply Rdiv_lt_0_compat | apply sqrt_lt_R0 | apply pow_lt | apply Rinv_0_lt_compat
                         | apply fact_pos | apply odd_dfact_pos | apply odd_fact_pos | apply PI_RGT_0 | lra].
Ltac lnx := repeat first [rewrite ln_mult by pos | rewrite ln_quot by pos | rewrite ln_Rinv by pos | rewrite ln_sqrt by pos].
Lemma ln_sq x : 0 < x -> ln (x ^ 2) = 2 * ln x.
Proof. intros H. replace (x ^ 2) with (x * x) by ring. rewrite ln_mult by assumption. ring. Qed.
Lemma sgn_abs m : sgnZ m = (-1) ^ (Z.abs_nat m).
Proof.
  unfold sgnZ. destruct (Z.even m) eqn:E.
  - apply Z.even_spec in E. destruct E as [j ->]. replace (Z.abs_nat (2 * j)) with (2 * Z.abs_nat j)%nat by lia. now rewrite pow_m1_even.
  - assert (O : Z.odd m = true) by (rewrite <- Z.negb_even, E; reflexivity). apply Z.odd_spec in O. destruct O as [j ->].
    destruct (Z.le_gt_cases 0 j).
    + replace (Z.abs_nat (2 * j + 1)) with (2 * Z.abs_nat j + 1)%nat by lia. rewrite pow_add, pow_m1_even. ring.
    + replace (Z.abs_nat (2 * j + 1)) with (2 * Z.abs_nat (j + 1) + 1)%nat by lia. rewrite pow_add, pow_m1_even. ring.
Qed.
Lemma sgnZ_sq m : sgnZ m * sgnZ m = 1.
Proof. unfold sgnZ. destruct (Z.even m); ring. Qed.
Lemma lfac_S n : lfac (n + 1) = ln (INR n + 1) + lfac n.
Proof. rewrite !lfac_spec, Nat.add_1_r. rewrite fact_S, ln_mult; [reflexivity|generalize (pos_INR n); lra|apply fact_pos]. Qed.
Lemma sqrt_div_fac a b : 0 < a -> 0 < b -> sqrt (a / b) = sqrt a / sqrt b.
Proof. intros. apply sqrt_div_alt. assumption. Qed.

Lemma ext_static m l1 l2 g : (1 <= l1)%nat -> (1 <= l2)%nat -> (Z.abs m <= Z.of_nat (Nat.min l1 l2))%Z -> gaunt (Z.of_nat l1) (Z.of_nat l2) m = Def g ->
  EE_ab true m l1 l2 (l1 + l2) (PI / 2 * odd_dfact (l1 + l2)) (nth (Nat.min l1 l2) g 0) = static_value (trans_k0_ext m l1 l2).
Proof.
  intros H1 H2 Hm Hg. destruct (gaunt_ok l1 l2 m Hm) as [g' [a [Eg [_ [[Ha _] Hn]]]]]. rewrite Eg in Hg. injection Hg as <-.
  rewrite Hn by lia. rewrite Ha. assert (P := PI_RGT_0). assert (P1 := lt_0_INR l1 ltac:(lia)). assert (P2 := lt_0_INR l2 ltac:(lia)).
  replace (2 * (INR (dmin l1 l2) + 2 * INR (Nat.min l1 l2)) + 1) with (2 * INR (l1 + l2) + 1).
  2:{ rewrite <- (dmin_sum l1 l2), plus_INR, mult_INR. cbn [INR]. ring. }
  set (A := amaxR l1 l2 m). assert (PA : 0 < A) by (unfold A, amaxR; pos).
  set (W := 2 * INR l1 * INR l2 * sqrt PI * A * odd_dfact (l1 + l2) / sqrt (llp1 l1 * llp1 l2)).
  assert (Pl1 : 0 < llp1 l1) by (unfold llp1; pos). assert (Pl2 : 0 < llp1 l2) by (unfold llp1; pos).
  assert (PW : 0 < W) by (unfold W; pos).
  assert (QL : 0 < 2 * INR (l1 + l2) + 1) by (generalize (pos_INR (l1 + l2)); lra).
  transitivity (sgnZ m * W).
  - unfold EE_ab, common_ab, W. rewrite sqrt_div_fac by pos. set (D := odd_dfact _). assert (0 < sqrt (2 * INR (l1 + l2) + 1)) by pos. assert (0 < sqrt (llp1 l1 * llp1 l2)) by pos.
    replace (llp1 l1 + llp1 l2 - llp1 (l1 + l2)) with (- (2 * INR l1 * INR l2)) by (unfold llp1; rewrite plus_INR; ring).
    cbn [pow]. field. repeat split; lra.
  - unfold static_value. cbn [fst trans_k0_ext]. f_equal. rewrite <- (exp_ln W) by assumption. f_equal. cbn [snd trans_k0_ext].
    unfold W, A, amaxR, llp1. replace 0.5 with (/ 2) by lra. lnx. rewrite ln_sq by apply fact_pos. unfold lfacZ.
    replace (2 * l1 + 2 * l2 + 1)%nat with (2 * (l1 + l2) + 1)%nat by lia. rewrite lfac_S, mult_INR, (plus_INR l1 l2). replace (INR 2) with 2 by (cbn; ring).
    rewrite !lfac_spec, ln_2dbl_spec. replace (2 * (INR l1 + INR l2) + 1) with (2 * INR l1 + 2 * INR l2 + 1) by ring.
    assert (L4 : ln 4 = 2 * ln 2) by (replace 4 with (2 * 2) by ring; rewrite ln_mult by lra; ring). rewrite L4. lra.
Qed.

Lemma trans_k0_int_comm m l1 l2 : trans_k0_int m l2 l1 = trans_k0_int m l1 l2.
Proof.
  unfold trans_k0_int. destruct (Nat.lt_trichotomy l1 l2) as [H|[->|H]]; [| reflexivity|].
  - replace (l1 <? l2)%nat with true by (symmetry; now apply Nat.ltb_lt). replace (l2 <? l1)%nat with false by (symmetry; apply Nat.ltb_ge; lia). reflexivity.
  - replace (l2 <? l1)%nat with true by (symmetry; now apply Nat.ltb_lt). replace (l1 <? l2)%nat with false by (symmetry; apply Nat.ltb_ge; lia). reflexivity.
Qed.
Lemma int_static_le m l1 e g : (1 <= l1)%nat -> (Z.abs m <= Z.of_nat l1)%Z -> gaunt (Z.of_nat l1) (Z.of_nat (l1 + e)) m = Def g ->
  EE_ab false m l1 (l1 + e) e (/ odd_fact e) (nth 0 g 0) = (-1) ^ e * static_value (trans_k0_int m l1 (l1 + e)).
Proof.
  intros H1 Hm Hg. set (l2 := (l1 + e)%nat) in *. assert (Emin : Nat.min l1 l2 = l1) by lia. assert (Ed : dmin l1 l2 = e) by (unfold dmin; lia).
  assert (G := gaunt_coefs l1 l2 m g Hg). rewrite Emin in G. specialize (G Hm 0%nat ltac:(lia)). rewrite Ed in G.
  replace (e + 2 * 0)%nat with e in G by lia. cbn [INR] in G. rewrite Rmult_0_r, Rplus_0_r in G.
  set (M := Z.abs_nat m) in *. assert (HM : (M <= l1)%nat) by lia.
  assert (C := @cprod_bottom l1 e M HM). cbv zeta in C. change (Nat.add l1 e) with l2 in C. rewrite C in G. clear C.
  assert (P := PI_RGT_0). assert (P1 := lt_0_INR l1 ltac:(lia)). assert (P2 := lt_0_INR l2 ltac:(lia)). assert (Pe := pos_INR e).
  set (K := Kn l1 l2 M) in *. assert (Pa : 0 < 2 * INR l1 + 1) by lra. assert (Pb : 0 < 2 * INR l2 + 1) by lra. assert (Pc : 0 < 2 * INR e + 1) by lra.
  assert (PK : 0 < K) by (unfold K, Kn; pos).
  set (T := (2 * INR e + 1) / (2 * INR l2 + 1) * (INR (fact (2 * l1)) * INR (fact (2 * e)) * INR (fact l2) / (INR (fact l1) * INR (fact e) ^ 2 * INR (fact (2 * l2)))) * (INR (fact (l2 + M)) / INR (fact (l1 - M)))) in *.
  assert (PT : 0 < T) by (unfold T; pos).
  set (W := 2 * INR l1 * (INR l2 + 1) * sqrt PI * K * T / (odd_fact e * sqrt (llp1 l1 * llp1 l2))).
  assert (Pl1 : 0 < llp1 l1) by (unfold llp1; pos). assert (Pl2 : 0 < llp1 l2) by (unfold llp1; pos).
  assert (PW : 0 < W) by (unfold W; pos).
  transitivity ((-1) ^ e * W).
  - unfold EE_ab, common_ab. rewrite sqrt_div_fac by pos. rewrite sgn_abs. fold M.
    replace (llp1 l1 + llp1 l2 - llp1 e) with (2 * INR l1 * (INR l2 + 1)) by (unfold llp1, l2; rewrite plus_INR; ring).
    set (s := sqrt (llp1 l1 * llp1 l2)) in *. assert (0 < s) by (unfold s; pos). assert (0 < odd_fact e) by pos.
    transitivity ((-1) ^ e * ((-1) ^ M) * sqrt PI * (nth 0 g 0 * sqrt (2 * INR e + 1)) * (2 * INR l1 * (INR l2 + 1)) / (odd_fact e * s)); [field; lra|].
    rewrite G. unfold W. fold s. transitivity (((-1) ^ M * (-1) ^ M) * ((-1) ^ e * (2 * INR l1 * (INR l2 + 1) * sqrt PI * K * T / (odd_fact e * s)))); [field; lra|].
    rewrite <- pow_add. replace (M + M)%nat with (2 * M)%nat by lia. rewrite pow_m1_even. ring.
  - f_equal. unfold static_value. rewrite <- (exp_ln W) by assumption. unfold trans_k0_int.
    assert (EF : lfacZ (Z.of_nat l2 + m) + lfacZ (Z.of_nat l2 - m) = lfac (l2 + M) + lfac (l2 - M) /\ lfacZ (Z.of_nat l1 + m) + lfacZ (Z.of_nat l1 - m) = lfac (l1 + M) + lfac (l1 - M)).
    { unfold lfacZ. assert (l1 <= l2)%nat by lia. destruct (Z.le_ge_cases 0 m).
      - replace (Z.to_nat (Z.of_nat l2 + m)) with (l2 + M)%nat by lia. replace (Z.to_nat (Z.of_nat l2 - m)) with (l2 - M)%nat by lia.
        replace (Z.to_nat (Z.of_nat l1 + m)) with (l1 + M)%nat by lia. replace (Z.to_nat (Z.of_nat l1 - m)) with (l1 - M)%nat by lia. split; reflexivity.
      - replace (Z.to_nat (Z.of_nat l2 - m)) with (l2 + M)%nat by lia. replace (Z.to_nat (Z.of_nat l2 + m)) with (l2 - M)%nat by lia.
        replace (Z.to_nat (Z.of_nat l1 - m)) with (l1 + M)%nat by lia. replace (Z.to_nat (Z.of_nat l1 + m)) with (l1 - M)%nat by lia. split; ring. }
    assert (LG : (if (l1 <? l2)%nat then l2 else l1) = l2 /\ (if negb (l1 <? l2)%nat then l2 else l1) = l1).
    { destruct (Nat.ltb_spec l1 l2); cbn [negb]; split; lia. }
    destruct LG as [-> ->]. cbn [fst snd]. rewrite Rmult_1_l. f_equal. replace (l2 - l1)%nat with e by lia.
    destruct EF as [E1 E2]. replace 0.5 with (/ 2) by lra.
    transitivity (/ 2 * (lfac (l2 + M) + lfac (l2 - M) + ln (2 * INR l2 + 1) + ln (2 * INR l1 + 1) + ln (INR l1 * (INR l2 + 1)) - (lfac (l1 + M) + lfac (l1 - M)) - ln (INR l2 * (INR l1 + 1)))
      + (lfac (2 * e + 1) + lfac (2 * l1) + lfac l2 - ln_2dbl (e + 1) - lfac (2 * l2 + 1) - 2 * lfac e - lfac l1)); [|rewrite <- E1, <- E2; ring].
    clear E1 E2. unfold W, K, Kn, T, llp1. lnx. rewrite ln_sq by apply fact_pos.
    rewrite !(lfac_S (2 * _)), !mult_INR. replace (INR 2) with 2 by (cbn; ring). rewrite !lfac_spec, ln_2dbl_spec.
    replace (odd_dfact (e + 1)) with (odd_fact e) by (rewrite odd_fact_dfact, Nat.add_1_r; cbn [odd_dfact]; rewrite S_INR; ring).
    assert (L4 : ln 4 = 2 * ln 2) by (replace 4 with (2 * 2) by ring; rewrite ln_mult by lra; ring). rewrite L4. lra.
Qed.
Lemma int_static m l1 l2 g : (1 <= l1)%nat -> (1 <= l2)%nat -> (Z.abs m <= Z.of_nat (Nat.min l1 l2))%Z -> gaunt (Z.of_nat l1) (Z.of_nat l2) m = Def g ->
  let d := (Nat.max l1 l2 - Nat.min l1 l2)%nat in
  EE_ab false m l1 l2 d (/ odd_fact d) (nth 0 g 0) = (-1) ^ d * static_value (trans_k0_int m l1 l2).
Proof.
  intros H1 H2 Hm Hg d. destruct (Nat.le_ge_cases l1 l2) as [H|H].
  - replace l2 with (l1 + d)%nat in Hg |- * by lia. apply int_static_le; try assumption. lia.
  - rewrite <- EE_comm, <- trans_k0_int_comm. rewrite <- gaunt_swap in Hg. replace l1 with (l2 + d)%nat in Hg |- * by lia. apply int_static_le; try assumption. lia.
Qed.
