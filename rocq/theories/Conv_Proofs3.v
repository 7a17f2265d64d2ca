(** * Upper bounds of the coefficients: every product of two Mie coefficients and two translation coefficients *)
From Coq Require Import Reals.
From Coquelicot Require Import Coquelicot.
From Coq Require Import Bool ZArith List Lia Lra.
From Verif Require Import Base Mat_Model Mat_Spec Help_Spec Help_Proofs Bessel_Model Bessel_Spec Bessel_Proofs Bessel_Proofs2 Gaunt_Model Gaunt_Proofs Gaunt_Proofs7 Gaunt_Proofs8
  Scat_Model Scat_Spec Scat_Proofs Scat_Proofs2 Scat_Proofs3 Scat_Proofs4 Scat_Proofs7 Scat_Proofs9 Scat_Proofs11
  Trans_Model Trans_Spec Trans_Proofs Trans_Proofs3 Trans_Proofs4 Trans_Proofs6 Lap_Proofs2 Lin_Model RT_Model RT_Spec RT_Spec2 RT_Proofs10 Rad_Spec Rad_Proofs Rad_Proofs2 Conv_Spec Conv_Proofs Conv_Proofs2.
From mathcomp Require ssrnat.
Import ListNotations.
Open Scope R_scope.

(** ** factorials *)
Lemma sum_term (f : nat -> R) n i : (forall j, 0 <= f j) -> (i <= n)%nat -> f i <= sum_f_R0 f n.
Proof.
  intros H Hi. induction n as [|n IH]; [replace i with 0%nat by lia; cbn; lra|]. cbn [sum_f_R0].
  destruct (Nat.eq_dec i (S n)) as [->|]; [assert (0 <= sum_f_R0 f n) by (now apply cond_pos_sum); lra|]. assert (E := IH ltac:(lia)). assert (E2 := H (S n)). lra.
Qed.
Definition choose (l lp : nat) : R := INR (fact (l + lp)) / (INR (fact l) * INR (fact lp)).
Lemma choose_pos l lp : 0 < choose l lp.
Proof. unfold choose. apply Rdiv_lt_0_compat; [apply INR_fact_lt_0|apply Rmult_lt_0_compat; apply INR_fact_lt_0]. Qed.
Lemma choose_pow l lp a b : 0 <= a -> 0 <= b -> choose l lp * a ^ l * b ^ lp <= (a + b) ^ (l + lp).
Proof.
  intros Ha Hb. rewrite binomial. apply Rle_trans with (Binomial.C (l + lp) l * a ^ l * b ^ (l + lp - l)).
  - right. unfold Binomial.C, choose. replace (l + lp - l)%nat with lp by lia. reflexivity.
  - apply (sum_term (fun i => Binomial.C (l + lp) i * a ^ i * b ^ (l + lp - i))); [|lia]. intros j. apply Rmult_le_pos; [apply Rmult_le_pos|]; try now apply pow_le.
    unfold Binomial.C. left. apply Rdiv_lt_0_compat; [apply INR_fact_lt_0|apply Rmult_lt_0_compat; apply INR_fact_lt_0].
Qed.
Lemma fact_mid l m : (m <= l)%nat -> INR (fact l) * INR (fact l) <= INR (fact (l - m)) * INR (fact (l + m)).
Proof.
  induction m as [|m IH]; intros H; [rewrite Nat.sub_0_r, Nat.add_0_r; lra|]. apply Rle_trans with (1 := IH ltac:(lia)).
  replace (l - m)%nat with (S (l - S m)) by lia. replace (l + S m)%nat with (S (l + m)) by lia.
  change (fact (S (l - S m))) with (S (l - S m) * fact (l - S m))%nat. change (fact (S (l + m))) with (S (l + m) * fact (l + m))%nat. rewrite !mult_INR.
  assert (A := INR_fact_lt_0 (l - S m)). assert (B := INR_fact_lt_0 (l + m)). assert (D : INR (S (l - S m)) <= INR (S (l + m))) by (apply le_INR; lia).
  assert (0 < INR (fact (l - S m)) * INR (fact (l + m))) by now apply Rmult_lt_0_compat. nra.
Qed.

(** ** the Mie coefficients of any solid *)
Definition amp (l : nat) (x : R) : R := (2 + x) * (exp (2 * x) * x ^ (2 * l + 1) / ((2 * INR l + 1) * odd_dfact l ^ 2)).
Lemma amp_pos l x : 0 < x -> 0 < amp l x.
Proof.
  intros Hx. unfold amp. assert (P := odd_dfact_pos l). assert (E := exp_pos (2 * x)). assert (0 < x ^ (2 * l + 1)) by now apply pow_lt. assert (N := pos_INR l).
  apply Rmult_lt_0_compat; [lra|]. apply Rdiv_lt_0_compat; [nra|]. apply Rmult_lt_0_compat; [lra|now apply pow_lt].
Qed.
Lemma QQ_amp j x : 0 < x -> (2 + x) * (PI * 0.5 * QQ j x) <= amp (S j) x.
Proof.
  intros Hx. assert (H := QQ_up j x Hx). unfold amp. apply Rmult_le_compat_l; [lra|]. rewrite S_INR. replace (2 * (INR j + 1) + 1) with (2 * INR j + 3) by ring.
  replace (2 * S j + 1)%nat with (2 * j + 3)%nat by lia. lra.
Qed.
Section Mie.
  Context (lmax : nat) (m : material) (e u : R -> R) (Hm : has m e u) (k : R) (Hk : 0 < k).
  Let c := refr e u k * k.
  Lemma mie_up mat r j pick : pick = TE \/ pick = TM -> solid_ok mat -> 0 < r -> (j < lmax)%nat -> Rabs (entry pick (fun ks => mie exact_bessels ks 0 (Z.of_nat lmax) r mat m) j k) <= amp (S j) (c * r).
  Proof.
    intros Hpick Hs Hr Hj.
    assert (Hc : 0 < c). { destruct (proj1 (proj2 Hm) k Hk). apply Rmult_lt_0_compat; [now apply refr_pos|assumption]. }
    assert (Hx : 0 < c * r) by (now apply Rmult_lt_0_compat). assert (HQ := QQ_pos j (c * r) Hx). assert (A := QQ_amp j (c * r) Hx). assert (B := PP_up j (c * r) Hx).
    assert (HP := pi_half). assert (PQ : 0 < PI * 0.5 * QQ j (c * r)) by (apply Rmult_lt_0_compat; lra).
    assert (PP0 : 0 < PP j (c * r)). { unfold PP. assert (N := nDI j (c * r) Hx). assert (N' := nDK j (c * r) Hx). apply Rdiv_lt_0_compat; [apply Rmult_lt_0_compat; assumption|lra]. }
    assert (B1 : PI * 0.5 * PP j (c * r) <= amp (S j) (c * r)). { apply Rle_trans with (2 := A). replace ((2 + c * r) * (PI * 0.5 * QQ j (c * r))) with (PI * 0.5 * ((2 + c * r) * QQ j (c * r))) by ring. apply Rmult_le_compat_l; lra. }
    assert (B2 : PI * 0.5 * QQ j (c * r) <= amp (S j) (c * r)). { apply Rle_trans with (2 := A). nra. }
    assert (G : Rabs (sized lmax m k 1 pick mat r j) <= amp (S j) (c * r)).
    { destruct Hs as [->|[e1 [u1 H1]]].
      - destruct (sized_pec lmax m e u Hm k Hk j r Hr Hj) as [E1 E2]. fold c in E1, E2. destruct Hpick as [-> | ->].
        + rewrite E1, Rabs_pos_eq by lra. exact B2.
        + rewrite <- Rabs_Ropp, E2, Rabs_pos_eq by nra. exact B1.
      - destruct (sized_solid lmax m e u Hm k Hk 1 mat e1 u1 j r H1 Hr Hj) as [E1 E2]. fold c in E1, E2.
        destruct (proj1 (proj2 H1) k Hk) as [Pe1 Pu1]. destruct (proj1 (proj2 Hm) k Hk) as [Pe Pu].
        assert (Hy : 0 < refr e1 u1 k * k * r) by (apply Rmult_lt_0_compat; [apply Rmult_lt_0_compat; [now apply refr_pos|assumption]|assumption]).
        assert (Key : forall p1 p, 0 < p1 -> 0 < p -> Rabs (PI * 0.5 * TT j p1 p (refr e1 u1 k * k) c r) <= amp (S j) (c * r)).
        { intros p1 p Hp1 Hp. unfold TT. destruct (mobius_1 (QQ j (c * r)) p (DI j (refr e1 u1 k * k * r)) p1 (DI j (c * r)) (DK j (c * r)) HQ Hp (nDI j _ Hy) Hp1 (nDI j _ Hx) (nDK j _ Hx)) as [M1 M2].
          fold (PP j (c * r)) in M2. set (t := _ / _) in M1, M2 |- *. clearbody t. apply Rabs_le. split.
          - assert (PI * 0.5 * - t <= PI * 0.5 * PP j (c * r)) by (apply Rmult_le_compat_l; lra). lra.
          - assert (PI * 0.5 * t <= PI * 0.5 * QQ j (c * r)) by (apply Rmult_le_compat_l; lra). lra. }
        destruct Hpick as [-> | ->].
        + rewrite E1, Rmult_1_l. now apply Key.
        + rewrite <- Rabs_Ropp, E2. replace (PI * 0.5 * (- (1) * TT j (e1 k) (e k) (refr e1 u1 k * k) c r)) with (- (PI * 0.5 * TT j (e1 k) (e k) (refr e1 u1 k * k) c r)) by ring. rewrite Rabs_Ropp. now apply Key. }
    unfold sized in G. rewrite Rmult_1_l, Rabs_mult, pow_1_abs, Rmult_1_l in G. exact G.
  Qed.
End Mie.

(** ** the translation coefficients *)
Definition tbound (th : R) (m : Z) (l1 l2 : nat) (x : R) : R := cfac m l1 l2 * (PI / 2 * (4 * top l1 l2 (Z.abs_nat m) * INR (fact (l1 + l2)) / x ^ S (l1 + l2) * damp th (l1 + l2) x)).
Section Trans.
Context (med : material) (e u : R -> R) (lmax lssmax l1 l2 : nat) (m : Z) (k L : R).
Context (Hh : has med e u) (H1 : (1 <= l1 <= lmax)%nat) (H2 : (1 <= l2 <= lssmax)%nat) (Hm : (Z.abs m <= Z.of_nat (Nat.min l1 l2))%Z)
        (Hk : 0 < k) (HL : 0 < L) (th : R) (Hth : 0 < th <= 1).
Let x := k * L * sqrt (e k).
Let V pick := coefficient pick trans_bessels lmax lssmax m med L true l1 l2 k.
Lemma xpos : 0 < x.
Proof. destruct (proj1 (proj2 Hh) k Hk). unfold x. apply Rmult_lt_0_compat; [now apply Rmult_lt_0_compat|now apply sqrt_lt_R0]. Qed.
Lemma trans_up : Rabs (V v_EEab) <= tbound th m l1 l2 x /\ Rabs (V v_EMab) <= x * tbound th m l1 l2 x.
Proof.
  assert (X := xpos). destruct (gaunt_ok l1 l2 m Hm) as [g [a [Eg _]]].
  destruct (coefficient_val trans_bessels lmax lssmax m med L true l1 l2 k e u (fun l => ln (sph_k l x)) Hh Hk (proj2 H1) (proj2 H2)) as [g' [Eg' [_ C]]].
  { fold x. replace (lmax + lssmax + 2)%nat with (lmax + lssmax + 1 + 1)%nat by lia. now apply code_ext. }
  rewrite Eg in Eg'. injection Eg' as <-. cbv zeta in C. fold x in C.
  assert (EX : forall F, closed F (fun p => exp (ln (sph_k p x))) g l1 l2 = closed F (fun p => sph_k p x) g l1 l2).
  { intros F. unfold closed. apply sum_eq. intros i _. rewrite exp_ln by now apply sph_k_pos. reflexivity. }
  rewrite !EX in C. destruct C as [C1 [_ [C3 _]]]. unfold V. rewrite C1, C3.
  set (n := Z.abs_nat m). assert (N1 : (n <= l1)%nat) by (unfold n; lia). assert (N2 : (n <= l2)%nat) by (unfold n; lia).
  assert (P := cfac_pos m l1 l2 (proj1 H1) (proj1 H2)).
  assert (Q1 := @same_up th l1 l2 n x). assert (Q2 := @mixed_up th l1 l2 n x). change (ssrnat.addn l1 l2) with (l1 + l2)%nat in Q1, Q2.
  assert (R1 := Q1 Hth ltac:(now apply (ssrbool.introT ssrnat.leP)) ltac:(now apply (ssrbool.introT ssrnat.leP)) ltac:(apply (ssrbool.introT ssrnat.leP); lia) ltac:(apply (ssrbool.introT ssrnat.leP); lia) X).
  assert (R2 := Q2 Hth ltac:(now apply (ssrbool.introT ssrnat.leP)) ltac:(now apply (ssrbool.introT ssrnat.leP)) X). clear Q1 Q2.
  unfold tbound. fold n. split.
  - replace (closed (EE_ab true m l1 l2) (fun p => sph_k p x) g l1 l2) with (closed (fun p b q => (llp1 l1 + llp1 l2 - llp1 p) * common_ab true m l1 l2 p b q) (fun p => sph_k p x) g l1 l2) by reflexivity.
    rewrite (ext_sum m l1 l2 g Eg (proj1 H1) (proj1 H2) Hm). fold n. rewrite Rabs_mult, Rabs_Ropp, (Rabs_pos_eq (cfac m l1 l2)) by lra.
    apply Rmult_le_compat_l; [lra|]. exact R1.
  - replace (closed (EM_ab true m l1 l2 x) (fun p => sph_k p x) g l1 l2) with (2 * IZR m * x * closed (fun p b q => 1 * common_ab true m l1 l2 p b q) (fun p => sph_k p x) g l1 l2).
    2:{ unfold closed. rewrite scal_sum. apply sum_eq. intros i _. unfold EM_ab. ring. }
    rewrite (ext_sum m l1 l2 g Eg (proj1 H1) (proj1 H2) Hm). fold n.
    rewrite (sum_eq _ (fun p => cprod l1 l2 n p * sph_k p x)) by (intros; ring).
    rewrite !Rabs_mult, Rabs_Ropp, (Rabs_pos_eq (cfac m l1 l2)), (Rabs_pos_eq x), (Rabs_pos_eq 2) by lra.
    assert (EA : Rabs (IZR m) = INR n). { unfold n. rewrite INR_IZR_INZ, Zabs2Nat.id_abs, abs_IZR. reflexivity. }
    rewrite EA. set (s := Rabs (sum_f_R0 _ _)) in *.
    assert (L1 := lead_pos l1 n). assert (L2 := lead_pos l2 n). assert (LL : 0 < lead l1 n * lead l2 n) by now apply Rmult_lt_0_compat.
    assert (I1 : 1 <= INR l1) by (apply (le_INR 1); lia). assert (I2 : 1 <= INR l2) by (apply (le_INR 1); lia). assert (In : INR n <= INR l1) by now apply le_INR. assert (In0 := pos_INR n).
    assert (F := INR_fact_lt_0 (l1 + l2)). assert (XX : 0 < x ^ S (l1 + l2)) by now apply pow_lt. assert (HP := PI_RGT_0).
    apply Rle_trans with (2 * INR n * x * (cfac m l1 l2 * (PI / 2 * (lead l1 n * lead l2 n * INR (fact (l1 + l2)) / x ^ S (l1 + l2) * damp th (l1 + l2) x)))).
    + apply Rmult_le_compat_l; [nra|]. apply Rmult_le_compat_l; [lra|exact R2].
    + unfold top. set (G := cfac m l1 l2 * (PI / 2 * (lead l1 n * lead l2 n * INR (fact (l1 + l2)) / x ^ S (l1 + l2) * damp th (l1 + l2) x))).
      assert (DD := damp_pos (l1 + l2) x (proj1 Hth)). assert (G0 : 0 <= G). { unfold G. apply Rmult_le_pos; [lra|]. apply Rmult_le_pos; [lra|]. apply Rmult_le_pos; [|lra]. apply Rmult_le_pos; [nra|left; now apply Rinv_0_lt_compat]. }
      replace (x * _) with ((4 * (INR l1 * INR l2)) * x * G) by (unfold G; field; apply pow_nonzero; lra).
      apply Rmult_le_compat_r; [assumption|]. apply Rmult_le_compat_r; [lra|]. nra.
Qed.
End Trans.
Lemma tbound_nonneg th m l1 l2 x : 0 < th -> (1 <= l1)%nat -> (1 <= l2)%nat -> 0 < x -> 0 <= tbound th m l1 l2 x.
Proof.
  intros Hth H1 H2 Hx. assert (DD := damp_pos (l1 + l2) x Hth). assert (P := cfac_pos m l1 l2 H1 H2). assert (HP := PI_RGT_0). assert (L1 := lead_pos l1 (Z.abs_nat m)). assert (L2 := lead_pos l2 (Z.abs_nat m)).
  assert (F := INR_fact_lt_0 (l1 + l2)). assert (XX : 0 < x ^ S (l1 + l2)) by now apply pow_lt. assert (I1 := pos_INR l1). assert (I2 := pos_INR l2).
  unfold tbound. apply Rmult_le_pos; [lra|]. apply Rmult_le_pos; [lra|]. apply Rmult_le_pos; [|lra]. apply Rmult_le_pos; [|left; now apply Rinv_0_lt_compat]. apply Rmult_le_pos; [|lra]. unfold top.
  apply Rmult_le_pos; [lra|]. apply Rmult_le_pos; nra.
Qed.
Lemma tbound_sq th m l1 l2 x : 0 < th -> (1 <= l1)%nat -> (1 <= l2)%nat -> (Z.abs m <= Z.of_nat (Nat.min l1 l2))%Z -> 0 < x ->
  tbound th m l1 l2 x ^ 2 <= 4 * ((2 * INR l1 + 1) * odd_dfact l1 ^ 2) * ((2 * INR l2 + 1) * odd_dfact l2 ^ 2) * choose l1 l2 ^ 2 / x ^ (2 * (l1 + l2) + 2) * damp th (l1 + l2) x ^ 2.
Proof.
  intros Hth H1 H2 Hm Hx. assert (DD := damp_pos (l1 + l2) x Hth). set (dd := damp th (l1 + l2) x) in *. set (n := Z.abs_nat m). assert (N1 : (n <= l1)%nat) by (unfold n; lia). assert (N2 : (n <= l2)%nat) by (unfold n; lia).
  assert (I1 : 1 <= INR l1) by (apply (le_INR 1); lia). assert (I2 : 1 <= INR l2) by (apply (le_INR 1); lia). assert (HP := PI_RGT_0).
  assert (F1 := fact_mid l1 n N1). assert (F2 := fact_mid l2 n N2). assert (O1 := odd_dfact_pos l1). assert (O2 := odd_dfact_pos l2).
  unfold tbound. fold dd. clearbody dd. unfold cfac, top, lead, choose. fold n. unfold Kn.
  assert (fa := INR_fact_lt_0 (l1 - n)). assert (fb := INR_fact_lt_0 (l2 - n)). assert (fc := INR_fact_lt_0 (l1 + n)). assert (fd := INR_fact_lt_0 (l2 + n)).
  change (ssrnat.subn l1 n) with (l1 - n)%nat. change (ssrnat.subn l2 n) with (l2 - n)%nat.
  assert (g1 := INR_fact_lt_0 l1). assert (g2 := INR_fact_lt_0 l2). assert (gs := INR_fact_lt_0 (l1 + l2)).
  replace (x ^ (2 * (l1 + l2) + 2)) with (x ^ S (l1 + l2) * x ^ S (l1 + l2)) by (rewrite <- pow_add; f_equal; lia).
  assert (XX : 0 < x ^ S (l1 + l2)) by now apply pow_lt.
  set (a := INR (fact (l1 - n))) in *. set (b := INR (fact (l2 - n))) in *. set (c := INR (fact (l1 + n))) in *. set (d := INR (fact (l2 + n))) in *.
  set (p := INR (fact l1)) in *. set (q := INR (fact l2)) in *. set (s := INR (fact (l1 + l2))) in *. set (y := x ^ S (l1 + l2)) in *.
  set (i1 := INR l1) in *. set (i2 := INR l2) in *. set (o1 := odd_dfact l1) in *. set (o2 := odd_dfact l2) in *.
  assert (SP : sqrt PI ^ 2 = PI) by (rewrite <- Rsqr_pow2; apply Rsqr_sqrt; lra).
  assert (S1 : sqrt ((2 * i1 + 1) * (2 * i2 + 1) / (4 * PI)) ^ 2 = (2 * i1 + 1) * (2 * i2 + 1) / (4 * PI)).
  { rewrite <- Rsqr_pow2; apply Rsqr_sqrt. left. apply Rdiv_lt_0_compat; [apply Rmult_lt_0_compat; lra|lra]. }
  assert (S2 : sqrt (a * b / (c * d)) ^ 2 = a * b / (c * d)).
  { rewrite <- Rsqr_pow2; apply Rsqr_sqrt. left. apply Rdiv_lt_0_compat; apply Rmult_lt_0_compat; lra. }
  assert (PL : 0 < llp1 l1 * llp1 l2) by (apply Rmult_lt_0_compat; now apply llp1_pos).
  assert (S3 : sqrt (llp1 l1 * llp1 l2) ^ 2 = llp1 l1 * llp1 l2) by (rewrite <- Rsqr_pow2; apply Rsqr_sqrt; lra).
  assert (Z3 := sqrt_lt_R0 _ PL). assert (ZP := sqrt_lt_R0 _ HP).
  set (w1 := sqrt PI) in *. set (w2 := sqrt ((2 * i1 + 1) * (2 * i2 + 1) / (4 * PI))) in *. set (w3 := sqrt (a * b / (c * d))) in *. set (w4 := sqrt (llp1 l1 * llp1 l2)) in *.
  replace ((w1 * (2 / PI) * (w2 * w3) / w4 * (PI / 2 * (4 * (i1 * i2 * (o1 / a * (o2 / b))) * s / y * dd))) ^ 2)
    with (w1 ^ 2 * w2 ^ 2 * w3 ^ 2 / w4 ^ 2 * ((4 * (i1 * i2 * (o1 / a * (o2 / b))) * s / y) ^ 2 * dd ^ 2)) by (field; repeat split; lra).
  rewrite SP, S1, S2, S3. unfold llp1. fold i1 i2.
  replace (PI * ((2 * i1 + 1) * (2 * i2 + 1) / (4 * PI)) * (a * b / (c * d)) / (i1 * (i1 + 1) * (i2 * (i2 + 1))) * ((4 * (i1 * i2 * (o1 / a * (o2 / b))) * s / y) ^ 2 * dd ^ 2))
    with ((i1 / (i1 + 1)) * (i2 / (i2 + 1)) * (/ (a * c) * / (b * d)) * (4 * ((2 * i1 + 1) * o1 ^ 2) * ((2 * i2 + 1) * o2 ^ 2) * s ^ 2 / (y * y) * dd ^ 2)) by (field; repeat split; lra).
  replace (4 * ((2 * i1 + 1) * o1 ^ 2) * ((2 * i2 + 1) * o2 ^ 2) * (s / (p * q)) ^ 2 / (y * y) * dd ^ 2)
    with (1 * 1 * (/ (p * p) * / (q * q)) * (4 * ((2 * i1 + 1) * o1 ^ 2) * ((2 * i2 + 1) * o2 ^ 2) * s ^ 2 / (y * y) * dd ^ 2)) by (field; repeat split; lra).
  assert (J : forall i, 1 <= i -> 0 <= i / (i + 1) <= 1).
  { intros i Hi. split; [left; apply Rdiv_lt_0_compat; lra|]. apply Rmult_le_reg_r with (i + 1); [lra|]. replace (i / (i + 1) * (i + 1)) with i by (field; lra). lra. }
  destruct (J i1 I1). destruct (J i2 I2).
  assert (T1 : / (a * c) <= / (p * p)) by (apply Rinv_le_contravar; [now apply Rmult_lt_0_compat|assumption]). assert (T2 : / (b * d) <= / (q * q)) by (apply Rinv_le_contravar; [now apply Rmult_lt_0_compat|assumption]).
  assert (0 < / (a * c)) by (apply Rinv_0_lt_compat; now apply Rmult_lt_0_compat). assert (0 < / (b * d)) by (apply Rinv_0_lt_compat; now apply Rmult_lt_0_compat).
  apply Rmult_le_compat_r.
  - apply Rmult_le_pos; [|apply pow2_ge_0]. apply Rmult_le_pos; [|left; apply Rinv_0_lt_compat; now apply Rmult_lt_0_compat]. apply Rmult_le_pos; [|apply pow2_ge_0].
    apply Rmult_le_pos; [apply Rmult_le_pos; [lra|]|]; apply Rmult_le_pos; try lra; apply pow2_ge_0.
  - apply Rmult_le_compat; [apply Rmult_le_pos; lra|apply Rmult_le_pos; lra|apply Rmult_le_compat; lra|apply Rmult_le_compat; lra].
Qed.
(** ** one term of the trace *)
Lemma term_up th m l1 l2 x1 x2 x a b v : 0 < th -> (1 <= l1)%nat -> (1 <= l2)%nat -> (Z.abs m <= Z.of_nat (Nat.min l1 l2))%Z -> 0 < x1 -> 0 < x2 -> 0 < x ->
  0 <= a <= amp l1 x1 -> 0 <= b <= amp l2 x2 -> Rabs v <= (1 + x) * tbound th m l1 l2 x -> a * v ^ 2 * b <= kfac th x1 x2 x * (x1 / x) * (x2 / x) * (((x1 + x2) / (th * x)) ^ 2) ^ (l1 + l2).
Proof.
  intros Hth H1 H2 Hm P1 P2 P Ha Hb Hv. assert (T := tbound_sq th m l1 l2 x Hth H1 H2 Hm P). assert (T0 := tbound_nonneg th m l1 l2 x Hth H1 H2 P).
  assert (V2 : v ^ 2 <= (1 + x) ^ 2 * tbound th m l1 l2 x ^ 2).
  { rewrite <- Rpow_mult_distr. rewrite <- (pow2_abs v). apply pow_incr. split; [apply Rabs_pos|exact Hv]. }
  assert (O1 := odd_dfact_pos l1). assert (O2 := odd_dfact_pos l2). assert (N1 := pos_INR l1). assert (N2 := pos_INR l2). assert (E1 := exp_pos (2 * x1)). assert (E2 := exp_pos (2 * x2)).
  assert (A1 := amp_pos l1 x1 P1). assert (A2 := amp_pos l2 x2 P2). assert (V0 := pow2_ge_0 v). assert (X2 := pow2_ge_0 (1 + x)).
  set (W := 4 * ((2 * INR l1 + 1) * odd_dfact l1 ^ 2) * ((2 * INR l2 + 1) * odd_dfact l2 ^ 2) * choose l1 l2 ^ 2 / x ^ (2 * (l1 + l2) + 2) * damp th (l1 + l2) x ^ 2) in *.
  apply Rle_trans with (amp l1 x1 * ((1 + x) ^ 2 * W) * amp l2 x2).
  { apply Rmult_le_compat; [apply Rmult_le_pos; lra|lra| |lra]. apply Rmult_le_compat; try lra. apply Rle_trans with (1 := V2). apply Rmult_le_compat_l; assumption. }
  assert (TX : 0 < th * x) by now apply Rmult_lt_0_compat.
  assert (C := choose_pow l1 l2 (x1 / (th * x)) (x2 / (th * x))). assert (Q1 : 0 < x1 / x) by now apply Rdiv_lt_0_compat. assert (Q2 : 0 < x2 / x) by now apply Rdiv_lt_0_compat.
  assert (Q3 : 0 < x1 / (th * x)) by now apply Rdiv_lt_0_compat. assert (Q4 : 0 < x2 / (th * x)) by now apply Rdiv_lt_0_compat.
  specialize (C ltac:(lra) ltac:(lra)). replace (x1 / (th * x) + x2 / (th * x)) with ((x1 + x2) / (th * x)) in C by (field; lra).
  assert (C0 : 0 <= choose l1 l2 * (x1 / (th * x)) ^ l1 * (x2 / (th * x)) ^ l2).
  { assert (D := choose_pos l1 l2). apply Rmult_le_pos; [apply Rmult_le_pos|]; [lra|apply pow_le; lra|apply pow_le; lra]. }
  assert (CC := pow_incr _ _ 2 (conj C0 C)). rewrite <- pow_mult in CC. rewrite (Nat.mul_comm (l1 + l2) 2), pow_mult in CC.
  apply Rle_trans with (kfac th x1 x2 x * (x1 / x) * (x2 / x) * (choose l1 l2 * (x1 / (th * x)) ^ l1 * (x2 / (th * x)) ^ l2) ^ 2).
  - right. unfold amp, W, kfac, damp. replace (exp (2 * (x1 + x2) - 2 * ((1 - th) * x))) with (exp (2 * x1) * exp (2 * x2) * (exp (- ((1 - th) * x)) * exp (- ((1 - th) * x)))) by (rewrite <- !exp_plus; f_equal; ring).
    replace (x ^ (2 * (l1 + l2) + 2)) with (x ^ l1 * x ^ l1 * (x ^ l2 * x ^ l2) * x ^ 2) by (rewrite <- !pow_add; f_equal; lia).
    replace (x1 ^ (2 * l1 + 1)) with (x1 ^ l1 * x1 ^ l1 * x1) by (replace (2 * l1 + 1)%nat with (l1 + l1 + 1)%nat by lia; rewrite !pow_add; ring).
    replace (x2 ^ (2 * l2 + 1)) with (x2 ^ l2 * x2 ^ l2 * x2) by (replace (2 * l2 + 1)%nat with (l2 + l2 + 1)%nat by lia; rewrite !pow_add; ring).
    assert (RR : forall y l, (y / (th * x)) ^ l = y ^ l / (th ^ l * x ^ l)) by (intros y l; unfold Rdiv; now rewrite Rpow_mult_distr, pow_inv, Rpow_mult_distr).
    rewrite !RR, (pow_add th). assert (0 < x ^ l1) by now apply pow_lt. assert (0 < x ^ l2) by now apply pow_lt. assert (0 < th ^ l1) by now apply pow_lt. assert (0 < th ^ l2) by now apply pow_lt.
    generalize (exp (- ((1 - th) * x))). intros EE. field. repeat split; lra.
  - apply Rmult_le_compat_l; [|exact CC]. apply Rmult_le_pos; [apply Rmult_le_pos|]; try lra. unfold kfac. assert (E := exp_pos (2 * (x1 + x2) - 2 * ((1 - th) * x))).
    apply Rmult_le_pos; [apply Rmult_le_pos; [apply Rmult_le_pos; [apply Rmult_le_pos; [lra|assumption]|]|]|]; lra.
Qed.
