(** * The dipole truncation: translation coefficients with l1 = l2 = 1 *)
From Coq Require Import Reals.
From Coquelicot Require Import Coquelicot.
From Coq Require Import Bool ZArith List Lia Lra.
From Verif Require Import Base Mat_Model Mat_Spec Help_Spec Help_Proofs Bessel_Model Bessel_Spec Bessel_Proofs Bessel_Proofs2 Bessel_Proofs3 Bessel_Proofs4 Bessel_Proofs6
  Gaunt_Model Gaunt_Proofs Scat_Model Scat_Spec Scat_Proofs Scat_Proofs2 Scat_Proofs7 Scat_Proofs8 Scat_Proofs9 Trans_Model Trans_Spec Trans_Proofs Trans_Proofs3 Trans_Proofs4.
Import ListNotations.
Open Scope R_scope.

(** ** Gaunt coefficients *)
Lemma exp_half x y : 0 < x -> 0 < y -> exp (0.5 * (ln x + ln x - ln y)) = x / sqrt y.
Proof.
  intros Hx Hy. replace (0.5 * (ln x + ln x - ln y)) with (ln x - ln (sqrt y)).
  - unfold Rminus. rewrite exp_plus, exp_Ropp, !exp_ln by (try apply sqrt_lt_R0; assumption). reflexivity.
  - assert (E : ln y = ln (sqrt y) + ln (sqrt y)). { rewrite <- ln_mult by (apply sqrt_lt_R0; assumption). now rewrite sqrt_sqrt by lra. } lra.
Qed.
Lemma amax_11 (m : Z) : (m = 0 \/ m = 1 \/ m = -1)%Z -> amax_of 1 1 m 2 = Def ((if Z.eqb m 0 then 1 else / 2) / sqrt PI).
Proof.
  intros Hm. assert (HP := PI_RGT_0). unfold amax_of, lgamma, clog.
  assert (Q1 : 0 < 2 * IZR 1 + 1) by lra. assert (Q2 : 0 < 4 * PI) by lra.
  destruct (Rleb_spec (2 * IZR 1 + 1) 0); [lra|]. destruct (Rleb_spec (4 * PI) 0); [lra|].
  assert (S4 : sqrt (4 * PI) = 2 * sqrt PI). { rewrite sqrt_mult by lra. replace 4 with (2 * 2) by ring. now rewrite sqrt_square by lra. }
  assert (SP : 0 < sqrt PI) by (apply sqrt_lt_R0; lra).
  destruct Hm as [->|[->| ->]]; cbn -[ln exp sqrt INR IZR]; f_equal.
  all: replace (INR (fact (Pos.to_nat 1))) with 1 by reflexivity; change (INR 1) with 1; replace (INR (fact (Pos.to_nat 2))) with 2 by reflexivity; replace (INR (fact (Pos.to_nat 4))) with 24 by (change (fact (Pos.to_nat 4)) with 24%nat; rewrite INR_IZR_INZ; reflexivity); rewrite ?ln_1.
  - replace (_ + 0.5 * (ln (2 * 1 + 1) + ln (2 * 1 + 1) - ln (4 * PI))) with ((ln 2 + ln 2 + ln 2 + ln 2 - ln 24) + 0.5 * (ln 3 + ln 3 - ln (4 * PI))) by (replace (2 * 1 + 1) with 3 by ring; lra).
    rewrite exp_plus, exp_half, S4 by lra. unfold Rminus. rewrite !exp_plus, exp_Ropp, !exp_ln by lra. field. lra.
  - replace (_ + 0.5 * (ln (2 * 1 + 1) + ln (2 * 1 + 1) - ln (4 * PI))) with ((ln 2 + ln 2 + ln 2 - ln 24) + 0.5 * (ln 3 + ln 3 - ln (4 * PI))) by (replace (2 * 1 + 1) with 3 by ring; lra).
    rewrite exp_plus, exp_half, S4 by lra. unfold Rminus. rewrite !exp_plus, exp_Ropp, !exp_ln by lra. field. lra.
  - replace (_ + 0.5 * (ln (2 * 1 + 1) + ln (2 * 1 + 1) - ln (4 * PI))) with ((ln 2 + ln 2 + ln 2 - ln 24) + 0.5 * (ln 3 + ln 3 - ln (4 * PI))) by (replace (2 * 1 + 1) with 3 by ring; lra).
    rewrite exp_plus, exp_half, S4 by lra. unfold Rminus. rewrite !exp_plus, exp_Ropp, !exp_ln by lra. field. lra.
Qed.

Definition gaunt_11 (m : Z) : list R := let a := (if Z.eqb m 0 then 1 else / 2) / sqrt PI in [a * (if Z.eqb m 0 then / 2 else - 1); a / sqrt 5].
Lemma gaunt_11_val (m : Z) : (m = 0 \/ m = 1 \/ m = -1)%Z -> gaunt 1 1 m = Def (gaunt_11 m).
Proof.
  intros Hm. unfold gaunt.
  assert (Em : Z.ltb (Z.min 1 1) (Z.abs m) = false) by (destruct Hm as [->|[->| ->]]; reflexivity). rewrite Em.
  assert (A := amax_11 m Hm). set (a := (if Z.eqb m 0 then 1 else / 2) / sqrt PI) in *.
  change (1 + 1)%Z with 2%Z. change (Z.abs (1 - 1)) with 0%Z. change (2 - 0)%Z with 2%Z. change (Z.quot 2 2 + 1)%Z with 2%Z.
  change (zeros 2) with (Def [0; 0]). cbn [cbind].
  assert (AB : exists b, cfor (crange 2) (alpha_body 1 1 0) [0; 0] = Def b).
  { change (crange 2) with [0%Z; 1%Z]. cbn [cfor]. unfold alpha_body, cdiv.
    destruct (Reqb_spec (4 * (IZR 0 + IZR 0 + 1) * (IZR 0 + IZR 0 + 1) - 1) 0) as [h|h]; [lra|]. cbn [cbind].
    match goal with |- context [aset [0; 0] 0 ?v] => change (aset [0; 0] 0 v) with (Def [v; 0]); set (w := v) end. cbn [cbind].
    destruct (Reqb_spec (4 * (IZR 1 + IZR 0 + 1) * (IZR 1 + IZR 0 + 1) - 1) 0) as [h'|h']; [lra|]. cbn [cbind].
    match goal with |- context [aset [w; 0] 1 ?v] => change (aset [w; 0] 1 v) with (Def [w; v]); set (w' := v) end. cbn [cbind]. now exists [w; w']. }
  destruct AB as [b ->]. cbn [cbind]. rewrite A. cbn [cbind]. change (2 - 1)%Z with 1%Z. change (2 - 2)%Z with 0%Z. change (2 - 3)%Z with (-1)%Z.
  change (aset [0; 0] 1 a) with (Def [0; a]). cbn [cbind]. change (1 * 1)%Z with 1%Z.
  unfold cdiv at 1. destruct (Reqb_spec ((2 * IZR 1 - 1) * (2 * IZR 1 - 1) * IZR 2) 0) as [h|h]; [lra|]. cbn [cbind Z.ltb Z.compare Pos.compare Pos.compare_cont].
  match goal with |- context [aset [0; a] 0 ?v] => change (aset [0; a] 0 v) with (Def [v; a]) end. cbn [cbind].
  change (crange_down (-1)) with (@nil Z). cbn [cfor cbind].
  change (crange 2) with [0%Z; 1%Z]. cbn [cfor]. unfold norm_body.
  match goal with |- context [aget [?v; a] 0] => change (aget [v; a] 0) with (Def v); set (w := v) end. cbn [cbind]. unfold csqrt, cdiv.
  destruct (Rltb_spec (2 * (IZR 0 + 2 * IZR 0) + 1) 0) as [h1|h1]; [lra|]. cbn [cbind].
  replace (2 * (IZR 0 + 2 * IZR 0) + 1) with 1 by ring. rewrite sqrt_1. destruct (Reqb_spec 1 0) as [h2|h2]; [lra|]. cbn [cbind].
  change (aset [w; a] 0 (w / 1)) with (Def [w / 1; a]). cbn [cbind]. change (aget [w / 1; a] 1) with (Def a). cbn [cbind].
  destruct (Rltb_spec (2 * (IZR 0 + 2 * IZR 1) + 1) 0) as [h3|h3]; [lra|]. cbn [cbind]. replace (2 * (IZR 0 + 2 * IZR 1) + 1) with 5 by ring.
  assert (S5 : 0 < sqrt 5) by (apply sqrt_lt_R0; lra). destruct (Reqb_spec (sqrt 5) 0) as [h4|h4]; [lra|]. cbn [cbind].
  change (aset [w / 1; a] 1 (a / sqrt 5)) with (Def [w / 1; a / sqrt 5]). unfold gaunt_11. fold a. cbn [cbind]. do 2 f_equal.
  unfold w. destruct Hm as [->|[->| ->]]; cbn [Z.eqb]; field.
Qed.

(** ** the coefficients *)
Lemma sph_k_2 x : 0 < x -> sph_k 2 x = PI / 2 * exp (- x) / x * (1 + 3 / x + 3 / x ^ 2).
Proof. intros Hx. rewrite sph_k_rec, sph_k_0, sph_k_1 by assumption. cbn [INR]. field. lra. Qed.

(** 3 e^-x (x^-2 + x^-3), -3/2 e^-x (x^-1 + x^-2 + x^-3) and 3/2 e^-x (x^-1 + x^-2) *)
Definition t0 (x : R) : R := 3 * exp (- x) * (/ x ^ 2 + / x ^ 3).
Definition t1 (x : R) : R := - (3 / 2) * exp (- x) * (/ x + / x ^ 2 + / x ^ 3).
Definition t2 (x : R) : R := 3 / 2 * exp (- x) * (/ x + / x ^ 2).
Lemma dipole_coefficients med e u lmax lssmax m k L : has med e u -> 0 < k -> 0 < e k -> 0 < L -> (1 <= lmax)%nat -> (1 <= lssmax)%nat -> (m = 0 \/ m = 1 \/ m = -1)%Z ->
  let x := k * L * sqrt (e k) in let V pick := coefficient pick trans_bessels lmax lssmax m med L true 1 1 k in
  V v_EEab = (if Z.eqb m 0 then t0 x else t1 x) /\ V v_EEba = (if Z.eqb m 0 then t0 x else t1 x) /\ V v_EMab = IZR m * t2 x /\ V v_EMba = - (IZR m * t2 x).
Proof.
  intros Hh Hk He HL H1 H2 Hm x V. assert (HP := PI_RGT_0).
  assert (X : 0 < x). { apply Rmult_lt_0_compat; [now apply Rmult_lt_0_compat|now apply sqrt_lt_R0]. }
  destruct (coefficient_val trans_bessels lmax lssmax m med L true 1 1 k e u (fun l => ln (sph_k l x)) Hh Hk H1 H2) as [g [Eg [_ E]]].
  { fold x. rewrite code_ext by assumption. do 2 f_equal. f_equal. lia. }
  cbv zeta in E. fold x in E. change (Z.of_nat 1) with 1%Z in Eg. rewrite gaunt_11_val in Eg by assumption. injection Eg as <-.
  destruct E as [E1 [E2 [E3 E4]]]. unfold V. rewrite E1, E2, E3, E4. clear E1 E2 E3 E4.
  unfold closed. change (lpps 1 1) with [0%nat; 2%nat]. cbn [Nat.min sum_f_R0 nth gaunt_11]. unfold EE_ba, EM_ba, EE_ab, EM_ab, common_ab, llp1.
  rewrite !exp_ln by (apply sph_k_pos; exact X). rewrite sph_k_2, sph_k_0 by assumption. cbn [INR].
  replace ((2 * 0 + 1) / (1 * (1 + 1) * (1 * (1 + 1)))) with (/ 4) by field. replace ((2 * (1 + 1) + 1) / (1 * (1 + 1) * (1 * (1 + 1)))) with (5 / 4) by field.
  assert (S4 : sqrt (/ 4) = / 2). { replace (/ 4) with (/ 2 * / 2) by field. apply sqrt_square. lra. }
  assert (S5 : sqrt (5 / 4) = sqrt 5 / 2). { unfold Rdiv. rewrite sqrt_mult by lra. now rewrite S4. }
  assert (Q : 0 < sqrt 5) by (apply sqrt_lt_R0; lra). assert (QP : 0 < sqrt PI) by (apply sqrt_lt_R0; lra). rewrite S4, S5. unfold gaunt_11. cbn [nth].
  unfold t0, t1, t2.
  destruct Hm as [->|[->| ->]]; cbn [Z.eqb sgnZ Z.even Z.abs Z.abs_nat Pos.to_nat Pos.iter_op pow Nat.add]; rewrite ?sgnZ_0; repeat split; field; repeat split; lra.
Qed.
