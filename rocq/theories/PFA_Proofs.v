(** * Proofs about the proximity force approximation *)
From Coq Require Import Reals.
From Coquelicot Require Import Coquelicot.
From Coq Require Import Bool ZArith List Lia Lra Psatz.
From Verif Require Import Base Mat_Model Mat_Spec Bessel_Model Scat_Model Scat_Spec Scat_Proofs Scat_Proofs2 PFA_Model PFA_Spec.
Import ListNotations.
Open Scope R_scope.

Lemma mlog_pos x : 0 < x -> mlog x = Val (ln x).
Proof. intros H. unfold mlog. destruct (Rltb_spec 0 x); [reflexivity|contradiction]. Qed.
Lemma mlog_neg x : x <= 0 -> mlog x = Exc ValueError.
Proof. intros H. unfold mlog. destruct (Rltb_spec 0 x); [lra|reflexivity]. Qed.
Lemma mlog_inv x v : mlog x = Val v -> 0 < x /\ v = ln x.
Proof. unfold mlog. destruct (Rltb_spec 0 x); intros E; [|discriminate]. injection E as <-. now split. Qed.
Lemma msqrt_val x : 0 <= x -> msqrt x = Val (sqrt x).
Proof. intros H. unfold msqrt. destruct (Rltb_spec x 0); [lra|reflexivity]. Qed.
Lemma msqrt_neg x : x < 0 -> msqrt x = Exc ValueError.
Proof. intros H. unfold msqrt. destruct (Rltb_spec x 0); [reflexivity|contradiction]. Qed.
Lemma mdiv_val x y : y <> 0 -> mdiv x y = Val (x / y).
Proof. intros H. unfold mdiv. destruct (Reqb_spec y 0); [contradiction|reflexivity]. Qed.
Lemma ndiv_val x y : y <> 0 -> ndiv x y = Val (x / y).
Proof. intros H. unfold ndiv. destruct (Reqb_spec y 0); [contradiction|reflexivity]. Qed.

(** ** reflection coefficients *)
Lemma has_pos m e u k : has m e u -> 0 < k -> 0 < e k /\ 0 < u k.
Proof. intros [_ [P _]]. apply P. Qed.
Lemma has_one m e u k : has m e u -> 0 < k -> eps_of m [k] = Val [e k] /\ mu_of m [k] = Val [u k].
Proof. intros [H _] Hk. apply (H [k]). now intros t [<-|[]]. Qed.
Lemma refl_val m md r q k : plate m md r -> 0 < k -> refl m md q k = Val (r q k).
Proof.
  intros [[-> E]|[e [u [eM [uM [H1 [H2 E]]]]]]] Hk; unfold refl, fresnel.
  - cbn. now rewrite E.
  - destruct H1 as [A1 [_ ->]]. destruct (A1 [k] ltac:(now intros t [<-|[]])) as [-> ->]. destruct (has_one md eM uM k H2 Hk) as [-> ->]. cbn. now rewrite E.
Qed.
Lemma plate_bound m md r q k : plate m md r -> 0 <= q -> 0 < k -> Rabs (fst (r q k)) <= 1 /\ Rabs (snd (r q k)) <= 1.
Proof.
  intros [[-> E]|[e [u [eM [uM [H1 [H2 E]]]]]]] Hq Hk; rewrite E.
  - cbn [fst snd]. split; apply Rabs_le; lra.
  - destruct (has_pos m e u k H1 Hk). destruct (has_pos md eM uM k H2 Hk).
    destruct (fresnel_bounds (e k) (u k) (eM k) (uM k) q k); try assumption; try lra.
Qed.
Lemma kz_pos n2 q k : 0 < n2 k -> 0 < k -> 0 < kz n2 q k.
Proof. intros H Hk. unfold kz. apply sqrt_lt_R0. assert (0 <= q ^ 2) by apply pow2_ge_0. assert (0 < k ^ 2) by now apply pow_lt. nra. Qed.

(** one loop factor *)
Lemma loop_small a b x : Rabs a <= 1 -> Rabs b <= 1 -> x < 0 -> Rabs (a * b * exp x) < 1.
Proof.
  intros Ha Hb Hx. rewrite !Rabs_mult. rewrite (Rabs_pos_eq (exp x)) by (left; apply exp_pos).
  assert (exp x < 1) by (rewrite <- exp_0; now apply exp_increasing). pose proof (exp_pos x).
  pose proof (Rabs_pos a). pose proof (Rabs_pos b). assert (Rabs a * Rabs b <= 1) by nra. nra.
Qed.

Section Plates.
Context (p : pfa) (r1 r2 : R -> R -> R * R) (e u : R -> R).
Context (H1 : plate (p_mat1 p) (p_md p) r1) (H2 : plate (p_mat2 p) (p_md p) r2) (Hm : has (p_md p) e u).
Let n2 k := e k * u k.

Lemma efactors_val q k L : 0 < k -> efactors p q k L =
  Val (kz n2 q k, fst (r1 q k) * fst (r2 q k) * exp (-2 * kz n2 q k * L), snd (r1 q k) * snd (r2 q k) * exp (-2 * kz n2 q k * L)).
Proof.
  intros Hk. unfold efactors. rewrite (refl_val _ _ r1 q k H1 Hk), (refl_val _ _ r2 q k H2 Hk).
  destruct (has_one _ e u k Hm Hk) as [-> ->]. destruct (r1 q k) as [a b]. destruct (r2 q k) as [c d]. cbn [obind hd0 nth fst snd].
  destruct (has_pos _ e u k Hm Hk). unfold hd0. cbn [nth]. rewrite msqrt_val; [reflexivity|].
  assert (0 <= q ^ 2) by apply pow2_ge_0. assert (0 < k ^ 2) by now apply pow_lt. assert (0 < e k * u k) by now apply Rmult_lt_0_compat. nra.
Qed.
Lemma loops_small q k L : 0 <= q -> 0 < k -> 0 < L ->
  Rabs (fst (r1 q k) * fst (r2 q k) * exp (-2 * kz n2 q k * L)) < 1 /\ Rabs (snd (r1 q k) * snd (r2 q k) * exp (-2 * kz n2 q k * L)) < 1.
Proof.
  intros Hq Hk HL. destruct (plate_bound _ _ _ q k H1 Hq Hk). destruct (plate_bound _ _ _ q k H2 Hq Hk). destruct (has_pos _ e u k Hm Hk).
  assert (0 < kz n2 q k) by (apply kz_pos; [now apply Rmult_lt_0_compat|assumption]).
  assert (-2 * kz n2 q k * L < 0) by nra. split; apply loop_small; assumption.
Qed.

Lemma all_values q k L : 0 <= q -> 0 < k -> 0 < L ->
  let K := kz n2 q k in
  let a := ln_loop (fst (r1 q k)) (fst (r2 q k)) K L in let b := ln_loop (snd (r1 q k)) (snd (r2 q k)) K L in
  let x := fst (r1 q k) * fst (r2 q k) * exp (-2 * K * L) in let y := snd (r1 q k) * snd (r2 q k) * exp (-2 * K * L) in
  roundTrips p q k L = Val (a, b) /\ roundTrip p q k L = Val (a + b) /\
  pressureRoundTrips p q k L = Val (- K * x / (1 - x), - K * y / (1 - y)) /\ pressureRoundTrip p q k L = Val (- K * x / (1 - x) + - K * y / (1 - y)) /\
  0 < 1 - x /\ 0 < 1 - y.
Proof.
  intros Hq Hk HL K a b x y. destruct (loops_small q k L Hq Hk HL) as [B1 B2]. fold K in B1, B2. fold x in B1. fold y in B2.
  apply Rabs_def2 in B1. apply Rabs_def2 in B2. unfold roundTrips, roundTrip, pressureRoundTrips, pressureRoundTrip. rewrite efactors_val by assumption. cbn [obind].
  fold K. fold x. fold y. rewrite !mlog_pos by nra. cbn [obind]. rewrite !ndiv_val by lra. cbn [obind].
  split; [reflexivity|]. split; [|split; [reflexivity|split; [reflexivity|lra]]]. f_equal. unfold a, b, ln_loop. fold x. fold y. apply ln_mult; lra.
Qed.

(** derivative of one polarization *)
Lemma ln_loop_derive c d K L : 0 < 1 - c * d * exp (-2 * K * L) ->
  is_derive (fun L => ln_loop c d K L) L (-2 * (- K * (c * d * exp (-2 * K * L)) / (1 - c * d * exp (-2 * K * L)))).
Proof.
  intros H. unfold ln_loop. auto_derive; [exact H|]. field. lra.
Qed.
End Plates.

Lemma ln_loop_sign c d K L : 0 < 1 - c * d * exp (-2 * K * L) ->
  (0 <= c * d -> ln_loop c d K L <= 0) /\ (0 < c * d -> ln_loop c d K L < 0) /\ (c * d < 0 -> 0 < ln_loop c d K L).
Proof.
  intros H. unfold ln_loop. pose proof (exp_pos (-2 * K * L)) as E. set (w := exp (-2 * K * L)) in *. split; [|split]; intros Hc.
  - assert (0 <= c * d * w) by (apply Rmult_le_pos; lra). destruct (Req_dec (c * d * w) 0) as [->|N]; [rewrite Rminus_0_r, ln_1; lra|]. left. rewrite <- ln_1. apply ln_increasing; lra.
  - assert (0 < c * d * w) by (apply Rmult_lt_0_compat; lra). rewrite <- ln_1. apply ln_increasing; lra.
  - assert (0 < (- (c * d)) * w) by (apply Rmult_lt_0_compat; lra). rewrite <- ln_1. apply ln_increasing; lra.
Qed.
Lemma ln_loop_mono c d K L L' : 0 < K -> L < L' -> 0 < 1 - c * d * exp (-2 * K * L) ->
  (0 <= c * d -> ln_loop c d K L <= ln_loop c d K L') /\ (0 < c * d -> ln_loop c d K L < ln_loop c d K L').
Proof.
  intros HK HL H. unfold ln_loop. assert (E : exp (-2 * K * L') < exp (-2 * K * L)) by (apply exp_increasing; nra). pose proof (exp_pos (-2 * K * L')).
  assert (S : 0 < c * d -> ln (1 - c * d * exp (-2 * K * L)) < ln (1 - c * d * exp (-2 * K * L'))) by (intros Hc; apply ln_increasing; [assumption|nra]).
  split; [|exact S]. intros Hc. destruct (Req_dec (c * d) 0) as [->|N]; [rewrite !Rmult_0_l; lra|]. left. apply S. lra.
Qed.

(** ** structure, for arbitrary materials and separations *)
Lemma sum_of_logs p q k L a b : roundTrips p q k L = Val (a, b) -> roundTrip p q k L = Val (a + b).
Proof.
  unfold roundTrips, roundTrip. destruct (efactors p q k L) as [[[K x] y]| |]; cbn [obind]; try discriminate.
  destruct (mlog (1 - x)) as [a'| |] eqn:E1; cbn [obind]; try discriminate. destruct (mlog (1 - y)) as [b'| |] eqn:E2; cbn [obind]; try discriminate.
  intros E. injection E as <- <-. apply mlog_inv in E1, E2. destruct E1 as [P1 ->]. destruct E2 as [P2 ->]. rewrite mlog_pos by (now apply Rmult_lt_0_compat). f_equal. now apply ln_mult.
Qed.
Lemma sum_of_pressures p q k L a b : pressureRoundTrips p q k L = Val (a, b) -> pressureRoundTrip p q k L = Val (a + b).
Proof.
  unfold pressureRoundTrips, pressureRoundTrip. destruct (efactors p q k L) as [[[K x] y]| |]; cbn [obind]; try discriminate.
  destruct (ndiv _ (1 - x)) as [a'| |]; cbn [obind]; try discriminate. destruct (ndiv _ (1 - y)) as [b'| |]; cbn [obind]; try discriminate.
  intros E. now injection E as <- <-.
Qed.
Lemma efactors_exchanged p q k L v : efactors p q k L = Val v -> efactors (exchanged p) q k L = Val v.
Proof.
  unfold efactors. cbn [exchanged p_mat1 p_mat2 p_md]. destruct (refl (p_mat1 p) _ _ _) as [[a b]| |]; cbn [obind]; try discriminate.
  destruct (refl (p_mat2 p) _ _ _) as [[c d]| |]; cbn [obind]; try discriminate. now rewrite (Rmult_comm a c), (Rmult_comm b d).
Qed.
Lemma exchange_all p q k L :
  (forall v, roundTrips p q k L = Val v -> roundTrips (exchanged p) q k L = Val v) /\ (forall v, roundTrip p q k L = Val v -> roundTrip (exchanged p) q k L = Val v) /\
  (forall v, pressureRoundTrips p q k L = Val v -> pressureRoundTrips (exchanged p) q k L = Val v) /\ (forall v, pressureRoundTrip p q k L = Val v -> pressureRoundTrip (exchanged p) q k L = Val v).
Proof.
  unfold roundTrips, roundTrip, pressureRoundTrips, pressureRoundTrip.
  destruct (efactors p q k L) as [f| |] eqn:E; cbn [obind]; [|repeat split; discriminate|repeat split; discriminate]. rewrite (efactors_exchanged _ _ _ _ _ E). cbn [obind]. auto.
Qed.

(** ** the distance of the surfaces *)
Lemma half_chord_val r rho : 0 < r -> Rabs rho <= r -> half_chord r rho = Val (sqrt (r ^ 2 - rho ^ 2)).
Proof.
  intros Hr Hrho. unfold half_chord. rewrite mdiv_val by lra. cbn [obind]. assert (S : rho ^ 2 <= r ^ 2) by (rewrite <- (pow2_abs rho); apply pow_incr; split; [apply Rabs_pos|assumption]).
  assert (0 < r ^ 2) by now apply pow_lt. assert (E : 1 - (rho / r) ^ 2 = (r ^ 2 - rho ^ 2) / r ^ 2) by (field; lra).
  assert (0 <= (r ^ 2 - rho ^ 2) / r ^ 2) by (apply Rdiv_le_0_compat; lra). rewrite msqrt_val by lra. cbn [obind]. f_equal. rewrite E, sqrt_div by lra.
  rewrite (sqrt_pow2 r) by lra. field. lra.
Qed.
Lemma half_chord_out r rho : 0 < r -> r < Rabs rho -> half_chord r rho = Exc ValueError.
Proof.
  intros Hr Hrho. unfold half_chord. rewrite mdiv_val by lra. cbn [obind]. assert (S : r ^ 2 < rho ^ 2) by (rewrite <- (pow2_abs rho); nra).
  rewrite msqrt_neg; [reflexivity|]. assert (0 < r ^ 2) by now apply pow_lt. replace (1 - (rho / r) ^ 2) with (- ((rho ^ 2 - r ^ 2) / r ^ 2)) by (field; lra).
  assert (0 < (rho ^ 2 - r ^ 2) / r ^ 2) by (apply Rdiv_lt_0_compat; lra). lra.
Qed.
