(** * Properties C46, C47, C48 (PFA.py) *)
From Coq Require Import Reals.
From Coquelicot Require Import Coquelicot.
From Coq Require Import Bool ZArith List Lia Lra Psatz.
From Verif Require Import Base Mat_Model Mat_Spec Bessel_Model Scat_Model Scat_Spec Scat_Proofs Scat_Proofs2 Scat_Props PFA_Model PFA_Spec PFA_Proofs PFA_Proofs2 PFA_Proofs3.
Import ListNotations.
Open Scope R_scope.

(** ** C46: distance *)
(** for separate spheres: the distance along the axis of the facing points of sphere 1 (centre 0) and sphere 2 (centre d) *)
Theorem C46_exterior : forall r1 r2 d rho, 0 < r1 -> 0 < r2 -> r1 + r2 < d -> Rabs rho <= Rmin r1 r2 ->
  exists z1 z2, on_sphere 0 r1 rho z1 /\ 0 <= z1 /\ on_sphere d r2 rho z2 /\ z2 <= d /\ distance r1 r2 d rho = Val (z2 - z1) /\ d - r1 - r2 <= z2 - z1.
Proof.
  intros r1 r2 d rho H1 H2 Hd Hr. pose proof (Rmin_l r1 r2). pose proof (Rmin_r r1 r2). pose proof (Rabs_pos rho).
  assert (S1 : rho ^ 2 <= r1 ^ 2) by (rewrite <- (pow2_abs rho); apply pow_incr; lra). assert (S2 : rho ^ 2 <= r2 ^ 2) by (rewrite <- (pow2_abs rho); apply pow_incr; lra).
  exists (sqrt (r1 ^ 2 - rho ^ 2)), (d - sqrt (r2 ^ 2 - rho ^ 2)). unfold on_sphere. pose proof (sqrt_pos (r1 ^ 2 - rho ^ 2)). pose proof (sqrt_pos (r2 ^ 2 - rho ^ 2)). pose proof (pow2_ge_0 rho).
  assert (E1 : sqrt (r1 ^ 2 - rho ^ 2) ^ 2 = r1 ^ 2 - rho ^ 2) by (apply pow2_sqrt; lra). assert (E2 : sqrt (r2 ^ 2 - rho ^ 2) ^ 2 = r2 ^ 2 - rho ^ 2) by (apply pow2_sqrt; lra).
  assert (sqrt (r1 ^ 2 - rho ^ 2) <= r1) by nra. assert (sqrt (r2 ^ 2 - rho ^ 2) <= r2) by nra.
  split; [nra|]. split; [assumption|]. split; [nra|]. split; [lra|]. split; [|lra]. rewrite distance_ext by assumption. f_equal. ring.
Qed.
(** sphere 1 inside sphere 2 *)
Theorem C46_interior : forall r1 r2 d rho, 0 < r1 -> 0 <= d -> d + r1 < r2 -> Rabs rho <= r1 ->
  exists z1 z2, on_sphere d r1 rho z1 /\ d <= z1 /\ on_sphere 0 r2 rho z2 /\ 0 <= z2 /\ distance r1 r2 d rho = Val (z2 - z1) /\ r2 - d - r1 <= z2 - z1.
Proof.
  intros r1 r2 d rho H1 Hd H Hr. pose proof (Rabs_pos rho). assert (M : Rmin r1 r2 = r1) by (apply Rmin_left; lra).
  assert (S1 : rho ^ 2 <= r1 ^ 2) by (rewrite <- (pow2_abs rho); apply pow_incr; lra). assert (S2 : rho ^ 2 <= r2 ^ 2) by (rewrite <- (pow2_abs rho); apply pow_incr; lra).
  exists (d + sqrt (r1 ^ 2 - rho ^ 2)), (sqrt (r2 ^ 2 - rho ^ 2)). unfold on_sphere. pose proof (sqrt_pos (r1 ^ 2 - rho ^ 2)). pose proof (sqrt_pos (r2 ^ 2 - rho ^ 2)).
  assert (E1 : sqrt (r1 ^ 2 - rho ^ 2) ^ 2 = r1 ^ 2 - rho ^ 2) by (apply pow2_sqrt; lra). assert (E2 : sqrt (r2 ^ 2 - rho ^ 2) ^ 2 = r2 ^ 2 - rho ^ 2) by (apply pow2_sqrt; lra).
  split; [nra|]. split; [lra|]. split; [nra|]. split; [lra|]. split; [rewrite distance_int by (rewrite ?M; lra); f_equal; ring|].
  destruct (Req_dec (Rabs rho) 0) as [Z|N].
  - assert (rho = 0) as -> by (destruct (Req_dec rho 0); [assumption|exfalso; now apply (Rabs_no_R0 rho)]).
    replace (r1 ^ 2 - 0 ^ 2) with (r1 ^ 2) by ring. replace (r2 ^ 2 - 0 ^ 2) with (r2 ^ 2) by ring. rewrite !sqrt_pow2 by lra. lra.
  - assert (D := chord_diff r1 r2 0 (Rabs rho) ltac:(lra) ltac:(lra) Hr). rewrite pow2_abs in D.
    replace (r1 ^ 2 - 0 ^ 2) with (r1 ^ 2) in D by ring. replace (r2 ^ 2 - 0 ^ 2) with (r2 ^ 2) in D by ring. rewrite !sqrt_pow2 in D by lra. lra.
Qed.
Theorem C46_gap : forall r1 r2 d, 0 < r1 -> 0 < r2 ->
  (r1 + r2 < d -> distance r1 r2 d 0 = Val (d - r1 - r2)) /\ (d <= r1 + r2 -> distance r1 r2 d 0 = Val (r2 - d - r1)).
Proof. intros r1 r2 d H1 H2. unfold distance. rewrite !half_chord0 by assumption. destruct (Rltb_spec (r1 + r2) d); split; intros; try lra; reflexivity. Qed.
Theorem C46_increasing : forall r1 r2 d a b, 0 < r1 -> 0 < r2 -> 0 <= a < b -> b <= Rmin r1 r2 -> r1 + r2 < d \/ (r1 < r2 /\ d <= r1 + r2) ->
  exists u v, distance r1 r2 d a = Val u /\ distance r1 r2 d b = Val v /\ u < v.
Proof.
  intros r1 r2 d a b H1 H2 Hab Hb [Hd|[H12 Hd]].
  all: pose proof (Rmin_l r1 r2); pose proof (Rmin_r r1 r2); assert (Rabs a <= Rmin r1 r2) by (rewrite Rabs_pos_eq; lra); assert (Rabs b <= Rmin r1 r2) by (rewrite Rabs_pos_eq; lra).
  - rewrite !distance_ext by assumption. do 2 eexists. split; [reflexivity|]. split; [reflexivity|].
    assert (X := chord_decr r1 a b ltac:(lra) ltac:(lra)). assert (Y := chord_decr r2 a b ltac:(lra) ltac:(lra)). lra.
  - rewrite !distance_int by assumption. do 2 eexists. split; [reflexivity|]. split; [reflexivity|].
    assert (X := chord_diff r1 r2 a b ltac:(lra) ltac:(lra) ltac:(lra)). lra.
Qed.
Theorem C46_symmetric : forall r1 r2 d rho, 0 < r1 -> 0 < r2 -> r1 + r2 < d -> distance r2 r1 d rho = distance r1 r2 d rho.
Proof.
  intros r1 r2 d rho H1 H2 Hd. destruct (Rle_lt_dec (Rabs rho) (Rmin r1 r2)) as [H|H].
  - rewrite !distance_ext; try assumption; [f_equal; ring|lra|now rewrite Rmin_comm].
  - rewrite !distance_out; try assumption; [reflexivity|now rewrite Rmin_comm].
Qed.
Theorem C46_out_of_range : forall r1 r2 d rho, 0 < r1 -> 0 < r2 -> Rmin r1 r2 < Rabs rho -> distance r1 r2 d rho = Exc ValueError.
Proof. exact distance_out. Qed.
(** the defect: with sphere 2 inside sphere 1 every distance is negative *)
Theorem C46_inner_sphere_second_refuted : forall r1 r2 d rho, 0 < r2 -> 0 <= d -> d + r2 < r1 -> Rabs rho <= r2 ->
  exists v, distance r1 r2 d rho = Val v /\ v < 0 /\ distance r1 r2 d 0 = Val (r2 - d - r1) /\ 0 < r1 - d - r2.
Proof.
  intros r1 r2 d rho H2 Hd H Hr. eexists. split; [apply distance_int; try lra; rewrite Rmin_right; lra|]. split; [|split; [apply C46_gap; lra|lra]].
  pose proof (Rabs_pos rho). assert (S2 : rho ^ 2 <= r2 ^ 2) by (rewrite <- (pow2_abs rho); apply pow_incr; lra).
  assert (sqrt (r2 ^ 2 - rho ^ 2) < sqrt (r1 ^ 2 - rho ^ 2)) by (apply sqrt_lt_1_alt; nra). lra.
Qed.
Print Assumptions C46_exterior.
Print Assumptions C46_interior.
Print Assumptions C46_gap.
Print Assumptions C46_increasing.
Print Assumptions C46_symmetric.
Print Assumptions C46_out_of_range.
Print Assumptions C46_inner_sphere_second_refuted.
Example C46_example : exists u v, distance 2 7 9.25 0.5 = Val u /\ distance 2 7 9.25 1 = Val v /\ u < v.
Proof. apply C46_increasing; try lra. rewrite Rmin_left; lra. Qed.
Example C46_example_interior : exists u v, distance 2 7 3 0.5 = Val u /\ distance 2 7 3 1 = Val v /\ u < v.
Proof. apply C46_increasing; try lra. rewrite Rmin_left; lra. Qed.

(** ** C47: roundTrips, roundTrip, pressureRoundTrips, pressureRoundTrip *)
(** values, for half spaces of any material with positive permittivity and permeability or perfect conductors *)
Theorem C47_values : forall p r1 r2 e u q k L,
  plate (p_mat1 p) (p_md p) r1 -> plate (p_mat2 p) (p_md p) r2 -> has (p_md p) e u -> 0 <= q -> 0 < k -> 0 < L ->
  let K := kz (fun k => e k * u k) q k in
  let a := ln_loop (fst (r1 q k)) (fst (r2 q k)) K L in let b := ln_loop (snd (r1 q k)) (snd (r2 q k)) K L in
  roundTrips p q k L = Val (a, b) /\ roundTrip p q k L = Val (a + b).
Proof.
  intros p r1 r2 e u q k L H1 H2 Hm Hq Hk HL K a b. destruct (all_values p r1 r2 e u H1 H2 Hm q k L Hq Hk HL) as [A [B _]]. now split.
Qed.
(** the functions for both polarizations are sums, for arbitrary materials and arguments *)
Theorem C47_sums : forall p q k L,
  (forall a b, roundTrips p q k L = Val (a, b) -> roundTrip p q k L = Val (a + b)) /\
  (forall a b, pressureRoundTrips p q k L = Val (a, b) -> pressureRoundTrip p q k L = Val (a + b)).
Proof. intros. split; intros; [now apply sum_of_logs|now apply sum_of_pressures]. Qed.
Theorem C47_exchange : forall p q k L,
  (forall v, roundTrips p q k L = Val v -> roundTrips (exchanged p) q k L = Val v) /\ (forall v, roundTrip p q k L = Val v -> roundTrip (exchanged p) q k L = Val v) /\
  (forall v, pressureRoundTrips p q k L = Val v -> pressureRoundTrips (exchanged p) q k L = Val v) /\ (forall v, pressureRoundTrip p q k L = Val v -> pressureRoundTrip (exchanged p) q k L = Val v).
Proof. exact exchange_all. Qed.
(** equal plates attract: all four functions are <= 0, and less so at larger separation *)
Theorem C47_equal_plates : forall p r e u q k L L', p_mat1 p = p_mat2 p -> plate (p_mat1 p) (p_md p) r -> has (p_md p) e u -> 0 <= q -> 0 < k -> 0 < L < L' ->
  exists a b a' b' c d, roundTrips p q k L = Val (a, b) /\ roundTrips p q k L' = Val (a', b') /\ pressureRoundTrips p q k L = Val (c, d) /\
    a <= 0 /\ b <= 0 /\ a <= a' /\ b <= b' /\ c <= 0 /\ d <= 0 /\
    (fst (r q k) <> 0 -> a < a' /\ a < 0 /\ c < 0) /\ (snd (r q k) <> 0 -> b < b' /\ b < 0 /\ d < 0).
Proof.
  intros p r e u q k L L' E H Hm Hq Hk [HL HL']. assert (H' := H). rewrite E in H'.
  destruct (all_values p r r e u H H' Hm q k L Hq Hk HL) as [A [_ [C [_ [P Q]]]]]. destruct (all_values p r r e u H H' Hm q k L' Hq Hk ltac:(lra)) as [A' _].
  cbv zeta in *. destruct (has_pos _ e u k Hm Hk). assert (HK : 0 < kz (fun k => e k * u k) q k) by (apply kz_pos; [now apply Rmult_lt_0_compat|assumption]).
  set (K := kz (fun k => e k * u k) q k) in *. do 6 eexists. split; [exact A|]. split; [exact A'|]. split; [exact C|].
  assert (SQ : forall x, 0 <= x * x /\ (x <> 0 -> 0 < x * x)) by (intros x; split; [apply Rle_0_sqr|intros; now apply Rsqr_pos_lt]).
  destruct (SQ (fst (r q k))) as [S1 T1]. destruct (SQ (snd (r q k))) as [S2 T2].
  destruct (ln_loop_sign _ _ _ _ P) as [B1 [B2 _]]. destruct (ln_loop_sign _ _ _ _ Q) as [B3 [B4 _]].
  destruct (ln_loop_mono _ _ _ _ _ HK HL' P) as [D1 D2]. destruct (ln_loop_mono _ _ _ _ _ HK HL' Q) as [D3 D4].
  assert (PR : forall x, 0 < 1 - x -> (0 <= x -> - K * x / (1 - x) <= 0) /\ (0 < x -> - K * x / (1 - x) < 0)).
  { intros x Hx. assert (0 < / (1 - x)) by now apply Rinv_0_lt_compat. unfold Rdiv. split; intros.
    - assert (0 <= K * x * / (1 - x)) by (apply Rmult_le_pos; [apply Rmult_le_pos|]; lra). lra.
    - assert (0 < K * x * / (1 - x)) by (apply Rmult_lt_0_compat; [apply Rmult_lt_0_compat|]; lra). lra. }
  destruct (PR _ P) as [E1 E2]. destruct (PR _ Q) as [E3 E4]. pose proof (exp_pos (-2 * K * L)).
  split; [now apply B1|]. split; [now apply B3|]. split; [now apply D1|]. split; [now apply D3|].
  split; [apply E1; apply Rmult_le_pos; lra|]. split; [apply E3; apply Rmult_le_pos; lra|].
  split; intros N; (split; [auto|split; [auto|]]); [apply E2|apply E4]; apply Rmult_lt_0_compat; auto.
Qed.
(** plates optically thinner and denser than the medium repel *)
Theorem C47_repulsion : forall p e1 e2 eM q k L,
  has (p_mat1 p) e1 (fun _ => 1) -> has (p_mat2 p) e2 (fun _ => 1) -> has (p_md p) eM (fun _ => 1) -> 0 <= q -> 0 < k -> 0 < L -> e1 k < eM k < e2 k ->
  exists a b, roundTrips p q k L = Val (a, b) /\ 0 < a /\ 0 < b.
Proof.
  intros p e1 e2 eM q k L H1 H2 HM Hq Hk HL [X1 X2].
  pose (f1 q k := fresnel1 (e1 k) 1 (eM k) 1 q k). pose (f2 q k := fresnel1 (e2 k) 1 (eM k) 1 q k).
  assert (P1 : plate (p_mat1 p) (p_md p) f1) by (right; exists e1, (fun _ => 1), eM, (fun _ => 1); auto). assert (P2 : plate (p_mat2 p) (p_md p) f2) by (right; exists e2, (fun _ => 1), eM, (fun _ => 1); auto).
  destruct (all_values p f1 f2 eM (fun _ => 1) P1 P2 HM q k L Hq Hk HL) as [A [_ [_ [_ [P Q]]]]]. do 2 eexists. split; [exact A|].
  destruct (has_pos _ _ _ k H1 Hk). destruct (has_pos _ _ _ k H2 Hk). destruct (has_pos _ _ _ k HM Hk).
  assert (D2 := C38_denser (e2 k) (eM k) q k ltac:(lra) Hq Hk). assert (D1 := C38_denser (eM k) (e1 k) q k ltac:(lra) Hq Hk).
  destruct (C38_antisymmetric (e1 k) 1 (eM k) 1 q k) as [S1 S2]; try lra. rewrite S1, S2 in D1. fold (f1 q k) in D1. fold (f2 q k) in D2.
  split; [apply (ln_loop_sign _ _ _ _ P)|apply (ln_loop_sign _ _ _ _ Q)]; nra.
Qed.
(** the defect: at negative separations (produced by [distance], C46) roundTrip of two conductors returns a number while
    roundTrips raises: the product of two negative factors has a logarithm *)
Theorem C47_negative_separation_refuted : forall p e u q k L, p_mat1 p = PEC -> p_mat2 p = PEC -> has (p_md p) e u -> 0 <= q -> 0 < k -> L < 0 ->
  roundTrips p q k L = Exc ValueError /\ exists v, roundTrip p q k L = Val v.
Proof.
  intros p e u q k L E1 E2 Hm Hq Hk HL. assert (P : forall md, plate PEC md (fun _ _ => (-1, 1))) by (left; auto).
  assert (P1 := P (p_md p)). assert (P2 := P (p_md p)). rewrite <- E1 in P1 at 1. rewrite <- E2 in P2 at 1.
  unfold roundTrips, roundTrip. rewrite (efactors_val p _ _ e u P1 P2 Hm q k L Hk). cbn [obind fst snd].
  destruct (has_pos _ e u k Hm Hk). assert (HK : 0 < kz (fun k => e k * u k) q k) by (apply kz_pos; [now apply Rmult_lt_0_compat|assumption]).
  assert (X : 1 < exp (-2 * kz (fun k => e k * u k) q k * L)) by (rewrite <- exp_0; apply exp_increasing; nra).
  set (w := exp _) in *. split; [rewrite mlog_neg by lra; reflexivity|]. eexists. apply mlog_pos. nra.
Qed.
Print Assumptions C47_values.
Print Assumptions C47_sums.
Print Assumptions C47_exchange.
Print Assumptions C47_equal_plates.
Print Assumptions C47_repulsion.
Print Assumptions C47_negative_separation_refuted.

(** ** C48: the pressure integrand is half of minus the derivative of the free-energy integrand *)
Theorem C48_derivative : forall p r1 r2 e u q k, plate (p_mat1 p) (p_md p) r1 -> plate (p_mat2 p) (p_md p) r2 -> has (p_md p) e u -> 0 <= q -> 0 < k ->
  exists F P : R -> R, (forall L, 0 < L -> roundTrip p q k L = Val (F L)) /\ (forall L, 0 < L -> pressureRoundTrip p q k L = Val (P L)) /\
    forall L, 0 < L -> is_derive F L (-2 * P L).
Proof.
  intros p r1 r2 e u q k H1 H2 Hm Hq Hk. set (K := kz (fun k => e k * u k) q k).
  exists (fun L => ln_loop (fst (r1 q k)) (fst (r2 q k)) K L + ln_loop (snd (r1 q k)) (snd (r2 q k)) K L).
  exists (fun L => let x := fst (r1 q k) * fst (r2 q k) * exp (-2 * K * L) in let y := snd (r1 q k) * snd (r2 q k) * exp (-2 * K * L) in - K * x / (1 - x) + - K * y / (1 - y)).
  split; [intros L HL; apply (all_values p r1 r2 e u H1 H2 Hm q k L Hq Hk HL)|]. split; [intros L HL; apply (all_values p r1 r2 e u H1 H2 Hm q k L Hq Hk HL)|].
  intros L HL. destruct (all_values p r1 r2 e u H1 H2 Hm q k L Hq Hk HL) as [_ [_ [_ [_ [A B]]]]]. fold K in A, B. cbv zeta.
  rewrite Rmult_plus_distr_l. apply (is_derive_plus (V := R_NormedModule)); now apply ln_loop_derive.
Qed.
(** hence it is not minus the derivative, unless it vanishes *)
Theorem C48_pressure_refuted : forall p r1 r2 e u q k L P, plate (p_mat1 p) (p_md p) r1 -> plate (p_mat2 p) (p_md p) r2 -> has (p_md p) e u -> 0 <= q -> 0 < k -> 0 < L ->
  pressureRoundTrip p q k L = Val P -> P <> 0 ->
  forall F, (forall L, 0 < L -> roundTrip p q k L = Val (F L)) -> ~ is_derive F L (- P).
Proof.
  intros p r1 r2 e u q k L P H1 H2 Hm Hq Hk HL HP N F HF D. destruct (C48_derivative p r1 r2 e u q k H1 H2 Hm Hq Hk) as [F' [P' [A [B C]]]].
  rewrite (B L HL) in HP. injection HP as <-. assert (D' : is_derive F L (-2 * P' L)).
  { apply (is_derive_ext_loc F'); [|now apply C]. generalize (near_pos L HL). apply filter_imp. intros y Hy. specialize (A y Hy). rewrite (HF y Hy) in A. now injection A. }
  apply is_derive_unique in D, D'. lra.
Qed.
(** the same after integration over any interval of wave vectors, with the weight k_perp/(2 pi) of both functions *)
Theorem C48_integrated : forall p r1 r2 e u k a b, plate (p_mat1 p) (p_md p) r1 -> plate (p_mat2 p) (p_md p) r2 -> has (p_md p) e u -> 0 < k -> 0 <= a <= b ->
  exists F P : R -> R -> R, (forall L q, 0 < L -> 0 <= q -> roundTrip p q k L = Val (F L q)) /\ (forall L q, 0 < L -> 0 <= q -> pressureRoundTrip p q k L = Val (P L q)) /\
    forall L, 0 < L -> is_derive (fun L => RInt (fun q => q / (2 * PI) * F L q) a b) L (-2 * RInt (fun q => q / (2 * PI) * P L q) a b).
Proof.
  intros p r1 r2 e u k a b H1 H2 Hm Hk Hab. set (K q := kz (fun k => e k * u k) q k).
  set (A q := fst (r1 q k) * fst (r2 q k)). set (B q := snd (r1 q k) * snd (r2 q k)). set (w q := q / (2 * PI)).
  destruct (has_pos _ e u k Hm Hk). assert (N2 : 0 < e k * u k) by now apply Rmult_lt_0_compat.
  destruct (plate_cont _ _ _ k H1 Hk) as [C1 C2]. destruct (plate_cont _ _ _ k H2 Hk) as [C3 C4].
  assert (cA : forall q, continuity_pt A q) by (intros q; now apply continuity_pt_mult). assert (cB : forall q, continuity_pt B q) by (intros q; now apply continuity_pt_mult).
  assert (cK : forall q, continuity_pt K q) by (apply kz_cont; assumption).
  assert (cw : forall q, continuity_pt w q) by (intros q; apply continuity_pt_mult; [apply derivable_continuous_pt, derivable_pt_id|apply continuity_pt_const; now intros ? ?]).
  assert (bAB : forall q, Rabs (A q) <= 1 /\ Rabs (B q) <= 1).
  { intros q. destruct (plate_bound_all _ _ _ q k H1 Hk). destruct (plate_bound_all _ _ _ q k H2 Hk). unfold A, B. rewrite !Rabs_mult.
    pose proof (Rabs_pos (fst (r1 q k))). pose proof (Rabs_pos (fst (r2 q k))). pose proof (Rabs_pos (snd (r1 q k))). pose proof (Rabs_pos (snd (r2 q k))). split; nra. }
  assert (pK : forall q, 0 < K q) by (intros q; now apply kz_pos).
  exists (fun L q => ln (1 - A q * exp (-2 * K q * L)) + ln (1 - B q * exp (-2 * K q * L))).
  exists (fun L q => - K q * (A q * exp (-2 * K q * L)) / (1 - A q * exp (-2 * K q * L)) + - K q * (B q * exp (-2 * K q * L)) / (1 - B q * exp (-2 * K q * L))).
  split; [intros L q HL Hq; apply (all_values p r1 r2 e u H1 H2 Hm q k L Hq Hk HL)|]. split; [intros L q HL Hq; apply (all_values p r1 r2 e u H1 H2 Hm q k L Hq Hk HL)|].
  intros L HL.
  assert (EF : forall L, 0 < L -> RInt (fun q => q / (2 * PI) * (ln (1 - A q * exp (-2 * K q * L)) + ln (1 - B q * exp (-2 * K q * L)))) a b = RInt (lnf A K w L) a b + RInt (lnf B K w L) a b).
  { intros y Hy. rewrite <- (RInt_plus (V := R_CompleteNormedModule)); [|apply lnf_int; try assumption; intros; apply bAB|apply lnf_int; try assumption; intros; apply bAB].
    apply RInt_ext. intros q _. unfold lnf, w. apply Rmult_plus_distr_l. }
  assert (EP : RInt (fun q => q / (2 * PI) * (- K q * (A q * exp (-2 * K q * L)) / (1 - A q * exp (-2 * K q * L)) + - K q * (B q * exp (-2 * K q * L)) / (1 - B q * exp (-2 * K q * L)))) a b = RInt (prf A K w L) a b + RInt (prf B K w L) a b).
  { rewrite <- (RInt_plus (V := R_CompleteNormedModule)); [|apply prf_int; try assumption; intros; apply bAB|apply prf_int; try assumption; intros; apply bAB].
    apply RInt_ext. intros q _. unfold prf, w. apply Rmult_plus_distr_l. }
  rewrite EP, Rmult_plus_distr_l. apply (is_derive_ext_loc (fun L => RInt (lnf A K w L) a b + RInt (lnf B K w L) a b)).
  { generalize (near_pos L HL). apply filter_imp. intros y Hy. symmetry. now apply EF. }
  apply (is_derive_plus (V := R_NormedModule)); apply int_derive; try assumption; intros; apply bAB.
Qed.
Print Assumptions C48_derivative.
Print Assumptions C48_pressure_refuted.
Print Assumptions C48_integrated.

(** not vacuous: gold against a perfect conductor, and two perfect conductors, in vacuum *)
Definition gold_pec : pfa := {| p_mat1 := Lorentz e_Gold None; p_mat2 := PEC; p_md := Lorentz [] None |}.
Definition pec_pec : pfa := {| p_mat1 := PEC; p_mat2 := PEC; p_md := Lorentz [] None |}.
Lemma pec_plate md : plate PEC md (fun _ _ => (-1, 1)).
Proof. left. auto. Qed.
Example C47_gold : exists a b, roundTrips gold_pec 1 2 0.5 = Val (a, b) /\ roundTrip gold_pec 1 2 0.5 = Val (a + b).
Proof.
  do 2 eexists. eapply C47_values; [|apply pec_plate|exact vacuum_has|lra|lra|lra].
  right. do 4 eexists. split; [exact gold_has|]. split; [exact vacuum_has|]. reflexivity.
Qed.
Example C48_conductors : exists P, pressureRoundTrip pec_pec 1 2 0.5 = Val P /\ P < 0 /\
  forall F, (forall L, 0 < L -> roundTrip pec_pec 1 2 L = Val (F L)) -> ~ is_derive F 0.5 (- P).
Proof.
  destruct (C47_equal_plates pec_pec (fun _ _ => (-1, 1)) (eps_spec []) (mu_val None) 1 2 0.5 1) as [a [b [a' [b' [c [d [_ [_ [E [_ [_ [_ [_ [Hc [Hd [X Y]]]]]]]]]]]]]]]];
    [reflexivity|apply pec_plate|exact vacuum_has|lra|lra|lra|]. cbn [fst snd] in X, Y. destruct X as [_ [_ X]]; [lra|]. destruct Y as [_ [_ Y]]; [lra|].
  exists (c + d). assert (E' : pressureRoundTrip pec_pec 1 2 0.5 = Val (c + d)) by now apply C47_sums. split; [exact E'|]. split; [lra|]. intros F HF.
  eapply (C48_pressure_refuted pec_pec) with (q := 1) (k := 2); [apply pec_plate|apply pec_plate|exact vacuum_has|lra|lra|lra|exact E'|lra|exact HF].
Qed.
Example C47_negative : exists v, roundTrip pec_pec 1 2 (-0.5) = Val v.
Proof. eapply C47_negative_separation_refuted; [reflexivity|reflexivity|exact vacuum_has|lra|lra|lra]. Qed.
