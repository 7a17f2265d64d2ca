(** * Property C90 (PFA.py between plates of any material, with an exact quadrature) *)
From Coq Require Import Reals.
From Coquelicot Require Import Coquelicot.
From Coq Require Import Bool ZArith List Lia Lra Psatz.
From Verif Require Import Base Mat_Model Mat_Spec Scat_Model Scat_Spec Mat_Props Scat_Proofs Scat_Proofs2 Scat_Props PFA_Model PFA_Spec PFA_Proofs PFA_Proofs2 PFA_Proofs3 PFA_Props PFA_Props2 Plate_Spec Zeta_Proofs Plate_Proofs Plate_Proofs2 Plate_Props Slab_Spec Slab_Proofs.
Import ListNotations.
Open Scope R_scope.

Lemma ln_loop_signs c d K L : 0 < 1 - c * d * exp (-2 * K * L) -> (0 <= c * d -> ln_loop c d K L <= 0) /\ (c * d <= 0 -> 0 <= ln_loop c d K L) /\ (c * d <> 0 -> ln_loop c d K L <> 0).
Proof.
  intros H. destruct (ln_loop_sign c d K L H) as [A [B C]]. split; [exact A|]. split.
  - intros [Hn|E]; [left; now apply C|]. unfold ln_loop. rewrite E, Rmult_0_l, Rminus_0_r, ln_1. lra.
  - intros N. destruct (Rtotal_order (c * d) 0) as [Lt|[E|Gt]]; [apply Rgt_not_eq, C, Lt|contradiction|apply Rlt_not_eq, B, Gt].
Qed.
Section C90.
Context (quad : quadrature) (Hquad : exact_quad quad) (p : pfa) (r1 r2 : R -> R -> R * R) (e u : R -> R).
Context (H1 : plate (p_mat1 p) (p_md p) r1) (H2 : plate (p_mat2 p) (p_md p) r2) (Hm : has (p_md p) e u).
Let n (k : R) : R := sqrt (e k * u k).
Let n2 (k : R) : R := e k * u k.
Lemma n2_pos k : 0 < k -> 0 < n2 k.
Proof. intros Hk. destruct (has_pos _ e u k Hm Hk). now apply Rmult_lt_0_compat. Qed.
Lemma nk_pos k : 0 < k -> 0 < n k * k.
Proof. intros Hk. apply Rmult_lt_0_compat; [apply sqrt_lt_R0, n2_pos, Hk|assumption]. Qed.
Lemma kz_root q k : 0 < k -> kz n2 q k = sqrt (q ^ 2 + (n k * k) ^ 2).
Proof. intros Hk. unfold kz. f_equal. f_equal. unfold n, n2. rewrite Rpow_mult_distr, pow2_sqrt; [reflexivity|]. left. now apply n2_pos. Qed.
(** products of coefficients: continuous and bounded *)
Let A1 (k q : R) := fst (r1 q k) * fst (r2 q k).
Let A2 (k q : R) := snd (r1 q k) * snd (r2 q k).
Lemma A_ok k : 0 < k -> (forall q, continuity_pt (A1 k) q) /\ (forall q, continuity_pt (A2 k) q) /\ (forall q, Rabs (A1 k q) <= 1) /\ (forall q, Rabs (A2 k q) <= 1).
Proof.
  intros Hk. destruct (plate_cont _ _ _ k H1 Hk) as [C1 C2]. destruct (plate_cont _ _ _ k H2 Hk) as [C3 C4]. split; [intros q; now apply continuity_pt_mult|]. split; [intros q; now apply continuity_pt_mult|].
  assert (X : forall q, Rabs (A1 k q) <= 1 /\ Rabs (A2 k q) <= 1); [|split; intros; apply X]. intros q. destruct (plate_bound_all _ _ _ q k H1 Hk). destruct (plate_bound_all _ _ _ q k H2 Hk). unfold A1, A2. rewrite !Rabs_mult.
  pose proof (Rabs_pos (fst (r1 q k))). pose proof (Rabs_pos (fst (r2 q k))). pose proof (Rabs_pos (snd (r1 q k))). pose proof (Rabs_pos (snd (r2 q k))). split; nra.
Qed.
Lemma freq_values k L : 0 < k -> 0 < L -> exists a b,
  integral (slab (A1 k) (fun q => kz n2 q k) L) 0 a /\ integral (slab (A2 k) (fun q => kz n2 q k) L) 0 b /\
  kperp_integral quad (fun q => roundTrip p q k L) 0 = Val (a + b) /\ kperp_integral quad (fun q => ofst (roundTrips p q k L)) 0 = Val a /\ kperp_integral quad (fun q => osnd (roundTrips p q k L)) 0 = Val b /\
  Rabs a <= mirror_term L (n k * k) / (2 * PI) /\ Rabs b <= mirror_term L (n k * k) / (2 * PI).
Proof.
  intros Hk HL. destruct (A_ok k Hk) as [C1 [C2 [B1 B2]]]. destruct (slab_integral (A1 k) (fun q => kz n2 q k) (n k * k) L HL (nk_pos k Hk) C1 B1 (fun q => kz_root q k Hk)) as [a [Ia Ba]]. destruct (slab_integral (A2 k) (fun q => kz n2 q k) (n k * k) L HL (nk_pos k Hk) C2 B2 (fun q => kz_root q k Hk)) as [b [Ib Bb]].
  exists a, b. split; [exact Ia|]. split; [exact Ib|]. unfold kperp_integral. split; [|split; [|split; [|split; [exact Ba|exact Bb]]]].
  - apply (Hquad _ (fun q => slab (A1 k) (fun q => kz n2 q k) L q + slab (A2 k) (fun q => kz n2 q k) L q)); [|now apply integral_plus]. intros q Hq. destruct (C47_values p r1 r2 e u q k L H1 H2 Hm Hq Hk HL) as [_ ->]. cbn [obind]. f_equal. unfold slab, ln_loop, A1, A2, n2. ring.
  - apply (Hquad _ (slab (A1 k) (fun q => kz n2 q k) L)); [|exact Ia]. intros q Hq. destruct (C47_values p r1 r2 e u q k L H1 H2 Hm Hq Hk HL) as [-> _]. reflexivity.
  - apply (Hquad _ (slab (A2 k) (fun q => kz n2 q k) L)); [|exact Ib]. intros q Hq. destruct (C47_values p r1 r2 e u q k L H1 H2 Hm Hq Hk HL) as [-> _]. reflexivity.
Qed.
Lemma slab_sign k L : 0 < k -> 0 < L -> forall q, 0 <= q -> 
  (0 <= A1 k q -> slab (A1 k) (fun q => kz n2 q k) L q <= 0) /\ (A1 k q <= 0 -> 0 <= slab (A1 k) (fun q => kz n2 q k) L q) /\ (0 < q -> A1 k q <> 0 -> slab (A1 k) (fun q => kz n2 q k) L q <> 0) /\
  (0 <= A2 k q -> slab (A2 k) (fun q => kz n2 q k) L q <= 0) /\ (A2 k q <= 0 -> 0 <= slab (A2 k) (fun q => kz n2 q k) L q) /\ (0 < q -> A2 k q <> 0 -> slab (A2 k) (fun q => kz n2 q k) L q <> 0).
Proof.
  intros Hk HL q Hq. pose proof PI_RGT_0. destruct (all_values p r1 r2 e u H1 H2 Hm q k L Hq Hk HL) as [_ [_ [_ [_ [P Q]]]]]. destruct (ln_loop_signs _ _ _ _ P) as [S1 [S2 S3]]. destruct (ln_loop_signs _ _ _ _ Q) as [S4 [S5 S6]].
  assert (W : 0 <= q / (2 * PI)) by (apply Rdiv_le_0_compat; lra). assert (W' : 0 < q -> q / (2 * PI) <> 0) by (intros; apply Rgt_not_eq, Rdiv_lt_0_compat; lra). unfold slab, A1, A2, n2. unfold ln_loop in *. split; [intros X; specialize (S1 X); nra|]. split; [intros X; specialize (S2 X); nra|].
  split; [intros X Y; apply Rmult_integral_contrapositive_currified; auto|]. split; [intros X; specialize (S4 X); nra|]. split; [intros X; specialize (S5 X); nra|]. intros X Y. apply Rmult_integral_contrapositive_currified; auto.
Qed.
(** one frequency: the integrals exist, are bounded by those of perfect conductors, and have the expected sign *)
Theorem C90_frequency : forall k L, 0 < k -> 0 < L -> exists a b,
  kperp_integral quad (fun q => roundTrip p q k L) 0 = Val (a + b) /\ kperp_integral quad (fun q => ofst (roundTrips p q k L)) 0 = Val a /\ kperp_integral quad (fun q => osnd (roundTrips p q k L)) 0 = Val b /\
  Rabs a <= mirror_term L (sqrt (e k * u k) * k) / (2 * PI) /\ Rabs b <= mirror_term L (sqrt (e k * u k) * k) / (2 * PI) /\
  (same_sign r1 r2 -> a <= 0 /\ b <= 0 /\ (visible r1 r2 k -> a + b < 0)) /\ (other_sign r1 r2 -> 0 <= a /\ 0 <= b /\ (visible r1 r2 k -> 0 < a + b)).
Proof.
  intros k L Hk HL. destruct (freq_values k L Hk HL) as [a [b [Ia [Ib [V1 [V2 [V3 [Ba Bb]]]]]]]]. exists a, b. do 5 (split; [assumption|]). assert (SS := slab_sign k L Hk HL). destruct (A_ok k Hk) as [C1 [C2 [B1 B2]]].
  assert (K1 : forall q, continuous (slab (A1 k) (fun q => kz n2 q k) L) q) by (apply (slab_cont _ _ (n k * k)); try assumption; [now apply nk_pos|intros q; now apply kz_root]).
  assert (K2 : forall q, continuous (slab (A2 k) (fun q => kz n2 q k) L) q) by (apply (slab_cont _ _ (n k * k)); try assumption; [now apply nk_pos|intros q; now apply kz_root]).
  set (s1 := slab (A1 k) (fun q => kz n2 q k) L) in *. set (s2 := slab (A2 k) (fun q => kz n2 q k) L) in *. split; intros Hs.
  - assert (N1 : forall q, 0 <= q -> s1 q <= 0) by (intros q Hq; apply (SS q Hq), (Hs q k Hq Hk)). assert (N2 : forall q, 0 <= q -> s2 q <= 0) by (intros q Hq; apply (SS q Hq), (Hs q k Hq Hk)).
    assert (Na : a <= 0) by (apply (integral_le s1 (fun _ => 0) 0); [exact N1|exact Ia|apply integral_zero]). assert (Nb : b <= 0) by (apply (integral_le s2 (fun _ => 0) 0); [exact N2|exact Ib|apply integral_zero]). split; [exact Na|]. split; [exact Nb|].
    intros [q [Hq [V|V]]]; destruct (SS q (Rlt_le _ _ Hq)) as [_ [_ [X1 [_ [_ X2]]]]].
    + assert (a < 0); [|lra]. apply (integral_neg s1 0 a q); try assumption; [intros; apply K1|]. specialize (X1 Hq V). specialize (N1 q ltac:(lra)). lra.
    + assert (b < 0); [|lra]. apply (integral_neg s2 0 b q); try assumption; [intros; apply K2|]. specialize (X2 Hq V). specialize (N2 q ltac:(lra)). lra.
  - assert (N1 : forall q, 0 <= q -> 0 <= s1 q) by (intros q Hq; apply (SS q Hq), (Hs q k Hq Hk)). assert (N2 : forall q, 0 <= q -> 0 <= s2 q) by (intros q Hq; apply (SS q Hq), (Hs q k Hq Hk)).
    assert (Na : 0 <= a) by (apply (integral_le (fun _ => 0) s1 0); [exact N1|apply integral_zero|exact Ia]). assert (Nb : 0 <= b) by (apply (integral_le (fun _ => 0) s2 0); [exact N2|apply integral_zero|exact Ib]). split; [exact Na|]. split; [exact Nb|].
    intros [q [Hq [V|V]]]; destruct (SS q (Rlt_le _ _ Hq)) as [_ [_ [X1 [_ [_ X2]]]]].
    + assert (- a < 0); [|lra]. apply (integral_neg (fun x => - s1 x) 0 (- a) q); try assumption; [intros; apply (continuous_opp (V := R_NormedModule)), K1|intros x Hx; specialize (N1 x Hx); lra|now apply integral_opp|]. specialize (X1 Hq V). specialize (N1 q ltac:(lra)). lra.
    + assert (- b < 0); [|lra]. apply (integral_neg (fun x => - s2 x) 0 (- b) q); try assumption; [intros; apply (continuous_opp (V := R_NormedModule)), K2|intros x Hx; specialize (N2 x Hx); lra|now apply integral_opp|]. specialize (X2 Hq V). specialize (N2 q ltac:(lra)). lra.
Qed.
(** high temperature *)
Theorem C90_high_temperature : forall L s, 0 < L -> exists v, planeplaneFreeEnergy quad p PInf L s = Val v /\ Rabs v <= zeta3 / (8 * PI * L ^ 2) /\
  (same_sign r1 r2 -> v <= 0) /\ (other_sign r1 r2 -> 0 <= v) /\ (s = false -> visible r1 r2 1e-20 -> (same_sign r1 r2 -> v < 0) /\ (other_sign r1 r2 -> 0 < v)).
Proof.
  intros L s HL. pose proof PI_RGT_0. assert (k0 : 0 < 1e-20) by lra. destruct (C90_frequency 1e-20 L k0 HL) as [a [b [_ [A [B [Ba [Bb [S O]]]]]]]]. eexists. split; [exact (C55_high_temperature quad p L s _ _ A B)|].
  destruct (term_bounds L HL (n 1e-20 * 1e-20) (Rlt_le _ _ (nk_pos _ k0))) as [[T0 T1] _]. fold (n 1e-20) in Ba, Bb. set (P := mirror_term L (n 1e-20 * 1e-20)) in *.
  assert (X : P / (2 * PI) <= zeta3 / (8 * PI * L ^ 2)). { replace (zeta3 / (8 * PI * L ^ 2)) with (zeta3 / (4 * L ^ 2) / (2 * PI)) by (field; lra). apply Rmult_le_compat_r; [left; apply Rinv_0_lt_compat; lra|exact T1]. }
  assert (X0 : 0 <= P / (2 * PI)) by (apply Rdiv_le_0_compat; lra). apply Rabs_le_between in Ba. apply Rabs_le_between in Bb. destruct s.
  - split; [rewrite Rabs_R0; lra|]. split; [lra|]. split; [lra|]. discriminate.
  - split; [apply Rabs_le; lra|]. split; [intros Hs; destruct (S Hs); lra|]. split; [intros Ho; destruct (O Ho); lra|]. intros _ V. split; [intros Hs; destruct (S Hs) as [_ [_ W]]; specialize (W V); lra|intros Ho; destruct (O Ho) as [_ [_ W]]; specialize (W V); lra].
Qed.
(** finite temperature *)
Let I (L k : R) : R := match kperp_integral quad (fun q => roundTrip p q k L) 0 with Val v => v | _ => 0 end.
Lemma I_spec k L : 0 < k -> 0 < L -> kperp_integral quad (fun q => roundTrip p q k L) 0 = Val (I L k) /\ Rabs (I L k) <= mirror_term L (n k * k) / PI /\ (same_sign r1 r2 -> I L k <= 0) /\ (other_sign r1 r2 -> 0 <= I L k) /\
  (visible r1 r2 k -> (same_sign r1 r2 -> I L k < 0) /\ (other_sign r1 r2 -> 0 < I L k)).
Proof.
  intros Hk HL. pose proof PI_RGT_0. destruct (C90_frequency k L Hk HL) as [a [b [A [_ [_ [Ba [Bb [S O]]]]]]]]. unfold I. rewrite A. split; [reflexivity|]. fold (n k) in Ba, Bb. set (P := mirror_term L (n k * k)) in *. split.
  - replace (P / PI) with (P / (2 * PI) + P / (2 * PI)) by (field; lra). apply Rle_trans with (1 := Rabs_triang _ _). lra.
  - split; [intros Hs; destruct (S Hs); lra|]. split; [intros Ho; destruct (O Ho); lra|]. intros V. split; [intros Hs; destruct (S Hs) as [_ [_ W]]; now apply W|intros Ho; destruct (O Ho) as [_ [_ W]]; now apply W].
Qed.
Lemma frequencies k0 T N k : 0 < k0 -> 0 < T -> In k (matsubaras k0 T N) -> 0 < k.
Proof. intros H0 HT [<-|Hin]; [assumption|]. apply in_map_iff in Hin. destruct Hin as [i [<- Hi]]. apply in_seq in Hi. apply Rmult_lt_0_compat; [apply lt_0_INR; lia|assumption]. Qed.
Lemma free_I T L s : 0 < T -> 0 < L -> planeplaneFreeEnergy quad p (Fin T) L s = Val (primed_sum (if s then 0 else / 2) (I L) 1e-10 T (Z.to_nat (trunc (20 / (T * L))))).
Proof.
  intros HT HL. assert (TL : 0 < T * L) by now apply Rmult_lt_0_compat. apply C55_free_energy; [lra|lra|]. intros k Hk. apply I_spec; [|assumption]. revert Hk. apply frequencies; lra.
Qed.
Lemma primed_le w f g k0 T N : 0 <= w -> 0 < T -> 0 < k0 -> (forall k, 0 < k -> f k <= g k) -> primed_sum w f k0 T N <= primed_sum w g k0 T N.
Proof.
  intros Hw HT H0 H. unfold primed_sum. apply Rmult_le_compat_l; [lra|]. apply Rplus_le_compat; [apply Rmult_le_compat_l; [assumption|now apply H]|]. apply sum_Rle. intros i _. destruct (Nat.eqb_spec i 0); [lra|]. apply H. apply Rmult_lt_0_compat; [apply lt_0_INR; lia|assumption].
Qed.
Lemma primed_zero w k0 T N : primed_sum w (fun _ => 0) k0 T N = 0.
Proof. unfold primed_sum. replace (sum_f_R0 _ N) with 0; [ring|]. symmetry. rewrite (sum_eq _ (fun _ => 0)) by (intros i _; now destruct (Nat.eqb i 0)). rewrite sum_cte. ring. Qed.
Lemma primed_opp w f k0 T N : primed_sum w (fun k => - f k) k0 T N = - primed_sum w f k0 T N.
Proof.
  unfold primed_sum. replace (sum_f_R0 (fun i => if Nat.eqb i 0 then 0 else - f (INR i * T)) N) with (- sum_f_R0 (fun i => if Nat.eqb i 0 then 0 else f (INR i * T)) N); [ring|]. rewrite <- (Rmult_1_l (sum_f_R0 _ N)), <- Ropp_mult_distr_l_reverse. rewrite scal_sum. apply sum_eq. intros i _. destruct (Nat.eqb i 0); ring.
Qed.
Lemma primed_more w f k0 T N M : 0 < T -> (forall k, 0 < k -> f k <= 0) -> (N <= M)%nat -> primed_sum w f k0 T M <= primed_sum w f k0 T N.
Proof.
  intros HT H HN. unfold primed_sum. apply Rmult_le_compat_l; [lra|]. apply Rplus_le_compat_l. induction HN as [|M HN IH]; [lra|]. rewrite tech5. cbn [Nat.eqb]. assert (f (INR (S M) * T) <= 0); [|lra]. apply H. apply Rmult_lt_0_compat; [apply lt_0_INR; lia|assumption].
Qed.
Theorem C90_temperature : forall T L s, 0 < T -> 0 < L -> exists v, planeplaneFreeEnergy quad p (Fin T) L s = Val v /\
  Rabs v <= primed_sum (if s then 0 else / 2) (fun k => mirror_term L (sqrt (e k * u k) * k) / PI) 1e-10 T (Z.to_nat (trunc (20 / (T * L)))) /\
  ((forall k, 0 < k -> 1 <= e k * u k) -> Rabs v <= PI ^ 3 / (360 * L ^ 3) + T * zeta3 / (8 * PI * L ^ 2)) /\
  (same_sign r1 r2 -> v <= 0) /\ (other_sign r1 r2 -> 0 <= v) /\ (s = false -> visible r1 r2 1e-10 -> (same_sign r1 r2 -> v < 0) /\ (other_sign r1 r2 -> 0 < v)).
Proof.
  intros T L s HT HL. pose proof PI_RGT_0. eexists. split; [now apply free_I|]. set (N := Z.to_nat _). set (w := if s then 0 else / 2). assert (Hw : 0 <= w <= / 2) by (unfold w; destruct s; lra).
  assert (B : Rabs (primed_sum w (I L) 1e-10 T N) <= primed_sum w (fun k => mirror_term L (n k * k) / PI) 1e-10 T N).
  { apply Rabs_le. split; [rewrite <- primed_opp|]; (apply primed_le; [lra|lra|lra|]; intros k Hk; destruct (I_spec k L Hk HL) as [_ [X _]]; apply Rabs_le_between in X; lra). }
  split; [exact B|]. split; [|split; [|split]].
  - intros Hn. apply Rle_trans with (1 := B). assert (C : primed_sum w (fun k => mirror_term L (n k * k) / PI) 1e-10 T N <= primed_sum w (fun k => mirror_term L k / PI) 1e-10 T N).
    { apply primed_le; [lra|lra|lra|]. intros k Hk. apply Rmult_le_compat_r; [left; now apply Rinv_0_lt_compat|]. apply (P_less L HL). assert (1 <= n k) by (unfold n; rewrite <- sqrt_1; apply sqrt_le_1_alt, Hn, Hk). nra. }
    apply Rle_trans with (1 := C). assert (R0 := riemann L HL T N HT). cbv zeta in R0. destruct R0 as [_ R0]. unfold primed_sum. set (S0 := sum_f_R0 (fun i => if Nat.eqb i 0 then 0 else mirror_term L (INR i * T)) N) in *.
    replace (sum_f_R0 (fun i => if Nat.eqb i 0 then 0 else mirror_term L (INR i * T) / PI) N) with (/ PI * S0) by (unfold S0; rewrite scal_sum; apply sum_eq; intros i _; destruct (Nat.eqb i 0); unfold Rdiv; ring).
    destruct (term_bounds L HL 1e-10 ltac:(lra)) as [[P0 P1] _]. destruct (tail_bounds L HL (INR N * T)) as [[Q0 _] _]; [apply Rmult_le_pos; [apply pos_INR|lra]|]. rewrite (tail_zero L HL) in R0.
    replace (T * (w * (mirror_term L 1e-10 / PI) + / PI * S0)) with (/ PI * (T * S0 + T * (w * mirror_term L 1e-10))) by (field; lra). replace (PI ^ 3 / (360 * L ^ 3) + T * zeta3 / (8 * PI * L ^ 2)) with (/ PI * (PI ^ 4 / (360 * L ^ 3) + T * (/ 2 * (zeta3 / (4 * L ^ 2))))) by (field; lra).
    apply Rmult_le_compat_l; [left; now apply Rinv_0_lt_compat|]. assert (w * mirror_term L 1e-10 <= / 2 * (zeta3 / (4 * L ^ 2))) by (apply Rmult_le_compat; lra). assert (T * (w * mirror_term L 1e-10) <= T * (/ 2 * (zeta3 / (4 * L ^ 2)))) by (apply Rmult_le_compat_l; lra). lra.
  - intros Hs. rewrite <- (primed_zero w 1e-10 T N). apply primed_le; [lra|lra|lra|]. intros k Hk. now apply I_spec.
  - intros Ho. rewrite <- (primed_zero w 1e-10 T N). apply primed_le; [lra|lra|lra|]. intros k Hk. now apply I_spec.
  - intros Es V. assert (Ew : w = / 2) by (unfold w; now rewrite Es). rewrite Ew. split; intros Hs.
    + apply Rle_lt_trans with (primed_sum (/ 2) (I L) 1e-10 T 0); [apply primed_more; [assumption|intros k Hk; now apply I_spec|lia]|]. unfold primed_sum. cbn [sum_f_R0 Nat.eqb]. assert (X := proj1 (proj2 (proj2 (proj2 (proj2 (I_spec 1e-10 L ltac:(lra) HL)))) V) Hs). nra.
    + apply Ropp_lt_cancel. rewrite Ropp_0, <- primed_opp. apply Rle_lt_trans with (primed_sum (/ 2) (fun k => - I L k) 1e-10 T 0); [apply primed_more; [assumption|intros k Hk; assert (0 <= I L k) by (now apply I_spec); lra|lia]|]. unfold primed_sum. cbn [sum_f_R0 Nat.eqb]. assert (X := proj2 (proj2 (proj2 (proj2 (proj2 (I_spec 1e-10 L ltac:(lra) HL)))) V) Hs). nra.
Qed.
(** plates that attract do so less at larger distance *)
Theorem C90_distance : forall T L L' s v v', 0 < T -> 0 < L < L' -> same_sign r1 r2 -> planeplaneFreeEnergy quad p (Fin T) L s = Val v -> planeplaneFreeEnergy quad p (Fin T) L' s = Val v' -> v <= v'.
Proof.
  intros T L L' s v v' HT [HL HL'] Hs E E'. pose proof PI_RGT_0. rewrite free_I in E, E' by lra. injection E as <-. injection E' as <-. set (w := if s then 0 else / 2). assert (Hw : 0 <= w) by (unfold w; destruct s; lra).
  assert (M : forall k, 0 < k -> I L k <= I L' k).
  { intros k Hk. destruct (freq_values k L Hk HL) as [a [b [Ia [Ib [V _]]]]]. destruct (freq_values k L' Hk ltac:(lra)) as [a' [b' [Ia' [Ib' [V' _]]]]]. unfold I. rewrite V, V'.
    assert (HKz : forall q, 0 < kz n2 q k) by (intros q; apply kz_pos; [now apply n2_pos|assumption]).
    apply Rplus_le_compat; [apply (integral_le _ _ 0 a a') with (2 := Ia) (3 := Ia')|apply (integral_le _ _ 0 b b') with (2 := Ib) (3 := Ib')]; intros q Hq; destruct (all_values p r1 r2 e u H1 H2 Hm q k L Hq Hk HL) as [_ [_ [_ [_ [P Q]]]]]; unfold slab; (apply Rmult_le_compat_l; [apply Rdiv_le_0_compat; lra|]).
    - exact (proj1 (ln_loop_mono _ _ _ _ _ (HKz q) HL' P) (proj1 (Hs q k Hq Hk))).
    - exact (proj1 (ln_loop_mono _ _ _ _ _ (HKz q) HL' Q) (proj2 (Hs q k Hq Hk))). }
  apply Rle_trans with (primed_sum w (I L) 1e-10 T (Z.to_nat (trunc (20 / (T * L'))))).
  - apply primed_more; [assumption|intros k Hk; now apply I_spec|]. apply Z2Nat.inj_le; [apply trunc_nonneg, Rdiv_le_0_compat; [lra|apply Rmult_lt_0_compat; lra]|apply trunc_nonneg, Rdiv_le_0_compat; [lra|apply Rmult_lt_0_compat; lra]|]. apply trunc_mono. unfold Rdiv. apply Rmult_le_compat_l; [lra|]. apply Rinv_le_contravar; [now apply Rmult_lt_0_compat|]. apply Rmult_le_compat_l; lra.
  - apply primed_le; [assumption|assumption|lra|exact M].
Qed.
(** the force between spheres: it exists, has the sign of the free energy, and is bounded by that of conductors *)
Theorem C90_force : forall r_1 r_2 T d s, 0 < r_1 -> 0 < r_2 -> 0 < T -> r_1 + r_2 < d \/ (0 <= d /\ d + r_1 < r_2) ->
  let g := if Rltb (r_1 + r_2) d then d - r_1 - r_2 else r_2 - d - r_1 in let R0 := if Rltb (r_1 + r_2) d then r_1 * r_2 / (r_1 + r_2) else r_1 * r_2 / (r_2 - r_1) in
  exists v, spheresphereForce quad p r_1 r_2 (Fin T) d s = Val v /\
  ((forall k, 0 < k -> 1 <= e k * u k) -> Rabs v <= 2 * PI * R0 * (PI ^ 3 / (360 * g ^ 3) + T * zeta3 / (8 * PI * g ^ 2))) /\
  (same_sign r1 r2 -> v <= 0) /\ (other_sign r1 r2 -> 0 <= v) /\ (visible r1 r2 1e-10 -> (same_sign r1 r2 -> v < 0) /\ (other_sign r1 r2 -> 0 < v)).
Proof.
  intros r_1 r_2 T d s P1 P2 HT Hd. pose proof PI_RGT_0. assert (P12 : 0 < r_1 * r_2) by now apply Rmult_lt_0_compat.
  assert (X : forall g G, 0 < g -> 0 < G -> (forall f, planeplaneFreeEnergy quad p (Fin T) g false = Val f -> spheresphereForce quad p r_1 r_2 (Fin T) d s = Val (2 * PI * G * f)) -> exists v, spheresphereForce quad p r_1 r_2 (Fin T) d s = Val v /\
    ((forall k, 0 < k -> 1 <= e k * u k) -> Rabs v <= 2 * PI * G * (PI ^ 3 / (360 * g ^ 3) + T * zeta3 / (8 * PI * g ^ 2))) /\
    (same_sign r1 r2 -> v <= 0) /\ (other_sign r1 r2 -> 0 <= v) /\ (visible r1 r2 1e-10 -> (same_sign r1 r2 -> v < 0) /\ (other_sign r1 r2 -> 0 < v))).
  { intros g G Hg HG HF. destruct (C90_temperature T g false HT Hg) as [f [E [_ [B [S [O V]]]]]]. exists (2 * PI * G * f). split; [now apply HF|]. assert (M : 0 < 2 * PI * G) by (apply Rmult_lt_0_compat; lra). split; [|split; [|split]].
    - intros Hn. rewrite Rabs_mult, (Rabs_pos_eq (2 * PI * G)) by lra. apply Rmult_le_compat_l; [lra|now apply B].
    - intros Hs. specialize (S Hs). nra.
    - intros Ho. specialize (O Ho). nra.
    - intros Hv. destruct (V eq_refl Hv) as [V1 V2]. split; intros Hs; [specialize (V1 Hs)|specialize (V2 Hs)]; nra. }
  cbv zeta. destruct (Rltb_spec (r_1 + r_2) d) as [Lt|Ge].
  - apply X; [lra|apply Rdiv_lt_0_compat; lra|]. intros f Hf. now apply (proj1 (C55_force quad p r_1 r_2 (Fin T) d s f P1 P2)).
  - apply X; [lra|apply Rdiv_lt_0_compat; lra|]. intros f Hf. apply (proj2 (C55_force quad p r_1 r_2 (Fin T) d s f P1 P2)); [lra|lra|exact Hf].
Qed.
End C90.
(** equal plates attract, plates on opposite sides of the medium repel (a conductor counts as dense) *)
Theorem C90_signs :
  (forall r, same_sign r r) /\
  (forall e1 e2 eM r1 r2, (forall q k, r1 q k = fresnel1 (e1 k) 1 (eM k) 1 q k) -> (forall q k, r2 q k = fresnel1 (e2 k) 1 (eM k) 1 q k) \/ (forall q k, r2 q k = (-1, 1)) ->
     (forall k, 0 < k -> 0 < e1 k < eM k /\ eM k < e2 k) -> other_sign r1 r2 /\ forall k, 0 < k -> visible r1 r2 k).
Proof.
  split.
  - intros r q k Hq Hk. split; apply Rle_0_sqr.
  - intros e1 e2 eM r1 r2 R1 R2 He. assert (X : forall q k, 0 <= q -> 0 < k -> fst (r1 q k) * fst (r2 q k) < 0 /\ snd (r1 q k) * snd (r2 q k) < 0).
    { intros q k Hq Hk. destruct (He k Hk) as [[E0 E1] E2]. assert (D2 := C38_denser (e2 k) (eM k) q k ltac:(lra) Hq Hk). assert (D1 := C38_denser (eM k) (e1 k) q k ltac:(lra) Hq Hk). destruct (C38_antisymmetric (e1 k) 1 (eM k) 1 q k) as [S1 S2]; try lra. rewrite S1, S2 in D1. rewrite R1. destruct R2 as [R2|R2]; rewrite R2; [split; nra|]. cbn [fst snd]. split; nra. }
    split; [intros q k Hq Hk; destruct (X q k Hq Hk); lra|]. intros k Hk. exists 1. split; [lra|]. left. destruct (X 1 k ltac:(lra) Hk). lra.
Qed.
Print Assumptions C90_frequency.
Print Assumptions C90_high_temperature.
Print Assumptions C90_temperature.
Print Assumptions C90_distance.
Print Assumptions C90_force.
Print Assumptions C90_signs.

(** ** not vacuous: two plates of gold in vacuum *)
Definition gold_gold : pfa := {| p_mat1 := Lorentz e_Gold None; p_mat2 := Lorentz e_Gold None; p_md := Lorentz [] None |}.
Example C90_gold : exists r v, plate (Lorentz e_Gold None) (Lorentz [] None) r /\ same_sign r r /\ planeplaneFreeEnergy the_integral gold_gold (Fin 0.5) 2 false = Val v /\ - (PI ^ 3 / 2880 + 0.5 * zeta3 / (32 * PI)) <= v <= 0.
Proof.
  assert (G : exists r, plate (Lorentz e_Gold None) (Lorentz [] None) r) by (eexists; right; do 4 eexists; split; [exact gold_has|]; split; [exact vacuum_has|]; intros; reflexivity). destruct G as [r G]. exists r.
  assert (S := proj1 C90_signs r). destruct (C90_temperature the_integral the_integral_exact gold_gold r r _ _ G G vacuum_has 0.5 2 false ltac:(lra) ltac:(lra)) as [v [E [_ [B [N _]]]]]. exists v. split; [exact G|]. split; [exact S|]. split; [exact E|].
  assert (X : Rabs v <= PI ^ 3 / (360 * 2 ^ 3) + 0.5 * zeta3 / (8 * PI * 2 ^ 2)) by (apply B; intros k Hk; rewrite vacuum_one by assumption; lra). replace (360 * 2 ^ 3) with 2880 in X by ring. replace (8 * PI * 2 ^ 2) with (32 * PI) in X by ring. apply Rabs_le_between in X. split; [lra|now apply N].
Qed.
(** a surface of water under vacuum repels a conductor *)
Definition film : pfa := {| p_mat1 := Lorentz [] None; p_mat2 := PEC; p_md := Lorentz e_Water None |}.
Example C90_film : exists v, planeplaneFreeEnergy the_integral film (Fin 0.5) 2 false = Val v /\ 0 < v.
Proof.
  assert (W : Forall physical e_Water) by apply C34_instance. assert (HW : has (Lorentz e_Water None) (eps_spec e_Water) (mu_val None)) by (apply has_lorentz; [exact W|exact I]).
  assert (M : forall k, 0 < k -> 1 < eps_spec e_Water k). { intros k Hk. apply Rle_lt_trans with (eps_spec e_Water (2 * k)); [apply C34_epsilon_at_least_one; [exact W|lra]|]. apply C34_epsilon_decreasing; [exact W| |lra|lra]. eexists. split; [now left|]. cbn [o_wP]. lra. }
  set (r1 := fun q k => fresnel1 (eps_spec [] k) 1 (eps_spec e_Water k) 1 q k). assert (P1 : plate (p_mat1 film) (p_md film) r1) by (right; exists (eps_spec []), (mu_val None), (eps_spec e_Water), (mu_val None); split; [exact vacuum_has|]; split; [exact HW|]; intros; reflexivity).
  destruct (proj2 C90_signs (eps_spec []) (fun k => eps_spec e_Water k + 1) (eps_spec e_Water) r1 (fun _ _ => (-1, 1)) ltac:(reflexivity) ltac:(right; reflexivity)) as [O V].
  { intros k Hk. specialize (M k Hk). unfold eps_spec at 1 2. cbn. split; lra. }
  destruct (C90_temperature the_integral the_integral_exact film r1 (fun _ _ => (-1, 1)) _ _ P1 (pec_plate _) HW 0.5 2 false ltac:(lra) ltac:(lra)) as [v [E [_ [_ [_ [_ X]]]]]]. exists v. split; [exact E|]. apply X; [reflexivity|apply V; lra|exact O].
Qed.
