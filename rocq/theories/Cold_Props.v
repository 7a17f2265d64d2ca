(** * Property C94 (PFA.py and raw_PFA.py at zero temperature, for plates of any material, with an exact quadrature) *)
From Coq Require Import Reals.
From Coquelicot Require Import Coquelicot.
From Coq Require Import Bool ZArith List Lia Lra Psatz.
From Verif Require Import Base Mat_Model Mat_Spec Scat_Model Scat_Spec Mat_Props Scat_Proofs Scat_Proofs2 Scat_Props PFA_Model PFA_Spec PFA_Proofs PFA_Proofs2 PFA_Proofs3 PFA_Props PFA_Props2 Plate_Spec Zeta_Proofs Plate_Proofs Plate_Proofs2 Plate_Props Slab_Spec Slab_Proofs Slab_Props Cold_Spec Cold_Proofs Cold_Proofs2.
Import ListNotations.
Open Scope R_scope.

Lemma exp_le2 x y : x <= y -> exp x <= exp y.
Proof. intros [H| ->]; [left; now apply exp_increasing|lra]. Qed.
Lemma ln_loop_less c d K L L' : 0 < K -> L < L' -> c * d <= 0 -> ln_loop c d K L' <= ln_loop c d K L.
Proof.
  intros HK HL H. unfold ln_loop. assert (E : exp (-2 * K * L') <= exp (-2 * K * L)) by (apply exp_le2; nra). pose proof (exp_pos (-2 * K * L')). apply ln_le; nra.
Qed.
Lemma dom_less c c' L q : 0 < L -> 0 < c <= c' -> 0 <= q -> dom c' L q <= dom c L q.
Proof.
  intros HL [Hc Hcc] Hq. pose proof PI_RGT_0. unfold dom. apply Rmult_le_compat_l; [left; apply Rinv_0_lt_compat; lra|]. apply Ropp_le_contravar. apply Rmult_le_compat_l; [assumption|].
  assert (R0 := root_pos c Hc q). assert (R1 : sqrt (q ^ 2 + c ^ 2) <= sqrt (q ^ 2 + c' ^ 2)) by (apply sqrt_le_1_alt; apply Rplus_le_compat_l; apply pow_incr; lra). destruct (z_range L HL _ R0) as [Z0 Z1]. apply ln_le; [lra|]. apply Rplus_le_compat_l, Ropp_le_contravar. apply exp_le2. nra.
Qed.
Lemma term_cont L k : 0 < L -> 0 < k -> continuous (mirror_term L) k.
Proof. intros HL Hk. apply (ex_derive_continuous (mirror_term L)). eexists. apply term_derive; assumption. Qed.
Lemma tail_integral L a c : 0 < L -> 0 < a -> integral (fun k => c * mirror_term L k) a (c * mirror_tail L a).
Proof.
  intros HL Ha. assert (X := scal_integral _ (- c) a _ (energy_integral L HL a Ha)). assert (E : forall x, a <= x -> - c * - mirror_term L x = c * mirror_term L x) by (intros x _; apply Rmult_opp_opp).
  assert (Y := integral_ext _ (fun k => c * mirror_term L k) a _ E X). rewrite Rmult_opp_opp in Y. exact Y.
Qed.
Lemma dominated_tail L a c (g : R -> R) : 0 < L -> 0 < a -> (forall k, a <= k -> continuous g k) -> (forall k, a <= k -> Rabs (g k) <= c * mirror_term L k) -> exists v, integral g a v /\ Rabs v <= c * mirror_tail L a.
Proof.
  intros HL Ha Cg B. apply (dominated g (fun k => c * mirror_term L k) a); [exact Cg|exact B| |now apply tail_integral]. intros b Hb. apply cont_int; [|lra]. intros x Hx. apply (continuous_scal_r (K := R_AbsRing) (V := R_NormedModule) c). apply term_cont; lra.
Qed.
Lemma cold_sum L (g1 g2 : R -> R) : 0 < L -> (forall k, 1e-20 <= k -> continuous g1 k) -> (forall k, 1e-20 <= k -> continuous g2 k) ->
  (forall k, 1e-20 <= k -> Rabs (g1 k) <= / (2 * PI) * mirror_term L k) -> (forall k, 1e-20 <= k -> Rabs (g2 k) <= / (2 * PI) * mirror_term L k) ->
  exists a b, integral g1 1e-20 a /\ integral g2 1e-20 b /\ integral (fun k => g1 k + g2 k) 1e-20 (a + b) /\ Rabs (a + b) <= mirror_tail L 1e-20 / PI.
Proof.
  intros HL C1 C2 B1 B2. pose proof PI_RGT_0. assert (k0 : 0 < 1e-20) by lra. destruct (dominated_tail L 1e-20 (/ (2 * PI)) g1 HL k0 C1 B1) as [a [Ia Ba]]. destruct (dominated_tail L 1e-20 (/ (2 * PI)) g2 HL k0 C2 B2) as [b [Ib Bb]].
  exists a, b. split; [exact Ia|]. split; [exact Ib|]. split; [now apply integral_plus|]. replace (mirror_tail L 1e-20 / PI) with (/ (2 * PI) * mirror_tail L 1e-20 + / (2 * PI) * mirror_tail L 1e-20) by (field; lra). eapply Rle_trans; [apply Rabs_triang|]. lra.
Qed.
Lemma count_range T L : 0 < T -> 0 < L -> let n := Z.to_nat (trunc (20 / (T * L))) in INR n * T <= 20 / L < (INR n + 1) * T.
Proof.
  intros HT HL n. assert (D : 0 < 20 / (T * L)) by (apply Rdiv_lt_0_compat; [lra|now apply Rmult_lt_0_compat]). assert (G := trunc_gt _ (Rlt_le _ _ D)). assert (Z := trunc_nonneg _ (Rlt_le _ _ D)). assert (E : INR n = IZR (trunc (20 / (T * L)))) by (unfold n; rewrite INR_IZR_INZ, Z2Nat.id by assumption; reflexivity).
  destruct (trunc_spec (20 / (T * L))) as [A _]. rewrite Rabs_pos_eq in A by (now apply IZR_le). rewrite Rabs_pos_eq in A by lra. rewrite E. replace (20 / L) with (20 / (T * L) * T) by (field; lra). split; [apply Rmult_le_compat_r; lra|apply Rmult_lt_compat_r; lra].
Qed.
Lemma cold_limit L (g : R -> R) (v0 w : R) : 0 < L -> 0 <= w <= / 2 -> (forall k, 0 < k -> continuous g k) -> (forall k, 0 < k -> Rabs (g k) <= mirror_term L k / PI) -> integral g 1e-20 v0 ->
  forall eps, 0 < eps -> exists d, 0 < d /\ forall T, 0 < T < d -> Rabs (primed_sum w g 1e-10 T (Z.to_nat (trunc (20 / (T * L)))) - v0) <= (11 * exp (-40) / L ^ 3 + 3 * 1e-20 * (zeta3 / (4 * L ^ 2))) / PI + eps.
Proof.
  intros HL Hw Cg Bg Ig eps He. pose proof PI_RGT_0. set (M := zeta3 / (4 * L ^ 2) / PI). assert (BM : forall k, 0 < k -> Rabs (g k) <= M).
  { intros k Hk. apply Rle_trans with (1 := Bg k Hk). destruct (term_bounds L HL k ltac:(lra)) as [[_ T1] _]. apply Rmult_le_compat_r; [left; now apply Rinv_0_lt_compat|exact T1]. }
  assert (M0 : 0 <= M) by (apply Rle_trans with (1 := Rabs_pos (g 1)); apply BM; lra).
  assert (P1 : 0 < eps / (2 * (M + 1))) by (apply Rdiv_lt_0_compat; lra). assert (b0 : 0 < 20 / L) by (apply Rdiv_lt_0_compat; lra).
  destruct (Rle_dec 1e-20 (20 / L)) as [Hb|Hb].
  - destruct (sum_limit g 1e-20 (20 / L) M ltac:(lra) Cg BM (eps / 2) ltac:(lra)) as [d [Hd HS]]. exists (Rmin d (eps / (2 * (M + 1)))). split; [now apply Rmin_pos|]. intros T [HT HT']. pose proof (Rmin_l d (eps / (2 * (M + 1)))). pose proof (Rmin_r d (eps / (2 * (M + 1)))).
    assert (CR := count_range T L HT HL). cbv zeta in CR. set (n := Z.to_nat (trunc (20 / (T * L)))) in *. specialize (HS T n ltac:(lra) CR). assert (RI := integral_from g 1e-20 (20 / L) v0 (fun x Hx => Cg x ltac:(lra)) Hb Ig).
    assert (TI := tail_integral L (20 / L) (/ PI) HL b0). assert (D : forall x, 20 / L <= x -> - (/ PI * mirror_term L x) <= g x <= / PI * mirror_term L x) by (intros x Hx; rewrite Rmult_comm; apply Rabs_le_between, Bg; lra).
    assert (U := integral_le _ _ _ _ _ (fun x Hx => proj2 (D x Hx)) RI TI). assert (V := integral_le _ _ _ _ _ (fun x Hx => proj1 (D x Hx)) (integral_opp _ _ _ TI) RI).
    assert (FT : / PI * mirror_tail L (20 / L) <= / PI * (11 * exp (-40) / L ^ 3)) by (apply Rmult_le_compat_l; [left; now apply Rinv_0_lt_compat|]; apply (far_tail L HL); lra).
    assert (W : Rabs (T * (w * g 1e-10)) <= eps / 2). { rewrite Rabs_mult, (Rabs_pos_eq T), Rabs_mult, (Rabs_pos_eq w) by lra. specialize (BM 1e-10 ltac:(lra)). pose proof (Rabs_pos (g 1e-10)). apply Rle_trans with (eps / (2 * (M + 1)) * (M + 1)); [apply Rmult_le_compat; [lra|apply Rmult_le_pos; lra|lra|nra]|right; field; lra]. }
    unfold primed_sum. set (S := sum_f_R0 _ n) in *. set (X := RInt g 1e-20 (20 / L)) in *. rewrite Rmult_plus_distr_l. replace ((11 * exp (-40) / L ^ 3 + 3 * 1e-20 * (zeta3 / (4 * L ^ 2))) / PI) with (/ PI * (11 * exp (-40) / L ^ 3) + 3 * 1e-20 * M) by (unfold M; field; lra).
    apply Rabs_le_between in HS. apply Rabs_le_between in W. apply Rabs_le. lra.
  - exists (eps / (2 * (M + 1))). split; [assumption|]. intros T [HT HT']. assert (CR := count_range T L HT HL). cbv zeta in CR. set (n := Z.to_nat (trunc (20 / (T * L)))) in *.
    assert (TI := tail_integral L 1e-20 (/ PI) HL ltac:(lra)). assert (D : forall x, 1e-20 <= x -> - (/ PI * mirror_term L x) <= g x <= / PI * mirror_term L x) by (intros x Hx; rewrite Rmult_comm; apply Rabs_le_between, Bg; lra).
    assert (U := integral_le _ _ _ _ _ (fun x Hx => proj2 (D x Hx)) Ig TI). assert (V := integral_le _ _ _ _ _ (fun x Hx => proj1 (D x Hx)) (integral_opp _ _ _ TI) Ig).
    assert (FT : / PI * mirror_tail L 1e-20 <= / PI * (11 * exp (-40) / L ^ 3)) by (apply Rmult_le_compat_l; [left; now apply Rinv_0_lt_compat|]; apply (far_tail L HL); lra).
    assert (W : Rabs (T * (w * g 1e-10)) <= eps / 2). { rewrite Rabs_mult, (Rabs_pos_eq T), Rabs_mult, (Rabs_pos_eq w) by lra. specialize (BM 1e-10 ltac:(lra)). pose proof (Rabs_pos (g 1e-10)). apply Rle_trans with (eps / (2 * (M + 1)) * (M + 1)); [apply Rmult_le_compat; [lra|apply Rmult_le_pos; lra|lra|nra]|right; field; lra]. }
    assert (SB : Rabs (T * sum_f_R0 (fun i => if Nat.eqb i 0 then 0 else g (INR i * T)) n) <= INR n * T * M).
    { clear CR. induction n as [|m IH]; [cbn [sum_f_R0 Nat.eqb INR]; rewrite Rmult_0_r, Rabs_R0; lra|]. rewrite tech5. cbn [Nat.eqb]. assert (K : 0 < INR (S m) * T) by (apply Rmult_lt_0_compat; [apply lt_0_INR; lia|lra]). specialize (BM _ K). rewrite Rmult_plus_distr_l. apply Rle_trans with (1 := Rabs_triang _ _). rewrite (Rabs_mult T (g _)), (Rabs_pos_eq T) by lra. replace (INR (S m) * T * M) with (INR m * T * M + T * M) by (rewrite S_INR; ring). apply Rplus_le_compat; [exact IH|]. apply Rmult_le_compat_l; lra. }
    assert (SB' : INR n * T * M <= 1e-20 * M) by (apply Rmult_le_compat_r; lra). unfold primed_sum. set (S := sum_f_R0 _ n) in *. rewrite Rmult_plus_distr_l. replace ((11 * exp (-40) / L ^ 3 + 3 * 1e-20 * (zeta3 / (4 * L ^ 2))) / PI) with (/ PI * (11 * exp (-40) / L ^ 3) + 3 * 1e-20 * M) by (unfold M; field; lra).
    apply Rabs_le_between in SB. apply Rabs_le_between in W. apply Rabs_le. lra.
Qed.
Section C94.
Context (quad : quadrature) (Hquad : exact_quad quad) (p : pfa) (r1 r2 : R -> R -> R * R) (e u : R -> R).
Context (H1 : plate (p_mat1 p) (p_md p) r1) (H2 : plate (p_mat2 p) (p_md p) r2) (Hm : has (p_md p) e u).
Context (S1 : steady (p_mat1 p)) (S2 : steady (p_mat2 p)) (Sm : steady (p_md p)) (Hn : forall k, 0 < k -> 1 <= e k * u k).
Let n2 (k : R) : R := e k * u k.
Let A1 (k q : R) := fst (r1 q k) * fst (r2 q k).
Let A2 (k q : R) := snd (r1 q k) * snd (r2 q k).
Let J1 (L k : R) : R := match kperp_integral quad (fun q => ofst (roundTrips p q k L)) 0 with Val v => v | _ => 0 end.
Let J2 (L k : R) : R := match kperp_integral quad (fun q => osnd (roundTrips p q k L)) 0 with Val v => v | _ => 0 end.
Let F1 (L q k : R) : R := slab (A1 k) (fun q => kz n2 q k) L q.
Let F2 (L q k : R) : R := slab (A2 k) (fun q => kz n2 q k) L q.
Lemma index_one k : 0 < k -> k <= sqrt (e k * u k) * k.
Proof. intros Hk. assert (1 <= sqrt (e k * u k)) by (rewrite <- sqrt_1; apply sqrt_le_1_alt, Hn, Hk). nra. Qed.
Lemma parts k L : 0 < k -> 0 < L -> integral (fun q => F1 L q k) 0 (J1 L k) /\ integral (fun q => F2 L q k) 0 (J2 L k) /\
  kperp_integral quad (fun q => roundTrip p q k L) 0 = Val (J1 L k + J2 L k) /\ kperp_integral quad (fun q => ofst (roundTrips p q k L)) 0 = Val (J1 L k) /\ kperp_integral quad (fun q => osnd (roundTrips p q k L)) 0 = Val (J2 L k) /\
  Rabs (J1 L k) <= mirror_term L k / (2 * PI) /\ Rabs (J2 L k) <= mirror_term L k / (2 * PI).
Proof.
  intros Hk HL. destruct (freq_values quad Hquad p r1 r2 e u H1 H2 Hm k L Hk HL) as [a [b [Ia [Ib [V [V1 [V2 [Ba Bb]]]]]]]]. assert (E1 : J1 L k = a) by (unfold J1; now rewrite V1). assert (E2 : J2 L k = b) by (unfold J2; now rewrite V2). rewrite E1, E2.
  split; [exact Ia|]. split; [exact Ib|]. do 3 (split; [assumption|]). pose proof PI_RGT_0. assert (X : mirror_term L (sqrt (e k * u k) * k) / (2 * PI) <= mirror_term L k / (2 * PI)) by (apply Rmult_le_compat_r; [left; apply Rinv_0_lt_compat; lra|]; apply (P_less L HL); split; [lra|now apply index_one]).
  split; (eapply Rle_trans; [eassumption|exact X]).
Qed.
Lemma inside k : 0 < k -> forall q, 0 <= q -> forall L, 0 < L -> 0 < 1 - A1 k q * exp (-2 * kz n2 q k * L) /\ 0 < 1 - A2 k q * exp (-2 * kz n2 q k * L).
Proof. intros Hk q Hq L HL. destruct (all_values p r1 r2 e u H1 H2 Hm q k L Hq Hk HL) as [_ [_ [_ [_ [P Q]]]]]. split; [exact P|exact Q]. Qed.
(** the contribution of a frequency is a continuous function of the frequency *)
Lemma J_cont L k0 : 0 < L -> 0 < k0 -> continuous (J1 L) k0 /\ continuous (J2 L) k0.
Proof.
  intros HL H0. assert (N : forall k, Rabs (k - k0) < k0 / 2 -> k0 / 2 < k) by (intros k Hk; apply Rabs_def2 in Hk; lra). assert (H2' : 0 < k0 / 2) by lra.
  assert (Cdom : forall q, 0 <= q -> continuous (dom (k0 / 2) L) q). { intros q _. unfold dom. apply (continuous_scal_r (K := R_AbsRing) (V := R_NormedModule) (/ (2 * PI))). apply (continuous_opp (V := R_NormedModule)). apply log_continuous; [assumption|now apply pow_lt]. }
  assert (D := dom_integral (k0 / 2) L HL H2').
  assert (B : forall q k, 0 <= q -> Rabs (k - k0) < k0 / 2 -> Rabs (F1 L q k) <= dom (k0 / 2) L q /\ Rabs (F2 L q k) <= dom (k0 / 2) L q).
  { intros q k Hq Hk. apply N in Hk. assert (K : 0 < k) by lra. destruct (A_ok p r1 r2 H1 H2 k K) as [C1 [C2 [B1 B2]]]. assert (NK : 0 < sqrt (e k * u k) * k) by (apply Rmult_lt_0_compat; [apply sqrt_lt_R0; specialize (Hn k K); lra|assumption]). assert (IX := index_one k K).
    assert (KZ : forall q, kz n2 q k = sqrt (q ^ 2 + (sqrt (e k * u k) * k) ^ 2)) by (intros q'; exact (kz_root p e u Hm q' k K)).
    split; (eapply Rle_trans; [apply (slab_dom _ _ (sqrt (e k * u k) * k) L); assumption|]; apply dom_less; lra). }
  assert (CC : forall q k, 0 <= q -> Rabs (k - k0) < k0 / 2 -> continuity_2d_pt (F1 L) q k /\ continuity_2d_pt (F2 L) q k).
  { intros q k Hq Hk. apply N in Hk. assert (K : 0 < k) by lra. destruct (plate_cont2 _ _ _ q k H1 S1 Sm K) as [X1 X2]. destruct (plate_cont2 _ _ _ q k H2 S2 Sm K) as [X3 X4]. destruct (Sm e u Hm k K) as [Ce Cu]. destruct (inside k K q Hq L HL) as [P1 P2].
    split; [apply (slab_cont2 (fun q k => A1 k q) e u L q k)|apply (slab_cont2 (fun q k => A2 k q) e u L q k)]; try assumption; unfold A1, A2; now apply continuity_2d_pt_mult. }
  assert (PJ : forall k, Rabs (k - k0) < k0 / 2 -> integral (fun q => F1 L q k) 0 (J1 L k) /\ integral (fun q => F2 L q k) 0 (J2 L k)) by (intros k Hk; apply N in Hk; destruct (parts k L ltac:(lra) HL) as [X1 [X2 _]]; exact (conj X1 X2)).
  clearbody F1 F2 J1 J2. split.
  - exact (param_continuous (F1 L) (J1 L) (dom (k0 / 2) L) k0 (k0 / 2) _ H2' (fun q k Hq Hk => proj1 (CC q k Hq Hk)) Cdom (fun q k Hq Hk => proj1 (B q k Hq Hk)) D (fun k Hk => proj1 (PJ k Hk))).
  - exact (param_continuous (F2 L) (J2 L) (dom (k0 / 2) L) k0 (k0 / 2) _ H2' (fun q k Hq Hk => proj2 (CC q k Hq Hk)) Cdom (fun q k Hq Hk => proj2 (B q k Hq Hk)) D (fun k Hk => proj2 (PJ k Hk))).
Qed.
Let I (L k : R) : R := J1 L k + J2 L k.
Lemma I_cont L k : 0 < L -> 0 < k -> continuous (I L) k.
Proof. intros HL Hk. destruct (J_cont L k HL Hk) as [A B]. exact (continuous_plus (V := R_NormedModule) (J1 L) (J2 L) k A B). Qed.
Lemma I_bound L k : 0 < L -> 0 < k -> Rabs (I L k) <= mirror_term L k / PI.
Proof. intros HL Hk. destruct (parts k L Hk HL) as [_ [_ [_ [_ [_ [B1 B2]]]]]]. pose proof PI_RGT_0. replace (mirror_term L k / PI) with (mirror_term L k / (2 * PI) + mirror_term L k / (2 * PI)) by (field; lra). unfold I. eapply Rle_trans; [apply Rabs_triang|]. lra. Qed.
Lemma J_bound L k : 0 < L -> 0 < k -> Rabs (J1 L k) <= / (2 * PI) * mirror_term L k /\ Rabs (J2 L k) <= / (2 * PI) * mirror_term L k.
Proof. intros HL Hk. destruct (parts k L Hk HL) as [_ [_ [_ [_ [_ [B1 B2]]]]]]. rewrite (Rmult_comm (/ (2 * PI))). exact (conj B1 B2). Qed.
Lemma cold_values L : 0 < L -> exists v, (forall s, planeplaneFreeEnergy quad p (Fin 0) L s = Val v /\ raw_pp quad p (Fin 0) L s = Val v) /\ integral (I L) 1e-20 v /\ Rabs v <= mirror_tail L 1e-20 / PI.
Proof.
  intros HL. assert (P : forall k, 1e-20 <= k -> 0 < k) by (intros; lra).
  assert (G := cold_sum L (J1 L) (J2 L) HL (fun k Hk => proj1 (J_cont L k HL (P k Hk))) (fun k Hk => proj2 (J_cont L k HL (P k Hk))) (fun k Hk => proj1 (J_bound L k HL (P k Hk))) (fun k Hk => proj2 (J_bound L k HL (P k Hk)))).
  destruct G as [a [b [Ia [Ib [Iab B]]]]]. exists (a + b). split; [|exact (conj Iab B)]. intros s. split.
  - rewrite (proj1 (C55_zero_temperature quad p L s)). apply (Hquad _ (I L) 1e-20 (a + b)); [|exact Iab]. intros k Hk. destruct (parts k L (P k Hk) HL) as [_ [_ [V _]]]. exact V.
  - cbn [raw_pp]. destruct (Reqb_spec 0 0) as [_|N]; [|now contradiction N]. unfold raw_e0. rewrite (Hquad (intTE quad p 0 L) (J1 L) 1e-20 a); [|intros k Hk; destruct (parts k L (P k Hk) HL) as [_ [_ [_ [V _]]]]; exact V|exact Ia]. cbn [obind].
    rewrite (Hquad (intTM quad p 0 L) (J2 L) 1e-20 b); [reflexivity|intros k Hk; destruct (parts k L (P k Hk) HL) as [_ [_ [_ [_ [V _]]]]]; exact V|exact Ib].
Qed.
Lemma I_signs L k : 0 < L -> 0 < k -> (same_sign r1 r2 -> I L k <= 0 /\ (visible r1 r2 k -> I L k < 0)) /\ (other_sign r1 r2 -> 0 <= I L k /\ (visible r1 r2 k -> 0 < I L k)).
Proof.
  intros HL Hk. destruct (parts k L Hk HL) as [_ [_ [V _]]]. destruct (C90_frequency quad Hquad p r1 r2 e u H1 H2 Hm k L Hk HL) as [a [b [W [_ [_ [_ [_ [S O]]]]]]]]. rewrite V in W. injection W as W. unfold I. rewrite W. split.
  - intros Hs. destruct (S Hs) as [X [Y Z]]. split; [lra|exact Z].
  - intros Hs. destruct (O Hs) as [X [Y Z]]. split; [lra|exact Z].
Qed.
(** existence, agreement of the two modules, bound by perfect reflectors, sign *)
Theorem C94_zero_temperature : forall L, 0 < L -> exists v,
  (forall s, planeplaneFreeEnergy quad p (Fin 0) L s = Val v /\ raw_pp quad p (Fin 0) L s = Val v) /\
  (forall J, (forall k, 0 < k -> kperp_integral quad (fun q => roundTrip p q k L) 0 = Val (J k)) -> is_RInt_gen J (at_point 1e-20) (Rbar_locally p_infty) v) /\
  Rabs v <= PI ^ 3 / (360 * L ^ 3) /\ (same_sign r1 r2 -> v <= 0) /\ (other_sign r1 r2 -> 0 <= v) /\
  (forall k, 1e-20 < k -> visible r1 r2 k -> (same_sign r1 r2 -> v < 0) /\ (other_sign r1 r2 -> 0 < v)).
Proof.
  intros L HL. pose proof PI_RGT_0. destruct (cold_values L HL) as [v [V [Iv B]]]. exists v. split; [exact V|]. split; [|split; [|split; [|split]]].
  - intros J HJ. refine (is_RInt_gen_ext (I L) J v _ Iv). exists (fun x => x = 1e-20) (fun y => 1e-20 < y); [reflexivity|now exists 1e-20|]. intros x y -> Hy z Hz. cbn [fst snd] in Hz. rewrite Rmin_left in Hz by lra. assert (K : 0 < z) by lra. destruct (parts z L K HL) as [_ [_ [W _]]]. rewrite (HJ z K) in W. injection W as W. unfold I. symmetry. exact W.
  - eapply Rle_trans; [exact B|]. destruct (tail_bounds L HL 1e-20 ltac:(lra)) as [[T0 T1] _]. replace (PI ^ 3 / (360 * L ^ 3)) with (PI ^ 4 / (360 * L ^ 3) / PI) by (field; lra). apply Rmult_le_compat_r; [left; now apply Rinv_0_lt_compat|exact T1].
  - intros Hs. apply (integral_le (I L) (fun _ => 0) 1e-20); [intros k Hk; apply I_signs; [assumption|lra|assumption]|exact Iv|apply integral_zero].
  - intros Ho. apply (integral_le (fun _ => 0) (I L) 1e-20); [intros k Hk; apply I_signs; [assumption|lra|assumption]|apply integral_zero|exact Iv].
  - intros k Hk Vk. assert (K : 0 < k) by lra. destruct (I_signs L k HL K) as [Sk Ok]. split; intros Hs.
    + apply (integral_neg (I L) 1e-20 v k); [intros x Hx; apply I_cont; lra|intros x Hx; apply I_signs; [assumption|lra|assumption]|exact Iv|assumption|now apply Sk].
    + assert (X : - v < 0); [|lra]. apply (integral_neg (fun x => - I L x) 1e-20 (- v) k); [intros x Hx; apply (continuous_opp (V := R_NormedModule)), I_cont; lra|intros x Hx; assert (0 <= I L x) by (apply I_signs; [assumption|lra|assumption]); lra|now apply integral_opp|assumption|]. destruct (Ok Hs) as [_ X]. specialize (X Vk). lra.
Qed.
(** dependence on the distance *)
Theorem C94_distance : forall L L' s v v', 0 < L < L' -> planeplaneFreeEnergy quad p (Fin 0) L s = Val v -> planeplaneFreeEnergy quad p (Fin 0) L' s = Val v' ->
  (same_sign r1 r2 -> v <= v') /\ (other_sign r1 r2 -> v' <= v).
Proof.
  intros L L' s v v' [HL HL'] E E'. pose proof PI_RGT_0. destruct (cold_values L HL) as [w [V [Iv _]]]. destruct (cold_values L' ltac:(lra)) as [w' [V' [Iv' _]]]. rewrite (proj1 (V s)) in E. injection E as <-. rewrite (proj1 (V' s)) in E'. injection E' as <-.
  assert (X : forall k q, 0 < k -> 0 <= q -> (same_sign r1 r2 -> F1 L q k <= F1 L' q k /\ F2 L q k <= F2 L' q k) /\ (other_sign r1 r2 -> F1 L' q k <= F1 L q k /\ F2 L' q k <= F2 L q k)).
  { intros k q Hk Hq. assert (HK : 0 < kz n2 q k) by (apply kz_pos; [specialize (Hn k Hk); unfold n2; lra|assumption]). destruct (inside k Hk q Hq L HL) as [P Q]. assert (M1 := proj1 (ln_loop_mono _ _ _ _ _ HK HL' P)). assert (M3 := proj1 (ln_loop_mono _ _ _ _ _ HK HL' Q)). assert (M2 := ln_loop_less (fst (r1 q k)) (fst (r2 q k)) _ _ _ HK HL'). assert (M4 := ln_loop_less (snd (r1 q k)) (snd (r2 q k)) _ _ _ HK HL'). assert (W : 0 <= q / (2 * PI)) by (apply Rdiv_le_0_compat; lra).
    unfold F1, F2, slab, A1, A2, ln_loop in *. split; intros Hs; destruct (Hs q k Hq Hk) as [Z1 Z2]; (split; (apply Rmult_le_compat_l; [assumption|])).
    - now apply M1.
    - now apply M3.
    - now apply M2.
    - now apply M4. }
  split; intros Hs.
  - apply (integral_le (I L) (I L') 1e-20); [|assumption|assumption]. intros k Hk. assert (K : 0 < k) by lra. destruct (parts k L K HL) as [P1 [P2 _]]. destruct (parts k L' K ltac:(lra)) as [P3 [P4 _]]. apply Rplus_le_compat; [apply (integral_le _ _ 0 _ _) with (2 := P1) (3 := P3)|apply (integral_le _ _ 0 _ _) with (2 := P2) (3 := P4)]; intros q Hq; now apply X.
  - apply (integral_le (I L') (I L) 1e-20); [|assumption|assumption]. intros k Hk. assert (K : 0 < k) by lra. destruct (parts k L K HL) as [P1 [P2 _]]. destruct (parts k L' K ltac:(lra)) as [P3 [P4 _]]. apply Rplus_le_compat; [apply (integral_le _ _ 0 _ _) with (2 := P3) (3 := P1)|apply (integral_le _ _ 0 _ _) with (2 := P4) (3 := P2)]; intros q Hq; now apply X.
Qed.
(** the force between spheres *)
Theorem C94_force : forall r_1 r_2 d s, 0 < r_1 -> 0 < r_2 -> r_1 + r_2 < d \/ (0 <= d /\ d + r_1 < r_2) ->
  let g := if Rltb (r_1 + r_2) d then d - r_1 - r_2 else r_2 - d - r_1 in let R0 := if Rltb (r_1 + r_2) d then r_1 * r_2 / (r_1 + r_2) else r_1 * r_2 / (r_2 - r_1) in
  exists v, spheresphereForce quad p r_1 r_2 (Fin 0) d s = Val v /\ Rabs v <= PI ^ 4 * R0 / (180 * g ^ 3) /\ (same_sign r1 r2 -> v <= 0) /\ (other_sign r1 r2 -> 0 <= v) /\
  (forall k, 1e-20 < k -> visible r1 r2 k -> (same_sign r1 r2 -> v < 0) /\ (other_sign r1 r2 -> 0 < v)).
Proof.
  intros r_1 r_2 d s P1 P2 Hd. pose proof PI_RGT_0. assert (P12 : 0 < r_1 * r_2) by now apply Rmult_lt_0_compat.
  assert (X : forall g G, 0 < g -> 0 < G -> (forall f, planeplaneFreeEnergy quad p (Fin 0) g false = Val f -> spheresphereForce quad p r_1 r_2 (Fin 0) d s = Val (2 * PI * G * f)) -> exists v, spheresphereForce quad p r_1 r_2 (Fin 0) d s = Val v /\
    Rabs v <= PI ^ 4 * G / (180 * g ^ 3) /\ (same_sign r1 r2 -> v <= 0) /\ (other_sign r1 r2 -> 0 <= v) /\ (forall k, 1e-20 < k -> visible r1 r2 k -> (same_sign r1 r2 -> v < 0) /\ (other_sign r1 r2 -> 0 < v))).
  { intros g G Hg HG HF. destruct (C94_zero_temperature g Hg) as [f [E [_ [B [S [O V]]]]]]. exists (2 * PI * G * f). split; [now apply HF, E|]. assert (M : 0 < 2 * PI * G) by (apply Rmult_lt_0_compat; lra). split; [|split; [|split]].
    - rewrite Rabs_mult, (Rabs_pos_eq (2 * PI * G)) by lra. replace (PI ^ 4 * G / (180 * g ^ 3)) with (2 * PI * G * (PI ^ 3 / (360 * g ^ 3))) by (field; lra). apply Rmult_le_compat_l; [lra|exact B].
    - intros Hs. specialize (S Hs). nra.
    - intros Ho. specialize (O Ho). nra.
    - intros k Hk Hv. destruct (V k Hk Hv) as [V1 V2]. split; intros Hs; [specialize (V1 Hs)|specialize (V2 Hs)]; nra. }
  cbv zeta. destruct (Rltb_spec (r_1 + r_2) d) as [Lt|Ge].
  - apply X; [lra|apply Rdiv_lt_0_compat; lra|]. intros f Hf. now apply (proj1 (C55_force quad p r_1 r_2 (Fin 0) d s f P1 P2)).
  - apply X; [lra|apply Rdiv_lt_0_compat; lra|]. intros f Hf. apply (proj2 (C55_force quad p r_1 r_2 (Fin 0) d s f P1 P2)); [lra|lra|exact Hf].
Qed.
(** the energies at small temperatures tend to that at zero temperature, up to the terms both computations leave out *)
Theorem C94_limit : forall L s, 0 < L -> forall eps, 0 < eps -> exists d, 0 < d /\ forall T v v0, 0 < T < d -> planeplaneFreeEnergy quad p (Fin T) L s = Val v -> planeplaneFreeEnergy quad p (Fin 0) L s = Val v0 ->
  Rabs (v - v0) <= (11 * exp (-40) / L ^ 3 + 3 * 1e-20 * (zeta3 / (4 * L ^ 2))) / PI + eps.
Proof.
  intros L s HL eps He. destruct (cold_values L HL) as [w [V [Iv _]]]. assert (W : 0 <= (if s then 0 else / 2) <= / 2) by (destruct s; lra).
  destruct (cold_limit L (I L) w _ HL W (fun k Hk => I_cont L k HL Hk) (fun k Hk => I_bound L k HL Hk) Iv eps He) as [d [Hd X]]. exists d. split; [exact Hd|]. intros T v v0 HT E E0. rewrite (proj1 (V s)) in E0. injection E0 as <-.
  assert (TL : 0 < T * L) by (apply Rmult_lt_0_compat; lra). rewrite (C55_free_energy quad p T L s (I L)) in E; [injection E as <-; now apply X|apply Rgt_not_eq, HT|now apply Rgt_not_eq|].
  intros k Hk. assert (K : 0 < k) by (revert Hk; apply frequencies; [lra|apply HT]). destruct (parts k L K HL) as [_ [_ [Vk _]]]. exact Vk.
Qed.
End C94.
(** the materials of materials.py *)
Theorem C94_materials : steady PEC /\ (forall e b, Forall physical e -> good_b b -> steady (Lorentz e b)) /\ (forall o b, physical o -> good_b b -> steady (Smith [o] b)) /\
  (forall e mu0 w k, Forall physical e -> 1 <= mu0 -> 0 < w -> 0 < k -> 1 <= eps_spec e k * mu_val (Some (mu0, w)) k) /\ (forall e k, Forall physical e -> 0 < k -> 1 <= eps_spec e k * mu_val None k).
Proof.
  destruct steady_materials as [A [B C]]. split; [exact A|]. split; [exact B|]. split; [exact C|]. split.
  - intros e mu0 w k He Hmu Hw Hk. assert (X := C34_epsilon_at_least_one e k He Hk). assert (Y : 1 <= mu_val (Some (mu0, w)) k). { unfold mu_val, mu_spec. assert (P : 0 < w / omega_norm) by (apply Rdiv_lt_0_compat; [assumption|apply norm_pos]). assert (Q : 0 < k / (w / omega_norm)) by now apply Rdiv_lt_0_compat. assert (0 <= (mu0 - 1) / (1 + k / (w / omega_norm))) by (apply Rdiv_le_0_compat; lra). lra. } nra.
  - intros e k He Hk. assert (X := C34_epsilon_at_least_one e k He Hk). unfold mu_val. lra.
Qed.
Print Assumptions C94_zero_temperature.
Print Assumptions C94_distance.
Print Assumptions C94_force.
Print Assumptions C94_limit.
Print Assumptions C94_materials.

(** ** not vacuous: gold plates in vacuum; a film of water under vacuum on a conductor *)
Example C94_gold : exists v, planeplaneFreeEnergy the_integral gold_gold (Fin 0) 2 false = Val v /\ raw_pp the_integral gold_gold (Fin 0) 2 true = Val v /\ - (PI ^ 3 / 2880) <= v < 0.
Proof.
  destruct C94_materials as [_ [SL _]]. assert (V0 : steady (Lorentz [] None)) by (apply SL; [constructor|exact Logic.I]). assert (G0 : steady (Lorentz e_Gold None)) by (apply SL; [apply C35_instance|exact Logic.I]).
  set (r := fun q k => fresnel1 (eps_spec e_Gold k) 1 (eps_spec [] k) 1 q k). assert (G : plate (Lorentz e_Gold None) (Lorentz [] None) r) by (right; exists (eps_spec e_Gold), (mu_val None), (eps_spec []), (mu_val None); split; [exact gold_has|]; split; [exact vacuum_has|]; intros; reflexivity).
  destruct (C94_zero_temperature the_integral the_integral_exact gold_gold r r _ _ G G vacuum_has G0 G0 V0 ltac:(intros k Hk; rewrite vacuum_one by assumption; lra) 2 ltac:(lra)) as [v [E [_ [B [N [_ V]]]]]]. exists v. split; [apply E|]. split; [apply E|]. replace (360 * 2 ^ 3) with 2880 in B by ring. apply Rabs_le_between in B. split; [lra|].
  apply (V 1); [lra| |apply C90_signs]. exists 1. split; [lra|]. left.
  assert (D : 0 < eps_spec [] 1 < eps_spec e_Gold 1). { split; [unfold eps_spec; cbn; lra|]. replace (eps_spec [] 1) with 1 by (unfold eps_spec; cbn; lra). apply Rle_lt_trans with (eps_spec e_Gold 2); [apply C34_epsilon_at_least_one; [apply C35_instance|lra]|]. apply C34_epsilon_decreasing; [apply C35_instance| |lra|lra]. eexists. split; [now left|]. cbn [o_wP]. lra. }
  assert (X := C38_denser (eps_spec e_Gold 1) (eps_spec [] 1) 1 1 D ltac:(lra) ltac:(lra)). fold (r 1 1) in X. nra.
Qed.
