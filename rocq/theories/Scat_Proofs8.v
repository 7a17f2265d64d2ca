(** * Zero-frequency Mie coefficients as limits *)
From Coq Require Import Reals.
From Coquelicot Require Import Coquelicot.
From Coq Require Import ZArith List Lia Lra.
From Verif Require Import Base Mat_Model Mat_Spec Mat_Proofs Help_Model Help_Spec Help_Proofs Bessel_Model Bessel_Spec Bessel_Proofs Bessel_Proofs2 Scat_Model Scat_Spec Scat_Proofs Scat_Proofs2 Scat_Proofs4 Scat_Proofs7.
Import ListNotations.
Open Scope R_scope.

(** ** materials near zero *)
Lemma lim0_mu b : good_b b -> lim0 (mu_val b) (mu_val b 0).
Proof.
  destruct b as [[mu0 w]|]; cbn; [|intros _; apply lim0_const]. intros [_ Hw]. unfold mu_spec.
  assert (0 < w / omega_norm) by (apply Rdiv_lt_0_compat; [assumption|apply omega_norm_pos]).
  apply lim0_plus; [apply lim0_const|]. apply lim0_div; [|apply lim0_const|].
  - unfold Rdiv. rewrite Rmult_0_l. lra.
  - apply lim0_plus; [apply lim0_const|]. apply lim0_div; [lra|apply lim0_id|apply lim0_const].
Qed.
Lemma lim0_den o : lim0 (den o) (wr o ^ 2).
Proof.
  apply lim0_eq with (wr o ^ 2 + 0 ^ 2 + gm o * 0); [ring|]. unfold den.
  apply lim0_plus; [apply lim0_plus; [apply lim0_const|apply lim0_pow, lim0_id]|]. apply lim0_mult; [apply lim0_const|apply lim0_id].
Qed.
Lemma lim0_sum e (g : osc -> R -> R) (v : osc -> R) : (forall o, In o e -> lim0 (g o) (v o)) ->
  lim0 (fun k => fold_right Rplus 0 (map (fun o => g o k) e)) (fold_right Rplus 0 (map v e)).
Proof.
  induction e as [|o e IH]; intros H; cbn [map fold_right]; [apply lim0_const|].
  apply lim0_plus; [apply H; now left|apply IH; intros; apply H; now right].
Qed.
Lemma lim0_eps e : (forall o, In o e -> o_wR o <> 0) -> lim0 (eps_spec e) (eps_spec e 0).
Proof.
  intros H. apply lim0_plus; [apply lim0_const|].
  apply (lim0_sum e chi (fun o => chi o 0)). intros o Ho. unfold chi.
  assert (E : den o 0 = wr o ^ 2) by (unfold den; ring). rewrite E. apply lim0_div; [|apply lim0_const|apply lim0_den].
  apply pow_nonzero. unfold wr. rewrite scale_zero. now apply H.
Qed.
Lemma lim0_k2eps e (v : osc -> R) : (forall o, In o e -> lim0 (fun k => k ^ 2 * chi o k) (v o)) ->
  lim0 (fun k => k ^ 2 * eps_spec e k) (fold_right Rplus 0 (map v e)).
Proof.
  intros H. apply (lim0_ext (fun k => k ^ 2 + fold_right Rplus 0 (map (fun o => k ^ 2 * chi o k) e))).
  { intros k _. rewrite eps_spec_chi. induction e as [|o e IH]; cbn [map fold_right]; [ring|].
    assert (IH' := IH ltac:(intros; apply H; now right)). lra. }
  apply lim0_eq with (0 ^ 2 + fold_right Rplus 0 (map v e)); [ring|].
  apply lim0_plus; [apply lim0_pow, lim0_id|]. now apply (lim0_sum e (fun o k => k ^ 2 * chi o k) v).
Qed.
Lemma lim0_k2chi_damped o : physical o -> o_wP o = 0 \/ o_wR o <> 0 \/ 0 < o_g o -> lim0 (fun k => k ^ 2 * chi o k) 0.
Proof.
  intros Hp H. destruct (Req_dec (o_wR o) 0) as [E|E].
  - destruct (Req_dec (o_wP o) 0) as [E0|E0].
    { apply (lim0_ext (fun _ => 0)); [|apply lim0_const]. intros k _. unfold chi, wp. rewrite E0. unfold Rdiv. ring. }
    assert (Hg : 0 < o_g o) by (destruct H as [H|[H|H]]; [contradiction|contradiction|assumption]).
    assert (G : 0 < gm o) by (apply Rdiv_lt_0_compat; [assumption|apply omega_norm_pos]).
    apply (lim0_ext (fun k => k * (wp o ^ 2 / (k + gm o)))).
    { intros k Hk. unfold chi, den, wr. rewrite E. unfold Rdiv at 3. rewrite Rmult_0_l. field. repeat split; nra. }
    apply lim0_eq with (0 * (wp o ^ 2 / (0 + gm o))); [ring|]. apply lim0_mult; [apply lim0_id|].
    apply lim0_div; [lra|apply lim0_const|apply lim0_plus; [apply lim0_id|apply lim0_const]].
  - apply lim0_eq with (0 ^ 2 * (wp o ^ 2 / wr o ^ 2)); [ring|]. apply lim0_mult; [apply lim0_pow, lim0_id|].
    unfold chi. apply lim0_div; [|apply lim0_const|apply lim0_den]. apply pow_nonzero. unfold wr. now rewrite scale_zero.
Qed.
Lemma sum_zeros {A} (e : list A) : fold_right Rplus 0 (map (fun _ => 0) e) = 0.
Proof. induction e as [|a e IH]; cbn; [reflexivity|lra]. Qed.
Lemma lim0_k2eps_damped e : Forall physical e -> (forall o, In o e -> o_wP o = 0 \/ o_wR o <> 0 \/ 0 < o_g o) -> lim0 (fun k => k ^ 2 * eps_spec e k) 0.
Proof.
  intros HP H. apply lim0_eq with (fold_right Rplus 0 (map (fun _ : osc => 0) e)); [apply sum_zeros|].
  apply (lim0_k2eps e (fun _ => 0)). intros o Ho. apply lim0_k2chi_damped; [|now apply H]. rewrite Forall_forall in HP. now apply HP.
Qed.
Lemma lim0_k2eps_plasma o e : Forall physical (o :: e) -> o_wR o = 0 -> o_g o = 0 -> (forall o', In o' e -> o_wR o' <> 0 \/ 0 < o_g o') ->
  lim0 (fun k => k ^ 2 * eps_spec (o :: e) k) (wp o ^ 2).
Proof.
  intros HP Hr Hg H.
  apply (lim0_ext (fun k => wp o ^ 2 + k ^ 2 * eps_spec e k)).
  { intros k Hk. rewrite !eps_spec_chi. cbn [map fold_right].
    assert (E : k ^ 2 * chi o k = wp o ^ 2). { unfold chi, den, wr, gm. rewrite Hr, Hg. unfold Rdiv at 2 3. rewrite !Rmult_0_l. field. nra. }
    rewrite <- E. ring. }
  apply lim0_eq with (wp o ^ 2 + 0); [ring|]. apply lim0_plus; [apply lim0_const|]. apply lim0_k2eps_damped; [now inversion HP|].
  intros o' Ho'. right. now apply H.
Qed.
(** free charges: the permittivity diverges *)
Lemma lim0_inv_eps e : Forall physical e -> (exists o, In o e /\ o_wP o <> 0 /\ o_wR o = 0) -> lim0 (fun k => / eps_spec e k) 0.
Proof.
  intros HP [o [Ho [Hw Hr]]]. assert (Hp : physical o) by (rewrite Forall_forall in HP; now apply HP).
  assert (W : 0 < wp o ^ 2). { assert (wp o <> 0) by (unfold wp; now rewrite scale_zero). rewrite <- Rsqr_pow2. now apply Rsqr_pos_lt. }
  apply lim0_squeeze with (fun _ => 0) (fun k => den o k / wp o ^ 2).
  - intros k Hk. assert (Hk0 : 0 < k) by lra. assert (H1 := eps_ge_1 e k HP Hk0). assert (H2 := chi_le_eps e o k HP Ho Hk0). assert (H3 := den_pos o k Hp Hk0).
    split; [left; apply Rinv_0_lt_compat; lra|]. replace (den o k / wp o ^ 2) with (/ chi o k).
    + apply Rinv_le_contravar; [|lra]. unfold chi. now apply Rdiv_lt_0_compat.
    + unfold chi. field. split; [assert (wp o <> 0) by (intros E; rewrite E in W; lra); assumption|lra].
  - apply lim0_const.
  - apply lim0_eq with (wr o ^ 2 / wp o ^ 2).
    + unfold wr. rewrite Hr. unfold Rdiv at 2. rewrite Rmult_0_l. unfold Rdiv. ring.
    + apply lim0_div; [lra|apply lim0_den|apply lim0_const].
Qed.
(** n k r from k^2 eps mu *)
Lemma lim0_arg (e u : R -> R) r v : 0 < r -> (forall k, 0 < k -> 0 < e k /\ 0 < u k) -> lim0 (fun k => k ^ 2 * e k * u k) v -> 0 <= v ->
  lim0 (fun k => refr e u k * k * r) (sqrt v * r).
Proof.
  intros Hr HP H Hv. apply (lim0_ext (fun k => sqrt (k ^ 2 * e k * u k) * r)).
  { intros k Hk. destruct (HP k Hk). unfold refr. rewrite Rmult_assoc, sqrt_mult_alt by apply pow2_ge_0. rewrite sqrt_pow2 by lra. ring. }
  apply lim0_mult; [|apply lim0_const]. apply (lim0_comp sqrt); [now apply continuity_pt_sqrt|exact H].
Qed.
Lemma to0_arg (e u : R -> R) r : 0 < r -> (forall k, 0 < k -> 0 < e k /\ 0 < u k) -> lim0 (fun k => k ^ 2 * e k * u k) 0 -> to0 (fun k => refr e u k * k * r).
Proof.
  intros Hr HP H. split.
  - intros k Hk. destruct (HP k Hk). repeat apply Rmult_lt_0_compat; try assumption. now apply refr_pos.
  - apply lim0_eq with (sqrt 0 * r); [rewrite sqrt_0; ring|]. apply lim0_arg; try assumption. lra.
Qed.

(** ** ratios *)
Lemma ratio_ext_fin l (p1 p2 xi xe : R -> R) P1 P2 D : 0 < P1 -> 0 < P2 -> 0 < D -> lim0 p1 P1 -> lim0 p2 P2 -> lim0 (fun k => DI l (xi k)) D -> to0 xe ->
  lim0 (fun k => ratio_ext (p1 k) (p2 k) (DI l (xi k)) (DI l (xe k)) (DK l (xe k)))
       ((P2 * D - P1 * (INR (S l) + 1)) / (P2 * D + P1 * INR (S l))).
Proof.
  intros HP1 HP2 HD H1 H2 HDI Hx. unfold ratio_ext. assert (HL := pos_INR l). rewrite S_INR.
  apply lim0_eq with ((P2 * D - P1 * (INR l + 2)) / (P2 * D - P1 * (- (INR l + 1)))); [f_equal; ring|].
  apply lim0_div.
  - assert (0 < P2 * D) by (now apply Rmult_lt_0_compat). assert (0 < P1 * (INR l + 1)) by (apply Rmult_lt_0_compat; lra). lra.
  - apply lim0_minus; apply lim0_mult; try assumption. apply (lim0_sub (DI l) xe _ Hx). apply lim0_DI.
  - apply lim0_minus; apply lim0_mult; try assumption. apply (lim0_sub (DK l) xe _ Hx). apply lim0_DK.
Qed.
Lemma ratio_ext_inf l (p1 p2 xi xe : R -> R) P2 D : (forall k, 0 < k -> 0 < p1 k) -> lim0 (fun k => / p1 k) 0 -> lim0 p2 P2 -> lim0 (fun k => DI l (xi k)) D -> to0 xe ->
  lim0 (fun k => ratio_ext (p1 k) (p2 k) (DI l (xi k)) (DI l (xe k)) (DK l (xe k))) (- ((INR (S l) + 1) / INR (S l))).
Proof.
  intros HP1 H1 H2 HDI Hx. assert (HL := pos_INR l). rewrite S_INR.
  apply (lim0_ext (fun k => (/ p1 k * p2 k * DI l (xi k) - DI l (xe k)) / (/ p1 k * p2 k * DI l (xi k) - DK l (xe k)))).
  { intros k Hk. unfold ratio_ext. assert (p1 k <> 0) by (specialize (HP1 k Hk); lra).
    replace (p2 k * DI l (xi k) - p1 k * DI l (xe k)) with (p1 k * (/ p1 k * p2 k * DI l (xi k) - DI l (xe k))) by (field; assumption).
    replace (p2 k * DI l (xi k) - p1 k * DK l (xe k)) with (p1 k * (/ p1 k * p2 k * DI l (xi k) - DK l (xe k))) by (field; assumption).
    set (a := / p1 k * p2 k * DI l (xi k) - DI l (xe k)). set (b := / p1 k * p2 k * DI l (xi k) - DK l (xe k)).
    unfold Rdiv. rewrite Rinv_mult. replace (p1 k * a * (/ p1 k * / b)) with (a * / b * (p1 k * / p1 k)) by ring. rewrite Rinv_r by assumption. ring. }
  apply lim0_eq with ((0 * P2 * D - (INR l + 2)) / (0 * P2 * D - (- (INR l + 1)))); [field; lra|].
  apply lim0_div; [lra| |].
  - apply lim0_minus; [|apply (lim0_sub (DI l) xe _ Hx), lim0_DI]. apply lim0_mult; [now apply lim0_mult|assumption].
  - apply lim0_minus; [|apply (lim0_sub (DK l) xe _ Hx), lim0_DK]. apply lim0_mult; [now apply lim0_mult|assumption].
Qed.
(** weight of the static coefficients *)
Definition cw (l : nat) : R := (2 * INR l + 1) * odd_dfact l ^ 2.
Lemma cw_pos l : 0 < cw l.
Proof. apply Rmult_lt_0_compat; [generalize (pos_INR l); lra|apply pow_lt, odd_dfact_pos]. Qed.
Lemma exp_common l : exp (- ln (2 * INR l + 1) - 2 * ln_2dbl l) = / cw l /\ exp (ln (2 * INR l + 1) + 2 * ln_2dbl l) = cw l.
Proof.
  rewrite ln_2dbl_spec. assert (H1 : 0 < 2 * INR l + 1) by (generalize (pos_INR l); lra). assert (H2 := odd_dfact_pos l).
  assert (E : exp (ln (2 * INR l + 1) + 2 * ln (odd_dfact l)) = cw l).
  { replace (2 * ln (odd_dfact l)) with (ln (odd_dfact l) + ln (odd_dfact l)) by ring. rewrite !exp_plus, !exp_ln by assumption. unfold cw. ring. }
  split; [|exact E]. replace (- ln (2 * INR l + 1) - 2 * ln (odd_dfact l)) with (- (ln (2 * INR l + 1) + 2 * ln (odd_dfact l))) by ring.
  now rewrite exp_Ropp, E.
Qed.
Lemma ik_scale l x : 0 < x -> exp (ln (sph_i l x) - ln (sph_k l x)) = sph_i l x / sph_k l x.
Proof. intros Hx. apply exp_ln_diff; [now apply sph_i_pos|now apply sph_k_pos]. Qed.
Lemma ki_scale l x : 0 < x -> exp (ln (sph_k l x) - ln (sph_i l x)) = sph_k l x / sph_i l x.
Proof. intros Hx. apply exp_ln_diff; [now apply sph_k_pos|now apply sph_i_pos]. Qed.
Lemma ext_limit l (p1 p2 n1 n2 : R -> R) r v : to0 (fun k => n2 k * k * r) ->
  lim0 (fun k => ratio_ext (p1 k) (p2 k) (DI l (n1 k * k * r)) (DI l (n2 k * k * r)) (DK l (n2 k * k * r))) v ->
  lim0 (fun k => ext_val l (p1 k) (p2 k) (n1 k) (n2 k) k r / (k * r * n2 k) ^ (2 * S l + 1)) (sgn (S l) * v * / cw (S l)).
Proof.
  intros Hx Hv.
  apply (lim0_ext (fun k => ratio_ext (p1 k) (p2 k) (DI l (n1 k * k * r)) (DI l (n2 k * k * r)) (DK l (n2 k * k * r)) * (sgn (S l) * PI * / 2) *
     (sph_i (S l) (n2 k * k * r) / sph_k (S l) (n2 k * k * r) / (n2 k * k * r) ^ (2 * S l + 1)))).
  { intros k Hk. unfold ext_val. rewrite ik_scale by (now apply Hx). replace (k * r * n2 k) with (n2 k * k * r) by ring.
    replace 0.5 with (/ 2) by lra. unfold Rdiv. ring. }
  apply lim0_eq with (v * (sgn (S l) * PI * / 2) * (2 / PI / cw (S l))).
  { generalize PI_RGT_0 (cw_pos (S l)). intros. field. split; lra. }
  apply lim0_mult; [apply lim0_mult; [exact Hv|apply lim0_const]|].
  apply (lim0_sub (fun x => sph_i (S l) x / sph_k (S l) x / x ^ (2 * S l + 1)) (fun k => n2 k * k * r) _ Hx). apply lim0_ratio.
Qed.
Lemma pec_limit l (n2 : R -> R) r : to0 (fun k => n2 k * k * r) ->
  lim0 (fun k => sgn (S l) * PI * 0.5 * pec_scale l (n2 k) k r / (k * r * n2 k) ^ (2 * S l + 1)) (sgn (S l) * / cw (S l)) /\
  lim0 (fun k => sgn (S l) * PI * 0.5 * DI l (n2 k * k * r) / DK l (n2 k * k * r) * pec_scale l (n2 k) k r / (k * r * n2 k) ^ (2 * S l + 1))
       (- sgn (S l) * ((INR (S l) + 1) / INR (S l)) * / cw (S l)).
Proof.
  intros Hx. generalize PI_RGT_0 (cw_pos (S l)) (pos_INR l). intros HP HC HL. split.
  - apply (lim0_ext (fun k => (sgn (S l) * PI * / 2) * (sph_i (S l) (n2 k * k * r) / sph_k (S l) (n2 k * k * r) / (n2 k * k * r) ^ (2 * S l + 1)))).
    { intros k Hk. unfold pec_scale. rewrite ik_scale by (now apply Hx). replace (k * r * n2 k) with (n2 k * k * r) by ring. replace 0.5 with (/ 2) by lra. unfold Rdiv. ring. }
    apply lim0_eq with ((sgn (S l) * PI * / 2) * (2 / PI / cw (S l))); [field; split; lra|]. apply lim0_mult; [apply lim0_const|].
    apply (lim0_sub (fun x => sph_i (S l) x / sph_k (S l) x / x ^ (2 * S l + 1)) (fun k => n2 k * k * r) _ Hx). apply lim0_ratio.
  - apply (lim0_ext (fun k => (sgn (S l) * PI * / 2) * (DI l (n2 k * k * r) / DK l (n2 k * k * r)) * (sph_i (S l) (n2 k * k * r) / sph_k (S l) (n2 k * k * r) / (n2 k * k * r) ^ (2 * S l + 1)))).
    { intros k Hk. unfold pec_scale. rewrite ik_scale by (now apply Hx). replace (k * r * n2 k) with (n2 k * k * r) by ring. replace 0.5 with (/ 2) by lra. unfold Rdiv. ring. }
    apply lim0_eq with ((sgn (S l) * PI * / 2) * ((INR l + 2) / (- (INR l + 1))) * (2 / PI / cw (S l))).
    { rewrite S_INR. field. repeat split; lra. }
    apply lim0_mult.
    + apply lim0_mult; [apply lim0_const|]. apply lim0_div; [lra| |]; [apply (lim0_sub (DI l) _ _ Hx), lim0_DI|apply (lim0_sub (DK l) _ _ Hx), lim0_DK].
    + apply (lim0_sub (fun x => sph_i (S l) x / sph_k (S l) x / x ^ (2 * S l + 1)) (fun k => n2 k * k * r) _ Hx). apply lim0_ratio.
Qed.
