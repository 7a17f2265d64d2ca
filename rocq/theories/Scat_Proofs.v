(** * Scattering: materials, Fresnel coefficients, logarithmic derivatives, boundary matching *)
From Coq Require Import Reals.
From Coquelicot Require Import Coquelicot.
From Coq Require Import Bool ZArith List Lia Lra.
From Verif Require Import Base Mat_Model Mat_Spec Mat_Proofs Help_Model Bessel_Model Bessel_Spec Bessel_Proofs Bessel_Proofs2 Scat_Model Scat_Spec.
Import ListNotations.
Open Scope R_scope.

(** ** materials *)
Lemma fins_map {A} (f : A -> R) l : fins (map (fun k => Fin (f k)) l) = Val (map f l).
Proof. induction l as [|a l IH]; [reflexivity|]. cbn [map fins]. rewrite IH. reflexivity. Qed.
Definition good_b (b : bprops) : Prop := match b with None => True | Some (mu0, w) => 0 < mu0 /\ 0 < w end.
Definition mu_val (b : bprops) (k : R) : R := match b with None => 1 | Some (mu0, w) => mu_spec mu0 w k end.
Lemma mu_val_pos b k : good_b b -> 0 <= k -> 0 < mu_val b k.
Proof.
  destruct b as [[mu0 w]|]; cbn; [|lra]. intros [H1 H2] Hk. generalize (mu_between mu0 w k H2 Hk).
  assert (0 < Rmin 1 mu0) by (apply Rmin_glb_lt; lra). lra.
Qed.
Lemma mu_lorentz b ks : good_b b -> (forall k, In k ks -> 0 <= k) -> mu b ks = map (fun k => Fin (mu_val b k)) ks.
Proof.
  intros Hb Hk. unfold mu. apply map_ext_in. intros k Hin. destruct b as [[mu0 w]|]; [|reflexivity].
  cbn [mu_val]. apply mu1_spec; [apply Hb|now apply Hk].
Qed.
Lemma has_lorentz e b : Forall physical e -> good_b b -> has (Lorentz e b) (eps_spec e) (mu_val b).
Proof.
  intros He Hb. split; [|split; [|reflexivity]].
  - intros ks Hk. split.
    + unfold eps_of. cbn [eps_x of_res obind]. rewrite epsilon_elementwise.
      rewrite (map_ext_in _ (fun k => Fin (eps_spec e k))); [apply fins_map|]. intros k Hin. apply epsilon1_spec; [assumption|now apply Hk].
    + unfold mu_of. cbn [mu_x of_res obind]. rewrite mu_lorentz; [apply fins_map|assumption|]. intros k Hin. left. now apply Hk.
  - intros k Hk. split; [generalize (eps_ge_1 e k He Hk); lra|apply mu_val_pos; [assumption|lra]].
Qed.
Lemma has_smith o b : physical o -> good_b b -> has (Smith [o] b) (smith_spec o) (mu_val b).
Proof.
  intros He Hb. split; [|split; [|reflexivity]].
  - intros ks Hk. split.
    + unfold eps_of. cbn [eps_x epsilon_smith of_res obind].
      rewrite (map_ext_in _ (fun k => Fin (smith_spec o k))); [apply fins_map|]. intros k Hin. apply smith1_fin; [assumption|now apply Hk].
    + unfold mu_of. cbn [mu_x mu_smith of_res obind]. rewrite mu_lorentz; [apply fins_map|assumption|]. intros k Hin. left. now apply Hk.
  - intros k Hk. split; [generalize (smith_ge_1 o k He Hk); lra|apply mu_val_pos; [assumption|lra]].
Qed.

(** ** Fresnel coefficients *)
Section Fresnel.
  Context (eP uP eM uM q k : R) (HeP : 0 < eP) (HuP : 0 < uP) (HeM : 0 < eM) (HuM : 0 < uM) (Hq : 0 <= q) (Hk : 0 <= k) (Hqk : 0 < q + k).
  Definition sq (e u : R) : R := sqrt (q ^ 2 + (k * sqrt (e * u)) ^ 2).
  Lemma sq_arg e u : 0 < e -> 0 < u -> q ^ 2 + (k * sqrt (e * u)) ^ 2 = q ^ 2 + k ^ 2 * (e * u).
  Proof. intros He Hu. rewrite Rpow_mult_distr. rewrite <- Rsqr_pow2 with (x := sqrt (e * u)), Rsqr_sqrt; [reflexivity|]. left. now apply Rmult_lt_0_compat. Qed.
  Lemma sq_pos e u : 0 < e -> 0 < u -> 0 < sq e u.
  Proof.
    intros He Hu. unfold sq. rewrite sq_arg by assumption. apply sqrt_lt_R0.
    assert (0 < e * u) by (now apply Rmult_lt_0_compat). assert (0 <= q ^ 2) by apply pow2_ge_0. assert (0 <= k ^ 2 * (e * u)) by (apply Rmult_le_pos; [apply pow2_ge_0|lra]).
    destruct (Rle_lt_or_eq_dec 0 q Hq) as [L| <-].
    - assert (0 < q ^ 2) by (now apply pow_lt). lra.
    - assert (0 < k ^ 2 * (e * u)) by (apply Rmult_lt_0_compat; [apply pow_lt; lra|assumption]). lra.
  Qed.
  Lemma frac_bound a b : 0 < a -> 0 < b -> Rabs ((a - b) / (a + b)) < 1.
  Proof.
    intros Ha Hb. apply Rabs_def1.
    - apply Rmult_lt_reg_r with (a + b); [lra|]. unfold Rdiv. rewrite Rmult_assoc, Rinv_l by lra. lra.
    - apply Rmult_lt_reg_r with (a + b); [lra|]. unfold Rdiv. rewrite Rmult_assoc, Rinv_l by lra. lra.
  Qed.
  Lemma fresnel_bounds : Rabs (fst (fresnel1 eP uP eM uM q k)) < 1 /\ Rabs (snd (fresnel1 eP uP eM uM q k)) < 1.
  Proof.
    unfold fresnel1. cbn [fst snd]. fold (sq eM uM) (sq eP uP). generalize (sq_pos eM uM HeM HuM) (sq_pos eP uP HeP HuP). intros.
    split; apply frac_bound; now apply Rmult_lt_0_compat.
  Qed.
  Lemma fresnel_antisym : fst (fresnel1 eM uM eP uP q k) = - fst (fresnel1 eP uP eM uM q k) /\ snd (fresnel1 eM uM eP uP q k) = - snd (fresnel1 eP uP eM uM q k).
  Proof.
    unfold fresnel1. cbn [fst snd]. fold (sq eM uM) (sq eP uP). generalize (sq_pos eM uM HeM HuM) (sq_pos eP uP HeP HuP). intros A B.
    assert (0 < uP * sq eM uM) by (now apply Rmult_lt_0_compat). assert (0 < uM * sq eP uP) by (now apply Rmult_lt_0_compat).
    assert (0 < eP * sq eM uM) by (now apply Rmult_lt_0_compat). assert (0 < eM * sq eP uP) by (now apply Rmult_lt_0_compat).
    split; field; lra.
  Qed.
  Lemma fresnel_equal : fresnel1 eP uP eP uP q k = (0, 0).
  Proof. unfold fresnel1. f_equal; unfold Rdiv; rewrite Rminus_eq_0; ring. Qed.
End Fresnel.
Lemma fresnel_denser eP eM q k : 0 < eM < eP -> 0 <= q -> 0 < k -> fst (fresnel1 eP 1 eM 1 q k) < 0 < snd (fresnel1 eP 1 eM 1 q k).
Proof.
  intros He Hq Hk. assert (HP : 0 < eP) by lra. assert (HM : 0 < eM) by lra. assert (Hqk : 0 < q + k) by lra. assert (Hk' : 0 <= k) by lra.
  unfold fresnel1. cbn [fst snd]. fold (sq q k eM 1) (sq q k eP 1).
  generalize (sq_pos q k Hq Hqk eM 1 HM Rlt_0_1) (sq_pos q k Hq Hqk eP 1 HP Rlt_0_1). intros A B.
  assert (L : sq q k eM 1 < sq q k eP 1).
  { unfold sq. rewrite !sq_arg by lra. apply sqrt_lt_1.
    - assert (0 <= k ^ 2 * (eM * 1)) by (apply Rmult_le_pos; [apply pow2_ge_0|lra]). generalize (pow2_ge_0 q). lra.
    - assert (0 <= k ^ 2 * (eP * 1)) by (apply Rmult_le_pos; [apply pow2_ge_0|lra]). generalize (pow2_ge_0 q). lra.
    - apply Rplus_lt_compat_l. apply Rmult_lt_compat_l; [now apply pow_lt|lra]. }
  (* eM * sqP < eP * sqM since sqP/eP decreases *)
  assert (M : eM * sq q k eP 1 < eP * sq q k eM 1).
  { apply Rsqr_incrst_0; [|apply Rmult_le_pos; lra|apply Rmult_le_pos; lra]. rewrite !Rsqr_mult. unfold sq. rewrite !sq_arg by lra.
    assert (NP : 0 <= q ^ 2 + k ^ 2 * (eP * 1)) by (generalize (pow2_ge_0 q) (Rmult_le_pos (k ^ 2) (eP * 1) (pow2_ge_0 k) ltac:(lra)); lra).
    assert (NM : 0 <= q ^ 2 + k ^ 2 * (eM * 1)) by (generalize (pow2_ge_0 q) (Rmult_le_pos (k ^ 2) (eM * 1) (pow2_ge_0 k) ltac:(lra)); lra).
    rewrite !Rsqr_sqrt by assumption. unfold Rsqr. rewrite !Rmult_1_r.
    assert (Q : eM * eM * q ^ 2 <= eP * eP * q ^ 2) by (apply Rmult_le_compat_r; [apply pow2_ge_0|apply Rmult_le_compat; lra]).
    assert (K : eM * eM * (k ^ 2 * eP) < eP * eP * (k ^ 2 * eM)).
    { replace (eM * eM * (k ^ 2 * eP)) with (k ^ 2 * eP * eM * eM) by ring. replace (eP * eP * (k ^ 2 * eM)) with (k ^ 2 * eP * eM * eP) by ring.
      apply Rmult_lt_compat_l; [|lra]. apply Rmult_lt_0_compat; [apply Rmult_lt_0_compat; [now apply pow_lt|lra]|lra]. }
    lra. }
  rewrite !Rmult_1_l. split.
  - apply Rmult_lt_reg_r with (sq q k eM 1 + sq q k eP 1); [lra|]. unfold Rdiv. rewrite Rmult_assoc, Rinv_l by lra. lra.
  - apply Rdiv_lt_0_compat; [lra|]. apply Rplus_lt_0_compat; apply Rmult_lt_0_compat; lra.
Qed.
(** the perfect conductor values are the limits of infinite permittivity *)
Lemma fresnel_pec_limit uP eM uM q k : 0 < uP -> 0 < eM -> 0 < uM -> 0 <= q -> 0 < k ->
  is_lim (fun eP => fst (fresnel1 eP uP eM uM q k)) p_infty (-1) /\ is_lim (fun eP => snd (fresnel1 eP uP eM uM q k)) p_infty 1.
Proof.
  intros HuP HeM HuM Hq Hk. assert (Hqk : 0 < q + k) by lra. assert (Hk' : 0 <= k) by lra.
  generalize (sq_pos q k Hq Hqk eM uM HeM HuM). set (s := sq q k eM uM). intros Hs.
  assert (LS : is_lim (fun eP => sq q k eP uP) p_infty p_infty).
  { apply is_lim_spec. intros M. exists (Rmax 1 (M ^ 2 / (k ^ 2 * uP) + 1)). intros e He.
    assert (H1 : 1 < e) by (eapply Rle_lt_trans; [apply Rmax_l|exact He]). assert (H2 : M ^ 2 / (k ^ 2 * uP) + 1 < e) by (eapply Rle_lt_trans; [apply Rmax_r|exact He]).
    unfold sq. rewrite sq_arg by lra. destruct (Rle_lt_dec M 0) as [L|L].
    - apply Rle_lt_trans with 0; [assumption|]. apply sqrt_lt_R0. assert (0 < k ^ 2 * (e * uP)) by (apply Rmult_lt_0_compat; [now apply pow_lt|apply Rmult_lt_0_compat; lra]). generalize (pow2_ge_0 q). lra.
    - assert (P : 0 < k ^ 2 * uP) by (apply Rmult_lt_0_compat; [now apply pow_lt|assumption]).
      rewrite <- (sqrt_pow2 M) at 1 by lra. apply sqrt_lt_1_alt. split; [apply pow2_ge_0|].
      assert (M ^ 2 < e * (k ^ 2 * uP)).
      { apply Rmult_lt_reg_r with (/ (k ^ 2 * uP)); [now apply Rinv_0_lt_compat|]. rewrite (Rmult_assoc e), Rinv_r by lra. unfold Rdiv in H2. lra. }
      generalize (pow2_ge_0 q). lra. }
  assert (LI : is_lim (fun eP => / sq q k eP uP) p_infty 0).
  { apply (is_lim_inv (fun eP => sq q k eP uP) p_infty p_infty LS). discriminate. }
  assert (LE : is_lim (fun eP => sq q k eP uP / eP) p_infty 0).
  { (* sq^2/e^2 = q^2/e^2 + k^2 u/e *)
    assert (L2 : is_lim (fun eP => sqrt (q ^ 2 * (/ eP * / eP) + k ^ 2 * uP * / eP)) p_infty 0).
    { rewrite <- sqrt_0. apply is_lim_comp_continuous; [|apply continuity_pt_filterlim, continuity_pt_sqrt; lra].
      assert (I : is_lim (fun eP => / eP) p_infty 0) by (apply (is_lim_inv (fun e => e) p_infty p_infty); [apply is_lim_id|discriminate]).
      replace 0 with (q ^ 2 * (0 * 0) + k ^ 2 * uP * 0) by ring.
      apply (is_lim_plus _ _ _ (q ^ 2 * (0 * 0)) (k ^ 2 * uP * 0)); [| |reflexivity].
      - apply (is_lim_scal_l _ (q ^ 2) p_infty (0 * 0)). now apply (is_lim_mult _ _ p_infty 0 0).
      - now apply (is_lim_scal_l _ (k ^ 2 * uP) p_infty 0). }
    apply is_lim_ext_loc with (2 := L2). exists 0. intros e He. unfold sq. rewrite sq_arg by lra.
    assert (IP : 0 < / e) by (now apply Rinv_0_lt_compat). assert (0 < e * uP) by (now apply Rmult_lt_0_compat).
    replace (q ^ 2 * (/ e * / e) + k ^ 2 * uP * / e) with ((q ^ 2 + k ^ 2 * (e * uP)) * (/ e) ^ 2) by (field; lra).
    rewrite sqrt_mult_alt, sqrt_pow2; [reflexivity|lra|]. generalize (pow2_ge_0 q) (Rmult_le_pos (k ^ 2) (e * uP) (pow2_ge_0 k) ltac:(lra)). lra. }
  split.
  - apply is_lim_ext_loc with (f := fun eP => (uP * s * / sq q k eP uP - uM) * / (uP * s * / sq q k eP uP + uM)).
    + exists 0. intros e He. unfold fresnel1. cbn [fst]. fold (sq q k eM uM) (sq q k e uP). fold s.
      generalize (sq_pos q k Hq Hqk e uP He HuP). intros P. assert (0 < uP * s) by (now apply Rmult_lt_0_compat). assert (0 < uM * sq q k e uP) by (now apply Rmult_lt_0_compat). field. split; lra.
    + replace (-1) with ((uP * s * 0 - uM) * / (uP * s * 0 + uM)) by (field; lra).
      assert (B : is_lim (fun eP => uP * s * / sq q k eP uP) p_infty (uP * s * 0)) by (now apply (is_lim_scal_l _ (uP * s) p_infty 0)).
      apply (is_lim_mult _ _ p_infty (uP * s * 0 - uM) (/ (uP * s * 0 + uM))); [| |exact I].
      * apply (is_lim_minus _ _ p_infty (uP * s * 0) uM); [exact B|apply is_lim_const|reflexivity].
      * apply (is_lim_inv _ p_infty (uP * s * 0 + uM)); [|intros E; injection E; lra].
        apply (is_lim_plus _ _ p_infty (uP * s * 0) uM); [exact B|apply is_lim_const|reflexivity].
  - apply is_lim_ext_loc with (f := fun eP => (s - eM * (sq q k eP uP / eP)) * / (s + eM * (sq q k eP uP / eP))).
    + exists 0. intros e He. unfold fresnel1. cbn [snd]. fold (sq q k eM uM) (sq q k e uP). fold s.
      generalize (sq_pos q k Hq Hqk e uP He HuP). intros P. assert (0 < e * s) by (now apply Rmult_lt_0_compat). assert (0 < eM * sq q k e uP) by (now apply Rmult_lt_0_compat). field. split; lra.
    + replace 1 with ((s - eM * 0) * / (s + eM * 0)) by (field; lra).
      assert (B : is_lim (fun eP => eM * (sq q k eP uP / eP)) p_infty (eM * 0)) by (now apply (is_lim_scal_l _ eM p_infty 0)).
      apply (is_lim_mult _ _ p_infty (s - eM * 0) (/ (s + eM * 0))); [| |exact I].
      * apply (is_lim_minus _ _ p_infty s (eM * 0)); [apply is_lim_const|exact B|reflexivity].
      * apply (is_lim_inv _ p_infty (s + eM * 0)); [|intros E; injection E; lra].
        apply (is_lim_plus _ _ p_infty s (eM * 0)); [apply is_lim_const|exact B|reflexivity].
Qed.
