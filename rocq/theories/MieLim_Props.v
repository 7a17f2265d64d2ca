(** * C96: limits of the Mie coefficients beyond the static one *)
From Coq Require Import Reals.
From Coquelicot Require Import Coquelicot.
From Coq Require Import ZArith List Lia Lra.
From Verif Require Import Base Mat_Model Mat_Spec Mat_Proofs Help_Model Help_Spec Help_Proofs Bessel_Model Bessel_Spec Bessel_Proofs Bessel_Proofs2 Scat_Model Scat_Spec Scat_Proofs Scat_Proofs2 Scat_Proofs4 Scat_Proofs7 Scat_Proofs8 Scat_Proofs9 Scat_Props Scat_Props2 MieLim_Spec MieLim_Proofs MieLim_Proofs2.
Import ListNotations.
Open Scope R_scope.

Lemma weight_pos l : 0 < weight l.
Proof. unfold weight. generalize (pos_INR l) (odd_dfact_pos l). intros. repeat apply Rmult_lt_0_compat; try (now apply pow_lt); lra. Qed.

(** non-magnetic spheres (insulators or damped metals) in non-magnetic insulators: T_l^TE is of the order
    (kr)^2 (eps1 - eps2) (n2 k r)^(2l+1) *)
Theorem C96_magnetic_response :
  forall (m1 m2 : material) (e1 e2 : list osc) (l0 lmax j : nat) (r : R), 0 < r -> (j < lmax - l0)%nat ->
  insulator m1 e1 None \/ drude m1 e1 None -> insulator m2 e2 None ->
  let l := S (l0 + j) in
  exists g, limit0 g (sgn l / weight l) /\
    forall k, 0 < k -> entry TE (fun ks => mie exact_bessels ks l0 (Z.of_nat lmax) r m1 m2) j k =
      g k * ((k * r) ^ 2 * (eps_spec e1 k - eps_spec e2 k)) * (k * r * sqrt (eps_spec e2 k)) ^ (2 * l + 1).
Proof.
  intros m1 m2 e1 e2 l0 lmax j r Hr Hj H1 H2 l.
  assert (X1 : to0 (fun k => refr (eps_spec e1) (mu_val None) k * k * r) /\ has m1 (eps_spec e1) (mu_val None)).
  { destruct H1 as [H1|H1].
    - destruct (insulator_flags _ _ _ H1) as [_ [_ [_ [Gb Gh]]]]. destruct H1 as [_ [HP [HN _]]]. destruct (insulator_arg e1 None r Hr HP HN Gb) as [X _]. now split.
    - destruct (drude_flags _ _ _ H1) as [_ [_ [_ [Gb Gh]]]]. destruct H1 as [_ [HP [_ [HN _]]]]. split; [exact (drude_arg e1 None r Hr HP HN Gb)|exact Gh]. }
  destruct X1 as [X1 G1]. destruct (insulator_flags _ _ _ H2) as [_ [_ [_ [Gb G2]]]]. destruct H2 as [_ [HP [HN _]]]. destruct (insulator_arg e2 None r Hr HP HN Gb) as [X2 _].
  assert (N2 : forall k, 0 < k -> 0 < refr (eps_spec e2) (mu_val None) k). { intros k Hk. destruct G2 as [_ [Q _]]. destruct (Q k Hk). now apply refr_pos. }
  destruct (ext_equal_p (l0 + j) _ _ r Hr X1 X2 N2) as [g [Lg Eg]]. exists g. split.
  - apply lim0_eq with (sgn (S (l0 + j)) / (cw (S (l0 + j)) * (2 * INR (l0 + j) + 3) * (2 * INR (l0 + j) + 5))); [|exact Lg].
    unfold l, weight, cw. f_equal. rewrite S_INR. ring.
  - intros k Hk. destruct (entry_ext l0 lmax r Hr ltac:(lia) m1 m2 _ _ _ _ j k G1 G2 Hj Hk) as [-> _]. cbn [mu_val]. rewrite (Eg k Hk). fold l.
    assert (R1 : forall e, Forall physical e \/ True -> refr (eps_spec e) (mu_val None) k = sqrt (eps_spec e k)) by (intros; unfold refr; cbn [mu_val]; now rewrite Rmult_1_r).
    destruct G1 as [_ [Q1 _]]. destruct (Q1 k Hk) as [P1 _]. destruct G2 as [_ [Q2 _]]. destruct (Q2 k Hk) as [P2 _].
    rewrite !R1 by (now right). rewrite !pow2_sqrt by lra. reflexivity.
Qed.
Print Assumptions C96_magnetic_response.

(** two insulators: the coefficient of k^(2l+3) *)
Theorem C96_magnetic_dielectric :
  forall (m1 m2 : material) (e1 e2 : list osc) (l0 lmax j : nat) (r : R), 0 < r -> (j < lmax - l0)%nat ->
  insulator m1 e1 None -> insulator m2 e2 None -> let l := S (l0 + j) in
  limit0 (fun k => entry TE (fun ks => mie exact_bessels ks l0 (Z.of_nat lmax) r m1 m2) j k / k ^ (2 * l + 3))
    (sgn l * (eps_spec e1 0 - eps_spec e2 0) * sqrt (eps_spec e2 0) ^ (2 * l + 1) * r ^ (2 * l + 3) / weight l).
Proof.
  intros m1 m2 e1 e2 l0 lmax j r Hr Hj H1 H2 l. destruct (C96_magnetic_response m1 m2 e1 e2 l0 lmax j r Hr Hj (or_introl H1) H2) as [g [Lg Eg]]. fold l in Lg, Eg.
  destruct H1 as [_ [_ [N1 _]]]. destruct H2 as [_ [HP2 [N2 _]]].
  assert (L1 : lim0 (eps_spec e1) (eps_spec e1 0)) by (apply lim0_eps; exact N1). assert (L2 : lim0 (eps_spec e2) (eps_spec e2 0)) by (apply lim0_eps; exact N2).
  assert (P2 : 0 < eps_spec e2 0) by (now apply eps0_pos).
  apply (lim0_ext (fun k => g k * (r ^ 2 * (eps_spec e1 k - eps_spec e2 k)) * (r * sqrt (eps_spec e2 k)) ^ (2 * l + 1))).
  { intros k Hk. rewrite (Eg k Hk). replace (2 * l + 3)%nat with (2 + (2 * l + 1))%nat by lia. rewrite (pow_add k 2). replace (k * r * sqrt (eps_spec e2 k)) with (k * (r * sqrt (eps_spec e2 k))) by ring.
    rewrite (Rpow_mult_distr k (r * _)), (Rpow_mult_distr k r). assert (k ^ (2 * l + 1) <> 0) by (apply pow_nonzero; lra). set (b := (r * sqrt (eps_spec e2 k)) ^ (2 * l + 1)). field. split; [assumption|lra]. }
  apply lim0_eq with (sgn l / weight l * (r ^ 2 * (eps_spec e1 0 - eps_spec e2 0)) * (r * sqrt (eps_spec e2 0)) ^ (2 * l + 1)).
  { rewrite (Rpow_mult_distr r). replace (2 * l + 3)%nat with (2 + (2 * l + 1))%nat by lia. rewrite (pow_add r 2). unfold Rdiv. ring. }
  apply lim0_mult; [apply lim0_mult; [exact Lg|apply lim0_mult; [apply lim0_const|now apply lim0_minus]]|].
  apply lim0_pow, lim0_mult; [apply lim0_const|]. apply (lim0_comp sqrt); [|exact L2]. apply continuity_pt_sqrt. lra.
Qed.
Print Assumptions C96_magnetic_dielectric.

(** the core of a coated sphere vanishes: the solid sphere of the coating remains *)
Theorem C96_vanishing_core :
  forall (ks : list R) (l0 : nat) (lmax : Z) (j q : nat), (forall k, In k ks -> 0 < k) -> (Z.of_nat l0 <= lmax)%Z ->
  (j < Z.to_nat (lmax - Z.of_nat l0))%nat -> (q < length ks)%nat ->
  forall ra m1 m2 m3 e2 u2 e3 u3, 0 < ra -> m1 = PEC \/ (exists e1 u1, has m1 e1 u1) -> has m2 e2 u2 -> has m3 e3 u3 ->
  exists c, mie exact_bessels ks l0 lmax ra m2 m3 = Val c /\
    (forall ri, 0 < ri -> exists d, mie_coated exact_bessels ks l0 lmax ri ra m1 m2 m3 = Val d /\ scale_at d j q = scale_at c j q) /\
    limit0 (fun ri => value te_at (mie_coated exact_bessels ks l0 lmax ri ra m1 m2 m3) j q) (te_at c j q) /\
    limit0 (fun ri => value tm_at (mie_coated exact_bessels ks l0 lmax ri ra m1 m2 m3) j q) (tm_at c j q).
Proof. intros ks l0 lmax j q Hks Hl Hj Hq. exact (core_limit ks l0 lmax Hks Hl j q Hj Hq). Qed.
Print Assumptions C96_vanishing_core.

(** a large permittivity: the coefficients approach those of the perfect conductor *)
Theorem C96_strong_conductor :
  forall (ks : list R) (l0 : nat) (lmax : Z) (j q : nat), (forall k, In k ks -> 0 < k) -> (Z.of_nat l0 <= lmax)%Z ->
  (j < Z.to_nat (lmax - Z.of_nat l0))%nat -> (q < length ks)%nat ->
  forall r m e u nu B, 0 < r -> has m e u -> 0 < nu -> 0 < B ->
  (exists c', mie exact_bessels ks l0 lmax r PEC m = Val c' /\ exists E, forall m1 e1 u1, has m1 e1 u1 -> u1 (nth q ks 0) = nu -> E <= e1 (nth q ks 0) ->
     exists c, mie exact_bessels ks l0 lmax r m1 m = Val c /\ Rabs (TE c j q - TE c' j q) <= B /\ Rabs (TM c j q - TM c' j q) <= B) /\
  (exists c', mie_internal exact_bessels ks l0 lmax r m PEC = Val c' /\ exists E, forall m2 e2 u2, has m2 e2 u2 -> u2 (nth q ks 0) = nu -> E <= e2 (nth q ks 0) ->
     exists c, mie_internal exact_bessels ks l0 lmax r m m2 = Val c /\ Rabs (TE c j q - TE c' j q) <= B /\ Rabs (TM c j q - TM c' j q) <= B).
Proof.
  intros ks l0 lmax j q Hks Hl Hj Hq r m e u nu B Hr H Hn HB. split.
  - exact (conductor_ext ks l0 lmax Hks Hl j q Hj Hq r m e u nu B Hr H Hn HB).
  - exact (conductor_int ks l0 lmax Hks Hl j q Hj Hq r m e u nu B Hr H Hn HB).
Qed.
Print Assumptions C96_strong_conductor.

(** sphere and cavity of the same radius: the coefficients of the perfect conductor are inverse to each other *)
Theorem C96_conductor_inverse :
  forall (ks : list R) (l0 : nat) (lmax : Z) (j q : nat), (forall k, In k ks -> 0 < k) -> (Z.of_nat l0 <= lmax)%Z ->
  (j < Z.to_nat (lmax - Z.of_nat l0))%nat -> (q < length ks)%nat -> forall r m e u, 0 < r -> has m e u ->
  exists c c', mie exact_bessels ks l0 lmax r PEC m = Val c /\ mie_internal exact_bessels ks l0 lmax r m PEC = Val c' /\
    TE c j q * TE c' j q = 1 /\ TM c j q * TM c' j q = 1.
Proof. intros ks l0 lmax j q Hks Hl Hj Hq. exact (pec_product ks l0 lmax Hks Hl j q Hj Hq). Qed.
Print Assumptions C96_conductor_inverse.

(** not vacuous: the expansion of test_mie.py (first order, 1/45); plasma metals of any strength; gold on water *)
Example C96_dipole (r : R) : 0 < r ->
  limit0 (fun k => entry TE (fun ks => mie exact_bessels ks 0 1 r (Lorentz e_Water None) (Lorentz [] None)) 0 k / k ^ 5) ((1 - eps_spec e_Water 0) / 45 * r ^ 5) /\ eps_spec e_Water 0 <> 1.
Proof.
  intros Hr. assert (V : insulator (Lorentz [] None) [] None). { split; [reflexivity|]. split; [constructor|]. split; [|exact I]. intros o []. }
  split.
  - eapply lim0_eq; [|exact (C96_magnetic_dielectric _ _ e_Water [] 0 1 0 r Hr ltac:(lia) water_insulator V)].
    assert (E : eps_spec [] 0 = 1) by (unfold eps_spec; cbn [map fold_right]; ring). rewrite E, sqrt_1, pow1. unfold sgn, weight. cbn [odd_dfact INR Nat.add Nat.mul]. field.
  - assert (P := water_insulator). destruct P as [_ [HP [HN _]]]. assert (G : forall e, Forall physical e -> 0 <= fold_right Rplus 0 (map (fun o => (o_wP o / omega_norm) ^ 2 / ((o_wR o / omega_norm) ^ 2 + 0 ^ 2 + o_g o / omega_norm * 0)) e)).
    { clear. intros e He. induction He as [|o e Ho He IH]; cbn [map fold_right]; [lra|]. apply Rplus_le_le_0_compat; [|exact IH].
      destruct (Req_dec (o_wR o / omega_norm) 0) as [Z|Z].
      - rewrite Z. replace (0 ^ 2 + 0 ^ 2 + o_g o / omega_norm * 0) with 0 by ring. unfold Rdiv. rewrite Rinv_0. lra.
      - apply Rmult_le_pos; [apply pow2_ge_0|]. left. apply Rinv_0_lt_compat. assert (0 < (o_wR o / omega_norm) ^ 2) by (apply pow2_gt_0; exact Z). nra. }
    unfold eps_spec, e_Water in *. set (f := fun o => _) in *. inversion HP as [|o1 l1 Q1 Q2 Eq]. subst. cbn [map fold_right]. specialize (G _ Q2).
    match goal with |- 1 + (f ?o + _) <> 1 => assert (F : 0 < f o) end.
    { unfold f. cbn [o_wP o_wR o_g]. assert (O := omega_norm_pos). apply Rdiv_lt_0_compat.
      - apply pow_lt, Rdiv_lt_0_compat; [lra|exact O].
      - match goal with |- 0 < (?a / omega_norm) ^ 2 + _ + _ => assert (0 < (a / omega_norm) ^ 2) by (apply pow_lt, Rdiv_lt_0_compat; [lra|exact O]) end. nra. }
    apply Rgt_not_eq. cbn [map fold_right] in G. fold f in G |- *. lra.
Qed.
Example C96_plasma (E k : R) : 0 < k -> exists m e u, has m e u /\ u k = 1 /\ E <= e k.
Proof.
  intros Hk. assert (O := omega_norm_pos). set (w := (Rabs E + 1) * k * omega_norm). assert (A := Rabs_pos E).
  assert (W : 0 <= w) by (apply Rmult_le_pos; [apply Rmult_le_pos|]; lra).
  exists (Lorentz [Osc w 0 0] None), (eps_spec [Osc w 0 0]), (mu_val None). split; [|split; [reflexivity|]].
  - apply has_lorentz; [|exact I]. constructor; [|constructor]. repeat split; cbn; lra.
  - unfold eps_spec. cbn [map fold_right o_wP o_wR o_g]. replace ((w / omega_norm) ^ 2 / ((0 / omega_norm) ^ 2 + k ^ 2 + 0 / omega_norm * k)) with ((Rabs E + 1) ^ 2) by (unfold w; field; repeat split; nra || lra).
    generalize (Rle_abs E). nra.
Qed.
