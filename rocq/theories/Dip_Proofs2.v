(** * Dipole polarizabilities as limits of the Mie coefficients *)
From Coq Require Import Reals.
From Coquelicot Require Import Coquelicot.
From Coq Require Import Bool ZArith List Lia Lra.
From Verif Require Import Base Mat_Model Mat_Spec Mat_Proofs Help_Model Help_Spec Help_Proofs Bessel_Model Bessel_Spec
  Scat_Model Scat_Spec Scat_Proofs Scat_Proofs2 Scat_Proofs6 Scat_Proofs7 Scat_Proofs8 Scat_Proofs9 Scat_Proofs10
  Trans_Model Trans_Spec Trans_Proofs Trans_Proofs3 Trans_Proofs4 RT_Spec RT_Proofs Dip_Spec.
Import ListNotations.
Open Scope R_scope.

Lemma pol_lossy m e b pe pm : polarizability e b m pe pm -> 0 < eps_spec e 0 -> 0 < mu_val b 0 ->
  (m = PEC /\ pe = 1 /\ pm = - / 2) \/
  exists e1 u1 ve vu, has m e1 u1 /\ lim_or_inf e1 ve /\ lim_or_inf u1 vu /\ (forall r, 0 < r -> to0 (fun k => refr e1 u1 k * k * r)) /\
    - rlim_ext 0 ve (eps_spec e 0) = 2 * pe /\ - rlim_ext 0 vu (mu_val b 0) = 2 * pm.
Proof.
  intros H He Hu. destruct H as [|m e1 b1 H|m e1 b1 H]; [left; auto|right|right].
  - destruct (insulator_flags _ _ _ H) as [_ [_ [_ [Hb Hh]]]]. destruct H as [_ [HP [HN _]]].
    destruct (insulator_arg e1 b1 1 Rlt_0_1 HP HN Hb) as [_ [L1 [L2 [P1 P2]]]].
    exists (eps_spec e1), (mu_val b1), (Some (eps_spec e1 0)), (Some (mu_val b1 0)). split; [exact Hh|]. split; [split; assumption|]. split; [split; assumption|].
    split; [intros r Hr; now apply insulator_arg|]. cbn [rlim_ext INR]. unfold ratio_ext. split; field; repeat split; lra.
  - destruct (drude_flags _ _ _ H) as [_ [_ [_ [Hb Hh]]]]. destruct H as [_ [HP [HF [HN _]]]].
    assert (P2 : 0 < mu_val b1 0) by (apply mu_val_pos; [assumption|lra]).
    exists (eps_spec e1), (mu_val b1), None, (Some (mu_val b1 0)). split; [exact Hh|]. split; [split; [|now apply lim0_inv_eps]|split; [split; [exact P2|now apply lim0_mu]|split]].
    + intros k Hk. now apply Hh.
    + intros r Hr. now apply drude_arg.
    + cbn [rlim_ext INR]. unfold ratio_ext. split; field; repeat split; lra.
Qed.
Lemma cw_1 : cw 1 = 3.
Proof. unfold cw. cbn [odd_dfact INR]. cbn. lra. Qed.

Lemma mie_dipole m1 m2 e2 b2 r lmax pe pm : 0 < r -> insulator m2 e2 b2 -> polarizability e2 b2 m1 pe pm -> (1 <= lmax)%nat -> let n2 := refr (eps_spec e2) (mu_val b2) in
  forall bes I d, good_bes bes I d -> let F := fun ks => mie bes ks 0 (Z.of_nat lmax) r m1 m2 in
    lim0 (fun k => entry TE F 0 k / (k * r * n2 k) ^ 3) (2 / 3 * pm) /\ lim0 (fun k => entry TM F 0 k / (k * r * n2 k) ^ 3) (2 / 3 * pe).
Proof.
  intros Hr H2 H1 Hj n2 bes I d HB F. assert (Hj0 : (0 < lmax)%nat) by lia. destruct (insulator_flags _ _ _ H2) as [_ [_ [_ [Hb Hh]]]]. destruct H2 as [_ [HP [HN _]]].
  destruct (insulator_arg e2 b2 r Hr HP HN Hb) as [X [L1 [L2 [P1 P2]]]]. assert (SG : sgn 1 = -1) by (unfold sgn; cbn [pow]; ring). destruct (pol_lossy m1 e2 b2 pe pm H1 P1 P2) as [[-> [-> ->]]|[e1 [u1 [ve [vu [Hh1 [Ve [Vu [X1 [Pe Pm]]]]]]]]]].
  - assert (EV := ev_small _ d X (proj1 HB)). split.
    + apply lim0_eq with (sgn 1 * 1 * / cw 1); [rewrite SG, cw_1; field|].
      eapply (lim0_ext_ev _ _ _ _ EV); [|apply (lim_scaled bes I d HB 0 (fun k => n2 k * k * r) (fun _ => 1) 1 X (lim0_const 1))].
      intros k [Hk Hs]. cbv beta. unfold F. destruct (val_pec bes I d HB r lmax 0 Hj0 m2 _ _ k Hh Hk (conj (proj1 X k Hk) Hs)) as [-> _]. fold n2. replace (k * r * n2 k) with (n2 k * k * r) by ring. rewrite Rmult_1_l. reflexivity.
    + apply lim0_eq with (sgn 1 * ((INR 0 + 2) / - (INR 0 + 1)) * / cw 1); [rewrite SG, cw_1; cbn [INR]; field|].
      eapply (lim0_ext_ev _ _ _ _ EV); [|apply (lim_scaled bes I d HB 0 (fun k => n2 k * k * r) (fun k => DB I 0 (n2 k * k * r) / DK 0 (n2 k * k * r)) _ X)].
      * intros k [Hk Hs]. cbv beta. unfold F. destruct (val_pec bes I d HB r lmax 0 Hj0 m2 _ _ k Hh Hk (conj (proj1 X k Hk) Hs)) as [_ ->]. fold n2. replace (k * r * n2 k) with (n2 k * k * r) by ring. change (2 * 1 + 1)%nat with 3%nat. unfold Rdiv. ring.
      * apply lim0_div; [cbn [INR]; lra|apply (lim0_sub _ _ _ X (lim0_DB bes I d HB 0))|apply (lim0_sub _ _ _ X (lim0_DK 0))].
  - assert (EV := filter_and _ _ (ev_small _ d X (proj1 HB)) (ev_small _ d (X1 r Hr) (proj1 HB))). split.
    + apply lim0_eq with (sgn 1 * rlim_ext 0 vu (mu_val b2 0) * / cw 1); [rewrite SG, cw_1; lra|].
      eapply (lim0_ext_ev _ _ _ _ EV); [|apply (lim_scaled bes I d HB 0 (fun k => n2 k * k * r) (fun k => ratio_ext (u1 k) (mu_val b2 k) (DB I 0 (refr e1 u1 k * k * r)) (DB I 0 (n2 k * k * r)) (DK 0 (n2 k * k * r))) _ X)].
      * intros k [[Hk Hs] [_ Hs']]. cbv beta. unfold F. destruct (val_ext bes I d HB r lmax 0 Hj0 m1 m2 _ _ _ _ k Hh1 Hh Hk (conj (proj1 (X1 r Hr) k Hk) Hs') (conj (proj1 X k Hk) Hs)) as [-> _]. fold n2. replace (k * r * n2 k) with (n2 k * k * r) by ring. reflexivity.
      * apply (ratio_lim bes I d); try assumption. now apply X1.
    + apply lim0_eq with (sgn 1 * rlim_ext 0 ve (eps_spec e2 0) * / cw 1); [rewrite SG, cw_1; lra|].
      eapply (lim0_ext_ev _ _ _ _ EV); [|apply (lim_scaled bes I d HB 0 (fun k => n2 k * k * r) (fun k => ratio_ext (e1 k) (eps_spec e2 k) (DB I 0 (refr e1 u1 k * k * r)) (DB I 0 (n2 k * k * r)) (DK 0 (n2 k * k * r))) _ X)].
      * intros k [[Hk Hs] [_ Hs']]. cbv beta. unfold F. destruct (val_ext bes I d HB r lmax 0 Hj0 m1 m2 _ _ _ _ k Hh1 Hh Hk (conj (proj1 (X1 r Hr) k Hk) Hs') (conj (proj1 X k Hk) Hs)) as [_ ->]. fold n2. replace (k * r * n2 k) with (n2 k * k * r) by ring. reflexivity.
      * apply (ratio_lim bes I d); try assumption. now apply X1.
Qed.
