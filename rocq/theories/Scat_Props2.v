(** * Zero-frequency scattering coefficients *)
From Coq Require Import Reals.
From Coquelicot Require Import Coquelicot.
From Coq Require Import ZArith List Lia Lra.
From Verif Require Import Base Mat_Model Mat_Spec Mat_Proofs Help_Model Help_Spec Bessel_Model Bessel_Spec Bessel_Proofs Scat_Model Scat_Spec Scat_Proofs Scat_Proofs2 Scat_Proofs7 Scat_Proofs8 Scat_Proofs9 Scat_Proofs10.
From Verif Require Bessel_Props.
Import ListNotations.
Open Scope R_scope.

(** C41.  mie_k0: for every insulating medium and every perfectly conducting, insulating (dielectric and magnetic) or
    Drude sphere, all radii and orders, the three returned rows hold the limits k -> 0 of the finite-frequency
    coefficients (exact Bessel functions, C40) divided by (n k r)^(2l+1). *)
Theorem C41_static_exterior :
  forall (m1 m2 : material) (e2 : list osc) (b2 : bprops) (l0 lmax : nat) (r : R), 0 < r -> (l0 <= lmax)%nat -> insulator m2 e2 b2 ->
  (m1 = PEC \/ (exists e1 b1, insulator m1 e1 b1) \/ (exists e1 b1, drude m1 e1 b1)) ->
  exists te tm cm, mie_k0 m1 m2 l0 lmax r = Val (te, tm, cm) /\
    static_limits TE l0 lmax r m1 m2 (refr (eps_spec e2) (mu_val b2)) te cm /\ static_limits TM l0 lmax r m1 m2 (refr (eps_spec e2) (mu_val b2)) tm cm.
Proof.
  intros m1 m2 e2 b2 l0 lmax r Hr Hl H2 [->|[[e1 [b1 H1]]|[e1 [b1 H1]]]].
  - destruct (mie_k0_pec l0 lmax r Hr Hl m2 e2 b2 H2) as [te [tm [cm [E [A [B [C [T1 T2]]]]]]]]. exists te, tm, cm. repeat split; assumption.
  - destruct (mie_k0_insulator l0 lmax r Hr Hl m2 e2 b2 H2 m1 e1 b1 H1) as [te [tm [cm [E [A [B [C [T1 T2]]]]]]]]. exists te, tm, cm. repeat split; assumption.
  - destruct (mie_k0_drude l0 lmax r Hr Hl m2 e2 b2 H2 m1 e1 b1 H1) as [te [tm [cm [E [A [B [C [T1 T2]]]]]]]]. exists te, tm, cm. repeat split; assumption.
Qed.
Print Assumptions C41_static_exterior.

Lemma plasma_te_mono mu w l f g : 0 < mu -> 0 < w -> 0 < - INR l + w * f -> f < g -> plasma_te 1 mu w l f < plasma_te 1 mu w l g < 1.
Proof.
  intros Hm Hw Hf Hfg. unfold plasma_te. assert (HL := pos_INR l). set (a := - INR l + w * f) in *. set (b := - INR l + w * g).
  assert (Hab : a < b) by (unfold a, b; nra). clearbody a b.
  assert (E : forall t, 0 < t -> (mu * t - 1 * (INR l + 1)) / (1 * INR l + mu * t) = 1 - (2 * INR l + 1) / (INR l + mu * t)) by (intros t Ht; field; nra).
  rewrite !E by lra. assert (Ma : 0 < INR l + mu * a) by nra. assert (Mb : INR l + mu * a < INR l + mu * b) by nra.
  assert (I1 : / (INR l + mu * b) < / (INR l + mu * a)) by (apply Rinv_lt_contravar; [apply Rmult_lt_0_compat; lra|assumption]).
  assert (I2 : 0 < / (INR l + mu * b)) by (apply Rinv_0_lt_compat; lra). unfold Rdiv. nra.
Qed.
(** plasma spheres (mu = 1 at zero frequency): the TM row is exact; in the TE row the Bessel ratio i_{l-1}/i_l(w),
    w = wP r/c, is replaced by the continued fraction of fixed length, so that the value is above the limit and below
    that of a perfect conductor for every order *)
Theorem C41_static_plasma :
  forall (m1 m2 : material) (o1 : osc) (e1 e2 : list osc) (b1 b2 : bprops) (l0 lmax : nat) (r : R), 0 < r -> (l0 <= lmax)%nat ->
  insulator m2 e2 b2 -> plasma m1 o1 e1 b1 -> mu_val b1 0 = 1 -> let w := o_wP o1 * r / 2.998e14 in
  exists te tm cm, mie_k0 m1 m2 l0 lmax r = Val (te, tm, cm) /\ length te = (lmax - l0)%nat /\
    static_limits TM l0 lmax r m1 m2 (refr (eps_spec e2) (mu_val b2)) tm cm /\
    forall j, (j < lmax - l0)%nat -> let l := S (l0 + j) in
      let approx := plasma_te 1 (mu_val b2 0) w l (cfrac w l (if Rltb 100 w then 140 else 80)) in
      let exact := plasma_te 1 (mu_val b2 0) w l (sph_i (l0 + j) w / sph_i l w) in
      nth j te 0 = sgn l * approx /\
      limit0 (fun k => entry TE (fun ks => mie exact_bessels ks l0 (Z.of_nat lmax) r m1 m2) j k / (k * r * refr (eps_spec e2) (mu_val b2) k) ^ (2 * l + 1))
             (sgn l * exact * exp (nth j cm 0)) /\
      exact < approx < 1.
Proof.
  intros m1 m2 o1 e1 e2 b1 b2 l0 lmax r Hr Hl H2 H1 Hmu w.
  destruct (mie_k0_plasma l0 lmax r Hr Hl m2 e2 b2 H2 m1 o1 e1 b1 H1 Hmu) as [te [tm [cm [E [A [B [C [T1 T2]]]]]]]].
  assert (Ew : o_wP o1 * r / omega_norm = w) by (unfold w, omega_norm; lra). rewrite Ew in T2.
  assert (W : 0 < w). { rewrite <- Ew. apply Rdiv_lt_0_compat; [apply Rmult_lt_0_compat; [apply H1|assumption]|apply omega_norm_pos]. }
  exists te, tm, cm. split; [exact E|]. split; [exact A|]. split; [repeat split; assumption|].
  intros j Hj l approx exact. destruct (T2 j Hj) as [U V]. split; [exact U|]. split; [exact V|].
  assert (D := DI_pos (l0 + j) w W). rewrite DIE in D by assumption. assert (HL := pos_INR (l0 + j)).
  apply plasma_te_mono; [apply mu_val_pos; [apply H2|lra]|assumption|unfold l; lra|].
  destruct (Rltb 100 w); [apply (Bessel_Props.C26_fraction_brackets (l0 + j) 140 w W)|apply (Bessel_Props.C26_fraction_brackets (l0 + j) 80 w W)]; (lia || reflexivity).
Qed.
Print Assumptions C41_static_plasma.

(** mie_internal_k0: the same for reflection inside an insulating sphere *)
Theorem C41_static_interior :
  forall (m1 m2 : material) (e1 : list osc) (b1 : bprops) (l0 lmax : nat) (r : R), 0 < r -> (l0 <= lmax)%nat -> insulator m1 e1 b1 ->
  (m2 = PEC \/ (exists e2 b2, insulator m2 e2 b2) \/ (exists e2 b2, drude m2 e2 b2)) ->
  exists te tm cm, mie_internal_k0 m1 m2 l0 lmax r = Val (te, tm, cm) /\
    static_limits_int TE l0 lmax r m1 m2 (refr (eps_spec e1) (mu_val b1)) te cm /\ static_limits_int TM l0 lmax r m1 m2 (refr (eps_spec e1) (mu_val b1)) tm cm.
Proof.
  intros m1 m2 e1 b1 l0 lmax r Hr Hl H1 [->|[[e2 [b2 H2]]|[e2 [b2 H2]]]].
  - destruct (mie_int_k0_pec l0 lmax r Hr Hl m1 e1 b1 H1) as [te [tm [cm [E [A [B [C [T1 T2]]]]]]]]. exists te, tm, cm. repeat split; assumption.
  - destruct (mie_int_k0_insulator l0 lmax r Hr Hl m1 e1 b1 H1 m2 e2 b2 H2) as [te [tm [cm [E [A [B [C [T1 T2]]]]]]]]. exists te, tm, cm. repeat split; assumption.
  - destruct (mie_int_k0_drude l0 lmax r Hr Hl m1 e1 b1 H1 m2 e2 b2 H2) as [te [tm [cm [E [A [B [C [T1 T2]]]]]]]]. exists te, tm, cm. repeat split; assumption.
Qed.
Print Assumptions C41_static_interior.

(** plasma exteriors: the TM row is right, but a TE entry is the limit only if w happens to equal 2l-1 (the code
    divides by 2l-1 once too often); with a first order above 1 the call raises ValueError *)
Theorem C41_static_plasma_exterior_refuted :
  forall (m1 m2 : material) (o2 : osc) (e1 e2 : list osc) (b1 b2 : bprops) (lmax : nat) (r : R), 0 < r ->
  insulator m1 e1 b1 -> plasma m2 o2 e2 b2 -> mu_val b2 0 = 1 -> let w := o_wP o2 * r / 2.998e14 in let n1 := refr (eps_spec e1) (mu_val b1) in
  (exists te tm cm, mie_internal_k0 m1 m2 0 lmax r = Val (te, tm, cm) /\ length te = lmax /\ static_limits_int TM 0 lmax r m1 m2 n1 tm cm /\
    forall j, (j < lmax)%nat -> let l := S j in
      let T k := entry TE (fun ks => mie_internal exact_bessels ks 0 (Z.of_nat lmax) r m1 m2) j k * (k * r * n1 k) ^ (2 * l + 1) in
      limit0 T (sgn l * plasma_te_int (mu_val b1 0) 1 l (- INR l - w * (sph_k j w / sph_k l w)) * exp (nth j cm 0)) /\
      nth j te 0 = sgn l * plasma_te_int (mu_val b1 0) 1 l (- INR l - w ^ 2 / (2 * INR l - 1) * (sph_k j w / sph_k l w)) /\
      (limit0 T (nth j te 0 * exp (nth j cm 0)) <-> w = 2 * INR l - 1)) /\
  (forall l0, (0 < l0 < lmax)%nat -> mie_internal_k0 m1 m2 l0 lmax r = Exc ValueError).
Proof.
  intros m1 m2 o2 e1 e2 b1 b2 lmax r Hr H1 H2 Hmu w n1. assert (Ew : o_wP o2 * r / omega_norm = w) by (unfold w, omega_norm; lra). split.
  - destruct (mie_int_k0_plasma 0 lmax r Hr (Nat.le_0_l _) m1 e1 b1 H1 m2 o2 e2 b2 H2 Hmu eq_refl) as [te [tm [cm [E [A [B [C [T1 T2]]]]]]]].
    exists te, tm, cm. split; [exact E|]. split; [rewrite A; lia|]. split; [repeat split; assumption|].
    intros j Hj l T. assert (Hj' : (j < lmax - 0)%nat) by lia. destruct (T2 j Hj') as [U V]. rewrite Ew in V. fold l in U, V.
    split; [|split; [exact V|]].
    + assert (Q := plasma_int_true 0 lmax r Hr (Nat.le_0_l _) m1 e1 b1 H1 m2 o2 e2 b2 H2 Hmu j Hj'). cbv zeta in Q. cbn [Nat.add] in Q. rewrite Ew in Q. rewrite U. exact Q.
    + assert (Q := plasma_wrong 0 lmax r Hr (Nat.le_0_l _) m1 e1 b1 H1 m2 o2 e2 b2 H2 Hmu te tm cm eq_refl E j Hj'). cbv zeta in Q. rewrite Ew in Q. exact Q.
  - intros l0 Hl. apply (plasma_raises l0 lmax r Hr ltac:(lia) m1 e1 b1 H1 m2 o2 e2 b2 H2); lia.
Qed.
Print Assumptions C41_static_plasma_exterior_refuted.

(** media with free charges are rejected *)
Theorem C41_conducting_media_rejected :
  forall (m1 m2 : material) (e : list osc) (b : bprops) (l0 lmax : nat) (r : R),
  (drude m2 e b \/ (exists o, plasma m2 o e b) -> mie_k0 m1 m2 l0 lmax r = Exc NotImplementedError) /\
  (drude m1 e b \/ (exists o, plasma m1 o e b) -> (exists v, mu_of m2 [0] = Val v) -> mie_internal_k0 m1 m2 l0 lmax r = Exc NotImplementedError).
Proof.
  intros m1 m2 e b l0 lmax r. split; [apply mie_k0_not_implemented|]. intros H [v V]. exact (mie_int_k0_not_implemented m1 m2 e b l0 lmax r v H V).
Qed.
Print Assumptions C41_conducting_media_rejected.

(** not vacuous: gold (Drude), gold (plasma), water and vacuum are in the classes; the wrong case has w <> 1 *)
Lemma water_insulator : insulator (Lorentz e_Water None) e_Water None.
Proof.
  split; [reflexivity|]. split; [pose proof dielectrics_physical as H; rewrite Forall_forall in H; apply H; now left|]. split; [|exact I].
  unfold e_Water. intros o H. repeat (destruct H as [<-|H]; [cbn [o_wR]; lra|]). destruct H.
Qed.
Lemma vacuum_insulator : insulator (Lorentz [] None) [] None.
Proof. split; [reflexivity|]. split; [constructor|]. split; [intros o []|exact I]. Qed.
Lemma one_physical a b c : 0 <= a -> 0 <= b -> 0 <= c -> Forall physical [Osc a b c].
Proof. intros. constructor; [repeat split; assumption|constructor]. Qed.
Lemma gold_drude : drude (Lorentz e_Gold None) e_Gold None.
Proof.
  split; [reflexivity|]. unfold e_Gold. split; [apply one_physical; lra|]. split; [eexists; split; [now left|]; cbn [o_wP o_wR]; split; lra|]. split; [|exact I].
  intros o [<-|[]] _ _. cbn [o_g]. lra.
Qed.
Lemma gold_plasma : plasma (Lorentz e_Gold_plasma None) (Osc 1.37e16 0 0) [] None.
Proof.
  split; [reflexivity|]. split; [apply one_physical; lra|]. cbn [o_wP o_wR o_g]. split; [lra|]. split; [reflexivity|]. split; [reflexivity|]. split; [intros o []|exact I].
Qed.
Example C41_example : exists te tm cm, mie_k0 (Lorentz e_Gold None) (Lorentz e_Water None) 0 2 1 = Val (te, tm, cm) /\ length te = 2%nat /\ length tm = 2%nat.
Proof.
  destruct (C41_static_exterior (Lorentz e_Gold None) (Lorentz e_Water None) e_Water None 0 2 1) as [te [tm [cm [E [[A _] [B _]]]]]]; [lra|lia|exact water_insulator|right; right; eexists; eexists; exact gold_drude|].
  exists te, tm, cm. repeat split; assumption.
Qed.
Example C41_example_wrong : exists te tm cm, mie_internal_k0 (Lorentz [] None) (Lorentz e_Gold_plasma None) 0 1 1 = Val (te, tm, cm) /\
  ~ static_limits_int TE 0 1 1 (Lorentz [] None) (Lorentz e_Gold_plasma None) (refr (eps_spec []) (mu_val None)) te cm.
Proof.
  destruct (C41_static_plasma_exterior_refuted (Lorentz [] None) (Lorentz e_Gold_plasma None) (Osc 1.37e16 0 0) [] [] None None 1 1) as [[te [tm [cm [E [_ [_ H]]]]]] _];
    [lra|exact vacuum_insulator|exact gold_plasma|reflexivity|].
  exists te, tm, cm. split; [exact E|]. intros [_ [_ K]]. specialize (K 0%nat ltac:(lia)). destruct (H 0%nat ltac:(lia)) as [_ [_ Q]].
  cbv zeta in Q. cbn [Nat.add] in K. apply Q in K. cbn [o_wP] in K. cbn [INR] in K. lra.
Qed.
