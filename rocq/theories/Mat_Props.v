(** * Properties C34-C37: CasimirRio/materials.py *)
From Coquelicot Require Import Coquelicot.
From Coq Require Import Bool Reals List ZArith Lia Lra Permutation.
From Verif Require Import Base Mat_Model Mat_Spec Mat_Proofs.
Import ListNotations.
Open Scope R_scope.

(** C34.  The array method returns the textbook permittivity for every element, which is >= 1,
    non-increasing (strictly if any oscillator has nonzero strength), and tends to 1. *)
Theorem C34_epsilon_elementwise :
  forall e ks, Forall physical e -> Forall (fun k => 0 < k) ks ->
  epsilon e ks = map (fun k => Fin (eps_spec e k)) ks.
Proof.
  intros e ks He Hk. rewrite epsilon_elementwise. apply map_ext_in. intros k Hin.
  apply epsilon1_spec; [assumption|]. rewrite Forall_forall in Hk. now apply Hk.
Qed.
Print Assumptions C34_epsilon_elementwise.

Theorem C34_epsilon_float :
  forall e k, Forall physical e -> 0 < k -> epsilon_float e k = Ok (eps_spec e k).
Proof. exact epsilon_float_spec. Qed.
Print Assumptions C34_epsilon_float.

Theorem C34_epsilon_at_least_one :
  forall e k, Forall physical e -> 0 < k -> 1 <= eps_spec e k.
Proof. exact eps_ge_1. Qed.
Print Assumptions C34_epsilon_at_least_one.

Theorem C34_epsilon_nonincreasing :
  forall e k k', Forall physical e -> 0 < k -> k <= k' -> eps_spec e k' <= eps_spec e k.
Proof. exact eps_anti. Qed.
Print Assumptions C34_epsilon_nonincreasing.

Theorem C34_epsilon_decreasing :
  forall e k k', Forall physical e -> (exists o, In o e /\ o_wP o <> 0) -> 0 < k -> k < k' ->
  eps_spec e k' < eps_spec e k.
Proof. exact eps_strict. Qed.
Print Assumptions C34_epsilon_decreasing.

Theorem C34_epsilon_high_frequency :
  forall e, Forall physical e -> is_lim (eps_spec e) p_infty 1.
Proof. exact eps_limit. Qed.
Print Assumptions C34_epsilon_high_frequency.

Theorem C34_epsilon_additive :
  forall e1 e2 k, eps_spec (e1 ++ e2) k - 1 = (eps_spec e1 k - 1) + (eps_spec e2 k - 1).
Proof. exact eps_app. Qed.
Print Assumptions C34_epsilon_additive.

Theorem C34_epsilon_order_independent :
  forall e1 e2 k, Permutation e1 e2 -> eps_spec e1 k = eps_spec e2 k.
Proof. exact eps_perm. Qed.
Print Assumptions C34_epsilon_order_independent.

(** Smith's Drude model: one oscillator exactly *)
Theorem C34_smith :
  forall o ks, physical o -> Forall (fun k => 0 < k) ks ->
  epsilon_smith [o] ks = Ok (map (fun k => Fin (smith_spec o k)) ks) /\
  (forall k, 0 < k -> 1 <= smith_spec o k) /\
  (forall k k', 0 < k -> k <= k' -> smith_spec o k' <= smith_spec o k).
Proof.
  intros o ks Ho Hk. split; [|split].
  - cbn [epsilon_smith]. f_equal. apply map_ext_in. intros k Hin. apply smith1_fin; [assumption|].
    rewrite Forall_forall in Hk. now apply Hk.
  - intros. now apply smith_ge_1.
  - intros. now apply smith_anti.
Qed.
Print Assumptions C34_smith.

Theorem C34_smith_assertion :
  forall e ks, length e <> 1%nat -> epsilon_smith e ks = Err AssertionError.
Proof. intros [|o [|o' e]] ks H; cbn in *; congruence || lia || reflexivity. Qed.
Print Assumptions C34_smith_assertion.

Example C34_instance : Forall physical e_Water /\ Forall (fun k => 0 < k) [1; 2.5].
Proof.
  split.
  - pose proof dielectrics_physical as H. rewrite Forall_forall in H. apply H. now left.
  - repeat constructor; lra.
Qed.

(** C35.  The flags describe the static limit. *)
Theorem C35_is_dielectric :
  forall e, Forall physical e ->
  (is_dielectric e = true <-> exists B, forall k, 0 < k < 1 -> eps_spec e k <= B).
Proof. exact dielectric_bounded. Qed.
Print Assumptions C35_is_dielectric.

Theorem C35_is_sigma_finite :
  forall e, Forall physical e ->
  (is_sigma_finite e = true <-> exists B, forall k, 0 < k < 1 -> k * eps_spec e k <= B).
Proof. exact sigma_finite_bounded. Qed.
Print Assumptions C35_is_sigma_finite.

(** value at k = 0: arrays give +infinity exactly for non-dielectrics, floats raise *)
Theorem C35_static_value :
  forall e, Forall physical e -> (forall o, In o e -> o_wP o <> 0) ->
  epsilon1 e 0 = if is_dielectric e then Fin (eps_spec e 0) else PInf.
Proof. exact static_epsilon. Qed.
Print Assumptions C35_static_value.

Theorem C35_static_value_float :
  forall e, Forall physical e ->
  epsilon_float e 0 = if forallb (fun o => negb (Reqb (o_wR o) 0)) e then Ok (eps_spec e 0) else Err ZeroDivisionError.
Proof. exact static_epsilon_float. Qed.
Print Assumptions C35_static_value_float.

Example C35_instance : Forall physical e_Gold /\ Forall physical e_Gold_plasma.
Proof. pose proof metals_physical as H. rewrite Forall_forall in H. split; apply H; cbn; tauto. Qed.

(** C36.  Permeability *)
Theorem C36_mu_none : forall ks, mu None ks = map (fun _ => Fin 1) ks.
Proof. reflexivity. Qed.
Print Assumptions C36_mu_none.

Theorem C36_mu_value :
  forall mu0 w ks, 0 < w -> Forall (fun k => 0 <= k) ks ->
  mu (Some (mu0, w)) ks = map (fun k => Fin (mu_spec mu0 w k)) ks.
Proof.
  intros mu0 w ks Hw Hk. apply map_ext_in. intros k Hin. rewrite Forall_forall in Hk. apply mu1_spec; auto.
Qed.
Print Assumptions C36_mu_value.

Theorem C36_mu_static_and_range :
  forall mu0 w, 0 < w -> mu_spec mu0 w 0 = mu0 /\
  (forall k, 0 <= k -> Rmin 1 mu0 <= mu_spec mu0 w k <= Rmax 1 mu0) /\
  is_lim (mu_spec mu0 w) p_infty 1.
Proof.
  intros mu0 w Hw. split; [apply mu_static|]. split; [intros; now apply mu_between|now apply mu_limit].
Qed.
Print Assumptions C36_mu_static_and_range.

Theorem C36_is_magnetic :
  forall b, is_magnetic b = Some true <-> exists mu0 w, b = Some (mu0, w) /\ mu0 <> 0.
Proof. exact is_magnetic_spec. Qed.
Print Assumptions C36_is_magnetic.

(** an integer k is accepted by LorentzMaterial.mu but not by LorentzSmithMaterial.mu or the
    perfect conductor *)
Theorem C36_mu_integer_argument :
  forall b k, mu_smith b (AInt k) = Err AttributeError /\ mu_pec (AInt k) = Err AttributeError.
Proof. split; reflexivity. Qed.
Print Assumptions C36_mu_integer_argument.

(** C37.  Predefined materials *)
Theorem C37_predefined_materials :
  Forall (fun e => Forall physical e /\ (forall k, 0 < k -> 1 <= eps_spec e k))
         (drude_metals ++ plasma_metals ++ dielectrics).
Proof.
  apply Forall_forall. intros e He. assert (HP : Forall physical e).
  { rewrite app_assoc in He. apply in_app_or in He. destruct He as [He|He].
    - pose proof metals_physical as H. rewrite Forall_forall in H. now apply H.
    - pose proof dielectrics_physical as H. rewrite Forall_forall in H. now apply H. }
  split; [assumption|]. intros. now apply eps_ge_1.
Qed.
Print Assumptions C37_predefined_materials.

(** Drude metals: finite static conductivity; plasma metals: infinite; the rest: dielectrics. *)
Theorem C37_flags :
  Forall (fun e => is_sigma_finite e = true /\ is_dielectric e = false) drude_metals /\
  Forall (fun e => is_sigma_finite e = false /\ is_dielectric e = false) plasma_metals /\
  Forall (fun e => is_sigma_finite e = true /\ is_dielectric e = true) dielectrics.
Proof. split; [exact drude_flags|]. split; [exact plasma_flags|exact dielectric_flags]. Qed.
Print Assumptions C37_flags.
