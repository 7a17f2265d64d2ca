(** * C60: without material scales only ratios of lengths matter *)
From Coq Require Import Reals.
From Coq Require Import Bool ZArith List Lia Lra.
From Verif Require Import Base Mat_Model Misc_Model Mat_Spec Bessel_Model Scat_Model Scat_Spec Trans_Model Trans_Spec Lin_Model RT_Model RT_Spec RT_Spec2 RT_Proofs11.
Import ListNotations.
Open Scope R_scope.

(** finite frequencies: lengths times f, wavenumbers divided by f; whatever the Bessel routines do *)
Theorem C60_scale : forall mieb transb f c m ks fuel conv, 0 < f -> (forall k, In k ks -> 0 < k) ->
  made_of c (c_1 c) dispersionless -> made_of c (c_2 c) dispersionless -> dispersionless (c_med c) ->
  rt_lndet mieb transb (scale f c) fuel conv m (map (fun k => k / f) ks) = rt_lndet mieb transb c fuel conv m ks.
Proof. intros. now apply rt_lndet_scale. Qed.
Print Assumptions C60_scale.

(** zero frequency: two perfect reflectors in any medium *)
Theorem C60_static : forall transb f c ra rb m fuel conv, 0 < f -> c_1 c = Solid PEC ra -> c_2 c = Solid PEC rb -> 0 < ra -> 0 < rb -> 0 < c_L c ->
  blockmatrices_k0 transb (scale f c) m = blockmatrices_k0 transb c m /\ single_m_k0 transb (scale f c) fuel conv m = single_m_k0 transb c fuel conv m.
Proof. intros. split; [now apply (k0_scale f H c ra rb)|now apply (single_scale f H c ra rb)]. Qed.
Print Assumptions C60_static.

(** the constructor decides between the geometries by ratios of lengths only *)
Lemma outer_scale f s : outer_radius (scale_sphere f s) = do r <- outer_radius s ; Ok (f * r).
Proof.
  destruct s as [m r|ms rs]; [reflexivity|]. cbn. destruct rs as [|r0 rs]; [reflexivity|]. cbn [map bind]. f_equal.
  change (f * r0 :: map (Rmult f) rs) with (map (Rmult f) (r0 :: rs)). generalize (r0 :: rs). intros l. assert (H : f * 0 = 0) by ring.
  induction l as [|a [|b l] IH]; [cbn; now rewrite H|reflexivity|]. exact IH.
Qed.
Theorem C60_constructor : forall mat s1 s2 med L n n2 f, 0 < f ->
  sphere_sphere mat (scale_sphere f s1) (scale_sphere f s2) med (f * L) n n2 = do c <- sphere_sphere mat s1 s2 med L n n2 ; Ok (scale f c).
Proof.
  intros mat s1 s2 med L n n2 f Hf. unfold sphere_sphere. rewrite !outer_scale. destruct (outer_radius s1) as [r1|]; [|reflexivity]. cbn [bind].
  destruct (outer_radius s2) as [r2|]; [|reflexivity]. cbn [bind]. unfold scale. cbn. f_equal. f_equal.
  destruct (Rltb_spec (f * r1 + f * r2) (f * L)) as [h|h]; destruct (Rltb_spec (r1 + r2) L) as [h'|h']; try reflexivity; exfalso.
  - apply h'. apply (Rmult_lt_reg_l f); [assumption|lra].
  - apply h. rewrite <- Rmult_plus_distr_l. now apply Rmult_lt_compat_l.
Qed.
Print Assumptions C60_constructor.

(** ** Non-vacuity *)
Lemma vacuum_flat : dispersionless (Lorentz [] None).
Proof.
  right. split; [reflexivity|]. exists 1, 1. intros ks H. induction ks as [|k ks IH]; [split; reflexivity|].
  destruct IH as [I1 I2]; [intros; apply H; now right|]. split.
  - revert I1. unfold eps_of, eps_x, epsilon. cbn. destruct (fins _) as [y| |]; try discriminate. cbn. intros E. injection E as ->. unfold xadd. reflexivity.
  - revert I2. unfold mu_of, mu_x, mu. cbn. destruct (fins _) as [y| |]; try discriminate. cbn. intros E. injection E as ->. reflexivity.
Qed.
(** a perfectly reflecting sphere and one with a vacuum layer around a perfectly reflecting core *)
Definition shell_config : config := {| c_1 := Solid PEC 1; c_2 := Layered [0; 1; 1]%nat [1; 2]; c_med := Lorentz [] None; c_L := 4; c_lmax := 3; c_lssmax := 4; c_ext := true;
  c_mat := fun i => if Nat.eqb i 0 then PEC else Lorentz [] None |}.
Example C60_shell : made_of shell_config (c_1 shell_config) dispersionless /\ made_of shell_config (c_2 shell_config) dispersionless /\ dispersionless (c_med shell_config) /\ scale 2 shell_config <> shell_config.
Proof.
  split; [now left|]. split; [|split; [exact vacuum_flat|]].
  - intros i _. cbn. destruct (Nat.eqb i 0); [now left|exact vacuum_flat].
  - intros H. apply (f_equal c_L) in H. cbn in H. lra.
Qed.
