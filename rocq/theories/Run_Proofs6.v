(** * The force flag of the geometry object *)
From Coq Require Import Bool Reals List ZArith Lia Lra.
From Verif Require Import Base Thermo_Model Thermo_Spec Thermo_Proofs Geo_Model Geo_Spec Bessel_Model Scat_Model Scat_Spec Trans_Model Lin_Model RT_Model RT_Spec Run_Model Run_Spec
  Run_Proofs Run_Proofs2 Run_Proofs4.
Import ListNotations.
Open Scope R_scope.

Section Flag.
  Context (unk : exn) (fuel : nat) (mieb : list R -> nat -> Z -> res (list (list R) * list (list R))) (transb : bessel_fun) (c : config).
  Lemma trans_force m ks V s : trans transb c m ks = Val V -> g_force s = true -> s_trans unk transb c m ks s = (s, Err AttributeError).
  Proof.
    intros E Hf. unfold s_trans, mbind, get. rewrite E. cbn [lift ret]. rewrite Hf. revert E. unfold trans, translation_init.
    destruct (existsb _ ks); cbn [obind]; [intros _; reflexivity|]. destruct (trans_arg _ _ _) as [x| |]; cbn [obind]; try discriminate.
    destruct (of_res _) as [b| |]; cbn [obind]; try discriminate. intros _. reflexivity.
  Qed.
  Context (ks : list R) (A B : coefs) (EA : mieA mieb c ks = Val A) (EB : mieB mieb c ks = Val B).
  Lemma elements_force m V s : trans transb c m ks = Val V -> g_force s = true ->
    exists s', s_elements unk mieb transb c m ks s = (s', Err AttributeError) /\ g_force s' = true /\ g_0 s' = g_0 s /\ (sound mieb c (set_flag false s) -> sound mieb c (set_flag false s')).
  Proof.
    intros EV Hf. destruct s as [f K a b z]. cbn in Hf. subst f. unfold s_elements, mbind, get. cbn [g_K].
    destruct (match K with Some k => same_ks k ks | None => false end) eqn:Hh.
    - rewrite (trans_force m ks V) by (assumption || reflexivity). eexists. split; [reflexivity|]. split; [reflexivity|]. split; [reflexivity|]. auto.
    - rewrite EA. cbn. rewrite EB. cbn. unfold put. cbn. rewrite (trans_force m ks V) by (assumption || reflexivity). eexists. split; [reflexivity|]. split; [reflexivity|]. split; [reflexivity|].
      intros [_ [_ Hz]]. split; [reflexivity|]. split; [|exact Hz]. intros ks' E. injection E as <-. auto.
  Qed.
  Lemma blocks_force m V s : trans transb c m ks = Val V -> g_force s = true ->
    exists s', s_blocks unk mieb transb c m ks s = (s', Err AttributeError) /\ g_force s' = true /\ g_0 s' = g_0 s /\ (sound mieb c (set_flag false s) -> sound mieb c (set_flag false s')).
  Proof. intros EV Hf. destruct (elements_force m V s EV Hf) as [s' [E H]]. exists s'. unfold s_blocks, mbind. rewrite E. auto. Qed.
  Lemma mSumme_force precision conv V s : ks <> [] -> hd 0 ks <> 0 -> trans transb c 0 ks = Val V -> g_force s = true ->
    exists s', geo_mSumme unk fuel mieb transb c precision conv ks s = (s', Err AttributeError) /\ g_force s' = true /\ (sound mieb c (set_flag false s) -> sound mieb c (set_flag false s')).
  Proof.
    intros Hne Hh EV Hf. destruct (blocks_force 0 V s EV Hf) as [s' [E [H1 [_ H2]]]]. exists s'. split; [|auto].
    unfold geo_mSumme. destruct ks as [|k rest]; [congruence|]. cbn [mSumme hd] in *. destruct (Reqb_spec k 0); [congruence|].
    unfold mbind at 1, s_lndet, mbind. change (Z.of_nat 0) with 0%Z. rewrite E. reflexivity.
  Qed.
End Flag.

Lemma mSumme_k0_force unk fuel mieb transb c precision conv X s : static_coefs c = Val tt -> elements_k0 transb c 0 = Val X -> sound mieb c (set_flag false s) -> g_force s = true ->
  exists s', geo_mSumme_k0 unk fuel transb c precision conv s = (s', Err NotImplementedError) /\ g_force s' = true /\ sound mieb c (set_flag false s').
Proof.
  intros E0 E1 Hs Hf. exists (with_static s 0). split; [|split].
  - unfold geo_mSumme_k0, mSumme_k0, mbind at 1, s_lndet_k0, s_blocks_k0, s_elements_k0, mbind, get, with_static, put. change (Z.of_nat 0) with 0%Z.
    destruct Hs as [_ [_ Hz]]. cbn in Hz. destruct (g_0 s) as [m0|] eqn:E.
    + assert (H := Hz m0 eq_refl). apply Z.leb_le in H. rewrite H. cbn. rewrite E1. cbn. rewrite Hf. reflexivity.
    + rewrite E0. cbn. rewrite E1. cbn. rewrite Hf. reflexivity.
  - unfold with_static. destruct (g_0 s); exact Hf.
  - destruct Hs as [_ [Hc Hz]]. cbn in Hz. unfold with_static. destruct (g_0 s) as [m0|] eqn:E; (split; [reflexivity|]); (split; [exact Hc|]); cbn.
    + now rewrite E.
    + intros m E'. injection E' as <-. lia.
Qed.

(** a failing force evaluation *)
Lemma force_run {G} (ops : geo_ops G) garbage (t : finiteT G) nmax e g1 F0 g2 Fa g3 :
  t_nmax t = Z.of_nat nmax -> (50 <= nmax)%nat -> t_ff t = None -> t_nprocs t = 0%Z -> t_deltaT t <> 0 ->
  g_mSumme ops [1e-10] (t_geom t) = (g1, Ok F0) -> g_mSumme ops (freqs (t_deltaT t) nmax 0) g1 = (g2, Ok Fa) ->
  length F0 = 1%nat -> length Fa = 49%nat -> g_trace_dot ops (freqs (t_deltaT t) nmax 1) g2 = (g3, Err e) ->
  force ops garbage t = (with_geom (with_force t true) g3, Err e).
Proof.
  intros Hn Hn50 Hff Hp Hd E0 Ea L0 La Htr. unfold force, mbind. cbn [t_ff with_force]. rewrite Hff.
  unfold get_f_matsubaras. cbn [t_nprocs with_force]. rewrite Hp. cbn [Z.eqb t_deltaT with_force t_nmax].
  unfold slicewise_eval. cbn [py_int Z.leb Z.compare].
  destruct (Z.ltb_spec (t_nmax t - 0 + 1) 0); [lia|].
  destruct (Z.to_nat (t_nmax t - 0 + 1)) as [|fuel] eqn:Efuel; [lia|].
  cbn [slice_loop]. destruct (Z.leb_spec 0 (t_nmax t)); [|lia].
  rewrite (Z.min_l (0 + 50 - 1) (t_nmax t)) by lia.
  rewrite (arange_cons 0 (0 + 50 - 1 + 1)) by lia. cbn [map]. rewrite Rmult_0_r.
  unfold F_alle at 1. destruct (Reqb_spec 0 0); [|lra]. cbn [t_force with_force negb andb].
  unfold mbind, on_geom, ret. cbn [t_geom with_force]. rewrite E0. cbn [t_geom with_geom].
  rewrite freqs_arange in Ea by lia. replace (Z.min (50 * Z.of_nat 0 + 50 - 1) (Z.of_nat nmax)) with 49%Z in Ea by lia.
  change (arange (0 + 1) (0 + 50 - 1 + 1)) with (arange 1 (49 + 1)). change (Z.max 1 (50 * Z.of_nat 0)) with 1%Z in Ea. rewrite Ea.
  unfold slice_assign.
  replace (Nat.eqb (length (half F0 ++ Fa)) (Z.to_nat (-0 + (0 + 50 - 1) + 1) - Z.to_nat (-0 + 0))) with true.
  2:{ symmetry. apply Nat.eqb_eq. rewrite app_length. unfold half. rewrite map_length, L0, La. reflexivity. }
  set (res' := firstn _ _ ++ _).
  destruct (Z.leb_spec (0 + 50 - 1 + 1) (t_nmax t)); [|lia].
  rewrite freqs_arange in Htr by lia. change (Z.max 1 (50 * Z.of_nat 1)) with (0 + 50 - 1 + 1)%Z in Htr.
  replace (Z.min (0 + 50 - 1 + 1 + 50 - 1) (t_nmax t)) with (Z.min (50 * Z.of_nat 1 + 50 - 1) (Z.of_nat nmax)) by (rewrite Hn; reflexivity).
  clear Ea. set (ar := arange _ _) in *. assert (Ear : exists l, ar = (0 + 50 - 1 + 1)%Z :: l).
  { unfold ar. rewrite arange_cons by lia. eexists. reflexivity. }
  destruct Ear as [l Ear]. clearbody ar. subst ar. cbn [map] in *.
  unfold F_alle at 1. destruct (Reqb_spec (t_deltaT t * IZR (0 + 50 - 1 + 1)) 0) as [Z0|_].
  { exfalso. apply Rmult_integral in Z0. destruct Z0 as [Z0|Z0]; [contradiction|]. cbn in Z0. lra. }
  cbn [t_force with_geom with_force]. unfold on_geom. cbn [t_geom with_geom]. rewrite Htr. reflexivity.
Qed.
(** an evaluation that fails in its first request *)
Lemma energy_fails {G} (ops : geo_ops G) garbage (t : finiteT G) nmax e g : t_nmax t = Z.of_nat nmax -> t_nprocs t = 0%Z -> t_f t = None ->
  (if negb (t_force t) && t_analytic t then g_mSumme_k0 ops (t_geom t) else g_mSumme ops [1e-10] (t_geom t)) = (g, Err e) ->
  free_energy ops garbage t = (with_geom t g, Err e) /\ entropy ops garbage t = (with_geom t g, Err e).
Proof.
  intros Hn Hp Hf E.
  assert (H : ensure_f ops garbage t = (with_geom t g, Err e)).
  { unfold ensure_f. rewrite Hf. unfold mbind, get_f_matsubaras. rewrite Hp. cbn [Z.eqb].
    unfold slicewise_eval. cbn [py_int Z.leb Z.compare]. destruct (Z.ltb_spec (t_nmax t - 0 + 1) 0); [lia|].
    destruct (Z.to_nat (t_nmax t - 0 + 1)) as [|fuel] eqn:Efuel; [lia|].
    cbn [slice_loop]. destruct (Z.leb_spec 0 (t_nmax t)); [|lia].
    rewrite (arange_cons 0) by lia. cbn [map]. rewrite Rmult_0_r.
    unfold F_alle at 1. destruct (Reqb_spec 0 0); [|lra]. destruct (negb (t_force t) && t_analytic t); unfold mbind, on_geom; rewrite E; reflexivity. }
  split; [unfold free_energy|unfold entropy]; unfold mbind at 1; rewrite H; reflexivity.
Qed.

Lemma freqs_len dT nmax q : length (freqs dT nmax q) = (Nat.min (50 * q + 50) (nmax + 1) - Nat.max 1 (50 * q))%nat.
Proof. rewrite freqs_seq, map_length, seq_length. reflexivity. Qed.
Lemma freqs_49 dT nmax : (50 <= nmax)%nat -> length (freqs dT nmax 0) = 49%nat.
Proof. intros H. rewrite freqs_len. lia. Qed.
Lemma freqs_first dT nmax : (1 <= nmax)%nat -> freqs dT nmax 0 <> [].
Proof. intros H E. apply (f_equal (@length R)) in E. rewrite freqs_len in E. cbn [length] in E. lia. Qed.
Lemma freqs_second dT nmax : (50 <= nmax)%nat -> freqs dT nmax 1 <> [].
Proof. intros H E. apply (f_equal (@length R)) in E. rewrite freqs_len in E. cbn [length] in E. lia. Qed.
Lemma freqs_only dT nmax q : (nmax <= 49)%nat -> freqs dT nmax q <> [] -> q = 0%nat.
Proof.
  intros H E. destruct q as [|q]; [reflexivity|]. exfalso. apply E. apply length_zero_iff_nil. rewrite freqs_len. lia.
Qed.
Lemma sliced_one g0 g dT nmax i : (nmax <= 49)%nat -> sliced_sum g0 g dT nmax i = sliced_sum g0 (fun _ => g 0%nat) dT nmax i.
Proof.
  intros H. unfold sliced_sum. do 3 f_equal. apply map_ext_in. intros j Hj. apply in_seq in Hj. do 2 f_equal.
  destruct (Nat.eq_dec i 0) as [->|Hi]; [reflexivity|]. apply Nat.div_small.
  assert (i * (nmax / i) <= nmax)%nat by now apply Nat.mul_div_le. assert (i * j <= i * (nmax / i))%nat by (apply Nat.mul_le_mono_l; lia). lia.
Qed.
