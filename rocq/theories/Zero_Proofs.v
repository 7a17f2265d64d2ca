(** * Quadrature of the sums over m; coated spheres *)
From Coq Require Import Bool Reals List ZArith Lia Lra.
From Verif Require Import Base Thermo_Model Thermo_Spec Thermo_Proofs Geo_Model Geo_Spec Bessel_Model Scat_Model Scat_Spec Trans_Model Lin_Model RT_Model RT_Spec Run_Model Run_Spec
  Run_Proofs Run_Proofs2 Run_Proofs4 Run_Proofs6 Zero_Model Coat_Model.
Import ListNotations.
Open Scope R_scope.

(** ** quad with a pure integrand: the points it visits and its answer *)
Fixpoint asked (f : R -> R) (q : strategy) : list R := match q with Done _ _ => [] | Ask x next => x :: asked f (next (f x)) end.
Fixpoint answer (f : R -> R) (q : strategy) : R * R := match q with Done v e => (v, e) | Ask x next => answer f (next (f x)) end.

Lemma integrate_run {G} (g : R -> M (finiteT G) R) (f : R -> R) (P : finiteT G -> Prop) q :
  (forall x, In x (asked f q) -> forall t, P t -> exists t', P t' /\ g x t = (t', Ok (f x))) ->
  forall t, P t -> exists t', P t' /\ integrate g q t = (t', Ok (answer f q)).
Proof.
  induction q as [v e|x next IH]; intros H t Ht; [now exists t|]. cbn [asked answer integrate] in *. unfold mbind.
  destruct (H x (or_introl eq_refl) t Ht) as [t1 [H1 ->]]. apply (IH (f x)); [|exact H1]. intros y Hy. apply H. now right.
Qed.
Lemma fuel_for {A} (P : A -> nat -> Prop) (l : list A) : (forall x, In x l -> exists N, forall fuel, (N <= fuel)%nat -> P x fuel) ->
  exists N, forall fuel, (N <= fuel)%nat -> forall x, In x l -> P x fuel.
Proof.
  induction l as [|a l IH]; intros H; [exists 0%nat; intros ? ? ? []|].
  destruct (H a (or_introl eq_refl)) as [N1 H1]. destruct IH as [N2 H2]; [intros x Hx; apply H; now right|].
  exists (Nat.max N1 N2). intros fuel Hf x [<-|Hx]; [apply H1; lia|apply H2; [lia|exact Hx]].
Qed.

(** ** coated spheres *)
Section Coated.
  Context (unk : exn) (fuel : nat) (transb : bessel_fun) (k : coated) (precision conv : R).
  Lemma coated_fails ks s : g_K s = None -> ks <> [] -> hd 0 ks <> 0 -> coated_mSumme unk fuel transb k precision conv ks s = (s, Err TypeError).
  Proof.
    intros HK Hne Hd. destruct ks as [|x rest]; [congruence|]. cbn [hd] in Hd. unfold coated_mSumme. cbn [mSumme]. destruct (Reqb_spec x 0); [contradiction|].
    unfold mbind, coated_lndet, coated_blocks, coated_elements, mbind, get. rewrite HK. reflexivity.
  Qed.
  (** the zero frequency does not touch the attribute K *)
  Lemma k0_keeps c m s : g_K (fst (s_lndet_k0 unk fuel transb c conv m s)) = g_K s.
  Proof.
    unfold s_lndet_k0, s_blocks_k0, s_elements_k0, mbind, get, put, lift, ret, raise, lift_opt, lift_res.
    destruct (g_0 s) as [m0|]; [destruct (m0 <=? 1)%Z; [|reflexivity]|destruct (static_coefs c); [|reflexivity|reflexivity]].
    all: destruct (elements_k0 transb c (Z.of_nat m)); try reflexivity; destruct (g_force s); try reflexivity.
    all: destruct (blockmatrices_k0 transb c (Z.of_nat m)) as [[A B]| |]; try reflexivity.
    all: destruct (sln_det_blockdiagonal fuel conv A B) as [[|]|]; reflexivity.
  Qed.
  Lemma loop_keeps c n m acc s : g_K (fst (mloop_k0 (s_lndet_k0 unk fuel transb c conv) precision n m acc s)) = g_K s.
  Proof.
    revert m acc s. induction n as [|n IH]; intros m acc s; [reflexivity|]. cbn [mloop_k0]. unfold mbind.
    assert (H := k0_keeps c m s). destruct (s_lndet_k0 unk fuel transb c conv m s) as [s' [t|e]]; [|exact H]. cbn [fst] in H.
    destruct (xltb _ _); [exact H|]. rewrite IH. exact H.
  Qed.
  Lemma mSumme_k0_keeps c s : g_K (fst (geo_mSumme_k0 unk fuel transb c precision conv s)) = g_K s.
  Proof.
    unfold geo_mSumme_k0, mSumme_k0, mbind. assert (H := k0_keeps c 0%nat s). destruct (s_lndet_k0 unk fuel transb c conv 0 s) as [s' [t|e]]; [|exact H]. cbn [fst] in H.
    assert (H' := loop_keeps c (c_lmax c) 1%nat t s'). destruct (mloop_k0 _ _ _ _ _ s') as [s2 [r|e]]; cbn [fst] in *; unfold ret; cbn [fst]; congruence.
  Qed.
  (** no free energy *)
  Lemma coated_energy garbage (t : finiteT gstate) nmax : t_nmax t = Z.of_nat nmax -> (1 <= nmax)%nat -> t_nprocs t = 0%Z -> t_f t = None -> t_deltaT t <> 0 -> g_K (t_geom t) = None ->
    exists t' e, free_energy (coated_ops unk fuel transb k precision conv) garbage t = (t', Err e) /\ entropy (coated_ops unk fuel transb k precision conv) garbage t = (t', Err e) /\
      (t_analytic t = false \/ t_force t = true -> e = TypeError /\ t' = t) /\
      (forall g v, t_analytic t = true -> t_force t = false -> coated_mSumme_k0 unk fuel transb k precision conv (t_geom t) = (g, Ok [Fin v]) -> e = TypeError).
  Proof.
    intros Hn Hn1 Hp Hf Hd HK.
    destruct (negb (t_force t) && t_analytic t) eqn:Ea.
    - apply andb_true_iff in Ea as [Ef Ea]. apply negb_true_iff in Ef.
      assert (Hkeep := mSumme_k0_keeps (parent k) (t_geom t)). rewrite HK in Hkeep.
      destruct (coated_mSumme_k0 unk fuel transb k precision conv (t_geom t)) as [g [v|e]] eqn:E0.
      + destruct (finite v) as [r|] eqn:Efin.
        * assert (Eg : g_mSumme_k0 (coated_ops unk fuel transb k precision conv) (t_geom t) = (g, Ok r)) by (cbn; unfold s_finite, mbind; rewrite E0, Efin; reflexivity).
          assert (HKg : g_K g = None) by (unfold coated_mSumme_k0 in E0; rewrite E0 in Hkeep; exact Hkeep).
          assert (H : ensure_f (coated_ops unk fuel transb k precision conv) garbage t = (with_geom t g, Err TypeError)).
          { unfold ensure_f. rewrite Hf. unfold mbind, get_f_matsubaras. rewrite Hp. cbn [Z.eqb]. unfold slicewise_eval. cbn [py_int Z.leb Z.compare].
            destruct (Z.ltb_spec (t_nmax t - 0 + 1) 0); [lia|]. destruct (Z.to_nat (t_nmax t - 0 + 1)) as [|fu] eqn:Efuel; [lia|].
            cbn [slice_loop]. destruct (Z.leb_spec 0 (t_nmax t)); [|lia].
            rewrite (arange_cons 0) by lia. rewrite (arange_cons (0 + 1)) by lia. cbn [map]. rewrite Rmult_0_r.
            unfold F_alle at 1. destruct (Reqb_spec 0 0); [|lra]. rewrite Ef, Ea. cbn [negb andb]. unfold mbind at 1, on_geom at 1. rewrite Eg.
            unfold mbind, on_geom. cbn [t_geom with_geom g_mSumme coated_ops]. unfold s_finite, mbind. rewrite coated_fails; [reflexivity|exact HKg|discriminate|].
            cbn [hd]. apply Rmult_integral_contrapositive_currified; [exact Hd|]. apply not_0_IZR. lia. }
          exists (with_geom t g), TypeError. split; [unfold free_energy, mbind at 1; now rewrite H|]. split; [unfold entropy, mbind at 1; now rewrite H|].
          split; [intros [X|X]; congruence|auto].
        * assert (Eg : g_mSumme_k0 (coated_ops unk fuel transb k precision conv) (t_geom t) = (g, Err unk)) by (cbn; unfold s_finite, mbind; rewrite E0, Efin; reflexivity).
          destruct (energy_fails (coated_ops unk fuel transb k precision conv) garbage t nmax unk g Hn Hp Hf) as [H1 H2]; [rewrite Ef, Ea; exact Eg|].
          exists (with_geom t g), unk. split; [exact H1|]. split; [exact H2|]. split; [intros [X|X]; congruence|].
          intros g' w _ _ X. injection X as -> ->. discriminate Efin.
      + assert (Eg : g_mSumme_k0 (coated_ops unk fuel transb k precision conv) (t_geom t) = (g, Err e)) by (cbn; unfold s_finite, mbind; rewrite E0; reflexivity).
        destruct (energy_fails (coated_ops unk fuel transb k precision conv) garbage t nmax e g Hn Hp Hf) as [H1 H2]; [rewrite Ef, Ea; exact Eg|].
        exists (with_geom t g), e. split; [exact H1|]. split; [exact H2|]. split; [intros [X|X]; congruence|]. intros g' w _ _ X. discriminate X.
    - assert (Eg : g_mSumme (coated_ops unk fuel transb k precision conv) [1e-10] (t_geom t) = (t_geom t, Err TypeError)).
      { cbn [g_mSumme coated_ops]. unfold s_finite, mbind. rewrite coated_fails; [reflexivity|exact HK|discriminate|]. cbn [hd]. lra. }
      destruct (energy_fails (coated_ops unk fuel transb k precision conv) garbage t nmax TypeError (t_geom t) Hn Hp Hf) as [H1 H2]; [rewrite Ea; exact Eg|].
      assert (Et : with_geom t (t_geom t) = t) by (destruct t; reflexivity). rewrite Et in H1, H2.
      exists t, TypeError. split; [exact H1|]. split; [exact H2|]. split; [auto|]. intros; reflexivity.
  Qed.
End Coated.

(** with the default forceFlag = 0, which becomes lssmax: no static contribution *)
Lemma coated_default unk fuel transb k precision conv s : k_force k = 0%nat -> (2 <= k_lmax k)%nat -> exists e s', coated_mSumme_k0 unk fuel transb k precision conv s = (s', Err e).
Proof.
  intros Hf Hl. unfold coated_mSumme_k0, geo_mSumme_k0, mSumme_k0, s_lndet_k0, s_blocks_k0, mbind at 1 2 3.
  destruct (s_elements_k0 unk transb (parent k) (Z.of_nat 0) s) as [s1 [u|e]]; [|eauto].
  assert (H : forall v, blockmatrices_k0 transb (parent k) (Z.of_nat 0) <> Val v).
  { intros v. assert (n1 (parent k) (Z.of_nat 0) = k_lmax k) as E1 by (unfold n1, lmin; cbn; lia). assert (n2 (parent k) (Z.of_nat 0) = 0%nat) as E2 by (unfold n2, lmin; cbn [parent c_lssmax]; rewrite Hf; reflexivity).
    unfold blockmatrices_k0. destruct (c_ext (parent k)).
    - unfold blockmatrices_k0_ext. destruct (elements_k0 transb (parent k) (Z.of_nat 0)) as [[[[A B] V] [ra rb]]| |]; try discriminate. cbn [obind].
      destruct A as [[? ?] ?]. destruct B as [[? ?] ?]. unfold sum_k0. rewrite E1, E2. assert (X : Nat.ltb 1 (k_lmax k) = true) by (apply Nat.ltb_lt; lia). rewrite X. cbn. discriminate.
    - unfold blockmatrices_k0_int. destruct (elements_k0 transb (parent k) (Z.of_nat 0)) as [[[[A B] V] [ra rb]]| |]; try discriminate. cbn [obind].
      destruct A as [[? ?] ?]. destruct B as [[? ?] ?]. rewrite E2, Nat.mul_0_r. cbn. discriminate. }
  unfold lift. destruct (blockmatrices_k0 transb (parent k) (Z.of_nat 0)) as [v|e|] eqn:E; [now elim (H v)|eexists; eexists; reflexivity|eexists; eexists; reflexivity].
Qed.
