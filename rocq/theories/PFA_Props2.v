(** * Properties C55, C56 (PFA.py, raw_PFA.py) *)
From Coq Require Import Reals.
From Coquelicot Require Import Coquelicot.
From Coq Require Import Bool ZArith List Lia Lra Psatz.
From Verif Require Import Base Mat_Model Mat_Spec Bessel_Model Scat_Model Scat_Spec Scat_Proofs Scat_Proofs2 Scat_Props PFA_Model PFA_Spec PFA_Proofs PFA_Proofs2 PFA_Proofs3 PFA_Props.
Import ListNotations.
Open Scope R_scope.

(** ** C55: the Matsubara sums of PFA.py, for any quadrature *)
Section C55.
Context (quad : quadrature) (p : pfa).
Theorem C55_free_energy : forall T L s I, T <> 0 -> T * L <> 0 ->
  (forall k, In k (matsubaras 1e-10 T (trunc (20 / (T * L)))) -> kperp_integral quad (fun q => roundTrip p q k L) 0 = Val (I k)) ->
  planeplaneFreeEnergy quad p (Fin T) L s = Val (primed_sum (if s then 0 else / 2) I 1e-10 T (Z.to_nat (trunc (20 / (T * L))))).
Proof.
  intros T L s I HT HL H. unfold planeplaneFreeEnergy. destruct (Reqb_spec T 0); [contradiction|]. rewrite terms_val by assumption. cbn [obind]. now apply primed_val.
Qed.
Theorem C55_pressure : forall T L s I, T * L <> 0 ->
  (forall k, In k (matsubaras 1e-20 T (trunc (20 / (T * L)))) -> kperp_integral quad (fun q => pressureRoundTrip p q k L) 0 = Val (I k)) ->
  planeplanePressure quad p T L s = Val (primed_sum (if s then 0 else / 2) I 1e-20 T (Z.to_nat (trunc (20 / (T * L))))).
Proof. intros T L s I HL H. unfold planeplanePressure. rewrite terms_val by assumption. cbn [obind]. now apply primed_val. Qed.
(** zero temperature: the free energy is an integral (whatever the shielding), the pressure raises *)
Theorem C55_zero_temperature : forall L s,
  planeplaneFreeEnergy quad p (Fin 0) L s = quad (fun k => kperp_integral quad (fun q => roundTrip p q k L) 0) 1e-20 PInf /\
  planeplanePressure quad p 0 L s = Exc ZeroDivisionError.
Proof.
  intros L s. split; [unfold planeplaneFreeEnergy, planeplane_e0; destruct (Reqb_spec 0 0); congruence|]. unfold planeplanePressure, terms, mdiv. rewrite Rmult_0_l. destruct (Reqb_spec 0 0); [reflexivity|congruence].
Qed.
Theorem C55_high_temperature : forall L s te tm,
  kperp_integral quad (fun q => ofst (roundTrips p q 1e-20 L)) 0 = Val te -> kperp_integral quad (fun q => osnd (roundTrips p q 1e-20 L)) 0 = Val tm ->
  planeplaneFreeEnergy quad p PInf L s = Val (if s then 0 else (te + tm) / 2).
Proof.
  intros L s te tm H1 H2. unfold planeplaneFreeEnergy, planeplaneFreeEnergyHT. rewrite H1, H2. cbn [obind]. destruct s; f_equal; lra.
Qed.
(** the force between spheres: Derjaguin's factor times the free energy at the smallest distance *)
Theorem C55_force : forall r1 r2 T d s f, 0 < r1 -> 0 < r2 ->
  (r1 + r2 < d -> planeplaneFreeEnergy quad p T (d - r1 - r2) false = Val f -> spheresphereForce quad p r1 r2 T d s = Val (2 * PI * (r1 * r2 / (r1 + r2)) * f)) /\
  (r1 < r2 -> d < r1 + r2 -> planeplaneFreeEnergy quad p T (r2 - d - r1) false = Val f -> spheresphereForce quad p r1 r2 T d s = Val (2 * PI * (r1 * r2 / (r2 - r1)) * f)).
Proof.
  intros r1 r2 T d s f H1 H2. split.
  - intros Hd Hf. unfold spheresphereForce. destruct (Rltb_spec d (r1 + r2)); [lra|]. rewrite mdiv_val by lra. cbn [obind].
    rewrite (proj1 (C46_gap r1 r2 d H1 H2) Hd). cbn [obind]. rewrite Hf. cbn [obind]. f_equal. field. lra.
  - intros H12 Hd Hf. unfold spheresphereForce. destruct (Rltb_spec d (r1 + r2)); [|lra]. rewrite Rmax_right, Rmin_left by lra. rewrite mdiv_val by lra. cbn [obind].
    rewrite (proj2 (C46_gap r1 r2 d H1 H2)) by lra. cbn [obind]. rewrite Hf. cbn [obind]. f_equal. field. lra.
Qed.
(** the energy of two spheres: the free energy per area at the local distance, integrated over rings of the first sphere *)
Theorem C55_energy : forall r1 r2 T d s F, 0 < r1 -> r1 + r2 < d -> r1 <= r2 ->
  (forall f g : R -> out R, (forall x, 0 <= x <= r1 -> f x = g x) -> quad f 0 (Fin r1) = quad g 0 (Fin r1)) ->
  (forall x, d - r1 - r2 <= x <= d -> planeplaneFreeEnergy quad p T x s = Val (F x)) ->
  spheresphereEnergy quad p r1 r2 T d s = quad (fun rho => Val (2 * PI * rho * F (d - sqrt (r1 ^ 2 - rho ^ 2) - sqrt (r2 ^ 2 - rho ^ 2)))) 0 (Fin r1).
Proof.
  intros r1 r2 T d s F H1 Hd H12 Hq HF. unfold spheresphereEnergy. apply Hq. intros rho Hr.
  assert (H2 : 0 < r2) by lra. assert (S1 : forall r, rho <= r -> 0 < r -> 0 <= sqrt (r ^ 2 - rho ^ 2) <= r).
  { intros r Hr' Hp. split; [apply sqrt_pos|]. rewrite <- (sqrt_pow2 r) at 2 by lra. apply sqrt_le_1_alt. nra. }
  assert (D : distance r1 r2 d rho = Val (d - sqrt (r1 ^ 2 - rho ^ 2) - sqrt (r2 ^ 2 - rho ^ 2))).
  { unfold distance. destruct (Rltb_spec (r1 + r2) d) as [_|]; [|lra].
    assert (C : forall r, rho <= r -> 0 < r -> half_chord r rho = Val (sqrt (r ^ 2 - rho ^ 2))).
    { intros r Hr' Hp. unfold half_chord. rewrite mdiv_val by lra. cbn [obind].
      assert (0 <= 1 - (rho / r) ^ 2). { assert (0 <= rho / r <= 1) by (split; [apply Rdiv_le_0_compat; lra|apply Rmult_le_reg_r with r; [lra|]; unfold Rdiv; rewrite Rmult_assoc, Rinv_l by lra; lra]). nra. }
      unfold msqrt. destruct (Rltb_spec (1 - (rho / r) ^ 2) 0); [lra|]. cbn [obind]. f_equal. rewrite <- (sqrt_pow2 r) at 1 by lra. rewrite <- sqrt_mult by nra. f_equal. field. lra. }
    rewrite !C by lra. reflexivity. }
  rewrite D. cbn [obind]. rewrite HF; [reflexivity|]. generalize (S1 r1 ltac:(lra) ltac:(lra)) (S1 r2 ltac:(lra) ltac:(lra)). lra.
Qed.
(** defects: the shielding flag has no effect on the force; spheres of equal radius inside each other divide by zero;
    the energy integrand raises for every rho between r2 and r1 *)
Theorem C55_force_ignores_shielding_refuted : forall r1 r2 T d, spheresphereForce quad p r1 r2 T d true = spheresphereForce quad p r1 r2 T d false.
Proof. reflexivity. Qed.
Theorem C55_energy_integrand_raises : forall r1 r2 T d s rho, 0 < r2 -> r2 < rho <= r1 ->
  (let! L := distance r1 r2 d rho in let! f := planeplaneFreeEnergy quad p T L s in Val (2 * PI * rho * f)) = Exc ValueError.
Proof.
  intros r1 r2 T d s rho H2 [Hr H]. rewrite distance_out; try lra; [reflexivity|]. rewrite Rabs_pos_eq by lra. rewrite Rmin_right; lra.
Qed.
(** equal plates: for a quadrature that respects signs the free energy and the pressure are not positive *)
Theorem C55_attraction : forall e u r T L s,
  p_mat1 p = p_mat2 p -> plate (p_mat1 p) (p_md p) r -> has (p_md p) e u -> 0 < T -> 0 < L ->
  (forall f, (forall q, 0 <= q -> exists v, f q = Val v /\ v <= 0) -> exists w, quad f 0 PInf = Val w /\ w <= 0) ->
  (exists F, planeplaneFreeEnergy quad p (Fin T) L s = Val F /\ F <= 0) /\ (exists P, planeplanePressure quad p T L s = Val P /\ P <= 0).
Proof.
  intros e u r T L s E Hp Hm HT HL Hq. assert (TL : T * L <> 0) by (apply Rgt_not_eq; now apply Rmult_lt_0_compat). pose proof PI_RGT_0.
  assert (PK : forall k0 n k, 0 < k0 -> In k (matsubaras k0 T n) -> 0 < k).
  { intros k0 n k H0 [<-|Hin]; [assumption|]. apply in_map_iff in Hin. destruct Hin as [i [<- Hi]]. apply in_seq in Hi. apply Rmult_lt_0_compat; [apply lt_0_INR; lia|assumption]. }
  assert (G : forall f : R -> R -> out R, (forall q k, 0 <= q -> 0 < k -> exists v, f q k = Val v /\ v <= 0) -> exists I, forall k, 0 < k -> kperp_integral quad (fun q => f q k) 0 = Val (I k) /\ I k <= 0).
  { intros f Hf. exists (fun k => match kperp_integral quad (fun q => f q k) 0 with Val v => v | _ => 0 end). intros k Hk. unfold kperp_integral.
    destruct (Hq (fun q => let! v := f q k in Val (q / (2 * PI) * v))) as [w [-> Hw]]; [|now split]. intros q Hq0. destruct (Hf q k Hq0 Hk) as [v [-> Hv]]. cbn [obind].
    eexists. split; [reflexivity|]. assert (0 <= q / (2 * PI)) by (apply Rdiv_le_0_compat; lra). nra. }
  assert (S : forall k0 n I w, 0 < k0 -> 0 <= w -> (forall k, 0 < k -> I k <= 0) -> primed_sum w I k0 T n <= 0).
  { intros k0 n I w H0 Hw HI. unfold primed_sum. assert (sum_f_R0 (fun i => if Nat.eqb i 0 then 0 else I (INR i * T)) n <= 0).
    { induction n as [|n IH]; [cbn; lra|]. rewrite tech5. cbn [Nat.eqb]. specialize (HI (INR (S n) * T) ltac:(apply Rmult_lt_0_compat; [apply lt_0_INR; lia|assumption])). lra. }
    specialize (HI k0 H0). assert (w * I k0 <= 0) by nra.
    match goal with |- T * (_ + ?x) <= 0 => set (y := x) in * end. assert (0 <= T * - (w * I k0 + y)) by (apply Rmult_le_pos; lra). lra. }
  assert (V : forall q k, 0 <= q -> 0 < k -> (exists v, roundTrip p q k L = Val v /\ v <= 0) /\ (exists v, pressureRoundTrip p q k L = Val v /\ v <= 0)).
  { intros q k Hq0 Hk. destruct (C47_equal_plates p r e u q k L (L + 1) E Hp Hm Hq0 Hk ltac:(lra)) as [a [b [a' [b' [c [d [A [_ [B [X1 [X2 [_ [_ [X3 [X4 _]]]]]]]]]]]]]]].
    split; eexists; (split; [apply C47_sums; eassumption|lra]). }
  destruct (G (fun q k => roundTrip p q k L)) as [I HI]; [intros; now apply V|]. destruct (G (fun q k => pressureRoundTrip p q k L)) as [J HJ]; [intros; now apply V|].
  split; eexists.
  - split; [apply (C55_free_energy T L s I); [lra|exact TL|]|].
    + intros k Hk. apply HI. eapply PK; [|eassumption]. lra.
    + apply S; [lra|destruct s; lra|intros k Hk; now apply HI].
  - split; [apply (C55_pressure T L s J); [exact TL|]|].
    + intros k Hk. apply HJ. eapply PK; [|eassumption]. lra.
    + apply S; [lra|destruct s; lra|intros k Hk; now apply HJ].
Qed.
End C55.
(** what the truncation omits: beyond nmax every round trip carries a factor below exp(-40) (exp(-200) in raw_PFA) *)
Theorem C55_omitted_terms : forall n2 T L q n, 0 < T -> 0 < L -> 1 <= n2 (INR n * T) ->
  ((trunc (20 / (T * L)) < Z.of_nat n)%Z -> exp (-2 * kz n2 q (INR n * T) * L) < exp (-40)) /\
  ((trunc (100 / (T * L)) < Z.of_nat n)%Z -> exp (-2 * kz n2 q (INR n * T) * L) < exp (-200)).
Proof.
  intros n2 T L q n HT HL H1. split; intros Hn.
  - replace (-40) with (-2 * 20) by ring. apply omitted; try assumption. lra.
  - replace (-200) with (-2 * 100) by ring. apply omitted; try assumption. lra.
Qed.
Print Assumptions C55_free_energy.
Print Assumptions C55_pressure.
Print Assumptions C55_zero_temperature.
Print Assumptions C55_high_temperature.
Print Assumptions C55_force.
Print Assumptions C55_energy.
Print Assumptions C55_force_ignores_shielding_refuted.
Print Assumptions C55_energy_integrand_raises.
Print Assumptions C55_attraction.
Print Assumptions C55_omitted_terms.

(** ** C56: raw_PFA.py *)
(** the caller's frequency array is overwritten (a zero in front becomes 1e-20), and the first term is not halved *)
Theorem C56_argument_modified_refuted : forall quad p L k0 ks s,
  fst (raw_get_f_matsubaras quad p L (k0 :: ks) s) = k0 :: ks <-> k0 <> 0.
Proof.
  intros quad p L k0 ks s. cbn [raw_get_f_matsubaras fst]. destruct (Reqb_spec k0 0) as [->|N]; split; intros H; try reflexivity; try assumption.
  - injection H as H. exfalso. lra.
  - contradiction.
Qed.
Theorem C56_frequency_terms : forall quad p L k0 ks s TE TM, k0 <> 0 ->
  (forall k, In k (k0 :: ks) -> intTE quad p 0 L k = Val (TE k)) -> (forall k, In k (k0 :: ks) -> intTM quad p 0 L k = Val (TM k)) ->
  snd (raw_get_f_matsubaras quad p L (k0 :: ks) s) = Val ((if s then 0 else TE k0 + TM k0) :: map (fun k => TE k + TM k) ks) /\
  forall T, get_f_matsubaras quad p T L (k0 :: ks) s = Val ((if s then 0 else TE k0 / 2) :: map TE ks, (if s then 0 else TM k0 / 2) :: map TM ks).
Proof.
  intros quad p L k0 ks s TE TM N H1 H2. assert (VM : forall l, vmap2 Rplus (map TE l) (map TM l) = map (fun k => TE k + TM k) l) by (intros l; induction l as [|a l IH]; cbn; [reflexivity|f_equal; exact IH]).
  split.
  - cbn [raw_get_f_matsubaras snd]. destruct (Reqb_spec k0 0); [contradiction|]. rewrite (omapl_val _ TE _ H1), (omapl_val _ TM _ H2). cbn [obind map set0].
    destruct s; cbn [obind]; f_equal; unfold vmap2 in *; cbn; f_equal; try apply VM. lra.
  - intros T. unfold get_f_matsubaras. change (fun kn => kperp_integral quad (fun q => ofst (roundTrips p q kn L)) 0) with (intTE quad p 0 L).
    change (fun kn => kperp_integral quad (fun q => osnd (roundTrips p q kn L)) 0) with (intTM quad p 0 L).
    rewrite (omapl_val _ TE _ H1), (omapl_val _ TM _ H2). cbn [obind map set0]. destruct s; cbn [obind set0]; f_equal; f_equal; f_equal; lra.
Qed.
(** the Matsubara sum *)
Theorem C56_free_energy : forall quad p T L s TE TM, T <> 0 -> T * L <> 0 ->
  (forall k, In k (matsubaras 1e-10 T (trunc (100 / (T * L)))) -> intTE quad p 0 L k = Val (TE k) /\ intTM quad p 0 L k = Val (TM k)) ->
  raw_free_energy quad p T L s = Val (primed_sum (if s then 0 else / 2) (fun k => TE k + TM k) 1e-10 T (Z.to_nat (trunc (100 / (T * L))))).
Proof.
  intros quad p T L s TE TM HT HL H. unfold raw_free_energy. destruct (Reqb_spec T 0); [contradiction|]. rewrite terms_val by assumption. cbn [obind].
  set (nm := trunc (100 / (T * L))) in *.
  assert (A : forall f I, (forall k, In k (matsubaras 1e-10 T nm) -> f k = Val (I k)) -> exists v, weighted f T (matsubaras 1e-10 T nm) s = Val v /\ asum v = primed_sum (if s then 0 else / 2) I 1e-10 T (Z.to_nat nm)).
  { intros f I Hf. assert (P := primed_val f I 1e-10 T nm s Hf). destruct (weighted f T _ s) as [v| |]; cbn [obind] in P; try discriminate. exists v. split; [reflexivity|]. now injection P. }
  destruct (A _ TE (fun k Hk => proj1 (H k Hk))) as [v [-> E1]]. destruct (A _ TM (fun k Hk => proj2 (H k Hk))) as [w [-> E2]]. cbn [obind]. f_equal. rewrite E1, E2.
  unfold primed_sum. assert (SP : sum_f_R0 (fun i => if Nat.eqb i 0 then 0 else TE (INR i * T) + TM (INR i * T)) (Z.to_nat nm) =
     sum_f_R0 (fun i => if Nat.eqb i 0 then 0 else TE (INR i * T)) (Z.to_nat nm) + sum_f_R0 (fun i => if Nat.eqb i 0 then 0 else TM (INR i * T)) (Z.to_nat nm)).
  { rewrite <- plus_sum. apply sum_eq. intros i _. destruct (Nat.eqb i 0); ring. }
  rewrite SP. ring.
Qed.
(** high and zero temperature; the first integral starts at 1e-10 instead of 0 *)
Theorem C56_limits_of_temperature : forall quad p L s te tm,
  (intTE quad p 1e-10 L 1e-20 = Val te -> intTM quad p 1e-10 L 1e-20 = Val tm -> raw_pp quad p PInf L s = Val (if s then 0 else (te + tm) / 2)) /\
  (quad (intTE quad p 0 L) 1e-20 PInf = Val te -> quad (intTM quad p 0 L) 1e-20 PInf = Val tm -> raw_pp quad p (Fin 0) L s = Val (te + tm)).
Proof.
  intros quad p L s te tm. split; intros H1 H2.
  - cbn [raw_pp]. unfold raw_HT. rewrite H1, H2. cbn [obind]. destruct s; f_equal; lra.
  - cbn [raw_pp]. unfold raw_free_energy; destruct (Reqb_spec 0 0); [|congruence]. unfold raw_e0. rewrite H1, H2. reflexivity.
Qed.
(** the energy of two spheres is L/2 times their force, so the force is its negative derivative only where the free
    energy per area falls like L^-3 *)
Theorem C56_energy_from_force : forall quad p r1 r2 T L s ext f, r1 + r2 <> 0 -> (ext = false -> r1 <> r2) ->
  raw_force quad p r1 r2 T L s ext = Val f -> raw_energy quad p r1 r2 T L s ext = Val (L / 2 * f).
Proof.
  intros quad p r1 r2 T L s ext f HR HE. unfold raw_force, raw_energy. rewrite (mdiv_val (2 * PI * (r1 * r2)) (r1 + r2)), (mdiv_val (L * PI * r1 * r2) (r1 + r2)) by assumption. cbn [obind]. destruct ext.
  - cbn [obind]. destruct (raw_pp quad p T L s); cbn [obind]; try discriminate. intros E. injection E as <-. f_equal. field. assumption.
  - rewrite (mdiv_val (2 * PI * (r1 * r2)) (r2 - r1)), (mdiv_val (L * PI * r1 * r2) (r2 - r1)) by (intros H; apply (HE eq_refl); lra). cbn [obind]. destruct (raw_pp quad p T L s); cbn [obind]; try discriminate. intros E. injection E as <-. f_equal. field. intros H; apply (HE eq_refl); lra.
Qed.
Theorem C56_force_is_not_derivative_refuted : forall quad p r1 r2 T s (F : R -> R) L dF, 0 < r1 -> 0 < r2 -> 0 < L ->
  (forall x, 0 < x -> raw_pp quad p T x s = Val (F x)) -> is_derive F L dF ->
  exists E f, (forall x, 0 < x -> raw_energy quad p r1 r2 T x s true = Val (E x)) /\ raw_force quad p r1 r2 T L s true = Val f /\
    (is_derive E L (- f) <-> dF = - 3 * F L / L).
Proof.
  intros quad p r1 r2 T s F L dF H1 H2 HL HF HD. set (c := PI * r1 * r2 / (r1 + r2)). assert (Hc : 0 < c) by (unfold c; apply Rdiv_lt_0_compat; [|lra]; pose proof PI_RGT_0; apply Rmult_lt_0_compat; [apply Rmult_lt_0_compat|]; assumption).
  exists (fun x => c * (x * F x)), (2 * c * F L).
  assert (EF : forall x, 0 < x -> raw_force quad p r1 r2 T x s true = Val (2 * c * F x)).
  { intros x Hx. unfold raw_force. rewrite mdiv_val by lra. cbn [obind]. rewrite HF by assumption. cbn [obind]. f_equal. unfold c. field. lra. }
  split. { intros x Hx. rewrite (C56_energy_from_force _ _ _ _ _ _ _ _ (2 * c * F x)); [f_equal; field|lra|discriminate|now apply EF]. }
  split; [now apply EF|].
  assert (D : is_derive (fun x => c * (x * F x)) L (c * (F L + L * dF))).
  { apply (is_derive_ext (fun x => c * (x * F x))); [reflexivity|]. apply (is_derive_scal (fun x => x * F x)).
    replace (F L + L * dF) with (plus (mult 1 (F L)) (mult L dF)) by (cbn; unfold plus, mult; cbn; ring).
    apply (is_derive_mult (fun x => x) F); [apply (is_derive_id (K := R_AbsRing))|exact HD|intros; apply Rmult_comm]. }
  split; intros H.
  - assert (Q : c * (F L + L * dF) = - (2 * c * F L)) by (rewrite <- (is_derive_unique _ _ _ D); exact (is_derive_unique _ _ _ H)). clear H. assert (F L + L * dF = - 2 * F L) by (apply Rmult_eq_reg_l with c; lra). apply Rmult_eq_reg_l with L; [|lra]. field_simplify; lra.
  - replace (- (2 * c * F L)) with (c * (F L + L * dF)); [exact D|]. rewrite H. field. lra.
Qed.
Print Assumptions C56_argument_modified_refuted.
Print Assumptions C56_frequency_terms.
Print Assumptions C56_free_energy.
Print Assumptions C56_limits_of_temperature.
Print Assumptions C56_energy_from_force.
Print Assumptions C56_force_is_not_derivative_refuted.

(** ** the hypotheses are met: a quadrature (the value at 1, as a stand-in) that respects signs *)
Definition quad1 : quadrature := fun f _ _ => f 1.
Example C55_pec : exists F, planeplaneFreeEnergy quad1 pec_pec (Fin 0.804) 1 false = Val F /\ F <= 0.
Proof.
  eapply (C55_attraction quad1 pec_pec (eps_spec []) (mu_val None) (fun _ _ => (-1, 1))); try lra; [reflexivity|apply pec_plate|exact vacuum_has|].
  intros f Hf. apply (Hf 1). lra.
Qed.
(** shielding does change the free energy, so the force should depend on it *)
Example C55_shielding_matters : exists F G, planeplaneFreeEnergy quad1 pec_pec (Fin 1) 1 false = Val F /\ planeplaneFreeEnergy quad1 pec_pec (Fin 1) 1 true = Val G /\ F <> G.
Proof.
  pose proof PI_RGT_0.
  assert (V : forall k, 0 < k -> exists v, kperp_integral quad1 (fun q => roundTrip pec_pec q k 1) 0 = Val v /\ v < 0).
  { intros k Hk. destruct (C47_equal_plates pec_pec (fun _ _ => (-1, 1)) (eps_spec []) (mu_val None) 1 k 1 2) as [a [b [a' [b' [c [d [A [_ [_ [_ [_ [_ [_ [_ [_ [X Y]]]]]]]]]]]]]]]];
      [reflexivity|apply pec_plate|exact vacuum_has|lra|lra|lra|]. cbn [fst snd] in X, Y. destruct X as [_ [X _]]; [lra|]. destruct Y as [_ [Y _]]; [lra|].
    unfold kperp_integral, quad1. apply C47_sums in A. rewrite A. cbn [obind]. eexists. split; [reflexivity|]. assert (0 < 1 / (2 * PI)) by (apply Rdiv_lt_0_compat; lra). nra. }
  set (I k := match kperp_integral quad1 (fun q => roundTrip pec_pec q k 1) 0 with Val v => v | _ => 0 end).
  assert (HI : forall k, 0 < k -> kperp_integral quad1 (fun q => roundTrip pec_pec q k 1) 0 = Val (I k) /\ I k < 0).
  { intros k Hk. destruct (V k Hk) as [v [E Hv]]. unfold I. rewrite E. now split. }
  assert (HM : forall k, In k (matsubaras 1e-10 1 (trunc (20 / (1 * 1)))) -> 0 < k).
  { intros k [<-|Hin]; [lra|]. apply in_map_iff in Hin. destruct Hin as [i [<- Hi]]. apply in_seq in Hi. rewrite Rmult_1_r. apply lt_0_INR. lia. }
  do 2 eexists. split; [apply (C55_free_energy quad1 pec_pec 1 1 false I); [lra|lra|intros k Hk; now apply HI, HM]|].
  split; [apply (C55_free_energy quad1 pec_pec 1 1 true I); [lra|lra|intros k Hk; now apply HI, HM]|]. unfold primed_sum.
  assert (B := proj2 (HI 1e-10 ltac:(lra))). intros E. lra.
Qed.
